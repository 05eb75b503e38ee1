(** Lemmas for reductions. *)
From Verif Require Import Base M_Perm M_IdxMap M_Loops M_Assign M_Expr M_Transform M_Mpi S_Layout S_Assign S_Mpi L_Perm L_IdxMap L_Layout L_Loops L_Assign L_Transform L_SymGrp L_Mpi.

Section Tot.
Context {V : Type}.
Variable op : V -> V -> V.
Hypothesis Hop : assoc_comm op.
Definition tot (l : list V) : option V := match l with [] => None | x :: l' => Some (fold_left op l' x) end.
Lemma fold_pull l : forall x y, fold_left op l (op x y) = op x (fold_left op l y).
Proof using Hop. induction l as [|z l IH]; intros x y; cbn [fold_left]; [reflexivity|]. destruct Hop as [A _]. rewrite <- A. apply IH. Qed.
Lemma tot_cons x l : tot (x :: l) = Some (match tot l with None => x | Some v => op x v end).
Proof using Hop. unfold tot. destruct l as [|y l]; cbn [fold_left]; [reflexivity|]. now rewrite fold_pull. Qed.
Lemma tot_perm l l' : Permutation l l' -> tot l = tot l'.
Proof using Hop.
  induction 1 as [|x l l' H IH|x y l|l l' l'' H1 IH1 H2 IH2]; [reflexivity| | |congruence].
  - now rewrite !tot_cons, IH.
  - rewrite !tot_cons. destruct Hop as [A C]. destruct (tot l) as [v|]; f_equal; [|apply C]. rewrite !A. f_equal. apply C.
Qed.
Lemma tot_app l1 : forall l2 v1 v2, tot l1 = Some v1 -> tot l2 = Some v2 -> tot (l1 ++ l2) = Some (op v1 v2).
Proof using Hop.
  induction l1 as [|x l1 IH]; intros l2 v1 v2 H1 H2; [discriminate|]. rewrite tot_cons in H1. injection H1 as <-.
  change ((x :: l1) ++ l2) with (x :: (l1 ++ l2)). rewrite tot_cons. destruct (tot l1) as [w|] eqn:E.
  - rewrite (IH l2 w v2 eq_refl H2). destruct Hop as [A _]. now rewrite A.
  - destruct l1 as [|y l1]; [|discriminate]. cbn [app]. now rewrite H2.
Qed.
Lemma reduces_total l v : reduces op l v -> total op l v.
Proof using Hop.
  intros H. assert (T : tot l = Some v).
  { induction H as [x|l1 l2 l v1 v2 H1 IH1 H2 IH2 P]; [reflexivity|]. rewrite <- (tot_perm _ _ P). now apply tot_app. }
  destruct l as [|x l]; [discriminate|]. cbn [tot] in T. injection T as <-. reflexivity.
Qed.
End Tot.

Lemma reduced_spec {V} (red : nat -> Z -> list V -> V) ps r n (m : mem V) d a :
  reduced red ps r n m d a = if (d <=? a) && (a <? d + n) then red r (a - d) (map (fun p => p_mem p (v_base (p_rhs p) + (a - d))) ps) else m a.
Proof.
  unfold reduced. destruct (Z.lt_ge_cases n 0) as [Hn|Hn].
  { replace (zseq n) with (@nil Z). 2:{ symmetry. apply zseq_nil. lia. } cbn [fold_left]. destruct (Z.leb_spec d a), (Z.ltb_spec a (d + n)); cbn [andb]; auto. lia. }
  revert n Hn. apply natlike_ind.
  - rewrite zseq_nil by lia. cbn [fold_left]. destruct (Z.leb_spec d a), (Z.ltb_spec a (d + 0)); cbn [andb]; auto. lia.
  - intros n Hn IH. replace (Z.succ n) with (n + 1) by lia. rewrite zseq_succ by lia. rewrite fold_left_app. cbn [fold_left].
    destruct (Z.eq_dec a (d + n)) as [->|N].
    + rewrite mset_eq. assert ((d <=? d + n) && (d + n <? d + (n + 1)) = true) as ->. { apply andb_true_iff. rewrite Z.leb_le, Z.ltb_lt. lia. }
      replace (d + n - d) with n by ring. reflexivity.
    + rewrite mset_neq by auto. rewrite IH. destruct (Z.leb_spec d a), (Z.ltb_spec a (d + n)), (Z.ltb_spec a (d + (n + 1))); cbn [andb]; auto; lia.
Qed.

Lemma which_block l : Forall (fun x => 0 <= x) l -> forall k, 0 <= k < sumZ l -> exists r x i, nth_error l r = Some x /\ 0 <= i < x /\ k = before l r + i.
Proof.
  induction 1 as [|x l Hx H IH]; intros k Hk; [cbv [sumZ fold_right] in Hk; lia|]. rewrite sumZ_cons in Hk.
  destruct (Z.lt_ge_cases k x) as [Hl|Hg].
  - exists 0%nat, x, k. split; [reflexivity|]. split; [lia|]. unfold before. cbn [firstn]. cbv [sumZ fold_right]. lia.
  - destruct (IH (k - x) ltac:(lia)) as (r & y & i & E & Hi & Ek). exists (S r), y, i. split; [exact E|]. split; [exact Hi|].
    unfold before in *. cbn [firstn]. rewrite sumZ_cons. lia.
Qed.
