(** Lemmas on index loops and iterators. *)
From Coq Require Import Sorted.
From Verif Require Import Base M_Perm L_Perm M_IdxMap M_Slice M_Loops S_Layout S_Loops L_IdxMap.

(** ** enumeration of all index tuples *)
Lemma zseq_length n : length (zseq n) = Z.to_nat n.
Proof. unfold zseq. now rewrite map_length, seq_length. Qed.
Lemma zseq_In n i : In i (zseq n) <-> 0 <= i < n.
Proof.
  unfold zseq. rewrite in_map_iff. split.
  - intros [k [<- Hk]]. apply in_seq in Hk. lia.
  - intros H. exists (Z.to_nat i). rewrite in_seq. split; lia.
Qed.
Lemma nth_zseq n k d : (k < Z.to_nat n)%nat -> nth k (zseq n) d = Z.of_nat k.
Proof. intros H. unfold zseq. now rewrite (nth_map_seq Z.of_nat). Qed.
Lemma zseq_nil n : n <= 0 -> zseq n = [].
Proof. intros H. unfold zseq. replace (Z.to_nat n) with 0%nat by lia. reflexivity. Qed.
Lemma zseq_succ n : 0 <= n -> zseq (n + 1) = zseq n ++ [n].
Proof.
  intros H. unfold zseq. rewrite Z2Nat.inj_add by lia. rewrite seq_app, map_app. cbn [Z.to_nat]. simpl. f_equal. f_equal. lia.
Qed.
Lemma zseq_add a b : 0 <= a -> 0 <= b -> zseq (a + b) = zseq a ++ map (Z.add a) (zseq b).
Proof.
  intros Ha Hb. unfold zseq. rewrite Z2Nat.inj_add by lia. rewrite seq_app, map_app. f_equal.
  rewrite map_map. cbn [Nat.add]. rewrite <- (Nat.add_0_r (Z.to_nat a)) at 1.
  generalize 0%nat as c. generalize (Z.to_nat b) as n. intros n. induction n as [|n IH]; intros c; cbn [seq map]; auto.
  f_equal; [lia|]. rewrite <- IH. f_equal. f_equal. lia.
Qed.
Lemma zseq_mul l P : 0 <= l -> 0 <= P -> zseq (l * P) = flat_map (fun i => map (fun j => i * P + j) (zseq P)) (zseq l).
Proof.
  intros Hl HP. rewrite <- (Z2Nat.id l Hl). induction (Z.to_nat l) as [|n IH]; [reflexivity|].
  rewrite Nat2Z.inj_succ. unfold Z.succ. rewrite zseq_succ by lia. rewrite flat_map_app. rewrite <- IH.
  rewrite Z.mul_add_distr_r, Z.mul_1_l, zseq_add by nia. f_equal. cbn [flat_map]. now rewrite app_nil_r.
Qed.

Fixpoint all_idx (shape : list Z) : list (list Z) :=
  match shape with [] => [[]] | l :: shape' => flat_map (fun i => map (cons i) (all_idx shape')) (zseq l) end.

Lemma for_each_levels_fold {S} shape (f : list Z -> S -> S) s :
  for_each_levels shape f s = fold_left (fun s x => f x s) (all_idx shape) s.
Proof.
  revert f s; induction shape as [|l shape IH]; intros f s; [reflexivity|]. cbn [for_each_levels all_idx].
  revert s; induction (zseq l) as [|i is IHi]; intros s; [reflexivity|]. cbn [fold_left flat_map].
  rewrite fold_left_app, IHi. f_equal. rewrite IH. generalize (all_idx shape) as L. intros L. revert s.
  induction L as [|x L IHL]; intros s; cbn [fold_left map]; auto.
Qed.

Lemma all_idx_In shape idx : In idx (all_idx shape) <-> in_range idx shape.
Proof.
  revert idx; induction shape as [|l shape IH]; intros idx; cbn [all_idx].
  - split; [intros [<-|[]]; constructor|]. intros H; inversion H. now left.
  - rewrite in_flat_map. split.
    + intros [i [Hi Hin]]. apply in_map_iff in Hin. destruct Hin as [x [<- Hx]]. constructor; [now apply zseq_In|now apply IH].
    + intros H. inversion H as [|i l' x shape' Hi Hx]; subst. exists i. split; [now apply zseq_In|]. apply in_map. now apply IH.
Qed.

Lemma StronglySorted_app {A} (R : A -> A -> Prop) a b : StronglySorted R a -> StronglySorted R b ->
  (forall x y, In x a -> In y b -> R x y) -> StronglySorted R (a ++ b).
Proof.
  intros Ha Hb H. induction Ha as [|x a Ha IH HF]; cbn [app]; auto. constructor.
  - apply IH. intros; apply H; auto. now right.
  - apply Forall_app. split; auto. apply Forall_forall. intros y Hy. apply H; auto. now left.
Qed.

Lemma all_idx_sorted shape : StronglySorted lex_lt (all_idx shape).
Proof.
  induction shape as [|l shape IH]; cbn [all_idx]; [constructor; [constructor|constructor]|].
  unfold zseq. generalize (Z.to_nat l) as n. intros n. generalize 0%nat as c. induction n as [|n IHn]; intros c; [constructor|].
  cbn [seq map flat_map]. apply StronglySorted_app; auto.
  - clear - IH. induction IH as [|x L HS IHL HF]; cbn [map]; constructor; auto.
    apply Forall_forall. intros y Hy. apply in_map_iff in Hy. destruct Hy as [z [<- Hz]]. rewrite Forall_forall in HF.
    cbn [lex_lt]. right. split; auto.
  - intros x y Hx Hy. apply in_map_iff in Hx. destruct Hx as [x' [<- _]].
    apply in_flat_map in Hy. destruct Hy as [i [Hi Hy]]. apply in_map_iff in Hy. destruct Hy as [y' [<- _]].
    apply in_map_iff in Hi. destruct Hi as [k [<- Hk]]. apply in_seq in Hk. cbn [lex_lt]. left. lia.
Qed.

Lemma lex_lt_irrefl a : ~ lex_lt a a.
Proof. induction a as [|x a IH]; simpl; [tauto|]. intros [H|[_ H]]; [lia|tauto]. Qed.

Lemma sorted_NoDup L : StronglySorted lex_lt L -> NoDup L.
Proof.
  induction 1 as [|x L HS IH HF]; constructor; auto. intros C. rewrite Forall_forall in HF. exact (lex_lt_irrefl _ (HF x C)).
Qed.
Lemma all_idx_NoDup shape : NoDup (all_idx shape).
Proof. apply sorted_NoDup, all_idx_sorted. Qed.

Lemma all_idx_digits shape : Forall (fun l => 0 <= l) shape -> all_idx shape = map (digits shape) (zseq (prodZ shape)).
Proof.
  induction 1 as [|l shape Hl H IH]; [reflexivity|]. cbn [all_idx]. rewrite prodZ_cons, zseq_mul by (auto using prodZ_nonneg).
  rewrite IH. generalize (zseq l) as is. induction is as [|i is IHi]; [reflexivity|]. cbn [flat_map]. rewrite map_app, <- IHi. f_equal.
  rewrite !map_map. apply map_ext_in. intros j Hj. apply zseq_In in Hj. cbn [digits].
  rewrite Z.add_comm, Z.div_add, Z.div_small, Z.mod_add, Z.mod_small by lia. reflexivity.
Qed.

Lemma all_idx_length shape : Forall (fun l => 0 <= l) shape -> Z.of_nat (length (all_idx shape)) = prodZ shape.
Proof. intros H. rewrite all_idx_digits by auto. rewrite map_length, zseq_length. apply Z2Nat.id. now apply prodZ_nonneg. Qed.

Lemma lists_all shape : lists_all_indices shape (all_idx shape).
Proof. split; [intros; apply all_idx_In|apply all_idx_sorted]. Qed.

Lemma record_fold L acc : fold_left (fun s x => record_visit x s) L acc = acc ++ L.
Proof.
  revert acc; induction L as [|x L IH]; intros acc; cbn [fold_left]; [now rewrite app_nil_r|].
  rewrite IH. unfold record_visit. now rewrite <- app_assoc.
Qed.

Lemma for_each_fold {S} shape (f : list Z -> S -> S) s :
  for_each shape f s = fold_left (fun s x => f x s) (all_idx shape) s.
Proof.
  unfold for_each, for_each_static. rewrite for_each_levels_fold. f_equal. f_equal.
  etransitivity; [|apply (map_seq_nth shape 0)]. apply map_ext. intros i. reflexivity.
Qed.

Lemma for_each_static_fold {S} se_code so_code so se shape (f : list Z -> S -> S) s :
  (so_code = 0 -> so = identity (length shape)) -> (so_code <> 0 -> decode (length shape) so_code = map Z.of_nat so) ->
  decode (length shape) se_code = se -> length se = length shape ->
  is_perm (length shape) so ->
  (forall k, (k < length shape)%nat -> nthZ se k = 0 \/ nthZ se k = nthZ shape k) ->
  for_each_static se_code so_code shape f s = fold_left (fun s x => f x s) (all_idx (in_order 0 so shape)) s.
Proof.
  intros H0 H1 Hse Lse Hp Hst. unfold for_each_static. rewrite for_each_levels_fold. f_equal. f_equal.
  unfold in_order. pose proof (is_perm_length _ _ Hp) as Lso.
  transitivity (map (fun i => nthZ shape (nthN so i)) (seq 0 (length shape))).
  - apply map_ext_in. intros i Hi. apply in_seq in Hi.
    assert (E : index_from_stride_order (length shape) so_code i = nthN so i).
    { unfold index_from_stride_order. destruct (Z.eqb_spec so_code 0) as [E|E].
      - rewrite (H0 E). now rewrite nth_identity by lia.
      - rewrite (H1 E). unfold nthZ. rewrite (nth_map_lt Z.of_nat so i 0 0%nat) by lia. now rewrite Nat2Z.id. }
    rewrite E. unfold get_extent. destruct (Z.eqb_spec se_code 0); auto. rewrite Hse.
    assert (Hlt : (nthN so i < length shape)%nat) by (apply is_perm_lt; auto; lia).
    destruct (Hst _ Hlt) as [E'|E']; rewrite E'; [reflexivity|]. destruct (_ =? 0); reflexivity.
  - rewrite <- Lso. rewrite <- (map_map (nthN so) (nthZ shape)). f_equal. apply (map_seq_nth so 0%nat).
Qed.

(** ** grid iterators *)
Fixpoint grid_state (lens strs : list Z) (n : Z) : grid_it :=
  match lens, strs with
  | l :: lens', s :: strs' =>
      match lens' with
      | [] => G1 s n (n * s)
      | _ => let P := prodZ lens' in
             GS s (n / P) ((n / P) * s) (grid_make lens' strs' false) (grid_make lens' strs' true) (grid_state lens' strs' (n mod P))
      end
  | _, _ => G1 0 0 0
  end.

Lemma grid_begin lens strs : length lens = length strs -> Forall (fun l => 0 < l) (tl lens) ->
  grid_make lens strs false = grid_state lens strs 0.
Proof.
  revert strs; induction lens as [|l lens IH]; intros [|s strs] L H; try discriminate; [reflexivity|].
  cbn [grid_make grid_state tl] in *. destruct lens as [|l2 lens]; [reflexivity|].
  assert (HP : 0 < prodZ (l2 :: lens)) by now apply prodZ_pos.
  rewrite Z.div_0_l, Z.mod_0_l by lia. f_equal. apply IH; [simpl in L |- *; lia|]. inversion H; auto.
Qed.

Lemma grid_end lens strs : length lens = length strs -> Forall (fun l => 0 < l) (tl lens) ->
  grid_make lens strs true = grid_state lens strs (prodZ lens).
Proof.
  destruct lens as [|l lens], strs as [|s strs]; intros L H; try discriminate; [reflexivity|].
  cbn [grid_make grid_state tl] in *. destruct lens as [|l2 lens]; [now rewrite prodZ_cons, prodZ_nil, Z.mul_1_r|].
  assert (HP : 0 < prodZ (l2 :: lens)) by now apply prodZ_pos.
  rewrite (prodZ_cons l), Z.div_mul, Z.mod_mul by lia. f_equal. apply grid_begin; [simpl in L |- *; lia|]. inversion H; auto.
Qed.

Lemma grid_eqb_state lens strs n k : length lens = length strs -> lens <> [] -> Forall (fun l => 0 < l) (tl lens) -> 0 <= n -> 0 <= k ->
  grid_eqb (grid_state lens strs n) (grid_state lens strs k) = (n =? k).
Proof.
  revert strs n k; induction lens as [|l lens IH]; intros [|s strs] n k L Hne H Hn Hk; try discriminate; try congruence.
  cbn [grid_state tl] in *. destruct lens as [|l2 lens]; [cbn [grid_eqb]; apply Z.eqb_sym|].
  assert (HP : 0 < prodZ (l2 :: lens)) by now apply prodZ_pos. set (P := prodZ (l2 :: lens)) in *. cbn [grid_eqb]. fold P.
  pose proof (Z.mod_pos_bound n P HP). pose proof (Z.mod_pos_bound k P HP).
  rewrite IH; try lia; try discriminate; [|simpl in L |- *; lia|inversion H; auto].
  pose proof (Z.div_mod n P ltac:(lia)). pose proof (Z.div_mod k P ltac:(lia)).
  destruct (Z.eqb_spec n k) as [->|Hnk]; [now rewrite !Z.eqb_refl|].
  destruct (Z.eqb_spec (k / P) (n / P)) as [E1|]; auto. destruct (Z.eqb_spec (n mod P) (k mod P)) as [E2|]; auto. exfalso. apply Hnk.
  rewrite E1, <- E2 in *. lia.
Qed.

Lemma grid_incr_state lens strs n : length lens = length strs -> lens <> [] -> Forall (fun l => 0 < l) (tl lens) -> 0 <= n ->
  grid_incr (grid_state lens strs n) = grid_state lens strs (n + 1).
Proof.
  revert strs n; induction lens as [|l lens IH]; intros [|s strs] n L Hne H Hn; try discriminate; try congruence.
  cbn [grid_state tl] in *. destruct lens as [|l2 lens]; [cbn [grid_incr]; f_equal; ring|].
  assert (HP : 0 < prodZ (l2 :: lens)) by now apply prodZ_pos. 
  assert (H2 : Forall (fun l => 0 < l) (tl (l2 :: lens))) by (inversion H; auto).
  assert (L2 : length (l2 :: lens) = length strs) by (simpl in L |- *; lia).
  assert (Hne2 : l2 :: lens <> []) by discriminate.
  set (lens2 := l2 :: lens) in *. set (P := prodZ lens2) in *. cbn [grid_incr].
  pose proof (Z.mod_pos_bound n P HP) as B. rewrite IH by (auto; lia).
  rewrite (grid_end lens2 strs L2 H2) at 1. fold P. rewrite grid_eqb_state by (auto; lia).
  pose proof (Z.div_mod n P ltac:(lia)) as DM.
  destruct (Z.eqb_spec (n mod P + 1) P) as [E|E].
  - assert (E1 : n + 1 = (n / P + 1) * P) by nia. rewrite E1. rewrite Z.div_mul, Z.mod_mul by lia.
    rewrite <- (grid_begin lens2 strs L2 H2). f_equal. ring.
  - assert (E1 : n + 1 = (n mod P + 1) + (n / P) * P) by nia. 
    assert (Q : (n + 1) / P = n / P) by (rewrite E1, Z.div_add by lia; rewrite Z.div_small; lia).
    assert (Q' : (n + 1) mod P = n mod P + 1) by (rewrite E1 at 1; rewrite Z.mod_add by lia; rewrite Z.mod_small; lia).
    rewrite Q, Q'. reflexivity.
Qed.

Lemma grid_deref_state lens strs n : length lens = length strs -> lens <> [] -> Forall (fun l => 0 < l) (tl lens) ->
  grid_deref (grid_state lens strs n) = dot (digits lens n) strs.
Proof.
  revert strs n; induction lens as [|l lens IH]; intros [|s strs] n L Hne H; try discriminate; try congruence.
  cbn [grid_state tl] in *. destruct lens as [|l2 lens].
  - destruct strs; [|discriminate]. cbn [grid_deref digits dot]. rewrite prodZ_nil, Z.div_1_r. ring.
  - cbn [grid_deref]. rewrite IH; [reflexivity|simpl in *; lia|discriminate|inversion H; auto].
Qed.

Lemma grid_indices_state lens strs n : length lens = length strs -> lens <> [] -> Forall (fun l => 0 < l) (tl lens) ->
  grid_indices (grid_state lens strs n) = digits lens n.
Proof.
  revert strs n; induction lens as [|l lens IH]; intros [|s strs] n L Hne H; try discriminate; try congruence.
  cbn [grid_state tl] in *. destruct lens as [|l2 lens].
  - destruct strs; [|discriminate]. cbn [grid_indices digits]. rewrite prodZ_nil, Z.div_1_r. reflexivity.
  - cbn [grid_indices]. rewrite IH; [reflexivity|simpl in *; lia|discriminate|inversion H; auto].
Qed.

Lemma iterate_state lens strs n fuel : length lens = length strs -> lens <> [] -> Forall (fun l => 0 < l) (tl lens) -> 0 <= n <= prodZ lens ->
  (Z.to_nat (prodZ lens - n) <= fuel)%nat ->
  iterate fuel (grid_state lens strs n) (grid_state lens strs (prodZ lens)) =
  Some (map (fun k => dot (digits lens (n + k)) strs) (zseq (prodZ lens - n))).
Proof.
  intros L Hne H. revert n; induction fuel as [|fuel IH]; intros n Hn Hf; cbn [iterate]; rewrite grid_eqb_state by (auto; lia).
  - destruct (Z.eqb_spec n (prodZ lens)) as [->|E]; [|lia]. rewrite Z.sub_diag. reflexivity.
  - destruct (Z.eqb_spec n (prodZ lens)) as [->|E]; [rewrite Z.sub_diag; reflexivity|].
    rewrite grid_incr_state by (auto; lia). rewrite IH by lia. rewrite grid_deref_state by auto. f_equal.
    assert (EZ : zseq (prodZ lens - n) = zseq 1 ++ map (Z.add 1) (zseq (prodZ lens - (n + 1)))) by (rewrite <- zseq_add by lia; f_equal; ring).
    rewrite EZ.
    change (zseq 1) with [0]. cbn [app map]. rewrite Z.add_0_r. f_equal. rewrite map_map. apply map_ext. intros k. do 2 f_equal. ring.
Qed.

Lemma iterate_grid lens strs : length lens = length strs -> lens <> [] -> (nthZ lens 0 = 0 \/ Forall (fun l => 0 < l) (tl lens)) -> Forall (fun l => 0 <= l) lens ->
  iterate (Z.to_nat (prodZ lens)) (grid_make lens strs false) (grid_make lens strs true) =
  Some (map (fun k => dot (digits lens k) strs) (zseq (prodZ lens))).
Proof.
  intros L Hne H Hnn. destruct H as [H|H].
  - destruct lens as [|l lens], strs as [|s strs]; try discriminate; try congruence. unfold nthZ in H; cbn [nth] in H. subst l.
    rewrite prodZ_cons, Z.mul_0_l. assert (R : forall g, grid_eqb g g = true).
    { induction g as [a b c|a b c gb IHb ge IHe gi IHi]; cbn [grid_eqb]; rewrite Z.eqb_refl; auto. }
    replace (iterate _ _ _) with (@Some (list Z) []); [reflexivity|]. cbn [grid_make Z.to_nat]. destruct lens; cbn [iterate grid_eqb]; rewrite Z.eqb_refl; [reflexivity|].
    now rewrite R.
  - rewrite grid_begin, grid_end by auto. rewrite iterate_state; auto.
    + rewrite Z.sub_0_r. reflexivity.
    + split; [lia|]. now apply prodZ_nonneg.
    + rewrite Z.sub_0_r. lia.
Qed.

(** a zero extent behind a non-zero slowest extent: never ends *)
Fixpoint incr_n (k : nat) (g : grid_it) : grid_it := match k with O => g | S k => grid_incr (incr_n k g) end.

Lemma grid_eqb_refl g : grid_eqb g g = true.
Proof. induction g as [a b c|a b c gb IHb ge IHe gi IHi]; cbn [grid_eqb]; rewrite Z.eqb_refl; auto. Qed.

Lemma incr_n_state lens strs k : length lens = length strs -> lens <> [] -> Forall (fun l => 0 < l) (tl lens) ->
  incr_n k (grid_state lens strs 0) = grid_state lens strs (Z.of_nat k).
Proof.
  intros L Hne H. induction k as [|k IH]; [reflexivity|]. cbn [incr_n]. rewrite IH, grid_incr_state by (auto; lia). f_equal. lia.
Qed.

Lemma grid_stuck lens strs k : length lens = length strs -> Forall (fun l => 0 <= l) lens -> In 0 lens -> (0 < k)%nat ->
  grid_eqb (incr_n k (grid_make lens strs false)) (grid_make lens strs false) = false /\
  grid_eqb (incr_n k (grid_make lens strs false)) (grid_make lens strs true) = false.
Proof.
  revert strs k; induction lens as [|l lens IH]; intros [|s strs] k L Hnn H0 Hk; try discriminate; [contradiction|].
  destruct (in_dec Z.eq_dec 0 lens) as [Hin|Hin].
  - destruct lens as [|l2 lens]; [contradiction|].
    assert (L2 : length (l2 :: lens) = length strs) by (simpl in *; lia). inversion Hnn as [|l' lens' Hl Hnn']; subst.
    assert (G : forall j, incr_n j (grid_make (l :: l2 :: lens) (s :: strs) false) =
      GS s 0 (0 * s) (grid_make (l2 :: lens) strs false) (grid_make (l2 :: lens) strs true) (incr_n j (grid_make (l2 :: lens) strs false))).
    { induction j as [|j IHj]; [reflexivity|]. cbn [incr_n]. rewrite IHj. cbn [grid_incr].
      pose proof (IH strs (S j) L2 Hnn' Hin ltac:(lia)) as [_ E]. cbn [incr_n] in E. rewrite E. reflexivity. }
    rewrite G. destruct (IH strs k L2 Hnn' Hin Hk) as [E1 E2].
    set (lens2 := l2 :: lens) in *.
    change (grid_make (l :: lens2) (s :: strs) false) with (GS s 0 (0 * s) (grid_make lens2 strs false) (grid_make lens2 strs true) (grid_make lens2 strs false)).
    change (grid_make (l :: lens2) (s :: strs) true) with (GS s l (l * s) (grid_make lens2 strs false) (grid_make lens2 strs true) (grid_make lens2 strs false)).
    cbn [grid_eqb]. rewrite E1. now rewrite !andb_false_r.
  - destruct H0 as [->|H0]; [|contradiction].
    assert (HP : Forall (fun l => 0 < l) (tl (0 :: lens))).
    { inversion Hnn as [|l' lens' Hl Hnn']; subst. cbn [tl]. apply Forall_forall. intros x Hx. rewrite Forall_forall in Hnn'.
      specialize (Hnn' x Hx). assert (x <> 0) by congruence. lia. }
    assert (Hne : 0 :: lens <> []) by discriminate.
    rewrite grid_begin, grid_end by auto. rewrite incr_n_state by auto. rewrite prodZ_cons, Z.mul_0_l.
    rewrite !grid_eqb_state by (auto; lia). split; lia.
Qed.

Lemma iterate_stuck lens strs fuel : length lens = length strs -> Forall (fun l => 0 <= l) lens -> In 0 (tl lens) -> 0 < nthZ lens 0 ->
  iterate fuel (grid_make lens strs false) (grid_make lens strs true) = None.
Proof.
  intros L Hnn Hin Hl. 
  assert (G : forall fuel k, iterate fuel (incr_n k (grid_make lens strs false)) (grid_make lens strs true) = None).
  { assert (E : forall k, grid_eqb (incr_n k (grid_make lens strs false)) (grid_make lens strs true) = false).
    { intros [|k].
      - destruct lens as [|l lens], strs as [|s strs]; try discriminate; try contradiction. unfold nthZ in Hl; cbn [nth tl] in *.
        destruct lens as [|l2 lens]; [contradiction|]. cbn [incr_n grid_make grid_eqb]. replace (l =? 0) with false by (symmetry; lia). reflexivity.
      - apply grid_stuck; auto; [|lia]. destruct lens; [contradiction|]. now right. }
    induction fuel0 as [|f IH]; intros k; cbn [iterate]; rewrite E; [reflexivity|].
    change (grid_incr (incr_n k (grid_make lens strs false))) with (incr_n (S k) (grid_make lens strs false)). now rewrite IH. }
  exact (G fuel 0%nat).
Qed.

(** ** iteration over an array *)
Definition order_list (m : idx_map) : list (list Z) :=
  map (fun k => apply_inverse 0 (im_so m) (digits (apply 0 (im_so m) (im_len m)) k)) (zseq (prodZ (im_len m))).

Lemma order_list_spec m : wf m -> lists_in_stride_order m (order_list m).
Proof.
  intros (Ls & Hp & Lse & Hnn & HR). pose proof (is_perm_length _ _ Hp) as Lso. unfold order_list. split.
  - rewrite map_length, zseq_length. apply Z2Nat.id. now apply prodZ_nonneg.
  - intros k Hk. rewrite map_length, zseq_length in Hk.
    rewrite (nth_map_lt (fun k => apply_inverse 0 (im_so m) (digits (apply 0 (im_so m) (im_len m)) k)) _ k [] 0) by now rewrite zseq_length.
    rewrite nth_zseq by auto.
    assert (EP : prodZ (apply 0 (im_so m) (im_len m)) = prodZ (im_len m)) by (apply prodZ_perm; now apply (apply_Permutation 0 (length (im_len m)))).
    assert (Hpos : Forall (fun l => 0 < l) (im_len m)) by (apply prodZ_pos_Forall; auto; lia).
    assert (Hpos' : Forall (fun l => 0 < l) (apply 0 (im_so m) (im_len m))) by (apply (Forall_apply _ (length (im_len m))); auto).
    set (j := digits (apply 0 (im_so m) (im_len m)) (Z.of_nat k)).
    assert (Hj : in_range j (apply 0 (im_so m) (im_len m))) by (apply digits_in_range; auto; lia).
    assert (Lj : length j = length (im_len m)) by (unfold j; rewrite digits_length, apply_length; lia).
    assert (Ea : apply 0 (im_so m) (apply_inverse 0 (im_so m) j) = j) by (apply (apply_apply_inverse 0 (length (im_len m))); auto).
    split.
    + apply (in_range_apply_iff (length (im_len m)) (im_so m)); auto; [now rewrite apply_inverse_length|]. now rewrite Ea.
    + unfold seq_number. rewrite !in_order_apply, Ea. apply radix_digits; auto. lia.
Qed.

Lemma order_list_addr m : wf m -> map (addr m) (order_list m) =
  map (fun k => dot (digits (apply 0 (im_so m) (im_len m)) k) (apply 0 (im_so m) (im_str m))) (zseq (prodZ (im_len m))).
Proof.
  intros (Ls & Hp & Lse & Hnn & HR). pose proof (is_perm_length _ _ Hp) as Lso. unfold order_list. rewrite map_map. apply map_ext. intros k. unfold addr.
  set (j := digits (apply 0 (im_so m) (im_len m)) k).
  assert (Lj : length j = length (im_len m)) by (unfold j; rewrite digits_length, apply_length; lia).
  rewrite <- (dot_apply (length (im_len m)) (im_so m)); auto.
  - now rewrite (apply_apply_inverse 0 (length (im_len m))).
  - now rewrite apply_inverse_length.
Qed.

Lemma stride_order_C_identity m : wf m -> is_stride_order_C m = true -> im_so m = identity (rank m).
Proof. intros W. unfold is_stride_order_C. destruct (list_eq_dec _ _ _); congruence. Qed.

Lemma apply_identity (l : list Z) : apply 0 (identity (length l)) l = l.
Proof.
  unfold apply, identity. rewrite seq_length. etransitivity; [|apply (map_seq_nth l 0)]. apply map_ext_in. intros i Hi. apply in_seq in Hi.
  unfold nthN. now rewrite seq_nth by lia.
Qed.

Lemma array_iteration m : wf m -> flags_true m ->
  has_strided_1d (im_prop m) = true \/ nthZ (im_len m) (nthN (im_so m) 0) = 0 \/
    (forall k, (0 < k < rank m)%nat -> 0 < nthZ (im_len m) (nthN (im_so m) k)) ->
  iterate (Z.to_nat (size m)) (make_iterator m false) (make_iterator m true) = Some (map (addr m) (order_list m)).
Proof.
  intros W [Hf _] Hz. pose proof W as (Ls & Hp & Lse & Hnn & HR). pose proof (is_perm_length _ _ Hp) as Lso.
  rewrite size_prodZ. unfold make_iterator.
  assert (EP : prodZ (apply 0 (im_so m) (im_len m)) = prodZ (im_len m)) by (apply prodZ_perm; now apply (apply_Permutation 0 (length (im_len m)))).
  assert (Hne : apply 0 (im_so m) (im_len m) <> []).
  { intros C. apply (f_equal (@length Z)) in C. rewrite apply_length in C. simpl in C. lia. }
  assert (Hnn' : Forall (fun l => 0 <= l) (apply 0 (im_so m) (im_len m))) by (apply (Forall_apply _ (length (im_len m))); auto).
  assert (G : Nat.eqb (if has_strided_1d (im_prop m) then 1%nat else rank m) (rank m) = true ->
    iterate (Z.to_nat (prodZ (im_len m))) (grid_make (apply 0 (im_so m) (im_len m)) (apply 0 (im_so m) (im_str m)) false)
      (grid_make (apply 0 (im_so m) (im_len m)) (apply 0 (im_so m) (im_str m)) true) = Some (map (addr m) (order_list m))).
  { intros ER. rewrite order_list_addr by auto. rewrite <- EP. apply iterate_grid; auto; [now rewrite !apply_length|].
    destruct (Nat.eq_dec (rank m) 1) as [R1|R1].
    - right. unfold rank in R1. destruct (im_so m) as [|a [|b l]]; try (simpl in Lso; lia). constructor.
    - destruct (has_strided_1d (im_prop m)); [apply Nat.eqb_eq in ER; lia|]. destruct Hz as [Hz|[Hz|Hz]]; [discriminate| |].
      + left. rewrite apply_skipn_nth by lia. exact Hz.
      + right. pose proof (apply_length 0 (im_so m) (im_len m)) as La. unfold rank in *.
        assert (N : forall k, (k < length (im_so m))%nat -> nthZ (apply 0 (im_so m) (im_len m)) k = nthZ (im_len m) (nthN (im_so m) k)) by (intros; now apply apply_skipn_nth).
        destruct (apply 0 (im_so m) (im_len m)) as [|x l]; [congruence|]. cbn [tl]. apply Forall_forall. intros y Hy.
        destruct (In_nth l y 0 Hy) as [k [Hk <-]]. simpl in La. specialize (N (S k) ltac:(lia)). unfold nthZ at 1 in N. cbn [nth] in N. rewrite N.
        apply Hz. lia. }
  destruct (Nat.eqb _ _) eqn:ER.
  - destruct (is_stride_order_C m) eqn:EC; [|now apply G].
    pose proof (stride_order_C_identity m W EC) as Eso. specialize (G eq_refl). rewrite Eso in G at 1 2 3 4. unfold rank in G.
    rewrite apply_identity in G. rewrite <- Ls in G. rewrite apply_identity in G. exact G.
  - destruct (has_strided_1d (im_prop m)) eqn:ES; [|rewrite Nat.eqb_refl in ER; discriminate].
    specialize (Hf eq_refl).
    pose proof (iterate_grid [prodZ (im_len m)] [min_stride m] eq_refl ltac:(discriminate) (or_intror (Forall_nil _))
      (Forall_cons _ (prodZ_nonneg _ Hnn) (Forall_nil _))) as I1.
    rewrite prodZ_cons, prodZ_nil, Z.mul_1_r in I1. rewrite size_prodZ. etransitivity; [exact I1|]. f_equal. rewrite order_list_addr by auto. apply map_ext_in. intros k Hk. apply zseq_In in Hk.
    cbn [digits dot]. rewrite prodZ_nil, Z.div_1_r.
    apply regular_apply in Hf. rewrite Hf. rewrite dot_map_mul.
    rewrite dot_suffix_prods by now rewrite digits_length.
    rewrite radix_digits; [ring| |lia].
    apply (Forall_apply _ (length (im_len m))); auto. apply prodZ_pos_Forall; auto. lia.
Qed.

Lemma array_iteration_stuck m : wf m -> has_strided_1d (im_prop m) = false -> 0 < nthZ (im_len m) (nthN (im_so m) 0) -> size m = 0 ->
  forall fuel, iterate fuel (make_iterator m false) (make_iterator m true) = None.
Proof.
  intros W Hf H0 Hs fuel. pose proof W as (Ls & Hp & Lse & Hnn & HR). pose proof (is_perm_length _ _ Hp) as Lso.
  rewrite size_prodZ in Hs. apply prodZ_zero in Hs. unfold make_iterator. rewrite Hf, Nat.eqb_refl.
  assert (G : iterate fuel (grid_make (apply 0 (im_so m) (im_len m)) (apply 0 (im_so m) (im_str m)) false)
      (grid_make (apply 0 (im_so m) (im_len m)) (apply 0 (im_so m) (im_str m)) true) = None).
  { apply iterate_stuck.
    - now rewrite !apply_length.
    - apply (Forall_apply _ (length (im_len m))); auto.
    - assert (I : In 0 (apply 0 (im_so m) (im_len m))) by (apply (Permutation_in _ (Permutation_sym (apply_Permutation 0 (length (im_len m)) (im_so m) (im_len m) Hp eq_refl))); auto).
      assert (N : nthZ (apply 0 (im_so m) (im_len m)) 0 = nthZ (im_len m) (nthN (im_so m) 0)) by (apply apply_skipn_nth; lia).
      destruct (apply 0 (im_so m) (im_len m)) as [|x l]; [contradiction|]. unfold nthZ at 1 in N; cbn [nth] in N. destruct I as [->|I]; [lia|exact I].
    - rewrite apply_skipn_nth by lia. exact H0. }
  destruct (is_stride_order_C m) eqn:EC; [|exact G].
  pose proof (stride_order_C_identity m W EC) as Eso. rewrite Eso in G. unfold rank in G.
  rewrite apply_identity in G. rewrite <- Ls in G. rewrite apply_identity in G. exact G.
Qed.

(** rank one arithmetic *)
Lemma grid1_add_incr g n : (forall a b c x y z, g <> GS a b c x y z) -> grid1_add g (Z.of_nat n) = incr_n n g.
Proof.
  intros H. destruct g as [s p o|a b c x y z]; [|exfalso; eapply H; eauto]. clear H.
  induction n as [|n IH]; [cbn; f_equal; ring|]. cbn [incr_n]. rewrite <- IH. cbn [grid1_add grid_incr]. f_equal; lia.
Qed.

Lemma run_moves s p o l : o = p * s ->
  fold_left grid1_move l (G1 s p o) = G1 s (p + displacement l) ((p + displacement l) * s).
Proof.
  revert p o; induction l as [|mv l IH]; intros p o E; unfold displacement in *; cbn [fold_left map].
  - change (sumZ []) with 0. rewrite Z.add_0_r. now f_equal.
  - rewrite sumZ_cons. destruct mv as [| |n|n]; cbn [grid1_move grid_incr grid1_decr grid1_add]; rewrite IH by (subst; cbn [move_by]; ring); cbn [move_by];
      f_equal; ring.
Qed.

Lemma walked_1d_begin m : wf m -> walked_in_1d m -> exists s n,
  make_iterator m false = G1 s 0 0 /\ make_iterator m true = G1 s n (n * s) /\ n = size m /\ s = min_stride m.
Proof.
  intros W Hw. pose proof W as (Ls & Hp & Lse & Hnn & HR). pose proof (is_perm_length _ _ Hp) as Lso. unfold make_iterator.
  destruct (Nat.eqb_spec (if has_strided_1d (im_prop m) then 1%nat else rank m) (rank m)) as [E|E].
  - assert (R : rank m = 1%nat) by (destruct Hw as [Hw|Hw]; auto; rewrite Hw in E; auto). unfold rank in *.
    rewrite size_prodZ. rewrite min_stride_apply by auto. unfold rank. rewrite R. cbn [Nat.sub].
    rewrite R in Hp. apply Permutation_sym in Hp. cbn [seq] in Hp. apply Permutation_length_1_inv in Hp. 
    destruct (im_len m) as [|l [|l2 len]]; try discriminate R. destruct (im_str m) as [|s [|s2 str]]; try discriminate Ls.
    exists s, l. rewrite Hp. unfold apply. cbn. rewrite Z.mul_1_r. repeat split; destruct (is_stride_order_C m); reflexivity.
  - exists (min_stride m), (size m). repeat split.
Qed.

Lemma lex_lt_asym a b : lex_lt a b -> lex_lt b a -> False.
Proof. revert b; induction a as [|x a IH]; intros [|y b]; simpl; try tauto. intros [H|[-> H]] [H'|[E H']]; try lia; eauto. Qed.

Lemma sorted_unique L L' : StronglySorted lex_lt L -> StronglySorted lex_lt L' -> (forall x, In x L <-> In x L') -> L = L'.
Proof.
  intros H. revert L'. induction H as [|x L HS IH HF]; intros L' H' E.
  - destruct L' as [|y L']; auto. destruct (proj2 (E y)). now left.
  - destruct H' as [|y L' HS' HF']; [destruct (proj1 (E x)); now left|]. rewrite Forall_forall in HF, HF'.
    assert (x = y) as <-.
    { destruct (proj1 (E x) (or_introl eq_refl)) as [->|Hx]; auto. destruct (proj2 (E y) (or_introl eq_refl)) as [->|Hy]; auto.
      exfalso. exact (lex_lt_asym _ _ (HF y Hy) (HF' x Hx)). }
    f_equal. apply IH; auto. intros z. split; intros Hz.
    + destruct (proj1 (E z) (or_intror Hz)) as [->|]; auto. destruct (lex_lt_irrefl _ (HF _ Hz)).
    + destruct (proj2 (E z) (or_intror Hz)) as [->|]; auto. destruct (lex_lt_irrefl _ (HF' _ Hz)).
Qed.
Lemma lists_all_unique shape L L' : lists_all_indices shape L -> lists_all_indices shape L' -> L = L'.
Proof. intros [H1 H2] [H3 H4]. apply sorted_unique; auto. intros x. now rewrite H1, H3. Qed.

Lemma encode_gives_decode a c : Forall (fun x => 0 <= x < 16) a -> (length a <= 8)%nat -> encode a = Some c -> decode (length a) c = a.
Proof. intros H HL E. destruct (encode_decode a H HL) as [w [Ew Dw]]. congruence. Qed.

Lemma order_small n so : is_perm n so -> (n <= 16)%nat -> Forall (fun x => 0 <= x < 16) (map Z.of_nat so).
Proof.
  intros H Hn. apply Forall_forall. intros x Hx. apply in_map_iff in Hx. destruct Hx as [k [<- Hk]]. apply (is_perm_In n so k H) in Hk. lia.
Qed.

Lemma encode_zero_identity n so : is_perm n so -> (n <= 8)%nat -> encode (map Z.of_nat so) = Some 0 -> so = identity n.
Proof.
  intros H Hn E. pose proof (is_perm_length _ _ H) as L. apply encode_gives_decode in E; [|eapply order_small; eauto; lia|rewrite map_length; lia].
  rewrite map_length, L in E. destruct n as [|[|n]].
  - destruct so; [reflexivity|discriminate].
  - cbn [seq] in H. apply Permutation_sym, Permutation_length_1_inv in H. now subst.
  - exfalso. assert (D : forall k, (k < S (S n))%nat -> nthN so k = 0%nat).
    { intros k Hk. apply (f_equal (fun l => nth k l 0)) in E. unfold decode in E. rewrite nth_map_seq in E by auto.
      rewrite Z.shiftr_0_l, Z.land_0_l in E. rewrite (nth_map_lt Z.of_nat so k 0 0%nat) in E by lia. unfold nthN. lia. }
    assert (C : 0%nat = 1%nat) by (apply (is_perm_inj (S (S n)) so); auto; try lia; rewrite !D; lia). discriminate.
Qed.

Lemma order_list_In m : wf m -> forall idx, In idx (order_list m) <-> valid_idx m idx.
Proof.
  intros W idx. destruct (order_list_spec m W) as [HL HN]. split.
  - intros H. apply (In_nth _ _ []) in H. destruct H as [k [Hk <-]]. now apply HN.
  - intros Hi. pose proof W as (Ls & Hp & Lse & Hnn & HR). pose proof (is_perm_length _ _ Hp) as Lso. unfold order_list.
    assert (Hi' : in_range (apply 0 (im_so m) idx) (apply 0 (im_so m) (im_len m))) by (apply (in_range_apply (length (im_len m))); auto).
    pose proof (radix_bound _ _ Hi') as B.
    assert (EP : prodZ (apply 0 (im_so m) (im_len m)) = prodZ (im_len m)) by (apply prodZ_perm; now apply (apply_Permutation 0 (length (im_len m)))).
    apply in_map_iff. exists (radix (apply 0 (im_so m) (im_len m)) (apply 0 (im_so m) idx)). split.
    + rewrite digits_radix by auto. apply (apply_inverse_apply 0 (length (im_len m))); auto. now rewrite (in_range_length _ _ Hi).
    + apply zseq_In. lia.
Qed.
Lemma order_list_numbers m : wf m -> map (fun idx => seq_number (im_so m) (im_len m) idx) (order_list m) = zseq (size m).
Proof.
  intros W. destruct (order_list_spec m W) as [HL HN]. rewrite size_prodZ. apply nth_ext_len with (d := 0); rewrite map_length.
  - rewrite zseq_length. lia.
  - intros k Hk. rewrite (nth_map_lt _ (order_list m) k 0 []) by auto. rewrite nth_zseq by lia. now apply HN.
Qed.
Lemma order_list_NoDup m : wf m -> NoDup (order_list m).
Proof.
  intros W. apply (NoDup_map_inv (fun idx => seq_number (im_so m) (im_len m) idx)). rewrite order_list_numbers by auto.
  unfold zseq. apply FinFun.Injective_map_NoDup; [intros a b; lia|apply seq_NoDup].
Qed.
Lemma harmless_cases m : wf m -> zero_extents_harmless m ->
  has_strided_1d (im_prop m) = true \/ nthZ (im_len m) (nthN (im_so m) 0) = 0 \/
    (forall k, (0 < k < rank m)%nat -> 0 < nthZ (im_len m) (nthN (im_so m) k)).
Proof.
  intros W H. pose proof W as (Ls & Hp & Lse & Hnn & HR). pose proof (is_perm_length _ _ Hp) as Lso.
  destruct H as [[H|H]|[H|H]]; auto.
  - right; right. intros k Hk. lia.
  - right; left. rewrite in_order_apply in H. rewrite apply_skipn_nth in H by lia. exact H.
  - right; right. intros k Hk. specialize (H k Hk). rewrite in_order_apply, apply_skipn_nth in H by (unfold rank in *; lia). exact H.
Qed.
Lemma harmful_cases m : wf m -> ~ zero_extents_harmless m ->
  has_strided_1d (im_prop m) = false /\ 0 < nthZ (im_len m) (nthN (im_so m) 0) /\ size m = 0.
Proof.
  intros W H. pose proof W as (Ls & Hp & Lse & Hnn & HR). pose proof (is_perm_length _ _ Hp) as Lso.
  assert (B : forall k, 0 <= nthZ (im_len m) k).
  { intros k. destruct (Nat.lt_ge_cases k (length (im_len m))); [|unfold nthZ; now rewrite nth_overflow].
    rewrite Forall_forall in Hnn. apply Hnn. now apply nth_In. }
  split; [|split].
  - destruct (has_strided_1d (im_prop m)) eqn:E; auto. exfalso. apply H. left. now left.
  - assert (N : nthZ (im_len m) (nthN (im_so m) 0) <> 0).
    { intros C. apply H. right; left. rewrite in_order_apply, apply_skipn_nth by lia. exact C. }
    specialize (B (nthN (im_so m) 0%nat)). lia.
  - rewrite size_prodZ. apply prodZ_zero. destruct (in_dec Z.eq_dec 0 (im_len m)) as [|N]; auto. exfalso. apply H. right; right.
    intros k Hk. rewrite in_order_apply, apply_skipn_nth by (unfold rank in *; lia).
    assert (N0 : nthZ (im_len m) (nthN (im_so m) k) <> 0).
    { intros C. apply N. rewrite <- C. apply nth_In. apply is_perm_lt; auto. unfold rank in Hk; lia. }
    specialize (B (nthN (im_so m) k)). lia.
Qed.
