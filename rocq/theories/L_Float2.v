(** The generic products without any law of arithmetic: which operations, in which order. *)
From Verif Require Import Base M_Perm M_IdxMap M_Slice M_Loops M_Assign M_Expr M_Transform M_Blas M_Info S_Layout S_Loops S_Assign S_Expr S_Transform S_Blas
  L_Perm L_IdxMap L_Slice L_Layout L_Loops L_Assign L_Expr L_Transform L_Factory L_Blas L_Blas2 L_Blas3 L_Blas6 P_Info.

Section Plain.
Context {V : Type} (A : arith V).
Declare Scope vs. Local Notation "x + y" := (v_add A x y) : vs. Local Notation "x * y" := (v_mul A x y) : vs.
Delimit Scope vs with vs.

Lemma acc_loop_ext k f g z : (forall l, 0 <= l < k -> f l = g l) -> acc_loop A k f z = acc_loop A k g z.
Proof.
  intros H. unfold acc_loop. assert (G : forall L s, (forall l, In l L -> f l = g l) -> fold_left (fun s i => (s + f i)%vs) L s = fold_left (fun s i => (s + g i)%vs) L s).
  { induction L as [|l L IH]; intros s HL; cbn [fold_left]; [reflexivity|]. rewrite (HL l) by now left. apply IH. intros q Hq. apply HL. now right. }
  apply G. intros l Hl. apply H. now apply zseq_In.
Qed.
Lemma gemm_generic_plain checks fuel alpha (a b : mem V -> Z -> Z -> V) beta (c : view) (m m1 : mem V) r k n : usable (v_lay c) -> im_len (v_lay c) = [r; n] ->
  (forall i l m1 m2, 0 <= i < r -> 0 <= l < k -> (forall x, ~ is_cell_of c x -> m1 x = m2 x) -> a m1 i l = a m2 i l) ->
  (forall l j m1 m2, 0 <= l < k -> 0 <= j < n -> (forall x, ~ is_cell_of c x -> m1 x = m2 x) -> b m1 l j = b m2 l j) ->
  assign_from_scalar fuel true (v_zero A) c (v_zero A) m = Some m1 -> holds c m1 (fun _ => v_zero A) -> unchanged_outside c m m1 ->
  exists m', gemm_generic A checks fuel alpha [r; k] a [k; n] b beta true c m = BRet m' /\
    (forall i j, 0 <= i < r -> 0 <= j < n -> m' (cell c [i; j]) = (acc_loop A k (fun l => alpha * a m i l * b m l j) (v_zero A) + beta * v_zero A)%vs) /\ unchanged_outside c m m'.
Proof.
  intros U El Ra Rb E1 Hh Hu. unfold gemm_generic, extent. rewrite El. unfold nthZ. cbn [nth]. rewrite !Z.eqb_refl, expects_true, E1. eexists. split; [reflexivity|].
  destruct (write_rect (fun j i => elem c [i; j]) n r (fun m j i => (acc_loop A k (fun l => alpha * a m i l * b m l j) (v_zero A) + beta * m (elem c [i; j]))%vs) m1) as [W1 W2].
  - intros j i j' i' Hj Hi Hj' Hi' E. rewrite !(elem_cell2 c r n) in E by auto. apply cell_inj in E; [|auto|now apply (in_view2 c r n)|now apply (in_view2 c r n)]. injection E as -> ->. auto.
  - intros j i ma mb Hj Hi H. rewrite (H (elem c [i; j])) by now left. f_equal. apply acc_loop_ext. intros l Hl.
    assert (Ho : forall x, ~ is_cell_of c x -> ma x = mb x).
    { intros x Hx. apply H. right. intros j' i' Hj' Hi' ->. apply Hx. rewrite (elem_cell2 c r n) by auto. now apply (matrix_is_cell c r n). }
    now rewrite (Ra i l ma mb), (Rb l j ma mb).
  - split.
    + intros i j Hi Hj. rewrite <- (elem_cell2 c r n) by auto. rewrite (W1 j i) by auto. rewrite (elem_cell2 c r n) by auto. rewrite (Hh [i; j]) by now apply (in_view2 c r n).
      f_equal. apply acc_loop_ext. intros l Hl. now rewrite (Ra i l m1 m), (Rb l j m1 m) by auto.
    + intros x Hx. rewrite W2; [now apply Hu|]. intros j i Hj Hi ->. apply Hx. rewrite (elem_cell2 c r n) by auto. now apply (matrix_is_cell c r n).
Qed.

Lemma one_row_plain (ad : Z) (f : mem V -> Z -> V) k : forall m, (forall q m1 m2, 0 <= q < k -> (forall x, x <> ad -> m1 x = m2 x) -> f m1 q = f m2 q) ->
  let m' := fold_left (fun m q => mset m ad (m ad + f m q)%vs) (zseq k) m in
  m' ad = acc_loop A k (f m) (m ad) /\ (forall x, x <> ad -> m' x = m x).
Proof.
  intros m Hf. unfold acc_loop.
  assert (G : forall L (m2 : mem V), (forall q, In q L -> 0 <= q < k) -> (forall x, x <> ad -> m2 x = m x) ->
    fold_left (fun m q => mset m ad (m ad + f m q)%vs) L m2 ad = fold_left (fun s i => (s + f m i)%vs) L (m2 ad) /\ (forall x, x <> ad -> fold_left (fun m q => mset m ad (m ad + f m q)%vs) L m2 x = m x)).
  { induction L as [|q L IH]; intros m2 HL Hm; cbn [fold_left]; [split; auto|].
    destruct (IH (mset m2 ad (m2 ad + f m2 q)%vs)) as [H1 H2].
    - intros p Hq. apply HL. now right.
    - intros x Hx. rewrite mset_neq by auto. auto.
    - split; [|exact H2]. rewrite H1, mset_eq. rewrite (Hf q m2 m); [reflexivity|apply HL; now left|exact Hm]. }
  apply G; [intros q Hq; now apply zseq_In|reflexivity].
Qed.
Lemma gemv_generic_plain checks fuel alpha (a : mem V -> Z -> Z -> V) (b : mem V -> Z -> V) beta (c : view) (m m1 : mem V) r k : usable (v_lay c) -> im_len (v_lay c) = [r] ->
  (forall i l m1 m2, 0 <= i < r -> 0 <= l < k -> (forall x, ~ is_cell_of c x -> m1 x = m2 x) -> a m1 i l = a m2 i l) ->
  (forall l m1 m2, 0 <= l < k -> (forall x, ~ is_cell_of c x -> m1 x = m2 x) -> b m1 l = b m2 l) ->
  assign_from_scalar fuel false (v_zero A) c (v_zero A) m = Some m1 -> holds c m1 (fun _ => v_zero A) -> unchanged_outside c m m1 ->
  exists m', gemv_generic A checks fuel alpha [r; k] a [k] b beta c m = BRet m' /\
    (forall i, 0 <= i < r -> let s := acc_loop A k (fun l => alpha * a m i l * b m l)%vs (v_zero A) in m' (cell c [i]) = (s + beta * s)%vs) /\ unchanged_outside c m m'.
Proof.
  intros U El Ra Rb E1 Hh Hu. unfold gemv_generic, extent. rewrite El. unfold nthZ. cbn [nth]. rewrite !Z.eqb_refl, expects_true, E1. eexists. split; [reflexivity|].
  set (row := fun (m : mem V) (i : Z) => let m := fold_left (fun m q => mset m (elem c [i]) (m (elem c [i]) + alpha * a m i q * b m q)%vs) (zseq k) m in mset m (elem c [i]) (m (elem c [i]) + beta * m (elem c [i]))%vs).
  assert (Hin : forall i, 0 <= i < r -> is_cell_of c (cell c [i])) by (intros i Hi; exists [i]; split; [now apply (in_view1 c r)|reflexivity]).
  set (S := fun (m2 : mem V) i z => acc_loop A k (fun l => alpha * a m2 i l * b m2 l)%vs z).
  assert (Hrow : forall i (m2 : mem V), 0 <= i < r -> row m2 i (cell c [i]) = (S m2 i (m2 (cell c [i])) + beta * S m2 i (m2 (cell c [i])))%vs /\ (forall x, x <> cell c [i] -> row m2 i x = m2 x)).
  { intros i m2 Hi. unfold row. cbv zeta. rewrite (elem_cell1 c r) by auto.
    destruct (one_row_plain (cell c [i]) (fun m q => alpha * a m i q * b m q)%vs k m2) as [H1 H2].
    - intros q ma mb Hq H. rewrite (Ra i q ma mb), (Rb q ma mb); auto; intros x Hx; apply H; intros ->; now apply Hx, Hin.
    - cbv zeta in H1, H2. split; [|intros x Hx; rewrite mset_neq by auto; now apply H2]. rewrite mset_eq, H1. reflexivity. }
  assert (G : forall L (m2 : mem V), NoDup L -> (forall i, In i L -> 0 <= i < r) -> unchanged_outside c m m2 ->
    unchanged_outside c m (fold_left row L m2) /\ (forall i, 0 <= i < r -> ~ In i L -> fold_left row L m2 (cell c [i]) = m2 (cell c [i])) /\
    (forall i, In i L -> fold_left row L m2 (cell c [i]) = (S m i (m2 (cell c [i])) + beta * S m i (m2 (cell c [i])))%vs)).
  { induction L as [|i L IH]; intros m2 ND HL Hm; cbn [fold_left]; [split; [exact Hm|]; split; [reflexivity|intros i []]|].
    assert (Hi : 0 <= i < r) by (apply HL; now left). destruct (Hrow i m2 Hi) as [R1 R2]. inversion ND as [|? ? Ni ND']; subst.
    assert (Ho : forall x, ~ is_cell_of c x -> m2 x = m x) by exact Hm.
    destruct (IH (row m2 i) ND') as (I1 & I2 & I3).
    - intros j Hj. apply HL. now right.
    - intros x Hx. rewrite R2; [now apply Hm|]. intros ->. apply Hx. now apply Hin.
    - assert (Hne : forall j, 0 <= j < r -> j <> i -> cell c [j] <> cell c [i]).
      { intros j Hj N E. apply cell_inj in E; [congruence|auto|now apply (in_view1 c r)|now apply (in_view1 c r)]. }
      split; [exact I1|]. split.
      + intros j Hj Nj. rewrite I2; [|exact Hj|intros C; apply Nj; now right]. apply R2. apply Hne; [exact Hj|]. intros ->. apply Nj. now left.
      + assert (ES : forall j z, 0 <= j < r -> S m2 j z = S m j z).
        { intros j z Hj. unfold S. apply acc_loop_ext. intros l Hl. now rewrite (Ra j l m2 m), (Rb l m2 m) by auto. }
        intros j [<-|Hj].
        * rewrite I2 by auto. rewrite R1. now rewrite ES.
        * rewrite I3 by auto. rewrite R2; [reflexivity|]. apply Hne; [apply HL; now right|]. intros ->. contradiction. }
  destruct (G (zseq r) m1) as (G1 & G2 & G3).
  - apply zseq_NoDup.
  - intros i Hi. now apply zseq_In.
  - exact Hu.
  - split; [|exact G1]. intros i Hi. cbv zeta. fold row. rewrite G3 by now apply zseq_In. unfold S. rewrite (Hh [i]) by now apply (in_view1 c r). reflexivity.
Qed.

(** the generic dot product of two vectors in memory *)
Lemma dot_branches_plain cj star al ar (x y : view) (m : mem V) n : 1 <= n -> im_len (v_lay x) = [n] -> im_len (v_lay y) = [n] -> truthful (v_lay x) -> truthful (v_lay y) ->
  dot_branches A cj star (ELeaf al x) (ELeaf ar y) m = Some (dot_impl A cj star n (fun i => m (cell x [i])) (fun i => m (cell y [i]))).
Proof.
  intros Hn Ex Ey Tx Ty. unfold dot_branches. cbn [expr_shape is_leaf expr_at]. rewrite Ex. unfold nthZ. cbn [nth].
  assert (P : forall v al, im_len (v_lay v) = [n] -> truthful (v_lay v) -> has_smallest_stride_is_one (li_prop (get_layout_info (@ELeaf V al v))) = true -> forall i, v_base v + i = cell v [i]).
  { intros v al0 Es Te Fe i. destruct Te as [W F]. pose proof (proj2 F Fe) as M.
    unfold smallest_one_true, min_stride, rank, nthZ, nthN in M. destruct W as (L & O & _). rewrite Es in L, O, M. cbn [length] in L, O, M. apply order_one in O. rewrite O in M. cbn [nth Nat.sub] in M.
    unfold cell, addr. destruct (im_str (v_lay v)) as [|s [|? ?]]; try discriminate. cbn [nth] in M. subst s. cbn. lia. }
  match goal with |- context [if ?c then _ else _] => destruct c eqn:Ef end.
  - apply andb_prop in Ef. destruct Ef as [Fx Fy]. apply (dot_loop A cj star n (fun i => Some (m (v_base x + i))) (fun i => Some (m (v_base y + i))) (fun i => m (cell x [i])) (fun i => m (cell y [i])) Hn). intros i Hi. rewrite (P x al Ex Tx Fx), (P y ar Ey Ty Fy). split; reflexivity.
  - apply (dot_loop A cj star n (fun i => Some (m (elem x [i]))) (fun i => Some (m (elem y [i]))) (fun i => m (cell x [i])) (fun i => m (cell y [i])) Hn). intros i Hi. split; f_equal; f_equal; apply elem_cell; try (now apply Tx); try (now apply Ty); unfold rank; [rewrite Ex|rewrite Ey]; reflexivity.
Qed.
End Plain.
