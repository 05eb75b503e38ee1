(** Generic matrix-vector products, matrices that are views, cross products. *)
From Coq Require Import Ring.
From Verif Require Import Base M_Perm M_IdxMap M_Slice M_Loops M_Assign M_Expr M_Transform M_Blas S_Layout S_Assign S_Blas L_Perm L_IdxMap L_Layout L_Loops L_Assign L_Transform L_Factory L_Blas L_Blas2 L_Blas3 L_Blas4 L_Blas5 P_Slice.

(** ** views of rank 2 that BLAS can use *)
Lemma list2 {T} (l : list T) : length l = 2%nat -> exists x y, l = [x; y].
Proof. destruct l as [|x [|y [|z l]]]; intros H; try discriminate H. eauto. Qed.
Lemma view_blas_matrix n off (m : idx_map) base r c s0 s1 : view_of (fun _ => True) n off m -> im_len m = [r; c] -> im_str m = [s0; s1] -> 1 <= r -> 1 <= c ->
  min_stride m = 1 -> 0 < s0 -> 0 < s1 -> int_range r -> int_range c -> int_range s0 -> int_range s1 -> blas_matrix (View m base) r c.
Proof.
  intros Hv El Es Hr Hc Hm H0 H1 Ir Ic I0 I1. pose proof (view_wf _ _ _ _ Hv) as W.
  destruct (C10_views_separated n off m Hv) as [Sp _]; [rewrite El; repeat constructor; auto|].
  pose proof W as (_ & Hp & _). unfold rank in Hp. rewrite El in Hp. cbn [length] in Hp.
  assert (Ho : im_so m = [0; 1]%nat \/ im_so m = [1; 0]%nat) by (apply order2_cases; exact Hp).
  split; [lia|]. split; [lia|]. split; [auto|]. split; [auto|].
  unfold separated in Sp. rewrite El, Es in Sp. unfold min_stride, rank in Hm. rewrite El, Es in Hm.
  destruct Ho as [Ho|Ho]; rewrite Ho in Sp, Hm.
  - specialize (Sp 0%nat ltac:(cbn; lia)). cbn -[Z.mul Z.add Z.abs] in Sp, Hm. subst s1. exists s0. split; [auto|]. left. repeat split; auto. unfold nthZ in Sp. cbn [nth] in Sp. lia.
  - specialize (Sp 0%nat ltac:(cbn; lia)). cbn -[Z.mul Z.add Z.abs] in Sp, Hm. subst s0. exists s1. split; [auto|]. right. repeat split; auto. unfold nthZ in Sp. cbn [nth] in Sp. lia.
Qed.

Section More.
Context {V : Type} (A : arith V) (cj : V -> V) (R : is_ring A).
Declare Scope vs. Local Notation "x + y" := (v_add A x y) : vs. Local Notation "x * y" := (v_mul A x y) : vs.
Delimit Scope vs with vs.
Let Rth : ring_theory (v_zero A) (v_one A) (v_add A) (v_mul A) (v_sub A) (v_opp A) eq := R.
Add Ring VR7 : Rth.

(** ** conj where it is not allowed *)
Lemma get_op_none_F v r k : blas_matrix v r k -> im_so (v_lay v) = [1; 0]%nat -> get_op true (has_C_layout v) = None.
Proof. intros H E. unfold get_op, has_C_layout, is_stride_order_C, rank. rewrite (blas_len _ _ _ H), E. reflexivity. Qed.
Lemma gemm_conj_none checks alpha (x y : mat) beta (c : view) (m : mem V) r k n : blas_matrix (m_view x) r k -> blas_matrix (m_view y) k n -> blas_matrix c r n ->
  ~ (conj_allowed x c /\ conj_allowed y c) -> gemm A cj checks alpha x y beta c m = BCompile.
Proof.
  intros Hx Hy Hc Hn. rewrite gemm_as_fortran by (exists r, k, n; auto).
  assert (Hd : (m_conj x = true /\ same_order (m_view x) c) \/ (m_conj y = true /\ same_order (m_view y) c)).
  { unfold conj_allowed, same_order in *. destruct (list_eq_dec Nat.eq_dec (im_so (v_lay (m_view x))) (im_so (v_lay c))), (list_eq_dec Nat.eq_dec (im_so (v_lay (m_view y))) (im_so (v_lay c))), (m_conj x), (m_conj y); try tauto; exfalso; apply Hn; split; intros; congruence. }
  assert (HC : has_C_layout c = true /\ im_so (v_lay c) = [0; 1]%nat \/ has_C_layout c = false /\ im_so (v_lay c) = [1; 0]%nat).
  { unfold has_C_layout, is_stride_order_C, rank. rewrite (blas_len _ _ _ Hc). destruct (blas_order _ _ _ Hc) as [->| ->]; [left|right]; split; reflexivity. }
  destruct HC as [[-> O]|[-> O]]; unfold tr, gemm_fortran, transpose_mat; cbn [m_view m_conj]; destruct Hd as [[E S]|[E S]]; unfold same_order in S; rewrite E.
  - rewrite (get_op_none_F (snd (transpose_view AlgM (m_view x))) k r); [|now apply blas_transpose|rewrite (transpose_order _ _ _ Hx), S, O; reflexivity]. now destruct (get_op _ _).
  - rewrite (get_op_none_F (snd (transpose_view AlgM (m_view y))) n k); [reflexivity|now apply blas_transpose|rewrite (transpose_order _ _ _ Hy), S, O; reflexivity].
  - rewrite (get_op_none_F (m_view x) r k) by (auto; congruence). reflexivity.
  - rewrite (get_op_none_F (m_view y) k n) by (auto; congruence). now destruct (get_op _ _).
Qed.

(** ** gemv_generic *)
Lemma elem_cell1 (c : view) n i : usable (v_lay c) -> im_len (v_lay c) = [n] -> 0 <= i < n -> elem c [i] = cell c [i].
Proof. intros (T & _) El Hi. apply elem_cell; [apply T|apply T|]. unfold rank. rewrite El. reflexivity. Qed.
Lemma one_row (ad : Z) (f : mem V -> Z -> V) k : forall m, (forall q m1 m2, 0 <= q < k -> (forall x, x <> ad -> m1 x = m2 x) -> f m1 q = f m2 q) ->
  let m' := fold_left (fun m q => mset m ad (m ad + f m q)%vs) (zseq k) m in
  m' ad = (m ad + sum_to A k (f m))%vs /\ (forall x, x <> ad -> m' x = m x).
Proof.
  destruct (Z.le_gt_cases 0 k) as [Hk|Hk].
  - rewrite <- (Z2Nat.id k Hk). induction (Z.to_nat k) as [|q IH]; intros m Hf m'.
    + subst m'. cbn. split; [unfold sum_to; cbn; ring|reflexivity].
    + subst m'. rewrite Nat2Z.inj_succ, <- Z.add_1_r, zseq_succ, fold_left_app by lia. cbn [fold_left].
      destruct (IH m) as [H1 H2]; [intros; apply Hf; auto; lia|]. set (m1 := fold_left _ _ _) in *. split.
      * rewrite mset_eq, H1. rewrite (Hf (Z.of_nat q) m1 m) by (auto; lia). unfold sum_to. replace (Z.to_nat (Z.of_nat q + 1)) with (S q) by lia. rewrite Nat2Z.id. cbn [sum_nat]. ring.
      * intros x Hx. rewrite mset_neq by auto. now apply H2.
  - intros m _. unfold zseq, sum_to. replace (Z.to_nat k) with 0%nat by lia. cbn. split; [ring|reflexivity].
Qed.
Lemma gemv_generic_spec checks fuel alpha (a : mem V -> Z -> Z -> V) (b : mem V -> Z -> V) beta (c : view) (m m1 : mem V) r k : usable (v_lay c) -> im_len (v_lay c) = [r] ->
  (forall i l m1 m2, 0 <= i < r -> 0 <= l < k -> (forall x, ~ is_cell_of c x -> m1 x = m2 x) -> a m1 i l = a m2 i l) ->
  (forall l m1 m2, 0 <= l < k -> (forall x, ~ is_cell_of c x -> m1 x = m2 x) -> b m1 l = b m2 l) ->
  assign_from_scalar fuel false (v_zero A) c (v_zero A) m = Some m1 -> holds c m1 (fun _ => v_zero A) -> unchanged_outside c m m1 ->
  exists m', gemv_generic A checks fuel alpha [r; k] a [k] b beta c m = BRet m' /\
    (forall i, 0 <= i < r -> m' (cell c [i]) = ((v_one A + beta) * (alpha * sum_to A k (fun l => a m i l * b m l)))%vs) /\ unchanged_outside c m m'.
Proof.
  intros U El Ra Rb E1 Hh Hu. unfold gemv_generic, extent. rewrite El. unfold nthZ. cbn [nth]. rewrite !Z.eqb_refl, expects_true, E1. eexists. split; [reflexivity|].
  set (row := fun (m : mem V) (i : Z) => let m := fold_left (fun m q => mset m (elem c [i]) (m (elem c [i]) + alpha * a m i q * b m q)%vs) (zseq k) m in mset m (elem c [i]) (m (elem c [i]) + beta * m (elem c [i]))%vs).
  assert (Hr0 : 0 <= r).
  { pose proof (usable_wf _ U) as (_ & _ & _ & Hnn & _). rewrite El in Hnn. now inversion Hnn. }
  assert (Hin : forall i, 0 <= i < r -> is_cell_of c (cell c [i])) by (intros i Hi; exists [i]; split; [now apply (in_view1 c r)|reflexivity]).
  assert (Hrow : forall i (m2 : mem V), 0 <= i < r -> row m2 i (cell c [i]) = ((v_one A + beta) * (m2 (cell c [i]) + alpha * sum_to A k (fun q => a m2 i q * b m2 q)))%vs /\ (forall x, x <> cell c [i] -> row m2 i x = m2 x)).
  { intros i m2 Hi. unfold row. cbv zeta. rewrite (elem_cell1 c r) by auto.
    destruct (one_row (cell c [i]) (fun m q => alpha * a m i q * b m q)%vs k m2) as [H1 H2].
    - intros q ma mb Hq H. rewrite (Ra i q ma mb), (Rb q ma mb); auto; intros x Hx; apply H; intros ->; now apply Hx, Hin.
    - cbv zeta in H1, H2. split; [|intros x Hx; rewrite mset_neq by auto; now apply H2]. rewrite mset_eq, H1. rewrite <- sum_to_scale by auto.
      rewrite (sum_to_ext A k (fun q => alpha * a m2 i q * b m2 q)%vs (fun l => alpha * (a m2 i l * b m2 l))%vs) by (intros; ring). ring. }
  assert (G : forall p, (Z.of_nat p <= r)%Z -> let m' := fold_left row (zseq (Z.of_nat p)) m1 in
    (forall i, 0 <= i < Z.of_nat p -> m' (cell c [i]) = ((v_one A + beta) * (alpha * sum_to A k (fun l => a m i l * b m l)))%vs) /\
    (forall i, Z.of_nat p <= i < r -> m' (cell c [i]) = v_zero A) /\ unchanged_outside c m m').
  { induction p as [|p IH]; intros Hp m'.
    - subst m'. cbn. split; [intros; lia|]. split; [|exact Hu]. intros i Hi. rewrite (Hh [i]); [reflexivity|now apply (in_view1 c r)].
    - subst m'. rewrite Nat2Z.inj_succ, <- Z.add_1_r, zseq_succ, fold_left_app by lia. cbn [fold_left]. destruct (IH ltac:(lia)) as (H1 & H2 & H3). set (m2 := fold_left row _ m1) in *.
      destruct (Hrow (Z.of_nat p) m2 ltac:(lia)) as [W1 W2].
      assert (Ne : forall i, 0 <= i < r -> i <> Z.of_nat p -> cell c [i] <> cell c [Z.of_nat p]).
      { intros i Hi Hn E. apply cell_inj in E; [|auto|now apply (in_view1 c r)|apply (in_view1 c r); auto; lia]. congruence. }
      split; [|split].
      + intros i Hi. destruct (Z.eq_dec i (Z.of_nat p)) as [->|Hn].
        * rewrite W1, (H2 (Z.of_nat p)) by lia. replace (sum_to A k (fun q => a m2 (Z.of_nat p) q * b m2 q)%vs) with (sum_to A k (fun q => a m (Z.of_nat p) q * b m q)%vs); [ring|].
          apply sum_to_ext. intros q Hq. rewrite (Ra (Z.of_nat p) q m m2), (Rb q m m2); auto; try lia; intros x Hx; symmetry; now apply H3.
        * rewrite W2 by (apply Ne; lia). apply H1. lia.
      + intros i Hi. rewrite W2 by (apply Ne; lia). apply H2. lia.
      + intros x Hx. rewrite W2; [now apply H3|]. intros ->. apply Hx, Hin. lia. }
  destruct (G (Z.to_nat r)) as (G1 & _ & G3); [lia|]. rewrite Z2Nat.id in G1, G3 by auto. split; [exact G1|exact G3].
Qed.

(** ** cross products *)
Lemma cross_cell base i : 0 <= i < 3 -> cell (c_array base [3]) [i] = (base + i)%Z.
Proof. intros H. rewrite c_new_cell by (repeat constructor; lia). cbn. lia. Qed.
Lemma cross_product_spec checks base (a b : Z -> V) (m : mem V) :
  exists m', cross_product A checks base [3] a [3] b m = BRet (c_array base [3], m') /\
    m' base = v_sub A (a 1 * b 2)%vs (a 2 * b 1)%vs /\ m' (base + 1)%Z = v_sub A (a 2 * b 0)%vs (a 0 * b 2)%vs /\ m' (base + 2)%Z = v_sub A (a 0 * b 1)%vs (a 1 * b 0)%vs /\
    (forall x, ~ block base 3 x -> m' x = m x).
Proof.
  unfold cross_product, nthZ. cbn [nth]. rewrite !Z.eqb_refl, expects_true. eexists. split; [reflexivity|].
  assert (U : usable (v_lay (c_array base [3]))) by (apply new_usable1; lia).
  rewrite !(elem_cell1 _ 3) by (auto; lia). rewrite !cross_cell by lia. rewrite Z.add_0_r.
  split; [|split; [|split]].
  - rewrite !mset_neq by lia. rewrite mset_eq. ring.
  - rewrite mset_neq by lia. rewrite mset_eq. ring.
  - rewrite mset_eq. ring.
  - intros x Hx. unfold block in Hx. rewrite !mset_neq by lia. reflexivity.
Qed.
End More.
