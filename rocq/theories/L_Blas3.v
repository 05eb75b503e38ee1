(** Proofs about the generic product, the vector wrappers and the outer product. *)
From Coq Require Import Ring.
From Verif Require Import Base M_Perm M_IdxMap M_Slice M_Loops M_Assign M_Expr M_Transform M_Blas S_Layout S_Loops S_Assign S_Expr S_Transform S_Blas
  L_Perm L_IdxMap L_Slice L_Layout L_Loops L_Assign L_Expr L_Transform L_Factory L_Blas L_Blas2.

Lemma in_view1 v n i : im_len (v_lay v) = [n] -> in_view v [i] <-> 0 <= i < n.
Proof.
  intros E. unfold in_view, valid_idx. rewrite E. split.
  - intros H. inversion H as [|? ? ? ? H1 H2]; subst. auto.
  - intros H. repeat constructor; lia.
Qed.
Lemma in_view1_inv v n idx : im_len (v_lay v) = [n] -> in_view v idx -> exists i, idx = [i] /\ 0 <= i < n.
Proof. intros E. unfold in_view, valid_idx. rewrite E. intros H. inversion H as [|i ? ? ? H1 H2]; subst. inversion H2; subst. eauto. Qed.
Lemma cell1 v s i : im_str (v_lay v) = [s] -> cell v [i] = v_base v + i * s.
Proof. intros E. unfold cell, addr. rewrite E. cbn [dot]. lia. Qed.
Lemma vector_cell v n s i : vector_of v n s -> cell v [i] = v_base v + i * s.
Proof. intros (_ & _ & _ & _ & _ & E). now apply cell1. Qed.
Lemma vector_len v n s : vector_of v n s -> im_len (v_lay v) = [n].
Proof. intros H. apply H. Qed.
Lemma vector_min_stride v n s : vector_of v n s -> min_stride (v_lay v) = s.
Proof. intros (_ & _ & _ & E1 & E2 & E3). unfold min_stride, rank. rewrite E1, E2, E3. reflexivity. Qed.
Lemma f77_elem_pos p n inc i : 0 < inc -> f77_elem p n inc i = p + i * inc.
Proof. intros H. unfold f77_elem, f77_start. destruct (Z.ltb_spec 0 inc); lia. Qed.
Lemma vector_is_cell v n s i : vector_of v n s -> 0 <= i < n -> is_cell_of v (cell v [i]).
Proof. intros H Hi. exists [i]. split; [now apply (in_view1 v n), Hi; apply H|reflexivity]. Qed.
Lemma matrix_is_cell v r c i j : im_len (v_lay v) = [r; c] -> 0 <= i < r -> 0 <= j < c -> is_cell_of v (cell v [i; j]).
Proof. intros H Hi Hj. exists [i; j]. split; [now apply (in_view2 v r c)|reflexivity]. Qed.

Lemma write_line {V} (ad : Z -> Z) M (val : mem V -> Z -> V) (m : mem V) :
  (forall i i', 0 <= i < M -> 0 <= i' < M -> ad i = ad i' -> i = i') ->
  (forall i m1 m2, 0 <= i < M -> (forall a, a = ad i \/ (forall i', 0 <= i' < M -> a <> ad i') -> m1 a = m2 a) -> val m1 i = val m2 i) ->
  let m' := fold_left (fun m i => mset m (ad i) (val m i)) (zseq M) m in
  (forall i, 0 <= i < M -> m' (ad i) = val m i) /\ (forall a, (forall i, 0 <= i < M -> a <> ad i) -> m' a = m a).
Proof.
  intros HI HV m'. destruct (write_rect (fun i _ => ad i) M 1 (fun m i _ => val m i) m) as [W1 W2].
  - intros i j i' j' Hi Hj Hi' Hj' E. split; [now apply HI|lia].
  - intros i j m1 m2 Hi Hj H. apply HV; [auto|]. intros a [Ha|Ha]; apply H; [now left|]. right. intros i' j' Hi' _. auto.
  - change (zseq 1) with [0] in W1, W2. cbn [fold_left] in W1, W2. split.
    + intros i Hi. apply (W1 i 0); lia.
    + intros a Ha. apply W2. intros i j Hi _. auto.
Qed.

Section Vectors.
Context {V : Type} (A : arith V) (cj : V -> V) (R : is_ring A).
Declare Scope vs. Local Notation "x + y" := (v_add A x y) : vs. Local Notation "x * y" := (v_mul A x y) : vs.
Delimit Scope vs with vs.
Let Rth : ring_theory (v_zero A) (v_one A) (v_add A) (v_mul A) (v_sub A) (v_opp A) eq := R.
Add Ring VR4 : Rth.

(** ** gemm_generic *)
Lemma gemm_generic_spec checks fuel alpha (a b : mem V -> Z -> Z -> V) beta (c : view) (m m1 : mem V) r k n : usable (v_lay c) -> im_len (v_lay c) = [r; n] ->
  (forall i l m1 m2, 0 <= i < r -> 0 <= l < k -> (forall x, ~ is_cell_of c x -> m1 x = m2 x) -> a m1 i l = a m2 i l) ->
  (forall l j m1 m2, 0 <= l < k -> 0 <= j < n -> (forall x, ~ is_cell_of c x -> m1 x = m2 x) -> b m1 l j = b m2 l j) ->
  assign_from_scalar fuel true (v_zero A) c (v_zero A) m = Some m1 -> holds c m1 (fun _ => v_zero A) -> unchanged_outside c m m1 ->
  exists m', gemm_generic A checks fuel alpha [r; k] a [k; n] b beta true c m = BRet m' /\
    (forall i j, 0 <= i < r -> 0 <= j < n -> m' (cell c [i; j]) = (alpha * product_at A k (a m) (b m) i j)%vs) /\ unchanged_outside c m m'.
Proof.
  intros U El Ra Rb E1 Hh Hu. unfold gemm_generic, extent. rewrite El. unfold nthZ. cbn [nth]. rewrite !Z.eqb_refl, expects_true, E1. eexists. split; [reflexivity|].
  destruct (write_rect (fun j i => elem c [i; j]) n r (fun m j i => (acc_loop A k (fun l => alpha * a m i l * b m l j) (v_zero A) + beta * m (elem c [i; j]))%vs) m1) as [W1 W2].
  - intros j i j' i' Hj Hi Hj' Hi' E. rewrite !(elem_cell2 c r n) in E by auto. apply cell_inj in E; [|auto|now apply (in_view2 c r n)|now apply (in_view2 c r n)]. injection E as -> ->. auto.
  - intros j i ma mb Hj Hi H. rewrite (H (elem c [i; j])) by now left. f_equal. rewrite !acc_loop_sum by auto. f_equal. apply sum_to_ext. intros l Hl.
    assert (Ho : forall x, ~ is_cell_of c x -> ma x = mb x).
    { intros x Hx. apply H. right. intros j' i' Hj' Hi' ->. apply Hx. rewrite (elem_cell2 c r n) by auto. now apply (matrix_is_cell c r n). }
    now rewrite (Ra i l ma mb), (Rb l j ma mb).
  - split.
    + intros i j Hi Hj. rewrite <- (elem_cell2 c r n) by auto. rewrite (W1 j i) by auto. rewrite (elem_cell2 c r n) by auto. rewrite (Hh [i; j]) by now apply (in_view2 c r n).
      rewrite acc_loop_sum by auto. unfold product_at. rewrite <- sum_to_scale by auto.
      rewrite (sum_to_ext A k (fun l => alpha * a m1 i l * b m1 l j)%vs (fun l => alpha * (a m i l * b m l j))%vs).
      * ring.
      * intros l Hl. rewrite (Ra i l m1 m), (Rb l j m1 m) by auto. ring.
    + intros x Hx. rewrite W2; [now apply Hu|]. intros j i Hj Hi ->. apply Hx. rewrite (elem_cell2 c r n) by auto. now apply (matrix_is_cell c r n).
Qed.

(** ** gemv *)
Lemma f77_gemv_spec o M N alpha pa lda px incx beta py incy (m : mem V) :
  let lenx := match o with OpN => N | _ => M end in let leny := match o with OpN => M | _ => N end in
  0 <= M -> 0 <= N -> 1 <= lenx -> Z.max 1 M <= lda -> 0 < incx -> 0 < incy ->
  (forall i i' j, 0 <= i < leny -> 0 <= i' < leny -> 0 <= j < lenx -> py + i * incy <> op_addr o pa lda i' j)%Z ->
  (forall i j, 0 <= i < leny -> 0 <= j < lenx -> py + i * incy <> px + j * incx)%Z ->
  exists m', f77_gemv A cj o M N alpha pa lda px incx beta py incy m = BRet m' /\
  (forall i, 0 <= i < leny -> m' (py + i * incy)%Z =
     (alpha * sum_to A lenx (fun j => op_val cj o (m (op_addr o pa lda i j)) * m (px + j * incx)%Z) + beta * m (py + i * incy)%Z)%vs) /\
  (forall a, (forall i, 0 <= i < leny -> a <> py + i * incy)%Z -> m' a = m a).
Proof.
  intros lenx leny HM HN Hl Ha Hx Hy DA DX. unfold f77_gemv. fold lenx leny.
  destruct (Z.ltb_spec M 0); [lia|]. destruct (Z.ltb_spec N 0); [lia|]. destruct (Z.ltb_spec lda (Z.max 1 M)); [lia|].
  destruct (Z.eqb_spec incx 0); [lia|]. destruct (Z.eqb_spec incy 0); [lia|]. cbn [orb].
  destruct ((M =? 0) || (N =? 0)) eqn:E0.
  - exists m. split; [reflexivity|]. assert (leny = 0). { subst lenx leny. apply orb_true_iff in E0. destruct o; destruct E0 as [E0|E0]; apply Z.eqb_eq in E0; lia. }
    split; [intros; lia|auto].
  - eexists. split; [reflexivity|].
    destruct (write_line (fun i => f77_elem py leny incy i) leny (fun m i =>
      (alpha * acc_loop A lenx (fun j => op_at cj m o pa lda i j * m (f77_elem px lenx incx j)) (v_zero A) + beta * m (f77_elem py leny incy i))%vs) m) as [W1 W2].
    + intros i i' Hi Hi'. rewrite !f77_elem_pos by auto. intros E. nia.
    + intros i m1 m2 Hi HH. rewrite (HH (f77_elem py leny incy i)) by now left. f_equal. f_equal. rewrite !acc_loop_sum by auto. f_equal. apply sum_to_ext. intros j Hj. rewrite !op_at_addr.
      rewrite (HH (op_addr o pa lda i j)), (HH (f77_elem px lenx incx j)); [reflexivity| |]; right; intros i' Hi'; rewrite !f77_elem_pos by auto; intros E; symmetry in E; [exact (DX i' j Hi' Hj E)|exact (DA i' i j Hi' Hi Hj E)].
    + split.
      * intros i Hi. pose proof (W1 i Hi) as W. cbv beta in W. rewrite !f77_elem_pos in W by auto. rewrite W. f_equal. f_equal. rewrite acc_loop_sum by auto. rewrite (Radd_0_l Rth). apply sum_to_ext. intros j Hj.
        now rewrite op_at_addr, f77_elem_pos.
      * intros a Ha'. apply W2. intros i Hi. rewrite f77_elem_pos by auto. auto.
Qed.
Lemma gemv_spec checks alpha (x : mat) (b : view) beta (c : view) (m : mem V) r k sb sc :
  blas_matrix (m_view x) r k -> 1 <= k -> vector_of b k sb -> vector_of c r sc -> 0 < sb -> 0 < sc -> (checks = true -> sb = 1 /\ sc = 1) ->
  (m_conj x = true -> im_so (v_lay (m_view x)) = [0; 1]%nat) -> disjoint c (m_view x) -> disjoint c b ->
  exists m', gemv A cj checks alpha x b beta c m = BRet m' /\
    (forall i, 0 <= i < r -> m' (cell c [i]) = (alpha * sum_to A k (fun l => mat_at cj x m i l * m (cell b [l])) + beta * m (cell c [i]))%vs) /\ unchanged_outside c m m'.
Proof.
  intros Hx Hk Hb Hc Sb Sc Hch Cx Dx Db. unfold gemv. destruct (mat_op cj x r k Hx Cx) as (o & _ & Eo & Ao & Lo & Ec & Vo). rewrite Eo.
  pose proof (blas_len _ _ _ Hx) as Ex. pose proof (vector_len _ _ _ Hb) as Eb. pose proof (vector_len _ _ _ Hc) as Ecl.
  assert (CK : forall k : bout (mem V), expects checks ((extent (m_view x) 1 =? extent b 0) && (extent (m_view x) 0 =? extent c 0) && (min_stride (v_lay (m_view x)) =? 1) && (min_stride (v_lay b) =? 1) && (min_stride (v_lay c) =? 1)) k = k).
  { intros K. unfold extent. rewrite Ex, Eb, Ecl, (min_stride_blas _ _ _ Hx), (vector_min_stride _ _ _ Hb), (vector_min_stride _ _ _ Hc). unfold nthZ. cbn [nth]. rewrite !Z.eqb_refl. destruct checks.
    - destruct Hch as [-> ->]; [reflexivity|]. reflexivity.
    - reflexivity. }
  rewrite CK. unfold extent, stride. rewrite Ex. pose proof Hb as (_ & _ & Isb & _ & _ & Esb). pose proof Hc as (_ & _ & Isc & _ & _ & Esc). rewrite Esb, Esc, Ec. unfold nthZ. cbn [nth].
  pose proof Hx as (Hr & Hk' & Ir & Ik & _).
  destruct (f77_gemv_spec o (match o with OpN => r | _ => k end) (match o with OpN => k | _ => r end) alpha (v_base (m_view x)) (get_ld (m_view x)) (v_base b) sb beta (v_base c) sc m) as (m' & E & Hv & Hu).
  - destruct o; lia.
  - destruct o; lia.
  - destruct o; lia.
  - exact Lo.
  - exact Sb.
  - exact Sc.
  - intros i i' j Hi Hi' Hj. rewrite Ao, <- (vector_cell c r sc) by auto. intros C. apply (Dx (cell c [i])).
    + apply (vector_is_cell c r sc); auto. destruct o; auto.
    + rewrite C. apply (matrix_is_cell _ r k); auto; destruct o; auto.
  - intros i j Hi Hj. rewrite <- (vector_cell c r sc), <- (vector_cell b k sb) by auto. intros C. apply (Db (cell c [i])).
    + apply (vector_is_cell c r sc); auto. destruct o; auto.
    + rewrite C. apply (vector_is_cell _ k sb); auto; destruct o; auto.
  - exists m'. split.
    + destruct o; cbn [fst snd]; rewrite !int32_id by auto; exact E.
    + assert (Le : match o with OpN => match o with OpN => r | _ => k end | _ => match o with OpN => k | _ => r end end = r) by (destruct o; reflexivity).
      assert (Lx : match o with OpN => match o with OpN => k | _ => r end | _ => match o with OpN => r | _ => k end end = k) by (destruct o; reflexivity).
      rewrite Le, Lx in *. split.
      * intros i Hi. rewrite (vector_cell c r sc) by auto. rewrite Hv by auto. f_equal. f_equal. apply sum_to_ext. intros l Hl. rewrite Vo, Ao, (vector_cell b k sb) by auto. reflexivity.
      * intros a Ha. apply Hu. intros i Hi ->. apply Ha. rewrite <- (vector_cell c r sc) by auto. now apply (vector_is_cell c r sc).
Qed.

(** ** ger *)
Lemma ger_fortran_spec alpha (x y mv : view) (m : mem V) r n sx sy ld : vector_of x r sx -> vector_of y n sy -> 0 < sx -> 0 < sy -> int_range ld -> column_major mv r n ld ->
  disjoint mv x -> disjoint mv y ->
  exists m', ger_fortran A alpha x y mv m = BRet m' /\
    (forall i j, 0 <= i < r -> 0 <= j < n -> m' (cell mv [i; j]) = (m (cell mv [i; j]) + alpha * m (cell x [i]) * m (cell y [j]))%vs) /\ unchanged_outside mv m m'.
Proof.
  intros Hx Hy Sx Sy Il F Dx Dy. unfold ger_fortran, f77_ger. rewrite (column_major_ld _ _ _ _ Il F). unfold extent, stride.
  pose proof F as (El & _ & _ & Hl). pose proof Hx as (Hr & Ir & Isx & _ & _ & Esx). pose proof Hy as (Hn & In & Isy & _ & _ & Esy). rewrite El, Esx, Esy. unfold nthZ. cbn [nth]. rewrite !int32_id by auto.
  destruct (Z.ltb_spec r 0); [lia|]. destruct (Z.ltb_spec n 0); [lia|]. destruct (Z.eqb_spec sx 0); [lia|]. destruct (Z.eqb_spec sy 0); [lia|]. destruct (Z.ltb_spec ld (Z.max 1 r)); [lia|]. cbn [orb].
  destruct ((r =? 0) || (n =? 0)) eqn:E0.
  - exists m. split; [reflexivity|]. split; [|intros a _; reflexivity]. intros i j Hi Hj. apply orb_true_iff in E0. rewrite !Z.eqb_eq in E0. lia.
  - eexists. split; [reflexivity|].
    assert (Ac : forall i j, col_major (v_base mv) ld i j = cell mv [i; j]) by (intros i j; rewrite (column_major_cell _ _ _ _ i j F); reflexivity).
    destruct (write_rect (col_major (v_base mv) ld) r n (fun m i j => (m (col_major (v_base mv) ld i j) + m (f77_elem (v_base x) r sx i) * (alpha * m (f77_elem (v_base y) n sy j)))%vs) m) as [W1 W2].
    + intros i j i' j' Hi Hj Hi' Hj' E. eapply (col_major_inj (v_base mv) ld r); eauto; lia.
    + intros i j m1 m2 Hi Hj HH. rewrite (HH (col_major (v_base mv) ld i j)) by now left. rewrite !f77_elem_pos by auto. rewrite <- (vector_cell x r sx), <- (vector_cell y n sy) by auto.
      rewrite (HH (cell x [i])), (HH (cell y [j])); [reflexivity| |]; right; intros i' j' Hi' Hj' E; rewrite Ac in E.
      * apply (Dy (cell y [j])); [rewrite E; now apply (matrix_is_cell mv r n)|now apply (vector_is_cell y n sy)].
      * apply (Dx (cell x [i])); [rewrite E; now apply (matrix_is_cell mv r n)|now apply (vector_is_cell x r sx)].
    + split.
      * intros i j Hi Hj. rewrite <- Ac. rewrite W1 by auto. rewrite !f77_elem_pos by auto. rewrite <- (vector_cell x r sx), <- (vector_cell y n sy) by auto. ring.
      * intros a Ha. apply W2. intros i j Hi Hj ->. apply Ha. rewrite Ac. now apply (matrix_is_cell mv r n).
Qed.
Lemma ger_checks_ok x y mv r n sx sy : vector_of x r sx -> vector_of y n sy -> blas_matrix mv r n -> ger_checks x y mv = true.
Proof.
  intros Hx Hy Hm. unfold ger_checks, extent. rewrite (blas_len _ _ _ Hm), (vector_len _ _ _ Hx), (vector_len _ _ _ Hy), (min_stride_blas _ _ _ Hm). unfold nthZ. cbn [nth]. now rewrite !Z.eqb_refl.
Qed.
Lemma disjoint_transpose_l v w r c : blas_matrix v r c -> disjoint v w -> disjoint (snd (transpose_view AlgM v)) w.
Proof. intros Hv D a H1 H2. apply (D a); [now apply (transpose_is_cell v r c)|auto]. Qed.
Lemma ger_spec checks alpha (x y mv : view) (m : mem V) r n sx sy : vector_of x r sx -> vector_of y n sy -> 0 < sx -> 0 < sy -> blas_matrix mv r n ->
  disjoint mv x -> disjoint mv y ->
  exists m', ger A checks alpha x y mv m = BRet m' /\
    (forall i j, 0 <= i < r -> 0 <= j < n -> m' (cell mv [i; j]) = (m (cell mv [i; j]) + alpha * m (cell x [i]) * m (cell y [j]))%vs) /\ unchanged_outside mv m m'.
Proof.
  intros Hx Hy Sx Sy Hm Dx Dy. unfold ger. rewrite (ger_checks_ok x y mv r n sx sy) by auto. rewrite expects_true. pose proof Hm as (_ & _ & _ & _ & ld & Il & [F|F]).
  - destruct (row_major_layout _ _ _ _ F) as [-> _]. cbv zeta. rewrite (ger_checks_ok y x _ n r sy sx) by auto using blas_transpose. rewrite expects_true.
    destruct (ger_fortran_spec alpha y x (snd (transpose_view AlgM mv)) m n r sy sx ld) as (m' & E & Hv & Hu); auto.
    + now apply row_major_transpose.
    + now apply (disjoint_transpose_l mv y r n).
    + now apply (disjoint_transpose_l mv x r n).
    + exists m'. split; [exact E|]. split.
      * intros i j Hi Hj. rewrite <- (transpose_cell mv r n j i Hm). rewrite Hv by auto. ring.
      * intros a Ha. apply Hu. now rewrite (transpose_is_cell mv r n).
  - destruct (column_major_layout _ _ _ _ F) as [-> _]. now apply (ger_fortran_spec alpha x y mv m r n sx sy ld).
Qed.

(** ** dot and scal *)
Lemma blas_dot_spec checks star (x y : view) (m : mem V) n sx sy : vector_of x n sx -> vector_of y n sy -> 0 < sx -> 0 < sy ->
  blas_dot A cj checks star x y m = BRet (sum_to A n (fun i => (if star then cj (m (cell x [i])) else m (cell x [i])) * m (cell y [i]))%vs).
Proof.
  intros Hx Hy Sx Sy. unfold blas_dot, shape_eqb. rewrite (vector_len _ _ _ Hx), (vector_len _ _ _ Hy). destruct (list_eq_dec _ _ _) as [_|C]; [|congruence]. rewrite expects_true. f_equal.
  unfold f77_dot, stride. rewrite size_prodZ, (vector_len _ _ _ Hx). pose proof Hx as (Hn & In & Isx & _ & _ & Esx). pose proof Hy as (_ & _ & Isy & _ & _ & Esy). rewrite Esx, Esy. unfold nthZ, prodZ. cbn [nth fold_right].
  rewrite Z.mul_1_r, !int32_id by auto. destruct (Z.leb_spec n 0) as [H0|H0].
  - replace n with 0 by lia. reflexivity.
  - rewrite acc_loop_sum by auto. rewrite (Radd_0_l Rth). apply sum_to_ext. intros i Hi. rewrite !f77_elem_pos by auto. now rewrite (vector_cell x n sx), (vector_cell y n sy).
Qed.
Lemma zseq_shift n : 0 <= n -> zseq (n + 1) = 0 :: map (fun i => (i + 1)%Z) (zseq n).
Proof.
  intros H. unfold zseq. replace (Z.to_nat (n + 1)) with (S (Z.to_nat n)) by lia. cbn [seq map]. f_equal. rewrite <- seq_shift, !map_map. apply map_ext. intros i. lia.
Qed.
Lemma dot_impl_spec star n (x y : Z -> V) : 1 <= n -> dot_impl A cj star n x y = sum_to A n (fun i => (if star then cj (x i) else x i) * y i)%vs.
Proof.
  intros Hn. rewrite <- (Radd_0_l Rth (sum_to A n _)), <- (acc_loop_sum A R). unfold acc_loop. replace n with (n - 1 + 1)%Z at 2 by lia. rewrite zseq_shift by lia. cbn [fold_left]. rewrite (Radd_0_l Rth). reflexivity.
Qed.
Lemma scal_spec alpha (x : view) (m : mem V) n s : vector_of x n s -> 0 < s ->
  (forall i, 0 <= i < n -> scal A alpha x m (cell x [i]) = (alpha * m (cell x [i]))%vs) /\ unchanged_outside x m (scal A alpha x m).
Proof.
  intros Hx Hs. unfold scal, f77_scal, stride. rewrite size_prodZ, (vector_len _ _ _ Hx). pose proof Hx as (Hn & In & Is & _ & _ & Es). rewrite Es. unfold nthZ, prodZ. cbn [nth fold_right]. rewrite Z.mul_1_r, !int32_id by auto.
  destruct (Z.leb_spec s 0); [lia|]. rewrite orb_false_r. destruct (Z.leb_spec n 0) as [H0|H0].
  - split; [intros; lia|intros a _; reflexivity].
  - destruct (write_line (fun i => v_base x + i * s)%Z n (fun m i => (alpha * m (v_base x + i * s)%Z)%vs) m) as [W1 W2].
    + intros i i' Hi Hi' E. nia.
    + intros i m1 m2 Hi H1. now rewrite H1 by now left.
    + split.
      * intros i Hi. rewrite (vector_cell x n s) by auto. now apply W1.
      * intros a Ha. apply W2. intros i Hi ->. apply Ha. rewrite <- (vector_cell x n s) by auto. now apply (vector_is_cell x n s).
Qed.
End Vectors.
