(** C47, C51, C58: inverses, the LAPACK wrappers, eigenvalues and eigenvectors. *)
From Coq Require Import Ring Field.
From Verif Require Import Base M_Perm M_IdxMap M_Slice M_Loops M_Assign M_Expr M_Transform M_Blas M_Lapack S_Layout S_Loops S_Assign S_Blas S_Lapack
  L_Perm L_IdxMap L_Layout L_Loops L_Assign L_Transform L_Factory L_Blas L_Blas2 L_Blas3 L_Blas4 L_Lapack L_Lapack2 L_Lapack3 L_Lapack4 L_Lu P_Blas.

Section Inverses.
Context {V : Type} (A : arith V) (F : is_field A) (is0 : V -> bool) (Z0 : decides_zero A is0) (L : lapack V).

(** C47: over every field, with every library that keeps the promises of getrf and getri, inverse_in_place succeeds exactly if the matrix
    has an inverse; then the view shows it, and no other cell is changed.  Up to 3 by 3 nothing is asked of the library or of the strides. *)
Theorem C47_inverse_in_place checks v n m : 0 <= n -> im_len (v_lay v) = [n; n] -> usable (v_lay v) ->
  (n <= 3 \/ blas_matrix v n n /\ getrf_promise A L /\ getri_promise A L) ->
  exists m' ok, inverse_in_place A is0 L checks v m = BRet (m', ok) /\ (ok = true <-> exists x, inverse_of A n (entry v m) x) /\
    (ok = true -> inverse_of A n (entry v m) (entry v m')) /\ unchanged_outside v m m'.
Proof. exact (inverse_in_place_spec A F is0 Z0 L checks v n m). Qed.

(** inverse: the result is a new matrix; the argument is not changed *)
Theorem C47_inverse checks b so n (r : rhs V) m : 0 <= n -> int_range n -> is_order 2 so -> square_source r n b -> (n <= 3 \/ getrf_promise A L /\ getri_promise A L) ->
  exists c m' ok, inverse A is0 L checks b so [n; n] r m = BRet (c, m', ok) /\ c = new_array so b [n; n] /\ (ok = true <-> exists x, inverse_of A n (fun i j => rhs_value r m [i; j]) x) /\
    (ok = true -> inverse_of A n (fun i j => rhs_value r m [i; j]) (entry c m')) /\ (forall q, ~ block b (n * n) q -> m' q = m q).
Proof.
  intros Hn In Ho (H1 & H2) HL. unfold inverse. cbn [nthZ nth]. unfold nthZ. cbn [nth]. rewrite Z.eqb_refl, expects_true.
  destruct (copy_value checks so b n n r m Ho Hn Hn H1 H2) as (m1 & E & Hv & Hu). rewrite E. set (c := new_array so b [n; n]) in *.
  assert (Hb : n <= 3 \/ blas_matrix c n n /\ getrf_promise A L /\ getri_promise A L) by (destruct (Z.le_gt_cases n 3); [auto|right; split; [apply new_blas; auto; lia|destruct HL; [lia|auto]]]).
  destruct (inverse_in_place_spec A F is0 Z0 L checks c n m1 Hn (new_array_len _ _ _) (new_usable2 so b n n Ho Hn Hn) Hb) as (m2 & ok & E2 & Hok & Hi & Hu2). rewrite E2. cbn [bbind].
  assert (Ee : forall i j, 0 <= i < n -> 0 <= j < n -> entry c m1 i j = rhs_value r m [i; j]) by (intros; now apply Hv).
  exists c, m2, ok. split; [reflexivity|]. split; [reflexivity|]. split; [|split].
  - rewrite Hok. split; intros (x & Hx); exists x; revert Hx; apply inverse_ext; auto. intros; symmetry; auto.
  - intros E0. specialize (Hi E0). revert Hi. apply inverse_ext; auto.
  - intros q Hq. rewrite Hu2; [now apply Hu|]. intros C. apply Hq. now apply (new_cells2 so b n n q Ho Hn Hn).
Qed.

(** the exact inverse is unique: what is computed is the inverse *)
Theorem C47_unique n a x y : inverse_of A n a x -> inverse_of A n a y -> forall i j, 0 <= i < n -> 0 <= j < n -> x i j = y i j.
Proof. exact (inverse_unique A F n a x y). Qed.

(** an exception leaves 1 by 1 and 3 by 3 matrices as they are ... *)
Theorem C47_failure_keeps checks v n m m' : n = 1 \/ n = 3 -> im_len (v_lay v) = [n; n] -> usable (v_lay v) -> inverse_in_place A is0 L checks v m = BRet (m', false) -> forall a, m' a = m a.
Proof.
  intros Hn El U. unfold inverse_in_place. assert (Ex : extent v 0 = n /\ extent v 1 = n) by (unfold extent, nthZ; now rewrite El). destruct Ex as [E0 E1]. rewrite E0, E1, Z.eqb_refl, expects_true.
  assert (Es : size (v_lay v) = n * n) by (unfold size; rewrite El; cbn [fold_left]; now rewrite Z.mul_1_l). rewrite Es. destruct (Z.eqb_spec (n * n) 0); [nia|]. destruct Hn as [->| ->]; cbn [Z.eqb Pos.eqb].
  - destruct (inverse1_spec A F is0 Z0 v m U El) as (m1 & ok & -> & _ & _ & H & _). intros E. injection E as <- ->. auto.
  - destruct (inverse3_spec A F is0 Z0 v m U El) as (m1 & ok & -> & _ & _ & H & _). intros E. injection E as <- ->. auto.
Qed.
(** ... but not 2 by 2 matrices: the diagonal is interchanged before the determinant is checked *)
Theorem C47_failure_keeps_refuted checks : exists v m m', im_len (v_lay v) = [2; 2] /\ usable (v_lay v) /\ inverse_in_place A is0 L checks v m = BRet (m', false) /\ entry v m' 0 0 <> entry v m 0 0.
Proof. exact (inverse2_fails_changed A F is0 Z0 L checks). Qed.
End Inverses.
Print Assumptions C47_inverse_in_place.
Print Assumptions C47_inverse.
Print Assumptions C47_unique.
Print Assumptions C47_failure_keeps.
Print Assumptions C47_failure_keeps_refuted.

Section Wrappers.
Context {V : Type} (A : arith V) (L : lapack V).

(** C51: getrf factors the matrix the user has if it is stored by columns, whatever its shape and leading dimension ... *)
Theorem C51_getrf_columns checks v r c ld m : getrf_promise A L -> 0 <= r -> 0 <= c -> int_range r -> int_range c -> int_range ld -> column_major v r c ld ->
  exists m' ipiv info, getrf L checks v m = BRet (m', (ipiv, info)) /\ lu_of A r c ipiv (entry v m) (entry v m') /\ unchanged_outside v m m' /\ 0 <= info <= Z.min r c /\
    (info = 0 -> forall i, 0 <= i < Z.min r c -> entry v m' i i <> v_zero A) /\ (0 < info -> entry v m' (info - 1) (info - 1) = v_zero A).
Proof. exact (getrf_column A L checks v r c ld m). Qed.
(** ... and the transposed one if it is square and stored by rows *)
Theorem C51_getrf_rows_square checks v n ld m : getrf_promise A L -> 0 <= n -> int_range n -> int_range ld -> row_major v n n ld ->
  exists m' ipiv info, getrf L checks v m = BRet (m', (ipiv, info)) /\ lu_of A n n ipiv (transposed (entry v m)) (transposed (entry v m')) /\ unchanged_outside v m m' /\ 0 <= info <= n /\
    (info = 0 -> forall i, 0 <= i < n -> entry v m' i i <> v_zero A) /\ (0 < info -> entry v m' (info - 1) (info - 1) = v_zero A).
Proof.
  intros PF Hn In Il H. assert (HB : blas_matrix v n n) by (exact (conj Hn (conj Hn (conj In (conj In (ex_intro _ ld (conj Il (or_introl H)))))))).
  destruct (getrf_square A L checks v n m PF HB) as (m' & ipiv & info & E & Hlu & _ & Hrest). exists m', ipiv, info. split; [exact E|]. split; [|exact Hrest]. unfold sees in Hlu. destruct (row_major_layout v n n ld H) as [_ E2]. now rewrite E2 in Hlu.
Qed.

(** getrf and getrs solve a x = b: a stored either way with any leading dimension, b stored by columns *)
Theorem C51_getrs cj checks a b n k ldb m : is_field A -> getrf_promise A L -> getrs_promise A cj L -> blas_matrix a n n -> 0 <= k -> int_range k -> int_range ldb -> column_major b n k ldb -> disjoint a b ->
  exists m1 ipiv info, getrf L checks a m = BRet (m1, (ipiv, info)) /\ ((exists x, inverse_of A n (entry a m) x) -> info = 0) /\
    (info = 0 -> exists m2, getrs L checks a b ipiv m1 = BRet (m2, 0) /\ (forall i j, 0 <= i < n -> 0 <= j < k -> product_at A n (entry a m) (entry b m2) i j = entry b m i j) /\
      (forall q, ~ is_cell_of a q -> ~ is_cell_of b q -> m2 q = m q)).
Proof.
  intros F PF PS HA Hk Ik Il HB Hd. destruct (getrf_square A L checks a n m PF HA) as (m1 & ipiv & info & E & _ & Hlu & Hu & Hi & Hi0 & Hi1). exists m1, ipiv, info. split; [exact E|]. split.
  - intros (x & Hx). destruct (Z.eq_dec info 0) as [|Hne]; [auto|]. exfalso. destruct (lapack_sees (V := V) a n HA) as (Hn & _ & _ & _ & Hsee).
    assert (Hy : exists y, inverse_of A n (sees a n m) y).
    { unfold sees. destruct (has_F_layout a); [now exists x|]. exists (transposed x). apply inverse_transposed; [exact (F_R F)|]. revert Hx. apply inverse_ext; auto. }
    destruct Hy as (y & Hy). apply (lu_invertible A F n ipiv _ _ y Hlu Hy (info - 1) ltac:(lia)). rewrite Hsee. specialize (Hi1 ltac:(lia)). unfold sees, transposed. now destruct (has_F_layout a).
  - intros E0. unfold sees in Hlu. destruct (getrs_column A L cj checks a b n k ldb ipiv m1 (entry a m) PS HA Hk Ik Il HB Hd Hlu (Hi0 E0)) as (m2 & E2 & Hsol & Hu2). exists m2. split; [exact E2|].
    assert (HbL : im_len (v_lay b) = [n; k]) by apply HB. split.
    + intros i j Hi' Hj. rewrite (Hsol i j Hi' Hj). unfold entry. apply Hu. intros C. apply (Hd _ C). now apply (matrix_is_cell b n k).
    + intros q Q1 Q2. rewrite Hu2, Hu by auto. reflexivity.
Qed.

(** ... if b is stored by rows, the rows are taken for the right-hand sides: a x = b^T is solved for the rows of b *)
Theorem C51_getrs_rows cj checks a b n k ldb m : is_field A -> getrf_promise A L -> getrs_promise A cj L -> blas_matrix a n n -> 0 <= k -> int_range k -> int_range ldb -> row_major b k n ldb -> disjoint a b ->
  exists m1 ipiv info, getrf L checks a m = BRet (m1, (ipiv, info)) /\
    (info = 0 -> exists m2, getrs L checks a b ipiv m1 = BRet (m2, 0) /\ (forall i j, 0 <= i < n -> 0 <= j < k -> product_at A n (entry a m) (transposed (entry b m2)) i j = entry b m j i) /\
      (forall q, ~ is_cell_of a q -> ~ is_cell_of b q -> m2 q = m q)).
Proof.
  intros F PF PS HA Hk Ik Il HB Hd. destruct (getrf_square A L checks a n m PF HA) as (m1 & ipiv & info & E & _ & Hlu & Hu & Hi & Hi0 & Hi1). exists m1, ipiv, info. split; [exact E|].
  intros E0. unfold sees in Hlu. destruct (getrs_row A L cj checks a b n k ldb ipiv m1 (entry a m) PS HA Hk Ik Il HB Hd Hlu (Hi0 E0)) as (m2 & E2 & Hsol & Hu2). exists m2. split; [exact E2|].
  assert (HbL : im_len (v_lay b) = [k; n]) by apply HB. split.
  - intros i j Hi' Hj. rewrite (Hsol i j Hi' Hj). unfold entry. apply Hu. intros C. apply (Hd _ C). now apply (matrix_is_cell b k n).
  - intros q Q1 Q2. rewrite Hu2, Hu by auto. reflexivity.
Qed.

(** gtsv solves t x = b for contiguous diagonals and a right-hand side that is a contiguous vector, or a matrix stored by columns without gaps *)
Theorem C51_gtsv checks dl d du b n k m : gtsv_promise A L -> 1 <= n -> vector_of dl (n - 1) 1 -> vector_of d n 1 -> vector_of du (n - 1) 1 ->
  (vector_of b n 1 /\ k = 1 \/ column_major b n k n /\ 0 <= k /\ int_range k) -> disjoint dl d -> disjoint dl du -> disjoint d du -> disjoint b dl -> disjoint b d -> disjoint b du ->
  let t := tridiagonal A (fun i => m (cell dl [i])) (fun i => m (cell d [i])) (fun i => m (cell du [i])) in
  let at_b (m : mem V) i j := if Nat.eqb (rank (v_lay b)) 2 then m (cell b [i; j]) else m (cell b [i]) in
  exists m' info, gtsv L checks dl d du b m = BRet (m', info) /\ ((exists x, inverse_of A n t x) -> info = 0) /\
    (info = 0 -> forall i j, 0 <= i < n -> 0 <= j < k -> product_at A n t (at_b m') i j = at_b m i j) /\
    (forall q, ~ is_cell_of b q -> ~ is_cell_of dl q -> ~ is_cell_of d q -> ~ is_cell_of du q -> m' q = m q).
Proof. exact (gtsv_spec A L checks dl d du b n k m). Qed.

(** What is not true, over any field and for every library that keeps its promises.
    getrf passes the extents of a matrix stored by rows as if it were stored by columns: of a 2 by 3 matrix it changes cells beyond the end *)
Theorem C51_getrf_rows_refuted checks : is_field A -> getrf_promise A L -> exists (v : view) (m : mem V) m' r, row_major v 2 3 3 /\ usable (v_lay v) /\
  getrf L checks v m = BRet (m', r) /\ exists q, ~ is_cell_of v q /\ m' q <> m q.
Proof.
  intros F PF. destruct (getrf_rows A F L checks PF) as (m & m' & r & H). exists (new_array [0; 1]%nat 0 [2; 3]), m, m', r. split; [repeat split; lia|]. split; [apply new_usable2; [exact order_C|lia|lia]|exact H].
Qed.
(** getrs with right-hand sides stored by rows solves another system, without any error *)
Theorem C51_getrs_rows_refuted cj checks : is_field A -> getrf_promise A L -> getrs_promise A cj L -> exists (a b : view) (m : mem V) m1 ipiv m2, column_major a 2 2 2 /\ row_major b 2 2 2 /\
  getrf L checks a m = BRet (m1, (ipiv, 0)) /\ getrs L checks a b ipiv m1 = BRet (m2, 0) /\ product_at A 2 (entry a m) (entry b m2) 0 0 <> entry b m 0 0.
Proof.
  intros F PF PS. destruct (getrs_rows A F L cj checks PF PS) as (m & m1 & ipiv & m2 & H). exists (new_array [1; 0]%nat 0 [2; 2]), (new_array [0; 1]%nat 4 [2; 2]), m, m1, ipiv, m2. split; [repeat split; lia|]. split; [repeat split; lia|exact H].
Qed.
(** so does gtsv *)
Theorem C51_gtsv_rows_refuted checks : is_field A -> gtsv_promise A L -> exists (dl d du b : view) (m : mem V) m', vector_of dl 1 1 /\ vector_of d 2 1 /\ vector_of du 1 1 /\ row_major b 2 2 2 /\
  gtsv L checks dl d du b m = BRet (m', 0) /\
  product_at A 2 (tridiagonal A (fun i => m (cell dl [i])) (fun i => m (cell d [i])) (fun i => m (cell du [i]))) (entry b m') 0 0 <> entry b m 0 0.
Proof.
  intros F PT. destruct (gtsv_rows A F L checks PT) as (m & m' & H). eexists _, _, _, _, m, m'. assert (Hv : forall p n, 0 <= n < 100 -> vector_of (new_array [0%nat] p [n]) n 1) by (intros p n Hn; split; [lia|]; split; [unfold int_range; lia|]; split; [unfold int_range; lia|]; repeat split).
  split; [|split; [|split; [|split; [|exact H]]]]; try (apply Hv; lia). repeat split; lia.
Qed.
(** diagonals with gaps are read as if there were none: the identity is found singular *)
Theorem C51_gtsv_strided_refuted checks : is_field A -> gtsv_promise A L -> exists (dl d du b : view) (m : mem V) m' info, vector_of dl 1 1 /\ vector_of d 2 2 /\ vector_of du 1 1 /\ vector_of b 2 1 /\
  gtsv L checks dl d du b m = BRet (m', info) /\ info <> 0 /\
  inverse_of A 2 (tridiagonal A (fun i => m (cell dl [i])) (fun i => m (cell d [i])) (fun i => m (cell du [i]))) (unit_matrix A).
Proof.
  intros F PT. destruct (gtsv_strided A F L checks PT) as (m & m' & info & H). eexists _, _, _, _, m, m', info. assert (Hv : forall p n, 0 <= n < 100 -> vector_of (new_array [0%nat] p [n]) n 1) by (intros p n Hn; split; [lia|]; split; [unfold int_range; lia|]; split; [unfold int_range; lia|]; repeat split).
  split; [|split; [|split; [|split; [|exact H]]]]; try (apply Hv; lia). split; [lia|]. split; [unfold int_range; lia|]. split; [unfold int_range; lia|]. repeat split.
Qed.
End Wrappers.
Print Assumptions C51_getrf_columns.
Print Assumptions C51_getrf_rows_square.
Print Assumptions C51_getrs.
Print Assumptions C51_getrs_rows.
Print Assumptions C51_gtsv.
Print Assumptions C51_getrf_rows_refuted.
Print Assumptions C51_getrs_rows_refuted.
Print Assumptions C51_gtsv_rows_refuted.
Print Assumptions C51_gtsv_strided_refuted.

Section Eigen.
Context {V : Type} (A : arith V) (cj : V -> V) (L : lapack V).
(** C58: eigenvalues of a symmetric matrix ([cj] the identity) or hermitian matrix ([cj] the conjugation), or expression *)
Theorem C58_eigenvalues checks b n (r : rhs V) (m : mem V) : syev_promise A cj L -> 1 <= n -> int_range n -> square_source r n b ->
  (forall i j, 0 <= i < n -> 0 <= j < n -> rhs_value r m [j; i] = cj (rhs_value r m [i; j])) ->
  exists m' res, eigenvalues L checks b [n; n] r m = BRet (m', res) /\ (forall q, ~ block b (n * n) q -> m' q = m q) /\
    (forall ev, res = Some ev -> Z.of_nat (length ev) = n /\ exists z, eigen_of A cj n (fun i j => rhs_value r m [i; j]) ev z).
Proof. exact (eigenvalues_spec A cj L checks b n r m). Qed.
(** eigenvectors: column k of the new matrix z belongs to eigenvalue k, and the columns are orthonormal, in whatever order z is stored *)
Theorem C58_eigenelements checks b b2 so n (r : rhs V) (m : mem V) : syev_promise A cj L -> 1 <= n -> int_range n -> is_order 2 so -> square_source r n b -> (forall q, block b (n * n) q -> block b2 (n * n) q -> False) ->
  (forall i j, 0 <= i < n -> 0 <= j < n -> rhs_value r m [j; i] = cj (rhs_value r m [i; j])) ->
  exists m' res, eigenelements L checks b b2 so [n; n] r m = BRet (m', res) /\ (forall q, ~ block b (n * n) q -> ~ block b2 (n * n) q -> m' q = m q) /\
    (forall ev z, res = Some (ev, z) -> z = new_array so b2 [n; n] /\ Z.of_nat (length ev) = n /\ eigen_of A cj n (fun i j => rhs_value r m [i; j]) ev (entry z m')).
Proof. exact (eigenelements_spec A cj L checks b b2 so n r m). Qed.
End Eigen.
Print Assumptions C58_eigenvalues.
Print Assumptions C58_eigenelements.

(** Examples that can be computed: the field with two elements *)
Definition B_arith : arith bool := Arith bool false true (fun x => x) xorb xorb andb andb.
Lemma B_field : is_field B_arith.
Proof. split; [split|..]; cbn; try (intros [|]); try (intros [|]); try (intros [|]); try reflexivity; try discriminate. all: intros H; try reflexivity; now elim H. Qed.
Lemma B_zero : decides_zero B_arith negb.
Proof. intros [|]; split; (reflexivity || discriminate). Qed.
Definition B_lapack : lapack bool := Lapack bool (ref_getrf B_arith negb) (fun _ _ _ _ _ => BStop) (fun _ _ _ _ _ _ _ _ _ => BStop) (fun _ _ _ _ _ _ _ _ => BStop) (fun _ _ _ _ _ _ _ _ _ => BStop) (fun _ _ _ _ _ => BStop).
Lemma B_getrf : getrf_promise B_arith B_lapack.
Proof. intros M N pa lda m HM HN Hl. exact (ref_getrf_ok B_arith B_field negb B_zero M N pa lda m HM HN Hl). Qed.
(** rows 2 3 1 of the 3 by 3 identity, with 1 in the corner: row interchanges are needed *)
Definition B_mem (s0 s1 : Z) : mem bool := fun q => (q =? 0 * s0 + 1 * s1) || (q =? 1 * s0 + 2 * s1) || (q =? 2 * s0 + 0 * s1) || (q =? 2 * s0 + 2 * s1).
Example C51_ex_lu : let v := ex_view [1; 0]%nat [3; 3] [1; 4] 0 in column_major v 3 3 4 /\
  match getrf B_lapack true v (B_mem 1 4) with BRet (m', (ipiv, info)) => (ipiv, info, map (fun i => map (fun j => entry v m' i j) [0; 1; 2]) [0; 1; 2]) | _ => ([], 9, []) end
  = ([3; 3; 3], 0, [[true; false; true]; [false; true; false]; [false; false; true]]).
Proof. split; [repeat split; lia|]. vm_compute. reflexivity. Qed.
Example C47_ex_inverse3 : let v := ex_view [0; 1]%nat [3; 3] [5; -2] 20 in usable (v_lay v) /\
  match inverse_in_place B_arith negb B_lapack true v (fun q => B_mem 5 (-2) (q - 20)) with BRet (m', ok) => (ok, map (fun i => map (fun j => entry v m' i j) [0; 1; 2]) [0; 1; 2]) | _ => (false, []) end
  = (true, [[false; true; true]; [true; false; false]; [false; true; false]]).
Proof.
  split; [|vm_compute; reflexivity]. split; [split; [split; [reflexivity|]; split; [exact order_C|]; split; [reflexivity|]; split; [repeat constructor; lia|cbn; lia]|split; discriminate]|].
  intros i j Hi Hj E. destruct (in_view2_inv (ex_view [0; 1]%nat [3; 3] [5; -2] 20) 3 3 i eq_refl Hi) as (i0 & i1 & -> & Hi0 & Hi1). destruct (in_view2_inv (ex_view [0; 1]%nat [3; 3] [5; -2] 20) 3 3 j eq_refl Hj) as (j0 & j1 & -> & Hj0 & Hj1).
  unfold addr in E. cbn -[Z.mul Z.add] in E. assert (i0 = j0 /\ i1 = j1) as [-> ->] by lia. reflexivity.
Qed.
