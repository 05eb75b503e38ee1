(** Proofs about inverse, getrf, getrs, gtsv, the determinant loop and eigenelements. *)
From Coq Require Import Ring Field.
From Verif Require Import Base M_Perm M_IdxMap M_Slice M_Loops M_Assign M_Expr M_Transform M_Blas M_Lapack S_Layout S_Loops S_Assign S_Blas S_Lapack
  L_Perm L_IdxMap L_Layout L_Loops L_Assign L_Transform L_Factory L_Blas L_Blas2 L_Blas3 L_Blas4 L_Lapack L_Lapack2.

Lemma interchange_ext {V} l : forall i0 (a b : Z -> Z -> V), (forall i j, a i j = b i j) -> forall i j, interchange_from i0 l a i j = interchange_from i0 l b i j.
Proof. induction l as [|p l IH]; intros k a b Eab i' j'; cbn [interchange_from]; [apply Eab|]. apply IH. intros; apply Eab. Qed.

Section Inverse.
Context {V : Type} (A : arith V) (F : is_field A) (is0 : V -> bool) (Z0 : decides_zero A is0) (L : lapack V).
Let R : is_ring A := F_R F.
Let Rth : ring_theory (v_zero A) (v_one A) (v_add A) (v_mul A) (v_sub A) (v_opp A) eq := R.
Add Ring VRI : Rth.
Declare Scope is_. Local Notation "x + y" := (v_add A x y) : is_. Local Notation "x * y" := (v_mul A x y) : is_. Local Notation "x - y" := (v_sub A x y) : is_.
Delimit Scope is_ with is_.
Notation "0v" := (v_zero A). Notation "1v" := (v_one A).

Lemma one_nonzero_of p q : (p * q)%is_ = 1v -> p <> 0v.
Proof. intros E C. apply (F_1_neq_0 F). rewrite <- E, C. ring. Qed.
Lemma inverse1_det a x : inverse_of A 1 a x -> a 0 0 <> 0v.
Proof.
  intros H. destruct (H 0 0 ltac:(lia) ltac:(lia)) as [E _]. unfold product_at, unit_matrix in E. change (sum_to A 1 ?f) with (0v + f 0%Z)%is_ in E. cbv beta in E. cbn [Z.eqb] in E.
  apply (one_nonzero_of _ (x 0 0)). rewrite <- E. ring.
Qed.
Lemma inverse2_det a x : inverse_of A 2 a x -> det2 A a <> 0v.
Proof.
  intros H. pose proof (proj1 (H 0 0 ltac:(lia) ltac:(lia))) as E00. pose proof (proj1 (H 0 1 ltac:(lia) ltac:(lia))) as E01. pose proof (proj1 (H 1 0 ltac:(lia) ltac:(lia))) as E10. pose proof (proj1 (H 1 1 ltac:(lia) ltac:(lia))) as E11.
  unfold product_at, unit_matrix in *. change (sum_to A 2 ?f) with (0v + f 0%Z + f 1%Z)%is_ in *. cbv beta in *. cbn [Z.eqb Pos.eqb] in *.
  apply (one_nonzero_of _ (det2 A x)). transitivity (det2 A (fun i j => 0v + a i 0%Z * x 0%Z j + a i 1%Z * x 1%Z j)%is_); [unfold det2; ring|]. unfold det2. rewrite E00, E01, E10, E11. ring.
Qed.
Lemma inverse3_det a x : inverse_of A 3 a x -> det3 A a <> 0v.
Proof.
  intros H.
  pose proof (proj1 (H 0 0 ltac:(lia) ltac:(lia))) as E00. pose proof (proj1 (H 0 1 ltac:(lia) ltac:(lia))) as E01. pose proof (proj1 (H 0 2 ltac:(lia) ltac:(lia))) as E02.
  pose proof (proj1 (H 1 0 ltac:(lia) ltac:(lia))) as E10. pose proof (proj1 (H 1 1 ltac:(lia) ltac:(lia))) as E11. pose proof (proj1 (H 1 2 ltac:(lia) ltac:(lia))) as E12.
  pose proof (proj1 (H 2 0 ltac:(lia) ltac:(lia))) as E20. pose proof (proj1 (H 2 1 ltac:(lia) ltac:(lia))) as E21. pose proof (proj1 (H 2 2 ltac:(lia) ltac:(lia))) as E22.
  clear H. unfold product_at, unit_matrix in *. change (sum_to A 3 ?f) with (0v + f 0%Z + f 1%Z + f 2%Z)%is_ in *. cbv beta in *. cbn [Z.eqb Pos.eqb] in *.
  apply (one_nonzero_of _ (det3 A x)).
  transitivity (det3 A (fun i j => 0v + a i 0%Z * x 0%Z j + a i 1%Z * x 1%Z j + a i 2%Z * x 2%Z j)%is_); [unfold det3; ring|]. unfold det3. rewrite E00, E01, E02, E10, E11, E12, E20, E21, E22. ring.
Qed.

Lemma inverse_in_place_spec checks v n m : 0 <= n -> im_len (v_lay v) = [n; n] -> usable (v_lay v) -> (n <= 3 \/ blas_matrix v n n /\ getrf_promise A L /\ getri_promise A L) ->
  exists m' ok, inverse_in_place A is0 L checks v m = BRet (m', ok) /\ (ok = true <-> exists x, inverse_of A n (entry v m) x) /\
    (ok = true -> inverse_of A n (entry v m) (entry v m')) /\ unchanged_outside v m m'.
Proof.
  intros Hn El U Hb. unfold inverse_in_place. assert (Ex : extent v 0 = n /\ extent v 1 = n) by (unfold extent, nthZ; now rewrite El). destruct Ex as [E0 E1]. rewrite E0, E1, Z.eqb_refl, expects_true.
  assert (Es : size (v_lay v) = n * n) by (unfold size; rewrite El; cbn [fold_left]; now rewrite Z.mul_1_l). rewrite Es.
  destruct (Z.eqb_spec (n * n) 0) as [Hz|Hz].
  { assert (n = 0) as -> by nia. exists m, true. split; [reflexivity|]. assert (HI : inverse_of A 0 (entry v m) (entry v m)) by (intros i j Hi; lia). split; [split; [intros _; now exists (entry v m)|auto]|]. split; [auto|]. intros x _; reflexivity. }
  destruct (Z.eqb_spec n 1) as [->|N1].
  { destruct (inverse1_spec A F is0 Z0 v m U El) as (m' & ok & E & Hok & Hi & _ & Hu). exists m', ok. rewrite E. split; [reflexivity|]. split; [|auto]. rewrite Hok. split; [intros H; exists (entry v m'); apply Hi, Hok, H|intros (x & Hx); now apply (inverse1_det _ x)]. }
  destruct (Z.eqb_spec n 2) as [->|N2].
  { destruct (inverse2_spec A F is0 Z0 v m U El) as (m' & ok & E & Hok & Hi & Hu). exists m', ok. rewrite E. split; [reflexivity|]. split; [|auto]. rewrite Hok. split; [intros H; exists (entry v m'); apply Hi, Hok, H|intros (x & Hx); now apply (inverse2_det _ x)]. }
  destruct (Z.eqb_spec n 3) as [->|N3].
  { destruct (inverse3_spec A F is0 Z0 v m U El) as (m' & ok & E & Hok & Hi & _ & Hu). exists m', ok. rewrite E. split; [reflexivity|]. split; [|auto]. rewrite Hok. split; [intros H; exists (entry v m'); apply Hi, Hok, H|intros (x & Hx); now apply (inverse3_det _ x)]. }
  assert (HB : blas_matrix v n n /\ getrf_promise A L /\ getri_promise A L) by (destruct Hb; [lia|auto]). destruct HB as (HB & PF & PI). destruct (lapack_sees (V := V) v n HB) as (_ & In & Hld & Hrect & Hsee).
  unfold getrf. rewrite (min_stride_blas v n n HB), Z.eqb_refl, expects_true, E0, E1, (int32_id n In).
  destruct (PF n n (v_base v) (get_ld v) m Hn Hn Hld) as (m1 & ipiv & info & E & Hlu & Hu1 & Hinfo & Hi0 & Hi1). rewrite E. cbn [bbind]. rewrite Z.min_id in *.
  assert (Hs : forall x, inverse_of A n (entry v m) x -> exists y, inverse_of A n (seen m (v_base v) (get_ld v)) y).
  { intros x Hx. unfold sees in Hsee. destruct (has_F_layout v).
    - exists x. revert Hx. apply inverse_ext; auto.
    - exists (transposed x). apply (inverse_ext A n (transposed (entry v m)) _ (transposed x)); auto. apply inverse_transposed; [exact R|]. revert Hx. apply inverse_ext; auto. }
  destruct (Z.eqb_spec info 0) as [Ei|Ei]; cbn [negb].
  - subst info. unfold getri. destruct Hlu as (Hlen & Hlu). rewrite Z.min_id in Hlen. rewrite E0, E1, Z.min_id, Hlen, Z.ltb_irrefl, (min_stride_blas v n n HB), Z.eqb_refl, expects_true, (int32_id n In).
    destruct (PI n (v_base v) (get_ld v) ipiv m1 (seen m (v_base v) (get_ld v)) Hn Hld) as (m2 & E2 & Hinv & Hu2); [split; [now rewrite Z.min_id|auto]|auto|]. rewrite E2. cbn [bbind].
    exists m2, true. split; [reflexivity|].
    assert (HI : inverse_of A n (entry v m) (entry v m2)).
    { unfold sees in Hsee. destruct (has_F_layout v).
      - revert Hinv. apply inverse_ext; auto.
      - apply (inverse_ext A n (entry v m) _ (transposed (transposed (entry v m2)))); auto. apply inverse_transposed; [exact R|]. revert Hinv. apply inverse_ext; auto. }
    split; [split; [intros _; now exists (entry v m2)|auto]|]. split; [auto|]. intros q Hq. rewrite Hu2, Hu1 by (rewrite Hrect; auto). reflexivity.
  - exists m1, false. split; [reflexivity|]. split; [|split; [discriminate|intros q Hq; apply Hu1; rewrite Hrect; auto]].
    split; [discriminate|]. intros (x & Hx). destruct (Hs x Hx) as (y & Hy). exfalso. apply (lu_invertible A F n ipiv _ _ y Hlu Hy (info - 1) ltac:(lia)). apply Hi1. lia.
Qed.
End Inverse.

Section Factor.
Context {V : Type} (A : arith V) (L : lapack V).
Lemma getrf_column checks v r c ld m : getrf_promise A L -> 0 <= r -> 0 <= c -> int_range r -> int_range c -> int_range ld -> column_major v r c ld ->
  exists m' ipiv info, getrf L checks v m = BRet (m', (ipiv, info)) /\ lu_of A r c ipiv (entry v m) (entry v m') /\ unchanged_outside v m m' /\ 0 <= info <= Z.min r c /\
    (info = 0 -> forall i, 0 <= i < Z.min r c -> entry v m' i i <> v_zero A) /\ (0 < info -> entry v m' (info - 1) (info - 1) = v_zero A).
Proof.
  intros PF Hr Hc Ir Ic Il H. assert (HB : blas_matrix v r c) by (exact (conj Hr (conj Hc (conj Ir (conj Ic (ex_intro _ ld (conj Il (or_intror H)))))))). unfold getrf. rewrite (min_stride_blas v r c HB), Z.eqb_refl, expects_true. destruct (blas_extent v r c HB) as [-> ->].
  rewrite (int32_id r Ir), (int32_id c Ic), (column_major_ld v r c ld) by auto.
  assert (Hsee : forall (m : mem V) i j, entry v m i j = seen m (v_base v) ld i j) by (intros m0 i j; unfold entry; now rewrite (column_major_cell v r c ld) by auto).
  destruct (PF r c (v_base v) ld m Hr Hc ltac:(apply H)) as (m' & ipiv & info & E & (Hlen & Hp & Hlu) & Hu & Hi & Hi0 & Hi1). exists m', ipiv, info. split; [exact E|]. split; [|split; [|split; [auto|split]]].
  - split; [auto|split; [auto|]]. intros i j Hi' Hj. transitivity (interchanged ipiv (seen m (v_base v) ld) i j).
    + apply interchange_ext. exact (Hsee m).
    + rewrite (Hlu i j Hi' Hj). unfold product_at. apply sum_to_ext. intros l Hl. unfold lower_of, upper_of. now rewrite <- !Hsee.
  - intros q Hq. apply Hu. now rewrite (rect_cells v r c ld H).
  - intros E0 i Hi'. rewrite Hsee. auto.
  - intros E0. rewrite Hsee. auto.
Qed.
Lemma getrf_square checks v n m : getrf_promise A L -> blas_matrix v n n ->
  exists m' ipiv info, getrf L checks v m = BRet (m', (ipiv, info)) /\ lu_of A n n ipiv (sees v n m) (sees v n m') /\ lu_of A n n ipiv (sees v n m) (seen m' (v_base v) (get_ld v)) /\
    unchanged_outside v m m' /\ 0 <= info <= n /\
    (info = 0 -> forall i, 0 <= i < n -> entry v m' i i <> v_zero A) /\ (0 < info -> entry v m' (info - 1) (info - 1) = v_zero A).
Proof.
  intros PF HB. destruct (lapack_sees (V := V) v n HB) as (Hn & In & Hld & Hrect & Hsee). unfold getrf. rewrite (min_stride_blas v n n HB), Z.eqb_refl, expects_true. destruct (blas_extent v n n HB) as [-> ->]. rewrite (int32_id n In).
  assert (Hd : forall (m : mem V) i, sees v n m i i = entry v m i i) by (intros m0 i; unfold sees, transposed; now destruct (has_F_layout v)).
  destruct (PF n n (v_base v) (get_ld v) m Hn Hn Hld) as (m' & ipiv & info & E & (Hlen & Hp & Hlu) & Hu & Hi & Hi0 & Hi1). exists m', ipiv, info. rewrite Z.min_id in *. split; [exact E|].
  assert (H2 : lu_of A n n ipiv (sees v n m) (seen m' (v_base v) (get_ld v))).
  { split; [now rewrite Z.min_id|]. rewrite Z.min_id. split; [auto|]. intros i j Hi' Hj. rewrite <- (Hlu i j Hi' Hj). apply interchange_ext. intros; symmetry; apply Hsee. }
  split; [|split; [exact H2|split; [|split; [auto|split]]]].
  - destruct H2 as (H2a & H2b & H2c). split; [exact H2a|split; [exact H2b|]]. intros i j Hi' Hj. rewrite (H2c i j Hi' Hj). unfold product_at. apply sum_to_ext. intros l _. unfold lower_of, upper_of. now rewrite !Hsee.
  - intros q Hq. apply Hu. now rewrite Hrect.
  - intros E0 i Hi'. rewrite <- Hd, <- Hsee. auto.
  - intros E0. rewrite <- Hd, <- Hsee. auto.
Qed.
Lemma getrs_column cj checks a b n k ldb ipiv m a0 : getrs_promise A cj L -> blas_matrix a n n -> 0 <= k -> int_range k -> int_range ldb -> column_major b n k ldb -> disjoint a b ->
  lu_of A n n ipiv (if has_F_layout a then a0 else transposed a0) (seen m (v_base a) (get_ld a)) -> (forall i, 0 <= i < n -> entry a m i i <> v_zero A) ->
  exists m', getrs L checks a b ipiv m = BRet (m', 0) /\ (forall i j, 0 <= i < n -> 0 <= j < k -> product_at A n a0 (entry b m') i j = entry b m i j) /\ unchanged_outside b m m'.
Proof.
  intros PS HA Hk Ik Il Hb Hd Hlu Hdiag. destruct (lapack_sees (V := V) a n HA) as (Hn & In & Hld & Hrect & Hsee).
  assert (HB : blas_matrix b n k) by (exact (conj Hn (conj Hk (conj In (conj Ik (ex_intro _ ldb (conj Il (or_intror Hb)))))))).
  assert (HseeB : forall (m : mem V) i j, entry b m i j = seen m (v_base b) ldb i j) by (intros m0 i j; unfold entry; now rewrite (column_major_cell b n k ldb) by auto).
  unfold getrs. destruct (blas_extent a n n HA) as [-> ->]. rewrite Z.min_id. pose proof (proj1 Hlu) as Hlen. rewrite Z.min_id in Hlen. rewrite Hlen, Z.leb_refl, expects_true, (min_stride_blas a n n HA), (min_stride_blas b n k HB). cbn [Z.eqb Pos.eqb andb]. rewrite expects_true.
  assert (Enc : get_ncols a = n) by (unfold get_ncols; rewrite (blas_len a n n HA); destruct (has_F_layout a); apply int32_id, In).
  assert (Enb : get_ncols b = k) by (unfold get_ncols; rewrite (blas_len b n k HB), (proj2 (column_major_layout b n k ldb Hb)); apply int32_id, Ik).
  rewrite Enc, Enb, (column_major_ld b n k ldb) by auto.
  set (af := if has_F_layout a then a0 else transposed a0) in *.
  assert (Eop : exists o, get_op false (has_C_layout a) = Some o /\ forall i j, op_of cj o af i j = a0 i j).
  { destruct HA as (_ & _ & _ & _ & lda & _ & [H|H]); [destruct (row_major_layout a n n lda H) as [E1 E2]|destruct (column_major_layout a n n lda H) as [E1 E2]]; unfold af; rewrite E1, E2; cbn [get_op andb negb]; eexists; split; try reflexivity; intros; reflexivity. }
  destruct Eop as (o & Eo & Hop). rewrite Eo.
  destruct (PS o n k (v_base a) (get_ld a) ipiv (v_base b) ldb m af Hn Hk Hld ltac:(apply Hb) Hlu) as (m' & E & Hsol & Hu).
  - intros i Hi. rewrite Hsee. specialize (Hdiag i Hi). unfold sees, transposed. destruct (has_F_layout a); exact Hdiag.
  - intros q Ha Hq. apply (Hd q); [now apply Hrect|now apply (rect_cells b n k ldb Hb)].
  - exists m'. split; [exact E|]. split; [|intros q Hq; apply Hu; now rewrite (rect_cells b n k ldb Hb)].
    intros i j Hi Hj. rewrite HseeB, <- (Hsol i j Hi Hj). unfold product_at. apply sum_to_ext. intros l _. now rewrite Hop, HseeB.
Qed.

Lemma getrs_row cj checks a b n k ldb ipiv m a0 : getrs_promise A cj L -> blas_matrix a n n -> 0 <= k -> int_range k -> int_range ldb -> row_major b k n ldb -> disjoint a b ->
  lu_of A n n ipiv (if has_F_layout a then a0 else transposed a0) (seen m (v_base a) (get_ld a)) -> (forall i, 0 <= i < n -> entry a m i i <> v_zero A) ->
  exists m', getrs L checks a b ipiv m = BRet (m', 0) /\ (forall i j, 0 <= i < n -> 0 <= j < k -> product_at A n a0 (transposed (entry b m')) i j = entry b m j i) /\ unchanged_outside b m m'.
Proof.
  intros PS HA Hk Ik Il Hb Hd Hlu Hdiag. destruct (lapack_sees (V := V) a n HA) as (Hn & In & Hld & Hrect & Hsee).
  assert (HB : blas_matrix b k n) by (exact (conj Hk (conj Hn (conj Ik (conj In (ex_intro _ ldb (conj Il (or_introl Hb)))))))).
  assert (HseeB : forall (m : mem V) i j, entry b m j i = seen m (v_base b) ldb i j) by (intros m0 i j; unfold entry, seen, col_major; rewrite (row_major_cell b k n ldb) by auto; f_equal; lia).
  unfold getrs. destruct (blas_extent a n n HA) as [-> ->]. rewrite Z.min_id. pose proof (proj1 Hlu) as Hlen. rewrite Z.min_id in Hlen. rewrite Hlen, Z.leb_refl, expects_true, (min_stride_blas a n n HA), (min_stride_blas b k n HB). cbn [Z.eqb Pos.eqb andb]. rewrite expects_true.
  assert (Enc : get_ncols a = n) by (unfold get_ncols; rewrite (blas_len a n n HA); destruct (has_F_layout a); apply int32_id, In).
  assert (Enb : get_ncols b = k) by (unfold get_ncols; rewrite (blas_len b k n HB), (proj2 (row_major_layout b k n ldb Hb)); apply int32_id, Ik).
  rewrite Enc, Enb, (row_major_ld b k n ldb) by auto.
  set (af := if has_F_layout a then a0 else transposed a0) in *.
  assert (Eop : exists o, get_op false (has_C_layout a) = Some o /\ forall i j, op_of cj o af i j = a0 i j).
  { destruct HA as (_ & _ & _ & _ & lda & _ & [H|H]); [destruct (row_major_layout a n n lda H) as [E1 E2]|destruct (column_major_layout a n n lda H) as [E1 E2]]; unfold af; rewrite E1, E2; cbn [get_op andb negb]; eexists; split; try reflexivity; intros; reflexivity. }
  destruct Eop as (o & Eo & Hop). rewrite Eo.
  destruct (PS o n k (v_base a) (get_ld a) ipiv (v_base b) ldb m af Hn Hk Hld ltac:(apply Hb) Hlu) as (m' & E & Hsol & Hu).
  - intros i Hi. rewrite Hsee. specialize (Hdiag i Hi). unfold sees, transposed. destruct (has_F_layout a); exact Hdiag.
  - intros q Ha Hq. apply (Hd q); [now apply Hrect|now apply (rect_cells_row b k n ldb Hb)].
  - exists m'. split; [exact E|]. split; [|intros q Hq; apply Hu; now rewrite (rect_cells_row b k n ldb Hb)].
    intros i j Hi Hj. rewrite HseeB, <- (Hsol i j Hi Hj). unfold product_at, transposed. apply sum_to_ext. intros l _. now rewrite Hop, HseeB.
Qed.

Lemma gtsv_spec checks dl d du b n k m : gtsv_promise A L -> 1 <= n -> vector_of dl (n - 1) 1 -> vector_of d n 1 -> vector_of du (n - 1) 1 ->
  (vector_of b n 1 /\ k = 1 \/ column_major b n k n /\ 0 <= k /\ int_range k) -> disjoint dl d -> disjoint dl du -> disjoint d du -> disjoint b dl -> disjoint b d -> disjoint b du ->
  let t := tridiagonal A (fun i => m (cell dl [i])) (fun i => m (cell d [i])) (fun i => m (cell du [i])) in
  let at_b (m : mem V) i j := if Nat.eqb (rank (v_lay b)) 2 then m (cell b [i; j]) else m (cell b [i]) in
  exists m' info, gtsv L checks dl d du b m = BRet (m', info) /\ ((exists x, inverse_of A n t x) -> info = 0) /\
    (info = 0 -> forall i j, 0 <= i < n -> 0 <= j < k -> product_at A n t (at_b m') i j = at_b m i j) /\
    (forall q, ~ is_cell_of b q -> ~ is_cell_of dl q -> ~ is_cell_of d q -> ~ is_cell_of du q -> m' q = m q).
Proof.
  intros PT Hn Hdl Hd Hdu Hb D1 D2 D3 D4 D5 D6 t at_b.
  assert (Hv : forall v l, vector_of v l 1 -> extent v 0 = l /\ (forall i, cell v [i] = v_base v + i) /\ (forall q, is_cell_of v q <-> block (v_base v) l q)).
  { intros v l H. pose proof (vector_len v l 1 H) as El. split; [unfold extent, nthZ; now rewrite El|]. assert (Ec : forall i, cell v [i] = v_base v + i) by (intros i; rewrite (vector_cell v l 1) by auto; lia).
    split; [exact Ec|]. intros q. split.
    - intros (idx & Hi & ->). unfold in_view, valid_idx in Hi. rewrite El in Hi. unfold in_range in Hi. destruct idx as [|i [|i2 tl]]; [inversion Hi| |inversion Hi as [|? ? ? ? _ Hl']; inversion Hl']. inversion Hi as [|? ? ? ? Hi0 _]. rewrite Ec. unfold inr in Hi0. unfold block. lia.
    - intros Hq. replace q with (cell v [q - v_base v]) by (rewrite Ec; lia). apply (vector_is_cell v l 1); auto. unfold block in Hq. lia. }
  destruct (Hv dl (n - 1) Hdl) as (E1 & C1 & K1). destruct (Hv d n Hd) as (E2 & C2 & K2). destruct (Hv du (n - 1) Hdu) as (E3 & C3 & K3).
  assert (Hbb : extent b 0 = n /\ 0 <= k /\ (if Nat.eqb (rank (v_lay b)) 2 then int32 (extent b 1) else 1) = k /\ (forall (m : mem V) i j, 0 <= j < k -> at_b m i j = seen m (v_base b) n i j) /\ (forall q, is_cell_of b q <-> in_rect (v_base b) n n k q)).
  { destruct Hb as [(Hb & ->)|(Hb & Hk & Ik)].
    - destruct (Hv b n Hb) as (E4 & C4 & K4). destruct Hb as (_ & _ & _ & El & _ & _). assert (Er : Nat.eqb (rank (v_lay b)) 2 = false) by (unfold rank; now rewrite El). unfold at_b. rewrite Er. split; [auto|]. split; [lia|]. split; [reflexivity|]. split.
      + intros m0 i j Hj. rewrite C4. unfold seen, col_major. f_equal. nia.
      + intros q. rewrite K4. unfold block, in_rect, col_major. split; [intros Hq; exists (q - v_base b), 0; lia|intros (i & j & Hi & Hj & ->); nia].
    - pose proof Hb as (El & _ & _ & _). assert (Er : Nat.eqb (rank (v_lay b)) 2 = true) by (unfold rank; now rewrite El). unfold at_b. rewrite Er. unfold extent, nthZ. rewrite El. cbn [nth]. split; [auto|]. split; [auto|]. split; [apply int32_id, Ik|]. split.
      + intros m0 i j _. unfold seen. now rewrite (column_major_cell b n k n) by auto.
      + intros q. symmetry. now apply rect_cells. }
  destruct Hbb as (E4 & Hk & Ek & HB & K4). unfold gtsv. rewrite E1, E2, E3, E4, !Z.eqb_refl. cbn [andb]. rewrite expects_true, Ek. destruct Hd as (_ & In & _). rewrite (int32_id n In).
  destruct (PT n k (v_base dl) (v_base d) (v_base du) (v_base b) n m ltac:(lia) Hk ltac:(lia)) as (m' & info & E & Hinv & Hsol & Hu).
  - intros q Q1 Q2. apply (D1 q); [now apply K1|now apply K2].
  - intros q Q1 Q2. apply (D2 q); [now apply K1|now apply K3].
  - intros q Q1 Q2. apply (D3 q); [now apply K2|now apply K3].
  - intros q Q1 [Q2|[Q2|Q2]]; [apply (D4 q)|apply (D5 q)|apply (D6 q)]; (apply K4 || apply K1 || apply K2 || apply K3); auto.
  - exists m', info. split; [exact E|].
    assert (Et : forall i j, tridiagonal A (fun i => m (v_base dl + i)) (fun i => m (v_base d + i)) (fun i => m (v_base du + i)) i j = t i j) by (intros i j; unfold t, tridiagonal; now rewrite C1, C2, C3).
    split; [|split].
    + intros (x & Hx). apply Hinv. exists x. revert Hx. apply inverse_ext; auto.
    + intros E0 i j Hi Hj. rewrite (HB m i j Hj). rewrite <- (Hsol E0 i j Hi Hj). unfold product_at. apply sum_to_ext. intros l _. now rewrite Et, (HB m' l j Hj).
    + intros q Q1 Q2 Q3 Q4. apply Hu; [now rewrite <- K4|now rewrite <- K1|now rewrite <- K2|now rewrite <- K3].
Qed.
End Factor.

Lemma firstn_snoc (l : list Z) : forall k, (k < length l)%nat -> firstn (S k) l = firstn k l ++ [nthZ l k].
Proof. induction l as [|x l IH]; intros k Hk; cbn [length] in Hk; [lia|]. destruct k as [|k]; [reflexivity|]. rewrite !(firstn_cons _ x). rewrite IH by lia. reflexivity. Qed.
Section Det.
Context {V : Type} (A : arith V) (L : lapack V).
Fixpoint prod_nat (n : nat) (g : Z -> V) : V := match n with O => v_one A | S n => v_mul A (prod_nat n g) (g (Z.of_nat n)) end.
Fixpoint flips (n : nat) (ipiv : list Z) : Z := match n with O => 0 | S n => if nthZ ipiv n =? Z.of_nat n + 1 then flips n ipiv else flips n ipiv + 1 end.
Lemma det_fold (v : view) (m : mem V) ipiv n : fold_left (fun '(det, n_flips) i => (v_mul A det (m (elem v [i; i])), if nthZ ipiv (Z.to_nat i) =? i + 1 then n_flips else n_flips + 1)) (zseq (Z.of_nat n)) (v_one A, 0) =
  (prod_nat n (fun i => m (elem v [i; i])), flips n ipiv).
Proof.
  rewrite zseq_of_nat. induction n as [|n IH]; [reflexivity|]. rewrite seq_S, map_app, fold_left_app, IH. cbn [map fold_left prod_nat flips Nat.add]. now rewrite Nat2Z.id.
Qed.
Lemma prod_nat_ext n g h : (forall i, 0 <= i < Z.of_nat n -> g i = h i) -> prod_nat n g = prod_nat n h.
Proof. induction n as [|n IH]; intros H; cbn [prod_nat]; [reflexivity|]. rewrite IH, H; auto; intros; try apply H; lia. Qed.
Lemma determinant_in_place_lu checks v n m : getrf_promise A L -> 1 <= n -> blas_matrix v n n -> usable (v_lay v) ->
  exists m' ipiv, determinant_in_place A L checks v m = BRet (m', Some (let p := prod_nat (Z.to_nat n) (fun i => entry v m' i i) in if flips (Z.to_nat n) ipiv mod 2 =? 1 then v_opp A p else p)) /\
    lu_of A n n ipiv (sees v n m) (sees v n m') /\ unchanged_outside v m m'.
Proof.
  intros PF Hn HB U. destruct (getrf_square A L checks v n m PF HB) as (m' & ipiv & info & E & Hlu & _ & Hu & Hi & _). exists m', ipiv. split; [|auto].
  unfold determinant_in_place. rewrite (blas_size v n n HB). destruct (blas_extent v n n HB) as [E0 E1]. rewrite E0, E1, Z.eqb_refl. destruct (Z.eqb_spec (n * n) 0); [nia|]. cbn [negb]. rewrite E. cbn [bbind]. destruct (Z.ltb_spec info 0); [lia|].
  rewrite int32_id by apply HB. rewrite <- (Z2Nat.id n) at 1 by lia. rewrite det_fold. cbv zeta.
  rewrite (prod_nat_ext (Z.to_nat n) (fun i => m' (elem v [i; i])) (fun i => entry v m' i i)); [reflexivity|]. intros i _. unfold entry. now rewrite (elem_cell2 v n n) by (auto; now apply blas_len).
Qed.
End Det.

Section Eigen.
Context {V : Type} (A : arith V) (cj : V -> V) (L : lapack V).
Lemma new_column b n : 1 <= n -> column_major (new_array [1; 0]%nat b [n; n]) n n n.
Proof. intros Hn. repeat split; [|lia]. unfold new_array. cbn -[Z.mul]. f_equal. f_equal. lia. Qed.
Lemma order_F : is_order 2 [1; 0]%nat.
Proof. unfold is_order. cbn [seq]. constructor. Qed.
Lemma eigen_impl_spec checks vectors b n (m : mem V) h : syev_promise A cj L -> 1 <= n -> int_range n -> let c := new_array [1; 0]%nat b [n; n] in
  (forall i j, 0 <= i -> i <= j -> j < n -> h i j = entry c m i j /\ h j i = cj (h i j)) ->
  exists m' r, eigen_element_impl L checks vectors c m = BRet (m', r) /\ (forall q, ~ block b (n * n) q -> m' q = m q) /\
    (forall ev, r = Some ev -> Z.of_nat (length ev) = n /\ exists z, eigen_of A cj n h ev z /\ (vectors = true -> forall i j, 0 <= i < n -> 0 <= j < n -> entry c m' i j = z i j)).
Proof.
  intros PE Hn In c Hh. pose proof (new_column b n Hn) as HC. fold c in HC. pose proof order_F as HO.
  assert (HB : blas_matrix c n n) by (apply new_blas; auto).
  assert (Hsee : forall (m : mem V) i j, entry c m i j = seen m b n i j) by (intros m0 i j; unfold entry; now rewrite (column_major_cell c n n n) by auto).
  unfold eigen_element_impl. rewrite (blas_size c n n HB). destruct (blas_extent c n n HB) as [E0 E1]. rewrite E0, E1, Z.eqb_refl. destruct (Z.eqb_spec (n * n) 0); [nia|].
  assert (Ec : is_contiguous (v_lay c) = true) by (unfold is_contiguous; rewrite (blas_size c n n HB), (blas_len c n n HB), (proj1 (proj2 (proj2 HC))); destruct (Z.eqb_spec (n * n) 0); [reflexivity|]; unfold max_element, arr_mul; cbn -[Z.mul Z.max Z.ltb Z.eqb]; destruct (Z.ltb_spec (1 * n) (n * n)); apply Z.eqb_eq; nia). rewrite Ec. cbn [negb andb]. rewrite expects_true, (int32_id n In).
  destruct (PE vectors n (v_base c) n m h ltac:(lia) ltac:(lia)) as (m' & ev & info & E & Hu & Hev).
  - intros i j Hi Hij Hj. change (v_base c) with b. rewrite <- (Hsee m i j). now apply Hh.
  - change (v_base c) with b in *. rewrite E. cbn [bbind]. exists m', (if info =? 0 then Some ev else None). split; [reflexivity|]. split.
    + intros q Hq. apply Hu. change b with (v_base c). rewrite (rect_cells c n n n HC). intros C. apply Hq. now apply (new_cells2 [1; 0]%nat b n n q HO ltac:(lia) ltac:(lia)).
    + intros ev' E'. destruct (Z.eqb_spec info 0) as [Ei|Ei]; [|discriminate]. injection E' as <-. destruct (Hev Ei) as (Hl & z & Hz & Hv). split; [exact Hl|]. exists z. split; [exact Hz|]. intros Et i j Hi Hj. rewrite Hsee. now apply Hv.
Qed.
Lemma eigen_ext n h h' ev z z' : (forall i j, 0 <= i < n -> 0 <= j < n -> h i j = h' i j) -> (forall i j, 0 <= i < n -> 0 <= j < n -> z i j = z' i j) -> eigen_of A cj n h ev z -> eigen_of A cj n h' ev z'.
Proof.
  intros Eh Ez (H1 & H2). split.
  - intros i k Hi Hk. rewrite <- (Ez i k Hi Hk), <- (H1 i k Hi Hk). unfold product_at. apply sum_to_ext. intros l Hl. now rewrite Eh, Ez by auto.
  - revert H2. apply inverse_ext; auto. intros i j Hi Hj. unfold adjoint. now rewrite Ez.
Qed.
Lemma eigenvalues_spec checks b n (r : rhs V) (m : mem V) : syev_promise A cj L -> 1 <= n -> int_range n -> square_source r n b ->
  (forall i j, 0 <= i < n -> 0 <= j < n -> rhs_value r m [j; i] = cj (rhs_value r m [i; j])) ->
  exists m' res, eigenvalues L checks b [n; n] r m = BRet (m', res) /\ (forall q, ~ block b (n * n) q -> m' q = m q) /\
    (forall ev, res = Some ev -> Z.of_nat (length ev) = n /\ exists z, eigen_of A cj n (fun i j => rhs_value r m [i; j]) ev z).
Proof.
  intros PE Hn In (Hs1 & Hs2) Hh. destruct (copy_value checks [1; 0]%nat b n n r m order_F ltac:(lia) ltac:(lia) Hs1 Hs2) as (m1 & E & Hv & Hu). unfold eigenvalues. rewrite E.
  destruct (eigen_impl_spec checks false b n m1 (fun i j => rhs_value r m [i; j]) PE Hn In) as (m2 & res & E2 & Hu2 & Hev).
  - intros i j Hi Hij Hj. unfold entry. rewrite Hv by lia. split; [reflexivity|]. apply Hh; lia.
  - rewrite E2. exists m2, res. split; [reflexivity|]. split; [intros q Hq; rewrite Hu2, Hu by auto; reflexivity|]. intros ev Ee. destruct (Hev ev Ee) as (Hl & z & Hz & _). split; [exact Hl|]. now exists z.
Qed.
Lemma eigenelements_spec checks b b2 so n (r : rhs V) (m : mem V) : syev_promise A cj L -> 1 <= n -> int_range n -> is_order 2 so -> square_source r n b -> (forall q, block b (n * n) q -> block b2 (n * n) q -> False) ->
  (forall i j, 0 <= i < n -> 0 <= j < n -> rhs_value r m [j; i] = cj (rhs_value r m [i; j])) ->
  exists m' res, eigenelements L checks b b2 so [n; n] r m = BRet (m', res) /\ (forall q, ~ block b (n * n) q -> ~ block b2 (n * n) q -> m' q = m q) /\
    (forall ev z, res = Some (ev, z) -> z = new_array so b2 [n; n] /\ Z.of_nat (length ev) = n /\ eigen_of A cj n (fun i j => rhs_value r m [i; j]) ev (entry z m')).
Proof.
  intros PE Hn In Ho (Hs1 & Hs2) Hd Hh. pose proof order_F as HO. destruct (copy_value checks [1; 0]%nat b n n r m HO ltac:(lia) ltac:(lia) Hs1 Hs2) as (m1 & E & Hv & Hu). unfold eigenelements. rewrite E.
  destruct (eigen_impl_spec checks true b n m1 (fun i j => rhs_value r m [i; j]) PE Hn In) as (m2 & res & E2 & Hu2 & Hev).
  - intros i j Hi Hij Hj. unfold entry. rewrite Hv by lia. split; [reflexivity|]. apply Hh; lia.
  - rewrite E2. cbn [bbind]. destruct res as [ev|].
    + destruct (Hev ev eq_refl) as (Hl & z & Hz & Hzv). set (c := new_array [1; 0]%nat b [n; n]) in *.
      assert (Uc : usable (v_lay c)) by (apply new_usable2; auto; lia).
      assert (Lc : im_len (v_lay c) = [n; n]) by apply new_array_len.
      destruct (copy_value checks so b2 n n (RMem c) m2 Ho ltac:(lia) ltac:(lia)) as (m3 & E3 & Hv3 & Hu3).
      { intros src Es. injection Es as <-. split; [now apply usable_truthful|exact Lc]. }
      { intros idx w1 w2 Hi Hw. cbn [rhs_value]. apply Hw. intros C. unfold in_range in Hi. assert (Hiv : in_view c idx) by (unfold in_view, valid_idx; now rewrite Lc).
        apply (Hd (cell c idx)); [|exact C]. apply (new_cells2 [1; 0]%nat b n n); auto; try lia. now exists idx. }
      rewrite E3. exists m3, (Some (ev, new_array so b2 [n; n])). split; [reflexivity|]. split; [intros q Q1 Q2; rewrite Hu3, Hu2, Hu by auto; reflexivity|].
      intros ev' z' Ez. injection Ez as <- <-. split; [reflexivity|]. split; [exact Hl|]. revert Hz. apply eigen_ext; [reflexivity|]. intros i j Hi Hj. unfold entry at 1. rewrite Hv3 by auto. cbn [rhs_value]. symmetry. now apply (Hzv eq_refl).
    + exists m2, None. split; [reflexivity|]. split; [intros q Q1 Q2; rewrite Hu2, Hu by auto; reflexivity|]. intros; discriminate.
Qed.
End Eigen.
