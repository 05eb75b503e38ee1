(** Uniqueness of the inverse; programs for which the LAPACK wrappers do not do what was meant. *)
From Coq Require Import Ring Field.
From Verif Require Import Base M_Perm M_IdxMap M_Slice M_Loops M_Assign M_Expr M_Transform M_Blas M_Lapack S_Layout S_Loops S_Assign S_Blas S_Lapack
  L_Perm L_IdxMap L_Layout L_Loops L_Assign L_Transform L_Factory L_Blas L_Blas2 L_Blas3 L_Blas4 L_Lapack L_Lapack2 L_Lapack3.

Lemma order_C : is_order 2 [0; 1]%nat.
Proof. unfold is_order. cbn [seq]. reflexivity. Qed.

(** blocks of larger arrays *)
Lemma blas_usable v r c : blas_matrix v r c -> length (im_se (v_lay v)) = 2%nat -> im_prop (v_lay v) = LP_none -> usable (v_lay v).
Proof.
  intros HB Hse Hp. pose proof (blas_len v r c HB) as El. pose proof (blas_order_is v r c HB) as Ho. split; [split|].
  - split; [|split; [|split; [|split]]]; rewrite ?El; cbn [length]; auto; try lia.
    + destruct HB as (_ & _ & _ & _ & ld & _ & [H|H]); rewrite (proj1 (proj2 (proj2 H))); reflexivity.
    + destruct HB as (Hr & Hc & _). repeat constructor; auto.
  - unfold flags_true. rewrite Hp. split; discriminate.
  - intros i j Hi Hj E. destruct (in_view2_inv v r c i El Hi) as (i0 & i1 & -> & Hi0 & Hi1). destruct (in_view2_inv v r c j El Hj) as (j0 & j1 & -> & Hj0 & Hj1).
    assert (Ec : cell v [i0; i1] = cell v [j0; j1]) by (unfold cell; now rewrite E).
    destruct HB as (_ & _ & _ & _ & ld & _ & [H|H]); pose proof (proj2 (proj2 (proj2 H))) as Hld.
    + rewrite !(row_major_cell v r c ld) in Ec by auto. assert (i0 = j0 /\ i1 = j1) as [-> ->]; [|reflexivity]. destruct (col_major_inj (v_base v) ld c i1 i0 j1 j0) as [-> ->]; auto; [lia|]. unfold col_major. lia.
    + rewrite !(column_major_cell v r c ld) in Ec by auto. destruct (col_major_inj (v_base v) ld r i0 i1 j0 j1) as [-> ->]; auto. lia.
Qed.

Section Facts.
Context {V : Type} (A : arith V) (F : is_field A) (is0 : V -> bool) (Z0 : decides_zero A is0) (L : lapack V).
Let R : is_ring A := F_R F.
Let Rth : ring_theory (v_zero A) (v_one A) (v_add A) (v_mul A) (v_sub A) (v_opp A) eq := R.
Add Ring VRF : Rth.
Declare Scope fs. Local Notation "x + y" := (v_add A x y) : fs. Local Notation "x * y" := (v_mul A x y) : fs. Local Notation "x - y" := (v_sub A x y) : fs. Local Notation "- x" := (v_opp A x) : fs.
Delimit Scope fs with fs.
Notation "0v" := (v_zero A). Notation "1v" := (v_one A).

Lemma product_unit_l n b i j : 0 <= i < n -> product_at A n (unit_matrix A) b i j = b i j.
Proof.
  intros Hi. unfold product_at. rewrite (sum_to_pick A R n i _ Hi), (sum_to_zero A R); unfold unit_matrix; [rewrite Z.eqb_refl; ring|]. intros l Hl. destruct (Z.eqb_spec l i); [reflexivity|]. destruct (Z.eqb_spec i l); [congruence|ring].
Qed.
Lemma product_unit_r n b i j : 0 <= j < n -> product_at A n b (unit_matrix A) i j = b i j.
Proof.
  intros Hj. unfold product_at. rewrite (sum_to_pick A R n j _ Hj), (sum_to_zero A R); unfold unit_matrix; [rewrite Z.eqb_refl; ring|]. intros l Hl. destruct (Z.eqb_spec l j); [reflexivity|]. ring.
Qed.
Lemma inverse_unique n a x y : inverse_of A n a x -> inverse_of A n a y -> forall i j, 0 <= i < n -> 0 <= j < n -> x i j = y i j.
Proof.
  intros Hx Hy i j Hi Hj. rewrite <- (product_unit_r n x i j Hj), <- (product_unit_l n y i j Hi). transitivity (product_at A n x (product_at A n a y) i j).
  - unfold product_at at 1 2. apply sum_to_ext. intros l Hl. f_equal. symmetry. now apply Hy.
  - rewrite <- (product_assoc A R). unfold product_at at 1 3. apply sum_to_ext. intros l Hl. f_equal. now apply Hx.
Qed.
Lemma one_neq_zero : 1v <> 0v.
Proof. exact (F_1_neq_0 F). Qed.
Lemma opp_one_neq_zero : (- 1v)%fs <> 0v.
Proof. intros C. apply one_neq_zero. transitivity (- - 1v)%fs; [ring|]. rewrite C. ring. Qed.

Lemma inverse2_fails_changed checks : exists v m m', im_len (v_lay v) = [2; 2] /\ usable (v_lay v) /\ inverse_in_place A is0 L checks v m = BRet (m', false) /\ entry v m' 0 0 <> entry v m 0 0.
Proof.
  pose (v := new_array [0; 1]%nat 0 [2; 2]). pose (m := (fun a => if a =? 0 then 1v else 0v) : mem V).
  assert (U : usable (v_lay v)) by (apply new_usable2; [exact order_C|lia|lia]).
  assert (Hz : is0 (0v * 1v - 0v * 0v)%fs = true) by (apply Z0; ring).
  assert (Em : m (elem v [1; 1]) = 0v /\ m (elem v [0; 0]) = 1v /\ m (elem v [0; 1]) = 0v /\ m (elem v [1; 0]) = 0v) by (repeat split). destruct Em as (E11 & E00 & E01 & E10).
  assert (E : inverse2_in_place A is0 v m = (put v 1 1 1v (put v 0 0 0v m), false)).
  { unfold inverse2_in_place. cbv zeta. rewrite !(put_at v 2 2) by (auto; lia). cbn [Z.eqb Pos.eqb andb]. now rewrite E11, E00, E01, E10, Hz. }
  exists v, m, (put v 1 1 1v (put v 0 0 0v m)). split; [reflexivity|]. split; [exact U|]. split.
  - unfold inverse_in_place. change (extent v 0) with 2. change (extent v 1) with 2. cbn [Z.eqb Pos.eqb]. rewrite expects_true. change (size (v_lay v) =? 0) with false. cbn iota. now rewrite E.
  - unfold entry. rewrite <- !(elem_cell2 v 2 2) by auto. rewrite !(put_at v 2 2) by (auto; lia). cbn [Z.eqb andb]. rewrite E00. intros C. apply one_neq_zero. now symmetry.
Qed.

(** getrf of a 2 by 3 matrix stored by rows: cells after the matrix are written *)
Lemma getrf_rows checks : getrf_promise A L -> let v := new_array [0; 1]%nat 0 [2; 3] in
  exists (m : mem V) m' r, getrf L checks v m = BRet (m', r) /\ exists q, ~ is_cell_of v q /\ m' q <> m q.
Proof.
  intros PF v. pose (m := (fun a => if (a =? 0) || (a =? 1) || (a =? 6) then 1v else 0v) : mem V).
  destruct (PF 2 3 0 3 m ltac:(lia) ltac:(lia) ltac:(lia)) as (m' & ipiv & info & E & (Hlen & Hp & Hlu) & _). exists m, m', (ipiv, info). split; [unfold getrf; change (min_stride (v_lay v) =? 1) with true; rewrite expects_true; change (int32 (extent v 0)) with 2; change (int32 (extent v 1)) with 3; change (get_ld v) with 3; change (v_base v) with 0; exact E|].
  assert (Hout : forall q, 6 <= q -> ~ is_cell_of v q) by (intros q Hq C; apply (new_cells2 [0; 1]%nat 0 2 3 q order_C ltac:(lia) ltac:(lia)) in C; unfold block in C; lia).
  change (Z.min 2 3) with 2 in *. destruct ipiv as [|p [|p' [|? ?]]]; cbn [length] in Hlen; try lia. pose proof (Hp 0 ltac:(lia)) as Hp0. pose proof (Hp 1 ltac:(lia)) as Hp1. change (nthZ [p; p'] (Z.to_nat 0)) with p in Hp0. change (nthZ [p; p'] (Z.to_nat 1)) with p' in Hp1. assert (p' = 2) as -> by lia.
  set (f := seen m' 0 3) in *.
  assert (Hl : forall i j, 0 <= i < 2 -> 0 <= j < 3 -> (0v + lower_of A f i 0 * upper_of A f 0 j + lower_of A f i 1 * upper_of A f 1 j)%fs = interchanged [p; 2] (seen m 0 3) i j).
  { intros i j Hi Hj. symmetry. exact (Hlu i j Hi Hj). }
  pose proof (Hl 0 0 ltac:(lia) ltac:(lia)) as H00. pose proof (Hl 1 0 ltac:(lia) ltac:(lia)) as H10. pose proof (Hl 0 2 ltac:(lia) ltac:(lia)) as H02. pose proof (Hl 1 2 ltac:(lia) ltac:(lia)) as H12. clear Hl Hlu PF E.
  unfold lower_of, upper_of in *. cbn [Z.ltb Z.leb Z.eqb Z.compare Pos.compare Pos.compare_cont] in *.
  assert (Ef : f 0 2 = m' 6 /\ f 1 2 = m' 7) by (split; reflexivity). destruct Ef as [Ef2 Ef7].
  assert (Hcases : p = 1 \/ p = 2) by lia. destruct Hcases as [->| ->].
  - change (interchanged [1; 2] (seen m 0 3) 0 0) with 1v in H00. change (interchanged [1; 2] (seen m 0 3) 1 0) with 1v in H10. change (interchanged [1; 2] (seen m 0 3) 0 2) with 1v in H02. change (interchanged [1; 2] (seen m 0 3) 1 2) with 0v in H12.
    exists 7. split; [apply Hout; lia|]. rewrite <- Ef7. change (m 7) with 0v. intros C. rewrite C in H12.
    assert (E1 : f 0 0 = 1v) by (rewrite <- H00; ring). assert (E2 : f 1 0 = 1v) by (rewrite <- H10, E1; ring). assert (E3 : f 0 2 = 1v) by (rewrite <- H02; ring). rewrite E2, E3 in H12. apply one_neq_zero. rewrite <- H12. ring.
  - change (interchanged [2; 2] (seen m 0 3) 0 2) with 0v in H02. exists 6. split; [apply Hout; lia|]. rewrite <- Ef2. change (m 6) with 1v. intros C. rewrite C in H02. apply one_neq_zero. rewrite <- H02. ring.
Qed.

(** the solution of [[1, 1], [0, 1]] Y = [[0, 1], [0, 0]] *)
Lemma shear_solution (t y b : Z -> Z -> V) : t 0 0 = 1v -> t 0 1 = 1v -> t 1 0 = 0v -> t 1 1 = 1v -> b 0 0 = 0v -> b 0 1 = 1v -> b 1 0 = 0v -> b 1 1 = 0v ->
  (forall i j, 0 <= i < 2 -> 0 <= j < 2 -> product_at A 2 t y i j = b i j) -> y 0 0 = 0v /\ y 0 1 = 1v.
Proof.
  intros T00 T01 T10 T11 B00 B01 B10 B11 H. pose proof (H 0 0 ltac:(lia) ltac:(lia)) as H00. pose proof (H 0 1 ltac:(lia) ltac:(lia)) as H01. pose proof (H 1 0 ltac:(lia) ltac:(lia)) as H10. pose proof (H 1 1 ltac:(lia) ltac:(lia)) as H11. clear H.
  unfold product_at in *. change (sum_to A 2 ?g) with (0v + g 0%Z + g 1%Z)%fs in *. cbv beta in *. rewrite T00, T01, B00 in H00. rewrite T00, T01, B01 in H01. rewrite T10, T11, B10 in H10. rewrite T10, T11, B11 in H11.
  assert (E10 : y 1 0 = 0v) by (rewrite <- H10; ring). assert (E11 : y 1 1 = 0v) by (rewrite <- H11; ring). rewrite E10 in H00. rewrite E11 in H01. split; [rewrite <- H00|rewrite <- H01]; ring.
Qed.
Lemma shear_inverse (t : Z -> Z -> V) : t 0 0 = 1v -> t 0 1 = 1v -> t 1 0 = 0v -> t 1 1 = 1v -> exists x, inverse_of A 2 t x.
Proof.
  intros T00 T01 T10 T11. exists (fun i j => if i =? j then 1v else if i =? 0 then (- 1v)%fs else 0v). intros i j Hi Hj. revert i Hi. apply cases2; revert j Hj; apply cases2; unfold product_at, unit_matrix; change (sum_to A 2 ?g) with (0v + g 0%Z + g 1%Z)%fs; cbv beta; rewrite ?T00, ?T01, ?T10, ?T11; cbn [Z.eqb Pos.eqb]; split; ring.
Qed.
(** getrs with the right-hand sides stored by rows *)
Lemma getrs_rows cj checks : getrf_promise A L -> getrs_promise A cj L -> let a := new_array [1; 0]%nat 0 [2; 2] in let b := new_array [0; 1]%nat 4 [2; 2] in
  exists (m : mem V) m1 ipiv m2, getrf L checks a m = BRet (m1, (ipiv, 0)) /\ getrs L checks a b ipiv m1 = BRet (m2, 0) /\ product_at A 2 (entry a m) (entry b m2) 0 0 <> entry b m 0 0.
Proof.
  intros PF PS a b. pose (m := (fun q => if (q =? 0) || (q =? 2) || (q =? 3) || (q =? 6) then 1v else 0v) : mem V).
  assert (HA : column_major a 2 2 2) by (apply (new_column 0 2); lia).
  assert (I2 : int_range 2) by (unfold int_range; lia). assert (HB : blas_matrix a 2 2) by (split; [lia|]; split; [lia|]; exact (conj I2 (conj I2 (ex_intro _ 2 (conj I2 (or_intror HA)))))).
  destruct (getrf_square A L checks a 2 m PF HB) as (m1 & ipiv & info & E & _ & Hlu & Hu & Hi & Hi0 & Hi1). assert (Hs : sees a 2 m = entry a m) by reflexivity. rewrite Hs in Hlu.
  assert (HseeA : forall (w : mem V) i j, entry a w i j = seen w 0 2 i j) by (intros w i j; unfold entry; now rewrite (column_major_cell a 2 2 2) by exact HA). change (v_base a) with 0 in Hlu. change (get_ld a) with 2 in Hlu.
  assert (Ei : info = 0).
  { destruct (Z.eq_dec info 0) as [|Hne]; [auto|]. exfalso. destruct (shear_inverse (entry a m)) as (x & Hx); try reflexivity. pose proof (lu_invertible A F 2 ipiv _ _ x Hlu Hx (info - 1) ltac:(lia)) as Hd. apply Hd. rewrite <- HseeA. apply Hi1. lia. }
  subst info. specialize (Hi0 eq_refl). assert (Hd0 : forall i, 0 <= i < 2 -> seen m1 0 2 i i <> 0v) by (intros i Hi'; rewrite <- HseeA; now apply Hi0).
  assert (Hcells : forall q, 4 <= q -> m1 q = m q) by (intros q Hq; apply Hu; intros C; apply (new_cells2 [1; 0]%nat 0 2 2 q order_F ltac:(lia) ltac:(lia)) in C; unfold block in C; lia).
  destruct (PS OpN 2 2 0 2 ipiv 4 2 m1 (entry a m) ltac:(lia) ltac:(lia) ltac:(lia) ltac:(lia) Hlu Hd0) as (m2 & E2 & Hsol & _).
  { intros q (i & j & Hi' & Hj & ->) (i' & j' & Hi'' & Hj' & E'). unfold col_major in E'. lia. }
  exists m, m1, ipiv, m2. split; [exact E|]. split.
  { unfold getrs. change (Z.min (extent a 0) (extent a 1)) with 2. rewrite (proj1 Hlu). change (Z.min 2 2) with 2. rewrite Z.leb_refl, expects_true. change ((min_stride (v_lay a) =? 1) && (min_stride (v_lay b) =? 1)) with true. rewrite expects_true. change (get_op false (has_C_layout a)) with (Some OpN). cbn iota. change (get_ncols a) with 2. change (get_ncols b) with 2. change (v_base a) with 0. change (get_ld a) with 2. change (v_base b) with 4. change (get_ld b) with 2. exact E2. }
  assert (Hb : forall i j, 0 <= i < 2 -> 0 <= j < 2 -> seen m1 4 2 i j = seen m 4 2 i j) by (intros i j Hi' Hj; apply Hcells; unfold col_major; lia).
  destruct (shear_solution (entry a m) (seen m2 4 2) (seen m 4 2)) as [Y00 Y01]; try reflexivity.
  { intros i j Hi' Hj. rewrite <- (Hb i j Hi' Hj). exact (Hsol i j Hi' Hj). }
  assert (X00 : entry b m2 0 0 = seen m2 4 2 0 0) by reflexivity. assert (X10 : entry b m2 1 0 = seen m2 4 2 0 1) by reflexivity.
  unfold product_at. change (sum_to A 2 ?g) with (0v + g 0%Z + g 1%Z)%fs. cbv beta. rewrite X00, X10, Y00, Y01. change (entry a m 0 0) with 1v. change (entry a m 0 1) with 1v. change (entry b m 0 0) with 0v. intros C. apply one_neq_zero. rewrite <- C. ring.
Qed.
(** gtsv with the right-hand sides stored by rows *)
Lemma gtsv_rows checks : gtsv_promise A L -> let vec p n := new_array [0]%nat p [n] in let dl := vec 8 1 in let d := vec 10 2 in let du := vec 12 1 in let b := new_array [0; 1]%nat 4 [2; 2] in
  exists (m : mem V) m', gtsv L checks dl d du b m = BRet (m', 0) /\
    product_at A 2 (tridiagonal A (fun i => m (cell dl [i])) (fun i => m (cell d [i])) (fun i => m (cell du [i]))) (entry b m') 0 0 <> entry b m 0 0.
Proof.
  intros PT vec dl d du b. pose (m := (fun q => if (q =? 10) || (q =? 11) || (q =? 12) || (q =? 6) then 1v else 0v) : mem V).
  destruct (PT 2 2 8 10 12 4 2 m ltac:(lia) ltac:(lia) ltac:(lia)) as (m' & info & E & Hinv & Hsol & _); try (unfold block; intros; lia).
  { intros q (i & j & Hi & Hj & ->). unfold block, col_major. lia. }
  set (t := tridiagonal A (fun i => m (8 + i)) (fun i => m (10 + i)) (fun i => m (12 + i))) in *.
  rewrite Hinv in E, Hsol by (apply shear_inverse; reflexivity). specialize (Hsol eq_refl). exists m, m'. split.
  { unfold gtsv. change (int32 (extent d 0)) with 2. change (_ && _ && _) with true. rewrite expects_true. change (Nat.eqb (rank (v_lay b)) 2) with true. cbn iota. change (int32 (extent b 1)) with 2. change (v_base dl) with 8. change (v_base d) with 10. change (v_base du) with 12. change (v_base b) with 4. exact E. }
  destruct (shear_solution t (seen m' 4 2) (seen m 4 2)) as [Y00 Y01]; try reflexivity. { exact Hsol. }
  assert (X00 : entry b m' 0 0 = seen m' 4 2 0 0) by reflexivity. assert (X10 : entry b m' 1 0 = seen m' 4 2 0 1) by reflexivity.
  unfold product_at. change (sum_to A 2 ?g) with (0v + g 0%Z + g 1%Z)%fs. cbv beta. rewrite X00, X10, Y00, Y01. change (entry b m 0 0) with 0v. unfold tridiagonal. cbn [Z.eqb Z.add Pos.eqb]. change (m (cell d [0])) with 1v. change (m (cell du [0])) with 1v. intros C. apply one_neq_zero. rewrite <- C. ring.
Qed.
(** gtsv with a diagonal that is every second element of an array *)
Lemma gtsv_strided checks : gtsv_promise A L -> let vec p n := new_array [0]%nat p [n] in let dl := vec 8 1 in let d := View (IdxMap [2] [2] [0%nat] [0] LP_none) 10 in let du := vec 16 1 in let b := vec 4 2 in
  exists (m : mem V) m' info, gtsv L checks dl d du b m = BRet (m', info) /\ info <> 0 /\
    inverse_of A 2 (tridiagonal A (fun i => m (cell dl [i])) (fun i => m (cell d [i])) (fun i => m (cell du [i]))) (unit_matrix A).
Proof.
  intros PT vec dl d du b. pose (m := (fun q => if (q =? 10) || (q =? 12) || (q =? 5) then 1v else 0v) : mem V).
  destruct (PT 2 1 8 10 16 4 2 m ltac:(lia) ltac:(lia) ltac:(lia)) as (m' & info & E & Hinv & Hsol & _); try (unfold block; intros; lia).
  { intros q (i & j & Hi & Hj & ->). unfold block, col_major. lia. }
  exists m, m', info. split; [|split].
  - unfold gtsv. change (int32 (extent d 0)) with 2. change (_ && _ && _) with true. rewrite expects_true. change (Nat.eqb (rank (v_lay b)) 2) with false. cbn iota. change (v_base dl) with 8. change (v_base d) with 10. change (v_base du) with 16. change (v_base b) with 4. exact E.
  - intros E0. pose proof (Hsol E0 1 0 ltac:(lia) ltac:(lia)) as H. unfold product_at in H. change (sum_to A 2 ?g) with (0v + g 0%Z + g 1%Z)%fs in H. cbv beta in H. unfold tridiagonal in H. cbn [Z.eqb Z.add Pos.eqb Pos.add] in H.
    change (m 8) with 0v in H. change (m 11) with 0v in H. change (seen m 4 2 1 0) with 1v in H. apply one_neq_zero. rewrite <- H. ring.
  - intros i j Hi Hj. revert i Hi. apply cases2; revert j Hj; apply cases2; unfold product_at, unit_matrix, tridiagonal; change (sum_to A 2 ?g) with (0v + g 0%Z + g 1%Z)%fs; cbv beta; cbn [Z.eqb Z.add Pos.eqb Pos.add];
    change (m (cell d [0])) with 1v; change (m (cell d [1])) with 1v; change (m (cell dl [0])) with 0v; change (m (cell du [0])) with 0v; split; ring.
Qed.
End Facts.
