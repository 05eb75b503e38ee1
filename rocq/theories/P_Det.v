(** C48: determinants; the promises asked of LAPACK can be kept; examples for C47, C48, C51, C58. *)
From Verif Require Import Base M_Perm M_IdxMap M_Slice M_Loops M_Assign M_Expr M_Transform M_Blas M_Lapack S_Layout S_Assign S_Blas S_Lapack S_Det
  L_Assign L_Transform L_Factory L_Blas L_Blas2 L_Lapack L_Lapack2 L_Lapack3 L_Lapack4 L_Lu L_Det L_Ref P_Blas P_Lapack.
From mathcomp Require Import all_ssreflect all_fingroup all_algebra.
Import GRing.Theory.
Local Open Scope ring_scope.
Delimit Scope Z_scope with Z.

Section Determinant.
Variables (R : comRingType) (div : R -> R -> R) (L : lapack R).
Let A := ring_arith R div.

(** C48: over every commutative ring, with every library that keeps the promise of getrf, for every square matrix stored either way *)
Theorem C48_determinant_in_place checks v n (m : M_Assign.mem R) : getrf_promise A L -> blas_matrix v (Z.of_nat n) (Z.of_nat n) -> usable (v_lay v) ->
  exists m', determinant_in_place A L checks v m = BRet (m', Some (\det (mat_of n (entry v m)))) /\ unchanged_outside v m m'.
Proof.
  move=> PF HB U. case: n HB => [|n] HB.
  - exists m. split; [|by []]. rewrite /determinant_in_place (blas_size v _ _ HB) /=. by rewrite det_mx00.
  - have [m' [ipiv [E [Hlu Hu]]]] := determinant_in_place_lu A L checks v (Z.of_nat n.+1) m PF ltac:(lia) HB U. exists m'. split; [|exact: Hu]. rewrite {}E Nat2Z.id. congr (BRet (_, Some _)).
    have -> : \det (mat_of n.+1 (entry v m)) = \det (mat_of n.+1 (sees v (Z.of_nat n.+1) m)) by rewrite /sees; case: (has_F_layout v); [|rewrite mat_of_transposed det_tr].
    rewrite (det_lu _ _ _ _ _ _ Hlu) prod_nat_big.
    have -> : \prod_(i < n.+1) sees v (Z.of_nat n.+1) m' (Z.of_nat i) (Z.of_nat i) = \prod_(i < n.+1) entry v m' (Z.of_nat i) (Z.of_nat i) by apply: eq_bigr => i _; rewrite /sees /transposed; case: (has_F_layout v).
    reflexivity.
Qed.
(** determinant: of a matrix or expression; nothing but new memory is written *)
Theorem C48_determinant checks b so n (r : rhs R) (m : M_Assign.mem R) : getrf_promise A L -> int_range (Z.of_nat n) -> is_order 2 so -> square_source r (Z.of_nat n) b ->
  exists m', M_Lapack.determinant A L checks b so [:: Z.of_nat n; Z.of_nat n] r m = BRet (m', Some (\det (mat_of n (fun i j => rhs_value r m [:: i; j])))) /\
    (forall q, ~ block b (Z.of_nat n * Z.of_nat n) q -> m' q = m q).
Proof.
  move=> PF In Ho [H1 H2]. have Hn : (0 <= Z.of_nat n)%Z by lia. rewrite /M_Lapack.determinant.
  have [m1 [E [Hv Hu]]] := copy_value checks so b (Z.of_nat n) (Z.of_nat n) r m Ho Hn Hn H1 H2. rewrite {}E. set c := new_array so b _ in Hv *.
  have Ud : usable (v_lay c) by apply: new_usable2.
  have Em : mat_of n (entry c m1) = mat_of n (fun i j => rhs_value r m [:: i; j]) by apply: mat_of_ext => i j Hi Hj; exact: Hv.
  case: (Z.eq_dec (Z.of_nat n) 0) => [E0|Hne].
  - exists m1. rewrite /determinant_in_place. have ->   : M_IdxMap.size (v_lay c) = 0%Z by rewrite /M_IdxMap.size new_array_len E0. split; [|exact: Hu]. rewrite /=. have : n = O by lia. move=> En. subst n. by rewrite det_mx00.
  - have HB : blas_matrix c (Z.of_nat n) (Z.of_nat n) by apply: new_blas => //; lia.
    have [m2 [E Hu2]] := C48_determinant_in_place checks c n m1 PF HB Ud. exists m2. rewrite E Em. split; [by []|]. move=> q Hq. rewrite Hu2; [exact: Hu|]. move=> C. apply: Hq. exact: (proj1 (new_cells2 so b _ _ q Ho Hn Hn)).
Qed.
(** a matrix that is not square and not empty is refused, an empty one has determinant 1 *)
Theorem C48_not_square checks v r c (m : M_Assign.mem R) : im_len (v_lay v) = [:: r; c] -> r <> c ->
  determinant_in_place A L checks v m = BRet (m, if (r * c =? 0)%Z then Some 1 else None).
Proof.
  move=> El Hne. have Es   : M_IdxMap.size (v_lay v) = (r * c)%Z by rewrite /M_IdxMap.size El; cbn [fold_left]; rewrite Z.mul_1_l. rewrite /determinant_in_place Es /extent /nthZ El. case: Z.eqb_spec => // _. cbn [nth]. by case: Z.eqb_spec.
Qed.
End Determinant.
Print Assumptions C48_determinant_in_place.
Print Assumptions C48_determinant.
Print Assumptions C48_not_square.

(** C47 with determinants: inverse_in_place fails exactly if the determinant is 0 *)
Theorem C47_determinant (K : fieldType) (L : lapack K) checks v n (m : M_Assign.mem K) : im_len (v_lay v) = [:: Z.of_nat n; Z.of_nat n] -> usable (v_lay v) ->
  ((n <= 3)%N \/ blas_matrix v (Z.of_nat n) (Z.of_nat n) /\ getrf_promise (field_arith K) L /\ getri_promise (field_arith K) L) ->
  exists m' ok, inverse_in_place (field_arith K) (zero_test K) L checks v m = BRet (m', ok) /\ (ok = true <-> \det (mat_of n (entry v m)) != 0) /\
    (ok = true -> mat_of n (entry v m') = invmx (mat_of n (entry v m))).
Proof.
  move=> El U H. have H' : (Z.of_nat n <= 3)%Z \/ blas_matrix v (Z.of_nat n) (Z.of_nat n) /\ getrf_promise (field_arith K) L /\ getri_promise (field_arith K) L by case: H => [/leP Hn|]; [left; lia|right].
  have [m' [ok [E [Hok [Hi _]]]]] := C47_inverse_in_place (field_arith K) (field_arith_ok K) (zero_test K) (zero_test_ok K) L checks v (Z.of_nat n) m ltac:(lia) El U H'.
  exists m', ok. split; [exact: E|]. have Ed : det_fun K (Z.of_nat n) (entry v m) = \det (mat_of n (entry v m)) by rewrite /det_fun Nat2Z.id. have Hdet : ok = true <-> \det (mat_of n (entry v m)) != 0.
  { rewrite Hok. split => [[x Hx]|Hd].
    - rewrite -Ed. apply/eqP. exact: (det_fun_nonzero K (Z.of_nat n) _ x ltac:(lia) Hx).
    - exists (inverse_fun K (Z.of_nat n) (entry v m)). apply: inverse_fun_ok; [lia|]. rewrite Ed. by apply/eqP. }
  split; [exact: Hdet|]. move=> Et. have Hu : mat_of n (entry v m) \in unitmx by rewrite unitmxE unitfE; apply/Hdet.
  have Ep : mat_of n (entry v m) *m mat_of n (entry v m') = 1%:M.
  { rewrite -(mat_of_product K (fun x y => x / y)). apply/matrixP => i j. rewrite !mxE. have Hi' := proj1 (zltn i n) (ltn_ord i). have Hj := proj1 (zltn j n) (ltn_ord j).
    rewrite (proj1 (Hi Et (Z.of_nat i) (Z.of_nat j) ltac:(lia) ltac:(lia))) /unit_matrix -val_eqE /=. case: Z.eqb_spec => [E1|E1]; case: eqP => // E2; [by case: E2; apply: Nat2Z.inj|by case: E1; rewrite E2]. }
  by rewrite -[LHS]mul1mx -(mulVmx Hu) -mulmxA Ep mulmx1.
Qed.
Print Assumptions C47_determinant.

(** The promises: there is such a library over every field, with any conjugation (it finds the eigenvalues of diagonal matrices only). *)
Theorem C51_promises_kept (K : fieldType) (cj : {rmorphism K -> K}) : let A := field_arith K in let L := ref_lapack K cj in
  is_field A /\ decides_zero A (zero_test K) /\ getrf_promise A L /\ getri_promise A L /\ getrs_promise A cj L /\ gtsv_promise A L /\ syev_promise A cj L.
Proof.
  split; [exact: field_arith_ok|]. split; [exact: zero_test_ok|]. split; [exact: ref_getrf_promise|]. split; [exact: ref_getri_promise|]. split; [exact: ref_getrs_promise|]. split; [exact: ref_gtsv_promise|exact: ref_syev_promise].
Qed.
Print Assumptions C51_promises_kept.

(** Examples: rational numbers, a 5 by 5 block of an array with rows of 7, and one with columns of 6 *)
Definition Lq := ref_lapack rat_fieldType [rmorphism of idfun].
Definition rows5 (b : Z) : view := ex_view [:: 0; 1]%nat [:: 5; 5]%Z [:: 7; 1]%Z b.
Definition columns5 (b : Z) : view := ex_view [:: 1; 0]%nat [:: 5; 5]%Z [:: 1; 6]%Z b.
Lemma rows5_ok b : blas_matrix (rows5 b) 5 5.
Proof. ex_blas 7%Z. Qed.
Lemma columns5_ok b : blas_matrix (columns5 b) 5 5.
Proof. ex_blas 6%Z. Qed.
Lemma rows5_usable b : usable (v_lay (rows5 b)).
Proof. exact: (blas_usable _ _ _ (rows5_ok b)). Qed.
Lemma columns5_usable b : usable (v_lay (columns5 b)).
Proof. exact: (blas_usable _ _ _ (columns5_ok b)). Qed.

Section Instances.
Variable m : M_Assign.mem rat.
Local Open Scope Z_scope.
Example C47_ex_rows : exists m' ok, inverse_in_place (field_arith _) (zero_test _) Lq true (rows5 100) m = BRet (m', ok) /\ (ok = true <-> exists x, inverse_of (field_arith _) 5 (entry (rows5 100) m) x).
Proof.
  have [m' [ok [E [Hok _]]]] := C47_inverse_in_place (field_arith rat_fieldType) (field_arith_ok _) (zero_test _) (zero_test_ok _) Lq true (rows5 100) 5 m ltac:(lia) erefl (rows5_usable 100)
    (or_intror (conj (rows5_ok 100) (conj (ref_getrf_promise _ _) (ref_getri_promise _ _)))).
  exists m', ok. split; [exact: E|exact: Hok].
Qed.
Example C48_ex_rows : exists m', determinant_in_place (field_arith _) Lq true (rows5 100) m = BRet (m', Some (\det (mat_of 5 (entry (rows5 100) m)))).
Proof.
  have [m' [E _]] := C48_determinant_in_place (GRing.Field.comRingType rat_fieldType) (fun x y => x / y)%R Lq true (rows5 100) 5 m (ref_getrf_promise _ _) (rows5_ok 100) (rows5_usable 100). exists m'. exact: E.
Qed.
Lemma ex_apart : S_Assign.disjoint (rows5 100) (columns5 200).
Proof. ex_cells. Qed.
Example C51_ex_getrs : exists m1 ipiv info, getrf Lq true (rows5 100) m = BRet (m1, (ipiv, info)) /\ (info = 0 -> exists m2, getrs Lq true (rows5 100) (columns5 200) ipiv m1 = BRet (m2, 0)).
Proof.
  have Hc : column_major (columns5 200) 5 5 6 by split; [|split; [|split; [|lia]]].
  have [m1 [ipiv [info [E [_ H]]]]] := C51_getrs (field_arith rat_fieldType) Lq idfun true (rows5 100) (columns5 200) 5 5 6 m (field_arith_ok _) (ref_getrf_promise _ _) (ref_getrs_promise _ _) (rows5_ok 100) ltac:(lia)
    (proj1 (proj2 (proj2 (rows5_ok 0)))) ltac:(unfold int_range; lia) Hc ex_apart.
  exists m1, ipiv, info. split; [exact: E|]. move=> E0. have [m2 [E2 _]] := H E0. exists m2. exact: E2.
Qed.
(** a diagonal matrix: the library of the examples finds its eigenvalues *)
Example C58_ex : let d := fun (_ : M_Assign.mem rat) (idx : list Z) => if nthZ idx 0 =? nthZ idx 1 then (2%:Q + 1)%R else 0%R in
  (forall i j, rhs_value (RExpr d) m [:: j; i] = rhs_value (RExpr d) m [:: i; j]) /\ square_source (RExpr d) 3 500 /\
  exists m' res, eigenelements Lq true 500 600 [:: 0; 1]%nat [:: 3; 3] (RExpr d) m = BRet (m', res).
Proof.
  move=> d. have Hs : forall i j, rhs_value (RExpr d) m [:: j; i] = rhs_value (RExpr d) m [:: i; j] by move=> i j; rewrite /d /rhs_value /nthZ; cbn [nth]; rewrite Z.eqb_sym.
  have Hq : square_source (RExpr d) 3 500 by split; [by []|by []]. split; [exact: Hs|]. split; [exact: Hq|].
  have [m' [res [E _]]] := C58_eigenelements (field_arith rat_fieldType) idfun Lq true 500 600 [:: 0; 1]%nat 3 (RExpr d) m (ref_syev_promise _ _) ltac:(lia) ltac:(unfold int_range; lia) order_C Hq
    ltac:(unfold block; lia) (fun i j _ _ => Hs i j). exists m', res. exact: E.
Qed.
End Instances.
