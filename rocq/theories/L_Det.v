(** Proofs about determinants, and a library that keeps the promises of S_Lapack. *)
From Verif Require Import Base M_Perm M_IdxMap M_Slice M_Loops M_Assign M_Expr M_Transform M_Blas M_Lapack S_Layout S_Assign S_Blas S_Lapack S_Det L_Lapack L_Lapack2 L_Lapack3.
From mathcomp Require Import all_ssreflect all_fingroup all_algebra.
Import GRing.Theory.
Local Open Scope ring_scope.
Delimit Scope Z_scope with Z.

Lemma zltn (n k : nat) : (n < k)%N <-> (Z.of_nat n < Z.of_nat k)%Z.
Proof. split; [move/ltP; lia|move=> H; apply/ltP; lia]. Qed.

Section Det.
Variables (R : comRingType) (div : R -> R -> R).
Let A := ring_arith R div.

Lemma sum_nat_big n (g : Z -> R) : sum_nat A n g = \sum_(i < n) g (Z.of_nat i).
Proof. elim: n => [|n IH] /=; [by rewrite big_ord0|]. by rewrite big_ord_recr /= IH. Qed.
Lemma prod_nat_big n (g : Z -> R) : prod_nat A n g = \prod_(i < n) g (Z.of_nat i).
Proof. elim: n => [|n IH] /=; [by rewrite big_ord0|]. by rewrite big_ord_recr /= IH. Qed.
Lemma mat_of_ext n (a b : Z -> Z -> R) : (forall i j, (0 <= i < Z.of_nat n)%Z -> (0 <= j < Z.of_nat n)%Z -> a i j = b i j) -> mat_of n a = mat_of n b.
Proof. move=> H. apply/matrixP => i j. rewrite !mxE. have Hi := proj1 (zltn i n) (ltn_ord i). have Hj := proj1 (zltn j n) (ltn_ord j). apply: H; lia. Qed.
Lemma mat_of_product n (a b : Z -> Z -> R) : mat_of n (product_at A (Z.of_nat n) a b) = mat_of n a *m mat_of n b.
Proof. apply/matrixP => i j. rewrite !mxE /product_at /sum_to Nat2Z.id sum_nat_big. by apply: eq_bigr => k _; rewrite !mxE. Qed.
Lemma mat_of_transposed n (a : Z -> Z -> R) : mat_of n (transposed a) = (mat_of n a)^T.
Proof. by apply/matrixP => i j; rewrite !mxE. Qed.
Lemma det_swap_rows n (a : Z -> Z -> R) (p q : nat) : (p < n)%N -> (q < n)%N -> \det (mat_of n (swap_rows (Z.of_nat p) (Z.of_nat q) a)) = (if p == q then 1 else -1) * \det (mat_of n a).
Proof.
  move=> Hp Hq. pose P := Ordinal Hp. pose Q := Ordinal Hq.
  have -> : mat_of n (swap_rows (Z.of_nat p) (Z.of_nat q) a) = xrow P Q (mat_of n a).
  { apply/matrixP => i j. rewrite !mxE /swap_rows. congr (a _ _). case: tpermP => [->|->|Hi1 Hi2] /=.
    - by rewrite Z.eqb_refl.
    - case: Z.eqb_spec => [E|_]; [by rewrite E|by rewrite Z.eqb_refl].
    - case: Z.eqb_spec => [E|_]; [by case: Hi1; apply: val_inj; apply: Nat2Z.inj|]. case: Z.eqb_spec => [E|//]. by case: Hi2; apply: val_inj; apply: Nat2Z.inj. }
  rewrite xrowE det_mulmx det_perm odd_tperm -val_eqE /=. by case: (p == q); rewrite ?expr0 ?expr1.
Qed.
Lemma interchange_snoc l : forall i0 p (a : Z -> Z -> R), interchange_from i0 (l ++ [:: p]) a = swap_rows (i0 + Z.of_nat (length l))%Z (p - 1)%Z (interchange_from i0 l a).
Proof.
  elim: l => [|x l IH] i0 p a /=; [by rewrite Z.add_0_r|]. rewrite IH. have -> : (i0 + 1 + Z.of_nat (length l) = i0 + Z.pos (Pos.of_succ_nat (length l)))%Z by lia. by [].
Qed.
Lemma det_interchanged n ipiv (a : Z -> Z -> R) : Z.of_nat (length ipiv) = Z.of_nat n -> (forall i, (0 <= i < Z.of_nat n)%Z -> (i + 1 <= nthZ ipiv (Z.to_nat i) <= Z.of_nat n)%Z) ->
  forall k, (k <= n)%N -> \det (mat_of n (interchanged (firstn k ipiv) a)) = (if (flips k ipiv mod 2 =? 1)%Z then -1 else 1) * \det (mat_of n a).
Proof.
  move=> Hl Hp. elim=> [|k IH] Hk; [by rewrite /= mul1r|].
  have Hk' := proj1 (zltn k n) Hk. have Ek : firstn (S k) ipiv = firstn k ipiv ++ [:: nthZ ipiv k].
  { apply: firstn_snoc. lia. }
  rewrite Ek /interchanged interchange_snoc firstn_length_le; [|lia]. rewrite Z.add_0_l.
  have Hpk := Hp (Z.of_nat k) ltac:(lia). rewrite Nat2Z.id in Hpk.
  have -> : (nthZ ipiv k - 1 = Z.of_nat (Z.to_nat (nthZ ipiv k - 1)))%Z by rewrite Z2Nat.id; lia.
  rewrite det_swap_rows //; [|by apply/zltn; rewrite Z2Nat.id; lia]. rewrite -/(interchanged _ a) IH; [|exact: ltnW]. rewrite mulrA. congr (_ * _). cbn [flips].
  have -> : (k == Z.to_nat (nthZ ipiv k - 1)) = (nthZ ipiv k =? Z.of_nat k + 1)%Z.
  { apply/eqP/idP => [E|/Z.eqb_spec ->]; [apply/Z.eqb_spec; lia|lia]. }
  case: (nthZ ipiv k =? _)%Z; [by rewrite mul1r|]. rewrite Z.add_mod; [|lia]. have := Z.mod_pos_bound (flips k ipiv) 2 ltac:(lia). move=> Hb.
  have [->|->] : (flips k ipiv mod 2 = 0 \/ flips k ipiv mod 2 = 1)%Z by lia.
  - by rewrite /= mulr1.
  - by rewrite /= mulrNN mulr1.
Qed.
Lemma det_lower n (f : Z -> Z -> R) : \det (mat_of n (lower_of A f)) = 1.
Proof.
  rewrite det_trig.
  - apply: big1 => i _. by rewrite mxE /lower_of Z.ltb_irrefl Z.eqb_refl.
  - apply/is_trig_mxP => i j Hij. rewrite mxE /lower_of. have H := proj1 (zltn i j) Hij. case: Z.ltb_spec => [|_]; [lia|]. case: Z.eqb_spec => [|_]; [lia|by []].
Qed.
Lemma det_upper n (f : Z -> Z -> R) : \det (mat_of n (upper_of A f)) = \prod_(i < n) f (Z.of_nat i) (Z.of_nat i).
Proof.
  rewrite -det_tr det_trig.
  - apply: eq_bigr => i _. by rewrite !mxE /upper_of Z.leb_refl.
  - apply/is_trig_mxP => i j Hij. rewrite !mxE /upper_of. have H := proj1 (zltn i j) Hij. case: Z.leb_spec => [|_]; [lia|by []].
Qed.
Lemma det_lu n ipiv (a f : Z -> Z -> R) : lu_of A (Z.of_nat n) (Z.of_nat n) ipiv a f ->
  \det (mat_of n a) = (if (flips n ipiv mod 2 =? 1)%Z then - \prod_(i < n) f (Z.of_nat i) (Z.of_nat i) else \prod_(i < n) f (Z.of_nat i) (Z.of_nat i)).
Proof.
  rewrite /lu_of Z.min_id. move=> [Hl [Hp Hlu]]. have E := det_interchanged n ipiv a Hl Hp n (leqnn n). rewrite firstn_all2 in E; [|lia].
  rewrite (mat_of_ext n _ _ Hlu) mat_of_product det_mulmx det_lower det_upper mul1r in E. rewrite E. case: (_ =? 1)%Z; by rewrite ?mulN1r ?opprK ?mul1r.
Qed.
End Det.
