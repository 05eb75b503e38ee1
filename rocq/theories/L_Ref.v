(** A LAPACK library over any field that keeps the promises of S_Lapack. *)
From Verif Require Import Base M_Perm M_IdxMap M_Slice M_Loops M_Assign M_Expr M_Transform M_Blas M_Lapack S_Layout S_Assign S_Blas S_Lapack S_Det L_Loops L_Blas L_Blas2 L_Lapack L_Lapack2 L_Lapack3 L_Lu L_Det.
From mathcomp Require Import all_ssreflect all_fingroup all_algebra.
Import GRing.Theory.
Local Open Scope ring_scope.
Delimit Scope Z_scope with Z.

Section Undo.
Context {V : Type}.
Implicit Types a b : Z -> Z -> V.
Fixpoint undo (i0 : Z) (l : list Z) b : Z -> Z -> V := match l with nil => b | (p :: l)%list => swap_rows i0 (p - 1)%Z (undo (i0 + 1)%Z l b) end.
Lemma undo_interchange l : forall i0 a i j, undo i0 l (interchange_from i0 l a) i j = a i j.
Proof.
  elim: l => [|p l IH] i0 a i j //=. rewrite /swap_rows -/(swap_rows i0 (p - 1) a) IH. rewrite /swap_rows. congr (a _ j). case: (Z.eqb_spec i i0) => [->|H1]; [case: (Z.eqb_spec (p - 1) i0) => [->|H2]; [done|by rewrite Z.eqb_refl]|].
  case: (Z.eqb_spec i (p - 1)) => [->|H2]; [by rewrite Z.eqb_refl|]. case: (Z.eqb_spec i i0) => [//|_]. by case: (Z.eqb_spec i (p - 1)).
Qed.
Lemma undo_ext n l : forall i0 b b', (0 <= i0)%Z -> (i0 + Z.of_nat (length l) <= n)%Z -> (forall k, (k < length l)%coq_nat -> (1 <= nthZ l k <= n)%Z) ->
  forall j, (forall i, (0 <= i < n)%Z -> b i j = b' i j) -> forall i, (0 <= i < n)%Z -> undo i0 l b i j = undo i0 l b' i j.
Proof.
  elim: l => [|p l IH] i0 b b' H0 Hl Hp j Hb i Hi /=; [exact: Hb|]. have Hp0 : (1 <= p <= n)%Z := Hp O ltac:(cbn [length]; lia). cbn [length] in Hl, Hp.
  rewrite /swap_rows. apply: IH => //; [lia|lia| |].
  - move=> k Hk. apply: (Hp (S k)). lia.
  - case: (Z.eqb_spec i i0) => [_|_]; [lia|]. case: (Z.eqb_spec i (p - 1)) => [_|_]; lia.
Qed.
End Undo.

Section Ref.
Variables (K : fieldType) (cj : {rmorphism K -> K}).
Let A := field_arith K.
Lemma field_arith_ok : is_field A.
Proof.
  split => [|/=|p q|p Hp] /=.
  - split => /= *; [by rewrite add0r|by rewrite addrC|by rewrite addrA|by rewrite mul1r|by rewrite mulrC|by rewrite mulrA|by rewrite mulrDl|by []|by rewrite subrr].
  - apply/eqP. exact: oner_neq0.
  - by rewrite mul1r.
  - rewrite mul1r. apply: mulVf. by apply/eqP.
Qed.
Lemma zero_test_ok : decides_zero A (zero_test K).
Proof. move=> x. rewrite /zero_test. split => [/eqP //|->]. exact: eqxx. Qed.

(** the inverse matrix, by the adjugate *)
Definition ix n (x : Z) : 'I_n.+1 := inord (Z.to_nat x).
Definition inverse_fun (N : Z) (a : Z -> Z -> K) : Z -> Z -> K := match Z.to_nat N with O => a | S n => fun i j => invmx (mat_of n.+1 a) (ix n i) (ix n j) end.
Definition det_fun (N : Z) (a : Z -> Z -> K) : K := \det (mat_of (Z.to_nat N) a).
Lemma inverse_fun_ok N a : (0 <= N)%Z -> det_fun N a <> 0 -> inverse_of A N a (inverse_fun N a).
Proof.
  move=> HN Hd i j Hi Hj. move: Hd. rewrite /det_fun /inverse_fun. case En : (Z.to_nat N) => [|n]; [lia|]. move/eqP => Hd.
  have Hu : mat_of n.+1 a \in unitmx by rewrite unitmxE unitfE.
  have EN : N = Z.of_nat n.+1 by lia. have Ei : (Z.to_nat i < n.+1)%N by apply/zltn; lia. have Ej : (Z.to_nat j < n.+1)%N by apply/zltn; lia.
  have Eu : unit_matrix A i j = (1%:M : 'M[K]_n.+1) (Ordinal Ei) (Ordinal Ej).
  { rewrite mxE -val_eqE /unit_matrix /=. case: Z.eqb_spec => [->|Hne]; [by rewrite eqxx|]. case: eqP => [E|//]. lia. }
  have Ex : forall x, (x < n.+1)%N -> ix n (Z.of_nat x) = inord x by move=> x _; rewrite /ix Nat2Z.id.
  have Eix : ix n i = Ordinal Ei by apply: val_inj; rewrite /= inordK. have Ejx : ix n j = Ordinal Ej by apply: val_inj; rewrite /= inordK.
  split.
  - rewrite Eu -(mulmxV Hu) mxE /product_at /sum_to EN Nat2Z.id sum_nat_big. apply: eq_bigr => l _. rewrite mxE /=. congr (_ * _); [congr (a _ _); lia|]. congr (invmx _ _ _); [by rewrite Ex // inord_val|exact: Ejx].
  - rewrite Eu -(mulVmx Hu) mxE /product_at /sum_to EN Nat2Z.id sum_nat_big. apply: eq_bigr => l _. rewrite [mat_of _ _ _ _]mxE /=. congr (_ * _); [|congr (a _ _); lia]. congr (invmx _ _ _); [exact: Eix|by rewrite Ex // inord_val].
Qed.
Lemma det_fun_nonzero N a x : (0 <= N)%Z -> inverse_of A N a x -> det_fun N a <> 0.
Proof.
  move=> HN H. rewrite /det_fun. have EN : N = Z.of_nat (Z.to_nat N) by lia. move: (Z.to_nat N) EN => n EN. subst N.
  have E : mat_of n a *m mat_of n x = 1%:M.
  { rewrite -(mat_of_product K (fun x y => x / y)). apply/matrixP => i j. rewrite !mxE. have Hi := proj1 (zltn i n) (ltn_ord i). have Hj := proj1 (zltn j n) (ltn_ord j).
    rewrite (proj1 (H (Z.of_nat i) (Z.of_nat j) ltac:(lia) ltac:(lia))) /unit_matrix -val_eqE /=. case: Z.eqb_spec => [E|Hne]; case: eqP => // E2; [by case: E2; apply: Nat2Z.inj|by case: Hne; rewrite E2]. }
  have := congr1 determinant E. rewrite det_mulmx det1. move=> Ed C. move: Ed. rewrite C mul0r => /eqP. by rewrite eq_sym oner_eq0.
Qed.
Lemma det_fun_ext N a b : (forall i j, (0 <= i < N)%Z -> (0 <= j < N)%Z -> a i j = b i j) -> det_fun N a = det_fun N b.
Proof. move=> H. rewrite /det_fun. congr (\det _). apply: mat_of_ext => i j Hi Hj. apply: H; lia. Qed.

(** the factored matrix *)
Definition unfactored (N : Z) (ipiv : list Z) (f : Z -> Z -> K) : Z -> Z -> K := undo 0 ipiv (product_at A N (lower_of A f) (upper_of A f)).
Lemma unfactored_ok N ipiv a f : (0 <= N)%Z -> lu_of A N N ipiv a f -> forall i j, (0 <= i < N)%Z -> (0 <= j < N)%Z -> unfactored N ipiv f i j = a i j.
Proof.
  move=> HN. rewrite /lu_of Z.min_id => -[Hl [Hp Hlu]] i j Hi Hj. rewrite -(undo_interchange ipiv 0 a i j). symmetry. apply: (undo_ext N ipiv) => //; [lia| |].
  - move=> k Hk. have := Hp (Z.of_nat k) ltac:(lia). rewrite Nat2Z.id. lia.
  - move=> i' Hi'. exact: Hlu.
Qed.
Lemma lu_det N ipiv a f : (0 <= N)%Z -> lu_of A N N ipiv a f -> (forall i, (0 <= i < N)%Z -> f i i <> 0) -> det_fun N a <> 0.
Proof.
  move=> HN H Hd. rewrite /det_fun. have EN : N = Z.of_nat (Z.to_nat N) by lia. move: (Z.to_nat N) EN => n EN. subst N. rewrite (det_lu _ _ n ipiv a f H).
  have Hpr : \prod_(i < n) f (Z.of_nat i) (Z.of_nat i) <> 0.
  { apply/eqP/prodf_neq0 => i _. apply/eqP. apply: Hd. have := proj1 (zltn i n) (ltn_ord i). lia. }
  case: (_ =? 1)%Z => //. move/eqP. rewrite oppr_eq0. by move/eqP.
Qed.
Lemma op_det N o a : det_fun N a <> 0 -> det_fun N (op_of cj o a) <> 0.
Proof.
  rewrite /det_fun. case: o => //=; [by rewrite mat_of_transposed det_tr|].
  have -> : mat_of (Z.to_nat N) (fun i j => cj (a j i)) = (map_mx cj (mat_of (Z.to_nat N) a))^T by apply/matrixP => i j; rewrite !mxE. rewrite det_tr det_map_mx. move/eqP => H. apply/eqP. by rewrite fmorph_eq0.
Qed.
Lemma solves N a (b : Z -> Z -> K) i j : (0 <= N)%Z -> det_fun N a <> 0 -> (0 <= i < N)%Z -> product_at A N a (product_at A N (inverse_fun N a) b) i j = b i j.
Proof.
  move=> HN Hd Hi. have R : is_ring A := F_R field_arith_ok. rewrite -(product_assoc A R). have H := inverse_fun_ok N a HN Hd.
  have -> : product_at A N (product_at A N a (inverse_fun N a)) b i j = product_at A N (unit_matrix A) b i j by apply: sum_to_ext => l Hl; rewrite (proj1 (H i l Hi Hl)).
  rewrite /product_at (sum_to_pick A R N i) // (sum_to_zero A R) /unit_matrix.
  - by rewrite Z.eqb_refl /= mul1r addr0.
  - move=> l Hl. case: Z.eqb_spec => [//|Hne]. case: Z.eqb_spec => [E|_]; [by case: Hne|by rewrite /= mul0r].
Qed.

Definition ref_getri (N pa lda : Z) (ipiv : list Z) (m : M_Assign.mem K) : bout (M_Assign.mem K * Z) := BRet (store m pa lda N N (inverse_fun N (unfactored N ipiv (seen m pa lda))), 0%Z).
Definition ref_getrs (o : op) (N NRHS pa lda : Z) (ipiv : list Z) (pb ldb : Z) (m : M_Assign.mem K) : bout (M_Assign.mem K * Z) :=
  BRet (store m pb ldb N NRHS (product_at A N (inverse_fun N (op_of cj o (unfactored N ipiv (seen m pa lda)))) (seen m pb ldb)), 0%Z).
Definition ref_gtsv (N NRHS pdl pd pdu pb ldb : Z) (m : M_Assign.mem K) : bout (M_Assign.mem K * Z) :=
  let t := tridiagonal A (fun i => m (pdl + i)%Z) (fun i => m (pd + i)%Z) (fun i => m (pdu + i)%Z) in
  if det_fun N t == 0 then BRet (m, 1%Z) else BRet (store m pb ldb N NRHS (product_at A N (inverse_fun N t) (seen m pb ldb)), 0%Z).
(** of diagonal matrices *)
Definition ref_syev (vectors : bool) (N pa lda : Z) (m : M_Assign.mem K) : bout (M_Assign.mem K * (list K * Z)) :=
  let h := seen m pa lda in
  if forallb (fun i => forallb (fun j => (j <=? i)%Z || (h i j == 0)) (zseq N)) (zseq N)
  then BRet (if vectors then store m pa lda N N (unit_matrix A) else m, (List.map (fun i => h i i) (zseq N), 0%Z))
  else BRet (m, (nil, 1%Z)).
Definition ref_lapack : lapack K := Lapack K (ref_getrf A (zero_test K)) ref_getri ref_getrs ref_gtsv (fun _ _ _ _ _ _ _ _ _ => BStop) ref_syev.

Lemma ref_getrf_promise : getrf_promise A ref_lapack.
Proof. move=> M N pa lda m HM HN Hl. exact: (ref_getrf_ok A field_arith_ok (zero_test K) zero_test_ok M N pa lda m HM HN Hl). Qed.
Lemma ref_getri_promise : getri_promise A ref_lapack.
Proof.
  move=> N pa lda ipiv m a HN Hl Hlu Hd. eexists. split; [reflexivity|]. split; [|by move=> q Hq; exact: store_outside].
  have Ha := unfactored_ok N ipiv a _ HN Hlu. have Hdet : det_fun N (unfactored N ipiv (seen m pa lda)) <> 0 by rewrite (det_fun_ext N _ a) //; exact: (lu_det N ipiv a _ HN Hlu Hd).
  apply: (inverse_ext A N (unfactored N ipiv (seen m pa lda)) a (inverse_fun N (unfactored N ipiv (seen m pa lda)))) => //; [|exact: inverse_fun_ok].
  move=> i j Hi Hj. by rewrite store_seen.
Qed.
Lemma ref_getrs_promise : getrs_promise A cj ref_lapack.
Proof.
  move=> o N NRHS pa lda ipiv pb ldb m a HN HR Hl Hlb Hlu Hd Hdis. eexists. split; [reflexivity|]. split; [|by move=> q Hq; exact: store_outside].
  have Ha := unfactored_ok N ipiv a _ HN Hlu. have Hdet : det_fun N (unfactored N ipiv (seen m pa lda)) <> 0 by rewrite (det_fun_ext N _ a) //; exact: (lu_det N ipiv a _ HN Hlu Hd).
  have Ho := op_det N o _ Hdet. move=> i j Hi Hj. rewrite -[RHS](solves N (op_of cj o (unfactored N ipiv (seen m pa lda))) _ i j HN Ho Hi).
  apply: sum_to_ext => l Hll. rewrite store_seen //. congr (_ * _). case: o {Ho} => /=; rewrite /transposed; by rewrite Ha.
Qed.
Lemma ref_gtsv_promise : gtsv_promise A ref_lapack.
Proof.
  move=> N NRHS pdl pd pdu pb ldb m HN HR Hl _ _ _ _ t. rewrite /ref_lapack /= /ref_gtsv -/A -/t. case: eqP => Hd.
  - exists m, 1%Z. split; [reflexivity|]. split; [|by split]. move=> [x Hx]. by case: (det_fun_nonzero N t x HN Hx).
  - eexists _, 0%Z. split; [reflexivity|]. split; [by []|]. split; [|by move=> q Hq _ _ _; exact: store_outside].
    move=> _ i j Hi Hj. rewrite -[RHS](solves N t _ i j HN Hd Hi). apply: sum_to_ext => l Hll. by rewrite store_seen.
Qed.
Lemma ref_syev_promise : syev_promise A cj ref_lapack.
Proof.
  move=> vectors N pa lda m h HN Hl Hh. rewrite /ref_lapack /= /ref_syev. case E : (forallb _ _).
  - eexists _, _, 0%Z. split; [reflexivity|]. split; [by case: vectors => // q Hq; exact: store_outside|]. move=> _. split; [by rewrite map_length zseq_length; lia|].
    have R : is_ring A := F_R field_arith_ok.
    have Hoff : forall i j, (0 <= i < N)%Z -> (0 <= j < N)%Z -> i <> j -> h i j = 0.
    { have Hup : forall i j, (0 <= i)%Z -> (i < j)%Z -> (j < N)%Z -> h i j = 0.
      { move=> i j Hi Hij Hj. have [-> _] := Hh i j ltac:(lia) ltac:(lia) ltac:(lia). move/List.forallb_forall: E => E. have := E i (proj2 (zseq_In N i) ltac:(lia)). move/List.forallb_forall => E'. have := E' j (proj2 (zseq_In N j) ltac:(lia)). case: Z.leb_spec => [|_]; [lia|]. by move/eqP. }
      move=> i j Hi Hj Hne. case: (Z.lt_trichotomy i j) => [H|[H|H]]; [by apply: Hup; lia|lia|]. have [_ ->] := Hh j i ltac:(lia) ltac:(lia) ltac:(lia). rewrite Hup ?rmorph0 //; lia. }
    exists (unit_matrix A). split; [|by move=> -> i j Hi Hj; rewrite store_seen].
    split.
    + move=> i k Hi Hk. have -> : List.nth (Z.to_nat k) (List.map (fun i0 => seen m pa lda i0 i0) (zseq N)) (v_zero A) = h k k.
      { rewrite (nth_map_lt _ _ _ _ 0%Z); [|rewrite zseq_length; lia]. rewrite nth_zseq; [|lia]. have [-> _] := Hh k k ltac:(lia) ltac:(lia) ltac:(lia). congr (seen _ _ _ _ _); lia. }
      rewrite /product_at (sum_to_pick A R N k) // (sum_to_zero A R).
      * rewrite /unit_matrix Z.eqb_refl /= mulr1 addr0. case: Z.eqb_spec => [->|Hne]; [by rewrite mulr1|by rewrite mulr0; exact: Hoff].
      * move=> l Hl'. case: Z.eqb_spec => [//|Hne]. rewrite /unit_matrix. case: Z.eqb_spec => [//|_]. by rewrite /= mulr0.
    + have Eu : forall i j, adjoint cj (unit_matrix A) i j = unit_matrix A i j.
      { move=> i j. rewrite /adjoint /unit_matrix Z.eqb_sym. case: (_ =? _)%Z; [exact: rmorph1|exact: rmorph0]. }
      move=> i j Hi Hj. suff Hp : product_at A N (unit_matrix A) (unit_matrix A) i j = unit_matrix A i j.
      { split; rewrite -[RHS]Hp; apply: sum_to_ext => l _; by rewrite Eu. }
      rewrite /product_at (sum_to_pick A R N i) // (sum_to_zero A R).
      * by rewrite {1}/unit_matrix Z.eqb_refl /= mul1r addr0.
      * move=> l Hl'. case: Z.eqb_spec => [//|Hne]. rewrite {1}/unit_matrix. case: Z.eqb_spec => [E'|_]; [by case: Hne|by rewrite /= mul0r].
  - exists m, nil, 1%Z. split; [reflexivity|]. split; [by []|]. by [].
Qed.
End Ref.
