(** C80: rounding errors of floating-point arrays. *)
From Coq Require Import ZArith Reals Lra Lia Psatz.
From Flocq Require Import Core BinarySingleNaN.
From Verif Require Import Base M_Perm M_IdxMap M_Slice M_Loops M_Assign M_Expr M_Transform M_Blas M_Info M_Float S_Layout S_Loops S_Assign S_Expr S_Transform S_Blas S_Float
  L_Perm L_IdxMap L_Slice L_Layout L_Loops L_Assign L_Expr L_Transform L_Factory L_Blas L_Blas2 L_Blas3 L_Float L_Float2 P_Info P_Assign P_Blas.
Local Open Scope R_scope.

Lemma Rsum_perm l1 l2 : Permutation l1 l2 -> Rsum l1 = Rsum l2.
Proof. induction 1; cbn [Rsum]; lra. Qed.
Lemma fin_list {T} {prec emax} (x : T -> fl prec emax) l : (forall i, In i l -> is_finite (x i) = true) -> Forall (fun y : fl prec emax => is_finite y = true) (map x l).
Proof. intros H. apply Forall_forall. intros y Hy. apply in_map_iff in Hy. destruct Hy as (i & <- & Hi). auto. Qed.

Section Float.
Context (prec emax : Z) {Hp : Prec_gt_0 prec} {Hm : Prec_lt_emax prec emax}.
Notation F := (fl prec emax).
Notation FA := (float_arith prec emax).
Notation u := (unit_roundoff prec).
Notation eta := (half_smallest prec emax).
Notation big := (two_to emax).

(** The sum of N finite elements, if it stays below 2^emax, is finite and differs from the real sum by at most (1+u)^(N-1) - 1 times the sum of the
    absolute values. *)
Theorem C80_sum : forall (shape : list Z) (a : list Z -> F) (L : list (list Z)), enumerates shape L -> (forall idx, in_range idx shape -> is_finite (a idx) = true) ->
  (1 + u) ^ (length L - 1) * Rsum (map (fun idx => Rabs (B2R (a idx))) L) < big ->
  is_finite (sum FA shape a) = true /\
  Rabs (B2R (sum FA shape a) - Rsum (map (fun idx => B2R (a idx)) L)) <= ((1 + u) ^ (length L - 1) - 1) * Rsum (map (fun idx => Rabs (B2R (a idx))) L).
Proof.
  intros shape a L HL Hf Hb. assert (P : Permutation (all_idx shape) L) by (symmetry; now apply enumerates_perm).
  rewrite <- (Permutation_length P), <- (Rsum_perm _ _ (Permutation_map (fun idx => Rabs (B2R (a idx))) P)) in *. rewrite <- (Rsum_perm _ _ (Permutation_map (fun idx => B2R (a idx)) P)).
  unfold sum. rewrite fold_list. cbn [v_add v_zero float_arith].
  destruct (chain0 prec emax (B754_zero false) (map a (all_idx shape)) eq_refl eq_refl) as (H1 & H2).
  - apply fin_list. intros idx Hi. apply Hf. now apply all_idx_In.
  - rewrite map_length, map_map. exact Hb.
  - rewrite map_length, !map_map in H2. split; assumption.
Qed.
(** It is exact if the elements are multiples of one power of two (integers, for e = 0) and the sum of their absolute values is at most 2^(prec+e). *)
Theorem C80_sum_exact : forall (shape : list Z) (a : list Z -> F) (L : list (list Z)) e, enumerates shape L -> (forall idx, in_range idx shape -> is_finite (a idx) = true) ->
  (3 - emax - prec <= e)%Z -> (prec + e < emax)%Z -> (forall idx, in_range idx shape -> exists k, B2R (a idx) = IZR k * two_to e) ->
  Rsum (map (fun idx => Rabs (B2R (a idx))) L) <= two_to (prec + e) ->
  is_finite (sum FA shape a) = true /\ B2R (sum FA shape a) = Rsum (map (fun idx => B2R (a idx)) L).
Proof.
  intros shape a L e HL Hf He Hx Hk Hb. assert (P : Permutation (all_idx shape) L) by (symmetry; now apply enumerates_perm).
  rewrite <- (Rsum_perm _ _ (Permutation_map (fun idx => Rabs (B2R (a idx))) P)) in Hb. rewrite <- (Rsum_perm _ _ (Permutation_map (fun idx => B2R (a idx)) P)).
  unfold sum. rewrite fold_list. cbn [v_add v_zero float_arith].
  destruct (chain_exact prec emax e (map a (all_idx shape)) He Hx (B754_zero false) eq_refl) as (H1 & H2).
  - apply fin_list. intros idx Hi. apply Hf. now apply all_idx_In.
  - exists 0%Z. cbn. ring.
  - apply Forall_forall. intros y Hy. apply in_map_iff in Hy. destruct Hy as (i & <- & Hi). apply Hk. now apply all_idx_In.
  - rewrite map_map. cbn [B2R]. rewrite Rabs_R0, Rplus_0_l. exact Hb.
  - split; [exact H1|]. rewrite map_map in H2. etransitivity; [exact H2|]. cbn [B2R]. ring.
Qed.
(** The trace of an n by n matrix. *)
Theorem C80_trace : forall (n : Z) (a : list Z -> F), (0 <= n)%Z -> (forall i, (0 <= i < n)%Z -> is_finite (a [i; i]%Z) = true) ->
  let d := map (fun i => B2R (a [i; i]%Z)) (zseq n) in (1 + u) ^ Z.to_nat (n - 1) * Rsum (map Rabs d) < big ->
  exists t, trace FA [n; n] a = Some t /\ is_finite t = true /\ Rabs (B2R t - Rsum d) <= ((1 + u) ^ Z.to_nat (n - 1) - 1) * Rsum (map Rabs d).
Proof.
  intros n a Hn Hf d Hb. unfold trace, nthZ. cbn [nth]. rewrite Z.eqb_refl. eexists. split; [reflexivity|]. cbn [v_add v_zero float_arith].
  replace (fold_left (fun r i => Bplus mode_NE r (a [i; i])) (zseq n) (B754_zero false)) with (fold_left (Bplus mode_NE) (map (fun i => a [i; i]) (zseq n)) (B754_zero false)) by now rewrite fold_left_map.
  assert (Ln : (length (zseq n) - 1)%nat = Z.to_nat (n - 1)) by (rewrite zseq_length; lia).
  destruct (chain0 prec emax (B754_zero false) (map (fun i => a [i; i]) (zseq n)) eq_refl eq_refl) as (H1 & H2).
  - apply fin_list. intros i Hi. apply Hf. now apply zseq_In.
  - rewrite map_length, map_map, Ln. unfold d in Hb. rewrite map_map in Hb. exact Hb.
  - rewrite map_length, !map_map, Ln in H2. unfold d. rewrite map_map. split; assumption.
Qed.

(** A finite sum or product has only finite elements, and one NaN makes it NaN: infinities and NaNs are never lost. *)
Theorem C80_finite : forall (shape : list Z) (a : list Z -> F), is_finite (sum FA shape a) = true \/ is_finite (product FA shape a) = true -> forall idx, in_range idx shape -> is_finite (a idx) = true.
Proof.
  intros shape a H idx Hi. unfold sum, product in H. rewrite !fold_list in H. cbn [v_add v_mul v_zero v_one float_arith] in H.
  assert (I : In (a idx) (map a (all_idx shape))) by (apply in_map; now apply all_idx_In).
  destruct H as [H|H]; [apply (fold_inf prec emax _ is_finite _ (plus_inf prec emax)) in H|apply (fold_inf prec emax _ is_finite _ (mult_inf prec emax)) in H]; now apply (proj2 H).
Qed.
Theorem C80_nan : forall (shape : list Z) (a : list Z -> F) idx, in_range idx shape -> is_nan (a idx) = true ->
  is_nan (sum FA shape a) = true /\ is_nan (product FA shape a) = true /\ is_nan (frobenius_norm prec emax shape a) = true.
Proof.
  intros shape a idx Hi Hn. unfold frobenius_norm, frobenius_square, sum, product. rewrite !fold_list. cbn [v_add v_mul v_zero v_one float_arith].
  assert (I : In (a idx) (map a (all_idx shape))) by (apply in_map; now apply all_idx_In).
  split; [|split].
  - apply (fold_nan prec emax _ is_nan); [apply plus_nan|]. right. eauto.
  - apply (fold_nan prec emax _ is_nan); [apply mult_nan|]. right. eauto.
  - assert (G : is_nan (fold_left (fun r x => let ab := Babs x in Bplus mode_NE r (Bmult mode_NE ab ab)) (map a (all_idx shape)) (B754_zero false)) = true).
    { apply (fold_nan prec emax _ is_nan); [|right; eauto]. intros x y H. apply plus_nan. apply Bool.orb_true_iff in H. apply Bool.orb_true_iff. destruct H as [H|H]; [now left|right]. apply mult_nan. now destruct y. }
    destruct (fold_left _ _ _); try discriminate. reflexivity.
Qed.

(** The product of N finite elements, multiplied in the order of [L]: if no partial product comes near the smallest or the largest numbers, the relative
    error is at most (1+u)^N - 1. *)
Theorem C80_product : forall (shape : list Z) (a : list Z -> F) (L : list (list Z)), lists_all_indices shape L -> (forall idx, in_range idx shape -> is_finite (a idx) = true) ->
  let p k := Rabs (Rprod (firstn k (map (fun idx => B2R (a idx)) L))) in
  (forall k, (1 <= k <= length L)%nat -> smallest_normal prec emax <= (1 - u) ^ length L * p k /\ (1 + u) ^ length L * p k < big) ->
  is_finite (product FA shape a) = true /\ Rabs (B2R (product FA shape a) - Rprod (map (fun idx => B2R (a idx)) L)) <= ((1 + u) ^ length L - 1) * Rabs (Rprod (map (fun idx => B2R (a idx)) L)).
Proof.
  intros shape a L HL Hf p Hk. assert (EL : L = all_idx shape) by (apply (lists_all_unique shape); [exact HL|apply lists_all]). subst p. rewrite EL in *. clear EL HL L.
  unfold product. rewrite fold_list. cbn [v_mul v_one float_arith].
  destruct (chain_mult prec emax (map a (all_idx shape)) Bone) as (H1 & t & H2 & H3).
  - apply is_finite_Bone.
  - apply fin_list. intros idx Hi. apply Hf. now apply all_idx_In.
  - rewrite map_length, map_map. intros k Hk'. rewrite Bone_correct, Rmult_1_l. now apply Hk.
  - rewrite map_length, map_map in *. rewrite Bone_correct, Rmult_1_l in H3. split; [exact H1|]. set (q := Rprod (map (fun x => B2R (a x)) (all_idx shape))) in *. set (N := length (all_idx shape)) in *.
    replace (B2R (fold_left (Bmult mode_NE) (map a (all_idx shape)) Bone) - q) with ((t - 1) * q) by (etransitivity; [|apply f_equal2; [symmetry; exact H3|reflexivity]]; ring).
    rewrite Rabs_mult. apply Rmult_le_compat_r; [apply Rabs_pos|]. pose proof (pow_both prec N). apply Rabs_le. lra.
Qed.

(** The Frobenius norm: the square root, with one rounding, of a number that differs from the sum of the squares by the errors of N products and sums. *)
Theorem C80_frobenius : forall (shape : list Z) (a : list Z -> F) (L : list (list Z)), enumerates shape L -> (forall idx, in_range idx shape -> is_finite (a idx) = true) ->
  let t := Rsum (map (fun idx => B2R (a idx) * B2R (a idx)) L) in (1 + u) ^ length L * (t + INR (length L) * eta) < big ->
  is_finite (frobenius_norm prec emax shape a) = true /\
  exists s r, 0 <= s /\ Rabs (s - t) <= ((1 + u) ^ length L - 1) * t + (1 + u) ^ length L * (INR (length L) * eta) /\
    1 - u <= r <= 1 + u /\ B2R (frobenius_norm prec emax shape a) = sqrt s * r.
Proof.
  intros shape a L HL Hf t Hb. assert (P : Permutation (all_idx shape) L) by (symmetry; now apply enumerates_perm). unfold t in *. clear t.
  rewrite <- (Permutation_length P), <- (Rsum_perm _ _ (Permutation_map (fun idx => B2R (a idx) * B2R (a idx)) P)) in *. clear P HL L.
  set (l := all_idx shape) in *. assert (E : forall idx, Rabs (B2R (Babs (a idx)) * B2R (Babs (a idx))) = B2R (a idx) * B2R (a idx) /\ B2R (Babs (a idx)) * B2R (Babs (a idx)) = B2R (a idx) * B2R (a idx)).
  { intros idx. rewrite B2R_Babs, <- Rabs_mult, Rabs_Rabsolu. assert (0 <= B2R (a idx) * B2R (a idx)) by nra. rewrite Rabs_pos_eq by assumption. split; reflexivity. }
  set (s := frobenius_square FA Babs shape a).
  assert (Es : s = fold_left (Bplus mode_NE) (map (fun idx => Bmult mode_NE (Babs (a idx)) (Babs (a idx))) l) (B754_zero false)).
  { unfold s, frobenius_square. rewrite fold_list. rewrite !fold_left_map. reflexivity. }
  destruct (dot_chain prec emax (B754_zero false) (fun idx => Babs (a idx)) (fun idx => Babs (a idx)) l eq_refl eq_refl) as (H1 & H2).
  - intros idx Hi. assert (G : is_finite (Babs (a idx)) = true) by (rewrite is_finite_Babs; apply Hf; now apply all_idx_In). split; exact G.
  - rewrite (map_ext _ _ (fun idx => proj1 (E idx))). exact Hb.
  - rewrite (map_ext _ _ (fun idx => proj1 (E idx))), (map_ext _ _ (fun idx => proj2 (E idx))) in H2. rewrite <- Es in H1, H2.
    assert (Hs : 0 <= B2R s).
    { assert (N : nonneg prec emax s); [|now apply N]. rewrite Es. apply fold_nonneg; [|intros _; cbn; lra]. intros idx _. apply mult_nonneg; apply abs_nonneg. }
    destruct (sqrt_step prec emax s H1 Hs) as (F1 & r & Hr & E1). split; [exact F1|]. exists (B2R s), r. auto.
Qed.

(** The generic dot product of two vectors of n elements in memory, whatever their strides. *)
Theorem C80_dot : forall al ar (x y : view) (m : mem F) n, (1 <= n)%Z -> im_len (v_lay x) = [n] -> im_len (v_lay y) = [n] -> truthful (v_lay x) -> truthful (v_lay y) ->
  (forall i, (0 <= i < n)%Z -> is_finite (m (cell x [i])) = true /\ is_finite (m (cell y [i])) = true) ->
  let p i := B2R (m (cell x [i])) * B2R (m (cell y [i])) in let t := Rsum (map (fun i => Rabs (p i)) (zseq n)) in
  (1 + u) ^ Z.to_nat n * (t + IZR n * eta) < big ->
  exists d, dot_branches FA (fun z => z) false (ELeaf al x) (ELeaf ar y) m = Some d /\ is_finite d = true /\
    Rabs (B2R d - Rsum (map p (zseq n))) <= ((1 + u) ^ Z.to_nat n - 1) * t + (1 + u) ^ Z.to_nat n * (IZR n * eta).
Proof.
  intros al ar x y m n Hn Ex Ey Tx Ty Hf p t Hb. rewrite (dot_branches_plain FA (fun z => z) false al ar x y m n Hn Ex Ey Tx Ty). eexists. split; [reflexivity|]. unfold dot_impl. cbn [v_add v_mul float_arith].
  assert (Z1 : zseq n = 0%Z :: map (fun i => (i + 1)%Z) (zseq (n - 1))).
  { unfold zseq. replace (Z.to_nat n) with (S (Z.to_nat (n - 1))) by lia. cbn [seq map]. f_equal. rewrite map_map, <- seq_shift, map_map. apply map_ext. intros k. lia. }
  assert (Ln : length (zseq n) = Z.to_nat n) by apply zseq_length. assert (EI : IZR n = INR (length (zseq n))) by (rewrite Ln, INR_IZR_INZ, Z2Nat.id by lia; reflexivity).
  unfold t, p in *. rewrite EI, <- Ln in *. rewrite Z1 in *.
  apply (dot_first prec emax (fun i => m (cell x [i])) (fun i => m (cell y [i]))).
  - intros i Hi. apply Hf. apply zseq_In. rewrite Z1. exact Hi.
  - exact Hb.
Qed.

(** Products in generic code: one element of the result. *)
Lemma element_error (z : F) (x y : Z -> F) k : is_finite z = true -> B2R z = 0 -> (forall l, (0 <= l < k)%Z -> is_finite (x l) = true /\ is_finite (y l) = true) ->
  let t := Rsum (map (fun l => Rabs (B2R (x l) * B2R (y l))) (zseq k)) in (1 + u) ^ Z.to_nat k * (t + INR (Z.to_nat k) * eta) < big ->
  let r := acc_loop FA k (fun l => v_mul FA (v_mul FA (v_one FA) (x l)) (y l)) z in
  is_finite r = true /\ Rabs (B2R r - Rsum (map (fun l => B2R (x l) * B2R (y l)) (zseq k))) <= ((1 + u) ^ Z.to_nat k - 1) * t + (1 + u) ^ Z.to_nat k * (INR (Z.to_nat k) * eta).
Proof.
  intros Fz Ez Hf t Hb r. assert (Ln : length (zseq k) = Z.to_nat k) by apply zseq_length. unfold t in *. clear t.
  assert (E : forall l, In l (zseq k) -> is_finite (Bmult mode_NE Bone (x l)) = true /\ B2R (Bmult mode_NE Bone (x l)) = B2R (x l)) by (intros l Hl; apply one_mult, Hf; now apply zseq_In).
  assert (E1 : map (fun l => Rabs (B2R (x l) * B2R (y l))) (zseq k) = map (fun l => Rabs (B2R (Bmult mode_NE Bone (x l)) * B2R (y l))) (zseq k)) by (apply map_ext_in; intros l Hl; now rewrite (proj2 (E l Hl))).
  assert (E2 : map (fun l => B2R (x l) * B2R (y l)) (zseq k) = map (fun l => B2R (Bmult mode_NE Bone (x l)) * B2R (y l)) (zseq k)) by (apply map_ext_in; intros l Hl; now rewrite (proj2 (E l Hl))).
  rewrite E1, E2, <- Ln in *.
  assert (Er : r = fold_left (Bplus mode_NE) (map (fun l => Bmult mode_NE (Bmult mode_NE Bone (x l)) (y l)) (zseq k)) z) by (unfold r, acc_loop; rewrite fold_left_map; reflexivity). rewrite Er.
  apply (dot_chain prec emax z (fun l => Bmult mode_NE Bone (x l)) y (zseq k) Fz Ez); [|exact Hb].
  intros l Hl. split; [now apply E|]. apply Hf. now apply zseq_In.
Qed.
Lemma zero_times : is_finite (Bmult mode_NE (B754_zero false) (B754_zero false) : F) = true /\ B2R (Bmult mode_NE (B754_zero false) (B754_zero false) : F) = 0.
Proof. split; reflexivity. Qed.

(** matmul of matrices of an element type without BLAS (float): n by k times k by p. *)
Theorem C80_matmul : forall checks fuel b1 so se (l r : mem F -> Z -> Z -> F) (m : mem F) n k p, is_order 2 so -> (0 <= n)%Z -> (0 <= k)%Z -> (0 <= p)%Z -> (checks = true -> extents_agree se [n; p]) ->
  (forall i q m1 m2, (0 <= i < n)%Z -> (0 <= q < k)%Z -> (forall a, ~ block b1 (n * p) a -> m1 a = m2 a) -> l m1 i q = l m2 i q) ->
  (forall q j m1 m2, (0 <= q < k)%Z -> (0 <= j < p)%Z -> (forall a, ~ block b1 (n * p) a -> m1 a = m2 a) -> r m1 q j = r m2 q j) ->
  exists m', matmul_generic FA checks fuel b1 so se [n; k] l [k; p] r m = BRet (new_array so b1 [n; p], m') /\ (forall a, ~ block b1 (n * p) a -> m' a = m a) /\
    forall i j, (0 <= i < n)%Z -> (0 <= j < p)%Z -> (forall q, (0 <= q < k)%Z -> is_finite (l m i q) = true /\ is_finite (r m q j) = true) ->
    let t := Rsum (map (fun q => Rabs (B2R (l m i q) * B2R (r m q j))) (zseq k)) in (1 + u) ^ Z.to_nat k * (t + IZR k * eta) < big ->
    let c := m' (cell (new_array so b1 [n; p]) [i; j]) in is_finite c = true /\
    Rabs (B2R c - Rsum (map (fun q => B2R (l m i q) * B2R (r m q j)) (zseq k))) <= ((1 + u) ^ Z.to_nat k - 1) * t + (1 + u) ^ Z.to_nat k * (IZR k * eta).
Proof.
  intros checks fuel b1 so se l r m n k p Ho Hn Hk0 Hp0 Hse Rl Rr. unfold matmul_generic, nthZ. cbn [nth]. rewrite Z.eqb_refl, expects_true.
  assert (Ese : expects checks (static_extents_ok se [n; p]) = fun k : bout (view * mem F) => k) by (unfold expects; destruct checks; [rewrite static_ok by auto|]; reflexivity). rewrite Ese.
  destruct (fill_new_matrix fuel so b1 n p (v_zero FA) (v_zero FA) m Ho Hn Hp0) as (m1 & E & Hh & Hu).
  assert (Hc : forall a, is_cell_of (new_array so b1 [n; p]) a <-> block b1 (n * p) a) by (intros a; now apply new_cells2).
  destruct (gemm_generic_plain FA checks fuel (v_one FA) l r (v_zero FA) (new_array so b1 [n; p]) m m1 n k p) as (m' & -> & Hv & Hu'); auto.
  - now apply new_usable2.
  - intros i q ma mb Hi Hq H. apply Rl; auto. intros a Ha. apply H. rewrite Hc. exact Ha.
  - intros q j ma mb Hq Hj H. apply Rr; auto. intros a Ha. apply H. rewrite Hc. exact Ha.
  - intros idx Hi. destruct (in_view2_inv (new_array so b1 [n; p]) n p idx (new_array_len _ _ _) Hi) as (i & j & -> & Bi & Bj). rewrite Hh by auto. now destruct (Z.eqb i j).
  - cbn [bbind]. exists m'. split; [reflexivity|]. split; [intros a Ha; apply Hu'; rewrite Hc; exact Ha|].
    intros i j Hi Hj Hf Hb. assert (EI : IZR k = INR (Z.to_nat k)) by (rewrite INR_IZR_INZ, Z2Nat.id by lia; reflexivity). rewrite EI in *.
    destruct (element_error (v_zero FA) (fun q => l m i q) (fun q => r m q j) k eq_refl eq_refl Hf Hb) as (F1 & E1).
    rewrite Hv by auto. set (s := acc_loop _ _ _ _) in *. cbn [v_add v_mul v_zero float_arith].
    destruct (plus_zero prec emax s (Bmult mode_NE (B754_zero false) (B754_zero false)) (proj1 zero_times) (proj2 zero_times) F1) as (F2 & E2). split; [exact F2|]. rewrite E2. exact E1.
Qed.
(** ... and the product with a vector, into a vector c. *)
Theorem C80_matvec : forall checks fuel (a : mem F -> Z -> Z -> F) (b : mem F -> Z -> F) (c : view) (m : mem F) r k,
  usable (v_lay c) -> im_len (v_lay c) = [r] -> zero_extents_harmless (v_lay c) -> forward_or_contiguous (v_lay c) -> (r <= Z.of_nat fuel)%Z -> (0 <= k)%Z ->
  (forall i l m1 m2, (0 <= i < r)%Z -> (0 <= l < k)%Z -> (forall x, ~ is_cell_of c x -> m1 x = m2 x) -> a m1 i l = a m2 i l) ->
  (forall l m1 m2, (0 <= l < k)%Z -> (forall x, ~ is_cell_of c x -> m1 x = m2 x) -> b m1 l = b m2 l) ->
  exists m', gemv_generic FA checks fuel (v_one FA) [r; k] a [k] b (v_zero FA) c m = BRet m' /\ unchanged_outside c m m' /\
    forall i, (0 <= i < r)%Z -> (forall q, (0 <= q < k)%Z -> is_finite (a m i q) = true /\ is_finite (b m q) = true) ->
    let t := Rsum (map (fun q => Rabs (B2R (a m i q) * B2R (b m q))) (zseq k)) in (1 + u) ^ Z.to_nat k * (t + IZR k * eta) < big ->
    let s := m' (cell c [i]) in is_finite s = true /\
    Rabs (B2R s - Rsum (map (fun q => B2R (a m i q) * B2R (b m q)) (zseq k))) <= ((1 + u) ^ Z.to_nat k - 1) * t + (1 + u) ^ Z.to_nat k * (IZR k * eta).
Proof.
  intros checks fuel a b c m r k U El Hz Hs Hf Hk Ra Rb.
  destruct (C19_fill c (v_zero FA) (v_zero FA) m fuel U) as (m1 & E & Hh & Hu); auto.
  { rewrite El. cbn [prodZ fold_right]. lia. }
  destruct (gemv_generic_plain FA checks fuel (v_one FA) a b (v_zero FA) c m m1 r k) as (m' & E' & Hv & Hu'); auto.
  exists m'. split; [exact E'|]. split; [exact Hu'|]. intros i Hi Hfin t Hb s. assert (EI : IZR k = INR (Z.to_nat k)) by (rewrite INR_IZR_INZ, Z2Nat.id by lia; reflexivity). unfold t in *. rewrite EI in *.
  destruct (element_error (v_zero FA) (fun q => a m i q) (fun q => b m q) k eq_refl eq_refl Hfin Hb) as (F1 & E1).
  unfold s. rewrite Hv by auto. set (w := acc_loop _ _ _ _) in *. cbn [v_add v_mul v_zero float_arith].
  assert (Zw : is_finite (Bmult mode_NE (B754_zero false) w) = true /\ B2R (Bmult mode_NE (B754_zero false) w) = 0) by (destruct w; try discriminate F1; split; reflexivity).
  destruct (plus_zero prec emax w _ (proj1 Zw) (proj2 Zw) F1) as (F2 & E2). split; [exact F2|]. rewrite E2. exact E1.
Qed.
End Float.

(** ** doubles *)
Notation D := (float_arith 53 1024).
(** k * 2^e with k of 53 digits *)
Definition power (s : bool) (e : Z) : option binary64 :=
  match SpecFloat.bounded 53 1024 (2 ^ 52) e as b return SpecFloat.bounded 53 1024 (2 ^ 52) e = b -> option binary64 with
  | true => fun H => Some (B754_finite s (2 ^ 52) e H) | false => fun _ => None end eq_refl.
Definition pow2 (s : bool) (e : Z) : binary64 := match power s (e - 52) with Some x => x | None => B754_zero s end.
(** 1, 2^53; -2^53, 0 *)
Definition mixed (idx : list Z) : binary64 := match idx with [0; 0] => pow2 false 0 | [0; 1] => pow2 false 53 | [1; 0] => pow2 true 53 | _ => B754_zero false end%Z.

(** The sum depends on the order of the elements: that of a matrix and that of its transpose differ. *)
Theorem C80_order_refuted : exists a : list Z -> binary64, (forall idx, is_finite (a idx) = true) /\
  B2R (sum D [2; 2]%Z a) = 0 /\ B2R (sum D [2; 2]%Z (fun idx => a (rev idx))) = 1.
Proof.
  exists mixed. split.
  - intros idx. unfold mixed. destruct idx as [|[| |] [|[|[]|] [|]]]; try reflexivity; destruct p; reflexivity.
  - split.
    + replace (sum D [2; 2]%Z mixed) with (B754_zero false : binary64) by (vm_compute; reflexivity). reflexivity.
    + replace (sum D [2; 2]%Z (fun idx => mixed (rev idx))) with (pow2 false 0).
      * replace (pow2 false 0) with (Bone : binary64); [apply Bone_correct|]. apply B2SF_inj. vm_compute. reflexivity.
      * apply B2SF_inj. vm_compute. reflexivity.
Qed.
Print Assumptions C80_order_refuted.
(** The Frobenius norm of a matrix with one element x is |x| in exact arithmetic; here it is infinite for 2^600 and zero for 2^-600. *)
Theorem C80_frobenius_refuted : 
  (exists x : binary64, B2R x = two_to 600 /\ is_finite (frobenius_norm 53 1024 [1; 1]%Z (fun _ => x)) = false) /\
  (exists x : binary64, B2R x = two_to (-600) /\ is_finite x = true /\ B2R (frobenius_norm 53 1024 [1; 1]%Z (fun _ => x)) = 0).
Proof.
  assert (E : forall e, (exists H, power false (e - 52) = Some (B754_finite false (2 ^ 52) (e - 52) H)) -> B2R (pow2 false e) = two_to e).
  { intros e [H HE]. unfold pow2. rewrite HE. cbn [B2R cond_Zopp]. unfold F2R. cbn [Fnum Fexp]. change (Z.pos (2 ^ 52)) with (Zpower radix2 52). rewrite IZR_Zpower by lia. rewrite <- bpow_plus, two_bpow. f_equal. lia. }
  split; [exists (pow2 false 600)|exists (pow2 false (-600))].
  - split; [apply E; eexists; reflexivity|vm_compute; reflexivity].
  - split; [apply E; eexists; reflexivity|]. split; [vm_compute; reflexivity|].
    replace (frobenius_norm 53 1024 [1; 1]%Z (fun _ => pow2 false (-600))) with (B754_zero false : binary64); [reflexivity|]. apply B2SF_inj. vm_compute. reflexivity.
Qed.
Print Assumptions C80_frobenius_refuted.
Print Assumptions C80_sum.
Print Assumptions C80_sum_exact.
Print Assumptions C80_trace.
Print Assumptions C80_finite.
Print Assumptions C80_nan.
Print Assumptions C80_product.
Print Assumptions C80_frobenius.
Print Assumptions C80_dot.
Print Assumptions C80_matmul.
Print Assumptions C80_matvec.

(** ** the hypotheses are met *)
Lemma B2R_pow2 e : (exists H, power false (e - 52) = Some (B754_finite false (2 ^ 52) (e - 52) H)) -> B2R (pow2 false e) = two_to e.
Proof.
  intros [H HE]. unfold pow2. rewrite HE. cbn [B2R cond_Zopp]. unfold F2R. cbn [Fnum Fexp]. change (Z.pos (2 ^ 52)) with (Zpower radix2 52). rewrite IZR_Zpower by lia. rewrite <- bpow_plus, two_bpow. f_equal. lia.
Qed.
Lemma B2R_neg_pow2 e : (exists H, power true (e - 52) = Some (B754_finite true (2 ^ 52) (e - 52) H)) -> B2R (pow2 true e) = - two_to e.
Proof.
  intros [H HE]. unfold pow2. rewrite HE. cbn [B2R cond_Zopp]. unfold F2R. cbn [Fnum Fexp]. change (Z.pos (2 ^ 52)) with (Zpower radix2 52). rewrite opp_IZR, (IZR_Zpower radix2 52) by lia. rewrite Ropp_mult_distr_l_reverse, <- bpow_plus, two_bpow. do 2 f_equal. lia.
Qed.
Lemma ex_small n r : (n <= 4)%nat -> 0 <= r -> r <= two_to 60 -> (1 + unit_roundoff 53) ^ n * r < two_to 1024.
Proof.
  intros Hn Hr H. pose proof (u_half 53). pose proof (u_pos 53) as Hu. assert (P : (1 + unit_roundoff 53) ^ n <= 2 ^ 4).
  { apply Rle_trans with (2 ^ n); [apply pow_incr; lra|]. apply Rle_pow; [lra|exact Hn]. }
  apply Rle_lt_trans with (2 ^ 4 * two_to 60); [apply Rmult_le_compat; auto; apply pow_le; lra|]. replace (2 ^ 4) with (two_to 4) by reflexivity. rewrite !two_bpow, <- bpow_plus. apply bpow_lt. reflexivity.
Qed.
Lemma ex_eta : half_smallest 53 1024 <= 1.
Proof. unfold half_smallest. rewrite two_bpow. change 1 with (bpow radix2 0). apply bpow_le. lia. Qed.
Lemma two_53 : 1 + (two_to 53 + (two_to 53 + (0 + 0))) <= two_to 60.
Proof. rewrite !two_bpow. replace (bpow radix2 60) with (bpow radix2 53 * 128) by (change 128 with (bpow radix2 7); rewrite <- bpow_plus; reflexivity). pose proof (bpow_le radix2 0 53 ltac:(lia)) as H. change (bpow radix2 0) with 1 in H. lra. Qed.

Example C80_ex_sum : let L := [[0; 0]; [0; 1]; [1; 0]; [1; 1]]%Z in enumerates [2; 2]%Z L /\ (forall idx, in_range idx [2; 2]%Z -> is_finite (mixed idx) = true) /\
  (1 + unit_roundoff 53) ^ (length L - 1) * Rsum (map (fun idx => Rabs (B2R (mixed idx))) L) < two_to 1024.
Proof.
  cbv zeta. split; [|split].
  - split.
    + repeat constructor; cbn; intuition congruence.
    + intros idx. rewrite <- all_idx_In. reflexivity.
  - intros idx Hi. apply all_idx_In in Hi. change (all_idx [2; 2]%Z) with [[0; 0]; [0; 1]; [1; 0]; [1; 1]]%Z in Hi. destruct Hi as [<-|[<-|[<-|[<-|[]]]]]; reflexivity.
  - apply ex_small; [cbn; lia|apply Rsum_nonneg; intros; apply Rabs_pos|]. cbn [map Rsum mixed]. rewrite B2R_pow2, B2R_pow2, B2R_neg_pow2 by (eexists; reflexivity). cbn [B2R]. rewrite Rabs_Ropp, Rabs_R0, !Rabs_pos_eq by (rewrite two_bpow; apply bpow_ge_0). exact two_53.
Qed.
(** multiples of 1/4 *)
Example C80_ex_exact : let a := fun idx : list Z => if (nthZ idx 1 =? 0)%Z then pow2 false (-2) else pow2 true 3 in
  (3 - 1024 - 53 <= -2)%Z /\ (53 + -2 < 1024)%Z /\ (forall idx, in_range idx [1; 2]%Z -> is_finite (a idx) = true /\ exists k, B2R (a idx) = IZR k * two_to (-2)) /\
  Rsum (map (fun idx => Rabs (B2R (a idx))) [[0; 0]; [0; 1]]%Z) <= two_to (53 + -2).
Proof.
  cbv zeta. split; [lia|]. split; [lia|].
  assert (E1 : B2R (pow2 false (-2)) = / 4) by (rewrite B2R_pow2 by (eexists; reflexivity); rewrite ?two_bpow; cbn; lra).
  assert (E2 : B2R (pow2 true 3) = Ropp 8) by (rewrite B2R_neg_pow2 by (eexists; reflexivity); rewrite ?two_bpow; cbn; lra). split.
  - intros idx _. destruct (nthZ idx 1 =? 0)%Z; (split; [reflexivity|]); [exists 1%Z; rewrite E1|exists (-32)%Z; rewrite E2]; rewrite ?two_bpow; cbn; lra.
  - unfold nthZ. cbn [map Rsum nth Z.eqb]. rewrite E1, E2. rewrite Rabs_Ropp, !Rabs_pos_eq by lra. apply Rle_trans with (two_to 4); [rewrite ?two_bpow; cbn; lra|]. rewrite !two_bpow. apply bpow_le. lia.
Qed.
Example C80_ex_product : let a := fun _ : list Z => pow2 false 1 in let L := [[0]; [1]]%Z in lists_all_indices [2]%Z L /\
  (forall k, (1 <= k <= length L)%nat -> let p := Rabs (Rprod (firstn k (map (fun idx => B2R (a idx)) L))) in smallest_normal 53 1024 <= (1 - unit_roundoff 53) ^ length L * p /\ (1 + unit_roundoff 53) ^ length L * p < two_to 1024).
Proof.
  cbv zeta. assert (E : B2R (pow2 false 1) = 2) by (rewrite B2R_pow2 by (eexists; reflexivity); rewrite ?two_bpow; cbn; lra). split; [exact (lists_all [2]%Z)|].
  intros k Hk. cbn [length map] in *. rewrite E. pose proof (u_half 53) as Hh. pose proof (u_pos 53) as Hu.
  assert (Hp : Rabs (Rprod (firstn k [2; 2])) = 2 \/ Rabs (Rprod (firstn k [2; 2])) = 4).
  { destruct k as [|[|[|k]]]; try lia; cbn [firstn Rprod]; [left|right]; rewrite Rabs_pos_eq; lra. }
  set (p := Rabs _) in *. assert (Hp2 : 2 <= p <= 4) by lra. split.
  - apply Rle_trans with (/ 2); [unfold smallest_normal; rewrite two_bpow; change (/ 2) with (bpow radix2 (-1)); apply bpow_le; lia|]. cbn [pow]. assert (/ 4 <= (1 - unit_roundoff 53) * ((1 - unit_roundoff 53) * 1)) by nra. nra.
  - apply ex_small; [lia|lra|]. apply Rle_trans with (two_to 4); [rewrite ?two_bpow; cbn; lra|]. rewrite !two_bpow. apply bpow_le. lia.
Qed.
(** vectors of two twos, three apart and reversed; the same numbers as a matrix with one row and one with one column *)
Example C80_ex_dot : let x := ex_view [0%nat] [2]%Z [3]%Z 0%Z in let y := ex_view [0%nat] [2]%Z [-1]%Z 9%Z in let m : mem binary64 := fun _ => pow2 false 1 in
  im_len (v_lay x) = [2]%Z /\ im_len (v_lay y) = [2]%Z /\ truthful (v_lay x) /\ truthful (v_lay y) /\ is_finite (pow2 false 1) = true /\
  (1 + unit_roundoff 53) ^ Z.to_nat 2 * (Rsum (map (fun i => Rabs (B2R (m (cell x [i])) * B2R (m (cell y [i])))) (zseq 2)) + IZR 2 * half_smallest 53 1024) < two_to 1024 /\
  B2SF (match dot_branches D (fun z => z) false (ELeaf AlgV x) (ELeaf AlgV y) m with Some d => d | None => B754_nan end) = B2SF (pow2 false 3).
Proof.
  cbv zeta. assert (E : B2R (pow2 false 1) = 2) by (rewrite B2R_pow2 by (eexists; reflexivity); rewrite ?two_bpow; cbn; lra).
  split; [reflexivity|]. split; [reflexivity|]. split; [|split; [|split; [reflexivity|split; [|vm_compute; reflexivity]]]].
  - split; [|split; discriminate]. repeat split; cbn; try lia; [apply perm_check_ok; reflexivity|repeat constructor; lia].
  - split; [|split; discriminate]. repeat split; cbn; try lia; [apply perm_check_ok; reflexivity|repeat constructor; lia].
  - change (zseq 2) with [0; 1]%Z. cbn [map Rsum]. rewrite E. pose proof ex_eta. pose proof (eta_pos 53 1024). set (h := half_smallest 53 1024) in *. clearbody h. rewrite Rabs_pos_eq by lra. apply ex_small; [cbn; lia|lra|]. apply Rle_trans with (two_to 4); [rewrite ?two_bpow; cbn; lra|]. rewrite !two_bpow. apply bpow_le. lia.
Qed.
Example C80_ex_matmul : let l := fun (_ : mem binary64) (_ _ : Z) => pow2 false 1 in
  (forall q, (0 <= q < 2)%Z -> is_finite (l (fun _ => B754_nan) 0%Z q) = true) /\
  (1 + unit_roundoff 53) ^ Z.to_nat 2 * (Rsum (map (fun q => Rabs (B2R (l (fun _ => B754_nan) 0%Z q) * B2R (l (fun _ => B754_nan) q 0%Z))) (zseq 2)) + IZR 2 * half_smallest 53 1024) < two_to 1024 /\
  match matmul_generic D true 1 0 [0; 1]%nat [0; 0]%Z [1; 2]%Z l [2; 1]%Z l (fun _ => B754_nan) with BRet (_, m') => B2SF (m' 0%Z) = B2SF (pow2 false 3) | _ => False end.
Proof.
  cbv zeta. split; [reflexivity|]. split; [|vm_compute; reflexivity]. destruct C80_ex_dot as (_ & _ & _ & _ & _ & H & _). exact H.
Qed.
Example C80_ex_frobenius : let a := fun _ : list Z => pow2 true 1 in let L := [[0; 0]; [1; 0]]%Z in
  enumerates [2; 1]%Z L /\ (forall idx, is_finite (a idx) = true) /\
  (1 + unit_roundoff 53) ^ length L * (Rsum (map (fun idx => B2R (a idx) * B2R (a idx)) L) + INR (length L) * half_smallest 53 1024) < two_to 1024.
Proof.
  cbv zeta. split; [|split; [reflexivity|]].
  - split; [repeat constructor; cbn; intuition congruence|]. intros idx. rewrite <- all_idx_In. reflexivity.
  - assert (E : B2R (pow2 true 1) = Ropp 2) by (rewrite B2R_neg_pow2 by (eexists; reflexivity); rewrite ?two_bpow; cbn; lra).
    pose proof ex_eta. pose proof (eta_pos 53 1024). set (h := half_smallest 53 1024) in *. clearbody h. cbn [map Rsum length INR]. rewrite E. apply ex_small; [lia|lra|]. apply Rle_trans with (two_to 4); [rewrite ?two_bpow; cbn; lra|]. rewrite !two_bpow. apply bpow_le. lia.
Qed.
