(** C43 - C46, C49, C50, C57: matrix and vector products. *)
From Coq Require Import Ring InitialRing.
From Verif Require Import Base M_Perm M_IdxMap M_Slice M_Loops M_Assign M_Expr M_Transform M_Blas S_Layout S_Loops S_Assign S_Blas
  L_Perm L_IdxMap L_Layout L_Loops L_Assign L_Transform L_Factory L_Blas L_Blas2 L_Blas3 L_Blas4 L_Blas5 L_Blas6 P_Assign P_Expr.

(** Values used in the examples: the integers, and the Gaussian integers with their conjugation. *)
Lemma Z_ring : is_ring Z_arith.
Proof. exact Zth. Qed.
Definition G_arith : arith (Z * Z) :=
  Arith (Z * Z) (0, 0) (1, 0) (fun x => (- fst x, - snd x)) (fun x y => (fst x + fst y, snd x + snd y)) (fun x y => (fst x - fst y, snd x - snd y))
        (fun x y => (fst x * fst y - snd x * snd y, fst x * snd y + snd x * fst y)) (fun x _ => x).
Definition G_conj (x : Z * Z) : Z * Z := (fst x, - snd x).
Lemma G_ring : is_ring G_arith.
Proof.
  constructor; repeat intros [? ?]; cbn [G_arith v_zero v_one v_add v_mul v_sub v_opp fst snd]; f_equal; ring.
Qed.
(** a matrix of the given extents, strides and stride order at [base] *)
Definition ex_view (so : list nat) (len str : list Z) (base : Z) : view := View (IdxMap len str so (repeat 0 (length len)) LP_none) base.
Ltac ex_cells := match goal with |- disjoint ?v ?w => intros a (i1 & V1 & E1) (i2 & V2 & E2); unfold in_view, valid_idx, in_range in V1, V2; cbn in V1, V2;
  repeat match goal with H : Forall2 _ _ _ |- _ => inversion H; clear H; subst end; unfold inr, cell, addr in *; cbn -[Z.add Z.mul] in *; lia end.
Ltac ex_blas l := split; [lia|]; split; [lia|]; split; [unfold int_range; lia|]; split; [unfold int_range; lia|]; exists l; split; [unfold int_range; lia|];
  first [left; split; [reflexivity|]; split; [reflexivity|]; split; [reflexivity|lia] | right; split; [reflexivity|]; split; [reflexivity|]; split; [reflexivity|lia]].
Ltac ex_vec := split; [lia|]; split; [unfold int_range; lia|]; split; [unfold int_range; lia|]; repeat split; reflexivity.

(** ** C43 *)
(** gemm(alpha, x, y, beta, c): every combination of row-wise and column-wise stored matrices with any leading dimensions, the factors conjugated
    where that compiles; [checks]: with or without the EXPECTS. *)
Theorem C43_gemm : forall V (A : arith V) (cj : V -> V), is_ring A -> forall checks alpha (x y : mat) beta (c : view) (m : mem V) r k n,
  blas_matrix (m_view x) r k -> blas_matrix (m_view y) k n -> blas_matrix c r n -> conj_allowed x c -> conj_allowed y c ->
  disjoint c (m_view x) -> disjoint c (m_view y) ->
  exists m', gemm A cj checks alpha x y beta c m = BRet m' /\
    (forall i j, 0 <= i < r -> 0 <= j < n -> m' (cell c [i; j]) =
       v_add A (v_mul A alpha (product_at A k (mat_at cj x m) (mat_at cj y m) i j)) (v_mul A beta (m (cell c [i; j])))) /\
    unchanged_outside c m m'.
Proof. intros V A cj R. exact (gemm_spec A cj R). Qed.
Print Assumptions C43_gemm.

(** conj(x) is refused at compile time exactly where [conj_allowed] fails *)
Theorem C43_conj_refused : forall V (A : arith V) (cj : V -> V) checks alpha (x y : mat) beta (c : view) (m : mem V) r k n,
  blas_matrix (m_view x) r k -> blas_matrix (m_view y) k n -> blas_matrix c r n -> ~ (conj_allowed x c /\ conj_allowed y c) ->
  gemm A cj checks alpha x y beta c m = BCompile.
Proof. exact @gemm_conj_none. Qed.
Print Assumptions C43_conj_refused.

(** any view of rank 2 a program can cut with a fastest stride of 1 and a positive slow stride is such a matrix *)
Theorem C43_views : forall n off (m : idx_map) base r c s0 s1, view_of (fun _ => True) n off m -> im_len m = [r; c] -> im_str m = [s0; s1] -> 1 <= r -> 1 <= c ->
  min_stride m = 1 -> 0 < s0 -> 0 < s1 -> int_range r -> int_range c -> int_range s0 -> int_range s1 -> blas_matrix (View m base) r c.
Proof. exact view_blas_matrix. Qed.
Print Assumptions C43_views.

(** matmul: the operands are matrices in memory, conjugates of such, or any expressions; the result is a new matrix, stored in the order
    of the operands if they agree and else by rows, what the operands read is unchanged *)
Theorem C43_matmul : forall V (A : arith V) (cj : V -> V), is_ring A -> forall checks b1 b2 b3 b4 b5 l r (P : Z -> Prop) (m : mem V) n k p,
  operand_fits l n k -> operand_fits r k p -> (checks = true -> static_fits l r n k p) -> operand_reads l P -> operand_reads r P ->
  new_blocks P [(b2, n * k); (b3, k * p); (b4, n * k); (b5, k * p); (b1, n * p)] ->
  exists res m', matmul A cj checks b1 b2 b3 b4 b5 l r m = BRet (res, m') /\ im_len (v_lay res) = [n; p] /\ product_order l r (im_so (v_lay res)) /\ (forall a, is_cell_of res a <-> block b1 (n * p) a) /\
    (forall i j, 0 <= i < n -> 0 <= j < p -> m' (cell res [i; j]) = product_at A k (operand_at cj l m) (operand_at cj r m) i j) /\
    (forall a, P a -> m' a = m a).
Proof. intros V A cj R. exact (matmul_spec A cj R). Qed.
Print Assumptions C43_matmul.

(** the generic product (element types BLAS does not have), for c any matrix that [c = 0] can fill: beta = 0 *)
Theorem C43_gemm_generic : forall V (A : arith V), is_ring A -> forall checks fuel alpha (a b : mem V -> Z -> Z -> V) (c : view) (m : mem V) r k n,
  usable (v_lay c) -> im_len (v_lay c) = [r; n] -> zero_extents_harmless (v_lay c) -> forward_or_contiguous (v_lay c) -> r * n <= Z.of_nat fuel ->
  (forall i l m1 m2, 0 <= i < r -> 0 <= l < k -> (forall x, ~ is_cell_of c x -> m1 x = m2 x) -> a m1 i l = a m2 i l) ->
  (forall l j m1 m2, 0 <= l < k -> 0 <= j < n -> (forall x, ~ is_cell_of c x -> m1 x = m2 x) -> b m1 l j = b m2 l j) ->
  exists m', gemm_generic A checks fuel alpha [r; k] a [k; n] b (v_zero A) true c m = BRet m' /\
    (forall i j, 0 <= i < r -> 0 <= j < n -> m' (cell c [i; j]) = v_mul A alpha (product_at A k (a m) (b m) i j)) /\ unchanged_outside c m m'.
Proof.
  intros V A R checks fuel alpha a b c m r k n U El Hz Hs Hf Ra Rb.
  destruct (C19_fill_matrix c (v_zero A) (v_zero A) m fuel U) as (m1 & E & Hh & Hu); auto.
  { unfold rank. now rewrite El. } { rewrite El. cbn. lia. }
  destruct (gemm_generic_spec A R checks fuel alpha a b (v_zero A) c m m1 r k n) as (m' & E' & Hv & Hu'); eauto.
  intros idx Hi. destruct (in_view2_inv c r n idx El Hi) as (i & j & -> & _). rewrite Hh by auto. now destruct (i =? j).
Qed.
Print Assumptions C43_gemm_generic.
(** ... and the generic matmul *)
Theorem C43_matmul_generic : forall V (A : arith V), is_ring A -> forall checks fuel b1 so se (l r : mem V -> Z -> Z -> V) (m : mem V) n k p, is_order 2 so -> 0 <= n -> 0 <= p -> (checks = true -> extents_agree se [n; p]) ->
  (forall i q m1 m2, 0 <= i < n -> 0 <= q < k -> (forall a, ~ block b1 (n * p) a -> m1 a = m2 a) -> l m1 i q = l m2 i q) ->
  (forall q j m1 m2, 0 <= q < k -> 0 <= j < p -> (forall a, ~ block b1 (n * p) a -> m1 a = m2 a) -> r m1 q j = r m2 q j) ->
  exists m', matmul_generic A checks fuel b1 so se [n; k] l [k; p] r m = BRet (new_array so b1 [n; p], m') /\
    (forall i j, 0 <= i < n -> 0 <= j < p -> m' (cell (new_array so b1 [n; p]) [i; j]) = product_at A k (l m) (r m) i j) /\
    (forall a, ~ block b1 (n * p) a -> m' a = m a).
Proof.
  intros V A R checks fuel b1 so se l r m n k p Ho Hn Hp Hse Rl Rr. unfold matmul_generic, nthZ. cbn [nth]. rewrite Z.eqb_refl, expects_true.
  assert (Ese : expects checks (static_extents_ok se [n; p]) = fun k : bout (view * mem V) => k) by (unfold expects; destruct checks; [rewrite static_ok by auto|]; reflexivity). rewrite Ese.
  destruct (fill_new_matrix fuel so b1 n p (v_zero A) (v_zero A) m Ho Hn Hp) as (m1 & E & Hh & Hu).
  assert (Hc : forall a, is_cell_of (new_array so b1 [n; p]) a <-> block b1 (n * p) a) by (intros a; now apply new_cells2).
  destruct (gemm_generic_spec A R checks fuel (v_one A) l r (v_zero A) (new_array so b1 [n; p]) m m1 n k p) as (m' & -> & Hv & Hu'); auto.
  - now apply new_usable2.
  - intros i q ma mb Hi Hq H. apply Rl; auto. intros a Ha. apply H. rewrite Hc. exact Ha.
  - intros q j ma mb Hq Hj H. apply Rr; auto. intros a Ha. apply H. rewrite Hc. exact Ha.
  - intros idx Hi. destruct (in_view2_inv (new_array so b1 [n; p]) n p idx (new_array_len _ _ _) Hi) as (i & j & -> & Bi & Bj). rewrite Hh by auto. now destruct (i =? j).
  - cbn [bbind]. exists m'. split; [reflexivity|]. split.
    + intros i j Hi Hj. rewrite Hv by auto. apply (Rmul_1_l R).
    + intros a Ha. apply Hu'. rewrite Hc. exact Ha.
Qed.
Print Assumptions C43_matmul_generic.

(** conj of a 2 by 3 matrix stored by rows (4 apart) times a 3 by 2 matrix stored by columns (5 apart), into a matrix stored by columns *)
Definition ex43_x := ex_view [0; 1]%nat [2; 3] [4; 1] 0.
Definition ex43_y := ex_view [1; 0]%nat [3; 2] [1; 5] 50.
Definition ex43_c := ex_view [1; 0]%nat [2; 2] [1; 3] 100.
Definition ex43_m : mem (Z * Z) := fun a => (a, 1).
Example C43_example : blas_matrix ex43_x 2 3 /\ blas_matrix ex43_y 3 2 /\ blas_matrix ex43_c 2 2 /\ conj_allowed (Mat true ex43_x) ex43_c /\ conj_allowed (Mat false ex43_y) ex43_c /\
  disjoint ex43_c ex43_x /\ disjoint ex43_c ex43_y /\
  match gemm G_arith G_conj true (0, 1) (Mat true ex43_x) (Mat false ex43_y) (2, 0) ex43_c ex43_m with
  | BRet m' => map (fun ij => m' (cell ex43_c [fst ij; snd ij])) [(0, 0); (0, 1); (1, 0); (1, 1)] = [(350, 160); (371, 175); (340, 772); (361, 847)] /\ m' 99 = (99, 1) /\ m' 102 = (102, 1)
  | _ => False end.
Proof.
  split; [ex_blas 4|]. split; [ex_blas 5|]. split; [ex_blas 3|]. split; [intros _ C; discriminate C|]. split; [intros C; discriminate C|]. split; [ex_cells|]. split; [ex_cells|].
  vm_compute. repeat split; reflexivity.
Qed.
(** matmul of conj of a matrix stored by columns (which has to be copied) and an expression *)
Example C43_matmul_example : let l := OConj (new_array [1; 0]%nat 0 [2; 3]) in let r := OOther [1; 0]%nat [3; 2] (fun (m : mem (Z * Z)) idx => (nthZ idx 0 - nthZ idx 1, 1)) in
  operand_fits l 2 3 /\ operand_fits r 3 2 /\ static_fits l r 2 3 2 /\ operand_reads l (fun a => a < 10) /\ operand_reads r (fun a => a < 10) /\
  new_blocks (fun a => a < 10) [(20, 2 * 3); (30, 3 * 2); (40, 2 * 3); (50, 3 * 2); (10, 2 * 2)] /\
  match matmul G_arith G_conj true 10 20 30 40 50 l r (fun a => (a, 1)) with
  | BRet (res, m') => map (fun ij => m' (cell res [fst ij; snd ij])) [(0, 0); (0, 1); (1, 0); (1, 1)] = [(13, 3); (7, 6); (16, 6); (7, 9)] | _ => False end.
Proof.
  assert (O : is_order 2 [1; 0]%nat) by (apply perm_check_ok; reflexivity).
  split; [|split; [|split; [|split; [|split; [|split]]]]].
  - split; [lia|]. split; [lia|]. split; [unfold int_range; lia|]. split; [unfold int_range; lia|]. split; [ex_blas 2|apply new_usable2; [exact O|lia|lia]].
  - split; [lia|]. split; [lia|]. split; [unfold int_range; lia|]. split; [unfold int_range; lia|]. reflexivity.
  - intros v E. discriminate E.
  - intros a Ha. apply new_cells2 in Ha; [unfold block in Ha; lia|exact O|lia|lia].
  - intros idx m1 m2 _ _. reflexivity.
  - repeat split; unfold block; intros a Ha H; lia.
  - vm_compute. reflexivity.
Qed.

(** beta is ignored by the generic product: c = a*b + c loses the old c *)
Theorem C43_generic_beta_refuted : let c := c_array 0 [1; 1] in
  usable (v_lay c) /\ match gemm_generic Z_arith true 1 1 [1; 1] (fun _ _ _ => 2) [1; 1] (fun _ _ _ => 3) 1 true c (fun _ => 5) with
  | BRet m' => m' (cell c [0; 0]) = 6 /\ 6 <> 1 * (2 * 3) + 1 * 5 | _ => False end.
Proof.
  cbv zeta. split.
  - apply new_usable2; [apply perm_check_ok; reflexivity|lia|lia].
  - vm_compute. split; [reflexivity|discriminate].
Qed.
Print Assumptions C43_generic_beta_refuted.
(** Fastest stride 2, a view of every other column: with the checks the program ends, without them the result is wrong.  The 2 by 2 matrix b is the identity. *)
Definition ex43_id : mem Z := fun a => if (a =? 10) || (a =? 13) then 1 else if 10 <=? a then 0 else a.
Theorem C43_strided_refuted : exists v, slice_view AlgA (c_array 0 [2; 4]) [AAll; ARange (Range 0 4 2)] = Some (AlgA, v) /\ im_len (v_lay v) = [2; 2] /\
  let x := Mat false v in let y := Mat false (c_array 10 [2; 2]) in let c := c_array 20 [2; 2] in
  gemm Z_arith (fun z => z) true 1 x y 0 c ex43_id = BStop /\
  match gemm Z_arith (fun z => z) false 1 x y 0 c ex43_id with
  | BRet m' => m' (cell c [0; 1]) = 1 /\ product_at Z_arith 2 (mat_at (fun z => z) x ex43_id) (mat_at (fun z => z) y ex43_id) 0 1 = 2 | _ => False end.
Proof. eexists. split; [reflexivity|]. split; [reflexivity|]. vm_compute. repeat split; reflexivity. Qed.
Print Assumptions C43_strided_refuted.
(** Rows in reverse order (slow stride -2): BLAS stops the program. *)
Theorem C43_reversed_refuted : exists v, slice_view AlgA (c_array 0 [3; 2]) [ARange (Range 2 (-1) (-1)); AAll] = Some (AlgA, v) /\ im_len (v_lay v) = [3; 2] /\ min_stride (v_lay v) = 1 /\
  forall checks m, gemm Z_arith (fun z => z) checks 1 (Mat false v) (Mat false (c_array 10 [2; 2])) 0 (c_array 20 [3; 2]) m = BStop.
Proof. eexists. split; [reflexivity|]. split; [reflexivity|]. split; [reflexivity|]. intros [] m; reflexivity. Qed.
Print Assumptions C43_reversed_refuted.
(** A product with an inner extent 0, which should be the zero matrix: BLAS stops the program (leading dimension 0). *)
Theorem C43_empty_refuted : forall checks m,
  matmul Z_arith (fun z => z) checks 100 200 300 400 500 (OMat true (c_array 0 [3; 0])) (OMat true (c_array 0 [0; 2])) m = BStop.
Proof. intros [] m; reflexivity. Qed.
Print Assumptions C43_empty_refuted.

(** ** C44 *)
(** gemv(alpha, x, b, beta, c): matrix stored by rows or columns, vectors with any positive strides; with the checks switched on only stride 1 is accepted.
    k = 0 is excluded: see [C44_no_columns_refuted]. *)
Theorem C44_gemv : forall V (A : arith V) (cj : V -> V), is_ring A -> forall checks alpha (x : mat) (b : view) beta (c : view) (m : mem V) r k sb sc,
  blas_matrix (m_view x) r k -> 1 <= k -> vector_of b k sb -> vector_of c r sc -> 0 < sb -> 0 < sc -> (checks = true -> sb = 1 /\ sc = 1) ->
  (m_conj x = true -> im_so (v_lay (m_view x)) = [0; 1]%nat) -> disjoint c (m_view x) -> disjoint c b ->
  exists m', gemv A cj checks alpha x b beta c m = BRet m' /\
    (forall i, 0 <= i < r -> m' (cell c [i]) =
       v_add A (v_mul A alpha (sum_to A k (fun l => v_mul A (mat_at cj x m i l) (m (cell b [l]))))) (v_mul A beta (m (cell c [i])))) /\ unchanged_outside c m m'.
Proof. intros V A cj R. exact (gemv_spec A cj R). Qed.
Print Assumptions C44_gemv.
(** matvecmul: any matrix operand and any vector expression; new_blocks: the new arrays are apart from everything the operands read *)
Theorem C44_matvecmul : forall V (A : arith V) (cj : V -> V), is_ring A -> forall checks b1 b2 b3 b4 l (f : mem V -> list Z -> V) (P : Z -> Prop) (m : mem V) n k,
  operand_fits l n k -> operand_reads l P -> (forall idx m1 m2, in_range idx [k] -> (forall a, P a -> m1 a = m2 a) -> f m1 idx = f m2 idx) ->
  new_blocks P [(b2, n * k); (b3, k); (b4, n * k); (b1, n)] ->
  exists res m', matvecmul A cj checks b1 b2 b3 b4 l [k] f m = BRet (res, m') /\ im_len (v_lay res) = [n] /\ (forall a, is_cell_of res a <-> block b1 n a) /\
    (forall i, 0 <= i < n -> m' (cell res [i]) = sum_to A k (fun q => v_mul A (operand_at cj l m i q) (f m [q]))) /\
    (forall a, P a -> m' a = m a).
Proof. intros V A cj R. exact (matvecmul_spec A cj R). Qed.
Print Assumptions C44_matvecmul.
(** the generic product: beta = 0 *)
Theorem C44_gemv_generic : forall V (A : arith V), is_ring A -> forall checks fuel alpha (a : mem V -> Z -> Z -> V) (b : mem V -> Z -> V) (c : view) (m : mem V) r k,
  usable (v_lay c) -> im_len (v_lay c) = [r] -> zero_extents_harmless (v_lay c) -> forward_or_contiguous (v_lay c) -> r <= Z.of_nat fuel ->
  (forall i l m1 m2, 0 <= i < r -> 0 <= l < k -> (forall x, ~ is_cell_of c x -> m1 x = m2 x) -> a m1 i l = a m2 i l) ->
  (forall l m1 m2, 0 <= l < k -> (forall x, ~ is_cell_of c x -> m1 x = m2 x) -> b m1 l = b m2 l) ->
  exists m', gemv_generic A checks fuel alpha [r; k] a [k] b (v_zero A) c m = BRet m' /\
    (forall i, 0 <= i < r -> m' (cell c [i]) = v_mul A alpha (sum_to A k (fun l => v_mul A (a m i l) (b m l)))) /\ unchanged_outside c m m'.
Proof.
  intros V A R checks fuel alpha a b c m r k U El Hz Hs Hf Ra Rb.
  destruct (C19_fill c (v_zero A) (v_zero A) m fuel U) as (m1 & E & Hh & Hu); auto.
  { rewrite El. cbn. lia. }
  destruct (gemv_generic_spec A (fun z => z) R checks fuel alpha a b (v_zero A) c m m1 r k) as (m' & E' & Hv & Hu'); auto.
  exists m'. split; [exact E'|]. split; [|exact Hu']. intros i Hi. rewrite Hv by auto. rewrite (Radd_comm R), (Radd_0_l R). apply (Rmul_1_l R).
Qed.
Print Assumptions C44_gemv_generic.
(** conj of a matrix stored by rows, every second element of b, c with stride 3 (a build without checks) *)
Example C44_example : let x := ex_view [0; 1]%nat [2; 3] [4; 1] 0 in let b := ex_view [0%nat] [3] [2] 50 in let c := ex_view [0%nat] [2] [3] 100 in
  blas_matrix x 2 3 /\ vector_of b 3 2 /\ vector_of c 2 3 /\ disjoint c x /\ disjoint c b /\
  match gemv G_arith G_conj false (0, 1) (Mat true x) b (2, 0) c (fun a => (a, 1)) with
  | BRet m' => m' (cell c [0]) = (353, 165) /\ m' (cell c [1]) = (347, 789) /\ m' 101 = (101, 1) | _ => False end.
Proof.
  split; [ex_blas 4|]. split; [ex_vec|]. split; [ex_vec|]. split; [ex_cells|]. split; [ex_cells|]. vm_compute. repeat split; reflexivity.
Qed.
(** With beta = 1 the generic product gives twice the product and forgets c. *)
Theorem C44_generic_beta_refuted : let c := c_array 0 [1] in
  usable (v_lay c) /\ match gemv_generic Z_arith true 1 1 [1; 1] (fun _ _ _ => 2) [1] (fun _ _ => 3) 1 c (fun _ => 5) with
  | BRet m' => m' (cell c [0]) = 12 /\ 12 <> 1 * (2 * 3) + 1 * 5 | _ => False end.
Proof. cbv zeta. split; [apply new_usable1; lia|]. vm_compute. split; [reflexivity|discriminate]. Qed.
Print Assumptions C44_generic_beta_refuted.
(** A matrix without columns, stored by columns: the result, which should be zero, is what the memory contained; stored by rows: the program ends. *)
Theorem C44_no_columns_refuted : 
  match matvecmul Z_arith (fun z => z) true 100 200 300 400 (OMat true (new_array [1; 0]%nat 0 [3; 0])) [0] (fun _ _ => 0) (fun a => a) with
  | BRet (res, m') => im_len (v_lay res) = [3] /\ m' (cell res [0]) = 100 | _ => False end /\
  matvecmul Z_arith (fun z => z) true 100 200 300 400 (OMat true (c_array 0 [3; 0])) [0] (fun _ _ => 0) (fun a => a) = BStop.
Proof. vm_compute. repeat split; reflexivity. Qed.
Print Assumptions C44_no_columns_refuted.
(** gemv with a vector of stride -1: without the checks the vector is used in reverse order *)
Theorem C44_reversed_refuted : exists b, slice_view AlgA (c_array 10 [2]) [ARange (Range 1 (-1) (-1))] = Some (AlgA, b) /\ im_len (v_lay b) = [2] /\
  let x := Mat false (c_array 0 [1; 2]) in let c := c_array 20 [1] in
  match gemv Z_arith (fun z => z) false 1 x b 0 c (fun a => a) with
  | BRet m' => m' (cell c [0]) <> sum_to Z_arith 2 (fun l => mat_at (fun z => z) x (fun a => a) 0 l * (cell b [l])) | _ => False end.
Proof. eexists. split; [reflexivity|]. split; [reflexivity|]. vm_compute. discriminate. Qed.
Print Assumptions C44_reversed_refuted.

(** ** C45 *)
(** ger(alpha, x, y, m): every matrix stored by rows or columns, vectors with positive strides *)
Theorem C45_ger : forall V (A : arith V), is_ring A -> forall checks alpha (x y mv : view) (m : mem V) r n sx sy,
  vector_of x r sx -> vector_of y n sy -> 0 < sx -> 0 < sy -> blas_matrix mv r n -> disjoint mv x -> disjoint mv y ->
  exists m', ger A checks alpha x y mv m = BRet m' /\
    (forall i j, 0 <= i < r -> 0 <= j < n -> m' (cell mv [i; j]) = v_add A (m (cell mv [i; j])) (v_mul A (v_mul A alpha (m (cell x [i]))) (m (cell y [j])))) /\ unchanged_outside mv m m'.
Proof. intros V A R. exact (ger_spec A (fun z => z) R). Qed.
Print Assumptions C45_ger.
(** outer_product(a, b) of non-empty contiguous arrays of any rank in C order; the result is a new array *)
Theorem C45_outer_product : forall V (A : arith V), is_ring A -> forall checks base pa pb (a b : view) (m : mem V),
  usable (v_lay a) -> contiguous_true (v_lay a) -> is_contiguous (v_lay a) = true -> im_so (v_lay a) = identity (rank (v_lay a)) -> In pa [PolC; PolF; PolCStride; PolFStride] ->
  usable (v_lay b) -> contiguous_true (v_lay b) -> is_contiguous (v_lay b) = true -> im_so (v_lay b) = identity (rank (v_lay b)) -> In pb [PolC; PolF; PolCStride; PolFStride] ->
  1 <= prodZ (im_len (v_lay a)) -> 1 <= prodZ (im_len (v_lay b)) -> int_range (prodZ (im_len (v_lay a))) -> int_range (prodZ (im_len (v_lay b))) -> (rank (v_lay a) + rank (v_lay b) < 16)%nat ->
  (forall x, block base (prodZ (im_len (v_lay a)) * prodZ (im_len (v_lay b))) x -> ~ is_cell_of a x /\ ~ is_cell_of b x) ->
  exists m', outer_product A checks base pa pb a b m = BRet (c_array base (im_len (v_lay a) ++ im_len (v_lay b)), m') /\
    (forall i j, in_view a i -> in_view b j -> m' (cell (c_array base (im_len (v_lay a) ++ im_len (v_lay b))) (i ++ j)) = v_mul A (m (cell a i)) (m (cell b j))) /\
    (forall x, ~ block base (prodZ (im_len (v_lay a)) * prodZ (im_len (v_lay b))) x -> m' x = m x).
Proof. intros V A R. exact (outer_product_spec A (fun z => z) R). Qed.
Print Assumptions C45_outer_product.
Example C45_example : let x := ex_view [0%nat] [2] [2] 0 in let y := ex_view [0%nat] [3] [1] 10 in let mv := ex_view [0; 1]%nat [2; 3] [5; 1] 20 in
  vector_of x 2 2 /\ vector_of y 3 1 /\ blas_matrix mv 2 3 /\ disjoint mv x /\ disjoint mv y /\
  match ger Z_arith true 7 x y mv (fun a => a + 1) with
  | BRet m' => map (fun ij => m' (cell mv [fst ij; snd ij])) [(0, 0); (0, 2); (1, 0); (1, 2)] = [98; 114; 257; 301] /\ m' 23 = 24 | _ => False end.
Proof.
  split; [ex_vec|]. split; [ex_vec|]. split; [ex_blas 5|]. split; [ex_cells|]. split; [ex_cells|]. vm_compute. repeat split; reflexivity.
Qed.
Example C45_outer_example : let a := c_array 0 [2; 2] in let b := c_array 10 [3] in
  usable (v_lay a) /\ contiguous_true (v_lay a) /\ is_contiguous (v_lay a) = true /\ im_so (v_lay a) = identity (rank (v_lay a)) /\
  usable (v_lay b) /\ contiguous_true (v_lay b) /\ is_contiguous (v_lay b) = true /\ im_so (v_lay b) = identity (rank (v_lay b)) /\
  (forall x, block 20 (prodZ (im_len (v_lay a)) * prodZ (im_len (v_lay b))) x -> ~ is_cell_of a x /\ ~ is_cell_of b x) /\
  match outer_product Z_arith true 20 PolC PolC a b (fun a => a) with
  | BRet (res, m') => im_len (v_lay res) = [2; 2; 3] /\ m' (cell res [1; 0; 2]) = 24 | _ => False end.
Proof.
  assert (O : is_order 2 [0; 1]%nat) by (apply perm_check_ok; reflexivity).
  assert (Ua : usable (v_lay (c_array 0 [2; 2]))) by (apply new_usable2; [exact O|lia|lia]).
  assert (Ub : usable (v_lay (c_array 10 [3]))) by (apply new_usable1; lia).
  cbv zeta. split; [exact Ua|]. split; [apply fresh_contiguous_true; [exact O|reflexivity]|]. split; [reflexivity|]. split; [reflexivity|].
  split; [exact Ub|]. split; [apply fresh_contiguous_true; [apply perm_check_ok; reflexivity|reflexivity]|].
  split; [reflexivity|]. split; [reflexivity|]. split.
  - intros x Hx. change (prodZ (im_len (v_lay (c_array 0 [2; 2]))) * prodZ (im_len (v_lay (c_array 10 [3])))) with 12 in Hx. unfold block in Hx.
    split; intros C; [apply (new_cells2 [0; 1]%nat 0 2 2 x O ltac:(lia) ltac:(lia)) in C|apply (new_cells1 10 3 x ltac:(lia)) in C]; unfold block in C; lia.
  - vm_compute. split; reflexivity.
Qed.
(** Arrays in Fortran order are taken in the order of their elements in memory: the outer product gets a(1, 0) where a(0, 1) belongs. *)
Theorem C45_order_refuted : let a := new_array [1; 0]%nat 0 [2; 2] in let b := c_array 10 [1] in
  match outer_product Z_arith true 20 PolF PolC a b (fun x => x + 1) with
  | BRet (res, m') => im_len (v_lay res) = [2; 2; 1] /\ m' (cell res [0; 1; 0]) = (cell a [1; 0] + 1) * 11 /\ m' (cell res [0; 1; 0]) <> (cell a [0; 1] + 1) * (cell b [0] + 1) | _ => False end.
Proof. vm_compute. repeat split; try reflexivity. discriminate. Qed.
Print Assumptions C45_order_refuted.
(** ger with a vector in reverse order (stride -1), which no check excludes: elements outside the vector are used. *)
Theorem C45_reversed_refuted : exists x, slice_view AlgA (c_array 10 [2]) [ARange (Range 1 (-1) (-1))] = Some (AlgA, x) /\ im_len (v_lay x) = [2] /\
  let y := c_array 20 [1] in let mv := c_array 30 [2; 1] in
  match ger Z_arith true 1 x y mv (fun a => if a <? 30 then a else 0) with
  | BRet m' => m' (cell mv [0; 0]) = 12 * 20 /\ cell x [0] = 11 | _ => False end.
Proof. eexists. split; [reflexivity|]. split; [reflexivity|]. vm_compute. split; reflexivity. Qed.
Print Assumptions C45_reversed_refuted.
(** outer_product with an empty second array ends the program instead of giving an empty array. *)
Theorem C45_empty_refuted : forall checks m, outer_product Z_arith checks 20 PolC PolC (c_array 0 [2]) (c_array 10 [0]) m = BStop.
Proof. intros [] m; reflexivity. Qed.
Print Assumptions C45_empty_refuted.

(** ** C46 *)
(** dot ([star] = false) and dotc ([star] = true) of vectors in memory with positive strides, any length *)
Theorem C46_dot : forall V (A : arith V) (cj : V -> V), is_ring A -> forall checks star (x y : view) (m : mem V) n sx sy,
  vector_of x n sx -> vector_of y n sy -> 0 < sx -> 0 < sy ->
  blas_dot A cj checks star x y m = BRet (sum_to A n (fun i => v_mul A (if star then cj (m (cell x [i])) else m (cell x [i])) (m (cell y [i])))).
Proof. intros V A cj R. exact (blas_dot_spec A cj R). Qed.
Print Assumptions C46_dot.
(** the generic loop, for any expressions and element types: at least one element *)
Theorem C46_dot_generic : forall V (A : arith V) (cj : V -> V), is_ring A -> forall star n (x y : Z -> V), 1 <= n ->
  dot_impl A cj star n x y = sum_to A n (fun i => v_mul A (if star then cj (x i) else x i) (y i)).
Proof. intros V A cj R. exact (dot_impl_spec A cj R). Qed.
Print Assumptions C46_dot_generic.
Example C46_example : let x := ex_view [0%nat] [3] [2] 0 in let y := ex_view [0%nat] [3] [5] 10 in
  vector_of x 3 2 /\ vector_of y 3 5 /\ blas_dot G_arith G_conj true true x y (fun a => (a, 1)) = BRet (113, -39) /\
  blas_dot G_arith G_conj true false x y (fun a => (a, 1)) = BRet (107, 51).
Proof. split; [ex_vec|]. split; [ex_vec|]. vm_compute. split; reflexivity. Qed.
(** A vector in reverse order: not the sum of x_i y_i, but with elements outside of the vector. *)
Theorem C46_reversed_refuted : exists x, slice_view AlgA (c_array 10 [2]) [ARange (Range 1 (-1) (-1))] = Some (AlgA, x) /\ im_len (v_lay x) = [2] /\
  let y := c_array 20 [2] in
  blas_dot Z_arith (fun z => z) true false x y (fun a => a) = BRet (12 * 20 + 11 * 21) /\ sum_to Z_arith 2 (fun i => cell x [i] * cell y [i]) = 11 * 20 + 10 * 21.
Proof. eexists. split; [reflexivity|]. split; [reflexivity|]. vm_compute. split; reflexivity. Qed.
Print Assumptions C46_reversed_refuted.
(** The generic loop starts from the product of the elements 0, also if there is none: the sum of no products is not 0. *)
Theorem C46_empty_refuted : dot_impl Z_arith (fun z => z) false 0 (fun _ => 2) (fun _ => 3) = 6 /\ sum_to Z_arith 0 (fun _ => 2 * 3) = 0.
Proof. split; reflexivity. Qed.
Print Assumptions C46_empty_refuted.

(** ** C57 *)
(** scal(alpha, x) multiplies every element of x, and nothing else, by alpha *)
Theorem C57_scal : forall V (A : arith V) alpha (x : view) (m : mem V) n s, vector_of x n s -> 0 < s ->
  (forall i, 0 <= i < n -> scal A alpha x m (cell x [i]) = v_mul A alpha (m (cell x [i]))) /\ unchanged_outside x m (scal A alpha x m).
Proof. intros V A. exact (scal_spec A (fun z => z)). Qed.
Print Assumptions C57_scal.
Example C57_example : let x := ex_view [0%nat] [3] [2] 0 in vector_of x 3 2 /\ map (scal Z_arith 5 x (fun a => a)) [0; 1; 2; 3; 4; 5; 6] = [0; 1; 10; 3; 20; 5; 6].
Proof. split; [ex_vec|]. reflexivity. Qed.
(** With a negative stride nothing happens. *)
Theorem C57_reversed_refuted : exists x, slice_view AlgA (c_array 10 [2]) [ARange (Range 1 (-1) (-1))] = Some (AlgA, x) /\ im_len (v_lay x) = [2] /\
  forall alpha (m : mem Z) a, scal Z_arith alpha x m a = m a.
Proof. eexists. split; [reflexivity|]. split; [reflexivity|]. reflexivity. Qed.
Print Assumptions C57_reversed_refuted.

(** ** C49 *)
(** cross_product writes the three components into a new array and nothing else *)
Theorem C49_cross_product : forall V (A : arith V), is_ring A -> forall checks base (a b : Z -> V) (m : mem V),
  exists m', cross_product A checks base [3] a [3] b m = BRet (c_array base [3], m') /\
    m' (cell (c_array base [3]) [0]) = v_sub A (v_mul A (a 1) (b 2)) (v_mul A (a 2) (b 1)) /\
    m' (cell (c_array base [3]) [1]) = v_sub A (v_mul A (a 2) (b 0)) (v_mul A (a 0) (b 2)) /\
    m' (cell (c_array base [3]) [2]) = v_sub A (v_mul A (a 0) (b 1)) (v_mul A (a 1) (b 0)) /\
    (forall x, ~ block base 3 x -> m' x = m x).
Proof.
  intros V A R checks base a b m. destruct (cross_product_spec A (fun z => z) R checks base a b m) as (m' & E & H0 & H1 & H2 & Hu). exists m'. rewrite !cross_cell by lia. rewrite Z.add_0_r. auto.
Qed.
Print Assumptions C49_cross_product.
Section Cross.
Context {V : Type} (A : arith V) (R : is_ring A) (checks : bool) (base : Z) (m : mem V).
Let Rth : ring_theory (v_zero A) (v_one A) (v_add A) (v_mul A) (v_sub A) (v_opp A) eq := R.
Add Ring VR8 : Rth.
(** component i of the array returned for [a] and [b] *)
Definition cross_at (a b : Z -> V) (i : Z) : V := match cross_product A checks base [3] a [3] b m with BRet (r, m') => m' (cell r [i]) | _ => v_zero A end.
Declare Scope cs. Local Notation "x + y" := (v_add A x y) : cs. Local Notation "x * y" := (v_mul A x y) : cs. Local Notation "x - y" := (v_sub A x y) : cs. Delimit Scope cs with cs.
Lemma cross_at_values a b : cross_at a b 0 = (a 1%Z * b 2%Z - a 2%Z * b 1%Z)%cs /\ cross_at a b 1 = (a 2%Z * b 0%Z - a 0%Z * b 2%Z)%cs /\ cross_at a b 2 = (a 0%Z * b 1%Z - a 1%Z * b 0%Z)%cs.
Proof using R. unfold cross_at. destruct (C49_cross_product V A R checks base a b m) as (m' & -> & H0 & H1 & H2 & _). auto. Qed.
Lemma cross_cases (P : Z -> Prop) : P 0 -> P 1 -> P 2 -> forall i, 0 <= i < 3 -> P i.
Proof using. intros H0 H1 H2 i Hi. assert (E : i = 0 \/ i = 1 \/ i = 2) by lia. destruct E as [->|[->| ->]]; auto. Qed.
Theorem C49_antisymmetric a b i : 0 <= i < 3 -> cross_at a b i = v_opp A (cross_at b a i) /\ cross_at a a i = v_zero A.
Proof using R.
  revert i. apply cross_cases; destruct (cross_at_values a b) as (E0 & E1 & E2), (cross_at_values b a) as (F0 & F1 & F2), (cross_at_values a a) as (G0 & G1 & G2); rewrite ?E0, ?E1, ?E2, ?F0, ?F1, ?F2, ?G0, ?G1, ?G2; split; ring.
Qed.
Theorem C49_bilinear x y a a' b i : 0 <= i < 3 ->
  cross_at (fun l => x * a l + y * a' l)%cs b i = (x * cross_at a b i + y * cross_at a' b i)%cs /\
  cross_at b (fun l => x * a l + y * a' l)%cs i = (x * cross_at b a i + y * cross_at b a' i)%cs.
Proof using R.
  revert i. apply cross_cases;
  destruct (cross_at_values (fun l => x * a l + y * a' l)%cs b) as (E0 & E1 & E2), (cross_at_values b (fun l => x * a l + y * a' l)%cs) as (F0 & F1 & F2),
    (cross_at_values a b) as (G0 & G1 & G2), (cross_at_values a' b) as (G0' & G1' & G2'), (cross_at_values b a) as (H0 & H1 & H2), (cross_at_values b a') as (H0' & H1' & H2');
  rewrite ?E0, ?E1, ?E2, ?F0, ?F1, ?F2, ?G0, ?G1, ?G2, ?G0', ?G1', ?G2', ?H0, ?H1, ?H2, ?H0', ?H1', ?H2'; split; ring.
Qed.
Theorem C49_orthogonal a b : sum_to A 3 (fun i => a i * cross_at a b i)%cs = v_zero A /\ sum_to A 3 (fun i => b i * cross_at a b i)%cs = v_zero A.
Proof using R.
  unfold sum_to. change (Z.to_nat 3) with 3%nat. cbn [sum_nat]. change (Z.of_nat 0) with 0. change (Z.of_nat 1) with 1. change (Z.of_nat 2) with 2.
  destruct (cross_at_values a b) as (-> & -> & ->). split; ring.
Qed.
Theorem C49_lagrange a b : let dot u v := sum_to A 3 (fun i => u i * v i)%cs in
  dot (cross_at a b) (cross_at a b) = (dot a a * dot b b - dot a b * dot a b)%cs.
Proof using R.
  cbv zeta. unfold sum_to. change (Z.to_nat 3) with 3%nat. cbn [sum_nat]. change (Z.of_nat 0) with 0. change (Z.of_nat 1) with 1. change (Z.of_nat 2) with 2.
  destruct (cross_at_values a b) as (-> & -> & ->). ring.
Qed.
End Cross.
Print Assumptions C49_antisymmetric.
Print Assumptions C49_bilinear.
Print Assumptions C49_orthogonal.
Print Assumptions C49_lagrange.
Example C49_example : map (cross_at Z_arith true 10 (fun a => a) (fun i => i + 1) (fun i => 4 - i * i)) [0; 1; 2] = [-9; 12; -5].
Proof. reflexivity. Qed.

(** ** C50 *)
(** gemm_batch does what a loop over gemm does: with different sizes ([vbatch]), or with equal sizes and strides *)
Theorem C50_batch_is_loop : forall V (A : arith V) (cj : V -> V) checks vbatch alpha beta (l : list (mat * mat * view)) (m : mem V),
  (forall t, In t l -> triple_fits t) -> (forall t0 t, hd_error l = Some t0 -> In t l -> same_kind t0 t) ->
  (vbatch = false -> forall t0 t, hd_error l = Some t0 -> In t l -> same_sizes t0 t) ->
  (forall x0 y0 c0, hd_error l = Some (x0, y0, c0) -> conj_allowed x0 c0 /\ conj_allowed y0 c0) ->
  gemm_batch A cj checks vbatch alpha beta l m = one_by_one (fun t => let '(x, y, c) := t in gemm A cj checks alpha x y beta c) l m.
Proof. exact @gemm_batch_loop. Qed.
Print Assumptions C50_batch_is_loop.
(** if the results overlap neither each other nor the factors, every product of the batch has its value and nothing else changes *)
Theorem C50_batch : forall V (A : arith V) (cj : V -> V), is_ring A -> forall checks vbatch alpha beta (l : list (mat * mat * view)) (m : mem V),
  (forall t, In t l -> triple_fits t) -> (forall t0 t, hd_error l = Some t0 -> In t l -> same_kind t0 t) ->
  (vbatch = false -> forall t0 t, hd_error l = Some t0 -> In t l -> same_sizes t0 t) ->
  (forall x y c, In (x, y, c) l -> conj_allowed x c /\ conj_allowed y c) -> batch_apart l ->
  exists m', gemm_batch A cj checks vbatch alpha beta l m = BRet m' /\
    (forall x y c r k n, In (x, y, c) l -> blas_matrix (m_view x) r k -> blas_matrix (m_view y) k n -> blas_matrix c r n -> forall i j, 0 <= i < r -> 0 <= j < n ->
       m' (cell c [i; j]) = v_add A (v_mul A alpha (product_at A k (mat_at cj x m) (mat_at cj y m) i j)) (v_mul A beta (m (cell c [i; j])))) /\
    (forall a, (forall x y c, In (x, y, c) l -> ~ is_cell_of c a) -> m' a = m a).
Proof.
  intros V A cj R checks vbatch alpha beta l m HF HK HS HC HB. rewrite (gemm_batch_loop A cj); [now apply one_by_one_spec|auto|auto|auto|].
  intros x0 y0 c0 E. apply HC. destruct l as [|t l']; [discriminate E|]. injection E as ->. now left.
Qed.
Print Assumptions C50_batch.
(** gemm_batch_strided *)
Theorem C50_strided : forall V (A : arith V) (cj : V -> V), is_ring A -> forall checks alpha beta (x y : mat) (c : view) (m : mem V) b r k n sx sy sc,
  stack_of (m_view x) b r k sx -> stack_of (m_view y) b k n sy -> stack_of c b r n sc ->
  starts_in_int b sx -> starts_in_int b sy -> starts_in_int b sc ->
  conj_allowed x c -> conj_allowed y c -> no_aliasing (v_lay c) -> disjoint c (m_view x) -> disjoint c (m_view y) ->
  exists m', gemm_batch_strided A cj checks alpha x y beta c m = BRet m' /\
    (forall q i j, 0 <= q < b -> 0 <= i < r -> 0 <= j < n -> m' (cell c [q; i; j]) =
       v_add A (v_mul A alpha (product_at A k (stack_at cj x m q) (stack_at cj y m q) i j)) (v_mul A beta (m (cell c [q; i; j])))) /\
    unchanged_outside c m m'.
Proof. intros V A cj R. exact (gemm_batch_strided_spec A cj R). Qed.
Print Assumptions C50_strided.

(** two products with matrices of different sizes and leading dimensions *)
Definition ex50_t1 : mat * mat * view := (Mat false (ex_view [0; 1]%nat [1; 2] [2; 1] 0), Mat false (ex_view [0; 1]%nat [2; 1] [3; 1] 10), ex_view [1; 0]%nat [1; 1] [1; 4] 20).
Definition ex50_t2 : mat * mat * view := (Mat false (ex_view [0; 1]%nat [2; 1] [5; 1] 30), Mat false (ex_view [0; 1]%nat [1; 2] [2; 1] 40), ex_view [1; 0]%nat [2; 2] [1; 2] 50).
Example C50_example : let l := [ex50_t1; ex50_t2] in (forall t, In t l -> triple_fits t) /\ (forall t0 t, hd_error l = Some t0 -> In t l -> same_kind t0 t) /\
  (forall x y c, In (x, y, c) l -> conj_allowed x c /\ conj_allowed y c) /\ batch_apart l /\
  match gemm_batch Z_arith (fun z => z) true true 1 1 l (fun a => a) with
  | BRet m' => m' 20 = 20 + (0 * 10 + 1 * 13) /\ map m' [50; 51; 52; 53] = [50 + 30 * 40; 51 + 35 * 40; 52 + 30 * 41; 53 + 35 * 41] | _ => False end.
Proof.
  cbv zeta. split; [|split; [|split; [|split]]].
  - intros t [<-|[<-|[]]]; [exists 1, 2, 1|exists 2, 1, 2]; (split; [|split]); [ex_blas 2|ex_blas 3|ex_blas 4|ex_blas 5|ex_blas 2|ex_blas 2].
  - intros t0 t E [<-|[<-|[]]]; injection E as <-; repeat split.
  - intros x y c [E|[E|[]]]; injection E as <- <- <-; split; intros C; discriminate C.
  - split.
    + intros x y c x' y' c' [E|[E|[]]] [F|[F|[]]]; injection E as <- <- <-; injection F as <- <- <-; split; cbn [m_view]; ex_cells.
    + constructor; [|constructor; [constructor|constructor]]. constructor; [|constructor]. cbn [snd ex50_t1 ex50_t2]. ex_cells.
  - vm_compute. split; reflexivity.
Qed.
(** two 1 by 2 matrices times two 2 by 1 matrices *)
Example C50_strided_example : let x := Mat false (ex_view [0; 1; 2]%nat [2; 1; 2] [4; 3; 1] 0) in let y := Mat false (ex_view [0; 2; 1]%nat [2; 2; 1] [2; 1; 2] 20) in let c := ex_view [0; 1; 2]%nat [2; 1; 1] [3; 1; 1] 40 in
  stack_of (m_view x) 2 1 2 4 /\ stack_of (m_view y) 2 2 1 2 /\ stack_of c 2 1 1 3 /\ starts_in_int 2 4 /\ starts_in_int 2 2 /\ starts_in_int 2 3 /\ no_aliasing (v_lay c) /\ disjoint c (m_view x) /\ disjoint c (m_view y) /\
  match gemm_batch_strided Z_arith (fun z => z) true 1 x y 1 c (fun a => a) with
  | BRet m' => map m' [40; 41; 42; 43] = [40 + (0 * 20 + 1 * 21); 41; 42; 43 + (4 * 22 + 5 * 23)] | _ => False end.
Proof.
  cbv zeta. cbn [m_view]. assert (I : forall s, 0 <= s < 5 -> starts_in_int 2 s) by (intros s Hs q Hq; unfold int_range; nia).
  split; [|split; [|split; [|split; [apply I; lia|split; [apply I; lia|split; [apply I; lia|split; [|split; [|split]]]]]]]].
  - do 3 (split; [lia|]). do 4 (split; [unfold int_range; lia|]). split; [reflexivity|]. exists 3. split; [unfold int_range; lia|]. left. repeat split. lia.
  - do 3 (split; [lia|]). do 4 (split; [unfold int_range; lia|]). split; [reflexivity|]. exists 2. split; [unfold int_range; lia|]. right. repeat split. lia.
  - do 3 (split; [lia|]). do 4 (split; [unfold int_range; lia|]). split; [reflexivity|]. exists 1. split; [unfold int_range; lia|]. left. repeat split. lia.
  - intros i1 i2 V1 V2 E. unfold valid_idx, in_range in V1, V2. cbn in V1, V2.
    repeat match goal with H : Forall2 _ _ _ |- _ => inversion H; clear H; subst end. unfold inr, addr in *. cbn -[Z.add Z.mul] in E. repeat f_equal; lia.
  - ex_cells.
  - ex_cells.
  - vm_compute. reflexivity.
Qed.
(** Without vbatch the strides of the first matrices are used for all: the second product, whose first factor has rows 5 apart, is wrong, with all checks passed. *)
Theorem C50_strides_refuted : let t1 := (Mat false (c_array 0 [2; 1]), Mat false (c_array 10 [1; 1]), c_array 20 [2; 1]) in
  let t2 := (Mat false (ex_view [0; 1]%nat [2; 1] [5; 1] 30), Mat false (c_array 40 [1; 1]), c_array 50 [2; 1]) in
  triple_fits t1 /\ triple_fits t2 /\ same_kind t1 t2 /\ batch_apart [t1; t2] /\
  match gemm_batch Z_arith (fun z => z) true false 1 0 [t1; t2] (fun a => a) with BRet m' => m' 51 = 31 * 40 /\ 31 * 40 <> 35 * 40 | _ => False end.
Proof.
  cbv zeta. split; [exists 2, 1, 1; split; [ex_blas 1|split; [ex_blas 1|ex_blas 1]]|]. split; [exists 2, 1, 1; split; [ex_blas 5|split; [ex_blas 1|ex_blas 1]]|].
  split; [repeat split|]. split; [|vm_compute; split; [reflexivity|discriminate]]. split.
  - intros x y c x' y' c' [E|[E|[]]] [F|[F|[]]]; injection E as <- <- <-; injection F as <- <- <-; split; cbn [m_view]; ex_cells.
  - constructor; [|constructor; [constructor|constructor]]. constructor; [|constructor]. cbn [snd]. ex_cells.
Qed.
Print Assumptions C50_strides_refuted.
(** Arrays of rank 3 in plain Fortran order pass all checks of gemm_batch_strided and give wrong results: element (1, 1, 0) is never written.  The second factors are 1. *)
Theorem C50_fortran_refuted : let f b := new_array [2; 1; 0]%nat b [2; 2; 1] in let x := f 0 in let y := new_array [2; 1; 0]%nat 10 [2; 1; 1] in let c := f 20 in
  match gemm_batch_strided Z_arith (fun z => z) true 1 (Mat false x) (Mat false y) 0 c (fun a => if a <? 10 then a else 1) with
  | BRet m' => cell x [1; 1; 0] = 3 /\ m' (cell c [1; 1; 0]) <> 3 | _ => False end.
Proof. vm_compute. split; [reflexivity|discriminate]. Qed.
Print Assumptions C50_fortran_refuted.

(** The distances of the matrices from the first are computed as ints: with three 1 by 1 matrices 2^30 cells apart the third is looked for 2^31 cells
    before the first one instead of after it, so the third product is wrong. *)
Theorem C50_distance_refuted : let st b s := ex_view [0; 1; 2]%nat [3; 1; 1] [s; 1; 1] b in let x := Mat false (st 0 (2 ^ 30)) in let y := Mat false (st 10 1) in let c := st 20 1 in
  stack_of (m_view x) 3 1 1 (2 ^ 30) /\ stack_of (m_view y) 3 1 1 1 /\ stack_of c 3 1 1 1 /\ no_aliasing (v_lay c) /\ disjoint c (m_view x) /\ disjoint c (m_view y) /\
  match gemm_batch_strided Z_arith (fun z => z) true 1 x y 0 c (fun a => a) with
  | BRet m' => m' (cell c [1; 0; 0]) = cell (m_view x) [1; 0; 0] * 11 /\ m' (cell c [2; 0; 0]) <> cell (m_view x) [2; 0; 0] * 12 | _ => False end.
Proof.
  cbv zeta. cbn [m_view].
  assert (S : forall b s, int_range s -> stack_of (ex_view [0; 1; 2]%nat [3; 1; 1] [s; 1; 1] b) 3 1 1 s).
  { intros b s Hs. do 3 (split; [lia|]). do 3 (split; [unfold int_range; lia|]). split; [exact Hs|]. split; [reflexivity|]. exists 1. split; [unfold int_range; lia|]. left. repeat split. lia. }
  split; [|split; [|split; [|split; [|split; [|split]]]]].
  - apply S. unfold int_range. lia.
  - apply S. unfold int_range. lia.
  - apply S. unfold int_range. lia.
  - intros i1 i2 V1 V2 E. unfold valid_idx, in_range in V1, V2. cbn in V1, V2.
    repeat match goal with H : Forall2 _ _ _ |- _ => inversion H; clear H; subst end. unfold inr, addr in *. cbn -[Z.add Z.mul] in E. repeat f_equal; lia.
  - ex_cells.
  - ex_cells.
  - vm_compute. split; [reflexivity|discriminate].
Qed.
Print Assumptions C50_distance_refuted.

(** With the checks switched on, shapes that do not fit end the program before anything is written. *)
Theorem C43_mismatch : forall V (A : arith V) (cj : V -> V) alpha (x y : mat) beta (c : view) (m : mem V) r k k' n r' n',
  blas_matrix (m_view x) r k -> blas_matrix (m_view y) k' n -> blas_matrix c r' n' -> k <> k' \/ r <> r' \/ n <> n' -> gemm A cj true alpha x y beta c m = BStop.
Proof.
  intros V A cj alpha x y beta c m r k k' n r' n' Hx Hy Hc D. unfold gemm, gemm_checks, extent. rewrite (blas_len _ _ _ Hx), (blas_len _ _ _ Hy), (blas_len _ _ _ Hc).
  unfold nthZ. cbn [nth]. unfold expects at 1. destruct (k =? k') eqn:E1; [|reflexivity]. destruct (r =? r') eqn:E2; [|reflexivity]. destruct (n =? n') eqn:E3; [|reflexivity].
  apply Z.eqb_eq in E1, E2, E3. lia.
Qed.
Print Assumptions C43_mismatch.
Theorem C43_matmul_mismatch : forall V (A : arith V) (cj : V -> V) b1 b2 b3 b4 b5 l r (m : mem V) n k k' p, operand_shape l = [n; k] -> operand_shape r = [k'; p] -> k <> k' ->
  matmul A cj true b1 b2 b3 b4 b5 l r m = BStop.
Proof. intros V A cj b1 b2 b3 b4 b5 l r m n k k' p El Er D. unfold matmul. rewrite El, Er. unfold nthZ. cbn [nth]. apply Z.eqb_neq in D. now rewrite D. Qed.
Print Assumptions C43_matmul_mismatch.
(** The type of the product is taken from the left factor, with the extents it fixes: a 2 by 3 stack_matrix cannot be multiplied with a 3 by 4
    matrix stored by rows in a debug build, although the release build computes the product. *)
Definition stack23 : view := View (idx_map_of_shape [0; 1]%nat [2; 3] LP_contiguous [0; 0] [2; 3]) 0.
Theorem C43_stack_matrix_refuted : let l : @operand Z := OMat true stack23 in let r : @operand Z := OMat true (new_array [0; 1]%nat 10 [3; 4]) in
  operand_fits l 2 3 /\ operand_fits r 3 4 /\ (forall cj b1 b2 b3 b4 b5 m, matmul Z_arith cj true b1 b2 b3 b4 b5 l r m = BStop) /\
  exists res m', matmul Z_arith (fun x => x) false 30 50 60 70 80 l r (fun a => a) = BRet (res, m') /\ m' (cell res [1; 2]) = 3 * 12 + 4 * 16 + 5 * 20.
Proof.
  cbv zeta. assert (O : is_order 2 [0; 1]%nat) by (apply perm_check_ok; reflexivity). split; [|split; [|split]].
  - split; [lia|]. split; [lia|]. split; [unfold int_range; lia|]. split; [unfold int_range; lia|]. split; [ex_blas 3|exact (new_usable2 [0; 1]%nat 0 2 3 O ltac:(lia) ltac:(lia))].
  - split; [lia|]. split; [lia|]. split; [unfold int_range; lia|]. split; [unfold int_range; lia|]. split; [ex_blas 4|apply new_usable2; [exact O|lia|lia]].
  - reflexivity.
  - eexists _, _. split; [reflexivity|]. reflexivity.
Qed.
Print Assumptions C43_stack_matrix_refuted.
Theorem C44_mismatch : forall V (A : arith V) (cj : V -> V) alpha (x : mat) (b : view) beta (c : view) (m : mem V) r k k' r' sb sc,
  blas_matrix (m_view x) r k -> vector_of b k' sb -> vector_of c r' sc -> k <> k' \/ r <> r' -> gemv A cj true alpha x b beta c m = BStop.
Proof.
  intros V A cj alpha x b beta c m r k k' r' sb sc Hx (_ & _ & _ & Eb & _) (_ & _ & _ & Ec & _) D. unfold gemv, extent. rewrite (blas_len _ _ _ Hx), Eb, Ec.
  unfold nthZ. cbn [nth]. unfold expects. destruct (k =? k') eqn:E1; [|reflexivity]. destruct (r =? r') eqn:E2; [|reflexivity]. apply Z.eqb_eq in E1, E2. lia.
Qed.
Print Assumptions C44_mismatch.
Theorem C44_matvecmul_mismatch : forall V (A : arith V) (cj : V -> V) b1 b2 b3 b4 l (f : mem V -> list Z -> V) (m : mem V) n k k', operand_shape l = [n; k] -> k <> k' ->
  matvecmul A cj true b1 b2 b3 b4 l [k'] f m = BStop.
Proof. intros V A cj b1 b2 b3 b4 l f m n k k' El D. unfold matvecmul. rewrite El. unfold nthZ. cbn [nth]. apply Z.eqb_neq in D. now rewrite D. Qed.
Print Assumptions C44_matvecmul_mismatch.
Theorem C45_mismatch : forall V (A : arith V) alpha (x y mv : view) (m : mem V) r n r' n' sx sy, vector_of x r sx -> vector_of y n sy -> blas_matrix mv r' n' -> r <> r' \/ n <> n' ->
  ger A true alpha x y mv m = BStop.
Proof.
  intros V A alpha x y mv m r n r' n' sx sy (_ & _ & _ & Ex & _) (_ & _ & _ & Ey & _) Hm D. unfold ger, ger_checks, extent. rewrite (blas_len _ _ _ Hm), Ex, Ey.
  unfold nthZ. cbn [nth]. unfold expects at 1. destruct (r' =? r) eqn:E1; [|reflexivity]. destruct (n' =? n) eqn:E2; [|reflexivity]. apply Z.eqb_eq in E1, E2. lia.
Qed.
Print Assumptions C45_mismatch.
Theorem C46_mismatch : forall V (A : arith V) (cj : V -> V) star (x y : view) (m : mem V) n n' sx sy, vector_of x n sx -> vector_of y n' sy -> n <> n' -> blas_dot A cj true star x y m = BStop.
Proof.
  intros V A cj star x y m n n' sx sy (_ & _ & _ & Ex & _) (_ & _ & _ & Ey & _) D. unfold blas_dot. rewrite Ex, Ey. unfold expects, shape_eqb.
  destruct (list_eq_dec Z.eq_dec [n] [n']) as [E|]; [inversion E; lia|reflexivity].
Qed.
Print Assumptions C46_mismatch.
Theorem C49_mismatch : forall V (A : arith V) base la (a : Z -> V) lb (b : Z -> V) (m : mem V), la <> 3 \/ lb <> 3 -> cross_product A true base [la] a [lb] b m = BStop.
Proof.
  intros V A base la a lb b m D. unfold cross_product, nthZ. cbn [nth]. unfold expects. destruct (la =? 3) eqn:E1; [|reflexivity]. destruct (lb =? 3) eqn:E2; [|reflexivity].
  apply Z.eqb_eq in E1, E2. lia.
Qed.
Print Assumptions C49_mismatch.
