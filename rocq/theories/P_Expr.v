(** Properties C21-C23 (equality, reductions, lazy arithmetic) and the compound assignments of C20. *)
From Verif Require Import Base M_Perm L_Perm M_IdxMap M_Slice M_Loops M_Assign M_Expr S_Layout S_Loops S_Assign S_Expr L_IdxMap L_Slice L_Layout L_Loops L_Assign L_Expr P_Slice P_Assign.

(** integers as element type, for the examples *)
Definition Z_arith : arith Z := Arith Z 0 1 Z.opp Z.add Z.sub Z.mul Z.div.
Lemma Z_zero_neutral : zero_neutral Z_arith.
Proof. intros x. cbn. repeat split; lia. Qed.

(** ** C21 *)
(** [a == b] iff the shapes agree and all corresponding elements compare equal. [a] and [b] are the call operators. *)
Theorem C21_equality {V} (veq : V -> V -> bool) (sa : list Z) (a : list Z -> V) (sb : list Z) (b : list Z -> V) :
  array_eq veq sa a sb b = true <-> sa = sb /\ forall idx, in_range idx sa -> veq (a idx) (b idx) = true.
Proof. apply array_eq_spec. Qed.
Print Assumptions C21_equality.
(** for two arrays or views in memory, whatever their layouts *)
Theorem C21_views {V} (veq : V -> V -> bool) (a b : view) (m : mem V) : (forall x y, veq x y = true <-> x = y) -> truthful (v_lay a) -> truthful (v_lay b) ->
  array_eq veq (im_len (v_lay a)) (fun idx => m (elem a idx)) (im_len (v_lay b)) (fun idx => m (elem b idx)) = true <->
  im_len (v_lay a) = im_len (v_lay b) /\ holds a m (fun idx => m (cell b idx)).
Proof.
  intros Hv Ta Tb. rewrite array_eq_spec. split; intros [E H]; split; auto; intros idx Hi.
  - specialize (H idx Hi). apply Hv in H. rewrite <- (elem_cell_in a idx Ta Hi), <- (elem_cell_in b idx Tb); auto. unfold in_view, valid_idx in *. now rewrite <- E.
  - apply Hv. assert (Hb : in_view b idx) by (unfold in_view, valid_idx in *; now rewrite <- E). rewrite (elem_cell_in a idx Ta Hi), (elem_cell_in b idx Tb Hb). now apply H.
Qed.
Theorem C21_reflexive {V} (veq : V -> V -> bool) (sa : list Z) (a : list Z -> V) : (forall x, veq x x = true) -> array_eq veq sa a sa a = true.
Proof. intros H. apply array_eq_spec. auto. Qed.
Print Assumptions C21_reflexive.
Theorem C21_symmetric {V} (veq : V -> V -> bool) (sa sb : list Z) (a b : list Z -> V) : (forall x y, veq x y = veq y x) ->
  array_eq veq sa a sb b = array_eq veq sb b sa a.
Proof.
  intros H. apply Bool.eq_iff_eq_true. rewrite !array_eq_spec. split; intros [-> G]; split; auto; intros idx Hi; rewrite H; auto.
Qed.
Print Assumptions C21_symmetric.
Theorem C21_transitive {V} (veq : V -> V -> bool) (sa sb sc : list Z) (a b c : list Z -> V) : (forall x y z, veq x y = true -> veq y z = true -> veq x z = true) ->
  array_eq veq sa a sb b = true -> array_eq veq sb b sc c = true -> array_eq veq sa a sc c = true.
Proof. intros H. rewrite !array_eq_spec. intros [-> G1] [-> G2]. split; auto. intros idx Hi. eauto. Qed.
Print Assumptions C21_transitive.
(** assignment makes the two sides equal *)
Theorem C21_after_assign {V} (veq : V -> V -> bool) (checks : bool) (dst src : view) (m m' : mem V) : (forall x y, veq x y = true <-> x = y) -> usable (v_lay dst) ->
  rhs_apart dst (@RMem V src) -> assign_from_ndarray checks true dst (im_len (v_lay dst)) (RMem src) m = Some m' ->
  array_eq veq (im_len (v_lay dst)) (fun idx => m' (elem dst idx)) (im_len (v_lay src)) (fun idx => m' (elem src idx)) = true.
Proof.
  intros Hv U Hap E. pose proof Hap as (T & El & _). apply C21_views; auto. split; auto.
  destruct (C16_source_kept checks dst src m m' U Hap E) as [_ G]. exact G.
Qed.
Print Assumptions C21_after_assign.
Example C21_example : array_eq Z.eqb [2; 3] (elem (ex_c 0)) [2; 3] (elem (ex_f 0)) = false /\
  array_eq Z.eqb [2; 3] (elem (ex_c 0)) [2; 3] (fun idx => 3 * nthZ idx 0 + nthZ idx 1) = true /\ array_eq Z.eqb [2; 3] (elem (ex_c 0)) [3; 2] (elem (ex_c 0)) = false.
Proof. repeat split. Qed.

(** ** C22 *)
(** [fold] computes f(f(f(r, a(0,..,0)), a(0,..,1)), ...): the elements in lexicographic order of their indices. *)
Theorem C22_fold {V R} (f : R -> V -> R) (shape : list Z) (a : list Z -> V) (r : R) :
  exists L, lists_all_indices shape L /\ fold f shape a r = fold_left f (map a L) r.
Proof.
  exists (all_idx shape). split; [|apply fold_list]. split; [intros; apply all_idx_In|apply all_idx_sorted].
Qed.
Print Assumptions C22_fold.
Theorem C22_any (shape : list Z) (a : list Z -> bool) : any shape a = true <-> exists idx, in_range idx shape /\ a idx = true.
Proof.
  unfold any. rewrite fold_list, fold_left_or. cbn [orb]. rewrite existsb_exists. split.
  - intros (x & Hx & Ex). apply in_map_iff in Hx. destruct Hx as (idx & <- & Hi). exists idx. split; [now apply all_idx_In|auto].
  - intros (idx & Hi & E). exists (a idx). split; auto. apply in_map. now apply all_idx_In.
Qed.
Print Assumptions C22_any.
Theorem C22_all (shape : list Z) (a : list Z -> bool) : all shape a = true <-> forall idx, in_range idx shape -> a idx = true.
Proof.
  unfold all. rewrite fold_list, fold_left_and. cbn [andb]. rewrite forallb_forall. split.
  - intros H idx Hi. apply H. apply in_map. now apply all_idx_In.
  - intros H x Hx. apply in_map_iff in Hx. destruct Hx as (idx & <- & Hi). apply H. now apply all_idx_In.
Qed.
Print Assumptions C22_all.
(** [sum] and [product] are the sum and product of all elements, listed in any order. *)
Theorem C22_sum {V} (A : arith V) (shape : list Z) (a : list Z -> V) (L : list (list Z)) : comm_monoid (v_add A) (v_zero A) -> enumerates shape L ->
  sum A shape a = total (v_add A) (v_zero A) (map a L).
Proof.
  intros HM HL. unfold sum. rewrite fold_list, (fold_left_total _ (v_zero A)) by auto. pose proof HM as (_ & _ & Ne). rewrite Ne.
  apply total_perm; auto. apply Permutation_map. symmetry. now apply enumerates_perm.
Qed.
Theorem C22_product {V} (A : arith V) (shape : list Z) (a : list Z -> V) (L : list (list Z)) : comm_monoid (v_mul A) (v_one A) -> enumerates shape L ->
  product A shape a = total (v_mul A) (v_one A) (map a L).
Proof.
  intros HM HL. unfold product. rewrite fold_list, (fold_left_total _ (v_one A)) by auto. pose proof HM as (_ & _ & Ne). rewrite Ne.
  apply total_perm; auto. apply Permutation_map. symmetry. now apply enumerates_perm.
Qed.
Print Assumptions C22_product.
(** the square of the Frobenius norm is the sum of the squared absolute values *)
Theorem C22_frobenius {V} (A : arith V) (abs : V -> V) (shape : list Z) (a : list Z -> V) (L : list (list Z)) : comm_monoid (v_add A) (v_zero A) -> enumerates shape L ->
  frobenius_square A abs shape a = total (v_add A) (v_zero A) (map (fun idx => v_mul A (abs (a idx)) (abs (a idx))) L).
Proof.
  intros HM HL. unfold frobenius_square. rewrite fold_list.
  transitivity (fold_left (v_add A) (map (fun idx => v_mul A (abs (a idx)) (abs (a idx))) (all_idx shape)) (v_zero A)).
  - now rewrite !fold_left_map.
  - rewrite (fold_left_total _ (v_zero A)) by auto. pose proof HM as (_ & _ & Ne). rewrite Ne.
    apply total_perm; auto. apply Permutation_map. symmetry. now apply enumerates_perm.
Qed.
Print Assumptions C22_frobenius.
(** [max_element] is an element and no element exceeds it; [min_element] likewise (non-empty arrays). *)
Theorem C22_max {V} (ltb : V -> V -> bool) (shape : list Z) (a : list Z -> V) : strict_total ltb -> Forall (fun l => 0 < l) shape ->
  (exists idx, in_range idx shape /\ array_max ltb shape a = a idx) /\ (forall idx, in_range idx shape -> ltb (array_max ltb shape a) (a idx) = false).
Proof.
  intros HT Hs. unfold array_max. rewrite fold_list. destruct (fold_max ltb (map a (all_idx shape)) HT (get_first_element shape a)) as (G1 & G2 & G3). split.
  - destruct G1 as [<-|G1]; [exists (map (fun _ => 0) shape); split; [now apply first_valid|reflexivity]|].
    apply in_map_iff in G1. destruct G1 as (idx & E & Hi). exists idx. split; [now apply all_idx_In|auto].
  - intros idx Hi. apply G3. apply in_map. now apply all_idx_In.
Qed.
Theorem C22_min {V} (ltb : V -> V -> bool) (shape : list Z) (a : list Z -> V) : strict_total ltb -> Forall (fun l => 0 < l) shape ->
  (exists idx, in_range idx shape /\ array_min ltb shape a = a idx) /\ (forall idx, in_range idx shape -> ltb (a idx) (array_min ltb shape a) = false).
Proof.
  intros HT Hs. unfold array_min. rewrite fold_list. destruct (fold_min ltb (map a (all_idx shape)) HT (get_first_element shape a)) as (G1 & G2 & G3). split.
  - destruct G1 as [<-|G1]; [exists (map (fun _ => 0) shape); split; [now apply first_valid|reflexivity]|].
    apply in_map_iff in G1. destruct G1 as (idx & E & Hi). exists idx. split; [now apply all_idx_In|auto].
  - intros idx Hi. apply G3. apply in_map. now apply all_idx_In.
Qed.
Print Assumptions C22_min.
(** For an empty array both read a(0,...,0), which is not an element. *)
Theorem C22_empty_max_refuted : exists (shape : list Z) (a : list Z -> Z), Forall (fun l => 0 <= l) shape /\
  (exists idx, array_max Z.ltb shape a = a idx /\ ~ in_range idx shape) /\ (forall idx, ~ in_range idx shape).
Proof.
  exists [0], (fun _ => 7). split; [repeat constructor; lia|]. assert (H : forall idx, ~ in_range idx [0]).
  { intros idx H. inversion H as [|x l t1 t2 H1 H2]; subst. unfold inr in H1. lia. }
  split; [exists [0]; split; [reflexivity|apply H]|exact H].
Qed.
Print Assumptions C22_empty_max_refuted.
(** [pow(x, n)] for integers is x multiplied n times. *)
Theorem C22_int_pow (x n : Z) : 0 <= n -> int_pow Z_arith x n = x ^ n.
Proof.
  intros Hn. unfold int_pow. cbn [v_one v_mul Z_arith]. rewrite <- (Z2Nat.id n Hn). induction (Z.to_nat n) as [|k IH]; [reflexivity|].
  rewrite Nat2Z.inj_succ. unfold Z.succ. rewrite zseq_succ by lia. rewrite fold_left_app, IH. cbn [fold_left]. rewrite Z.pow_add_r by lia. ring.
Qed.
Print Assumptions C22_int_pow.
Example C22_example : sum Z_arith [2; 3] (elem (ex_f 1)) = 21 /\ product Z_arith [2; 3] (elem (ex_f 1)) = 720 /\ array_max Z.ltb [2; 3] (elem (ex_f 1)) = 6 /\
  array_min Z.ltb [2; 3] (elem (ex_f 1)) = 1 /\ any [2; 3] (fun idx => elem (ex_f 1) idx =? 4) = true /\ all [2; 3] (fun idx => elem (ex_f 1) idx =? 4) = false /\
  fold (fun r x => r * 10 + x) [2; 3] (elem (ex_f 1)) 0 = 135246 /\ comm_monoid Z.add 0 /\ strict_total Z.ltb /\ frobenius_square Z_arith Z.abs [2; 3] (fun idx => - elem (ex_f 1) idx) = 91.
Proof.
  do 7 (split; [reflexivity|]). split; [repeat split; intros; lia|]. split; [|reflexivity].
  repeat split; intros; rewrite ?Z.ltb_lt, ?Z.ltb_irrefl in *; try lia.
Qed.

(** ** C23 *)
(** An expression built from arrays of one shape has that shape, and its value at an index is the arithmetic
    expression of the values of its arrays at that index. *)
Theorem C23_value {V} (A : arith V) (m : mem V) (e : expr V) (sh idx : list Z) : zero_neutral A -> common_shape e sh -> leaves_truthful e -> in_range idx sh ->
  expr_shape e = sh /\ expr_at A m e idx = denote A m e idx.
Proof.
  intros HZ Hc Ht Hi. split; [now apply (proj1 shapes_of_common)|]. apply (proj1 (expr_at_denote A m HZ) e idx sh); auto. now apply in_range_length in Hi.
Qed.
(** The shape checks of debug builds accept an expression exactly when its arrays have one shape. *)
Theorem C23_shape_check {V} (e : expr V) : shape_checks e = true <-> exists sh, common_shape e sh.
Proof.
  split.
  - intros H. exists (expr_shape e). now apply (proj1 common_of_checks).
  - intros [sh H]. now apply (proj1 shapes_of_common e sh).
Qed.
Print Assumptions C23_shape_check.
(** Element by element, the rules that define the lazy operators. *)
Theorem C23_elementwise {V} (A : arith V) (m : mem V) (l r : expr V) (op : bin_op) (idx : list Z) :
  expr_at A m (EBin op l r) idx = op_value A op (expr_at A m l idx) (expr_at A m r idx) /\ expr_at A m (ENeg l) idx = v_opp A (expr_at A m l idx).
Proof. split; [now destruct op|reflexivity]. Qed.
Print Assumptions C23_elementwise.
(** In matrix algebra an added or subtracted scalar acts on the diagonal only; s - M is -M off the diagonal. *)
Theorem C23_matrix_scalar {V} (A : arith V) (m : mem V) (e : expr V) (s : V) (i j : Z) : get_algebra e = AlgM ->
  expr_at A m (EScalR OpPlus e s) [i; j] = (if i =? j then v_add A (expr_at A m e [i; j]) s else expr_at A m e [i; j]) /\
  expr_at A m (EScalR OpMinus e s) [i; j] = (if i =? j then v_sub A (expr_at A m e [i; j]) s else expr_at A m e [i; j]) /\
  expr_at A m (EScalL OpPlus s e) [i; j] = (if i =? j then v_add A s (expr_at A m e [i; j]) else expr_at A m e [i; j]) /\
  expr_at A m (EScalL OpMinus s e) [i; j] = (if i =? j then v_sub A s (expr_at A m e [i; j]) else v_opp A (expr_at A m e [i; j])) /\
  expr_at A m (EScalR OpTimes e s) [i; j] = v_mul A (expr_at A m e [i; j]) s /\
  expr_at A m (EScalR OpDiv e s) [i; j] = v_div A (expr_at A m e [i; j]) s.
Proof. intros E. cbn [expr_at]. rewrite E. cbn [is_M algebra_eqb on_diagonal]. auto 6. Qed.
Print Assumptions C23_matrix_scalar.
(** In the other algebras it acts on every element. *)
Theorem C23_array_scalar {V} (A : arith V) (m : mem V) (e : expr V) (s : V) (op : bin_op) (idx : list Z) : get_algebra e <> AlgM ->
  expr_at A m (EScalR op e s) idx = op_value A op (expr_at A m e idx) s /\ expr_at A m (EScalL op s e) idx = op_value A op s (expr_at A m e idx).
Proof. intros E. cbn [expr_at]. destruct op, (get_algebra e); try congruence; split; reflexivity. Qed.
Print Assumptions C23_array_scalar.
(** An expression of matrices is a matrix, one of arrays an array, at any depth and with scalars on either side. *)
Theorem C23_algebra {V} (a : algebra) (e : expr V) : (forall x, In x (leaf_algebras e) -> x = a) -> get_algebra e = a.
Proof. apply (proj1 (algebra_of_leaves a)). Qed.
(** The value of an expression at [idx] depends on its arrays only through their elements at [idx]. *)
Theorem C23_local {V} (A : arith V) (e : expr V) (sh idx : list Z) (m1 m2 : mem V) : zero_neutral A -> common_shape e sh -> leaves_truthful e -> in_range idx sh ->
  (forall v, In v (leaves e) -> m1 (cell v idx) = m2 (cell v idx)) -> expr_at A m1 e idx = expr_at A m2 e idx.
Proof.
  intros HZ Hc Ht Hi H. destruct (C23_value A m1 e sh idx HZ Hc Ht Hi) as [_ ->]. destruct (C23_value A m2 e sh idx HZ Hc Ht Hi) as [_ ->].
  now apply (proj1 (denote_reads A m1 m2 idx)).
Qed.
Print Assumptions C23_local.
(** Slicing an expression slices its arrays: the sliced expression has at [j] the value of the whole one at the parent index. *)
Theorem C23_slice {V} (A : arith V) (m : mem V) (e e' : expr V) (sh : list Z) (args : list arg) (j : list Z) : zero_neutral A -> common_shape e sh -> leaves_truthful e ->
  slice_expr e args = Some e' -> some_dim_left (length sh) args -> in_range j (expr_shape e') ->
  denote A m e' j = denote A m e (parent_idx (expand_args (length sh) args) j) /\ expr_at A m e' j = denote A m e' j.
Proof.
  intros HZ Hc Ht Hs Hd Hj. assert (Hp : forall v', In v' (leaves e') -> truthful (v_lay v') /\ im_len (v_lay v') = slice_len (expand_args (length sh) args) sh /\ rank (v_lay v') = rank_after (length sh) args).
  { intros v' Hv. destruct (proj1 (slice_leaves args) e e' Hs v' Hv) as (v & al & al' & Hi & E). pose proof (Hc v Hi) as El. assert (Er : rank (v_lay v) = length sh) by (unfold rank; now rewrite El).
    destruct (slice_view_parts al v args al' v' (Ht v Hi) E) as [T El']; [now rewrite Er|]. split; auto. split; [now rewrite El', Er, El|].
    unfold slice_view in E. destruct (slice (v_lay v) args) as [[o l]|] eqn:E2; [|discriminate]. injection E as _ <-. cbn [v_lay]. rewrite <- Er. apply (slice_rank _ _ o); auto using truthful_wf. }
  set (sh' := slice_len (expand_args (length sh) args) sh) in *.
  assert (Hc' : common_shape e' sh') by (intros v Hv; now apply Hp). assert (Es : expr_shape e' = sh') by now apply (proj1 shapes_of_common).
  rewrite Es in Hj. pose proof (in_range_length _ _ Hj) as Lj. split.
  - apply (proj1 (slice_denote A m (length sh) args j) e e'); auto.
    + intros v Hv. split; [now apply Ht|]. unfold rank. now rewrite (Hc v Hv).
    + destruct (leaves_some e') as [v' Hv]. destruct (Hp v' Hv) as (_ & El & Er). unfold rank in Er. rewrite El in Er. lia.
  - apply (proj1 (expr_at_denote A m HZ) e' j sh'); auto. intros v Hv. now apply Hp.
Qed.
Definition ex_expr : expr Z := EBin OpTimes (EScalR OpPlus (ELeaf AlgA (ex_c 0)) 10) (ENeg (EMap (fun l => sumZ l) (EMore (ELeaf AlgA (ex_f 0)) (EOne (ELeaf AlgA (ex_c 6)))))).
Example C23_example : compiles ex_expr = true /\ common_shape ex_expr [2; 3] /\ leaves_truthful ex_expr /\ expr_at Z_arith (fun a => a) ex_expr [1; 2] = (5 + 10) * - (5 + 11) /\
  expr_at Z_arith (fun a => a) (EScalL OpMinus 100 (ELeaf AlgM (ex_c 0))) [1; 1] = 96 /\ expr_at Z_arith (fun a => a) (EScalL OpMinus 100 (ELeaf AlgM (ex_c 0))) [1; 2] = - 5 /\
  exists e', slice_expr ex_expr [ALong 1; AAll] = Some e' /\ expr_at Z_arith (fun a => a) e' [2] = (5 + 10) * - (5 + 11).
Proof.
  split; [reflexivity|]. split; [intros v [<-|[<-|[<-|[]]]]; reflexivity|]. split.
  - intros v [<-|[<-|[<-|[]]]]; apply usable_truthful; first [apply ex_c_usable|apply ex_f_usable].
  - do 3 (split; [reflexivity|]). eexists. split; reflexivity.
Qed.

(** An expression is accepted exactly by the typing rules, which also give its algebra and its rank: both are determined. *)
Theorem C23_typing {V} (e : expr V) : (forall alg k, typed e alg k <-> compiles e = true /\ get_algebra e = alg /\ expr_rank e = k) /\
  (compiles e = true <-> exists alg k, typed e alg k).
Proof.
  assert (H : forall alg k, typed e alg k <-> compiles e = true /\ get_algebra e = alg /\ expr_rank e = k).
  { intros alg k. split; [apply (proj1 typed_sound)|]. intros (H & <- & <-). now apply (proj1 typed_complete). }
  split; auto. split; [intros Hc; exists (get_algebra e), (expr_rank e); now apply H|intros (alg & k & Hk); now apply H in Hk].
Qed.
Print Assumptions C23_typing.
(** The rank of an expression is the number of extents of its shape. *)
Theorem C23_rank {V} (e : expr V) : expr_rank e = length (expr_shape e).
Proof.
  revert e. fix F 1. intros [al v|a|op l r|op s r|op l s|f [a|a rest]]; cbn [expr_rank expr_shape]; try apply F. reflexivity.
Qed.
Print Assumptions C23_rank.
(** Addition of an array and a matrix is accepted and is not symmetric: the sum has the algebra of its left operand, so that adding one
    more scalar touches every element of (a + m) + 1 but only the diagonal of (m + a) + 1. *)
Theorem C23_mixed_refuted : exists (a m : view) (mem : mem Z) (idx : list Z),
  let am := EBin OpPlus (ELeaf AlgA a) (ELeaf AlgM m) in let ma := EBin OpPlus (ELeaf AlgM m) (ELeaf AlgA a) in
  compiles am = true /\ compiles ma = true /\ common_shape am [2; 2] /\ in_range idx [2; 2] /\
  expr_at Z_arith mem am idx = expr_at Z_arith mem ma idx /\
  expr_at Z_arith mem (EScalR OpPlus am 1) idx <> expr_at Z_arith mem (EScalR OpPlus ma 1) idx.
Proof.
  exists (ex_c22 0), (ex_c22 10), (fun a => a), [0; 1].
  cbn zeta. split; [reflexivity|]. split; [reflexivity|]. split; [intros v [<-|[<-|[]]]; reflexivity|]. split; [repeat constructor; lia|]. split; [reflexivity|]. discriminate.
Qed.
Print Assumptions C23_mixed_refuted.

(** ** C20, compound assignments *)
(** all arrays of the expression either are the destination itself or do not overlap it *)
Definition leaves_apart {V} (dst : view) (e : expr V) : Prop := forall v, In v (leaves e) -> v = dst \/ disjoint dst v.
(** [dst = e] where [e] may contain [dst] itself, at any depth: the new values come from the old contents. *)
Theorem C20_assign_expr {V} (A : arith V) (checks : bool) (dst : view) (e : expr V) (m : mem V) : zero_neutral A -> usable (v_lay dst) ->
  common_shape e (im_len (v_lay dst)) -> leaves_truthful e -> leaves_apart dst e ->
  exists m', assign_expr A checks dst e m = Some m' /\ holds dst m' (fun idx => denote A m e idx) /\ unchanged_outside dst m m'.
Proof.
  intros HZ U Hc Ht Ha. unfold assign_expr. rewrite (proj1 (proj1 shapes_of_common e _ Hc)).
  destruct (C20_elementwise_self checks dst (fun m idx => expr_at A m e idx) m U) as (m' & E & Hh & Hu).
  - intros idx m1 m2 Hi Hm. apply (C23_local A e (im_len (v_lay dst))); auto. intros v Hv. apply Hm. destruct (Ha v Hv) as [->|D]; [now left|right].
    intros C. apply (D _ C). exists idx. split; auto. unfold in_view, valid_idx in *. now rewrite (Hc v Hv).
  - exists m'. split; auto. split; auto. intros idx Hi. rewrite Hh by auto. now apply (C23_value A m e (im_len (v_lay dst))).
Qed.
Print Assumptions C20_assign_expr.
(** [dst op= e] and [dst op= s] *)
Theorem C20_compound {V} (A : arith V) (checks : bool) (op : bin_op) (alg : algebra) (dst : view) (e : expr V) (m : mem V) : zero_neutral A -> usable (v_lay dst) ->
  common_shape e (im_len (v_lay dst)) -> leaves_truthful e -> leaves_apart dst e ->
  exists m', compound_assign A checks op alg dst (OExpr e) m = Some m' /\
    holds dst m' (fun idx => op_value A op (m (cell dst idx)) (denote A m e idx)) /\ unchanged_outside dst m m'.
Proof.
  intros HZ U Hc Ht Ha. unfold compound_assign, compound_expr. apply (C20_assign_expr A checks dst (EBin op (ELeaf alg dst) e) m); auto.
  - intros v [<-|Hv]; auto.
  - intros v [<-|Hv]; auto.
  - intros v [<-|Hv]; auto.
Qed.
Theorem C20_compound_scalar {V} (A : arith V) (checks : bool) (op : bin_op) (alg : algebra) (dst : view) (s : V) (m : mem V) : zero_neutral A -> usable (v_lay dst) ->
  exists m', compound_assign A checks op alg dst (OScalar s) m = Some m' /\
    holds dst m' (fun idx => op_value A op (m (cell dst idx)) (scalar_value A alg op s idx)) /\ unchanged_outside dst m m'.
Proof.
  intros HZ U. unfold compound_assign, compound_expr. apply (C20_assign_expr A checks dst (EScalR op (ELeaf alg dst) s) m); auto.
  - intros v [<-|[]]; auto.
  - intros v [<-|[]]; auto.
  - intros v [<-|[]]; auto.
Qed.
Print Assumptions C20_compound_scalar.
Example C20_compound_example : leaves_apart (ex_c 0) (EBin OpPlus (ELeaf AlgA (ex_f 10)) (ELeaf AlgA (ex_c 0)) : expr Z) /\
  exists m', compound_assign Z_arith true OpTimes AlgA (ex_c 0) (OExpr (EBin OpPlus (ELeaf AlgA (ex_f 10)) (ELeaf AlgA (ex_c 0)))) (fun a => a) = Some m' /\
    map m' [0; 1; 2; 3; 4; 5; 6] = [0; 1 * 13; 2 * 16; 3 * 14; 4 * 17; 5 * 20; 6].
Proof.
  split.
  - intros v [<-|[<-|[]]]; [right|now left]. intros a H1 H2. apply ex_c_cells in H1. apply ex_f_cells in H2. lia.
  - eexists. split; [reflexivity|]. vm_compute. reflexivity.
Qed.

Print Assumptions C21_views.
Print Assumptions C22_sum.
Print Assumptions C22_max.
Print Assumptions C23_value.
Print Assumptions C23_slice.
Print Assumptions C20_compound.
Print Assumptions C23_algebra.
