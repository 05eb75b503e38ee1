(** Properties C01, C02, C03, C06: addressing of fresh arrays, index conversions, call forms, transposition. *)
From Verif Require Import Base M_Perm L_Perm M_IdxMap M_Slice S_Layout L_IdxMap L_Slice L_Layout.

(** a sample layout: shape (2,3,4), stride order 1,2,0 (dimension 1 slowest, dimension 0 fastest) *)
Definition sample : idx_map := idx_map_of_shape [1;2;0]%nat [0;0;0] LP_contiguous [0;0;0] [2;3;4].
Lemma sample_view : view_of (fun s => 0 < s) 24 0 sample.
Proof. apply vo_fresh; try reflexivity; [apply perm_check_ok; reflexivity|repeat constructor; discriminate|simpl; lia]. Qed.

(** ** C01 *)
(** the position computed by a call with one integer per dimension, on a map constructed from a shape *)
Theorem C01_fresh_bijective : forall so se p junk shape,
  is_order (length shape) so -> length junk = length shape -> length se = length shape ->
  Forall (fun l => 0 <= l) shape -> (0 < length shape < 16)%nat ->
  let m := idx_map_of_shape so se p junk shape in
  (forall idx, in_range idx shape -> 0 <= call_impl m (map CLong idx) < prodZ shape) /\
  (forall i j, in_range i shape -> in_range j shape -> call_impl m (map CLong i) = call_impl m (map CLong j) -> i = j) /\
  (forall pos, 0 <= pos < prodZ shape -> exists idx, in_range idx shape /\ call_impl m (map CLong idx) = pos) /\
  size m = prodZ shape.
Proof.
  intros so se p junk shape Ho Lj Ls Hnn HR m.
  pose proof (vo_fresh (fun s => 0 < s) (prodZ shape) so se p junk shape Ho Lj Ls Hnn HR eq_refl) as Hv. fold m in Hv.
  pose proof (view_wf _ _ _ _ Hv) as W. destruct (view_flags _ _ _ _ Hv) as [_ Hf].
  assert (C : forall idx, in_range idx shape -> call_impl m (map CLong idx) = addr m idx).
  { intros idx Hi. apply call_impl_longs; auto. destruct W as (L & _). rewrite L. exact (in_range_length _ _ Hi). }
  split; [|split; [|split]].
  - intros idx Hi. rewrite C by auto. exact (view_in_block _ _ _ _ idx Hv Hi).
  - intros i j Hi Hj. rewrite !C by auto. exact (view_injective _ _ _ _ i j Hv Hi Hj).
  - intros pos Hpos. destruct (fresh_onto so se p junk shape pos Ho Lj Hnn Hpos) as [idx [Hi E]]. exists idx.
    split; [exact Hi|]. rewrite C by exact Hi. exact E.
  - exact (size_prodZ m).
Qed.
Print Assumptions C01_fresh_bijective.

Example C01_example : im_str sample = [1;8;2] /\ call_impl sample (map CLong [1;2;3]) = 23 /\ is_order 3 (im_so sample).
Proof. split; [reflexivity|]. split; [reflexivity|apply perm_check_ok; reflexivity]. Qed.

(** No two elements of any view share memory, and every element of it is one of the block's: for every
    layout obtained from a fresh array by slicing (any nonzero steps) and permuting. *)
Theorem C01_views_inside_and_injective : forall n off m, view_of (fun _ => True) n off m ->
  (forall idx, valid_idx m idx -> 0 <= off + call_impl m (map CLong idx) < n) /\
  (forall i j, valid_idx m i -> valid_idx m j -> call_impl m (map CLong i) = call_impl m (map CLong j) -> i = j).
Proof.
  intros n off m Hv. pose proof (view_wf _ _ _ _ Hv) as W. destruct (view_flags _ _ _ _ Hv) as [_ Hf].
  assert (C : forall idx, valid_idx m idx -> call_impl m (map CLong idx) = addr m idx).
  { intros idx Hi. apply call_impl_longs; auto. destruct W as (L & _). rewrite L. exact (in_range_length _ _ Hi). }
  split.
  - intros idx Hi. rewrite C by auto. exact (view_in_block _ _ _ _ idx Hv Hi).
  - intros i j Hi Hj. rewrite !C by auto. exact (view_injective _ _ _ _ i j Hv Hi Hj).
Qed.
Print Assumptions C01_views_inside_and_injective.

(** ** C02 *)
Theorem C02_to_idx_of_position : forall so se p junk shape,
  is_order (length shape) so -> length junk = length shape -> length se = length shape ->
  Forall (fun l => 0 <= l) shape -> (0 < length shape < 16)%nat ->
  let m := idx_map_of_shape so se p junk shape in
  (forall idx, in_range idx shape -> to_idx m (call_impl m (map CLong idx)) = Some idx) /\
  (forall pos, 0 <= pos < prodZ shape -> exists idx, to_idx m pos = Some idx /\ in_range idx shape /\ call_impl m (map CLong idx) = pos).
Proof.
  intros so se p junk shape Ho Lj Ls Hnn HR m.
  pose proof (vo_fresh (fun s => 0 < s) (prodZ shape) so se p junk shape Ho Lj Ls Hnn HR eq_refl) as Hv. fold m in Hv.
  pose proof (view_wf _ _ _ _ Hv) as W. destruct (view_flags _ _ _ _ Hv) as [_ Hf].
  assert (C : forall idx, in_range idx shape -> call_impl m (map CLong idx) = addr m idx).
  { intros idx Hi. apply call_impl_longs; auto. destruct W as (L & _). rewrite L. exact (in_range_length _ _ Hi). }
  assert (T : forall idx, in_range idx shape -> to_idx m (addr m idx) = Some idx) by (intros idx Hi; exact (view_to_idx _ _ _ idx Hv Hi)).
  split.
  - intros idx Hi. rewrite C by auto. now apply T.
  - intros pos Hpos. destruct (fresh_onto so se p junk shape pos Ho Lj Hnn Hpos) as [idx [Hi E]]. exists idx.
    unfold m in T. rewrite <- E. fold m. split; [now apply T|]. split; [exact Hi|]. now apply C.
Qed.
Print Assumptions C02_to_idx_of_position.

(** also on every view built with positive steps *)
Theorem C02_to_idx_on_views : forall n off m idx, view_of (fun s => 0 < s) n off m -> valid_idx m idx ->
  to_idx m (addr m idx) = Some idx.
Proof. exact view_to_idx. Qed.
Print Assumptions C02_to_idx_on_views.

Example C02_example : to_idx sample 23 = Some [1;2;3] /\ to_idx sample 9 = Some [1;1;0].
Proof. split; reflexivity. Qed.

(** ** C03 *)
Theorem C03_call_is_scalar_product : forall m a b, wf m ->
  (has_smallest_stride_is_one (im_prop m) = true -> smallest_one_true m) ->
  length (a ++ b) = rank m ->
  call_impl m (map CLong (a ++ b)) = addr m (a ++ b) /\
  call_impl m (map CLong a ++ CEll :: map CLong b) = addr m (a ++ b).
Proof.
  intros m a b (L & _) Hs Hl. unfold rank in Hl. rewrite <- L in Hl.
  split; [exact (call_impl_longs m (a ++ b) Hl Hs)|exact (call_impl_ellipsis m a b Hl Hs)].
Qed.
Print Assumptions C03_call_is_scalar_product.

(** every layout the library builds meets the hypothesis on the fastest stride *)
Theorem C03_flag_hypothesis_met : forall n off m, view_of (fun _ => True) n off m ->
  wf m /\ (has_smallest_stride_is_one (im_prop m) = true -> smallest_one_true m).
Proof. intros n off m Hv. split; [exact (view_wf _ _ _ _ Hv)|exact (proj2 (view_flags _ _ _ _ Hv))]. Qed.
Print Assumptions C03_flag_hypothesis_met.

Example C03_example : call_impl sample (map CLong [1;2] ++ CEll :: map CLong [3]) = 23 /\ wf sample /\ smallest_one_true sample.
Proof. split; [reflexivity|]. split; [exact (view_wf _ _ _ _ sample_view)|reflexivity]. Qed.

(** ** C06 *)
Theorem C06_permuted_view_elements : forall p m idx, wf m -> is_order (rank m) p -> length idx = rank m ->
  addr (transpose p m) idx = addr m (in_order 0 p idx) /\ (valid_idx (transpose p m) idx <-> valid_idx m (in_order 0 p idx)).
Proof.
  intros p m idx W Ho L. rewrite in_order_apply. split; [exact (transpose_addr p m idx W Ho L)|exact (transpose_valid p m idx W Ho L)].
Qed.
Print Assumptions C06_permuted_view_elements.

Theorem C06_permuted_view_is_truthful : forall p m, wf m -> is_order (rank m) p -> flags_true m ->
  wf (transpose p m) /\ flags_true (transpose p m) /\
  in_order 0 (im_so (transpose p m)) (im_str (transpose p m)) = in_order 0 (im_so m) (im_str m) /\
  in_order 0 (im_so (transpose p m)) (im_len (transpose p m)) = in_order 0 (im_so m) (im_len m).
Proof.
  intros p m W Ho Hf. split; [exact (transpose_wf p m W Ho)|]. split; [exact (transpose_flags p m W Ho Hf)|].
  rewrite !in_order_apply. destruct (transpose_order p m W Ho) as [E1 E2]. split; assumption.
Qed.
Print Assumptions C06_permuted_view_is_truthful.

Theorem C06_permuting_composes : forall p q m, wf m -> is_order (rank m) p -> is_order (rank m) q ->
  transpose p (transpose q m) = transpose (compose p q) m /\ transpose (inverse p) (transpose p m) = m.
Proof. intros p q m W Hp Hq. split; [exact (transpose_transpose p q m W Hp Hq)|exact (transpose_inverse_id p m W Hp)]. Qed.
Print Assumptions C06_permuting_composes.

(** transpose (reverse order) twice is the identity *)
Theorem C06_transpose_twice : forall m, wf m -> transpose (reverse_identity (rank m)) (transpose (reverse_identity (rank m)) m) = m.
Proof.
  intros m W. assert (E : inverse (reverse_identity (rank m)) = reverse_identity (rank m)) by apply inverse_reverse_identity.
  rewrite <- E at 1. exact (transpose_inverse_id _ m W (is_perm_reverse_identity (rank m))).
Qed.
Print Assumptions C06_transpose_twice.

Example C06_example : im_len (transpose [2;0;1]%nat sample) = [3;4;2] /\ im_str (transpose [2;0;1]%nat sample) = [8;2;1] /\
  im_so (transpose [2;0;1]%nat sample) = [0;1;2]%nat /\ is_order (rank sample) [2;0;1]%nat.
Proof. repeat split. apply perm_check_ok; reflexivity. Qed.

(** ** C01: compile-time extents *)
(** A layout some of whose extents are fixed at compile time (the others are 0 in [se]), built from the remaining extents, has all extents
    in their places. *)
Theorem C01_static_extents : forall se shape, length se = length shape -> (forall k, (k < length se)%nat -> nthZ se k <> 0 -> nthZ se k = nthZ shape k) ->
  merge_static_and_dynamic_extents se (map (nthZ shape) (filter (fun k => nthZ se k =? 0) (seq 0 (length se)))) = shape.
Proof.
  intros se; induction se as [|e se IH]; intros [|s shape] L H; try discriminate; [reflexivity|]. cbn [length] in L. injection L as L.
  assert (T : map (nthZ (s :: shape)) (filter (fun k => nthZ (e :: se) k =? 0) (seq 1 (length se))) = map (nthZ shape) (filter (fun k => nthZ se k =? 0) (seq 0 (length se)))).
  { rewrite <- seq_shift. generalize (seq 0 (length se)) as l. induction l as [|k l IHl]; [reflexivity|]. cbn [map filter]. change (nthZ (e :: se) (S k)) with (nthZ se k). destruct (nthZ se k =? 0); cbn [map]; now rewrite IHl. }
  assert (IH' : merge_static_and_dynamic_extents se (map (nthZ shape) (filter (fun k => nthZ se k =? 0) (seq 0 (length se)))) = shape).
  { apply IH; [exact L|]. intros k Hk Hz. apply (H (S k)); [cbn [length]; lia|exact Hz]. }
  cbn [length seq filter]. change (nthZ (e :: se) 0) with e. cbn [merge_static_and_dynamic_extents]. destruct (Z.eqb_spec e 0) as [E|E].
  - cbn [map]. rewrite T, IH'. reflexivity.
  - rewrite T, IH'. f_equal. apply (H 0%nat); [cbn [length]; lia|exact E].
Qed.
Print Assumptions C01_static_extents.
(** A default constructed layout has no elements, unless all its extents are fixed at compile time: then it is the layout of that shape,
    and its size is the one known at compile time.  In both cases it has the type asked for: the order, the fixed extents, the guarantee. *)
Theorem C01_default : forall so se p junk, (0 < length se)%nat -> Forall (fun e => 0 <= e) se ->
  (im_so (idx_map_default so se p junk) = so /\ im_se (idx_map_default so se p junk) = se /\ im_prop (idx_map_default so se p junk) = p) /\
  ((exists k, (k < length se)%nat /\ nthZ se k = 0) -> im_len (idx_map_default so se p junk) = repeat 0 (length se) /\ size (idx_map_default so se p junk) = 0 /\ ce_size se = 0) /\
  ((forall k, (k < length se)%nat -> nthZ se k <> 0) -> idx_map_default so se p junk = idx_map_of_shape so se p junk se /\ size (idx_map_default so se p junk) = ce_size se /\ ce_size se = prodZ se /\ 0 < ce_size se).
Proof.
  intros so se p junk Hl Hp. unfold idx_map_default, ce_size, n_dynamic_extents. split; [now destruct (Nat.eqb _ 0)|]. split.
  - intros (k & Hk & Hz). assert (N : filter (fun e => e =? 0) se <> []).
    { intros C. assert (I : In (nthZ se k) (filter (fun e => e =? 0) se)) by (apply filter_In; split; [apply nth_In; exact Hk|apply Z.eqb_eq; exact Hz]). rewrite C in I. contradiction. }
    destruct (filter (fun e => e =? 0) se); [congruence|]. cbn [length Nat.eqb im_len]. split; [reflexivity|]. split; [|reflexivity].
    rewrite size_prodZ. cbn [im_len]. destruct se; [cbn in Hl; lia|]. reflexivity.
  - intros Hn. assert (N : filter (fun e => e =? 0) se = []).
    { destruct (filter (fun e => e =? 0) se) as [|x l] eqn:E; [reflexivity|]. assert (I : In x (filter (fun e => e =? 0) se)) by (rewrite E; now left). apply filter_In in I. destruct I as [I J].
      apply (In_nth _ _ 0) in I. destruct I as (k & Hk & Ek). apply Z.eqb_eq in J. exfalso. apply (Hn k Hk). unfold nthZ. congruence. }
    rewrite N. cbn [length Nat.eqb]. rewrite size_prodZ. cbn [im_len].
    assert (Q : fold_left Z.mul se 1 = prodZ se).
    { assert (G : forall l a, fold_left Z.mul l a = a * prodZ l) by (intros l; induction l as [|x l IHl]; intros a; cbn [fold_left prodZ fold_right]; [ring|]; rewrite IHl; unfold prodZ; cbn [fold_right]; ring). rewrite G. ring. }
    split; [reflexivity|]. split; [now rewrite Q|]. split; [exact Q|]. rewrite Q. clear -Hn Hp. induction se as [|e se IH]; [reflexivity|]. unfold prodZ. cbn [fold_right]. apply Z.mul_pos_pos.
    + pose proof (Hn 0%nat ltac:(cbn [length]; lia)) as E. unfold nthZ in E. cbn [nth] in E. pose proof (Forall_inv Hp). cbv beta in *. lia.
    + apply IH; [exact (Forall_inv_tail Hp)|]. intros k Hk. apply (Hn (S k)). cbn [length]. lia.
Qed.
Print Assumptions C01_default.
Example C01_static_example : merge_static_and_dynamic_extents [2; 0; 3; 0] [7; 9] = [2; 7; 3; 9] /\ size (idx_map_default [0; 1]%nat [2; 3] LP_contiguous [0; 0]) = 6.
Proof. repeat split. Qed.
