(** Properties C14 and C15: loops over indices and iterators. *)
From Coq Require Import Sorted.
From Verif Require Import Base M_Perm L_Perm M_IdxMap M_Slice M_Loops S_Layout S_Loops L_IdxMap L_Layout L_Loops P_Layout P_Slice.

(** ** C14 *)
(** for_each calls the function on every index tuple once, in lexicographic order: for every function
    (state transformer) the result is that of running through such a list. *)
Theorem C14_for_each : forall (shape : list Z), exists L, lists_all_indices shape L /\ NoDup L /\
  (Forall (fun l => 0 <= l) shape -> Z.of_nat (length L) = prodZ shape) /\
  forall (S : Type) (f : list Z -> S -> S) (s : S), for_each shape f s = fold_left (fun s x => f x s) L s.
Proof.
  intros shape. exists (all_idx shape). split; [apply lists_all|]. split; [apply all_idx_NoDup|]. split; [apply all_idx_length|].
  intros S f s. apply for_each_fold.
Qed.
Print Assumptions C14_for_each.

(** the sequence of calls, recorded *)
Theorem C14_for_each_calls : forall shape, lists_all_indices shape (for_each shape record_visit []).
Proof. intros shape. rewrite for_each_fold, record_fold. apply lists_all. Qed.
Print Assumptions C14_for_each_calls.

(** such a list is unique, so that the order of the calls is fully determined *)
Theorem C14_order_determined : forall shape L L', lists_all_indices shape L -> lists_all_indices shape L' -> L = L'.
Proof. exact lists_all_unique. Qed.
Print Assumptions C14_order_determined.

Theorem C14_zero_extent : forall (S : Type) shape (f : list Z -> S -> S) s, In 0 shape -> for_each shape f s = s.
Proof.
  intros S shape f s H. rewrite for_each_fold. destruct (all_idx shape) as [|x L] eqn:E; [reflexivity|].
  assert (I : In x (all_idx shape)) by (rewrite E; now left). apply all_idx_In in I. apply in_range_pos in I.
  rewrite Forall_forall in I. specialize (I 0 H). lia.
Qed.
Print Assumptions C14_zero_extent.

(** the static variant: the tuples, listed in stride order, are visited in lexicographic order of their
    stride-order listing, whatever admissible stride order and static extents are encoded in the
    template arguments *)
Theorem C14_for_each_static : forall so se shape so_code se_code, is_order (length shape) so ->
  (length shape <= 8)%nat -> Forall (fun l => 0 <= l) shape ->
  (forall k, (k < length shape)%nat -> nthZ se k = 0 \/ nthZ se k = nthZ shape k) -> length se = length shape -> Forall (fun e => 0 <= e < 16) se ->
  encode (map Z.of_nat so) = Some so_code -> encode se = Some se_code ->
  lists_all_indices (in_order 0 so shape) (for_each_static se_code so_code shape record_visit []).
Proof.
  intros so se shape so_code se_code Ho HR Hnn Hse Lse Hse16 Eso Ese.
  rewrite (for_each_static_fold se_code so_code so se); auto.
  - rewrite record_fold. apply lists_all.
  - intros ->. now apply encode_zero_identity.
  - intros _. pose proof (is_perm_length _ _ Ho) as Lo. replace (length shape) with (length (map Z.of_nat so)) by (rewrite map_length; exact Lo).
    apply encode_gives_decode; auto; [|rewrite map_length; lia]. apply (order_small (length shape)); auto. lia.
  - rewrite <- Lse. apply encode_gives_decode; auto. lia.
Qed.
Print Assumptions C14_for_each_static.

(** the function is handed the indices in the order of the loops, not of the dimensions: for a stride order
    other than C the callback of the static variant does not receive an index tuple of the shape *)
Theorem C14_static_argument_order_refuted : exists shape so_code, decode 2 so_code = [1;0] /\ In [2;0] (for_each_static 0 so_code shape record_visit []) /\ ~ in_range [2;0] shape.
Proof.
  exists [2;3], 1. split; [reflexivity|]. split; [vm_compute; tauto|]. intros H. inversion H as [|a b c d H1 H2]. unfold inr in H1. lia.
Qed.
Print Assumptions C14_static_argument_order_refuted.

Example C14_example : for_each [2;3] record_visit [] = [[0;0];[0;1];[0;2];[1;0];[1;1];[1;2]].
Proof. reflexivity. Qed.
Example C14_static_example : encode [0;1;2] = Some 528 /\ encode (map Z.of_nat [2;0;1]%nat) = Some 258 /\ for_each_static 528 258 [2;1;2] record_visit [] = [[0;0;0];[0;1;0];[1;0;0];[1;1;0]] /\ for_each_static 0 258 [2;1;2] record_visit [] = for_each_static 528 258 [2;1;2] record_visit [].
Proof. repeat split. Qed.

(** ** C15 *)
(** For every layout a program can build, if zero extents are harmless in the sense of the specification,
    the loop from begin() to end() ends after size() steps and the offsets it visits are those of all index
    tuples in stride order. *)
Theorem C15_iteration : forall ok_step n off m, view_of ok_step n off m -> zero_extents_harmless m ->
  exists L, lists_in_stride_order m L /\ NoDup L /\ (forall idx, In idx L <-> valid_idx m idx) /\   iterate (Z.to_nat (size m)) (make_iterator m false) (make_iterator m true) = Some (map (addr m) L).
Proof.
  intros ok_step n off m Hv Hz. pose proof (view_wf _ _ _ _ Hv) as W. exists (order_list m).
  split; [now apply order_list_spec|]. split; [now apply order_list_NoDup|]. split; [now apply order_list_In|].
  apply array_iteration; auto.
  - now apply (view_flags ok_step n off).
  - apply harmless_cases; auto.
Qed.
Print Assumptions C15_iteration.

(** a fresh array is iterated in memory order *)
Theorem C15_fresh_memory_order : forall so se p junk shape, is_order (length shape) so ->
  length junk = length shape -> length se = length shape -> Forall (fun l => 0 <= l) shape -> (0 < length shape < 16)%nat ->
  let m := idx_map_of_shape so se p junk shape in
  zero_extents_harmless m ->
  iterate (Z.to_nat (size m)) (make_iterator m false) (make_iterator m true) = Some (zseq (size m)).
Proof.
  intros so se p junk shape Ho Lj Lse Hnn HR m Hz. assert (W : wf m) by now apply fresh_wf.
  rewrite (array_iteration m W); [|now apply fresh_flags|now apply harmless_cases]. f_equal.
  transitivity (map (fun idx => seq_number (im_so m) (im_len m) idx) (order_list m)).
  - apply map_ext_in. intros idx Hi. apply (order_list_In m W) in Hi. exact (fresh_contiguous_true so se p junk shape Ho Lj idx Hi).
  - apply order_list_numbers; auto.
Qed.
Print Assumptions C15_fresh_memory_order.

(** exactness of the condition: in all other cases the loop never ends *)
Theorem C15_zero_extent_diverges_refuted : forall ok_step n off m, view_of ok_step n off m -> ~ zero_extents_harmless m ->
  size m = 0 /\ forall fuel, iterate fuel (make_iterator m false) (make_iterator m true) = None.
Proof.
  intros ok_step n off m Hv Hz. pose proof (view_wf _ _ _ _ Hv) as W. destruct (harmful_cases m W Hz) as (H1 & H2 & H3).
  split; auto. now apply array_iteration_stuck.
Qed.
Print Assumptions C15_zero_extent_diverges_refuted.

(** such views exist: A(range(0,2), range(1,1)) of a 2 x 3 array declared without layout properties *)
Example C15_diverges_example : exists off m, view_of (fun s => 0 < s) 6 off m /\ im_len m = [2;0] /\ ~ zero_extents_harmless m.
Proof.
  exists 1, (IdxMap [2;0] [3;1] [0;1]%nat [0;0] LP_none). split; [|split].
  - change 1 with (0 + 1) at 2. apply (vo_slice _ _ 0 (idx_map_of_shape [0;1]%nat [0;0] LP_contiguous [0;0] [2;3]) [ARange (Range 0 2 1); ARange (Range 1 1 1)]).
    + apply vo_fresh; build_view.
    + reflexivity.
    + intros r [E|[E|[]]]; injection E as <-; cbn; lia.
    + bounds.
    + exists (ARange (Range 0 2 1)). split; [left; reflexivity|reflexivity].
  - reflexivity.
  - intros [[H|H]|[H|H]]; try discriminate. specialize (H 1%nat ltac:(cbn; lia)). vm_compute in H. discriminate.
Qed.

Example C15_example : zero_extents_harmless sample /\ iterate 24 (make_iterator (transpose [1;0;2]%nat sample) false) (make_iterator (transpose [1;0;2]%nat sample) true) <> None.
Proof. split; [right; right; intros [|[|[|k]]] Hk; cbn in *; lia || reflexivity|discriminate]. Qed.

(** one-dimensional iterators: any sequence of moves from begin() ends where its net displacement says,
    and element, subscript, difference and comparisons agree with that *)
Theorem C15_iterator_arithmetic : forall m l l' n, wf m -> walked_in_1d m ->
  let it := fold_left grid1_move l (make_iterator m false) in
  let it' := fold_left grid1_move l' (make_iterator m false) in
  let k := displacement l in let k' := displacement l' in
  (it = it' <-> k = k') /\ grid_eqb it it' = (k =? k') /\ grid1_diff it it' = k - k' /\ grid1_ltb it it' = (k <? k') /\ grid1_gtb it it' = (k' <? k) /\ grid1_leb it it' = (k <=? k') /\ grid1_geb it it' = (k' <=? k) /\ (grid_eqb it (make_iterator m true) = (k =? size m)) /\ grid_deref it = k * min_stride m /\ grid1_at it n = (k + n) * min_stride m.
Proof.
  intros m l l' n W Hw it it' k k'. destruct (walked_1d_begin m W Hw) as (s & n0 & E0 & E1 & -> & ->).
  subst it it'. rewrite E0, E1, !run_moves by ring. fold k k'. rewrite !Z.add_0_l.
  unfold grid1_diff, grid1_ltb, grid1_gtb, grid1_leb, grid1_geb, grid1_gtb, grid1_ltb, grid1_at; cbn [grid_eqb grid1_pos grid_deref grid1_add].
  repeat split; try lia; try congruence; try ring.
Qed.
Print Assumptions C15_iterator_arithmetic.

(** with a truthful layout, begin() + k designates the k-th element in stride order *)
Theorem C15_iterator_at : forall ok_step n off m k, view_of ok_step n off m -> walked_in_1d m -> 0 <= k < size m ->
  exists idx, valid_idx m idx /\ seq_number (im_so m) (im_len m) idx = k /\ grid1_at (make_iterator m false) k = addr m idx.
Proof.
  intros ok_step n off m k Hv Hw Hk. pose proof (view_wf _ _ _ _ Hv) as W.
  destruct (C15_iteration _ _ _ _ Hv (or_introl Hw)) as (L & [HL HN] & _ & _ & HI).
  rewrite <- size_prodZ in HL. destruct (HN (Z.to_nat k) ltac:(lia)) as [Hi Hq]. exists (nth (Z.to_nat k) L []). split; auto. split; [lia|].
  destruct (walked_1d_begin m W Hw) as (s & n0 & E0 & E1 & -> & ->). rewrite E0, E1 in HI.
  rewrite E0. unfold grid1_at; cbn [grid1_add grid_deref]. rewrite Z.add_0_l.
  assert (F1 : Forall (fun l => 0 <= l) [size m]) by (repeat constructor; lia).
  pose proof (iterate_grid [size m] [min_stride m] eq_refl ltac:(discriminate) (or_intror (Forall_nil _)) F1) as I1.
  cbn [grid_make] in I1. rewrite prodZ_cons, prodZ_nil, !Z.mul_1_r in I1. rewrite Z.mul_0_l in I1. rewrite HI in I1. injection I1 as I1.
  apply (f_equal (fun l => nth (Z.to_nat k) l 0)) in I1. rewrite (nth_map_lt (addr m) L _ 0 []) in I1 by lia. rewrite I1.
  rewrite (nth_map_lt _ (zseq (size m)) _ 0 0) by (rewrite zseq_length; lia). rewrite nth_zseq by lia. rewrite Z.div_1_r, Z2Nat.id by lia. ring.
Qed.
Print Assumptions C15_iterator_at.

Example C15_1d_example : walked_in_1d (idx_map_of_shape [1;0]%nat [0;0] LP_contiguous [0;0] [2;3]) /\ grid1_at (make_iterator (idx_map_of_shape [1;0]%nat [0;0] LP_contiguous [0;0] [2;3]) false) 4 = addr (idx_map_of_shape [1;0]%nat [0;0] LP_contiguous [0;0] [2;3]) [0;2].
Proof. split; [left; reflexivity|reflexivity]. Qed.
