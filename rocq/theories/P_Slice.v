(** Properties C07 - C13: slicing, bound checks, declared and run-time layout properties. *)
From Verif Require Import Base M_Perm L_Perm M_IdxMap M_Slice S_Layout L_IdxMap L_Slice L_Layout P_Layout.

(** [sample] has shape (2,3,4) and strides (1,8,2) *)
Definition sample_args : list arg := [ALong 1; AEll; ARange (Range 3 (-1) (-2))].
Lemma sample_slice : slice sample sample_args = Some (7, IdxMap [3;2] [8;-4] [0;1]%nat [0;0] LP_none).
Proof. reflexivity. Qed.

Ltac bounds := match goal with |- args_in_bounds ?a ?b =>
    let a' := eval vm_compute in a in let b' := eval vm_compute in b in change (Forall2 arg_in_bounds a' b') end;
  repeat match goal with |- Forall2 _ (_ :: _) (_ :: _) => constructor end;
  try (cbn [arg_in_bounds]; lia); try exact I; try (intros x Hx; unfold in_range_arg in Hx; cbn [r_first r_last r_step Z.eqb Z.ltb Pos.eqb Z.compare Pos.compare Pos.compare_cont andb] in Hx |- *; lia);
  match goal with |- Forall2 _ _ _ => constructor | _ => idtac end.

(** ** C07 *)
(** An argument list is accepted (compiles) exactly when it names every dimension, possibly through one ellipsis. *)
Theorem C07_slice_compiles_iff : forall m args, slice m args <> None <-> args_ok (rank m) args.
Proof.
  intros m args. split.
  - intros H. destruct (slice m args) as [r|] eqn:E; [|congruence]. exact (proj1 (slice_inv m args r E)).
  - intros H. rewrite (slice_some m args H). discriminate.
Qed.
Print Assumptions C07_slice_compiles_iff.

Theorem C07_slice_selects : forall m args off m', wf m -> slice m args = Some (off, m') ->
  (forall j, length j = rank m' -> off + addr m' j = addr m (parent_idx (expand_args (rank m) args) j)) /\
  rank m' = rank_after (rank m) args /\
  (steps_nonzero args -> forall j, valid_idx m' j <-> view_pos (expand_args (rank m) args) (im_len m) j).
Proof.
  intros m args off m' W HS. split; [intros j Hj; exact (slice_addr m args off m' j W HS Hj)|].
  split; [exact (slice_rank m args off m' W HS)|]. intros Hs j. exact (slice_valid m args off m' j W HS Hs).
Qed.
Print Assumptions C07_slice_selects.

Example C07_example : parent_idx (expand_args 3 sample_args) [2;1] = [1;2;1] /\ 7 + addr (IdxMap [3;2] [8;-4] [0;1]%nat [0;0] LP_none) [2;1] = addr sample [1;2;1].
Proof. split; reflexivity. Qed.

(** ** C08 *)
Theorem C08_slices_compose : forall l m o m' j, wf m -> slices m l = Some (o, m') -> chain_dims_left (rank m) l -> length j = rank m' ->
  o + addr m' j = addr m (chain_idx (rank m) l j).
Proof. intros l m o m' j W HS HD Hj. exact (proj1 (slices_chain l m o m' j W HS HD Hj)). Qed.
Print Assumptions C08_slices_compose.

Example C08_example : slices sample [sample_args; [ARange (Range 0 3 2); ALong 1]; [ALong 1]] = Some (19, IdxMap [] [] [] [] LP_none) \/
  exists o m', slices sample [sample_args; [ARange (Range 0 3 2); ALong 1]] = Some (o, m') /\ rank m' = 1%nat /\
    o + addr m' [1] = addr sample [1;2;1].
Proof. right. eexists. eexists. split; [reflexivity|]. split; reflexivity. Qed.

(** ** C09 *)
Theorem C09_accepted_slice_inside : forall m args o m' j, wf m -> steps_nonzero args -> no_minus_one_range args ->
  slice_checked m args = Some (o, m') -> valid_idx m' j ->
  exists i, valid_idx m i /\ o + addr m' j = addr m i.
Proof. exact slice_checked_inside. Qed.
Print Assumptions C09_accepted_slice_inside.

(** the check rejects nothing it should accept: it passes iff every index named by the arguments exists *)
Theorem C09_check_exact : forall m args, wf m -> args_ok (rank m) args -> steps_nonzero args -> no_minus_one_range args ->
  (slice_checked m args <> None <-> args_in_bounds (expand_args (rank m) args) (im_len m)).
Proof. exact slice_checked_complete. Qed.
Print Assumptions C09_check_exact.

(** the excluded case is a real hole: range(-1,-1) is accepted and addresses position -1 *)
Theorem C09_minus_one_range_refuted : exists m args o m' j, wf m /\ steps_nonzero args /\ slice_checked m args = Some (o, m') /\
  valid_idx m' j /\ ~ exists i, valid_idx m i /\ o + addr m' j = addr m i.
Proof.
  exists (idx_map_of_shape [0]%nat [0] LP_contiguous [0] [3]), [ARange (Range (-1) (-1) 1)], (-1), (IdxMap [4] [1] [0]%nat [0] LP_strided_1d), [0].
  split; [|split; [|split; [reflexivity|split]]].
  - repeat split; simpl; auto; try lia. apply perm_check_ok; reflexivity. repeat constructor; discriminate.
  - intros r [E|[]]. injection E as <-. discriminate.
  - repeat constructor; unfold inr; lia.
  - intros [i [Hi E]]. unfold valid_idx in Hi. inversion Hi as [|x l i' len Hx Hi']; subst. inversion Hi'; subst.
    change (addr (idx_map_of_shape [0]%nat [0] LP_contiguous [0] [3]) [x]) with (x * 1 + 0) in E.
    change (addr (IdxMap [4] [1] [0]%nat [0] LP_strided_1d) [0]) with 0 in E. unfold inr in Hx. lia.
Qed.
Print Assumptions C09_minus_one_range_refuted.

Example C09_example : slice_checked sample sample_args <> None /\ slice_checked sample [ALong 2; AEll] = None.
Proof. split; [discriminate|reflexivity]. Qed.

(** ** C10 *)
(** the stride order of a slice lists every retained dimension exactly once, in the order of the parent's
    stride order: entry k of the view's list is the k-th retained dimension of the parent's list *)
Theorem C10_slice_stride_order : forall m args o m', wf m -> slice m args = Some (o, m') -> some_dim_left (rank m) args ->
  let ex := expand_args (rank m) args in
  let keep n := negb (is_long (nth n ex AAll)) in
  is_order (rank m') (im_so m') /\
  map (nthN (filter keep (seq 0 (rank m)))) (im_so m') = filter keep (im_so m).
Proof. exact slice_so_spec. Qed.
Print Assumptions C10_slice_stride_order.

(** each stride along the declared order really exceeds everything reachable through the faster dimensions
    (so that the order is the memory order), on every view with at least one element *)
Theorem C10_views_separated : forall n off m, view_of (fun _ => True) n off m -> Forall (fun l => 1 <= l) (im_len m) ->
  separated m /\ is_stride_order_valid m = true.
Proof.
  intros n off m Hv H1. pose proof (view_wf _ _ _ _ Hv) as W. pose proof (view_nested _ _ _ _ Hv H1) as Hn.
  split; [exact (proj2 (proj2 (separated_nested m W) Hn))|exact (nested_stride_order_valid m W Hn)].
Qed.
Print Assumptions C10_views_separated.

Example C10_example : view_of (fun _ => True) 24 7 (IdxMap [3;2] [8;-4] [0;1]%nat [0;0] LP_none).
Proof.
  change 7 with (0 + 7). eapply vo_slice with (m := sample) (args := sample_args).
  - apply vo_fresh; try reflexivity; [apply perm_check_ok; reflexivity|repeat constructor; discriminate|simpl; lia].
  - reflexivity.
  - intros r [E|[E|[E|[]]]]; try discriminate. injection E as <-. split; [exact I|discriminate].
  - bounds.
  - exists AAll. split; [right; left; reflexivity|reflexivity].
Qed.

(** ** C11 *)
Theorem C11_slice_flags_truthful : forall m args o m', wf m -> slice m args = Some (o, m') -> some_dim_left (rank m) args ->
  flags_true m -> flags_true m'.
Proof. exact slice_flags. Qed.
Print Assumptions C11_slice_flags_truthful.

Theorem C11_views_flags_meaning : forall n off m, view_of (fun _ => True) n off m ->
  (has_strided_1d (im_prop m) = true -> strided_1d_true m) /\
  (has_smallest_stride_is_one (im_prop m) = true -> smallest_one_true m) /\
  (has_contiguous (im_prop m) = true -> contiguous_true m).
Proof.
  intros n off m Hv. pose proof (view_wf _ _ _ _ Hv) as W. destruct (view_flags _ _ _ _ Hv) as [H1 H2].
  split; [intros H; exact (regular_strided_1d m W (H1 H))|]. split; [exact H2|]. intros H. apply andb_prop in H. destruct H as [Ha Hb].
  apply regular_contiguous; [exact W|]. specialize (H1 Ha). specialize (H2 Hb). unfold smallest_one_true in H2. rewrite H2 in H1. exact H1.
Qed.
Print Assumptions C11_views_flags_meaning.

(** the claims are not vacuous: keeping whole slow dimensions keeps the block contiguous, fixing the fastest keeps a constant step *)
Example C11_example : slice sample [AAll; ALong 1; AAll] = Some (8, IdxMap [2;4] [1;2] [1;0]%nat [0;0] LP_contiguous) /\
  slice sample [ALong 1; AEll] = Some (1, IdxMap [3;4] [8;2] [0;1]%nat [0;0] LP_strided_1d) /\
  slice sample [AAll; AAll; ALong 2] = Some (4, IdxMap [2;3] [1;8] [1;0]%nat [0;0] LP_smallest_one).
Proof. repeat split. Qed.

(** ** C12 *)
(** a positive answer of is_contiguous is right on every view built with positive steps *)
Theorem C12_is_contiguous_right : forall m n off, view_of (fun s => 0 < s) n off m -> is_contiguous m = true -> contiguous_true m.
Proof. exact contiguous_answer. Qed.
Print Assumptions C12_is_contiguous_right.
(** ... and the answer is exact when no extent is below 2 *)
Theorem C12_is_contiguous_exact : forall m n off, view_of (fun s => 0 < s) n off m -> Forall (fun l => 2 <= l) (im_len m) ->
  (is_contiguous m = true <-> contiguous_true m).
Proof. exact contiguous_exact. Qed.
Print Assumptions C12_is_contiguous_exact.

Theorem C12_is_strided_1d_right : forall m n off, view_of (fun s => 0 < s) n off m -> Forall (fun s => (min_stride m | s)) (im_str m) ->
  is_strided_1d m = true -> strided_1d_true m.
Proof. exact strided_answer. Qed.
Print Assumptions C12_is_strided_1d_right.
Theorem C12_is_strided_1d_complete : forall m n off, view_of (fun s => 0 < s) n off m -> Forall (fun l => 2 <= l) (im_len m) ->
  strided_1d_true m -> is_strided_1d m = true.
Proof. exact strided_complete. Qed.
Print Assumptions C12_is_strided_1d_complete.

(** declared flags always get a positive run-time answer *)
Theorem C12_declared_contiguous_answers_true : forall m, wf m -> flags_true m -> im_prop m = LP_contiguous -> is_contiguous m = true.
Proof.
  intros m W [H1 H2] E. apply is_contiguous_complete; [exact W|]. rewrite E in *. specialize (H1 eq_refl). specialize (H2 eq_refl).
  unfold smallest_one_true in H2. rewrite H2 in H1. exact H1.
Qed.
Print Assumptions C12_declared_contiguous_answers_true.

(** the layouts below are built from fresh arrays *)
Ltac build_view := try reflexivity; try (apply perm_check_ok; reflexivity); try (repeat constructor; discriminate); try (simpl; lia).

(** (a) with a negative step the answer can be wrong: shape (2,4), A(range(1,-1,-1), range(0,4,2)) *)
Theorem C12_is_contiguous_negative_stride_refuted : exists n off m, view_of (fun _ => True) n off m /\ Forall (fun l => 2 <= l) (im_len m) /\
  is_contiguous m = true /\ ~ contiguous_true m.
Proof.
  exists 8, 4, (IdxMap [2;2] [-4;2] [0;1]%nat [0;0] LP_none). split; [|split; [|split; [reflexivity|]]].
  - change 4 with (0 + 4). eapply vo_slice with (m := idx_map_of_shape [0;1]%nat [0;0] LP_contiguous [0;0] [2;4])
      (args := [ARange (Range 1 (-1) (-1)); ARange (Range 0 4 2)]).
    + apply vo_fresh; build_view.
    + reflexivity.
    + intros r [E|[E|[]]]; injection E as <-; (split; [exact I|discriminate]).
    + bounds.
    + exists (ARange (Range 0 4 2)). split; [right; left; reflexivity|reflexivity].
  - repeat constructor; discriminate.
  - intros C. specialize (C [1;0] ltac:(repeat constructor; unfold inr; lia)). discriminate.
Qed.
Print Assumptions C12_is_contiguous_negative_stride_refuted.

(** (b) is_strided_1d can be wrong with positive steps: shape (2,3,4), A(all, range(0,2), range(0,4,3)) *)
Theorem C12_is_strided_1d_refuted : exists n off m, view_of (fun s => 0 < s) n off m /\ Forall (fun l => 2 <= l) (im_len m) /\
  is_strided_1d m = true /\ ~ strided_1d_true m.
Proof.
  exists 24, 0, (IdxMap [2;2;2] [12;4;3] [0;1;2]%nat [0;0;0] LP_none). split; [|split; [|split; [reflexivity|]]].
  - match goal with |- view_of ?f ?n 0 ?m => change (view_of f n (0 + 0) m) end. eapply vo_slice with (m := idx_map_of_shape [0;1;2]%nat [0;0;0] LP_contiguous [0;0;0] [2;3;4])
      (args := [AAll; ARange (Range 0 2 1); ARange (Range 0 4 3)]).
    + apply vo_fresh; build_view.
    + reflexivity.
    + intros r [E|[E|[E|[]]]]; try discriminate; injection E as <-; (split; [reflexivity|discriminate]).
    + bounds.
    + exists AAll. split; [left; reflexivity|reflexivity].
  - repeat constructor; discriminate.
  - intros C. specialize (C [0;1;0] ltac:(repeat constructor; unfold inr; lia)). discriminate.
Qed.
Print Assumptions C12_is_strided_1d_refuted.

(** (c) with unit extents a contiguous block can be reported as not contiguous: shape (1,2), A(all, range(0,1)) *)
Theorem C12_is_contiguous_unit_extent_refuted : exists n off m, view_of (fun s => 0 < s) n off m /\
  contiguous_true m /\ is_contiguous m = false.
Proof.
  exists 2, 0, (IdxMap [1;1] [2;1] [0;1]%nat [0;0] LP_none). split; [|split; [|reflexivity]].
  - match goal with |- view_of ?f ?n 0 ?m => change (view_of f n (0 + 0) m) end. eapply vo_slice with (m := idx_map_of_shape [0;1]%nat [0;0] LP_contiguous [0;0] [1;2])
      (args := [AAll; ARange (Range 0 1 1)]).
    + apply vo_fresh; build_view.
    + reflexivity.
    + intros r [E|[E|[]]]; try discriminate; injection E as <-; (split; [reflexivity|discriminate]).
    + bounds.
    + exists AAll. split; [left; reflexivity|reflexivity].
  - intros idx Hi. inversion Hi as [|x l i' len Hx Hi']; subst. inversion Hi' as [|y l' i'' len' Hy Hi'']; subst. inversion Hi''; subst.
    unfold inr in *. assert (x = 0) by lia. assert (y = 0) by lia. subst. reflexivity.
Qed.
Print Assumptions C12_is_contiguous_unit_extent_refuted.

(** (d) a layout reported contiguous whose fastest stride is not 1 (the fastest dimension has extent 1):
    shape (3,2), A(all, range(0,2,2)) has strides (2,2); shape (3,1), A(all, range(0,1,2)) has strides (1,2) *)
Theorem C12_contiguous_with_min_stride_2_refuted : exists n off m, view_of (fun s => 0 < s) n off m /\
  is_contiguous m = true /\ ~ smallest_one_true m.
Proof.
  exists 3, 0, (IdxMap [3;1] [1;2] [0;1]%nat [0;0] LP_none). split; [|split; [reflexivity|discriminate]].
  match goal with |- view_of ?f ?n 0 ?m => change (view_of f n (0 + 0) m) end. eapply vo_slice with (m := idx_map_of_shape [0;1]%nat [0;0] LP_contiguous [0;0] [3;1])
      (args := [AAll; ARange (Range 0 1 2)]).
  - apply vo_fresh; build_view.
  - reflexivity.
  - intros r [E|[E|[]]]; try discriminate; injection E as <-; (split; [reflexivity|discriminate]).
  - bounds.
  - exists AAll. split; [left; reflexivity|reflexivity].
Qed.
Print Assumptions C12_contiguous_with_min_stride_2_refuted.

Example C12_example : is_contiguous sample = true /\ is_contiguous (IdxMap [2;3] [1;8] [1;0]%nat [0;0] LP_smallest_one) = false /\
  view_of (fun s => 0 < s) 24 4 (IdxMap [2;3] [1;8] [1;0]%nat [0;0] LP_smallest_one).
Proof.
  split; [reflexivity|]. split; [reflexivity|].
  change 4 with (0 + 4). eapply vo_slice with (m := sample) (args := [AAll; AAll; ALong 2]).
  - exact sample_view.
  - reflexivity.
  - intros r [E|[E|[E|[]]]]; discriminate.
  - bounds.
  - exists AAll. split; [left; reflexivity|reflexivity].
Qed.

(** ** C13 *)
Theorem C13_checked_access_exact : forall m args a b, wf m ->
  (has_smallest_stride_is_one (im_prop m) = true -> smallest_one_true m) ->
  (args = map CLong (a ++ b) \/ args = map CLong a ++ CEll :: map CLong b) -> length (a ++ b) = rank m ->
  (valid_idx m (a ++ b) -> call_checked m args = Some (addr m (a ++ b))) /\
  (~ valid_idx m (a ++ b) -> call_checked m args = None).
Proof. exact call_checked_exact. Qed.
Print Assumptions C13_checked_access_exact.

Example C13_example : call_checked sample (map CLong [1;2] ++ CEll :: map CLong [3]) = Some 23 /\
  call_checked sample (map CLong [1;2;4]) = None /\ call_checked sample (map CLong [-1;2;3]) = None.
Proof. repeat split. Qed.
