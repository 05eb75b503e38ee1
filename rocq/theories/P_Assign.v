(** Properties C16-C20, C53, C54: assignment, scalar assignment, swapping, conversions of views. *)
From Verif Require Import Base M_Perm L_Perm M_IdxMap M_Slice M_Loops M_Assign S_Layout S_Loops S_Assign L_IdxMap L_Slice L_Layout L_Loops L_Assign P_Slice.

(** the arrays used in the examples: a 2x3 array in C order, a 2x3 array in Fortran order, a step-2 view *)
Definition ex_c (base : Z) : view := View (idx_map_of_shape [0%nat; 1%nat] [0; 0] LP_contiguous [0; 0] [2; 3]) base.
Definition ex_f (base : Z) : view := View (idx_map_of_shape [1%nat; 0%nat] [0; 0] LP_contiguous [0; 0] [2; 3]) base.
Lemma ex_c_usable base : usable (v_lay (ex_c base)).
Proof. apply (view_usable (fun _ => True) 6 0). apply vo_fresh; build_view. Qed.
Lemma ex_f_usable base : usable (v_lay (ex_f base)).
Proof. apply (view_usable (fun _ => True) 6 0). apply vo_fresh; build_view. Qed.
Lemma ex_cells (v : view) a : im_len (v_lay v) = [2; 3] -> is_cell_of v a ->
  exists i j, 0 <= i < 2 /\ 0 <= j < 3 /\ a = cell v [i; j].
Proof.
  intros El (idx & Hi & ->). unfold in_view, valid_idx in Hi. rewrite El in Hi.
  inversion Hi as [|i l0 t0 t1 H0 H1]; subst. inversion H1 as [|j l1 t2 t3 H2 H3]; subst. inversion H3; subst.
  unfold inr in *. exists i, j. auto.
Qed.
Lemma ex_c_cells base a : is_cell_of (ex_c base) a -> base <= a < base + 6.
Proof. intros H. apply ex_cells in H; [|reflexivity]. destruct H as (i & j & Hi & Hj & ->). unfold cell, addr. cbn. lia. Qed.
Lemma ex_f_cells base a : is_cell_of (ex_f base) a -> base <= a < base + 6.
Proof. intros H. apply ex_cells in H; [|reflexivity]. destruct H as (i & j & Hi & Hj & ->). unfold cell, addr. cbn. lia. Qed.

(** ** C16 *)
(** [dst = rhs]: every element of [dst] gets the value [rhs] had there, no other cell changes. *)
Theorem C16_assign {V} (checks : bool) (dst : view) (r : rhs V) (m : mem V) : usable (v_lay dst) -> rhs_apart dst r ->
  exists m', assign_from_ndarray checks true dst (im_len (v_lay dst)) r m = Some m' /\
    holds dst m' (rhs_value r m) /\ unchanged_outside dst m m'.
Proof. intros U H. destruct (apart_parts dst r H). now apply assign_host_value. Qed.

(** the source still has its values *)
Theorem C16_source_kept {V} (checks : bool) (dst src : view) (m m' : mem V) : usable (v_lay dst) -> rhs_apart dst (@RMem V src) ->
  assign_from_ndarray checks true dst (im_len (v_lay dst)) (RMem src) m = Some m' ->
  holds src m' (fun idx => m (cell src idx)) /\ holds dst m' (fun idx => m' (cell src idx)).
Proof.
  intros U H E. destruct (C16_assign checks dst (RMem src) m U H) as (m1 & E1 & Hh & Hu). rewrite E in E1. injection E1 as <-.
  destruct H as (T & El & D).
  assert (G : holds src m' (fun idx => m (cell src idx))).
  { intros idx Hi. apply Hu. intros C. apply (D _ C). exists idx. auto. }
  split; auto. intros idx Hi. rewrite Hh by auto. cbn [rhs_value]. symmetry. apply G. unfold in_view, valid_idx in *. now rewrite El.
Qed.

(** with bounds checking on, a shape mismatch is reported and nothing is written *)
Theorem C16_shape_mismatch {V} (host : bool) (dst : view) (shape : list Z) (r : rhs V) (m : mem V) : im_len (v_lay dst) <> shape ->
  assign_from_ndarray true host dst shape r m = None.
Proof. intros H. unfold assign_from_ndarray. destruct (list_eq_dec _ _ _); [contradiction|reflexivity]. Qed.
Print Assumptions C16_shape_mismatch.

(** layouts obtained by allocating, slicing and transposing meet the hypothesis on layouts *)
Theorem C16_views_usable (n off : Z) (m : idx_map) : view_of (fun _ => True) n off m -> usable m.
Proof. apply view_usable. Qed.
Print Assumptions C16_views_usable.

Example C16_example : rhs_apart (ex_c 0) (@RMem Z (ex_f 10)) /\
  exists m', assign_from_ndarray true true (ex_c 0) [2; 3] (RMem (ex_f 10)) (fun a => a * a) = Some m' /\
    map m' [0; 1; 2; 3; 4; 5; 6; 10] = [100; 144; 196; 121; 169; 225; 36; 100].
Proof.
  split.
  - split; [apply usable_truthful, ex_f_usable|]. split; [reflexivity|]. intros a H1 H2. apply ex_c_cells in H1. apply ex_f_cells in H2. lia.
  - eexists. split; [reflexivity|]. vm_compute. reflexivity.
Qed.

(** ** C17 *)
(** The 1d-strided copy leaves the memory element-wise assignment leaves, if the source does not overlap
    the destination or is the destination ([reads_own_element]). *)
Theorem C17_linear {V} (checks : bool) (dst src : view) (m : mem V) : usable (v_lay dst) -> truthful (v_lay src) ->
  im_len (v_lay src) = im_len (v_lay dst) -> im_so (v_lay src) = im_so (v_lay dst) ->
  has_strided_1d (im_prop (v_lay dst)) = true -> has_strided_1d (im_prop (v_lay src)) = true ->
  reads_own_element dst (rhs_value (@RMem V src)) ->
  exists m', assign_linear dst src m = Some m' /\ same_memory m' (assign_elementwise dst (RMem src) m).
Proof.
  intros U T El Eo H1 H2 Hr. assert (Hs : forall s, RMem src = @RMem V s -> truthful (v_lay s) /\ im_len (v_lay s) = im_len (v_lay dst)).
  { intros s E. injection E as <-. auto. }
  pose proof (reads_own_at dst _ Hs Hr) as Hr'.
  destruct (assign_linear_spec dst src m U T El Eo H1 H2 Hr') as (m' & E & Hh & Hu).
  destruct (assign_elementwise_spec dst (RMem src) m U Hr') as [Hh2 Hu2].
  exists m'. split; auto. intros a. eapply holds_unique; eauto. apply is_cell_dec.
Qed.
(** In C order the two loops are the same sequence of writes: they agree whatever the overlap. *)
Theorem C17_linear_c_order {V} (dst src : view) (m : mem V) : usable (v_lay dst) -> truthful (v_lay src) ->
  im_len (v_lay src) = im_len (v_lay dst) -> im_so (v_lay src) = im_so (v_lay dst) -> im_so (v_lay dst) = identity (rank (v_lay dst)) ->
  has_strided_1d (im_prop (v_lay dst)) = true -> has_strided_1d (im_prop (v_lay src)) = true ->
  assign_linear dst src m = Some (assign_elementwise dst (RMem src) m).
Proof.
  intros U T El Eo Ec H1 H2. rewrite assign_linear_fold by auto. rewrite assign_elementwise_fold by auto.
  rewrite order_list_C; auto.
Qed.
(** What the property would claim without a condition on overlap is false in Fortran order. *)
Definition ex_f22 (base : Z) : view := View (idx_map_of_shape [1%nat; 0%nat] [0; 0] LP_contiguous [0; 0] [2; 2]) base.
Theorem C17_overlap_refuted : exists (dst src : view) (m m' : mem Z), usable (v_lay dst) /\ usable (v_lay src) /\
  im_len (v_lay src) = im_len (v_lay dst) /\ im_so (v_lay src) = im_so (v_lay dst) /\
  has_strided_1d (im_prop (v_lay dst)) = true /\ has_strided_1d (im_prop (v_lay src)) = true /\
  assign_linear dst src m = Some m' /\ ~ same_memory m' (assign_elementwise dst (RMem src) m).
Proof.
  assert (U : forall b, usable (v_lay (ex_f22 b))) by (intros b; apply (view_usable (fun _ => True) 4 0); apply vo_fresh; build_view).
  exists (ex_f22 1), (ex_f22 0), (fun a => a). eexists. do 6 (split; [auto; reflexivity|]). split; [reflexivity|].
  intros C. specialize (C 3). vm_compute in C. discriminate.
Qed.
Print Assumptions C17_overlap_refuted.
Example C17_example : reads_own_element (ex_f 0) (rhs_value (@RMem Z (ex_f 10))) /\ reads_own_element (ex_f 0) (rhs_value (@RMem Z (ex_f 0))) /\
  exists m', assign_linear (ex_f 0) (ex_f 10) (fun a => a) = Some m' /\ map m' [0; 1; 2; 3; 4; 5] = [10; 11; 12; 13; 14; 15].
Proof.
  split; [|split].
  - intros idx m1 m2 Hi Ha. cbn [rhs_value]. apply Ha. right. intros C. apply ex_f_cells in C. assert (G : is_cell_of (ex_f 10) (cell (ex_f 10) idx)) by (exists idx; auto).
    apply ex_f_cells in G. lia.
  - intros idx m1 m2 Hi Ha. apply Ha. now left.
  - eexists. split; [reflexivity|]. vm_compute. reflexivity.
Qed.

(** ** C18 *)
(** If a block layout is reported for a nonempty layout that leaves room between dimensions (every view
    cut with steps of one) and whose sizes fit into an int, the elements are laid out in these blocks. *)
Theorem C18_block_layout (m : idx_map) (b : block_st) : wf m -> Forall (fun l => 1 <= l) (im_len m) -> roomy m -> fits_int m ->
  get_block_layout m = Some b -> is_block_layout m (b_n b) (b_size b) (b_str b).
Proof. apply block_layout_roomy. Qed.
Print Assumptions C18_block_layout.
(** With steps larger than one the same holds if every extent is at least two. *)
Theorem C18_block_layout_steps (n off : Z) (m : idx_map) (b : block_st) : view_of (fun s => 0 < s) n off m -> Forall (fun l => 2 <= l) (im_len m) -> fits_int m ->
  get_block_layout m = Some b -> is_block_layout m (b_n b) (b_size b) (b_str b).
Proof.
  intros Hv Hl Hf H. assert (Hl1 : Forall (fun l => 1 <= l) (im_len m)) by (eapply Forall_impl; [|exact Hl]; cbn; lia).
  eapply block_layout_nested; eauto; [eapply view_wf; eauto| |eapply view_nested; eauto].
  eapply Forall_impl; [|eapply view_positive; eauto]. cbn. lia.
Qed.
(** every view cut with steps of one is roomy *)
Theorem C18_step_one_roomy (n off : Z) (m : idx_map) : view_of (fun s => s = 1) n off m -> Forall (fun l => 1 <= l) (im_len m) -> roomy m.
Proof. apply view_roomy. Qed.
Print Assumptions C18_step_one_roomy.

(** Then the block copy gives the memory of the element-wise assignment, and no block layout mismatch is
    reported as an error. *)
Definition blocks_known (m : idx_map) : Prop := fits_int m /\
  ((exists n off, view_of (fun s => s = 1) n off m) \/ ((exists n off, view_of (fun s => 0 < s) n off m) /\ Forall (fun l => 2 <= l) (im_len m))).
Lemma known_blocks m b : blocks_known m -> Forall (fun l => 1 <= l) (im_len m) -> get_block_layout m = Some b -> is_block_layout m (b_n b) (b_size b) (b_str b).
Proof.
  intros [Hf [(n & off & Hv)|((n & off & Hv) & Hl)]] H1 H.
  - apply C18_block_layout; auto; [eapply view_wf; eauto|eapply view_roomy; eauto].
  - eapply C18_block_layout_steps; eauto.
Qed.
Lemma known_usable m : blocks_known m -> usable m.
Proof. intros [_ [(n & off & Hv)|((n & off & Hv) & _)]]; eapply view_usable; eauto. Qed.
Theorem C18_block_copy {V} (dst src : view) (m : mem V) : blocks_known (v_lay dst) -> blocks_known (v_lay src) ->
  im_len (v_lay src) = im_len (v_lay dst) -> im_so (v_lay src) = im_so (v_lay dst) -> 0 < prodZ (im_len (v_lay dst)) -> disjoint dst src ->
  match assign_blocks dst src m with
  | BDone m' => same_memory m' (assign_elementwise dst (RMem src) m)
  | BFallback => True
  | BError => False
  end.
Proof.
  intros Kd Ks El Eo Hpos D. pose proof (known_usable _ Kd) as Ud. pose proof (known_usable _ Ks) as Us.
  assert (Hr : reads_own_element dst (rhs_at (@RMem V src))) by (apply reads_not_own, src_reads_not; auto).
  destruct (get_block_layout (v_lay dst)) as [d|] eqn:Gd; [|unfold assign_blocks; now rewrite Gd].
  destruct (get_block_layout (v_lay src)) as [s|] eqn:Gs; [|unfold assign_blocks; now rewrite Gd, Gs].
  assert (F1 : Forall (fun l => 1 <= l) (im_len (v_lay dst))).
  { eapply Forall_impl; [|apply prodZ_pos_Forall; [apply (usable_wf _ Ud)|exact Hpos]]. cbn; lia. }
  pose proof (assign_blocks_spec dst src d s m Ud (usable_truthful _ Us) El Eo Hr Hpos Gd Gs (known_blocks _ _ Kd F1 Gd) ltac:(apply known_blocks; auto; now rewrite El)) as G.
  destruct (assign_blocks dst src m); auto. destruct G as [G1 G2].
  destruct (assign_elementwise_spec dst (RMem src) m Ud Hr) as [G3 G4]. intros a. eapply holds_unique; eauto. apply is_cell_dec.
Qed.
Print Assumptions C18_block_copy.
(** So an assignment with a side in device memory that succeeds copies all elements and nothing else. *)
Theorem C18_device_assign {V} (checks : bool) (dst src : view) (m m' : mem V) : blocks_known (v_lay dst) -> blocks_known (v_lay src) ->
  im_len (v_lay src) = im_len (v_lay dst) -> disjoint dst src ->
  assign_from_ndarray checks false dst (im_len (v_lay src)) (RMem src) m = Some m' ->
  holds dst m' (fun idx => m (cell src idx)) /\ unchanged_outside dst m m'.
Proof.
  intros Kd Ks El D H. pose proof (known_usable _ Kd) as Ud. pose proof (known_usable _ Ks) as Us.
  unfold assign_from_ndarray in H. rewrite El in H. destruct (list_eq_dec Z.eq_dec _ _) as [_|C]; [|congruence]. rewrite andb_false_r in H.
  destruct (same_stride_order _ _) eqn:Eo; [|discriminate]. apply same_stride_order_eq in Eo.
  destruct (Z.eqb_spec (size (v_lay src)) 0) as [E0|E0].
  - injection H as <-. split; [|intros a _; reflexivity]. intros idx Hi. exfalso. apply (no_elements src E0 idx). unfold in_view, valid_idx in *. now rewrite El.
  - assert (Hpos : 0 < prodZ (im_len (v_lay dst))).
    { rewrite size_prodZ, El in E0. pose proof (prodZ_nonneg (im_len (v_lay dst)) ltac:(apply (usable_wf _ Ud))). lia. }
    pose proof (C18_block_copy dst src m Kd Ks El ltac:(auto) Hpos D) as G. destruct (assign_blocks dst src m) as [m1| |]; try discriminate.
    injection H as <-. assert (Hap : rhs_apart dst (@RMem V src)) by (split; auto).
    destruct (apart_parts dst _ Hap) as [A1 A2]. destruct (assign_elementwise_spec dst (RMem src) m Ud (reads_own_at _ _ A1 A2)) as [G3 G4].
    split.
    + intros idx Hi. rewrite G, G3 by auto. now rewrite (rhs_value_at dst).
    + intros a Ha. rewrite G. now apply G4.
Qed.

(** Unit extents cut with a step, and extents of 2^31 cells and more, get a wrong block layout. *)
Definition ex_unit : idx_map := IdxMap [2; 1] [2; 9] [0%nat; 1%nat] [0; 0] LP_none.
Theorem C18_unit_extent_refuted : exists (n off : Z) (m : idx_map) (b : block_st), view_of (fun s => 0 < s) n off m /\
  Forall (fun l => 1 <= l) (im_len m) /\ fits_int m /\ get_block_layout m = Some b /\ ~ is_block_layout m (b_n b) (b_size b) (b_str b).
Proof.
  exists 4, 0, ex_unit, (BlockSt 2 1 9). split.
  - eapply (vo_slice _ 4 0 (idx_map_of_shape [0%nat; 1%nat] [0; 0] LP_contiguous [0; 0] [2; 2]) [AAll; ARange (Range 0 1 9)]).
    + apply vo_fresh; build_view.
    + reflexivity.
    + intros r [E|[E|[]]]; [discriminate|]. injection E as <-. cbn. lia.
    + bounds.
    + exists AAll. split; [now left|reflexivity].
  - split; [repeat constructor; lia|]. split.
    + split; [reflexivity|]. intros [|[|k]] Hk; cbn in *; try lia.
    + split; [reflexivity|]. intros (_ & _ & H). specialize (H [1; 0]). cbn zeta in H. assert (V : valid_idx ex_unit [1; 0]) by (repeat constructor; cbn; lia).
      specialize (H V). vm_compute in H. discriminate.
Qed.
Print Assumptions C18_unit_extent_refuted.
Definition ex_big (base : Z) : view := View (idx_map_of_shape [0%nat; 1%nat] [0; 0] LP_contiguous [0; 0] [65536; 65536]) base.
Theorem C18_large_refuted : exists (dst src : view) (m m' : mem Z) (n : Z), view_of (fun s => s = 1) n 0 (v_lay dst) /\ view_of (fun s => s = 1) n 0 (v_lay src) /\
  im_len (v_lay src) = im_len (v_lay dst) /\ disjoint dst src /\
  assign_from_ndarray true false dst (im_len (v_lay src)) (RMem src) m = Some m' /\ ~ holds dst m' (fun idx => m (cell src idx)).
Proof.
  assert (U : forall b, view_of (fun s => s = 1) 4294967296 0 (v_lay (ex_big b))) by (intros b; apply vo_fresh; build_view).
  exists (ex_big 0), (ex_big 4294967296), (fun a => a), (fun a => a), 4294967296. do 3 (split; [auto; reflexivity|]). split; [|split].
  - assert (G : forall b a, is_cell_of (ex_big b) a -> b <= a < b + 4294967296).
    { intros b a (idx & Hi & ->). unfold in_view, valid_idx in Hi. change (im_len _) with [65536; 65536] in Hi.
      inversion Hi as [|i l0 t0 t1 H0 H1]; subst. inversion H1 as [|j l1 t2 t3 H2 H3]; subst. inversion H3; subst. unfold inr in *. unfold cell, addr. cbn. lia. }
    intros a H1 H2. apply G in H1, H2. lia.
  - reflexivity.
  - intros H. specialize (H [0; 0]). assert (V : in_view (ex_big 0) [0; 0]) by (repeat constructor; cbn; lia). specialize (H V). vm_compute in H. discriminate.
Qed.
Print Assumptions C18_large_refuted.
(** a 2x2 corner of a 2x3 array copied into a 2x2 array: two blocks of two cells, the single block is split *)
Definition ex_corner (base : Z) : view := View (IdxMap [2; 2] [3; 1] [0%nat; 1%nat] [0; 0] LP_none) base.
Definition ex_c22 (base : Z) : view := View (idx_map_of_shape [0%nat; 1%nat] [0; 0] LP_contiguous [0; 0] [2; 2]) base.
Example C18_example : blocks_known (v_lay (ex_c22 0)) /\ blocks_known (v_lay (ex_corner 10)) /\ disjoint (ex_c22 0) (ex_corner 10) /\
  get_block_layout (v_lay (ex_corner 10)) = Some (BlockSt 2 2 3) /\ get_block_layout (v_lay (ex_c22 0)) = Some (BlockSt 1 4 4) /\
  exists m', assign_blocks (ex_c22 0) (ex_corner 10) (fun a => a) = BDone m' /\ map m' [0; 1; 2; 3; 4] = [10; 11; 13; 14; 4].
Proof.
  split; [|split; [|split; [|split; [reflexivity|split; [reflexivity|]]]]].
  - split; [split; [reflexivity|intros [|[|k]] Hk; cbn in *; lia]|]. left. exists 4, 0. apply vo_fresh; build_view.
  - split; [split; [reflexivity|intros [|[|k]] Hk; cbn in *; lia]|]. left. exists 6, 0.
    eapply (vo_slice _ 6 0 (idx_map_of_shape [0%nat; 1%nat] [0; 0] LP_contiguous [0; 0] [2; 3]) [AAll; ARange (Range 0 2 1)]).
    + apply vo_fresh; build_view.
    + reflexivity.
    + intros r [E|[E|[]]]; [discriminate|]. injection E as <-. cbn. lia.
    + bounds.
    + exists AAll. split; [now left|reflexivity].
  - assert (G : forall v a, im_len (v_lay v) = [2; 2] -> is_cell_of v a -> exists i j, 0 <= i < 2 /\ 0 <= j < 2 /\ a = cell v [i; j]).
    { intros v a El (idx & Hi & ->). unfold in_view, valid_idx in Hi. rewrite El in Hi.
      inversion Hi as [|i l0 t0 t1 H0 H1]; subst. inversion H1 as [|j l1 t2 t3 H2 H3]; subst. inversion H3; subst. unfold inr in *. exists i, j. auto. }
    intros a H1 H2. apply G in H1; [|reflexivity]. apply G in H2; [|reflexivity]. destruct H1 as (i & j & Hi & Hj & ->), H2 as (k & l & Hk & Hl & E).
    unfold cell, addr in E. cbn [v_base v_lay ex_c22 ex_corner im_str dot] in E. change (im_str _) with [2; 1] in E. cbn [dot] in E. lia.
  - eexists. split; [reflexivity|]. vm_compute. reflexivity.
Qed.

(** ** C19 *)
(** [a = x] for arrays.  The step count suffices for the loop to end; a view declared strided_1d but not
    contiguous must have a positive stride; see the refuted statements below for the other cases. *)
Definition forward_or_contiguous (m : idx_map) : Prop :=
  has_strided_1d (im_prop m) = true -> has_contiguous (im_prop m) = true \/ 0 < min_stride m.
Theorem C19_fill {V} (dst : view) (x zero : V) (m : mem V) (fuel : nat) : usable (v_lay dst) -> zero_extents_harmless (v_lay dst) ->
  forward_or_contiguous (v_lay dst) -> prodZ (im_len (v_lay dst)) <= Z.of_nat fuel ->
  exists m', assign_from_scalar fuel false zero dst x m = Some m' /\ holds dst m' (fun _ => x) /\ unchanged_outside dst m m'.
Proof. intros U Hz Hs Hf. cbn [assign_from_scalar negb]. now apply fill_spec. Qed.
(** [a = x] for matrices, also rectangular ones *)
Theorem C19_fill_matrix {V} (dst : view) (x zero : V) (m : mem V) (fuel : nat) : usable (v_lay dst) -> rank (v_lay dst) = 2%nat -> zero_extents_harmless (v_lay dst) ->
  forward_or_contiguous (v_lay dst) -> prodZ (im_len (v_lay dst)) <= Z.of_nat fuel ->
  exists m', assign_from_scalar fuel true zero dst x m = Some m' /\
    (forall i j, in_view dst [i; j] -> m' (cell dst [i; j]) = if i =? j then x else zero) /\ unchanged_outside dst m m'.
Proof.
  intros U Rk Hz Hs Hf. unfold assign_from_scalar. cbn [negb].
  destruct (fill_spec fuel dst zero m U Hz Hs Hf) as (m1 & -> & Hh & Hu).
  set (k := Z.min _ _). assert (Hk : 0 <= k).
  { pose proof (usable_wf _ U) as (_ & _ & _ & Hnn & _). rewrite Forall_forall in Hnn. unfold rank in Rk.
    apply Z.min_glb; apply Hnn, nth_In; lia. }
  destruct (diag_fold dst x (Z.to_nat k) k m1 U Rk ltac:(lia) ltac:(unfold k; lia) ltac:(unfold k; lia)) as [G1 G2].
  eexists. split; [reflexivity|]. split.
  - intros i j Hv. rewrite G1, Hh by auto. destruct (Z.eqb_spec i j) as [->|]; [|reflexivity]. cbn [andb].
    replace (j <? k) with true; [reflexivity|]. symmetry. apply Z.ltb_lt. unfold in_view, valid_idx in Hv.
    apply (Forall2_nth _ _ _ 0 0) in Hv. destruct Hv as [_ Hv]. unfold rank in Rk.
    pose proof (Hv 0%nat ltac:(simpl; lia)) as V0. pose proof (Hv 1%nat ltac:(simpl; lia)) as V1. unfold inr in *. cbn [nth] in V0, V1. unfold k, nthZ. lia.
  - intros a Ha. rewrite G2, Hu by auto. reflexivity.
Qed.
(** every view cut with positive steps meets the conditions, if it has no zero extent *)
Theorem C19_conditions (n off : Z) (m : idx_map) : view_of (fun s => 0 < s) n off m -> Forall (fun l => 1 <= l) (im_len m) ->
  usable m /\ zero_extents_harmless m /\ forward_or_contiguous m.
Proof.
  intros Hv Hl. split; [eapply view_usable; eauto|]. split.
  - right; right. intros k Hk. pose proof (view_wf _ _ _ _ Hv) as (Ls & Hp & Lse & Hnn & HR). rewrite in_order_apply.
    pose proof (is_perm_length _ _ Hp) as Lso. unfold rank in Hk. rewrite apply_skipn_nth by lia. rewrite Forall_forall in Hl.
    assert (1 <= nthZ (im_len m) (nthN (im_so m) k)); [|lia]. apply Hl, nth_In. apply is_perm_lt; auto; lia.
  - intros _. right. eapply min_stride_pos; eauto.
Qed.
Print Assumptions C19_conditions.
(** With a negative stride the strided loop does nothing at all: v(range(3, -1, -1)) = x leaves v unchanged. *)
Definition ex_rev : idx_map := IdxMap [4] [-1] [0%nat] [0] LP_strided_1d.
Theorem C19_negative_stride_refuted : exists (n off : Z) (dst : view) (m m' : mem Z) (fuel : nat), view_of (fun _ => True) n off (v_lay dst) /\ v_base dst = off /\
  prodZ (im_len (v_lay dst)) <= Z.of_nat fuel /\ assign_from_scalar fuel false 0 dst 7 m = Some m' /\ ~ holds dst m' (fun _ => 7).
Proof.
  exists 4, 3, (View ex_rev 3), (fun _ => 0), (fun _ => 0), 10%nat. split.
  - eapply (vo_slice _ 4 0 (idx_map_of_shape [0%nat] [0] LP_contiguous [0] [4]) [ARange (Range 3 (-1) (-1))] 3).
    + apply vo_fresh; build_view.
    + reflexivity.
    + intros r [E|[]]. injection E as <-. cbn. split; [auto|lia].
    + bounds.
    + exists (ARange (Range 3 (-1) (-1))). split; [now left|reflexivity].
  - split; [reflexivity|]. split; [cbn; lia|]. split; [reflexivity|]. intros H. specialize (H [0]). assert (V : in_view (View ex_rev 3) [0]) by (repeat constructor; cbn; lia).
    specialize (H V). vm_compute in H. discriminate.
Qed.
Print Assumptions C19_negative_stride_refuted.
(** A view with a zero extent in a faster dimension: the loop never ends (it writes out of bounds). *)
Definition ex_zero : idx_map := IdxMap [2; 0] [2; 1] [0%nat; 1%nat] [0; 0] LP_none.
Theorem C19_zero_extent_refuted : exists (n off : Z) (dst : view), view_of (fun s => s = 1) n off (v_lay dst) /\ prodZ (im_len (v_lay dst)) = 0 /\
  forall (m : mem Z) (fuel : nat), assign_from_scalar fuel false 0 dst 7 m = None.
Proof.
  exists 4, 0, (View ex_zero 0). split.
  - eapply (vo_slice _ 4 0 (idx_map_of_shape [0%nat; 1%nat] [0; 0] LP_contiguous [0; 0] [2; 2]) [AAll; ARange (Range 0 0 1)]).
    + apply vo_fresh; build_view.
    + reflexivity.
    + intros r [E|[E|[]]]; [discriminate|]. injection E as <-. cbn. lia.
    + bounds.
    + exists AAll. split; [now left|reflexivity].
  - split; [reflexivity|]. intros m fuel. unfold assign_from_scalar, fill_with_scalar. cbn [negb v_lay im_prop ex_zero has_strided_1d].
    change (has_strided_1d LP_none) with false. cbn iota. rewrite fill_iter_iterate. rewrite (array_iteration_stuck ex_zero); auto.
    + split; [reflexivity|]. split; [apply Permutation_refl|]. split; [reflexivity|]. split; [repeat constructor; lia|cbn; lia].
    + cbn. lia.
Qed.
Print Assumptions C19_zero_extent_refuted.
Example C19_example : exists m', assign_from_scalar 6 true 0 (ex_f 1) 5 (fun a => 100 + a) = Some m' /\ map m' [0; 1; 2; 3; 4; 5; 6; 7] = [100; 5; 0; 0; 5; 0; 0; 107].
Proof. eexists. split; [reflexivity|]. vm_compute. reflexivity. Qed.

(** ** C20 *)
(** The expression may read the destination, but at index [idx] only its element [idx]: the new values are computed
    from the old contents. *)
Theorem C20_elementwise_self {V} (checks : bool) (dst : view) (e : mem V -> list Z -> V) (m : mem V) : usable (v_lay dst) -> reads_own_element dst e ->
  exists m', assign_from_ndarray checks true dst (im_len (v_lay dst)) (RExpr e) m = Some m' /\ holds dst m' (e m) /\ unchanged_outside dst m m'.
Proof. intros U H. apply (assign_host_value checks dst (RExpr e)); auto. discriminate. Qed.
(** self assignment [A = A] changes nothing *)
Theorem C20_self_assign {V} (checks : bool) (dst : view) (m : mem V) : usable (v_lay dst) ->
  exists m', assign_from_ndarray checks true dst (im_len (v_lay dst)) (RMem dst) m = Some m' /\ same_memory m' m.
Proof.
  intros U. destruct (assign_host_value checks dst (RMem dst) m U) as (m' & E & Hh & Hu).
  - intros src Es. injection Es as <-. auto.
  - intros idx m1 m2 Hi Ha. apply Ha. now left.
  - exists m'. split; auto. intros a. destruct (is_cell_dec dst a) as [(idx & Hi & ->)|Hn]; auto. now rewrite Hh.
Qed.
Print Assumptions C20_self_assign.
(** Reading other elements of the destination gives a mixture of old and new values: A = transpose(A), v(range(1,3)) = v(range(0,2)). *)
Theorem C20_transpose_in_place_refuted : exists (dst : view) (m m' : mem Z), usable (v_lay dst) /\
  let src := View (transpose [1%nat; 0%nat] (v_lay dst)) (v_base dst) in
  assign_from_ndarray true true dst (im_len (v_lay src)) (RMem src) m = Some m' /\ ~ holds dst m' (fun idx => m (cell src idx)).
Proof.
  exists (ex_c22 0), (fun a => a). eexists. split; [|split; [reflexivity|]].
  - apply (view_usable (fun _ => True) 4 0). apply vo_fresh; build_view.
  - intros H. specialize (H [1; 0]). assert (V : in_view (ex_c22 0) [1; 0]) by (repeat constructor; cbn; lia). specialize (H V). vm_compute in H. discriminate.
Qed.
Print Assumptions C20_transpose_in_place_refuted.
Definition ex_v (n base : Z) : view := View (idx_map_of_shape [0%nat] [0] LP_contiguous [0] [n]) base.
Theorem C20_shift_refuted : exists (dst src : view) (m m' : mem Z), usable (v_lay dst) /\ usable (v_lay src) /\ im_len (v_lay src) = im_len (v_lay dst) /\
  assign_from_ndarray true true dst (im_len (v_lay src)) (RMem src) m = Some m' /\ ~ holds dst m' (fun idx => m (cell src idx)).
Proof.
  exists (ex_v 2 1), (ex_v 2 0), (fun a => a). eexists.
  assert (U : forall b, usable (v_lay (ex_v 2 b))) by (intros b; apply (view_usable (fun _ => True) 2 0); apply vo_fresh; build_view).
  do 3 (split; [auto; reflexivity|]). split; [reflexivity|].
  intros H. specialize (H [1]). assert (V : in_view (ex_v 2 1) [1]) by (repeat constructor; cbn; lia). specialize (H V). vm_compute in H. discriminate.
Qed.
Print Assumptions C20_shift_refuted.
Example C20_example : reads_own_element (ex_c 0) (fun m idx => 2 * m (cell (ex_c 0) idx) + m (cell (ex_f 10) idx)) /\
  exists m', assign_from_ndarray true true (ex_c 0) [2; 3] (RExpr (fun m idx => 2 * m (cell (ex_c 0) idx) + m (cell (ex_f 10) idx))) (fun a => a) = Some m' /\
    map m' [0; 1; 2; 3; 4; 5] = [10; 14; 18; 17; 21; 25].
Proof.
  split.
  - intros idx m1 m2 Hi Ha. rewrite (Ha (cell (ex_c 0) idx)) by now left. rewrite (Ha (cell (ex_f 10) idx)); [reflexivity|]. right. intros C. apply ex_c_cells in C.
    assert (G : is_cell_of (ex_f 10) (cell (ex_f 10) idx)) by (exists idx; auto). apply ex_f_cells in G. lia.
  - eexists. split; [reflexivity|]. vm_compute. reflexivity.
Qed.

(** ** C53 *)
(** [swap] lets each of the two views show the elements of the other one (memory is not an argument of the
    function, so no element changes); [rebind] makes a view show another view's elements. *)
Theorem C53_swap {V} (a b : view) (m : mem V) (f g : list Z -> V) : holds a m f -> holds b m g ->
  let (a', b') := swap_views a b in
  im_len (v_lay a') = im_len (v_lay b) /\ holds a' m g /\ im_len (v_lay b') = im_len (v_lay a) /\ holds b' m f.
Proof. intros Ha Hb. destruct a as [la sa], b as [lb sb]. cbn. auto. Qed.
Print Assumptions C53_swap.
Theorem C53_rebind {V} (a v : view) (m : mem V) (f : list Z -> V) : holds v m f ->
  im_len (v_lay (rebind a v)) = im_len (v_lay v) /\ holds (rebind a v) m f /\ (forall x, is_cell_of (rebind a v) x <-> is_cell_of v x).
Proof. intros H. destruct v as [l s]. cbn. split; auto. split; auto. reflexivity. Qed.
Print Assumptions C53_rebind.
(** [deep_swap]; [tmp] is the temporary array, in storage of its own. *)
Theorem C53_deep_swap {V} (checks : bool) (tmp a b : view) (m : mem V) : usable (v_lay tmp) -> usable (v_lay a) -> usable (v_lay b) ->
  im_len (v_lay tmp) = im_len (v_lay a) -> im_len (v_lay b) = im_len (v_lay a) ->
  disjoint a b -> disjoint tmp a -> disjoint tmp b ->
  exists m', deep_swap checks tmp a b m = Some m' /\
    holds a m' (fun idx => m (cell b idx)) /\ holds b m' (fun idx => m (cell a idx)) /\
    (forall x, ~ is_cell_of a x -> ~ is_cell_of b x -> ~ is_cell_of tmp x -> m' x = m x).
Proof. apply deep_swap_spec. Qed.
Print Assumptions C53_deep_swap.
(** swapping twice restores both views *)
Theorem C53_deep_swap_twice {V} (checks : bool) (tmp a b : view) (m : mem V) : usable (v_lay tmp) -> usable (v_lay a) -> usable (v_lay b) ->
  im_len (v_lay tmp) = im_len (v_lay a) -> im_len (v_lay b) = im_len (v_lay a) ->
  disjoint a b -> disjoint tmp a -> disjoint tmp b ->
  exists m1 m2, deep_swap checks tmp a b m = Some m1 /\ deep_swap checks tmp a b m1 = Some m2 /\ (forall x, ~ is_cell_of tmp x -> m2 x = m x).
Proof.
  intros Ut Ua Ub Et Eb Dab Dta Dtb.
  destruct (deep_swap_spec checks tmp a b m Ut Ua Ub Et Eb Dab Dta Dtb) as (m1 & E1 & A1 & B1 & F1).
  destruct (deep_swap_spec checks tmp a b m1 Ut Ua Ub Et Eb Dab Dta Dtb) as (m2 & E2 & A2 & B2 & F2).
  exists m1, m2. split; auto. split; auto. intros x Hx.
  destruct (is_cell_dec a x) as [(idx & Hi & ->)|Na].
  - rewrite A2 by auto. apply B1. unfold in_view, valid_idx in *. now rewrite Eb.
  - destruct (is_cell_dec b x) as [(idx & Hi & ->)|Nb].
    + rewrite B2 by auto. apply A1. unfold in_view, valid_idx in *. now rewrite <- Eb.
    + rewrite F2, F1; auto.
Qed.
Example C53_example : disjoint (ex_c 0) (ex_f 10) /\ exists m', deep_swap true (ex_c 20) (ex_c 0) (ex_f 10) (fun a => a) = Some m' /\
  map m' [0; 1; 2; 3; 4; 5; 6; 10; 11; 12; 13; 14; 15; 16] = [10; 12; 14; 11; 13; 15; 6; 0; 3; 1; 4; 2; 5; 16].
Proof.
  split; [intros a H1 H2; apply ex_c_cells in H1; apply ex_f_cells in H2; lia|]. eexists. split; [reflexivity|]. vm_compute. reflexivity.
Qed.

(** ** C54 *)
(** A conversion that is accepted keeps shape, strides, stride order and so the position of every element. *)
Theorem C54_keeps_addressing (checks : bool) (p : layout_prop) (se : list Z) (m r : idx_map) : convert checks p se m = Some r ->
  im_len r = im_len m /\ im_str r = im_str m /\ im_so r = im_so m /\ im_prop r = p /\ im_se r = se /\
  (forall idx, addr r idx = addr m idx) /\ (forall idx, valid_idx r idx <-> valid_idx m idx).
Proof.
  unfold convert. intros H. assert (E : r = IdxMap (im_len m) (im_str m) (im_so m) se p).
  { destruct checks; cbn [negb] in H; [|congruence]. destruct (is_stride_order_valid m); cbn [negb] in H; [|discriminate].
    destruct (if layout_property_compatible (im_prop m) p then _ else _); [|discriminate]. destruct (static_extents_ok se (im_len m)); congruence. }
  subst r. cbn. repeat split; auto.
Qed.
Print Assumptions C54_keeps_addressing.
(** Weaker declarations are always true of the converted layout. *)
Theorem C54_weaker_true (checks : bool) (p : layout_prop) (se : list Z) (m r : idx_map) : flags_true m -> layout_property_compatible (im_prop m) p = true ->
  convert checks p se m = Some r -> flags_true r.
Proof.
  intros [F1 F2] Hc H. destruct (C54_keeps_addressing _ _ _ _ _ H) as (El & Es & Eo & Ep & _).
  assert (G : min_stride r = min_stride m) by (unfold min_stride, rank; now rewrite El, Es, Eo).
  split; rewrite Ep; intros Hp.
  - rewrite G. unfold regular. rewrite Eo, Es, El. apply F1. destruct (im_prop m), p; try discriminate; auto.
  - unfold smallest_one_true. rewrite G. apply F2. destruct (im_prop m), p; try discriminate; auto.
Qed.
Print Assumptions C54_weaker_true.
(** What the type of the source guarantees is not checked again: such a conversion is refused only if the strides are not in the declared
    order or static extents differ; any other one in addition if the layout is not what the target declares. *)
Definition guarantees (from to : layout_prop) : Prop := (has_strided_1d to = true -> has_strided_1d from = true) /\ (has_smallest_stride_is_one to = true -> has_smallest_stride_is_one from = true).
Definition fits_static (se : list Z) (m : idx_map) : Prop := forall k, (k < length (im_len m))%nat -> nthZ se k = 0 \/ nthZ se k = nthZ (im_len m) k.
Theorem C54_accepted (p : layout_prop) (se : list Z) (m : idx_map) : (exists r, convert true p se m = Some r) <->
  is_stride_order_valid m = true /\ fits_static se m /\ (guarantees (im_prop m) p \/ (has_contiguous p = true -> is_contiguous m = true) /\ (has_strided_1d p = true -> is_strided_1d m = true)).
Proof.
  assert (G : layout_property_compatible (im_prop m) p = true <-> guarantees (im_prop m) p) by (unfold guarantees; destruct (im_prop m), p; cbn; split; intros H; try reflexivity; try discriminate; try (split; auto); destruct H as [H1 H2]; try (discriminate (H1 eq_refl)); try (discriminate (H2 eq_refl))).
  assert (S : static_extents_ok se (im_len m) = true <-> fits_static se m).
  { unfold static_extents_ok, fits_static. rewrite forallb_forall. split; intros H k Hk.
    - specialize (H k ltac:(apply in_seq; lia)). apply orb_true_iff in H. now rewrite !Z.eqb_eq in H.
    - apply in_seq in Hk. apply orb_true_iff. rewrite !Z.eqb_eq. apply H. lia. }
  unfold convert. cbn [negb]. destruct (is_stride_order_valid m); cbn [negb]; [|split; [intros [r H]; discriminate|intros [H _]; discriminate]]. rewrite <- G, <- S.
  destruct (layout_property_compatible (im_prop m) p), (has_contiguous p), (has_strided_1d p), (is_contiguous m), (is_strided_1d m), (static_extents_ok se (im_len m)); cbn [andb];
    (split; [intros [r H]; try discriminate H; intuition congruence|intros (_ & H1 & H2); try (eexists; reflexivity); try discriminate H1; destruct H2 as [H2|[H2 H3]]; try discriminate H2; try discriminate (H2 eq_refl); try discriminate (H3 eq_refl)]).
Qed.
Print Assumptions C54_accepted.
(** Stronger declarations are checked (when checks are on): a layout accepted as contiguous has its elements in
    consecutive cells, one accepted as strided_1d has them at equal distances (for strides that are multiples of the
    smallest one), static extents equal the extents. *)
Theorem C54_checked (p : layout_prop) (se : list Z) (n off : Z) (m r : idx_map) : view_of (fun s => 0 < s) n off m -> length se = rank m ->
  convert true p se m = Some r ->
  (has_contiguous p = true -> contiguous_true r) /\
  (has_strided_1d p = true -> Forall (fun s => (min_stride m | s)) (im_str m) -> strided_1d_true r) /\
  (forall k, (k < rank m)%nat -> nthZ se k <> 0 -> nthZ se k = nthZ (im_len m) k).
Proof.
  intros Hv Lse H. destruct (C54_keeps_addressing _ _ _ _ _ H) as (El & Es & Eo & Ep & _).
  pose proof (view_wf _ _ _ _ Hv) as W. pose proof (view_flags _ _ _ _ Hv) as F.
  assert (G : min_stride r = min_stride m) by (unfold min_stride, rank; now rewrite El, Es, Eo).
  assert (C : contiguous_true m -> contiguous_true r) by (intros C idx; unfold valid_idx, addr; rewrite El, Es, Eo; apply C).
  assert (S1 : strided_1d_true m -> strided_1d_true r) by (intros S1 idx; unfold valid_idx, addr; rewrite G, El, Es, Eo; apply S1).
  unfold convert in H. cbn [negb] in H. destruct (is_stride_order_valid m); [|discriminate].
  cbn [negb] in H. destruct (layout_property_compatible (im_prop m) p) eqn:Ec.
  - destruct (static_extents_ok se (im_len m)) eqn:Ese; [|discriminate]. destruct F as [F1 F2]. split; [|split].
    + intros Hp. apply C. assert (im_prop m = LP_contiguous) as Em by (destruct (im_prop m), p; try discriminate; auto).
      apply regular_contiguous; auto. rewrite Em in F1, F2. specialize (F1 eq_refl). rewrite (F2 eq_refl) in F1. exact F1.
    + intros Hp _. apply S1. apply regular_strided_1d; auto. apply F1. destruct (im_prop m), p; try discriminate; auto.
    + intros k Hk Hne. unfold static_extents_ok in Ese. rewrite forallb_forall in Ese. specialize (Ese k ltac:(apply in_seq; unfold rank in Hk; lia)).
      apply orb_true_iff in Ese. destruct Ese as [E|E]; apply Z.eqb_eq in E; congruence.
  - destruct ((if has_contiguous p then is_contiguous m else true) && (if has_strided_1d p then is_strided_1d m else true)) eqn:E; [|discriminate].
    apply andb_true_iff in E. destruct E as [E1 E2]. destruct (static_extents_ok se (im_len m)) eqn:Ese; [|discriminate]. split; [|split].
    + intros Hp. rewrite Hp in E1. apply C. eapply contiguous_answer; eauto.
    + intros Hp Hd. rewrite Hp in E2. apply S1. eapply strided_answer; eauto.
    + intros k Hk Hne. unfold static_extents_ok in Ese. rewrite forallb_forall in Ese. specialize (Ese k ltac:(apply in_seq; unfold rank in Hk; lia)).
      apply orb_true_iff in Ese. destruct Ese as [E|E]; apply Z.eqb_eq in E; congruence.
Qed.
(** wrong static extents are rejected; a layout that is truthfully contiguous is accepted *)
Theorem C54_static_rejected (p : layout_prop) (se : list Z) (m : idx_map) (k : nat) : (k < rank m)%nat -> nthZ se k <> 0 -> nthZ se k <> nthZ (im_len m) k ->
  convert true p se m = None.
Proof.
  intros Hk H0 H1. unfold convert. cbn [negb]. destruct (is_stride_order_valid m); [|reflexivity]. cbn [negb].
  destruct (if layout_property_compatible (im_prop m) p then _ else _); [|reflexivity].
  replace (static_extents_ok se (im_len m)) with false; [reflexivity|]. symmetry. apply not_true_is_false. intros E.
  unfold static_extents_ok in E. rewrite forallb_forall in E. specialize (E k ltac:(apply in_seq; unfold rank in Hk; lia)).
  apply orb_true_iff in E. destruct E as [E|E]; apply Z.eqb_eq in E; congruence.
Qed.
Print Assumptions C54_static_rejected.
Theorem C54_contiguous_accepted (p : layout_prop) (n off : Z) (m : idx_map) : view_of (fun s => 0 < s) n off m -> Forall (fun l => 1 <= l) (im_len m) -> regular 1 m ->
  exists r, convert true p (repeat 0 (rank m)) m = Some r.
Proof.
  intros Hv Hl Hr. pose proof (view_wf _ _ _ _ Hv) as W. pose proof (view_nested _ _ _ _ Hv Hl) as Hn. unfold convert. cbn [negb].
  rewrite nested_stride_order_valid by auto. cbn [negb].
  rewrite is_contiguous_complete by auto. pose proof (regular_min_stride _ _ W Hr) as Em.
  assert (Es : is_strided_1d m = true) by (apply is_strided_1d_complete; auto; rewrite Em; auto; lia).
  rewrite Es. assert (E : static_extents_ok (repeat 0 (rank m)) (im_len m) = true).
  { unfold static_extents_ok. apply forallb_forall. intros k Hk. unfold nthZ. rewrite nth_repeat. reflexivity. }
  rewrite E. destruct (layout_property_compatible (im_prop m) p), (has_contiguous p), (has_strided_1d p); cbn [andb]; eauto.
Qed.
(** The declaration "the smallest stride is one" is not checked at run time: a column of a matrix is accepted. *)
Theorem C54_smallest_stride_refuted : exists (n off : Z) (m r : idx_map), view_of (fun s => 0 < s) n off m /\ Forall (fun l => 1 <= l) (im_len m) /\
  convert true LP_smallest_one [0] m = Some r /\ ~ flags_true r /\ exists idx, valid_idx r idx /\ call_impl r (map CLong idx) <> addr m idx.
Proof.
  exists 6, 0, (IdxMap [2] [3] [0%nat] [0] LP_strided_1d). eexists. split; [|split; [|split; [reflexivity|split]]].
  - eapply (vo_slice _ 6 0 (idx_map_of_shape [0%nat; 1%nat] [0; 0] LP_contiguous [0; 0] [2; 3]) [AAll; ALong 0]).
    + apply vo_fresh; build_view.
    + reflexivity.
    + intros r [E|[E|[]]]; discriminate.
    + bounds.
    + exists AAll. split; [now left|reflexivity].
  - repeat constructor; lia.
  - intros [_ F]. specialize (F eq_refl). vm_compute in F. discriminate.
  - exists [1]. split; [repeat constructor; cbn; lia|]. vm_compute. discriminate.
Qed.
Print Assumptions C54_smallest_stride_refuted.
Example C54_example : exists r, convert true LP_contiguous [2; 0] (IdxMap [2; 3] [3; 1] [0%nat; 1%nat] [0; 0] LP_none) = Some r /\
  convert true LP_contiguous [3; 0] (IdxMap [2; 3] [3; 1] [0%nat; 1%nat] [0; 0] LP_none) = None /\
  convert true LP_contiguous [0; 0] (v_lay (ex_corner 0)) = None.
Proof. eexists. split; [reflexivity|]. split; reflexivity. Qed.

Print Assumptions C16_assign.
Print Assumptions C16_source_kept.
Print Assumptions C17_linear.
Print Assumptions C17_linear_c_order.
Print Assumptions C18_block_layout_steps.
Print Assumptions C18_device_assign.
Print Assumptions C19_fill.
Print Assumptions C19_fill_matrix.
Print Assumptions C20_elementwise_self.
Print Assumptions C53_deep_swap_twice.
Print Assumptions C54_checked.
Print Assumptions C54_contiguous_accepted.
