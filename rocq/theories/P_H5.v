(** Properties C38, C39, C56: slices of HDF5 data sets, arrays of strings, arrays written to a file and read back. *)
From Coq Require DecimalString DecimalN String.
Import (notations) String.
From Verif Require Import Base M_Perm M_IdxMap M_Slice M_Loops M_Assign M_Expr M_Transform M_Mpi M_H5 S_Layout S_Assign S_Mpi S_H5 L_Perm L_IdxMap L_Slice L_Layout L_Loops L_Assign L_Transform L_SymGrp L_Mpi L_H5 L_H52 L_H53 P_Mpi.

(** ** C38 *)
(** Reading a slice gives the elements of the same slice of the array [c_array b (ds_len d)] loaded with the data set: same
    shape, same elements at the same positions. *)
Theorem C38_read {V} (checks cplx : bool) (tmp tmp' : Z) (d : dataset V) (args : list arg) (t : target) (m : mem V) (b o : Z) (lay : idx_map) :
  good_lengths (ds_len d) -> ds_cplx d = cplx ->
  slice (v_lay (c_array b (ds_len d))) args = Some (o, lay) -> args_in_bounds (expand_args (length (ds_len d)) args) (ds_len d) ->
  forward_ranges args -> longs args -> some_dim_left (length (ds_len d)) args ->
  h5_target t (im_len lay) -> temporaries_apart tmp tmp' t (im_len lay) ->
  exists m' tv, h5_read checks cplx tmp tmp' d (Some args) t m = Some (m', tv) /\ im_len (v_lay tv) = im_len lay /\
    (forall mm, loaded d b mm -> forall j, in_range j (im_len lay) -> m' (cell tv j) = mm (cell (View lay (b + o)) j)) /\
    unchanged_but tv [c_array tmp (im_len lay); c_array tmp' (im_len lay)] m m'.
Proof.
  intros G Hc HS Hb Hf Hl Hd T [D D']. destruct (slice_content d b args o lay G HS) as (Hok & El & Hcell).
  assert (C : content d (Some args) (im_len lay) (fun j => ds_val d (parent_idx (expand_args (length (ds_len d)) args) j))) by (split; [exact Hok|split; [exact Hf|split; [exact Hl|split; [exact Hb|split; [exact Hd|split; [exact El|reflexivity]]]]]]).
  destruct (h5_read_spec checks cplx tmp tmp' d (Some args) t m _ _ G C (or_introl Hc) T D D') as (m' & tv & E & _ & Lt & Hh & Hu).
  exists m', tv. split; [exact E|]. split; [exact Lt|]. split; [|exact Hu]. intros mm Hm j Hj.
  assert (Hj' : in_view tv j) by (unfold in_view, valid_idx; now rewrite Lt). rewrite (Hh j Hj'), Hcell by now apply in_range_length.
  symmetry. apply Hm. unfold in_view, valid_idx. change (im_len (v_lay (c_array b (ds_len d)))) with (ds_len d).
  apply parent_idx_valid; [auto|now apply expand_no_ell|]. pose proof (expand_slab_args _ _ Hok Hf Hl) as Sa. apply view_pos_spec; [now apply expand_args_length| |now rewrite <- El].
  intros r Hr. rewrite Forall_forall in Sa. destruct (Sa _ Hr) as [_ X]. cbv beta iota in X. lia.
Qed.
(** A slice that reaches outside of the data set is never read. *)
Theorem C38_exact {V} (checks cplx : bool) (tmp tmp' : Z) (d : dataset V) (args : list arg) (t : target) (m : mem V) (b o : Z) (lay : idx_map) r :
  good_lengths (ds_len d) -> ds_cplx d = cplx -> slice (v_lay (c_array b (ds_len d))) args = Some (o, lay) -> forward_ranges args -> longs args ->
  h5_read checks cplx tmp tmp' d (Some args) t m = Some r ->
  forall j, in_range j (im_len lay) -> in_range (parent_idx (expand_args (length (ds_len d)) args) j) (ds_len d).
Proof.
  intros G Hc HS Hf Hl. destruct (slice_content d b args o lay G HS) as (Hok & El & _). rewrite El.
  pose proof (expand_args_length _ _ Hok) as Lex. set (ex := expand_args (length (ds_len d)) args) in *.
  assert (Direct : forall t m r, read_direct cplx d (Some args) t m = Some r -> forall j, in_range j (slice_len ex (ds_len d)) -> in_range (parent_idx ex j) (ds_len d)).
  { clear - G Hc Hok Hf Hl Lex. intros t m r H. unfold read_direct in H. set (R := length (im_len (v_lay (tgt_view t)))) in *.
    destruct (hyperslab_and_shape R args (lt_lengths d) cplx) as [[h sh]|] eqn:E; [|discriminate]. cbn [option_map fst snd] in H.
    assert (HR : R = n_kept ex).
    { unfold hyperslab_and_shape in E. destruct (negb (Nat.leb (count_ell args) 1)); [discriminate|].
      destruct (negb (Nat.eqb (count_ell args) 1 && Nat.leb (range_count args) R || Nat.eqb (range_count args) R)); [discriminate|].
      destruct (Nat.eqb_spec (R + count_int args) (length (lt_lengths d) - (if cplx then 1 else 0))) as [E1|]; [|discriminate].
      assert (E2 : (length (lt_lengths d) - (if cplx then 1 else 0) = length (ds_len d))%nat) by (unfold lt_lengths; rewrite Hc, app_length; destruct cplx; cbn [length]; lia).
      pose proof (n_kept_int ex) as K. assert (count_int ex = count_int args); [|lia]. apply count_int_expand. }
    destruct (sel_slab d args G Hok Hf Hl) as (h' & E' & _). fold ex in E'. rewrite <- HR, Hc, E in E'. injection E' as <- ->.
    destruct (resize_or_check t (slice_len ex (ds_len d))); [|discriminate]. cbn [file_read] in H. destruct (selected d h) as [l|] eqn:Es; [|discriminate].
    rewrite HR, <- Hc in E. fold ex in E. destruct (sel_spec d args G Hok Hf Hl h E) as [S _]. exact (S l Es). }
  assert (Scalar : forall t m r, read_scalar checks cplx tmp' d (Some args) t m = Some r -> forall j, in_range j (slice_len ex (ds_len d)) -> in_range (parent_idx ex j) (ds_len d)).
  { intros t0 m0 r0 H. unfold read_scalar in H. rewrite Hc in H. destruct cplx; cbn [andb negb] in H; eapply Direct; eauto. }
  unfold h5_read. destruct (is_stride_order_C _ && is_contiguous _); [intros H; eapply Scalar; eauto|].
  destruct (negb _ && _); [discriminate|]. destruct (read_scalar _ _ _ _ _ _ _) as [[m1 w]|] eqn:E; [|discriminate]. intros _. eapply Scalar; eauto.
Qed.
(** Writing an array into a slice changes the data set as assigning it to the slice of the loaded array does. *)
Theorem C38_write {V} (checks cplx : bool) (tmp : Z) (d : dataset V) (args : list arg) (a : view) (m : mem V) (b o : Z) (lay : idx_map) :
  good_lengths (ds_len d) -> ds_cplx d = cplx ->
  slice (v_lay (c_array b (ds_len d))) args = Some (o, lay) -> args_in_bounds (expand_args (length (ds_len d)) args) (ds_len d) ->
  forward_ranges args -> longs args -> some_dim_left (length (ds_len d)) args ->
  forward_view a -> im_len (v_lay a) = im_len lay -> disjoint (c_array tmp (im_len lay)) a ->
  exists d', h5_write checks cplx tmp a (Some args) (Some d) m = Some d' /\ ds_len d' = ds_len d /\ ds_cplx d' = cplx /\
    forall mm mm', loaded d b mm -> holds (View lay (b + o)) mm' (fun j => m (cell a j)) -> unchanged_outside (View lay (b + o)) mm mm' -> loaded d' b mm'.
Proof.
  intros G Hc HS Hb Hf Hl Hd Fa La D. destruct (slice_content d b args o lay G HS) as (Hok & El & Hcell). pose proof (expand_args_length _ _ Hok) as Lex.
  set (ex := expand_args (length (ds_len d)) args) in *.
  assert (C : content d (Some args) (im_len lay) (fun j => ds_val d (parent_idx (expand_args (length (ds_len d)) args) j))) by (split; [exact Hok|split; [exact Hf|split; [exact Hl|split; [exact Hb|split; [exact Hd|split; [exact El|reflexivity]]]]]]).
  destruct (content_shape _ _ _ _ G C) as [Hs HR].
  destruct (write_copy checks tmp a m Fa) as (w & m1 & P & Hm1 & E); [unfold rank; now rewrite La|now rewrite La|]. rewrite E. rewrite La, El in P.
  destruct (write_direct_slice cplx w args d m1 G Hok Hf Hl Hb Hc P) as (d' & Ed & L' & C' & V1 & V2). fold ex in V1, V2. exists d'. split; [exact Ed|]. split; [exact L'|]. split; [exact C'|].
  intros mm mm' Hm Hh Hu. unfold loaded. rewrite L'. intros idx Hi.
  assert (Sn : steps_nonzero ex). { intros r Hr. pose proof (expand_slab_args _ _ Hok Hf Hl) as Sa. rewrite Forall_forall in Sa. destruct (Sa _ Hr) as [_ X]. cbv beta iota in X. lia. }
  assert (In_par : forall j, in_range j (slice_len ex (ds_len d)) -> in_range (parent_idx ex j) (ds_len d)).
  { intros j Hj. apply parent_idx_valid; [auto|now apply expand_no_ell|]. apply view_pos_spec; auto. }
  destruct (in_dec (list_eq_dec Z.eq_dec) idx (map (parent_idx ex) (all_idx (slice_len ex (ds_len d))))) as [Hin|Hout].
  - apply in_map_iff in Hin. destruct Hin as (j & <- & Hj). apply all_idx_In in Hj. rewrite V1 by auto. rewrite <- Hcell by (rewrite El; now apply in_range_length).
    rewrite Hh by (unfold in_view, valid_idx; cbn [v_lay]; now rewrite El). symmetry. apply Hm1. now rewrite La, El.
  - assert (Hn : forall j, in_range j (slice_len ex (ds_len d)) -> idx <> parent_idx ex j). { intros j Hj ->. apply Hout. apply in_map. now apply all_idx_In. }
    rewrite V2 by auto. rewrite Hu.
    + apply Hm. exact Hi.
    + intros (j & Hj & Ej). unfold in_view, valid_idx in Hj. cbn [v_lay] in Hj. rewrite El in Hj. rewrite Hcell in Ej by (rewrite El; now apply in_range_length).
      apply (Hn j Hj). symmetry. assert (G0 : Forall (fun l => 0 <= l) (ds_len d)) by (destruct G as [G1 _]; eapply Forall_impl; [|exact G1]; cbv beta; lia).
      apply (cell_inj (c_array b (ds_len d))); [eapply plain_usable; apply (c_array_plain b (ds_len d)); [exact G0|apply G]|apply In_par; exact Hj|exact Hi|congruence].
Qed.

(** the data set 0, 1, 2, ... n - 1 and an empty array to read it into *)
Definition ex_ds (cplx : bool) (n : Z) : dataset Z := DS [n] cplx (fun idx => nthZ idx 0).
Definition ex_into : target := TArray (c_array 100 [0]) 100.
Definition ex_values (r : option (mem Z * view)) : option (list Z * list Z) :=
  option_map (fun mv => (im_len (v_lay (snd mv)), map (fun idx => fst mv (cell (snd mv) idx)) (all_idx (im_len (v_lay (snd mv)))))) r.
(** [range(0, -1)] is the whole dimension in memory (last = -1: up to the end) and nothing in a file. *)
Theorem C38_minus_one_refuted : exists args o lay, slice (v_lay (c_array 0 [5])) args = Some (o, lay) /\ im_len lay = [5] /\
  args_in_bounds args [5] /\ (forall r, In (ARange r) args -> 0 < r_step r) /\
  ex_values (h5_read true false 200 300 (ex_ds false 5) (Some args) ex_into (fun _ => 0)) = Some ([0], []).
Proof.
  exists [ARange (Range 0 (-1) 1)]. do 2 eexists. split; [reflexivity|]. split; [reflexivity|]. split; [|split; [|vm_compute; reflexivity]].
  - constructor; [|constructor]. intros x Hx. apply in_range_arg_spec in Hx; [|discriminate]. change (get_l (ARange (Range 0 (-1) 1)) 5) with 5 in Hx. cbn [r_first r_step]. lia.
  - intros r [E|[]]. injection E as <-. cbn. lia.
Qed.
(** A range with a negative step selects elements in memory and is an error for a file. *)
Theorem C38_negative_step_refuted : exists args o lay, slice (v_lay (c_array 0 [5])) args = Some (o, lay) /\ im_len lay = [3] /\
  args_in_bounds args [5] /\ (forall r, In (ARange r) args -> r_last r <> -1) /\
  h5_read true false 200 300 (ex_ds false 5) (Some args) ex_into (fun _ => 0) = None.
Proof.
  exists [ARange (Range 4 1 (-1))]. do 2 eexists. split; [reflexivity|]. split; [reflexivity|]. split; [|split; [|vm_compute; reflexivity]].
  - constructor; [|constructor]. intros x Hx. apply in_range_arg_spec in Hx; [|discriminate]. change (get_l (ARange (Range 4 1 (-1))) 5) with 3 in Hx. cbn [r_first r_step]. lia.
  - intros r [E|[]]. injection E as <-. cbn. lia.
Qed.
(** Reading a slice of real data into a complex array reads the whole data set. *)
Theorem C38_real_to_complex_refuted : exists args o lay, slice (v_lay (c_array 0 [5])) args = Some (o, lay) /\ im_len lay = [2] /\
  args_in_bounds args [5] /\ forward_ranges args /\
  ex_values (h5_read true true 200 300 (ex_ds false 5) (Some args) ex_into (fun _ => 0)) = Some ([5], [0; 1; 2; 3; 4]) /\
  ex_values (h5_read true true 200 300 (ex_ds true 5) (Some args) ex_into (fun _ => 0)) = Some ([2], [1; 2]).
Proof.
  exists [ARange (Range 1 3 1)]. do 2 eexists. split; [reflexivity|]. split; [reflexivity|]. split; [|split; [|split; vm_compute; reflexivity]].
  - constructor; [|constructor]. intros x Hx. apply in_range_arg_spec in Hx; [|discriminate]. change (get_l (ARange (Range 1 3 1)) 5) with 2 in Hx. cbn [r_first r_step]. lia.
  - intros r [E|[]]. injection E as <-. cbn. lia.
Qed.

(** ** C39 *)
(** Any list of strings without NUL characters, of whatever lengths, comes back unchanged. *)
Theorem C39_strings (v : list cpp_string) : (forall x, In x v -> ~ In 0 x) ->
  exists cb, to_char_buf v = Some cb /\ cb_n cb = length v /\ length (cb_buffer cb) = (cb_n cb * cb_len cb)%nat /\ from_char_buf cb = Some v.
Proof. apply strings_spec. Qed.
(** std::string may contain NUL characters: the rest of such a string is lost. *)
Theorem C39_embedded_nul_refuted : exists v cb v', to_char_buf v = Some cb /\ from_char_buf cb = Some v' /\ v' <> v.
Proof. exists [[97; 0; 98]]. do 2 eexists. split; [reflexivity|]. split; [reflexivity|]. discriminate. Qed.
Example C39_example : let v := [[97; 98; 99]; []; [120]] in (forall x, In x v -> ~ In 0 x) /\
  to_char_buf v = Some (CharBuf [97; 98; 99; 0; 0; 0; 0; 0; 120; 0; 0; 0] 3 4).
Proof. split; [|reflexivity]. intros x [<-|[<-|[<-|[]]]]; cbn; lia. Qed.

(** ** C56 *)
(** What is written is the array: its shape and its elements, whatever its layout. *)
Theorem C56_write {V} (checks cplx : bool) (tmp : Z) (a : view) (old : option (dataset V)) (m : mem V) : forward_view a -> disjoint (c_array tmp (im_len (v_lay a))) a ->
  exists d, h5_write checks cplx tmp a None old m = Some d /\ ds_len d = im_len (v_lay a) /\ ds_cplx d = cplx /\
    forall idx, in_view a idx -> ds_val d idx = m (cell a idx).
Proof.
  intros Fa D. assert (HR : (0 < rank (v_lay a) < 16)%nat) by (destruct Fa as (n & off & Hv); apply (view_wf _ _ _ _ Hv)).
  destruct (write_copy checks tmp a m Fa HR D) as (w & m1 & P & Hm1 & E). rewrite E.
  destruct (write_direct_all cplx w _ old m1 P) as (d & Ed & L & C & Hv). exists d. split; [exact Ed|]. split; [exact L|]. split; [exact C|]. intros idx Hi. rewrite Hv by exact Hi. now apply Hm1.
Qed.
(** Written and read back: the same shape and elements, in an array or view of any layout, also as complex numbers. *)
Theorem C56_round_trip {V} (checks cplx cplx' : bool) (tmpw tmp tmp' : Z) (a : view) (old : option (dataset V)) (t : target) (m mr : mem V) :
  forward_view a -> good_lengths (im_len (v_lay a)) -> disjoint (c_array tmpw (im_len (v_lay a))) a -> cplx' = cplx \/ (cplx = false /\ cplx' = true) ->
  h5_target t (im_len (v_lay a)) -> temporaries_apart tmp tmp' t (im_len (v_lay a)) ->
  exists d m' tv, h5_write checks cplx tmpw a None old m = Some d /\ h5_read checks cplx' tmp tmp' d None t mr = Some (m', tv) /\
    im_len (v_lay tv) = im_len (v_lay a) /\ (forall idx, in_view a idx -> m' (cell tv idx) = m (cell a idx)) /\
    unchanged_but tv [c_array tmp (im_len (v_lay a)); c_array tmp' (im_len (v_lay a))] mr m'.
Proof.
  intros Fa G D K T [D1 D2]. destruct (C56_write checks cplx tmpw a old m Fa D) as (d & Ed & L & C & Hv).
  assert (Ct : content d None (im_len (v_lay a)) (ds_val d)) by (split; auto).
  assert (Kd : kinds cplx' (ds_cplx d) None). { rewrite C. destruct K as [K | [K1 K2]]; [left; auto|right; auto]. }
  assert (G' : good_lengths (ds_len d)) by now rewrite L.
  destruct (h5_read_spec checks cplx' tmp tmp' d None t mr _ _ G' Ct Kd T D1 D2) as (m' & tv & E & _ & Lt & Hh & Hu).
  exists d, m', tv. split; [exact Ed|]. split; [exact E|]. split; [exact Lt|]. split; [|exact Hu]. intros idx Hi. rewrite Hh; [now apply Hv|]. unfold in_view, valid_idx in *. now rewrite Lt.
Qed.
(** A data set of another shape is never read into a view. *)
Theorem C56_view_mismatch {V} (checks : bool) (tmp tmp' : Z) (d : dataset V) (v : view) (m : mem V) :
  is_stride_order_C (v_lay v) = true -> is_contiguous (v_lay v) = true -> im_len (v_lay v) <> ds_len d -> h5_read checks (ds_cplx d) tmp tmp' d None (TView v) m = None.
Proof.
  intros H1 H2 N. unfold h5_read, read_scalar, read_direct. cbn [tgt_view]. rewrite H1, H2. cbn [andb].
  assert (ds_cplx d && negb (ds_cplx d) = false) as -> by now destruct (ds_cplx d). assert (negb (ds_cplx d) && ds_cplx d = false) as -> by now destruct (ds_cplx d).
  destruct (Nat.eqb_spec (length (lt_lengths d) - (if ds_cplx d then 1 else 0)) (length (im_len (v_lay v)))) as [E|]; [|reflexivity].
  assert (El : length (im_len (v_lay v)) = length (ds_len d)) by (rewrite <- E; unfold lt_lengths; rewrite app_length; destruct (ds_cplx d); cbn [length]; lia).
  assert (firstn (length (im_len (v_lay v))) (lt_lengths d) = ds_len d) as ->. { unfold lt_lengths. rewrite firstn_app, El, Nat.sub_diag, firstn_all. cbn [firstn]. apply app_nil_r. }
  unfold resize_or_check. cbn [tgt_view]. destruct (list_eq_dec _ _ _); [contradiction|reflexivity].
Qed.
(** Element types unknown to HDF5: every element under its own name, and back. *)
Theorem C56_names (shape i j : list Z) : in_range i shape -> in_range j shape -> make_name i = make_name j -> i = j.
Proof. intros Hi Hj. apply make_name_inj; eauto using in_range_nonneg. apply in_range_length in Hi, Hj. congruence. Qed.
(** ... the decimal indices joined by underscores *)
Theorem C56_names_text (idx : list Z) : Forall (fun i => 0 <= i) idx ->
  make_name idx = String.concat "_"%string (map to_string idx) /\
  Forall (fun i => exists u, DecimalString.NilZero.uint_of_string (to_string i) = Some u /\ Z.of_N (N.of_uint u) = i) idx.
Proof.
  intros H. split.
  - clear H. induction idx as [|i [|j idx] IH]; [reflexivity|reflexivity|]. change (make_name (i :: j :: idx)) with (String.append (to_string i) (String.String underscore (make_name (j :: idx)))).
    rewrite IH. reflexivity.
  - eapply Forall_impl; [|exact H]. intros i Hi. exists (N.to_uint (Z.to_N i)). unfold to_string. split.
    + apply DecimalString.NilZero.usu. intros E. pose proof (DecimalN.Unsigned.of_to (Z.to_N i)) as O. rewrite E in O.
      assert (Z.to_N i = 0%N) as Z0 by (rewrite <- O; reflexivity). rewrite Z0 in E. discriminate E.
    + rewrite DecimalN.Unsigned.of_to. now rewrite Z2N.id.
Qed.
Print Assumptions C56_names_text.
Example C56_names_text_ex : make_name [10; 0; 2] = "10_0_2"%string.
Proof. reflexivity. Qed.
Theorem C56_generic {V} (shape : list Z) (a : list Z -> V) : exists l, read_generic (write_generic shape a) = Some (shape, l) /\
  (forall idx v, In (idx, v) l <-> in_range idx shape /\ v = a idx) /\ NoDup (map fst l).
Proof.
  unfold write_generic, read_generic. rewrite for_each_fold.
  destruct (generic_write shape a (all_idx shape) (Group (Some shape) (fun _ => None))) as [G1 G2]; [intros j; apply all_idx_In|].
  set (g := fold_left _ _ _) in *. rewrite G1. cbn [g_shape]. rewrite for_each_fold.
  rewrite (generic_read g a (all_idx shape)) by (intros j Hj; apply G2; [now apply all_idx_In|now left]). cbn [option_map app]. eexists. split; [reflexivity|]. split.
  - intros idx v. rewrite in_map_iff. split.
    + intros (j & E & Hj). injection E as <- <-. split; auto. now apply all_idx_In.
    + intros [Hi ->]. exists idx. split; auto. now apply all_idx_In.
  - rewrite map_map. cbn [fst]. rewrite map_id. apply all_idx_NoDup.
Qed.
(** With a negative stride is_contiguous() may be true of a layout that is not contiguous, and the elements from data() on are
    written: here every second column of the two rows in reversed order. *)
Theorem C56_negative_stride_refuted : exists (a : view) (m : mem Z) d,
  (exists o, slice (v_lay (c_array 10 [2; 4])) [ARange (Range 1 (-1) (-1)); ARange (Range 0 4 2)] = Some (o, v_lay a) /\ v_base a = 10 + o) /\
  h5_write true false 100 a None None m = Some d /\ ds_len d = im_len (v_lay a) /\ in_view a [1; 0] /\ m (cell a [1; 0]) = 10 /\ ds_val d [1; 0] = 16.
Proof.
  exists (View (IdxMap [2; 2] [-4; 2] [0; 1]%nat [0; 0] LP_none) 14), (fun x => x). eexists. split; [eexists; split; reflexivity|]. split; [reflexivity|]. split; [reflexivity|].
  split; [repeat constructor; lia|split; reflexivity].
Qed.

(** ** the hypotheses are met *)
Definition ex_args : list arg := [ALong 1; AEll; ARange (Range 0 4 2)].
Definition ex_data (cplx : bool) : dataset Z := DS [2; 3; 4] cplx (fun idx => radix [2; 3; 4] idx).
Example C38_example : exists o lay, slice (v_lay (c_array 0 [2; 3; 4])) ex_args = Some (o, lay) /\ im_len lay = [3; 2] /\ o = 12 /\
  good_lengths [2; 3; 4] /\ args_in_bounds (expand_args 3 ex_args) [2; 3; 4] /\ forward_ranges ex_args /\ longs ex_args /\ some_dim_left 3 ex_args /\
  h5_target (TArray (new_array [1; 0]%nat 100 [1; 1]) 200) [3; 2] /\
  ex_values (h5_read true true 300 400 (ex_data true) (Some ex_args) (TArray (new_array [1; 0]%nat 100 [1; 1]) 200) (fun _ => 0)) = Some ([3; 2], [12; 14; 16; 18; 20; 22]) /\
  h5_read true true 300 400 (ex_data true) (Some [ALong 2; AEll; ARange (Range 0 4 2)]) (TArray (new_array [1; 0]%nat 100 [1; 1]) 200) (fun _ => 0) = None.
Proof.
  do 2 eexists. split; [reflexivity|]. split; [reflexivity|]. split; [reflexivity|]. split; [split; [repeat constructor; lia|cbn; lia]|].
  split. { constructor; [cbn; lia|]. constructor; [exact I|]. constructor; [|constructor]. intros x Hx; apply in_range_arg_spec in Hx; try discriminate; change (get_l (ARange (Range 0 4 2)) 4) with 2 in Hx; cbn [r_first r_step]; lia. }
  split. { intros r [E|[E|[E|[]]]]; try discriminate. injection E as <-. cbn. lia. }
  split. { repeat constructor; unfold is_long_number; cbn; lia. }
  split. { exists AAll. split; [right; left; reflexivity|reflexivity]. }
  split. { exists [1; 0]%nat, [1; 1]. split; [|reflexivity]. apply new_plain; [apply perm_check_ok; reflexivity|repeat constructor; lia|cbn; lia]. }
  split; vm_compute; reflexivity.
Qed.
Example C56_example : forward_view (c_array 0 [2; 3]) /\ good_lengths (im_len (v_lay (c_array 0 [2; 3]))) /\ disjoint (c_array 50 [2; 3]) (c_array 0 [2; 3]) /\
  temporaries_apart 300 400 (TArray (new_array [1; 0]%nat 100 [1; 1]) 200) [2; 3] /\ make_name [10; 2] = String.append (to_string 10) (String.String underscore (to_string 2)).
Proof.
  assert (Pl : forall b, plain (c_array b [2; 3]) (identity 2) [2; 3]) by (intros b; apply (new_plain (identity 2) b [2; 3]); [apply is_perm_identity|repeat constructor; lia|cbn; lia]).
  assert (Pf : plain (new_array [1; 0]%nat 200 [2; 3]) [1; 0]%nat [2; 3]) by (apply new_plain; [apply perm_check_ok; reflexivity|repeat constructor; lia|cbn; lia]).
  split; [apply (Pl 0)|]. split; [split; [repeat constructor; lia|cbn; lia]|]. split; [|split; [|reflexivity]].
  - intros x Hx Hy. apply (plain_cells _ _ _ _ (Pl 50)) in Hx. apply (plain_cells _ _ _ _ (Pl 0)) in Hy. cbn in Hx, Hy. lia.
  - split.
    + intros tv E. vm_compute in E. injection E as <-. split; intros x Hx Hy; apply (plain_cells _ _ _ _ Pf) in Hx; apply (plain_cells _ _ _ _ (Pl _)) in Hy; cbn in Hx, Hy; lia.
    + intros x Hx Hy. apply (plain_cells _ _ _ _ (Pl 300)) in Hx. apply (plain_cells _ _ _ _ (Pl 400)) in Hy. cbn in Hx, Hy. lia.
Qed.

Print Assumptions C38_read.
Print Assumptions C38_exact.
Print Assumptions C38_write.
Print Assumptions C38_minus_one_refuted.
Print Assumptions C38_negative_step_refuted.
Print Assumptions C38_real_to_complex_refuted.
Print Assumptions C39_strings.
Print Assumptions C39_embedded_nul_refuted.
Print Assumptions C56_write.
Print Assumptions C56_round_trip.
Print Assumptions C56_view_mismatch.
Print Assumptions C56_names.
Print Assumptions C56_generic.
Print Assumptions C56_negative_stride_refuted.
