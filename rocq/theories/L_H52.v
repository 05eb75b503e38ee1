(** Lemmas about reading and writing. *)
From Verif Require Import Base M_Perm M_IdxMap M_Slice M_Loops M_Assign M_Expr M_Transform M_Mpi M_H5 S_Layout S_Assign S_Mpi S_H5 L_Perm L_IdxMap L_Slice L_Layout L_Loops L_Assign L_Transform L_SymGrp L_Mpi L_H5.

Lemma put_spec {V} (vals : list V) : forall base (m : mem V) a,
  put base vals m a = if (base <=? a) && (a <? base + Z.of_nat (length vals)) then nth (Z.to_nat (a - base)) vals (m a) else m a.
Proof.
  induction vals as [|v vals IH]; intros base m a; cbn [put length].
  - destruct (Z.leb_spec base a), (Z.ltb_spec a (base + Z.of_nat 0)); cbn [andb]; auto. lia.
  - rewrite IH. destruct (Z.eq_dec a base) as [->|N].
    + destruct (Z.leb_spec (base + 1) base); [lia|]. cbn [andb]. rewrite mset_eq, Z.leb_refl. destruct (Z.ltb_spec base (base + Z.of_nat (S (length vals)))); [|lia]. cbn [andb]. rewrite Z.sub_diag. reflexivity.
    + rewrite mset_neq by auto. destruct (Z.leb_spec (base + 1) a), (Z.leb_spec base a), (Z.ltb_spec a (base + 1 + Z.of_nat (length vals))), (Z.ltb_spec a (base + Z.of_nat (S (length vals)))); cbn [andb]; auto; try lia.
      replace (Z.to_nat (a - base)) with (S (Z.to_nat (a - (base + 1)))) by lia. reflexivity.
Qed.
Lemma nth_all_idx shape j : Forall (fun l => 0 <= l) shape -> in_range j shape -> forall d, nth (Z.to_nat (radix shape j)) (all_idx shape) d = j.
Proof.
  intros Hs Hj d. pose proof (radix_bound _ _ Hj) as B. rewrite all_idx_digits by auto.
  rewrite (nth_map_lt (digits shape) (zseq (prodZ shape)) _ d 0) by (rewrite zseq_length; lia).
  rewrite <- (digits_radix shape j Hj) at 2. f_equal. unfold zseq. rewrite (nth_map_lt Z.of_nat _ _ _ 0%nat) by (rewrite seq_length; lia).
  rewrite seq_nth by lia. lia.
Qed.
Definition c_plain (v : view) (shape : list Z) : Prop := plain v (identity (length shape)) shape.
Lemma c_plain_cell v shape j : c_plain v shape -> in_range j shape -> cell v j = v_base v + radix shape j.
Proof.
  intros P Hj. rewrite (plain_cell _ _ _ _ P Hj). unfold seq_number. rewrite !in_order_id'; auto. now apply in_range_length in Hj.
Qed.
Lemma c_array_plain b shape : Forall (fun l => 0 <= l) shape -> (0 < length shape < 16)%nat -> c_plain (c_array b shape) shape.
Proof. intros Hs HR. apply new_plain; auto. apply is_perm_identity. Qed.
Lemma put_all {V} v shape (f : list Z -> V) (m : mem V) : c_plain v shape ->
  holds v (put (v_base v) (map f (all_idx shape)) m) f /\ unchanged_outside v m (put (v_base v) (map f (all_idx shape)) m).
Proof.
  intros P. destruct (plain_shape _ _ _ P) as (Hs & Ho & HR). assert (L : Z.of_nat (length (map f (all_idx shape))) = prodZ shape) by (rewrite map_length; now apply all_idx_length). split.
  - intros j Hj. assert (Hr : in_range j shape). { unfold in_view, valid_idx in Hj. destruct P as (_ & E & _). now rewrite E in Hj. }
    rewrite (c_plain_cell _ _ _ P Hr), put_spec, L. pose proof (radix_bound _ _ Hr) as B.
    assert ((v_base v <=? v_base v + radix shape j) && (v_base v + radix shape j <? v_base v + prodZ shape) = true) as ->. { apply andb_true_iff. rewrite Z.leb_le, Z.ltb_lt. lia. }
    replace (v_base v + radix shape j - v_base v) with (radix shape j) by ring.
    rewrite (nth_map_lt f _ _ _ j) by (rewrite map_length in L; lia). now rewrite nth_all_idx.
  - intros a Ha. rewrite (plain_cells _ _ _ _ P) in Ha. rewrite put_spec, L. destruct (Z.leb_spec (v_base v) a), (Z.ltb_spec a (v_base v + prodZ shape)); cbn [andb]; auto. exfalso. lia.
Qed.

(** what a (slice of a) data set contains *)
Definition content {V} (d : dataset V) (sl : option (list arg)) (shape : list Z) (f : list Z -> V) : Prop :=
  match sl with
  | None => shape = ds_len d /\ f = ds_val d
  | Some args => let ex := expand_args (length (ds_len d)) args in
      args_ok (length (ds_len d)) args /\ forward_ranges args /\ longs args /\ args_in_bounds ex (ds_len d) /\ some_dim_left (length (ds_len d)) args /\
      shape = slice_len ex (ds_len d) /\ f = fun j => ds_val d (parent_idx ex j)
  end.
Lemma content_shape {V} (d : dataset V) sl shape f : good_lengths (ds_len d) -> content d sl shape f -> Forall (fun l => 0 <= l) shape /\ (0 < length shape < 16)%nat.
Proof.
  intros [G1 G2] H. assert (G0 : Forall (fun l => 0 <= l) (ds_len d)) by (eapply Forall_impl; [|exact G1]; cbv beta; lia). destruct sl as [args|].
  - destruct H as (Hok & Hf & Hl & Hb & Hd & -> & _). set (ar := c_array 0 (ds_len d)).
    assert (W : wf (v_lay ar)) by (eapply plain_wf; apply (c_array_plain 0 (ds_len d)); auto).
    pose proof (slice_some (v_lay ar) args Hok) as E. destruct (slice_impl (v_lay ar) args) as [o m'] eqn:E1.
    pose proof (slice_wf _ _ _ _ W E Hd) as (A & B & C & D & F). rewrite (slice_impl_expand _ _ W Hok) in E1. injection E1 as <- <-. cbn [im_len] in *. auto.
  - destruct H as [-> _]. auto.
Qed.
Lemma read_direct_spec {V} cplx (d : dataset V) sl t m shape f tv : good_lengths (ds_len d) -> content d sl shape f -> ds_cplx d = cplx ->
  length (im_len (v_lay (tgt_view t))) = length shape -> resize_or_check t shape = Some tv -> c_plain tv shape ->
  exists m', read_direct cplx d sl t m = Some (m', tv) /\ holds tv m' f /\ unchanged_outside tv m m'.
Proof.
  intros G H Hc HR Ht P. unfold read_direct. rewrite HR. destruct sl as [args|].
  - destruct H as (Hok & Hf & Hl & Hb & Hd & -> & ->). pose proof (expand_args_length _ _ Hok) as Lex.
    destruct (sel_slab d args G Hok Hf Hl) as (h & E & _). rewrite slice_len_length by auto. rewrite <- Hc, E. cbn [option_map fst snd]. rewrite Ht.
    destruct (sel_spec d args G Hok Hf Hl h E) as [_ S]. cbn [file_read]. rewrite (S Hb). cbn [option_map]. rewrite map_map. eexists. split; [reflexivity|].
    apply (put_all tv _ (fun j => ds_val d (parent_idx (expand_args (length (ds_len d)) args) j)) m P).
  - destruct H as [-> ->]. assert (E : (length (lt_lengths d) - (if cplx then 1 else 0) = length (ds_len d))%nat).
    { unfold lt_lengths. rewrite Hc, app_length. destruct cplx; cbn [length]; lia. }
    rewrite E, Nat.eqb_refl. assert (firstn (length (ds_len d)) (lt_lengths d) = ds_len d) as ->.
    { unfold lt_lengths. rewrite firstn_app, Nat.sub_diag, firstn_all. cbn [firstn]. apply app_nil_r. }
    rewrite Ht. cbn [file_read]. rewrite c_order_all. eexists. split; [reflexivity|]. now apply put_all.
Qed.
Lemma resize_tmp tmp old shape : length old = length shape -> resize_or_check (TArray (c_array tmp old) tmp) shape = Some (c_array tmp shape).
Proof.
  intros L. unfold resize_or_check. cbn [tgt_view]. change (im_len (v_lay (c_array tmp old))) with old. destruct (list_eq_dec _ _ _) as [E|N].
  - now subst.
  - unfold resized. change (im_so (v_lay (c_array tmp old))) with (identity (length old)). change (v_base (c_array tmp old)) with tmp. rewrite L. unfold c_array. now destruct (_ =? _).
Qed.
Lemma read_tmp {V} cplx (d : dataset V) sl tmp m shape f : good_lengths (ds_len d) -> content d sl shape f -> ds_cplx d = cplx ->
  exists m', read_direct cplx d sl (TArray (c_array tmp (repeat 0 (length shape))) tmp) m = Some (m', c_array tmp shape) /\ holds (c_array tmp shape) m' f /\ unchanged_outside (c_array tmp shape) m m'.
Proof.
  intros G H Hc. destruct (content_shape _ _ _ _ G H) as [Hs HR].
  apply (read_direct_spec cplx d sl (TArray (c_array tmp (repeat 0 (length shape))) tmp) m shape f); auto.
  - cbn [tgt_view c_array new_array v_lay idx_map_of_shape im_len]. apply repeat_length.
  - apply resize_tmp. apply repeat_length.
  - now apply c_array_plain.
Qed.
Lemma resize_same {V} t shape tv (m : mem V) : resize_or_check t shape = Some tv -> (match t with TArray _ _ => resize_or_check t shape | TView v => Some v end) = Some tv.
Proof. intros H. destruct t; auto. unfold resize_or_check in H. destruct (list_eq_dec _ _ _); [auto|discriminate]. Qed.
Lemma plain_usable v so shape : plain v so shape -> usable (v_lay v).
Proof. intros ((n & off & Hv) & _). eapply view_usable; eauto. Qed.
Lemma copy_to {V} checks tv w shape f (m0 m : mem V) : usable (v_lay tv) -> im_len (v_lay tv) = shape -> usable (v_lay w) -> im_len (v_lay w) = shape -> disjoint tv w ->
  holds w m f -> unchanged_outside w m0 m ->
  exists m', assign_from_ndarray checks true tv (im_len (v_lay w)) (RMem w) m = Some m' /\ holds tv m' f /\ unchanged_but tv [w] m0 m'.
Proof.
  intros U Lt Uw Lw D H H0. assert (A : rhs_apart tv (@RMem V w)) by (split; [apply Uw|split; [congruence|exact D]]). destruct (apart_parts tv (RMem w) A) as [A1 A2].
  rewrite Lw, <- Lt. destruct (assign_host_value checks tv (RMem w) m U A1 A2) as (m' & E & Hh & Hu). exists m'. split; [exact E|]. split.
  - intros j Hj. rewrite (Hh j Hj). cbn [rhs_value]. apply H. unfold in_view, valid_idx in *. congruence.
  - intros a Ha Hb. rewrite (Hu a Ha). apply H0. apply Hb. now left.
Qed.
Definition kinds (cplx : bool) (d : bool) (sl : option (list arg)) : Prop := d = cplx \/ (cplx = true /\ d = false /\ sl = None).
Lemma read_scalar_spec {V} checks cplx tmp (d : dataset V) sl t m shape f tv : good_lengths (ds_len d) -> content d sl shape f -> kinds cplx (ds_cplx d) sl ->
  length (im_len (v_lay (tgt_view t))) = length shape -> resize_or_check t shape = Some tv -> c_plain tv shape -> disjoint tv (c_array tmp shape) ->
  exists m', read_scalar checks cplx tmp d sl t m = Some (m', tv) /\ holds tv m' f /\ unchanged_but tv [c_array tmp shape] m m'.
Proof.
  intros G H K HR Ht P D. unfold read_scalar. destruct K as [K|(-> & K & ->)].
  - rewrite K. assert (cplx && negb cplx = false) as -> by now destruct cplx. assert (negb cplx && cplx = false) as -> by now destruct cplx.
    destruct (read_direct_spec cplx d sl t m shape f tv G H K HR Ht P) as (m' & E & Hh & Hu). exists m'. split; [exact E|]. split; [exact Hh|]. intros a Ha _. now apply Hu.
  - rewrite K. cbn [andb negb]. rewrite HR. destruct (content_shape _ _ _ _ G H) as [Hs HRs].
    destruct (read_tmp false d None tmp m shape f G H K) as (m1 & -> & Hh & Hu).
    change (im_len (v_lay (c_array tmp shape))) with shape at 1. rewrite (resize_same t shape tv m Ht).
    pose proof (c_array_plain tmp shape Hs HRs) as Pw.
    destruct (copy_to checks tv (c_array tmp shape) shape f m m1) as (m' & E & Hh' & Hu'); auto; [eapply plain_usable; exact P|apply P|eapply plain_usable; exact Pw|].
    rewrite E. exists m'. auto.
Qed.
Lemma h5_read_spec {V} checks cplx tmp tmp' (d : dataset V) sl t m shape f : good_lengths (ds_len d) -> content d sl shape f -> kinds cplx (ds_cplx d) sl ->
  h5_target t shape ->
  (forall tv, resize_or_check t shape = Some tv -> disjoint tv (c_array tmp shape) /\ disjoint tv (c_array tmp' shape)) -> disjoint (c_array tmp shape) (c_array tmp' shape) ->
  exists m' tv, h5_read checks cplx tmp tmp' d sl t m = Some (m', tv) /\ resize_or_check t shape = Some tv /\ im_len (v_lay tv) = shape /\ holds tv m' f /\
    unchanged_but tv [c_array tmp shape; c_array tmp' shape] m m'.
Proof.
  intros G H K T D D'. destruct (content_shape _ _ _ _ G H) as [Hs HR]. unfold h5_read.
  assert (R : exists tv so, resize_or_check t shape = Some tv /\ im_len (v_lay tv) = shape /\ usable (v_lay tv) /\ length (im_len (v_lay (tgt_view t))) = length shape /\ im_so (v_lay (tgt_view t)) = so /\
     (so = identity (length shape) -> is_contiguous (v_lay (tgt_view t)) = true -> c_plain tv shape) /\ match t with TArray _ _ => True | TView _ => so = identity (length shape) end).
  { destruct t as [v nb|v]; cbn [h5_target] in T.
    - destruct T as (so & old & Pv & Lo). assert (F : fit_target (TArray v nb) so shape) by (exists old; exact Pv).
      destruct (plain_shape _ _ _ Pv) as (_ & Ho & _). destruct (resize_plain _ _ _ F) as (tv & E & P). { exists (new_array so 0 shape). apply new_plain; auto. now rewrite <- Lo. }
      exists tv, so. split; [exact E|]. split; [apply P|]. split; [eapply plain_usable; eauto|]. cbn [tgt_view]. pose proof Pv as (_ & Ll & Ls & _). split; [now rewrite Ll|]. split; [exact Ls|].
      split; [|exact I]. intros -> _. exact P.
    - destruct T as ((n & off & Hv) & Hso & Hle). exists v, (im_so (v_lay v)). cbn [tgt_view]. split; [unfold resize_or_check; cbn [tgt_view]; destruct (list_eq_dec _ _ _); [reflexivity|contradiction]|].
      split; [exact Hle|]. split; [eapply view_usable; eauto|]. split; [now rewrite Hle|]. split; [reflexivity|]. split; [|exact Hso]. intros _ Hc. split; [eauto|]. split; [exact Hle|]. split; [exact Hso|exact Hc]. }
  destruct R as (tv & so & Et & Lt & U & Lr & Es & Hp & Hv). destruct (D tv Et) as [D1 D2].
  assert (Ec : is_stride_order_C (v_lay (tgt_view t)) = true -> so = identity (length shape)).
  { unfold is_stride_order_C. destruct (list_eq_dec _ _ _) as [E|N]; [|discriminate]. intros _. rewrite <- Es, E. unfold rank. now rewrite Lr. }
  destruct (is_stride_order_C (v_lay (tgt_view t)) && is_contiguous (v_lay (tgt_view t))) eqn:B.
  - apply andb_true_iff in B. destruct B as [B1 B2]. specialize (Hp (Ec B1) B2).
    destruct (read_scalar_spec checks cplx tmp' d sl t m shape f tv G H K Lr Et Hp D2) as (m' & E & Hh & Hu). exists m', tv. split; [exact E|]. split; [exact Et|]. split; [exact Lt|]. split; [exact Hh|].
    intros a Ha Hb. apply Hu; auto. intros w [<-|[]]. apply Hb. right. now left.
  - assert (negb (is_stride_order_C (v_lay (tgt_view t))) && match t with TView _ => true | TArray _ _ => false end = false) as ->.
    { destruct t as [v nb|v]; [apply andb_false_r|]. assert (is_stride_order_C (v_lay (tgt_view (TView v))) = true) as ->; [|reflexivity].
      unfold is_stride_order_C. destruct (list_eq_dec _ _ _) as [|N]; [reflexivity|]. exfalso. apply N. rewrite Es, Hv. unfold rank. now rewrite Lr. }
    unfold rank. rewrite Lr. pose proof (c_array_plain tmp shape Hs HR) as Pw.
    destruct (read_scalar_spec checks cplx tmp' d sl (TArray (c_array tmp (repeat 0 (length shape))) tmp) m shape f (c_array tmp shape)) as (m1 & -> & Hh & Hu); auto.
    + cbn [tgt_view c_array new_array v_lay idx_map_of_shape im_len]. apply repeat_length.
    + apply resize_tmp. apply repeat_length.
    + change (im_len (v_lay (c_array tmp shape))) with shape at 1. rewrite (resize_same t shape tv m Et).
      destruct (copy_to checks tv (c_array tmp shape) shape f m1 m1) as (m' & E & Hh' & Hu'); auto; [eapply plain_usable; exact Pw|intros a _; reflexivity|].
      rewrite E. exists m', tv. split; [reflexivity|]. split; [exact Et|]. split; [exact Lt|]. split; [exact Hh'|]. intros a Ha Hb.
      rewrite Hu'; auto; [|intros w [<-|[]]; apply Hb; now left]. apply Hu; [apply Hb; now left|]. intros w [<-|[]]. apply Hb. right. now left.
Qed.
