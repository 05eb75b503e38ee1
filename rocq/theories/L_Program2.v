(** Lemmas: every legal statement preserves the relation between meaning and machine. *)
From Verif Require Import Base M_Perm L_Perm M_IdxMap M_Slice M_Loops M_Assign M_Expr M_Transform M_Blas M_Program S_Layout S_Loops S_Assign S_Expr S_Blas S_Program
  L_IdxMap L_Slice L_Layout L_Loops L_Assign L_Expr L_Transform P_Slice P_Layout P_Assign P_Expr P_Transform L_H53 L_Blas L_Blas2 L_Blas3 L_Blas4 L_Blas6 M_Info L_Program L_Program1.

(** ** construction *)
Lemma construct_spec {V} checks trivial so base shape (r : rhs V) m : is_order (length shape) so -> possible_shape shape ->
  (forall src, r = RMem src -> truthful (v_lay src) /\ im_len (v_lay src) = shape) ->
  (forall i m1 m2, in_range i shape -> (forall a, ~ base <= a < base + prodZ shape -> m1 a = m2 a) -> rhs_value r m1 i = rhs_value r m2 i) ->
  exists m', array_of_ndarray checks trivial so base shape r m = (new_array so base shape, Some m') /\
    holds (new_array so base shape) m' (rhs_value r m) /\ unchanged_outside (new_array so base shape) m m'.
Proof.
  intros Ho [Hs Hr] Hm Hl. pose proof (new_array_usable so base shape Ho Hs Hr) as U. set (a := new_array so base shape) in *.
  assert (Hown : reads_own_element a (rhs_value r)).
  { intros i m1 m2 Hi Hc. apply Hl; [exact Hi|]. intros x Hx. apply Hc. right. intros C. apply Hx. now apply new_array_cells in C. }
  unfold array_of_ndarray. fold a. destruct trivial.
  - destruct (assign_host_value checks a r m U Hm Hown) as (m' & E & Hh & Hu). exists m'. change (im_len (v_lay a)) with shape in E. rewrite E. auto.
  - eexists. split; [reflexivity|]. change (for_each _ _ m) with (assign_elementwise a r m).
    destruct (assign_elementwise_spec a r m U) as [Hh Hu]; [apply reads_own_at; auto|]. split; [|exact Hu]. eapply holds_ext; [|exact Hh].
    intros i Hi. symmetry. symmetry. now apply (rhs_value_at a).
Qed.

Lemma faster_skipn d so v : NoDup so -> (v < length so)%nat -> nth v so 0%nat = d -> faster d so = skipn (S v) so.
Proof.
  revert v. induction so as [|x so IH]; intros v Hn Hv E; [cbn in Hv; lia|]. cbn [faster]. inversion Hn as [|? ? N1 N2]; subst. destruct v as [|v]; cbn [nth] in *.
  - rewrite Nat.eqb_refl. reflexivity.
  - destruct (Nat.eqb_spec x (nth v so 0%nat)) as [->|N]; [exfalso; apply N1; apply nth_In; cbn [length] in Hv; lia|]. rewrite (IH v); auto. cbn [length] in Hv. lia.
Qed.
Lemma new_gaps_strides so shape junk : is_order (length shape) so -> length junk = length shape -> compute_strides_contiguous so shape junk = new_gaps so shape.
Proof.
  intros Ho Lj. unfold compute_strides_contiguous. destruct (compute_strides_loop (length shape) so shape junk 0 (length shape) Ho eq_refl Lj eq_refl) as (Hl & _ & Hv).
  set (st := fold_left _ _ _) in *. pose proof (is_perm_length _ _ Ho) as Ls. apply nth_ext with (d := 0) (d' := 0).
  - rewrite Hl. unfold new_gaps. now rewrite map_length, seq_length.
  - intros d Hd. rewrite Hl in Hd. assert (I : In d so) by (apply (is_perm_In _ so d Ho); exact Hd). destruct (In_nth so d 0%nat I) as (v & Lv & Ev).
    unfold new_gaps. set (g := fun d => prodZ (map (nthZ shape) (faster d so))). rewrite (nth_indep (map g _) 0 (g 0%nat)) by (rewrite map_length, seq_length; lia).
    rewrite (map_nth g), seq_nth, Nat.add_0_l by lia. subst g. cbv beta. rewrite (faster_skipn d so v) by (auto; now apply (is_perm_NoDup (length shape))).
    specialize (Hv v ltac:(lia)). unfold nthN in Hv. rewrite Ev in Hv. unfold nthZ in Hv at 1. rewrite Hv. f_equal. rewrite <- skipn_map. f_equal.
    unfold apply. rewrite <- (map_seq_nth so 0%nat) at 2. rewrite map_map. reflexivity.
Qed.
Lemma rel_add {V} (A : arith V) (s : astate V) w alg so shape f base m temps : rel s w -> is_order (length shape) so -> possible_shape shape ->
  (forall b a, In b (cw_blocks w) -> cb_alive b = true -> in_block b a -> ~ base <= a < base + prodZ shape) ->
  holds (new_array so base shape) m f -> (forall b a, In b (cw_blocks w) -> cb_alive b = true -> in_block b a -> m a = cw_mem w a) ->
  rel (add_array s alg so shape f)
      (CWorld m (cw_blocks w ++ [CBlock (v_lay (new_array so base shape)) base true]) temps (cw_vars w ++ [(alg, new_array so base shape)])).
Proof.
  intros R Ho Hps Hd Hh Hu. pose proof Hps as [Hs Hr]. set (a := new_array so base shape) in *.
  assert (Bl : forall x, in_block (CBlock (v_lay a) base true) x <-> base <= x < base + prodZ shape) by (intros x; reflexivity).
  split; unfold add_array; cbn [as_arr as_var cw_mem cw_blocks cw_vars].
  - rewrite !app_length. now rewrite (rel_len _ _ R).
  - rewrite !app_length. now rewrite (rel_vlen _ _ R).
  - intros k c b. rewrite !nth_error_last. rewrite <- (rel_len _ _ R). destruct (Nat.eqb_spec k (length (as_arr s))) as [->|Hk].
    + intros H1 H2. injection H1 as <-. injection H2 as <-. split; [exact Hps|]. split; [exact Ho|]. split; [reflexivity|]. split; [reflexivity|].
      intros _ i Hi. exact (Hh i Hi).
    + intros H1 H2. destruct (rel_arr _ _ R _ _ _ H1 H2) as (O1 & O2 & O3 & O4 & O5) eqn:EO. split; [exact O1|]. split; [exact O2|]. split; [exact O3|]. split; [exact O4|].
      intros Al i Hi. rewrite (Hu b); [auto|eapply nth_error_In; eauto|now rewrite O4|].
      eapply arr_block; [exact (rel_arr _ _ R _ _ _ H1 H2)|exact Hi].
  - intros k k' b b' x. rewrite !nth_error_last. destruct (Nat.eqb_spec k (length (cw_blocks w))) as [->|Hk], (Nat.eqb_spec k' (length (cw_blocks w))) as [->|Hk'].
    + congruence.
    + intros H1 H2 _ _ Al B1 B2. injection H1 as <-. apply (Hd b' x); auto. eapply nth_error_In; eauto.
    + intros H1 H2 _ Al _ B1 B2. injection H2 as <-. apply (Hd b x); auto. eapply nth_error_In; eauto.
    + intros H1 H2 N A1 A2 B1 B2. eapply (rel_apart _ _ R k k' b b'); eauto.
  - intros x Hx. unfold var, cvar. cbn [as_var cw_vars]. rewrite !nth_last. rewrite <- (rel_vlen _ _ R). destruct (Nat.eqb_spec x (length (as_var s))) as [->|Hn].
    + split; [reflexivity|]. split; [reflexivity|]. split; [exact (new_array_usable so base shape Ho Hs Hr)|]. split; [split; [reflexivity|apply new_gaps_strides; auto using repeat_length]|].
      eexists _, _. cbn [av_arr av_shape av_at av_whole av_forward snd]. rewrite !nth_error_last, <- (rel_len _ _ R), Nat.eqb_refl. split; [reflexivity|]. split; [reflexivity|].
      split; [intros i Hi; split; [exact Hi|reflexivity]|]. split; [intros _; split; [reflexivity|split; reflexivity]|].
      exists (prodZ shape), 0. apply vo_fresh; auto using repeat_length.
    + rewrite app_length in Hx. cbn [length] in Hx. apply (var_ok_mono (as_arr s) _ (cw_blocks w) _); [|apply (rel_var _ _ R); lia].
      intros k c b H1 H2. exists c, b. assert (k < length (as_arr s))%nat by (apply nth_error_Some; congruence).
      rewrite !nth_error_last, <- (rel_len _ _ R). destruct (Nat.eqb_spec k (length (as_arr s))); [lia|]. auto.
Qed.

(** ** new views *)
Lemma rel_view {V} (s : astate V) w v c : rel s w -> var_ok (as_arr s) (cw_blocks w) v c -> rel (add_var s v) (with_vars w (cw_vars w ++ [c])).
Proof.
  intros R H. split; unfold add_var, with_vars; cbn [as_arr as_var cw_mem cw_blocks cw_vars]; try apply R.
  - rewrite !app_length. now rewrite (rel_vlen _ _ R).
  - intros x Hx. unfold var, cvar. cbn [as_var cw_vars]. rewrite !nth_last. rewrite <- (rel_vlen _ _ R). destruct (Nat.eqb_spec x (length (as_var s))) as [->|Hn]; [exact H|].
    rewrite app_length in Hx. cbn [length] in Hx. apply (rel_var _ _ R). lia.
Qed.
Lemma positions_get r l : r_step r <> 0 -> positions r l = get_l (ARange r) l.
Proof.
  intros H. unfold positions, get_l, range_size. cbn [r_first r_last r_step]. destruct (Z.ltb_spec 0 (r_step r)) as [P|P]; cbn [andb].
  - f_equal. f_equal. lia.
  - rewrite andb_false_r. destruct (Z.ltb_spec (r_step r) 0); [|lia]. f_equal. f_equal. lia.
Qed.
Lemma window_shape_slice ex shape : steps_nonzero ex -> window_shape ex shape = slice_len ex shape.
Proof.
  revert shape. induction ex as [|a ex IH]; intros [|l shape] H; [reflexivity|reflexivity|destruct a; reflexivity|].
  assert (H' : steps_nonzero ex) by (intros r Hr; apply H; now right).
  destruct a as [i|r| |]; cbn [window_shape slice_len is_range]; rewrite (IH shape H'); auto. f_equal. apply positions_get. apply H. now left.
Qed.
Lemma window_gaps_slice ex gap : window_gaps ex gap = slice_str ex gap.
Proof. revert gap. induction ex as [|a ex IH]; intros [|g gap]; [reflexivity|reflexivity|destruct a; reflexivity|]. destruct a as [i|r| |]; cbn [window_gaps slice_str is_range get_s]; now rewrite IH. Qed.
Lemma filter_position (keep : nat -> bool) R p : (p < length (filter keep (seq 0 R)))%nat -> length (filter keep (seq 0 (nth p (filter keep (seq 0 R)) 0%nat))) = p.
Proof.
  revert p. induction R as [|R IH]; intros p; [cbn; lia|]. rewrite seq_S, filter_app, Nat.add_0_l. intros H. destruct (Nat.lt_ge_cases p (length (filter keep (seq 0 R)))) as [L|L].
  - rewrite app_nth1 by auto. now apply IH.
  - rewrite app_length in H. rewrite app_nth2 by auto. cbn [filter] in *. destruct (keep R); cbn [length] in H; [|lia]. replace (p - length (filter keep (seq 0 R)))%nat with 0%nat by lia. cbn [nth]. lia.
Qed.
Lemma window_order_slice m args o m' : wf m -> slice m args = Some (o, m') -> some_dim_left (rank m) args -> im_so m' = window_order (expand_args (rank m) args) (im_so m).
Proof.
  intros W S D. destruct (slice_so_spec m args o m' W S D) as [Ho E]. cbv zeta in E. set (ex := expand_args (rank m) args) in *.
  pose proof (slice_impl_expand m args W) as X. destruct (slice_inv _ _ _ S) as [Hok E1]. rewrite <- E1 in X. specialize (X Hok). cbv zeta in X. fold ex in X.
  assert (Lr : rank m' = length (filter (kept_dim ex) (seq 0 (rank m)))).
  { injection X as _ ->. unfold rank at 1. cbn [im_len]. rewrite slice_len_length by (unfold ex; now rewrite expand_args_length). unfold n_kept, kept. unfold ex at 2. rewrite expand_args_length by auto. reflexivity. }
  assert (F : forall l, filter (kept_dim ex) l = filter (fun n => negb (is_long (nth n ex AAll))) l) by (intros l; apply filter_ext; intros n; unfold kept_dim; now destruct (nth n ex AAll)).
  unfold window_order. rewrite (F (im_so m)), <- E, map_map. rewrite <- F. rewrite <- (map_id (im_so m')) at 1. apply map_ext_in. intros p Hp. symmetry. apply filter_position. rewrite <- Lr.
  now apply (is_perm_In _ (im_so m') p Ho).
Qed.
Lemma slice_defined m args : args_ok (rank m) args -> slice m args = Some (slice_impl m args).
Proof.
  intros [[H1 H2]|[H1 H2]]; unfold slice; rewrite H1.
  - rewrite H2, Nat.eqb_refl. cbn [Nat.leb negb Nat.eqb orb]. destruct (Nat.leb_spec (rank m) (rank m + 1)); [reflexivity|lia].
  - cbn [Nat.leb negb Nat.eqb orb]. destruct (Nat.leb_spec (length args) (rank m + 1)); [reflexivity|lia].
Qed.
Lemma steps_expand N args : args_ok N args -> steps_nonzero args -> steps_nonzero (expand_args N args).
Proof. intros Hok Hs r Hr. apply Hs. eapply expand_In; eauto. discriminate. Qed.

Lemma slice_var {V} (arrs : list (aarray V)) blocks v alg c args : var_ok arrs blocks v (alg, c) ->
  let n := length (av_shape v) in let ex := expand_args n args in
  args_ok n args -> steps_nonzero args -> args_in_bounds ex (av_shape v) -> some_dim_left n args ->
  exists y, slice_view alg c args = Some y /\
    var_ok arrs blocks (AVar (match av_alg v with AlgM => if Nat.eqb (length (window_shape ex (av_shape v))) 1 then AlgV else AlgM | g => g end) (av_arr v) (window_shape ex (av_shape v))
                         (fun idx => av_at v (parent_idx ex idx)) false (av_forward v && forallb forward_step ex) (window_order ex (av_order v)) (window_gaps ex (av_gap v))) y.
Proof.
  intros (E1 & E2 & U & [Q1 Q2] & a & b & Ha & Hb & Hc & Hw & Hf) n ex Hok Hs Hib Hd. cbn [fst snd] in *. pose proof (usable_wf _ U) as W.
  assert (Rk : rank (v_lay c) = n) by (unfold rank; now rewrite E2). unfold slice_view. rewrite <- Rk in Hok.
  destruct (slice_impl (v_lay c) args) as [o lay] eqn:ES. pose proof (slice_defined _ _ Hok) as S. rewrite ES in S. rewrite S. rewrite Rk in Hok.
  pose proof (slice_impl_expand (v_lay c) args W) as X. rewrite Rk in X. specialize (X Hok). cbv zeta in X. fold ex in X. rewrite ES in X.
  assert (El : im_len lay = window_shape ex (av_shape v)). { injection X as _ ->. cbn [im_len]. rewrite E2. symmetry. apply window_shape_slice. now apply steps_expand. }
  assert (Hd' : some_dim_left (rank (v_lay c)) args) by now rewrite Rk.
  assert (W' : wf lay) by (eapply slice_wf; eauto). assert (F' : flags_true lay) by exact (slice_flags _ _ _ _ W S Hd' (usable_flags _ U)).
  assert (Hp : forall i, valid_idx lay i -> in_range (parent_idx ex i) (av_shape v) /\ o + addr lay i = addr (v_lay c) (parent_idx ex i)).
  { intros i Hi. split.
    - apply parent_idx_valid; auto; [now apply expand_no_ell|]. pose proof (proj1 (slice_valid _ _ _ _ i W S Hs) Hi) as P. rewrite Rk, E2 in P. exact P.
    - pose proof (slice_addr _ _ _ _ i W S) as P. rewrite Rk in P. apply P. now apply in_range_length in Hi. }
  eexists. split; [reflexivity|]. split; [|split; [|split; [|split]]].
  - cbn [fst av_alg]. rewrite E1. unfold rank. rewrite El. destruct (av_alg v); reflexivity.
  - exact El.
  - split; [split; assumption|]. cbn [snd v_lay]. intros i j Hi Hj E. destruct (Hp i Hi) as [Ri Ai], (Hp j Hj) as [Rj Aj].
    assert (Ep : parent_idx ex i = parent_idx ex j). { apply (usable_inj (v_lay c) _ _ U); [unfold valid_idx; now rewrite E2|unfold valid_idx; now rewrite E2|lia]. }
    assert (Lk : length (im_len lay) = n_kept ex). { rewrite El, window_shape_slice by (now apply steps_expand). apply slice_len_length. unfold ex. rewrite expand_args_length by auto. reflexivity. }
    eapply (parent_idx_inj ex); eauto; [now apply steps_expand|now apply expand_no_ell|rewrite <- Lk; now apply in_range_length in Hi|rewrite <- Lk; now apply in_range_length in Hj].
  - cbn [snd v_lay av_order av_gap]. split; [rewrite (window_order_slice _ _ _ _ W S Hd'), Rk, Q1; reflexivity|]. injection X as _ ->. cbn [im_str]. now rewrite window_gaps_slice, Q2.
  - exists a, b. cbn [av_arr av_shape av_at av_whole av_forward snd v_lay]. split; [exact Ha|]. split; [exact Hb|]. split; [|split; [discriminate|]].
    + intros i Hi. rewrite <- El in Hi. destruct (Hp i Hi) as [Ri Ai]. destruct (Hc _ Ri) as [R1 C1]. split; [exact R1|]. unfold cell in *. cbn [v_lay v_base]. lia.
    + destruct Hf as (n0 & off & Hv). exists n0, (off + o). eapply vo_slice; eauto; [eapply view_of_weaken; [|exact Hv]; cbv beta; intros z Hz Hff; apply andb_prop in Hff; tauto|..].
      * intros r Hr. split; [|now apply Hs]. intros Hff. apply andb_prop in Hff. destruct Hff as [F1 F2]. assert (Hin : In (ARange r) ex).
        { unfold ex, expand_args. clear -Hr. generalize (n + 1 - length args)%nat. intros k. induction args as [|x args IH]; [destruct Hr|]. destruct Hr as [->|Hr]; [now left|].
          destruct x; cbn [expand]; try (right; now apply IH). apply in_or_app. now right. }
        rewrite forallb_forall in F2. specialize (F2 _ Hin). cbn [forward_step] in F2. now apply Z.ltb_lt.
      * now rewrite Rk, E2.
Qed.

Lemma permuted_shape_transpose n p shape : is_order n p -> length shape = n -> permuted_shape p shape = apply_inverse 0 p shape.
Proof.
  intros Hp L. pose proof (is_perm_length _ _ Hp) as Lp. unfold permuted_shape. apply (nth_ext_len 0); [now rewrite map_length, seq_length, apply_inverse_length|].
  intros j Hj. rewrite map_length, seq_length, Lp in Hj. rewrite nth_map_seq by lia.
  assert (Hin : In j p). { apply Permutation_in with (seq 0 n); [now apply Permutation_sym|]. apply in_seq. lia. }
  destruct (In_nth _ _ 0%nat Hin) as (k & Hk & Ek). set (l := filter _ _).
  assert (El : In k l). { apply filter_In. split; [apply in_seq; lia|]. apply Nat.eqb_eq. exact Ek. }
  destruct l as [|k' l'] eqn:E; [destruct El|]. cbn [hd]. assert (Hk' : In k' (k' :: l')) by now left. rewrite <- E in Hk'. apply filter_In in Hk'. destruct Hk' as [I1 I2].
  apply in_seq in I1. apply Nat.eqb_eq in I2. rewrite <- I2. change (nth k' p 0%nat) with (nthN p k'). rewrite (nth_apply_inverse 0 0 n) by (auto; lia). reflexivity.
Qed.
Lemma in_order_inj n p (i j : list Z) : is_order n p -> length i = n -> length j = n -> in_order 0 p i = in_order 0 p j -> i = j.
Proof. intros Hp Li Lj E. rewrite !in_order_apply in E. rewrite <- (apply_inverse_apply 0 n p i), <- (apply_inverse_apply 0 n p j) by auto. now rewrite E. Qed.

Lemma permute_var {V} (arrs : list (aarray V)) blocks v alg c p : var_ok arrs blocks v (alg, c) -> is_order (length (av_shape v)) p ->
  var_ok arrs blocks (AVar (av_alg v) (av_arr v) (permuted_shape p (av_shape v)) (fun idx => av_at v (in_order 0 p idx)) false (av_forward v) (map (fun d => nth d p 0%nat) (av_order v)) (permuted_shape p (av_gap v))) (permuted_indices_view p alg c).
Proof.
  intros (E1 & E2 & U & [Q1 Q2] & a & b & Ha & Hb & Hc & Hw & Hf) Hp. cbn [fst snd] in *. pose proof (usable_wf _ U) as W. pose proof (usable_flags _ U) as F.
  assert (Rk : rank (v_lay c) = length (av_shape v)) by (unfold rank; now rewrite E2). rewrite <- Rk in Hp.
  assert (El : im_len (transpose p (v_lay c)) = permuted_shape p (av_shape v)). { unfold transpose. cbn [im_len]. rewrite E2. symmetry. apply (permuted_shape_transpose (rank (v_lay c))); auto. }
  assert (Rt : rank (transpose p (v_lay c)) = rank (v_lay c)). { unfold rank at 1. rewrite El. unfold permuted_shape. rewrite map_length, seq_length. apply (is_perm_length _ _ Hp). }
  assert (Hi : forall i, valid_idx (transpose p (v_lay c)) i -> length i = rank (v_lay c) /\ valid_idx (v_lay c) (in_order 0 p i) /\ addr (transpose p (v_lay c)) i = addr (v_lay c) (in_order 0 p i)).
  { intros i Hv. assert (Li : length i = rank (v_lay c)) by (rewrite <- Rt; now apply in_range_length in Hv). destruct (C06_permuted_view_elements p (v_lay c) i W Hp Li) as [X1 X2]. split; auto. split; [now apply X2|auto]. }
  unfold permuted_indices_view, map_layout_transform. rewrite Rt, Nat.eqb_refl. split; [exact E1|]. split; [exact El|]. cbn [snd v_lay]. split; [|split].
  - split; [split; [now apply transpose_wf|now apply transpose_flags]|]. intros i j Vi Vj E. destruct (Hi i Vi) as (Li & V1 & A1), (Hi j Vj) as (Lj & V2 & A2).
    eapply (in_order_inj (rank (v_lay c))); eauto. eapply usable_inj; eauto. congruence.
  - unfold transpose. cbn [im_so im_str av_order av_gap]. rewrite Q1, Q2. split.
    + unfold compose, nthN. rewrite <- (map_seq_nth (av_order v) 0%nat) at 2. rewrite map_map. reflexivity.
    + symmetry. apply (permuted_shape_transpose (rank (v_lay c))); auto. rewrite <- Q2. apply W.
  - exists a, b. cbn [av_arr av_shape av_at av_whole av_forward snd v_lay]. split; [exact Ha|]. split; [exact Hb|]. split; [|split; [discriminate|]].
    + intros i Vi. rewrite <- El in Vi. destruct (Hi i Vi) as (Li & V1 & A1). unfold valid_idx in V1. rewrite E2 in V1. destruct (Hc _ V1) as [R1 C1]. split; [exact R1|]. unfold cell in *. cbn [v_lay v_base]. lia.
    + destruct Hf as (n0 & off & Hv). exists n0, off. now apply vo_transpose.
Qed.

Lemma in_order_seq (l : list Z) : in_order 0 (seq 0 (length l)) l = l.
Proof. unfold in_order. apply map_seq_nth. Qed.
Lemma reshape_var {V} (m : mem V) checks arrs blocks v alg c shape a b : var_ok arrs blocks v (alg, c) -> nth_error arrs (av_arr v) = Some a -> nth_error blocks (av_arr v) = Some b -> arr_ok m a b ->
  possible_shape shape -> prodZ shape = prodZ (av_shape v) -> av_whole v = true -> aa_order a = seq 0 (length (av_shape v)) ->
  exists y, reshape checks PolC alg (repeat 0 (length shape)) c shape = Some y /\
    var_ok arrs blocks (AVar (if Nat.eqb (length shape) (length (av_shape v)) then av_alg v else AlgA) (av_arr v) shape (fun idx => digits (av_shape v) (radix shape idx)) false true (seq 0 (length shape)) (new_gaps (seq 0 (length shape)) shape)) y.
Proof.
  intros (E1 & E2 & U & _ & a' & b' & Ha' & Hb' & Hc & Hw & Hf) Ha Hb O Hps Ep Wh Eo. cbn [fst snd] in *. rewrite Ha in Ha'. injection Ha' as <-. rewrite Hb in Hb'. injection Hb' as <-.
  destruct (Hw Wh) as (-> & Es & Eat). cbn [v_lay v_base] in *. destruct O as ([Hs Hr] & Ho & El & Eal & _).
  assert (Elay : cb_lay b = idx_map_of_shape (aa_order a) (repeat 0 (length (aa_shape a))) LP_contiguous (repeat 0 (length (aa_shape a))) (aa_shape a)) by exact El.
  pose proof (fresh_regular (aa_order a) (repeat 0 (length (aa_shape a))) LP_contiguous (repeat 0 (length (aa_shape a))) (aa_shape a) Ho (repeat_length _ _)) as Rg. rewrite <- Elay in Rg.
  pose proof (usable_wf _ U) as W. pose proof (regular_contiguous _ W Rg) as Ct. pose proof (is_contiguous_complete _ W Rg) as Ic.
  assert (Pf : policy_fits PolC shape) by (apply C24_standard_policies; now left).
  unfold reshape, policy_layout. cbn [v_lay]. rewrite size_prodZ, E2, fold_mul_acc, Z.mul_1_l, <- Ep, Z.eqb_refl, Ic. destruct Pf as [Po Ps]. rewrite Ps. cbn [negb]. rewrite !andb_false_r.
  eexists. split; [reflexivity|]. set (nl := idx_map_of_shape _ _ _ _ shape). pose proof Hps as [Hs' Hr'].
  assert (Un : usable nl) by (apply reshape_view; auto using repeat_length; split; auto). assert (Cn : contiguous_true nl) by (apply regular_contiguous; [apply (usable_wf _ Un)|apply fresh_regular; auto using repeat_length]).
  unfold map_layout_transform. cbn [v_lay v_base]. split; [|split; [reflexivity|split; [exact Un|split]]].
  - cbn [fst av_alg]. rewrite E1. unfold rank. rewrite E2. reflexivity.
  - cbn [snd v_lay av_order av_gap]. split; [reflexivity|]. apply new_gaps_strides; auto using repeat_length.
  - exists a, b. cbn [av_arr av_shape av_at av_whole av_forward snd v_lay]. split; [exact Ha|]. split; [exact Hb|]. split; [|split; [discriminate|]].
    + intros i Hi. pose proof (radix_bound _ _ Hi) as B. rewrite Ep in B.
      assert (Pos : Forall (fun l => 0 < l) (av_shape v)).
      { rewrite Es in *. rewrite Forall_forall in *. intros l Hl. pose proof (Hs l Hl). destruct (Z.eq_dec l 0) as [->|]; [|lia]. exfalso.
        assert (prodZ (aa_shape a) = 0); [|lia]. clear -Hl. induction (aa_shape a) as [|z zs IH]; [destruct Hl|]. unfold prodZ in *. cbn [fold_right]. destruct Hl as [->|Hl]; [lia|]. rewrite (IH Hl). lia. }
      pose proof (digits_in_range _ _ Pos B) as Dr. split; [now rewrite <- Es|]. unfold cell. cbn [v_lay v_base]. f_equal. rewrite (Cn i Hi).
      unfold seq_number. change (im_so nl) with (identity (length shape)). change (im_len nl) with shape. unfold identity.
      rewrite in_order_seq. rewrite <- (in_range_length _ _ Hi) at 1. rewrite in_order_seq.
      assert (Dv : valid_idx (cb_lay b) (digits (av_shape v) (radix shape i))) by (unfold valid_idx; now rewrite E2). rewrite (Ct _ Dv). unfold seq_number. rewrite E2.
      assert (Eso : im_so (cb_lay b) = seq 0 (length (av_shape v))) by (rewrite Elay; exact Eo). rewrite Eso, in_order_seq.
      rewrite <- (digits_length (av_shape v) (radix shape i)) at 1. rewrite in_order_seq. symmetry. now apply radix_digits.
    + exists (prodZ shape), 0. apply vo_fresh; auto using repeat_length. apply policy_extents_length.
Qed.

(** ** variables exchanged *)
Lemma rel_vars {V} (s : astate V) w x v c : rel s w -> var_ok (as_arr s) (cw_blocks w) v c -> rel (AState (as_arr s) (upd (as_var s) x v)) (with_vars w (upd (cw_vars w) x c)).
Proof.
  intros R H. split; unfold with_vars; cbn [as_arr as_var cw_mem cw_blocks cw_vars]; try apply R.
  - rewrite !upd_length. apply (rel_vlen _ _ R).
  - intros y Hy. rewrite upd_length in Hy. unfold var, cvar. cbn [as_var cw_vars]. destruct (Nat.eq_dec x y) as [->|N].
    + rewrite !nth_upd_eq; auto. now rewrite <- (rel_vlen _ _ R).
    + rewrite !nth_upd_neq by auto. now apply (rel_var _ _ R).
Qed.
Lemma var_ok_alg {V} (arrs : list (aarray V)) blocks u c g : var_ok arrs blocks u c -> var_ok arrs blocks (AVar g (av_arr u) (av_shape u) (av_at u) (av_whole u) (av_forward u) (av_order u) (av_gap u)) (g, snd c).
Proof. intros (E1 & E2 & U & Q & a & b & H). split; [reflexivity|]. split; [exact E2|]. split; [exact U|]. split; [exact Q|]. exists a, b. exact H. Qed.

(** ** assignments *)
Lemma crossed_reads {V} (A : arith V) (s : astate V) w x e : zero_neutral A -> rel s w -> live s x -> well_shaped s e (av_shape (var s x)) -> no_crossed_reads s x e ->
  reads_own_element (snd (cvar w x)) (rhs_value (rhs_of A (build w (v_zero A) e))).
Proof.
  intros HZ R L Hw Hn i m1 m2 Hi Hm. unfold in_view, valid_idx in Hi. rewrite (proj2 (live_usable s w x R L)) in Hi.
  apply (rhs_of_local A s w e (av_shape (var s x))); auto. intros y Hy. apply Hm. destruct (Hw y Hy) as [Ly Ey].
  destruct (is_cell_dec (snd (cvar w x)) (cell (snd (cvar w y)) i)) as [C|C]; [left|right; exact C]. destruct C as (j & Hj & E). unfold in_view, valid_idx in Hj. rewrite (proj2 (live_usable s w x R L)) in Hj.
  destruct (same_cell s w y x i j R Ly L) as [E1 E2]; auto; [now rewrite Ey|]. assert (i = j) by (apply (Hn y Hy E1 i j); auto; now rewrite Ey). now subst j.
Qed.

Lemma cell_live {V} (s : astate V) w x a : rel s w -> live s x -> is_cell_of (snd (cvar w x)) a -> exists b, In b (cw_blocks w) /\ cb_alive b = true /\ in_block b a.
Proof.
  intros R [Hx (c & Hc & Lc)] (i & Hi & ->). destruct (rel_var _ _ R x Hx) as (_ & E2 & _ & _ & c' & b & Hc' & Hb & C & _ & _). rewrite Hc in Hc'. injection Hc' as <-.
  unfold in_view, valid_idx in Hi. rewrite E2 in Hi. destruct (C i Hi) as [Ri ->]. pose proof (rel_arr _ _ R _ _ _ Hc Hb) as O. exists b. split; [eapply nth_error_In; eauto|]. split; [|eapply arr_block; eauto].
  destruct O as (_ & _ & _ & -> & _). exact Lc.
Qed.

(** a variable that is an array *)
Lemma fresh_disjoint {V} (s : astate V) w x so base shape : rel s w -> live s x -> is_order (length shape) so -> possible_shape shape ->
  (forall b a, In b (cw_blocks w) -> cb_alive b = true -> in_block b a -> ~ base <= a < base + prodZ shape) -> disjoint (new_array so base shape) (snd (cvar w x)).
Proof.
  intros R L Ho [P1 P2] Hd a C1 C2. apply new_array_cells in C1; auto. destruct (cell_live s w x a R L C2) as (b & Hb & Al & B). exact (Hd b a Hb Al B C1).
Qed.

(** ** one statement *)
(** ** an array that goes *)
Definition gone {V} (A : arith V) (s : astate V) (k : nat) : astate V :=
  let a := nth k (as_arr s) (no_arr (v_zero A)) in AState (upd (as_arr s) k (AArray (aa_shape a) (aa_order a) (aa_val a) false)) (as_var s).
Definition freed {V} (w : cworld V) (k : nat) : cworld V :=
  CWorld (cw_mem w) (upd (cw_blocks w) k (let b := nth k (cw_blocks w) (CBlock (IdxMap [] [] [] [] LP_none) 0 false) in CBlock (cb_lay b) (cb_base b) false)) (cw_temps w) (cw_vars w).
Lemma rel_destroy {V} (A : arith V) (s : astate V) w k a : rel s w -> nth_error (as_arr s) k = Some a -> rel (gone A s k) (freed w k).
Proof.
  intros R Ha. destruct (rel_block s w k a R Ha) as (b & Hb). unfold gone, freed. rewrite (nth_error_nth _ _ _ Ha), (nth_error_nth _ _ _ Hb).
  assert (Lk : (k < length (as_arr s))%nat) by (apply nth_error_Some; congruence). assert (Lb : (k < length (cw_blocks w))%nat) by (apply nth_error_Some; congruence).
  split; cbn [as_arr as_var cw_mem cw_blocks cw_vars].
  - rewrite !upd_length. apply R.
  - apply R.
  - intros j a' b' Ha' Hb'. destruct (Nat.eq_dec k j) as [<-|N].
    + rewrite nth_error_upd_eq in Ha' by auto. rewrite nth_error_upd_eq in Hb' by auto. injection Ha' as <-. injection Hb' as <-. destruct (rel_arr _ _ R _ _ _ Ha Hb) as (O1 & O2 & O3 & O4 & O5). split; [exact O1|]. split; [exact O2|]. split; [exact O3|]. split; [reflexivity|discriminate].
    + rewrite nth_error_upd_neq in Ha' by auto. rewrite nth_error_upd_neq in Hb' by auto. exact (rel_arr _ _ R _ _ _ Ha' Hb').
  - intros i j b1 b2 c H1 H2 N A1 A2 B1 B2. destruct (Nat.eq_dec k i) as [<-|Ni]; [rewrite nth_error_upd_eq in H1 by auto; injection H1 as <-; discriminate|].
    destruct (Nat.eq_dec k j) as [<-|Nj]; [rewrite nth_error_upd_eq in H2 by auto; injection H2 as <-; discriminate|].
    rewrite nth_error_upd_neq in H1 by auto. rewrite nth_error_upd_neq in H2 by auto. eapply (rel_apart _ _ R i j); eauto.
  - intros x Hx. apply (var_ok_mono (as_arr s) _ (cw_blocks w) _); [|exact (rel_var _ _ R x Hx)]. intros j c d Hc Hd. destruct (Nat.eq_dec k j) as [<-|N].
    + rewrite !nth_error_upd_eq by auto. rewrite Ha in Hc. injection Hc as <-. rewrite Hb in Hd. injection Hd as <-. eexists _, _. split; [reflexivity|]. split; [reflexivity|]. auto.
    + rewrite !nth_error_upd_neq by auto. exists c, d. auto.
Qed.
Lemma freed_keeps {V} (w : cworld V) k b : (k < length (cw_blocks w))%nat -> In b (cw_blocks w) -> exists b', In b' (cw_blocks (freed w k)) /\ forall a, in_block b a -> in_block b' a.
Proof.
  intros Lk Hc. unfold freed. cbn [cw_blocks]. apply In_nth_error in Hc. destruct Hc as [j Hj]. destruct (Nat.eq_dec k j) as [<-|N].
  - rewrite (nth_error_nth _ _ _ Hj). eexists. split; [eapply nth_error_In; apply nth_error_upd_eq; auto|]. auto.
  - exists b. split; auto. eapply nth_error_In. rewrite nth_error_upd_neq by eauto. exact Hj.
Qed.
Lemma freed_alive {V} (w : cworld V) k b : In b (cw_blocks (freed w k)) -> cb_alive b = true -> exists j, j <> k /\ nth_error (cw_blocks w) j = Some b.
Proof.
  intros Hb Al. unfold freed in Hb. cbn [cw_blocks] in Hb. apply In_nth_error in Hb. destruct Hb as [j Hj]. destruct (Nat.eq_dec k j) as [<-|N].
  - assert (L : (k < length (cw_blocks w))%nat) by (erewrite <- upd_length; apply nth_error_Some; rewrite Hj; discriminate). rewrite nth_error_upd_eq in Hj by auto. injection Hj as <-. discriminate.
  - rewrite nth_error_upd_neq in Hj by auto. exists j. auto.
Qed.
Lemma rel_drop {V} arrs vs v (m : mem V) bl t cs c : rel (AState arrs (vs ++ [v])) (CWorld m bl t (cs ++ [c])) -> rel (AState arrs vs) (CWorld m bl t cs).
Proof.
  intros R. pose proof (rel_vlen _ _ R) as L. cbn [as_var cw_vars] in L. rewrite !app_length in L. cbn [length] in L.
  split; cbn [as_arr as_var cw_mem cw_blocks cw_vars]; try apply R; [lia|]. intros x Hx. pose proof (rel_var _ _ R x) as H. unfold var, cvar in *. cbn [as_arr as_var cw_blocks cw_vars] in *. rewrite app_length in H. cbn [length] in H. rewrite !app_nth1 in H by lia. apply H. lia.
Qed.

(** ** factors of products *)
Definition alive_cell {V} (w : cworld V) (a : Z) : Prop := exists b, In b (cw_blocks w) /\ cb_alive b = true /\ in_block b a.
Lemma reserve_fresh {V} alloc (w : cworld V) needed so shape b w' : sound_allocator alloc -> reserve alloc w needed so shape = (b, w') ->
  (forall a, block b (prodZ shape) a -> ~ alive_cell w a) /\ (forall a, alive_cell w' a <-> alive_cell w a \/ (needed = true /\ block b (prodZ shape) a)).
Proof.
  intros HA E. unfold reserve in E. injection E as <- <-. set (b := alloc w (prodZ shape)). split.
  - intros a Ha (c & Hc & Al & Bl). exact (HA w _ c a Hc Al Bl Ha).
  - intros a. destruct needed.
    + split.
      * intros (c & Hc & Al & Bl). cbn [cw_blocks] in Hc. apply in_app_or in Hc. destruct Hc as [Hc|[<-|[]]]; [left; exists c; auto|right; split; [reflexivity|exact Bl]].
      * intros [(c & Hc & Al & Bl)|[_ Bl]]; [exists c|eexists (CBlock _ b true)]; cbn [cw_blocks]; (split; [apply in_or_app|]); [left; exact Hc|auto|right; now left|auto].
    + split; [now left|]. intros [H|[H _]]; [exact H|discriminate].
Qed.
Lemma order_code {V} (A : arith V) (s : astate V) w e r c : rel s w -> well_shaped s e [r; c] -> exists code, li_so (get_layout_info (build w (v_zero A) e)) = Some code /\
  match order_of s e with Some o => (o = [0; 1]%nat /\ code = 16) \/ (o = [1; 0]%nat /\ code = 1) | None => code = 0 \/ code = 2 ^ 64 - 1 end.
Proof.
  intros R. induction e as [x|a IH|op e1 IHl e2 IHr|op z e2 IHr|op e1 IHl z|f a IH|f a IHa b IHb]; cbn [build get_layout_info order_of]; intros H; auto.
  - destruct (H x) as [[Hx _] E]; [now left|]. destruct (rel_var _ _ R x Hx) as (_ & E2 & U & [Q _] & _). rewrite Q. cbn [li_so]. destruct (usable_wf _ U) as (_ & Ho & _). rewrite E2, E, Q in Ho. cbn [length] in Ho.
    destruct (order2_cases _ Ho) as [->| ->]; eexists; (split; [vm_compute; reflexivity|]); [left|right]; split; reflexivity.
  - destruct IHl as (c1 & E1 & C1); [intros x Hx; apply H; cbn [vars_of]; apply in_app_iff; auto|]. destruct IHr as (c2 & E2 & C2); [intros x Hx; apply H; cbn [vars_of]; apply in_app_iff; auto|].
    unfold info_and. rewrite E1, E2. cbn [same_code]. destruct (Z.eqb_spec c2 c1) as [Ec|Nc]; cbn [li_so].
    + exists c2. split; [reflexivity|]. subst c2. destruct (order_of s e1) as [o1|], (order_of s e2) as [o2|]; [destruct (list_eq_dec Nat.eq_dec o1 o2) as [Eo|No]; [exact C1|exfalso; apply No]| | |]; destruct C1 as [C1|C1], C2 as [C2|C2]; try (destruct C1); try (destruct C2); subst; auto; try discriminate; lia.
    + exists (2 ^ 64 - 1). split; [reflexivity|]. destruct (order_of s e1) as [o1|], (order_of s e2) as [o2|]; auto. destruct (list_eq_dec Nat.eq_dec o1 o2) as [Eo|No]; auto. exfalso. apply Nc.
      destruct C1 as [C1|C1], C2 as [C2|C2]; destruct C1, C2; subst; congruence.
  - unfold is_A. rewrite (build_algebra s w _ e2 R) by (intros x Hx; apply (H x Hx)). destruct (algebra_eqb (algebra_of s e2) AlgA); [now apply IHr|]. exists 0. cbn. auto.
  - unfold is_A. rewrite (build_algebra s w _ e1 R) by (intros x Hx; apply (H x Hx)). destruct (algebra_eqb (algebra_of s e1) AlgA); [now apply IHl|]. exists 0. cbn. auto.
  - exists 0. cbn. auto.
  - exists 0. cbn. auto.
Qed.
Lemma build_value {V} (A : arith V) (s : astate V) w e shape i : zero_neutral A -> rel s w -> well_shaped s e shape -> in_range i shape -> expr_at A (cw_mem w) (build w (v_zero A) e) i = value A s e i.
Proof. intros HZ R H Hi. destruct (build_common s w (v_zero A) e shape R H) as [Hc Ht]. rewrite <- (build_denote A s w e shape i R H Hi). exact (proj2 (C23_value A (cw_mem w) _ shape i HZ Hc Ht Hi)). Qed.
Lemma build_local {V} (A : arith V) (s : astate V) w e shape i (m1 m2 : mem V) : zero_neutral A -> rel s w -> well_shaped s e shape -> in_range i shape -> (forall a, alive_cell w a -> m1 a = m2 a) ->
  expr_at A m1 (build w (v_zero A) e) i = expr_at A m2 (build w (v_zero A) e) i.
Proof.
  intros HZ R H Hi Hm. destruct (build_common s w (v_zero A) e shape R H) as [Hc Ht]. apply (C23_local A _ shape i m1 m2 HZ Hc Ht Hi). intros v Hv. apply build_leaves in Hv. destruct Hv as (x & Hx & ->).
  apply Hm. destruct (H x Hx) as [Lx Ex]. apply (cell_live s w x _ R Lx). exists i. split; [|reflexivity]. unfold in_view, valid_idx. now rewrite (proj2 (live_usable s w x R Lx)), Ex.
Qed.
Lemma shape_of_shaped {V} (s : astate V) (e : pexpr V) shape : well_shaped s e shape -> shape_of s e = shape.
Proof. intros H. apply (H _ (vars_of_nonempty e)). Qed.
Lemma surjective_view v : v = View (v_lay v) (v_base v).
Proof. now destruct v. Qed.
Notation the_same := (fun z => z).
Lemma factor_facts {V} (A : arith V) (s : astate V) w e r c : zero_neutral A -> rel s w -> well_shaped s e [r; c] -> adjacent s e -> 1 <= r -> 1 <= c -> int_range r -> int_range c ->
  let l := M_Program.factor A w e in
  plain l /\ operand_fits l r c /\ operand_reads l (alive_cell w) /\ (forall i j, 0 <= i < r -> 0 <= j < c -> operand_at the_same l (cw_mem w) i j = value A s e [i; j]) /\
  (forall b n a, used l b n a <-> copied e = true /\ block b n a) /\
  match order_of s e with Some o => operand_info l = o | None => forall o, is_order 2 o -> operand_info l <> o end /\
  (regular_policy l = (match e with PVar x => av_order (var s x) | _ => [0; 1]%nat end, [0; 0])).
Proof.
  intros HZ R H Ha Hr Hc Ir Ic.
  assert (other : (forall alg v, build w (v_zero A) e <> ELeaf alg v) -> copied e = true ->
    let l := OOther (match li_so (get_layout_info (build w (v_zero A) e)) with Some c => map Z.to_nat (decode 2 c) | None => [] end) (expr_shape (build w (v_zero A) e)) (fun m idx => expr_at A m (build w (v_zero A) e) idx) in
    plain l /\ operand_fits l r c /\ operand_reads l (alive_cell w) /\ (forall i j, 0 <= i < r -> 0 <= j < c -> operand_at the_same l (cw_mem w) i j = value A s e [i; j]) /\
    (forall b n a, used l b n a <-> copied e = true /\ block b n a) /\ match order_of s e with Some o => operand_info l = o | None => forall o, is_order 2 o -> operand_info l <> o end /\ regular_policy l = ([0; 1]%nat, [0; 0])).
  { intros Nl Cp l. pose proof (build_shape s w (v_zero A) e [r; c] R H) as Es. split; [exact I|]. split; [do 4 (split; [assumption|]); exact Es|].
    split; [|split; [|split; [|split; [|reflexivity]]]].
    - intros idx m1 m2 Hi Hm. rewrite Es in Hi. now apply (build_local A s w e [r; c]).
    - intros i j Hi Hj. apply (build_value A s w e [r; c]); auto. constructor; [exact Hi|constructor; [exact Hj|constructor]].
    - intros b n a. cbn [l used]. tauto.
    - destruct (order_code A s w e r c R H) as (code & Ec & Cc). subst l. cbn [operand_info]. rewrite Ec. destruct (order_of s e) as [o|].
      + destruct Cc as [[-> ->]|[-> ->]]; reflexivity.
      + intros o Ho. destruct (order2_cases _ Ho) as [->| ->]; destruct Cc as [->| ->]; vm_compute; discriminate. }
  destruct e as [x| | | | | |]; [|apply other; [cbn; discriminate|reflexivity]..].
  clear other. destruct (H x) as [Lx Ex]; [now left|]. pose proof Lx as [Hx _]. destruct (rel_var _ _ R x Hx) as (_ & E2 & U & [Q1 Q2] & _ & _ & _ & _ & _ & _ & n0 & off & Hv). unfold M_Program.factor. cbn [build]. set (v := snd (cvar w x)) in *.
  split; [reflexivity|]. rewrite Ex in E2. split; [do 4 (split; [assumption|]); split; [|exact U]|split; [|split; [|split; [|split]]]].
  - cbn [adjacent] in Ha. rewrite <- Q1, <- Q2 in Ha. destruct Ha as [Hm Hg]. destruct (usable_wf _ U) as (Ls & _). assert (L2 : length (im_str (v_lay v)) = 2%nat) by (unfold rank in Ls; rewrite E2 in Ls; exact Ls).
    destruct (list2 _ L2) as (s0 & s1 & Es). rewrite Es in Hg. inversion Hg as [|? ? [G1 G2] Hg']; subst. inversion Hg' as [|? ? [G3 G4] _]; subst.
    rewrite (surjective_view v). eapply (view_blas_matrix n0 off (v_lay v) _ r c s0 s1); auto; [eapply view_of_weaken; [|exact Hv]; auto|]. unfold min_stride, nthN, rank. rewrite E2. exact Hm.
  - intros a Ca. exact (cell_live s w x a R Lx Ca).
  - intros i j Hi Hj. apply live_read; auto. rewrite Ex. constructor; [exact Hi|constructor; [exact Hj|constructor]].
  - intros b n a. cbn [used copied]. split; [tauto|]. intros [C _]; discriminate.
  - cbn [order_of operand_info]. exact Q1.
  - cbn [regular_policy]. now rewrite Q1.
Qed.
Lemma product_stored_policy {V} (A : arith V) (s : astate V) w e f n k p : zero_neutral A -> rel s w -> well_shaped s e [n; k] -> well_shaped s f [k; p] -> adjacent s e -> adjacent s f -> 1 <= n -> 1 <= k -> 1 <= p ->
  int_range n -> int_range k -> int_range p -> fst (result_policy (M_Program.factor A w e) (M_Program.factor A w f)) = product_stored s e f.
Proof.
  intros HZ R He Hf Ae Af Hn Hk Hp In' Ik Ip. destruct (factor_facts A s w e n k HZ R He Ae Hn Hk In' Ik) as (_ & _ & _ & _ & _ & Oe & Re). destruct (factor_facts A s w f k p HZ R Hf Af Hk Hp Ik Ip) as (_ & _ & _ & _ & _ & Of & _).
  unfold result_policy, product_stored. rewrite Re. destruct e as [x| | | | | |]; [|destruct (list_eq_dec _ _ _); reflexivity..]. cbn [order_of] in Oe. rewrite Oe. destruct (order_of s f) as [o|].
  - rewrite Of. destruct (list_eq_dec Nat.eq_dec (av_order (var s x)) o) as [E|N], (list_eq_dec Nat.eq_dec o (av_order (var s x))) as [E'|N']; cbn [fst]; congruence.
  - assert (Ho : is_order 2 (av_order (var s x))). { destruct (He x) as [[Hx _] Ex]; [now left|]. destruct (rel_var _ _ R x Hx) as (_ & E2 & U & [Q _] & _). destruct (usable_wf _ U) as (_ & Ho & _). now rewrite E2, Ex, Q in Ho. }
    specialize (Of _ Ho). destruct (list_eq_dec Nat.eq_dec (av_order (var s x)) _) as [E|N]; [congruence|reflexivity].
Qed.

Lemma step_rel {V} (A : arith V) checks trivial alloc (s : astate V) w st : zero_neutral A -> sound_allocator alloc -> rel s w -> legal A s st ->
  exists w', cstep A checks trivial alloc w st = Some w' /\ rel (astep A s st) w' /\
    (forall a, (forall b, In b (cw_blocks w' ++ cw_temps w') -> ~ in_block b a) -> cw_mem w' a = cw_mem w a) /\
    (forall b, In b (cw_blocks w ++ cw_temps w) -> exists b', In b' (cw_blocks w' ++ cw_temps w') /\ forall a, in_block b a -> in_block b' a).
Proof.
  intros HZ HA R HL.
  assert (keep : forall b, In b (cw_blocks w ++ cw_temps w) -> exists b', In b' (cw_blocks w ++ cw_temps w) /\ forall a, in_block b a -> in_block b' a) by (intros b Hb; exists b; auto).
  assert (frame : forall x m, live s x -> unchanged_outside (snd (cvar w x)) (cw_mem w) m -> forall a, (forall b, In b (cw_blocks w ++ cw_temps w) -> ~ in_block b a) -> m a = cw_mem w a).
  { intros x m L Hu a Ha. apply Hu. intros C. destruct (cell_live s w x a R L C) as (b & Hb & _ & B). apply (Ha b); [apply in_or_app; now left|exact B]. }
  assert (fin : forall x g m, live s x -> holds (snd (cvar w x)) m g -> unchanged_outside (snd (cvar w x)) (cw_mem w) m -> rel (overwrite A s x g) (with_mem w m) /\
     (forall a, (forall b, In b (cw_blocks (with_mem w m) ++ cw_temps (with_mem w m)) -> ~ in_block b a) -> cw_mem (with_mem w m) a = cw_mem w a) /\
     (forall b, In b (cw_blocks w ++ cw_temps w) -> exists b', In b' (cw_blocks (with_mem w m) ++ cw_temps (with_mem w m)) /\ forall a, in_block b a -> in_block b' a)).
  { intros x g m L Hh Hu. split; [now apply overwrite_rel|]. split; [cbn [with_mem cw_mem cw_blocks cw_temps]; eapply frame; eauto|exact keep]. }
  assert (make : forall alg so shape r f, is_order (length shape) so -> possible_shape shape ->
     (forall src, r = RMem src -> truthful (v_lay src) /\ im_len (v_lay src) = shape) ->
     (forall i m1 m2, in_range i shape -> (forall b a, In b (cw_blocks w) -> cb_alive b = true -> in_block b a -> m1 a = m2 a) -> rhs_value r m1 i = rhs_value r m2 i) ->
     (forall i, in_range i shape -> rhs_value r (cw_mem w) i = f i) ->
     exists w', make_array checks trivial alloc w alg so shape r = Some w' /\ rel (add_array s alg so shape f) w' /\
       (forall a, (forall b, In b (cw_blocks w' ++ cw_temps w') -> ~ in_block b a) -> cw_mem w' a = cw_mem w a) /\
       (forall b, In b (cw_blocks w ++ cw_temps w) -> exists b', In b' (cw_blocks w' ++ cw_temps w') /\ forall a, in_block b a -> in_block b' a)).
  { intros alg so shape r f Ho Hps Hm Hl Hv. set (base := alloc w (prodZ shape)).
    assert (Hd : forall b a, In b (cw_blocks w) -> cb_alive b = true -> in_block b a -> ~ base <= a < base + prodZ shape) by (intros b a Hb Al Bl; exact (HA w (prodZ shape) b a Hb Al Bl)).
    destruct (construct_spec checks trivial so base shape r (cw_mem w) Ho Hps Hm) as (m & E & Hh & Hu).
    { intros i m1 m2 Hi Hag. apply Hl; auto. intros b a Hb Al Bl. apply Hag. eapply Hd; eauto. }
    unfold make_array. fold base. rewrite E. eexists. split; [reflexivity|]. split; [|split].
    - apply rel_add; auto; [eapply holds_ext; [|exact Hh]; intros i Hi; now apply Hv|]. intros b a Hb Al Bl. apply Hu. intros C. destruct Hps as [P1 P2]. apply new_array_cells in C; auto. exact (Hd b a Hb Al Bl C).
    - cbn [cw_mem cw_blocks cw_temps]. intros a Ha. apply Hu. intros C. destruct Hps as [P1 P2]. apply new_array_cells in C; auto.
      apply (Ha (CBlock (v_lay (new_array so base shape)) base true)); [apply in_or_app; left; apply in_or_app; right; now left|exact C].
    - cbn [cw_blocks cw_temps]. intros b Hb. exists b. split; auto. apply in_app_or in Hb. apply in_or_app. destruct Hb; [left; apply in_or_app; now left|now right]. }
  destruct st as [alg so shape f|alg so e|k|x args|x p|x shape|x idx val|x val|x e|op x e|x y|x y|x y|fresh k x e|e f|e f]; cbn [legal] in HL; cbn [cstep astep].
  - destruct HL as [Hps Ho]. apply make; auto; [discriminate|reflexivity..].
  - destruct HL as (Hw & _ & Ho). rewrite (build_shape s w (v_zero A) e (shape_of s e) R Hw).
    assert (Hps : possible_shape (shape_of s e)).
    { destruct (Hw _ (vars_of_nonempty e)) as [L _]. destruct (live_usable s w _ R L) as [U El]. unfold shape_of, possible_shape. rewrite <- El. destruct (usable_wf _ U) as (_ & _ & _ & P1 & P2). auto. }
    apply make; auto.
    + intros src E. eapply (rhs_of_mem A s w e); eauto.
    + intros i m1 m2 Hi Hag. apply (rhs_of_local A s w e (shape_of s e)); auto. intros y Hy. destruct (Hw y Hy) as [Ly Ey]. destruct (live_usable s w y R Ly) as [_ El].
      destruct (cell_live s w y (cell (snd (cvar w y)) i) R Ly) as (b & Hb & Al & Bl); [exists i; split; auto; unfold in_view, valid_idx; now rewrite El, Ey|]. eapply Hag; eauto.
    + intros i Hi. now apply (rhs_of_value A s w e (shape_of s e)).
  - destruct HL as (a & Ha & Al). eexists. split; [reflexivity|]. split; [exact (rel_destroy A s w k a R Ha)|]. split; [reflexivity|].
    destruct (rel_block s w k a R Ha) as (b & Hb). assert (Lb : (k < length (cw_blocks w))%nat) by (apply nth_error_Some; congruence).
    cbn [cw_blocks cw_temps]. intros c Hc. apply in_app_or in Hc. destruct Hc as [Hc|Hc]; [|exists c; split; auto; apply in_or_app; now right].
    destruct (freed_keeps w k c Lb Hc) as (b' & Hb' & S). exists b'. split; [apply in_or_app; now left|exact S].
  - destruct HL as (Hx & Hok & Hs & Hb & Hd). pose proof (rel_var _ _ R x Hx) as Vx. destruct (cvar w x) as [alg c]. destruct (slice_var _ _ _ _ _ args Vx Hok Hs Hb Hd) as (y & -> & Hy).
    eexists. split; [reflexivity|]. split; [now apply rel_view|]. split; [reflexivity|exact keep].
  - destruct HL as (Hx & Hp). pose proof (rel_var _ _ R x Hx) as Vx. destruct (cvar w x) as [alg c]. eexists. split; [reflexivity|]. split; [apply rel_view; auto; now apply permute_var|]. split; [reflexivity|exact keep].
  - destruct HL as (Hx & Hps & Ep & Wh & Eo). pose proof (rel_var _ _ R x Hx) as Vx. destruct (cvar w x) as [alg c]. pose proof Vx as (_ & _ & _ & _ & a & b & Ha & Hb & _). rewrite (nth_error_nth _ _ _ Ha) in Eo.
    destruct (reshape_var (cw_mem w) checks _ _ _ _ _ shape a b Vx Ha Hb (rel_arr _ _ R _ _ _ Ha Hb) Hps Ep Wh Eo) as (y & -> & Hy). eexists. split; [reflexivity|]. split; [now apply rel_view|]. split; [reflexivity|exact keep].
  - destruct HL as (L & Hi). destruct (live_usable s w x R L) as [U El]. assert (Iv : in_view (snd (cvar w x)) idx) by (unfold in_view, valid_idx; now rewrite El).
    eexists. split; [reflexivity|]. rewrite (elem_cell_in _ _ (usable_truthful _ U) Iv). apply fin; auto.
    + intros j Hj. unfold same_tuple. destruct (list_eq_dec Z.eq_dec j idx) as [->|N]; [apply mset_eq|]. rewrite mset_neq; [|intros E; apply N; eapply cell_inj; eauto].
      apply live_read; auto. unfold in_view, valid_idx in Hj. now rewrite El in Hj.
    + intros a Ha. apply mset_neq. intros ->. apply Ha. exists idx. auto.
  - destruct HL as (L & Fw & H1 & HM). destruct (live_usable s w x R L) as [U El]. pose proof (rel_var _ _ R x (proj1 L)) as (E1 & _ & _ & _ & a & b & _ & _ & _ & _ & n & off & Hv'). assert (Hv : view_of (fun z => 0 < z) n off (v_lay (snd (cvar w x)))) by (eapply view_of_weaken; [|exact Hv']; cbv beta; auto).
    destruct (C19_conditions n off _ Hv) as (_ & Hz & Hc); [now rewrite El|]. specialize (fin x). destruct (cvar w x) as [alg c]. cbn [fst snd] in *.
    assert (Fu : prodZ (im_len (v_lay c)) <= Z.of_nat (Z.to_nat (prodZ (im_len (v_lay c))))) by lia.
    destruct (is_M alg) eqn:EM.
    + assert (EA : av_alg (var s x) = AlgM) by (rewrite <- E1; destruct alg; try discriminate; reflexivity). rewrite EA. assert (Rk : rank (v_lay c) = 2%nat) by (unfold rank; rewrite El; auto).
      destruct (C19_fill_matrix c val (v_zero A) (cw_mem w) _ U Rk Hz Hc Fu) as (m & -> & Hh & Hu). eexists. split; [reflexivity|]. apply fin; auto.
      intros j Hj. pose proof (in_range_length _ _ Hj) as Lj. unfold rank in Rk. rewrite Rk in Lj. destruct j as [|i [|k [|? ?]]]; try discriminate. now rewrite (Hh i k Hj).
    + destruct (C19_fill c val (v_zero A) (cw_mem w) _ U Hz Hc Fu) as (m & -> & Hh & Hu). eexists. split; [reflexivity|]. rewrite <- E1. destruct alg; try discriminate; apply fin; auto.
  - destruct HL as (L & Hw & _ & Hn). destruct (live_usable s w x R L) as [U El]. rewrite (build_shape s w (v_zero A) e _ R Hw), <- El.
    destruct (assign_host_value checks (snd (cvar w x)) (rhs_of A (build w (v_zero A) e)) (cw_mem w) U) as (m & -> & Hh & Hu).
    + intros src E. rewrite El. eapply (rhs_of_mem A s w e); eauto.
    + now apply (crossed_reads A s).
    + eexists. split; [reflexivity|]. apply fin; auto. eapply holds_ext; [|exact Hh]. intros i Hi. apply (rhs_of_value A s w e (av_shape (var s x))); auto. unfold in_view, valid_idx in Hi. now rewrite El in Hi.
  - destruct HL as (L & Hw & _ & Hn).
    assert (Hw' : well_shaped s (PBin op (PVar x) e) (av_shape (var s x))) by (intros y Hy; cbn [vars_of app] in Hy; destruct Hy as [<-|Hy]; [auto|now apply Hw]).
    assert (Hn' : no_crossed_reads s x (PBin op (PVar x) e)).
    { intros y Hy E i j Hi Hj Eat. cbn [vars_of app] in Hy. destruct Hy as [<-|Hy]; [|now apply (Hn y)]. pose proof (rel_var _ _ R x (proj1 L)) as (_ & El & U & _ & a & b & _ & _ & C & _).
      destruct (C i Hi) as [_ C1], (C j Hj) as [_ C2]. eapply (cell_inj (snd (cvar w x))); eauto; [unfold in_view, valid_idx; now rewrite El|unfold in_view, valid_idx; now rewrite El|]. rewrite C1, C2, Eat. reflexivity. }
    destruct (live_usable s w x R L) as [U El]. pose proof (build_shape s w (v_zero A) _ _ R Hw') as Esh. pose proof (crossed_reads A s w x _ HZ R L Hw' Hn') as Own.
    pose proof (fun i => rhs_of_value A s w _ (av_shape (var s x)) i HZ R Hw') as Val. cbn [build rhs_of] in Esh, Own, Val.
    specialize (fin x). destruct (cvar w x) as [alg c]. cbn [fst snd] in *. unfold compound_assign, compound_expr, assign_expr. rewrite Esh, <- El.
    destruct (assign_host_value checks c (RExpr (fun m idx => expr_at A m (EBin op (ELeaf alg c) (build w (v_zero A) e)) idx)) (cw_mem w) U) as (m & -> & Hh & Hu); [discriminate|exact Own|].
    eexists. split; [reflexivity|]. apply fin; auto. eapply holds_ext; [|exact Hh]. intros i Hi. unfold in_view, valid_idx in Hi. rewrite El in Hi. exact (Val i Hi).
  - destruct HL as (Hx & Hy & N & _). pose proof (rel_var _ _ R y Hy) as Vy. pose proof (rel_var _ _ R x Hx) as Vx. destruct (cvar w x) as [alg c]. eexists. split; [reflexivity|]. split; [|split; [reflexivity|exact keep]].
    destruct Vx as (E1 & _). cbn [fst] in E1. subst alg. replace (rebind c (snd (cvar w y))) with (snd (cvar w y)) by (destruct (snd (cvar w y)); reflexivity). apply rel_vars; auto. now apply var_ok_alg.
  - destruct HL as (Hx & Hy & N & _). pose proof (rel_var _ _ R y Hy) as Vy. pose proof (rel_var _ _ R x Hx) as Vx. destruct (cvar w x) as [ax c]. destruct (cvar w y) as [ay d].
    assert (Es : swap_views c d = (d, c)) by (destruct c, d; reflexivity). rewrite Es. eexists. split; [reflexivity|]. split; [|split; [reflexivity|exact keep]].
    pose proof (var_ok_alg _ _ _ _ ax Vy) as V1. pose proof (var_ok_alg _ _ _ _ ay Vx) as V2. cbn [snd] in V1, V2. destruct Vx as (Ex & _), Vy as (Ey & _). cbn [fst] in Ex, Ey. rewrite <- Ex, <- Ey.
    pose proof (rel_vars s w x _ _ R V1) as R1. exact (rel_vars _ _ y _ _ R1 V2).
  - destruct HL as (Lx & Ly & Es & Hd). destruct (live_usable s w x R Lx) as [Ux Ex]. destruct (live_usable s w y R Ly) as [Uy Ey]. set (c := snd (cvar w x)) in *. set (d := snd (cvar w y)) in *.
    set (base := alloc w (prodZ (im_len (v_lay c)))). set (tmp := new_array (im_so (v_lay c)) base (im_len (v_lay c))).
    destruct (usable_wf _ Ux) as (_ & Ho & _ & P1 & P2). assert (Ut : usable (v_lay tmp)) by (apply new_array_usable; auto).
    assert (Tc : forall a, is_cell_of tmp a <-> base <= a < base + prodZ (im_len (v_lay c))) by (intros a; apply new_array_cells; auto).
    assert (Dt : forall z, live s z -> disjoint tmp (snd (cvar w z))).
    { intros z Lz a C1 C2. apply Tc in C1. destruct (cell_live s w z a R Lz C2) as (b & Hb & Al & Bl). exact (HA w _ b a Hb Al Bl C1). }
    assert (Dxy : disjoint c d).
    { intros a (i & Hi & E) (j & Hj & E'). unfold in_view, valid_idx in Hi, Hj. rewrite Ex in Hi. rewrite Ey in Hj. destruct (same_cell s w x y i j R Lx Ly Hi Hj) as [Q1 Q2]; [fold c d; congruence|]. exact (Hd Q1 i j Hi Hj Q2). }
    destruct (deep_swap_spec checks tmp c d (cw_mem w) Ut Ux Uy) as (m & -> & Hx & Hy & Hu); auto; [congruence|exact (Dt x Lx)|exact (Dt y Ly)|].
    eexists. split; [reflexivity|]. split; [|split].
    + assert (Lx' := overwrite_live A s x (read A s y) y Ly). apply (rel_mem s); auto.
      * intros k a Ha. destruct (overwrite_mono A s x (read A s y) k a Ha) as (a1 & H1 & S1). destruct (overwrite_mono A _ y (read A s x) k a1 H1) as (a2 & H2 & S2). exists a2. split; [exact H2|congruence].
      * unfold overwrite. cbn [as_arr]. now rewrite !upd_length.
      * intros k a2 b Ha2 Hb. destruct (overwrite_arr _ _ _ _ _ _ Ha2) as (a1 & Ha1 & E1 & E2 & E3 & E4). destruct (overwrite_arr _ _ _ _ _ _ Ha1) as (a & Ha & F1 & F2 & F3 & F4).
        destruct (rel_arr _ _ R _ _ _ Ha Hb) as (O1 & O2 & O3 & O4 & O5). unfold arr_ok. rewrite E1, E2, E3, F1, F2, F3. do 4 (split; [assumption|]). intros Al i Hi. rewrite E4, !overwrite_var, F4.
        destruct (hit A s w y k a b i R Ly Ha Hb Al Hi) as [(-> & j & F & Hj & Ej & Ec)|[F Ny]].
        -- rewrite Nat.eqb_refl, F, <- Ec. fold d. rewrite Hy by (unfold in_view, valid_idx; now rewrite Ey). apply live_read; auto. now rewrite <- Es.
        -- assert (F' : (if Nat.eqb k (av_arr (var s y)) then find (fun idx => same_tuple (av_at (var s y) idx) i) (tuples (av_shape (var s y))) else None) = None) by (destruct (Nat.eqb_spec k (av_arr (var s y))); auto).
           destruct (hit A s w x k a b i R Lx Ha Hb Al Hi) as [(Ek & j & Fx & Hj & Ej & Ec)|[Fx Nx]].
           ++ transitivity (read A s y j).
              { rewrite <- Ec. fold c. rewrite Hx by (unfold in_view, valid_idx; now rewrite Ex). apply live_read; auto. now rewrite Es. }
              destruct (Nat.eqb k (av_arr (var s y))); rewrite ?F', Ek, Nat.eqb_refl, Fx; reflexivity.
           ++ assert (Nt : ~ is_cell_of tmp (cb_base b + addr (cb_lay b) i)).
              { intros C. apply Tc in C. revert C. apply (HA w _ b); [eapply nth_error_In; eauto|now rewrite O4|eapply arr_block; [exact (rel_arr _ _ R _ _ _ Ha Hb)|exact Hi]]. }
              rewrite (Hu _ Nx Ny Nt), (O5 Al i Hi). destruct (Nat.eqb k (av_arr (var s y))); rewrite ?F'; destruct (Nat.eqb_spec k (av_arr (var s x))) as [Ek|_]; rewrite ?(Fx Ek); reflexivity.
    + cbn [cw_mem cw_blocks cw_temps]. intros a Ha. apply Hu.
      * intros C. destruct (cell_live s w x a R Lx C) as (b & Hb & _ & Bl). apply (Ha b); [apply in_or_app; now left|exact Bl].
      * intros C. destruct (cell_live s w y a R Ly C) as (b & Hb & _ & Bl). apply (Ha b); [apply in_or_app; now left|exact Bl].
      * intros C. apply Tc in C. apply (Ha (CBlock (v_lay tmp) base false)); [apply in_or_app; right; now left|exact C].
    + cbn [cw_blocks cw_temps]. intros b Hb. exists b. split; auto. apply in_app_or in Hb. apply in_or_app. destruct Hb; [now left|right; now right].
  - destruct HL as (L & <- & Wh & Hw & _ & Hrk & Hno). rewrite (build_shape s w (v_zero A) e (shape_of s e) R Hw). set (k := av_arr (var s x)) in *. set (shape := shape_of s e) in *.
    pose proof L as [Hx (a & Ha & Al)]. destruct (rel_var _ _ R x Hx) as (E1 & E2 & _ & _ & a' & b & Ha' & Hb & _ & Hwh & _). fold k in Ha, Ha', Hb. rewrite Ha in Ha'. injection Ha' as <-. destruct (Hwh Wh) as (Ec & Es & _).
    pose proof (rel_arr _ _ R _ _ _ Ha Hb) as (Oa & Oo & Ol & Oal & _).
    assert (Hps : possible_shape shape).
    { destruct (Hw _ (vars_of_nonempty e)) as [Lh _]. destruct (live_usable s w _ R Lh) as [U El]. unfold shape, shape_of, possible_shape. rewrite <- El. destruct (usable_wf _ U) as (_ & _ & _ & P1 & P2). auto. }
    assert (Ho : is_order (length shape) (aa_order a)) by (rewrite Hrk, Es; exact Oo).
    assert (Lb : (k < length (cw_blocks w))%nat) by (apply nth_error_Some; congruence). assert (La : (k < length (as_arr s))%nat) by (apply nth_error_Some; congruence).
    destruct (cvar w x) as [alg v]. cbn [fst snd] in E1, Ec. subst alg. rewrite (nth_error_nth _ _ _ Hb).
    assert (Eso : im_so (v_lay v) = aa_order a) by (rewrite Ec; cbn [v_lay]; rewrite Ol; reflexivity). rewrite Eso.
    set (base := if negb fresh && (size (v_lay v) =? prodZ shape) then cb_base b else alloc w (prodZ shape)).
    assert (Sz : size (v_lay v) = prodZ (im_len (cb_lay b))) by (rewrite Ec; cbn [v_lay]; apply size_prodZ).
    assert (Hd : forall c u, In c (cw_blocks (freed w k)) -> cb_alive c = true -> in_block c u -> ~ base <= u < base + prodZ shape).
    { intros c u Hc Alc Bc. destruct (freed_alive w k c Hc Alc) as (j & Nj & Hj). unfold base. destruct (negb fresh && (size (v_lay v) =? prodZ shape)) eqn:Eb.
      - apply andb_prop in Eb. destruct Eb as [_ Eb]. apply Z.eqb_eq in Eb. intros Hu. apply (rel_apart _ _ R j k c b u Hj Hb Nj Alc); [now rewrite Oal|exact Bc|]. unfold in_block. rewrite <- Sz, Eb. exact Hu.
      - apply (HA w (prodZ shape) c u); auto. eapply nth_error_In; eauto. }
    assert (Hout : forall y i, In y (vars_of e) -> in_range i shape -> ~ base <= cell (snd (cvar w y)) i < base + prodZ shape).
    { intros y i Hy Hi. destruct (Hw y Hy) as [Ly Ey]. pose proof Ly as [Hy1 (c & Hc & Alc)]. destruct (rel_var _ _ R y Hy1) as (_ & _ & _ & _ & c' & bc & Hc' & Hbc & Cc & _). rewrite Hc in Hc'. injection Hc' as <-.
      destruct (Cc i) as [Ri Ei]; [now rewrite Ey|]. pose proof (rel_arr _ _ R _ _ _ Hc Hbc) as Oc. pose proof (arr_block _ _ _ _ Oc Ri) as Bc. rewrite <- Ei in Bc. destruct Oc as (_ & _ & _ & Oc & _).
      unfold base. destruct (negb fresh && (size (v_lay v) =? prodZ shape)) eqn:Eb.
      - apply andb_prop in Eb. destruct Eb as [Ef Eb]. apply Z.eqb_eq in Eb. destruct fresh; [discriminate|]. intros Hu. apply (rel_apart _ _ R (av_arr (var s y)) k bc b (cell (snd (cvar w y)) i) Hbc Hb (Hno eq_refl y Hy)); [now rewrite Oc|now rewrite Oal|exact Bc|]. unfold in_block. rewrite <- Sz, Eb. exact Hu.
      - apply (HA w (prodZ shape) bc); [eapply nth_error_In; eauto|now rewrite Oc|exact Bc]. }
    destruct (construct_spec checks true (aa_order a) base shape (rhs_of A (build w (v_zero A) e)) (cw_mem w) Ho Hps) as (m & E & Hh & Hu).
    + intros src E. eapply (rhs_of_mem A s w e); eauto.
    + intros i m1 m2 Hi Hag. apply (rhs_of_local A s w e shape); auto.
    + rewrite E. eexists. split; [reflexivity|]. split; [|split].
      * assert (R2 : rel (add_array (gone A s k) (av_alg (var s x)) (aa_order a) shape (value A s e))
                         (CWorld m (cw_blocks (freed w k) ++ [CBlock (v_lay (new_array (aa_order a) base shape)) base true]) (cw_temps w) (cw_vars w ++ [(av_alg (var s x), new_array (aa_order a) base shape)]))).
        { apply (rel_add A (gone A s k) (freed w k)); auto; [exact (rel_destroy A s w k a R Ha)| |].
          - eapply holds_ext; [|exact Hh]. intros i Hi. now apply (rhs_of_value A s w e shape).
          - intros c u Hc Alc Bc. apply Hu. intros C. destruct Hps as [P1 P2]. apply new_array_cells in C; auto. exact (Hd c u Hc Alc Bc C). }
        assert (Hv := rel_var _ _ R2 (length (as_var s))). unfold add_array, gone in Hv, R2. cbn [as_arr as_var] in Hv, R2. unfold var, cvar in Hv. cbn [as_var cw_vars as_arr cw_blocks] in Hv. rewrite !nth_last in Hv.
        rewrite <- (rel_vlen _ _ R), Nat.eqb_refl in Hv. rewrite app_length in Hv. specialize (Hv ltac:(cbn [length]; lia)). apply rel_drop in R2.
        pose proof (rel_vars _ _ x _ _ R2 Hv) as R3. cbn [as_arr as_var with_vars cw_mem cw_blocks cw_temps cw_vars freed] in R3. rewrite (nth_error_nth _ _ _ Hb), upd_length in R3. rewrite (nth_error_nth _ _ _ Ha) in R3 |- *. exact R3.
      * cbn [cw_mem cw_blocks cw_temps]. intros u Hu'. apply Hu. intros C. destruct Hps as [P1 P2]. apply new_array_cells in C; auto.
        apply (Hu' (CBlock (v_lay (new_array (aa_order a) base shape)) base true)); [apply in_or_app; left; apply in_or_app; right; now left|exact C].
      * cbn [cw_blocks cw_temps]. intros c Hc. apply in_app_or in Hc. destruct Hc as [Hc|Hc]; [|exists c; split; auto; apply in_or_app; now right].
        destruct (freed_keeps w k c Lb Hc) as (b' & Hb' & S). unfold freed in Hb'. cbn [cw_blocks] in Hb'. rewrite (nth_error_nth _ _ _ Hb) in Hb'. exists b'. split; [apply in_or_app; left; apply in_or_app; now left|exact S].
  - destruct HL as (RG & _ & _ & _ & _ & Ae & Af & n & k & p & He & Hf & Hn & Hk & Hp & In' & Ik & Ip).
    destruct (factor_facts A s w e n k HZ R He Ae Hn Hk In' Ik) as (Pl & Fl & Rl & Vl & Ul & _). destruct (factor_facts A s w f k p HZ R Hf Af Hk Hp Ik Ip) as (Pr & Fr & Rr & Vr & Ur & _).
    pose proof (product_stored_policy A s w e f n k p HZ R He Hf Ae Af Hn Hk Hp In' Ik Ip) as Eso. destruct (plain_policy _ (M_Program.factor A w f) n k Pl Fl) as [_ Ho].
    rewrite (operand_fits_shape _ _ _ Fl), (operand_fits_shape _ _ _ Fr). set (l := M_Program.factor A w e) in *. set (r := M_Program.factor A w f) in *. rewrite Eso in Ho |- *. set (so := product_stored s e f) in *.
    change (nthZ [n; k] 0) with n. change (nthZ [k; p] 1) with p.
    assert (Pr2 : forall a b, prodZ [a; b] = a * b) by (intros a b; cbn [prodZ fold_right]; lia).
    destruct (reserve alloc w true so [n; p]) as [b1 w1] eqn:E1. destruct (reserve alloc w1 (copied e) so [n; k]) as [b2 w2] eqn:E2. destruct (reserve alloc w2 (copied f) so [k; p]) as [b3 w3] eqn:E3.
    destruct (reserve_fresh _ _ _ _ _ _ _ HA E1) as [N1 A1]. destruct (reserve_fresh _ _ _ _ _ _ _ HA E2) as [N2 A2]. destruct (reserve_fresh _ _ _ _ _ _ _ HA E3) as [N3 A3]. rewrite Pr2 in *.
    assert (M2 : forall a, used l b2 (n * k) a -> ~ alive_cell w1 a) by (intros a Ha; apply N2; apply Ul in Ha; apply Ha).
    assert (M3 : forall a, used r b3 (k * p) a -> ~ alive_cell w2 a) by (intros a Ha; apply N3; apply Ur in Ha; apply Ha).
    assert (K1 : forall a, alive_cell w a -> alive_cell w1 a) by (intros a Ha; apply A1; now left). assert (K2 : forall a, alive_cell w1 a -> alive_cell w2 a) by (intros a Ha; apply A2; now left).
    destruct (matmul_plain A RG checks b1 b2 b3 b1 b1 l r (alive_cell w) (cw_mem w) n k p Pl Pr Fl Fr Rl Rr) as (m & E & Hh & Hu).
    { intros a Ha C. exact (M2 a Ha (K1 a C)). }
    { intros a Ha [C|C]; apply (M3 a Ha); [auto|]. apply A2. right. now apply Ul. }
    { intros a Ha [[C|C]|C]; [exact (N1 a Ha C)|apply (M2 a C)|apply (M3 a C), K2]; apply A1; right; auto. }
    cbv zeta in E, Hh. rewrite Eso in E, Hh. fold so in E, Hh. rewrite E. eexists. split; [reflexivity|].
    assert (Hps : possible_shape [n; p]) by (split; [repeat constructor; lia|cbn [length]; lia]). rewrite (shape_of_shaped s e [n; k] He), (shape_of_shaped s f [k; p] Hf). change (nthZ [n; k] 0) with n. change (nthZ [k; p] 1) with p. change (nthZ [n; k] 1) with k.
    split; [|split].
    + apply rel_add; auto.
      * intros b a Hb Al Bl. rewrite Pr2. intros C. apply (N1 a C). exists b. auto.
      * eapply holds_ext; [|exact Hh]. intros idx Hi. inversion Hi as [|i ? q ? Q1 Q2]; subst. inversion Q2 as [|j ? q' ? Q3 Q4]; subst. inversion Q4; subst. unfold inr in *. cbv beta. change (nthZ [i; j] 0) with i. change (nthZ [i; j] 1) with j.
        unfold product_at. apply sum_to_ext. intros q Hq. rewrite Vl, Vr by auto. reflexivity.
      * intros b a Hb Al Bl. assert (Ca : alive_cell w a) by (exists b; auto). apply Hu; [intros C; exact (M2 a C (K1 a Ca))|intros C; exact (M3 a C (K2 a (K1 a Ca)))|intros C; exact (N1 a C Ca)].
    + cbn [cw_mem cw_blocks cw_temps]. intros a Ha. apply Hu.
      * intros C. apply Ul in C. destruct C as [Ce C]. rewrite Ce in Ha. apply (Ha (CBlock (v_lay (new_array so b2 [n; k])) b2 false)); [apply in_or_app; right; apply in_or_app; left; now left|]. unfold in_block. cbn [cb_base cb_lay new_array v_lay im_len idx_map_of_shape]. now rewrite Pr2.
      * intros C. apply Ur in C. destruct C as [Ce C]. rewrite Ce in Ha. apply (Ha (CBlock (v_lay (new_array so b3 [k; p])) b3 false)); [apply in_or_app; right; apply in_or_app; right; apply in_or_app; left; now left|]. unfold in_block. cbn [cb_base cb_lay new_array v_lay im_len idx_map_of_shape]. now rewrite Pr2.
      * intros C. apply (Ha (CBlock (v_lay (new_array so b1 [n; p])) b1 true)); [apply in_or_app; left; apply in_or_app; right; now left|]. unfold in_block. cbn [cb_base cb_lay new_array v_lay im_len idx_map_of_shape]. now rewrite Pr2.
    + cbn [cw_blocks cw_temps]. intros b Hb. exists b. split; auto. apply in_app_or in Hb. rewrite !in_app_iff. tauto.
  - destruct HL as (RG & _ & _ & _ & _ & Ae & n & k & He & Hf & Hn & Hk & In' & Ik).
    destruct (factor_facts A s w e n k HZ R He Ae Hn Hk In' Ik) as (Pl & Fl & Rl & Vl & Ul & _).
    rewrite (operand_fits_shape _ _ _ Fl), (build_shape s w (v_zero A) f [k] R Hf). set (l := M_Program.factor A w e) in *. change (nthZ [n; k] 0) with n.
    assert (Pr2 : forall a b, prodZ [a; b] = a * b) by (intros a b; cbn [prodZ fold_right]; lia). assert (Pr1 : forall a, prodZ [a] = a) by (intros a; cbn [prodZ fold_right]; lia).
    destruct (reserve alloc w true [0%nat] [n]) as [b1 w1] eqn:E1. destruct (reserve alloc w1 (copied e) [0; 1]%nat [n; k]) as [b2 w2] eqn:E2. destruct (reserve alloc w2 true [0%nat] [k]) as [b3 w3] eqn:E3.
    destruct (reserve_fresh _ _ _ _ _ _ _ HA E1) as [N1 A1]. destruct (reserve_fresh _ _ _ _ _ _ _ HA E2) as [N2 A2]. destruct (reserve_fresh _ _ _ _ _ _ _ HA E3) as [N3 A3]. rewrite ?Pr2, ?Pr1 in *.
    assert (M2 : forall a, used l b2 (n * k) a -> ~ alive_cell w1 a) by (intros a Ha; apply N2; apply Ul in Ha; apply Ha).
    assert (K1 : forall a, alive_cell w a -> alive_cell w1 a) by (intros a Ha; apply A1; now left). assert (K2 : forall a, alive_cell w1 a -> alive_cell w2 a) by (intros a Ha; apply A2; now left).
    assert (Rf : forall idx m1 m2, in_range idx [k] -> (forall a, alive_cell w a -> m1 a = m2 a) -> expr_at A m1 (build w (v_zero A) f) idx = expr_at A m2 (build w (v_zero A) f) idx).
    { intros idx m1 m2 Hi Hm. apply (build_local A s w f [k]); auto. }
    destruct (matvec_plain A RG checks b1 b2 b3 b1 l (fun m idx => expr_at A m (build w (v_zero A) f) idx) (alive_cell w) (cw_mem w) n k Pl Fl Rl Rf) as (m & E & Hh & Hu).
    { intros a Ha C. exact (M2 a Ha (K1 a C)). }
    { intros a Ha [C|C]; apply (N3 a Ha); [auto|]. apply A2. right. now apply Ul. }
    { intros a Ha [[C|C]|C]; [exact (N1 a Ha C)|apply (M2 a C)|apply (N3 a C), K2]; apply A1; right; auto. }
    cbv zeta in E, Hh. rewrite E. eexists. split; [reflexivity|].
    assert (Hps : possible_shape [n]) by (split; [repeat constructor; lia|cbn [length]; lia]). rewrite (shape_of_shaped s e [n; k] He). change (nthZ [n; k] 0) with n. change (nthZ [n; k] 1) with k.
    split; [|split].
    + apply rel_add; auto.
      * unfold is_order; cbn [seq length]; reflexivity.
      * intros b a Hb Al Bl. rewrite Pr1. intros C. apply (N1 a C). exists b. auto.
      * eapply holds_ext; [|exact Hh]. intros idx Hi. inversion Hi as [|i ? q ? Q1 Q2]; subst. inversion Q2; subst. unfold inr in *. cbv beta. change (nthZ [i] 0) with i.
        apply sum_to_ext. intros q Hq. rewrite Vl by auto. f_equal. apply (build_value A s w f [k]); auto. constructor; [exact Hq|constructor].
      * intros b a Hb Al Bl. assert (Ca : alive_cell w a) by (exists b; auto). apply Hu; [intros C; exact (M2 a C (K1 a Ca))|intros C; exact (N3 a C (K2 a (K1 a Ca)))|intros C; exact (N1 a C Ca)].
    + cbn [cw_mem cw_blocks cw_temps]. intros a Ha. apply Hu.
      * intros C. apply Ul in C. destruct C as [Ce C]. rewrite Ce in Ha. apply (Ha (CBlock (v_lay (new_array [0; 1]%nat b2 [n; k])) b2 false)); [apply in_or_app; right; apply in_or_app; left; now left|]. unfold in_block. cbn [cb_base cb_lay new_array v_lay im_len idx_map_of_shape]. now rewrite Pr2.
      * intros C. apply (Ha (CBlock (v_lay (new_array [0%nat] b3 [k])) b3 false)); [apply in_or_app; right; apply in_or_app; right; apply in_or_app; left; now left|]. unfold in_block. cbn [cb_base cb_lay new_array v_lay im_len idx_map_of_shape]. now rewrite Pr1.
      * intros C. apply (Ha (CBlock (v_lay (new_array [0%nat] b1 [n])) b1 true)); [apply in_or_app; left; apply in_or_app; right; now left|]. unfold in_block. cbn [cb_base cb_lay new_array v_lay im_len idx_map_of_shape]. now rewrite Pr1.
    + cbn [cw_blocks cw_temps]. intros b Hb. exists b. split; auto. apply in_app_or in Hb. rewrite !in_app_iff. tauto.
Qed.
