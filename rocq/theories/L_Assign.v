(** Lemmas on assignment. *)
From Verif Require Import Base M_Perm L_Perm M_IdxMap M_Slice M_Loops M_Assign S_Layout S_Loops S_Assign L_IdxMap L_Slice L_Layout L_Loops.

(** ** sequences of writes *)
Lemma mset_eq {V} (m : mem V) a v : mset m a v a = v.
Proof. unfold mset. now rewrite Z.eqb_refl. Qed.
Lemma mset_neq {V} (m : mem V) a b v : b <> a -> mset m a v b = m b.
Proof. intros H. unfold mset. destruct (Z.eqb_spec b a); congruence. Qed.

Lemma write_frame {K V} (L : list K) (ad : K -> Z) (val : mem V -> K -> V) m a : ~ In a (map ad L) ->
  fold_left (fun m k => mset m (ad k) (val m k)) L m a = m a.
Proof.
  revert m; induction L as [|k L IH]; intros m H; [reflexivity|]. cbn [fold_left map] in *.
  rewrite IH by (intros C; apply H; now right). apply mset_neq. intros C; apply H; now left.
Qed.

Lemma write_values {K V} (L : list K) (ad : K -> Z) (val : mem V -> K -> V) m : NoDup (map ad L) ->
  (forall k m1 m2, In k L -> (forall a, a = ad k \/ ~ In a (map ad L) -> m1 a = m2 a) -> val m1 k = val m2 k) ->
  forall k, In k L -> fold_left (fun m k => mset m (ad k) (val m k)) L m (ad k) = val m k.
Proof.
  revert m; induction L as [|k0 L IH]; intros m ND Hv k Hk; [contradiction|]. cbn [fold_left map] in *.
  inversion ND as [|x l Hn ND']; subst. destruct Hk as [->|Hk].
  - rewrite write_frame by auto. apply mset_eq.
  - rewrite IH; auto.
    + apply Hv; [now right|]. intros a Ha. apply mset_neq. intros ->. destruct Ha as [Ha|Ha]; [|apply Ha; now left].
      apply Hn. rewrite Ha. now apply in_map.
    + intros k1 m1 m2 Hk1 Ha. apply Hv; [now right|]. intros a [E|E]; apply Ha; [now left|]. right. intros C. apply E. now right.
Qed.

Lemma NoDup_map_on {A B} (f : A -> B) l : NoDup l -> (forall x y, In x l -> In y l -> f x = f y -> x = y) -> NoDup (map f l).
Proof.
  induction 1 as [|x l Hn ND IH]; intros H; cbn [map]; constructor.
  - intros C. apply in_map_iff in C. destruct C as [y [E Hy]]. apply Hn. rewrite (H x y); auto; [now left|now right].
  - apply IH. intros; apply H; auto; now right.
Qed.

Lemma fold_left_map {A B C} (f : A -> B -> A) (g : C -> B) l a : fold_left f (map g l) a = fold_left (fun a x => f a (g x)) l a.
Proof. revert a; induction l as [|x l IH]; intros a; cbn [map fold_left]; auto. Qed.
Lemma fold_left_ext_in {A B} (f g : A -> B -> A) l a : (forall a x, In x l -> f a x = g a x) -> fold_left f l a = fold_left g l a.
Proof.
  revert a; induction l as [|x l IH]; intros a H; cbn [fold_left]; auto. rewrite H by now left. apply IH. intros; apply H; now right.
Qed.
Lemma fold_left_flat_map {A B C} (f : A -> B -> A) (g : C -> list B) l a :
  fold_left f (flat_map g l) a = fold_left (fun a x => fold_left f (g x) a) l a.
Proof. revert a; induction l as [|x l IH]; intros a; cbn [flat_map fold_left]; auto. now rewrite fold_left_app, IH. Qed.

(** ** elements of usable views *)
Lemma truthful_wf m : truthful m -> wf m.
Proof. now intros [H _]. Qed.
Lemma truthful_flags m : truthful m -> flags_true m.
Proof. now intros [_ H]. Qed.
Lemma usable_truthful m : usable m -> truthful m.
Proof. now intros [H _]. Qed.
Lemma usable_wf m : usable m -> wf m.
Proof. now intros [[H _] _]. Qed.
Lemma usable_flags m : usable m -> flags_true m.
Proof. now intros [[_ H] _]. Qed.
Lemma usable_inj m i j : usable m -> valid_idx m i -> valid_idx m j -> addr m i = addr m j -> i = j.
Proof. intros [_ H]. apply H. Qed.
#[export] Hint Resolve truthful_wf truthful_flags usable_truthful usable_wf usable_flags : core.
Lemma view_of_weaken (P Q : Z -> Prop) n off m : (forall s, P s -> Q s) -> view_of P n off m -> view_of Q n off m.
Proof.
  intros HPQ. induction 1 as [so se p junk shape Ho Lj Lse Hnn HR Hn|off m args o m' Hv IH HS Hst Hb HD|off m p Hv IH Ho].
  - now apply vo_fresh.
  - eapply vo_slice; eauto. intros r Hr. destruct (Hst r Hr). auto.
  - now apply vo_transpose.
Qed.
Lemma view_usable P n off m : view_of P n off m -> usable m.
Proof.
  intros H. apply (view_of_weaken _ (fun _ => True)) in H; [|auto].
  split; [split; [eapply view_wf; eauto|eapply view_flags; eauto]|]. intros i j. eapply view_injective; eauto.
Qed.

Lemma elem_cell v idx : wf (v_lay v) -> flags_true (v_lay v) -> length idx = rank (v_lay v) -> elem v idx = cell v idx.
Proof.
  intros W [_ Hf] L. unfold elem, cell, addr. rewrite call_impl_longs; auto. destruct W as (Ls & _). unfold rank in L. lia.
Qed.
Lemma elem_cell_in v idx : truthful (v_lay v) -> in_view v idx -> elem v idx = cell v idx.
Proof. intros B H. apply elem_cell; auto using usable_wf, usable_flags. now apply in_range_length in H. Qed.

Lemma cell_inj v i j : usable (v_lay v) -> in_view v i -> in_view v j -> cell v i = cell v j -> i = j.
Proof. intros B Hi Hj E. unfold cell in E. eapply usable_inj; eauto. lia. Qed.

Lemma in_cells v L a : (forall idx, In idx L <-> in_view v idx) -> In a (map (cell v) L) <-> is_cell_of v a.
Proof.
  intros H. rewrite in_map_iff. split.
  - intros [idx [<- Hi]]. exists idx. split; [now apply H|reflexivity].
  - intros [idx [Hi ->]]. exists idx. split; [reflexivity|now apply H].
Qed.

(** any enumeration of the elements *)
Lemma write_view {V} (v : view) L (val : mem V -> list Z -> V) m : usable (v_lay v) -> NoDup L ->
  (forall idx, In idx L <-> in_view v idx) -> reads_own_element v val ->
  let m' := fold_left (fun m idx => mset m (cell v idx) (val m idx)) L m in
  holds v m' (val m) /\ unchanged_outside v m m'.
Proof.
  intros B ND HL Hr m'. assert (NDc : NoDup (map (cell v) L)).
  { apply NoDup_map_on; auto. intros x y Hx Hy. apply cell_inj; auto; now apply HL. }
  split.
  - intros idx Hi. unfold m'. apply (write_values L (cell v) val m NDc); [|now apply HL].
    intros k m1 m2 Hk Ha. apply Hr; [now apply HL|]. intros a H. apply Ha. destruct H as [H|H]; [now left|right]. now rewrite (in_cells v).
  - intros a Ha. unfold m'. apply write_frame. now rewrite (in_cells v).
Qed.

Lemma reads_not_own {V} dst (e : mem V -> list Z -> V) : reads_not dst e -> reads_own_element dst e.
Proof. intros H idx m1 m2 Hi Ha. apply H; auto. Qed.

Lemma holds_unique {V} v (m m1 m2 : mem V) f : holds v m1 f -> unchanged_outside v m m1 -> holds v m2 f -> unchanged_outside v m m2 ->
  (forall a, is_cell_of v a \/ ~ is_cell_of v a) -> forall a, m1 a = m2 a.
Proof.
  intros H1 U1 H2 U2 D a. destruct (D a) as [(idx & Hi & ->)|Hn].
  - now rewrite H1, H2.
  - now rewrite U1, U2.
Qed.

Lemma is_cell_dec v a : is_cell_of v a \/ ~ is_cell_of v a.
Proof.
  destruct (in_dec Z.eq_dec a (map (cell v) (all_idx (im_len (v_lay v))))) as [H|H]; rewrite in_cells in H; auto; intros; apply all_idx_In.
Qed.

(** ** element-wise path *)
Lemma assign_elementwise_fold {V} dst (r : rhs V) m : usable (v_lay dst) ->
  assign_elementwise dst r m = fold_left (fun m idx => mset m (cell dst idx) (rhs_at r m idx)) (all_idx (im_len (v_lay dst))) m.
Proof.
  intros B. unfold assign_elementwise. rewrite for_each_fold. apply fold_left_ext_in. intros a x Hx. f_equal. apply elem_cell_in; auto. now apply all_idx_In.
Qed.

Lemma assign_elementwise_spec {V} dst (r : rhs V) m : usable (v_lay dst) -> reads_own_element dst (rhs_at r) ->
  holds dst (assign_elementwise dst r m) (rhs_at r m) /\ unchanged_outside dst m (assign_elementwise dst r m).
Proof.
  intros B Hr. rewrite assign_elementwise_fold by auto. apply write_view; auto using all_idx_NoDup. intros; apply all_idx_In.
Qed.

(** ** linear path *)
Definition order_nth (m : idx_map) (k : Z) : list Z := apply_inverse 0 (im_so m) (digits (apply 0 (im_so m) (im_len m)) k).
Lemma order_list_map m : order_list m = map (order_nth m) (zseq (size m)).
Proof. unfold order_list. now rewrite size_prodZ. Qed.
Lemma order_nth_valid m k : wf m -> 0 <= k < size m -> valid_idx m (order_nth m k) /\ seq_number (im_so m) (im_len m) (order_nth m k) = k.
Proof.
  intros W Hk. destruct (order_list_spec m W) as [HL HN]. rewrite order_list_map in HL, HN. rewrite map_length, zseq_length in HL, HN.
  specialize (HN (Z.to_nat k) ltac:(lia)). rewrite (nth_map_lt _ _ _ [] 0) in HN by (rewrite zseq_length; lia).
  rewrite nth_zseq in HN by lia. now rewrite Z2Nat.id in HN by lia.
Qed.

Lemma lin_elem_spec v k : wf (v_lay v) -> flags_true (v_lay v) -> has_strided_1d (im_prop (v_lay v)) = true -> 0 <= k < size (v_lay v) ->
  lin_elem v k = Some (cell v (order_nth (v_lay v) k)).
Proof.
  intros W [F1 F2] Hs Hk. destruct (order_nth_valid _ k W Hk) as [Hv Hq]. unfold cell.
  rewrite (regular_strided_1d _ W (F1 Hs) _ Hv), Hq. unfold lin_elem.
  destruct (im_prop (v_lay v)); try discriminate; [f_equal; ring|]. rewrite (F2 eq_refl). f_equal. ring.
Qed.

Lemma fold_left_some {A B} (f : A -> B -> A) l a : fold_left (fun oa x => match oa with Some a => Some (f a x) | None => None end) l (Some a) = Some (fold_left f l a).
Proof. revert a; induction l as [|x l IH]; intros a; cbn [fold_left]; auto. Qed.

Lemma assign_linear_fold {V} dst src (m : mem V) : usable (v_lay dst) -> truthful (v_lay src) ->
  im_len (v_lay src) = im_len (v_lay dst) -> im_so (v_lay src) = im_so (v_lay dst) ->
  has_strided_1d (im_prop (v_lay dst)) = true -> has_strided_1d (im_prop (v_lay src)) = true ->
  assign_linear dst src m = Some (fold_left (fun m idx => mset m (cell dst idx) (m (elem src idx))) (order_list (v_lay dst)) m).
Proof.
  intros Bd Bs El Eo Hd Hs. unfold assign_linear. rewrite order_list_map, fold_left_map. rewrite <- fold_left_some.
  apply fold_left_ext_in. intros om k Hk. apply zseq_In in Hk. destruct om as [m1|]; auto.
  rewrite (lin_elem_spec dst) by auto using usable_wf, usable_flags.
  assert (Es : size (v_lay src) = size (v_lay dst)) by (rewrite !size_prodZ; now rewrite El).
  rewrite (lin_elem_spec src) by (rewrite ?Es; auto using usable_wf, usable_flags).
  assert (E : order_nth (v_lay src) k = order_nth (v_lay dst) k) by (unfold order_nth; now rewrite El, Eo). rewrite E.
  rewrite (elem_cell_in src); auto. unfold in_view. rewrite <- E. apply order_nth_valid; [auto|lia].
Qed.

Lemma src_reads_not {V} dst src : truthful (v_lay src) -> im_len (v_lay src) = im_len (v_lay dst) -> disjoint dst src ->
  @reads_not V dst (rhs_at (RMem src)).
Proof.
  intros B El D idx m1 m2 Hi Ha. cbn [rhs_at]. assert (Hs : in_view src idx) by (unfold in_view, valid_idx in *; now rewrite El).
  rewrite (elem_cell_in src) by auto. apply Ha. intros C. apply (D _ C). exists idx. now split.
Qed.

Lemma assign_linear_spec {V} dst src (m : mem V) : usable (v_lay dst) -> truthful (v_lay src) ->
  im_len (v_lay src) = im_len (v_lay dst) -> im_so (v_lay src) = im_so (v_lay dst) ->
  has_strided_1d (im_prop (v_lay dst)) = true -> has_strided_1d (im_prop (v_lay src)) = true ->
  reads_own_element dst (rhs_at (@RMem V src)) ->
  exists m', assign_linear dst src m = Some m' /\ holds dst m' (rhs_at (RMem src) m) /\ unchanged_outside dst m m'.
Proof.
  intros Bd Bs El Eo Hd Hs Hr. rewrite assign_linear_fold by auto. eexists. split; [reflexivity|].
  apply (write_view dst (order_list (v_lay dst)) (rhs_at (RMem src)) m); auto.
  - apply order_list_NoDup, usable_wf; auto.
  - intros; apply order_list_In, usable_wf; auto.
Qed.

(** with C order the linear loop is the element-wise loop, step by step *)
Lemma order_list_C m : wf m -> im_so m = identity (rank m) -> order_list m = all_idx (im_len m).
Proof.
  intros W E. pose proof W as (Ls & Hp & Lse & Hnn & HR). rewrite all_idx_digits by auto. unfold order_list. apply map_ext. intros k.
  assert (Hd : forall x : list Z, length x = rank m -> apply_inverse 0 (im_so m) x = x).
  { intros x Hx. rewrite E. rewrite <- Hx. rewrite <- (apply_identity x) at 2. apply (apply_inverse_apply 0 (length x)); auto. apply is_perm_identity. }
  rewrite E at 2. unfold rank. rewrite apply_identity. apply Hd. now rewrite digits_length.
Qed.

(** ** the whole of assign_from_ndarray, host *)
Lemma same_stride_order_eq a b : same_stride_order a b = true -> im_so a = im_so b.
Proof. unfold same_stride_order. destruct (list_eq_dec _ _ _); congruence. Qed.

Lemma no_elements v : size (v_lay v) = 0 -> forall idx, ~ in_view v idx.
Proof.
  intros E idx H. rewrite size_prodZ in E. unfold in_view, valid_idx in H. apply in_range_pos, prodZ_pos in H. lia.
Qed.

Lemma assign_host {V} checks dst (r : rhs V) m : usable (v_lay dst) ->
  (forall src, r = RMem src -> truthful (v_lay src) /\ im_len (v_lay src) = im_len (v_lay dst)) ->
  reads_own_element dst (rhs_at r) ->
  exists m', assign_from_ndarray checks true dst (im_len (v_lay dst)) r m = Some m' /\ holds dst m' (rhs_at r m) /\ unchanged_outside dst m m'.
Proof.
  intros B Hs Hr. unfold assign_from_ndarray. destruct (list_eq_dec Z.eq_dec _ _) as [_|C]; [|congruence]. rewrite andb_false_r.
  assert (FB : exists m', Some (assign_elementwise dst r m) = Some m' /\ holds dst m' (rhs_at r m) /\ unchanged_outside dst m m').
  { eexists. split; [reflexivity|]. now apply assign_elementwise_spec. }
  destruct r as [src|e]; [|exact FB]. destruct (Hs src eq_refl) as [Bs El].
  destruct (same_stride_order _ _) eqn:Eo; [|exact FB]. apply same_stride_order_eq in Eo.
  destruct (Z.eqb_spec (size (v_lay src)) 0) as [E0|E0].
  - exists m. split; auto. split; [|intros a _; reflexivity]. intros idx Hi. exfalso. apply (no_elements dst) in Hi; auto.
    rewrite size_prodZ in *. now rewrite <- El.
  - destruct (has_strided_1d (im_prop (v_lay dst))) eqn:H1, (has_strided_1d (im_prop (v_lay src))) eqn:H2; try exact FB.
    now apply assign_linear_spec.
Qed.

(** ** block layouts *)
Lemma int32_small x : - 2 ^ 31 <= x < 2 ^ 31 -> int32 x = x.
Proof. intros H. unfold int32. rewrite Z.mod_small; [ring|]. change (2^31) with 2147483648 in *. change (2^32) with 4294967296. lia. Qed.

Definition inner_of (L S' : list Z) : Z := match L, S' with l :: _, s :: _ => s * l | _, _ => 1 end.
Fixpoint blk (sz D : Z) (L S' : list Z) (st : option block_st) : option block_st :=
  match L, S' with
  | l :: L1, s :: S1 =>
      blk sz D L1 S1
        (match st with
         | None => None
         | Some b => if negb (s =? inner_of L1 S1) then
                       if b_size b <? D then None
                       else Some (BlockSt (int32 (Z.quot sz (inner_of L1 S1))) (int32 (inner_of L1 S1)) (int32 s))
                     else Some b
         end)
  | _, _ => st
  end.

Lemma skipn_head (l : list Z) k : (k < length l)%nat -> skipn k l = nthZ l k :: skipn (S k) l.
Proof. apply skipn_cons_nth. Qed.

Lemma fold_blk m D n k st : wf m -> (n + k = rank m)%nat ->
  fold_left (block_step m D) (seq n k) st =
  blk (size m) D (skipn n (apply 0 (im_so m) (im_len m))) (skipn n (apply 0 (im_so m) (im_str m))) st.
Proof.
  intros (Ls & Hp & Lse & Hnn & HR) E. unfold rank in E. pose proof (is_perm_length _ _ Hp) as Lso.
  pose proof (apply_length 0 (im_so m) (im_len m)) as LL. pose proof (apply_length 0 (im_so m) (im_str m)) as LS.
  revert n st E; induction k as [|k IH]; intros n st E; cbn [seq fold_left].
  - rewrite !skipn_all2 by lia. reflexivity.
  - rewrite IH by lia. rewrite (skipn_head _ n), (skipn_head (apply 0 (im_so m) (im_str m)) n) by lia.
    cbn [blk]. f_equal. destruct st as [b|]; [|reflexivity]. unfold block_step.
    assert (Ei : (if Nat.eqb n (rank m - 1) then 1 else nthZ (im_str m) (nthN (im_so m) (n + 1)) * nthZ (im_len m) (nthN (im_so m) (n + 1))) =
      inner_of (skipn (S n) (apply 0 (im_so m) (im_len m))) (skipn (S n) (apply 0 (im_so m) (im_str m)))).
    { unfold rank. destruct (Nat.eqb_spec n (length (im_len m) - 1)) as [En|En].
      - rewrite !skipn_all2 by lia. reflexivity.
      - rewrite (skipn_head _ (S n)), (skipn_head (apply 0 (im_so m) (im_str m)) (S n)) by lia. cbn [inner_of].
        rewrite !apply_skipn_nth by lia. now rewrite Nat.add_1_r. }
    rewrite Ei. rewrite !apply_skipn_nth by lia. reflexivity.
Qed.

(** every break leaves a block smaller than the whole *)
Fixpoint breaks_below (D : Z) (L S' : list Z) : Prop :=
  match L, S' with
  | l :: L1, s :: S1 => (s <> inner_of L1 S1 -> inner_of L1 S1 < D) /\ breaks_below D L1 S1
  | _, _ => True
  end.

Lemma blk_none sz D L S' : blk sz D L S' None = None.
Proof. revert S'; induction L as [|l L IH]; intros [|s S']; cbn [blk]; auto. Qed.

Lemma inner_suffix L : inner_of L (suffix_prods L) = prodZ L.
Proof. destruct L as [|l L]; [reflexivity|]. cbn [inner_of suffix_prods]. rewrite prodZ_cons. ring. Qed.

Lemma blk_broken sz D L S' b b' : length L = length S' -> b_size b < D -> blk sz D L S' (Some b) = Some b' -> b' = b /\ S' = suffix_prods L.
Proof.
  revert S'; induction L as [|l L IH]; intros [|s S'] EL Hb H; try discriminate; cbn [blk] in H.
  - injection H as <-. now split.
  - destruct (Z.eqb_spec s (inner_of L S')) as [E|E]; cbn [negb] in H.
    + destruct (IH S' ltac:(simpl in EL; lia) Hb H) as [-> ->]. split; auto. cbn [suffix_prods]. f_equal. rewrite E. apply inner_suffix.
    + replace (b_size b <? D) with true in H by (symmetry; lia). now rewrite blk_none in H.
Qed.

Lemma blk_unbroken sz D L S' b b' : length L = length S' -> L <> [] -> D <= b_size b -> breaks_below D L S' -> 0 <= sz < 2 ^ 31 ->
  Forall (fun l => 1 <= l) L -> Forall (fun s => 1 <= s < 2 ^ 31) S' -> D < 2 ^ 31 ->
  blk sz D L S' (Some b) = Some b' ->
  (b' = b /\ S' = suffix_prods L) \/
  (exists A B d, L = A ++ B /\ A <> [] /\ S' = map (Z.mul d) (suffix_prods A) ++ suffix_prods B /\ b' = BlockSt (Z.quot sz (prodZ B)) (prodZ B) d).
Proof.
  intros EL HL HD. revert S' EL HL; induction L as [|l L IH]; intros [|s S'] EL HL Hbr Hsz Hl Hs HD2 H; try congruence; try discriminate.
  cbn [blk breaks_below] in *. destruct Hbr as [Hbr Hbr']. inversion Hl as [|l0 L0 Hl1 Hl2]; inversion Hs as [|s0 S0 Hs1 Hs2]; subst.
  assert (Lt : length L = length S') by (simpl in EL; lia).
  assert (I1 : 1 <= inner_of L S').
  { destruct L as [|l1 L], S' as [|s1 S']; try discriminate Lt; cbn [inner_of]; [lia|].
    inversion Hl2; inversion Hs2; subst. nia. }
  destruct (Z.eqb_spec s (inner_of L S')) as [E|E]; cbn [negb] in H.
  - destruct L as [|l1 L].
    + destruct S'; [|discriminate]. left. cbn [blk] in H. injection H as <-. split; auto. cbn [suffix_prods]. rewrite prodZ_nil. cbn [inner_of] in E. now subst s.
    + destruct (IH S' Lt ltac:(discriminate) Hbr' Hsz Hl2 Hs2 HD2 H) as [[-> ES]|(A & B & d & EA & HA & ES & ->)].
      * left. split; auto. cbn [suffix_prods]. f_equal; [|exact ES]. rewrite E, ES. apply inner_suffix.
      * right. exists (l :: A), B, d. rewrite EA. split; [reflexivity|]. split; [discriminate|]. split; [|reflexivity].
        cbn [suffix_prods map app]. f_equal; [|exact ES]. rewrite E, ES, EA. destruct A as [|a A]; [congruence|]. cbn [app suffix_prods map inner_of].
        rewrite prodZ_cons. ring.
  - replace (b_size b <? D) with false in H by (symmetry; lia). specialize (Hbr E).
    rewrite !int32_small in H.
    + apply blk_broken in H; auto. destruct H as [-> ES]. right. exists [l], L, s. split; [reflexivity|]. split; [discriminate|].
      split; [cbn [suffix_prods map app]; rewrite prodZ_nil, Z.mul_1_r; now rewrite ES|].
      rewrite ES at 1 2. now rewrite inner_suffix.
    + split; [|lia]. lia.
    + split; [|lia]. lia.
    + pose proof (Z.quot_le_upper_bound sz (inner_of L S') sz ltac:(lia) ltac:(nia)). pose proof (Z.quot_pos sz (inner_of L S') ltac:(lia) ltac:(lia)).
      split; [|lia]. lia.
Qed.

Lemma radix_app A B da db : length da = length A -> radix (A ++ B) (da ++ db) = radix A da * prodZ B + radix B db.
Proof.
  revert da; induction A as [|a A IH]; intros [|x da] E; try discriminate; cbn [app radix]; [ring|].
  rewrite IH by (simpl in E; lia). rewrite prodZ_app. ring.
Qed.

Lemma Forall_apply_to (P : Z -> Prop) so l n : is_perm n so -> length l = n -> Forall P l -> Forall P (apply 0 so l).
Proof. intros Hp L. apply (Forall_apply P n); auto. Qed.

Lemma in_range_skip A B j : in_range j (A ++ B) -> in_range (skipn (length A) j) B.
Proof.
  revert j. induction A as [|a A IH]; intros j Hr; cbn [length skipn app] in *; [exact Hr|].
  inversion Hr as [|x l j' l' H1 H2]; subst. apply IH; auto.
Qed.

Lemma block_layout_true m b : wf m -> Forall (fun l => 1 <= l) (im_len m) -> Forall (fun s => 1 <= s) (im_str m) -> fits_int m ->
  breaks_below (nthZ (apply 0 (im_so m) (im_len m)) 0 * nthZ (apply 0 (im_so m) (im_str m)) 0) (apply 0 (im_so m) (im_len m)) (apply 0 (im_so m) (im_str m)) ->
  get_block_layout m = Some b -> is_block_layout m (b_n b) (b_size b) (b_str b).
Proof.
  intros W Hl Hs [Fsz Ff] Hbr H. pose proof W as (Ls & Hp & Lse & Hnn & HR). pose proof (is_perm_length _ _ Hp) as Lso.
  unfold get_block_layout in H. rewrite fold_blk in H by auto. cbn [skipn] in H.
  rewrite !apply_skipn_nth in Hbr by lia. set (D := nthZ (im_len m) (nthN (im_so m) 0) * nthZ (im_str m) (nthN (im_so m) 0)) in *.
  assert (P0 : (nthN (im_so m) 0 < length (im_len m))%nat) by (apply is_perm_lt; auto; lia).
  assert (HD : D < 2 ^ 31) by (apply Ff; exact P0).
  assert (GL : forall k, (k < length (im_len m))%nat -> 1 <= nthZ (im_len m) k) by (intros k Hk; rewrite Forall_forall in Hl; apply Hl, nth_In; auto).
  assert (GS : forall k, (k < length (im_len m))%nat -> 1 <= nthZ (im_str m) k) by (intros k Hk; rewrite Forall_forall in Hs; apply Hs, nth_In; lia).
  assert (HD1 : 1 <= D) by (pose proof (GL _ P0); pose proof (GS _ P0); unfold D; nia).
  rewrite int32_small in H by lia.
  assert (EP : prodZ (apply 0 (im_so m) (im_len m)) = prodZ (im_len m)) by (apply prodZ_perm; now apply (apply_Permutation 0 (length (im_len m)))).
  assert (Hpos : 0 < prodZ (im_len m)) by (apply prodZ_pos; eapply Forall_impl; [|exact Hl]; cbn; lia).
  rewrite size_prodZ in H.
  assert (FL : Forall (fun l => 1 <= l) (apply 0 (im_so m) (im_len m))) by (apply (Forall_apply_to _ _ _ (length (im_len m))); auto).
  assert (FS : Forall (fun s => 1 <= s < 2 ^ 31) (apply 0 (im_so m) (im_str m))).
  { apply (Forall_apply_to _ _ _ (length (im_len m))); auto. apply Forall_forall. intros s Hin. destruct (In_nth _ _ 0 Hin) as [k [Hk <-]].
    fold (nthZ (im_str m) k). pose proof (GL k ltac:(lia)). pose proof (GS k ltac:(lia)). specialize (Ff k ltac:(unfold rank; lia)). nia. }
  assert (EA : forall idx, valid_idx m idx -> addr m idx = dot (apply 0 (im_so m) idx) (apply 0 (im_so m) (im_str m)) /\
     in_range (apply 0 (im_so m) idx) (apply 0 (im_so m) (im_len m))).
  { intros idx Hi. split.
    - unfold addr. symmetry. apply (dot_apply (length (im_len m))); auto. now apply in_range_length in Hi.
    - apply (in_range_apply (length (im_len m))); auto. }
  unfold is_block_layout. unfold seq_number. rewrite !in_order_apply. rewrite <- EP in H, Fsz, Hpos |- *.
  assert (NE : apply 0 (im_so m) (im_len m) <> []) by (intros C; apply (f_equal (@length Z)) in C; rewrite apply_length in C; simpl in C; lia).
  assert (LE : length (apply 0 (im_so m) (im_len m)) = length (apply 0 (im_so m) (im_str m))) by now rewrite !apply_length.
  assert (SZ : 0 <= prodZ (apply 0 (im_so m) (im_len m)) < 2 ^ 31) by (split; [apply Z.lt_le_incl; exact Hpos|exact Fsz]).
  destruct (blk_unbroken _ D _ _ (BlockSt 1 D D) b LE NE (Z.le_refl _) Hbr SZ FL FS HD H)
    as [[-> ES]|(A & B & d & E1 & HA & ES & ->)]; cbn [b_n b_size b_str].
  - assert (ED : D = prodZ (apply 0 (im_so m) (im_len m))).
    { transitivity (nthZ (apply 0 (im_so m) (im_len m)) 0 * nthZ (apply 0 (im_so m) (im_str m)) 0); [rewrite !apply_skipn_nth by lia; reflexivity|].
      rewrite ES. destruct (apply 0 (im_so m) (im_len m)) as [|l L]; [congruence|]. reflexivity. }
    rewrite <- ED. split; [ring|]. split; [lia|]. intros idx Hi. destruct (EA idx Hi) as [-> Hr]. rewrite in_order_apply. rewrite ES.
    rewrite dot_suffix_prods by now apply in_range_length in Hr. pose proof (radix_bound _ _ Hr) as Bd. rewrite <- ED in Bd.
    rewrite Z.div_small, Z.mod_small by lia. ring.
  - rewrite E1, prodZ_app in *. assert (PB : 1 <= prodZ B).
    { apply Forall_app in FL. destruct FL as [_ FB]. assert (0 < prodZ B); [|lia]. apply prodZ_pos. eapply Forall_impl; [|exact FB]. cbn; lia. }
    rewrite Z.quot_mul by lia. split; [ring|]. split; [lia|]. intros idx Hi. destruct (EA idx Hi) as [-> Hr]. rewrite in_order_apply, ES.
    pose proof (in_range_length _ _ Hr) as Lr. rewrite app_length in Lr.
    set (j := apply 0 (im_so m) idx) in *. rewrite <- (firstn_skipn (length A) j). 
    assert (La : length (firstn (length A) j) = length A) by (rewrite firstn_length; lia).
    rewrite dot_app by (rewrite map_length, suffix_prods_length; lia).
    rewrite dot_map_mul, !dot_suffix_prods by (rewrite ?skipn_length; lia). rewrite radix_app by auto.
    assert (Rb : in_range (skipn (length A) j) B).
    { now apply in_range_skip. }
    pose proof (radix_bound _ _ Rb) as Bb. rewrite (Z.add_comm (_ * prodZ B)), Z.div_add, Z.mod_add by lia.
    rewrite Z.div_small, Z.mod_small by lia. ring.
Qed.

(** the two conditions under which breaks stay below the data size *)
Lemma breaks_below_weaken D D' L S' : D <= D' -> breaks_below D L S' -> breaks_below D' L S'.
Proof.
  intros H. revert S'; induction L as [|l L IH]; intros [|s S']; cbn [breaks_below]; auto. intros [H1 H2]. split; auto. intros C. specialize (H1 C). lia.
Qed.

Lemma breaks_nested L S' : nested L S' -> Forall (fun l => 2 <= l) L -> Forall (fun s => 1 <= s) S' -> breaks_below (inner_of L S') L S'.
Proof.
  revert S'; induction L as [|l L IH]; intros [|s S'] Hn Hl Hs; cbn [breaks_below]; auto.
  cbn [nested] in Hn. destruct Hn as (H1 & H2 & H3). inversion Hl as [|l0 L0 Hl1 Hl2]; inversion Hs as [|s0 S0 Hs1 Hs2]; subst.
  assert (I : inner_of L S' < s * l).
  { destruct L as [|l1 L], S' as [|s1 S']; try contradiction; cbn [inner_of]; [nia|].
    inversion Hl2; inversion Hs2; subst. cbn [span] in H2. cbn [nested] in H3. destruct H3 as (_ & _ & H3). pose proof (span_nonneg _ _ H3). nia. }
  cbn [inner_of]. split; auto. apply (breaks_below_weaken (inner_of L S')); [lia|]. apply IH; auto.
Qed.

Fixpoint roomyl (L S' : list Z) : Prop :=
  match L, S' with
  | l :: L1, s :: S1 => inner_of L1 S1 <= s /\ roomyl L1 S1
  | _, _ => True
  end.
Lemma breaks_roomy L S' : roomyl L S' -> Forall (fun l => 1 <= l) L -> Forall (fun s => 1 <= s) S' -> breaks_below (inner_of L S') L S'.
Proof.
  revert S'; induction L as [|l L IH]; intros [|s S'] Hn Hl Hs; cbn [breaks_below]; auto.
  cbn [roomyl] in Hn. destruct Hn as (H1 & H2). inversion Hl as [|l0 L0 Hl1 Hl2]; inversion Hs as [|s0 S0 Hs1 Hs2]; subst.
  cbn [inner_of]. split; [intros C; nia|]. apply (breaks_below_weaken (inner_of L S')); [nia|]. apply IH; auto.
Qed.

Lemma roomyl_positive L S' : length L = length S' -> roomyl L S' -> Forall (fun l => 1 <= l) L -> Forall (fun s => 1 <= s) S'.
Proof.
  revert S'; induction L as [|l L IH]; intros [|s S'] E Hn Hl; try discriminate; auto.
  cbn [roomyl] in Hn. destruct Hn as (H1 & H2). inversion Hl as [|l0 L0 Hl1 Hl2]; subst.
  assert (E' : length L = length S') by (simpl in E; lia). specialize (IH S' E' H2 Hl2). constructor; auto.
  destruct L as [|l1 L], S' as [|s1 S']; cbn [inner_of] in H1; try lia; try discriminate. inversion IH; inversion Hl2; subst. nia.
Qed.

Lemma roomyl_iff L S' : (0 < length L)%nat -> length L = length S' ->
  (1 <= nthZ S' (length L - 1) /\ forall k, (S k < length L)%nat -> nthZ S' (S k) * nthZ L (S k) <= nthZ S' k) <-> roomyl L S'.
Proof.
  revert S'. induction L as [|l L IH]; intros S' HR E; [simpl in HR; lia|]. destruct S' as [|s S']; [discriminate|].
  cbn [roomyl]. destruct L as [|l1 L], S' as [|s1 S']; try discriminate E.
  - cbn. split; intros [H H']; split; auto; intros; lia.
  - rewrite <- IH by (simpl in *; lia). cbn [inner_of length]. unfold nthZ. cbn [nth Nat.sub]. rewrite Nat.sub_0_r. split.
    + intros [H1 H2]. pose proof (H2 0%nat ltac:(lia)) as H3. cbn [nth] in H3. split; auto. split; auto. intros k Hk. apply (H2 (S k)). lia.
    + intros (H1 & H2 & H3). split; auto. intros [|k] Hk; cbn [nth]; auto. apply (H3 k). lia.
Qed.
Lemma roomy_roomyl m : wf m -> roomy m <-> roomyl (apply 0 (im_so m) (im_len m)) (apply 0 (im_so m) (im_str m)).
Proof.
  intros (Ls & Hp & Lse & Hnn & HR). pose proof (is_perm_length _ _ Hp) as Lso. unfold roomy. rewrite !in_order_apply.
  pose proof (apply_length 0 (im_so m) (im_len m)) as LL. pose proof (apply_length 0 (im_so m) (im_str m)) as LS.
  rewrite <- roomyl_iff by lia. unfold rank. rewrite LL, Lso. reflexivity.
Qed.

Lemma inner_of_head m : wf m -> nthZ (apply 0 (im_so m) (im_len m)) 0 * nthZ (apply 0 (im_so m) (im_str m)) 0 =
  inner_of (apply 0 (im_so m) (im_len m)) (apply 0 (im_so m) (im_str m)).
Proof.
  intros (Ls & Hp & Lse & Hnn & HR). pose proof (is_perm_length _ _ Hp) as Lso.
  pose proof (apply_length 0 (im_so m) (im_len m)) as LL. pose proof (apply_length 0 (im_so m) (im_str m)) as LS.
  destruct (apply 0 (im_so m) (im_len m)), (apply 0 (im_so m) (im_str m)); simpl in LL, LS; try lia. unfold nthZ; cbn [nth inner_of]. ring.
Qed.

Lemma block_layout_roomy m b : wf m -> Forall (fun l => 1 <= l) (im_len m) -> roomy m -> fits_int m -> get_block_layout m = Some b ->
  is_block_layout m (b_n b) (b_size b) (b_str b).
Proof.
  intros W Hl Hr Hf H. pose proof W as (Ls & Hp & Lse & Hnn & HR). apply roomy_roomyl in Hr; auto.
  assert (FL : Forall (fun l => 1 <= l) (apply 0 (im_so m) (im_len m))) by (apply (Forall_apply_to _ _ _ (length (im_len m))); auto).
  assert (LE : length (apply 0 (im_so m) (im_len m)) = length (apply 0 (im_so m) (im_str m))) by now rewrite !apply_length.
  pose proof (roomyl_positive _ _ LE Hr FL) as FS.
  apply block_layout_true; auto.
  - apply (Forall_apply _ (length (im_len m))) in FS; auto.
  - rewrite inner_of_head by auto. now apply breaks_roomy.
Qed.

Lemma block_layout_nested m b : wf m -> Forall (fun l => 2 <= l) (im_len m) -> Forall (fun s => 1 <= s) (im_str m) -> nestedm m -> fits_int m ->
  get_block_layout m = Some b -> is_block_layout m (b_n b) (b_size b) (b_str b).
Proof.
  intros W Hl Hs Hn Hf H. pose proof W as (Ls & Hp & Lse & Hnn & HR).
  apply block_layout_true; auto.
  - eapply Forall_impl; [|exact Hl]. cbn; lia.
  - rewrite inner_of_head by auto. apply breaks_nested; auto; apply (Forall_apply_to _ _ _ (length (im_len m))); auto.
Qed.

(** step-one slices stay roomy *)
Lemma roomyl_thin (len str : nat -> Z) (ex : nat -> arg) (l : list nat) :
  roomyl (map len l) (map str l) -> (forall n, In n l -> 1 <= len n) -> (forall n, In n l -> 1 <= str n) ->
  (forall n, In n l -> is_range (ex n) = true -> 1 <= get_l (ex n) (len n) <= len n /\ get_s (ex n) (str n) = str n) ->
  let l' := filter (fun n => is_range (ex n)) l in
  roomyl (map (fun n => get_l (ex n) (len n)) l') (map (fun n => get_s (ex n) (str n)) l') /\
  inner_of (map (fun n => get_l (ex n) (len n)) l') (map (fun n => get_s (ex n) (str n)) l') <= inner_of (map len l) (map str l).
Proof.
  induction l as [|n l IH]; intros Hn HL HS H; cbn zeta; [simpl; split; auto; lia|].
  cbn [map roomyl] in Hn. destruct Hn as (H1 & H2).
  destruct IH as [IHn IHs]; auto; [intros; apply HL; now right|intros; apply HS; now right|intros; apply H; auto; now right|].
  pose proof (HL n (or_introl eq_refl)) as L1. pose proof (HS n (or_introl eq_refl)) as S1.
  cbn [filter]. destruct (is_range (ex n)) eqn:E.
  - destruct (H n (or_introl eq_refl) E) as (G1 & G2). cbn [map roomyl inner_of]. rewrite G2. repeat split; auto; try nia; lia.
  - cbn [map inner_of]. split; auto. nia.
Qed.

Lemma slice_roomy m args o m' : wf m -> slice m args = Some (o, m') -> (forall r, In (ARange r) args -> r_step r = 1) ->
  args_in_bounds (expand_args (rank m) args) (im_len m) -> Forall (fun l => 1 <= l) (im_len m) -> roomy m -> Forall (fun l => 1 <= l) (im_len m') -> wf m' -> roomy m'.
Proof.
  intros W HS Hst Hb Hl Hr Hne W'. apply roomy_roomyl; auto. apply roomy_roomyl in Hr; auto.
  assert (FS : Forall (fun s => 1 <= s) (im_str m)).
  { destruct W as (Ls & Hp & Lse & Hnn & HR). apply (Forall_apply _ (length (im_len m)) (im_so m)); auto. apply (roomyl_positive (apply 0 (im_so m) (im_len m))); auto; [now rewrite !apply_length|].
    apply (Forall_apply_to _ _ _ (length (im_len m))); auto. }
  destruct (slice_inv _ _ _ HS) as [Hok E]. rewrite slice_impl_expand in E by auto. injection E as -> ->.
  destruct W as (Ls & Hp & Lse & Hnn & HR). pose proof (expand_args_length _ _ Hok) as Lex. unfold rank in *.
  set (ex := expand_args _ args) in *. cbn [im_len im_str im_so] in *.
  rewrite <- map_kept_len in * by lia. rewrite <- map_kept_str by lia.
  rewrite !(apply_kept _ 0 (im_so m) (length (im_len m)) ex Hp Lex).
  rewrite !apply_as_map in Hr.
  assert (Pos : forall n, In n (im_so m) -> (n < length (im_len m))%nat) by (intros n Hn; now apply (is_perm_In _ (im_so m) n Hp)).
  apply (roomyl_thin (nthZ (im_len m)) (nthZ (im_str m)) (fun n => nth n ex AAll)); auto.
  - intros n Hn. rewrite Forall_forall in Hl. apply Hl, nth_In. auto.
  - intros n Hn. rewrite Forall_forall in FS. apply FS, nth_In. specialize (Pos n Hn). lia.
  - intros n Hin Er. specialize (Pos n Hin).
    assert (G1 : 1 <= get_l (nth n ex AAll) (nthZ (im_len m) n)).
    { rewrite Forall_forall in Hne. apply Hne. apply in_map_iff. exists n. split; auto. apply kept_In; auto. lia. }
    apply (Forall2_nth _ _ _ AAll 0) in Hb. destruct Hb as [_ Hb]. specialize (Hb n ltac:(lia)).
    assert (Hs1 : forall r, nth n ex AAll = ARange r -> r_step r = 1).
    { intros r Er'. apply Hst. apply nth_In_arg in Er'. eapply expand_In; eauto. discriminate. }
    assert (L1 : 1 <= nthZ (im_len m) n) by (rewrite Forall_forall in Hl; apply Hl, nth_In; auto).
    destruct (nth n ex AAll) as [i|r| |]; try discriminate; cbn [get_s]; try (split; [cbn [get_l] in *; lia|reflexivity]).
    specialize (Hs1 r eq_refl). split; [|rewrite Hs1; ring]. split; auto.
    fold (nthZ (im_len m) n) in Hb. cbn [arg_in_bounds] in Hb.
    pose proof (Hb (get_l (ARange r) (nthZ (im_len m) n) - 1) ltac:(apply in_range_arg_spec; [lia|lia])) as B1.
    pose proof (Hb 0 ltac:(apply in_range_arg_spec; [lia|lia])) as B0. lia.
Qed.

Lemma view_roomy n off m : view_of (fun s => s = 1) n off m -> Forall (fun l => 1 <= l) (im_len m) -> roomy m.
Proof.
  induction 1 as [so se p junk shape Ho Lj Lse Hnn HR Hn|off m args o m' Hv IH HS Hst Hb HD|off m p Hv IH Ho]; intros Hl.
  - apply roomy_roomyl; [now apply fresh_wf|]. unfold idx_map_of_shape in *; cbn [im_len im_str im_so] in *.
    rewrite (compute_strides_in_order (length shape)) by auto. generalize (apply 0 so shape) as L. induction L as [|l L IHL]; cbn [roomyl suffix_prods]; auto.
    rewrite inner_suffix. split; auto. lia.
  - pose proof (view_wf _ _ _ _ Hv) as W. 
    assert (Hl' : Forall (fun l => 1 <= l) (im_len m)).
    { destruct (slice_inv _ _ _ HS) as [Hok E]. rewrite slice_impl_expand in E by auto. injection E as _ ->. cbn [im_len] in Hl.
      apply (in_bounds_nonempty (expand_args (rank m) args)); auto using expand_no_ell; try apply W.
      intros r Hr. apply (expand_In _ _ _ Hok) in Hr; [|discriminate]. now apply Hst. }
    eapply slice_roomy; eauto; [intros r Hr; now apply Hst|]. eapply slice_wf; eauto.
  - pose proof (view_wf _ _ _ _ Hv) as W. pose proof (transpose_wf p m W Ho) as W'. apply roomy_roomyl; auto.
    destruct (transpose_order p m W Ho) as [-> ->]. apply roomy_roomyl; auto. apply IH.
    unfold transpose in Hl; cbn [im_len] in Hl. destruct W as (Ls & Hp & Lse & Hnn & HR).
    rewrite (apply_inverse_is_apply 0 (rank m)) in Hl by auto.
    apply (Forall_apply _ (rank m)) in Hl; auto. now apply is_perm_inverse.
Qed.

(** ** block copies *)
Lemma memcpy2D_fold {V} d dp s sp w h (m : mem V) : 0 < w -> 0 <= h ->
  memcpy2D d dp s sp w h m = fold_left (fun m q => mset m (d + (q / w * dp + q mod w)) (m (s + (q / w * sp + q mod w)))) (zseq (h * w)) m.
Proof.
  intros Hw Hh. unfold memcpy2D. rewrite zseq_mul by lia. rewrite fold_left_flat_map. apply fold_left_ext_in. intros a i _.
  rewrite fold_left_map. apply fold_left_ext_in. intros a' j Hj. apply zseq_In in Hj.
  rewrite Z.div_add_l, Z.div_small, Z.add_0_r by lia. rewrite (Z.add_comm (i * w)), Z.mod_add, Z.mod_small by lia.
  now rewrite !Z.add_assoc.
Qed.

Lemma block_chunk m b b' n' : wf m -> is_block_layout m 1 b (b) -> 0 < b' -> n' * b' = prodZ (im_len m) -> is_block_layout m n' b' b'.
Proof.
  intros W (E & Hb & H) Hb' E'. split; auto. split; auto. intros idx Hi. cbn zeta. rewrite (H idx Hi). 
  assert (Bd : 0 <= seq_number (im_so m) (im_len m) idx < b).
  { replace b with (prodZ (im_len m)) by lia. destruct W as (Ls & Hp & Lse & Hnn & HR).
    rewrite <- (prodZ_perm _ _ (apply_Permutation 0 (length (im_len m)) (im_so m) (im_len m) Hp eq_refl)).
    unfold seq_number. rewrite !in_order_apply. apply radix_bound. apply (in_range_apply (length (im_len m))); auto. }
  rewrite Z.div_small, Z.mod_small by lia. pose proof (Z.div_mod (seq_number (im_so m) (im_len m) idx) b' ltac:(lia)). lia.
Qed.
Lemma block_one m b s : wf m -> is_block_layout m 1 b s -> is_block_layout m 1 b b.
Proof.
  intros W (E & Hb & H). split; auto. split; auto. intros idx Hi. cbn zeta. rewrite (H idx Hi).
  assert (Bd : 0 <= seq_number (im_so m) (im_len m) idx < b).
  { replace b with (prodZ (im_len m)) by lia. destruct W as (Ls & Hp & Lse & Hnn & HR).
    rewrite <- (prodZ_perm _ _ (apply_Permutation 0 (length (im_len m)) (im_so m) (im_len m) Hp eq_refl)).
    unfold seq_number. rewrite !in_order_apply. apply radix_bound. apply (in_range_apply (length (im_len m))); auto. }
  rewrite Z.div_small by lia. ring.
Qed.

Lemma memcpy2D_copies {V} dst src n b sd ss (m : mem V) : usable (v_lay dst) -> truthful (v_lay src) ->
  im_len (v_lay src) = im_len (v_lay dst) -> im_so (v_lay src) = im_so (v_lay dst) ->
  is_block_layout (v_lay dst) n b sd -> is_block_layout (v_lay src) n b ss -> reads_own_element dst (rhs_at (@RMem V src)) -> 0 < prodZ (im_len (v_lay dst)) ->
  let m' := memcpy2D (v_base dst) sd (v_base src) ss b n m in
  holds dst m' (rhs_at (RMem src) m) /\ unchanged_outside dst m m'.
Proof.
  intros Bd Bs El Eo (E1 & Hb & Hd) (_ & _ & Hs) Hr Hpos. cbn zeta. rewrite memcpy2D_fold by nia.
  replace (n * b) with (size (v_lay dst)) by (rewrite size_prodZ; lia).
  pose proof (usable_wf _ Bd) as Wd. pose proof (truthful_wf _ Bs) as Ws.
  rewrite (fold_left_ext_in _ (fun m q => mset m (cell dst (order_nth (v_lay dst) q)) (rhs_at (RMem src) m (order_nth (v_lay dst) q)))).
  - rewrite <- (fold_left_map (fun m idx => mset m (cell dst idx) (rhs_at (RMem src) m idx)) (order_nth (v_lay dst))). rewrite <- order_list_map.
    apply write_view; auto.
    + now apply order_list_NoDup.
    + intros; now apply order_list_In.
  - intros a q Hq. apply zseq_In in Hq. destruct (order_nth_valid _ q Wd Hq) as [Hv Hn].
    assert (Hv' : valid_idx (v_lay src) (order_nth (v_lay dst) q)) by (unfold valid_idx in *; now rewrite El).
    cbn [rhs_at]. rewrite (elem_cell_in src) by auto. unfold cell. rewrite (Hd _ Hv), (Hs _ Hv'), El, Eo, Hn. reflexivity.
Qed.

Lemma assign_blocks_spec {V} dst src d s (m : mem V) : usable (v_lay dst) -> truthful (v_lay src) ->
  im_len (v_lay src) = im_len (v_lay dst) -> im_so (v_lay src) = im_so (v_lay dst) -> reads_own_element dst (rhs_at (@RMem V src)) -> 0 < prodZ (im_len (v_lay dst)) ->
  get_block_layout (v_lay dst) = Some d -> get_block_layout (v_lay src) = Some s ->
  is_block_layout (v_lay dst) (b_n d) (b_size d) (b_str d) -> is_block_layout (v_lay src) (b_n s) (b_size s) (b_str s) ->
  match assign_blocks dst src m with
  | BDone m' => holds dst m' (rhs_at (RMem src) m) /\ unchanged_outside dst m m'
  | BFallback => True
  | BError => False
  end.
Proof.
  intros Bd Bs El Eo Hr Hpos Gd Gs Hd Hs. unfold assign_blocks. rewrite Gd, Gs.
  pose proof (usable_wf _ Bd) as Wd. pose proof (truthful_wf _ Bs) as Ws.
  destruct d as [nd bd sd], s as [ns bs ss]; cbn [b_n b_size b_str] in *.
  pose proof Hd as (Ed & Pd & _). pose proof Hs as (Es & Ps & _). rewrite El in Es.
  destruct (Z.eqb_spec (nd * bd) (ns * bs)) as [_|C]; [|lia]. cbn [negb].
  destruct ((nd =? 1) && (1 <? ns)) eqn:C1; cbn [b_n b_size b_str].
  - apply andb_true_iff in C1. destruct C1 as [C1 C2]. apply Z.eqb_eq in C1. subst nd. assert (Eb : bd = ns * bs) by lia.
    rewrite (Z.mul_comm ns) in Eb. rewrite Eb, Z.quot_mul by lia. replace (ns =? 1) with false by (symmetry; lia). cbn [andb b_n b_size b_str].
    rewrite !Z.eqb_refl. cbn [andb]. apply memcpy2D_copies; auto. apply (block_chunk _ bd); try lia; auto. apply (block_one _ _ sd); auto.
  - destruct ((ns =? 1) && (1 <? nd)) eqn:C2; cbn [b_n b_size b_str].
    + apply andb_true_iff in C2. destruct C2 as [C2 C3]. apply Z.eqb_eq in C2. subst ns. assert (Eb : bs = bd * nd) by lia.
      rewrite Eb, Z.quot_mul by lia. rewrite !Z.eqb_refl. cbn [andb]. apply memcpy2D_copies; auto. apply (block_chunk _ bs); try lia; auto; try (rewrite El; lia).
      apply (block_one _ _ ss); auto.
    + destruct ((nd =? ns) && (bd =? bs)) eqn:C3; auto. apply andb_true_iff in C3. destruct C3 as [C3 C4]. apply Z.eqb_eq in C3, C4. subst.
      now apply memcpy2D_copies.
Qed.

(** ** filling *)
Lemma const_reads {V} v (x : V) : reads_own_element v (fun _ _ => x).
Proof. intros idx m1 m2 _ _. reflexivity. Qed.

Lemma fill_strided_fold {V} d n : 0 < d -> forall i k fuel p (x : V) m, 0 <= k -> Z.of_nat n = k -> (n <= fuel)%nat ->
  fill_strided fuel p i (i + k * d) d x m = Some (fold_left (fun m j => mset m (p + (i + j * d)) x) (zseq k) m).
Proof.
  intros Hd. induction n as [|n IH]; intros i k fuel p x m Hk En Hf.
  - replace k with 0 by lia. destruct fuel; cbn [fill_strided]; replace (i <? i + 0 * d) with false by (symmetry; lia); reflexivity.
  - destruct fuel as [|fuel]; [lia|]. cbn [fill_strided]. replace (i <? i + k * d) with true by (symmetry; nia).
    replace (i + k * d) with (i + d + (k - 1) * d) by ring. rewrite IH by lia.
    replace k with (1 + (k - 1)) at 2 by ring. rewrite zseq_add by lia. rewrite fold_left_app. change (zseq 1) with [0]. cbn [fold_left].
    rewrite Z.mul_0_l, Z.add_0_r. rewrite fold_left_map. f_equal. apply fold_left_ext_in. intros a y _. f_equal. ring.
Qed.

Lemma fill_iter_iterate {V} fuel p it end_ (x : V) m : fill_iter fuel p it end_ x m =
  match iterate fuel it end_ with Some l => Some (fold_left (fun m y => mset m (p + y) x) l m) | None => None end.
Proof.
  revert it m; induction fuel as [|fuel IH]; intros it m; cbn [fill_iter iterate]; destruct (grid_eqb it end_); auto.
  rewrite IH. destruct (iterate fuel _ _); auto.
Qed.
Lemma iterate_mono fuel fuel' it e l : iterate fuel it e = Some l -> (fuel <= fuel')%nat -> iterate fuel' it e = Some l.
Proof.
  revert fuel' it l; induction fuel as [|fuel IH]; intros fuel' it l H Hf.
  - destruct fuel'; cbn [iterate] in *; destruct (grid_eqb it e); auto; discriminate.
  - destruct fuel' as [|fuel']; [lia|]. cbn [iterate] in *. destruct (grid_eqb it e); auto.
    destruct (iterate fuel (grid_incr it) e) eqn:E; [|discriminate]. rewrite (IH fuel' _ _ E) by lia. auto.
Qed.

Lemma fill_spec {V} fuel dst (x : V) m : usable (v_lay dst) -> zero_extents_harmless (v_lay dst) ->
  (has_strided_1d (im_prop (v_lay dst)) = true -> has_contiguous (im_prop (v_lay dst)) = true \/ 0 < min_stride (v_lay dst)) ->
  prodZ (im_len (v_lay dst)) <= Z.of_nat fuel ->
  exists m', fill_with_scalar fuel dst x m = Some m' /\ holds dst m' (fun _ => x) /\ unchanged_outside dst m m'.
Proof.
  intros B Hz Hs Hf. pose proof (usable_wf _ B) as W. pose proof (usable_flags _ B) as F.
  assert (G : exists m', Some (fold_left (fun m idx => mset m (cell dst idx) x) (order_list (v_lay dst)) m) = Some m' /\
     holds dst m' (fun _ => x) /\ unchanged_outside dst m m').
  { eexists. split; [reflexivity|]. apply (write_view dst (order_list (v_lay dst)) (fun _ _ => x) m); auto.
    - now apply order_list_NoDup.
    - intros; now apply order_list_In.
    - apply const_reads. }
  assert (Hsz : 0 <= size (v_lay dst)) by (rewrite size_prodZ; apply prodZ_nonneg; apply W).
  unfold fill_with_scalar. destruct (has_strided_1d (im_prop (v_lay dst))) eqn:H1.
  - assert (GO : forall q, 0 <= q < size (v_lay dst) -> cell dst (order_nth (v_lay dst) q) = v_base dst + (0 + q * min_stride (v_lay dst))).
    { intros q Hq. destruct (order_nth_valid _ q W Hq) as [Hv Hn]. unfold cell. destruct F as [F1 _].
      rewrite (regular_strided_1d _ W (F1 H1) _ Hv), Hn. ring. }
    rewrite order_list_map, fold_left_map in G. destruct (has_contiguous _) eqn:H2.
    + destruct F as [_ F2]. assert (Es : min_stride (v_lay dst) = 1) by (apply F2; destruct (im_prop (v_lay dst)); auto; discriminate).
      rewrite (fold_left_ext_in _ (fun m q => mset m (cell dst (order_nth (v_lay dst) q)) x)); auto.
      intros a q Hq. apply zseq_In in Hq. rewrite GO by auto. rewrite Es. f_equal. ring.
    + destruct (Hs eq_refl) as [C|Hp]; [discriminate|]. rewrite <- (Z.add_0_l (size _ * _)).
      rewrite (fill_strided_fold _ (Z.to_nat (size (v_lay dst)))) by (rewrite ?size_prodZ in *; lia).
      rewrite (fold_left_ext_in _ (fun m q => mset m (cell dst (order_nth (v_lay dst) q)) x)); auto.
      intros a q Hq. apply zseq_In in Hq. now rewrite GO.
  - rewrite fill_iter_iterate. assert (Hit : iterate fuel (make_iterator (v_lay dst) false) (make_iterator (v_lay dst) true) = Some (map (addr (v_lay dst)) (order_list (v_lay dst)))).
    { apply (iterate_mono (Z.to_nat (size (v_lay dst)))).
      - apply array_iteration; auto. now apply harmless_cases.
      - rewrite size_prodZ. lia. }
    rewrite Hit, fold_left_map. exact G.
Qed.

(** matrices: the diagonal is written over the zeros *)
Lemma diag_fold {V} dst (x : V) n k m : usable (v_lay dst) -> rank (v_lay dst) = 2%nat -> Z.of_nat n = k ->
  k <= nthZ (im_len (v_lay dst)) 0 -> k <= nthZ (im_len (v_lay dst)) 1 ->
  let m' := fold_left (fun m i => mset m (elem dst [i; i]) x) (zseq k) m in
  (forall i j, in_view dst [i; j] -> m' (cell dst [i; j]) = if (i =? j) && (i <? k) then x else m (cell dst [i; j])) /\ unchanged_outside dst m m'.
Proof.
  intros B Rk. revert k. induction n as [|n IH]; intros k En H0 H1 m'.
  - subst m'. rewrite zseq_nil by lia. cbn [fold_left]. split; [|intros a _; reflexivity].
    intros i j Hv. destruct (im_len (v_lay dst)) as [|l0 [|l1 [|]]] eqn:El; try (unfold rank in Rk; rewrite El in Rk; discriminate).
    unfold in_view, valid_idx in Hv. rewrite El in Hv. inversion Hv as [|a1 a2 a3 a4 A1 A2]; subst. unfold inr in A1; replace (i <? Z.of_nat 0) with false by (symmetry; apply Z.ltb_ge; lia). now rewrite andb_false_r.
  - specialize (IH (k - 1) ltac:(lia) ltac:(lia) ltac:(lia)). cbn zeta in IH. destruct IH as [IH1 IH2].
    assert (Ez : zseq k = zseq (k - 1) ++ [k - 1]) by (rewrite <- zseq_succ by lia; f_equal; ring).
    subst m'. rewrite Ez. rewrite fold_left_app. cbn [fold_left].
    set (m1 := fold_left _ (zseq (k - 1)) m) in *.
    assert (Vk : in_view dst [k - 1; k - 1]).
    { destruct (im_len (v_lay dst)) as [|l0 [|l1 [|]]] eqn:El; try (unfold rank in Rk; rewrite El in Rk; discriminate).
      unfold in_view, valid_idx. rewrite El. cbn in H0, H1. repeat constructor; lia. }
    rewrite elem_cell_in by auto. split.
    + intros i j Hv. destruct (Z.eq_dec (cell dst [i; j]) (cell dst [k - 1; k - 1])) as [E|E].
      * rewrite E, mset_eq. apply cell_inj in E; auto. injection E as -> ->. rewrite Z.eqb_refl. cbn [andb].
        replace (k - 1 <? k) with true by (symmetry; lia). reflexivity.
      * rewrite mset_neq by auto. rewrite IH1 by auto. destruct (Z.eqb_spec i j) as [->|]; cbn [andb]; auto.
        destruct (Z.ltb_spec j (k - 1)); destruct (Z.ltb_spec j k); auto; try lia. exfalso. apply E. replace j with (k - 1) by lia. reflexivity.
    + intros a Ha. rewrite mset_neq; auto. intros ->. apply Ha. eexists. split; eauto.
Qed.

Lemma rhs_value_at {V} dst (r : rhs V) m idx : (forall src, r = RMem src -> truthful (v_lay src) /\ im_len (v_lay src) = im_len (v_lay dst)) ->
  in_view dst idx -> rhs_at r m idx = rhs_value r m idx.
Proof.
  intros H Hi. destruct r as [src|e]; [|reflexivity]. destruct (H src eq_refl) as [T El]. cbn [rhs_at rhs_value]. rewrite elem_cell_in; auto.
  unfold in_view, valid_idx in *. now rewrite El.
Qed.
Lemma holds_ext {V} v (m : mem V) f g : (forall idx, in_view v idx -> f idx = g idx) -> holds v m f -> holds v m g.
Proof. intros E H idx Hi. now rewrite <- E, H. Qed.
Lemma reads_own_at {V} dst (r : rhs V) : (forall src, r = RMem src -> truthful (v_lay src) /\ im_len (v_lay src) = im_len (v_lay dst)) ->
  reads_own_element dst (rhs_value r) -> reads_own_element dst (rhs_at r).
Proof.
  intros H Hr idx m1 m2 Hi Ha. rewrite !(rhs_value_at dst); auto.
Qed.
Lemma apart_parts {V} dst (r : rhs V) : rhs_apart dst r ->
  (forall src, r = RMem src -> truthful (v_lay src) /\ im_len (v_lay src) = im_len (v_lay dst)) /\ reads_own_element dst (rhs_value r).
Proof.
  destruct r as [src|e]; cbn [rhs_apart].
  - intros (T & El & D). split; [intros s E; injection E as <-; auto|]. intros idx m1 m2 Hi Ha. cbn [rhs_value]. apply Ha. right. intros C.
    apply (D _ C). exists idx. split; auto. unfold in_view, valid_idx in *. now rewrite El.
  - intros H. split; [discriminate|]. now apply reads_not_own.
Qed.

Lemma assign_host_value {V} checks dst (r : rhs V) m : usable (v_lay dst) ->
  (forall src, r = RMem src -> truthful (v_lay src) /\ im_len (v_lay src) = im_len (v_lay dst)) -> reads_own_element dst (rhs_value r) ->
  exists m', assign_from_ndarray checks true dst (im_len (v_lay dst)) r m = Some m' /\ holds dst m' (rhs_value r m) /\ unchanged_outside dst m m'.
Proof.
  intros U H Hr. destruct (assign_host checks dst r m U H (reads_own_at dst r H Hr)) as (m' & E & Hh & Hu).
  exists m'. split; auto. split; auto. eapply holds_ext; [|exact Hh]. intros idx Hi. now apply (rhs_value_at dst).
Qed.

Lemma mset_same {V} (m : mem V) a x y : x = y -> mset m a x = mset m a y.
Proof. now intros ->. Qed.

Lemma deep_swap_spec {V} checks tmp a b (m : mem V) : usable (v_lay tmp) -> usable (v_lay a) -> usable (v_lay b) ->
  im_len (v_lay tmp) = im_len (v_lay a) -> im_len (v_lay b) = im_len (v_lay a) ->
  disjoint a b -> disjoint tmp a -> disjoint tmp b ->
  exists m', deep_swap checks tmp a b m = Some m' /\
    holds a m' (fun idx => m (cell b idx)) /\ holds b m' (fun idx => m (cell a idx)) /\
    (forall x, ~ is_cell_of a x -> ~ is_cell_of b x -> ~ is_cell_of tmp x -> m' x = m x).
Proof.
  intros Ut Ua Ub Et Eb Dab Dta Dtb.
  assert (Ap : forall d s, usable (v_lay d) -> usable (v_lay s) -> im_len (v_lay s) = im_len (v_lay d) -> disjoint d s -> forall m0 : mem V,
     exists m', assign_from_ndarray checks true d (im_len (v_lay s)) (RMem s) m0 = Some m' /\ holds d m' (fun idx => m0 (cell s idx)) /\ unchanged_outside d m0 m').
  { intros d s Ud Us E D m0. rewrite E. destruct (apart_parts d (@RMem V s)) as [A1 A2]; [cbn; auto|].
    destruct (assign_host_value checks d (RMem s) m0 Ud A1 A2) as (m' & E' & Hh & Hu). exists m'. split; auto. }
  unfold deep_swap.
  destruct (Ap tmp a Ut Ua ltac:(auto) Dta m) as (m1 & E1 & H1 & U1). rewrite E1.
  destruct (Ap a b Ua Ub Eb Dab m1) as (m2 & E2 & H2 & U2). rewrite E2.
  assert (Dbt : disjoint b tmp) by (intros x Hb Ht; apply (Dtb x); auto).
  destruct (Ap b tmp Ub Ut ltac:(now rewrite Et) Dbt m2) as (m3 & E3 & H3 & U3). exists m3. split; auto.
  assert (Vab : forall idx, in_view a idx <-> in_view b idx) by (intros idx; unfold in_view, valid_idx; now rewrite Eb).
  assert (Vat : forall idx, in_view a idx <-> in_view tmp idx) by (intros idx; unfold in_view, valid_idx; now rewrite Et).
  assert (Cb : forall idx, in_view a idx -> is_cell_of b (cell b idx)) by (intros idx Hi; exists idx; split; auto; now apply Vab).
  assert (Ca : forall idx, in_view a idx -> is_cell_of a (cell a idx)) by (intros idx Hi; exists idx; split; auto).
  assert (Ct : forall idx, in_view a idx -> is_cell_of tmp (cell tmp idx)) by (intros idx Hi; exists idx; split; auto; now apply Vat).
  split; [|split].
  - intros idx Hi. rewrite U3 by (intros C; apply (Dab (cell a idx)); auto). rewrite H2 by auto. apply U1. intros C. apply (Dtb (cell b idx)); auto.
  - intros idx Hi. rewrite H3 by auto. apply Vab in Hi. rewrite U2 by (intros C; apply (Dta (cell tmp idx)); auto). apply H1. now apply Vat.
  - intros x Na Nb Nt. rewrite U3, U2, U1; auto.
Qed.
