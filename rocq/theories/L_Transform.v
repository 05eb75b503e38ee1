(** Lemmas on layout transformations and new arrays. *)
From Verif Require Import Base M_Perm L_Perm M_IdxMap M_Slice M_Loops M_Assign M_Expr M_Transform S_Layout S_Loops S_Assign S_Expr S_Transform L_IdxMap L_Slice L_Layout L_Loops L_Assign L_Expr.

(** ** new arrays *)
Lemma new_array_usable so base shape : is_order (length shape) so -> Forall (fun l => 0 <= l) shape -> (0 < length shape < 16)%nat ->
  usable (v_lay (new_array so base shape)).
Proof.
  intros Ho Hs Hr. cbn [new_array v_lay]. apply (view_usable (fun _ => True) (prodZ shape) 0). apply vo_fresh; auto; apply repeat_length.
Qed.
Lemma new_array_cell so base shape idx : is_order (length shape) so -> length idx = length shape ->
  cell (new_array so base shape) idx = base + seq_number so shape idx.
Proof.
  intros Ho L. unfold cell, addr, seq_number. cbn [new_array v_lay v_base im_str idx_map_of_shape]. f_equal.
  rewrite (dot_compute_strides (length shape)); auto using repeat_length. now rewrite !in_order_apply.
Qed.

Lemma seq_number_bound m idx : wf m -> valid_idx m idx -> 0 <= seq_number (im_so m) (im_len m) idx < prodZ (im_len m).
Proof.
  intros (Ls & Ho & _) H. unfold seq_number. rewrite !in_order_apply.
  rewrite <- (prodZ_perm _ _ (apply_Permutation 0 _ _ (im_len m) Ho eq_refl)). apply radix_bound. now apply (in_range_apply (length (im_len m))).
Qed.
Lemma new_array_cells so base shape a : is_order (length shape) so -> Forall (fun l => 0 <= l) shape -> (0 < length shape < 16)%nat ->
  is_cell_of (new_array so base shape) a <-> base <= a < base + prodZ shape.
Proof.
  intros Ho Hs Hr. pose proof (usable_wf _ (new_array_usable so base shape Ho Hs Hr)) as W. split.
  - intros (idx & Hi & ->). pose proof (seq_number_bound _ idx W Hi) as B. rewrite new_array_cell; auto; [|now apply in_range_length in Hi].
    cbn [new_array v_lay idx_map_of_shape im_so im_len] in B. lia.
  - intros Ha. destruct (order_nth_valid (v_lay (new_array so base shape)) (a - base) W) as [Hv E].
    { rewrite size_prodZ. cbn [new_array v_lay idx_map_of_shape im_len]. lia. }
    eexists. split; [exact Hv|]. rewrite new_array_cell; auto; [|now apply in_range_length in Hv].
    cbn [new_array v_lay idx_map_of_shape im_so im_len] in E. unfold new_array in *. cbn [v_lay] in *. lia.
Qed.

(** ** reshape *)
Lemma contiguous_cells v a : wf (v_lay v) -> contiguous_true (v_lay v) -> is_cell_of v a <-> v_base v <= a < v_base v + prodZ (im_len (v_lay v)).
Proof.
  intros W Hc. split.
  - intros (idx & Hi & ->). unfold cell. rewrite (Hc idx Hi). pose proof (seq_number_bound _ idx W Hi). lia.
  - intros Ha. destruct (order_nth_valid (v_lay v) (a - v_base v) W) as [Hv E]; [rewrite size_prodZ; lia|].
    eexists. split; [exact Hv|]. unfold cell. rewrite (Hc _ Hv), E. lia.
Qed.
Lemma same_sequence_contiguous a b : v_base a = v_base b -> contiguous_true (v_lay a) -> contiguous_true (v_lay b) ->
  prodZ (im_len (v_lay a)) = prodZ (im_len (v_lay b)) -> same_sequence a b.
Proof.
  intros Eb Ha Hb Ep. split; auto. intros i j Hi Hj E. unfold cell. rewrite (Ha i Hi), (Hb j Hj), E, Eb. reflexivity.
Qed.

(** ** additional trailing dimensions *)
Lemma seq_shifted n N : seq n N = map (fun i => n + i)%nat (seq 0 N).
Proof. induction n as [|n IH]; [now rewrite map_id|]. rewrite <- seq_shift, IH, map_map. reflexivity. Qed.
Lemma complete_order N so : complete_stride_order_with_fast N so = so ++ seq (length so) N.
Proof.
  unfold complete_stride_order_with_fast. rewrite seq_app, map_app. f_equal.
  - transitivity (map (fun i => nth i so 0%nat) (seq 0 (length so))); [|apply map_seq_nth]. apply map_ext_in. intros i Hi. apply in_seq in Hi. destruct (Nat.ltb_spec i (length so)); [reflexivity|lia].
  - cbn [Nat.add]. rewrite <- (map_id (seq (length so) N)) at 2. apply map_ext_in. intros i Hi. apply in_seq in Hi. destruct (Nat.ltb_spec i (length so)); [lia|reflexivity].
Qed.
Lemma in_order_app_len so N (l x : list Z) : is_order (length l) so -> length x = N -> in_order 0 (so ++ seq (length so) N) (l ++ x) = in_order 0 so l ++ x.
Proof.
  intros Ho Lx. pose proof (is_perm_length _ _ Ho) as Ls. unfold in_order. rewrite map_app. f_equal.
  - apply map_ext_in. intros k Hk. apply app_nth1. now apply (is_perm_In _ _ _ Ho).
  - rewrite Ls, seq_shifted, map_map. transitivity (map (fun i => nth i x 0) (seq 0 N)); [|rewrite <- Lx; apply map_seq_nth].
    apply map_ext. intros i. rewrite app_nth2 by lia. f_equal. lia.
Qed.

Lemma add_dims_order N R so : is_order R so -> is_order (R + N) (complete_stride_order_with_fast N so).
Proof.
  intros Ho. rewrite complete_order, (is_perm_length _ _ Ho). unfold is_order. rewrite seq_app. apply Permutation_app; auto.
Qed.
Lemma add_dims_wf N m : wf m -> (rank m + N < 16)%nat -> wf (add_fast_dims_layout N m).
Proof.
  intros (Ls & Ho & Le & Hn & Hr) HN. unfold rank in HN. unfold wf, add_fast_dims_layout, idx_map_of_shape_strides. cbn [im_len im_str im_so im_se].
  rewrite !app_length, !repeat_length. repeat split; try lia.
  - now apply add_dims_order.
  - apply Forall_app. split; auto. apply Forall_forall. intros x Hx. apply repeat_spec in Hx. lia.
Qed.
Lemma dot_ones j N : length j = N -> in_range j (repeat 1 N) -> j = repeat 0 N.
Proof.
  revert j. induction N as [|N IH]; intros [|x j] L H; try discriminate; [reflexivity|]. inversion H as [|a b c d H1 H2]; subst. unfold inr in H1.
  cbn [repeat]. f_equal; [lia|]. apply IH; auto.
Qed.
Lemma in_range_app_inv a b idx : in_range idx (a ++ b) -> exists i j, idx = i ++ j /\ in_range i a /\ in_range j b.
Proof.
  revert idx. induction a as [|x a IH]; intros idx H.
  - exists [], idx. repeat split; auto. constructor.
  - inversion H as [|y l t1 t2 H1 H2]; subst. destruct (IH _ H2) as (i & j & -> & Hi & Hj). exists (y :: i), j. repeat split; auto. now constructor.
Qed.
Lemma in_range_app a b i j : in_range i a -> in_range j b -> in_range (i ++ j) (a ++ b).
Proof. intros H Hj. now apply Forall2_app. Qed.
Lemma add_dims_valid N m idx' : valid_idx (add_fast_dims_layout N m) idx' <-> exists idx, idx' = idx ++ repeat 0 N /\ valid_idx m idx.
Proof.
  unfold valid_idx, add_fast_dims_layout, idx_map_of_shape_strides. cbn [im_len]. split.
  - intros H. apply in_range_app_inv in H. destruct H as (i & j & -> & Hi & Hj). exists i. split; auto. f_equal. apply dot_ones; auto.
    apply in_range_length in Hj. now rewrite repeat_length in Hj.
  - intros (idx & -> & H). apply in_range_app; auto. clear. induction N; cbn [repeat]; constructor; auto. unfold inr. lia.
Qed.
Lemma add_dims_addr N m idx : length (im_str m) = length idx -> addr (add_fast_dims_layout N m) (idx ++ repeat 0 N) = addr m idx.
Proof.
  intros L. unfold addr, add_fast_dims_layout, idx_map_of_shape_strides. cbn [im_str]. rewrite dot_app by lia. rewrite dot_zeros. lia.
Qed.
Lemma prodZ_ones N : prodZ (repeat 1 N) = 1.
Proof. induction N; cbn [repeat]; rewrite ?prodZ_cons, ?prodZ_nil; lia. Qed.
Lemma skipn_repeat {A} (x : A) n N : skipn n (repeat x N) = repeat x (N - n).
Proof. revert n. induction N as [|N IH]; intros [|n]; cbn [repeat skipn Nat.sub]; auto. Qed.
Lemma add_dims_regular N m : wf m -> regular 1 m -> regular 1 (add_fast_dims_layout N m).
Proof.
  intros (Ls & Ho & _) H k Hk. unfold add_fast_dims_layout, idx_map_of_shape_strides in *. cbn [im_so im_str im_len] in *.
  rewrite complete_order in *. pose proof (is_perm_length _ _ Ho) as Lo.
  rewrite !in_order_app_len by (auto using repeat_length; now rewrite Ls).
  assert (Li : forall l : list Z, length (in_order 0 (im_so m) l) = length (im_so m)) by (intros l; apply map_length).
  rewrite app_length, seq_length in Hk. destruct (Nat.lt_ge_cases k (length (im_so m))) as [Hl|Hl].
  - rewrite app_nth1 by now rewrite Li. rewrite (H k Hl). rewrite skipn_app, Li. rewrite prodZ_app, skipn_repeat, prodZ_ones. lia.
  - rewrite app_nth2 by (rewrite Li; lia). rewrite Li. rewrite skipn_app, Li. rewrite (skipn_all2 (in_order 0 (im_so m) (im_len m))) by (rewrite Li; lia).
    cbn [app]. rewrite skipn_repeat, prodZ_ones. rewrite (nth_indep _ 0 1) by (rewrite repeat_length; lia). rewrite nth_repeat_any. lia.
Qed.
Lemma add_dims_min_stride N m : wf m -> (0 < N)%nat -> min_stride (add_fast_dims_layout N m) = 1.
Proof.
  intros (Ls & Ho & _) HN. unfold min_stride, add_fast_dims_layout, idx_map_of_shape_strides, rank. cbn [im_str im_so im_len].
  rewrite complete_order. pose proof (is_perm_length _ _ Ho) as Lo. rewrite app_length, repeat_length. unfold nthN, nthZ.
  assert (E : nth (length (im_len m) + N - 1) (im_so m ++ seq (length (im_so m)) N) 0%nat = (length (im_len m) + N - 1)%nat).
  { rewrite app_nth2 by lia. rewrite seq_nth by lia. lia. }
  rewrite E. rewrite app_nth2 by lia.
  rewrite (nth_indep _ 0 1) by (rewrite repeat_length; lia). apply nth_repeat_any.
Qed.

(** ** grouping *)
Lemma NoDup_app_r {A} (a b : list A) : NoDup (a ++ b) -> NoDup b.
Proof. induction a as [|y a IH]; cbn [app]; auto. intros H. inversion H; auto. Qed.
Lemma NoDup_app_l {A} (a b : list A) : NoDup (a ++ b) -> NoDup a.
Proof. induction a as [|y a IH]; cbn [app]; intros H; [constructor|]. inversion H as [|x l Hn Hd]; subst. constructor; auto. intros Hi. apply Hn. apply in_or_app. now left. Qed.
Lemma NoDup_app_intro {A} (a b : list A) : NoDup a -> NoDup b -> (forall x, In x a -> In x b -> False) -> NoDup (a ++ b).
Proof.
  induction a as [|y a IH]; intros Ha Hb Hd; cbn [app]; auto. inversion Ha as [|x l Hn Hd']; subst. constructor.
  - intros Hi. apply in_app_or in Hi. destruct Hi as [Hi|Hi]; [auto|]. apply (Hd y); [now left|auto].
  - apply IH; auto. intros x Hx Hx2. apply (Hd x); [now right|auto].
Qed.
Lemma NoDup_app_disjoint {A} (a b : list A) : NoDup (a ++ b) -> forall x, In x a -> In x b -> False.
Proof.
  induction a as [|y a IH]; intros H x Ha Hb; [destruct Ha|]. cbn [app] in H. inversion H as [|z l Hn Hd]; subst. destruct Ha as [<-|Ha]; [|eauto].
  apply Hn. apply in_or_app. now right.
Qed.
Lemma count_indices_length R grps : length (count_indices R grps) = R.
Proof.
  unfold count_indices. assert (G : forall l c, length (fold_left (fun c grp => fold_left (fun c g => upd c g (S (nthN c g))) grp c) l c) = length c).
  { induction l as [|grp l IH]; intros c; cbn [fold_left]; auto. rewrite IH. clear. revert c. induction grp as [|g grp IHg]; intros c; cbn [fold_left]; auto. now rewrite IHg, upd_length. }
  now rewrite G, repeat_length.
Qed.
Lemma count_indices_concat R grps : count_indices R grps = fold_left (fun c g => upd c g (S (nthN c g))) (concat grps) (repeat 0%nat R).
Proof.
  unfold count_indices. generalize (repeat 0%nat R). induction grps as [|grp l IH]; intros c; cbn [fold_left concat]; auto. rewrite fold_left_app. apply IH.
Qed.
Lemma count_spec l : forall c k, (k < length c)%nat -> nthN (fold_left (fun c g => upd c g (S (nthN c g))) l c) k = (nthN c k + count_occ Nat.eq_dec l k)%nat.
Proof.
  induction l as [|g l IH]; intros c k Hk; cbn [fold_left count_occ]; [lia|]. rewrite IH by now rewrite upd_length. unfold nthN.
  destruct (Nat.eq_dec g k) as [->|N]; [rewrite nth_upd_eq by auto|rewrite nth_upd_neq by auto]; lia.
Qed.
Lemma count_one_perm (l l' : list nat) : (forall k, count_occ Nat.eq_dec l k = count_occ Nat.eq_dec l' k) -> Permutation l l'.
Proof. intros H. now apply (Permutation_count_occ Nat.eq_dec). Qed.
Lemma count_seq R k : count_occ Nat.eq_dec (seq 0 R) k = if Nat.ltb k R then 1%nat else 0%nat.
Proof.
  destruct (Nat.ltb_spec k R) as [H|H].
  - apply NoDup_count_occ'; [apply seq_NoDup|]. apply in_seq. lia.
  - apply count_occ_not_In. intros C. apply in_seq in C. lia.
Qed.
Lemma partition_spec R grps : is_partition_of_indices R grps = true <-> partition_of R grps.
Proof.
  unfold is_partition_of_indices, partition_of. rewrite !andb_true_iff, Nat.eqb_eq. split.
  - intros [[_ Hlt] Hc]. destruct (list_eq_dec Nat.eq_dec (count_indices R grps) (repeat 1%nat R)) as [E|]; [|discriminate].
    apply count_one_perm. intros k. rewrite count_seq. destruct (Nat.ltb_spec k R) as [Hk|Hk].
    + assert (E2 : nthN (count_indices R grps) k = 1%nat) by (rewrite E; unfold nthN; rewrite (nth_indep _ 0%nat 1%nat) by (rewrite repeat_length; lia); apply nth_repeat_any).
      rewrite count_indices_concat, count_spec in E2 by now rewrite repeat_length. unfold nthN in E2. rewrite nth_repeat_any in E2. lia.
    + apply count_occ_not_In. intros C. apply in_concat in C. destruct C as (grp & Hg & Hk2). rewrite forallb_forall in Hlt. specialize (Hlt grp Hg).
      rewrite forallb_forall in Hlt. specialize (Hlt k Hk2). apply Nat.ltb_lt in Hlt. lia.
  - intros HP. assert (Hc : forall k, count_occ Nat.eq_dec (concat grps) k = if Nat.ltb k R then 1%nat else 0%nat).
    { intros k. rewrite <- count_seq. now apply (Permutation_count_occ Nat.eq_dec). }
    split; [split|].
    + pose proof (Permutation_length HP) as L. rewrite seq_length in L. rewrite <- L. clear. induction grps as [|g grps IH]; cbn [map fold_right concat]; auto. rewrite app_length. lia.
    + apply forallb_forall. intros g Hg. apply forallb_forall. intros k Hk. apply Nat.ltb_lt.
      assert (Hi : In k (seq 0 R)) by (eapply Permutation_in; [exact HP|]; apply in_concat; eauto). apply in_seq in Hi. lia.
    + destruct (list_eq_dec Nat.eq_dec (count_indices R grps) (repeat 1%nat R)) as [|N]; auto. exfalso. apply N.
      apply (nth_ext_len 0%nat); [now rewrite count_indices_length, repeat_length|]. rewrite count_indices_length. intros k Hk.
      change (nth k (count_indices R grps) 0%nat) with (nthN (count_indices R grps) k).
      rewrite count_indices_concat, count_spec by now rewrite repeat_length. unfold nthN. rewrite nth_repeat_any, Hc.
      rewrite (nth_indep _ 0%nat 1%nat) by (rewrite repeat_length; lia). rewrite nth_repeat_any. destruct (Nat.ltb_spec k R); lia.
Qed.
Lemma min_max_fold (f : nat -> nat) grp : forall m0 M0,
  let st := fold_left (fun st idx => let v := f idx in ((if Nat.ltb v (fst st) then v else fst st), (if Nat.ltb (snd st) v then v else snd st))) grp (m0, M0) in
  (fst st <= m0 /\ M0 <= snd st /\ (forall x, In x grp -> fst st <= f x <= snd st) /\ (fst st = m0 \/ exists x, In x grp /\ f x = fst st) /\ (snd st = M0 \/ exists x, In x grp /\ f x = snd st))%nat.
Proof.
  induction grp as [|g grp IH]; intros m0 M0; cbn [fold_left]; cbv zeta.
  - cbn [fst snd]. split; [lia|split; [lia|split; [intros x []|split; now left]]].
  - cbn [fst snd]. specialize (IH (if Nat.ltb (f g) m0 then f g else m0) (if Nat.ltb M0 (f g) then f g else M0)). cbv zeta in IH.
    set (st := fold_left _ grp _) in *. destruct IH as (I1 & I2 & I3 & I4 & I5).
    destruct (Nat.ltb_spec (f g) m0), (Nat.ltb_spec M0 (f g)); (split; [lia|split; [lia|split]]).
    1,3,5,7: intros x [<-|Hx]; [lia|auto].
    all: split; [destruct I4 as [I4|(x & Hx & E)]|destruct I5 as [I5|(x & Hx & E)]].
    all: try (right; exists x; split; [now right|auto]; fail).
    all: try (left; lia).
    all: right; exists g; split; [now left|lia].
Qed.
Lemma min_mem_pos_spec mem_pos grp m : (forall x, In x grp -> nthN mem_pos x < length mem_pos)%nat -> NoDup (map (nthN mem_pos) grp) -> grp <> [] ->
  min_mem_pos mem_pos grp = Some m <-> Permutation (map (nthN mem_pos) grp) (seq m (length grp)).
Proof.
  intros Hlt Hnd Hne. unfold min_mem_pos. pose proof (min_max_fold (nthN mem_pos) grp (length mem_pos) 0) as H. cbv zeta in H. 
  destruct (fold_left _ grp (length mem_pos, 0%nat)) as [mn mx] eqn:E. cbn [fst snd] in H. destruct H as (H1 & H2 & H3 & H4 & H5).
  assert (Hex : exists g, In g grp) by (destruct grp as [|g grp]; [congruence|exists g; now left]). destruct Hex as [g0 Hg0].
  destruct H4 as [H4|(xm & Hxm & Exm)]; [specialize (H3 g0 Hg0); specialize (Hlt g0 Hg0); lia|].
  assert (H5' : exists x, In x grp /\ nthN mem_pos x = mx) by (destruct H5 as [H5|]; auto; exists g0; split; auto; specialize (H3 g0 Hg0); lia). destruct H5' as (xM & HxM & ExM).
  destruct (Nat.eqb_spec (mx + 1) (length grp + mn)) as [Eq|Ne].
  - split.
    + intros K. injection K as <-. apply NoDup_Permutation_bis; auto; [rewrite seq_length, map_length; auto|]. intros v Hv. apply in_map_iff in Hv. destruct Hv as (x & <- & Hx).
      apply in_seq. specialize (H3 x Hx). lia.
    + intros HP. f_equal.
      assert (Hm : In mn (seq m (length grp))) by (eapply Permutation_in; [exact HP|]; apply in_map_iff; eauto). apply in_seq in Hm.
      assert (Hm2 : In m (map (nthN mem_pos) grp)) by (eapply Permutation_in; [symmetry; exact HP|]; apply in_seq; destruct grp; [congruence|cbn [length]; lia]).
      apply in_map_iff in Hm2. destruct Hm2 as (x & Ex & Hx). specialize (H3 x Hx). lia.
  - split; [discriminate|]. intros HP. exfalso. apply Ne.
    assert (Lg : (0 < length grp)%nat) by (destruct grp; [congruence|cbn [length]; lia]).
    assert (Hm : In mn (seq m (length grp))) by (eapply Permutation_in; [exact HP|]; apply in_map_iff; eauto). apply in_seq in Hm.
    assert (HM : In mx (seq m (length grp))) by (eapply Permutation_in; [exact HP|]; apply in_map_iff; eauto). apply in_seq in HM.
    assert (K1 : In m (map (nthN mem_pos) grp)) by (eapply Permutation_in; [symmetry; exact HP|]; apply in_seq; lia).
    assert (K2 : In (m + length grp - 1)%nat (map (nthN mem_pos) grp)) by (eapply Permutation_in; [symmetry; exact HP|]; apply in_seq; lia).
    apply in_map_iff in K1, K2. destruct K1 as (x1 & E1 & K1), K2 as (x2 & E2 & K2). pose proof (H3 x1 K1). pose proof (H3 x2 K2). lia.
Qed.

Lemma all_some_map {A B} (f : A -> option B) (l : list A) r : all_some (map f l) = Some r <-> Forall2 (fun a b => f a = Some b) l r.
Proof.
  revert r. induction l as [|a l IH]; intros r; cbn [map all_some].
  - split; [intros H; injection H as <-; constructor|intros H; now inversion H].
  - destruct (f a) as [b|] eqn:E.
    + destruct (all_some (map f l)) as [r'|] eqn:E2.
      * split; [intros H; injection H as <-; constructor; auto; now apply IH|]. intros H. inversion H as [|x y t u H1 H2]; subst. apply IH in H2. congruence.
      * split; [discriminate|]. intros H. inversion H as [|x y t u H1 H2]; subst. apply IH in H2. discriminate.
    + split; [discriminate|]. intros H. inversion H; congruence.
Qed.

(** segments [seq (start u) (len u)], [u] < [G], which together are [seq 0 R] *)
Definition seg (start len : nat -> nat) (u : nat) : list nat := seq (start u) (len u).
Lemma NoDup_flat_map_disjoint {A B} (f : A -> list B) l x y z : NoDup (flat_map f l) -> In x l -> In y l -> In z (f x) -> In z (f y) -> NoDup l -> x = y.
Proof.
  induction l as [|a l IH]; intros Hf Hx Hy Hzx Hzy Hl; [destruct Hx|]. cbn [flat_map] in Hf.
  assert (Hd : forall z, In z (f a) -> ~ In z (flat_map f l)) by (intros z' H1 H2; apply (NoDup_app_disjoint _ _ Hf z' H1 H2)).
  destruct Hx as [<-|Hx], Hy as [<-|Hy]; auto.
  - exfalso. apply (Hd z Hzx). apply in_flat_map. eauto.
  - exfalso. apply (Hd z Hzy). apply in_flat_map. eauto.
  - inversion Hl; subst. apply IH; auto. now apply NoDup_app_r in Hf.
Qed.

Lemma seg_disjoint start len G R u v q : Permutation (flat_map (seg start len) (seq 0 G)) (seq 0 R) -> (u < G)%nat -> (v < G)%nat ->
  (start u <= q < start u + len u)%nat -> (start v <= q < start v + len v)%nat -> u = v.
Proof.
  intros HP Hu Hv H1 H2. apply (NoDup_flat_map_disjoint (seg start len) (seq 0 G) u v q).
  - eapply Permutation_NoDup; [symmetry; exact HP|apply seq_NoDup].
  - apply in_seq. lia.
  - apply in_seq. lia.
  - apply in_seq. lia.
  - apply in_seq. lia.
  - apply seq_NoDup.
Qed.
Lemma seg_cover start len G R q : Permutation (flat_map (seg start len) (seq 0 G)) (seq 0 R) -> (q < R)%nat <-> exists u, (u < G)%nat /\ (start u <= q < start u + len u)%nat.
Proof.
  intros HP. split.
  - intros Hq. assert (Hi : In q (flat_map (seg start len) (seq 0 G))) by (eapply Permutation_in; [symmetry; exact HP|apply in_seq; lia]).
    apply in_flat_map in Hi. destruct Hi as (u & Hu & Hq2). apply in_seq in Hu, Hq2. exists u. lia.
  - intros (u & Hu & Hq). assert (Hi : In q (seq 0 R)) by (eapply Permutation_in; [exact HP|apply in_flat_map; exists u; split; apply in_seq; lia]). apply in_seq in Hi. lia.
Qed.

(** ranking the starts *)
Lemma filter_lt_length (f : nat -> bool) (g : nat -> bool) l : (forall x, In x l -> f x = true -> g x = true) -> (exists x, In x l /\ f x = false /\ g x = true) ->
  (length (filter f l) < length (filter g l))%nat.
Proof.
  induction l as [|a l IH]; intros Himp (x & Hx & Fx & Gx); [destruct Hx|]. cbn [filter].
  assert (Hle : (length (filter f l) <= length (filter g l))%nat).
  { clear - Himp. induction l as [|b l IHl]; cbn [filter]; auto. assert (IH' : (length (filter f l) <= length (filter g l))%nat) by (apply IHl; intros y [<-|Hy]; apply Himp; [now left|right; now right]).
    destruct (f b) eqn:Fb; [rewrite (Himp b (or_intror (or_introl eq_refl)) Fb); cbn [length]; lia|]. destruct (g b); cbn [length]; lia. }
  destruct Hx as [<-|Hx].
  - rewrite Fx, Gx. cbn [length]. lia.
  - specialize (IH (fun y Hy => Himp y (or_intror Hy)) (ex_intro _ x (conj Hx (conj Fx Gx)))).
    destruct (f a) eqn:Fa; [rewrite (Himp a (or_introl eq_refl) Fa); cbn [length]; lia|]. destruct (g a); cbn [length]; lia.
Qed.
Lemma mem_pos_out_length mins : length (mem_pos_out mins) = length mins.
Proof. unfold mem_pos_out. now rewrite map_length, seq_length. Qed.
Lemma mem_pos_out_lt mins u v : (u < length mins)%nat -> (v < length mins)%nat -> (nthN mins u < nthN mins v)%nat -> (nthN (mem_pos_out mins) u < nthN (mem_pos_out mins) v)%nat.
Proof.
  intros Hu Hv H. unfold nthN at 1 2, mem_pos_out. rewrite !nth_map_seq by auto. apply filter_lt_length.
  - intros x Hx. rewrite !Nat.ltb_lt. lia.
  - exists u. split; [apply in_seq; lia|]. split; [apply Nat.ltb_irrefl|]. now apply Nat.ltb_lt.
Qed.
Lemma mem_pos_out_perm mins : NoDup mins -> is_perm (length mins) (mem_pos_out mins).
Proof.
  intros Hnd. apply is_perm_intro; [apply mem_pos_out_length| |].
  - intros u Hu. unfold nthN, mem_pos_out. rewrite nth_map_seq by auto.
    apply (Nat.lt_le_trans _ (length (filter (fun _ => true) (seq 0 (length mins))))).
    + apply filter_lt_length; auto. exists u. split; [apply in_seq; lia|]. split; [apply Nat.ltb_irrefl|auto].
    + clear. generalize 0%nat. induction (length mins) as [|n IH]; intros s; cbn [seq filter length]; auto. specialize (IH (S s)). lia.
  - intros u v Hu Hv E. destruct (Nat.lt_trichotomy (nthN mins u) (nthN mins v)) as [H|[H|H]].
    + apply (mem_pos_out_lt mins u v) in H; auto. lia.
    + unfold nthN in H. apply (proj1 (NoDup_nth mins 0%nat) Hnd); auto.
    + apply (mem_pos_out_lt mins v u) in H; auto. lia.
Qed.

(** [b] is the block of places [a], ..., [a + n - 1] of the stride order *)
Definition block_at (so : list nat) (grp : list nat) (a : nat) : Prop := Permutation (map (nthN (inverse so)) grp) (seq a (length grp)).
Lemma nthN_inverse_l R so k : is_perm R so -> (k < R)%nat -> nthN so (nthN (inverse so) k) = k.
Proof. intros Ho Hk. apply (nth_inverse_r R); auto. Qed.
Lemma block_at_dims R so grp a : is_perm R so -> Forall (fun k => (k < R)%nat) grp -> block_at so grp a -> Permutation grp (map (nthN so) (seq a (length grp))).
Proof.
  intros Ho Hg H. apply (Permutation_map (nthN so)) in H. rewrite map_map in H. rewrite <- H. rewrite <- (map_id grp) at 1. apply Permutation_refl'.
  apply map_ext_in. intros k Hk. symmetry. apply (nthN_inverse_l R); auto. rewrite Forall_forall in Hg. auto.
Qed.
Lemma block_at_bound R so grp a : is_perm R so -> Forall (fun k => (k < R)%nat) grp -> grp <> [] -> block_at so grp a -> (a + length grp <= R)%nat.
Proof.
  intros Ho Hg Hn H. assert (Hl : (0 < length grp)%nat) by (destruct grp; [congruence|cbn [length]; lia]).
  assert (Hi : In (a + length grp - 1)%nat (map (nthN (inverse so)) grp)) by (eapply Permutation_in; [symmetry; exact H|apply in_seq; lia]).
  apply in_map_iff in Hi. destruct Hi as (k & E & Hk). rewrite Forall_forall in Hg. specialize (Hg k Hk).
  pose proof (is_perm_inverse R so Ho) as Hi. pose proof (is_perm_lt R (inverse so) k Hi Hg) as B. lia.
Qed.
Lemma filter_map {A B} (f : B -> bool) (g : A -> B) l : filter f (map g l) = map g (filter (fun x => f (g x)) l).
Proof. induction l as [|x l IH]; cbn [map filter]; auto. destruct (f (g x)); cbn [map]; now rewrite IH. Qed.
Lemma filter_none {A} (f : A -> bool) l : (forall x, In x l -> f x = false) -> filter f l = [].
Proof. induction l as [|x l IH]; intros H; cbn [filter]; auto. rewrite (H x) by now left. apply IH. intros y Hy. apply H. now right. Qed.
Lemma filter_every {A} (f : A -> bool) l : (forall x, In x l -> f x = true) -> filter f l = l.
Proof. induction l as [|x l IH]; intros H; cbn [filter]; auto. rewrite (H x) by now left. f_equal. apply IH. intros y Hy. apply H. now right. Qed.
Lemma existsb_eqb_In k l : existsb (Nat.eqb k) l = true <-> In k l.
Proof. rewrite existsb_exists. split; [intros (x & Hx & E); apply Nat.eqb_eq in E; now subst|]. intros H. exists k. split; auto. apply Nat.eqb_refl. Qed.
Lemma mem_order_block R so grp a : is_perm R so -> Forall (fun k => (k < R)%nat) grp -> grp <> [] -> block_at so grp a ->
  mem_order so grp = map (nthN so) (seq a (length grp)).
Proof.
  intros Ho Hg Hn H. pose proof (block_at_bound R so grp a Ho Hg Hn H) as B. pose proof (is_perm_length _ _ Ho) as Ls.
  unfold mem_order. replace so with (map (nthN so) (seq 0 R)) at 1 by (rewrite <- Ls; apply map_seq_nth). rewrite filter_map. f_equal.
  replace R with (a + (length grp + (R - a - length grp)))%nat by lia. rewrite !seq_app, !filter_app. cbn [Nat.add].
  assert (HI : forall j, (j < R)%nat -> existsb (Nat.eqb (nthN so j)) grp = true <-> (a <= j < a + length grp)%nat).
  { intros j Hj. rewrite existsb_eqb_In. split; intros Hi.
    - apply (in_map (nthN (inverse so))) in Hi. rewrite (nth_inverse R) in Hi by auto. eapply Permutation_in in Hi; [|exact H]. now apply in_seq in Hi.
    - assert (Hj2 : In j (map (nthN (inverse so)) grp)) by (eapply Permutation_in; [symmetry; exact H|now apply in_seq]).
      apply in_map_iff in Hj2. destruct Hj2 as (k & <- & Hk). rewrite Forall_forall in Hg. rewrite (nthN_inverse_l R); auto. }
  rewrite (filter_none _ (seq 0 a)), (filter_every _ (seq a (length grp))), (filter_none _ (seq (a + length grp) _)).
  - cbn [app]. apply app_nil_r.
  - intros j Hj. apply in_seq in Hj. apply not_true_iff_false. rewrite HI by lia. lia.
  - intros j Hj. apply in_seq in Hj. apply HI; lia.
  - intros j Hj. apply in_seq in Hj. apply not_true_iff_false. rewrite HI by lia. lia.
Qed.

Lemma skipn_seg_prod (L : list Z) a n : (a + n <= length L)%nat -> prodZ (skipn a L) = prodZ (map (nthZ L) (seq a n)) * prodZ (skipn (a + n) L).
Proof.
  revert a. induction n as [|n IH]; intros a H; cbn [seq map].
  - rewrite prodZ_nil, Nat.add_0_r. lia.
  - rewrite prodZ_cons, (skipn_cons_nth L a 0) by lia. rewrite prodZ_cons, (IH (S a)) by lia. replace (S a + n)%nat with (a + S n)%nat by lia. unfold nthZ. ring.
Qed.
Lemma seg_radix (L I : list Z) a n : (a + n <= length L)%nat ->
  sumZ (map (fun j => nthZ I j * prodZ (skipn (S j) L)) (seq a n)) = prodZ (skipn (a + n) L) * radix (map (nthZ L) (seq a n)) (map (nthZ I) (seq a n)).
Proof.
  revert a. induction n as [|n IH]; intros a H; cbn [seq map].
  - cbn [sumZ fold_right radix]. lia.
  - rewrite sumZ_cons, IH by lia. cbn [radix]. rewrite (skipn_seg_prod L (S a) n) by lia. replace (S a + n)%nat with (a + S n)%nat by lia. ring.
Qed.
Lemma in_order_nth so (l : list Z) j : (j < length so)%nat -> nthZ (in_order 0 so l) j = nthZ l (nthN so j).
Proof. intros H. unfold in_order, nthZ, nthN. now rewrite (nth_map_lt (fun k => nth k l 0) so j 0 0%nat). Qed.
Lemma in_order_length {A} (d : A) so l : length (in_order d so l) = length so.
Proof. apply map_length. Qed.
Lemma group_sum m grp a idx : wf m -> regular 1 m -> Forall (fun k => (k < rank m)%nat) grp -> grp <> [] -> block_at (im_so m) grp a ->
  sumZ (map (fun k => nthZ idx k * nthZ (im_str m) k) grp) =
  prodZ (skipn (a + length grp) (in_order 0 (im_so m) (im_len m))) * merged_index m idx grp.
Proof.
  intros (Ls & Ho & _) Hr Hg Hn H. unfold rank in Hg. pose proof (block_at_bound _ _ _ _ Ho Hg Hn H) as B. pose proof (is_perm_length _ _ Ho) as Lo.
  unfold merged_index, seq_number. rewrite (mem_order_block _ _ _ _ Ho Hg Hn H).
  rewrite (sumZ_perm _ _ (Permutation_map _ (block_at_dims _ _ _ _ Ho Hg H))). rewrite map_map.
  transitivity (sumZ (map (fun j => nthZ (in_order 0 (im_so m) idx) j * prodZ (skipn (S j) (in_order 0 (im_so m) (im_len m)))) (seq a (length grp)))).
  - f_equal. apply map_ext_in. intros j Hj. apply in_seq in Hj. assert (Hj2 : (j < length (im_so m))%nat) by lia. rewrite in_order_nth by auto. f_equal.
    specialize (Hr j Hj2). fold (nthZ (in_order 0 (im_so m) (im_str m)) j) in Hr. rewrite in_order_nth in Hr by auto. lia.
  - rewrite seg_radix by (rewrite in_order_length; lia). f_equal. unfold in_order at 3 4. rewrite !map_map. f_equal; apply map_ext_in; intros j Hj; apply in_seq in Hj; apply in_order_nth; lia.
Qed.
Lemma total_len_prod m grp : total_len_of_a_grp m grp = prodZ (map (nthZ (im_len m)) grp).
Proof.
  unfold total_len_of_a_grp. assert (G : forall acc, fold_left (fun l u => l * nthZ (im_len m) u) grp acc = acc * prodZ (map (nthZ (im_len m)) grp)).
  { induction grp as [|g grp IH]; intros acc; cbn [fold_left map]; [rewrite prodZ_nil; lia|]. rewrite IH, prodZ_cons. ring. }
  rewrite G. ring.
Qed.
Lemma merged_index_bound m grp a idx : wf m -> Forall (fun k => (k < rank m)%nat) grp -> grp <> [] -> block_at (im_so m) grp a -> valid_idx m idx ->
  0 <= merged_index m idx grp < total_len_of_a_grp m grp.
Proof.
  intros (Ls & Ho & _) Hg Hn H Hv. unfold rank in Hg. rewrite total_len_prod. unfold merged_index, seq_number. rewrite (mem_order_block _ _ _ _ Ho Hg Hn H).
  rewrite (prodZ_perm _ _ (Permutation_map (nthZ (im_len m)) (block_at_dims _ _ _ _ Ho Hg H))).
  pose proof (block_at_bound _ _ _ _ Ho Hg Hn H) as B. apply radix_bound. unfold in_order.
  assert (Hk : Forall (fun k => (k < length (im_len m))%nat) (map (nthN (im_so m)) (seq a (length grp)))).
  { apply Forall_forall. intros k Hk. apply in_map_iff in Hk. destruct Hk as (j & <- & Hj). apply in_seq in Hj. apply (is_perm_lt _ _ _ Ho). lia. }
  revert Hk. generalize (map (nthN (im_so m)) (seq a (length grp))). intros l. induction l as [|k l IH]; intros Hk; cbn [map]; constructor.
  - inversion Hk; subst. apply (proj1 (Forall2_nth inr idx (im_len m) 0 0) Hv). now rewrite (in_range_length _ _ Hv).
  - apply IH. now inversion Hk.
Qed.

Lemma min_fold_spec (f : nat -> Z) l x : let d := fold_left (fun s u => Z.min s (f u)) l x in
  d <= x /\ (forall u, In u l -> d <= f u) /\ (d = x \/ exists u, In u l /\ d = f u).
Proof.
  cbn zeta. revert x. induction l as [|a l IH]; intros x; cbn [fold_left].
  - split; [lia|]. split; [intros u []|now left].
  - destruct (IH (Z.min x (f a))) as (H1 & H2 & H3). split; [lia|]. split.
    + intros u [<-|Hu]; [lia|auto].
    + destruct H3 as [->|(u & Hu & ->)]; [|right; exists u; split; [now right|auto]].
      destruct (Z.min_spec x (f a)) as [[_ ->]|[_ ->]]; [now left|right; exists a; split; [now left|auto]].
Qed.
Lemma nth_skipn {A} n i (l : list A) d : nth i (skipn n l) d = nth (n + i) l d.
Proof. revert l. induction n as [|n IH]; intros [|x l]; cbn [skipn Nat.add nth]; auto. now destruct i. Qed.
Lemma Forall_skipn {A} (P : A -> Prop) n l : Forall P l -> Forall P (skipn n l).
Proof. revert n. induction l as [|x l IH]; intros [|n] H; cbn [skipn]; auto. apply IH. now inversion H. Qed.
Lemma prod_skipn_le (L : list Z) a b : Forall (fun l => 0 < l) L -> (a <= b)%nat -> prodZ (skipn b L) <= prodZ (skipn a L).
Proof.
  intros HL Hab. destruct (Nat.le_gt_cases b (length L)) as [Hb|Hb].
  - rewrite (skipn_seg_prod L a (b - a)) by lia. replace (a + (b - a))%nat with b by lia.
    assert (P1 : 0 < prodZ (skipn b L)) by (apply prodZ_pos; now apply Forall_skipn).
    assert (P2 : 0 < prodZ (map (nthZ L) (seq a (b - a)))).
    { apply prodZ_pos. apply Forall_forall. intros x Hx. apply in_map_iff in Hx. destruct Hx as (j & <- & Hj). apply in_seq in Hj. rewrite Forall_forall in HL. apply HL. apply nth_In. lia. }
    nia.
  - rewrite (skipn_all2 L) by lia. rewrite prodZ_nil. assert (P : 0 < prodZ (skipn a L)) by (apply prodZ_pos; now apply Forall_skipn). lia.
Qed.
Lemma group_stride m grp a : wf m -> regular 1 m -> Forall (fun l => 0 < l) (im_len m) -> Forall (fun k => (k < rank m)%nat) grp -> grp <> [] -> block_at (im_so m) grp a ->
  min_stride_of_a_grp m grp = prodZ (skipn (a + length grp) (in_order 0 (im_so m) (im_len m))).
Proof.
  intros (Ls & Ho & _) Hr Hpos Hg Hn H. unfold rank in Hg. pose proof (block_at_bound _ _ _ _ Ho Hg Hn H) as B. pose proof (is_perm_length _ _ Ho) as Lo.
  set (L := in_order 0 (im_so m) (im_len m)). assert (HL : Forall (fun l => 0 < l) L) by (unfold L; rewrite in_order_apply; now apply (Forall_apply _ (length (im_len m)))).
  assert (LL : length L = length (im_len m)) by (unfold L; rewrite in_order_length; lia).
  assert (HS : forall j, (j < length (im_len m))%nat -> nthZ (im_str m) (nthN (im_so m) j) = prodZ (skipn (S j) L)).
  { intros j Hj. rewrite <- Lo in Hj. specialize (Hr j Hj). fold (nthZ (in_order 0 (im_so m) (im_str m)) j) in Hr. rewrite in_order_nth in Hr by auto. fold L in Hr. lia. }
  pose proof (block_at_dims _ _ _ _ Ho Hg H) as HP. assert (Hl : (0 < length grp)%nat) by (destruct grp; [congruence|cbn [length]; lia]).
  unfold min_stride_of_a_grp. destruct (min_fold_spec (nthZ (im_str m)) grp (size m)) as (H1 & H2 & H3). cbn zeta in *.
  set (d := fold_left _ grp (size m)) in *. apply Z.le_antisymm.
  - assert (Hi : In (nthN (im_so m) (a + length grp - 1)) grp).
    { eapply Permutation_in; [symmetry; exact HP|]. apply in_map. apply in_seq. lia. }
    specialize (H2 _ Hi). rewrite HS in H2 by lia. replace (S (a + length grp - 1)) with (a + length grp)%nat in H2 by lia. exact H2.
  - destruct H3 as [->|(u & Hu & ->)].
    + rewrite size_prodZ. rewrite <- (prodZ_perm _ _ (apply_Permutation 0 _ _ (im_len m) Ho eq_refl)). rewrite <- in_order_apply. fold L.
      change (prodZ L) with (prodZ (skipn 0 L)). apply prod_skipn_le; auto. lia.
    + eapply Permutation_in in Hu; [|exact HP]. apply in_map_iff in Hu. destruct Hu as (j & <- & Hj). apply in_seq in Hj. rewrite HS by lia. apply prod_skipn_le; auto. lia.
Qed.

Lemma flat_map_Permutation_pointwise {A B} (f g : A -> list B) l : (forall x, In x l -> Permutation (f x) (g x)) -> Permutation (flat_map f l) (flat_map g l).
Proof. induction l as [|x l IH]; intros H; cbn [flat_map]; auto. apply Permutation_app; [apply H; now left|]. apply IH. intros y Hy. apply H. now right. Qed.
Lemma concat_nth {A} (l : list (list A)) : concat l = flat_map (fun u => nth u l []) (seq 0 (length l)).
Proof. rewrite flat_map_concat_map, map_seq_nth. reflexivity. Qed.
Lemma map_concat {A B} (f : A -> B) l : map f (concat l) = concat (map (map f) l).
Proof. apply concat_map. Qed.

Definition starts_ok (so : list nat) (grps : list (list nat)) (mins : list nat) : Prop := Forall2 (block_at so) grps mins.
Lemma blocks_cover R so grps mins : is_perm R so -> partition_of R grps -> starts_ok so grps mins ->
  Permutation (flat_map (seg (nthN mins) (fun u => length (nth u grps []))) (seq 0 (length grps))) (seq 0 R).
Proof.
  intros Ho Hp Hs. transitivity (map (nthN (inverse so)) (seq 0 R)).
  - transitivity (map (nthN (inverse so)) (concat grps)); [|now apply Permutation_map].
    rewrite map_concat, concat_nth, map_length. apply flat_map_Permutation_pointwise. intros u Hu. apply in_seq in Hu.
    rewrite (nth_map_lt (map (nthN (inverse so))) grps u [] []) by lia. symmetry.
    apply (proj1 (Forall2_nth (block_at so) grps mins [] 0%nat) Hs). lia.
  - pose proof (is_perm_inverse R so Ho) as Hi. rewrite <- Hi at 2. apply Permutation_refl'. rewrite <- (is_perm_length _ _ Hi). apply map_seq_nth.
Qed.
Lemma group_members R grps : partition_of R grps -> Forall (Forall (fun k => (k < R)%nat)) grps.
Proof.
  intros H. apply Forall_forall. intros g Hg. apply Forall_forall. intros k Hk.
  assert (Hi : In k (seq 0 R)) by (eapply Permutation_in; [exact H|]; apply in_concat; eauto). apply in_seq in Hi. lia.
Qed.
Lemma starts_distinct R so grps mins : is_perm R so -> partition_of R grps -> Forall (fun g => g <> []) grps -> starts_ok so grps mins -> NoDup mins.
Proof.
  intros Ho Hp Hn Hs. pose proof (blocks_cover _ _ _ _ Ho Hp Hs) as HC. pose proof (Forall2_length_eq _ _ _ Hs) as L. apply (NoDup_nth mins 0%nat). intros u v Hu Hv E.
  assert (Hlen : forall w, (w < length grps)%nat -> (0 < length (nth w grps []))%nat).
  { intros w Hw. rewrite Forall_forall in Hn. specialize (Hn (nth w grps []) (nth_In _ _ Hw)). destruct (nth w grps []); [congruence|cbn [length]; lia]. }
  apply (seg_disjoint _ _ _ _ u v (nthN mins u) HC); try lia.
  - specialize (Hlen u ltac:(lia)). lia.
  - specialize (Hlen v ltac:(lia)). unfold nthN in *. lia.
Qed.
Lemma NoDup_flat_map_sub {A B} (f : A -> list B) l l' : NoDup (flat_map f l) -> NoDup l -> NoDup l' -> incl l' l -> NoDup (flat_map f l').
Proof.
  intros Hf Hl Hl' Hi. induction l' as [|x l' IH]; cbn [flat_map]; [constructor|]. inversion Hl' as [|y t Hn Hd]; subst.
  apply NoDup_app_intro.
  - clear - Hf Hi. assert (Hx : In x l) by (apply Hi; now left). apply in_split in Hx. destruct Hx as (a & b & ->). rewrite flat_map_app in Hf. cbn [flat_map] in Hf.
    apply NoDup_app_r in Hf. now apply NoDup_app_l in Hf.
  - apply IH; auto. intros y Hy. apply Hi. now right.
  - intros z Hz Hz2. apply in_flat_map in Hz2. destruct Hz2 as (y & Hy & Hzy).
    assert (x = y) by (apply (NoDup_flat_map_disjoint f l x y z); auto; apply Hi; [now left|now right]). subst. contradiction.
Qed.
Lemma prodZ_flat_map {A} (f : A -> list Z) l : prodZ (flat_map f l) = prodZ (map (fun x => prodZ (f x)) l).
Proof. induction l as [|x l IH]; cbn [flat_map map]; auto. now rewrite prodZ_app, prodZ_cons, IH. Qed.
(** the groups that follow the k-th group fill exactly the places after it *)
Lemma later_blocks R so grps mins k : is_perm R so -> partition_of R grps -> Forall (fun g => g <> []) grps -> starts_ok so grps mins -> (k < length grps)%nat ->
  let so' := inverse (mem_pos_out mins) in let u := nthN so' k in
  Permutation (flat_map (seg (nthN mins) (fun u => length (nth u grps []))) (skipn (S k) so'))
              (seq (nthN mins u + length (nth u grps [])) (R - (nthN mins u + length (nth u grps [])))).
Proof.
  intros Ho Hp Hn Hs Hk so' u. pose proof (blocks_cover _ _ _ _ Ho Hp Hs) as HC. pose proof (Forall2_length_eq _ _ _ Hs) as L.
  pose proof (mem_pos_out_perm mins (starts_distinct _ _ _ _ Ho Hp Hn Hs)) as Hm. rewrite <- L in Hm.
  pose proof (is_perm_inverse _ _ Hm) as Hs'. fold so' in Hs'. pose proof (is_perm_length _ _ Hs') as Ls'.
  assert (Hu : (u < length grps)%nat) by (now apply (is_perm_lt _ _ _ Hs')).
  assert (Eu : nthN (mem_pos_out mins) u = k) by (apply (nthN_inverse_l (length grps)); auto).
  assert (Hlen : forall w, (w < length grps)%nat -> (0 < length (nth w grps []))%nat).
  { intros w Hw. rewrite Forall_forall in Hn. specialize (Hn (nth w grps []) (nth_In _ _ Hw)). destruct (nth w grps []); [congruence|cbn [length]; lia]. }
  assert (Hskip : forall v, In v (skipn (S k) so') <-> (v < length grps)%nat /\ (k < nthN (mem_pos_out mins) v)%nat).
  { intros v. split.
    - intros Hv. apply (In_nth _ _ 0%nat) in Hv. destruct Hv as (i & Hi & <-). rewrite skipn_length in Hi. rewrite nth_skipn.
      assert (Hlt : (S k + i < length grps)%nat) by lia. split; [now apply (is_perm_lt _ _ (S k + i) Hs')|].
      change (nth (S k + i) so' 0%nat) with (nthN (inverse (mem_pos_out mins)) (S k + i)). rewrite (nthN_inverse_l (length grps)) by auto. lia.
    - intros (Hv & Hkv). assert (Hr : (nthN (mem_pos_out mins) v < length grps)%nat) by (now apply (is_perm_lt _ _ _ Hm)).
      assert (E : nthN so' (nthN (mem_pos_out mins) v) = v) by (apply (nth_inverse (length grps)); auto).
      rewrite <- E. replace (nthN (mem_pos_out mins) v) with (S k + (nthN (mem_pos_out mins) v - S k))%nat by lia.
      unfold nthN at 1. rewrite <- nth_skipn. apply nth_In. rewrite skipn_length. lia. }
  assert (Hlater : forall v, (v < length grps)%nat -> (k < nthN (mem_pos_out mins) v)%nat <-> (nthN mins u < nthN mins v)%nat).
  { intros v Hv. split.
    - intros H. destruct (Nat.lt_trichotomy (nthN mins u) (nthN mins v)) as [H1|[H1|H1]]; auto; exfalso.
      + assert (u = v) by (apply (proj1 (NoDup_nth mins 0%nat) (starts_distinct _ _ _ _ Ho Hp Hn Hs)); auto; lia). subst v. lia.
      + apply mem_pos_out_lt in H1; lia.
    - intros H. apply mem_pos_out_lt in H; lia. }
  apply NoDup_Permutation.
  - apply (NoDup_flat_map_sub _ (seq 0 (length grps))).
    + eapply Permutation_NoDup; [symmetry; exact HC|apply seq_NoDup].
    + apply seq_NoDup.
    + rewrite <- (firstn_skipn (S k) so') in Hs'. apply is_perm_NoDup in Hs'. now apply NoDup_app_r in Hs'.
    + intros v Hv. apply Hskip in Hv. apply in_seq. lia.
  - apply seq_NoDup.
  - intros q. rewrite in_seq, in_flat_map. split.
    + intros (v & Hv & Hq). apply in_seq in Hq. apply Hskip in Hv. destruct Hv as [Hv Hkv]. apply Hlater in Hkv; auto.
      assert (HqR : (q < R)%nat) by (apply (seg_cover _ _ _ _ q HC); exists v; lia).
      destruct (Nat.lt_ge_cases q (nthN mins u + length (nth u grps []))) as [Hlt|Hge]; [exfalso|lia].
      assert (u = v) by (apply (seg_disjoint _ _ _ _ u v q HC); auto; lia). subst v. lia.
    + intros Hq. destruct (proj1 (seg_cover _ _ _ _ q HC)) as (v & Hv & Hqv); [lia|]. exists v. split; [|apply in_seq; lia].
      apply Hskip. split; auto. apply Hlater; auto. destruct (Nat.lt_ge_cases (nthN mins u) (nthN mins v)) as [H1|H1]; auto; exfalso.
      specialize (Hlen u Hu). assert (Huv : v = u); [|subst v; lia].
      apply (seg_disjoint _ _ _ _ v u (nthN mins u) HC); auto; lia.
Qed.

Definition grouped (m : idx_map) (grps : list (list nat)) (mins : list nat) : idx_map :=
  idx_map_of_shape_strides (inverse (mem_pos_out mins)) (repeat 0 (length grps)) LP_contiguous (map (total_len_of_a_grp m) grps) (map (min_stride_of_a_grp m) grps).
Lemma grouped_wf m grps mins : wf m -> partition_of (rank m) grps -> Forall (fun g => g <> []) grps -> starts_ok (im_so m) grps mins -> wf (grouped m grps mins).
Proof.
  intros (Ls & Ho & Le & Hnn & Hr) Hp Hn Hs. unfold rank in Hp. pose proof (Forall2_length_eq _ _ _ Hs) as L.
  unfold wf, grouped, idx_map_of_shape_strides. cbn [im_len im_str im_so im_se]. rewrite !map_length, repeat_length.
  split; auto. split; [|split; auto].
  - apply is_perm_inverse. rewrite L. apply mem_pos_out_perm. exact (starts_distinct _ _ _ _ Ho Hp Hn Hs).
  - split.
    + apply Forall_forall. intros x Hx. apply in_map_iff in Hx. destruct Hx as (g & <- & Hg). rewrite total_len_prod. apply prodZ_nonneg. apply Forall_forall.
      intros x Hx. apply in_map_iff in Hx. destruct Hx as (k & <- & Hk). pose proof (group_members _ _ Hp) as HM. rewrite Forall_forall in HM. specialize (HM g Hg). rewrite Forall_forall in HM.
      rewrite Forall_forall in Hnn. apply Hnn. apply nth_In. auto.
    + assert (Lc : length (concat grps) = length (im_len m)) by (rewrite (Permutation_length Hp); apply seq_length).
      assert (Hle : (length grps <= length (concat grps))%nat).
      { clear - Hn. induction Hn as [|g l Hg Hl IH]; cbn [concat length]; auto. rewrite app_length. destruct g; [congruence|cbn [length]; lia]. }
      destruct grps as [|g grps]; [cbn [concat length] in *; lia|cbn [length] in *; lia].
Qed.
Lemma grouped_regular m grps mins : wf m -> regular 1 m -> Forall (fun l => 0 < l) (im_len m) -> partition_of (rank m) grps -> Forall (fun g => g <> []) grps -> starts_ok (im_so m) grps mins ->
  regular 1 (grouped m grps mins).
Proof.
  intros W Hr Hpos Hp Hn Hs. pose proof W as (Ls & Ho & Le & Hnn & HR). pose proof (Forall2_length_eq _ _ _ Hs) as L.
  pose proof (group_members _ _ Hp) as HM. pose proof (is_perm_length _ _ Ho) as Lo.
  pose proof (mem_pos_out_perm mins (starts_distinct _ _ _ _ Ho Hp Hn Hs)) as Hm. rewrite <- L in Hm.
  pose proof (is_perm_inverse _ _ Hm) as Hs'. pose proof (is_perm_length _ _ Hs') as Ls'.
  intros k Hk. unfold grouped, idx_map_of_shape_strides in *. cbn [im_len im_str im_so im_se] in *.
  assert (Hk2 : (k < length grps)%nat) by lia. pose proof (later_blocks _ _ _ _ k Ho Hp Hn Hs Hk2) as HLB. cbn zeta in HLB.
  set (so' := inverse (mem_pos_out mins)) in *. set (u := nthN so' k) in *.
  assert (Hu : (u < length grps)%nat) by (now apply (is_perm_lt _ _ _ Hs')).
  set (Lo' := in_order 0 (im_so m) (im_len m)). assert (LL : length Lo' = length (im_len m)) by (unfold Lo'; rewrite in_order_length; lia).
  assert (Hgrp : forall v, (v < length grps)%nat -> Forall (fun k => (k < rank m)%nat) (nth v grps []) /\ nth v grps [] <> [] /\ block_at (im_so m) (nth v grps []) (nthN mins v)).
  { intros v Hv. rewrite Forall_forall in HM, Hn. split; [apply HM; now apply nth_In|]. split; [apply Hn; now apply nth_In|].
    apply (proj1 (Forall2_nth (block_at (im_so m)) grps mins [] 0%nat) Hs). auto. }
  fold (nthZ (in_order 0 so' (map (min_stride_of_a_grp m) grps)) k). rewrite in_order_nth by auto. fold u.
  unfold nthZ. rewrite (nth_map_lt (min_stride_of_a_grp m) grps u 0 []) by auto.
  destruct (Hgrp u Hu) as (G1 & G2 & G3). rewrite (group_stride m _ _ W Hr Hpos G1 G2 G3). fold Lo'.
  pose proof (block_at_bound _ _ _ _ Ho G1 G2 G3) as B.
  set (e := (nthN mins u + length (nth u grps []))%nat) in *.
  assert (E1 : prodZ (skipn e Lo') = prodZ (map (nthZ Lo') (seq e (length (im_len m) - e)))).
  { rewrite (skipn_seg_prod Lo' e (length (im_len m) - e)) by lia. rewrite (skipn_all2 Lo' (n := (e + (length (im_len m) - e))%nat)) by lia. rewrite prodZ_nil. lia. }
  rewrite E1, <- (prodZ_perm _ _ (Permutation_map (nthZ Lo') HLB)).
  unfold in_order. rewrite skipn_map. rewrite flat_map_concat_map, concat_map, map_map, <- flat_map_concat_map, prodZ_flat_map. rewrite Z.mul_1_l. f_equal.
  apply map_ext_in. intros v Hv. assert (Hv2 : (v < length grps)%nat).
  { apply (is_perm_In _ _ v Hs'). rewrite <- (firstn_skipn (S k) so'). apply in_or_app. now right. }
  destruct (Hgrp v Hv2) as (V1 & V2 & V3). rewrite (nth_map_lt (total_len_of_a_grp m) grps v 0 []) by auto. rewrite total_len_prod.
  rewrite (prodZ_perm _ _ (Permutation_map (nthZ (im_len m)) (block_at_dims _ _ _ _ Ho V1 V3))). rewrite map_map. unfold seg. f_equal. apply map_ext_in.
  intros j Hj. apply in_seq in Hj. unfold Lo'. pose proof (block_at_bound _ _ _ _ Ho V1 V2 V3) as B2. apply in_order_nth. lia.
Qed.
Lemma dot_map_map {A} (f g : A -> Z) l : dot (map f l) (map g l) = sumZ (map (fun x => f x * g x) l).
Proof. induction l as [|x l IH]; cbn [map dot]; auto. now rewrite IH, sumZ_cons. Qed.
Lemma sumZ_concat l : sumZ (concat l) = sumZ (map sumZ l).
Proof. induction l as [|x l IH]; cbn [concat map]; auto. now rewrite sumZ_app, sumZ_cons, IH. Qed.
Lemma grouped_addr m grps mins idx : wf m -> regular 1 m -> partition_of (rank m) grps -> Forall (fun g => g <> []) grps -> starts_ok (im_so m) grps mins ->
  valid_idx m idx -> valid_idx (grouped m grps mins) (merged m grps idx) /\ addr (grouped m grps mins) (merged m grps idx) = addr m idx.
Proof.
  intros W Hr Hp Hn Hs Hv. pose proof W as (Ls & Ho & Le & Hnn & HR). pose proof (group_members _ _ Hp) as HM. pose proof (in_range_pos _ _ Hv) as Hpos.
  assert (Hgrp : forall g, In g grps -> exists a, Forall (fun k => (k < rank m)%nat) g /\ g <> [] /\ block_at (im_so m) g a).
  { intros g Hg. rewrite Forall_forall in HM, Hn. clear - Hg HM Hn Hs. assert (Hx : exists a, block_at (im_so m) g a).
    { clear - Hg Hs. induction Hs as [|x y l l' H1 H2 IH]; [destruct Hg|]. destruct Hg as [<-|Hg]; eauto. }
    destruct Hx as (a & Ha). exists a. auto. }
  unfold valid_idx, addr, grouped, idx_map_of_shape_strides, merged. cbn [im_len im_str]. split.
  - clear Hs Hp HM Hn. induction grps as [|g l IH]; cbn [map]; constructor.
    + destruct (Hgrp g (or_introl eq_refl)) as (a & G1 & G2 & G3). now apply (merged_index_bound m g a).
    + apply IH. intros g' Hg'. apply Hgrp. now right.
  - rewrite dot_map_map. rewrite (dot_sum_seq idx (im_str m)) by (rewrite (in_range_length _ _ Hv); lia).
    rewrite (in_range_length _ _ Hv). unfold rank in Hp. rewrite <- (sumZ_perm _ _ (Permutation_map _ Hp)). rewrite concat_map, sumZ_concat, map_map. f_equal.
    apply map_ext_in. intros g Hg. destruct (Hgrp g Hg) as (a & G1 & G2 & G3). rewrite (group_stride m g a) by auto. rewrite Z.mul_comm. symmetry. now apply group_sum.
Qed.

Lemma block_side_by_side R so grp a : is_perm R so -> Forall (fun k => (k < R)%nat) grp -> grp <> [] -> block_at so grp a -> side_by_side so grp.
Proof.
  intros Ho Hg Hn H. pose proof (block_at_bound R so grp a Ho Hg Hn H) as B. pose proof (is_perm_length _ _ Ho) as Ls.
  exists (map (nthN so) (seq 0 a)), (map (nthN so) (seq a (length grp))), (map (nthN so) (seq (a + length grp) (R - a - length grp))).
  split; [|symmetry; now apply (block_at_dims R)].
  rewrite <- !map_app. rewrite <- (map_seq_nth so 0%nat) at 1. fold (nthN so). rewrite Ls. f_equal.
  replace R with (a + (length grp + (R - a - length grp)))%nat at 1 by lia. rewrite !seq_app. reflexivity.
Qed.
Lemma side_by_side_block R so grp : is_perm R so -> side_by_side so grp -> exists a, block_at so grp a.
Proof.
  intros Ho (p & b & c & E & HP). exists (length p). unfold block_at. rewrite <- (Permutation_length HP). transitivity (map (nthN (inverse so)) b); [symmetry; now apply Permutation_map|].
  pose proof (is_perm_length _ _ Ho) as Ls. rewrite E, !app_length in Ls.
  enough (X : map (nthN (inverse so)) b = seq (length p) (length b)) by now rewrite X.
  apply (nth_ext_len 0%nat); [now rewrite map_length, seq_length|]. intros i Hi. rewrite map_length in Hi.
  rewrite seq_nth by auto. rewrite (nth_map_lt (nthN (inverse so)) b i 0%nat 0%nat) by auto.
  assert (En : nth i b 0%nat = nthN so (length p + i)).
  { unfold nthN. rewrite E, app_nth2 by lia. replace (length p + i - length p)%nat with i by lia. now rewrite app_nth1. }
  rewrite En. apply (nth_inverse R); auto. lia.
Qed.
Lemma starts_iff m grps : wf m -> partition_of (rank m) grps -> Forall (fun g => g <> []) grps ->
  forall mins, all_some (map (min_mem_pos (inverse (im_so m))) grps) = Some mins <-> starts_ok (im_so m) grps mins.
Proof.
  intros (Ls & Ho & _) Hp Hn mins. rewrite all_some_map. pose proof (group_members _ _ Hp) as HM.
  assert (HND : NoDup (concat grps)) by (eapply Permutation_NoDup; [symmetry; exact Hp|apply seq_NoDup]). unfold starts_ok.
  assert (HE : forall g, In g grps -> forall a, min_mem_pos (inverse (im_so m)) g = Some a <-> block_at (im_so m) g a).
  { intros g Hg a. rewrite Forall_forall in HM, Hn. specialize (HM g Hg). specialize (Hn g Hg). apply min_mem_pos_spec; auto.
    - rewrite inverse_length, (is_perm_length _ _ Ho). pose proof (is_perm_inverse _ _ Ho) as Hi. rewrite Forall_forall in HM. intros k Hk. apply (is_perm_lt _ _ _ Hi). now apply HM.
    - assert (Hgd : NoDup g). { clear - HND Hg. induction grps as [|x l IH]; [destruct Hg|]. cbn [concat] in HND. destruct Hg as [<-|Hg]; [now apply NoDup_app_l in HND|]. apply IH; auto. now apply NoDup_app_r in HND. }
      pose proof (is_perm_inverse _ _ Ho) as Hi. clear - Hgd HM Hi. rewrite Forall_forall in HM. unfold rank in HM. induction Hgd as [|x l Hx Hl IH]; cbn [map]; constructor.
      + intros Hc. apply in_map_iff in Hc. destruct Hc as (y & E & Hy). apply (is_perm_inj _ _ _ _ Hi) in E; [subst; auto|apply HM; now right|apply HM; now left].
      + apply IH. intros z Hz. apply HM. now right. }
  clear - HE. revert mins HE. induction grps as [|g l IH]; intros mins HE; split; intros H; inversion H as [|x y t u H1 H2]; subst; constructor.
  - apply HE; auto. now left.
  - apply IH; auto. intros g' Hg'. apply HE. now right.
  - apply HE; auto. now left.
  - apply IH; auto. intros g' Hg'. apply HE. now right.
Qed.
Lemma group_layout_iff m grps m' : wf m -> Forall (fun g => g <> []) grps ->
  group_indices_layout m grps = Some m' <-> im_prop m = LP_contiguous /\ partition_of (rank m) grps /\ exists mins, starts_ok (im_so m) grps mins /\ m' = grouped m grps mins.
Proof.
  intros W Hn. unfold group_indices_layout. destruct (lp_eqb (im_prop m) LP_contiguous) eqn:E1; cbn [negb].
  2:{ split; [discriminate|]. intros (H & _). rewrite H in E1. discriminate. }
  assert (E1' : im_prop m = LP_contiguous) by (destruct (im_prop m); cbn in E1; congruence).
  destruct (is_partition_of_indices (rank m) grps) eqn:E2; cbn [negb].
  2:{ split; [discriminate|]. intros (_ & H & _). apply partition_spec in H. congruence. }
  apply partition_spec in E2. unfold stride_order_of_grouped_idx_map. destruct (all_some _) as [mins|] eqn:E3.
  - split.
    + intros H. injection H as <-. split; auto. split; auto. exists mins. split; [|reflexivity]. now apply starts_iff in E3.
    + intros (_ & _ & mins' & Hs & ->). apply starts_iff in Hs; auto. rewrite E3 in Hs. injection Hs as <-. reflexivity.
  - split; [discriminate|]. intros (_ & _ & mins' & Hs & ->). apply starts_iff in Hs; auto. congruence.
Qed.
Lemma group_layout_accepts m grps : wf m -> Forall (fun g => g <> []) grps ->
  group_indices_layout m grps <> None <-> im_prop m = LP_contiguous /\ partition_of (rank m) grps /\ Forall (side_by_side (im_so m)) grps.
Proof.
  intros W Hn. pose proof W as (_ & Ho & _). split.
  - intros H. destruct (group_indices_layout m grps) as [m'|] eqn:E; [|congruence]. apply group_layout_iff in E; auto. destruct E as (E1 & E2 & mins & Hs & _).
    split; auto. split; auto. pose proof (group_members _ _ E2) as HM. clear - Hs Hn HM Ho. induction Hs as [|g a l l' H1 H2 IH]; constructor.
    + inversion Hn; inversion HM; subst. eapply block_side_by_side; eauto.
    + inversion Hn; inversion HM; subst. auto.
  - intros (E1 & E2 & Hs) E. assert (Hx : exists mins, starts_ok (im_so m) grps mins).
    { clear - Hs Ho. induction Hs as [|g l H1 H2 (mins & IH)]; [exists []; constructor|]. destruct (side_by_side_block _ _ _ Ho H1) as (a & Ha). exists (a :: mins). now constructor. }
    destruct Hx as (mins & Hm). enough (group_indices_layout m grps = Some (grouped m grps mins)) by congruence. apply group_layout_iff; auto. split; auto. split; auto. exists mins. auto.
Qed.
Lemma apply_inj {A} (d : A) n p a b : is_perm n p -> length a = n -> length b = n -> apply d p a = apply d p b -> a = b.
Proof. intros Ho La Lb E. rewrite <- (apply_inverse_apply d n p a), <- (apply_inverse_apply d n p b) by auto. now rewrite E. Qed.
Lemma grouped_onto m grps mins j : wf m -> regular 1 m -> partition_of (rank m) grps -> Forall (fun g => g <> []) grps -> starts_ok (im_so m) grps mins ->
  valid_idx (grouped m grps mins) j -> exists idx, valid_idx m idx /\ merged m grps idx = j.
Proof.
  intros W Hr Hp Hn Hs Hj. pose proof (grouped_wf _ _ _ W Hp Hn Hs) as W'.
  assert (Hsz : prodZ (im_len (grouped m grps mins)) = prodZ (im_len m)).
  { unfold grouped, idx_map_of_shape_strides. cbn [im_len]. unfold partition_of, rank in Hp.
    transitivity (prodZ (map (nthZ (im_len m)) (seq 0 (length (im_len m))))); [|f_equal; apply map_seq_nth].
    rewrite <- (prodZ_perm _ _ (Permutation_map (nthZ (im_len m)) Hp)). rewrite concat_map. clear. induction grps as [|g l IH]; cbn [map concat]; auto. rewrite prodZ_cons, prodZ_app, IH, total_len_prod. reflexivity. }
  assert (Hpos : Forall (fun l => 0 < l) (im_len m)).
  { destruct W as (_ & _ & _ & Hnn & _). apply prodZ_pos_Forall; auto. rewrite <- Hsz. apply prodZ_pos. now apply in_range_pos in Hj. }
  pose proof (grouped_regular _ _ _ W Hr Hpos Hp Hn Hs) as Hr'. pose proof (regular_contiguous _ W' Hr' j Hj) as Ej.
  pose proof (seq_number_bound _ _ W' Hj) as B. rewrite Hsz in B.
  destruct (order_nth_valid m (seq_number (im_so (grouped m grps mins)) (im_len (grouped m grps mins)) j) W) as [Hv En]; [now rewrite size_prodZ|].
  set (idx := order_nth m _) in *. exists idx. split; auto.
  destruct (grouped_addr _ _ _ idx W Hr Hp Hn Hs Hv) as [Hv' Ea]. rewrite (regular_contiguous _ W Hr idx Hv), En in Ea. rewrite (regular_contiguous _ W' Hr' _ Hv') in Ea.
  unfold seq_number in Ea. rewrite !in_order_apply in Ea. destruct W' as (_ & Ho' & _).
  apply (apply_inj 0 (length (im_len (grouped m grps mins))) (im_so (grouped m grps mins))); auto; try (now apply in_range_length).
  pose proof (in_range_apply _ _ _ _ Ho' eq_refl Hv') as R1. pose proof (in_range_apply _ _ _ _ Ho' eq_refl Hj) as R2.
  rewrite <- (digits_radix _ _ R1), <- (digits_radix _ _ R2). now rewrite Ea.
Qed.
