(** C66: sizes, strides and positions in 64-bit arithmetic. *)
From Verif Require Import Base M_Perm L_Perm M_IdxMap M_Slice M_Loops M_Long S_Layout S_Long L_IdxMap L_Slice L_Layout L_Loops.

Lemma long_spec z : fits_long z -> long z = Some z.
Proof. unfold fits_long, long, long_ok. change (2 ^ 63) with 9223372036854775808. intros H. replace (_ && _) with true; [reflexivity|]. symmetry. apply andb_true_iff. split; [apply Z.leb_le|apply Z.ltb_lt]; lia. Qed.
Lemma long_none z : ~ fits_long z -> long z = None.
Proof. unfold fits_long, long, long_ok. change (2 ^ 63) with 9223372036854775808. intros H. destruct (Z.leb_spec (-9223372036854775808) z), (Z.ltb_spec z 9223372036854775808); cbn [andb]; auto. lia. Qed.
Lemma long_inv z x : long z = Some x -> x = z /\ fits_long z.
Proof. unfold fits_long, long, long_ok. change (2 ^ 63) with 9223372036854775808. destruct (Z.leb_spec (-9223372036854775808) z), (Z.ltb_spec z 9223372036854775808); cbn [andb]; intros E; try discriminate. injection E as <-. lia. Qed.
Lemma pow63 : 2 ^ 63 = 9223372036854775808. Proof. reflexivity. Qed.
Local Opaque Z.pow.

Lemma nth_skipn {A} n i (l : list A) d : nth i (skipn n l) d = nth (n + i) l d.
Proof. revert l; induction n as [|n IH]; intros [|x l]; cbn [skipn plus nth]; auto. now destruct i. Qed.
Lemma sum64_seq (g : nat -> option Z) (f : nat -> Z) c : forall k,
  (forall i, (k <= i < k + c)%nat -> g i = Some (f i)) ->
  (forall j, (k <= j < k + c)%nat -> fits_long (sumZ (map f (seq j (k + c - j))))) ->
  sum64 (map g (seq k c)) = Some (sumZ (map f (seq k c))).
Proof.
  induction c as [|c IH]; intros k Hg Hs; [reflexivity|]. cbn [seq map sum64 fold_right]. change (fold_right add64 (Some 0) (map g (seq (S k) c))) with (sum64 (map g (seq (S k) c))).
  rewrite IH.
  - rewrite Hg by lia. rewrite sumZ_cons. cbn [add64]. apply long_spec. pose proof (Hs k ltac:(lia)) as H. replace (k + S c - k)%nat with (S c) in H by lia. cbn [seq map] in H. now rewrite sumZ_cons in H.
  - intros i Hi. apply Hg. lia.
  - intros j Hj. pose proof (Hs j ltac:(lia)) as H. replace (S k + c - j)%nat with (k + S c - j)%nat by lia. exact H.
Qed.

(** the part of a position that comes from the dimensions [j], [j+1], ... *)
Lemma tail_position m n off idx : view_of (fun _ => True) n off m -> n <= 2 ^ 63 -> valid_idx m idx ->
  (forall i, (i < rank m)%nat -> fits_long (nthZ idx i * nthZ (im_str m) i)) /\
  (forall j, (j <= rank m)%nat -> fits_long (sumZ (map (fun i => nthZ idx i * nthZ (im_str m) i) (seq j (rank m - j))))).
Proof.
  intros Hv Hn Hi. destruct (view_wf _ _ _ _ Hv) as (Ls & Hp & Lse & Hnn & HR). pose proof (in_range_length _ _ Hi) as Li. unfold rank.
  assert (Z0 : valid_idx m (repeat 0 (length (im_len m)))).
  { pose proof (valid_pos _ _ Hi) as Hpos. unfold valid_idx. clear -Hpos. induction Hpos as [|l len H _ IH]; cbn [length repeat]; constructor; [unfold inr; lia|exact IH]. }
  assert (A0 : addr m (repeat 0 (length (im_len m))) = 0).
  { unfold addr. generalize (im_str m). clear. induction (length (im_len m)) as [|k IH]; intros [|s str]; cbn [repeat dot]; auto. rewrite IH. ring. }
  pose proof (view_in_block _ _ _ _ _ Hv Z0) as B0. rewrite A0 in B0.
  assert (B : forall d, valid_idx m d -> fits_long (dot d (im_str m))).
  { intros d Hd. pose proof (view_in_block _ _ _ _ _ Hv Hd) as B1. unfold addr in B1. unfold fits_long. lia. }
  split.
  - intros i Hlt. assert (Hd : valid_idx m (upd (repeat 0 (length (im_len m))) i (nthZ idx i))).
    { unfold valid_idx in *. unfold in_range in *. apply Forall2_nth with (da := 0) (db := 0). apply Forall2_nth with (da := 0) (db := 0) in Hi. apply Forall2_nth with (da := 0) (db := 0) in Z0.
      destruct Hi as [_ Hi], Z0 as [L0 Z0]. split; [now rewrite upd_length|]. intros k Hk. rewrite upd_length in Hk. destruct (Nat.eq_dec k i) as [->|N]; [rewrite nth_upd_eq by lia; apply Hi; lia|rewrite nth_upd_neq by lia; now apply Z0]. }
    specialize (B _ Hd). rewrite dot_sum_seq in B by (rewrite upd_length, repeat_length; lia). rewrite upd_length, repeat_length in B.
    replace (seq 0 (length (im_len m))) with (seq 0 (i + (1 + (length (im_len m) - i - 1)))) in B by (f_equal; lia). rewrite !seq_app, !map_app, !sumZ_app in B. cbn [seq map] in B.
    rewrite sumZ_zero in B. 2:{ intros x Hx. apply in_map_iff in Hx. destruct Hx as (k & <- & Hk). apply in_seq in Hk. unfold nthZ. rewrite nth_upd_neq by lia. rewrite nth_repeat. ring. }
    rewrite (sumZ_zero (map _ (seq (0 + i + 1) _))) in B. 2:{ intros x Hx. apply in_map_iff in Hx. destruct Hx as (k & <- & Hk). apply in_seq in Hk. unfold nthZ. rewrite nth_upd_neq by lia. rewrite nth_repeat. ring. }
    rewrite !sumZ_cons in B. change (sumZ []) with 0 in B. rewrite Nat.add_0_l in B. unfold nthZ in B at 1. rewrite nth_upd_eq in B by (rewrite repeat_length; lia). rewrite !Z.add_0_r, Z.add_0_l in B. exact B.
  - intros j Hj. assert (Hd : valid_idx m (repeat 0 j ++ skipn j idx)).
    { unfold valid_idx in *. unfold in_range in *. apply Forall2_nth with (da := 0) (db := 0). apply Forall2_nth with (da := 0) (db := 0) in Hi. apply Forall2_nth with (da := 0) (db := 0) in Z0.
      destruct Hi as [_ Hi], Z0 as [L0 Z0]. rewrite app_length, repeat_length, skipn_length. split; [lia|]. intros k Hk. destruct (Nat.lt_ge_cases k j) as [H|H].
      - rewrite app_nth1 by (rewrite repeat_length; lia). specialize (Z0 k ltac:(rewrite repeat_length; lia)). rewrite nth_repeat in *. exact Z0.
      - rewrite app_nth2 by (rewrite repeat_length; lia). rewrite repeat_length, nth_skipn. replace (j + (k - j))%nat with k by lia. apply Hi. lia. }
    specialize (B _ Hd). rewrite dot_sum_seq in B by (rewrite app_length, repeat_length, skipn_length; lia). rewrite app_length, repeat_length, skipn_length in B.
    rewrite seq_app, map_app, sumZ_app in B. rewrite sumZ_zero in B. 2:{ intros x Hx. apply in_map_iff in Hx. destruct Hx as (k & <- & Hk). apply in_seq in Hk. unfold nthZ. rewrite app_nth1 by (rewrite repeat_length; lia). rewrite nth_repeat. ring. }
    rewrite Z.add_0_l, Nat.add_0_l, Li in B. erewrite map_ext_in; [exact B|]. intros k Hk. apply in_seq in Hk. cbv beta. f_equal. unfold nthZ. rewrite app_nth2 by (rewrite repeat_length; lia). rewrite repeat_length, nth_skipn. f_equal. lia.
Qed.
Lemma myget64_spec m i x : (has_smallest_stride_is_one (im_prop m) = true -> smallest_one_true m) -> fits_long (x * nthZ (im_str m) i) ->
  myget64 m (has_smallest_stride_is_one (im_prop m)) i (CLong x) = Some (x * nthZ (im_str m) i).
Proof.
  intros Hs Hl. unfold myget64. destruct (has_smallest_stride_is_one (im_prop m)); cbn [andb]; [|now apply long_spec].
  destruct (Nat.eqb_spec i (nthN (im_so m) (rank m - 1))) as [->|]; [|now apply long_spec]. specialize (Hs eq_refl). unfold smallest_one_true, min_stride in Hs. rewrite Hs. f_equal. ring.
Qed.

(** Accessing an element of any view of an array with at most 2^63 elements never overflows, with or without an ellipsis in the argument list. *)
Theorem C66_access : forall n off m idx, view_of (fun _ => True) n off m -> n <= 2 ^ 63 -> valid_idx m idx ->
  call_impl64 m (map CLong idx) = Some (addr m idx) /\
  forall a b, idx = a ++ b -> call_impl64 m (map CLong a ++ CEll :: map CLong b) = Some (addr m idx).
Proof.
  intros n off m idx Hv Hn Hi. destruct (tail_position _ _ _ _ Hv Hn Hi) as [T1 T2]. destruct (view_wf _ _ _ _ Hv) as (Ls & Hp & Lse & Hnn & HR).
  pose proof (proj2 (view_flags _ _ _ _ Hv)) as Hs. pose proof (in_range_length _ _ Hi) as Li. unfold rank in *. unfold addr. rewrite dot_sum_seq by lia. split.
  - unfold call_impl64. rewrite call_e_pos_longs. change (-1 =? -1) with true. cbn iota. rewrite map_length.
    assert (G : sum64 (map (fun i => myget64 m (has_smallest_stride_is_one (im_prop m)) i (nth i (map CLong idx) CEll)) (seq 0 (length idx))) = Some (sumZ (map (fun i => nthZ idx i * nthZ (im_str m) i) (seq 0 (length idx))))).
    { apply sum64_seq.
      - intros i Hlt. rewrite nth_map_CLong by lia. apply myget64_spec; auto. apply T1. lia.
      - intros j Hj. rewrite Nat.add_0_l, Li. apply T2. lia. }
    destruct (has_smallest_stride_is_one (im_prop m)) eqn:E; [exact G|]. rewrite <- G. reflexivity.
  - intros a b ->. unfold call_impl64. rewrite call_e_pos_ell. replace (Z.of_nat (length a) =? -1) with false by (symmetry; apply Z.eqb_neq; lia).
    rewrite !app_length, map_length. cbn [length]. rewrite map_length. rewrite app_length in Li.
    set (t := fun i => nthZ (a ++ b) i * nthZ (im_str m) i) in *.
    set (f := fun i => if Nat.ltb i (length a) then t i else if Nat.eqb i (length a) then 0 else t (i - 1)%nat).
    assert (F1 : forall j c, (j + c <= length a)%nat -> map f (seq j c) = map t (seq j c)).
    { intros j c H. apply map_ext_in. intros i Hin. apply in_seq in Hin. unfold f. destruct (Nat.ltb_spec i (length a)); [reflexivity|lia]. }
    assert (F2 : forall j c, (length a <= j)%nat -> map f (seq (S j) c) = map t (seq j c)).
    { intros j c H. rewrite <- seq_shift, map_map. apply map_ext_in. intros i Hin. apply in_seq in Hin. unfold f. destruct (Nat.ltb_spec (S i) (length a)); [lia|]. destruct (Nat.eqb_spec (S i) (length a)); [lia|]. f_equal. lia. }
    assert (F3 : forall j, (j <= length a)%nat -> sumZ (map f (seq j (length a + S (length b) - j))) = sumZ (map t (seq j (length a + length b - j)))).
    { intros j H. replace (length a + S (length b) - j)%nat with ((length a - j) + (1 + length b))%nat by lia. replace (length a + length b - j)%nat with ((length a - j) + length b)%nat by lia.
      rewrite !seq_app, !map_app, !sumZ_app. replace (j + (length a - j))%nat with (length a) by lia. rewrite F1 by lia. f_equal. cbn [seq map]. rewrite sumZ_cons. replace (length a + 1)%nat with (S (length a)) by lia. rewrite F2 by lia.
      change (sumZ []) with 0. unfold f. rewrite Nat.ltb_irrefl, Nat.eqb_refl. lia. }
    rewrite (sum64_seq _ f).
    + f_equal. pose proof (F3 0%nat ltac:(lia)) as H. now rewrite !Nat.sub_0_r in H.
    + intros i Hlt. unfold f. destruct (Nat.ltb_spec i (length a)) as [H|H].
      * replace (Z.of_nat i <? Z.of_nat (length a)) with true by (symmetry; lia). rewrite app_nth1 by (rewrite map_length; lia). rewrite nth_map_CLong by lia.
        assert (E : t i = nthZ a i * nthZ (im_str m) i) by (unfold t, nthZ; now rewrite app_nth1 by lia). rewrite E. apply myget64_spec; auto. rewrite <- E. apply T1. lia.
      * replace (Z.of_nat i <? Z.of_nat (length a)) with false by (symmetry; lia). rewrite app_nth2 by (rewrite map_length; lia). rewrite map_length. destruct (Nat.eqb_spec i (length a)) as [->|N]; [rewrite Nat.sub_diag; reflexivity|].
        replace (i - length a)%nat with (S (i - 1 - length a)) by lia. cbn [nth]. rewrite nth_map_CLong by lia.
        assert (E : t (i - 1)%nat = nthZ b (i - 1 - length a) * nthZ (im_str m) (i - 1)) by (unfold t, nthZ; now rewrite app_nth2 by lia). rewrite E. apply myget64_spec; auto. rewrite <- E. apply T1. lia.
    + intros j Hj. rewrite Nat.add_0_l in *. destruct (Nat.le_gt_cases j (length a)) as [H|H].
      * rewrite F3 by lia. replace (length a + length b - j)%nat with (length (im_len m) - j)%nat by lia. apply T2. lia.
      * replace j with (S (j - 1)) by lia. rewrite F2 by lia. replace (length a + S (length b) - S (j - 1))%nat with (length (im_len m) - (j - 1))%nat by lia. apply T2. lia.
Qed.
Print Assumptions C66_access.

(** ** new arrays *)
Lemma prod_max_pos l : 1 <= prodZ (map (Z.max 1) l).
Proof. induction l as [|x l IH]; cbn [map]; [cbn; lia|]. rewrite prodZ_cons. pose proof (Z.le_max_l 1 x). nia. Qed.
Lemma prod_le_max l : Forall (fun x => 0 <= x) l -> 0 <= prodZ l <= prodZ (map (Z.max 1) l).
Proof. induction 1 as [|x l Hx H IH]; cbn [map]; [cbn; lia|]. rewrite !prodZ_cons. pose proof (prod_max_pos l). pose proof (Z.le_max_l 1 x). pose proof (Z.le_max_r 1 x). nia. Qed.
Lemma prod_max_split a b : prodZ (map (Z.max 1) (a ++ b)) = prodZ (map (Z.max 1) a) * prodZ (map (Z.max 1) b).
Proof. now rewrite map_app, prodZ_app. Qed.
Lemma prod_long l : Forall (fun x => 0 <= x) l -> prodZ (map (Z.max 1) l) < 2 ^ 63 -> fits_long (prodZ l).
Proof. intros H H1. pose proof (prod_le_max l H). unfold fits_long. pose proof pow63. lia. Qed.
Lemma size64_acc l : forall a, 0 <= a -> Forall (fun x => 0 <= x) l -> Z.max 1 a * prodZ (map (Z.max 1) l) < 2 ^ 63 -> fold_left (fun s x => mul64 s (Some x)) l (Some a) = Some (a * prodZ l).
Proof.
  induction l as [|x l IH]; intros a Ha Hl Hb; cbn [fold_left]; [rewrite Z.mul_1_r; reflexivity|]. inversion Hl as [|x' l' Hx Hl']; subst. cbn [map] in Hb. rewrite prodZ_cons in Hb.
  pose proof (prod_max_pos l) as P. pose proof (Z.le_max_l 1 a). pose proof (Z.le_max_r 1 a). pose proof (Z.le_max_l 1 x). pose proof (Z.le_max_r 1 x).
  assert (Hax : a * x <= Z.max 1 a * Z.max 1 x) by nia. assert (Hone : 1 <= Z.max 1 a * Z.max 1 x) by nia.
  assert (Hm : Z.max 1 (a * x) <= Z.max 1 a * Z.max 1 x) by (apply Z.max_lub; assumption).
  cbn [mul64]. rewrite long_spec.
  - rewrite IH; [rewrite prodZ_cons; f_equal; ring|nia|exact Hl'|]. nia.
  - unfold fits_long. pose proof pow63. assert (0 <= a * x) by nia. nia.
Qed.
Lemma size64_spec l : Forall (fun x => 0 <= x) l -> prodZ (map (Z.max 1) l) < 2 ^ 63 -> size64 l = Some (prodZ l).
Proof. intros H Hb. unfold size64. rewrite size64_acc; auto; try lia; [f_equal; ring|]. change (Z.max 1 1) with 1. lia. Qed.

Lemma strides64_loop R so len junk k n : is_perm R so -> length len = R -> length junk = R -> (k + n = R)%nat -> Forall (fun x => 0 <= x) len -> prodZ (map (Z.max 1) len) < 2 ^ 63 ->
  fold_left (compute_strides_step64 so len) (rev (seq k n)) (Some (junk, 1)) = Some (fold_left (compute_strides_step so len) (rev (seq k n)) (junk, 1)).
Proof.
  intros Hp Ll Lj. revert k; induction n as [|n IH]; intros k Hk Hnn Hb; [reflexivity|]. rewrite !fold_left_rev_seq, IH by (auto; lia).
  destruct (compute_strides_loop R so len junk (S k) n Hp Ll Lj ltac:(lia)) as (_ & Hs & _). set (st := fold_left (compute_strides_step so len) (rev (seq (S k) n)) (junk, 1)) in *. cbn zeta in Hs.
  destruct st as [str s]. cbn [snd] in Hs. subst s. unfold compute_strides_step64, compute_strides_step. cbn [fst snd mul64]. rewrite long_spec; [reflexivity|].
  pose proof (is_perm_length _ _ Hp) as Ls.
  replace (prodZ (skipn (S k) (apply 0 so len)) * nthZ len (nthN so k)) with (prodZ (skipn k (apply 0 so len))).
  2:{ rewrite (skipn_cons_nth (apply 0 so len) k 0) by (rewrite apply_length; lia). rewrite prodZ_cons. replace (nth k (apply 0 so len) 0) with (nthZ len (nthN so k)) by (symmetry; unfold nthZ; apply nth_apply; lia). ring. }
  assert (Ha : Forall (fun x => 0 <= x) (apply 0 so len)) by (apply (Forall_apply _ R); auto).
  apply prod_long.
  - rewrite <- (firstn_skipn k (apply 0 so len)) in Ha. apply Forall_app in Ha. tauto.
  - assert (E : prodZ (map (Z.max 1) (apply 0 so len)) = prodZ (map (Z.max 1) len)) by (apply prodZ_perm, Permutation_map; now apply (apply_Permutation 0 R)).
    rewrite <- (firstn_skipn k (apply 0 so len)), prod_max_split in E. pose proof (prod_max_pos (firstn k (apply 0 so len))). pose proof (prod_max_pos (skipn k (apply 0 so len))). nia.
Qed.
(** The size and the strides of a new array are computed without overflow if the product of its extents, zero extents counted as 1, is less than
    2^63. *)
Theorem C66_fresh : forall checks so shape junk, is_order (length shape) so -> length junk = length shape -> Forall (fun l => 0 <= l) shape ->
  prodZ (map (Z.max 1) shape) < 2 ^ 63 ->
  size64 shape = Some (prodZ shape) /\ compute_strides64 checks so shape junk = Some (compute_strides_contiguous so shape junk) /\ Forall fits_long (compute_strides_contiguous so shape junk).
Proof.
  intros checks so shape junk Ho Lj Hnn Hb. split; [now apply size64_spec|]. split.
  - unfold compute_strides64. rewrite (strides64_loop (length shape)) by auto. unfold compute_strides_contiguous. pose proof (compute_strides_final (length shape) so shape junk Ho eq_refl Lj) as F.
    destruct (fold_left (compute_strides_step so shape) (rev (seq 0 (length shape))) (junk, 1)) as [str s]. cbn [fst snd] in *. subst s. rewrite size64_spec by auto. rewrite Z.eqb_refl. now destruct checks.
  - apply (Forall_apply _ (length shape) so); auto using (compute_strides_length (length shape)). rewrite (compute_strides_in_order (length shape)) by auto.
    assert (E : prodZ (map (Z.max 1) (apply 0 so shape)) = prodZ (map (Z.max 1) shape)) by (apply prodZ_perm, Permutation_map; now apply (apply_Permutation 0 (length shape))).
    assert (Ha : Forall (fun x => 0 <= x) (apply 0 so shape)) by (apply (Forall_apply _ (length shape)); auto). rewrite <- E in Hb. clear -Ha Hb. revert Ha Hb. generalize (apply 0 so shape) as l. induction 1 as [|x l Hx Hl IH]; intros Hb; cbn [suffix_prods]; constructor.
    + apply prod_long; auto. cbn [map] in Hb. rewrite prodZ_cons in Hb. pose proof (prod_max_pos l). pose proof (Z.le_max_l 1 x). nia.
    + apply IH. cbn [map] in Hb. rewrite prodZ_cons in Hb. pose proof (prod_max_pos l). pose proof (Z.le_max_l 1 x). nia.
Qed.
Print Assumptions C66_fresh.

(** ** slices *)
Definition arg_first (a : arg) : Z := match a with ALong i => i | ARange r => r_first r | _ => 0 end.
Lemma get_offset_first a s : get_offset a s = arg_first a * s.
Proof. destruct a; cbn [get_offset arg_first]; ring. Qed.
Lemma firsts_valid ex len : args_in_bounds ex len -> (forall r, In (ARange r) ex -> r_step r <> 0) -> Forall (fun l => 1 <= l) len -> Forall (fun l => 1 <= l) (slice_len ex len) ->
  in_range (map arg_first ex) len.
Proof.
  intros H; induction H as [|a l ex len Ha H IH]; intros Hs Hl Hsl; [constructor|]. inversion Hl as [|l' len' Hl0 Hl']; subst. cbn [map]. constructor.
  - unfold inr. destruct a as [i|r| |]; cbn [arg_first arg_in_bounds] in *; try lia. cbn [slice_len is_range] in Hsl. pose proof (Forall_inv Hsl) as Hg.
    assert (Hst : r_step r <> 0) by (apply Hs; now left). assert (H0 : in_range_arg r l 0) by (apply in_range_arg_spec; [exact Hst|cbv beta in Hg; lia]). pose proof (Ha 0 H0). lia.
  - apply IH; auto; [intros r Hr; apply Hs; now right|]. cbn [slice_len] in Hsl. destruct (is_range a); [now inversion Hsl|exact Hsl].
Qed.
Lemma all64_some l r : l = map Some r -> all64 l = Some r.
Proof. intros ->. induction r as [|x r IH]; cbn [map all64]; [reflexivity|]. now rewrite IH. Qed.
Lemma all64_inv l r : all64 l = Some r -> l = map Some r.
Proof. revert r; induction l as [|x l IH]; intros r; cbn [all64]; [intros [= <-]; reflexivity|]. destruct x as [v|]; [|discriminate]. destruct (all64 l) as [r'|]; [|discriminate]. intros [= <-]. cbn [map]. now rewrite (IH r'). Qed.
Lemma get_offset64_desugar a s : get_offset64 (desugar a) s = get_offset64 a s. Proof. destruct a; auto. Qed.
Lemma get_s64_desugar a s : get_s64 (desugar a) s = get_s64 a s. Proof. destruct a; auto. Qed.
Lemma get_offset64_spec a s : fits_long (arg_first a * s) -> get_offset64 a s = Some (arg_first a * s).
Proof. destruct a; cbn [get_offset64 arg_first mul64]; intros H; try (now apply long_spec); reflexivity. Qed.
Lemma get_s64_spec a s : is_range a = true -> fits_long s -> (get_s64 a s = Some (get_s a s) <-> fits_long (get_s a s)).
Proof.
  destruct a as [i|r| |]; cbn [get_s64 get_s is_range mul64]; intros Hr Hs; try discriminate; try tauto. split; [|apply long_spec]. intros E. apply long_inv in E. tauto.
Qed.

Lemma slice64_eq m args o m' : wf m -> slice m args = Some (o, m') -> let ex := expand_args (rank m) args in
  slice64 m args = match sum64 (map (fun n => get_offset64 (nth n ex AAll) (nthZ (im_str m) n)) (seq 0 (rank m))), all64 (map (fun n => get_s64 (nth n ex AAll) (nthZ (im_str m) n)) (kept ex)) with
                   | Some offset, Some str => Some (offset, IdxMap (im_len m') str (im_so m') (im_se m') (im_prop m')) | _, _ => None end /\
  o = sumZ (map (fun n => get_offset (nth n ex AAll) (nthZ (im_str m) n)) (seq 0 (rank m))) /\ im_str m' = map (fun n => get_s (nth n ex AAll) (nthZ (im_str m) n)) (kept ex) /\ im_len m' = slice_len ex (im_len m).
Proof.
  intros W HS ex. destruct (slice_inv _ _ _ HS) as [Hok E]. rewrite slice_impl_expand in E by auto. fold ex in E. destruct W as (Ls & Hp & Lse & Hnn & HR). pose proof (expand_args_length _ _ Hok) as Lex. fold ex in Lex.
  assert (A : forall n, (n < rank m)%nat -> desugar (nth (q_of_n n (ellipsis_position args) (rank m + 1 - length args)) args AAll) = nth n ex AAll) by (intros n Hn; apply arg_of_n; auto; unfold rank; lia).
  assert (K : n_of_p_map (rank m) args (ellipsis_position args) (rank m + 1 - length args) = kept ex).
  { unfold n_of_p_map, kept. rewrite Lex. apply filter_ext_in. intros n Hn. apply in_seq in Hn. rewrite <- A by lia. now rewrite is_range_desugar. }
  assert (KL : forall n, In n (kept ex) -> (n < rank m)%nat).
  { intros n Hn. unfold kept in Hn. apply filter_In in Hn. destruct Hn as [Hn _]. apply in_seq in Hn. lia. }
  split; [|injection E as -> ->; cbn [im_str im_len]; split; [|split; [|reflexivity]]].
  - unfold slice64. rewrite HS. cbn zeta. unfold q_of_p_map. rewrite K.
    assert (E1 : map (fun n => get_offset64 (nth (q_of_n n (ellipsis_position args) (rank m + 1 - length args)) args AAll) (nthZ (im_str m) n)) (seq 0 (rank m)) = map (fun n => get_offset64 (nth n ex AAll) (nthZ (im_str m) n)) (seq 0 (rank m))).
    { apply map_ext_in. intros n Hn. apply in_seq in Hn. rewrite <- A by lia. now rewrite get_offset64_desugar. }
    rewrite E1.
    match goal with |- match _ with Some _ => match all64 ?a with _ => _ end | _ => _ end = match _ with Some _ => match all64 ?b with _ => _ end | _ => _ end => assert (E2 : a = b) end.
    { etransitivity; [|apply map_seq_nthN]. apply map_ext_in. intros p Hin. apply in_seq in Hin. rewrite <- A by (apply KL; apply nth_In; lia). rewrite get_s64_desugar. unfold nthN at 1. rewrite (nth_map_lt _ (kept ex) p 0%nat 0%nat) by lia. reflexivity. }
    rewrite E2. reflexivity.
  - rewrite <- Lex. symmetry. apply sum_offset. unfold rank in *. lia.
  - symmetry. apply map_kept_str. unfold rank in *. lia.
Qed.

(** moving along one dimension stays within n positions *)
Lemma single_position n off m k x : view_of (fun _ => True) n off m -> Forall (fun l => 1 <= l) (im_len m) -> (k < rank m)%nat -> 0 <= x < nthZ (im_len m) k -> - n < x * nthZ (im_str m) k < n.
Proof.
  intros Hv Hpos K1 Hx. destruct (view_wf _ _ _ _ Hv) as (Ls & Hp & Lse & Hnn & HR).
  assert (Z0 : valid_idx m (repeat 0 (length (im_len m)))) by (unfold valid_idx; clear -Hpos; induction Hpos as [|l len H _ IH]; cbn [length repeat]; constructor; [unfold inr; lia|exact IH]).
  assert (Hd : valid_idx m (upd (repeat 0 (length (im_len m))) k x)).
  { unfold valid_idx in *. unfold in_range in *. apply Forall2_nth with (da := 0) (db := 0). apply Forall2_nth with (da := 0) (db := 0) in Z0. destruct Z0 as [L0 Z0]. split; [now rewrite upd_length|]. intros i Hi. rewrite upd_length in Hi.
    destruct (Nat.eq_dec i k) as [->|Ne]; [rewrite nth_upd_eq by (unfold rank in *; lia); exact Hx|rewrite nth_upd_neq by lia; now apply Z0]. }
  assert (A0 : addr m (repeat 0 (length (im_len m))) = 0).
  { unfold addr. generalize (im_str m). clear. induction (length (im_len m)) as [|j IH]; intros [|s str]; cbn [repeat dot]; auto. rewrite IH. ring. }
  assert (A1 : addr m (upd (repeat 0 (length (im_len m))) k x) = x * nthZ (im_str m) k).
  { clear -K1 Ls. unfold addr, rank, nthZ in *. revert k K1 Ls. generalize (im_str m). induction (length (im_len m)) as [|j IH]; intros [|s str] k K1 L; try (cbn in *; lia). destruct k as [|k]; cbn [repeat upd dot nth].
    - replace (dot (repeat 0 j) str) with 0; [ring|]. symmetry. clear. revert str; induction j as [|j IH]; intros [|s str]; cbn [repeat dot]; auto. rewrite IH. ring.
    - rewrite IH; [ring|lia|cbn in L; lia]. }
  pose proof (view_in_block _ _ _ _ _ Hv Z0) as B. pose proof (view_in_block _ _ _ _ _ Hv Hd) as B'. rewrite A0 in B. rewrite A1 in B'. lia.
Qed.
(** Taking a non-empty view with arguments inside the bounds: the offset never overflows, and everything is as computed without bounds exactly if the
    strides of the view can be represented; they can if every range has step 1 or selects at least two positions. *)
Theorem C66_slice : forall n off m args o m', view_of (fun _ => True) n off m -> n <= 2 ^ 63 -> Forall fits_long (im_str m) ->
  slice m args = Some (o, m') -> steps_nonzero args -> args_in_bounds (expand_args (rank m) args) (im_len m) -> Forall (fun l => 1 <= l) (im_len m') ->
  (slice64 m args = Some (o, m') <-> Forall fits_long (im_str m')) /\
  (Forall2 wide_or_plain (expand_args (rank m) args) (im_len m) -> slice64 m args = Some (o, m')).
Proof.
  intros n off m args o m' Hv Hn Hl HS Hst Hb Hne. pose proof (view_wf _ _ _ _ Hv) as W. destruct (slice64_eq m args o m' W HS) as (E64 & Eo & Es & El). destruct (slice_inv _ _ _ HS) as [Hok _].
  destruct W as (Ls & Hp & Lse & Hnn & HR). pose proof (expand_args_length _ _ Hok) as Lex. set (ex := expand_args (rank m) args) in *.
  assert (Hst' : forall r, In (ARange r) ex -> r_step r <> 0) by (intros r Hr; apply Hst; eapply expand_In; eauto; discriminate).
  rewrite El in Hne. pose proof (in_bounds_nonempty ex (im_len m) Hb (expand_no_ell _ _ Hok) Hst' Hnn Hne) as Hpos.
  pose proof (firsts_valid ex (im_len m) Hb Hst' Hpos Hne) as Hf. destruct (tail_position _ _ _ _ Hv Hn Hf) as [T1 T2].
  assert (N : forall i, nthZ (map arg_first ex) i = arg_first (nth i ex AAll)) by (intros i; unfold nthZ; change 0 with (arg_first AAll); apply map_nth).
  assert (S1 : sum64 (map (fun n => get_offset64 (nth n ex AAll) (nthZ (im_str m) n)) (seq 0 (rank m))) = Some o).
  { rewrite Eo. apply sum64_seq.
    - intros i Hi. rewrite get_offset_first. apply get_offset64_spec. rewrite <- N. apply T1. lia.
    - intros j Hj. rewrite Nat.add_0_l. erewrite map_ext; [apply T2; lia|]. intros i. cbv beta. now rewrite N, get_offset_first. }
  assert (KR : forall n, In n (kept ex) -> (n < rank m)%nat /\ is_range (nth n ex AAll) = true).
  { intros k Hk. unfold kept in Hk. apply filter_In in Hk. destruct Hk as [Hk Hr]. apply in_seq in Hk. split; [lia|exact Hr]. }
  assert (Hli : forall i, (i < rank m)%nat -> fits_long (nthZ (im_str m) i)) by (intros i Hi; rewrite Forall_forall in Hl; apply Hl; apply nth_In; unfold rank in Hi; lia).
  assert (M : slice64 m args = Some (o, m') <-> Forall fits_long (im_str m')).
  { rewrite E64, S1. split.
    - destruct (all64 _) as [str|] eqn:Ea; [|discriminate]. intros E. injection E as E. assert (Estr : str = im_str m') by (rewrite <- E; reflexivity). apply all64_inv in Ea. rewrite Estr, Es, map_map in Ea. rewrite Es.
      apply Forall_forall. intros x Hx. apply in_map_iff in Hx. destruct Hx as (k & <- & Hk). destruct (KR k Hk) as [K1 K2]. apply (get_s64_spec _ _ K2 (Hli k K1)). exact (proj1 map_ext_in_iff Ea k Hk).
    - intros Hs. rewrite (all64_some _ (im_str m')).
      + destruct m'; reflexivity.
      + rewrite Es, map_map. apply map_ext_in. intros k Hk. destruct (KR k Hk) as [K1 K2]. apply (get_s64_spec _ _ K2 (Hli k K1)). rewrite Forall_forall in Hs. apply Hs. rewrite Es. apply in_map_iff. eauto. }
  split; [exact M|]. intros Hw. apply M. rewrite Es. apply Forall_forall. intros x Hx. apply in_map_iff in Hx. destruct Hx as (k & <- & Hk). destruct (KR k Hk) as [K1 K2].
  apply (Forall2_nth _ _ _ AAll 0) in Hw. destruct Hw as [_ Hw]. specialize (Hw k ltac:(lia)). fold (nthZ (im_len m) k) in Hw. destruct (nth k ex AAll) as [i|r| |] eqn:Ek; try discriminate; cbn [get_s wide_or_plain] in *; auto.
  destruct Hw as [->|Hw]; [rewrite Z.mul_1_r; auto|].
  (* two positions of the range: their difference *)
  assert (Hr : In (ARange r) ex) by (rewrite <- Ek; apply nth_In; lia). specialize (Hst' r Hr).
  apply (Forall2_nth _ _ _ AAll 0) in Hb. destruct Hb as [_ Hb]. specialize (Hb k ltac:(lia)). rewrite Ek in Hb. fold (nthZ (im_len m) k) in Hb. cbn [arg_in_bounds] in Hb.
  pose proof (Hb 0 ltac:(apply in_range_arg_spec; [exact Hst'|lia])) as B0. pose proof (Hb 1 ltac:(apply in_range_arg_spec; [exact Hst'|lia])) as B1.
  assert (P : 0 <= Z.abs (r_step r) < nthZ (im_len m) k) by lia. pose proof (single_position n off m k _ Hv Hpos K1 P). unfold fits_long. destruct (Z.abs_spec (r_step r)) as [[_ E]|[_ E]]; rewrite E in *; nia.
Qed.
Print Assumptions C66_slice.

Lemma Forall_upd64 (P : Z -> Prop) l i x : Forall P l -> P x -> Forall P (upd l i x).
Proof. intros Hl Hx. revert i; induction Hl as [|y l Hy Hl IH]; intros [|i]; cbn [upd]; constructor; auto. Qed.
(** Whatever sequence of slicings and transpositions: the layouts of [plain_view] are computed with no overflow in any step (by C66_fresh and
    C66_slice; transposing computes nothing), so that their elements can be accessed (C66_access). *)
Theorem C66_views : forall n off m, plain_view n off m -> view_of (fun _ => True) n off m /\ n < 2 ^ 63 /\ Forall fits_long (im_str m).
Proof.
  intros n off m H. induction H as [so se p junk shape Ho Lj Lse Hnn HR Hn Hb|off m args o m' Hv IH HS Hst Hbd Hd Hne Hw|off m p Hv IH Ho].
  - split; [now apply vo_fresh|]. split; [pose proof (prod_le_max shape Hnn); lia|]. exact (proj2 (proj2 (C66_fresh true so shape junk Ho Lj Hnn Hb))).
  - destruct IH as (IH & Hn & Hl). split; [apply (vo_slice _ _ off m args o m'); auto|]. split; [exact Hn|].
    destruct (C66_slice n off m args o m' IH ltac:(lia) Hl HS Hst Hbd Hne) as [M1 M2]. apply M1. auto.
  - destruct IH as (IH & Hn & Hl). split; [now apply vo_transpose|]. split; [exact Hn|]. unfold transpose. cbn [im_str].
    assert (F0 : fits_long 0) by (unfold fits_long; rewrite pow63; lia).
    assert (G : forall l r, Forall fits_long r -> Forall fits_long (fold_left (fun r u => upd r (nthN p u) (nth u (im_str m) 0)) l r)).
    { induction l as [|u l IHl]; intros r Hr; cbn [fold_left]; [exact Hr|]. apply IHl. apply Forall_upd64; [exact Hr|]. destruct (Nat.lt_ge_cases u (length (im_str m))) as [Hu|Hu]; [rewrite Forall_forall in Hl; apply Hl; now apply nth_In|now rewrite nth_overflow by lia]. }
    apply G. clear -F0. induction (length p) as [|k IHk]; cbn [repeat]; constructor; auto.
Qed.
Print Assumptions C66_views.

(** ** contiguity test *)
Lemma view_few n off m : view_of (fun _ => True) n off m -> prodZ (im_len m) <= Z.max 0 n.
Proof.
  intros Hv. destruct (view_wf _ _ _ _ Hv) as (Ls & Hp & Lse & Hnn & HR). rewrite <- (all_idx_length (im_len m)) by exact Hnn.
  assert (H : (length (map (fun idx => (off + addr m idx)%Z) (all_idx (im_len m))) <= length (zseq n))%nat).
  { apply NoDup_incl_length.
    - pose proof (all_idx_NoDup (im_len m)) as ND. assert (G : forall l, NoDup l -> (forall i, In i l -> valid_idx m i) -> NoDup (map (fun idx => off + addr m idx) l)).
      { induction 1 as [|i l Hi ND' IH]; intros Hval; cbn [map]; constructor.
        - intros C. apply in_map_iff in C. destruct C as (j & E & Hj). assert (j = i) by (apply (view_injective _ _ _ _ _ _ Hv); [apply Hval; now right|apply Hval; now left|lia]). subst j. contradiction.
        - apply IH. intros j Hj. apply Hval. now right. }
      apply G; [exact ND|]. intros i Hi. now apply all_idx_In.
    - intros x Hx. apply in_map_iff in Hx. destruct Hx as (idx & <- & Hi). apply zseq_In. apply (view_in_block _ _ _ _ _ Hv). now apply all_idx_In. }
  rewrite map_length, zseq_length in H. lia.
Qed.
Lemma prod_pos_max l : Forall (fun x => 1 <= x) l -> prodZ (map (Z.max 1) l) = prodZ l.
Proof. induction 1 as [|x l Hx Hl IH]; cbn [map]; [reflexivity|]. rewrite !prodZ_cons, IH, Z.max_r by lia. reflexivity. Qed.
(** The number of elements and the contiguity test of a non-empty view are computed without overflow, the latter for at most 2^62 elements. *)
Theorem C66_contiguous : forall n off m, view_of (fun _ => True) n off m -> Forall fits_long (im_str m) -> Forall (fun l => 1 <= l) (im_len m) ->
  (n < 2 ^ 63 -> size64 (im_len m) = Some (size m)) /\ (n <= 2 ^ 62 -> is_contiguous64 m = Some (is_contiguous m)).
Proof.
  intros n off m Hv Hl Hpos. destruct (view_wf _ _ _ _ Hv) as (Ls & Hp & Lse & Hnn & HR). pose proof (view_few _ _ _ Hv) as Few. rewrite size_prodZ.
  assert (P1 : 1 <= prodZ (im_len m)) by (clear -Hpos; induction Hpos as [|x l Hx _ IH]; [cbn; lia|rewrite prodZ_cons; nia]).
  assert (S1 : n < 2 ^ 63 -> size64 (im_len m) = Some (prodZ (im_len m))) by (intros Hn; apply size64_spec; [exact Hnn|rewrite prod_pos_max by exact Hpos; lia]).
  split; [exact S1|]. intros Hn. change (2 ^ 62) with 4611686018427387904 in Hn. unfold is_contiguous64, is_contiguous. rewrite S1 by (rewrite pow63; lia). rewrite size_prodZ. destruct (prodZ (im_len m) =? 0); [reflexivity|].
  rewrite (all64_some _ (arr_mul (im_str m) (im_len m))); [reflexivity|]. unfold arr_mul. rewrite map_map. apply map_ext_in. intros i Hi. apply in_seq in Hi. cbn [mul64]. apply long_spec.
  assert (Hi' : (i < rank m)%nat) by (unfold rank; lia).
  assert (L1 : 1 <= nthZ (im_len m) i) by (rewrite Forall_forall in Hpos; apply Hpos, nth_In; unfold rank in Hi'; lia).
  assert (F1 : fits_long (nthZ (im_str m) i)) by (rewrite Forall_forall in Hl; apply Hl, nth_In; lia).
  destruct (Z.eq_dec (nthZ (im_len m) i) 1) as [->|N]; [now rewrite Z.mul_1_r|].
  pose proof (single_position n off m i (nthZ (im_len m) i - 1) Hv Hpos Hi' ltac:(lia)) as B. unfold fits_long. rewrite pow63. nia.
Qed.
Print Assumptions C66_contiguous.

(** ** memory *)
(** The number of bytes asked from the allocator is that of the elements, if it is below 2^64. *)
Theorem C66_bytes : forall size w, 0 <= size -> 0 < w -> size * w < 2 ^ 64 -> bytes64 size w = size * w.
Proof. intros size w Hs Hw Hb. unfold bytes64. change (2 ^ 64) with 18446744073709551616 in Hb. rewrite (Z.mod_small size) by nia. apply Z.mod_small. nia. Qed.
Print Assumptions C66_bytes.

(** ** what goes wrong *)
(** Beyond that there is no error but a block that is too small: 2^61 + 1 elements of 8 bytes get 8 bytes. *)
Theorem C66_bytes_refuted : forall k, 0 <= k < 2 ^ 61 -> fits_long (2 ^ 61 + k) /\ bytes64 (2 ^ 61 + k) 8 = 8 * k.
Proof.
  intros k Hk. unfold fits_long, bytes64. rewrite pow63. change (2 ^ 61) with 2305843009213693952 in *. split; [lia|]. rewrite (Z.mod_small (2305843009213693952 + k)) by lia.
  replace ((2305843009213693952 + k) * 8) with (8 * k + 1 * 18446744073709551616) by ring. rewrite Z.mod_add by lia. apply Z.mod_small. lia.
Qed.
Print Assumptions C66_bytes_refuted.
(** The size of an array without elements overflows if the product of the extents before the zero does. *)
Theorem C66_empty_refuted : forall a b, 0 <= a -> 0 <= b -> 2 ^ 63 <= a * b -> fits_long a -> prodZ [a; b; 0] = 0 /\ size64 [a; b; 0] = None.
Proof.
  intros a b Ha Hb Hab Hf. split; [cbn; ring|]. unfold size64. cbn [fold_left]. change (mul64 (Some 1) (Some a)) with (long (1 * a)). rewrite Z.mul_1_l, (long_spec a Hf). change (mul64 (Some a) (Some b)) with (long (a * b)).
  rewrite (long_none (a * b)); [reflexivity|]. unfold fits_long. lia.
Qed.
Print Assumptions C66_empty_refuted.
(** A range with one element in bounds, but a large step: the view is fine, its stride overflows. *)
Theorem C66_step_refuted : forall L step, 1 <= L -> 0 < step -> 2 ^ 63 <= L * step ->
  let m := idx_map_of_shape [0; 1]%nat [0; 0] LP_contiguous [0; 0] [2; L] in let args := [ARange (Range 0 1 step); AAll] in
  args_in_bounds (expand_args (rank m) args) (im_len m) /\ (exists m', slice m args = Some (0, m') /\ im_len m' = [1; L]) /\ slice64 m args = None.
Proof.
  intros L step HL Hs Hb m args. assert (R1 : range_size (Range 0 1 step) = 1).
  { unfold range_size. cbn [r_step r_first r_last]. destruct (Z.ltb_spec 0 step); [|lia]. replace (1 - 0 + step - 1) with (1 * step) by ring. rewrite Z.div_mul by lia. reflexivity. }
  split; [|split].
  - constructor; [|constructor; [exact I|constructor]]. cbn [arg_in_bounds]. intros x Hx. unfold in_range_arg in Hx. cbn [r_last r_step r_first] in *. change (1 =? -1) with false in Hx. cbn [andb] in Hx. destruct (Z.ltb_spec 0 step); nia.
  - eexists. split; [reflexivity|]. cbn [im_len]. unfold get_l. cbn. f_equal. destruct (0 <? step); exact R1.
  - unfold slice64. destruct (slice m args) as [[o m']|]; [|reflexivity]. cbn zeta.
    match goal with |- context [all64 ?x] => assert (E : all64 x = None) end.
    { replace (nthZ (im_str m)) with (nthZ [L; 1]) by (subst m; unfold idx_map_of_shape, compute_strides_contiguous; cbn [length rev seq app fold_left]; unfold compute_strides_step; cbn [fst snd upd nthN nth im_str]; now rewrite Z.mul_1_l).
      change (all64 [mul64 (Some L) (Some step); Some 1] = None). cbn [mul64]. rewrite (long_none (L * step)) by (unfold fits_long; lia). reflexivity. }
    rewrite E. now destruct (sum64 _).
Qed.
Print Assumptions C66_step_refuted.

(** ** non-trivial cases *)
Lemma ex66_view : plain_view 24 (0 + 6) (snd (match slice (idx_map_of_shape [1; 0]%nat [0; 0] LP_contiguous [0; 0] [4; 6]) [ARange (Range 2 4 1); ARange (Range 1 6 2)] with Some r => r | None => (0, idx_map_of_shape [] [] LP_none [] []) end)).
Proof.
   eapply plain_slice with (args := [ARange (Range 2 4 1); ARange (Range 1 6 2)]) (m := idx_map_of_shape [1; 0]%nat [0; 0] LP_contiguous [0; 0] [4; 6]).
  - apply plain_fresh; try reflexivity; try (cbn; lia). + apply perm_swap. + repeat constructor; lia.
  - reflexivity.
  - intros r [E|[E|[]]]; injection E as <-; discriminate.
  - constructor; [|constructor; [|constructor]]; cbn [arg_in_bounds]; intros x Hx; unfold in_range_arg in Hx; cbn [r_last r_first r_step] in *; cbn -[Z.add Z.mul] in Hx; lia.
  - exists (ARange (Range 2 4 1)). split; [now left|reflexivity].
  - repeat constructor; cbn; lia.
  - repeat constructor; cbn; lia.
Qed.

Example C66_example : let m := idx_map_of_shape [1; 0]%nat [0; 0] LP_contiguous [0; 0] [4; 6] in let args := [ARange (Range 2 4 1); ARange (Range 1 6 2)] in
  match slice64 m args with Some (o, v) => o = 6 /\ im_len v = [2; 3] /\ im_str v = [1; 8] /\ call_impl64 v [CLong 1; CLong 2] = Some 17 /\ call_impl64 v [CLong 1; CEll; CLong 2] = Some 17 /\ is_contiguous64 v = Some false | None => False end /\
  slice64 m args = slice m args /\ size64 [4; 6] = Some 24 /\ compute_strides64 true [1; 0]%nat [4; 6] [0; 0] = Some [1; 4] /\ is_contiguous64 m = Some true /\
  size64 [4294967296; 4294967296; 0] = None /\ size64 [0; 4294967296; 4294967296] = Some 0 /\ bytes64 24 8 = 192 /\
  (* a stride of 2^62 and index 2 *)
  call_impl64 (IdxMap [3; 3] [4611686018427387904; 1] [0; 1]%nat [0; 0] LP_none) [CLong 2; CLong 1] = None /\
  is_contiguous64 (IdxMap [3] [4611686018427387904] [0]%nat [0] LP_none) = None.
Proof. vm_compute. repeat split; reflexivity. Qed.
