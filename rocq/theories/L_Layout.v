(** Invariants of every layout built by slicing and transposing: separation, injectivity, flags,
    contiguity tests. *)
From Verif Require Import Base M_Perm L_Perm M_IdxMap M_Slice S_Layout L_IdxMap L_Slice.

(** ordered extents / strides of a slice *)
Lemma apply_kept {A} (F : nat -> A) (d : A) so N ex : is_perm N so -> length ex = N ->
  apply d (sliced_mem_stride_order so (kept ex)) (map F (kept ex)) = map F (filter (fun n => is_range (nth n ex AAll)) so).
Proof.
  intros Hp L. rewrite apply_as_map.
  destruct (sliced_order_map so N (kept ex) Hp (kept_NoDup ex)) as [HM HF].
  { intros n Hn. rewrite <- L. now apply kept_lt. }
  transitivity (map F (map (nthN (kept ex)) (sliced_mem_stride_order so (kept ex)))).
  - rewrite map_map. apply map_ext_in. intros p Hin. rewrite Forall_forall in HF.
    apply (nth_map_lt F (kept ex) p d 0%nat). now apply HF.
  - rewrite HM. f_equal. apply filter_ext_in. intros n Hn.
    assert (Hlt : (n < length ex)%nat) by (rewrite L; now apply (is_perm_In N so n Hp)).
    destruct (is_range (nth n ex AAll)) eqn:E.
    + apply existsb_exists. exists n. split; [now apply kept_In|apply Nat.eqb_refl].
    + apply not_true_is_false. intros C. apply existsb_exists in C. destruct C as [n' [H' E']]. apply Nat.eqb_eq in E'. subst n'.
      apply kept_In in H'; auto. congruence.
Qed.

(** ** separation is inherited *)
Lemma nested_thin (len str : nat -> Z) (ex : nat -> arg) (l : list nat) :
  nested (map len l) (map str l) ->
  (forall n, In n l -> is_range (ex n) = true ->
     1 <= get_l (ex n) (len n) /\ Z.abs (str n) <= Z.abs (get_s (ex n) (str n)) /\
     (get_l (ex n) (len n) - 1) * Z.abs (get_s (ex n) (str n)) <= (len n - 1) * Z.abs (str n)) ->
  let l' := filter (fun n => is_range (ex n)) l in
  nested (map (fun n => get_l (ex n) (len n)) l') (map (fun n => get_s (ex n) (str n)) l') /\
  span (map (fun n => get_l (ex n) (len n)) l') (map (fun n => get_s (ex n) (str n)) l') <= span (map len l) (map str l).
Proof.
  induction l as [|n l IH]; intros Hn H; cbn zeta; [simpl; split; auto; lia|].
  cbn [map nested] in Hn. destruct Hn as (H1 & H2 & H3).
  destruct (IH H3) as [IHn IHs]; [intros; apply H; auto; now right|]. clear IH.
  cbn [filter map span]. destruct (is_range (ex n)) eqn:E.
  - destruct (H n (or_introl eq_refl) E) as (G1 & G2 & G3). cbn [map nested span]. repeat split; auto; lia.
  - split; auto. nia.
Qed.

Lemma arg_in_bounds_thin a l s : arg_in_bounds a l -> 1 <= l -> is_range a = true -> 1 <= get_l a l ->
  (forall r, a = ARange r -> r_step r <> 0) ->
  Z.abs s <= Z.abs (get_s a s) /\ (get_l a l - 1) * Z.abs (get_s a s) <= (l - 1) * Z.abs s.
Proof.
  intros Hb Hl Hr Hg Hs. destruct a as [i|r| |]; try discriminate; cbn [get_s]; try (cbn [get_l] in *; lia).
  specialize (Hs r eq_refl). cbn [arg_in_bounds] in Hb.
  pose proof (Hb 0 ltac:(apply in_range_arg_spec; auto; lia)) as B0.
  pose proof (Hb (get_l (ARange r) l - 1) ltac:(apply in_range_arg_spec; auto; lia)) as B1.
  set (g := get_l (ARange r) l) in *. rewrite Z.abs_mul. split; [nia|].
  assert (B2 : (g - 1) * Z.abs (r_step r) <= l - 1) by (destruct (Z_le_gt_dec 0 (r_step r)); [rewrite Z.abs_eq by lia|rewrite Z.abs_neq by lia]; nia).
  pose proof (Z.abs_nonneg s). nia.
Qed.

Definition nestedm (m : idx_map) : Prop := nested (apply 0 (im_so m) (im_len m)) (apply 0 (im_so m) (im_str m)).

Lemma slice_nested m args o m' : wf m -> slice m args = Some (o, m') -> steps_nonzero args ->
  args_in_bounds (expand_args (rank m) args) (im_len m) -> nestedm m -> Forall (fun l => 1 <= l) (im_len m') -> nestedm m'.
Proof.
  intros W HS Hst Hb Hn Hne. destruct (slice_inv _ _ _ HS) as [Hok E]. rewrite slice_impl_expand in E by auto. injection E as -> ->.
  destruct W as (Ls & Hp & Lse & Hnn & HR). pose proof (expand_args_length _ _ Hok) as Lex. unfold rank in *.
  set (ex := expand_args _ args) in *. unfold nestedm in *; cbn [im_len im_str im_so] in *.
  rewrite <- map_kept_len in * by lia. rewrite <- map_kept_str by lia.
  rewrite !(apply_kept _ 0 (im_so m) (length (im_len m)) ex Hp Lex).
  rewrite !apply_as_map in Hn.
  apply (nested_thin (nthZ (im_len m)) (nthZ (im_str m)) (fun n => nth n ex AAll)); auto.
  intros n Hin Er. assert (Hlt : (n < length (im_len m))%nat) by now apply (is_perm_In _ (im_so m) n Hp).
  assert (G1 : 1 <= get_l (nth n ex AAll) (nthZ (im_len m) n)).
  { rewrite Forall_forall in Hne. apply Hne. apply in_map_iff. exists n. split; auto. apply kept_In; auto. lia. }
  split; auto. apply arg_in_bounds_thin; auto.
  - apply (Forall2_nth _ _ _ AAll 0) in Hb. destruct Hb as [_ Hb]. apply Hb. lia.
  - assert (HF : Forall (fun l => 1 <= l) (map (nthZ (im_len m)) (im_so m))).
    { destruct (proj1 (nested_iff _ _ (nested_length _ _ Hn)) Hn) as [G _]. exact G. }
    rewrite Forall_forall in HF. apply HF. apply in_map_iff. exists n; auto.
  - intros r Er'. apply Hst. apply nth_In_arg in Er'. eapply expand_In; eauto. discriminate.
Qed.

(** ** flags are inherited *)
Definition bstep (f : nat -> bool) (st : nat * bool) (n : nat) : nat * bool :=
  let cur := f n in ((if cur && negb (snd st) then S (fst st) else fst st), cur).

Lemma bstep_mono f l st : (fst st <= fst (fold_left (bstep f) l st))%nat.
Proof.
  revert st; induction l as [|n l IH]; intros st; simpl; auto.
  eapply Nat.le_trans; [|apply IH]. unfold bstep. cbn [fst]. destruct (f n && negb (snd st)); lia.
Qed.

Lemma blocks_false f l : (fst (fold_left (bstep f) l (1%nat, false)) <= 1)%nat -> forall n, In n l -> f n = false.
Proof.
  induction l as [|n l IH]; intros H x Hx; [contradiction|]. cbn [fold_left] in H. unfold bstep at 2 in H. cbn [fst snd] in H.
  destruct (f n) eqn:E; cbn [andb negb] in H.
  - pose proof (bstep_mono f l (2%nat, true)). cbn [fst] in *. lia.
  - destruct Hx as [<-|Hx]; auto.
Qed.

Lemma blocks_true f l k : (fst (fold_left (bstep f) l (k, true)) <= k)%nat ->  k = 1%nat ->
  exists b c, l = b ++ c /\ (forall n, In n b -> f n = true) /\ (forall n, In n c -> f n = false) /\
    (snd (fold_left (bstep f) l (k, true)) = true -> c = []).
Proof.
  intros H ->. induction l as [|n l IH]; cbn [fold_left] in *.
  - exists [], []. repeat split; auto; intros; contradiction.
  - change (bstep f (1%nat, true) n) with ((if f n && false then 2 else 1)%nat, f n) in *. rewrite andb_false_r in *. destruct (f n) eqn:E.
    + destruct (IH H) as (b & c & -> & Hb & Hc & Hl). exists (n :: b), c. repeat split; auto.
      intros x [<-|Hx]; auto.
    + exists [], (n :: l). pose proof (blocks_false f l H) as HF. split; [reflexivity|]. split; [intros x []|]. split.
      * intros x [<-|Hx]; auto.
      * intros Hs. exfalso. assert (G : forall l st, (forall n, In n l -> f n = false) -> snd st = false -> snd (fold_left (bstep f) l st) = false).
        { clear. induction l as [|y l IH]; intros st HF Hst; simpl; auto. apply IH; [intros; apply HF; now right|]. apply HF. now left. }
        rewrite G in Hs; auto. discriminate.
Qed.

Lemma blocks_decomp f l : (fst (fold_left (bstep f) l (0%nat, false)) <= 1)%nat ->
  exists a b c, l = a ++ b ++ c /\ (forall n, In n a -> f n = false) /\ (forall n, In n b -> f n = true) /\ (forall n, In n c -> f n = false) /\
    (snd (fold_left (bstep f) l (0%nat, false)) = true -> c = []).
Proof.
  induction l as [|n l IH]; intros H; cbn [fold_left] in *.
  - exists [], [], []. repeat split; auto; intros; contradiction.
  - change (bstep f (0%nat, false) n) with ((if f n && true then 1 else 0)%nat, f n) in *. rewrite andb_true_r in *. destruct (f n) eqn:E.
    + destruct (blocks_true f l 1 H eq_refl) as (b & c & -> & Hb & Hc & Hl).
      exists [], (n :: b), c. repeat split; auto; try (intros; contradiction). intros x [<-|Hx]; auto.
    + destruct (IH H) as (a & b & c & -> & Ha & Hb & Hc & Hl). exists (n :: a), b, c. repeat split; auto.
      intros x [<-|Hx]; auto.
Qed.

Lemma blocks_last f l st : snd (fold_left (bstep f) l st) = match l with [] => snd st | _ => f (last l 0%nat) end.
Proof.
  destruct l as [|n l]; [reflexivity|]. revert n st; induction l as [|k l IH]; intros n st; [reflexivity|].
  cbn [fold_left] in *. rewrite (IH k (bstep f st n)). reflexivity.
Qed.

Lemma suffix_prods_app a b : suffix_prods (a ++ b) = map (fun x => x * prodZ b) (suffix_prods a) ++ suffix_prods b.
Proof.
  induction a as [|l a IH]; [reflexivity|]. cbn [app suffix_prods map]. rewrite IH, prodZ_app. reflexivity.
Qed.

Lemma filter_all_true {A} (f : A -> bool) l : (forall x, In x l -> f x = true) -> filter f l = l.
Proof. induction l as [|x l IH]; intros H; simpl; auto. rewrite H by now left. rewrite IH; auto. intros; apply H; now right. Qed.
Lemma filter_all_false {A} (f : A -> bool) l : (forall x, In x l -> f x = false) -> filter f l = [].
Proof. induction l as [|x l IH]; intros H; simpl; auto. rewrite H by now left. apply IH. intros; apply H; now right. Qed.

Lemma app_mid_eq {A} (a b c a' b' c' : list A) : a ++ b ++ c = a' ++ b' ++ c' -> length a = length a' -> length b = length b' -> b = b'.
Proof.
  revert a'; induction a as [|x a IH]; intros [|y a'] E La Lb; try discriminate; cbn [app] in E.
  - clear La. revert b' E Lb; induction b as [|x b IH]; intros [|y b'] E Lb; try discriminate; auto.
    cbn [app] in E. injection E as -> E. f_equal. apply IH; auto.
  - injection E as -> E. apply (IH a'); auto.
Qed.

(** regular restricted to a contiguous block of dimensions (in stride order) *)
Lemma regular_block (len str : nat -> Z) d a b c :
  map str (a ++ b ++ c) = map (Z.mul d) (suffix_prods (map len (a ++ b ++ c))) ->
  map str b = map (Z.mul (d * prodZ (map len c))) (suffix_prods (map len b)).
Proof.
  rewrite !map_app, !suffix_prods_app, !map_app, !map_map. intros H.
  apply app_mid_eq in H; try (rewrite ?map_length, ?suffix_prods_length, ?map_length; reflexivity).
  rewrite H. apply map_ext. intros x. ring.
Qed.

Lemma only_arg ex n : forallb (fun a => is_long a || is_range_all a) ex = true ->
  is_range (nth n ex AAll) = is_range_all (nth n ex AAll).
Proof.
  intros H. destruct (Nat.ltb_spec n (length ex)) as [Hn|Hn].
  - rewrite forallb_forall in H. specialize (H _ (nth_In ex AAll Hn)). destruct (nth n ex AAll); auto. 
  - rewrite nth_overflow by auto. reflexivity.
Qed.

Lemma filter_last_kept (f : nat -> bool) l d : l <> [] -> f (last l d) = true -> last (filter f l) d = last l d /\ filter f l <> [].
Proof.
  induction l as [|x l IH]; intros Hn Hf; [congruence|]. destruct l as [|y l].
  - simpl in *. rewrite Hf. split; [reflexivity|discriminate].
  - destruct (IH ltac:(discriminate) Hf) as [IH1 IH2].
    change (filter f (x :: y :: l)) with (if f x then x :: filter f (y :: l) else filter f (y :: l)).
    change (last (x :: y :: l) d) with (last (y :: l) d). destruct (f x).
    + split; [|discriminate]. rewrite <- IH1. destruct (filter f (y :: l)); [congruence|reflexivity].
    + auto.
Qed.

Lemma last_map {A B} (g : A -> B) l da db : l <> [] -> last (map g l) db = g (last l da).
Proof.
  induction l as [|x l IH]; intros H; [congruence|]. destruct l as [|y l]; [reflexivity|].
  change (last (map g (x :: y :: l)) db) with (last (map g (y :: l)) db). rewrite IH by discriminate. reflexivity.
Qed.

Lemma last_nth {A} (l : list A) d : last l d = nth (length l - 1) l d.
Proof.
  induction l as [|x l IH]; [reflexivity|]. destruct l as [|y l]; [reflexivity|].
  change (last (x :: y :: l) d) with (last (y :: l) d). rewrite IH. cbn [length].
  replace (S (S (length l)) - 1)%nat with (S (S (length l) - 1)) by lia. reflexivity.
Qed.

Lemma min_stride_last m : wf m -> min_stride m = last (apply 0 (im_so m) (im_str m)) 0.
Proof.
  intros W. rewrite min_stride_apply by auto. rewrite last_nth, apply_length. unfold nthZ, rank.
  destruct W as (_ & Hp & _). now rewrite (is_perm_length _ _ Hp).
Qed.

Lemma slice_flags m args o m' : wf m -> slice m args = Some (o, m') -> some_dim_left (rank m) args ->
  flags_true m -> flags_true m'.
Proof.
  intros W HS HD [HF1 HF2]. pose proof (slice_wf _ _ _ _ W HS HD) as W'.
  destruct (slice_inv _ _ _ HS) as [Hok E]. rewrite slice_impl_expand in E by auto. injection E as _ ->.
  pose proof W as (Ls & Hp & Lse & Hnn & HR). pose proof (expand_args_length _ _ Hok) as Lex. unfold rank in *.
  set (ex := expand_args _ args) in *. set (m' := IdxMap _ _ _ _ _) in *.
  assert (OL : apply 0 (im_so m') (im_len m') = map (fun n => get_l (nth n ex AAll) (nthZ (im_len m) n)) (filter (fun n => is_range (nth n ex AAll)) (im_so m))).
  { unfold m'; cbn [im_len im_so]. rewrite <- map_kept_len by lia. now apply (apply_kept _ 0 (im_so m) (length (im_len m)) ex). }
  assert (OS : apply 0 (im_so m') (im_str m') = map (fun n => get_s (nth n ex AAll) (nthZ (im_str m) n)) (filter (fun n => is_range (nth n ex AAll)) (im_so m))).
  { unfold m'; cbn [im_str im_so]. rewrite <- map_kept_str by lia. now apply (apply_kept _ 0 (im_so m) (length (im_len m)) ex). }
  unfold flags_true.
  destruct (forallb (fun a => is_long a || is_range_all a) ex) eqn:Only.
  - (* only integers and range::all *)
    assert (Oa : forall n, is_range (nth n ex AAll) = is_range_all (nth n ex AAll)) by (intros; now apply only_arg).
    assert (OL2 : apply 0 (im_so m') (im_len m') = map (nthZ (im_len m)) (filter (fun n => is_range_all (nth n ex AAll)) (im_so m))).
    { rewrite OL. rewrite (filter_ext _ _ Oa). apply map_ext_in. intros n Hn. apply filter_In in Hn. destruct Hn as [_ Hn].
      destruct (nth n ex AAll); try discriminate; reflexivity. }
    assert (OS2 : apply 0 (im_so m') (im_str m') = map (nthZ (im_str m)) (filter (fun n => is_range_all (nth n ex AAll)) (im_so m))).
    { rewrite OS. rewrite (filter_ext _ _ Oa). apply map_ext_in. intros n Hn. apply filter_In in Hn. destruct Hn as [_ Hn].
      destruct (nth n ex AAll); try discriminate; reflexivity. }
    set (f := fun n => is_range_all (nth n ex AAll)) in *.
    set (st := fold_left (bstep f) (im_so m) (0%nat, false)).
    assert (HP : im_prop m' = if has_contiguous (im_prop m) && Nat.leb (fst st) 1 && snd st then LP_contiguous else
      if has_strided_1d (im_prop m) && Nat.leb (fst st) 1 then LP_strided_1d else
      if has_smallest_stride_is_one (im_prop m) && snd st then LP_smallest_one else LP_none).
    { unfold m'; cbn [im_prop]. unfold exp_prop. rewrite Only. reflexivity. }
    assert (Lso : im_so m <> []).
    { intros C. pose proof (is_perm_length _ _ Hp) as L. rewrite C in L. simpl in L. lia. }
    assert (Strided : has_strided_1d (im_prop m) = true -> Nat.leb (fst st) 1 = true -> regular (min_stride m') m').
    { intros Hs Hg. apply Nat.leb_le in Hg. apply HF1 in Hs. apply regular_apply in Hs.
      destruct (blocks_decomp f (im_so m) Hg) as (a & b & c & Eso & Ha & Hb & Hc & _).
      assert (Ff : filter f (im_so m) = b).
      { rewrite Eso, !filter_app, (filter_all_false f a), (filter_all_false f c), (filter_all_true f b) by auto. apply app_nil_r. }
      rewrite Ff in *. rewrite !apply_as_map in Hs. rewrite Eso in Hs at 1 2.
      apply (regular_block (nthZ (im_len m)) (nthZ (im_str m))) in Hs.
      assert (Hreg : regular (min_stride m * prodZ (map (nthZ (im_len m)) c)) m').
      { apply regular_apply. rewrite OL2, OS2. exact Hs. }
      rewrite (regular_min_stride m' _ W' Hreg). exact Hreg. }
    assert (Small : has_smallest_stride_is_one (im_prop m) = true -> snd st = true -> smallest_one_true m').
    { intros Hs Hl. apply HF2 in Hs. unfold smallest_one_true in *. rewrite <- Hs.
      rewrite !min_stride_last by auto. rewrite OS2, apply_as_map. unfold st in Hl. rewrite blocks_last in Hl.
      destruct (im_so m) as [|x l] eqn:Eso; [congruence|].
      destruct (filter_last_kept f (x :: l) 0%nat ltac:(discriminate) Hl) as [E1 E2].
      rewrite (last_map (nthZ (im_str m)) _ 0%nat) by auto. rewrite E1.
      rewrite (last_map (fun k => nth k (im_str m) 0) _ 0%nat) by discriminate. reflexivity. }
    rewrite HP. unfold has_contiguous. clear HP.
    destruct (has_strided_1d (im_prop m)) eqn:E1, (has_smallest_stride_is_one (im_prop m)) eqn:E2,
      (Nat.leb (fst st) 1) eqn:E3, (snd st) eqn:E4; cbn; split; intros; try discriminate; auto.
  - (* some proper range *)
    assert (HP : im_prop m' = if Nat.eqb (n_kept ex) 1 then LP_strided_1d else LP_none).
    { unfold m'; cbn [im_prop]. unfold exp_prop. rewrite Only. reflexivity. }
    rewrite HP. destruct (Nat.eqb_spec (n_kept ex) 1) as [E1|E1]; cbn [has_strided_1d has_smallest_stride_is_one];
      split; try discriminate. intros _.
    pose proof W' as (_ & Hp' & _). pose proof (is_perm_length _ _ Hp') as Lso'.
    assert (R1 : length (im_len m') = 1%nat) by (unfold m'; cbn [im_len]; rewrite slice_len_length by lia; exact E1).
    apply regular_apply. rewrite min_stride_last by auto.
    rewrite R1 in Lso'. destruct (im_so m') as [|x [|y l]]; try discriminate.
    rewrite !apply_as_map. cbn [map suffix_prods last]. rewrite prodZ_nil, Z.mul_1_r. reflexivity.
Qed.

  Lemma in_bounds_nonempty ex len : args_in_bounds ex len -> count_ell ex = 0%nat -> (forall r, In (ARange r) ex -> r_step r <> 0) ->
    Forall (fun l => 0 <= l) len -> Forall (fun l => 1 <= l) (slice_len ex len) -> Forall (fun l => 1 <= l) len.
  Proof.
    intros H; induction H as [|a l ex len Ha H IH]; intros H0 Hs Hnn Hl; [constructor|].
    inversion Hnn as [|l' len' Hl0 Hnn']; subst.
    assert (Hne : is_ellipsis a = false) by (apply (count_ell_0 (a :: ex)); auto; now left).
    assert (H0' : count_ell ex = 0%nat) by (unfold count_ell in *; simpl in H0; rewrite Hne in H0; exact H0).
    assert (Hs' : forall r, In (ARange r) ex -> r_step r <> 0) by (intros; apply Hs; now right).
    destruct a as [i|r| |]; try discriminate; cbn [slice_len is_range arg_in_bounds] in *.
    - constructor; auto. lia.
    - inversion Hl as [|l' len' Hg Hl']; subst. constructor; auto.
      specialize (Ha 0 ltac:(apply in_range_arg_spec; [apply Hs; now left|cbn [get_l]; lia])). lia.
    - inversion Hl as [|l' len' Hg Hl']; subst. constructor; auto.
  Qed.

  Lemma valid_pos m idx : valid_idx m idx -> Forall (fun l => 1 <= l) (im_len m).
  Proof. intros H. apply in_range_pos in H. eapply Forall_impl; [|exact H]. simpl; lia. Qed.

(** ** every layout a program can build *)
Section Views.
  Variable ok_step : Z -> Prop.
  Variable n : Z.

  Lemma view_wf off m : view_of ok_step n off m -> wf m.
  Proof.
    induction 1 as [so se p junk shape Ho Lj Lse Hnn HR Hn|off m args o m' Hv IH HS Hst Hb HD|off m p Hv IH Ho].
    - now apply fresh_wf.
    - eapply slice_wf; eauto.
    - now apply transpose_wf.
  Qed.

  Lemma view_flags off m : view_of ok_step n off m -> flags_true m.
  Proof.
    induction 1 as [so se p junk shape Ho Lj Lse Hnn HR Hn|off m args o m' Hv IH HS Hst Hb HD|off m p Hv IH Ho].
    - now apply fresh_flags.
    - eapply slice_flags; eauto using view_wf.
    - apply transpose_flags; eauto using view_wf.
  Qed.

  Lemma steps_of (args : list arg) : (forall r, In (ARange r) args -> ok_step (r_step r) /\ r_step r <> 0) -> steps_nonzero args.
  Proof. intros H r Hr. now apply H. Qed.

  (** elements of a view are elements of the block *)
  Lemma view_in_block off m idx : view_of ok_step n off m -> valid_idx m idx -> 0 <= off + addr m idx < n.
  Proof.
    intros Hv. revert idx.
    induction Hv as [so se p junk shape Ho Lj Lse Hnn HR Hn|off m args o m' Hv IH HS Hst Hb HD|off m p Hv IH Ho]; intros idx Hi.
    - rewrite (fresh_contiguous_true so se p junk shape Ho Lj idx Hi). unfold seq_number, idx_map_of_shape, valid_idx in *; cbn [im_len im_so] in *.
      rewrite !in_order_apply. rewrite <- Hn.
      rewrite <- (prodZ_perm _ _ (apply_Permutation 0 (length shape) so shape Ho eq_refl)).
      rewrite Z.add_0_l. apply radix_bound. now apply (in_range_apply (length shape)).
    - pose proof (view_wf _ _ Hv) as W. pose proof Hi as Hi'. apply in_range_length in Hi'.
      rewrite <- Z.add_assoc. rewrite (slice_addr m args) by auto. apply IH.
      apply parent_idx_valid; auto.
      + apply expand_no_ell. now apply (slice_inv _ _ _ HS).
      + apply (slice_valid m args o m'); auto using steps_of.
    - pose proof (view_wf _ _ Hv) as W. pose proof (in_range_length _ _ Hi) as Li. unfold transpose in Li; cbn [im_len] in Li.
      rewrite apply_inverse_length, (is_perm_length _ _ Ho) in Li.
      rewrite transpose_addr by auto. apply IH. now apply transpose_valid.
  Qed.

  Lemma view_nested off m : view_of ok_step n off m -> Forall (fun l => 1 <= l) (im_len m) -> nestedm m.
  Proof.
    induction 1 as [so se p junk shape Ho Lj Lse Hnn HR Hn|off m args o m' Hv IH HS Hst Hb HD|off m p Hv IH Ho]; intros Hl.
    - apply fresh_nested; auto.
    - pose proof (view_wf _ _ Hv) as W. eapply slice_nested; eauto using steps_of. apply IH.
      destruct (slice_inv _ _ _ HS) as [Hok E]. rewrite slice_impl_expand in E by auto. injection E as _ ->. cbn [im_len] in Hl.
      apply (in_bounds_nonempty (expand_args (rank m) args)); auto using expand_no_ell; try apply W.
      intros r Hr. apply (expand_In _ _ _ Hok) in Hr; [|discriminate]. now apply Hst.
    - pose proof (view_wf _ _ Hv) as W. unfold nestedm in *. destruct (transpose_order p m W Ho) as [-> ->]. apply IH.
      unfold transpose in Hl; cbn [im_len] in Hl. destruct W as (Ls & Hp & Lse & Hnn & HR).
      rewrite (apply_inverse_is_apply 0 (rank m)) in Hl by auto.
      apply (Forall_apply _ (rank m)) in Hl; auto. now apply is_perm_inverse.
  Qed.

  Lemma view_injective off m i j : view_of ok_step n off m -> valid_idx m i -> valid_idx m j -> addr m i = addr m j -> i = j.
  Proof.
    intros Hv Hi Hj E. pose proof (view_wf _ _ Hv) as (Ls & Hp & Lse & Hnn & HR).
    pose proof (view_nested _ _ Hv (valid_pos _ _ Hi)) as Hn.
    pose proof (in_range_length _ _ Hi) as Li. pose proof (in_range_length _ _ Hj) as Lj.
    assert (Ea : apply 0 (im_so m) i = apply 0 (im_so m) j).
    { apply (nested_inj _ _ _ _ Hn); try (apply (in_range_apply (length (im_len m))); auto).
      rewrite !(dot_apply (length (im_len m))) by auto. exact E. }
    rewrite <- (apply_inverse_apply 0 (length (im_len m)) (im_so m) i Hp Li), Ea. now apply (apply_inverse_apply 0 (length (im_len m))).
  Qed.
End Views.

(** positive steps keep strides positive *)
Lemma view_positive n off m : view_of (fun s => 0 < s) n off m -> Forall (fun l => 1 <= l) (im_len m) -> Forall (fun s => 0 < s) (im_str m).
Proof.
  induction 1 as [so se p junk shape Ho Lj Lse Hnn HR Hn|off m args o m' Hv IH HS Hst Hb HD|off m p Hv IH Ho]; intros Hl.
  - apply fresh_nested; auto.
  - pose proof (view_wf _ _ _ _ Hv) as W.
    destruct (slice_inv _ _ _ HS) as [Hok E]. rewrite slice_impl_expand in E by auto. injection E as _ ->. cbn [im_len im_str] in *.
    assert (Hpos : Forall (fun s => 0 < s) (im_str m)).
    { apply IH. apply (in_bounds_nonempty (expand_args (rank m) args)); auto using expand_no_ell; try apply W.
      intros r Hr. apply (expand_In _ _ _ Hok) in Hr; [|discriminate]. now apply Hst. }
    assert (Hr : forall r, In (ARange r) (expand_args (rank m) args) -> 0 < r_step r).
    { intros r Hr. apply (expand_In _ _ _ Hok) in Hr; [|discriminate]. now apply Hst. }
    clear - Hpos Hr. revert Hr. generalize (expand_args (rank m) args) as ex.
    revert Hpos. generalize (im_str m) as str. intros str Hpos. induction Hpos as [|s str Hs Hpos IH]; intros [|a ex] Hr; try constructor.
    cbn [slice_str]. specialize (IH ex ltac:(intros; apply Hr; now right)). destruct a as [i|r| |]; cbn [is_range get_s]; try constructor; auto.
    specialize (Hr r (or_introl eq_refl)). nia.
  - pose proof (view_wf _ _ _ _ Hv) as W. unfold transpose in *; cbn [im_len im_str] in *. destruct W as (Ls & Hp & Lse & Hnn & HR).
    unfold rank in *.
    rewrite (apply_inverse_is_apply 0 (length (im_len m))) in * by auto.
    apply (Forall_apply _ (length (im_len m))) in Hl; auto using is_perm_inverse.
    apply (Forall_apply _ (length (im_len m))); auto using is_perm_inverse.
Qed.

(** ** contiguity tests *)
Lemma max_fold_ge l a : a <= fold_left (fun m y => if m <? y then y else m) l a /\
  (forall x, In x l -> x <= fold_left (fun m y => if m <? y then y else m) l a).
Proof.
  revert a; induction l as [|y l IH]; intros a; simpl; [split; [lia|tauto]|].
  destruct (IH (if a <? y then y else a)) as [H1 H2]. destruct (Z.ltb_spec a y); split; try lia;
    intros x [<-|Hx]; auto; lia.
Qed.
Lemma max_fold_in l a : In (fold_left (fun m y => if m <? y then y else m) l a) (a :: l).
Proof.
  revert a; induction l as [|y l IH]; intros a; simpl; auto. specialize (IH (if a <? y then y else a)).
  destruct (a <? y); simpl in IH; tauto.
Qed.
Lemma max_element_ge l x : In x l -> x <= max_element l.
Proof. destruct l as [|a l]; [contradiction|]. destruct (max_fold_ge l a) as [G1 G2]. intros [<-|H]; [exact G1|exact (G2 x H)]. Qed.
Lemma max_element_In l : l <> [] -> In (max_element l) l.
Proof. destruct l as [|a l]; [congruence|]. intros _. apply max_fold_in. Qed.

Lemma span_ge_prod len str : nested len str -> Forall (fun s => 0 < s) str -> prodZ len <= span len str + 1.
Proof.
  revert str; induction len as [|l len IH]; intros [|s str] Hn Hp; cbn [nested span] in *; try tauto; [reflexivity|].
  destruct Hn as (H1 & H2 & H3). inversion Hp as [|s' str' Hs Hp']; subst. specialize (IH _ H3 Hp'). rewrite prodZ_cons.
  pose proof (span_nonneg _ _ H3). rewrite Z.abs_eq in * by lia. nia.
Qed.

Lemma tight_contiguous len str idx : nested len str -> Forall (fun s => 0 < s) str -> span len str + 1 <= prodZ len ->
  in_range idx len -> dot idx str = radix len idx.
Proof.
  intros Hn Hp Hs Hi. revert str Hn Hp Hs; induction Hi as [|i l idx len Hil Hi IH]; intros [|s str] Hn Hp Hs; cbn [nested span] in *; try tauto; auto.
  destruct Hn as (H1 & H2 & H3). inversion Hp as [|s' str' Hs' Hp']; subst. rewrite prodZ_cons in Hs.
  pose proof (span_ge_prod _ _ H3 Hp') as HG. rewrite Z.abs_eq in * by lia.
  assert (Hpos : 0 < prodZ len) by (apply prodZ_pos, (in_range_pos idx), Hi).
  assert (T : span len str + 1 <= prodZ len) by nia.
  cbn [dot radix]. rewrite IH by auto. unfold inr in Hil.
  destruct (Z.eq_dec i 0) as [->|Hi0]; [ring|].
  assert (s <= prodZ len) by nia. assert (s = prodZ len) by lia. subst s. ring.
Qed.

Lemma arr_mul_In a b x : length a = length b -> (In x (arr_mul a b) <-> exists k, (k < length a)%nat /\ x = nthZ a k * nthZ b k).
Proof.
  intros L. unfold arr_mul. rewrite in_map_iff. split.
  - intros [k [<- Hk]]. apply in_seq in Hk. exists k. split; auto. lia.
  - intros [k [Hk ->]]. exists k. split; auto. apply in_seq. lia.
Qed.

Lemma contiguity_core m : wf m -> nestedm m -> Forall (fun s => 0 < s) (im_str m) ->
  (forall k, (k < rank m)%nat -> nthZ (im_str m) k * nthZ (im_len m) k <= size m) -> contiguous_true m.
Proof.
  intros (Ls & Hp & Lse & Hnn & HR) Hn Hpos Hmax idx Hv. unfold nestedm in Hn. unfold addr, seq_number.
  rewrite <- (dot_apply (length (im_len m)) (im_so m)) by (auto; now apply in_range_length in Hv). rewrite !in_order_apply.
  assert (Hpos' : Forall (fun s => 0 < s) (apply 0 (im_so m) (im_str m))) by (apply (Forall_apply _ (length (im_len m))); auto).
  apply (tight_contiguous _ _ _ Hn Hpos'); [|now apply (in_range_apply (length (im_len m)))].
  rewrite size_prodZ in Hmax.
  rewrite <- (prodZ_perm _ _ (apply_Permutation 0 (length (im_len m)) (im_so m) (im_len m) Hp eq_refl)) in Hmax.
  pose proof (is_perm_length _ _ Hp) as Lso.
  pose proof (apply_length 0 (im_so m) (im_len m)) as La.
  assert (Hk0 : (nthN (im_so m) 0 < rank m)%nat) by (apply is_perm_lt; [exact Hp|unfold rank; lia]).
  pose proof (Hmax _ Hk0) as H0.
  rewrite <- !apply_skipn_nth in H0 by lia.
  destruct (apply 0 (im_so m) (im_len m)) as [|l len]; [simpl in La; lia|].
  destruct (apply 0 (im_so m) (im_str m)) as [|s str]; [simpl in Hn; tauto|].
  unfold nthZ in H0; cbn [nth] in H0. cbn [nested] in Hn. destruct Hn as (H1 & H2 & H3). rewrite prodZ_cons in *. cbn [span].
  inversion Hpos' as [|s' str' Hs' Hp']; subst. pose proof (span_ge_prod _ _ H3 Hp'). rewrite Z.abs_eq in * by lia. nia.
Qed.

Lemma is_contiguous_sound m : wf m -> (size m <> 0 -> nestedm m /\ Forall (fun s => 0 < s) (im_str m)) ->
  is_contiguous m = true -> contiguous_true m.
Proof.
  intros W Hn. unfold is_contiguous. destruct (Z.eqb_spec (size m) 0) as [E|E].
  - intros _ idx Hv. exfalso. rewrite size_prodZ in E. apply in_range_pos in Hv. apply prodZ_pos in Hv. lia.
  - intros H. apply Z.eqb_eq in H. destruct (Hn E) as [H1 H2]. apply contiguity_core; auto.
    intros k Hk. rewrite <- H. apply max_element_ge. apply arr_mul_In; [apply W|]. exists k. split; auto.
    destruct W as (Ls & _). unfold rank in Hk. lia.
Qed.

(** the same for is_strided_1d when every stride is a multiple of the smallest one *)
Lemma nested_div d len str : 0 < d -> nested len (map (Z.mul d) str) -> nested len str /\ span len (map (Z.mul d) str) = d * span len str.
Proof.
  intros Hd. revert str; induction len as [|l len IH]; intros [|s str]; cbn [map nested span]; try tauto; [split; auto; ring|].
  intros (H1 & H2 & H3). destruct (IH _ H3) as [IHn IHs]. rewrite IHs in *. rewrite Z.abs_mul, (Z.abs_eq d) in * by lia.
  repeat split; auto; [nia|ring].
Qed.

Lemma is_strided_1d_sound m : wf m -> (size m <> 0 -> nestedm m /\ Forall (fun s => 0 < s) (im_str m)) ->
  Forall (fun s => (min_stride m | s)) (im_str m) -> is_strided_1d m = true -> strided_1d_true m.
Proof.
  intros W Hn Hdiv. unfold is_strided_1d. destruct (Z.eqb_spec (size m) 0) as [E|E].
  - intros _ idx Hv. exfalso. rewrite size_prodZ in E. apply in_range_pos in Hv. apply prodZ_pos in Hv. lia.
  - intros H idx Hv. apply Z.eqb_eq in H. destruct (Hn E) as [H1 H2].
    pose proof W as (Ls & Hp & Lse & Hnn & HR). set (d := min_stride m) in *.
    assert (Hd : 0 < d).
    { unfold d, min_stride. rewrite Forall_forall in H2. apply H2. apply nth_In. rewrite Ls. apply is_perm_lt; auto. unfold rank; lia. }
    set (t := map (fun s => s / d) (im_str m)).
    assert (Et : im_str m = map (Z.mul d) t).
    { unfold t. rewrite map_map. rewrite <- (map_id (im_str m)) at 1. apply map_ext_in. intros s Hs.
      rewrite Forall_forall in Hdiv. destruct (Hdiv s Hs) as [q ->]. rewrite Z.div_mul by lia. ring. }
    set (m1 := IdxMap (im_len m) t (im_so m) (im_se m) LP_none).
    assert (Lt : length t = length (im_len m)) by (unfold t; rewrite map_length; exact Ls).
    assert (W1 : wf m1) by (unfold wf, m1; cbn [im_len im_str im_so im_se]; auto).
    assert (Ea : apply 0 (im_so m) (im_str m) = map (Z.mul d) (apply 0 (im_so m) t)).
    { rewrite Et. apply apply_map. intros k Hk. rewrite Lt. now apply (is_perm_In _ (im_so m) k Hp). }
    assert (C1 : contiguous_true m1).
    { apply contiguity_core; auto.
      - unfold nestedm in *. rewrite Ea in H1. unfold m1; cbn [im_len im_str im_so]. now apply (nested_div d).
      - unfold m1; cbn [im_str]. rewrite Et in H2. rewrite Forall_map in H2. eapply Forall_impl; [|exact H2]. cbn. intros; nia.
      - intros k Hk. unfold m1, rank in *; cbn [im_str im_len] in *. change (size (IdxMap (im_len m) t (im_so m) (im_se m) LP_none)) with (size m).
        assert (HM : nthZ (im_str m) k * nthZ (im_len m) k <= size m * d).
        { rewrite <- H. apply max_element_ge. apply arr_mul_In; [exact Ls|]. exists k. split; auto. lia. }
        rewrite Et in HM. unfold nthZ at 1 in HM. rewrite (nth_map_lt (Z.mul d) t k 0 0) in HM by lia. fold (nthZ t k) in HM. nia. }
    specialize (C1 idx Hv). unfold addr in *. unfold m1 in C1; cbn [im_str im_len im_so] in C1.
    rewrite Et, dot_map_mul, C1. reflexivity.
Qed.

(** completeness: strides of the exact product form are recognised *)
Lemma suffix_prod_bound len k : Forall (fun l => 1 <= l) len -> (k < length len)%nat ->
  nthZ (suffix_prods len) k * nthZ len k <= prodZ len /\ 0 <= nthZ (suffix_prods len) k * nthZ len k.
Proof.
  intros H. revert k; induction H as [|l len Hl H IH]; intros k Hk; [simpl in Hk; lia|].
  assert (Hp : 0 < prodZ len) by (apply prodZ_pos; eapply Forall_impl; [|exact H]; simpl; lia).
  rewrite prodZ_cons. destruct k as [|k]; cbn [suffix_prods]; unfold nthZ; cbn [nth].
  - nia.
  - simpl in Hk. specialize (IH k ltac:(lia)). unfold nthZ in IH. nia.
Qed.

Lemma regular_max m d : wf m -> 0 < d -> size m <> 0 -> regular d m -> max_element (arr_mul (im_str m) (im_len m)) = size m * d.
Proof.
  intros (Ls & Hp & Lse & Hnn & HR) Hd Hs Hr. apply regular_apply in Hr. rewrite size_prodZ in *.
  set (R := length (im_len m)) in *. pose proof (is_perm_length _ _ Hp) as Lso.
  assert (H1 : Forall (fun l => 1 <= l) (im_len m)).
  { assert (0 < prodZ (im_len m)) by (pose proof (prodZ_nonneg _ Hnn); lia).
    pose proof (prodZ_pos_Forall _ Hnn H) as HF. eapply Forall_impl; [|exact HF]. simpl; lia. }
  assert (H1' : Forall (fun l => 1 <= l) (apply 0 (im_so m) (im_len m))) by (apply (Forall_apply _ R); auto).
  assert (EP : prodZ (im_len m) = prodZ (apply 0 (im_so m) (im_len m))) by (symmetry; apply prodZ_perm; now apply (apply_Permutation 0 R)).
  assert (V : forall v, (v < R)%nat -> nthZ (im_str m) (nthN (im_so m) v) * nthZ (im_len m) (nthN (im_so m) v) =
      d * (nthZ (suffix_prods (apply 0 (im_so m) (im_len m))) v * nthZ (apply 0 (im_so m) (im_len m)) v)).
  { intros v Hv. rewrite <- !apply_skipn_nth by lia. rewrite Hr at 1. unfold nthZ at 1.
    rewrite (nth_map_lt (Z.mul d) _ v 0 0) by (rewrite suffix_prods_length, apply_length; lia). unfold nthZ. ring. }
  apply Z.le_antisymm.
  - assert (I : In (max_element (arr_mul (im_str m) (im_len m))) (arr_mul (im_str m) (im_len m))).
    { apply max_element_In. unfold arr_mul. destruct (im_str m); [simpl in Ls; lia|discriminate]. }
    apply arr_mul_In in I; [|exact Ls]. destruct I as [k [Hk ->]].
    destruct (is_perm_surj R (im_so m) k Hp ltac:(lia)) as [v [Hv <-]]. rewrite V by auto.
    destruct (suffix_prod_bound _ v H1' ltac:(rewrite apply_length; lia)) as [B _]. rewrite EP. nia.
  - replace (prodZ (im_len m) * d) with (nthZ (im_str m) (nthN (im_so m) 0) * nthZ (im_len m) (nthN (im_so m) 0)).
    + apply max_element_ge. apply arr_mul_In; [exact Ls|]. exists (nthN (im_so m) 0). split; auto.
      rewrite Ls. apply is_perm_lt; auto. lia.
    + rewrite V by lia. rewrite EP. pose proof (apply_length 0 (im_so m) (im_len m)) as La.
      destruct (apply 0 (im_so m) (im_len m)) as [|l len]; [simpl in La; lia|]. unfold nthZ; cbn [suffix_prods nth]. rewrite prodZ_cons. ring.
Qed.

Lemma is_contiguous_complete m : wf m -> regular 1 m -> is_contiguous m = true.
Proof.
  intros W H. unfold is_contiguous. destruct (Z.eqb_spec (size m) 0) as [E|E]; auto.
  apply Z.eqb_eq. rewrite (regular_max m 1); auto; lia.
Qed.
Lemma is_strided_1d_complete m : wf m -> 0 < min_stride m -> regular (min_stride m) m -> is_strided_1d m = true.
Proof.
  intros W Hd H. unfold is_strided_1d. destruct (Z.eqb_spec (size m) 0) as [E|E]; auto.
  apply Z.eqb_eq. now apply regular_max.
Qed.

(** the debug check of the stride order always passes *)
Lemma nested_nth len str i j : nested len str -> (i < j < length len)%nat -> 2 <= nthZ len j -> Z.abs (nthZ str j) <= Z.abs (nthZ str i).
Proof.
  revert str i j; induction len as [|l len IH]; intros [|s str] i j Hn Hij Hl; cbn [nested] in Hn; try tauto; [simpl in Hij; lia|].
  destruct Hn as (H1 & H2 & H3). destruct j as [|j]; [lia|]. simpl in Hij. unfold nthZ in *. destruct i as [|i]; cbn [nth] in *.
  - assert (G : Z.abs (nth j str 0) <= span len str); [|lia].
    assert (Hj : (j < length len)%nat) by lia. clear - H3 Hj Hl.
    revert str j H3 Hj Hl; induction len as [|l len IH]; intros [|s str] j Hn Hj Hl; cbn [nested] in Hn; try tauto; [simpl in Hj; lia|].
    destruct Hn as (H1 & H2 & H3). pose proof (span_nonneg _ _ H3). cbn [span]. destruct j as [|j]; cbn [nth] in *; [nia|].
    simpl in Hj. specialize (IH str j H3 ltac:(lia) Hl). nia.
  - apply IH; auto. lia.
Qed.

Lemma filter_positions (f : nat -> bool) (l : list nat) a b : (a < b < length (filter f l))%nat ->
  exists i j, (i < j < length l)%nat /\ nthN (filter f l) a = nthN l i /\ nthN (filter f l) b = nthN l j.
Proof.
  revert a b; induction l as [|x l IH]; intros a b H; [simpl in H; lia|].
  cbn [filter] in *. destruct (f x) eqn:E.
  - destruct b as [|b]; [lia|]. cbn [length] in H. destruct a as [|a].
    + assert (Hb : (b < length (filter f l))%nat) by lia.
      assert (exists j, (j < length l)%nat /\ nthN (filter f l) b = nthN l j) as [j [Hj Ej]].
      { pose proof (nth_In (filter f l) 0%nat Hb) as I. apply filter_In in I. destruct I as [I _].
        destruct (In_nth l _ 0%nat I) as [j [Hj Ej]]. exists j. split; auto. }
      exists 0%nat, (S j). cbn [length]. split; [lia|]. split; [reflexivity|]. exact Ej.
    + destruct (IH a b ltac:(lia)) as (i & j & Hij & E1 & E2). exists (S i), (S j). cbn [length]. split; [lia|]. split; auto.
  - destruct (IH a b H) as (i & j & Hij & E1 & E2). exists (S i), (S j). cbn [length]. split; [lia|]. split; auto.
Qed.

Lemma nested_stride_order_valid m : wf m -> nestedm m -> is_stride_order_valid m = true.
Proof.
  intros (Ls & Hp & Lse & Hnn & HR) Hn. unfold is_stride_order_valid. apply forallb_forall. intros k Hk. apply in_seq in Hk.
  set (dims := filter _ (im_so m)) in *. apply negb_true_iff, Z.ltb_ge.
  destruct (filter_positions (fun dim => 1 <? nthZ (im_len m) dim) (im_so m) (k - 1) k ltac:(unfold dims in *; lia)) as (i & j & Hij & E1 & E2).
  fold dims in E1, E2. rewrite E1, E2. rewrite <- !apply_skipn_nth by lia.
  apply (nested_nth _ _ i j Hn); [rewrite apply_length; lia|]. rewrite apply_skipn_nth by lia. rewrite <- E2.
  assert (I : In (nthN dims k) dims) by (apply nth_In; lia). apply (filter_In (fun dim => 1 <? nthZ (im_len m) dim)) in I. destruct I as [_ I]. apply Z.ltb_lt in I. lia.
Qed.

(** exact product strides from the meaning of the flags, when no extent is below 2 *)
Lemma dot_zeros n s : dot (repeat 0 n) s = 0.
Proof. revert s; induction n as [|n IH]; intros [|x s]; simpl; auto. Qed.

Lemma in_range_zeros len : Forall (fun l => 1 <= l) len -> in_range (repeat 0 (length len)) len.
Proof. induction 1 as [|l len Hl H IH]; simpl; constructor; auto. unfold inr; lia. Qed.

Lemma dot_separates len s t : Forall (fun l => 2 <= l) len -> length s = length len -> length t = length len ->
  (forall j, in_range j len -> dot j s = dot j t) -> s = t.
Proof.
  intros H; revert s t; induction H as [|l len Hl H IH]; intros [|x s] [|y t] Ls Lt E; try discriminate; auto.
  assert (H1 : Forall (fun l => 1 <= l) len) by (eapply Forall_impl; [|exact H]; simpl; lia).
  f_equal.
  - specialize (E (1 :: repeat 0 (length len)) ltac:(constructor; [unfold inr; lia|now apply in_range_zeros])).
    cbn [dot] in E. rewrite !dot_zeros in E. lia.
  - apply IH; auto. intros j Hj. specialize (E (0 :: j) ltac:(constructor; [unfold inr; lia|exact Hj])). cbn [dot] in E. lia.
Qed.

Lemma meaning_regular m d : wf m -> Forall (fun l => 2 <= l) (im_len m) ->
  (forall idx, valid_idx m idx -> addr m idx = d * seq_number (im_so m) (im_len m) idx) -> regular d m.
Proof.
  intros (Ls & Hp & Lse & Hnn & HR) H2 H. apply regular_apply. pose proof (is_perm_length _ _ Hp) as Lso.
  apply (dot_separates (apply 0 (im_so m) (im_len m))).
  - now apply (Forall_apply _ (length (im_len m))).
  - now rewrite !apply_length.
  - now rewrite map_length, suffix_prods_length.
  - intros j Hj. pose proof (in_range_length _ _ Hj) as Lj. rewrite apply_length, Lso in Lj.
    set (idx := apply_inverse 0 (im_so m) j).
    assert (Li : length idx = length (im_len m)) by (unfold idx; now rewrite apply_inverse_length).
    assert (Ej : apply 0 (im_so m) idx = j) by (apply (apply_apply_inverse 0 (length (im_len m))); auto).
    assert (Hi : valid_idx m idx).
    { apply (in_range_apply_iff (length (im_len m)) (im_so m)); auto. now rewrite Ej. }
    specialize (H idx Hi). unfold addr, seq_number in H. rewrite !in_order_apply, Ej in H.
    rewrite <- (dot_apply (length (im_len m)) (im_so m)), Ej in H by auto.
    rewrite dot_map_mul, H. rewrite dot_suffix_prods by (rewrite apply_length; lia). reflexivity.
Qed.

Lemma contiguous_exact m n off : view_of (fun s => 0 < s) n off m -> Forall (fun l => 2 <= l) (im_len m) ->
  (is_contiguous m = true <-> contiguous_true m).
Proof.
  intros Hv H2. pose proof (view_wf _ _ _ _ Hv) as W.
  assert (H1 : Forall (fun l => 1 <= l) (im_len m)) by (eapply Forall_impl; [|exact H2]; simpl; lia).
  split.
  - apply is_contiguous_sound; auto. intros _. split; [eapply view_nested; eauto|eapply view_positive; eauto].
  - intros H. apply is_contiguous_complete; auto. apply meaning_regular; auto. intros idx Hi. rewrite Z.mul_1_l. now apply H.
Qed.

Lemma contiguous_answer m n off : view_of (fun s => 0 < s) n off m -> is_contiguous m = true -> contiguous_true m.
Proof.
  intros Hv. pose proof (view_wf _ _ _ _ Hv) as W. apply is_contiguous_sound; auto. intros Hs. rewrite size_prodZ in Hs.
  pose proof W as (_ & _ & _ & Hnn & _). pose proof (prodZ_nonneg _ Hnn).
  assert (H1 : Forall (fun l => 1 <= l) (im_len m)).
  { eapply Forall_impl; [|apply prodZ_pos_Forall; auto; lia]. simpl; lia. }
  split; [eapply view_nested; eauto|eapply view_positive; eauto].
Qed.

Lemma strided_answer m n off : view_of (fun s => 0 < s) n off m -> Forall (fun s => (min_stride m | s)) (im_str m) ->
  is_strided_1d m = true -> strided_1d_true m.
Proof.
  intros Hv. pose proof (view_wf _ _ _ _ Hv) as W. apply is_strided_1d_sound; auto. intros Hs. rewrite size_prodZ in Hs.
  pose proof W as (_ & _ & _ & Hnn & _). pose proof (prodZ_nonneg _ Hnn).
  assert (H1 : Forall (fun l => 1 <= l) (im_len m)).
  { eapply Forall_impl; [|apply prodZ_pos_Forall; auto; lia]. simpl; lia. }
  split; [eapply view_nested; eauto|eapply view_positive; eauto].
Qed.

Lemma min_stride_pos n off m : view_of (fun s => 0 < s) n off m -> Forall (fun l => 1 <= l) (im_len m) -> 0 < min_stride m.
Proof.
  intros Hv H1. pose proof (view_positive _ _ _ Hv H1) as H. pose proof (view_wf _ _ _ _ Hv) as (Ls & Hp & Lse & Hnn & HR).
  unfold min_stride. rewrite Forall_forall in H. apply H. apply nth_In. rewrite Ls. apply is_perm_lt; auto. unfold rank; lia.
Qed.

Lemma strided_complete m n off : view_of (fun s => 0 < s) n off m -> Forall (fun l => 2 <= l) (im_len m) ->
  strided_1d_true m -> is_strided_1d m = true.
Proof.
  intros Hv H2 H. pose proof (view_wf _ _ _ _ Hv) as W.
  assert (H1 : Forall (fun l => 1 <= l) (im_len m)) by (eapply Forall_impl; [|exact H2]; simpl; lia).
  apply is_strided_1d_complete; auto.
  - eapply min_stride_pos; eauto.
  - apply meaning_regular; auto.
Qed.

Lemma view_to_idx n off m idx : view_of (fun s => 0 < s) n off m -> valid_idx m idx -> to_idx m (addr m idx) = Some idx.
Proof.
  intros Hv Hi. assert (H1 : Forall (fun l => 1 <= l) (im_len m)) by (eapply valid_pos; eauto).
  apply to_idx_inverse; auto.
  - eapply view_wf; eauto.
  - eapply view_nested; eauto.
  - eapply view_positive; eauto.
Qed.

(** fresh arrays: every position is reached *)
Lemma fresh_onto so se p junk shape pos :
  is_order (length shape) so -> length junk = length shape -> Forall (fun l => 0 <= l) shape ->
  0 <= pos < prodZ shape -> exists idx, valid_idx (idx_map_of_shape so se p junk shape) idx /\ addr (idx_map_of_shape so se p junk shape) idx = pos.
Proof.
  intros Ho Lj Hnn Hpos. pose proof (is_perm_length _ _ Ho) as Lso.
  assert (Hp : Forall (fun l => 0 < l) shape) by (apply prodZ_pos_Forall; auto; lia).
  assert (Hp' : Forall (fun l => 0 < l) (apply 0 so shape)) by (apply (Forall_apply _ (length shape)); auto).
  assert (EP : prodZ (apply 0 so shape) = prodZ shape) by (apply prodZ_perm; now apply (apply_Permutation 0 (length shape))).
  set (j := digits (apply 0 so shape) pos).
  assert (Hj : in_range j (apply 0 so shape)) by (apply digits_in_range; auto; lia).
  assert (Lj' : length j = length shape) by (unfold j; rewrite digits_length, apply_length; lia).
  exists (apply_inverse 0 so j).
  assert (Hv : valid_idx (idx_map_of_shape so se p junk shape) (apply_inverse 0 so j)).
  { unfold valid_idx, idx_map_of_shape; cbn [im_len]. apply (in_range_apply_iff (length shape) so); auto.
    - now rewrite apply_inverse_length.
    - now rewrite (apply_apply_inverse 0 (length shape)). }
  split; auto. rewrite (fresh_contiguous_true so se p junk shape Ho Lj _ Hv).
  unfold seq_number, idx_map_of_shape; cbn [im_len im_so]. rewrite !in_order_apply.
  rewrite (apply_apply_inverse 0 (length shape)) by auto. unfold j. apply radix_digits; auto. lia.
Qed.

(** composing permutations *)
Lemma apply_compose {A} (d : A) n p q a : is_perm n p -> is_perm n q -> apply d (compose p q) a = apply d q (apply d p a).
Proof.
  intros Hp Hq. rewrite !apply_as_map, compose_as_map, map_map. apply map_ext_in. intros k Hk.
  assert (Hk' : (k < length p)%nat) by (rewrite (is_perm_length _ _ Hp); now apply (is_perm_In n q k Hq)).
  symmetry. apply (nth_map_lt (fun k => nth k a d) p k d 0%nat Hk').
Qed.

Lemma apply_inverse_compose {A} (d : A) n p q a : is_perm n p -> is_perm n q -> length a = n ->
  apply_inverse d (compose p q) a = apply_inverse d p (apply_inverse d q a).
Proof.
  intros Hp Hq La. 
  rewrite <- (apply_inverse_apply d n (compose p q) (apply_inverse d p (apply_inverse d q a))) at 1.
  - f_equal. rewrite (apply_compose d n) by auto.
    rewrite (apply_apply_inverse d n p) by (auto; rewrite apply_inverse_length; now apply is_perm_length).
    symmetry. now apply (apply_apply_inverse d n).
  - now apply is_perm_compose.
  - rewrite apply_inverse_length. now apply is_perm_length.
Qed.

Lemma transpose_transpose p q m : wf m -> is_order (rank m) p -> is_order (rank m) q ->
  transpose p (transpose q m) = transpose (compose p q) m.
Proof.
  intros (Ls & Hp & Lse & Hnn & HR) Ho Hq. unfold transpose, rank in *; cbn [im_len im_str im_so im_se im_prop].
  rewrite !(apply_inverse_compose 0 (length (im_len m)) p q) by (auto; congruence).
  f_equal. apply (compose_assoc (length (im_len m))); auto.
Qed.

Lemma transpose_inverse_id p m : wf m -> is_order (rank m) p -> transpose (inverse p) (transpose p m) = m.
Proof.
  intros W Ho. rewrite transpose_transpose by (auto; now apply is_perm_inverse). rewrite (compose_inverse_l (rank m)) by auto.
  destruct W as (Ls & Hp & Lse & Hnn & HR). unfold transpose, rank in *.
  assert (G : forall l : list Z, length l = length (im_len m) -> apply_inverse 0 (identity (length (im_len m))) l = l).
  { intros l L. rewrite <- (apply_inverse_apply 0 (length (im_len m)) (identity (length (im_len m))) l) at 2; auto using is_perm_identity.
    f_equal. unfold apply, identity. rewrite seq_length. rewrite <- L. symmetry.
    etransitivity; [|apply (map_seq_nth l 0)]. apply map_ext_in. intros i Hi. apply in_seq in Hi. unfold nthN.
    now rewrite seq_nth by lia. }
  rewrite !G by auto. rewrite (compose_identity_l (length (im_len m))) by auto. now destruct m.
Qed.

(** slices of slices *)
Lemma slice_slice m args1 o1 m1 args2 o2 m2 j : wf m -> slice m args1 = Some (o1, m1) -> some_dim_left (rank m) args1 ->
  slice m1 args2 = Some (o2, m2) -> length j = rank m2 ->
  o1 + o2 + addr m2 j = addr m (parent_idx (expand_args (rank m) args1) (parent_idx (expand_args (rank m1) args2) j)).
Proof.
  intros W H1 HD H2 Hj. pose proof (slice_wf _ _ _ _ W H1 HD) as W1.
  rewrite <- Z.add_assoc, (slice_addr m1 args2 o2 m2 j W1 H2 Hj).
  apply slice_addr; auto. destruct (slice_inv _ _ _ H2) as [Hok E]. rewrite parent_idx_length; [now apply expand_args_length|].
  rewrite slice_impl_expand in E by auto. injection E as _ ->. unfold rank in *; cbn [im_len] in Hj.
  rewrite slice_len_length in Hj; auto. rewrite (expand_args_length _ _ Hok). reflexivity.
Qed.

(** access with bound check *)
Lemma call_args_ok (m : idx_map) (args : list carg) a b : (args = map CLong (a ++ b) \/ args = map CLong a ++ CEll :: map CLong b) ->
  length (a ++ b) = rank m ->
  args_ok (rank m) (map carg_arg args) /\ expand_args (rank m) (map carg_arg args) = map ALong (a ++ b).
Proof.
  assert (C0 : forall l, count_ell (map ALong l) = 0%nat) by (induction l; auto).
  intros [->| ->] L.
  - rewrite map_map. cbn [carg_arg]. change (map (fun x => ALong x) (a ++ b)) with (map ALong (a ++ b)). split.
    + left. split; auto. now rewrite map_length.
    + unfold expand_args. now apply expand_none.
  - rewrite map_app. cbn [map carg_arg]. rewrite !map_map. cbn [carg_arg].
    change (map (fun x => ALong x) a) with (map ALong a). change (map (fun x => ALong x) b) with (map ALong b).
    rewrite app_length in L. split.
    + right. split.
      * unfold count_ell. rewrite filter_app. cbn [filter is_ellipsis]. rewrite app_length. cbn [length].
        fold (count_ell (map ALong a)) (count_ell (map ALong b)). now rewrite !C0.
      * rewrite app_length. cbn [length]. rewrite !map_length. lia.
    + unfold expand_args. rewrite expand_some by auto. rewrite app_length. cbn [length]. rewrite !map_length.
      replace (rank m + 1 - (length a + S (length b)))%nat with 0%nat by lia. cbn [repeat app]. now rewrite map_app.
Qed.

Lemma call_checked_exact (m : idx_map) (args : list carg) a b : wf m -> (has_smallest_stride_is_one (im_prop m) = true -> smallest_one_true m) ->
  (args = map CLong (a ++ b) \/ args = map CLong a ++ CEll :: map CLong b) -> length (a ++ b) = rank m ->
  (valid_idx m (a ++ b) -> call_checked m args = Some (addr m (a ++ b))) /\
  (~ valid_idx m (a ++ b) -> call_checked m args = None).
Proof.
  intros W Hf Ha L. destruct (call_args_ok m args a b Ha L) as [Hok Hex].
  assert (NR : forall r, ~ In (ARange r) (map carg_arg args)).
  { intros r Hin. apply in_map_iff in Hin. destruct Hin as [[i|] [E _]]; discriminate. }
  assert (B : assert_in_bounds (rank m) (im_len m) (map carg_arg args) = true <-> valid_idx m (a ++ b)).
  { rewrite assert_in_bounds_exact; auto.
    - rewrite Hex. unfold args_in_bounds, valid_idx, in_range. clear. revert m. intros m. generalize (im_len m) as len. generalize (a ++ b) as l.
      clear. induction l as [|x l IH]; intros [|y len]; split; intros H; inversion H; subst; constructor; auto; now apply IH.
    - intros r Hr. now apply NR in Hr.
    - intros r Hr. now apply NR in Hr. }
  assert (EC : call_impl m args = addr m (a ++ b)).
  { destruct W as (Ls & _). unfold rank in L. destruct Ha as [->| ->]; [apply call_impl_longs|apply call_impl_ellipsis]; auto; congruence. }
  unfold call_checked. destruct (assert_in_bounds _ _ _) eqn:E; split; intros H.
  - now rewrite EC.
  - exfalso. apply H, B. reflexivity.
  - apply B in H. discriminate.
  - reflexivity.
Qed.

(** a slice accepted by the bound checker *)
Lemma slice_checked_inside m args o m' j : wf m -> steps_nonzero args -> no_minus_one_range args ->
  slice_checked m args = Some (o, m') -> valid_idx m' j ->
  exists i, valid_idx m i /\ o + addr m' j = addr m i.
Proof.
  intros W Hs Hm H Hj. unfold slice_checked in H. destruct (assert_in_bounds _ _ _) eqn:B; [|discriminate].
  destruct (slice_inv _ _ _ H) as [Hok _]. apply assert_in_bounds_exact in B; auto.
  exists (parent_idx (expand_args (rank m) args) j). split.
  - apply parent_idx_valid; auto using expand_no_ell. apply (slice_valid m args o m'); auto.
  - apply slice_addr; auto. now apply in_range_length in Hj.
Qed.
Lemma slice_checked_complete m args : wf m -> args_ok (rank m) args -> steps_nonzero args -> no_minus_one_range args ->
  (slice_checked m args <> None <-> args_in_bounds (expand_args (rank m) args) (im_len m)).
Proof.
  intros W Hok Hs Hm. unfold slice_checked. rewrite <- assert_in_bounds_exact by auto. destruct (assert_in_bounds _ _ _).
  - rewrite slice_some by auto. split; [reflexivity|discriminate].
  - split; [congruence|discriminate].
Qed.

Lemma n_kept_rank_after r args : n_kept (expand_args r args) = rank_after r args.
Proof.
  unfold rank_after. generalize (expand_args r args) as ex. induction ex as [|a ex IH]; [reflexivity|].
  rewrite n_kept_cons, IH. cbn [filter]. destruct a; reflexivity.
Qed.

Lemma slice_rank m args o m' : wf m -> slice m args = Some (o, m') -> rank m' = rank_after (rank m) args.
Proof.
  intros W HS. destruct (slice_inv _ _ _ HS) as [Hok E]. rewrite slice_impl_expand in E by auto. injection E as _ ->.
  unfold rank at 1; cbn [im_len]. rewrite slice_len_length by (rewrite (expand_args_length _ _ Hok); reflexivity). apply n_kept_rank_after.
Qed.

Lemma slices_chain l m o m' j : wf m -> slices m l = Some (o, m') -> chain_dims_left (rank m) l -> length j = rank m' ->
  o + addr m' j = addr m (chain_idx (rank m) l j) /\ length (chain_idx (rank m) l j) = rank m.
Proof.
  revert m o m' j; induction l as [|a l IH]; intros m o m' j W HS HD Hj; cbn [slices chain_idx chain_dims_left] in *.
  - injection HS as <- <-. rewrite Z.add_0_l. auto.
  - destruct HD as [HD1 HD2]. destruct (slice m a) as [[o1 m1]|] eqn:E1; [|discriminate].
    destruct (slices m1 l) as [[o2 m2]|] eqn:E2; [|discriminate]. injection HS as <- <-.
    pose proof (slice_rank _ _ _ _ W E1) as R1. rewrite <- R1 in *.
    destruct (IH m1 o2 m2 j (slice_wf _ _ _ _ W E1 HD1) E2 HD2 Hj) as [IH1 IH2].
    rewrite <- Z.add_assoc, IH1. split; [now apply slice_addr|].
    destruct (slice_inv _ _ _ E1) as [Hok _]. rewrite parent_idx_length; [now apply expand_args_length|].
    rewrite n_kept_rank_after. congruence.
Qed.

Lemma slice_so_spec m args o m' : wf m -> slice m args = Some (o, m') -> some_dim_left (rank m) args ->
  let ex := expand_args (rank m) args in
  let keep n := negb (is_long (nth n ex AAll)) in
  is_order (rank m') (im_so m') /\
  map (nthN (filter keep (seq 0 (rank m)))) (im_so m') = filter keep (im_so m).
Proof.
  intros W HS HD ex keep. pose proof (slice_wf _ _ _ _ W HS HD) as (_ & Ho & _). split; [exact Ho|].
  destruct (slice_inv _ _ _ HS) as [Hok E]. rewrite slice_impl_expand in E by auto. injection E as _ ->. cbn [im_so].
  pose proof (expand_args_length _ _ Hok) as Lex. fold ex in Lex |- *. destruct W as (Ls & Hp & _). unfold rank in *.
  assert (EK : filter keep (seq 0 (length (im_len m))) = kept ex).
  { unfold kept. rewrite Lex. apply filter_ext. intros n. unfold keep. now destruct (nth n ex AAll). }
  rewrite EK.
  destruct (sliced_order_map (im_so m) (length (im_len m)) (kept ex) Hp (kept_NoDup ex)) as [HM _].
  { intros n Hn. rewrite <- Lex. now apply kept_lt. }
  rewrite HM. apply filter_ext_in. intros n Hn.
  assert (Hlt : (n < length ex)%nat) by (rewrite Lex; now apply (is_perm_In _ (im_so m) n Hp)).
  unfold keep. destruct (is_range (nth n ex AAll)) eqn:E.
  - transitivity true; [apply existsb_exists; exists n; split; [now apply kept_In|apply Nat.eqb_refl]|now destruct (nth n ex AAll)].
  - transitivity false; [|now destruct (nth n ex AAll)]. apply not_true_is_false. intros C. apply existsb_exists in C.
    destruct C as [n' [H' E']]. apply Nat.eqb_eq in E'. subst n'. apply kept_In in H'; auto. congruence.
Qed.
