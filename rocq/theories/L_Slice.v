(** Lemmas about slicing (model M_Slice). *)
From Verif Require Import Base M_Perm L_Perm M_IdxMap M_Slice S_Layout L_IdxMap.

Definition desugar (a : arg) : arg := match a with AEll => AAll | _ => a end.

Lemma count_ell_0 args : count_ell args = 0%nat -> forall a, In a args -> is_ellipsis a = false.
Proof.
  unfold count_ell. induction args as [|x args IH]; intros H a Ha; [contradiction|].
  simpl in H. destruct (is_ellipsis x) eqn:E; [discriminate|]. destruct Ha as [<-|Ha]; auto.
Qed.

Lemma count_ell_1 args : count_ell args = 1%nat ->
  exists a b, args = a ++ AEll :: b /\ count_ell a = 0%nat /\ count_ell b = 0%nat.
Proof.
  unfold count_ell. induction args as [|x args IH]; intros H; [discriminate|].
  simpl in H. destruct (is_ellipsis x) eqn:E.
  - exists [], args. destruct x; try discriminate. simpl in H. repeat split; auto.
  - destruct (IH H) as (a & b & -> & Ha & Hb). exists (x :: a), b. repeat split; auto.
    simpl. now rewrite E.
Qed.

Lemma sumN_zero l : (forall x, In x l -> x = 0%nat) -> fold_right Nat.add 0%nat l = 0%nat.
Proof.
  induction l as [|x l IH]; intros H; simpl; auto.
  rewrite IH by (intros; apply H; now right). now rewrite (H x (or_introl eq_refl)).
Qed.

Lemma nth_not_ell args i : count_ell args = 0%nat -> is_ellipsis (nth i args AAll) = false.
Proof.
  intros H. destruct (Nat.ltb_spec i (length args)) as [Hi|Hi].
  - apply (count_ell_0 args H). now apply nth_In.
  - now rewrite nth_overflow.
Qed.

Lemma ellipsis_position_none args : count_ell args = 0%nat -> ellipsis_position args = 128%nat.
Proof.
  intros H. unfold ellipsis_position. rewrite sumN_zero; auto. intros x Hx. apply in_map_iff in Hx.
  destruct Hx as [i [<- Hi]]. now rewrite nth_not_ell.
Qed.

Lemma ellipsis_position_some a b : count_ell a = 0%nat -> count_ell b = 0%nat ->
  ellipsis_position (a ++ AEll :: b) = length a.
Proof.
  intros Ha Hb. unfold ellipsis_position. rewrite app_length. cbn [length].
  rewrite seq_app, map_app, fold_right_app. cbn [seq map fold_right].
  rewrite (sumN_zero (map _ (seq (S _) _))).
  2:{ intros x Hx. apply in_map_iff in Hx. destruct Hx as [i [<- Hi]]. apply in_seq in Hi.
      rewrite app_nth2 by lia. replace (i - length a)%nat with (S (i - length a - 1)) by lia. cbn [nth].
      now rewrite nth_not_ell. }
  rewrite app_nth2 by lia. replace (0 + length a - length a)%nat with 0%nat by lia. cbn [nth is_ellipsis].
  assert (E : forall (g : nat -> nat) k l, (forall i, In i l -> g i = 0%nat) -> fold_right Nat.add k (map g l) = k).
  { intros g k l. induction l as [|i l IH]; intros H; simpl; auto. rewrite H by now left. rewrite IH; auto. intros; apply H; now right. }
  rewrite E.
  - replace (0 + length a + 1 + 0)%nat with (S (length a)) by lia. cbn [Nat.eqb]. lia.
  - intros i Hi. apply in_seq in Hi. rewrite app_nth1 by lia. now rewrite nth_not_ell.
Qed.

Lemma expand_none k args : count_ell args = 0%nat -> expand k args = args.
Proof.
  unfold count_ell. induction args as [|x args IH]; intros H; simpl; auto. simpl in H.
  destruct x; simpl in *; try discriminate; rewrite IH; auto.
Qed.

Lemma expand_some k a b : count_ell a = 0%nat -> expand k (a ++ AEll :: b) = a ++ repeat AAll k ++ b.
Proof.
  unfold count_ell. induction a as [|x a IH]; intros H; simpl; auto. simpl in H.
  destruct x; simpl in *; try discriminate; rewrite IH; auto.
Qed.

Lemma expand_args_length N args : args_ok N args -> length (expand_args N args) = N.
Proof.
  unfold expand_args. intros [[H0 HL]|[H1 HL]].
  - now rewrite expand_none.
  - destruct (count_ell_1 _ H1) as (a & b & -> & Ha & Hb). rewrite expand_some by auto.
    rewrite app_length in HL. cbn [length] in HL. rewrite !app_length, repeat_length. cbn [length]. lia.
Qed.

Lemma desugar_id a : is_ellipsis a = false -> desugar a = a.
Proof. destruct a; simpl; congruence. Qed.

Lemma arg_of_n N args n : args_ok N args -> (N < 16)%nat -> (n < N)%nat ->
  desugar (nth (q_of_n n (ellipsis_position args) (N + 1 - length args)) args AAll) = nth n (expand_args N args) AAll.
Proof.
  unfold expand_args. intros [[H0 HL]|[H1 HL]] HN Hn.
  - rewrite expand_none, ellipsis_position_none by auto. unfold q_of_n.
    replace (Nat.ltb n 128) with true by (symmetry; apply Nat.ltb_lt; lia). apply desugar_id. now apply nth_not_ell.
  - destruct (count_ell_1 _ H1) as (a & b & -> & Ha & Hb).
    rewrite expand_some, ellipsis_position_some by auto.
    rewrite app_length in *. cbn [length] in *. unfold q_of_n.
    set (e := (N + 1 - (length a + S (length b)))%nat).
    destruct (Nat.ltb_spec n (length a)) as [H|H].
    { rewrite !app_nth1 by auto. apply desugar_id. now apply nth_not_ell. }
    destruct (Nat.ltb_spec n (length a + e)) as [H'|H'].
    { rewrite !app_nth2 by lia. rewrite Nat.sub_diag. cbn [nth desugar].
      rewrite app_nth1 by (rewrite repeat_length; lia).
      generalize (n - length a)%nat as i, e as k. clear. intros i k. revert i; induction k as [|k IH]; intros [|i]; simpl; auto. }
    rewrite !app_nth2 by (rewrite ?repeat_length; lia). rewrite repeat_length.
    replace (n + 1 - e - length a)%nat with (S (n - length a - e)) by lia. cbn [nth].
    apply desugar_id. now apply nth_not_ell.
Qed.

Lemma expand_no_ell N args : args_ok N args -> count_ell (expand_args N args) = 0%nat.
Proof.
  unfold expand_args. intros [[H0 HL]|[H1 HL]].
  - now rewrite expand_none.
  - destruct (count_ell_1 _ H1) as (a & b & -> & Ha & Hb). rewrite expand_some by auto.
    set (k := (N + 1 - length (a ++ AEll :: b))%nat). unfold count_ell in *. rewrite !filter_app, !app_length, Ha, Hb.
    assert (E : filter is_ellipsis (repeat AAll k) = []) by (induction k; auto). rewrite E. reflexivity.
Qed.

(** ** functions of a fully expanded argument list *)
Definition kept (ex : list arg) : list nat := filter (fun n => is_range (nth n ex AAll)) (seq 0 (length ex)).

Fixpoint slice_off (ex : list arg) (str : list Z) : Z :=
  match ex, str with a :: ex', s :: str' => get_offset a s + slice_off ex' str' | _, _ => 0 end.
Fixpoint slice_len (ex : list arg) (len : list Z) : list Z :=
  match ex, len with
  | a :: ex', l :: len' => if is_range a then get_l a l :: slice_len ex' len' else slice_len ex' len'
  | _, _ => []
  end.
Fixpoint slice_str (ex : list arg) (str : list Z) : list Z :=
  match ex, str with
  | a :: ex', s :: str' => if is_range a then get_s a s :: slice_str ex' str' else slice_str ex' str'
  | _, _ => []
  end.
Fixpoint slice_se (ex : list arg) (se : list Z) : list Z :=
  match ex, se with
  | a :: ex', e :: se' => if is_range a then (if is_range_all a then e else 0) :: slice_se ex' se' else slice_se ex' se'
  | _, _ => []
  end.

Lemma kept_cons a ex : kept (a :: ex) = (if is_range a then [0%nat] else []) ++ map S (kept ex).
Proof.
  unfold kept. cbn [length seq filter]. rewrite <- seq_shift. change (nth 0 (a :: ex) AAll) with a.
  assert (E : filter (fun n => is_range (nth n (a :: ex) AAll)) (map S (seq 0 (length ex)))
            = map S (filter (fun n => is_range (nth n ex AAll)) (seq 0 (length ex)))).
  { generalize (seq 0 (length ex)) as l. induction l as [|x l IH]; auto. cbn [map filter]. rewrite IH.
    change (nth (S x) (a :: ex) AAll) with (nth x ex AAll). destruct (is_range (nth x ex AAll)); auto. }
  rewrite E. destruct (is_range a); reflexivity.
Qed.

Lemma map_kept_len ex len : length ex = length len ->
  map (fun n => get_l (nth n ex AAll) (nthZ len n)) (kept ex) = slice_len ex len.
Proof.
  revert len; induction ex as [|a ex IH]; intros [|l len] H; try discriminate; auto.
  rewrite kept_cons, map_app, map_map. cbn [slice_len]. rewrite <- (IH len) by (simpl in H; lia).
  destruct (is_range a); reflexivity.
Qed.
Lemma map_kept_str ex len : length ex = length len ->
  map (fun n => get_s (nth n ex AAll) (nthZ len n)) (kept ex) = slice_str ex len.
Proof.
  revert len; induction ex as [|a ex IH]; intros [|l len] H; try discriminate; auto.
  rewrite kept_cons, map_app, map_map. cbn [slice_str]. rewrite <- (IH len) by (simpl in H; lia).
  destruct (is_range a); reflexivity.
Qed.
Lemma map_kept_se ex len : length ex = length len ->
  map (fun n => if is_range_all (nth n ex AAll) then nthZ len n else 0) (kept ex) = slice_se ex len.
Proof.
  revert len; induction ex as [|a ex IH]; intros [|l len] H; try discriminate; auto.
  rewrite kept_cons, map_app, map_map. cbn [slice_se]. rewrite <- (IH len) by (simpl in H; lia).
  destruct (is_range a); reflexivity.
Qed.
Lemma sum_offset ex str : length ex = length str ->
  sumZ (map (fun n => get_offset (nth n ex AAll) (nthZ str n)) (seq 0 (length ex))) = slice_off ex str.
Proof.
  revert str; induction ex as [|a ex IH]; intros [|l len] H; try discriminate; auto.
  cbn [length seq map]. rewrite sumZ_cons, <- seq_shift, map_map. cbn [slice_off]. rewrite <- (IH len) by (simpl in H; lia).
  reflexivity.
Qed.

Lemma get_offset_desugar a s : get_offset (desugar a) s = get_offset a s. Proof. destruct a; auto. Qed.
Lemma get_l_desugar a s : get_l (desugar a) s = get_l a s. Proof. destruct a; auto. Qed.
Lemma get_s_desugar a s : get_s (desugar a) s = get_s a s. Proof. destruct a; auto. Qed.
Lemma is_range_desugar a : is_range (desugar a) = is_range a. Proof. destruct a; auto. Qed.
Lemma is_range_all_desugar a : is_range_all (desugar a) = is_range_all a. Proof. destruct a; auto. Qed.
Lemma is_long_desugar a : is_long (desugar a) = is_long a. Proof. destruct a; auto. Qed.

Lemma map_seq_nthN {A} (f : nat -> A) (l : list nat) : map (fun p => f (nthN l p)) (seq 0 (length l)) = map f l.
Proof. transitivity (map f (map (nthN l) (seq 0 (length l)))); [now rewrite map_map|]. f_equal. apply map_seq_nth. Qed.

Lemma forallb_only N args : args_ok N args ->
  forallb (fun a => is_long a || is_range_all a) args = forallb (fun a => is_long a || is_range_all a) (expand_args N args).
Proof.
  unfold expand_args. intros [[H0 HL]|[H1 HL]].
  - now rewrite expand_none.
  - destruct (count_ell_1 _ H1) as (a & b & -> & Ha & Hb). rewrite expand_some by auto.
    rewrite !forallb_app. f_equal. cbn [forallb is_long is_range_all orb andb].
    set (k := (N + 1 - length (a ++ AEll :: b))%nat). clearbody k. clear.
    induction k as [|k IHk]; simpl; auto.
Qed.

(** layout property of the slice, in terms of the expanded arguments *)
Definition exp_prop (ex : list arg) (so : list nat) (lp : layout_prop) : layout_prop :=
  if negb (forallb (fun a => is_long a || is_range_all a) ex) then
    if Nat.eqb (length (kept ex)) 1 then LP_strided_1d else LP_none
  else
    let st := fold_left (fun st n => let cur := is_range_all (nth n ex AAll) in
                         ((if cur && negb (snd st) then S (fst st) else fst st), cur)) so (0%nat, false) in
    if has_contiguous lp && Nat.leb (fst st) 1 && snd st then LP_contiguous else
    if has_strided_1d lp && Nat.leb (fst st) 1 then LP_strided_1d else
    if has_smallest_stride_is_one lp && snd st then LP_smallest_one else LP_none.

Lemma fold_left_ext_in {A B} (f g : A -> B -> A) l a : (forall x y, In y l -> f x y = g x y) -> fold_left f l a = fold_left g l a.
Proof. revert a; induction l as [|y l IH]; intros a H; simpl; auto. rewrite H by now left. apply IH. intros; apply H; now right. Qed.

Lemma slice_impl_expand m args : wf m -> args_ok (rank m) args ->
  let ex := expand_args (rank m) args in
  slice_impl m args = (slice_off ex (im_str m),
    IdxMap (slice_len ex (im_len m)) (slice_str ex (im_str m)) (sliced_mem_stride_order (im_so m) (kept ex))
           (slice_se ex (im_se m)) (exp_prop ex (im_so m) (im_prop m))).
Proof.
  intros (Ls & Hp & Lse & Hnn & HR) Hok ex. pose proof (expand_args_length _ _ Hok) as Lex. fold ex in Lex.
  assert (A : forall n, (n < rank m)%nat -> desugar (nth (q_of_n n (ellipsis_position args) (rank m + 1 - length args)) args AAll) = nth n ex AAll).
  { intros n Hn. apply arg_of_n; auto. unfold rank; lia. }
  assert (K : n_of_p_map (rank m) args (ellipsis_position args) (rank m + 1 - length args) = kept ex).
  { unfold n_of_p_map, kept. rewrite Lex. apply filter_ext_in. intros n Hn. apply in_seq in Hn.
    rewrite <- A by lia. now rewrite is_range_desugar. }
  assert (KL : forall n, In n (kept ex) -> (n < rank m)%nat).
  { intros n Hn. unfold kept in Hn. apply filter_In in Hn. destruct Hn as [Hn _]. apply in_seq in Hn. lia. }
  unfold slice_impl. cbn zeta. unfold q_of_p_map. rewrite K. f_equal; [|f_equal].
  - rewrite <- sum_offset by (rewrite Lex; unfold rank; lia). rewrite Lex. f_equal. apply map_ext_in. intros n Hn.
    apply in_seq in Hn. rewrite <- A by lia. now rewrite get_offset_desugar.
  - rewrite <- map_kept_len by (rewrite Lex; reflexivity).
    etransitivity; [|apply map_seq_nthN]. apply map_ext_in. intros p Hin. apply in_seq in Hin.
    rewrite <- A by (apply KL; apply nth_In; lia). rewrite get_l_desugar. unfold nthN at 1.
    rewrite (nth_map_lt _ (kept ex) p 0%nat 0%nat) by lia. reflexivity.
  - rewrite <- map_kept_str by (rewrite Lex; unfold rank; lia).
    etransitivity; [|apply map_seq_nthN]. apply map_ext_in. intros p Hin. apply in_seq in Hin.
    rewrite <- A by (apply KL; apply nth_In; lia). rewrite get_s_desugar. unfold nthN at 1.
    rewrite (nth_map_lt _ (kept ex) p 0%nat 0%nat) by lia. reflexivity.
  - rewrite <- map_kept_se by (rewrite Lex; unfold rank; lia).
    etransitivity; [|apply map_seq_nthN]. apply map_ext_in. intros p Hin. apply in_seq in Hin.
    rewrite <- A by (apply KL; apply nth_In; lia). rewrite is_range_all_desugar. unfold nthN at 1.
    rewrite (nth_map_lt _ (kept ex) p 0%nat 0%nat) by lia. reflexivity.
  - unfold slice_layout_prop, exp_prop. rewrite (forallb_only (rank m)) by auto. fold ex.
    destruct (negb _); auto. cbn zeta. 
    rewrite (fold_left_ext_in (blocks_step args (ellipsis_position args) (rank m + 1 - length args))
      (fun st n => let cur := is_range_all (nth n ex AAll) in ((if cur && negb (snd st) then S (fst st) else fst st), cur))); auto.
    intros st n Hn. unfold blocks_step. rewrite <- A.
    + now rewrite is_range_all_desugar.
    + apply (is_perm_In (rank m) (im_so m)); auto.
Qed.

Lemma slice_some m args : args_ok (rank m) args -> slice m args = Some (slice_impl m args).
Proof.
  intros H. unfold slice. destruct H as [[H0 HL]|[H1 HL]].
  - rewrite H0, HL. cbn [Nat.leb negb]. replace (Nat.leb (rank m) (rank m + 1)) with true by (symmetry; apply Nat.leb_le; lia).
    rewrite Nat.eqb_refl. reflexivity.
  - rewrite H1. cbn [Nat.leb negb Nat.eqb orb]. replace (Nat.leb (length args) (rank m + 1)) with true by (symmetry; apply Nat.leb_le; lia).
    reflexivity.
Qed.

Lemma slice_inv m args r : slice m args = Some r -> args_ok (rank m) args /\ r = slice_impl m args.
Proof.
  unfold slice. destruct (Nat.leb_spec (count_ell args) 1) as [H1|H1]; cbn [negb]; [|discriminate].
  destruct (Nat.leb_spec (length args) (rank m + 1)) as [H2|H2]; cbn [negb]; [|discriminate].
  destruct (Nat.eqb_spec (count_ell args) 1) as [H3|H3]; cbn [orb negb].
  - intros [= <-]. split; auto. right; auto.
  - destruct (Nat.eqb_spec (length args) (rank m)) as [H4|H4]; cbn [negb]; [|discriminate].
    intros [= <-]. split; auto. left. split; auto. lia.
Qed.

(** ** values *)
Lemma range_size_spec r x : r_step r <> 0 -> 0 <= x ->
  (x < range_size r <-> if 0 <? r_step r then r_first r + x * r_step r < r_last r else r_first r + x * r_step r > r_last r).
Proof.
  intros Hs Hx. unfold range_size. destruct (Z.ltb_spec 0 (r_step r)) as [H|H].
  - assert (E : x < (r_last r - r_first r + r_step r - 1) / r_step r <-> r_first r + x * r_step r < r_last r).
    { set (q := (r_last r - r_first r + r_step r - 1) / r_step r).
      pose proof (Z.div_mod (r_last r - r_first r + r_step r - 1) (r_step r) ltac:(lia)) as Hd. fold q in Hd.
      pose proof (Z.mod_pos_bound (r_last r - r_first r + r_step r - 1) (r_step r) H). nia. }
    lia.
  - replace (r_step r <? 0) with true by (symmetry; lia).
    assert (E : x < (r_first r - r_last r + - r_step r - 1) / - r_step r <-> r_first r + x * r_step r > r_last r).
    { set (q := (r_first r - r_last r + - r_step r - 1) / - r_step r).
      pose proof (Z.div_mod (r_first r - r_last r + - r_step r - 1) (- r_step r) ltac:(lia)) as Hd. fold q in Hd.
      pose proof (Z.mod_pos_bound (r_first r - r_last r + - r_step r - 1) (- r_step r) ltac:(lia)). nia. }
    lia.
Qed.

Lemma range_size_nonneg r : 0 <= range_size r.
Proof. unfold range_size. destruct (0 <? r_step r); [lia|]. destruct (r_step r <? 0); lia. Qed.

Lemma in_range_arg_spec r l x : r_step r <> 0 -> (in_range_arg r l x <-> 0 <= x < get_l (ARange r) l).
Proof.
  intros Hs. unfold in_range_arg, get_l. split.
  - intros [Hx H]. split; auto.
    destruct ((r_last r =? -1) && (0 <? r_step r)) eqn:E; apply range_size_spec; cbn [r_first r_last r_step]; auto.
    apply andb_prop in E. destruct E as [_ ->]. auto.
  - intros [Hx H]. split; auto.
    destruct ((r_last r =? -1) && (0 <? r_step r)) eqn:E; apply range_size_spec in H; cbn [r_first r_last r_step] in *; auto.
    apply andb_prop in E. destruct E as [_ E]. rewrite E in H. auto.
Qed.

Lemma view_pos_spec ex len j : length ex = length len -> steps_nonzero ex ->
  (view_pos ex len j <-> in_range j (slice_len ex len)).
Proof.
  revert len j; induction ex as [|a ex IH]; intros [|l len] j H Hs; try discriminate.
  - simpl. split; [intros ->; constructor|]. intros H'; inversion H'; auto.
  - assert (IH' : forall j', view_pos ex len j' <-> in_range j' (slice_len ex len)).
    { intros j'. apply IH; [simpl in H; lia|]. intros r Hr. apply Hs. now right. }
    destruct a; cbn [view_pos slice_len is_range].
    + apply IH'.
    + destruct j as [|x j]; [split; [tauto|intros H'; inversion H']|]. rewrite IH'.
      rewrite in_range_arg_spec by (apply Hs; now left).
      split; [intros [H1 H2]; constructor; auto|]. intros H'; inversion H'; subst; split; auto.
    + destruct j as [|x j]; [split; [tauto|intros H'; inversion H']|]. rewrite IH'.
      split; [intros [H1 H2]; constructor; auto|]. intros H'; inversion H'; subst; split; auto.
    + destruct j as [|x j]; [split; [tauto|intros H'; inversion H']|]. rewrite IH'.
      split; [intros [H1 H2]; constructor; auto|]. intros H'; inversion H'; subst; split; auto.
Qed.

Definition n_kept (ex : list arg) : nat := length (kept ex).

Lemma slice_str_length ex str : length ex = length str -> length (slice_str ex str) = n_kept ex.
Proof. intros. unfold n_kept. now rewrite <- map_kept_str, map_length. Qed.
Lemma slice_len_length ex len : length ex = length len -> length (slice_len ex len) = n_kept ex.
Proof. intros. unfold n_kept. now rewrite <- map_kept_len, map_length. Qed.
Lemma slice_se_length ex se : length ex = length se -> length (slice_se ex se) = n_kept ex.
Proof. intros. unfold n_kept. now rewrite <- map_kept_se, map_length. Qed.

Lemma n_kept_cons a ex : n_kept (a :: ex) = ((if is_range a then 1 else 0) + n_kept ex)%nat.
Proof. unfold n_kept. rewrite kept_cons, app_length, map_length. destruct (is_range a); reflexivity. Qed.

Lemma slice_dot ex str j : length ex = length str -> length j = n_kept ex ->
  slice_off ex str + dot j (slice_str ex str) = dot (parent_idx ex j) str.
Proof.
  revert str j; induction ex as [|a ex IH]; intros [|s str] j H Hj; try discriminate.
  - simpl. rewrite dot_nil_r. reflexivity.
  - rewrite n_kept_cons in Hj. assert (H' : length ex = length str) by (simpl in H; lia).
    destruct a; cbn [slice_off slice_str parent_idx is_range get_offset get_s] in *.
    + cbn [dot]. rewrite <- IH by auto. ring.
    + destruct j as [|x j]; [discriminate|]. cbn [dot]. rewrite <- IH by (simpl in Hj; auto). ring.
    + destruct j as [|x j]; [discriminate|]. cbn [dot]. rewrite <- IH by (simpl in Hj; auto). ring.
    + destruct j as [|x j]; [discriminate|]. cbn [dot]. rewrite <- IH by (simpl in Hj; auto). ring.
Qed.

Lemma parent_idx_length ex j : length j = n_kept ex -> length (parent_idx ex j) = length ex.
Proof.
  revert j; induction ex as [|a ex IH]; intros j Hj; auto. rewrite n_kept_cons in Hj.
  destruct a; cbn [parent_idx is_range length] in *.
  - now rewrite IH.
  - destruct j as [|x j]; [discriminate|]. cbn [length]. rewrite IH; simpl in *; lia.
  - destruct j as [|x j]; [discriminate|]. cbn [length]. rewrite IH; simpl in *; lia.
  - destruct j as [|x j]; [discriminate|]. cbn [length]. rewrite IH; simpl in *; lia.
Qed.

(** ** stride order of the slice *)
Lemma p_of_n_map_spec N K : NoDup K -> (forall n, In n K -> (n < N)%nat) ->
  (forall p, (p < length K)%nat -> nth (nthN K p) (p_of_n_map N K) None = Some p) /\
  (forall n, ~ In n K -> nth n (p_of_n_map N K) None = None).
Proof.
  intros ND HB. unfold p_of_n_map. split.
  - intros p Hp. apply (scatter_hit K (fun p => Some p)).
    + apply seq_NoDup.
    + apply in_seq; lia.
    + intros v Hv E. apply in_seq in Hv. apply (proj1 (NoDup_nth K 0%nat) ND); auto; lia.
    + rewrite repeat_length. apply HB. apply nth_In. lia.
  - intros n Hn. rewrite (scatter_other K (fun p => Some p)).
    + apply nth_repeat_any.
    + intros u Hu E. apply in_seq in Hu. apply Hn. rewrite <- E. apply nth_In. lia.
Qed.

Definition posn (K : list nat) (n : nat) : nat :=
  match find (fun p => Nat.eqb (nthN K p) n) (seq 0 (length K)) with Some p => p | None => 0%nat end.

Lemma posn_spec K n : In n K -> (posn K n < length K)%nat /\ nthN K (posn K n) = n.
Proof.
  intros H. unfold posn. destruct (find _ _) as [p|] eqn:E.
  - apply find_some in E. destruct E as [Hp E]. apply in_seq in Hp. apply Nat.eqb_eq in E. split; auto; lia.
  - destruct (In_nth K n 0%nat H) as [p [Hp E']].
    assert (In p (seq 0 (length K))) as HI by (apply in_seq; lia).
    pose proof (find_none _ _ E p HI) as F. cbn in F. apply Nat.eqb_neq in F. exfalso. apply F. exact E'.
Qed.

Lemma sliced_order_map so N K : is_perm N so -> NoDup K -> (forall n, In n K -> (n < N)%nat) ->
  map (nthN K) (sliced_mem_stride_order so K) = filter (fun n => existsb (Nat.eqb n) K) so /\
  Forall (fun p => (p < length K)%nat) (sliced_mem_stride_order so K).
Proof.
  intros Hp ND HB. unfold sliced_mem_stride_order. rewrite (is_perm_length _ _ Hp).
  destruct (p_of_n_map_spec N K ND HB) as [S1 S2].
  generalize so as l. induction l as [|n l [IH IHF]]; [split; [reflexivity|constructor]|].
  cbn [flat_map filter]. destruct (existsb (Nat.eqb n) K) eqn:E.
  - apply existsb_exists in E. destruct E as [n' [Hn' E]]. apply Nat.eqb_eq in E. subst n'.
    destruct (posn_spec K n Hn') as [Hlt Hn]. pose proof (S1 _ Hlt) as S. rewrite Hn in S. rewrite S. cbn [app map].
    split; [rewrite IH, Hn; reflexivity|]. constructor; auto.
  - assert (Hn : ~ In n K).
    { intros C. assert (existsb (Nat.eqb n) K = true); [|congruence]. apply existsb_exists. exists n. split; auto. apply Nat.eqb_refl. }
    rewrite (S2 _ Hn). cbn [app]. split; auto.
Qed.

Lemma sliced_order_perm so N K : is_perm N so -> NoDup K -> (forall n, In n K -> (n < N)%nat) ->
  is_perm (length K) (sliced_mem_stride_order so K).
Proof.
  intros Hp ND HB. destruct (sliced_order_map so N K Hp ND HB) as [HM HF].
  set (s := sliced_mem_stride_order so K) in *.
  assert (P1 : Permutation (map (nthN K) s) K).
  { rewrite HM. apply NoDup_Permutation.
    - apply NoDup_filter. now apply (is_perm_NoDup N).
    - exact ND.
    - intros n. rewrite filter_In, existsb_exists. split.
      + intros [_ [x [Hx E]]]. apply Nat.eqb_eq in E. now subst.
      + intros Hn. split; [apply (is_perm_In N so n Hp); auto|]. exists n. split; auto. apply Nat.eqb_refl. }
  assert (NDs : NoDup s).
  { apply (NoDup_map_inv (nthN K)). apply Permutation_NoDup with (l := K); auto. now symmetry. }
  apply NoDup_Permutation_bis; auto.
  - rewrite seq_length. apply Permutation_length in P1. rewrite map_length in P1. lia.
  - intros x Hx. apply in_seq. rewrite Forall_forall in HF. specialize (HF x Hx). lia.
Qed.

Lemma kept_NoDup ex : NoDup (kept ex).
Proof. apply NoDup_filter, seq_NoDup. Qed.
Lemma kept_lt ex n : In n (kept ex) -> (n < length ex)%nat.
Proof. intros H. apply filter_In in H. destruct H as [H _]. apply in_seq in H. lia. Qed.
Lemma kept_In ex n : (n < length ex)%nat -> (In n (kept ex) <-> is_range (nth n ex AAll) = true).
Proof. intros H. unfold kept. rewrite filter_In, in_seq. split; [tauto|]. intros; split; auto; lia. Qed.

Lemma some_dim_n_kept N args : some_dim_left N args -> n_kept (expand_args N args) <> 0%nat.
Proof.
  intros (a & Ha & Hl). destruct (In_nth _ a AAll Ha) as [n [Hn E]]. unfold n_kept.
  assert (I : In n (kept (expand_args N args))).
  { apply kept_In; auto. rewrite E. destruct a; auto. }
  destruct (kept (expand_args N args)); [contradiction|discriminate].
Qed.

Lemma expand_In N args a : args_ok N args -> In a (expand_args N args) -> a <> AAll -> In a args.
Proof.
  intros Hok Hr Hn. unfold expand_args in Hr. destruct Hok as [[H0 HL]|[H1 HL]].
  - now rewrite expand_none in Hr.
  - destruct (count_ell_1 _ H1) as (x & y & -> & Ha & Hb). rewrite expand_some in Hr by auto.
    apply in_or_app. apply in_app_or in Hr. destruct Hr as [Hr|Hr]; auto. right. right.
    apply in_app_or in Hr. destruct Hr as [Hr|Hr]; auto. apply repeat_spec in Hr. congruence.
Qed.

Lemma slice_wf m args off m' : wf m -> slice m args = Some (off, m') ->
  some_dim_left (rank m) args -> wf m'.
Proof.
  intros W HS HD. apply some_dim_n_kept in HD. rename HD into HK. destruct (slice_inv _ _ _ HS) as [Hok E]. rewrite slice_impl_expand in E by auto. injection E as -> ->.
  destruct W as (Ls & Hp & Lse & Hnn & HR). pose proof (expand_args_length _ _ Hok) as Lex. unfold rank in *.
  set (ex := expand_args _ args) in *. unfold wf; cbn [im_len im_str im_so im_se].
  rewrite slice_len_length, slice_str_length, slice_se_length by lia. repeat split; try reflexivity.
  - apply sliced_order_perm with (N := length (im_len m)); auto using kept_NoDup. intros n Hn. rewrite <- Lex. now apply kept_lt.
  - clear - Hnn Lex. revert Hnn Lex. generalize (im_len m) as len. induction ex as [|a ex IH]; intros [|l len] Hnn L; try discriminate; constructor || idtac.
    inversion Hnn as [|l' len' Hl Hnn']; subst. cbn [slice_len]. specialize (IH _ Hnn' ltac:(simpl in L; lia)).
    destruct (is_range a); auto. constructor; auto. destruct a; cbn [get_l]; auto; try lia. apply range_size_nonneg.
  - lia.
  - unfold n_kept, kept. pose proof (filter_length_le' (fun n => is_range (nth n ex AAll)) (seq 0 (length ex))). rewrite seq_length in *. lia.
Qed.

(** main address lemma *)
Lemma slice_addr m args off m' j : wf m -> slice m args = Some (off, m') -> length j = rank m' ->
  off + addr m' j = addr m (parent_idx (expand_args (rank m) args) j).
Proof.
  intros W HS Hj. destruct (slice_inv _ _ _ HS) as [Hok E]. rewrite slice_impl_expand in E by auto. injection E as -> ->.
  destruct W as (Ls & Hp & Lse & Hnn & HR). pose proof (expand_args_length _ _ Hok) as Lex. unfold rank in *.
  unfold addr; cbn [im_str im_len] in *. rewrite slice_len_length in Hj by lia. apply slice_dot; auto. lia.
Qed.

Lemma slice_valid m args off m' j : wf m -> slice m args = Some (off, m') -> steps_nonzero args ->
  (valid_idx m' j <-> view_pos (expand_args (rank m) args) (im_len m) j).
Proof.
  intros W HS Hs. destruct (slice_inv _ _ _ HS) as [Hok E]. rewrite slice_impl_expand in E by auto. injection E as -> ->.
  destruct W as (Ls & Hp & Lse & Hnn & HR). pose proof (expand_args_length _ _ Hok) as Lex. unfold rank in *.
  unfold valid_idx; cbn [im_len]. symmetry. apply view_pos_spec; auto.
  intros r Hr. apply Hs. eapply expand_In; eauto. discriminate.
Qed.

(** ** bounds *)
Definition bc_ok (a : arg) (l : Z) : bool :=
  match a with
  | ALong key => negb ((key <? 0) || (l <=? key))
  | AAll | AEll => true
  | ARange r => if 0 <? range_size r then
        let last_idx := r_first r + (range_size r - 1) * r_step r in
        negb ((r_first r <? 0) || (l <=? r_first r) || (last_idx <? 0) || (l <=? last_idx))
      else true
  end.

Lemma bc_f_step lengths loss N err a : 0 <= N < 31 -> 0 <= err < 2 ^ N -> is_ellipsis a = false ->
  exists err', bc_f lengths loss (N, err) a = (N + 1, err') /\ 0 <= err' < 2 ^ (N + 1) /\
    (err' = 0 <-> err = 0 /\ bc_ok a (nthZ lengths (Z.to_nat N)) = true).
Proof.
  intros HN He Ha.
  assert (Hp : 2 ^ (N + 1) = 2 * 2 ^ N) by (rewrite Z.pow_add_r by lia; lia).
  assert (Hb : 2 ^ (N + 1) <= 2 ^ 32) by (apply Z.pow_le_mono_r; lia).
  assert (Em : (err + 2 ^ N) mod 2 ^ 32 = err + 2 ^ N) by (apply Z.mod_small; lia).
  unfold bc_f. rewrite Em. unfold bc_ok. destruct a as [key|r| |]; try discriminate.
  - destruct ((key <? 0) || _); eexists; (split; [reflexivity|]); cbn [negb]; split; try lia;
      split; try lia; intros [? ?]; try discriminate; lia.
  - destruct (0 <? range_size r).
    + cbn zeta. destruct (_ || _ || _ || _); eexists; (split; [reflexivity|]); cbn [negb]; split; try lia;
      split; try lia; intros [? ?]; try discriminate; lia.
    + eexists; split; [reflexivity|]. split; [lia|]. split; [intros; split; auto|tauto].
  - eexists; split; [reflexivity|]. split; [lia|]. split; [intros; split; auto|tauto].
Qed.

Lemma bc_fold lengths loss args N err : count_ell args = 0%nat -> 0 <= N -> N + Z.of_nat (length args) <= 31 -> 0 <= err < 2 ^ N ->
  exists err', fold_left (bc_f lengths loss) args (N, err) = (N + Z.of_nat (length args), err') /\
    0 <= err' < 2 ^ (N + Z.of_nat (length args)) /\
    (err' = 0 <-> err = 0 /\ forall i, (i < length args)%nat -> bc_ok (nth i args AAll) (nthZ lengths (Z.to_nat N + i)) = true).
Proof.
  revert N err; induction args as [|a args IH]; intros N err H0 HN HL He.
  - exists err. cbn [fold_left length]. rewrite Nat2Z.inj_0, Z.add_0_r. split; auto. split; auto. split; [|tauto].
    intros; split; auto. intros; lia.
  - cbn [fold_left length] in *. assert (Ha : is_ellipsis a = false) by (apply (count_ell_0 (a :: args)); auto; now left).
    destruct (bc_f_step lengths loss N err a ltac:(lia) He Ha) as (e1 & E1 & B1 & I1). rewrite E1.
    assert (H0' : count_ell args = 0%nat) by (unfold count_ell in *; simpl in H0; rewrite Ha in H0; exact H0).
    destruct (IH (N + 1) e1 H0' ltac:(lia) ltac:(lia) B1) as (e2 & E2 & B2 & I2).
    exists e2. rewrite E2. replace (N + 1 + Z.of_nat (length args)) with (N + Z.of_nat (S (length args))) in * by lia.
    split; auto. split; auto. rewrite I2, I1. replace (Z.to_nat (N + 1)) with (S (Z.to_nat N)) by lia. split.
    + intros [[Hz Hk] Hr]. split; auto. intros [|i] Hi.
      * rewrite Nat.add_0_r. exact Hk.
      * cbn [nth]. rewrite <- (Hr i) by lia. do 2 f_equal. lia.
    + intros [Hz Hr]. split; [split; auto|].
      * specialize (Hr 0%nat ltac:(lia)). rewrite Nat.add_0_r in Hr. exact Hr.
      * intros i Hi. specialize (Hr (S i) ltac:(lia)). cbn [nth] in Hr. rewrite <- Hr. do 2 f_equal. lia.
Qed.

Lemma assert_in_bounds_iff N len args : args_ok N args -> (N < 16)%nat ->
  (assert_in_bounds N len args = true <->
   forall n, (n < N)%nat -> bc_ok (nth n (expand_args N args) AAll) (nthZ len n) = true).
Proof.
  intros Hok HN. unfold assert_in_bounds. rewrite Z.eqb_eq. unfold expand_args. destruct Hok as [[H0 HL]|[H1 HL]].
  - rewrite expand_none by auto.
    destruct (bc_fold len (Z.of_nat N - Z.of_nat (length args)) args 0 0 H0 ltac:(lia) ltac:(lia) ltac:(lia)) as (e & E & B & I).
    rewrite E. cbn [snd]. rewrite I, HL. split; [intros [_ H]|intros H; split]; auto.
  - destruct (count_ell_1 _ H1) as (a & b & -> & Ha & Hb). rewrite expand_some by auto.
    rewrite fold_left_app. cbn [fold_left].
    assert (Lab : (length (a ++ AEll :: b) = length a + S (length b))%nat) by (rewrite app_length; reflexivity).
    set (k := (N + 1 - length (a ++ AEll :: b))%nat). set (loss := Z.of_nat N - Z.of_nat (length (a ++ AEll :: b))).
    destruct (bc_fold len loss a 0 0 Ha ltac:(lia) ltac:(lia) ltac:(lia)) as (e & E & B & I). rewrite E.
    cbn [bc_f]. set (N1 := 0 + Z.of_nat (length a) + (loss + 1)).
    assert (HN1 : Z.to_nat N1 = (length a + k)%nat) by (unfold N1, loss, k; lia).
    assert (0 <= N1) by (unfold N1, loss; lia).
    assert (Hk : Z.of_nat k = loss + 1) by (unfold k, loss; lia).
    destruct (bc_fold len loss b N1 e Hb ltac:(lia) ltac:(unfold N1, loss; lia)) as (e2 & E2 & B2 & I2).
    { split; [lia|]. eapply Z.lt_le_trans; [apply B|]. apply Z.pow_le_mono_r; unfold N1; lia. }
    rewrite E2. cbn [snd]. rewrite I2, I. rewrite HN1. clear E E2 I I2 B B2. split.
    + intros [[_ HA] HB] n Hn. destruct (Nat.ltb_spec n (length a)) as [Hlt|Hge].
      { rewrite app_nth1 by auto. specialize (HA n Hlt). exact HA. }
      rewrite app_nth2 by auto. destruct (Nat.ltb_spec (n - length a) k) as [Hlt|Hge'].
      { rewrite app_nth1 by (rewrite repeat_length; auto). now rewrite nth_repeat_any. }
      rewrite app_nth2 by (rewrite repeat_length; lia). rewrite repeat_length.
      specialize (HB (n - length a - k)%nat ltac:(unfold k in *; lia)).
      replace (length a + k + (n - length a - k))%nat with n in HB by lia. exact HB.
    + intros H'. split; [split; auto|].
      * intros i Hi. specialize (H' i ltac:(lia)). rewrite app_nth1 in H' by auto. exact H'.
      * intros i Hi. specialize (H' (length a + k + i)%nat ltac:(unfold k; lia)).
        rewrite app_nth2 in H' by lia. rewrite app_nth2 in H' by (rewrite repeat_length; lia).
        rewrite repeat_length in H'. replace (length a + k + i - length a - k)%nat with i in H' by lia. exact H'.
Qed.

Lemma between_in_bounds f s n l x : 0 <= f < l -> 0 <= f + (n - 1) * s < l -> 0 <= x < n -> 0 <= f + x * s < l.
Proof. intros H1 H2 Hx. destruct (Z_le_gt_dec 0 s); nia. Qed.

Lemma bc_ok_exact a l : 0 <= l -> (forall r, a = ARange r -> r_step r <> 0 /\ ~ (r_first r = -1 /\ r_last r = -1 /\ 0 < r_step r)) ->
  (bc_ok a l = true <-> arg_in_bounds a l).
Proof.
  intros Hl Hr. destruct a as [i|r| |]; cbn [bc_ok arg_in_bounds]; try tauto.
  - lia.
  - destruct (Hr r eq_refl) as [Hs Hno]. clear Hr.
    assert (Spec : forall x, in_range_arg r l x <-> 0 <= x < get_l (ARange r) l) by (intros; now apply in_range_arg_spec).
    destruct ((r_last r =? -1) && (0 <? r_step r)) eqn:E.
    + apply andb_prop in E. destruct E as [E1 E2]. apply Z.eqb_eq in E1. apply Z.ltb_lt in E2.
      assert (F0 : r_first r <> -1) by (intros C; apply Hno; auto).
      destruct (Z_lt_le_dec (r_first r) 0) as [Hneg|Hpos].
      * assert (0 < range_size r) as P.
        { apply range_size_spec; auto; [lia|]. replace (0 <? r_step r) with true by (symmetry; lia). lia. }
        replace (0 <? range_size r) with true by (symmetry; lia). cbn zeta.
        replace (r_first r <? 0) with true by (symmetry; lia). cbn [orb negb]. split; [discriminate|].
        intros C. specialize (C 0). assert (in_range_arg r l 0); [|specialize (C H); lia].
        unfold in_range_arg. rewrite E1. replace (0 <? r_step r) with true by (symmetry; lia). change (-1 =? -1) with true. cbn [andb]. split; lia.
      * assert (~ 0 < range_size r) as P.
        { intros C. apply range_size_spec in C; auto; [|lia]. replace (0 <? r_step r) with true in C by (symmetry; lia). lia. }
        replace (0 <? range_size r) with false by (symmetry; lia). split; auto. intros _ x [Hx Hx2].
        rewrite E1 in Hx2. replace (0 <? r_step r) with true in Hx2 by (symmetry; lia). change (-1 =? -1) with true in Hx2. cbn [andb] in Hx2. nia.
    + assert (G : get_l (ARange r) l = range_size r) by (cbn [get_l]; rewrite E; destruct r; reflexivity).
      rewrite G in Spec. destruct (Z.ltb_spec 0 (range_size r)) as [P|P]; cbn zeta.
      * split.
        -- intros H x Hx. apply Spec in Hx. apply between_in_bounds with (n := range_size r); lia.
        -- intros H. pose proof (H 0 ltac:(apply Spec; lia)). pose proof (H (range_size r - 1) ltac:(apply Spec; lia)). lia.
      * split; auto. intros _ x Hx. apply Spec in Hx. lia.
Qed.

Lemma nth_In_arg ex n r : nth n ex AAll = ARange r -> In (ARange r) ex.
Proof.
  intros E. destruct (Nat.ltb_spec n (length ex)) as [H|H].
  - rewrite <- E. now apply nth_In.
  - rewrite nth_overflow in E by auto. discriminate.
Qed.

Lemma assert_in_bounds_exact m args : wf m -> args_ok (rank m) args -> steps_nonzero args -> no_minus_one_range args ->
  (assert_in_bounds (rank m) (im_len m) args = true <-> args_in_bounds (expand_args (rank m) args) (im_len m)).
Proof.
  intros (Ls & Hp & Lse & Hnn & HR) Hok Hs Hm. pose proof (expand_args_length _ _ Hok) as Lex.
  rewrite assert_in_bounds_iff by (auto; unfold rank; lia). unfold args_in_bounds.
  rewrite (Forall2_nth _ _ _ AAll 0). rewrite Lex.
  assert (B : forall n, (n < rank m)%nat -> bc_ok (nth n (expand_args (rank m) args) AAll) (nthZ (im_len m) n) = true <->
              arg_in_bounds (nth n (expand_args (rank m) args) AAll) (nthZ (im_len m) n)).
  { intros n Hn. apply bc_ok_exact.
    - rewrite Forall_forall in Hnn. apply Hnn. apply nth_In. exact Hn.
    - intros r Er. apply nth_In_arg in Er. apply (expand_In _ _ _ Hok) in Er; [|discriminate]. split; [now apply Hs|now apply Hm]. }
  split.
  - intros H. split; auto. intros n Hn. apply B; auto.
  - intros [_ H] n Hn. apply B; auto. now apply H.
Qed.

(** view positions of in-bounds arguments are parent positions *)
Lemma parent_idx_valid ex len j : args_in_bounds ex len -> count_ell ex = 0%nat -> view_pos ex len j -> in_range (parent_idx ex j) len.
Proof.
  intros H. revert j; induction H as [|a l ex len Ha H IH]; intros j H0 Hv; [constructor|].
  assert (Hne : is_ellipsis a = false) by (apply (count_ell_0 (a :: ex)); auto; now left).
  assert (H0' : count_ell ex = 0%nat) by (unfold count_ell in *; simpl in H0; rewrite Hne in H0; exact H0).
  destruct a; try discriminate; cbn [view_pos parent_idx arg_in_bounds] in *.
  - constructor; [exact Ha|]. now apply IH.
  - destruct j as [|x j]; [tauto|]. destruct Hv as [Hx Hv]. constructor; [now apply Ha|]. now apply IH.
  - destruct j as [|x j]; [tauto|]. destruct Hv as [Hx Hv]. constructor; [exact Hx|]. now apply IH.
Qed.
