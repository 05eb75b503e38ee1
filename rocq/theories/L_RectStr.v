(** Lemmas about layouts with string labels. *)
From Coq Require Import String Ascii DecimalString DecimalFacts DecimalNat Decimal.
From Verif Require Import Base M_Perm L_Perm M_IdxMap M_Slice S_Layout L_IdxMap L_Slice L_Layout M_RectStr S_RectStr.
Local Open Scope list_scope.

(** ** decimal writing *)
Lemma digits_ok u : all_digits (NilEmpty.string_of_uint u) = true.
Proof. induction u; cbn [NilEmpty.string_of_uint all_digits]; auto. Qed.

Lemma value_ok u : forall acc, value_from acc (NilEmpty.string_of_uint u) = Nat.of_uint_acc u acc.
Proof.
  induction u as [|u IH|u IH|u IH|u IH|u IH|u IH|u IH|u IH|u IH|u IH]; intros acc; [reflexivity|..];
    cbn [NilEmpty.string_of_uint value_from Nat.of_uint_acc]; rewrite IH; f_equal; rewrite Nat.tail_mul_spec;
    match goal with |- context [nat_of_ascii ?c] => let v := eval vm_compute in (nat_of_ascii c) in change (nat_of_ascii c) with v end; lia.
Qed.

Lemma to_string_writes n : writes (to_string n) n.
Proof.
  unfold to_string, writes. split; [apply digits_ok|]. split.
  - rewrite value_ok. change (Nat.of_uint_acc (Nat.to_uint n) 0) with (Nat.of_uint (Nat.to_uint n)). apply Unsigned.of_to.
  - pose proof (Unsigned.to_of (Nat.to_uint n)) as H. rewrite Unsigned.of_to in H.
    destruct (Nat.to_uint n) as [|u|u|u|u|u|u|u|u|u|u]; cbn [NilEmpty.string_of_uint]; try discriminate.
    intros _. symmetry in H. destruct u as [|u|u|u|u|u|u|u|u|u|u]; try reflexivity;
      exfalso; revert H; unfold unorm; cbn [nzhead]; intros H; try discriminate.
    pose proof (f_equal nb_digits H) as E.
    assert (nb_digits (match nzhead u with Nil => zero | _ => nzhead u end) <= S (nb_digits u))%nat.
    { pose proof (DecimalFacts.nb_digits_nzhead u) as Hz. destruct (nzhead u); cbn [nb_digits] in *; lia. }
    cbn [nb_digits] in E. destruct (nzhead u); cbn [nb_digits] in *; lia.
Qed.

Lemma digits_uint s : all_digits s = true -> exists u, NilEmpty.string_of_uint u = s.
Proof.
  induction s as [|c s IH]; intros H; [exists Nil; reflexivity|]. cbn [all_digits] in H. apply andb_prop in H. destruct H as [Hc H].
  destruct (IH H) as [u Hu]. destruct c as [b0 b1 b2 b3 b4 b5 b6 b7].
  destruct b0, b1, b2, b3, b4, b5, b6, b7; try discriminate Hc.
  all: (exists (D0 u); cbn [NilEmpty.string_of_uint]; rewrite Hu; reflexivity) ||
       (exists (D1 u); cbn [NilEmpty.string_of_uint]; rewrite Hu; reflexivity) ||
       (exists (D2 u); cbn [NilEmpty.string_of_uint]; rewrite Hu; reflexivity) ||
       (exists (D3 u); cbn [NilEmpty.string_of_uint]; rewrite Hu; reflexivity) ||
       (exists (D4 u); cbn [NilEmpty.string_of_uint]; rewrite Hu; reflexivity) ||
       (exists (D5 u); cbn [NilEmpty.string_of_uint]; rewrite Hu; reflexivity) ||
       (exists (D6 u); cbn [NilEmpty.string_of_uint]; rewrite Hu; reflexivity) ||
       (exists (D7 u); cbn [NilEmpty.string_of_uint]; rewrite Hu; reflexivity) ||
       (exists (D8 u); cbn [NilEmpty.string_of_uint]; rewrite Hu; reflexivity) ||
       (exists (D9 u); cbn [NilEmpty.string_of_uint]; rewrite Hu; reflexivity).
Qed.

Lemma writes_to_string s n : writes s n -> s = to_string n.
Proof.
  intros (Hd & Hv & Hz). destruct (digits_uint s Hd) as [u Hu]. subst s. unfold to_string. f_equal.
  rewrite value_ok in Hv. change (Nat.of_uint u = n) in Hv. rewrite <- Hv, Unsigned.to_of. symmetry.
  destruct u as [|u|u|u|u|u|u|u|u|u|u]; try reflexivity; [destruct Hz|].
  specialize (Hz eq_refl). destruct u; try discriminate. reflexivity.
Qed.

Lemma to_string_inj a b : to_string a = to_string b -> a = b.
Proof. intros H. destruct (to_string_writes a) as (_ & Ha & _). destruct (to_string_writes b) as (_ & Hb & _). rewrite <- Ha, <- Hb, H. reflexivity. Qed.

(** ** labels *)
Lemma default_length len : length (default_indices len) = length len.
Proof. unfold default_indices. now rewrite map_length, seq_length. Qed.

Lemma default_nth len d : (d < length len)%nat -> nth d (default_indices len) [] = map to_string (seq 0 (Z.to_nat (nthZ len d))).
Proof. intros H. unfold default_indices. now rewrite nth_map_seq by exact H. Qed.

Lemma default_each m : wf m -> one_label_each m (default_indices (im_len m)).
Proof.
  intros (_ & _ & _ & Hnn & _). unfold one_label_each. apply (nth_ext_len 0).
  - now rewrite map_length, default_length.
  - rewrite map_length, default_length. intros i Hi. rewrite (nth_map_lt _ _ _ 0 []) by now rewrite default_length.
    rewrite default_nth, map_length, seq_length by exact Hi. rewrite Z2Nat.id; [reflexivity|].
    rewrite Forall_forall in Hnn. apply Hnn. now apply nth_In_len.
Qed.

Lemma labels_default x ls : wf (rs_map x) -> rs_ind x = None -> (labels_of x ls <-> ls = default_indices (im_len (rs_map x))).
Proof.
  intros (_ & _ & _ & Hnn & _) E. unfold labels_of. rewrite E. unfold rank. rewrite Forall_forall in Hnn. split.
  - intros [L H]. apply (nth_ext_len []); [now rewrite default_length|]. intros d Hd. rewrite L in Hd. rewrite default_nth by exact Hd.
    destruct (H d Hd) as [H1 H2]. apply (nth_ext_len EmptyString); [rewrite map_length, seq_length; lia|].
    intros k Hk. rewrite (writes_to_string _ _ (H2 k Hk)). rewrite (nth_map_lt _ _ _ _ 0%nat) by (rewrite seq_length; lia).
    rewrite seq_nth by lia. reflexivity.
  - intros ->. split; [apply default_length|]. intros d Hd. rewrite default_nth, map_length, seq_length by exact Hd.
    split; [rewrite Z2Nat.id; [reflexivity|apply Hnn; now apply nth_In_len]|].
    intros k Hk. rewrite (nth_map_lt _ _ _ _ 0%nat), seq_nth by (rewrite ?seq_length; exact Hk). apply to_string_writes.
Qed.

Lemma get_labels x ls : wf_str x -> labels_of x ls -> get_string_indices x = (ls, RectStr (rs_map x) (Some ls)) /\ one_label_each (rs_map x) ls.
Proof.
  intros (W & _ & H) HL. unfold get_string_indices. destruct (rs_ind x) as [ind|] eqn:E.
  - assert (ls = ind) by (unfold labels_of in HL; now rewrite E in HL). subst ind. split; [|exact H]. destruct x; cbn in *. now rewrite E.
  - apply (labels_default x ls W E) in HL. subst ls. split; [reflexivity|now apply default_each].
Qed.

(** what the object is after some look-ups *)
Definition after (x : rect_str) (ls : list (list string)) (args : list sarg) : rect_str :=
  if existsb (fun a => match a with SStr _ => true | SArg _ => false end) args then RectStr (rs_map x) (Some ls) else x.

Lemma find_first l s i : first_at l s i -> find_pos s l = Z.to_nat i.
Proof.
  intros (_ & He & Hf). revert He Hf. generalize (Z.to_nat i) as k. intros k. revert k.
  induction l as [|y l IH]; intros [|k] He Hf; try discriminate; cbn [find_pos].
  - injection He as ->. destruct (string_dec s s); [reflexivity|contradiction].
  - destruct (string_dec y s) as [->|_]; [exfalso; exact (Hf 0%nat ltac:(lia) eq_refl)|]. f_equal. apply IH; [exact He|].
    intros j Hj. exact (Hf (S j) ltac:(lia)).
Qed.

Lemma find_missing l s : ~ In s l -> find_pos s l = length l.
Proof.
  induction l as [|y l IH]; intros H; [reflexivity|]. cbn [find_pos length]. destruct (string_dec y s) as [->|_]; [exfalso; apply H; now left|].
  f_equal. apply IH. intros Hs. apply H. now right.
Qed.

Lemma find_lt l s : In s l -> (find_pos s l < length l)%nat.
Proof.
  induction l as [|y l IH]; intros H; [destruct H|]. cbn [find_pos length]. destruct (string_dec y s); [lia|].
  destruct H as [->|H]; [contradiction|]. specialize (IH H). lia.
Qed.

Lemma labels_again x ls : labels_of (RectStr (rs_map x) (Some ls)) ls.
Proof. reflexivity. Qed.

Lemma wf_again x ls : wf_str x -> one_label_each (rs_map x) ls -> wf_str (RectStr (rs_map x) (Some ls)).
Proof. intros (W & Hf & _) H. split; [exact W|]. split; [exact Hf|exact H]. Qed.

Lemma skipn_tl {A} (l : list A) n : tl (skipn n l) = skipn (S n) l.
Proof. revert l; induction n as [|n IH]; intros [|y l]; try reflexivity. cbn [skipn]. rewrite IH. reflexivity. Qed.

Lemma skipn_hd {A} (d : A) (l : list A) n : hd d (skipn n l) = nth n l d.
Proof. revert l; induction n as [|n IH]; intros [|y l]; try reflexivity. cbn [skipn nth]. apply IH. Qed.

Lemma peel_ok args : forall x ls pos l, wf_str x -> labels_of x ls -> (pos + length args <= length ls)%nat ->
  resolved (skipn pos ls) args l -> peel_all x pos args = (Ok l, after x ls args).
Proof.
  induction args as [|a args IH]; intros x ls pos l W HL Hp HR; cbn [peel_all].
  - destruct l; [reflexivity|destruct HR].
  - destruct a as [s|a]; cbn [peel_string].
    + destruct l as [|[i| | |] l]; try destruct HR. cbn [resolved] in H, H0. destruct (get_labels x ls W HL) as [-> He].
      assert (Hlen : (pos < length ls)%nat) by (cbn [length] in Hp; lia).
      rewrite (nth_error_nth' ls [] Hlen). rewrite skipn_hd in H. rewrite (find_first _ _ _ H).
      destruct H as (Hi & Hn & Hf). assert (Hlt : (Z.to_nat i < length (nth pos ls []))%nat) by (apply nth_error_Some; congruence).
      destruct (Nat.eqb_spec (Z.to_nat i) (length (nth pos ls []))) as [E|_]; [lia|].
      rewrite (IH (RectStr (rs_map x) (Some ls)) ls (S pos) l (wf_again x ls W He) (labels_again x ls) ltac:(cbn [length] in Hp; lia)); [|now rewrite <- skipn_tl].
      rewrite Z2Nat.id by exact Hi. unfold after. cbn [existsb orb rs_map]. destruct (existsb _ args); reflexivity.
    + destruct l as [|b l]; [destruct HR|]. cbn [resolved] in HR. destruct HR as [-> HR]. rewrite skipn_tl in HR.
      rewrite (IH x ls (S pos) l W HL ltac:(cbn [length] in Hp; lia) HR). unfold after. cbn [existsb orb]. reflexivity.
Qed.

Lemma peel_unknown args : forall x ls pos, wf_str x -> labels_of x ls -> (pos + length args <= length ls)%nat ->
  (exists d s, nth_error args d = Some (SStr s) /\ ~ In s (nth (pos + d) ls [])) ->
  exists x', peel_all x pos args = (Throws, x') /\ rs_map x' = rs_map x /\ labels_of x' ls.
Proof.
  induction args as [|a args IH]; intros x ls pos W HL Hp (d & s & Hd & Hs); [destruct d; discriminate|].
  assert (Hlen : (pos < length ls)%nat) by (cbn [length] in Hp; lia). cbn [peel_all]. destruct a as [s0|a]; cbn [peel_string].
  - destruct (get_labels x ls W HL) as [-> He]. rewrite (nth_error_nth' ls [] Hlen).
    destruct (Nat.eqb_spec (find_pos s0 (nth pos ls [])) (length (nth pos ls []))) as [E|E].
    + exists (RectStr (rs_map x) (Some ls)). auto using labels_again.
    + destruct d as [|d].
      * cbn [nth_error] in Hd. injection Hd as ->. rewrite Nat.add_0_r in Hs. exfalso. apply E. now apply find_missing.
      * destruct (IH (RectStr (rs_map x) (Some ls)) ls (S pos) (wf_again x ls W He) (labels_again x ls) ltac:(cbn [length] in Hp; lia)) as (x' & E1 & E2 & E3).
        { exists d, s. split; [exact Hd|]. now replace (S pos + d)%nat with (pos + S d)%nat by lia. }
        rewrite E1. exists x'. auto.
  - destruct d as [|d]; [discriminate|].
    destruct (IH x ls (S pos) W HL ltac:(cbn [length] in Hp; lia)) as (x' & E1 & E2 & E3).
    { exists d, s. split; [exact Hd|]. now replace (S pos + d)%nat with (pos + S d)%nat by lia. }
    rewrite E1. exists x'. auto.
Qed.

Lemma after_map x ls args : rs_map (after x ls args) = rs_map x.
Proof. unfold after. destruct (existsb _ args); reflexivity. Qed.

Lemma after_labels x ls args : labels_of x ls -> labels_of (after x ls args) ls.
Proof. intros H. unfold after. destruct (existsb _ args); [reflexivity|exact H]. Qed.

Lemma labels_length x ls : wf_str x -> labels_of x ls -> length ls = rank (rs_map x).
Proof. intros W HL. destruct (get_labels x ls W HL) as [_ He]. unfold rank. rewrite <- He. now rewrite map_length. Qed.

Lemma labels_nth x ls d : wf_str x -> labels_of x ls -> (d < rank (rs_map x))%nat -> Z.of_nat (length (nth d ls [])) = nthZ (im_len (rs_map x)) d.
Proof.
  intros W HL Hd. pose proof (labels_length x ls W HL) as L. destruct (get_labels x ls W HL) as [_ He]. rewrite <- He. unfold nthZ.
  now rewrite (nth_map_lt _ _ _ 0 []) by lia.
Qed.

Lemma resolved_length ls args l : resolved ls args l -> length l = length args.
Proof.
  revert ls l; induction args as [|[s|a] args IH]; intros ls l H; destruct l as [|b l]; cbn [resolved] in H; try contradiction; auto; cbn [length].
  - destruct b; try contradiction. destruct H as [H1 H2]. f_equal. eauto.
  - destruct H as [H1 H2]. f_equal. eauto.
Qed.

Lemma cargs_longs idx : cargs (map ALong idx) = Some (map CLong idx).
Proof. induction idx as [|i idx IH]; [reflexivity|]. cbn [map cargs]. now rewrite IH. Qed.

(** ** slicing the labels *)
Lemma read_all_ok l pos : Forall (fun p => 0 <= p < Z.of_nat (length l)) pos ->
  read_all l pos = Ok (map (fun p => nth (Z.to_nat p) l EmptyString) pos).
Proof.
  induction pos as [|p pos IH]; intros H; [reflexivity|]. inversion H as [|p' pos' Hp H']; subst. cbn [read_all map].
  destruct (Z.ltb_spec p 0); [lia|]. destruct (Z.leb_spec (Z.of_nat (length l)) p); [lia|]. cbn [orb]. now rewrite (IH H').
Qed.

(** position of the parent that is position [k] of the slice *)
Definition parent_pos (y : arg) (k : Z) : Z := match y with ARange r => r_first r + k * r_step r | _ => k end.
Definition sliced (y : arg) (l : list string) : list string :=
  map (fun k => nth (Z.to_nat (parent_pos y (Z.of_nat k))) l EmptyString) (seq 0 (Z.to_nat (get_l y (Z.of_nat (length l))))).

Lemma one_expand y : is_long y = false -> expand_args 1 [y] = [desugar y].
Proof. destruct y; reflexivity || discriminate. Qed.

Lemma slice_labels_read l y : is_long y = false -> (forall r, y = ARange r -> r_step r <> 0) ->
  slice_labels l y = read_all l (map (fun k => parent_pos y (Z.of_nat k)) (seq 0 (Z.to_nat (get_l y (Z.of_nat (length l)))))).
Proof.
  intros Hy Hs. unfold slice_labels. set (m1 := idx_map_of_shape [0%nat] [0] LP_contiguous [0] [Z.of_nat (length l)]).
  assert (W1 : wf m1).
  { apply fresh_wf; try reflexivity; [apply perm_check_ok; reflexivity|repeat constructor; lia|cbn; lia]. }
  assert (F1 : flags_true m1).
  { apply fresh_flags; try reflexivity; [apply perm_check_ok; reflexivity|repeat constructor; lia|cbn; lia]. }
  assert (Hok : args_ok (rank m1) [y]) by (destruct y; cbn; unfold args_ok, count_ell; cbn; lia).
  assert (Hd : some_dim_left (rank m1) [y]).
  { exists (desugar y). change (rank m1) with 1%nat. rewrite one_expand by exact Hy. split; [now left|]. now rewrite is_long_desugar. }
  assert (Hst : steps_nonzero [y]) by (intros r [->|[]]; now apply Hs).
  rewrite (slice_some m1 [y] Hok). destruct (slice_impl m1 [y]) as [off m'] eqn:E.
  assert (HS : slice m1 [y] = Some (off, m')) by (rewrite (slice_some m1 [y] Hok), E; reflexivity).
  pose proof (slice_wf m1 [y] off m' W1 HS Hd) as W'. pose proof (slice_flags m1 [y] off m' W1 HS Hd F1) as F'.
  assert (EL : im_len m' = [get_l y (Z.of_nat (length l))]).
  { rewrite slice_impl_expand in E by auto. injection E as _ <-. cbn [im_len]. change (rank m1) with 1%nat. rewrite one_expand by exact Hy.
    cbn [slice_len]. change (im_len m1) with [Z.of_nat (length l)]. cbn [slice_len]. rewrite is_range_desugar, get_l_desugar.
    destruct y; try reflexivity; discriminate. }
  rewrite EL. change (nthZ [get_l y (Z.of_nat (length l))] 0) with (get_l y (Z.of_nat (length l))).
  assert (EA : forall k, off + call_impl m' [CLong k] = parent_pos y k).
  { intros k. change [CLong k] with (map CLong [k]).
    destruct W' as (L' & _). rewrite call_impl_longs; [|rewrite L', EL; reflexivity|exact (proj2 F')].
    change (off + addr m' [k] = parent_pos y k). rewrite (slice_addr m1 [y] off m' [k] W1 HS ltac:(unfold rank; now rewrite EL)).
    change (rank m1) with 1%nat. rewrite one_expand by exact Hy. unfold addr. change (im_str m1) with [1].
    destruct y; cbn [desugar parent_idx dot parent_pos]; try lia. discriminate. }
  f_equal. apply map_ext. intros k. now rewrite EA.
Qed.

Lemma slice_labels_ok l y : is_long y = false -> (forall r, y = ARange r -> r_step r <> 0) -> arg_in_bounds y (Z.of_nat (length l)) ->
  slice_labels l y = Ok (sliced y l).
Proof.
  intros Hy Hs Hb. rewrite slice_labels_read by assumption. rewrite read_all_ok.
  - unfold sliced. now rewrite map_map.
  - rewrite Forall_forall. intros p Hp. apply in_map_iff in Hp. destruct Hp as (k & <- & Hk). apply in_seq in Hk.
    destruct y as [i|r| |]; cbn [parent_pos]; [discriminate| |cbn [get_l] in Hk; lia|cbn [get_l] in Hk; lia].
    apply Hb. apply in_range_arg_spec; [now apply Hs|lia].
Qed.

Lemma read_all_outside l pos : ~ Forall (fun p => 0 <= p < Z.of_nat (length l)) pos -> read_all l pos = Undefined.
Proof.
  induction pos as [|p pos IH]; intros H; [exfalso; apply H; constructor|]. cbn [read_all].
  destruct (Z.ltb_spec p 0); [reflexivity|]. destruct (Z.leb_spec (Z.of_nat (length l)) p); [reflexivity|]. cbn [orb].
  rewrite IH; [reflexivity|]. intros F. apply H. constructor; [lia|exact F].
Qed.
Lemma read_all_total l pos : (exists r, read_all l pos = Ok r) \/ read_all l pos = Undefined.
Proof.
  induction pos as [|p pos IH]; cbn [read_all]; [left; eauto|]. destruct ((p <? 0) || (Z.of_nat (length l) <=? p)); [now right|].
  destruct IH as [[r ->]| ->]; [left; eauto|now right].
Qed.
Lemma slice_labels_outside l r x : r_step r <> 0 -> in_range_arg r (Z.of_nat (length l)) x -> ~ (0 <= r_first r + x * r_step r < Z.of_nat (length l)) ->
  slice_labels l (ARange r) = Undefined.
Proof.
  intros Hs Hx Ho. rewrite slice_labels_read; [|reflexivity|now intros r' [= <-]]. apply read_all_outside. rewrite Forall_forall. intros F.
  apply Ho. apply (in_range_arg_spec r _ x Hs) in Hx. specialize (F (r_first r + x * r_step r)). apply F. apply in_map_iff. exists (Z.to_nat x).
  cbn [parent_pos]. split; [f_equal; f_equal; lia|]. apply in_seq. lia.
Qed.
Lemma slice_ind_outside args : forall ls n d r x, (n + length args = length ls)%nat -> (forall r, In (SArg (ARange r)) args -> r_step r <> 0) ->
  nth_error args d = Some (SArg (ARange r)) -> in_range_arg r (Z.of_nat (length (nth (n + d) ls []))) x ->
  ~ (0 <= r_first r + x * r_step r < Z.of_nat (length (nth (n + d) ls []))) -> slice_ind ls n args = Undefined.
Proof.
  induction args as [|a args IH]; intros ls n d r x Hn Hs Hd Hx Ho; [destruct d; discriminate|]. cbn [slice_ind].
  assert (Hlen : (n < length ls)%nat) by (cbn [length] in Hn; lia). rewrite (nth_error_nth' ls [] Hlen).
  assert (Rest : forall d', d = S d' -> slice_ind ls (S n) args = Undefined).
  { intros d' ->. apply (IH ls (S n) d' r x); [cbn [length] in Hn; lia|intros; apply Hs; now right|exact Hd| |]; replace (S n + d')%nat with (n + S d')%nat by lia; assumption. }
  destruct d as [|d].
  - injection Hd as ->. cbn [argument_is_allowed_for_call]. rewrite Nat.add_0_r in Hx, Ho. rewrite (slice_labels_outside _ r x); [reflexivity|apply Hs; now left|exact Hx|exact Ho].
  - specialize (Rest d eq_refl). destruct a as [s|b]; [exact Rest|]. assert (T : is_long b = false -> (exists z, slice_labels (nth n ls []) b = Ok z) \/ slice_labels (nth n ls []) b = Undefined).
    { intros Hb. rewrite slice_labels_read; [apply read_all_total|exact Hb|]. intros r' ->. apply Hs. now left. }
    destruct b as [i|r'| |]; cbn [argument_is_allowed_for_call]; [exact Rest|..]; (destruct (T eq_refl) as [[z ->]| ->]; [now rewrite Rest|reflexivity]).
Qed.

Fixpoint slice_lab (ex : list arg) (ls : list (list string)) : list (list string) :=
  match ex, ls with
  | a :: ex', l :: ls' => if is_range a then sliced a l :: slice_lab ex' ls' else slice_lab ex' ls'
  | _, _ => []
  end.

Lemma sliced_desugar y l : sliced (desugar y) l = sliced y l.
Proof. destruct y; reflexivity. Qed.

Lemma slice_ind_ok args : forall ls n l len, (n + length args = length ls)%nat -> resolved (skipn n ls) args l ->
  map (fun x => Z.of_nat (length x)) (skipn n ls) = len -> args_in_bounds (map desugar l) len -> steps_nonzero l ->
  slice_ind ls n args = Ok (slice_lab (map desugar l) (skipn n ls)).
Proof.
  induction args as [|a args IH]; intros ls n l len Hn HR HL HB Hs.
  - destruct l; [|destruct HR]. reflexivity.
  - assert (Hlen : (n < length ls)%nat) by (cbn [length] in Hn; lia).
    rewrite (skipn_cons_nth ls n [] Hlen) in *. cbn [map] in HL. subst len.
    assert (Hrec : forall b l', l = b :: l' -> resolved (skipn (S n) ls) args l' ->
              slice_ind ls (S n) args = Ok (slice_lab (map desugar l') (skipn (S n) ls)) /\ arg_in_bounds (desugar b) (Z.of_nat (length (nth n ls [])))).
    { intros b l' -> HR'. cbn [map] in HB. inversion HB as [|x y xs ys Hx HB']; subst. split; [|exact Hx].
      apply (IH ls (S n) l' _ ltac:(cbn [length] in Hn; lia) HR' eq_refl HB'). intros r Hr. apply Hs. now right. }
    cbn [slice_ind]. destruct a as [s|a].
    + destruct l as [|[i| | |] l]; cbn [resolved] in HR; try contradiction. destruct HR as [_ HR]. cbn [tl] in HR.
      destruct (Hrec _ _ eq_refl HR) as [E _]. cbn [argument_is_allowed_for_call]. rewrite E. reflexivity.
    + destruct l as [|b l]; cbn [resolved] in HR; try contradiction. destruct HR as [-> HR]. cbn [tl] in HR.
      destruct (Hrec _ _ eq_refl HR) as [E Hb]. rewrite (nth_error_nth' ls [] Hlen).
      destruct b as [i|r| |]; cbn [argument_is_allowed_for_call]; [rewrite E; reflexivity|..];
        (rewrite slice_labels_ok; [rewrite E; reflexivity|reflexivity| |exact Hb]);
        intros r' Hr'; try discriminate. apply Hs. now left. 
Qed.

Lemma slice_lab_each ex : forall ls len, map (fun x => Z.of_nat (length x)) ls = len -> length ex = length ls ->
  Forall (fun n => 0 <= n) (slice_len ex len) ->
  map (fun x => Z.of_nat (length x)) (slice_lab ex ls) = slice_len ex len.
Proof.
  induction ex as [|a ex IH]; intros [|l ls] len HL HE HN; try discriminate; subst len; [reflexivity|].
  cbn [map slice_lab slice_len] in *. destruct (is_range a) eqn:Ea; [|now apply IH; auto].
  inversion HN as [|x xs Hx HN']; subst. cbn [map]. f_equal; [|now apply IH; auto].
  unfold sliced. rewrite map_length, seq_length. lia.
Qed.

Lemma names_slice ex : forall ls len j, map (fun x => Z.of_nat (length x)) ls = len -> length ex = length ls ->
  in_range j (slice_len ex len) -> names (slice_lab ex ls) j = of_kept ex (names ls (parent_idx ex j)).
Proof.
  induction ex as [|a ex IH]; intros [|l ls] len j HL HE HJ; try discriminate; subst len; [reflexivity|].
  cbn [map slice_lab slice_len] in *. injection HE as HE. destruct a as [i|r| |]; cbn [is_range] in *.
  - cbn [parent_idx names of_kept]. now apply IH with (len := map (fun x => Z.of_nat (length x)) ls).
  - inversion HJ as [|x n j' ns Hx HJ']; subst. cbn [names parent_idx of_kept]. f_equal; [|now apply IH with (len := map (fun x => Z.of_nat (length x)) ls)].
    unfold sliced. unfold inr in Hx. cbn [get_l] in *. rewrite nth_map_seq by lia. cbn [parent_pos]. now rewrite Z2Nat.id by lia.
  - inversion HJ as [|x n j' ns Hx HJ']; subst. cbn [names parent_idx of_kept]. f_equal; [|now apply IH with (len := map (fun x => Z.of_nat (length x)) ls)].
    unfold sliced. unfold inr in Hx. cbn [get_l] in *. rewrite nth_map_seq by lia. cbn [parent_pos]. now rewrite Z2Nat.id by lia.
  - inversion HJ as [|x n j' ns Hx HJ']; subst. cbn [names parent_idx of_kept]. f_equal; [|now apply IH with (len := map (fun x => Z.of_nat (length x)) ls)].
    unfold sliced. unfold inr in Hx. cbn [get_l] in *. rewrite nth_map_seq by lia. cbn [parent_pos]. now rewrite Z2Nat.id by lia.
Qed.

Lemma expand_same l : (count_ell l <= 1)%nat -> expand 1 l = map desugar l.
Proof.
  induction l as [|a l IH]; intros H; [reflexivity|]. unfold count_ell in *. cbn [filter] in H.
  destruct a; cbn [is_ellipsis length] in H; cbn [expand map desugar]; try (f_equal; now apply IH).
  cbn [repeat app]. f_equal. assert (E : count_ell l = 0%nat) by (unfold count_ell; lia). clear - E.
  rewrite <- (map_id l) at 1. apply map_ext_in. intros a Ha. symmetry. apply desugar_id. exact (count_ell_0 l E a Ha).
Qed.

Lemma expand_args_same n l : args_ok n l -> length l = n -> expand_args n l = map desugar l.
Proof.
  intros Hok L. unfold expand_args. rewrite L. replace (n + 1 - n)%nat with 1%nat by lia. apply expand_same.
  destruct Hok as [[H _]|[H _]]; lia.
Qed.
