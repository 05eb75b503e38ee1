(** Property C59: arrays whose positions carry string labels. *)
From Coq Require Import String.
From Verif Require Import Base M_Perm L_Perm M_IdxMap M_Slice S_Layout L_IdxMap L_Slice L_Layout M_RectStr S_RectStr L_RectStr.
Local Open Scope list_scope.

(** a 3 x 2 layout in C order, labelled a,b,c / A,B, and the same without labels *)
Definition ex_map : idx_map := idx_map_of_shape [0;1]%nat [0;0] LP_contiguous [0;0] [3;2].
Definition ex_labels : list (list string) := [["a";"b";"c"]; ["A";"B"]]%string.
Definition ex_str : rect_str := RectStr ex_map (Some ex_labels).
Definition ex_plain : rect_str := rs_of_map ex_map.
Lemma ex_map_wf : wf ex_map.
Proof. apply fresh_wf; try reflexivity; [apply perm_check_ok; reflexivity|repeat constructor; lia|cbn; lia]. Qed.
Lemma ex_map_flags : flags_true ex_map.
Proof. apply fresh_flags; try reflexivity; [apply perm_check_ok; reflexivity|repeat constructor; lia|cbn; lia]. Qed.
Lemma ex_str_wf : wf_str ex_str.
Proof. split; [exact ex_map_wf|]. split; [exact ex_map_flags|reflexivity]. Qed.
Lemma ex_plain_wf : wf_str ex_plain.
Proof. split; [exact ex_map_wf|]. split; [exact ex_map_flags|exact I]. Qed.

(** every layout has its labels, and only one list of them: given, or the decimal numbers of the positions *)
Theorem C59_labels_exist : forall x, wf_str x -> exists ls, labels_of x ls /\ (forall ls', labels_of x ls' -> ls' = ls) /\
  one_label_each (rs_map x) ls /\ fst (get_string_indices x) = ls.
Proof.
  intros x W. assert (H : exists ls, labels_of x ls).
  { destruct (rs_ind x) as [ind|] eqn:E; [exists ind; unfold labels_of; now rewrite E|].
    exists (default_indices (im_len (rs_map x))). apply labels_default; [exact (proj1 W)|exact E|reflexivity]. }
  destruct H as [ls H]. exists ls. split; [exact H|]. destruct (get_labels x ls W H) as [E He]. split; [|split; [exact He|now rewrite E]].
  intros ls' H'. destruct (get_labels x ls' W H') as [E' _]. rewrite E in E'. now injection E'.
Qed.
Print Assumptions C59_labels_exist.

(** an access that names positions by label or by number yields the element at these positions; the look-up
    changes neither the elements nor the labels; with bound checks the positions only have to exist *)
Theorem C59_access : forall x ls args idx, wf_str x -> labels_of x ls -> length args = rank (rs_map x) ->
  resolved ls args (map ALong idx) ->
  (exists x', rs_call false x args = (Ok (addr (rs_map x) idx), x') /\ rs_map x' = rs_map x /\ labels_of x' ls) /\
  (valid_idx (rs_map x) idx -> exists x', rs_call true x args = (Ok (addr (rs_map x) idx), x') /\ rs_map x' = rs_map x /\ labels_of x' ls).
Proof.
  intros x ls args idx W HL Hlen HR. pose proof (labels_length x ls W HL) as L.
  assert (Li : length idx = length (im_str (rs_map x))).
  { pose proof (resolved_length _ _ _ HR) as H. rewrite map_length in H. destruct W as ((Ls & _) & _). unfold rank in *. lia. }
  assert (C : call_impl (rs_map x) (map CLong idx) = addr (rs_map x) idx) by (apply call_impl_longs; [exact Li|exact (proj2 (proj1 (proj2 W)))]).
  pose proof (peel_ok args x ls 0 _ W HL ltac:(lia) HR) as E.
  split.
  - exists (after x ls args). unfold rs_call. rewrite E, cargs_longs, C. split; [reflexivity|]. split; [apply after_map|now apply after_labels].
  - intros Hv. exists (after x ls args). unfold rs_call. rewrite E, cargs_longs. unfold call_checked. rewrite C.
    assert (B : assert_in_bounds (rank (rs_map x)) (im_len (rs_map x)) (map carg_arg (map CLong idx)) = true).
    { rewrite map_map. cbn [carg_arg].
      assert (Hc : count_ell (map (fun i => ALong i) idx) = 0%nat) by (clear; induction idx as [|i idx IH]; [reflexivity|exact IH]).
      assert (Hok : args_ok (rank (rs_map x)) (map (fun i => ALong i) idx)).
      { left. split; [exact Hc|]. rewrite map_length. destruct W as ((Ls & _) & _). unfold rank. lia. }
      apply (assert_in_bounds_exact (rs_map x)); [exact (proj1 W)|exact Hok| | |].
      - intros r Hr. apply in_map_iff in Hr. destruct Hr as (i & Hi & _). discriminate.
      - intros r Hr. apply in_map_iff in Hr. destruct Hr as (i & Hi & _). discriminate.
      - unfold expand_args. rewrite expand_none by exact Hc. unfold valid_idx, in_range in Hv. clear - Hv.
        induction Hv as [|i l idx len Hi Hv IH]; constructor; [exact Hi|exact IH]. }
    rewrite B. split; [reflexivity|]. split; [apply after_map|now apply after_labels].
Qed.
Print Assumptions C59_access.

Example C59_access_example : resolved ex_labels [SStr "c"%string; SArg (ALong 1)] (map ALong [2;1]) /\
  rs_call true ex_str [SStr "c"%string; SArg (ALong 1)] = (Ok 5, ex_str) /\
  rs_call true ex_plain [SStr "2"%string; SStr "1"%string] = (Ok 5, RectStr ex_map (Some [["0";"1";"2"];["0";"1"]]%string)).
Proof.
  split; [|split; reflexivity]. cbn [resolved map hd tl ex_labels]. split; [|split; [reflexivity|exact I]].
  split; [lia|]. split; [reflexivity|]. intros [|[|k]] Hk; [discriminate|discriminate|exfalso; change (Z.to_nat 2) with 2%nat in Hk; lia].
Qed.

(** a number outside of its dimension is reported where bounds are checked *)
Theorem C59_out_of_bounds : forall x ls args idx, wf_str x -> labels_of x ls -> length args = rank (rs_map x) -> resolved ls args (map ALong idx) ->
  ~ valid_idx (rs_map x) idx -> exists x', rs_call true x args = (Throws, x') /\ rs_map x' = rs_map x /\ labels_of x' ls.
Proof.
  intros x ls args idx W HL Hlen HR Hv. pose proof (labels_length x ls W HL) as L. pose proof (peel_ok args x ls 0 _ W HL ltac:(lia) HR) as E.
  exists (after x ls args). unfold rs_call. rewrite E, cargs_longs. pose proof (resolved_length _ _ _ HR) as Hl. rewrite map_length in Hl.
  destruct (call_checked_exact (rs_map x) (map CLong idx) idx [] (proj1 W) (proj2 (proj1 (proj2 W)))) as [_ H]; [left; now rewrite app_nil_r|rewrite app_nil_r; lia|]. rewrite H by (now rewrite app_nil_r).
  split; [reflexivity|]. split; [apply after_map|now apply after_labels].
Qed.
Print Assumptions C59_out_of_bounds.
Example C59_out_of_bounds_example : resolved ex_labels [SStr "b"%string; SArg (ALong 2)] (map ALong [1; 2]) /\ ~ valid_idx ex_map [1; 2] /\
  fst (rs_call true ex_str [SStr "b"%string; SArg (ALong 2)]) = Throws.
Proof.
  split; [|split; [|reflexivity]].
  - split; [|split; [reflexivity|exact I]]. split; [lia|]. split; [reflexivity|]. intros [|k] Hk; [discriminate|]. exfalso. cbn in Hk. lia.
  - intros H. unfold valid_idx, in_range in H. inversion H as [|a b c d _ H2]; subst. inversion H2 as [|a b c d H3 _]; subst. unfold inr in H3. lia.
Qed.

(** a string that labels no position of its dimension is reported *)
Theorem C59_unknown_label : forall check x ls args, wf_str x -> labels_of x ls -> length args = rank (rs_map x) -> unknown_label ls args ->
  exists x', rs_call check x args = (Throws, x') /\ rs_slice x args = (Throws, x') /\ rs_map x' = rs_map x /\ labels_of x' ls.
Proof.
  intros check x ls args W HL Hlen (d & s & Hd & Hs). pose proof (labels_length x ls W HL) as L.
  destruct (peel_unknown args x ls 0 W HL ltac:(lia)) as (x' & E & Em & El); [exists d, s; split; [exact Hd|exact Hs]|].
  exists x'. unfold rs_call, rs_slice. rewrite E. auto.
Qed.
Print Assumptions C59_unknown_label.

Example C59_unknown_example : unknown_label ex_labels [SStr "a"%string; SStr "Z"%string] /\
  fst (rs_call false ex_str [SStr "a"%string; SStr "Z"%string]) = Throws.
Proof. split; [|reflexivity]. exists 1%nat, "Z"%string. split; [reflexivity|]. intros [H|[H|[]]]; discriminate. Qed.

(** every label can be used: a labelled position resolves, to the first position carrying its label *)
Theorem C59_labels_resolve : forall x ls idx, wf_str x -> labels_of x ls -> valid_idx (rs_map x) idx ->
  Forall (fun l => NoDup l) ls -> resolved ls (map SStr (names ls idx)) (map ALong idx).
Proof.
  intros x ls idx W HL Hv Hd. destruct (get_labels x ls W HL) as [_ He]. unfold valid_idx, in_range in Hv. unfold one_label_each in He. rewrite <- He in Hv.
  clear - Hv Hd. revert ls Hv Hd. induction idx as [|i idx IH]; intros [|l ls] Hv Hd; inversion Hv as [|a b c e Hi Hv']; subst; [exact I|].
  inversion Hd as [|a' b' Hl Hd']; subst. cbn [names map resolved hd tl]. split; [|now apply IH].
  unfold inr in Hi. split; [lia|]. assert (Hlt : (Z.to_nat i < length l)%nat) by lia. split; [now apply nth_error_nth'|].
  intros k Hk E. rewrite (nth_error_nth' l EmptyString) in E by lia. injection E as E.
  rewrite (NoDup_nth l EmptyString) in Hl. specialize (Hl k (Z.to_nat i) ltac:(lia) Hlt E). lia.
Qed.
Print Assumptions C59_labels_resolve.

(** the default labels are all different: the string of a number names the position with that number *)
Theorem C59_default_labels : forall x ls d s n, wf_str x -> rs_ind x = None -> labels_of x ls -> (d < rank (rs_map x))%nat ->
  Z.of_nat n < nthZ (im_len (rs_map x)) d -> writes s n -> first_at (nth d ls []) s (Z.of_nat n).
Proof.
  intros x ls d s n W E HL Hd Hn Hs. pose proof (labels_nth x ls d W HL Hd) as L. apply (labels_default x ls (proj1 W) E) in HL. subst ls.
  rewrite default_nth in * by exact Hd. rewrite map_length, seq_length in L. apply writes_to_string in Hs. subst s.
  split; [lia|]. rewrite Nat2Z.id. split.
  - rewrite nth_error_map. rewrite (nth_error_nth' _ 0%nat) by (rewrite seq_length; lia). rewrite seq_nth by lia. reflexivity.
  - intros k Hk H. rewrite nth_error_map in H. rewrite (nth_error_nth' _ 0%nat) in H by (rewrite seq_length; lia). rewrite seq_nth in H by lia.
    cbn [option_map] in H. injection H as H. apply to_string_inj in H. cbn in H. lia.
Qed.
Print Assumptions C59_default_labels.

Example C59_default_example : writes "10"%string 10 /\ rs_call false (rs_of_map (idx_map_of_shape [0]%nat [0] LP_contiguous [0] [12])) [SStr "10"%string]
  = (Ok 10, RectStr (idx_map_of_shape [0]%nat [0] LP_contiguous [0] [12]) (Some [["0";"1";"2";"3";"4";"5";"6";"7";"8";"9";"10";"11"]%string])).
Proof. split; [|reflexivity]. split; [reflexivity|]. split; [reflexivity|]. intros H; discriminate. Qed.

(** a slice with one argument per dimension: the elements of the view keep the labels of the dimensions the
    view keeps; it stays one label per position, so that views can be sliced again *)
Theorem C59_slice : forall x ls args l off m', wf_str x -> labels_of x ls -> length args = rank (rs_map x) -> has_labels x args ->
  resolved ls args l -> slice (rs_map x) l = Some (off, m') -> steps_nonzero l ->
  args_in_bounds (expand_args (rank (rs_map x)) l) (im_len (rs_map x)) -> some_dim_left (rank (rs_map x)) l ->
  exists ls' x', rs_slice x args = (Ok (off, RectStr m' (Some ls')), x') /\ rs_map x' = rs_map x /\ labels_of x' ls /\
    wf_str (RectStr m' (Some ls')) /\
    forall j, valid_idx m' j -> names ls' j = of_kept (expand_args (rank (rs_map x)) l) (names ls (parent_idx (expand_args (rank (rs_map x)) l) j)).
Proof.
  intros x ls args l off m' W HL Hlen Hh HR HS Hst HB Hd. pose proof (labels_length x ls W HL) as L.
  destruct (get_labels x ls W HL) as [_ He]. destruct W as (Wm & Fm & Wl).
  destruct (slice_inv _ _ _ HS) as [Hok Eimpl].
  assert (Eex : expand_args (rank (rs_map x)) l = map desugar l).
  { apply expand_args_same; [exact Hok|]. rewrite (resolved_length _ _ _ HR). exact Hlen. }
  rewrite Eex in HB. rewrite Eex.
  pose proof (slice_wf _ _ _ _ Wm HS Hd) as W'. pose proof (slice_flags _ _ _ _ Wm HS Hd Fm) as F'.
  pose proof (peel_ok args x ls 0 l (conj Wm (conj Fm Wl)) HL ltac:(lia) HR) as E.
  assert (Ei : rs_ind (after x ls args) = Some ls).
  { unfold after. destruct (existsb _ args) eqn:Ex; [reflexivity|]. destruct Hh as [Hh|[s Hs]].
    - destruct (rs_ind x) as [ind|] eqn:Ei; [|contradiction]. unfold labels_of in HL. rewrite Ei in HL. now subst.
    - exfalso. rewrite <- not_true_iff_false in Ex. apply Ex. apply existsb_exists. exists (SStr s). split; [exact Hs|reflexivity]. }
  pose proof (slice_ind_ok args ls 0 l (im_len (rs_map x)) ltac:(lia) HR He HB Hst) as Es. cbn [skipn] in Es.
  assert (EL : im_len m' = slice_len (map desugar l) (im_len (rs_map x))).
  { rewrite slice_impl_expand in Eimpl by auto. rewrite Eex in Eimpl. injection Eimpl as _ ->. reflexivity. }
  assert (Lex : length (map desugar l) = length ls) by (rewrite map_length, (resolved_length _ _ _ HR); lia).
  exists (slice_lab (map desugar l) ls), (after x ls args). split; [|split; [apply after_map|split; [now apply after_labels|split]]].
  - unfold rs_slice. rewrite E, HS, Ei, Es. reflexivity.
  - split; [exact W'|]. split; [exact F'|]. unfold one_label_each. cbn [rs_map]. rewrite EL.
    apply slice_lab_each; [exact He|exact Lex|]. rewrite <- EL. exact (proj1 (proj2 (proj2 (proj2 W')))).
  - intros j Hj. apply (names_slice _ _ (im_len (rs_map x))); [exact He|exact Lex|]. rewrite <- EL. exact Hj.
Qed.
Print Assumptions C59_slice.
(** A range that leaves the extents reads labels that do not exist: where a plain array would only have made a view with a wrong address,
    the slice itself is undefined behaviour. *)
Theorem C59_slice_outside : forall x ls args l off m' d r k, wf_str x -> labels_of x ls -> length args = rank (rs_map x) -> has_labels x args ->
  resolved ls args l -> slice (rs_map x) l = Some (off, m') -> steps_nonzero l ->
  nth_error args d = Some (SArg (ARange r)) -> in_range_arg r (nthZ (im_len (rs_map x)) d) k -> ~ (0 <= r_first r + k * r_step r < nthZ (im_len (rs_map x)) d) ->
  fst (rs_slice x args) = Undefined.
Proof.
  intros x ls args l off m' d r k W HL Hlen Hh HR HS Hst Hd Hk Ho. pose proof (labels_length x ls W HL) as L.
  destruct (get_labels x ls W HL) as [_ He]. pose proof (peel_ok args x ls 0 l W HL ltac:(lia) HR) as E.
  assert (Ei : rs_ind (after x ls args) = Some ls).
  { unfold after. destruct (existsb _ args) eqn:Ex; [reflexivity|]. destruct Hh as [Hh|[s Hs]].
    - destruct (rs_ind x) as [ind|] eqn:Ei; [|contradiction]. unfold labels_of in HL. rewrite Ei in HL. now subst.
    - exfalso. rewrite <- not_true_iff_false in Ex. apply Ex. apply existsb_exists. exists (SStr s). split; [exact Hs|reflexivity]. }
  assert (Hd' : (d < length ls)%nat) by (rewrite L, <- Hlen; apply nth_error_Some; now rewrite Hd).
  assert (EL : nthZ (im_len (rs_map x)) d = Z.of_nat (length (nth d ls []))).
  { unfold one_label_each in He. rewrite <- He. unfold nthZ. rewrite (nth_indep _ 0 (Z.of_nat (length (@nil string)))) by (now rewrite map_length). now rewrite (map_nth (fun l => Z.of_nat (length l))). }
  rewrite EL in Hk, Ho. unfold rs_slice. rewrite E, HS, Ei. rewrite (slice_ind_outside args ls 0 d r k); [reflexivity|lia| |exact Hd|exact Hk|exact Ho].
  intros r' Hr'. apply Hst. clear - HR Hr'. revert ls l HR. induction args as [|a args IH]; intros ls l HR; [destruct Hr'|].
  destruct Hr' as [->|Hr'].
  - destruct l as [|b l]; [destruct HR|]. destruct HR as [<- _]. now left.
  - destruct a as [s|b]; destruct l as [|c l]; try (now destruct HR); [destruct c; try (now destruct HR)|]; right; destruct HR as [_ HR]; exact (IH Hr' _ _ HR).
Qed.
Print Assumptions C59_slice_outside.
Example C59_slice_outside_ex : fst (rs_slice ex_str [SArg (ARange (Range 1 5 1)); SArg AAll]) = Undefined /\ in_range_arg (Range 1 5 1) (nthZ (im_len (rs_map ex_str)) 0) 2 /\
  nthZ (im_len (rs_map ex_str)) 0 = 3.
Proof. split; [reflexivity|]. split; [unfold in_range_arg; cbn; lia|reflexivity]. Qed.

(** a layout without labels gives views without labels when no string is looked up *)
Theorem C59_slice_plain : forall x args l off m', wf_str x -> rs_ind x = None -> args = map SArg l ->
  slice (rs_map x) l = Some (off, m') -> rs_slice x args = (Ok (off, rs_of_map m'), x).
Proof.
  intros x args l off m' W E -> HS. assert (P : forall l n, peel_all x n (map SArg l) = (Ok l, x)).
  { clear. induction l as [|a l IH]; intros n; [reflexivity|]. cbn [map peel_all peel_string]. now rewrite IH. }
  unfold rs_slice. rewrite P, HS, E. reflexivity.
Qed.
Print Assumptions C59_slice_plain.

Example C59_slice_example : fst (rs_slice ex_str [SArg (ARange (Range 2 (-1) (-2))); SArg AEll])
  = Ok (4, RectStr (IdxMap [2;2] [-4;1] [0;1]%nat [0;0] LP_none) (Some [["c";"a"]; ["A";"B"]]%string)) /\
  fst (rs_slice ex_str [SArg AAll; SStr "B"%string]) = Ok (1, RectStr (IdxMap [3] [2] [0]%nat [0] LP_strided_1d) (Some [["a";"b";"c"]]%string)).
Proof. split; reflexivity. Qed.

(** an ellipsis standing for any other number of dimensions than one loses or mixes up the labels: here the
    second dimension of the view has none, and looking one up is undefined; below, an access through an
    ellipsis of length zero looks its label up in the wrong dimension *)
Theorem C59_ellipsis_refuted : exists x args v x', wf_str x /\ args_ok (rank (rs_map x)) [AEll; ALong 0] /\
  args = [SArg AEll; SArg (ALong 0)] /\ rs_slice x args = (Ok v, x') /\ rank (rs_map (snd v)) = 2%nat /\ ~ wf_str (snd v) /\
  fst (rs_call false (snd v) [SArg (ALong 0); SStr "A"%string]) = Undefined.
Proof.
  exists (RectStr (idx_map_of_shape [0;1;2]%nat [0;0;0] LP_contiguous [0;0;0] [2;2;2]) (Some [["a";"b"];["A";"B"];["x";"y"]]%string)),
    [SArg AEll; SArg (ALong 0)],
    (0, RectStr (IdxMap [2;2] [4;2] [0;1]%nat [0;0] LP_strided_1d) (Some [["a";"b"]]%string)). eexists.
  split; [|split; [|split; [reflexivity|split; [reflexivity|split; [reflexivity|split; [|reflexivity]]]]]].
  - split; [|split; [|reflexivity]].
    + apply fresh_wf; try reflexivity; [apply perm_check_ok; reflexivity|repeat constructor; lia|cbn; lia].
    + apply fresh_flags; try reflexivity; [apply perm_check_ok; reflexivity|repeat constructor; lia|cbn; lia].
  - right. split; [reflexivity|]. cbn. lia.
  - intros (_ & _ & H). discriminate.
Qed.
Print Assumptions C59_ellipsis_refuted.

Theorem C59_empty_ellipsis_refuted : exists x, wf_str x /\ fst (rs_call false x [SStr "a"%string; SStr "B"%string]) = Ok 1 /\
  fst (rs_call false x [SArg AEll; SStr "a"%string; SStr "B"%string]) = Throws /\
  fst (rs_call false x [SStr "a"%string; SArg AEll; SStr "B"%string]) = Undefined.
Proof. exists ex_str. split; [exact ex_str_wf|]. repeat split. Qed.
Print Assumptions C59_empty_ellipsis_refuted.

(** looking a label up is not neutral on an array without labels: it fixes the default labels, and views taken
    afterwards carry the parent's labels instead of numbers of their own *)
Theorem C59_lookup_neutral_refuted : exists x args v1 v2, wf_str x /\
  fst (rs_slice x args) = Ok (2, v1) /\
  fst (rs_slice (snd (rs_call false x [SStr "0"%string; SStr "0"%string])) args) = Ok (2, v2) /\
  fst (rs_call false v1 [SStr "1"%string; SStr "0"%string]) = Ok 2 /\ fst (rs_call false v2 [SStr "1"%string; SStr "0"%string]) = Ok 0.
Proof.
  exists ex_plain, [SArg (ARange (Range 1 3 1)); SArg AAll]. eexists. eexists. split; [exact ex_plain_wf|].
  split; [reflexivity|]. split; [reflexivity|]. split; reflexivity.
Qed.
Print Assumptions C59_lookup_neutral_refuted.

(** permuting the dimensions permutes the labels with them: the labels of an element do not change *)
Theorem C59_transpose : forall x ls p, wf_str x -> labels_of x ls -> is_order (rank (rs_map x)) p ->
  exists t ls', rs_transpose p x = Ok t /\ rs_map t = transpose p (rs_map x) /\ wf_str t /\ labels_of t ls' /\
    forall idx, length idx = rank (rs_map x) -> in_order EmptyString p (names ls' idx) = names ls (in_order 0 p idx).
Proof.
  intros x ls p W HL Ho. pose proof (labels_length x ls W HL) as L. destruct (get_labels x ls W HL) as [_ He]. destruct W as (Wm & Fm & Wl).
  pose proof (transpose_wf p _ Wm Ho) as Wt. pose proof (transpose_flags p _ Wm Ho Fm) as Ft.
  pose proof (is_perm_length _ _ Ho) as Lp.
  set (ls' := apply_inverse [] p ls).
  assert (Ll' : length ls' = rank (rs_map x)) by (unfold ls'; rewrite apply_inverse_length; exact Lp).
  assert (Hn : forall u, (u < rank (rs_map x))%nat -> nth (nthN p u) ls' [] = nth u ls []).
  { intros u Hu. unfold ls'. apply nth_apply_inverse with (n := rank (rs_map x)); auto. }
  assert (Hnames : forall (a : list (list string)) idx u, length a = length idx -> (u < length a)%nat ->
            nth u (names a idx) EmptyString = nth (Z.to_nat (nthZ idx u)) (nth u a []) EmptyString).
  { clear. induction a as [|l a IH]; intros [|i idx] u E Hu; try discriminate; [inversion Hu|]. destruct u as [|u]; [reflexivity|].
    cbn [names nth]. unfold nthZ. cbn [nth]. apply IH; [now injection E|cbn in Hu; lia]. }
  assert (Lnames : forall (a : list (list string)) idx, length a = length idx -> length (names a idx) = length a).
  { clear. induction a as [|l a IH]; intros [|i idx] E; try discriminate; [reflexivity|]. cbn [names length]. f_equal. apply IH. now injection E. }
  assert (Hall : forall idx, length idx = rank (rs_map x) -> in_order EmptyString p (names ls' idx) = names ls (in_order 0 p idx)).
  { intros idx Li. unfold in_order. apply (nth_ext_len EmptyString); [rewrite map_length, Lnames; rewrite ?map_length; lia|].
    rewrite map_length. intros u Hu. rewrite (nth_map_lt _ _ _ _ 0%nat) by exact Hu. change (nth u p 0%nat) with (nthN p u).
    assert (Hp : (nthN p u < rank (rs_map x))%nat) by (apply is_perm_lt; [exact Ho|lia]).
    rewrite !Hnames by (rewrite ?map_length; lia). rewrite Hn by lia. f_equal. unfold nthZ. now rewrite (nth_map_lt _ _ _ _ 0%nat) by exact Hu. }
  assert (He' : one_label_each (transpose p (rs_map x)) ls').
  { unfold one_label_each. cbn [im_len transpose]. apply (nth_ext_len 0); [rewrite map_length, apply_inverse_length; lia|].
    rewrite map_length. intros v Hv. destruct (is_perm_surj _ p v Ho ltac:(lia)) as (u & Hu & <-).
    rewrite (nth_apply_inverse 0 0 (rank (rs_map x))) by auto. rewrite (nth_map_lt _ _ _ _ []) by lia. rewrite Hn by exact Hu.
    pose proof (labels_nth x ls u (conj Wm (conj Fm Wl)) HL Hu) as E. exact E. }
  unfold rs_transpose. destruct (rs_ind x) as [ind|] eqn:Ei.
  - assert (ls = ind) by (unfold labels_of in HL; now rewrite Ei in HL). subst ind. rewrite L, Nat.eqb_refl.
    exists (RectStr (transpose p (rs_map x)) (Some ls')), ls'. split; [|split; [reflexivity|split; [|split; [reflexivity|exact Hall]]]].
    + unfold ls', apply_inverse. now rewrite Lp.
    + split; [exact Wt|]. split; [exact Ft|exact He'].
  - exists (RectStr (transpose p (rs_map x)) None), ls'. split; [reflexivity|]. split; [reflexivity|].
    split; [split; [exact Wt|split; [exact Ft|exact I]]|]. split; [|exact Hall].
    unfold labels_of in *. rewrite Ei in HL. cbn [rs_ind rs_map]. destruct HL as [_ HL].
    assert (Rt : rank (transpose p (rs_map x)) = rank (rs_map x)) by (unfold rank; cbn [im_len transpose]; rewrite apply_inverse_length; exact Lp).
    split; [lia|]. intros v Hv. destruct (is_perm_surj _ p v Ho ltac:(lia)) as (u & Hu & <-). rewrite Hn by exact Hu.
    destruct (HL u Hu) as [H1 H2]. split; [|exact H2]. rewrite H1. cbn [im_len transpose]. symmetry. unfold nthZ.
    now rewrite (nth_apply_inverse 0 0 (rank (rs_map x))) by auto.
Qed.
Print Assumptions C59_transpose.

Example C59_transpose_example : rs_transpose [1;0]%nat ex_str = Ok (RectStr (IdxMap [2;3] [1;2] [1;0]%nat [0;0] LP_contiguous) (Some [["A";"B"];["a";"b";"c"]]%string)).
Proof. reflexivity. Qed.

(** a layout built from labels has as many positions as labels, and these labels; a wrong number of label
    lists does not raise the exception but ends the program (the constructor is noexcept) *)
Theorem C59_from_labels : forall so se junk R ind, is_order R so -> length se = R -> length junk = R -> (0 < R < 16)%nat ->
  (length ind = R -> exists x, rs_of_labels so se LP_contiguous junk R ind = Ok x /\ wf_str x /\ labels_of x ind /\
     im_len (rs_map x) = map (fun l => Z.of_nat (length l)) ind /\ im_so (rs_map x) = so /\ im_se (rs_map x) = se) /\
  (length ind <> R -> rs_of_labels so se LP_contiguous junk R ind = Aborts).
Proof.
  intros so se junk R ind Ho Lse Lj HR. unfold rs_of_labels. split; intros L.
  - rewrite L, Nat.eqb_refl. cbn [negb]. eexists. split; [reflexivity|].
    assert (E : map (fun i => Z.of_nat (length (nth i ind []))) (seq 0 R) = map (fun l => Z.of_nat (length l)) ind).
    { rewrite <- L. rewrite <- (map_map (fun i => nth i ind []) (fun l => Z.of_nat (length l))). now rewrite map_seq_nth. }
    rewrite E. assert (Lm : length (map (fun l : list string => Z.of_nat (length l)) ind) = R) by now rewrite map_length.
    assert (Hnn : Forall (fun l => 0 <= l) (map (fun l : list string => Z.of_nat (length l)) ind)).
    { rewrite Forall_forall. intros z Hz. apply in_map_iff in Hz. destruct Hz as (l & <- & _). lia. }
    split; [|repeat split; reflexivity]. split; [|split; [|reflexivity]].
    + cbn [rs_map]. apply fresh_wf; rewrite ?Lm, ?repeat_length; auto.
    + cbn [rs_map]. apply fresh_flags; rewrite ?Lm, ?repeat_length; auto.
  - destruct (Nat.eqb_spec (length ind) R); [contradiction|reflexivity].
Qed.
Print Assumptions C59_from_labels.

Example C59_from_labels_example : rs_of_labels [0;1]%nat (repeat 0 2) LP_contiguous [0;0] 2 ex_labels = Ok ex_str /\
  rs_of_labels [0]%nat (repeat 0 1) LP_contiguous [0] 1 ex_labels = Aborts.
Proof. split; reflexivity. Qed.

(** layouts with labels compare equal exactly when shapes, strides and labels agree; without labels on one
    side the labels are ignored, so that the relation is not transitive *)
Theorem C59_equality : forall x y, rs_ind x <> None -> rs_ind y <> None ->
  (rs_eqb x y = true <-> im_len (rs_map x) = im_len (rs_map y) /\ im_str (rs_map x) = im_str (rs_map y) /\ rs_ind x = rs_ind y).
Proof.
  intros x y Hx Hy. unfold rs_eqb. destruct (rs_ind x) as [a|]; [|contradiction]. destruct (rs_ind y) as [b|]; [|contradiction].
  unfold idx_map_eqb, ind_eqb, rank. destruct (list_eq_dec Z.eq_dec (im_len (rs_map x)) (im_len (rs_map y))) as [El|El].
  - rewrite El, Nat.eqb_refl. destruct (list_eq_dec Z.eq_dec (im_str (rs_map x)) (im_str (rs_map y))) as [Es|Es];
      destruct (list_eq_dec (list_eq_dec string_dec) a b) as [Ei|Ei]; cbn [andb]; split; intros H; try discriminate; try tauto.
    + subst. auto.
    + destruct H as (_ & _ & H). injection H as H. contradiction.
  - rewrite andb_false_r. split; [discriminate|tauto].
Qed.
Print Assumptions C59_equality.

(** with unlabelled layouts only shape and strides are compared *)
Theorem C59_equality_unlabelled : forall x y, rs_ind x = None \/ rs_ind y = None ->
  (rs_eqb x y = true <-> im_len (rs_map x) = im_len (rs_map y) /\ im_str (rs_map x) = im_str (rs_map y)).
Proof.
  intros x y H. unfold rs_eqb. replace (match rs_ind x with Some a => match rs_ind y with Some b => ind_eqb a b | None => true end | None => true end) with true by (destruct H as [-> | ->]; [reflexivity|now destruct (rs_ind x)]).
  rewrite andb_true_r. unfold idx_map_eqb, rank. destruct (list_eq_dec Z.eq_dec (im_len (rs_map x)) (im_len (rs_map y))) as [El|El].
  - rewrite El, Nat.eqb_refl. destruct (list_eq_dec Z.eq_dec (im_str (rs_map x)) (im_str (rs_map y))) as [Es|Es]; cbn [andb]; split; intros E; try discriminate; tauto.
  - rewrite andb_false_r. split; [discriminate|tauto].
Qed.
Print Assumptions C59_equality_unlabelled.
Theorem C59_equality_transitive_refuted : exists x y z, wf_str x /\ wf_str y /\ wf_str z /\
  rs_eqb x y = true /\ rs_eqb y z = true /\ rs_eqb x z = false.
Proof.
  exists ex_str, ex_plain, (RectStr ex_map (Some [["c";"b";"a"];["A";"B"]]%string)).
  split; [exact ex_str_wf|]. split; [exact ex_plain_wf|]. split; [|split; [reflexivity|split; reflexivity]].
  split; [exact ex_map_wf|]. split; [exact ex_map_flags|reflexivity].
Qed.
Print Assumptions C59_equality_transitive_refuted.

(** conversion to another layout type keeps the labels *)
Theorem C59_convert : forall checks p se x ls m, wf_str x -> labels_of x ls -> convert checks p se (rs_map x) = Some m ->
  exists x', rs_convert checks p se x = (Ok (RectStr m (Some ls)), x') /\ rs_map x' = rs_map x /\ labels_of x' ls.
Proof.
  intros checks p se x ls m W HL HC. unfold rs_convert. destruct (get_labels x ls W HL) as [-> _]. rewrite HC.
  eexists. split; [reflexivity|]. split; reflexivity.
Qed.
Print Assumptions C59_convert.
