(** Lemmas about hyperslabs. *)
From Verif Require Import Base M_Perm M_IdxMap M_Slice M_Loops M_Assign M_Expr M_Transform M_Mpi M_H5 S_Layout S_Assign S_Mpi S_H5 L_Perm L_IdxMap L_Slice L_Layout L_Loops L_Assign L_Transform L_Mpi.

(** ** counting arguments *)
Lemma count_int_app a b : count_int (a ++ b) = (count_int a + count_int b)%nat.
Proof. unfold count_int. now rewrite filter_app, app_length. Qed.
Lemma count_ell_app a b : count_ell (a ++ b) = (count_ell a + count_ell b)%nat.
Proof. unfold count_ell. now rewrite filter_app, app_length. Qed.
Lemma count_int_all k : count_int (repeat AAll k) = 0%nat.
Proof. induction k; auto. Qed.
Lemma count_int_le a : (count_int a + count_ell a <= length a)%nat.
Proof.
  induction a as [|x a IH]; [auto|]. change (x :: a) with ([x] ++ a). rewrite count_int_app, count_ell_app, app_length. destruct x; cbn [length]; unfold count_int at 1, count_ell at 1; cbn; lia.
Qed.
Lemma n_kept_int ex : (n_kept ex + count_int ex = length ex)%nat.
Proof.
  induction ex as [|a ex IH]; [reflexivity|]. rewrite n_kept_cons. change (a :: ex) with ([a] ++ ex). rewrite count_int_app, app_length. cbn [length]. destruct a; unfold count_int at 1; cbn; lia.
Qed.
Lemma n_kept_app a b : n_kept (a ++ b) = (n_kept a + n_kept b)%nat.
Proof. pose proof (n_kept_int (a ++ b)). pose proof (n_kept_int a). pose proof (n_kept_int b). rewrite count_int_app, app_length in *. lia. Qed.
Lemma n_kept_all k : n_kept (repeat AAll k) = k.
Proof. pose proof (n_kept_int (repeat AAll k)). rewrite count_int_all, repeat_length in *. lia. Qed.

(** ** the entries of the slab *)
Definition off_of (a : arg) : Z := match a with ALong i => hsize i | ARange r => hsize (r_first r) | _ => 0 end.
Definition str_of (a : arg) : Z := match a with ARange r => hsize (r_step r) | _ => 1 end.
Definition cnt_of (a : arg) (l : Z) : Z := match a with ALong _ => 1 | ARange r => hsize (range_size r) | _ => l end.
Definition dim_of (a : arg) (l : Z) : list Z := match a with ALong _ => [] | ARange r => [range_size r] | _ => [l] end.
Fixpoint cnts (ex : list arg) (len : list Z) : list Z := match ex, len with a :: ex', l :: len' => cnt_of a l :: cnts ex' len' | _, _ => [] end.
Fixpoint dims (ex : list arg) (len : list Z) : list Z := match ex, len with a :: ex', l :: len' => dim_of a l ++ dims ex' len' | _, _ => [] end.

Lemma upd_mid {A} (pre : list A) x post y : upd (pre ++ x :: post) (length pre) y = pre ++ y :: post.
Proof. induction pre as [|z pre IH]; [reflexivity|]. cbn [app length upd]. now rewrite IH. Qed.
Lemma upd_mid' {A} (pre : list A) x post y n : length pre = n -> upd (pre ++ x :: post) n y = pre ++ y :: post.
Proof. intros <-. apply upd_mid. Qed.
Lemma combine_app' {A B} (a : list A) (b : list B) a' b' : length a = length b -> combine (a ++ a') (b ++ b') = combine a b ++ combine a' b'.
Proof. revert b. induction a as [|x a IH]; intros [|y b] H; cbn [length] in H; try discriminate; [reflexivity|]. cbn [app combine]. now rewrite IH by lia. Qed.
Lemma nthZ_mid pre x post : nthZ (pre ++ x :: post) (length pre) = x.
Proof. unfold nthZ. rewrite app_nth2, Nat.sub_diag by lia. reflexivity. Qed.

(** a state in which the entries of the dimensions [ex] are done and [k] are to come *)
Definition state (ex : list arg) (len : list Z) (k : nat) (eo es ec : list Z) : hyperslab * list Z :=
  (Slab (map off_of ex ++ repeat 0 k ++ eo) (map str_of ex ++ repeat 1 k ++ es) (cnts ex len ++ repeat 0 k ++ ec), dims ex len).
Lemma cnts_app ex len ex' len' : length ex = length len -> cnts (ex ++ ex') (len ++ len') = cnts ex len ++ cnts ex' len'.
Proof. revert len. induction ex as [|a ex IH]; intros [|l len] H; cbn [length] in H; try discriminate; [reflexivity|]. cbn [app cnts]. now rewrite IH by lia. Qed.
Lemma dims_app ex len ex' len' : length ex = length len -> dims (ex ++ ex') (len ++ len') = dims ex len ++ dims ex' len'.
Proof. revert len. induction ex as [|a ex IH]; intros [|l len] H; cbn [length] in H; try discriminate; [reflexivity|]. cbn [app dims]. now rewrite IH, app_assoc by lia. Qed.
Lemma cnts_length ex len : length ex = length len -> length (cnts ex len) = length ex.
Proof. revert len. induction ex as [|a ex IH]; intros [|l len] H; cbn [length] in H; try discriminate; [reflexivity|]. cbn [cnts length]. now rewrite IH by lia. Qed.

Lemma slab_step_one epos width ex len l rest i a k eo es ec : length ex = length len -> is_ellipsis a = false ->
  (if Nat.ltb epos i then (i + width - 1)%nat else i) = length ex ->
  slab_step epos width (len ++ l :: rest) (state ex len (S k) eo es ec) (i, a) = state (ex ++ [a]) (len ++ [l]) k eo es ec.
Proof.
  intros L Ha Hn. unfold slab_step, state. cbn [fst snd]. rewrite Hn. cbn [repeat app hs_off hs_str hs_cnt].
  rewrite !map_app, cnts_app, dims_app by auto. cbn [map cnts dims]. rewrite <- !app_assoc. cbn [app].
  assert (E1 : forall y, upd (map off_of ex ++ 0 :: repeat 0 k ++ eo) (length ex) y = map off_of ex ++ y :: repeat 0 k ++ eo) by (intros y; apply upd_mid', map_length).
  assert (E2 : forall y, upd (map str_of ex ++ 1 :: repeat 1 k ++ es) (length ex) y = map str_of ex ++ y :: repeat 1 k ++ es) by (intros y; apply upd_mid', map_length).
  assert (E3 : forall y, upd (cnts ex len ++ 0 :: repeat 0 k ++ ec) (length ex) y = cnts ex len ++ y :: repeat 0 k ++ ec) by (intros y; now apply upd_mid', cnts_length).
  assert (E4 : nthZ (len ++ l :: rest) (length ex) = l) by (rewrite L; apply nthZ_mid).
  destruct a as [j|r| |]; try discriminate; cbn [off_of str_of cnt_of dim_of]; rewrite ?E1, ?E2, ?E3, ?E4, ?app_nil_r; reflexivity.
Qed.
(** a run of arguments without ellipsis, argument [i] standing for dimension [length ex] *)
Lemma slab_run epos width args : forall ex len lens rest i eo es ec, length ex = length len -> count_ell args = 0%nat -> length lens = length args ->
  (forall q, (i <= q < i + length args)%nat -> (if Nat.ltb epos q then (q + width - 1)%nat else q) = (length ex + (q - i))%nat) ->
  forall k, fold_left (slab_step epos width (len ++ lens ++ rest)) (combine (seq i (length args)) args) (state ex len (length args + k) eo es ec)
  = state (ex ++ args) (len ++ lens) k eo es ec.
Proof.
  induction args as [|a args IH]; intros ex len lens rest i eo es ec L H0 Ll Hq k.
  - destruct lens; [|discriminate]. cbn. now rewrite !app_nil_r.
  - destruct lens as [|l lens]; [discriminate|]. cbn [length seq combine fold_left Nat.add]. cbn [length] in *.
    assert (Ha : is_ellipsis a = false) by (apply (count_ell_0 (a :: args)); auto; now left).
    change ((l :: lens) ++ rest) with (l :: lens ++ rest). rewrite slab_step_one; auto. 2:{ rewrite Hq by lia. lia. }
    replace (len ++ l :: lens ++ rest) with ((len ++ [l]) ++ lens ++ rest) by (rewrite <- app_assoc; reflexivity).
    rewrite IH; [now rewrite <- !app_assoc| | | |].
    + rewrite !app_length. cbn [length]. lia.
    + unfold count_ell in *. cbn [filter] in H0. now rewrite Ha in H0.
    + lia.
    + intros q Hq'. rewrite Hq by lia. rewrite app_length. cbn [length]. lia.
Qed.
Lemma slab_ell epos width ex len lens rest i eo es ec k : length ex = length len -> length lens = width -> length ex = i -> Nat.ltb epos i = false ->
  slab_step epos width (len ++ lens ++ rest) (state ex len (width + k) eo es ec) (i, AEll) = state (ex ++ repeat AAll width) (len ++ lens) k eo es ec.
Proof.
  intros L Lw Hi He. unfold slab_step. unfold state at 1. cbn [fst snd]. rewrite He. subst i. clear He. fold (state ex len (width + k) eo es ec).
  revert ex len L lens Lw. induction width as [|w IH]; intros ex len L lens Lw.
  - destruct lens; [|discriminate]. cbn. now rewrite !app_nil_r.
  - destruct lens as [|l lens]; [discriminate|]. cbn [seq fold_left]. cbn [length] in Lw.
    change ((l :: lens) ++ rest) with (l :: lens ++ rest).
    pose proof (slab_step_one (length ex) 0 ex len l (lens ++ rest) (length ex) AAll (w + k) eo es ec L eq_refl) as E. rewrite Nat.ltb_irrefl in E. specialize (E eq_refl).
    unfold slab_step in E. unfold state at 1 in E. cbn [fst snd] in E. rewrite Nat.ltb_irrefl in E.
    change (S w + k)%nat with (S (w + k)). unfold state at 1. cbn [hs_off hs_str hs_cnt] in E |- *. rewrite E.
    replace (len ++ l :: lens ++ rest) with ((len ++ [l]) ++ lens ++ rest) by (rewrite <- app_assoc; reflexivity).
    replace (S (length ex)) with (length (ex ++ [AAll])) by (rewrite app_length; cbn [length]; lia).
    rewrite IH; [|rewrite !app_length; cbn [length]; lia|lia]. cbn [repeat]. now rewrite <- !app_assoc.
Qed.

Lemma h5_epos a b : count_ell a = 0%nat -> count_ell b = 0%nat -> h5_ellipsis_position (a ++ AEll :: b) = length a.
Proof.
  intros Ha Hb. unfold h5_ellipsis_position. replace (count_ell (a ++ AEll :: b)) with 1%nat.
  2:{ rewrite count_ell_app, Ha. unfold count_ell in *. cbn [filter is_ellipsis length]. now rewrite Hb. }
  cbn [Nat.eqb]. rewrite app_length. cbn [length]. rewrite seq_app, map_app, fold_right_app. cbn [seq map fold_right Nat.add].
  rewrite app_nth2, Nat.sub_diag by lia. cbn [nth is_ellipsis].
  rewrite (sumN_zero (map _ (seq (S (length a)) (length b)))).
  2:{ intros x Hx. apply in_map_iff in Hx. destruct Hx as (i & <- & Hi). apply in_seq in Hi. rewrite app_nth2 by lia.
      replace (i - length a)%nat with (S (i - length a - 1)) by lia. cbn [nth]. now rewrite nth_not_ell. }
  rewrite Nat.add_0_r. assert (G : forall l n, (forall x, In x l -> x = 0%nat) -> fold_right Nat.add n l = n).
  { induction l as [|x l IH]; intros n H; [reflexivity|]. cbn [fold_right]. rewrite IH by (intros; apply H; now right). rewrite (H x) by now left. reflexivity. }
  apply G. intros x Hx. apply in_map_iff in Hx. destruct Hx as (i & <- & Hi). apply in_seq in Hi. rewrite app_nth1 by lia. now rewrite nth_not_ell.
Qed.

Theorem hyperslab_spec len args (cplx : bool) : args_ok (length len) args ->
  let ex := expand_args (length len) args in
  hyperslab_and_shape (n_kept ex) args (len ++ (if cplx then [2] else [])) cplx =
    Some (state ex len 0 (if cplx then [0] else []) (if cplx then [1] else []) (if cplx then [2] else [])).
Proof.
  intros Hok ex. pose proof (expand_args_length _ _ Hok) as Lex. fold ex in Lex. unfold hyperslab_and_shape.
  assert (Lc : (length (len ++ (if cplx then [2%Z] else [])) - (if cplx then 1 else 0) = length len)%nat) by (rewrite app_length; destruct cplx; cbn [length]; lia).
  rewrite Lc. set (e0 := if cplx then [0] else []). set (e1 := if cplx then [1] else []). set (e2 := if cplx then [2] else []).
  destruct Hok as [[H0 HL]|[H1 HL]].
  - assert (Ee : ex = args) by (unfold ex, expand_args; now apply expand_none). rewrite H0. cbn [Nat.leb negb Nat.eqb andb orb].
    pose proof (n_kept_int ex) as K. rewrite Ee in K |- *.
    assert (range_count args = n_kept args) as -> by (unfold range_count; lia). rewrite Nat.eqb_refl. cbn [negb].
    assert ((n_kept args + count_int args =? length len)%nat = true) as -> by (apply Nat.eqb_eq; lia). cbn [negb]. f_equal.
    replace (n_kept args + count_int args)%nat with (length args + 0)%nat by lia.
    pose proof (slab_run (h5_ellipsis_position args) (ellipsis_width (n_kept args) args) args [] [] len e2 0 e0 e1 e2 eq_refl H0 ltac:(lia)) as R.
    cbn [app] in R. rewrite <- R. 2:{ intros q Hq. unfold h5_ellipsis_position. rewrite H0. cbn [Nat.eqb]. assert ((length args <? q)%nat = false) as -> by (apply Nat.ltb_ge; lia). cbn [length]. lia. }
    reflexivity.
  - destruct (count_ell_1 _ H1) as (a & b & -> & Ha & Hb). rewrite H1. cbn [Nat.leb negb Nat.eqb andb].
    set (w := (length len + 1 - length (a ++ AEll :: b))%nat). assert (Ee : ex = a ++ repeat AAll w ++ b) by (unfold ex, expand_args; now apply expand_some).
    assert (Ci : count_int (a ++ AEll :: b) = (count_int a + count_int b)%nat) by (rewrite count_int_app; reflexivity).
    pose proof (n_kept_int a) as Ka. pose proof (n_kept_int b) as Kb.
    assert (Ke : n_kept ex = (n_kept a + (w + n_kept b))%nat) by (rewrite Ee, !n_kept_app, n_kept_all; reflexivity).
    assert (Rc : range_count (a ++ AEll :: b) = (n_kept a + n_kept b)%nat) by (unfold range_count; rewrite H1, Ci, app_length; cbn [length]; lia).
    rewrite Rc. assert ((n_kept a + n_kept b <=? n_kept ex)%nat = true) as -> by (apply Nat.leb_le; lia). cbn [orb negb].
    rewrite app_length in HL. cbn [length] in HL.
    assert (Wl : (length a + (w + length b) = length len)%nat) by (rewrite <- Lex, Ee, !app_length, repeat_length; reflexivity).
    rewrite Ci. assert ((n_kept ex + (count_int a + count_int b) =? length len)%nat = true) as -> by (apply Nat.eqb_eq; lia). cbn [negb]. f_equal.
    assert (Ew : ellipsis_width (n_kept ex) (a ++ AEll :: b) = w) by (unfold ellipsis_width; lia). rewrite Ew, (h5_epos a b Ha Hb).
    replace (n_kept ex + (count_int a + count_int b))%nat with (length a + (w + (length b + 0)))%nat by lia.
    set (la := firstn (length a) len). set (lw := firstn w (skipn (length a) len)). set (lb := skipn w (skipn (length a) len)).
    assert (El : len = la ++ lw ++ lb) by (unfold la, lw, lb; now rewrite !firstn_skipn).
    assert (La : length la = length a) by (unfold la; rewrite firstn_length; lia).
    assert (Lw : length lw = w) by (unfold lw; rewrite firstn_length, skipn_length; lia).
    assert (Lb : length lb = length b) by (unfold lb; rewrite !skipn_length; lia).
    clearbody la lw lb.
    rewrite app_length. cbn [length]. rewrite seq_app. cbn [Nat.add seq]. rewrite combine_app' by (now rewrite seq_length). cbn [combine].
    rewrite fold_left_app. cbn [fold_left].
    change (new_slab (length a + (w + (length b + 0))) cplx, []) with (state [] [] (length a + (w + (length b + 0))) e0 e1 e2).
    replace (len ++ e2) with ([] ++ la ++ (lw ++ lb ++ e2)) by (rewrite El, <- !app_assoc; reflexivity).
    rewrite (slab_run (length a) w a [] [] la (lw ++ lb ++ e2) 0 e0 e1 e2); auto. 2:{ intros q Hq. assert ((length a <? q)%nat = false) as -> by (apply Nat.ltb_ge; lia). cbn [length]. lia. }
    cbn [app]. rewrite slab_ell; auto. 2:{ apply Nat.ltb_irrefl. }
    replace (la ++ lw ++ lb ++ e2) with ((la ++ lw) ++ lb ++ e2) by (now rewrite <- app_assoc).
    rewrite slab_run; auto.
    + rewrite Ee, El, <- !app_assoc. reflexivity.
    + rewrite !app_length, repeat_length. lia.
    + intros q Hq. assert ((length a <? q)%nat = true) as -> by (apply Nat.ltb_lt; lia). rewrite app_length, repeat_length. lia.
Qed.

(** ** selections *)
Lemma c_order_all cnt : c_order cnt = all_idx cnt.
Proof. induction cnt as [|n cnt IH]; [reflexivity|]. cbn [c_order all_idx]. now rewrite IH. Qed.
Lemma hsize_id z : 0 <= z < 18446744073709551616 -> hsize z = z.
Proof. intros H. unfold hsize. now apply Z.mod_small. Qed.
Lemma hsize_neg z : -9223372036854775808 <= z < 0 -> hsize z = z + 18446744073709551616.
Proof. intros H. unfold hsize. symmetry. apply (Z.mod_unique _ _ (-1)); lia. Qed.
Definition slab_arg (a : arg) : Prop := is_ellipsis a = false /\
  match a with ALong i => is_long_number i | ARange r => 0 < r_step r /\ r_last r <> -1 /\ is_long_number (r_first r) /\ is_long_number (r_last r) /\ is_long_number (r_step r) | _ => True end.
Lemma range_size_hsize r : 0 < r_step r -> is_long_number (r_first r) -> is_long_number (r_last r) -> hsize (range_size r) = range_size r.
Proof.
  intros Hs Hf Hl. unfold is_long_number in *. apply hsize_id. unfold range_size. assert ((0 <? r_step r) = true) as -> by now apply Z.ltb_lt. split; [lia|].
  apply Z.max_lub_lt; [lia|]. apply Z.div_lt_upper_bound; nia.
Qed.
(** the index in the slab of element [j] of the slice *)
Fixpoint slab_idx (ex : list arg) (j : list Z) : list Z :=
  match ex with
  | [] => []
  | ALong _ :: ex' => 0 :: slab_idx ex' j
  | _ :: ex' => match j with x :: j' => x :: slab_idx ex' j' | [] => [] end
  end.
Lemma zseq_1 : zseq 1 = [0]. Proof. reflexivity. Qed.
Lemma cnts_idx ex len : length ex = length len -> Forall slab_arg ex -> all_idx (cnts ex len) = map (slab_idx ex) (all_idx (dims ex len)).
Proof.
  intros L H. revert len L. induction H as [|a ex [Ha Hb] H IH]; intros [|l len] L; cbn [length] in L; try discriminate; [reflexivity|].
  specialize (IH len ltac:(lia)). cbn [cnts dims]. destruct a as [i|r| |]; try discriminate; cbn [cnt_of dim_of app all_idx slab_idx].
  - rewrite zseq_1, IH. cbn [flat_map]. rewrite app_nil_r, map_map. reflexivity.
  - rewrite range_size_hsize by tauto. rewrite IH. rewrite flat_map_concat_map, (flat_map_concat_map _ (zseq (range_size r))), concat_map, map_map. f_equal. apply map_ext. intros x. rewrite !map_map. reflexivity.
  - rewrite IH. rewrite flat_map_concat_map, (flat_map_concat_map _ (zseq l)), concat_map, map_map. f_equal. apply map_ext. intros x. rewrite !map_map. reflexivity.
Qed.
Lemma dims_slice_len ex len : length ex = length len -> Forall slab_arg ex -> dims ex len = slice_len ex len.
Proof.
  intros L H. revert len L. induction H as [|a ex [Ha Hb] H IH]; intros [|l len] L; cbn [length] in L; try discriminate; [reflexivity|].
  specialize (IH len ltac:(lia)). cbn [dims slice_len]. destruct a as [i|r| |]; try discriminate; cbn [dim_of is_range get_l app]; rewrite IH; try reflexivity.
  assert ((r_last r =? -1) = false) as -> by (apply Z.eqb_neq; tauto). cbn [andb]. destruct r; reflexivity.
Qed.
Definition below (c len : list Z) : bool := forallb (fun p => fst p <? snd p) (combine c len).
Lemma coord_inside ex len j : length ex = length len -> Forall slab_arg ex -> Forall (fun l => 0 <= l < 9223372036854775808) len ->
  in_range j (dims ex len) -> below (slab_coord (map off_of ex) (map str_of ex) (slab_idx ex j)) len = true -> in_range (parent_idx ex j) len.
Proof.
  intros L H Hl. revert len j L Hl. induction H as [|a ex [Ha Hb] H IH]; intros [|l len] j L Hl Hj; cbn [length] in L; try discriminate.
  - constructor.
  - inversion Hl as [|l' len' Hl1 Hl2]; subst. cbn [dims] in Hj. unfold is_long_number in *.
    destruct a as [i|r| |]; try discriminate; cbn [dim_of app] in Hj; cbn [map off_of str_of slab_idx parent_idx].
    + cbn [slab_coord]. unfold below. cbn [combine forallb fst snd]. rewrite andb_true_iff, Z.ltb_lt. intros [B1 B2]. constructor; [|apply IH; auto; lia].
      unfold inr. destruct (Z.lt_ge_cases i 0) as [C|C]; [rewrite hsize_neg in B1 by lia; lia|]. rewrite hsize_id in B1 by lia. lia.
    + inversion Hj as [|x y j' y' J1 J2]; subst. unfold inr in J1. cbn [slab_coord]. unfold below. cbn [combine forallb fst snd]. rewrite andb_true_iff, Z.ltb_lt.
      rewrite (hsize_id (r_step r)) by lia. intros [B1 B2]. constructor; [|apply IH; auto; lia].
      unfold inr. destruct (Z.lt_ge_cases (r_first r) 0) as [C|C]; [rewrite hsize_neg in B1 by lia; nia|]. rewrite hsize_id in B1 by lia. nia.
    + inversion Hj as [|x y j' y' J1 J2]; subst. unfold inr in J1. cbn [slab_coord]. unfold below. cbn [combine forallb fst snd]. rewrite andb_true_iff, Z.ltb_lt.
      intros [B1 B2]. constructor; [unfold inr; lia|apply IH; auto; lia].
Qed.
Lemma below_range c len : in_range c len -> below c len = true.
Proof. intros H. unfold below. induction H as [|x l c len Hx H IH]; [reflexivity|]. cbn [combine forallb fst snd]. rewrite IH, andb_true_r. apply Z.ltb_lt. apply Hx. Qed.
Lemma coord_parent ex len j : length ex = length len -> Forall slab_arg ex -> Forall (fun l => 0 <= l < 9223372036854775808) len ->
  in_range j (dims ex len) -> args_in_bounds ex len -> slab_coord (map off_of ex) (map str_of ex) (slab_idx ex j) = parent_idx ex j.
Proof.
  intros L H Hl. revert len j L Hl. induction H as [|a ex [Ha Hb] H IH]; intros [|l len] j L Hl Hj Hbo; cbn [length] in L; try discriminate; [reflexivity|].
  inversion Hl as [|l' len' Hl1 Hl2]; subst. inversion Hbo as [|a' l' ex' len' A1 A2]; subst. cbn [dims] in Hj. unfold is_long_number in *.
  destruct a as [i|r| |]; try discriminate; cbn [dim_of app] in Hj; cbn [map off_of str_of slab_idx parent_idx].
  - cbn [slab_coord]. cbn [arg_in_bounds] in A1. rewrite (IH len) by (auto; lia). f_equal. rewrite hsize_id by lia. ring.
  - inversion Hj as [|x y j' y' J1 J2]; subst. unfold inr in J1. cbn [slab_coord]. rewrite (IH len) by (auto; lia). cbn [arg_in_bounds] in A1. f_equal.
    assert (R0 : in_range_arg r l 0).
    { apply in_range_arg_spec; [lia|]. cbn [get_l]. assert ((r_last r =? -1) = false) as -> by (apply Z.eqb_neq; tauto). cbn [andb]. destruct r as [f la st]; cbn [r_first r_last r_step] in *. lia. }
    specialize (A1 0 R0). rewrite !hsize_id by lia. reflexivity.
  - inversion Hj as [|x y j' y' J1 J2]; subst. cbn [slab_coord]. rewrite (IH len) by (auto; lia). f_equal. ring.
Qed.

Lemma expand_slab_args N args : args_ok N args -> forward_ranges args -> longs args -> Forall slab_arg (expand_args N args).
Proof.
  intros Hok Hf Hl. apply Forall_forall. intros a Ha. split.
  - apply (count_ell_0 _ (expand_no_ell _ _ Hok)); auto.
  - destruct a as [i|r| |]; auto; (apply (expand_In _ _ _ Hok) in Ha; [|discriminate]); unfold longs in Hl; rewrite Forall_forall in Hl; specialize (Hl _ Ha); cbv beta iota in Hl; auto.
    specialize (Hf r Ha). tauto.
Qed.

Lemma cnts_prod e len : length e = length len -> Forall slab_arg e -> prodZ (cnts e len) = prodZ (dims e len).
Proof.
  intros L F. revert len L. induction F as [|a e [Ha Hb] F IH]; intros [|l len] L; cbn [length] in L; try discriminate; [reflexivity|].
  cbn [cnts dims]. rewrite prodZ_cons, prodZ_app, (IH len) by lia. f_equal. destruct a; try discriminate; cbn [cnt_of dim_of]; [reflexivity| |now rewrite prodZ_cons, prodZ_nil, Z.mul_1_r].
  rewrite range_size_hsize by tauto. now rewrite prodZ_cons, prodZ_nil, Z.mul_1_r.
Qed.
Section Sel.
Context {V : Type}.
Variable d : dataset V.
Variable args : list arg.
Hypothesis Hgood : good_lengths (ds_len d).
Hypothesis Hok : args_ok (length (ds_len d)) args.
Hypothesis Hf : forward_ranges args.
Hypothesis Hl : longs args.
Notation ex := (expand_args (length (ds_len d)) args).
Notation shape := (slice_len ex (ds_len d)).
Lemma sel_slab : exists h, hyperslab_and_shape (n_kept ex) args (lt_lengths d) (ds_cplx d) = Some (h, shape) /\
  firstn (length (ds_len d)) (hs_off h) = map off_of ex /\ firstn (length (ds_len d)) (hs_str h) = map str_of ex /\ firstn (length (ds_len d)) (hs_cnt h) = cnts ex (ds_len d) /\
  prodZ (hs_cnt h) / (if ds_cplx d then 2 else 1) = prodZ shape.
Proof using Hgood Hok Hf Hl.
  unfold lt_lengths. rewrite (hyperslab_spec _ _ (ds_cplx d) Hok). unfold state. cbn [repeat app].
  pose proof (expand_args_length _ _ Hok) as Lex. rewrite <- (dims_slice_len ex (ds_len d) Lex (expand_slab_args _ _ Hok Hf Hl)).
  assert (Fi : forall (l l' : list Z), length l = length (ds_len d) -> firstn (length (ds_len d)) (l ++ l') = l).
  { intros l l' E. rewrite firstn_app, E, Nat.sub_diag, <- E, firstn_all. cbn [firstn]. apply app_nil_r. }
  eexists. split; [reflexivity|]. cbn [hs_off hs_str hs_cnt]. split; [apply Fi; now rewrite map_length|]. split; [apply Fi; now rewrite map_length|]. split; [apply Fi; now rewrite cnts_length|].
  assert (E : prodZ (cnts ex (ds_len d)) = prodZ (dims ex (ds_len d))) by (apply cnts_prod; auto; now apply expand_slab_args).
  rewrite prodZ_app, E. destruct (ds_cplx d).
  - rewrite prodZ_cons, prodZ_nil, Z.mul_1_r. apply Z.div_mul. lia.
  - rewrite prodZ_nil, Z.mul_1_r. apply Z.div_1_r.
Qed.
Lemma sel_spec h : hyperslab_and_shape (n_kept ex) args (lt_lengths d) (ds_cplx d) = Some (h, shape) ->
  (forall l, selected d h = Some l -> forall j, in_range j shape -> in_range (parent_idx ex j) (ds_len d)) /\
  (args_in_bounds ex (ds_len d) -> selected d h = Some (map (parent_idx ex) (all_idx shape))).
Proof using Hgood Hok Hf Hl.
  intros E. destruct sel_slab as (h' & E' & H1 & H2 & H3 & _). rewrite E in E'. injection E' as <-.
  pose proof (expand_args_length _ _ Hok) as Lex. pose proof (expand_slab_args _ _ Hok Hf Hl) as Sa. destruct Hgood as [Hgl _].
  unfold selected. rewrite H1, H2, H3, c_order_all. rewrite cnts_idx by auto. rewrite dims_slice_len by auto. rewrite map_map. split.
  - intros l. destruct (forallb _ _) eqn:F; [|discriminate]. intros _ j Hj. rewrite forallb_forall in F.
    apply coord_inside; auto. { rewrite dims_slice_len; auto. } apply F. apply in_map_iff. exists j. split; [reflexivity|]. now apply all_idx_In.
  - intros Hb. rewrite (map_ext_in _ (parent_idx ex)).
    2:{ intros j Hj. apply all_idx_In in Hj. apply (coord_parent ex (ds_len d)); auto. now rewrite dims_slice_len. }
    destruct (forallb _ _) eqn:F; [reflexivity|]. exfalso. apply Bool.not_true_iff_false in F. apply F. apply forallb_forall. intros c Hc. apply in_map_iff in Hc. destruct Hc as (j & <- & Hj).
    apply below_range. apply parent_idx_valid; [auto|now apply expand_no_ell|]. apply view_pos_spec; auto. { intros r Hr. rewrite Forall_forall in Sa. destruct (Sa _ Hr) as [_ X]. cbv beta iota in X. lia. } now apply all_idx_In.
Qed.
End Sel.
