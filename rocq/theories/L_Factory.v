(** Lemmas on factories, matrix functions and nested lists. *)
From Verif Require Import Base M_Perm L_Perm M_IdxMap M_Slice M_Loops M_Assign M_Expr M_Transform S_Layout S_Loops S_Assign S_Expr S_Transform L_IdxMap L_Slice L_Layout L_Loops L_Assign L_Expr L_Transform.

Lemma new_array_len so base shape : im_len (v_lay (new_array so base shape)) = shape.
Proof. reflexivity. Qed.
Lemma zeros_spec {V} (zero : V) so base shape m : is_order (length shape) so -> Forall (fun l => 0 <= l) shape -> (0 < length shape < 16)%nat ->
  let '(a, m') := zeros zero so base shape m in
  a = new_array so base shape /\ holds a m' (fun _ => zero) /\ unchanged_outside a m m'.
Proof.
  intros Ho Hs Hr. unfold zeros. split; [reflexivity|]. rewrite size_prodZ, new_array_len.
  assert (Hc : forall a, In a (map (fun i => base + i) (zseq (prodZ shape))) <-> base <= a < base + prodZ shape).
  { intros a. rewrite in_map_iff. split; [intros (i & <- & Hi); apply zseq_In in Hi; lia|]. intros Ha. exists (a - base). split; [ring|apply zseq_In; lia]. }
  split.
  - intros idx Hi. assert (Hb : base <= cell (new_array so base shape) idx < base + prodZ shape) by (apply (new_array_cells so base shape); auto; exists idx; auto).
    set (c := cell _ idx) in *. replace c with (base + (c - base)) by ring.
    apply (write_values (zseq (prodZ shape)) (fun i => base + i) (fun _ _ => zero) m).
    + apply NoDup_map_on; [|intros; lia]. unfold zseq. apply NoDup_map_on; [apply seq_NoDup|intros; lia].
    + reflexivity.
    + apply zseq_In. lia.
  - intros a Ha. apply (write_frame (zseq (prodZ shape)) (fun i => base + i) (fun _ _ => zero) m). rewrite Hc. intros C. apply Ha. now apply new_array_cells.
Qed.
Lemma fill_new {V} fuel so base shape (x : V) m : is_order (length shape) so -> Forall (fun l => 0 <= l) shape -> (0 < length shape < 16)%nat ->
  exists m', fill_with_scalar fuel (new_array so base shape) x m = Some m' /\ holds (new_array so base shape) m' (fun _ => x) /\ unchanged_outside (new_array so base shape) m m'.
Proof.
  intros Ho Hs Hr. pose proof (zeros_spec x so base shape m Ho Hs Hr) as H. unfold zeros in H. destruct H as (_ & H1 & H2). eexists. split; [reflexivity|]. split; assumption.
Qed.
Lemma fill_new_matrix {V} fuel so base n k (x zero : V) m : is_order 2 so -> 0 <= n -> 0 <= k ->
  exists m', assign_from_scalar fuel true zero (new_array so base [n; k]) x m = Some m' /\
    (forall i j, 0 <= i < n -> 0 <= j < k -> m' (cell (new_array so base [n; k]) [i; j]) = if i =? j then x else zero) /\ unchanged_outside (new_array so base [n; k]) m m'.
Proof.
  intros Ho Hn Hk. assert (Hs : Forall (fun l => 0 <= l) [n; k]) by (repeat constructor; auto). assert (Hr : (0 < length [n; k] < 16)%nat) by (cbn [length]; lia).
  pose proof (new_array_usable so base [n; k] Ho Hs Hr) as U. unfold assign_from_scalar. cbn [negb].
  destruct (fill_new fuel so base [n; k] zero m Ho Hs Hr) as (m1 & -> & Hh & Hu).
  rewrite new_array_len. unfold nthZ. cbn [nth].
  destruct (diag_fold (new_array so base [n; k]) x (Z.to_nat (Z.min n k)) (Z.min n k) m1 U eq_refl) as [G1 G2].
  { lia. } { rewrite new_array_len. unfold nthZ. cbn [nth]. lia. } { rewrite new_array_len. unfold nthZ. cbn [nth]. lia. }
  eexists. split; [reflexivity|]. split.
  - intros i j Hi Hj. assert (Hv : in_view (new_array so base [n; k]) [i; j]) by (unfold in_view, valid_idx; rewrite new_array_len; repeat constructor; unfold inr; lia).
    rewrite G1, Hh by auto. destruct (Z.eqb_spec i j) as [->|]; [|reflexivity]. cbn [andb]. replace (j <? Z.min n k) with true by (symmetry; apply Z.ltb_lt; lia). reflexivity.
  - intros a Ha. rewrite G2, Hu by auto. reflexivity.
Qed.

Lemma range_size_nonneg r : 0 <= range_size r.
Proof. unfold range_size. destruct (0 <? r_step r); [lia|]. destruct (r_step r <? 0); lia. Qed.
Lemma range_size_spec first last step k : step <> 0 -> 0 <= k -> k < range_size (Range first last step) <-> (if 0 <? step then first + k * step < last else last < first + k * step).
Proof.
  intros Hs Hk. unfold range_size. cbn [r_step r_first r_last]. destruct (Z.ltb_spec 0 step) as [Hp|Hp].
  - transitivity (k < (last - first + step - 1) / step); [lia|]. transitivity (k + 1 <= (last - first + step - 1) / step); [lia|].
    split; intros H.
    + assert (E := Z.mul_div_le (last - first + step - 1) step Hp). nia.
    + apply Z.div_le_lower_bound; nia.
  - destruct (Z.ltb_spec step 0) as [Hn|Hn]; [|lia].
    transitivity (k < (first - last + - step - 1) / - step); [lia|]. transitivity (k + 1 <= (first - last + - step - 1) / - step); [lia|].
    split; intros H.
    + assert (E := Z.mul_div_le (first - last + - step - 1) (- step) ltac:(lia)). nia.
    + apply Z.div_le_lower_bound; nia.
Qed.
Lemma rank1_order so : is_order 1 so -> so = [0%nat].
Proof.
  intros H. pose proof (is_perm_length _ _ H) as L. destruct so as [|x [|y so]]; try discriminate. f_equal. pose proof (is_perm_lt 1 [x] 0 H ltac:(lia)) as B. unfold nthN in B. cbn [nth] in B. lia.
Qed.
Lemma c_array_usable base shape : Forall (fun l => 0 <= l) shape -> (0 < length shape < 16)%nat -> usable (v_lay (c_array base shape)).
Proof. intros Hs Hr. apply new_array_usable; auto. apply is_perm_identity. Qed.
Lemma arange_spec base first last step m :
  let '(a, m') := arange base first last step m in
  a = c_array base [range_size (Range first last step)] /\ holds a m' (fun idx => first + nthZ idx 0 * step) /\ unchanged_outside a m m'.
Proof.
  unfold arange. split; [reflexivity|]. set (n := range_size _). pose proof (range_size_nonneg (Range first last step)) as Hn. fold n in Hn.
  assert (U : usable (v_lay (c_array base [n]))) by (apply c_array_usable; [repeat constructor; auto|cbn [length]; lia]).
  pose proof (write_view (c_array base [n]) (map (fun k => [k]) (zseq n)) (fun _ idx => first + nthZ idx 0 * step) m U) as W. cbn zeta in W. rewrite fold_left_map in W.
  rewrite (fold_left_ext_in _ (fun m k => mset m (cell (c_array base [n]) [k]) (first + nthZ [k] 0 * step))).
  - apply W.
    + apply NoDup_map_on; [|intros x y _ _ E; now injection E]. unfold zseq. apply NoDup_map_on; [apply seq_NoDup|intros; lia].
    + intros idx. rewrite in_map_iff. unfold in_view, valid_idx, c_array. rewrite new_array_len. split.
      * intros (k & <- & Hk). apply zseq_In in Hk. repeat constructor; unfold inr; lia.
      * intros Hi. inversion Hi as [|k l t1 t2 H1 H2]; subst. inversion H2; subst. exists k. split; auto. apply zseq_In. exact H1.
    + intros idx m1 m2 _ _. reflexivity.
  - intros a k Hk. apply zseq_In in Hk. rewrite elem_cell_in; auto. unfold in_view, valid_idx, c_array. rewrite new_array_len. repeat constructor; unfold inr; lia.
Qed.

(** ** nested lists *)
Lemma counted_fold {V T} (f : Z -> V -> T -> T) (l : list V) d : forall c s,
  fold_left (fun '(j, m) x => (j + 1, f j x m)) l (c, s) = (c + Z.of_nat (length l), fold_left (fun m j => f (c + j) (nth (Z.to_nat j) l d) m) (zseq (Z.of_nat (length l))) s).
Proof.
  induction l as [|x l IH]; intros c s; cbn [fold_left length].
  - rewrite zseq_nil by lia. cbn [fold_left]. f_equal. lia.
  - rewrite IH. f_equal; [lia|]. replace (Z.of_nat (S (length l))) with (1 + Z.of_nat (length l)) by lia. rewrite zseq_add by lia. rewrite fold_left_app.
    change (zseq 1) with [0]. cbn [fold_left]. rewrite fold_left_map. replace (c + 0) with c by lia. change (nth (Z.to_nat 0) (x :: l) d) with x.
    apply fold_left_ext_in. intros m j Hj. apply zseq_In in Hj. f_equal; [lia|]. replace (Z.to_nat (1 + j)) with (S (Z.to_nat j)) by lia. reflexivity.
Qed.
Lemma fill_list1_fold {V} a pre (l : list V) d m :
  fill_list1 a pre l m = fold_left (fun m j => mset m (elem a (pre ++ [j])) (nth (Z.to_nat j) l d)) (zseq (Z.of_nat (length l))) m.
Proof. unfold fill_list1. rewrite (counted_fold (fun j x m => mset m (v_base a + call_impl (v_lay a) (map CLong (pre ++ [j]))) x) l d). reflexivity. Qed.
Lemma fill_list2_fold {V} a pre n (l : list (list V)) d m : rectangular n l ->
  fill_list2 a pre l m = fold_left (fun m ij => mset m (elem a (pre ++ ij)) (nth (Z.to_nat (nthZ ij 1)) (nth (Z.to_nat (nthZ ij 0)) l []) d)) (all_idx [Z.of_nat (length l); Z.of_nat n]) m.
Proof.
  intros Hl. unfold fill_list2. rewrite (counted_fold (fun i l1 m => fill_list1 a (pre ++ [i]) l1 m) l []). cbn [snd].
  cbn [all_idx]. rewrite fold_left_flat_map. apply fold_left_ext_in. intros m1 i Hi. apply zseq_In in Hi. rewrite Z.add_0_l, (fill_list1_fold _ _ _ d).
  rewrite (Hl (nth (Z.to_nat i) l [])) by (apply nth_In; lia).
  rewrite fold_left_map, fold_left_flat_map. apply fold_left_ext_in. intros m2 j Hj. cbn [map fold_left]. rewrite <- app_assoc. reflexivity.
Qed.
Lemma fill_list3_fold {V} a n k (l : list (list (list V))) d m : rectangular n l -> (forall l2, In l2 l -> rectangular k l2) ->
  fill_list3 a l m = fold_left (fun m x => mset m (elem a x) (nth (Z.to_nat (nthZ x 2)) (nth (Z.to_nat (nthZ x 1)) (nth (Z.to_nat (nthZ x 0)) l []) []) d)) (all_idx [Z.of_nat (length l); Z.of_nat n; Z.of_nat k]) m.
Proof.
  intros Hl Hk. unfold fill_list3. rewrite (counted_fold (fun i l2 m => fill_list2 a [i] l2 m) l []). cbn [snd].
  cbn [all_idx]. rewrite fold_left_flat_map. apply fold_left_ext_in. intros m1 i Hi. apply zseq_In in Hi. rewrite Z.add_0_l.
  assert (Hin : In (nth (Z.to_nat i) l []) l) by (apply nth_In; lia).
  rewrite (fill_list2_fold a [i] k _ d) by (now apply Hk). rewrite (Hl _ Hin). rewrite fold_left_map. reflexivity.
Qed.
Lemma write_all {V} a (val : list Z -> V) m : usable (v_lay a) ->
  let m' := fold_left (fun m idx => mset m (elem a idx) (val idx)) (all_idx (im_len (v_lay a))) m in holds a m' val /\ unchanged_outside a m m'.
Proof.
  intros U m'. unfold m'. rewrite (fold_left_ext_in _ (fun m idx => mset m (cell a idx) (val idx))).
  - apply (write_view a (all_idx (im_len (v_lay a))) (fun _ => val) m); auto using all_idx_NoDup; [intros; apply all_idx_In|]. intros idx m1 m2 _ _. reflexivity.
  - intros mm idx Hi. rewrite elem_cell_in; auto. now apply all_idx_In.
Qed.
Lemma shape_eqb_true a b : shape_eqb a b = true <-> a = b.
Proof. unfold shape_eqb. destruct (list_eq_dec Z.eq_dec a b); split; congruence. Qed.
Lemma shape_eqb_refl a : shape_eqb a a = true.
Proof. now apply shape_eqb_true. Qed.
Lemma minmax_loop_const s n : minmax_loop shape_eqb (repeat s n) s s = (s, s).
Proof.
  assert (G : forall n, minmax_loop shape_eqb (repeat s n) s s = (s, s) /\ minmax_loop shape_eqb (repeat s (S n)) s s = (s, s)).
  { clear n. induction n as [|k [IH1 IH2]]; split; auto.
    - cbn [repeat minmax_loop]. now rewrite !shape_eqb_refl.
    - change (repeat s (S (S k))) with (s :: s :: repeat s k). cbn [minmax_loop]. rewrite !shape_eqb_refl. cbn [negb]. exact IH1. }
  apply G.
Qed.
Lemma minmax_const s n : minmax_element shape_eqb (repeat s (S n)) = Some (s, s).
Proof. destruct n as [|n]; cbn [repeat minmax_element]; auto. rewrite shape_eqb_refl. f_equal. apply minmax_loop_const. Qed.
(** with == for the ordering the smallest element is equal to the first one, the largest to one of the last two *)
Lemma shape_eqb_iff a b : shape_eqb a b = true <-> a = b.
Proof. unfold shape_eqb. destruct (list_eq_dec Z.eq_dec a b); split; congruence. Qed.
Lemma minmax_loop_eq l : forall a mx, exists mx', minmax_loop shape_eqb l a mx = (a, mx') /\
  (mx' <> a <-> exists k, (k = length l \/ Nat.odd (length l) = true /\ S k = length l) /\ nth k (mx :: l) a <> a).
Proof.
  enough (G : forall n l, (length l <= n)%nat -> forall a mx, exists mx', minmax_loop shape_eqb l a mx = (a, mx') /\
    (mx' <> a <-> exists k, (k = length l \/ Nat.odd (length l) = true /\ S k = length l) /\ nth k (mx :: l) a <> a)) by (apply (G (length l)); lia).
  clear l. induction n as [|n IH]; intros [|x [|y l]] Hn a mx; cbn [length] in Hn; try lia.
  - exists mx. split; [reflexivity|]. split; [intros H; exists 0%nat; auto|]. intros (k & [->|[E _]] & H); [auto|discriminate].
  - exists mx. split; [reflexivity|]. split; [intros H; exists 0%nat; auto|]. intros (k & [->|[E _]] & H); [auto|discriminate].
  - cbn [minmax_loop]. destruct (shape_eqb x a) eqn:E1.
    + apply shape_eqb_iff in E1. subst x. exists mx. split; [reflexivity|]. split; [intros H; exists 0%nat; split; [right; auto|exact H]|].
      intros (k & [->|[_ Hk]] & H); [now elim H|]. cbn [length] in Hk. injection Hk as ->. exact H.
    + assert (N : x <> a) by (intros C; apply shape_eqb_iff in C; congruence).
      exists x. split; [destruct (shape_eqb x mx) eqn:E2; cbn [negb]; [|reflexivity]; apply shape_eqb_iff in E2; now subst|].
      split; [intros _; exists 1%nat; split; [now left|exact N]|auto].
  - cbn [minmax_loop]. assert (Emin : forall z, (if shape_eqb z a then z else a) = a) by (intros z; destruct (shape_eqb z a) eqn:E; [now apply shape_eqb_iff|reflexivity]).
    assert (Emax : forall z, (if negb (shape_eqb z mx) then z else mx) = z) by (intros z; destruct (shape_eqb z mx) eqn:E; cbn [negb]; [symmetry; now apply shape_eqb_iff|reflexivity]).
    rewrite !Emin, !Emax. destruct (IH l ltac:(lia) a y) as (mx' & E & H). exists mx'. split.
    + destruct (shape_eqb y x) eqn:E1; [|exact E]. apply shape_eqb_iff in E1. now subst y.
    + rewrite H. cbn [length Nat.odd]. rewrite Nat.odd_succ_succ. split.
      * intros (k & Hk & HN). exists (S (S k)). split; [destruct Hk as [->|[O Hk]]; [now left|right; split; [exact O|lia]]|exact HN].
      * intros (k & Hk & HN). destruct k as [|[|k]].
        -- destruct Hk as [Hk|[_ Hk]]; lia.
        -- destruct Hk as [Hk|[O Hk]]; [lia|]. assert (L0 : length l = 0%nat) by lia. rewrite L0 in O. discriminate.
        -- exists k. split; [destruct Hk as [Hk|[O Hk]]; [left; lia|right; split; [exact O|lia]]|exact HN].
Qed.
Lemma minmax_element_eq a l : exists mx, minmax_element shape_eqb (a :: l) = Some (a, mx) /\
  (mx <> a <-> exists k, (S k = length (a :: l) \/ Nat.odd (length (a :: l)) = true /\ S (S k) = length (a :: l)) /\ nth k (a :: l) a <> a).
Proof.
  destruct l as [|b l].
  - exists a. split; [reflexivity|]. split; [intros H; now elim H|]. intros ([|[|k]] & _ & H); now elim H.
  - cbn [minmax_element]. destruct (minmax_loop_eq l a b) as (mx & E & H). exists mx. split.
    + destruct (shape_eqb b a) eqn:E1; [|now rewrite E]. apply shape_eqb_iff in E1. subst b. now rewrite E.
    + rewrite H. cbn [length]. rewrite Nat.odd_succ_succ. split.
      * intros (k & Hk & HN). exists (S k). split; [destruct Hk as [->|[O Hk]]; [now left|right; split; [exact O|lia]]|exact HN].
      * intros (k & Hk & HN). destruct k as [|k].
        -- now elim HN.
        -- exists k. split; [destruct Hk as [Hk|[O Hk]]; [left; lia|right; split; [exact O|lia]]|exact HN].
Qed.
Lemma find_bad_none l : Forall (fun x => bad_shape x = false) l -> find bad_shape l = None.
Proof. induction 1 as [|x l H1 H2 IH]; cbn [find]; auto. now rewrite H1. Qed.
Lemma shape_of_const checks s n : shape_of_list checks (repeat (LShape s) (S n)) = LShape (Z.of_nat (S n) :: s).
Proof.
  unfold shape_of_list. rewrite find_bad_none by (apply Forall_forall; intros x Hx; apply repeat_spec in Hx; now subst).
  assert (E : map shape_known (repeat (LShape s) (S n)) = repeat s (S n)) by (generalize (S n); intros k; induction k as [|k IH]; cbn [repeat map]; auto; now rewrite IH).
  rewrite E, minmax_const, shape_eqb_refl, andb_false_r, repeat_length. reflexivity.
Qed.
Lemma map_const {A B} (f : A -> B) y l : (forall x, In x l -> f x = y) -> map f l = repeat y (length l).
Proof. induction l as [|x l IH]; intros H; cbn [map repeat length]; auto. rewrite H by now left. f_equal. apply IH. intros z Hz. apply H. now right. Qed.
Lemma shape_rect2 {V} checks n (l : list (list V)) : rectangular n l -> l <> [] -> shape_of_list2 checks l = LShape [Z.of_nat (length l); Z.of_nat n].
Proof.
  intros Hr Hn. unfold shape_of_list2. rewrite (map_const _ (LShape [Z.of_nat n])) by (intros x Hx; unfold shape_of_list1; now rewrite (Hr x Hx)).
  destruct l as [|x l]; [congruence|]. cbn [length]. apply shape_of_const.
Qed.
Lemma shape_rect3 {V} checks n k (l : list (list (list V))) : rectangular n l -> (forall l2, In l2 l -> rectangular k l2) -> l <> [] -> (0 < n)%nat ->
  shape_of_list3 checks l = LShape [Z.of_nat (length l); Z.of_nat n; Z.of_nat k].
Proof.
  intros Hr Hk Hn Hp. unfold shape_of_list3. rewrite (map_const _ (LShape [Z.of_nat n; Z.of_nat k])).
  - destruct l as [|x l]; [congruence|]. cbn [length]. apply shape_of_const.
  - intros x Hx. rewrite (shape_rect2 checks k) by (auto; intros ->; specialize (Hr [] Hx); cbn [length] in Hr; lia). now rewrite (Hr x Hx).
Qed.

(** ** diagonals *)
Lemma rank2 m : rank m = 2%nat -> exists n k, im_len m = [n; k].
Proof. unfold rank. destruct (im_len m) as [|n [|k [|]]]; try discriminate. eauto. Qed.
Lemma in_view2 a n k i j : im_len (v_lay a) = [n; k] -> in_view a [i; j] <-> 0 <= i < n /\ 0 <= j < k.
Proof.
  intros E. unfold in_view, valid_idx. rewrite E. split.
  - intros H. inversion H as [|x y t u H1 H2]; subst. inversion H2; subst. auto.
  - intros [H1 H2]. repeat constructor; unfold inr; lia.
Qed.
Lemma in_view2_inv a n k idx : im_len (v_lay a) = [n; k] -> in_view a idx -> exists i j, idx = [i; j] /\ 0 <= i < n /\ 0 <= j < k.
Proof.
  intros E H. unfold in_view, valid_idx in H. rewrite E in H. inversion H as [|i y t u H1 H2]; subst. inversion H2 as [|j y' t' u' H3 H4]; subst. inversion H4; subst.
  exists i, j. auto.
Qed.
Lemma in_view1 a n idx : im_len (v_lay a) = [n] -> in_view a idx <-> exists i, idx = [i] /\ 0 <= i < n.
Proof.
  intros E. unfold in_view, valid_idx. rewrite E. split.
  - intros H. inversion H as [|i y t u H1 H2]; subst. inversion H2; subst. exists i. auto.
  - intros (i & -> & Hi). repeat constructor; unfold inr; lia.
Qed.
Lemma diagonal_len a n k : im_len (v_lay a) = [n; k] -> im_len (v_lay (diagonal a)) = [Z.min n k].
Proof. intros E. unfold diagonal. cbn [v_lay idx_map_of_shape_strides im_len]. rewrite E. reflexivity. Qed.
Lemma diagonal_cell a i : wf (v_lay a) -> rank (v_lay a) = 2%nat -> cell (diagonal a) [i] = cell a [i; i].
Proof.
  intros (Ls & _) R. unfold rank in R. rewrite R in Ls. unfold cell, addr, diagonal. cbn [v_lay v_base idx_map_of_shape_strides im_str].
  destruct (im_str (v_lay a)) as [|s0 [|s1 [|]]]; try discriminate. cbn [dot sumZ fold_right]. ring.
Qed.
Lemma diagonal_usable a : usable (v_lay a) -> rank (v_lay a) = 2%nat -> usable (v_lay (diagonal a)).
Proof.
  intros U R. destruct (rank2 _ R) as (n & k & E). pose proof (usable_wf _ U) as W. pose proof W as (Ls & _ & _ & Hnn & _). rewrite E in Hnn. inversion Hnn as [|x l H1 H2]; subst. inversion H2 as [|x l H3 H4]; subst.
  split; [split|].
  - unfold wf. rewrite (diagonal_len a n k E). unfold diagonal. cbn [v_lay idx_map_of_shape_strides im_len im_str im_so im_se length].
    split; auto. split; [apply is_perm_identity|]. split; auto. split; [|lia]. constructor; [lia|constructor].
  - split; discriminate.
  - intros x y Hx Hy Ea. pose proof (diagonal_len a n k E) as Ed. apply (in_view1 (diagonal a) _ x Ed) in Hx. apply (in_view1 (diagonal a) _ y Ed) in Hy.
    destruct Hx as (i & -> & Hi), Hy as (j & -> & Hj). assert (Ec : cell a [i; i] = cell a [j; j]) by (rewrite <- !diagonal_cell by auto; unfold cell; now rewrite Ea).
    apply cell_inj in Ec; auto; [now injection Ec as ->| |]; apply (in_view2 a n k); auto; lia.
Qed.
Lemma diag_spec {V} (A : arith V) checks base n (r : rhs V) m : 0 <= n -> reads_outside (c_array base [n; n]) [n] r ->
  exists m', diag A checks base n r m = (c_array base [n; n], Some m') /\
    (forall i j, 0 <= i < n -> 0 <= j < n -> m' (cell (c_array base [n; n]) [i; j]) = if i =? j then rhs_value r m [i] else v_zero A) /\ unchanged_outside (c_array base [n; n]) m m'.
Proof.
  intros Hn [Hr Hread]. set (a := c_array base [n; n]). assert (Hs : Forall (fun l => 0 <= l) [n; n]) by (repeat constructor; auto). assert (Hrk : (0 < length [n; n] < 16)%nat) by (cbn [length]; lia).
  pose proof (c_array_usable base [n; n] Hs Hrk) as U. fold a in U.
  unfold diag. pose proof (zeros_spec (v_zero A) (identity 2) base [n; n] m (is_perm_identity 2) Hs Hrk) as HZ. destruct (zeros (v_zero A) (identity 2) base [n; n] m) as [a0 m0].
  destruct HZ as (-> & Hz & Hu). change (new_array (identity 2) base [n; n]) with a in *.
  assert (Ed : im_len (v_lay (diagonal a)) = [n]) by (rewrite (diagonal_len a n n) by reflexivity; now rewrite Z.min_id).
  assert (Hsub : forall x, is_cell_of (diagonal a) x -> is_cell_of a x).
  { intros x (idx & Hi & ->). apply (in_view1 (diagonal a) n) in Hi; auto. destruct Hi as (i & -> & Hi). rewrite diagonal_cell by auto. exists [i; i]. split; auto. apply (in_view2 a n n); auto. }
  destruct (assign_host_value checks (diagonal a) r m0) as (m' & Em & Hh & Hu').
  { now apply diagonal_usable. } { intros src ->. rewrite Ed. now apply Hr. }
  { intros idx m1 m2 Hi Ha. apply Hread; [unfold in_view, valid_idx in Hi; now rewrite Ed in Hi|]. intros x Hx. apply Ha. right. intros C. apply Hx. auto. }
  rewrite Ed in Em. rewrite Em. exists m'. split; auto. split.
  - intros i j Hi Hj. destruct (Z.eqb_spec i j) as [<-|Hne].
    + rewrite <- diagonal_cell by auto. assert (Hv : in_view (diagonal a) [i]) by (apply (in_view1 (diagonal a) n); eauto).
      rewrite (Hh [i] Hv). apply Hread; [unfold in_view, valid_idx in Hv; now rewrite Ed in Hv|]. intros x Hx. now apply Hu.
    + assert (Hv : in_view a [i; j]) by (apply (in_view2 a n n); auto). rewrite Hu'; [now apply (Hz [i; j])|]. intros (idx & Hi2 & Ec). apply (in_view1 (diagonal a) n) in Hi2; auto. destruct Hi2 as (k & -> & Hk).
      rewrite diagonal_cell in Ec by auto. apply cell_inj in Ec; auto; [injection Ec as -> ->; congruence|]. apply (in_view2 a n n); auto.
  - intros x Hx. rewrite Hu' by (intros C; apply Hx; auto). now apply Hu.
Qed.

(** ** blocks of rows *)
Lemma rows_slice base n q lo hi : 0 <= lo <= hi -> hi <= n -> 0 <= q ->
  exists v, slice_view AlgM (c_array base [n; q]) [ARange (Range lo hi 1); AAll] = Some (AlgM, v) /\ usable (v_lay v) /\ im_len (v_lay v) = [hi - lo; q] /\
    forall i j, cell v [i; j] = cell (c_array base [n; q]) [lo + i; j].
Proof.
  intros Hlo Hhi Hq. set (res := c_array base [n; q]). set (args := [ARange (Range lo hi 1); AAll]).
  assert (Hs : Forall (fun l => 0 <= l) [n; q]) by (repeat constructor; lia). assert (Hr : (0 < length [n; q] < 16)%nat) by (cbn [length]; lia).
  pose proof (c_array_usable base [n; q] Hs Hr) as U. fold res in U.
  assert (Hv : view_of (fun _ => True) (prodZ [n; q]) 0 (v_lay res)) by (apply vo_fresh; auto; apply is_perm_identity).
  destruct (slice (v_lay res) args) as [[o lay]|] eqn:E.
  2:{ rewrite slice_some in E; [discriminate|]. left. split; reflexivity. }
  assert (HD : some_dim_left (rank (v_lay res)) args) by (exists AAll; split; [right; left; reflexivity|reflexivity]).
  assert (Hb : args_in_bounds (expand_args (rank (v_lay res)) args) (im_len (v_lay res))).
  { change (expand_args (rank (v_lay res)) args) with args. constructor; [|constructor; [exact I|constructor]]. intros x [Hx Hx2]. cbn [r_last r_step r_first] in *.
    destruct ((hi =? -1) && (0 <? 1)) eqn:Eh; [apply andb_true_iff in Eh; lia|]. change (0 <? 1) with true in Hx2. cbn [andb] in Hx2. nia. }
  assert (Hv' : view_of (fun _ => True) (prodZ [n; q]) (0 + o) lay).
  { eapply vo_slice; eauto. intros r [Hr2|[Hr2|[]]]; [injection Hr2 as <-|discriminate]. split; auto. discriminate. }
  pose proof (view_usable _ _ _ _ Hv') as U'. pose proof (usable_wf _ U') as W'.
  assert (Elen : im_len lay = [hi - lo; q]).
  { destruct (slice_inv _ _ _ E) as [Hok E2]. rewrite slice_impl_expand in E2 by auto. injection E2 as _ ->. cbn [im_len]. change (expand_args (rank (v_lay res)) args) with args.
    unfold args. cbn [slice_len is_range get_l]. change (im_len (v_lay res)) with [n; q]. cbn [slice_len is_range get_l r_last r_step r_first].
    destruct ((hi =? -1) && (0 <? 1)) eqn:Eh; [apply andb_true_iff in Eh; lia|]. f_equal. unfold range_size. cbn [r_last r_step r_first]. change (0 <? 1) with true. cbv iota.
    rewrite Z.div_1_r. lia. }
  exists (View lay (v_base res + o)). split.
  - unfold slice_view. rewrite E. unfold rank. rewrite Elen. reflexivity.
  - split; auto. split; auto. intros i j. unfold cell. cbn [v_lay v_base]. rewrite <- Z.add_assoc. rewrite (slice_addr (v_lay res) args o lay [i; j]); auto.
    + change (expand_args (rank (v_lay res)) args) with args. unfold args. cbn [parent_idx r_first r_step]. now rewrite Z.mul_1_r.
    + unfold rank. rewrite Elen. reflexivity.
Qed.
Lemma vstack_spec {V} checks base n p q (ra rb : rhs V) m : 0 <= n -> 0 <= p -> 0 <= q ->
  reads_outside (c_array base [n + p; q]) [n; q] ra -> reads_outside (c_array base [n + p; q]) [p; q] rb ->
  exists m', vstack checks base [n; q] ra [p; q] rb m = Some (c_array base [n + p; q], m') /\
    (forall i j, 0 <= i < n + p -> 0 <= j < q -> m' (cell (c_array base [n + p; q]) [i; j]) = if i <? n then rhs_value ra m [i; j] else rhs_value rb m [i - n; j]) /\
    unchanged_outside (c_array base [n + p; q]) m m'.
Proof.
  intros Hn Hp Hq [Ha1 Ha2] [Hb1 Hb2]. set (res := c_array base [n + p; q]) in *. unfold vstack. unfold nthZ. cbn [nth]. rewrite Z.eqb_refl, andb_false_r.
  assert (U : usable (v_lay res)) by (apply c_array_usable; [repeat constructor; lia|cbn [length]; lia]).
  destruct (rows_slice base (n + p) q 0 n) as (top & -> & Ut & Et & Ct); try lia.
  destruct (rows_slice base (n + p) q n (n + p)) as (bot & -> & Ub & Eb & Cb); try lia. fold res in Ct, Cb.
  rewrite Z.sub_0_r in Et. replace (n + p - n) with p in Eb by ring.
  assert (Hst : forall c, is_cell_of top c -> is_cell_of res c).
  { intros c (idx & Hi & ->). destruct (in_view2_inv _ _ _ _ Et Hi) as (i & j & -> & Hi1 & Hj1). rewrite Ct. exists [0 + i; j]. split; auto. apply (in_view2 res (n + p) q); auto; lia. }
  assert (Hsb : forall c, is_cell_of bot c -> is_cell_of res c).
  { intros c (idx & Hi & ->). destruct (in_view2_inv _ _ _ _ Eb Hi) as (i & j & -> & Hi1 & Hj1). rewrite Cb. exists [n + i; j]. split; auto. apply (in_view2 res (n + p) q); auto; lia. }
  destruct (assign_host_value checks top ra m Ut) as (m1 & E1 & H1 & U1).
  { rewrite Et. auto. } { intros idx ma mb Hi Hc. apply Ha2; [unfold in_view, valid_idx in Hi; now rewrite Et in Hi|]. intros c Hc2. apply Hc. right. auto. }
  rewrite Et in E1. rewrite E1.
  destruct (assign_host_value checks bot rb m1 Ub) as (m2 & E2 & H2 & U2).
  { rewrite Eb. auto. } { intros idx ma mb Hi Hc. apply Hb2; [unfold in_view, valid_idx in Hi; now rewrite Eb in Hi|]. intros c Hc2. apply Hc. right. auto. }
  rewrite Eb in E2. rewrite E2. exists m2. split; [reflexivity|]. split.
  - intros i j Hi Hj. destruct (Z.ltb_spec i n) as [Hl|Hl].
    + assert (Hv : in_view top [i; j]) by (apply (in_view2 top n q); auto; lia). replace (cell res [i; j]) with (cell top [i; j]) by (rewrite Ct; do 2 f_equal; lia).
      rewrite U2; [now apply (H1 [i; j])|]. intros (idx & Hi2 & Ec). destruct (in_view2_inv _ _ _ _ Eb Hi2) as (i' & j' & -> & Hi' & Hj'). rewrite Ct, Cb in Ec.
      apply cell_inj in Ec; auto; [injection Ec as Ei Ej; lia| |]; apply (in_view2 res (n + p) q); auto; lia.
    + assert (Hv : in_view bot [i - n; j]) by (apply (in_view2 bot p q); auto; lia). replace (cell res [i; j]) with (cell bot [i - n; j]) by (rewrite Cb; do 2 f_equal; lia).
      rewrite (H2 _ Hv). apply Hb2; [unfold in_view, valid_idx in Hv; now rewrite Eb in Hv|]. intros c Hc. apply U1. auto.
  - intros c Hc. rewrite U2 by auto. apply U1. auto.
Qed.
