(** Lemmas about writing, names and character buffers. *)
From Verif Require Import Base M_Perm M_IdxMap M_Slice M_Loops M_Assign M_Expr M_Transform M_Mpi M_H5 S_Layout S_Assign S_Mpi S_H5 L_Perm L_IdxMap L_Slice L_Layout L_Loops L_Assign L_Transform L_SymGrp L_Mpi L_H5 L_H52.
From Coq Require Import DecimalString DecimalN.
From Coq Require String Ascii.

(** ** slices of the file and of memory *)
Lemma slice_content {V} (d : dataset V) b args o lay : good_lengths (ds_len d) -> slice (v_lay (c_array b (ds_len d))) args = Some (o, lay) ->
  let ex := expand_args (length (ds_len d)) args in
  args_ok (length (ds_len d)) args /\ im_len lay = slice_len ex (ds_len d) /\
  forall j, length j = length (im_len lay) -> cell (View lay (b + o)) j = cell (c_array b (ds_len d)) (parent_idx ex j).
Proof.
  intros [G1 G2] H ex. assert (G0 : Forall (fun l => 0 <= l) (ds_len d)) by (eapply Forall_impl; [|exact G1]; cbv beta; lia).
  assert (W : wf (v_lay (c_array b (ds_len d)))) by (eapply plain_wf; apply (c_array_plain b (ds_len d)); auto).
  assert (R : rank (v_lay (c_array b (ds_len d))) = length (ds_len d)) by reflexivity.
  destruct (slice_inv _ _ _ H) as [Hok E]. rewrite R in Hok. split; [exact Hok|]. rewrite (slice_impl_expand _ _ W) in E by (now rewrite R). split.
  - injection E as _ ->. reflexivity.
  - intros j Lj. pose proof (slice_addr _ _ _ _ j W H Lj) as A. unfold cell. cbn [v_lay v_base]. rewrite R in A. fold ex in A.
    change (v_base (c_array b (ds_len d))) with b. lia.
Qed.
Lemma parent_idx_inj ex : steps_nonzero ex -> count_ell ex = 0%nat -> forall j k, length j = n_kept ex -> length k = n_kept ex -> parent_idx ex j = parent_idx ex k -> j = k.
Proof.
  intros Hs H0. induction ex as [|a ex IH]; intros j k Lj Lk E.
  - destruct j, k; cbn in Lj, Lk; congruence.
  - assert (Hne : is_ellipsis a = false) by (apply (count_ell_0 (a :: ex)); auto; now left).
    assert (H0' : count_ell ex = 0%nat) by (unfold count_ell in *; cbn [filter] in H0; rewrite Hne in H0; exact H0).
    assert (IH' := IH (fun r Hr => Hs r (or_intror Hr)) H0').
    pose proof (n_kept_app [a] ex) as K. cbn [app] in K. rewrite K in Lj, Lk.
    destruct a as [i|r| |]; try discriminate.
    + cbn [parent_idx] in E. injection E as E. apply IH'; auto.
    + change (n_kept [ARange r]) with 1%nat in *. destruct j as [|x j]; [discriminate|]. destruct k as [|y k]; [discriminate|]. cbn [parent_idx] in E. injection E as E1 E2.
      pose proof (Hs r (or_introl eq_refl)). f_equal; [nia|]. apply IH'; cbn in Lj, Lk; auto; lia.
    + change (n_kept [AAll]) with 1%nat in *. destruct j as [|x j]; [discriminate|]. destruct k as [|y k]; [discriminate|]. cbn [parent_idx] in E. injection E as E1 E2.
      f_equal; [assumption|]. apply IH'; cbn in Lj, Lk; auto; lia.
Qed.

Lemma count_int_expand n args : count_int (expand_args n args) = count_int args.
Proof.
  unfold expand_args. generalize (n + 1 - length args)%nat. intros k. induction args as [|a args IH]; [reflexivity|].
  destruct a; cbn [expand]; unfold count_int in *; cbn [filter is_long length]; auto.
  rewrite filter_app, app_length. pose proof (count_int_all k) as E. unfold count_int in E. now rewrite E.
Qed.
(** ** writing *)
Lemma prod_pos_dims shape : Forall (fun l => 0 <= l) shape -> 0 < prodZ shape -> Forall (fun l => 0 < l) shape.
Proof.
  induction 1 as [|l shape Hl H IH]; intros P; constructor; rewrite prodZ_cons in P; pose proof (prodZ_nonneg _ H); [nia|]. apply IH. nia.
Qed.
Lemma buffer_plain {V} v shape (m : mem V) : c_plain v shape -> buffer (v_base v) (prodZ shape) m = map (fun idx => m (cell v idx)) (all_idx shape).
Proof.
  intros P. destruct (plain_shape _ _ _ P) as (Hs & Ho & HR). rewrite all_idx_digits by auto. unfold buffer. rewrite map_map. apply map_ext_in. intros k Hk.
  apply zseq_In in Hk. assert (Hp : Forall (fun l => 0 < l) shape) by (apply prod_pos_dims; auto; lia).
  rewrite (c_plain_cell _ _ _ P) by now apply digits_in_range. now rewrite radix_digits.
Qed.
Lemma write_direct_all {V} cplx a shape old (m : mem V) : c_plain a shape ->
  exists d, write_direct cplx a None old m = Some d /\ ds_len d = shape /\ ds_cplx d = cplx /\ forall idx, in_range idx shape -> ds_val d idx = m (cell a idx).
Proof.
  intros P. destruct (plain_shape _ _ _ P) as (Hs & Ho & HR). pose proof P as (_ & Ll & _). unfold write_direct. rewrite Ll. eexists. split; [reflexivity|]. cbn [ds_len ds_cplx ds_val]. split; [reflexivity|]. split; [reflexivity|].
  intros idx Hi. rewrite (buffer_plain _ _ m P). pose proof (radix_bound _ _ Hi) as B. pose proof (all_idx_length shape Hs) as La.
  rewrite (nth_map_lt _ _ _ _ idx) by lia. now rewrite nth_all_idx.
Qed.
Lemma fold_set {V J} (g : J -> list Z) (h : J -> V) (js : list J) : forall f, NoDup (map g js) ->
  let F := fold_left (fun f cv => set_val f (fst cv) (snd cv)) (combine (map g js) (map h js)) f in
  (forall j, In j js -> F (g j) = h j) /\ (forall x, ~ In x (map g js) -> F x = f x).
Proof.
  induction js as [|j0 js IH]; intros f N F; subst F; cbn [map combine fold_left fst snd] in *.
  - split; [intros j []|auto].
  - inversion N as [|x0 l0 N1 N2 E0]; subst x0 l0. destruct (IH (set_val f (g j0) (h j0)) N2) as [I1 I2]. split.
    + intros j [<-|Hj]; [|now apply I1]. rewrite I2 by auto. unfold set_val. destruct (list_eq_dec _ _ _); congruence.
    + intros x Hx. rewrite I2 by (intros Hx'; apply Hx; now right). unfold set_val. destruct (list_eq_dec _ _ _) as [->|]; auto. exfalso. apply Hx. now left.
Qed.
Lemma write_direct_slice {V} cplx a args (d : dataset V) (m : mem V) : let ex := expand_args (length (ds_len d)) args in let shape := slice_len ex (ds_len d) in
  good_lengths (ds_len d) -> args_ok (length (ds_len d)) args -> forward_ranges args -> longs args -> args_in_bounds ex (ds_len d) -> ds_cplx d = cplx -> c_plain a shape ->
  exists d', write_direct cplx a (Some args) (Some d) m = Some d' /\ ds_len d' = ds_len d /\ ds_cplx d' = cplx /\
    (forall j, in_range j shape -> ds_val d' (parent_idx ex j) = m (cell a j)) /\
    (forall x, (forall j, in_range j shape -> x <> parent_idx ex j) -> ds_val d' x = ds_val d x).
Proof.
  intros ex shape G Hok Hf Hl Hb Hc P. pose proof P as (_ & Ll & _). unfold write_direct. rewrite Ll, Hc, eqb_reflx. cbn [negb].
  destruct (sel_slab d args G Hok Hf Hl) as (h & E & _ & _ & _ & Hp). pose proof (expand_args_length _ _ Hok) as Lex. fold ex in E, Lex, Hp. fold shape in E, Hp.
  assert (Lk : length shape = n_kept ex) by (apply slice_len_length; auto). rewrite Lk. rewrite Hc in E, Hp. rewrite E. destruct (list_eq_dec _ _ _); [|contradiction]. rewrite Hp, (buffer_plain _ _ m P).
  unfold file_write. rewrite <- Hc in E. destruct (sel_spec d args G Hok Hf Hl h E) as [_ S]. rewrite (S Hb). cbn [option_map]. fold ex. fold shape. eexists. split; [reflexivity|]. cbn [ds_len ds_cplx ds_val].
  split; [reflexivity|]. split; [exact Hc|].
  assert (Sn : steps_nonzero ex). { intros r Hr. pose proof (expand_slab_args _ _ Hok Hf Hl) as Sa. rewrite Forall_forall in Sa. destruct (Sa _ Hr) as [_ X]. cbv beta iota in X. lia. }
  assert (N : NoDup (map (parent_idx ex) (all_idx shape))).
  { assert (Q : forall l, NoDup l -> (forall j, In j l -> in_range j shape) -> NoDup (map (parent_idx ex) l)).
    { induction l as [|j l IH]; intros Nl Hl'; cbn [map]; constructor.
      - inversion Nl as [|x0 l0 N1 N2 E0]; subst x0 l0. intros Hin. apply in_map_iff in Hin. destruct Hin as (k & Ek & Hk). apply N1.
        rewrite <- (parent_idx_inj ex Sn (expand_no_ell _ _ Hok) k j); auto.
        + rewrite <- Lk. apply in_range_length. apply Hl'. now right.
        + rewrite <- Lk. apply in_range_length. apply Hl'. now left.
      - inversion Nl as [|x0 l0 N1 N2 E0]; subst x0 l0. apply IH; auto. intros k Hk. apply Hl'. now right. }
    apply Q; [apply all_idx_NoDup|]. intros j. apply all_idx_In. }
  destruct (fold_set (parent_idx ex) (fun idx => m (cell a idx)) (all_idx shape) (ds_val d) N) as [F1 F2]. split.
  - intros j Hj. apply F1. now apply all_idx_In.
  - intros x Hx. apply F2. intros Hin. apply in_map_iff in Hin. destruct Hin as (j & <- & Hj). apply (Hx j); auto. now apply all_idx_In.
Qed.
(** the copy into C layout *)
Lemma write_copy {V} checks tmp a (m : mem V) : forward_view a -> (0 < rank (v_lay a) < 16)%nat -> disjoint (c_array tmp (im_len (v_lay a))) a ->
  exists w m1, c_plain w (im_len (v_lay a)) /\ (forall idx, in_range idx (im_len (v_lay a)) -> m1 (cell w idx) = m (cell a idx)) /\
    forall cplx sl old, h5_write checks cplx tmp a sl old m = write_direct cplx w sl old m1.
Proof.
  intros (n & off & Hv) HR D. pose proof (view_usable _ _ _ _ Hv) as U. pose proof (usable_wf _ U) as W. unfold h5_write.
  destruct (is_stride_order_C (v_lay a) && is_contiguous (v_lay a)) eqn:B.
  - apply andb_true_iff in B. destruct B as [B1 B2]. exists a, m. split; [|auto]. split; [eauto|]. split; [reflexivity|]. split; [|exact B2].
    unfold is_stride_order_C in B1. destruct (list_eq_dec _ _ _) as [E|]; [exact E|discriminate].
  - assert (Hs : Forall (fun l => 0 <= l) (im_len (v_lay a))) by apply W. pose proof (c_array_plain tmp (im_len (v_lay a)) Hs HR) as P.
    destruct (copy_to checks (c_array tmp (im_len (v_lay a))) a (im_len (v_lay a)) (fun idx => m (cell a idx)) m m) as (m1 & E & Hh & _); auto; [eapply plain_usable; exact P|intros j Hj; reflexivity|intros x _; reflexivity|].
    rewrite E. exists (c_array tmp (im_len (v_lay a))), m1. split; [exact P|]. split; [|auto]. intros idx Hi. apply Hh. exact Hi.
Qed.

(** ** names of elements *)
Fixpoint no_char (c : Ascii.ascii) (s : String.string) : Prop := match s with String.EmptyString => True | String.String x s' => x <> c /\ no_char c s' end.
Lemma uint_no_underscore u : no_char underscore (NilEmpty.string_of_uint u).
Proof. induction u; cbn [NilEmpty.string_of_uint no_char]; auto; split; auto; discriminate. Qed.
Lemma to_string_no_underscore i : no_char underscore (to_string i).
Proof. unfold to_string, NilZero.string_of_uint. destruct (N.to_uint (Z.to_N i)) eqn:E; rewrite <- ?E; try apply uint_no_underscore. cbn. split; [discriminate|exact I]. Qed.
Lemma to_string_inj i j : 0 <= i -> 0 <= j -> to_string i = to_string j -> i = j.
Proof.
  intros Hi Hj E. unfold to_string in E. assert (Nn : forall n, N.to_uint n <> Decimal.Nil). { intros n H. pose proof (DecimalN.Unsigned.to_of (N.to_uint n)) as X. rewrite H in X. apply (f_equal (fun d => d)) in H.
    pose proof (DecimalN.Unsigned.of_to n) as Y. rewrite H in Y. cbn in Y. subst n. discriminate. }
  assert (F : N.to_uint (Z.to_N i) = N.to_uint (Z.to_N j)). { pose proof (NilZero.usu _ (Nn (Z.to_N i))) as A. pose proof (NilZero.usu _ (Nn (Z.to_N j))) as B. rewrite E in A. congruence. }
  apply DecimalN.Unsigned.to_uint_inj in F. lia.
Qed.
Lemma split_unique c a : forall b r r', no_char c a -> no_char c b -> String.append a (String.String c r) = String.append b (String.String c r') -> a = b /\ r = r'.
Proof.
  induction a as [|x a IH]; intros [|y b] r r' Ha Hb E; cbn [String.append no_char] in *.
  - injection E as E. auto.
  - injection E as E1 E2. destruct Hb as [Hb _]. congruence.
  - injection E as E1 E2. destruct Ha as [Ha _]. congruence.
  - injection E as -> E. destruct (IH b r r' (proj2 Ha) (proj2 Hb) E) as [-> ->]. auto.
Qed.
Lemma make_name_inj i : forall j, length i = length j -> Forall (fun x => 0 <= x) i -> Forall (fun x => 0 <= x) j -> make_name i = make_name j -> i = j.
Proof.
  induction i as [|x i IH]; intros [|y j] L Hi Hj E; try discriminate; [reflexivity|]. apply Forall_cons_iff in Hi, Hj. destruct Hi as [Hx Hi], Hj as [Hy Hj].
  destruct i as [|x' i], j as [|y' j]; try discriminate.
  - f_equal. now apply to_string_inj.
  - change (String.append (to_string x) (String.String underscore (make_name (x' :: i))) = String.append (to_string y) (String.String underscore (make_name (y' :: j)))) in E.
    apply split_unique in E; try apply to_string_no_underscore. destruct E as [E1 E2]. f_equal; [now apply to_string_inj|]. apply IH; auto.
Qed.
Lemma in_range_nonneg j shape : in_range j shape -> Forall (fun x => 0 <= x) j.
Proof. induction 1 as [|x l j shape Hx H IH]; constructor; auto; apply Hx. Qed.
Lemma generic_write {V} (shape : list Z) (a : list Z -> V) : forall l g, (forall j, In j l -> in_range j shape) ->
  let g' := fold_left (fun g idx => set_elem g (make_name idx) (a idx)) l g in
  g_shape g' = g_shape g /\ forall j, in_range j shape -> In j l \/ g_elem g (make_name j) = Some (a j) -> g_elem g' (make_name j) = Some (a j).
Proof.
  induction l as [|i l IH]; intros g Hl g'; subst g'; cbn [fold_left].
  - split; auto. intros j _ [[]|H]; auto.
  - destruct (IH (set_elem g (make_name i) (a i)) (fun j Hj => Hl j (or_intror Hj))) as [I1 I2]. split; [exact I1|]. intros j Hj H. apply I2; auto.
    destruct (list_eq_dec Z.eq_dec j i) as [->|N].
    + right. cbn [set_elem g_elem]. now rewrite String.eqb_refl.
    + destruct H as [[->|H]|H]; [congruence|now left|]. right. cbn [set_elem g_elem]. destruct (String.eqb_spec (make_name j) (make_name i)) as [E|]; auto.
      exfalso. apply N. pose proof (Hl i (or_introl eq_refl)) as Hi. apply make_name_inj; eauto using in_range_nonneg. apply in_range_length in Hj, Hi. congruence.
Qed.
Lemma generic_read {V} (g : group V) (a : list Z -> V) l : (forall j, In j l -> g_elem g (make_name j) = Some (a j)) -> forall acc,
  fold_left (fun acc idx => match acc, g_elem g (make_name idx) with Some l, Some v => Some (l ++ [(idx, v)]) | _, _ => None end) l (Some acc) = Some (acc ++ map (fun j => (j, a j)) l).
Proof.
  induction l as [|j l IH]; intros H acc; cbn [fold_left map]; [now rewrite List.app_nil_r|]. rewrite (H j (or_introl eq_refl)), IH by (intros k Hk; apply H; now right). now rewrite <- app_assoc.
Qed.

(** ** strings *)
Lemma c_str_id s : ~ In 0 s -> c_str s = s.
Proof. induction s as [|c s IH]; intros H; cbn [c_str]; auto. destruct (Z.eqb_spec c 0) as [->|]; [exfalso; apply H; now left|]. f_equal. apply IH. intros X. apply H. now right. Qed.
Lemma read_c_str_app s r : ~ In 0 s -> read_c_str (s ++ 0 :: r) = Some s.
Proof. induction s as [|c s IH]; intros H; cbn [app read_c_str]; auto. destruct (Z.eqb_spec c 0) as [->|]; [exfalso; apply H; now left|]. rewrite IH; auto. intros X. apply H. now right. Qed.
Definition row (s : nat) (x : cpp_string) : list Z := x ++ repeat 0 (s - length x).
Lemma row_length_ge (v : list cpp_string) : forall k, (k <= fold_left (fun s x => Nat.max s (length x + 1)) v k)%nat /\ forall x, In x v -> (length x + 1 <= fold_left (fun s x => Nat.max s (length x + 1)) v k)%nat.
Proof.
  induction v as [|y v IH]; intros k; cbn [fold_left]; [split; [lia|intros x []]|]. destruct (IH (Nat.max k (length y + 1))) as [I1 I2]. split; [lia|]. intros x [->|Hx]; [lia|auto].
Qed.
Lemma copy_rows_spec s (v : list cpp_string) : (forall x, In x v -> ~ In 0 x /\ (length x + 1 <= s)%nat) -> forall i P, length P = (i * s)%nat ->
  copy_rows s i v (P ++ repeat 0 (length v * s)) = Some (P ++ concat (map (row s) v)).
Proof.
  induction v as [|x v IH]; intros H i P LP; cbn [copy_rows length Nat.mul map concat]; [reflexivity|].
  destruct (H x (or_introl eq_refl)) as [H0 HL]. unfold strcpy. rewrite c_str_id by auto. rewrite app_length, repeat_length.
  destruct (Nat.leb_spec (i * s + length x + 1) (length P + (s + length v * s))); [|lia].
  assert (E : firstn (i * s) (P ++ repeat 0 (s + length v * s)) ++ x ++ [0] ++ skipn (i * s + length x + 1) (P ++ repeat 0 (s + length v * s)) = (P ++ row s x) ++ repeat 0 (length v * s)).
  { rewrite firstn_app, <- LP, Nat.sub_diag, firstn_all. cbn [firstn]. rewrite List.app_nil_r, <- app_assoc. f_equal. unfold row. rewrite <- app_assoc. f_equal.
    rewrite skipn_app. rewrite skipn_all2 by lia. cbn [app]. replace (length P + length x + 1 - length P)%nat with (length x + 1)%nat by lia.
    replace (s + length v * s)%nat with ((length x + 1) + ((s - length x - 1) + length v * s))%nat by lia. rewrite repeat_app, skipn_app, repeat_length, Nat.sub_diag, skipn_all2 by (rewrite repeat_length; lia).
    cbn [skipn app]. rewrite repeat_app. replace (s - length x)%nat with (S (s - length x - 1)) by lia. cbn [repeat app]. f_equal. f_equal. f_equal. lia. }
  rewrite E. rewrite (IH (fun y Hy => H y (or_intror Hy)) (S i) (P ++ row s x)).
  - now rewrite <- app_assoc.
  - unfold row. rewrite !app_length, repeat_length, LP. cbn [Nat.mul]. lia.
Qed.
Lemma all_some_map {A B} (f : A -> option B) (g : A -> B) l : (forall x, In x l -> f x = Some (g x)) -> M_Mpi.all_some (map f l) = Some (map g l).
Proof. induction l as [|x l IH]; intros H; cbn [map M_Mpi.all_some]; auto. rewrite (H x (or_introl eq_refl)), IH by (intros y Hy; apply H; now right). reflexivity. Qed.
Lemma rows_skip s (v : list cpp_string) : (forall x, In x v -> (length x <= s)%nat) -> forall i, (i <= length v)%nat -> skipn (i * s) (concat (map (row s) v)) = concat (map (row s) (skipn i v)).
Proof.
  induction v as [|x v IH]; intros H [|i] Hi; cbn [map concat skipn Nat.mul]; auto; [cbn in Hi; lia|].
  assert (L : length (row s x) = s) by (unfold row; rewrite app_length, repeat_length; pose proof (H x (or_introl eq_refl)); lia).
  rewrite skipn_app, L. rewrite skipn_all2 by lia. cbn [app]. replace (s + i * s - s)%nat with (i * s)%nat by lia. apply IH; [intros y Hy; apply H; now right|cbn in Hi; lia].
Qed.
Lemma strings_spec (v : list cpp_string) : (forall x, In x v -> ~ In 0 x) -> exists cb, to_char_buf v = Some cb /\ cb_n cb = length v /\ length (cb_buffer cb) = (cb_n cb * cb_len cb)%nat /\ from_char_buf cb = Some v.
Proof.
  intros H. destruct (row_length_ge v 0) as [_ G]. fold (row_length v) in G. unfold to_char_buf.
  pose proof (copy_rows_spec (row_length v) v (fun x Hx => conj (H x Hx) (G x Hx)) 0%nat [] eq_refl) as C. cbn [app] in C. rewrite C. cbn [option_map]. eexists. split; [reflexivity|]. cbn [cb_n cb_len cb_buffer]. split; [reflexivity|]. split.
  - clear C. assert (X : forall s w, (forall x, In x w -> (length x <= s)%nat) -> length (concat (map (row s) w)) = (length w * s)%nat).
    { intros s. induction w as [|x w IH]; intros K; cbn [map concat length Nat.mul]; auto. rewrite app_length, IH by (intros y Hy; apply K; now right). unfold row. rewrite app_length, repeat_length. pose proof (K x (or_introl eq_refl)). lia. }
    apply X. intros x Hx. specialize (G x Hx). lia.
  - unfold from_char_buf. cbn [cb_n cb_len cb_buffer]. rewrite (all_some_map _ (fun i => nth i v [])).
    + f_equal. apply nth_ext with (d := []) (d' := []); [now rewrite map_length, seq_length|]. intros k Hk. rewrite map_length, seq_length in Hk. rewrite (nth_map_lt _ _ _ _ 0%nat) by (rewrite seq_length; lia). now rewrite seq_nth by lia.
    + intros i Hi. apply in_seq in Hi. rewrite rows_skip by (try lia; intros x Hx; specialize (G x Hx); lia).
      assert (Nv : In (nth i v []) v) by (apply nth_In; lia). pose proof (G _ Nv) as Gn.
      assert (Sk : skipn i v = nth i v [] :: skipn (S i) v). { clear - Hi. destruct Hi as [_ Hi]. cbn in Hi. revert i Hi. induction v as [|x v IH]; intros [|i] Hi; cbn in *; try lia; auto. apply IH. lia. }
      rewrite Sk. cbn [map concat]. unfold row at 1. replace (row_length v - length (nth i v []))%nat with (S (row_length v - length (nth i v []) - 1)) by lia. cbn [repeat]. rewrite <- app_assoc. cbn [app]. apply read_c_str_app. now apply H.
Qed.
