(** C64: NumPy arrays. *)
From Verif Require Import Base M_Perm M_IdxMap M_Slice M_Loops M_Assign M_Expr M_Transform M_Numpy S_Layout S_Assign S_Numpy
  L_Perm L_IdxMap L_Slice L_Layout L_Loops L_Assign L_Transform L_Numpy P_Slice P_Assign.

Lemma fit_strides w v : strides_fit w v -> map (fun s => to_long (to_size_t (to_size_t s * w))) (im_str (v_lay v)) = map (fun s => s * w) (im_str (v_lay v)).
Proof. intros H. apply map_ext_in. intros s Hs. apply bytes_stride. unfold strides_fit in H. rewrite Forall_forall in H. exact (H s Hs). Qed.
Lemma dot_times w idx str : dot idx (map (fun s => s * w) str) = w * dot idx str.
Proof. revert str. induction idx as [|i idx IH]; intros [|s str]; cbn [map dot]; rewrite ?IH; ring. Qed.

(** ** from C++ to Python *)
(** The NumPy array made of an array or view has its shape and looks at the same places: n[idx] in Python is a(idx) in C++, for any
    layout, also with negative strides; it is read-only exactly if the elements are const. *)
Theorem C64_to_numpy : forall V w t c v (m : mem V), 0 < w -> wf (v_lay v) -> strides_fit w v ->
  let n := make_numpy_proxy w t c v in
  np_wf n /\ np_type n = t /\ np_readonly n = c /\ views w v n /\ forall idx, in_view v idx -> np_item w m n idx = Some (m (cell v idx)).
Proof.
  intros V w t c v m Hw W F n. assert (Hv : views w v n).
  { split; [reflexivity|]. intros idx Hi. unfold np_addr, cell, addr. cbn [n make_numpy_proxy np_data np_strides]. rewrite (fit_strides w v F), dot_times. ring. }
  split; [split; [cbn [n make_numpy_proxy np_strides np_dims]; rewrite map_length; apply W|apply W]|]. split; [reflexivity|]. split; [reflexivity|]. split; [exact Hv|].
  intros idx Hi. unfold np_item, value_at. rewrite <- (proj2 Hv idx Hi). replace (w * cell v idx) with (cell v idx * w) by ring. rewrite Z.mod_mul, Z.div_mul by lia. reflexivity.
Qed.
Print Assumptions C64_to_numpy.

(** ** from Python to C++ *)
(** An object is accepted as a view of rank R exactly if it is a NumPy array of that rank and type in C order. *)
Theorem C64_accepts : forall O w t R (obj : pyobj O), 0 < w ->
  (view_is_convertible t R false true obj = true <->
   exists n, obj = PyArray n /\ length (np_dims n) = R /\ np_type n = t /\ in_c_order (np_dims n) (firstn R (np_strides n))).
Proof.
  intros O w t R obj Hw. destruct obj as [n|o]; cbn [view_is_convertible]; [|split; [discriminate|intros (n & E & _); discriminate]].
  destruct (Nat.eqb_spec (length (np_dims n)) R) as [E|E]; cbn [negb andb].
  - destruct (Z.eqb_spec (np_type n) t) as [Et|Et]; cbn [negb].
    + unfold numpy_check_layout. rewrite (firstn_same (np_dims n) R E). pose proof (c_order_exact (np_dims n) (firstn R (np_strides n)) R (repeat 0 R) LP_none E) as X.
      destruct (is_stride_order_valid _); cbn [negb].
      * split; [|reflexivity]. intros _. exists n. split; [reflexivity|]. split; [exact E|]. split; [exact Et|]. now apply X.
      * split; [discriminate|]. intros (n' & En & _ & _ & H). injection En as <-. now apply X.
    + split; [discriminate|]. intros (n' & En & _ & H & _). injection En as <-. contradiction.
  - split; [discriminate|]. intros (n' & En & H & _). injection En as <-. contradiction.
Qed.
Print Assumptions C64_accepts.

Lemma view_of_numpy {O} w t checks R n : 0 < w -> np_wf n -> length (np_dims n) = R -> (0 < R < 16)%nat -> np_type n = t -> np_data n mod w = 0 -> whole_strides w n ->
  (checks = true -> in_c_order (np_dims n) (np_strides n)) ->
  exists v, view_py2c w t checks R (@PyArray O n) = Some v /\ views w v n /\ truthful (v_lay v) /\ im_so (v_lay v) = identity R /\ im_prop (v_lay v) = LP_none /\ im_str (v_lay v) = map (fun s => to_long (to_size_t s / w)) (np_strides n).
Proof.
  intros Hw [Ls Hd] HR HR2 Ht Ha Hs Ho. unfold view_py2c. rewrite HR, Nat.ltb_irrefl, Ht, Z.eqb_refl. cbn [orb negb]. rewrite andb_false_r.
  assert (Hc : checks && negb (numpy_check_layout R n) = false).
  { destruct checks; [|reflexivity]. cbn [andb]. apply negb_false_iff. unfold numpy_check_layout. rewrite !firstn_same by lia. apply c_order_exact; auto. }
  rewrite Hc, Ha, Z.eqb_refl, !firstn_same by lia. eexists. split; [reflexivity|]. cbn [v_lay im_so im_prop im_str]. split; [|split; [|auto]].
  - split; [reflexivity|]. intros idx Hi. unfold cell, addr, np_addr. cbn [v_lay v_base im_str]. rewrite Z.mul_add_distr_l. f_equal; [apply Z.mod_divide in Ha; [destruct Ha as [k ->]; rewrite Z.div_mul; lia|lia]|].
    apply (dot_scaled w (fun s => to_long (to_size_t s / w)) idx (np_dims n)); auto. intros d Hd1 Hd2. destruct Hs as [Hb Hs]. destruct (Hs d Hd1 Hd2) as [H0 [k Hk]].
    assert (Hbd : nthZ (np_strides n) d < two63) by (rewrite Forall_forall in Hb; apply Hb; apply nth_In; lia).
    rewrite element_stride by auto. rewrite Hk. rewrite Z.div_mul by lia. lia.
  - split; [|split; discriminate]. unfold wf. cbn [im_len im_str im_so im_se]. rewrite map_length, repeat_length. split; [exact Ls|]. split; [rewrite HR; unfold is_order, identity; apply Permutation_refl|]. split; [lia|]. split; [exact Hd|lia].
Qed.

(** An accepted array whose data pointer and strides are whole numbers of elements, without negative strides, becomes a view of the same
    shape at the same places (so that writing to one changes the other); all indices and layouts. *)
Theorem C64_from_numpy : forall O w t checks R n, 0 < w -> np_wf n -> (0 < R < 16)%nat -> view_is_convertible t R false true (@PyArray O n) = true ->
  np_data n mod w = 0 -> whole_strides w n ->
  exists v, view_py2c w t checks R (@PyArray O n) = Some v /\ views w v n /\ truthful (v_lay v).
Proof.
  intros O w t checks R n Hw Wn HR Hc Ha Hs. apply (C64_accepts O w t R _ Hw) in Hc. destruct Hc as (n' & En & H1 & H2 & H3). injection En as <-. rewrite firstn_same in H3 by (destruct Wn; lia).
  destruct (@view_of_numpy O w t checks R n) as (v & E & Hv & T & _); auto. exists v. auto.
Qed.
Print Assumptions C64_from_numpy.

(** A view in C order without negative strides that goes to Python and back is the same view. *)
Theorem C64_round_trip : forall O w t c checks v, 0 < w -> wf (v_lay v) -> strides_fit w v -> im_so (v_lay v) = identity (rank (v_lay v)) ->
  Forall (fun s => 0 <= s) (im_str (v_lay v)) -> in_c_order (im_len (v_lay v)) (im_str (v_lay v)) ->
  let n := make_numpy_proxy w t c v in
  view_is_convertible t (rank (v_lay v)) false true (@PyArray O n) = true /\
  exists v', view_py2c w t checks (rank (v_lay v)) (@PyArray O n) = Some v' /\ v_base v' = v_base v /\ im_len (v_lay v') = im_len (v_lay v) /\ im_str (v_lay v') = im_str (v_lay v) /\ im_so (v_lay v') = im_so (v_lay v).
Proof.
  intros O w t c checks v Hw W F So Hp Hc n. pose proof W as (Ls & _ & Lse & Hnn & HR).
  assert (Es : np_strides n = map (fun s => s * w) (im_str (v_lay v))) by exact (fit_strides w v F).
  assert (Co : in_c_order (np_dims n) (np_strides n)).
  { intros a b Hab Ha Hb. rewrite Es. assert (Q : forall k, Z.abs (nthZ (map (fun s => s * w) (im_str (v_lay v))) k) = Z.abs (nthZ (im_str (v_lay v)) k) * w).
    { intros k. unfold nthZ. change 0 with ((fun s => s * w) 0) at 1. rewrite map_nth. rewrite Z.abs_mul. f_equal. lia. }
    rewrite !Q. apply Z.mul_le_mono_nonneg_r; [lia|]. now apply Hc. }
  assert (Lf : length (np_strides n) = rank (v_lay v)) by (rewrite Es, map_length; exact Ls).
  split.
  - apply (C64_accepts O w t _ _ Hw). exists n. split; [reflexivity|]. split; [reflexivity|]. split; [reflexivity|]. now rewrite firstn_same.
  - destruct (@view_of_numpy O w t checks (rank (v_lay v)) n) as (v' & E & Hv & T & E1 & E2 & E3); try exact Hw; try exact HR; try exact Co; try reflexivity; auto.
    + split; [exact Lf|exact Hnn].
    + cbn [n make_numpy_proxy np_data]. replace (w * v_base v) with (v_base v * w) by ring. apply Z.mod_mul. lia.
    + split.
      * rewrite Es. apply Forall_forall. intros s Hs. apply in_map_iff in Hs. destruct Hs as (x & <- & Hx). unfold strides_fit in F. rewrite Forall_forall in F. exact (F x Hx).
      * intros d Hd _. rewrite Es. cbn [n make_numpy_proxy np_dims] in Hd. unfold nthZ. rewrite (nth_map_lt _ _ _ _ 0) by lia. split; [|exists (nth d (im_str (v_lay v)) 0); reflexivity]. rewrite Forall_forall in Hp. specialize (Hp (nth d (im_str (v_lay v)) 0) ltac:(apply nth_In; lia)). nia.
    + exists v'. split; [exact E|]. assert (Eb : v_base v' = v_base v).
      { unfold view_py2c in E. destruct (Nat.ltb _ _); [discriminate|]. destruct (_ && _); [discriminate|]. destruct (_ && _); [discriminate|]. destruct (_ =? _); [|discriminate]. injection E as <-. cbn [v_base n make_numpy_proxy np_data]. rewrite Z.mul_comm. apply Z.div_mul. lia. }
      split; [exact Eb|]. split; [exact (proj1 Hv)|]. split; [|congruence]. rewrite E3, Es, map_map. rewrite <- (map_id (im_str (v_lay v))) at 2. apply map_ext_in. intros s Hs. unfold strides_fit in F. rewrite Forall_forall in F, Hp. specialize (F s Hs). specialize (Hp s Hs). rewrite element_stride; [apply Z.div_mul; lia|exact Hw|]. split; [nia|]. exact (proj2 F).
Qed.
Print Assumptions C64_round_trip.

(** ** arrays *)
Lemma copy_of_numpy {V O} w t checks R base n (m : mem V) val : 0 < w -> np_wf n -> length (np_dims n) = R -> (0 < R < 16)%nat -> np_type n = t -> np_data n mod w = 0 -> whole_strides w n ->
  in_c_order (np_dims n) (np_strides n) ->
  (forall idx, in_range idx (np_dims n) -> np_item w m n idx = Some (val idx)) ->
  (forall idx, in_range idx (np_dims n) -> ~ (base <= np_addr n idx / w < base + prodZ (np_dims n))) ->
  exists a m', array_of_view w t checks R base (@PyArray O n) m = Some (a, m') /\ im_len (v_lay a) = np_dims n /\ usable (v_lay a) /\ holds a m' val /\ (forall c, ~ (base <= c < base + prodZ (np_dims n)) -> m' c = m c).
Proof.
  intros Hw Wn HR HR2 Ht Ha Hs Ho Hval Hap. destruct (@view_of_numpy O w t checks R n) as (v & E & [Hl Hc] & T & _); auto. unfold array_of_view. rewrite E, Hl.
  assert (Hor : is_order (length (np_dims n)) (identity R)) by (rewrite HR; unfold is_order, identity; apply Permutation_refl).
  pose proof (new_array_usable (identity R) base (np_dims n) Hor (proj2 Wn) ltac:(lia)) as U. set (a := new_array (identity R) base (np_dims n)) in *.
  assert (Hcell : forall idx, in_range idx (np_dims n) -> np_addr n idx / w = cell v idx) by (intros idx Hi; rewrite <- Hc by exact Hi; rewrite Z.mul_comm; apply Z.div_mul; lia).
  assert (A : rhs_apart a (@RMem V v)).
  { split; [exact T|]. split; [exact Hl|]. intros c H1 H2. apply (new_array_cells (identity R) base (np_dims n) c Hor (proj2 Wn) ltac:(lia)) in H1. destruct H2 as (idx & Hi & ->). unfold in_view, valid_idx in Hi. rewrite Hl in Hi. apply (Hap idx Hi). now rewrite Hcell. }
  destruct (C16_assign checks a (RMem v) m U A) as (m' & E' & Hh & Hu). unfold array_of_ndarray. fold a. change (im_len (v_lay a)) with (np_dims n) in E'. rewrite E'. exists a, m'. split; [reflexivity|]. split; [reflexivity|]. split; [exact U|]. split.
  - intros idx Hi. rewrite Hh by exact Hi. cbn [rhs_value]. assert (Hi' : in_range idx (np_dims n)) by exact Hi. specialize (Hval idx Hi'). unfold np_item, value_at in Hval. destruct (_ =? 0); [|discriminate]. injection Hval as Hval. rewrite Hcell in Hval by exact Hi'. exact Hval.
  - intros c Hn. apply Hu. intros H. apply Hn. now apply (new_array_cells (identity R) base (np_dims n) c Hor (proj2 Wn) ltac:(lia)) in H.
Qed.

Lemma makes_parts {V} w t (m : mem V) shape val b n m' : 0 < w -> Forall (fun d => 0 <= d) shape -> w * prodZ (map (Z.max 1) shape) < two63 -> makes w t m shape val b n m' ->
  np_wf n /\ np_data n mod w = 0 /\ whole_strides w n /\ in_c_order (np_dims n) (np_strides n) /\ (forall idx, in_range idx shape -> np_addr n idx / w = b + radix shape idx) /\ (forall idx, in_range idx shape -> np_item w m' n idx = Some (val idx)).
Proof.
  intros Hw Hnn Hfit (Ht & Hd & Hst & Ha & Hv & Hu).
  assert (Hbnd : forall d, (d < length shape)%nat -> 0 <= nthZ (c_strides w shape) d < two63).
  { intros d Hd'. rewrite c_strides_nth by exact Hd'. split; [pose proof (prod_max_pos (skipn (S d) shape)); nia|]. apply Z.le_lt_trans with (w * prodZ (map (Z.max 1) shape)); [|exact Hfit]. apply Z.mul_le_mono_nonneg_l; [lia|].
    clear -Hd'. revert d Hd'. induction shape as [|x s IH]; intros d Hd; [cbn in Hd; lia|]. cbn [map]. rewrite prodZ_cons. pose proof (Z.le_max_l 1 x) as Hx. destruct d as [|d]; cbn [skipn].
    - pose proof (prod_max_pos s). nia.
    - cbn [length] in Hd. specialize (IH d ltac:(lia)). cbn [skipn] in IH. pose proof (prod_max_pos s). apply Z.le_trans with (prodZ (map (Z.max 1) s)); [exact IH|nia]. }
  assert (Haddr : forall idx, in_range idx shape -> np_addr n idx = (b + radix shape idx) * w) by (intros idx Hi; unfold np_addr; rewrite Ha, Hst, dot_c_strides by exact Hi; ring).
  split; [split; [rewrite Hst, Hd; apply c_strides_length|now rewrite Hd]|]. split; [rewrite Ha, Z.mul_comm; apply Z.mod_mul; lia|]. split; [|split; [|split]].
  - split.
    + rewrite Hst. apply Forall_forall. intros s Hs. destruct (In_nth _ _ 0 Hs) as (d & Hdl & <-). rewrite c_strides_length in Hdl. specialize (Hbnd d Hdl). fold (nthZ (c_strides w shape) d). fold two63. pose proof two64_63. lia.
    + intros d Hdl _. rewrite Hst. rewrite Hd in Hdl. split; [apply Hbnd; exact Hdl|]. rewrite c_strides_nth by exact Hdl. exists (prodZ (map (Z.max 1) (skipn (S d) shape))). ring.
  - intros a c Hac _ _. rewrite Hst. rewrite Hd in Hac. pose proof (Hbnd a ltac:(lia)). pose proof (Hbnd c ltac:(lia)). rewrite !Z.abs_eq by lia. apply c_strides_decrease; lia.
  - intros idx Hi. rewrite Haddr by exact Hi. apply Z.div_mul. lia.
  - intros idx Hi. unfold np_item, value_at. rewrite Haddr by exact Hi. rewrite Z.mod_mul, Z.div_mul by lia. cbn [Z.eqb]. now rewrite Hv.
Qed.

(** An object with shape and elements [val] (a NumPy array of any layout without negative and fractional strides, or anything
    PyArray_FromAny turns into one) becomes an array of that shape with these elements; the only failure is that of PyArray_FromAny.  [base] is
    where the array, [b] where the copy made by Python is allocated: free memory. *)
Theorem C64_array : forall V O w t checks R base b make_numpy (obj : pyobj O) (m : mem V) shape val,
  0 < w -> (0 < R < 16)%nat -> length shape = R -> Forall (fun d => 0 <= d) shape -> w * prodZ (map (Z.max 1) shape) < 9223372036854775808 ->
  means w t obj m shape val ->
  (forall n, obj = PyArray n -> np_type n = t -> np_data n mod w = 0 /\ whole_strides w n) ->
  (forall n idx, obj = PyArray n -> in_range idx shape -> ~ (base <= np_addr n idx / w < base + prodZ shape)) ->
  base + prodZ shape <= b \/ b + prodZ shape <= base ->
  (forall n m', make_numpy obj m = Some (n, m') -> makes w t m shape val b n m') ->
  match array_py2c w t make_numpy checks R base obj m with
  | Some (a, m') => im_len (v_lay a) = shape /\ usable (v_lay a) /\ holds a m' val /\ forall c, ~ (base <= c < base + prodZ shape) -> ~ (b <= c < b + prodZ shape) -> m' c = m c
  | None => make_numpy obj m = None
  end.
Proof.
  intros V O w t checks R base b make_numpy obj m shape val Hw HR HL Hnn Hfit Hm Hst Hap Hb Hmk.
  assert (Copy : forall n m', make_numpy obj m = Some (n, m') -> exists a m'', array_of_view w t checks R base (@PyArray O n) m' = Some (a, m'') /\
     im_len (v_lay a) = shape /\ usable (v_lay a) /\ holds a m'' val /\ (forall c, ~ (base <= c < base + prodZ shape) -> ~ (b <= c < b + prodZ shape) -> m'' c = m c)).
  { intros n m' E. pose proof (Hmk n m' E) as P. destruct (makes_parts w t m shape val b n m' Hw Hnn Hfit P) as (P1 & P2 & P3 & P4 & P5 & P6). destruct P as (Pt & Pd & _ & _ & _ & Pu). subst shape.
    destruct (@copy_of_numpy V O w t checks R base n m' val) as (a & m'' & E1 & E2 & E3 & E4 & E5); auto.
    - intros idx Hi. rewrite P5 by exact Hi. pose proof (radix_bound _ _ Hi). lia.
    - exists a, m''. split; [exact E1|]. split; [exact E2|]. split; [exact E3|]. split; [exact E4|]. intros c H1 H2. rewrite E5 by exact H1. now apply Pu. }
  unfold array_py2c. destruct (needs_numpy t obj) eqn:N.
  - destruct (make_numpy obj m) as [[n m']|] eqn:E; [|reflexivity]. destruct (Copy n m' eq_refl) as (a & m'' & E1 & H). unfold array_py2c_numpy.
    assert (Hc : numpy_check_layout R n = true).
    { pose proof (Hmk n m' eq_refl) as P. destruct (makes_parts w t m shape val b n m' Hw Hnn Hfit P) as (P1 & _ & _ & P4 & _). destruct P as (_ & Pd & _). unfold numpy_check_layout. rewrite !firstn_same by (destruct P1; subst; lia). apply c_order_exact; [subst; reflexivity|exact P4]. }
    rewrite Hc, E1. exact H.
  - destruct obj as [n|o]; [|discriminate]. cbn [needs_numpy] in N. apply negb_false_iff, Z.eqb_eq in N. unfold array_py2c_numpy. destruct (numpy_check_layout R n) eqn:Hc.
    + cbn [means] in Hm. destruct (Hm N) as (Wn & Hd & Hv). destruct (Hst n eq_refl N) as [Ha Hs]. subst shape.
      destruct (@copy_of_numpy V O w t checks R base n m val) as (a & m'' & E1 & E2 & E3 & E4 & E5); auto.
      * unfold numpy_check_layout in Hc. rewrite !firstn_same in Hc by (destruct Wn; lia). apply c_order_exact in Hc; [exact Hc|exact HL].
      * rewrite E1. split; [exact E2|]. split; [exact E3|]. split; [exact E4|]. intros c H1 _. now apply E5.
    + destruct (make_numpy (PyArray n) m) as [[n' m']|] eqn:E; [|reflexivity]. destruct (Copy n' m' eq_refl) as (a & m'' & E1 & H). rewrite E1. exact H.
Qed.
Print Assumptions C64_array.

(** What is_convertible says for arrays: an array of the type must have the rank; of anything else Python must be able to make one of that rank. *)
Theorem C64_array_accepts : forall V O w t R make_numpy (obj : pyobj O) (m : mem V) shape val b, 0 < w ->
  (forall n m', make_numpy obj m = Some (n, m') -> makes w t m shape val b n m') ->
  (array_is_convertible t make_numpy R obj m = true <->
   match obj with
   | PyArray n => if np_type n =? t then length (np_dims n) = R else make_numpy obj m <> None /\ length shape = R
   | PyOther _ => make_numpy obj m <> None /\ length shape = R
   end).
Proof.
  intros V O w t R make_numpy obj m shape val b Hw Hmk. unfold array_is_convertible.
  assert (N : match make_numpy obj m with Some (n, _) => view_is_convertible t R false false (@PyArray O n) | None => false end = true <-> make_numpy obj m <> None /\ length shape = R).
  { destruct (make_numpy obj m) as [[n m']|] eqn:E; [|split; [discriminate|intros [H _]; now destruct H]]. destruct (Hmk n m' eq_refl) as (Ht & Hd & _). cbn [view_is_convertible andb negb]. rewrite Ht, Hd, Z.eqb_refl. cbn [negb]. rewrite andb_false_r.
    destruct (Nat.eqb_spec (length shape) R) as [El|El]; cbn [negb]; split; try discriminate; [intros _; split; [discriminate|exact El]|reflexivity|intros [_ H]; contradiction]. }
  destruct obj as [n|o]; cbn [needs_numpy]; [|exact N]. destruct (Z.eqb_spec (np_type n) t) as [Et|Et]; cbn [negb]; [|exact N].
  cbn [view_is_convertible andb negb]. rewrite Et, Z.eqb_refl. cbn [negb]. rewrite andb_false_r. destruct (Nat.eqb_spec (length (np_dims n)) R) as [El|El]; cbn [negb]; split; try discriminate; auto.
Qed.
Print Assumptions C64_array_accepts.

(** ** what goes wrong *)
(** A reversed NumPy array (a[::-1], negative stride) of elements of more than one byte is accepted as a view, with the check on, but the view looks elsewhere: the
    stride -k*w becomes (2^64 - k*w)/w instead of -k. *)
Theorem C64_reversed_refuted : forall O w t k data e r, 1 < w -> 0 < k -> k * w < 9223372036854775808 -> 2 <= e -> data mod w = 0 ->
  let n := Numpy t data [e] [- (k * w)] r in
  view_is_convertible t 1 false true (@PyArray O n) = true /\
  exists v, view_py2c w t true 1 (@PyArray O n) = Some v /\ im_str (v_lay v) = [(18446744073709551616 - k * w) / w] /\ in_range [1] (np_dims n) /\ w * cell v [1] <> np_addr n [1].
Proof.
  intros O w t k data e r Hw Hk Hf He Hd n.
  assert (Hc : numpy_check_layout 1 n = true). { unfold numpy_check_layout. apply c_order_exact; [reflexivity|]. intros a b Hab. cbn in Hab. lia. }
  split; [cbn [view_is_convertible n np_dims length np_type]; rewrite Z.eqb_refl; cbn [negb andb Nat.eqb]; fold n; rewrite Hc; reflexivity|].
  pose proof (negative_stride w k Hw Hk Hf) as Ns. unfold view_py2c. cbn [n np_dims length np_type Nat.ltb Nat.leb]. rewrite Z.eqb_refl. cbn [orb negb andb]. fold n. rewrite Hc. cbn [negb np_data n]. rewrite Hd. cbn [Z.eqb].
  eexists. split; [reflexivity|]. cbn [v_lay im_str np_strides n firstn map]. rewrite Ns. split; [reflexivity|]. split; [constructor; [unfold inr; lia|constructor]|].
  unfold cell, addr, np_addr. cbn [v_lay v_base im_str np_data np_strides dot n firstn map]. rewrite ?Ns. apply Z.mod_divide in Hd; [|lia]. destruct Hd as [q Hq]. subst data. rewrite Z.div_mul by lia.
  assert (0 <= (two64 - k * w) / w) by (apply Z.div_pos; [unfold two64; lia|lia]). nia.
Qed.
Print Assumptions C64_reversed_refuted.

(** So is an array whose stride is not a multiple of the size of the elements (a field of an array of records): the stride is rounded down. *)
Theorem C64_packed_refuted : forall O w t s data e r, 0 < w -> 0 <= s < 9223372036854775808 -> s mod w <> 0 -> 2 <= e -> data mod w = 0 ->
  let n := Numpy t data [e] [s] r in
  view_is_convertible t 1 false true (@PyArray O n) = true /\
  exists v, view_py2c w t true 1 (@PyArray O n) = Some v /\ in_range [1] (np_dims n) /\ w * cell v [1] <> np_addr n [1].
Proof.
  intros O w t s data e r Hw Hs Hm He Hd n.
  assert (Hc : numpy_check_layout 1 n = true). { unfold numpy_check_layout. apply c_order_exact; [reflexivity|]. intros a b Hab. cbn in Hab. lia. }
  split; [cbn [view_is_convertible n np_dims length np_type]; rewrite Z.eqb_refl; cbn [negb andb Nat.eqb]; fold n; rewrite Hc; reflexivity|].
  unfold view_py2c. cbn [n np_dims length np_type Nat.ltb Nat.leb]. rewrite Z.eqb_refl. cbn [orb negb andb]. fold n. rewrite Hc. cbn [negb np_data n]. rewrite Hd. cbn [Z.eqb].
  eexists. split; [reflexivity|]. split; [constructor; [unfold inr; lia|constructor]|].
  unfold cell, addr, np_addr. cbn [v_lay v_base im_str np_data np_strides dot n firstn map]. rewrite element_stride by auto. apply Z.mod_divide in Hd; [|lia]. destruct Hd as [q Hq]. subst data. rewrite Z.div_mul by lia.
  pose proof (Z.div_mod s w ltac:(lia)). nia.
Qed.
Print Assumptions C64_packed_refuted.

(** ** non-trivial cases *)
(** doubles: a matrix with 2 rows and 3 columns at byte 800 with rows of four elements; its transpose is not in C order *)
Definition ex_np : numpy := Numpy 12 800 [2; 3] [32; 8] false.
Definition ex_np_t : numpy := Numpy 12 800 [3; 2] [8; 32] false.
Lemma ex_np_facts : np_wf ex_np /\ np_wf ex_np_t /\ whole_strides 8 ex_np /\ whole_strides 8 ex_np_t.
Proof.
  assert (D : forall k, (8 | k * 8)) by (intros k; exists k; reflexivity).
  repeat split; try (repeat constructor; lia); destruct d as [|[|d]]; try (cbn in *; lia); cbn [nthZ nth ex_np ex_np_t np_strides]; [apply (D 4)|apply (D 1)|apply (D 1)|apply (D 4)].
Qed.
Example C64_view_example : view_is_convertible 12 2 false true (@PyArray unit ex_np) = true /\ view_is_convertible 12 2 false true (@PyArray unit ex_np_t) = false /\
  match view_py2c 8 12 true 2 (@PyArray unit ex_np) with Some v => views 8 v ex_np /\ map (cell v) [[0; 0]; [0; 2]; [1; 0]; [1; 2]] = [100; 102; 104; 106] /\
     make_numpy_proxy 8 12 false v = ex_np /\ np_item 8 (fun a => a) ex_np [1; 2] = Some 106 | None => False end.
Proof.
  split; [reflexivity|]. split; [reflexivity|]. destruct ex_np_facts as (W1 & _ & S1 & _). destruct (C64_from_numpy unit 8 12 true 2 ex_np) as (v & E & H & _); try lia; auto. rewrite E. split; [exact H|]. vm_compute in E. injection E as <-. repeat split.
Qed.
(** a view with a negative stride (the rows backwards) is seen in Python as it is in C++ *)
Definition ex_back : view := View (IdxMap [2; 3] [-4; 1] [0; 1]%nat [0; 0] LP_none) 104.
Example C64_to_numpy_example : wf (v_lay ex_back) /\ strides_fit 8 ex_back /\ make_numpy_proxy 8 12 true ex_back = Numpy 12 832 [2; 3] [-32; 8] true /\
  np_item 8 (fun a => a) (make_numpy_proxy 8 12 true ex_back) [1; 2] = Some 102.
Proof. split; [|split; [|split]]; try reflexivity; [repeat split; build_view|repeat constructor; cbn; lia]. Qed.
Example C64_round_trip_example : let v := View (IdxMap [2; 3] [4; 1] [0; 1]%nat [0; 0] LP_none) 100 in
  wf (v_lay v) /\ strides_fit 8 v /\ im_so (v_lay v) = identity (rank (v_lay v)) /\ Forall (fun s => 0 <= s) (im_str (v_lay v)) /\ in_c_order (im_len (v_lay v)) (im_str (v_lay v)).
Proof.
  split; [repeat split; build_view|]. split; [repeat constructor; cbn; lia|]. split; [reflexivity|]. split; [repeat constructor; cbn; lia|].
  intros a b Hab _ _. cbn in Hab. assert (a = 0 /\ b = 1)%nat as [-> ->] by lia. cbn. lia.
Qed.

(** arrays: Python that copies the transposed matrix of doubles to cell 500, and makes an array out of the number 7 *)
Definition ex_make (obj : pyobj Z) (m : mem Z) : option (numpy * mem Z) :=
  match obj with
  | PyArray n => Some (Numpy 12 4000 [3; 2] [16; 8] false, fun a => if (500 <=? a) && (a <? 506) then m (100 + (a - 500) / 2 + 4 * ((a - 500) mod 2)) else m a)
  | PyOther o => if 0 <=? o then Some (Numpy 12 4000 [3; 2] [16; 8] false, fun a => if (500 <=? a) && (a <? 506) then o else m a) else None
  end.
Lemma ex_makes (m : mem Z) : (forall n m', ex_make (PyArray ex_np_t) m = Some (n, m') -> makes 8 12 m [3; 2] (fun idx => m (np_addr ex_np_t idx / 8)) 500 n m') /\
  (forall n m', ex_make (PyOther 7) m = Some (n, m') -> makes 8 12 m [3; 2] (fun _ => 7) 500 n m').
Proof.
  assert (B : forall idx, in_range idx [3; 2] -> exists i j, idx = [i; j] /\ 0 <= i < 3 /\ 0 <= j < 2).
  { intros idx H. unfold in_range in H. inversion H as [|i x idx1 s1 Hi K1 E1]; subst. inversion K1 as [|j y idx2 s2 Hj K2 E2]; subst. inversion K2; subst. unfold inr in *. exists i, j. auto. }
  assert (Out : forall a, ~ (500 <= a < 500 + prodZ [3; 2]) -> (500 <=? a) && (a <? 506) = false).
  { intros a Ha. change (prodZ [3; 2]) with 6 in Ha. destruct (Z.leb_spec 500 a), (Z.ltb_spec a 506); cbn; try reflexivity; lia. }
  assert (In : forall a, 500 <= a < 506 -> (500 <=? a) && (a <? 506) = true) by (intros a Ha; apply andb_true_intro; split; [apply Z.leb_le|apply Z.ltb_lt]; lia).
  split; intros n m' E; injection E as <- <-; (split; [reflexivity|]; split; [reflexivity|]; split; [reflexivity|]; split; [reflexivity|]; split; [|intros a Ha; rewrite Out by exact Ha; reflexivity]);
    intros idx Hi; destruct (B idx Hi) as (i & j & -> & Hi1 & Hj1); cbn [radix prodZ fold_right]; rewrite In by lia; [|reflexivity].
  assert (C : (i = 0 \/ i = 1 \/ i = 2) /\ (j = 0 \/ j = 1)) by lia. destruct C as [[->|[->| ->]] [->| ->]]; reflexivity.
Qed.
Example C64_array_example : (* the transposed matrix, copied by Python; the number; the matrix itself; an object Python refuses *)
  means 8 12 (@PyArray Z ex_np_t) (fun a => a) [3; 2] (fun idx => np_addr ex_np_t idx / 8) /\
  match array_py2c 8 12 ex_make true 2 0 (PyArray ex_np_t) (fun a => a) with Some (a, m') => map m' [0; 1; 2; 3; 4; 5] = [100; 104; 101; 105; 102; 106] /\ im_len (v_lay a) = [3; 2] | None => False end /\
  match array_py2c 8 12 ex_make true 2 0 (PyOther 7) (fun a => a) with Some (a, m') => map m' [0; 5; 6; 500] = [7; 7; 6; 7] | None => False end /\
  match array_py2c 8 12 ex_make true 2 0 (PyArray ex_np) (fun a => a) with Some (a, m') => map m' [0; 1; 2; 3; 4; 5; 500] = [100; 101; 102; 104; 105; 106; 500] | None => False end /\
  match array_py2c 8 12 ex_make true 2 0 (PyOther (-1)) (fun a => a) with Some _ => False | None => True end /\
  array_is_convertible 12 ex_make 2 (PyOther 7) (fun a => a) = true /\ array_is_convertible 12 ex_make 3 (PyOther 7) (fun a => a) = false /\ array_is_convertible 12 ex_make 2 (PyOther (-1)) (fun a => a) = false.
Proof.
  split; [|repeat split; reflexivity]. intros _. split; [apply ex_np_facts|]. split; [reflexivity|]. intros idx H. unfold np_item, value_at.
  assert (E : np_addr ex_np_t idx mod 8 = 0).
  { inversion H as [|i x idx1 s1 Hi K1 E1]; subst. inversion K1 as [|j y idx2 s2 Hj K2 E2]; subst. inversion K2; subst. unfold np_addr. cbn [ex_np_t np_data np_strides dot]. replace (800 + (i * 8 + (j * 32 + 0))) with ((100 + i + 4 * j) * 8) by ring. apply Z.mod_mul. lia. }
  rewrite E. reflexivity.
Qed.
(** a[::-1] of three doubles at 816: NumPy's element 1 is at byte 808, the view's far away *)
Example C64_reversed_example : let n := Numpy 12 816 [3] [-8] false in np_addr n [1] = 808 /\
  match view_py2c 8 12 true 1 (@PyArray unit n) with Some v => im_str (v_lay v) = [2305843009213693951] /\ 8 * cell v [1] = 816 + 18446744073709551608 | None => False end.
Proof. repeat split; reflexivity. Qed.
Example C64_packed_example : let n := Numpy 12 800 [3] [12] false in np_addr n [2] = 824 /\ match view_py2c 8 12 true 1 (@PyArray unit n) with Some v => 8 * cell v [2] = 816 | None => False end.
Proof. repeat split; reflexivity. Qed.
