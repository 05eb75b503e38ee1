(** C81: arrays of types NumPy does not know, from and to Python. *)
From Verif Require Import Base M_Perm M_IdxMap M_Slice M_Loops M_Assign M_Expr M_Transform M_Numpy M_PyObj S_Layout S_Loops S_Assign S_Numpy S_Program
  L_Perm L_IdxMap L_Slice L_Layout L_Loops L_Assign L_Expr L_Transform L_Numpy L_Program L_Program2 P_Slice P_Assign P_Numpy P_Program.

Lemma fold_count (f : list Z -> bool) L : forall r, 0 <= r -> (fold_left Z.add (map (fun i => Z.b2z (f i)) L) r = 0 <-> r = 0 /\ forall i, In i L -> f i = false).
Proof.
  induction L as [|x L IH]; intros r Hr; cbn [map fold_left]; [split; [intros ->; split; [reflexivity|intros i []]|tauto]|].
  assert (Hb : 0 <= Z.b2z (f x)) by (destruct (f x); cbn; lia). rewrite IH by lia. split.
  - intros [H1 H2]. assert (r = 0 /\ Z.b2z (f x) = 0) as [-> Hx] by lia. split; [reflexivity|]. intros i [<-|Hi]; [destruct (f x); [discriminate|reflexivity]|auto].
  - intros [-> H]. rewrite (H x) by now left. split; [reflexivity|]. intros i Hi. apply H. now right.
Qed.

Lemma zeros_in_range l : Forall (fun d => 0 < d) l -> in_range (map (fun _ => 0) l) l.
Proof. induction 1 as [|d l Hd Hp IH]; cbn [map]; constructor; [unfold inr; lia|exact IH]. Qed.
Lemma in_range_nth idx l k : in_range idx l -> (k < length l)%nat -> 0 <= nth k idx 0 < nth k l 0.
Proof. intros H. revert k. induction H as [|i d idx l Hd Hi IH]; intros k Hk; cbn [length] in Hk; [lia|]. destruct k as [|k]; cbn [nth]; [exact Hd|]. apply IH. lia. Qed.

Lemma nth_firstn_lt (l : list Z) R k : (k < R)%nat -> nth k (firstn R l) 0 = nth k l 0.
Proof. revert R k. induction l as [|x l IH]; intros R k H; [now rewrite firstn_nil|]. destruct R as [|R]; [lia|]. destruct k as [|k]; cbn [firstn nth]; [reflexivity|]. apply IH. lia. Qed.

(** the strides of a new array in C order *)
Lemma new_c_array_strides base shape : im_str (v_lay (new_array (identity (length shape)) base shape)) = suffix_prods shape.
Proof.
  cbn [new_array v_lay im_str idx_map_of_shape]. set (st := compute_strides_contiguous _ _ _).
  assert (L : length st = length shape) by (apply compute_strides_length; [unfold is_perm, identity; apply Permutation_refl|reflexivity|apply repeat_length]).
  rewrite <- (apply_identity st), L. unfold st. rewrite (compute_strides_in_order (length shape)); [now rewrite apply_identity|unfold is_perm, identity; apply Permutation_refl|reflexivity|apply repeat_length].
Qed.
Lemma prod_positive shape : Forall (fun d => 0 < d) shape -> 0 < prodZ shape.
Proof. induction 1 as [|d l Hd Hp IH]; [reflexivity|]. rewrite prodZ_cons. nia. Qed.
Lemma suffix_prods_decrease shape a b : Forall (fun d => 0 < d) shape -> (a <= b < length shape)%nat -> 0 < nthZ (suffix_prods shape) b <= nthZ (suffix_prods shape) a.
Proof.
  intros Hp. revert a b. induction Hp as [|d l Hd Hp IH]; intros a b H; cbn [length] in H; [lia|]. pose proof (prod_positive l Hp) as Pl. unfold nthZ in *. destruct a as [|a], b as [|b]; cbn [suffix_prods nth]; try lia.
  - destruct (IH 0%nat b ltac:(lia)) as [H1 H2]. split; [exact H1|]. destruct l as [|e l]; [cbn in H; lia|]. eapply Z.le_trans; [exact H2|]. cbn [suffix_prods nth]. rewrite prodZ_cons. inversion Hp as [|e' l' He Hl]; subst. pose proof (prod_positive l Hl). nia.
  - apply IH. lia.
Qed.

Section C81.
Context {T O : Type}.
Variables (w npy_object : Z).
Variables (elt_convertible : pyobj O -> bool) (elt_py2c : pyobj O -> option T) (elt_c2py : T -> pyobj O).
Variable box : numpy -> list Z -> pyobj O.
Variable make_numpy : pyobj O -> mem (pyobj O) -> option (numpy * mem (pyobj O)).
Local Notation getitem := (getitem w npy_object box).

Lemma view_accepts R n : view_is_convertible npy_object R true true (@PyArray O n) = true <->
  (R <= length (np_dims n))%nat /\ in_c_order (firstn R (np_dims n)) (firstn R (np_strides n)).
Proof.
  cbn [view_is_convertible negb andb]. destruct (Nat.ltb_spec (length (np_dims n)) R) as [H|H]; [split; [discriminate|intros [H' _]; lia]|].
  unfold numpy_check_layout. pose proof (c_order_exact (firstn R (np_dims n)) (firstn R (np_strides n)) R (repeat 0 R) LP_none ltac:(rewrite firstn_length; lia)) as X.
  destruct (is_stride_order_valid _); cbn [negb]; split; try discriminate; [intros _; split; [exact H|now apply X]|reflexivity|intros [_ H']; apply X in H'; discriminate].
Qed.
Lemma numpy_accepts R n m : numpy_convertible w npy_object elt_convertible box R n m = true <->
  (R <= length (np_dims n))%nat /\ in_c_order (firstn R (np_dims n)) (firstn R (np_strides n)) /\
  exists idx, in_range idx (firstn R (np_dims n)) /\ elt_convertible (getitem m n idx) = true.
Proof.
  unfold numpy_convertible. pose proof (view_accepts R n) as A. destruct (view_is_convertible _ _ _ _ _); cbn [negb].
  - destruct (proj1 A eq_refl) as [A1 A2]. rewrite fold_list. pose proof (fold_count (fun idx => elt_convertible (getitem m n idx)) (all_idx (firstn R (np_dims n))) 0 ltac:(lia)) as F.
    destruct (Z.eqb_spec (fold_left Z.add (map (fun idx => Z.b2z (elt_convertible (getitem m n idx))) (all_idx (firstn R (np_dims n)))) 0) 0) as [E|E]; cbn [negb].
    + split; [discriminate|]. intros (_ & _ & idx & Hi & Hc). apply F in E. destruct E as [_ E]. rewrite E in Hc; [discriminate|]. now apply all_idx_In.
    + split; [intros _|reflexivity]. split; [exact A1|]. split; [exact A2|].
      destruct (existsb (fun idx => elt_convertible (getitem m n idx)) (all_idx (firstn R (np_dims n)))) eqn:X.
      * apply existsb_exists in X. destruct X as (idx & Hi & Hc). exists idx. split; [now apply all_idx_In|exact Hc].
      * exfalso. apply E, F. split; [reflexivity|]. intros i Hi. destruct (elt_convertible (getitem m n i)) eqn:Ei; [|reflexivity]. rewrite <- X. symmetry. apply existsb_exists. exists i. split; [exact Hi|exact Ei].
  - split; [discriminate|]. intros (H1 & H2 & _). destruct (proj2 A (conj H1 H2)). reflexivity.
Qed.

(** ** from Python to C++ *)
(** An object is accepted as an array of rank R exactly if it is a NumPy array of rank R or more (or Python makes one of it), its first R
    dimensions are in C order, and at least one of the objects at the indices of these dimensions can be converted. *)
Theorem C81_accepts : forall R (obj : pyobj O) (m : mem (pyobj O)),
  objects_convertible w npy_object elt_convertible box make_numpy R obj m = true <->
  exists n m', match obj with PyArray n' => n = n' /\ m' = m | PyOther _ => make_numpy obj m = Some (n, m') end /\
    (R <= length (np_dims n))%nat /\ in_c_order (firstn R (np_dims n)) (firstn R (np_strides n)) /\
    exists idx, in_range idx (firstn R (np_dims n)) /\ elt_convertible (getitem m' n idx) = true.
Proof.
  intros R obj m. destruct obj as [n|o]; cbn [objects_convertible].
  - rewrite numpy_accepts. split; [intros H; exists n, m; split; [split; reflexivity|exact H]|intros (n' & m' & (-> & ->) & H); exact H].
  - destruct (make_numpy (PyOther o) m) as [[n m']|]; [|split; [discriminate|intros (n & m' & H & _); discriminate]].
    rewrite numpy_accepts. split; [intros H; exists n, m'; split; [reflexivity|exact H]|intros (n' & m'' & H' & H); injection H' as <- <-; exact H].
Qed.

(** What the user relies on holds for arrays with at least one element all of which can be converted: they are accepted, ... *)
Theorem C81_complete : forall R n (m : mem (pyobj O)), (R <= length (np_dims n))%nat -> in_c_order (firstn R (np_dims n)) (firstn R (np_strides n)) ->
  Forall (fun d => 0 < d) (firstn R (np_dims n)) -> (forall idx, in_range idx (firstn R (np_dims n)) -> elt_convertible (getitem m n idx) = true) ->
  objects_convertible w npy_object elt_convertible box make_numpy R (PyArray n) m = true.
Proof.
  intros R n m HR Hc Hp Ha. apply C81_accepts. exists n, m. split; [split; reflexivity|]. split; [exact HR|]. split; [exact Hc|].
  eexists. split; [exact (zeros_in_range _ Hp)|]. apply Ha. now apply zeros_in_range.
Qed.
(** ... and become an array of the first R extents that contains at each index tuple what the converter makes of Python's n[i, j, ...]; nothing else in
    memory changes.  Objects that are no NumPy arrays are treated as the array Python makes of them.  (Trivial element types are assigned, others constructed.) *)
Theorem C81_values : forall checks trivial R base (obj : pyobj O) mo0 n mo (m : mem (option T)) val,
  match obj with PyArray n' => n = n' /\ mo = mo0 | PyOther _ => make_numpy obj mo0 = Some (n, mo) end -> (0 < R < 16)%nat -> (R <= length (np_dims n))%nat -> Forall (fun d => 0 <= d) (np_dims n) ->
  (forall idx, in_range idx (firstn R (np_dims n)) -> elt_py2c (getitem mo n idx) = Some (val idx)) ->
  exists a m', objects_py2c w npy_object elt_py2c box make_numpy checks trivial R base obj mo0 m = Some (a, m') /\
    im_len (v_lay a) = firstn R (np_dims n) /\ usable (v_lay a) /\ holds a m' (fun idx => Some (val idx)) /\
    (forall c, ~ base <= c < base + prodZ (firstn R (np_dims n)) -> m' c = m c).
Proof.
  intros checks trivial R base obj mo0 n mo m val Hob HR HL Hnn Hv.
  assert (Eo : objects_py2c w npy_object elt_py2c box make_numpy checks trivial R base obj mo0 m = numpy_py2c w npy_object elt_py2c box checks trivial R base n mo m) by (destruct obj as [n'|o]; cbn [objects_py2c]; [destruct Hob as [-> ->]; reflexivity|now rewrite Hob]).
  rewrite Eo. unfold numpy_py2c. destruct (Nat.ltb_spec (length (np_dims n)) R) as [H|H]; [lia|].
  assert (L : length (firstn R (np_dims n)) = R) by (rewrite firstn_length; lia).
  assert (Hp : possible_shape (firstn R (np_dims n))).
  { split; [|lia]. rewrite Forall_forall in Hnn |- *. intros x Hx. apply Hnn. rewrite <- (firstn_skipn R (np_dims n)). apply in_or_app. now left. }
  assert (Ho : is_order (length (firstn R (np_dims n))) (identity R)) by (rewrite L; unfold is_order, identity; apply Permutation_refl).
  destruct (construct_spec checks trivial (identity R) base (firstn R (np_dims n)) (RExpr (fun _ idx => elt_py2c (getitem mo n idx))) m Ho Hp) as (m' & E & Hh & Hu); [discriminate|reflexivity|].
  rewrite E. eexists _, m'. split; [reflexivity|]. split; [reflexivity|]. split; [apply new_array_usable; [exact Ho|apply Hp|apply Hp]|]. split.
  - intros idx Hi. rewrite Hh by exact Hi. cbn [rhs_value]. now apply Hv.
  - intros c Hc. apply Hu. intros C. apply Hc. apply new_array_cells in C; [exact C|exact Ho|apply Hp|apply Hp].
Qed.

(** NumPy arrays of rank higher than R: the objects given to the converter are NumPy views whose elements are those of the array at the joined
    indices. *)
Theorem C81_deeper : forall R n (mo : mem (pyobj O)) idx idx', np_type n = npy_object -> (R < length (np_dims n))%nat ->
  in_range idx (firstn R (np_dims n)) -> in_range idx' (skipn R (np_dims n)) -> length (np_strides n) = length (np_dims n) ->
  exists n', getitem mo n idx = PyArray n' /\ np_dims n' = skipn R (np_dims n) /\ getitem mo n' idx' = getitem mo n (idx ++ idx').
Proof.
  intros R n mo idx idx' Ht HR Hi Hi' Ls. pose proof (in_range_length _ _ Hi) as L1. pose proof (in_range_length _ _ Hi') as L2. rewrite firstn_length in L1. rewrite skipn_length in L2.
  unfold getitem, M_PyObj.getitem. destruct (Nat.eqb_spec (length idx) (length (np_dims n))) as [E|E]; [lia|]. eexists. split; [reflexivity|]. cbn [np_dims np_type np_data np_strides].
  replace (length idx) with R by lia. split; [reflexivity|]. rewrite skipn_length, app_length. rewrite L2, Nat.eqb_refl. replace (Nat.eqb (length idx + _) _) with true by (symmetry; apply Nat.eqb_eq; lia).
  rewrite Ht, Z.eqb_refl. f_equal. f_equal. rewrite <- Z.add_assoc. f_equal. rewrite <- (firstn_skipn R (np_strides n)) at 3. rewrite dot_app by (rewrite firstn_length; lia). f_equal.
  clear -L1 HR. assert (H : (length idx <= R)%nat) by lia. clear L1 HR. revert idx H. generalize (np_strides n). induction R as [|R IH]; intros [|s l] [|i idx] H; cbn [length] in H; cbn [firstn dot]; try reflexivity; [lia|]. f_equal. apply IH. lia.
Qed.

(** ** what goes wrong: "all elements" is decided by [sum] *)
(** One element that can be converted is enough: an array with another element that cannot be is accepted as well, and its conversion hands that
    element to the converter, which has no value for it. *)
Theorem C81_all_refuted : forall checks trivial R base n mo (m : mem (option T)) good bad, (0 < R < 16)%nat -> (R <= length (np_dims n))%nat -> Forall (fun d => 0 <= d) (np_dims n) ->
  in_c_order (firstn R (np_dims n)) (firstn R (np_strides n)) -> in_range good (firstn R (np_dims n)) -> in_range bad (firstn R (np_dims n)) ->
  elt_convertible (getitem mo n good) = true -> elt_convertible (getitem mo n bad) = false -> elt_py2c (getitem mo n bad) = None ->
  objects_convertible w npy_object elt_convertible box make_numpy R (PyArray n) mo = true /\
  exists a m', objects_py2c w npy_object elt_py2c box make_numpy checks trivial R base (PyArray n) mo m = Some (a, m') /\ m' (cell a bad) = None.
Proof.
  intros checks trivial R base n mo m good bad HR HL Hnn Hc Hg Hb Cg Cb Vb. split.
  - apply C81_accepts. exists n, mo. split; [split; reflexivity|]. split; [exact HL|]. split; [exact Hc|]. exists good. split; [exact Hg|exact Cg].
  - cbn [objects_py2c]. unfold numpy_py2c. destruct (Nat.ltb_spec (length (np_dims n)) R) as [H|H]; [lia|].
    assert (L : length (firstn R (np_dims n)) = R) by (rewrite firstn_length; lia).
    assert (Hp : possible_shape (firstn R (np_dims n))).
    { split; [|lia]. rewrite Forall_forall in Hnn |- *. intros x Hx. apply Hnn. rewrite <- (firstn_skipn R (np_dims n)). apply in_or_app. now left. }
    assert (Ho : is_order (length (firstn R (np_dims n))) (identity R)) by (rewrite L; unfold is_order, identity; apply Permutation_refl).
    destruct (construct_spec checks trivial (identity R) base (firstn R (np_dims n)) (RExpr (fun _ idx => elt_py2c (getitem mo n idx))) m Ho Hp) as (m' & E & Hh & Hu); [discriminate|reflexivity|].
    rewrite E. eexists _, m'. split; [reflexivity|]. rewrite Hh by exact Hb. exact Vb.
Qed.
(** An array without elements is refused, although there is no element that cannot be converted. *)
Theorem C81_empty_refuted : forall R n (m : mem (pyobj O)), (exists k, (k < R)%nat /\ (k < length (np_dims n))%nat /\ nthZ (np_dims n) k = 0) ->
  (forall idx, in_range idx (firstn R (np_dims n)) -> elt_convertible (getitem m n idx) = true) /\
  objects_convertible w npy_object elt_convertible box make_numpy R (PyArray n) m = false.
Proof.
  intros R n m (k & Hk & Hkl & Hz).
  assert (N : forall idx, ~ in_range idx (firstn R (np_dims n))).
  { intros idx Hi. pose proof (in_range_nth idx _ k Hi ltac:(rewrite firstn_length; lia)) as B. rewrite nth_firstn_lt in B by exact Hk. unfold nthZ in Hz. lia. }
  split; [intros idx Hi; now destruct (N idx)|]. destruct (objects_convertible _ _ _ _ _ _ _ _) eqn:E; [|reflexivity]. apply C81_accepts in E. destruct E as (n' & m' & (-> & ->) & _ & _ & idx & Hi & _). now destruct (N idx).
Qed.

(** ** from C++ to Python *)
Variable moved : T -> T.
Definition c2py_step (expiring : bool) (a b : view) (s : mem T * mem (pyobj O)) (idx : list Z) : mem T * mem (pyobj O) :=
  (if expiring then mset (fst s) (elem a idx) (moved (fst s (elem a idx))) else fst s, mset (snd s) (elem b idx) (elt_c2py (fst s (elem a idx)))).
Lemma c2py_loop expiring (a b : view) (m0 : mem T) (mo0 : mem (pyobj O)) L : NoDup L -> (forall i, In i L -> in_view a i /\ in_view b i) -> truthful (v_lay a) -> usable (v_lay b) -> (expiring = true -> usable (v_lay a)) ->
  forall (m : mem T) (mo : mem (pyobj O)), (forall i, In i L -> m (elem a i) = m0 (cell a i)) ->
  let '(m', mo') := fold_left (c2py_step expiring a b) L (m, mo) in
  (forall i, In i L -> mo' (cell b i) = elt_c2py (m0 (cell a i)) /\ m' (cell a i) = if expiring then moved (m0 (cell a i)) else m0 (cell a i)) /\
  (forall c, ~ (exists i, In i L /\ c = cell b i) -> mo' c = mo c) /\ (forall c, expiring = false \/ ~ (exists i, In i L /\ c = cell a i) -> m' c = m c).
Proof.
  intros Nd Hv Ta Ub Ua. induction L as [|x L IH]; intros m mo Hm; cbn [fold_left].
  - split; [intros i []|]. split; auto.
  - inversion Nd as [|x' L' Nx NL]; subst. destruct (Hv x (or_introl eq_refl)) as [Va Vb]. unfold c2py_step at 2. cbn [fst snd]. rewrite (elem_cell_in a x Ta Va), (elem_cell_in b x (usable_truthful _ Ub) Vb).
    set (m1 := if expiring then mset m (cell a x) (moved (m (cell a x))) else m). set (mo1 := mset mo (cell b x) (elt_c2py (m (cell a x)))). specialize (IH NL (fun i Hi => Hv i (or_intror Hi)) m1 mo1).
    pose proof (Hm x (or_introl eq_refl)) as Ex. rewrite (elem_cell_in a x Ta Va) in Ex.
    assert (Ne : forall i, In i L -> i <> x) by (intros i Hi ->; contradiction).
    assert (Hm1 : forall i, In i L -> m1 (elem a i) = m0 (cell a i)).
    { intros i Hi. destruct (Hv i (or_intror Hi)) as [Vi _]. rewrite <- (Hm i (or_intror Hi)). unfold m1. destruct expiring; [|reflexivity]. rewrite mset_neq; [reflexivity|]. rewrite (elem_cell_in a i Ta Vi). intros C. apply (Ne i Hi). exact (cell_inj a i x (Ua eq_refl) Vi Va C). }
    specialize (IH Hm1). revert IH. destruct (fold_left _ L (m1, mo1)) as [m' mo']. intros (I1 & I2 & I3). split; [|split].
    + intros i [<-|Hi]; [|now apply I1]. split.
      * rewrite I2; [unfold mo1; rewrite mset_eq; now rewrite Ex|]. intros (j & Hj & E). destruct (Hv j (or_intror Hj)) as [_ Vj]. apply (Ne j Hj). symmetry. exact (cell_inj b x j Ub Vb Vj E).
      * assert (I3' : m' (cell a x) = m1 (cell a x)) by (apply I3; destruct expiring; [right; intros (j & Hj & E); destruct (Hv j (or_intror Hj)) as [Vj _]; apply (Ne j Hj); symmetry; exact (cell_inj a x j (Ua eq_refl) Va Vj E)|now left]).
        rewrite I3'. unfold m1. destruct expiring; [rewrite mset_eq|]; now rewrite Ex.
    + intros c Hc. rewrite I2 by (intros (j & Hj & E); apply Hc; exists j; split; [now right|exact E]). unfold mo1. apply mset_neq. intros ->. apply Hc. exists x. split; [now left|reflexivity].
    + intros c Hc. rewrite I3 by (destruct Hc as [Hc|Hc]; [now left|right; intros (j & Hj & E); apply Hc; exists j; split; [now right|exact E]]). unfold m1. destruct expiring; [|reflexivity]. apply mset_neq. intros ->. destruct Hc as [Hc|Hc]; [discriminate|]. apply Hc. exists x. split; [now left|reflexivity].
Qed.

(** The NumPy array made of an array or view of any layout has its shape, and n[i, j, ...] in Python is the object made of a(i, j, ...).  Views and
    arrays that live on are unchanged; of an expiring array every element is moved from exactly once; memory besides is not touched. *)
Theorem C81_to_python : forall expiring base (a : view) (m : mem T) (mo : mem (pyobj O)), 0 < w ->
  truthful (v_lay a) -> (expiring = true -> usable (v_lay a)) -> w * prodZ (map (Z.max 1) (im_len (v_lay a))) < 9223372036854775808 ->
  let '(n, m', mo') := objects_c2py w npy_object elt_c2py moved expiring base a m mo in
  np_type n = npy_object /\ np_dims n = im_len (v_lay a) /\
  (forall idx, in_view a idx -> getitem mo' n idx = elt_c2py (m (cell a idx))) /\
  (forall idx, in_view a idx -> m' (cell a idx) = if expiring then moved (m (cell a idx)) else m (cell a idx)) /\
  (forall c, ~ is_cell_of a c -> m' c = m c) /\
  (forall c, ~ base <= c < base + prodZ (im_len (v_lay a)) -> mo' c = mo c).
Proof.
  intros expiring base a m mo Hw Ta Ua Hfit. unfold objects_c2py. set (sh := im_len (v_lay a)). set (b := new_array (identity (length sh)) base sh).
  pose proof (truthful_wf _ Ta) as W. assert (Hps : Forall (fun l => 0 <= l) sh /\ (0 < length sh < 16)%nat) by (destruct W as (_ & _ & _ & H1 & H2); split; [exact H1|exact H2]).
  assert (Ho : is_order (length sh) (identity (length sh))) by (unfold is_order, identity; apply Permutation_refl).
  pose proof (new_array_usable (identity (length sh)) base sh Ho (proj1 Hps) (proj2 Hps)) as Ub. fold b in Ub.
  rewrite for_each_fold. change (im_len (v_lay b)) with sh.
  pose proof (c2py_loop expiring a b m mo (all_idx sh) (all_idx_NoDup sh) (fun i Hi => conj (proj1 (all_idx_In sh i) Hi) (proj1 (all_idx_In sh i) Hi)) Ta Ub Ua m mo) as Q.
  specialize (Q (fun i Hi => f_equal m (elem_cell_in a i Ta (proj1 (all_idx_In sh i) Hi)))).
  assert (St : forall L s, fold_left (fun s x => (fun idx '(m, mo) => (if expiring then mset m (elem a idx) (moved (m (elem a idx))) else m, mset mo (elem b idx) (elt_c2py (m (elem a idx))))) x s) L s = fold_left (c2py_step expiring a b) L s).
  { intros L. induction L as [|x L IH]; intros [s1 s2]; cbn [fold_left]; [reflexivity|]. now rewrite IH. }
  rewrite St. clear St.
  revert Q. destruct (fold_left _ _ _) as [m' mo']. intros (Q1 & Q2 & Q3).
  assert (F : strides_fit w b).
  { unfold strides_fit, b. rewrite new_c_array_strides. apply Forall_forall. intros s Hs. destruct (In_nth _ _ 0 Hs) as (k & Hk & <-). rewrite suffix_prods_length in Hk. fold (nthZ (suffix_prods sh) k). rewrite nth_suffix_prods by exact Hk.
    assert (B : 0 <= prodZ (skipn (S k) sh) <= prodZ (map (Z.max 1) sh)).
    { destruct Hps as [Hnn _]. clear -Hnn. revert k. induction Hnn as [|d l Hd Hl IH]; intros k; [rewrite skipn_nil; cbn; lia|]. cbn [skipn map]. rewrite prodZ_cons. pose proof (prod_max_pos l). pose proof (Z.le_max_l 1 d).
      destruct k as [|k]; cbn [skipn]; [|destruct (IH k); cbn [skipn] in *; split; [assumption|nia]].
      split; [clear -Hl; induction Hl as [|e l He Hl IHl]; [cbn; lia|rewrite prodZ_cons; nia]|]. apply Z.le_trans with (prodZ (map (Z.max 1) l)); [|nia]. clear -Hl. induction Hl as [|e l He Hl IHl]; [cbn; lia|]. cbn [map]. rewrite !prodZ_cons. pose proof (Z.le_max_r 1 e). pose proof (Z.le_max_l 1 e). pose proof (prod_max_pos l). nia. }
    fold sh in Hfit. pose proof (Z.mul_le_mono_nonneg_l _ _ w ltac:(lia) (proj2 B)) as B2. pose proof (Z.mul_nonneg_nonneg w _ ltac:(lia) (proj1 B)) as B1. rewrite (Z.mul_comm _ w). split; [|eapply Z.le_lt_trans; [exact B2|exact Hfit]]. eapply Z.le_trans; [|exact B1]. discriminate. }
  destruct (C64_to_numpy (pyobj O) w npy_object false b mo' Hw (truthful_wf _ (usable_truthful _ Ub)) F) as (N1 & N2 & _ & N4 & N5).
  split; [exact N2|]. split; [exact (proj1 N4)|]. split; [|split; [|split]].
  - intros idx Hi. unfold getitem, M_PyObj.getitem. rewrite N2, Z.eqb_refl. rewrite <- (in_range_length _ _ (Hi : in_range idx (np_dims (make_numpy_proxy w npy_object false b)))), Nat.eqb_refl.
    pose proof (proj2 N4 idx Hi) as E. unfold np_addr in E. rewrite <- E. rewrite Z.mul_comm, Z.div_mul by lia. apply Q1. now apply all_idx_In.
  - intros idx Hi. apply Q1. now apply all_idx_In.
  - intros c Hc. apply Q3. right. intros (i & Hi & ->). apply Hc. exists i. split; [now apply all_idx_In|reflexivity].
  - intros c Hc. apply Q2. intros (i & Hi & ->). apply Hc. apply all_idx_In in Hi. apply (new_array_cells (identity (length sh)) base sh _ Ho (proj1 Hps) (proj2 Hps)). exists i. split; [exact Hi|reflexivity].
Qed.

(** An array with at least one element sent to Python and back is the same array, if the converter of the elements brings each back. *)
Theorem C81_round_trip : forall checks trivial expiring base base' (a : view) (m : mem T) (mo : mem (pyobj O)) (m2 : mem (option T)), 0 < w ->
  (forall x, elt_convertible (elt_c2py x) = true /\ elt_py2c (elt_c2py x) = Some x) ->
  truthful (v_lay a) -> (expiring = true -> usable (v_lay a)) -> Forall (fun d => 0 < d) (im_len (v_lay a)) -> w * prodZ (im_len (v_lay a)) < 9223372036854775808 ->
  let '(n, _, mo') := objects_c2py w npy_object elt_c2py moved expiring base a m mo in
  let R := length (im_len (v_lay a)) in
  objects_convertible w npy_object elt_convertible box make_numpy R (PyArray n) mo' = true /\
  exists a' m', objects_py2c w npy_object elt_py2c box make_numpy checks trivial R base' (PyArray n) mo' m2 = Some (a', m') /\
    im_len (v_lay a') = im_len (v_lay a) /\ holds a' m' (fun idx => Some (m (cell a idx))).
Proof.
  intros checks trivial expiring base base' a m mo m2 Hw Hel Ta Ua Hp Hfit.
  assert (Em : map (Z.max 1) (im_len (v_lay a)) = im_len (v_lay a)) by (clear -Hp; induction Hp as [|d l Hd Hp IH]; cbn [map]; [reflexivity|rewrite IH; f_equal; lia]).
  pose proof (C81_to_python expiring base a m mo Hw Ta Ua ltac:(now rewrite Em)) as P.
  assert (Es : forall n m' mo', objects_c2py w npy_object elt_c2py moved expiring base a m mo = (n, m', mo') -> n = make_numpy_proxy w npy_object false (new_array (identity (length (im_len (v_lay a)))) base (im_len (v_lay a)))).
  { intros n m' mo' E. unfold objects_c2py in E. destruct (for_each _ _ _) as [q1 q2]. now injection E. }
  revert P Es. destruct (objects_c2py _ _ _ _ _ _ _ _ _) as [[n m'] mo']. intros (P1 & P2 & P3 & _) Es. specialize (Es n m' mo' eq_refl).
  set (sh := im_len (v_lay a)) in *. assert (E1 : firstn (length sh) (np_dims n) = sh) by (rewrite P2; apply firstn_all).
  assert (F : strides_fit w (new_array (identity (length sh)) base sh)).
  { unfold strides_fit. rewrite new_c_array_strides. apply Forall_forall. intros s Hs. destruct (In_nth _ _ 0 Hs) as (k & Hk & <-). rewrite suffix_prods_length in Hk. fold (nthZ (suffix_prods sh) k).
    pose proof (suffix_prods_decrease sh 0 k Hp ltac:(lia)) as D. assert (B : nthZ (suffix_prods sh) 0 <= prodZ sh).
    { destruct sh as [|d l]; [cbn in Hk; lia|]. unfold nthZ. cbn [suffix_prods nth]. rewrite prodZ_cons. inversion Hp as [|d' l' Hd Hl]; subst. pose proof (prod_positive l Hl). nia. }
    nia. }
  assert (Co : in_c_order (firstn (length sh) (np_dims n)) (firstn (length sh) (np_strides n))).
  { assert (Es' : np_strides n = map (fun s => s * w) (suffix_prods sh)) by (rewrite Es; cbn [make_numpy_proxy np_strides]; rewrite (fit_strides w _ F); now rewrite new_c_array_strides).
    rewrite Es', E1, firstn_same by (rewrite map_length; apply suffix_prods_length). intros i j Hij _ _.
    assert (Q : forall k, nthZ (map (fun s => s * w) (suffix_prods sh)) k = nthZ (suffix_prods sh) k * w) by (intros k; unfold nthZ; change 0 with ((fun s => s * w) 0) at 1; now rewrite map_nth).
    rewrite !Q, !Z.abs_mul. pose proof (suffix_prods_decrease sh i j Hp ltac:(lia)). apply Z.mul_le_mono_nonneg_r; [lia|]. lia. }
  assert (HR : (0 < length sh < 16)%nat) by (destruct (truthful_wf _ Ta) as (_ & _ & _ & _ & H); exact H).
  split.
  - apply C81_complete; [rewrite P2; lia|exact Co|now rewrite E1|]. rewrite E1. intros idx Hi. rewrite P3 by exact Hi. apply Hel.
  - destruct (C81_values checks trivial (length sh) base' (PyArray n) mo' n mo' m2 (fun idx => m (cell a idx)) (conj eq_refl eq_refl) HR ltac:(rewrite P2; lia)) as (a' & m3 & V1 & V2 & _ & V4 & _).
    + rewrite P2. eapply Forall_impl; [|exact Hp]. cbn. lia.
    + rewrite E1. intros idx Hi. rewrite P3 by exact Hi. apply Hel.
    + exists a', m3. split; [exact V1|]. split; [congruence|exact V4].
Qed.
End C81.
Print Assumptions C81_accepts.
Print Assumptions C81_complete.
Print Assumptions C81_values.
Print Assumptions C81_deeper.
Print Assumptions C81_all_refuted.
Print Assumptions C81_empty_refuted.
Print Assumptions C81_to_python.
Print Assumptions C81_round_trip.

(** ** examples: T is a class of C++ that wraps a number; the Python objects are wrapped numbers and None; objects are type 17 of 8 bytes *)
Definition ex_conv (o : pyobj (option Z)) : bool := match o with PyOther (Some _) => true | _ => false end.
Definition ex_value (o : pyobj (option Z)) : option Z := match o with PyOther (Some z) => Some z | _ => None end.
Definition ex_object (z : Z) : pyobj (option Z) := PyOther (Some z).
Definition ex_box (n : numpy) (idx : list Z) : pyobj (option Z) := PyOther None.
Definition ex_make (o : pyobj (option Z)) (m : mem (pyobj (option Z))) : option (numpy * mem (pyobj (option Z))) := None.
Definition ex_mem : mem (pyobj (option Z)) := fun c => if c =? 103 then PyOther None else PyOther (Some (10 * c)).
(** a 2 x 3 array of objects at cells 100 to 105, the object at cell 103 is None; its first row; its transpose; an empty one *)
Definition ex_all : numpy := Numpy 17 800 [2; 3] [24; 8] false.
Definition ex_row : numpy := Numpy 17 800 [1; 3] [24; 8] false.
Definition ex_T : numpy := Numpy 17 800 [3; 1] [8; 24] false.
Definition ex_none : numpy := Numpy 17 800 [0; 3] [24; 8] false.
Definition ex_accept n R := objects_convertible 8 17 ex_conv ex_box ex_make R (PyArray n) ex_mem.
Example C81_accept_example : ex_accept ex_row 2 = true /\ ex_accept ex_all 2 = true /\ ex_accept ex_T 2 = true /\ ex_accept (Numpy 17 800 [3; 2] [8; 24] false) 2 = false /\
  ex_accept ex_none 2 = false /\ ex_accept ex_row 3 = false /\ ex_accept (Numpy 17 824 [1] [8] false) 1 = false.
Proof. vm_compute. repeat split. Qed.
Definition ex_back (n : numpy) R := objects_py2c 8 17 ex_value ex_box ex_make true false R 500 (PyArray n) ex_mem (fun _ => None).
Example C81_values_example : match ex_back ex_row 2 with Some (a, m) => im_len (v_lay a) = [1; 3] /\ m (cell a [0; 2]) = Some 1020 | None => False end /\
  in_c_order (firstn 2 (np_dims ex_row)) (firstn 2 (np_strides ex_row)) /\ (forall idx, in_range idx [1; 3] -> ex_conv (getitem 8 17 ex_box ex_mem ex_row idx) = true).
Proof.
  split; [vm_compute; repeat split|]. split; [intros a b H; cbn in H |- *; assert (a = 0%nat /\ b = 1%nat) as [-> ->] by lia; intros _ _; cbn; lia|].
  intros idx H. inversion H as [|i d l1 l2 Hi H1 E1 E2]; subst. inversion H1 as [|j d l3 l4 Hj H2 E1 E2]; subst. inversion H2; subst. unfold inr in *. assert (i = 0) as -> by lia. assert (j = 0 \/ j = 1 \/ j = 2) as [-> | [-> | ->]] by lia; reflexivity.
Qed.
(** the accepted array with a None: the converter of the elements is given the None *)
Example C81_all_example : ex_accept ex_all 2 = true /\ ex_conv (getitem 8 17 ex_box ex_mem ex_all [1; 0]) = false /\
  match ex_back ex_all 2 with Some (a, m) => m (cell a [1; 0]) = None /\ m (cell a [1; 1]) = Some 1040 | None => False end.
Proof. vm_compute. repeat split. Qed.
(** rank 1 asked, rank 2 given: the converter is given rows *)
Example C81_deeper_example : getitem 8 17 ex_box ex_mem ex_all [1] = PyArray (Numpy 17 824 [3] [8] false) /\ getitem 8 17 ex_box ex_mem (Numpy 17 824 [3] [8] false) [2] = ex_object 1050.
Proof. vm_compute. repeat split. Qed.
(** an array in Fortran order sent to Python, once as an array that lives on and once expiring; a move leaves -1 *)
Definition ex_array : view := View (IdxMap [2; 2] [1; 2] [1; 0]%nat [0; 0] LP_contiguous) 40.
Example C81_to_python_example :
  (let '(n, m, mo) := objects_c2py 8 17 ex_object (fun _ => -1) false 200 ex_array (fun c => c) ex_mem in
   n = Numpy 17 1600 [2; 2] [16; 8] false /\ getitem 8 17 ex_box mo n [0; 1] = ex_object 42 /\ getitem 8 17 ex_box mo n [1; 0] = ex_object 41 /\ m 41 = 41) /\
  (let '(n, m, mo) := objects_c2py 8 17 ex_object (fun _ => -1) true 200 ex_array (fun c => c) ex_mem in
   getitem 8 17 ex_box mo n [0; 1] = ex_object 42 /\ m 41 = -1 /\ m 44 = 44) /\ Forall (fun d => 0 < d) (im_len (v_lay ex_array)) /\ (forall x, ex_conv (ex_object x) = true /\ ex_value (ex_object x) = Some x).
Proof. split; [vm_compute; repeat split|]. split; [vm_compute; repeat split|]. split; [repeat constructor; lia|]. intros x. split; reflexivity. Qed.
