(** C52: arrays are regular values. *)
From Verif Require Import Base M_Perm M_IdxMap S_Layout M_Loops M_Handle S_Handle M_Array S_Array L_Handle L_Own L_Run L_Array.

(** Every legal history runs without touching dead memory or losing an object; at its end every variable has the shape
    and the elements it should have, no two variables share memory and nothing else is allocated. *)
Theorem C52_array_values : forall (A : Type) (t : traits) (dflt zero : A) so pr junk n (p : list (aop (A := A))) s,
  traits_ok t -> is_order (length so) so -> (0 < length so < 16)%nat -> length junk = length so ->
  a_history t dflt zero so (repeat None n) p = Some s ->
  exists w, a_run t dflt zero so pr junk (a_start so pr junk n) p = Some w
    /\ all_look_right so (layout_default so pr junk) w s /\ memory_exact w.
Proof.
  intros A t dflt zero so pr junk n p s Ht Hso Hr Hj Hp.
  destruct (a_run_sim t dflt zero so pr junk Ht Hso Hr Hj p _ _ _ (a_start_rel t so pr junk n) Hp) as (w & E & R).
  exists w. split; [exact E|]. split; [eapply arel_looks; eauto|eapply arel_memory; eauto].
Qed.

(** When all variables are gone, nothing is allocated. *)
Theorem C52_all_released : forall (A : Type) (t : traits) (dflt zero : A) so pr junk n (p : list (aop (A := A))) s,
  traits_ok t -> is_order (length so) so -> (0 < length so < 16)%nat -> length junk = length so ->
  a_history t dflt zero so (repeat None n) p = Some s -> Forall (fun x => x = None) s ->
  exists w, a_run t dflt zero so pr junk (a_start so pr junk n) p = Some w /\ forall blk, In blk (m_heap (w_mem (aw_w w))) -> b_live blk = false.
Proof.
  intros A t dflt zero so pr junk n p s Ht Hso Hr Hj Hp Hs.
  destruct (a_run_sim t dflt zero so pr junk Ht Hso Hr Hj p _ _ _ (a_start_rel t so pr junk n) Hp) as (w & E & (i & I)).
  exists w. split; auto. intros blk Hb. destruct (b_live blk) eqn:L; auto. exfalso.
  apply In_nth_error in Hb. destruct Hb as (b & Hb).
  assert (Hin : In (Ref b) (i_h i ++ i_s i)).
  { apply (rel_exactly t _ _ (ar_rel _ _ _ _ _ _ _ I)). exists (b_cells blk). rewrite Hb. destruct blk as [l c]. cbn in *. now subst l. }
  rewrite (ar_lens _ _ _ _ _ _ _ I), app_nil_r in Hin. apply (In_nth _ _ Dead) in Hin. destruct Hin as (v & Hv & Ev).
  rewrite (ar_lenh _ _ _ _ _ _ _ I) in Hv. pose proof (ar_tmp _ _ _ _ _ _ _ I) as T. unfold at_ in T.
  assert (Lv : (v < length s)%nat) by (destruct (Nat.eq_dec v (length s)) as [->|]; [congruence|lia]).
  pose proof (ar_var _ _ _ _ _ _ _ I v Lv) as M. unfold aval_of in M. rewrite (nth_error_nth' s None Lv) in M.
  rewrite Forall_forall in Hs. rewrite (Hs (nth v s None)) in M by now apply nth_In. cbn in M. unfold at_ in M. congruence.
Qed.

(** What the cells mean: after a construction or assignment from an expression, element [idx] is the value of the
    expression there; writing it changes it and no other. *)
Theorem C52_elements : forall (A : Type) so sh (f : list Z -> A) idx, is_order (length so) so -> (0 < length so < 16)%nat ->
  shape_ok so sh = true -> in_range idx sh -> nth_error (tabulate so sh f) (place_of so sh idx) = Some (Some (f idx)).
Proof. intros A so sh f idx Ho Hr Hs Hi. apply (tabulate_nth so (repeat 0 (length so))); auto. apply repeat_length. Qed.
Theorem C52_write_one : forall (A : Type) so sh (l : list (option A)) idx idx' a, is_order (length so) so -> (0 < length so < 16)%nat ->
  shape_ok so sh = true -> Z.of_nat (length l) = prodZ sh -> in_range idx sh -> in_range idx' sh ->
  nth_error (upd l (place_of so sh idx) (Some a)) (place_of so sh idx')
  = if list_eq_dec Z.eq_dec idx idx' then Some (Some a) else nth_error l (place_of so sh idx').
Proof.
  intros A so sh l idx idx' a Ho Hr Hs HL Hi Hi'. assert (Hj : length (repeat 0 (length so)) = length so) by apply repeat_length.
  pose proof (place_bound so _ Ho Hr Hj sh idx Hs Hi) as B. unfold volume in B.
  destruct (list_eq_dec Z.eq_dec idx idx') as [<-|Hn].
  - apply nth_error_upd_eq. lia.
  - apply nth_error_upd_neq. intros E. apply Hn. exact (place_inj so _ Ho Hr Hj sh idx idx' Hs Hi Hi' E).
Qed.

(** Resizing to a shape with the same number of elements allocates nothing and keeps the block and its contents. *)
Theorem C52_resize_keeps_block : forall (A : Type) (t : traits) (dflt zero : A) so pr junk (w : aworld A) v h b sh,
  getv (w_h (aw_w w)) v = Some h -> h_data h = Some b -> Z.of_nat (h_size h) = prodZ sh ->
  a_resize t dflt zero so pr junk w v sh = Some (set_lay w v (layout so pr junk sh)).
Proof.
  intros A t dflt zero so pr junk w v h b sh Hg Hd Hs. unfold a_resize. cbn [set_lay aw_w]. rewrite Hg. unfold is_null. rewrite Hd. cbn [orb].
  rewrite layout_nelem. unfold volume. replace (Nat.eqb (h_size h) (Z.to_nat (prodZ sh))) with true; [reflexivity|]. symmetry. apply Nat.eqb_eq. lia.
Qed.

(** Assignment from a view of another array: the elements of the view at the time of the assignment. *)
Theorem C52_assign_view : forall (A : Type) (t : traits) (dflt zero : A) so pr junk n (p : list (aop (A := A))) s v x a shx lx base m f,
  traits_ok t -> is_order (length so) so -> (0 < length so < 16)%nat -> length junk = length so ->
  a_history t dflt zero so (repeat None n) p = Some s ->
  v <> x -> aval_of s v = Some a -> aval_of s x = Some (AVal shx (Some lx)) -> shape_ok so (im_len m) = true ->
  (forall idx, in_range idx (im_len m) -> nth_error lx (Z.to_nat (base + call_impl m (map CLong idx))) = Some (Some (f idx))) ->
  exists w, a_run t dflt zero so pr junk (a_start so pr junk n) p = Some w /\
    forall hx b, getv (w_h (aw_w w)) x = Some hx -> h_data hx = Some b ->
      exists w', a_assign_view t dflt zero so pr junk w v b base m = Some w'
        /\ all_look_right so (layout_default so pr junk) w' (upd s v (Some (AVal (im_len m) (Some (tabulate so (im_len m) f)))))
        /\ memory_exact w'.
Proof.
  intros A t dflt zero so pr junk n p s v x a shx lx base m f Ht Hso Hr Hj Hp Hn Hv Hx Hs Hl.
  destruct (a_run_sim t dflt zero so pr junk Ht Hso Hr Hj p _ _ _ (a_start_rel t so pr junk n) Hp) as (w & E & R).
  exists w. split; [exact E|]. intros hx b Hg Hd.
  destruct (view_sim t dflt zero so pr junk Ht Hso Hr Hj w s v x a shx lx hx b base m f R Hn Hv Hx Hg Hd Hs Hl) as (w' & E' & R').
  exists w'. split; [exact E'|]. split; [eapply arel_looks; eauto|eapply arel_memory; eauto].
Qed.

(** *** where the claim fails *)
Definition tt_num := Traits true false true.
(** A = A(range(1,3)): the storage of A is released before the view is read. *)
Theorem C52_assign_own_view_refuted : exists p s w b,
  a_history tt_num 0%nat 0%nat [0%nat] (repeat None 1) p = Some s
  /\ a_run tt_num 0%nat 0%nat [0%nat] LP_contiguous [0] (a_start [0%nat] LP_contiguous [0] 1) p = Some w
  /\ looks_like [0%nat] (layout_default [0%nat] LP_contiguous [0]) w 0 (AVal [4] (Some (map Some [5; 6; 7; 8]%nat)))
  /\ (exists h, getv (w_h (aw_w w)) 0 = Some h /\ h_data h = Some b)
  /\ (forall idx, in_range idx [2] -> exists c, read_cell (m_heap (w_mem (aw_w w))) b (Z.to_nat (1 + call_impl (layout [0%nat] LP_contiguous [0] [2]) (map CLong idx))) = Some (Some c))
  /\ a_assign_view tt_num 0%nat 0%nat [0%nat] LP_contiguous [0] w 0 b 1 (layout [0%nat] LP_contiguous [0] [2]) = None.
Proof.
  set (p := [AFrom 0 [4] (fun i => Z.to_nat (5 + nthZ i 0))]).
  assert (Hj : length [0] = length [0%nat]) by reflexivity. assert (Hr : (0 < length [0%nat] < 16)%nat) by (cbn; lia).
  assert (Ho : is_order (length [0%nat]) [0%nat]) by apply Permutation_refl.
  assert (Ht : traits_ok tt_num) by (split; auto).
  destruct (C52_array_values nat tt_num 0%nat 0%nat [0%nat] LP_contiguous [0] 1 p _ Ht Ho Hr Hj eq_refl) as (w & E & V & _).
  exists p. eexists. exists w, 0%nat. split; [reflexivity|]. split; [exact E|].
  split; [exact (V 0%nat ltac:(cbn; lia))|]. vm_compute in E. injection E as <-.
  split; [eexists; split; reflexivity|]. split; [|vm_compute; reflexivity].
  intros idx Hi. inversion Hi as [|i l idx' len Hi0 Hi1]; subst. inversion Hi1; subst. unfold inr in Hi0.
  assert (i = 0 \/ i = 1) as [-> | ->] by lia; vm_compute; eexists; reflexivity.
Qed.
(** An array that was moved from keeps its shape although it has no storage. *)
Theorem C52_moved_from_refuted : exists p s w h,
  a_history tt_num 0%nat 0%nat [0%nat] (repeat None 2) p = Some s
  /\ a_run tt_num 0%nat 0%nat [0%nat] LP_contiguous [0] (a_start [0%nat] LP_contiguous [0] 2) p = Some w
  /\ getv (w_h (aw_w w)) 0 = Some h /\ size (lay_of [0%nat] LP_contiguous [0] w 0) = 4 /\ h_size h = 0%nat /\ h_data h = None.
Proof.
  exists [AShape 0 [4]; AMove 1 0]. eexists _, _, _. repeat split; vm_compute; reflexivity.
Qed.

(** Non-vacuity: a program with arrays of rank two in Fortran order. *)
Example C52_example : let f i := Z.to_nat (10 * nthZ i 0 + nthZ i 1) in
  a_history (Traits false false false) 0%nat 0%nat [1; 0]%nat (repeat None 4)
    [AFrom 0 [2; 2] f; ACopy 1 0; AWrite 1 [1; 0] 99%nat; AMove 2 0; AAssignExpr 0 [1; 3] f; AResize 1 [4; 1]; AEmpty 3; AAssignCopy 3 1; AEnd 1;
     AAssignMove 2 2]
  = Some [Some (AVal [1; 3] (Some [Some 0; Some 1; Some 2]%nat)); None;
          Some (AVal [2; 2] None); Some (AVal [4; 1] (Some [Some 0; Some 99; Some 1; Some 11]%nat))].
Proof. vm_compute. reflexivity. Qed.

Print Assumptions C52_array_values.
Print Assumptions C52_all_released.
Print Assumptions C52_elements.
Print Assumptions C52_write_one.
Print Assumptions C52_resize_keeps_block.
Print Assumptions C52_assign_view.
Print Assumptions C52_assign_own_view_refuted.
Print Assumptions C52_moved_from_refuted.
