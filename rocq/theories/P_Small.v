(** C84: arrays with a small buffer are regular values. *)
From Verif Require Import Base M_Perm L_Perm M_IdxMap S_Layout L_IdxMap M_Loops M_Handle S_Handle M_Sso S_Sso M_Array S_Array L_Handle L_Array L_Sso M_Small S_Small L_Small P_Array.

Definition t_num := (Traits true false true).     (* int, double *)
Definition t_cplx := (Traits false true true).    (* std::complex<double> *)
Definition t_str := (Traits false false false).   (* std::string, nda::array *)

(** Every history of the statements the code handles runs without touching dead memory or losing an object; at its end every
    variable has the shape and the elements it should have, no two variables share memory and nothing else is allocated. *)
Theorem C84_values : forall (A : Type) (t : traits) (dflt zero : A) cap so pr junk n (p : list (aop (A := A))) s,
  traits_ok t -> is_order (length so) so -> (0 < length so < 16)%nat -> length junk = length so ->
  small_history t dflt zero cap so (repeat None n) p = Some s ->
  exists w, q_run t dflt zero cap so pr junk (q_start so pr junk n) p = Some w
    /\ q_all_right so (layout_default so pr junk) w s /\ right_memory (qw_w w) /\ disjoint (qw_w w).
Proof.
  intros A t dflt zero cap so pr junk n p s Ht Hso Hr Hj Hp.
  destruct (q_run_sim t dflt zero cap so pr junk Ht Hso Hr Hj p _ _ _ (q_start_rel t cap so pr junk Hr Hj n) Hp) as (w & E & R).
  exists w. split; [exact E|]. split; [eapply qrel_looks; eauto|]. eapply qrel_memory; eauto.
Qed.

(** Arrays of at most [cap] elements are in the buffer of their variable, larger ones are not. *)
Theorem C84_in_place : forall (A : Type) (t : traits) (dflt zero : A) cap so pr junk n (p : list (aop (A := A))) s w v a,
  traits_ok t -> is_order (length so) so -> (0 < length so < 16)%nat -> length junk = length so ->
  small_history t dflt zero cap so (repeat None n) p = Some s ->
  q_run t dflt zero cap so pr junk (q_start so pr junk n) p = Some w -> aval_of s v = Some a -> cells a <> [] ->
  exists q b, getv (sw_v (qw_w w)) v = Some q /\ q_data q = Some b
    /\ (b = q_buf q <-> (length (cells a) <= cap)%nat).
Proof.
  intros A t dflt zero cap so pr junk n p s w v a Ht Hso Hr Hj Hp Hw Ha Hc.
  destruct (q_run_sim t dflt zero cap so pr junk Ht Hso Hr Hj p _ _ _ (q_start_rel t cap so pr junk Hr Hj n) Hp) as (w' & E & (sv & I)).
  assert (w' = w) by congruence. subst w'. destruct (var_some _ _ _ _ _ _ _ _ _ _ I Ha) as (_ & _ & En & _).
  destruct (Rel_get t cap _ _ _ _ _ (qr_rel _ _ _ _ _ _ _ _ I) En) as (q & Eq & bc & _ & _ & _ & H). exists q.
  destruct H as [(N & _)|[(_ & L & Ed & _)|(L & _ & d & cs & Ed & Nd & _)]]; [contradiction| |].
  - exists (q_buf q). split; [now apply getv_eq|]. split; [exact Ed|]. tauto.
  - exists d. split; [now apply getv_eq|]. split; [exact Ed|]. split; [congruence|lia].
Qed.

(** When all variables are gone, nothing is allocated. *)
Theorem C84_all_released : forall (A : Type) (t : traits) (dflt zero : A) cap so pr junk n (p : list (aop (A := A))) s,
  traits_ok t -> is_order (length so) so -> (0 < length so < 16)%nat -> length junk = length so ->
  small_history t dflt zero cap so (repeat None n) p = Some s -> Forall (fun x => x = None) s ->
  exists w, q_run t dflt zero cap so pr junk (q_start so pr junk n) p = Some w /\ forall blk, In blk (sw_heap (qw_w w)) -> b_live blk = false.
Proof.
  intros A t dflt zero cap so pr junk n p s Ht Hso Hr Hj Hp Hs.
  destruct (q_run_sim t dflt zero cap so pr junk Ht Hso Hr Hj p _ _ _ (q_start_rel t cap so pr junk Hr Hj n) Hp) as (w & E & (sv & I)).
  exists w. split; [exact E|]. intros blk Hb. destruct (b_live blk) eqn:L; auto. exfalso.
  destruct (qrel_memory t cap so pr junk w s (ex_intro _ sv I)) as [M _]. apply In_nth_error in Hb. destruct Hb as (b & Hb).
  destruct (proj1 (M b)) as (v & q & Eq & _). { exists (b_cells blk). rewrite Hb. destruct blk as [l c]. cbn in *. now subst l. }
  assert (En : nth_error sv v = Some None \/ nth_error sv v = None).
  { destruct (nth_error sv v) as [x|] eqn:Ev; auto. left. pose proof (nth_error_lt _ _ _ Ev) as Lv. rewrite (qr_len _ _ _ _ _ _ _ _ I) in Lv.
    destruct (Nat.eq_dec v (length s)) as [->|N]; [rewrite <- Ev; apply (qr_tmp _ _ _ _ _ _ _ _ I)|].
    assert (Lv' : (v < length s)%nat) by lia. pose proof (qr_var _ _ _ _ _ _ _ _ I v Lv') as Q. unfold aval_of in Q. rewrite (nth_error_nth' s None Lv') in Q.
    rewrite Forall_forall in Hs. rewrite (Hs (nth v s None)) in Q by now apply nth_In. cbn [smatch] in Q. congruence. }
  pose proof (qr_rel _ _ _ _ _ _ _ _ I) as R. unfold getv in Eq. destruct En as [En|En].
  - rewrite (Rel_none t cap _ _ _ _ R En) in Eq. discriminate.
  - destruct R as (Lw & _). apply nth_error_None in En. rewrite (proj2 (nth_error_None _ _)) in Eq by lia. discriminate.
Qed.

(** For trivially copyable elements (numbers) every legal history without [a = a] is right. *)
Theorem C84_trivial : forall (A : Type) (t : traits) (dflt zero : A) cap so pr junk n (p : list (aop (A := A))) s,
  traits_ok t -> t_tcopy t = true -> is_order (length so) so -> (0 < length so < 16)%nat -> length junk = length so ->
  (forall v, ~ In (AAssignCopy v v) p) -> a_history (plain t) dflt zero so (repeat None n) p = Some s ->
  exists w, q_run t dflt zero cap so pr junk (q_start so pr junk n) p = Some w
    /\ q_all_right so (layout_default so pr junk) w s /\ right_memory (qw_w w) /\ disjoint (qw_w w).
Proof.
  intros A t dflt zero cap so pr junk n p s Ht Tc Hso Hr Hj Hn Hp. apply C84_values; auto. revert Hn Hp. generalize (repeat (@None (aval A)) n).
  induction p as [|o p IH]; intros s0 Hn Hp; cbn [small_history a_history] in *; auto.
  replace (gentle t cap s0 o) with true.
  - destruct (a_step (plain t) dflt zero so s0 o); [|discriminate]. apply IH; auto. intros v Hv. apply (Hn v). now right.
  - destruct o; cbn [gentle]; rewrite ?Tc; auto. destruct (Nat.eqb_spec v x) as [->|]; auto. exfalso. apply (Hn x). now left.
Qed.

(** A program with arrays on the heap and the same program with small-buffer arrays, elements not complex: the same values. *)
Theorem C84_same_as_heap : forall (A : Type) (t : traits) (dflt zero : A) cap so pr junk n (p : list (aop (A := A))) s,
  traits_ok t -> t_complex t = false -> is_order (length so) so -> (0 < length so < 16)%nat -> length junk = length so ->
  small_history t dflt zero cap so (repeat None n) p = Some s ->
  exists wq wa, q_run t dflt zero cap so pr junk (q_start so pr junk n) p = Some wq /\ a_run t dflt zero so pr junk (a_start so pr junk n) p = Some wa
    /\ q_all_right so (layout_default so pr junk) wq s /\ all_look_right so (layout_default so pr junk) wa s.
Proof.
  intros A t dflt zero cap so pr junk n p s Ht Tc Hso Hr Hj Hp.
  destruct (C84_values A t dflt zero cap so pr junk n p s Ht Hso Hr Hj Hp) as (wq & Eq & Qq & _).
  destruct (C52_array_values A t dflt zero so pr junk n p s Ht Hso Hr Hj) as (wa & Ea & Qa & _); [|exists wq, wa; auto].
  assert (Et : plain t = t) by (destruct t as [a b c]; cbn in Tc; subst b; unfold plain; cbn; now rewrite orb_false_r).
  clear - Hp Et. revert Hp. generalize (repeat (@None (aval A)) n). induction p as [|o p IH]; intros s0 Hp; cbn [small_history a_history] in *; auto.
  destruct (gentle t cap s0 o); [|discriminate]. rewrite Et in Hp. destruct (a_step t dflt zero so s0 o); [auto|discriminate].
Qed.

(** Legal histories the code gets wrong: resizing into the buffer, assigning an expression that fits it and moving a small array,
    for elements with destructors, lose elements that are never destroyed. *)
Theorem C84_resize_refuted : exists (p : list (aop (A := nat))) s,
  a_history t_str 0%nat 0%nat [0%nat] (repeat None 1) p = Some s
  /\ q_run t_str 0%nat 0%nat 2 [0%nat] LP_contiguous [0] (q_start [0%nat] LP_contiguous [0] 1) p = None.
Proof. exists [AEmpty 0; AResize 0 [2]; AEnd 0], [None]. split; vm_compute; reflexivity. Qed.
Theorem C84_assign_refuted : exists (p : list (aop (A := nat))) s,
  a_history t_str 0%nat 0%nat [0%nat] (repeat None 1) p = Some s
  /\ q_run t_str 0%nat 0%nat 2 [0%nat] LP_contiguous [0] (q_start [0%nat] LP_contiguous [0] 1) p = None.
Proof. exists [AShape 0 [3]; AAssignExpr 0 [2] (fun _ => 7%nat); AEnd 0], [None]. split; vm_compute; reflexivity. Qed.
Theorem C84_move_refuted : exists (p : list (aop (A := nat))) s,
  a_history t_str 0%nat 0%nat [0%nat] (repeat None 2) p = Some s
  /\ q_run t_str 0%nat 0%nat 2 [0%nat] LP_contiguous [0] (q_start [0%nat] LP_contiguous [0] 2) p = None.
Proof. exists [AShape 0 [2]; AMove 1 0; AEnd 0], [None; Some (AVal [2] (Some [Some 0; Some 0]%nat))]. split; vm_compute; reflexivity. Qed.
(** [a = a] loses the elements of an array that is larger than the buffer. *)
Theorem C84_self_assign_refuted : exists (p : list (aop (A := nat))) s w,
  a_history t_num 0%nat 0%nat [0%nat] (repeat None 1) p = Some s
  /\ q_run t_num 0%nat 0%nat 2 [0%nat] LP_contiguous [0] (q_start [0%nat] LP_contiguous [0] 1) p = Some w
  /\ ~ q_all_right [0%nat] (layout_default [0%nat] LP_contiguous [0]) w s.
Proof.
  exists [AFrom 0 [3] (fun _ => 7%nat); AAssignCopy 0 0], [Some (AVal [3] (Some [Some 7; Some 7; Some 7]%nat))].
  eexists. split; [vm_compute; reflexivity|]. split; [vm_compute; reflexivity|]. intros R. specialize (R 0%nat). cbn -[in_range] in R.
  destruct R as (q & [= <-] & _ & _ & _ & R); [lia|]. destruct (R [0]) as (b & c & e & [= <-] & E & Ee & H).
  { constructor; [split; lia|constructor]. }
  vm_compute in E, Ee. injection E as <-. injection Ee as <-. destruct H; discriminate.
Qed.
(** New arrays of complex numbers are zero on the heap but not in the buffer. *)
Theorem C84_complex_refuted : exists (p : list (aop (A := nat))) s w,
  a_history t_cplx 1%nat 0%nat [0%nat] (repeat None 1) p = Some s
  /\ q_run t_cplx 1%nat 0%nat 2 [0%nat] LP_contiguous [0] (q_start [0%nat] LP_contiguous [0] 1) p = Some w
  /\ ~ q_all_right [0%nat] (layout_default [0%nat] LP_contiguous [0]) w s.
Proof.
  exists [AShape 0 [2]], [Some (AVal [2] (Some [Some 0; Some 0]%nat))].
  eexists. split; [vm_compute; reflexivity|]. split; [vm_compute; reflexivity|]. intros R. specialize (R 0%nat). cbn -[in_range] in R.
  destruct R as (q & [= <-] & _ & _ & _ & R); [lia|]. destruct (R [0]) as (b & c & e & [= <-] & E & Ee & H).
  { constructor; [split; lia|constructor]. }
  vm_compute in E, Ee. injection E as <-. injection Ee as <-. destruct H; discriminate.
Qed.

(** Non-vacuity: programs that cross the capacity in both directions. *)
Definition num (l : list Z) : nat := Z.to_nat (fold_left (fun a i => 10 * a + i) l 1).
Example C84_objects_case : small_history t_str 0%nat 0%nat 3 [1; 0]%nat (repeat None 3)
    [AFrom 0 [2; 2] num; AFrom 1 [1; 2] num; ACopy 2 1; AAssignCopy 1 0; AResize 0 [1; 4]; AAssignExpr 0 [2; 3] num; AAssignMove 1 0; AWrite 2 [0; 1] 5%nat; AAssignCopy 0 2; AEnd 2]
  = Some [Some (AVal [1; 2] (Some [Some 100; Some 5]%nat)); Some (AVal [2; 3] (Some [Some 100; Some 110; Some 101; Some 111; Some 102; Some 112]%nat)); None].
Proof. vm_compute. reflexivity. Qed.
Example C84_numbers_case : a_history (plain t_num) 0%nat 0%nat [0]%nat (repeat None 2)
    [AFrom 0 [4] num; AMove 1 0; AResize 1 [2]; AAssignExpr 0 [2] num; AAssignMove 1 0; AEnd 0]
  = Some [None; Some (AVal [2] (Some [Some 10; Some 11]%nat))].
Proof. vm_compute. reflexivity. Qed.

Print Assumptions C84_values.
Print Assumptions C84_in_place.
Print Assumptions C84_all_released.
Print Assumptions C84_trivial.
Print Assumptions C84_same_as_heap.
Print Assumptions C84_resize_refuted.
Print Assumptions C84_assign_refuted.
Print Assumptions C84_move_refuted.
Print Assumptions C84_self_assign_refuted.
Print Assumptions C84_complex_refuted.
