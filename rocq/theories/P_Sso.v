(** C30: small-size-optimised handles and stack handles. *)
From Verif Require Import Base M_Handle S_Handle M_Sso S_Sso L_Handle L_Sso.

(** Every history of the statements the code handles runs without touching dead memory or losing an object, and at its
    end every variable has the elements it should have, no two variables share memory and nothing else is allocated. *)
Theorem C30_sso_values : forall (A : Type) (t : traits) (dflt zero : A) (cap n : nat) (p : list sop) s,
  traits_ok t -> val_run t dflt zero cap (repeat None n) p = Some s ->
  exists w, sso_run t dflt zero cap (sso_start n) p = Some w /\ right_values w s /\ right_memory w /\ disjoint w.
Proof.
  intros A t dflt zero cap n p s Ht Hp.
  destruct (run_rel t dflt zero cap Ht p [] (repeat None n) (repeat None n) s (rel_start t cap n) Hp) as (H & wv & E & R).
  exists (SWorld H wv). split; [exact E|]. split; [eapply rel_values; eauto|]. split; [eapply rel_memory; eauto|eapply rel_disjoint; eauto].
Qed.

(** When all variables are gone, nothing is allocated. *)
Theorem C30_all_released : forall (A : Type) (t : traits) (dflt zero : A) (cap n : nat) (p : list sop) s,
  traits_ok t -> val_run t dflt zero cap (repeat None n) p = Some s -> Forall (fun x => x = None) s ->
  exists w, sso_run t dflt zero cap (sso_start n) p = Some w /\ forall blk, In blk (sw_heap w) -> b_live blk = false.
Proof.
  intros A t dflt zero cap n p s Ht Hp Hs. destruct (C30_sso_values A t dflt zero cap n p s Ht Hp) as (w & E & V & M & _).
  exists w. split; auto. intros blk Hb. destruct (b_live blk) eqn:L; auto. exfalso.
  apply In_nth_error in Hb. destruct Hb as (b & Hb). destruct (proj1 (M b)) as (v & q & Eq & _).
  { exists (b_cells blk). rewrite Hb. destruct blk as [l c]. cbn in *. now subst l. }
  specialize (V v). unfold val in V. destruct (nth_error s v) as [x|] eqn:Ev; [|congruence].
  rewrite Forall_forall in Hs. rewrite (Hs x (nth_error_In _ _ Ev)) in V. congruence.
Qed.

(** For trivial types (numbers) every history without self-copy-assignment is right (with it if the handle fits the buffer: above). *)
Theorem C30_trivial_types : forall (A : Type) (t : traits) (dflt zero : A) (cap n : nat) (p : list sop) s,
  traits_ok t -> t_trivial t = true -> (forall v, ~ In (SAssignCopy v v) p) ->
  val_history t dflt zero (repeat None n) p = Some s ->
  exists w, sso_run t dflt zero cap (sso_start n) p = Some w /\ right_values w s /\ right_memory w /\ disjoint w.
Proof.
  intros A t dflt zero cap n p s Ht Tt Hn Hp. apply C30_sso_values; auto.
  assert (Tc : t_tcopy t = true) by (now apply (proj1 Ht)). revert Hn Hp. generalize (repeat (@None (list (option A))) n).
  induction p as [|o p IH]; intros s0 Hn Hp; cbn [val_run val_history] in *; auto.
  replace (careful t cap s0 o) with true.
  - destruct (val_step t dflt zero s0 o); [|discriminate]. apply IH; auto. intros v Hv. apply (Hn v). now right.
  - destruct o; cbn [careful]; auto; rewrite ?Tc; auto. destruct (Nat.eqb_spec v x) as [->|]; auto.
    exfalso. apply (Hn x). now left.
Qed.

(** handle_stack: construction from another handle copies (also when it moves), assignment too if the type is trivially
    copyable; nothing but the destination changes. *)
Theorem C30_stack_copy : forall (A : Type) (t : traits) (cap : nat) (H : heap A) d s cd cs,
  nth_error H d = Some (Block true cd) -> nth_error H s = Some (Block true cs) -> length cd = cap -> length cs = cap ->
  (t_tcopy t = true \/ (d <> s /\ Forall (fun c => c = None) cd /\ Forall (fun c => c <> None) cs)) ->
  k_assign t cap H d s = Some (upd H d (Block true cs)).
Proof.
  intros A t cap H d s cd cs Ed Es Ld Ls Hc. destruct (Nat.eq_dec d s) as [<-|N].
  - assert (cs = cd) by congruence. subst cs. rewrite upd_same by auto.
    destruct Hc as [T|[N _]]; [|congruence]. unfold k_assign. apply copy_self with (cs := cd); auto. lia.
  - destruct Hc as [T|(_ & Rd & Gs)].
    + eapply k_assign_other; eauto; intros Q; congruence.
    + eapply k_assign_other; eauto; intros _; auto.
Qed.

(** handle_stack: construction and destruction. *)
Theorem C30_stack_lifetime : forall (A : Type) (t : traits) (dflt : A) (cap : nat) (H : heap A), traits_ok t ->
  exists l, k_new t dflt cap H = Some (H ++ [Block true l], length H) /\ length l = cap
    /\ (t_trivial t || t_complex t = false -> l = repeat (Some dflt) cap)
    /\ k_end t cap (H ++ [Block true l]) (length H) = Some (H ++ [Block false []]).
Proof.
  intros A t dflt cap H Ht. destruct (k_new_ok t dflt cap Ht H) as (l & E & L & G & D).
  exists l. split; [|split; [|split]]; auto. rewrite (k_end_ok t cap Ht _ _ l); auto; [now rewrite upd_app_r|apply nth_error_new].
Qed.

Definition t_num := Traits true false true.     (* int, double *)
Definition t_cplx := Traits false true true.    (* std::complex<double> *)
Definition t_str := Traits false false false.   (* std::string, nda::array *)

(** Self-assignment of a handle on the heap loses the contents. *)
Theorem C30_self_assign_refuted : exists (p : list (sop (A := nat))) s w,
  val_history t_num 0%nat 0%nat (repeat None 1) p = Some s /\ sso_run t_num 0%nat 0%nat 1 (sso_start 1) p = Some w /\ ~ right_values w s.
Proof.
  exists [SFrom 0 [7; 8]%nat; SAssignCopy 0 0], [Some [Some 7; Some 8]%nat].
  eexists. split; [reflexivity|]. split; [vm_compute; reflexivity|]. intros R. specialize (R 0%nat). cbn in R.
  destruct R as (q & [= <-] & _ & _ & R). destruct (R 0%nat 7%nat eq_refl) as (b & [= <-] & E). vm_compute in E. discriminate.
Qed.
(** Self-assignment of a small handle whose elements have destructors reads destroyed elements. *)
Theorem C30_self_assign_objects_refuted : exists (p : list (sop (A := nat))) s,
  val_history t_str 0%nat 0%nat (repeat None 1) p = Some s /\ sso_run t_str 0%nat 0%nat 2 (sso_start 1) p = None.
Proof. exists [SFrom 0 [7]%nat; SAssignCopy 0 0], [Some [Some 7]%nat]. split; vm_compute; reflexivity. Qed.
(** Moving a small handle whose elements have destructors loses the elements of the source: they are never destroyed. *)
Theorem C30_move_small_refuted : exists (p : list (sop (A := nat))) s,
  val_history t_str 0%nat 0%nat (repeat None 2) p = Some s /\ sso_run t_str 0%nat 0%nat 2 (sso_start 2) p = None.
Proof. exists [SFrom 0 [7]%nat; SMove 1 0; SEnd 0], [None; Some [Some 7]%nat]. split; vm_compute; reflexivity. Qed.
(** Assignment of stack handles constructs over living elements, which are lost. *)
Theorem C30_stack_assign_refuted : exists (H : heap nat) d s,
  nth_error H d = Some (Block true [Some 1]%nat) /\ nth_error H s = Some (Block true [Some 2]%nat) /\ k_assign t_str 1 H d s = None.
Proof. exists [Block true [Some 1]; Block true [Some 2]]%nat, 0%nat, 1%nat. repeat split. Qed.
(** Complex elements are set to zero by the constructor from a size only if they are on the heap. *)
Theorem C30_complex_zero_refuted : exists w w',
  sso_run t_cplx 1%nat 0%nat 2 (sso_start 1) [SNew 0 3 Default] = Some w
  /\ sso_run t_cplx 1%nat 0%nat 2 (sso_start 1) [SNew 0 2 Default] = Some w'
  /\ read_cell (sw_heap w) 1 0 = Some (Some 0%nat) /\ read_cell (sw_heap w') 0 0 = Some None.
Proof. eexists _, _. split; [vm_compute; reflexivity|]. split; [vm_compute; reflexivity|]. split; reflexivity. Qed.

(** Non-vacuity: a program that crosses the capacity in both directions. *)
Example C30_example : forall t, traits_ok t -> t_tcopy t = false ->
  val_run t 0%nat 0%nat 2 (repeat None 4)
    [SFrom 0 [1; 2; 3]%nat; SFrom 1 [4; 5]%nat; SCopy 2 1; SAssignCopy 1 0; SMove 3 0; SWrite 1 2 9%nat; SAssignCopy 0 2; SEnd 3; SAssignMove 2 1]
  = Some [Some [Some 4; Some 5]; Some []; Some [Some 1; Some 2; Some 9]; None]%nat.
Proof. intros t _ T. cbn. rewrite T. cbn. reflexivity. Qed.

Print Assumptions C30_sso_values.
Print Assumptions C30_all_released.
Print Assumptions C30_trivial_types.
Print Assumptions C30_stack_copy.
Print Assumptions C30_stack_lifetime.
Print Assumptions C30_self_assign_refuted.
Print Assumptions C30_self_assign_objects_refuted.
Print Assumptions C30_move_small_refuted.
Print Assumptions C30_stack_assign_refuted.
Print Assumptions C30_complex_zero_refuted.
