(** C29, C31: heap and shared handles.  The specification is the machine without memory management of S_Handle. *)
From Verif Require Import Base M_Handle S_Handle L_Handle L_Own L_Run.

(** Every legal program with heap handles (any sizes, any contents, self-assignments and self-moves included) runs
    without undefined behaviour and without losing an object, every handle shows the contents value semantics
    prescribes, and exactly the blocks referred to by some handle are allocated.  In [run] a second release of a block,
    an access to a released one, or a release with objects inside would give None. *)
Theorem C29_heap_handles : forall (A : Type) (t : traits) (dflt zero : A) nh ns p s,
  traits_ok t -> Forall (fun o => sharing o = false) p ->
  ideal_run t dflt zero (ideal_start nh ns) p = Some s ->
  exists w, run t dflt zero (start nh ns) p = Some w /\ same_contents w s /\ exactly_live w s.
Proof.
  intros A t dflt zero nh ns p s Ht Hp E.
  destruct (run_sim_unshared t dflt zero Ht p (start nh ns) (ideal_start nh ns) s) as (w & Ew & R); auto.
  - apply start_rel.
  - unfold unshared, start. cbn [w_h]. clear. induction nh; simpl; constructor; auto.
  - exists w. split; auto. split; [eapply rel_same; eauto|eapply rel_exactly; eauto].
Qed.

(** The same for programs in which storage is also shared, if no handle is moved into itself. *)
Theorem C31_shared_handles : forall (A : Type) (t : traits) (dflt zero : A) nh ns p s,
  traits_ok t -> Forall (fun o => self_move o = false) p ->
  ideal_run t dflt zero (ideal_start nh ns) p = Some s ->
  exists w, run t dflt zero (start nh ns) p = Some w /\ same_contents w s /\ exactly_live w s.
Proof.
  intros A t dflt zero nh ns p s Ht Hp E.
  destruct (run_sim t dflt zero Ht p (start nh ns) (ideal_start nh ns) s) as (w & Ew & R); auto.
  - apply start_rel.
  - exists w. split; auto. split; [eapply rel_same; eauto|eapply rel_exactly; eauto].
Qed.

(** Once all variables are out of scope nothing is left allocated; while one refers to a storage it is not released. *)
Theorem C31_released_with_last_owner : forall (A : Type) (t : traits) (dflt zero : A) nh ns p s w,
  traits_ok t -> Forall (fun o => self_move o = false) p ->
  ideal_run t dflt zero (ideal_start nh ns) p = Some s -> run t dflt zero (start nh ns) p = Some w ->
  (Forall (fun q => q = Dead) (i_h s ++ i_s s) -> Forall (fun blk => b_live blk = false) (m_heap (w_mem w)))
  /\ (forall b, In (Ref b) (i_h s ++ i_s s) -> exists cells, nth_error (m_heap (w_mem w)) b = Some (Block true cells)).
Proof.
  intros A t dflt zero nh ns p s w Ht Hp E Ew. destruct (C31_shared_handles A t dflt zero nh ns p s Ht Hp E) as (w' & Ew' & _ & L).
  assert (w' = w) by congruence. subst w'. split.
  - intros Hd. apply Forall_forall. intros blk Hb. apply In_nth_error in Hb. destruct Hb as (b & Eb).
    destruct blk as [[] cs]; auto. exfalso.
    assert (Hin : In (Ref b) (i_h s ++ i_s s)) by (apply L; eauto). rewrite Forall_forall in Hd. now specialize (Hd _ Hin).
  - intros b Hb. now apply L.
Qed.

(** A temporary of type [swap]: three moves exchange two handles. *)
Theorem C29_swap : forall (A : Type) (t : traits) (dflt zero : A) (s : ideal A) a b k pa pb,
  a <> b -> k <> a -> k <> b -> nth_error (i_h s) a = Some pa -> nth_error (i_h s) b = Some pb -> nth_error (i_h s) k = Some Dead ->
  pa <> Dead -> pb <> Dead ->
  exists s', ideal_run t dflt zero s [MoveH k a; AssignMove a b; AssignMove b k; End k] = Some s'
    /\ i_objs s' = i_objs s /\ i_s s' = i_s s /\ i_h s' = upd (upd (i_h s) a pb) b pa.
Proof.
  intros A t dflt zero s a b k pa pb Hab Hka Hkb Ea Eb Ek Da Db.
  assert (N : forall l v p, nth_error l v = Some p -> p <> Dead -> alive l v = true).
  { intros l v p E D. unfold alive. rewrite E. destruct p; auto; congruence. }
  assert (Lk := nth_error_lt _ _ _ Ek). assert (La := nth_error_lt _ _ _ Ea). assert (Lb := nth_error_lt _ _ _ Eb).
  cbn [ideal_run ideal_step i_h i_objs i_s]. unfold unused. rewrite Ek, (N _ _ _ Ea Da), (at_nth _ _ _ Ea). cbn [andb i_h i_objs i_s].
  set (l1 := upd (upd (i_h s) k pa) a Null).
  assert (E1a : nth_error l1 a = Some Null) by (apply nth_error_upd_eq; now rewrite upd_length).
  assert (E1b : nth_error l1 b = Some pb) by (unfold l1; now rewrite !nth_error_upd_neq by congruence).
  assert (E1k : nth_error l1 k = Some pa) by (unfold l1; rewrite nth_error_upd_neq by congruence; now apply nth_error_upd_eq).
  rewrite (N _ _ _ E1a) by discriminate. rewrite (N _ _ _ E1b) by auto. rewrite (at_nth _ _ _ E1b). cbn [andb i_h i_objs i_s].
  set (l2 := upd (upd l1 a pb) b Null).
  assert (E2b : nth_error l2 b = Some Null) by (apply nth_error_upd_eq; unfold l1; now rewrite !upd_length).
  assert (E2k : nth_error l2 k = Some pa) by (unfold l2; now rewrite !nth_error_upd_neq by congruence).
  rewrite (N _ _ _ E2b) by discriminate. rewrite (N _ _ _ E2k) by auto. rewrite (at_nth _ _ _ E2k). cbn [andb i_h i_objs i_s].
  set (l3 := upd (upd l2 b pa) k Null).
  assert (E3k : nth_error l3 k = Some Null) by (apply nth_error_upd_eq; unfold l2, l1; now rewrite !upd_length).
  rewrite (N _ _ _ E3k) by discriminate. eexists. split; [reflexivity|]. cbn [i_objs i_s i_h]. repeat split; auto.
  unfold l3, l2, l1. rewrite !upd_upd.
  rewrite (upd_comm (upd (upd (i_h s) k pa) a pb) b k) by congruence.
  rewrite (upd_comm (upd (i_h s) k pa) a k) by congruence. now rewrite upd_upd, (upd_same (i_h s) k).
Qed.

(** Non-vacuity: a type with constructors and destructors; copies, self-assignment, self-move, moves and overwriting. *)
Definition ex_obj := Traits false false false.
Example C29_example :
  let p := [From 0 [5; 6]; New 1 3 Default; CopyH 2 0; WriteH 2 1 9; AssignCopy 0 0; AssignMove 1 2; AssignMove 0 0; Declare 3;
            AssignCopy 3 1; End 0; End 2] in
  traits_ok ex_obj /\ Forall (fun o => sharing o = false) p
  /\ (exists s, ideal_run ex_obj 7 0 (ideal_start 4 0) p = Some s /\ contents (i_objs s) (at_ (i_h s) 1) = Some [Some 5; Some 9])
  /\ (exists w, run ex_obj 7 0 (start 4 0) p = Some w /\ map b_live (m_heap (w_mem w)) = [false; false; true; false; true]).
Proof.
  cbv zeta. split; [split; discriminate|]. split; [repeat (constructor; [reflexivity|]); constructor|].
  split; eexists; split; vm_compute; reflexivity.
Qed.

Example C31_example :
  let p := [From 0 [5; 6]; Share 0 0; CopySS 1 0; End 0; WriteS 1 0 8; MoveSS 2 1; AssignCopySS 1 2; EndS 0; CopyS 1 2; EndS 1] in
  Forall (fun o => self_move o = false) p
  /\ (exists s, ideal_run ex_obj 7 0 (ideal_start 2 3) p = Some s /\ contents (i_objs s) (at_ (i_s s) 2) = Some [Some 8; Some 6])
  /\ (exists w, run ex_obj 7 0 (start 2 3) p = Some w /\ map b_live (m_heap (w_mem w)) = [true; true])
  /\ (exists w, run ex_obj 7 0 (start 2 3) (p ++ [EndS 2; End 1]) = Some w /\ map b_live (m_heap (w_mem w)) = [false; false]).
Proof.
  cbv zeta. split; [repeat (constructor; [reflexivity|]); constructor|].
  repeat split; eexists; split; vm_compute; reflexivity.
Qed.

(** The pair (pointer, size) created by get_sptr is not released by the deleter: it is lost when the storage is released. *)
Theorem C31_control_pair_refuted :
  exists p w, Forall (fun o => self_move o = false) p
    /\ ideal_run ex_obj 7 0 (ideal_start 1 1) p = Some (Ideal [[Some 5]] [Dead] [Dead])
    /\ run ex_obj 7 0 (start 1 1) p = Some w
    /\ map b_live (m_heap (w_mem w)) = [false]
    /\ map (fun k => (c_count k, c_pair k)) (m_ctrl (w_mem w)) = [(0%nat, true)].
Proof.
  exists [From 0 [5]; Share 0 0; End 0; EndS 0]. eexists. split; [repeat (constructor; [reflexivity|]); constructor|].
  split; [reflexivity|]. split; [vm_compute; reflexivity|]. split; reflexivity.
Qed.

(** A shared heap handle moved into itself is empty but keeps its part of the ownership: the storage survives its last user. *)
Theorem C31_self_move_refuted :
  exists p w, ideal_run ex_obj 7 0 (ideal_start 1 1) p = Some (Ideal [[Some 5]] [Null] [Dead])
    /\ run ex_obj 7 0 (start 1 1) p = Some w /\ map b_live (m_heap (w_mem w)) = [true].
Proof.
  exists [From 0 [5]; Share 0 0; AssignMove 0 0; EndS 0]. eexists. split; [reflexivity|]. split; [vm_compute; reflexivity|]. reflexivity.
Qed.

(** A moved-from shared handle is not null: it keeps the pointer without owning, and a copy of it dangles. *)
Theorem C31_moved_from_refuted :
  exists p w, run ex_obj 7 0 (start 1 3) p = Some w /\ map b_live (m_heap (w_mem w)) = [false]
    /\ nth_error (w_s w) 2 = Some (Some (HShared (Some 0%nat) 1 None)).
Proof.
  exists [From 0 [5]; Share 0 0; MoveSS 1 0; EndS 1; End 0; CopySS 2 0]. eexists. split; [vm_compute; reflexivity|]. split; reflexivity.
Qed.

Print Assumptions C29_heap_handles.
Print Assumptions C31_shared_handles.
Print Assumptions C31_released_with_last_owner.
Print Assumptions C29_swap.
Print Assumptions C31_control_pair_refuted.
Print Assumptions C31_self_move_refuted.
Print Assumptions C31_moved_from_refuted.
