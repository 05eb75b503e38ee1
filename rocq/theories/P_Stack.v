(** C83: arrays of fixed shape are regular values. *)
From Verif Require Import Base M_Perm L_Perm M_IdxMap S_Layout L_IdxMap M_Loops M_Handle S_Handle M_Sso M_Array S_Array L_Handle L_Array M_Stack S_Stack L_Stack.

Lemma fold_mul ns a : fold_left Z.mul ns a = a * prodZ ns.
Proof. revert a. induction ns as [|n ns IH]; intros a; cbn [fold_left prodZ fold_right]; [unfold prodZ; cbn; lia|]. rewrite IH. unfold prodZ. cbn [fold_right]. ring. Qed.
Lemma small ns : Forall (fun n => 1 <= n <= 15) ns -> Forall (fun n => 0 <= n < 16) ns /\ Forall (fun l => 0 < l) ns.
Proof. intros H. split; (eapply Forall_impl; [|exact H]); intros n Hn; cbv beta in *; lia. Qed.

(** The type: up to eight extents from 1 to 15 give a layout with these extents and a buffer with room for the elements. *)
Theorem C83_type : forall ns, ns <> [] -> (length ns <= 8)%nat -> Forall (fun n => 1 <= n <= 15) ns ->
  exists cap, stack_type ns = Some (ns, cap) /\ Z.of_nat cap = prodZ ns.
Proof.
  intros ns Hn Hl H. destruct (small ns H) as [H16 Hp]. destruct (encode_decode ns H16 Hl) as (w & Ew & Dw).
  exists (volume ns). unfold stack_type, static_extents. destruct ns as [|n0 ns']; [congruence|]. inversion H as [|? ? Q _]; subst.
  destruct (Z.ltb_spec 15 n0); [lia|]. rewrite Ew, Dw. split.
  - rewrite fold_mul, Z.mul_1_l. reflexivity.
  - unfold volume. apply Z2Nat.id, prodZ_nonneg. eapply Forall_impl; [|exact Hp]. intros; cbv beta in *; lia.
Qed.

(** Every legal history of arrays of one fixed shape runs to its end, in debug and in release builds: no check stops it, it never
    leaves a buffer, uses an object that was not constructed or constructs over one.  At its end each variable has the shape
    of the type and its own elements, no two variables share a buffer, and only the variables in scope have one. *)
Theorem C83_values : forall (A : Type) (t : traits) (dflt zero : A) checks ns so pr junk n (p : list (kop (A := A))) s,
  traits_ok t -> ns <> [] -> (length ns <= 8)%nat -> Forall (fun n => 1 <= n <= 15) ns -> is_order (length ns) so -> length junk = length ns ->
  k_history t dflt zero so ns (repeat None n) p = Some s ->
  exists se cap w, stack_type ns = Some (se, cap) /\ Z.of_nat cap = prodZ ns
    /\ k_run t dflt zero checks so se pr cap junk (k_start n) p = KOk w /\ k_all_right so ns w s /\ k_memory w.
Proof.
  intros A t dflt zero checks ns so pr junk n p s Ht Hn Hl H15 Hso Hj Hh. destruct (C83_type ns Hn Hl H15) as (cap & Ety & Ec).
  assert (Hr : (0 < length ns < 16)%nat) by (destruct ns; [congruence|cbn [length] in *; lia]). destruct (small ns H15) as [_ Hp].
  assert (Ec' : cap = volume ns) by (unfold volume; lia). 
  subst cap. destruct (k_run_sim t dflt zero checks so ns pr junk Ht Hso Hr Hj Hp p _ _ _ (k_start_rel t so ns pr junk n) Hh) as (w & E & R).
  exists ns, (volume ns), w. split; [exact Ety|]. split; [exact Ec|]. split; [exact E|]. split; [eapply krel_looks; eauto|eapply krel_memory; eauto].
Qed.
(** When all variables are out of scope, all objects are destroyed. *)
Theorem C83_all_released : forall (A : Type) (t : traits) (dflt zero : A) checks ns so pr junk n (p : list (kop (A := A))) cap s,
  traits_ok t -> (0 < length ns < 16)%nat -> Forall (fun l => 0 < l) ns -> is_order (length ns) so -> length junk = length ns ->
  stack_type ns = Some (ns, cap) ->
  k_history t dflt zero so ns (repeat None n) p = Some s -> Forall (fun x => x = None) s ->
  exists w, k_run t dflt zero checks so ns pr cap junk (k_start n) p = KOk w /\ forall blk, In blk (kw_heap w) -> b_live blk = false.
Proof.
  intros A t dflt zero checks ns so pr junk n p cap s Ht Hr Hp Hso Hj Ety Hh Hs.
  assert (Ec : cap = volume ns).
  { unfold stack_type in Ety. destruct (static_extents ns); [|discriminate]. injection Ety as _ <-. now rewrite fold_mul, Z.mul_1_l. }
  subst cap. destruct (k_run_sim t dflt zero checks so ns pr junk Ht Hso Hr Hj Hp p _ _ _ (k_start_rel t so ns pr junk n) Hh) as (w & E & R).
  exists w. split; [exact E|]. intros blk Hb. destruct (b_live blk) eqn:L; auto. exfalso. apply In_nth_error in Hb. destruct Hb as (b & Hb).
  destruct blk as [bl cs]. cbn in L. subst bl. destruct (kr_live _ _ _ _ _ _ _ R b cs Hb) as (v & m & Ev).
  destruct (kr_back _ _ _ _ _ _ _ _ _ _ R Ev) as (l & Es & _). rewrite Forall_forall in Hs. apply nth_error_In in Es. specialize (Hs _ Es). discriminate.
Qed.

(** In a debug build every statement that asks for another shape is stopped. *)
Theorem C83_shape_stops : forall (A : Type) (t : traits) (dflt zero : A) ns so pr junk n (p : list (kop (A := A))) cap s v sh f o,
  traits_ok t -> (0 < length ns < 16)%nat -> Forall (fun l => 0 < l) ns -> is_order (length ns) so -> length junk = length ns ->
  stack_type ns = Some (ns, cap) ->
  k_history t dflt zero so ns (repeat None n) p = Some s ->
  length sh = length ns -> sh <> ns ->
  In o [KDims v sh; KShape v sh; KZeros v sh; KFrom v sh f] \/ (kval s v <> None /\ In o [KResize v sh; KAssignExpr v sh f]) ->
  k_run t dflt zero true so ns pr cap junk (k_start n) (p ++ [o]) = KStop.
Proof.
  intros A t dflt zero ns so pr junk n p cap s v sh f o Ht Hr Hp Hso Hj Ety Hh Ls Ns Ho.
  assert (Ec : cap = volume ns).
  { unfold stack_type in Ety. destruct (static_extents ns); [|discriminate]. injection Ety as _ <-. now rewrite fold_mul, Z.mul_1_l. }
  subst cap. destruct (k_run_sim t dflt zero true so ns pr junk Ht Hso Hr Hj Hp p _ _ _ (k_start_rel t so ns pr junk n) Hh) as (w & E & R).
  assert (Run : forall w0, k_run t dflt zero true so ns pr (volume ns) junk w0 p = KOk w ->
     k_run t dflt zero true so ns pr (volume ns) junk w0 (p ++ [o]) = k_exec t dflt zero true so ns pr (volume ns) junk w o).
  { clear. induction p as [|x p IH]; intros w0 E; cbn [app k_run] in *.
    - injection E as <-. destruct k_exec; reflexivity.
    - destruct (k_exec _ _ _ _ _ _ _ _ _ w0 x); try discriminate. auto. }
  rewrite (Run _ E). clear Run.
  assert (X : static_extents_ok ns sh = false).
  { destruct (static_extents_ok ns sh) eqn:X; auto. exfalso. apply Ns. clear -X Ls Hp. unfold static_extents_ok in X. rewrite forallb_forall in X.
    apply nth_ext with (d := 0) (d' := 0); auto. intros u Hu. rewrite Ls in Hu. specialize (X u). rewrite in_seq in X. specialize (X ltac:(lia)).
    apply orb_true_iff in X. rewrite Forall_forall in Hp. assert (0 < nth u ns 0) by (apply Hp, nth_In; lia). unfold nthZ in X. rewrite !Z.eqb_eq in X. lia. }
  assert (W : forall T (g : idx_map -> kres T), with_layout true so ns pr junk sh g = KStop).
  { intros T g. unfold with_layout. rewrite X, andb_false_r. reflexivity. }
  destruct Ho as [Ho|[Hk Ho]].
  - cbn [In] in Ho. destruct Ho as [<-|[<-|[<-|[<-|[]]]]]; cbn [k_exec]; apply W.
  - destruct (kval s v) as [l|] eqn:Ev; [|congruence]. destruct (k_var_some _ _ _ _ _ _ _ _ _ R Ev) as (b & Kv & _).
    cbn [In] in Ho. destruct Ho as [<-|[<-|[]]]; cbn [k_exec]; unfold k_resize; rewrite Kv, W; reflexivity.
Qed.

(** In a release build nothing is checked.  [stack_array<double, 2, 3> a(2, 4); a(1, 3) = 1;] writes outside the buffer, and so does
    [a = b] for an expression [b] of shape (2, 4). *)
Definition num := Traits true false true.
Definition str := Traits false false false.
Theorem C83_shape_refuted : exists p q : list (kop (A := Z)),
  p = [KShape 0 [2; 4]; KWrite 0 [1; 3] 1] /\ q = [KShape 0 [2; 3]; KAssignExpr 0 [2; 4] (fun _ => 1)]
  /\ stack_type [2; 3] = Some ([2; 3], 6%nat)
  /\ k_run num 0 0 false [0; 1]%nat [2; 3] LP_contiguous 6 [0; 0] (k_start 1) p = KBad
  /\ k_run num 0 0 false [0; 1]%nat [2; 3] LP_contiguous 6 [0; 0] (k_start 1) q = KBad.
Proof. eexists _, _. repeat split; vm_compute; reflexivity. Qed.
(** Elements with destructors: [a = b] constructs over the objects of [a], which are never destroyed. *)
Theorem C83_assign_refuted : forall checks, exists p : list (kop (A := Z)),
  p = [KShape 0 [2]; KShape 1 [2]; KAssignCopy 0 1]
  /\ k_run str 0 0 checks [0]%nat [2] LP_contiguous 2 [0] (k_start 2) p = KBad
  /\ k_run str 0 0 checks [0]%nat [2] LP_contiguous 2 [0] (k_start 2) [KShape 0 [2]; KShape 1 [2]; KEnd 0; KEnd 1]
     = KOk (KWorld [Block false []; Block false []] [None; None]).
Proof. intros checks. eexists. destruct checks; repeat split; vm_compute; reflexivity. Qed.
(** Elements with destructors: [stack_array<std::string, 2> a;] constructs nothing, and its end destroys two objects that do not exist. *)
Theorem C83_declare_refuted : forall checks, exists p : list (kop (A := Z)),
  p = [KDeclare 0; KEnd 0] /\ k_run str 0 0 checks [0]%nat [2] LP_contiguous 2 [0] (k_start 1) p = KBad.
Proof. intros checks. eexists. destruct checks; repeat split; vm_compute; reflexivity. Qed.
(** Only the first extent is limited to 15.  [stack_array<double, 3, 20>] compiles, but is an array of shape (3, 4) with a
    buffer for 60 elements; [stack_array<double, 3, 20> a(3, 20);] is stopped in a debug build. *)
Theorem C83_wide_refuted : exists se,
  stack_type [3; 20] = Some (se, 60%nat) /\ se = [3; 4]
  /\ (exists w b m, k_run num 0 0 true [0; 1]%nat se LP_contiguous 60 [0; 0] (k_start 1) [KDeclare 0] = KOk w
        /\ nth_error (kw_v w) 0 = Some (Some (b, m)) /\ im_len m = [3; 4])
  /\ k_run num 0 0 true [0; 1]%nat se LP_contiguous 60 [0; 0] (k_start 1) [KShape 0 [3; 20]] = KStop.
Proof.
  exists [3; 4]. split; [vm_compute; reflexivity|]. split; [reflexivity|]. split; [|vm_compute; reflexivity].
  eexists _, _, _. split; [vm_compute; reflexivity|]. split; vm_compute; reflexivity.
Qed.

(** Non-vacuity. *)
Definition demo : list (kop (A := Z)) :=
  [KShape 0 [2; 3]; KDims 1 [2; 3]; KFrom 2 [2; 3] (fun idx => nthZ idx 0 * 10 + nthZ idx 1); KCopy 3 2; KWrite 3 [1; 2] 7;
   KAssignExpr 0 [2; 3] (fun idx => nthZ idx 1); KFill 1 5; KMove 4 3; KEnd 2; KResize 0 [2; 3]].
Definition demo_num : list (kop (A := Z)) := [KDeclare 0; KZeros 1 [2; 3]; KAssignCopy 0 1; KWrite 1 [0; 1] 4; KAssignMove 1 1; KAssignMove 0 1].
Example C83_legal : k_history str 9 0 [1; 0]%nat [2; 3] (repeat None 5) demo
  = Some [Some (map Some [0; 0; 1; 1; 2; 2]); Some (repeat (Some 5) 6); None; Some (map Some [0; 10; 1; 11; 2; 7]); Some (map Some [0; 10; 1; 11; 2; 7])].
Proof. vm_compute. reflexivity. Qed.
Example C83_legal_num : k_history num 9 0 [0; 1]%nat [2; 3] (repeat None 2) demo_num
  = Some [Some (map Some [0; 4; 0; 0; 0; 0]); Some (map Some [0; 4; 0; 0; 0; 0])].
Proof. vm_compute. reflexivity. Qed.
Example C83_legal_end : k_history str 9 0 [1; 0]%nat [2; 3] (repeat None 5) (demo ++ [KEnd 0; KEnd 1; KEnd 3; KEnd 4]) = Some (repeat None 5).
Proof. vm_compute. reflexivity. Qed.
Example C83_stop_case : k_run str 9 0 true [1; 0]%nat [2; 3] LP_contiguous 6 [0; 0] (k_start 5) (demo ++ [KResize 1 [3; 2]]) = KStop.
Proof. vm_compute. reflexivity. Qed.
Example C83_type_case : stack_type [2; 3; 15] = Some ([2; 3; 15], 90%nat) /\ stack_type [16; 2] = None.
Proof. split; vm_compute; reflexivity. Qed.

Print Assumptions C83_type.
Print Assumptions C83_values.
Print Assumptions C83_all_released.
Print Assumptions C83_shape_stops.
Print Assumptions C83_shape_refuted.
Print Assumptions C83_assign_refuted.
Print Assumptions C83_declare_refuted.
Print Assumptions C83_wide_refuted.
