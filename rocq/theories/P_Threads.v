(** C72: threads. *)
From Verif Require Import Base M_Perm M_IdxMap S_Layout M_Loops S_Loops M_Handle S_Handle M_Array S_Array L_Loops L_Handle L_Own L_Run L_Array M_Threads S_Threads L_Sched L_Threads L_Confine L_Join M_Unsafe.
From Verif Require M_Alloc.

Section Setting.
Context {A : Type}.
Variable (t : traits) (dflt zero : A) (so : list nat) (pr : layout_prop) (junk : list Z).

(** The parent runs [p0] and starts the threads [progs]; [s0] and [ss] are what its arrays and those of the threads should be. *)
Definition legal_fork (n : nat) (p0 : list (aop (A := A))) s0 ns owner progs ss : Prop :=
  traits_ok t /\ is_order (length so) so /\ (0 < length so < 16)%nat /\ length junk = length so /\
  a_history t dflt zero so (repeat None n) p0 = Some s0 /\ disciplined t dflt zero so ns owner s0 progs ss.
Definition forked (n : nat) (p0 : list (aop (A := A))) (w0 : aworld A) : Prop := a_run t dflt zero so pr junk (a_start so pr junk n) p0 = Some w0.
(** [S] is a state the threads can reach *)
Definition reachable (w0 : aworld A) progs (S : tsys (A := A)) : Prop := exists sched, run_sched t zero (fork t dflt so pr junk w0 progs) sched = Some S.
Definition all_finished (S : tsys (A := A)) : Prop := forall x, In x (ts_thr S) -> finished (snd x) = true.

Lemma reach_inv n p0 s0 ns owner progs ss w0 : legal_fork n p0 s0 ns owner progs ss -> forked n p0 w0 ->
  ARel t so pr junk w0 s0 /\ exists fin gs, length fin = length progs /\
    Inv t zero (m_heap (w_mem (aw_w w0))) (ownc so (Priv (w_h (aw_w w0)) (aw_lay w0)) s0 ns owner) (fork t dflt so pr junk w0 progs) fin gs /\
    forall i f, nth_error fin i = Some f -> ends t so pr junk w0 s0 ns ss i f.
Proof.
  intros (Ht & Hso & Hr & Hj & Hp & D) E. destruct (a_run_sim t dflt zero so pr junk Ht Hso Hr Hj p0 _ _ _ (a_start_rel t so pr junk n) Hp) as (w & E' & R).
  unfold forked in E. assert (w = w0) as -> by congruence. split; auto.
  destruct (fork_inv t dflt zero so pr junk Ht Hso Hr Hj w0 s0 ns owner progs ss R D) as (fin & gs & I & F). exists fin, gs. split; auto.
  pose proof (in_thr _ _ _ _ _ _ _ I) as L. cbn [fork ts_thr] in L. now rewrite map_length in L.
Qed.
End Setting.

(** Whatever the schedule, no thread does anything undefined; a thread that has ended sees what its program alone would have computed, and has
    exactly the memory of its own variables. *)
Theorem C72_threads : forall (A : Type) (t : traits) (dflt zero : A) so pr junk n p0 s0 ns owner progs ss,
  legal_fork t dflt zero so junk n p0 s0 ns owner progs ss ->
  exists w0, forked t dflt zero so pr junk n p0 w0 /\
    forall sched, exists S, run_sched t zero (fork t dflt so pr junk w0 progs) sched = Some S /\ length (ts_thr S) = length progs /\
      forall i own p, nth_error (ts_thr S) i = Some (own, Done p) ->
        exists si, nth_error ss i = Some si /\ thread_looks so (layout_default so pr junk) ns owner i (ts_shared S ++ own) p si
                   /\ thread_memory ns (length (ts_shared S)) own p si.
Proof.
  intros A t dflt zero so pr junk n p0 s0 ns owner progs ss LF. pose proof LF as (Ht & Hso & Hr & Hj & Hp & D).
  destruct (a_run_sim t dflt zero so pr junk Ht Hso Hr Hj p0 _ _ _ (a_start_rel t so pr junk n) Hp) as (w0 & E & R). exists w0. split; auto. intros sched.
  destruct (reach_inv t dflt zero so pr junk n p0 s0 ns owner progs ss w0 LF E) as (_ & fin & gs & FL & I & F).
  destruct (inv_run t zero _ _ sched _ _ _ I) as (S & gs' & ES & IS & _). exists S. split; auto. pose proof (in_thr _ _ _ _ _ _ _ IS) as LT. split; [congruence|].
  intros i own p Hi. pose proof (nth_error_lt _ _ _ Hi) as Li. rewrite LT in Li. destruct (nth_error fin i) as [f|] eqn:Ef; [|apply nth_error_None in Ef; lia].
  rewrite (in_len _ _ _ _ _ _ _ IS). exact (thread_end t dflt zero so pr junk Hso Hr Hj w0 s0 ns owner progs ss R D S fin gs' i own p f IS F Hi Ef).
Qed.

(** After the threads have ended, in whatever order they ran, every element of the parent's arrays is as its owner left it, and the parent's
    program goes on as if it had computed these values itself. *)
Theorem C72_join : forall (A : Type) (t : traits) (dflt zero : A) so pr junk n p0 s0 ns owner progs ss w0 S p1 s1,
  legal_fork t dflt zero so junk n p0 s0 ns owner progs ss -> forked t dflt zero so pr junk n p0 w0 ->
  reachable t dflt zero so pr junk w0 progs S -> all_finished S ->
  a_history t dflt zero so (joined so owner s0 ss) p1 = Some s1 ->
  exists w1, a_run t dflt zero so pr junk (join w0 S) p1 = Some w1 /\ all_look_right so (layout_default so pr junk) w1 s1 /\ memory_exact w1.
Proof.
  intros A t dflt zero so pr junk n p0 s0 ns owner progs ss w0 S p1 s1 LF E (sched & ES) Fin H1. pose proof LF as (Ht & Hso & Hr & Hj & Hp & D).
  destruct (reach_inv t dflt zero so pr junk n p0 s0 ns owner progs ss w0 LF E) as (R & fin & gs & FL & I & F).
  destruct (inv_run t zero _ _ sched _ _ _ I) as (S' & gs' & ES' & IS & _). assert (S' = S) as -> by congruence.
  pose proof (join_arel t dflt zero so pr junk Hr Hj w0 s0 ns owner progs ss R D S fin gs' IS F Fin FL) as RJ.
  destruct (a_run_sim t dflt zero so pr junk Ht Hso Hr Hj p1 _ _ _ RJ H1) as (w1 & E1 & R1). exists w1. split; auto.
  split; [eapply arel_looks; eauto|eapply arel_memory; eauto].
Qed.

(** In no reachable state do two threads race. *)
Theorem C72_no_race : forall (A : Type) (t : traits) (dflt zero : A) so pr junk n p0 s0 ns owner progs ss w0 S,
  legal_fork t dflt zero so junk n p0 s0 ns owner progs ss -> forked t dflt zero so pr junk n p0 w0 ->
  reachable t dflt zero so pr junk w0 progs S -> ~ race S.
Proof.
  intros A t dflt zero so pr junk n p0 s0 ns owner progs ss w0 S LF E (sched & ES).
  destruct (reach_inv t dflt zero so pr junk n p0 s0 ns owner progs ss w0 LF E) as (R & fin & gs & FL & I & F).
  destruct (inv_run t zero _ _ sched _ _ _ I) as (S' & gs' & ES' & IS & _). assert (S' = S) as -> by congruence.
  intros (i & j & own1 & a1 & own2 & a2 & x & y & Hij & H1 & H2 & N1 & N2 & Hb & Hc & C). rewrite (in_len _ _ _ _ _ _ _ IS) in Hb.
  pose proof (inv_access t zero _ _ _ _ _ _ _ _ IS H1) as P1. pose proof (inv_access t zero _ _ _ _ _ _ _ _ IS H2) as P2. unfold okR, okW in *.
  destruct a1; try discriminate; injection N1 as <-; destruct a2; try discriminate; injection N2 as <-; cbn [block_of] in *; subst; try lia; try contradiction;
    destruct P1 as [?|P1]; try lia; destruct P2 as [?|P2]; try lia; subst; try (destruct P1 as [P1|P1]); try (destruct P2 as [P2|P2]); congruence.
Qed.

(** The threads do not wait for each other: there is a number of turns after which each has ended, whatever happens in between. *)
Theorem C72_finishes : forall (A : Type) (t : traits) (dflt zero : A) so pr junk n p0 s0 ns owner progs ss w0,
  legal_fork t dflt zero so junk n p0 s0 ns owner progs ss -> forked t dflt zero so pr junk n p0 w0 ->
  exists N, forall sched S, run_sched t zero (fork t dflt so pr junk w0 progs) sched = Some S ->
    (forall i, (i < length progs)%nat -> (N <= count_occ Nat.eq_dec sched i)%nat) -> all_finished S.
Proof.
  intros A t dflt zero so pr junk n p0 s0 ns owner progs ss w0 LF E.
  destruct (reach_inv t dflt zero so pr junk n p0 s0 ns owner progs ss w0 LF E) as (R & fin & gs & FL & I & F).
  set (T := fork t dflt so pr junk w0 progs) in *. exists (list_max (map (left_of t zero T gs) (seq 0 (length progs)))).
  intros sched S ES Hn. destruct (inv_run t zero _ _ sched _ _ _ I) as (S' & gs' & ES' & IS & LS). assert (S' = S) as -> by congruence.
  intros x Hx. apply In_nth_error in Hx. destruct Hx as (i & Hi). destruct x as [own a]. pose proof (nth_error_lt _ _ _ Hi) as Li. rewrite (in_thr _ _ _ _ _ _ _ IS), FL in Li.
  apply (left_finished t zero _ _ _ _ _ _ _ _ IS Hi). rewrite LS. specialize (Hn i Li).
  assert (B : (left_of t zero T gs i <= list_max (map (left_of t zero T gs) (seq 0 (length progs))))%nat).
  { pose proof (proj1 (list_max_le _ _) (le_n (list_max (map (left_of t zero T gs) (seq 0 (length progs)))))) as M. rewrite Forall_forall in M. apply M. apply in_map, in_seq. lia. }
  lia.
Qed.

(** A parallel loop v(idx) = g(idx, ...) whose elements are distributed over the threads and which reads other arrays only: whatever the schedule,
    the threads end, do not race, and [v] is the array of the values; nothing else changes. *)
Theorem C72_parallel_for : forall (A : Type) (t : traits) (dflt zero : A) so pr junk n p0 s0 v sh cells part reads g vals works,
  traits_ok t -> is_order (length so) so -> (0 < length so < 16)%nat -> length junk = length so ->
  a_history t dflt zero so (repeat None n) p0 = Some s0 ->
  aval_of s0 v = Some (AVal sh (Some cells)) -> distributed sh part works ->
  (forall idx, in_range idx sh -> all_some (map (elem_of so s0) (reads idx)) = Some (vals idx) /\ forall r, In r (reads idx) -> fst r <> v) ->
  exists w0 N, forked t dflt zero so pr junk n p0 w0 /\
    forall sched, (forall i, (i < length works)%nat -> (N <= count_occ Nat.eq_dec sched i)%nat) ->
      exists S, run_sched t zero (fork t dflt so pr junk w0 (map (par_for v reads g) works)) sched = Some S /\ all_finished S /\ ~ race S
        /\ all_look_right so (layout_default so pr junk) (join w0 S) (upd s0 v (Some (AVal sh (Some (tabulate so sh (fun idx => g idx (vals idx)))))))
        /\ memory_exact (join w0 S).
Proof.
  intros A t dflt zero so pr junk n p0 s0 v sh cells part reads g vals works Ht Hso Hr Hj Hp Hv HW Hreads.
  destruct (a_run_sim t dflt zero so pr junk Ht Hso Hr Hj p0 _ _ _ (a_start_rel t so pr junk n) Hp) as (w0 & E & R).
  assert (HS : shape_ok so sh = true /\ length cells = volume sh).
  { destruct R as (i & I). pose proof (ar_var _ _ _ _ _ _ _ I v (aval_lt _ _ _ Hv)) as M. rewrite Hv in M. destruct M as ([M1 _] & _ & M2). auto. }
  destruct HS as [Hsh Hlen].
  pose proof (par_disciplined t dflt zero so junk Hr Hj s0 v sh cells part reads g vals works Hv Hreads HW) as D.
  assert (LF : legal_fork t dflt zero so junk n p0 s0 (length s0) (par_owner v part) (map (par_for v reads g) works) (par_ss so s0 v sh cells g vals works)) by (repeat (split; auto)).
  destruct (C72_finishes A t dflt zero so pr junk n p0 s0 _ _ _ _ w0 LF E) as (N & HN). exists w0, N. split; auto. intros sched Hs.
  destruct (C72_threads A t dflt zero so pr junk n p0 s0 _ _ _ _ LF) as (w & Ew & T). assert (w = w0) as -> by (unfold forked in *; congruence).
  destruct (T sched) as (S & ES & _). exists S. split; auto. rewrite map_length in HN. pose proof (HN sched S ES Hs) as Fin. split; auto.
  assert (Re : reachable t dflt zero so pr junk w0 (map (par_for v reads g) works) S) by (exists sched; auto).
  split; [exact (C72_no_race A t dflt zero so pr junk n p0 s0 _ _ _ _ w0 S LF E Re)|].
  destruct (C72_join A t dflt zero so pr junk n p0 s0 _ _ _ _ w0 S [] (joined so (par_owner v part) s0 (par_ss so s0 v sh cells g vals works)) LF E Re Fin eq_refl) as (w1 & E1 & L1 & M1).
  cbn [a_run] in E1. injection E1 as <-. rewrite (par_joined so pr junk Hso Hr Hj s0 v sh cells part reads g vals works Hv Hsh Hlen Hreads HW) in L1. auto.
Qed.

(** ** What the library does not protect *)
Definition num := Traits true false true.
Definition one_d : list nat := [0%nat].
Definition start1 (p : list (aop (A := Z))) := a_run num 0 0 one_d LP_contiguous [0] (a_start one_d LP_contiguous [0] 1) p.
Definition cells_of (S : tsys (A := Z)) : list (list (option Z)) := map (@b_cells Z) (ts_shared S).
Definition incr : tstmt (A := Z) := TSet 0 [0] [(0%nat, [0])] (fun l => hd 0 l + 1).

(** Two threads add 1 to the same element: both schedules are possible, and one of them loses an update. *)
Theorem C72_conflict_refuted : exists w0 sched1 sched2 S1 S2,
  start1 [AZeros 0 [1]] = Some w0 /\
  run_sched num 0 (fork num 0 one_d LP_contiguous [0] w0 [[incr]; [incr]]) sched1 = Some S1 /\ all_finished S1 /\ cells_of S1 = [[Some 2]] /\
  run_sched num 0 (fork num 0 one_d LP_contiguous [0] w0 [[incr]; [incr]]) sched2 = Some S2 /\ all_finished S2 /\ cells_of S2 = [[Some 1]].
Proof.
  eexists. exists [0; 0; 0; 1; 1; 1]%nat, [0; 1; 0; 0; 1; 1]%nat. do 2 eexists. split; [vm_compute; reflexivity|].
  split; [vm_compute; reflexivity|]. split; [intros x [<-|[<-|[]]]; reflexivity|]. split; [reflexivity|].
  split; [vm_compute; reflexivity|]. split; [intros x [<-|[<-|[]]]; reflexivity|]. reflexivity.
Qed.
(** One thread resizes an array while another reads an element of it: in one schedule the read is of released memory. *)
Theorem C72_resize_refuted : exists w0 sched,
  start1 [AZeros 0 [2]] = Some w0 /\
  run_sched num 0 (fork num 0 one_d LP_contiguous [0] w0 [[TOp (AResize 0 [3])]; [TSet 0 [1] [(0%nat, [1])] (hd 0)]]) sched = None.
Proof. eexists. exists [0; 0; 1]%nat. split; vm_compute; reflexivity. Qed.

(** The allocator of arrays is one object for all threads.  [bucket::allocate] in one piece is [bk_alloc]; when two threads choose their chunk before
    either has marked it, both get the same memory. *)
Theorem C72_bucket_pieces : forall chunk b, M_Alloc.bk_alloc chunk b = match bk_choose (M_Alloc.b_flags b) with
  | None => M_Alloc.Bad
  | Some pos => M_Alloc.Ok (bk_mark b pos, bk_chunk chunk b pos)
  end.
Proof. intros chunk b. unfold M_Alloc.bk_alloc, bk_choose. destruct (M_Alloc.b_flags b =? 0); reflexivity. Qed.
Theorem C72_bucket_refuted : forall chunk b pos1 pos2, bk_choose (M_Alloc.b_flags b) = Some pos1 -> bk_choose (M_Alloc.b_flags b) = Some pos2 ->
  bk_chunk chunk (bk_mark b pos1) pos1 = bk_chunk chunk (bk_mark (bk_mark b pos1) pos2) pos2.
Proof. intros chunk b pos1 pos2 E1 E2. assert (pos1 = pos2) as -> by congruence. reflexivity. Qed.

(** [leak_check] adds to and subtracts from a common counter, in two pieces.  Two allocations of which each reads the counter before the other has written it leave
    a counter that is too small: the next release of both aborts although nothing is wrong. *)
Theorem C72_leak_check_pieces : forall (a : M_Alloc.allocator) x u, 0 <= u ->
  (forall z n e s, M_Alloc.al (M_Alloc.leak_check a) z n e (x, u) s =
     match M_Alloc.al a z n e x s with M_Alloc.Ok (x', s', p) => M_Alloc.Ok ((x', lc_write (lc_read u) n), s', p) | M_Alloc.NoEnv => M_Alloc.NoEnv | M_Alloc.Bad => M_Alloc.Bad end) /\
  (forall blk s, M_Alloc.de (M_Alloc.leak_check a) blk (x, u) s =
     if lc_write (lc_read u) (- snd blk) <? 0 then M_Alloc.Bad
     else match M_Alloc.de a blk x s with M_Alloc.Ok (x', s') => M_Alloc.Ok ((x', lc_write (lc_read u) (- snd blk)), s') | M_Alloc.NoEnv => M_Alloc.NoEnv | M_Alloc.Bad => M_Alloc.Bad end).
Proof.
  intros a x u Hu. split; [reflexivity|]. intros blk s. unfold lc_write, lc_read. rewrite Z.add_opp_r. reflexivity.
Qed.
Theorem C72_leak_check_refuted : forall u a b, 0 < a -> 0 < b -> u = 0 ->
  let r1 := lc_read u in let r2 := lc_read u in
  let u1 := lc_write r1 a in let u2 := lc_write r2 b in
  u2 <> lc_write (lc_read u1) b /\ lc_write (lc_read (lc_write (lc_read u2) (- b))) (- a) < 0.
Proof. intros u a b Ha Hb ->. unfold lc_read, lc_write. cbn zeta. lia. Qed.

(** A view that shares the memory of an array calls [get_sptr], which changes the (const) array: in one piece it is [get_sptr]; when two threads find
    no shared pointer, each makes one, and the memory is released as soon as the first is gone, then once more. *)
Theorem C72_get_sptr_pieces : forall (A : Type) t (w : world A) v, get_sptr w v = match sptr_test w v with
  | Some true => do w1 <- sptr_reset t w v; sptr_return w1 v
  | Some false => sptr_return w v
  | None => None
  end.
Proof.
  intros A t w v. unfold get_sptr, sptr_test, sptr_reset, sptr_return. destruct (getv (w_h w) v) as [[d z sp]|] eqn:E; auto. cbn [h_sptr h_data h_size].
  destruct sp as [c|]; [reflexivity|]. destruct d as [b|]; auto. cbn [sptr_release set_h set_mem w_h w_mem w_s]. unfold getv in *.
  destruct (nth_error (w_h w) v) as [z0|] eqn:En; [|discriminate]. rewrite nth_error_upd_eq by (eapply nth_error_lt; eauto). cbn [h_sptr]. reflexivity.
Qed.
Definition two_sptr (w : world Z) : option (world Z * nat * nat) :=
  match sptr_test w 0, sptr_test w 0 with                      (* both threads find no shared pointer *)
  | Some true, Some true =>
      do w1 <- sptr_reset num w 0; do (w2, c1) <- sptr_return w1 0;
      do w3 <- sptr_reset num w2 0; do (w4, c2) <- sptr_return w3 0; Some (w4, c1, c2)
  | _, _ => None
  end.
Theorem C72_get_sptr_refuted : exists w w' c1 c2 m b,
  run num 0 0 (World (Mem [] []) [None] []) [New 0 3 Zero] = Some w /\ getv (w_h w) 0 = Some b /\ h_data b = Some 0%nat /\
  two_sptr w = Some (w', c1, c2) /\
  (* the first view goes: the memory of the array, still in use, is released *)
  sptr_release num (Some c1) (w_mem w') = Some m /\ nth_error (m_heap m) 0 = Some (Block false []) /\
  (* the second view goes, then the array: released again *)
  (do m1 <- sptr_release num (Some c2) m; do hv <- getv (w_h w') 0; h_destroy num hv m1) = None.
Proof.
  do 6 eexists. split; [vm_compute; reflexivity|]. split; [vm_compute; reflexivity|]. split; [vm_compute; reflexivity|].
  split; [vm_compute; reflexivity|]. split; [vm_compute; reflexivity|]. split; vm_compute; reflexivity.
Qed.

(** ** A case: two threads; y(i) = 10*x(i)+x(2-i), thread 0 computes elements 0 and 2, thread 1 element 1; thread 1 also makes a local copy of x,
    doubles it in another array, and releases both. *)
Definition ex_p0 : list (aop (A := Z)) := [AFrom 0 [3] (fun i => nthZ i 0 + 1); AZeros 1 [3]].
Definition ex_set (i : Z) : tstmt (A := Z) := TSet 1 [i] [(0%nat, [i]); (0%nat, [2 - i])] (fun l => 10 * nth 0 l 0 + nth 1 l 0).
Definition ex_progs : list (list (tstmt (A := Z))) :=
  [[ex_set 0; ex_set 2]; [TOp (ACopy 2 0); TOp (AEmpty 3); TMap 3 2 (fun x => 2 * x); ex_set 1; TOp (AEnd 2); TOp (AEnd 3)]].
Definition ex_owner (v : nat) (idx : list Z) : option nat := if Nat.eqb v 1 then Some (if nthZ idx 0 =? 1 then 1%nat else 0%nat) else None.
Definition ex_x := Some (AVal [3] (Some [Some 1; Some 2; Some 3])).
Definition ex_y (l : list Z) := Some (AVal [3] (Some (map Some l))).
Example C72_example_legal : legal_fork num 0 0 one_d [0] 4 ex_p0 [ex_x; ex_y [0; 0; 0]; None; None] 2 ex_owner ex_progs
  [[ex_x; ex_y [13; 0; 31]; None; None]; [ex_x; ex_y [0; 22; 0]; None; None]].
Proof.
  split; [|split; [|split; [|split; [|split]]]].
  - split; auto.
  - apply Permutation_refl.
  - cbn; lia.
  - reflexivity.
  - vm_compute. reflexivity.
  - split; [|split; [reflexivity|]].
    + intros [|[|[|[|v]]]] Hv; try lia; try reflexivity. unfold aval_of. now destruct v.
    + intros [|[|i]] q si Hq Hs; cbn in Hq, Hs; [injection Hq as <-; injection Hs as <-|injection Hq as <-; injection Hs as <-|destruct i; discriminate].
      * split; [vm_compute; reflexivity|]. unfold can_read, can_write. repeat (apply Forall_cons); try apply Forall_nil; (split; [right; reflexivity|]); intros r [<-|[<-|[]]]; right; left; reflexivity.
      * split; [vm_compute; reflexivity|]. repeat (apply Forall_cons); try apply Forall_nil; cbn [permitted]; unfold can_read, can_write; try lia.
        -- split; [lia|]. intros idx. right. left. reflexivity.
        -- split; [lia|]. intros idx. left. lia.
        -- split; [right; reflexivity|]. intros r [<-|[<-|[]]]; right; left; reflexivity.
Qed.
Example C72_example_joined : joined one_d ex_owner [ex_x; ex_y [0; 0; 0]; None; None] [[ex_x; ex_y [13; 0; 31]; None; None]; [ex_x; ex_y [0; 22; 0]; None; None]]
  = [ex_x; ex_y [13; 22; 31]; None; None].
Proof. vm_compute. reflexivity. Qed.
(** the parallel loop: 5 elements on 2 threads, even and odd ones *)
Example C72_example_distributed : distributed [5] (fun idx => Z.to_nat (nthZ idx 0 mod 2)) [[[0]; [4]; [2]]; [[1]; [3]]].
Proof.
  split.
  - intros idx Hi. inversion Hi as [|x y l l' Hx Hl]; subst. inversion Hl; subst. unfold inr in Hx. assert (C : x = 0 \/ x = 1 \/ x = 2 \/ x = 3 \/ x = 4) by lia.
    destruct C as [->|[->|[->|[->| ->]]]]; vm_compute; tauto.
  - intros [|[|i]] idx Hi; cbn in Hi.
    + destruct Hi as [<-|[<-|[<-|[]]]]; split; auto; repeat constructor; unfold inr; lia.
    + destruct Hi as [<-|[<-|[]]]; split; auto; repeat constructor; unfold inr; lia.
    + destruct i; destruct Hi.
Qed.

Print Assumptions C72_threads.
Print Assumptions C72_join.
Print Assumptions C72_no_race.
Print Assumptions C72_finishes.
Print Assumptions C72_parallel_for.
Print Assumptions C72_conflict_refuted.
Print Assumptions C72_resize_refuted.
Print Assumptions C72_bucket_pieces.
Print Assumptions C72_bucket_refuted.
Print Assumptions C72_leak_check_refuted.
Print Assumptions C72_leak_check_pieces.
Print Assumptions C72_get_sptr_pieces.
Print Assumptions C72_get_sptr_refuted.
