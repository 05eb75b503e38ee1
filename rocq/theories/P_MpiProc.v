(** C87: programs of several processes with MPI operations, at any pace. *)
From Verif Require Import Base M_Perm M_IdxMap M_Slice M_Loops M_Assign M_Expr M_Transform M_Mpi M_MpiProc S_Layout S_Assign S_Mpi S_MpiProc L_Perm L_Layout L_Assign L_Mpi L_Mpi2 L_MpiProc L_MpiProc2 P_Mpi P_Mpi2.

(** However the turns of the processes are interleaved, their calls match, and a process that comes to its end has the values the program means. *)
Theorem C87_safe : forall V (red : nat -> Z -> list V -> V) checks prog ss ss', meaning red checks prog ss = Some ss' ->
  forall sched, exists S, turns red (start checks prog ss) sched = Some S /\ length S = length ss /\ forall r s, ended S r s -> nth_error ss' r = Some s.
Proof.
  intros V red checks prog ss ss' E sched. destruct (program_runs red checks prog ss ss' E) as (N & H). destruct (H sched) as (S & T & L & H1 & _). exists S. auto.
Qed.
Print Assumptions C87_safe.

(** No process waits forever: whatever happened so far, all processes come to their end as soon as each had enough turns. *)
Theorem C87_finishes : forall V (red : nat -> Z -> list V -> V) checks prog ss ss', meaning red checks prog ss = Some ss' ->
  exists N, forall sched parts, fair (length ss) parts -> (N <= length parts)%nat ->
  exists S, turns red (start checks prog ss) (sched ++ concat parts) = Some S /\ forall r, (r < length ss)%nat -> exists s, nth_error ss' r = Some s /\ ended S r s.
Proof.
  intros V red checks prog ss ss' E. destruct (program_runs red checks prog ss ss' E) as (N & H). exists (Datatypes.S N). intros sched parts HF HN. destruct parts as [|part parts]; [cbn in HN; lia|].
  destruct (H ((sched ++ part) ++ concat parts)) as (S & T & L & _ & _ & H3). exists S. cbn [concat]. rewrite app_assoc. split; [exact T|]. intros r Hr.
  destruct ss as [|s0 ss0]; [cbn in Hr; lia|]. destruct (prog_locks red _ checks s0 prog _ ss' eq_refl E) as (HL & _).
  destruct (nth_error ss' r) as [s|] eqn:Es; [|apply nth_error_None in Es; lia]. exists s. split; [reflexivity|]. apply (H3 ((sched ++ part) :: parts)); [reflexivity| |cbn in *; lia|exact Es].
  inversion HF as [|a b H1 H2]. subst a b. constructor; [|exact H2]. intros q Hq. destruct (H1 q Hq) as (e & He). exists e. apply in_or_app. now right.
Qed.
Print Assumptions C87_finishes.

(** The calls of two processes with the same number are calls of the same function that belong together. *)
Theorem C87_matched : forall V (red : nat -> Z -> list V -> V) checks prog ss ss' sched S, meaning red checks prog ss = Some ss' -> turns red (start checks prog ss) sched = Some S ->
  forall r q p pq k c c', nth_error S r = Some p -> nth_error S q = Some pq -> nth_error (sent p) k = Some c -> nth_error (sent pq) k = Some c' -> belong c c'.
Proof.
  intros V red checks prog ss ss' sched S E T. destruct (program_runs red checks prog ss ss' E) as (N & H). destruct (H sched) as (S' & T' & _ & _ & H2 & _). rewrite T in T'. injection T' as <-. exact H2.
Qed.
Print Assumptions C87_matched.

(** ** with C36 and C37: what the processes have at the end of one operation *)
Lemma one_op V (red : nat -> Z -> list V -> V) checks st ss x y f ps res : meaning1 red checks st ss = on_all ss x y f ->
  Forall2 (fun s p => as_proc s x y = Some p) ss ps -> f ps = Some res -> meaning red checks [st] ss = Some (put_all ss y res).
Proof.
  intros E F R. cbn [meaning]. rewrite E. unfold on_all. assert (A : all_some (map (fun s => as_proc s x y) ss) = Some ps).
  { clear -F. induction F as [|s p ss ps H _ IH]; cbn; [reflexivity|]. now rewrite H, IH. }
  now rewrite A, R.
Qed.
Lemma one_put V (ss : list (lstate V)) y res r s m tv : nth_error ss r = Some s -> nth_error res r = Some (m, tv) -> nth_error (put_all ss y res) r = Some (put s y m tv).
Proof.
  intros H1 H2. unfold put_all. apply (map_nth_error (fun sr => put (fst sr) y (fst (snd sr)) (snd (snd sr)))  r (combine ss res) (d := (s, (m, tv)))). revert ss res H1 H2. induction r as [|r IH]; intros [|a ss] [|b res]; cbn; try discriminate; [congruence|apply IH].
Qed.
(** y of a process at its end *)
Definition has {V} (s : lstate V) (y : nat) (tv : view) : Prop := exists t, nth_error (l_vars s) y = Some t /\ tgt_view t = tv.
Lemma has_put V (s : lstate V) y m tv p x : as_proc s x y = Some p -> has (put s y m tv) y tv.
Proof.
  unfold as_proc, has, put. destruct (nth_error (l_vars s) x) as [tx|]; [|discriminate]. destruct (nth_error (l_vars s) y) as [t|] eqn:E; [|discriminate]. intros _. exists (retarget t tv). cbn. split; [|now destruct t].
  revert E. generalize (l_vars s). intros l. revert y. induction l as [|a l IH]; intros [|y] E; try discriminate E; [reflexivity|exact (IH y E)].
Qed.
Lemma Forall2_at {A B} (R : A -> B -> Prop) l l' : Forall2 R l l' -> forall r a, nth_error l r = Some a -> exists b, nth_error l' r = Some b /\ R a b.
Proof. induction 1 as [|a b l l' H _ IH]; intros [|r] a0 E; cbn in *; try discriminate; [injection E as <-; eauto|auto]. Qed.

(** y = all_reduce(x), y = reduce(x): at whatever pace, a process that has finished has the reduced elements (if it is to receive them), and all finish. *)
Theorem C87_reduce : forall V op (red : nat -> Z -> list V -> V) checks all root x y (ss : list (lstate V)) ps so shape (inpl : nat -> bool),
  assoc_comm op -> mpi_reduces op red -> 0 < prodZ shape < 2147483648 -> Forall2 (fun s p => as_proc s x y = Some p) ss ps -> Forall (fun p => plain (p_rhs p) so shape) ps -> (root < length ps)%nat ->
  (all = true -> forall r, inpl r = inpl root) ->
  (forall r p, nth_error ps r = Some p ->
     if inpl r then match p_tgt p with TArray v _ => v = p_rhs p /\ exists b, v = new_array so b shape | TView v => v = p_rhs p end
     else assign_args (p_rhs p) (p_tgt p) so shape) ->
  (forall sched, exists S, turns red (start checks [Reduce all root x y] ss) sched = Some S /\
     forall r s, ended S r s -> all = true \/ r = root -> exists tv, has s y tv /\ plain tv so shape /\
       forall idx, in_view tv idx -> total op (map (fun q => p_mem q (cell (p_rhs q) idx)) ps) (l_mem s (cell tv idx))) /\
  exists N, forall parts, fair (length ss) parts -> (N <= length parts)%nat -> exists S, turns red (start checks [Reduce all root x y] ss) (concat parts) = Some S /\ forall r, (r < length ss)%nat -> exists s, ended S r s.
Proof.
  intros V op red checks all root x y ss ps so shape inpl Hop Hred Hsz F Hps Hroot Hall Ha.
  destruct (C37_reduce_assign V op red checks all root ps so shape inpl Hop Hred Hsz Hps Hroot Hall Ha) as (res & ER & HL & HR).
  pose proof (one_op V red checks (Reduce all root x y) ss x y _ ps res eq_refl F ER) as M. split.
  - intros sched. destruct (C87_safe V red checks _ ss _ M sched) as (S & T & L & H). exists S. split; [exact T|]. intros r s Es Hr. pose proof (H r s Es) as E.
    assert (Hrl : (r < length ss)%nat). { rewrite <- L. destruct Es as (p & Hp & _). apply nth_error_Some. congruence. }
    destruct (nth_error ss r) as [s0|] eqn:E0; [|apply nth_error_None in E0; lia]. destruct (Forall2_at _ _ _ F r s0 E0) as (p & Ep & Ap). destruct (HR r p Ep) as (m' & tv & E1 & _ & P & _ & Q).
    rewrite (one_put V ss y res r s0 m' tv E0 E1) in E. injection E as <-. exists tv. split; [eapply has_put; exact Ap|]. split; [exact P|]. assert (all || (r =? root)%nat = true) as X by (destruct Hr as [->| ->]; [reflexivity|rewrite Nat.eqb_refl; apply orb_true_r]). rewrite X in Q. exact Q.
  - destruct (C87_finishes V red checks _ ss _ M) as (N & H). exists N. intros parts HF HN. destruct (H [] parts HF HN) as (S & T & G). exists S. split; [exact T|]. intros r Hr. destruct (G r Hr) as (s & _ & Es). eauto.
Qed.
Print Assumptions C87_reduce.

(** y = gather(x), y = all_gather(x), with arrays y on all processes or views y on all processes, or in a debug build *)
Theorem C87_gather : forall V (red : nat -> Z -> list V -> V) checks all root x y (ss : list (lstate V)) ps so Ns rest,
  first_slowest so -> sumZ Ns * prodZ rest < 2147483648 -> Forall2 (fun s p => as_proc s x y = Some p) ss ps -> Forall2 (fun N p => plain (p_rhs p) so (N :: rest)) Ns ps -> (root < length ps)%nat ->
  (forall r p, nth_error ps r = Some p -> assign_args (p_rhs p) (p_tgt p) so ((if all || (r =? root)%nat then sumZ Ns else 1) :: rest)) ->
  (checks = true \/ (forall p, In p ps -> is_array (p_tgt p) = true) \/ (forall p, In p ps -> is_array (p_tgt p) = false)) ->
  (forall sched, exists S, turns red (start checks [Gather all root x y] ss) sched = Some S /\
     forall r s, ended S r s -> all = true \/ r = root -> exists tv, has s y tv /\ plain tv so (sumZ Ns :: rest) /\
       forall q pq N i j, nth_error ps q = Some pq -> nth_error Ns q = Some N -> in_view (p_rhs pq) (i :: j) ->
         in_view tv (before Ns q + i :: j) /\ l_mem s (cell tv (before Ns q + i :: j)) = p_mem pq (cell (p_rhs pq) (i :: j))) /\
  exists N, forall parts, fair (length ss) parts -> (N <= length parts)%nat -> exists S, turns red (start checks [Gather all root x y] ss) (concat parts) = Some S /\ forall r, (r < length ss)%nat -> exists s, ended S r s.
Proof.
  intros V red checks all root x y ss ps so Ns rest Hso Hsz F Hps Hroot Ha OK.
  destruct (C36_gather_assign V checks all root ps so Ns rest Hso Hsz Hps Hroot Ha) as (res & ER & HL & HR).
  assert (K : one_kind checks ps = true).
  { unfold one_kind. apply orb_true_iff. destruct OK as [->|[A|A]]; [now left|left|right].
    - apply orb_true_iff. right. apply forallb_forall. exact A.
    - apply forallb_forall. intros p Hp. now rewrite (A p Hp). }
  assert (M : meaning red checks [Gather all root x y] ss = Some (put_all ss y res)).
  { apply (one_op V red checks (Gather all root x y) ss x y _ ps res eq_refl F). now rewrite K. }
  split.
  - intros sched. destruct (C87_safe V red checks _ ss _ M sched) as (S & T & L & H). exists S. split; [exact T|]. intros r s Es Hr. pose proof (H r s Es) as E.
    assert (Hrl : (r < length ss)%nat). { rewrite <- L. destruct Es as (p & Hp & _). apply nth_error_Some. congruence. }
    destruct (nth_error ss r) as [s0|] eqn:E0; [|apply nth_error_None in E0; lia]. destruct (Forall2_at _ _ _ F r s0 E0) as (p & Ep & Ap). destruct (HR r p Ep) as (m' & tv & E1 & _ & P & _ & Q).
    rewrite (one_put V ss y res r s0 m' tv E0 E1) in E. injection E as <-. exists tv. assert (all || (r =? root)%nat = true) as X by (destruct Hr as [->| ->]; [reflexivity|rewrite Nat.eqb_refl; apply orb_true_r]). rewrite X in P, Q.
    split; [eapply has_put; exact Ap|]. split; [exact P|exact Q].
  - destruct (C87_finishes V red checks _ ss _ M) as (N & H). exists N. intros parts HF HN. destruct (H [] parts HF HN) as (S & T & G). exists S. split; [exact T|]. intros r Hr. destruct (G r Hr) as (s & _ & Es). eauto.
Qed.
Print Assumptions C87_gather.

(** ** a parallel map: scatter x, apply g to every element of the part each process has, and gather the parts *)
(** the local computation: if the variable y is a contiguous array or view, it replaces each element of y by its image *)
Definition maps {V} (g : V -> V) (so : list nat) (y : nat) (f : nat -> lstate V -> option (lstate V)) : Prop :=
  forall r s t shape, nth_error (l_vars s) y = Some t -> plain (tgt_view t) so shape -> exists s', f r s = Some s' /\ l_vars s' = l_vars s /\ forall idx, in_view (tgt_view t) idx -> l_mem s' (cell (tgt_view t) idx) = g (l_mem s (cell (tgt_view t) idx)).
(** process r of n before the program: y can take its part of x, and z the gathered parts, wherever y has its part *)
Definition map_args {V} (checks : bool) (ky kz : bool) (x y z : nat) (so : list nat) (N : Z) (rest : list Z) (receives : nat -> bool) (n r : nat) (s : lstate V) : Prop :=
  exists tx ty tz, nth_error (l_vars s) x = Some tx /\ nth_error (l_vars s) y = Some ty /\ nth_error (l_vars s) z = Some tz /\ plain (tgt_view tx) so (N :: rest) /\
    assign_args (tgt_view tx) ty so (chunk_length N n r :: rest) /\
    (forall v, result_of ty so (chunk_length N n r :: rest) v -> assign_args v tz so ((if receives r then N else 1) :: rest)) /\
    (checks = true \/ is_array ty = ky /\ is_array tz = kz).
Lemma procs_of {V} (Q : nat -> lstate V -> proc V -> Prop) x y : forall ss, (forall r s, nth_error ss r = Some s -> exists p, as_proc s x y = Some p /\ Q r s p) ->
  exists ps, Forall2 (fun s p => as_proc s x y = Some p) ss ps /\ length ps = length ss /\ forall r p, nth_error ps r = Some p -> exists s, nth_error ss r = Some s /\ as_proc s x y = Some p /\ Q r s p.
Proof.
  intros ss. revert Q. induction ss as [|s ss IH]; intros Q H.
  - exists []. split; [constructor|]. split; [reflexivity|]. intros [|r] p E; discriminate E.
  - destruct (H O s eq_refl) as (p & Ap & Qp). destruct (IH (fun r => Q (Datatypes.S r))) as (ps & F & L & G); [intros r s1 E; apply (H (Datatypes.S r) s1 E)|].
    exists (p :: ps). split; [constructor; assumption|]. split; [cbn; lia|]. intros [|r] q E; cbn in E; [injection E as <-; exists s; auto|]. apply G in E. exact E.
Qed.
Lemma kinds_one {V} checks (b : bool) (ps : list (proc V)) : checks = true \/ (forall p, In p ps -> is_array (p_tgt p) = b) -> one_kind checks ps = true.
Proof.
  unfold one_kind. intros [->|H]; [reflexivity|]. destruct b.
  - apply orb_true_iff. left. apply orb_true_iff. right. now apply forallb_forall.
  - apply orb_true_iff. right. apply forallb_forall. intros p Hp. now rewrite (H p Hp).
Qed.
Theorem C87_map : forall V (red : nat -> Z -> list V -> V) (g : V -> V) f checks ky kz root all root' x y z (ss : list (lstate V)) so N rest s0 tx0,
  first_slowest so -> (0 < prodZ rest \/ N = 0) -> N * prodZ rest < 2147483648 -> y <> z -> maps g so y f ->
  (forall r s, nth_error ss r = Some s -> map_args checks ky kz x y z so N rest (fun r => all || (r =? root')%nat) (length ss) r s) ->
  nth_error ss root = Some s0 -> nth_error (l_vars s0) x = Some tx0 -> (root' < length ss)%nat ->
  let prog := [Scatter root x y; Local f; Gather all root' y z] in
  (forall sched, exists S, turns red (start checks prog ss) sched = Some S /\
     forall r s, ended S r s -> all = true \/ r = root' -> exists tv, has s z tv /\ plain tv so (N :: rest) /\
       forall idx, in_view tv idx -> l_mem s (cell tv idx) = g (l_mem s0 (cell (tgt_view tx0) idx))) /\
  exists M, forall parts, fair (length ss) parts -> (M <= length parts)%nat -> exists S, turns red (start checks prog ss) (concat parts) = Some S /\ forall r, (r < length ss)%nat -> exists s, ended S r s.
Proof.
  intros V red g f checks ky kz root all root' x y z ss so N rest s0 tx0 Hso Hne Hsz Hyz Hf Hss E0 Ex0 Hr' prog. set (n := length ss) in *.
  (* scatter *)
  destruct (procs_of (fun r s p => exists tz, nth_error (l_vars s) z = Some tz /\ nth_error (l_vars s) y = Some (p_tgt p) /\ p_mem p = l_mem s /\ plain (p_rhs p) so (N :: rest) /\ assign_args (p_rhs p) (p_tgt p) so (chunk_length N n r :: rest) /\
      (forall v, result_of (p_tgt p) so (chunk_length N n r :: rest) v -> assign_args v tz so ((if all || (r =? root')%nat then N else 1) :: rest)) /\ (checks = true \/ is_array (p_tgt p) = ky /\ is_array tz = kz)) x y ss) as (ps & F & L & G).
  { intros r s Es. destruct (Hss r s Es) as (tx & ty & tz & H1 & H2 & H3 & H4 & H5 & H6 & H7). exists (Proc (l_mem s) (tgt_view tx) ty). unfold as_proc. rewrite H1, H2. split; [reflexivity|]. exists tz. cbn. auto 8. }
  destruct (Forall2_at _ _ _ F root s0 E0) as (proot & Er & Ar).
  assert (Eroot : p_rhs proot = tgt_view tx0 /\ p_mem proot = l_mem s0). { unfold as_proc in Ar. rewrite Ex0 in Ar. destruct (nth_error (l_vars s0) y); [|discriminate Ar]. injection Ar as <-. auto. }
  assert (Hpl : Forall (fun p => plain (p_rhs p) so (N :: rest)) ps). { apply Forall_forall. intros p Hp. apply In_nth_error in Hp. destruct Hp as (r & Ep). destruct (G r p Ep) as (s & _ & _ & tz & _ & _ & _ & P & _). exact P. }
  destruct (C36_scatter_assign V checks root ps so N rest proot Hso Hne Hsz Hpl Er) as (res & ES & LS & HS).
  { intros r p Ep. rewrite L. destruct (G r p Ep) as (s & _ & _ & tz & _ & _ & _ & _ & A & _). exact A. }
  rewrite L in HS. assert (K1 : one_kind checks ps = true).
  { apply (kinds_one checks ky). destruct checks; [now left|right]. intros p Hp. apply In_nth_error in Hp. destruct Hp as (r & Ep). destruct (G r p Ep) as (s & _ & _ & tz & _ & _ & _ & _ & _ & _ & [D|D]); [discriminate D|apply D]. }
  assert (M1 : meaning1 red checks (Scatter root x y) ss = Some (put_all ss y res)).
  { assert (M : meaning red checks [Scatter root x y] ss = Some (put_all ss y res)) by (apply (one_op V red checks (Scatter root x y) ss x y _ ps res eq_refl F); now rewrite K1). cbn [meaning] in M. destruct (meaning1 _ _ _ _); [exact M|discriminate M]. }
  assert (LP : length (put_all ss y res) = n). { unfold put_all. rewrite map_length, combine_length. fold n. lia. }
  assert (Hn : (0 < n)%nat) by lia.
  assert (HN : 0 <= N). { rewrite Forall_forall in Hpl. destruct (plain_shape _ _ _ (Hpl proot (nth_error_In _ _ Er))) as (Sh & _). exact (Forall_inv Sh). }
  (* what each process has after the scatter *)
  assert (H1 : forall r s1, nth_error (put_all ss y res) r = Some s1 -> exists ty tz, nth_error (l_vars s1) y = Some ty /\ nth_error (l_vars s1) z = Some tz /\ plain (tgt_view ty) so (chunk_length N n r :: rest) /\
     assign_args (tgt_view ty) tz so ((if all || (r =? root')%nat then N else 1) :: rest) /\ (checks = true \/ is_array tz = kz) /\
     forall i j, in_view (tgt_view ty) (i :: j) -> l_mem s1 (cell (tgt_view ty) (i :: j)) = l_mem s0 (cell (tgt_view tx0) (before (chunks N n) r + i :: j))).
  { intros r s1 Es1. assert (Hr : (r < n)%nat) by (rewrite <- LP; apply nth_error_Some; congruence). destruct (nth_error ps r) as [p|] eqn:Ep; [|apply nth_error_None in Ep; lia].
    destruct (G r p Ep) as (s & Es & Ap & tz & Ez & Ey & _ & _ & _ & A2 & K). destruct (HS r p Ep) as (m' & tv & Eres & RO & P & _ & Q). rewrite (one_put V ss y res r s m' tv Es Eres) in Es1. injection Es1 as <-.
    exists (retarget (p_tgt p) tv), tz. unfold put. rewrite Ey. cbn [l_vars l_mem]. assert (ET : tgt_view (retarget (p_tgt p) tv) = tv) by now destruct (p_tgt p). rewrite ET.
    split; [rewrite nth_upd, Nat.eqb_refl, Ey; reflexivity|]. split; [rewrite nth_upd; apply Nat.eqb_neq in Hyz; now rewrite Hyz|]. split; [exact P|]. split; [now apply A2|]. split; [destruct K as [K|[_ K]]; auto|].
    destruct Eroot as [<- <-]. intros i j Hij. now apply Q. }
  (* the local computation *)
  destruct (ranks_spec f (fun r s1 s2 => l_vars s2 = l_vars s1 /\ forall t idx, nth_error (l_vars s1) y = Some t -> in_view (tgt_view t) idx -> l_mem s2 (cell (tgt_view t) idx) = g (l_mem s1 (cell (tgt_view t) idx))) (put_all ss y res)) as (ss2 & EL & LL & HL).
  { intros r s1 Es1. destruct (H1 r s1 Es1) as (ty & tz & Ey & _ & Py & _). destruct (Hf r s1 ty _ Ey Py) as (s2 & E2 & V2 & Q2). exists s2. split; [exact E2|]. split; [exact V2|]. intros t idx Et. rewrite Ey in Et. injection Et as <-. apply Q2. }
  assert (H2 : forall r s2, nth_error ss2 r = Some s2 -> exists ty tz, nth_error (l_vars s2) y = Some ty /\ nth_error (l_vars s2) z = Some tz /\ plain (tgt_view ty) so (chunk_length N n r :: rest) /\
     assign_args (tgt_view ty) tz so ((if all || (r =? root')%nat then N else 1) :: rest) /\ (checks = true \/ is_array tz = kz) /\
     forall i j, in_view (tgt_view ty) (i :: j) -> l_mem s2 (cell (tgt_view ty) (i :: j)) = g (l_mem s0 (cell (tgt_view tx0) (before (chunks N n) r + i :: j)))).
  { intros r s2 Es2. destruct (nth_error (put_all ss y res) r) as [s1|] eqn:Es1. 2:{ apply nth_error_None in Es1. assert (r < length ss2)%nat by (apply nth_error_Some; congruence). lia. }
    destruct (HL r s1 Es1) as (b & Eb & V2 & Q2). rewrite Es2 in Eb. injection Eb as <-. destruct (H1 r s1 Es1) as (ty & tz & A1 & A2 & A3 & A4 & A5 & A6). exists ty, tz. rewrite V2. repeat (split; [assumption|]). intros i j Hij. rewrite (Q2 ty _ A1 Hij). now rewrite A6. }
  (* gather *)
  destruct (procs_of (fun r s p => p_mem p = l_mem s /\ plain (p_rhs p) so (chunk_length N n r :: rest) /\ assign_args (p_rhs p) (p_tgt p) so ((if all || (r =? root')%nat then N else 1) :: rest) /\ (checks = true \/ is_array (p_tgt p) = kz) /\
      forall i j, in_view (p_rhs p) (i :: j) -> p_mem p (cell (p_rhs p) (i :: j)) = g (l_mem s0 (cell (tgt_view tx0) (before (chunks N n) r + i :: j)))) y z ss2) as (ps2 & F2 & L2 & G2).
  { intros r s2 Es2. destruct (H2 r s2 Es2) as (ty & tz & A1 & A2 & A3 & A4 & A5 & A6). exists (Proc (l_mem s2) (tgt_view ty) tz). unfold as_proc. rewrite A1, A2. split; [reflexivity|]. cbn. auto. }
  assert (LN : length ps2 = n) by lia. assert (Sm : sumZ (chunks N n) = N) by (apply chunks_sum; lia).
  destruct (C36_gather_assign V checks all root' ps2 so (chunks N n) rest Hso) as (res' & EG & LG & HG).
  { now rewrite Sm. }
  { assert (A : forall r p, nth_error ps2 r = Some p -> plain (p_rhs p) so (nthZ (chunks N n) r :: rest)).
    { intros r p Ep. assert (Hr : (r < n)%nat) by (rewrite <- LN; apply nth_error_Some; congruence). rewrite (nth_error_nth (chunks N n) r 0 (chunks_nth N n r Hr) : nthZ _ _ = _). destruct (G2 r p Ep) as (s2 & _ & _ & _ & P & _). exact P. }
    revert A. assert (Lc : length (chunks N n) = length ps2) by (rewrite chunks_length; lia). clear -Lc. revert ps2 Lc. induction (chunks N n) as [|c cs IH]; intros [|p l] Lc A; cbn [length] in Lc; try discriminate; constructor.
    - apply (A 0%nat). reflexivity.
    - apply IH; [lia|]. intros r p' E. apply (A (Datatypes.S r)). exact E. }
  { lia. }
  { intros r p Ep. rewrite Sm. destruct (G2 r p Ep) as (s2 & _ & _ & _ & _ & A & _). exact A. }
  assert (K2 : one_kind checks ps2 = true).
  { apply (kinds_one checks kz). destruct checks; [now left|right]. intros p Hp. apply In_nth_error in Hp. destruct Hp as (r & Ep). destruct (G2 r p Ep) as (s2 & _ & _ & _ & _ & _ & [D|D] & _); [discriminate D|exact D]. }
  assert (M3 : meaning red checks [Gather all root' y z] ss2 = Some (put_all ss2 z res')) by (apply (one_op V red checks (Gather all root' y z) ss2 y z _ ps2 res' eq_refl F2); now rewrite K2).
  assert (M : meaning red checks prog ss = Some (put_all ss2 z res')).
  { unfold prog. change (match meaning1 red checks (Scatter root x y) ss with Some a => match meaning1 red checks (Local f) a with Some b => meaning red checks [Gather all root' y z] b | None => None end | None => None end = Some (put_all ss2 z res')). rewrite M1. cbn [meaning1]. rewrite EL. exact M3. }
  split.
  - intros sched. destruct (C87_safe V red checks prog ss _ M sched) as (S & T & LS' & H). exists S. split; [exact T|]. intros r s Es Hrec. pose proof (H r s Es) as E.
    assert (Hrl : (r < n)%nat). { fold n in LS'. rewrite <- LS'. destruct Es as (p & Hp & _). apply nth_error_Some. congruence. }
    destruct (nth_error ss2 r) as [s2|] eqn:E2; [|apply nth_error_None in E2; lia]. destruct (Forall2_at _ _ _ F2 r s2 E2) as (p & Ep & Ap). destruct (HG r p Ep) as (m' & tv & E1 & _ & P & _ & Q).
    rewrite (one_put V ss2 z res' r s2 m' tv E2 E1) in E. injection E as <-. exists tv. assert (all || (r =? root')%nat = true) as X by (destruct Hrec as [->| ->]; [reflexivity|rewrite Nat.eqb_refl; apply orb_true_r]). rewrite X in P, Q. rewrite Sm in P.
    split; [eapply has_put; exact Ap|]. split; [exact P|]. intros idx Hidx. cbn [l_mem put]. unfold in_view, valid_idx in Hidx. pose proof P as (_ & Lt & _). rewrite Lt in Hidx. inversion Hidx as [|k l j rst Hk Hj Ek El]. subst. unfold inr in Hk.
    destruct (which_block (chunks N n) (chunks_nonneg N n HN Hn) k ltac:(lia)) as (q & c & i & Ec & Hi & ->).
    assert (Hq : (q < n)%nat). { rewrite <- (chunks_length N n). apply nth_error_Some. congruence. }
    pose proof Ec as Ec'. rewrite (chunks_nth N n q Hq) in Ec'. injection Ec' as <-. destruct (nth_error ps2 q) as [pq|] eqn:Eq; [|apply nth_error_None in Eq; lia]. destruct (G2 q pq Eq) as (sq & _ & _ & _ & Pq & _ & _ & Vq).
    assert (Hv : in_view (p_rhs pq) (i :: j)). { unfold in_view, valid_idx. destruct Pq as (_ & -> & _). constructor; auto. }
    destruct (Q q pq _ i j Eq Ec Hv) as [_ ->]. now apply Vq.
  - destruct (C87_finishes V red checks prog ss _ M) as (B & H). exists B. intros parts HF HB. destruct (H [] parts HF HB) as (S & T & Q). exists S. split; [exact T|]. intros r Hr. destruct (Q r Hr) as (s & _ & Es). eauto.
Qed.
Print Assumptions C87_map.

(** ** a program: the elements of x on process 0 are distributed, doubled, and collected again in all processes; then their sum over the processes *)
Definition ex_red2 (r : nat) (k : Z) (l : list Z) : Z := fold_left Z.add l 0.
Definition ex_double (r : nat) (s : lstate Z) : option (lstate Z) :=
  match nth_error (l_vars s) 1 with
  | Some t => Some (LState (fold_left (fun m k => mset m (v_base (tgt_view t) + k) (2 * m (v_base (tgt_view t) + k))) (zseq (size (v_lay (tgt_view t)))) (l_mem s)) (l_vars s))
  | None => None
  end.
Definition ex_prog : list (stmt Z) := [Scatter 0 0 1; Local ex_double; Gather true 0 1 2; Reduce true 0 2 3].
Definition ex_lstate (r : Z) : lstate Z :=
  LState (fun a => 10000 * r + a) [TView (new_array [0; 1]%nat 100 [3; 2]); TArray (new_array [0; 1]%nat 200 [1; 1]) 300; TArray (new_array [0; 1]%nat 400 [1; 1]) 500; TArray (new_array [0; 1]%nat 600 [3; 2]) 700].
Definition ex_vars (s : lstate Z) : list (list Z * list Z) := map (fun t => ex_show (tgt_view t) (l_mem s)) (l_vars s).
Example C87_meaning_values : match meaning ex_red2 false ex_prog [ex_lstate 0; ex_lstate 1] with Some l => map (fun s => skipn 1 (ex_vars s)) l | None => [] end =
  [[([2; 2], [200; 202; 204; 206]); ([3; 2], [200; 202; 204; 206; 208; 210]); ([3; 2], [400; 404; 408; 412; 416; 420])];
   [([1; 2], [208; 210]); ([3; 2], [200; 202; 204; 206; 208; 210]); ([3; 2], [400; 404; 408; 412; 416; 420])]].
Proof. vm_compute. reflexivity. Qed.
(** process 1 runs first as far as it can, then process 0, and so on *)
Definition ex_sched : list (nat * bool) := concat (repeat [(1%nat, true); (1%nat, true); (1%nat, true); (0%nat, false); (0%nat, true)] 12).
Example C87_run_values : match turns ex_red2 (start false ex_prog [ex_lstate 0; ex_lstate 1]) ex_sched with
  | Some l => map (fun p => (length (sent p), match cur p with Fin s => nth 3 (ex_vars s) ([], []) | _ => ([], []) end)) l | None => [] end =
  [(8%nat, ([3; 2], [400; 404; 408; 412; 416; 420])); (8%nat, ([3; 2], [400; 404; 408; 412; 416; 420]))].
Proof. vm_compute. reflexivity. Qed.
Example C87_example : exists ss', meaning ex_red2 false ex_prog [ex_lstate 0; ex_lstate 1] = Some ss' /\ (forall r s, nth_error ss' r = Some s -> exists sched S, turns ex_red2 (start false ex_prog [ex_lstate 0; ex_lstate 1]) sched = Some S /\ ended S r s).
Proof.
  assert (E : match meaning ex_red2 false ex_prog [ex_lstate 0; ex_lstate 1] with Some l => length l = 2%nat | None => False end) by (vm_compute; reflexivity).
  destruct (meaning _ _ _ _) as [ss'|] eqn:M; [|contradiction]. exists ss'. split; [reflexivity|]. intros r s Hs. destruct (C87_finishes _ _ _ _ _ _ M) as (N & H).
  destruct (H [] (repeat [(0%nat, true); (1%nat, true)] N)) as (S & T & G).
  - apply Forall_forall. intros part Hp. apply repeat_spec in Hp. subst part. intros [|[|q]] Hq; [exists true; now left|exists true; right; now left|cbn in Hq; lia].
  - now rewrite repeat_length.
  - destruct (G r) as (s' & E' & En). { assert (r < length ss')%nat by (apply nth_error_Some; congruence). cbn. lia. }
    rewrite Hs in E'. injection E' as <-. eauto.
Qed.

(** the hypotheses of C87_map hold here *)
Lemma ex_double_maps : maps (Z.mul 2) [0; 1]%nat 1 ex_double.
Proof.
  intros r s t shape Et P. unfold ex_double. rewrite Et. eexists. split; [reflexivity|]. cbn [l_vars l_mem]. split; [reflexivity|]. intros idx Hidx.
  assert (C : is_cell_of (tgt_view t) (cell (tgt_view t) idx)) by (exists idx; auto). rewrite (plain_cells _ _ _ _ P) in C. pose proof (plain_size _ _ _ P) as Es.
  set (b := v_base (tgt_view t)) in *. rewrite Es. revert C. generalize (cell (tgt_view t) idx) as a. generalize (l_mem s) as m. unfold zseq. clear. intros m a Ha.
  assert (G : forall c j m, (forall k, a = b + Z.of_nat k -> (j <= k < j + c)%nat -> fold_left (fun m k => mset m (b + k) (2 * m (b + k))) (map Z.of_nat (seq j c)) m a = 2 * m a) /\
    ((forall k, a = b + Z.of_nat k -> (k < j \/ j + c <= k)%nat) -> fold_left (fun m k => mset m (b + k) (2 * m (b + k))) (map Z.of_nat (seq j c)) m a = m a)).
  { clear. induction c as [|c IH]; intros j m; cbn [seq map fold_left]; (split; [intros k Ek Hk|intros Hk]).
    - lia.
    - reflexivity.
    - destruct (Nat.eq_dec k j) as [->|Nk].
      + rewrite (proj2 (IH _ _)) by (intros k' Ek'; lia). unfold mset. rewrite Ek, Z.eqb_refl. reflexivity.
      + rewrite (proj1 (IH _ _) k Ek) by lia. unfold mset. destruct (Z.eqb_spec a (b + Z.of_nat j)) as [E|E]; [lia|reflexivity].
    - rewrite (proj2 (IH _ _)) by (intros k' Ek'; specialize (Hk k' Ek'); lia). unfold mset. destruct (Z.eqb_spec a (b + Z.of_nat j)) as [E|E]; [|reflexivity]. specialize (Hk j E). lia. }
  apply (proj1 (G (Z.to_nat (prodZ shape)) 0%nat m) (Z.to_nat (a - b))); lia.
Qed.
Lemma ex_map_args r s : nth_error [ex_lstate 0; ex_lstate 1] r = Some s -> map_args false true true 0 1 2 [0; 1]%nat 3 [2] (fun r => true || (r =? 1)%nat) 2 r s.
Proof.
  assert (P : forall b u w, 0 <= u -> 0 <= w -> plain (new_array [0; 1]%nat b [u; w]) [0; 1]%nat [u; w]) by (intros; apply ex_plain; auto using perm_c).
  assert (D : forall b b' u w u' w', 0 <= u -> 0 <= w -> 0 <= u' -> 0 <= w' -> b + prodZ [u; w] <= b' -> disjoint (new_array [0; 1]%nat b [u; w]) (new_array [0; 1]%nat b' [u'; w'])) by (intros; eapply ex_disjoint; [apply P; lia..|assumption]).
  intros E. assert (X : exists q c, s = ex_lstate q /\ chunk_length 3 2 r = c /\ (c = 1 \/ c = 2)). { destruct r as [|[|r]]; cbn [nth_error] in E; [| |destruct r; discriminate E]; injection E as <-; [exists 0, 2|exists 1, 1]; (split; [reflexivity|split; [reflexivity|lia]]). }
  destruct X as (q & c & -> & Ec & Hc). unfold map_args. rewrite Ec. eexists. eexists. eexists. split; [reflexivity|]. split; [reflexivity|]. split; [reflexivity|]. split; [apply P; lia|]. split.
  - cbn [assign_args]. split; [exists 200, [1; 1]; split; [reflexivity|apply P; lia]|]. split; apply D; try lia; cbn; lia.
  - split; [|right; split; reflexivity]. intros v Hv. cbn [result_of] in Hv. assert (Ev : v = new_array [0; 1]%nat 300 [c; 2]). { rewrite Hv. destruct Hc as [->| ->]; reflexivity. } rewrite Ev. cbn [orb assign_args]. clear Ev Hv Ec E v.
    split; [exists 400, [1; 1]; split; [reflexivity|apply P; lia]|]. split; destruct Hc as [->| ->]; apply D; try lia; cbn; lia.
Qed.
Example C87_map_example : forall sched, exists S, turns ex_red2 (start false [Scatter 0 0 1; Local ex_double; Gather true 1 1 2] [ex_lstate 0; ex_lstate 1]) sched = Some S /\
  forall r s, ended S r s -> exists tv, has s 2 tv /\ plain tv [0; 1]%nat [3; 2] /\ forall idx, in_view tv idx -> l_mem s (cell tv idx) = 2 * l_mem (ex_lstate 0) (cell (new_array [0; 1]%nat 100 [3; 2]) idx).
Proof.
  intros sched. destruct (C87_map Z ex_red2 (Z.mul 2) ex_double false true true 0 true 1 0 1 2 [ex_lstate 0; ex_lstate 1] [0; 1]%nat 3 [2] (ex_lstate 0) (TView (new_array [0; 1]%nat 100 [3; 2]))) as [H _].
  - reflexivity.
  - left. reflexivity.
  - reflexivity.
  - discriminate.
  - exact ex_double_maps.
  - exact ex_map_args.
  - reflexivity.
  - reflexivity.
  - cbn. lia.
  - destruct (H sched) as (S & T & G). exists S. split; [exact T|]. intros r s Es. apply (G r s Es). now left.
Qed.

(** In a build without checks an array on one process and a view on another make different calls: the shape of the result is asked for once more for the array. *)
Definition ex_mixed : list (lstate Z) :=
  [LState (fun a => a) [TView (new_array [0; 1]%nat 100 [1; 2]); TArray (new_array [0; 1]%nat 200 [1; 1]) 300]; LState (fun a => a) [TView (new_array [0; 1]%nat 100 [1; 2]); TView (new_array [0; 1]%nat 300 [2; 2])]].
Theorem C87_mixed_refuted : exists (prog : list (stmt Z)) ss ss', meaning ex_red2 true prog ss = Some ss' /\ (exists ps, Forall2 (fun s p => as_proc s 0 1 = Some p) ss ps /\ exists res, gather_assign false true 0 ps = Some res) /\
  prog = [Gather true 0 0 1] /\ exists sched, turns ex_red2 (start false prog ss) sched = None.
Proof.
  exists [Gather true 0 0 1], ex_mixed. assert (E : match meaning ex_red2 true [Gather true 0 0 1] ex_mixed with Some _ => True | None => False end) by (vm_compute; exact I).
  destruct (meaning _ _ _ _) as [ss'|]; [|contradiction]. exists ss'. split; [reflexivity|]. split; [|split; [reflexivity|]].
  - eexists. split; [repeat constructor|]. match goal with |- exists res, ?x = Some res => assert (G : match x with Some _ => True | None => False end) by (vm_compute; exact I); destruct x as [res|]; [exists res; reflexivity|contradiction] end.
  - exists [(0%nat, true); (1%nat, true); (0%nat, true); (1%nat, true); (0%nat, true); (1%nat, true); (0%nat, true)]. 
    match goal with |- ?x = None => assert (G : match x with Some _ => False | None => True end) by (vm_compute; exact I); destruct x as [S|]; [contradiction|reflexivity] end.
Qed.
Print Assumptions C87_mixed_refuted.

(** An exception in one process (here: its x is not contiguous) leaves the others waiting, however long they run. *)
Definition ex_strided : view := View (snd (match slice (v_lay (new_array [0; 1]%nat 100 [4; 2])) [ARange (Range 0 4 2); ARange (Range 0 2 1)] with Some x => x | None => (0, v_lay (new_array [0; 1]%nat 100 [0; 0])) end)) 100.
Definition ex_throw : list (lstate Z) :=
  [LState (fun a => a) [TView (new_array [0; 1]%nat 100 [2; 2]); TView (new_array [0; 1]%nat 300 [2; 2])]; LState (fun a => a) [TView ex_strided; TView (new_array [0; 1]%nat 300 [2; 2])]].
Theorem C87_throw_refuted : exists (prog : list (stmt Z)) ss, forall sched, exists S, turns ex_red2 (start false prog ss) sched = Some S /\ forall r s, ~ ended S r s.
Proof.
  exists [Reduce true 0 0 1], ex_throw. set (X0 := start false [Reduce true 0 0 1] ex_throw).
  assert (H0 : exists c k, X0 = [PState [] 0 (Call c k); PState [] 0 Bad] /\ forall get, get 0%nat = Some c -> get 1%nat = None -> answer ex_red2 2 0 c get = Wait).
  { eexists. eexists. split; [reflexivity|]. intros get G0 G1. cbn [answer orb]. unfold collect, everyone. cbn [seq map all_some]. now rewrite G0, G1. }
  destruct H0 as (c & k & E0 & A). set (X1 := [PState [c] 0 (Call c k); PState [] 0 Bad]).
  assert (G : forall sched Y, Y = X0 \/ Y = X1 -> exists S, turns ex_red2 Y sched = Some S /\ (S = X0 \/ S = X1)).
  { induction sched as [|[r e] sched IH]; intros Y HY; [exists Y; auto|]. cbn [turns].
    assert (T : exists Y', turn ex_red2 Y r e = Some Y' /\ (Y' = X0 \/ Y' = X1)).
    { destruct HY as [->| ->].
      - rewrite E0. destruct r as [|[|r]]; [exists X1; split; [reflexivity|now right]|eexists; split; [reflexivity|now left]|]. eexists. split; [|now left]. unfold turn. destruct r; reflexivity.
      - destruct r as [|[|r]]; [|exists X1; split; [reflexivity|now right]|exists X1; split; [unfold turn; destruct r; reflexivity|now right]].
        exists X1. split; [|now right]. unfold turn. cbn [nth_error X1 cur sent got length Nat.eqb]. destruct e; cbn [orb].
        + now rewrite A by reflexivity.
        + reflexivity. }
    destruct T as (Y' & -> & HY'). apply IH. exact HY'. }
  intros sched. destruct (G sched X0 (or_introl eq_refl)) as (S & T & HS). exists S. split; [exact T|]. intros r s (p & Hp & C). destruct HS as [->| ->]; [rewrite E0 in Hp|]; destruct r as [|[|[|r]]]; cbn in Hp; try discriminate; injection Hp as <-; discriminate C.
Qed.
Print Assumptions C87_throw_refuted.
