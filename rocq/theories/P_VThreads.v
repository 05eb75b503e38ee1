(** C85: threads that assign to views of common memory. *)
From Verif Require Import Base M_Perm M_IdxMap M_Slice M_Loops S_Layout S_Loops M_Assign S_Assign M_Expr S_Expr L_Perm L_IdxMap L_Slice L_Layout L_Loops L_Assign L_Expr L_H53 L_Program2 P_Assign P_Expr M_VThreads S_VThreads L_VThreads.
From Verif Require L_Handle.

(** Whatever the schedule, no thread does anything wrong, and no two threads are ever about to touch one cell with one of them writing it. *)
Theorem C85_no_race {V} (A : arith V) (checks : bool) (m : mem V) (progs : list (list (vstmt V))) (sched : list nat) : all_legal progs -> apart progs ->
  exists m' ts, v_sched (v_fork A checks m progs) sched = Some (m', ts) /\ length ts = length progs /\ ~ v_race ts.
Proof.
  intros Hl Ha. pose proof (vinv_start A checks m progs Hl) as I. destruct (vinv_run A checks m progs sched Ha _ _ _ I) as (m' & ts & gs & E & I' & _).
  exists m', ts. split; [exact E|]. split; [apply (vi_len _ _ _ _ _ _ _ I')|]. intros (i & j & t1 & t2 & w1 & w2 & a & N & H1 & H2 & N1 & N2 & Hw).
  pose proof (vi_len _ _ _ _ _ _ _ I') as Lt. pose proof (vi_glen _ _ _ _ _ _ _ I') as Lg.
  assert (Li : (i < length ts)%nat) by (apply nth_error_Some; congruence). assert (Lj : (j < length ts)%nat) by (apply nth_error_Some; congruence).
  destruct (nth_error progs i) as [p|] eqn:Ep; [|apply nth_error_None in Ep; lia]. destruct (nth_error progs j) as [q|] eqn:Eq; [|apply nth_error_None in Eq; lia].
  destruct (nth_error gs i) as [gi|] eqn:Gi; [|apply nth_error_None in Gi; lia]. destruct (nth_error gs j) as [gj|] eqn:Gj; [|apply nth_error_None in Gj; lia].
  destruct (vi_thr _ _ _ _ _ _ _ I' i p t1 gi Ep H1 Gi) as (C1 & _). destruct (vi_thr _ _ _ _ _ _ _ I' j q t2 gj Eq H2 Gj) as (C2 & _).
  assert (F : forall (t : vact V) w (p : list (vstmt V)), confined (p_reads p) (p_writes p) t -> next_cell t = Some (w, a) -> if w : bool then p_writes p a else p_reads p a).
  { intros t w p0 C Hn. destruct t; cbn [next_cell] in Hn; try discriminate; injection Hn as <- <-; apply C. }
  apply (F t1 w1 p) in C1; auto. apply (F t2 w2 q) in C2; auto. destruct Hw as [-> | ->].
  - destruct C1 as (s & Hs & C1). destruct w2; destruct C2 as (s' & Hs' & C2); apply (Ha i j p q s s' a); auto.
  - destruct C2 as (s & Hs & C2). destruct w1; destruct C1 as (s' & Hs' & C1); apply (Ha j i q p s s' a); auto.
Qed.
Print Assumptions C85_no_race.

(** At any moment, the cells of a thread that has ended - those it wrote and those it read - hold what its program alone would have left there,
    whatever the other threads have done; the cells no thread writes hold what they held at the start. *)
Theorem C85_result {V} (A : arith V) (checks : bool) (m m' : mem V) (progs : list (list (vstmt V))) (sched : list nat) (ts : list (vact V)) : all_legal progs -> apart progs ->
  v_sched (v_fork A checks m progs) sched = Some (m', ts) ->
  (forall i p, nth_error progs i = Some p -> nth_error ts i = Some VDone ->
     exists mi, exec_stmts A checks p m = Some mi /\ forall s a, In s p -> writes s a \/ reads s a -> m' a = mi a) /\
  (forall a, (forall p s, In p progs -> In s p -> ~ writes s a) -> m' a = m a).
Proof.
  intros Hl Ha E. pose proof (vinv_start A checks m progs Hl) as I. destruct (vinv_run A checks m progs sched Ha _ _ _ I) as (m1 & ts1 & gs & E1 & I' & _).
  unfold v_fork in *. cbn [snd] in E1. rewrite E in E1. injection E1 as <- <-. split.
  - intros i p Hp Ht. assert (Li : (i < length progs)%nat) by (apply nth_error_Some; congruence). pose proof (vi_glen _ _ _ _ _ _ _ I') as Lg.
    destruct (nth_error gs i) as [g|] eqn:Gi; [|apply nth_error_None in Gi; lia]. destruct (vi_thr _ _ _ _ _ _ _ I' i p VDone g Hp Ht Gi) as (_ & R & Ag).
    exists g. split; [now rewrite <- R|]. intros s a Hs [H|H]; apply Ag; [right|left]; exists s; auto.
  - intros a Hn. apply (vi_rest _ _ _ _ _ _ _ I'). intros p Hp (s & Hs & Hw). apply (Hn p s); auto.
Qed.
Print Assumptions C85_result.

(** Every thread ends: there is a number of turns after which, if all threads have had it, all have ended. *)
Theorem C85_finishes {V} (A : arith V) (checks : bool) (m : mem V) (progs : list (list (vstmt V))) : all_legal progs -> apart progs ->
  exists n, forall sched, (forall i, (i < length progs)%nat -> (n <= count_occ Nat.eq_dec sched i)%nat) ->
    exists m' ts, v_sched (v_fork A checks m progs) sched = Some (m', ts) /\ v_all_done ts.
Proof.
  intros Hl Ha. exists (list_max (map (fun p => v_steps (t_stmts A checks p) m) progs)). intros sched Hn.
  pose proof (vinv_start A checks m progs Hl) as I. destruct (vinv_run A checks m progs sched Ha _ _ _ I) as (m1 & ts & gs & E & I' & S).
  exists m1, ts. split; [exact E|]. intros t Ht. apply In_nth_error in Ht as (i & Ht). pose proof (vi_len _ _ _ _ _ _ _ I') as Lt. pose proof (vi_glen _ _ _ _ _ _ _ I') as Lg.
  assert (Li : (i < length ts)%nat) by (apply nth_error_Some; congruence). destruct (nth_error progs i) as [p|] eqn:Ep; [|apply nth_error_None in Ep; lia].
  destruct (nth_error gs i) as [g|] eqn:Gi; [|apply nth_error_None in Gi; lia]. destruct (vi_thr _ _ _ _ _ _ _ I' i p t g Ep Ht Gi) as (C & _).
  assert (X : v_steps t g = 0%nat).
  { rewrite (S i (t_stmts A checks p) m t g); auto; [|cbn [v_fork snd]; now rewrite nth_error_map, Ep|now rewrite nth_error_map, Ep].
    specialize (Hn i ltac:(lia)). assert (Q : (v_steps (t_stmts A checks p) m <= list_max (map (fun p => v_steps (t_stmts A checks p) m) progs))%nat).
    { pose proof (proj1 (list_max_le (map (fun p => v_steps (t_stmts A checks p) m) progs) _) (le_n _)) as F. rewrite Forall_forall in F. apply F. apply in_map_iff. exists p. split; auto. now apply nth_error_In in Ep. }
    lia. }
  now rewrite (confined_steps _ _ t g C X).
Qed.
Print Assumptions C85_finishes.

(** When all threads have ended, the memory is what the programs of the threads give when they are run one after the other, in any order. *)
Lemma run_one {V} (t : vact V) : forall m m' ts i, v_run t m = Some m' -> nth_error ts i = Some t ->
  v_sched (m, ts) (repeat i (v_steps t m)) = Some (m', upd ts i VDone).
Proof.
  induction t as [| |a k IH|a x k IH]; cbn [v_run v_steps]; intros m m' ts i R Hi.
  - injection R as <-. cbn [repeat v_sched]. now rewrite (L_Handle.upd_same _ _ _ Hi).
  - discriminate.
  - cbn [repeat v_sched v_step]. rewrite Hi. assert (Li : (i < length ts)%nat) by (apply nth_error_Some; congruence).
    rewrite (IH (m a) m m' (upd ts i (k (m a))) i); auto; [|now apply L_Handle.nth_error_upd_eq]. f_equal. f_equal. apply L_Handle.upd_upd.
  - cbn [repeat v_sched v_step]. rewrite Hi. assert (Li : (i < length ts)%nat) by (apply nth_error_Some; congruence).
    rewrite (IH (mset m a x) m' (upd ts i k) i); auto; [|now apply L_Handle.nth_error_upd_eq]. f_equal. f_equal. apply L_Handle.upd_upd.
Qed.
Lemma exec_app {V} (A : arith V) checks p q m : exec_stmts A checks (p ++ q) m = match exec_stmts A checks p m with Some m1 => exec_stmts A checks q m1 | None => None end.
Proof. revert m; induction p as [|s p IH]; intros m; cbn [exec_stmts app]; auto. destruct (exec_stmt _ _ _ _); auto. Qed.
Lemma sched_app {V} l l' : forall s : mem V * list (vact V), v_sched s (l ++ l') = match v_sched s l with Some s1 => v_sched s1 l' | None => None end.
Proof. induction l as [|i l IH]; intros s; cbn [v_sched app]; auto. destruct (v_step s i); auto. Qed.
Lemma run_order {V} (A : arith V) checks (progs : list (list (vstmt V))) : all_legal progs -> forall ord m ts, NoDup ord -> (forall i, In i ord -> (i < length progs)%nat) ->
  (forall i, In i ord -> nth_error ts i = Some (t_stmts A checks (nth i progs []))) ->
  exists sched m2 ts2, v_sched (m, ts) sched = Some (m2, ts2) /\ exec_stmts A checks (concat (map (fun i => nth i progs []) ord)) m = Some m2 /\
    (forall j, In j ord -> nth_error ts2 j = Some VDone) /\ (forall j, ~ In j ord -> nth_error ts2 j = nth_error ts j).
Proof.
  intros Hl. induction ord as [|i ord IH]; intros m ts Nd Hlt Ht.
  - exists [], m, ts. split; [reflexivity|]. split; [reflexivity|]. split; [intros j []|auto].
  - inversion Nd as [|x l Ni Nd' Ex]; subst. pose proof (Ht i (or_introl eq_refl)) as Hi. pose proof (Hlt i (or_introl eq_refl)) as Li. assert (Lt : (i < length ts)%nat) by (apply nth_error_Some; congruence).
    assert (C : confined (p_reads (nth i progs [])) (p_writes (nth i progs [])) (t_stmts A checks (nth i progs []))).
    { apply t_stmts_confined; auto. intros s Hs. apply (Hl (nth i progs [])); auto. now apply nth_In. }
    destruct (confined_runs _ _ _ C m) as (m1 & R). pose proof (run_one _ m m1 ts i R Hi) as S1. rewrite t_stmts_run in R.
    destruct (IH m1 (upd ts i VDone)) as (sched & m2 & ts2 & S2 & E2 & D2 & O2); auto.
    { intros j Hj. apply Hlt. now right. }
    { intros j Hj. rewrite L_Handle.nth_error_upd_neq by (intros ->; auto). apply Ht. now right. }
    exists (repeat i (v_steps (t_stmts A checks (nth i progs [])) m) ++ sched), m2, ts2. split; [now rewrite sched_app, S1|]. split; [|split].
    + cbn [map concat]. now rewrite exec_app, R.
    + intros j [<-|Hj]; auto. rewrite O2 by auto. now apply L_Handle.nth_error_upd_eq.
    + intros j Hj. rewrite O2 by (intros C2; apply Hj; now right). apply L_Handle.nth_error_upd_neq. intros ->. apply Hj. now left.
Qed.
Lemma writes_dec {V} (s : vstmt V) a : writes s a \/ ~ writes s a.
Proof. destruct s; cbn [writes]; try apply is_cell_dec. destruct (Z.eq_dec a (cell dst idx)); auto. Qed.
Lemma exists_writer {V} (progs : list (list (vstmt V))) a : (exists p s, In p progs /\ In s p /\ writes s a) \/ (forall p s, In p progs -> In s p -> ~ writes s a).
Proof.
  induction progs as [|p progs IH]; [right; intros p s []|]. assert (H : (exists s, In s p /\ writes s a) \/ (forall s, In s p -> ~ writes s a)).
  { induction p as [|s p IHp]; [right; intros s []|]. destruct (writes_dec s a) as [W|W]; [left; exists s; split; auto; now left|].
    destruct IHp as [(s' & Hs & Ws)|N]; [left; exists s'; split; auto; now right|right]. intros s' [<-|Hs]; auto. }
  destruct H as [(s & Hs & W)|N]; [left; exists p, s; split; auto; now left|]. destruct IH as [(q & s & Hq & Hs & W)|N2]; [left; exists q, s; split; auto; now right|right].
  intros q s [<-|Hq] Hs; auto. apply (N2 q); auto.
Qed.
Lemma done_nth {V} (ts : list (vact V)) i t : v_all_done ts -> nth_error ts i = Some t -> t = VDone.
Proof. intros D H. apply nth_error_In in H. apply D in H. destruct t; try discriminate. reflexivity. Qed.
Theorem C85_sequential {V} (A : arith V) (checks : bool) (m m' : mem V) (progs : list (list (vstmt V))) (sched : list nat) (ts : list (vact V)) (order : list nat) :
  all_legal progs -> apart progs -> v_sched (v_fork A checks m progs) sched = Some (m', ts) -> v_all_done ts ->
  Permutation order (seq 0 (length progs)) ->
  exists m2, exec_stmts A checks (concat (map (fun i => nth i progs []) order)) m = Some m2 /\ same_memory m' m2.
Proof.
  intros Hl Ha E D P. assert (Io : forall i, In i order <-> (i < length progs)%nat).
  { intros i. split; intros H; [apply (Permutation_in _ P) in H; apply in_seq in H; lia|apply (Permutation_in _ (Permutation_sym P)); apply in_seq; lia]. }
  assert (Nd : NoDup order) by (apply (Permutation_NoDup (Permutation_sym P)), seq_NoDup).
  destruct (run_order A checks progs Hl order m (map (t_stmts A checks) progs) Nd) as (sched2 & m2 & ts2 & S2 & E2 & D2 & _).
  { intros i Hi. now apply Io. }
  { intros i Hi. apply Io in Hi. rewrite nth_error_map. rewrite (nth_error_nth' progs [] Hi). reflexivity. }
  exists m2. split; auto. change (v_sched (v_fork A checks m progs) sched2 = Some (m2, ts2)) in S2.
  destruct (C85_result A checks m m' progs sched ts Hl Ha E) as [R1 F1]. destruct (C85_result A checks m m2 progs sched2 ts2 Hl Ha S2) as [R2 F2].
  intros a. destruct (exists_writer progs a) as [(p & s & Hp & Hs & W)|N].
  - apply In_nth_error in Hp as (i & Hp). assert (Li : (i < length progs)%nat) by (apply nth_error_Some; congruence).
    destruct (C85_no_race A checks m progs sched Hl Ha) as (x1 & x2 & X & Lx & _). rewrite E in X. injection X as <- <-.
    destruct (nth_error ts i) as [t|] eqn:Et; [|apply nth_error_None in Et; lia]. rewrite (done_nth ts i t D Et) in Et.
    destruct (R1 i p Hp Et) as (mi & Ei & Hi). destruct (R2 i p Hp (D2 i (proj2 (Io i) Li))) as (mi2 & Ei2 & Hi2). assert (mi2 = mi) as -> by congruence.
    rewrite (Hi s a), (Hi2 s a); auto.
  - now rewrite F1, F2.
Qed.
Print Assumptions C85_sequential.

(** An assignment [dst = e] (also one whose expression contains [dst], as for dst += ...) may be divided among threads, each assigning the same
    slice of both sides: when all have ended, the memory is that of the single assignment. *)
Lemma slice_cells alg v args alg' v' : truthful (v_lay v) -> steps_nonzero args -> some_dim_left (rank (v_lay v)) args -> args_in_bounds (expand_args (rank (v_lay v)) args) (im_len (v_lay v)) ->
  slice_view alg v args = Some (alg', v') ->
  forall j, in_view v' j -> in_view v (parent_idx (expand_args (rank (v_lay v)) args) j) /\ cell v' j = cell v (parent_idx (expand_args (rank (v_lay v)) args) j).
Proof.
  intros T Hs Hd Hb H j Hj. unfold slice_view in H. destruct (slice (v_lay v) args) as [[o l]|] eqn:E; [|discriminate]. injection H as _ <-. unfold in_view in *. cbn [v_lay] in Hj.
  pose proof (truthful_wf _ T) as W. destruct (slice_inv _ _ _ E) as [Hok _]. split.
  - unfold valid_idx. apply parent_idx_valid; auto; [now apply expand_no_ell|]. now apply (slice_valid _ _ _ _ j W E Hs).
  - unfold cell. cbn [v_lay v_base]. pose proof (slice_addr (v_lay v) args o l j W E) as X. rewrite <- X; [lia|]. now apply in_range_length in Hj.
Qed.
Lemma slice_usable alg v args alg' v' : usable (v_lay v) -> steps_nonzero args -> some_dim_left (rank (v_lay v)) args -> args_in_bounds (expand_args (rank (v_lay v)) args) (im_len (v_lay v)) ->
  slice_view alg v args = Some (alg', v') -> usable (v_lay v').
Proof.
  intros U Hs Hd Hb H. pose proof (usable_truthful _ U) as T. destruct (slice_view_parts alg v args alg' v' T H Hd) as [T' El]. split; auto.
  pose proof (slice_cells alg v args alg' v' T Hs Hd Hb H) as C. intros i j Hi Hj E. destruct (C i Hi) as [Vi Ci], (C j Hj) as [Vj Cj].
  assert (Ep : parent_idx (expand_args (rank (v_lay v)) args) i = parent_idx (expand_args (rank (v_lay v)) args) j).
  { apply (cell_inj v); auto. rewrite <- Ci, <- Cj. unfold cell. now rewrite E. }
  unfold slice_view in H. destruct (slice (v_lay v) args) as [[o l]|] eqn:E2; [|discriminate]. destruct (slice_inv _ _ _ E2) as [Hok _].
  assert (Lk : length (im_len (v_lay v')) = n_kept (expand_args (rank (v_lay v)) args)) by (rewrite El; apply slice_len_length; rewrite expand_args_length by auto; reflexivity).
  apply (parent_idx_inj (expand_args (rank (v_lay v)) args)); auto; [now apply steps_expand|now apply expand_no_ell|rewrite <- Lk; now apply in_range_length in Hi|rewrite <- Lk; now apply in_range_length in Hj].
Qed.
Section Part.
Context {V : Type}.
Variables (alg : algebra) (dst : view) (e : expr V).
Hypotheses (U : usable (v_lay dst)) (Hc : common_shape e (im_len (v_lay dst))) (Ht : leaves_truthful e) (Hl : leaves_apart dst e).
Lemma part_props args d e' : part_of alg dst e args d e' ->
  usable (v_lay d) /\ common_shape e' (im_len (v_lay d)) /\ leaves_truthful e' /\ leaves_apart d e' /\
  (forall v, In v (leaves e') -> v = d \/ disjoint dst v) /\ (forall j, in_view d j -> in_view dst (parent_idx (expand_args (rank (v_lay dst)) args) j) /\ cell d j = cell dst (parent_idx (expand_args (rank (v_lay dst)) args) j)).
Proof.
  intros (Hs & Hd & Hb & (alg' & Sd) & Se). pose proof (usable_truthful _ U) as T. destruct (slice_view_parts alg dst args alg' d T Sd Hd) as [Td El].
  pose proof (slice_cells alg dst args alg' d T Hs Hd Hb Sd) as Cd.
  assert (Ps : forall v', In v' (leaves e') -> exists v al al', In v (leaves e) /\ slice_view al v args = Some (al', v') /\ rank (v_lay v) = rank (v_lay dst) /\ im_len (v_lay v) = im_len (v_lay dst)).
  { intros v' Hv. destruct (proj1 (slice_leaves args) e e' Se v' Hv) as (v & al & al' & Hi & E). exists v, al, al'. split; auto. split; auto. unfold rank. now rewrite (Hc v Hi). }
  assert (Q : forall v, In v (leaves e') -> v = d \/ disjoint dst v).
  { intros v' Hv. destruct (Ps v' Hv) as (v & al & al' & Hi & E & Er & Ev). destruct (Hl v Hi) as [->|D].
    - left. unfold slice_view in *. destruct (slice (v_lay dst) args) as [[o l]|]; congruence.
    - right. intros a Ha (j & Hj & ->). apply (D _ Ha). destruct (slice_cells al v args al' v' (Ht v Hi) Hs) with (j := j) as [C1 C2]; rewrite ?Er, ?Ev; auto.
      rewrite C2. eexists. split; [exact C1|reflexivity]. }
  split; [now apply (slice_usable alg dst args alg' d)|]. split; [|split; [|split; [|split]]]; auto.
  - intros v' Hv. destruct (Ps v' Hv) as (v & al & al' & Hi & E & Er & Ev). destruct (slice_view_parts al v args al' v' (Ht v Hi) E) as [_ El']; [now rewrite Er|]. now rewrite El', El, Er, Ev.
  - intros v' Hv. destruct (Ps v' Hv) as (v & al & al' & Hi & E & Er & Ev). destruct (slice_view_parts al v args al' v' (Ht v Hi) E) as [T' _]; [now rewrite Er|]. exact T'.
  - intros v Hv. destruct (Q v Hv) as [->|D]; auto. right. intros a (j & Hj & ->) Hv2. apply (D (cell d j)); auto. destruct (Cd j Hj) as [C1 C2]. rewrite C2. eexists. split; [exact C1|reflexivity].
Qed.
End Part.
Theorem C85_divided {V} (A : arith V) (checks : bool) (alg : algebra) (dst : view) (e : expr V) (parts : list (list arg)) (m : mem V) (progs : list (list (vstmt V))) :
  zero_neutral A -> usable (v_lay dst) -> common_shape e (im_len (v_lay dst)) -> leaves_truthful e -> leaves_apart dst e -> divides alg dst e parts progs ->
  all_legal progs /\ apart progs /\
  forall sched m' ts, v_sched (v_fork A checks m progs) sched = Some (m', ts) -> v_all_done ts ->
    exists m1, assign_expr A checks dst e m = Some m1 /\ same_memory m' m1.
Proof.
  intros HZ U Hc Ht Hl (Lp & Hp & Hcov & Hdis).
  assert (PP : forall i p, nth_error progs i = Some p -> exists args d e', part_of alg dst e args d e' /\ p = [SExpr d e']).
  { intros i p Hi. assert (Li : (i < length progs)%nat) by (apply nth_error_Some; congruence). destruct (nth_error parts i) as [args|] eqn:Ea; [|apply nth_error_None in Ea; lia].
    destruct (Hp i args p Ea Hi) as (d & e' & P & ->). eauto. }
  assert (L1 : all_legal progs).
  { intros p s Hin Hs. apply In_nth_error in Hin as (i & Hi). destruct (PP i p Hi) as (args & d & e' & P & ->). destruct Hs as [<-|[]].
    destruct (part_props alg dst e U Hc Ht Hl args d e' P) as (Ud & Cd & Td & _). cbn [legal]. auto. }
  assert (L2 : apart progs).
  { intros i j p q s s' a N Hi Hj Hs Hs'. destruct (PP i p Hi) as (args & d & e' & P & ->). destruct (PP j q Hj) as (args2 & d2 & e2 & P2 & ->). destruct Hs as [<-|[]]. destruct Hs' as [<-|[]].
    pose proof (Hdis i j d e' d2 e2 N Hi Hj) as D. cbn [writes reads]. intros Hw [(v & Hv & Hr)|Hw2]; [|apply (D a); auto].
    destruct (part_props alg dst e U Hc Ht Hl args2 d2 e2 P2) as (_ & _ & _ & _ & Q & _). destruct (Q v Hv) as [->|Dv]; [apply (D a); auto|]. apply (Dv a); auto.
    destruct (part_props alg dst e U Hc Ht Hl args d e' P) as (_ & _ & _ & _ & _ & C). destruct Hw as (k & Hk & ->). destruct (C k Hk) as [C1 C2]. rewrite C2. eexists. split; [exact C1|reflexivity]. }
  split; auto. split; auto. intros sched m' ts E D. destruct (C20_assign_expr A checks dst e m HZ U Hc Ht Hl) as (m1 & E1 & H1 & F1). exists m1. split; auto.
  destruct (C85_result A checks m m' progs sched ts L1 L2 E) as [R F]. intros a. destruct (is_cell_dec dst a) as [Ca|Na].
  - destruct (Hcov a Ca) as (i & d & e' & Hi & (j & Hj & ->)). destruct (PP i _ Hi) as (args & d' & e'' & P & X). injection X as <- <-.
    destruct (part_props alg dst e U Hc Ht Hl args d e' P) as (Ud & Cd & Td & Ad & _ & C). destruct (C j Hj) as [C1 C2].
    destruct (C85_no_race A checks m progs sched L1 L2) as (x1 & x2 & X & Lx & _). rewrite E in X. injection X as <- <-.
    assert (Li : (i < length progs)%nat) by (apply nth_error_Some; congruence). destruct (nth_error ts i) as [t|] eqn:Et; [|apply nth_error_None in Et; lia]. rewrite (done_nth ts i t D Et) in Et.
    destruct (R i _ Hi Et) as (mi & Ei & Hmi). rewrite (Hmi (SExpr d e') (cell d j)); [|now left|left; exists j; now split].
    cbn [exec_stmts exec_stmt] in Ei. destruct (C20_assign_expr A checks d e' m HZ Ud Cd Td Ad) as (m2 & E2 & H2 & _). rewrite E2 in Ei. injection Ei as <-.
    rewrite (H2 j Hj). rewrite C2, (H1 _ C1). destruct P as (Hs & Hd & Hb & (alg' & Sd) & Se).
    assert (Es : expr_shape e' = im_len (v_lay d)) by now apply (proj1 shapes_of_common).
    destruct (C23_slice A m e e' (im_len (v_lay dst)) args j HZ Hc Ht Se) as [G _]; auto. rewrite Es. exact Hj.
  - rewrite (F1 a Na). apply F. intros p s Hin Hs Hw. apply In_nth_error in Hin as (i & Hi). destruct (PP i p Hi) as (args & d & e' & P & ->). destruct Hs as [<-|[]].
    destruct (part_props alg dst e U Hc Ht Hl args d e' P) as (_ & _ & _ & _ & _ & C). destruct Hw as (k & Hk & ->). apply Na. destruct (C k Hk) as [C1 C2]. rewrite C2. eexists. split; [exact C1|reflexivity].
Qed.
Print Assumptions C85_divided.
(** a(0, _) += b(0, _) and a(1, _) += b(1, _) in two threads *)
Definition ex_add : expr Z := EBin OpPlus (ELeaf AlgA (ex_c 0)) (ELeaf AlgA (ex_f 10)).
Definition ex_parts : list (list arg) := [[ALong 0; AAll]; [ALong 1; AEll]].
Definition ex_progs : list (list (vstmt Z)) :=
  map (fun args => match slice_view AlgA (ex_c 0) args, slice_expr ex_add args with Some (_, d), Some e' => [SExpr d e'] | _, _ => [] end) ex_parts.
Lemma row_cells v a b : im_len (v_lay v) = [3] -> im_str (v_lay v) = [1] -> v_base v = b -> is_cell_of v a -> b <= a < b + 3.
Proof.
  intros El Es Eb (j & Hj & ->). unfold in_view, valid_idx in Hj. rewrite El in Hj. inversion Hj as [|x l0 t0 t1 H0 H1]; subst. inversion H1; subst. unfold inr in *. unfold cell, addr. rewrite Es. cbn [dot]. lia.
Qed.
Lemma row_has v b j : im_len (v_lay v) = [3] -> im_str (v_lay v) = [1] -> v_base v = b -> 0 <= j < 3 -> is_cell_of v (b + j).
Proof.
  intros El Es Eb Hj. exists [j]. split; [unfold in_view, valid_idx; rewrite El; repeat constructor; unfold inr; lia|]. unfold cell, addr. rewrite Es. cbn [dot]. lia.
Qed.
Lemma ex_divides : divides AlgA (ex_c 0) ex_add ex_parts ex_progs.
Proof.
  assert (Row : forall i k d e', nth_error ex_progs i = Some [SExpr d e'] -> is_cell_of d k -> 3 * Z.of_nat i <= k < 3 * Z.of_nat i + 3).
  { intros [|[|i]] k d e' H Hk; [| |destruct i; discriminate]; injection H as <- _.
    - apply (row_cells _ k 0) in Hk; [lia|vm_compute; reflexivity..].
    - apply (row_cells _ k 3) in Hk; [lia|vm_compute; reflexivity..]. }
  split; [reflexivity|]. split; [|split].
  - intros [|[|i]] args p Ha Hp; [| |destruct i; discriminate]; injection Ha as <-; injection Hp as <-; eexists; eexists; (split; [|reflexivity]); (split; [|split; [|split; [|split; [eexists; reflexivity|reflexivity]]]]).
    + intros r [C|[C|[]]]; discriminate.
    + exists AAll. split; [right; now left|reflexivity].
    + repeat constructor; cbn; lia.
    + intros r [C|[C|[]]]; discriminate.
    + exists AAll. split; [right; now left|reflexivity].
    + repeat constructor; cbn; lia.
  - intros a Ha. destruct (ex_cells (ex_c 0) a eq_refl Ha) as (i & j & Hi & Hj & ->). assert (Ci : i = 0 \/ i = 1) by lia. destruct Ci as [-> | ->].
    + exists 0%nat. eexists. eexists. split; [reflexivity|]. replace (cell (ex_c 0) [0; j]) with (0 + j) by (unfold cell, addr; change (im_str (v_lay (ex_c 0))) with [3; 1]; cbn [dot v_base ex_c]; lia). apply row_has; [vm_compute; reflexivity..|lia].
    + exists 1%nat. eexists. eexists. split; [reflexivity|]. replace (cell (ex_c 0) [1; j]) with (3 + j) by (unfold cell, addr; change (im_str (v_lay (ex_c 0))) with [3; 1]; cbn [dot v_base ex_c]; lia). apply row_has; [vm_compute; reflexivity..|lia].
  - intros i j d e' d2 e2 N Hi Hj a H1 H2. pose proof (Row i a d e' Hi H1). pose proof (Row j a d2 e2 Hj H2). lia.
Qed.
Example C85_example : leaves_apart (ex_c 0) ex_add /\ divides AlgA (ex_c 0) ex_add ex_parts ex_progs /\
  exists m' ts, v_sched (v_fork Z_arith true (fun a => a) ex_progs) (flat_map (fun _ => [1; 0]%nat) (seq 0 9)) = Some (m', ts) /\ v_all_done ts /\
    map m' [0; 1; 2; 3; 4; 5; 6] = [0 + 10; 1 + 12; 2 + 14; 3 + 11; 4 + 13; 5 + 15; 6].
Proof.
  split; [|split; [apply ex_divides|]].
  - intros v [<-|[<-|[]]]; [now left|right]. intros a H1 H2. apply ex_c_cells in H1. apply ex_f_cells in H2. lia.
  - eexists. eexists. split; [vm_compute; reflexivity|]. split; [intros t [<-|[<-|[]]]; reflexivity|]. vm_compute. reflexivity.
Qed.

(** Several statements in two threads: each thread first fills its own row of [c], then adds the row of [b] and stores the sum of its row. *)
Definition ex_row_of (v : view) (i : Z) : view := match slice_view AlgA v [ALong i; AAll] with Some (_, d) => d | None => v end.
Definition ex_sums (i : Z) : list (vstmt Z) :=
  let c := ex_row_of (ex_c 0) i in let b := ex_row_of (ex_c 10) i in
  [SFill 3 c 100; SExpr c (compound_expr OpPlus AlgA c (OExpr (ELeaf AlgA b))); SFold (ex_c 20) [0; i] Z.add (ELeaf AlgA c) 0].
Example C85_sums_example : all_legal [ex_sums 0; ex_sums 1] /\ apart [ex_sums 0; ex_sums 1] /\
  exists m' ts, v_sched (v_fork Z_arith true (fun a => a) [ex_sums 0; ex_sums 1]) (flat_map (fun _ => [1; 1; 0]%nat) (seq 0 40)) = Some (m', ts) /\ v_all_done ts /\
    map m' [0; 1; 2; 3; 4; 5; 20; 21; 22] = [110; 111; 112; 113; 114; 115; 333; 342; 22].
Proof.
  assert (U : forall base i, i = 0 \/ i = 1 -> usable (v_lay (ex_row_of (ex_c base) i))).
  { intros base i Hi. apply (slice_usable AlgA (ex_c base) [ALong i; AAll] AlgA).
    - apply ex_c_usable.
    - intros r [C|[C|[]]]; discriminate.
    - exists AAll. split; [right; now left|reflexivity].
    - repeat constructor; cbn; lia.
    - destruct Hi as [-> | ->]; reflexivity. }
  assert (C : forall base i a, i = 0 \/ i = 1 -> is_cell_of (ex_row_of (ex_c base) i) a -> base + 3 * i <= a < base + 3 * i + 3).
  { intros base i a Hi Ha. apply (row_cells _ a (base + 3 * i)) in Ha; [exact Ha| | |]; destruct Hi as [-> | ->]; try reflexivity; cbn; lia. }
  assert (Ls : forall i, i = 0 \/ i = 1 -> forall s, In s (ex_sums i) -> legal s).
  { intros i Hi s [<-|[<-|[<-|[]]]]; cbn [legal].
    - split; [now apply U|]. split; [|split; [|destruct Hi as [-> | ->]; vm_compute; discriminate]].
      + destruct Hi as [-> | ->]; left; right; reflexivity.
      + intros _. destruct Hi as [-> | ->]; left; reflexivity.
    - split; [now apply U|]. split.
      + intros v [<-|[<-|[]]]; destruct Hi as [-> | ->]; reflexivity.
      + intros v [<-|[<-|[]]]; apply usable_truthful; now apply U.
    - split; [apply usable_truthful, ex_c_usable|]. split; [destruct Hi as [-> | ->]; repeat constructor; unfold inr; cbn; lia|]. split.
      + exists [3]. intros v [<-|[]]; destruct Hi as [-> | ->]; reflexivity.
      + intros v [<-|[]]. apply usable_truthful. now apply U. }
  assert (Ws : forall i a s, i = 0 \/ i = 1 -> In s (ex_sums i) -> writes s a -> 3 * i <= a < 3 * i + 3 \/ a = 20 + i).
  { intros i a s Hi [<-|[<-|[<-|[]]]] H; cbn [writes] in H; try (left; apply C in H; [lia|exact Hi]). right. destruct Hi as [-> | ->]; subst a; reflexivity. }
  assert (Rs : forall i a s, i = 0 \/ i = 1 -> In s (ex_sums i) -> reads s a -> 3 * i <= a < 3 * i + 3 \/ 10 <= a < 16).
  { intros i a s Hi [<-|[<-|[<-|[]]]] H; cbn [reads] in H.
    - destruct H.
    - destruct H as (v & [<-|[<-|[]]] & H); apply C in H; auto; lia.
    - destruct H as (v & [<-|[]] & H); apply C in H; auto; lia. }
  split; [|split].
  - intros p s [<-|[<-|[]]] Hs; [apply (Ls 0)|apply (Ls 1)]; auto.
  - intros i j p q s s' a N Hi Hj Hs Hs' Hw [Hr|Hr].
    + destruct i as [|[|i]]; [injection Hi as <-|injection Hi as <-|destruct i; discriminate]; (destruct j as [|[|j]]; [injection Hj as <-|injection Hj as <-|destruct j; discriminate]); try congruence.
      * apply (Ws 0) in Hw; auto. apply (Rs 1) in Hr; auto. lia.
      * apply (Ws 1) in Hw; auto. apply (Rs 0) in Hr; auto. lia.
    + destruct i as [|[|i]]; [injection Hi as <-|injection Hi as <-|destruct i; discriminate]; (destruct j as [|[|j]]; [injection Hj as <-|injection Hj as <-|destruct j; discriminate]); try congruence.
      * apply (Ws 0) in Hw; auto. apply (Ws 1) in Hr; auto. lia.
      * apply (Ws 1) in Hw; auto. apply (Ws 0) in Hr; auto. lia.
  - eexists. eexists. split; [vm_compute; reflexivity|]. split; [intros t [<-|[<-|[]]]; reflexivity|]. vm_compute. reflexivity.
Qed.

(** The condition is needed: two threads doing a += b on the same [a] - each legal alone - can lose an update, depending on the schedule. *)
Theorem C85_overlap_refuted : exists (progs : list (list (vstmt Z))) (m m1 m2 : mem Z) (s1 s2 : list nat) (ts : list (vact Z)) (a : Z),
  all_legal progs /\ v_sched (v_fork Z_arith true m progs) s1 = Some (m1, ts) /\ v_sched (v_fork Z_arith true m progs) s2 = Some (m2, ts) /\ v_all_done ts /\ m1 a <> m2 a.
Proof.
  exists [[SExpr (ex_c 0) ex_add]; [SExpr (ex_c 0) ex_add]], (fun a => a).
  eexists. eexists. exists (repeat 0%nat 18 ++ repeat 1%nat 18), (flat_map (fun _ => [0; 1]%nat) (seq 0 18)). eexists. exists 1.
  split; [|split; [vm_compute; reflexivity|split; [vm_compute; reflexivity|split; [intros t [<-|[<-|[]]]; reflexivity|vm_compute; discriminate]]]].
  assert (L : legal (SExpr (ex_c 0) ex_add)).
  { split; [apply ex_c_usable|]. split; [intros v [<-|[<-|[]]]; reflexivity|]. intros v [<-|[<-|[]]]; apply usable_truthful; [apply ex_c_usable|apply ex_f_usable]. }
  intros p s [<-|[<-|[]]] [<-|[]]; exact L.
Qed.
Print Assumptions C85_overlap_refuted.
