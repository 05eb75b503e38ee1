(** C36, C37: assigning the results of scatter, gather and reduce to arrays and views. *)
From Verif Require Import Base M_Perm M_IdxMap M_Slice M_Loops M_Assign M_Expr M_Transform M_Mpi S_Layout S_Assign S_Mpi L_Perm L_IdxMap L_Layout L_Loops L_Assign L_Transform L_Mpi L_Mpi2 P_Mpi.

(** the target after the first step *)
Lemma begin_spec checks rhs t so shape old : plain rhs so old -> assign_args rhs t so shape -> (exists v, plain v so shape) ->
  exists t', begin_assign checks rhs t shape = Some t' /\ result_of t so shape (tgt_view t') /\ plain (tgt_view t') so shape /\ fit_target t' so shape /\
    resize_or_check t' shape = Some (tgt_view t') /\ disjoint rhs (tgt_view t').
Proof.
  intros Pr Ha [w Pw]. destruct (plain_shape _ _ _ Pw) as (Sh & Ho & HR).
  assert (R : forall t', im_len (v_lay (tgt_view t')) = shape -> resize_or_check t' shape = Some (tgt_view t')) by (intros t' E; unfold resize_or_check; destruct (list_eq_dec _ _ _); [reflexivity|contradiction]).
  destruct t as [v nb|v]; cbn [assign_args begin_assign result_of] in *.
  - destruct Ha as ((b & sh & Ev & Pv) & D1 & D2). rewrite (plain_size _ _ _ Pv), (plain_size _ _ _ Pr). pose proof Pv as (_ & Lv & Sv & _). rewrite Lv.
    assert (A : apart (v_base rhs) (prodZ old) (v_base v) (prodZ sh) = true).
    { unfold apart. destruct (Z.leb_spec (prodZ old) 0), (Z.leb_spec (prodZ sh) 0), (Z.leb_spec (v_base rhs + prodZ old) (v_base v)), (Z.leb_spec (v_base v + prodZ sh) (v_base rhs)); try reflexivity.
      exfalso. apply (D1 (Z.max (v_base v) (v_base rhs))); [apply (plain_cells _ _ _ _ Pr)|apply (plain_cells _ _ _ _ Pv)]; lia. }
    rewrite A, orb_true_r. eexists. split; [reflexivity|]. cbn [tgt_view]. unfold resized. rewrite Sv, (plain_size _ _ _ Pv).
    set (q := if prodZ sh =? prodZ shape then v_base v else nb). assert (Pq : plain (new_array so q shape) so shape) by now apply new_plain.
    split; [reflexivity|]. split; [exact Pq|]. split; [exists shape; exact Pq|]. split; [apply (R (TArray (new_array so q shape) nb)); reflexivity|].
    unfold q in *. destruct (Z.eqb_spec (prodZ sh) (prodZ shape)) as [E|E]; [|exact D2]. intros a Ha Hb. apply (D1 a Ha). rewrite (plain_cells _ _ _ _ Pq) in Hb. cbn [v_base new_array] in Hb. apply (plain_cells _ _ _ _ Pv). lia.
  - destruct Ha as (Pv & D). pose proof Pv as (_ & Lv & _). rewrite Lv. destruct (list_eq_dec _ _ _) as [_|C]; [|contradiction]. cbn [negb]. rewrite andb_false_r. exists (TView v). split; [reflexivity|]. cbn [tgt_view].
    split; [reflexivity|]. split; [exact Pv|]. split; [exact Pv|]. split; [now apply (R (TView v))|exact D].
Qed.
Lemma begin_all_spec {V} checks sha (ps : list (proc V)) (Q : nat -> proc V -> target -> Prop) :
  (forall r p, nth_error ps r = Some p -> exists t', begin_assign checks (p_rhs p) (p_tgt p) (sha r p) = Some t' /\ Q r p t') ->
  exists ps', begin_all checks sha ps = Some ps' /\ length ps' = length ps /\
    forall r p, nth_error ps r = Some p -> exists p', nth_error ps' r = Some p' /\ p_mem p' = p_mem p /\ p_rhs p' = p_rhs p /\ Q r p (p_tgt p').
Proof.
  intros H. unfold begin_all. destruct (ranks_spec (fun r p => match begin_assign checks (p_rhs p) (p_tgt p) (sha r p) with Some t => Some (Proc (p_mem p) (p_rhs p) t) | None => None end)
    (fun r p p' => p_mem p' = p_mem p /\ p_rhs p' = p_rhs p /\ Q r p (p_tgt p')) ps) as (ps' & E & L & K).
  - intros r p Hr. destruct (H r p Hr) as (t' & -> & Hq). eexists. split; [reflexivity|]. cbn. auto.
  - exists ps'. auto.
Qed.
Lemma back {V} (ps ps' : list (proc V)) r p' : length ps' = length ps -> nth_error ps' r = Some p' -> exists p, nth_error ps r = Some p.
Proof. intros L E. destruct (nth_error ps r) as [p|] eqn:K; [eauto|]. apply nth_error_None in K. assert (r < length ps')%nat by (apply nth_error_Some; congruence). lia. Qed.

Lemma ranks_nth {A B} (f : nat -> A -> option B) ps res r p b : ranks f ps = Some res -> nth_error ps r = Some p -> nth_error res r = Some b -> f r p = Some b.
Proof.
  unfold ranks. assert (G : forall k res r, all_some (map (fun rp => f (fst rp) (snd rp)) (combine (seq k (length ps)) ps)) = Some res -> nth_error ps r = Some p -> nth_error res r = Some b -> f (k + r)%nat p = Some b).
  { induction ps as [|x ps IH]; intros k res0 r0 E H1 H2; [destruct r0; discriminate|]. cbn [length seq combine map all_some fst snd] in E. destruct (f k x) as [y|] eqn:Ey; [|discriminate].
    destruct (all_some (map (fun rp => f (fst rp) (snd rp)) (combine (seq (S k) (length ps)) ps))) as [l0|] eqn:El; [|discriminate]. assert (Er : res0 = y :: l0) by congruence. subst res0. destruct r0 as [|r0]; cbn [nth_error] in *.
    - rewrite Nat.add_0_r. congruence.
    - rewrite Nat.add_succ_r. exact (IH (S k) l0 r0 El H1 H2). }
  exact (G 0%nat res r).
Qed.

(** b = scatter(a): on each process b becomes, or the view b is filled with, its block of slabs of the root's array. *)
Theorem C36_scatter_assign : forall V checks root (ps : list (proc V)) so N rest proot,
  first_slowest so -> (0 < prodZ rest \/ N = 0) -> N * prodZ rest < 2147483648 -> Forall (fun p => plain (p_rhs p) so (N :: rest)) ps ->
  nth_error ps root = Some proot ->
  (forall r p, nth_error ps r = Some p -> assign_args (p_rhs p) (p_tgt p) so (chunk_length N (length ps) r :: rest)) ->
  exists res, scatter_assign checks root ps = Some res /\ length res = length ps /\
    forall r p, nth_error ps r = Some p -> exists m' tv, nth_error res r = Some (m', tv) /\ result_of (p_tgt p) so (chunk_length N (length ps) r :: rest) tv /\
      plain tv so (chunk_length N (length ps) r :: rest) /\ unchanged_outside tv (p_mem p) m' /\
      forall i j, in_view tv (i :: j) -> in_view (p_rhs proot) (before (chunks N (length ps)) r + i :: j) /\
        m' (cell tv (i :: j)) = p_mem proot (cell (p_rhs proot) (before (chunks N (length ps)) r + i :: j)).
Proof.
  intros V checks root ps so N rest proot Hso Hne Hsz Hps Er Ha. rewrite Forall_forall in Hps.
  assert (Hpl : forall r p, nth_error ps r = Some p -> plain (p_rhs p) so (N :: rest)) by (intros r p E; apply Hps; eapply nth_error_In; eauto).
  pose proof (Hpl _ _ Er) as Plr. destruct (plain_shape _ _ _ Plr) as (Sh & Ho & HR). pose proof (Forall_inv Sh) as HN. cbv beta in HN. assert (Hn : (root < length ps)%nat) by (apply nth_error_Some; congruence).
  assert (Pc : forall r, exists v, plain v so (chunk_length N (length ps) r :: rest)).
  { intros r. exists (new_array so 0 (chunk_length N (length ps) r :: rest)). apply new_plain; [exact Ho| |exact HR]. constructor; [apply chunk_nonneg; lia|exact (Forall_inv_tail Sh)]. }
  unfold scatter_assign. rewrite Er. pose proof Plr as (_ & Lr & _).
  destruct (begin_all_spec checks (fun r p => scatter_shape (length ps) r (nthZ (im_len (v_lay (p_rhs proot))) 0) p) ps
    (fun r p t' => let sh := chunk_length N (length ps) r :: rest in result_of (p_tgt p) so sh (tgt_view t') /\ plain (tgt_view t') so sh /\ fit_target t' so sh /\ resize_or_check t' sh = Some (tgt_view t') /\ disjoint (p_rhs p) (tgt_view t'))) as (ps' & -> & L & K).
  { intros r p E. unfold scatter_shape. rewrite Lr. pose proof (Hpl _ _ E) as Pp. pose proof Pp as (_ & Lp & _). rewrite Lp. unfold nthZ. cbn [nth upd]. apply (begin_spec checks _ _ so _ (N :: rest) Pp (Ha r p E)). apply Pc. }
  destruct (K _ _ Er) as (proot' & Er' & Em & Eh & _ & _ & _ & Rr & Dr). rewrite <- Eh in Dr.
  destruct (C36_scatter V root ps' so N rest proot') as (res & E & Lres & H).
  - exact Hso.
  - exact Hne.
  - exact Hsz.
  - apply Forall_forall. intros p' Hin. apply In_nth_error in Hin. destruct Hin as [r Hr]. destruct (back ps ps' r p' L Hr) as [p Hp]. destruct (K r p Hp) as (p2 & E2 & _ & Eq & _). rewrite Hr in E2. injection E2 as <-. rewrite Eq. exact (Hpl _ _ Hp).
  - exact Er'.
  - intros r p' Hr. destruct (back ps ps' r p' L Hr) as [p Hp]. destruct (K r p Hp) as (p2 & E2 & _ & _ & _ & _ & F & _). rewrite Hr in E2. injection E2 as <-. rewrite L. exact F.
  - intros tv. rewrite L, Rr. intros X. injection X as <-. exact Dr.
  - exists res. split; [exact E|]. split; [lia|]. intros r p Hp. destruct (K r p Hp) as (p' & Hr & Em' & Eh' & Rs & Pt & Ft & Rt & _). destruct (H r p' Hr) as (m' & tv & A & B & C & D). rewrite L in *.
    exists m', tv. split; [exact A|].
    assert (Et : tv = tgt_view (p_tgt p')).
    { clear -E A Hr Rt L Er' Lr Eh Hpl Hp Eh'. unfold scatter in E. rewrite Er' in E. destruct (displs_from _ _) as [ds|]; [|discriminate].
      pose proof (ranks_nth _ _ _ _ _ _ E Hr A) as G. unfold scatter_rank in G. destruct (contiguous_args p'); [|discriminate].
      unfold scatter_shape in G. rewrite Eh, Lr, Eh', L in G. pose proof (Hpl _ _ Hp) as (_ & Lp & _). rewrite Lp in G. unfold nthZ in G. cbn [nth upd] in G. rewrite Rt in G.
      destruct (displs_from _ _); [|discriminate]. destruct (_ && _); [|discriminate]. now injection G as _ <-. }
    rewrite Et. split; [exact Rs|]. rewrite Et in B, C, D. split; [exact B|]. rewrite <- Em'. split; [exact C|]. rewrite <- Eh, <- Em. exact D.
Qed.
Print Assumptions C36_scatter_assign.

(** b = gather(a): on the processes that receive, b holds the arrays of all processes one after the other; on the others an array b is
    resized to extent 1 in the first dimension and a view must have that extent, and nothing is written. *)
Theorem C36_gather_assign : forall V checks all root (ps : list (proc V)) so Ns rest,
  first_slowest so -> sumZ Ns * prodZ rest < 2147483648 -> Forall2 (fun N p => plain (p_rhs p) so (N :: rest)) Ns ps -> (root < length ps)%nat ->
  (forall r p, nth_error ps r = Some p -> assign_args (p_rhs p) (p_tgt p) so ((if all || (r =? root)%nat then sumZ Ns else 1) :: rest)) ->
  exists res, gather_assign checks all root ps = Some res /\ length res = length ps /\
    forall r p, nth_error ps r = Some p -> exists m' tv, nth_error res r = Some (m', tv) /\ result_of (p_tgt p) so ((if all || (r =? root)%nat then sumZ Ns else 1) :: rest) tv /\
      plain tv so ((if all || (r =? root)%nat then sumZ Ns else 1) :: rest) /\ unchanged_outside tv (p_mem p) m' /\
      (if all || (r =? root)%nat
       then forall q pq N i j, nth_error ps q = Some pq -> nth_error Ns q = Some N -> in_view (p_rhs pq) (i :: j) ->
           in_view tv (before Ns q + i :: j) /\ m' (cell tv (before Ns q + i :: j)) = p_mem pq (cell (p_rhs pq) (i :: j))
       else m' = p_mem p).
Proof.
  intros V checks all root ps so Ns rest Hso Hsz Hps Hroot Ha.
  assert (LN : length Ns = length ps) by (clear -Hps; induction Hps; cbn [length]; auto).
  assert (Hat : forall q p, nth_error ps q = Some p -> exists N, nth_error Ns q = Some N /\ plain (p_rhs p) so (N :: rest)).
  { clear -Hps. induction Hps as [|N p Ns ps H _ IH]; intros [|q] p0 E; cbn [nth_error] in *; try discriminate; [injection E as <-; eauto|auto]. }
  assert (Sn : map slow_size ps = Ns).
  { clear -Hps. induction Hps as [|N p Ns ps H _ IH]; [reflexivity|]. cbn [map]. rewrite IH. f_equal. unfold slow_size. destruct H as (_ & -> & _). reflexivity. }
  assert (NN : Forall (fun x => 0 <= x) Ns).
  { clear -Hps. induction Hps as [|N p Ns ps H _ IH]; constructor; [|auto]. destruct (plain_shape _ _ _ H) as (S & _). exact (Forall_inv S). }
  unfold gather_assign. rewrite Sn.
  set (sh := fun r => (if all || (r =? root)%nat then sumZ Ns else 1) :: rest).
  assert (Eg : forall r p, nth_error ps r = Some p -> gather_shape all root r (sumZ Ns) p = sh r).
  { intros r p E. destruct (Hat r p E) as (N & _ & Pl). destruct Pl as (_ & Lp & _). unfold gather_shape. rewrite Lp. cbn [upd]. unfold sh. destruct all, (r =? root)%nat; reflexivity. }
  assert (Pc : forall r p, nth_error ps r = Some p -> exists v, plain v so (sh r)).
  { intros r p E. destruct (Hat r p E) as (N & _ & Pl). destruct (plain_shape _ _ _ Pl) as (Sh & Ho & HR). exists (new_array so 0 (sh r)). apply new_plain; [exact Ho| |exact HR]. constructor; [|exact (Forall_inv_tail Sh)].
    destruct (all || (r =? root)%nat); [now apply sumZ_nonneg|lia]. }
  destruct (begin_all_spec checks (fun r p => gather_shape all root r (sumZ Ns) p) ps
    (fun r p t' => result_of (p_tgt p) so (sh r) (tgt_view t') /\ plain (tgt_view t') so (sh r) /\ fit_target t' so (sh r) /\ resize_or_check t' (sh r) = Some (tgt_view t') /\ disjoint (p_rhs p) (tgt_view t'))) as (ps' & -> & L & K).
  { intros r p E. rewrite (Eg r p E). destruct (Hat r p E) as (N & _ & Pl). apply (begin_spec checks _ _ so (sh r) (N :: rest) Pl (Ha r p E)). exact (Pc r p E). }
  assert (Sh' : forall r p', nth_error ps' r = Some p' -> exists p, nth_error ps r = Some p /\ p_mem p' = p_mem p /\ p_rhs p' = p_rhs p /\ (result_of (p_tgt p) so (sh r) (tgt_view (p_tgt p')) /\ plain (tgt_view (p_tgt p')) so (sh r) /\ fit_target (p_tgt p') so (sh r) /\ resize_or_check (p_tgt p') (sh r) = Some (tgt_view (p_tgt p')) /\ disjoint (p_rhs p) (tgt_view (p_tgt p')))).
  { intros r p' E. destruct (back ps ps' r p' L E) as [p Hp]. destruct (K r p Hp) as (p2 & E2 & H). rewrite E in E2. injection E2 as <-. exists p. auto. }
  destruct (C36_gather V all root ps' so Ns rest) as (res & E & Lres & H).
  - exact Hso.
  - exact Hsz.
  - assert (G : forall q p', nth_error ps' q = Some p' -> exists N, nth_error Ns q = Some N /\ plain (p_rhs p') so (N :: rest)).
    { intros q p' E. destruct (Sh' q p' E) as (p & Hp & _ & -> & _). now apply Hat. }
    assert (L2 : length Ns = length ps') by lia. clear -G L2. revert ps' L2 G. induction Ns as [|N Ns IH]; intros [|p' ps'] L2 G; cbn [length] in L2; try discriminate; constructor.
    + destruct (G 0%nat p' eq_refl) as (N0 & E0 & P0). cbn [nth_error] in E0. injection E0 as ->. exact P0.
    + apply IH; [lia|]. intros q p0 E0. exact (G (S q) p0 E0).
  - lia.
  - intros r p' Hr Hrec. destruct (Sh' r p' Hr) as (p & _ & _ & Er & _ & _ & F & Rt & D). assert (Eb : all || (r =? root)%nat = true) by (destruct Hrec as [->| ->]; [reflexivity|rewrite Nat.eqb_refl; apply orb_true_r]).
    unfold sh in F, Rt. rewrite Eb in F, Rt. split; [exact F|]. intros tv. rewrite Rt. intros X. injection X as <-. now rewrite Er.
  - intros p' Hin. apply In_nth_error in Hin. destruct Hin as [r Hr]. destruct (Sh' r p' Hr) as (p & _ & _ & _ & _ & _ & F & _). eauto.
  - exists res. split; [exact E|]. split; [lia|]. intros r p Hp. destruct (K r p Hp) as (p' & Hr & Em & Eh & Rs & Pt & Ft & Rt & _). destruct (H r p' Hr) as (m' & tv & A & B).
    exists m', tv. split; [exact A|]. fold (sh r).
    assert (Et : tv = tgt_view (p_tgt p')).
    { unfold gather in E. destruct (root <? length ps')%nat; [|discriminate]. pose proof (ranks_nth _ _ _ _ _ _ E Hr A) as G. unfold gather_rank in G. destruct (contiguous_args p'); [|discriminate].
      destruct (all || (r =? root)%nat) eqn:Eb; [|injection G as _ <-; reflexivity].
      assert (Es : gather_shape all root r (sumZ (map slow_size ps')) p' = sh r).
      { replace (map slow_size ps') with Ns; [unfold gather_shape; rewrite Eh; exact (Eg r p Hp)|]. rewrite <- Sn.
        assert (G2 : forall q, nth_error (map slow_size ps) q = nth_error (map slow_size ps') q).
        { intros q. rewrite !nth_error_map. destruct (nth_error ps q) as [x|] eqn:Ex.
          - destruct (K q x Ex) as (x' & -> & _ & Ex' & _). cbn [option_map]. unfold slow_size. now rewrite Ex'.
          - destruct (nth_error ps' q) as [x'|] eqn:Ex'; [|reflexivity]. destruct (back ps ps' q x' L Ex') as [? ?]. congruence. }
        clear -G2. revert G2. generalize (map slow_size ps) (map slow_size ps'). intros l. induction l as [|x l IH]; intros [|y l'] G2; auto.
        - specialize (G2 0%nat). discriminate.
        - specialize (G2 0%nat). discriminate.
        - pose proof (G2 0%nat) as G0. cbn in G0. injection G0 as ->. f_equal. apply IH. intros q. exact (G2 (S q)). }
      rewrite Es, Rt in G. destruct (displs_from _ _); [|discriminate]. destruct (_ && _); [|discriminate]. now injection G as _ <-. }
    rewrite Et in *. split; [exact Rs|]. split; [exact Pt|]. destruct (all || (r =? root)%nat) eqn:Eb.
    + destruct B as (_ & U & B). rewrite <- Em. split; [exact U|]. intros q pq N i j Hq HN Hi. destruct (K q pq Hq) as (pq' & Hq' & Emq & Ehq & _). rewrite <- Ehq, <- Emq. apply (B q pq' N i j Hq' HN). now rewrite Ehq.
    + destruct B as [-> _]. rewrite Em. split; [intros a _; reflexivity|reflexivity].
Qed.
Print Assumptions C36_gather_assign.

(** b = reduce(a), and a = reduce(a) in place: on the processes that receive, b holds the reduction, element by element; on the others an
    array b takes the shape of a and nothing is written. *)
Theorem C37_reduce_assign : forall V op (red : nat -> Z -> list V -> V) checks all root (ps : list (proc V)) so shape (inpl : nat -> bool),
  assoc_comm op -> mpi_reduces op red -> 0 < prodZ shape < 2147483648 -> Forall (fun p => plain (p_rhs p) so shape) ps -> (root < length ps)%nat ->
  (all = true -> forall r, inpl r = inpl root) ->
  (forall r p, nth_error ps r = Some p ->
     if inpl r then match p_tgt p with TArray v _ => v = p_rhs p /\ exists b, v = new_array so b shape | TView v => v = p_rhs p end
     else assign_args (p_rhs p) (p_tgt p) so shape) ->
  exists res, reduce_assign red checks all root ps = Some res /\ length res = length ps /\
    forall r p, nth_error ps r = Some p -> exists m' tv, nth_error res r = Some (m', tv) /\ result_of (p_tgt p) so shape tv /\ plain tv so shape /\ unchanged_outside tv (p_mem p) m' /\
      (if all || (r =? root)%nat
       then forall idx, in_view tv idx -> total op (map (fun q => p_mem q (cell (p_rhs q) idx)) ps) (m' (cell tv idx))
       else m' = p_mem p).
Proof.
  intros V op red checks all root ps so shape inpl Hop Hred Hsz Hps Hroot Hall Ha. rewrite Forall_forall in Hps.
  assert (Hpl : forall r p, nth_error ps r = Some p -> plain (p_rhs p) so shape) by (intros r p E; apply Hps; eapply nth_error_In; eauto).
  unfold reduce_assign.
  destruct (begin_all_spec checks (fun _ (p : proc V) => im_len (v_lay (p_rhs p))) ps
    (fun r p t' => result_of (p_tgt p) so shape (tgt_view t') /\ plain (tgt_view t') so shape /\ fit_target t' so shape /\ resize_or_check t' shape = Some (tgt_view t') /\ (if inpl r then tgt_view t' = p_rhs p else disjoint (p_rhs p) (tgt_view t')))) as (ps' & -> & L & K).
  { intros r p E. pose proof (Hpl r p E) as Pl. pose proof Pl as (_ & Lp & Sp & _). rewrite Lp. specialize (Ha r p E). destruct (inpl r).
    - destruct (p_tgt p) as [v nb|v]; cbn [begin_assign].
      + destruct Ha as (Ev & b & Eb). assert (Sv : size (v_lay v) = prodZ shape) by (rewrite Ev; exact (plain_size _ _ _ Pl)). rewrite Sv, Z.eqb_refl. cbn [orb]. eexists. split; [reflexivity|]. unfold resized. cbn [tgt_view result_of fit_target].
        rewrite Sv, Z.eqb_refl. assert (Q : new_array (im_so (v_lay v)) (v_base v) shape = v) by (rewrite Eb; reflexivity). rewrite Q. rewrite Ev in *. rewrite Lp, Z.eqb_refl. split; [rewrite <- Sp; now rewrite Q|].
        split; [exact Pl|]. split; [exists shape; exact Pl|]. split; [|reflexivity]. unfold resize_or_check. cbn [tgt_view]. destruct (list_eq_dec _ _ _); [reflexivity|contradiction].
      + subst v. rewrite Lp. destruct (list_eq_dec _ _ _) as [_|C]; [|contradiction]. cbn [negb]. rewrite andb_false_r. exists (TView (p_rhs p)). split; [reflexivity|]. cbn [tgt_view result_of fit_target].
        split; [reflexivity|]. split; [exact Pl|]. split; [exact Pl|]. split; [|reflexivity]. unfold resize_or_check. cbn [tgt_view]. destruct (list_eq_dec _ _ _); [reflexivity|contradiction].
    - apply (begin_spec checks _ _ so shape shape Pl Ha). eauto. }
  assert (Sh' : forall r p', nth_error ps' r = Some p' -> exists p, nth_error ps r = Some p /\ p_mem p' = p_mem p /\ p_rhs p' = p_rhs p /\ (result_of (p_tgt p) so shape (tgt_view (p_tgt p')) /\ plain (tgt_view (p_tgt p')) so shape /\ fit_target (p_tgt p') so shape /\ resize_or_check (p_tgt p') shape = Some (tgt_view (p_tgt p')) /\ (if inpl r then tgt_view (p_tgt p') = p_rhs p else disjoint (p_rhs p) (tgt_view (p_tgt p'))))).
  { intros r p' E. destruct (back ps ps' r p' L E) as [p Hp]. destruct (K r p Hp) as (p2 & E2 & H). rewrite E in E2. injection E2 as <-. exists p. auto. }
  assert (Far : forall v w, plain v so shape -> plain w so shape -> disjoint v w -> prodZ shape <= Z.abs (v_base w - v_base v)).
  { intros v w Pv Pw D. destruct (Z.le_gt_cases (prodZ shape) (Z.abs (v_base w - v_base v))) as [C|C]; [exact C|]. exfalso. apply (D (Z.max (v_base v) (v_base w))); [apply (plain_cells _ _ _ _ Pv)|apply (plain_cells _ _ _ _ Pw)]; lia. }
  destruct (C37_reduce V op red all root ps' so shape inpl Hop Hred) as (res & E & Lres & H).
  - lia.
  - apply Forall_forall. intros p' Hin. apply In_nth_error in Hin. destruct Hin as [r Hr]. destruct (Sh' r p' Hr) as (p & Hp & _ & -> & _). exact (Hpl _ _ Hp).
  - lia.
  - exact Hall.
  - intros r p' Hr. destruct (Sh' r p' Hr) as (p & Hp & _ & Eh & _ & Pt & Ft & Rt & D). unfold reduce_args. rewrite Eh. destruct (inpl r); [exact D|]. pose proof (Far _ _ (Hpl _ _ Hp) Pt D) as X. split; [exact Ft|]. split; [lia|]. split; [|auto].
    intros _ tv. rewrite Rt. intros Y. injection Y as <-. exact D.
  - exists res. split; [exact E|]. split; [lia|]. intros r p Hp. destruct (K r p Hp) as (p' & Hr & Em & Eh & Rs & Pt & Ft & Rt & _). destruct (H r p' Hr) as (m' & tv & A & B). exists m', tv. split; [exact A|].
    assert (Et : tv = tgt_view (p_tgt p')).
    { unfold reduce in E. destruct (nth_error ps' root); [|discriminate]. pose proof (ranks_nth _ _ _ _ _ _ E Hr A) as G. unfold reduce_rank in G. destruct (_ && _ && _ && _); [|discriminate].
      unfold reduce_target in G. destruct (in_place p').
      - destruct (_ =? _); [|discriminate]. destruct (all || _); now injection G as _ <-.
      - rewrite Eh in G. pose proof (Hpl _ _ Hp) as (_ & Lp & _). rewrite Lp, Rt in G. replace (if (r =? root)%nat || all then Some (tgt_view (p_tgt p')) else Some (tgt_view (p_tgt p'))) with (Some (tgt_view (p_tgt p'))) in G by (destruct ((r =? root)%nat || all); reflexivity).
        destruct (_ <? _); [discriminate|]. destruct (all || _); now injection G as _ <-. }
    rewrite Et in *. split; [exact Rs|]. split; [exact Pt|]. destruct (all || (r =? root)%nat) eqn:Eb.
    + destruct B as (_ & U & B). rewrite <- Em. split; [exact U|]. intros idx Hi. specialize (B idx Hi). replace (map (fun q => p_mem q (cell (p_rhs q) idx)) ps) with (map (fun q => p_mem q (cell (p_rhs q) idx)) ps'); [exact B|].
      clear -K L. assert (G2 : forall q, nth_error (map (fun q => p_mem q (cell (p_rhs q) idx)) ps') q = nth_error (map (fun q => p_mem q (cell (p_rhs q) idx)) ps) q).
      { intros q. rewrite !nth_error_map. destruct (nth_error ps q) as [x|] eqn:Ex.
        - destruct (K q x Ex) as (x' & -> & E1 & E2 & _). cbn [option_map]. now rewrite E1, E2.
        - destruct (nth_error ps' q) as [x'|] eqn:Ex'; [|reflexivity]. destruct (back ps ps' q x' L Ex') as [? ?]. congruence. }
      revert G2. generalize (map (fun q => p_mem q (cell (p_rhs q) idx)) ps') (map (fun q => p_mem q (cell (p_rhs q) idx)) ps). intros l. induction l as [|x l IH]; intros [|y l'] G2; auto.
      * specialize (G2 0%nat). discriminate.
      * specialize (G2 0%nat). discriminate.
      * pose proof (G2 0%nat) as G0. cbn in G0. injection G0 as ->. f_equal. apply IH. intros q. exact (G2 (S q)).
    + destruct B as [-> _]. rewrite Em. split; [intros a _; reflexivity|reflexivity].
Qed.
Print Assumptions C37_reduce_assign.

(** b = scatter(a) followed by c = gather(b): c holds a *)
Theorem C36_round_trip_assign : forall V checks root (ps : list (proc V)) so N rest proot all root',
  first_slowest so -> (0 < prodZ rest \/ N = 0) -> N * prodZ rest < 2147483648 -> Forall (fun p => plain (p_rhs p) so (N :: rest)) ps ->
  nth_error ps root = Some proot ->
  (forall r p, nth_error ps r = Some p -> assign_args (p_rhs p) (p_tgt p) so (chunk_length N (length ps) r :: rest)) -> (root' < length ps)%nat ->
  exists res, scatter_assign checks root ps = Some res /\
    forall ps', Forall2 (fun b p => p_mem p = fst b /\ p_rhs p = snd b) res ps' ->
    (forall r p, nth_error ps' r = Some p -> assign_args (p_rhs p) (p_tgt p) so ((if all || (r =? root')%nat then N else 1) :: rest)) ->
    exists res', gather_assign checks all root' ps' = Some res' /\
      forall r, (r < length ps)%nat -> all = true \/ r = root' -> exists m' tv, nth_error res' r = Some (m', tv) /\ plain tv so (N :: rest) /\
        forall idx, in_view tv idx -> m' (cell tv idx) = p_mem proot (cell (p_rhs proot) idx).
Proof.
  intros V checks root ps so N rest proot all root' Hso Hne Hsz Hps Er Ht Hr'.
  destruct (C36_scatter_assign V checks root ps so N rest proot Hso Hne Hsz Hps Er Ht) as (res & E0 & L & Hres). exists res. split; [exact E0|]. intros ps' F Ht'.
  assert (L' : length ps' = length ps) by (rewrite <- L; clear -F; induction F; cbn [length]; auto).
  assert (Hroot : (root < length ps)%nat) by (apply nth_error_Some; congruence).
  destruct (sc_shape root ps so N rest Hps Hroot) as (HN & _).
  assert (Fn : forall r m tv, nth_error res r = Some (m, tv) -> exists p', nth_error ps' r = Some p' /\ p_mem p' = m /\ p_rhs p' = tv).
  { clear -F. induction F as [|b p res ps' [A B] F IH]; intros [|r] m tv E; cbn [nth_error] in *; try discriminate; [|eauto]. injection E as ->. exists p. auto. }
  assert (Sm : sumZ (chunks N (length ps)) = N) by (apply chunks_sum; lia).
  destruct (C36_gather_assign V checks all root' ps' so (chunks N (length ps)) rest) as (res' & Eg & Lg & Hg).
  - exact Hso.
  - now rewrite Sm.
  - assert (G : forall r p', nth_error ps' r = Some p' -> plain (p_rhs p') so (nthZ (chunks N (length ps)) r :: rest)).
    { intros r p' Ep. assert (Hr : (r < length ps)%nat) by (rewrite <- L'; apply nth_error_Some; congruence).
      destruct (nth_error ps r) as [p|] eqn:E1; [|apply nth_error_None in E1; lia]. destruct (Hres r p E1) as (m' & tv & A & _ & B & _).
      destruct (Fn r m' tv A) as (p2 & E2 & _ & E3). rewrite Ep in E2. injection E2 as <-. rewrite E3.
      rewrite (nth_error_nth (chunks N (length ps)) r 0 (chunks_nth N (length ps) r Hr) : nthZ _ _ = _). exact B. }
    revert G. assert (Lc : length (chunks N (length ps)) = length ps') by (rewrite chunks_length; lia). clear -Lc.
    generalize dependent ps'. induction (chunks N (length ps)) as [|c cs IH]; intros [|p l] Lc G; cbn [length] in Lc; try discriminate; constructor.
    + apply (G 0%nat). reflexivity.
    + apply IH; [lia|]. intros r p' E. apply (G (S r)). exact E.
  - lia.
  - intros r p Ep. rewrite Sm. now apply (Ht' r).
  - exists res'. split; [exact Eg|]. intros r Hr Hrec. destruct (nth_error ps' r) as [p'|] eqn:Ep; [|apply nth_error_None in Ep; lia].
    destruct (Hg r p' Ep) as (m' & tv & A & _ & Ptv & _ & B). exists m', tv. split; [exact A|].
    assert (all || (r =? root')%nat = true) as Ea. { apply orb_true_iff. destruct Hrec as [-> | ->]; [now left|right; apply Nat.eqb_refl]. }
    rewrite Ea in B, Ptv. rewrite Sm in Ptv. split; [exact Ptv|].
    intros idx Hidx. unfold in_view, valid_idx in Hidx. pose proof Ptv as (_ & Lt & _). rewrite Lt in Hidx.
    inversion Hidx as [|k l j rst Hk Hj Ek El]. subst. unfold inr in Hk.
    destruct (which_block (chunks N (length ps)) (chunks_nonneg N (length ps) HN ltac:(lia)) k ltac:(lia)) as (q & x & i & Ex & Hi & ->).
    assert (Hq : (q < length ps)%nat). { rewrite <- (chunks_length N (length ps)). apply nth_error_Some. congruence. }
    rewrite (chunks_nth N (length ps) q Hq) in Ex. injection Ex as <-.
    destruct (nth_error ps q) as [pq|] eqn:E1; [|apply nth_error_None in E1; lia]. destruct (Hres q pq E1) as (mq & tq & A1 & _ & A2 & _ & A3).
    destruct (Fn q mq tq A1) as (p2 & E2 & E3 & E4). assert (Hv : in_view tq (i :: j)).
    { unfold in_view, valid_idx. destruct A2 as (_ & -> & _). constructor; auto. }
    destruct (A3 i j Hv) as [_ <-]. destruct (B q p2 _ i j E2 (chunks_nth N (length ps) q Hq)) as [_ ->]; [now rewrite E4|]. now rewrite E3, E4.
Qed.
Print Assumptions C36_round_trip_assign.

(** ** examples *)
Lemma ex_args_array (shape : list Z) (r c : Z) : 0 <= r -> 0 <= c -> 0 <= nthZ shape 0 -> 0 <= nthZ shape 1 -> length shape = 2%nat -> prodZ shape <= 100 ->
  assign_args (new_array [0; 1]%nat 100 shape) (TArray (new_array [0; 1]%nat 5 [1; 1]) 200) [0; 1]%nat [r; c].
Proof.
  destruct shape as [|x [|y [|]]]; cbn [length]; intros Hr Hc Hx Hy L Hp; try discriminate. unfold nthZ in Hx, Hy. cbn [nth] in Hx, Hy.
  assert (P : forall b u w, 0 <= u -> 0 <= w -> plain (new_array [0; 1]%nat b [u; w]) [0; 1]%nat [u; w]) by (intros; apply ex_plain; auto using perm_c). cbn [assign_args]. split.
  - exists 5, [1; 1]. split; [reflexivity|]. apply P; lia.
  - split; intros a A B.
    + rewrite (plain_cells _ _ _ _ (P 100 x y Hx Hy)) in A. rewrite (plain_cells _ _ _ _ (P 5 1 1 ltac:(lia) ltac:(lia))) in B. cbn in A, B. lia.
    + rewrite (plain_cells _ _ _ _ (P 100 x y Hx Hy)) in A. rewrite (plain_cells _ _ _ _ (P 200 r c Hr Hc)) in B. cbn [v_base new_array] in A, B. lia.
Qed.
Lemma ex_args_view (b x y r c : Z) : 0 <= r -> 0 <= c -> 0 <= x -> 0 <= y -> x * y <= 100 -> assign_args (new_array [0; 1]%nat 100 [x; y]) (TView (new_array [0; 1]%nat 300 [r; c])) [0; 1]%nat [r; c].
Proof.
  intros Hr Hc Hx Hy Hp. cbn [assign_args]. split; [apply ex_plain; auto using perm_c|]. apply (ex_disjoint [0; 1]%nat _ _ [x; y] [r; c]); [apply ex_plain; auto using perm_c..|]. cbn [v_base new_array]. unfold prodZ. cbn [fold_right]. lia.
Qed.
(** the hypotheses hold for a scatter of 4 rows over three processes, one of which assigns to a view, ... *)
Example C36_scatter_assign_example : exists res, scatter_assign true 0 (ex_ps [0; 1]%nat [4; 2]) = Some res.
Proof.
  destruct (C36_scatter_assign Z true 0 (ex_ps [0; 1]%nat [4; 2]) [0; 1]%nat 4 [2] (ex_proc [0; 1]%nat 0 [4; 2] (TArray (new_array [0; 1]%nat 5 [1; 1]) 200))) as (res & E & _); [reflexivity|left; reflexivity|reflexivity| |reflexivity| |eauto].
  - apply ex_ps_plain; [apply perm_c|lia|lia].
  - intros [|[|[|r]]] p E; cbn [nth_error ex_ps] in E; try (destruct r; discriminate); injection E as <-; cbn [p_rhs p_tgt ex_proc].
    + apply ex_args_array; vm_compute; congruence.
    + apply ex_args_array; vm_compute; congruence.
    + change (chunk_length 4 (length (ex_ps [0; 1]%nat [4; 2])) 2) with 1. apply (ex_args_view 0); lia.
Qed.
Example C36_scatter_assign_values :
  match scatter_assign true 0 (ex_ps [0; 1]%nat [4; 2]) with Some l => map (fun b => ex_show (snd b) (fst b)) l | None => [] end
  = [([2; 2], [100; 101; 102; 103]); ([1; 2], [104; 105]); ([1; 2], [106; 107])].
Proof. vm_compute. reflexivity. Qed.
(** ... for a gather of arrays with one row (on process 0 the array is resized to one row, on process 2 the view has one row) ... *)
Example C36_gather_assign_example : exists res, gather_assign true false 1 (ex_ps [0; 1]%nat [1; 2]) = Some res.
Proof.
  destruct (C36_gather_assign Z true false 1 (ex_ps [0; 1]%nat [1; 2]) [0; 1]%nat [1; 1; 1] [2]) as (res & E & _); [reflexivity|reflexivity| |cbn; lia| |eauto].
  - unfold ex_ps. repeat constructor; cbn [p_rhs ex_proc]; apply ex_plain; auto using perm_c; lia.
  - intros [|[|[|r]]] p E; cbn [nth_error ex_ps] in E; try (destruct r; discriminate); injection E as <-; cbn [p_rhs p_tgt ex_proc orb Nat.eqb].
    + apply ex_args_array; vm_compute; congruence.
    + apply ex_args_array; vm_compute; congruence.
    + apply (ex_args_view 0); lia.
Qed.
Example C36_gather_assign_values :
  match gather_assign true false 1 (ex_ps [0; 1]%nat [1; 2]) with Some l => map (fun b => ex_show (snd b) (fst b)) l | None => [] end
  = [([1; 2], [200; 201]); ([3; 2], [100; 101; 1100; 1101; 2100; 2101]); ([1; 2], [2300; 2301])].
Proof. vm_compute. reflexivity. Qed.
(** ... and for a reduction to a new array on process 0 and in place on process 1 *)
Example C37_reduce_assign_example : exists res, reduce_assign ex_red true false 0 ex_sum_ps = Some res.
Proof.
  destruct (C37_reduce_assign Z Z.add ex_red true false 0 ex_sum_ps [0; 1]%nat [1; 2] (fun r => (r =? 1)%nat)) as (res & E & _); [|apply ex_red_reduces|cbn; lia| |cbn; lia|discriminate| |eauto].
  - split; intros; lia.
  - repeat constructor; cbn [p_rhs ex_proc]; apply ex_plain; auto using perm_c; lia.
  - intros [|[|r]] p E; cbn [nth_error ex_sum_ps] in E; try (destruct r; discriminate); injection E as <-; cbn [Nat.eqb p_tgt p_rhs ex_proc].
    + apply ex_args_array; vm_compute; congruence.
    + reflexivity.
Qed.
Example C37_reduce_assign_values :
  match reduce_assign ex_red true false 0 ex_sum_ps with Some l => map (fun b => ex_show (snd b) (fst b)) l | None => [] end = [([1; 2], [1200; 1202]); ([1; 2], [1100; 1101])].
Proof. vm_compute. reflexivity. Qed.

(** a = gather(a) and a = scatter(a) are not the gather and scatter of a: on a process where the number of elements changes, the array the data is sent from has been
    freed by then (None).  reduce is the only one of the three that allows this. *)
Theorem C36_self_assign_refuted : exists ps : list (proc Z),
  Forall (fun p => exists nb, p_tgt p = TArray (p_rhs p) nb /\ plain (p_rhs p) [0; 1]%nat [2; 2]) ps /\
  (forall checks all, gather_assign checks all 0 ps = None) /\ (forall checks, scatter_assign checks 0 ps = None) /\ exists res, reduce_assign ex_red true true 0 ps = Some res.
Proof.
  exists [ex_proc [0; 1]%nat 0 [2; 2] (TArray (new_array [0; 1]%nat 100 [2; 2]) 200); ex_proc [0; 1]%nat 1 [2; 2] (TArray (new_array [0; 1]%nat 100 [2; 2]) 200)]. split.
  - assert (P : plain (new_array [0; 1]%nat 100 [2; 2]) [0; 1]%nat [2; 2]) by (apply ex_plain; auto using perm_c; lia). repeat constructor; exists 200; split; (reflexivity || exact P).
  - split; [intros checks all; destruct all; vm_compute; reflexivity|]. split; [intros checks; vm_compute; reflexivity|]. vm_compute. eexists. reflexivity.
Qed.
Print Assumptions C36_self_assign_refuted.
(** gathering on one process into views of the shape of the result on all of them: nothing is wrong in a build without checks, but in a debug build the other processes
    stop, because there the initializer has one row *)
Theorem C36_gather_view_refuted : exists (ps : list (proc Z)) v,
  Forall (fun p => plain (p_rhs p) [0; 1]%nat [1; 2] /\ p_tgt p = TView v /\ disjoint (p_rhs p) v) ps /\ plain v [0; 1]%nat [3; 2] /\ length ps = 3%nat /\
  gather_assign true false 1 ps = None /\ exists res, gather_assign false false 1 ps = Some res.
Proof.
  exists [ex_proc [0; 1]%nat 0 [1; 2] (TView (new_array [0; 1]%nat 300 [3; 2])); ex_proc [0; 1]%nat 1 [1; 2] (TView (new_array [0; 1]%nat 300 [3; 2])); ex_proc [0; 1]%nat 2 [1; 2] (TView (new_array [0; 1]%nat 300 [3; 2]))], (new_array [0; 1]%nat 300 [3; 2]).
  assert (P : forall b u w, 0 <= u -> 0 <= w -> plain (new_array [0; 1]%nat b [u; w]) [0; 1]%nat [u; w]) by (intros; apply ex_plain; auto using perm_c). split; [|split; [apply P; lia|split; [reflexivity|split; [vm_compute; reflexivity|vm_compute; eexists; reflexivity]]]].
  assert (D : disjoint (new_array [0; 1]%nat 100 [1; 2]) (new_array [0; 1]%nat 300 [3; 2])) by (apply (ex_disjoint [0; 1]%nat _ _ [1; 2] [3; 2]); [apply P; lia..|cbn; lia]).
  assert (P1 := P 100 1 2 ltac:(lia) ltac:(lia)). repeat constructor; (exact D || apply P1 || exact P1).
Qed.
Print Assumptions C36_gather_view_refuted.
