(** C86: threads share the ownership of arrays. *)
From Verif Require Import Base M_Handle M_SThreads S_SThreads L_Handle L_SThreads.

Local Open Scope nat_scope.

Section C86.
Variable trivial : bool.

(** For every schedule nothing undefined happens (no access to a destroyed element or a released block, nothing destroyed or released twice,
    no use of a control block without owners) and the threads never race; all along a block is intact while any handle or array refers to it. *)
Theorem C86_safe : forall w ts sch, in_order w ts -> ready w ts -> arrays_apart w ts ->
  exists w' ts', s_sched trivial (w, ts) sch = Some (w', ts') /\ ~ s_race ts' /\
    (forall t h b n, In t ts' -> In (Some h) (st_vars t) -> refers_to h = Some (b, n) -> intact w' b n) /\
    (forall h b n, In (Some h) (cm_arrays w') -> array_refers_to h = Some (b, n) -> intact w' b n).
Proof.
  intros w ts sch IO RD AP.
  destruct (sinv_sched trivial _ _ _ _ sch (w, ts) (sinv_start trivial w ts IO RD AP)) as ([w' ts'] & E & I).
  exists w', ts'; split; auto; split; [apply (sinv_no_race _ _ _ _ _ _ I)|].
  destruct (si_g _ _ _ _ _ _ I) as (own & G); cbn [fst snd] in G; split.
  - intros t h b n Ht Hh Hr; destruct (In_nth_error _ _ Ht) as (i & Hi); unfold refers_to in Hr.
    destruct (s_sptr h) as [c|] eqn:Es; [|discriminate]; destruct (s_data h) as [b1|] eqn:Ed; [|discriminate]; injection Hr as -> <-.
    destruct (shared_pos _ _ _ _ _ _ _ G Hi h c Hh Es) as (b2 & j & E1 & E2); rewrite Ed in E1; injection E1 as <-.
    apply (g_ctrl _ _ _ _ _ G _ _ _ _ E2).
  - intros h b n Hh Hr; destruct (In_nth_error _ _ Hh) as (a & Ha); destruct h as [[b1|] n1 [c|]]; try discriminate; injection Hr as -> ->.
    + destruct (g_arrays _ _ _ _ _ G _ _ _ Ha eq_refl) as (b2 & j & E1 & E2); cbn in E1, E2; injection E1 as <-.
      pose proof (g_count _ _ _ _ _ G _ _ E2) as GC; pose proof (total_ge (owns_h c) _ _ _ Ha) as TG; cbn in TG, GC; rewrite Nat.eqb_refl in TG.
      destruct j as [|j]; [lia|]; apply (g_ctrl _ _ _ _ _ G _ _ _ _ E2).
    + apply (g_arr _ _ _ _ _ G _ _ _ Ha).
Qed.

(** Every thread ends after a bounded number of its own turns. *)
Theorem C86_finishes : forall w ts,
  exists N, forall sch w' ts' i t', s_sched trivial (w, ts) sch = Some (w', ts') -> N <= count_occ Nat.eq_dec sch i ->
    nth_error ts' i = Some t' -> s_finished t' = true.
Proof.
  intros w ts; exists (S (left_s (w, ts))); intros sch w' ts' i t' E HN Hi; destruct (s_finished t') eqn:F; auto.
  pose proof (sched_less trivial sch _ _ i t' E Hi F); lia.
Qed.

(** When all have ended, in whatever order things happened: the handles of each thread refer to what its program alone makes them refer to; an
    array has ended exactly if one of the programs ends it; every block in use at the beginning is intact if something still refers to it, and
    otherwise has been released with every element destroyed; memory is in order again. *)
Theorem C86_result : forall w ts sch w' ts', in_order w ts -> ready w ts -> arrays_apart w ts ->
  s_sched trivial (w, ts) sch = Some (w', ts') -> s_all_done ts' ->
  length ts' = length ts /\
  (forall i t t', nth_error ts i = Some t -> nth_error ts' i = Some t' ->
     exists v a, ref_run (refs (st_vars t)) (array_refs (cm_arrays w)) (st_prog t) = Some (v, a) /\ refs (st_vars t') = v) /\
  (forall a, (exists t, In t ts /\ In (TDrop a) (st_prog t)) -> nth_error (array_refs (cm_arrays w')) a = Some None) /\
  (forall a, (forall t, In t ts -> ~ In (TDrop a) (st_prog t)) -> nth_error (array_refs (cm_arrays w')) a = nth_error (array_refs (cm_arrays w)) a) /\
  (forall k b n, keeps w k b n -> intact w' b n /\ referred w' ts' b \/ released trivial w' b n /\ ~ referred w' ts' b) /\
  in_order w' ts'.
Proof.
  intros w ts sch w' ts' IO RD AP E DN.
  destruct (sinv_sched trivial _ _ _ _ sch (w, ts) (sinv_start trivial w ts IO RD AP)) as (s' & E' & I).
  rewrite E in E'; injection E' as <-.
  destruct I as [HL (own & G) HT HR]; cbn [fst snd] in *; rewrite map_length in HL.
  assert (ND : forall i t, nth_error ts' i = Some t -> st_now t = None /\ st_prog t = []).
  { intros i t H; specialize (DN t (nth_error_In _ _ H)); unfold s_finished in DN; destruct (st_now t), (st_prog t); try discriminate; auto. }
  assert (RT : forall i t t', nth_error ts i = Some t -> nth_error ts' i = Some t' -> exists v a,
            ref_run (refs (st_vars t)) (array_refs (cm_arrays w)) (st_prog t) = Some (v, a) /\ refs (st_vars t') = v /\
            forall x, mentions (st_prog t) x -> nth_error a x = nth_error (array_refs (cm_arrays w')) x).
  { intros i t t' Hi Hi'; destruct (HT i t' Hi') as (p & fg & Hp & Hf & [(A & HA & Hr) _ _ _]).
    rewrite nth_error_map, Hi in Hp; injection Hp as <-; unfold start_R in Hf; rewrite nth_error_map, Hi in Hf; cbn [option_map] in Hf; injection Hf as Hf.
    destruct (RD t (nth_error_In _ _ Hi)) as (_ & NR); destruct (ref_run (refs (st_vars t)) _ _) as [[v a]|] eqn:ER; [|congruence].
    destruct (ND i t' Hi') as (N1 & N2); unfold rem, pend in Hr; rewrite N1, N2 in Hr; cbn in Hr; injection Hr as Hr; subst fg; injection Hr as <- <-; eauto. }
  assert (INT : forall k b n, keeps w' k b n -> own b = who_of k /\ intact w' b n).
  { intros [c|a] b n; cbn; [intros (j & K); apply (g_ctrl _ _ _ _ _ G _ _ _ _ K)|apply (g_arr _ _ _ _ _ G)]. }
  assert (GC : forall c k, nth_error (cm_ctrls w') c = Some k -> sc_count k = owners c w' ts').
  { intros c k H; rewrite (g_count _ _ _ _ _ G _ _ H); unfold owners; f_equal; apply total_ext; intros t Hin.
    destruct (In_nth_error _ _ Hin) as (i & Hi); unfold holds, dec_of; destruct (ND i t Hi) as (-> & _); lia. }
  split; [auto|split; [|split; [|split; [|split]]]].
  - intros i t t' Hi Hi'; destruct (RT i t t' Hi Hi') as (v & a & Q1 & Q2 & _); eauto.
  - intros a (t & Hin & Hd); destruct (In_nth_error _ _ Hin) as (i & Hi).
    destruct (nth_error ts' i) as [t'|] eqn:Hi'; [|apply nth_error_None in Hi'; apply nth_lt in Hi; lia].
    destruct (RT i t t' Hi Hi') as (v & A & Q1 & Q2 & Q3); rewrite <- Q3 by (right; auto).
    apply (ref_run_drop a _ _ _ _ _ Q1); auto.
  - intros a Ha; apply (r_kept _ _ _ HR); intros p Hp; apply in_map_iff in Hp; destruct Hp as (t & <- & Hin); auto.
  - intros k b n K.
    assert (SZ : forall l cs, nth_error (cm_blocks w') b = Some (SBlock l cs) -> length cs = n).
    { intros l cs Hb; pose proof (r_size _ _ _ HR b) as S; rewrite Hb in S; pose proof (io_intact _ _ IO _ _ _ K) as I0; unfold intact in I0.
      rewrite I0 in S; cbn in S; rewrite repeat_length in S; injection S as ->; auto. }
    assert (NR : forall b1, referred w' ts' b1 -> exists k1 n1, keeps w' k1 b1 n1).
    { intros b1 [(t & h & n1 & Hin & Hh & Hr)|(h & n1 & Hh & Hr)].
      - destruct (In_nth_error _ _ Hin) as (i & Hi); unfold refers_to in Hr; destruct (s_sptr h) as [c|] eqn:Es; [|discriminate]; destruct (s_data h) as [b2|] eqn:Ed; [|discriminate]; injection Hr as -> <-.
        destruct (shared_pos _ _ _ _ _ _ _ G Hi h c Hh Es) as (b3 & j & E1 & E2); rewrite Ed in E1; injection E1 as <-; exists (KCtrl c), (s_size h), j; auto.
      - destruct (In_nth_error _ _ Hh) as (a & Ha); destruct h as [[b2|] n2 [c|]]; try discriminate; injection Hr as -> ->.
        + destruct (g_arrays _ _ _ _ _ G _ _ _ Ha eq_refl) as (b3 & j & E1 & E2); cbn in E1, E2; injection E1 as <-.
          pose proof (g_count _ _ _ _ _ G _ _ E2) as GC2; pose proof (total_ge (owns_h c) _ _ _ Ha) as TG; cbn in TG, GC2; rewrite Nat.eqb_refl in TG.
          destruct j as [|j]; [lia|]; exists (KCtrl c), n1, j; auto.
        + exists (KArray a), n1; exact Ha. }
    assert (HH : exists k n, keeps w k b n) by eauto.
    pose proof (g_back _ _ _ _ _ G b HH) as B; destruct (own b) as [c|a|i|] eqn:O.
    + left; destruct B as (j & n1 & B); destruct (g_ctrl _ _ _ _ _ G _ _ _ _ B) as (_ & I1).
      pose proof (SZ _ _ I1) as L; rewrite repeat_length in L; subst n1; split; auto.
      pose proof (GC _ _ B) as C; cbn in C; unfold owners in C.
      destruct (Nat.eq_dec (total (fun t => total (owns_s c) (st_vars t)) ts') 0) as [Z0|Z0].
      * right; destruct (total_pos (owns_h c) (cm_arrays w')) as (a & [h|] & Ha & Hp); [lia| |cbn in Hp; lia]; cbn in Hp.
        destruct (h_sptr h) as [d|] eqn:Es; [|lia]; destruct (Nat.eqb_spec c d) as [<-|N]; [|lia].
        destruct (g_arrays _ _ _ _ _ G _ _ _ Ha Es) as (b1 & j1 & E1 & E2); rewrite B in E2; injection E2 as _ <- _.
        exists h, (h_size h); split; [eapply nth_error_In; eauto|unfold array_refers_to; rewrite E1; auto].
      * left; destruct (total_pos (fun t => total (owns_s c) (st_vars t)) ts') as (i & t & Hi & Hp); [lia|].
        destruct (total_pos _ _ Hp) as (x & [h|] & Hx & Hq); [|cbn in Hq; lia]; cbn in Hq.
        destruct (s_sptr h) as [d|] eqn:Es; [|lia]; destruct (Nat.eqb_spec c d) as [<-|N]; [|lia].
        destruct (g_shared _ _ _ _ _ G _ _ _ _ Hi (nth_error_In _ _ Hx) Es) as (b1 & j1 & E1 & E2); rewrite B in E2; injection E2 as _ <- _.
        exists t, h, (s_size h); split; [eapply nth_error_In; eauto|split; [eapply nth_error_In; eauto|unfold refers_to; rewrite Es, E1; auto]].
    + left; destruct B as (n1 & B); destruct (g_arr _ _ _ _ _ G _ _ _ B) as (_ & I1).
      pose proof (SZ _ _ I1) as L; rewrite repeat_length in L; subst n1; split; auto.
      right; exists (HHeap (Some b) n None), n; split; [eapply nth_error_In; eauto|auto].
    + destruct B as (t & Hi & Hd); unfold deleting in Hd; destruct (ND i t Hi) as (E1 & _); rewrite E1 in Hd; discriminate.
    + right; destruct B as (n1 & B); pose proof (SZ _ _ B) as L; rewrite repeat_length in L; subst n1; split; auto.
      intros RF; destruct (NR b RF) as (k1 & n1 & K1); destruct (INT _ _ _ K1) as (O1 & _); destruct k1; cbn in O1; congruence.
  - split; auto.
    + intros t h c Hin; destruct (In_nth_error _ _ Hin) as (i & Hi); apply (g_shared _ _ _ _ _ G _ _ _ _ Hi).
    + intros h c Hin; destruct (In_nth_error _ _ Hin) as (a & Ha); apply (g_arrays _ _ _ _ _ G _ _ _ Ha).
    + intros k b n K; apply (INT _ _ _ K).
    + intros k k' b n n' K K'; destruct (INT _ _ _ K) as (O1 & _); destruct (INT _ _ _ K') as (O2 & _); destruct k, k'; cbn in *; congruence.
Qed.

(** In particular, if the programs end all handles and arrays, every block has been released. *)
Theorem C86_all_released : forall w ts sch w' ts', in_order w ts -> ready w ts -> arrays_apart w ts ->
  s_sched trivial (w, ts) sch = Some (w', ts') -> s_all_done ts' ->
  (forall t v a, In t ts -> ref_run (refs (st_vars t)) (array_refs (cm_arrays w)) (st_prog t) = Some (v, a) -> forall r, In (Some r) v -> r = None) ->
  (forall a h, nth_error (cm_arrays w) a = Some (Some h) -> h_data h = None \/ exists t, In t ts /\ In (TDrop a) (st_prog t)) ->
  forall k b n, keeps w k b n -> released trivial w' b n.
Proof.
  intros w ts sch w' ts' IO RD AP E DN HV HA k b n K.
  destruct (C86_result w ts sch w' ts' IO RD AP E DN) as (HL & R1 & R2 & R3 & R4 & _).
  destruct (R4 k b n K) as [(_ & RF)|(RL & _)]; auto; exfalso.
  destruct RF as [(t' & h & n1 & Hin & Hh & Hr)|(h & n1 & Hh & Hr)].
  - destruct (In_nth_error _ _ Hin) as (i & Hi'); destruct (nth_error ts i) as [t|] eqn:Hi; [|apply nth_error_None in Hi; apply nth_lt in Hi'; lia].
    destruct (R1 i t t' Hi Hi') as (v & a & Q1 & Q2).
    assert (X : Some (b, n1) = None); [|discriminate]; apply (HV t v a (nth_error_In _ _ Hi) Q1); rewrite <- Q2, <- Hr.
    apply in_map_iff; exists (Some h); auto.
  - destruct (In_nth_error _ _ Hh) as (a & Ha).
    assert (Ha' : nth_error (array_refs (cm_arrays w')) a = Some (Some (Some (b, n1)))).
    { unfold array_refs; rewrite nth_error_map, Ha; cbn; rewrite Hr; auto. }
    assert (NDR : forall t, In t ts -> ~ In (TDrop a) (st_prog t)).
    { intros t Ht Hd; rewrite R2 in Ha' by eauto; discriminate. }
    rewrite R3 in Ha' by auto; unfold array_refs in Ha'; rewrite nth_error_map in Ha'.
    destruct (nth_error (cm_arrays w) a) as [[h0|]|] eqn:H0; try discriminate; injection Ha' as Ha'.
    destruct (HA a h0 H0) as [N|(t & Ht & Hd)]; [|apply (NDR t Ht Hd)]; unfold array_refers_to in Ha'; rewrite N in Ha'; discriminate.
Qed.

(** New arrays are in order, whatever their sizes. *)
Theorem C86_new : forall sizes ts, (forall t h, In t ts -> ~ In (Some h) (st_vars t)) -> in_order (new_memory sizes) ts.
Proof.
  intros sizes ts NV.
  assert (X : forall l b0 a h, nth_error (new_arrays b0 l) a = Some (Some h) -> exists n, nth_error l a = Some n /\ h = HHeap (if Nat.eqb n 0 then None else Some (b0 + a)) n None).
  { induction l as [|n l IH]; intros b0 [|a] h H; cbn in H; try discriminate.
    - injection H as <-; exists n; rewrite Nat.add_0_r; auto.
    - destruct (IH _ _ _ H) as (m & E1 & ->); exists m; split; auto; rewrite Nat.add_succ_r; reflexivity. }
  split.
  - intros c k H; destruct c; discriminate.
  - intros t h c Hin Hh; destruct (NV t h Hin Hh).
  - intros h c Hh Hs; destruct (In_nth_error _ _ Hh) as (a & Ha); destruct (X _ _ _ _ Ha) as (n & _ & ->); discriminate.
  - intros [c|a] b n; cbn.
    + intros (j & H); destruct c; discriminate.
    + intros H; destruct (X _ _ _ _ H) as (m & E1 & E2); injection E2 as E2 ->; destruct (Nat.eqb m 0); [discriminate|]; injection E2 as ->.
      unfold intact, new_memory; cbn; rewrite nth_error_map, E1; auto.
  - intros [c|a] [c'|a'] b n n'; cbn; try (intros (j & H); destruct c; discriminate); try (intros _ (j & H); destruct c'; discriminate).
    intros H H'; destruct (X _ _ _ _ H) as (m & E1 & E2); destruct (X _ _ _ _ H') as (m' & E1' & E2').
    injection E2 as E2 ->; injection E2' as E2' ->; destruct (Nat.eqb m 0); [discriminate|]; destruct (Nat.eqb m' 0); [discriminate|]; congruence.
Qed.

(** The handles may be handed to other threads: only the numbers of owners count. *)
Theorem C86_handed_over : forall w ts ts', in_order w ts ->
  (forall c, total (fun t => total (owns_s c) (st_vars t)) ts' = total (fun t => total (owns_s c) (st_vars t)) ts) ->
  (forall t' h, In t' ts' -> In (Some h) (st_vars t') -> exists t, In t ts /\ In (Some h) (st_vars t)) ->
  in_order w ts'.
Proof.
  intros w ts ts' [I1 I2 I3 I4 I5] HC HI; split; auto.
  - intros c k H; rewrite (I1 c k H); unfold owners; rewrite HC; auto.
  - intros t h c Ht Hh; destruct (HI t h Ht Hh) as (u & Hu & Hh'); eauto.
Qed.
End C86.

(** Not so if two threads share an array for the first time (although the array is const for both): each may make its own control block, and the
    block is released while the other thread uses it. *)
Theorem C86_first_share_refuted : forall trivial, exists w ts sch,
  in_order w ts /\ ready w ts /\ ts = repeat (SThread [None] None [TShare 0 0; TUse 0 0; TEnd 0]) 2 /\ s_sched trivial (w, ts) sch = None.
Proof.
  intros trivial; exists (new_memory [1]), (repeat (SThread [None] None [TShare 0 0; TUse 0 0; TEnd 0]) 2).
  exists [0; 0; 1; 1;  0; 0;  1; 1;  0; 0; 0; 0; 0; 0;  1; 1].
  split; [|split; [|split; [reflexivity|destruct trivial; reflexivity]]].
  - apply C86_new; cbn; intros t h [<-|[<-|[]]]; cbn; intros [|[]]; discriminate.
  - cbn; intros t [<-|[<-|[]]]; split; auto; vm_compute; discriminate.
Qed.
(** Nor if a thread ends an array another still shares from. *)
Theorem C86_ended_refuted : forall trivial, exists w ts sch,
  in_order w ts /\ ready w ts /\ s_sched trivial (w, ts) sch = None.
Proof.
  intros trivial; exists (new_memory [1]), [SThread [None] None [TShare 0 0]; SThread [] None [TDrop 0]], [1; 1; 0; 0].
  split; [|split; [|destruct trivial; reflexivity]].
  - apply C86_new; cbn; intros t h [<-|[<-|[]]]; cbn; [intros [|[]]; discriminate|intros []].
  - cbn; intros t [<-|[<-|[]]]; split; auto; vm_compute; discriminate.
Qed.

(** Example: an array of three elements shared by the parent, which ends it; two threads that copy, move, assign and use their handles. *)
Definition C86_w : common :=
  Common [SBlock true [true; true; true]; SBlock true [true]] [SCtrl 4 (0, 3)]
         [Some (HHeap (Some 0) 3 (Some 0)); Some (HHeap (Some 1) 1 None)].
Definition C86_ts : list sthread :=
  let h := Some (HShared (Some 0) 3 (Some 0)) in
  [SThread [h] None [TUse 0 1; TDrop 0; TEnd 0];
   SThread [h; None; None] None [TCopy 1 0; TEnd 0; TShare 2 1; TUse 2 0; TCopyAssign 2 1; TUse 2 2; TEnd 1; TEnd 2; TDrop 1];
   SThread [h; None] None [TMove 1 0; TUse 1 0; TMoveAssign 0 1; TUse 0 2; TEnd 0; TEnd 1]].
Example C86_example : in_order C86_w C86_ts /\ ready C86_w C86_ts /\ arrays_apart C86_w C86_ts.
Proof.
  split; [|split].
  - split.
    + intros [|[|c]] k H; cbn in H; try discriminate; injection H as <-; reflexivity.
    + intros t h c Ht Hh Hs; cbn in Ht; assert (h = HShared (Some 0) 3 (Some 0)) as ->.
      { destruct Ht as [<-|[<-|[<-|[]]]]; cbn in Hh; intuition congruence. }
      injection Hs as <-; exists 0, 4; auto.
    + intros h c Hh Hs; cbn in Hh; destruct Hh as [[= <-]|[[= <-]|[]]]; [|discriminate]; injection Hs as <-; exists 0, 4; auto.
    + intros [[|[|c]]|[|[|[|a]]]] b n K; cbn in K; try (destruct K as (j & K); discriminate); try discriminate.
      * destruct K as (j & [= <- <- <-]); reflexivity.
      * injection K as <- <-; reflexivity.
    + intros [[|[|c]]|[|[|[|a]]]] k' b n n' K K'; cbn in K; try (destruct K as (j & K); discriminate); try discriminate;
        destruct k' as [[|[|c']]|[|[|[|a']]]]; cbn in K'; try (destruct K' as (j' & K'); discriminate); try discriminate; auto.
      * destruct K as (j & [= <- <- <-]); injection K' as ? ?; discriminate.
      * destruct K' as (j & [= <- <- <-]); injection K as ? ?; discriminate.
  - cbn; intros t [<-|[<-|[<-|[]]]]; split; auto; vm_compute; discriminate.
  - assert (M : forall i t a, nth_error C86_ts i = Some t -> mentions (st_prog t) a -> i = a).
    { intros [|[|[|i]]] t a H; cbn in H; try (destruct i; discriminate); injection H as <-; intros [(s & Hm)|Hm]; cbn in Hm; intuition congruence. }
    intros i j t u a N Hi Hj Mt Mu; exfalso; apply N; rewrite (M i t a Hi Mt), (M j u a Hj Mu); auto.
Qed.
Example C86_example_end : exists sch w' ts', s_sched false (C86_w, C86_ts) sch = Some (w', ts') /\ s_all_done ts' /\
  released false w' 0 3 /\ released false w' 1 1.
Proof.
  exists (concat (repeat [0; 1; 2; 1] 30)); eexists _, _; split; [vm_compute; reflexivity|]; split; [|split; reflexivity].
  intros t [<-|[<-|[<-|[]]]]; reflexivity.
Qed.

Print Assumptions C86_safe.
Print Assumptions C86_finishes.
Print Assumptions C86_result.
Print Assumptions C86_all_released.
Print Assumptions C86_new.
Print Assumptions C86_handed_over.
Print Assumptions C86_first_share_refuted.
Print Assumptions C86_ended_refuted.
