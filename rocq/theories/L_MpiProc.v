(** Lemmas for C87: processes running in step, and at any pace. *)
From Verif Require Import Base M_Perm M_IdxMap M_Loops M_Assign M_Transform M_Mpi M_MpiProc S_MpiProc.

Section Gen.
Context {V : Type}.
Variable red : nat -> Z -> list V -> V.
Variable n : nat.

Definition full (cs : nat -> call V) (q : nat) : option (call V) := if (q <? n)%nat then Some (cs q) else None.
(** the [n] processes in step: [tr] are the calls of each round *)
Inductive locks : (nat -> act V) -> list (nat -> call V) -> (nat -> lstate V) -> Prop :=
| locks_end acts res : (forall r, (r < n)%nat -> acts r = Fin (res r)) -> locks acts [] res
| locks_call acts cs ks reps tr res : (forall r, (r < n)%nat -> acts r = Call (cs r) (ks r)) -> (forall r, (r < n)%nat -> answer red n r (cs r) (full cs) = Got (reps r)) ->
    (forall r q, (r < n)%nat -> (q < n)%nat -> belong (cs r) (cs q)) -> locks (fun r => ks r (reps r)) tr res -> locks acts (cs :: tr) res.

Lemma locks_ext acts acts' tr res : (forall r, (r < n)%nat -> acts r = acts' r) -> locks acts tr res -> locks acts' tr res.
Proof.
  intros E H. inversion H as [a r0 H1|a cs ks reps tr' r0 H1 H2 H3 H4]; subst.
  - apply locks_end. intros r Hr. now rewrite <- E, H1.
  - apply (locks_call _ cs ks reps); auto. intros r Hr. now rewrite <- E, H1.
Qed.

(** ** answers *)
Definition part_of (g h : nat -> option (call V)) : Prop := forall q c, g q = Some c -> h q = Some c.
Lemma all_some_part {A B} (l : list A) (g h : A -> option B) : (forall q c, In q l -> g q = Some c -> h q = Some c) -> forall r, all_some (map g l) = Some r -> all_some (map h l) = Some r.
Proof.
  intros P. induction l as [|q l IH]; cbn; [auto|]. intros r. destruct (g q) as [c|] eqn:E; [|discriminate]. rewrite (P q c (or_introl eq_refl) E).
  destruct (all_some (map g l)) as [r'|]; [|discriminate]. intros H. rewrite (IH (fun q' c' Hq => P q' c' (or_intror Hq)) r' eq_refl). exact H.
Qed.
Lemma collect_part {B} g h (f : call V -> option B) k : part_of g h -> collect n g f k = Wait \/ collect n g f k = collect n h f k.
Proof.
  intros P. unfold collect, everyone. destruct (all_some (map g (seq 0 n))) as [cs|] eqn:E; [|now left]. right. now rewrite (all_some_part _ g h (fun q c _ => P q c) cs E).
Qed.
Lemma answer_part r c g h : part_of g h -> answer red n r c g = Wait \/ answer red n r c g = answer red n r c h.
Proof.
  intros P. destruct c as [root l|all root z|all root z|root bl rc|all root d rcs|all root ip d|root cnt d]; cbn [answer];
    try (destruct (all || (r =? root)%nat); [now apply collect_part|now right]);
    (destruct (g root) as [c'|] eqn:E; [right; now rewrite (P _ _ E)|now left]).
Qed.
Lemma all_some_full {A B} (l : list A) (h : A -> option B) : (forall q, In q l -> h q <> None) -> exists r, all_some (map h l) = Some r.
Proof.
  induction l as [|q l IH]; intros H; cbn; [eauto|]. destruct (h q) as [c|] eqn:E; [|exfalso; apply (H q); [now left|exact E]].
  destruct IH as [r ->]; [|eauto]. intros q' Hq. apply H. now right.
Qed.
(** nobody waits once all have called *)
Lemma collect_full {B} h (f : call V -> option B) k : (forall q, (q < n)%nat -> h q <> None) -> collect n h f k <> Wait.
Proof.
  intros H. unfold collect, everyone. destruct (all_some_full (seq 0 n) h) as [cs ->]. { intros q Hq. apply H. apply in_seq in Hq. lia. }
  destruct (all_some (map f cs)) as [l|]; [destruct (k l); discriminate|discriminate].
Qed.

(** ** any pace *)
Section Async.
Variables (acts0 : nat -> act V) (tr : list (nat -> call V)) (res : nat -> lstate V).
Hypothesis L0 : locks acts0 tr res.
(** the processes after [k] rounds *)
Lemma rounds : exists acts : nat -> nat -> act V,
  (forall r, acts 0%nat r = acts0 r) /\
  (forall k cs, nth_error tr k = Some cs -> exists ks reps, forall r, (r < n)%nat -> acts k r = Call (cs r) (ks r) /\ answer red n r (cs r) (full cs) = Got (reps r) /\ acts (S k) r = ks r (reps r)) /\
  (forall r, (r < n)%nat -> acts (length tr) r = Fin (res r)) /\
  (forall k cs, nth_error tr k = Some cs -> forall r q, (r < n)%nat -> (q < n)%nat -> belong (cs r) (cs q)).
Proof.
  clear -L0. induction L0 as [a r0 H1|a cs ks reps tr' r0 H1 H2 H3 H4 IH].
  - exists (fun _ => a). split; [reflexivity|]. split; [intros [|k] cs E; discriminate E|]. split; [exact H1|]. intros [|k] cs E; discriminate E.
  - destruct (IH H4) as (acts & I1 & I2 & I3 & I4). exists (fun k => match k with O => a | S k' => acts k' end). split; [reflexivity|]. split; [|split].
    + intros [|k] cs' E.
      * injection E as <-. exists ks, reps. intros r Hr. split; [now apply H1|]. split; [now apply H2|apply I1].
      * apply I2. exact E.
    + intros r Hr. cbn [length]. now apply I3.
    + intros [|k] cs' E; [injection E as <-; exact H3|]. apply (I4 k). exact E.
Qed.

(** a process that is in step [got p] *)
Definition good (acts : nat -> nat -> act V) (r : nat) (p : pstate V) : Prop :=
  (got p <= length tr)%nat /\ cur p = acts (got p) r /\
  (length (sent p) = got p \/ length (sent p) = S (got p) /\ (got p < length tr)%nat) /\
  forall k c, nth_error (sent p) k = Some c -> exists cs, nth_error tr k = Some cs /\ c = cs r.
Definition inv (acts : nat -> nat -> act V) (S : list (pstate V)) : Prop := length S = n /\ forall r p, nth_error S r = Some p -> good acts r p.

(** p' is at least as far as p *)
Definition further (S S' : list (pstate V)) : Prop := forall r p, nth_error S r = Some p -> exists p', nth_error S' r = Some p' /\ (got p <= got p')%nat /\ (length (sent p) <= length (sent p'))%nat.
Lemma further_refl S : further S S.
Proof. intros r p E. exists p. auto. Qed.
Lemma further_trans S1 S2 S3 : further S1 S2 -> further S2 S3 -> further S1 S3.
Proof. intros A B r p E. destruct (A r p E) as (p1 & E1 & G1 & L1). destruct (B r p1 E1) as (p2 & E2 & G2 & L2). exists p2. split; [exact E2|]. lia. Qed.
Lemma nth_upd {T} (l : list T) i j x : nth_error (upd l i x) j = if (i =? j)%nat then (match nth_error l i with Some _ => Some x | None => None end) else nth_error l j.
Proof.
  revert i j. induction l as [|y l IH]; intros [|i] [|j]; cbn; try reflexivity.
  - destruct (i =? j)%nat; reflexivity.
  - apply IH.
Qed.
Lemma length_upd {T} (l : list T) i x : length (upd l i x) = length l.
Proof. revert i. induction l as [|y l IH]; intros [|i]; cbn; auto. Qed.

Lemma good_turn acts S r e : (forall k cs, nth_error tr k = Some cs -> exists ks reps, forall r, (r < n)%nat -> acts k r = Call (cs r) (ks r) /\ answer red n r (cs r) (full cs) = Got (reps r) /\ acts (Datatypes.S k) r = ks r (reps r)) ->
  (forall r, (r < n)%nat -> acts (length tr) r = Fin (res r)) -> inv acts S ->
  exists S', turn red S r e = Some S' /\ inv acts S' /\ further S S' /\
    forall p, nth_error S r = Some p -> (got p < length tr)%nat -> exists p', nth_error S' r = Some p' /\ (Datatypes.S (got p) <= length (sent p'))%nat /\
      ((forall q pq, nth_error S q = Some pq -> (Datatypes.S (got p) <= length (sent pq))%nat) -> (got p < got p')%nat).
Proof.
  intros RS RE [HL HG]. unfold turn. destruct (nth_error S r) as [p|] eqn:E.
  2:{ exists S. split; [reflexivity|]. split; [split; assumption|]. split; [apply further_refl|]. discriminate. }
  assert (Hr : (r < n)%nat) by (rewrite <- HL; apply nth_error_Some; congruence).
  destruct (HG r p E) as (G1 & G2 & G3 & G4). rewrite HL.
  assert (step : forall p', good acts r p' -> (got p <= got p')%nat -> (length (sent p) <= length (sent p'))%nat -> inv acts (upd S r p') /\ further S (upd S r p')).
  { intros p' Hp' Hg Hl. split.
    - split; [now rewrite length_upd|]. intros q pq Eq. rewrite nth_upd, E in Eq. destruct (Nat.eqb_spec r q) as [<-|Nq]; [injection Eq as <-; exact Hp'|now apply HG].
    - intros q pq Eq. rewrite nth_upd, E. destruct (Nat.eqb_spec r q) as [<-|Nq]; [rewrite E in Eq; injection Eq as <-; exists p'; auto|exists pq; auto]. }
  destruct (Nat.eq_dec (got p) (length tr)) as [Efin|Nfin].
  { rewrite G2, Efin, (RE r Hr). exists S. split; [reflexivity|]. split; [split; assumption|]. split; [apply further_refl|]. intros p0 H0 Hlt. injection H0 as <-. lia. }
  destruct (nth_error tr (got p)) as [cs|] eqn:Ec; [|apply nth_error_None in Ec; lia].
  destruct (RS _ _ Ec) as (ks & reps & HR). destruct (HR r Hr) as (A1 & A2 & A3). rewrite G2, A1.
  destruct (Nat.eqb_spec (length (sent p)) (got p)) as [Es|Ns].
  - destruct (step (PState (sent p ++ [cs r]) (got p) (cur p))) as [I F].
    + split; [exact G1|]. split; [exact G2|]. split; [right; cbn [sent got]; rewrite app_length; cbn [length]; lia|]. intros k c Hk. cbn [sent] in Hk. destruct (Nat.lt_ge_cases k (length (sent p))) as [Hlt|Hge].
      * rewrite nth_error_app1 in Hk by exact Hlt. now apply G4.
      * rewrite nth_error_app2 in Hk by exact Hge. destruct (k - length (sent p))%nat as [|j] eqn:Ej; [|destruct j; discriminate Hk]. injection Hk as <-. exists cs. split; [|reflexivity]. rewrite <- Ec. f_equal. lia.
    + cbn [got]. lia.
    + cbn [sent]. rewrite app_length. lia.
    + rewrite G2, A1 in I, F. eexists. split; [reflexivity|]. split; [exact I|]. split; [exact F|]. intros p0 H0 Hlt. injection H0 as <-. rewrite nth_upd, E, Nat.eqb_refl. eexists. split; [reflexivity|]. cbn [sent got]. split.
      * rewrite app_length. cbn [length]. lia.
      * intros HA. specialize (HA r p E). lia.
  - destruct G3 as [G3|[G3 G3']]; [contradiction|].
    assert (P : part_of (passed S (got p)) (full cs)).
    { intros q c Hq. unfold passed in Hq. destruct (nth_error S q) as [pq|] eqn:Eq; [|discriminate Hq]. destruct (HG q pq Eq) as (_ & _ & _ & H4). destruct (H4 _ _ Hq) as (cs' & H5 & ->). rewrite Ec in H5. injection H5 as <-.
      unfold full. assert ((q <? n)%nat = true) as ->; [|reflexivity]. apply Nat.ltb_lt. rewrite <- HL. apply nth_error_Some. congruence. }
    assert (FULL : (forall q pq, nth_error S q = Some pq -> (Datatypes.S (got p) <= length (sent pq))%nat) -> forall q, (q < n)%nat -> passed S (got p) q = full cs q).
    { intros HA q Hq. unfold passed. destruct (nth_error S q) as [pq|] eqn:Eq; [|apply nth_error_None in Eq; lia]. specialize (HA q pq Eq).
      destruct (nth_error (sent pq) (got p)) as [c|] eqn:E5; [|apply nth_error_None in E5; lia]. symmetry. apply P. unfold passed. now rewrite Eq. }
    assert (STAY : exists S', Some S = Some S' /\ inv acts S' /\ further S S' /\ forall p0, Some p = Some p0 -> (got p0 < length tr)%nat -> exists p', nth_error S' r = Some p' /\ (Datatypes.S (got p0) <= length (sent p'))%nat /\
      (~ (forall q pq, nth_error S q = Some pq -> (Datatypes.S (got p0) <= length (sent pq))%nat) -> (forall q pq, nth_error S q = Some pq -> (Datatypes.S (got p0) <= length (sent pq))%nat) -> (got p0 < got p')%nat)).
    { exists S. split; [reflexivity|]. split; [split; assumption|]. split; [apply further_refl|]. intros p0 H0 Hlt. injection H0 as <-. exists p. split; [exact E|]. split; [lia|]. intros NA HA. contradiction. }
    assert (STAY' : ~ (forall q pq, nth_error S q = Some pq -> (Datatypes.S (got p) <= length (sent pq))%nat) -> exists S', Some S = Some S' /\ inv acts S' /\ further S S' /\ forall p0, Some p = Some p0 -> (got p0 < length tr)%nat -> exists p', nth_error S' r = Some p' /\ (Datatypes.S (got p0) <= length (sent p'))%nat /\
      ((forall q pq, nth_error S q = Some pq -> (Datatypes.S (got p0) <= length (sent pq))%nat) -> (got p0 < got p')%nat)).
    { intros NA. destruct STAY as (S' & B1 & B2 & B3 & B4). exists S'. split; [exact B1|]. split; [exact B2|]. split; [exact B3|]. intros p0 H0 Hlt. destruct (B4 p0 H0 Hlt) as (p' & B5 & B6 & B7). exists p'. split; [exact B5|]. split; [exact B6|]. apply B7. injection H0 as <-. exact NA. }
    clear STAY.
    assert (AE : (forall q pq, nth_error S q = Some pq -> (Datatypes.S (got p) <= length (sent pq))%nat) -> everyone n (passed S (got p)) <> None).
    { intros HA. unfold everyone. destruct (all_some_full (seq 0 n) (passed S (got p))) as [l ->]; [|discriminate]. intros q Hq. apply in_seq in Hq. rewrite FULL by (auto; lia). unfold full. assert ((q <? n)%nat = true) as -> by (apply Nat.ltb_lt; lia). discriminate. }
    destruct (e || match everyone n (passed S (got p)) with Some _ => true | None => false end) eqn:Ee.
    2:{ apply STAY'. intros HA. specialize (AE HA). apply orb_false_iff in Ee. destruct Ee as [_ Ee]. destruct (everyone n (passed S (got p))); [discriminate Ee|contradiction]. }
    destruct (answer_part r (cs r) _ _ P) as [W|W].
    + rewrite W. apply STAY'. intros HA.
      assert (P2 : part_of (full cs) (passed S (got p))). { intros q c Hq. unfold full in Hq. destruct (Nat.ltb_spec q n) as [Hqn|]; [|discriminate Hq]. rewrite FULL by auto. unfold full. apply Nat.ltb_lt in Hqn. now rewrite Hqn. }
      destruct (answer_part r (cs r) _ _ P2) as [W2|W2]; congruence.
    + rewrite W, A2. destruct (step (PState (sent p) (Datatypes.S (got p)) (ks r (reps r)))) as [I F].
      * split; [cbn [got]; lia|]. split; [cbn [got cur]; now rewrite A3|]. split; [left; exact G3|exact G4].
      * cbn [got]. lia.
      * cbn [sent]. lia.
      * eexists. split; [reflexivity|]. split; [exact I|]. split; [exact F|]. intros p0 H0 Hlt. injection H0 as <-. rewrite nth_upd, E, Nat.eqb_refl. eexists. split; [reflexivity|]. cbn [sent got]. split; [lia|]. intros _. lia.
Qed.

Section Rounds.
Variable acts : nat -> nat -> act V.
Hypothesis RS : forall k cs, nth_error tr k = Some cs -> exists ks reps, forall r, (r < n)%nat -> acts k r = Call (cs r) (ks r) /\ answer red n r (cs r) (full cs) = Got (reps r) /\ acts (Datatypes.S k) r = ks r (reps r).
Hypothesis RE : forall r, (r < n)%nat -> acts (length tr) r = Fin (res r).

Lemma good_turns sched : forall S, inv acts S -> exists S', turns red S sched = Some S' /\ inv acts S' /\ further S S'.
Proof.
  induction sched as [|[r e] sched IH]; intros S I; cbn [turns]; [exists S; split; [reflexivity|split; [exact I|apply further_refl]]|].
  destruct (good_turn acts S r e RS RE I) as (S1 & -> & I1 & F1 & _). destruct (IH S1 I1) as (S2 & E2 & I2 & F2). exists S2. split; [exact E2|]. split; [exact I2|]. exact (further_trans _ _ _ F1 F2).
Qed.
Definition sent_all (S : list (pstate V)) k : Prop := forall r p, nth_error S r = Some p -> (k <= length (sent p))%nat.
Definition got_all (S : list (pstate V)) k : Prop := forall r p, nth_error S r = Some p -> (k <= got p)%nat.
Lemma inv_got S k : inv acts S -> sent_all S (Datatypes.S k) -> got_all S k.
Proof. intros [_ G] H r p E. specialize (H r p E). destruct (G r p E) as (_ & _ & G3 & _). lia. Qed.
Lemma further_back S S' : inv acts S -> inv acts S' -> further S S' -> forall r p', nth_error S' r = Some p' -> exists p, nth_error S r = Some p /\ (got p <= got p')%nat /\ (length (sent p) <= length (sent p'))%nat.
Proof.
  intros [L1 _] [L2 _] F r p' E. destruct (nth_error S r) as [p|] eqn:E1.
  - destruct (F r p E1) as (p2 & E2 & Hf). rewrite E in E2. injection E2 as <-. exists p. auto.
  - apply nth_error_None in E1. assert (r < length S')%nat by (apply nth_error_Some; congruence). lia.
Qed.
Lemma got_further S S' k : inv acts S -> inv acts S' -> further S S' -> got_all S k -> got_all S' k.
Proof. intros I I' F H r p' E. destruct (further_back _ _ I I' F r p' E) as (p & E1 & Hg & _). specialize (H r p E1). lia. Qed.
Lemma sent_further S S' k : inv acts S -> inv acts S' -> further S S' -> sent_all S k -> sent_all S' k.
Proof. intros I I' F H r p' E. destruct (further_back _ _ I I' F r p' E) as (p & E1 & _ & Hg). specialize (H r p E1). lia. Qed.

(** a part of the schedule in which all have a turn: the call is made *)
Lemma part_enter k part : (k < length tr)%nat -> forall S S', inv acts S -> got_all S k -> turns red S part = Some S' ->
  forall r e, In (r, e) part -> forall p', nth_error S' r = Some p' -> (Datatypes.S k <= length (sent p'))%nat.
Proof.
  intros Hk. induction part as [|[r0 e0] part IH]; intros S S' I G T r e HIn p' E'; [destruct HIn|]. cbn [turns] in T.
  destruct (good_turn acts S r0 e0 RS RE I) as (S1 & T1 & I1 & F1 & HP). rewrite T1 in T. destruct (good_turns part S1 I1) as (S2 & T2 & I2 & F2). rewrite T in T2. injection T2 as <-.
  destruct HIn as [H0|HIn]; [|apply (IH S1 S' I1 (got_further _ _ _ I I1 F1 G) T r e HIn p' E')]. injection H0 as -> ->.
  destruct (further_back _ _ I1 I2 F2 r p' E') as (p1 & E1 & _ & L1). destruct (further_back _ _ I I1 F1 r p1 E1) as (p & E & _ & L).
  destruct I as [HL HG]. destruct (HG r p E) as (G1 & _ & G3 & _). specialize (G r p E). destruct (Nat.eq_dec (got p) k) as [Eg|Ng]; [|lia].
  destruct (HP p E ltac:(lia)) as (p2 & E2 & L2 & _). rewrite E1 in E2. injection E2 as <-. lia.
Qed.
(** and in the next part it returns *)
Lemma part_leave k part : (k < length tr)%nat -> forall S S', inv acts S -> sent_all S (Datatypes.S k) -> turns red S part = Some S' ->
  forall r e, In (r, e) part -> forall p', nth_error S' r = Some p' -> (Datatypes.S k <= got p')%nat.
Proof.
  intros Hk. induction part as [|[r0 e0] part IH]; intros S S' I G T r e HIn p' E'; [destruct HIn|]. cbn [turns] in T.
  destruct (good_turn acts S r0 e0 RS RE I) as (S1 & T1 & I1 & F1 & HP). rewrite T1 in T. destruct (good_turns part S1 I1) as (S2 & T2 & I2 & F2). rewrite T in T2. injection T2 as <-.
  destruct HIn as [H0|HIn]; [|apply (IH S1 S' I1 (sent_further _ _ _ I I1 F1 G) T r e HIn p' E')]. injection H0 as -> ->.
  destruct (further_back _ _ I1 I2 F2 r p' E') as (p1 & E1 & L1 & _). destruct (further_back _ _ I I1 F1 r p1 E1) as (p & E & L & _).
  pose proof (inv_got S k I G r p E) as Gk. destruct (Nat.eq_dec (got p) k) as [Eg|Ng]; [|lia].
  destruct (HP p E ltac:(lia)) as (p2 & E2 & _ & L2). rewrite E1 in E2. injection E2 as <-. assert (got p < got p1)%nat; [|lia]. apply L2. intros q pq Eq. rewrite Eg. now apply (G q pq).
Qed.
Lemma turns_app a b S : turns red S (a ++ b) = match turns red S a with Some S' => turns red S' b | None => None end.
Proof. revert S. induction a as [|[r e] a IH]; intros S; cbn [turns app]; [reflexivity|]. destruct (turn red S r e); auto. Qed.
Lemma rounds_got k : (k <= length tr)%nat -> forall parts, fair n parts -> (2 * k <= length parts)%nat -> forall S S', inv acts S -> turns red S (concat parts) = Some S' -> got_all S' k.
Proof.
  intros Hk parts HF HN. assert (Hsplit : exists pre post, parts = pre ++ post /\ length pre = (2 * k)%nat).
  { exists (firstn (2 * k) parts), (skipn (2 * k) parts). split; [symmetry; apply firstn_skipn|]. apply firstn_length_le. lia. }
  destruct Hsplit as (pre & post & -> & HLp). clear HN. intros S S' I T. rewrite concat_app, turns_app in T. destruct (turns red S (concat pre)) as [S1|] eqn:T1; [|discriminate T].
  unfold fair in HF. apply Forall_app in HF. destruct HF as [HF _].
  assert (I1 : inv acts S1). { destruct (good_turns (concat pre) S I) as (S2 & E2 & I2 & _). congruence. }
  destruct (good_turns (concat post) S1 I1) as (S2 & E2 & I2 & F2). rewrite T in E2. injection E2 as <-.
  apply (got_further S1 S'); auto. clear T F2 I2 post S'. revert pre HF HLp S S1 I T1 I1. induction k as [|k IH]; intros pre HF HLp S S1 I T1 I1; [intros r p _; lia|].
  assert (Hs : exists pr a b, pre = pr ++ [a; b] /\ length pr = (2 * k)%nat).
  { exists (firstn (2 * k) pre). pose proof (firstn_skipn (2 * k) pre) as Hd. assert (Hl : length (skipn (2 * k) pre) = 2%nat) by (rewrite skipn_length; lia). destruct (skipn (2 * k) pre) as [|a [|b [|c t]]]; try discriminate Hl.
    exists a, b. split; [now symmetry|]. apply firstn_length_le. lia. }
  destruct Hs as (pr & a & b & -> & Hl). rewrite concat_app, turns_app in T1. destruct (turns red S (concat pr)) as [Sa|] eqn:Ta; [|discriminate T1].
  apply Forall_app in HF. destruct HF as [HF1 HF2]. inversion HF2 as [|? ? HFa HF3]; subst. inversion HF3 as [|? ? HFb _]; subst. clear HF2 HF3.
  assert (Ia : inv acts Sa). { destruct (good_turns (concat pr) S I) as (S2 & E2 & I2 & _). congruence. }
  assert (Ga : got_all Sa k) by (apply (IH ltac:(lia) pr HF1 Hl S Sa I Ta Ia)).
  cbn [concat] in T1. rewrite app_nil_r, turns_app in T1. destruct (turns red Sa a) as [Sb|] eqn:Tb; [|discriminate T1].
  assert (Ib : inv acts Sb). { destruct (good_turns a Sa Ia) as (S2 & E2 & I2 & _). congruence. }
  assert (Gb : sent_all Sb (Datatypes.S k)).
  { intros r p E. assert (Hr : (r < n)%nat). { destruct Ib as [<- _]. apply nth_error_Some. congruence. } destruct (HFa r Hr) as [e He]. apply (part_enter k a ltac:(lia) Sa Sb Ia Ga Tb r e He p E). }
  intros r p E. assert (Hr : (r < n)%nat). { destruct I1 as [<- _]. apply nth_error_Some. congruence. } destruct (HFb r Hr) as [e He]. apply (part_leave k b ltac:(lia) Sb S1 Ib Gb T1 r e He p E).
Qed.
End Rounds.

(** the whole: from processes that start with [acts0] *)
Definition begins (S : list (pstate V)) : Prop := length S = n /\ forall r p, nth_error S r = Some p -> p = PState [] 0 (acts0 r).
Lemma async_all S : begins S -> forall sched, exists S', turns red S sched = Some S' /\ length S' = n /\
  (forall r s, ended S' r s -> s = res r) /\
  (forall r q p pq k c c', nth_error S' r = Some p -> nth_error S' q = Some pq -> nth_error (sent p) k = Some c -> nth_error (sent pq) k = Some c' -> belong c c') /\
  (forall parts, sched = concat parts -> fair n parts -> (2 * length tr <= length parts)%nat -> forall r, (r < n)%nat -> ended S' r (res r)).
Proof.
  intros [BL B] sched. destruct rounds as (acts & R0 & RS & RE & RM).
  assert (I : inv acts S).
  { split; [exact BL|]. intros r p E. rewrite (B r p E). split; [cbn; lia|]. split; [cbn; now rewrite R0|]. split; [now left|]. intros k c Hk. destruct k; discriminate Hk. }
  destruct (good_turns acts RS RE sched S I) as (S' & T & [HL HG] & _). exists S'. split; [exact T|]. split; [exact HL|]. split; [|split].
  - intros r s (p & E & C). destruct (HG r p E) as (G1 & G2 & _). assert (Hr : (r < n)%nat) by (rewrite <- HL; apply nth_error_Some; congruence). rewrite G2 in C.
    destruct (Nat.eq_dec (got p) (length tr)) as [Eg|Ng]; [rewrite Eg, (RE r Hr) in C; now injection C as <-|].
    destruct (nth_error tr (got p)) as [cs|] eqn:Ec; [|apply nth_error_None in Ec; lia]. destruct (RS _ _ Ec) as (ks & reps & H). destruct (H r Hr) as (H1 & _). rewrite H1 in C. discriminate C.
  - intros r q p pq k c c' Ep Eq Kc Kc'. destruct (HG r p Ep) as (_ & _ & _ & G4). destruct (HG q pq Eq) as (_ & _ & _ & G4'). destruct (G4 _ _ Kc) as (cs & E1 & ->). destruct (G4' _ _ Kc') as (cs' & E2 & ->). rewrite E1 in E2. injection E2 as <-.
    apply (RM _ _ E1); rewrite <- HL; apply nth_error_Some; congruence.
  - intros parts -> HF HN r Hr. pose proof (rounds_got acts RS RE (length tr) (le_n _) parts HF HN S S' I T) as G. destruct (nth_error S' r) as [p|] eqn:E; [|apply nth_error_None in E; lia].
    exists p. split; [exact E|]. specialize (G r p E). destruct (HG r p E) as (G1 & G2 & _). assert (Eg : got p = length tr) by lia. now rewrite G2, Eg, RE.
Qed.
End Async.
End Gen.
