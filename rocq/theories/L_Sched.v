(** Threads and schedules: single accesses, a thread on its own, and why other threads do not disturb it. *)
From Verif Require Import Base M_Perm M_IdxMap M_Loops M_Handle M_Array L_Handle M_Threads.

Section Sched.
Context {A : Type}.
Variable (t : traits) (zero : A).
Notation heap := (list (block A)).

(** *** a thread on its own *)
Fixpoint run_act {T} (a : act A T) (h : heap) : option (heap * T) :=
  match a with
  | Done x => Some (h, x)
  | Wrong => None
  | Alloc z n k => run_act (k (length h)) (h ++ [Block true (repeat (if z then Some zero else None) n)])
  | Load b i k => do c <- read_cell h b i; run_act (k c) h
  | Store b i c k => do h1 <- write_cell h b i c; run_act k h1
  | Free b n k => do h1 <- deallocate t b n h; run_act k h1
  end.
Fixpoint steps_left {T} (a : act A T) (h : heap) : nat :=
  match a with
  | Done _ | Wrong => 0
  | Alloc z n k => S (steps_left (k (length h)) (h ++ [Block true (repeat (if z then Some zero else None) n)]))
  | Load b i k => S (match read_cell h b i with Some c => steps_left (k c) h | None => 0 end)
  | Store b i c k => S (match write_cell h b i c with Some h1 => steps_left k h1 | None => 0 end)
  | Free b n k => S (match deallocate t b n h with Some h1 => steps_left k h1 | None => 0 end)
  end.
Lemma act_step_alloc {T} z n (k : nat -> act A T) h :
  act_step t zero (Alloc z n k) h = Some (h ++ [Block true (repeat (if z then Some zero else None) n)], k (length h)).
Proof. now destruct z. Qed.
Lemma run_step {T} (a a' : act A T) h h' : act_step t zero a h = Some (h', a') -> run_act a h = run_act a' h' /\ (finished a = false -> steps_left a h = S (steps_left a' h')).
Proof.
  destruct a as [x| |z n k|b i k|b i c k|b n k]; cbn [run_act steps_left finished].
  - cbn. intros E. injection E as <- <-. split; [reflexivity|discriminate].
  - discriminate.
  - rewrite act_step_alloc. intros E. injection E as <- <-. auto.
  - cbn [act_step]. destruct (read_cell h b i); [|discriminate]. intros E. injection E as <- <-. auto.
  - cbn [act_step]. destruct (write_cell h b i c); [|discriminate]. intros E. injection E as <- <-. auto.
  - cbn [act_step]. destruct (deallocate t b n h); [|discriminate]. intros E. injection E as <- <-. auto.
Qed.
Lemma run_can_step {T} (a : act A T) h r : run_act a h = Some r -> exists h' a', act_step t zero a h = Some (h', a').
Proof.
  destruct a as [x| |z n k|b i k|b i c k|b n k]; cbn [run_act].
  - eexists _, _; reflexivity.
  - discriminate.
  - intros _. rewrite act_step_alloc. eauto.
  - cbn [act_step]. destruct (read_cell h b i); [eauto|discriminate].
  - cbn [act_step]. destruct (write_cell h b i c); [eauto|discriminate].
  - cbn [act_step]. destruct (deallocate t b n h); [eauto|discriminate].
Qed.
Lemma run_bind {T U} (a : act A T) (f : T -> act A U) : forall h, run_act (bind a f) h = match run_act a h with Some (h1, x) => run_act (f x) h1 | None => None end.
Proof.
  induction a as [x| |z n k IH|b i k IH|b i c k IH|b n k IH]; intros h; cbn [bind run_act]; auto.
  - destruct (read_cell h b i); auto.
  - destruct (write_cell h b i c); auto.
  - destruct (deallocate t b n h); auto.
Qed.
Definition eff {T} (a : act A T) (h : heap) : option heap := match run_act a h with Some (h', _) => Some h' | None => None end.
Lemma run_unit (a : act A unit) h : run_act a h = match eff a h with Some h' => Some (h', tt) | None => None end.
Proof. unfold eff. destruct (run_act a h) as [[h' []]|]; reflexivity. Qed.
Lemma eff_seq {T} (a : act A unit) (b : act A T) h : eff (bind a (fun _ => b)) h = match eff a h with Some h' => eff b h' | None => None end.
Proof. unfold eff. rewrite run_bind. destruct (run_act a h) as [[h1 x]|]; auto. Qed.
Lemma eff_loop n f h : eff (loop n f) h = for_upto n (fun i h => eff (f i) h) h.
Proof.
  induction n as [|n IH]; cbn [loop for_upto]; [reflexivity|]. rewrite eff_seq, IH. destruct (for_upto n _ h); reflexivity.
Qed.

(** *** blocks never come back and never change their number of cells while allocated *)
Definition live_in (h : heap) b : Prop := exists cs, nth_error h b = Some (Block true cs).
Lemma write_cell_inv (h : heap) b i c h' : write_cell h b i c = Some h' -> exists cs, nth_error h b = Some (Block true cs) /\ (i < length cs)%nat /\ h' = upd h b (Block true (upd cs i c)).
Proof.
  unfold write_cell, get_block. destruct (nth_error h b) as [[[] cs]|] eqn:E; cbn [b_live b_cells]; try discriminate.
  destruct (Nat.ltb_spec i (length cs)); [|discriminate]. intros E2. injection E2 as <-. eauto.
Qed.
Lemma read_cell_inv (h : heap) b i c : read_cell h b i = Some c -> exists cs, nth_error h b = Some (Block true cs) /\ nth_error cs i = Some c.
Proof. unfold read_cell, get_block. destruct (nth_error h b) as [[[] cs]|] eqn:E; cbn [b_live b_cells]; try discriminate. eauto. Qed.
Lemma deallocate_inv b n (h h' : heap) : deallocate t b n h = Some h' -> (exists cs, nth_error h b = Some (Block true cs)) /\ h' = upd h b (Block false []).
Proof.
  unfold deallocate, get_block. destruct (nth_error h b) as [[[] cs]|] eqn:E; cbn [b_live b_cells]; try discriminate.
  destruct (_ && _); [|discriminate]. intros E2. injection E2 as <-. eauto.
Qed.
Lemma step_grows {T} (a a' : act A T) h h' : act_step t zero a h = Some (h', a') ->
  (length h <= length h')%nat /\ forall b, (b < length h)%nat -> live_in h' b -> live_in h b.
Proof.
  destruct a as [x| |z n k|b i k|b i c k|b n k].
  - cbn. intros E. injection E as <- <-. auto.
  - discriminate.
  - rewrite act_step_alloc. intros E. injection E as <- <-. rewrite app_length. split; [lia|]. intros b Hb [cs Hc]. rewrite nth_error_app1 in Hc by auto. now exists cs.
  - cbn [act_step]. destruct (read_cell h b i); [|discriminate]. intros E. injection E as <- <-. auto.
  - cbn [act_step]. destruct (write_cell h b i c) as [h1|] eqn:W; [|discriminate]. intros E. injection E as <- <-.
    destruct (write_cell_inv _ _ _ _ _ W) as (cs & Hc & _ & ->). rewrite upd_length. split; auto. intros b0 Hb [cs0 H0].
    destruct (Nat.eq_dec b0 b) as [->|Hn]; [now exists cs|]. rewrite nth_error_upd_neq in H0 by congruence. now exists cs0.
  - cbn [act_step]. destruct (deallocate t b n h) as [h1|] eqn:W; [|discriminate]. intros E. injection E as <- <-.
    destruct (deallocate_inv _ _ _ _ W) as ([cs Hc] & ->). rewrite upd_length. split; auto. intros b0 Hb [cs0 H0].
    destruct (Nat.eq_dec b0 b) as [->|Hn]; [now exists cs|]. rewrite nth_error_upd_neq in H0 by congruence. now exists cs0.
Qed.
Lemma run_grows {T} (a : act A T) : forall h h' x, run_act a h = Some (h', x) ->
  (length h <= length h')%nat /\ forall b, (b < length h)%nat -> live_in h' b -> live_in h b.
Proof.
  induction a as [x0| |z n k IH|b i k IH|b i c k IH|b n k IH]; intros h h' x E.
  - cbn in E. injection E as <- <-. auto.
  - discriminate.
  - cbn [run_act] in E. pose proof (step_grows _ _ _ _ (act_step_alloc z n k h)) as [L1 D1]. destruct (IH _ _ _ _ E) as [L2 D2]. split; [lia|]. intros b Hb Hl. apply D1; auto. apply D2; auto. lia.
  - cbn [run_act] in E. destruct (read_cell h b i) eqn:R; [|discriminate]. eauto.
  - cbn [run_act] in E. destruct (write_cell h b i c) as [h1|] eqn:R; [|discriminate].
    assert (S : act_step t zero (Store b i c k) h = Some (h1, k)) by (cbn [act_step]; now rewrite R).
    destruct (step_grows _ _ _ _ S) as [L1 D1]. destruct (IH _ _ _ E) as [L2 D2]. split; [lia|]. intros b0 Hb Hl. apply D1; auto. apply D2; auto. lia.
  - cbn [run_act] in E. destruct (deallocate t b n h) as [h1|] eqn:R; [|discriminate].
    assert (S : act_step t zero (Free b n k) h = Some (h1, k)) by (cbn [act_step]; now rewrite R).
    destruct (step_grows _ _ _ _ S) as [L1 D1]. destruct (IH _ _ _ E) as [L2 D2]. split; [lia|]. intros b0 Hb Hl. apply D1; auto. apply D2; auto. lia.
Qed.

(** *** confinement: of the first [m] blocks only permitted cells are touched *)
Section Conf.
Variable (m : nat) (okR okW : nat -> nat -> Prop).
Fixpoint conf {T} (a : act A T) (h : heap) : Prop :=
  match a with
  | Done _ | Wrong => True
  | Alloc z n k => conf (k (length h)) (h ++ [Block true (repeat (if z then Some zero else None) n)])
  | Load b i k => ((m <= b)%nat \/ okR b i) /\ forall c, read_cell h b i = Some c -> conf (k c) h
  | Store b i c k => ((m <= b)%nat \/ okW b i) /\ forall h', write_cell h b i c = Some h' -> conf k h'
  | Free b n k => (m <= b)%nat /\ forall h', deallocate t b n h = Some h' -> conf k h'
  end.
Lemma conf_step {T} (a a' : act A T) h h' : conf a h -> act_step t zero a h = Some (h', a') -> conf a' h'.
Proof.
  destruct a as [x| |z n k|b i k|b i c k|b n k]; cbn [conf].
  - cbn. intros _ E. injection E as <- <-. exact I.
  - discriminate.
  - rewrite act_step_alloc. intros C E. injection E as <- <-. auto.
  - cbn [act_step]. destruct (read_cell h b i); [|discriminate]. intros [_ C] E. injection E as <- <-. auto.
  - cbn [act_step]. destruct (write_cell h b i c); [|discriminate]. intros [_ C] E. injection E as <- <-. auto.
  - cbn [act_step]. destruct (deallocate t b n h); [|discriminate]. intros [_ C] E. injection E as <- <-. auto.
Qed.
Lemma conf_bind {T U} (a : act A T) (f : T -> act A U) : forall h, conf a h -> (forall h' x, run_act a h = Some (h', x) -> conf (f x) h') -> conf (bind a f) h.
Proof.
  induction a as [x| |z n k IH|b i k IH|b i c k IH|b n k IH]; intros h C F; cbn [bind conf run_act] in *; auto.
  - destruct C as [C1 C2]. split; auto. intros c Hc. apply IH; auto. intros h' x E. apply F. now rewrite Hc.
  - destruct C as [C1 C2]. split; auto. intros h1 Hc. apply IH; auto. intros h' x E. apply F. now rewrite Hc.
  - destruct C as [C1 C2]. split; auto. intros h1 Hc. apply IH; auto. intros h' x E. apply F. now rewrite Hc.
Qed.
(** a loop whose body is confined in every memory *)
Lemma conf_loop n f h : (forall i h', (i < n)%nat -> conf (f i) h') -> conf (loop n f) h.
Proof.
  intros F. induction n as [|n IH]; cbn [loop]; [exact I|]. apply conf_bind; [apply IH; intros; apply F; lia|]. intros h' x _. apply F. lia.
Qed.
End Conf.

(** *** schedules *)
Section Interleave.
Variable (g0 : heap) (ownc : nat -> nat -> option nat).
Let m := length g0.
Definition okR i b k : Prop := ownc b k = None \/ ownc b k = Some i.
Definition okW i b k : Prop := ownc b k = Some i.
Definition sameblk (h g : heap) : Prop := forall b, (b < m)%nat -> exists l cs cs', nth_error h b = Some (Block l cs) /\ nth_error g b = Some (Block l cs') /\ length cs = length cs'.
Definition cell_at (h : heap) b k : option (option A) := match nth_error h b with Some blk => nth_error (b_cells blk) k | None => None end.

Lemma sameblk_trans a b c : sameblk a b -> sameblk b c -> sameblk a c.
Proof.
  intros H1 H2 x Hx. destruct (H1 x Hx) as (l & c1 & c2 & E1 & E2 & EL), (H2 x Hx) as (l' & c3 & c4 & E3 & E4 & EL'). rewrite E2 in E3. injection E3 as <- <-.
  exists l, c1, c4. split; auto. split; auto. congruence.
Qed.
Lemma sameblk_sym a b : sameblk a b -> sameblk b a.
Proof. intros H x Hx. destruct (H x Hx) as (l & c1 & c2 & E1 & E2 & EL). exists l, c2, c1. auto. Qed.

Record View i (h g : heap) : Prop := {
  v_len : length h = length g;
  v_own : forall b, (m <= b)%nat -> nth_error h b = nth_error g b;
  v_blk : sameblk h g;
  v_cell : forall b k, (b < m)%nat -> okR i b k -> cell_at h b k = cell_at g b k
}.
Definition untouched i (h h' : heap) : Prop := sameblk h' h /\ forall b k, (b < m)%nat -> ownc b k <> Some i -> cell_at h' b k = cell_at h b k.
Lemma untouched_refl i h : (m <= length h)%nat -> untouched i h h.
Proof.
  intros L. split; auto. intros b Hb. destruct (nth_error h b) as [[l cs]|] eqn:E; [exists l, cs, cs; auto|]. apply nth_error_None in E. lia.
Qed.
Lemma untouched_own i h b x : (m <= b)%nat -> (m <= length h)%nat -> untouched i h (upd h b x).
Proof.
  intros Hb L. destruct (untouched_refl i h L) as [S _]. split.
  - intros b' Hb'. rewrite nth_error_upd_neq by lia. now apply S.
  - intros b' k Hb' _. unfold cell_at. now rewrite nth_error_upd_neq by lia.
Qed.
Lemma untouched_app i h x : (m <= length h)%nat -> untouched i h (h ++ x).
Proof.
  intros L. destruct (untouched_refl i h L) as [S _]. split.
  - intros b' Hb'. rewrite nth_error_app1 by lia. now apply S.
  - intros b' k Hb' _. unfold cell_at. now rewrite nth_error_app1 by lia.
Qed.
Lemma untouched_cell i h b k c cs : (m <= length h)%nat -> ownc b k = Some i -> nth_error h b = Some (Block true cs) -> untouched i h (upd h b (Block true (upd cs k c))).
Proof.
  intros L O E. destruct (untouched_refl i h L) as [S _]. pose proof (nth_error_lt _ _ _ E) as Lb. split.
  - intros b' Hb'. destruct (Nat.eq_dec b' b) as [->|Hn].
    + rewrite nth_error_upd_eq by auto. exists true, (upd cs k c), cs. rewrite upd_length. auto.
    + rewrite nth_error_upd_neq by congruence. now apply S.
  - intros b' k' Hb' O'. unfold cell_at. destruct (Nat.eq_dec b' b) as [->|Hn].
    + rewrite nth_error_upd_eq, E by auto. cbn [b_cells]. apply nth_error_upd_neq. congruence.
    + now rewrite nth_error_upd_neq by congruence.
Qed.

Lemma step_view {T} i (a a' : act A T) h g g' : View i h g -> (m <= length g)%nat -> conf m (okR i) (okW i) a g -> act_step t zero a g = Some (g', a') ->
  exists h', act_step t zero a h = Some (h', a') /\ View i h' g' /\ untouched i h h' /\ untouched i g g'.
Proof.
  intros V L C E. pose proof (v_len _ _ _ V) as VL.
  destruct a as [x| |z n k|b j k|b j c k|b n k].
  - cbn in *. injection E as <- <-. exists h. split; auto. split; auto. split; apply untouched_refl; auto; lia.
  - discriminate.
  - rewrite act_step_alloc in *. injection E as <- <-. eexists. rewrite VL. split; [reflexivity|]. split; [|split; apply untouched_app; lia]. constructor.
    + rewrite !app_length. lia.
    + intros b Hb. destruct (Nat.lt_ge_cases b (length g)) as [Hl|Hg].
      * rewrite !nth_error_app1 by lia. now apply (v_own _ _ _ V).
      * rewrite !nth_error_app2 by lia. now rewrite VL.
    + intros b Hb. rewrite !nth_error_app1 by lia. now apply (v_blk _ _ _ V).
    + intros b k0 Hb O. unfold cell_at. rewrite !nth_error_app1 by lia. now apply (v_cell _ _ _ V).
  - cbn [act_step conf] in *. destruct C as [C _]. destruct (read_cell g b j) as [c|] eqn:R; [|discriminate]. injection E as <- <-.
    assert (R' : read_cell h b j = Some c).
    { destruct (read_cell_inv _ _ _ _ R) as (cs & E1 & E2). unfold read_cell, get_block. destruct (Nat.lt_ge_cases b m) as [Hb|Hb].
      - destruct (v_blk _ _ _ V b Hb) as (l & c1 & c2 & F1 & F2 & _). rewrite E1 in F2. injection F2 as <- <-. rewrite F1. cbn [b_live b_cells].
        destruct C as [C|C]; [lia|]. pose proof (v_cell _ _ _ V b j Hb C) as Hc. unfold cell_at in Hc. rewrite F1, E1 in Hc. cbn [b_cells] in Hc. congruence.
      - rewrite (v_own _ _ _ V b Hb), E1. exact E2. }
    exists h. rewrite R'. split; auto. split; auto. split; apply untouched_refl; lia.
  - cbn [act_step conf] in *. destruct C as [C _]. destruct (write_cell g b j c) as [g1|] eqn:R; [|discriminate]. injection E as <- <-.
    destruct (write_cell_inv _ _ _ _ _ R) as (cs & E1 & E2 & ->). unfold write_cell, get_block. destruct (Nat.lt_ge_cases b m) as [Hb|Hb].
    + destruct (v_blk _ _ _ V b Hb) as (l & c1 & c2 & F1 & F2 & FL). rewrite E1 in F2. injection F2 as <- <-. rewrite F1. cbn [b_live b_cells].
      destruct (Nat.ltb_spec j (length c1)) as [_|Hj]; [|lia]. destruct C as [C|C]; [lia|].
      pose proof (nth_error_lt _ _ _ F1) as Lh. pose proof (nth_error_lt _ _ _ E1) as Lg.
      eexists. split; [reflexivity|]. split; [|split; eapply untouched_cell; eauto; lia]. constructor.
      * now rewrite !upd_length.
      * intros b' Hb'. rewrite !nth_error_upd_neq by lia. now apply (v_own _ _ _ V).
      * intros b' Hb'. destruct (Nat.eq_dec b' b) as [->|Hn].
        -- rewrite !nth_error_upd_eq by auto. exists true, (upd c1 j c), (upd cs j c). rewrite !upd_length. auto.
        -- rewrite !nth_error_upd_neq by congruence. now apply (v_blk _ _ _ V).
      * intros b' k' Hb' O. unfold cell_at. destruct (Nat.eq_dec b' b) as [->|Hn].
        -- rewrite !nth_error_upd_eq by auto. cbn [b_cells]. destruct (Nat.eq_dec k' j) as [->|Hk].
           ++ rewrite !nth_error_upd_eq by lia. reflexivity.
           ++ rewrite !nth_error_upd_neq by congruence. pose proof (v_cell _ _ _ V b k' Hb O) as Hc. unfold cell_at in Hc. now rewrite F1, E1 in Hc.
        -- rewrite !nth_error_upd_neq by congruence. now apply (v_cell _ _ _ V).
    + rewrite (v_own _ _ _ V b Hb), E1. cbn [b_live b_cells]. destruct (Nat.ltb_spec j (length cs)) as [_|Hj]; [|lia].
      eexists. split; [reflexivity|]. split; [|split; apply untouched_own; auto; lia]. constructor.
      * now rewrite !upd_length.
      * intros b' Hb'. destruct (Nat.eq_dec b' b) as [->|Hn]; [|rewrite !nth_error_upd_neq by congruence; now apply (v_own _ _ _ V)].
        pose proof (nth_error_lt _ _ _ E1). rewrite !nth_error_upd_eq by lia. reflexivity.
      * intros b' Hb'. rewrite !nth_error_upd_neq by lia. now apply (v_blk _ _ _ V).
      * intros b' k' Hb' O. unfold cell_at. rewrite !nth_error_upd_neq by lia. now apply (v_cell _ _ _ V).
  - cbn [act_step conf] in *. destruct C as [C _]. destruct (deallocate t b n g) as [g1|] eqn:R; [|discriminate]. injection E as <- <-.
    assert (R' : deallocate t b n h = Some (upd h b (Block false []))).
    { revert R. unfold deallocate, get_block. rewrite (v_own _ _ _ V b C). destruct (nth_error g b) as [[[] cs]|]; cbn [b_live b_cells]; try discriminate. destruct (_ && _); [|discriminate]. auto. }
    destruct (deallocate_inv _ _ _ _ R) as ([cs E1] & ->). rewrite R'. eexists. split; [reflexivity|]. split; [|split; apply untouched_own; auto; lia]. constructor.
    + now rewrite !upd_length.
    + intros b' Hb'. destruct (Nat.eq_dec b' b) as [->|Hn]; [|rewrite !nth_error_upd_neq by congruence; now apply (v_own _ _ _ V)].
      pose proof (nth_error_lt _ _ _ E1). rewrite !nth_error_upd_eq by lia. reflexivity.
    + intros b' Hb'. rewrite !nth_error_upd_neq by lia. now apply (v_blk _ _ _ V).
    + intros b' k' Hb' O. unfold cell_at. rewrite !nth_error_upd_neq by lia. now apply (v_cell _ _ _ V).
Qed.

(** the invariant: thread [i] is at the point its solo run reaches with memory [gs i], and ends as that run does *)
Record solo i (own : heap) (a : act A priv) (g : heap) (f : heap * priv) : Prop := {
  so_run : run_act a g = Some f;
  so_conf : conf m (okR i) (okW i) a g;
  so_own : skipn m g = own;
  so_len : (m <= length g)%nat;
  so_unt : untouched i g0 g
}.
Record Inv (s : tsys) (fin : list (heap * priv)) (gs : list heap) : Prop := {
  in_len : length (ts_shared s) = m;
  in_blk : sameblk (ts_shared s) g0;
  in_thr : length (ts_thr s) = length fin;
  in_gs : length gs = length fin;
  in_solo : forall i own a g f, nth_error (ts_thr s) i = Some (own, a) -> nth_error gs i = Some g -> nth_error fin i = Some f -> solo i own a g f;
  in_cell : forall b k, (b < m)%nat -> cell_at (ts_shared s) b k =
              match ownc b k with Some i => match nth_error gs i with Some g => cell_at g b k | None => cell_at g0 b k end | None => cell_at g0 b k end
}.
Lemma nth_error_firstn {T} (l : list T) n i : (i < n)%nat -> nth_error (firstn n l) i = nth_error l i.
Proof. revert l i. induction n as [|n IH]; intros [|x l] [|i] H; cbn; auto; try lia. apply IH. lia. Qed.
Lemma nth_error_skipn {T} (l : list T) n i : nth_error (skipn n l) i = nth_error l (n + i)%nat.
Proof. revert l. induction n as [|n IH]; intros [|x l]; cbn; auto. now destruct i. Qed.
Lemma nth_error_ext {T} (l l' : list T) : (forall i, nth_error l i = nth_error l' i) -> l = l'.
Proof.
  revert l'. induction l as [|x l IH]; intros [|y l'] H; auto.
  - specialize (H 0%nat). discriminate.
  - specialize (H 0%nat). discriminate.
  - pose proof (H 0%nat) as H0. cbn in H0. injection H0 as ->. f_equal. apply IH. intros i. exact (H (S i)).
Qed.
Lemma untouched_trans i a b c : untouched i a b -> untouched i b c -> untouched i a c.
Proof. intros [S1 C1] [S2 C2]. split; [eapply sameblk_trans; eauto|]. intros x k Hx O. rewrite C2, C1; auto. Qed.

Lemma inv_view s fin gs i own a g f : Inv s fin gs -> nth_error (ts_thr s) i = Some (own, a) -> nth_error gs i = Some g -> nth_error fin i = Some f ->
  View i (ts_shared s ++ own) g.
Proof.
  intros I Ht Hg Hf. destruct (in_solo _ _ _ I _ _ _ _ _ Ht Hg Hf) as [Hr Hc Ho Hl Hu]. pose proof (in_len _ _ _ I) as L. constructor.
  - rewrite app_length, L, <- Ho, skipn_length. lia.
  - intros b Hb. rewrite nth_error_app2 by lia. rewrite L, <- Ho, nth_error_skipn. f_equal. lia.
  - intros b Hb. rewrite nth_error_app1 by lia. revert b Hb. apply (sameblk_trans (ts_shared s) g0 g); [apply (in_blk _ _ _ I)|]. apply sameblk_sym, Hu.
  - intros b k Hb O. unfold cell_at. rewrite nth_error_app1 by lia. fold (cell_at (ts_shared s) b k) (cell_at g b k). rewrite (in_cell _ _ _ I) by auto. destruct O as [O|O]; rewrite O.
    + symmetry. apply Hu; auto. congruence.
    + now rewrite Hg.
Qed.

(** what thread [j] still has to do, in its solo run *)
Definition left_of (s : tsys) (gs : list heap) j : nat :=
  match nth_error (ts_thr s) j, nth_error gs j with Some (_, a), Some g => steps_left a g | _, _ => 0 end.
Lemma inv_step s fin gs i : Inv s fin gs -> exists s' gs', sched_step t zero s i = Some s' /\ Inv s' fin gs' /\
  forall j, left_of s' gs' j = (left_of s gs j - (if Nat.eqb j i then 1 else 0))%nat.
Proof.
  intros I. unfold sched_step. destruct (nth_error (ts_thr s) i) as [[own a]|] eqn:Ht.
  2: { exists s, gs. split; auto. split; auto. intros j. unfold left_of. destruct (Nat.eqb_spec j i) as [->|_]; [now rewrite Ht|lia]. }
  destruct (finished a) eqn:Fa.
  { exists s, gs. split; auto. split; auto. intros j. destruct (Nat.eqb_spec j i) as [->|_]; [|lia]. unfold left_of. rewrite Ht. destruct a; try discriminate. destruct (nth_error gs i); reflexivity. }
  pose proof (nth_error_lt _ _ _ Ht) as Li. rewrite (in_thr _ _ _ I) in Li.
  destruct (nth_error fin i) as [f|] eqn:Hf; [|apply nth_error_None in Hf; lia].
  destruct (nth_error gs i) as [g|] eqn:Hg; [|apply nth_error_None in Hg; rewrite (in_gs _ _ _ I) in Hg; lia].
  pose proof (inv_view _ _ _ _ _ _ _ _ I Ht Hg Hf) as V. destruct (in_solo _ _ _ I _ _ _ _ _ Ht Hg Hf) as [Hr Hc Ho Hl Hu].
  destruct (run_can_step _ _ _ Hr) as (g' & a' & E). destruct (step_view i a a' _ g g' V Hl Hc E) as (h' & E' & V' & Uh & Ug).
  rewrite E'. pose proof (in_len _ _ _ I) as L. rewrite L. eexists _, (upd gs i g'). split; [reflexivity|]. split.
  2: { intros j. unfold left_of. cbn [ts_thr]. destruct (Nat.eqb_spec j i) as [->|Hn].
       - rewrite !nth_error_upd_eq by (eapply nth_error_lt; eauto). rewrite Ht, Hg. destruct (run_step _ _ _ _ E) as [_ RS]. rewrite (RS Fa). lia.
       - rewrite !nth_error_upd_neq by congruence. lia. }
  pose proof (step_grows _ _ _ _ E) as [Lg _]. pose proof (v_len _ _ _ V') as VL. constructor; cbn [ts_shared ts_thr].
  - rewrite firstn_length. lia.
  - intros b Hb. rewrite nth_error_firstn by auto. revert b Hb. change (sameblk h' g0). apply (sameblk_trans h' g' g0); [apply V'|]. apply (sameblk_trans g' g g0); [apply Ug|apply Hu].
  - rewrite upd_length. apply (in_thr _ _ _ I).
  - rewrite upd_length. apply (in_gs _ _ _ I).
  - intros j own1 a1 g1 f1 H1 H2 H3. destruct (Nat.eq_dec j i) as [->|Hn].
    + rewrite nth_error_upd_eq in H1 by now apply nth_error_lt in Ht. rewrite nth_error_upd_eq in H2 by now apply nth_error_lt in Hg. injection H1 as <- <-. injection H2 as <-.
      assert (f1 = f) as -> by congruence. constructor.
      * destruct (run_step _ _ _ _ E) as [<- _]. auto.
      * eapply conf_step; eauto.
      * apply nth_error_ext. intros k. rewrite !nth_error_skipn. symmetry. apply (v_own _ _ _ V'). lia.
      * lia.
      * eapply untouched_trans; eauto.
    + rewrite nth_error_upd_neq in H1 by congruence. rewrite nth_error_upd_neq in H2 by congruence. apply (in_solo _ _ _ I _ _ _ _ _ H1 H2 H3).
  - intros b k Hb. unfold cell_at at 1. rewrite nth_error_firstn by auto. fold (cell_at h' b k).
    destruct (ownc b k) as [j|] eqn:Eo.
    + destruct (Nat.eq_dec j i) as [->|Hn].
      * rewrite nth_error_upd_eq by now apply nth_error_lt in Hg. apply (v_cell _ _ _ V'); auto. now right.
      * rewrite nth_error_upd_neq by congruence. destruct Uh as [_ Uh]. rewrite Uh by (auto; congruence). pose proof (in_cell _ _ _ I b k Hb) as IC. rewrite Eo in IC. rewrite <- IC.
        unfold cell_at. now rewrite nth_error_app1 by lia.
    + destruct Uh as [_ Uh]. rewrite Uh by (auto; congruence). pose proof (in_cell _ _ _ I b k Hb) as IC. rewrite Eo in IC. rewrite <- IC.
      unfold cell_at. now rewrite nth_error_app1 by lia.
Qed.
Lemma inv_run l : forall s fin gs, Inv s fin gs -> exists s' gs', run_sched t zero s l = Some s' /\ Inv s' fin gs' /\
  forall j, left_of s' gs' j = (left_of s gs j - count_occ Nat.eq_dec l j)%nat.
Proof.
  induction l as [|i l IH]; intros s fin gs I; cbn [run_sched].
  { exists s, gs. split; auto. split; auto. intros j. cbn. lia. }
  destruct (inv_step s fin gs i I) as (s1 & gs1 & E & I1 & J1). rewrite E. destruct (IH s1 fin gs1 I1) as (s2 & gs2 & E2 & I2 & J2).
  exists s2, gs2. split; auto. split; auto. intros j. rewrite J2, J1. cbn [count_occ]. destruct (Nat.eq_dec i j) as [->|Hn].
  - rewrite Nat.eqb_refl. lia.
  - destruct (Nat.eqb_spec j i); [congruence|]. lia.
Qed.
Lemma left_finished s fin gs i own a : Inv s fin gs -> nth_error (ts_thr s) i = Some (own, a) -> left_of s gs i = 0%nat -> finished a = true.
Proof.
  intros I Ht L. pose proof (nth_error_lt _ _ _ Ht) as Li. rewrite (in_thr _ _ _ I) in Li.
  destruct (nth_error fin i) as [f|] eqn:Hf; [|apply nth_error_None in Hf; lia].
  destruct (nth_error gs i) as [g|] eqn:Hg; [|apply nth_error_None in Hg; rewrite (in_gs _ _ _ I) in Hg; lia].
  pose proof (so_run _ _ _ _ _ (in_solo _ _ _ I _ _ _ _ _ Ht Hg Hf)) as Hr. unfold left_of in L. rewrite Ht, Hg in L. destruct a; try discriminate; auto.
Qed.
Lemma inv_access s fin gs i own a : Inv s fin gs -> nth_error (ts_thr s) i = Some (own, a) ->
  match a with
  | Load b k _ => (m <= b)%nat \/ okR i b k
  | Store b k _ _ => (m <= b)%nat \/ okW i b k
  | Free b _ _ => (m <= b)%nat
  | _ => True
  end.
Proof.
  intros I Ht. pose proof (nth_error_lt _ _ _ Ht) as Li. rewrite (in_thr _ _ _ I) in Li.
  destruct (nth_error fin i) as [f|] eqn:Hf; [|apply nth_error_None in Hf; lia].
  destruct (nth_error gs i) as [g|] eqn:Hg; [|apply nth_error_None in Hg; rewrite (in_gs _ _ _ I) in Hg; lia].
  pose proof (so_conf _ _ _ _ _ (in_solo _ _ _ I _ _ _ _ _ Ht Hg Hf)) as C. destruct a; auto; cbn [conf] in C; apply C.
Qed.
End Interleave.
End Sched.
