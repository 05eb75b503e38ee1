(** Lemmas on error objects. *)
From Coq Require Import Ascii String.
From Verif Require Import Base L_Handle M_Error S_Error.
Local Open Scope nat_scope.

(** ** Streams *)
Lemma write_end (t s : text) : stream_write (Stream t (List.length t)) s = Stream (t ++ s) (List.length (t ++ s)).
Proof.
  unfold stream_write. cbn [s_text s_put]. rewrite firstn_all, skipn_all2 by lia. now rewrite app_nil_r, app_length.
Qed.
Lemma write_new (s : text) : stream_write stream_new s = Stream s (List.length s).
Proof. exact (write_end [] s). Qed.
Lemma out_text (t : text) : s_text (stream_write (stream_write stream_new t) (newline :: lit ".. Error occurred on node ")) = shown t.
Proof. rewrite write_new, write_end. reflexivity. Qed.

(** ** Invariant: texts agree, each _what has its own block *)
Record good (w : world) (s : notes) : Prop := {
  g_len : List.length (w_err w) = List.length s;
  g_alive : forall x, get w x = None <-> note_of s x = None;
  g_text : forall x e n, get w x = Some e -> note_of s x = Some n -> s_text (e_acc e) = n_text n /\ (n_open n = true -> s_put (e_acc e) = List.length (n_text n));
  g_own : forall x e b, get w x = Some e -> e_what e = Some b -> block w b <> None;
  g_one : forall x y e f b, get w x = Some e -> get w y = Some f -> e_what e = Some b -> e_what f = Some b -> x = y;
  g_back : forall b, block w b <> None -> exists x e, get w x = Some e /\ e_what e = Some b }.
Definition look {T} (l : list (option T)) (x : nat) : option T := match nth_error l x with Some o => o | None => None end.
Lemma look_app {T} (l : list (option T)) a x : look (l ++ [a]) x = if Nat.eqb x (List.length l) then a else look l x.
Proof.
  unfold look. destruct (Nat.eqb_spec x (List.length l)) as [->|N].
  - rewrite nth_error_app2, Nat.sub_diag by lia. reflexivity.
  - destruct (Nat.lt_ge_cases x (List.length l)) as [L|L]; [now rewrite nth_error_app1|].
    rewrite !(proj2 (nth_error_None _ _)); auto. rewrite app_length. cbn. lia.
Qed.
Lemma look_upd {T} (l : list (option T)) y a x : look l y <> None -> look (upd l y a) x = if Nat.eqb x y then a else look l x.
Proof.
  unfold look. intros Ly. assert (B : y < List.length l).
  { apply nth_error_Some. destruct (nth_error l y); congruence. }
  destruct (Nat.eqb_spec x y) as [->|N]; [now rewrite nth_error_upd_eq|rewrite nth_error_upd_neq; auto].
Qed.
Lemma look_end {T} (l : list (option T)) : look l (List.length l) = None.
Proof. unfold look. now rewrite (proj2 (nth_error_None _ _)). Qed.
Lemma get_look w x : get w x = look (w_err w) x. Proof. reflexivity. Qed.
Lemma block_look w b : block w b = look (w_mem w) b. Proof. reflexivity. Qed.
Lemma note_look s x : note_of s x = look s x. Proof. reflexivity. Qed.

Lemma good_start : good start [].
Proof.
  split.
  - reflexivity.
  - intros [|x]; cbn; tauto.
  - intros [|x] e n; discriminate.
  - intros [|x] e b; discriminate.
  - intros [|x] y e f b; discriminate.
  - intros [|b] H; cbn in H; congruence.
Qed.

(** a new object, whose _what is empty or in a new block *)
Lemma good_push w s e n m : good w s -> s_text (e_acc e) = n_text n -> (n_open n = true -> s_put (e_acc e) = List.length (n_text n)) ->
  (e_what e = None /\ m = w_mem w \/ exists t, e_what e = Some (List.length (w_mem w)) /\ m = w_mem w ++ [Some t]) ->
  good (World m (w_err w ++ [Some e])) (s ++ [Some n]).
Proof.
  intros G Ht Hp Hm. destruct G as [Gl Ga Gt Go G1 Gb].
  assert (Fresh : block w (List.length (w_mem w)) = None) by (rewrite block_look; apply look_end).
  split; intros *; rewrite ?get_look, ?block_look, ?note_look in *; cbn [w_err w_mem] in *.
  - rewrite !app_length. cbn. lia.
  - rewrite !look_app, Gl. destruct (Nat.eqb x (List.length s)); [split; discriminate|]. apply Ga.
  - rewrite !look_app, Gl. destruct (Nat.eqb x (List.length s)); [|apply Gt].
    intros [= <-] [= <-]. auto.
  - rewrite look_app. destruct (Nat.eqb_spec x (List.length (w_err w))) as [->|Nx].
    + intros [= <-] Eb. destruct Hm as [[E _]|(t & E & ->)]; [congruence|].
      rewrite look_app. assert (b = List.length (w_mem w)) as -> by congruence. rewrite Nat.eqb_refl. discriminate.
    + intros Hx Eb. specialize (Go _ _ _ Hx Eb). rewrite block_look in Go. destruct Hm as [[_ ->]|(t & _ & ->)]; auto.
      rewrite look_app. destruct (Nat.eqb b (List.length (w_mem w))); [discriminate|auto].
  - rewrite !look_app.
    destruct (Nat.eqb_spec x (List.length (w_err w))) as [->|Nx], (Nat.eqb_spec y (List.length (w_err w))) as [->|Ny]; auto.
    + intros [= <-] Hy Eb Fb. destruct Hm as [[E _]|(t & E & _)]; [congruence|].
      exfalso. apply (Go _ _ _ Hy Fb). assert (b = List.length (w_mem w)) as -> by congruence. exact Fresh.
    + intros Hx [= <-] Eb Fb. destruct Hm as [[E _]|(t & E & _)]; [congruence|].
      exfalso. apply (Go _ _ _ Hx Eb). assert (b = List.length (w_mem w)) as -> by congruence. exact Fresh.
    + intros Hx Hy Eb Fb. exact (G1 _ _ _ _ _ Hx Hy Eb Fb).
  - intros Hb.
    assert (K : look (w_mem w) b <> None \/ b = List.length (w_mem w) /\ e_what e = Some b).
    { destruct Hm as [[_ ->]|(t & E & ->)]; [auto|]. rewrite look_app in Hb. destruct (Nat.eqb_spec b (List.length (w_mem w))) as [E0|Nb]; [right; split; congruence|auto]. }
    destruct K as [K|(_ & E)].
    + destruct (Gb b K) as (x & f & Hx & Eb). exists x, f. split; auto. rewrite get_look. cbn [w_err]. rewrite look_app.
      rewrite get_look in Hx. destruct (Nat.eqb_spec x (List.length (w_err w))) as [->|Nx]; auto. rewrite look_end in Hx. discriminate.
    + exists (List.length (w_err w)), e. split; auto. rewrite get_look. cbn [w_err]. now rewrite look_app, Nat.eqb_refl.
Qed.

(** the release of what an object owns never fails *)
Lemma release_good w s x e : good w s -> get w x = Some e ->
  exists m, release w (e_what e) = Some (World m (w_err w)) /\ List.length m = List.length (w_mem w) /\
    (forall b, look m b = if match e_what e with Some c => Nat.eqb b c | None => false end then None else look (w_mem w) b).
Proof.
  intros G Hx. unfold release. destruct (e_what e) as [c|] eqn:Ec.
  - pose proof (g_own _ _ G _ _ _ Hx Ec) as Hc. destruct (block w c) as [t|] eqn:Hb; [|congruence].
    eexists. split; [reflexivity|]. split; [apply upd_length|]. intros b. rewrite block_look in Hb. apply look_upd. congruence.
  - exists (w_mem w). destruct w. auto.
Qed.
Lemma good_drop w s x : good w s -> note_of s x <> None -> exists w1, destroy w x = Some w1 /\ good w1 (upd s x None) /\
  (forall e, get w x = Some e -> forall b, block w1 b = if match e_what e with Some c => Nat.eqb b c | None => false end then None else block w b).
Proof.
  intros G Hn. destruct (get w x) as [e|] eqn:Hx; [|exfalso; apply Hn; apply (g_alive _ _ G); exact Hx].
  destruct (release_good _ _ _ _ G Hx) as (m & Hr & Lm & Hm).
  unfold destroy. rewrite Hx, Hr. eexists. split; [reflexivity|]. split; [|intros e' [= <-] b; exact (Hm b)].
  destruct G as [Gl Ga Gt Go G1 Gb].
  assert (Lx : look (w_err w) x <> None) by (rewrite get_look in Hx; congruence).
  assert (Ls : look s x <> None) by (rewrite <- note_look; auto).
  split; intros *; rewrite ?get_look, ?block_look, ?note_look in *; unfold set; cbn [w_err w_mem] in *.
  - now rewrite !upd_length.
  - rewrite !look_upd by auto. destruct (Nat.eqb x0 x); [tauto|]. apply Ga.
  - rewrite !look_upd by auto. destruct (Nat.eqb x0 x); [discriminate|]. apply Gt.
  - rewrite look_upd by auto. destruct (Nat.eqb_spec x0 x) as [->|Nx]; [discriminate|].
    intros H0 Eb. rewrite Hm. destruct (e_what e) as [c|] eqn:Ec; [|exact (Go _ _ _ H0 Eb)].
    destruct (Nat.eqb_spec b c) as [->|Nb]; [|exact (Go _ _ _ H0 Eb)]. exfalso. apply Nx. exact (G1 _ _ _ _ _ H0 Hx Eb Ec).
  - rewrite !look_upd by auto. destruct (Nat.eqb_spec x0 x) as [->|N0], (Nat.eqb_spec y x) as [->|Ny]; try discriminate. apply G1.
  - rewrite Hm. intros Hb. destruct (e_what e) as [c|] eqn:Ec.
    + destruct (Nat.eqb_spec b c) as [E0|Nb]; [congruence|]. destruct (Gb b Hb) as (y & f & Hy & Eb). exists y, f. split; auto.
      rewrite get_look. cbn [w_err]. rewrite look_upd by auto. rewrite get_look in Hy. destruct (Nat.eqb_spec y x) as [->|Ny]; auto. congruence.
    + destruct (Gb b Hb) as (y & f & Hy & Eb). exists y, f. split; auto.
      rewrite get_look. cbn [w_err]. rewrite look_upd by auto. rewrite get_look in Hy. destruct (Nat.eqb_spec y x) as [->|Ny]; auto. congruence.
Qed.
Lemma good_what w s x n : good w s -> note_of s x = Some n -> exists w1, what w x = Some (w1, List.length (w_mem w)) /\ good w1 s /\
  block w1 (List.length (w_mem w)) = Some (shown (n_text n)) /\
  (forall e, get w x = Some e -> forall b, b <> List.length (w_mem w) ->
     block w1 b = if match e_what e with Some c => Nat.eqb b c | None => false end then None else block w b).
Proof.
  intros G Hn. destruct (get w x) as [e|] eqn:Hx; [|exfalso; pose proof (proj1 (g_alive _ _ G x) Hx); congruence].
  destruct (g_text _ _ G _ _ _ Hx Hn) as [Et Ep].
  assert (Fresh : block w (List.length (w_mem w)) = None) by (rewrite block_look; apply look_end).
  assert (Nc : forall c, e_what e = Some c -> c <> List.length (w_mem w)).
  { intros c Ec ->. exact (g_own _ _ G _ _ _ Hx Ec Fresh). }
  set (b0 := List.length (w_mem w)) in *.
  assert (R : exists m, release (World (w_mem w ++ [Some (shown (n_text n))]) (w_err w)) (e_what e) = Some (World m (w_err w)) /\
     (forall b, look m b = if match e_what e with Some c => Nat.eqb b c | None => false end then None else if Nat.eqb b b0 then Some (shown (n_text n)) else look (w_mem w) b)).
  { unfold release. destruct (e_what e) as [c|] eqn:Ec.
    - specialize (Nc c eq_refl). pose proof (g_own _ _ G _ _ _ Hx Ec) as Hc. rewrite !block_look in *. cbn [w_mem].
      assert (Lc : look (w_mem w ++ [Some (shown (n_text n))]) c = look (w_mem w) c).
      { rewrite look_app. destruct (Nat.eqb_spec c (List.length (w_mem w))); [contradiction|reflexivity]. }
      rewrite Lc. destruct (look (w_mem w) c) as [t|] eqn:Lt; [|congruence].
      eexists. split; [reflexivity|]. intros b. cbn [w_err]. rewrite look_upd by congruence. now rewrite look_app.
    - eexists. split; [reflexivity|]. intros b. apply look_app. }
  destruct R as (m & Hr & Hm).
  unfold what. rewrite Hx. cbn [w_mem w_err]. rewrite out_text, Et, Hr. fold b0. clearbody b0.
  eexists. split; [reflexivity|].
  assert (Lx : look (w_err w) x <> None) by (rewrite get_look in Hx; congruence).
  assert (Hb0 : look m b0 = Some (shown (n_text n))).
  { rewrite Hm, Nat.eqb_refl. destruct (e_what e) as [c|]; auto. specialize (Nc c eq_refl). destruct (Nat.eqb_spec b0 c); congruence. }
  split; [|split; [exact Hb0|]].
  2:{ intros e' [= <-] b Nb. rewrite !block_look. unfold set. cbn [w_mem]. rewrite Hm. apply Nat.eqb_neq in Nb. now rewrite Nb. }
  destruct G as [Gl Ga Gt Go G1 Gb].
  split; intros *; rewrite ?get_look, ?block_look, ?note_look in *; unfold set; cbn [w_err w_mem] in *.
  - now rewrite !upd_length.
  - rewrite look_upd by auto. destruct (Nat.eqb_spec x0 x) as [->|N0]; [|apply Ga]. split; [discriminate|congruence].
  - rewrite look_upd by auto. destruct (Nat.eqb_spec x0 x) as [->|N0]; [|apply Gt]. intros [= <-] H0. cbn [e_acc].
    assert (n0 = n) as -> by congruence. auto.
  - rewrite look_upd by auto. destruct (Nat.eqb_spec x0 x) as [->|N0].
    + intros [= <-]. cbn [e_what]. intros Eb. replace b with b0 by congruence. rewrite Hb0. discriminate.
    + intros H0 Eb. pose proof (Go _ _ _ H0 Eb) as Ob. rewrite block_look in Ob. rewrite Hm.
      destruct (e_what e) as [c|] eqn:Ec.
      * destruct (Nat.eqb_spec b c) as [->|Nb]; [exfalso; apply N0; exact (G1 _ _ _ _ _ H0 Hx Eb Ec)|]. destruct (Nat.eqb b b0); [discriminate|auto].
      * destruct (Nat.eqb b b0); [discriminate|auto].
  - rewrite !look_upd by auto. destruct (Nat.eqb_spec x0 x) as [->|N0], (Nat.eqb_spec y x) as [->|Ny]; auto.
    + intros [= <-] Hy. cbn [e_what]. intros Eb Fb. exfalso. apply (Go _ _ _ Hy Fb). replace b with b0 by congruence. exact Fresh.
    + intros Hy [= <-]. cbn [e_what]. intros Fb Eb. exfalso. apply (Go _ _ _ Hy Fb). replace b with b0 by congruence. exact Fresh.
    + apply G1.
  - rewrite Hm. intros Hb. destruct (Nat.eqb_spec b b0) as [E0|Nb].
    + exists x, (Error (e_acc e) (Some b0)). split; [|cbn; congruence]. rewrite get_look. cbn [w_err]. now rewrite look_upd, Nat.eqb_refl by auto.
    + assert (Hb' : look (w_mem w) b <> None /\ e_what e <> Some b).
      { destruct (e_what e) as [c|]; [|split; [auto|discriminate]]. destruct (Nat.eqb_spec b c); [congruence|]. split; congruence. }
      destruct Hb' as (Hb' & Neb). destruct (Gb b Hb') as (y & f & Hy & Eb). exists y, f. split; auto. rewrite get_look in *. cbn [w_err].
      rewrite look_upd by auto. destruct (Nat.eqb_spec y x) as [->|Ny]; auto. congruence.
Qed.
Lemma good_add w s x n t : good w s -> note_of s x = Some n -> n_open n = true ->
  exists w1, append w x t = Some w1 /\ good w1 (upd s x (Some (Note (n_text n ++ t) true))) /\ w_mem w1 = w_mem w /\
    (forall y e, get w y = Some e -> exists f, get w1 y = Some f /\ e_what f = e_what e).
Proof.
  intros G Hn Hopen. destruct (get w x) as [e|] eqn:Hx; [|exfalso; pose proof (proj1 (g_alive _ _ G x) Hx); congruence].
  destruct (g_text _ _ G _ _ _ Hx Hn) as [Et Ep]. specialize (Ep Hopen).
  unfold append. rewrite Hx. eexists. split; [reflexivity|].
  assert (Lx : look (w_err w) x <> None) by (rewrite get_look in Hx; congruence).
  assert (Ls : look s x <> None) by (rewrite note_look in Hn; congruence).
  assert (Es : stream_write (e_acc e) t = Stream (n_text n ++ t) (List.length (n_text n ++ t))).
  { destruct (e_acc e) as [u p]. cbn in Et, Ep. subst. apply write_end. }
  split; [|split; [reflexivity|]].
  - destruct G as [Gl Ga Gt Go G1 Gb].
    split; intros *; rewrite ?get_look, ?block_look, ?note_look in *; unfold set; cbn [w_err w_mem] in *.
    + now rewrite !upd_length.
    + rewrite !look_upd by auto. destruct (Nat.eqb x0 x); [split; discriminate|apply Ga].
    + rewrite !look_upd by auto. destruct (Nat.eqb x0 x); [|apply Gt]. intros [= <-] [= <-]. cbn [e_acc n_text]. rewrite Es. auto.
    + rewrite look_upd by auto. destruct (Nat.eqb_spec x0 x) as [->|N0]; [|apply Go]. intros [= <-] Eb. exact (Go _ _ _ Hx Eb).
    + rewrite !look_upd by auto. destruct (Nat.eqb_spec x0 x) as [->|N0], (Nat.eqb_spec y x) as [->|Ny]; auto.
      * intros [= <-] Hy Eb Fb. exact (G1 _ _ _ _ _ Hx Hy Eb Fb).
      * intros Hy [= <-] Eb Fb. exact (G1 _ _ _ _ _ Hy Hx Eb Fb).
      * apply G1.
    + intros Hb. destruct (Gb b Hb) as (y & f & Hy & Eb). rewrite get_look in Hy. destruct (Nat.eqb_spec y x) as [->|Ny].
      * exists x. eexists. rewrite get_look. cbn [w_err]. rewrite look_upd, Nat.eqb_refl by auto. split; [reflexivity|]. cbn. congruence.
      * exists y, f. rewrite get_look. cbn [w_err]. apply Nat.eqb_neq in Ny. now rewrite look_upd, Ny by auto.
  - intros y f Hy. rewrite get_look in *. unfold set. cbn [w_err]. rewrite look_upd by auto. destruct (Nat.eqb_spec y x) as [->|Ny].
    + eexists. split; [reflexivity|]. cbn. congruence.
    + eauto.
Qed.
Lemma good_copy w s x n : good w s -> note_of s x = Some n ->
  exists w1, copy w x = Some w1 /\ good w1 (s ++ [Some (Note (n_text n) (empty (n_text n)))]) /\
    (forall b, block w b <> None -> block w1 b = block w b) /\ (forall y e, get w y = Some e -> get w1 y = Some e).
Proof.
  intros G Hn. destruct (get w x) as [e|] eqn:Hx; [|exfalso; pose proof (proj1 (g_alive _ _ G x) Hx); congruence].
  destruct (g_text _ _ G _ _ _ Hx Hn) as [Et Ep].
  assert (Ho : empty (n_text n) = true -> 0 = List.length (n_text n)) by (destruct (n_text n); [auto|discriminate]).
  assert (K : forall a y f, get w y = Some f -> look (w_err w ++ [Some a]) y = Some f).
  { intros a y f Hy. rewrite get_look in Hy. rewrite look_app. destruct (Nat.eqb_spec y (List.length (w_err w))) as [->|Ny]; auto.
    rewrite look_end in Hy. discriminate. }
  unfold copy. rewrite Hx. destruct (e_what e) as [c|] eqn:Ec.
  - pose proof (g_own _ _ G _ _ _ Hx Ec) as Hc. destruct (block w c) as [t|] eqn:Hb; [|congruence].
    eexists. split; [reflexivity|]. split; [|split].
    + apply good_push; auto. right. exists t. auto.
    + intros b Nb. rewrite block_look in *. cbn [w_mem]. rewrite look_app. destruct (Nat.eqb_spec b (List.length (w_mem w))) as [->|]; auto.
      rewrite look_end in Nb. congruence.
    + intros y f. apply K.
  - eexists. split; [reflexivity|]. split; [|split].
    + apply good_push; auto.
    + reflexivity.
    + intros y f. apply K.
Qed.
Lemma step_good w s o s1 : good w s -> ideal_step s o = Some s1 -> exists w1, step w o = Some w1 /\ good w1 s1 /\
  (forall x b t e, ends o x = false -> get w x = Some e -> e_what e = Some b -> block w b = Some t ->
     block w1 b = Some t /\ exists f, get w1 x = Some f /\ e_what f = Some b).
Proof.
  intros G H. destruct o as [|x t|x|x|x]; cbn [ideal_step] in H.
  - injection H as <-. eexists. split; [reflexivity|]. split.
    + apply good_push; auto.
    + intros x b t e _ Hx Eb Hb. split; [exact Hb|]. exists e. split; auto. rewrite get_look in *. cbn [construct w_err]. rewrite look_app.
      destruct (Nat.eqb_spec x (List.length (w_err w))) as [->|]; auto. rewrite look_end in Hx. discriminate.
  - destruct (note_of s x) as [n|] eqn:Hn; [|discriminate]. destruct (n_open n) eqn:Hopen; [|discriminate]. injection H as <-.
    destruct (good_add w s x n t G Hn Hopen) as (w1 & H1 & G1 & M1 & K1). exists w1. split; [exact H1|]. split; [exact G1|].
    intros y b u e _ Hy Eb Hb. split; [unfold block; rewrite M1; exact Hb|]. destruct (K1 y e Hy) as (f & Hf & Ef). exists f. split; congruence.
  - destruct (note_of s x) as [n|] eqn:Hn; [|discriminate]. injection H as <-.
    destruct (good_copy w s x n G Hn) as (w1 & H1 & G1 & M1 & K1). exists w1. split; [exact H1|]. split; [exact G1|].
    intros y b u e _ Hy Eb Hb. split; [rewrite M1; congruence|]. exists e. auto.
  - destruct (note_of s x) as [n|] eqn:Hn; [|discriminate]. injection H as <-.
    destruct (good_what w s x n G Hn) as (w1 & H1 & G1 & B1 & M1). exists w1. cbn [step]. rewrite H1. split; [reflexivity|]. split; [exact G1|].
    intros y b u e He Hy Eb Hb. cbn [ends] in He. apply Nat.eqb_neq in He.
    destruct (get w x) as [ex|] eqn:Hx; [|exfalso; pose proof (proj1 (g_alive _ _ G x) Hx); congruence].
    assert (Nb : b <> List.length (w_mem w)) by (intros ->; rewrite block_look, look_end in Hb; discriminate).
    rewrite (M1 ex eq_refl b Nb). split.
    + destruct (e_what ex) as [c|] eqn:Ec; auto. destruct (Nat.eqb_spec b c) as [->|]; auto. exfalso. apply He. exact (g_one _ _ G _ _ _ _ _ Hy Hx Eb Ec).
    + exists e. split; auto. revert H1. unfold what. rewrite Hx. cbn [w_err w_mem].
      destruct (release _ _) as [w2|] eqn:Hr; [|discriminate]. intros [= <-].
      assert (E2 : w_err w2 = w_err w).
      { revert Hr. unfold release. destruct (e_what ex) as [c|]; [|intros [= <-]; reflexivity]. destruct (block _ c); [|discriminate]. intros [= <-]. reflexivity. }
      rewrite get_look in *. unfold set. cbn [w_err]. rewrite E2. rewrite look_upd by congruence. apply Nat.eqb_neq in He. now rewrite He.
  - destruct (note_of s x) as [n|] eqn:Hn; [|discriminate]. injection H as <-.
    destruct (good_drop w s x G) as (w1 & H1 & G1 & M1); [congruence|]. exists w1. split; [exact H1|]. split; [exact G1|].
    intros y b u e He Hy Eb Hb. cbn [ends] in He. apply Nat.eqb_neq in He.
    destruct (get w x) as [ex|] eqn:Hx; [|exfalso; pose proof (proj1 (g_alive _ _ G x) Hx); congruence].
    rewrite (M1 ex eq_refl b). split.
    + destruct (e_what ex) as [c|] eqn:Ec; auto. destruct (Nat.eqb_spec b c) as [->|]; auto. exfalso. apply He. exact (g_one _ _ G _ _ _ _ _ Hy Hx Eb Ec).
    + exists e. split; auto. revert H1. unfold destroy. rewrite Hx.
      destruct (release _ _) as [w2|] eqn:Hr; [|discriminate]. intros [= <-].
      assert (E2 : w_err w2 = w_err w).
      { revert Hr. unfold release. destruct (e_what ex) as [c|]; [|intros [= <-]; reflexivity]. destruct (block _ c); [|discriminate]. intros [= <-]. reflexivity. }
      rewrite get_look in *. unfold set. cbn [w_err]. rewrite E2. rewrite look_upd by congruence. apply Nat.eqb_neq in He. now rewrite He.
Qed.
Lemma run_good p : forall w s s1, good w s -> ideal_run s p = Some s1 -> exists w1, run w p = Some w1 /\ good w1 s1 /\
  (forall x b t e, forallb (fun o => negb (ends o x)) p = true -> get w x = Some e -> e_what e = Some b -> block w b = Some t -> block w1 b = Some t).
Proof.
  induction p as [|o p IH]; intros w s s2 G H; cbn [ideal_run run] in *.
  - injection H as <-. exists w. auto.
  - destruct (ideal_step s o) as [s1|] eqn:Ho; [|discriminate]. destruct (step_good w s o s1 G Ho) as (w1 & H1 & G1 & K1). rewrite H1.
    destruct (IH w1 s1 s2 G1 H) as (w2 & H2 & G2 & K2). exists w2. split; [exact H2|]. split; [exact G2|].
    intros x b t e F Hx Eb Hb. cbn [forallb] in F. apply andb_true_iff in F as [F0 F]. apply negb_true_iff in F0.
    destruct (K1 x b t e F0 Hx Eb Hb) as (Hb1 & f & Hf & Ef). exact (K2 x b t f F Hf Ef Hb1).
Qed.
