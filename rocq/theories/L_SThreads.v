(** Lemmas on threads that share arrays. *)
From Verif Require Import Base M_Handle M_SThreads S_SThreads L_Handle.

Local Open Scope nat_scope.

(** *** Sums *)
Lemma total_upd {T} (f : T -> nat) l i x y : nth_error l i = Some y -> total f (upd l i x) + f y = total f l + f x.
Proof.
  revert i; induction l as [|z l IH]; intros [|i] H; cbn in *; try discriminate.
  - injection H as ->; lia.
  - specialize (IH i H); lia.
Qed.
Lemma total_ge {T} (f : T -> nat) l i y : nth_error l i = Some y -> f y <= total f l.
Proof.
  revert i; induction l as [|z l IH]; intros [|i] H; cbn in *; try discriminate.
  - injection H as ->; lia.
  - specialize (IH i H); lia.
Qed.
Lemma total_pos {T} (f : T -> nat) l : 0 < total f l -> exists i y, nth_error l i = Some y /\ 0 < f y.
Proof.
  induction l as [|z l IH]; cbn; intros H; [lia|].
  destruct (Nat.eq_dec (f z) 0) as [E|E].
  - destruct IH as (i & y & A & B); [lia|]; exists (S i), y; auto.
  - exists 0, z; cbn; split; [auto|lia].
Qed.
Lemma total_zero {T} (f : T -> nat) l : (forall x, In x l -> f x = 0) -> total f l = 0.
Proof. induction l as [|z l IH]; cbn; intros H; [reflexivity|]. rewrite IH, (H z); auto. Qed.
Lemma total_ext {T} (f g : T -> nat) l : (forall x, In x l -> f x = g x) -> total f l = total g l.
Proof. induction l as [|z l IH]; cbn; intros H; [reflexivity|]. rewrite IH, (H z); auto. Qed.
Lemma In_upd {T} (l : list T) i x y : In y (upd l i x) -> y = x \/ In y l.
Proof.
  revert i; induction l as [|z l IH]; intros [|i]; cbn; auto.
  - intros [->|H]; auto.
  - intros [->|H]; auto. destruct (IH i H); auto.
Qed.
Lemma nth_lt {T} (l : list T) i y : nth_error l i = Some y -> i < length l.
Proof. intros H; apply nth_error_Some; congruence. Qed.
Lemma upd_at {T} (l : list T) i x y : nth_error l i = Some y -> nth_error (upd l i x) i = Some x.
Proof. intros H; apply nth_error_upd_eq; eapply nth_lt; eauto. Qed.
Lemma map_upd {T U} (f : T -> U) l i x : map f (upd l i x) = upd (map f l) i (f x).
Proof. revert i; induction l as [|z l IH]; intros [|i]; cbn; auto. rewrite IH; auto. Qed.
Lemma nth_refs v s o : nth_error v s = Some o -> nth_error (refs v) s = Some (option_map refers_to o).
Proof. intros H; unfold refs; rewrite nth_error_map, H; auto. Qed.
Lemma nth_refs_inv v s r : nth_error (refs v) s = Some r -> exists o, nth_error v s = Some o /\ r = option_map refers_to o.
Proof. unfold refs; rewrite nth_error_map; destruct (nth_error v s) as [o|]; cbn; [|discriminate]; intros [= <-]; eauto. Qed.
Lemma nth_arefs_inv v s r : nth_error (array_refs v) s = Some r -> exists o, nth_error v s = Some o /\ r = option_map array_refers_to o.
Proof. unfold array_refs; rewrite nth_error_map; destruct (nth_error v s) as [o|]; cbn; [|discriminate]; intros [= <-]; eauto. Qed.
Lemma refs_upd v s o : refs (upd v s o) = upd (refs v) s (option_map refers_to o).
Proof. apply map_upd. Qed.
Lemma arefs_upd v s o : array_refs (upd v s o) = upd (array_refs v) s (option_map array_refers_to o).
Proof. apply map_upd. Qed.

Section Run.
Variable trivial : bool.

(** *** What a thread still has to do *)
Definition pend (t : sthread) : list sstmt :=
  match st_now t with
  | Some (MLook s a) | Some (MReset s a) | Some (MJoin s a) => [TShare s a]
  | Some (MCopy s x) => match nth_error (st_vars t) s with Some None => [TCopy s x] | _ => [TCopyAssign s x] end
  | Some (MUse s i) => [TUse s i]
  | Some (MDrop a) => [TDrop a]
  | _ => []
  end.
Definition rem (t : sthread) : list sstmt := pend t ++ st_prog t.

Definition deleting (t : sthread) : option nat := match st_now t with Some (MKill b _ _) | Some (MFree b) => Some b | _ => None end.
Definition dec_of (c : nat) (t : sthread) : nat := match st_now t with Some (MDec d) => if Nat.eqb c d then 1 else 0 | _ => 0 end.
Definition holds (c : nat) (t : sthread) : nat := total (owns_s c) (st_vars t) + dec_of c t.

(** one thread: its own program, whose result alone is [fg] *)
Record tinv (w : common) (p0 : list sstmt) (fg : list ref * list ref) (t : sthread) : Prop := {
  ti_run : exists A, (forall a, mentions p0 a -> nth_error A a = nth_error (array_refs (cm_arrays w)) a) /\
             ref_run (refs (st_vars t)) A (rem t) = Some fg;
  ti_share : forall s a, In (TShare s a) (rem t) -> mentions p0 a;
  ti_drop : forall a, In (TDrop a) (rem t) -> In (TDrop a) p0;
  ti_now : match st_now t with
           | Some (MReset s a) => exists b n, nth_error (cm_arrays w) a = Some (Some (HHeap (Some b) n None))
           | Some (MJoin s a) => exists b n c, nth_error (cm_arrays w) a = Some (Some (HHeap (Some b) n (Some c)))
           | _ => True
           end }.

(** who is responsible for a block *)
Inductive who := WCtrl (c : nat) | WArr (a : nat) | WDel (i : nat) | WGone.

(** the memory; [held] are the blocks in use at the beginning *)
Record ginv (held : nat -> Prop) (w : common) (ts : list sthread) (own : nat -> who) : Prop := {
  g_count : forall c k, nth_error (cm_ctrls w) c = Some k -> sc_count k = total (holds c) ts + total (owns_h c) (cm_arrays w);
  g_shared : forall i t h c, nth_error ts i = Some t -> In (Some h) (st_vars t) -> s_sptr h = Some c ->
    exists b j, s_data h = Some b /\ nth_error (cm_ctrls w) c = Some (SCtrl j (b, s_size h));
  g_arrays : forall a h c, nth_error (cm_arrays w) a = Some (Some h) -> h_sptr h = Some c ->
    exists b j, h_data h = Some b /\ nth_error (cm_ctrls w) c = Some (SCtrl j (b, h_size h));
  g_ctrl : forall c j b n, nth_error (cm_ctrls w) c = Some (SCtrl (S j) (b, n)) -> own b = WCtrl c /\ intact w b n;
  g_arr : forall a b n, nth_error (cm_arrays w) a = Some (Some (HHeap (Some b) n None)) -> own b = WArr a /\ intact w b n;
  g_kill : forall i t b k n, nth_error ts i = Some t -> st_now t = Some (MKill b k n) ->
    own b = WDel i /\ k < n /\ trivial = false /\ nth_error (cm_blocks w) b = Some (SBlock true (repeat false k ++ repeat true (n - k)));
  g_free : forall i t b, nth_error ts i = Some t -> st_now t = Some (MFree b) ->
    own b = WDel i /\ exists n, nth_error (cm_blocks w) b = Some (SBlock true (repeat trivial n));
  g_dec : forall i t c, nth_error ts i = Some t -> st_now t = Some (MDec c) -> exists k, nth_error (cm_ctrls w) c = Some k;
  g_back : forall b, held b ->
    match own b with
    | WCtrl c => exists j n, nth_error (cm_ctrls w) c = Some (SCtrl (S j) (b, n))
    | WArr a => exists n, nth_error (cm_arrays w) a = Some (Some (HHeap (Some b) n None))
    | WDel i => exists t, nth_error ts i = Some t /\ deleting t = Some b
    | WGone => exists n, nth_error (cm_blocks w) b = Some (SBlock false (repeat trivial n))
    end }.

(** arrays are used apart, and blocks keep their size *)
Record rinv (w0 : common) (P : list (list sstmt)) (w : common) : Prop := {
  r_apart : forall i j p q a, i <> j -> nth_error P i = Some p -> nth_error P j = Some q -> mentions p a -> mentions q a ->
    (exists h, nth_error (cm_arrays w) a = Some (Some h) /\ (h_sptr h <> None \/ h_data h = None)) /\ ~ In (TDrop a) p;
  r_others : forall a, (forall p, In p P -> ~ mentions p a) -> nth_error (cm_arrays w) a = nth_error (cm_arrays w0) a;
  r_kept : forall a, (forall p, In p P -> ~ In (TDrop a) p) -> nth_error (array_refs (cm_arrays w)) a = nth_error (array_refs (cm_arrays w0)) a;
  r_size : forall b, option_map (fun x => length (sb_cells x)) (nth_error (cm_blocks w) b) =
                     option_map (fun x => length (sb_cells x)) (nth_error (cm_blocks w0) b) }.

(** *** The memory, one step at a time *)
Section Steps.
Variables (held : nat -> Prop) (w : common) (ts : list sthread) (own : nat -> who).
Variables (i : nat) (t : sthread).
Hypotheses (G : ginv held w ts own) (Ht : nth_error ts i = Some t).

Definition valid (w' : common) (t' : sthread) : Prop :=
  (forall h c, In (Some h) (st_vars t') -> s_sptr h = Some c ->
    exists b j, s_data h = Some b /\ nth_error (cm_ctrls w') c = Some (SCtrl j (b, s_size h))) /\
  (forall c, st_now t' = Some (MDec c) -> exists k, nth_error (cm_ctrls w') c = Some k).

Lemma nth_ts j u t' : nth_error (upd ts i t') j = Some u -> j = i /\ u = t' \/ j <> i /\ nth_error ts j = Some u.
Proof.
  intros H; destruct (Nat.eq_dec j i) as [->|N].
  - rewrite (upd_at _ _ _ _ Ht) in H; injection H as <-; auto.
  - rewrite nth_error_upd_neq in H by auto; auto.
Qed.

(** blocks, arrays and responsibilities stay; counts may change but not to or from zero *)
Lemma ginv_counts K' t' :
  deleting t = None -> deleting t' = None ->
  (forall c k', nth_error K' c = Some k' ->
     exists k, nth_error (cm_ctrls w) c = Some k /\ sc_blk k = sc_blk k' /\ sc_count k' + holds c t = sc_count k + holds c t' /\
               (sc_count k' = 0 <-> sc_count k = 0)) ->
  (forall c k, nth_error (cm_ctrls w) c = Some k -> exists k', nth_error K' c = Some k') ->
  valid (with_ctrls w K') t' ->
  ginv held (with_ctrls w K') (upd ts i t') own.
Proof.
  intros D D' HK HK' HV.
  assert (HK2 : forall c j b n, nth_error (cm_ctrls w) c = Some (SCtrl j (b, n)) ->
            exists j', nth_error K' c = Some (SCtrl j' (b, n)) /\ (j' = 0 <-> j = 0)).
  { intros c j b n H; destruct (HK' _ _ H) as (k' & H'); destruct (HK _ _ H') as (k & E1 & E2 & _ & E3).
    rewrite H in E1; injection E1 as <-; cbn in *; destruct k' as [j' bl]; cbn in *; subst bl; exists j'; auto. }
  split; cbn.
  - intros c k' H; destruct (HK _ _ H) as (k & E1 & _ & E2 & _).
    pose proof (g_count _ _ _ _ G _ _ E1) as E3; pose proof (total_upd (holds c) ts i t' t Ht) as TU; lia.
  - intros j u h c Hj Hin Hs; destruct (nth_ts _ _ _ Hj) as [(-> & ->)|(N & Hj')]; [apply (proj1 HV); auto|].
    destruct (g_shared _ _ _ _ G _ _ _ _ Hj' Hin Hs) as (b & k & E1 & E2); destruct (HK2 _ _ _ _ E2) as (j' & E3 & _); eauto.
  - intros a h c Ha Hs; destruct (g_arrays _ _ _ _ G _ _ _ Ha Hs) as (b & k & E1 & E2); destruct (HK2 _ _ _ _ E2) as (j' & E3 & _); eauto.
  - intros c j b n H; destruct (HK _ _ H) as ([k bl] & E1 & E2 & _ & E3); cbn in *; subst bl.
    destruct k as [|k]; [destruct E3 as (_ & E3); discriminate (E3 eq_refl)|]. apply (g_ctrl _ _ _ _ G _ _ _ _ E1).
  - intros a b n Ha; apply (g_arr _ _ _ _ G _ _ _ Ha).
  - intros j u b k n Hj Hn; destruct (nth_ts _ _ _ Hj) as [(-> & ->)|(N & Hj')].
    + unfold deleting in D'; rewrite Hn in D'; discriminate.
    + apply (g_kill _ _ _ _ G _ _ _ _ _ Hj' Hn).
  - intros j u b Hj Hn; destruct (nth_ts _ _ _ Hj) as [(-> & ->)|(N & Hj')].
    + unfold deleting in D'; rewrite Hn in D'; discriminate.
    + apply (g_free _ _ _ _ G _ _ _ Hj' Hn).
  - intros j u c Hj Hn; destruct (nth_ts _ _ _ Hj) as [(-> & ->)|(N & Hj')]; [apply (proj2 HV); auto|].
    destruct (g_dec _ _ _ _ G _ _ _ Hj' Hn) as (k & E); apply (HK' _ _ E).
  - intros b Hb; pose proof (g_back _ _ _ _ G _ Hb) as B; destruct (own b) as [c|a|d|].
    + destruct B as (j & n & B); destruct (HK2 _ _ _ _ B) as (j' & E & Z0); destruct j' as [|j']; [destruct Z0 as (Z0 & _); discriminate (Z0 eq_refl)|eauto].
    + exact B.
    + destruct B as (u & B1 & B2); destruct (Nat.eq_dec d i) as [->|N]; [congruence|].
      exists u; rewrite nth_error_upd_neq by auto; auto.
    + exact B.
Qed.

Lemma ginv_private t' :
  deleting t = None -> deleting t' = None -> (forall c, holds c t' = holds c t) -> valid w t' -> ginv held w (upd ts i t') own.
Proof.
  intros D D' HH HV.
  assert (E : w = with_ctrls w (cm_ctrls w)) by (destruct w; reflexivity).
  rewrite E; apply ginv_counts; auto.
  - intros c k H; exists k; rewrite HH; repeat split; auto.
  - intros c k H; eauto.
Qed.

(** one owner more *)
Lemma ginv_inc c t' :
  deleting t = None -> deleting t' = None -> (exists k, nth_error (cm_ctrls w) c = Some k /\ 0 < sc_count k) ->
  (forall d, holds d t' = holds d t + if Nat.eqb d c then 1 else 0) -> valid w t' ->
  exists K, s_inc (cm_ctrls w) c = Some K /\ ginv held (with_ctrls w K) (upd ts i t') own.
Proof.
  intros D D' ([[|j] bl] & Hc & Hp) HH HV; cbn in Hp; [lia|].
  exists (upd (cm_ctrls w) c (SCtrl (S (S j)) bl)); unfold s_inc; rewrite Hc; split; [reflexivity|].
  apply ginv_counts; auto.
  - intros d k H; rewrite HH; destruct (Nat.eqb_spec d c) as [->|N].
    + rewrite (upd_at _ _ _ _ Hc) in H; injection H as <-; exists (SCtrl (S j) bl); cbn; repeat split; auto; lia.
    + rewrite nth_error_upd_neq in H by auto; exists k; repeat split; auto; lia.
  - intros d k H; destruct (Nat.eq_dec d c) as [->|N]; [rewrite (upd_at _ _ _ _ Hc); eauto|rewrite nth_error_upd_neq by auto; eauto].
  - split.
    + intros h d Hin Hs; destruct (proj1 HV h d Hin Hs) as (b & k & E1 & E2); cbn; destruct (Nat.eq_dec d c) as [->|N].
      * rewrite (upd_at _ _ _ _ Hc); rewrite Hc in E2; injection E2 as -> ->; eauto.
      * rewrite nth_error_upd_neq by auto; eauto.
    + intros d Hd; destruct (proj2 HV d Hd) as (k & E); cbn; destruct (Nat.eq_dec d c) as [->|N].
      * rewrite (upd_at _ _ _ _ Hc); eauto.
      * rewrite nth_error_upd_neq by auto; eauto.
Qed.

(** a thread that was not destroying a block begins to destroy block [b], which was intact *)
Lemma kill_start w' t' b n :
  deleting t = None -> st_now t' = Some (s_destruct trivial b n) -> intact w b n ->
  (forall j u b1, nth_error ts j = Some u -> deleting u = Some b1 -> b1 <> b) -> cm_blocks w' = cm_blocks w ->
  forall j u b1 k m, nth_error (upd ts i t') j = Some u -> st_now u = Some (MKill b1 k m) ->
    (if Nat.eqb b1 b then WDel i else own b1) = WDel j /\ k < m /\ trivial = false /\
    nth_error (cm_blocks w') b1 = Some (SBlock true (repeat false k ++ repeat true (m - k))).
Proof.
  intros D Hn HI ND HB j u b1 k m Hj Hk; rewrite HB; destruct (nth_ts _ _ _ Hj) as [(-> & ->)|(N & Hj')].
  - rewrite Hn in Hk; unfold s_destruct in Hk; destruct trivial; [discriminate|].
    destruct (Nat.eqb_spec n 0) as [E|E]; [discriminate|]; injection Hk as <- <- <-.
    rewrite Nat.eqb_refl; cbn; rewrite Nat.sub_0_r; repeat split; auto; lia.
  - assert (b1 <> b) by (eapply ND; [exact Hj'|unfold deleting; rewrite Hk; auto]).
    destruct (Nat.eqb_spec b1 b) as [?|_]; [contradiction|]; apply (g_kill _ _ _ _ G _ _ _ _ _ Hj' Hk).
Qed.
Lemma free_start w' t' b n :
  deleting t = None -> st_now t' = Some (s_destruct trivial b n) -> intact w b n ->
  (forall j u b1, nth_error ts j = Some u -> deleting u = Some b1 -> b1 <> b) -> cm_blocks w' = cm_blocks w ->
  forall j u b1, nth_error (upd ts i t') j = Some u -> st_now u = Some (MFree b1) ->
    (if Nat.eqb b1 b then WDel i else own b1) = WDel j /\ exists m, nth_error (cm_blocks w') b1 = Some (SBlock true (repeat trivial m)).
Proof.
  intros D Hn HI ND HB j u b1 Hj Hk; rewrite HB; destruct (nth_ts _ _ _ Hj) as [(-> & ->)|(N & Hj')].
  - rewrite Hn in Hk; unfold s_destruct in Hk.
    destruct (Nat.eqb_spec n 0) as [E|E]; destruct trivial; try discriminate; injection Hk as <-; rewrite Nat.eqb_refl; split; auto; exists n; auto.
    subst n; exact HI.
  - assert (b1 <> b) by (eapply ND; [exact Hj'|unfold deleting; rewrite Hk; auto]).
    destruct (Nat.eqb_spec b1 b) as [?|_]; [contradiction|]; apply (g_free _ _ _ _ G _ _ _ Hj' Hk).
Qed.
Lemma del_other b : (forall j, own b <> WDel j) -> forall j u b1, nth_error ts j = Some u -> deleting u = Some b1 -> b1 <> b.
Proof.
  intros NO j u b1 Hj Hd ->; unfold deleting in Hd; destruct (st_now u) as [[]|] eqn:E; try discriminate; injection Hd as ->.
  - destruct (g_kill _ _ _ _ G _ _ _ _ _ Hj E) as (O & _); apply (NO _ O).
  - destruct (g_free _ _ _ _ G _ _ _ Hj E) as (O & _); apply (NO _ O).
Qed.
(** blocks for which nothing changes *)
Lemma back_other w' t' b1 :
  deleting t <> Some b1 -> held b1 -> nth_error (cm_blocks w') b1 = nth_error (cm_blocks w) b1 ->
  (forall d j n1, nth_error (cm_ctrls w) d = Some (SCtrl (S j) (b1, n1)) -> exists j', nth_error (cm_ctrls w') d = Some (SCtrl (S j') (b1, n1))) ->
  (forall a n1, nth_error (cm_arrays w) a = Some (Some (HHeap (Some b1) n1 None)) -> nth_error (cm_arrays w') a = Some (Some (HHeap (Some b1) n1 None))) ->
  match own b1 with
  | WCtrl c => exists j n, nth_error (cm_ctrls w') c = Some (SCtrl (S j) (b1, n))
  | WArr a => exists n, nth_error (cm_arrays w') a = Some (Some (HHeap (Some b1) n None))
  | WDel j => exists u, nth_error (upd ts i t') j = Some u /\ deleting u = Some b1
  | WGone => exists n, nth_error (cm_blocks w') b1 = Some (SBlock false (repeat trivial n))
  end.
Proof.
  intros D Hb HB HC HA; pose proof (g_back _ _ _ _ G _ Hb) as B; destruct (own b1) as [c|a|j|].
  - destruct B as (j & n & B); destruct (HC _ _ _ B); eauto.
  - destruct B as (n & B); eauto.
  - destruct B as (u & B1 & B2); exists u; split; auto. rewrite nth_error_upd_neq; auto. intros <-; congruence.
  - rewrite HB; auto.
Qed.

(** one owner less *)
Lemma ginv_dec c :
  st_now t = Some (MDec c) ->
  exists w' t' own', s_turn trivial w t = Some (w', t') /\ ginv held w' (upd ts i t') own' /\ cm_arrays w' = cm_arrays w /\
    cm_blocks w' = cm_blocks w /\ length (cm_ctrls w') = length (cm_ctrls w) /\ st_vars t' = st_vars t /\ st_prog t' = st_prog t /\
    (st_now t' = None \/ exists b, deleting t' = Some b).
Proof.
  intros Hn; destruct (g_dec _ _ _ _ G _ _ _ Ht Hn) as ([k [b n]] & Hc); unfold s_turn; rewrite Hn; cbn [s_access]; rewrite Hc.
  pose proof (g_count _ _ _ _ G _ _ Hc) as Hk; cbn in Hk.
  assert (Hd : dec_of c t = 1) by (unfold dec_of; rewrite Hn, Nat.eqb_refl; auto).
  pose proof (total_ge (holds c) ts i t Ht) as Hge; unfold holds at 1 in Hge.
  destruct k as [|k]; [lia|].
  assert (D : deleting t = None) by (unfold deleting; rewrite Hn; auto).
  destruct (Nat.eqb_spec k 0) as [->|N].
  - destruct (g_ctrl _ _ _ _ G _ _ _ _ Hc) as (O1 & I1).
    set (t' := SThread (st_vars t) (Some (s_destruct trivial b n)) (st_prog t)).
    set (w' := with_ctrls w (upd (cm_ctrls w) c (SCtrl 0 (b, n)))).
    exists w', t', (fun x => if Nat.eqb x b then WDel i else own x).
    assert (Dt : deleting t' = Some b) by (unfold deleting, t', s_destruct; cbn; destruct trivial, (Nat.eqb n 0); auto).
    assert (H1 : forall d, holds d t' + (if Nat.eqb d c then 1 else 0) = holds d t).
    { intros d; unfold holds, dec_of, t'; cbn; rewrite Hn; unfold s_destruct; destruct trivial, (Nat.eqb n 0), (Nat.eqb d c); lia. }
    assert (NB : forall d j m, nth_error (cm_ctrls w) d = Some (SCtrl (S j) (b, m)) -> d = c).
    { intros d j m H; destruct (g_ctrl _ _ _ _ G _ _ _ _ H) as (O2 & _); congruence. }
    split; [reflexivity|]; split; [|repeat split; auto; [cbn; apply upd_length|right; exists b; exact Dt]].
    split; cbn [cm_arrays cm_blocks cm_ctrls w' with_ctrls].
    + intros d kk H; destruct (Nat.eq_dec d c) as [->|Nd].
      * rewrite (upd_at _ _ _ _ Hc) in H; injection H as <-; cbn [sc_count].
        pose proof (total_upd (holds c) ts i t' t Ht) as TU; pose proof (H1 c) as H1c; rewrite Nat.eqb_refl in H1c; lia.
      * rewrite nth_error_upd_neq in H by auto.
        pose proof (g_count _ _ _ _ G _ _ H) as GC; pose proof (total_upd (holds d) ts i t' t Ht) as TU; pose proof (H1 d) as H1d.
        destruct (Nat.eqb_spec d c); [congruence|lia].
    + intros j u h d Hj Hin Hs; assert (X : exists u', nth_error ts j = Some u' /\ st_vars u' = st_vars u).
      { destruct (nth_ts _ _ _ Hj) as [(-> & ->)|(_ & Hj')]; [exists t; auto|exists u; auto]. }
      destruct X as (u' & X1 & X2); rewrite <- X2 in Hin.
      destruct (g_shared _ _ _ _ G _ _ _ _ X1 Hin Hs) as (b1 & k1 & E1 & E2); exists b1; destruct (Nat.eq_dec d c) as [->|Nd].
      * rewrite (upd_at _ _ _ _ Hc); rewrite Hc in E2; injection E2 as <- <- <-; eauto.
      * rewrite nth_error_upd_neq by auto; eauto.
    + intros a h d Ha Hs; destruct (g_arrays _ _ _ _ G _ _ _ Ha Hs) as (b1 & k1 & E1 & E2); exists b1; destruct (Nat.eq_dec d c) as [->|Nd].
      * rewrite (upd_at _ _ _ _ Hc); rewrite Hc in E2; injection E2 as <- <- <-; eauto.
      * rewrite nth_error_upd_neq by auto; eauto.
    + intros d j b1 n1 H; destruct (Nat.eq_dec d c) as [->|Nd]; [rewrite (upd_at _ _ _ _ Hc) in H; discriminate|].
      rewrite nth_error_upd_neq in H by auto; destruct (Nat.eqb_spec b1 b) as [->|Nb]; [exfalso; apply Nd; eauto|].
      apply (g_ctrl _ _ _ _ G _ _ _ _ H).
    + intros a b1 n1 H; destruct (g_arr _ _ _ _ G _ _ _ H) as (O2 & I2); destruct (Nat.eqb_spec b1 b) as [->|Nb]; [congruence|auto].
    + apply (kill_start w' t' b n); auto; apply del_other; congruence.
    + apply (free_start w' t' b n); auto; apply del_other; congruence.
    + intros j u d Hj Hd2; destruct (nth_ts _ _ _ Hj) as [(-> & ->)|(N & Hj')].
      * unfold deleting in Dt; rewrite Hd2 in Dt; discriminate.
      * destruct (g_dec _ _ _ _ G _ _ _ Hj' Hd2) as (k9 & E); destruct (Nat.eq_dec d c) as [->|Nd].
        -- rewrite (upd_at _ _ _ _ Hc); eauto.
        -- rewrite nth_error_upd_neq by auto; eauto.
    + intros b1 Hb; destruct (Nat.eqb_spec b1 b) as [->|Nb].
      * exists t'; split; [eapply upd_at; eauto|exact Dt].
      * apply (back_other w' t' b1); auto; [congruence|]; intros d j n1 H; cbn.
        destruct (Nat.eq_dec d c) as [->|Nd]; [rewrite Hc in H; injection H as -> -> ->; congruence|].
        rewrite nth_error_upd_neq by auto; eauto.
  - set (t' := SThread (st_vars t) None (st_prog t)).
    exists (with_ctrls w (upd (cm_ctrls w) c (SCtrl k (b, n)))), t', own.
    split; [reflexivity|]; split; [|repeat split; auto; cbn; apply upd_length].
    apply ginv_counts; auto.
    + intros d kk H; unfold holds, dec_of, t'; rewrite Hn; cbn [st_vars st_now]; destruct (Nat.eqb_spec d c) as [->|Nd].
      * rewrite (upd_at _ _ _ _ Hc) in H; injection H as <-; exists (SCtrl (S k) (b, n)); cbn; repeat split; auto; lia.
      * rewrite nth_error_upd_neq in H by auto; exists kk; repeat split; auto; lia.
    + intros d kk H; destruct (Nat.eq_dec d c) as [->|Nd]; [rewrite (upd_at _ _ _ _ Hc); eauto|rewrite nth_error_upd_neq by auto; eauto].
    + split; [|intros d Hd2; discriminate].
      intros h d Hin Hs; destruct (g_shared _ _ _ _ G _ _ _ _ Ht Hin Hs) as (b1 & j & E1 & E2); cbn; destruct (Nat.eq_dec d c) as [->|Nd].
      * rewrite (upd_at _ _ _ _ Hc); rewrite Hc in E2; injection E2 as <- <- <-; eauto.
      * rewrite nth_error_upd_neq by auto; eauto.
Qed.

(** an element is destroyed *)
Lemma ginv_kill b k n :
  st_now t = Some (MKill b k n) ->
  exists w' t', s_turn trivial w t = Some (w', t') /\ ginv held w' (upd ts i t') own /\ cm_arrays w' = cm_arrays w /\ cm_ctrls w' = cm_ctrls w /\
    (forall b1, option_map (fun x => length (sb_cells x)) (nth_error (cm_blocks w') b1) = option_map (fun x => length (sb_cells x)) (nth_error (cm_blocks w) b1)) /\
    st_vars t' = st_vars t /\ st_prog t' = st_prog t /\ deleting t' = Some b.
Proof.
  intros Hn; destruct (g_kill _ _ _ _ G _ _ _ _ _ Ht Hn) as (O & Hk & Tr & HB).
  unfold s_turn; rewrite Hn; cbn [s_access]; rewrite HB.
  assert (EN : repeat true (n - k) = true :: repeat true (n - S k)).
  { replace (n - k) with (S (n - S k)) by lia; reflexivity. }
  rewrite EN in HB |- *.
  rewrite nth_error_app2, repeat_length, Nat.sub_diag by (rewrite repeat_length; lia); cbn [nth_error].
  rewrite upd_mid by (rewrite repeat_length; auto).
  replace (repeat false k ++ [false]) with (repeat false (S k)) by (cbn; rewrite repeat_cons; auto).
  set (w' := with_block w b (SBlock true (repeat false (S k) ++ repeat true (n - S k)))).
  set (t' := SThread (st_vars t) (Some (if S k <? n then MKill b (S k) n else MFree b)) (st_prog t)).
  assert (Dt : deleting t' = Some b) by (unfold deleting, t'; cbn [st_now]; destruct (S k <? n); auto).
  assert (D : deleting t = Some b) by (unfold deleting; rewrite Hn; auto).
  assert (HO : forall b1, b1 <> b -> nth_error (cm_blocks w') b1 = nth_error (cm_blocks w) b1).
  { intros b1 N; cbn; apply nth_error_upd_neq; auto. }
  assert (HS : nth_error (cm_blocks w') b = Some (SBlock true (repeat false (S k) ++ repeat true (n - S k)))) by (cbn; eapply upd_at; eauto).
  assert (HH : forall d, holds d t' = holds d t).
  { intros d; unfold holds, dec_of; rewrite Hn; unfold t'; cbn [st_vars st_now]; destruct (S k <? n); auto. }
  exists w', t'; split; [reflexivity|]; split.
  2: { repeat split; auto; intros b1; destruct (Nat.eq_dec b1 b) as [->|N]; [|rewrite HO; auto].
       rewrite HS, HB; cbn; rewrite !app_length; cbn; rewrite !repeat_length; f_equal; lia. }
  split; cbn [cm_arrays cm_ctrls w' with_block].
  - intros d kk H; pose proof (g_count _ _ _ _ G _ _ H) as GC; pose proof (total_upd (holds d) ts i t' t Ht) as TU; pose proof (HH d) as HHd; lia.
  - intros j u h d Hj; assert (X : exists u', nth_error ts j = Some u' /\ st_vars u' = st_vars u).
    { destruct (nth_ts _ _ _ Hj) as [(-> & ->)|(_ & Hj')]; [exists t; auto|exists u; auto]. }
    destruct X as (u' & X1 & X2); rewrite <- X2; apply (g_shared _ _ _ _ G _ _ _ _ X1).
  - apply (g_arrays _ _ _ _ G).
  - intros d j b1 n1 H; destruct (g_ctrl _ _ _ _ G _ _ _ _ H) as (O1 & I1); split; auto; unfold intact; rewrite HO; auto; congruence.
  - intros a b1 n1 H; destruct (g_arr _ _ _ _ G _ _ _ H) as (O1 & I1); split; auto; unfold intact; rewrite HO; auto; congruence.
  - intros j u b1 k1 n1 Hj Hk1; destruct (nth_ts _ _ _ Hj) as [(-> & ->)|(N & Hj')].
    + unfold t' in Hk1; cbn [st_now] in Hk1; destruct (Nat.ltb_spec (S k) n) as [L|L]; [|discriminate]; injection Hk1 as <- <- <-; auto.
    + destruct (g_kill _ _ _ _ G _ _ _ _ _ Hj' Hk1) as (O1 & R1 & R2 & R3); repeat split; auto; fold w'; rewrite HO; auto; congruence.
  - intros j u b1 Hj Hk1; destruct (nth_ts _ _ _ Hj) as [(-> & ->)|(N & Hj')].
    + unfold t' in Hk1; cbn [st_now] in Hk1; destruct (Nat.ltb_spec (S k) n) as [L|L]; [discriminate|]; injection Hk1 as <-; split; auto.
      exists (S k); fold w'; rewrite HS; replace (n - S k) with 0 by lia; rewrite Tr; cbn [repeat]; rewrite app_nil_r; auto.
    + destruct (g_free _ _ _ _ G _ _ _ Hj' Hk1) as (O1 & n1 & R1); split; auto; exists n1; fold w'; rewrite HO; auto; congruence.
  - intros j u d Hj Hd; destruct (nth_ts _ _ _ Hj) as [(-> & ->)|(N & Hj')]; [unfold deleting in Dt; rewrite Hd in Dt; discriminate|].
    apply (g_dec _ _ _ _ G _ _ _ Hj' Hd).
  - intros b1 Hb; destruct (Nat.eq_dec b1 b) as [->|N].
    + rewrite O; exists t'; split; auto; eapply upd_at; eauto.
    + apply (back_other w' t' b1); auto; [congruence|eauto].
Qed.

(** a block is released *)
Lemma ginv_free b :
  st_now t = Some (MFree b) ->
  exists w' t' own', s_turn trivial w t = Some (w', t') /\ ginv held w' (upd ts i t') own' /\ cm_arrays w' = cm_arrays w /\ cm_ctrls w' = cm_ctrls w /\
    (forall b1, option_map (fun x => length (sb_cells x)) (nth_error (cm_blocks w') b1) = option_map (fun x => length (sb_cells x)) (nth_error (cm_blocks w) b1)) /\
    st_vars t' = st_vars t /\ st_prog t' = st_prog t /\ st_now t' = None.
Proof.
  intros Hn; destruct (g_free _ _ _ _ G _ _ _ Ht Hn) as (O & n & HB).
  unfold s_turn; rewrite Hn; cbn [s_access]; rewrite HB.
  set (w' := with_block w b (SBlock false (repeat trivial n))).
  set (t' := SThread (st_vars t) None (st_prog t)).
  assert (D : deleting t = Some b) by (unfold deleting; rewrite Hn; auto).
  assert (HO : forall b1, b1 <> b -> nth_error (cm_blocks w') b1 = nth_error (cm_blocks w) b1).
  { intros b1 N; cbn; apply nth_error_upd_neq; auto. }
  assert (HS : nth_error (cm_blocks w') b = Some (SBlock false (repeat trivial n))) by (cbn; eapply upd_at; eauto).
  assert (HH : forall d, holds d t' = holds d t) by (intros d; unfold holds, dec_of; rewrite Hn; auto).
  exists w', t', (fun x => if Nat.eqb x b then WGone else own x); split; [reflexivity|]; split.
  2: { repeat split; auto; intros b1; destruct (Nat.eq_dec b1 b) as [->|N]; [|rewrite HO; auto]. rewrite HS, HB; auto. }
  assert (HN : forall b1, own b1 <> WDel i -> (if Nat.eqb b1 b then WGone else own b1) = own b1 /\ b1 <> b).
  { intros b1 N; destruct (Nat.eqb_spec b1 b) as [->|N1]; [congruence|auto]. }
  split; cbn [cm_arrays cm_ctrls w' with_block].
  - intros d kk H; pose proof (g_count _ _ _ _ G _ _ H) as GC; pose proof (total_upd (holds d) ts i t' t Ht) as TU; pose proof (HH d) as HHd; lia.
  - intros j u h d Hj; assert (X : exists u', nth_error ts j = Some u' /\ st_vars u' = st_vars u).
    { destruct (nth_ts _ _ _ Hj) as [(-> & ->)|(_ & Hj')]; [exists t; auto|exists u; auto]. }
    destruct X as (u' & X1 & X2); rewrite <- X2; apply (g_shared _ _ _ _ G _ _ _ _ X1).
  - apply (g_arrays _ _ _ _ G).
  - intros d j b1 n1 H; destruct (g_ctrl _ _ _ _ G _ _ _ _ H) as (O1 & I1).
    destruct (HN b1) as (-> & N1); [congruence|]; split; auto; unfold intact; rewrite HO; auto.
  - intros a b1 n1 H; destruct (g_arr _ _ _ _ G _ _ _ H) as (O1 & I1).
    destruct (HN b1) as (-> & N1); [congruence|]; split; auto; unfold intact; rewrite HO; auto.
  - intros j u b1 k1 n1 Hj Hk1; destruct (nth_ts _ _ _ Hj) as [(-> & ->)|(N & Hj')]; [discriminate|].
    destruct (g_kill _ _ _ _ G _ _ _ _ _ Hj' Hk1) as (O1 & R1 & R2 & R3); destruct (HN b1) as (-> & N1); [congruence|].
    repeat split; auto; fold w'; rewrite HO; auto.
  - intros j u b1 Hj Hk1; destruct (nth_ts _ _ _ Hj) as [(-> & ->)|(N & Hj')]; [discriminate|].
    destruct (g_free _ _ _ _ G _ _ _ Hj' Hk1) as (O1 & n1 & R1); destruct (HN b1) as (-> & N1); [congruence|].
    split; auto; exists n1; fold w'; rewrite HO; auto.
  - intros j u d Hj Hd; destruct (nth_ts _ _ _ Hj) as [(-> & ->)|(N & Hj')]; [discriminate|].
    apply (g_dec _ _ _ _ G _ _ _ Hj' Hd).
  - intros b1 Hb; destruct (Nat.eqb_spec b1 b) as [->|N].
    + exists n; fold w'; auto.
    + apply (back_other w' t' b1); auto; [congruence|eauto].
Qed.

(** the shared pointer of an array is set for the first time *)
Lemma ginv_reset s a b n :
  st_now t = Some (MReset s a) -> nth_error (cm_arrays w) a = Some (Some (HHeap (Some b) n None)) ->
  let t' := SThread (st_vars t) (Some (MJoin s a)) (st_prog t) in
  let w' := with_array (with_ctrls w (cm_ctrls w ++ [SCtrl 1 (b, n)])) a (Some (HHeap (Some b) n (Some (length (cm_ctrls w))))) in
  s_turn trivial w t = Some (w', t') /\ exists own', ginv held w' (upd ts i t') own'.
Proof.
  intros Hn Ha t' w'; unfold s_turn; rewrite Hn; cbn [s_access]; rewrite Ha; split; [reflexivity|].
  destruct (g_arr _ _ _ _ G _ _ _ Ha) as (O & I).
  set (L := length (cm_ctrls w)) in *.
  exists (fun x => if Nat.eqb x b then WCtrl L else own x).
  assert (D : deleting t = None) by (unfold deleting; rewrite Hn; auto).
  assert (HH : forall d, holds d t' = holds d t) by (intros d; unfold holds, dec_of; rewrite Hn; auto).
  assert (HC : forall d k, nth_error (cm_ctrls w) d = Some k -> nth_error (cm_ctrls w ++ [SCtrl 1 (b, n)]) d = Some k).
  { intros d k H; rewrite nth_error_app1; auto; eapply nth_lt; eauto. }
  assert (HC2 : forall d k, nth_error (cm_ctrls w ++ [SCtrl 1 (b, n)]) d = Some k -> nth_error (cm_ctrls w) d = Some k \/ d = L /\ k = SCtrl 1 (b, n)).
  { intros d k H; destruct (Nat.lt_ge_cases d L) as [Hl|Hl]; [rewrite nth_error_app1 in H; auto|].
    right; rewrite nth_error_app2 in H by auto; destruct (d - length (cm_ctrls w)) as [|q] eqn:E; cbn in H.
    - injection H as <-; split; auto; unfold L in *; lia.
    - destruct q; discriminate. }
  assert (HL : nth_error (cm_ctrls w) L = None) by (apply nth_error_None; auto).
  assert (NS : forall j u h, nth_error ts j = Some u -> In (Some h) (st_vars u) -> s_sptr h <> Some L).
  { intros j u h Hj Hin Hs; destruct (g_shared _ _ _ _ G _ _ _ _ Hj Hin Hs) as (b1 & k1 & _ & E); congruence. }
  assert (NA : forall a1 h, nth_error (cm_arrays w) a1 = Some (Some h) -> h_sptr h <> Some L).
  { intros a1 h H Hs; destruct (g_arrays _ _ _ _ G _ _ _ H Hs) as (b1 & k1 & _ & E); congruence. }
  assert (HA : forall a1 h, nth_error (cm_arrays w') a1 = Some h -> a1 = a /\ h = Some (HHeap (Some b) n (Some L)) \/ a1 <> a /\ nth_error (cm_arrays w) a1 = Some h).
  { intros a1 h H; cbn in H; destruct (Nat.eq_dec a1 a) as [->|N]; [rewrite (upd_at _ _ _ _ Ha) in H; injection H as <-; auto|].
    rewrite nth_error_upd_neq in H by auto; auto. }
  assert (NB : forall d j m, nth_error (cm_ctrls w) d = Some (SCtrl (S j) (b, m)) -> False).
  { intros d j m H; destruct (g_ctrl _ _ _ _ G _ _ _ _ H) as (O2 & _); congruence. }
  split.
  - intros d kk H; cbn in H; cbn [w' cm_arrays with_array with_ctrls].
    pose proof (total_upd (holds d) ts i t' t Ht) as TU; pose proof (HH d) as HHd.
    pose proof (total_upd (owns_h d) (cm_arrays w) a (Some (HHeap (Some b) n (Some L))) _ Ha) as TA; cbn [owns_h h_sptr] in TA.
    destruct (HC2 _ _ H) as [H1|(-> & ->)].
    + pose proof (g_count _ _ _ _ G _ _ H1) as E; destruct (Nat.eqb_spec d L) as [->|N]; [congruence|lia].
    + rewrite Nat.eqb_refl in TA; cbn [sc_count].
      assert (Z1 : total (owns_h L) (cm_arrays w) = 0).
      { apply total_zero; intros [h|] Hin; auto; cbn; destruct (h_sptr h) as [c|] eqn:E; auto.
        destruct (In_nth_error _ _ Hin) as (a1 & H2); destruct (Nat.eqb_spec L c) as [<-|N]; auto; destruct (NA _ _ H2 E). }
      assert (Z2 : total (holds L) ts = 0).
      { apply total_zero; intros u Hin; destruct (In_nth_error _ _ Hin) as (j & Hj); unfold holds; rewrite total_zero.
        - cbn; unfold dec_of; destruct (st_now u) as [[]|] eqn:E; auto; destruct (Nat.eqb_spec L c) as [<-|N]; auto.
          destruct (g_dec _ _ _ _ G _ _ _ Hj E) as (k & E2); congruence.
        - intros [h|] Hv; auto; cbn; destruct (s_sptr h) as [c|] eqn:E; auto.
          destruct (Nat.eqb_spec L c) as [<-|N]; auto; destruct (NS _ _ _ Hj Hv E). }
      lia.
  - intros j u h d Hj; assert (X : exists u', nth_error ts j = Some u' /\ st_vars u' = st_vars u).
    { destruct (nth_ts _ _ _ Hj) as [(-> & ->)|(_ & Hj')]; [exists t; auto|exists u; auto]. }
    destruct X as (u' & X1 & X2); rewrite <- X2; intros Hin Hs; destruct (g_shared _ _ _ _ G _ _ _ _ X1 Hin Hs) as (b1 & k1 & E1 & E2).
    exists b1, k1; split; auto; cbn; auto.
  - intros a1 h d H Hs; destruct (HA _ _ H) as [(-> & E)|(N & H1)].
    + injection E as ->; cbn in Hs |- *; injection Hs as <-; exists b, 1; split; auto; rewrite nth_error_app2, Nat.sub_diag by auto; reflexivity.
    + destruct (g_arrays _ _ _ _ G _ _ _ H1 Hs) as (b1 & k1 & E1 & E2); exists b1, k1; split; auto; cbn; auto.
  - intros d j b1 n1 H; cbn in H; destruct (HC2 _ _ H) as [H1|(-> & E)].
    + destruct (g_ctrl _ _ _ _ G _ _ _ _ H1) as (O1 & I1); destruct (Nat.eqb_spec b1 b) as [->|N]; [congruence|]; auto.
    + injection E as -> -> ->; rewrite Nat.eqb_refl; auto.
  - intros a1 b1 n1 H; destruct (HA _ _ H) as [(-> & E)|(N & H1)]; [discriminate|].
    destruct (g_arr _ _ _ _ G _ _ _ H1) as (O1 & I1); destruct (Nat.eqb_spec b1 b) as [->|N1]; [congruence|]; auto.
  - intros j u b1 k1 n1 Hj Hk1; destruct (nth_ts _ _ _ Hj) as [(-> & ->)|(N & Hj')]; [discriminate|].
    destruct (g_kill _ _ _ _ G _ _ _ _ _ Hj' Hk1) as (O1 & R1); destruct (Nat.eqb_spec b1 b) as [->|N1]; [congruence|]; auto.
  - intros j u b1 Hj Hk1; destruct (nth_ts _ _ _ Hj) as [(-> & ->)|(N & Hj')]; [discriminate|].
    destruct (g_free _ _ _ _ G _ _ _ Hj' Hk1) as (O1 & R1); destruct (Nat.eqb_spec b1 b) as [->|N1]; [congruence|]; auto.
  - intros j u d Hj Hd; destruct (nth_ts _ _ _ Hj) as [(-> & ->)|(N & Hj')]; [discriminate|].
    destruct (g_dec _ _ _ _ G _ _ _ Hj' Hd) as (k & E); exists k; cbn; auto.
  - intros b1 Hb; destruct (Nat.eqb_spec b1 b) as [->|N].
    + exists 0, n; cbn; rewrite nth_error_app2, Nat.sub_diag by auto; reflexivity.
    + apply (back_other w' t' b1); auto; [congruence| |].
      * intros d j n1 H; exists j; cbn; auto.
      * intros a1 n1 H; cbn; destruct (Nat.eq_dec a1 a) as [->|N1]; [congruence|rewrite nth_error_upd_neq; auto].
Qed.

(** an array ends *)
Lemma ginv_drop a h :
  st_now t = Some (MDrop a) -> nth_error (cm_arrays w) a = Some (Some h) ->
  exists t' own', s_turn trivial w t = Some (with_array w a None, t') /\ ginv held (with_array w a None) (upd ts i t') own' /\
    st_vars t' = st_vars t /\ st_prog t' = st_prog t /\
    (st_now t' = None \/ (exists b, deleting t' = Some b) \/ exists c k, st_now t' = Some (MDec c) /\ nth_error (cm_ctrls w) c = Some k).
Proof.
  intros Hn Ha; unfold s_turn; rewrite Hn; cbn [s_access]; rewrite Ha.
  assert (D : deleting t = None) by (unfold deleting; rewrite Hn; auto).
  set (w' := with_array w a None).
  assert (HA : forall a1 h, nth_error (cm_arrays w') a1 = Some (Some h) -> a1 <> a /\ nth_error (cm_arrays w) a1 = Some (Some h)).
  { intros a1 h1 H; cbn in H; destruct (Nat.eq_dec a1 a) as [->|N]; [rewrite (upd_at _ _ _ _ Ha) in H; discriminate|].
    rewrite nth_error_upd_neq in H by auto; auto. }
  assert (HT : forall d, total (owns_h d) (cm_arrays w') + owns_h d (Some h) = total (owns_h d) (cm_arrays w)).
  { intros d; pose proof (total_upd (owns_h d) (cm_arrays w) a None _ Ha) as E; cbn [owns_h] in *; cbn [w' with_array cm_arrays]; lia. }
  assert (HV : forall t', st_vars t' = st_vars t -> forall j u h d, nth_error (upd ts i t') j = Some u -> In (Some h) (st_vars u) ->
            s_sptr h = Some d -> exists b k, s_data h = Some b /\ nth_error (cm_ctrls w) d = Some (SCtrl k (b, s_size h))).
  { intros t' Ev j u h1 d Hj; destruct (nth_ts _ _ _ Hj) as [(-> & ->)|(_ & Hj')]; [rewrite Ev; apply (g_shared _ _ _ _ G _ _ _ _ Ht)|].
    apply (g_shared _ _ _ _ G _ _ _ _ Hj'). }
  destruct h as [[b|] n [c|]]; cbn [h_sptr h_data h_size] in *.
  1, 3: (* in a control block *)
    set (t' := SThread (st_vars t) (Some (MDec c)) (st_prog t));
    exists t', own; split; [reflexivity|]; split;
    [|split; [reflexivity|]; split; [reflexivity|]; right; right; exists c;
      destruct (g_arrays _ _ _ _ G _ _ _ Ha eq_refl) as (b1 & k1 & _ & E); eexists; split; [reflexivity|exact E]];
    (split; cbn [cm_ctrls cm_blocks w' with_array];
     [intros d k H; pose proof (g_count _ _ _ _ G _ _ H) as GC; pose proof (total_upd (holds d) ts i t' t Ht) as TU;
        pose proof (HT d) as T2; cbn [owns_h h_sptr] in T2; fold w';
        assert (holds d t' = holds d t + if Nat.eqb d c then 1 else 0) by (unfold holds, dec_of; rewrite Hn; cbn; lia); lia
     |apply HV; reflexivity
     |intros a1 h1 d H Hs; destruct (HA _ _ H) as (_ & H1); apply (g_arrays _ _ _ _ G _ _ _ H1 Hs)
     |apply (g_ctrl _ _ _ _ G)
     |intros a1 b1 n1 H; destruct (HA _ _ H) as (_ & H1); apply (g_arr _ _ _ _ G _ _ _ H1)
     |intros j u b1 k1 n1 Hj Hk1; destruct (nth_ts _ _ _ Hj) as [(-> & ->)|(N & Hj')]; [discriminate|]; apply (g_kill _ _ _ _ G _ _ _ _ _ Hj' Hk1)
     |intros j u b1 Hj Hk1; destruct (nth_ts _ _ _ Hj) as [(-> & ->)|(N & Hj')]; [discriminate|]; apply (g_free _ _ _ _ G _ _ _ Hj' Hk1)
     |intros j u d Hj Hd; destruct (nth_ts _ _ _ Hj) as [(-> & ->)|(N & Hj')]; [|apply (g_dec _ _ _ _ G _ _ _ Hj' Hd)];
        unfold t' in Hd; cbn in Hd; injection Hd as <-; destruct (g_arrays _ _ _ _ G _ _ _ Ha eq_refl) as (b1 & k1 & _ & E); eauto
     |intros b1 Hb; apply (back_other w' t' b1); auto; [congruence|eauto|];
        intros a1 n1 H; cbn; destruct (Nat.eq_dec a1 a) as [->|N1]; [congruence|rewrite nth_error_upd_neq; auto]]).
  - (* not shared *)
    destruct (g_arr _ _ _ _ G _ _ _ Ha) as (O & I).
    set (t' := SThread (st_vars t) (Some (s_destruct trivial b n)) (st_prog t)).
    exists t', (fun x => if Nat.eqb x b then WDel i else own x).
    assert (Dt : deleting t' = Some b) by (unfold deleting, t', s_destruct; cbn; destruct trivial, (Nat.eqb n 0); auto).
    assert (HH : forall d, holds d t' = holds d t).
    { intros d; unfold holds, dec_of; rewrite Hn; unfold t', s_destruct; cbn; destruct trivial, (Nat.eqb n 0); auto. }
    split; [reflexivity|]; split; [|repeat split; auto; right; left; exists b; exact Dt].
    split; cbn [cm_ctrls cm_blocks w' with_array].
    + intros d k H; pose proof (g_count _ _ _ _ G _ _ H) as GC; pose proof (total_upd (holds d) ts i t' t Ht) as TU;
        pose proof (HT d) as T2; cbn [owns_h h_sptr] in T2; pose proof (HH d) as HHd; fold w'; lia.
    + apply HV; reflexivity.
    + intros a1 h1 d H Hs; destruct (HA _ _ H) as (_ & H1); apply (g_arrays _ _ _ _ G _ _ _ H1 Hs).
    + intros d j b1 n1 H; destruct (g_ctrl _ _ _ _ G _ _ _ _ H) as (O1 & I1); destruct (Nat.eqb_spec b1 b) as [->|N]; [congruence|]; auto.
    + intros a1 b1 n1 H; destruct (HA _ _ H) as (N & H1); destruct (g_arr _ _ _ _ G _ _ _ H1) as (O1 & I1).
      destruct (Nat.eqb_spec b1 b) as [->|N1]; [congruence|]; auto.
    + apply (kill_start w' t' b n); auto; apply del_other; congruence.
    + apply (free_start w' t' b n); auto; apply del_other; congruence.
    + intros j u d Hj Hd; destruct (nth_ts _ _ _ Hj) as [(-> & ->)|(N & Hj')]; [|apply (g_dec _ _ _ _ G _ _ _ Hj' Hd)].
      unfold deleting in Dt; rewrite Hd in Dt; discriminate.
    + intros b1 Hb; destruct (Nat.eqb_spec b1 b) as [->|N].
      * exists t'; split; auto; eapply upd_at; eauto.
      * apply (back_other w' t' b1); auto; [congruence|eauto|].
        intros a1 n1 H; cbn; destruct (Nat.eq_dec a1 a) as [->|N1]; [congruence|rewrite nth_error_upd_neq; auto].
  - (* empty *)
    set (t' := SThread (st_vars t) None (st_prog t)).
    exists t', own; split; [reflexivity|]; split; [|repeat split; auto].
    assert (HH : forall d, holds d t' = holds d t) by (intros d; unfold holds, dec_of; rewrite Hn; auto).
    split; cbn [cm_ctrls cm_blocks w' with_array].
    + intros d k H; pose proof (g_count _ _ _ _ G _ _ H) as GC; pose proof (total_upd (holds d) ts i t' t Ht) as TU;
        pose proof (HT d) as T2; cbn [owns_h h_sptr] in T2; pose proof (HH d) as HHd; fold w'; lia.
    + apply HV; reflexivity.
    + intros a1 h1 d H Hs; destruct (HA _ _ H) as (_ & H1); apply (g_arrays _ _ _ _ G _ _ _ H1 Hs).
    + apply (g_ctrl _ _ _ _ G).
    + intros a1 b1 n1 H; destruct (HA _ _ H) as (N & H1); apply (g_arr _ _ _ _ G _ _ _ H1).
    + intros j u b1 k1 n1 Hj Hk1; destruct (nth_ts _ _ _ Hj) as [(-> & ->)|(N & Hj')]; [discriminate|]; apply (g_kill _ _ _ _ G _ _ _ _ _ Hj' Hk1).
    + intros j u b1 Hj Hk1; destruct (nth_ts _ _ _ Hj) as [(-> & ->)|(N & Hj')]; [discriminate|]; apply (g_free _ _ _ _ G _ _ _ Hj' Hk1).
    + intros j u d Hj Hd; destruct (nth_ts _ _ _ Hj) as [(-> & ->)|(N & Hj')]; [discriminate|apply (g_dec _ _ _ _ G _ _ _ Hj' Hd)].
    + intros b1 Hb; apply (back_other w' t' b1); auto; [congruence|eauto|].
      intros a1 n1 H; cbn; destruct (Nat.eq_dec a1 a) as [->|N1]; [congruence|rewrite nth_error_upd_neq; auto].
Qed.
End Steps.

(** *** One turn of a thread *)
Definition sizes_kept (w w' : common) : Prop :=
  forall b, option_map (fun x => length (sb_cells x)) (nth_error (cm_blocks w') b) =
            option_map (fun x => length (sb_cells x)) (nth_error (cm_blocks w) b).
(** how a turn may change the arrays *)
Definition arr_change (p : list sstmt) (w w' : common) : Prop :=
  cm_arrays w' = cm_arrays w \/
  (exists a b n c, mentions p a /\ nth_error (cm_arrays w) a = Some (Some (HHeap (Some b) n None)) /\
     cm_arrays w' = upd (cm_arrays w) a (Some (HHeap (Some b) n (Some c)))) \/
  (exists a h, In (TDrop a) p /\ nth_error (cm_arrays w) a = Some (Some h) /\ cm_arrays w' = upd (cm_arrays w) a None).

Lemma tinv_intro w p fg t A :
  (forall a, mentions p a -> nth_error A a = nth_error (array_refs (cm_arrays w)) a) ->
  ref_run (refs (st_vars t)) A (rem t) = Some fg ->
  (forall s a, In (TShare s a) (rem t) -> mentions p a) -> (forall a, In (TDrop a) (rem t) -> In (TDrop a) p) ->
  match st_now t with Some (MReset _ _) | Some (MJoin _ _) => False | _ => True end ->
  tinv w p fg t.
Proof. intros H1 H2 H3 H4 H5; split; eauto. destruct (st_now t) as [[]|]; auto; contradiction. Qed.

Lemma holds_upd vars now now' p p' s o o' d :
  nth_error vars s = Some o ->
  holds d (SThread (upd vars s o') now' p') + owns_s d o + dec_of d (SThread vars now p) =
  holds d (SThread vars now p) + owns_s d o' + dec_of d (SThread (upd vars s o') now' p').
Proof. intros H; unfold holds; cbn [st_vars]; pose proof (total_upd (owns_s d) vars s o' o H); unfold dec_of; cbn [st_now]; lia. Qed.
Lemma dec_release d vars p o :
  dec_of d (SThread vars (s_release (s_sptr o)) p) = owns_s d (Some o).
Proof. unfold dec_of, s_release; cbn; destruct (s_sptr o); auto. Qed.
Lemma del_release vars p o : deleting (SThread vars (s_release (s_sptr o)) p) = None.
Proof. unfold deleting, s_release; cbn; destruct (s_sptr o); auto. Qed.
Lemma pend_release vars p o : pend (SThread vars (s_release (s_sptr o)) p) = [].
Proof. unfold pend, s_release; cbn; destruct (s_sptr o); auto. Qed.
Lemma now_release o : match s_release (s_sptr o) with Some (MReset _ _) | Some (MJoin _ _) => False | _ => True end.
Proof. unfold s_release; destruct (s_sptr o); auto. Qed.

Section Turn.
Variables (held : nat -> Prop) (w : common) (ts : list sthread) (own : nat -> who).
Variables (i : nat) (t : sthread) (p0 : list sstmt) (fg : list ref * list ref).
Hypotheses (G : ginv held w ts own) (Ht : nth_error ts i = Some t) (T : tinv w p0 fg t).

Definition good (r : option (common * sthread)) : Prop :=
  exists w' t' own', r = Some (w', t') /\ ginv held w' (upd ts i t') own' /\ tinv w' p0 fg t' /\ arr_change p0 w w' /\ sizes_kept w w'.

Lemma good_private t' :
  deleting t = None -> deleting t' = None -> (forall c, holds c t' = holds c t) -> valid w t' -> tinv w p0 fg t' ->
  good (Some (w, t')).
Proof.
  intros D D' HH HV HT; exists w, t', own; split; [reflexivity|split; [|split; [exact HT|split; [left; reflexivity|intros b; reflexivity]]]].
  apply (ginv_private _ _ _ _ _ _ G Ht t' D D' HH HV).
Qed.
Lemma good_inc c t' :
  deleting t = None -> deleting t' = None -> (exists k, nth_error (cm_ctrls w) c = Some k /\ 0 < sc_count k) ->
  (forall d, holds d t' = holds d t + if Nat.eqb d c then 1 else 0) -> valid w t' -> tinv w p0 fg t' ->
  exists K, s_inc (cm_ctrls w) c = Some K /\ good (Some (with_ctrls w K, t')).
Proof.
  intros D D' HC HH HV HT; destruct (ginv_inc _ _ _ _ _ _ G Ht c t' D D' HC HH HV) as (K & E1 & E2); exists K; split; auto.
  exists (with_ctrls w K), t', own; split; [reflexivity|split; [exact E2|split; [|split; [left; reflexivity|intros b; reflexivity]]]].
  destruct HT as [R1 R2 R3 R4]; split; auto.
Qed.

Lemma shared_pos h c : In (Some h) (st_vars t) -> s_sptr h = Some c ->
  exists b j, s_data h = Some b /\ nth_error (cm_ctrls w) c = Some (SCtrl (S j) (b, s_size h)).
Proof.
  intros Hin Hs; destruct (g_shared _ _ _ _ G _ _ _ _ Ht Hin Hs) as (b & j & E1 & E2); exists b.
  pose proof (g_count _ _ _ _ G _ _ E2) as GC; cbn in GC.
  pose proof (total_ge (holds c) ts i t Ht) as G1; unfold holds at 1 in G1.
  destruct (In_nth_error _ _ Hin) as (s & Hs1); pose proof (total_ge (owns_s c) _ _ _ Hs1) as G2; cbn in G2; rewrite Hs, Nat.eqb_refl in G2.
  destruct j as [|j]; [lia|]; eauto.
Qed.
Lemma valid_now vars now p : (forall h, In (Some h) vars -> In (Some h) (st_vars t) \/ s_sptr h = None) ->
  (forall c, now = Some (MDec c) -> exists k, nth_error (cm_ctrls w) c = Some k) -> valid w (SThread vars now p).
Proof.
  intros Hv Hd; split; auto; cbn; intros h c Hin Hs; destruct (Hv h Hin) as [H|H]; [|congruence].
  apply (g_shared _ _ _ _ G _ _ _ _ Ht H Hs).
Qed.
Lemma release_valid o c : In (Some o) (st_vars t) -> s_release (s_sptr o) = Some (MDec c) -> exists k, nth_error (cm_ctrls w) c = Some k.
Proof.
  intros Hin; unfold s_release; destruct (s_sptr o) as [d|] eqn:E; [|discriminate]; intros [= ->].
  destruct (g_shared _ _ _ _ G _ _ _ _ Ht Hin E) as (b & j & _ & E2); eauto.
Qed.

(** a statement begins *)
Lemma good_begin st p : st_now t = None -> st_prog t = st :: p -> good (s_turn trivial w t).
Proof.
  intros Hn Hp; destruct T as [(A & HA & HR) T2 T3 _]; unfold s_turn; rewrite Hn, Hp.
  assert (RM : rem t = st :: p) by (unfold rem, pend; rewrite Hn, Hp; auto).
  assert (D : deleting t = None) by (unfold deleting; rewrite Hn; auto).
  assert (Et : t = SThread (st_vars t) None (st :: p)) by (destruct t; cbn in *; congruence).
  rewrite RM in *; cbn [ref_run] in HR.
  set (vs := st_vars t) in *.
  assert (T2' : forall s a, In (TShare s a) p -> mentions p0 a) by (intros s a H; apply (T2 s a); right; auto).
  assert (T3' : forall a, In (TDrop a) p -> In (TDrop a) p0) by (intros a H; apply T3; right; auto).
  (* statements that only announce an access *)
  assert (KEEP : forall m, deleting (SThread vs (Some m) p) = None -> (forall d, dec_of d (SThread vs (Some m) p) = 0) -> (forall c, m <> MDec c) ->
            pend (SThread vs (Some m) p) = [st] -> match m with MReset _ _ | MJoin _ _ => False | _ => True end ->
            match ref_step (refs vs) A st with Some (v1, a1) => ref_run v1 a1 p | None => None end = Some fg ->
            good (Some (w, SThread vs (Some m) p))).
  { intros m D' Hd Hm Hpe Hno HR'; apply good_private; auto.
    - intros c; unfold holds; rewrite Hd, Et; unfold dec_of; cbn; auto.
    - apply valid_now; auto; intros c [= ->]; destruct (Hm c); auto.
    - apply (tinv_intro w p0 fg _ A); auto; unfold rem; rewrite Hpe; cbn [app st_prog]; auto. }
  destruct st as [s a|s x|s x|s x|s x|s j|s|a]; cbn [s_begin].
  - pose proof HR as HR0; cbn [ref_step] in HR0; destruct (nth_error (refs vs) s) as [[|]|] eqn:E; try discriminate.
    destruct (nth_refs_inv _ _ _ E) as ([h|] & E1 & E2); try discriminate; rewrite E1; apply KEEP; auto; discriminate.
  - pose proof HR as HR0; cbn [ref_step] in HR0; destruct (nth_error (refs vs) s) as [[|]|] eqn:E; try discriminate.
    destruct (nth_error (refs vs) x) as [[r|]|] eqn:F; try discriminate.
    destruct (nth_refs_inv _ _ _ E) as ([h|] & E1 & E2); try discriminate; destruct (nth_refs_inv _ _ _ F) as ([g|] & F1 & F2); try discriminate.
    rewrite E1, F1; apply KEEP; auto; try discriminate; unfold pend; cbn; rewrite E1; auto.
  - pose proof HR as HR0; cbn [ref_step] in HR0; destruct (nth_error (refs vs) s) as [[|]|] eqn:E; try discriminate.
    destruct (nth_error (refs vs) x) as [[r|]|] eqn:F; try discriminate.
    destruct (nth_refs_inv _ _ _ E) as ([h|] & E1 & E2); try discriminate; destruct (nth_refs_inv _ _ _ F) as ([g|] & F1 & F2); try discriminate.
    rewrite E1, F1; apply KEEP; auto; try discriminate; unfold pend; cbn; rewrite E1; auto.
  - cbn [ref_step] in HR; destruct (nth_error (refs vs) s) as [[|]|] eqn:E; try discriminate.
    destruct (nth_error (refs vs) x) as [[r|]|] eqn:F; try discriminate.
    destruct (nth_refs_inv _ _ _ E) as ([h|] & E1 & E2); try discriminate; destruct (nth_refs_inv _ _ _ F) as ([g|] & F1 & F2); try discriminate.
    injection F2 as ->; rewrite E1, F1.
    assert (N : s <> x) by (intros ->; congruence).
    apply good_private; auto.
    + intros d; rewrite Et.
      assert (F1' : nth_error (upd vs s (Some g)) x = Some (Some g)) by (rewrite nth_error_upd_neq by auto; auto).
      pose proof (holds_upd (upd vs s (Some g)) None None p p x (Some g) (Some (HShared (s_data g) (s_size g) None)) d F1') as Q1.
      pose proof (holds_upd vs None None (TMove s x :: p) p s None (Some g) d E1) as Q2.
      unfold dec_of in Q1, Q2; cbn [st_now] in Q1, Q2; cbn [owns_s s_sptr] in Q1, Q2; lia.
    + apply valid_now; [|discriminate]; intros h Hin; apply In_upd in Hin; destruct Hin as [[= ->]|Hin]; auto.
      apply In_upd in Hin; destruct Hin as [[= ->]|Hin]; auto; left; eapply nth_error_In; eauto.
    + apply (tinv_intro w p0 fg _ A); auto; cbn [rem pend st_now st_prog app st_vars]; rewrite ?refs_upd; auto.
  - cbn [ref_step] in HR; destruct (nth_error (refs vs) s) as [[|]|] eqn:E; try discriminate.
    destruct (nth_error (refs vs) x) as [[r|]|] eqn:F; try discriminate.
    destruct (nth_refs_inv _ _ _ E) as ([h|] & E1 & E2); try discriminate; destruct (nth_refs_inv _ _ _ F) as ([g|] & F1 & F2); try discriminate.
    injection F2 as ->; rewrite E1, F1; destruct (Nat.eqb_spec s x) as [->|N].
    + apply good_private; auto.
      * intros d; rewrite Et; reflexivity.
      * apply valid_now; auto; discriminate.
      * apply (tinv_intro w p0 fg _ A); auto; unfold rem; cbn [pend st_now st_prog app st_vars]; auto.
    + apply good_private; auto; [apply del_release| | |].
      * intros d; rewrite Et.
        assert (F1' : nth_error (upd vs s (Some g)) x = Some (Some g)) by (rewrite nth_error_upd_neq by auto; auto).
        pose proof (holds_upd (upd vs s (Some g)) None (s_release (s_sptr h)) p p x (Some g) (Some (HShared (s_data g) (s_size g) None)) d F1') as Q1.
        pose proof (holds_upd vs None None (TMoveAssign s x :: p) p s (Some h) (Some g) d E1) as Q2.
        rewrite dec_release in Q1; unfold dec_of in Q1, Q2; cbn [st_now] in Q1, Q2.
        change (owns_s d (Some (HShared (s_data g) (s_size g) None))) with 0 in Q1; lia.
      * apply valid_now; [|intros c; apply release_valid; eapply nth_error_In; eauto]; intros h1 Hin; apply In_upd in Hin; destruct Hin as [[= ->]|Hin]; auto.
        apply In_upd in Hin; destruct Hin as [[= ->]|Hin]; auto; left; eapply nth_error_In; eauto.
      * apply (tinv_intro w p0 fg _ A); auto; unfold rem; rewrite ?pend_release; cbn [app st_prog st_vars st_now]; auto; [|apply now_release].
        rewrite ?refs_upd; auto.
  - pose proof HR as HR0; cbn [ref_step] in HR0; destruct (nth_error (refs vs) s) as [[[[b n]|]|]|] eqn:E; try discriminate.
    destruct (nth_refs_inv _ _ _ E) as ([h|] & E1 & E2); try discriminate; rewrite E1; apply KEEP; auto; discriminate.
  - cbn [ref_step] in HR; destruct (nth_error (refs vs) s) as [[|]|] eqn:E; try discriminate.
    destruct (nth_refs_inv _ _ _ E) as ([h|] & E1 & E2); try discriminate; rewrite E1.
    apply good_private; auto; [apply del_release| | |].
    + intros d; rewrite Et; pose proof (holds_upd vs None (s_release (s_sptr h)) (TEnd s :: p) p s (Some h) None d E1) as Q.
      rewrite dec_release in Q; unfold dec_of in Q; cbn [st_now] in Q; change (owns_s d None) with 0 in Q; lia.
    + apply valid_now; [|intros c; apply release_valid; eapply nth_error_In; eauto]; intros h1 Hin; apply In_upd in Hin; destruct Hin as [[=]|Hin]; auto.
    + apply (tinv_intro w p0 fg _ A); auto; unfold rem; rewrite ?pend_release; cbn [app st_prog st_vars st_now]; auto; [|apply now_release].
      rewrite ?refs_upd; auto.
  - apply KEEP; auto; discriminate.
Qed.

(** an access to common memory *)
Lemma good_access m : st_now t = Some m -> good (s_turn trivial w t).
Proof.
  intros Hn; destruct T as [(A & HA & HR) T2 T3 T4].
  assert (SAME : forall w' t' own', s_turn trivial w t = Some (w', t') -> ginv held w' (upd ts i t') own' -> cm_arrays w' = cm_arrays w ->
            sizes_kept w w' -> pend t = [] -> pend t' = [] -> st_vars t' = st_vars t -> st_prog t' = st_prog t ->
            match st_now t' with Some (MReset _ _) | Some (MJoin _ _) => False | _ => True end -> good (s_turn trivial w t)).
  { intros w' t' own' E1 E2 E3 E4 E5 E6 E7 E8 E9; exists w', t', own'; split; [auto|split; [auto|split; [|split; [left; auto|auto]]]].
    unfold rem in *; rewrite E5 in *; apply (tinv_intro w' p0 fg t' A); auto; unfold rem; rewrite ?E3, ?E6, ?E7, ?E8; auto. }
  assert (PD : forall t' b, deleting t' = Some b -> pend t' = [] /\ match st_now t' with Some (MReset _ _) | Some (MJoin _ _) => False | _ => True end).
  { intros t' b H; unfold deleting, pend in *; destruct (st_now t') as [[]|]; try discriminate; auto. }
  assert (PN : forall t', st_now t' = None -> pend t' = [] /\ match st_now t' with Some (MReset _ _) | Some (MJoin _ _) => False | _ => True end).
  { intros t' H; unfold pend; rewrite H; auto. }
  assert (Et : t = SThread (st_vars t) (Some m) (st_prog t)) by (destruct t; cbn in *; congruence).
  destruct m as [s a|s a|s a|s x|c|b k n|b|s j|a].
  - (* look at the shared pointer *)
    assert (RM : rem t = TShare s a :: st_prog t) by (unfold rem, pend; rewrite Hn; auto).
    pose proof HR as HR0; rewrite RM in HR, HR0, T2, T3; cbn [ref_run ref_step] in HR; destruct (nth_error (refs (st_vars t)) s) as [[|]|] eqn:E; try discriminate.
    destruct (nth_error A a) as [[r|]|] eqn:F; try discriminate; rewrite HA in F by (apply (T2 s a); left; auto).
    destruct (nth_refs_inv _ _ _ E) as ([h|] & E1 & E2); try discriminate; destruct (nth_arefs_inv _ _ _ F) as ([g|] & F1 & F2); try discriminate.
    injection F2 as ->; unfold s_turn; rewrite Hn; cbn [s_access]; rewrite F1.
    assert (D : deleting t = None) by (unfold deleting; rewrite Hn; auto).
    destruct g as [[b|] n [c|]]; cbn [h_data h_sptr h_size].
    + apply good_private; auto.
      * intros d; rewrite Et; unfold holds, dec_of; cbn; auto.
      * apply valid_now; auto; discriminate.
      * split; [exists A; split; auto| | |exists b, n, c; auto]; cbn [st_vars]; unfold rem; cbn [pend st_now st_prog app]; auto.
    + apply good_private; auto.
      * intros d; rewrite Et; unfold holds, dec_of; cbn; auto.
      * apply valid_now; auto; discriminate.
      * split; [exists A; split; auto| | |exists b, n; auto]; cbn [st_vars]; unfold rem; cbn [pend st_now st_prog app]; auto.
    + apply good_private; auto.
      * intros d; rewrite Et; pose proof (holds_upd (st_vars t) (Some (MLook s a)) None (st_prog t) (st_prog t) s None (Some (HShared None n None)) d E1) as Q.
        unfold dec_of in Q; cbn in Q |- *; lia.
      * apply valid_now; [|discriminate]; intros h Hin; apply In_upd in Hin; destruct Hin as [[= ->]|Hin]; auto.
      * apply (tinv_intro w p0 fg _ A); auto; cbn [rem pend st_now st_prog app st_vars]; [rewrite refs_upd; auto|intros s1 a1 H; apply (T2 s1 a1); right; auto|intros a1 H; apply T3; right; auto|exact I].
    + apply good_private; auto.
      * intros d; rewrite Et; pose proof (holds_upd (st_vars t) (Some (MLook s a)) None (st_prog t) (st_prog t) s None (Some (HShared None n None)) d E1) as Q.
        unfold dec_of in Q; cbn in Q |- *; lia.
      * apply valid_now; [|discriminate]; intros h Hin; apply In_upd in Hin; destruct Hin as [[= ->]|Hin]; auto.
      * apply (tinv_intro w p0 fg _ A); auto; cbn [rem pend st_now st_prog app st_vars]; [rewrite refs_upd; auto|intros s1 a1 H; apply (T2 s1 a1); right; auto|intros a1 H; apply T3; right; auto|exact I].
  - (* set it *)
    assert (RM : rem t = TShare s a :: st_prog t) by (unfold rem, pend; rewrite Hn; auto).
    rewrite Hn in T4; destruct T4 as (b & n & Ha).
    destruct (ginv_reset _ _ _ _ _ _ G Ht s a b n Hn Ha) as (E1 & own' & E2).
    eexists _, _, own'; split; [exact E1|split; [exact E2|split; [|split; [|intros b1; reflexivity]]]].
    + assert (Er : array_refs (upd (cm_arrays w) a (Some (HHeap (Some b) n (Some (length (cm_ctrls w)))))) = array_refs (cm_arrays w)).
      { rewrite arefs_upd; apply upd_same; unfold array_refs; rewrite nth_error_map, Ha; reflexivity. }
      split; [exists A| | |]; cbn [cm_arrays with_array with_ctrls st_vars st_now]; rewrite ?Er; [split; auto| | |].
      1-3: unfold rem; cbn [pend st_now st_prog app]; rewrite <- RM; auto.
      exists b, n, (length (cm_ctrls w)); eapply upd_at; eauto.
    + right; left; exists a, b, n, (length (cm_ctrls w)); split; [apply (T2 s a); rewrite RM; left; auto|split; auto].
  - (* copy it *)
    assert (RM : rem t = TShare s a :: st_prog t) by (unfold rem, pend; rewrite Hn; auto).
    rewrite RM in HR, T2, T3; cbn [ref_run ref_step] in HR; destruct (nth_error (refs (st_vars t)) s) as [[|]|] eqn:E; try discriminate.
    destruct (nth_error A a) as [[r|]|] eqn:F; try discriminate; rewrite HA in F by (apply (T2 s a); left; auto).
    destruct (nth_refs_inv _ _ _ E) as ([h|] & E1 & E2); try discriminate; destruct (nth_arefs_inv _ _ _ F) as ([g|] & F1 & F2); try discriminate.
    injection F2 as ->; rewrite Hn in T4; destruct T4 as (b & n & c & Ha); rewrite Ha in F1; injection F1 as <-.
    destruct (g_arrays _ _ _ _ G _ _ _ Ha eq_refl) as (b1 & j & Eb & Ec); cbn in Eb, Ec; injection Eb as <-.
    assert (D : deleting t = None) by (unfold deleting; rewrite Hn; auto).
    destruct (good_inc c (SThread (upd (st_vars t) s (Some (HShared (Some b) n (Some c)))) None (st_prog t))) as (K & K1 & K2); auto.
    + eexists; split; [exact Ec|]; pose proof (g_count _ _ _ _ G _ _ Ec) as GC.
      pose proof (total_ge (owns_h c) _ _ _ Ha) as TG; cbn in TG; rewrite Nat.eqb_refl in TG; lia.
    + intros d; rewrite Et; pose proof (holds_upd (st_vars t) (Some (MJoin s a)) None (st_prog t) (st_prog t) s None (Some (HShared (Some b) n (Some c))) d E1) as Q.
      unfold dec_of in Q; cbn [st_now owns_s s_sptr] in Q; cbn [st_vars st_prog]; lia.
    + split; [|discriminate]; intros h d Hin Hs; apply In_upd in Hin; destruct Hin as [[= ->]|Hin].
      * cbn in Hs |- *; injection Hs as <-; eauto.
      * apply (g_shared _ _ _ _ G _ _ _ _ Ht Hin Hs).
    + apply (tinv_intro w p0 fg _ A); auto; cbn [rem pend st_now st_prog app st_vars]; [rewrite refs_upd; auto|intros s1 a1 H; apply (T2 s1 a1); right; auto|intros a1 H; apply T3; right; auto|exact I].
    + unfold s_turn; rewrite Hn; cbn [s_access]; rewrite Ha, K1; exact K2.
  - (* copy of a shared handle *)
    assert (D : deleting t = None) by (unfold deleting; rewrite Hn; auto).
    assert (X : exists o g, nth_error (st_vars t) s = Some o /\ nth_error (st_vars t) x = Some (Some g) /\
              ref_run (upd (refs (st_vars t)) s (Some (refers_to g))) A (st_prog t) = Some fg /\
              (forall s1 a1, In (TShare s1 a1) (st_prog t) -> In (TShare s1 a1) (rem t)) /\ (forall a1, In (TDrop a1) (st_prog t) -> In (TDrop a1) (rem t))).
    { assert (Y : forall st, pend t = [st] -> (st = TCopy s x \/ st = TCopyAssign s x) -> exists o g, nth_error (st_vars t) s = Some o /\ nth_error (st_vars t) x = Some (Some g) /\
              ref_run (upd (refs (st_vars t)) s (Some (refers_to g))) A (st_prog t) = Some fg /\
              (forall s1 a1, In (TShare s1 a1) (st_prog t) -> In (TShare s1 a1) (rem t)) /\ (forall a1, In (TDrop a1) (st_prog t) -> In (TDrop a1) (rem t))).
      { intros st Hpe Hst; unfold rem in *; rewrite Hpe in *; cbn [app ref_run] in HR.
        destruct Hst as [-> | ->]; cbn [ref_step] in HR; destruct (nth_error (refs (st_vars t)) s) as [[|]|] eqn:E; try discriminate;
          destruct (nth_error (refs (st_vars t)) x) as [[r|]|] eqn:F; try discriminate;
          destruct (nth_refs_inv _ _ _ E) as (o9 & E1 & E2); destruct (nth_refs_inv _ _ _ F) as ([g|] & F1 & F2); try discriminate;
          injection F2 as ->; exists o9, g; repeat split; auto; cbn; auto. }
      unfold pend in Y; rewrite Hn in Y; destruct (nth_error (st_vars t) s) as [[h|]|]; [apply (Y (TCopyAssign s x))|apply (Y (TCopy s x))|apply (Y (TCopyAssign s x))]; auto. }
    destruct X as (o & g & E1 & F1 & HR' & T2' & T3').
    set (next := match o with Some h => s_release (s_sptr h) | None => None end).
    set (t' := SThread (upd (st_vars t) s (Some g)) next (st_prog t)).
    assert (D' : deleting t' = None) by (unfold t', next; destruct o; [apply del_release|reflexivity]).
    assert (PE : pend t' = []) by (unfold t', next; destruct o; [apply pend_release|reflexivity]).
    assert (HH : forall d, holds d t' = holds d t + owns_s d (Some g)).
    { intros d; rewrite Et; pose proof (holds_upd (st_vars t) (Some (MCopy s x)) next (st_prog t) (st_prog t) s o (Some g) d E1) as Q.
      assert (DO : dec_of d (SThread (upd (st_vars t) s (Some g)) next (st_prog t)) = owns_s d o) by (unfold next; destruct o; [apply dec_release|reflexivity]).
      rewrite DO in Q; unfold t'; cbn [st_vars st_prog]; change (dec_of d (SThread (st_vars t) (Some (MCopy s x)) (st_prog t))) with 0 in Q; lia. }
    assert (HV : valid w t').
    { split.
      - intros h c Hin Hs; apply In_upd in Hin; destruct Hin as [[= ->]|Hin]; [apply nth_error_In in F1|]; eapply (g_shared _ _ _ _ G _ _ _ _ Ht); eauto.
      - intros c Hc; unfold t', next in Hc; cbn [st_now] in Hc; destruct o as [h|]; [|discriminate]; eapply release_valid; [eapply nth_error_In; exact E1|exact Hc]. }
    assert (HT : tinv w p0 fg t').
    { apply (tinv_intro w p0 fg t' A); auto; unfold rem; rewrite ?PE; unfold t'; cbn [app st_prog st_vars st_now].
      - rewrite refs_upd; auto.
      - intros s1 a1 H; eauto.
      - intros a1 H; eauto.
      - unfold next; destruct o; [apply now_release|auto]. }
    unfold s_turn; rewrite Hn; cbn [s_access]; rewrite E1, F1; fold next; destruct (s_sptr g) as [c|] eqn:Es.
    + destruct (shared_pos g c) as (b & j & Eb & Ec); [eapply nth_error_In; eauto|auto|].
      destruct (good_inc c t') as (K & K1 & K2); auto.
      * eexists; split; [exact Ec|cbn; lia].
      * intros d; rewrite HH; cbn; rewrite Es; auto.
      * rewrite K1; exact K2.
    + apply good_private; auto; intros d; rewrite HH; cbn; rewrite Es; lia.
  - destruct (ginv_dec _ _ _ _ _ _ G Ht c Hn) as (w' & t' & own' & Q1 & Q2 & Q3 & Q4 & _ & Q5 & Q6 & Q7).
    assert (PT : pend t' = [] /\ match st_now t' with Some (MReset _ _) | Some (MJoin _ _) => False | _ => True end).
    { destruct Q7 as [Q7|(b & Q7)]; eauto. }
    apply (SAME w' t' own'); auto; try apply PT; [intros b; rewrite Q4; auto|unfold pend; rewrite Hn; auto].
  - destruct (ginv_kill _ _ _ _ _ _ G Ht b k n Hn) as (w' & t' & Q1 & Q2 & Q3 & Q4 & Q5 & Q6 & Q7 & Q8).
    destruct (PD _ _ Q8) as (PT1 & PT2); apply (SAME w' t' own); auto; unfold pend; rewrite Hn; auto.
  - destruct (ginv_free _ _ _ _ _ _ G Ht b Hn) as (w' & t' & own' & Q1 & Q2 & Q3 & Q4 & Q5 & Q6 & Q7 & Q8).
    destruct (PN _ Q8) as (PT1 & PT2); apply (SAME w' t' own'); auto; unfold pend; rewrite Hn; auto.
  - (* an element *)
    assert (RM : rem t = TUse s j :: st_prog t) by (unfold rem, pend; rewrite Hn; auto).
    assert (D : deleting t = None) by (unfold deleting; rewrite Hn; auto).
    rewrite RM in HR, T2, T3; cbn [ref_run ref_step] in HR; destruct (nth_error (refs (st_vars t)) s) as [[[[b n]|]|]|] eqn:E; try discriminate.
    destruct (Nat.ltb_spec j n) as [L|L]; [|discriminate].
    destruct (nth_refs_inv _ _ _ E) as ([[d1 n1 [c|]]|] & E1 & E2); try discriminate; unfold refers_to in E2; cbn in E2.
    destruct d1 as [b1|]; [|discriminate]; injection E2 as <- <-.
    destruct (shared_pos _ c (nth_error_In _ _ E1) eq_refl) as (b2 & k & Eb & Ec); cbn in Eb, Ec; injection Eb as <-.
    destruct (g_ctrl _ _ _ _ G _ _ _ _ Ec) as (_ & I); unfold intact in I.
    unfold s_turn; rewrite Hn; cbn [s_access]; rewrite E1, I.
    assert (NE : nth_error (repeat true n) j = Some true).
    { rewrite (nth_error_nth' _ true) by (rewrite repeat_length; auto); f_equal; apply nth_repeat. }
    rewrite NE; apply good_private; auto.
    + intros d; rewrite Et; unfold holds, dec_of; cbn; auto.
    + apply valid_now; auto; discriminate.
    + apply (tinv_intro w p0 fg _ A); auto; cbn [rem pend st_now st_prog app st_vars]; [intros s1 a1 H; apply (T2 s1 a1); right; auto|intros a1 H; apply T3; right; auto|exact Logic.I].
  - (* an array ends *)
    assert (RM : rem t = TDrop a :: st_prog t) by (unfold rem, pend; rewrite Hn; auto).
    rewrite RM in HR, T2, T3; cbn [ref_run ref_step] in HR; destruct (nth_error A a) as [[r|]|] eqn:F; try discriminate.
    assert (ME : In (TDrop a) p0) by (apply T3; left; auto).
    rewrite HA in F by (right; auto); destruct (nth_arefs_inv _ _ _ F) as ([g|] & F1 & F2); try discriminate.
    destruct (ginv_drop _ _ _ _ _ _ G Ht a g Hn F1) as (t' & own' & Q1 & Q2 & Q3 & Q4 & Q5).
    assert (PT : pend t' = [] /\ match st_now t' with Some (MReset _ _) | Some (MJoin _ _) => False | _ => True end).
    { destruct Q5 as [Q5|[(b & Q5)|(c & k & Q5 & _)]]; eauto; unfold pend; rewrite Q5; auto. }
    destruct PT as (PT1 & PT2).
    exists (with_array w a None), t', own'; split; [auto|split; [auto|split; [|split; [right; right; exists a, g; auto|intros b; reflexivity]]]].
    apply (tinv_intro _ p0 fg t' (upd A a None)); auto; unfold rem; rewrite ?PT1, ?Q3, ?Q4; cbn [app]; auto.
    + intros a1 Hm; cbn [cm_arrays with_array]; rewrite arefs_upd; cbn [option_map].
      assert (LA : nth_error A a = nth_error (array_refs (cm_arrays w)) a) by (apply HA; right; auto).
      rewrite F in LA; destruct (Nat.eq_dec a1 a) as [->|N]; [rewrite (upd_at _ _ _ _ LA), (upd_at _ _ _ _ F); auto|].
      rewrite !nth_error_upd_neq by auto; auto.
    + intros s1 a1 H; apply (T2 s1 a1); right; auto.
    + intros a1 H; apply T3; right; auto.
Qed.

Lemma good_turn : good (s_turn trivial w t).
Proof.
  destruct (st_now t) as [m|] eqn:Hn; [eapply good_access; eauto|].
  destruct (st_prog t) as [|st p] eqn:Hp; [|eapply good_begin; eauto].
  unfold s_turn; rewrite Hn, Hp; apply good_private; auto.
  - unfold deleting; rewrite Hn; auto.
  - unfold deleting; rewrite Hn; auto.
  - split; [intros h c Hin Hs; apply (g_shared _ _ _ _ G _ _ _ _ Ht Hin Hs)|rewrite Hn; discriminate].
Qed.
End Turn.

(** *** All threads *)
Record sinv (held : nat -> Prop) (w0 : common) (P : list (list sstmt)) (R : list (list ref * list ref)) (s : common * list sthread) : Prop := {
  si_len : length (snd s) = length P;
  si_g : exists own, ginv held (fst s) (snd s) own;
  si_t : forall i t, nth_error (snd s) i = Some t -> exists p fg, nth_error P i = Some p /\ nth_error R i = Some fg /\ tinv (fst s) p fg t;
  si_r : rinv w0 P (fst s) }.

Lemma tinv_frame w w' p fg t :
  (forall a, mentions p a -> nth_error (cm_arrays w') a = nth_error (cm_arrays w) a) -> tinv w p fg t -> tinv w' p fg t.
Proof.
  intros HF [(A & HA & HR) T2 T3 T4]; split; auto.
  - exists A; split; auto; intros a Hm; rewrite HA by auto; unfold array_refs; rewrite !nth_error_map, HF; auto.
  - destruct (st_now t) as [[]|] eqn:E; auto; rewrite HF; auto; apply (T2 s a); unfold rem, pend; rewrite E; left; auto.
Qed.

Lemma change_apart w0 P w w' i p j q a :
  rinv w0 P w -> arr_change p w w' -> i <> j -> nth_error P i = Some p -> nth_error P j = Some q -> mentions q a ->
  nth_error (cm_arrays w') a = nth_error (cm_arrays w) a.
Proof.
  intros HR [->|[(a1 & b & n & c & Hm & Ha & ->)|(a1 & h & Hm & Ha & ->)]] N Hp Hq Hma; auto.
  - destruct (Nat.eq_dec a a1) as [->|Na]; [|apply nth_error_upd_neq; auto].
    destruct (r_apart _ _ _ HR i j p q a1 N Hp Hq Hm Hma) as ((h & E & [F|F]) & _); rewrite Ha in E; injection E as <-; cbn in F; congruence.
  - destruct (Nat.eq_dec a a1) as [->|Na]; [|apply nth_error_upd_neq; auto].
    destruct (r_apart _ _ _ HR i j p q a1 N Hp Hq (or_intror Hm) Hma) as (_ & F); contradiction.
Qed.

Lemma rinv_change w0 P w w' i p :
  rinv w0 P w -> nth_error P i = Some p -> arr_change p w w' -> sizes_kept w w' -> rinv w0 P w'.
Proof.
  intros HR Hp HC HS; split.
  - intros i1 j1 p1 q1 a N H1 H2 M1 M2; destruct (r_apart _ _ _ HR i1 j1 p1 q1 a N H1 H2 M1 M2) as ((h & E & F) & ND); split; auto.
    exists h; split; auto; rewrite <- E; destruct (Nat.eq_dec i j1) as [->|Nj].
    + apply (change_apart w0 P w w' j1 p i1 p1 a); auto.
    + apply (change_apart w0 P w w' i p j1 q1 a); auto.
  - intros a Ha; rewrite <- (r_others _ _ _ HR a Ha); apply nth_error_In in Hp.
    destruct HC as [->|[(a1 & b & n & c & Hm & Hb & ->)|(a1 & h & Hm & Hb & ->)]]; auto.
    + apply nth_error_upd_neq; intros ->; apply (Ha p Hp Hm).
    + apply nth_error_upd_neq; intros ->; apply (Ha p Hp); right; auto.
  - intros a Ha; rewrite <- (r_kept _ _ _ HR a Ha); apply nth_error_In in Hp.
    destruct HC as [->|[(a1 & b & n & c & Hm & Hb & ->)|(a1 & h & Hm & Hb & ->)]]; auto.
    + rewrite arefs_upd, upd_same; auto; unfold array_refs; rewrite nth_error_map, Hb; auto.
    + rewrite arefs_upd; apply nth_error_upd_neq; intros ->; apply (Ha p Hp Hm).
  - intros b; rewrite HS; apply (r_size _ _ _ HR).
Qed.

Lemma sinv_step held w0 P R s i : sinv held w0 P R s -> exists s', s_step trivial s i = Some s' /\ sinv held w0 P R s'.
Proof.
  intros [HL (own & G) HT HR]; destruct s as [w ts]; cbn [fst snd] in *; unfold s_step; cbn [fst snd].
  destruct (nth_error ts i) as [t|] eqn:Ht; [|exists (w, ts); split; auto; split; eauto].
  destruct (HT i t Ht) as (p & fg & Hp & Hr & TI).
  destruct (good_turn held w ts own i t p fg G Ht TI) as (w' & t' & own' & E & G' & T' & C & S); rewrite E.
  exists (w', upd ts i t'); split; auto; split; cbn [fst snd].
  - rewrite upd_length; auto.
  - eauto.
  - intros j u Hj; destruct (Nat.eq_dec j i) as [->|N].
    + rewrite (upd_at _ _ _ _ Ht) in Hj; injection Hj as <-; eauto.
    + rewrite nth_error_upd_neq in Hj by auto; destruct (HT j u Hj) as (q & fq & Hq & Hf & TJ); exists q, fq; repeat split; auto; try apply TJ.
      all: assert (TJ' : tinv w' q fq u) by (eapply tinv_frame; [|exact TJ]; intros a Hm; apply (change_apart w0 P w w' i p j q a); auto); apply TJ'.
  - eapply rinv_change; eauto.
Qed.
Lemma sinv_sched held w0 P R l : forall s, sinv held w0 P R s -> exists s', s_sched trivial s l = Some s' /\ sinv held w0 P R s'.
Proof.
  induction l as [|i l IH]; intros s I; cbn; [eauto|].
  destruct (sinv_step held w0 P R s i I) as (s1 & -> & I1); apply IH; auto.
Qed.

(** the responsibilities at the beginning *)
Definition own0 (w : common) (b : nat) : who :=
  match find (fun c => match nth_error (cm_ctrls w) c with Some (SCtrl (S _) (b1, _)) => Nat.eqb b1 b | _ => false end) (seq 0 (length (cm_ctrls w))) with
  | Some c => WCtrl c
  | None =>
      match find (fun a => match nth_error (cm_arrays w) a with Some (Some (HHeap (Some b1) _ None)) => Nat.eqb b1 b | _ => false end)
                 (seq 0 (length (cm_arrays w))) with
      | Some a => WArr a
      | None => WGone
      end
  end.
Definition who_of (k : keeper) : who := match k with KCtrl c => WCtrl c | KArray a => WArr a end.
Lemma own0_keeps w b : match own0 w b with WCtrl c => exists n, keeps w (KCtrl c) b n | WArr a => exists n, keeps w (KArray a) b n | WDel _ => False
  | WGone => forall k n, ~ keeps w k b n end.
Proof.
  unfold own0; match goal with |- context [find ?f ?l] => destruct (find f l) as [c|] eqn:E end.
  - apply find_some in E; destruct E as (_ & E); destruct (nth_error (cm_ctrls w) c) as [[[|j] [b1 n]]|] eqn:F; try discriminate.
    apply Nat.eqb_eq in E; subst; exists n, j; auto.
  - pose proof (find_none _ _ E) as F; cbn beta in F; clear E.
    match goal with |- context [find ?f ?l] => destruct (find f l) as [a|] eqn:E end.
    + apply find_some in E; destruct E as (_ & E); destruct (nth_error (cm_arrays w) a) as [[[[b1|] n [c|]]|]|] eqn:H; try discriminate.
      apply Nat.eqb_eq in E; subst; exists n; auto.
    + pose proof (find_none _ _ E) as F2; cbn beta in F2; intros [c|a] n; cbn.
      * intros (j & K); specialize (F c); rewrite K, Nat.eqb_refl in F; discriminate F; apply in_seq; apply nth_lt in K; lia.
      * intros K; specialize (F2 a); rewrite K, Nat.eqb_refl in F2; discriminate F2; apply in_seq; apply nth_lt in K; lia.
Qed.
Lemma own0_of w ts k b n : in_order w ts -> keeps w k b n -> own0 w b = who_of k.
Proof.
  intros IO K; pose proof (own0_keeps w b) as O; destruct (own0 w b) as [c|a|i|]; [| |contradiction|destruct (O k n K)].
  - destruct O as (m & O); rewrite (io_one _ _ IO _ _ _ _ _ K O); auto.
  - destruct O as (m & O); rewrite (io_one _ _ IO _ _ _ _ _ K O); auto.
Qed.

Definition start_R (w : common) (ts : list sthread) : list (list ref * list ref) :=
  map (fun t => match ref_run (refs (st_vars t)) (array_refs (cm_arrays w)) (st_prog t) with Some r => r | None => ([], []) end) ts.

Lemma sinv_start w ts : in_order w ts -> ready w ts -> arrays_apart w ts ->
  sinv (fun b => exists k n, keeps w k b n) w (map st_prog ts) (start_R w ts) (w, ts).
Proof.
  intros IO RD AP; split; cbn [fst snd].
  - rewrite map_length; auto.
  - exists (own0 w).
    assert (NN : forall i t, nth_error ts i = Some t -> st_now t = None) by (intros i t H; apply RD; eapply nth_error_In; eauto).
    split.
    + intros c k H; rewrite (io_count _ _ IO _ _ H); unfold owners; f_equal; apply total_ext; intros t Hin.
      unfold holds, dec_of; destruct (RD t Hin) as (-> & _); lia.
    + intros i t h c H; apply (io_shared _ _ IO); eapply nth_error_In; eauto.
    + intros a h c H; apply (io_arrays _ _ IO); eapply nth_error_In; eauto.
    + intros c j b n H; assert (K : keeps w (KCtrl c) b n) by (exists j; auto); split; [apply (own0_of w ts (KCtrl c) b n IO K)|apply (io_intact _ _ IO _ _ _ K)].
    + intros a b n H; assert (K : keeps w (KArray a) b n) by exact H; split; [apply (own0_of w ts (KArray a) b n IO K)|apply (io_intact _ _ IO _ _ _ K)].
    + intros i t b k n H E; rewrite (NN i t H) in E; discriminate.
    + intros i t b H E; rewrite (NN i t H) in E; discriminate.
    + intros i t c H E; rewrite (NN i t H) in E; discriminate.
    + intros b (k & n & K); pose proof (own0_keeps w b) as O; destruct (own0 w b) as [c|a|i|]; [| |contradiction|destruct (O k n K)].
      * destruct O as (m & j & O); eauto.
      * destruct O as (m & O); eauto.
  - intros i t H; exists (st_prog t); unfold start_R; rewrite !nth_error_map, H; cbn [option_map].
    destruct (RD t (nth_error_In _ _ H)) as (E1 & E2); eexists; split; [reflexivity|split; [reflexivity|]].
    assert (RM : rem t = st_prog t) by (unfold rem, pend; rewrite E1; auto).
    apply (tinv_intro _ _ _ _ (array_refs (cm_arrays w))); auto; rewrite ?RM, ?E1; auto.
    + destruct (ref_run _ _ _); [auto|congruence].
    + intros s a Hs; left; eauto.
  - split; auto.
    intros i j p q a N Hp Hq Mp Mq; rewrite nth_error_map in Hp, Hq.
    destruct (nth_error ts i) as [t|] eqn:Hi; [|discriminate]; destruct (nth_error ts j) as [u|] eqn:Hj; [|discriminate]; injection Hp as <-; injection Hq as <-.
    apply (AP i j t u a); auto.
Qed.

(** *** Races *)
Lemma next_mentions t w1 a : next_array t = Some (w1, a) ->
  (exists s, In (TShare s a) (rem t)) \/ In (TDrop a) (rem t).
Proof.
  unfold next_array, rem, pend; destruct (st_now t) as [[]|]; intros [=]; subst; try (left; eexists; left; reflexivity); right; left; auto.
Qed.
Lemma sinv_no_race held w0 P R s : sinv held w0 P R s -> ~ s_race (snd s).
Proof.
  intros [HL _ HT HR] (i & j & t & u & w1 & w2 & a & N & Hi & Hj & Ni & Nj & W).
  destruct (HT i t Hi) as (p & fp & Hp & _ & Tp); destruct (HT j u Hj) as (q & fq & Hq & _ & Tq).
  assert (ME : forall t p fg w1, tinv (fst s) p fg t -> next_array t = Some (w1, a) -> mentions p a).
  { intros t1 p1 fg1 w3 T1 H; destruct (next_mentions _ _ _ H) as [(s1 & X)|X]; [apply (ti_share _ _ _ _ T1 s1 a X)|right; apply (ti_drop _ _ _ _ T1 a X)]. }
  assert (WR : forall t p fg, tinv (fst s) p fg t -> next_array t = Some (true, a) -> In (TDrop a) p \/
             exists b n, nth_error (cm_arrays (fst s)) a = Some (Some (HHeap (Some b) n None))).
  { intros t1 p1 fg1 T1 H; unfold next_array in H; pose proof (ti_now _ _ _ _ T1) as T4; pose proof (ti_drop _ _ _ _ T1 a) as T3.
    unfold rem, pend in T3; destruct (st_now t1) as [[]|]; try discriminate; injection H as ->; [right; auto|left; apply T3; left; auto]. }
  pose proof (r_apart _ _ _ HR i j p q a N Hp Hq (ME _ _ _ _ Tp Ni) (ME _ _ _ _ Tq Nj)) as ((h & E & F) & ND1).
  pose proof (r_apart _ _ _ HR j i q p a (not_eq_sym N) Hq Hp (ME _ _ _ _ Tq Nj) (ME _ _ _ _ Tp Ni)) as (_ & ND2).
  assert (X : In (TDrop a) p \/ In (TDrop a) q \/ exists b n, nth_error (cm_arrays (fst s)) a = Some (Some (HHeap (Some b) n None))).
  { destruct W as [-> | ->]; [destruct (WR _ _ _ Tp Ni)|destruct (WR _ _ _ Tq Nj)]; auto. }
  destruct X as [X|[X|(b & n & X)]]; [contradiction|contradiction|].
  rewrite E in X; injection X as ->; cbn in F; destruct F; congruence.
Qed.

(** *** Every thread ends *)
Definition weight (m : micro) : nat :=
  match m with MLook _ _ => 5 | MReset _ _ => 4 | MJoin _ _ => 3 | MCopy _ _ => 3 | MDrop _ => 3 | MDec _ => 2 | _ => 1 end.
Definition left_t (t : sthread) : nat := 8 * length (st_prog t) + match st_now t with Some m => weight m | None => 0 end.
Definition left_b (b : sblock) : nat := (if sb_live b then 1 else 0) + total (fun x : bool => if x then 1 else 0) (sb_cells b).
Definition left_s (s : common * list sthread) : nat := total left_b (cm_blocks (fst s)) + total left_t (snd s).

Lemma weight_begin vars st v1 m : s_begin vars st = Some (v1, Some m) -> weight m <= 5.
Proof. intros _; destruct m; cbn; lia. Qed.
Lemma weight_release o : match s_release o with Some m => weight m | None => 0 end <= 2.
Proof. destruct o; cbn; lia. Qed.
Lemma weight_destruct b n : weight (s_destruct trivial b n) = 1.
Proof. unfold s_destruct; destruct trivial, (Nat.eqb n 0); auto. Qed.

Lemma turn_less w t w' t' : s_turn trivial w t = Some (w', t') -> s_finished t = false ->
  total left_b (cm_blocks w') + left_t t' < total left_b (cm_blocks w) + left_t t.
Proof.
  unfold s_turn, s_finished, left_t; destruct (st_now t) as [m|] eqn:Hn; [intros H _|].
  - destruct (s_access trivial w (st_vars t) m) as [[[w1 v1] m1]|] eqn:E; [|discriminate]; injection H as <- <-; cbn [st_prog st_now].
    assert (X : total left_b (cm_blocks w1) + match m1 with Some m => weight m | None => 0 end < total left_b (cm_blocks w) + weight m); [|lia].
    destruct m as [s a|s a|s a|s x|c|b k n|b|s j|a]; cbn [s_access] in E.
    + destruct (nth_error (cm_arrays w) a) as [[[[b|] n [c|]]|]|]; try discriminate; cbn in E; injection E as <- <- <-; cbn; lia.
    + destruct (nth_error (cm_arrays w) a) as [[[[b|] n old]|]|]; try discriminate.
      match type of E with match ?k with _ => _ end = _ => destruct k as [k1|]; [|discriminate] end; injection E as <- <- <-; cbn; lia.
    + destruct (nth_error (cm_arrays w) a) as [[[d n [c|]]|]|]; try discriminate.
      destruct (s_inc (cm_ctrls w) c); [|discriminate]; injection E as <- <- <-; cbn; lia.
    + destruct (nth_error (st_vars t) s) as [o|]; try discriminate; destruct (nth_error (st_vars t) x) as [[h|]|]; try discriminate.
      assert (Y : match match o with Some o => s_release (s_sptr o) | None => None end with Some m => weight m | None => 0 end <= 2).
      { destruct o; [apply weight_release|lia]. }
      destruct (s_sptr h) as [c|]; [destruct (s_inc (cm_ctrls w) c); [|discriminate]|]; injection E as <- <- <-; cbn [cm_blocks with_ctrls weight]; lia.
    + destruct (nth_error (cm_ctrls w) c) as [[[|k] [b n]]|]; try discriminate; injection E as <- <- <-; cbn [cm_blocks with_ctrls weight].
      destruct (k =? 0); [rewrite weight_destruct|]; lia.
    + destruct (nth_error (cm_blocks w) b) as [[[|] cs]|] eqn:Hb; try discriminate; destruct (nth_error cs k) as [[|]|] eqn:Hk; try discriminate.
      injection E as <- <- <-; cbn [cm_blocks with_block weight].
      pose proof (total_upd left_b _ _ (SBlock true (upd cs k false)) _ Hb) as Q; unfold left_b at 2 4 in Q; cbn [sb_live sb_cells] in Q.
      pose proof (total_upd (fun x : bool => if x then 1 else 0) _ _ false _ Hk) as Q2; cbn in Q2; destruct (S k <? n); cbn [weight]; lia.
    + destruct (nth_error (cm_blocks w) b) as [[[|] cs]|] eqn:Hb; try discriminate; injection E as <- <- <-; cbn [cm_blocks with_block weight].
      pose proof (total_upd left_b _ _ (SBlock false cs) _ Hb) as Q; unfold left_b at 2 4 in Q; cbn [sb_live sb_cells] in Q; lia.
    + destruct (nth_error (st_vars t) s) as [[[[b|] n q]|]|]; try discriminate; destruct (nth_error (cm_blocks w) b) as [[[|] cs]|]; try discriminate.
      destruct (nth_error cs j) as [[|]|]; try discriminate; injection E as <- <- <-; cbn; lia.
    + destruct (nth_error (cm_arrays w) a) as [[h|]|]; try discriminate; injection E as <- <- <-; cbn [cm_blocks with_array weight].
      destruct (h_sptr h), (h_data h); rewrite ?weight_destruct; cbn; lia.
  - destruct (st_prog t) as [|st p]; [discriminate|intros H _].
    destruct (s_begin (st_vars t) st) as [[v1 m1]|] eqn:E; [|discriminate]; injection H as <- <-; cbn [st_prog st_now length].
    destruct m1 as [m|]; [pose proof (weight_begin _ _ _ _ E)|]; lia.
Qed.
Lemma finished_turn w t : s_finished t = true -> s_turn trivial w t = Some (w, t).
Proof. unfold s_finished, s_turn; destruct (st_now t), (st_prog t); try discriminate; auto. Qed.

Lemma sched_less l : forall s s' i t', s_sched trivial s l = Some s' -> nth_error (snd s') i = Some t' -> s_finished t' = false ->
  count_occ Nat.eq_dec l i + left_s s' <= left_s s.
Proof.
  induction l as [|j l IH]; intros s s' i t' H Hi F; cbn in H; [injection H as <-; cbn; lia|].
  destruct (s_step trivial s j) as [s1|] eqn:E; [|discriminate]; specialize (IH _ _ _ _ H Hi F).
  destruct s as [w ts]; unfold s_step in E; cbn [fst snd] in E; destruct (nth_error ts j) as [t|] eqn:Ht.
  - destruct (s_turn trivial w t) as [[w1 t1]|] eqn:Et; [|discriminate]; injection E as <-.
    destruct (s_finished t) eqn:Ft.
    + rewrite (finished_turn _ _ Ft) in Et; injection Et as <- <-; rewrite upd_same in IH, H by auto.
      cbn [count_occ]; destruct (Nat.eq_dec j i) as [->|N]; [|exact IH].
      exfalso; clear IH; assert (X : forall l s s' t, s_sched trivial s l = Some s' -> nth_error (snd s) i = Some t -> s_finished t = true -> nth_error (snd s') i = Some t).
      { clear; induction l as [|j l IH]; intros s s' t H Hi F; cbn in H; [congruence|].
        destruct (s_step trivial s j) as [s1|] eqn:E; [|discriminate]; apply (IH s1); auto; unfold s_step in E.
        destruct (nth_error (snd s) j) as [u|] eqn:Hj; [|congruence]; destruct (s_turn trivial (fst s) u) as [[w1 u1]|] eqn:Eu; [|discriminate].
        injection E as <-; cbn [snd]; destruct (Nat.eq_dec j i) as [->|N]; [|rewrite nth_error_upd_neq; auto].
        rewrite Hi in Hj; injection Hj as <-; rewrite (finished_turn _ _ F) in Eu; injection Eu as <- <-; eapply upd_at; eauto. }
      pose proof (X l _ _ t H Ht Ft); congruence.
    + pose proof (turn_less _ _ _ _ Et Ft) as L; pose proof (total_upd left_t ts j t1 t Ht) as Q; unfold left_s in *; cbn [fst snd] in *.
      cbn [count_occ]; destruct (Nat.eq_dec j i); lia.
  - injection E as <-; cbn [count_occ]; destruct (Nat.eq_dec j i) as [->|N]; [|exact IH].
    exfalso; clear IH; assert (X : forall l s s', s_sched trivial s l = Some s' -> length (snd s') = length (snd s)).
    { clear; induction l as [|j l IH]; intros s s' H; cbn in H; [congruence|].
      destruct (s_step trivial s j) as [s1|] eqn:E; [|discriminate]; rewrite (IH _ _ H); unfold s_step in E.
      destruct (nth_error (snd s) j) as [u|]; [|congruence]; destruct (s_turn trivial (fst s) u) as [[w1 u1]|]; [|discriminate].
      injection E as <-; cbn; apply upd_length. }
    pose proof (X _ _ _ H) as L; cbn in L; apply nth_error_None in Ht; apply nth_lt in Hi; lia.
Qed.

(** *** The end *)
Lemma ref_run_drop a p : forall v A v' A', ref_run v A p = Some (v', A') -> (nth_error A a = Some None -> nth_error A' a = Some None) /\ (In (TDrop a) p -> nth_error A' a = Some None).
Proof.
  induction p as [|st p IH]; intros v A v' A' H; cbn [ref_run] in H; [injection H as <- <-; split; auto; intros []|].
  destruct (ref_step v A st) as [[v1 A1]|] eqn:E; [|discriminate]; destruct (IH _ _ _ _ H) as (I1 & I2).
  assert (X : (nth_error A a = Some None -> nth_error A1 a = Some None) /\ (st = TDrop a -> nth_error A1 a = Some None)).
  { destruct st as [s x|s x|s x|s x|s x|s j|s|x]; cbn [ref_step] in E.
    1-7: assert (A1 = A) as -> by
      (repeat match type of E with match ?m with _ => _ end = _ => destruct m; try discriminate | (if ?m then _ else _) = _ => destruct m; try discriminate end; congruence);
      split; [auto|discriminate].
    destruct (nth_error A x) as [[r|]|] eqn:F; try discriminate; injection E as <- <-.
    split; [intros Ha; destruct (Nat.eq_dec a x) as [->|N]; [eapply upd_at; eauto|rewrite nth_error_upd_neq; auto]|].
    intros [= ->]; eapply upd_at; eauto. }
  destruct X as (X1 & X2); split; auto. intros [->|Hin]; auto.
Qed.
End Run.
