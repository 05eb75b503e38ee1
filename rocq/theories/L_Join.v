(** All threads together: the invariant at the fork, the end of each thread, the arrays of the parent after the join. *)
From Verif Require Import Base M_Perm L_Perm M_IdxMap S_Layout L_IdxMap M_Slice L_Slice L_Layout M_Loops S_Loops L_Loops M_Handle S_Handle L_Handle L_Own L_Run M_Array S_Array L_Array M_Threads S_Threads L_Sched L_Threads L_Confine.

Section Join.
Context {A : Type}.
Variable (t : traits) (dflt zero : A) (so : list nat) (pr : layout_prop) (junk : list Z).
Hypothesis Hok : traits_ok t.
Hypothesis Hso : is_order (length so) so.
Hypothesis Hrank : (0 < length so < 16)%nat.
Hypothesis Hjunk : length junk = length so.
Notation heap := (list (block A)).
Notation run_act := (run_act t zero).
Notation dl := (layout_default so pr junk).
Notation ARel := (@ARel A t so pr junk).
Notation ARelI := (@ARelI A t so pr junk).
Notation mkw := (@mkw A).

Lemma nth_error_seq a n k : nth_error (seq a n) k = if Nat.ltb k n then Some (a + k)%nat else None.
Proof.
  destruct (Nat.ltb_spec k n) as [Hk|Hk].
  - rewrite (nth_error_nth' (seq a n) 0%nat) by now rewrite seq_length. now rewrite seq_nth.
  - apply nth_error_None. now rewrite seq_length.
Qed.
Lemma F2_impl {X Y} (P Q : X -> Y -> Prop) l l' : (forall x y, P x y -> Q x y) -> Forall2 P l l' -> Forall2 Q l l'.
Proof. intros H F. induction F; constructor; auto. Qed.
(** *** a world whose live blocks have other contents *)
Lemma arel_good w s b l : ARel w s -> nth_error (m_heap (w_mem (aw_w w))) b = Some (Block true l) -> good t l.
Proof.
  intros (i & I) E. pose proof (ar_rel _ _ _ _ _ _ _ I) as R. pose proof (nth_error_lt _ _ _ E) as Lb. rewrite (r_len _ _ _ _ _ _ _ _ R) in Lb.
  destruct (nth_error (i_objs i) b) as [l0|] eqn:E0; [|apply nth_error_None in E0; lia].
  destruct (r_blk _ _ _ _ _ _ _ _ R b l0 E0) as [[E1 G]|E1]; rewrite E in E1; [injection E1 as ->; auto|discriminate].
Qed.
Definition refill (H : heap) (objs : list (list (option A))) : list (list (option A)) :=
  map (fun b => match nth_error H b with Some (Block true l) => l | _ => nth b objs [] end) (seq 0 (length objs)).
Lemma refill_nth H objs b : (b < length objs)%nat -> nth_error (refill H objs) b = Some (match nth_error H b with Some (Block true l) => l | _ => nth b objs [] end).
Proof. intros L. unfold refill. rewrite nth_error_map, nth_error_seq. destruct (Nat.ltb_spec b (length objs)); [|lia]. reflexivity. Qed.
Lemma rejoin c ws wh lays H H' s0 s1 i : ARelI (AWorld (World (Mem H c) wh ws) lays) s0 i -> length H' = length H -> sameblk H H' H ->
  (forall b l, nth_error H' b = Some (Block true l) -> good t l) -> length s1 = length s0 ->
  (forall v, (v < length s0)%nat -> vmatch so pr junk (refill H' (i_objs i)) (nth v lays dl) (at_ (i_h i) v) (aval_of s1 v)) ->
  ARel (AWorld (World (Mem H' c) wh ws) lays) s1.
Proof.
  intros I HL HS HG SL HV. pose proof (ar_rel _ _ _ _ _ _ _ I) as R. cbn [aw_w aw_lay w_mem m_heap] in *. destruct R as [R1 R2 R3 R4 R5 R6 R7]. cbn [w_mem m_heap m_ctrl w_h w_s] in *.
  assert (LN : forall o l, nth_error (i_objs i) o = Some l -> exists l', nth_error (refill H' (i_objs i)) o = Some l' /\ length l' = length l).
  { intros o l Eo. pose proof (nth_error_lt _ _ _ Eo) as Lo. rewrite refill_nth by auto. eexists. split; [reflexivity|].
    destruct (HS o ltac:(lia)) as (lv & c1 & c2 & E1 & E2 & EL). rewrite E1. destruct lv; [|f_equal; eapply nth_error_nth; eauto].
    destruct (R4 o l Eo) as [[E3 _]|E3]; rewrite E3 in E2; congruence. }
  exists (Ideal (refill H' (i_objs i)) (i_h i) (i_s i)). constructor; cbn [aw_w aw_lay i_objs i_h i_s]; rewrite ?SL.
  - constructor; cbn [w_mem m_heap m_ctrl w_h w_s i_objs i_h i_s]; auto.
    + unfold refill. rewrite map_length, seq_length. congruence.
    + revert R2. apply F2_impl. intros x p Hx. destruct p as [| |o|]; cbn [okh] in *; auto. destruct Hx as (l & sp & E1 & E2 & E3 & E4).
      destruct (LN o l E1) as (l' & E' & LL). exists l', sp. rewrite LL. repeat split; auto. intros ->. destruct l; [congruence|discriminate].
    + revert R3. apply F2_impl. intros x p Hx. destruct p as [| |o|]; cbn [oks] in *; auto. destruct Hx as (l & sp & E1 & E2 & E3 & E4).
      destruct (LN o l E1) as (l' & E' & LL). exists l', sp. rewrite LL. repeat split; auto. intros ->. destruct l; [congruence|discriminate].
    + intros o l Eo. assert (Lo : (o < length (i_objs i))%nat) by (apply nth_error_lt in Eo; unfold refill in Eo; rewrite map_length, seq_length in Eo; auto).
      rewrite refill_nth in Eo by auto. injection Eo as <-. destruct (HS o ltac:(lia)) as (lv & c1 & c2 & E1 & E2 & EL). rewrite E1. destruct lv.
      * left. split; auto. eapply HG; eauto.
      * right. destruct (nth_error (i_objs i) o) as [l0|] eqn:E0; [|apply nth_error_None in E0; lia]. destruct (R4 o l0 E0) as [[E3 _]|E3]; rewrite E3 in E2; [discriminate|].
        injection E2 as <-. destruct c1; [auto|discriminate].
    + intros x k Ex. destruct (R6 x k Ex) as (l & El & Ll). destruct (LN _ _ El) as (l' & E' & LL). exists l'. split; auto. congruence.
    + intros b. rewrite R7. unfold live01. destruct (Nat.lt_ge_cases b (length H)) as [Hb|Hb].
      * destruct (HS b Hb) as (lv & c1 & c2 & -> & -> & _). reflexivity.
      * rewrite (proj2 (nth_error_None H b)) by lia. now rewrite (proj2 (nth_error_None H' b)) by lia.
  - exact (ar_uns _ _ _ _ _ _ _ I).
  - exact (ar_lenh _ _ _ _ _ _ _ I).
  - exact (ar_tmp _ _ _ _ _ _ _ I).
  - exact (ar_lens _ _ _ _ _ _ _ I).
  - exact (ar_lenl _ _ _ _ _ _ _ I).
  - exact HV.
Qed.
Lemma arel_ref w s i v x b : ARelI w s i -> getv (w_h (aw_w w)) v = Some x -> h_data x = Some b -> (v < length s)%nat /\ at_ (i_h i) v = Ref b /\
  exists l, nth_error (i_objs i) b = Some l /\ nth_error (m_heap (w_mem (aw_w w))) b = Some (Block true l) /\ length l = h_size x.
Proof.
  intros I Hg Hd. pose proof (ar_rel _ _ _ _ _ _ _ I) as R. unfold getv in Hg. destruct (nth_error (w_h (aw_w w)) v) as [[y|]|] eqn:E; try discriminate. injection Hg as ->.
  destruct (Forall2_nth_error_l _ _ _ _ _ (r_h _ _ _ _ _ _ _ _ R) E) as (q & Eq & Hq). pose proof (nth_error_lt _ _ _ Eq) as Lq. rewrite (ar_lenh _ _ _ _ _ _ _ I) in Lq.
  destruct q as [| |o|]; cbn [okh] in Hq; try discriminate; try contradiction. { injection Hq as ->. discriminate. }
  assert (o = b) as -> by (destruct Hq as (l & sp & _ & _ & Eh & _); injection Eh as ->; cbn in Hd; congruence).
  pose proof (at_nth _ _ _ Eq) as Ea.
  assert (Lv : (v < length s)%nat) by (destruct (Nat.eq_dec v (length s)) as [->|]; [rewrite (ar_tmp _ _ _ _ _ _ _ I) in Ea; discriminate|lia]).
  split; auto. split; auto. destruct (ref_h_live t _ _ _ _ _ _ _ _ _ R Eq) as (l & sp & E1 & E2 & E3 & E4 & _). exists l. split; auto. split; auto. rewrite E in E3. now injection E3 as ->.
Qed.

(** *** the fork *)
Variable (w0 : aworld A) (s0 : list (option (aval A))) (ns : nat) (owner : nat -> list Z -> option nat).
Variable (progs : list (list (tstmt (A := A)))) (ss : list (list (option (aval A)))).
Hypothesis R0 : ARel w0 s0.
Hypothesis D : disciplined t dflt zero so ns owner s0 progs ss.
Let g0 := m_heap (w_mem (aw_w w0)).
Let c0 := m_ctrl (w_mem (aw_w w0)).
Let ws0 := w_s (aw_w w0).
Let p0 := Priv (w_h (aw_w w0)) (aw_lay w0).
Let own0 := ownc so p0 s0 ns owner.
Notation Inv := (Inv t zero g0 own0).
Notation T := (fork t dflt so pr junk w0 progs).
Lemma w0_mkw : w0 = mkw c0 ws0 g0 p0.
Proof. unfold L_Threads.mkw, c0, ws0, g0, p0. destruct w0 as [[[h c] wh ws] l]. reflexivity. Qed.
Lemma R0' : ARel (mkw c0 ws0 g0 p0) s0.
Proof. rewrite <- w0_mkw. exact R0. Qed.
Lemma Hdead0 v : (ns <= v)%nat -> aval_of s0 v = None.
Proof. apply D. Qed.

(** what each thread's solo run reaches *)
Definition ends i (f : heap * priv) : Prop := exists si, nth_error ss i = Some si /\ ARel (mkw c0 ws0 (fst f) (snd f)) si /\ PInv so pr junk g0 p0 s0 ns (snd f) (fst f) si.
Lemma list_choice {X} n (P : nat -> X -> Prop) : (forall i, (i < n)%nat -> exists x, P i x) -> exists l, length l = n /\ forall i x, nth_error l i = Some x -> P i x.
Proof.
  induction n as [|n IH]; intros H; [exists []; split; auto; intros [|i] x E; discriminate|].
  destruct IH as (l & L & E); [intros; apply H; lia|]. destruct (H n ltac:(lia)) as (x & Hx). exists (l ++ [x]). split; [rewrite app_length; cbn; lia|].
  intros i y Ey. destruct (Nat.lt_ge_cases i n) as [Hi|Hi]; [rewrite nth_error_app1 in Ey by lia; auto|]. rewrite nth_error_app2 in Ey by lia.
  destruct (i - length l)%nat as [|k] eqn:Ek; [|destruct k; discriminate]. injection Ey as <-. assert (i = n) as -> by lia. exact Hx.
Qed.
Lemma nth_error_repeat' {X} (x : X) n i y : nth_error (repeat x n) i = Some y -> y = x.
Proof. intros E. apply nth_error_In in E. now apply repeat_spec in E. Qed.
Lemma fork_inv : exists fin gs, Inv T fin gs /\ forall i f, nth_error fin i = Some f -> ends i f.
Proof.
  destruct D as (Hd & DL & DP).
  destruct (list_choice (length progs) (fun i f => ends i f /\ exists q, nth_error progs i = Some q /\ run_act (t_prog t dflt so pr junk p0 q) g0 = Some f /\
     conf t zero (length g0) (okR own0 i) (okW own0 i) (t_prog t dflt so pr junk p0 q) g0)) as (fin & FL & FE).
  { intros i Hi. destruct (nth_error progs i) as [q|] eqn:Eq; [|apply nth_error_None in Eq; lia]. destruct (nth_error ss i) as [si|] eqn:Es; [|apply nth_error_None in Es; lia].
    destruct (DP i q si Eq Es) as [Hh Hp]. pose proof (pinv_start t so pr junk Hso Hrank Hjunk c0 ws0 g0 p0 s0 R0' ns owner Hdead0) as P0.
    destruct (prog_sim t dflt zero so pr junk Hok Hso Hrank Hjunk c0 ws0 g0 p0 s0 R0' ns owner Hdead0 i q g0 p0 s0 si R0' P0 Hp Hh) as (h' & p' & E1 & E2 & E3 & E4).
    exists (h', p'). split; [exists si; auto|]. exists q. auto. }
  exists fin, (repeat g0 (length progs)). split; [|intros i f Ef; now apply FE]. constructor.
  - reflexivity.
  - intros b Hb. cbn [fork ts_shared]. fold g0. destruct (nth_error g0 b) as [[l cs]|] eqn:E; [exists l, cs, cs; auto|]. apply nth_error_None in E. lia.
  - cbn [fork ts_thr]. now rewrite map_length.
  - now rewrite repeat_length.
  - intros i own a g f H1 H2 H3. cbn [fork ts_thr] in H1. rewrite nth_error_map in H1. apply nth_error_repeat' in H2. subst g. destruct (FE i f H3) as (_ & q & Eq & E1 & E2). rewrite Eq in H1. injection H1 as <- <-.
    constructor; auto. { apply skipn_all. } apply untouched_refl. lia.
  - intros b k Hb. cbn [fork ts_shared]. fold g0. destruct (own0 b k) as [j|]; auto. destruct (nth_error (repeat g0 (length progs)) j) as [g|] eqn:E; auto. apply nth_error_repeat' in E. now subst.
Qed.

(** *** a thread that has ended *)
Lemma thread_end S fin gs i own p f : Inv S fin gs -> (forall j f, nth_error fin j = Some f -> ends j f) -> nth_error (ts_thr S) i = Some (own, Done p) -> nth_error fin i = Some f ->
  exists si, nth_error ss i = Some si /\ thread_looks so dl ns owner i (ts_shared S ++ own) p si /\ thread_memory ns (length g0) own p si.
Proof.
  intros I FE Ht Hf. destruct (FE i f Hf) as (si & Es & R & PI). exists si. split; auto.
  pose proof (nth_error_lt _ _ _ Hf) as Li. destruct (nth_error gs i) as [g|] eqn:Hg; [|apply nth_error_None in Hg; rewrite (in_gs _ _ _ _ _ _ _ I) in Hg; lia].
  pose proof (inv_view t zero g0 own0 _ _ _ _ _ _ _ _ I Ht Hg Hf) as V. destruct (in_solo _ _ _ _ _ _ _ I _ _ _ _ _ Ht Hg Hf) as [Hr _ Ho Hl Hu].
  cbn [L_Sched.run_act] in Hr. injection Hr as <-. cbn [fst snd] in *. split.
  - pose proof (arel_looks t so pr junk Hso Hrank Hjunk _ _ R) as Lk. intros v Hv. specialize (Lk v Hv). destruct (aval_of si v) as [a|] eqn:Ea; [|exact Lk].
    destruct Lk as (x & Hx & Lk). cbn [L_Threads.mkw aw_w aw_lay w_h w_mem m_heap] in *. exists x. split; auto.
    destruct Lk as (L1 & L2). split; [apply L1|]. destruct (av_cells a) as [l|] eqn:Ec; [|apply L2].
    destruct L2 as (_ & L2 & L3 & L4). split; [congruence|]. intros idx Hi Hc. destruct (L4 idx Hi) as (b & cc & Hb & Hrd & Hn). exists b, cc. split; auto. split; auto.
    pose proof (perm_cell t so pr junk Hso Hrank Hjunk c0 ws0 g0 p0 s0 R0' ns owner Hdead0 i p g si v a idx R PI Ea Hi x Hx b Hb) as PC.
    change (Z.to_nat (call_impl (nth v (p_lay p) dl) (map CLong idx))) with (offset (t_lay so pr junk p v) idx) in *.
    set (k := offset (t_lay so pr junk p v) idx) in *.
    destruct (read_cell_inv _ _ _ _ Hrd) as (cs & F1 & F2). unfold read_cell, get_block. destruct (Nat.lt_ge_cases b (length g0)) as [Hm|Hm].
    + destruct PC as [?|[Hvn PO]]; [lia|].
      assert (OK : okR own0 i b k) by (unfold okR, own0; rewrite PO; destruct Hc as [?|Hc]; [lia|exact Hc]).
      pose proof (v_cell _ _ _ _ _ V b k Hm OK) as VC. destruct (v_blk _ _ _ _ _ V b Hm) as (lv & c1 & c2 & G1 & G2 & _). unfold cell_at in VC.
      rewrite G1, F1 in VC. rewrite F1 in G2. injection G2 as <- <-. rewrite G1. cbn [b_live b_cells] in *. congruence.
    + rewrite (v_own _ _ _ _ _ V b Hm), F1. exact F2.
  - intros b. destruct (arel_memory t so pr junk Hrank Hjunk _ _ R) as [M1 _]. cbn [L_Threads.mkw aw_w aw_lay w_h w_mem m_heap] in M1. specialize (M1 (length g0 + b)%nat).
    rewrite <- Ho. rewrite nth_error_skipn. rewrite M1. split.
    + intros (v & x & Hx & Hb).
      assert (Ha : exists a, aval_of si v = Some a).
      { destruct R as (j & J). destruct (arel_ref _ _ _ v x _ J Hx Hb) as (Lv & Ep & _). pose proof (ar_var _ _ _ _ _ _ _ J v Lv) as M. rewrite Ep in M.
        destruct (aval_of si v) as [a|]; [eauto|discriminate]. }
      destruct Ha as (a & Ha). exists v, a, x. split; auto. destruct (Nat.lt_ge_cases v ns) as [Hv|Hv]; auto. exfalso.
      destruct (pi_shared _ _ _ _ _ _ _ _ _ _ PI v Hv) as [Eg _]. rewrite Eg in Hx. destruct R0' as (j & J).
      destruct (arel_ref _ _ _ v x _ J Hx Hb) as (_ & _ & l & _ & E & _). cbn [L_Threads.mkw aw_w aw_lay w_h w_mem m_heap] in E. apply nth_error_lt in E. lia.
    + intros (v & a & x & _ & _ & Hx & Hb). eauto.
Qed.

(** *** the join *)
Lemma join_arel S fin gs : Inv S fin gs -> (forall j f, nth_error fin j = Some f -> ends j f) -> (forall x, In x (ts_thr S) -> finished (snd x) = true) ->
  length fin = length progs -> ARel (join w0 S) (joined so owner s0 ss).
Proof.
  intros I FE Hall FL. destruct R0' as (i & J). pose proof (in_len _ _ _ _ _ _ _ I) as SL. pose proof (in_blk _ _ _ _ _ _ _ I) as SB.
  assert (GS : forall j g, nth_error gs j = Some g -> exists p sj, nth_error ss j = Some sj /\ ARel (mkw c0 ws0 g p) sj /\ PInv so pr junk g0 p0 s0 ns p g sj).
  { intros j g Eg. pose proof (nth_error_lt _ _ _ Eg) as Lj. rewrite (in_gs _ _ _ _ _ _ _ I) in Lj. destruct (nth_error fin j) as [f|] eqn:Ef; [|apply nth_error_None in Ef; lia].
    destruct (nth_error (ts_thr S) j) as [[own a]|] eqn:Et; [|apply nth_error_None in Et; rewrite (in_thr _ _ _ _ _ _ _ I) in Et; lia].
    pose proof (Hall _ (nth_error_In _ _ Et)) as Fa. cbn [snd] in Fa. destruct a; try discriminate.
    pose proof (so_run _ _ _ _ _ _ _ _ _ (in_solo _ _ _ _ _ _ _ I _ _ _ _ _ Et Eg Ef)) as Hr. cbn [L_Sched.run_act] in Hr. injection Hr as <-.
    destruct (FE j _ Ef) as (sj & E1 & E2 & E3). eauto. }
  unfold join. unfold set_heap. fold c0. change (AWorld (World (Mem (ts_shared S) c0) (w_h (aw_w w0)) (w_s (aw_w w0))) (aw_lay w0)) with (AWorld (World (Mem (ts_shared S) c0) (p_h p0) ws0) (p_lay p0)).
  unfold L_Threads.mkw in J. apply (rejoin _ _ _ _ _ _ _ _ i J); auto.
  - intros b l Eb Htc. pose proof (nth_error_lt _ _ _ Eb) as Lb. rewrite SL in Lb. apply Forall_forall. intros x Hx. apply In_nth_error in Hx. destruct Hx as (k & Hk).
    pose proof (in_cell _ _ _ _ _ _ _ I b k Lb) as IC. unfold cell_at at 1 in IC. rewrite Eb in IC. cbn [b_cells] in IC. rewrite Hk in IC.
    assert (GC : forall g p s, ARel (mkw c0 ws0 g p) s -> Some x = cell_at g b k -> x <> None).
    { intros g p s R E. unfold cell_at in E. destruct (nth_error g b) as [[lv cs]|] eqn:Eg; [|discriminate]. cbn [b_cells] in E. destruct lv.
      - pose proof (arel_good _ _ b cs R Eg Htc) as G. eapply (proj1 (Forall_forall _ _) G). eapply nth_error_In; eauto.
      - destruct R as (q & Q). pose proof (ar_rel _ _ _ _ _ _ _ Q) as RQ. cbn [L_Threads.mkw aw_w w_mem m_heap] in *. pose proof (nth_error_lt _ _ _ Eg) as Lq. pose proof (r_len _ _ _ _ _ _ _ _ RQ) as RL. cbn [w_mem m_heap] in RL. rewrite RL in Lq.
        destruct (nth_error (i_objs q) b) as [l0|] eqn:E0; [|apply nth_error_None in E0; lia]. destruct (r_blk _ _ _ _ _ _ _ _ RQ b l0 E0) as [[E1 _]|E1]; cbn [w_mem m_heap] in E1; rewrite Eg in E1; [discriminate|].
        injection E1 as ->. destruct k; discriminate. }
    destruct (own0 b k) as [j|]; [|eapply GC; [exact R0'|exact IC]]. destruct (nth_error gs j) as [g|] eqn:Eg; [|eapply GC; [exact R0'|exact IC]].
    destruct (GS j g Eg) as (p & sj & _ & R & _). eapply GC; eauto.
  - unfold joined. now rewrite map_length, seq_length.
  - intros v Hv. pose proof (ar_var _ _ _ _ _ _ _ J v Hv) as M. cbn [aw_lay aw_w] in M.
    assert (EJ : aval_of (joined so owner s0 ss) v = match aval_of s0 v with
                | Some (AVal sh (Some cells)) =>
                    Some (AVal sh (Some (map (fun k =>
                      match owner v (index_at so sh (Z.of_nat k)) with
                      | Some i => match nth_error ss i with
                                  | Some si => match aval_of si v with Some (AVal _ (Some l)) => nth k l None | _ => None end
                                  | None => nth k cells None
                                  end
                      | None => nth k cells None
                      end) (seq 0 (length cells)))))
                | x => x
                end).
    { unfold joined, aval_of at 1. rewrite nth_error_map, nth_error_seq. destruct (Nat.ltb_spec v (length s0)); [|lia]. reflexivity. }
    rewrite EJ. destruct (aval_of s0 v) as [[sh [cells|]]|] eqn:Ea; auto. cbn [vmatch av_shape av_cells] in *. destruct M as (Ml & Mc & Mn). split; auto.
    rewrite map_length, seq_length. split; auto. destruct (at_ (i_h i) v) as [| |o|] eqn:Ep; cbn [contents] in *; try discriminate.
    + injection Mc as <-. reflexivity.
    + pose proof (nth_error_lt _ _ _ Mc) as Lo. rewrite refill_nth by auto. f_equal.
      pose proof (ar_rel _ _ _ _ _ _ _ J) as RJ. pose proof (ar_lenh _ _ _ _ _ _ _ J) as LH. pose proof (at_nth_error (i_h i) v _ Ep ltac:(lia)) as Ev.
      destruct (ref_h_live t _ _ _ _ _ _ _ _ _ RJ Ev) as (l & sp & E1 & E2 & E3 & E4 & _). cbn [aw_w w_h w_mem m_heap] in *.
      assert (l = cells) as -> by congruence. assert (Hm : (o < length g0)%nat) by (eapply nth_error_lt; eauto).
      assert (Hg : getv (p_h p0) v = Some (HHeap (Some o) (length cells) sp)) by (unfold getv; now rewrite E3).
      destruct (SB o Hm) as (lv & c1 & c2 & F1 & F2 & F3). rewrite E4 in F2. injection F2 as <- <-. rewrite F1.
      assert (Hvn : (v < ns)%nat) by (destruct (Nat.lt_ge_cases v ns); auto; rewrite (Hdead0 v) in Ea by auto; discriminate).
      apply nth_error_ext. intros k. rewrite nth_error_map, nth_error_seq. destruct (Nat.ltb_spec k (length cells)) as [Hk|Hk]; cbn [option_map].
      2: { apply nth_error_None. lia. }
      pose proof (in_cell _ _ _ _ _ _ _ I o k Hm) as IC. unfold cell_at in IC. rewrite F1, E4 in IC. cbn [b_cells] in IC. rewrite IC. unfold own0.
      rewrite (ownc_var t so pr junk Hrank Hjunk c0 ws0 g0 p0 s0 R0' ns owner Hdead0 v _ o k Hvn Hg eq_refl). unfold shape0. rewrite Ea. cbn [av_shape].
      rewrite (nth_error_nth' cells None Hk). cbn [Nat.add]. destruct (owner v (index_at so sh (Z.of_nat k))) as [j|] eqn:Eo; auto.
      destruct (nth_error gs j) as [g|] eqn:Eg.
      * destruct (GS j g Eg) as (p & sj & Es & R & PI). rewrite Es. destruct (pi_shared _ _ _ _ _ _ _ _ _ _ PI v Hvn) as [Eg' _]. rewrite <- Eg' in Hg.
        destruct R as (q & Q). destruct (arel_ref _ _ _ v _ o Q Hg eq_refl) as (Lv & Ep' & l & Eo' & Eh & Ll). cbn [L_Threads.mkw aw_w w_mem m_heap h_size] in *.
        pose proof (ar_var _ _ _ _ _ _ _ Q v Lv) as MQ. rewrite Ep' in MQ. destruct (aval_of sj v) as [[shj [lj|]]|]; cbn [vmatch av_cells contents] in MQ; [|now destruct MQ|discriminate].
        destruct MQ as (_ & MQ & _). assert (lj = l) as -> by congruence. rewrite Eh. cbn [b_cells]. now apply nth_error_nth'; lia.
      * apply nth_error_None in Eg. rewrite (in_gs _ _ _ _ _ _ _ I), FL in Eg. destruct D as (_ & DL & _). rewrite (proj2 (nth_error_None ss j)) by lia. auto.
Qed.
End Join.

(** *** a parallel loop *)
Section ParFor.
Context {A : Type}.
Variable (t : traits) (dflt zero : A) (so : list nat) (pr : layout_prop) (junk : list Z).
Hypothesis Hso : is_order (length so) so.
Hypothesis Hrank : (0 < length so < 16)%nat.
Hypothesis Hjunk : length junk = length so.
Variable (s0 : list (option (aval A))) (v : nat) (sh : list Z) (cells : list (option A)).
Variable (part : list Z -> nat) (reads : list Z -> list (nat * list Z)) (g : list Z -> list A -> A) (vals : list Z -> list A) (works : list (list (list Z))).
Hypothesis Hv : aval_of s0 v = Some (AVal sh (Some cells)).
Hypothesis Hsh : shape_ok so sh = true.
Hypothesis Hlen : length cells = volume sh.
Hypothesis Hreads : forall idx, in_range idx sh -> all_some (map (elem_of so s0) (reads idx)) = Some (vals idx) /\ forall r, In r (reads idx) -> fst r <> v.
Hypothesis HW : distributed sh part works.
Let f idx := g idx (vals idx).
Lemma par_history L : (forall idx, In idx L -> in_range idx sh) -> forall l, length l = length cells ->
  th_history t dflt zero so (upd s0 v (Some (AVal sh (Some l)))) (par_for v reads g L)
  = Some (upd s0 v (Some (AVal sh (Some (scatter (place_of so sh) f L l))))).
Proof.
  unfold par_for. induction L as [|idx L IH]; intros Hin l Hl; cbn [map th_history]; auto. pose proof (aval_lt _ _ _ Hv) as Lv.
  destruct (Hreads idx (Hin idx (or_introl eq_refl))) as [Hr Hn]. cbn [th_step].
  replace (map (elem_of so (upd s0 v (Some (AVal sh (Some l))))) (reads idx)) with (map (elem_of so s0) (reads idx)).
  2: { apply map_ext_in. intros r Hin'. unfold elem_of. rewrite aval_upd by auto. destruct (Nat.eqb_spec v (fst r)) as [E|_]; auto. now destruct (Hn r Hin'). }
  rewrite Hr. cbn [a_step]. rewrite aval_upd by auto. rewrite Nat.eqb_refl. rewrite (proj2 (in_bounds_spec so junk Hrank Hjunk idx sh)) by (apply Hin; now left).
  rewrite upd_upd. rewrite IH; auto. { intros; apply Hin; now right. } now rewrite upd_length.
Qed.
Definition par_owner (u : nat) (idx : list Z) : option nat := if Nat.eqb u v then Some (part idx) else None.
Definition par_ss : list (list (option (aval A))) := map (fun work => upd s0 v (Some (AVal sh (Some (scatter (place_of so sh) f work cells))))) works.
Lemma par_disciplined : disciplined t dflt zero so (length s0) par_owner s0 (map (par_for v reads g) works) par_ss.
Proof.
  split; [|split].
  - intros u Hu. unfold aval_of. now rewrite (proj2 (nth_error_None s0 u)).
  - unfold par_ss. now rewrite !map_length.
  - intros i q si Hq Hs. unfold par_ss in Hs. rewrite nth_error_map in Hq, Hs. destruct (nth_error works i) as [work|] eqn:Ew; [|discriminate]. cbn [option_map] in *. injection Hq as <-. injection Hs as <-.
    assert (Hin : forall idx, In idx work -> in_range idx sh /\ part idx = i).
    { intros idx Hi. apply HW. now rewrite (nth_error_nth _ _ _ Ew). }
    split.
    + rewrite <- (par_history work (fun idx Hi => proj1 (Hin idx Hi)) cells eq_refl). f_equal. unfold aval_of in Hv. destruct (nth_error s0 v) as [z|] eqn:E; [|discriminate]. subst z. now rewrite upd_same.
    + apply Forall_forall. intros o Ho. apply in_map_iff in Ho. destruct Ho as (idx & <- & Hi). destruct (Hin idx Hi) as [Hr Hp]. cbn [permitted]. unfold can_write, can_read, par_owner. split.
      * right. rewrite Nat.eqb_refl. congruence.
      * intros r Hin'. right. left. destruct (Nat.eqb_spec (fst r) v) as [E|_]; auto. now destruct (proj2 (Hreads idx Hr) r Hin').
Qed.
Lemma scatter_hit_inj L idx : forall l : list (option A), In idx L -> (forall x, In x L -> place_of so sh x = place_of so sh idx -> x = idx) -> (place_of so sh idx < length l)%nat ->
  nth_error (scatter (place_of so sh) f L l) (place_of so sh idx) = Some (Some (f idx)).
Proof.
  induction L as [|x L IH]; intros l Hi Hinj Hl; [destruct Hi|]. change (scatter (place_of so sh) f (x :: L) l) with (scatter (place_of so sh) f L (upd l (place_of so sh x) (Some (f x)))).
  destruct (in_dec (list_eq_dec Z.eq_dec) idx L) as [Hin|Hout].
  - apply IH; auto. { intros; apply Hinj; auto. now right. } now rewrite upd_length.
  - destruct Hi as [->|Hi]; [|contradiction]. rewrite scatter_other.
    + now apply nth_error_upd_eq.
    + intros Hm. apply in_map_iff in Hm. destruct Hm as (y & Ey & Hy). apply Hout. rewrite <- (Hinj y); auto. now right.
Qed.
Lemma par_joined : joined so par_owner s0 par_ss = upd s0 v (Some (AVal sh (Some (tabulate so sh f)))).
Proof.
  pose proof (aval_lt _ _ _ Hv) as Lv. destruct HW as [HW1 HW2]. apply nth_error_ext. intros u. unfold joined. rewrite nth_error_map, nth_error_seq. destruct (Nat.ltb_spec u (length s0)) as [Hu|Hu]; cbn [option_map Nat.add].
  2: { symmetry. apply nth_error_None. now rewrite upd_length. }
  destruct (Nat.eq_dec u v) as [->|Hn].
  - rewrite nth_error_upd_eq by auto. rewrite Hv. do 4 f_equal. apply nth_error_ext. intros k. rewrite nth_error_map, nth_error_seq, Hlen. unfold volume.
    destruct (Nat.ltb_spec k (Z.to_nat (prodZ sh))) as [Hk|Hk]; cbn [option_map Nat.add].
    2: { symmetry. apply nth_error_None. now rewrite (tabulate_length so). }
    destruct (index_at_spec so pr junk Hso Hrank Hjunk sh (Z.of_nat k) Hsh ltac:(lia)) as [Ir Is]. set (idx := index_at so sh (Z.of_nat k)) in *.
    assert (Ep : place_of so sh idx = k) by (unfold place_of; rewrite Is; lia).
    unfold par_owner. rewrite Nat.eqb_refl. unfold par_ss. rewrite nth_error_map. pose proof (HW1 idx Ir) as Hi. destruct (nth_error works (part idx)) as [work|] eqn:Ew.
    2: { apply nth_error_None in Ew. rewrite nth_overflow in Hi by auto. destruct Hi. }
    rewrite (nth_error_nth _ _ _ Ew) in Hi.
    cbn [option_map]. rewrite aval_upd by auto. rewrite Nat.eqb_refl. rewrite <- Ep at 2. rewrite (tabulate_nth so junk Hso Hrank Hjunk) by auto. f_equal. apply nth_error_nth. rewrite <- Ep. apply scatter_hit_inj; auto.
    + intros x Hx E. apply (place_inj so junk Hso Hrank Hjunk sh); auto. apply (HW2 (part idx)). now rewrite (nth_error_nth _ _ _ Ew).
    + rewrite Hlen, Ep. exact Hk.
  - rewrite nth_error_upd_neq by congruence. unfold aval_of. destruct (nth_error s0 u) as [z|] eqn:E; [|apply nth_error_None in E; lia].
    f_equal. destruct z as [[shu [lu|]]|]; auto. do 3 f_equal. unfold par_owner. destruct (Nat.eqb_spec u v); [congruence|]. apply map_seq_nth.
Qed.
End ParFor.
