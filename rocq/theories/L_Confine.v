(** A thread that respects the permissions runs as specified and touches only permitted cells of the blocks of its parent. *)
From Verif Require Import Base M_Perm L_Perm M_IdxMap S_Layout L_IdxMap M_Slice L_Slice L_Layout M_Loops S_Loops L_Loops M_Handle S_Handle L_Handle L_Own L_Run M_Array S_Array L_Array M_Threads S_Threads L_Sched L_Threads.

(** *** confinement of the functions on handles *)
Section Handles.
Context {A : Type}.
Variable (t : traits) (dflt zero : A) (so : list nat) (pr : layout_prop) (junk : list Z).
Variable (m : nat) (okR okW : nat -> nat -> Prop).
Notation heap := (list (block A)).
Notation conf := (conf t zero m okR okW).
Notation run_act := (run_act t zero).
Definition hpriv (x : hheap) : Prop := forall b, h_data x = Some b -> (m <= b)%nat.
Definition hread (x : hheap) : Prop := forall b k, h_data x = Some b -> (m <= b)%nat \/ okR b k.

Lemma conf_construct b i v h : (m <= b)%nat -> conf (t_construct t b i v) h.
Proof. intros Hb. cbn [t_construct L_Sched.conf]. split; auto. intros [c|] _; [destruct (t_tcopy t)|]; cbn [L_Sched.conf]; auto. Qed.
Lemma conf_destroy b i h : (m <= b)%nat -> conf (t_destroy t b i) h.
Proof. intros Hb. cbn [t_destroy L_Sched.conf]. split; auto. intros [c|] _; [|destruct (t_tcopy t)]; cbn [L_Sched.conf]; auto. Qed.
Lemma conf_new n i h : (m <= length h)%nat -> conf (t_new t dflt n i) h.
Proof.
  intros L. unfold t_new. destruct (Nat.eqb n 0); [exact I|]. destruct i; cbn [L_Sched.conf]; auto.
  apply conf_bind; [|intros; exact I]. destruct (_ && _); [|exact I]. apply conf_loop. intros. now apply conf_construct.
Qed.
Lemma new_hpriv n i h h' x : (m <= length h)%nat -> run_act (t_new t dflt n i) h = Some (h', x) -> hpriv x.
Proof.
  intros L. rewrite run_new, h_new_spec. intros E b Hb. destruct (initial t dflt zero n i) as [|y l]; cbn [alloc_result] in E; injection E as <- <-; cbn in Hb; [discriminate|]. now injection Hb as <-.
Qed.
Lemma conf_copy d n h : (m <= length h)%nat -> (forall b k, d = Some b -> (m <= b)%nat \/ okR b k) -> conf (t_copy t dflt d n) h.
Proof.
  intros L Hd. unfold t_copy. apply conf_bind; [now apply conf_new|]. intros h1 x Ex. pose proof (new_hpriv _ _ _ _ _ L Ex) as Hx.
  destruct (h_data x) as [b|] eqn:Eb; [|exact I]. destruct d as [src|]; [|exact I]. specialize (Hx b Eb).
  apply conf_bind; [|intros; exact I]. destruct (t_tcopy t); apply conf_loop; intros i h' _; cbn [L_Sched.conf]; (split; [now apply Hd|]).
  - intros c _. cbn [L_Sched.conf]. auto.
  - intros [c|] _; [now apply conf_construct|exact I].
Qed.
Lemma copy_hpriv d n h h' x : (m <= length h)%nat -> run_act (t_copy t dflt d n) h = Some (h', x) -> hpriv x.
Proof.
  intros L. unfold t_copy. rewrite run_bind. destruct (run_act (t_new t dflt n Raw) h) as [[h1 y]|] eqn:E; [|discriminate]. pose proof (new_hpriv _ _ _ _ _ L E) as Hy.
  destruct (h_data y) as [b|] eqn:Eb; [destruct d as [src|]; [|discriminate]|]; rewrite ?run_bind.
  - destruct (run_act _ h1) as [[h2 z]|]; [|discriminate]. intros E2. injection E2 as _ <-. exact Hy.
  - intros E2. injection E2 as _ <-. exact Hy.
Qed.
Lemma conf_drop x h : hpriv x -> conf (t_drop t x) h.
Proof.
  intros Hx. unfold t_drop. destruct (h_data x) as [b|] eqn:E; [|exact I]. specialize (Hx b E). apply conf_bind.
  - destruct (negb _); [|exact I]. apply conf_loop. intros. now apply conf_destroy.
  - intros. cbn [L_Sched.conf]. auto.
Qed.
Lemma conf_write x i a h : (forall b, h_data x = Some b -> (m <= b)%nat \/ (okR b i /\ okW b i)) -> conf (t_write t (h_data x) i a) h.
Proof.
  intros Hx. unfold t_write. destruct (h_data x) as [b|] eqn:E; [|exact I]. specialize (Hx b eq_refl). cbn [L_Sched.conf]. split; [tauto|].
  intros c _. destruct (match c with Some _ => true | None => t_tcopy t end); cbn [L_Sched.conf]; auto. split; [tauto|auto].
Qed.
Lemma conf_fold L (body : list Z -> act A unit) : forall a0 h, (forall idx h', In idx L -> conf (body idx) h') -> conf a0 h ->
  conf (fold_left (fun a idx => bind a (fun _ => body idx)) L a0) h.
Proof.
  induction L as [|idx L IH]; intros a0 h Hb C; cbn [fold_left]; auto. apply IH; [intros; apply Hb; now right|].
  apply conf_bind; auto. intros. apply Hb. now left.
Qed.
Definition gets (p : priv) v (Q : hheap -> Prop) : Prop := forall x, getv (p_h p) v = Some x -> Q x.
Lemma conf_get {T} p v (k : hheap -> act A T) h (Q : hheap -> Prop) : gets p v Q -> (forall x, Q x -> conf (k x) h) -> conf (t_get p v k) h.
Proof. intros G H. unfold t_get. destruct (getv (p_h p) v) as [x|] eqn:E; [|exact I]. auto. Qed.
Lemma conf_resize p v sh h : (m <= length h)%nat -> gets p v hpriv -> conf (t_resize t dflt so pr junk p v sh) h.
Proof.
  intros L G. unfold t_resize. eapply conf_get; eauto. intros x Hx. destruct (_ || _); [|exact I]. apply conf_bind; [now apply conf_new|].
  intros. apply conf_bind; [now apply conf_drop|intros; exact I].
Qed.
Lemma resize_hpriv p v sh h h' p' : (m <= length h)%nat -> gets p v hpriv -> run_act (t_resize t dflt so pr junk p v sh) h = Some (h', p') -> gets p' v hpriv.
Proof.
  intros L G. unfold t_resize, t_get. destruct (getv (p_h p) v) as [x|] eqn:E; [|discriminate]. destruct (_ || _).
  - rewrite run_bind. destruct (run_act (t_new t dflt _ Default) h) as [[h1 y]|] eqn:En; [|discriminate]. rewrite run_bind. destruct (run_act (t_drop t x) h1) as [[h2 z]|]; [|discriminate].
    intros E2. injection E2 as <- <-. intros u. unfold getv. cbn [set_var p_h].
    assert (v < length (p_h p))%nat by (unfold getv in E; destruct (nth_error (p_h p) v) eqn:F; [eapply nth_error_lt; eauto|discriminate]).
    rewrite nth_error_upd_eq by auto. intros Eu. injection Eu as <-. eapply new_hpriv; eauto.
  - intros E2. injection E2 as <- <-. exact G.
Qed.
Lemma conf_assign p v lens (f : list Z -> act A A) h : gets p v hpriv -> (forall idx h', in_range idx lens -> conf (f idx) h') ->
  conf (t_assign t so pr junk p v lens f) h.
Proof.
  intros G F. unfold t_assign. apply conf_bind; [|intros; exact I]. rewrite for_each_fold. apply conf_fold; [|exact I]. intros idx h' Hi.
  apply conf_bind; [apply F; now apply all_idx_In|]. intros. eapply conf_get; eauto. intros x0 Hx. apply conf_write. intros b Hb. left. now apply Hx.
Qed.
Lemma conf_elem p x idx h : gets p x (fun y => forall b, h_data y = Some b -> (m <= b)%nat \/ okR b (offset (t_lay so pr junk p x) idx)) -> conf (t_elem so pr junk p x idx) h.
Proof.
  intros G. unfold t_elem. eapply conf_get; eauto. intros y Hy. cbn beta in Hy. destruct (h_data y) as [b|]; [|exact I]. cbn [L_Sched.conf]. split; [now apply Hy|]. intros [c|] _; exact I.
Qed.
Lemma conf_elems p rs : forall h, (forall r, In r rs -> gets p (fst r) (fun y => forall b, h_data y = Some b -> (m <= b)%nat \/ okR b (offset (t_lay so pr junk p (fst r)) (snd r)))) -> conf (t_elems so pr junk p rs) h.
Proof.
  induction rs as [|r rs IH]; intros h G; cbn [t_elems]; [exact I|]. apply conf_bind; [apply conf_elem, G; now left|].
  intros. apply conf_bind; [apply IH; intros; apply G; now right|]. intros; exact I.
Qed.
End Handles.

(** *** a thread and its parent *)
Section Thread.
Context {A : Type}.
Variable (t : traits) (dflt zero : A) (so : list nat) (pr : layout_prop) (junk : list Z).
Hypothesis Hok : traits_ok t.
Hypothesis Hso : is_order (length so) so.
Hypothesis Hrank : (0 < length so < 16)%nat.
Hypothesis Hjunk : length junk = length so.
Notation heap := (list (block A)).
Notation run_act := (run_act t zero).
Notation t_exec := (t_exec t dflt so pr junk).
Notation lay := (layout so pr junk).
Notation dl := (layout_default so pr junk).
Notation ARel := (@ARel A t so pr junk).
Notation mkw := (@mkw A).
Variable (c : list ctrl) (ws : list (option hshared)) (g0 : heap) (p0 : priv) (s0 : list (option (aval A))).
Hypothesis R0 : ARel (mkw c ws g0 p0) s0.
Variable (ns : nat) (owner : nat -> list Z -> option nat).
Hypothesis Hdead : forall v, (ns <= v)%nat -> aval_of s0 v = None.
Notation m := (length g0).

Definition shape0 v : list Z := match aval_of s0 v with Some a => av_shape a | None => [] end.
Definition has_block b v : bool := match getv (p_h p0) v with Some h => match h_data h with Some b' => Nat.eqb b' b | None => false end | None => false end.
Definition ownc (b k : nat) : option nat := match find (has_block b) (seq 0 ns) with Some v => owner v (index_at so (shape0 v) (Z.of_nat k)) | None => None end.

Lemma has_block_spec b v : has_block b v = true <-> exists h, getv (p_h p0) v = Some h /\ h_data h = Some b.
Proof.
  unfold has_block. split.
  - destruct (getv (p_h p0) v) as [h|]; [|discriminate]. destruct (h_data h) as [b'|] eqn:E; [|discriminate]. intros H. apply Nat.eqb_eq in H. subst. eauto.
  - intros (h & -> & ->). apply Nat.eqb_refl.
Qed.
Lemma ownc_var v h b k : (v < ns)%nat -> getv (p_h p0) v = Some h -> h_data h = Some b -> ownc b k = owner v (index_at so (shape0 v) (Z.of_nat k)).
Proof.
  intros Hv Hg Hd. unfold ownc. destruct (find (has_block b) (seq 0 ns)) as [u|] eqn:F.
  - apply find_some in F. destruct F as [_ F]. apply has_block_spec in F. destruct F as (h' & Hg' & Hd').
    destruct (arel_memory t so pr junk Hrank Hjunk _ _ R0) as [_ U]. now rewrite (U u v h' h b Hg' Hg Hd' Hd).
  - pose proof (find_none _ _ F v (proj2 (in_seq ns 0 v) ltac:(lia))) as Hn. rewrite (proj2 (has_block_spec b v)) in Hn; [discriminate|eauto].
Qed.
Lemma place_index sh idx : shape_ok so sh = true -> in_range idx sh -> index_at so sh (Z.of_nat (place_of so sh idx)) = idx.
Proof.
  intros Hs Hi. unfold place_of. rewrite Z2Nat.id; [now apply (index_at_place so junk)|].
  unfold seq_number. rewrite !in_order_apply. apply radix_bound. apply (shape_ok_spec so junk) in Hs; auto. destruct Hs as [L H].
  apply (in_range_apply (length sh)); auto. now rewrite L.
Qed.

(** *** what a thread's variables are at any moment of its solo run *)
Record PInv (p : priv) (h : heap) (s : list (option (aval A))) : Prop := {
  pi_len : (m <= length h)%nat;
  pi_shared : forall v, (v < ns)%nat -> getv (p_h p) v = getv (p_h p0) v /\ nth v (p_lay p) dl = nth v (p_lay p0) dl;
  pi_shape : forall v, (v < ns)%nat -> option_map av_shape (aval_of s v) = option_map av_shape (aval_of s0 v);
  pi_priv : forall v, (ns <= v)%nat -> gets p v (hpriv m)
}.
Lemma arel_sane h p s : ARel (mkw c ws h p) s -> psane p /\ length (p_lay p) = length s.
Proof.
  intros (j & J). pose proof (ar_rel _ _ _ _ _ _ _ J) as R. pose proof (Forall2_length_eq _ _ _ (r_h _ _ _ _ _ _ _ _ R)) as FL.
  pose proof (ar_lenh _ _ _ _ _ _ _ J) as LH. pose proof (ar_lenl _ _ _ _ _ _ _ J) as LL. pose proof (ar_uns _ _ _ _ _ _ _ J) as U. cbn [mkw aw_w aw_lay w_h] in *.
  split; [|exact LL]. constructor; [exact U|lia|].
  pose proof (ar_tmp _ _ _ _ _ _ _ J) as T. apply (at_nth_error) in T; [|lia]. rewrite LL.
  destruct (nth_error (p_h p) (length s)) as [y|] eqn:E; [|apply nth_error_None in E; lia].
  destruct (Forall2_nth_error_l _ _ _ _ _ (r_h _ _ _ _ _ _ _ _ R) E) as (q & Eq & Hq). rewrite T in Eq. injection Eq as <-. cbn [okh] in Hq. now subst.
Qed.
Lemma pinv_start : PInv p0 g0 s0.
Proof.
  constructor; auto. intros v Hv x Hx b Hb. exfalso. pose proof (arel_looks t so pr junk Hso Hrank Hjunk _ _ R0 v) as Lk. destruct (arel_sane _ _ _ R0) as [P PL].
  rewrite Hdead in Lk by auto. cbn [mkw aw_w w_h] in Lk. destruct (Nat.lt_ge_cases v (length s0)) as [Hl|Hl]; [rewrite (Lk Hl) in Hx; discriminate|].
  unfold getv in Hx. destruct (nth_error (p_h p0) v) as [y|] eqn:E; [|discriminate]. pose proof (nth_error_lt _ _ _ E) as L1. rewrite (ps_len _ P) in L1.
  assert (v = length (p_lay p0)) by lia. subst v. rewrite (ps_tmp _ P) in E. injection E as <-. discriminate.
Qed.
Lemma pinv_next {T} (a : act A T) x h p s h' p' s' : ARel (mkw c ws h p) s -> PInv p h s -> run_act a h = Some (h', x) -> ARel (mkw c ws h' p') s' ->
  (forall v, (v < ns)%nat -> getv (p_h p') v = getv (p_h p) v /\ nth v (p_lay p') dl = nth v (p_lay p) dl /\ option_map av_shape (aval_of s' v) = option_map av_shape (aval_of s v)) ->
  PInv p' h' s'.
Proof.
  intros R I E R' Hs. destruct (run_grows t zero a h h' x E) as [Lg Dg]. constructor.
  - pose proof (pi_len _ _ _ I). lia.
  - intros v Hv. destruct (Hs v Hv) as (-> & -> & _). now apply (pi_shared _ _ _ I).
  - intros v Hv. destruct (Hs v Hv) as (_ & _ & ->). now apply (pi_shape _ _ _ I).
  - intros v Hv y Hy b Hb. destruct (Nat.lt_ge_cases b m) as [Hm|Hm]; auto. exfalso.
    destruct (arel_memory t so pr junk Hrank Hjunk _ _ R) as [M1 _]. destruct (arel_memory t so pr junk Hrank Hjunk _ _ R') as [M1' M2']. cbn [mkw aw_w w_h w_mem m_heap] in *.
    assert (Lv : live_in h' b) by (apply M1'; eauto).
    assert (Lv0 : live_in h b) by (apply Dg; auto; pose proof (pi_len _ _ _ I); lia).
    apply M1 in Lv0. destruct Lv0 as (u & z & Hz & Hzb). destruct (Nat.lt_ge_cases u ns) as [Hu|Hu].
    + destruct (Hs u Hu) as (Eu & _). rewrite <- Eu in Hz. pose proof (M2' _ _ _ _ _ Hz Hy Hzb Hb). lia.
    + pose proof (pi_priv _ _ _ I u Hu z Hz b Hzb). lia.
Qed.

(** *** permissions of variables become permissions of cells *)
Variable i : nat.
Notation cR := (okR ownc i).
Notation cW := (okW ownc i).
Lemma arel_layout h p s v a : ARel (mkw c ws h p) s -> aval_of s v = Some a -> shape_ok so (av_shape a) = true /\ im_len (t_lay so pr junk p v) = av_shape a /\
  (forall idx, in_range idx (av_shape a) -> offset (t_lay so pr junk p v) idx = place_of so (av_shape a) idx).
Proof.
  intros (j & J) Ha. pose proof (aval_lt _ _ _ Ha) as Lv. pose proof (ar_var _ _ _ _ _ _ _ J v Lv) as M. rewrite Ha in M. destruct M as [[Hs Hm] _].
  cbn [mkw aw_lay] in Hm. unfold t_lay. split; auto. destruct Hm as [->|[Hz Hl]].
  - split; [reflexivity|]. intros idx Hi. now apply offset_place.
  - split; auto. intros idx Hi. exfalso. pose proof (place_bound so junk Hso Hrank Hjunk _ idx Hs Hi) as B. unfold volume in B. rewrite Hz in B. cbn in B. lia.
Qed.
Lemma perm_cell p h s v a idx : ARel (mkw c ws h p) s -> PInv p h s -> aval_of s v = Some a -> in_range idx (av_shape a) ->
  gets p v (fun y => forall b, h_data y = Some b -> (m <= b)%nat \/ ((v < ns)%nat /\ ownc b (offset (t_lay so pr junk p v) idx) = owner v idx)).
Proof.
  intros R I Ha Hi y Hy b Hb. destruct (Nat.lt_ge_cases v ns) as [Hv|Hv]; [|left; eapply (pi_priv _ _ _ I); eauto]. right. split; auto.
  destruct (arel_layout _ _ _ _ _ R Ha) as (Hs & _ & Ho). rewrite Ho by auto. destruct (pi_shared _ _ _ I v Hv) as [Eg _]. rewrite Eg in Hy.
  rewrite (ownc_var v y b _ Hv Hy Hb). f_equal. pose proof (pi_shape _ _ _ I v Hv) as Es. rewrite Ha in Es. unfold shape0. destruct (aval_of s0 v) as [a0|]; [|discriminate].
  injection Es as Es. rewrite <- Es. now apply place_index.
Qed.
Lemma perm_all p h s v : PInv p h s -> (forall idx, can_read ns owner i v idx) -> gets p v (fun y => forall b k, h_data y = Some b -> (m <= b)%nat \/ cR b k).
Proof.
  intros I Hc y Hy b k Hb. destruct (Nat.lt_ge_cases v ns) as [Hv|Hv]; [|left; eapply (pi_priv _ _ _ I); eauto]. right.
  destruct (pi_shared _ _ _ I v Hv) as [Eg _]. rewrite Eg in Hy. unfold okR. rewrite (ownc_var v y b _ Hv Hy Hb).
  destruct (Hc (index_at so (shape0 v) (Z.of_nat k))) as [?|?]; [lia|auto].
Qed.

(** *** reading and writing elements *)
Lemma elem_read h p s x sh cells idx a : ARel (mkw c ws h p) s -> aval_of s x = Some (AVal sh (Some cells)) -> in_range idx sh ->
  nth_error cells (place_of so sh idx) = Some (Some a) -> run_act (t_elem so pr junk p x idx) h = Some (h, a).
Proof.
  intros R Hx Hi Hc. pose proof (arel_looks t so pr junk Hso Hrank Hjunk _ _ R x (aval_lt _ _ _ Hx)) as Lk. rewrite Hx in Lk. destruct Lk as (y & Hy & Lk).
  cbn [L_Threads.mkw aw_w aw_lay w_h w_mem m_heap av_shape av_cells] in *. destruct Lk as (_ & _ & _ & _ & Lk). destruct (Lk idx Hi) as (b & cc & Hb & Hr & Hn).
  unfold t_elem, t_get. rewrite Hy, Hb. cbn [L_Sched.run_act]. unfold offset, t_lay. rewrite Hr. assert (cc = Some a) as -> by congruence. reflexivity.
Qed.
Lemma elem_of_read h p s r a : ARel (mkw c ws h p) s -> elem_of so s r = Some a -> run_act (t_elem so pr junk p (fst r) (snd r)) h = Some (h, a).
Proof.
  intros R E. unfold elem_of in E. destruct (aval_of s (fst r)) as [[sh [cells|]]|] eqn:Ea; try discriminate. destruct (in_bounds (snd r) sh) eqn:Eb; [|discriminate].
  apply (in_bounds_spec so junk Hrank Hjunk) in Eb. destruct (nth_error cells (place_of so sh (snd r))) as [cc|] eqn:Ec; [|discriminate]. subst cc. eapply elem_read; eauto.
Qed.
Lemma elems_read h p s rs : forall l, ARel (mkw c ws h p) s -> all_some (map (elem_of so s) rs) = Some l -> run_act (t_elems so pr junk p rs) h = Some (h, l).
Proof.
  induction rs as [|r rs IH]; intros l R E; cbn [map all_some t_elems] in *; [injection E as <-; reflexivity|].
  destruct (elem_of so s r) as [a|] eqn:Ea; [|discriminate]. destruct (all_some (map (elem_of so s) rs)) as [l'|]; [|discriminate]. injection E as <-.
  rewrite run_bind, (elem_of_read _ _ _ _ _ R Ea), run_bind, (IH l' R eq_refl). reflexivity.
Qed.
Lemma write_link h p s v sh l idx a : ARel (mkw c ws h p) s -> aval_of s v = Some (AVal sh (Some l)) -> in_range idx sh ->
  exists h', eff t zero (t_get p v (fun hv => t_write t (h_data hv) (offset (t_lay so pr junk p v) idx) a)) h = Some h' /\
    ARel (mkw c ws h' p) (upd s v (Some (AVal sh (Some (upd l (place_of so sh idx) (Some a)))))).
Proof.
  intros R Hv Hi. destruct (write_sim t dflt zero so pr junk Hok Hso Hrank Hjunk _ s v sh l idx a R Hv Hi) as (w' & E & _ & R').
  unfold on_sto in E. cbn [L_Threads.mkw aw_w aw_lay run exec w_h] in E. unfold t_get. destruct (getv (p_h p) v) as [hv|]; [|discriminate]. rewrite (eff_write t zero) in E.
  change (offset (lay_of so pr junk (mkw c ws h p) v) idx) with (offset (t_lay so pr junk p v) idx) in E. destruct (eff t zero _ h) as [h1|]; [|discriminate]. injection E as <-. eauto.
Qed.
Lemma map_fold L (g : A -> A) (y : list Z -> A) : forall h p s v x sh l cells, ARel (mkw c ws h p) s -> v <> x ->
  aval_of s v = Some (AVal sh (Some l)) -> aval_of s x = Some (AVal sh (Some cells)) -> (forall idx, In idx L -> in_range idx sh) ->
  (forall idx, In idx L -> nth_error cells (place_of so sh idx) = Some (Some (y idx))) ->
  exists h', fold_left (fun o idx => match o with Some h =>
        eff t zero (bind (bind (t_elem so pr junk p x idx) (fun a => Done (g a))) (fun z => t_get p v (fun hv => t_write t (h_data hv) (offset (t_lay so pr junk p v) idx) z))) h | None => None end) L (Some h) = Some h' /\
    ARel (mkw c ws h' p) (upd s v (Some (AVal sh (Some (scatter (place_of so sh) (fun idx => g (y idx)) L l))))).
Proof.
  induction L as [|idx L IH]; intros h p s v x sh l cells R Hn Hv Hx Hin Hy; cbn [fold_left].
  - exists h. split; auto. unfold aval_of in Hv. destruct (nth_error s v) as [z|] eqn:E; [|discriminate]. subst z. cbn [scatter fold_left]. now rewrite upd_same.
  - unfold eff at 2. rewrite !run_bind, (elem_read h p s x sh cells idx (y idx)); auto; [|apply Hin; now left|apply Hy; now left]. cbn [L_Sched.run_act].
    destruct (write_link h p s v sh l idx (g (y idx)) R Hv (Hin idx (or_introl eq_refl))) as (h1 & E1 & R1). fold (eff t zero (t_get p v (fun hv => t_write t (h_data hv) (offset (t_lay so pr junk p v) idx) (g (y idx)))) h). rewrite E1.
    pose proof (aval_lt _ _ _ Hv) as Lv.
    destruct (IH h1 p _ v x sh (upd l (place_of so sh idx) (Some (g (y idx)))) cells R1 Hn) as (h2 & E2 & R2).
    + rewrite aval_upd by auto. now rewrite Nat.eqb_refl.
    + rewrite aval_upd by auto. destruct (Nat.eqb_spec v x); [congruence|auto].
    + intros; apply Hin; now right.
    + intros; apply Hy; now right.
    + exists h2. split; auto. now rewrite upd_upd in R2.
Qed.
Lemma all_some_nth {T} (l : list (option T)) r : all_some l = Some r -> length r = length l /\ forall k d, (k < length l)%nat -> nth_error l k = Some (Some (nth k r d)).
Proof.
  revert r. induction l as [|[x|] l IH]; intros r E; cbn [all_some] in E; try discriminate.
  - injection E as <-. split; auto. cbn. intros; lia.
  - destruct (all_some l) as [r'|]; [|discriminate]. injection E as <-. destruct (IH r' eq_refl) as [IL IN]. split; [cbn; lia|]. intros [|k] d Hk; cbn; auto. apply IN. cbn in Hk. lia.
Qed.

(** *** what statements leave alone *)
Definition targets (o : tstmt (A := A)) : list nat :=
  match o with
  | TOp (AEmpty v) | TOp (AShape v _) | TOp (AZeros v _) | TOp (AFrom v _ _) | TOp (AAssignExpr v _ _) | TOp (AResize v _) | TOp (AEnd v) | TOp (ACopy v _) | TOp (AAssignCopy v _) | TMap v _ _ => [v]
  | TOp (AMove v x) | TOp (AAssignMove v x) => [v; x]
  | TOp (AWrite _ _ _) | TSet _ _ _ _ => []
  end.
Definition keeps (p p' : priv) u : Prop := nth_error (p_h p') u = nth_error (p_h p) u /\ nth_error (p_lay p') u = nth_error (p_lay p) u.
Lemma resize_keeps p v sh h h' p' u : run_act (t_resize t dflt so pr junk p v sh) h = Some (h', p') -> u <> v -> keeps p p' u.
Proof.
  unfold t_resize, t_get. destruct (getv (p_h p) v); [|discriminate]. destruct (_ || _); intros E Hu.
  - rewrite run_bind in E. destruct (run_act (t_new _ _ _ _) h) as [[h1 y]|]; [|discriminate]. rewrite run_bind in E. destruct (run_act (t_drop _ _) h1) as [[h2 z]|]; [|discriminate].
    injection E as <- <-. split; cbn [set_var p_h p_lay]; apply nth_error_upd_neq; congruence.
  - cbn in E. injection E as <- <-. split; cbn [p_h p_lay]; auto. apply nth_error_upd_neq; congruence.
Qed.
Lemma assign_keeps p v lens f h h' p' : run_act (t_assign t so pr junk p v lens f) h = Some (h', p') -> p' = p.
Proof. unfold t_assign. rewrite run_bind. destruct (run_act _ h) as [[h1 z]|]; [|discriminate]. cbn. congruence. Qed.
Lemma exec_keeps p o h h' p' u : run_act (t_exec p o) h = Some (h', p') -> ~ In u (targets o) -> keeps p p' u.
Proof.
  intros E Hu. assert (U : forall (T : Type) (l : list T) v x, In v (targets o) -> nth_error (upd l v x) u = nth_error l u) by (intros T l v x Hv; apply nth_error_upd_neq; intros ->; auto).
  destruct o as [o|v idx rs g|v x g]; [destruct o as [v|v sh|v sh|v sh f|v x|v x|v x|v x|v sh f|v sh|v idx a|v]|..]; cbn [M_Threads.t_exec targets] in *; unfold t_get in E.
  - cbn in E. injection E as <- <-. split; cbn [set_var p_h p_lay]; apply U; now left.
  - rewrite run_bind in E. destruct (run_act _ h) as [[h1 y]|]; [|discriminate]. injection E as <- <-. split; cbn [set_var p_h p_lay]; apply U; now left.
  - rewrite run_bind in E. destruct (run_act _ h) as [[h1 y]|]; [|discriminate]. injection E as <- <-. split; cbn [set_var p_h p_lay]; apply U; now left.
  - rewrite run_bind in E. destruct (run_act _ h) as [[h1 y]|]; [|discriminate]. rewrite run_bind in E. destruct (run_act _ h1) as [[h2 z]|]; [|discriminate].
    injection E as <- <-. split; cbn [set_var p_h p_lay]; apply U; now left.
  - destruct (getv (p_h p) x); [|discriminate]. rewrite run_bind in E. destruct (run_act _ h) as [[h1 y]|]; [|discriminate]. injection E as <- <-. split; cbn [set_var p_h p_lay]; apply U; now left.
  - destruct (getv (p_h p) x); [|discriminate]. injection E as <- <-. split; cbn [p_h p_lay]; rewrite ?U; auto; cbn; auto.
  - destruct (getv (p_h p) x); [|discriminate]. rewrite run_bind in E. destruct (run_act _ h) as [[h1 y]|]; [|discriminate]. destruct (getv (p_h p) v) as [yv|]; [|discriminate].
    rewrite run_bind in E. destruct (run_act _ h1) as [[h2 z]|]; [|discriminate]. injection E as <- <-. split; cbn [set_var p_h p_lay]; apply U; now left.
  - destruct (getv (p_h p) v); [|discriminate]. rewrite run_bind in E. destruct (run_act _ h) as [[h1 y]|]; [|discriminate]. destruct (getv (p_h p) x); [|discriminate].
    injection E as <- <-. split; cbn [p_h p_lay]; rewrite ?U; auto; cbn; auto.
  - rewrite run_bind in E. destruct (run_act (t_resize t dflt so pr junk p v sh) h) as [[h1 q]|] eqn:Er; [|discriminate]. apply assign_keeps in E. subst p'. eapply resize_keeps; eauto. intros ->. apply Hu. now left.
  - eapply resize_keeps; eauto. intros ->. apply Hu. now left.
  - rewrite run_bind in E. destruct (run_act _ h) as [[h1 y]|]; [|discriminate]. injection E as <- <-. split; auto.
  - destruct (getv (p_h p) v); [|discriminate]. rewrite run_bind in E. destruct (run_act _ h) as [[h1 y]|]; [|discriminate]. injection E as <- <-. split; cbn [p_h p_lay]; auto. apply U. now left.
  - rewrite !run_bind in E. destruct (run_act _ h) as [[h1 y]|]; [|discriminate]. rewrite run_bind in E. destruct (run_act _ h1) as [[h2 z]|]; [|discriminate]. injection E as <- <-. split; auto.
  - rewrite run_bind in E. destruct (run_act (t_resize t dflt so pr junk p v _) h) as [[h1 q]|] eqn:Er; [|discriminate]. apply assign_keeps in E. subst p'. eapply resize_keeps; eauto. intros ->. apply Hu. now left.
Qed.
Lemma step_shape s o s' u : th_step t dflt zero so s o = Some s' -> ~ In u (targets o) -> option_map av_shape (aval_of s' u) = option_map av_shape (aval_of s u).
Proof.
  assert (U : forall (s : list (option (aval A))) v x, u <> v -> aval_of (upd s v x) u = aval_of s u) by (intros l v x Hn; unfold aval_of; now rewrite nth_error_upd_neq by congruence).
  assert (W : forall v idx a s s', a_step t dflt zero so s (AWrite v idx a) = Some s' -> option_map av_shape (aval_of s' u) = option_map av_shape (aval_of s u)).
  { intros v idx a s1 s1' E. cbn [a_step] in E. destruct (aval_of s1 v) as [[sh [l|]]|] eqn:Ea; try discriminate. destruct (in_bounds idx sh); [|discriminate]. injection E as <-.
    destruct (Nat.eq_dec u v) as [->|Hn]; [|now rewrite U]. rewrite aval_upd by (eapply aval_lt; eauto). now rewrite Nat.eqb_refl, Ea. }
  destruct o as [o|v idx rs g|v x g]; cbn [th_step targets].
  - destruct o as [v|v sh|v sh|v sh f|v x|v x|v x|v x|v sh f|v sh|v idx a|v]; cbn [targets]; try (intros E _; eapply W; exact E); cbn [a_step]; intros E Hu; cbn [In] in Hu;
      repeat match type of E with (match ?d with _ => _ end) = _ => destruct d; try discriminate end; injection E as <-; rewrite ?U; auto.
  - destruct (all_some _) as [l|]; [|discriminate]. intros E _. eapply W; eauto.
  - destruct (Nat.eqb v x); [discriminate|]. destruct (aval_of s x) as [[sh [cells|]]|]; try discriminate. destruct (all_some cells) as [l|]; [|discriminate]. cbn [a_step].
    destruct (aval_of s v); [|discriminate]. destruct (shape_ok so sh); [|discriminate]. intros E Hu. injection E as <-. rewrite U; auto. cbn [In] in Hu. auto.
Qed.

(** *** one statement *)
Theorem stmt_sim h p s o s' : ARel (mkw c ws h p) s -> PInv p h s -> permitted ns owner i o -> th_step t dflt zero so s o = Some s' ->
  exists h' p', run_act (t_exec p o) h = Some (h', p') /\ ARel (mkw c ws h' p') s' /\ PInv p' h' s' /\ conf t zero m cR cW (t_exec p o) h.
Proof.
  intros R I Pm E. destruct (arel_sane _ _ _ R) as [PS PL]. pose proof (pi_len _ _ _ I) as ML.
  assert (Tg : forall u, (u < ns)%nat -> ~ In u (targets o)).
  { intros u Hu Hin. destruct o as [o|v idx rs g|v x g]; [destruct o as [v|v sh|v sh|v sh f|v x|v x|v x|v x|v sh f|v sh|v idx a|v]|..]; cbn [targets permitted In] in *; lia. }
  assert (RR : exists h' p', run_act (t_exec p o) h = Some (h', p') /\ ARel (mkw c ws h' p') s').
  { destruct o as [o|v idx rs g|v x g]; cbn [th_step] in E.
    - destruct (a_step_sim t dflt zero so pr junk Hok Hso Hrank Hjunk _ s o s' R E) as (w' & Ew & R').
      destruct (exec_link t dflt zero so pr junk c ws h p o w' PS Ew) as (h' & p' & Er & ->); [|eauto].
      rewrite PL. intros u Hu. destruct o; cbn [In a_step] in *; repeat match type of E with (match ?d with _ => _ end) = _ => destruct d eqn:?; try discriminate end;
        repeat match goal with Hx : _ \/ _ |- _ => destruct Hx as [<-|Hx] | Hx : False |- _ => destruct Hx | Hx : _ && _ = true |- _ => apply andb_true_iff in Hx; destruct Hx end;
        try (eapply aval_lt; eassumption); try (match goal with Hf : afresh s ?v = true |- _ => now apply afresh_inv in Hf end).
    - destruct (all_some (map (elem_of so s) rs)) as [l|] eqn:El; [|discriminate]. cbn [a_step] in E. destruct (aval_of s v) as [[sh [cells|]]|] eqn:Ea; try discriminate.
      destruct (in_bounds idx sh) eqn:Eb; [|discriminate]. apply (in_bounds_spec so junk Hrank Hjunk) in Eb. injection E as <-.
      destruct (write_link h p s v sh cells idx (g l) R Ea Eb) as (h' & Eh & R'). exists h', p. split; auto. cbn [M_Threads.t_exec].
      rewrite run_bind, (elems_read _ _ _ _ _ R El), run_seq, Eh. reflexivity.
    - destruct (Nat.eqb_spec v x) as [|Hn]; [discriminate|]. destruct (aval_of s x) as [[sh [cells|]]|] eqn:Ex; try discriminate. destruct (all_some cells) as [l|] eqn:El; [|discriminate].
      cbn [a_step] in E. destruct (aval_of s v) as [a|] eqn:Ea; [|discriminate]. destruct (shape_ok so sh) eqn:Hs; [|discriminate]. injection E as <-.
      destruct (arel_layout _ _ _ _ _ R Ex) as (_ & Lx & _). cbn [av_shape] in Lx.
      destruct (resize_sim t dflt zero so pr junk Hok Hrank Hjunk _ s v a sh R Ea Hs) as (w1 & E1 & R1).
      pose proof (aval_lt _ _ _ Ea) as Lv. pose proof (aval_lt _ _ _ Ex) as Lxx.
      destruct (resize_link t dflt zero so pr junk c ws h p v sh w1 PS ltac:(lia) E1) as (h1 & p1 & Er & -> & _).
      assert (Hr : aval_of (upd s v (Some (resized t dflt zero a sh))) v = Some (resized t dflt zero a sh)) by (rewrite aval_upd by auto; now rewrite Nat.eqb_refl).
      assert (Hx1 : aval_of (upd s v (Some (resized t dflt zero a sh))) x = Some (AVal sh (Some cells))) by (rewrite aval_upd by auto; destruct (Nat.eqb_spec v x); [congruence|auto]).
      destruct (arel_layout _ _ _ _ _ R1 Hr) as (_ & Lv1 & _). cbn [resized av_shape] in Lv1.
      destruct R as (j & J). pose proof (ar_var _ _ _ _ _ _ _ J x Lxx) as Mx. rewrite Ex in Mx. destruct Mx as (_ & _ & Lc). cbn [av_shape] in Lc.
      destruct (all_some_nth _ _ El) as [_ Nl].
      unfold resized in Hr. destruct (map_fold (all_idx sh) g (fun idx => nth (place_of so sh idx) l dflt) h1 p1 _ v x sh _ cells R1 Hn Hr Hx1) as (h2 & E2 & R2).
      + intros idx Hi. now apply all_idx_In.
      + intros idx Hi. apply Nl. rewrite Lc. apply (place_bound so junk); auto. now apply all_idx_In.
      + exists h2, p1. cbn [M_Threads.t_exec]. rewrite Lx, run_bind, Er. unfold t_assign. rewrite run_seq, for_each_fold, Lv1, eff_fold.
        unfold eff at 2. cbn [L_Sched.run_act]. rewrite E2. split; [reflexivity|]. rewrite upd_upd in R2.
        rewrite (scatter_all so pr junk Hso Hrank Hjunk) in R2; auto.
        destruct R1 as (j1 & J1). pose proof (ar_var _ _ _ _ _ _ _ J1 v) as M1. rewrite upd_length in M1. specialize (M1 Lv). unfold resized in M1. rewrite Hr in M1. apply M1. }
  destruct RR as (h' & p' & Er & R'). exists h', p'. split; auto. split; auto. split.
  { refine (pinv_next _ _ _ _ _ _ _ _ R I Er R' _). intros v Hv. destruct (exec_keeps _ _ _ _ _ v Er (Tg v Hv)) as [K1 K2]. split; [unfold getv; now rewrite K1|]. split; [|eapply step_shape; eauto].
    destruct (Nat.lt_ge_cases v (length (p_lay p))) as [Hl|Hl].
    - apply nth_error_nth' with (d := dl) in Hl. rewrite <- K2 in Hl. now apply nth_error_nth with (d := dl) in Hl.
    - rewrite (nth_overflow _ _ Hl). apply nth_overflow. apply nth_error_None. rewrite K2. now apply nth_error_None. }
  clear R' Er. pose proof (pi_priv _ _ _ I) as Pp.
  destruct o as [o|v idx rs g|v x g]; [destruct o as [v|v sh|v sh|v sh f|v x|v x|v x|v x|v sh f|v sh|v idx a|v]|..]; cbn [M_Threads.t_exec permitted] in *.
  - exact Logic.I.
  - apply conf_bind; [now apply conf_new|intros; exact Logic.I].
  - apply conf_bind; [now apply conf_new|intros; exact Logic.I].
  - apply conf_bind; [now apply conf_new|]. intros h1 x Ex. pose proof (new_hpriv t dflt zero m _ _ _ _ _ ML Ex) as Hx. apply conf_bind; [|intros; exact Logic.I].
    rewrite for_each_fold. apply conf_fold; [|exact Logic.I]. intros idx h2 _. destruct (h_data x) as [b|] eqn:Eb; [|exact Logic.I]. apply conf_construct. now apply Hx.
  - destruct Pm as [Pv Px]. apply (conf_get t zero m cR cW p x _ h _ (perm_all _ _ _ _ I Px)). intros y Hy. apply conf_bind; [apply conf_copy; auto|intros; exact Logic.I].
  - destruct Pm as [Pv Px]. apply (conf_get t zero m cR cW p x _ h _ (Pp x Px)). intros y Hy. exact Logic.I.
  - destruct Pm as [Pv Px]. apply (conf_get t zero m cR cW p x _ h _ (perm_all _ _ _ _ I Px)). intros y Hy. apply conf_bind; [apply conf_copy; auto|].
    intros h1 z _. apply (conf_get t zero m cR cW p v _ h1 _ (Pp v Pv)). intros y' Hy'. apply conf_bind; [now apply conf_drop|intros; exact Logic.I].
  - destruct Pm as [Pv Px]. apply (conf_get t zero m cR cW p v _ h _ (Pp v Pv)). intros y Hy. apply conf_bind; [now apply conf_drop|]. intros h1 z _. apply (conf_get t zero m cR cW p x _ h1 _ (Pp x Px)). intros; exact Logic.I.
  - apply conf_bind; [apply conf_resize; auto|]. intros h1 q Eq. apply conf_assign; [eapply resize_hpriv; eauto|]. intros; exact Logic.I.
  - apply conf_resize; auto.
  - apply conf_bind; [|intros; exact Logic.I]. cbn [th_step a_step] in E. destruct (aval_of s v) as [[sh [l|]]|] eqn:Ea; try discriminate. destruct (in_bounds idx sh) eqn:Eb; [|discriminate].
    apply (in_bounds_spec so junk Hrank Hjunk) in Eb. apply (conf_get t zero m cR cW p v _ h _ (perm_cell _ _ _ _ _ idx R I Ea Eb)). intros y Hy. apply conf_write. intros b Hb. destruct (Hy b Hb) as [?|[Hv Eo]]; auto.
    right. destruct Pm as [?|Po]; [lia|]. unfold okR, okW. rewrite Eo. auto.
  - apply (conf_get t zero m cR cW p v _ h _ (Pp v Pm)). intros y Hy. apply conf_bind; [now apply conf_drop|intros; exact Logic.I].
  - destruct Pm as [Pv Px]. cbn [th_step] in E. destruct (all_some (map (elem_of so s) rs)) as [l|] eqn:El; [|discriminate].
    cbn [a_step] in E. destruct (aval_of s v) as [[sh [cells|]]|] eqn:Ea; try discriminate. destruct (in_bounds idx sh) eqn:Eb; [|discriminate]. apply (in_bounds_spec so junk Hrank Hjunk) in Eb.
    apply conf_bind.
    + apply conf_elems. intros r Hr y Hy b Hb.
      assert (Er : exists a, elem_of so s r = Some a).
      { clear -El Hr. revert l El. induction rs as [|r0 rs IH]; intros l El; [destruct Hr|]. cbn [map all_some] in El. destruct (elem_of so s r0) eqn:E0; [|discriminate]. destruct (all_some (map (elem_of so s) rs)); [|discriminate].
        destruct Hr as [->|Hr]; eauto. }
      destruct Er as (a & Er). unfold elem_of in Er. destruct (aval_of s (fst r)) as [[shr [lr|]]|] eqn:Ear; try discriminate. destruct (in_bounds (snd r) shr) eqn:Ebr; [|discriminate]. apply (in_bounds_spec so junk Hrank Hjunk) in Ebr.
      destruct (perm_cell _ _ _ _ _ (snd r) R I Ear Ebr y Hy b Hb) as [?|[Hv Eo]]; auto. right. destruct (Px r Hr) as [?|Po]; [lia|]. unfold okR. rewrite Eo. tauto.
    + intros h1 l1 El1. rewrite (elems_read _ _ _ _ _ R El) in El1. injection El1 as <- <-. apply conf_bind; [|intros; exact Logic.I].
      apply (conf_get t zero m cR cW p v _ h _ (perm_cell _ _ _ _ _ idx R I Ea Eb)). intros y Hy. apply conf_write. intros b Hb. destruct (Hy b Hb) as [?|[Hv Eo]]; auto.
      right. destruct Pv as [?|Po]; [lia|]. unfold okR, okW. rewrite Eo. auto.
  - destruct Pm as [Pv Px]. cbn [th_step] in E. destruct (Nat.eqb_spec v x) as [|Hn]; [discriminate|]. apply conf_bind; [apply conf_resize; auto|]. intros h1 q Eq. apply conf_assign; [eapply resize_hpriv; eauto|].
    intros idx h2 _. apply conf_bind; [|intros; exact Logic.I]. apply conf_elem. intros y Hy b Hb.
    destruct (resize_keeps _ _ _ _ _ _ x Eq) as [K _]; [auto|]. unfold getv in Hy. rewrite K in Hy. exact (perm_all _ _ _ _ I Px y Hy b _ Hb).
Qed.
Theorem prog_sim l : forall h p s s', ARel (mkw c ws h p) s -> PInv p h s -> Forall (permitted ns owner i) l -> th_history t dflt zero so s l = Some s' ->
  exists h' p', run_act (t_prog t dflt so pr junk p l) h = Some (h', p') /\ ARel (mkw c ws h' p') s' /\ PInv p' h' s' /\ conf t zero m cR cW (t_prog t dflt so pr junk p l) h.
Proof.
  induction l as [|o l IH]; intros h p s s' R I F E; cbn [th_history t_prog] in *.
  - injection E as <-. exists h, p. split; [reflexivity|]. split; auto. split; auto. exact Logic.I.
  - inversion F as [|o' l' Po Pl]; subst. destruct (th_step t dflt zero so s o) as [s1|] eqn:Es; [|discriminate].
    destruct (stmt_sim h p s o s1 R I Po Es) as (h1 & p1 & E1 & R1 & I1 & C1). destruct (IH h1 p1 s1 s' R1 I1 Pl E) as (h2 & p2 & E2 & R2 & I2 & C2).
    exists h2, p2. rewrite run_bind, E1. split; auto. split; auto. split; auto. apply conf_bind; auto. intros h' x Ex. rewrite E1 in Ex. injection Ex as <- <-. exact C2.
Qed.
End Thread.
