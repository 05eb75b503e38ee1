From Verif Require Import Base M_Handle S_Handle L_Handle.

Section Own.
Context {A : Type}.
Variable (t : traits) (dflt zero : A).
Hypothesis Hok : traits_ok t.

Definition holds_h (c : nat) (x : option hheap) : bool :=
  match x with Some h => match h_sptr h with Some c' => Nat.eqb c' c | None => false end | None => false end.
Definition holds_s (c : nat) (x : option hshared) : bool :=
  match x with Some h => match s_sptr h with Some c' => Nat.eqb c' c | None => false end | None => false end.
Definition owns_h (b : nat) (x : option hheap) : bool :=
  match x with Some h => match h_sptr h, h_data h with None, Some b' => Nat.eqb b' b | _, _ => false end | None => false end.
Definition owns_c (b : nat) (k : ctrl) : bool := Nat.ltb 0 (c_count k) && Nat.eqb (fst (c_blk k)) b.
Definition live01 (H : heap A) (b : nat) : nat := match nth_error H b with Some blk => b2n (b_live blk) | None => 0 end.

Definition payload (C : list ctrl) (c o n : nat) : Prop := exists k, nth_error C c = Some k /\ c_blk k = (o, n).
Definition okh (C : list ctrl) (objs : list (list (option A))) (x : option hheap) (p : place) : Prop :=
  match p with
  | Dead => x = None
  | Null => x = Some h_null
  | Ref o => exists l sp, nth_error objs o = Some l /\ l <> [] /\ x = Some (HHeap (Some o) (length l) sp)
             /\ (forall c, sp = Some c -> payload C c o (length l))
  | Moved => False
  end.
Definition oks (C : list ctrl) (objs : list (list (option A))) (x : option hshared) (p : place) : Prop :=
  match p with
  | Dead => x = None
  | Null => x = Some (HShared None 0 None)
  | Ref o => exists l c, nth_error objs o = Some l /\ l <> [] /\ x = Some (HShared (Some o) (length l) (Some c))
             /\ payload C c o (length l)
  | Moved => exists d n, x = Some (HShared d n None)
  end.

Record Rel (H : heap A) (C : list ctrl) wh ws (objs : list (list (option A))) ih iis : Prop := {
  r_len : length H = length objs;
  r_h : Forall2 (okh C objs) wh ih;
  r_s : Forall2 (oks C objs) ws iis;
  r_blk : forall o l, nth_error objs o = Some l ->
            (nth_error H o = Some (Block true l) /\ good t l) \/ nth_error H o = Some (Block false []);
  r_cnt : forall c k, nth_error C c = Some k -> c_count k = (countif (holds_h c) wh + countif (holds_s c) ws)%nat;
  r_pay : forall c k, nth_error C c = Some k -> exists l, nth_error objs (fst (c_blk k)) = Some l /\ length l = snd (c_blk k);
  r_own : forall b, (countif (owns_h b) wh + countif (owns_c b) C = live01 H b)%nat
}.

Lemma live01_one H b : (0 < live01 H b)%nat -> exists cs, nth_error H b = Some (Block true cs).
Proof. unfold live01. destruct (nth_error H b) as [[[] cs]|]; cbn [b_live b2n]; try lia. eauto. Qed.

Lemma rel_live_blk H C wh ws objs ih iis o l : Rel H C wh ws objs ih iis -> nth_error objs o = Some l ->
  (0 < live01 H o)%nat -> nth_error H o = Some (Block true l) /\ good t l.
Proof.
  intros R Eo L. destruct (r_blk _ _ _ _ _ _ _ R o l Eo) as [B|E]; auto.
  unfold live01 in L. rewrite E in L. simpl in L. lia.
Qed.

Lemma ctrl_pos H C wh ws objs ih iis c k : Rel H C wh ws objs ih iis -> nth_error C c = Some k -> (0 < c_count k)%nat ->
  (0 < live01 H (fst (c_blk k)))%nat.
Proof.
  intros R Ec L. rewrite <- (r_own _ _ _ _ _ _ _ R).
  enough (0 < countif (owns_c (fst (c_blk k))) C)%nat by lia.
  apply (countif_pos _ _ c k Ec). unfold owns_c. rewrite Nat.eqb_refl, andb_true_r. now apply Nat.ltb_lt.
Qed.

Lemma ref_h_live H C wh ws objs ih iis v o : Rel H C wh ws objs ih iis -> nth_error ih v = Some (Ref o) ->
  exists l sp, nth_error objs o = Some l /\ l <> [] /\ nth_error wh v = Some (Some (HHeap (Some o) (length l) sp))
    /\ nth_error H o = Some (Block true l) /\ good t l
    /\ (forall c, sp = Some c -> exists k, nth_error C c = Some k /\ c_blk k = (o, length l) /\ (0 < c_count k)%nat).
Proof.
  intros R Ev. destruct (Forall2_nth_error _ _ _ _ _ (r_h _ _ _ _ _ _ _ R) Ev) as (x & Ex & l & sp & Eo & Hn & -> & Hp).
  assert (K : forall c, sp = Some c -> exists k, nth_error C c = Some k /\ c_blk k = (o, length l) /\ (0 < c_count k)%nat).
  { intros c ->. destruct (Hp c eq_refl) as (k & Ec & Ek). exists k. repeat split; auto.
    rewrite (r_cnt _ _ _ _ _ _ _ R c k Ec). enough (0 < countif (holds_h c) wh)%nat by lia.
    apply (countif_pos _ _ v _ Ex). cbn. apply Nat.eqb_refl. }
  assert (L : (0 < live01 H o)%nat).
  { destruct sp as [c|].
    - destruct (K c eq_refl) as (k & Ec & Ek & Hc). replace o with (fst (c_blk k)) by now rewrite Ek.
      eapply ctrl_pos; eauto.
    - rewrite <- (r_own _ _ _ _ _ _ _ R). enough (0 < countif (owns_h o) wh)%nat by lia.
      apply (countif_pos _ _ v _ Ex). cbn. apply Nat.eqb_refl. }
  destruct (rel_live_blk _ _ _ _ _ _ _ _ _ R Eo L) as [B G].
  exists l, sp. auto 10.
Qed.

Lemma ref_s_live H C wh ws objs ih iis v o : Rel H C wh ws objs ih iis -> nth_error iis v = Some (Ref o) ->
  exists l c k, nth_error objs o = Some l /\ l <> [] /\ nth_error ws v = Some (Some (HShared (Some o) (length l) (Some c)))
    /\ nth_error H o = Some (Block true l) /\ good t l
    /\ nth_error C c = Some k /\ c_blk k = (o, length l) /\ (0 < c_count k)%nat.
Proof.
  intros R Ev. destruct (Forall2_nth_error _ _ _ _ _ (r_s _ _ _ _ _ _ _ R) Ev) as (x & Ex & l & c & Eo & Hn & -> & k & Ec & Ek).
  assert (Hc : (0 < c_count k)%nat).
  { rewrite (r_cnt _ _ _ _ _ _ _ R c k Ec). enough (0 < countif (holds_s c) ws)%nat by lia.
    apply (countif_pos _ _ v _ Ex). cbn. apply Nat.eqb_refl. }
  assert (L : (0 < live01 H o)%nat).
  { replace o with (fst (c_blk k)) by now rewrite Ek. eapply ctrl_pos; eauto. }
  destruct (rel_live_blk _ _ _ _ _ _ _ _ _ R Eo L) as [B G].
  exists l, c, k. auto 12.
Qed.

(** what the variables of the two machines look like *)
Lemma alive_h H C wh ws objs ih iis v : Rel H C wh ws objs ih iis -> alive ih v = true ->
  exists x, nth_error wh v = Some (Some x) /\ (nth_error ih v = Some Null /\ x = h_null \/ exists o, nth_error ih v = Some (Ref o)).
Proof.
  intros R Hv. unfold alive in Hv. destruct (nth_error ih v) as [p|] eqn:E; [|discriminate].
  destruct (Forall2_nth_error _ _ _ _ _ (r_h _ _ _ _ _ _ _ R) E) as (x & Ex & Hp).
  destruct p; try discriminate; cbn in Hp; try contradiction.
  - subst x. eauto.
  - destruct Hp as (l & sp & _ & _ & -> & _). eauto.
Qed.
Lemma unused_h H C wh ws objs ih iis v : Rel H C wh ws objs ih iis -> unused ih v = true ->
  nth_error wh v = Some None /\ nth_error ih v = Some Dead.
Proof.
  intros R Hv. unfold unused in Hv. destruct (nth_error ih v) as [p|] eqn:E; [|discriminate].
  destruct (Forall2_nth_error _ _ _ _ _ (r_h _ _ _ _ _ _ _ R) E) as (x & Ex & Hp).
  destruct p; try discriminate. cbn in Hp. subst. auto.
Qed.
Lemma unused_s H C wh ws objs ih iis v : Rel H C wh ws objs ih iis -> unused iis v = true ->
  nth_error ws v = Some None /\ nth_error iis v = Some Dead.
Proof.
  intros R Hv. unfold unused in Hv. destruct (nth_error iis v) as [p|] eqn:E; [|discriminate].
  destruct (Forall2_nth_error _ _ _ _ _ (r_s _ _ _ _ _ _ _ R) E) as (x & Ex & Hp).
  destruct p; try discriminate. cbn in Hp. subst. auto.
Qed.

(** ** releasing *)
Lemma live01_upd (H : heap A) o cs b : nth_error H o = Some (Block true cs) ->
  (live01 (upd H o (Block false [])) b + b2n (Nat.eqb o b) = live01 H b)%nat.
Proof.
  intros E. unfold live01. destruct (Nat.eqb_spec o b) as [->|n].
  - rewrite nth_error_upd_eq by (eapply nth_error_lt; eauto). rewrite E. reflexivity.
  - rewrite nth_error_upd_neq by auto. cbn [b2n]. lia.
Qed.

Lemma payload_upd C c o n c' k k' : nth_error C c' = Some k -> c_blk k' = c_blk k ->
  payload C c o n -> payload (upd C c' k') c o n.
Proof.
  intros E Ek (k0 & E0 & Ek0). destruct (Nat.eq_dec c' c) as [->|Hne].
  - exists k'. rewrite nth_error_upd_eq by (eapply nth_error_lt; eauto). split; auto. congruence.
  - exists k0. rewrite nth_error_upd_neq by auto. auto.
Qed.
Lemma payload_app C x c o n : payload C c o n -> payload (C ++ x) c o n.
Proof. intros (k & E & Ek). exists k. rewrite nth_error_app1; eauto using nth_error_lt. Qed.
Lemma okh_mono C C' objs objs' x p : (forall c o n, payload C c o n -> payload C' c o n) ->
  (forall o l, nth_error objs o = Some l -> exists l', nth_error objs' o = Some l' /\ length l' = length l) -> okh C objs x p -> okh C' objs' x p.
Proof.
  intros HC HO. destruct p; cbn; auto. intros (l & sp & Eo & Hn & -> & Hp).
  destruct (HO _ _ Eo) as (l' & Eo' & Hl'). exists l', sp. repeat split; auto.
  - intros ->. destruct l; [congruence|discriminate].
  - now rewrite Hl'.
  - intros c Hc. rewrite Hl'. auto.
Qed.
Lemma oks_mono C C' objs objs' x p : (forall c o n, payload C c o n -> payload C' c o n) ->
  (forall o l, nth_error objs o = Some l -> exists l', nth_error objs' o = Some l' /\ length l' = length l) -> oks C objs x p -> oks C' objs' x p.
Proof.
  intros HC HO. destruct p; cbn; auto. intros (l & c & Eo & Hn & -> & Hp).
  destruct (HO _ _ Eo) as (l' & Eo' & Hl'). exists l', c. repeat split; auto.
  - intros ->. destruct l; [congruence|discriminate].
  - now rewrite Hl'.
  - rewrite Hl'. auto.
Qed.
Lemma Forall2_impl' {T U} (P Q : T -> U -> Prop) l l' : (forall x y, P x y -> Q x y) -> Forall2 P l l' -> Forall2 Q l l'.
Proof. intros H. induction 1; constructor; auto. Qed.
Lemma same_objs (objs : list (list (option A))) o l : nth_error objs o = Some l -> exists l', nth_error objs o = Some l' /\ length l' = length l.
Proof. eauto. Qed.

(** the effect of giving up one owner of control block [c] on memory *)
Lemma release_spec H C wh ws objs ih iis c k : Rel H C wh ws objs ih iis -> nth_error C c = Some k -> (0 < c_count k)%nat ->
  exists H', sptr_release t (Some c) (Mem H C) = Some (Mem H' (upd C c (Ctrl (c_count k - 1) (c_blk k) (c_pair k))))
   /\ length H' = length H
   /\ (forall o l, nth_error objs o = Some l -> (nth_error H' o = Some (Block true l) /\ good t l) \/ nth_error H' o = Some (Block false []))
   /\ (forall b, countif (owns_h b) wh + countif (owns_c b) (upd C c (Ctrl (c_count k - 1) (c_blk k) (c_pair k))) = live01 H' b)%nat.
Proof.
  intros R Ec Hc. unfold sptr_release. cbn [m_ctrl m_heap]. rewrite Ec.
  destruct (r_pay _ _ _ _ _ _ _ R c k Ec) as (l & Eo & Hl).
  destruct (rel_live_blk _ _ _ _ _ _ _ _ _ R Eo (ctrl_pos _ _ _ _ _ _ _ _ _ R Ec Hc)) as [B G].
  destruct (c_count k) as [|[|n]] eqn:En; [lia| |].
  - rewrite <- Hl. rewrite (destruct_live t Hok _ _ _ B G).
    exists (upd H (fst (c_blk k)) (Block false [])). cbn [Nat.sub]. split; [reflexivity|].
    split; [apply upd_length|]. split.
    + intros o l' E. destruct (Nat.eq_dec (fst (c_blk k)) o) as [<-|Hne].
      * right. apply nth_error_upd_eq. eapply nth_error_lt; eauto.
      * rewrite nth_error_upd_neq by auto. now apply (r_blk _ _ _ _ _ _ _ R).
    + intros b. pose proof (r_own _ _ _ _ _ _ _ R b) as O. pose proof (live01_upd _ _ _ b B) as L.
      pose proof (countif_upd (owns_c b) C c (Ctrl 0 (c_blk k) (c_pair k)) k Ec) as U.
      unfold owns_c at 2 4 in U. cbn [c_count c_blk Nat.ltb Nat.leb andb b2n] in U. rewrite En in U.
      cbn [Nat.ltb Nat.leb andb] in U. lia.
  - exists H. cbn [Nat.sub]. split; [reflexivity|]. split; auto. split; [apply (r_blk _ _ _ _ _ _ _ R)|].
    intros b. pose proof (r_own _ _ _ _ _ _ _ R b) as O.
    pose proof (countif_upd (owns_c b) C c (Ctrl (S n) (c_blk k) (c_pair k)) k Ec) as U.
    unfold owns_c at 2 4 in U. cbn [c_count c_blk] in U. rewrite En in U. cbn [Nat.ltb Nat.leb andb] in U. lia.
Qed.

Definition vacant (x : option hheap) (p : place) : Prop := (x = None /\ p = Dead) \/ (x = Some h_null /\ p = Null).
Lemma vacant_ok C objs x p : vacant x p -> okh C objs x p.
Proof. intros [[-> ->]|[-> ->]]; reflexivity. Qed.
Lemma vacant_holds c x p : vacant x p -> holds_h c x = false.
Proof. intros [[-> ->]|[-> ->]]; reflexivity. Qed.
Lemma vacant_owns b x p : vacant x p -> owns_h b x = false.
Proof. intros [[-> ->]|[-> ->]]; reflexivity. Qed.

Lemma cnt_upd_pay C c k k' objs (P : forall c k, nth_error C c = Some k -> exists l : list (option A), nth_error objs (fst (c_blk k)) = Some l /\ length l = snd (c_blk k)) :
  nth_error C c = Some k -> c_blk k' = c_blk k ->
  forall c0 k0, nth_error (upd C c k') c0 = Some k0 -> exists l, nth_error objs (fst (c_blk k0)) = Some l /\ length l = snd (c_blk k0).
Proof.
  intros Ec Ek c0 k0 E0. apply nth_error_upd in E0. destruct E0 as [[<- ->]|[Hne E0]].
  - rewrite Ek. eauto.
  - eauto.
Qed.

(** the end of life of a heap handle *)
Lemma drop_h H C wh ws objs ih iis v x : Rel H C wh ws objs ih iis -> alive ih v = true -> nth_error wh v = Some (Some x) ->
  exists H' C', h_destroy t x (Mem H C) = Some (Mem H' C') /\
    forall x' p', vacant x' p' -> Rel H' C' (upd wh v x') ws objs (upd ih v p') iis.
Proof.
  intros R Hv Ex. destruct (alive_h _ _ _ _ _ _ _ _ R Hv) as (x0 & Ex0 & [[Ei ->]|(o & Ei)]).
  - (* null *)
    assert (x = h_null) by congruence. subst x. exists H, C. split; [reflexivity|].
    intros x' p' V. destruct R as [R1 R2 R3 R4 R5 R6 R7]. constructor; auto.
    + apply Forall2_upd; auto. now apply vacant_ok.
    + intros c k Ec. rewrite (R5 c k Ec). pose proof (countif_upd (holds_h c) wh v x' _ Ex) as U.
      rewrite (vacant_holds _ _ _ V) in U. cbn in U. lia.
    + intros b. rewrite <- (R7 b). pose proof (countif_upd (owns_h b) wh v x' _ Ex) as U.
      rewrite (vacant_owns _ _ _ V) in U. cbn in U. lia.
  - destruct (ref_h_live _ _ _ _ _ _ _ _ _ R Ei) as (l & sp & Eo & Hn & Ew & B & G & K).
    assert (x = HHeap (Some o) (length l) sp) by congruence. subst x. clear x0 Ex0.
    destruct sp as [c|].
    + destruct (K c eq_refl) as (k & Ec & Ek & Hc).
      destruct (release_spec _ _ _ _ _ _ _ _ _ R Ec Hc) as (H' & E' & L' & B' & O').
      exists H', (upd C c (Ctrl (c_count k - 1) (c_blk k) (c_pair k))). split; [exact E'|].
      intros x' p' V. destruct R as [R1 R2 R3 R4 R5 R6 R7]. constructor; auto.
      * congruence.
      * apply Forall2_upd; [|now apply vacant_ok]. eapply Forall2_impl'; [|exact R2].
        intros y q. apply okh_mono; [|apply same_objs]. intros. eapply payload_upd; eauto.
      * eapply Forall2_impl'; [|exact R3]. intros y q. apply oks_mono; [|apply same_objs]. intros. eapply payload_upd; eauto.
      * intros c0 k0 E0. pose proof (countif_upd (holds_h c0) wh v x' _ Ex) as U.
        rewrite (vacant_holds _ _ _ V) in U. cbn [holds_h h_sptr b2n] in U.
        apply nth_error_upd in E0. destruct E0 as [[<- ->]|[Hne E0]].
        -- cbn [c_count]. rewrite Nat.eqb_refl in U. cbn [b2n] in U. pose proof (R5 c k Ec). lia.
        -- destruct (Nat.eqb_spec c c0); [congruence|]. cbn [b2n] in U. pose proof (R5 c0 k0 E0). lia.
      * eapply cnt_upd_pay; eauto.
      * intros b. rewrite <- (O' b). pose proof (countif_upd (owns_h b) wh v x' _ Ex) as U.
        rewrite (vacant_owns _ _ _ V) in U. cbn in U. lia.
    + exists (upd H o (Block false [])), C. split.
      { unfold h_destroy. cbn [h_sptr is_null h_data negb andb h_size m_heap m_ctrl]. unfold is_null. cbn [h_data negb andb].
        rewrite (destruct_live t Hok _ _ _ B G). reflexivity. }
      intros x' p' V. destruct R as [R1 R2 R3 R4 R5 R6 R7]. constructor; auto.
      * now rewrite upd_length.
      * apply Forall2_upd; auto. now apply vacant_ok.
      * intros o' l' E. destruct (Nat.eq_dec o o') as [<-|Hne].
        -- right. apply nth_error_upd_eq. eapply nth_error_lt; eauto.
        -- rewrite nth_error_upd_neq by auto. now apply R4.
      * intros c k Ec. rewrite (R5 c k Ec). pose proof (countif_upd (holds_h c) wh v x' _ Ex) as U.
        rewrite (vacant_holds _ _ _ V) in U. cbn in U. lia.
      * intros b. pose proof (R7 b) as O. pose proof (live01_upd _ _ _ b B) as L.
        pose proof (countif_upd (owns_h b) wh v x' _ Ex) as U.
        rewrite (vacant_owns _ _ _ V) in U. cbn [owns_h h_sptr h_data b2n] in U. lia.
Qed.

(** a new block for a vacant variable *)
Lemma live01_app (H : heap A) l b : (live01 (H ++ [Block true l]) b = live01 H b + b2n (Nat.eqb (length H) b))%nat.
Proof.
  unfold live01. destruct (Nat.lt_trichotomy b (length H)) as [L|[->|L]].
  - rewrite nth_error_app1 by auto. destruct (Nat.eqb_spec (length H) b); [lia|]. cbn [b2n]. lia.
  - rewrite nth_error_new, Nat.eqb_refl. rewrite (proj2 (nth_error_None H (length H))) by lia. reflexivity.
  - rewrite (proj2 (nth_error_None (H ++ _) b)) by (rewrite app_length; simpl; lia).
    rewrite (proj2 (nth_error_None H b)) by lia. destruct (Nat.eqb_spec (length H) b); [lia|]. reflexivity.
Qed.

Lemma vacant_h H C wh ws objs ih iis v x p : Rel H C wh ws objs ih iis -> nth_error wh v = Some x -> nth_error ih v = Some p ->
  p = Dead \/ p = Null -> vacant x p.
Proof.
  intros R Ex Ep Hp. destruct (Forall2_nth_error _ _ _ _ _ (r_h _ _ _ _ _ _ _ R) Ep) as (x0 & Ex0 & Hx).
  assert (x0 = x) by congruence. subst x0. unfold vacant. destruct Hp as [-> | ->]; cbn in Hx; auto.
Qed.

Lemma create_h H C wh ws objs ih iis v x p l : Rel H C wh ws objs ih iis -> nth_error wh v = Some x -> nth_error ih v = Some p ->
  vacant x p -> good t l ->
  let '(H', hx) := alloc_result l H in let '(objs', p') := create l objs in
  Rel H' C (upd wh v (Some hx)) ws objs' (upd ih v p') iis.
Proof.
  intros R Ex Ep V G. destruct l as [|a l].
  - cbn. destruct R as [R1 R2 R3 R4 R5 R6 R7]. constructor; auto.
    + apply Forall2_upd; auto. reflexivity.
    + intros c k Ec. rewrite (R5 c k Ec). pose proof (countif_upd (holds_h c) wh v (Some h_null) _ Ex) as U.
      rewrite (vacant_holds _ _ _ V) in U. cbn in U. lia.
    + intros b. rewrite <- (R7 b). pose proof (countif_upd (owns_h b) wh v (Some h_null) _ Ex) as U.
      rewrite (vacant_owns _ _ _ V) in U. cbn in U. lia.
  - unfold alloc_result, create. set (l' := a :: l) in *. destruct R as [R1 R2 R3 R4 R5 R6 R7].
    assert (MO : forall o (m : list (option A)), nth_error objs o = Some m -> exists m', nth_error (objs ++ [l']) o = Some m' /\ length m' = length m).
    { intros o m E. exists m. rewrite nth_error_app1 by (eapply nth_error_lt; eauto). auto. }
    constructor.
    + rewrite !app_length. simpl. lia.
    + apply Forall2_upd.
      * eapply Forall2_impl'; [|exact R2]. intros y q. apply okh_mono; auto.
      * cbn. exists l', None. rewrite nth_error_new, R1. repeat split; auto; discriminate.
    + eapply Forall2_impl'; [|exact R3]. intros y q. apply oks_mono; auto.
    + intros o m E. destruct (Nat.eq_dec o (length objs)) as [->|Hne].
      * rewrite nth_error_new in E. injection E as <-. left. rewrite <- R1, nth_error_new. auto.
      * assert (Lo : (o < length objs)%nat). { pose proof (nth_error_lt _ _ _ E) as L. rewrite app_length in L. simpl in L. lia. }
        rewrite nth_error_app1 in E |- * by lia. auto.
    + intros c k Ec. rewrite (R5 c k Ec). match goal with |- context [upd wh v ?y] => pose proof (countif_upd (holds_h c) wh v y _ Ex) as U end.
      rewrite (vacant_holds _ _ _ V) in U. cbn [holds_h h_sptr b2n] in U. lia.
    + intros c k Ec. destruct (R6 c k Ec) as (m & E & Hm). exists m. rewrite nth_error_app1 by (eapply nth_error_lt; eauto). auto.
    + intros b. rewrite live01_app, <- (R7 b).
      match goal with |- context [upd wh v ?y] => pose proof (countif_upd (owns_h b) wh v y _ Ex) as U end.
      rewrite (vacant_owns _ _ _ V) in U. cbn [owns_h h_sptr h_data b2n] in U. lia.
Qed.

(** transfer from [x] to a vacant variable [v] *)
Lemma at_nth l v p : nth_error l v = Some p -> at_ l v = p.
Proof. unfold at_. intros. now apply nth_error_nth. Qed.

Lemma transfer_h H C wh ws objs ih iis v x y p hx : Rel H C wh ws objs ih iis -> nth_error wh v = Some y -> nth_error ih v = Some p ->
  vacant y p -> v <> x -> nth_error wh x = Some (Some hx) -> alive ih x = true ->
  Rel H C (upd (upd wh v (Some hx)) x (Some h_null)) ws objs (upd (upd ih v (at_ ih x)) x Null) iis.
Proof.
  intros R Ev Ep V Hne Ex Hx. assert (Ex' : nth_error (upd wh v (Some hx)) x = Some (Some hx)) by now rewrite nth_error_upd_neq.
  destruct (alive_h _ _ _ _ _ _ _ _ R Hx) as (x0 & Ex0 & Hx0).
  destruct R as [R1 R2 R3 R4 R5 R6 R7]. constructor; auto.
  - apply Forall2_upd; [|reflexivity]. apply Forall2_upd; auto.
    assert (Eq : exists q, nth_error ih x = Some q). { destruct Hx0 as [[E _]|(o & E)]; eauto. }
    destruct Eq as (q & Eq). rewrite (at_nth _ _ _ Eq).
    destruct (Forall2_nth_error _ _ _ _ _ R2 Eq) as (x1 & Ex1 & Hx1). congruence.
  - intros c k Ec. rewrite (R5 c k Ec).
    pose proof (countif_upd (holds_h c) wh v (Some hx) _ Ev) as U.
    pose proof (countif_upd (holds_h c) _ x (Some h_null) _ Ex') as U'.
    rewrite (vacant_holds _ _ _ V) in U. unfold holds_h at 4 in U'. cbn [h_null h_sptr b2n] in U, U'. lia.
  - intros b. rewrite <- (R7 b).
    pose proof (countif_upd (owns_h b) wh v (Some hx) _ Ev) as U.
    pose proof (countif_upd (owns_h b) _ x (Some h_null) _ Ex') as U'.
    rewrite (vacant_owns _ _ _ V) in U. unfold owns_h at 4 in U'. cbn [h_null h_sptr h_data b2n] in U, U'. lia.
Qed.

(** writing an element *)
Lemma upd_not_nil {T} (l : list T) i x : l <> [] -> upd l i x <> [].
Proof. destruct l; destruct i; simpl; congruence. Qed.
Lemma good_upd (l : list (option A)) i a : good t l -> good t (upd l i (Some a)).
Proof.
  intros G E. specialize (G E). unfold some_all in *. rewrite Forall_forall in *. intros c Hc.
  apply In_nth_error in Hc. destruct Hc as (j & Ej). apply nth_error_upd in Ej. destruct Ej as [[_ ->]|[_ Ej]]; [discriminate|].
  apply G. eapply nth_error_In; eauto.
Qed.
Lemma write_rel H C wh ws objs ih iis o l i a : Rel H C wh ws objs ih iis -> nth_error objs o = Some l ->
  nth_error H o = Some (Block true l) -> good t l ->
  Rel (upd H o (Block true (upd l i (Some a)))) C wh ws (upd objs o (upd l i (Some a))) ih iis.
Proof.
  intros R Eo B G. destruct R as [R1 R2 R3 R4 R5 R6 R7].
  assert (MO : forall o' (m : list (option A)), nth_error objs o' = Some m -> exists m', nth_error (upd objs o (upd l i (Some a))) o' = Some m' /\ length m' = length m).
  { intros o' m E. destruct (Nat.eq_dec o o') as [<-|Hne].
    - exists (upd l i (Some a)). rewrite nth_error_upd_eq by (eapply nth_error_lt; eauto). rewrite upd_length. split; congruence.
    - exists m. rewrite nth_error_upd_neq by auto. auto. }
  constructor; auto.
  - now rewrite !upd_length.
  - eapply Forall2_impl'; [|exact R2]. intros y q. apply okh_mono; auto.
  - eapply Forall2_impl'; [|exact R3]. intros y q. apply oks_mono; auto.
  - intros o' m E. apply nth_error_upd in E. destruct E as [[<- ->]|[Hne E]].
    + left. rewrite nth_error_upd_eq by (eapply nth_error_lt; eauto). split; auto. now apply good_upd.
    + rewrite nth_error_upd_neq by auto. auto.
  - intros c k Ec. destruct (R6 c k Ec) as (m & E & Hm). destruct (MO _ _ E) as (m' & E' & Hm'). exists m'. split; congruence.
  - intros b. rewrite (R7 b). unfold live01. destruct (Nat.eq_dec o b) as [<-|Hne].
    + rewrite nth_error_upd_eq by (eapply nth_error_lt; eauto). now rewrite B.
    + now rewrite nth_error_upd_neq by auto.
Qed.

(** ** shared handles *)
Definition vacant_s (x : option hshared) (p : place) : Prop :=
  (x = None /\ p = Dead) \/ (x = Some (HShared None 0 None) /\ p = Null) \/ (exists d n, x = Some (HShared d n None)) /\ p = Moved.
Lemma vacant_s_ok C objs x p : vacant_s x p -> oks C objs x p.
Proof. intros [[-> ->]|[[-> ->]|[H ->]]]; cbn; auto. Qed.
Lemma vacant_s_holds c x p : vacant_s x p -> holds_s c x = false.
Proof. intros [[-> ->]|[[-> ->]|[(d & n & ->) ->]]]; reflexivity. Qed.

Lemma var_s H C wh ws objs ih iis v p : Rel H C wh ws objs ih iis -> nth_error iis v = Some p ->
  exists x, nth_error ws v = Some x /\ oks C objs x p /\ ((forall o, p <> Ref o) -> vacant_s x p).
Proof.
  intros R E. destruct (Forall2_nth_error _ _ _ _ _ (r_s _ _ _ _ _ _ _ R) E) as (x & Ex & Hp). exists x. split; auto. split; auto.
  intros Hn. unfold vacant_s. destruct p; cbn in Hp; auto. now specialize (Hn o).
Qed.

(** control block [c] of variable [v] is given up; the variable becomes vacant *)
Lemma drop_s H C wh ws objs ih iis v x : Rel H C wh ws objs ih iis -> alive iis v = true -> nth_error ws v = Some (Some x) ->
  exists H' C', sptr_release t (s_sptr x) (Mem H C) = Some (Mem H' C') /\
    (forall x' p', vacant_s x' p' -> Rel H' C' wh (upd ws v x') objs ih (upd iis v p')).
Proof.
  intros R Hv Ex. unfold alive in Hv. destruct (nth_error iis v) as [p|] eqn:Ep; [|discriminate].
  destruct (var_s _ _ _ _ _ _ _ _ _ R Ep) as (x0 & Ex0 & Hx0 & V0). assert (x0 = Some x) by congruence. subst x0.
  assert (Hp : (exists o, p = Ref o) \/ vacant_s (Some x) p).
  { destruct p; try discriminate; eauto; right; apply V0; discriminate. }
  destruct Hp as [(o & ->)|V1].
  - destruct (ref_s_live _ _ _ _ _ _ _ _ _ R Ep) as (l & c & k & Eo & Hn & Ew & B & G & Ec & Ek & Hc).
    assert (x = HShared (Some o) (length l) (Some c)) by congruence. subst x.
    destruct (release_spec _ _ _ _ _ _ _ _ _ R Ec Hc) as (H' & E' & L' & B' & O').
    exists H', (upd C c (Ctrl (c_count k - 1) (c_blk k) (c_pair k))). split; [exact E'|].
    intros x' p' V. destruct R as [R1 R2 R3 R4 R5 R6 R7]. constructor; auto.
    + congruence.
    + eapply Forall2_impl'; [|exact R2]. intros y q. apply okh_mono; [|apply same_objs]. intros. eapply payload_upd; eauto.
    + apply Forall2_upd; [|now apply vacant_s_ok]. eapply Forall2_impl'; [|exact R3].
      intros y q. apply oks_mono; [|apply same_objs]. intros. eapply payload_upd; eauto.
    + intros c0 k0 E0. pose proof (countif_upd (holds_s c0) ws v x' _ Ex) as U.
      rewrite (vacant_s_holds _ _ _ V) in U. cbn [holds_s s_sptr b2n] in U.
      apply nth_error_upd in E0. destruct E0 as [[<- ->]|[Hne E0]].
      * cbn [c_count]. rewrite Nat.eqb_refl in U. cbn [b2n] in U. pose proof (R5 c k Ec). lia.
      * destruct (Nat.eqb_spec c c0); [congruence|]. cbn [b2n] in U. pose proof (R5 c0 k0 E0). lia.
    + eapply cnt_upd_pay; eauto.
  - exists H, C. split.
    { destruct V1 as [[V1 _]|[[V1 _]|[(d & n & V1) _]]]; try discriminate; injection V1 as ->; reflexivity. }
    intros x' p' V. destruct R as [R1 R2 R3 R4 R5 R6 R7]. constructor; auto.
    + apply Forall2_upd; auto. now apply vacant_s_ok.
    + intros c k Ec. rewrite (R5 c k Ec). pose proof (countif_upd (holds_s c) ws v x' _ Ex) as U.
      rewrite (vacant_s_holds _ _ _ V), (vacant_s_holds _ _ _ V1) in U. cbn in U. lia.
Qed.

(** one more owner: a vacant shared variable [v] becomes a copy of a readable shared variable *)
Lemma acquire_s H C wh ws objs ih iis v y q x p : Rel H C wh ws objs ih iis ->
  nth_error ws v = Some y -> nth_error iis v = Some q -> vacant_s y q ->
  oks C objs (Some x) p -> readable p = true -> (forall c, s_sptr x = Some c -> exists k, nth_error C c = Some k /\ (0 < c_count k)%nat) ->
  exists C', sptr_copy (s_sptr x) (Mem H C) = Some (Mem H C') /\ Rel H C' wh (upd ws v (Some x)) objs ih (upd iis v p).
Proof.
  intros R Ev Eq V Hx Hp Hk. destruct p; try discriminate; cbn in Hx.
  - injection Hx as ->. exists C. split; [reflexivity|]. destruct R as [R1 R2 R3 R4 R5 R6 R7]. constructor; auto.
    + apply Forall2_upd; auto. reflexivity.
    + intros c k Ec. rewrite (R5 c k Ec). pose proof (countif_upd (holds_s c) ws v (Some (HShared None 0 None)) _ Ev) as U.
      rewrite (vacant_s_holds _ _ _ V) in U. cbn in U. lia.
  - destruct Hx as (l & c & Eo & Hn & Exx & Hpay). injection Exx as ->. destruct (Hk c eq_refl) as (k & Ec & Hc).
    unfold sptr_copy. cbn [s_sptr m_ctrl m_heap]. rewrite Ec. destruct (c_count k) as [|n] eqn:En; [lia|].
    exists (upd C c (Ctrl (S (S n)) (c_blk k) (c_pair k))). split; [reflexivity|].
    destruct R as [R1 R2 R3 R4 R5 R6 R7]. constructor; auto.
    + eapply Forall2_impl'; [|exact R2]. intros y' q'. apply okh_mono; [|apply same_objs]. intros. eapply payload_upd; eauto.
    + apply Forall2_upd.
      * eapply Forall2_impl'; [|exact R3]. intros y' q'. apply oks_mono; [|apply same_objs]. intros. eapply payload_upd; eauto.
      * cbn. exists l, c. repeat split; auto. eapply payload_upd; eauto.
    + intros c0 k0 E0. match goal with |- context [upd ws v ?z] => pose proof (countif_upd (holds_s c0) ws v z _ Ev) as U end.
      rewrite (vacant_s_holds _ _ _ V) in U. cbn [holds_s s_sptr b2n] in U.
      apply nth_error_upd in E0. destruct E0 as [[<- ->]|[Hne E0]].
      * cbn [c_count]. rewrite Nat.eqb_refl in U. cbn [b2n] in U. pose proof (R5 c k Ec). lia.
      * destruct (Nat.eqb_spec c c0); [congruence|]. cbn [b2n] in U. pose proof (R5 c0 k0 E0). lia.
    + eapply cnt_upd_pay; eauto.
    + intros b. rewrite <- (R7 b). pose proof (countif_upd (owns_c b) C c (Ctrl (S (S n)) (c_blk k) (c_pair k)) k Ec) as U.
      unfold owns_c at 2 4 in U. cbn [c_count c_blk] in U. rewrite En in U. cbn [Nat.ltb Nat.leb andb] in U. lia.
Qed.

(** the first call of get_sptr: the block passes from the variable to a control block *)
Lemma make_ctrl H C wh ws objs ih iis v o n : Rel H C wh ws objs ih iis -> nth_error wh v = Some (Some (HHeap (Some o) n None)) ->
  nth_error ih v = Some (Ref o) ->
  Rel H (C ++ [Ctrl 1 (o, n) true]) (upd wh v (Some (HHeap (Some o) n (Some (length C))))) ws objs ih iis.
Proof.
  intros R Ev Ei. destruct (ref_h_live _ _ _ _ _ _ _ _ _ R Ei) as (l & sp & Eo & Hn & Ew & B & G & K).
  assert (n = length l /\ sp = None) as [-> ->] by (split; congruence).
  destruct R as [R1 R2 R3 R4 R5 R6 R7].
  assert (NC : forall c, (countif (holds_h c) wh + countif (holds_s c) ws > 0)%nat -> (c < length C)%nat).
  { intros c Hc. destruct (countif (holds_h c) wh) eqn:E1.
    - destruct (countif_ex (holds_s c) ws) as (u & x & Ex & Hx); [lia|].
      destruct (Forall2_nth_error_l _ _ _ _ _ R3 Ex) as (p & Ep & Hp).
      destruct x as [x|]; [|discriminate]. cbn in Hx. destruct (s_sptr x) as [c'|] eqn:Es; [|discriminate].
      apply Nat.eqb_eq in Hx. subst c'. destruct p; cbn in Hp.
      + discriminate.
      + injection Hp as ->. discriminate.
      + destruct Hp as (l' & c' & _ & _ & Ex' & k & Ek & _). injection Ex' as ->. cbn in Es. injection Es as ->. eapply nth_error_lt; eauto.
      + destruct Hp as (d & n & Ex'). injection Ex' as ->. discriminate.
    - destruct (countif_ex (holds_h c) wh) as (u & x & Ex & Hx); [lia|].
      destruct (Forall2_nth_error_l _ _ _ _ _ R2 Ex) as (p & Ep & Hp).
      destruct x as [x|]; [|discriminate]. cbn in Hx. destruct (h_sptr x) as [c'|] eqn:Es; [|discriminate].
      apply Nat.eqb_eq in Hx. subst c'. destruct p; cbn in Hp.
      + discriminate.
      + injection Hp as ->. discriminate.
      + destruct Hp as (l' & c' & _ & _ & Ex' & k). injection Ex' as ->. cbn in Es. subst c'.
        destruct (k c eq_refl) as (k' & Ek & _). eapply nth_error_lt; eauto.
      + contradiction. }
  assert (Z : (countif (holds_h (length C)) wh + countif (holds_s (length C)) ws = 0)%nat).
  { destruct (Nat.eq_dec (countif (holds_h (length C)) wh + countif (holds_s (length C)) ws) 0) as [E|E]; auto.
    assert (L : (length C < length C)%nat) by (apply NC; lia). lia. }
  constructor; auto.
  - assert (F : Forall2 (okh (C ++ [Ctrl 1 (o, length l) true]) objs) (upd wh v (Some (HHeap (Some o) (length l) (Some (length C))))) (upd ih v (Ref o))).
    { apply Forall2_upd.
      - eapply Forall2_impl'; [|exact R2]. intros y q. apply okh_mono; [|apply same_objs]. intros. now apply payload_app.
      - cbn. exists l, (Some (length C)). repeat split; auto. intros c Hc. injection Hc as <-.
        exists (Ctrl 1 (o, length l) true). split; auto. apply nth_error_new. }
    rewrite (upd_same ih) in F by auto. exact F.
  - eapply Forall2_impl'; [|exact R3]. intros y q. apply oks_mono; [|apply same_objs]. intros. now apply payload_app.
  - intros c k Ec. match goal with |- context [upd wh v ?z] => pose proof (countif_upd (holds_h c) wh v z _ Ev) as U end.
    cbn [holds_h h_sptr b2n] in U. destruct (Nat.eq_dec c (length C)) as [->|Hne].
    + rewrite nth_error_new in Ec. injection Ec as <-. cbn [c_count]. rewrite Nat.eqb_refl in U. cbn [b2n] in U. lia.
    + assert (Lc : (c < length C)%nat). { pose proof (nth_error_lt _ _ _ Ec) as L. rewrite app_length in L. simpl in L. lia. }
      rewrite nth_error_app1 in Ec by auto. destruct (Nat.eqb_spec (length C) c); [lia|]. cbn [b2n] in U. rewrite (R5 c k Ec). lia.
  - intros c k Ec. destruct (Nat.eq_dec c (length C)) as [->|Hne].
    + rewrite nth_error_new in Ec. injection Ec as <-. cbn. eauto.
    + assert (Lc : (c < length C)%nat). { pose proof (nth_error_lt _ _ _ Ec) as L. rewrite app_length in L. simpl in L. lia. }
      rewrite nth_error_app1 in Ec by auto. eauto.
  - intros b. rewrite <- (R7 b), countif_app. match goal with |- context [upd wh v ?z] => pose proof (countif_upd (owns_h b) wh v z _ Ev) as U end.
    cbn [owns_h h_sptr h_data b2n] in U. cbn [countif]. unfold owns_c at 2. cbn [c_count c_blk fst Nat.ltb Nat.leb andb]. lia.
Qed.

(** transfer between shared variables: [v] vacant *)
Lemma transfer_s H C wh ws objs ih iis v x y q p hx : Rel H C wh ws objs ih iis -> nth_error ws v = Some y -> nth_error iis v = Some q ->
  vacant_s y q -> v <> x -> nth_error ws x = Some (Some hx) -> nth_error iis x = Some p ->
  Rel H C wh (upd (upd ws v (Some hx)) x (Some (HShared (s_data hx) (s_size hx) None))) objs ih (upd (upd iis v p) x Moved).
Proof.
  intros R Ev Eq V Hne Ex Ep. assert (Ex' : nth_error (upd ws v (Some hx)) x = Some (Some hx)) by now rewrite nth_error_upd_neq.
  destruct R as [R1 R2 R3 R4 R5 R6 R7]. constructor; auto.
  - apply Forall2_upd; [|cbn; eauto]. apply Forall2_upd; auto.
    destruct (Forall2_nth_error _ _ _ _ _ R3 Ep) as (x1 & Ex1 & Hx1). congruence.
  - intros c k Ec. rewrite (R5 c k Ec).
    pose proof (countif_upd (holds_s c) ws v (Some hx) _ Ev) as U.
    pose proof (countif_upd (holds_s c) _ x (Some (HShared (s_data hx) (s_size hx) None)) _ Ex') as U'.
    rewrite (vacant_s_holds _ _ _ V) in U. unfold holds_s at 4 in U'. cbn [s_sptr b2n] in U, U'. lia.
Qed.

(** the scope is extended by a variable out of use, and reduced *)
Lemma push_h H C wh ws objs ih iis : Rel H C wh ws objs ih iis -> Rel H C (wh ++ [None]) ws objs (ih ++ [Dead]) iis.
Proof.
  intros [R1 R2 R3 R4 R5 R6 R7]. constructor; auto.
  - apply Forall2_app; auto. constructor; auto. reflexivity.
  - intros c k Ec. rewrite countif_app. cbn. rewrite (R5 c k Ec). lia.
  - intros b. rewrite countif_app. cbn. rewrite <- (R7 b). lia.
Qed.
Lemma pop_h H C wh ws objs ih iis x p : Rel H C (wh ++ [x]) ws objs (ih ++ [p]) iis -> vacant x p -> length wh = length ih -> Rel H C wh ws objs ih iis.
Proof.
  intros [R1 R2 R3 R4 R5 R6 R7] V L. constructor; auto.
  - apply Forall2_app_inv_l in R2. destruct R2 as (a & b & Ha & Hb & E).
    inversion Hb as [|z1 z2 z3 z4 Hz Hz']; subst. inversion Hz'; subst. apply app_inj_tail in E. destruct E as [-> _]. exact Ha.
  - intros c k Ec. rewrite (R5 c k Ec), countif_app. cbn [countif]. rewrite (vacant_holds _ _ _ V). cbn. lia.
  - intros b. rewrite <- (R7 b), countif_app. cbn [countif]. rewrite (vacant_owns _ _ _ V). cbn. lia.
Qed.
End Own.
