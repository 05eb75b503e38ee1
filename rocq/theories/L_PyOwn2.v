(** Ownership across C++ and Python: the machine with reference counts simulates the ideal one. *)
From Verif Require Import Base M_PyOwn S_PyOwn L_PyOwn.

(** ** what a reference ends at *)
Definition skeleton := list (target * option (option nat)).
Inductive ends (sk : skeleton) : target -> option nat -> Prop :=
  | E_none : ends sk TNone None
  | E_blk b : ends sk (TBlk b) (Some b)
  | E_obj i t x d : nth_error sk i = Some (t, x) -> ends sk t d -> ends sk (TObj i) d.
Lemma ends_fun sk t d : ends sk t d -> forall d', ends sk t d' -> d = d'.
Proof. induction 1 as [|b|i t x d E H IH]; intros d' H'; inversion H' as [|?|? t' x' ? E' H'']; subst; try reflexivity. rewrite E in E'. injection E' as <- <-. auto. Qed.
Lemma ends_app sk l t d : ends sk t d -> ends (sk ++ l) t d.
Proof. induction 1 as [|b|i t x d E H IH]; [constructor|constructor|]. apply E_obj with t x; [|exact IH]. rewrite nth_error_app1; [exact E|]. apply nth_error_Some. congruence. Qed.
Lemma ends_last sk t x d : ends sk t d -> ends (sk ++ [(t, x)]) (TObj (length sk)) d.
Proof. intros H. apply E_obj with t x; [|now apply ends_app]. rewrite nth_error_app2, Nat.sub_diag by lia. reflexivity. Qed.

Definition place_of (d : option nat) : place := match d with Some b => Ref b | None => Null end.
Lemma place_of_inj d d' : place_of d = place_of d' -> d = d'.
Proof. destruct d, d'; cbn; intros H; congruence. Qed.
Definition block_root (d : option nat) : target := match d with Some b => TBlk b | None => TNone end.
Definition h_root (x : option hnd) : target :=
  match x with Some h => match h_sptr h with Some c => TObj c | None => block_root (h_data h) end | None => TNone end.
Definition s_root (x : option hnd) : target := match x with Some h => sptr_target (h_sptr h) | None => TNone end.
Definition p_root (x : option nat) : target := match x with Some o => TObj o | None => TNone end.
Definition hrel (sk : skeleton) (x : option hnd) (pl : place) : Prop :=
  match x with None => pl = Dead | Some h => pl = place_of (h_data h) /\ ends sk (h_root x) (h_data h) end.
Definition srel (sk : skeleton) (x : option hnd) (pl : place) : Prop :=
  match x with None => pl = Dead | Some h => pl = place_of (h_data h) /\ ends sk (s_root x) (h_data h) end.
Definition prel (sk : skeleton) (x : option nat) (pl : place) : Prop :=
  match x with None => pl = Dead | Some o => exists t d, nth_error sk o = Some (t, Some d) /\ pl = place_of d /\ ends sk (TObj o) d end.
Definition vrel (x : option bview) (pl : place * option nat) : Prop :=
  match x with None => fst pl = Dead | Some v => pl = (place_of (v_data v), v_parent v) end.
Lemma hrel_app sk l x pl : hrel sk x pl -> hrel (sk ++ l) x pl.
Proof. destruct x as [h|]; cbn; [|auto]. intros [H1 H2]. split; [exact H1|]. now apply ends_app. Qed.
Lemma srel_app sk l x pl : srel sk x pl -> srel (sk ++ l) x pl.
Proof. destruct x as [h|]; cbn; [|auto]. intros [H1 H2]. split; [exact H1|]. now apply ends_app. Qed.
Lemma prel_app sk l x pl : prel sk x pl -> prel (sk ++ l) x pl.
Proof. destruct x as [o|]; cbn; [|auto]. intros (t & d & E & H1 & H2). exists t, d. split; [|split; [exact H1|now apply ends_app]]. rewrite nth_error_app1; [exact E|]. apply nth_error_Some. congruence. Qed.

Lemma F2_app {X Y} (P Q : X -> Y -> Prop) l l' : (forall x y, P x y -> Q x y) -> Forall2 P l l' -> Forall2 Q l l'.
Proof. intros H. induction 1; constructor; auto. Qed.
Lemma F2_nth {X Y} (P : X -> Y -> Prop) l l' : Forall2 P l l' -> forall v y, nth_error l' v = Some y -> exists x, nth_error l v = Some x /\ P x y.
Proof. induction 1 as [|x y l l' H F IH]; intros [|v] z E; cbn in E; try discriminate; [injection E as <-; exists x; auto|]. destruct (IH v z E) as (x' & E' & H'). exists x'. auto. Qed.
Lemma F2_nth_l {X Y} (P : X -> Y -> Prop) l l' : Forall2 P l l' -> forall v x, nth_error l v = Some x -> exists y, nth_error l' v = Some y /\ P x y.
Proof. induction 1 as [|x y l l' H F IH]; intros [|v] z E; cbn in E; try discriminate; [injection E as <-; exists y; auto|]. destruct (IH v z E) as (x' & E' & H'). exists x'. auto. Qed.
Lemma F2_upd {X Y} (P : X -> Y -> Prop) l l' : Forall2 P l l' -> forall v x y, P x y -> Forall2 P (upd l v x) (upd l' v y).
Proof. induction 1 as [|x y l l' H F IH]; intros [|v] a b Hab; cbn; constructor; auto. Qed.
Lemma upd_same {T} (l : list T) i x : nth_error l i = Some x -> upd l i x = l.
Proof. revert i. induction l as [|y l IH]; intros [|i] E; cbn in *; try discriminate; [congruence|f_equal; auto]. Qed.

Section Sim.
Context {A : Type}.
Notation world := (world A). Notation ideal := (ideal A).
Definition roots (w : world) : list target := map h_root (w_h w) ++ map s_root (w_s w) ++ map p_root (w_p w).
Definition blk_rel (m : pymem A) (objs : list (list A)) : Prop := length (m_blk m) = length objs /\ forall b l, nth_error (m_blk m) b = Some (Some l) -> nth_error objs b = Some l.
Record Rel (w : world) (s : ideal) : Prop := RelI {
  R_good : Good (roots w) (w_mem w);
  R_blk : blk_rel (w_mem w) (i_objs s);
  R_h : Forall2 (hrel (skel (m_obj (w_mem w)))) (w_h w) (i_h s);
  R_s : Forall2 (srel (skel (m_obj (w_mem w)))) (w_s w) (i_s s);
  R_v : Forall2 vrel (w_v w) (i_v s);
  R_p : Forall2 (prel (skel (m_obj (w_mem w)))) (w_p w) (i_p s) }.

Lemma roots_h w v x old t : nth_error (w_h w) v = Some old -> (occ t (roots (set_h w v x)) + one t (h_root old) = occ t (roots w) + one t (h_root x))%nat.
Proof. intros E. unfold roots, set_h. cbn [w_h w_s w_p]. rewrite !occ_app. pose proof (occ_map_upd h_root t (w_h w) v x old E). lia. Qed.
Lemma roots_s w v x old t : nth_error (w_s w) v = Some old -> (occ t (roots (set_s w v x)) + one t (s_root old) = occ t (roots w) + one t (s_root x))%nat.
Proof. intros E. unfold roots, set_s. cbn [w_h w_s w_p]. rewrite !occ_app. pose proof (occ_map_upd s_root t (w_s w) v x old E). lia. Qed.
Lemma roots_p w v x old t : nth_error (w_p w) v = Some old -> (occ t (roots (set_p w v x)) + one t (p_root old) = occ t (roots w) + one t (p_root x))%nat.
Proof. intros E. unfold roots, set_p. cbn [w_h w_s w_p]. rewrite !occ_app. pose proof (occ_map_upd p_root t (w_p w) v x old E). lia. Qed.
Lemma one_none t : t <> TNone -> one t TNone = 0%nat.
Proof. intros H. apply one_other. congruence. Qed.

(** ** safety and liveness of blocks *)
Lemma chain_live R (m : pymem A) t b : Good R m -> ends (skel (m_obj m)) t (Some b) -> (0 < occ t R + occ t (lives (m_obj m)))%nat -> exists l, nth_error (m_blk m) b = Some (Some l).
Proof.
  intros G H. remember (Some b) as d eqn:Ed. induction H as [|c|i t x d E H IH]; intros Hp; try discriminate.
  - injection Ed as ->. destruct G as (_ & _ & G3 & _). specialize (G3 b). unfold block_live in G3. destruct (nth_error (m_blk m) b) as [[l|]|]; eauto; lia.
  - apply (IH Ed). unfold skel in E. rewrite nth_error_map in E. destruct (nth_error (m_obj m) i) as [y|] eqn:Ey; [|discriminate]. injection E as <- _.
    destruct G as (G1 & _). specialize (G1 i y Ey). assert (K : In (next y) (lives (m_obj m))).
    { apply nth_error_In with i. unfold lives. rewrite nth_error_map, Ey. cbn. unfold held. destruct (Nat.ltb_spec 0 (count y)); [reflexivity|lia]. }
    apply occ_in in K. lia.
Qed.
Lemma root_h w v h : nth_error (w_h w) v = Some h -> In (h_root h) (roots w).
Proof. intros E. unfold roots. apply in_or_app. left. apply nth_error_In in E. now apply in_map. Qed.
Lemma root_s w v h : nth_error (w_s w) v = Some h -> In (s_root h) (roots w).
Proof. intros E. unfold roots. apply in_or_app. right. apply in_or_app. left. apply nth_error_In in E. now apply in_map. Qed.
Lemma root_p w v h : nth_error (w_p w) v = Some h -> In (p_root h) (roots w).
Proof. intros E. unfold roots. apply in_or_app. right. apply in_or_app. right. apply nth_error_In in E. now apply in_map. Qed.
Lemma in_live w s t b : Rel w s -> In t (roots w) -> ends (skel (m_obj (w_mem w))) t (Some b) -> exists l, nth_error (m_blk (w_mem w)) b = Some (Some l).
Proof. intros R H E. apply (chain_live (roots w) (w_mem w) t b (R_good _ _ R) E). apply occ_in in H. lia. Qed.

Lemma alive_spec l v : alive l v = true -> exists p, nth_error l v = Some p /\ at_ l v = p /\ p <> Dead.
Proof. unfold alive, at_. destruct (nth_error l v) as [p|] eqn:E; [|discriminate]. intros H. exists p. split; [reflexivity|]. split; [now apply nth_error_nth|]. intros ->. discriminate. Qed.
Lemma unused_spec l v : unused l v = true -> nth_error l v = Some Dead.
Proof. unfold unused. destruct (nth_error l v) as [[| |]|]; congruence. Qed.
Lemma get_h w s v : Rel w s -> alive (i_h s) v = true -> exists h, nth_error (w_h w) v = Some (Some h) /\ getv (w_h w) v = Some h /\ at_ (i_h s) v = place_of (h_data h) /\ ends (skel (m_obj (w_mem w))) (h_root (Some h)) (h_data h).
Proof.
  intros R H. destruct (alive_spec _ _ H) as (p & Ep & -> & Hp). destruct (F2_nth _ _ _ (R_h _ _ R) v p Ep) as ([h|] & Eh & Hh); [|now cbn in Hh]. exists h. unfold getv. rewrite Eh. destruct Hh as [H1 H2]. auto.
Qed.
Lemma get_s w s v : Rel w s -> alive (i_s s) v = true -> exists h, nth_error (w_s w) v = Some (Some h) /\ getv (w_s w) v = Some h /\ at_ (i_s s) v = place_of (h_data h) /\ ends (skel (m_obj (w_mem w))) (s_root (Some h)) (h_data h).
Proof.
  intros R H. destruct (alive_spec _ _ H) as (p & Ep & -> & Hp). destruct (F2_nth _ _ _ (R_s _ _ R) v p Ep) as ([h|] & Eh & Hh); [|now cbn in Hh]. exists h. unfold getv. rewrite Eh. destruct Hh as [H1 H2]. auto.
Qed.
Lemma get_p w s v : Rel w s -> alive (i_p s) v = true -> exists o t d, nth_error (w_p w) v = Some (Some o) /\ getv (w_p w) v = Some o /\ nth_error (skel (m_obj (w_mem w))) o = Some (t, Some d) /\
  array_data o (w_mem w) = Some d /\ at_ (i_p s) v = place_of d /\ ends (skel (m_obj (w_mem w))) (TObj o) d.
Proof.
  intros R H. destruct (alive_spec _ _ H) as (p & Ep & -> & Hp). destruct (F2_nth _ _ _ (R_p _ _ R) v p Ep) as ([o|] & Eo & Ho); [|now cbn in Ho]. destruct Ho as (t & d & E1 & E2 & E3). exists o, t, d. unfold getv. rewrite Eo. repeat split; auto.
  pose proof (root_p _ _ _ Eo) as Hr. cbn [p_root] in Hr. destruct (good_positive _ _ o (R_good _ _ R) Hr) as (x & n & Ex & En). unfold skel in E1. rewrite nth_error_map, Ex in E1. injection E1 as _ E1. unfold array_data. rewrite Ex.
  destruct x as [k m|k m|k d' b]; try discriminate. cbn in En, E1. injection E1 as ->. now rewrite En.
Qed.
Lemma view_spec (s : ideal) u : view_alive s u = true -> exists p, nth_error (i_v s) u = Some p /\ view_at s u = p /\ fst p <> Dead.
Proof. unfold view_alive, view_at. destruct (nth_error (i_v s) u) as [p|] eqn:E; [|discriminate]. intros H. exists p. split; [reflexivity|]. split; [now apply nth_error_nth|]. destruct p as [[| |] o]; cbn; congruence. Qed.
Lemma get_v w s u : Rel w s -> view_alive s u = true -> exists x, nth_error (w_v w) u = Some (Some x) /\ getv (w_v w) u = Some x /\ view_at s u = (place_of (v_data x), v_parent x).
Proof.
  intros R H. destruct (view_spec _ _ H) as (p & Ep & -> & Hp). destruct (F2_nth _ _ _ (R_v _ _ R) u p Ep) as ([x|] & Ex & Hx); [|now cbn in Hx]. exists x. unfold getv. rewrite Ex. auto.
Qed.
Lemma free_h w s v : Rel w s -> unused (i_h s) v = true -> nth_error (w_h w) v = Some None.
Proof. intros R H. destruct (F2_nth _ _ _ (R_h _ _ R) v Dead (unused_spec _ _ H)) as ([h|] & E & Hh); [|exact E]. destruct Hh as [D _]. destruct (h_data h); discriminate. Qed.
Lemma free_s w s v : Rel w s -> unused (i_s s) v = true -> nth_error (w_s w) v = Some None.
Proof. intros R H. destruct (F2_nth _ _ _ (R_s _ _ R) v Dead (unused_spec _ _ H)) as ([h|] & E & Hh); [|exact E]. destruct Hh as [D _]. destruct (h_data h); discriminate. Qed.
Lemma free_p w s v : Rel w s -> unused (i_p s) v = true -> nth_error (w_p w) v = Some None.
Proof. intros R H. destruct (F2_nth _ _ _ (R_p _ _ R) v Dead (unused_spec _ _ H)) as ([h|] & E & Hh); [|exact E]. destruct Hh as (t & d & _ & D & _). destruct d; discriminate. Qed.

(** ** statements *)
Lemma blk_kept (m m' : pymem A) objs : kept_blocks m m' -> blk_rel m objs -> blk_rel m' objs.
Proof. intros [K1 K2] [B1 B2]. split; [congruence|auto]. Qed.
Lemma blk_eq (m m' : pymem A) objs : m_blk m' = m_blk m -> blk_rel m objs -> blk_rel m' objs.
Proof. intros E. unfold blk_rel. now rewrite E. Qed.

Lemma create_rel w s l m d s1 p : Rel w s -> new_block l (w_mem w) = (m, d) -> create l s = (s1, p) ->
  Good (block_root d :: roots w) m /\ m_obj m = m_obj (w_mem w) /\ blk_rel m (i_objs s1) /\ p = place_of d /\ i_h s1 = i_h s /\ i_s s1 = i_s s /\ i_v s1 = i_v s /\ i_p s1 = i_p s.
Proof.
  intros R En Ec. destruct (new_block_good l (roots w) (w_mem w) m d (R_good _ _ R) En) as [G Eo]. split; [exact G|]. split; [exact Eo|].
  destruct (R_blk _ _ R) as [B1 B2]. unfold new_block in En. unfold create in Ec. destruct l as [|a l]; injection En as <- <-; injection Ec as <- <-; [repeat split; auto|]. cbn. rewrite B1. repeat split; auto.
  - cbn. rewrite !app_length. cbn. lia.
  - cbn. intros b q E. destruct (Nat.lt_ge_cases b (length (m_blk (w_mem w)))) as [Hb|Hb].
    + rewrite nth_error_app1 in E by auto. rewrite nth_error_app1 by lia. auto.
    + rewrite nth_error_app2 in E by auto. rewrite nth_error_app2 by lia. rewrite <- B1. destruct (b - length (m_blk (w_mem w)))%nat as [|k]; cbn in *; [congruence|destruct k; discriminate].
Qed.
Lemma ends_block sk d : ends sk (block_root d) d.
Proof. destruct d; constructor. Qed.
Lemma new_rel w s v l s1 p : Rel w s -> nth_error (w_h w) v = Some None -> create l s = (s1, p) -> exists w', new_array v l w = Some w' /\ Rel w' (put_h s1 v p).
Proof.
  intros R Ev Ec. unfold new_array. destruct (new_block l (w_mem w)) as [m d] eqn:En. destruct (create_rel w s l m d s1 p R En Ec) as (G & Eo & B & -> & Eh & Es & Evw & Ep). eexists. split; [reflexivity|]. constructor; cbn [w_mem w_h w_s w_v w_p set_h set_mem put_h i_objs i_h i_s i_v i_p]; rewrite ?Eo, ?Eh, ?Es, ?Evw, ?Ep.
  - revert G. apply Good_eq. intros t Ht. rewrite occ_cons. pose proof (roots_h w v (Some (Hnd d None)) None t Ev) as H. cbn [h_root h_sptr h_data] in H. rewrite (one_none t Ht) in H. unfold roots, set_h, set_mem in *. cbn [w_h w_s w_p] in *. lia.
  - exact B.
  - apply F2_upd; [exact (R_h _ _ R)|]. cbn. split; [reflexivity|apply ends_block].
  - exact (R_s _ _ R).
  - exact (R_v _ _ R).
  - exact (R_p _ _ R).
Qed.
Lemma poke_rel w s d i a s' : Rel w s -> (forall b, d = Some b -> exists l, nth_error (m_blk (w_mem w)) b = Some (Some l)) -> poke (place_of d) i a s = Some s' -> exists w', write_through d i a w = Some w' /\ Rel w' s'.
Proof.
  intros R Hl E. destruct d as [b|]; cbn [place_of poke] in E; [|discriminate]. destruct (Hl b eq_refl) as (l & El). destruct (R_blk _ _ R) as [B1 B2]. rewrite (B2 b l El) in E. destruct (Nat.ltb i (length l)) eqn:Ei; [|discriminate]. injection E as <-.
  unfold write_through. destruct (write_block (Some b) i a (w_mem w)) as [m|] eqn:Ew.
  2: { exfalso. unfold write_block in Ew. rewrite El, Ei in Ew. discriminate. }
  destruct (write_good _ _ _ _ _ _ (R_good _ _ R) Ew) as [G Eo]. eexists. split; [reflexivity|]. constructor; cbn [w_mem w_h w_s w_v w_p set_mem i_objs i_h i_s i_v i_p]; rewrite ?Eo; try apply R; [exact G|].
  unfold write_block in Ew. rewrite El, Ei in Ew. injection Ew as <-. assert (Hb : (b < length (m_blk (w_mem w)))%nat) by (apply nth_error_Some; congruence). split; cbn [m_blk]; [now rewrite !upd_length|].
  intros c q Ec. destruct (Nat.eq_dec b c) as [<-|D]; [rewrite nth_upd_eq in Ec by auto; injection Ec as <-; apply nth_upd_eq; lia|rewrite nth_upd_neq in Ec by auto; rewrite nth_upd_neq by auto; auto].
Qed.

Lemma destroy_drop h (m : pymem A) : destroy_h h m = drop (h_root (Some h)) m.
Proof. unfold destroy_h, drop. cbn [h_root]. destruct (h_sptr h) as [c|]; [reflexivity|]. destruct (h_data h) as [b|]; reflexivity. Qed.
Lemma end_rel w s v : Rel w s -> alive (i_h s) v = true -> exists w', exec w (End v) = Some w' /\ Rel w' (put_h s v Dead).
Proof.
  intros R H. destruct (get_h w s v R H) as (h & Eh & Eg & _ & _). cbn [exec]. rewrite Eg, destroy_drop.
  destruct (drop_good (h_root (Some h)) (roots (set_h w v None)) (w_mem w)) as (m & -> & G & Es & K).
  { generalize (R_good _ _ R). apply Good_eq. intros t Ht. rewrite occ_cons. pose proof (roots_h w v None (Some h) t Eh) as P. cbn [h_root] in P. rewrite (one_none t Ht) in P. cbn [h_root]. lia. }
  eexists. split; [reflexivity|]. constructor; cbn [w_mem w_h w_s w_v w_p set_h set_mem put_h i_objs i_h i_s i_v i_p]; rewrite ?Es; try apply R; [exact G|now apply (blk_kept (w_mem w)), R|].
  apply F2_upd; [apply R|reflexivity].
Qed.
Lemma move_rel w s v x : Rel w s -> unused (i_h s) v = true -> alive (i_h s) x = true -> exists w', exec w (MoveH v x) = Some w' /\ Rel w' (put_h (put_h s v (at_ (i_h s) x)) x Null).
Proof.
  intros R Hv H. destruct (get_h w s x R H) as (h & Eh & Eg & -> & He). pose proof (free_h _ _ _ R Hv) as Ev. cbn [exec]. rewrite Eg. eexists. split; [reflexivity|].
  assert (Hvx : v <> x) by congruence.
  constructor; cbn [w_mem w_h w_s w_v w_p set_h set_mem put_h i_objs i_h i_s i_v i_p]; try apply R.
  - generalize (R_good _ _ R). apply Good_eq. intros t Ht. pose proof (roots_h w v (Some h) None t Ev) as P1.
    assert (Ex : nth_error (w_h (set_h w v (Some h))) x = Some (Some h)) by (cbn; now rewrite nth_upd_neq by auto).
    pose proof (roots_h (set_h w v (Some h)) x (Some (Hnd None None)) (Some h) t Ex) as P2. cbn [h_root h_sptr h_data block_root] in P1, P2. rewrite (one_none t Ht) in P1, P2. unfold set_h in *. cbn [w_mem w_h w_s w_v w_p] in *. lia.
  - apply F2_upd; [apply F2_upd; [apply R|split; auto]|]. split; [reflexivity|constructor].
Qed.
Lemma assign_rel w s v x : Rel w s -> alive (i_h s) v = true -> alive (i_h s) x = true -> v <> x -> exists w', exec w (AssignMove v x) = Some w' /\ Rel w' (put_h (put_h s v (at_ (i_h s) x)) x Null).
Proof.
  intros R Hv H Hvx. destruct (get_h w s x R H) as (h & Eh & Eg & -> & He). destruct (get_h w s v R Hv) as (hv & Ev & Egv & _ & _).
  set (w2 := set_h (set_h w v (Some h)) x (Some (Hnd None None))).
  destruct (drop_good (h_root (Some hv)) (roots w2) (w_mem w)) as (m & Em & G & Es & K).
  { generalize (R_good _ _ R). apply Good_eq. intros t Ht. rewrite occ_cons. pose proof (roots_h w v (Some h) (Some hv) t Ev) as P1.
    assert (Ex : nth_error (w_h (set_h w v (Some h))) x = Some (Some h)) by (cbn; now rewrite nth_upd_neq by auto).
    pose proof (roots_h (set_h w v (Some h)) x (Some (Hnd None None)) (Some h) t Ex) as P2. unfold w2. rewrite (one_none t Ht : one t (h_root (Some (Hnd None None))) = 0%nat) in P2. lia. }
  assert (Ew : exec w (AssignMove v x) = Some (set_mem w2 m)).
  { cbn [exec]. unfold move_assign. rewrite Egv. rewrite <- destroy_drop in Em. unfold destroy_h in Em. destruct (Nat.eqb_spec v x) as [D|_]; [contradiction|].
    destruct (h_sptr hv) as [c|]; [|destruct (h_data hv) as [b|]].
    - cbn [w_h set_mem]. rewrite Eg. cbn [sptr_target w_mem set_h set_mem]. rewrite Em. reflexivity.
    - rewrite Em. cbn [w_h set_mem]. rewrite Eg. reflexivity.
    - injection Em as <-. cbn [w_h set_mem]. rewrite Eg. reflexivity. }
  exists (set_mem w2 m). split; [exact Ew|]. unfold w2. constructor; cbn [w_mem w_h w_s w_v w_p set_h set_mem put_h i_objs i_h i_s i_v i_p]; rewrite ?Es; try apply R; [exact G|now apply (blk_kept (w_mem w)), R|].
  apply F2_upd; [apply F2_upd; [apply R|split; auto]|]. split; [reflexivity|constructor].
Qed.

Lemma share_rel w s v : Rel w s -> alive (i_h s) v = true -> exists w1 h, share v w = Some (w1, h) /\ Good (s_root (Some h) :: roots w1) (w_mem w1) /\
  (exists l, skel (m_obj (w_mem w1)) = skel (m_obj (w_mem w)) ++ l) /\ m_blk (w_mem w1) = m_blk (w_mem w) /\ w_s w1 = w_s w /\ w_v w1 = w_v w /\ w_p w1 = w_p w /\
  Forall2 (hrel (skel (m_obj (w_mem w1)))) (w_h w1) (i_h s) /\ at_ (i_h s) v = place_of (h_data h) /\ ends (skel (m_obj (w_mem w1))) (s_root (Some h)) (h_data h).
Proof.
  intros R H. destruct (get_h w s v R H) as (hv & Eh & Eg & Ep & He). unfold share. rewrite Eg. destruct (h_data hv) as [b|] eqn:Ed; [destruct (h_sptr hv) as [c|] eqn:Ec|].
  - pose proof (root_h _ _ _ Eh) as Hr. cbn [h_root] in Hr, He. rewrite Ec in Hr, He. destruct (retain_good c _ _ (R_good _ _ R) Hr) as (m & -> & G & Es & Eb).
    eexists _, _. split; [reflexivity|]. split; [exact G|]. cbn [w_mem w_h w_s w_v w_p set_mem h_data]. rewrite Es. split; [exists []; now rewrite app_nil_r|]. repeat split; auto. apply R.
  - cbn [add_obj]. eexists _, _. split; [reflexivity|]. cbn [w_mem w_h w_s w_v w_p set_mem set_h h_data m_obj m_blk]. set (c := length (m_obj (w_mem w))).
    assert (Ek : skel (m_obj (w_mem w) ++ [OCtrl 2 (TBlk b)]) = skel (m_obj (w_mem w)) ++ [(TBlk b, None)]) by (unfold skel; now rewrite map_app).
    assert (Hc : ends (skel (m_obj (w_mem w) ++ [OCtrl 2 (TBlk b)])) (TObj c) (Some b)).
    { rewrite Ek. unfold c. replace (length (m_obj (w_mem w))) with (length (skel (m_obj (w_mem w)))) by (unfold skel; apply map_length). apply ends_last. constructor. }
    split; [|split; [exists [(TBlk b, None)]; exact Ek|]].
    + assert (G : Good (TBlk b :: roots (set_h w v None)) (w_mem w)).
      { generalize (R_good _ _ R). apply Good_eq. intros t Ht. rewrite occ_cons. pose proof (roots_h w v None (Some hv) t Eh) as P. cbn [h_root] in P. rewrite Ec, Ed, (one_none t Ht) in P. cbn [block_root] in P. lia. }
      generalize (add_good (OCtrl 2 (TBlk b)) 1 _ _ eq_refl G). apply Good_eq. intros t Ht. cbn [repeat app]. fold c. rewrite !occ_cons. cbn [s_root sptr_target h_sptr].
      assert (En : nth_error (w_h (set_h w v None)) v = Some None) by (cbn; apply nth_upd_eq; apply nth_error_Some; congruence).
      pose proof (roots_h (set_h w v None) v (Some (Hnd (Some b) (Some c))) None t En) as P. cbn [h_root h_sptr] in P. rewrite (one_none t Ht) in P.
      assert (Eu : forall (l : list (option hnd)) (i : nat) a a', upd (upd l i a) i a' = upd l i a') by (induction l as [|q l IHl]; intros [|i] a a'; cbn; [reflexivity|reflexivity|reflexivity|now rewrite IHl]).
      unfold roots, set_h, set_mem in *. cbn [w_mem w_h w_s w_v w_p] in *. rewrite Eu in P. lia.
    + repeat split; auto. rewrite <- (upd_same (i_h s) v (at_ (i_h s) v)).
      * apply F2_upd; [|rewrite Ep; split; [reflexivity|exact Hc]]. rewrite Ek. apply (F2_app (hrel (skel (m_obj (w_mem w))))); [intros; now apply hrel_app|apply R].
      * destruct (alive_spec _ _ H) as (p & E1 & -> & _). exact E1.
  - eexists _, _. split; [reflexivity|]. split; [|split; [exists []; now rewrite app_nil_r|]].
    + generalize (R_good _ _ R). apply Good_eq. intros t Ht. rewrite occ_cons. cbn [s_root sptr_target h_sptr]. now rewrite (one_none t Ht).
    + repeat split; auto; [apply R|constructor].
Qed.
Lemma share_op_rel w s x v : Rel w s -> unused (i_s s) x = true -> alive (i_h s) v = true -> exists w', exec w (Share x v) = Some w' /\ Rel w' (put_s s x (at_ (i_h s) v)).
Proof.
  intros R Hx H. destruct (share_rel w s v R H) as (w1 & h & E & G & (l & El) & Eb & Es & Ev & Ep & Fh & -> & He). pose proof (free_s _ _ _ R Hx) as Ex. cbn [exec]. rewrite E. eexists. split; [reflexivity|].
  constructor; cbn [w_mem w_h w_s w_v w_p set_s put_s i_objs i_h i_s i_v i_p].
  - revert G. apply Good_eq. intros t Ht. rewrite occ_cons. rewrite <- Es in Ex. pose proof (roots_s w1 x (Some h) None t Ex) as P. cbn [s_root] in P. rewrite (one_none t Ht) in P. cbn [s_root]. lia.
  - apply (blk_eq (w_mem w)); [exact Eb|apply R].
  - exact Fh.
  - rewrite Es. apply F2_upd; [|split; auto]. rewrite El. apply (F2_app (srel (skel (m_obj (w_mem w))))); [intros; now apply srel_app|apply R].
  - rewrite Ev. apply R.
  - rewrite Ep, El. apply (F2_app (prel (skel (m_obj (w_mem w))))); [intros; now apply prel_app|apply R].
Qed.
Lemma copys_rel w s x y : Rel w s -> unused (i_s s) x = true -> alive (i_s s) y = true -> exists w', exec w (CopySS x y) = Some w' /\ Rel w' (put_s s x (at_ (i_s s) y)).
Proof.
  intros R Hx H. destruct (get_s w s y R H) as (h & Eh & Eg & -> & He). pose proof (free_s _ _ _ R Hx) as Ex. cbn [exec]. rewrite Eg.
  assert (K : exists m, (match h_sptr h with Some c => retain c (w_mem w) | None => Some (w_mem w) end) = Some m /\ Good (s_root (Some h) :: roots w) m /\ skel (m_obj m) = skel (m_obj (w_mem w)) /\ m_blk m = m_blk (w_mem w)).
  { cbn [s_root]. pose proof (root_s _ _ _ Eh) as Hr. cbn [s_root] in Hr. destruct (h_sptr h) as [c|]; cbn [sptr_target] in *.
    - exact (retain_good c _ _ (R_good _ _ R) Hr).
    - exists (w_mem w). split; [reflexivity|]. split; [|auto]. generalize (R_good _ _ R). apply Good_eq. intros t Ht. now rewrite occ_cons, (one_none t Ht). }
  destruct K as (m & -> & G & Es & Eb). eexists. split; [reflexivity|]. constructor; cbn [w_mem w_h w_s w_v w_p set_s set_mem put_s i_objs i_h i_s i_v i_p]; rewrite ?Es; try apply R.
  - revert G. apply Good_eq. intros t Ht. rewrite occ_cons. pose proof (roots_s w x (Some h) None t Ex) as P. change (s_root None) with TNone in P. rewrite (one_none t Ht) in P. unfold roots, set_s, set_mem in *. cbn [w_h w_s w_p] in *. lia.
  - apply (blk_eq (w_mem w)); [exact Eb|apply R].
  - apply F2_upd; [apply R|split; auto].
Qed.
Lemma ends_rel w s x : Rel w s -> alive (i_s s) x = true -> exists w', exec w (EndS x) = Some w' /\ Rel w' (put_s s x Dead).
Proof.
  intros R H. destruct (get_s w s x R H) as (h & Eh & Eg & _ & _). cbn [exec]. rewrite Eg.
  destruct (drop_good (sptr_target (h_sptr h)) (roots (set_s w x None)) (w_mem w)) as (m & -> & G & Es & K).
  { generalize (R_good _ _ R). apply Good_eq. intros t Ht. rewrite occ_cons. pose proof (roots_s w x None (Some h) t Eh) as P. cbn [s_root] in P. rewrite (one_none t Ht) in P. lia. }
  eexists. split; [reflexivity|]. constructor; cbn [w_mem w_h w_s w_v w_p set_s set_mem put_s i_objs i_h i_s i_v i_p]; rewrite ?Es; try apply R; [exact G|now apply (blk_kept (w_mem w)), R|].
  apply F2_upd; [apply R|reflexivity].
Qed.
Lemma pydel_rel w s p : Rel w s -> alive (i_p s) p = true -> exists w', exec w (PyDel p) = Some w' /\ Rel w' (put_p s p Dead).
Proof.
  intros R H. destruct (get_p w s p R H) as (o & q & d & Eo & Eg & _). cbn [exec]. rewrite Eg.
  destruct (drop_good (TObj o) (roots (set_p w p None)) (w_mem w)) as (m & -> & G & Es & K).
  { generalize (R_good _ _ R). apply Good_eq. intros t Ht. rewrite occ_cons. pose proof (roots_p w p None (Some o) t Eo) as P. cbn [p_root] in P. rewrite (one_none t Ht) in P. lia. }
  eexists. split; [reflexivity|]. constructor; cbn [w_mem w_h w_s w_v w_p set_p set_mem put_p i_objs i_h i_s i_v i_p]; rewrite ?Es; try apply R; [exact G|now apply (blk_kept (w_mem w)), R|].
  apply F2_upd; [apply R|reflexivity].
Qed.
Lemma alias_rel w s p q : Rel w s -> unused (i_p s) p = true -> alive (i_p s) q = true -> exists w', exec w (PyAlias p q) = Some w' /\ Rel w' (put_p s p (at_ (i_p s) q)).
Proof.
  intros R Hp H. destruct (get_p w s q R H) as (o & t0 & d & Eo & Eg & Ek & _ & -> & He). pose proof (free_p _ _ _ R Hp) as Ep. cbn [exec]. rewrite Eg.
  pose proof (root_p _ _ _ Eo) as Hr. cbn [p_root] in Hr. destruct (retain_good o _ _ (R_good _ _ R) Hr) as (m & -> & G & Es & Eb). eexists. split; [reflexivity|].
  constructor; cbn [w_mem w_h w_s w_v w_p set_p set_mem put_p i_objs i_h i_s i_v i_p]; rewrite ?Es; try apply R.
  - revert G. apply Good_eq. intros t Ht. rewrite occ_cons. pose proof (roots_p w p (Some o) None t Ep) as P. cbn [p_root] in P. rewrite (one_none t Ht) in P. unfold roots, set_p, set_mem in *. cbn [w_h w_s w_p] in *. lia.
  - apply (blk_eq (w_mem w)); [exact Eb|apply R].
  - apply F2_upd; [apply R|]. cbn. eauto.
Qed.
(** a name of Python gets a new array that keeps [t] alive *)
Lemma new_numpy w m l d t p pl (s : ideal) : Good (t :: roots w) m -> nth_error (w_p w) p = Some None -> skel (m_obj m) = skel (m_obj (w_mem w)) ++ l -> ends (skel (m_obj m)) t d -> blk_rel m (i_objs s) ->
  Forall2 (hrel (skel (m_obj m))) (w_h w) (i_h s) -> Forall2 (srel (skel (m_obj m))) (w_s w) (i_s s) -> Forall2 vrel (w_v w) (i_v s) -> Forall2 (prel (skel (m_obj m))) (w_p w) (i_p s) -> pl = place_of d ->
  Rel (set_p (set_mem w (PyMem (m_blk m) (m_obj m ++ [OArray 1 d t]))) p (Some (length (m_obj m)))) (put_p s p pl).
Proof.
  intros G Ep El He B Fh Fs Fv Fp ->.
  assert (Ek : skel (m_obj m ++ [OArray 1 d t]) = skel (m_obj m) ++ [(t, Some d)]) by (unfold skel; now rewrite map_app).
  constructor; cbn [w_mem w_h w_s w_v w_p set_p set_mem put_p i_objs i_h i_s i_v i_p m_obj]; rewrite ?Ek.
  - generalize (add_good (OArray 1 d t) 0 _ _ eq_refl G). apply Good_eq. intros u Hu. cbn [repeat app]. rewrite occ_cons. pose proof (roots_p w p (Some (length (m_obj m))) None u Ep) as P. cbn [p_root] in P. rewrite (one_none u Hu) in P. unfold roots, set_p, set_mem in *. cbn [w_h w_s w_p] in *. lia.
  - exact B.
  - apply (F2_app (hrel (skel (m_obj m)))); [intros; now apply hrel_app|exact Fh].
  - apply (F2_app (srel (skel (m_obj m)))); [intros; now apply srel_app|exact Fs].
  - exact Fv.
  - apply F2_upd; [apply (F2_app (prel (skel (m_obj m)))); [intros; now apply prel_app|exact Fp]|]. cbn [prel]. exists t, d.
    replace (length (m_obj m)) with (length (skel (m_obj m))) by (unfold skel; apply map_length). split; [rewrite nth_error_app2, Nat.sub_diag by lia; reflexivity|]. split; [reflexivity|now apply ends_last].
Qed.
Lemma slice_rel w s p q : Rel w s -> unused (i_p s) p = true -> alive (i_p s) q = true -> exists w', exec w (PySlice p q) = Some w' /\ Rel w' (put_p s p (at_ (i_p s) q)).
Proof.
  intros R Hp H. destruct (get_p w s q R H) as (o & t0 & d & Eo & Eg & Ek & Ea & -> & He). pose proof (free_p _ _ _ R Hp) as Ep. cbn [exec]. rewrite Eg, Ea.
  pose proof (root_p _ _ _ Eo) as Hr. cbn [p_root] in Hr. destruct (retain_good o _ _ (R_good _ _ R) Hr) as (m & -> & G & Es & Eb). eexists. split; [reflexivity|].
  eapply (new_numpy w m []); eauto; rewrite ?Es; try apply R; [now rewrite app_nil_r|exact He|]. apply (blk_eq (w_mem w)); [exact Eb|apply R].
Qed.
Lemma pynew_rel w s p l s1 q : Rel w s -> unused (i_p s) p = true -> create l s = (s1, q) -> exists w', exec w (PyNew p l) = Some w' /\ Rel w' (put_p s1 p q).
Proof.
  intros R Hp Ec. pose proof (free_p _ _ _ R Hp) as Ep. cbn [exec]. destruct (new_block l (w_mem w)) as [m d] eqn:En. destruct (create_rel w s l m d s1 q R En Ec) as (G & Eo & B & -> & Eh & Es & Ev & Epp). cbn [add_obj].
  eexists. split; [reflexivity|]. eapply (new_numpy w m []); eauto; rewrite ?Eo, ?Eh, ?Es, ?Ev, ?Epp; try apply R; [now rewrite app_nil_r|apply ends_block].
Qed.
Lemma to_numpy_rel w s p v d : Rel w s -> unused (i_p s) p = true -> alive (i_h s) v = true -> at_ (i_h s) v = place_of d -> exists w', to_numpy p v d w = Some w' /\ Rel w' (put_p s p (place_of d)).
Proof.
  intros R Hp H Ed. destruct (share_rel w s v R H) as (w1 & h & E & G & (l & El) & Eb & Es & Ev & Epw & Fh & Eq & He). pose proof (free_p _ _ _ R Hp) as Ep. unfold to_numpy. rewrite E. cbn [add_obj].
  eexists. split; [reflexivity|]. assert (d = h_data h) as -> by (apply place_of_inj; congruence). clear Ed.
  assert (Ek : skel (m_obj (w_mem w1) ++ [OCapsule 1 h]) = skel (m_obj (w_mem w1)) ++ [(s_root (Some h), None)]) by (unfold skel; now rewrite map_app).
  pose proof (new_numpy w1 (PyMem (m_blk (w_mem w1)) (m_obj (w_mem w1) ++ [OCapsule 1 h])) [(s_root (Some h), None)] (h_data h) (TObj (length (m_obj (w_mem w1)))) p (place_of (h_data h)) s) as K. cbn [m_obj m_blk] in K |- *. apply K; clear K; rewrite ?Ek; auto.
  - exact (add_good (OCapsule 1 h) 0 _ _ eq_refl G).
  - now rewrite Epw.
  - replace (length (m_obj (w_mem w1))) with (length (skel (m_obj (w_mem w1)))) by (unfold skel; apply map_length). now apply ends_last.
  - apply (blk_eq (w_mem w)); [exact Eb|apply R].
  - apply (F2_app (hrel (skel (m_obj (w_mem w1))))); [intros; now apply hrel_app|exact Fh].
  - rewrite El, Es, <- app_assoc. apply (F2_app (srel (skel (m_obj (w_mem w))))); [intros; now apply srel_app|apply R].
  - rewrite Ev. apply R.
  - rewrite El, Epw, <- app_assoc. apply (F2_app (prel (skel (m_obj (w_mem w))))); [intros; now apply prel_app|apply R].
Qed.
Lemma foreign_rel w s x p : Rel w s -> unused (i_s s) x = true -> alive (i_p s) p = true -> exists w', exec w (Foreign x p) = Some w' /\ Rel w' (put_s s x (at_ (i_p s) p)).
Proof.
  intros R Hx H. destruct (get_p w s p R H) as (o & t0 & d & Eo & Eg & Ek & Ea & -> & He). pose proof (free_s _ _ _ R Hx) as Ex. cbn [exec]. rewrite Eg, Ea.
  pose proof (root_p _ _ _ Eo) as Hr. cbn [p_root] in Hr. destruct (retain_good o _ _ (R_good _ _ R) Hr) as (m & -> & G & Es & Eb). cbn [add_obj]. eexists. split; [reflexivity|].
  assert (Ekk : skel (m_obj m ++ [OCtrl 1 (TObj o)]) = skel (m_obj (w_mem w)) ++ [(TObj o, None)]) by (unfold skel; rewrite map_app; fold (skel (m_obj m)); now rewrite Es).
  constructor; cbn [w_mem w_h w_s w_v w_p set_s set_mem put_s i_objs i_h i_s i_v i_p m_obj]; rewrite ?Ekk.
  - generalize (add_good (OCtrl 1 (TObj o)) 0 _ _ eq_refl G). apply Good_eq. intros u Hu. cbn [repeat app]. rewrite occ_cons. pose proof (roots_s w x (Some (Hnd d (Some (length (m_obj m))))) None u Ex) as P. cbn [s_root sptr_target h_sptr] in P. rewrite (one_none u Hu) in P. unfold roots, set_s, set_mem in *. cbn [w_h w_s w_p] in *. lia.
  - apply (blk_eq (w_mem w)); [exact Eb|apply R].
  - apply (F2_app (hrel (skel (m_obj (w_mem w))))); [intros; now apply hrel_app|apply R].
  - apply F2_upd; [apply (F2_app (srel (skel (m_obj (w_mem w))))); [intros; now apply srel_app|apply R]|]. split; [reflexivity|]. cbn [s_root sptr_target h_sptr h_data].
    replace (length (m_obj m)) with (length (skel (m_obj (w_mem w)))) by (rewrite <- Es; unfold skel; apply map_length). now apply ends_last.
  - apply R.
  - apply (F2_app (prel (skel (m_obj (w_mem w))))); [intros; now apply prel_app|apply R].
Qed.
Lemma contents_blk w s d l : Rel w s -> (forall b, d = Some b -> exists l, nth_error (m_blk (w_mem w)) b = Some (Some l)) -> contents s (place_of d) = Some l -> read_block d (w_mem w) = Some l.
Proof.
  intros R Hl E. destruct d as [b|]; cbn in *; [|congruence]. destruct (Hl b eq_refl) as (l' & El). rewrite El. destruct (R_blk _ _ R) as [_ B2]. rewrite (B2 b l' El) in E. congruence.
Qed.
Lemma contents_alive (s : ideal) l v c : contents s (at_ l v) = Some c -> alive l v = true.
Proof. unfold at_, alive. destruct (nth_error l v) as [p|] eqn:E; [rewrite (nth_error_nth _ _ _ E)|rewrite nth_overflow by (now apply nth_error_None)]; cbn; [|discriminate]. destruct p; cbn; congruence. Qed.

Lemma h_live w s v h : Rel w s -> nth_error (w_h w) v = Some (Some h) -> ends (skel (m_obj (w_mem w))) (h_root (Some h)) (h_data h) -> forall b, h_data h = Some b -> exists l, nth_error (m_blk (w_mem w)) b = Some (Some l).
Proof. intros R E He b Eb. rewrite Eb in He. exact (in_live w s _ b R (root_h _ _ _ E) He). Qed.
Lemma s_live w s v h : Rel w s -> nth_error (w_s w) v = Some (Some h) -> ends (skel (m_obj (w_mem w))) (s_root (Some h)) (h_data h) -> forall b, h_data h = Some b -> exists l, nth_error (m_blk (w_mem w)) b = Some (Some l).
Proof. intros R E He b Eb. rewrite Eb in He. exact (in_live w s _ b R (root_s _ _ _ E) He). Qed.
Lemma p_live w s v o d : Rel w s -> nth_error (w_p w) v = Some (Some o) -> ends (skel (m_obj (w_mem w))) (TObj o) d -> forall b, d = Some b -> exists l, nth_error (m_blk (w_mem w)) b = Some (Some l).
Proof. intros R E He b Eb. rewrite Eb in He. exact (in_live w s _ b R (root_p _ _ _ E) He). Qed.
(** an owned storage is alive *)
Lemma owned_live w s b : Rel w s -> In (Ref b) (owners s) -> exists l, nth_error (m_blk (w_mem w)) b = Some (Some l).
Proof.
  intros R H. assert (Hd : forall d, Ref b = place_of d -> d = Some b) by (intros [c|]; cbn; congruence). unfold owners in H. rewrite !in_app_iff in H. destruct H as [H|[H|H]]; apply In_nth_error in H; destruct H as (v & E).
  - destruct (F2_nth _ _ _ (R_h _ _ R) v _ E) as ([h|] & Eh & Hh); [|discriminate]. destruct Hh as [H1 H2]. exact (h_live w s v h R Eh H2 b (Hd _ H1)).
  - destruct (F2_nth _ _ _ (R_s _ _ R) v _ E) as ([h|] & Eh & Hh); [|discriminate]. destruct Hh as [H1 H2]. exact (s_live w s v h R Eh H2 b (Hd _ H1)).
  - destruct (F2_nth _ _ _ (R_p _ _ R) v _ E) as ([o|] & Eo & Ho); [|discriminate]. destruct Ho as (t & d & _ & H1 & H2). exact (p_live w s v o d R Eo H2 b (Hd _ H1)).
Qed.
Lemma owned_spec (s : ideal) b : owned s (Ref b) = true -> In (Ref b) (owners s).
Proof. cbn. intros H. apply existsb_exists in H. destruct H as ([| |k] & Hin & Hk); try discriminate. apply Nat.eqb_eq in Hk. now subst. Qed.
Lemma view_free w s u : Rel w s -> view_unused s u = true -> exists q, nth_error (i_v s) u = Some (Dead, q).
Proof. unfold view_unused. destruct (nth_error (i_v s) u) as [[[| |] q]|]; try discriminate. eauto. Qed.
Lemma putv_rel w s u x pl : Rel w s -> vrel x pl -> Rel (set_v w u x) (put_v s u pl).
Proof. intros R H. constructor; cbn [w_mem w_h w_s w_v w_p set_v put_v i_objs i_h i_s i_v i_p]; try apply R. apply F2_upd; [apply R|exact H]. Qed.

Lemma step_rel w s o s' : Rel w s -> ideal_step s o = Some s' -> exists w', exec w o = Some w' /\ Rel w' s'.
Proof.
  intros R E. destruct o as [v l|v x|v x|v x|v i a|v|x v|x y|x i a|x|u v|u x|u i a|u|p v|p u|u p|v p|x p|p l|p q|p q|p i a|p]; cbn [ideal_step] in E.
  - destruct (unused (i_h s) v) eqn:Hv; [|discriminate]. destruct (create l s) as [s1 p] eqn:Ec. injection E as <-. apply (new_rel w s); auto. now apply (free_h w s).
  - destruct (unused (i_h s) v) eqn:Hv; [|discriminate]. destruct (contents s (at_ (i_h s) x)) as [l|] eqn:El; [|discriminate]. destruct (create l s) as [s1 p] eqn:Ec. injection E as <-.
    destruct (get_h w s x R (contents_alive _ _ _ _ El)) as (h & Eh & Eg & Ep & He). rewrite Ep in El. cbn [exec]. rewrite Eg, (contents_blk w s _ l R (h_live w s x h R Eh He) El). apply (new_rel w s); auto. now apply (free_h w s).
  - destruct (unused (i_h s) v) eqn:Hv; [|discriminate]. destruct (alive (i_h s) x) eqn:Hx; [|discriminate]. injection E as <-. now apply move_rel.
  - destruct (alive (i_h s) v) eqn:Hv; [|discriminate]. destruct (alive (i_h s) x) eqn:Hx; [|discriminate]. destruct (Nat.eqb_spec v x) as [D|D]; [discriminate|]. injection E as <-. now apply assign_rel.
  - destruct (alive (i_h s) v) eqn:Hv; [|discriminate]. destruct (get_h w s v R Hv) as (h & Eh & Eg & Ep & He). rewrite Ep in E. cbn [exec]. rewrite Eg. apply (poke_rel w s _ i a s' R); [|exact E]. now apply (h_live w s v).
  - destruct (alive (i_h s) v) eqn:Hv; [|discriminate]. injection E as <-. now apply end_rel.
  - destruct (unused (i_s s) x) eqn:Hx; [|discriminate]. destruct (alive (i_h s) v) eqn:Hv; [|discriminate]. injection E as <-. now apply share_op_rel.
  - destruct (unused (i_s s) x) eqn:Hx; [|discriminate]. destruct (alive (i_s s) y) eqn:Hv; [|discriminate]. injection E as <-. now apply copys_rel.
  - destruct (alive (i_s s) x) eqn:Hv; [|discriminate]. destruct (get_s w s x R Hv) as (h & Eh & Eg & Ep & He). rewrite Ep in E. cbn [exec]. rewrite Eg. apply (poke_rel w s _ i a s' R); [|exact E]. now apply (s_live w s x).
  - destruct (alive (i_s s) x) eqn:Hv; [|discriminate]. injection E as <-. now apply ends_rel.
  - destruct (view_unused s u) eqn:Hu; [|discriminate]. destruct (alive (i_h s) v) eqn:Hv; [|discriminate]. injection E as <-. destruct (get_h w s v R Hv) as (h & Eh & Eg & -> & He). cbn [exec]. rewrite Eg. eexists. split; [reflexivity|]. now apply putv_rel.
  - destruct (view_unused s u) eqn:Hu; [|discriminate]. destruct (view_alive s x) eqn:Hv; [|discriminate]. injection E as <-. destruct (get_v w s x R Hv) as (y & Ey & Eg & ->). cbn [exec]. rewrite Eg. eexists. split; [reflexivity|]. now apply putv_rel.
  - destruct (view_alive s u) eqn:Hv; [|discriminate]. destruct (owned s (fst (view_at s u))) eqn:Ho; [|discriminate]. destruct (get_v w s u R Hv) as (y & Ey & Eg & Ep). rewrite Ep in E, Ho. cbn [fst] in E, Ho. cbn [exec]. rewrite Eg.
    apply (poke_rel w s _ i a s' R); [|exact E]. intros b Eb. rewrite Eb in Ho. apply (owned_live w s b R). now apply owned_spec.
  - destruct (view_alive s u) eqn:Hv; [|discriminate]. injection E as <-. destruct (get_v w s u R Hv) as (y & Ey & Eg & _). cbn [exec]. rewrite Eg. eexists. split; [reflexivity|]. now apply putv_rel.
  - destruct (unused (i_p s) p) eqn:Hp; [|discriminate]. destruct (alive (i_h s) v) eqn:Hv; [|discriminate]. injection E as <-. destruct (get_h w s v R Hv) as (h & Eh & Eg & Ep & He). cbn [exec]. rewrite Eg, Ep. now apply to_numpy_rel.
  - destruct (unused (i_p s) p) eqn:Hp; [|discriminate]. destruct (view_alive s u) eqn:Hu; [|discriminate]. destruct (get_v w s u R Hu) as (y & Ey & Eg & Ep). rewrite Ep in E. cbn [fst snd] in E. cbn [exec]. rewrite Eg. cbn [andb] in E. destruct (v_parent y) as [v|].
    + destruct (same_place (at_ (i_h s) v) (place_of (v_data y))) eqn:Es; [|discriminate]. injection E as <-. assert (Eq : at_ (i_h s) v = place_of (v_data y)).
      { destruct (at_ (i_h s) v), (v_data y); cbn in Es |- *; try discriminate; auto. apply Nat.eqb_eq in Es. congruence. }
      apply to_numpy_rel; auto. unfold at_ in Eq. unfold alive. destruct (nth_error (i_h s) v) as [q|] eqn:Eqq; [rewrite (nth_error_nth _ _ _ Eqq) in Eq; subst q; now destruct (v_data y)|].
      rewrite nth_overflow in Eq by (now apply nth_error_None). destruct (v_data y); discriminate.
    + injection E as <-. exists w. auto.
  - destruct (view_unused s u) eqn:Hu; [|discriminate]. destruct (alive (i_p s) p) eqn:Hp; [|discriminate]. injection E as <-. destruct (get_p w s p R Hp) as (o & t & d & Eo & Eg & Ek & Ea & -> & He). cbn [exec]. rewrite Eg, Ea. eexists. split; [reflexivity|]. now apply putv_rel.
  - destruct (unused (i_h s) v) eqn:Hv; [|discriminate]. destruct (contents s (at_ (i_p s) p)) as [l|] eqn:El; [|discriminate]. destruct (create l s) as [s1 q] eqn:Ec. injection E as <-.
    destruct (get_p w s p R (contents_alive _ _ _ _ El)) as (o & t & d & Eo & Eg & Ek & Ea & Ep & He). rewrite Ep in El. cbn [exec]. rewrite Eg, Ea, (contents_blk w s _ l R (p_live w s p o d R Eo He) El). apply (new_rel w s); auto. now apply (free_h w s).
  - destruct (unused (i_s s) x) eqn:Hx; [|discriminate]. destruct (alive (i_p s) p) eqn:Hv; [|discriminate]. injection E as <-. now apply foreign_rel.
  - destruct (unused (i_p s) p) eqn:Hp; [|discriminate]. destruct (create l s) as [s1 q] eqn:Ec. injection E as <-. now apply (pynew_rel w s).
  - destruct (unused (i_p s) p) eqn:Hp; [|discriminate]. destruct (alive (i_p s) q) eqn:Hv; [|discriminate]. injection E as <-. now apply alias_rel.
  - destruct (unused (i_p s) p) eqn:Hp; [|discriminate]. destruct (alive (i_p s) q) eqn:Hv; [|discriminate]. injection E as <-. now apply slice_rel.
  - destruct (alive (i_p s) p) eqn:Hv; [|discriminate]. destruct (get_p w s p R Hv) as (o & t & d & Eo & Eg & Ek & Ea & Ep & He). rewrite Ep in E. cbn [exec]. rewrite Eg, Ea. apply (poke_rel w s _ i a s' R); [|exact E]. now apply (p_live w s p o).
  - destruct (alive (i_p s) p) eqn:Hv; [|discriminate]. injection E as <-. now apply pydel_rel.
Qed.
Lemma run_rel p : forall w s s', Rel w s -> ideal_run s p = Some s' -> exists w', run w p = Some w' /\ Rel w' s'.
Proof.
  induction p as [|o p IH]; intros w s s' R E; cbn [ideal_run run] in *; [injection E as <-; eauto|]. destruct (ideal_step s o) as [s1|] eqn:Es; [|discriminate]. destruct (step_rel w s o s1 R Es) as (w1 & -> & R1). eauto.
Qed.
Lemma start_rel nh ns nv np : Rel (start nh ns nv np) (ideal_start nh ns nv np).
Proof.
  assert (F : forall (X Y : Type) (P : X -> Y -> Prop) x y n, P x y -> Forall2 P (repeat x n) (repeat y n)) by (intros X Y P x y n H; induction n; cbn; constructor; auto).
  constructor; cbn [w_mem w_h w_s w_v w_p start ideal_start i_objs i_h i_s i_v i_p]; try (apply F; reflexivity); [|split; [reflexivity|intros [|b] l D; discriminate]].
  assert (Z : forall t, t <> TNone -> occ t (roots (start nh ns nv np)) = 0%nat).
  { intros t Ht. assert (Zr : forall X (f : option X -> target) n, f None = TNone -> occ t (map f (repeat None n)) = 0%nat) by (intros X f n Hf; induction n as [|n IHn]; cbn [repeat map]; [reflexivity|rewrite occ_cons, Hf, (one_none t Ht), IHn; reflexivity]).
    unfold roots. cbn [w_h w_s w_p start]. rewrite !occ_app, !Zr by reflexivity. reflexivity. }
  repeat split; cbn [m_obj m_blk].
  - intros [|i] x D; discriminate.
  - intros i _. rewrite Z by discriminate. reflexivity.
  - intros b. rewrite Z by discriminate. unfold block_live. cbn [m_blk]. now destruct b.
  - intros [|j] x i D; discriminate.
Qed.

(** ** blocks are released with their last owner *)
Lemma live_up w s b : Rel w s -> forall k j x, (length (m_obj (w_mem w)) - j <= k)%nat -> nth_error (m_obj (w_mem w)) j = Some x -> (0 < count x)%nat -> ends (skel (m_obj (w_mem w))) (TObj j) b -> In (place_of b) (owners s).
Proof.
  intros R k. induction k as [|k IH]; intros j x Hk E Hc He; (assert (Hj : (j < length (m_obj (w_mem w)))%nat) by (apply nth_error_Some; congruence)); [lia|].
  destruct (R_good _ _ R) as (G1 & _ & _ & G4). pose proof (G1 j x E) as Hcount. destruct (Nat.eq_dec (occ (TObj j) (roots w)) 0) as [Z|Z].
  - assert (Hin : In (TObj j) (lives (m_obj (w_mem w)))) by (apply occ_in; lia). apply In_nth_error in Hin. destruct Hin as (q & Eq). unfold lives in Eq. rewrite nth_error_map in Eq. destruct (nth_error (m_obj (w_mem w)) q) as [y|] eqn:Ey; [|discriminate].
    injection Eq as Eq. unfold held in Eq. destruct (Nat.ltb_spec 0 (count y)) as [Hy|]; [|discriminate]. pose proof (G4 q y j Ey Eq) as Hlt. apply (IH q y); auto; [lia|]. apply E_obj with (TObj j) (data_of y); [|exact He]. unfold skel. rewrite nth_error_map, Ey. cbn. unfold shape. now rewrite Eq.
  - assert (Hin : In (TObj j) (roots w)) by (apply occ_in; lia). unfold roots in Hin. unfold owners. rewrite !in_app_iff in *. destruct Hin as [Hin|[Hin|Hin]]; apply in_map_iff in Hin; destruct Hin as (h & Eh & Hin); apply In_nth_error in Hin; destruct Hin as (v & Ev).
    + left. destruct (F2_nth_l _ _ _ (R_h _ _ R) v h Ev) as (pl & Epl & Hpl). destruct h as [h|]; [|discriminate]. destruct Hpl as [H1 H2]. rewrite Eh in H2. rewrite (ends_fun _ _ _ He _ H2), <- H1. now apply nth_error_In in Epl.
    + right. left. destruct (F2_nth_l _ _ _ (R_s _ _ R) v h Ev) as (pl & Epl & Hpl). destruct h as [h|]; [|discriminate]. destruct Hpl as [H1 H2]. rewrite Eh in H2. rewrite (ends_fun _ _ _ He _ H2), <- H1. now apply nth_error_In in Epl.
    + right. right. destruct (F2_nth_l _ _ _ (R_p _ _ R) v h Ev) as (pl & Epl & Hpl). destruct h as [o|]; [|discriminate]. destruct Hpl as (t & d & _ & H1 & H2). cbn in Eh. injection Eh as ->. rewrite (ends_fun _ _ _ He _ H2), <- H1. now apply nth_error_In in Epl.
Qed.
Lemma rel_exactly w s : Rel w s -> exactly_live w s.
Proof.
  intros R b. split; [|intros H; now apply (owned_live w s)]. intros (l & El). destruct (R_good _ _ R) as (_ & _ & G3 & _). specialize (G3 b). unfold block_live in G3. rewrite El in G3.
  destruct (Nat.eq_dec (occ (TBlk b) (roots w)) 0) as [Z|Z].
  - assert (Hin : In (TBlk b) (lives (m_obj (w_mem w)))) by (apply occ_in; lia). apply In_nth_error in Hin. destruct Hin as (q & Eq). unfold lives in Eq. rewrite nth_error_map in Eq. destruct (nth_error (m_obj (w_mem w)) q) as [y|] eqn:Ey; [|discriminate].
    injection Eq as Eq. unfold held in Eq. destruct (Nat.ltb_spec 0 (count y)) as [Hy|]; [|discriminate]. apply (live_up w s (Some b) R (length (m_obj (w_mem w)) - q) q y); auto. apply E_obj with (TBlk b) (data_of y); [|constructor]. unfold skel. rewrite nth_error_map, Ey. cbn. unfold shape. now rewrite Eq.
  - assert (Hin : In (TBlk b) (roots w)) by (apply occ_in; lia). unfold roots in Hin. unfold owners. rewrite !in_app_iff in *. destruct Hin as [Hin|[Hin|Hin]]; apply in_map_iff in Hin; destruct Hin as (h & Eh & Hin); apply In_nth_error in Hin; destruct Hin as (v & Ev).
    + left. destruct (F2_nth_l _ _ _ (R_h _ _ R) v h Ev) as (pl & Epl & Hpl). destruct h as [h|]; [|discriminate]. destruct Hpl as [H1 H2]. rewrite Eh in H2. assert (E : h_data h = Some b) by (inversion H2; reflexivity). rewrite E in H1. cbn in H1. subst pl. now apply nth_error_In in Epl.
    + destruct h as [h|]; [|discriminate]. cbn in Eh. destruct (h_sptr h); discriminate.
    + destruct h as [o|]; discriminate.
Qed.
Lemma rel_contents w s : Rel w s -> same_contents w s.
Proof.
  intros R. assert (K : forall d, (forall b, d = Some b -> exists l, nth_error (m_blk (w_mem w)) b = Some (Some l)) -> exists l, contents s (place_of d) = Some l /\ shows (w_mem w) d l).
  { intros [b|] H; cbn; [|eauto]. destruct (H b eq_refl) as (l & El). exists l. split; [now apply (R_blk _ _ R)|exact El]. }
  repeat split.
  - intros v H. destruct (get_h w s v R H) as (h & Eh & _ & -> & He). destruct (K _ (h_live w s v h R Eh He)) as (l & H1 & H2). eauto 6.
  - intros v H. destruct (get_s w s v R H) as (h & Eh & _ & -> & He). destruct (K _ (s_live w s v h R Eh He)) as (l & H1 & H2). eauto 6.
  - intros v H. destruct (get_p w s v R H) as (o & t & d & Eo & _ & Ek & _ & -> & He). destruct (K _ (p_live w s v o d R Eo He)) as (l & H1 & H2). unfold skel in Ek. rewrite nth_error_map in Ek. destruct (nth_error (m_obj (w_mem w)) o) as [y|] eqn:Ey; [|discriminate].
    injection Ek as _ Ed. destruct y as [|?|n d' b]; try discriminate. cbn in Ed. injection Ed as ->. exists o, n, d, b, l. auto.
  - intros u H Ho. destruct (get_v w s u R H) as (x & Ex & _ & Ev). rewrite Ev in *. cbn [fst] in *. destruct (K (v_data x)) as (l & H1 & H2); [|eauto 6]. intros b Eb. rewrite Eb in Ho. apply (owned_live w s b R). now apply owned_spec.
Qed.
Lemma counted_root w s : Rel w s -> forall k j x, (length (m_obj (w_mem w)) - j <= k)%nat -> nth_error (m_obj (w_mem w)) j = Some x -> (0 < count x)%nat -> exists i, In (TObj i) (roots w).
Proof.
  intros R k. induction k as [|k IH]; intros j x Hk E Hc; (assert (Hj : (j < length (m_obj (w_mem w)))%nat) by (apply nth_error_Some; congruence)); [lia|].
  destruct (R_good _ _ R) as (G1 & _ & _ & G4). pose proof (G1 j x E) as Hcount. destruct (Nat.eq_dec (occ (TObj j) (roots w)) 0) as [Z|Z].
  - assert (Hin : In (TObj j) (lives (m_obj (w_mem w)))) by (apply occ_in; lia). apply In_nth_error in Hin. destruct Hin as (q & Eq). unfold lives in Eq. rewrite nth_error_map in Eq. destruct (nth_error (m_obj (w_mem w)) q) as [y|] eqn:Ey; [|discriminate].
    injection Eq as Eq. unfold held in Eq. destruct (Nat.ltb_spec 0 (count y)) as [Hy|]; [|discriminate]. pose proof (G4 q y j Ey Eq) as Hlt. apply (IH q y); auto. lia.
  - exists j. apply occ_in. lia.
Qed.
Lemma rel_nothing w s : Rel w s -> nothing_left w s.
Proof.
  intros R H. split.
  - intros b x E. destruct x as [l|]; [|reflexivity]. exfalso. assert (Hin : In (Ref b) (owners s)) by (apply (rel_exactly w s R); eauto). now apply H in Hin.
  - intros o x E. destruct (count x) as [|n] eqn:Ec; [reflexivity|]. exfalso. destruct (counted_root w s R (length (m_obj (w_mem w)) - o) o x) as (i & Hin); auto; [lia|].
    assert (Hd : forall d, place_of d <> Dead) by (intros [d|]; discriminate).
    unfold roots in Hin. unfold owners in H. rewrite !in_app_iff in Hin. destruct Hin as [Hin|[Hin|Hin]]; apply in_map_iff in Hin; destruct Hin as (h & Eh & Hin); apply In_nth_error in Hin; destruct Hin as (v & Ev).
    + destruct (F2_nth_l _ _ _ (R_h _ _ R) v h Ev) as (pl & Epl & Hpl). destruct h as [h|]; [|discriminate]. destruct Hpl as [H1 _]. apply (Hd (h_data h)). rewrite <- H1. apply H. apply in_or_app. left. now apply nth_error_In in Epl.
    + destruct (F2_nth_l _ _ _ (R_s _ _ R) v h Ev) as (pl & Epl & Hpl). destruct h as [h|]; [|discriminate]. destruct Hpl as [H1 _]. apply (Hd (h_data h)). rewrite <- H1. apply H. apply in_or_app. right. apply in_or_app. left. now apply nth_error_In in Epl.
    + destruct (F2_nth_l _ _ _ (R_p _ _ R) v h Ev) as (pl & Epl & Hpl). destruct h as [q|]; [|discriminate]. destruct Hpl as (t & d & _ & H1 & _). apply (Hd d). rewrite <- H1. apply H. apply in_or_app. right. apply in_or_app. right. now apply nth_error_In in Epl.
Qed.
End Sim.
