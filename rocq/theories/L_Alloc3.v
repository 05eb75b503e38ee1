(** Lemmas on composed allocators and on client programs. *)
From Verif Require Import Base M_Alloc S_Alloc L_Alloc L_Alloc2 M_Loops L_Loops L_Handle L_Run.

Lemma filter_map {T U} (f : U -> bool) (g : T -> U) l : filter f (map g l) = map g (filter (fun x => f (g x)) l).
Proof. induction l as [|x l IH]; cbn [map filter]; auto. destruct (f (g x)); cbn [map]; now rewrite IH. Qed.
Lemma filter_perm {T} (f : T -> bool) l l' : Permutation l l' -> Permutation (filter f l) (filter f l').
Proof.
  intros P. induction P as [|x l l' P IH|x y l|l l' l'' P1 IH1 P2 IH2]; cbn [filter]; auto.
  - destruct (f x); auto.
  - destruct (f x), (f y); auto. apply perm_swap.
  - now transitivity (filter f l').
Qed.

(** ** segregator *)
Section Seg.
Variables (T : Z) (A B : allocator) (okA okB : list Z -> Z -> bool) (zA zB : bool).
Variables (IA : st A -> list (Z * Z) -> list (Z * Z) -> Prop) (IB : st B -> list (Z * Z) -> list (Z * Z) -> Prop).
Hypotheses (HA : reliable A okA zA IA) (HB : reliable B okB zB IB).
Notation sm := (fun b : Z * Z => snd b <=? T).
Notation bg := (fun b : Z * Z => negb (snd b <=? T)).
Definition seg_inv (ab : st (segregator T A B)) (L R : list (Z * Z)) : Prop :=
  exists RA RB, Permutation R (RA ++ RB) /\ IA (fst ab) (filter sm L) RA /\ IB (snd ab) (filter bg L) RB.
Lemma keeps_part L F LA RB m m' : keeps LA (RB ++ F) m m' -> (forall b, In b L -> In b LA \/ exists r, In r RB /\ within b r) -> keeps L F m m'.
Proof.
  intros K H x r Hr Hb. apply in_app_or in Hr. destruct Hr as [Hr|Hr].
  - destruct (H r Hr) as [Hl|(q & Hq & W)].
    + apply (K x r); auto. apply in_or_app. now left.
    + apply (K x q); [apply in_or_app; right; apply in_or_app; now left|]. unfold within, byte_of in *. lia.
  - apply (K x r); auto. apply in_or_app. right. apply in_or_app. now right.
Qed.
Lemma segregator_reliable : reliable (segregator T A B) (seg_ok T okA okB) (zA && zB) seg_inv.
Proof.
  constructor.
  - intros e s H. cbn [mk segregator]. pose proof (rel_make _ _ _ _ HA (fun i => e (2 * i)%nat) s H) as M1.
    destruct (mk A _ s) as [[a s1]| |]; auto. destruct M1 as (RA & P1 & H1 & I1 & K1).
    pose proof (rel_make _ _ _ _ HB (fun i => e (2 * i + 1)%nat) s1 H1) as M2. destruct (mk B _ s1) as [[b s2]| |]; auto. destruct M2 as (RB & P2 & H2 & I2 & K2).
    exists (RB ++ RA). split; [rewrite P2, P1; now rewrite app_assoc|]. split; auto. split.
    + exists RA, RB. split; [apply Permutation_app_comm|]. auto.
    + intros x r Hr Hb. cbn [app] in Hr. rewrite (K2 x r); auto; [apply (K1 x r); auto|]. cbn [app]. rewrite P1. apply in_or_app. now right.
  - intros [a b] L R F s z n e (RA & RB & PR & I1 & I2) P H Hn Hok. cbn [al segregator fst snd] in *. unfold seg_ok in Hok. rewrite !filter_map in Hok.
    assert (HR : regions_ok (RA ++ RB ++ F)) by (eapply regions_perm; [|exact H]; rewrite P, PR; now rewrite app_assoc).
    assert (HRA : regions_ok RA) by (apply regions_app in HR; tauto).
    assert (HRB : regions_ok RB) by (apply regions_app in HR; destruct HR as [_ HR]; apply regions_app in HR; tauto).
    destruct (rel_inside _ _ _ _ HA _ _ _ I1 HRA) as [_ InA]. destruct (rel_inside _ _ _ _ HB _ _ _ I2 HRB) as [_ InB]. rewrite Forall_forall in InA, InB.
    assert (Sp : forall c, In c L -> In c (filter sm L) \/ In c (filter bg L)).
    { intros c Hc. rewrite !filter_In. destruct (snd c <=? T); auto. }
    destruct (n <=? T) eqn:En.
    + assert (PA : Permutation (os s) (RA ++ (RB ++ F))) by (rewrite P, PR; now rewrite app_assoc).
      pose proof (rel_alloc _ _ _ _ HA a _ RA (RB ++ F) s z n e I1 PA H Hn Hok) as Al. destruct (al A z n e a s) as [[[a' s'] p]| |]; auto.
      destruct Al as (RA' & P' & H' & I' & K & Z0). exists (RA' ++ RB). split; [now rewrite P', app_assoc|]. split; auto. split; [|split].
      * exists RA', RB. cbn [fst snd filter]. rewrite En. cbn [negb]. auto.
      * eapply keeps_part; [exact K|]. intros c Hc. destruct (Sp c Hc) as [|Hc2]; auto.
      * intros -> Hz. apply andb_true_iff in Hz. apply Z0; tauto.
    + assert (PB : Permutation (os s) (RB ++ (RA ++ F))) by (rewrite P, PR, !app_assoc; apply Permutation_app_tail, Permutation_app_comm).
      pose proof (rel_alloc _ _ _ _ HB b _ RB (RA ++ F) s z n e I2 PB H Hn Hok) as Al. destruct (al B z n e b s) as [[[b' s'] p]| |]; auto.
      destruct Al as (RB' & P' & H' & I' & K & Z0). exists (RB' ++ RA). split; [now rewrite P', app_assoc|]. split; auto. split; [|split].
      * exists RA, RB'. cbn [fst snd filter]. rewrite En. cbn [negb]. split; [apply Permutation_app_comm|]. auto.
      * eapply keeps_part; [exact K|]. intros c Hc. destruct (Sp c Hc) as [Hc2|]; auto.
      * intros -> Hz. apply andb_true_iff in Hz. apply Z0; tauto.
  - intros [a b] L L' R F s [p n] (RA & RB & PR & I1 & I2) P H PL. cbn [de segregator fst snd] in *.
    apply (filter_perm sm) in PL as PA. apply (filter_perm bg) in PL as PB. cbn [filter snd] in PA, PB. destruct (n <=? T) eqn:En; cbn [negb] in PB.
    + assert (Po : Permutation (os s) (RA ++ (RB ++ F))) by (rewrite P, PR; now rewrite app_assoc).
      pose proof (rel_free _ _ _ _ HA a _ _ RA (RB ++ F) s (p, n) I1 Po H PA) as D. destruct (de A (p, n) a s) as [[a' s']| |]; auto.
      destruct D as (RA' & P' & H' & I' & E). exists (RA' ++ RB). split; [now rewrite P', app_assoc|]. split; auto. split; auto.
      exists RA', RB. split; auto. split; auto. eapply (rel_perm _ _ _ _ HB); eauto.
    + assert (Po : Permutation (os s) (RB ++ (RA ++ F))) by (rewrite P, PR, !app_assoc; apply Permutation_app_tail, Permutation_app_comm).
      pose proof (rel_free _ _ _ _ HB b _ _ RB (RA ++ F) s (p, n) I2 Po H PB) as D. destruct (de B (p, n) b s) as [[b' s']| |]; auto.
      destruct D as (RB' & P' & H' & I' & E). exists (RB' ++ RA). split; [now rewrite P', app_assoc|]. split; auto. split; auto.
      exists RA, RB'. split; [apply Permutation_app_comm|]. split; auto. eapply (rel_perm _ _ _ _ HA); eauto.
  - intros [a b] R F s (RA & RB & PR & I1 & I2) P H. cbn [fin segregator fst snd filter] in *.
    assert (PB : Permutation (os s) (RB ++ (RA ++ F))) by (rewrite P, PR, !app_assoc; apply Permutation_app_tail, Permutation_app_comm).
    pose proof (rel_fin _ _ _ _ HB b RB (RA ++ F) s I2 PB H) as D. destruct (fin B b s) as [s1| |]; auto.
    assert (H1 : regions_ok (os s1)). { apply (regions_perm _ _ PB) in H. apply regions_app in H. destruct H as [_ H]. eapply regions_perm; [symmetry; exact D|exact H]. }
    exact (rel_fin _ _ _ _ HA a RA F s1 I1 D H1).
  - intros [a b] L L' R R' (RA & RB & PR & I1 & I2) PL P. exists RA, RB. split; [now rewrite <- P|]. split.
    + eapply (rel_perm _ _ _ _ HA); eauto. now apply filter_perm.
    + eapply (rel_perm _ _ _ _ HB); eauto. now apply filter_perm.
  - intros [a b] L R (RA & RB & PR & I1 & I2) HR. cbn [fst snd] in *. apply (regions_perm _ _ PR) in HR. apply regions_app in HR as HR'. destruct HR' as [HRA HRB].
    destruct (rel_inside _ _ _ _ HA _ _ _ I1 HRA) as [SA InA]. destruct (rel_inside _ _ _ _ HB _ _ _ I2 HRB) as [SB InB]. rewrite Forall_forall in InA, InB.
    assert (PL : Permutation L (filter sm L ++ filter bg L)).
    { clear. induction L as [|c L IH]; cbn [filter]; auto. destruct (snd c <=? T); cbn [negb]; [now constructor|]. rewrite <- Permutation_middle. now constructor. }
    split.
    + apply (sep_perm _ _ (Permutation_sym PL)). apply FOP_app. split; [exact SA|]. split; [exact SB|]. intros x y Hx Hy.
      destruct (InA x Hx) as (r & Hr & Wr). destruct (InB y Hy) as (q & Hq & Wq). destruct HR as [HR _]. apply FOP_app in HR. destruct HR as (_ & _ & HR).
      specialize (HR r q Hr Hq). unfold within in *. lia.
    + apply Forall_forall. intros c Hc. rewrite PL in Hc. apply in_app_or in Hc. destruct Hc as [Hc|Hc].
      * destruct (InA c Hc) as (r & Hr & W). exists r. split; auto. rewrite PR. apply in_or_app. now left.
      * destruct (InB c Hc) as (r & Hr & W). exists r. split; auto. rewrite PR. apply in_or_app. now right.
Qed.
End Seg.

(** ** leak_check and stats *)
Lemma total_perm L L' : Permutation L L' -> total L = total L'.
Proof. unfold total. intros P. induction P; cbn [map fold_right]; lia. Qed.
Lemma total_nonneg L : Forall (fun b : Z * Z => 0 <= snd b) L -> 0 <= total L.
Proof. unfold total. induction 1; cbn [map fold_right]; lia. Qed.
Section Dress.
Variables (A : allocator) (ok : list Z -> Z -> bool) (z : bool) (I : st A -> list (Z * Z) -> list (Z * Z) -> Prop).
Hypothesis HA : reliable A ok z I.
Definition leak_inv (xu : st (leak_check A)) (L R : list (Z * Z)) : Prop := I (fst xu) L R /\ snd xu = total L /\ Forall (fun b => 0 <= snd b) L.
Lemma leak_reliable : reliable (leak_check A) ok z leak_inv.
Proof.
  constructor.
  - intros e s H. cbn [mk leak_check]. pose proof (rel_make _ _ _ _ HA e s H) as M. destruct (mk A e s) as [[x s1]| |]; auto.
    destruct M as (R & P & H1 & I1 & K). exists R. split; auto. split; auto. split; auto. split; auto.
  - intros [x u] L R F s zz n e (I1 & Eu & Hs) P H Hn Hok. cbn [al leak_check fst snd] in *. pose proof (rel_alloc _ _ _ _ HA x L R F s zz n e I1 P H Hn Hok) as D.
    destruct (al A zz n e x s) as [[[x' s'] p]| |]; auto. destruct D as (R' & P' & H' & I' & K & Z0). exists R'. split; auto. split; auto. split; auto.
    split; auto. cbn [fst snd]. split; [unfold total in *; cbn [map fold_right snd]; lia|constructor; auto].
  - intros [x u] L L' R F s b (I1 & Eu & Hs) P H PL. cbn [de leak_check fst snd] in *. apply (Permutation_Forall PL) in Hs as Hs'. inversion Hs' as [|? ? Hb HL']; subst.
    apply total_perm in PL as Et. pose proof (total_nonneg _ HL'). unfold total in Et, H0 |- *. cbn [map fold_right] in Et.
    destruct (Z.ltb_spec (fold_right Z.add 0 (map snd L) - snd b) 0); [lia|].
    pose proof (rel_free _ _ _ _ HA x L L' R F s b I1 P H PL) as D. destruct (de A b x s) as [[x' s']| |]; auto. destruct D as (R' & P' & H' & I' & E).
    exists R'. split; auto. split; auto. split; auto. split; auto. cbn [fst snd]. split; auto. unfold total. lia.
  - intros [x u] R F s (I1 & Eu & Hs) P H. cbn [fin leak_check fst snd] in *. subst u. cbn. exact (rel_fin _ _ _ _ HA x R F s I1 P H).
  - intros [x u] L L' R R' (I1 & Eu & Hs) PL PR. split; [eapply (rel_perm _ _ _ _ HA); eauto|]. split; [rewrite Eu; now apply total_perm|eapply Permutation_Forall; eauto].
  - intros [x u] L R (I1 & _) HR. exact (rel_inside _ _ _ _ HA _ _ _ I1 HR).
Qed.
Definition stats_inv (xh : st (stats A)) (L R : list (Z * Z)) : Prop := I (fst xh) L R.
Lemma stats_reliable : reliable (stats A) (stats_ok ok) false stats_inv.
Proof.
  constructor.
  - intros e s H. cbn [mk stats]. pose proof (rel_make _ _ _ _ HA e s H) as M. destruct (mk A e s) as [[x s1]| |]; auto.
  - intros [x h] L R F s zz n e I1 P H Hn Hok. unfold stats_ok in Hok. apply andb_true_iff in Hok. destruct Hok as [Hn' Hok]. cbn [al stats fst snd].
    replace (n <=? 0) with false by lia. pose proof (rel_alloc _ _ _ _ HA x L R F s false n e I1 P H Hn Hok) as D. destruct (al A false n e x s) as [[[x' s'] p]| |]; auto.
    destruct D as (R' & P' & H' & I' & K & _). exists R'. split; auto. split; auto. split; auto. split; auto. discriminate.
  - intros [x h] L L' R F s b I1 P H PL. cbn [de stats fst snd]. pose proof (rel_free _ _ _ _ HA x L L' R F s b I1 P H PL) as D. destruct (de A b x s) as [[x' s']| |]; auto.
  - intros [x h] R F s I1 P H. exact (rel_fin _ _ _ _ HA x R F s I1 P H).
  - intros [x h] L L' R R' I1 PL PR. eapply (rel_perm _ _ _ _ HA); eauto.
  - intros [x h] L R I1 HR. exact (rel_inside _ _ _ _ HA _ _ _ I1 HR).
Qed.
End Dress.

(** ** programs *)
Lemma drop_perm {T} k (l : list T) x : nth_error l k = Some x -> Permutation l (x :: drop_at k l).
Proof.
  revert l. induction k as [|k IH]; intros [|y l] H; cbn [nth_error] in H; try discriminate; cbn [drop_at].
  - now injection H as ->.
  - rewrite (IH l H) at 1. apply perm_swap.
Qed.
Lemma F2_drop {T U} (P : T -> U -> Prop) k l l' : Forall2 P l l' -> Forall2 P (drop_at k l) (drop_at k l').
Proof. intros H. revert k. induction H; intros [|k]; cbn [drop_at]; auto. Qed.
Lemma F2_nth {T U} (P : T -> U -> Prop) l l' k x : Forall2 P l l' -> nth_error l k = Some x -> exists y, nth_error l' k = Some y /\ P x y.
Proof. intros H. revert k. induction H; intros [|k] E; cbn [nth_error] in *; try discriminate; [injection E as ->; eauto|eauto]. Qed.
Lemma F2_nth_r {T U} (P : T -> U -> Prop) l l' k y : Forall2 P l l' -> nth_error l' k = Some y -> exists x, nth_error l k = Some x /\ P x y.
Proof. intros H. revert k. induction H; intros [|k] E; cbn [nth_error] in *; try discriminate; [injection E as ->; eauto|eauto]. Qed.
Lemma F2_sizes m live l : Forall2 (has_bytes m) live l -> map (fun b => Z.of_nat (length b)) l = map snd live.
Proof. induction 1 as [|b c live l [Hn _] H IH]; cbn [map]; auto. now rewrite IH, Hn. Qed.
Lemma F2_bytes m m' live l : Forall2 (has_bytes m) live l -> keeps live [] m m' -> Forall2 (has_bytes m') live l.
Proof.
  intros F. induction F as [|b c live l [Hn Hb] H IH]; intros K; constructor.
  - split; auto. intros i x E. rewrite <- (Hb i x E). apply (K _ b); [now left|]. unfold byte_of. assert (i < length c)%nat by (apply nth_error_Some; congruence). lia.
  - apply IH. intros x r Hr. apply K. now right.
Qed.
Lemma sep_nth live k k' b b' : separate live -> nth_error live k = Some b -> nth_error live k' = Some b' -> k <> k' -> fst b + snd b <= fst b' \/ fst b' + snd b' <= fst b.
Proof.
  intros Sp. revert k k'. induction Sp as [|c live F Sp IH]; intros [|k] [|k'] E E' Hn; cbn [nth_error] in *; try discriminate; try congruence.
  - injection E as ->. apply nth_error_In in E'. rewrite Forall_forall in F. now apply F.
  - injection E' as ->. apply nth_error_In in E. rewrite Forall_forall in F. apply sep_sym. now apply F.
  - apply (IH k k'); auto.
Qed.
Lemma Forall2_idx {T U} (P : T -> U -> Prop) l l' : length l = length l' -> (forall k x y, nth_error l k = Some x -> nth_error l' k = Some y -> P x y) -> Forall2 P l l'.
Proof.
  revert l'. induction l as [|x l IH]; intros [|y l'] E H; try discriminate; constructor; [apply (H O); auto|]. apply IH; [now injection E|]. intros k; apply (H (S k)).
Qed.
Lemma poke_bytes m live l k b c i v : separate live -> Forall2 (has_bytes m) live l -> nth_error live k = Some b -> nth_error l k = Some c -> (i < length c)%nat ->
  Forall2 (has_bytes (fun a => if a =? fst b + Z.of_nat i then v else m a)) live (upd l k (upd c i (Some v))).
Proof.
  intros Sp F Ek Ec Hi. apply Forall2_idx; [rewrite upd_length; now apply F2_length in F|]. intros j x y Ej Ey.
  destruct (F2_nth _ _ _ _ _ F Ej) as (y0 & Ey0 & [Hn Hb]). assert (Hk : (k < length l)%nat) by (apply nth_error_Some; congruence).
  destruct (Nat.eq_dec k j) as [->|Hne].
  - rewrite nth_error_upd_eq in Ey by auto. injection Ey as <-. assert (x = b) as -> by congruence. assert (y0 = c) as -> by congruence.
    split; [now rewrite upd_length|]. intros i' w E. destruct (Nat.eq_dec i i') as [->|Hni].
    + rewrite nth_error_upd_eq in E by auto. injection E as ->. now rewrite Z.eqb_refl.
    + rewrite nth_error_upd_neq in E by auto. replace (fst b + Z.of_nat i' =? fst b + Z.of_nat i) with false by lia. now apply Hb.
  - rewrite nth_error_upd_neq in Ey by auto. assert (y = y0) as -> by congruence. split; auto. intros i' w E. rewrite <- (Hb i' w E).
    destruct (F2_nth _ _ _ _ _ F Ek) as (c0 & Ec0 & [Hnb _]). assert (c0 = c) as -> by congruence. pose proof (sep_nth _ _ _ _ _ Sp Ek Ej Hne) as D.
    assert (i' < length y0)%nat by (apply nth_error_Some; congruence). replace (fst x + Z.of_nat i' =? fst b + Z.of_nat i) with false by lia. auto.
Qed.

Section Serve.
Variables (X : allocator) (ok : list Z -> Z -> bool) (z : bool) (I : st X -> list (Z * Z) -> list (Z * Z) -> Prop).
Hypothesis HX : reliable X ok z I.
Definition served (w : st X * sys * list (Z * Z)) (l : list (list (option Z))) : Prop :=
  let '(x, s, live) := w in I x live (os s) /\ regions_ok (os s) /\ Forall2 (has_bytes (bytes s)) live l.
Lemma nth_repeat_some {T} (a x : T) n i : nth_error (repeat a n) i = Some x -> x = a.
Proof. intros E. apply nth_error_In in E. now apply repeat_spec in E. Qed.
Lemma c_step_served w l o l' : served w l -> ideal_c ok z l o = Some l' ->
  match c_step X w o with NoEnv => True | Bad => False | Ok w' => served w' l' end.
Proof.
  destruct w as [[x s] live]. intros (I1 & H & F) E. destruct o as [zz n e|k|k i c]; cbn [ideal_c c_step] in *.
  - destruct ((0 <=? n) && _) eqn:En; [|discriminate]. injection E as <-. apply andb_true_iff in En. destruct En as [Hn Hok]. rewrite (F2_sizes _ _ _ F) in Hok.
    assert (P : Permutation (os s) (os s ++ [])) by (now rewrite app_nil_r).
    pose proof (rel_alloc _ _ _ _ HX x live (os s) [] s zz n e I1 P H ltac:(lia) Hok) as D. destruct (al X zz n e x s) as [[[x' s'] p]| |]; auto.
    destruct D as (R' & P' & H' & I' & K & Z0). rewrite app_nil_r in P'. split; [|split; auto].
    + eapply (rel_perm _ _ _ _ HX); [exact I'|reflexivity|now symmetry].
    + constructor; [|now apply (F2_bytes (bytes s))]. split; [rewrite repeat_length; cbn [snd]; lia|]. intros i c Ei.
      assert (i < Z.to_nat n)%nat by (rewrite <- (repeat_length (if zz && z then Some 0 else None) (Z.to_nat n)); apply nth_error_Some; congruence).
      apply nth_repeat_some in Ei. destruct (zz && z) eqn:Ez; [|discriminate]. apply andb_true_iff in Ez. injection Ei as ->. apply Z0; try tauto. unfold byte_of. cbn [fst snd]. lia.
  - destruct (Nat.ltb_spec k (length l)) as [Hk|]; [|discriminate]. injection E as <-. destruct (nth_error live k) as [b|] eqn:Eb.
    2:{ apply nth_error_None in Eb. apply F2_length in F. lia. }
    assert (P : Permutation (os s) (os s ++ [])) by (now rewrite app_nil_r).
    pose proof (rel_free _ _ _ _ HX x live (drop_at k live) (os s) [] s b I1 P H (drop_perm _ _ _ Eb)) as D. destruct (de X b x s) as [[x' s']| |]; auto.
    destruct D as (R' & P' & H' & I' & Em). rewrite app_nil_r in P'. split; [|split; auto].
    + eapply (rel_perm _ _ _ _ HX); [exact I'|reflexivity|now symmetry].
    + rewrite Em. now apply F2_drop.
  - destruct (nth_error l k) as [c0|] eqn:Ec; [|discriminate]. destruct (Nat.ltb_spec i (length c0)) as [Hi|]; [|discriminate]. injection E as <-.
    destruct (F2_nth_r _ _ _ _ _ F Ec) as (b & Eb & _). rewrite Eb. split; [exact I1|]. split; [exact H|]. cbn [bytes].
    apply (poke_bytes _ _ _ _ b c0); auto. now apply (rel_inside _ _ _ _ HX x live (os s)).
Qed.
Lemma c_run_served p : forall w l l', served w l -> ideal_cs ok z l p = Some l' -> match c_run X w p with NoEnv => True | Bad => False | Ok w' => served w' l' end.
Proof.
  induction p as [|o p IH]; intros w l l' Hs E; cbn [c_run ideal_cs] in *; [now injection E as <-|].
  destruct (ideal_c ok z l o) as [l1|] eqn:E1; [|discriminate]. pose proof (c_step_served w l o l1 Hs E1) as D. destruct (c_step X w o) as [w1| |]; auto. now apply (IH w1 l1).
Qed.
Lemma c_program_served e junk p l : ideal_cs ok z [] p = Some l -> match c_program X e junk p with NoEnv => True | Bad => False | Ok w => served w l end.
Proof.
  intros E. unfold c_program. assert (H0 : regions_ok (os (Sys [] junk))) by (split; constructor). pose proof (rel_make _ _ _ _ HX e (Sys [] junk) H0) as M.
  destruct (mk X e (Sys [] junk)) as [[x s]| |]; auto. destruct M as (R & P & H & I1 & _). cbn [os] in P. rewrite app_nil_r in P. apply (c_run_served p _ []); auto.
  split; [eapply (rel_perm _ _ _ _ HX); [exact I1|reflexivity|now symmetry]|]. split; auto.
Qed.
Lemma reliable_serves : serves_if z X ok.
Proof.
  intros e junk p l E. pose proof (c_program_served e junk p l E) as D. destruct (c_program X e junk p) as [[[x s] live]| |]; auto. destruct D as (I1 & H & F).
  destruct (rel_inside _ _ _ _ HX x live (os s) I1 H) as [Sp In]. split; auto. split; auto. split; auto. intros ->. inversion F; subst.
  pose proof (rel_fin _ _ _ _ HX x (os s) [] s I1 ltac:(now rewrite app_nil_r) H) as G. destruct (fin X x s) as [s'| |]; auto. now apply Permutation_sym, Permutation_nil in G.
Qed.
End Serve.

(** ** leak_check and stats change nothing else *)
Section Wrap.
Variable A : allocator.
Lemma total_drop live k b : nth_error live k = Some b -> total live = snd b + total (drop_at k live).
Proof. intros E. apply drop_perm in E. apply total_perm in E. exact E. Qed.
Lemma leak_run p : forall x s live, Forall (fun n => 0 <= n) (sizes_of p) -> Forall (fun b => 0 <= snd b) live ->
  match c_run A (x, s, live) p, c_run (leak_check A) ((x, total live), s, live) p with
  | Ok (x1, s1, l1), Ok (xu, s2, l2) => xu = (x1, total l1) /\ s2 = s1 /\ l2 = l1
  | Bad, Bad | NoEnv, NoEnv => True
  | _, _ => False
  end.
Proof.
  induction p as [|o p IH]; intros x s live Hp Hl; cbn [c_run]; [auto|]. destruct o as [zz n e|k|k i c]; cbn [c_step].
  - cbn [al leak_check fst snd]. cbn [sizes_of flat_map app] in Hp. inversion Hp as [|? ? Hn Hp']; subst. destruct (al A zz n e x s) as [[[x' s'] q]| |]; auto.
    replace (total live + n) with (total ((q, n) :: live)) by (unfold total; cbn [map fold_right snd]; lia). apply IH; auto.
  - destruct (nth_error live k) as [b|] eqn:E; auto. cbn [de leak_check fst snd]. rewrite (total_drop _ _ _ E).
    assert (Hd : Forall (fun b : Z * Z => 0 <= snd b) (drop_at k live)) by (apply (Permutation_Forall (drop_perm _ _ _ E)) in Hl; now inversion Hl).
    pose proof (total_nonneg _ Hd). destruct (Z.ltb_spec (snd b + total (drop_at k live) - snd b) 0); [lia|]. destruct (de A b x s) as [[x' s']| |]; auto.
    replace (snd b + total (drop_at k live) - snd b) with (total (drop_at k live)) by lia. apply IH; auto.
  - destruct (nth_error live k) as [b|]; auto. apply IH; auto.
Qed.
Lemma clz_bin n c : 0 < n < 2 ^ 64 -> (c < 64)%nat -> Nat.eqb (Z.to_nat (clz n)) c = in_bin c n.
Proof.
  intros [Hn Hn'] Hc. unfold clz, in_bin. assert (Hl : 0 <= Z.log2 n < 64) by (split; [apply Z.log2_nonneg|apply Z.log2_lt_pow2; auto]).
  pose proof (Z.log2_spec n Hn) as [S1 S2]. destruct (Nat.eqb_spec (Z.to_nat (63 - Z.log2 n)) c) as [<-|Hne].
  - rewrite Z2Nat.id by lia. replace (63 - (63 - Z.log2 n)) with (Z.log2 n) by lia. replace (64 - (63 - Z.log2 n)) with (Z.succ (Z.log2 n)) by lia. lia.
  - symmetry. apply andb_false_iff. assert (Z.log2 n <> 63 - Z.of_nat c) by lia. destruct (Z.lt_ge_cases (Z.log2 n) (63 - Z.of_nat c)).
    + left. apply Z.leb_gt. apply Z.log2_lt_pow2; auto.
    + right. apply Z.ltb_ge. apply Z.le_trans with (2 ^ Z.log2 n); auto. apply Z.pow_le_mono_r; lia.
Qed.
Lemma stats_run p : forall x h s live, Forall (fun n => 0 < n < 2 ^ 64) (sizes_of p) -> length h = 65%nat ->
  match c_run A (x, s, live) (map unzero p), c_run (stats A) ((x, h), s, live) p with
  | Ok (x1, s1, l1), Ok (xh, s2, l2) => fst xh = x1 /\ s2 = s1 /\ l2 = l1 /\ length (snd xh) = 65%nat
      /\ (forall c, (c < 64)%nat -> nthZ (snd xh) c = nthZ h c + count_bin c (sizes_of p)) /\ nthZ (snd xh) 64 = nthZ h 64
  | Bad, Bad | NoEnv, NoEnv => True
  | _, _ => False
  end.
Proof.
  induction p as [|o p IH]; intros x h s live Hp Hh; cbn [c_run map].
  { cbn [fst snd sizes_of flat_map]. unfold count_bin. cbn [filter length]. split; auto. split; auto. split; auto. split; auto. split; auto. intros; lia. }
  destruct o as [zz n e|k|k i c]; cbn [unzero c_step].
  - cbn [al stats fst snd]. cbn [sizes_of flat_map app] in Hp. inversion Hp as [|? ? Hn Hp']; subst. replace (n <=? 0) with false by lia.
    destruct (al A false n e x s) as [[[x' s'] q]| |]; auto.
    set (k := Z.to_nat (clz n)). set (h' := upd h k (nthZ h k + 1)). assert (Hh' : length h' = 65%nat) by (unfold h'; now rewrite upd_length).
    specialize (IH x' h' s' ((q, n) :: live) Hp' Hh'). destruct (c_run A _ _) as [[[x1 s1] l1]| |], (c_run (stats A) _ _) as [[[xh s2] l2]| |]; auto.
    destruct IH as (E1 & E2 & E3 & E4 & E5 & E6). split; auto. split; auto. split; auto. split; auto.
    assert (Hk : (k < 64)%nat) by (unfold k, clz; pose proof (Z.log2_nonneg n); assert (Z.log2 n < 64) by (apply Z.log2_lt_pow2; lia); lia).
    split.
    + intros c Hc. rewrite (E5 c Hc). unfold h'. cbn [sizes_of flat_map app]. unfold count_bin. cbn [filter]. rewrite <- (clz_bin n c Hn Hc). fold k.
      fold (sizes_of p). unfold nthZ. destruct (Nat.eqb_spec k c) as [->|Hne].
      * rewrite nth_upd_eq by lia. cbn [length]. lia.
      * rewrite nth_upd_neq by auto. lia.
    + rewrite E6. unfold h', nthZ. apply nth_upd_neq. lia.
  - destruct (nth_error live k) as [b|]; auto. cbn [de stats fst snd]. destruct (de A b x s) as [[x' s']| |]; auto. apply IH; auto.
  - destruct (nth_error live k) as [b|]; auto. apply IH; auto.
Qed.
End Wrap.
