(** Lazy expressions in variables: statements and programs. *)
From Verif Require Import Base M_Stored S_Stored L_Stored.

Lemma upd_upd {T} (l : list T) i x y : upd (upd l i x) i y = upd l i y.
Proof. revert i. induction l as [|z l IH]; intros [|i]; cbn; try reflexivity. now rewrite IH. Qed.
Lemma upd_len {T} (l : list T) i x : length (upd l i x) = length l.
Proof. revert i. induction l as [|z l IH]; intros [|i]; cbn; auto. Qed.

Ltac perm := apply (Permutation_count_occ Nat.eq_dec); intros q_; cbn [flat_map app]; rewrite ?app_nil_r; repeat rewrite count_occ_app; lia.

Section Sim2.
Context {V : Type}.
Notation world := (world V). Notation ideal := (ideal V). Notation obj := (obj V). Notation tree := (tree V).
Notation vars := (list (option obj)).
Implicit Types (m : mem (V := V)) (vs : vars) (s : ideal) (o : obj) (t : tree) (G P : list nat).

(** ** the end of temporaries *)
Lemma block_upd m b x c : block (upd m b x) c = if Nat.eqb b c then (if Nat.ltb b (length m) then x else None) else block m c.
Proof.
  unfold block. destruct (Nat.eqb_spec b c) as [<-|H]; [|now rewrite nth_upd_other by exact H]. destruct (Nat.ltb_spec b (length m)) as [H|H].
  - rewrite nth_upd_same by exact H. now destruct x.
  - rewrite (proj2 (nth_error_None _ _)); [reflexivity|]. rewrite upd_len. exact H.
Qed.
Lemma free_one G P vs m s b : Inv G (b :: P) vs m s -> exists m', free b m = Some m' /\ Inv G P vs m' s /\ forall c l, c <> b -> block m c = Some l -> block m' c = Some l.
Proof.
  intros I. assert (Hb : block m b <> None) by (apply (I_live _ _ _ _ _ I); apply in_or_app; right; now left). unfold free. destruct (block m b) as [l|] eqn:Eb; [|congruence]. exists (upd m b None). split; [reflexivity|].
  assert (K : forall c l, c <> b -> block m c = Some l -> block (upd m b None) c = Some l). { intros c l0 Hc E. rewrite block_upd. destruct (Nat.eqb_spec b c); [congruence|exact E]. }
  split; [|exact K]. destruct I as [I1 I2 I3 I4 I5]. assert (ND : ~ In b (owns vs ++ P) /\ NoDup (owns vs ++ P)). { apply NoDup_remove in I4. tauto. } destruct ND as [N1 N2]. rewrite in_app_iff in N1.
  constructor; auto.
  - intros x o k E1 E2. specialize (I3 x o k E1 E2). destruct k as [[|] [g l1|t|y]]; cbn in *; auto.
    + destruct I3 as (c & -> & F1 & F2). exists c. split; [reflexivity|]. split; [exact F1|]. apply K; [|exact F2]. intros ->. apply N1. left. apply (owns_in vs x (OOwn b)); [unfold var; now rewrite E1|now left].
    + destruct I3 as (o' & -> & F1 & F2). exists o'. split; [reflexivity|]. split; [|exact F2]. rewrite <- (app_nil_r G). apply (proj1 (orel_change G [] s s vs vs m _ (later_refl s) ltac:(
        intros z u q c l2 _ Ez Hc Ec; split; [exact Ez|]; apply K; [intros ->; apply N1; left; now apply (owns_in vs z q)|exact Ec]))); [exact F1|].
      intros c l2 Hc Ec. apply K; [|exact Ec]. intros ->. apply N1. left. apply (owns_in vs x o'); [unfold var; now rewrite E1|exact Hc].
  - intros c. rewrite block_upd. destruct (Nat.eqb_spec b c) as [<-|Hc].
    + rewrite (proj2 (Nat.ltb_lt _ _) (block_len _ _ _ Eb)). rewrite in_app_iff. split; [congruence|tauto].
    + rewrite I5. rewrite !in_app_iff. cbn. intuition congruence.
Qed.
Lemma free_rel G P vs s : forall (l : list nat) m, Inv G (l ++ P) vs m s -> exists m', free_all l m = Some m' /\ Inv G P vs m' s /\ forall c d, ~ In c l -> block m c = Some d -> block m' c = Some d.
Proof.
  induction l as [|b l IH]; intros m I; cbn in *; [exists m; auto|]. destruct (free_one _ _ _ _ _ _ I) as (m1 & -> & I1 & K1). destruct (IH m1 I1) as (m2 & -> & I2 & K2). exists m2. split; [reflexivity|]. split; [exact I2|].
  intros c d H E. apply K2; [tauto|]. apply K1; [intros ->; tauto|exact E].
Qed.
(** an object that outlives them *)
Lemma free_keeps G P vs s (l : list nat) m o t : Inv G (l ++ owned o ++ P) vs m s -> orel G s vs m o t -> exists m', free_all l m = Some m' /\ Inv G (owned o ++ P) vs m' s /\ orel G s vs m' o t.
Proof.
  intros I R. destruct (free_rel G _ vs s l m I) as (m' & E & I' & K). exists m'. split; [exact E|]. split; [exact I'|]. pose proof (I_dup _ _ _ _ _ I) as D.
  assert (D1 : forall c, In c l -> ~ In c (owns vs) /\ ~ In c (owned o)).
  { intros c Hc. split; intros Hq.
    - clear - D Hc Hq. induction (owns vs) as [|a w IH]; [contradiction|]. inversion D as [|? ? N D']; subst. destruct Hq as [->|Hq]; [apply N; apply in_or_app; right; apply in_or_app; now left|now apply IH].
    - assert (D2 : NoDup (l ++ owned o ++ P)) by (clear - D; induction (owns vs) as [|a w IH]; [exact D|]; inversion D; subst; auto). clear - D2 Hc Hq. induction l as [|a w IH]; [contradiction|]. inversion D2 as [|? ? N D']; subst. destruct Hc as [->|Hc]; [apply N; apply in_or_app; right; apply in_or_app; now left|now apply IH]. }
  rewrite <- (app_nil_r G). apply (proj1 (orel_change G [] s s vs vs m m' (later_refl s) ltac:(
    intros z u q c l2 _ Ez Hc Ec; split; [exact Ez|]; apply K; [intros Hl; apply (proj1 (D1 c Hl)); now apply (owns_in vs z q)|exact Ec]))); [exact R|].
  intros c l2 Hc Ec. apply K; [|exact Ec]. intros Hl. now apply (proj2 (D1 c Hl)).
Qed.

(** ** a new variable *)
Lemma owns_app vs o : owns (vs ++ [Some o]) = owns vs ++ owned o.
Proof. unfold owns. rewrite flat_map_app. cbn. now rewrite app_nil_r. Qed.
Lemma later_push s n k : later s (Ideal n (i_var s ++ [k])).
Proof. intros x a q E. exists a, q. cbn. rewrite nth_error_app1 by (apply nth_error_Some; congruence). split; [exact E|]. split; destruct q; cbn; auto. Qed.
Lemma var_push vs q x o : var vs x = Some o -> var (vs ++ [q]) x = Some o.
Proof. unfold var. destruct (nth_error vs x) as [[r|]|] eqn:E; try discriminate. intros [= ->]. rewrite nth_error_app1 by (apply nth_error_Some; congruence). now rewrite E. Qed.
Lemma orel_push G G' s vs m o t n k q : orel G s vs m o t -> orel (G ++ G') (Ideal n (i_var s ++ [k])) (vs ++ [q]) m o t.
Proof. intros R. apply (proj1 (orel_change G G' s _ vs _ m m (later_push s n k) (fun z u r c l _ E _ Ec => conj (var_push _ _ _ _ E) Ec))); auto. Qed.
Lemma Inv_push G G' vs m s o k n : Inv G (owned o) vs m s -> length (G ++ G') = n -> vrel (G ++ G') (Ideal n (i_var s ++ [(true, k)])) (vs ++ [Some o]) m (length vs) (Some o) (true, k) ->
  Inv (G ++ G') [] (vs ++ [Some o]) m (Ideal n (i_var s ++ [(true, k)])).
Proof.
  intros [I1 I2 I3 I4 I5] Hn H. constructor; cbn [i_var i_next].
  - rewrite !app_length. cbn. lia.
  - exact Hn.
  - intros x q r E1 E2. destruct (Nat.ltb_spec x (length vs)) as [Hx|Hx].
    + rewrite nth_error_app1 in E1 by exact Hx. rewrite nth_error_app1 in E2 by lia. specialize (I3 x q r E1 E2). destruct r as [[|] [g l1|t|y]]; cbn in *; auto.
      * destruct I3 as (c & F0 & F1 & F2). exists c. split; [exact F0|]. split; [|exact F2]. rewrite nth_error_app1; [exact F1|]. apply nth_error_Some. congruence.
      * destruct I3 as (o' & F0 & F1 & F2). exists o'. split; [exact F0|]. split; [now apply orel_push|exact F2].
      * destruct I3 as (F0 & F1 & a & k' & F2 & F3). split; [exact F0|]. split; [exact F1|]. exists a, k'. split; [|exact F3]. rewrite nth_error_app1; [exact F2|]. apply nth_error_Some. congruence.
    + rewrite nth_error_app2 in E1 by exact Hx. rewrite nth_error_app2 in E2 by lia. rewrite <- I1 in E2. destruct (x - length vs)%nat as [|d] eqn:Ed; [|destruct d; discriminate]. cbn in E1, E2. injection E1 as <-. injection E2 as <-. assert (x = length vs) as -> by lia. exact H.
  - rewrite owns_app, app_nil_r. exact I4.
  - intros b. rewrite owns_app, app_nil_r. apply I5.
Qed.
Lemma nth_last {T} (l : list T) x : nth_error (l ++ [x]) (length l) = Some x.
Proof. rewrite nth_error_app2, Nat.sub_diag by lia. reflexivity. Qed.
Lemma push_held G vs m s o t : Inv G (owned o) vs m s -> orel G s vs m o t -> below (length vs) o -> held o -> exists G', Inv G' [] (vs ++ [Some o]) m (fresh s t).
Proof.
  intros I R B [T|[b ->]].
  - exists (G ++ []). assert (E : fresh s t = Ideal (i_next s) (i_var s ++ [(true, KTree t)])) by (inversion R; subst; try reflexivity; contradiction). rewrite E. apply Inv_push; [exact I|rewrite app_nil_r; apply (I_gen _ _ _ _ _ I)|]. cbn. exists o. split; [reflexivity|]. split; [now apply orel_push|]. auto.
  - inversion R as [| | |b' l E1| |]; subst. exists (G ++ [b]). cbn. apply Inv_push; [exact I|rewrite app_length, (I_gen _ _ _ _ _ I); cbn; lia|]. cbn. exists b. split; [reflexivity|]. split; [|exact E1]. rewrite <- (I_gen _ _ _ _ _ I). apply nth_last.
Qed.

(** ** the end of a variable, and a new storage for an array *)
Definition dead s y k : ideal := Ideal (i_next s) (upd (i_var s) y (false, k)).
Lemma owns_split vs y o : nth_error vs y = Some (Some o) -> Permutation (owns vs) (owns (upd vs y None) ++ owned o).
Proof.
  revert y. induction vs as [|q vs IH]; intros [|y] E; cbn in E; try discriminate; [injection E as ->; cbn; perm|]. specialize (IH y E). unfold owns in *. cbn [upd flat_map]. rewrite <- app_assoc. now apply Permutation_app_head.
Qed.
Lemma owns_none vs y o : nth_error vs y = Some None -> Permutation (owns (upd vs y (Some o))) (owns vs ++ owned o).
Proof.
  revert y. induction vs as [|q vs IH]; intros [|y] E; cbn in E; try discriminate; [injection E as ->; cbn; perm|]. specialize (IH y E). unfold owns in *. cbn [upd flat_map]. rewrite <- app_assoc. now apply Permutation_app_head.
Qed.
Lemma kill_rel G P vs m s y o k : Inv G P vs m s -> nth_error (i_var s) y = Some (true, k) -> nth_error vs y = Some (Some o) -> Inv G (owned o ++ P) (upd vs y None) m (dead s y k).
Proof.
  intros [I1 I2 I3 I4 I5] Ek Eo. assert (Ly : (y < length (i_var s))%nat) by (apply nth_error_Some; congruence).
  assert (L : later s (dead s y k)). { intros x a q E. cbn. destruct (Nat.eq_dec y x) as [<-|Hx]; [rewrite nth_upd_same by exact Ly; exists false, k; rewrite Ek in E; injection E as <- <-; split; [reflexivity|]; split; destruct k; cbn; auto; discriminate|]. rewrite nth_upd_other by exact Hx. exists a, q. split; [exact E|]. split; destruct q; cbn; auto. }
  assert (KL : kept_lazy s (dead s y k) vs m (upd vs y None) m). { intros x t q b l E Ev Hb Eb. cbn in E. destruct (Nat.eq_dec y x) as [<-|Hx]; [rewrite nth_upd_same in E by exact Ly; discriminate|]. split; [|exact Eb]. unfold var in *. rewrite nth_upd_other by exact Hx. exact Ev. }
  pose proof (owns_split vs y o Eo) as HP. assert (HQ : Permutation (owns vs ++ P) (owns (upd vs y None) ++ owned o ++ P)) by (rewrite app_assoc; now apply Permutation_app_tail).
  constructor; cbn [i_var i_next dead].
  - rewrite !upd_len. exact I1.
  - exact I2.
  - intros x q r E1 E2. destruct (Nat.eq_dec y x) as [<-|Hx].
    + rewrite nth_upd_same in E1 by lia. rewrite nth_upd_same in E2 by exact Ly. injection E1 as <-. injection E2 as <-. reflexivity.
    + rewrite nth_upd_other in E1 by exact Hx. rewrite nth_upd_other in E2 by exact Hx. specialize (I3 x q r E1 E2). destruct r as [[|] [g l1|t|z]]; cbn in *; auto.
      * destruct I3 as (o' & F0 & F1 & F2). exists o'. split; [exact F0|]. split; [|exact F2]. rewrite <- (app_nil_r G). now apply (proj1 (orel_change G [] s _ vs _ m m L KL)).
      * destruct I3 as (F0 & F1 & a & k' & F2 & F3). split; [exact F0|]. split; [exact F1|]. destruct (L z a k' F2) as (a2 & k2 & F4 & F5 & _). exists a2, k2. split; [exact F4|]. destruct k', k2; cbn in *; auto; contradiction.
  - apply (Permutation_NoDup HQ I4).
  - intros b. rewrite I5. split; apply Permutation_in; [exact HQ|now symmetry].
Qed.
Lemma revive_rel G P vs m s y b g0 l0 l : Inv G (b :: P) vs m s -> nth_error (i_var s) y = Some (false, KArr g0 l0) -> block m b = Some l ->
  Inv (G ++ [b]) P (upd vs y (Some (OOwn b))) m (put s y (i_next s) l (S (i_next s))).
Proof.
  intros I Ek Eb. destruct (slot _ _ _ _ _ _ _ _ I Ek) as (o0 & Eo & ->). destruct I as [I1 I2 I3 I4 I5]. assert (Ly : (y < length (i_var s))%nat) by (apply nth_error_Some; congruence).
  assert (L : later s (put s y (i_next s) l (S (i_next s)))). { intros x a q E. cbn. destruct (Nat.eq_dec y x) as [<-|Hx]; [rewrite nth_upd_same by exact Ly; exists true, (KArr (i_next s) l); rewrite Ek in E; injection E as <- <-; cbn; auto|]. rewrite nth_upd_other by exact Hx. exists a, q. split; [exact E|]. split; destruct q; cbn; auto. }
  assert (KL : kept_lazy s (put s y (i_next s) l (S (i_next s))) vs m (upd vs y (Some (OOwn b))) m). { intros x t q c l1 E Ev Hb Ec. cbn in E. destruct (Nat.eq_dec y x) as [<-|Hx]; [rewrite nth_upd_same in E by exact Ly; discriminate|]. split; [|exact Ec]. unfold var in *. rewrite nth_upd_other by exact Hx. exact Ev. }
  pose proof (owns_none vs y (OOwn b) Eo) as HP. assert (HQ : Permutation (owns vs ++ b :: P) (owns (upd vs y (Some (OOwn b))) ++ P)) by (rewrite HP; rewrite <- app_assoc; reflexivity).
  constructor; cbn [i_var i_next put].
  - rewrite !upd_len. exact I1.
  - rewrite app_length. cbn. lia.
  - intros x q r E1 E2. destruct (Nat.eq_dec y x) as [<-|Hx].
    + rewrite nth_upd_same in E1 by lia. rewrite nth_upd_same in E2 by exact Ly. injection E1 as <-. injection E2 as <-. exists b. split; [reflexivity|]. split; [rewrite <- I2; apply nth_last|exact Eb].
    + rewrite nth_upd_other in E1 by exact Hx. rewrite nth_upd_other in E2 by exact Hx. specialize (I3 x q r E1 E2). destruct r as [[|] [g l1|t|z]]; cbn in *; auto.
      * destruct I3 as (c & F0 & F1 & F2). exists c. split; [exact F0|]. split; [|exact F2]. rewrite nth_error_app1; [exact F1|]. apply nth_error_Some. congruence.
      * destruct I3 as (o' & F0 & F1 & F2). exists o'. split; [exact F0|]. split; [|exact F2]. now apply (proj1 (orel_change G [b] s _ vs _ m m L KL)).
      * destruct I3 as (F0 & F1 & a & k' & F2 & F3). split; [exact F0|]. split; [exact F1|]. destruct (L z a k' F2) as (a2 & k2 & F4 & F5 & _). exists a2, k2. split; [exact F4|]. destruct k', k2; cbn in *; auto; contradiction.
  - apply (Permutation_NoDup HQ I4).
  - intros c. rewrite I5. split; apply Permutation_in; [exact HQ|now symmetry].
Qed.
(** writing to the storage of an array *)
Lemma own_unique G P vs m s x y o b : Inv G P vs m s -> nth_error vs x = Some (Some o) -> In b (owned o) -> nth_error vs y = Some (Some (OOwn b)) -> x = y.
Proof.
  intros I E1 Hb E2. destruct (Nat.eq_dec x y) as [->|Hxy]; [reflexivity|exfalso]. pose proof (I_dup _ _ _ _ _ I) as D. rewrite (owns_split vs y _ E2) in D. cbn in D. rewrite <- app_assoc in D. apply NoDup_remove_2 in D. apply D. apply in_or_app. left. unfold owns. apply in_flat_map. exists (Some o). split; [|exact Hb]. apply nth_error_In with x. now rewrite nth_upd_other by congruence.
Qed.
Lemma write_gen G P vs m s y g l l' b : Inv G P vs m s -> nth_error (i_var s) y = Some (true, KArr g l) -> nth_error vs y = Some (Some (OOwn b)) -> block m b = Some l -> nth_error G g = Some b ->
  Inv G P vs (upd m b (Some l')) (put s y g l' (i_next s)) /\ forall o t, orel G s vs m o t -> ~ In b (owned o) -> orel G (put s y g l' (i_next s)) vs (upd m b (Some l')) o t.
Proof.
  intros I Ek Eo Eb Eg. assert (Ly : (y < length (i_var s))%nat) by (apply nth_error_Some; congruence). pose proof (block_len _ _ _ Eb) as Lb.
  assert (L : later s (put s y g l' (i_next s))). { intros x a q E. cbn. destruct (Nat.eq_dec y x) as [<-|Hx]; [rewrite nth_upd_same by exact Ly; exists true, (KArr g l'); rewrite Ek in E; injection E as <- <-; cbn; auto|]. rewrite nth_upd_other by exact Hx. exists a, q. split; [exact E|]. split; destruct q; cbn; auto. }
  assert (B : forall c d, c <> b -> block m c = Some d -> block (upd m b (Some l')) c = Some d). { intros c d Hc E. rewrite block_upd. destruct (Nat.eqb_spec b c); [congruence|exact E]. }
  assert (KL : kept_lazy s (put s y g l' (i_next s)) vs m vs (upd m b (Some l'))).
  { intros x t q c l1 E Ev Hb Ec. split; [exact Ev|]. apply B; [|exact Ec]. intros ->. unfold var in Ev. destruct (nth_error vs x) as [[r|]|] eqn:Ex; try discriminate. injection Ev as ->. pose proof (own_unique _ _ _ _ _ _ _ _ _ I Ex Hb Eo) as ->. cbn in E. rewrite nth_upd_same in E by exact Ly. discriminate. }
  assert (R : forall o t, orel G s vs m o t -> ~ In b (owned o) -> orel G (put s y g l' (i_next s)) vs (upd m b (Some l')) o t).
  { intros o t Ro Ho. rewrite <- (app_nil_r G). apply (proj1 (orel_change G [] s _ vs _ m _ L KL)); [exact Ro|]. intros c d Hc Ec. apply B; [congruence|exact Ec]. }
  split; [|exact R]. pose proof I as [I1 I2 I3 I4 I5]. constructor; cbn [i_var i_next put].
  - rewrite upd_len. exact I1.
  - exact I2.
  - intros x q r E1 E2. destruct (Nat.eq_dec y x) as [<-|Hx].
    + rewrite nth_upd_same in E2 by exact Ly. injection E2 as <-. exists b. split; [congruence|]. split; [exact Eg|]. rewrite block_upd, Nat.eqb_refl, (proj2 (Nat.ltb_lt _ _) Lb). reflexivity.
    + rewrite nth_upd_other in E2 by exact Hx. specialize (I3 x q r E1 E2). destruct r as [[|] [g1 l1|t|z]]; cbn in *; auto.
      * destruct I3 as (c & -> & F1 & F2). exists c. split; [reflexivity|]. split; [exact F1|]. apply B; [|exact F2]. intros ->. apply Hx. symmetry. apply (own_unique _ _ _ _ _ x y (OOwn b) b I E1); [now left|exact Eo].
      * destruct I3 as (o' & -> & F1 & F2). exists o'. split; [reflexivity|]. split; [|exact F2]. apply R; [exact F1|]. intros Hb. apply Hx. symmetry. apply (own_unique _ _ _ _ _ x y o' b I E1 Hb Eo).
      * destruct I3 as (F0 & F1 & a & k' & F2 & F3). split; [exact F0|]. split; [exact F1|]. destruct (L z a k' F2) as (a2 & k2 & F4 & F5 & _). exists a2, k2. split; [exact F4|]. destruct k', k2; cbn in *; auto; contradiction.
  - exact I4.
  - intros c. rewrite block_upd. destruct (Nat.eqb_spec b c) as [<-|Hc]; [|apply I5]. rewrite (proj2 (Nat.ltb_lt _ _) Lb). rewrite <- I5, Eb. split; discriminate.
Qed.
End Sim2.
