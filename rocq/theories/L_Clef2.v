(** Evaluation ends with a result whenever the expression has a value. *)
From Verif Require Import Base M_Perm M_IdxMap M_Loops M_Assign M_Clef S_Clef L_Clef.

Section L.
Context {V : Type}.
Notation node := (node V). Notation heap := (heap V). Notation env := (@env V).
Implicit Types (x c : node) (h : heap) (e : env) (pairs : list (nat * node)).

(** ** no references to temporaries *)
Lemma operation_no_tmp h ev t cs x : operation h ev t cs = Ret x -> Forall no_temporary cs -> no_temporary x.
Proof.
  intros H HF. unfold operation in H.
  assert (HE : x = NExpr t cs -> no_temporary x) by (intros ->; cbn [no_temporary]; now apply fold_and_Forall).
  assert (HV : forall v, x = NVal v -> no_temporary x) by (intros v ->; exact I).
  destruct t; [|destruct (is_any_lazy cs) as [[|]|] eqn:EL; try discriminate H; try (injection H as <-; auto; fail)..].
  - destruct cs as [|c [|? ?]]; try discriminate H; try (destruct c; discriminate H).
    assert (Hc : x = c) by (destruct c; try discriminate H; now injection H as <-). subst x. now inversion HF.
  - destruct cs as [|f args]; [discriminate|]. apply bind_ret in H. destruct H as (fv & _ & H). apply bind_ret in H. destruct H as (vs & _ & H).
    apply bind_ret in H. destruct H as (r & _ & H). injection H as <-. exact I.
  - destruct cs as [|f args]; [discriminate|]. apply bind_ret in H. destruct H as (fv & _ & H). apply bind_ret in H. destruct H as (vs & _ & H).
    apply bind_ret in H. destruct H as (r & _ & H). injection H as <-. exact I.
  - destruct cs as [|a [|b' [|? ?]]]; try discriminate. apply bind_ret in H. destruct H as (fv & _ & H). apply bind_ret in H. destruct H as (vs & _ & H).
    apply bind_ret in H. destruct H as (r & _ & H). injection H as <-. exact I.
  - destruct cs as [|a [|? ?]]; try discriminate. apply bind_ret in H. destruct H as (fv & _ & H). apply bind_ret in H. destruct H as (vs & _ & H).
    injection H as <-. exact I.
  - destruct cs as [|a [|b' [|c [|? ?]]]]; try discriminate. apply bind_ret in H. destruct H as (fv & _ & H). apply bind_ret in H. destruct H as (vs & _ & H).
    apply bind_ret in H. destruct H as (r & _ & H). apply bind_ret in H. destruct H as (q & _ & H). injection H as <-. exact I.
  - destruct cs as [|[v|r|n|t l|b' [|n [|n' is]]] [|d [|? ?]]]; try discriminate. apply bind_ret in H. destruct H as (fv & _ & H). apply bind_ret in H. destruct H as (vs & _ & H).
    apply bind_ret in H. destruct H as (r & _ & H). injection H as <-. exact I.
Qed.
Lemma eval_no_tmp k : forall h o p pairs x x', eval k h (Some o) p pairs x = Ret x' -> no_temporary x ->
  (forall n r, In (n, r) pairs -> no_temporary r) -> no_temporary x'.
Proof.
  induction k as [|k IH]; intros h o p pairs x x' H N HP; [discriminate|]. cbn [eval] in H. destruct x as [v|r|n|t l|b is].
  - injection H as <-. exact I.
  - injection H as <-. exact N.
  - destruct (position_of pairs n =? -1); [injection H as <-; exact I|].
    destruct (nth_error pairs (Z.to_nat (position_of pairs n))) as [[n' r]|] eqn:E; [|discriminate]. injection H as <-.
    apply nth_error_In in E. eauto.
  - apply bind_ret in H. destruct H as (cs & Hcs & H). apply sequence_ret in Hcs.
    cbn [no_temporary] in N. rewrite fold_and_Forall, Forall_forall in N.
    assert (HC : Forall2 (fun (_ : node) c' => no_temporary c') l cs).
    { eapply mapi_Forall2; [exact Hcs|]. intros j a b Hj Hb. cbn beta in Hb. apply IH in Hb; auto. apply N. eapply nth_error_In; eauto. }
    assert (HC' : Forall no_temporary cs) by (clear - HC; induction HC; constructor; auto).
    destruct (ev_lazy pairs (NExpr t l)) as [[|]|]; [| |discriminate].
    + injection H as <-. cbn [no_temporary]. now apply fold_and_Forall.
    + eapply operation_no_tmp; eauto.
  - apply bind_ret in H. destruct H as (b' & Hb & H). apply IH in Hb; auto.
    destruct b' as [v|r|n|t l|b' is']; try (injection H as <-; exact Hb; fail).
    apply bind_ret in H. destruct H as (v & _ & H). injection H as <-. exact I.
Qed.

(** ** plain values *)
Lemma plain_lazy (l : list node) : Forall is_plain l -> is_any_lazy l = Some false.
Proof.
  unfold is_any_lazy. induction 1 as [|c l H HF IH]; [reflexivity|]. cbn [map any_of]. rewrite IH. destruct c; try destruct H; reflexivity.
Qed.
Lemma plain_read h e c : is_plain c -> read h c = val true h e c.
Proof. destruct c; intros H; try destruct H; reflexivity. Qed.
Lemma operation_complete h ev t cs vs v : t <> TSum -> Forall is_plain cs -> Forall2 (fun c u => read h c = Ret u) cs vs ->
  meaning (h_ops h) t vs = Ret v -> exists x, operation h ev t cs = Ret x /\ is_plain x.
Proof.
  intros Ht HP HR HM. assert (EL := plain_lazy cs HP).
  assert (HS : sequence (map (read h) cs) = Ret vs) by (apply sequence_of; now rewrite Forall2_map_l).
  unfold operation. destruct t; [|rewrite EL..|now elim Ht].
  - destruct vs as [|x [|? ?]]; try discriminate HM. inversion HR as [|c ? ? ? Hc HR']; subst. inversion HR'; subst. inversion HP; subst.
    exists c. destruct c; try discriminate Hc; split; auto.
  - destruct vs as [|f args]; [discriminate HM|]. inversion HR as [|c ? cs' ? Hc HR']; subst. rewrite Hc. cbn [bind].
    rewrite (sequence_of (map (read h) cs') args) by (now rewrite Forall2_map_l). cbn [bind meaning] in HM |- *. rewrite HM. eexists; split; [reflexivity|exact I].
  - destruct vs as [|f args]; [discriminate HM|]. inversion HR as [|c ? cs' ? Hc HR']; subst. rewrite Hc. cbn [bind].
    rewrite (sequence_of (map (read h) cs') args) by (now rewrite Forall2_map_l). cbn [bind meaning] in HM |- *. rewrite HM. eexists; split; [reflexivity|exact I].
  - destruct vs as [|x [|y [|? ?]]]; try discriminate HM. inversion HR as [|c ? cs' ? Hc HR']; subst. inversion HR' as [|c2 ? ? ? Hc2 HR2]; subst. inversion HR2; subst.
    rewrite Hc, Hc2. cbn [bind meaning] in HM |- *. rewrite HM. eexists; split; [reflexivity|exact I].
  - destruct vs as [|x [|? ?]]; try discriminate HM. inversion HR as [|c ? cs' ? Hc HR']; subst. inversion HR'; subst.
    rewrite Hc. cbn [bind meaning] in HM |- *. rewrite HM. eexists; split; [reflexivity|exact I].
  - destruct vs as [|x [|y [|z [|? ?]]]]; try discriminate HM. inversion HR as [|c ? cs' ? Hc HR']; subst. inversion HR' as [|c2 ? ? ? Hc2 HR2]; subst.
    inversion HR2 as [|c3 ? ? ? Hc3 HR3]; subst. inversion HR3; subst.
    rewrite Hc, Hc2, Hc3. cbn [bind meaning] in HM |- *. apply bind_ret in HM. destruct HM as (q & Hq & HM). rewrite Hq. eexists; split; [reflexivity|exact I].
Qed.

(** ** evaluating a list of children *)
Lemma mapi_sequence {A B} (f : nat -> A -> out B) (Q : A -> B -> Prop) i l :
  (forall j a, nth_error l j = Some a -> exists r, f (i + j)%nat a = Ret r /\ Q a r) ->
  exists rs, sequence (mapi_from f i l) = Ret rs /\ Forall2 Q l rs.
Proof.
  revert i; induction l as [|a l IH]; intros i H; [exists []; split; [reflexivity|constructor]|].
  destruct (H 0%nat a eq_refl) as (r & Hr & HQ). rewrite Nat.add_0_r in Hr.
  destruct (IH (S i)) as (rs & Hrs & HF). { intros j c' Hj. destruct (H (S j) c' Hj) as (r' & Hr' & HQ'). exists r'. split; auto. replace (S i + j)%nat with (i + S j)%nat by lia. auto. }
  exists (r :: rs). cbn [mapi_from sequence]. rewrite Hr, Hrs. split; [reflexivity|constructor; auto].
Qed.
Lemma any_of_map (A : Type) (f : A -> option bool) (g : A -> bool) l : Forall (fun a => f a = Some (g a)) l -> any_of (map f l) = Some (existsb g l).
Proof. induction 1 as [|a l H HF IH]; [reflexivity|]. cbn [map any_of existsb]. now rewrite H, IH. Qed.

Definition all_bound (pairs : list (nat * node)) (x : node) : bool := forallb (fun n => existsb (Nat.eqb n) (keys pairs)) (free x).
Lemma all_bound_iff pairs x : all_bound pairs x = true <-> forall n, In n (free x) -> In n (keys pairs).
Proof.
  unfold all_bound. rewrite forallb_forall. split; intros H n Hn; specialize (H n Hn).
  - apply existsb_exists in H. destruct H as (m & Hm & E). apply Nat.eqb_eq in E. now subst.
  - apply existsb_exists. exists n. split; auto. apply Nat.eqb_refl.
Qed.
Lemma all_bound_expr pairs t l : all_bound pairs (NExpr t l) = forallb (all_bound pairs) l.
Proof.
  unfold all_bound. cbn [free]. induction l as [|c l IH]; [reflexivity|]. cbn [flat_map forallb]. rewrite forallb_app. now rewrite <- IH.
Qed.
Lemma ev_lazy_ph pairs n : NoDup (keys pairs) -> ev_lazy pairs (NPh n) = Some (negb (all_bound pairs (NPh n))).
Proof.
  intros ND. cbn [ev_lazy]. f_equal. destruct (key_cases pairs n) as [(i & r & Hi)|Hn].
  - rewrite (position_in pairs i n r ND Hi). destruct (Z.eqb_spec (Z.of_nat i) (-1)); [lia|].
    assert (E : all_bound pairs (NPh n) = true); [|now rewrite E]. apply all_bound_iff. intros m [<-|[]]. apply in_map_iff. exists (n, r). split; auto. eapply nth_error_In; eauto.
  - rewrite position_not_in by auto. assert (E : all_bound pairs (NPh n) = false); [|now rewrite E].
    destruct (all_bound pairs (NPh n)) eqn:E; auto. rewrite all_bound_iff in E. elim Hn. apply E. now left.
Qed.
Lemma negb_forallb {A} (g : A -> bool) l : existsb (fun a => negb (g a)) l = negb (forallb g l).
Proof. induction l as [|a l IH]; [reflexivity|]. cbn [existsb forallb]. rewrite IH. now destruct (g a). Qed.

(** what is known of the result of an evaluation *)
Record good (pairs : list (nat * node)) (x x' : node) : Prop := Good {
  g_height : (height x' <= height x)%nat;
  g_free : forall n, In n (free x') <-> In n (free x) /\ ~ In n (keys pairs);
  g_plain : all_bound pairs x = true -> is_plain x';
  g_lazy : all_bound pairs x = false -> ~ is_plain x' }.
Definition all_plain (pairs : list (nat * node)) : Prop := forall n r, In (n, r) pairs -> is_plain r.

Lemma good_leaf pairs x r : is_plain x -> good pairs x (NRef r).
Proof.
  intros H. destruct x; try destruct H; (split; [cbn [height]; lia|intros n; cbn [free]; split; [intros []|intros [[] _]]|intros _; exact I|discriminate]).
Qed.
Lemma plain_free x : is_plain x -> free x = [] /\ height x = 1%nat.
Proof. destruct x; intros H; try destruct H; auto. Qed.
Lemma eval_ph k h own p pairs n : NoDup (keys pairs) -> all_plain pairs -> exists x', eval (S k) h own p pairs (NPh n) = Ret x' /\ good pairs (NPh n) x' /\ (is_plain x' \/ x' = NPh n).
Proof.
  intros ND HP. cbn [eval]. destruct (key_cases pairs n) as [(i & r & Hi)|Hn].
  - rewrite (position_in pairs i n r ND Hi). destruct (Z.eqb_spec (Z.of_nat i) (-1)); [lia|]. rewrite Nat2Z.id, Hi. exists r. split; [reflexivity|].
    apply nth_error_In in Hi. pose proof (HP _ _ Hi) as Hr. destruct (plain_free r Hr) as [Ef Eh].
    assert (Hk : In n (keys pairs)) by (apply in_map_iff; exists (n, r); auto). split; [|now left]. split.
    + rewrite Eh. reflexivity.
    + rewrite Ef. intros m. cbn [free]. split; [intros []|]. intros [[<-|[]] Hm]. now elim Hm.
    + auto.
    + intros E. assert (all_bound pairs (NPh n) = true) by (apply all_bound_iff; intros m [<-|[]]; auto). congruence.
  - rewrite position_not_in by auto. rewrite Z.eqb_refl. exists (NPh n). split; [reflexivity|]. split; [|now right]. split.
    + reflexivity.
    + intros m. cbn [free]. split; [intros [<-|[]]; split; [now left|auto]|intros [H _]; auto].
    + intros E. rewrite all_bound_iff in E. elim Hn. apply E. now left.
    + intros _ [].
Qed.
Lemma good_expr pairs t l cs : Forall2 (good pairs) l cs -> all_bound pairs (NExpr t l) = false -> good pairs (NExpr t l) (NExpr t cs).
Proof.
  intros HF E. split.
  - cbn [height]. apply le_n_S. clear E. induction HF as [|c c' l cs H HF IH]; [reflexivity|]. cbn [map fold_right]. destruct H as [H _ _ _]. lia.
  - intros n. cbn [free]. clear E. induction HF as [|c c' l cs H HF IH]; cbn [flat_map]; [split; [intros []|intros [[] _]]|].
    rewrite !in_app_iff, IH. destruct H as [_ H _ _]. rewrite H. tauto.
  - congruence.
  - intros _ [].
Qed.
Lemma good_value pairs x x' : all_bound pairs x = true -> is_plain x' -> (1 <= height x)%nat -> good pairs x x'.
Proof.
  intros E H Hh. destruct (plain_free x' H) as [Ef Eh]. split.
  - lia.
  - intros n. rewrite Ef. rewrite all_bound_iff in E. split; [intros []|]. intros [Hn Hk]. elim Hk. auto.
  - auto.
  - congruence.
Qed.
Lemma height_pos x : (1 <= height x)%nat. Proof. destruct x; cbn [height]; lia. Qed.
Lemma height_child t l c : In c l -> (height c < height (NExpr t l))%nat.
Proof. intros H. cbn [height]. apply Nat.lt_succ_r. induction l as [|d l IH]; [destruct H|]. cbn [map fold_right]. destruct H as [->|H]; [lia|specialize (IH H); lia]. Qed.
Lemma children_values h e l vs : sequence (map (val true h e) l) = Ret vs -> forall c, In c l -> exists v, val true h e c = Ret v.
Proof.
  intros H. apply sequence_ret in H. rewrite Forall2_map_l in H. intros c Hc. apply In_nth_error in Hc. destruct Hc as [i Hi].
  destruct (Forall2_nth_l _ _ _ _ _ H Hi) as (v & _ & Hv). eauto.
Qed.
Lemma located_child h own p t l j a : located h own p (NExpr t l) -> nth_error l j = Some a -> located h own (p ++ [j]) a.
Proof. intros HL Hj o Ho. destruct (HL o Ho) as (root & Hr & Hp). exists root. split; [auto|]. rewrite subnode_app, Hp. cbn [subnode]. now rewrite Hj. Qed.

(** the step for an operator node whose children evaluate well *)
Lemma eval_operator k h own p pairs t l e v (Q : node -> Prop) : t <> TSum -> bf pairs (NExpr t l) -> located h own p (NExpr t l) ->
  val true h (bnd true h e pairs) (NExpr t l) = Ret v ->
  (forall j a u, nth_error l j = Some a -> val true h (bnd true h e pairs) a = Ret u ->
     exists a', eval k h own (p ++ [j]) pairs a = Ret a' /\ good pairs a a' /\ Q a') ->
  Forall (fun a => ev_lazy pairs a = Some (negb (all_bound pairs a))) l ->
  exists x', eval (S k) h own p pairs (NExpr t l) = Ret x' /\ good pairs (NExpr t l) x' /\ (is_plain x' \/ exists cs, x' = NExpr t cs /\ Forall Q cs).
Proof.
  intros Ht B HL HV HC HZ. cbn [eval]. rewrite val_expr in HV.
  assert (Es : sum_shape t l = None) by (destruct t; try reflexivity; now elim Ht). rewrite Es in HV.
  apply bind_ret in HV. destruct HV as (vs & Hvs & HM).
  destruct (mapi_sequence (fun i c => eval k h own (p ++ [i]) pairs c) (fun a a' => good pairs a a' /\ Q a' /\ sim h pairs a' a) 0 l) as (cs & Ecs & HF).
  { intros j a Hj. destruct (children_values _ _ _ _ Hvs a) as (u & Hu); [eapply nth_error_In; eauto|].
    destruct (HC j a u Hj Hu) as (a' & Ha & HG & HQ). exists a'. split; [exact Ha|]. split; [auto|]. split; [auto|].
    eapply eval_sound; [exact Ha|eapply located_child; eauto|eapply bf_child; [exact B|eapply nth_error_In; eauto]]. }
  rewrite Ecs. cbn [bind ev_lazy]. rewrite (any_of_map _ _ (fun a => negb (all_bound pairs a))) by auto. rewrite negb_forallb, <- (all_bound_expr pairs t l).
  assert (HQ : Forall Q cs) by (clear - HF; induction HF as [|a a' l cs (_ & H & _) HF IH]; constructor; auto).
  assert (HG : Forall2 (good pairs) l cs) by (clear - HF; induction HF as [|a a' l cs (H & _ & _) HF IH]; constructor; auto).
  destruct (all_bound pairs (NExpr t l)) eqn:EB; cbn [negb].
  - assert (HP : Forall is_plain cs).
    { rewrite all_bound_expr in EB. clear - HG EB. induction HG as [|a a' l cs H HG IH]; constructor; cbn [forallb] in EB; apply andb_prop in EB; destruct EB; [now apply H|auto]. }
    destruct (operation_complete h (fun prs b => eval k h None [] prs b) t cs vs v Ht HP) as (x' & Hx & HPx); auto.
    { apply sequence_ret in Hvs. rewrite Forall2_map_l in Hvs. clear - Hvs HF HP. revert vs Hvs. induction HF as [|a a' l cs (_ & _ & HS) HF IH]; intros vs Hvs; inversion Hvs; subst; constructor.
      - inversion HP; subst. rewrite (plain_read h e) by auto. rewrite (sim_val _ _ _ _ HS). auto.
      - inversion HP; subst. auto. }
    exists x'. split; [exact Hx|]. split; [|now left]. apply good_value; auto using height_pos.
  - exists (NExpr t cs). split; [reflexivity|]. split; [now apply good_expr|]. right. eauto.
Qed.

(** ** expressions without function objects, any bindings *)
Lemma ev_lazy_ff pairs x : NoDup (keys pairs) -> function_free x -> ev_lazy pairs x = Some (negb (all_bound pairs x)).
Proof.
  intros ND. induction x as [v|r|n|t l IH|b is IH] using node_ind'; intros H; try reflexivity.
  - now apply ev_lazy_ph.
  - cbn [function_free] in H. rewrite fold_and_Forall in H. cbn [ev_lazy]. rewrite (any_of_map _ _ (fun a => negb (all_bound pairs a))).
    + now rewrite negb_forallb, <- (all_bound_expr pairs t l).
    + rewrite Forall_forall in IH, H |- *. auto.
  - destruct H.
Qed.
Lemma bf_ff pairs x : NoDup (keys pairs) -> all_plain pairs -> function_free x -> bf pairs x.
Proof.
  intros ND HP H. destruct (function_free_binders x H) as [E S]. split; [auto|]. split; [auto|]. rewrite E. split; [intros n []|].
  intros k r Hk. specialize (HP k r Hk). destruct r; try destruct HP; exact I.
Qed.
Lemma eval_complete_ff k : forall h own p pairs x e v, (height x <= k)%nat -> function_free x -> NoDup (keys pairs) -> all_plain pairs -> located h own p x ->
  val true h (bnd true h e pairs) x = Ret v -> exists x', eval k h own p pairs x = Ret x' /\ good pairs x x' /\ function_free x'.
Proof.
  induction k as [|k IH]; intros h own p pairs x e v Hh FF ND HP HL HV; [pose proof (height_pos x); lia|].
  destruct x as [u|r|n|t l|b is].
  - eexists. split; [reflexivity|]. split; [now apply good_leaf|exact I].
  - eexists. split; [reflexivity|]. split; [now apply good_leaf|exact I].
  - destruct (eval_ph k h own p pairs n ND HP) as (x' & Hx & HG & Hc). exists x'. split; [exact Hx|]. split; [exact HG|].
    destruct Hc as [Hc | ->]; [destruct x'; try destruct Hc; exact I|exact I].
  - pose proof FF as FF'. cbn [function_free] in FF. rewrite fold_and_Forall, Forall_forall in FF.
    assert (Ht : t <> TSum).
    { intros ->. rewrite val_expr in HV. destruct (sum_shape TSum l) as [[[b n] d]|] eqn:Es.
      - apply sum_shape_some in Es. destruct Es as [_ ->]. exact (FF _ (or_introl eq_refl)).
      - apply bind_ret in HV. destruct HV as (vs & _ & HM). discriminate HM. }
    destruct (eval_operator k h own p pairs t l e v function_free Ht) as (x' & Hx & HG & Hc); auto using bf_ff.
    + intros j a u Hj Hu. assert (Ha : In a l) by (eapply nth_error_In; eauto). apply (IH h own (p ++ [j]) pairs a e u); auto.
      * pose proof (height_child t l a Ha). lia.
      * eapply located_child; eauto.
    + rewrite Forall_forall. intros a Ha. apply ev_lazy_ff; auto.
    + exists x'. split; [exact Hx|]. split; [exact HG|]. destruct Hc as [Hc|(cs & -> & Hc)]; [destruct x'; try destruct Hc; exact I|].
      cbn [function_free]. now apply fold_and_Forall.
  - destruct FF.
Qed.

(** ** the set of placeholders of an expression *)
Lemma ph_bit_spec n z : ph_bit n = Some z -> forall m, Z.testbit z (Z.of_nat m) = Nat.eqb n m.
Proof.
  unfold ph_bit. destruct (n <? 64)%nat; [|discriminate]. intros H m. injection H as <-. rewrite Z.pow2_bits_eqb by lia.
  destruct (Nat.eqb_spec n m); destruct (Z.eqb_spec (Z.of_nat n) (Z.of_nat m)); auto; lia.
Qed.
Lemma ph_bit_ok n : (n < 64)%nat -> exists z, ph_bit n = Some z /\ 0 <= z.
Proof. intros H. unfold ph_bit. destruct (Nat.ltb_spec n 64); [|lia]. eexists; split; [reflexivity|]. apply Z.pow_nonneg. lia. Qed.
Definition bits (z : Z) (l : list nat) : Prop := 0 <= z /\ forall m, Z.testbit z (Z.of_nat m) = true <-> In m l.
Lemma bits_or (a : Z) l (b : Z) r : bits a l -> bits b r -> bits (Z.lor a b) (l ++ r).
Proof.
  intros [Ha HA] [Hb HB]. split; [apply Z.lor_nonneg; auto|]. intros m. rewrite Z.lor_spec, orb_true_iff, HA, HB, in_app_iff. reflexivity.
Qed.
Lemma bits_eq (a b : Z) l r : bits a l -> bits b r -> (a = b <-> forall m, In m l <-> In m r).
Proof.
  intros [Ha HA] [Hb HB]. split; [intros -> m; now rewrite <- HA, <- HB|]. intros H. apply Z.bits_inj'. intros n Hn.
  replace n with (Z.of_nat (Z.to_nat n)) by lia. apply eq_true_iff_eq. now rewrite HA, HB.
Qed.
Lemma lazy_sums_expr t (l : list node) : lazy_sums (NExpr t l) ->
  (t = TSum /\ exists b n d, l = [NFun b [n]; d] /\ lazy_sums b /\ (n < 64)%nat /\ is_plain d /\ exists m, In m (free (NFun b [n]))) \/ (t <> TSum /\ Forall lazy_sums l).
Proof.
  intros H. destruct t; try (right; split; [discriminate|]; cbn [lazy_sums] in H; now rewrite fold_and_Forall in H). left. split; [reflexivity|].
  destruct l as [|[v|r|n|t l'|b [|n [|n' is]]] [|d [|d' l]]]; try destruct H. exists b, n, d. split; [reflexivity|]. tauto.
Qed.
Lemma filter_bits n z l : bits z l -> (n < 64)%nat -> exists y, ph_filter z [n] = Some y /\ bits y (filter (fun m => negb (existsb (Nat.eqb m) [n])) l).
Proof.
  intros [Hz HB] Hn. destruct (ph_bit_ok n Hn) as (b & Eb & Hb). cbn [ph_filter obind]. rewrite Eb. cbn [obind]. eexists. split; [reflexivity|]. split.
  - apply Z.ldiff_nonneg. auto.
  - intros m. rewrite Z.ldiff_spec, (ph_bit_spec n b Eb), andb_true_iff, HB, filter_In. cbn [existsb]. rewrite orb_false_r, (Nat.eqb_sym n m). reflexivity.
Qed.
Lemma ph_set_bits x : lazy_sums x -> exists z, ph_set x = Some z /\ bits z (free x).
Proof.
  enough (H : (lazy_sums x -> exists z, ph_set x = Some z /\ bits z (free x)) /\
              match x with NFun b [n] => lazy_sums b -> (n < 64)%nat -> exists z, ph_set x = Some z /\ bits z (free x) | _ => True end) by apply H.
  assert (H0 : bits 0 []). { split; [lia|]. intros m. rewrite Z.testbit_0_l. split; [discriminate|intros []]. }
  induction x as [v|r|n|t l IH|b is IH] using node_ind'.
  - split; [|exact I]. intros _. exists 0. split; [reflexivity|exact H0].
  - split; [|exact I]. intros _. exists 0. split; [reflexivity|exact H0].
  - split; [|exact I]. cbn [lazy_sums ph_set free]. intros Hn. destruct (ph_bit_ok n Hn) as (z & Ez & Hz). exists z. split; [exact Ez|]. split; [exact Hz|].
    intros m. rewrite (ph_bit_spec n z Ez). destruct (Nat.eqb_spec n m); split; intros H; auto; try discriminate; [now left|destruct H; [contradiction|destruct H]].
  - split; [|exact I]. intros H. assert (HA : Forall (fun c => exists z, ph_set c = Some z /\ bits z (free c)) l).
    { apply lazy_sums_expr in H. destruct H as [[-> (b & n & d & -> & Hb & Hn & Hd & _)]|[_ H]].
      - inversion IH as [|? ? [_ IHb] IH']; subst. constructor; [now apply IHb|]. constructor; [|constructor]. exists 0. destruct d; try destruct Hd; split; auto.
      - rewrite Forall_forall in IH, H |- *. intros c Hc. apply IH; auto. }
    clear IH H. cbn [ph_set free]. induction HA as [|c l (z & Ez & Hz) HA IH]; [exists 0; split; [reflexivity|exact H0]|].
    destruct IH as (y & Ey & Hy). cbn [map ph_or flat_map]. rewrite Ez, Ey. cbn [obind]. eexists. split; [reflexivity|]. now apply bits_or.
  - split; [intros []|]. destruct is as [|n [|n' is]]; try exact I. intros Hb Hn. destruct (proj1 IH Hb) as (z & Ez & Hz). cbn [ph_set free]. rewrite Ez. cbn [obind].
    now apply filter_bits.
Qed.
Lemma ph_set_fun (b : node) n : lazy_sums b -> (n < 64)%nat -> exists z, ph_set (NFun b [n]) = Some z /\ bits z (free (NFun b [n])).
Proof.
  intros Hb Hn. destruct (ph_set_bits b Hb) as (z & Ez & Hz). cbn [ph_set]. rewrite Ez. cbn [obind free]. now apply filter_bits.
Qed.

(** ** sums, one binding at a time *)
Section Single.
Variables (n : nat) (r : node).
Hypothesis n64 : (n < 64)%nat.
Hypothesis r_plain : is_plain r.
Let pairs := [(n, r)].
Lemma single_ND : NoDup (keys pairs).
Proof using. repeat constructor. intros []. Qed.
Lemma single_plain : all_plain pairs.
Proof using r_plain. intros k q [E|[]]. now injection E as <- <-. Qed.
Lemma single_set : exists z, ph_set_pairs pairs = Some z /\ bits z [n].
Proof using n64.
  destruct (ph_bit_ok n n64) as (b & Eb & Hb). unfold ph_set_pairs, pairs. cbn [map fst ph_or]. rewrite Eb. cbn [obind]. eexists. split; [reflexivity|].
  rewrite Z.lor_0_r. split; [exact Hb|]. intros m. rewrite (ph_bit_spec n b Eb). destruct (Nat.eqb_spec n m); split; intros H; auto; try discriminate; [now left|destruct H; [contradiction|destruct H]].
Qed.
Lemma ev_lazy_fun (b : node) m : lazy_sums b -> (m < 64)%nat -> (exists q, In q (free (NFun b [m]))) -> ev_lazy pairs (NFun b [m]) = Some (negb (all_bound pairs (NFun b [m]))).
Proof using n64.
  intros Hb Hm [q Hq]. destruct (ph_set_fun b m Hb Hm) as (z & Ez & Hz). destruct single_set as (y & Ey & Hy).
  cbn [ev_lazy]. rewrite Ez, Ey. cbn [obind]. do 2 f_equal. apply eq_true_iff_eq. rewrite Z.eqb_eq, all_bound_iff, (bits_eq _ _ _ _ Hz Hy). split.
  - intros H m' Hm'. now apply H.
  - intros H m'. split; [apply H|]. intros [<-|[]]. destruct (H q Hq) as [<-|[]]. exact Hq.
Qed.
Lemma ev_lazy_sums x : lazy_sums x -> ev_lazy pairs x = Some (negb (all_bound pairs x)).
Proof using n64.
  induction x as [v|r'|k|t l IH|b is IH] using node_ind'; intros H; try reflexivity.
  - apply ev_lazy_ph, single_ND.
  - cbn [ev_lazy]. rewrite (any_of_map _ _ (fun a => negb (all_bound pairs a))).
    + now rewrite negb_forallb, <- (all_bound_expr pairs t l).
    + apply lazy_sums_expr in H. destruct H as [[-> (b & m & d & -> & Hb & Hm & Hd & Hq)]|[_ H]].
      * constructor; [now apply ev_lazy_fun|]. constructor; [|constructor]. destruct d; try destruct Hd; reflexivity.
      * rewrite Forall_forall in IH, H |- *. auto.
  - destruct H.
Qed.
End Single.

Lemma add_all_rest (o : ops V) call : forall xs ys acc v, Forall2 (fun a y => call a = Ret y) xs ys -> add_all o acc ys = Ret v -> sum_rest o call acc xs = Ret v.
Proof.
  induction xs as [|a xs IH]; intros ys acc v HF HA; inversion HF; subst; cbn [add_all sum_rest] in *; auto.
  match goal with H : call a = Ret _ |- _ => rewrite H end. cbn [bind]. apply bind_ret in HA. destruct HA as (s & Hs & HA). rewrite Hs. cbn [bind]. eauto.
Qed.
Lemma total_domain (o : ops V) call xs ys v : Forall2 (fun a y => call a = Ret y) xs ys -> total o ys = Ret v -> sum_f_domain o call xs = Ret v.
Proof.
  intros HF HT. destruct HF as [|a y xs ys Hy HF]; [discriminate|]. cbn [total sum_f_domain] in *. rewrite Hy. cbn [bind]. eapply add_all_rest; eauto.
Qed.
Lemma not_all_bound pairs x : all_bound pairs x = false -> exists m, In m (free x) /\ ~ In m (keys pairs).
Proof.
  unfold all_bound. induction (free x) as [|m l IH]; cbn [forallb]; intros H; [discriminate|].
  destruct (existsb (Nat.eqb m) (keys pairs)) eqn:E.
  - destruct (IH H) as (q & Hq & Hk). exists q. split; [now right|auto].
  - exists m. split; [now left|]. intros Hk. assert (Ht : existsb (Nat.eqb m) (keys pairs) = true) by (apply existsb_exists; exists m; split; [auto|apply Nat.eqb_refl]). congruence.
Qed.
Lemma in_free_fun (b : node) n m : In m (free (NFun b [n])) <-> In m (free b) /\ m <> n.
Proof.
  cbn [free]. rewrite filter_In. cbn [existsb]. rewrite orb_false_r. destruct (Nat.eqb_spec m n); cbn [negb]; split; intros [H1 H2]; split; auto; try discriminate; contradiction.
Qed.
Lemma bnd_single h e n v k : bnd true h e [(n, NVal v)] k = update e n (Ret v) k.
Proof. unfold bnd, update. cbn [find fst]. rewrite Nat.eqb_sym. destruct (Nat.eqb k n); reflexivity. Qed.

Lemma eval_complete_sums k : forall h own p n r x e v, (height x <= k)%nat -> lazy_sums x -> (n < 64)%nat -> is_plain r ->
  no_shadowing x -> ~ In n (binders x) -> located h own p x ->
  val true h (bnd true h e [(n, r)]) x = Ret v ->
  exists x', eval k h own p [(n, r)] x = Ret x' /\ good [(n, r)] x x' /\ lazy_sums x'.
Proof.
  induction k as [k IH] using lt_wf_ind. intros h own p n r x e v Hh LS Hn Hr NS NB HL HV. destruct k as [|k]; [pose proof (height_pos x); lia|].
  pose proof (single_ND n r) as ND. pose proof (single_plain n r Hr) as HP.
  assert (BF : bf [(n, r)] x).
  { split; [exact ND|]. split; [exact NS|]. split.
    - intros m Hm. split; [intros [<-|[]]; auto|]. intros k' r' [E|[]]. injection E as <- <-. destruct (plain_free r Hr) as [-> _]. intros [].
    - intros k' r' [E|[]]. injection E as <- <-. destruct r; try destruct Hr; exact I. }
  assert (PL : forall y : node, is_plain y -> lazy_sums y) by (intros y Hy; destruct y; try destruct Hy; exact I).
  destruct x as [u|r'|m|t l|b is].
  - eexists. split; [reflexivity|]. split; [now apply good_leaf|exact I].
  - eexists. split; [reflexivity|]. split; [now apply good_leaf|exact I].
  - destruct (eval_ph k h own p [(n, r)] m ND HP) as (x' & Hx & HG & Hc). exists x'. split; [exact Hx|]. split; [exact HG|].
    destruct Hc as [Hc | ->]; auto.
  - pose proof LS as LS'. apply lazy_sums_expr in LS. destruct LS as [[-> (b & m & d & -> & Hb & Hm & Hd & Hq)]|[Ht LS]].
    + (* a sum *)
      assert (NSb : no_shadowing b /\ ~ In m (binders b)) by (destruct NS as [[N1 N2] _]; split; [auto|apply N1; now left]). destruct NSb as [NSb NBm].
      assert (NBb : ~ In n (binders b)). { intros H. apply NB. cbn [binders flat_map]. apply in_or_app. left. apply in_or_app. now right. }
      assert (Hmn : m <> n). { intros ->. apply NB. cbn [binders flat_map app]. now left. }
      pose proof HV as HV0.
      rewrite val_expr in HV. cbn [sum_shape] in HV. unfold sum_value in HV. apply bind_ret in HV. destruct HV as (dv & Hdv & HV). apply bind_ret in HV. destruct HV as (xs & Hxs & HV).
      destruct xs as [|x0 xs]; [discriminate|]. apply bind_ret in HV. destruct HV as (ys & Hys & HT). apply sequence_ret in Hys. rewrite Forall2_map_l in Hys.
      assert (EU : forall u w, val true h (update (bnd true h e [(n, r)]) m (Ret u)) w = val true h (bnd true h (update e m (Ret u)) [(n, r)]) w).
      { intros u w. apply val_free. intros q _. symmetry. apply bnd_update; auto.
        - intros [E|[]]. now elim Hmn.
        - intros k' r' [E|[]]. injection E as <- <-. destruct (plain_free r Hr) as [-> _]. intros []. }
      cbn [height map fold_right] in Hh. destruct k as [|k]; [lia|].
      assert (Hlb : located h own ((p ++ [0%nat]) ++ [0%nat]) b).
      { intros o Ho. destruct (HL o Ho) as (root & Hro & Hp). exists root. split; [auto|]. rewrite !subnode_app, Hp. reflexivity. }
      assert (BFb : bf [(n, r)] b). { apply (bf_body _ b [m]). apply (bf_child _ TSum [NFun b [m]; d]); [exact BF|now left]. }
      (* the body *)
      assert (Hbody : exists b', eval k h own ((p ++ [0%nat]) ++ [0%nat]) [(n, r)] b = Ret b' /\ good [(n, r)] b b' /\ lazy_sums b').
      { inversion Hys as [|? y0 ? ? Hy0 _]; subst. rewrite EU in Hy0. apply (IH k ltac:(lia) h own _ n r b (update e m (Ret x0)) y0); auto; lia. }
      destruct Hbody as (b1 & Eb1 & Gb1 & Lb1). pose proof (eval_sound _ _ _ _ _ _ _ Eb1 Hlb BFb) as Sb1.
      pose proof (eval_shape _ _ _ _ _ _ _ Eb1 (proj2 (proj2 (proj2 BFb)))) as [Ib1 Nb1].
      (* the function *)
      assert (Hfun : exists b', eval (S k) h own (p ++ [0%nat]) [(n, r)] (NFun b [m]) = Ret (NFun b' [m]) /\ good [(n, r)] b b' /\ lazy_sums b' /\
                                (forall e', val true h e' b' = val true h (bnd true h e' [(n, r)]) b) /\ incl (binders b') (binders b) /\ no_shadowing b').
      { cbn [eval]. rewrite Eb1. cbn [bind]. pose proof (sim_val _ _ _ _ Sb1) as Vb1.
        destruct b1 as [v1|r1|n1|t1 l1|b1 is1]; try (eexists; split; [reflexivity|]; split; [exact Gb1|]; split; [exact Lb1|]; split; [exact Vb1|]; split; [exact Ib1|auto]; fail).
        inversion Hys as [|? y0 ? ? Hy0 _]; subst. rewrite EU, <- Vb1 in Hy0. cbn [val vref] in Hy0. rewrite Hy0. cbn [bind].
        eexists. split; [reflexivity|]. split; [|split; [exact I|split; [|split; [intros q []|exact I]]]].
        - destruct Gb1 as [G1 G2 G3 G4]. split; auto.
        - intros e'. rewrite <- Vb1. cbn [val vref]. now rewrite Hy0. }
      destruct Hfun as (b2 & Eb2 & Gb2 & Lb2 & Vb2 & Ib2 & Nb2).
      assert (Hdom : exists d', eval (S k) h own (p ++ [1%nat]) [(n, r)] d = Ret d' /\ is_plain d' /\ read h d' = Ret dv /\ good [(n, r)] d d').
      { assert (Ed : exists rd, eval (S k) h own (p ++ [1%nat]) [(n, r)] d = Ret (NRef rd)) by (destruct d; try destruct Hd; eexists; reflexivity).
        destruct Ed as (rd & Ed). exists (NRef rd). split; [exact Ed|]. split; [exact I|]. split; [|now apply good_leaf].
        assert (Sd : sim h [(n, r)] (NRef rd) d).
        { eapply eval_sound; [exact Ed|eapply located_child; [exact HL|reflexivity]|]. apply (bf_child _ TSum [NFun b [m]; d]); [exact BF|right; now left]. }
        rewrite (plain_read h e) by exact I. rewrite (sim_val _ _ _ _ Sd). exact Hdv. }
      destruct Hdom as (d2 & Ed2 & Pd2 & Rd2 & Gd2).
      assert (Gf : forall q, In q (free (NFun b2 [m])) <-> In q (free (NFun b [m])) /\ q <> n).
      { intros q. rewrite !in_free_fun. destruct Gb2 as [_ G _ _]. rewrite G. cbn [keys map fst In]. split; [intros [[H1 H2] H3]|intros [[H1 H2] H3]]; (split; [split|]); auto; try (intros ->; auto; fail).
        intros [H4|[]]. auto. }
      assert (EL : ev_lazy [(n, r)] (NExpr TSum [NFun b [m]; d]) = Some (negb (all_bound [(n, r)] (NExpr TSum [NFun b [m]; d])))) by (apply ev_lazy_sums; auto).
      remember (S k) as k1 eqn:Ek1. cbn [eval mapi_from sequence]. rewrite Eb2. cbn [bind]. rewrite Ed2. cbn [bind]. rewrite EL.
      destruct (all_bound [(n, r)] (NExpr TSum [NFun b [m]; d])) eqn:EB; cbn [negb].
      * (* all bound: the sum is evaluated *)
        assert (HF0 : forall q, ~ In q (free (NFun b2 [m]))).
        { intros q Hq'. rewrite Gf in Hq'. destruct Hq' as [Hq1 Hq2]. rewrite all_bound_iff in EB. destruct (EB q) as [E|[]]; [cbn [free flat_map]; apply in_or_app; now left|]. now elim Hq2. }
        assert (ELz : is_any_lazy [NFun b2 [m]; d2] = Some false).
        { destruct (ph_set_fun b2 m Lb2 Hm) as (z & Ez & Hz). unfold is_any_lazy. cbn [map any_of is_lazy]. rewrite Ez. cbn [obind].
          assert (z = 0). { assert (B0 : bits 0 []) by (split; [lia|intros q; rewrite Z.testbit_0_l; split; [discriminate|intros []]]).
            apply (bits_eq _ _ _ _ Hz B0). intros q. split; [intros H; elim (HF0 q H)|intros []]. }
          subst z. destruct d2; try destruct Pd2; reflexivity. }
        assert (HFb2 : forall q, In q (free b2) -> q = m).
        { intros q Hq'. destruct (Nat.eq_dec q m) as [->|Hne]; auto. elim (HF0 q). apply in_free_fun. auto. }
        assert (Hcall : Forall2 (fun a y => bind (eval k1 h None [] [(m, NVal a)] b2) (read h) = Ret y) (x0 :: xs) ys).
        { eapply Forall2_impl_in; [|exact Hys]. intros a y _ _ Hy. cbn beta in Hy. rewrite EU, <- Vb2 in Hy.
          assert (Hy' : val true h (bnd true h e [(m, NVal a)]) b2 = Ret y). { rewrite <- Hy. apply val_free. intros q _. apply bnd_single. }
          assert (HLn : located h None [] b2) by (intros o Ho; discriminate).
          assert (NBm2 : ~ In m (binders b2)) by (intros H; apply NBm; auto).
          destruct (IH k1 ltac:(lia) h None [] m (NVal a) b2 e y) as (b3 & Eb3 & Gb3 & Lb3); auto.
          - destruct Gb2 as [G _ _ _]. lia.
          - exact I.
          - rewrite Eb3. cbn [bind]. assert (Pb3 : is_plain b3). { apply Gb3. apply all_bound_iff. intros q Hq'. rewrite (HFb2 q Hq'). now left. }
            rewrite (plain_read h e) by auto. rewrite <- Hy'. apply sim_val. eapply eval_sound; [exact Eb3|exact HLn|].
            split; [repeat constructor; intros []|]. split; [auto|]. split.
            + intros q Hq'. split; [intros [<-|[]]; auto|]. intros k' r' [E|[]]. injection E as <- <-. intros [].
            + intros k' r' [E|[]]. injection E as <- <-. exact I. }
        unfold operation. rewrite ELz, Rd2. cbn [bind]. rewrite Hxs. cbn [bind]. rewrite (total_domain _ _ _ _ _ Hcall HT). cbn [bind].
        eexists. split; [reflexivity|]. split; [|exact I]. apply good_value; auto using height_pos. exact I.
      * (* the sum stays lazy *)
        exists (NExpr TSum [NFun b2 [m]; d2]). split; [reflexivity|]. split.
        -- split.
           ++ cbn [height map fold_right]. destruct Gb2 as [G _ _ _]. destruct (plain_free d2 Pd2) as [_ ->]. destruct (plain_free d Hd) as [_ ->]. lia.
           ++ intros q. cbn [free flat_map]. rewrite !app_nil_r, !in_app_iff. fold (free (NFun b2 [m])). fold (free (NFun b [m])).
              destruct (plain_free d2 Pd2) as [-> _]. destruct (plain_free d Hd) as [-> _]. cbn [In keys map fst].
              split; [intros [H|[]]; apply Gf in H; destruct H as [H1 H2]; split; [now left|]; intros [E|[]]; now elim H2|].
              intros [[H|[]] H2]. left. apply Gf. split; auto.
           ++ congruence.
           ++ intros _ [].
        -- cbn [lazy_sums]. split; [auto|]. split; [auto|]. split; [auto|]. apply not_all_bound in EB. destruct EB as (q & Hq1 & Hq2).
           exists q. apply Gf. split.
           ++ cbn [free flat_map] in Hq1. rewrite app_nil_r, in_app_iff in Hq1. destruct Hq1 as [H|H]; [exact H|]. destruct (plain_free d Hd) as [E _]. rewrite E in H. destruct H.
           ++ intros ->. apply Hq2. now left.
    + destruct (eval_operator k h own p [(n, r)] t l e v lazy_sums Ht) as (x' & Hx & HG & Hc); auto.
      * intros j a u Hj Hu. assert (Ha : In a l) by (eapply nth_error_In; eauto). rewrite Forall_forall in LS.
        apply (IH k ltac:(lia) h own (p ++ [j]) n r a e u); auto.
        -- pose proof (height_child t l a Ha). lia.
        -- cbn [no_shadowing] in NS. rewrite fold_and_Forall, Forall_forall in NS. auto.
        -- intros H. apply NB. cbn [binders]. apply in_flat_map. eauto.
        -- eapply located_child; eauto.
      * rewrite Forall_forall in LS |- *. intros a Ha. apply ev_lazy_sums; auto.
      * exists x'. split; [exact Hx|]. split; [exact HG|]. destruct Hc as [Hc|(cs & -> & Hc)]; auto.
        destruct t; try (cbn [lazy_sums]; now apply fold_and_Forall). now elim Ht.
  - destruct LS.
Qed.
End L.
