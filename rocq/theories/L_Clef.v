(** Lemmas about lazy expressions: evaluation is substitution. *)
From Verif Require Import Base M_Perm M_IdxMap M_Loops M_Assign M_Clef S_Clef.

Lemma bind_ret {A B} (x : out A) (f : A -> out B) r : bind x f = Ret r -> exists a, x = Ret a /\ f a = Ret r.
Proof. destruct x; cbn [bind]; intros H; try discriminate. eauto. Qed.
Lemma sequence_ret {A} (l : list (out A)) r : sequence l = Ret r -> Forall2 (fun x a => x = Ret a) l r.
Proof.
  revert r; induction l as [|x l IH]; intros r H; cbn [sequence] in H.
  - injection H as <-. constructor.
  - apply bind_ret in H. destruct H as (a & Ha & H). apply bind_ret in H. destruct H as (b & Hb & H). injection H as <-.
    constructor; auto.
Qed.
Lemma sequence_of {A} (l : list (out A)) r : Forall2 (fun x a => x = Ret a) l r -> sequence l = Ret r.
Proof. induction 1 as [|x a l r H HF IH]; [reflexivity|]. cbn [sequence]. rewrite H, IH. reflexivity. Qed.
Lemma Forall2_map_l {A B C} (P : B -> C -> Prop) (f : A -> B) l r : Forall2 P (map f l) r <-> Forall2 (fun a c => P (f a) c) l r.
Proof.
  split.
  - revert r; induction l as [|a l IH]; intros r H; inversion H; subst; constructor; auto.
  - induction 1; cbn [map]; constructor; auto.
Qed.
Lemma Forall2_impl_in {A B} (P Q : A -> B -> Prop) l r : (forall a b, In a l -> In b r -> P a b -> Q a b) -> Forall2 P l r -> Forall2 Q l r.
Proof.
  intros H HF. revert H. induction HF as [|a b l r Hab HF IH]; intros H; constructor.
  - apply H; [now left|now left|auto].
  - apply IH. intros x y Hx Hy. apply H; now right.
Qed.
Lemma Forall2_nth_l {A B} (P : A -> B -> Prop) l r i a : Forall2 P l r -> nth_error l i = Some a -> exists b, nth_error r i = Some b /\ P a b.
Proof.
  intros H; revert i; induction H as [|x y l r H HF IH]; intros [|i] E; cbn [nth_error] in *; try discriminate; eauto. injection E as <-. eauto.
Qed.
(** children evaluated with their positions *)
Lemma mapi_Forall2 {A B} (f : nat -> A -> out B) (P : A -> B -> Prop) i l r :
  Forall2 (fun x b => x = Ret b) (mapi_from f i l) r ->
  (forall j a b, nth_error l j = Some a -> f (i + j)%nat a = Ret b -> P a b) -> Forall2 P l r.
Proof.
  revert i r; induction l as [|a l IH]; intros i r H HP; cbn [mapi_from] in H; inversion H as [|x b l' r' Hb HF]; subst; constructor.
  - apply (HP 0%nat); [reflexivity|]. now rewrite Nat.add_0_r.
  - apply (IH (S i)); auto. intros j c d Hj Hf. apply (HP (S j)); auto. replace (i + S j)%nat with (S i + j)%nat by lia. auto.
Qed.

Section L.
Context {V : Type}.
Notation node := (node V). Notation heap := (heap V). Notation env := (@env V).
Implicit Types (x c b : node) (h : heap) (e : env).

Lemma node_ind' (P : node -> Prop) : (forall v, P (NVal v)) -> (forall r, P (NRef r)) -> (forall n, P (NPh n)) ->
  (forall t l, Forall P l -> P (NExpr t l)) -> (forall b is, P b -> P (NFun b is)) -> forall x, P x.
Proof.
  intros H1 H2 H3 H4 H5. fix IH 1. intros [v|r|n|t l|b is]; [apply H1|apply H2|apply H3| |apply H5; apply IH].
  apply H4. induction l as [|c l IHl]; constructor; [apply IH|apply IHl].
Qed.

(** ** the value with references to temporaries still readable *)
Definition vref (tmp : bool) (h : heap) (r : ref V) : out V := if tmp then deref h r else lookup_ref h r.
Fixpoint val (tmp : bool) (h : heap) (e : env) (x : node) : out V :=
  match x with
  | NVal v => Ret v
  | NRef r => vref tmp h r
  | NPh n => e n
  | NFun _ _ => Stuck
  | NExpr TSum [NFun b [n]; d] =>
      bind (val tmp h e d) (fun dv => bind (o_dom (h_ops h) dv) (fun xs =>
      match xs with
      | [] => Raise
      | _ => bind (sequence (map (fun v => val tmp h (update e n (Ret v)) b) xs)) (total (h_ops h))
      end))
  | NExpr t l => bind (sequence (map (val tmp h e) l)) (meaning (h_ops h) t)
  end.

Definition sum_shape (t : tag) (l : list node) : option (node * nat * node) :=
  match t, l with TSum, [NFun b [n]; d] => Some (b, n, d) | _, _ => None end.
Lemma sum_shape_some t l b n d : sum_shape t l = Some (b, n, d) -> t = TSum /\ l = [NFun b [n]; d].
Proof.
  unfold sum_shape. intros H.
  repeat match type of H with context [match ?z with _ => _ end] => destruct z; try discriminate end.
  injection H as <- <- <-. auto.
Qed.
Definition sum_value (h : heap) (dv : out V) (f : V -> out V) : out V :=
  bind dv (fun dv => bind (o_dom (h_ops h) dv) (fun xs =>
  match xs with [] => Raise | _ => bind (sequence (map f xs)) (total (h_ops h)) end)).
Lemma val_expr tmp h e t l : val tmp h e (NExpr t l) =
  match sum_shape t l with
  | Some (b, n, d) => sum_value h (val tmp h e d) (fun v => val tmp h (update e n (Ret v)) b)
  | None => bind (sequence (map (val tmp h e) l)) (meaning (h_ops h) t)
  end.
Proof.
  unfold sum_shape. destruct t; try reflexivity.
  destruct l as [|[v|r|n|t l'|b [|n [|n' is]]] [|d [|d' l]]]; reflexivity.
Qed.
Lemma value_val h x : forall e, value h e x = val false h e x.
Proof.
  assert (E : forall h e t l, value h e (NExpr t l) =
    match sum_shape t l with
    | Some (b, n, d) => sum_value h (value h e d) (fun v => value h (update e n (Ret v)) b)
    | None => bind (sequence (map (value h e) l)) (meaning (h_ops h) t)
    end).
  { intros h' e' t l. unfold sum_shape. destruct t; try reflexivity.
    destruct l as [|[v|r|n|t l'|b [|n [|n' is]]] [|d [|d' l]]]; reflexivity. }
  enough (H : (forall e, value h e x = val false h e x) /\ match x with NFun b _ => forall e, value h e b = val false h e b | _ => True end) by apply H.
  induction x as [v|r|n|t l IH|b is IH] using node_ind'; try (split; [reflexivity|exact I]).
  - split; [|exact I]. intros e. rewrite E, val_expr. destruct (sum_shape t l) as [[[b n] d]|] eqn:Es.
    + apply sum_shape_some in Es. destruct Es as [-> ->]. inversion IH as [|? ? [_ IHb] IH']; subst. inversion IH' as [|? ? [IHd _] _]; subst.
      rewrite IHd. unfold sum_value. destruct (val false h e d); cbn [bind]; auto. destruct (o_dom (h_ops h) a); cbn [bind]; auto.
      destruct a0; auto. do 2 f_equal. apply map_ext. intros; apply IHb.
    + do 2 f_equal. apply map_ext_in. intros c Hc. rewrite Forall_forall in IH. apply IH; auto.
  - split; [reflexivity|]. apply IH.
Qed.
Lemma val_temporary h x : no_temporary x -> forall e, val true h e x = val false h e x.
Proof.
  enough (H : no_temporary x -> (forall e, val true h e x = val false h e x) /\ match x with NFun b _ => forall e, val true h e b = val false h e b | _ => True end) by (intros N; now apply H).
  induction x as [v|r|n|t l IH|b is IH] using node_ind'; intros N; try (split; [reflexivity|exact I]).
  - split; [|exact I]. intros e. cbn [val]. destruct r; cbn [no_temporary] in N; [reflexivity|reflexivity|destruct N].
  - cbn [no_temporary] in N. assert (N' : Forall no_temporary l).
    { clear IH. induction l as [|c l IHl]; constructor; cbn [fold_right] in N; [apply N|apply IHl, N]. }
    clear N. split; [|exact I]. intros e. rewrite !val_expr. destruct (sum_shape t l) as [[[b n] d]|] eqn:Es.
    + apply sum_shape_some in Es. destruct Es as [-> ->]. inversion IH as [|? ? IHb IH']; subst. inversion IH' as [|? ? IHd _]; subst.
      inversion N' as [|? ? Nb N'']; subst. inversion N'' as [|? ? Nd _]; subst.
      destruct (IHb Nb) as [_ IHb']. destruct (IHd Nd) as [IHd' _].
      rewrite IHd'. unfold sum_value. destruct (val false h e d); cbn [bind]; auto. destruct (o_dom (h_ops h) a); cbn [bind]; auto.
      destruct a0; auto. do 2 f_equal. apply map_ext. intros; apply IHb'.
    + do 2 f_equal. apply map_ext_in. intros c Hc. rewrite Forall_forall in IH, N'. apply IH; auto.
  - split; [reflexivity|]. apply IH. exact N.
Qed.

(** the value depends on the free placeholders only *)
Lemma val_free tmp h x : forall e1 e2, (forall n, In n (free x) -> e1 n = e2 n) -> val tmp h e1 x = val tmp h e2 x.
Proof.
  enough (H : (forall e1 e2, (forall n, In n (free x) -> e1 n = e2 n) -> val tmp h e1 x = val tmp h e2 x) /\
    match x with NFun b _ => forall e1 e2, (forall n, In n (free b) -> e1 n = e2 n) -> val tmp h e1 b = val tmp h e2 b | _ => True end) by apply H.
  induction x as [v|r|n|t l IH|b is IH] using node_ind'; try (split; [reflexivity|exact I]).
  - split; [|exact I]. intros e1 e2 H. apply H. now left.
  - split; [|exact I]. intros e1 e2 H. rewrite !val_expr. destruct (sum_shape t l) as [[[b n] d]|] eqn:Es.
    + apply sum_shape_some in Es. destruct Es as [-> ->]. inversion IH as [|? ? [_ IHb] IH']; subst. inversion IH' as [|? ? [IHd _] _]; subst.
      rewrite (IHd e1 e2). 2: { intros k Hk. apply H. cbn [free flat_map]. rewrite app_nil_r. apply in_or_app. now right. }
      unfold sum_value. destruct (val tmp h e2 d); cbn [bind]; auto. destruct (o_dom (h_ops h) a); cbn [bind]; auto.
      destruct a0; auto. do 2 f_equal. apply map_ext. intros v'. apply IHb. intros k Hk. unfold update.
      destruct (Nat.eqb_spec k n); auto. apply H. cbn [free flat_map]. apply in_or_app. left. apply filter_In. split; auto.
      cbn [existsb]. destruct (Nat.eqb_spec k n); [contradiction|reflexivity].
    + do 2 f_equal. apply map_ext_in. intros c Hc. rewrite Forall_forall in IH. apply IH; auto. intros k Hk. apply H.
      cbn [free]. apply in_flat_map. eauto.
  - split; [reflexivity|]. apply IH.
Qed.

Lemma fold_and_Forall {A} (P : A -> Prop) l : fold_right (fun a Q => P a /\ Q) True l <-> Forall P l.
Proof. induction l as [|c l IH]; cbn [fold_right]; split; intros H; auto. - constructor; tauto. - inversion H; subst. tauto. Qed.

(** ** bindings *)
Lemma position_not_in (pairs : list (nat * node)) n : ~ In n (keys pairs) -> position_of pairs n = (-1)%Z.
Proof.
  intros H. unfold position_of. enough (E : forall i, sumZ (mapi_from (fun q (x : nat * node) => if Nat.eqb (fst x) n then Z.of_nat q + 1 else 0) i pairs) = 0) by (rewrite E; reflexivity).
  induction pairs as [|[k r] pairs IH]; intros i; [reflexivity|]. cbn [mapi_from fst]. destruct (Nat.eqb_spec k n) as [->|Hk].
  - elim H. now left.
  - rewrite sumZ_cons, IH; [reflexivity|]. intros Hi. apply H. now right.
Qed.
Lemma position_in (pairs : list (nat * node)) i n r : NoDup (keys pairs) -> nth_error pairs i = Some (n, r) -> position_of pairs n = Z.of_nat i.
Proof.
  intros ND E. unfold position_of.
  enough (H : forall j, sumZ (mapi_from (fun q (x : nat * node) => if Nat.eqb (fst x) n then Z.of_nat q + 1 else 0) j pairs) = Z.of_nat (j + i) + 1) by (rewrite H; lia).
  revert i E. induction pairs as [|[k s] pairs IH]; intros i E j; [destruct i; discriminate|]. cbn [mapi_from fst].
  unfold keys in ND. cbn [map fst] in ND. inversion ND as [|? ? Hk ND']; subst. destruct i as [|i]; cbn [nth_error] in E.
  - injection E as -> ->. rewrite Nat.eqb_refl. rewrite sumZ_cons. pose proof (position_not_in pairs n Hk) as Hp. unfold position_of in Hp.
    assert (Hz : forall i, sumZ (mapi_from (fun q (x : nat * node) => if Nat.eqb (fst x) n then Z.of_nat q + 1 else 0) i pairs) = 0).
    { clear - Hk. induction pairs as [|[k s] pairs IH]; intros i; [reflexivity|]. cbn [mapi_from fst]. destruct (Nat.eqb_spec k n) as [->|Hn].
      - elim Hk. now left.
      - rewrite sumZ_cons, IH; [reflexivity|]. intros Hi. apply Hk. now right. }
    rewrite Hz. lia.
  - destruct (Nat.eqb_spec k n) as [->|Hn].
    + elim Hk. apply nth_error_In in E. apply in_map_iff. exists (n, r). auto.
    + rewrite sumZ_cons, (IH ND' i E (S j)). lia.
Qed.
Lemma find_pair (pairs : list (nat * node)) n r : NoDup (keys pairs) -> In (n, r) pairs -> find (fun q : nat * node => Nat.eqb (fst q) n) pairs = Some (n, r).
Proof.
  induction pairs as [|[k s] pairs IH]; intros ND H; [destruct H|]. cbn [find fst]. unfold keys in ND; cbn [map fst] in ND. inversion ND as [|? ? Hk ND']; subst.
  destruct H as [H|H].
  - injection H as -> ->. now rewrite Nat.eqb_refl.
  - destruct (Nat.eqb_spec k n) as [->|Hn]; auto. elim Hk. apply in_map_iff. exists (n, r). auto.
Qed.
Lemma find_none (pairs : list (nat * node)) n : ~ In n (keys pairs) -> find (fun q : nat * node => Nat.eqb (fst q) n) pairs = None.
Proof.
  induction pairs as [|[k s] pairs IH]; intros H; [reflexivity|]. cbn [find fst]. destruct (Nat.eqb_spec k n) as [->|Hn].
  - elim H. now left.
  - apply IH. intros Hi. apply H. now right.
Qed.
Lemma key_cases (pairs : list (nat * node)) n : (exists i r, nth_error pairs i = Some (n, r)) \/ ~ In n (keys pairs).
Proof.
  destruct (in_dec Nat.eq_dec n (keys pairs)) as [H|H]; [left|now right]. apply in_map_iff in H. destruct H as [[k r] [<- H]].
  apply In_nth_error in H. destruct H as [i H]. exists i, r. exact H.
Qed.

Definition bnd (tmp : bool) (h : heap) (e : env) (pairs : list (nat * node)) : env :=
  fun n => match find (fun q => Nat.eqb (fst q) n) pairs with Some (_, r) => val tmp h e r | None => e n end.
Lemma bnd_in tmp h e pairs n r : NoDup (keys pairs) -> In (n, r) pairs -> bnd tmp h e pairs n = val tmp h e r.
Proof. intros ND H. unfold bnd. now rewrite (find_pair pairs n r). Qed.
Lemma bnd_out tmp h e pairs n : ~ In n (keys pairs) -> bnd tmp h e pairs n = e n.
Proof. intros H. unfold bnd. now rewrite find_none. Qed.
Lemma bnd_update tmp h e pairs n v k : ~ In n (keys pairs) -> (forall q r, In (q, r) pairs -> ~ In n (free r)) -> NoDup (keys pairs) ->
  bnd tmp h (update e n v) pairs k = update (bnd tmp h e pairs) n v k.
Proof.
  intros Hn Hr ND. destruct (key_cases pairs k) as [(i & r & Hi)|Hk].
  - apply nth_error_In in Hi. rewrite (bnd_in _ _ _ _ k r) by auto. unfold update at 2. destruct (Nat.eqb_spec k n) as [->|Hkn].
    + elim Hn. apply in_map_iff. exists (n, r). auto.
    + rewrite (bnd_in _ _ _ _ k r) by auto. apply val_free. intros m Hm. unfold update. destruct (Nat.eqb_spec m n) as [->|]; auto.
      elim (Hr _ _ Hi Hm).
  - rewrite bnd_out by auto. unfold update. destruct (Nat.eqb_spec k n); auto. now rewrite bnd_out.
Qed.

(** ** bindings that do not capture, without the condition on temporaries *)
Definition bf (pairs : list (nat * node)) (x : node) : Prop :=
  NoDup (keys pairs) /\ no_shadowing x /\
  (forall n, In n (binders x) -> ~ In n (keys pairs) /\ forall k r, In (k, r) pairs -> ~ In n (free r)) /\
  (forall k r, In (k, r) pairs -> function_free r).
Lemma bf_child pairs t l c : bf pairs (NExpr t l) -> In c l -> bf pairs c.
Proof.
  intros (ND & NS & HB & HF) Hc. cbn [no_shadowing] in NS. rewrite fold_and_Forall, Forall_forall in NS.
  split; [auto|]. split; [auto|]. split; [|auto]. intros n Hn. apply HB. cbn [binders]. apply in_flat_map. eauto.
Qed.
Lemma bf_body pairs b is : bf pairs (NFun b is) -> bf pairs b.
Proof.
  intros (ND & NS & HB & HF). destruct NS as [_ NS]. split; [auto|]. split; [auto|]. split; [|auto]. intros n Hn. apply HB.
  cbn [binders]. apply in_or_app. now right.
Qed.
Lemma function_free_binders x : function_free x -> binders x = [] /\ no_shadowing x.
Proof.
  induction x as [v|r|n|t l IH|b is IH] using node_ind'; intros H; try (split; [reflexivity|exact I]).
  - cbn [function_free] in H. rewrite fold_and_Forall in H. cbn [binders no_shadowing]. rewrite fold_and_Forall.
    induction l as [|c l IHl]; [split; [reflexivity|constructor]|]. inversion IH as [|? ? IHc IH']; subst. inversion H as [|? ? Hc H']; subst.
    destruct (IHl IH' H') as [E1 E2]. destruct (IHc Hc) as [E3 E4]. cbn [flat_map]. rewrite E3, E1. split; [reflexivity|constructor; auto].
  - destruct H.
Qed.

(** results bind no other indices than the expression *)
Lemma operation_shape h ev t cs x : operation h ev t cs = Ret x -> incl (binders x) (binders (NExpr t cs)) /\ (Forall no_shadowing cs -> no_shadowing x) /\ (forall b is, x <> NFun b is).
Proof.
  intros H.
  assert (HE : x = NExpr t cs -> incl (binders x) (binders (NExpr t cs)) /\ (Forall no_shadowing cs -> no_shadowing x) /\ (forall b is, x <> NFun b is)).
  { intros ->. split; [apply incl_refl|]. split; [|discriminate]. intros HF. cbn [no_shadowing]. now apply fold_and_Forall. }
  assert (HV : forall v, x = NVal v -> incl (binders x) (binders (NExpr t cs)) /\ (Forall no_shadowing cs -> no_shadowing x) /\ (forall b is, x <> NFun b is)).
  { intros v ->. split; [intros n []|]. split; [intros _; exact I|discriminate]. }
  unfold operation in H.
  assert (HT : t = TTerminal -> incl (binders x) (binders (NExpr t cs)) /\ (Forall no_shadowing cs -> no_shadowing x) /\ (forall b is, x <> NFun b is)).
  { intros ->. assert (Hc : exists c, cs = [c] /\ x = c /\ (forall b is, x <> NFun b is)).
    { destruct cs as [|[v|r|n|t l|b is] [|d cs]]; try discriminate H; injection H as <-; eexists; (split; [reflexivity|]); (split; [reflexivity|discriminate]). }
    destruct Hc as (c & -> & -> & Hf). split; [cbn [binders flat_map]; rewrite app_nil_r; apply incl_refl|]. split; auto. intros HF. inversion HF; auto. }
  destruct t; auto; clear HT; destruct (is_any_lazy cs) as [[|]|]; try discriminate H; try (injection H as <-; auto; fail).
  - destruct cs as [|f args]; [discriminate|]. apply bind_ret in H. destruct H as (fv & _ & H). apply bind_ret in H. destruct H as (vs & _ & H).
    apply bind_ret in H. destruct H as (r & _ & H). injection H as <-. eapply HV; reflexivity.
  - destruct cs as [|f args]; [discriminate|]. apply bind_ret in H. destruct H as (fv & _ & H). apply bind_ret in H. destruct H as (vs & _ & H).
    apply bind_ret in H. destruct H as (r & _ & H). injection H as <-. eapply HV; reflexivity.
  - destruct cs as [|a [|b' [|? ?]]]; try discriminate. apply bind_ret in H. destruct H as (fv & _ & H). apply bind_ret in H. destruct H as (vs & _ & H).
    apply bind_ret in H. destruct H as (r & _ & H). injection H as <-. eapply HV; reflexivity.
  - destruct cs as [|a [|? ?]]; try discriminate. apply bind_ret in H. destruct H as (fv & _ & H). apply bind_ret in H. destruct H as (vs & _ & H).
    injection H as <-. eapply HV; reflexivity.
  - destruct cs as [|a [|b' [|c [|? ?]]]]; try discriminate. apply bind_ret in H. destruct H as (fv & _ & H). apply bind_ret in H. destruct H as (vs & _ & H).
    apply bind_ret in H. destruct H as (r & _ & H). apply bind_ret in H. destruct H as (q & _ & H). injection H as <-. eapply HV; reflexivity.
  - destruct cs as [|[v|r|n|t l|b' [|n [|n' is]]] [|d [|? ?]]]; try discriminate. apply bind_ret in H. destruct H as (fv & _ & H). apply bind_ret in H. destruct H as (vs & _ & H).
    apply bind_ret in H. destruct H as (r & _ & H). injection H as <-. eapply HV; reflexivity.
Qed.
Lemma eval_shape k : forall h own p pairs x x', eval k h own p pairs x = Ret x' -> (forall n r, In (n, r) pairs -> function_free r) ->
  incl (binders x') (binders x) /\ (no_shadowing x -> no_shadowing x').
Proof.
  induction k as [|k IH]; intros h own p pairs x x' H HF; [discriminate|]. cbn [eval] in H. destruct x as [v|r|n|t l|b is].
  - injection H as <-. split; [apply incl_refl|auto].
  - injection H as <-. split; [apply incl_refl|auto].
  - destruct (position_of pairs n =? -1); [injection H as <-; split; [apply incl_refl|auto]|].
    destruct (nth_error pairs (Z.to_nat (position_of pairs n))) as [[n' r]|] eqn:E; [|discriminate]. injection H as <-.
    apply nth_error_In in E. destruct (function_free_binders r (HF _ _ E)) as [Eb Es]. rewrite Eb. split; [intros m []|auto].
  - apply bind_ret in H. destruct H as (cs & Hcs & H). apply sequence_ret in Hcs.
    assert (HC : Forall2 (fun c c' => incl (binders c') (binders c) /\ (no_shadowing c -> no_shadowing c')) l cs).
    { eapply mapi_Forall2; [exact Hcs|]. intros j a b _ Hb. cbn beta in Hb. now apply IH in Hb. }
    clear Hcs. assert (HI : incl (binders (NExpr t cs)) (binders (NExpr t l))).
    { cbn [binders]. clear H. induction HC as [|c c' l cs [Hc _] HC IHC]; [apply incl_refl|]. cbn [flat_map]. apply incl_app; [apply incl_appl; auto|apply incl_appr; auto]. }
    assert (HS : no_shadowing (NExpr t l) -> Forall no_shadowing cs).
    { cbn [no_shadowing]. rewrite fold_and_Forall. clear H HI. induction HC as [|c c' l cs [_ Hc] HC IHC]; intros HN; [constructor|]. inversion HN; subst. constructor; auto. }
    destruct (ev_lazy pairs (NExpr t l)) as [[|]|]; [|apply operation_shape in H|discriminate].
    + injection H as <-. split; [exact HI|]. intros HN. cbn [no_shadowing]. apply fold_and_Forall. auto.
    + destruct H as [H1 [H2 _]]. split; [eapply incl_tran; eauto|]. auto.
  - apply bind_ret in H. destruct H as (b' & Hb & H). apply IH in Hb; auto. destruct Hb as [Hb1 Hb2].
    assert (Hx : exists b'', x' = NFun b'' is /\ incl (binders b'') (binders b) /\ (no_shadowing b -> no_shadowing b'')).
    { destruct b' as [v|r|n|t l|b' is']; try (injection H as <-; eexists; split; [reflexivity|split; assumption]; fail).
      apply bind_ret in H. destruct H as (v & _ & H). injection H as <-. exists (NVal v). split; [reflexivity|]. split; [intros m []|intros _; exact I]. }
    destruct Hx as (b'' & -> & Hi & Hn). cbn [binders no_shadowing]. split; [apply incl_app; [apply incl_appl, incl_refl|apply incl_appr; auto]|].
    intros [HA HB]. split; [|auto]. intros n Hn'. specialize (HA n Hn'). auto.
Qed.

(** ** evaluation is substitution *)
Fixpoint sim (h : heap) (pairs : list (nat * node)) (x' x : node) : Prop :=
  match x with
  | NFun b is => exists b', x' = NFun b' is /\ sim h pairs b' b
  | _ => (forall b is, x' <> NFun b is) /\ forall e, val true h e x' = val true h (bnd true h e pairs) x
  end.
Lemma sim_val h pairs x' x : sim h pairs x' x -> forall e, val true h e x' = val true h (bnd true h e pairs) x.
Proof. destruct x; cbn [sim]; intros H e; try apply H. destruct H as (b' & -> & _). reflexivity. Qed.
Lemma sim_nofun h pairs x' x : (forall b is, x <> NFun b is) -> (forall b is, x' <> NFun b is) ->
  (forall e, val true h e x' = val true h (bnd true h e pairs) x) -> sim h pairs x' x.
Proof. destruct x as [| | | |b is]; cbn [sim]; intros H1 H2 H3; auto. now elim (H1 b is). Qed.

Lemma sum_value_ext h d1 d2 f1 f2 : d1 = d2 -> (forall v, f1 v = f2 v) -> sum_value h d1 f1 = sum_value h d2 f2.
Proof.
  intros -> H. unfold sum_value. destruct d2; cbn [bind]; auto. destruct (o_dom (h_ops h) a); cbn [bind]; auto. destruct a0; auto.
  do 2 f_equal. now apply map_ext.
Qed.

Lemma sim_expr h pairs t l cs : bf pairs (NExpr t l) -> Forall2 (fun c c' => sim h pairs c' c) l cs ->
  forall e, val true h e (NExpr t cs) = val true h (bnd true h e pairs) (NExpr t l).
Proof.
  intros B HC e. rewrite !val_expr. destruct (sum_shape t l) as [[[b n] d]|] eqn:Es.
  - apply sum_shape_some in Es. destruct Es as [-> ->]. inversion HC as [|? c1 ? ? H1 HC1]; subst. inversion HC1 as [|? c2 ? ? H2 HC2]; subst. inversion HC2; subst.
    destruct H1 as (b' & -> & Hb). cbn [sum_shape]. apply sum_value_ext; [now apply sim_val|]. intros v. rewrite (sim_val _ _ _ _ Hb).
    apply val_free. intros m _. destruct B as (ND & _ & HB & _). destruct (HB n) as [Hn Hr]; [cbn [binders flat_map app]; now left|].
    now apply bnd_update.
  - assert (Es' : sum_shape t cs = None).
    { destruct (sum_shape t cs) as [[[b n] d]|] eqn:E'; [|reflexivity]. apply sum_shape_some in E'. destruct E' as [-> ->].
      inversion HC as [|c1 ? l1 ? H1 HC1]; subst. inversion HC1 as [|c2 ? ? ? H2 HC2]; subst. inversion HC2; subst.
      destruct c1 as [v|r|m|t' l'|b1 is]; cbn [sim] in H1; try (destruct H1 as [H1 _]; now elim (H1 b [n])).
      destruct H1 as (b' & E & _). injection E as -> <-. discriminate Es. }
    rewrite Es'. do 2 f_equal. clear - HC. induction HC as [|c c' l cs H HC IH]; [reflexivity|]. cbn [map]. f_equal; auto. now apply sim_val.
Qed.

Lemma any_of_false l : any_of l = Some false -> Forall (fun a => a = Some false) l.
Proof.
  induction l as [|x l IH]; cbn [any_of]; intros H; constructor.
  - destruct x as [[|]|]; cbn [obind] in H; auto; destruct (any_of l); discriminate.
  - apply IH. destruct x as [[|]|]; cbn [obind] in H; try discriminate; destruct (any_of l); cbn [obind orb] in H; discriminate || auto.
Qed.
Lemma read_val h e c v : read h c = Ret v -> val true h e c = Ret v.
Proof. destruct c; cbn [read val vref]; intros H; try discriminate; auto. Qed.
Lemma reads_val h e l vs : sequence (map (read h) l) = Ret vs -> sequence (map (val true h e) l) = Ret vs.
Proof.
  intros H. apply sequence_ret in H. apply sequence_of. rewrite Forall2_map_l in H |- *. eapply Forall2_impl_in; [|exact H].
  intros a b _ _. apply read_val.
Qed.

Lemma sum_rest_total (o : ops V) call : forall xs res r, sum_rest o call res xs = Ret r ->
  exists ys, Forall2 (fun a y => call a = Ret y) xs ys /\ add_all o res ys = Ret r.
Proof.
  induction xs as [|x xs IH]; intros res r H; cbn [sum_rest] in H.
  - injection H as <-. exists []. split; [constructor|reflexivity].
  - apply bind_ret in H. destruct H as (y & Hy & H). apply bind_ret in H. destruct H as (s & Hs & H). apply IH in H. destruct H as (ys & HF & HA).
    exists (y :: ys). split; [constructor; auto|]. cbn [add_all]. now rewrite Hs.
Qed.
Lemma sum_domain_total (h : heap) call xs r : sum_f_domain (h_ops h) call xs = Ret r ->
  exists ys, Forall2 (fun a y => call a = Ret y) xs ys /\ total (h_ops h) ys = Ret r /\ xs <> [].
Proof.
  destruct xs as [|x xs]; cbn [sum_f_domain]; intros H; [discriminate|]. apply bind_ret in H. destruct H as (y & Hy & H).
  apply sum_rest_total in H. destruct H as (ys & HF & HA). exists (y :: ys). split; [constructor; auto|]. split; [exact HA|discriminate].
Qed.

Lemma operation_val h ev t cs x : operation h ev t cs = Ret x ->
  (forall b n d, sum_shape t cs = Some (b, n, d) -> forall v r, ev [(n, NVal v)] b = Ret r -> forall e, val true h e r = val true h (update e n (Ret v)) b) ->
  forall e, val true h e x = val true h e (NExpr t cs).
Proof.
  intros H HS e. unfold operation in H.
  destruct t; [|destruct (is_any_lazy cs) as [[|]|] eqn:EL; try discriminate H; try (injection H as <-; reflexivity)..]; rewrite val_expr.
  - (* terminal *) destruct cs as [|c [|? ?]]; try discriminate H; try (destruct c; discriminate H).
    assert (Hc : x = c) by (destruct c; try discriminate H; now injection H as <-).
    subst x. cbn [sum_shape map sequence]. destruct (val true h e c); reflexivity.
  - destruct cs as [|f args]; [discriminate|]. apply bind_ret in H. destruct H as (fv & Hf & H). apply bind_ret in H. destruct H as (vs & Hvs & H).
    apply bind_ret in H. destruct H as (r & Hr & H). injection H as <-. cbn [sum_shape map sequence].
    rewrite (read_val _ _ _ _ Hf), (reads_val _ _ _ _ Hvs). cbn [bind meaning]. now rewrite Hr.
  - destruct cs as [|f args]; [discriminate|]. apply bind_ret in H. destruct H as (fv & Hf & H). apply bind_ret in H. destruct H as (vs & Hvs & H).
    apply bind_ret in H. destruct H as (r & Hr & H). injection H as <-. cbn [sum_shape map sequence].
    rewrite (read_val _ _ _ _ Hf), (reads_val _ _ _ _ Hvs). cbn [bind meaning]. now rewrite Hr.
  - destruct cs as [|a [|b' [|? ?]]]; try discriminate. apply bind_ret in H. destruct H as (fv & Hf & H). apply bind_ret in H. destruct H as (vs & Hvs & H).
    apply bind_ret in H. destruct H as (r & Hr & H). injection H as <-. cbn [sum_shape map sequence].
    rewrite (read_val _ _ _ _ Hf), (read_val _ _ _ _ Hvs). cbn [bind meaning]. now rewrite Hr.
  - destruct cs as [|a [|? ?]]; try discriminate. apply bind_ret in H. destruct H as (fv & Hf & H). apply bind_ret in H. destruct H as (vs & Hvs & H).
    injection H as <-. cbn [sum_shape map sequence]. rewrite (read_val _ _ _ _ Hf). cbn [bind meaning]. now rewrite Hvs.
  - destruct cs as [|a [|b' [|c [|? ?]]]]; try discriminate. apply bind_ret in H. destruct H as (fv & Hf & H). apply bind_ret in H. destruct H as (vs & Hvs & H).
    apply bind_ret in H. destruct H as (r & Hr & H). apply bind_ret in H. destruct H as (q & Hq & H). injection H as <-.
    cbn [sum_shape map sequence]. rewrite (read_val _ _ _ _ Hf), (read_val _ _ _ _ Hvs), (read_val _ _ _ _ Hr). cbn [bind meaning]. now rewrite Hq.
  - destruct cs as [|[v|r|n|t l|b [|n [|n' is]]] [|d [|? ?]]]; try discriminate. apply bind_ret in H. destruct H as (dv & Hd & H). apply bind_ret in H. destruct H as (xs & Hxs & H).
    apply bind_ret in H. destruct H as (r & Hr & H). injection H as <-. cbn [sum_shape].
    apply sum_domain_total in Hr. destruct Hr as (ys & HF & HT & Hne). unfold sum_value. rewrite (read_val _ _ _ _ Hd). cbn [bind]. rewrite Hxs. cbn [bind].
    destruct xs as [|x0 xs]; [now elim Hne|].
    assert (HQ : sequence (map (fun v => val true h (update e n (Ret v)) b) (x0 :: xs)) = Ret ys).
    { apply sequence_of. rewrite Forall2_map_l. eapply Forall2_impl_in; [|exact HF]. intros v y _ _ Hv. apply bind_ret in Hv. destruct Hv as (r' & Hr' & Hy).
      rewrite <- (HS b n d eq_refl v r' Hr' e). now apply read_val. }
    rewrite HQ. cbn [bind]. now rewrite HT.
Qed.

Definition located (h : heap) (own : option nat) (p : list nat) (x : node) : Prop :=
  forall o, own = Some o -> exists root, h_exp h o = Some root /\ subnode root p = Some x.
Lemma subnode_app x p q : subnode x (p ++ q) = match subnode x p with Some y => subnode y q | None => None end.
Proof.
  revert x; induction p as [|i p IH]; intros x; [reflexivity|]. cbn [app subnode]. destruct x; auto. destruct (nth_error l i); auto.
Qed.

Lemma eval_sound k : forall h own p pairs x x', eval k h own p pairs x = Ret x' -> located h own p x -> bf pairs x -> sim h pairs x' x.
Proof.
  induction k as [|k IH]; intros h own p pairs x x' H HL B; [discriminate|]. cbn [eval] in H. destruct x as [v|r|n|t l|b is].
  - injection H as <-. split; [discriminate|]. intros e. cbn [val vref]. destruct own as [o|]; [|reflexivity].
    destruct (HL o eq_refl) as (root & Ho & Hp). cbn [deref]. now rewrite Ho, Hp.
  - injection H as <-. split; [discriminate|]. reflexivity.
  - destruct B as (ND & _ & _ & HF). destruct (key_cases pairs n) as [(i & r & Hi)|Hn].
    + rewrite (position_in pairs i n r ND Hi) in H. destruct (Z.eqb_spec (Z.of_nat i) (-1)); [lia|]. rewrite Nat2Z.id, Hi in H. injection H as <-.
      apply nth_error_In in Hi. split.
      * intros b is ->. apply (HF _ _ Hi).
      * intros e. cbn [val]. now rewrite (bnd_in _ _ _ _ n r).
    + rewrite (position_not_in pairs n Hn) in H. rewrite Z.eqb_refl in H. injection H as <-. split; [discriminate|]. intros e. cbn [val]. now rewrite bnd_out.
  - apply bind_ret in H. destruct H as (cs & Hcs & H). apply sequence_ret in Hcs.
    assert (HC : Forall2 (fun c c' => sim h pairs c' c) l cs).
    { eapply mapi_Forall2; [exact Hcs|]. intros j a b' Hj Hb. cbn beta in Hb. eapply IH; [exact Hb| |].
      - intros o Ho. destruct (HL o Ho) as (root & Hr & Hp). exists root. split; [auto|]. rewrite subnode_app, Hp. cbn [subnode plus Nat.add]. now rewrite Hj.
      - eapply bf_child; [exact B|]. eapply nth_error_In; eauto. }
    assert (HSh : Forall2 (fun c c' => incl (binders c') (binders c) /\ (no_shadowing c -> no_shadowing c')) l cs).
    { eapply mapi_Forall2; [exact Hcs|]. intros j a b' _ Hb. cbn beta in Hb. eapply eval_shape; [exact Hb|]. apply B. }
    clear Hcs. destruct (ev_lazy pairs (NExpr t l)) as [[|]|]; [| |discriminate].
    + injection H as <-. split; [discriminate|]. now apply sim_expr.
    + split; [intros b is ->; now apply operation_shape in H as [_ [_ H]]; elim (H b is)|]. intros e. rewrite <- (sim_expr h pairs t l cs B HC e).
      apply (operation_val _ _ _ _ _ H). intros b n d Es v r Hr e'. apply sum_shape_some in Es. destruct Es as [-> ->].
      inversion HSh as [|c1 ? l1 ? [HI HN] HSh1]; subst. inversion HC as [|? ? ? ? Hs HC1]; subst.
      destruct c1 as [| | | |b1 is1]; try (destruct Hs as [Hs _]; now elim (Hs b [n])). destruct Hs as (b1' & E & Hs). injection E as <- <-.
      assert (Hbf : bf [(n, NVal v)] b).
      { pose proof (bf_child _ _ _ _ B (or_introl eq_refl)) as (_ & NS & _ & _). destruct (HN NS) as [NS1 NS2].
        split; [repeat constructor; auto; intros []|]. split; [auto|]. split.
        - intros m Hm. split; [intros [<-|[]]|]. { apply (NS1 n); [now left|auto]. } intros k' r' [E'|[]]. injection E' as <- <-. intros [].
        - intros k' r' [E'|[]]. injection E' as <- <-. exact I. }
      pose proof (IH h None [] _ _ _ Hr (fun o E => ltac:(discriminate)) Hbf) as HR. rewrite (sim_val _ _ _ _ HR). apply val_free. intros m _.
      unfold bnd, update. cbn [find fst]. rewrite Nat.eqb_sym. destruct (Nat.eqb m n); reflexivity.
  - apply bind_ret in H. destruct H as (b' & Hb & H). pose proof (IH _ _ _ _ _ _ Hb) as HS.
    assert (HS' : sim h pairs b' b).
    { apply HS; [|eapply bf_body; eauto]. intros o Ho. destruct (HL o Ho) as (root & Hr & Hp). exists root. split; [auto|]. rewrite subnode_app, Hp. reflexivity. }
    destruct b' as [v|r|n|t l|b' is']; try (injection H as <-; eexists; split; [reflexivity|exact HS']; fail).
    apply bind_ret in H. destruct H as (v & Hv & H). injection H as <-. exists (NVal v). split; [reflexivity|].
    destruct b as [| | | |b0 is0]; try (destruct HS' as [_ HS']; split; [discriminate|]; intros e; rewrite <- HS'; cbn [val vref]; now rewrite Hv).
    destruct HS' as (b'' & E & _). discriminate.
Qed.
End L.
