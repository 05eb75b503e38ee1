(** Property C67: operations on arrays in host, device and unified memory. *)
From Coq Require Import List Bool Arith Lia.
Import ListNotations.
From Verif Require Import M_Space S_Space.

Lemma space_eqb_spec a b : space_eqb a b = true <-> a = b.
Proof. destruct a, b; cbn; split; intros e; congruence. Qed.
Lemma combine2_none a b : combine2 a b = None <-> (a = SHost /\ b = SDevice) \/ (a = SDevice /\ b = SHost).
Proof. destruct a, b; vm_compute; split; intros e; try discriminate e; try (destruct e as [[e1 e2]|[e1 e2]]; congruence); auto. Qed.
Lemma combine2_some a b m : combine2 a b = Some m -> (m = a \/ m = b) /\ space_num a <= space_num m /\ space_num b <= space_num m.
Proof. destruct a, b; vm_compute; intros e; try discriminate e; injection e as <-; repeat split; auto; lia. Qed.

Lemma combine_from_max l : forall a m, combine_from a l = Some m -> greatest m (a :: l).
Proof.
  induction l as [|b l IH]; intros a m e.
  - injection e as <-. split; [left; reflexivity|]. intros s [->|[]]. lia.
  - cbn [combine_from] in e. destruct (combine2 a b) as [c|] eqn:ec; [|discriminate e].
    destruct (IH c m e) as [i g]. destruct (combine2_some a b c ec) as [hc [ha hb]].
    pose proof (g c (or_introl eq_refl)) as gc. split.
    + destruct i as [i|i]; [destruct hc as [hc|hc]; subst; [left|right; left]; reflexivity|right; right; exact i].
    + intros s [h|[h|h]]; [subst s; lia|subst s; lia|apply g; right; exact h].
Qed.
Definition mixes (l : list space) : Prop := In SHost l /\ In SDevice l.
Lemma combine_from_none l : forall a, combine_from a l = None <-> mixes (before_unified (a :: l)).
Proof.
  induction l as [|b l IH]; intros a.
  - cbn [combine_from]. split; [discriminate|]. destruct a; intros [h1 h2]; cbn in h1, h2; intuition discriminate.
  - cbn [combine_from]. destruct (combine2 a b) as [c|] eqn:ec.
    + rewrite (IH c). unfold mixes. destruct a, b; vm_compute in ec; try discriminate ec; injection ec as <-; cbn [before_unified];
        cbn [In]; intuition (try discriminate).
    + split; [intros _|reflexivity]. apply combine2_none in ec. unfold mixes. destruct ec as [[-> ->]|[-> ->]]; cbn [before_unified In]; auto.
Qed.

(** Combining address spaces gives the greatest in the order none < host < device < unified, and is refused exactly if host and device both occur
    before the first unified space. *)
Theorem C67_combine : forall l, l <> [] ->
  (forall m, combine l = Some m -> greatest m l) /\ (combine l = None <-> In SHost (before_unified l) /\ In SDevice (before_unified l)).
Proof.
  intros l hl. destruct l as [|a l]; [congruence|]. destruct l as [|b l].
  - split.
    + intros m e. destruct a; vm_compute in e; injection e as <-; (split; [left; reflexivity|intros s [<-|[]]; lia]).
    + split; [destruct a; discriminate|]. destruct a; intros [h1 h2]; cbn in h1, h2; intuition discriminate.
  - split; [intros m e; exact (combine_from_max (b :: l) a m e)|exact (combine_from_none (b :: l) a)].
Qed.
Print Assumptions C67_combine.

(** so for two operands the order does not matter, *)
Theorem C67_combine_comm : forall a b, combine [a; b] = combine [b; a].
Proof. intros [] []; reflexivity. Qed.
Print Assumptions C67_combine_comm.
(** but for three operands it decides whether the code compiles *)
Theorem C67_combine_refuted :
  combine [SHost; SDevice; SUnified] = None /\ combine [SHost; SUnified; SDevice] = Some SUnified /\ combine [SUnified; SHost; SDevice] = Some SUnified.
Proof. repeat split; reflexivity. Qed.
Print Assumptions C67_combine_refuted.

(** induction on expressions *)
Definition sexpr_rect' (P : sexpr -> Prop) (hm : forall s, P (XMem s)) (hs : P XScalar) (hf : P XFun) (hb : forall l r, P l -> P r -> P (XBin l r))
    (hu : forall e, P e -> P (XUn e)) (hc : forall l, Forall P l -> P (XCall l)) : forall e, P e :=
  fix go (e : sexpr) : P e :=
    match e with
    | XMem s => hm s
    | XScalar => hs
    | XFun => hf
    | XBin l r => hb l r (go l) (go r)
    | XUn e => hu e (go e)
    | XCall l => hc l ((fix all l : Forall P l := match l with [] => Forall_nil _ | e :: l' => Forall_cons _ (go e) (all l') end) l)
    end.

Fixpoint spaces (l : list sexpr) : option (list space) :=
  match l with [] => Some [] | e :: l' => match expr_space e, spaces l' with Some s, Some r => Some (s :: r) | _, _ => None end end.
Lemma expr_space_call l : expr_space (XCall l) = match spaces l with Some ss => combine ss | None => None end.
Proof. reflexivity. Qed.
Lemma leaves_call l : leaves (XCall l) = flat_map leaves l.
Proof. reflexivity. Qed.

(** the space of an expression bounds the spaces of its leaves *)
Lemma leaf_bound : forall e m, expr_space e = Some m -> forall s, In s (leaves e) -> space_num s <= space_num m.
Proof.
  intros e. induction e as [s0| | |l r IHl IHr|e IH|l IH] using sexpr_rect'; intros m hm s hs.
  - injection hm as <-. destruct hs as [<-|[]]. lia.
  - destruct hs.
  - destruct hs.
  - cbn [expr_space] in hm. destruct (expr_space l) as [a|]; [|discriminate hm]. destruct (expr_space r) as [b|]; [|discriminate hm].
    destruct (combine_from_max [b] a m hm) as [_ g]. cbn [leaves] in hs. apply in_app_or in hs. destruct hs as [hs|hs].
    + specialize (IHl a eq_refl s hs). pose proof (g a (or_introl eq_refl)). lia.
    + specialize (IHr b eq_refl s hs). pose proof (g b (or_intror (or_introl eq_refl))). lia.
  - exact (IH m hm s hs).
  - rewrite expr_space_call in hm. rewrite leaves_call in hs. destruct (spaces l) as [ss|] eqn:es; [|discriminate hm].
    destruct ss as [|a0 ss0] eqn:ess; [discriminate hm|]. rewrite <- ess in *.
    assert (g : greatest m ss).
    { apply (proj1 (C67_combine ss ltac:(rewrite ess; discriminate))). exact hm. }
    clear hm ess. apply in_flat_map in hs. destruct hs as [e [he hs]]. destruct g as [_ g].
    revert ss es g. induction IH as [|e' l' he' hl' IHl]; intros ss es g; [destruct he|].
    cbn [spaces] in es. destruct (expr_space e') as [s'|] eqn:e1; [|discriminate es]. destruct (spaces l') as [r|] eqn:e2; [|discriminate es].
    injection es as <-. destruct he as [<-|he].
    + specialize (he' s' eq_refl s hs). pose proof (g s' (or_introl eq_refl)). lia.
    + apply (IHl he r eq_refl). intros t ht. apply g. right; exact ht.
Qed.
Lemma space_num_inj a b : space_num a = space_num b -> a = b.
Proof. destruct a, b; cbn; intros e; congruence. Qed.
(** the space of an expression with leaves in memory occurs among the leaves *)
Lemma space_attained : forall e m, expr_space e = Some m -> m = SNone \/ In m (leaves e).
Proof.
  intros e. induction e as [s0| | |l r IHl IHr|e IH|l IH] using sexpr_rect'; intros m hm.
  - injection hm as <-. right; left; reflexivity.
  - injection hm as <-. left; reflexivity.
  - injection hm as <-. left; reflexivity.
  - cbn [expr_space] in hm. destruct (expr_space l) as [a|]; [|discriminate hm]. destruct (expr_space r) as [b|]; [|discriminate hm].
    destruct (combine_from_max [b] a m hm) as [i _]. cbn [leaves]. destruct i as [<-|[<-|[]]].
    + destruct (IHl a eq_refl) as [h|h]; [left; exact h|right; apply in_or_app; left; exact h].
    + destruct (IHr b eq_refl) as [h|h]; [left; exact h|right; apply in_or_app; right; exact h].
  - exact (IH m hm).
  - rewrite expr_space_call in hm. rewrite leaves_call. destruct (spaces l) as [ss|] eqn:es; [|discriminate hm].
    destruct ss as [|a0 ss0] eqn:ess; [discriminate hm|]. rewrite <- ess in *.
    assert (g : greatest m ss).
    { apply (proj1 (C67_combine ss ltac:(rewrite ess; discriminate))). exact hm. }
    clear hm ess. destruct g as [g _].
    revert ss es g. induction IH as [|e' l' he' hl' IHl]; intros ss es g.
    + injection es as <-. destruct g.
    + cbn [spaces] in es. destruct (expr_space e') as [s'|] eqn:e1; [|discriminate es]. destruct (spaces l') as [r|] eqn:e2; [|discriminate es].
      injection es as <-. cbn [flat_map]. destruct g as [<-|g].
      * destruct (he' s' eq_refl) as [h|h]; [left; exact h|right; apply in_or_app; left; exact h].
      * destruct (IHl r eq_refl g) as [h|h]; [left; exact h|right; apply in_or_app; right; exact h].
Qed.

Lemma leaves_host e m : expr_space e = Some m -> m <> SDevice -> unmixed e -> Forall in_memory (leaves e) -> Forall host_may (leaves e).
Proof.
  intros hm hd hu hn. apply Forall_forall. intros s hs. pose proof (leaf_bound e m hm s hs) as hb.
  pose proof (proj1 (Forall_forall _ _) hn s hs) as hn'. unfold in_memory in hn'. unfold host_may.
  destruct s; [congruence|left; reflexivity| |right; reflexivity]. exfalso.
  destruct m; cbn in hb; try lia; [congruence|].
  destruct (space_attained e SUnified hm) as [h|h]; [discriminate h|]. exact (hu (conj hs h)).
Qed.
Lemma fallback_safe self e m : expr_space e = Some m -> in_memory self -> Forall in_memory (leaves e) -> unmixed e ->
  safe (if on_device [self] || on_device [m] then Throws else HostLoop (self :: leaves e)).
Proof.
  intros hm h1 h2 h3. destruct (on_device [self]) eqn:e1; [exact I|]. destruct (on_device [m]) eqn:e2; [exact I|]. cbn [orb safe]. constructor.
  - destruct self; [exfalso; apply h1; reflexivity|left; reflexivity|discriminate e1|right; reflexivity].
  - apply (leaves_host e m hm); [|exact h3|exact h2]. intros ->. discriminate e2.
Qed.

(** An assignment that is accepted never lets host code touch device memory, as long as the right hand side does not mix device and unified memory. *)
Theorem C67_assign : forall self rhs so em d1 sv bl, in_memory self -> Forall in_memory (leaves rhs) -> unmixed rhs ->
  safe (assign_action self rhs so em d1 sv bl).
Proof.
  intros self rhs so em d1 sv bl h1 h2 h3. unfold assign_action. destruct (expr_space rhs) as [rs|] eqn:er; [|exact I]. cbv zeta.
  pose proof (fallback_safe self rhs rs er h1 h2 h3) as hf.
  destruct (is_mem rhs) eqn:em1; [|exact hf]. destruct so; [|exact hf]. destruct rhs as [s| | | | |]; try discriminate em1.
  injection er as <-. pose proof (Forall_inv h2) as hs. unfold in_memory in h1, hs. cbn [andb leaves] in *.
  destruct em; [exact I|]. destruct self, s, d1, sv, bl; cbn in *; try exact I; try congruence;
    repeat split; try discriminate; repeat apply Forall_cons; try apply Forall_nil; unfold host_may; auto.
Qed.
Print Assumptions C67_assign.

(** In particular an assignment between two arrays is always safe *)
Theorem C67_assign_arrays : forall self s so em d1 sv bl, in_memory self -> in_memory s -> safe (assign_action self (XMem s) so em d1 sv bl).
Proof.
  intros self s so em d1 sv bl h1 h2. apply C67_assign; [exact h1|repeat constructor; exact h2|].
  intros [[h|[]] [h'|[]]]. congruence.
Qed.
Print Assumptions C67_assign_arrays.

(** and is neither refused nor stopped by an exception for want of a copy loop if neither side is in device memory. *)
Theorem C67_assign_host : forall self rhs so em d1 sv bl, host_may self -> Forall host_may (leaves rhs) -> bl <> BlError ->
  (exists m, expr_space rhs = Some m) ->
  let a := assign_action self rhs so em d1 sv bl in a <> Throws /\ a <> Reject /\ safe a.
Proof.
  intros self rhs so em d1 sv bl h1 h2 hbl [m hm] a.
  assert (hn : Forall in_memory (leaves rhs)).
  { revert h2. apply Forall_impl. intros s [->| ->]; discriminate. }
  assert (hu : unmixed rhs).
  { intros [h _]. destruct (proj1 (Forall_forall _ _) h2 _ h); discriminate. }
  assert (hs : in_memory self) by (destruct h1 as [->| ->]; discriminate).
  assert (md : m <> SDevice).
  { intros ->. destruct (space_attained rhs _ hm) as [h|h]; [discriminate h|]. destruct (proj1 (Forall_forall _ _) h2 _ h); discriminate. }
  assert (ms : m <> SNone -> is_mem rhs = true -> check_valid [self; m] = true).
  { intros hmn _. destruct self, m; try reflexivity; try congruence; destruct h1; discriminate. }
  assert (mn : is_mem rhs = true -> m <> SNone).
  { intros hi ->. destruct rhs as [s| | | | |]; try discriminate hi. injection hm as ->. inversion hn; congruence. }
  split; [|split; [|apply C67_assign; assumption]]; unfold a, assign_action; rewrite hm; cbv zeta.
  - assert (hfb : (if on_device [self] || on_device [m] then Throws else HostLoop (self :: leaves rhs)) <> Throws).
    { destruct self, m; cbn; try congruence; destruct h1; discriminate. }
    destruct (is_mem rhs && so); [|exact hfb]. destruct em; [discriminate|]. destruct (on_host [self; m] && d1); [discriminate|].
    destruct (negb (on_host [self; m]) && sv); [|exact hfb]. destruct bl; [|exact hfb|congruence].
    destruct (check_valid [self; m]); discriminate.
  - assert (hfb : (if on_device [self] || on_device [m] then Throws else HostLoop (self :: leaves rhs)) <> Reject) by (destruct (on_device [self] || on_device [m]); discriminate).
    destruct (is_mem rhs) eqn:hi; [|exact hfb]. destruct so; [|exact hfb]. cbn [andb]. destruct em; [discriminate|].
    destruct (on_host [self; m] && d1); [discriminate|].
    destruct (negb (on_host [self; m]) && sv); [|exact hfb]. destruct bl; [|exact hfb|discriminate].
    rewrite (ms (mn eq_refl) eq_refl). discriminate.
Qed.
Print Assumptions C67_assign_host.

(** An expression that mixes device and unified memory counts as unified: assigned to an array, it is evaluated by host code, which reads device memory. *)
Theorem C67_mixed_refuted : exists self e so em d1 sv bl,
  in_memory self /\ Forall in_memory (leaves e) /\ expr_space e = Some SUnified /\ ~ safe (assign_action self e so em d1 sv bl).
Proof.
  exists SUnified, (XBin (XMem SDevice) (XMem SUnified)), true, false, false, true, BlAgree.
  split; [discriminate|]. split; [repeat constructor; discriminate|]. split; [reflexivity|]. cbn. intros h.
  apply Forall_inv_tail in h. apply Forall_inv in h. destruct h; discriminate.
Qed.
Print Assumptions C67_mixed_refuted.

(** Assigning a scalar is always host code: safe exactly for host and unified memory *)
Theorem C67_fill : forall s, safe (fill_action s) <-> host_may s.
Proof. intros s. split; [intros h; exact (Forall_inv h)|intros h; constructor; [exact h|constructor]]. Qed.
Print Assumptions C67_fill.
Theorem C67_fill_refuted : in_memory SDevice /\ ~ safe (fill_action SDevice).
Proof. split; [discriminate|]. intros h. apply C67_fill in h. destruct h; discriminate. Qed.
Print Assumptions C67_fill_refuted.

Lemma host_compatible_spec l : have_host_compatible l = true <-> Forall host_may l.
Proof.
  unfold have_host_compatible. rewrite forallb_forall, Forall_forall. split; intros h s hs; specialize (h s hs); unfold host_may in *.
  - destruct s; cbn in h; try discriminate h; auto.
  - destruct h as [->| ->]; reflexivity.
Qed.
Lemma device_compatible_spec l : have_device_compatible l = true <-> Forall device_may l.
Proof.
  unfold have_device_compatible. rewrite forallb_forall, Forall_forall. split; intros h s hs; specialize (h s hs); unfold device_may in *.
  - destruct s; cbn in h; try discriminate h; auto.
  - destruct h as [->| ->]; reflexivity.
Qed.

(** The BLAS and LAPACK wrappers accept exactly the arguments that the host or the device can reach together, and run where they can be reached. *)
Theorem C67_library : forall args,
  (library_action args [] <> Reject <-> Forall host_may args \/ Forall device_may args) /\ safe (library_action args []).
Proof.
  intros args. unfold library_action, have_compatible. rewrite !app_nil_r. split.
  - destruct (have_host_compatible args) eqn:eh, (have_device_compatible args) eqn:ed; cbn [orb]; (split; [intros h|intros h]);
      try discriminate; rewrite <- ?host_compatible_spec, <- ?device_compatible_spec in *; try (left; assumption); try (right; assumption); try congruence.
    destruct h; congruence.
  - destruct (have_device_compatible args) eqn:ed.
    + rewrite orb_true_r. apply device_compatible_spec. exact ed.
    + rewrite orb_false_r. destruct (have_host_compatible args) eqn:eh; [|exact I]. apply host_compatible_spec. exact eh.
Qed.
Print Assumptions C67_library.

(** also with the buffers they allocate, *)
Theorem C67_buffers : forall a b c d, in_memory a -> in_memory b -> in_memory c -> in_memory d ->
  safe (gesvd_action a b c d) /\ safe (gemm_batch_action a b c) /\ safe (getri_action a b) /\ safe (scal_action a) /\
  safe (host_library_action [a; b; c; d]).
Proof.
  unfold in_memory. intros a b c d ha hb hc hd.
  destruct a; try (exfalso; congruence); destruct b; try (exfalso; congruence); destruct c; try (exfalso; congruence);
    destruct d; try (exfalso; congruence); repeat split; cbn; repeat apply Forall_cons; try apply Forall_nil; unfold host_may, device_may; auto.
Qed.
Print Assumptions C67_buffers.

(** and so do inversion and the products for element types that BLAS knows. *)
Theorem C67_linalg : forall l r small, in_memory l -> in_memory r ->
  Forall safe (inverse_actions l small) /\ Forall safe (matmul_actions l r true) /\ Forall safe (matvecmul_actions l r true) /\
  Forall safe (dot_actions l r true).
Proof.
  unfold in_memory. intros l r small hl hr. destruct l; try (exfalso; congruence); destruct r; try (exfalso; congruence); destruct small;
    cbn; repeat (apply conj || apply Forall_nil || apply Forall_cons); cbn; repeat apply Forall_cons; try apply Forall_nil; unfold host_may, device_may; auto.
Qed.
Print Assumptions C67_linalg.
(** For other element types the products loop on the host: safe without device memory, *)
Theorem C67_generic : forall l r, host_may l -> host_may r ->
  Forall safe (matmul_actions l r false) /\ Forall safe (matvecmul_actions l r false) /\ Forall safe (dot_actions l r false).
Proof.
  intros l r [->| ->] [->| ->]; cbn; repeat (apply conj || apply Forall_nil || apply Forall_cons); cbn; repeat apply Forall_cons; try apply Forall_nil; unfold host_may; auto.
Qed.
Print Assumptions C67_generic.
(** but device memory is accepted as well. *)
Theorem C67_generic_refuted :
  ~ Forall safe (matmul_actions SDevice SDevice false) /\ ~ Forall safe (matvecmul_actions SDevice SDevice false) /\
  ~ Forall safe (dot_actions SDevice SDevice false).
Proof.
  split; [|split]; intros h; apply Forall_inv in h; apply Forall_inv in h; destruct h; discriminate.
Qed.
Print Assumptions C67_generic_refuted.

(** The conversions between spaces are safe for every array; they copy blocks wherever both sides have agreeing blocks, and otherwise raise an exception
    if one side is in device memory. *)
Theorem C67_to_space : forall t x em d1 bl, in_memory t -> in_memory x ->
  match to_space_action t x em d1 bl with
  | None => x = t
  | Some a => x <> t /\ safe a /\ a <> Reject /\ (em = false -> bl = BlAgree -> a = Copy t x) /\
              (em = false -> bl = BlNone -> t = SDevice \/ x = SDevice -> a = Throws)
  end.
Proof.
  intros t x em d1 bl ht hx. pose proof (C67_assign_arrays t x true em d1 true bl ht hx) as hs. unfold to_space_action.
  destruct (space_eqb x t) eqn:e.
  - apply space_eqb_spec in e. exact e.
  - split; [intros h; rewrite (proj2 (space_eqb_spec x t) h) in e; discriminate e|]. split; [exact hs|]. clear hs. unfold in_memory in *.
    destruct t; try (exfalso; congruence); destruct x; try discriminate e; try (exfalso; congruence); destruct em, bl; cbn; repeat split; intros;
      try discriminate; try reflexivity; intuition discriminate.
Qed.
Print Assumptions C67_to_space.

(** The predicates on address spaces say what their names say *)
Theorem C67_predicates : forall l,
  (on_host l = true <-> Forall (eq SHost) l) /\ (on_device l = true <-> Forall (eq SDevice) l) /\ (on_unified l = true <-> Forall (eq SUnified) l) /\
  (have_host_compatible l = true <-> Forall host_may l) /\ (have_device_compatible l = true <-> Forall device_may l) /\ (have_compatible l = true <-> reachable l) /\
  (check_valid l = true <-> Forall in_memory l).
Proof.
  intros l. assert (on : forall t, forallb (fun s => space_eqb s t) l = true <-> Forall (eq t) l).
  { intros t. rewrite forallb_forall, Forall_forall. split; intros h s hs; specialize (h s hs); [symmetry|]; now apply space_eqb_spec. }
  split; [apply on|]. split; [apply on|]. split; [apply on|]. split; [apply host_compatible_spec|]. split; [apply device_compatible_spec|]. split.
  - unfold have_compatible, reachable. rewrite orb_true_iff, host_compatible_spec, device_compatible_spec. reflexivity.
  - unfold check_valid. rewrite forallb_forall, Forall_forall. split; intros h s hs; specialize (h s hs); unfold in_memory in *; destruct s; cbn in *; congruence.
Qed.
Print Assumptions C67_predicates.
Lemma library_wraps args work : wraps args (library_action args work).
Proof.
  unfold wraps, library_action. destruct (C67_predicates args) as (_ & _ & _ & _ & d & c & _). destruct (have_compatible args) eqn:ec.
  - assert (r : reachable args) by now apply c. destruct (have_device_compatible args) eqn:ed.
    + split; [split; [intros _; exact r|discriminate]|]. split; [intros _; exists work; reflexivity|]. split; [intros _; now apply d|intros _; exact I].
    + split; [split; [intros _; exact r|discriminate]|]. split; [intros _; exists work; reflexivity|]. split; [intros []|]. intros h. apply d in h. discriminate h.
  - split; [split; [congruence|]|split; [congruence|]].
    + intros r. apply c in r. discriminate r.
    + split; [intros []|]. intros h. assert (r : reachable args) by now right. apply c in r. discriminate r.
Qed.
(** Every wrapper passes on all its arguments, under exactly the condition that they can be reached; scal is never refused; gtsv and gelss want the host. *)
Theorem C67_wrappers : forall a b c d args,
  wraps args (library_action args []) /\ wraps [a; b; c; d] (gesvd_action a b c d) /\ wraps [a; b; c] (gemm_batch_action a b c) /\ wraps [a; b] (getri_action a b) /\
  (touches (scal_action a) = [a] /\ (on_the_device (scal_action a) <-> a <> SHost)) /\
  ((host_library_action args <> Reject <-> Forall (eq SHost) args) /\ (host_library_action args <> Reject -> host_library_action args = HostLoop args)).
Proof.
  intros a b c d args. split; [apply library_wraps|]. split; [apply library_wraps|]. split; [apply library_wraps|]. split; [|split].
  - pose proof (library_wraps [a; b] []) as (h1 & h2 & h3). unfold wraps, getri_action. destruct (library_action [a; b] []) as [| | |l|l|d0 s0] eqn:e; try (split; [exact h1|split; [exact h2|exact h3]]).
    split; [split; [intros _; apply h1; discriminate|discriminate]|]. split; [|exact h3]. intros _. destruct (h2 ltac:(discriminate)) as [w hw]. cbn [touches] in *. rewrite hw. exists (w ++ [SHost]). now rewrite app_assoc.
  - unfold scal_action. destruct a; cbn; split; try reflexivity; split; intros h; try exact I; try congruence; try destruct h; discriminate.
  - unfold host_library_action. destruct (C67_predicates args) as (h & _). destruct (on_host args); (split; [split; [intros _; now apply h|discriminate]|intros _; reflexivity]) || (split; [split; [congruence|intros f; apply h in f; discriminate f]|congruence]).
Qed.
Print Assumptions C67_wrappers.
(** The products are accepted exactly if the arguments can be reached as a whole (matvecmul: if they are in the same space), they use both arguments and a result whose
    space is the combined one; inverse_in_place is accepted exactly if the host can reach the matrix. *)
Theorem C67_products : forall l r blas_type small,
  (~ In Reject (matmul_actions l r blas_type) <-> reachable [l; r]) /\ (~ In Reject (dot_actions l r blas_type) <-> reachable [l; r]) /\
  (~ In Reject (matvecmul_actions l r blas_type) <-> l = r /\ in_memory l) /\ (~ In Reject (inverse_actions l small) <-> host_may l) /\
  (reachable [l; r] -> exists res acts a, combine [l; r] = Some res /\ matmul_actions l r blas_type = acts ++ [a] /\ touches a = [l; r; res]) /\
  (reachable [l; r] -> exists a, dot_actions l r blas_type = [a] /\ touches a = [l; r]) /\
  (l = r -> in_memory l -> exists acts a, matvecmul_actions l r blas_type = acts ++ [a] /\ touches a = [l; r; l]) /\
  (host_may l -> Forall (fun a => In l (touches a)) (inverse_actions l small)).
Proof.
  assert (rf : forall l r, reachable [l; r] <-> (host_may l /\ host_may r) \/ (device_may l /\ device_may r)).
  { intros l r. unfold reachable. rewrite !Forall_cons_iff. pose proof (Forall_nil host_may). pose proof (Forall_nil device_may). tauto. }
  intros l r blas_type small. rewrite !rf. unfold host_may, device_may, in_memory.
  split; [|split; [|split; [|split; [|split; [|split; [|split]]]]]].
  - destruct l, r, blas_type; cbn; intuition (discriminate || congruence).
  - destruct l, r, blas_type; cbn; intuition (discriminate || congruence).
  - destruct l, r, blas_type; cbn; intuition (discriminate || congruence).
  - destruct l, small; cbn; intuition (discriminate || congruence).
  - destruct l, r, blas_type; cbn; intros h; try (exfalso; intuition discriminate);
      first [eexists; exists []; eexists; repeat split; reflexivity|eexists; eexists [_]; eexists; repeat split; reflexivity].
  - destruct l, r, blas_type; cbn; intros h; try (exfalso; intuition discriminate); eexists; split; reflexivity.
  - intros <- h. destruct l; [congruence|..]; destruct blas_type; cbn; first [exists []; eexists; split; reflexivity|eexists [_]; eexists; split; reflexivity].
  - destruct l, small; cbn; intros h; try (exfalso; intuition discriminate); repeat constructor.
Qed.
Print Assumptions C67_products.
(** What an assignment uses: the two arrays for a copy, the target and every array of the expression otherwise *)
Theorem C67_assign_uses : forall self rhs so em d1 sv bl,
  match assign_action self rhs so em d1 sv bl with
  | Copy d s => d = self /\ rhs = XMem s
  | HostLoop l => l = self :: leaves rhs
  | Nothing => em = true
  | DeviceCall _ => False
  | Reject => expr_space rhs = None \/ ~ in_memory self \/ rhs = XMem SNone
  | Throws => self = SDevice \/ expr_space rhs = Some SDevice \/ bl = BlError
  end.
Proof.
  intros self rhs so em d1 sv bl. unfold assign_action. destruct (expr_space rhs) as [rs|] eqn:er; [|left; reflexivity]. cbv zeta.
  assert (fb : match (if on_device [self] || on_device [rs] then Throws else HostLoop (self :: leaves rhs)) with
               | Copy d s => d = self /\ rhs = XMem s | HostLoop l => l = self :: leaves rhs | Nothing => em = true | DeviceCall _ => False
               | Reject => Some rs = None \/ ~ in_memory self \/ rhs = XMem SNone | Throws => self = SDevice \/ Some rs = Some SDevice \/ bl = BlError end).
  { destruct self, rs; cbn; auto. }
  destruct (is_mem rhs) eqn:im; [|exact fb]. destruct so; [|exact fb]. cbn [andb]. destruct em; [reflexivity|]. destruct (on_host [self; rs] && d1); [reflexivity|].
  destruct (negb (on_host [self; rs]) && sv); [|exact fb]. destruct bl; [|exact fb|auto]. destruct rhs as [s| | | | |]; try discriminate im. injection er as <-.
  destruct (check_valid [self; s]) eqn:cv; [auto|]. right. destruct self, s; cbn in cv; try discriminate cv; unfold in_memory; auto.
Qed.
Print Assumptions C67_assign_uses.

Example C67_example :
  unmixed (XBin (XMem SDevice) (XUn (XBin XScalar (XMem SDevice)))) /\
  assign_action SDevice (XBin (XMem SDevice) (XMem SDevice)) true false true true BlAgree = Throws /\
  assign_action SDevice (XMem SHost) true false true true BlAgree = Copy SDevice SHost /\
  assign_action SHost (XCall [XMem SUnified; XFun]) true false true true BlAgree = HostLoop [SHost; SUnified] /\
  matmul_actions SUnified SDevice true = [DeviceCall [SUnified; SDevice; SUnified]] /\ inverse_actions SDevice true = [Reject; Reject] /\
  inverse_actions SUnified true = [HostLoop [SUnified; SHost]; HostLoop [SUnified; SHost; SHost]].
Proof. split; [|repeat split; reflexivity]. intros [_ h]. cbn in h. intuition discriminate. Qed.
