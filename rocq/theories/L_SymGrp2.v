(** Lemmas for P_SymGrp: init and symmetrize. *)
From Verif Require Import Base M_Perm M_IdxMap M_Loops M_Assign M_Expr M_Transform M_SymGrp S_Layout S_Assign S_SymGrp L_Perm L_IdxMap L_Layout L_Loops L_Assign L_Transform L_SymGrp.

Section Use.
Context {V : Type}.
Variables (opp conj : V -> V) (shape : list Z) (x : view).
Hypothesis Hs : Forall (fun l => 0 <= l) shape.
Hypothesis Hx : c_ordered shape x.
Notation b := (v_base x).
Notation P := (prodZ shape).
Notation call := (op_call opp conj).

Lemma x_usable : usable (v_lay x).
Proof using Hx. destruct Hx as (L & (n & off & Hv) & A). eapply view_usable; eauto. Qed.
Lemma x_cell idx : in_range idx shape -> cell x idx = b + radix shape idx.
Proof using Hx. intros Hi. destruct Hx as (L & _ & A). unfold cell. now rewrite A. Qed.
Lemma pos_digits p : 0 <= p < P -> in_range (digits shape p) shape /\ radix shape (digits shape p) = p.
Proof using Hs.
  intros Hp. assert (Hpos : Forall (fun l => 0 < l) shape) by (apply prodZ_pos_Forall; auto; lia).
  split; [now apply digits_in_range|now apply radix_digits].
Qed.
Lemma x_pos p : 0 <= p < P -> to_idx (v_lay x) p = Some (digits shape p) /\ elem x (digits shape p) = b + p.
Proof using Hs Hx.
  intros Hp. destruct (pos_digits p Hp) as [Hd Er]. pose proof x_usable as U. destruct Hx as (L & (n & off & Hv) & A).
  assert (Hiv : in_view x (digits shape p)) by (unfold in_view, valid_idx; now rewrite L).
  split.
  - rewrite <- Er at 1. fold (c_position shape (digits shape p)). rewrite <- A by auto. eapply view_to_idx; eauto.
  - rewrite elem_cell_in; auto. rewrite x_cell by auto. now rewrite Er.
Qed.

Definition ok_cls (cls : list (list sym_idx)) : Prop :=
  NoDup (map fst (concat cls)) /\ (forall p, In p (map fst (concat cls)) -> 0 <= p < P) /\ Forall (fun c => c <> []) cls.
Lemma ok_cons c cls : ok_cls (c :: cls) -> NoDup (map fst c) /\ (forall e, In e c -> 0 <= fst e < P) /\ c <> [] /\ ok_cls cls /\
  forall p, In p (map fst c) -> ~ In p (map fst (concat cls)).
Proof.
  intros (ND & B & Ne). cbn [concat] in *. rewrite map_app in *. inversion Ne as [|y l Nc Nl]; subst.
  split; [now apply NoDup_app_l in ND|]. split; [intros e He; apply B, in_app_iff; left; now apply in_map|]. split; [auto|]. split.
  - split; [now apply NoDup_app_r in ND|]. split; auto. intros p Hp. apply B, in_app_iff. now right.
  - intros p H1 H2. exact (NoDup_app_disjoint _ _ ND p H1 H2).
Qed.

Definition rep_val (f : list Z -> V) (c : list sym_idx) : V := f (digits shape (fst (hd (0, neutral) c))).

Lemma put_fold (c : list sym_idx) v m : (forall e, In e c -> 0 <= fst e < P) ->
  fold_left (fun om e => put x om (fst e) (call (snd e) v)) c (Some m) = Some (fold_left (fun m e => mset m (b + fst e) (call (snd e) v)) c m).
Proof using Hs Hx.
  revert m. induction c as [|e c IH]; intros m H; cbn [fold_left]; [reflexivity|].
  unfold put at 2. destruct (x_pos (fst e) (H e (or_introl eq_refl))) as [-> ->]. apply IH. intros e' He'. apply H. now right.
Qed.
Lemma map_badd (l : list sym_idx) : map (fun e => b + fst e) l = map (Z.add b) (map fst l).
Proof. now rewrite map_map. Qed.
Lemma NoDup_badd (l : list sym_idx) : NoDup (map fst l) -> NoDup (map (fun e => b + fst e) l).
Proof. intros H. rewrite map_badd. apply FinFun.Injective_map_NoDup; auto. intros u v E. lia. Qed.
Lemma in_badd (l : list sym_idx) p : In (b + p) (map (fun e => b + fst e) l) <-> In p (map fst l).
Proof. rewrite map_badd, in_map_iff. split; [intros (q & E & H); now replace p with q by lia|intros H; now exists p]. Qed.

Lemma init_class_spec f m c : NoDup (map fst c) -> (forall e, In e c -> 0 <= fst e < P) -> c <> [] ->
  exists m', init_class opp conj x f (Some m) c = Some m' /\ (forall e, In e c -> m' (b + fst e) = call (snd e) (rep_val f c)) /\
    (forall a, ~ In a (map (fun e => b + fst e) c) -> m' a = m a).
Proof using Hs Hx.
  intros ND B Ne. destruct c as [|[l0 o0] c]; [congruence|]. unfold init_class. set (cc := (l0, o0) :: c) in *.
  pose proof (B (l0, o0) (or_introl eq_refl)) as B0. cbn [fst] in B0. destruct (x_pos l0 B0) as [-> ->]. rewrite put_fold by auto.
  eexists. split; [reflexivity|]. replace (f (digits shape l0)) with (rep_val f cc) by reflexivity. split.
  - intros e He. apply (write_values cc (fun e => b + fst e) (fun _ e => call (snd e) (rep_val f cc))); auto. now apply NoDup_badd.
  - intros a Ha. rewrite (write_frame cc (fun e => b + fst e) (fun _ e => call (snd e) (rep_val f cc))) by auto.
    apply mset_neq. intros ->. apply Ha. left. reflexivity.
Qed.
Lemma init_spec f cls m : ok_cls cls ->
  exists m', init opp conj x cls f m = Some m' /\ (forall c e, In c cls -> In e c -> m' (b + fst e) = call (snd e) (rep_val f c)) /\
    (forall a, ~ In a (map (fun e => b + fst e) (concat cls)) -> m' a = m a).
Proof using Hs Hx.
  unfold init. revert m. induction cls as [|c cls IH]; intros m Ok; cbn [fold_left].
  - exists m. split; [reflexivity|]. split; [intros c e []|auto].
  - destruct (ok_cons _ _ Ok) as (ND & B & Ne & Ok' & Dj). destruct (init_class_spec f m c ND B Ne) as (m1 & E1 & V1 & F1). rewrite E1.
    destruct (IH m1 Ok') as (m2 & E2 & V2 & F2). exists m2. split; [exact E2|]. split.
    + intros c' e [<-|Hc] He; [|eauto]. rewrite F2; [auto|]. rewrite in_badd. apply Dj. now apply in_map.
    + intros a Ha. cbn [concat] in Ha. rewrite map_app, in_app_iff in Ha. rewrite F2, F1; auto.
Qed.

(** parallel *)
Lemma zeros_spec (zero : V) (m : mem V) : let z := for_each (im_len (v_lay x)) (fun idx m => mset m (elem x idx) zero) m in
  forall p, 0 <= p < P -> z (b + p) = zero.
Proof using Hs Hx.
  intros z p Hp. unfold z. rewrite for_each_fold. pose proof x_usable as U. pose proof Hx as (L & _ & _). rewrite L.
  rewrite (fold_left_ext_in _ (fun m idx => mset m (cell x idx) zero)).
  - destruct (write_view x (all_idx shape) (fun _ _ => zero) m U (all_idx_NoDup shape)) as [H _].
    + intros idx. rewrite all_idx_In. unfold in_view, valid_idx. now rewrite L.
    + intros idx m1 m2 _ _. reflexivity.
    + destruct (pos_digits p Hp) as [Hd Er]. specialize (H (digits shape p)). rewrite x_cell, Er in H by auto. apply H.
      unfold in_view, valid_idx. now rewrite L.
  - intros idx m' Hi. f_equal. apply elem_cell_in; auto. unfold in_view, valid_idx. rewrite L. now apply all_idx_In.
Qed.

Lemma ok_perm cls cls' : Permutation cls cls' -> ok_cls cls -> ok_cls cls'.
Proof.
  intros Pm (ND & B & Ne). assert (Pc : Permutation (map fst (concat cls)) (map fst (concat cls'))).
  { apply Permutation_map. clear -Pm. induction Pm; cbn [concat]; auto.
    - now apply Permutation_app_head.
    - rewrite !app_assoc. apply Permutation_app_tail, Permutation_app_comm.
    - etransitivity; eauto. }
  split; [eapply Permutation_NoDup; eauto|]. split.
  - intros p Hp. apply B. eapply Permutation_in; [apply Permutation_sym|]; eauto.
  - rewrite Forall_forall in *. intros c Hc. apply Ne. eapply Permutation_in; [apply Permutation_sym|]; eauto.
Qed.
Lemma ok_app a c : ok_cls (a ++ c) -> ok_cls a /\ ok_cls c /\ forall p, In p (map fst (concat a)) -> ~ In p (map fst (concat c)).
Proof.
  intros (ND & B & Ne). rewrite concat_app, map_app in *. rewrite Forall_app in Ne. destruct Ne as [Na Nc]. split; [|split].
  - split; [now apply NoDup_app_l in ND|]. split; auto. intros p Hp. apply B, in_app_iff. now left.
  - split; [now apply NoDup_app_r in ND|]. split; auto. intros p Hp. apply B, in_app_iff. now right.
  - intros p H1 H2. exact (NoDup_app_disjoint _ _ ND p H1 H2).
Qed.

Lemma parallel_spec (zero : V) (add : V -> V -> V) f (z : mem V) p (v : V) : (forall p, 0 <= p < P -> z (b + p) = zero) -> (forall v, add zero v = v) -> (forall v, add v zero = v) -> 0 <= p < P ->
  forall parts acc, ok_cls (concat parts) ->
  (In p (map fst (concat (concat parts))) -> acc = zero) ->
  (forall c e, In c (concat parts) -> In e c -> fst e = p -> call (snd e) (rep_val f c) = v) ->
  fold_left (fun acc part => match acc, init opp conj x part f z with Some a, Some m' => Some (add a (m' (b + p))) | _, _ => None end) parts (Some acc)
  = Some (if in_dec Z.eq_dec p (map fst (concat (concat parts))) then v else acc).
Proof using Hs Hx.
  intros Hz Zl Zr Hp. induction parts as [|part parts IH]; intros acc Ok Ha Hv; cbn [fold_left concat] in *.
  - destruct in_dec as [[]|]; reflexivity.
  - destruct (ok_app _ _ Ok) as (Ok1 & Ok2 & Dj). destruct (init_spec f part z Ok1) as (m1 & E1 & V1 & F1). rewrite E1.
    rewrite IH; auto.
    + rewrite concat_app, map_app. destruct (in_dec Z.eq_dec p (map fst (concat part))) as [I1|N1].
      * destruct (in_dec _ p (map fst (concat (concat parts)))) as [I2|N2]; [exfalso; eapply Dj; eauto|].
        destruct in_dec as [_|N]; [|exfalso; apply N, in_app_iff; now left]. f_equal.
        rewrite Ha by (rewrite concat_app, map_app, in_app_iff; now left). rewrite Zl. apply in_map_iff in I1. destruct I1 as [e [Ee He]].
        apply in_concat in He. destruct He as [c [Hc He]]. rewrite <- Ee, (V1 c e Hc He). apply Hv; auto. apply in_app_iff. now left.
      * rewrite F1 by (now rewrite in_badd). rewrite Hz by auto. rewrite Zr.
        destruct (in_dec _ p (map fst (concat (concat parts)))) as [I2|N2]; destruct in_dec as [I|N]; auto.
        -- exfalso. apply N, in_app_iff. now right.
        -- apply in_app_iff in I. tauto.
    + intros I2. destruct (in_dec Z.eq_dec p (map fst (concat part))) as [I1|N1]; [exfalso; eapply Dj; eauto|].
      rewrite F1 by (now rewrite in_badd). rewrite Hz by auto. rewrite Zr. apply Ha. rewrite concat_app, map_app, in_app_iff. now right.
    + intros c e Hc He Ee. apply Hv; auto. apply in_app_iff. now right.
Qed.

(** ** symmetrize *)
Context {D : Type}.
Variables (zero : V) (add sub : V -> V -> V) (divn : V -> Z -> V) (d0 : D) (abs : V -> D) (gtb : D -> D -> bool).
Definition avg (m : mem V) (c : list sym_idx) : V :=
  divn (fold_left add (map (fun e => call (snd e) (m (b + fst e))) c) zero) (Z.of_nat (length c)).
Lemma class_sum_spec m c : (forall e, In e c -> 0 <= fst e < P) ->
  class_sum opp conj x zero add m c = Some (fold_left add (map (fun e => call (snd e) (m (b + fst e))) c) zero).
Proof using Hs Hx.
  unfold class_sum. generalize zero. induction c as [|e c IH]; intros z H; cbn [fold_left map]; [reflexivity|].
  unfold get at 2. destruct (x_pos (fst e) (H e (or_introl eq_refl))) as [-> ->]. apply IH. intros e' He'. apply H. now right.
Qed.
Definition diff (m m' : mem V) (p : Z) : D := abs (sub (m' (b + p)) (m (b + p))).
(** [ps]: the positions looked at so far *)
Definition best_of (m m' : mem V) (ps : list Z) (bst : D * list Z) : Prop :=
  (forall p, In p ps -> gtb (diff m m' p) (fst bst) = false) /\
  (bst = (d0, map (fun _ => 0) shape) \/ exists p, In p ps /\ snd bst = digits shape p /\ fst bst = diff m m' p /\ gtb (fst bst) d0 = true).
Lemma best_step m m' ps bst p : strict gtb -> best_of m m' ps bst ->
  best_of m m' (p :: ps) (if gtb (diff m m' p) (fst bst) then (diff m m' p, digits shape p) else bst).
Proof.
  intros [Ir Tr] [A B]. destruct (gtb (diff m m' p) (fst bst)) eqn:E; split; cbn [fst snd].
  - intros q [<-|Hq]; [apply Ir|]. destruct (gtb (diff m m' q) (diff m m' p)) eqn:Eq; [|auto]. specialize (A q Hq). rewrite (Tr _ _ _ Eq E) in A. discriminate.
  - right. exists p. split; [now left|]. split; auto. split; auto. destruct B as [->|(q & _ & _ & _ & G)]; [exact E|eapply Tr; eauto].
  - intros q [<-|Hq]; auto.
  - destruct B as [B|(q & Hq & B)]; [now left|right]. exists q. split; [now right|auto].
Qed.
Lemma best_ext m m1 m2 ps bst : (forall p, In p ps -> m1 (b + p) = m2 (b + p)) -> best_of m m1 ps bst -> best_of m m2 ps bst.
Proof.
  intros H [A B]. split.
  - intros p Hp. unfold diff. rewrite <- H by auto. now apply A.
  - destruct B as [B|(p & Hp & E1 & E2 & G)]; [now left|right]. exists p. repeat (split; auto). rewrite E2. unfold diff. now rewrite H.
Qed.

Lemma elements_spec m0 r c : strict gtb -> forall (m : mem V) bst ps, NoDup (map fst c) -> (forall e, In e c -> 0 <= fst e < P) ->
  (forall p, In p (map fst c) -> ~ In p ps) -> (forall e, In e c -> m (b + fst e) = m0 (b + fst e)) -> best_of m0 m ps bst ->
  exists m' bst', fold_left (sym_element opp conj x sub abs gtb r) c (Some (m, bst)) = Some (m', bst') /\
    (forall e, In e c -> m' (b + fst e) = call (snd e) r) /\ (forall a, ~ In a (map (fun e => b + fst e) c) -> m' a = m a) /\
    best_of m0 m' (map fst c ++ ps) bst'.
Proof using Hs Hx zero add divn.
  intros St. induction c as [|e c IH]; intros m bst ps ND B Dj Hm Hb; cbn [fold_left].
  - exists m, bst. split; [reflexivity|]. split; [intros e []|]. split; auto.
  - destruct bst as [md mi]. unfold sym_element at 2. destruct (x_pos (fst e) (B e (or_introl eq_refl))) as [-> ->].
    cbn [map] in ND. inversion ND as [|y l Hn ND']; subst.
    set (m1 := mset m (b + fst e) (call (snd e) r)).
    assert (M1 : m1 (b + fst e) = call (snd e) r) by apply mset_eq.
    assert (F1 : forall a, a <> b + fst e -> m1 a = m a) by (intros a Ha; now apply mset_neq).
    assert (Hb1 : best_of m0 m1 (fst e :: ps) (if gtb (abs (sub (call (snd e) r) (m (b + fst e)))) md then (abs (sub (call (snd e) r) (m (b + fst e))), digits shape (fst e)) else (md, mi))).
    { assert (E : abs (sub (call (snd e) r) (m (b + fst e))) = diff m0 m1 (fst e)) by (unfold diff; now rewrite M1, Hm by now left).
      rewrite E. apply (best_step m0 m1 ps (md, mi) (fst e) St). eapply best_ext; [|exact Hb]. intros p Hp. symmetry. apply F1.
      intros C. apply (Dj (fst e)); [now left|]. now replace (fst e) with p by lia. }
    assert (Q1 : forall e', In e' c -> 0 <= fst e' < P) by (intros e' He'; apply B; now right).
    assert (Q2 : forall p, In p (map fst c) -> ~ In p (fst e :: ps)).
    { intros p Hp [<-|Hq]; [contradiction|]. apply (Dj p); auto. now right. }
    assert (Q3 : forall e', In e' c -> m1 (b + fst e') = m0 (b + fst e')).
    { intros e' He'. rewrite F1; [apply Hm; now right|]. intros C. apply Hn. replace (fst e) with (fst e') by lia. now apply in_map. }
    destruct (IH m1 _ (fst e :: ps) ND' Q1 Q2 Q3 Hb1) as (m2 & bst2 & E2 & V2 & F2 & B2).
    { exists m2, bst2. split; [exact E2|]. split; [|split].
      * intros e' [<-|He']; [|auto]. rewrite F2; auto. now rewrite in_badd.
      * intros a Ha. rewrite F2, F1; auto; intros C; apply Ha; [now left|now right].
      * destruct B2 as [BA BB]. split.
        -- intros p Hp. apply BA. cbn [map app] in Hp. rewrite in_app_iff in *. destruct Hp as [->|Hp]; [right; now left|]. apply in_app_iff in Hp. destruct Hp; [left|right; right]; auto.
        -- destruct BB as [BB|(p & Hp & BB)]; [now left|right]. exists p. split; auto. cbn [map app]. rewrite in_app_iff in *. cbn [In] in *. rewrite in_app_iff. tauto. }
Qed.

Lemma symmetrize_spec cls : strict gtb -> forall (m0 m : mem V) bst ps, ok_cls cls ->
  (forall p, In p (map fst (concat cls)) -> ~ In p ps) -> (forall p, In p (map fst (concat cls)) -> m (b + p) = m0 (b + p)) -> best_of m0 m ps bst ->
  exists m' bst', fold_left (sym_class_step opp conj x zero add sub divn abs gtb) cls (Some (m, bst)) = Some (m', bst') /\
    (forall c e, In c cls -> In e c -> m' (b + fst e) = call (snd e) (avg m0 c)) /\ (forall a, ~ In a (map (fun e => b + fst e) (concat cls)) -> m' a = m a) /\
    best_of m0 m' (map fst (concat cls) ++ ps) bst'.
Proof using Hs Hx zero add divn.
  intros St m0. induction cls as [|c cls IH]; intros m bst ps Ok Dj Hm Hb; cbn [fold_left concat].
  - exists m, bst. split; [reflexivity|]. split; [intros c e []|]. split; auto.
  - destruct (ok_cons _ _ Ok) as (ND & B & Ne & Ok' & Dj'). cbn [concat] in Dj, Hm. rewrite map_app in Dj, Hm.
    unfold sym_class_step at 2. rewrite class_sum_spec by auto.
    assert (Ea : divn (fold_left add (map (fun e => call (snd e) (m (b + fst e))) c) zero) (Z.of_nat (length c)) = avg m0 c).
    { unfold avg. f_equal. f_equal. apply map_ext_in. intros e He. rewrite Hm; auto. apply in_app_iff. left. now apply in_map. }
    cbv zeta. rewrite Ea.
    destruct (elements_spec m0 (avg m0 c) c St m bst ps ND B) as (m1 & b1 & E1 & V1 & F1 & B1); auto.
    { intros p Hp. apply Dj, in_app_iff. now left. } { intros e He. apply Hm, in_app_iff. left. now apply in_map. }
    rewrite E1. destruct (IH m1 b1 (map fst c ++ ps) Ok') as (m2 & b2 & E2 & V2 & F2 & B2); auto.
    { intros p Hp. rewrite in_app_iff. intros [C|C]; [eapply Dj'; eauto|]. apply (Dj p); auto. apply in_app_iff. now right. }
    { intros p Hp. rewrite F1; [apply Hm, in_app_iff; now right|]. rewrite in_badd. intros C. eapply Dj'; eauto. }
    exists m2, b2. split; [exact E2|]. split; [|split].
    + intros c' e [<-|Hc] He; [|eauto]. rewrite F2; auto. rewrite in_badd. apply Dj'. now apply in_map.
    + intros a Ha. rewrite map_app, in_app_iff in Ha. rewrite F2, F1; auto.
    + destruct B2 as [BA BB]. rewrite map_app. split.
      * intros p Hp. apply BA. rewrite !in_app_iff in *. tauto.
      * destruct BB as [BB|(p & Hp & BB)]; [now left|right]. exists p. split; auto. rewrite !in_app_iff in *. tauto.
Qed.
End Use.
