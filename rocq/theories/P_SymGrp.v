(** C34, C35: symmetry classes, init and symmetrize. *)
From Verif Require Import Base M_Perm M_IdxMap M_Loops M_Assign M_Expr M_Transform M_SymGrp S_Layout S_Assign S_SymGrp L_Perm L_IdxMap L_Layout L_Loops L_Assign L_Transform L_SymGrp L_SymGrp2.

Lemma built shape syms ml fuel g : Forall (fun l => 0 <= l) shape -> (0 < length shape < 16)%nat -> keep_rank (length shape) syms ->
  build shape syms ml fuel = Some g -> cinv shape syms ml g /\ Permutation (map fst (concat (get_sym_classes g))) (zseq (prodZ shape)).
Proof.
  intros Hs HR Hk E. set (big := (fuel + S (Z.to_nat (prodZ shape) * (Z.to_nat ml + 1) + Z.to_nat ml))%nat).
  destruct (build_spec shape Hs HR syms ml Hk big ltac:(unfold big; lia)) as (g' & E' & C & R).
  apply (build_mono _ _ _ fuel big) in E; [|unfold big; lia]. rewrite E in E'. injection E' as <-. split; [exact C|]. eapply build_perm; eauto.
Qed.
Lemma built_ok shape syms ml fuel g : Forall (fun l => 0 <= l) shape -> (0 < length shape < 16)%nat -> keep_rank (length shape) syms ->
  build shape syms ml fuel = Some g -> ok_cls shape (get_sym_classes g).
Proof.
  intros Hs HR Hk E. destruct (built _ _ _ _ _ Hs HR Hk E) as [C Pm]. split; [|split].
  - eapply Permutation_NoDup; [apply Permutation_sym, Pm|apply zseq_nodup].
  - intros p Hp. apply zseq_In. eapply Permutation_in; eauto.
  - exact (ci_ne _ _ _ _ C).
Qed.

(** The construction ends after finitely many nested calls (an explicit bound), never exceeds the reserved storage, puts
    every index in exactly one class, and describes each class by its representative and the operations leading from it to the members. *)
Theorem C34_classes : forall shape syms max_length,
  Forall (fun l => 0 <= l) shape -> (0 < length shape < 16)%nat -> keep_rank (length shape) syms ->
  exists g, (forall fuel, (Z.to_nat (prodZ shape) * (Z.to_nat max_length + 1) + Z.to_nat max_length < fuel)%nat -> build shape syms max_length fuel = Some g) /\
    partitions shape (get_sym_classes g) /\ Forall (generated shape syms) (get_sym_classes g) /\ num_classes g = length (get_sym_classes g).
Proof.
  intros shape syms ml Hs HR Hk.
  destruct (build_spec shape Hs HR syms ml Hk _ (Nat.lt_succ_diag_r _)) as (g & E & C & R). exists g. split.
  - intros fuel Hf. eapply build_mono; [|exact E]. lia.
  - split; [|split].
    + split; [eapply build_perm; eauto|exact (ci_ne _ _ _ _ C)].
    + exact (ci_gen _ _ _ _ C).
    + unfold get_sym_classes. symmetry. apply map_length.
Qed.
Print Assumptions C34_classes.

(** Classes are closed under the symmetries up to earlier classes: the image of a member of the k-th class is in the k-th class or an earlier one. *)
Theorem C34_order : forall shape syms max_length fuel g,
  Forall (fun l => 0 <= l) shape -> (0 < length shape < 16)%nat -> keep_rank (length shape) syms -> build shape syms max_length fuel = Some g ->
  forall k c idx s, nth_error (get_sym_classes g) k = Some c -> in_class shape idx c -> In s syms -> in_range (fst (s idx)) shape ->
  exists j c', (j <= k)%nat /\ nth_error (get_sym_classes g) j = Some c' /\ in_class shape (fst (s idx)) c'.
Proof.
  intros shape syms ml fuel g Hs HR Hk E k c idx s Ek (e & He & Hi & Ee) Hin Hr. destruct (built _ _ _ _ _ Hs HR Hk E) as [C Pm].
  pose proof (ci_order _ _ _ _ C k c e idx s Ek He Hi Ee Hin Hr) as Q. apply in_map_iff in Q. destruct Q as [e' [Ee' He']].
  apply in_concat in He'. destruct He' as [c' [Hc' He']]. apply In_nth_error in Hc'. destruct Hc' as [j Hj].
  assert (Hjk : (j < S k)%nat).
  { assert (j < length (firstn (S k) (get_sym_classes g)))%nat by (apply nth_error_Some; congruence). rewrite firstn_length in H. lia. }
  exists j, c'. split; [lia|]. split.
  - rewrite <- Hj. rewrite <- (firstn_skipn (S k) (get_sym_classes g)) at 1. rewrite nth_error_app1; auto. apply nth_error_Some. congruence.
  - exists e'. split; auto. split; auto.
Qed.
Print Assumptions C34_order.

Lemma reach_class shape syms ml fuel g a b : Forall (fun l => 0 <= l) shape -> (0 < length shape < 16)%nat -> keep_rank (length shape) syms ->
  build shape syms ml fuel = Some g -> reach shape syms a b ->
  forall k c, nth_error (get_sym_classes g) k = Some c -> in_class shape a c -> exists j c', (j <= k)%nat /\ nth_error (get_sym_classes g) j = Some c' /\ in_class shape b c'.
Proof.
  intros Hs HR Hk E H k c Ek Ha. induction H as [|b s H IH Hin Hr]; [exists k, c; auto|].
  destruct IH as (j & c' & Hj & Ej & Hb). destruct (C34_order _ _ _ _ _ Hs HR Hk E j c' b s Ej Hb Hin Hr) as (i & c2 & Hi & Ei & Hc).
  exists i, c2. split; [lia|auto].
Qed.

(** If the symmetries can be undone by symmetries, indices related by symmetries through indices in range share a class; and when excursions
    out of range are not allowed nothing else does: the classes are the orbits. *)
Theorem C34_orbits : forall shape syms max_length fuel g,
  Forall (fun l => 0 <= l) shape -> (0 < length shape < 16)%nat -> keep_rank (length shape) syms -> reversible shape syms ->
  build shape syms max_length fuel = Some g ->
  (forall a b, reach shape syms a b -> same_class shape (get_sym_classes g) a b) /\
  (max_length <= 0 -> forall a b, same_class shape (get_sym_classes g) a b -> reach shape syms a b).
Proof.
  intros shape syms ml fuel g Hs HR Hk Hrev E. destruct (built _ _ _ _ _ Hs HR Hk E) as [C Pm]. split.
  - intros a b H. destruct (reach_range _ _ _ _ H) as [Ha Hb]. destruct (class_ex _ _ Pm a Ha) as (k & c & Ek & Hac).
    destruct (reach_class _ _ _ _ _ _ _ Hs HR Hk E H k c Ek Hac) as (j & c' & Hj & Ej & Hbc).
    destruct (reach_class _ _ _ _ _ _ _ Hs HR Hk E (Hrev _ _ H) j c' Ej Hbc) as (i & c2 & Hi & Ei & Hac2).
    assert (i = k) by (eapply class_un; eauto). assert (j = k) as -> by lia. rewrite Ek in Ej. injection Ej as <-.
    exists c. split; auto. eapply nth_error_In; eauto.
  - intros Hm a b (c & Hc & (e1 & I1 & R1 & F1) & (e2 & I2 & R2 & F2)). pose proof (ci_reach _ _ _ _ C Hm) as Q. rewrite Forall_forall in Q.
    destruct (Q c Hc) as (rep & _ & G). destruct (G e1 I1) as (a' & [Ra Ea] & Pa). destruct (G e2 I2) as (b' & [Rb Eb] & Pb).
    assert (a' = a) as -> by (apply (radix_inj shape); auto; unfold c_position in *; congruence).
    assert (b' = b) as -> by (apply (radix_inj shape); auto; unfold c_position in *; congruence).
    eapply reach_trans; [apply Hrev, Pa|exact Pb].
Qed.
Print Assumptions C34_orbits.

(** in particular when each symmetry has an inverse in the list *)
Theorem C34_inverses : forall shape syms,
  (forall s, In s syms -> exists t, In t syms /\ forall idx, in_range idx shape -> in_range (fst (s idx)) shape -> fst (t (fst (s idx))) = idx) -> reversible shape syms.
Proof.
  intros shape syms H a b R. destruct (reach_range _ _ _ _ R) as [Ha _]. induction R as [|b s R IH Hin Hr]; [now apply reach_start|].
  destruct (reach_range _ _ _ _ R) as [_ Hb]. destruct (H s Hin) as (t & Ht & E). specialize (E b Hb Hr).
  assert (Q : reach shape syms (fst (s b)) b). { rewrite <- E at 2. apply reach_step; auto; [now apply reach_start|]. now rewrite E. }
  eapply reach_trans; eauto.
Qed.
Print Assumptions C34_inverses.

(** Symmetries without inverse: 1 is mapped to 0 but they are in different classes. *)
Theorem C34_one_way_refuted : exists shape syms fuel g a b, keep_rank (length shape) syms /\ build shape syms 0 fuel = Some g /\ reach shape syms a b /\
  ~ same_class shape (get_sym_classes g) a b.
Proof.
  exists [2], [fun idx => (map (fun _ => 0) idx, op_id)], 10%nat. eexists. exists [1], [0]. split; [|split; [vm_compute; reflexivity|split]].
  - intros s idx [<-|[]] L. cbn [fst]. now rewrite map_length.
  - apply (reach_step [2] _ [1] [1] (fun idx => (map (fun _ => 0) idx, op_id))); [apply reach_start| |]; cbn [fst map]; (repeat constructor; cbv; congruence).
  - intros (c & Hc & (e1 & I1 & _ & F1) & (e2 & I2 & _ & F2)). unfold c_position in *.
    cbn in Hc. destruct Hc as [<-|[<-|[]]]; cbn in *; destruct I1 as [<-|[]], I2 as [<-|[]]; cbn in *; discriminate.
Qed.
Print Assumptions C34_one_way_refuted.

(** Excursions out of range: the classes depend on the order of the list of symmetries (here two involutions, each an element of the list),
    because the count of excursions made for one symmetry is charged to the next one. *)
Definition swap2 (a b a' b' : Z) : symmetry := fun idx => (map (fun i => if i =? a then b else if i =? b then a else if i =? a' then b' else if i =? b' then a' else i) idx, op_id).
Theorem C34_excursion_refuted : exists shape s1 s2 g g', keep_rank (length shape) [s1; s2] /\ (forall s idx, In s [s1; s2] -> fst (s (fst (s idx))) = idx) /\
  build shape [s1; s2] 1 100 = Some g /\ build shape [s2; s1] 1 100 = Some g' /\ num_classes g <> num_classes g'.
Proof.
  exists [2], (swap2 0 100 (-1) 1), (swap2 0 (-1) 50 50). do 2 eexists. split; [|split; [|split; [vm_compute; reflexivity|split; [vm_compute; reflexivity|vm_compute; discriminate]]]].
  - intros s idx [<-|[<-|[]]] L; cbn [swap2 fst]; now rewrite map_length.
  - assert (G : forall a b a' b' idx, (a <> b /\ a <> a' /\ a <> b' /\ b <> a' /\ b <> b')%Z -> fst (swap2 a b a' b' (fst (swap2 a b a' b' idx))) = idx).
    { intros a b a' b' idx H. cbn [swap2 fst]. rewrite map_map. rewrite <- (map_id idx) at 2. apply map_ext. intros i.
      destruct (Z.eqb_spec i a); [|destruct (Z.eqb_spec i b); [|destruct (Z.eqb_spec i a'); [|destruct (Z.eqb_spec i b')]]];
        repeat (match goal with |- context [?u =? ?v] => destruct (Z.eqb_spec u v) end); lia. }
    intros s idx [<-|[<-|[]]]; apply G; lia.
Qed.
Print Assumptions C34_excursion_refuted.

(** ** C35 *)
Section C35.
Context {V : Type}.
Variables (opp conj : V -> V).
Notation call := (acts opp conj).

Lemma call_mul a c v : involutive opp conj -> call (combined a c) v = call a (call c v).
Proof.
  intros (I1 & I2 & I3). destruct a as [[] []], c as [[] []]; unfold acts; cbn [combined sgn cc xorb]; rewrite ?I1, ?I2; auto;
    rewrite <- ?I3, ?I1, ?I2; auto; rewrite ?I3, ?I1, ?I2; auto; rewrite <- ?I3, ?I1, ?I2; auto.
Qed.
Lemma path_value syms f rep idx o : involutive opp conj -> symmetric opp conj syms f -> path syms rep idx o -> f idx = call o (f rep).
Proof.
  intros HI HS H. induction H as [|b o s c o1 H IH Hin E]; [reflexivity|]. rewrite call_mul by auto. rewrite <- IH.
  specialize (HS s b Hin). now rewrite E in HS.
Qed.
End C35.

Lemma entry_rep shape c (f : list Z -> list Z -> Prop) rep : entry_of shape rep (hd (0, neutral) c) -> digits shape (fst (hd (0, neutral) c)) = rep.
Proof. intros [Hi ->]. now apply digits_radix. Qed.
Lemma outside shape x (cls : list (list sym_idx)) a : Forall (fun l => 0 <= l) shape -> c_ordered shape x ->
  ok_cls shape cls -> ~ is_cell_of x a -> ~ In a (map (fun e => v_base x + fst e) (concat cls)).
Proof.
  intros Hs Hx (ND & B & _) Ha C. apply Ha. apply in_map_iff in C. destruct C as [e [<- He]].
  assert (Hp : 0 <= fst e < prodZ shape) by (apply B; now apply in_map). destruct (pos_digits shape Hs (fst e) Hp) as [Hd Er].
  exists (digits shape (fst e)). split.
  - destruct Hx as [L _]. unfold in_view, valid_idx. now rewrite L.
  - rewrite (x_cell shape x Hx) by auto. now rewrite Er.
Qed.

(** init: every element is the recorded operation applied to the value at the representative; nothing else changes. *)
Theorem C35_init : forall V (opp conj : V -> V) shape syms max_length fuel g x f m,
  Forall (fun l => 0 <= l) shape -> (0 < length shape < 16)%nat -> keep_rank (length shape) syms -> build shape syms max_length fuel = Some g -> c_ordered shape x ->
  exists m', init opp conj x (get_sym_classes g) f m = Some m' /\ unchanged_outside x m m' /\
    forall c rep idx e, In c (get_sym_classes g) -> entry_of shape rep (hd (0, neutral) c) -> In e c -> entry_of shape idx e ->
      contents x m' idx = acts opp conj (snd e) (f rep).
Proof.
  intros V opp conj shape syms ml fuel g x f m Hs HR Hk E Hx. pose proof (built_ok _ _ _ _ _ Hs HR Hk E) as Ok.
  destruct (init_spec opp conj shape x Hs Hx f _ m Ok) as (m' & Ei & Vi & Fi). exists m'. split; [exact Ei|]. split.
  - intros a Ha. apply Fi. eapply outside; eauto.
  - intros c rep idx e Hc Hr He [Hi Ee]. unfold contents. rewrite (x_cell shape x Hx) by auto. unfold c_position in Ee. rewrite <- Ee.
    rewrite (Vi c e Hc He). unfold rep_val. now rewrite (entry_rep shape c (fun _ _ => True) rep Hr).
Qed.
Print Assumptions C35_init.

(** init with a function that has the symmetries gives that function, everywhere. *)
Theorem C35_init_symmetric : forall V (opp conj : V -> V) shape syms max_length fuel g x f m,
  Forall (fun l => 0 <= l) shape -> (0 < length shape < 16)%nat -> keep_rank (length shape) syms -> build shape syms max_length fuel = Some g -> c_ordered shape x ->
  involutive opp conj -> symmetric opp conj syms f ->
  exists m', init opp conj x (get_sym_classes g) f m = Some m' /\ unchanged_outside x m m' /\ forall idx, in_range idx shape -> contents x m' idx = f idx.
Proof.
  intros V opp conj shape syms ml fuel g x f m Hs HR Hk E Hx HI HS. destruct (C35_init V opp conj _ _ _ _ _ x f m Hs HR Hk E Hx) as (m' & Ei & Fr & Vi).
  exists m'. split; [exact Ei|]. split; [exact Fr|]. intros idx Hi. destruct (built _ _ _ _ _ Hs HR Hk E) as [C Pm].
  destruct (class_ex _ _ Pm idx Hi) as (k & c & Ek & (e & He & Ee)). pose proof (nth_error_In _ _ Ek) as Hc.
  pose proof (ci_gen _ _ _ _ C) as G. rewrite Forall_forall in G. destruct (G c Hc) as (rep & Hr & _ & Gp).
  rewrite (Vi c rep idx e Hc Hr He Ee). destruct (Gp e He) as (idx' & Ee' & Pp).
  assert (idx' = idx) as -> by (destruct Ee, Ee'; apply (radix_inj shape); auto; unfold c_position in *; congruence).
  symmetry. eapply path_value; eauto.
Qed.
Print Assumptions C35_init_symmetric.

(** parallel init: for every distribution of the classes over ranks and every order in which they are treated, the result is that of sequential init. *)
Theorem C35_init_parallel : forall V (opp conj : V -> V) (zero : V) add shape syms max_length fuel g x f m parts,
  Forall (fun l => 0 <= l) shape -> (0 < length shape < 16)%nat -> keep_rank (length shape) syms -> build shape syms max_length fuel = Some g -> c_ordered shape x ->
  (forall v, add zero v = v) -> (forall v, add v zero = v) -> Permutation (concat parts) (get_sym_classes g) ->
  exists m', init opp conj x (get_sym_classes g) f m = Some m' /\
    forall idx, in_range idx shape -> init_parallel opp conj x zero add parts f m idx = Some (contents x m' idx).
Proof.
  intros V opp conj zero add shape syms ml fuel g x f m parts Hs HR Hk E Hx Zl Zr Pm. pose proof (built_ok _ _ _ _ _ Hs HR Hk E) as Ok.
  destruct (init_spec opp conj shape x Hs Hx f _ m Ok) as (m' & Ei & Vi & Fi). exists m'. split; [exact Ei|]. intros idx Hi.
  unfold init_parallel. pose proof (radix_bound _ _ Hi) as Hp. pose proof (digits_radix _ _ Hi) as Ed.
  destruct (x_pos shape x Hs Hx _ Hp) as [_ Ee]. rewrite Ed in Ee. rewrite Ee.
  assert (Okp : ok_cls shape (concat parts)) by (eapply ok_perm; [apply Permutation_sym|]; eauto).
  rewrite (parallel_spec opp conj shape x Hs Hx zero add f _ (radix shape idx) (contents x m' idx)); auto.
  - destruct in_dec as [_|N]; [reflexivity|]. exfalso. apply N. destruct (built _ _ _ _ _ Hs HR Hk E) as [_ Pz].
    assert (Q : In (radix shape idx) (map fst (concat (get_sym_classes g)))). { eapply Permutation_in; [apply Permutation_sym, Pz|]. now apply zseq_In. }
    apply in_map_iff in Q. destruct Q as [e [Ee' Q]]. apply in_concat in Q. destruct Q as [c [Hc He]]. rewrite <- Ee'. apply in_map, in_concat.
    exists c. split; auto. eapply Permutation_in; [apply Permutation_sym, Pm|auto].
  - intros p Hp'. now apply (zeros_spec shape x Hs Hx).
  - intros c e Hc He Ep. unfold contents. rewrite (x_cell shape x Hx) by auto. rewrite <- Ep. symmetry. apply Vi; auto. eapply Permutation_in; eauto.
Qed.
Print Assumptions C35_init_parallel.

Lemma avg_class V (opp conj : V -> V) zero add divn shape x m c : Forall (fun l => 0 <= l) shape -> c_ordered shape x -> (forall e, In e c -> 0 <= fst e < prodZ shape) ->
  class_average opp conj zero add divn shape (contents x m) c (avg opp conj x zero add divn m c).
Proof.
  intros Hs Hx B. exists (map (fun e => digits shape (fst e)) c). split.
  - induction c as [|e c IH]; cbn [map]; constructor.
    + destruct (pos_digits shape Hs (fst e) (B e (or_introl eq_refl))) as [A1 A2]. split; auto.
    + apply IH. intros e' He'. apply B. now right.
  - unfold avg. f_equal. f_equal. revert B. induction c as [|e c IH]; intros B; cbn [map combine]; [reflexivity|]. f_equal.
    + cbn [fst snd]. change (op_call opp conj (snd e)) with (acts opp conj (snd e)). f_equal. unfold contents. destruct (pos_digits shape Hs (fst e) (B e (or_introl eq_refl))) as [A1 A2].
      rewrite (x_cell shape x Hx) by auto. now rewrite A2.
    + apply IH. intros e' He'. apply B. now right.
Qed.

(** symmetrize: each class becomes the average of its elements (moved to the representative), moved back; the deviation reported is that of the index
    reported, no other is larger; it is zero with index (0,...,0) if no deviation is larger than zero. *)
Theorem C35_symmetrize : forall V D (opp conj : V -> V) zero add sub divn (d0 : D) abs gtb shape syms max_length fuel g x m,
  Forall (fun l => 0 <= l) shape -> (0 < length shape < 16)%nat -> keep_rank (length shape) syms -> build shape syms max_length fuel = Some g -> c_ordered shape x ->
  strict gtb ->
  exists m' d i, symmetrize opp conj x zero add sub divn d0 abs gtb (get_sym_classes g) m = Some (m', (d, i)) /\ unchanged_outside x m m' /\
    (forall c, In c (get_sym_classes g) -> exists r, class_average opp conj zero add divn shape (contents x m) c r /\
       forall e idx, In e c -> entry_of shape idx e -> contents x m' idx = acts opp conj (snd e) r) /\
    (forall idx, in_range idx shape -> gtb (abs (sub (contents x m' idx) (contents x m idx))) d = false) /\
    (d = d0 /\ i = map (fun _ => 0) shape \/ in_range i shape /\ d = abs (sub (contents x m' i) (contents x m i)) /\ gtb d d0 = true).
Proof.
  intros V D opp conj zero add sub divn d0 abs gtb shape syms ml fuel g x m Hs HR Hk E Hx St. pose proof (built_ok _ _ _ _ _ Hs HR Hk E) as Ok.
  destruct (built _ _ _ _ _ Hs HR Hk E) as [_ Pz].
  destruct (symmetrize_spec opp conj shape x Hs Hx zero add sub divn d0 abs gtb (get_sym_classes g) St m m (d0, map (fun _ => 0) shape) [] Ok)
    as (m' & [d i] & Es & Vs & Fs & Bs); auto.
  { split; [intros p []|now left]. }
  exists m', d, i. unfold symmetrize. pose proof Hx as (L & _). rewrite L. split; [exact Es|]. split; [|split; [|split]].
  - intros a Ha. apply Fs. eapply outside; eauto.
  - intros c Hc. exists (avg opp conj x zero add divn m c). split.
    + apply avg_class; auto. intros e He. destruct Ok as (_ & B & _). apply B, in_map, in_concat. eauto.
    + intros e idx He [Hi Ee]. unfold contents. rewrite (x_cell shape x Hx) by auto. unfold c_position in Ee. rewrite <- Ee. now apply Vs.
  - intros idx Hi. destruct Bs as [BA _]. unfold contents. rewrite (x_cell shape x Hx) by auto. apply (BA (radix shape idx)).
    rewrite app_nil_r. eapply Permutation_in; [apply Permutation_sym, Pz|]. apply zseq_In. now apply radix_bound.
  - destruct Bs as [_ [BB|(p & Hp & E1 & E2 & G)]]; cbn [fst snd] in *; [left; injection BB as -> ->; auto|right]. subst i.
    rewrite app_nil_r in Hp. assert (Hp' : 0 <= p < prodZ shape) by (apply zseq_In; eapply Permutation_in; eauto).
    destruct (pos_digits shape Hs p Hp') as [Hd Er]. split; auto. split; auto. rewrite E2. unfold diff, contents. rewrite (x_cell shape x Hx) by auto. now rewrite Er.
Qed.
Print Assumptions C35_symmetrize.

(** an array that agrees on each class with the recorded operations is not changed, and no deviation is reported *)
Definition consistent {V} (opp conj : V -> V) (shape : list Z) (classes : list (list sym_idx)) (f : list Z -> V) : Prop :=
  forall c rep e idx, In c classes -> entry_of shape rep (hd (0, neutral) c) -> In e c -> entry_of shape idx e -> f idx = acts opp conj (snd e) (f rep).

Theorem C35_fixed_point : forall V D (opp conj : V -> V) zero add sub divn (d0 : D) abs gtb shape syms max_length fuel g x m,
  Forall (fun l => 0 <= l) shape -> (0 < length shape < 16)%nat -> keep_rank (length shape) syms -> build shape syms max_length fuel = Some g -> c_ordered shape x ->
  strict gtb -> involutive opp conj -> mean_of_equals zero add divn -> (forall v, gtb (abs (sub v v)) d0 = false) ->
  consistent opp conj shape (get_sym_classes g) (contents x m) ->
  exists m', symmetrize opp conj x zero add sub divn d0 abs gtb (get_sym_classes g) m = Some (m', (d0, map (fun _ => 0) shape)) /\
    unchanged_outside x m m' /\ forall idx, in_range idx shape -> contents x m' idx = contents x m idx.
Proof.
  intros V D opp conj zero add sub divn d0 abs gtb shape syms ml fuel g x m Hs HR Hk E Hx St HI HM H0 HC.
  destruct (C35_symmetrize V D opp conj zero add sub divn d0 abs gtb _ _ _ _ _ x m Hs HR Hk E Hx St) as (m' & d & i & Es & Fr & Cl & Mx & Bs).
  assert (Same : forall idx, in_range idx shape -> contents x m' idx = contents x m idx).
  { intros idx Hi. destruct (built _ _ _ _ _ Hs HR Hk E) as [C Pm]. destruct (class_ex _ _ Pm idx Hi) as (k & c & Ek & (e & He & Ee)).
    pose proof (nth_error_In _ _ Ek) as Hc. destruct (Cl c Hc) as (r & (idxs & F & Er) & Vr). rewrite (Vr e idx He Ee).
    pose proof (ci_gen _ _ _ _ C) as G. rewrite Forall_forall in G. destruct (G c Hc) as (rep & Hr & _ & _).
    rewrite (HC c rep e idx Hc Hr He Ee). f_equal. rewrite Er.
    assert (Rp : map (fun ie => acts opp conj (snd (snd ie)) (contents x m (fst ie))) (combine idxs c) = repeat (contents x m rep) (length c)).
    { assert (Q : Forall2 (fun j e0 => contents x m j = acts opp conj (snd e0) (contents x m rep)) idxs c).
      { assert (Hall : forall e0, In e0 c -> forall j, entry_of shape j e0 -> contents x m j = acts opp conj (snd e0) (contents x m rep)) by (intros; eapply HC; eauto).
        clear -F Hall. induction F as [|j e0 js es Hj F IH]; constructor; [apply Hall; auto; now left|]. apply IH. intros e1 H1. apply Hall. now right. }
      clear -Q HI. induction Q as [|j e0 js es Hj Q IH]; [reflexivity|]. cbn [combine map fst snd length repeat]. f_equal; [|exact IH].
      rewrite Hj, <- call_mul by auto. rewrite op_mul_self. reflexivity. }
    rewrite Rp. apply HM. destruct c; [destruct He|cbn [length]; lia]. }
  exists m'. split; [|split; auto]. destruct Bs as [[-> ->]|(Hi & Ed & G)]; [exact Es|]. exfalso. rewrite Same in Ed by auto. rewrite Ed, H0 in G. discriminate.
Qed.
Print Assumptions C35_fixed_point.

(** so an array that has the symmetries is a fixed point *)
Theorem C35_symmetric_unchanged : forall V D (opp conj : V -> V) zero add sub divn (d0 : D) abs gtb shape syms max_length fuel g x m f,
  Forall (fun l => 0 <= l) shape -> (0 < length shape < 16)%nat -> keep_rank (length shape) syms -> build shape syms max_length fuel = Some g -> c_ordered shape x ->
  strict gtb -> involutive opp conj -> mean_of_equals zero add divn -> (forall v, gtb (abs (sub v v)) d0 = false) ->
  symmetric opp conj syms f -> (forall idx, in_range idx shape -> contents x m idx = f idx) ->
  exists m', symmetrize opp conj x zero add sub divn d0 abs gtb (get_sym_classes g) m = Some (m', (d0, map (fun _ => 0) shape)) /\
    forall idx, in_range idx shape -> contents x m' idx = contents x m idx.
Proof.
  intros V D opp conj zero add sub divn d0 abs gtb shape syms ml fuel g x m f Hs HR Hk E Hx St HI HM H0 HS Hf.
  destruct (C35_fixed_point V D opp conj zero add sub divn d0 abs gtb shape syms ml fuel g x m) as (m' & Es & _ & Sm); auto; [|eauto].
  intros c rep e idx Hc Hr He Ee. destruct (built _ _ _ _ _ Hs HR Hk E) as [C Pm].
  pose proof (ci_gen _ _ _ _ C) as G. rewrite Forall_forall in G. destruct (G c Hc) as (rep' & Hr' & _ & Gp).
  assert (rep' = rep) as -> by (destruct Hr, Hr'; apply (radix_inj shape); auto; unfold c_position in *; congruence).
  destruct (Gp e He) as (idx' & Ee' & Pp).
  assert (idx' = idx) as -> by (destruct Ee, Ee'; apply (radix_inj shape); auto; unfold c_position in *; congruence).
  rewrite Hf by (now destruct Ee). rewrite Hf by (now destruct Hr). eapply path_value; eauto.
Qed.
Print Assumptions C35_symmetric_unchanged.

(** and symmetrizing a second time changes nothing *)
Theorem C35_idempotent : forall V D (opp conj : V -> V) zero add sub divn (d0 : D) abs gtb shape syms max_length fuel g x m,
  Forall (fun l => 0 <= l) shape -> (0 < length shape < 16)%nat -> keep_rank (length shape) syms -> build shape syms max_length fuel = Some g -> c_ordered shape x ->
  strict gtb -> involutive opp conj -> mean_of_equals zero add divn -> (forall v, gtb (abs (sub v v)) d0 = false) ->
  exists m1 b m2, symmetrize opp conj x zero add sub divn d0 abs gtb (get_sym_classes g) m = Some (m1, b) /\
    symmetrize opp conj x zero add sub divn d0 abs gtb (get_sym_classes g) m1 = Some (m2, (d0, map (fun _ => 0) shape)) /\
    forall idx, in_range idx shape -> contents x m2 idx = contents x m1 idx.
Proof.
  intros V D opp conj zero add sub divn d0 abs gtb shape syms ml fuel g x m Hs HR Hk E Hx St HI HM H0.
  destruct (C35_symmetrize V D opp conj zero add sub divn d0 abs gtb _ _ _ _ _ x m Hs HR Hk E Hx St) as (m1 & d & i & Es & Fr & Cl & _ & _).
  destruct (C35_fixed_point V D opp conj zero add sub divn d0 abs gtb shape syms ml fuel g x m1) as (m2 & E2 & _ & Sm); auto.
  - intros c rep e idx Hc Hr He Ee. destruct (Cl c Hc) as (r & _ & Vr). rewrite (Vr e idx He Ee).
    destruct (built _ _ _ _ _ Hs HR Hk E) as [C Pm]. pose proof (ci_gen _ _ _ _ C) as G. rewrite Forall_forall in G. destruct (G c Hc) as (rep' & _ & Ho & _).
    assert (Hh : In (hd (0, neutral) c) c) by (destruct c; [destruct He|now left]).
    rewrite (Vr (hd (0, neutral) c) rep Hh Hr), Ho. reflexivity.
  - exists m1, (d, i), m2. auto.
Qed.
Print Assumptions C35_idempotent.

(** the hypothesis on the layout is necessary: the recorded positions are those of a C ordered array, but they are decoded with the layout of the array given.
    Here an array in Fortran order and the symmetry x(i,2-j) = -x(i,j): init leaves x(0,2) = x(0,0) = 1. *)
Definition mirror : symmetry := fun idx => (match idx with [i; j] => [i; 2 - j] | _ => idx end, Op true false).
Theorem C35_layout_refuted : exists g m' idx, let x := new_array (reverse_identity 2) 0 [2; 3] in
  build [2; 3] [mirror] 0 20 = Some g /\ init Z.opp (fun v => v) x (get_sym_classes g) (fun _ => 1) (fun _ => 7) = Some m' /\
  in_range idx [2; 3] /\ in_range (fst (mirror idx)) [2; 3] /\ fst (mirror idx) <> idx /\
  contents x m' (fst (mirror idx)) <> acts Z.opp (fun v => v) (snd (mirror idx)) (contents x m' idx).
Proof.
  do 2 eexists. exists [0; 0]. cbv zeta. split; [vm_compute; reflexivity|]. split; [vm_compute; reflexivity|].
  split; [repeat constructor; cbv; congruence|]. split; [repeat constructor; cbv; congruence|]. split; [cbv; congruence|]. vm_compute. congruence.
Qed.
Print Assumptions C35_layout_refuted.

(** ** the hypotheses are met *)
Example c_array_c_ordered : forall base shape, Forall (fun l => 0 <= l) shape -> (0 < length shape < 16)%nat -> c_ordered shape (c_array base shape).
Proof.
  intros base shape Hs HR. split; [reflexivity|]. split.
  - exists (prodZ shape), 0. apply vo_fresh; auto; try apply repeat_length. apply is_perm_identity.
  - intros idx Hi. pose proof (new_array_cell (identity (length shape)) 0 shape idx (is_perm_identity _) (in_range_length _ _ Hi)) as E.
    unfold cell, seq_number in E. rewrite !in_order_id' in E by (auto; now apply in_range_length in Hi). exact E.
Qed.
(** a permutation symmetry and a sign changing mirror of a 3x3 array, values in Z with [conj] the identity *)
Definition transp : symmetry := fun idx => (match idx with [i; j] => [j; i] | _ => idx end, op_id).
Definition mirror2 : symmetry := fun idx => (match idx with [i; j] => [2 - i; j] | _ => idx end, Op true false).
Example C34_case : keep_rank 2 [transp; mirror2] /\ reversible [3; 3] [transp; mirror2] /\
  match build [3; 3] [transp; mirror2] 0 20 with Some g => map (map fst) (get_sym_classes g) | None => [] end = [[0; 6; 2; 8]; [1; 3; 7; 5]; [4]].
Proof.
  split; [|split; [|vm_compute; reflexivity]].
  - intros s idx [<-|[<-|[]]] L; destruct idx as [|i [|j [|]]]; auto.
  - apply C34_inverses. intros s [<-|[<-|[]]]; [exists transp|exists mirror2]; (split; [cbn; tauto|]); intros idx Hi _;
      pose proof (in_range_length _ _ Hi) as L; destruct idx as [|i [|j [|]]]; try discriminate L; cbn [transp mirror2 fst]; auto. do 2 f_equal. lia.
Qed.
Example C35_laws_Z : strict Z.gtb /\ involutive Z.opp (fun v => v) /\ mean_of_equals 0 Z.add Z.div /\ (forall v, Z.gtb (Z.abs (v - v)) 0 = false).
Proof.
  split; [|split; [|split]].
  - split; intros; rewrite ?Z.gtb_ltb in *; [apply Z.ltb_irrefl|]. apply Z.ltb_lt. apply Z.ltb_lt in H, H0. lia.
  - repeat split; intros; lia.
  - intros n v Hn. assert (G : forall k a, fold_left Z.add (repeat v k) a = a + Z.of_nat k * v).
    { induction k as [|k IH]; intros a; cbn [repeat fold_left]; [lia|]. rewrite IH. lia. }
    rewrite G, Z.add_0_l, Z.mul_comm. apply Z.div_mul. lia.
  - intros v. now rewrite Z.sub_diag.
Qed.
Example C35_case :
  match build [2; 3] [mirror] 0 20 with
  | Some g => match symmetrize Z.opp (fun v => v) (c_array 0 [2; 3]) 0 Z.add Z.sub Z.div 0 Z.abs Z.gtb (get_sym_classes g) (fun a => nth (Z.to_nat a) [4; 0; 8; 1; 0; -1] 0) with
              | Some (m', (d, i)) => (map m' [0; 1; 2; 3; 4; 5], d, i)
              | None => ([], 0, [])
              end
  | None => ([], 0, [])
  end = ([-2; 0; 2; 1; 0; -1], 6, [0; 0]).
Proof. vm_compute. reflexivity. Qed.
