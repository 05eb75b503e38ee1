(** Lemmas on allocators. *)
From Coq Require Import Sorted.
From Verif Require Import Base M_Alloc S_Alloc M_Loops L_Loops.

(** ** pairs *)
Lemma FOP_perm {T} (R : T -> T -> Prop) : (forall x y, R x y -> R y x) -> forall l l', Permutation l l' -> ForallOrdPairs R l -> ForallOrdPairs R l'.
Proof.
  intros Sy l l' P. induction P as [|x l l' P IH|x y l|l l' l'' P1 IH1 P2 IH2]; intros F; auto.
  - inversion F as [|? ? Fx Fl]; subst. constructor; auto. eapply Permutation_Forall; eauto.
  - inversion F as [|? ? Fx Fl]; subst. inversion Fl as [|? ? Fy Fl']; subst. inversion Fx as [|? ? Rxy Fx']; subst. repeat constructor; auto.
Qed.
Lemma FOP_app {T} (R : T -> T -> Prop) l l' : ForallOrdPairs R (l ++ l') <-> ForallOrdPairs R l /\ ForallOrdPairs R l' /\ (forall x y, In x l -> In y l' -> R x y).
Proof.
  induction l as [|x l IH]; cbn [app].
  - split; [intros H; repeat split; auto; [constructor|intros x y []]|tauto].
  - split.
    + intros H. inversion H as [|? ? Fx Fl]; subst. apply IH in Fl. destruct Fl as (F1 & F2 & F3). apply Forall_app in Fx. destruct Fx as [Fx1 Fx2].
      rewrite Forall_forall in Fx2. split; [constructor; auto|]. split; auto. intros y z [->|Hy] Hz; auto.
    + intros (H1 & H2 & H3). inversion H1 as [|? ? Fx Fl]; subst. constructor.
      * apply Forall_app. split; auto. apply Forall_forall. intros y Hy. apply H3; auto. now left.
      * apply IH. repeat split; auto. intros; apply H3; auto. now right.
Qed.
Lemma FOP_map {T U} (R : U -> U -> Prop) (f : T -> U) l : ForallOrdPairs R (map f l) <-> ForallOrdPairs (fun x y => R (f x) (f y)) l.
Proof.
  induction l as [|x l IH]; cbn [map]; [split; constructor|]. split; intros H; inversion H as [|? ? Fx Fl]; subst; constructor; try tauto;
    rewrite Forall_map in *; auto.
Qed.
Lemma FOP_impl {T} (R Q : T -> T -> Prop) l : (forall x y, In x l -> In y l -> R x y -> Q x y) -> ForallOrdPairs R l -> ForallOrdPairs Q l.
Proof.
  intros H F. induction F as [|x l Fx Fl IH]; constructor.
  - rewrite Forall_forall in *. intros y Hy. apply H; auto; [now left|now right].
  - apply IH. intros; apply H; auto; now right.
Qed.
Lemma FOP_NoDup {T} (l : list T) : NoDup l <-> ForallOrdPairs (fun x y => x <> y) l.
Proof.
  induction l as [|x l IH]; [split; constructor|]. split; intros H; inversion H as [|? ? Fx Fl]; subst; constructor; try tauto.
  - apply Forall_forall. intros y Hy ->. contradiction.
  - intros Hx. rewrite Forall_forall in Fx. exact (Fx x Hx eq_refl).
Qed.
Lemma FOP_in {T} (R : T -> T -> Prop) l x y : (forall x y, R x y -> R y x) -> ForallOrdPairs R l -> In x l -> In y l -> x = y \/ R x y.
Proof.
  intros Sy F. induction F as [|z l Fz Fl IH]; intros Hx Hy; [destruct Hx|]. rewrite Forall_forall in Fz.
  destruct Hx as [->|Hx], Hy as [->|Hy]; auto.
Qed.

Lemma sep_sym (r q : Z * Z) : fst r + snd r <= fst q \/ fst q + snd q <= fst r -> fst q + snd q <= fst r \/ fst r + snd r <= fst q.
Proof. tauto. Qed.
Lemma sep_perm l l' : Permutation l l' -> separate l -> separate l'.
Proof. apply FOP_perm. apply sep_sym. Qed.
Lemma regions_perm l l' : Permutation l l' -> regions_ok l -> regions_ok l'.
Proof. intros P [H1 H2]. split; [eapply sep_perm; eauto|eapply Permutation_Forall; eauto]. Qed.
Lemma regions_app l l' : regions_ok (l ++ l') -> regions_ok l /\ regions_ok l'.
Proof. intros [H1 H2]. apply FOP_app in H1. apply Forall_app in H2. repeat split; tauto. Qed.

(** ** the operating system *)
Lemma apart_spec r q : apart r q = true <-> fst r + snd r <= fst q \/ fst q + snd q <= fst r.
Proof. unfold apart. lia. Qed.
Lemma inside_spec r x : inside_b r x = true <-> byte_of x r.
Proof. unfold inside_b, byte_of. lia. Qed.
Lemma os_alloc_spec n fill a s : regions_ok (os s) -> match os_alloc n fill a s with
  | NoEnv => True | Bad => False
  | Ok (s', p) => p = a /\ os s' = (a, Z.max n 1) :: os s /\ regions_ok (os s')
      /\ (forall x, byte_of x (a, Z.max n 1) -> bytes s' x = fill x) /\ (forall x, ~ byte_of x (a, Z.max n 1) -> bytes s' x = bytes s x)
      /\ keeps [] (os s) (bytes s) (bytes s')
  end.
Proof.
  intros [H1 H2]. unfold os_alloc. destruct (forallb _ _) eqn:E; auto. rewrite forallb_forall in E. cbn [os bytes].
  assert (F : Forall (fun q => fst (a, Z.max n 1) + snd (a, Z.max n 1) <= fst q \/ fst q + snd q <= fst (a, Z.max n 1)) (os s)).
  { apply Forall_forall. intros q Hq. apply apart_spec. auto. }
  split; auto. split; auto. split; [split; constructor; auto; cbn [snd]; lia|].
  assert (B1 : forall x, byte_of x (a, Z.max n 1) -> (if inside_b (a, Z.max n 1) x then fill x else bytes s x) = fill x) by (intros x Hx; apply inside_spec in Hx; now rewrite Hx).
  assert (B2 : forall x, ~ byte_of x (a, Z.max n 1) -> (if inside_b (a, Z.max n 1) x then fill x else bytes s x) = bytes s x).
  { intros x Hx. destruct (inside_b _ x) eqn:Ei; auto. apply inside_spec in Ei. contradiction. }
  repeat split; auto. intros x r Hr Hb. apply B2. intros Hx. cbn [app] in Hr. rewrite Forall_forall in F. specialize (F r Hr). unfold byte_of in *. cbn [fst snd] in *. lia.
Qed.
Lemma remove_spec l p n : regions_ok l -> In (p, n) l -> exists l', remove_region p l = Some l' /\ Permutation l ((p, n) :: l').
Proof.
  intros [H1 H2]. induction H1 as [|r l Fr Fl IH]; intros Hin; [destruct Hin|]. inversion H2 as [|? ? Hr Hl]; subst. cbn [remove_region].
  destruct Hin as [->|Hin].
  - cbn [fst]. rewrite Z.eqb_refl. now exists l.
  - destruct (Z.eqb_spec (fst r) p) as [E|E].
    + exfalso. rewrite Forall_forall in Fr, Hl. specialize (Fr _ Hin). specialize (Hl _ Hin). cbn [fst snd] in *. lia.
    + destruct (IH Hl Hin) as (l' & -> & P). exists (r :: l'). split; auto. rewrite P. apply perm_swap.
Qed.
Lemma os_free_spec s p n F : regions_ok (os s) -> Permutation (os s) ((p, n) :: F) ->
  exists s', os_free p s = Ok s' /\ Permutation (os s') F /\ regions_ok (os s') /\ bytes s' = bytes s.
Proof.
  intros H P. assert (Hin : In (p, n) (os s)) by (rewrite P; now left). destruct (remove_spec _ _ _ H Hin) as (l' & E & P').
  unfold os_free. rewrite E. eexists. split; [reflexivity|]. cbn [os bytes].
  assert (P2 : Permutation l' F) by (apply (Permutation_cons_inv (a := (p, n))); now rewrite <- P', P).
  split; auto. split; auto. eapply regions_perm in H; [|exact P']. destruct H as [H1 H2]. inversion H1; inversion H2; subst. split; auto.
Qed.

(** ** mallocator *)
Definition malloc_inv (x : st mallocator) (L R : list (Z * Z)) : Prop :=
  Permutation R (map (fun b => (fst b, Z.max (snd b) 1)) L) /\ Forall (fun b => 0 <= snd b) L.
Lemma keeps_nil m m' F : keeps [] F m m' -> forall L, (forall b, In b L -> exists r, In r F /\ within b r) -> keeps L F m m'.
Proof.
  intros K L H x r Hr Hb. apply in_app_or in Hr. destruct Hr as [Hr|Hr].
  - destruct (H r Hr) as (q & Hq & W). apply (K x q); auto. unfold within, byte_of in *. lia.
  - now apply (K x r).
Qed.
Lemma malloc_inside L R : Permutation R (map (fun b => (fst b, Z.max (snd b) 1)) L) -> regions_ok R ->
  separate L /\ Forall (fun b => exists r, In r R /\ within b r) L.
Proof.
  intros P H. split.
  - apply (regions_perm _ _ P) in H. destruct H as [H _]. unfold separate in *. rewrite FOP_map in H. eapply FOP_impl; [|exact H]. cbn [fst snd]. intros; lia.
  - apply Forall_forall. intros b Hb. exists (fst b, Z.max (snd b) 1). split.
    + rewrite P. apply in_map_iff. now exists b.
    + unfold within. cbn [fst snd]. lia.
Qed.
Lemma malloc_reliable : reliable mallocator (fun _ _ => true) true malloc_inv.
Proof.
  constructor.
  - intros e s H. cbn [mk mallocator]. exists []. repeat split; auto; try apply H; intros x r Hr Hb; auto.
  - intros x L R F s z n e [P1 Hs] P H Hn _. cbn [al mallocator].
    pose proof (os_alloc_spec n (if z then fun _ => 0 else e_junk e) (e_addr e) s H) as Sp. destruct (os_alloc _ _ _ _) as [[s' p]| |]; auto.
    destruct Sp as (-> & Eo & Hr & B1 & B2 & K). exists ((e_addr e, Z.max n 1) :: R). rewrite Eo. split; [now rewrite P|]. split; [now rewrite <- Eo|].
    split; [|split].
    + split; [cbn [map fst snd]; now constructor|constructor; auto].
    + apply (regions_perm _ _ P) in H. apply regions_app in H. destruct H as [HR HF]. destruct (malloc_inside _ _ P1 HR) as [_ I]. rewrite Forall_forall in I.
      intros y r Hin Hb. apply in_app_or in Hin. destruct Hin as [Hin|Hin].
      * destruct (I r Hin) as (q & Hq & W). apply (K y q); [cbn [app]; rewrite P; apply in_or_app; now left|]. unfold within, byte_of in *. lia.
      * apply (K y r); auto. cbn [app]. rewrite P. apply in_or_app. now right.
    + intros -> _ a Ha. apply B1. unfold byte_of in *. cbn [fst snd] in *. lia.
  - intros x L L' R F s [p n] [P1 Hs] P H PL. cbn [de mallocator fst].
    assert (PR : Permutation R ((p, Z.max n 1) :: map (fun b => (fst b, Z.max (snd b) 1)) L')) by (rewrite P1, PL; reflexivity).
    assert (P' : Permutation (os s) ((p, Z.max n 1) :: (map (fun b => (fst b, Z.max (snd b) 1)) L' ++ F))) by (rewrite P, PR; reflexivity).
    destruct (os_free_spec _ _ _ _ H P') as (s' & -> & Q1 & Q2 & Q3). eexists. split; [exact Q1|]. split; auto. split; auto. split; auto.
    apply (Permutation_Forall PL) in Hs. now inversion Hs.
  - intros x R F s [P1 _] P H. cbn [fin mallocator]. cbn [map] in P1. apply Permutation_sym, Permutation_nil in P1. now subst R.
  - intros x L L' R R' [P1 H1] PL PR. split; [now rewrite <- PR, P1, PL|]. eapply Permutation_Forall; eauto.
  - intros x L R [P1 _]. apply malloc_inside; auto.
Qed.

(** ** bits *)
Definition flags_wf (f : Z) : Prop := 0 <= f /\ forall i, 64 <= i -> Z.testbit f i = false.
Lemma all_free_bit i : 0 <= i -> Z.testbit all_free i = (i <? 64).
Proof.
  intros Hi. unfold all_free. change (2 ^ 64 - 1) with (Z.ones 64). destruct (Z.ltb_spec i 64).
  - apply Z.ones_spec_low. lia.
  - apply Z.ones_spec_high. lia.
Qed.
Lemma all_free_wf : flags_wf all_free.
Proof. split; [unfold all_free; lia|]. intros i Hi. rewrite all_free_bit by lia. lia. Qed.
Lemma one_bit p i : 0 <= p -> 0 <= i -> Z.testbit (Z.shiftl 1 p) i = (i =? p).
Proof.
  intros Hp Hi. rewrite Z.shiftl_mul_pow2, Z.mul_1_l by auto. destruct (Z.eqb_spec i p) as [->|H].
  - now apply Z.pow2_bits_true.
  - apply Z.pow2_bits_false. lia.
Qed.
Lemma clear_bit f p i : 0 <= p -> 0 <= i -> Z.testbit (Z.land f (Z.lnot (Z.shiftl 1 p))) i = Z.testbit f i && negb (i =? p).
Proof. intros Hp Hi. rewrite Z.land_spec, Z.lnot_spec by auto. now rewrite one_bit. Qed.
Lemma set_bit f p i : 0 <= p -> 0 <= i -> Z.testbit (Z.lor f (Z.shiftl 1 p)) i = Z.testbit f i || (i =? p).
Proof. intros Hp Hi. rewrite Z.lor_spec. now rewrite one_bit. Qed.
Lemma clear_wf f p : 0 <= p -> flags_wf f -> flags_wf (Z.land f (Z.lnot (Z.shiftl 1 p))).
Proof.
  intros Hp [H1 H2]. split; [apply Z.land_nonneg; now left|]. intros i Hi. rewrite clear_bit by lia. now rewrite H2.
Qed.
Lemma set_wf f p : 0 <= p < 64 -> flags_wf f -> flags_wf (Z.lor f (Z.shiftl 1 p)).
Proof.
  intros Hp [H1 H2]. split; [apply Z.lor_nonneg; split; auto; apply Z.shiftl_nonneg; lia|]. intros i Hi. rewrite set_bit, H2 by lia. cbn [orb]. lia.
Qed.
Lemma flags_eq f g : flags_wf f -> flags_wf g -> (forall i, 0 <= i < 64 -> Z.testbit f i = Z.testbit g i) -> f = g.
Proof.
  intros [_ H1] [_ H2] H. apply Z.bits_inj'. intros i Hi. destruct (Z.lt_ge_cases i 64); [now apply H|]. now rewrite H1, H2.
Qed.
Lemma zero_wf : flags_wf 0.
Proof. split; [lia|]. intros; apply Z.bits_0. Qed.
Lemma ctz_spec f : flags_wf f -> f <> 0 -> 0 <= ctz f < 64 /\ Z.testbit f (ctz f) = true /\ forall i, 0 <= i < ctz f -> Z.testbit f i = false.
Proof.
  intros W H. unfold ctz. destruct (find _ _) as [k|] eqn:E.
  - pose proof (find_some _ _ E) as [Hin Hb]. apply in_seq in Hin. split; [lia|]. split; auto.
    intros i Hi. destruct (Z.testbit f i) eqn:Et; auto. exfalso. revert E. clear - Hi Et Hin.
    assert (G : forall n m, (m <= Z.to_nat i)%nat -> (Z.to_nat i < m + n)%nat -> find (fun i => Z.testbit f (Z.of_nat i)) (seq m n) = Some k -> (k <= Z.to_nat i)%nat).
    { induction n as [|n IH]; intros m H1 H2 E; cbn [seq find] in E; [lia|]. destruct (Z.testbit f (Z.of_nat m)) eqn:Em.
      - injection E as <-. auto.
      - destruct (Nat.eq_dec m (Z.to_nat i)) as [->|]; [rewrite Z2Nat.id in Em by lia; congruence|]. apply (IH (S m)); auto; lia. }
    intros E. apply G in E; lia.
  - exfalso. apply H. apply flags_eq; auto using zero_wf. intros i Hi. rewrite Z.bits_0.
    pose proof (find_none _ _ E (Z.to_nat i)) as N. cbv beta in N. rewrite Z2Nat.id in N by lia. apply N. apply in_seq. lia.
Qed.

(** ** one bucket *)
Lemma len_cons {T} (a : T) l : length (a :: l) = S (length l).
Proof. reflexivity. Qed.
Definition upto64 : list Z := map Z.of_nat (seq 0 64).
Lemma upto64_len : length upto64 = 64%nat.
Proof. unfold upto64. now rewrite map_length, seq_length. Qed.
Lemma upto64_In i : In i upto64 <-> 0 <= i < 64.
Proof.
  unfold upto64. rewrite in_map_iff. split.
  - intros (k & <- & Hk). apply in_seq in Hk. lia.
  - intros H. exists (Z.to_nat i). split; [lia|]. apply in_seq. lia.
Qed.
Lemma upto64_NoDup : NoDup upto64.
Proof. apply FinFun.Injective_map_NoDup; [intros a b; lia|apply seq_NoDup]. Qed.
Lemma in_cons_iff {T} (x a : T) l : In x (a :: l) <-> a = x \/ In x l.
Proof. reflexivity. Qed.
Section Buckets.
Variable chunk : Z.
Hypothesis Hc : 0 < chunk.
Definition used (b : bucket) : list Z := filter (fun i => negb (Z.testbit (b_flags b) i)) (zseq 64).
Definition chunks (b : bucket) : list Z := map (fun i => b_p b + i * chunk) (used b).
Lemma used_In b i : In i (used b) <-> 0 <= i < 64 /\ Z.testbit (b_flags b) i = false.
Proof. unfold used. rewrite filter_In, zseq_In. rewrite negb_true_iff. tauto. Qed.
Lemma zseq_NoDup n : NoDup (zseq n).
Proof. unfold zseq. apply FinFun.Injective_map_NoDup; [intros a b; lia|apply seq_NoDup]. Qed.
Lemma used_NoDup b : NoDup (used b).
Proof. apply NoDup_filter, zseq_NoDup. Qed.
Lemma used_length_le b : (length (used b) <= 64)%nat.
Proof. rewrite <- upto64_len. apply NoDup_incl_length; [apply used_NoDup|]. intros i Hi. apply used_In in Hi. apply upto64_In. tauto. Qed.

Lemma bk_alloc_spec b : flags_wf (b_flags b) -> bk_full b = false ->
  exists b' i, bk_alloc chunk b = Ok (b', b_p b + i * chunk) /\ b_p b' = b_p b /\ flags_wf (b_flags b') /\ 0 <= i < 64
    /\ ~ In i (used b) /\ Permutation (used b') (i :: used b).
Proof.
  unfold bk_full. intros W Hf. destruct (Z.eqb_spec (b_flags b) 0) as [|H]; [discriminate|].
  destruct (ctz_spec _ W H) as (C1 & C2 & _). unfold bk_alloc. destruct (Z.eqb_spec (b_flags b) 0); [contradiction|].
  revert C1 C2. generalize (ctz (b_flags b)) as pos. intros pos C1 C2.
  eexists _, pos. split; [reflexivity|]. cbn [b_p b_flags]. split; auto. split; [apply clear_wf; auto; lia|]. split; auto.
  assert (Nn : ~ In pos (used b)) by (rewrite used_In; intros [_ E]; congruence). split; auto.
  apply NoDup_Permutation; [apply used_NoDup|constructor; [auto|apply used_NoDup]|].
  intros i. rewrite in_cons_iff, !used_In. cbn [b_flags]. split.
  - intros [Hi E]. rewrite clear_bit in E by lia. destruct (Z.eqb_spec i pos); [now left|]. cbn [negb] in E. rewrite andb_true_r in E. auto.
  - intros [<-|[Hi E]]; split; auto; rewrite clear_bit by lia.
    + rewrite Z.eqb_refl. apply andb_false_r.
    + now rewrite E.
Qed.
Lemma bk_free_spec b i : flags_wf (b_flags b) -> In i (used b) ->
  exists b', bk_free chunk (b_p b + i * chunk) b = Ok b' /\ b_p b' = b_p b /\ flags_wf (b_flags b') /\ Permutation (used b) (i :: used b').
Proof.
  intros W Hi. apply used_In in Hi. destruct Hi as [Hi Eb]. unfold bk_free. replace (b_p b + i * chunk - b_p b) with (i * chunk) by lia.
  rewrite Z.quot_mul by lia. replace ((0 <=? i) && (i <? 64)) with true by lia. eexists. split; [reflexivity|]. cbn [b_p b_flags].
  split; auto. split; [apply set_wf; auto|].
  apply NoDup_Permutation; [apply used_NoDup|constructor; [|apply used_NoDup]|].
  - rewrite used_In. cbn [b_flags]. rewrite set_bit, Z.eqb_refl, orb_true_r by lia. intros [_ E]. discriminate.
  - intros j. rewrite in_cons_iff, !used_In. cbn [b_flags]. split.
    + intros [Hj E]. destruct (Z.eq_dec i j) as [->|Hn]; [now left|]. right. split; auto. rewrite set_bit, E by lia. cbn [orb]. lia.
    + intros [->|[Hj E]]; split; auto. rewrite set_bit in E by lia. apply orb_false_iff in E. tauto.
Qed.
Lemma bk_empty_used b : flags_wf (b_flags b) -> bk_empty b = true <-> used b = [].
Proof.
  intros W. unfold bk_empty. rewrite Z.eqb_eq. split.
  - intros E. destruct (used b) as [|i l] eqn:Eu; auto. assert (Hi : In i (used b)) by (rewrite Eu; now left). apply used_In in Hi.
    destruct Hi as [Hi Hb]. rewrite E, all_free_bit in Hb by lia. lia.
  - intros Eu. apply flags_eq; auto using all_free_wf. intros i Hi. rewrite all_free_bit by lia. replace (i <? 64) with true by lia.
    destruct (Z.testbit (b_flags b) i) eqn:E; auto. assert (In i (used b)) as Hin by (apply used_In; auto). rewrite Eu in Hin. destruct Hin.
Qed.
Lemma full_len (u : list Z) : NoDup u -> (forall i, In i u -> 0 <= i < 64) -> length u = 64%nat <-> (forall i, 0 <= i < 64 -> In i u).
Proof.
  intros N H. split.
  - intros E i Hi. destruct (in_dec Z.eq_dec i u) as [|Hn]; auto. exfalso.
    assert (L : (length (i :: u) <= length upto64)%nat).
    { apply NoDup_incl_length; [constructor; auto|]. intros j Hj. apply upto64_In. apply in_cons_iff in Hj. destruct Hj as [<-|Hj]; auto. }
    rewrite len_cons, upto64_len, E in L. lia.
  - intros G. apply Nat.le_antisymm; rewrite <- upto64_len; apply NoDup_incl_length; auto using upto64_NoDup; intros i Hi.
    + now apply upto64_In, H.
    + now apply G, upto64_In.
Qed.
Lemma bk_full_used b : flags_wf (b_flags b) -> bk_full b = true <-> length (used b) = 64%nat.
Proof.
  intros W. rewrite (full_len (used b) (used_NoDup b)); [|intros i Hi; apply used_In in Hi; tauto]. unfold bk_full. rewrite Z.eqb_eq. split.
  - intros E i Hi. apply used_In. rewrite E, Z.bits_0. auto.
  - intros G. apply flags_eq; auto using zero_wf. intros i Hi. rewrite Z.bits_0. apply G in Hi. apply used_In in Hi. tauto.
Qed.
Lemma bk_owns_spec b p : bk_owns chunk b p = true <-> byte_of p (b_p b, 64 * chunk).
Proof. unfold bk_owns, byte_of. cbn [fst snd]. lia. Qed.
Lemma chunk_in b p : In p (chunks b) -> within (p, chunk) (b_p b, 64 * chunk).
Proof. unfold chunks. rewrite in_map_iff. intros (i & <- & Hi). apply used_In in Hi. unfold within. cbn [fst snd]. nia. Qed.
Definition region (b : bucket) : Z * Z := (b_p b, 64 * chunk).
Lemma chunks_separate b : separate (map (fun p => (p, chunk)) (chunks b)).
Proof.
  unfold chunks. rewrite map_map. unfold separate. apply FOP_map. pose proof (used_NoDup b) as N. apply FOP_NoDup in N.
  eapply FOP_impl; [|exact N]. intros i j _ _ H. cbv beta in H. cbn [fst snd]. assert (i < j \/ j < i) as [C|C] by lia; [left; pose proof (Z.mul_le_mono_nonneg_r (i + 1) j chunk)|right; pose proof (Z.mul_le_mono_nonneg_r (j + 1) i chunk)]; lia.
Qed.
Lemma chunks_all v : separate (map region v) -> separate (map (fun p => (p, chunk)) (flat_map chunks v)).
Proof.
  unfold separate. induction v as [|b v IH]; intros H; cbn [flat_map map]; [constructor|].
  cbn [map] in H. inversion H as [|? ? Fb Fv]; subst. rewrite map_app. apply FOP_app. split; [apply chunks_separate|]. split; auto.
  intros x y Hx Hy. apply in_map_iff in Hx. destruct Hx as (p & <- & Hp). apply in_map_iff in Hy. destruct Hy as (q & <- & Hq).
  apply in_flat_map in Hq. destruct Hq as (b' & Hb' & Hq). apply chunk_in in Hp, Hq. rewrite Forall_forall in Fb.
  specialize (Fb (region b') (in_map region _ _ Hb')). unfold region, within in *. cbn [fst snd] in *. lia.
Qed.
End Buckets.
Global Opaque used.
