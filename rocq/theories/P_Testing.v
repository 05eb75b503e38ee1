(** C65: comparisons in tests. *)
From Verif Require Import Base M_IdxMap M_Loops M_Assign M_Expr M_Testing S_Expr S_Testing L_Loops L_Expr.

Section Max.
Context {R : Type}.
Variable ltb : R -> R -> bool.
Hypothesis Ord : number_order ltb.
Lemma flt_below a b : flt_ltb ltb a b = true <-> below ltb a b.
Proof. destruct a as [|x], b as [|y]; cbn; split; try discriminate; try (intros (u & v & E1 & E2 & H); congruence). - intros H. now exists x, y. Qed.
Lemma fold_nan l : fold_left (std_max (flt_ltb ltb)) l NaN = NaN.
Proof. induction l as [|v l IH]; cbn [fold_left]; auto. Qed.
Lemma fold_below p l : forall r, r <> NaN -> (flt_ltb ltb (fold_left (std_max (flt_ltb ltb)) l r) p = true <-> flt_ltb ltb r p = true /\ forall v, In v l -> v = NaN \/ flt_ltb ltb v p = true).
Proof.
  destruct Ord as (Ir & Tr & Nt). induction l as [|v l IH]; intros r Hr; cbn [fold_left].
  - split; [intros H; split; [exact H|intros v []]|tauto].
  - assert (Hs : std_max (flt_ltb ltb) r v <> NaN) by (unfold std_max; destruct r as [|x], v as [|y]; cbn [flt_ltb]; try congruence; destruct (ltb x y); congruence).
    rewrite IH by exact Hs. assert (H1 : flt_ltb ltb (std_max (flt_ltb ltb) r v) p = true <-> flt_ltb ltb r p = true /\ (v = NaN \/ flt_ltb ltb v p = true)).
    { destruct r as [|x]; [congruence|]. destruct v as [|y]; [cbn [std_max flt_ltb]; unfold std_max; cbn [flt_ltb]; split; [auto|tauto]|]. unfold std_max. cbn [flt_ltb]. destruct p as [|z]; [cbn [flt_ltb]; destruct (ltb x y); cbn [flt_ltb]; split; [discriminate|tauto|discriminate|tauto]|].
      destruct (ltb x y) eqn:E; cbn [flt_ltb].
      - split; [intros H; split; [exact (Tr _ _ _ E H)|now right]|intros [_ [H|H]]; [discriminate|exact H]].
      - split; [intros H; split; [exact H|]|tauto]. right. destruct (ltb y z) eqn:E2; [reflexivity|]. rewrite (Nt _ _ _ E E2) in H. discriminate. }
    rewrite H1. split.
    + intros [[A B] C]. split; [exact A|]. intros u [<-|Hu]; auto.
    + intros [A B]. split; [split; [exact A|apply B; now left]|]. intros u Hu. apply B. now right.
Qed.
(** max_element of an array compared with a number *)
Lemma array_max_below p shape (a : list Z -> flt R) : Forall (fun l => 0 < l) shape ->
  (flt_ltb ltb (array_max (flt_ltb ltb) shape a) p = true <-> flt_ltb ltb (a (map (fun _ => 0) shape)) p = true /\ forall idx, in_range idx shape -> a idx = NaN \/ flt_ltb ltb (a idx) p = true).
Proof.
  intros Hs. unfold array_max. rewrite fold_list. unfold get_first_element. destruct (a (map (fun _ => 0) shape)) as [|x] eqn:E.
  - rewrite fold_nan. cbn [flt_ltb]. split; [discriminate|tauto].
  - rewrite fold_below by discriminate. split; intros [A B]; (split; [exact A|]).
    + intros idx Hi. apply B. apply in_map. now apply all_idx_In.
    + intros v Hv. apply in_map_iff in Hv. destruct Hv as (idx & <- & Hi). apply B. now apply all_idx_In.
Qed.
End Max.
Lemma no_elements shape idx : Forall (fun l => 0 <= l) shape -> prodZ shape = 0 -> ~ in_range idx shape.
Proof. intros Hn E Hi. pose proof (radix_bound _ _ Hi). lia. Qed.
Lemma some_elements shape : Forall (fun l => 0 <= l) shape -> prodZ shape <> 0 -> Forall (fun l => 0 < l) shape.
Proof. induction 1 as [|l shape H Hs IH]; intros E; [constructor|]. rewrite prodZ_cons in E. constructor; [|apply IH; intros K; apply E; rewrite K; ring]. assert (l <> 0) by (intros ->; apply E; reflexivity). lia. Qed.

(** EXPECT_EQ_ARRAY succeeds exactly if shapes and all elements are equal. *)
Theorem C65_equal : forall V (veq : V -> V -> bool) sx x sy y, array_are_equal veq sx x sy y = true <-> sx = sy /\ forall idx, in_range idx sx -> veq (x idx) (y idx) = true.
Proof.
  intros V veq sx x sy y. unfold array_are_equal. destruct (shape_eqb sx sy) eqn:E; cbn [negb].
  - rewrite <- array_eq_spec. destruct (array_eq veq sx x sy y); tauto.
  - split; [discriminate|]. intros [-> _]. assert (shape_eqb sy sy = true) by (now apply shape_eqb_spec). congruence.
Qed.
Print Assumptions C65_equal.

(** EXPECT_ARRAY_NEAR of arrays with the same element type, whose differences are numbers: succeeds exactly if the shapes agree and every pair of
    elements is closer than the precision. *)
Theorem C65_near : forall X R (ltb : R -> R -> bool) dist p sx (x : list Z -> X) sy y, number_order ltb -> Forall (fun l => 0 <= l) sx ->
  (sx = sy -> forall idx, in_range idx sx -> dist (x idx) (y idx) <> NaN) ->
  (array_are_close ltb (fun v => v) dist p sx x sy y = true <-> near ltb dist p sx x sy y).
Proof.
  intros X R ltb dist p sx x sy y Ord Hn Hnum. unfold array_are_close, near. destruct (shape_eqb sx sy) eqn:E; cbn [negb].
  - apply shape_eqb_spec in E. subst sy. destruct (Z.eqb_spec (prodZ sx) 0) as [E|E].
    + split; [|reflexivity]. intros _. split; [reflexivity|]. intros idx Hi. destruct (no_elements sx idx Hn E Hi).
    + pose proof (some_elements _ Hn E) as Hp. pose proof (array_max_below ltb Ord p sx (fun idx => dist (x idx) (y idx)) Hp) as M. cbv beta in M.
      transitivity (flt_ltb ltb (array_max (flt_ltb ltb) sx (fun idx => dist (x idx) (y idx))) p = true); [destruct (flt_ltb _ _ _); tauto|]. rewrite M. split.
      * intros [_ A]. split; [reflexivity|]. intros idx Hi. apply flt_below. destruct (A idx Hi) as [C|C]; [destruct (Hnum eq_refl idx Hi C)|exact C].
      * intros [_ A]. split; [apply flt_below, A; now apply first_valid|]. intros idx Hi. right. now apply flt_below, A.
  - split; [discriminate|]. intros [-> _]. assert (shape_eqb sy sy = true) by (now apply shape_eqb_spec). congruence.
Qed.
Print Assumptions C65_near.

(** What it tests in general: y is converted to the element type of x first, and a difference that is not a number is noticed only for the
    first element. *)
Theorem C65_near_exact : forall X Y R (ltb : R -> R -> bool) (conv : Y -> X) dist p sx x sy y, number_order ltb -> Forall (fun l => 0 < l) sx ->
  (array_are_close ltb conv dist p sx x sy y = true <->
   sx = sy /\ below ltb (dist (x (map (fun _ => 0) sx)) (conv (y (map (fun _ => 0) sx)))) p /\
   forall idx, in_range idx sx -> dist (x idx) (conv (y idx)) = NaN \/ below ltb (dist (x idx) (conv (y idx))) p).
Proof.
  intros X Y R ltb conv dist p sx x sy y Ord Hp. unfold array_are_close. destruct (shape_eqb sx sy) eqn:E; cbn [negb].
  - apply shape_eqb_spec in E. subst sy. assert (P : 0 < prodZ sx) by (clear -Hp; induction Hp as [|l s H _ IH]; [reflexivity|rewrite prodZ_cons; nia]). destruct (Z.eqb_spec (prodZ sx) 0) as [E|_]; [lia|].
    pose proof (array_max_below ltb Ord p sx (fun idx => dist (x idx) (conv (y idx))) Hp) as M. cbv beta in M.
    transitivity (flt_ltb ltb (array_max (flt_ltb ltb) sx (fun idx => dist (x idx) (conv (y idx)))) p = true); [destruct (flt_ltb _ _ _); tauto|]. rewrite M. rewrite flt_below. split.
    + intros [A B]. split; [reflexivity|]. split; [exact A|]. intros idx Hi. rewrite <- flt_below. auto.
    + intros (_ & A & B). split; [exact A|]. intros idx Hi. rewrite flt_below. auto.
  - split; [discriminate|]. intros [-> _]. assert (shape_eqb sy sy = true) by (now apply shape_eqb_spec). congruence.
Qed.
Print Assumptions C65_near_exact.

(** EXPECT_ARRAY_ZERO, likewise. *)
Theorem C65_zero : forall X R (ltb : R -> R -> bool) mag p sx (x : list Z -> X), number_order ltb -> Forall (fun l => 0 <= l) sx -> (forall idx, in_range idx sx -> mag (x idx) <> NaN) ->
  (array_almost_zero ltb mag p sx x = true <-> forall idx, in_range idx sx -> below ltb (mag (x idx)) p).
Proof.
  intros X R ltb mag p sx x Ord Hn Hnum. unfold array_almost_zero. destruct (Z.eqb_spec (prodZ sx) 0) as [E|E]; cbn [orb].
  - split; [|reflexivity]. intros _ idx Hi. destruct (no_elements sx idx Hn E Hi).
  - pose proof (some_elements _ Hn E) as Hp. pose proof (array_max_below ltb Ord p sx (fun idx => mag (x idx)) Hp) as M. cbv beta in M.
    transitivity (flt_ltb ltb (array_max (flt_ltb ltb) sx (fun idx => mag (x idx))) p = true); [destruct (flt_ltb _ _ _); tauto|]. rewrite M. split.
    + intros [_ A] idx Hi. apply flt_below. destruct (A idx Hi) as [C|C]; [destruct (Hnum idx Hi C)|exact C].
    + intros A. split; [apply flt_below, A; now apply first_valid|]. intros idx Hi. right. now apply flt_below, A.
Qed.
Print Assumptions C65_zero.

(** EXPECT_COMPLEX_NEAR: the distance is a number less than the precision.  EXPECT_CLOSE: the distance does not exceed it, if it is a number. *)
Theorem C65_scalars : forall X R (ltb : R -> R -> bool) dist p (x y : X), 
  (complex_are_close ltb dist p x y = true <-> below ltb (dist x y) p) /\
  (dist x y <> NaN -> p <> NaN -> (generic_are_near ltb dist p x y = true <-> ~ below ltb p (dist x y))).
Proof.
  intros X R ltb dist p x y. split.
  - unfold complex_are_close. rewrite <- flt_below. destruct (flt_ltb _ _ _); tauto.
  - intros _ _. unfold generic_are_near. rewrite <- flt_below. destruct (flt_ltb ltb p (dist x y)); intuition congruence.
Qed.
Print Assumptions C65_scalars.

(** ** what goes wrong *)
(** Whatever is compared: replacing any element but the first by a NaN never turns success into failure. *)
Theorem C65_nan_refuted : forall X R (ltb : R -> R -> bool) dist mag p sx (x : list Z -> X) y bad at_idx, number_order ltb -> Forall (fun l => 0 < l) sx ->
  in_range at_idx sx -> at_idx <> map (fun _ => 0) sx -> (forall v, dist bad v = NaN) -> mag bad = NaN ->
  let x' idx := if list_eq_dec Z.eq_dec idx at_idx then bad else x idx in
  (array_are_close ltb (fun v => v) dist p sx x sx y = true -> array_are_close ltb (fun v => v) dist p sx x' sx y = true) /\
  (array_almost_zero ltb mag p sx x = true -> array_almost_zero ltb mag p sx x' = true) /\
  ~ near ltb dist p sx x' sx y.
Proof.
  intros X R ltb dist mag p sx x y bad at_idx Ord Hp Hi Hne Hbad Hmag x'.
  assert (Hat : x' at_idx = bad) by (unfold x'; destruct (list_eq_dec _ _ _); congruence).
  assert (Hother : forall idx, idx <> at_idx -> x' idx = x idx) by (intros idx H; unfold x'; destruct (list_eq_dec _ _ _); congruence).
  split; [|split].
  - rewrite !C65_near_exact by auto. intros (_ & A & B). split; [reflexivity|]. split; [rewrite Hother by congruence; exact A|]. intros idx Hidx. destruct (list_eq_dec Z.eq_dec idx at_idx) as [->|N]; [left; rewrite Hat; apply Hbad|rewrite Hother by exact N; auto].
  - unfold array_almost_zero. assert (P : prodZ sx <> 0) by (pose proof (radix_bound _ _ Hi); lia). destruct (Z.eqb_spec (prodZ sx) 0) as [E|_]; [contradiction|]. cbn [orb].
    pose proof (array_max_below ltb Ord p sx (fun idx => mag (x idx)) Hp) as M. pose proof (array_max_below ltb Ord p sx (fun idx => mag (x' idx)) Hp) as M'. cbv beta in M, M'.
    destruct (flt_ltb ltb (array_max _ _ (fun idx => mag (x idx))) p) eqn:E1; [|discriminate]. intros _. destruct (proj1 M eq_refl) as [A B].
    replace (flt_ltb ltb (array_max (flt_ltb ltb) sx (fun idx => mag (x' idx))) p) with true; [reflexivity|]. symmetry. apply M'. split; [rewrite Hother by congruence; exact A|].
    intros idx Hidx. destruct (list_eq_dec Z.eq_dec idx at_idx) as [->|N]; [left; rewrite Hat; exact Hmag|rewrite Hother by exact N; auto].
  - intros [_ H]. destruct (H at_idx Hi) as (u & v & E & _). rewrite Hat, Hbad in E. discriminate.
Qed.
Print Assumptions C65_nan_refuted.
(** EXPECT_CLOSE succeeds if the distance is no number. *)
Theorem C65_close_nan_refuted : forall X R (ltb : R -> R -> bool) dist p (x y : X), dist x y = NaN -> generic_are_near ltb dist p x y = true.
Proof. intros X R ltb dist p x y E. unfold generic_are_near. rewrite E. destruct p; reflexivity. Qed.
Print Assumptions C65_close_nan_refuted.
(** Comparing an array of integers with an array of floating point numbers (here: multiples of 1/4) succeeds although elements differ by 3/4, the
    other way round it fails. *)
Definition quarters_dist (a b : Z) : flt Z := Num (Z.abs (a - b)).
Theorem C65_conversion_refuted : exists (x y : list Z -> Z), (* x in units, y in quarters *)
  array_are_close Z.ltb (fun q => q / 4) (fun a b => quarters_dist (4 * a) (4 * b)) (Num 1) [1] x [1] y = true /\
  array_are_close Z.ltb (fun u => 4 * u) quarters_dist (Num 1) [1] y [1] x = false /\ quarters_dist (4 * x [0]) (y [0]) = Num 3.
Proof. exists (fun _ => 1), (fun _ => 7). repeat split. Qed.
Print Assumptions C65_conversion_refuted.

(** ** max_element with NaN (C22) *)
(** If some element is no number, the result depends on where: NaN if it is the first one, and otherwise NaN elements are skipped. *)
Theorem C22_max_nan : forall R (ltb : R -> R -> bool) shape (a : list Z -> flt R), number_order ltb -> Forall (fun l => 0 < l) shape ->
  (a (map (fun _ => 0) shape) = NaN -> array_max (flt_ltb ltb) shape a = NaN) /\
  (a (map (fun _ => 0) shape) <> NaN -> (exists idx r, in_range idx shape /\ a idx = Num r /\ array_max (flt_ltb ltb) shape a = Num r) /\
     forall idx, in_range idx shape -> flt_ltb ltb (array_max (flt_ltb ltb) shape a) (a idx) = false).
Proof.
  intros R ltb shape a Ord Hp. unfold array_max. rewrite fold_list. unfold get_first_element. split; [intros ->; apply fold_nan|]. intros H0.
  assert (G : forall l r, r <> NaN -> let s := fold_left (std_max (flt_ltb ltb)) l r in s <> NaN /\ (s = r \/ In s l) /\ flt_ltb ltb s r = false /\ forall v, In v l -> flt_ltb ltb s v = false).
  { destruct Ord as (Ir & Tr & Nt). assert (Irf : forall u, flt_ltb ltb u u = false) by (intros [|u]; cbn; auto).
    induction l as [|v l IH]; intros r Hr s; subst s; cbn [fold_left]; [split; [exact Hr|]; split; [now left|]; split; [apply Irf|intros v []]|].
    assert (Hs : std_max (flt_ltb ltb) r v <> NaN) by (unfold std_max; destruct r as [|x], v as [|y]; cbn [flt_ltb]; try congruence; destruct (ltb x y); congruence).
    destruct (IH _ Hs) as (G1 & G2 & G3 & G4). set (s := fold_left _ _ _) in *. split; [exact G1|].
    assert (K : flt_ltb ltb s r = false /\ flt_ltb ltb s v = false).
    { unfold std_max in G3. destruct s as [|s']; [congruence|]. destruct r as [|x]; [congruence|]. destruct v as [|y]; cbn [flt_ltb] in *; [auto|]. destruct (ltb x y) eqn:E; cbn [flt_ltb] in G3.
      - split; [|exact G3]. destruct (ltb s' x) eqn:E2; [|reflexivity]. rewrite (Tr _ _ _ E2 E) in G3. discriminate.
      - split; [exact G3|]. exact (Nt _ _ _ G3 E). }
    split; [|split; [tauto|intros u [<-|Hu]; [tauto|auto]]]. destruct G2 as [G2|G2]; [|right; now right]. rewrite G2. unfold std_max. destruct (flt_ltb ltb r v); [right; now left|now left]. }
  destruct (G (map a (all_idx shape)) _ H0) as (G1 & G2 & G3 & G4). set (s := fold_left _ _ _) in *. split.
  - assert (E : exists idx, in_range idx shape /\ s = a idx).
    { destruct G2 as [G2|G2]; [exists (map (fun _ => 0) shape); split; [now apply first_valid|exact G2]|]. apply in_map_iff in G2. destruct G2 as (idx & E & Hi). exists idx. split; [now apply all_idx_In|auto]. }
    destruct E as (idx & Hi & E). destruct s as [|r]; [congruence|]. exists idx, r. auto.
  - intros idx Hi. apply G4. apply in_map. now apply all_idx_In.
Qed.
Print Assumptions C22_max_nan.
(** ... and min_element *)
Theorem C22_min_nan : forall R (ltb : R -> R -> bool) shape (a : list Z -> flt R), number_order ltb -> Forall (fun l => 0 < l) shape ->
  (a (map (fun _ => 0) shape) = NaN -> array_min (flt_ltb ltb) shape a = NaN) /\
  (a (map (fun _ => 0) shape) <> NaN -> (exists idx r, in_range idx shape /\ a idx = Num r /\ array_min (flt_ltb ltb) shape a = Num r) /\
     forall idx, in_range idx shape -> flt_ltb ltb (a idx) (array_min (flt_ltb ltb) shape a) = false).
Proof.
  intros R ltb shape a (Ir & Tr & Nt) Hp.
  assert (O : number_order (fun x y => ltb y x)) by (split; [exact Ir|split; [intros x y z H1 H2; exact (Tr _ _ _ H2 H1)|intros x y z H1 H2; exact (Nt _ _ _ H2 H1)]]).
  assert (E : forall x y, flt_ltb (fun x y => ltb y x) x y = flt_ltb ltb y x) by (intros [|x] [|y]; reflexivity).
  assert (M : array_min (flt_ltb ltb) shape a = array_max (flt_ltb (fun x y => ltb y x)) shape a).
  { unfold array_min, array_max. rewrite !fold_list. generalize (get_first_element shape a) as r. induction (map a (all_idx shape)) as [|v l IH]; intros r; cbn [fold_left]; [reflexivity|].
    rewrite IH. unfold std_min, std_max. now rewrite E. }
  destruct (C22_max_nan R (fun x y => ltb y x) shape a O Hp) as [H1 H2]. rewrite <- M in H1, H2. split; [exact H1|]. intros H. destruct (H2 H) as [H3 H4]. split; [exact H3|]. intros idx Hi. rewrite <- E. now apply H4.
Qed.
Print Assumptions C22_min_nan.

(** ** non-trivial cases *)
Lemma Z_number_order : number_order Z.ltb.
Proof. split; [intros; apply Z.ltb_irrefl|]. split; intros x y z; rewrite ?Z.ltb_lt, ?Z.ltb_ge; lia. Qed.
Definition ex_dist (a b : flt Z) : flt Z := match a, b with Num x, Num y => Num (Z.abs (x - y)) | _, _ => NaN end.
Example C65_example : number_order Z.ltb /\ let x idx := Num (nthZ idx 0 * 10 + nthZ idx 1) in
  array_are_close Z.ltb (fun v => v) ex_dist (Num 3) [2; 2] x [2; 2] (fun idx => Num (nthZ idx 0 * 11 + nthZ idx 1)) = true /\
  array_are_close Z.ltb (fun v => v) ex_dist (Num 1) [2; 2] x [2; 2] (fun idx => Num (nthZ idx 0 * 11 + nthZ idx 1)) = false /\
  array_are_close Z.ltb (fun v => v) ex_dist (Num 3) [2; 2] x [2; 1] x = false /\
  array_are_close Z.ltb (fun v => v) ex_dist (Num 3) [2; 0] x [2; 0] (fun _ => NaN) = true /\
  (* NaN at (1,0) passes, at (0,0) it does not *)
  array_are_close Z.ltb (fun v => v) ex_dist (Num 3) [2; 2] (fun idx => if nthZ idx 0 =? 1 then NaN else x idx) [2; 2] x = true /\
  array_are_close Z.ltb (fun v => v) ex_dist (Num 3) [2; 2] (fun idx => if nthZ idx 0 =? 0 then NaN else x idx) [2; 2] x = false /\
  array_almost_zero Z.ltb (fun v => v) (Num 12) [2; 2] x = true /\ array_almost_zero Z.ltb (fun v => v) (Num 11) [2; 2] x = false /\
  array_are_equal Z.eqb [2; 2] (fun idx => nthZ idx 0) [2; 2] (fun idx => nthZ idx 0) = true /\
  complex_are_close Z.ltb ex_dist (Num 3) (Num 1) (Num 3) = true /\ complex_are_close Z.ltb ex_dist (Num 3) (Num 1) (Num 4) = false /\ complex_are_close Z.ltb ex_dist (Num 3) (Num 1) NaN = false /\
  generic_are_near Z.ltb ex_dist (Num 3) (Num 1) (Num 4) = true /\ generic_are_near Z.ltb ex_dist (Num 3) (Num 1) (Num 5) = false /\ generic_are_near Z.ltb ex_dist (Num 3) (Num 1) NaN = true /\
  array_max (flt_ltb Z.ltb) [3] (fun idx => if nthZ idx 0 =? 1 then NaN else Num (nthZ idx 0)) = Num 2.
Proof. split; [exact Z_number_order|]. repeat split; reflexivity. Qed.
