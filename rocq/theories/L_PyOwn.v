(** Lemmas for ownership across C++ and Python: reference counts are exact. *)
From Verif Require Import Base M_PyOwn S_PyOwn.

Definition teq (x y : target) : {x = y} + {x <> y}.
Proof. decide equality; apply Nat.eq_dec. Defined.
Definition occ (t : target) (l : list target) : nat := count_occ teq l t.
Definition one (t u : target) : nat := if teq u t then 1 else 0.
Lemma occ_cons t u l : occ t (u :: l) = (one t u + occ t l)%nat.
Proof. unfold occ, one. cbn. destruct (teq u t); reflexivity. Qed.
Lemma occ_app t l l' : occ t (l ++ l') = (occ t l + occ t l')%nat.
Proof. apply count_occ_app. Qed.
Lemma occ_in t l : (0 < occ t l)%nat <-> In t l.
Proof. unfold occ. rewrite (count_occ_In teq). lia. Qed.
Lemma one_same t : one t t = 1%nat.
Proof. unfold one. destruct (teq t t); congruence. Qed.
Lemma one_other t u : u <> t -> one t u = 0%nat.
Proof. unfold one. destruct (teq u t); congruence. Qed.
Lemma nth_upd_eq {T} (l : list T) i x : (i < length l)%nat -> nth_error (upd l i x) i = Some x.
Proof. revert i. induction l as [|y l IH]; intros [|i] H; cbn in *; try lia; [reflexivity|]. apply IH. lia. Qed.
Lemma nth_upd_neq {T} (l : list T) i j x : i <> j -> nth_error (upd l i x) j = nth_error l j.
Proof. revert i j. induction l as [|y l IH]; intros [|i] [|j] H; cbn; try reflexivity; try congruence. apply IH. congruence. Qed.
Lemma occ_map_upd {T} (f : T -> target) t l : forall i x y, nth_error l i = Some y -> (occ t (map f (upd l i x)) + one t (f y) = occ t (map f l) + one t (f x))%nat.
Proof.
  induction l as [|z l IH]; intros [|i] x y E; cbn in E; try discriminate.
  - injection E as ->. cbn [upd map]. rewrite !occ_cons. lia.
  - cbn [upd map]. rewrite !occ_cons. specialize (IH i x y E). lia.
Qed.

(** ** references held by objects *)
Definition held (x : obj) : target := if Nat.ltb 0 (count x) then next x else TNone.
Definition lives (l : list obj) : list target := map held l.
Lemma next_set x n : next (set_count x n) = next x.
Proof. now destruct x. Qed.
Lemma count_set x n : count (set_count x n) = n.
Proof. now destruct x. Qed.
Definition data_of (x : obj) : option (option nat) := match x with OArray _ d _ => Some d | _ => None end.
Lemma data_set x n : data_of (set_count x n) = data_of x.
Proof. now destruct x. Qed.
Definition shape (x : obj) : target * option (option nat) := (next x, data_of x).
Definition skel (l : list obj) := map shape l.
Lemma skel_upd l : forall i x n, nth_error l i = Some x -> skel (upd l i (set_count x n)) = skel l.
Proof.
  induction l as [|y l IH]; intros [|i] x n E; cbn in E; try discriminate; cbn.
  - injection E as ->. f_equal. unfold shape. now rewrite next_set, data_set.
  - f_equal. now apply IH.
Qed.

Section Owners.
Context {A : Type}.
Definition block_live (m : pymem A) (b : nat) : nat := match nth_error (m_blk m) b with Some (Some _) => 1 | _ => 0 end.
(** [R] are the references held from outside the objects *)
Definition Good (R : list target) (m : pymem A) : Prop :=
  (forall i x, nth_error (m_obj m) i = Some x -> count x = (occ (TObj i) R + occ (TObj i) (lives (m_obj m)))%nat)
  /\ (forall i, (length (m_obj m) <= i)%nat -> (occ (TObj i) R + occ (TObj i) (lives (m_obj m)) = 0)%nat)
  /\ (forall b, (occ (TBlk b) R + occ (TBlk b) (lives (m_obj m)) = block_live m b)%nat)
  /\ (forall j x i, nth_error (m_obj m) j = Some x -> next x = TObj i -> (i < j)%nat).
Lemma Good_eq R R' m : (forall t, t <> TNone -> occ t R = occ t R') -> Good R m -> Good R' m.
Proof.
  intros H (G1 & G2 & G3 & G4). repeat split; intros.
  - rewrite <- H by discriminate. auto.
  - rewrite <- H by discriminate. auto.
  - rewrite <- H by discriminate. auto.
  - eauto.
Qed.
Lemma good_bound R m i : Good R m -> In (TObj i) R -> (i < length (m_obj m))%nat.
Proof. intros (_ & G2 & _) H. destruct (Nat.lt_ge_cases i (length (m_obj m))) as [|Hl]; [assumption|]. specialize (G2 i Hl). apply occ_in in H. lia. Qed.
Lemma good_positive R m i : Good R m -> In (TObj i) R -> exists x n, nth_error (m_obj m) i = Some x /\ count x = S n.
Proof.
  intros G H. pose proof (good_bound _ _ _ G H) as Hl. destruct (nth_error (m_obj m) i) as [x|] eqn:E; [|apply nth_error_None in E; lia].
  destruct G as (G1 & _). specialize (G1 i x E). apply occ_in in H. exists x, (pred (count x)). split; [reflexivity|lia].
Qed.

Lemma lives_upd l i x y t : nth_error l i = Some y -> (occ t (lives (upd l i x)) + one t (held y) = occ t (lives l) + one t (held x))%nat.
Proof. apply occ_map_upd. Qed.
Lemma next_upd (l : list obj) j x i k n y : nth_error l k = Some y -> (forall j x i, nth_error l j = Some x -> next x = TObj i -> (i < j)%nat) ->
  nth_error (upd l k (set_count y n)) j = Some x -> next x = TObj i -> (i < j)%nat.
Proof.
  intros Ek H E Hn. destruct (Nat.eq_dec k j) as [->|D].
  - rewrite nth_upd_eq in E by (apply nth_error_Some; congruence). injection E as <-. rewrite next_set in Hn. eauto.
  - rewrite nth_upd_neq in E by auto. eauto.
Qed.
Lemma held_one x n : count x = S n -> held x = next x.
Proof. intros E. unfold held. now rewrite E. Qed.
Lemma held_set x n : held (set_count x (S n)) = next x.
Proof. unfold held. rewrite count_set, next_set. reflexivity. Qed.
Lemma held_zero x : held (set_count x 0) = TNone.
Proof. unfold held. now rewrite count_set. Qed.

(** changing one count and the outside references together *)
Lemma good_change R R' m o x n : Good R m -> nth_error (m_obj m) o = Some x -> (0 < count x)%nat ->
  (forall t, t <> TNone -> t <> TObj o -> (occ t R' + one t (held (set_count x n)) = occ t R + one t (next x))%nat) ->
  (n + occ (TObj o) R + one (TObj o) (next x) = count x + occ (TObj o) R' + one (TObj o) (held (set_count x n)))%nat ->
  Good R' (PyMem (m_blk m) (upd (m_obj m) o (set_count x n))).
Proof.
  intros (G1 & G2 & G3 & G4) Ex Hc HR Hn. assert (Hh : held x = next x) by (unfold held; destruct (Nat.ltb_spec 0 (count x)); [reflexivity|lia]).
  assert (L : forall t, (occ t (lives (upd (m_obj m) o (set_count x n))) + one t (next x) = occ t (lives (m_obj m)) + one t (held (set_count x n)))%nat) by (intros t; rewrite <- Hh; now apply lives_upd).
  assert (Hlen : (o < length (m_obj m))%nat) by (apply nth_error_Some; congruence).
  repeat split; cbn [m_obj m_blk].
  - intros i y E. destruct (Nat.eq_dec o i) as [<-|D].
    + rewrite nth_upd_eq in E by auto. injection E as <-. rewrite count_set. specialize (G1 o x Ex). specialize (L (TObj o)). lia.
    + rewrite nth_upd_neq in E by auto. specialize (G1 i y E). specialize (L (TObj i)). specialize (HR (TObj i)). assert (TObj i <> TObj o) by congruence. specialize (HR ltac:(discriminate) H). lia.
  - intros i Hi. rewrite upd_length in Hi. specialize (G2 i Hi). specialize (L (TObj i)). assert (TObj i <> TObj o) by (intros D; injection D as ->; lia). specialize (HR (TObj i) ltac:(discriminate) H). lia.
  - intros b. specialize (G3 b). specialize (L (TBlk b)). specialize (HR (TBlk b) ltac:(discriminate) ltac:(discriminate)). unfold block_live in *. cbn [m_blk]. lia.
  - intros j y i E Ey. exact (next_upd (m_obj m) j y i o n x Ex G4 E Ey).
Qed.

Definition kept_blocks (m m' : pymem A) : Prop := length (m_blk m') = length (m_blk m) /\ forall b l, nth_error (m_blk m') b = Some (Some l) -> nth_error (m_blk m) b = Some (Some l).
Lemma kept_refl m : kept_blocks m m.
Proof. split; auto. Qed.
Lemma kept_trans m m' m'' : kept_blocks m m' -> kept_blocks m' m'' -> kept_blocks m m''.
Proof. intros [H1 H2] [K1 K2]. split; [congruence|auto]. Qed.

Lemma free_good R m b : Good (TBlk b :: R) m -> exists m', free b m = Some m' /\ Good R m' /\ m_obj m' = m_obj m /\ kept_blocks m m'.
Proof.
  intros (G1 & G2 & G3 & G4). pose proof (G3 b) as Gb. rewrite occ_cons, one_same in Gb. unfold block_live in Gb. unfold free.
  destruct (nth_error (m_blk m) b) as [[l|]|] eqn:E; try lia. eexists. split; [reflexivity|]. assert (Hb : (b < length (m_blk m))%nat) by (apply nth_error_Some; congruence). split; [|split; [reflexivity|split]].
  - repeat split; cbn [m_obj m_blk].
    + intros i x Ex. specialize (G1 i x Ex). rewrite occ_cons, one_other in G1 by discriminate. lia.
    + intros i Hi. specialize (G2 i Hi). rewrite occ_cons, one_other in G2 by discriminate. lia.
    + intros c. specialize (G3 c). rewrite occ_cons in G3. unfold block_live in *. cbn [m_blk]. destruct (Nat.eq_dec b c) as [<-|D].
      * rewrite nth_upd_eq by auto. rewrite one_same in G3. lia.
      * rewrite nth_upd_neq by auto. rewrite one_other in G3 by congruence. lia.
    + exact G4.
  - cbn. apply upd_length.
  - intros c l' Ec. cbn [m_blk] in Ec. destruct (Nat.eq_dec b c) as [<-|D]; [rewrite nth_upd_eq in Ec by auto; discriminate|now rewrite nth_upd_neq in Ec by auto].
Qed.
Lemma release_good fuel : forall t R m, Good (t :: R) m -> (forall i, t = TObj i -> (i < fuel)%nat) ->
  exists m', release fuel t m = Some m' /\ Good R m' /\ skel (m_obj m') = skel (m_obj m) /\ kept_blocks m m'.
Proof.
  induction fuel as [|k IH]; intros t R m G Hf; destruct t as [b|o|]; cbn [release].
  - destruct (free_good R m b G) as (m' & E & G' & Eo & K). exists m'. now rewrite Eo.
  - specialize (Hf o eq_refl). lia.
  - exists m. split; [reflexivity|]. split; [|split; [reflexivity|apply kept_refl]]. revert G. apply Good_eq. intros t Ht. rewrite occ_cons, one_other by congruence. reflexivity.
  - destruct (free_good R m b G) as (m' & E & G' & Eo & K). exists m'. now rewrite Eo.
  - destruct (good_positive _ _ o G (or_introl eq_refl)) as (x & n & Ex & En). rewrite Ex, En.
    assert (Hnx : forall i, next x = TObj i -> (i < o)%nat) by (intros i; destruct G as (_ & _ & _ & G4); eauto).
    assert (One : one (TObj o) (next x) = 0%nat) by (apply one_other; intros D; specialize (Hnx o D); lia).
    destruct n as [|n].
    + destruct (IH (next x) R (PyMem (m_blk m) (upd (m_obj m) o (set_count x 0)))) as (m' & E & G' & Es & K).
      * apply (good_change (TObj o :: R)) with (1 := G); [exact Ex|lia| |].
        -- intros t Ht Hto. rewrite held_zero, !occ_cons, (one_other t TNone), (one_other t (TObj o)) by congruence. lia.
        -- rewrite held_zero, !occ_cons, one_same, One, En, one_other by discriminate. lia.
      * intros i Hi. specialize (Hnx i Hi). specialize (Hf o eq_refl). lia.
      * exists m'. split; [exact E|]. split; [exact G'|]. split; [rewrite Es; cbn [m_obj]; now apply skel_upd|exact K].
    + eexists. split; [reflexivity|]. split; [|split; [cbn [m_obj]; now apply skel_upd|split; auto]].
      apply (good_change (TObj o :: R)) with (1 := G); [exact Ex|lia| |].
      * intros t Ht Hto. rewrite held_set, occ_cons, (one_other t (TObj o)) by congruence. lia.
      * rewrite held_set, occ_cons, one_same, En. lia.
  - exists m. split; [reflexivity|]. split; [|split; [reflexivity|apply kept_refl]]. revert G. apply Good_eq. intros t Ht. rewrite occ_cons, one_other by congruence. reflexivity.
Qed.
Lemma drop_good t R m : Good (t :: R) m -> exists m', drop t m = Some m' /\ Good R m' /\ skel (m_obj m') = skel (m_obj m) /\ kept_blocks m m'.
Proof. intros G. apply release_good; [exact G|]. intros i ->. pose proof (good_bound _ _ i G (or_introl eq_refl)). lia. Qed.

Lemma retain_good o R m : Good R m -> In (TObj o) R -> exists m', retain o m = Some m' /\ Good (TObj o :: R) m' /\ skel (m_obj m') = skel (m_obj m) /\ m_blk m' = m_blk m.
Proof.
  intros G H. destruct (good_positive _ _ o G H) as (x & n & Ex & En). unfold retain. rewrite Ex, En. eexists. split; [reflexivity|]. split; [|split; [cbn [m_obj]; now apply skel_upd|reflexivity]].
  apply (good_change R) with (1 := G); [exact Ex|lia| |].
  - intros t Ht Hto. rewrite held_set, occ_cons, (one_other t (TObj o)) by congruence. lia.
  - rewrite held_set, occ_cons, one_same, En. lia.
Qed.
Lemma add_good x n R m : count x = S n -> Good (next x :: R) m -> Good (repeat (TObj (length (m_obj m))) (S n) ++ R) (PyMem (m_blk m) (m_obj m ++ [x])).
Proof.
  intros Hc G. pose proof G as (G1 & G2 & G3 & G4). set (k := length (m_obj m)).
  assert (Hk : forall t, occ t (repeat (TObj k) (S n) ++ R) = ((if teq (TObj k) t then S n else 0) + occ t R)%nat).
  { intros t. rewrite occ_app. f_equal. generalize (S n). intros q. induction q as [|q IHq]; cbn [repeat]; [now destruct (teq (TObj k) t)|]. rewrite occ_cons, IHq. unfold one. destruct (teq (TObj k) t); lia. }
  assert (L : forall t, occ t (lives (m_obj m ++ [x])) = (occ t (lives (m_obj m)) + one t (next x))%nat).
  { intros t. unfold lives. rewrite map_app, occ_app. cbn [map]. rewrite occ_cons, (held_one x n Hc). cbn. lia. }
  assert (Hk0 : (occ (TObj k) (next x :: R) + occ (TObj k) (lives (m_obj m)) = 0)%nat) by (apply G2; unfold k; lia). rewrite occ_cons in Hk0.
  repeat split; cbn [m_obj m_blk].
  - intros i y E. rewrite Hk, L. destruct (Nat.lt_ge_cases i k) as [Hi|Hi].
    + rewrite nth_error_app1 in E by exact Hi. specialize (G1 i y E). rewrite occ_cons in G1. destruct (teq (TObj k) (TObj i)) as [D|D]; [injection D as D; lia|]. lia.
    + rewrite nth_error_app2 in E by exact Hi. fold k in E. destruct (i - k)%nat as [|j] eqn:Ei; [|destruct j; discriminate]. cbn in E. injection E as <-. assert (i = k) as -> by lia. rewrite Hc. destruct (teq (TObj k) (TObj k)); [lia|congruence].
  - intros i Hi. rewrite app_length in Hi. cbn in Hi. fold k in Hi. rewrite Hk, L. specialize (G2 i ltac:(lia)). rewrite occ_cons in G2. destruct (teq (TObj k) (TObj i)) as [D|D]; [injection D as D; lia|]. lia.
  - intros b. rewrite Hk, L. specialize (G3 b). rewrite occ_cons in G3. destruct (teq (TObj k) (TBlk b)) as [D|D]; [discriminate|]. unfold block_live in *. cbn [m_blk]. lia.
  - intros j y i E Hn. destruct (Nat.lt_ge_cases j k) as [Hj|Hj].
    + rewrite nth_error_app1 in E by exact Hj. eauto.
    + rewrite nth_error_app2 in E by exact Hj. fold k in E. destruct (j - k)%nat as [|q] eqn:Ei; [|destruct q; discriminate]. cbn in E. injection E as <-. assert (i < length (m_obj m))%nat by (apply (good_bound _ _ i G); left; exact Hn). fold k in H. lia.
Qed.
Lemma new_block_good l R m m' d : Good R m -> new_block l m = (m', d) ->
  Good (match d with Some b => TBlk b | None => TNone end :: R) m' /\ m_obj m' = m_obj m.
Proof.
  intros G E. unfold new_block in E. destruct l as [|a l]; injection E as <- <-.
  - split; [|reflexivity]. revert G. apply Good_eq. intros t Ht. rewrite occ_cons, one_other by congruence. reflexivity.
  - split; [|reflexivity]. destruct G as (G1 & G2 & G3 & G4). repeat split; cbn [m_obj m_blk].
    + intros i x Ex. rewrite occ_cons, one_other by discriminate. exact (G1 i x Ex).
    + intros i Hi. rewrite occ_cons, one_other by discriminate. exact (G2 i Hi).
    + intros b. rewrite occ_cons. specialize (G3 b). unfold block_live in *. cbn [m_blk]. destruct (Nat.eq_dec (length (m_blk m)) b) as [<-|D].
      * rewrite one_same. rewrite (proj2 (nth_error_None _ _) (le_n _)) in G3. rewrite nth_error_app2, Nat.sub_diag by lia. cbn. lia.
      * rewrite one_other by congruence. destruct (Nat.lt_ge_cases b (length (m_blk m))) as [Hb|Hb]; [rewrite nth_error_app1 by auto; lia|].
        rewrite (proj2 (nth_error_None _ _) Hb) in G3. assert (length (m_blk m ++ [Some (a :: l)]) <= b)%nat by (rewrite app_length; cbn; lia). rewrite (proj2 (nth_error_None _ _) H). lia.
    + exact G4.
Qed.
Lemma write_good d i a R m m' : Good R m -> write_block d i a m = Some m' -> Good R m' /\ m_obj m' = m_obj m.
Proof.
  intros (G1 & G2 & G3 & G4) E. unfold write_block in E. destruct d as [b|]; [|discriminate]. destruct (nth_error (m_blk m) b) as [[l|]|] eqn:Eb; try discriminate. destruct (Nat.ltb i (length l)); [|discriminate]. injection E as <-. split; [|reflexivity].
  repeat split; cbn [m_obj m_blk]; auto. intros c. specialize (G3 c). unfold block_live in *. cbn [m_blk]. destruct (Nat.eq_dec b c) as [<-|D].
  - rewrite nth_upd_eq by (apply nth_error_Some; congruence). rewrite Eb in G3. exact G3.
  - now rewrite nth_upd_neq by auto.
Qed.
End Owners.
