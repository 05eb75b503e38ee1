(** Lazy expressions in variables: the machine with blocks simulates the ideal one. *)
From Verif Require Import Base M_Stored S_Stored.

(** ** lists *)
Lemma gather_in {X Y} (f : X -> option Y) l : forall ys, gather f l = Some ys -> Forall2 (fun x y => f x = Some y) l ys.
Proof. induction l as [|x l IH]; intros ys E; cbn in E; [injection E as <-; constructor|]. destruct (f x) as [y|] eqn:Ey; [|discriminate]. destruct (gather f l) as [zs|] eqn:El; [|discriminate]. injection E as <-. constructor; auto. Qed.
Lemma gather_of {X Y} (f : X -> option Y) l ys : Forall2 (fun x y => f x = Some y) l ys -> gather f l = Some ys.
Proof. induction 1 as [|x y l ys H F IH]; cbn; [reflexivity|]. now rewrite H, IH. Qed.
Lemma gather_len {X Y} (f : X -> option Y) l ys : gather f l = Some ys -> length ys = length l.
Proof. intros E. apply gather_in in E. symmetry. induction E; cbn; congruence. Qed.
Lemma gather_ext {X Y} (f g : X -> option Y) l : (forall x, In x l -> f x = g x) -> gather f l = gather g l.
Proof. intros H. induction l as [|x l IH]; cbn; [reflexivity|]. rewrite (H x (or_introl eq_refl)), IH by (intros; apply H; now right). reflexivity. Qed.
Lemma gather_nth {X Y} (f : X -> option Y) l ys : gather f l = Some ys -> forall i x, nth_error l i = Some x -> nth_error ys i = f x.
Proof. intros E. apply gather_in in E. induction E as [|a y l ys H F IH]; intros [|i] x Ex; cbn in *; try discriminate; [congruence|auto]. Qed.
Lemma pick_pick {T} (l l1 : list T) s sel l2 : pick l s = Some l1 -> pick l1 sel = Some l2 -> exists s1, pick s sel = Some s1 /\ pick l s1 = Some l2.
Proof.
  intros E1. revert l2. unfold pick. induction sel as [|i sel IH]; intros l2 E2; cbn in *; [injection E2 as <-; exists []; auto|].
  destruct (nth_error l1 i) as [a|] eqn:Ea; [|discriminate]. destruct (gather (nth_error l1) sel) as [l3|]; [|discriminate]. injection E2 as <-. destruct (IH l3 eq_refl) as (s1 & -> & E).
  destruct (nth_error s i) as [p|] eqn:Ep.
  - exists (p :: s1). split; [reflexivity|]. cbn. rewrite <- (gather_nth _ _ _ E1 i p Ep), Ea, E. reflexivity.
  - apply nth_error_None in Ep. assert (nth_error l1 i <> None) as Hn by congruence. apply nth_error_Some in Hn. rewrite (gather_len _ _ _ E1) in Hn. lia.
Qed.
Lemma nth_upd_same {T} (l : list T) i x : (i < length l)%nat -> nth_error (upd l i x) i = Some x.
Proof. revert i. induction l as [|y l IH]; intros [|i] H; cbn in *; try lia; [reflexivity|]. apply IH. lia. Qed.
Lemma nth_upd_other {T} (l : list T) i j x : i <> j -> nth_error (upd l i x) j = nth_error l j.
Proof. revert i j. induction l as [|y l IH]; intros [|i] [|j] H; cbn; try reflexivity; try congruence. apply IH. congruence. Qed.

Section Sim.
Context {V : Type}.
Notation world := (world V). Notation ideal := (ideal V). Notation obj := (obj V). Notation tree := (tree V).
Notation vars := (list (option obj)).
Implicit Types (m : mem (V := V)) (vs : vars) (s : ideal) (o : obj) (t : tree).

Section ObjInd.
Context (P : obj -> Prop) (H1 : forall x, P (ORef x)) (H2 : forall b, P (OOwn b)) (H3 : forall b sel, P (OView b sel)) (H4 : forall cm f l, Forall P l -> P (OCall cm f l)) (H5 : P ODangling).
Fixpoint obj_ind' (o : obj) : P o :=
  match o with
  | ORef x => H1 x | OOwn b => H2 b | OView b sel => H3 b sel
  | OCall cm f l => H4 cm f l ((fix go l : Forall P l := match l with [] => Forall_nil P | o :: l => Forall_cons o (obj_ind' o) (go l) end) l)
  | ODangling => H5
  end.
End ObjInd.

Fixpoint below (n : nat) (o : obj) : Prop := match o with ORef x => (x < n)%nat | OCall _ _ l => fold_right (fun o P => below n o /\ P) True l | _ => True end.
Definition belows (n : nat) (l : list obj) : Prop := fold_right (fun o P => below n o /\ P) True l.
Lemma below_mono n n' o : (n <= n')%nat -> below n o -> below n' o.
Proof.
  intros H. induction o as [x|b|b sel|cm f l IH|] using obj_ind'; cbn; auto; [lia|]. induction IH as [|o l Ho F IHl]; cbn; [auto|]. intros [A B]. split; auto.
Qed.
Definition top (o : obj) : Prop := match o with OView _ _ | OCall _ _ _ => True | _ => False end.
Definition is_tree (k : kind V) : Prop := match k with KAlias _ => False | _ => True end.

Inductive orel (G : list nat) (s : ideal) (vs : vars) (m : mem) : obj -> tree -> Prop :=
  | r_arr x a g l : nth_error (i_var s) x = Some (a, KArr g l) -> orel G s vs m (ORef x) (TArr x)
  | r_lazy x a t : nth_error (i_var s) x = Some (a, KTree t) -> orel G s vs m (ORef x) (TGuard x t)
  | r_view x g sel b : nth_error G g = Some b -> orel G s vs m (OView b sel) (TView x g sel)
  | r_own b l : block m b = Some l -> orel G s vs m (OOwn b) (TConst l)
  | r_in x b sel l a t : nth_error (i_var s) x = Some (a, KTree t) ->
      (a = true -> exists o l0, var vs x = Some o /\ In b (owned o) /\ block m b = Some l0 /\ pick l0 sel = Some l) -> orel G s vs m (OView b sel) (TGuard x (TConst l))
  | r_call cm f os ts : orels G s vs m os ts -> orel G s vs m (OCall cm f os) (TCall f ts)
with orels (G : list nat) (s : ideal) (vs : vars) (m : mem) : list obj -> list tree -> Prop :=
  | rs_nil : orels G s vs m [] []
  | rs_cons o t os ts : orel G s vs m o t -> orels G s vs m os ts -> orels G s vs m (o :: os) (t :: ts).
Scheme orel_mut := Induction for orel Sort Prop with orels_mut := Induction for orels Sort Prop.
Combined Scheme orel_both from orel_mut, orels_mut.

(** kinds only change in contents, variables only die *)
Definition same_kind (k k' : kind V) : Prop := match k, k' with KArr _ _, KArr _ _ => True | KTree t, KTree t' => t = t' | KAlias y, KAlias y' => y = y' | _, _ => False end.
Definition later (s s' : ideal) : Prop := forall x a k, nth_error (i_var s) x = Some (a, k) -> exists a' k', nth_error (i_var s') x = Some (a', k') /\ same_kind k k' /\ (match k with KTree _ => a' = true -> a = true | _ => True end).
Definition kept_lazy (s s' : ideal) vs m vs' m' : Prop :=
  forall x t o b l, nth_error (i_var s') x = Some (true, KTree t) -> var vs x = Some o -> In b (owned o) -> block m b = Some l -> var vs' x = Some o /\ block m' b = Some l.
Lemma orel_change G G' s s' vs vs' m m' : later s s' -> kept_lazy s s' vs m vs' m' ->
  (forall o t, orel G s vs m o t -> (forall b l, In b (owned o) -> block m b = Some l -> block m' b = Some l) -> orel (G ++ G') s' vs' m' o t)
  /\ (forall os ts, orels G s vs m os ts -> (forall b l, In b (flat_map owned os) -> block m b = Some l -> block m' b = Some l) -> orels (G ++ G') s' vs' m' os ts).
Proof.
  intros HL HK. apply (orel_both G s vs m (fun o t _ => (forall b l, In b (owned o) -> block m b = Some l -> block m' b = Some l) -> orel (G ++ G') s' vs' m' o t) (fun os ts _ => (forall b l, In b (flat_map owned os) -> block m b = Some l -> block m' b = Some l) -> orels (G ++ G') s' vs' m' os ts)).
  - intros x a g l E _. destruct (HL x _ _ E) as (a' & k' & E' & Hk & _). destruct k' as [g' l'| |]; try contradiction. now apply r_arr with a' g' l'.
  - intros x a t E _. destruct (HL x _ _ E) as (a' & k' & E' & Hk & _). destruct k' as [|t'|]; try contradiction. cbn in Hk. subst t'. now apply r_lazy with a'.
  - intros x g sel b E _. apply r_view. rewrite nth_error_app1; [exact E|]. apply nth_error_Some. congruence.
  - intros b l E H. apply r_own. apply H; [now left|exact E].
  - intros x b sel l a t E H _. destruct (HL x _ _ E) as (a' & k' & E' & Hk & Ha). destruct k' as [|t'|]; try contradiction. cbn in Hk. subst t'. apply r_in with a' t; [exact E'|]. intros ->.
    destruct (H (Ha eq_refl)) as (o & l0 & E1 & E2 & E3 & E4). destruct (HK x t o b l0 E' E1 E2 E3) as [F1 F2]. exists o, l0. auto.
  - intros cm f os ts _ IH H. apply r_call. apply IH. exact H.
  - intros _. constructor.
  - intros o t os ts _ IH1 _ IH2 H. constructor; [apply IH1|apply IH2]; intros b l Hb; apply H; cbn; apply in_or_app; auto.
Qed.
Lemma orels_app G s vs m os ts os' ts' : orels G s vs m os ts -> orels G s vs m os' ts' -> orels G s vs m (os ++ os') (ts ++ ts').
Proof. induction 1 using orels_mut with (P := fun _ _ _ => True); cbn; auto; intros; try constructor; auto. Qed.

Definition vrel (G : list nat) (s : ideal) (vs : vars) (m : mem) (x : nat) (o : option obj) (k : bool * kind V) : Prop :=
  match k with
  | (false, _) => o = None
  | (true, KArr g l) => exists b, o = Some (OOwn b) /\ nth_error G g = Some b /\ block m b = Some l
  | (true, KTree t) => exists o', o = Some o' /\ orel G s vs m o' t /\ below x o' /\ top o'
  | (true, KAlias y) => o = Some (ORef y) /\ (y < x)%nat /\ exists a k', nth_error (i_var s) y = Some (a, k') /\ is_tree k'
  end.
Definition owns (vs : vars) : list nat := flat_map (fun q => match q with Some o => owned o | None => [] end) vs.
Record Inv (G P : list nat) (vs : vars) (m : mem) (s : ideal) : Prop := InvI {
  I_len : length vs = length (i_var s);
  I_gen : length G = i_next s;
  I_var : forall x (o : option obj) k, nth_error vs x = Some o -> nth_error (i_var s) x = Some k -> vrel G s vs m x o k;
  I_dup : NoDup (owns vs ++ P);
  I_live : forall b, block m b <> None <-> In b (owns vs ++ P) }.
Lemma Inv_perm G P P' vs m s : Permutation P P' -> Inv G P vs m s -> Inv G P' vs m s.
Proof.
  intros H [I1 I2 I3 I4 I5]. constructor; auto.
  - apply (Permutation_NoDup (l := owns vs ++ P)); [now apply Permutation_app_head|exact I4].
  - intros b. rewrite I5. split; apply Permutation_in; [now apply Permutation_app_head|apply Permutation_app_head; now symmetry].
Qed.
Lemma owns_in vs x o b : var vs x = Some o -> In b (owned o) -> In b (owns vs).
Proof. unfold var. destruct (nth_error vs x) as [[q|]|] eqn:E; try discriminate. intros [= ->] H. unfold owns. apply in_flat_map. exists (Some o). split; [now apply nth_error_In in E|exact H]. Qed.
Lemma slot G P vs m s x a k : Inv G P vs m s -> nth_error (i_var s) x = Some (a, k) -> exists o : option obj, nth_error vs x = Some o /\ vrel G s vs m x o (a, k).
Proof. intros I E. destruct (nth_error vs x) as [o|] eqn:Eo; [|apply nth_error_None in Eo; assert (x < length (i_var s))%nat by (apply nth_error_Some; congruence); rewrite (I_len _ _ _ _ _ I) in Eo; lia]. exists o. split; [reflexivity|]. now apply (I_var _ _ _ _ _ I). Qed.
Lemma array_spec s x g l : array s x = Some (g, l) <-> nth_error (i_var s) x = Some (true, KArr g l).
Proof. unfold array. destruct (nth_error (i_var s) x) as [[[|] [g' l'|t|y]]|]; split; intros H; try discriminate; congruence. Qed.
Lemma array_slot G P vs m s x g l : Inv G P vs m s -> array s x = Some (g, l) -> exists b, nth_error vs x = Some (Some (OOwn b)) /\ var vs x = Some (OOwn b) /\ nth_error G g = Some b /\ block m b = Some l.
Proof. intros I E. apply array_spec in E. destruct (slot _ _ _ _ _ _ _ _ I E) as (o & Eo & b & -> & E1 & E2). exists b. unfold var. rewrite Eo. auto. Qed.
Lemma lazy_slot G P vs m s x t : Inv G P vs m s -> nth_error (i_var s) x = Some (true, KTree t) -> exists o, nth_error vs x = Some (Some o) /\ var vs x = Some o /\ orel G s vs m o t /\ below x o /\ top o.
Proof. intros I E. destruct (slot _ _ _ _ _ _ _ _ I E) as (o & Eo & o' & -> & E1 & E2 & E3). exists o'. unfold var. rewrite Eo. auto. Qed.
Lemma alive_tree s x a t : nth_error (i_var s) x = Some (a, KTree t) -> alive s x = true -> a = true.
Proof. unfold alive. intros ->. destruct a; congruence. Qed.

(** ** reading *)
Lemma read_call k (w : world) i cm f l : read k w i (OCall cm f l) = (do ys <- gather (read k w i) l; Some (f ys)).
Proof. destruct k; reflexivity. Qed.
Lemma slice_call k vs sel cm f l : slice_obj k vs sel (OCall cm f l) = (do l1 <- gather (slice_obj k vs sel) l; Some (OCall cm f l1)).
Proof. destruct k; reflexivity. Qed.
Lemma orels_gather {Y} G s vs m (ft : tree -> option Y) (fo : obj -> option Y) os ts : orels G s vs m os ts -> (forall o t y, In o os -> orel G s vs m o t -> ft t = Some y -> fo o = Some y) -> forall ys, gather ft ts = Some ys -> gather fo os = Some ys.
Proof.
  revert ts. induction os as [|o os IH]; intros ts R H ys E; inversion R as [|? t ? ts' R1 R2]; subst; cbn in *; [exact E|].
  destruct (ft t) as [y|] eqn:Ey; [|discriminate]. destruct (gather ft ts') as [zs|] eqn:Ez; [|discriminate]. rewrite (H o t y (or_introl eq_refl) R1 Ey), (IH ts' R2 (fun o t y Ho => H o t y (or_intror Ho)) zs Ez). exact E.
Qed.
Lemma below_in n l o : belows n l -> In o l -> below n o.
Proof. induction l as [|q l IH]; cbn; [contradiction|]. intros [A B] [<-|H]; auto. Qed.
Lemma read_rel G P vs m s i : Inv G P vs m s -> forall k o t v, orel G s vs m o t -> below k o -> tval s i t = Some v -> read k (World m vs) i o = Some v.
Proof.
  intros I k. induction k as [k IHk] using lt_wf_ind. intros o. induction o as [x|b|b sel|cm f l IH|] using obj_ind'; intros t v R B E.
  - cbn in B. destruct k as [|k]; [lia|]. inversion R as [x' a g l E1|x' a t' E1| | | |]; subst; cbn [tval] in E.
    + destruct (array s x) as [[g' l']|] eqn:Ea; [|discriminate]. destruct (array_slot _ _ _ _ _ _ _ _ I Ea) as (b & _ & Ev & _ & Eb). cbn. rewrite Ev. destruct k; cbn; rewrite Eb; exact E.
    + destruct (alive s x) eqn:Hl; [|discriminate]. rewrite (alive_tree _ _ _ _ E1 Hl) in E1. destruct (lazy_slot _ _ _ _ _ _ _ I E1) as (o & _ & Ev & Ro & Bo & _). cbn [read w_var]. rewrite Ev. apply (IHk k (Nat.lt_succ_diag_r k) o t' v Ro); [|exact E]. apply (below_mono x); [lia|exact Bo].
  - inversion R as [| | |b' l E1| |]; subst. cbn in E. destruct k; cbn; rewrite E1; exact E.
  - inversion R as [| |x g sel' b' E1| |x b' sel' l a t' E1 H|]; subst; cbn [tval] in E.
    + destruct (array s x) as [[g1 l]|] eqn:Ea; [|discriminate]. destruct (Nat.eqb_spec g g1) as [<-|]; [|discriminate]. destruct (array_slot _ _ _ _ _ _ _ _ I Ea) as (b' & _ & _ & Eg & Eb). assert (b' = b) as -> by congruence. destruct k; cbn; rewrite Eb; exact E.
    + destruct (alive s x) eqn:Hl; [|discriminate]. destruct (H (alive_tree _ _ _ _ E1 Hl)) as (o & l0 & _ & _ & Eb & Ep).
      assert (Eq : match nth_error sel i with Some p => nth_error l0 p | None => None end = Some v).
      { destruct (nth_error sel i) as [p|] eqn:Es; [now rewrite <- (gather_nth _ _ _ Ep i p Es)|]. apply nth_error_None in Es. assert (nth_error l i <> None) as Hn by congruence. apply nth_error_Some in Hn. rewrite (gather_len _ _ _ Ep) in Hn. lia. }
      destruct k; cbn; rewrite Eb; exact Eq.
  - inversion R as [| | | | |cm' f' os ts Rs]; subst. cbn [tval] in E. destruct (gather (tval s i) ts) as [ys|] eqn:Eg; [|discriminate].
    assert (Q : gather (read k (World m vs) i) l = Some ys).
    { apply (orels_gather G s vs m (tval s i) _ l ts Rs); [|exact Eg]. intros o t y Ho Ro Ey. rewrite Forall_forall in IH. apply (IH o Ho t y Ro); [|exact Ey]. exact (below_in _ _ _ B Ho). }
    rewrite read_call, Q. exact E.
  - inversion R.
Qed.
Lemma size_rel G P vs m s : Inv G P vs m s -> forall k o t n, orel G s vs m o t -> below k o -> tlen s t = Some n -> size k (World m vs) o = Some n.
Proof.
  intros I k. induction k as [k IHk] using lt_wf_ind. intros o. induction o as [x|b|b sel|cm f l IH|] using obj_ind'; intros t v R B E.
  - cbn in B. destruct k as [|k]; [lia|]. inversion R as [x' a g l E1|x' a t' E1| | | |]; subst; cbn [tlen] in E.
    + destruct (array s x) as [[g' l']|] eqn:Ea; [|discriminate]. destruct (array_slot _ _ _ _ _ _ _ _ I Ea) as (b & _ & Ev & _ & Eb). cbn. rewrite Ev. destruct k; cbn; rewrite Eb; exact E.
    + destruct (alive s x) eqn:Hl; [|discriminate]. rewrite (alive_tree _ _ _ _ E1 Hl) in E1. destruct (lazy_slot _ _ _ _ _ _ _ I E1) as (o & _ & Ev & Ro & Bo & _). cbn [size w_var]. rewrite Ev. apply (IHk k (Nat.lt_succ_diag_r k) o t' v Ro); [|exact E]. apply (below_mono x); [lia|exact Bo].
  - inversion R as [| | |b' l E1| |]; subst. cbn in E. destruct k; cbn; rewrite E1; exact E.
  - inversion R as [| |x g sel' b' E1| |x b' sel' l a t' E1 H|]; subst; cbn [tlen] in E; [destruct k; exact E|].
    destruct (alive s x) eqn:Hl; [|discriminate]. destruct (H (alive_tree _ _ _ _ E1 Hl)) as (o & l0 & _ & _ & Eb & Ep). rewrite (gather_len _ _ _ Ep) in E. destruct k; exact E.
  - inversion R as [| | | | |cm' f' os ts Rs]; subst. destruct l as [|o l]; inversion Rs as [|? t ? ts' R1 R2]; subst; cbn [tlen] in E; [destruct k; exact E|]. inversion IH as [|? ? Ho _]; subst. cbn in B. specialize (Ho t v R1 (proj1 B) E). destruct k; exact Ho.
  - inversion R.
Qed.
Lemma values_rel G P vs m s o t l : Inv G P vs m s -> orel G s vs m o t -> below (length vs) o -> tvals s t = Some l -> values (World m vs) o = Some l.
Proof.
  intros I R B E. unfold tvals in E. unfold values. cbn [w_var]. destruct (tlen s t) as [n|] eqn:En; [|discriminate]. rewrite (size_rel _ _ _ _ _ I _ _ _ _ R B En). apply gather_of. apply gather_in in E.
  revert E. generalize (seq 0 n). intros q F. induction F as [|i v q l H F IH]; constructor; auto. now apply (read_rel _ _ _ _ _ _ I _ _ t).
Qed.

(** ** slices *)
Definition owned_by (s : ideal) vs (owner : option nat) (o : obj) : Prop := match owner with None => True | Some x => exists o0 t0, nth_error (i_var s) x = Some (true, KTree t0) /\ var vs x = Some o0 /\ incl (owned o) (owned o0) end.
Lemma slice_rel G P vs m s sel : Inv G P vs m s -> forall k o t t' owner, orel G s vs m o t -> below k o -> owned_by s vs owner o -> tslice s owner sel t = Some t' ->
  exists o', slice_obj k vs sel o = Some o' /\ orel G s vs m o' t' /\ below 0 o' /\ owned o' = [] /\ top o'.
Proof.
  intros I k. induction k as [k IHk] using lt_wf_ind. intros o. induction o as [x|b|b s0|cm f l IH|] using obj_ind'; intros t t' owner R B O E.
  - cbn in B. destruct k as [|k]; [lia|]. inversion R as [x' a g l E1|x' a t1 E1| | | |]; subst; cbn [tslice] in E.
    + destruct (array s x) as [[g' l']|] eqn:Ea; [|discriminate]. injection E as <-. destruct (array_slot _ _ _ _ _ _ _ _ I Ea) as (b & _ & Ev & Eg & Eb). exists (OView b sel). split; [cbn; rewrite Ev; destruct k; reflexivity|]. cbn. split; [now apply r_view|auto].
    + destruct (alive s x) eqn:Hl; [|discriminate]. rewrite (alive_tree _ _ _ _ E1 Hl) in E1. destruct (lazy_slot _ _ _ _ _ _ _ I E1) as (o & _ & Ev & Ro & Bo & _). cbn [slice_obj]. rewrite Ev.
      apply (IHk k (Nat.lt_succ_diag_r k) o t1 t' (Some x) Ro); [apply (below_mono x); [lia|exact Bo]| |exact E]. exists o, t1. split; [exact E1|]. split; [exact Ev|]. apply incl_refl.
  - inversion R as [| | |b' l E1| |]; subst. cbn in E. destruct owner as [x|]; [|discriminate]. destruct (pick l sel) as [l1|] eqn:Ep; [|discriminate]. injection E as <-.
    destruct O as (o0 & t0 & E2 & Ev & Hi). exists (OView b sel). split; [destruct k; reflexivity|]. split; [|cbn; auto]. apply r_in with true t0; [exact E2|]. intros _. exists o0, l. split; [exact Ev|]. split; [apply Hi; now left|]. auto.
  - inversion R as [| |x g sel' b' E1| |x b' sel' l a t1 E1 H|]; subst; cbn [tslice] in E.
    + destruct (pick s0 sel) as [s1|] eqn:Ep; [|discriminate]. injection E as <-. exists (OView b s1). split; [destruct k; cbn; rewrite Ep; reflexivity|]. split; [now apply r_view|cbn; auto].
    + destruct (alive s x) eqn:Hl; [|discriminate]. destruct (pick l sel) as [l1|] eqn:Ep; [|discriminate]. injection E as <-. destruct (H (alive_tree _ _ _ _ E1 Hl)) as (o & l0 & Ev & Hb & Eb & Ep0).
      destruct (pick_pick _ _ _ _ _ Ep0 Ep) as (s1 & Es1 & Es2). exists (OView b s1). split; [destruct k; cbn; rewrite Es1; reflexivity|]. split; [|cbn; auto]. apply r_in with a t1; [exact E1|]. intros _. exists o, l0. auto.
  - inversion R as [| | | | |cm' f' os ts Rs]; subst. cbn [tslice] in E. destruct (gather (tslice s owner sel) ts) as [ys|] eqn:Eg; [|discriminate]. injection E as <-. rewrite slice_call.
    assert (Q : exists l1, gather (slice_obj k vs sel) l = Some l1 /\ orels G s vs m l1 ys /\ belows 0 l1 /\ flat_map owned l1 = []).
    { clear R. revert ts Rs ys Eg. induction l as [|o l IHl]; intros ts Rs ys Eg; inversion Rs as [|? t ? ts' R1 R2]; subst; cbn in Eg; [injection Eg as <-; exists []; cbn; repeat split; constructor|].
      destruct (tslice s owner sel t) as [y|] eqn:Ey; [|discriminate]. destruct (gather (tslice s owner sel) ts') as [zs|] eqn:Ez; [|discriminate]. injection Eg as <-. inversion IH as [|? ? Ho Hl]; subst. destruct B as [B1 B2].
      assert (O1 : owned_by s vs owner o /\ owned_by s vs owner (OCall cm f l)).
      { destruct owner as [x|]; [|cbn; auto]. destruct O as (o0 & t0 & A1 & A2 & A3). cbn in A3. split; exists o0, t0; (split; [exact A1|]); (split; [exact A2|]); intros q Hq; apply A3; apply in_or_app; auto. }
      destruct (Ho t y owner R1 B1 (proj1 O1) Ey) as (o1 & F1 & F2 & F3 & F4 & _). destruct (IHl Hl B2 (proj2 O1) ts' R2 zs Ez) as (l1 & H1 & H2 & H3 & H4).
      exists (o1 :: l1). cbn. rewrite F1, H1, F4, H4. repeat split; auto. now constructor. }
    destruct Q as (l1 & E1 & E2 & E3 & E4). exists (OCall cm f l1). rewrite E1. split; [reflexivity|]. split; [now apply r_call|]. cbn. auto.
  - inversion R.
Qed.

(** ** memory only grows while an expression is built *)
Definition ext m m' : Prop := forall b l, block m b = Some l -> block m' b = Some l.
Lemma ext_refl m : ext m m. Proof. red. auto. Qed.
Lemma ext_trans m1 m2 m3 : ext m1 m2 -> ext m2 m3 -> ext m1 m3. Proof. unfold ext. auto. Qed.
Lemma later_refl s : later s s.
Proof. intros x a k E. exists a, k. split; [exact E|]. split; destruct k; cbn; auto. Qed.
Lemma orel_ext G s vs m m' o t : ext m m' -> orel G s vs m o t -> orel G s vs m' o t.
Proof. intros H R. rewrite <- (app_nil_r G). apply (proj1 (orel_change G [] s s vs vs m m' (later_refl s) (fun x t o b l _ E _ Eb => conj E (H b l Eb)))); auto. Qed.
Lemma orels_ext G s vs m m' os ts : ext m m' -> orels G s vs m os ts -> orels G s vs m' os ts.
Proof. intros H R. rewrite <- (app_nil_r G). apply (proj2 (orel_change G [] s s vs vs m m' (later_refl s) (fun x t o b l _ E _ Eb => conj E (H b l Eb)))); auto. Qed.
Lemma block_len m b l : block m b = Some l -> (b < length m)%nat.
Proof. unfold block. destruct (nth_error m b) eqn:E; [|discriminate]. intros _. apply nth_error_Some. congruence. Qed.
Lemma ext_new m l : ext m (m ++ [Some l]).
Proof. intros b l0 E. unfold block. rewrite nth_error_app1 by (now apply block_len in E). exact E. Qed.
Lemma block_new m l : block (m ++ [Some l]) (length m) = Some l.
Proof. unfold block. rewrite nth_error_app2, Nat.sub_diag by lia. reflexivity. Qed.
Lemma vrel_ext G s vs m m' x (o : option obj) k : ext m m' -> vrel G s vs m x o k -> vrel G s vs m' x o k.
Proof.
  intros H. destruct k as [[|] [g l|t|y]]; cbn; auto.
  - intros (b & E1 & E2 & E3). exists b. auto.
  - intros (o' & E1 & E2 & E3). exists o'. split; [exact E1|]. split; [now apply (orel_ext _ _ _ m)|exact E3].
Qed.
Lemma Inv_new G P vs m s l : Inv G P vs m s -> Inv G (length m :: P) vs (m ++ [Some l]) s.
Proof.
  intros [I1 I2 I3 I4 I5]. assert (F : ~ In (length m) (owns vs ++ P)). { intros H. apply I5 in H. destruct (block m (length m)) eqn:E; [|congruence]. apply block_len in E. lia. }
  constructor; auto.
  - intros x o k E1 E2. apply (vrel_ext _ _ _ m); [apply ext_new|auto].
  - apply NoDup_Add with (a := length m) (l := owns vs ++ P); [apply Add_app|]. auto.
  - intros b. rewrite in_app_iff. cbn. destruct (Nat.eq_dec b (length m)) as [->|Hb].
    + rewrite block_new. split; [auto|congruence].
    + transitivity (block m b <> None); [|rewrite I5, in_app_iff; intuition congruence]. unfold block. destruct (Nat.ltb_spec b (length m)).
      * rewrite nth_error_app1 by lia. reflexivity.
      * rewrite !(proj2 (nth_error_None _ _)); [reflexivity|lia|rewrite app_length; cbn; lia].
Qed.

(** ** copies and moves *)
Ltac perm := apply (Permutation_count_occ Nat.eq_dec); intros q_; cbn [flat_map app]; rewrite ?app_nil_r; repeat rewrite count_occ_app; lia.
Ltac sp := repeat match goal with |- _ /\ _ => split end; first [reflexivity | apply ext_refl | assumption | constructor; fail | discriminate | solve [auto]].
Lemma copy_rel G vs s : forall o m P t, Inv G P vs m s -> orel G s vs m o t ->
  exists m' o', copy_obj o m = Some (m', o', []) /\ ext m m' /\ Inv G (owned o' ++ P) vs m' s /\ orel G s vs m' o' t /\ (forall n, below n o -> below n o') /\ (top o -> top o').
Proof.
  induction o as [x|b|b sel|cm f l IH|] using obj_ind'; intros m P t I R.
  - exists m, (ORef x). cbn. sp.
  - inversion R as [| | |b' l E1| |]; subst. cbn. rewrite E1. exists (m ++ [Some l]), (OOwn (length m)). split; [reflexivity|]. split; [apply ext_new|]. split; [now apply Inv_new|]. split; [apply r_own, block_new|]. cbn. auto.
  - exists m, (OView b sel). cbn. sp.
  - inversion R as [| | | | |cm' f' os ts Rs]; subst. cbn [copy_obj].
    assert (Q : exists m' l1, thread copy_obj l m = Some (m', l1, []) /\ ext m m' /\ Inv G (flat_map owned l1 ++ P) vs m' s /\ orels G s vs m' l1 ts /\ (forall n, belows n l -> belows n l1)).
    { clear R. revert m P ts I Rs. induction l as [|o l IHl]; intros m P ts I Rs; inversion Rs as [|? t ? ts' R1 R2]; subst; [exists m, []; cbn; sp|].
      inversion IH as [|? ? Ho Hl]; subst. destruct (Ho m P t I R1) as (m1 & o1 & E1 & X1 & I1 & O1 & B1 & _).
      destruct (IHl Hl m1 (owned o1 ++ P) ts' I1 (orels_ext _ _ _ _ _ _ _ X1 R2)) as (m2 & l1 & E2 & X2 & I2 & O2 & B2). exists m2, (o1 :: l1). cbn. rewrite E1, E2. split; [reflexivity|]. split; [now apply (ext_trans _ m1)|]. split.
      - apply (Inv_perm _ (flat_map owned l1 ++ owned o1 ++ P)); [|exact I2]. rewrite <- !app_assoc. rewrite !(app_assoc _ _ P). apply Permutation_app_tail, Permutation_app_comm.
      - split; [constructor; [now apply (orel_ext _ _ _ m1)|exact O2]|]. intros n [A B]. split; [now apply B1|now apply B2]. }
    destruct Q as (m' & l1 & -> & X & I' & O' & B'). exists m', (OCall cm f l1). split; [reflexivity|]. split; [exact X|]. split; [exact I'|]. split; [now apply r_call|]. cbn. auto.
  - inversion R.
Qed.
Lemma move_rel G vs s : forall o m P t, Inv G (owned o ++ P) vs m s -> orel G s vs m o t ->
  exists m' o' l, move_obj o m = Some (m', o', l) /\ ext m m' /\ Inv G (owned o' ++ l ++ P) vs m' s /\ orel G s vs m' o' t /\ (forall n, below n o -> below n o') /\ (top o -> top o') /\ (forall b, o = OOwn b -> o' = OOwn b).
Proof.
  induction o as [x|b|b sel|cm f l IH|] using obj_ind'; intros m P t I R.
  - exists m, (ORef x), []. cbn. sp.
  - exists m, (OOwn b), []. cbn. sp.
  - exists m, (OView b sel), []. cbn. sp.
  - destruct cm.
    + destruct (copy_rel G vs s (OCall true f l) m _ t I R) as (m' & o' & E & X & I' & O' & B' & T'). exists m', o', (owned (OCall true f l)). cbn [move_obj]. rewrite E. split; [reflexivity|]. repeat (split; [assumption|]). discriminate.
    + inversion R as [| | | | |cm' f' os ts Rs]; subst. cbn [move_obj].
      assert (Q : exists m' l1 tt, thread move_obj l m = Some (m', l1, tt) /\ ext m m' /\ Inv G (flat_map owned l1 ++ tt ++ P) vs m' s /\ orels G s vs m' l1 ts /\ (forall n, belows n l -> belows n l1)).
      { clear R. cbn in I. revert m P ts I Rs. induction l as [|o l IHl]; intros m P ts I Rs; inversion Rs as [|? t ? ts' R1 R2]; subst; [exists m, [], []; cbn; sp|].
        inversion IH as [|? ? Ho Hl]; subst. cbn in I. rewrite <- app_assoc in I. destruct (Ho m (flat_map owned l ++ P) t I R1) as (m1 & o1 & t1 & E1 & X1 & I1 & O1 & B1 & _).
        destruct (IHl Hl m1 (owned o1 ++ t1 ++ P) ts') as (m2 & l1 & t2 & E2 & X2 & I2 & O2 & B2); [|exact (orels_ext _ _ _ _ _ _ _ X1 R2)|].
        - apply (Inv_perm _ _ _ _ _ _) with (2 := I1). perm.
        - exists m2, (o1 :: l1), (t1 ++ t2). cbn. rewrite E1, E2. split; [reflexivity|]. split; [now apply (ext_trans _ m1)|]. split.
          + apply (Inv_perm _ (flat_map owned l1 ++ t2 ++ owned o1 ++ t1 ++ P)); [|exact I2]. perm.
          + split; [constructor; [now apply (orel_ext _ _ _ m1)|exact O2]|]. intros n [A B]. split; [now apply B1|now apply B2]. }
      destruct Q as (m' & l1 & tt & -> & X & I' & O' & B'). exists m', (OCall false f l1), tt. split; [reflexivity|]. split; [exact X|]. split; [exact I'|]. split; [now apply r_call|]. cbn. sp.
  - inversion R.
Qed.

(** ** expressions *)
Section SrcInd.
Context (P : src V -> Prop) (H1 : forall x, P (SVar x)) (H2 : forall l, P (STemp l)) (H3 : forall cm f l, Forall P l -> P (SCall cm f l)) (H4 : forall e sel, P e -> P (SSlice e sel)) (H5 : forall e, P e -> P (SReal e)).
Fixpoint src_ind' (e : src V) : P e :=
  match e with
  | SVar x => H1 x | STemp l => H2 l
  | SCall cm f l => H3 cm f l ((fix go l : Forall P l := match l with [] => Forall_nil P | e :: l => Forall_cons e (src_ind' e) (go l) end) l)
  | SSlice e sel => H4 e sel (src_ind' e) | SReal e => H5 e (src_ind' e)
  end.
End SrcInd.
Definition held o : Prop := top o \/ exists b, o = OOwn b.
Definition rrel (G : list nat) (s : ideal) vs m (r : res V) (ir : ires V) : Prop :=
  match r, ir with
  | LV x, ILV y => x = y /\ exists k, nth_error (i_var s) x = Some (true, k) /\ is_tree k
  | PRV o, IPR t | XV o, IXV t => orel G s vs m o t /\ below (length vs) o /\ held o
  | _, _ => False
  end.
Lemma resolve_rel G P vs m s x y : Inv G P vs m s -> name_of s x = Some y -> resolve vs x = Some y /\ exists k, nth_error (i_var s) y = Some (true, k) /\ is_tree k.
Proof.
  intros I E. unfold name_of in E. destruct (nth_error (i_var s) x) as [[[|] k]|] eqn:Ex; try discriminate. destruct (slot _ _ _ _ _ _ _ _ I Ex) as (o & Eo & R). unfold resolve, var. rewrite Eo. destruct k as [g l|t|z]; cbn in R.
  - injection E as <-. destruct R as (b & -> & _). split; [reflexivity|]. exists (KArr g l). cbn. auto.
  - injection E as <-. destruct R as (o' & -> & _ & _ & T). split; [destruct o'; try contradiction; reflexivity|]. exists (KTree t). cbn. auto.
  - destruct (alive s z) eqn:Ez; [|discriminate]. injection E as <-. destruct R as (-> & _ & a & k' & E1 & E2). split; [reflexivity|]. unfold alive in Ez. rewrite E1 in *. destruct a; [|discriminate]. exists k'. auto.
Qed.
Lemma by_name_rel G P vs m s x t : Inv G P vs m s -> by_name s x = Some t -> orel G s vs m (ORef x) t /\ (x < length vs)%nat.
Proof.
  intros I E. unfold by_name in E. destruct (nth_error (i_var s) x) as [[[|] [g l|t'|z]]|] eqn:Ex; try discriminate; injection E as <-; (split; [|rewrite (I_len _ _ _ _ _ I); apply nth_error_Some; congruence]).
  - now apply r_arr with true g l.
  - now apply r_lazy with true.
Qed.
Lemma tree_of_rel G P vs m s r ir t : Inv G P vs m s -> rrel G s vs m r ir -> tree_of s ir = Some t -> orel G s vs m (obj_of r) t /\ below (length vs) (obj_of r).
Proof.
  intros I R E. destruct r as [x|o|o], ir as [y|u|u]; try contradiction; cbn in *.
  - destruct R as [<- _]. now apply (by_name_rel G P).
  - injection E as <-. tauto.
  - injection E as <-. tauto.
Qed.
Lemma bind_rel G P vs m s r ir t : Inv G (destroyed r ++ P) vs m s -> rrel G s vs m r ir -> tree_of s ir = Some t ->
  exists m' o l, bind_arg r m = Some (m', o, l) /\ ext m m' /\ Inv G (owned o ++ l ++ P) vs m' s /\ orel G s vs m' o t /\ below (length vs) o.
Proof.
  intros I R E. destruct (tree_of_rel _ _ _ _ _ _ _ _ I R E) as [O B]. destruct r as [x|o|o]; cbn in *.
  - exists m, (ORef x), []. cbn. sp.
  - destruct (move_rel G vs s o m P t I O) as (m' & o' & l & E1 & X & I' & O' & B' & _). exists m', o', l. auto 8.
  - destruct (move_rel G vs s o m P t I O) as (m' & o' & l & E1 & X & I' & O' & B' & _). exists m', o', l. auto 8.
Qed.
Lemma build_rel G vs s : forall e m P ir, Inv G P vs m s -> denote s e = Some ir ->
  exists m' r tt, build vs e m = Some (m', r, tt) /\ ext m m' /\ Inv G (destroyed r ++ tt ++ P) vs m' s /\ rrel G s vs m' r ir.
Proof.
  induction e as [x|l|cm f l IH|e sel IH|e IH] using src_ind'; intros m P ir I E.
  - cbn in E. destruct (name_of s x) as [y|] eqn:En; [|discriminate]. injection E as <-. destruct (resolve_rel _ _ _ _ _ _ _ I En) as [E1 E2]. exists m, (LV y), []. cbn. rewrite E1. sp.
  - cbn in E. injection E as <-. exists (m ++ [Some l]), (PRV (OOwn (length m))), []. cbn. split; [reflexivity|]. split; [apply ext_new|]. split; [now apply Inv_new|]. split; [apply r_own, block_new|]. split; [auto|]. right. eauto.
  - cbn [denote] in E. destruct (gather _ l) as [ts|] eqn:Eg; [|discriminate]. injection E as <-. cbn [build].
    match goal with |- context [thread ?F l m] => set (F0 := F) end.
    assert (Q : exists m' os tt, thread F0 l m = Some (m', os, tt) /\ ext m m' /\ Inv G (flat_map owned os ++ tt ++ P) vs m' s /\ orels G s vs m' os ts /\ belows (length vs) os).
    { revert m P ts I Eg. induction l as [|e l IHl]; intros m P ts I Eg; cbn in Eg; [injection Eg as <-; exists m, [], []; cbn; sp|].
      destruct (denote s e) as [r1|] eqn:Ed; [|discriminate]. destruct (tree_of s r1) as [t1|] eqn:Et; [|discriminate]. destruct (gather _ l) as [ts1|] eqn:Eg1; [|discriminate]. injection Eg as <-.
      inversion IH as [|? ? He Hl]; subst. destruct (He m P r1 I Ed) as (m1 & r & tt & E1 & X1 & I1 & R1). destruct (bind_rel G (tt ++ P) vs m1 s r r1 t1 I1 R1 Et) as (m2 & o & l2 & E2 & X2 & I2 & O2 & B2).
      destruct (IHl Hl m2 _ ts1 I2 eq_refl) as (m3 & os & t3 & E3 & X3 & I3 & O3 & B3). exists m3, (o :: os), ((tt ++ l2) ++ t3). cbn [thread]. unfold F0 at 1. rewrite E1, E2, E3. split; [reflexivity|].
      split; [apply (ext_trans _ m1); [exact X1|now apply (ext_trans _ m2)]|]. split; [apply (Inv_perm _ _ _ _ _ _) with (2 := I3); perm|]. split; [constructor; [now apply (orel_ext _ _ _ m2)|exact O3]|]. now split. }
    destruct Q as (m' & os & t & -> & X & I' & O & B). exists m', (PRV (OCall cm f os)), t. split; [reflexivity|]. split; [exact X|]. split; [exact I'|]. split; [now apply r_call|]. split; [exact B|]. left. exact Logic.I.
  - cbn in E. destruct (denote s e) as [r1|] eqn:Ed; [|discriminate]. destruct (tree_of s r1) as [t1|] eqn:Et; [|discriminate]. destruct (tslice s None sel t1) as [t2|] eqn:Es; [|discriminate]. injection E as <-.
    destruct (IH m P r1 I eq_refl) as (m1 & r & tt & E1 & X1 & I1 & R1). destruct (tree_of_rel _ _ _ _ _ _ _ _ I1 R1 Et) as [O B]. destruct (slice_rel _ _ _ _ _ sel I1 (length vs) (obj_of r) t1 t2 None O B Logic.I Es) as (o' & E2 & O2 & B2 & W2 & T2).
    exists m1, (PRV o'), (tt ++ destroyed r). cbn [build]. rewrite E1. split; [destruct r; cbn in E2 |- *; rewrite E2; reflexivity|]. split; [exact X1|]. cbn [destroyed]. rewrite W2. split; [apply (Inv_perm _ _ _ _ _ _) with (2 := I1); perm|]. split; [exact O2|]. split; [apply (below_mono 0); [lia|exact B2]|now left].
  - cbn in E. destruct (denote s e) as [r1|] eqn:Ed; [|discriminate]. injection E as <-. destruct (IH m P r1 I eq_refl) as (m1 & r & tt & E1 & X1 & I1 & R1). cbn. rewrite E1. eexists _, _, _. split; [reflexivity|]. split; [exact X1|].
    destruct r as [x|o|o], r1 as [y|u|u]; try contradiction; auto.
Qed.
End Sim.
