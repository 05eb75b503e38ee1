(** Lazy expressions in variables: one statement, and programs. *)
From Verif Require Import Base M_Stored S_Stored L_Stored L_Stored2.

Ltac perm := apply (Permutation_count_occ Nat.eq_dec); intros q_; cbn [flat_map]; rewrite ?app_nil_l, ?app_nil_r; repeat rewrite count_occ_app; lia.

Lemma fold_upd {T} (f : nat -> T) (old pre : list T) : fold_left (fun l i => upd l i (f i)) (seq (length pre) (length old)) (pre ++ old) = pre ++ map f (seq (length pre) (length old)).
Proof.
  revert pre. induction old as [|a old IH]; intros pre; cbn; [reflexivity|]. assert (E : upd (pre ++ a :: old) (length pre) (f (length pre)) = (pre ++ [f (length pre)]) ++ old).
  { clear. induction pre as [|b pre IHp]; cbn; [reflexivity|]. f_equal. generalize (f (S (length pre))). intros y. clear. induction pre as [|c pre IHp]; cbn; [reflexivity|]. now rewrite IHp. }
  rewrite E. specialize (IH (pre ++ [f (length pre)])). rewrite app_length in IH. cbn in IH. rewrite Nat.add_1_r in IH. rewrite IH, <- app_assoc. reflexivity.
Qed.

Section Sim3.
Context {V : Type}.
Notation world := (world V). Notation ideal := (ideal V). Notation obj := (obj V). Notation tree := (tree V).
Notation vars := (list (option obj)).
Implicit Types (m : mem (V := V)) (vs : vars) (s : ideal) (o : obj) (t : tree) (G P : list nat).

Lemma reads_call y f (l : list tree) : reads y (TCall f l) = existsb (reads y) l. Proof. reflexivity. Qed.
(** a value that does not read array y does not depend on y *)
Lemma tval_other G P vs m s s' y a g l i : Inv G P vs m s -> nth_error (i_var s) y = Some (a, KArr g l) -> (forall x, x <> y -> nth_error (i_var s') x = nth_error (i_var s) x) ->
  forall k o t, orel G s vs m o t -> below k o -> reads y t = false -> tval s' i t = tval s i t.
Proof.
  intros I Ey H k. induction k as [k IHk] using lt_wf_ind. intros o. induction o as [x|b|b sel|cm f os IH|] using obj_ind'; intros t R B N.
  - inversion R as [x' a' g' l' E1|x' a' t' E1| | | |]; subst; cbn [tval reads] in *.
    + unfold array. rewrite H; [reflexivity|]. intros ->. now rewrite Nat.eqb_refl in N.
    + assert (x <> y) as Hx by congruence. unfold alive. rewrite H by exact Hx. rewrite E1. destruct a'; [|reflexivity]. destruct (lazy_slot _ _ _ _ _ _ _ I E1) as (o & _ & Ev & Ro & Bo & _). cbn in B. apply (IHk x B o t' Ro Bo N).
  - inversion R; subst. reflexivity.
  - inversion R as [| |x g' sel' b' E1| |x b' sel' l' a' t' E1 Hq|]; subst; cbn [tval reads] in *.
    + unfold array. rewrite H; [reflexivity|]. intros ->. now rewrite Nat.eqb_refl in N.
    + assert (x <> y) as Hx by congruence. unfold alive. now rewrite H by exact Hx.
  - inversion R as [| | | | |cm' f' os' ts Rs]; subst. rewrite reads_call in N. cbn [tval]. replace (gather (tval s' i) ts) with (gather (tval s i) ts); [reflexivity|]. symmetry. clear R. revert ts Rs N. cbn in B. induction os as [|o os IHo]; intros ts Rs N; inversion Rs as [|? t ? ts' R1 R2]; subst; [reflexivity|].
    inversion IH as [|? ? Ho Hl]; subst. destruct B as [B1 B2]. cbn in N. apply Bool.orb_false_iff in N as [N1 N2]. cbn. now rewrite (Ho t R1 B1 N1), (IHo Hl B2 ts' R2 N2).
  - inversion R.
Qed.
Lemma tval_same G P vs m s s' y g l l' i : Inv G P vs m s -> nth_error (i_var s) y = Some (true, KArr g l) -> nth_error (i_var s') y = Some (true, KArr g l') -> nth_error l' i = nth_error l i -> (forall x, x <> y -> nth_error (i_var s') x = nth_error (i_var s) x) ->
  forall k o t, orel G s vs m o t -> below k o -> views y t = false -> tval s' i t = tval s i t.
Proof.
  intros I Ey Ey' El H k. induction k as [k IHk] using lt_wf_ind. intros o. induction o as [x|b|b sel|cm f os IH|] using obj_ind'; intros t R B N.
  - inversion R as [x' a' g' l1 E1|x' a' t' E1| | | |]; subst; cbn [tval views] in *.
    + unfold array. destruct (Nat.eq_dec x y) as [->|Hx]; [now rewrite Ey, Ey'|]. now rewrite H.
    + assert (x <> y) as Hx by congruence. unfold alive. rewrite H by exact Hx. rewrite E1. destruct a'; [|reflexivity]. destruct (lazy_slot _ _ _ _ _ _ _ I E1) as (o & _ & Ev & Ro & Bo & _). cbn in B. apply (IHk x B o t' Ro Bo N).
  - inversion R; subst. reflexivity.
  - inversion R as [| |x g' sel' b' E1| |x b' sel' l1 a' t' E1 Hq|]; subst; cbn [tval views] in *.
    + unfold array. rewrite H; [reflexivity|]. intros ->. now rewrite Nat.eqb_refl in N.
    + assert (x <> y) as Hx by congruence. unfold alive. now rewrite H by exact Hx.
  - inversion R as [| | | | |cm' f' os' ts Rs]; subst. change (existsb (views y) ts = false) in N. cbn [tval]. replace (gather (tval s' i) ts) with (gather (tval s i) ts); [reflexivity|]. symmetry. clear R. revert ts Rs N. cbn in B. induction os as [|o os IHo]; intros ts Rs N; inversion Rs as [|? t ? ts' R1 R2]; subst; [reflexivity|].
    inversion IH as [|? ? Ho Hl]; subst. destruct B as [B1 B2]. cbn in N. apply Bool.orb_false_iff in N as [N1 N2]. cbn. now rewrite (Ho t R1 B1 N1), (IHo Hl B2 ts' R2 N2).
  - inversion R.
Qed.
Lemma put_other s y g (l : list V) n x : x <> y -> nth_error (i_var (put s y g l n)) x = nth_error (i_var s) x.
Proof. intros H. cbn. now rewrite nth_upd_other by congruence. Qed.

(** ** assignment in place *)
Lemma loop_rel G P vs y g b o t (f : nat -> V) n : below (length vs) o -> ~ In b (owned o) -> views y t = false -> nth_error vs y = Some (Some (OOwn b)) -> nth_error G g = Some b ->
  forall (is : list nat) m s l, NoDup is -> Inv G P vs m s -> orel G s vs m o t -> i_next s = n -> nth_error (i_var s) y = Some (true, KArr g l) -> block m b = Some l -> (forall i, In i is -> tval s i t = Some (f i)) ->
  exists m', assign_loop (World m vs) b o is = Some (World m' vs) /\ Inv G P vs m' (put s y g (fold_left (fun l i => upd l i (f i)) is l) n).
Proof.
  intros B Ho N Eo Eg is. induction is as [|i is IH]; intros m s l ND I R En Ey Eb H; cbn [assign_loop fold_left w_var w_mem].
  - exists m. split; [reflexivity|]. replace (put s y g l n) with s; [exact I|]. destruct s as [n0 q]. cbn in *. unfold put. cbn. subst n0. f_equal. clear - Ey. revert y Ey. induction q as [|z q IHq]; intros [|y] E; cbn in *; try discriminate; [congruence|]. f_equal. auto.
  - rewrite (read_rel _ _ _ _ _ i I _ _ _ _ R B (H i (or_introl eq_refl))), Eb. destruct (write_gen _ _ _ _ _ _ _ _ (upd l i (f i)) _ I Ey Eo Eb Eg) as [I' R']. specialize (R' o t R Ho). set (s1 := put s y g (upd l i (f i)) (i_next s)) in *.
    assert (Ly : (y < length (i_var s))%nat) by (apply nth_error_Some; congruence).
    inversion ND as [|? ? N1 N2]; subst. destruct (IH _ s1 (upd l i (f i)) N2 I' R') as (m' & E1 & E2).
    + reflexivity.
    + cbn. now rewrite nth_upd_same by exact Ly.
    + rewrite block_upd, Nat.eqb_refl, (proj2 (Nat.ltb_lt _ _) (block_len _ _ _ Eb)). reflexivity.
    + intros j Hj. rewrite <- (H j (or_intror Hj)). unfold s1. apply (tval_same G P vs m s _ y g l (upd l i (f i)) j I Ey) with (k := length vs) (o := o); auto; [cbn; now rewrite nth_upd_same by exact Ly|rewrite nth_upd_other by (intros ->; contradiction); reflexivity|intros x Hx; now apply put_other].
    + exists m'. split; [exact E1|]. unfold s1, put in E2. cbn in E2. rewrite upd_upd in E2. exact E2.
Qed.

Lemma gather_map {X Y} (d : Y) (f : X -> option Y) l ys : gather f l = Some ys -> (forall x, In x l -> f x = Some (match f x with Some y => y | None => d end)) /\ map (fun x => match f x with Some y => y | None => d end) l = ys.
Proof.
  revert ys. induction l as [|x l IH]; intros ys E; cbn in E; [injection E as <-; split; [contradiction|reflexivity]|]. destruct (f x) as [y|] eqn:Ey; [|discriminate]. destruct (gather f l) as [zs|] eqn:Ez; [|discriminate]. injection E as <-. destruct (IH zs eq_refl) as [A B].
  split; [intros q [<-|Hq]; [now rewrite Ey|now apply A]|]. cbn. now rewrite Ey, B.
Qed.
Lemma gather_nth_all {T} (l : list T) : gather (nth_error l) (seq 0 (length l)) = Some l.
Proof.
  apply gather_of. assert (Q : forall pre post, l = pre ++ post -> Forall2 (fun x y => nth_error l x = Some y) (seq (length pre) (length post)) post).
  { intros pre post. revert pre. induction post as [|a post IH]; intros pre E; cbn; constructor; [rewrite E, nth_error_app2, Nat.sub_diag by lia; reflexivity|]. specialize (IH (pre ++ [a])). rewrite app_length in IH. cbn in IH. rewrite Nat.add_1_r in IH. apply IH. now rewrite E, <- app_assoc. }
  apply (Q [] l eq_refl).
Qed.
Lemma tvals_const s (l : list V) : tvals s (TConst l) = Some l.
Proof. apply gather_nth_all. Qed.
Lemma tvals_arr s x (l : list V) : tvals s (TArr x) = Some l -> exists g, array s x = Some (g, l).
Proof. unfold tvals. cbn [tlen tval]. destruct (array s x) as [[g l0]|]; [|discriminate]. rewrite gather_nth_all. intros [= <-]. now exists g. Qed.

(** ** statements *)
Definition sim (w : option world) (s : ideal) : Prop := exists G vs m, w = Some (World m vs) /\ Inv G [] vs m s.
Lemma declare_rel G vs m m0 s o t (l : list nat) : Inv G (l ++ owned o) vs m s -> orel G s vs m o t -> below (length vs) o -> held o -> sim (declare (World m0 vs) m o l) (fresh s t).
Proof.
  intros I R B H. destruct (free_keeps G [] vs s l m o t) as (m' & E & I' & R'); [rewrite app_nil_r; exact I|exact R|]. rewrite app_nil_r in I'. destruct (push_held _ _ _ _ _ _ I' R' B H) as [G' I2]. unfold declare. rewrite E. exists G', (vs ++ [Some o]), m'. cbn. auto.
Qed.
Lemma new_declare G vs m m0 s (l : list V) (d : list nat) : Inv G d vs m s -> sim (declare (World m0 vs) (m ++ [Some l]) (OOwn (length m)) d) (fresh s (TConst l)).
Proof. intros I. apply (declare_rel G); [|apply r_own, block_new|exact Logic.I|right; eauto]. apply (Inv_perm _ (length m :: d)); [cbn [owned]; change (length m :: d) with ([length m] ++ d); perm|]. now apply Inv_new. Qed.
Lemma decl_rel G vs m s e s' : Inv G [] vs m s -> ideal_step s (Decl e) = Some s' -> sim (exec (World m vs) (Decl e)) s'.
Proof.
  intros I E. cbn [ideal_step] in E. destruct (denote s e) as [ir|] eqn:Ed; [|discriminate]. destruct (build_rel G vs s e m [] ir I Ed) as (m1 & r & tt & E1 & X1 & I1 & R1). cbn [exec w_var w_mem]. rewrite E1. rewrite app_nil_r in I1.
  destruct r as [x|o|o], ir as [y|u|u]; try contradiction; cbn [rrel destroyed] in *.
  - destruct R1 as [<- _]. destruct (nth_error (i_var s) x) as [[[|] [g l|t|z]]|] eqn:Ex; try discriminate; injection E as <-.
    + destruct (array_slot _ _ _ _ _ _ _ _ I1 (proj2 (array_spec s x g l) Ex)) as (b & _ & -> & _ & Eb). cbn [copy_obj]. rewrite Eb. cbn [new_block]. exact (new_declare G vs m1 m s l tt I1).
    + destruct (lazy_slot _ _ _ _ _ _ _ I1 Ex) as (o & Eo & -> & Ro & Bo & To). destruct (copy_rel G vs s o m1 tt t I1 Ro) as (m2 & o' & -> & X2 & I2 & R2 & B2 & T2). apply (declare_rel G); [|exact R2| |left; auto].
      * apply (Inv_perm _ (owned o' ++ tt)); [perm|exact I2].
      * apply (below_mono x); [|now apply B2]. apply Nat.lt_le_incl. apply nth_error_Some. congruence.
  - destruct R1 as (Ro & Bo & Ho). injection E as <-. apply (declare_rel G); auto. apply (Inv_perm _ (owned o ++ tt)); [perm|exact I1].
  - destruct R1 as (Ro & Bo & Ho). injection E as <-. destruct (move_rel G vs s o m1 tt u I1 Ro) as (m2 & o' & l2 & -> & X2 & I2 & R2 & B2 & T2 & W2). apply (declare_rel G); auto.
    + apply (Inv_perm _ (owned o' ++ l2 ++ tt)); [perm|exact I2].
    + destruct Ho as [T|[b ->]]; [left; auto|right; exists b; auto].
Qed.
Lemma declref_rel G vs m s e s' : Inv G [] vs m s -> ideal_step s (DeclRef e) = Some s' -> sim (exec (World m vs) (DeclRef e)) s'.
Proof.
  intros I E. cbn [ideal_step] in E. destruct (denote s e) as [ir|] eqn:Ed; [|discriminate]. destruct (build_rel G vs s e m [] ir I Ed) as (m1 & r & tt & E1 & X1 & I1 & R1). cbn [exec w_var w_mem]. rewrite E1. rewrite app_nil_r in I1.
  destruct r as [x|o|o], ir as [y|u|u]; try contradiction; try discriminate; cbn [rrel destroyed] in *.
  - destruct R1 as (<- & k & Ex & Hk). injection E as <-. destruct (free_rel G [] vs s tt m1) as (m2 & E2 & I2 & _); [rewrite app_nil_r; exact I1|]. unfold declare. rewrite E2. exists (G ++ []), (vs ++ [Some (ORef x)]), m2. split; [reflexivity|].
    assert (Lx : (x < length (i_var s))%nat) by (apply nth_error_Some; congruence).
    apply Inv_push; [exact I2|rewrite app_nil_r; apply (I_gen _ _ _ _ _ I2)|]. cbn. split; [reflexivity|]. split; [rewrite (I_len _ _ _ _ _ I2); exact Lx|]. exists true, k. split; [|exact Hk]. now rewrite nth_error_app1 by exact Lx.
  - destruct R1 as (Ro & Bo & Ho). injection E as <-. apply (declare_rel G); auto. apply (Inv_perm _ (owned o ++ tt)); [perm|exact I1].
Qed.
Lemma declarray_rel G vs m s e s' : Inv G [] vs m s -> ideal_step s (DeclArray e) = Some s' -> sim (exec (World m vs) (DeclArray e)) s'.
Proof.
  intros I E. cbn [ideal_step] in E. destruct (denote s e) as [ir|] eqn:Ed; [|discriminate]. destruct (tree_of s ir) as [t|] eqn:Et; [|discriminate]. destruct (tvals s t) as [l|] eqn:Ev; [|discriminate]. injection E as <-.
  destruct (build_rel G vs s e m [] ir I Ed) as (m1 & r & tt & E1 & X1 & I1 & R1). cbn [exec w_var w_mem]. rewrite E1. rewrite app_nil_r in I1. destruct (tree_of_rel _ _ _ _ _ _ _ _ I1 R1 Et) as [Ro Bo]. pose proof (values_rel _ _ _ _ _ _ _ _ I1 Ro Bo Ev) as Hv.
  assert (Q : sim (do l <- values (World m1 vs) (obj_of r); let '(mb, b) := new_block l m1 in declare (World m vs) mb (OOwn b) (tt ++ destroyed r)) (fresh s (TConst l))).
  { rewrite Hv. cbn [new_block]. apply (new_declare G). apply (Inv_perm _ (destroyed r ++ tt)); [perm|exact I1]. }
  assert (Q2 : forall b, obj_of r = OOwn b -> destroyed r = [b] -> sim (declare (World m vs) m1 (OOwn b) tt) (fresh s (TConst l))).
  { intros b Eb Db. rewrite Eb in *. rewrite Db in I1. inversion Ro as [| | |b' l' E2| |]; subst. rewrite tvals_const in Ev. injection Ev as ->. apply (declare_rel G); [|exact Ro|exact Bo|right; eauto]. apply (Inv_perm _ ([b] ++ tt)); [cbn [owned]; perm|exact I1]. }
  destruct r as [x|o|o]; [exact Q| |]; destruct o as [x|b|b sel|cm f os|]; try exact Q; apply Q2; reflexivity.
Qed.
(** the block of an array is replaced *)
Lemma replace_rel G vs m s y g old bx b l (d : list nat) : Inv G (b :: d) vs m s -> nth_error (i_var s) y = Some (true, KArr g old) -> nth_error vs y = Some (Some (OOwn bx)) -> block m b = Some l ->
  sim (do ma <- free_all (d ++ [bx]) m; Some (World ma (upd vs y (Some (OOwn b))))) (put s y (i_next s) l (S (i_next s))).
Proof.
  intros I Ey Eo Eb. assert (Ly : (y < length (i_var s))%nat) by (apply nth_error_Some; congruence). pose proof (kill_rel _ _ _ _ _ _ _ _ I Ey Eo) as I1. cbn [owned] in I1.
  destruct (free_keeps G [] (upd vs y None) (dead s y (KArr g old)) (d ++ [bx]) m (OOwn b) (TConst l)) as (m1 & E1 & I2 & R2); [|now apply r_own|].
  { apply (Inv_perm _ ([bx] ++ b :: d)); [|exact I1]. cbn [owned]. change (b :: d) with ([b] ++ d). perm. }
  rewrite E1. inversion R2 as [| | |b' l' E2| |]; subst. exists (G ++ [b]), (upd vs y (Some (OOwn b))), m1. split; [reflexivity|].
  assert (Ek : nth_error (i_var (dead s y (KArr g old))) y = Some (false, KArr g old)) by (cbn; now rewrite nth_upd_same by exact Ly).
  pose proof (revive_rel G [] _ m1 _ y b _ _ l I2 Ek E2) as I3. unfold put, dead in I3. cbn in I3. rewrite !upd_upd in I3. exact I3.
Qed.
Lemma fresh_block G P vs m s : Inv G P vs m s -> forall c, In c P -> ~ In c (owns vs).
Proof. intros I c Hc Ho. pose proof (I_dup _ _ _ _ _ I) as D. clear I. induction (owns vs) as [|a w IH]; [contradiction|]. inversion D as [|? ? N D']; subst. destruct Ho as [->|Ho]; [apply N; apply in_or_app; now right|now apply IH]. Qed.
Lemma assign_rel G vs m s x e s' : Inv G [] vs m s -> ideal_step s (Assign x e) = Some s' -> sim (exec (World m vs) (Assign x e)) s'.
Proof.
  intros I E. cbn [ideal_step] in E. destruct (name_of s x) as [y|] eqn:En; [|discriminate]. destruct (array s y) as [[g old]|] eqn:Ea; [|discriminate]. destruct (denote s e) as [ir|] eqn:Ed; [|discriminate]. destruct (tree_of s ir) as [t|] eqn:Et; [|discriminate]. destruct (tvals s t) as [l|] eqn:Ev; [|discriminate].
  destruct (build_rel G vs s e m [] ir I Ed) as (m1 & r & tt & E1 & X1 & I1 & R1). cbn [exec w_var w_mem]. rewrite (proj1 (resolve_rel _ _ _ _ _ _ _ I En)). destruct (array_slot _ _ _ _ _ _ _ _ I1 Ea) as (bx & Ebx & -> & Eg & Eold). rewrite E1. rewrite app_nil_r in I1.
  destruct (tree_of_rel _ _ _ _ _ _ _ _ I1 R1 Et) as [Ro Bo]. pose proof (proj1 (array_spec s y g old) Ea) as Ey.
  (* the other cases: in place, or after a resize *)
  assert (Q : (match t with TArr _ | TConst _ => False | _ => True end) ->
    sim (do n <- size (length vs) (World m1 vs) (obj_of r); do old <- block m1 bx;
         if Nat.eqb n (length old) then do w2 <- assign_loop (World m1 vs) bx (obj_of r) (seq 0 n); do ma <- free_all (tt ++ destroyed r) (w_mem w2); Some (World ma (w_var w2))
         else do mb <- free bx m1; do l <- gather (fun i => read (length vs) (World mb (upd vs y None)) i (obj_of r)) (seq 0 n);
              let '(mc, b) := new_block l mb in do md <- free_all (tt ++ destroyed r) mc; Some (World md (upd vs y (Some (OOwn b))))) s').
  { intros Ht. assert (E' : (if Nat.eqb (length l) (length old) then (if views y t then None else Some (put s y g l (i_next s))) else if reads y t then None else Some (put s y (i_next s) l (S (i_next s)))) = Some s') by (destruct t; try contradiction; exact E). clear E.
    unfold tvals in Ev. destruct (tlen s t) as [n|] eqn:Eln; [|discriminate]. rewrite (size_rel _ _ _ _ _ I1 _ _ _ _ Ro Bo Eln), Eold. pose proof (gather_len _ _ _ Ev) as Hl. rewrite seq_length in Hl. rewrite Hl in E'.
    assert (Nb : ~ In bx (owned (obj_of r))). { intros Hb. assert (In bx (destroyed r)) as Hd by (destruct r; cbn in *; tauto). apply (fresh_block _ _ _ _ _ I1 bx); [apply in_or_app; now left|]. apply (owns_in vs y (OOwn bx)); [unfold var; now rewrite Ebx|now left]. }
    destruct (Nat.eqb_spec n (length old)) as [Hn|Hn].
    - destruct (views y t) eqn:Er; [discriminate|]. injection E' as <-. destruct (seq 0 n) as [|i0 is0] eqn:Esq.
      + destruct n as [|n]; [|discriminate Esq]. destruct old; [|discriminate Hn]. destruct l; [|discriminate Hl]. cbn [assign_loop w_mem w_var].
        destruct (free_rel G [] vs s (tt ++ destroyed r) m1) as (m2 & -> & I2 & _); [apply (Inv_perm _ (destroyed r ++ tt)); [perm|exact I1]|]. exists G, vs, m2. split; [reflexivity|].
        replace (put s y g [] (i_next s)) with s; [exact I2|]. destruct s as [n0 q]. unfold put. cbn in *. f_equal. clear - Ey. revert y Ey. induction q as [|z q IHq]; intros [|y] Eq; cbn in *; try discriminate; [congruence|]. f_equal. auto.
      + assert (exists d : V, tval s i0 t = Some d) as [d _]. { cbn in Ev. destruct (tval s i0 t) as [d|]; [now exists d|discriminate]. }
        rewrite <- Esq in *. destruct (gather_map d _ _ _ Ev) as [F1 F2]. destruct (loop_rel G (destroyed r ++ tt) vs y g bx (obj_of r) t _ (i_next s) Bo Nb Er Ebx Eg (seq 0 n) m1 s old (seq_NoDup n 0) I1 Ro eq_refl Ey Eold F1) as (m2 & E2 & I2). rewrite E2. cbn [w_mem w_var].
        rewrite Hn in I2. pose proof (fold_upd (fun i => match tval s i t with Some y => y | None => d end) old []) as Hf. cbn [length app] in Hf. rewrite Hf, <- Hn, F2 in I2.
        destruct (free_rel G [] vs (put s y g l (i_next s)) (tt ++ destroyed r) m2) as (m3 & -> & I3 & _); [apply (Inv_perm _ (destroyed r ++ tt)); [perm|exact I2]|]. exists G, vs, m3. auto.
    - destruct (reads y t) eqn:Er; [discriminate|]. injection E' as <-. pose proof (kill_rel _ _ _ _ _ _ _ _ I1 Ey Ebx) as I2. cbn [owned] in I2. set (sd := dead s y (KArr g old)) in *.
      assert (Ly : (y < length (i_var s))%nat) by (apply nth_error_Some; congruence).
      assert (Ek : nth_error (i_var sd) y = Some (false, KArr g old)) by (cbn; now rewrite nth_upd_same by exact Ly).
      assert (Rd : orel G sd (upd vs y None) m1 (obj_of r) t).
      { rewrite <- (app_nil_r G). refine (proj1 (orel_change G [] s sd vs (upd vs y None) m1 m1 _ _) (obj_of r) t Ro (fun b l _ Hb => Hb)).
        - intros z a k Ez. cbn. destruct (Nat.eq_dec y z) as [<-|Hz]; [rewrite nth_upd_same by exact Ly; rewrite Ey in Ez; injection Ez as <- <-; exists false, (KArr g old); cbn; auto|]. rewrite nth_upd_other by exact Hz. exists a, k. split; [exact Ez|]. split; destruct k; cbn; auto.
        - intros z u q b lb Ez Evz Hb Eb. cbn in Ez. destruct (Nat.eq_dec y z) as [<-|Hz]; [rewrite nth_upd_same in Ez by exact Ly; discriminate|]. split; [|exact Eb]. unfold var in *. now rewrite nth_upd_other by exact Hz. }
      destruct (free_one G (destroyed r ++ tt) (upd vs y None) m1 sd bx I2) as (m2 & -> & I3 & K3).
      assert (Rd2 : orel G sd (upd vs y None) m2 (obj_of r) t).
      { rewrite <- (app_nil_r G). refine (proj1 (orel_change G [] sd sd (upd vs y None) (upd vs y None) m1 m2 (later_refl sd) _) (obj_of r) t Rd (fun b l Hb Eb => K3 b l _ Eb)); [|intros ->; tauto].
        intros z u q b lb _ Evz Hb Eb. split; [exact Evz|]. apply K3; [|exact Eb]. intros ->. pose proof (I_dup _ _ _ _ _ I2) as D. apply NoDup_remove_2 in D. apply D. apply in_or_app. left. now apply (owns_in _ z q). }
      assert (Hr : gather (fun i => read (length vs) (World m2 (upd vs y None)) i (obj_of r)) (seq 0 n) = Some l).
      { apply gather_of. apply gather_in in Ev. clear - Ev I1 I3 Ey Ro Bo Er Rd2. induction Ev as [|i v q lq Hv F IH]; constructor; auto. apply (read_rel _ _ _ _ _ i I3 _ _ t); [exact Rd2|exact Bo|]. rewrite <- Hv. apply (tval_other G _ vs m1 s sd y true g old i I1 Ey) with (k := length vs) (o := obj_of r); auto. intros z Hz. cbn. now rewrite nth_upd_other by congruence. }
      rewrite Hr. cbn [new_block]. pose proof (Inv_new _ _ _ _ _ l I3) as I4.
      destruct (free_keeps G [] (upd vs y None) sd (tt ++ destroyed r) (m2 ++ [Some l]) (OOwn (length m2)) (TConst l)) as (m4 & E4 & I5 & R5); [|apply r_own, block_new|].
      { apply (Inv_perm _ (length m2 :: destroyed r ++ tt)); [|exact I4]. cbn [owned]. change (length m2 :: destroyed r ++ tt) with ([length m2] ++ destroyed r ++ tt). perm. }
      rewrite E4. inversion R5 as [| | |b' l' E5| |]; subst. exists (G ++ [length m2]), (upd vs y (Some (OOwn (length m2)))), m4. split; [reflexivity|].
      pose proof (revive_rel G [] _ m4 _ y _ _ _ l I5 Ek E5) as I6. unfold put, sd, dead in I6. cbn in I6. rewrite !upd_upd in I6. exact I6. }
  destruct r as [z|o|o]; destruct ir as [z'|u|u]; try contradiction; cbn [rrel tree_of obj_of] in *.
  - destruct R1 as (<- & k & Ez & Hk). unfold by_name in Et. rewrite Ez in Et. destruct k as [gz lz|tz|]; [| |contradiction]; injection Et as <-.
    + destruct (array_slot _ _ _ _ _ _ _ _ I1 (proj2 (array_spec s z gz lz) Ez)) as (bz & _ & -> & _ & Ebz). destruct (tvals_arr _ _ _ Ev) as [g' Eg']. rewrite (proj2 (array_spec s z gz lz) Ez) in Eg'. injection Eg' as <- <-. rewrite Ebz. cbn [new_block]. injection E as <-.
      apply (replace_rel G _ _ _ _ g old); auto; [now apply Inv_new|apply block_new].
    + destruct (lazy_slot _ _ _ _ _ _ _ I1 Ez) as (o & _ & -> & _ & _ & T). destruct o; try contradiction; now apply Q.
  - injection Et as ->. destruct R1 as (_ & _ & H). destruct H as [T|[b ->]]; [|].
    + destruct o; try contradiction; apply Q; inversion Ro; subst; exact Logic.I.
    + inversion Ro as [| | |b' l' E2| |]; subst. rewrite tvals_const in Ev. injection Ev as ->. injection E as <-. apply (replace_rel G _ _ _ _ g old); auto.
  - injection Et as ->. destruct R1 as (_ & _ & H). destruct H as [T|[b ->]]; [|].
    + destruct o; try contradiction; apply Q; inversion Ro; subst; exact Logic.I.
    + inversion Ro as [| | |b' l' E2| |]; subst. rewrite tvals_const in Ev. injection Ev as ->. injection E as <-. apply (replace_rel G _ _ _ _ g old); auto.
Qed.
Lemma set_rel G vs m s x i a s' : Inv G [] vs m s -> ideal_step s (Set_ x i a) = Some s' -> sim (exec (World m vs) (Set_ x i a)) s'.
Proof.
  intros I E. cbn [ideal_step] in E. destruct (name_of s x) as [y|] eqn:En; [|discriminate]. cbn [exec w_var w_mem]. rewrite (proj1 (resolve_rel _ _ _ _ _ _ _ I En)).
  destruct (nth_error (i_var s) y) as [[[|] [g l|[z|z g sel|l|z t|f ts]|q]]|] eqn:Ey; try discriminate.
  - destruct (array_slot _ _ _ _ _ _ _ _ I (proj2 (array_spec s y g l) Ey)) as (b & Eb & -> & Eg & El). rewrite El. destruct (Nat.ltb i (length l)); [|discriminate]. injection E as <-. exists G, vs, (upd m b (Some (upd l i a))). split; [reflexivity|]. apply (write_gen _ _ _ _ _ _ _ _ _ _ I Ey Eb El Eg).
  - destruct (array s z) as [[g1 l]|] eqn:Ea; [|discriminate]. destruct (nth_error sel i) as [p|] eqn:Ep; [|discriminate]. destruct (Nat.eqb_spec g g1) as [<-|]; [|discriminate]. cbn [andb] in E.
    destruct (lazy_slot _ _ _ _ _ _ _ I Ey) as (o & _ & -> & Ro & _ & _). inversion Ro as [| |x' g' sel' b E1| | |]; subst. rewrite Ep. destruct (array_slot _ _ _ _ _ _ _ _ I Ea) as (b' & Eb & _ & Eg & El). assert (b' = b) as -> by congruence. rewrite El. destruct (Nat.ltb p (length l)); [|discriminate]. injection E as <-.
    exists G, vs, (upd m b (Some (upd l p a))). split; [reflexivity|]. apply (write_gen _ _ _ _ _ _ _ _ _ _ I (proj1 (array_spec s z g l) Ea) Eb El Eg).
Qed.
Lemma end_rel G vs m s x s' : Inv G [] vs m s -> ideal_step s (End x) = Some s' -> sim (exec (World m vs) (End x)) s'.
Proof.
  intros I E. cbn [ideal_step] in E. destruct (nth_error (i_var s) x) as [[[|] k]|] eqn:Ex; try discriminate. injection E as <-. destruct (slot _ _ _ _ _ _ _ _ I Ex) as (q & Eq & R).
  assert (exists o, q = Some o) as [o ->] by (destruct k; cbn in R; [destruct R as (b & -> & _)|destruct R as (o' & -> & _)|destruct R as (-> & _)]; eauto).
  cbn [exec w_var w_mem]. unfold var. rewrite Eq. pose proof (kill_rel _ _ _ _ _ _ _ _ I Ex Eq) as I1. destruct (free_rel _ _ _ _ _ _ I1) as (m1 & -> & I2 & _). exists G, (upd vs x None), m1. auto.
Qed.
Lemma run_rel p : forall G vs m s s', Inv G [] vs m s -> ideal_run s p = Some s' -> sim (run (World m vs) p) s'.
Proof.
  induction p as [|st p IH]; intros G vs m s s' I E; cbn [ideal_run] in E; [injection E as <-; exists G, vs, m; auto|]. destruct (ideal_step s st) as [s1|] eqn:Es; [|discriminate].
  assert (Q : sim (exec (World m vs) st) s1). { destruct st; [eapply decl_rel|eapply declref_rel|eapply declarray_rel|eapply assign_rel|eapply set_rel|eapply end_rel]; eauto. }
  destruct Q as (G1 & vs1 & m1 & E1 & I1). cbn [run]. rewrite E1. now apply (IH G1 vs1 m1 s1).
Qed.
Lemma Inv_empty : Inv [] [] [] [] (Ideal O (@nil (bool * kind V))).
Proof. constructor; cbn; auto; [intros [|x] o k E; discriminate|constructor|]. intros b. split; [|contradiction]. intros H. exfalso. apply H. destruct b; reflexivity. Qed.
Lemma shown_rel G vs m s x i v : Inv G [] vs m s -> meant s x i = Some v -> shown (World m vs) x i = Some v.
Proof.
  intros I E. unfold meant in E. destruct (name_of s x) as [y|] eqn:En; [|discriminate]. destruct (by_name s y) as [t|] eqn:Eb; [|discriminate]. destruct (by_name_rel _ _ _ _ _ _ _ I Eb) as [R L]. unfold shown. cbn [w_var].
  unfold name_of in En. destruct (nth_error (i_var s) x) as [[[|] k]|] eqn:Ex; try discriminate. destruct (slot _ _ _ _ _ _ _ _ I Ex) as (q & Eq & Rq). assert (Lx : (x < length vs)%nat) by (apply nth_error_Some; congruence).
  destruct k as [g l|t'|z]; [injection En as <-; now apply (read_rel _ _ _ _ _ i I _ _ t)|injection En as <-; now apply (read_rel _ _ _ _ _ i I _ _ t)|].
  destruct (alive s z); [|discriminate]. injection En as ->. cbn in Rq. destruct Rq as (-> & Hy & _). destruct (length vs) as [|k]; [lia|]. cbn [read w_var]. unfold var at 1. rewrite Eq. apply (read_rel _ _ _ _ _ i I _ _ t); [exact R| |exact E]. cbn. lia.
Qed.
Lemma stored_rel p s : ideal_run (Ideal O []) p = Some s -> exists w, run (World [] []) p = Some w /\ (forall x i v, meant s x i = Some v -> shown w x i = Some v) /\ no_leak w.
Proof.
  intros E. destruct (run_rel p [] [] [] _ s Inv_empty E) as (G & vs & m & E1 & I). exists (World m vs). split; [exact E1|]. split; [intros x i v; now apply (shown_rel G)|]. destruct I as [_ _ _ I4 I5]. rewrite app_nil_r in I4. split; [exact I4|]. intros b. specialize (I5 b). rewrite app_nil_r in I5. exact I5.
Qed.
End Sim3.
