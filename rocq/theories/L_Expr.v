(** Lemmas on expressions and reductions. *)
From Verif Require Import Base M_Perm L_Perm M_IdxMap M_Slice M_Loops M_Assign M_Expr S_Layout S_Loops S_Assign S_Expr L_IdxMap L_Slice L_Layout L_Loops L_Assign.

Scheme expr_mind := Induction for expr Sort Prop with exprs_mind := Induction for exprs Sort Prop.
Combined Scheme expr_exprs_ind from expr_mind, exprs_mind.

Lemma fold_list {V R} (f : R -> V -> R) shape a r : fold f shape a r = fold_left f (map a (all_idx shape)) r.
Proof. unfold fold. rewrite for_each_fold. now rewrite fold_left_map. Qed.

Lemma algebra_eqb_spec a b : algebra_eqb a b = true <-> a = b.
Proof. destruct a, b; cbn; split; congruence. Qed.

(** evaluation *)
Lemma expr_at_denote {V} (A : arith V) m : zero_neutral A ->
  (forall e idx sh, common_shape e sh -> leaves_truthful e -> length idx = length sh -> expr_at A m e idx = denote A m e idx) /\
  (forall l idx sh, (forall v, In v (leaves_list l) -> im_len (v_lay v) = sh) -> (forall v, In v (leaves_list l) -> truthful (v_lay v)) -> length idx = length sh -> exprs_at A m l idx = denotes A m l idx).
Proof.
  intros HZ. unfold common_shape, leaves_truthful. apply expr_exprs_ind.
  - intros alg v idx sh Hs Ht L. cbn [expr_at denote]. rewrite elem_cell; auto using truthful_wf, truthful_flags.
    + apply truthful_wf, Ht. now left.
    + apply truthful_flags, Ht. now left.
    + unfold rank. rewrite (Hs v); auto. now left.
  - intros a IH idx sh Hs Ht L. cbn [expr_at denote]. f_equal. eapply IH; eauto.
  - intros op l IHl r IHr idx sh Hs Ht L. cbn [expr_at denote leaves] in *.
    assert (El : expr_at A m l idx = denote A m l idx) by (eapply IHl; eauto; intros v Hv; first [apply Hs|apply Ht]; apply in_or_app; now left).
    assert (Er : expr_at A m r idx = denote A m r idx) by (eapply IHr; eauto; intros v Hv; first [apply Hs|apply Ht]; apply in_or_app; now right).
    rewrite El, Er. now destruct op.
  - intros op s r IH idx sh Hs Ht L. cbn [expr_at denote leaves] in *. rewrite (IH idx sh) by auto.
    destruct (HZ (denote A m r idx)) as (Z1 & Z2 & Z3 & Z4).
    destruct op, (get_algebra r); cbn [is_M algebra_eqb op_value scalar_value]; try reflexivity; destruct (on_diagonal idx); auto.
  - intros op l IH s idx sh Hs Ht L. cbn [expr_at denote leaves] in *. rewrite (IH idx sh) by auto.
    destruct (HZ (denote A m l idx)) as (Z1 & Z2 & Z3 & Z4).
    destruct op, (get_algebra l); cbn [is_M algebra_eqb op_value scalar_value]; try reflexivity; destruct (on_diagonal idx); auto.
  - intros f a IH idx sh Hs Ht L. cbn [expr_at denote leaves] in *. f_equal. eapply IH; eauto.
  - intros a IH idx sh Hs Ht L. cbn [exprs_at denotes leaves_list] in *. f_equal. eapply IH; eauto.
  - intros a IHa l IHl idx sh Hs Ht L. cbn [exprs_at denotes leaves_list] in *. f_equal.
    + eapply IHa; eauto; intros v Hv; first [apply Hs|apply Ht]; apply in_or_app; now left.
    + eapply IHl; eauto; intros v Hv; first [apply Hs|apply Ht]; apply in_or_app; now right.
Qed.


Lemma shape_eqb_spec a b : shape_eqb a b = true <-> a = b.
Proof. unfold shape_eqb. destruct (list_eq_dec _ _ _); split; congruence. Qed.

Definition head_shape {V} (l : exprs V) : list Z := match l with EOne a => expr_shape a | EMore a _ => expr_shape a end.
Definition head_checks {V} (l : exprs V) : bool :=
  match l with EOne a => shape_checks a | EMore a rest => shape_checks a && shapes_check (expr_shape a) rest end.
Lemma expr_shape_map {V} f (l : exprs V) : expr_shape (EMap f l) = head_shape l.
Proof. now destruct l. Qed.
Lemma shape_checks_map {V} f (l : exprs V) : shape_checks (EMap f l) = head_checks l.
Proof. now destruct l. Qed.

Lemma shapes_of_common {V} :
  (forall (e : expr V) sh, common_shape e sh -> expr_shape e = sh /\ shape_checks e = true) /\
  (forall (l : exprs V) sh, (forall v, In v (leaves_list l) -> im_len (v_lay v) = sh) -> head_shape l = sh /\ shapes_check sh l = true /\ head_checks l = true).
Proof.
  unfold common_shape. apply expr_exprs_ind.
  - intros alg v sh H. split; [|reflexivity]. apply H. now left.
  - intros a IH sh H. cbn [expr_shape shape_checks]. auto.
  - intros op l IHl r IHr sh H. cbn [expr_shape shape_checks leaves] in *.
    destruct (IHl sh) as [E1 C1]; [intros; apply H; apply in_or_app; now left|].
    destruct (IHr sh) as [E2 C2]; [intros; apply H; apply in_or_app; now right|].
    split; auto. rewrite C1, C2, E1, E2. now rewrite (proj2 (shape_eqb_spec sh sh) eq_refl).
  - intros op s r IH sh H. cbn [expr_shape shape_checks]. auto.
  - intros op l IH s sh H. cbn [expr_shape shape_checks]. auto.
  - intros f a IH sh H. rewrite expr_shape_map, shape_checks_map. cbn [leaves] in H. destruct (IH sh H) as (G1 & G2 & G3). auto.
  - intros a IH sh H. cbn [head_shape shapes_check head_checks leaves_list] in *. destruct (IH sh H) as [E C]. rewrite E, C.
    now rewrite (proj2 (shape_eqb_spec sh sh) eq_refl).
  - intros a IHa l IHl sh H. cbn [head_shape shapes_check head_checks leaves_list] in *.
    destruct (IHa sh) as [E1 C1]; [intros; apply H; apply in_or_app; now left|].
    destruct (IHl sh) as (E2 & C2 & C3); [intros; apply H; apply in_or_app; now right|].
    rewrite E1, C1, C2. now rewrite (proj2 (shape_eqb_spec sh sh) eq_refl).
Qed.

Lemma common_of_checks {V} :
  (forall (e : expr V), shape_checks e = true -> common_shape e (expr_shape e)) /\
  (forall (l : exprs V), (forall sh, shapes_check sh l = true -> forall v, In v (leaves_list l) -> im_len (v_lay v) = sh) /\
                         (head_checks l = true -> forall v, In v (leaves_list l) -> im_len (v_lay v) = head_shape l)).
Proof.
  unfold common_shape. apply expr_exprs_ind.
  - intros alg v _ w [<-|[]]. reflexivity.
  - auto.
  - intros op l IHl r IHr H v Hv. cbn [expr_shape shape_checks leaves] in *. apply andb_true_iff in H. destruct H as [H H2].
    apply andb_true_iff in H. destruct H as [H0 H1]. apply shape_eqb_spec in H0. apply in_app_or in Hv. destruct Hv as [Hv|Hv]; [now apply IHl|].
    rewrite H0. now apply IHr.
  - auto.
  - auto.
  - intros f a [_ IH] H v Hv. rewrite expr_shape_map. rewrite shape_checks_map in H. now apply IH.
  - intros a IH. split.
    + intros sh H v Hv. cbn [shapes_check leaves_list] in *. apply andb_true_iff in H. destruct H as [H0 H1]. apply shape_eqb_spec in H0. subst sh. now apply IH.
    + intros H v Hv. now apply IH.
  - intros a IHa l [IHl _]. split.
    + intros sh H v Hv. cbn [shapes_check leaves_list] in *. apply andb_true_iff in H. destruct H as [H H2]. apply andb_true_iff in H. destruct H as [H0 H1].
      apply shape_eqb_spec in H0. apply in_app_or in Hv. destruct Hv as [Hv|Hv]; [subst sh; now apply IHa|now apply IHl].
    + intros H v Hv. cbn [head_checks leaves_list head_shape] in *. apply andb_true_iff in H. destruct H as [H1 H2].
      apply in_app_or in Hv. destruct Hv as [Hv|Hv]; [now apply IHa|now apply IHl].
Qed.

(** reading *)
Lemma denote_reads {V} (A : arith V) m1 m2 idx :
  (forall e : expr V, (forall v, In v (leaves e) -> m1 (cell v idx) = m2 (cell v idx)) -> denote A m1 e idx = denote A m2 e idx) /\
  (forall l : exprs V, (forall v, In v (leaves_list l) -> m1 (cell v idx) = m2 (cell v idx)) -> denotes A m1 l idx = denotes A m2 l idx).
Proof.
  apply expr_exprs_ind; cbn [denote denotes leaves leaves_list].
  - intros alg v H. apply H. now left.
  - intros a IH H. f_equal. auto.
  - intros op l IHl r IHr H. rewrite IHl, IHr; auto; intros; apply H; apply in_or_app; auto.
  - intros op s r IH H. now rewrite IH.
  - intros op l IH s H. now rewrite IH.
  - intros f a IH H. now rewrite IH.
  - intros a IH H. now rewrite IH.
  - intros a IHa l IHl H. rewrite IHa, IHl; auto; intros; apply H; apply in_or_app; auto.
Qed.

Lemma leaves_some_both {V} : (forall e : expr V, exists v, In v (leaves e)) /\ (forall l : exprs V, exists v, In v (leaves_list l)).
Proof.
  apply expr_exprs_ind; cbn [leaves leaves_list]; try tauto.
  - intros alg v. exists v. now left.
  - intros op l [v Hv] r _. exists v. apply in_or_app. now left.
  - intros a [v Hv] l _. exists v. apply in_or_app. now left.
Qed.
Lemma leaves_some {V} (e : expr V) : exists v, In v (leaves e).
Proof. apply leaves_some_both. Qed.
(** slices of expressions *)
Lemma slice_view_at {V} alg v args alg' v' j (m : mem V) : truthful (v_lay v) -> slice_view alg v args = Some (alg', v') -> some_dim_left (rank (v_lay v)) args ->
  length j = rank (v_lay v') -> m (cell v' j) = m (cell v (parent_idx (expand_args (rank (v_lay v)) args) j)).
Proof.
  intros T H Hd L. unfold slice_view in H. destruct (slice (v_lay v) args) as [[o l]|] eqn:E; [|discriminate].
  injection H as <- <-. cbn [v_lay] in L. unfold cell. cbn [v_lay v_base]. f_equal.
  pose proof (slice_addr (v_lay v) args o l j (truthful_wf _ T) E L) as H. lia.
Qed.

Lemma all_algebra_eq {V} (l : exprs V) a b : a = b -> all_algebra a l = all_algebra b l.
Proof. now intros ->. Qed.
Definition head_alg {V} (l : exprs V) : algebra := match l with EOne a => get_algebra a | EMore a rest => if all_algebra (get_algebra a) rest then get_algebra a else AlgN end.
Lemma get_algebra_map {V} f (l : exprs V) : get_algebra (EMap f l) = head_alg l.
Proof. now destruct l. Qed.

Lemma slice_algebra {V} args :
  (forall e e' : expr V, slice_expr e args = Some e' -> get_algebra e' = AlgM -> get_algebra e = AlgM) /\
  (forall l l' : exprs V, slice_exprs l args = Some l' -> (all_algebra AlgM l' = true -> all_algebra AlgM l = true) /\ (head_alg l' = AlgM -> head_alg l = AlgM)).
Proof.
  apply expr_exprs_ind.
  - intros alg v e' H E. cbn [slice_expr] in H. destruct (slice_view alg v args) as [[a' v']|] eqn:S1; [|discriminate]. injection H as <-.
    cbn [get_algebra] in *. subst a'. unfold slice_view in S1. destruct (slice (v_lay v) args) as [[o l]|]; [|discriminate]. injection S1 as S1 _.
    destruct (is_M alg && Nat.eqb (rank l) 1); congruence.
  - intros a IH e' H E. cbn [slice_expr] in H. destruct (slice_expr a args) eqn:S1; [|discriminate]. injection H as <-. cbn [get_algebra] in *. eauto.
  - intros op l IHl r IHr e' H E. cbn [slice_expr] in H. destruct (slice_expr l args) eqn:S1; [|discriminate]. destruct (slice_expr r args); [|discriminate]. injection H as <-. cbn [get_algebra] in *. eauto.
  - intros op s r IH e' H E. cbn [slice_expr] in H. destruct (slice_expr r args) eqn:S1; [|destruct op, (is_M (get_algebra r)); discriminate].
    destruct op, (is_M (get_algebra r)); try discriminate; injection H as <-; cbn [get_algebra] in *; eauto.
  - intros op l IH s e' H E. cbn [slice_expr] in H. destruct (slice_expr l args) eqn:S1; [|destruct op, (is_M (get_algebra l)); discriminate].
    destruct op, (is_M (get_algebra l)); try discriminate; injection H as <-; cbn [get_algebra] in *; eauto.
  - intros f a IH e' H E. cbn [slice_expr] in H. destruct (slice_exprs a args) eqn:S1; [|discriminate]. injection H as <-.
    rewrite get_algebra_map in *. destruct (IH _ eq_refl) as [_ G]. auto.
  - intros a IH l' H. cbn [slice_exprs] in H. destruct (slice_expr a args) eqn:S1; [|discriminate]. injection H as <-. cbn [all_algebra head_alg]. rewrite !algebra_eqb_spec. eauto.
  - intros a IHa l IHl l' H. cbn [slice_exprs] in H. destruct (slice_expr a args) eqn:S1; [|discriminate]. destruct (slice_exprs l args) eqn:S2; [|discriminate].
    injection H as <-. destruct (IHl _ eq_refl) as [G1 G2]. cbn [all_algebra head_alg]. split.
    + rewrite !andb_true_iff, !algebra_eqb_spec. intros [H1 H2]. split; eauto.
    + destruct (all_algebra (get_algebra e) e0) eqn:E1; [|discriminate]. intros E2. rewrite E2 in E1. rewrite (IHa _ eq_refl E2). now rewrite G1.
Qed.

Lemma slice_denote {V} (A : arith V) (m : mem V) R args j :
  (forall e e' : expr V, slice_expr e args = Some e' -> (forall v, In v (leaves e) -> truthful (v_lay v) /\ rank (v_lay v) = R) -> some_dim_left R args -> length j = rank_after R args ->
     denote A m e' j = denote A m e (parent_idx (expand_args R args) j)) /\
  (forall l l' : exprs V, slice_exprs l args = Some l' -> (forall v, In v (leaves_list l) -> truthful (v_lay v) /\ rank (v_lay v) = R) -> some_dim_left R args -> length j = rank_after R args ->
     denotes A m l' j = denotes A m l (parent_idx (expand_args R args) j)).
Proof.
  apply expr_exprs_ind; cbn [leaves leaves_list].
  - intros alg v e' H Hl Hd L. cbn [slice_expr] in H. destruct (slice_view alg v args) as [[a' v']|] eqn:S1; [|discriminate]. injection H as <-. cbn [denote].
    destruct (Hl v (or_introl eq_refl)) as [T Rk]. rewrite <- Rk in *. apply (slice_view_at alg v args a' v'); auto. rewrite L. symmetry.
    unfold slice_view in S1. destruct (slice (v_lay v) args) as [[o lay]|] eqn:S2; [|discriminate]. injection S1 as _ <-. cbn [v_lay]. eapply slice_rank; eauto.
  - intros a IH e' H Hl Hd L. cbn [slice_expr] in H. destruct (slice_expr a args) eqn:S1; [|discriminate]. injection H as <-. cbn [denote]. f_equal. auto.
  - intros op l IHl r IHr e' H Hl Hd L. cbn [slice_expr] in H. destruct (slice_expr l args) eqn:S1; [|discriminate]. destruct (slice_expr r args) eqn:S2; [|discriminate]. injection H as <-.
    cbn [denote]. rewrite (IHl _ eq_refl), (IHr _ eq_refl); auto; intros; apply Hl; apply in_or_app; auto.
  - intros op s r IH e' H Hl Hd L. cbn [slice_expr] in H. destruct (slice_expr r args) as [r'|] eqn:S1; [|destruct op, (is_M (get_algebra r)); discriminate].
    pose proof (proj1 (slice_algebra args) _ _ S1) as HM. assert (E : e' = EScalL op s r' /\ (op = OpPlus \/ op = OpMinus -> get_algebra r <> AlgM)).
    { destruct op, (get_algebra r); cbn in H; try discriminate; injection H as <-; split; auto; intros; try congruence; intuition discriminate. }
    destruct E as [-> E]. cbn [denote]. rewrite (IH _ eq_refl) by auto. f_equal.
    destruct op, (get_algebra r) eqn:G1, (get_algebra r') eqn:G2; cbn [scalar_value]; try reflexivity; try (specialize (HM eq_refl); discriminate); exfalso; apply E; auto.
  - intros op l IH s e' H Hl Hd L. cbn [slice_expr] in H. destruct (slice_expr l args) as [r'|] eqn:S1; [|destruct op, (is_M (get_algebra l)); discriminate].
    pose proof (proj1 (slice_algebra args) _ _ S1) as HM. assert (E : e' = EScalR op r' s /\ (op = OpPlus \/ op = OpMinus -> get_algebra l <> AlgM)).
    { destruct op, (get_algebra l); cbn in H; try discriminate; injection H as <-; split; auto; intros; try congruence; intuition discriminate. }
    destruct E as [-> E]. cbn [denote]. rewrite (IH _ eq_refl) by auto. f_equal.
    destruct op, (get_algebra l) eqn:G1, (get_algebra r') eqn:G2; cbn [scalar_value]; try reflexivity; try (specialize (HM eq_refl); discriminate); exfalso; apply E; auto.
  - intros f a IH e' H Hl Hd L. cbn [slice_expr] in H. destruct (slice_exprs a args) eqn:S1; [|discriminate]. injection H as <-. cbn [denote]. f_equal. auto.
  - intros a IH l' H Hl Hd L. cbn [slice_exprs] in H. destruct (slice_expr a args) eqn:S1; [|discriminate]. injection H as <-. cbn [denotes]. f_equal. auto.
  - intros a IHa l IHl l' H Hl Hd L. cbn [slice_exprs] in H. destruct (slice_expr a args) eqn:S1; [|discriminate]. destruct (slice_exprs l args) eqn:S2; [|discriminate].
    injection H as <-. cbn [denotes]. f_equal; [apply IHa|apply IHl]; auto; intros; apply Hl; apply in_or_app; auto.
Qed.

Lemma slice_leaves {V} args :
  (forall e e' : expr V, slice_expr e args = Some e' -> forall v', In v' (leaves e') -> exists v alg alg', In v (leaves e) /\ slice_view alg v args = Some (alg', v')) /\
  (forall l l' : exprs V, slice_exprs l args = Some l' -> forall v', In v' (leaves_list l') -> exists v alg alg', In v (leaves_list l) /\ slice_view alg v args = Some (alg', v')).
Proof.
  apply expr_exprs_ind; cbn [leaves leaves_list].
  - intros alg v e' H v' Hv. cbn [slice_expr] in H. destruct (slice_view alg v args) as [[a' w]|] eqn:S1; [|discriminate]. injection H as <-.
    destruct Hv as [<-|[]]. exists v, alg, a'. split; [now left|auto].
  - intros a IH e' H v' Hv. cbn [slice_expr] in H. destruct (slice_expr a args) eqn:S1; [|discriminate]. injection H as <-. cbn [leaves] in Hv. eauto.
  - intros op l IHl r IHr e' H v' Hv. cbn [slice_expr] in H. destruct (slice_expr l args) eqn:S1; [|discriminate]. destruct (slice_expr r args) eqn:S2; [|discriminate]. injection H as <-.
    cbn [leaves] in Hv. apply in_app_or in Hv. destruct Hv as [Hv|Hv]; [destruct (IHl _ eq_refl _ Hv) as (v & al & al' & Hi & E)|destruct (IHr _ eq_refl _ Hv) as (v & al & al' & Hi & E)]; exists v, al, al'; split; auto; apply in_or_app; auto.
  - intros op s r IH e' H v' Hv. cbn [slice_expr] in H. destruct (slice_expr r args) eqn:S1; [|destruct op, (is_M (get_algebra r)); discriminate].
    destruct op, (is_M (get_algebra r)); try discriminate; injection H as <-; cbn [leaves] in Hv; eauto.
  - intros op l IH s e' H v' Hv. cbn [slice_expr] in H. destruct (slice_expr l args) eqn:S1; [|destruct op, (is_M (get_algebra l)); discriminate].
    destruct op, (is_M (get_algebra l)); try discriminate; injection H as <-; cbn [leaves] in Hv; eauto.
  - intros f a IH e' H v' Hv. cbn [slice_expr] in H. destruct (slice_exprs a args) eqn:S1; [|discriminate]. injection H as <-. cbn [leaves] in Hv. eauto.
  - intros a IH l' H v' Hv. cbn [slice_exprs] in H. destruct (slice_expr a args) eqn:S1; [|discriminate]. injection H as <-. cbn [leaves_list] in Hv. eauto.
  - intros a IHa l IHl l' H v' Hv. cbn [slice_exprs] in H. destruct (slice_expr a args) eqn:S1; [|discriminate]. destruct (slice_exprs l args) eqn:S2; [|discriminate]. injection H as <-.
    cbn [leaves_list] in Hv. apply in_app_or in Hv. destruct Hv as [Hv|Hv]; [destruct (IHa _ eq_refl _ Hv) as (v & al & al' & Hi & E)|destruct (IHl _ eq_refl _ Hv) as (v & al & al' & Hi & E)]; exists v, al, al'; split; auto; apply in_or_app; auto.
Qed.
Lemma slice_view_parts alg v args alg' v' : truthful (v_lay v) -> slice_view alg v args = Some (alg', v') -> some_dim_left (rank (v_lay v)) args ->
  truthful (v_lay v') /\ im_len (v_lay v') = slice_len (expand_args (rank (v_lay v)) args) (im_len (v_lay v)).
Proof.
  intros [W F] H Hd. unfold slice_view in H. destruct (slice (v_lay v) args) as [[o l]|] eqn:E; [|discriminate]. injection H as _ <-. cbn [v_lay]. split.
  - split; [eapply slice_wf; eauto|eapply slice_flags; eauto].
  - destruct (slice_inv _ _ _ E) as [Hok E2]. rewrite slice_impl_expand in E2 by auto. now injection E2 as _ ->.
Qed.

(** ** reductions *)
Lemma enumerates_perm shape L : enumerates shape L -> Permutation L (all_idx shape).
Proof. intros [ND HL]. apply NoDup_Permutation; auto using all_idx_NoDup. intros x. rewrite HL. symmetry. apply all_idx_In. Qed.

Lemma total_perm {V} (add : V -> V -> V) zero l l' : comm_monoid add zero -> Permutation l l' -> total add zero l = total add zero l'.
Proof.
  intros (As & Co & Ne). induction 1 as [|x l l' H IH|x y l|l l' l'' H1 IH1 H2 IH2]; cbn [total fold_right] in *; auto.
  - unfold total in *. now rewrite IH.
  - rewrite !As. f_equal. apply Co.
  - congruence.
Qed.
Lemma fold_left_total {V} (add : V -> V -> V) zero l : comm_monoid add zero -> forall r, fold_left add l r = add r (total add zero l).
Proof.
  intros (As & Co & Ne). induction l as [|x l IH]; intros r; cbn [fold_left total fold_right].
  - rewrite Co. now rewrite Ne.
  - rewrite IH. now rewrite As.
Qed.

Lemma fold_left_or l r : fold_left (fun r x : bool => r || x) l r = r || existsb (fun x => x) l.
Proof. revert r; induction l as [|x l IH]; intros r; cbn [fold_left existsb]; [now rewrite orb_false_r|]. rewrite IH. now rewrite orb_assoc. Qed.
Lemma fold_left_and l r : fold_left (fun r x : bool => r && x) l r = r && forallb (fun x => x) l.
Proof. revert r; induction l as [|x l IH]; intros r; cbn [fold_left forallb]; [now rewrite andb_true_r|]. rewrite IH. now rewrite andb_assoc. Qed.

Lemma fold_max {V} (ltb : V -> V -> bool) l : strict_total ltb -> forall r,
  let s := fold_left (std_max ltb) l r in In s (r :: l) /\ ltb s r = false /\ (forall x, In x l -> ltb s x = false).
Proof.
  intros (Ir & Tr & To). induction l as [|x l IH]; intros r; cbn [fold_left].
  - split; [now left|]. split; auto. intros x [].
  - destruct (IH (std_max ltb r x)) as (G1 & G2 & G3). set (s := fold_left _ _ _) in *.
    assert (H1 : ltb s r = false /\ ltb s x = false).
    { unfold std_max in G2. destruct (ltb r x) eqn:E.
      - split; auto. destruct (ltb s r) eqn:E2; auto. rewrite (Tr _ _ _ E2 E) in G2. discriminate.
      - split; auto. destruct (ltb s x) eqn:E2; auto. destruct (To r x) as [C|[C|C]]; [congruence|subst; congruence|]. rewrite (Tr _ _ _ E2 C) in G2. discriminate. }
    split; [|split; [tauto|]].
    + destruct G1 as [G1|G1]; [|right; now right]. rewrite <- G1. unfold std_max. destruct (ltb r x); [right; now left|now left].
    + intros y [<-|Hy]; [tauto|auto].
Qed.
Lemma fold_min {V} (ltb : V -> V -> bool) l : strict_total ltb -> forall r,
  let s := fold_left (std_min ltb) l r in In s (r :: l) /\ ltb r s = false /\ (forall x, In x l -> ltb x s = false).
Proof.
  intros (Ir & Tr & To) r. apply (fold_max (fun x y => ltb y x) l). split; [|split]; auto.
  - intros x y z H1 H2. eauto.
  - intros x y. destruct (To x y) as [H|[H|H]]; auto.
Qed.

Lemma first_valid shape : Forall (fun l => 0 < l) shape -> in_range (map (fun _ => 0) shape) shape.
Proof. induction 1 as [|l shape H Hs IH]; cbn [map]; constructor; auto. unfold inr. lia. Qed.

Lemma array_eq_spec {V} (veq : V -> V -> bool) sa a sb b :
  array_eq veq sa a sb b = true <-> sa = sb /\ forall idx, in_range idx sa -> veq (a idx) (b idx) = true.
Proof.
  unfold array_eq. destruct (shape_eqb sa sb) eqn:E; cbn [negb].
  - apply shape_eqb_spec in E. subst sb. rewrite for_each_fold.
    assert (G : forall L r, fold_left (fun s x => s && veq (a x) (b x)) L r = true <-> r = true /\ forall x, In x L -> veq (a x) (b x) = true).
    { induction L as [|x L IH]; intros r; cbn [fold_left].
      - split; [intros H; split; auto; intros x []|tauto].
      - rewrite IH, andb_true_iff. split.
        + intros [[H1 H2] H3]. split; auto. intros y [<-|Hy]; auto.
        + intros [H1 H2]. split; [split; auto; apply H2; now left|]. intros y Hy. apply H2. now right. }
    rewrite G. split.
    + intros [_ H]. split; auto. intros idx Hi. apply H. now apply all_idx_In.
    + intros [_ H]. split; auto. intros x Hx. apply H. now apply all_idx_In.
  - split; [discriminate|]. intros [-> _]. rewrite (proj2 (shape_eqb_spec sb sb) eq_refl) in E. discriminate.
Qed.
Lemma algebra_of_leaves {V} a : (forall e : expr V, (forall x, In x (leaf_algebras e) -> x = a) -> get_algebra e = a) /\
  (forall l : exprs V, (forall x, In x (leaf_algebras_list l) -> x = a) -> head_alg l = a /\ all_algebra a l = true).
Proof.
  assert (R : algebra_eqb a a = true) by (destruct a; reflexivity). apply expr_exprs_ind.
  - intros x v H. apply H. now left.
  - intros e IH H. apply IH. exact H.
  - intros op l IHl r IHr H. apply IHl. intros x Hx. apply H. cbn [leaf_algebras]. apply in_or_app. now left.
  - intros op s r IH H. apply IH. exact H.
  - intros op l IH s H. apply IH. exact H.
  - intros f l IH H. rewrite get_algebra_map. now apply IH.
  - intros e IH H. cbn [head_alg all_algebra]. rewrite (IH H). auto.
  - intros e IHe l IHl H. assert (H1 : get_algebra e = a) by (apply IHe; intros x Hx; apply H; cbn [leaf_algebras_list]; apply in_or_app; now left).
    assert (H2 : head_alg l = a /\ all_algebra a l = true) by (apply IHl; intros x Hx; apply H; cbn [leaf_algebras_list]; apply in_or_app; now right).
    destruct H2 as [_ H2]. cbn [head_alg all_algebra]. rewrite H1, H2, R. auto.
Qed.

(** ** typing *)
Fixpoint algs_of {V} (l : exprs V) : list algebra := match l with EOne a => [get_algebra a] | EMore a rest => get_algebra a :: algs_of rest end.
Lemma algebra_eqb_eq a b : algebra_eqb a b = true <-> a = b.
Proof. destruct a, b; cbn; split; congruence. Qed.
Lemma all_algebra_spec {V} x0 (l : exprs V) : all_algebra x0 l = true <-> forall x, In x (algs_of l) -> x = x0.
Proof.
  induction l as [a|a rest IH]; cbn [all_algebra algs_of].
  - rewrite algebra_eqb_eq. split; [intros <- x [<-|[]]; auto|intros H; apply H; now left].
  - rewrite andb_true_iff, algebra_eqb_eq, IH. split; [intros [<- H] x [<-|Hx]; auto|intros H; split; [apply H; now left|intros x Hx; apply H; now right]].
Qed.
Lemma all_algebra_false {V} x0 (l : exprs V) : all_algebra x0 l = false <-> exists x, In x (algs_of l) /\ x <> x0.
Proof.
  split.
  - induction l as [a|a rest IH]; cbn [all_algebra algs_of].
    + intros H. exists (get_algebra a). split; [now left|]. intros E. apply algebra_eqb_eq in E. congruence.
    + intros H. apply andb_false_iff in H. destruct H as [H|H].
      * exists (get_algebra a). split; [now left|]. intros E. apply algebra_eqb_eq in E. congruence.
      * destruct (IH H) as (x & Hx & Hn). exists x. split; [now right|auto].
  - intros (x & Hx & Hn). destruct (all_algebra x0 l) eqn:E; auto. destruct (Hn (proj1 (all_algebra_spec x0 l) E x Hx)).
Qed.
Scheme typed_mind := Minimality for typed Sort Prop with typed_all_mind := Minimality for typed_all Sort Prop.
Combined Scheme typed_both_ind from typed_mind, typed_all_mind.
Lemma typed_sound {V} :
  (forall (e : expr V) alg k, typed e alg k -> compiles e = true /\ get_algebra e = alg /\ expr_rank e = k) /\
  (forall (l : exprs V) algs, typed_all l algs -> compile_all l = true /\ algs_of l = algs).
Proof.
  apply typed_both_ind; intros; cbn [compiles compile_all get_algebra expr_rank algs_of]; unfold rank;
    repeat match goal with H : _ /\ _ |- _ => destruct H end;
    repeat match goal with H : compiles _ = true |- _ => rewrite H; clear H | H : compile_all _ = true |- _ => rewrite H; clear H | H : get_algebra _ = _ |- _ => rewrite H; clear H | H : expr_rank _ = _ |- _ => rewrite H; clear H | H : length _ = _ |- _ => rewrite H; clear H end;
    rewrite ?Nat.eqb_refl; cbn [andb]; auto.
  - split; auto. match goal with H : elementwise ?op |- _ => destruct H; subst op end; auto.
  - split; auto. match goal with |- context [match ?op with _ => _ end] => now destruct op end.
  - split; auto. match goal with H : ?op = OpDiv -> ?alg <> AlgM |- _ => destruct op; auto; specialize (H eq_refl); destruct alg; auto; congruence end.
  - match goal with H : algs_of _ = _ |- _ => rewrite <- H in * end. match goal with |- context [all_algebra ?x ?l] => rewrite (proj2 (all_algebra_spec x l)) by auto end. auto.
  - match goal with H : algs_of _ = _ |- _ => rewrite <- H in * end. match goal with |- context [all_algebra ?x ?l] => rewrite (proj2 (all_algebra_false x l)) by eauto end. auto.
  - split; auto. now f_equal.
Qed.
Lemma typed_complete {V} :
  (forall (e : expr V), compiles e = true -> typed e (get_algebra e) (expr_rank e)) /\
  (forall (l : exprs V), compile_all l = true -> typed_all l (algs_of l)).
Proof.
  apply expr_exprs_ind.
  - intros [| | |] v H; cbn [compiles get_algebra expr_rank] in *; unfold rank in *.
    + constructor.
    + apply Nat.eqb_eq in H. rewrite H. now constructor.
    + apply Nat.eqb_eq in H. rewrite H. now constructor.
    + constructor.
  - intros a IH H. cbn [compiles get_algebra expr_rank] in *. constructor; auto.
  - intros op l IHl r IHr H. cbn [compiles get_algebra expr_rank] in *. rewrite !andb_true_iff, Nat.eqb_eq in H. destruct H as [[[Hl Hr] Ek] Ho].
    specialize (IHl Hl). specialize (IHr Hr). rewrite <- Ek in IHr. destruct op.
    + apply (T_sum OpPlus l r _ (get_algebra r)); auto. now left.
    + apply (T_sum OpMinus l r _ (get_algebra r)); auto. now right.
    + apply andb_true_iff in Ho. destruct Ho as [H1 H2]. apply algebra_eqb_eq in H1, H2. rewrite H1 in *. rewrite H2 in *. apply T_product; auto. intros [E|E]; discriminate.
    + apply andb_true_iff in Ho. destruct Ho as [H1 H2]. apply algebra_eqb_eq in H1, H2. rewrite H1 in *. rewrite H2 in *. apply T_product; auto. intros [E|E]; discriminate.
  - intros op s r IH H. cbn [compiles get_algebra expr_rank] in *. apply andb_true_iff in H. destruct H as [Hr Ho]. apply T_scalar_left; auto.
    intros -> E. rewrite E in Ho. discriminate.
  - intros op l IH s H. cbn [compiles get_algebra expr_rank] in *. now constructor; auto.
  - intros f [a|a rest] IH H; cbn [compiles compile_all get_algebra expr_rank algs_of] in *.
    + specialize (IH H). inversion IH as [a0 alg k Ha E1 E2|]; subst. destruct (proj1 typed_sound a _ _ Ha) as (_ & _ & ->). now constructor.
    + specialize (IH H). inversion IH as [|a0 alg k rest0 algs Ha Hr E1 E2]; subst. destruct (proj1 typed_sound a _ _ Ha) as (_ & _ & ->).
      destruct (all_algebra (get_algebra a) rest) eqn:E.
      * apply (T_map f a rest _ k (algs_of rest)); auto. now apply all_algebra_spec.
      * apply all_algebra_false in E. destruct E as (x & Hx & Hn). apply (T_map_mixed f a rest (get_algebra a) k (algs_of rest) x); auto.
  - intros a IH H. cbn [compile_all algs_of] in *. econstructor; eauto.
  - intros a IHa rest IHr H. cbn [compile_all algs_of] in *. apply andb_true_iff in H. destruct H. econstructor; eauto.
Qed.
