(** Lemmas about threads on views: trees of accesses compute what M_Assign and M_Expr compute, stay within their cells, and do not disturb each other. *)
From Verif Require Import Base M_Perm M_IdxMap M_Slice M_Loops S_Layout S_Loops M_Assign S_Assign M_Expr S_Expr L_Perm L_IdxMap L_Slice L_Layout L_Loops L_Assign L_Expr L_H53 M_VThreads S_VThreads.
From Verif Require L_Handle.

Section Lemmas.
Context {V : Type}.
Variable (A : arith V) (checks : bool).

(** a tree alone *)
Fixpoint v_run (t : vact V) (m : mem V) : option (mem V) :=
  match t with VDone => Some m | VWrong => None | VLoad a k => v_run (k (m a)) m | VStore a x k => v_run k (mset m a x) end.
Fixpoint v_steps (t : vact V) (m : mem V) : nat :=
  match t with VDone | VWrong => 0 | VLoad a k => S (v_steps (k (m a)) m) | VStore a x k => S (v_steps k (mset m a x)) end.
Definition then_run (k : vact V) (om : option (mem V)) : option (mem V) := match om with Some m => v_run k m | None => None end.

Lemma t_expr_run m idx :
  (forall (e : expr V) k, v_run (t_expr A e idx k) m = v_run (k (expr_at A m e idx)) m) /\
  (forall (l : exprs V) k, v_run (t_exprs A l idx k) m = v_run (k (exprs_at A m l idx)) m).
Proof.
  apply expr_exprs_ind; intros; cbn [t_expr t_exprs expr_at exprs_at]; auto.
  - now rewrite H.
  - rewrite H, H0. now destruct op.
  - rewrite H. destruct op; auto; now destruct (is_M _), (on_diagonal _).
  - rewrite H. destruct op; auto; now destruct (is_M _), (on_diagonal _).
  - now rewrite H.
  - now rewrite H.
  - now rewrite H, H0.
Qed.

(** loops *)
Definition t_loop {K} (body : K -> vact V -> vact V) (L : list K) : vact V -> vact V :=
  fold_left (fun (before : vact V -> vact V) x k => before (body x k)) L (fun k => k).
Lemma t_loop_app {K} (body : K -> vact V -> vact V) L x k : t_loop body (L ++ [x]) k = t_loop body L (body x k).
Proof. unfold t_loop. now rewrite fold_left_app. Qed.
Lemma t_loop_run {K} (body : K -> vact V -> vact V) (g : mem V -> K -> option (mem V)) L :
  (forall x k m, In x L -> v_run (body x k) m = then_run k (g m x)) ->
  forall k m, v_run (t_loop body L k) m = then_run k (fold_left (fun om x => match om with Some m => g m x | None => None end) L (Some m)).
Proof.
  induction L as [|x L IH] using rev_ind; intros H k m; [reflexivity|]. rewrite t_loop_app, IH by (intros; apply H, in_or_app; auto).
  rewrite fold_left_app. cbn [fold_left]. destruct (fold_left _ L (Some m)) as [m1|]; [|reflexivity]. cbn [then_run]. apply H. apply in_or_app. right. now left.
Qed.
Lemma t_loop_run_some {K} (body : K -> vact V -> vact V) (g : mem V -> K -> mem V) L :
  (forall x k m, In x L -> v_run (body x k) m = v_run k (g m x)) -> forall k m, v_run (t_loop body L k) m = v_run k (fold_left g L m).
Proof. intros H k m. rewrite (t_loop_run body (fun m x => Some (g m x))) by exact H. now rewrite fold_left_some. Qed.

Lemma t_elementwise_run dst f (r : rhs V) k m : (forall idx k m, v_run (f idx k) m = v_run (k (rhs_at r m idx)) m) ->
  v_run (t_elementwise dst f k) m = v_run k (assign_elementwise dst r m).
Proof.
  intros H. unfold t_elementwise, assign_elementwise. rewrite !for_each_fold.
  apply (t_loop_run_some (fun idx k => f idx (fun x => VStore (elem dst idx) x k)) (fun m idx => mset m (elem dst idx) (rhs_at r m idx))).
  intros x k1 m1 _. now rewrite H.
Qed.
Lemma t_linear_run dst src k m : v_run (t_linear dst src k) m = then_run k (assign_linear dst src m).
Proof.
  unfold t_linear, assign_linear.
  transitivity (then_run k (fold_left (fun om x => match om with Some m => match lin_elem dst x, lin_elem src x with Some a, Some b => Some (mset m a (m b)) | _, _ => None end | None => None end) (zseq (size (v_lay dst))) (Some m))).
  - apply (t_loop_run (fun i k => match lin_elem dst i, lin_elem src i with Some a, Some b => VLoad b (fun x => VStore a x k) | _, _ => VWrong end)
      (fun m x => match lin_elem dst x, lin_elem src x with Some a, Some b => Some (mset m a (m b)) | _, _ => None end)).
    intros x k1 m1 _. now destruct (lin_elem dst x), (lin_elem src x).
  - reflexivity.
Qed.
Lemma t_fill_strided_run fuel p i L s x k m : v_run (t_fill_strided fuel p i L s x k) m = then_run k (fill_strided fuel p i L s x m).
Proof. revert i m; induction fuel as [|fuel IH]; intros i m; cbn [t_fill_strided fill_strided]; destruct (i <? L); auto. cbn [v_run]. apply IH. Qed.
Lemma t_fill_iter_run fuel p it en x k m : v_run (t_fill_iter fuel p it en x k) m = then_run k (fill_iter fuel p it en x m).
Proof. revert it m; induction fuel as [|fuel IH]; intros it m; cbn [t_fill_iter fill_iter]; destruct (grid_eqb it en); auto. cbn [v_run]. apply IH. Qed.
Lemma t_fill_run fuel dst x k m : v_run (t_fill fuel dst x k) m = then_run k (fill_with_scalar fuel dst x m).
Proof.
  unfold t_fill, fill_with_scalar. destruct (has_strided_1d _); [destruct (has_contiguous _)|].
  - cbn [then_run]. now apply (t_loop_run_some (fun i k => VStore (v_base dst + i) x k) (fun m i => mset m (v_base dst + i) x)).
  - apply t_fill_strided_run.
  - apply t_fill_iter_run.
Qed.
Definition t_floop {K} (body : K -> (V -> vact V) -> V -> vact V) (L : list K) (r0 : V) : (V -> vact V) -> vact V :=
  fold_left (fun (before : (V -> vact V) -> vact V) x k => before (body x k)) L (fun k => k r0).
Lemma t_fold_list f e r0 k : t_fold A f e r0 k = t_floop (fun idx k r => t_expr A e idx (fun x => k (f r x))) (all_idx (expr_shape e)) r0 k.
Proof. unfold t_fold. now rewrite for_each_fold. Qed.
Lemma t_fold_run f e r0 k m : v_run (t_fold A f e r0 k) m = v_run (k (fold f (expr_shape e) (fun i => expr_at A m e i) r0)) m.
Proof.
  rewrite t_fold_list. unfold fold. rewrite for_each_fold. revert k. induction (all_idx (expr_shape e)) as [|x L IH] using rev_ind; intros k; [reflexivity|].
  unfold t_floop. rewrite !fold_left_app. cbn [fold_left]. fold (@t_floop (list Z) (fun idx k r => t_expr A e idx (fun x => k (f r x))) L r0).
  rewrite IH. now rewrite (proj1 (t_expr_run m x)).
Qed.
Lemma t_stmt_run s k m : v_run (t_stmt A checks s k) m = then_run k (exec_stmt A checks s m).
Proof.
  destruct s as [dst e|dst src|fuel dst x|dst idx f e r0]; cbn [t_stmt exec_stmt].
  - unfold assign_expr, assign_from_ndarray, shape_ok. destruct (checks && _); [reflexivity|]. cbn [negb then_run].
    apply (t_elementwise_run dst (t_expr A e) (RExpr (fun m idx => expr_at A m e idx))). intros idx k1 m1. apply (proj1 (t_expr_run m1 idx)).
  - unfold assign_from_ndarray, shape_ok. destruct (checks && _); [reflexivity|]. cbn [negb].
    assert (E : v_run (t_elementwise dst (fun idx k => VLoad (elem src idx) k) k) m = v_run k (assign_elementwise dst (RMem src) m)) by now apply t_elementwise_run.
    destruct (same_stride_order _ _); [|exact E]. destruct (_ =? 0); [reflexivity|]. destruct (_ && _); [apply t_linear_run|exact E].
  - unfold assign_from_scalar. cbn [negb]. apply t_fill_run.
  - rewrite t_fold_run. reflexivity.
Qed.
Lemma t_stmts_run p m : v_run (t_stmts A checks p) m = exec_stmts A checks p m.
Proof.
  revert m; induction p as [|s p IH]; intros m; [reflexivity|]. cbn [t_stmts exec_stmts]. rewrite t_stmt_run. destruct (exec_stmt _ _ _ _); cbn [then_run]; auto.
Qed.

(** ** cells *)
Section Confined.
Variable (R W : Z -> Prop).
Fixpoint confined (t : vact V) : Prop :=
  match t with VDone => True | VWrong => False | VLoad a k => R a /\ forall x, confined (k x) | VStore a _ k => W a /\ confined k end.
Lemma t_expr_confined idx :
  (forall (e : expr V) k, (forall v, In v (leaves e) -> R (elem v idx)) -> (forall x, confined (k x)) -> confined (t_expr A e idx k)) /\
  (forall (l : exprs V) k, (forall v, In v (leaves_list l) -> R (elem v idx)) -> (forall x, confined (k x)) -> confined (t_exprs A l idx k)).
Proof.
  apply expr_exprs_ind; intros; cbn [t_expr t_exprs leaves leaves_list] in *.
  - split; [apply H; now left|auto].
  - apply H; auto.
  - apply H; [intros; apply H1, in_or_app; auto|]. intros x. apply H0; [intros; apply H1, in_or_app; auto|]. auto.
  - apply H; auto.
  - apply H; auto.
  - apply H; auto.
  - apply H; auto.
  - apply H; [intros; apply H1, in_or_app; auto|]. intros x. apply H0; [intros; apply H1, in_or_app; auto|]. auto.
Qed.
Lemma t_loop_confined {K} (body : K -> vact V -> vact V) L : (forall x k, In x L -> confined k -> confined (body x k)) ->
  forall k, confined k -> confined (t_loop body L k).
Proof.
  induction L as [|x L IH] using rev_ind; intros H k Hk; [exact Hk|]. rewrite t_loop_app. apply IH; [intros; apply H; auto; apply in_or_app; auto|].
  apply H; auto. apply in_or_app. right. now left.
Qed.
Lemma t_elementwise_confined dst f k : usable (v_lay dst) -> (forall a, is_cell_of dst a -> W a) ->
  (forall idx k, in_range idx (im_len (v_lay dst)) -> (forall x, confined (k x)) -> confined (f idx k)) -> confined k -> confined (t_elementwise dst f k).
Proof.
  intros U Hw Hf Hk. unfold t_elementwise. rewrite for_each_fold. apply (t_loop_confined (fun idx k => f idx (fun x => VStore (elem dst idx) x k))); auto.
  intros idx k1 Hi Hk1. apply all_idx_In in Hi. apply Hf; auto. intros x. split; auto. apply Hw. exists idx. split; auto. apply elem_cell_in; auto using usable_truthful.
Qed.
Lemma t_fill_strided_confined d n : 0 < d -> forall i k fuel p x t, Z.of_nat n = k -> (n <= fuel)%nat -> (forall j, 0 <= j < k -> W (p + (i + j * d))) -> confined t ->
  confined (t_fill_strided fuel p i (i + k * d) d x t).
Proof.
  intros Hd. induction n as [|n IH]; intros i k fuel p x t En Hf Hw Ht.
  - replace k with 0 by lia. destruct fuel; cbn [t_fill_strided]; replace (i <? i + 0 * d) with false by (symmetry; lia); exact Ht.
  - destruct fuel as [|fuel]; [lia|]. cbn [t_fill_strided]. replace (i <? i + k * d) with true by (symmetry; nia). split.
    + specialize (Hw 0 ltac:(lia)). now rewrite Z.mul_0_l, Z.add_0_r in Hw.
    + replace (i + k * d) with (i + d + (k - 1) * d) by ring. apply IH; auto; try lia. intros j Hj. replace (i + d + j * d) with (i + (1 + j) * d) by ring. apply Hw. lia.
Qed.
Lemma t_fill_iter_confined fuel p en x t : confined t -> forall it l, iterate fuel it en = Some l -> (forall y, In y l -> W (p + y)) -> confined (t_fill_iter fuel p it en x t).
Proof.
  intros Ht. induction fuel as [|fuel IH]; intros it l E Hw; cbn [t_fill_iter iterate] in *; destruct (grid_eqb it en); try discriminate; auto.
  destruct (iterate fuel (grid_incr it) en) as [l'|] eqn:E'; [|discriminate]. injection E as <-. split; [apply Hw; now left|]. eapply IH; eauto. intros y Hy. apply Hw. now right.
Qed.
Lemma t_stmt_confined s k : legal s -> (forall a, reads s a -> R a) -> (forall a, writes s a -> W a) -> confined k -> confined (t_stmt A checks s k).
Proof.
  destruct s as [dst e|dst src|fuel dst x|dst idx f e r0]; cbn [t_stmt legal reads writes].
  - intros (U & Hc & Ht) Hr Hw Hk. unfold shape_ok. rewrite (proj1 (proj1 shapes_of_common e _ Hc)). destruct (list_eq_dec _ _ _) as [_|C]; [|congruence]. rewrite andb_false_r. cbn [negb].
    apply t_elementwise_confined; auto. intros idx k1 Hi Hk1. apply (proj1 (t_expr_confined idx)); auto. intros v Hv. apply Hr. exists v. split; auto. exists idx.
    assert (in_view v idx) by (unfold in_view, valid_idx; now rewrite (Hc v Hv)). split; auto. apply elem_cell_in; auto.
  - intros (U & Ts & El) Hr Hw Hk. unfold shape_ok. rewrite El. destruct (list_eq_dec _ _ _) as [_|C]; [|congruence]. rewrite andb_false_r. cbn [negb].
    assert (G : confined (t_elementwise dst (fun idx k0 => VLoad (elem src idx) k0) k)).
    { apply t_elementwise_confined; auto. intros idx k1 Hi Hk1. split; auto. apply Hr. exists idx. assert (in_view src idx) by (unfold in_view, valid_idx; now rewrite El). split; auto. now apply elem_cell_in. }
    destruct (same_stride_order _ _) eqn:So; auto. destruct (_ =? 0); auto. destruct (_ && _) eqn:P; auto. apply andb_true_iff in P as [P1 P2]. apply same_stride_order_eq in So.
    unfold t_linear. match goal with |- confined (fold_left ?g ?L ?z k) => change (confined (t_loop (fun i k => match lin_elem dst i, lin_elem src i with Some a, Some b => VLoad b (fun x => VStore a x k) | _, _ => VWrong end) (zseq (size (v_lay dst))) k)) end.
    apply t_loop_confined; auto. intros i k1 Hi Hk1. apply zseq_In in Hi. assert (Es : size (v_lay src) = size (v_lay dst)) by (rewrite !size_prodZ; now rewrite El).
    rewrite (lin_elem_spec dst) by auto using usable_wf, usable_flags. rewrite (lin_elem_spec src) by (rewrite ?Es; auto using truthful_wf, truthful_flags). split.
    + apply Hr. eexists. split; [|reflexivity]. apply order_nth_valid; [now apply truthful_wf|lia].
    + intros x. split; auto. apply Hw. eexists. split; [|reflexivity]. apply order_nth_valid; [now apply usable_wf|lia].
  - intros (U & Hz & Hs & Hf) _ Hw Hk. pose proof (usable_wf _ U) as Wf. pose proof (usable_flags _ U) as F.
    assert (Hsz : 0 <= size (v_lay dst)) by (rewrite size_prodZ; apply prodZ_nonneg; apply Wf).
    unfold t_fill. destruct (has_strided_1d (im_prop (v_lay dst))) eqn:H1.
    + assert (GO : forall q, 0 <= q < size (v_lay dst) -> W (v_base dst + (0 + q * min_stride (v_lay dst)))).
      { intros q Hq. destruct (order_nth_valid _ q Wf Hq) as [Hv Hn]. apply Hw. exists (order_nth (v_lay dst) q). split; auto. unfold cell. destruct F as [F1 _].
        rewrite (regular_strided_1d _ Wf (F1 H1) _ Hv), Hn. ring. }
      destruct (has_contiguous _) eqn:H2.
      * destruct F as [_ F2]. assert (Es : min_stride (v_lay dst) = 1) by (apply F2; destruct (im_prop (v_lay dst)); auto; discriminate).
        apply (t_loop_confined (fun i k => VStore (v_base dst + i) x k)); auto. intros i k1 Hi Hk1. apply zseq_In in Hi. split; auto.
        replace (v_base dst + i) with (v_base dst + (0 + i * min_stride (v_lay dst))) by (rewrite Es; ring). auto.
      * destruct (Hs eq_refl) as [C|Hp]; [discriminate|]. rewrite <- (Z.add_0_l (size _ * _)).
        apply (t_fill_strided_confined _ (Z.to_nat (size (v_lay dst)))); auto; rewrite ?size_prodZ in *; lia.
    + apply (t_fill_iter_confined fuel _ _ x k Hk _ (map (addr (v_lay dst)) (order_list (v_lay dst)))).
      * apply (iterate_mono (Z.to_nat (size (v_lay dst)))).
        -- apply array_iteration; auto. now apply harmless_cases.
        -- rewrite size_prodZ. lia.
      * intros y Hy. apply in_map_iff in Hy as (i & <- & Hi). apply order_list_In in Hi; auto. apply Hw. exists i. now split.
  - intros (T & Hi & (sh & Hc) & Ht) Hr Hw Hk. rewrite t_fold_list. rewrite (proj1 (proj1 shapes_of_common e _ Hc)).
    assert (G : forall L, (forall i, In i L -> in_range i sh) -> forall k : V -> vact V, (forall r, confined (k r)) -> confined (t_floop (fun i k r => t_expr A e i (fun x => k (f r x))) L r0 k)).
    { induction L as [|i L IH] using rev_ind; intros HL k1 Hk1; [apply Hk1|]. unfold t_floop. rewrite fold_left_app. cbn [fold_left]. apply IH; [intros; apply HL, in_or_app; auto|].
      intros r. apply (proj1 (t_expr_confined i)); auto. intros v Hv. apply Hr. exists v. split; auto. exists i.
      assert (in_view v i) by (unfold in_view, valid_idx; rewrite (Hc v Hv); apply HL, in_or_app; right; now left). split; auto. apply elem_cell_in; auto. }
    apply G; [intros i; now rewrite all_idx_In|]. intros r. split; auto. apply Hw. now apply elem_cell_in.
Qed.
End Confined.

(** ** threads *)
Definition p_reads (p : list (vstmt V)) (a : Z) : Prop := exists s, In s p /\ reads s a.
Definition p_writes (p : list (vstmt V)) (a : Z) : Prop := exists s, In s p /\ writes s a.
Lemma t_stmts_confined (R W : Z -> Prop) p : (forall s, In s p -> legal s) -> (forall a, p_reads p a -> R a) -> (forall a, p_writes p a -> W a) -> confined R W (t_stmts A checks p).
Proof.
  induction p as [|s p IH]; intros Hl Hr Hw; cbn [t_stmts]; [exact I|]. apply t_stmt_confined.
  - apply Hl. now left.
  - intros a Ha. apply Hr. exists s. split; auto. now left.
  - intros a Ha. apply Hw. exists s. split; auto. now left.
  - apply IH.
    + intros s' Hs. apply Hl. now right.
    + intros a (s' & Hs & Ha). apply Hr. exists s'. split; auto. now right.
    + intros a (s' & Hs & Ha). apply Hw. exists s'. split; auto. now right.
Qed.

(** [gs i] is the memory as thread [i] would see it if it ran alone *)
Record VInv (m0 : mem V) (progs : list (list (vstmt V))) (m : mem V) (ts : list (vact V)) (gs : list (mem V)) : Prop := {
  vi_len : length ts = length progs;
  vi_glen : length gs = length progs;
  vi_thr : forall i p t g, nth_error progs i = Some p -> nth_error ts i = Some t -> nth_error gs i = Some g ->
    confined (p_reads p) (p_writes p) t /\ v_run t g = exec_stmts A checks p m0 /\ forall a, p_reads p a \/ p_writes p a -> m a = g a;
  vi_rest : forall a, (forall p, In p progs -> ~ p_writes p a) -> m a = m0 a
}.
Lemma vinv_start m0 progs : all_legal progs -> VInv m0 progs m0 (snd (v_fork A checks m0 progs)) (map (fun _ => m0) progs).
Proof.
  intros Hl. unfold v_fork; cbn [snd]. split.
  - apply map_length.
  - apply map_length.
  - intros i p t g Hp Ht Hg. rewrite nth_error_map, Hp in Ht, Hg. injection Ht as <-. injection Hg as <-. split; [|split].
    + apply t_stmts_confined; auto. intros s Hs. apply (Hl p); auto. now apply nth_error_In in Hp.
    + apply t_stmts_run.
    + auto.
  - auto.
Qed.
Lemma vinv_step m0 progs m ts gs i : apart progs -> VInv m0 progs m ts gs ->
  exists m' ts' gs', v_step (m, ts) i = Some (m', ts') /\ VInv m0 progs m' ts' gs' /\
    (forall j t g t' g', nth_error ts j = Some t -> nth_error gs j = Some g -> nth_error ts' j = Some t' -> nth_error gs' j = Some g' ->
       v_steps t' g' = (v_steps t g - (if Nat.eqb i j then 1 else 0))%nat).
Proof.
  intros Hap I. destruct I as [Lt Lg Th Re] eqn:EI. unfold v_step. destruct (nth_error ts i) as [t|] eqn:Et.
  2:{ exists m, ts, gs. split; [reflexivity|]. split; [exact I|]. intros j t g t' g' H1 H2 H3 H4. destruct (Nat.eqb_spec i j) as [->|]; [congruence|]. rewrite H1 in H3; rewrite H2 in H4. injection H3 as <-. injection H4 as <-. lia. }
  assert (Li : (i < length progs)%nat) by (rewrite <- Lt; apply nth_error_Some; congruence).
  destruct (nth_error progs i) as [p|] eqn:Ep; [|apply nth_error_None in Ep; lia].
  destruct (nth_error gs i) as [g|] eqn:Eg; [|apply nth_error_None in Eg; lia].
  destruct (Th i p t g Ep Et Eg) as (Cf & Ru & Ag). destruct t as [| |a k|a x k].
  - exists m, ts, gs. split; [reflexivity|]. split; [exact I|]. intros j t g1 t' g' H1 H2 H3 H4. rewrite H1 in H3; rewrite H2 in H4. injection H3 as <-. injection H4 as <-.
    destruct (Nat.eqb_spec i j) as [->|]; [|lia]. assert (t = VDone) as -> by congruence. reflexivity.
  - destruct Cf.
  - destruct Cf as [Ra Cf]. assert (Ea : m a = g a) by auto. exists m, (upd ts i (k (m a))), gs. split; [reflexivity|]. split.
    + split; auto.
      * now rewrite upd_length.
      * intros j q t' g' Hq Ht' Hg'. destruct (Nat.eq_dec i j) as [<-|N].
        -- rewrite L_Handle.nth_error_upd_eq in Ht' by lia. injection Ht' as <-. assert (q = p) as -> by congruence. assert (g' = g) as -> by congruence. split; [apply Cf|]. split; auto. rewrite Ea. exact Ru.
        -- rewrite L_Handle.nth_error_upd_neq in Ht' by auto. eauto.
    + intros j t g1 t' g' H1 H2 H3 H4. rewrite H2 in H4. injection H4 as <-. destruct (Nat.eqb_spec i j) as [<-|N].
      * rewrite L_Handle.nth_error_upd_eq in H3 by lia. injection H3 as <-. assert (t = VLoad a k) as -> by congruence. assert (g1 = g) as -> by congruence. cbn [v_steps]. rewrite Ea. lia.
      * rewrite L_Handle.nth_error_upd_neq in H3 by auto. rewrite H1 in H3. injection H3 as <-. lia.
  - destruct Cf as [Wa Cf]. exists (mset m a x), (upd ts i k), (upd gs i (mset g a x)). split; [reflexivity|]. split.
    + split.
      * now rewrite upd_length.
      * now rewrite upd_length.
      * intros j q t' g' Hq Ht' Hg'. destruct (Nat.eq_dec i j) as [<-|N].
        -- rewrite L_Handle.nth_error_upd_eq in Ht' by lia. rewrite L_Handle.nth_error_upd_eq in Hg' by lia. injection Ht' as <-. injection Hg' as <-. assert (q = p) as -> by congruence.
           split; auto. split; [exact Ru|]. intros b Hb. unfold mset. destruct (b =? a); auto.
        -- rewrite L_Handle.nth_error_upd_neq in Ht' by auto. rewrite L_Handle.nth_error_upd_neq in Hg' by auto. destruct (Th j q t' g' Hq Ht' Hg') as (C1 & C2 & C3). split; auto. split; auto.
           intros b Hb. rewrite mset_neq; [auto|]. intros ->. destruct Wa as (s & Hs & Wa). destruct Hb as [(s' & Hs' & Hb)|(s' & Hs' & Hb)]; apply (Hap i j p q s s' a); auto.
      * intros b Hb. rewrite mset_neq; [auto|]. intros ->. apply (Hb p); auto. now apply nth_error_In in Ep.
    + intros j t g1 t' g' H1 H2 H3 H4. destruct (Nat.eqb_spec i j) as [<-|N].
      * rewrite L_Handle.nth_error_upd_eq in H3 by lia. rewrite L_Handle.nth_error_upd_eq in H4 by lia. injection H3 as <-. injection H4 as <-. assert (t = VStore a x k) as -> by congruence. assert (g1 = g) as -> by congruence. cbn [v_steps]. lia.
      * rewrite L_Handle.nth_error_upd_neq in H3 by auto. rewrite L_Handle.nth_error_upd_neq in H4 by auto. rewrite H1 in H3; rewrite H2 in H4. injection H3 as <-. injection H4 as <-. lia.
Qed.
Lemma vinv_run m0 progs l : apart progs -> forall m ts gs, VInv m0 progs m ts gs ->
  exists m' ts' gs', v_sched (m, ts) l = Some (m', ts') /\ VInv m0 progs m' ts' gs' /\
    (forall j t g t' g', nth_error ts j = Some t -> nth_error gs j = Some g -> nth_error ts' j = Some t' -> nth_error gs' j = Some g' ->
       v_steps t' g' = (v_steps t g - count_occ Nat.eq_dec l j)%nat).
Proof.
  intros Hap. induction l as [|i l IH]; intros m ts gs I.
  - exists m, ts, gs. split; [reflexivity|]. split; auto. intros j t g t' g' H1 H2 H3 H4. rewrite H1 in H3; rewrite H2 in H4. injection H3 as <-. injection H4 as <-. cbn [count_occ]. lia.
  - destruct (vinv_step m0 progs m ts gs i Hap I) as (m1 & ts1 & gs1 & E1 & I1 & S1). destruct (IH m1 ts1 gs1 I1) as (m2 & ts2 & gs2 & E2 & I2 & S2).
    exists m2, ts2, gs2. split; [cbn [v_sched]; now rewrite E1|]. split; auto. intros j t g t' g' H1 H2 H3 H4.
    pose proof (vi_len _ _ _ _ _ I1) as L1. pose proof (vi_glen _ _ _ _ _ I1) as L2. pose proof (vi_len _ _ _ _ _ I) as L3. assert (j < length ts)%nat by (apply nth_error_Some; congruence).
    destruct (nth_error ts1 j) as [t1|] eqn:T1; [|apply nth_error_None in T1; lia]. destruct (nth_error gs1 j) as [g1|] eqn:G1; [|apply nth_error_None in G1; lia].
    rewrite (S2 j t1 g1 t' g' T1 G1 H3 H4), (S1 j t g t1 g1 H1 H2 T1 G1). cbn [count_occ]. destruct (Nat.eqb_spec i j) as [->|N]; destruct (Nat.eq_dec _ _); try congruence; lia.
Qed.
Lemma confined_steps R W t m : confined R W t -> v_steps t m = 0%nat -> t = VDone.
Proof. destruct t; cbn [confined v_steps]; intros; auto; try tauto; discriminate. Qed.
Lemma confined_runs R W t : confined R W t -> forall m, exists m', v_run t m = Some m'.
Proof.
  induction t as [| |a k IH|a x k IH]; cbn [confined v_run]; intros C m.
  - eauto.
  - destruct C.
  - destruct C as [_ C]. now apply IH.
  - destruct C as [_ C]. now apply IH.
Qed.
Lemma confined_frame R W t : confined R W t -> forall m m' a, v_run t m = Some m' -> ~ W a -> m' a = m a.
Proof.
  induction t as [| |b k IH|b x k IH]; cbn [confined v_run]; intros C m m' a E N.
  - congruence.
  - destruct C.
  - destruct C as [_ C]. eapply IH; eauto.
  - destruct C as [Wb C]. rewrite (IH C _ _ a E N). apply mset_neq. intros ->. auto.
Qed.
End Lemmas.
