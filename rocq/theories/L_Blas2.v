(** Proofs about matmul, the vector wrappers and batches. *)
From Coq Require Import Ring.
From Verif Require Import Base M_Perm M_IdxMap M_Slice M_Loops M_Assign M_Expr M_Transform M_Blas S_Layout S_Loops S_Assign S_Expr S_Transform S_Blas
  L_Perm L_IdxMap L_Slice L_Layout L_Loops L_Assign L_Expr L_Transform L_Factory L_Blas.

Lemma order2_cases so : is_order 2 so -> so = [0; 1]%nat \/ so = [1; 0]%nat.
Proof.
  intros H. pose proof (Permutation_length H) as L. destruct so as [|x [|y [|z so]]]; try discriminate. cbn [seq] in H.
  assert (x < 2)%nat by (apply (Permutation_in x) in H; [cbn in H; lia|now left]). assert (y < 2)%nat by (apply (Permutation_in y) in H; [cbn in H; lia|right; now left]).
  assert (NoDup [x; y]) as N by (apply (Permutation_NoDup (Permutation_sym H)); repeat constructor; cbn; lia).
  inversion N as [|? ? N1 _]; subst. cbn in N1. assert (x <> y) by (intros ->; apply N1; now left). destruct x as [|[|x]], y as [|[|y]]; auto; lia.
Qed.
Lemma new_blas so b r c : is_order 2 so -> 1 <= r -> 1 <= c -> int_range r -> int_range c -> blas_matrix (new_array so b [r; c]) r c.
Proof.
  intros Ho Hr Hc Ir Ic. split; [lia|]. split; [lia|]. split; [auto|]. split; [auto|].
  destruct (order2_cases so Ho) as [-> | ->].
  - exists c. split; [auto|]. left. repeat split; [|lia]. unfold new_array. cbn -[Z.mul]. f_equal; lia.
  - exists r. split; [auto|]. right. repeat split; [|lia]. unfold new_array. cbn -[Z.mul]. f_equal; f_equal; lia.
Qed.
Lemma new_cells2 so b r c a : is_order 2 so -> 0 <= r -> 0 <= c -> is_cell_of (new_array so b [r; c]) a <-> block b (r * c) a.
Proof. intros Ho Hr Hc. rewrite new_array_cells; [|auto|repeat constructor; auto|cbn [length]; lia]. unfold block, prodZ. cbn [fold_right]. rewrite Z.mul_1_r. reflexivity. Qed.
Lemma new_usable2 so b r c : is_order 2 so -> 0 <= r -> 0 <= c -> usable (v_lay (new_array so b [r; c])).
Proof. intros Ho Hr Hc. apply new_array_usable; [auto|repeat constructor; auto|cbn [length]; lia]. Qed.
Lemma new_order so b s : im_so (v_lay (new_array so b s)) = so.
Proof. reflexivity. Qed.
Lemma blas_order_is v r c : blas_matrix v r c -> is_order 2 (im_so (v_lay v)).
Proof. intros H. destruct (blas_order v r c H) as [-> | ->]; unfold is_order; cbn [seq]; [reflexivity|constructor]. Qed.

Section Matmul.
Context {V : Type} (A : arith V) (cj : V -> V) (R : is_ring A).
Let Rth : ring_theory (v_zero A) (v_one A) (v_add A) (v_mul A) (v_sub A) (v_opp A) eq := R.
Add Ring VR3 : Rth.

(** a copy into a new array *)
Lemma copy_new checks so b r c (rh : rhs V) (m : mem V) : is_order 2 so -> 0 <= r -> 0 <= c ->
  (forall src, rh = RMem src -> truthful (v_lay src) /\ im_len (v_lay src) = [r; c]) ->
  (forall idx m1 m2, in_range idx [r; c] -> (forall a, ~ block b (r * c) a -> m1 a = m2 a) -> rhs_at rh m1 idx = rhs_at rh m2 idx) ->
  exists m', array_of_ndarray checks true so b [r; c] rh m = (new_array so b [r; c], Some m') /\
    (forall i j, 0 <= i < r -> 0 <= j < c -> m' (cell (new_array so b [r; c]) [i; j]) = rhs_at rh m [i; j]) /\ (forall a, ~ block b (r * c) a -> m' a = m a).
Proof.
  intros Ho Hr Hc Hs Hf. unfold array_of_ndarray.
  destruct (assign_host checks (new_array so b [r; c]) rh m) as (m' & E & Hh & Hu).
  - now apply new_usable2.
  - rewrite new_array_len. exact Hs.
  - intros idx m1 m2 Hi H. apply Hf; [exact Hi|]. intros a Ha. apply H. right. now rewrite new_cells2.
  - rewrite new_array_len in E. exists m'. split; [now rewrite E|]. split.
    + intros i j Hi Hj. apply Hh. now apply (in_view2 _ r c).
    + intros a Ha. apply Hu. now rewrite new_cells2.
Qed.
Lemma copy_value checks so b r c (rh : rhs V) (m : mem V) : is_order 2 so -> 0 <= r -> 0 <= c ->
  (forall src, rh = RMem src -> truthful (v_lay src) /\ im_len (v_lay src) = [r; c]) ->
  (forall idx m1 m2, in_range idx [r; c] -> (forall a, ~ block b (r * c) a -> m1 a = m2 a) -> rhs_value rh m1 idx = rhs_value rh m2 idx) ->
  exists m', array_of_ndarray checks true so b [r; c] rh m = (new_array so b [r; c], Some m') /\
    (forall i j, 0 <= i < r -> 0 <= j < c -> m' (cell (new_array so b [r; c]) [i; j]) = rhs_value rh m [i; j]) /\ (forall a, ~ block b (r * c) a -> m' a = m a).
Proof.
  intros Ho Hr Hc Hs Hf. assert (Hd : forall src, rh = RMem src -> truthful (v_lay src) /\ im_len (v_lay src) = im_len (v_lay (new_array so b [r; c]))) by (rewrite new_array_len; exact Hs).
  destruct (copy_new checks so b r c rh m Ho Hr Hc Hs) as (m' & E & Hv & Hu).
  - intros idx m1 m2 Hi H. assert (Hiv : in_view (new_array so b [r; c]) idx) by (unfold in_view, valid_idx; now rewrite new_array_len).
    rewrite !(rhs_value_at (new_array so b [r; c])) by auto. now apply Hf.
  - exists m'. split; [exact E|]. split; [|exact Hu]. intros i j Hi Hj. rewrite Hv by auto. apply (rhs_value_at (new_array so b [r; c])); auto.
    apply (in_view2 _ r c); auto.
Qed.
Lemma elem_cell2 v r c i j : usable (v_lay v) -> im_len (v_lay v) = [r; c] -> elem v [i; j] = cell v [i; j].
Proof. intros (T & _) E. apply elem_cell; [apply T|apply T|]. unfold rank. rewrite E. reflexivity. Qed.

(** what is known of a factor once it is a matrix in memory *)
Definition factor (x : mat) (r c : Z) (P : Z -> Prop) : Prop :=
  blas_matrix (m_view x) r c /\ usable (v_lay (m_view x)) /\ (forall a, is_cell_of (m_view x) a -> P a).
Lemma factor_weaken x r c (P Q : Z -> Prop) : (forall a, P a -> Q a) -> factor x r c P -> factor x r c Q.
Proof. intros H (H1 & H2 & H3). split; [auto|]. split; auto. Qed.
Lemma factor_at x r c P (m1 m2 : mem V) i j : factor x r c P -> (forall a, P a -> m1 a = m2 a) -> 0 <= i < r -> 0 <= j < c -> mat_at cj x m1 i j = mat_at cj x m2 i j.
Proof.
  intros (H1 & _ & H3) H Hi Hj. unfold mat_at. rewrite (H (cell (m_view x) [i; j])); [reflexivity|]. apply H3. exists [i; j]. split; [|reflexivity].
  apply (in_view2 _ r c); auto. now apply blas_len.
Qed.

Lemma static_ok se shape : extents_agree se shape -> static_extents_ok se shape = true.
Proof. intros H. apply forallb_forall. intros u Hu. apply in_seq in Hu. destruct (H u) as [-> | ->]; [lia|reflexivity|]. now rewrite Z.eqb_refl, orb_true_r. Qed.
Lemma no_extents shape : extents_agree [0; 0] shape.
Proof. intros u _. left. unfold nthZ. destruct u as [|[|[|u]]]; reflexivity. Qed.
Lemma as_container_spec checks so se b x r c P (m : mem V) : is_order 2 so -> (checks = true -> match x with OOther _ _ _ => extents_agree se [r; c] | _ => True end) ->
  operand_fits x r c -> operand_reads x P -> (forall a, block b (r * c) a -> ~ P a) ->
  exists xm reg m', as_container checks so se b x m = BRet (xm, reg, m') /\ factor xm r c (fun a => P a \/ block b (r * c) a) /\ (reg = true -> m_conj xm = false) /\
    (forall i j, 0 <= i < r -> 0 <= j < c -> mat_at cj xm m' i j = operand_at cj x m i j) /\ (forall a, ~ block b (r * c) a -> m' a = m a).
Proof.
  intros Ho Hse (Hr & Hc & Ir & Ic & Hf) Hp Hb. destruct x as [reg v|v|so' s f]; cbn [as_container operand_at operand_reads] in *.
  - destruct Hf as [H1 H2]. exists (Mat false v), reg, m. split; [reflexivity|]. split; [|split; [reflexivity|split; reflexivity]].
    split; [exact H1|]. split; [exact H2|]. intros a Ha. left. auto.
  - destruct Hf as [H1 H2]. exists (Mat true v), false, m. split; [reflexivity|]. split; [|split; [discriminate|split; reflexivity]].
    split; [exact H1|]. split; [exact H2|]. intros a Ha. left. auto.
  - subst s. assert (Ese : expects checks (static_extents_ok se [r; c]) = fun k : bout (mat * bool * mem V) => k) by (unfold expects; destruct checks; [rewrite static_ok by auto|]; reflexivity).
    rewrite Ese. destruct (copy_new checks so b r c (RExpr f) m) as (m' & E & Hv & Hu); auto; try lia.
    + discriminate.
    + intros idx m1 m2 Hi H. cbn [rhs_at]. apply Hp; [exact Hi|]. intros a Ha. apply H. intros C. exact (Hb a C Ha).
    + rewrite E. exists (Mat false (new_array so b [r; c])), true, m'. split; [reflexivity|]. split; [|split; [reflexivity|split; [|exact Hu]]].
      * split; [now apply new_blas|]. split; [apply new_usable2; auto; lia|]. cbn [m_view]. intros a Ha. right. apply new_cells2 in Ha; auto; lia.
      * intros i j Hi Hj. unfold mat_at. cbn [m_conj m_view]. now apply Hv.
Qed.
Lemma make_regular_spec checks b x reg r c P (m : mem V) : 1 <= r -> 1 <= c -> factor x r c P -> (reg = true -> m_conj x = false) -> (forall a, block b (r * c) a -> ~ P a) ->
  exists x' m', make_regular cj checks b x reg m = BRet (x', m') /\ factor x' r c (fun a => P a \/ block b (r * c) a) /\ m_conj x' = false /\
    (forall i j, 0 <= i < r -> 0 <= j < c -> mat_at cj x' m' i j = mat_at cj x m i j) /\ (forall a, ~ block b (r * c) a -> m' a = m a).
Proof.
  intros Hr Hc (H1 & H2 & H3) Hreg Hb. unfold make_regular. destruct reg.
  - exists x, m. split; [reflexivity|]. split; [|split; [auto|split; reflexivity]]. split; [exact H1|]. split; [exact H2|]. intros a Ha. left. auto.
  - pose proof (blas_len _ _ _ H1) as El. rewrite El. pose proof (blas_order_is _ _ _ H1) as Ho.
    assert (Hrd : forall idx (m1 m2 : mem V), in_range idx [r; c] -> (forall a, ~ block b (r * c) a -> m1 a = m2 a) -> m1 (elem (m_view x) idx) = m2 (elem (m_view x) idx)).
    { intros idx m1 m2 Hi H. apply H. intros C. apply (Hb _ C). apply H3. exists idx. assert (in_view (m_view x) idx) by (unfold in_view, valid_idx; now rewrite El).
      split; [auto|]. apply elem_cell_in; [apply H2|auto]. }
    set (so := if m_conj x then [0; 1]%nat else im_so (v_lay (m_view x))). assert (Hso : is_order 2 so) by (subst so; destruct (m_conj x); [unfold is_order; cbn [seq]; reflexivity|exact Ho]).
    destruct (copy_new checks so b r c (if m_conj x then RExpr (fun m idx => cj (m (elem (m_view x) idx))) else RMem (m_view x)) m) as (m' & E & Hv & Hu); auto; try lia.
    + intros src Es. destruct (m_conj x); [discriminate|]. injection Es as <-. split; [apply H2|exact El].
    + intros idx m1 m2 Hi H. destruct (m_conj x); cbn [rhs_at]; [f_equal|]; now apply Hrd.
    + rewrite E. exists (Mat false (new_array so b [r; c])), m'. split; [reflexivity|]. split; [|split; [reflexivity|split; [|exact Hu]]].
      * destruct H1 as (? & ? & Ir & Ic & _). split; [now apply new_blas|]. split; [apply new_usable2; auto; lia|]. cbn [m_view]. intros a Ha. right. apply new_cells2 in Ha; auto; lia.
      * intros i j Hi Hj. unfold mat_at at 1. cbn [m_conj m_view]. rewrite Hv by auto. unfold mat_at. destruct (m_conj x); cbn [rhs_at]; now rewrite (elem_cell2 _ r c).
Qed.
Lemma triple_allowed x y c r k n : blas_matrix (m_view x) r k -> blas_matrix (m_view y) k n -> blas_matrix c r n -> is_valid_gemm_triple x y c = true -> conj_allowed x c /\ conj_allowed y c.
Proof.
  intros Hx Hy Hc. unfold is_valid_gemm_triple, conj_allowed, same_order, has_F_layout, is_stride_order_Fortran, rank. rewrite (blas_len _ _ _ Hx), (blas_len _ _ _ Hy), (blas_len _ _ _ Hc). cbn [length].
  destruct (blas_order _ _ _ Hx) as [-> | ->], (blas_order _ _ _ Hy) as [-> | ->], (blas_order _ _ _ Hc) as [-> | ->], (m_conj x), (m_conj y); cbn; intros E; try discriminate E; split; intros; congruence.
Qed.
Lemma not_conj_allowed x c : m_conj x = false -> conj_allowed x c.
Proof. intros E H. congruence. Qed.
Lemma result_policy_spec l r (rl cl : Z) : operand_fits l rl cl -> let '(so, se) := result_policy (V := V) l r in
  is_order 2 so /\ product_order l r so /\ (se = [0; 0] \/ exists v, l = OMat true v /\ orders_agree l r /\ se = im_se (v_lay v)).
Proof.
  intros (_ & _ & _ & _ & Hl). assert (OC : is_order 2 [0; 1]%nat) by (unfold is_order; cbn [seq]; reflexivity). unfold result_policy, product_order, orders_agree. destruct (list_eq_dec _ _ _) as [E|E].
  - destruct l as [reg v|v|so s f]; cbn [operand_info regular_policy] in *.
    + split; [apply (blas_order_is v rl cl), Hl|]. assert (Ag : match r with OMat _ w => im_so (v_lay w) = im_so (v_lay v) | OOther so _ _ => so = im_so (v_lay v) | _ => False end).
      { destruct r as [reg' w|w|so s f]; cbn [operand_info] in E; try congruence. pose proof (blas_order v rl cl ltac:(apply Hl)) as [D|D]; rewrite D in E; discriminate. }
      split; [split; [intros ? ? Ev _; injection Ev as _ <-; reflexivity|intros N; now exfalso]|]. destruct reg; [|now left]. right. exists v. auto.
    + split; [exact OC|]. split; [split; [discriminate|reflexivity]|now left].
    + split; [exact OC|]. split; [split; [discriminate|reflexivity]|now left].
  - split; [exact OC|]. split; [|now left]. split; [|reflexivity]. intros reg v -> Ag. exfalso. apply E. cbn [operand_info]. destruct r as [reg' w|w|so s f]; cbn [operand_info]; try (symmetry; assumption). contradiction.
Qed.
Lemma operand_fits_shape (x : @operand V) r c : operand_fits x r c -> operand_shape x = [r; c].
Proof. intros (_ & _ & _ & _ & H). destruct x; cbn [operand_shape]; [apply blas_len, H|apply blas_len, H|exact H]. Qed.
Lemma operand_at_reads x r c P (m1 m2 : mem V) i j : operand_fits x r c -> operand_reads x P -> (forall a, P a -> m1 a = m2 a) -> 0 <= i < r -> 0 <= j < c -> operand_at cj x m1 i j = operand_at cj x m2 i j.
Proof.
  intros Hf Hp H Hi Hj. pose proof (operand_fits_shape _ _ _ Hf) as E. destruct x as [reg v|v|so s f]; cbn [operand_at operand_reads operand_shape] in *.
  - apply H, Hp. exists [i; j]. split; [|reflexivity]. now apply (in_view2 v r c).
  - f_equal. apply H, Hp. exists [i; j]. split; [|reflexivity]. now apply (in_view2 v r c).
  - apply Hp; [rewrite E|exact H]. repeat constructor; lia.
Qed.

Lemma gemm_factors checks x y so b r k n P (m : mem V) : is_order 2 so -> 1 <= r -> 1 <= n -> int_range r -> int_range n -> factor x r k P -> factor y k n P ->
  conj_allowed x (new_array so b [r; n]) -> conj_allowed y (new_array so b [r; n]) -> (forall a, block b (r * n) a -> ~ P a) ->
  exists m', gemm A cj checks (v_one A) x y (v_zero A) (new_array so b [r; n]) m = BRet m' /\
    (forall i j, 0 <= i < r -> 0 <= j < n -> m' (cell (new_array so b [r; n]) [i; j]) = product_at A k (mat_at cj x m) (mat_at cj y m) i j) /\
    (forall a, ~ block b (r * n) a -> m' a = m a).
Proof.
  intros Ho Hr Hn Ir In Fx Fy Cx Cy Hb. destruct Fx as (X1 & X2 & X3), Fy as (Y1 & Y2 & Y3).
  destruct (gemm_spec A cj R checks (v_one A) x y (v_zero A) (new_array so b [r; n]) m r k n) as (m' & E & Hv & Hu); auto.
  - now apply new_blas.
  - intros a Ha Ha'. apply new_cells2 in Ha; [|auto|lia|lia]. exact (Hb a Ha (X3 a Ha')).
  - intros a Ha Ha'. apply new_cells2 in Ha; [|auto|lia|lia]. exact (Hb a Ha (Y3 a Ha')).
  - exists m'. split; [exact E|]. split.
    + intros i j Hi Hj. rewrite Hv by auto. ring.
    + intros a Ha. apply Hu. rewrite new_cells2; auto; lia.
Qed.
Lemma product_ext k (a b a' b' : Z -> Z -> V) i j : (forall l, 0 <= l < k -> a i l = a' i l) -> (forall l, 0 <= l < k -> b l j = b' l j) -> product_at A k a b i j = product_at A k a' b' i j.
Proof. intros H1 H2. apply sum_to_ext. intros l Hl. now rewrite H1, H2. Qed.

Lemma matmul_spec checks b1 b2 b3 b4 b5 l r (P : Z -> Prop) (m : mem V) n k p : operand_fits l n k -> operand_fits r k p -> (checks = true -> static_fits l r n k p) -> operand_reads l P -> operand_reads r P ->
  new_blocks P [(b2, n * k); (b3, k * p); (b4, n * k); (b5, k * p); (b1, n * p)] ->
  exists res m', matmul A cj checks b1 b2 b3 b4 b5 l r m = BRet (res, m') /\ im_len (v_lay res) = [n; p] /\ product_order l r (im_so (v_lay res)) /\ (forall a, is_cell_of res a <-> block b1 (n * p) a) /\
    (forall i j, 0 <= i < n -> 0 <= j < p -> m' (cell res [i; j]) = product_at A k (operand_at cj l m) (operand_at cj r m) i j) /\
    (forall a, P a -> m' a = m a).
Proof.
  intros Fl Fr SF Rl Rr (N2 & N3 & N4 & N5 & N1 & _). unfold matmul. rewrite (operand_fits_shape _ _ _ Fl), (operand_fits_shape _ _ _ Fr). cbn [nthZ nth]. rewrite Z.eqb_refl, expects_true. cbv zeta.
  pose proof (result_policy_spec l r _ _ Fl) as Hpol. destruct (result_policy l r) as [so se]. destruct Hpol as (Ho & Hpo & Hse).
  assert (Sres : checks = true -> extents_agree se [n; p]) by (intros E; destruct Hse as [-> | (v & El & Ag & ->)]; [apply no_extents|apply (SF E v El Ag)]).
  assert (Sl : checks = true -> match l with OOther _ _ _ => extents_agree se [n; k] | _ => True end) by (intros E; destruct Hse as [-> | (v & -> & _)]; [destruct l; auto using no_extents|exact I]).
  assert (Sr : checks = true -> match r with OOther _ _ _ => extents_agree se [k; p] | _ => True end).
  { intros E. destruct Hse as [-> | (v & El & Ag & ->)]; [destruct r; auto using no_extents|]. destruct (SF E v El Ag) as [_ H]. exact H. }
  assert (Ese : expects checks (static_extents_ok se [n; p]) = fun k : bout (view * mem V) => k) by (unfold expects; destruct checks; [rewrite static_ok by auto|]; reflexivity).
  rewrite Ese. destruct (as_container_spec checks so se b2 l n k P m Ho Sl Fl Rl N2) as (x & xr & m1 & -> & FX & XR & VX & U1). cbn [bbind].
  destruct (as_container_spec checks so se b3 r k p (fun a => P a \/ block b2 (n * k) a) m1 Ho Sr Fr) as (y & yr & m2 & -> & FY & YR & VY & U2); [|exact N3|].
  { destruct r as [reg v|v|so' s f]; cbn [operand_reads] in *; [intros a Ha; left; auto|intros a Ha; left; auto|]. intros idx ma mb Hi H. apply Rr; auto. }
  cbn [bbind]. pose proof Fl as (Hn & Hk & In' & Ik & _). pose proof Fr as (_ & Hp & _ & Ip & _).
  assert (K1 : forall a, P a -> m1 a = m a) by (intros a Ha; apply U1; intros C; exact (N2 a C Ha)).
  assert (K2 : forall a, P a \/ block b2 (n * k) a -> m2 a = m1 a) by (intros a Ha; apply U2; intros C; exact (N3 a C Ha)).
  assert (VX2 : forall i j, 0 <= i < n -> 0 <= j < k -> mat_at cj x m2 i j = operand_at cj l m i j) by (intros i j Hi Hj; rewrite <- VX by auto; apply (factor_at x n k _ _ _ i j FX K2 Hi Hj)).
  assert (VY2 : forall i j, 0 <= i < k -> 0 <= j < p -> mat_at cj y m2 i j = operand_at cj r m i j) by (intros i j Hi Hj; rewrite VY by auto; apply (operand_at_reads r k p P); auto).
  assert (FX2 : factor x n k (fun a => (P a \/ block b2 (n * k) a) \/ block b3 (k * p) a)) by (eapply factor_weaken; [|exact FX]; cbv beta; tauto).
  destruct (is_valid_gemm_triple x y (new_array so b1 [n; p])) eqn:Et.
  - destruct (triple_allowed x y (new_array so b1 [n; p]) n k p) as [Cx Cy]; [apply FX2|apply FY|now apply new_blas|exact Et|].
    destruct (gemm_factors checks x y so b1 n k p (fun a => (P a \/ block b2 (n * k) a) \/ block b3 (k * p) a) m2) as (m' & -> & Hv & Hu); auto.
    + intros a Ha C. apply (N1 a Ha). tauto.
    + cbn [bbind]. exists (new_array so b1 [n; p]), m'. split; [reflexivity|]. split; [reflexivity|]. split; [exact Hpo|]. split; [intros a; apply new_cells2; auto; lia|]. split.
      * intros i j Hi Hj. rewrite Hv by auto. apply product_ext; auto.
      * intros a Ha. rewrite Hu by (intros C; apply (N1 a C); tauto). rewrite K2, K1; auto.
  - destruct (make_regular_spec checks b4 x xr n k (fun a => (P a \/ block b2 (n * k) a) \/ block b3 (k * p) a) m2) as (x' & m3 & -> & FX3 & NX & VX3 & U3); auto. cbn [bbind].
    assert (K3 : forall a, (P a \/ block b2 (n * k) a) \/ block b3 (k * p) a -> m3 a = m2 a) by (intros a Ha; apply U3; intros C; exact (N4 a C Ha)).
    assert (FY3 : factor y k p (fun a => ((P a \/ block b2 (n * k) a) \/ block b3 (k * p) a) \/ block b4 (n * k) a)) by (eapply factor_weaken; [|exact FY]; cbv beta; tauto).
    destruct (make_regular_spec checks b5 y yr k p _ m3 Hk Hp FY3 YR N5) as (y' & m4 & -> & FY4 & NY & VY4 & U4). cbn [bbind].
    set (Q := fun a => (((P a \/ block b2 (n * k) a) \/ block b3 (k * p) a) \/ block b4 (n * k) a) \/ block b5 (k * p) a).
    assert (FX4 : factor x' n k Q) by (eapply factor_weaken; [|exact FX3]; subst Q; cbv beta; tauto).
    destruct (gemm_factors checks x' y' so b1 n k p Q m4) as (m' & -> & Hv & Hu); auto using not_conj_allowed.
    cbn [bbind]. exists (new_array so b1 [n; p]), m'. split; [reflexivity|]. split; [reflexivity|]. split; [exact Hpo|]. split; [intros a; apply new_cells2; auto; lia|].
    assert (K4 : forall a, ((P a \/ block b2 (n * k) a) \/ block b3 (k * p) a) \/ block b4 (n * k) a -> m4 a = m3 a) by (intros a Ha; apply U4; intros C; exact (N5 a C Ha)).
    split.
    + intros i j Hi Hj. rewrite Hv by auto. apply product_ext; intros q Hq.
      * rewrite (factor_at x' n k _ m4 m3 i q FX3) by auto. rewrite VX3 by auto. auto.
      * rewrite VY4 by auto. rewrite (factor_at y k p _ m3 m2 q j FY) by auto. auto.
    + intros a Ha. rewrite Hu by (intros C; apply (N1 a C); tauto). rewrite K4, K3, K2, K1; auto.
Qed.
End Matmul.
