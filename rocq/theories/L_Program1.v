(** Lemmas: products of matrices, views and expressions in programs. *)
From Coq Require Import Ring.
From Verif Require Import Base M_Perm L_Perm M_IdxMap M_Slice M_Loops M_Assign M_Expr M_Transform M_Blas M_Program S_Layout S_Loops S_Assign S_Expr S_Blas S_Program
  L_IdxMap L_Layout L_Loops L_Assign L_Transform L_Factory L_Blas L_Blas2 L_Blas3 L_Blas4.

Section products.
Context {V : Type} (A : arith V) (RG : is_ring A).
Definition Rth_p : ring_theory (v_zero A) (v_one A) (v_add A) (v_mul A) (v_sub A) (v_opp A) eq := RG.
Add Ring VRP : Rth_p.
Notation same := (fun z : V => z).
(** a matrix in memory is used as it is, an expression is copied to a block at [b] *)
Definition used (x : @operand V) (b n a : Z) : Prop := match x with OOther _ _ _ => block b n a | _ => False end.
Definition plain (x : @operand V) : Prop := match x with OConj _ => False | OMat reg _ => reg = false | OOther _ _ _ => True end.
Lemma container_plain checks so b x r c (P : Z -> Prop) (m : mem V) : is_order 2 so -> plain x -> operand_fits x r c -> operand_reads x P -> (forall a, used x b (r * c) a -> ~ P a) ->
  exists xm reg m', as_container checks so [0; 0] b x m = BRet (xm, reg, m') /\ factor xm r c (fun a => P a \/ used x b (r * c) a) /\ m_conj xm = false /\
    (forall i j, 0 <= i < r -> 0 <= j < c -> mat_at same xm m' i j = operand_at same x m i j) /\ (forall a, ~ used x b (r * c) a -> m' a = m a).
Proof.
  intros Ho Px Fx Rx N. destruct x as [reg v|v|so' sh f]; [|destruct Px|].
  - pose proof Fx as (_ & _ & _ & _ & H1 & H2). exists (Mat false v), reg, m. split; [reflexivity|]. split; [|split; [reflexivity|split; reflexivity]].
    split; [exact H1|]. split; [exact H2|]. intros a Ha. left. exact (Rx a Ha).
  - destruct (as_container_spec same checks so [0; 0] b (OOther so' sh f) r c P m Ho ltac:(intros _; apply no_extents) Fx Rx N) as (xm & reg & m' & E & F & C & Vx & U).
    assert (Cx : m_conj xm = false).
    { cbn [as_container] in E. destruct (array_of_ndarray _ _ _ _ _ _ _) as [q [q'|]]; unfold expects in E; destruct (negb checks || static_extents_ok [0; 0] sh)%bool; try destruct checks; try destruct (static_extents_ok [0; 0] sh); try discriminate E; now injection E as <- _ _. }
    exists xm, reg, m'. auto.
Qed.

Lemma plain_policy l r (x : Z) (y : Z) : plain l -> operand_fits l x y -> result_policy l r = (fst (result_policy (V := V) l r), [0; 0]) /\ is_order 2 (fst (result_policy l r)).
Proof.
  intros Pl Fl. pose proof (result_policy_spec l r x y Fl) as H. destruct (result_policy l r) as [so se]. destruct H as (Ho & _ & Hse). cbn [fst]. split; [|exact Ho].
  destruct Hse as [->|(v & -> & _)]; [reflexivity|discriminate Pl].
Qed.

Lemma matmul_plain checks b1 b2 b3 b4 b5 l r (P : Z -> Prop) (m : mem V) n k p : plain l -> plain r -> operand_fits l n k -> operand_fits r k p -> operand_reads l P -> operand_reads r P ->
  (forall a, used l b2 (n * k) a -> ~ P a) -> (forall a, used r b3 (k * p) a -> ~ (P a \/ used l b2 (n * k) a)) ->
  (forall a, block b1 (n * p) a -> ~ ((P a \/ used l b2 (n * k) a) \/ used r b3 (k * p) a)) ->
  let c := new_array (fst (result_policy l r)) b1 [n; p] in
  exists m', matmul A same checks b1 b2 b3 b4 b5 l r m = BRet (c, m') /\
    holds c m' (fun idx => product_at A k (operand_at same l m) (operand_at same r m) (nthZ idx 0) (nthZ idx 1)) /\
    (forall a, ~ used l b2 (n * k) a -> ~ used r b3 (k * p) a -> ~ block b1 (n * p) a -> m' a = m a).
Proof.
  intros Pl Pr Fl Fr Rl Rr N2 N3 N1 c. unfold matmul. rewrite (operand_fits_shape _ _ _ Fl), (operand_fits_shape _ _ _ Fr). cbn [nthZ nth]. rewrite Z.eqb_refl, expects_true. cbv zeta.
  destruct (plain_policy l r n k Pl Fl) as [-> Ho]. set (so := fst (result_policy l r)) in *.
  replace (static_extents_ok [0; 0] [n; p]) with true by reflexivity. rewrite expects_true. fold c.
  destruct (container_plain checks so b2 l n k P m Ho Pl Fl Rl N2) as (x & xr & m1 & -> & FX & CX & VX & U1). cbn [bbind].
  destruct (container_plain checks so b3 r k p (fun a => P a \/ used l b2 (n * k) a) m1 Ho Pr Fr) as (y & yr & m2 & -> & FY & CY & VY & U2); [|exact N3|].
  { destruct r as [reg v|v|so' s f]; cbn [operand_reads] in *; [intros a Ha; left; auto|intros a Ha; left; auto|]. intros idx ma mb Hi H. apply Rr; auto. }
  cbn [bbind]. pose proof Fl as (Hn & Hk & In' & Ik & _). pose proof Fr as (_ & Hp & _ & Ip & _).
  assert (K1 : forall a, P a -> m1 a = m a) by (intros a Ha; apply U1; intros C; exact (N2 a C Ha)).
  assert (K2 : forall a, P a \/ used l b2 (n * k) a -> m2 a = m1 a) by (intros a Ha; apply U2; intros C; exact (N3 a C Ha)).
  assert (VX2 : forall i j, 0 <= i < n -> 0 <= j < k -> mat_at same x m2 i j = operand_at same l m i j) by (intros i j Hi Hj; rewrite <- VX by auto; apply (factor_at same x n k _ _ _ i j FX K2 Hi Hj)).
  assert (VY2 : forall i j, 0 <= i < k -> 0 <= j < p -> mat_at same y m2 i j = operand_at same r m i j) by (intros i j Hi Hj; rewrite VY by auto; apply (operand_at_reads same r k p P); auto).
  assert (FX2 : factor x n k (fun a => (P a \/ used l b2 (n * k) a) \/ used r b3 (k * p) a)) by (eapply factor_weaken; [|exact FX]; cbv beta; tauto).
  destruct (gemm_factors A same RG checks x y so b1 n k p (fun a => (P a \/ used l b2 (n * k) a) \/ used r b3 (k * p) a) m2) as (m' & E & Hv & Hu); auto using not_conj_allowed.
  fold c in E, Hv. exists m'. split; [|split].
  - replace (is_valid_gemm_triple x y c) with true; [rewrite E; reflexivity|]. unfold is_valid_gemm_triple. rewrite CX, CY. cbn [andb negb]. now destruct (has_F_layout c).
  - intros idx Hi. unfold in_view, valid_idx in Hi. change (im_len (v_lay c)) with [n; p] in Hi. inversion Hi as [|i ? q ? Q1 Q2]; subst. inversion Q2 as [|j ? q' ? Q3 Q4]; subst. inversion Q4; subst. unfold inr in *.
    change (nthZ [i; j] 0) with i. change (nthZ [i; j] 1) with j. rewrite Hv by tauto. apply product_ext; intros q Hq; [apply VX2|apply VY2]; tauto.
  - intros a A2 A3 A1. rewrite Hu by exact A1. rewrite U2 by exact A3. now apply U1.
Qed.

Lemma matvec_plain checks b1 b2 b3 b4 l (f : mem V -> list Z -> V) (P : Z -> Prop) (m : mem V) n k : plain l -> operand_fits l n k -> operand_reads l P ->
  (forall idx m1 m2, in_range idx [k] -> (forall a, P a -> m1 a = m2 a) -> f m1 idx = f m2 idx) ->
  (forall a, used l b2 (n * k) a -> ~ P a) -> (forall a, block b3 k a -> ~ (P a \/ used l b2 (n * k) a)) -> (forall a, block b1 n a -> ~ ((P a \/ used l b2 (n * k) a) \/ block b3 k a)) ->
  let c := new_array [0%nat] b1 [n] in
  exists m', matvecmul A same checks b1 b2 b3 b4 l [k] f m = BRet (c, m') /\
    holds c m' (fun idx => sum_to A k (fun q => v_mul A (operand_at same l m (nthZ idx 0) q) (f m [q]))) /\
    (forall a, ~ used l b2 (n * k) a -> ~ block b3 k a -> ~ block b1 n a -> m' a = m a).
Proof.
  intros Pl Fl Rl Rf N2 N3 N1 c. unfold matvecmul. rewrite (operand_fits_shape _ _ _ Fl). unfold nthZ at 1 2. cbn [nth]. rewrite Z.eqb_refl, expects_true. cbv zeta.
  assert (Ho : is_order 2 [0; 1]%nat) by (unfold is_order; cbn [seq]; reflexivity). change (c_array b1 [nthZ [n; k] 0]) with c.
  destruct (container_plain checks [0; 1]%nat b2 l n k P m Ho Pl Fl Rl N2) as (x & xr & m1 & -> & FX & CX & VX & U1). cbn [bbind].
  pose proof Fl as (Hn & Hk & In' & Ik & _).
  assert (K1 : forall a, P a -> m1 a = m a) by (intros a Ha; apply U1; intros C; exact (N2 a C Ha)).
  destruct (copy_new1 checks b3 k f m1) as (m2 & -> & VY & U2); [lia| |].
  { intros idx ma mb Hi H. apply Rf; auto. intros a Ha. apply H. intros C. apply (N3 a C). now left. }
  assert (K2 : forall a, P a \/ used l b2 (n * k) a -> m2 a = m1 a) by (intros a Ha; apply U2; intros C; exact (N3 a C Ha)).
  assert (VX2 : forall i j, 0 <= i < n -> 0 <= j < k -> mat_at same x m2 i j = operand_at same l m i j) by (intros i j Hi Hj; rewrite <- VX by auto; apply (factor_at same x n k _ _ _ i j FX K2 Hi Hj)).
  rewrite CX. cbn [andb bbind].
  destruct (gemv_spec A same RG checks (v_one A) x (new_array [0%nat] b3 [k]) (v_zero A) c m2 n k 1 1) as (m' & -> & Hv & Hu); auto; try lia; try congruence.
  - apply FX.
  - apply new_vector; auto; lia.
  - apply new_vector; auto; lia.
  - intros a C1 C2. apply new_cells1 in C1; [|lia]. apply (N1 a C1). left. destruct FX as (_ & _ & FX). exact (FX a C2).
  - intros a C1 C2. apply new_cells1 in C1; [|lia]. apply new_cells1 in C2; [|lia]. apply (N1 a C1). now right.
  - cbn [bbind]. exists m'. split; [reflexivity|]. split.
    + intros idx Hi. unfold in_view, valid_idx in Hi. change (im_len (v_lay c)) with [n] in Hi. inversion Hi as [|i ? q ? Q1 Q2]; subst. inversion Q2; subst. change (nthZ [i] 0) with i.
      rewrite Hv by exact Q1. rewrite (sum_to_ext A k (fun q => v_mul A (mat_at same x m2 i q) (m2 (cell (new_array [0%nat] b3 [k]) [q]))) (fun q => v_mul A (operand_at same l m i q) (f m [q]))); [ring|].
      intros q Hq. rewrite VX2, VY by (auto; apply Q1). f_equal. apply Rf; [repeat constructor; apply Hq|exact K1].
    + intros a A2 A3 A1. rewrite Hu by (intros C; apply A1; apply new_cells1 in C; [exact C|lia]). rewrite U2 by exact A3. now apply U1.
Qed.
End products.
