(** Proofs about matvecmul, outer_product, batches and the cross product. *)
From Coq Require Import Ring.
From Verif Require Import Base M_Perm M_IdxMap M_Slice M_Loops M_Assign M_Expr M_Transform M_Blas S_Layout S_Loops S_Assign S_Expr S_Transform S_Blas
  L_Perm L_IdxMap L_Slice L_Layout L_Loops L_Assign L_Expr L_Transform L_Factory L_SymGrp P_Slice L_Blas L_Blas2 L_Blas3.

Lemma order1 : is_order 1 [0%nat].
Proof. unfold is_order. cbn [seq]. reflexivity. Qed.
Lemma new_vector b n : 0 <= n -> int_range n -> vector_of (new_array [0%nat] b [n]) n 1.
Proof. intros Hn In. split; [auto|]. split; [auto|]. split; [unfold int_range; lia|]. repeat split; reflexivity. Qed.
Lemma new_cells1 b n a : 0 <= n -> is_cell_of (new_array [0%nat] b [n]) a <-> block b n a.
Proof. intros Hn. rewrite new_array_cells; [|apply order1|repeat constructor; auto|cbn [length]; lia]. unfold block, prodZ. cbn [fold_right]. rewrite Z.mul_1_r. reflexivity. Qed.
Lemma new_usable1 b n : 0 <= n -> usable (v_lay (new_array [0%nat] b [n])).
Proof. intros Hn. apply new_array_usable; [apply order1|repeat constructor; auto|cbn [length]; lia]. Qed.

Section Products.
Context {V : Type} (A : arith V) (cj : V -> V) (R : is_ring A).
Declare Scope vs. Local Notation "x + y" := (v_add A x y) : vs. Local Notation "x * y" := (v_mul A x y) : vs.
Delimit Scope vs with vs.
Let Rth : ring_theory (v_zero A) (v_one A) (v_add A) (v_mul A) (v_sub A) (v_opp A) eq := R.
Add Ring VR5 : Rth.

Lemma copy_new1 checks b n (f : mem V -> list Z -> V) (m : mem V) : 0 <= n ->
  (forall idx m1 m2, in_range idx [n] -> (forall a, ~ block b n a -> m1 a = m2 a) -> f m1 idx = f m2 idx) ->
  exists m', array_of_ndarray checks true [0%nat] b [n] (RExpr f) m = (new_array [0%nat] b [n], Some m') /\
    (forall i, 0 <= i < n -> m' (cell (new_array [0%nat] b [n]) [i]) = f m [i]) /\ (forall a, ~ block b n a -> m' a = m a).
Proof.
  intros Hn Hf. unfold array_of_ndarray.
  destruct (assign_host checks (new_array [0%nat] b [n]) (RExpr f) m) as (m' & E & Hh & Hu).
  - now apply new_usable1.
  - discriminate.
  - intros idx m1 m2 Hi H. apply Hf; [exact Hi|]. intros a Ha. apply H. right. now rewrite new_cells1.
  - rewrite new_array_len in E. exists m'. split; [now rewrite E|]. split.
    + intros i Hi. apply Hh. now apply (in_view1 _ n).
    + intros a Ha. apply Hu. now rewrite new_cells1.
Qed.

Lemma matvecmul_spec checks b1 b2 b3 b4 l (f : mem V -> list Z -> V) (P : Z -> Prop) (m : mem V) n k : operand_fits l n k -> operand_reads l P ->
  (forall idx m1 m2, in_range idx [k] -> (forall a, P a -> m1 a = m2 a) -> f m1 idx = f m2 idx) ->
  new_blocks P [(b2, (n * k)%Z); (b3, k); (b4, (n * k)%Z); (b1, n)] ->
  exists res m', matvecmul A cj checks b1 b2 b3 b4 l [k] f m = BRet (res, m') /\ im_len (v_lay res) = [n] /\ (forall a, is_cell_of res a <-> block b1 n a) /\
    (forall i, 0 <= i < n -> m' (cell res [i]) = sum_to A k (fun q => operand_at cj l m i q * f m [q])%vs) /\
    (forall a, P a -> m' a = m a).
Proof.
  intros Fl Rl Rf (N2 & N3 & N4 & N1 & _). unfold matvecmul. rewrite (operand_fits_shape _ _ _ Fl). unfold nthZ. cbn [nth]. rewrite Z.eqb_refl, expects_true. cbv zeta.
  assert (Ho : is_order 2 [0; 1]%nat) by (unfold is_order; cbn [seq]; reflexivity). change (c_array b1 [n]) with (new_array [0%nat] b1 [n]).
  destruct (as_container_spec cj checks [0; 1]%nat [0; 0] b2 l n k P m Ho ltac:(intros _; destruct l; auto using no_extents) Fl Rl N2) as (x & xr & m1 & -> & FX & XR & VX & U1). cbn [bbind].
  pose proof Fl as (Hn & Hk & In' & Ik & _).
  assert (K1 : forall a, P a -> m1 a = m a) by (intros a Ha; apply U1; intros C; exact (N2 a C Ha)).
  destruct (copy_new1 checks b3 k f m1) as (m2 & -> & VY & U2); [lia| |].
  { intros idx ma mb Hi H. apply Rf; auto. intros a Ha. apply H. intros C. apply (N3 a C). now left. }
  assert (K2 : forall a, P a \/ block b2 (n * k) a -> m2 a = m1 a) by (intros a Ha; apply U2; intros C; exact (N3 a C Ha)).
  assert (VX2 : forall i j, 0 <= i < n -> 0 <= j < k -> mat_at cj x m2 i j = operand_at cj l m i j) by (intros i j Hi Hj; rewrite <- VX by auto; apply (factor_at cj x n k _ _ _ i j FX K2 Hi Hj)).
  assert (FX2 : factor x n k (fun a => (P a \/ block b2 (n * k) a) \/ block b3 k a)) by (eapply factor_weaken; [|exact FX]; cbv beta; tauto).
  assert (G : exists x' m3, (if m_conj x && has_F_layout (m_view x) then make_regular cj checks b4 x xr m2 else BRet (x, m2)) = BRet (x', m3) /\
    factor x' n k (fun a => ((P a \/ block b2 (n * k) a) \/ block b3 k a) \/ block b4 (n * k) a) /\
    (m_conj x' = true -> im_so (v_lay (m_view x')) = [0; 1]%nat) /\
    (forall i j, 0 <= i < n -> 0 <= j < k -> mat_at cj x' m3 i j = mat_at cj x m2 i j) /\ (forall a, ~ block b4 (n * k) a -> m3 a = m2 a)).
  { destruct (m_conj x && has_F_layout (m_view x)) eqn:EC.
    - destruct (make_regular_spec cj checks b4 x xr n k _ m2 Hn Hk FX2 XR N4) as (x' & m3 & -> & F3 & NX & VX3 & U3). exists x', m3. split; [reflexivity|]. split; [exact F3|]. split; [congruence|]. split; assumption.
    - exists x, m2. split; [reflexivity|]. split; [eapply factor_weaken; [|exact FX2]; cbv beta; tauto|]. split; [|split; reflexivity].
      intros Ec. rewrite Ec in EC. cbn [andb] in EC. destruct FX as (B & _ & _). destruct (blas_order _ _ _ B) as [O|O]; [exact O|].
      unfold has_F_layout, is_stride_order_Fortran, rank in EC. rewrite O, (blas_len _ _ _ B) in EC. discriminate EC. }
  destruct G as (x' & m3 & -> & FX3 & CX & VX3 & U3). cbn [bbind].
  assert (K3 : forall a, (P a \/ block b2 (n * k) a) \/ block b3 k a -> m3 a = m2 a) by (intros a Ha; apply U3; intros C; exact (N4 a C Ha)).
  destruct (gemv_spec A cj R checks (v_one A) x' (new_array [0%nat] b3 [k]) (v_zero A) (new_array [0%nat] b1 [n]) m3 n k 1 1) as (m' & -> & Hv & Hu).
  - apply FX3.
  - exact Hk.
  - apply new_vector; [lia|auto].
  - apply new_vector; [lia|auto].
  - lia.
  - lia.
  - auto.
  - exact CX.
  - intros a Ha Ha'. apply new_cells1 in Ha; [|lia]. apply (N1 a Ha). now apply FX3.
  - intros a Ha Ha'. apply new_cells1 in Ha; [|lia]. apply new_cells1 in Ha'; [|lia]. apply (N1 a Ha). tauto.
  - cbn [bbind]. exists (new_array [0%nat] b1 [n]), m'. split; [reflexivity|]. split; [reflexivity|]. split; [intros a; apply new_cells1; lia|]. split.
    + intros i Hi. rewrite Hv by auto. rewrite (sum_to_ext A k _ (fun q => operand_at cj l m i q * f m [q])%vs).
      * ring.
      * intros q Hq. rewrite VX3, VX2 by auto. f_equal. rewrite K3; [|right; apply new_cells1; [lia|]; apply (vector_is_cell _ k 1); [apply new_vector; auto; lia|auto]].
        rewrite VY by auto. apply Rf; [repeat constructor; lia|]. exact K1.
    + intros a Ha. rewrite Hu by (rewrite new_cells1 by lia; intros C; apply (N1 a C); tauto). rewrite K3, K2, K1; auto.
Qed.

(** ** outer_product *)
Lemma reshape1 checks pol a n : In pol [PolC; PolF; PolCStride; PolFStride] -> is_contiguous (v_lay a) = true -> size (v_lay a) = n -> 0 <= n -> int_range n ->
  exists b, reshape checks pol AlgA [0] a [n] = Some b /\ vector_of (snd b) n 1 /\ v_base (snd b) = v_base a.
Proof.
  intros Hp Hc Hs Hn In. unfold reshape, policy_layout. rewrite Hc, Hs. cbn [fold_left negb]. rewrite Z.mul_1_l, Z.eqb_refl. cbn [negb]. rewrite !andb_false_r.
  assert (E : policy_extents pol (length [n]) = [0] /\ policy_order pol (length [n]) = [0%nat]) by (destruct Hp as [<-|[<-|[<-|[<-|[]]]]]; split; reflexivity). destruct E as [E1 E2]. rewrite E1, E2.
  change (static_extents_ok [0] [n]) with true. cbn [negb]. rewrite ?andb_false_r. eexists. split; [reflexivity|]. split; [|reflexivity].
  split; [auto|]. split; [auto|]. split; [unfold int_range; lia|]. repeat split; reflexivity.
Qed.
Lemma reshape2 checks a n k : is_contiguous (v_lay a) = true -> size (v_lay a) = (n * k)%Z -> 1 <= n -> 1 <= k -> int_range n -> int_range k ->
  exists b, reshape checks PolC AlgA [0; 0] a [n; k] = Some b /\ blas_matrix (snd b) n k /\ row_major (snd b) n k k /\ v_base (snd b) = v_base a.
Proof.
  intros Hc Hs Hn Hk In Ik. unfold reshape, policy_layout. rewrite Hc, Hs. cbn [fold_left negb]. rewrite Z.mul_1_l, Z.eqb_refl. cbn [negb]. rewrite !andb_false_r.
  change (static_extents_ok (policy_extents PolC (length [n; k])) [n; k]) with true. cbn [negb]. rewrite ?andb_false_r. eexists. split; [reflexivity|].
  assert (RM : row_major (snd (map_layout_transform AlgA a (idx_map_of_shape (policy_order PolC (length [n; k])) (policy_extents PolC (length [n; k])) (policy_prop PolC) [0; 0] [n; k]))) n k k).
  { repeat split; [|lia]. cbn -[Z.mul]. f_equal; lia. }
  split; [|split; [exact RM|reflexivity]]. split; [lia|]. split; [lia|]. split; [auto|]. split; [auto|]. exists k. split; [auto|]. left. exact RM.
Qed.
Lemma c_new_cell b shape idx : in_range idx shape -> cell (c_array b shape) idx = (b + radix shape idx)%Z.
Proof.
  intros H. apply in_range_length in H. unfold c_array. rewrite new_array_cell; [|apply is_perm_identity|auto]. unfold seq_number. now rewrite !in_order_id'.
Qed.
Lemma identity_contiguous v idx : contiguous_true (v_lay v) -> im_so (v_lay v) = identity (rank (v_lay v)) -> in_view v idx -> cell v idx = (v_base v + radix (im_len (v_lay v)) idx)%Z.
Proof.
  intros Hc Ho Hi. unfold cell. rewrite Hc by exact Hi. unfold seq_number. rewrite Ho. unfold rank. rewrite !in_order_id'; auto. now apply in_range_length in Hi.
Qed.
Lemma outer_product_spec checks base pa pb (a b : view) (m : mem V) :
  usable (v_lay a) -> contiguous_true (v_lay a) -> is_contiguous (v_lay a) = true -> im_so (v_lay a) = identity (rank (v_lay a)) -> In pa [PolC; PolF; PolCStride; PolFStride] ->
  usable (v_lay b) -> contiguous_true (v_lay b) -> is_contiguous (v_lay b) = true -> im_so (v_lay b) = identity (rank (v_lay b)) -> In pb [PolC; PolF; PolCStride; PolFStride] ->
  1 <= prodZ (im_len (v_lay a)) -> 1 <= prodZ (im_len (v_lay b)) -> int_range (prodZ (im_len (v_lay a))) -> int_range (prodZ (im_len (v_lay b))) -> (rank (v_lay a) + rank (v_lay b) < 16)%nat ->
  (forall x, block base (prodZ (im_len (v_lay a)) * prodZ (im_len (v_lay b))) x -> ~ is_cell_of a x /\ ~ is_cell_of b x) ->
  exists m', outer_product A checks base pa pb a b m = BRet (c_array base (im_len (v_lay a) ++ im_len (v_lay b)), m') /\
    (forall i j, in_view a i -> in_view b j -> m' (cell (c_array base (im_len (v_lay a) ++ im_len (v_lay b))) (i ++ j)) = (m (cell a i) * m (cell b j))%vs) /\
    (forall x, ~ block base (prodZ (im_len (v_lay a)) * prodZ (im_len (v_lay b))) x -> m' x = m x).
Proof.
  intros Ua Ca Ia Oa Pa Ub Cb Ib Ob Pb Sa Sb Na Nb Hr Hd. unfold outer_product. rewrite Ia, Ib. cbn [negb].
  set (la := im_len (v_lay a)) in *. set (lb := im_len (v_lay b)) in *. pose proof (usable_wf _ Ua) as Wa. pose proof (usable_wf _ Ub) as Wb.
  assert (Hs : Forall (fun l => 0 <= l) (la ++ lb)) by (apply Forall_app; split; [apply Wa|apply Wb]).
  assert (Hlen : (0 < length (la ++ lb) < 16)%nat) by (rewrite app_length; destruct Wa as (_ & _ & _ & _ & Ha); unfold rank in *; fold la in Ha, Hr; fold lb in Hr; lia).
  pose proof (zeros_spec (v_zero A) (identity (length (la ++ lb))) base (la ++ lb) m (is_perm_identity _) Hs Hlen) as HZ.
  destruct (zeros (v_zero A) (identity (length (la ++ lb))) base (la ++ lb) m) as [res m1]. destruct HZ as (-> & Hz & Hz'). change (new_array (identity (length (la ++ lb))) base (la ++ lb)) with (c_array base (la ++ lb)) in *. cbv zeta.
  rewrite !size_prodZ. fold la lb.
  assert (Hcell : forall x, is_cell_of (c_array base (la ++ lb)) x <-> block base (prodZ la * prodZ lb) x).
  { intros x. unfold c_array. rewrite new_array_cells; [|apply is_perm_identity|auto|auto]. rewrite prodZ_app. reflexivity. }
  pose proof (new_array_usable (identity (length (la ++ lb))) base (la ++ lb) (is_perm_identity _) Hs Hlen) as Ur. fold (c_array base (la ++ lb)) in Ur.
  destruct (reshape1 checks pa a (prodZ la)) as ([alg1 av] & -> & Va & Ba); auto; [apply size_prodZ|lia|]. destruct (reshape1 checks pb b (prodZ lb)) as ([alg2 bv] & -> & Vb & Bb); auto; [apply size_prodZ|lia|].
  destruct (reshape2 checks (c_array base (la ++ lb)) (prodZ la) (prodZ lb)) as ([alg3 mt] & -> & Mm & Rm & Bm); auto.
  { apply P_Slice.C12_declared_contiguous_answers_true; [apply (usable_wf _ Ur)|apply (usable_flags _ Ur)|reflexivity]. } { rewrite size_prodZ. apply prodZ_app. }
  cbn [snd] in *.
  assert (Cmt : forall x, is_cell_of mt x -> block base (prodZ la * prodZ lb) x).
  { intros x (idx & Hi & ->). destruct (in_view2_inv mt _ _ idx (blas_len _ _ _ Mm) Hi) as (i & j & -> & H1 & H2). rewrite (row_major_cell _ _ _ _ _ _ Rm), Bm. cbn [c_array new_array v_base]. unfold block. nia. }
  assert (Cav : forall q, 0 <= q < prodZ la -> cell av [q] = (v_base a + q)%Z) by (intros q Hq; rewrite (vector_cell _ _ _ q Va), Ba; lia).
  assert (Cbv : forall q, 0 <= q < prodZ lb -> cell bv [q] = (v_base b + q)%Z) by (intros q Hq; rewrite (vector_cell _ _ _ q Vb), Bb; lia).
  assert (Da : forall x, is_cell_of av x -> is_cell_of a x). { intros x (idx & Hi & ->). destruct (in_view1_inv av _ idx (vector_len _ _ _ Va) Hi) as (i & -> & H1). rewrite Cav by auto. apply contiguous_cells; auto. fold la. lia. }
  assert (Db : forall x, is_cell_of bv x -> is_cell_of b x). { intros x (idx & Hi & ->). destruct (in_view1_inv bv _ idx (vector_len _ _ _ Vb) Hi) as (i & -> & H1). rewrite Cbv by auto. apply contiguous_cells; auto. fold lb. lia. }
  destruct (ger_spec A cj R checks (v_one A) av bv mt m1 (prodZ la) (prodZ lb) 1 1) as (m' & -> & Hv & Hu); auto; try lia.
  { intros x H1 H2. destruct (Hd x (Cmt x H1)) as [H _]. auto. } { intros x H1 H2. destruct (Hd x (Cmt x H1)) as [_ H]. auto. }
  cbn [bbind]. exists m'. split; [reflexivity|]. split.
  - intros i j Hi Hj. assert (Ri : 0 <= radix la i < prodZ la) by (apply radix_bound, Hi). assert (Rj : 0 <= radix lb j < prodZ lb) by (apply radix_bound, Hj).
    assert (Hij : in_range (i ++ j) (la ++ lb)) by (apply in_range_app; [exact Hi|exact Hj]).
    assert (Ec : cell mt [radix la i; radix lb j] = cell (c_array base (la ++ lb)) (i ++ j)).
    { rewrite (row_major_cell _ _ _ _ _ _ Rm), Bm, c_new_cell by exact Hij. rewrite radix_app by now apply in_range_length in Hi. cbn [c_array new_array v_base]. lia. }
    rewrite <- Ec. rewrite Hv by auto. rewrite Ec. rewrite (Hz (i ++ j)) by exact Hij. rewrite (Cav (radix la i)), (Cbv (radix lb j)) by auto.
    pose proof (identity_contiguous a i Ca Oa Hi) as E1. pose proof (identity_contiguous b j Cb Ob Hj) as E2. fold la in E1. fold lb in E2. rewrite <- E1, <- E2.
    rewrite (Hz' (cell a i)), (Hz' (cell b j)); [ring| |]; rewrite Hcell; intros C; destruct (Hd _ C) as [H1 H2]; [apply H2; exists j; auto|apply H1; exists i; auto].
  - intros x Hx. rewrite Hu by (intros C; exact (Hx (Cmt x C))). apply Hz'. now rewrite Hcell.
Qed.
End Products.
