(** Property C73: the checks of debug builds in the wrappers of BLAS and LAPACK. *)
From Verif Require Import Base M_Perm L_Perm M_IdxMap M_Slice M_Loops M_Assign M_Expr M_Transform M_Blas M_Lapack M_Lsq S_Layout S_Checks L_IdxMap L_Slice L_Layout L_Blas S_Blas P_Expr P_Blas S_Lapack P_Lapack.

(** ** lemmas *)
Lemma last_step_min n v : has_rank n v -> min_stride (v_lay v) = last_step v.
Proof.
  intros [(_ & Hp & _) _]. unfold min_stride, last_step, nthZ, nthN, rank. f_equal. pose proof (is_perm_length _ _ Hp) as L. rewrite <- L.
  generalize (im_so (v_lay v)). intros l. clear. induction l as [|x [|y l] IH]; [reflexivity|reflexivity|]. cbn [length Nat.sub] in *. rewrite Nat.sub_0_r in IH. exact IH.
Qed.
Lemma rank_len2 v : has_rank 2 v -> im_len (v_lay v) = [ext v 0; ext v 1].
Proof. intros [_ L]. unfold ext. destruct (im_len (v_lay v)) as [|a [|b [|c l]]]; try discriminate. reflexivity. Qed.
Lemma rank_len3 v : has_rank 3 v -> im_len (v_lay v) = [ext v 0; ext v 1; ext v 2].
Proof. intros [_ L]. unfold ext. destruct (im_len (v_lay v)) as [|a [|b [|c [|d l]]]]; try discriminate. reflexivity. Qed.
Lemma permuted_rank p n v : is_order n p -> has_rank n v -> has_rank n (View (transpose p (v_lay v)) (v_base v)) /\ last_step (View (transpose p (v_lay v)) (v_base v)) = last_step v.
Proof.
  intros Ho H. assert (H' : has_rank n (View (transpose p (v_lay v)) (v_base v))).
  { destruct H as [W L]. split; [apply transpose_wf; [exact W|]; unfold rank; now rewrite L|]. cbn [v_lay transpose im_len]. rewrite apply_inverse_length. exact (is_perm_length _ _ Ho). }
  split; [exact H'|]. rewrite <- !(last_step_min n) by assumption. cbn [v_lay]. apply transpose_min_stride; [apply H|]. unfold rank. now rewrite (proj2 H).
Qed.
Lemma order_10 : is_order 2 [1; 0]%nat. Proof. apply perm_check_ok; reflexivity. Qed.
Lemma order_021 : is_order 3 [0; 2; 1]%nat. Proof. apply perm_check_ok; reflexivity. Qed.
Lemma transposed_facts v : has_rank 2 v -> let t := snd (transpose_view AlgM v) in has_rank 2 t /\ last_step t = last_step v /\ ext t 0 = ext v 1 /\ ext t 1 = ext v 0.
Proof.
  intros H t. subst t. unfold transpose_view, permuted_indices_view, map_layout_transform. cbn [snd]. destruct (permuted_rank _ 2 v order_10 H) as [H1 H2].
  split; [exact H1|]. split; [exact H2|]. unfold ext. cbn [v_lay transpose im_len]. rewrite (rank_len2 v H). split; reflexivity.
Qed.
Lemma transposed3_facts v : has_rank 3 v -> let t := snd (transposed_view 1 2 AlgA v) in has_rank 3 t /\ last_step t = last_step v /\ ext t 0 = ext v 0 /\ ext t 1 = ext v 2 /\ ext t 2 = ext v 1.
Proof.
  intros H t. subst t. unfold transposed_view, permuted_indices_view, map_layout_transform. cbn [snd]. unfold rank. rewrite (proj2 H). change (transposition 3 1 2) with [0; 2; 1]%nat.
  destruct (permuted_rank _ 3 v order_021 H) as [H1 H2]. split; [exact H1|]. split; [exact H2|]. unfold ext. cbn [v_lay transpose im_len]. rewrite (rank_len3 v H). repeat split; reflexivity.
Qed.
Lemma first_facts v : has_rank 3 v -> exists s, slice_first v = Some s /\ extent s 0 = ext v 1 /\ extent s 1 = ext v 2.
Proof.
  intros H. unfold slice_first, slice_view. destruct H as [W L]. assert (Hok : args_ok (rank (v_lay v)) [ALong 0; AAll; AAll]) by (unfold rank; rewrite L; unfold args_ok, count_ell; cbn; lia).
  rewrite (slice_some _ _ Hok). destruct (slice_impl (v_lay v) [ALong 0; AAll; AAll]) as [off m'] eqn:E. eexists. split; [reflexivity|].
  rewrite slice_impl_expand in E by auto. injection E as _ <-. unfold extent. cbn [v_lay im_len]. rewrite (rank_len3 v (conj W L)). unfold rank. rewrite ?L. split; reflexivity.
Qed.

Lemma checked_expects {T} (P : Prop) (b : bool) (k : bool -> bout T) : (b = true <-> P) -> (P -> k true = k false) -> checked P (fun ck => expects ck b (k ck)).
Proof.
  intros Hb Hk. unfold checked, expects. split; intros H.
  - destruct b; [exfalso; apply H, Hb; reflexivity|reflexivity].
  - rewrite (proj2 Hb H). cbn [andb negb]. now apply Hk.
Qed.
Ltac props := rewrite ?andb_true_iff, ?Z.eqb_eq in *; unfold extent, nthZ, dense in *.

Section Blas.
Context {V : Type} (A : arith V) (cj : V -> V).
Implicit Types (m : mem V).

Lemma gemm_checks_spec a b c : has_rank 2 a -> has_rank 2 b -> has_rank 2 c -> gemm_checks a b c = true <-> product_fits a b c /\ dense a /\ dense b /\ dense c.
Proof.
  intros Ha Hb Hc. unfold gemm_checks. rewrite !(last_step_min 2) by assumption. unfold product_fits, dense. rewrite !andb_true_iff, !Z.eqb_eq. unfold extent, nthZ. fold (ext a 1) (ext a 0) (ext b 0) (ext b 1) (ext c 0) (ext c 1).
  intuition congruence.
Qed.
(** blas::gemm: c = alpha a b + beta c *)
Theorem C73_gemm : forall alpha (x y : mat) beta c m, has_rank 2 (m_view x) -> has_rank 2 (m_view y) -> has_rank 2 c ->
  checked (product_fits (m_view x) (m_view y) c /\ dense (m_view x) /\ dense (m_view y) /\ dense c) (fun ck => gemm A cj ck alpha x y beta c m).
Proof.
  intros alpha x y beta c m Hx Hy Hc. unfold gemm. apply checked_expects; [now apply gemm_checks_spec|]. intros ((F1 & F2 & F3) & D1 & D2 & D3). destruct (has_C_layout c); [|reflexivity].
  destruct (transposed_facts _ Hx) as (X1 & X2 & X3 & X4), (transposed_facts _ Hy) as (Y1 & Y2 & Y3 & Y4), (transposed_facts _ Hc) as (C1 & C2 & C3 & C4).
  assert (E : gemm_checks (m_view (transpose_mat y)) (m_view (transpose_mat x)) (snd (transpose_view AlgM c)) = true).
  { cbn [transpose_mat m_view]. apply gemm_checks_spec; auto. unfold product_fits, dense in *. intuition congruence. }
  rewrite E. reflexivity.
Qed.
(** gemm for other element types and for expressions *)
Theorem C73_gemm_generic : forall fuel alpha sa (a : mem V -> Z -> Z -> V) sb (b : mem V -> Z -> Z -> V) beta matrix c m,
  checked (nth 1 sa 0 = nth 0 sb 0 /\ ext c 0 = nth 0 sa 0 /\ ext c 1 = nth 1 sb 0) (fun ck => gemm_generic A ck fuel alpha sa a sb b beta matrix c m).
Proof.
  intros fuel alpha sa a sb b beta matrix c m. unfold gemm_generic. apply checked_expects; [|reflexivity]. rewrite !andb_true_iff, !Z.eqb_eq. unfold extent, ext, nthZ. intuition congruence.
Qed.
(** blas::gemv: c = alpha a b + beta c.  The vectors have to be dense although the library takes any step. *)
Theorem C73_gemv : forall alpha (x : mat) b beta c m, has_rank 2 (m_view x) -> has_rank 1 b -> has_rank 1 c ->
  checked ((ext (m_view x) 1 = ext b 0 /\ ext c 0 = ext (m_view x) 0) /\ dense (m_view x) /\ dense b /\ dense c) (fun ck => gemv A cj ck alpha x b beta c m).
Proof.
  intros alpha x b beta c m Hx Hb Hc. unfold gemv. apply checked_expects; [|reflexivity]. rewrite (last_step_min 2 _ Hx), (last_step_min 1 _ Hb), (last_step_min 1 _ Hc), !andb_true_iff, !Z.eqb_eq.
  unfold extent, nthZ, dense, ext. intuition congruence.
Qed.
Theorem C73_gemv_generic : forall fuel alpha sa (a : mem V -> Z -> Z -> V) sb (b : mem V -> Z -> V) beta c m,
  checked (nth 1 sa 0 = nth 0 sb 0 /\ ext c 0 = nth 0 sa 0) (fun ck => gemv_generic A ck fuel alpha sa a sb b beta c m).
Proof.
  intros fuel alpha sa a sb b beta c m. unfold gemv_generic. apply checked_expects; [|reflexivity]. rewrite !andb_true_iff, !Z.eqb_eq. unfold extent, ext, nthZ. intuition congruence.
Qed.
(** blas::ger: m += alpha x y^T *)
Theorem C73_ger : forall alpha x y mv m, has_rank 1 x -> has_rank 1 y -> has_rank 2 mv ->
  checked ((ext mv 0 = ext x 0 /\ ext mv 1 = ext y 0) /\ dense mv) (fun ck => ger A ck alpha x y mv m).
Proof.
  intros alpha x y mv m Hx Hy Hm. unfold ger.
  assert (S : forall x y mv, has_rank 2 mv -> ger_checks x y mv = true <-> (ext mv 0 = ext x 0 /\ ext mv 1 = ext y 0) /\ dense mv).
  { clear. intros x y mv H. unfold ger_checks. rewrite (last_step_min 2 _ H), !andb_true_iff, !Z.eqb_eq. unfold extent, nthZ, dense, ext. intuition congruence. }
  apply checked_expects; [now apply S|]. intros ((F1 & F2) & D). destruct (has_C_layout mv); [|reflexivity]. destruct (transposed_facts _ Hm) as (T1 & T2 & T3 & T4).
  assert (E : ger_checks y x (snd (transpose_view AlgM mv)) = true) by (apply S; [exact T1|]; unfold dense in *; intuition congruence).
  rewrite E. reflexivity.
Qed.
(** blas::dot, blas::dotc *)
Theorem C73_dot : forall star x y m, checked (same_shape x y) (fun ck => blas_dot A cj ck star x y m).
Proof.
  intros star x y m. unfold blas_dot. apply checked_expects; [|reflexivity]. unfold same_shape, shape_eqb. destruct (list_eq_dec Z.eq_dec _ _) as [E|E]; split; congruence.
Qed.
Theorem C73_cross_product : forall base sa (a : Z -> V) sb (b : Z -> V) m, checked (nth 0 sa 0 = 3 /\ nth 0 sb 0 = 3) (fun ck => cross_product A ck base sa a sb b m).
Proof.
  intros base sa a sb b m. unfold cross_product. apply checked_expects; [|reflexivity]. rewrite andb_true_iff, !Z.eqb_eq. reflexivity.
Qed.
Theorem C73_matmul_generic : forall fuel b1 so se sl (l : mem V -> Z -> Z -> V) sr (r : mem V -> Z -> Z -> V) m, length se = 2%nat ->
  checked (nth 1 sl 0 = nth 0 sr 0 /\ (nth 0 se 0 = 0 \/ nth 0 se 0 = nth 0 sl 0) /\ (nth 1 se 0 = 0 \/ nth 1 se 0 = nth 1 sr 0))
    (fun ck => matmul_generic A ck fuel b1 so se sl l sr r m).
Proof.
  intros fuel b1 so se sl l sr r m Ls. unfold matmul_generic. destruct se as [|e0 [|e1 [|e2 se]]]; try discriminate. cbn [nth].
  assert (SE : static_extents_ok [e0; e1] [nthZ sl 0; nthZ sr 1] = true <-> (e0 = 0 \/ e0 = nth 0 sl 0) /\ (e1 = 0 \/ e1 = nth 1 sr 0)).
  { unfold static_extents_ok, rank, nthZ. cbn [length seq forallb nth]. rewrite !andb_true_iff, !orb_true_iff, !Z.eqb_eq. tauto. }
  unfold checked, expects. cbn [andb]. split.
  - intros H. destruct (Z.eqb_spec (nthZ sl 1) (nthZ sr 0)) as [E|E]; cbn [negb]; [|reflexivity].
    destruct (static_extents_ok [e0; e1] [nthZ sl 0; nthZ sr 1]) eqn:E2; cbn [negb]; [|reflexivity]. exfalso. apply H. split; [exact E|]. now apply SE.
  - intros [E1 E2]. unfold nthZ at 1 2. rewrite E1, Z.eqb_refl. apply SE in E2. rewrite E2. cbn [negb].
    destruct (C73_gemm_generic fuel (v_one A) sl l sr r (v_zero A) true (new_array so b1 [nthZ sl 0; nthZ sr 1]) m) as [_ H]. rewrite H; [reflexivity|]. split; [exact E1|]. split; reflexivity.
Qed.

(** *** batches *)
Notation triple := (mat * mat * view)%type.
Definition fst_view (t : triple) : view := let '(x, _, _) := t in m_view x.
Definition snd_view (t : triple) : view := let '(_, y, _) := t in m_view y.
Definition out_view (t : triple) : view := let '(_, _, c) := t in c.
Definition fits (t : triple) : Prop := product_fits (fst_view t) (snd_view t) (out_view t).
Definition all_dense (t : triple) : Prop := dense (fst_view t) /\ dense (snd_view t) /\ dense (out_view t).
(** what a batch has to be: every member a product that fits (gemm_vbatch), or one product that fits and all members of its shapes (gemm_batch) *)
Definition batch_fits (vbatch : bool) (l : list triple) : Prop :=
  Forall all_dense l /\
  if vbatch then Forall fits l
  else forall t0, hd_error l = Some t0 -> fits t0 /\ Forall (fun t => same_shape (fst_view t) (fst_view t0) /\ same_shape (snd_view t) (snd_view t0) /\ same_shape (out_view t) (out_view t0)) l.
Definition batch_ranks (l : list triple) : Prop := Forall (fun t => has_rank 2 (fst_view t) /\ has_rank 2 (snd_view t) /\ has_rank 2 (out_view t)) l.

Lemma batch_checks_spec vb l v0 : Forall (has_rank 2) l -> batch_checks vb l v0 = true <-> Forall dense l /\ (vb = false -> Forall (fun v => same_shape v v0) l).
Proof.
  intros H. unfold batch_checks. rewrite forallb_forall, !Forall_forall. rewrite Forall_forall in H.
  assert (S : forall v, In v l -> (vb || shape_eqb (im_len (v_lay v)) (im_len (v_lay v0))) && (min_stride (v_lay v) =? 1) = true <-> dense v /\ (vb = false -> same_shape v v0)).
  { intros v Hv. rewrite (last_step_min 2 _ (H v Hv)), andb_true_iff, orb_true_iff, Z.eqb_eq. unfold dense, same_shape, shape_eqb. destruct (list_eq_dec Z.eq_dec _ _) as [E|E]; destruct vb; intuition congruence. }
  split; intros K.
  - split; [intros v Hv; now apply (S v Hv), K|]. intros E v Hv. now apply (S v Hv); [apply K|].
  - intros v Hv. apply S; [exact Hv|]. split; [now apply K|]. intros E. exact (proj2 K E v Hv).
Qed.
Lemma some_all {X} (a : X) (P : X -> Prop) : (forall t, Some a = Some t -> P t) <-> P a.
Proof. split; [intros H; now apply H|]. intros H t E. congruence. Qed.
Lemma batch_fortran_checked vb alpha beta l m : batch_ranks l -> checked (batch_fits vb l) (fun ck => match gemm_batch_fortran A cj ck vb alpha beta l m with BCompile => BStop | r => r end).
Proof.
  intros H. unfold gemm_batch_fortran. destruct l as [|[[x0 y0] c0] l]; [split; [intros K; exfalso; apply K; split; [constructor|destruct vb; [constructor|discriminate]]|reflexivity]|].
  set (L := (x0, y0, c0) :: l) in *.
  change (map (fun '(x, _, _) => m_view x) L) with (map fst_view L). change (map (fun '(_, y, _) => m_view y) L) with (map snd_view L). change (map (fun '(_, _, c) => c) L) with (map out_view L).
  assert (R1 : Forall (has_rank 2) (map fst_view L)) by (apply Forall_map; eapply Forall_impl; [|exact H]; intros t Ht; apply Ht).
  assert (R2 : Forall (has_rank 2) (map snd_view L)) by (apply Forall_map; eapply Forall_impl; [|exact H]; intros t Ht; apply Ht).
  assert (R3 : Forall (has_rank 2) (map out_view L)) by (apply Forall_map; eapply Forall_impl; [|exact H]; intros t Ht; apply Ht).
  set (bc := batch_checks vb (map fst_view L) (m_view x0) && batch_checks vb (map snd_view L) (m_view y0) && batch_checks vb (map out_view L) c0).
  assert (BC : bc = true <-> Forall all_dense L /\ (vb = false -> Forall (fun t => same_shape (fst_view t) (m_view x0) /\ same_shape (snd_view t) (m_view y0) /\ same_shape (out_view t) c0) L)).
  { subst bc. rewrite !andb_true_iff, !batch_checks_spec by assumption. rewrite !Forall_map. unfold all_dense. rewrite !Forall_forall. split.
    - intros (((A1 & B1) & A2 & B2) & A3 & B3). split; [intros t Ht; auto|]. intros E. specialize (B1 E). specialize (B2 E). specialize (B3 E). intros t Ht. auto.
    - intros (K1 & K2). repeat split; try (intros t Ht; apply K1; exact Ht); intros E; specialize (K2 E); intros t Ht; apply K2; exact Ht. }
  set (vf := forallb (fun '(x, y, c) => (extent (m_view x) 1 =? extent (m_view y) 0) && (extent (m_view x) 0 =? extent c 0) && (extent (m_view y) 1 =? extent c 1)) L).
  assert (VF : vf = true <-> Forall fits L).
  { subst vf. rewrite forallb_forall, Forall_forall. split; intros K t Ht; specialize (K t Ht); destruct t as [[x y] c]; unfold fits, product_fits in *; cbn [fst_view snd_view out_view] in *; rewrite !andb_true_iff, !Z.eqb_eq in *; unfold extent, nthZ, ext in *; intuition congruence. }
  set (bf := (extent (m_view x0) 1 =? extent (m_view y0) 0) && (extent (m_view x0) 0 =? extent c0 0) && (extent (m_view y0) 1 =? extent c0 1)).
  assert (BF : bf = true <-> fits (x0, y0, c0)).
  { subst bf. unfold fits, product_fits. cbn [fst_view snd_view out_view]. rewrite !andb_true_iff, !Z.eqb_eq. unfold extent, ext, nthZ. intuition congruence. }
  cbv zeta. split.
  - intros K. unfold expects. cbn [andb]. destruct bc eqn:Eb; cbn [negb]; [|reflexivity]. destruct (proj1 BC eq_refl) as [D1 D2].
    destruct (get_op (m_conj x0) _) as [oa|]; [|reflexivity]. destruct (get_op (m_conj y0) _) as [ob|]; [|reflexivity]. destruct vb.
    + destruct vf eqn:Ev; cbn [negb]; [|reflexivity]. exfalso. apply K. split; [exact D1|]. now apply VF.
    + destruct bf eqn:Ev; cbn [negb]; [|reflexivity]. exfalso. apply K. split; [exact D1|]. intros t0 Ht. injection Ht as <-. split; [now apply BF|]. exact (D2 eq_refl).
  - intros [D K]. assert (Eb : bc = true). { apply BC. split; [exact D|]. intros ->. exact (proj2 (K _ eq_refl)). }
    rewrite Eb. unfold expects. cbn [andb negb]. destruct (get_op (m_conj x0) _) as [oa|]; [|reflexivity]. destruct (get_op (m_conj y0) _) as [ob|]; [|reflexivity]. destruct vb.
    + rewrite (proj2 VF K). reflexivity.
    + rewrite (proj2 BF (proj1 (K _ eq_refl))). reflexivity.
Qed.
(** gemm_batch and gemm_vbatch; a conjugated factor that the library cannot take (C43) does not compile, which counts as stopping here *)
Theorem C73_gemm_batch : forall vb alpha beta l m, batch_ranks l ->
  checked (batch_fits vb l) (fun ck => match gemm_batch A cj ck vb alpha beta l m with BCompile => BStop | r => r end).
Proof.
  intros vb alpha beta l m H. unfold gemm_batch. destruct l as [|[[x0 y0] c0] l]; [split; [intros K; exfalso; apply K; split; [constructor|destruct vb; [constructor|discriminate]]|reflexivity]|].
  destruct (has_C_layout c0); [|now apply batch_fortran_checked]. set (L := (x0, y0, c0) :: l) in *.
  set (tr := fun '(x, y, c) => (transpose_mat y, transpose_mat x, snd (transpose_view AlgM c))).
  assert (T : forall t, has_rank 2 (fst_view t) /\ has_rank 2 (snd_view t) /\ has_rank 2 (out_view t) ->
     (has_rank 2 (fst_view (tr t)) /\ has_rank 2 (snd_view (tr t)) /\ has_rank 2 (out_view (tr t))) /\ (fits (tr t) <-> fits t) /\ (all_dense (tr t) <-> all_dense t)).
  { intros [[x y] c] (Hx & Hy & Hc). cbn [fst_view snd_view out_view] in *. unfold fits, all_dense, product_fits, dense. cbn [tr fst_view snd_view out_view transpose_mat m_view].
    destruct (transposed_facts _ Hx) as (X1 & X2 & X3 & X4), (transposed_facts _ Hy) as (Y1 & Y2 & Y3 & Y4), (transposed_facts _ Hc) as (C1 & C2 & C3 & C4).
    rewrite X2, Y2, C2, X3, X4, Y3, Y4, C3, C4. intuition congruence. }
  assert (SS : forall u v, has_rank 2 u -> has_rank 2 v -> same_shape (snd (transpose_view AlgM u)) (snd (transpose_view AlgM v)) <-> same_shape u v).
  { intros u v Hu Hv. unfold same_shape. destruct (transposed_facts _ Hu) as (U1 & _ & U3 & U4), (transposed_facts _ Hv) as (W1 & _ & W3 & W4).
    rewrite (rank_len2 _ U1), (rank_len2 _ W1), (rank_len2 _ Hu), (rank_len2 _ Hv), U3, U4, W3, W4. split; intros E; injection E as -> ->; reflexivity. }
  assert (HR : batch_ranks (map tr L)). { unfold batch_ranks in *. rewrite Forall_map. eapply Forall_impl; [|exact H]. intros t Ht. now apply T. }
  assert (BFI : batch_fits vb (map tr L) <-> batch_fits vb L).
  { unfold batch_fits, batch_ranks in *. rewrite Forall_map. rewrite !Forall_forall in *.
    assert (D : (forall t, In t L -> all_dense (tr t)) <-> (forall t, In t L -> all_dense t)) by (split; intros K t Ht; apply (T t (H t Ht)); auto).
    rewrite D. destruct vb.
    - rewrite Forall_map, !(Forall_forall _ L). assert (F : (forall t, In t L -> fits (tr t)) <-> (forall t, In t L -> fits t)) by (split; intros K t Ht; apply (T t (H t Ht)); auto). rewrite F. reflexivity.
    - change (hd_error (map tr L)) with (Some (tr (x0, y0, c0))). change (hd_error L) with (Some (x0, y0, c0)).
      assert (H0 := H (x0, y0, c0) (or_introl eq_refl)). destruct (T _ H0) as (_ & F0 & _).
      rewrite !some_all. split; intros [K1 [K3 K4]]; (split; [now rewrite ?Forall_forall in *|]); (split; [now apply F0|]).
      + rewrite Forall_map, !Forall_forall in *. intros t Ht. specialize (K4 t Ht). specialize (H t Ht). destruct t as [[x y] c]. cbn [tr fst_view snd_view out_view transpose_mat m_view] in *.
        rewrite !SS in K4 by tauto. tauto.
      + rewrite Forall_map, !Forall_forall in *. intros t Ht. specialize (K4 t Ht). specialize (H t Ht). destruct t as [[x y] c]. cbn [tr fst_view snd_view out_view transpose_mat m_view] in *.
        rewrite !SS by tauto. tauto. }
  destruct (batch_fortran_checked vb alpha beta (map tr L) m HR) as [B1 B2]. unfold checked. rewrite <- BFI. split; [exact B1|exact B2].
Qed.

(** gemm_batch_strided: three arrays of rank 3, the first dimension counting the products *)
Definition stack_fits (a b c : view) : Prop :=
  (ext a 0 = ext b 0 /\ ext c 0 = ext a 0) /\ (ext a 2 = ext b 1 /\ ext c 1 = ext a 1 /\ ext c 2 = ext b 2) /\ dense a /\ dense b /\ dense c.
Lemma strided_checks_spec a b c a0 b0 c0 : has_rank 3 a -> has_rank 3 b -> has_rank 3 c -> slice_first a = Some a0 -> slice_first b = Some b0 -> slice_first c = Some c0 ->
  strided_checks a b a0 b0 c c0 = true <-> stack_fits a b c.
Proof.
  intros Ha Hb Hc Ea Eb Ec. destruct (first_facts a Ha) as (a0' & Ea' & A1 & A2), (first_facts b Hb) as (b0' & Eb' & B1 & B2), (first_facts c Hc) as (c0' & Ec' & C1 & C2).
  rewrite Ea in Ea'. rewrite Eb in Eb'. rewrite Ec in Ec'. injection Ea' as <-. injection Eb' as <-. injection Ec' as <-.
  unfold strided_checks, stack_fits, dense. rewrite !(last_step_min 3) by assumption. rewrite A1, A2, B1, B2, C1, C2, !andb_true_iff, !Z.eqb_eq. unfold extent, nthZ. fold (ext a 0) (ext b 0) (ext c 0). intuition congruence.
Qed.
Theorem C73_gemm_batch_strided : forall alpha (x y : mat) beta c m, has_rank 3 (m_view x) -> has_rank 3 (m_view y) -> has_rank 3 c ->
  checked (stack_fits (m_view x) (m_view y) c) (fun ck => gemm_batch_strided A cj ck alpha x y beta c m).
Proof.
  intros alpha x y beta c m Hx Hy Hc. unfold gemm_batch_strided. destruct (first_facts _ Hx) as (a0 & Ea & _), (first_facts _ Hy) as (b0 & Eb & _), (first_facts _ Hc) as (c0 & Ec & _).
  rewrite Ea, Eb, Ec. apply checked_expects; [now apply strided_checks_spec|]. intros ((F1 & F2) & (F3 & F4 & F5) & D1 & D2 & D3). destruct (has_C_layout c); [|reflexivity].
  cbn [m_view]. destruct (transposed3_facts _ Hx) as (X1 & X2 & X3 & X4 & X5), (transposed3_facts _ Hy) as (Y1 & Y2 & Y3 & Y4 & Y5), (transposed3_facts _ Hc) as (C1 & C2 & C3 & C4 & C5).
  destruct (first_facts _ X1) as (a1 & Ea1 & _), (first_facts _ Y1) as (b1 & Eb1 & _), (first_facts _ C1) as (c1 & Ec1 & _). rewrite Ea1, Eb1, Ec1.
  rewrite (proj2 (strided_checks_spec _ _ _ _ _ _ Y1 X1 C1 Eb1 Ea1 Ec1)); [reflexivity|]. unfold stack_fits, dense in *. intuition congruence.
Qed.
End Blas.

Section Lapack.
Context {V : Type} (A : arith V) (is0 : V -> bool) (L : lapack V).
Implicit Types (m : mem V) (a b v : view).

Theorem C73_getrf : forall a m, has_rank 2 a -> checked (dense a) (fun ck => getrf L ck a m).
Proof. intros a m H. unfold getrf. apply checked_expects; [|reflexivity]. rewrite (last_step_min 2 _ H), Z.eqb_eq. reflexivity. Qed.
(** too few pivot indices raise an exception in any build; otherwise the matrix has to be dense *)
Theorem C73_getri : forall a ipiv m, has_rank 2 a ->
  (Z.of_nat (length ipiv) < Z.min (ext a 0) (ext a 1) -> forall ck, getri L ck a ipiv m = BRet (m, None)) /\
  (Z.min (ext a 0) (ext a 1) <= Z.of_nat (length ipiv) -> checked (dense a) (fun ck => getri L ck a ipiv m)).
Proof.
  intros a ipiv m H. unfold getri. change (extent a 0) with (ext a 0). change (extent a 1) with (ext a 1). destruct (Z.ltb_spec (Z.of_nat (length ipiv)) (Z.min (ext a 0) (ext a 1))) as [Hl|Hl].
  - split; [reflexivity|lia].
  - split; [lia|]. intros _. apply checked_expects; [|reflexivity]. rewrite (last_step_min 2 _ H), Z.eqb_eq. reflexivity.
Qed.
Theorem C73_getrs : forall a b ipiv m, has_rank 2 a -> has_rank 2 b -> checked (Z.min (ext a 0) (ext a 1) <= Z.of_nat (length ipiv) /\ dense a /\ dense b) (fun ck => getrs L ck a b ipiv m).
Proof.
  intros a b ipiv m Ha Hb. unfold getrs. change (extent a 0) with (ext a 0). change (extent a 1) with (ext a 1). rewrite (last_step_min 2 _ Ha), (last_step_min 2 _ Hb). unfold checked, expects, dense. cbn [andb].
  destruct (Z.leb_spec (Z.min (ext a 0) (ext a 1)) (Z.of_nat (length ipiv))); cbn [negb]; [|split; [reflexivity|lia]].
  destruct (Z.eqb_spec (last_step a) 1); cbn [andb negb]; [|split; [reflexivity|tauto]]. destruct (Z.eqb_spec (last_step b) 1); cbn [negb]; [|split; [reflexivity|tauto]]. split; [tauto|reflexivity].
Qed.
(** gtsv: the right-hand sides [b], of rank 1 or 2, and the three diagonals *)
Theorem C73_gtsv : forall dl d du b m, checked (ext dl 0 = ext d 0 - 1 /\ ext du 0 = ext d 0 - 1 /\ ext b 0 = ext d 0) (fun ck => gtsv L ck dl d du b m).
Proof.
  intros dl d du b m. unfold gtsv. apply checked_expects; [|reflexivity]. rewrite !andb_true_iff, !Z.eqb_eq. unfold extent, ext, nthZ. tauto.
Qed.
(** gesvd compiles for matrices stored by columns only *)
Theorem C73_gesvd : forall a u vt m, has_rank 2 a -> has_rank 2 u -> has_rank 2 vt ->
  (im_so (v_lay a) = [1; 0]%nat /\ im_so (v_lay u) = [1; 0]%nat /\ im_so (v_lay vt) = [1; 0]%nat -> checked (dense a /\ dense u /\ dense vt) (fun ck => gesvd L ck a u vt m)) /\
  (~ (im_so (v_lay a) = [1; 0]%nat /\ im_so (v_lay u) = [1; 0]%nat /\ im_so (v_lay vt) = [1; 0]%nat) -> forall ck, gesvd L ck a u vt m = BCompile).
Proof.
  intros a u vt m Ha Hu Hv. assert (F : forall v, has_rank 2 v -> has_F_layout v = true <-> im_so (v_lay v) = [1; 0]%nat).
  { intros v [_ Lv]. unfold has_F_layout, is_stride_order_Fortran, rank. rewrite Lv. change (reverse_identity 2) with [1; 0]%nat. destruct (list_eq_dec Nat.eq_dec _ _) as [E|E]; split; congruence. }
  unfold gesvd. split.
  - intros (Oa & Ou & Ov). apply F in Oa, Ou, Ov; try assumption. rewrite Oa, Ou, Ov. cbn [andb negb]. apply checked_expects; [|reflexivity].
    rewrite !(last_step_min 2) by assumption. rewrite !andb_true_iff, !Z.eqb_eq. unfold dense. tauto.
  - intros K ck. destruct (has_F_layout a && has_F_layout u && has_F_layout vt) eqn:E; [|reflexivity]. exfalso. apply K. rewrite !andb_true_iff in E. rewrite <- !F by assumption. tauto.
Qed.
(** so does gelss; the extents of the right-hand sides are not looked at *)
Theorem C73_gelss : forall (G : f77_gelss_t V) a b s rcond m, has_rank 2 a -> has_rank 2 b ->
  (im_so (v_lay a) = [1; 0]%nat /\ im_so (v_lay b) = [1; 0]%nat -> checked (dense a /\ dense b) (fun ck => gelss G ck a b s rcond m)) /\
  (~ (im_so (v_lay a) = [1; 0]%nat /\ im_so (v_lay b) = [1; 0]%nat) -> forall ck, gelss G ck a b s rcond m = BCompile).
Proof.
  intros G a b s rcond m Ha Hb. assert (F : forall v, has_rank 2 v -> has_F_layout v = true <-> im_so (v_lay v) = [1; 0]%nat).
  { intros v [_ Lv]. unfold has_F_layout, is_stride_order_Fortran, rank. rewrite Lv. change (reverse_identity 2) with [1; 0]%nat. destruct (list_eq_dec Nat.eq_dec _ _) as [E|E]; split; congruence. }
  unfold gelss. split.
  - intros (Oa & Ob). apply F in Oa, Ob; try assumption. rewrite Oa, Ob. cbn [andb negb]. rewrite !(last_step_min 2) by assumption. unfold checked, expects, dense. cbn [andb].
    destruct (Z.eqb_spec (last_step a) 1); cbn [negb]; [|split; [reflexivity|tauto]]. destruct (Z.eqb_spec (last_step b) 1); cbn [negb]; [|split; [reflexivity|tauto]]. split; [tauto|reflexivity].
  - intros K ck. destruct (has_F_layout a && has_F_layout b) eqn:E; [|reflexivity]. exfalso. apply K. rewrite !andb_true_iff in E. rewrite <- !F by assumption. tauto.
Qed.

(** the determinant: of a matrix with elements that is square, the matrix has to be dense *)
Theorem C73_determinant : forall v m, has_rank 2 v -> checked (ext v 0 * ext v 1 = 0 \/ ext v 0 <> ext v 1 \/ dense v) (fun ck => determinant_in_place A L ck v m).
Proof.
  intros v m H. unfold determinant_in_place. rewrite size_prodZ, (rank_len2 v H), !prodZ_cons, prodZ_nil, Z.mul_1_r. change (extent v 0) with (ext v 0). change (extent v 1) with (ext v 1).
  destruct (C73_getrf v m H) as [G1 G2]. destruct (Z.eqb_spec (ext v 0 * ext v 1) 0); [split; [tauto|reflexivity]|]. destruct (Z.eqb_spec (ext v 0) (ext v 1)); cbn [negb]; [|split; [tauto|reflexivity]].
  split; intros K; [rewrite G1 by tauto; reflexivity|]. rewrite G2; [reflexivity|tauto].
Qed.
(** the inverse: the matrix is square, and dense from 4 rows on *)
Theorem C73_inverse : forall v m, has_rank 2 v -> checked (ext v 0 = ext v 1 /\ (4 <= ext v 0 -> dense v)) (fun ck => inverse_in_place A is0 L ck v m).
Proof.
  intros v m H. unfold inverse_in_place. change (extent v 0) with (ext v 0). change (extent v 1) with (ext v 1). rewrite size_prodZ, (rank_len2 v H), !prodZ_cons, prodZ_nil, Z.mul_1_r.
  assert (N : 0 <= ext v 0). { destruct H as [(_ & _ & _ & Hn & _) Lv]. unfold ext. destruct (im_len (v_lay v)) as [|x l]; [discriminate|]. inversion Hn; subst. assumption. }
  destruct (C73_getrf v m H) as [G1 G2]. unfold checked, expects at 1 3. cbn [andb].
  destruct (Z.eqb_spec (ext v 0) (ext v 1)) as [E|E]; cbn [negb]; [|split; [reflexivity|tauto]]. unfold expects. cbn [andb]. rewrite <- E.
  destruct (Z.eqb_spec (ext v 0 * ext v 0) 0); [split; [|reflexivity]; intros K; exfalso; apply K; split; [reflexivity|nia]|].
  destruct (Z.eqb_spec (ext v 0) 1); [split; [|reflexivity]; intros K; exfalso; apply K; split; [reflexivity|lia]|].
  destruct (Z.eqb_spec (ext v 0) 2); [split; [|reflexivity]; intros K; exfalso; apply K; split; [reflexivity|lia]|].
  destruct (Z.eqb_spec (ext v 0) 3); [split; [|reflexivity]; intros K; exfalso; apply K; split; [reflexivity|lia]|].
  assert (H4 : 4 <= ext v 0) by nia. split; intros K; [rewrite G1 by tauto; reflexivity|]. assert (D : dense v) by (now apply K). rewrite G2 by exact D.
  destruct (getrf L false v m) as [[m' [ipiv info]]| |]; cbn [bbind]; [|reflexivity|reflexivity]. destruct (negb (info =? 0)); [reflexivity|].
  destruct (C73_getri v ipiv m' H) as [I1 I2]. destruct (Z.le_gt_cases (Z.min (ext v 0) (ext v 1)) (Z.of_nat (length ipiv))) as [Hp|Hp]; [|now rewrite !I1 by lia].
  destruct (I2 Hp) as [_ I3]. now rewrite I3.
Qed.
(** eigenvalues and eigenvectors: not empty, square, and with the extents and steps of a matrix without gaps *)
Theorem C73_eigen : forall vectors v m, has_rank 2 v ->
  checked (ext v 0 * ext v 1 <> 0 /\ ext v 0 = ext v 1 /\ Z.max (nth 0 (im_str (v_lay v)) 0 * ext v 0) (nth 1 (im_str (v_lay v)) 0 * ext v 1) = ext v 0 * ext v 1)
    (fun ck => eigen_element_impl L ck vectors v m).
Proof.
  intros vectors v m H. unfold eigen_element_impl. apply checked_expects; [|reflexivity]. unfold is_contiguous. rewrite size_prodZ, (rank_len2 v H), !prodZ_cons, prodZ_nil, Z.mul_1_r.
  change (extent v 0) with (ext v 0). change (extent v 1) with (ext v 1). rewrite !andb_true_iff, negb_true_iff, Z.eqb_neq, Z.eqb_eq.
  assert (M : max_element (arr_mul (im_str (v_lay v)) [ext v 0; ext v 1]) = Z.max (nth 0 (im_str (v_lay v)) 0 * ext v 0) (nth 1 (im_str (v_lay v)) 0 * ext v 1)).
  { destruct H as [(Ls & _) Lv]. rewrite Lv in Ls. unfold arr_mul. rewrite Ls. cbn [seq map]. unfold nthZ. cbn [nth]. unfold max_element. cbn [fold_left]. match goal with |- context [?a <? ?b] => destruct (Z.ltb_spec a b) end; lia. }
  destruct (Z.eqb_spec (ext v 0 * ext v 1) 0); [tauto|]. rewrite Z.eqb_eq, M. tauto.
Qed.
End Lapack.
Print Assumptions C73_gemm.
Print Assumptions C73_gemm_generic.
Print Assumptions C73_gemv.
Print Assumptions C73_gemv_generic.
Print Assumptions C73_ger.
Print Assumptions C73_dot.
Print Assumptions C73_cross_product.
Print Assumptions C73_matmul_generic.
Print Assumptions C73_gemm_batch.
Print Assumptions C73_gemm_batch_strided.
Print Assumptions C73_getrf.
Print Assumptions C73_getri.
Print Assumptions C73_getrs.
Print Assumptions C73_gtsv.
Print Assumptions C73_gesvd.
Print Assumptions C73_gelss.
Print Assumptions C73_determinant.
Print Assumptions C73_inverse.
Print Assumptions C73_eigen.

(** ** non-vacuity: arguments that meet the preconditions, and arguments that miss one of them *)
Lemma ex_rank n v : length (im_len (v_lay v)) = n -> length (im_str (v_lay v)) = n -> perm_check n (im_so (v_lay v)) = true -> length (im_se (v_lay v)) = n ->
  forallb (fun l => 0 <=? l) (im_len (v_lay v)) = true -> (0 < n < 16)%nat -> has_rank n v.
Proof.
  intros H1 H2 H3 H4 H5 H6. split; [|exact H1]. split; [congruence|]. rewrite H1. split; [now apply perm_check_ok|]. split; [exact H4|]. split; [|exact H6].
  rewrite forallb_forall in H5. rewrite Forall_forall. intros x Hx. specialize (H5 x Hx). lia.
Qed.
Ltac rk := apply ex_rank; [reflexivity|reflexivity|reflexivity|reflexivity|reflexivity|lia].
(** a 2 by 3 matrix stored by rows in rows of 4, a 3 by 2 and a 2 by 2 matrix stored by columns, and a 2 by 3 matrix of every second element *)
Definition ck_a := ex_view [0; 1]%nat [2; 3] [4; 1] 0.
Definition ck_b := ex_view [1; 0]%nat [3; 2] [1; 3] 10.
Definition ck_c := ex_view [1; 0]%nat [2; 2] [1; 2] 20.
Definition ck_g := ex_view [0; 1]%nat [2; 3] [6; 2] 30.
Example C73_gemm_ex : has_rank 2 ck_a /\ has_rank 2 ck_b /\ has_rank 2 ck_c /\ has_rank 2 ck_g /\
  (product_fits ck_a ck_b ck_c /\ dense ck_a /\ dense ck_b /\ dense ck_c) /\ product_fits ck_g ck_b ck_c /\ ~ dense ck_g /\ ~ product_fits ck_a ck_a ck_c /\
  (exists m', gemm Z_arith (fun z => z) true 1 (Mat false ck_a) (Mat false ck_b) 0 ck_c (fun q => q) = BRet m' /\ m' 20 = 0 * 10 + 1 * 11 + 2 * 12) /\
  gemm Z_arith (fun z => z) true 1 (Mat false ck_g) (Mat false ck_b) 0 ck_c (fun q => q) = BStop /\
  (exists m', gemm Z_arith (fun z => z) false 1 (Mat false ck_g) (Mat false ck_b) 0 ck_c (fun q => q) = BRet m').
Proof.
  split; [rk|]. split; [rk|]. split; [rk|]. split; [rk|]. split; [repeat split|]. split; [repeat split|]. split; [discriminate|]. split; [intros (E & _); discriminate|].
  split; [eexists; split; reflexivity|]. split; [reflexivity|]. eexists. reflexivity.
Qed.
(** two products of different shapes are a gemm_vbatch but no gemm_batch *)
Definition ck_batch : list (mat * mat * view) := [(Mat false ck_a, Mat false ck_b, ck_c); (Mat false ck_b, Mat false ck_a, ex_view [1; 0]%nat [3; 3] [1; 3] 40)].
Example C73_batch_ex : batch_ranks ck_batch /\ batch_fits true ck_batch /\ ~ batch_fits false ck_batch /\ batch_fits false [(Mat false ck_a, Mat false ck_b, ck_c)].
Proof.
  assert (D : Forall all_dense ck_batch) by (repeat (apply Forall_cons); try apply Forall_nil; repeat split). split; [|split; [|split]].
  - repeat (apply Forall_cons); try apply Forall_nil; (split; [rk|split; rk]).
  - split; [exact D|]. repeat (apply Forall_cons); try apply Forall_nil; repeat split.
  - intros [_ K]. destruct (K _ eq_refl) as [_ K']. inversion K' as [|? ? _ K1]; subst. inversion K1 as [|? ? (S & _) _]; subst. discriminate S.
  - split; [inversion D; subst; constructor; [assumption|constructor]|]. intros t0 E. injection E as <-. split; [repeat split|]. constructor; [repeat split|constructor].
Qed.
Example C73_stack_ex : stack_fits (c_array 0 [2; 1; 3]) (c_array 10 [2; 3; 2]) (c_array 30 [2; 1; 2]) /\ ~ stack_fits (c_array 0 [2; 1; 3]) (c_array 10 [1; 3; 2]) (c_array 30 [2; 1; 2]) /\
  has_rank 3 (c_array 0 [2; 1; 3]) /\ gemm_batch_strided Z_arith (fun z => z) true 1 (Mat false (c_array 0 [2; 1; 3])) (Mat false (c_array 10 [1; 3; 2])) 0 (c_array 30 [2; 1; 2]) (fun q => q) = BStop.
Proof. split; [repeat split|]. split; [intros ((E & _) & _); discriminate|]. split; [rk|reflexivity]. Qed.
(** a 2 by 2 matrix in columns of 3 is no argument for the eigenvalues, one without gaps is *)
Example C73_eigen_ex : let v := ex_view [1; 0]%nat [2; 2] [1; 2] 0 in let w := ex_view [1; 0]%nat [2; 2] [1; 3] 0 in has_rank 2 v /\ has_rank 2 w /\
  Z.max (nth 0 (im_str (v_lay v)) 0 * ext v 0) (nth 1 (im_str (v_lay v)) 0 * ext v 1) = ext v 0 * ext v 1 /\
  (forall m, eigen_element_impl B_lapack true false w m = BStop) /\ dense w.
Proof. split; [rk|]. split; [rk|]. split; [reflexivity|]. split; [reflexivity|reflexivity]. Qed.
