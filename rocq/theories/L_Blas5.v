(** Proofs about batches. *)
From Verif Require Import Base M_Perm M_IdxMap M_Slice M_Loops M_Assign M_Expr M_Transform M_Blas S_Layout S_Loops S_Assign S_Expr S_Transform S_Blas
  L_Perm L_IdxMap L_Slice L_Layout L_Loops L_Assign L_Expr L_Transform L_Factory L_SymGrp L_Blas L_Blas2 L_Blas3.

Lemma layout_same v w r c r' c' : blas_matrix v r c -> blas_matrix w r' c' -> same_order v w -> has_C_layout v = has_C_layout w /\ has_F_layout v = has_F_layout w.
Proof.
  intros Hv Hw E. unfold has_C_layout, has_F_layout, is_stride_order_C, is_stride_order_Fortran, rank. rewrite (blas_len _ _ _ Hv), (blas_len _ _ _ Hw). unfold same_order in E. now rewrite E.
Qed.
Lemma transpose_triple (t : triple) r k n x y c : t = (x, y, c) -> blas_matrix (m_view x) r k -> blas_matrix (m_view y) k n -> blas_matrix c r n ->
  blas_matrix (m_view (transpose_mat y)) n k /\ blas_matrix (m_view (transpose_mat x)) k r /\ blas_matrix (snd (transpose_view AlgM c)) n r.
Proof. intros -> Hx Hy Hc. cbn [transpose_mat m_view]. split; [now apply blas_transpose|]. split; now apply blas_transpose. Qed.
Definition tr (t : triple) : triple := let '(x, y, c) := t in (transpose_mat y, transpose_mat x, snd (transpose_view AlgM c)).
Lemma tr_fits t : triple_fits t -> triple_fits (tr t).
Proof. destruct t as [[x y] c]. intros (r & k & n & Hx & Hy & Hc). exists n, k, r. now apply (transpose_triple (x, y, c) r k n). Qed.
Lemma transpose_same_order' v w : same_order v w -> im_len (v_lay v) = im_len (v_lay v) -> same_order (snd (transpose_view AlgM v)) (snd (transpose_view AlgM w)).
Proof. intros E _. unfold same_order in *. cbn. now rewrite E. Qed.
Lemma transpose_order v r c : blas_matrix v r c -> im_so (v_lay (snd (transpose_view AlgM v))) = rev (im_so (v_lay v)).
Proof.
  intros (_ & _ & _ & _ & ld & _ & [H|H]).
  - pose proof (row_major_transpose _ _ _ _ H) as H'. destruct H as (_ & -> & _), H' as (_ & -> & _). reflexivity.
  - pose proof (column_major_transpose _ _ _ _ H) as H'. destruct H as (_ & -> & _), H' as (_ & -> & _). reflexivity.
Qed.
Lemma transpose_strides v r c s0 s1 : blas_matrix v r c -> im_str (v_lay v) = [s0; s1] -> im_str (v_lay (snd (transpose_view AlgM v))) = [s1; s0].
Proof.
  intros (_ & _ & _ & _ & ld & _ & [H|H]) E.
  - pose proof (row_major_transpose _ _ _ _ H) as H'. destruct H as (_ & _ & H & _), H' as (_ & _ & -> & _). congruence.
  - pose proof (column_major_transpose _ _ _ _ H) as H'. destruct H as (_ & _ & H & _), H' as (_ & _ & -> & _). congruence.
Qed.
Lemma same_order_transpose v w r c r' c' : blas_matrix v r c -> blas_matrix w r' c' -> same_order v w -> same_order (snd (transpose_view AlgM v)) (snd (transpose_view AlgM w)).
Proof. intros Hv Hw E. unfold same_order in *. rewrite (transpose_order _ _ _ Hv), (transpose_order _ _ _ Hw). now rewrite E. Qed.
Lemma same_sizes_transpose v w r c r' c' : blas_matrix v r c -> blas_matrix w r' c' -> im_len (v_lay v) = im_len (v_lay w) /\ im_str (v_lay v) = im_str (v_lay w) ->
  im_len (v_lay (snd (transpose_view AlgM v))) = im_len (v_lay (snd (transpose_view AlgM w))) /\ im_str (v_lay (snd (transpose_view AlgM v))) = im_str (v_lay (snd (transpose_view AlgM w))).
Proof.
  intros Hv Hw [E1 E2]. rewrite (blas_len _ _ _ (blas_transpose _ _ _ Hv)), (blas_len _ _ _ (blas_transpose _ _ _ Hw)). rewrite (blas_len _ _ _ Hv), (blas_len _ _ _ Hw) in E1. injection E1 as -> ->. split; [reflexivity|].
  assert (S2 : exists s0 s1, im_str (v_lay w) = [s0; s1]) by (destruct Hw as (_ & _ & _ & _ & ld & _ & [H|H]); destruct H as (_ & _ & H & _); eauto).
  destruct S2 as (s0 & s1 & Es). rewrite Es in E2. rewrite (transpose_strides _ _ _ _ _ Hv E2), (transpose_strides _ _ _ _ _ Hw Es). reflexivity.
Qed.
Lemma tr_kind t0 t : triple_fits t0 -> triple_fits t -> same_kind t0 t -> same_kind (tr t0) (tr t).
Proof.
  destruct t0 as [[x0 y0] c0], t as [[x y] c]. intros (r0 & k0 & n0 & X0 & Y0 & C0) (r & k & n & X & Y & C) (E1 & E2 & O1 & O2 & O3). cbn [tr same_kind transpose_mat m_view m_conj].
  split; [auto|]. split; [auto|]. split; [eapply same_order_transpose; eauto|]. split; eapply same_order_transpose; eauto.
Qed.
Lemma tr_sizes t0 t : triple_fits t0 -> triple_fits t -> same_sizes t0 t -> same_sizes (tr t0) (tr t).
Proof.
  destruct t0 as [[x0 y0] c0], t as [[x y] c]. intros (r0 & k0 & n0 & X0 & Y0 & C0) (r & k & n & X & Y & C) (O1 & O2 & O3). cbn [tr same_sizes transpose_mat m_view].
  split; [eapply same_sizes_transpose; eauto|]. split; eapply same_sizes_transpose; eauto.
Qed.

(** ** stacks of matrices *)
Lemma stacked_spec v b r c s : stack_of v b r c s -> forall q, exists w, stacked v q = Some w /\ blas_matrix w r c /\ v_base w = v_base v + q * s /\
  has_C_layout w = has_C_layout v /\ (forall i j, cell w [i; j] = cell v [q; i; j]) /\ (forall w0, stacked v 0 = Some w0 -> same_order w w0 /\ im_len (v_lay w) = im_len (v_lay w0) /\ im_str (v_lay w) = im_str (v_lay w0)).
Proof.
  intros (Hb & Hr & Hc & Ib & Ir & Ic & Is & El & ld & Il & H) q. destruct v as [[len str so se pr] base]. cbn [v_lay v_base im_len im_so im_str] in *. subst len.
  destruct H as [(Eo & Es & Hl)|(Eo & Es & Hl)]; subst so str.
  - eexists. split; [reflexivity|]. split; [|split; [|split; [|split]]].
    + split; [auto|]. split; [auto|]. split; [auto|]. split; [auto|]. exists ld. split; [auto|]. left. repeat split; auto.
    + cbn -[Z.mul Z.add]. lia.
    + reflexivity.
    + intros i j. unfold cell, addr. cbn -[Z.mul Z.add]. lia.
    + intros w0 E. injection E as <-. repeat split; reflexivity.
  - eexists. split; [reflexivity|]. split; [|split; [|split; [|split]]].
    + split; [auto|]. split; [auto|]. split; [auto|]. split; [auto|]. exists ld. split; [auto|]. right. repeat split; auto.
    + cbn -[Z.mul Z.add]. lia.
    + reflexivity.
    + intros i j. unfold cell, addr. cbn -[Z.mul Z.add]. lia.
    + intros w0 E. injection E as <-. repeat split; reflexivity.
Qed.

Section Batch.
Context {V : Type} (A : arith V) (cj : V -> V).

Lemma one_by_one_ext (f g : triple -> mem V -> bout (mem V)) l m : (forall t m, In t l -> f t m = g t m) -> one_by_one f l m = one_by_one g l m.
Proof. intros H. apply fold_left_ext_in. intros st t Ht. destruct st; cbn [bbind]; auto. Qed.

Lemma gemm_as_fortran checks alpha beta x y c (m : mem V) : triple_fits (x, y, c) ->
  gemm A cj checks alpha x y beta c m = if has_C_layout c then (let '(x', y', c') := tr (x, y, c) in gemm_fortran A cj alpha x' y' beta c' m) else gemm_fortran A cj alpha x y beta c m.
Proof.
  intros (r & k & n & Hx & Hy & Hc). unfold gemm. rewrite (gemm_checks_ok _ _ _ r k n) by auto. rewrite expects_true. destruct (has_C_layout c); [|reflexivity]. cbv zeta. cbn [tr].
  rewrite (gemm_checks_ok _ _ _ n k r) by (cbn [transpose_mat m_view]; now apply blas_transpose). apply expects_true.
Qed.
Lemma shape_eqb_refl l : shape_eqb l l = true.
Proof. unfold shape_eqb. destruct (list_eq_dec _ _ _); congruence. Qed.

Lemma gemm_batch_fortran_loop checks vbatch alpha beta l (m : mem V) : (forall t, In t l -> triple_fits t) -> (forall t0 t, hd_error l = Some t0 -> In t l -> same_kind t0 t) ->
  (vbatch = false -> forall t0 t, hd_error l = Some t0 -> In t l -> same_sizes t0 t) ->
  (forall x0 y0 c0, hd_error l = Some (x0, y0, c0) -> get_op (m_conj x0) (has_C_layout (m_view x0)) <> None /\ get_op (m_conj y0) (has_C_layout (m_view y0)) <> None) ->
  gemm_batch_fortran A cj checks vbatch alpha beta l m = one_by_one (fun t => let '(x, y, c) := t in gemm_fortran A cj alpha x y beta c) l m.
Proof.
  intros HF HK HS HO. destruct l as [|[[x0 y0] c0] l']; [reflexivity|]. unfold gemm_batch_fortran. remember ((x0, y0, c0) :: l') as l eqn:El. assert (Eh : hd_error l = Some (x0, y0, c0)) by now rewrite El.
  assert (I0 : In (x0, y0, c0) l) by (rewrite El; now left). specialize (HK (x0, y0, c0)). destruct (HF _ I0) as (r0 & k0 & n0 & X0 & Y0 & C0). destruct (HO x0 y0 c0 Eh) as [O1 O2].
  assert (CK : batch_checks vbatch (map (fun '(x, _, _) => m_view x) l) (m_view x0) && batch_checks vbatch (map (fun '(_, y, _) => m_view y) l) (m_view y0) && batch_checks vbatch (map (fun '(_, _, c) => c) l) c0 = true).
  { rewrite !andb_true_iff. unfold batch_checks. rewrite !forallb_forall. split; [split|]; intros z Hz; apply in_map_iff in Hz; destruct Hz as ([[x y] c] & <- & Ht);
      destruct (HF _ Ht) as (r & k & n & X & Y & C); rewrite ?(min_stride_blas _ _ _ X), ?(min_stride_blas _ _ _ Y), ?(min_stride_blas _ _ _ C), andb_true_iff; (split; [|reflexivity]);
      (destruct vbatch; [reflexivity|]); destruct (HS eq_refl (x0, y0, c0) (x, y, c) Eh Ht) as ((E1 & _) & (E2 & _) & (E3 & _)); rewrite ?E1, ?E2, ?E3; apply shape_eqb_refl. }
  rewrite CK, expects_true. destruct (get_op (m_conj x0) (has_C_layout (m_view x0))) as [oa|] eqn:Ea; [|congruence]. destruct (get_op (m_conj y0) (has_C_layout (m_view y0))) as [ob|] eqn:Eb; [|congruence].
  assert (OP : forall x y c, In (x, y, c) l -> get_op (m_conj x) (has_C_layout (m_view x)) = Some oa /\ get_op (m_conj y) (has_C_layout (m_view y)) = Some ob).
  { intros x y c Ht. destruct (HK (x, y, c) Eh Ht) as (-> & -> & S1 & S2 & _). destruct (HF _ Ht) as (r & k & n & X & Y & C).
    destruct (layout_same _ _ _ _ _ _ X X0 S1) as [-> _]. destruct (layout_same _ _ _ _ _ _ Y Y0 S2) as [-> _]. auto. }
  destruct vbatch.
  - replace (forallb _ l) with true.
    2: { symmetry. apply forallb_forall. intros [[x y] c] Ht. destruct (HF _ Ht) as (r & k & n & X & Y & C). unfold extent. rewrite (blas_len _ _ _ X), (blas_len _ _ _ Y), (blas_len _ _ _ C). unfold nthZ. cbn [nth]. now rewrite !Z.eqb_refl. }
    rewrite expects_true. unfold f77_gemm_vbatch, one_by_one. rewrite fold_left_map. apply fold_left_ext_in. intros st [[x y] c] Ht. destruct st as [m'| |]; cbn [bbind]; [|reflexivity|reflexivity].
    destruct (OP x y c Ht) as [E1 E2]. unfold gemm_fortran. rewrite E1, E2. reflexivity.
  - unfold extent at 1 2 3 4 5 6. rewrite (blas_len _ _ _ X0), (blas_len _ _ _ Y0), (blas_len _ _ _ C0). unfold nthZ at 1 2 3 4 5 6. cbn [nth]. rewrite !Z.eqb_refl, expects_true.
    unfold f77_gemm_batch, one_by_one. rewrite fold_left_map. apply fold_left_ext_in. intros st [[x y] c] Ht. destruct st as [m'| |]; cbn [bbind]; [|reflexivity|reflexivity].
    destruct (OP x y c Ht) as [E1 E2]. unfold gemm_fortran. rewrite E1, E2.
    destruct (HS eq_refl (x0, y0, c0) (x, y, c) Eh Ht) as ((L1 & S1) & (L2 & S2) & (L3 & S3)). destruct (HK (x, y, c) Eh Ht) as (_ & _ & Q1 & Q2 & Q3). destruct (HF _ Ht) as (r & k & n & X & Y & C).
    unfold extent, get_ld. rewrite L1, L2, S1, S2, S3.
    destruct (layout_same _ _ _ _ _ _ X X0 Q1) as [_ ->]. destruct (layout_same _ _ _ _ _ _ Y Y0 Q2) as [_ ->]. destruct (layout_same _ _ _ _ _ _ C C0 Q3) as [_ ->]. reflexivity.
Qed.
Lemma conj_get_op x c r k r' n : blas_matrix (m_view x) r k -> blas_matrix c r' n -> has_C_layout c = false -> conj_allowed x c -> get_op (m_conj x) (has_C_layout (m_view x)) <> None.
Proof.
  intros Hx Hc E C. unfold get_op. destruct (m_conj x) eqn:Ec; [|discriminate]. destruct (has_C_layout (m_view x)) eqn:Ex; [discriminate|]. exfalso. apply (C Ec). unfold same_order.
  unfold has_C_layout, is_stride_order_C, rank in E, Ex. rewrite (blas_len _ _ _ Hx) in Ex. rewrite (blas_len _ _ _ Hc) in E.
  destruct (blas_order _ _ _ Hx) as [O|O]; rewrite O in Ex |- *; [discriminate Ex|]. destruct (blas_order _ _ _ Hc) as [O'|O']; rewrite O' in E |- *; [discriminate E|reflexivity].
Qed.
Lemma conj_allowed_transpose x c r k r' n : blas_matrix (m_view x) r k -> blas_matrix c r' n -> conj_allowed x c -> conj_allowed (transpose_mat x) (snd (transpose_view AlgM c)).
Proof. intros Hx Hc C E S. apply (C E). cbn [transpose_mat m_view] in S. exact (transpose_same_order (m_view x) c r k r' n Hx Hc S). Qed.

Lemma gemm_batch_loop checks vbatch alpha beta l (m : mem V) : (forall t, In t l -> triple_fits t) -> (forall t0 t, hd_error l = Some t0 -> In t l -> same_kind t0 t) ->
  (vbatch = false -> forall t0 t, hd_error l = Some t0 -> In t l -> same_sizes t0 t) ->
  (forall x0 y0 c0, hd_error l = Some (x0, y0, c0) -> conj_allowed x0 c0 /\ conj_allowed y0 c0) ->
  gemm_batch A cj checks vbatch alpha beta l m = one_by_one (fun t => let '(x, y, c) := t in gemm A cj checks alpha x y beta c) l m.
Proof.
  intros HF HK HS HC. destruct l as [|[[x0 y0] c0] l']; [reflexivity|]. unfold gemm_batch. remember ((x0, y0, c0) :: l') as l eqn:El. assert (Eh : hd_error l = Some (x0, y0, c0)) by now rewrite El.
  assert (I0 : In (x0, y0, c0) l) by (rewrite El; now left). destruct (HF _ I0) as (r0 & k0 & n0 & X0 & Y0 & C0). destruct (HC x0 y0 c0 Eh) as [O1 O2].
  assert (LC : forall x y c, In (x, y, c) l -> has_C_layout c = has_C_layout c0).
  { intros x y c Ht. destruct (HK (x0, y0, c0) (x, y, c) Eh Ht) as (_ & _ & _ & _ & S). destruct (HF _ Ht) as (r & k & n & _ & _ & C). apply (layout_same _ _ _ _ _ _ C C0 S). }
  destruct (has_C_layout c0) eqn:Ec.
  - change (map (fun '(x, y, c) => (transpose_mat y, transpose_mat x, snd (transpose_view AlgM c))) l) with (map tr l).
    rewrite gemm_batch_fortran_loop.
    + unfold one_by_one. rewrite fold_left_map. apply fold_left_ext_in. intros st [[x y] c] Ht. destruct st as [m'| |]; cbn [bbind]; [|reflexivity|reflexivity].
      rewrite gemm_as_fortran by auto. rewrite (LC x y c Ht). reflexivity.
    + intros t Ht. apply in_map_iff in Ht. destruct Ht as (t' & <- & Ht'). apply tr_fits. auto.
    + intros t0 t E Ht. apply in_map_iff in Ht. destruct Ht as (t' & <- & Ht'). rewrite El in E. injection E as <-. apply (tr_kind (x0, y0, c0)); auto.
    + intros Ev t0 t E Ht. apply in_map_iff in Ht. destruct Ht as (t' & <- & Ht'). rewrite El in E. injection E as <-. apply (tr_sizes (x0, y0, c0)); auto.
    + intros x1 y1 c1 E. rewrite El in E. injection E as <- <- <-.
      assert (Ec' : has_C_layout (snd (transpose_view AlgM c0)) = false).
      { unfold has_C_layout, is_stride_order_C, rank in *. rewrite (blas_len _ _ _ (blas_transpose _ _ _ C0)), (transpose_order _ _ _ C0). rewrite (blas_len _ _ _ C0) in Ec.
        destruct (blas_order _ _ _ C0) as [O|O]; rewrite O in Ec |- *; [reflexivity|discriminate Ec]. }
      split.
      * apply (conj_get_op _ (snd (transpose_view AlgM c0)) n0 k0 n0 r0); auto; [apply (blas_transpose _ _ _ Y0)|apply (blas_transpose _ _ _ C0)|exact (conj_allowed_transpose y0 c0 k0 n0 r0 n0 Y0 C0 O2)].
      * apply (conj_get_op _ (snd (transpose_view AlgM c0)) k0 r0 n0 r0); auto; [apply (blas_transpose _ _ _ X0)|apply (blas_transpose _ _ _ C0)|exact (conj_allowed_transpose x0 c0 r0 k0 r0 n0 X0 C0 O1)].
  - rewrite gemm_batch_fortran_loop; auto.
    + apply one_by_one_ext. intros [[x y] c] m' Ht. rewrite gemm_as_fortran by auto. now rewrite (LC x y c Ht).
    + intros x1 y1 c1 E. rewrite El in E. injection E as <- <- <-. split; [apply (conj_get_op x0 c0 r0 k0 r0 n0); auto|apply (conj_get_op y0 c0 k0 n0 r0 n0); auto].
Qed.

(** the values of products computed one by one *)
Context (R : is_ring A).
Lemma one_by_one_spec checks alpha beta l (m : mem V) : (forall t, In t l -> triple_fits t) ->
  (forall x y c, In (x, y, c) l -> conj_allowed x c /\ conj_allowed y c) -> batch_apart l ->
  exists m', one_by_one (fun t => let '(x, y, c) := t in gemm A cj checks alpha x y beta c) l m = BRet m' /\
    (forall x y c r k n, In (x, y, c) l -> blas_matrix (m_view x) r k -> blas_matrix (m_view y) k n -> blas_matrix c r n -> forall i j, 0 <= i < r -> 0 <= j < n ->
       m' (cell c [i; j]) = v_add A (v_mul A alpha (product_at A k (mat_at cj x m) (mat_at cj y m) i j)) (v_mul A beta (m (cell c [i; j])))) /\
    (forall a, (forall x y c, In (x, y, c) l -> ~ is_cell_of c a) -> m' a = m a).
Proof.
  intros HF HC [HD HP]. revert m. induction l as [|[[x y] c] l IH]; intros m.
  - exists m. split; [reflexivity|]. split; [intros x y c r k n []|auto].
  - inversion HP as [|? ? HP1 HP2]; subst. destruct (HF (x, y, c) (or_introl eq_refl)) as (r & k & n & X & Y & C). destruct (HC x y c (or_introl eq_refl)) as [Cx Cy].
    destruct (HD x y c x y c (or_introl eq_refl) (or_introl eq_refl)) as [Dx Dy].
    destruct (gemm_spec A cj R checks alpha x y beta c m r k n X Y C Cx Cy Dx Dy) as (m1 & E1 & V1 & U1).
    destruct (IH ltac:(intros; apply HF; now right) ltac:(intros; apply HC; now right) ltac:(intros; eapply HD; right; eauto) HP2 m1) as (m' & E & Vs & Us).
    exists m'. split; [unfold one_by_one; cbn [fold_left bbind]; rewrite E1; exact E|].
    assert (Sx : forall x' y' c' r' k', In (x', y', c') ((x, y, c) :: l) -> blas_matrix (m_view x') r' k' -> forall i j, 0 <= i < r' -> 0 <= j < k' -> mat_at cj x' m1 i j = mat_at cj x' m i j).
    { intros x' y' c' r' k' Ht B i j Hi Hj. unfold mat_at. rewrite (U1 (cell (m_view x') [i; j])); [reflexivity|]. intros K. destruct (HD x y c x' y' c' (or_introl eq_refl) Ht) as [D _].
      apply (D _ K). apply (matrix_is_cell _ r' k'); auto. now apply blas_len. }
    assert (Sy : forall x' y' c' r' k', In (x', y', c') ((x, y, c) :: l) -> blas_matrix (m_view y') r' k' -> forall i j, 0 <= i < r' -> 0 <= j < k' -> mat_at cj y' m1 i j = mat_at cj y' m i j).
    { intros x' y' c' r' k' Ht B i j Hi Hj. unfold mat_at. rewrite (U1 (cell (m_view y') [i; j])); [reflexivity|]. intros K. destruct (HD x y c x' y' c' (or_introl eq_refl) Ht) as [_ D].
      apply (D _ K). apply (matrix_is_cell _ r' k'); auto. now apply blas_len. }
    split.
    + intros x' y' c' r' k' n' Ht X' Y' C' i j Hi Hj. destruct Ht as [Ht|Ht].
      * injection Ht as <- <- <-. pose proof (blas_len _ _ _ X) as L1. rewrite (blas_len _ _ _ X') in L1. injection L1 as -> ->. pose proof (blas_len _ _ _ Y) as L2. rewrite (blas_len _ _ _ Y') in L2. injection L2 as ->.
        rewrite Us; [now apply V1|]. intros x' y' c' Ht K. rewrite Forall_forall in HP1. apply (HP1 _ Ht (cell c [i; j])); [|exact K]. cbn [snd]. apply (matrix_is_cell c r n); auto. now apply blas_len.
      * rewrite (Vs x' y' c' r' k' n' Ht X' Y' C' i j Hi Hj). f_equal.
        -- f_equal. apply product_ext; intros q Hq; [apply (Sx x' y' c' r' k' (or_intror Ht) X'); auto|apply (Sy x' y' c' k' n' (or_intror Ht) Y'); auto].
        -- f_equal. apply U1. intros K. rewrite Forall_forall in HP1. apply (HP1 _ Ht (cell c' [i; j]) K). cbn [snd]. apply (matrix_is_cell c' r' n'); auto. now apply blas_len.
    + intros a Ha. rewrite Us by (intros x' y' c' Ht; apply (Ha x' y' c'); now right). apply U1. apply (Ha x y c). now left.
Qed.
End Batch.

Lemma in_view3 v b r c q i j : im_len (v_lay v) = [b; r; c] -> in_view v [q; i; j] <-> 0 <= q < b /\ 0 <= i < r /\ 0 <= j < c.
Proof.
  intros E. unfold in_view, valid_idx. rewrite E. split.
  - intros H. inversion H as [|? ? ? ? H1 H2]; subst. inversion H2 as [|? ? ? ? H3 H4]; subst. inversion H4; subst. auto.
  - intros (H1 & H2 & H3). repeat constructor; lia.
Qed.
Lemma in_view3_inv v b r c idx : im_len (v_lay v) = [b; r; c] -> in_view v idx -> exists q i j, idx = [q; i; j] /\ 0 <= q < b /\ 0 <= i < r /\ 0 <= j < c.
Proof.
  intros E. unfold in_view, valid_idx. rewrite E. intros H. inversion H as [|q ? ? ? H1 H2]; subst. inversion H2 as [|i ? ? ? H3 H4]; subst. inversion H4 as [|j ? ? ? H5 H6]; subst. inversion H6; subst. eexists _, _, _. eauto.
Qed.
Definition tr3 (v : view) : view := snd (transposed_view 1 2 AlgA v).
Lemma tr3_stack v b r c s : stack_of v b r c s -> stack_of (tr3 v) b c r s /\ (forall q i j, cell (tr3 v) [q; i; j] = cell v [q; j; i]) /\
  (im_so (v_lay v) = [0; 1; 2]%nat -> im_so (v_lay (tr3 v)) = [0; 2; 1]%nat) /\ (im_so (v_lay v) = [0; 2; 1]%nat -> im_so (v_lay (tr3 v)) = [0; 1; 2]%nat).
Proof.
  intros (Hb & Hr & Hc & Ib & Ir & Ic & Is & El & ld & Il & H). destruct v as [[len str so se pr] base]. cbn [v_lay v_base im_len im_so im_str] in *. subst len.
  destruct H as [(Eo & Es & Hl)|(Eo & Es & Hl)]; subst so str; (split; [|split; [|split]]); try discriminate; try (intros _; reflexivity).
  - do 7 (split; [auto|]). split; [reflexivity|]. exists ld. split; [auto|]. right. repeat split; auto.
  - intros q i j. unfold cell, addr. cbn -[Z.mul Z.add]. lia.
  - do 7 (split; [auto|]). split; [reflexivity|]. exists ld. split; [auto|]. left. repeat split; auto.
  - intros q i j. unfold cell, addr. cbn -[Z.mul Z.add]. lia.
Qed.
Lemma stack_order v b r c s : stack_of v b r c s -> (im_so (v_lay v) = [0; 1; 2]%nat /\ has_C_layout v = true) \/ (im_so (v_lay v) = [0; 2; 1]%nat /\ has_C_layout v = false).
Proof.
  intros (_ & _ & _ & _ & _ & _ & _ & El & ld & _ & [(E & _)|(E & _)]); [left|right]; (split; [exact E|]); unfold has_C_layout, is_stride_order_C, rank; rewrite El, E; reflexivity.
Qed.
Lemma stack_len v b r c s : stack_of v b r c s -> im_len (v_lay v) = [b; r; c].
Proof. intros H. apply H. Qed.
Lemma stack_stride v b r c s : stack_of v b r c s -> int32 (stride v 0) = s.
Proof. intros (_ & _ & _ & _ & _ & _ & Is & _ & ld & _ & [(_ & E & _)|(_ & E & _)]); unfold stride; rewrite E; unfold nthZ; cbn [nth]; now apply int32_id. Qed.
Lemma stack_min_stride v b r c s : stack_of v b r c s -> min_stride (v_lay v) = 1.
Proof. intros (_ & _ & _ & _ & _ & _ & _ & El & ld & _ & [(E1 & E2 & _)|(E1 & E2 & _)]); unfold min_stride, rank; rewrite El, E1, E2; reflexivity. Qed.

Section Strided.
Context {V : Type} (A : arith V) (cj : V -> V) (R : is_ring A).

Definition stk (v : view) (q : Z) : view := match stacked v q with Some w => w | None => v end.
Lemma stk_spec v b r c s q : stack_of v b r c s -> stacked v q = Some (stk v q) /\ blas_matrix (stk v q) r c /\ v_base (stk v q) = v_base v + q * s /\ has_C_layout (stk v q) = has_C_layout v /\
  (forall i j, cell (stk v q) [i; j] = cell v [q; i; j]) /\ same_order (stk v q) (stk v 0) /\ im_len (v_lay (stk v q)) = im_len (v_lay (stk v 0)) /\ im_str (v_lay (stk v q)) = im_str (v_lay (stk v 0)).
Proof.
  intros H. destruct (stacked_spec v b r c s H q) as (w & E & H1 & H2 & H3 & H4 & H5). destruct (stacked_spec v b r c s H 0) as (w0 & E0 & _). specialize (H5 w0 E0). unfold stk. rewrite E, E0. tauto.
Qed.
Lemma stk_cells v b r c s q a : stack_of v b r c s -> 0 <= q < b -> is_cell_of (stk v q) a -> exists i j, 0 <= i < r /\ 0 <= j < c /\ a = cell v [q; i; j].
Proof.
  intros H Hq (idx & Hi & ->). destruct (stk_spec v b r c s q H) as (_ & B & _ & _ & Hc & _). destruct (in_view2_inv _ r c idx (blas_len _ _ _ B) Hi) as (i & j & -> & H1 & H2). exists i, j. rewrite Hc. auto.
Qed.

Lemma strided_fortran_spec alpha beta (x y : mat) (c : view) (m : mem V) b r k n sx sy sc : stack_of (m_view x) b r k sx -> stack_of (m_view y) b k n sy -> stack_of c b r n sc ->
  starts_in_int b sx -> starts_in_int b sy -> starts_in_int b sc ->
  has_C_layout c = false -> conj_allowed x c -> conj_allowed y c -> no_aliasing (v_lay c) -> disjoint c (m_view x) -> disjoint c (m_view y) ->
  exists m', strided_fortran A cj alpha x y (stk (m_view x) 0) (stk (m_view y) 0) beta c (stk c 0) m = BRet m' /\
    (forall q i j, 0 <= q < b -> 0 <= i < r -> 0 <= j < n -> m' (cell c [q; i; j]) =
       v_add A (v_mul A alpha (product_at A k (stack_at cj x m q) (stack_at cj y m q) i j)) (v_mul A beta (m (cell c [q; i; j])))) /\
    unchanged_outside c m m'.
Proof.
  intros Hx Hy Hc Ix Iy Ic Fc Cx Cy NA Dx Dy.
  set (t := fun q => (Mat (m_conj x) (stk (m_view x) q), Mat (m_conj y) (stk (m_view y) q), stk c q) : triple).
  assert (KX : forall q, m_conj x = true -> has_C_layout (stk (m_view x) q) = true).
  { intros q E. destruct (stk_spec _ _ _ _ _ q Hx) as (_ & _ & _ & -> & _). destruct (stack_order _ _ _ _ _ Hx) as [[_ ->]|[O _]]; [reflexivity|]. exfalso. apply (Cx E). unfold same_order. rewrite O.
    destruct (stack_order _ _ _ _ _ Hc) as [[_ O']|[-> _]]; [congruence|reflexivity]. }
  assert (KY : forall q, m_conj y = true -> has_C_layout (stk (m_view y) q) = true).
  { intros q E. destruct (stk_spec _ _ _ _ _ q Hy) as (_ & _ & _ & -> & _). destruct (stack_order _ _ _ _ _ Hy) as [[_ ->]|[O _]]; [reflexivity|]. exfalso. apply (Cy E). unfold same_order. rewrite O.
    destruct (stack_order _ _ _ _ _ Hc) as [[_ O']|[-> _]]; [congruence|reflexivity]. }
  assert (GX : exists oa, get_op (m_conj x) (has_C_layout (m_view x)) = Some oa).
  { specialize (KX 0). destruct (stk_spec _ _ _ _ _ 0 Hx) as (_ & _ & _ & E & _). rewrite E in KX. unfold get_op. destruct (m_conj x); [rewrite KX by reflexivity|]; cbn [andb negb]; eauto. }
  assert (GY : exists ob, get_op (m_conj y) (has_C_layout (m_view y)) = Some ob).
  { specialize (KY 0). destruct (stk_spec _ _ _ _ _ 0 Hy) as (_ & _ & _ & E & _). rewrite E in KY. unfold get_op. destruct (m_conj y); [rewrite KY by reflexivity|]; cbn [andb negb]; eauto. }
  destruct GX as [oa Ea], GY as [ob Eb].
  assert (E : strided_fortran A cj alpha x y (stk (m_view x) 0) (stk (m_view y) 0) beta c (stk c 0) m = one_by_one (fun t => let '(x, y, c) := t in gemm A cj false alpha x y beta c) (map t (zseq b)) m).
  { unfold strided_fortran. rewrite Ea, Eb. unfold f77_gemm_batch_strided, one_by_one. rewrite fold_left_map. rewrite (stack_stride _ _ _ _ _ Hx), (stack_stride _ _ _ _ _ Hy), (stack_stride _ _ _ _ _ Hc).
    replace (int32 (extent (m_view x) 0)) with b by (unfold extent; rewrite (stack_len _ _ _ _ _ Hx); unfold nthZ; cbn [nth]; symmetry; apply int32_id, Hx).
    apply fold_left_ext_in. intros st q Hq. apply zseq_In in Hq. rewrite (int32_id _ (Ix q Hq)), (int32_id _ (Iy q Hq)), (int32_id _ (Ic q Hq)). destruct st as [m'| |]; cbn [bbind]; [|reflexivity|reflexivity]. subst t. cbv beta iota.
    destruct (stk_spec _ _ _ _ _ q Hx) as (_ & BX & Bx & LX & _ & OX & EX & SX). destruct (stk_spec _ _ _ _ _ q Hy) as (_ & BY & By & LY & _ & OY & EY & SY). destruct (stk_spec _ _ _ _ _ q Hc) as (_ & BC & Bc & LC & _ & OC & EC & SC).
    destruct (stk_spec _ _ _ _ _ 0 Hx) as (_ & BX0 & _). destruct (stk_spec _ _ _ _ _ 0 Hy) as (_ & BY0 & _). destruct (stk_spec _ _ _ _ _ 0 Hc) as (_ & BC0 & _).
    rewrite gemm_as_fortran by (exists r, k, n; auto). rewrite LC, Fc. unfold gemm_fortran. cbn [m_conj m_view]. rewrite LX, LY, Ea, Eb, Bx, By, Bc. unfold extent, get_ld. rewrite EX, EY, SX, SY, SC.
    destruct (layout_same _ _ _ _ _ _ BX BX0 OX) as [_ ->]. destruct (layout_same _ _ _ _ _ _ BY BY0 OY) as [_ ->]. destruct (layout_same _ _ _ _ _ _ BC BC0 OC) as [_ ->]. reflexivity. }
  rewrite E.
  assert (IN : forall x' y' c', In (x', y', c') (map t (zseq b)) -> exists q, 0 <= q < b /\ x' = Mat (m_conj x) (stk (m_view x) q) /\ y' = Mat (m_conj y) (stk (m_view y) q) /\ c' = stk c q).
  { intros x' y' c' H. apply in_map_iff in H. destruct H as (q & Ht & Hq). injection Ht as <- <- <-. exists q. apply zseq_In in Hq. auto. }
  destruct (one_by_one_spec A cj R false alpha beta (map t (zseq b)) m) as (m' & Em & Hv & Hu).
  - intros [[x' y'] c'] H. destruct (IN _ _ _ H) as (q & Hq & -> & -> & ->). exists r, k, n. split; [apply (stk_spec _ b r k sx q Hx)|]. split; [apply (stk_spec _ b k n sy q Hy)|apply (stk_spec _ b r n sc q Hc)].
  - intros x' y' c' H. destruct (IN _ _ _ H) as (q & Hq & -> & -> & ->). destruct (stk_spec _ _ _ _ _ q Hc) as (_ & BC & _ & LC & _). rewrite Fc in LC.
    assert (Oc : im_so (v_lay (stk c q)) = [1; 0]%nat). { destruct (blas_order _ _ _ BC) as [O|O]; [|exact O]. unfold has_C_layout, is_stride_order_C, rank in LC. rewrite (blas_len _ _ _ BC), O in LC. discriminate LC. }
    split; intros Ec S; unfold same_order in S; cbn [m_view m_conj] in *; rewrite Oc in S.
    + specialize (KX q Ec). destruct (stk_spec _ _ _ _ _ q Hx) as (_ & BX & _). unfold has_C_layout, is_stride_order_C, rank in KX. rewrite (blas_len _ _ _ BX), S in KX. discriminate KX.
    + specialize (KY q Ec). destruct (stk_spec _ _ _ _ _ q Hy) as (_ & BY & _). unfold has_C_layout, is_stride_order_C, rank in KY. rewrite (blas_len _ _ _ BY), S in KY. discriminate KY.
  - assert (CI : forall q a, 0 <= q < b -> is_cell_of (stk c q) a -> is_cell_of c a).
    { intros q a Hq Ha. destruct (stk_cells _ _ _ _ _ q a Hc Hq Ha) as (i & j & Hi & Hj & ->). exists [q; i; j]. split; [|reflexivity]. apply (in_view3 c b r n); auto. apply Hc. }
    split.
    + intros x' y' c' x2 y2 c2 H1 H2. destruct (IN _ _ _ H1) as (q & Hq & -> & -> & ->). destruct (IN _ _ _ H2) as (q2 & Hq2 & -> & -> & ->). cbn [m_view]. split; intros a Ha Ha'.
      * apply (Dx a); [now apply (CI q)|]. destruct (stk_cells _ _ _ _ _ q2 a Hx Hq2 Ha') as (i & j & Hi & Hj & ->). exists [q2; i; j]. split; [|reflexivity]. apply (in_view3 _ b r k); auto. apply Hx.
      * apply (Dy a); [now apply (CI q)|]. destruct (stk_cells _ _ _ _ _ q2 a Hy Hq2 Ha') as (i & j & Hi & Hj & ->). exists [q2; i; j]. split; [|reflexivity]. apply (in_view3 _ b k n); auto. apply Hy.
    + assert (P : forall l, NoDup l -> (forall q, In q l -> 0 <= q < b) -> ForallOrdPairs (fun t0 t' : triple => disjoint (snd t0) (snd t')) (map t l)).
      { intros l ND Hl. induction ND as [|q l Hq ND IH]; [constructor|]. cbn [map]. constructor; [|apply IH; intros; apply Hl; now right].
        apply Forall_forall. intros u Hu. apply in_map_iff in Hu. destruct Hu as (q2 & <- & Hq2). subst t. cbn [snd]. intros a Ha Ha'.
        destruct (stk_cells _ _ _ _ _ q a Hc (Hl q (or_introl eq_refl)) Ha) as (i & j & Hi & Hj & ->). destruct (stk_cells _ _ _ _ _ q2 _ Hc (Hl q2 (or_intror Hq2)) Ha') as (i2 & j2 & Hi2 & Hj2 & E2).
        unfold cell in E2. assert (E3 : [q; i; j] = [q2; i2; j2]).
        { apply NA; [apply (in_view3 c b r n); [apply Hc|]; repeat split; try lia; apply Hl; now left|apply (in_view3 c b r n); [apply Hc|]; repeat split; try lia; apply (Hl q2); now right|lia]. }
        injection E3 as -> _ _. contradiction. }
      apply P; [apply zseq_NoDup|]. intros q Hq. now apply zseq_In in Hq.
  - exists m'. split; [exact Em|]. split.
    + intros q i j Hq Hi Hj. assert (Ht : In (t q) (map t (zseq b))) by (apply in_map, zseq_In; lia).
      destruct (stk_spec _ _ _ _ _ q Hx) as (_ & BX & _ & _ & CX & _). destruct (stk_spec _ _ _ _ _ q Hy) as (_ & BY & _ & _ & CY & _). destruct (stk_spec _ _ _ _ _ q Hc) as (_ & BC & _ & _ & CC & _).
      rewrite <- CC. rewrite (Hv _ _ _ r k n Ht BX BY BC i j Hi Hj). f_equal. f_equal. apply product_ext; intros l Hl; unfold mat_at, stack_at; cbn [m_conj m_view]; now rewrite ?CX, ?CY.
    + intros a Ha. apply Hu. intros x' y' c' H Hca. destruct (IN _ _ _ H) as (q & Hq & -> & -> & ->). apply Ha. destruct (stk_cells _ _ _ _ _ q a Hc Hq Hca) as (i & j & Hi & Hj & ->). exists [q; i; j]. split; [|reflexivity].
      apply (in_view3 c b r n); auto. apply Hc.
Qed.
Lemma strided_checks_ok a bb c b r k n sx sy sc : stack_of a b r k sx -> stack_of bb b k n sy -> stack_of c b r n sc -> strided_checks a bb (stk a 0) (stk bb 0) c (stk c 0) = true.
Proof.
  intros Ha Hb Hc. unfold strided_checks, extent. rewrite (stack_min_stride _ _ _ _ _ Ha), (stack_min_stride _ _ _ _ _ Hb), (stack_min_stride _ _ _ _ _ Hc).
  destruct (stk_spec _ _ _ _ _ 0 Ha) as (_ & BA & _). destruct (stk_spec _ _ _ _ _ 0 Hb) as (_ & BB & _). destruct (stk_spec _ _ _ _ _ 0 Hc) as (_ & BC & _).
  rewrite (blas_len _ _ _ BA), (blas_len _ _ _ BB), (blas_len _ _ _ BC), (stack_len _ _ _ _ _ Ha), (stack_len _ _ _ _ _ Hb), (stack_len _ _ _ _ _ Hc). unfold nthZ. cbn [nth]. now rewrite !Z.eqb_refl.
Qed.
Lemma slice_first_stk v b r c s : stack_of v b r c s -> slice_first v = Some (stk v 0).
Proof. intros H. apply (stk_spec v b r c s 0 H). Qed.
Lemma tr3_cells v b r c s a : stack_of v b r c s -> is_cell_of (tr3 v) a <-> is_cell_of v a.
Proof.
  intros H. destruct (tr3_stack _ _ _ _ _ H) as (H' & Hc & _). split; intros (idx & Hi & ->).
  - destruct (in_view3_inv _ _ _ _ idx (stack_len _ _ _ _ _ H') Hi) as (q & i & j & -> & Hq & H1 & H2). exists [q; j; i]. split; [apply (in_view3 v b r c); auto; apply H|apply Hc].
  - destruct (in_view3_inv _ _ _ _ idx (stack_len _ _ _ _ _ H) Hi) as (q & i & j & -> & Hq & H1 & H2). exists [q; j; i]. split; [apply (in_view3 _ b c r); auto; apply H'|symmetry; apply Hc].
Qed.

Lemma gemm_batch_strided_spec checks alpha beta (x y : mat) (c : view) (m : mem V) b r k n sx sy sc : stack_of (m_view x) b r k sx -> stack_of (m_view y) b k n sy -> stack_of c b r n sc ->
  starts_in_int b sx -> starts_in_int b sy -> starts_in_int b sc ->
  conj_allowed x c -> conj_allowed y c -> no_aliasing (v_lay c) -> disjoint c (m_view x) -> disjoint c (m_view y) ->
  exists m', gemm_batch_strided A cj checks alpha x y beta c m = BRet m' /\
    (forall q i j, 0 <= q < b -> 0 <= i < r -> 0 <= j < n -> m' (cell c [q; i; j]) =
       v_add A (v_mul A alpha (product_at A k (stack_at cj x m q) (stack_at cj y m q) i j)) (v_mul A beta (m (cell c [q; i; j])))) /\
    unchanged_outside c m m'.
Proof.
  intros Hx Hy Hc Ix Iy Ic Cx Cy NA Dx Dy. unfold gemm_batch_strided. cbv zeta. rewrite (slice_first_stk _ _ _ _ _ Hx), (slice_first_stk _ _ _ _ _ Hy), (slice_first_stk _ _ _ _ _ Hc).
  rewrite (strided_checks_ok _ _ _ b r k n sx sy sc) by auto. rewrite expects_true. destruct (has_C_layout c) eqn:Ec.
  2: now apply (strided_fortran_spec alpha beta x y c m b r k n sx sy sc).
  change (snd (transposed_view 1 2 AlgA c)) with (tr3 c). cbn [m_view]. change (snd (transposed_view 1 2 AlgA (m_view x))) with (tr3 (m_view x)). change (snd (transposed_view 1 2 AlgA (m_view y))) with (tr3 (m_view y)).
  destruct (tr3_stack _ _ _ _ _ Hx) as (Tx & CX & OX1 & OX2). destruct (tr3_stack _ _ _ _ _ Hy) as (Ty & CY & OY1 & OY2). destruct (tr3_stack _ _ _ _ _ Hc) as (Tc & CC & OC1 & OC2).
  rewrite (slice_first_stk _ _ _ _ _ Tx), (slice_first_stk _ _ _ _ _ Ty), (slice_first_stk _ _ _ _ _ Tc). rewrite (strided_checks_ok _ _ _ b n k r sy sx sc) by auto. rewrite expects_true.
  destruct (stack_order _ _ _ _ _ Hc) as [[Oc _]|[_ O]]; [|congruence]. specialize (OC1 Oc).
  assert (Fc : has_C_layout (tr3 c) = false) by (destruct (stack_order _ _ _ _ _ Tc) as [[O _]|[_ O]]; [congruence|exact O]).
  destruct (strided_fortran_spec alpha beta (Mat (m_conj y) (tr3 (m_view y))) (Mat (m_conj x) (tr3 (m_view x))) (tr3 c) m b n k r sy sx sc) as (m' & E & Hv & Hu); auto.
  - intros Ey S. unfold same_order in S. cbn [m_view m_conj] in *. rewrite OC1 in S. apply (Cy Ey). unfold same_order. rewrite Oc. destruct (stack_order _ _ _ _ _ Hy) as [[O _]|[O _]]; [exact O|]. rewrite (OY2 O) in S. discriminate S.
  - intros Ex S. unfold same_order in S. cbn [m_view m_conj] in *. rewrite OC1 in S. apply (Cx Ex). unfold same_order. rewrite Oc. destruct (stack_order _ _ _ _ _ Hx) as [[O _]|[O _]]; [exact O|]. rewrite (OX2 O) in S. discriminate S.
  - intros i j Hi Hj Ea. destruct (in_view3_inv _ b n r i (stack_len _ _ _ _ _ Tc) Hi) as (q1 & i1 & j1 & -> & Hq1 & Hi1 & Hj1). destruct (in_view3_inv _ b n r j (stack_len _ _ _ _ _ Tc) Hj) as (q2 & i2 & j2 & -> & Hq2 & Hi2 & Hj2).
    pose proof (CC q1 i1 j1) as E1. pose proof (CC q2 i2 j2) as E2. unfold cell in E1, E2. assert (E3 : [q1; j1; i1] = [q2; j2; i2]).
    { apply NA; [apply (in_view3 c b r n); [apply Hc|auto]|apply (in_view3 c b r n); [apply Hc|auto]|lia]. } congruence.
  - intros a Ha Ha'. apply (Dy a); [now apply (tr3_cells c b r n sc)|now apply (tr3_cells _ b k n sy)].
  - intros a Ha Ha'. apply (Dx a); [now apply (tr3_cells c b r n sc)|now apply (tr3_cells _ b r k sx)].
  - exists m'. split; [exact E|]. split.
    + intros q i j Hq Hi Hj. rewrite <- CC. rewrite Hv by auto. f_equal. f_equal. unfold product_at. rewrite sum_to_comm by auto. apply sum_to_ext. intros l Hl. unfold stack_at. cbn [m_conj m_view]. now rewrite CX, CY.
    + intros a Ha. apply Hu. now rewrite (tr3_cells c b r n sc).
Qed.
End Strided.
