(** C74: the LAPACK least squares solver. *)
From Coq Require Import Ring Field.
From Verif Require Import Base M_Perm M_IdxMap M_Slice M_Loops M_Assign M_Expr M_Transform M_Blas M_Lapack M_Lsq S_Layout S_Loops S_Assign S_Blas S_Lapack S_Gelss S_Lsq
  L_Blas L_Blas2 L_Lapack L_Lapack2 L_Lapack3 L_Lapack4 L_Lu M_Gelss L_Gelss L_Sched P_Blas P_Gelss.

Section Algebra.
Context {V : Type} (A : arith V) (F : is_field A) (cj : V -> V) (C : conjugation A cj).
Let R : is_ring A := F_R F.
Let Rth : ring_theory (v_zero A) (v_one A) (v_add A) (v_mul A) (v_sub A) (v_opp A) eq := R.
Add Ring VRQ : Rth.
Declare Scope qs. Local Notation "x + y" := (v_add A x y) : qs. Local Notation "x * y" := (v_mul A x y) : qs. Local Notation "x - y" := (v_sub A x y) : qs. Local Notation "- x" := (v_opp A x) : qs.
Delimit Scope qs with qs.
Notation "0v" := (v_zero A). Notation "1v" := (v_one A).
Implicit Types (a b x y u vt w : Z -> Z -> V).
Notation pr := (product_at A). Notation adj := (adjoint cj).

Section OneSvd.
Variables (M N : Z) (a : Z -> Z -> V) (s : list V) (u vt : Z -> Z -> V).
Hypothesis (HM : 0 <= M) (HN : 0 <= N) (HS : svd_of A cj M N a s u vt).
Notation sk k := (nth (Z.to_nat k) s 0v).
Notation mn := (Z.min M N).
Let su : Z -> Z -> V := fun k j => (sk k * vt k j)%qs.
Lemma svd2_a i j : 0 <= i < M -> 0 <= j < N -> a i j = pr mn u su i j.
Proof. intros Hi Hj. destruct HS as (_ & _ & H & _). rewrite H by auto. apply sum_to_ext. intros k _. unfold su. ring. Qed.
(** a z, through the coordinates of z *)
Lemma svd2_az z i j : 0 <= i < M -> pr N a z i j = pr mn u (fun k j => sk k * pr N vt z k j)%qs i j.
Proof.
  intros Hi. rewrite (product_ext A N a z (pr mn u su) z) by (auto; intros l Hl; now apply svd2_a). rewrite (product_assoc A R). apply product_ext; [reflexivity|]. intros k Hk. unfold product_at.
  rewrite <- (sum_to_scale A R). apply sum_to_ext. intros l _. unfold su. ring.
Qed.
Lemma pick2 n w (i j : Z) : 0 <= n -> 0 <= i -> pr n (unit_matrix A) w i j = if i <? n then w i j else 0v.
Proof.
  intros Hn Hi. destruct (Z.ltb_spec i n); [apply (product_unit_l A F); lia|]. apply (sum_to_zero A R). intros l Hl. unfold unit_matrix. destruct (Z.eqb_spec i l); [lia|ring].
Qed.
Lemma svd2_uaz z k j : 0 <= k < M -> pr M (adj u) (pr N a z) k j = if k <? mn then (sk k * pr N vt z k j)%qs else 0v.
Proof.
  intros Hk. rewrite (product_ext A M (adj u) (pr N a z) (adj u) (pr mn u (fun k j => sk k * pr N vt z k j)%qs)); [|reflexivity|intros l Hl; now apply svd2_az].
  rewrite <- (product_assoc A R). rewrite (product_ext A mn _ (fun k j => sk k * pr N vt z k j)%qs (unit_matrix A) (fun k j => sk k * pr N vt z k j)%qs); [now apply (pick2 mn); lia| |reflexivity].
  intros l Hl. apply HS; lia.
Qed.
(** w is orthogonal to a if its first r coordinates vanish, and so do the singular values from r on *)
Lemma svd2_normal r w j : (forall k, 0 <= k < r -> pr M (adj u) w k j = 0v) -> (forall k, r <= k < mn -> sk k = 0v) -> forall i, 0 <= i < N -> pr M (adj a) w i j = 0v.
Proof.
  intros Hw Hz i Hi. rewrite (product_ext A M (adj a) w (pr mn (adj su) (adj u)) w); [| |reflexivity].
  - rewrite (product_assoc A R). apply (sum_to_zero A R). intros k Hk. destruct (Z.lt_ge_cases k r) as [E|E]; [rewrite (Hw k) by lia; ring|].
    unfold adjoint at 1. unfold su. rewrite (Hz k) by lia. rewrite (cj_mul A cj C), (cj_0 A F cj C). ring.
  - intros l Hl. unfold adjoint at 1. rewrite svd2_a by lia. exact (adj_pr A F cj C mn u su i l).
Qed.
(** the coordinates of the truncated solution *)
Lemma svd2_vx r b x K : 0 <= r <= mn -> (forall i j, 0 <= i < N -> 0 <= j < K ->
    x i j = sum_to A r (fun k => cj (vt k i) * v_div A (sum_to A M (fun l => cj (u l k) * b l j)) (sk k))%qs) ->
  forall k j, 0 <= k < N -> 0 <= j < K -> pr N vt x k j = if k <? r then v_div A (pr M (adj u) b k j) (sk k) else 0v.
Proof.
  intros Hr Hx k j Hk Hj. set (c := fun k j => v_div A (pr M (adj u) b k j) (sk k)). rewrite (product_ext A N vt x vt (pr r (adj vt) c)); [|reflexivity|intros l Hl; now rewrite Hx by lia].
  rewrite <- (product_assoc A R). rewrite (product_ext A r _ c (unit_matrix A) c); [apply (pick2 r); lia| |reflexivity]. intros l Hl. apply HS; lia.
Qed.
Lemma svd2_residual r b x K : 0 <= r <= mn -> (forall k, 0 <= k < r -> sk k <> 0v) -> (forall i j, 0 <= i < N -> 0 <= j < K ->
    x i j = sum_to A r (fun k => cj (vt k i) * v_div A (sum_to A M (fun l => cj (u l k) * b l j)) (sk k))%qs) ->
  forall k j, 0 <= k < r -> 0 <= j < K -> pr M (adj u) (residual A N a x b) k j = 0v.
Proof.
  intros Hr Hs Hx k j Hk Hj. unfold residual. rewrite (pr_minus_r A F), svd2_uaz by lia. destruct (Z.ltb_spec k mn); [|lia]. rewrite (svd2_vx r b x K Hr Hx) by lia.
  destruct (Z.ltb_spec k r); [|lia]. rewrite (Fdiv_def F). pose proof (inv_mul A F (sk k) (Hs k Hk)) as E. 
  transitivity (sk k * v_div A 1v (sk k) * pr M (adj u) b k j - pr M (adj u) b k j)%qs; [ring|]. rewrite E. ring.
Qed.
(** column j of x is orthogonal to what a maps to zero *)
Lemma svd2_small r b x K z : 0 <= r <= mn -> (forall k, 0 <= k < r -> sk k <> 0v) -> (forall i j, 0 <= i < N -> 0 <= j < K ->
    x i j = sum_to A r (fun k => cj (vt k i) * v_div A (sum_to A M (fun l => cj (u l k) * b l j)) (sk k))%qs) ->
  forall j, 0 <= j < K -> (forall i, 0 <= i < M -> pr N a z i j = 0v) -> pr N (adj x) z j j = 0v.
Proof.
  intros Hr Hs Hx j Hj Hz. assert (Hvz : forall k, 0 <= k < r -> pr N vt z k j = 0v).
  { intros k Hk. pose proof (svd2_uaz z k j ltac:(lia)) as E. destruct (Z.ltb_spec k mn) as [Hkm|Hkm]; [|lia].
    rewrite (product_ext A M (adj u) _ (adj u) (fun _ _ => 0v)) in E by (auto; intros; now apply Hz). assert (E0 : (sk k * pr N vt z k j)%qs = 0v) by (rewrite <- E; apply (sum_to_zero A R); intros; ring).
    transitivity (sk k * v_div A 1v (sk k) * pr N vt z k j)%qs; [rewrite (inv_mul A F) by auto; ring|]. transitivity (v_div A 1v (sk k) * (sk k * pr N vt z k j))%qs; [ring|]. rewrite E0. ring. }
  set (c := fun k j => v_div A (pr M (adj u) b k j) (sk k)).
  rewrite (product_ext A N (adj x) z (pr r (adj c) vt) z); [| |reflexivity].
  - rewrite (product_assoc A R). apply (sum_to_zero A R). intros k Hk. rewrite Hvz by lia. ring.
  - intros l Hl. unfold adjoint at 1. rewrite Hx by lia. change (adj (pr r (adj vt) c) j l = pr r (adj c) vt j l). rewrite (adj_pr A F cj C). apply product_ext; [reflexivity|]. intros k _. apply (adj_adj A cj C).
Qed.
End OneSvd.
Lemma rmul_0_r v : (v * 0v)%qs = 0v. Proof. ring. Qed.
Lemma rmul_0_l v : (0v * v)%qs = 0v. Proof. ring. Qed.
Lemma norm2_sum N x z j : pr N (adj x) z j j = 0v -> norm2 A cj N (fun i j => x i j + z i j)%qs j = (norm2 A cj N x j + norm2 A cj N z j)%qs.
Proof.
  intros H. assert (H2 : pr N (adj z) x j j = 0v).
  { transitivity (cj (pr N (adj x) z j j)); [|rewrite H; apply (cj_0 A F cj C)]. unfold product_at. rewrite (cj_sum A F cj C). apply sum_to_ext. intros i _. unfold adjoint. rewrite (cj_mul A cj C), (cj_cj A cj C). ring. }
  rewrite (norm2_pr A cj N (fun i j => x i j + z i j)%qs). transitivity (norm2 A cj N x j + norm2 A cj N z j + pr N (adj x) z j j + pr N (adj z) x j j)%qs; [|rewrite H, H2; ring].
  unfold norm2, product_at, adjoint, sum_to. induction (Z.to_nat N) as [|k IH]; cbn [sum_nat]; [ring|]. rewrite IH, (cj_add A cj C). ring.
Qed.
End Algebra.

Section Wrapper.
Context {V : Type} (A : arith V) (cj : V -> V) (keep : V -> V -> V -> Prop) (G : f77_gelss_t V).
Lemma truncated_ext M N K rcond (a a' b b' x x' : Z -> Z -> V) s r : (forall i j, 0 <= i < M -> 0 <= j < N -> a i j = a' i j) -> (forall i j, 0 <= i < M -> 0 <= j < K -> b i j = b' i j) ->
  (forall i j, 0 <= i < N -> 0 <= j < K -> x i j = x' i j) -> truncated_solution A cj keep M N K rcond a b s r x -> truncated_solution A cj keep M N K rcond a' b' s r x'.
Proof.
  intros Ha Hb Hx (u & vt & (S1 & S2 & S3 & S4) & Hr & Hk & Hn & H). exists u, vt. split; [|split; [exact Hr|split; [exact Hk|split; [exact Hn|]]]].
  - split; [exact S1|split; [exact S2|split; [|exact S4]]]. intros i j Hi Hj. rewrite <- Ha by auto. now apply S3.
  - intros i j Hi Hj. rewrite <- Hx, H by auto. apply sum_to_ext. intros k _. f_equal. f_equal. apply sum_to_ext. intros l Hl. now rewrite Hb.
Qed.

(** C74: a an M by N matrix and b a matrix of K columns and at least max(M, N) rows, stored by columns with any leading dimensions, apart from each other.
    gelss leaves the solution for right-hand sides in the first M rows of b in the first N rows of b, or throws if the library reports a failure; other cells than
    those of a and of the first max(M, N) rows of b are not changed.  The vector s holds the singular values first: it keeps its length if it has room, and is made
    as long as needed otherwise. *)
Theorem C74_gelss : gelss_promise A cj keep G -> forall checks a b s rcond M N K rows lda ldb (m : mem V), 1 <= M -> 1 <= N -> 0 <= K -> Z.max M N <= rows ->
  int_range M -> int_range N -> int_range K -> int_range lda -> int_range ldb -> column_major a M N lda -> column_major b rows K ldb -> disjoint a b ->
  exists m' res, gelss G checks a b s rcond m = BRet (m', res) /\
    (forall s' r, res = Some (s', r) -> exists sv, truncated_solution A cj keep M N K rcond (entry a m) (entry b m) sv r (entry b m') /\
       (forall k, (k < length sv)%nat -> nth_error s' k = nth_error sv k) /\ (forall k, (length sv <= k)%nat -> nth_error s' k = nth_error s k)) /\
    (res = None -> exists x, G M N K (v_base a) lda (v_base b) ldb rcond m = BRet (m', x) /\ snd x <> 0) /\
    (forall q, ~ is_cell_of a q -> ~ (exists i j, 0 <= i < Z.max M N /\ 0 <= j < K /\ q = cell b [i; j]) -> m' q = m q).
Proof.
  intros HP checks a b s rcond M N K rows lda ldb m HM HN HK Hrows IM IN IK Ila Ilb Ha Hb D. unfold gelss.
  destruct (column_major_layout a M N lda Ha) as [_ ->]. destruct (column_major_layout b rows K ldb Hb) as [_ ->]. cbn [andb negb].
  assert (M0 : 0 <= M) by lia. assert (N0 : 0 <= N) by lia. assert (R0 : 0 <= rows) by lia.
  assert (Ba : blas_matrix a M N) by (exact (conj M0 (conj N0 (conj IM (conj IN (ex_intro _ lda (conj Ila (or_intror Ha)))))))).
  assert (Hlb : Z.max 1 rows <= ldb) by apply Hb.
  assert (Ir : int_range rows) by (unfold int_range in *; lia).
  assert (Bb : blas_matrix b rows K) by (exact (conj R0 (conj HK (conj Ir (conj IK (ex_intro _ ldb (conj Ilb (or_intror Hb)))))))).
  rewrite (min_stride_blas a M N Ba), (min_stride_blas b rows K Bb), Z.eqb_refl, !expects_true. destruct (blas_extent a M N Ba) as [-> ->]. destruct (blas_extent b rows K Bb) as [_ ->].
  rewrite (int32_id M IM), (int32_id N IN), (int32_id K IK), (column_major_ld a M N lda Ila Ha), (column_major_ld b rows K ldb Ilb Hb).
  assert (Sa : forall (m : mem V) i j, seen m (v_base a) lda i j = entry a m i j) by (intros m0 i j; unfold seen, entry; now rewrite (column_major_cell a M N lda) by exact Ha).
  assert (Sb : forall (m : mem V) i j, seen m (v_base b) ldb i j = entry b m i j) by (intros m0 i j; unfold seen, entry; now rewrite (column_major_cell b rows K ldb) by exact Hb).
  pose proof (rect_cells a M N lda Ha) as Ra. pose proof (rect_cells b rows K ldb Hb) as Rb.
  assert (Rsub : forall q, in_rect (v_base b) ldb (Z.max M N) K q -> in_rect (v_base b) ldb rows K q) by (intros q (i & j & Hi & Hj & E); exists i, j; repeat split; lia || exact E).
  destruct (HP M N K (v_base a) lda (v_base b) ldb rcond m HM HN HK) as (m' & sv & r & info & E & Hs & Hf).
  { destruct Ha as (_ & _ & _ & H). lia. } { lia. } { intros q H1 H2. apply (D q); [now apply Ra|apply Rb; auto]. }
  rewrite E. cbn [bbind]. eexists m', _. split; [reflexivity|]. split; [|split].
  - intros s' r' Er. destruct (Z.eqb_spec info 0) as [Ei|]; [|discriminate]. assert (E1 : s' = sv ++ (if Z.of_nat (length s) <? Z.min M N then [] else skipn (Z.to_nat (Z.min M N)) s) /\ r' = r) by (inversion Er; auto).
    destruct E1 as [-> ->]. specialize (Hs Ei). exists sv. assert (Hlen : Z.of_nat (length sv) = Z.min M N) by (destruct Hs as (u & vt & (H & _) & _); exact H). split; [|split].
    + revert Hs. apply truncated_ext; intros i j Hi Hj; auto.
    + intros k Hk. now rewrite nth_error_app1.
    + intros k Hk. rewrite nth_error_app2 by lia. destruct (Z.ltb_spec (Z.of_nat (length s)) (Z.min M N)) as [Hl|Hl].
      * rewrite (proj2 (nth_error_None s k)) by lia. now destruct (k - length sv)%nat.
      * replace (Z.to_nat (Z.min M N)) with (length sv) by lia. rewrite nth_error_skipn. f_equal. lia.
  - intros Es. destruct (Z.eqb_spec info 0) as [|Hi]; [discriminate|]. exists (sv, r, info). auto.
  - intros q H1 H2. apply Hf; [now rewrite Ra|]. intros (i & j & Hi & Hj & Eq). apply H2. exists i, j. split; [exact Hi|]. split; [exact Hj|]. now rewrite (column_major_cell b rows K ldb) by exact Hb.
Qed.

(** If rcond drops only values that are zero, the columns of the solution x are those of smallest residual a x - b, and among these those of smallest norm: the residual of
    any other y is larger by the square norm of a (y - x), and if that is zero, the norm of y is larger by that of y - x. *)
Theorem C74_least_squares : is_field A -> conjugation A cj -> forall M N K rcond a b s r x, 0 <= M -> 0 <= N -> truncated_solution A cj keep M N K rcond a b s r x ->
  (forall k, r <= k < Z.min M N -> nth (Z.to_nat k) s (v_zero A) = v_zero A) -> forall j, 0 <= j < K ->
  (forall i, 0 <= i < N -> product_at A M (adjoint cj a) (residual A N a x b) i j = v_zero A) /\
  (forall y, norm2 A cj M (residual A N a y b) j = v_add A (norm2 A cj M (residual A N a x b) j) (norm2 A cj M (product_at A N a (minus A y x)) j)) /\
  (forall y, (forall i, 0 <= i < M -> product_at A N a y i j = product_at A N a x i j) -> norm2 A cj N y j = v_add A (norm2 A cj N x j) (norm2 A cj N (minus A y x) j)).
Proof.
  intros F C M N K rcond a b s r x HM HN (u & vt & HS & Hr & _ & Hn & Hx) Hz j Hj.
  assert (HNE : forall i, 0 <= i < N -> product_at A M (adjoint cj a) (residual A N a x b) i j = v_zero A).
  { apply (svd2_normal A F cj C M N a s u vt HS r); [|exact Hz]. intros k Hk. apply (svd2_residual A F cj M N a s u vt HN HS r b x K); auto. }
  split; [exact HNE|]. split; [intros y; now apply (pythagoras A F cj C)|]. intros y Hy.
  assert (Ho : product_at A N (adjoint cj x) (minus A y x) j j = v_zero A).
  { apply (svd2_small A F cj C M N a s u vt HN HS r b x K); auto. intros i Hi. rewrite (pr_minus_r A F), Hy by auto. pose proof (F_R F) as Rr. destruct Rr as [_ _ _ _ _ _ _ Hsub Hopp]. now rewrite Hsub, Hopp. }
  rewrite <- (norm2_sum A F cj C N x (minus A y x) j Ho). unfold norm2. apply sum_to_ext. intros i _. unfold minus. pose proof (F_R F) as Rr. destruct Rr as [H0 Hcm Has _ _ _ _ Hsub Hopp].
  assert (E : v_add A (x i j) (v_sub A (y i j) (x i j)) = y i j) by (rewrite Hsub, (Hcm (y i j)), Has, Hopp; apply H0). now rewrite E.
Qed.

(** b is not checked to have as many rows as the solution: if it is part of a larger matrix, elements outside b are overwritten *)
Theorem C74_rows_refuted : is_field A -> conjugation A cj -> gelss_promise A cj keep G -> forall checks rcond, exists (a b : view) (m : mem V), column_major a 1 2 1 /\ column_major b 1 1 2 /\ disjoint a b /\
  forall m' s r, gelss G checks a b [] rcond m = BRet (m', Some (s, r)) -> r = 1 -> exists q, ~ is_cell_of a q /\ ~ is_cell_of b q /\ m' q <> m q.
Proof.
  intros F C HP checks rcond. set (a := ex_view [1; 0]%nat [1; 2] [1; 1] 0). set (b := ex_view [1; 0]%nat [1; 1] [1; 2] 10).
  set (m := fun q : Z => if (q =? 1) || (q =? 10) then v_one A else v_zero A). exists a, b, m.
  assert (Ha : column_major a 1 2 1) by (repeat split; lia). assert (Hb : column_major b 1 1 2) by (repeat split; lia).
  assert (Ra : forall q, in_rect 0 1 1 2 q -> q = 0 \/ q = 1) by (intros q (i & j & Hi & Hj & Eq); unfold col_major in Eq; lia).
  assert (D : disjoint a b).
  { intros q H1 H2. apply (rect_cells a 1 2 1 Ha) in H1. apply (rect_cells b 1 1 2 Hb) in H2. change (v_base a) with 0 in H1. apply Ra in H1. destruct H2 as (i & j & Hi & Hj & Eq). unfold col_major in Eq. change (v_base b) with 10 in Eq. lia. }
  split; [exact Ha|]. split; [exact Hb|]. split; [exact D|]. intros m' s r E Er. subst r.
  assert (Rb : forall q, in_rect 10 2 2 1 q -> q = 10 \/ q = 11) by (intros q (i & j & Hi & Hj & Eq); unfold col_major in Eq; lia).
  destruct (HP 1 2 1 0 1 10 2 rcond m ltac:(lia) ltac:(lia) ltac:(lia) ltac:(lia) ltac:(lia)) as (m1 & sv & r & info & EG & Hs & Hf).
  { intros q H1 H2. change (Z.max 1 2) with 2 in H2. apply Ra in H1. apply Rb in H2. lia. }
  unfold gelss in E. change (has_F_layout a && has_F_layout b) with true in E. cbn [negb] in E. change (min_stride (v_lay a) =? 1) with true in E. change (min_stride (v_lay b) =? 1) with true in E. rewrite !expects_true in E.
  change (int32 (extent a 0)) with 1 in E. change (int32 (extent a 1)) with 2 in E. change (int32 (extent b 1)) with 1 in E. change (get_ld a) with 1 in E. change (get_ld b) with 2 in E. change (v_base a) with 0 in E. change (v_base b) with 10 in E.
  rewrite EG in E. cbn [bbind] in E. destruct (Z.eqb_spec info 0) as [Ei|]; [|discriminate]. assert (E1 : m1 = m' /\ r = 1) by (inversion E; auto). destruct E1 as [-> ->]. specialize (Hs Ei).
  exists 11. split; [intros Hq|split; [intros Hq|]].
  - apply (rect_cells a 1 2 1 Ha) in Hq. change (v_base a) with 0 in Hq. apply Ra in Hq. lia.
  - apply (rect_cells b 1 1 2 Hb) in Hq. destruct Hq as (i & j & Hi & Hj & Eq). unfold col_major in Eq. change (v_base b) with 10 in Eq. lia.
  - set (a0 := seen m 0 1) in *. set (b0 := seen m 10 2) in *. set (x := seen m' 10 2) in *. destruct Hs as (u & vt & HS & Hr & _ & Hn & Hx).
    pose proof (svd2_residual A F cj 1 2 a0 sv u vt ltac:(lia) HS 1 b0 x 1 ltac:(lia) Hn Hx 0 0 ltac:(lia) ltac:(lia)) as Hres.
    (* u is 1 by 1: the residual is zero *)
    assert (Hz : residual A 2 a0 x b0 0 0 = v_zero A).
    { transitivity (product_at A 1 (unit_matrix A) (residual A 2 a0 x b0) 0 0); [symmetry; apply (product_unit_l A F); lia|].
      rewrite (product_ext A 1 _ (residual A 2 a0 x b0) (product_at A 1 u (adjoint cj u)) (residual A 2 a0 x b0)); [|intros l Hl; symmetry; apply HS; lia|reflexivity].
      rewrite (product_assoc A (F_R F)). apply (sum_to_zero A (F_R F)). intros l Hl. assert (l = 0) as -> by lia. rewrite Hres. pose proof (F_R F) as Rr. apply (rmul_0_r A F). }
    pose proof (Radd_0_l (F_R F)) as A0. pose proof (Rmul_1_l (F_R F)) as M1. pose proof (Radd_comm (F_R F)) as Ac. pose proof (Rsub_def (F_R F)) as Sd. pose proof (Ropp_def (F_R F)) as Od. pose proof (Radd_assoc (F_R F)) as Aa.
    assert (Ex : product_at A 2 a0 x 0 0 = m' 11).
    { unfold product_at, sum_to. change (Z.to_nat 2) with 2%nat. cbn [sum_nat]. change (Z.of_nat 0) with 0. change (Z.of_nat 1) with 1. change (a0 0 0) with (v_zero A). change (a0 0 1) with (v_one A). change (x 1 0) with (m' 11).
      rewrite M1, (rmul_0_l A F), A0. apply A0. }
    unfold residual, minus in Hz. rewrite Ex in Hz. change (b0 0 0) with (v_one A) in Hz. change (m 11) with (v_zero A). intros E0. rewrite E0 in Hz.
    apply (F_1_neq_0 F). rewrite Sd, A0 in Hz. transitivity (v_add A (v_one A) (v_opp A (v_one A))); [now rewrite Hz, Ac, A0|apply Od].
Qed.
End Wrapper.
Print Assumptions C74_gelss.
Print Assumptions C74_least_squares.
Print Assumptions C74_rows_refuted.

(** non-vacuity: a library that keeps the promise, over the field of seven elements, made from the decompositions of P_Gelss *)
Definition F7_gelss : f77_gelss_t F7 := fun M N K pa lda pb ldb rcond m =>
  match f7_svd M N (seen m pa lda) with
  | Some (s, u, vt) => BRet (store m pb ldb N K (fun i j => sum_to F7_arith 1 (fun k => f7_mul (vt k i) (v_div F7_arith (sum_to F7_arith M (fun l => f7_mul (u l k) (seen m pb ldb l j))) (nth (Z.to_nat k) s e0)))), (s, 1, 0))
  | None => BRet (m, ([], 0, 1))
  end.
Example C74_ex_promise : gelss_promise F7_arith (fun q => q) (fun _ _ s => s <> e0) F7_gelss.
Proof.
  intros M N K pa lda pb ldb rcond m HM HN HK Ha Hb D. unfold F7_gelss. destruct (f7_svd M N (seen m pa lda)) as [[[s u] vt]|] eqn:E; [|eexists _, _, _, 1; split; [reflexivity|split; [discriminate|reflexivity]]].
  assert (HNM : N = 1 /\ 1 <= M /\ (s = [e1] \/ s = [e3])).
  { unfold f7_svd in E. destruct (Z.eqb_spec N 1) as [->|]; [|discriminate]. cbn [negb] in E.
    destruct (Z.eqb_spec M 1) as [->|]; [destruct (seen m pa lda 0 0); try discriminate; injection E as <- _ _; auto|]. destruct (Z.eqb_spec M 2) as [->|]; [|discriminate]. destruct (seen m pa lda 0 0); try discriminate. destruct (seen m pa lda 1 0); try discriminate. injection E as <- _ _. auto. }
  destruct HNM as (EN & HM1 & Es). assert (HNM : 0 <= N <= M) by lia. eexists _, _, _, 0. split; [reflexivity|]. split.
  - intros _. exists u, vt. split; [exact (C62_ex_promise7 M N _ s u vt HNM E)|]. rewrite EN, Z.min_r by lia. split; [lia|]. split; [|split].
    + intros k Hk. assert (k = 0) as -> by lia. split; [|lia]. intros _. destruct Es as [-> | ->]; discriminate.
    + intros k Hk. assert (k = 0) as -> by lia. destruct Es as [-> | ->]; discriminate.
    + intros i j Hi Hj. rewrite store_seen by lia. reflexivity.
  - intros q _ H2. apply store_outside; [lia|]. intros (i & j & Hi & Hj & Eq). apply H2. exists i, j. repeat split; lia || exact Eq.
Qed.
(** the column (1, 1), right-hand side (1, 3), in the first two rows of a three-row matrix: the solution is 2; s has room for three values *)
Example C74_ex : let a := ex_view [1; 0]%nat [2; 1] [1; 3] 0 in let b := ex_view [1; 0]%nat [3; 1] [1; 4] 10 in
  column_major a 2 1 3 /\ column_major b 3 1 4 /\
  match gelss F7_gelss true a b [e6; e6; e5] e0 (fun q => if q =? 11 then e3 else e1) with BRet (m', Some (s, r)) => (s, r, map (fun i => entry b m' i 0) [0; 1; 2]) | _ => ([], 0, []) end
  = ([e3; e6; e5], 1, [e2; e3; e1]).
Proof. split; [repeat split; lia|]. split; [repeat split; lia|]. vm_compute. reflexivity. Qed.
