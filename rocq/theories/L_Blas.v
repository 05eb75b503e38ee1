(** Proofs about the BLAS wrappers. *)
From Coq Require Import Ring.
From Verif Require Import Base M_Perm M_IdxMap M_Slice M_Loops M_Assign M_Expr M_Transform M_Blas S_Layout S_Assign S_Blas
  L_Perm L_IdxMap L_Loops L_Assign L_Transform.

Lemma int32_id x : int_range x -> int32 x = x.
Proof. apply int32_small. Qed.

Section Sums.
Context {V : Type} (A : arith V) (R : is_ring A).
Declare Scope vs. Local Notation "x + y" := (v_add A x y) : vs. Local Notation "x * y" := (v_mul A x y) : vs. Local Notation "- x" := (v_opp A x) : vs. Local Notation "x - y" := (v_sub A x y) : vs.
Local Notation "0" := (v_zero A) : vs. Local Notation "1" := (v_one A) : vs.
Delimit Scope vs with vs.
Let Rth : ring_theory (v_zero A) (v_one A) (v_add A) (v_mul A) (v_sub A) (v_opp A) eq := R.
Add Ring VR : Rth.

Lemma zseq_of_nat n : zseq (Z.of_nat n) = map Z.of_nat (seq 0 n).
Proof. unfold zseq. now rewrite Nat2Z.id. Qed.
Lemma acc_loop_sum n f acc : acc_loop A n f acc = (acc + sum_to A n f)%vs.
Proof.
  unfold acc_loop, sum_to, zseq. induction (Z.to_nat n) as [|k IH].
  - cbn [seq map fold_left sum_nat]. ring.
  - rewrite seq_S, map_app, fold_left_app, IH. cbn [map fold_left plus sum_nat]. ring.
Qed.
Lemma sum_nat_ext n f g : (forall i, 0 <= i < Z.of_nat n -> f i = g i) -> sum_nat A n f = sum_nat A n g.
Proof.
  induction n as [|n IH]; intros H; [reflexivity|]. cbn [sum_nat]. rewrite IH by (intros; apply H; lia). f_equal. apply H. lia.
Qed.
Lemma sum_to_ext n f g : (forall i, 0 <= i < n -> f i = g i) -> sum_to A n f = sum_to A n g.
Proof. intros H. apply sum_nat_ext. intros i Hi. apply H. lia. Qed.
Lemma sum_nat_scale n c f : sum_nat A n (fun i => c * f i)%vs = (c * sum_nat A n f)%vs.
Proof. induction n as [|n IH]; cbn [sum_nat]; [ring|]. rewrite IH. ring. Qed.
Lemma sum_to_scale n c f : sum_to A n (fun i => c * f i)%vs = (c * sum_to A n f)%vs.
Proof. apply sum_nat_scale. Qed.
Lemma sum_to_comm n f g : sum_to A n (fun i => f i * g i)%vs = sum_to A n (fun i => g i * f i)%vs.
Proof. apply sum_to_ext. intros. ring. Qed.
End Sums.

(** ** writing a rectangle of cells *)
Lemma NoDup_app' {T} (l r : list T) : NoDup l -> NoDup r -> (forall x, In x l -> ~ In x r) -> NoDup (l ++ r).
Proof.
  induction 1 as [|x l Hx ND IH]; intros Hr HD; [exact Hr|]. cbn [app]. constructor.
  - intros H. apply in_app_or in H. destruct H; [contradiction|]. apply (HD x); [now left|auto].
  - apply IH; auto. intros y Hy. apply HD. now right.
Qed.
Definition rect (M N : Z) : list (Z * Z) := flat_map (fun j => map (fun i => (i, j)) (zseq M)) (zseq N).
Lemma rect_In M N i j : In (i, j) (rect M N) <-> 0 <= i < M /\ 0 <= j < N.
Proof.
  unfold rect. rewrite in_flat_map. split.
  - intros [j' [Hj H]]. apply in_map_iff in H. destruct H as [i' [E Hi]]. injection E as <- <-. rewrite zseq_In in *. lia.
  - intros [Hi Hj]. exists j. rewrite zseq_In. split; [lia|]. apply in_map_iff. exists i. rewrite zseq_In. split; [reflexivity|lia].
Qed.
Lemma rect_fold {S : Type} M N (f : S -> Z -> Z -> S) (s : S) :
  fold_left (fun s j => fold_left (fun s i => f s i j) (zseq M) s) (zseq N) s = fold_left (fun s p => f s (fst p) (snd p)) (rect M N) s.
Proof.
  unfold rect. rewrite fold_left_flat_map. apply fold_left_ext_in. intros t j _. now rewrite fold_left_map.
Qed.
Lemma zseq_NoDup n : NoDup (zseq n).
Proof. unfold zseq. apply NoDup_map_on; [apply seq_NoDup|]. intros; lia. Qed.
Lemma rect_NoDup M N : NoDup (rect M N).
Proof.
  unfold rect. pose proof (zseq_NoDup N) as H. induction H as [|j l Hj ND IH]; [constructor|]. cbn [flat_map].
  apply NoDup_app'.
  - apply NoDup_map_on; [apply zseq_NoDup|]. intros x y _ _ E. now injection E.
  - exact IH.
  - intros [i j'] H1 H2. apply in_map_iff in H1. destruct H1 as [i' [E _]]. injection E as <- <-. apply in_flat_map in H2. destruct H2 as [j2 [Hj2 H2]].
    apply in_map_iff in H2. destruct H2 as [i2 [E _]]. injection E as <- <-. contradiction.
Qed.

Lemma write_rect {V} (ad : Z -> Z -> Z) M N (val : mem V -> Z -> Z -> V) (m : mem V) :
  (forall i j i' j', 0 <= i < M -> 0 <= j < N -> 0 <= i' < M -> 0 <= j' < N -> ad i j = ad i' j' -> i = i' /\ j = j') ->
  (forall i j m1 m2, 0 <= i < M -> 0 <= j < N ->
     (forall a, a = ad i j \/ (forall i' j', 0 <= i' < M -> 0 <= j' < N -> a <> ad i' j') -> m1 a = m2 a) -> val m1 i j = val m2 i j) ->
  let m' := fold_left (fun m j => fold_left (fun m i => mset m (ad i j) (val m i j)) (zseq M) m) (zseq N) m in
  (forall i j, 0 <= i < M -> 0 <= j < N -> m' (ad i j) = val m i j) /\
  (forall a, (forall i j, 0 <= i < M -> 0 <= j < N -> a <> ad i j) -> m' a = m a).
Proof.
  intros HI HV m'. assert (E : m' = fold_left (fun m p => mset m (ad (fst p) (snd p)) (val m (fst p) (snd p))) (rect M N) m) by apply (rect_fold M N (fun m i j => mset m (ad i j) (val m i j))).
  assert (HO : forall a, ~ In a (map (fun p => ad (fst p) (snd p)) (rect M N)) <-> forall i j, 0 <= i < M -> 0 <= j < N -> a <> ad i j).
  { intros a. rewrite in_map_iff. split.
    - intros H i j Hi Hj ->. apply H. exists (i, j). split; [reflexivity|]. now apply rect_In.
    - intros H [[i j] [<- Hp]]. apply rect_In in Hp. eapply H; try reflexivity; apply Hp. }
  split.
  - intros i j Hi Hj. rewrite E. apply (write_values (rect M N) (fun p => ad (fst p) (snd p)) (fun m p => val m (fst p) (snd p)) m) with (k := (i, j)); [| |now apply rect_In].
    + apply NoDup_map_on; [apply rect_NoDup|]. intros [x y] [x' y'] H1 H2 H. apply rect_In in H1, H2. cbn [fst snd] in H. destruct (HI x y x' y') as [-> ->]; tauto.
    + intros [x y] m1 m2 Hp H. apply rect_In in Hp. apply HV; [tauto|tauto|]. intros a Ha. apply H. rewrite HO. exact Ha.
  - intros a Ha. rewrite E. apply (write_frame (rect M N) (fun p => ad (fst p) (snd p)) (fun m p => val m (fst p) (snd p))). now apply HO.
Qed.
Lemma col_major_inj p ld M i j i' j' : M <= ld -> 0 <= i < M -> 0 <= i' < M -> col_major p ld i j = col_major p ld i' j' -> i = i' /\ j = j'.
Proof.
  unfold col_major. intros HM Hi Hi' E. assert ((j - j') * ld = i' - i) by lia. assert (j = j'); [|lia].
  destruct (Z.lt_trichotomy j j') as [H1|[H1|H1]]; [|auto|]; exfalso; nia.
Qed.

Section Library.
Context {V : Type} (A : arith V) (cj : V -> V) (R : is_ring A).
Declare Scope vs. Local Notation "x + y" := (v_add A x y) : vs. Local Notation "x * y" := (v_mul A x y) : vs.
Delimit Scope vs with vs.
Let Rth : ring_theory (v_zero A) (v_one A) (v_add A) (v_mul A) (v_sub A) (v_opp A) eq := R.
Add Ring VR : Rth.

(** the address that op(A)(i, j) reads *)
Definition op_addr (o : op) (p ld i j : Z) : Z := match o with OpN => col_major p ld i j | _ => col_major p ld j i end.
Definition op_val (o : op) (x : V) : V := match o with OpC => cj x | _ => x end.
Lemma op_at_addr (m : mem V) o p ld i j : op_at cj m o p ld i j = op_val o (m (op_addr o p ld i j)).
Proof. destruct o; reflexivity. Qed.

Lemma f77_gemm_spec oa ob M N K alpha pa lda pb ldb beta pc ldc (m : mem V) :
  0 <= M -> 0 <= N -> 0 <= K -> Z.max 1 (match oa with OpN => M | _ => K end) <= lda -> Z.max 1 (match ob with OpN => K | _ => N end) <= ldb -> Z.max 1 M <= ldc ->
  (forall i j i' l, 0 <= i < M -> 0 <= j < N -> 0 <= i' < M -> 0 <= l < K -> col_major pc ldc i j <> op_addr oa pa lda i' l) ->
  (forall i j l j', 0 <= i < M -> 0 <= j < N -> 0 <= l < K -> 0 <= j' < N -> col_major pc ldc i j <> op_addr ob pb ldb l j') ->
  exists m', f77_gemm A cj oa ob M N K alpha pa lda pb ldb beta pc ldc m = BRet m' /\
  (forall i j, 0 <= i < M -> 0 <= j < N -> m' (col_major pc ldc i j) =
     (alpha * sum_to A K (fun l => op_val oa (m (op_addr oa pa lda i l)) * op_val ob (m (op_addr ob pb ldb l j))) + beta * m (col_major pc ldc i j))%vs) /\
  (forall a, (forall i j, 0 <= i < M -> 0 <= j < N -> a <> col_major pc ldc i j) -> m' a = m a).
Proof.
  intros HM HN HK Ha Hb Hc HA HB. unfold f77_gemm.
  destruct (Z.ltb_spec M 0); [lia|]. destruct (Z.ltb_spec N 0); [lia|]. destruct (Z.ltb_spec K 0); [lia|].
  destruct (Z.ltb_spec lda (Z.max 1 match oa with OpN => M | _ => K end)); [lia|].
  destruct (Z.ltb_spec ldb (Z.max 1 match ob with OpN => K | _ => N end)); [lia|].
  destruct (Z.ltb_spec ldc (Z.max 1 M)); [lia|]. cbn [orb].
  destruct (Z.eqb_spec M 0) as [->|NM]; [eexists; split; [reflexivity|]; split; [intros; lia|auto]|].
  destruct (Z.eqb_spec N 0) as [->|NN]; [eexists; split; [reflexivity|]; split; [intros; lia|auto]|].
  cbn [orb]. eexists. split; [reflexivity|].
  destruct (write_rect (col_major pc ldc) M N (fun m i j =>
    (alpha * acc_loop A K (fun l => op_at cj m oa pa lda i l * op_at cj m ob pb ldb l j) (v_zero A) + beta * m (col_major pc ldc i j))%vs) m) as [W1 W2].
  - intros i j i' j' Hi Hj Hi' Hj' E. eapply (col_major_inj pc ldc M); eauto; lia.
  - intros i j m1 m2 Hi Hj HH. rewrite (HH (col_major pc ldc i j)) by now left. f_equal. f_equal. rewrite !acc_loop_sum by auto. f_equal. apply sum_to_ext.
    intros l Hl. rewrite !op_at_addr. rewrite (HH (op_addr oa pa lda i l)), (HH (op_addr ob pb ldb l j)); [reflexivity| |]; right; intros i' j' Hi' Hj' E; symmetry in E; [exact (HB _ _ _ _ Hi' Hj' Hl Hj E)|exact (HA _ _ _ _ Hi' Hj' Hi Hl E)].
  - split; [|exact W2]. intros i j Hi Hj. rewrite W1 by auto. f_equal. f_equal. rewrite acc_loop_sum by auto. rewrite (Radd_0_l Rth). apply sum_to_ext. intros l _. now rewrite !op_at_addr.
Qed.
End Library.

(** ** matrices in memory *)
Lemma cell2 v s0 s1 i j : im_str (v_lay v) = [s0; s1] -> cell v [i; j] = v_base v + i * s0 + j * s1.
Proof. intros E. unfold cell, addr. rewrite E. cbn [dot]. lia. Qed.
Lemma row_major_transpose v r c ld : row_major v r c ld -> column_major (snd (transpose_view AlgM v)) c r ld.
Proof.
  intros (El & Eo & Es & H). unfold column_major, transpose_view, permuted_indices_view, map_layout_transform. cbn [snd v_lay]. unfold transpose. cbn [im_len im_so im_str].
  rewrite El, Eo, Es. repeat split. exact H.
Qed.
Lemma column_major_transpose v r c ld : column_major v r c ld -> row_major (snd (transpose_view AlgM v)) c r ld.
Proof.
  intros (El & Eo & Es & H). unfold row_major, transpose_view, permuted_indices_view, map_layout_transform. cbn [snd v_lay]. unfold transpose. cbn [im_len im_so im_str].
  rewrite El, Eo, Es. repeat split. exact H.
Qed.
Lemma in_view2 v r c i j : im_len (v_lay v) = [r; c] -> in_view v [i; j] <-> 0 <= i < r /\ 0 <= j < c.
Proof.
  intros E. unfold in_view, valid_idx. rewrite E. split.
  - intros H. inversion H as [|? ? ? ? H1 H2]; subst. inversion H2 as [|? ? ? ? H3 H4]; subst. auto.
  - intros [H1 H2]. repeat constructor; lia.
Qed.
Lemma in_view2_inv v r c idx : im_len (v_lay v) = [r; c] -> in_view v idx -> exists i j, idx = [i; j] /\ 0 <= i < r /\ 0 <= j < c.
Proof.
  intros E. unfold in_view, valid_idx. rewrite E. intros H. inversion H as [|i ? ? ? H1 H2]; subst. inversion H2 as [|j ? ? ? H3 H4]; subst. inversion H4; subst. eauto.
Qed.
Lemma disjoint_cells2 v w r c r' c' i j i' j' : disjoint v w -> im_len (v_lay v) = [r; c] -> im_len (v_lay w) = [r'; c'] ->
  0 <= i < r -> 0 <= j < c -> 0 <= i' < r' -> 0 <= j' < c' -> cell v [i; j] <> cell w [i'; j'].
Proof.
  intros D E E' Hi Hj Hi' Hj' H. apply (D (cell v [i; j])).
  - exists [i; j]. split; [now apply (in_view2 v r c)|reflexivity].
  - exists [i'; j']. split; [now apply (in_view2 w r' c')|exact H].
Qed.
Lemma blas_len v r c : blas_matrix v r c -> im_len (v_lay v) = [r; c].
Proof. intros (_ & _ & _ & _ & ld & _ & [H|H]); apply H. Qed.
Lemma row_major_layout v r c ld : row_major v r c ld -> has_C_layout v = true /\ has_F_layout v = false.
Proof. intros (El & Eo & _). unfold has_C_layout, has_F_layout, is_stride_order_C, is_stride_order_Fortran, rank. rewrite El, Eo. split; reflexivity. Qed.
Lemma column_major_layout v r c ld : column_major v r c ld -> has_C_layout v = false /\ has_F_layout v = true.
Proof. intros (El & Eo & _). unfold has_C_layout, has_F_layout, is_stride_order_C, is_stride_order_Fortran, rank. rewrite El, Eo. split; reflexivity. Qed.
Lemma row_major_ld v r c ld : int_range ld -> row_major v r c ld -> get_ld v = ld.
Proof. intros Hl H. unfold get_ld. destruct (row_major_layout v r c ld H) as [_ ->]. destruct H as (_ & _ & -> & _). cbn [nthZ nth]. now apply int32_id. Qed.
Lemma column_major_ld v r c ld : int_range ld -> column_major v r c ld -> get_ld v = ld.
Proof. intros Hl H. unfold get_ld. destruct (column_major_layout v r c ld H) as [_ ->]. destruct H as (_ & _ & -> & _). cbn [nthZ nth]. now apply int32_id. Qed.
Lemma row_major_cell v r c ld i j : row_major v r c ld -> cell v [i; j] = v_base v + i * ld + j.
Proof. intros (_ & _ & Es & _). rewrite (cell2 v _ _ i j Es). lia. Qed.
Lemma column_major_cell v r c ld i j : column_major v r c ld -> cell v [i; j] = v_base v + i + j * ld.
Proof. intros (_ & _ & Es & _). rewrite (cell2 v _ _ i j Es). lia. Qed.
Lemma blas_transpose v r c : blas_matrix v r c -> blas_matrix (snd (transpose_view AlgM v)) c r.
Proof.
  intros (Hr & Hc & Ir & Ic & ld & Il & H). split; [auto|]. split; [auto|]. split; [auto|]. split; [auto|]. exists ld. split; [auto|].
  destruct H; [right; now apply row_major_transpose|left; now apply column_major_transpose].
Qed.
Lemma transpose_base alg v : v_base (snd (transpose_view alg v)) = v_base v.
Proof. reflexivity. Qed.
Lemma transpose_cell v r c i j : blas_matrix v r c -> cell (snd (transpose_view AlgM v)) [i; j] = cell v [j; i].
Proof.
  intros (Hr & Hc & Ir & Ic & ld & Il & [H|H]).
  - rewrite (row_major_cell v r c ld _ _ H), (column_major_cell _ _ _ _ i j (row_major_transpose _ _ _ _ H)). rewrite transpose_base. lia.
  - rewrite (column_major_cell v r c ld _ _ H), (row_major_cell _ _ _ _ i j (column_major_transpose _ _ _ _ H)). rewrite transpose_base. lia.
Qed.
Lemma transpose_is_cell v r c a : blas_matrix v r c -> is_cell_of (snd (transpose_view AlgM v)) a <-> is_cell_of v a.
Proof.
  intros H. pose proof (blas_len _ _ _ H) as E. pose proof (blas_len _ _ _ (blas_transpose _ _ _ H)) as E'. split; intros [idx [Hi ->]].
  - destruct (in_view2_inv _ _ _ _ E' Hi) as (i & j & -> & H1 & H2). exists [j; i]. split; [now apply (in_view2 v r c)|]. now apply (transpose_cell v r c).
  - destruct (in_view2_inv _ _ _ _ E Hi) as (i & j & -> & H1 & H2). exists [j; i]. split; [now apply (in_view2 _ c r)|]. symmetry. now apply (transpose_cell v r c).
Qed.
Lemma transpose_same_order v w r c r' c' : blas_matrix v r c -> blas_matrix w r' c' ->
  same_order (snd (transpose_view AlgM v)) (snd (transpose_view AlgM w)) -> same_order v w.
Proof.
  intros (_ & _ & _ & _ & ld & _ & H) (_ & _ & _ & _ & ld' & _ & H'). unfold same_order.
  destruct H as [H|H], H' as [H'|H'].
  - destruct H as (_ & -> & _), H' as (_ & -> & _). reflexivity.
  - apply row_major_transpose in H. apply column_major_transpose in H'. destruct H as (_ & -> & _), H' as (_ & -> & _). discriminate.
  - apply column_major_transpose in H. apply row_major_transpose in H'. destruct H as (_ & -> & _), H' as (_ & -> & _). discriminate.
  - destruct H as (_ & -> & _), H' as (_ & -> & _). reflexivity.
Qed.

Section Wrappers.
Context {V : Type} (A : arith V) (cj : V -> V) (R : is_ring A).
Declare Scope vs. Local Notation "x + y" := (v_add A x y) : vs. Local Notation "x * y" := (v_mul A x y) : vs.
Delimit Scope vs with vs.
Let Rth : ring_theory (v_zero A) (v_one A) (v_add A) (v_mul A) (v_sub A) (v_opp A) eq := R.
Add Ring VR2 : Rth.

Lemma mat_op (x : mat) r c : blas_matrix (m_view x) r c -> (m_conj x = true -> im_so (v_lay (m_view x)) = [0; 1]%nat) ->
  exists o, get_op (m_conj x) (has_C_layout (m_view x)) = Some o /\ get_op (m_conj x) (negb (has_F_layout (m_view x))) = Some o /\
    (forall i j, op_addr o (v_base (m_view x)) (get_ld (m_view x)) i j = cell (m_view x) [i; j]) /\
    Z.max 1 (match o with OpN => r | _ => c end) <= get_ld (m_view x) /\ (has_C_layout (m_view x) = match o with OpN => false | _ => true end) /\
    forall v, op_val cj o v = if m_conj x then cj v else v.
Proof.
  intros (Hr & Hc & Ir & Ic & ld & Il & [H|H]) HC.
  - destruct (row_major_layout _ _ _ _ H) as [-> ->]. exists (if m_conj x then OpC else OpT). rewrite (row_major_ld _ _ _ _ Il H).
    split; [destruct (m_conj x); reflexivity|]. split; [destruct (m_conj x); reflexivity|]. split; [|split; [|split]].
    + intros i j. rewrite (row_major_cell _ _ _ _ i j H). destruct (m_conj x); cbn [op_addr]; unfold col_major; lia.
    + destruct H as (_ & _ & _ & H). destruct (m_conj x); exact H.
    + destruct (m_conj x); reflexivity.
    + intros v. destruct (m_conj x); reflexivity.
  - destruct (column_major_layout _ _ _ _ H) as [-> ->]. rewrite (column_major_ld _ _ _ _ Il H). destruct (m_conj x) eqn:Ec.
    + exfalso. destruct H as (_ & H & _). rewrite HC in H by auto. discriminate.
    + exists OpN. split; [reflexivity|]. split; [reflexivity|]. split; [|split; [|split; [reflexivity|reflexivity]]].
      * intros i j. rewrite (column_major_cell _ _ _ _ i j H). cbn [op_addr]. unfold col_major. lia.
      * apply H.
Qed.

Lemma gemm_fortran_spec alpha (x y : mat) beta (c : view) (m : mem V) r k n ld :
  blas_matrix (m_view x) r k -> blas_matrix (m_view y) k n -> blas_matrix c r n -> column_major c r n ld ->
  (m_conj x = true -> im_so (v_lay (m_view x)) = [0; 1]%nat) -> (m_conj y = true -> im_so (v_lay (m_view y)) = [0; 1]%nat) ->
  disjoint c (m_view x) -> disjoint c (m_view y) ->
  exists m', gemm_fortran A cj alpha x y beta c m = BRet m' /\
    (forall i j, 0 <= i < r -> 0 <= j < n -> m' (cell c [i; j]) = (alpha * product_at A k (mat_at cj x m) (mat_at cj y m) i j + beta * m (cell c [i; j]))%vs) /\
    unchanged_outside c m m'.
Proof.
  intros Hx Hy Hc Fc Cx Cy Dx Dy. destruct (mat_op x r k Hx Cx) as (oa & Ea & _ & Aa & La & _ & Va). destruct (mat_op y k n Hy Cy) as (ob & Eb & _ & Ab & Lb & _ & Vb).
  unfold gemm_fortran. rewrite Ea, Eb. pose proof (blas_len _ _ _ Hx) as Ex. pose proof (blas_len _ _ _ Hy) as Ey. pose proof (blas_len _ _ _ Hc) as Ec.
  unfold extent. rewrite Ex, Ey. cbn [nthZ nth]. destruct Hx as (Hr & Hk & Ir & Ik & _). destruct Hy as (_ & Hn & _ & In & _). rewrite !int32_id by auto.
  assert (Lc : get_ld c = ld). { apply (column_major_ld c r n); auto. destruct Hc as (_ & _ & _ & _ & ld' & Il & [H|H]).
    - destruct H as (_ & H & _). destruct Fc as (_ & F & _). rewrite H in F. discriminate.
    - destruct H as (_ & _ & H & _). destruct Fc as (_ & _ & F & _). rewrite H in F. now injection F as <-. }
  assert (Ac : forall i j, col_major (v_base c) (get_ld c) i j = cell c [i; j]) by (intros i j; rewrite Lc, (column_major_cell _ _ _ _ i j Fc); reflexivity).
  destruct (f77_gemm_spec A cj R oa ob r n k alpha (v_base (m_view x)) (get_ld (m_view x)) (v_base (m_view y)) (get_ld (m_view y)) beta (v_base c) (get_ld c) m) as (m' & Hm & HV & HO); auto.
  - rewrite Lc. apply Fc.
  - intros i j i' l Hi Hj Hi' Hl. rewrite Ac, Aa. now apply (disjoint_cells2 c (m_view x) r n r k).
  - intros i j l j' Hi Hj Hl Hj'. rewrite Ac, Ab. now apply (disjoint_cells2 c (m_view y) r n k n).
  - exists m'. split; [exact Hm|]. split.
    + intros i j Hi Hj. rewrite <- Ac, HV by auto. f_equal. f_equal. unfold product_at. apply sum_to_ext. intros l Hl. rewrite Va, Vb, Aa, Ab. reflexivity.
    + intros a Ha. apply HO. intros i j Hi Hj ->. apply Ha. exists [i; j]. split; [now apply (in_view2 c r n)|apply Ac].
Qed.
Lemma mat_at_transpose (x : mat) r c (m : mem V) i j : blas_matrix (m_view x) r c -> mat_at cj (transpose_mat x) m i j = mat_at cj x m j i.
Proof. intros H. unfold mat_at, transpose_mat. cbn [m_conj m_view]. now rewrite (transpose_cell _ _ _ i j H). Qed.
Lemma disjoint_transpose v w r c r' c' : blas_matrix v r c -> blas_matrix w r' c' -> disjoint v w -> disjoint (snd (transpose_view AlgM v)) (snd (transpose_view AlgM w)).
Proof. intros Hv Hw D a H1 H2. apply (D a); [now apply (transpose_is_cell v r c)|now apply (transpose_is_cell w r' c')]. Qed.
Lemma blas_order v r c : blas_matrix v r c -> im_so (v_lay v) = [0; 1]%nat \/ im_so (v_lay v) = [1; 0]%nat.
Proof. intros (_ & _ & _ & _ & ld & _ & [H|H]); [left|right]; apply H. Qed.
Lemma min_stride_blas v r c : blas_matrix v r c -> min_stride (v_lay v) = 1.
Proof. intros (_ & _ & _ & _ & ld & _ & [(E & Eo & Es & _)|(E & Eo & Es & _)]); unfold min_stride, rank; rewrite E, Eo, Es; reflexivity. Qed.
Lemma gemm_checks_ok x y c r k n : blas_matrix x r k -> blas_matrix y k n -> blas_matrix c r n -> gemm_checks x y c = true.
Proof.
  intros Hx Hy Hc. unfold gemm_checks, extent. rewrite (blas_len _ _ _ Hx), (blas_len _ _ _ Hy), (blas_len _ _ _ Hc). cbn [nthZ nth].
  rewrite (min_stride_blas _ _ _ Hx), (min_stride_blas _ _ _ Hy), (min_stride_blas _ _ _ Hc), !Z.eqb_refl. reflexivity.
Qed.
Lemma expects_true {T} checks (k : bout T) : expects checks true k = k.
Proof. unfold expects. now rewrite andb_false_r. Qed.

Lemma gemm_spec checks alpha (x y : mat) beta (c : view) (m : mem V) r k n :
  blas_matrix (m_view x) r k -> blas_matrix (m_view y) k n -> blas_matrix c r n -> conj_allowed x c -> conj_allowed y c ->
  disjoint c (m_view x) -> disjoint c (m_view y) ->
  exists m', gemm A cj checks alpha x y beta c m = BRet m' /\
    (forall i j, 0 <= i < r -> 0 <= j < n -> m' (cell c [i; j]) = (alpha * product_at A k (mat_at cj x m) (mat_at cj y m) i j + beta * m (cell c [i; j]))%vs) /\
    unchanged_outside c m m'.
Proof.
  intros Hx Hy Hc Cx Cy Dx Dy. unfold gemm. rewrite (gemm_checks_ok _ _ _ r k n) by auto. rewrite expects_true.
  pose proof Hc as Hc'. destruct Hc' as (_ & _ & _ & _ & ld & Il & [H|H]).
  - destruct (row_major_layout _ _ _ _ H) as [-> _]. cbv zeta.
    rewrite (gemm_checks_ok _ _ _ n k r) by (cbn [transpose_mat m_view]; now apply blas_transpose). rewrite expects_true.
    destruct (gemm_fortran_spec alpha (transpose_mat y) (transpose_mat x) beta (snd (transpose_view AlgM c)) m n k r ld) as (m' & Hm & HV & HO).
    + cbn [transpose_mat m_view]. now apply blas_transpose.
    + cbn [transpose_mat m_view]. now apply blas_transpose.
    + now apply blas_transpose.
    + now apply row_major_transpose.
    + cbn [transpose_mat m_view m_conj]. intros E. specialize (Cy E). destruct (blas_order _ _ _ (blas_transpose _ _ _ Hy)) as [O|O]; [exact O|]. exfalso. apply Cy.
      apply (transpose_same_order (m_view y) c k n r n); auto. unfold same_order. rewrite O. symmetry. apply (row_major_transpose c r n ld H).
    + cbn [transpose_mat m_view m_conj]. intros E. specialize (Cx E). destruct (blas_order _ _ _ (blas_transpose _ _ _ Hx)) as [O|O]; [exact O|]. exfalso. apply Cx.
      apply (transpose_same_order (m_view x) c r k r n); auto. unfold same_order. rewrite O. symmetry. apply (row_major_transpose c r n ld H).
    + cbn [transpose_mat m_view]. now apply (disjoint_transpose c (m_view y) r n k n).
    + cbn [transpose_mat m_view]. now apply (disjoint_transpose c (m_view x) r n r k).
    + exists m'. split; [exact Hm|]. split.
      * intros i j Hi Hj. rewrite <- (transpose_cell c r n j i Hc), HV by auto. rewrite (transpose_cell c r n j i Hc). f_equal. f_equal. unfold product_at. rewrite sum_to_comm by auto.
        apply sum_to_ext. intros l Hl. now rewrite (mat_at_transpose x r k), (mat_at_transpose y k n).
      * intros a Ha. apply HO. now rewrite (transpose_is_cell c r n).
  - destruct (column_major_layout _ _ _ _ H) as [-> _]. apply (gemm_fortran_spec alpha x y beta c m r k n ld); auto.
    + intros E. destruct (blas_order _ _ _ Hx) as [O|O]; [exact O|]. exfalso. apply (Cx E). unfold same_order. rewrite O. symmetry. apply H.
    + intros E. destruct (blas_order _ _ _ Hy) as [O|O]; [exact O|]. exfalso. apply (Cy E). unfold same_order. rewrite O. symmetry. apply H.
Qed.
End Wrappers.
