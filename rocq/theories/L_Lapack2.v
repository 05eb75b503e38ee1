(** Proofs about LU factorisations and what the LAPACK wrappers pass on. *)
From Coq Require Import Ring Field.
From Verif Require Import Base M_Perm M_IdxMap M_Slice M_Loops M_Assign M_Expr M_Transform M_Blas M_Lapack S_Layout S_Loops S_Assign S_Blas S_Lapack
  L_Perm L_IdxMap L_Layout L_Loops L_Assign L_Transform L_Factory L_Blas L_Blas2 L_Blas3 L_Blas4 L_Lapack.

Section Sums.
Context {V : Type} (A : arith V) (R : is_ring A).
Let Rth : ring_theory (v_zero A) (v_one A) (v_add A) (v_mul A) (v_sub A) (v_opp A) eq := R.
Add Ring VRS : Rth.
Declare Scope ss. Local Notation "x + y" := (v_add A x y) : ss. Local Notation "x * y" := (v_mul A x y) : ss. Local Notation "x - y" := (v_sub A x y) : ss.
Delimit Scope ss with ss.
Notation "0v" := (v_zero A). Notation "1v" := (v_one A).
Implicit Types (a b x f : Z -> Z -> V).

Lemma sum_to_0 n : n <= 0 -> forall g, sum_to A n g = 0v.
Proof. intros H g. unfold sum_to. replace (Z.to_nat n) with O by lia. reflexivity. Qed.
Lemma sum_to_S n g : 0 <= n -> sum_to A (n + 1) g = (sum_to A n g + g n)%ss.
Proof. intros H. unfold sum_to. replace (Z.to_nat (n + 1)) with (S (Z.to_nat n)) by lia. cbn [sum_nat]. now rewrite Z2Nat.id by lia. Qed.
Lemma sum_to_ind (P : Z -> Prop) : P 0 -> (forall n, 0 <= n -> P n -> P (n + 1)) -> forall n, 0 <= n -> P n.
Proof. intros H0 HS. apply natlike_ind; auto. Qed.
Lemma sum_to_zero n g : (forall i, 0 <= i < n -> g i = 0v) -> sum_to A n g = 0v.
Proof.
  intros H. destruct (Z.le_gt_cases 0 n) as [Hn|Hn]; [|apply sum_to_0; lia]. revert n Hn H. refine (sum_to_ind _ _ _); [intros; now apply sum_to_0|].
  intros n Hn IH H. rewrite sum_to_S by lia. rewrite IH, H by (intros; try apply H; lia). ring.
Qed.
Lemma sum_to_add n g h : sum_to A n (fun i => g i + h i)%ss = (sum_to A n g + sum_to A n h)%ss.
Proof. unfold sum_to. induction (Z.to_nat n) as [|k IH]; cbn [sum_nat]; [ring|]. rewrite IH. ring. Qed.
Lemma sum_to_scale_r n c g : sum_to A n (fun i => g i * c)%ss = (sum_to A n g * c)%ss.
Proof. unfold sum_to. induction (Z.to_nat n) as [|k IH]; cbn [sum_nat]; [ring|]. rewrite IH. ring. Qed.
Lemma sum_to_swap n k (g : Z -> Z -> V) : sum_to A n (fun i => sum_to A k (g i)) = sum_to A k (fun j => sum_to A n (fun i => g i j)).
Proof.
  unfold sum_to at 1. rewrite (sum_to_ext A k _ (fun j => sum_nat A (Z.to_nat n) (fun i => g i j))) by reflexivity. induction (Z.to_nat n) as [|p IH]; cbn [sum_nat]; [symmetry; apply sum_to_zero; reflexivity|]. rewrite IH. now rewrite <- (sum_to_add k).
Qed.
(** one term apart *)
Lemma sum_to_pick n p g : 0 <= p < n -> sum_to A n g = (g p + sum_to A n (fun i => if i =? p then 0v else g i))%ss.
Proof.
  intros Hp. assert (Hn : 0 <= n) by lia. revert n Hn Hp. refine (sum_to_ind _ _ _); [lia|]. intros n Hn IH Hp. rewrite !sum_to_S by lia. destruct (Z.eqb_spec n p) as [->|Hne].
  - rewrite (sum_to_ext A p (fun i => if i =? p then 0v else g i) g); [ring|]. intros i Hi. destruct (Z.eqb_spec i p); [lia|reflexivity].
  - rewrite IH by lia. ring.
Qed.
Definition swapped (p q i : Z) : Z := if i =? p then q else if i =? q then p else i.
Lemma sum_to_swapped n p q g : 0 <= p < n -> 0 <= q < n -> sum_to A n (fun i => g (swapped p q i)) = sum_to A n g.
Proof.
  intros Hp Hq. destruct (Z.eq_dec p q) as [->|Hne].
  - apply sum_to_ext. intros i _. f_equal. unfold swapped. destruct (Z.eqb_spec i q); congruence.
  - rewrite (sum_to_pick n p g Hp), (sum_to_pick n q (fun i => if i =? p then 0v else g i) Hq), (sum_to_pick n p (fun i => g (swapped p q i)) Hp), (sum_to_pick n q (fun i => if i =? p then 0v else g (swapped p q i)) Hq).
    assert (E1 : swapped p q p = q) by (unfold swapped; now rewrite Z.eqb_refl). assert (E2 : swapped p q q = p) by (unfold swapped; rewrite Z.eqb_refl; destruct (Z.eqb_spec q p); congruence).
    rewrite E1, E2. destruct (Z.eqb_spec q p); [congruence|].
    rewrite (sum_to_ext A n (fun i => if i =? q then 0v else if i =? p then 0v else g (swapped p q i)) (fun i => if i =? q then 0v else if i =? p then 0v else g i)); [ring|].
    intros i _. unfold swapped. destruct (Z.eqb_spec i q); auto. destruct (Z.eqb_spec i p); auto.
Qed.

Lemma product_assoc n k a b x i j : product_at A n (product_at A k a b) x i j = product_at A k a (product_at A n b x) i j.
Proof.
  unfold product_at. rewrite (sum_to_ext A n _ (fun l => sum_to A k (fun q => a i q * b q l * x l j)%ss)) by (intros l _; symmetry; apply sum_to_scale_r).
  rewrite sum_to_swap. apply sum_to_ext. intros q _. rewrite <- (sum_to_scale A R). apply sum_to_ext. intros l _. ring.
Qed.
Lemma product_transposed n a b i j : product_at A n (transposed a) (transposed b) i j = product_at A n b a j i.
Proof. apply sum_to_ext. intros l _. unfold transposed. ring. Qed.
Lemma unit_matrix_sym i j : unit_matrix A i j = unit_matrix A j i.
Proof. unfold unit_matrix. now rewrite Z.eqb_sym. Qed.
Lemma inverse_transposed n a x : inverse_of A n (transposed a) x -> inverse_of A n a (transposed x).
Proof.
  intros H i j Hi Hj. destruct (H j i Hj Hi) as [H1 H2]. rewrite (unit_matrix_sym i j). split; [rewrite <- H2|rewrite <- H1]; unfold product_at; apply sum_to_ext; intros l _; unfold transposed; ring.
Qed.
Lemma inverse_ext n a a' x x' : (forall i j, 0 <= i < n -> 0 <= j < n -> a i j = a' i j) -> (forall i j, 0 <= i < n -> 0 <= j < n -> x i j = x' i j) -> inverse_of A n a x -> inverse_of A n a' x'.
Proof. intros Ea Ex H i j Hi Hj. destruct (H i j Hi Hj) as [H1 H2]. split; [rewrite <- H1|rewrite <- H2]; unfold product_at; apply sum_to_ext; intros l Hl; now rewrite Ea, Ex by lia. Qed.

(** interchanging rows of a, and the same columns of x, does not change x a *)
Lemma product_interchange n ipiv : forall i0 a x, 0 <= i0 -> i0 + Z.of_nat (length ipiv) <= n -> (forall k, (k < length ipiv)%nat -> 1 <= nthZ ipiv k <= n) ->
  exists x', forall i j, product_at A n x' (interchange_from i0 ipiv a) i j = product_at A n x a i j.
Proof.
  induction ipiv as [|p l IH]; intros i0 a x H0 HL Hp; cbn [interchange_from length] in *; [now exists x|]. pose proof (Hp O ltac:(lia)) as Hp0. unfold nthZ in Hp0. cbn [nth] in Hp0.
  destruct (IH (i0 + 1) (swap_rows i0 (p - 1) a) (fun i j => x i (swapped i0 (p - 1) j))) as [x' Hx]; [lia|lia|intros k Hk; apply (Hp (S k)); lia|]. exists x'. intros i j. rewrite Hx. unfold product_at, swap_rows.
  exact (sum_to_swapped n i0 (p - 1) (fun l => x i l * a l j)%ss ltac:(lia) ltac:(lia)).
Qed.
End Sums.

Section Singular.
Context {V : Type} (A : arith V) (F : is_field A) (is0 : V -> bool) (Z0 : decides_zero A is0).
Let R : is_ring A := F_R F.
Let Rth : ring_theory (v_zero A) (v_one A) (v_add A) (v_mul A) (v_sub A) (v_opp A) eq := R.
Add Ring VRG : Rth.
Declare Scope gs. Local Notation "x + y" := (v_add A x y) : gs. Local Notation "x * y" := (v_mul A x y) : gs. Local Notation "x - y" := (v_sub A x y) : gs.
Delimit Scope gs with gs.
Notation "0v" := (v_zero A). Notation "1v" := (v_one A).

Lemma field_nonzero_prod y u : u <> 0v -> (y * u)%gs = 0v -> y = 0v.
Proof. intros Hu E. pose proof (Finv_l F u Hu) as H1. cbv beta in H1. set (d := v_div A 1v u) in *. clearbody d. assert (E' : y = (y * u * d)%gs) by (transitivity (y * 1v)%gs; [ring|rewrite <- H1; ring]). rewrite E', E. ring. Qed.

(** an upper triangular matrix with a zero on the diagonal has no left inverse *)
Lemma upper_singular n f y : (forall i j, 0 <= i < n -> 0 <= j < n -> product_at A n y (upper_of A f) i j = unit_matrix A i j) -> forall k, 0 <= k < n -> f k k <> 0v.
Proof.
  intros H k. assert (Hlow : 0 <= k < n -> forall j, 0 <= j <= k -> (forall i, j < i < n -> y i j = 0v) /\ f j j <> 0v).
  { intros Hk j Hj. destruct Hj as [Hj0 Hjk]. revert Hjk. pattern j. apply Zlt_0_ind; [|exact Hj0]. clear j Hj0. intros j IH Hj0 Hjk.
    assert (Hsum : forall i, j <= i < n -> product_at A n y (upper_of A f) i j = (y i j * f j j)%gs).
    { intros i Hi. unfold product_at. rewrite (sum_to_pick A R n j _ ltac:(lia)). rewrite (sum_to_zero A R n).
      - unfold upper_of. rewrite Z.leb_refl. ring.
      - intros l Hl. destruct (Z.eqb_spec l j); auto. unfold upper_of. destruct (Z.leb_spec l j); [|ring]. destruct (IH l ltac:(lia) ltac:(lia)) as [Hz _]. rewrite (Hz i) by lia. ring. }
    assert (Hjj : f j j <> 0v).
    { intros C. pose proof (H j j ltac:(lia) ltac:(lia)) as E. rewrite Hsum, C in E by lia. unfold unit_matrix in E. rewrite Z.eqb_refl in E. apply (F_1_neq_0 F). rewrite <- E. ring. }
    split; [|exact Hjj]. intros i Hi. apply (field_nonzero_prod (y i j) (f j j) Hjj). rewrite <- Hsum by lia. rewrite H by lia. unfold unit_matrix. destruct (Z.eqb_spec i j); [lia|reflexivity]. }
  intros Hk. exact (proj2 (Hlow Hk k ltac:(lia))).
Qed.
Lemma lu_invertible n ipiv a f x : lu_of A n n ipiv a f -> inverse_of A n a x -> forall k, 0 <= k < n -> f k k <> 0v.
Proof.
  intros (Hl & Hp & Hlu) Hx k Hk. rewrite Z.min_id in *.
  destruct (product_interchange A R n ipiv 0 a x) as [x' Hx']; [lia|lia| |].
  { intros q Hq. specialize (Hp (Z.of_nat q) ltac:(lia)). rewrite Nat2Z.id in Hp. lia. }
  apply (upper_singular n f (product_at A n x' (lower_of A f))); [|exact Hk]. intros i j Hi Hj. rewrite (product_assoc A R). rewrite <- (proj2 (Hx i j Hi Hj)), <- Hx'.
  unfold product_at at 1 3. apply sum_to_ext. intros l Hl'. f_equal. symmetry. now apply Hlu.
Qed.
End Singular.

(** ** what LAPACK sees *)
Definition sees {V} (v : view) (n : Z) (m : mem V) : Z -> Z -> V := if has_F_layout v then entry v m else transposed (entry v m).
Section Sees.
Context {V : Type}.
Lemma rect_cells v r c ld : column_major v r c ld -> forall q, in_rect (v_base v) ld r c q <-> is_cell_of v q.
Proof.
  intros H q. pose proof (proj1 H) as El. split.
  - intros (i & j & Hi & Hj & ->). exists [i; j]. split; [now apply (in_view2 v r c)|]. rewrite (column_major_cell v r c ld) by auto. reflexivity.
  - intros (idx & Hidx & Eq). rewrite Eq. destruct (in_view2_inv v r c idx El Hidx) as (i & j & -> & Hi & Hj). exists i, j. rewrite (column_major_cell v r c ld) by auto. auto.
Qed.
Lemma rect_cells_row v r c ld : row_major v r c ld -> forall q, in_rect (v_base v) ld c r q <-> is_cell_of v q.
Proof.
  intros H q. pose proof (proj1 H) as El. split.
  - intros (i & j & Hi & Hj & ->). exists [j; i]. split; [now apply (in_view2 v r c)|]. rewrite (row_major_cell v r c ld) by auto. unfold col_major. lia.
  - intros (idx & Hidx & Eq). rewrite Eq. destruct (in_view2_inv v r c idx El Hidx) as (i & j & -> & Hi & Hj). exists j, i. rewrite (row_major_cell v r c ld) by auto. unfold col_major. repeat split; lia.
Qed.
Lemma lapack_sees v n : blas_matrix v n n -> 0 <= n /\ int_range n /\ Z.max 1 n <= get_ld v /\ (forall q, in_rect (v_base v) (get_ld v) n n q <-> is_cell_of v q) /\
  (forall (m : mem V) i j, seen m (v_base v) (get_ld v) i j = sees v n m i j).
Proof.
  intros (Hr & _ & Ir & _ & ld & Il & [H|H]).
  - rewrite (row_major_ld v n n ld) by auto. split; [auto|]. split; [auto|]. split; [now destruct H as (_ & _ & _ & H)|]. split; [now apply rect_cells_row|].
    intros m i j. unfold sees. destruct (row_major_layout v n n ld H) as [_ ->]. unfold seen, transposed, entry. rewrite (row_major_cell v n n ld) by auto. f_equal. unfold col_major. lia.
  - rewrite (column_major_ld v n n ld) by auto. split; [auto|]. split; [auto|]. split; [now destruct H as (_ & _ & _ & H)|]. split; [now apply rect_cells|].
    intros m i j. unfold sees. destruct (column_major_layout v n n ld H) as [_ ->]. unfold seen, entry. now rewrite (column_major_cell v n n ld) by auto.
Qed.
Lemma blas_extent v r c : blas_matrix v r c -> extent v 0 = r /\ extent v 1 = c.
Proof. intros H. unfold extent, nthZ. now rewrite (blas_len v r c H). Qed.
Lemma blas_size v r c : blas_matrix v r c -> size (v_lay v) = r * c.
Proof. intros H. unfold size. rewrite (blas_len v r c H). cbn [fold_left]. now rewrite Z.mul_1_l. Qed.
End Sees.
