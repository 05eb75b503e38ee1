(** Proofs about least squares. *)
From Coq Require Import Ring Field.
From Verif Require Import Base M_Perm M_IdxMap M_Slice M_Loops M_Assign M_Expr M_Transform M_Blas M_Lapack M_Gelss S_Layout S_Loops S_Assign S_Blas S_Lapack S_Gelss
  L_Blas L_Blas2 L_Lapack L_Lapack2 L_Lapack4.

Section Gelss.
Context {V : Type} (A : arith V) (F : is_field A) (cj : V -> V) (C : conjugation A cj).
Let R : is_ring A := F_R F.
Let Rth : ring_theory (v_zero A) (v_one A) (v_add A) (v_mul A) (v_sub A) (v_opp A) eq := R.
Add Ring VRG : Rth.
Declare Scope gs. Local Notation "x + y" := (v_add A x y) : gs. Local Notation "x * y" := (v_mul A x y) : gs. Local Notation "x - y" := (v_sub A x y) : gs. Local Notation "- x" := (v_opp A x) : gs.
Delimit Scope gs with gs.
Notation "0v" := (v_zero A). Notation "1v" := (v_one A).
Implicit Types (a b x y u vt w : Z -> Z -> V).
Notation pr := (product_at A). Notation adj := (adjoint cj).

Lemma cj_0 : cj 0v = 0v.
Proof.
  assert (H : cj 0v = (cj 0v + cj 0v)%gs) by (rewrite <- (cj_add A cj C); f_equal; ring).
  transitivity (cj 0v + cj 0v - cj 0v)%gs; [ring|]. rewrite <- H. ring.
Qed.
Lemma cj_opp v : cj (- v)%gs = (- cj v)%gs.
Proof. transitivity (cj (- v) + cj v - cj v)%gs; [ring|]. rewrite <- (cj_add A cj C). replace (- v + v)%gs with 0v by ring. rewrite cj_0. ring. Qed.
Lemma cj_sub v z : cj (v - z)%gs = (cj v - cj z)%gs.
Proof. replace (v - z)%gs with (v + - z)%gs by ring. rewrite (cj_add A cj C), cj_opp. ring. Qed.
Lemma cj_sum n g : cj (sum_to A n g) = sum_to A n (fun i => cj (g i)).
Proof. unfold sum_to. induction (Z.to_nat n) as [|k IH]; cbn [sum_nat]; [exact cj_0|]. now rewrite (cj_add A cj C), IH. Qed.
Lemma adj_pr n a b i j : adj (pr n a b) i j = pr n (adj b) (adj a) i j.
Proof. unfold adjoint, product_at. rewrite cj_sum. apply sum_to_ext. intros l _. rewrite (cj_mul A cj C). ring. Qed.
Lemma adj_adj a i j : adj (adj a) i j = a i j.
Proof. unfold adjoint. apply (cj_cj A cj C). Qed.
Lemma pr_minus_r n a b b' i j : pr n a (minus A b b') i j = (pr n a b i j - pr n a b' i j)%gs.
Proof. unfold product_at, minus, sum_to. induction (Z.to_nat n) as [|k IH]; cbn [sum_nat]; [ring|]. rewrite IH. ring. Qed.
Lemma pr_minus_l n a a' b i j : pr n (minus A a a') b i j = (pr n a b i j - pr n a' b i j)%gs.
Proof. unfold product_at, minus, sum_to. induction (Z.to_nat n) as [|k IH]; cbn [sum_nat]; [ring|]. rewrite IH. ring. Qed.
Lemma pr_ext n a b a' b' i j : (forall l, 0 <= l < n -> a i l = a' i l) -> (forall l, 0 <= l < n -> b l j = b' l j) -> pr n a b i j = pr n a' b' i j.
Proof. apply (product_ext A). Qed.
Lemma pr_zero_r n a b i j : (forall l, 0 <= l < n -> b l j = 0v) -> pr n a b i j = 0v.
Proof. intros H. apply (sum_to_zero A R). intros l Hl. rewrite H by exact Hl. ring. Qed.

Lemma norm2_pr M a j : norm2 A cj M a j = pr M (adj a) a j j.
Proof. reflexivity. Qed.
(** unitary matrices keep norms *)
Lemma norm2_unitary M u w j : inverse_of A M u (adj u) -> norm2 A cj M w j = norm2 A cj M (pr M (adj u) w) j.
Proof.
  intros Hu. rewrite !norm2_pr. rewrite (pr_ext M (adj (pr M (adj u) w)) (pr M (adj u) w) (pr M (adj w) u) (pr M (adj u) w)).
  - rewrite (product_assoc A R). apply pr_ext; [reflexivity|]. intros l Hl. rewrite <- (product_assoc A R).
    rewrite (pr_ext M _ w (unit_matrix A) w); [symmetry; now apply (product_unit_l A F)|intros k Hk; now apply Hu|reflexivity].
  - intros l _. rewrite adj_pr. apply pr_ext; [reflexivity|]. intros k _. apply adj_adj.
  - reflexivity.
Qed.

(** ** the model's operations *)
Lemma add_up_sum n f : add_up A n f = sum_nat A n f.
Proof. induction n as [|n IH]; cbn [add_up sum_nat]; [reflexivity|]. now rewrite IH. Qed.
Lemma times_pr k x y i j : times A k x y i j = pr k x y i j.
Proof. unfold times, product_at, sum_to. apply add_up_sum. Qed.
Lemma sum_split n k g : 0 <= n -> 0 <= k -> sum_to A (n + k) g = (sum_to A n g + sum_to A k (fun i => g (n + i)%Z))%gs.
Proof.
  intros Hn Hk. revert k Hk. refine (sum_to_ind _ _ _); [rewrite Z.add_0_r, (sum_to_0 A 0) by lia; ring|]. intros k Hk IH. rewrite Z.add_assoc, !sum_to_S by lia. rewrite IH. ring.
Qed.

Section OneSvd.
Variables (M N : Z) (a : Z -> Z -> V) (s : list V) (u vt : Z -> Z -> V).
Hypothesis (HNM : 0 <= N <= M) (HS : svd_of A cj M N a s u vt).
Notation sk k := (nth (Z.to_nat k) s 0v).
Let su k j : V := (sk k * vt k j)%gs.
Lemma svd_u : inverse_of A M u (adj u). Proof. apply HS. Qed.
Lemma svd_vt : inverse_of A N vt (adj vt). Proof. apply HS. Qed.
Lemma svd_a i j : 0 <= i < M -> 0 <= j < N -> a i j = pr N u su i j.
Proof. intros Hi Hj. destruct HS as (_ & _ & H & _). rewrite H by auto. rewrite Z.min_r by lia. apply sum_to_ext. intros k _. unfold su. ring. Qed.
(** sum of the first N columns with the unit matrix picks *)
Lemma pick_low w (i j : Z) : 0 <= i < M -> pr N (unit_matrix A) w i j = if i <? N then w i j else 0v.
Proof.
  intros Hi. destruct (Z.ltb_spec i N); [apply (product_unit_l A F); lia|]. apply (sum_to_zero A R). intros l Hl. unfold unit_matrix. destruct (Z.eqb_spec i l); [lia|ring].
Qed.
Lemma uh_a i j : 0 <= i < M -> 0 <= j < N -> pr M (adj u) a i j = if i <? N then su i j else 0v.
Proof.
  intros Hi Hj. rewrite (pr_ext M (adj u) a (adj u) (pr N u su)); [|reflexivity|intros l Hl; now apply svd_a].
  rewrite <- (product_assoc A R). rewrite (pr_ext N _ su (unit_matrix A) su); [now apply pick_low| |reflexivity]. intros l Hl. apply svd_u; lia.
Qed.
(** U^H w = 0 in the first N rows: w is orthogonal to the image *)
Lemma orthogonal w j : (forall k, 0 <= k < N -> pr M (adj u) w k j = 0v) -> forall i, 0 <= i < N -> pr M (adj a) w i j = 0v.
Proof.
  intros Hw i Hi. rewrite (pr_ext M (adj a) w (pr N (adj su) (adj u)) w); [|intros l Hl; unfold adjoint at 1; rewrite svd_a by lia; exact (adj_pr N u su i l)|reflexivity].
  rewrite (product_assoc A R). apply pr_zero_r. exact Hw.
Qed.
Hypothesis (Hs0 : forall k, 0 <= k < N -> sk k <> 0v).
Lemma inv_mul v : v <> 0v -> (v * v_div A 1v v)%gs = 1v.
Proof. intros H. transitivity (v_div A 1v v * v)%gs; [ring|]. exact (Finv_l F v H). Qed.

Variables (b x : Z -> Z -> V).
Hypothesis (Hx : forall i j, 0 <= i < N -> x i j = times A M (times A M (times A N (dagger_of cj vt) (s_inv A M N s)) (dagger_of cj u)) b i j).
Lemma vt_x k j : 0 <= k < N -> pr N vt x k j = (v_div A 1v (sk k) * pr M (adj u) b k j)%gs.
Proof.
  intros Hk. rewrite (pr_ext N vt x vt (pr M (pr M (pr N (adj vt) (s_inv A M N s)) (adj u)) b)).
  - rewrite <- (product_assoc A R). rewrite (pr_ext M _ b (pr M (s_inv A M N s) (adj u)) b); [| |reflexivity].
    + rewrite (product_assoc A R). unfold product_at at 1. rewrite (sum_to_pick A R M k) by lia. rewrite (sum_to_zero A R).
      * unfold s_inv. rewrite Z.eqb_refl. destruct (Z.ltb_spec k (Z.min M N)); [|lia]. cbn [andb]. unfold product_at. ring.
      * intros l Hl. destruct (Z.eqb_spec l k); [reflexivity|]. unfold s_inv. destruct (Z.eqb_spec k l); [lia|]. cbn [andb]. ring.
    + intros l Hl. rewrite <- (product_assoc A R). apply pr_ext; [|reflexivity]. intros q Hq. rewrite <- (product_assoc A R).
      rewrite (pr_ext N _ (s_inv A M N s) (unit_matrix A) (s_inv A M N s)); [now apply (product_unit_l A F)| |reflexivity]. intros p Hp. apply svd_vt; lia.
  - reflexivity.
  - intros l Hl. rewrite Hx by lia. rewrite times_pr. apply pr_ext; [|reflexivity]. intros q _. rewrite times_pr. apply pr_ext; [|reflexivity]. intros p _. now rewrite times_pr.
Qed.
(** U^H (a x - b) *)
Lemma uh_residual k j : 0 <= k < M -> pr M (adj u) (residual A N a x b) k j = if k <? N then 0v else (- pr M (adj u) b k j)%gs.
Proof.
  intros Hk. unfold residual. rewrite pr_minus_r. rewrite <- (product_assoc A R).
  destruct (Z.ltb_spec k N) as [Hn|Hn].
  - rewrite (pr_ext N _ x (fun k0 l => if k0 <? N then su k0 l else 0v) x); [|intros l Hl; now apply uh_a|reflexivity].
    rewrite (pr_ext N _ x su x); [|intros l _; destruct (Z.ltb_spec k N); [reflexivity|lia]|reflexivity].
    transitivity (sk k * pr N vt x k j - pr M (adj u) b k j)%gs.
    { f_equal. unfold product_at. rewrite <- (sum_to_scale A R). apply sum_to_ext. intros l _. unfold su. ring. }
    rewrite vt_x by lia. transitivity (sk k * v_div A 1v (sk k) * pr M (adj u) b k j - pr M (adj u) b k j)%gs; [ring|]. rewrite inv_mul by (apply Hs0; lia). ring.
  - rewrite (pr_ext N _ x (fun _ _ => 0v) x); [| |reflexivity].
    + replace (pr N (fun _ _ => 0v) x k j) with 0v; [ring|]. symmetry. apply (sum_to_zero A R). intros; ring.
    + intros l Hl. rewrite uh_a by lia. destruct (Z.ltb_spec k N); [lia|reflexivity].
Qed.
Lemma normal_equations i j : 0 <= i < N -> pr M (adj a) (residual A N a x b) i j = 0v.
Proof. intros Hi. apply orthogonal; [|exact Hi]. intros k Hk. rewrite uh_residual by lia. destruct (Z.ltb_spec k N); [reflexivity|lia]. Qed.
Lemma residual_norm j : norm2 A cj M (residual A N a x b) j = norm2 A cj (M - N) (fun i j => pr M (adj u) b (N + i) j) j.
Proof.
  rewrite (norm2_unitary M u) by exact svd_u. unfold norm2. replace M with (N + (M - N))%Z at 1 by lia. rewrite sum_split by lia. rewrite (sum_to_zero A R N).
  - transitivity (sum_to A (M - N) (fun i => cj (pr M (adj u) b (N + i)%Z j) * pr M (adj u) b (N + i)%Z j)%gs); [|reflexivity].
    match goal with |- (0v + ?s)%gs = ?t => transitivity s; [ring|] end. apply sum_to_ext. intros i Hi. rewrite uh_residual by lia. destruct (Z.ltb_spec (N + i) N); [lia|]. rewrite cj_opp. ring.
  - intros i Hi. rewrite uh_residual by lia. destruct (Z.ltb_spec i N); [ring|lia].
Qed.
Lemma square_exact : M = N -> forall i j, 0 <= i < M -> pr N a x i j = b i j.
Proof.
  intros E i j Hi. assert (H : residual A N a x b i j = 0v).
  { transitivity (pr M (unit_matrix A) (residual A N a x b) i j); [symmetry; now apply (product_unit_l A F)|].
    rewrite (pr_ext M _ (residual A N a x b) (pr M u (adj u)) (residual A N a x b)); [|intros l Hl; symmetry; now apply svd_u|reflexivity].
    rewrite (product_assoc A R). apply pr_zero_r. intros k Hk. rewrite uh_residual by lia. destruct (Z.ltb_spec k N); [reflexivity|lia]. }
  unfold residual, minus in H. transitivity (pr N a x i j - b i j + b i j)%gs; [ring|]. rewrite H. ring.
Qed.
End OneSvd.

(** singular values of a matrix of full rank are not zero *)
Lemma full_rank_s M N a s u vt : 0 <= N <= M -> svd_of A cj M N a s u vt -> full_rank A M N a -> forall k, 0 <= k < N -> nth (Z.to_nat k) s 0v <> 0v.
Proof.
  intros HNM HS Hr k Hk E. assert (Hz : forall l, 0 <= l < N -> adj vt l k = 0v).
  { apply (Hr (fun l => adj vt l k)). intros i Hi. rewrite (sum_to_ext A N _ (fun l => (pr N u (fun q l => (nth (Z.to_nat q) s 0v * vt q l)%gs) i l * adj vt l k)%gs)).
    - change (pr N (pr N u (fun q l => (nth (Z.to_nat q) s 0v * vt q l)%gs)) (adj vt) i k = 0v). rewrite (product_assoc A R). apply (sum_to_zero A R). intros q Hq.
      replace (pr N (fun q0 l => (nth (Z.to_nat q0) s 0v * vt q0 l)%gs) (adj vt) q k) with (nth (Z.to_nat q) s 0v * pr N vt (adj vt) q k)%gs.
      + destruct HS as (_ & _ & _ & _ & Hv). rewrite (proj1 (Hv q k Hq Hk)). unfold unit_matrix. destruct (Z.eqb_spec q k); [subst; rewrite E|]; ring.
      + unfold product_at. rewrite <- (sum_to_scale A R). apply sum_to_ext. intros; ring.
    - intros l Hl. f_equal. now apply svd_a with (M := M). }
  destruct HS as (_ & _ & _ & _ & Hv). assert (H1 : pr N vt (adj vt) k k = 1v) by (rewrite (proj1 (Hv k k Hk Hk)); unfold unit_matrix; now rewrite Z.eqb_refl).
  apply (F_1_neq_0 F). rewrite <- H1. now apply pr_zero_r.
Qed.

(** ** consequences of the normal equations *)
Lemma cross_zero M N a r z j k : (forall i, 0 <= i < N -> pr M (adj a) r i j = 0v) -> pr M (adj (pr N a z)) r k j = 0v.
Proof.
  intros H. rewrite (pr_ext M _ r (pr N (adj z) (adj a)) r); [|intros l _; apply adj_pr|reflexivity]. rewrite (product_assoc A R). now apply pr_zero_r.
Qed.
Lemma pythagoras M N a x y b j : (forall i, 0 <= i < N -> pr M (adj a) (residual A N a x b) i j = 0v) ->
  norm2 A cj M (residual A N a y b) j = (norm2 A cj M (residual A N a x b) j + norm2 A cj M (pr N a (minus A y x)) j)%gs.
Proof.
  intros H. set (r := residual A N a x b) in *. set (z := minus A y x). pose proof (cross_zero M N a r z j j H) as C1.
  assert (C2 : pr M (adj r) (pr N a z) j j = 0v).
  { transitivity (cj (pr M (adj (pr N a z)) r j j)); [|rewrite C1; exact cj_0]. change (cj (pr M (adj (pr N a z)) r j j)) with (adj (pr M (adj (pr N a z)) r) j j). rewrite adj_pr. apply pr_ext; [reflexivity|]. intros l _. symmetry. apply adj_adj. }
  assert (E : forall i, residual A N a y b i j = (r i j + pr N a z i j)%gs) by (intros i; unfold r, z, residual; rewrite pr_minus_r; unfold minus; ring).
  transitivity (norm2 A cj M r j + pr M (adj r) (pr N a z) j j + pr M (adj (pr N a z)) r j j + norm2 A cj M (pr N a z) j)%gs; [|rewrite C1, C2; ring].
  set (q := pr N a z) in *. clearbody q. unfold norm2, product_at. rewrite <- !(sum_to_add A R). apply sum_to_ext. intros i _. rewrite E, (cj_add A cj C). unfold adjoint. ring.
Qed.
Lemma norm2_nonneg P M a j : nonnegative A cj P -> P (norm2 A cj M a j).
Proof. intros H. unfold norm2, sum_to. induction (Z.to_nat M) as [|k IH]; cbn [sum_nat]; [apply H|]. apply (nn_add A cj P H); [exact IH|]. apply (nn_square A cj P H). Qed.

(** at most one solution of the normal equations, for full rank *)
Lemma normal_unique M N a s u vt b x y j : 0 <= N <= M -> svd_of A cj M N a s u vt -> full_rank A M N a ->
  (forall i, 0 <= i < N -> pr M (adj a) (residual A N a x b) i j = 0v) -> (forall i, 0 <= i < N -> pr M (adj a) (residual A N a y b) i j = 0v) ->
  forall i, 0 <= i < N -> y i j = x i j.
Proof.
  intros HNM HS Hr Hx Hy. pose proof (full_rank_s M N a s u vt HNM HS Hr) as Hs. set (z := minus A y x).
  set (w := pr N a z). assert (Hw : forall i, 0 <= i < N -> pr M (adj a) w i j = 0v).
  { intros i Hi. rewrite (pr_ext M (adj a) w (adj a) (minus A (residual A N a y b) (residual A N a x b))); [rewrite pr_minus_r, Hx, Hy by exact Hi; ring|reflexivity|].
    intros l _. unfold w, z, residual. rewrite pr_minus_r. unfold minus. ring. }
  set (su := fun k l => (nth (Z.to_nat k) s 0v * vt k l)%gs).
  assert (Hk : forall k, 0 <= k < N -> pr N vt z k j = 0v).
  { intros k Hk. assert (Hu : forall k, 0 <= k < N -> pr M (adj u) w k j = (nth (Z.to_nat k) s 0v * pr N vt z k j)%gs).
    { intros k0 Hk0. unfold w. rewrite <- (product_assoc A R). rewrite (pr_ext N _ z su z); [| |reflexivity].
      - unfold product_at. rewrite <- (sum_to_scale A R). apply sum_to_ext. intros l _. unfold su. ring.
      - intros l Hl. rewrite (uh_a M N a s u vt HNM HS) by lia. destruct (Z.ltb_spec k0 N); [reflexivity|lia]. }
    assert (H2 : (nth (Z.to_nat k) s 0v * pr M (adj u) w k j)%gs = 0v).
    { transitivity (pr N vt (pr M (adj a) w) k j); [|apply pr_zero_r; exact Hw].
      rewrite (pr_ext N vt (pr M (adj a) w) vt (pr N (adj vt) (fun q j => (nth (Z.to_nat q) s 0v * pr M (adj u) w q j)%gs))); [|reflexivity|].
      - rewrite <- (product_assoc A R). rewrite (pr_ext N _ _ (unit_matrix A) (fun q j => (nth (Z.to_nat q) s 0v * pr M (adj u) w q j)%gs)); [symmetry; now apply (product_unit_l A F)| |reflexivity].
        intros l Hl. apply (svd_vt M N a s u vt HS); auto.
      - intros l Hl. rewrite (pr_ext M (adj a) w (pr N (adj su) (adj u)) w); [|intros q Hq; unfold adjoint at 1; rewrite (svd_a M N a s u vt HNM HS) by lia; exact (adj_pr N u su l q)|reflexivity].
        rewrite (product_assoc A R). apply sum_to_ext. intros q Hq. unfold adjoint at 1, su. destruct HS as (_ & Hre & _). rewrite (cj_mul A cj C), Hre by lia. unfold adjoint. ring. }
    rewrite Hu in H2 by exact Hk. assert (Hd : forall v z0, v <> 0v -> (v * z0)%gs = 0v -> z0 = 0v).
    { intros v z0 Hv Hz. transitivity (v * v_div A 1v v * z0)%gs; [rewrite inv_mul by exact Hv; ring|]. transitivity (v_div A 1v v * (v * z0))%gs; [ring|]. rewrite Hz. ring. }
    apply (Hd (nth (Z.to_nat k) s 0v)); [now apply Hs|]. apply (Hd (nth (Z.to_nat k) s 0v)); [now apply Hs|exact H2]. }
  intros i Hi. assert (Hz : z i j = 0v).
  { transitivity (pr N (unit_matrix A) z i j); [symmetry; now apply (product_unit_l A F)|]. rewrite (pr_ext N _ z (pr N (adj vt) vt) z); [rewrite (product_assoc A R); now apply pr_zero_r| |reflexivity].
    intros l Hl. symmetry. apply (svd_vt M N a s u vt HS); auto. }
  unfold z, minus in Hz. transitivity (y i j - x i j + x i j)%gs; [ring|]. rewrite Hz. ring.
Qed.

(** ** hermitian blocks *)
(** the column of entry (q, p) of the block whose entry (p, q) is in column j *)
Definition flip (d j : Z) : Z := j / (d * d) * (d * d) + j mod d * d + j / d mod d.
Lemma flip_at d n p q : 0 < d -> 0 <= p < d -> 0 <= q < d -> flip d (n * (d * d) + p * d + q) = n * (d * d) + q * d + p.
Proof.
  intros Hd Hp Hq. unfold flip. replace ((n * (d * d) + p * d + q) / (d * d)) with n by (apply Z.div_unique with (p * d + q); nia).
  replace ((n * (d * d) + p * d + q) mod d) with q by (apply Z.mod_unique with (n * d + p); nia).
  replace ((n * (d * d) + p * d + q) / d) with (n * d + p) by (apply Z.div_unique with q; nia).
  replace ((n * d + p) mod d) with p by (apply Z.mod_unique with n; nia). reflexivity.
Qed.
Lemma column_form d c j : 0 < d -> c mod (d * d) = 0 -> 0 <= j < c -> exists n p q, j = n * (d * d) + p * d + q /\ 0 <= n < c / (d * d) /\ 0 <= p < d /\ 0 <= q < d.
Proof.
  intros Hd Hc Hj. exists (j / (d * d)), (j mod (d * d) / d), (j mod (d * d) mod d). assert (Hdd : 0 < d * d) by nia.
  pose proof (Z.div_mod j (d * d) ltac:(lia)) as E1. pose proof (Z.mod_pos_bound j (d * d) Hdd) as B1. pose proof (Z.div_mod (j mod (d * d)) d ltac:(lia)) as E2. pose proof (Z.mod_pos_bound (j mod (d * d)) d Hd) as B2.
  pose proof (Z.div_mod c (d * d) ltac:(lia)) as E3. rewrite Hc in E3. split; [lia|]. split; [|split; [|exact B2]].
  - split; [apply Z.div_pos; lia|]. apply Z.div_lt_upper_bound; lia.
  - split; [apply Z.div_pos; lia|]. apply Z.div_lt_upper_bound; lia.
Qed.
Lemma flip_range d c j : 0 < d -> c mod (d * d) = 0 -> 0 <= j < c -> 0 <= flip d j < c /\ flip d (flip d j) = j.
Proof.
  intros Hd Hc Hj. destruct (column_form d c j Hd Hc Hj) as (n & p & q & -> & Hn & Hp & Hq). rewrite flip_at, flip_at by auto. split; [|reflexivity].
  pose proof (Z.div_mod c (d * d) ltac:(nia)) as E3. rewrite Hc in E3. nia.
Qed.
Lemma adjoined_flip d r c b b' : 0 < d -> c mod (d * d) = 0 -> blocks_adjoined cj d r c b b' <-> (forall i j, 0 <= i < r -> 0 <= j < c -> b' i j = cj (b i (flip d j))).
Proof.
  intros Hd Hc. split; intros H.
  - intros i j Hi Hj. destruct (column_form d c j Hd Hc Hj) as (n & p & q & -> & Hn & Hp & Hq). rewrite flip_at by auto. now apply H.
  - intros i n p q Hi Hn Hp Hq. rewrite H; [now rewrite flip_at|exact Hi|]. pose proof (Z.div_mod c (d * d) ltac:(nia)) as E3. rewrite Hc in E3. nia.
Qed.
Lemma inner_adjoint_ok d r c b : 0 < d -> 0 < c -> c mod (d * d) = 0 -> exists b', inner_adjoint cj d r c b = GRet b' /\ blocks_adjoined cj d r c b b'.
Proof.
  intros Hd Hc0 Hc. unfold inner_adjoint. destruct (Z.eqb_spec d 0) as [Hd0|Hd0]; [lia|]. rewrite Z.rem_mod_nonneg by nia. rewrite Hc. cbn [Z.eqb negb]. rewrite Z.quot_div_nonneg by nia.
  assert (Hdd : 0 < d * d) by nia. pose proof (Z.div_mod c (d * d) ltac:(lia)) as Ec. rewrite Hc, Z.add_0_r, Z.mul_comm in Ec.
  eexists. split; [reflexivity|]. set (N := c / (d * d)) in *. assert (HN : 0 < N) by nia. clearbody N. subst c.
  intros i n p q Hi Hn Hp Hq. rewrite ?Z.div_mul in Hn by nia. cbv zeta.
  set (P := i * (N * (d * d)) + (n * (d * d) + p * d + q)).
  assert (Hnq : 0 <= n * (d * d) + p * d + q < N * (d * d)) by nia. assert (Hnq' : 0 <= n * (d * d) + q * d + p < N * (d * d)) by nia.
  replace (P / (N * d * d)) with i by (apply Z.div_unique with (n * (d * d) + p * d + q); [left; nia|unfold P; ring]).
  replace (P / (d * d)) with (i * N + n) by (apply Z.div_unique with (p * d + q); [left; nia|unfold P; ring]).
  replace ((i * N + n) mod N) with n by (apply Z.mod_unique with i; [left; lia|ring]).
  replace (P / d) with (i * N * d + n * d + p) by (apply Z.div_unique with q; [left; lia|unfold P; ring]).
  replace ((i * N * d + n * d + p) mod d) with p by (apply Z.mod_unique with (i * N + n); [left; lia|ring]).
  replace (P mod d) with q by (apply Z.mod_unique with (i * N * d + n * d + p); [left; lia|unfold P; ring]).
  replace (((i * N + n) * d + q) * d + p) with (i * (N * (d * d)) + (n * (d * d) + q * d + p)) by ring.
  replace ((i * (N * (d * d)) + (n * (d * d) + q * d + p)) / (N * (d * d))) with i by (apply Z.div_unique with (n * (d * d) + q * d + p); [left; nia|ring]).
  replace ((i * (N * (d * d)) + (n * (d * d) + q * d + p)) mod (N * (d * d))) with (n * (d * d) + q * d + p) by (apply Z.mod_unique with i; [left; nia|ring]).
  reflexivity.
Qed.

(** ** the stacked system *)
Lemma stack_low M x y i j : i < M -> stack M x y i j = x i j.
Proof. intros H. unfold stack. destruct (Z.ltb_spec i M); [reflexivity|lia]. Qed.
Lemma stack_high M x y i j : 0 <= i -> stack M x y (M + i) j = y i j.
Proof. intros H. unfold stack. destruct (Z.ltb_spec (M + i) M); [lia|]. f_equal. lia. Qed.
Section Stacked.
Variables (M N : Z) (a b b' : Z -> Z -> V).
Hypothesis (HM : 0 <= M).
Let ca : Z -> Z -> V := fun i j => cj (a i j).
Let a2 := stack M a ca. Let b2 := stack M b b'.
Lemma residual_low y i j : 0 <= i < M -> residual A N a2 y b2 i j = residual A N a y b i j.
Proof. intros H. unfold residual, minus. f_equal; [apply pr_ext; [|reflexivity]; intros l _; apply stack_low; lia|apply stack_low; lia]. Qed.
Lemma residual_high y i j : 0 <= i < M -> residual A N a2 y b2 (M + i) j = residual A N ca y b' i j.
Proof. intros H. unfold residual, minus. f_equal; [apply sum_to_ext; intros l _; f_equal; apply stack_high; lia|apply stack_high; lia]. Qed.
Lemma stacked_norm y j : norm2 A cj (M + M) (residual A N a2 y b2) j = (norm2 A cj M (residual A N a y b) j + norm2 A cj M (residual A N ca y b') j)%gs.
Proof. unfold norm2. rewrite sum_split by lia. f_equal; apply sum_to_ext; intros i Hi; [now rewrite residual_low|now rewrite residual_high]. Qed.
Lemma stacked_normal y i j : pr (M + M) (adj a2) (residual A N a2 y b2) i j = (pr M (adj a) (residual A N a y b) i j + pr M (adj ca) (residual A N ca y b') i j)%gs.
Proof.
  unfold product_at at 1. rewrite sum_split by lia. f_equal; apply sum_to_ext; intros l Hl; unfold adjoint.
  - rewrite residual_low by lia. unfold a2. now rewrite stack_low by lia.
  - rewrite residual_high by lia. unfold a2. now rewrite stack_high by lia.
Qed.
Variables (d c : Z).
Hypothesis (Hd : 0 < d) (Hc : c mod (d * d) = 0) (Hb : forall i j, 0 <= i < M -> 0 <= j < c -> b' i j = cj (b i (flip d j))).
(** conjugating everything and interchanging the columns exchanges the two halves *)
Variables (y yd : Z -> Z -> V).
Hypothesis (Hy : forall i j, 0 <= i < N -> 0 <= j < c -> yd i j = cj (y i (flip d j))).
Lemma residual_conj i j : 0 <= i < M -> 0 <= j < c -> residual A N a yd b i j = cj (residual A N ca y b' i (flip d j)).
Proof.
  intros Hi Hj. destruct (flip_range d c j Hd Hc Hj) as [Hf E]. unfold residual, minus. rewrite cj_sub. f_equal.
  - unfold product_at. rewrite cj_sum. apply sum_to_ext. intros k Hk. rewrite Hy by auto. rewrite (cj_mul A cj C). unfold ca. now rewrite (cj_cj A cj C).
  - rewrite Hb by auto. now rewrite E, (cj_cj A cj C).
Qed.
Lemma residual_conj' i j : 0 <= i < M -> 0 <= j < c -> residual A N ca yd b' i j = cj (residual A N a y b i (flip d j)).
Proof.
  intros Hi Hj. destruct (flip_range d c j Hd Hc Hj) as [Hf E]. unfold residual, minus. rewrite cj_sub. f_equal.
  - unfold product_at. rewrite cj_sum. apply sum_to_ext. intros k Hk. rewrite Hy by auto. now rewrite (cj_mul A cj C).
  - now rewrite Hb by auto.
Qed.
Lemma normal_conj i j : 0 <= j < c -> pr (M + M) (adj a2) (residual A N a2 yd b2) i j = cj (pr (M + M) (adj a2) (residual A N a2 y b2) i (flip d j)).
Proof.
  intros Hj. rewrite !stacked_normal, (cj_add A cj C). unfold product_at. rewrite !cj_sum.
  match goal with |- (?p + ?q)%gs = (?r + ?s)%gs => assert (E1 : p = s); [|assert (E2 : q = r); [|rewrite E1, E2; ring]] end; apply sum_to_ext; intros l Hl.
  - rewrite residual_conj by auto. rewrite (cj_mul A cj C). unfold adjoint, ca. now rewrite !(cj_cj A cj C).
  - rewrite residual_conj' by auto. rewrite (cj_mul A cj C). unfold adjoint, ca. now rewrite ?(cj_cj A cj C).
Qed.
End Stacked.
Lemma norm_conj M N d c a b b' y j : 0 <= M -> 0 < d -> c mod (d * d) = 0 -> (forall i j, 0 <= i < M -> 0 <= j < c -> b' i j = cj (b i (flip d j))) ->
  (forall i j, 0 <= i < N -> 0 <= j < c -> y i j = cj (y i (flip d j))) -> 0 <= j < c ->
  norm2 A cj M (residual A N (fun i j => cj (a i j)) y b') j = norm2 A cj M (residual A N a y b) (flip d j).
Proof.
  intros HM Hd Hc Hb Hy Hj. apply sum_to_ext. intros i Hi. rewrite (residual_conj' M N a b b' d c Hd Hc Hb y y Hy) by auto. rewrite (cj_cj A cj C). ring.
Qed.
Lemma stacked_full_rank M N a : 0 <= M -> full_rank A M N a -> full_rank A (M + M) N (stack M a (fun i j => cj (a i j))).
Proof.
  intros HM H z Hz. apply H. intros i Hi. rewrite <- (Hz i ltac:(lia)). apply sum_to_ext. intros k _. now rewrite stack_low by lia.
Qed.

(** ** max_element *)
Lemma max_elem_spec (lt : V -> V -> bool) (l : list V) (e : V) : (forall v v1 v2 : V, lt v v1 = false -> lt v1 v2 = false -> lt v v2 = false) -> (forall v v1 : V, lt v v1 = true -> lt v1 v = false) -> (forall v : V, lt v v = false) -> max_elem lt l = Some e ->
  In e l /\ forall v, In v l -> lt e v = false.
Proof.
  intros Ht Has Hir. destruct l as [|v l]; [discriminate|]. cbn [max_elem]. intros E. injection E as <-. revert v. induction l as [|w l IH]; intros v; cbn [fold_left].
  - split; [now left|]. intros z [<-|[]]. apply Hir.
  - destruct (lt v w) eqn:El.
    + destruct (IH w) as [H1 H2]. split; [right; exact H1|]. intros z [<-|Hz]; [|apply H2; exact Hz]. apply (Ht _ w); [apply H2; now left|now apply Has].
    + destruct (IH v) as [H1 H2]. split; [destruct H1; [now left|right; now right]|]. intros z [<-|[<-|Hz]]; [apply H2; now left| |apply H2; now right]. apply (Ht _ v); [apply H2; now left|exact El].
Qed.
End Gelss.
