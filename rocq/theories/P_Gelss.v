(** C62: linear least squares; C51: the wrapper of gesvd. *)
From Coq Require Import Ring Field QArith_base Qcanon.
From Verif Require Import Base M_Perm M_IdxMap M_Slice M_Loops M_Assign M_Expr M_Transform M_Blas M_Lapack M_Gelss S_Layout S_Loops S_Assign S_Blas S_Lapack S_Gelss
  L_Blas L_Blas2 L_Lapack L_Lapack2 L_Lapack4 L_Lu L_Gelss P_Blas.

Section Gelss.
Context {V : Type} (A : arith V) (F : is_field A) (cj : V -> V) (C : conjugation A cj) (sq : V -> V) (lt : V -> V -> bool) (half : V) (of_Z : Z -> V).
Context (svd : Z -> Z -> (Z -> Z -> V) -> option (list V * (Z -> Z -> V) * (Z -> Z -> V))) (HP : svd_promise A cj svd).
(** [lt] orders the real numbers *)
Context (lt_trans : forall v w z, lt v w = false -> lt w z = false -> lt v z = false) (lt_asym : forall v w, lt v w = true -> lt w v = false) (lt_irr : forall v, lt v v = false).
Implicit Types (a b x y : Z -> Z -> V).

(** what the second result says about the columns of the residual: it is the largest of the norms, divided by the root of the number of rows;
    for square systems there is no residual *)
Definition error_of (M N c : Z) a x b (err : V) : Prop :=
  if M =? N then err = v_zero A /\ (forall i j, 0 <= i < M -> product_at A N a x i j = b i j) else
  let e j := v_div A (sq (norm2 A cj M (residual A N a x b) j)) (sq (of_Z M)) in
  (exists j, 0 <= j < c /\ err = e j) /\ (forall j, 0 <= j < c -> lt err (e j) = false).

Lemma new_worker_inv M N a w : new_worker A cj svd M N a = GRet w -> 0 <= N -> 1 <= N <= M /\ exists s u vt, svd M N a = Some (s, u, vt) /\
  w = Worker M N a (times A M (times A N (dagger_of cj vt) (s_inv A M N s)) (dagger_of cj u)) (if N <? M then (fun i j => dagger_of cj u (N + i) j) else (fun _ _ => v_zero A)) s.
Proof.
  unfold new_worker. intros E HN. destruct (Z.ltb_spec M N); [discriminate|]. destruct (svd M N a) as [[[s u] vt]|] eqn:Es; [|discriminate]. destruct (Z.eqb_spec N 0); [discriminate|]. injection E as <-.
  split; [lia|]. exists s, u, vt. auto.
Qed.
Lemma solve_ok M N a w b c : new_worker A cj svd M N a = GRet w -> 0 <= N -> full_rank A M N a -> 1 <= c ->
  exists x err, solve A cj sq lt of_Z w M c b = GRet (x, err) /\ (forall i j, 0 <= i < N -> product_at A M (adjoint cj a) (residual A N a x b) i j = v_zero A) /\ error_of M N c a x b err.
Proof.
  intros E HN Hr Hc. destruct (new_worker_inv M N a w E HN) as (HNM & s & u & vt & Es & ->). assert (HNM' : 0 <= N <= M) by lia.
  pose proof (HP M N a s u vt HNM' Es) as HS. pose proof (full_rank_s A F cj M N a s u vt HNM' HS Hr) as Hs.
  set (x := times A M (times A M (times A N (dagger_of cj vt) (s_inv A M N s)) (dagger_of cj u)) b).
  assert (Hx : forall i j, 0 <= i < N -> x i j = times A M (times A M (times A N (dagger_of cj vt) (s_inv A M N s)) (dagger_of cj u)) b i j) by reflexivity.
  assert (HE : forall err, (M <> N -> (exists j, 0 <= j < c /\ err = v_div A (sq (norm2 A cj M (residual A N a x b) j)) (sq (of_Z M))) /\ (forall j, 0 <= j < c -> lt err (v_div A (sq (norm2 A cj M (residual A N a x b) j)) (sq (of_Z M))) = false)) ->
    (M = N -> err = v_zero A) -> error_of M N c a x b err).
  { intros err H1 H2. unfold error_of. destruct (Z.eqb_spec M N) as [EMN|EMN]; [|now apply H1]. split; [now apply H2|]. intros i j Hi. exact (square_exact A F cj M N a s u vt HNM' HS Hs b x Hx EMN i j Hi). }
  assert (HNE : forall i j, 0 <= i < N -> product_at A M (adjoint cj a) (residual A N a x b) i j = v_zero A) by (intros i j Hi; exact (normal_equations A F cj C M N a s u vt HNM' HS Hs b x Hx i j Hi)).
  unfold solve. cbn [w_M w_N w_null w_inv]. destruct (Z.eqb_spec M N) as [EMN|EMN].
  - cbn [gbind]. rewrite Z.eqb_refl. destruct (Z.eqb_spec c 0); [lia|]. cbn [andb negb]. exists x, (v_zero A). split; [reflexivity|]. split; [exact HNE|]. apply HE; [tauto|reflexivity].
  - rewrite Z.eqb_refl. destruct (Z.eqb_spec c 0) as [|Hc0]; [lia|]. cbn [andb negb]. destruct (Z.ltb_spec N M); [|lia].
    match goal with |- context [max_elem lt ?l] => set (el := l) end. destruct (max_elem lt el) as [e|] eqn:Em.
    + destruct (max_elem_spec lt el e lt_trans lt_asym lt_irr Em) as [H1 H2]. cbn [gbind]. exists x, e. split; [reflexivity|]. split; [exact HNE|].
      assert (Hel : forall i, In i (seq 0 (Z.to_nat c)) -> frobenius A cj sq (M - N) 1 (times A M (fun i j => dagger_of cj u (N + i) j) (fun k _ => b k (Z.of_nat i))) = sq (norm2 A cj M (residual A N a x b) (Z.of_nat i))).
      { intros i _. rewrite (residual_norm A F cj C M N a s u vt HNM' HS Hs b x Hx). unfold frobenius. f_equal. rewrite Z.mul_1_r, (add_up_sum A). unfold norm2. apply sum_to_ext. intros p Hp. rewrite Z.div_1_r, Z.mod_1_r.
        assert (Et : times A M (fun i0 j => dagger_of cj u (N + i0) j) (fun k _ => b k (Z.of_nat i)) p 0 = product_at A M (adjoint cj u) b (N + p) (Z.of_nat i)) by (rewrite (times_pr A); reflexivity). now rewrite Et. }
      apply HE; [|tauto]. intros _. split.
      * unfold el in H1. apply in_map_iff in H1. destruct H1 as (i & <- & Hi). exists (Z.of_nat i). rewrite Hel by exact Hi. apply in_seq in Hi. split; [lia|reflexivity].
      * intros j Hj. apply H2. unfold el. apply in_map_iff. exists (Z.to_nat j). assert (Hi : In (Z.to_nat j) (seq 0 (Z.to_nat c))) by (apply in_seq; lia). split; [|exact Hi]. rewrite Hel by exact Hi. now rewrite Z2Nat.id by lia.
    + exfalso. unfold el in Em. destruct (Z.to_nat c) eqn:Ec; [lia|]. discriminate.
Qed.

(** A solver made for a matrix of full column rank gives the solution of the normal equations.  So every other y has, column by column, a
    residual larger by the square norm of a (y - x); and the error is that of the residual. *)
Theorem C62_least_squares : forall M N a w b c, new_worker A cj svd M N a = GRet w -> 0 <= N -> full_rank A M N a -> 1 <= c ->
  exists x err, solve A cj sq lt of_Z w M c b = GRet (x, err) /\
    (forall i j, 0 <= i < N -> product_at A M (adjoint cj a) (residual A N a x b) i j = v_zero A) /\
    (forall y j, norm2 A cj M (residual A N a y b) j = v_add A (norm2 A cj M (residual A N a x b) j) (norm2 A cj M (product_at A N a (minus A y x)) j)) /\
    (forall y j, (forall i, 0 <= i < N -> product_at A M (adjoint cj a) (residual A N a y b) i j = v_zero A) -> forall i, 0 <= i < N -> y i j = x i j) /\
    error_of M N c a x b err.
Proof.
  intros M N a w b c E HN Hr Hc. destruct (solve_ok M N a w b c E HN Hr Hc) as (x & err & Es & Hne & He). exists x, err. split; [exact Es|]. split; [exact Hne|]. split; [|split; [|exact He]].
  - intros y j. apply (pythagoras A F cj C). intros i Hi. now apply Hne.
  - intros y j Hy. destruct (new_worker_inv M N a w E HN) as (HNM & s & u & vt & E2 & _). apply (normal_unique A F cj C M N a s u vt b x y j); auto; [lia|apply HP; [lia|exact E2]].
Qed.
(** in particular the residual is the smallest, for any notion of not being negative that holds of squares and sums *)
Theorem C62_smallest : forall (P : V -> Prop), nonnegative A cj P -> forall M N a w b c, new_worker A cj svd M N a = GRet w -> 0 <= N -> full_rank A M N a -> 1 <= c ->
  exists x err, solve A cj sq lt of_Z w M c b = GRet (x, err) /\ forall y j, P (v_sub A (norm2 A cj M (residual A N a y b) j) (norm2 A cj M (residual A N a x b) j)).
Proof.
  intros P HPn M N a w b c E HN Hr Hc. destruct (C62_least_squares M N a w b c E HN Hr Hc) as (x & err & Es & _ & Hp & _). exists x, err. split; [exact Es|]. intros y j. rewrite Hp.
  pose proof (F_R F) as Rr. pose proof (norm2_nonneg A cj P M (product_at A N a (minus A y x)) j HPn) as H. match goal with |- P ?t => replace t with (norm2 A cj M (product_at A N a (minus A y x)) j); [exact H|] end.
  destruct Rr as [H0 Hcm Has _ _ _ _ Hsub Hopp]. rewrite Hsub, (Hcm (norm2 A cj M (residual A N a x b) j)), <- Has, Hopp. now rewrite Hcm, H0.
Qed.

(** The hermitian solver: with the columns of b taken as blocks of d by d numbers, the result has hermitian blocks and among all y with hermitian
    blocks the smallest residual, entries (p, q) and (q, p) of the blocks taken together; the error is the largest norm of such pairs, divided
    by the root of twice the number of rows. *)
Theorem C62_hermitian : v_mul A half (v_add A (v_one A) (v_one A)) = v_one A -> forall M N a w b c d, new_worker_hermitian A cj svd M N a = GRet w -> 0 <= N -> full_rank A M N a ->
  0 < d -> 0 < c -> c mod (d * d) = 0 ->
  exists x err, solve_hermitian A cj sq lt half of_Z w M c b (Some d) = GRet (x, err) /\ hermitian_blocks cj d N c x /\
    let j1 n p q := n * (d * d) + p * d + q in
    let pair y n p q := v_add A (norm2 A cj M (residual A N a y b) (j1 n p q)) (norm2 A cj M (residual A N a y b) (j1 n q p)) in
    let e n p q := v_div A (sq (pair x n p q)) (sq (of_Z (M + M))) in
    (forall y, hermitian_blocks cj d N c y -> forall n p q, 0 <= n < c / (d * d) -> 0 <= p < d -> 0 <= q < d ->
      pair y n p q = v_add A (pair x n p q)
              (v_add A (norm2 A cj M (product_at A N a (minus A y x)) (j1 n p q)) (norm2 A cj M (product_at A N (fun i k => cj (a i k)) (minus A y x)) (j1 n p q)))) /\
    (exists n p q, 0 <= n < c / (d * d) /\ 0 <= p < d /\ 0 <= q < d /\ err = e n p q) /\
    (forall n p q, 0 <= n < c / (d * d) -> 0 <= p < d -> 0 <= q < d -> lt err (e n p q) = false).
Proof.
  intros Hh M N a w b c d E HN Hr Hd Hc0 Hc. unfold new_worker_hermitian in E. destruct (new_worker A cj svd M N a) as [w1| | |] eqn:E1; cbn [gbind] in E; try discriminate.
  destruct (new_worker_inv M N a w1 E1 HN) as (HNM & _).
  destruct (new_worker A cj svd (M + M) N (stack M a (fun i j => cj (a i j)))) as [w2| | |] eqn:E2; cbn [gbind] in E; try discriminate. injection E as <-.
  destruct (new_worker_inv (M + M) N _ w2 E2 HN) as (HNM2 & s & u & vt & Es & Ew). assert (HNM2' : 0 <= N <= M + M) by lia. assert (HM : 0 <= M) by lia.
  pose proof (stacked_full_rank A cj M N a HM Hr) as Hr2. pose proof (HP _ _ _ _ _ _ HNM2' Es) as HS.
  destruct (inner_adjoint_ok cj d M c b Hd Hc0 Hc) as (b' & Eb & Hb). rewrite (adjoined_flip cj d M c b b' Hd Hc) in Hb.
  destruct (solve_ok (M + M) N _ w2 (stack M b b') c E2 HN Hr2 ltac:(lia)) as (x & err & Ex & Hne & He).
  destruct (inner_adjoint_ok cj d N c x Hd Hc0 Hc) as (xd & Exd & Hxd). rewrite (adjoined_flip cj d N c x xd Hd Hc) in Hxd.
  assert (Hxx : forall i j, 0 <= i < N -> 0 <= j < c -> xd i j = x i j).
  { intros i j Hi Hj. apply (normal_unique A F cj C (M + M) N _ s u vt (stack M b b') x xd j HNM2' HS Hr2); [intros k Hk; now apply Hne| |exact Hi].
    intros k Hk. rewrite (normal_conj A F cj C M N a b b' HM d c Hd Hc Hb x xd Hxd k j Hj). rewrite Hne by exact Hk. apply (cj_0 A F cj C). }
  set (res := fun i j => v_mul A half (v_add A (x i j) (xd i j))).
  assert (Hres : forall i j, 0 <= i < N -> 0 <= j < c -> res i j = x i j).
  { intros i j Hi Hj. unfold res. rewrite Hxx by auto. pose proof (F_R F) as Rr. destruct Rr as [_ _ _ H1 Hm Hma Hdi _ _]. transitivity (v_mul A half (v_mul A (v_add A (v_one A) (v_one A)) (x i j))); [rewrite Hdi, H1; reflexivity|]. rewrite Hma, Hh. apply H1. }
  assert (Hherm : forall i j, 0 <= i < N -> 0 <= j < c -> res i j = cj (res i (flip d j))).
  { intros i j Hi Hj. destruct (flip_range d c j Hd Hc Hj) as [Hf _]. rewrite !Hres by auto. rewrite <- Hxd by auto. symmetry. now apply Hxx. }
  exists res, err. split; [|split].
  - unfold solve_hermitian. rewrite Eb. cbn [gbind snd]. rewrite Ex. cbn [gbind]. assert (EN : w_N w2 = N) by now rewrite Ew. rewrite EN, Exd. reflexivity.
  - change (blocks_adjoined cj d N c res res). apply (adjoined_flip cj d N c res res Hd Hc). exact Hherm.
  - intros j1 pair e. assert (Hj : forall n p q, 0 <= n < c / (d * d) -> 0 <= p < d -> 0 <= q < d -> 0 <= j1 n p q < c).
    { intros n p q Hn Hp Hq. unfold j1. pose proof (Z.div_mod c (d * d) ltac:(nia)) as E3. rewrite Hc in E3. nia. }
    assert (Hpair : forall y n p q, (forall i j, 0 <= i < N -> 0 <= j < c -> y i j = cj (y i (flip d j))) -> 0 <= n < c / (d * d) -> 0 <= p < d -> 0 <= q < d ->
      norm2 A cj (M + M) (residual A N (stack M a (fun i j => cj (a i j))) y (stack M b b')) (j1 n p q) = pair y n p q).
    { intros y n p q Hy Hn Hp Hq. rewrite (stacked_norm A F cj M N a b b' HM). unfold pair. f_equal. rewrite (norm_conj A F cj C M N d c a b b' y _ HM Hd Hc Hb Hy (Hj n p q Hn Hp Hq)).
      unfold j1. now rewrite flip_at by auto. }
    assert (Hext : forall n p q, 0 <= n < c / (d * d) -> 0 <= p < d -> 0 <= q < d ->
      norm2 A cj (M + M) (residual A N (stack M a (fun i j => cj (a i j))) x (stack M b b')) (j1 n p q) = pair res n p q).
    { intros n p q Hn Hp Hq. rewrite <- Hpair by auto. apply sum_to_ext. intros i Hi. assert (Er : residual A N (stack M a (fun i0 j => cj (a i0 j))) x (stack M b b') i (j1 n p q) = residual A N (stack M a (fun i0 j => cj (a i0 j))) res (stack M b b') i (j1 n p q)).
      { unfold residual, minus. f_equal. apply sum_to_ext. intros k Hk. f_equal. symmetry. apply Hres; [exact Hk|now apply Hj]. } now rewrite Er. }
    split; [|split].
    + intros y Hy n p q Hn Hp Hq. change (blocks_adjoined cj d N c y y) in Hy. rewrite (adjoined_flip cj d N c y y Hd Hc) in Hy.
      rewrite <- (Hpair y) by auto. rewrite (pythagoras A F cj C (M + M) N _ x y (stack M b b') (j1 n p q)) by (intros i Hi; now apply Hne). rewrite (Hext n p q) by auto. f_equal.
      unfold norm2. rewrite (sum_split A F) by lia.
      assert (Ez : forall k, 0 <= k < N -> minus A y x k (j1 n p q) = minus A y res k (j1 n p q)) by (intros k Hk; unfold minus; f_equal; symmetry; apply Hres; [exact Hk|now apply Hj]).
      f_equal; apply sum_to_ext; intros i Hi.
      * assert (Ep : product_at A N (stack M a (fun i0 j => cj (a i0 j))) (minus A y x) i (j1 n p q) = product_at A N a (minus A y res) i (j1 n p q)) by (apply sum_to_ext; intros k Hk; rewrite stack_low by lia; f_equal; now apply Ez). now rewrite Ep.
      * assert (Ep : product_at A N (stack M a (fun i0 j => cj (a i0 j))) (minus A y x) (M + i) (j1 n p q) = product_at A N (fun i0 k => cj (a i0 k)) (minus A y res) i (j1 n p q)) by (apply sum_to_ext; intros k Hk; rewrite stack_high by lia; f_equal; now apply Ez). now rewrite Ep.
    + unfold error_of in He. destruct (Z.eqb_spec (M + M) N) as [EMN|EMN]; [lia|]. cbv zeta in He. destruct He as [(j & Hjc & Hj2) _]. destruct (column_form d c j Hd Hc Hjc) as (n & p & q & Ej & Hn & Hp & Hq). exists n, p, q. split; [exact Hn|]. split; [exact Hp|]. split; [exact Hq|].
      unfold e. rewrite <- Hext by auto. rewrite Hj2, Ej. reflexivity.
    + intros n p q Hn Hp Hq. unfold error_of in He. destruct (Z.eqb_spec (M + M) N) as [EMN|EMN]; [lia|]. cbv zeta in He. destruct He as [_ He]. unfold e. rewrite <- Hext by auto. apply He. now apply Hj.
Qed.

(** what is refused: more columns than rows, right-hand sides of another number of rows, no block dimension, a number of columns that is no multiple of d^2 *)
Theorem C62_refused : forall M N a w b c,
  (M < N -> new_worker A cj svd M N a = GThrow /\ new_worker_hermitian A cj svd M N a = GThrow) /\
  (forall w0 r, new_worker A cj svd M N a = GRet w0 -> 0 <= N -> r <> M -> c <> 0 -> solve A cj sq lt of_Z w0 r c b = GStop) /\
  solve_hermitian A cj sq lt half of_Z w M c b None = GThrow /\
  (forall d, 0 < d -> 0 <= c -> c mod (d * d) <> 0 -> solve_hermitian A cj sq lt half of_Z w M c b (Some d) = GStop).
Proof.
  intros M N a w b c. split; [|split; [|split]].
  - intros H. unfold new_worker_hermitian, new_worker. destruct (Z.ltb_spec M N); [|lia]. split; reflexivity.
  - intros w0 r E HN Hr Hc. destruct (new_worker_inv M N a w0 E HN) as (_ & s & u & vt & _ & ->). unfold solve. cbn [w_M w_N]. destruct (Z.eqb_spec r M); [contradiction|]. destruct (Z.eqb_spec c 0); [contradiction|]. cbn [andb negb]. destruct (M =? N); reflexivity.
  - reflexivity.
  - intros d Hd Hc H. unfold solve_hermitian, inner_adjoint. destruct (Z.eqb_spec d 0); [lia|]. rewrite Z.rem_mod_nonneg by nia. destruct (Z.eqb_spec (c mod (d * d)) 0); [contradiction|]. reflexivity.
Qed.

(** a right-hand side without columns: for rectangular matrices the largest element of an empty vector is read *)
Theorem C62_no_columns_refuted : forall M N a w b, new_worker A cj svd M N a = GRet w -> 0 <= N -> M <> N -> solve A cj sq lt of_Z w M 0 b = GUndef.
Proof.
  intros M N a w b E HN Hne. destruct (new_worker_inv M N a w E HN) as (_ & s & u & vt & _ & ->). unfold solve. cbn [w_M w_N]. destruct (Z.eqb_spec M N); [contradiction|]. reflexivity.
Qed.
End Gelss.
Print Assumptions C62_least_squares.
Print Assumptions C62_smallest.
Print Assumptions C62_hermitian.
Print Assumptions C62_refused.
Print Assumptions C62_no_columns_refuted.

(** non-vacuity: the rational numbers, the column (3, 4) and right-hand sides (5, 10), (1, 0); the solution is (11/5, 3/25); with blocks of dimension 1 *)
Definition Qc_arith : arith Qc := Arith Qc (Q2Qc 0%Q) (Q2Qc 1%Q) Qcopp Qcplus Qcminus Qcmult Qcdiv.
Lemma Qc_field : is_field Qc_arith.
Proof.
  pose proof Qcft as H. split; [exact (F_R H)|exact (F_1_neq_0 H)|intros p q; cbn; unfold Qcdiv; ring|].
  intros p Hp. cbn. transitivity (p * (/ p))%Qc; [unfold Qcdiv; ring|]. now apply Qcmult_inv_r.
Qed.
Lemma Qc_conj : conjugation Qc_arith (fun q => q).
Proof. split; reflexivity. Qed.
Definition qfrac (n : Z) (d : positive) : Qc := Q2Qc (QArith_base.Qmake n d).
Definition ex_u (i j : Z) : Qc := if i =? 0 then (if j =? 0 then qfrac 3 5 else qfrac (-4) 5) else (if j =? 0 then qfrac 4 5 else qfrac 3 5).
Definition ex_svd (M N : Z) (a : Z -> Z -> Qc) : option (list Qc * (Z -> Z -> Qc) * (Z -> Z -> Qc)) :=
  if (M =? 2) && (N =? 1) then (if Qc_eq_dec (a 0 0) (qfrac 3 1) then if Qc_eq_dec (a 1 0) (qfrac 4 1) then Some ([qfrac 5 1], ex_u, fun _ _ => qfrac 1 1) else None else None) else None.
Lemma two_cases (P : Z -> Prop) : P 0 -> P 1 -> forall i, 0 <= i < 2 -> P i.
Proof. intros H0 H1 i Hi. assert (i = 0 \/ i = 1) as [-> | ->] by lia; auto. Qed.
Example C62_ex_promise : svd_promise Qc_arith (fun q => q) ex_svd.
Proof.
  intros M N a s u vt H. unfold ex_svd. destruct (Z.eqb_spec M 2) as [->|]; [|discriminate]. destruct (Z.eqb_spec N 1) as [->|]; [|discriminate]. cbn [andb].
  destruct (Qc_eq_dec (a 0 0) (qfrac 3 1)) as [E0|]; [|discriminate]. destruct (Qc_eq_dec (a 1 0) (qfrac 4 1)) as [E1|]; [|discriminate]. intros E. injection E as <- <- <-.
  split; [reflexivity|]. split; [reflexivity|]. split; [|split].
  - intros i j Hi Hj. assert (j = 0) as -> by lia. revert i Hi. apply two_cases; [rewrite E0|rewrite E1]; apply Qc_is_canon; reflexivity.
  - intros i j Hi Hj. revert j Hj. apply two_cases; revert i Hi; apply two_cases; split; apply Qc_is_canon; reflexivity.
  - intros i j Hi Hj. assert (j = 0) as -> by lia. assert (i = 0) as -> by lia. split; apply Qc_is_canon; reflexivity.
Qed.
Definition ex_a (i j : Z) : Qc := if i =? 0 then qfrac 3 1 else qfrac 4 1.
Example C62_ex_rank : full_rank Qc_arith 2 1 ex_a.
Proof.
  intros z Hz k Hk. assert (k = 0) as -> by lia. specialize (Hz 0 ltac:(lia)). unfold sum_to in Hz. cbn in Hz.
  assert (H3 : qfrac 3 1 <> Q2Qc 0%Q) by discriminate. destruct (Qcmult_integral (qfrac 3 1) (z 0)) as [E|E]; [|now destruct H3|exact E].
  rewrite <- Hz. change (qfrac 3 1 * z 0%Z = Q2Qc 0%Q + qfrac 3 1 * z 0%Z)%Qc. ring.
Qed.
Example C62_ex : let b := fun i j => if j =? 0 then (if i =? 0 then qfrac 5 1 else qfrac 10 1) else (if i =? 0 then qfrac 1 1 else qfrac 0 1) in
  match new_worker Qc_arith (fun q => q) ex_svd 2 1 ex_a with
  | GRet w => match solve Qc_arith (fun q => q) (fun q => q) (fun p q => match (p ?= q)%Qc with Lt => true | _ => false end) (fun z => qfrac z 1) w 2 2 b with
              | GRet (x, err) => (map this [x 0 0; x 0 1; err])
              | _ => []
              end
  | _ => []
  end = [QArith_base.Qmake 11 5; QArith_base.Qmake 3 25; QArith_base.Qmake 2 1].
Proof. vm_compute. reflexivity. Qed.

(** non-vacuity of the hermitian solver: the field of seven elements, in which 2 has the root 3; a is the 1 by 1 unit matrix *)
Inductive F7 := e0 | e1 | e2 | e3 | e4 | e5 | e6.
Definition f7_to (x : F7) : nat := match x with e0 => 0 | e1 => 1 | e2 => 2 | e3 => 3 | e4 => 4 | e5 => 5 | e6 => 6 end%nat.
Definition f7_of (n : nat) : F7 := nth (Nat.modulo n 7) [e0; e1; e2; e3; e4; e5; e6] e0.
Definition f7_inv (x : F7) : F7 := match x with e0 => e0 | e1 => e1 | e2 => e4 | e3 => e5 | e4 => e2 | e5 => e3 | e6 => e6 end.
Definition f7_add x y := f7_of (f7_to x + f7_to y). Definition f7_mul x y := f7_of (f7_to x * f7_to y). Definition f7_opp x := f7_of (7 - f7_to x).
Definition F7_arith : arith F7 := Arith F7 e0 e1 f7_opp f7_add (fun x y => f7_add x (f7_opp y)) f7_mul (fun x y => f7_mul x (f7_inv y)).
Lemma F7_field : is_field F7_arith.
Proof.
  split; [split; cbn; try (intros [] [] []; reflexivity); try (intros [] []; reflexivity); try (intros []; reflexivity)|discriminate|intros [] []; reflexivity|intros [] H; [now destruct H|..]; reflexivity].
Qed.
Definition f7_svd (M N : Z) (a : Z -> Z -> F7) : option (list F7 * (Z -> Z -> F7) * (Z -> Z -> F7)) :=
  if negb (N =? 1) then None else
  if M =? 1 then match a 0 0 with e1 => Some ([e1], fun _ _ => e1, fun _ _ => e1) | _ => None end else
  if M =? 2 then match a 0 0, a 1 0 with e1, e1 => Some ([e3], (fun i j => if (i =? 0) && (j =? 1) then e2 else e5), fun _ _ => e1) | _, _ => None end else None.
Example C62_ex_promise7 : svd_promise F7_arith (fun q => q) f7_svd.
Proof.
  intros M N a s u vt H. unfold f7_svd. destruct (Z.eqb_spec N 1) as [->|]; [|discriminate]. cbn [negb]. destruct (Z.eqb_spec M 1) as [->|]; [|destruct (Z.eqb_spec M 2) as [->|]; [|discriminate]].
  - destruct (a 0 0) eqn:E0; try discriminate. intros E. injection E as <- <- <-. split; [reflexivity|]. split; [reflexivity|].
    split; [|split]; intros i j Hi Hj; assert (j = 0) as -> by lia; assert (i = 0) as -> by lia; try split; try reflexivity. rewrite E0. reflexivity.
  - destruct (a 0 0) eqn:E0; try discriminate. destruct (a 1 0) eqn:E1; try discriminate. intros E. injection E as <- <- <-. split; [reflexivity|]. split; [reflexivity|]. split; [|split].
    + intros i j Hi Hj. assert (j = 0) as -> by lia. revert i Hi. apply two_cases; [rewrite E0|rewrite E1]; reflexivity.
    + intros i j Hi Hj. revert j Hj. apply two_cases; revert i Hi; apply two_cases; split; reflexivity.
    + intros i j Hi Hj. assert (j = 0) as -> by lia. assert (i = 0) as -> by lia. split; reflexivity.
Qed.
(** right-hand side: one block with rows 1 2 and 3 4; the nearest symmetric block has (2 + 3) / 2 = 6 off the diagonal *)
Example C62_ex_hermitian : f7_mul e4 (f7_add e1 e1) = e1 /\
  match new_worker_hermitian F7_arith (fun q => q) f7_svd 1 1 (fun _ _ => e1) with
  | GRet w => match solve_hermitian F7_arith (fun q => q) (fun q => q) (fun _ _ => false) e4 (fun z => f7_of (Z.to_nat z)) w 1 4 (fun _ j => f7_of (Z.to_nat (j + 1))) (Some 2) with
              | GRet (x, _) => map (x 0) [0; 1; 2; 3]
              | _ => []
              end
  | _ => []
  end = [e1; e6; e6; e4].
Proof. split; vm_compute; reflexivity. Qed.

(** ** the wrapper of gesvd *)
(** C51: for matrices stored by columns, apart from each other, gesvd leaves in u and vt the factors of the matrix, or throws, if the
    library reports a failure *)
Theorem C51_gesvd : forall V (A : arith V) cj L, gesvd_promise A cj L -> forall checks a u vt M N ld ldu ldvt (m : mem V),
  0 <= M -> 0 <= N -> int_range M -> int_range N -> int_range ld -> int_range ldu -> int_range ldvt -> column_major a M N ld -> column_major u M M ldu -> column_major vt N N ldvt ->
  disjoint a u -> disjoint a vt -> disjoint u vt ->
  exists m' s, gesvd L checks a u vt m = BRet (m', s) /\ (forall sv, s = Some sv -> svd_of A cj M N (entry a m) sv (entry u m') (entry vt m')) /\
    (s = None -> exists info, f77_gesvd L M N (v_base a) ld (v_base u) ldu (v_base vt) ldvt m = BRet (m', info) /\ snd info <> 0) /\
    (forall q, ~ is_cell_of a q -> ~ is_cell_of u q -> ~ is_cell_of vt q -> m' q = m q).
Proof.
  intros V A cj L HG checks a u vt M N ld ldu ldvt m HM HN IM IN Il Iu Iv Ha Hu Hv D1 D2 D3. unfold gesvd.
  destruct (column_major_layout a M N ld Ha) as [_ ->]. destruct (column_major_layout u M M ldu Hu) as [_ ->]. destruct (column_major_layout vt N N ldvt Hv) as [_ ->]. cbn [andb negb].
  assert (Ba : blas_matrix a M N) by (exact (conj HM (conj HN (conj IM (conj IN (ex_intro _ ld (conj Il (or_intror Ha)))))))).
  assert (Bu : blas_matrix u M M) by (exact (conj HM (conj HM (conj IM (conj IM (ex_intro _ ldu (conj Iu (or_intror Hu)))))))).
  assert (Bv : blas_matrix vt N N) by (exact (conj HN (conj HN (conj IN (conj IN (ex_intro _ ldvt (conj Iv (or_intror Hv)))))))).
  rewrite (min_stride_blas a M N Ba), (min_stride_blas u M M Bu), (min_stride_blas vt N N Bv). cbn [andb Z.eqb Pos.eqb]. rewrite expects_true. destruct (blas_extent a M N Ba) as [-> ->].
  rewrite (int32_id M IM), (int32_id N IN), (column_major_ld a M N ld Il Ha), (column_major_ld u M M ldu Iu Hu), (column_major_ld vt N N ldvt Iv Hv).
  pose proof (rect_cells a M N ld Ha) as Ra. pose proof (rect_cells u M M ldu Hu) as Ru. pose proof (rect_cells vt N N ldvt Hv) as Rv.
  destruct (HG M N (v_base a) ld (v_base u) ldu (v_base vt) ldvt m HM HN) as (m' & s & info & E & Hs & Hf).
  { destruct Ha as (_ & _ & _ & H). exact H. } { destruct Hu as (_ & _ & _ & H). exact H. } { destruct Hv as (_ & _ & _ & H). exact H. }
  { intros q H1 H2. apply (D1 q); [now apply Ra|now apply Ru]. } { intros q H1 H2. apply (D2 q); [now apply Ra|now apply Rv]. } { intros q H1 H2. apply (D3 q); [now apply Ru|now apply Rv]. }
  rewrite E. cbn [bbind]. eexists m', _. split; [reflexivity|]. split.
  - intros sv Esv. destruct (Z.eqb_spec info 0) as [Ei|]; [|discriminate]. injection Esv as <-. specialize (Hs Ei).
    assert (Sa : forall i j, seen m (v_base a) ld i j = entry a m i j) by (intros i j; unfold seen, entry; now rewrite (column_major_cell a M N ld) by exact Ha).
    assert (Su : forall i j, seen m' (v_base u) ldu i j = entry u m' i j) by (intros i j; unfold seen, entry; now rewrite (column_major_cell u M M ldu) by exact Hu).
    assert (Sv : forall i j, seen m' (v_base vt) ldvt i j = entry vt m' i j) by (intros i j; unfold seen, entry; now rewrite (column_major_cell vt N N ldvt) by exact Hv).
    destruct Hs as (H1 & H2 & H3 & H4 & H5). split; [exact H1|]. split; [exact H2|]. split; [|split].
    + intros i j Hi Hj. rewrite <- Sa, H3 by auto. apply sum_to_ext. intros k Hk. now rewrite Su, Sv.
    + revert H4. apply inverse_ext; intros i j _ _; [apply Su|unfold adjoint; now rewrite Su].
    + revert H5. apply inverse_ext; intros i j _ _; [apply Sv|unfold adjoint; now rewrite Sv].
  - split; [intros Es; exists (s, info); split; [reflexivity|]; cbn [snd]; destruct (Z.eqb_spec info 0); [discriminate|assumption]|]. intros q H1 H2 H3. apply Hf; [now rewrite Ra|now rewrite Ru|now rewrite Rv].
Qed.
Print Assumptions C51_gesvd.
(** a library that keeps the promise, made from the decompositions above *)
Definition F7_lapack : lapack F7 := Lapack F7 (fun _ _ _ _ _ => BStop) (fun _ _ _ _ _ => BStop) (fun _ _ _ _ _ _ _ _ _ => BStop) (fun _ _ _ _ _ _ _ _ => BStop)
  (fun M N pa lda pu ldu pvt ldvt m => match f7_svd M N (seen m pa lda) with Some (s, u, vt) => BRet (store (store m pu ldu M M u) pvt ldvt N N vt, (s, 0)) | None => BRet (m, ([], 1)) end) (fun _ _ _ _ _ => BStop).
Example C51_ex_gesvd_promise : gesvd_promise F7_arith (fun q => q) F7_lapack.
Proof.
  intros M N pa lda pu ldu pvt ldvt m HM HN Ha Hu Hv D1 D2 D3. cbn [f77_gesvd F7_lapack]. destruct (f7_svd M N (seen m pa lda)) as [[[s u] vt]|] eqn:E; [|eexists _, _, 1; split; [reflexivity|split; [discriminate|reflexivity]]].
  assert (HNM : 0 <= N <= M).
  { unfold f7_svd in E. destruct (Z.eqb_spec N 1) as [->|]; [|discriminate]. cbn [negb] in E. destruct (Z.eqb_spec M 1) as [->|]; [lia|]. destruct (Z.eqb_spec M 2) as [->|]; [lia|discriminate]. }
  eexists _, _, 0. split; [reflexivity|]. split.
  - intros _. destruct (C62_ex_promise7 M N _ s u vt HNM E) as (H1 & H2 & H3 & H4 & H5).
    assert (Su : forall i j, 0 <= i < M -> 0 <= j < M -> seen (store (store m pu ldu M M u) pvt ldvt N N vt) pu ldu i j = u i j).
    { intros i j Hi Hj. rewrite <- (store_seen m pu ldu M M u i j) by (auto; lia). unfold seen. apply store_outside; [lia|]. intros Hq. apply (D3 (col_major pu ldu i j)); [|exact Hq]. exists i, j. repeat split; lia. }
    assert (Sv : forall i j, 0 <= i < N -> 0 <= j < N -> seen (store (store m pu ldu M M u) pvt ldvt N N vt) pvt ldvt i j = vt i j) by (intros i j Hi Hj; apply store_seen; auto; lia).
    split; [exact H1|]. split; [exact H2|]. split; [|split].
    + intros i j Hi Hj. rewrite H3 by auto. apply sum_to_ext. intros k Hk. now rewrite Su, Sv by lia.
    + revert H4. apply inverse_ext; intros i j Hi Hj; [now rewrite Su|unfold adjoint; now rewrite Su].
    + revert H5. apply inverse_ext; intros i j Hi Hj; [now rewrite Sv|unfold adjoint; now rewrite Sv].
  - intros q _ H2 H3. now rewrite !store_outside by (auto; lia).
Qed.
Example C51_ex_gesvd : let a := ex_view [1; 0]%nat [2; 1] [1; 3] 0 in let u := ex_view [1; 0]%nat [2; 2] [1; 2] 10 in let vt := ex_view [1; 0]%nat [1; 1] [1; 1] 20 in
  column_major a 2 1 3 /\ column_major u 2 2 2 /\ column_major vt 1 1 1 /\
  match gesvd F7_lapack true a u vt (fun _ => e1) with
  | BRet (m', Some s) => (s, map (fun i => map (entry u m' i) [0; 1]) [0; 1], entry vt m' 0 0)
  | _ => ([], [], e0) end = ([e3], [[e5; e2]; [e5; e5]], e1).
Proof. split; [repeat split; lia|]. split; [repeat split; lia|]. split; [repeat split; lia|]. vm_compute. reflexivity. Qed.
