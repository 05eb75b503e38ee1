(** C60: quotients of matrices. *)
From Coq Require Import Ring Field.
From Verif Require Import Base M_Perm M_IdxMap M_Slice M_Loops M_Assign M_Expr M_Transform M_Blas M_Lapack M_MatOps S_Layout S_Loops S_Assign S_Blas S_Lapack
  L_Perm L_IdxMap L_Layout L_Loops L_Assign L_Transform L_Factory L_Blas L_Blas2 L_Blas3 L_Blas4 L_Lapack L_Lapack2 L_Lapack3 L_Lapack4 L_Lu P_Blas P_Lapack.

Section Division.
Context {V : Type} (A : arith V) (F : is_field A) (cj : V -> V) (is0 : V -> bool) (Z0 : decides_zero A is0) (L : lapack V).
Let R : is_ring A := F_R F.
Let Rth : ring_theory (v_zero A) (v_one A) (v_add A) (v_mul A) (v_sub A) (v_opp A) eq := R.
Add Ring MatOpsRing : Rth.

Lemma inverse_of_copy_spec checks c1 c2 n (r : rhs V) m : 0 <= n -> int_range n -> square_source r n c1 -> (n <= 3 \/ getrf_promise A L /\ getri_promise A L) ->
  (forall a, block c1 (n * n) a -> block c2 (n * n) a -> False) ->
  exists m' v, inverse_of_copy A is0 L checks c1 c2 [n; n] r m = BRet (m', v) /\
    (v = None -> ~ exists x, inverse_of A n (fun i j => rhs_value r m [i; j]) x) /\
    (forall c, v = Some c -> c = new_array [0; 1]%nat c2 [n; n] /\ inverse_of A n (fun i j => rhs_value r m [i; j]) (entry c m')) /\
    (forall q, ~ block c1 (n * n) q -> ~ block c2 (n * n) q -> m' q = m q).
Proof.
  intros Hn In (H1 & H2) HL Hd. unfold inverse_of_copy. destruct (copy_value checks [0; 1]%nat c1 n n r m order_C Hn Hn H1 H2) as (m1 & E & Hv & Hu). rewrite E.
  set (c := new_array [0; 1]%nat c1 [n; n]) in *.
  assert (Hs : square_source (RMem c : rhs V) n c2).
  { split; [intros src Es; injection Es as <-; split; [exact (usable_truthful _ (new_usable2 _ _ _ _ order_C Hn Hn))|reflexivity]|].
    intros idx ma mb Hi Hm. cbn [rhs_value]. apply Hm. intros C. apply (Hd (cell c idx)); [|exact C]. apply (new_cells2 _ _ _ _ _ order_C Hn Hn). exists idx. split; [exact Hi|reflexivity]. }
  destruct (C47_inverse A F is0 Z0 L checks c2 [0; 1]%nat n (RMem c) m1 Hn In order_C Hs HL) as (v & m2 & ok & E2 & -> & Hok & Hi & Hu2). rewrite E2. cbn [bbind].
  assert (Ee : forall i j, 0 <= i < n -> 0 <= j < n -> rhs_value (RMem c) m1 [i; j] = rhs_value r m [i; j]) by (intros; now apply Hv).
  eexists m2, _. split; [reflexivity|]. split; [|split].
  - destruct ok; [discriminate|]. intros _ (x & Hx). assert (C : false = true) by (apply Hok; exists x; revert Hx; apply inverse_ext; auto; intros; symmetry; auto). discriminate.
  - intros v. destruct ok; [|discriminate]. intros E0. injection E0 as <-. split; [reflexivity|]. specialize (Hi eq_refl). revert Hi. apply inverse_ext; auto.
  - intros q Hq1 Hq2. rewrite Hu2 by exact Hq2. now apply Hu.
Qed.

(** a / b with b square: an exception exactly if b has no inverse, otherwise a new matrix x with x b = a; what a and b read is unchanged *)
Theorem C60_matrix_division : forall checks c1 c2 b1 b2 b3 b4 b5 l (r : rhs V) (P : Z -> Prop) m p n,
  operand_fits l p n -> (forall v, l = OMat true v -> extents_agree (im_se (v_lay v)) [p; n]) -> operand_reads l P ->
  (forall src, r = RMem src -> truthful (v_lay src) /\ im_len (v_lay src) = [n; n]) ->
  (forall idx m1 m2, in_range idx [n; n] -> (forall a, P a -> m1 a = m2 a) -> rhs_value r m1 idx = rhs_value r m2 idx) ->
  (n <= 3 \/ getrf_promise A L /\ getri_promise A L) ->
  new_blocks P [(c1, n * n); (c2, n * n); (b2, p * n); (b3, n * n); (b4, p * n); (b5, n * n); (b1, p * n)] ->
  exists m' x, matrix_div A cj is0 L checks c1 c2 b1 b2 b3 b4 b5 l [n; n] r m = BRet (m', x) /\
    (x = None <-> ~ exists y, inverse_of A n (fun i j => rhs_value r m [i; j]) y) /\
    (forall res, x = Some res -> im_len (v_lay res) = [p; n] /\ (forall a, is_cell_of res a <-> block b1 (p * n) a) /\
       forall i j, 0 <= i < p -> 0 <= j < n -> product_at A n (entry res m') (fun i j => rhs_value r m [i; j]) i j = operand_at cj l m i j) /\
    (forall a, P a -> m' a = m a).
Proof.
  intros checks c1 c2 b1 b2 b3 b4 b5 l r P m p n Fl Sl Rl Hs Hr HL (N1 & N2 & HB).
  assert (Hd : 1 <= p /\ 1 <= n /\ int_range p /\ int_range n) by (destruct Fl as (? & ? & ? & ? & _); auto). destruct Hd as (Hp & Hn & Ip & In).
  unfold matrix_div. destruct (inverse_of_copy_spec checks c1 c2 n r m) as (m1 & v & E & Hno & Hyes & Hu); auto; [lia| |intros a Ha Hb; apply (N2 a Hb); now right|].
  { split; [exact Hs|]. intros idx ma mb Hi Hm. apply Hr; [exact Hi|]. intros a Ha. apply Hm. intros C. now apply (N1 a C). }
  rewrite E. cbn [bbind]. assert (HP : forall a, P a -> m1 a = m a) by (intros a Ha; apply Hu; intros C; [now apply (N1 a C)|apply (N2 a C); now left]).
  destruct v as [c|].
  - destruct (Hyes c eq_refl) as (-> & Hi). set (c := new_array [0; 1]%nat c2 [n; n]) in *. set (P' := fun a => (P a \/ block c1 (n * n) a) \/ block c2 (n * n) a) in *.
    assert (Rl' : operand_reads l P').
    { destruct l as [reg w|w|so s f]; cbn [operand_reads] in *; [intros a Ha; left; left; auto|intros a Ha; left; left; auto|].
      intros idx ma mb Hx Hm. apply Rl; [exact Hx|]. intros a Ha. apply Hm. left. now left. }
    assert (Fc : operand_fits (OMat true c : @operand V) n n).
    { split; [lia|]. split; [lia|]. split; [exact In|]. split; [exact In|]. split; [apply new_blas; auto; [exact order_C|..]; lia|apply new_usable2; [exact order_C|..]; lia]. }
    assert (Rc : operand_reads (OMat true c : @operand V) P').
    { intros a Ha. right. apply (new_cells2 _ _ _ _ _ order_C) in Ha; [exact Ha|lia|lia]. }
    destruct (matmul_spec A cj R checks b1 b2 b3 b4 b5 l (OMat true c) P' m1 p n n Fl Fc ltac:(intros _ v Ev _; split; [exact (Sl v Ev)|exact I]) Rl' Rc HB) as (res & m2 & E2 & El & _ & Hc & Hv & Hk). rewrite E2. cbn [bbind].
    exists m2, (Some res). split; [reflexivity|]. split; [|split].
    + split; [discriminate|]. intros Hx. exfalso. apply Hx. exists (entry c m1). exact Hi.
    + intros res' Er. injection Er as <-. split; [exact El|]. split; [exact Hc|]. intros i j Hi0 Hj0.
      rewrite (product_ext A n (entry res m2) _ (product_at A n (operand_at cj l m1) (entry c m1)) (fun i j => rhs_value r m [i; j])); [|intros q Hq; unfold entry at 1; now apply Hv|reflexivity].
      rewrite (product_assoc A R). rewrite (product_ext A n _ _ (operand_at cj l m1) (unit_matrix A)); [|reflexivity|intros q Hq; apply (Hi q j); lia].
      rewrite (product_unit_r A F) by lia.
      destruct l as [reg w|w|so s f]; cbn [operand_at operand_reads] in *.
      * apply HP, Rl. exists [i; j]. split; [|reflexivity]. destruct Fl as (_ & _ & _ & _ & HBw & _). apply (in_view2 w p n); auto. apply (blas_len w p n HBw).
      * f_equal. apply HP, Rl. exists [i; j]. split; [|reflexivity]. destruct Fl as (_ & _ & _ & _ & HBw & _). apply (in_view2 w p n); auto. apply (blas_len w p n HBw).
      * apply Rl; [|exact HP]. destruct Fl as (_ & _ & _ & _ & ->). repeat constructor; lia.
    + intros a Ha. rewrite Hk by (left; now left). now apply HP.
  - exists m1, None. split; [reflexivity|]. split; [|split; [discriminate|exact HP]]. split; [intros _; now apply Hno|reflexivity].
Qed.

(** s / b with b square: an exception exactly if b has no inverse, otherwise the matrix x with x b = s times the unit matrix *)
Theorem C60_scalar_division : forall checks c1 c2 s (r : rhs V) (P : Z -> Prop) m n, 0 <= n -> int_range n ->
  (forall src, r = RMem src -> truthful (v_lay src) /\ im_len (v_lay src) = [n; n]) ->
  (forall idx m1 m2, in_range idx [n; n] -> (forall a, P a -> m1 a = m2 a) -> rhs_value r m1 idx = rhs_value r m2 idx) ->
  (n <= 3 \/ getrf_promise A L /\ getri_promise A L) -> new_blocks P [(c1, n * n); (c2, n * n)] ->
  exists m' x, scalar_div A is0 L checks c1 c2 s [n; n] r m = BRet (m', x) /\
    (x = None <-> ~ exists y, inverse_of A n (fun i j => rhs_value r m [i; j]) y) /\
    (forall e, x = Some e -> get_algebra e = AlgM /\ expr_shape e = [n; n] /\
       forall i j, 0 <= i < n -> 0 <= j < n -> product_at A n (fun i j => expr_at A m' e [i; j]) (fun i j => rhs_value r m [i; j]) i j = if i =? j then s else v_zero A) /\
    (forall a, P a -> m' a = m a).
Proof.
  intros checks c1 c2 s r P m n Hn In Hs Hr HL (N1 & N2 & _). unfold scalar_div.
  destruct (inverse_of_copy_spec checks c1 c2 n r m) as (m1 & v & E & Hno & Hyes & Hu); auto; [|intros a Ha Hb; apply (N2 a Hb); now right|].
  { split; [exact Hs|]. intros idx ma mb Hi Hm. apply Hr; [exact Hi|]. intros a Ha. apply Hm. intros C. now apply (N1 a C). }
  rewrite E. cbn [bbind]. assert (HP : forall a, P a -> m1 a = m a) by (intros a Ha; apply Hu; intros C; [now apply (N1 a C)|apply (N2 a C); now left]).
  eexists m1, _. split; [reflexivity|]. destruct v as [c|].
  - destruct (Hyes c eq_refl) as (-> & Hi). set (c := new_array [0; 1]%nat c2 [n; n]) in *. split; [|split; [|exact HP]].
    + split; [discriminate|]. intros Hx. exfalso. apply Hx. exists (entry c m1). exact Hi.
    + intros e Er. injection Er as <-. split; [reflexivity|]. split; [reflexivity|]. intros i j Hi0 Hj0.
      transitivity (v_mul A s (product_at A n (entry c m1) (fun i j => rhs_value r m [i; j]) i j)).
      { unfold product_at. rewrite <- (sum_to_scale A R). apply sum_to_ext. intros q Hq. cbn [expr_at]. unfold entry. rewrite (elem_cell2 c n n i q); [ring|apply new_usable2; auto; exact order_C|reflexivity]. }
      rewrite (proj2 (Hi i j Hi0 Hj0)). unfold unit_matrix. destruct (i =? j); ring.
  - split; [|split; [discriminate|exact HP]]. split; [intros _; now apply Hno|reflexivity].
Qed.

(** a matrix that is not square is refused where the checks are on *)
Theorem C60_not_square : forall c1 c2 b1 b2 b3 b4 b5 l (r : rhs V) m k n, k <> n -> 0 <= k -> 0 <= n -> (forall src, r = RMem src -> truthful (v_lay src) /\ im_len (v_lay src) = [k; n]) ->
  (forall idx m1 m2, in_range idx [k; n] -> (forall a, ~ block c1 (k * n) a -> m1 a = m2 a) -> rhs_value r m1 idx = rhs_value r m2 idx) ->
  matrix_div A cj is0 L true c1 c2 b1 b2 b3 b4 b5 l [k; n] r m = BStop.
Proof.
  intros c1 c2 b1 b2 b3 b4 b5 l r m k n Hkn Hk Hn H1 H2. unfold matrix_div, inverse_of_copy. destruct (copy_value true [0; 1]%nat c1 k n r m order_C Hk Hn H1 H2) as (m1 & -> & _ & _).
  unfold inverse, nthZ. cbn [nth]. destruct (Z.eqb_spec k n); [contradiction|]. reflexivity.
Qed.
End Division.
Print Assumptions C60_matrix_division.
Print Assumptions C60_scalar_division.
Print Assumptions C60_not_square.

(** non-vacuity: 1 0 1 / 0 1 0 over the field of two elements, by the 3 by 3 matrix of B_mem *)
Example C60_ex : let v := ex_view [1; 0]%nat [2; 3] [1; 4] 100 in let b := ex_view [1; 0]%nat [3; 3] [1; 4] 0 in
  match matrix_div B_arith (fun x => x) negb B_lapack true 200 220 300 320 340 360 380 (OMat true v) [3; 3] (RMem b) (fun q => B_mem 1 4 q || (q =? 100) || (q =? 105) || (q =? 108)) with
  | BRet (m', Some x) => map (fun i => map (fun j => entry x m' i j) [0; 1; 2]) [0; 1]
  | _ => []
  end = [[false; false; true]; [true; false; false]].
Proof. vm_compute. reflexivity. Qed.
Example C60_ex_blocks : new_blocks (fun a => 0 <= a < 12 \/ 100 <= a < 112) [(200, 3 * 3); (220, 3 * 3); (320, 2 * 3); (340, 3 * 3); (360, 2 * 3); (380, 3 * 3); (300, 2 * 3)].
Proof. cbn [new_blocks]. unfold block. repeat split; intros; lia. Qed.
Example C60_ex_fits : operand_fits (OMat true (ex_view [1; 0]%nat [2; 3] [1; 4] 100) : @operand bool) 2 3.
Proof.
  split; [lia|]. split; [lia|]. split; [unfold int_range; lia|]. split; [unfold int_range; lia|].
  assert (H : blas_matrix (ex_view [1; 0]%nat [2; 3] [1; 4] 100) 2 3) by (split; [lia|]; split; [lia|]; split; [unfold int_range; lia|]; split; [unfold int_range; lia|]; exists 4; split; [unfold int_range; lia|]; right; repeat split; lia).
  split; [exact H|]. exact (blas_usable _ _ _ H eq_refl eq_refl).
Qed.
(** 1 / b, and a singular b *)
Example C60_ex_singular :
  match scalar_div B_arith negb B_lapack true 200 220 true [2; 2] (RMem (ex_view [0; 1]%nat [2; 2] [2; 1] 0)) (fun q => true) with BRet (_, None) => true | _ => false end = true.
Proof. vm_compute. reflexivity. Qed.
