(** C27: is_matrix_square and is_matrix_diagonal. *)
From Verif Require Import Base M_Perm L_Perm M_IdxMap M_Slice M_Loops M_Assign M_Expr M_Transform S_Layout S_Loops S_Assign S_Expr S_Transform L_IdxMap L_Slice L_Layout L_Loops L_Assign L_Expr L_Transform L_Factory L_Blas P_Slice P_Assign P_Expr P_Transform M_Square.

Theorem C27_is_square : forall r c, is_matrix_square [r; c] = true <-> r = c.
Proof. intros. unfold is_matrix_square, nthZ. cbn [nth]. apply Z.eqb_eq. Qed.

(** A matrix is diagonal if it is square, its elements off the diagonal equal zero, and those on it equal themselves (NaN does not).
    [base] is where the new matrix is made: away from the elements of [a]; they do not change. *)
Theorem C27_is_diagonal : forall V (A : arith V) (veq : V -> V -> bool) checks base (a : view) (m : mem V) r c,
  usable (v_lay a) -> im_len (v_lay a) = [r; c] -> (forall x, is_cell_of a x -> ~ base <= x < base + r * c) ->
  exists ans m', is_matrix_diagonal A veq checks base a m = Some (ans, m') /\ (forall x, ~ base <= x < base + r * c -> m' x = m x) /\
  (ans = true <-> r = c /\ (forall i, 0 <= i < r -> veq (m (cell a [i; i])) (m (cell a [i; i])) = true) /\
                  forall i j, 0 <= i < r -> 0 <= j < c -> i <> j -> veq (m (cell a [i; j])) (v_zero A) = true).
Proof.
  intros V A veq checks base a m r c U E Hb. unfold is_matrix_diagonal. rewrite E.
  destruct (is_matrix_square [r; c]) eqn:Sq; cbn [negb].
  2:{ exists false, m. split; [reflexivity|]. split; [auto|]. split; [discriminate|]. intros (H & _). apply C27_is_square in H. congruence. }
  apply C27_is_square in Sq. subst c.
  assert (R2 : rank (v_lay a) = 2%nat) by (unfold rank; now rewrite E). destruct (C27_diagonal a U R2) as (Ud & Ed & _ & Cd).
  assert (Hr : 0 <= r). { pose proof (usable_wf _ U) as (_ & _ & _ & H & _). rewrite E in H. now inversion H. }
  assert (Ed' : im_len (v_lay (diagonal a)) = [r]) by (rewrite Ed, E; unfold nthZ; cbn [nth]; now rewrite Z.min_id).
  rewrite Ed'. change (nthZ [r] 0) with r.
  assert (G : Forall (fun l => 0 <= l) [r; r] /\ (0 < length [r; r] < 16)%nat) by (split; [repeat constructor; auto|simpl; lia]).
  assert (Hn : forall x, is_cell_of (c_array base [r; r]) x <-> base <= x < base + r * r).
  { intros x. unfold c_array. rewrite new_array_cells by (try tauto; apply is_perm_identity). cbn. lia. }
  assert (Din : forall i, 0 <= i < r -> in_view (diagonal a) [i]) by (intros i Hi; unfold in_view, valid_idx; rewrite Ed'; constructor; auto; constructor).
  assert (Ain : forall i j, 0 <= i < r -> 0 <= j < r -> in_view a [i; j]) by (intros i j Hi Hj; apply (in_view2 a r r); auto).
  destruct (C27_diag A checks base r (RMem (diagonal a)) m Hr) as (m' & Em & Hv & Hu).
  { split.
    - intros src H. injection H as <-. split; [now apply usable_truthful|exact Ed'].
    - intros idx m1 m2 Hi Hm. inversion Hi as [|i ? l ? Hi1 Hi2]; subst. inversion Hi2; subst. cbn [rhs_value]. rewrite Cd. apply Hm. rewrite Hn. apply Hb. exists [i; i]. split; [now apply Ain|reflexivity]. }
  rewrite Em. assert (Hm : forall i j, 0 <= i < r -> 0 <= j < r -> m' (cell a [i; j]) = m (cell a [i; j])).
  { intros i j Hi Hj. apply Hu. rewrite Hn. apply Hb. exists [i; j]. split; [now apply Ain|reflexivity]. }
  eexists _, m'. split; [reflexivity|]. split; [intros x Hx; apply Hu; now rewrite Hn|].
  pose proof (c_array_usable base [r; r] (proj1 G) (proj2 G)) as Uc.
  rewrite array_eq_spec. split.
  - intros [_ H].
    assert (K : forall i j, 0 <= i < r -> 0 <= j < r -> veq (m (cell a [i; j])) (if i =? j then m (cell a [i; i]) else v_zero A) = true).
    { intros i j Hi Hj. assert (Hij : in_range [i; j] [r; r]) by (repeat constructor; lia). specialize (H _ Hij).
      rewrite (elem_cell_in a) in H by (try (now apply usable_truthful); now apply Ain). rewrite (elem_cell_in (c_array base [r; r])) in H by (try (now apply usable_truthful); exact Hij).
      rewrite Hm, Hv in H by auto. cbn [rhs_value] in H. now rewrite Cd in H. }
    split; [reflexivity|]. split.
    + intros i Hi. specialize (K i i Hi Hi). now rewrite Z.eqb_refl in K.
    + intros i j Hi Hj N. specialize (K i j Hi Hj). destruct (Z.eqb_spec i j); [contradiction|exact K].
  - intros (_ & H1 & H2). split; [reflexivity|]. intros idx Hi. inversion Hi as [|i ? l ? Hi1 Hi2]; subst. inversion Hi2 as [|j ? l' ? Hj1 Hj2]; subst. inversion Hj2; subst.
    assert (Hij : in_range [i; j] [r; r]) by exact Hi. unfold inr in Hi1, Hj1.
    rewrite (elem_cell_in a) by (try (now apply usable_truthful); now apply Ain). rewrite (elem_cell_in (c_array base [r; r])) by (try (now apply usable_truthful); exact Hij).
    rewrite Hm, Hv by auto. cbn [rhs_value]. rewrite Cd. destruct (Z.eqb_spec i j) as [<-|N]; auto.
Qed.
(** for element types with a true equality *)
Theorem C27_is_diagonal_exact : forall V (A : arith V) (veq : V -> V -> bool) checks base (a : view) (m : mem V) n,
  (forall x y, veq x y = true <-> x = y) -> usable (v_lay a) -> im_len (v_lay a) = [n; n] -> (forall x, is_cell_of a x -> ~ base <= x < base + n * n) ->
  exists ans m', is_matrix_diagonal A veq checks base a m = Some (ans, m') /\
  (ans = true <-> forall i j, 0 <= i < n -> 0 <= j < n -> i <> j -> m (cell a [i; j]) = v_zero A).
Proof.
  intros V A veq checks base a m n Hv U E Hb. destruct (C27_is_diagonal V A veq checks base a m n n U E Hb) as (ans & m' & H1 & _ & H2). exists ans, m'. split; [exact H1|].
  rewrite H2. split.
  - intros (_ & _ & H) i j Hi Hj N. apply Hv. auto.
  - intros H. split; [reflexivity|]. split; [intros; now apply Hv|]. intros i j Hi Hj N. apply Hv. auto.
Qed.
(** a 2 x 2 matrix in Fortran order, diagonal or not; a matrix that is not square *)
Example C27_is_diagonal_case : let a := new_array [1; 0]%nat 10 [2; 2] in
  usable (v_lay a) /\ im_len (v_lay a) = [2; 2] /\ (forall x, is_cell_of a x -> ~ 0 <= x < 0 + 2 * 2) /\
  option_map fst (is_matrix_diagonal Z_arith Z.eqb true 0 a (fun x => if (x =? 10) || (x =? 13) then x else 0)) = Some true /\
  option_map fst (is_matrix_diagonal Z_arith Z.eqb true 0 a (fun x => if (x =? 10) || (x =? 12) then x else 0)) = Some false /\
  option_map fst (is_matrix_diagonal Z_arith Z.eqb true 0 (c_array 10 [1; 2]) (fun _ => 0)) = Some false.
Proof.
  assert (Ho : is_order (length [2; 2]) [1; 0]%nat) by (vm_compute; apply perm_swap). assert (G : Forall (fun l => 0 <= l) [2; 2] /\ (0 < length [2; 2] < 16)%nat) by (split; [repeat constructor; lia|simpl; lia]).
  cbv zeta. split; [now apply new_array_usable|]. split; [reflexivity|]. split; [|repeat split; vm_compute; reflexivity].
  intros x Hx. apply new_array_cells in Hx; [|exact Ho|apply G|apply G]. cbn in Hx. lia.
Qed.

Print Assumptions C27_is_square.
Print Assumptions C27_is_diagonal.
Print Assumptions C27_is_diagonal_exact.
