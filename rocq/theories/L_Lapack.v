(** Proofs about the small inverses and the LAPACK wrappers. *)
From Coq Require Import Ring Field.
From Verif Require Import Base M_Perm M_IdxMap M_Slice M_Loops M_Assign M_Expr M_Transform M_Blas M_Lapack S_Layout S_Loops S_Assign S_Blas S_Lapack
  L_Perm L_IdxMap L_Layout L_Loops L_Assign L_Transform L_Factory L_Blas L_Blas2 L_Blas3 L_Blas4.

Section Puts.
Context {V : Type}.
Lemma put_at (v : view) n k i j (x : V) m i' j' : usable (v_lay v) -> im_len (v_lay v) = [n; k] -> 0 <= i < n -> 0 <= j < k -> 0 <= i' < n -> 0 <= j' < k ->
  put v i j x m (elem v [i'; j']) = if (i' =? i) && (j' =? j) then x else m (elem v [i'; j']).
Proof.
  intros U E Hi Hj Hi' Hj'. unfold put. rewrite !(elem_cell2 v n k) by auto. destruct (Z.eqb_spec i' i) as [->|Hn].
  - destruct (Z.eqb_spec j' j) as [->|Hm]; cbn [andb]; [apply mset_eq|]. apply mset_neq. intros C. apply cell_inj in C; [congruence|auto|now apply (in_view2 v n k)|now apply (in_view2 v n k)].
  - cbn [andb]. apply mset_neq. intros C. apply cell_inj in C; [congruence|auto|now apply (in_view2 v n k)|now apply (in_view2 v n k)].
Qed.
Lemma put_outside (v : view) n k i j (x : V) m a : usable (v_lay v) -> im_len (v_lay v) = [n; k] -> 0 <= i < n -> 0 <= j < k -> ~ is_cell_of v a -> put v i j x m a = m a.
Proof. intros U E Hi Hj Ha. unfold put. rewrite (elem_cell2 v n k) by auto. apply mset_neq. intros ->. apply Ha. now apply (matrix_is_cell v n k). Qed.
End Puts.

Lemma cases2 (P : Z -> Prop) : P 0 -> P 1 -> forall i, 0 <= i < 2 -> P i.
Proof. intros H0 H1 i Hi. assert (E : i = 0 \/ i = 1) by lia. destruct E as [->| ->]; auto. Qed.
Lemma cases3 (P : Z -> Prop) : P 0 -> P 1 -> P 2 -> forall i, 0 <= i < 3 -> P i.
Proof. intros H0 H1 H2 i Hi. assert (E : i = 0 \/ i = 1 \/ i = 2) by lia. destruct E as [->|[->| ->]]; auto. Qed.

Section Small.
Context {V : Type} (A : arith V) (F : is_field A) (is0 : V -> bool) (Z0 : decides_zero A is0).
Let Fth : field_theory (v_zero A) (v_one A) (v_add A) (v_mul A) (v_sub A) (v_opp A) (v_div A) (fun x => v_div A (v_one A) x) eq := F.
Let Rth : ring_theory (v_zero A) (v_one A) (v_add A) (v_mul A) (v_sub A) (v_opp A) eq := F_R Fth.
Add Ring VRL : Rth.
Declare Scope ls. Local Notation "x + y" := (v_add A x y) : ls. Local Notation "x * y" := (v_mul A x y) : ls. Local Notation "x - y" := (v_sub A x y) : ls.
Delimit Scope ls with ls.

Lemma inv_unit d : d <> v_zero A -> (v_div A (v_one A) d * d)%ls = v_one A.
Proof. intros H. exact (Finv_l Fth d H). Qed.
Lemma not_zero x : is0 x = false -> x <> v_zero A.
Proof. intros E C. apply Z0 in C. congruence. Qed.

Variables (v : view) (m : mem V).
Hypothesis U : usable (v_lay v).
Notation a := (entry v m).

Lemma inverse1_spec : im_len (v_lay v) = [1; 1] -> exists m' ok, inverse1_in_place A is0 v m = (m', ok) /\
  (ok = true <-> a 0 0 <> v_zero A) /\ (ok = true -> inverse_of A 1 a (entry v m')) /\ (ok = false -> forall x, m' x = m x) /\ unchanged_outside v m m'.
Proof.
  intros E. assert (Ee : forall i j, m (elem v [i; j]) = a i j) by (intros i j; unfold entry; now rewrite (elem_cell2 v 1 1)).
  unfold inverse1_in_place. rewrite !Ee. destruct (is0 (a 0 0)) eqn:E0; eexists _, _; (split; [reflexivity|]).
  - apply Z0 in E0. repeat split; try discriminate; congruence.
  - split; [split; [intros _; now apply not_zero|reflexivity]|]. split; [|split; [discriminate|intros x Hx; now apply (put_outside v 1 1)]].
    intros _. pose proof (inv_unit (a 0 0) (not_zero _ E0)) as Hd. set (d := v_div A (v_one A) (a 0 0)) in *.
    assert (X : entry v (put v 0 0 d m) 0 0 = d) by (unfold entry; rewrite <- (elem_cell2 v 1 1) by (auto; lia); now rewrite (put_at v 1 1) by (auto; lia)).
    set (mf := put v 0 0 d m) in *. clearbody d mf. intros i j Hi Hj. assert (i = 0) as -> by lia. assert (j = 0) as -> by lia. unfold product_at, unit_matrix.
    change (sum_to A 1 ?f) with (v_zero A + f 0%Z)%ls. cbv beta. rewrite X. cbn [Z.eqb]. split; rewrite <- Hd; ring.
Qed.

Definition det2 (a : Z -> Z -> V) : V := (a 0%Z 0%Z * a 1%Z 1%Z - a 0%Z 1%Z * a 1%Z 0%Z)%ls.
Lemma inverse2_spec : im_len (v_lay v) = [2; 2] -> exists m' ok, inverse2_in_place A is0 v m = (m', ok) /\
  (ok = true <-> det2 a <> v_zero A) /\ (ok = true -> inverse_of A 2 a (entry v m')) /\ unchanged_outside v m m'.
Proof.
  intros E. assert (Ee : forall i j, m (elem v [i; j]) = a i j) by (intros i j; unfold entry; now rewrite (elem_cell2 v 2 2)).
  unfold inverse2_in_place. cbv zeta. rewrite !(put_at v 2 2) by (auto; lia). cbn [Z.eqb Pos.eqb andb]. rewrite !Ee.
  assert (Ed : (a 1%Z 1%Z * a 0%Z 0%Z - a 0%Z 1%Z * a 1%Z 0%Z)%ls = det2 a) by (unfold det2; ring). rewrite Ed.
  destruct (is0 (det2 a)) eqn:E0; eexists _, _; (split; [reflexivity|]).
  - apply Z0 in E0. split; [split; [discriminate|congruence]|]. split; [discriminate|]. intros x Hx. rewrite !(put_outside v 2 2) by (auto; lia). reflexivity.
  - split; [split; [intros _; now apply not_zero|reflexivity]|]. split; [|intros x Hx; rewrite !(put_outside v 2 2) by (auto; lia); reflexivity].
    intros _. pose proof (inv_unit (det2 a) (not_zero _ E0)) as Hd. set (d := v_div A (v_one A) (det2 a)) in *.
    match goal with |- inverse_of A 2 _ (entry v ?M) => assert (Ev : forall i j, entry v M i j = M (elem v [i; j])) by (intros i j; unfold entry; now rewrite (elem_cell2 v 2 2)); set (mf := M) in * end.
    assert (X00 : entry v mf 0 0 = (a 1%Z 1%Z * d)%ls) by (rewrite Ev; unfold mf; rewrite !(put_at v 2 2) by (auto; lia); cbn [Z.eqb Pos.eqb andb]; now rewrite ?Ee).
    assert (X11 : entry v mf 1 1 = (a 0%Z 0%Z * d)%ls) by (rewrite Ev; unfold mf; rewrite !(put_at v 2 2) by (auto; lia); cbn [Z.eqb Pos.eqb andb]; now rewrite ?Ee).
    assert (X10 : entry v mf 1 0 = (a 1%Z 0%Z * v_opp A d)%ls) by (rewrite Ev; unfold mf; rewrite !(put_at v 2 2) by (auto; lia); cbn [Z.eqb Pos.eqb andb]; now rewrite ?Ee).
    assert (X01 : entry v mf 0 1 = (a 0%Z 1%Z * v_opp A d)%ls) by (rewrite Ev; unfold mf; rewrite !(put_at v 2 2) by (auto; lia); cbn [Z.eqb Pos.eqb andb]; now rewrite ?Ee).
    clearbody d mf. unfold det2 in Hd. intros i j Hi Hj. revert i Hi. apply cases2; revert j Hj; apply cases2; unfold product_at, unit_matrix; change (sum_to A 2 ?f) with (v_zero A + f 0%Z + f 1%Z)%ls; cbv beta; rewrite ?X00, ?X01, ?X10, ?X11; cbn [Z.eqb Pos.eqb]; split; rewrite <- ?Hd; ring.
Qed.

Definition det3 (a : Z -> Z -> V) : V := (a 0%Z 0%Z * (a 1%Z 1%Z * a 2%Z 2%Z - a 1%Z 2%Z * a 2%Z 1%Z) - a 0%Z 1%Z * (a 1%Z 0%Z * a 2%Z 2%Z - a 1%Z 2%Z * a 2%Z 0%Z) + a 0%Z 2%Z * (a 1%Z 0%Z * a 2%Z 1%Z - a 1%Z 1%Z * a 2%Z 0%Z))%ls.
Lemma inverse3_spec : im_len (v_lay v) = [3; 3] -> exists m' ok, inverse3_in_place A is0 v m = (m', ok) /\
  (ok = true <-> det3 a <> v_zero A) /\ (ok = true -> inverse_of A 3 a (entry v m')) /\ (ok = false -> forall x, m' x = m x) /\ unchanged_outside v m m'.
Proof.
  intros E. assert (Ee : forall i j, m (elem v [i; j]) = a i j) by (intros i j; unfold entry; now rewrite (elem_cell2 v 3 3)).
  unfold inverse3_in_place. cbv zeta. rewrite !Ee.
  match goal with |- context [is0 ?x] => assert (Ed : x = det3 a) by (unfold det3; ring); rewrite Ed end.
  destruct (is0 (det3 a)) eqn:E0; eexists _, _; (split; [reflexivity|]).
  - apply Z0 in E0. split; [split; [discriminate|congruence]|]. split; [discriminate|]. split; [reflexivity|]. intros x _. reflexivity.
  - split; [split; [intros _; now apply not_zero|reflexivity]|]. split; [|split; [discriminate|intros x Hx; rewrite !(put_outside v 3 3) by (auto; lia); reflexivity]].
    intros _. pose proof (inv_unit (det3 a) (not_zero _ E0)) as Hd. set (d := v_div A (v_one A) (det3 a)) in *.
    match goal with |- inverse_of A 3 _ (entry v ?M) => assert (Ev : forall i j, entry v M i j = M (elem v [i; j])) by (intros i j; unfold entry; now rewrite (elem_cell2 v 3 3)); set (mf := M) in * end.
    assert (X : forall i j, 0 <= i < 3 -> 0 <= j < 3 -> entry v mf i j = (d * (a ((j + 1) mod 3)%Z ((i + 1) mod 3)%Z * a ((j + 2) mod 3)%Z ((i + 2) mod 3)%Z - a ((j + 1) mod 3)%Z ((i + 2) mod 3)%Z * a ((j + 2) mod 3)%Z ((i + 1) mod 3)%Z))%ls).
    { intros i j Hi Hj. rewrite Ev. unfold mf. rewrite !(put_at v 3 3) by (auto; lia). revert i Hi. apply cases3; revert j Hj; apply cases3; cbn [Z.eqb Pos.eqb andb Z.add Pos.add Z.modulo Z.div_eucl Z.pos_div_eucl fst snd]; cbv -[v_add v_mul v_sub v_opp entry]; ring. }
    clearbody d mf. unfold det3 in Hd. intros i j Hi Hj. revert i Hi. apply cases3; revert j Hj; apply cases3; unfold product_at, unit_matrix; change (sum_to A 3 ?f) with (v_zero A + f 0%Z + f 1%Z + f 2%Z)%ls; cbv beta; rewrite !X by lia;
    repeat match goal with |- context [((?p + ?q) mod 3)%Z] => let r := eval vm_compute in ((p + q) mod 3)%Z in change ((p + q) mod 3)%Z with r end; cbn [Z.eqb Pos.eqb]; split; rewrite <- ?Hd; ring.
Qed.
End Small.
