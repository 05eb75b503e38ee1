(** * C77: lazy expressions, views and slices kept in variables *)
From Verif Require Import Base M_Stored S_Stored L_Stored L_Stored2 L_Stored3.

(** Every legal program runs without undefined behaviour, each variable shows the elements it is meant to show, and memory that is
    allocated belongs to exactly one variable in scope. *)
Theorem C77_stored : forall (V : Type) (p : list (stmt V)) s, ideal_run (Ideal O []) p = Some s ->
  exists w, run (World [] []) p = Some w /\ (forall x i v, meant s x i = Some v -> shown w x i = Some v) /\ no_leak w.
Proof. intros V p s. apply stored_rel. Qed.
Print Assumptions C77_stored.

(** An expression kept in a variable shows the elements its arrays have when it is read, and keeps the elements of the temporaries it was
    made from; a copy of it does the same. *)
Theorem C77_reads_late : forall (V : Type) (cm : bool) (f : list V -> V) (a b : list V) (i : nat) (v c : V), (i < length a)%nat -> nth_error b i = Some c ->
  exists w, run (World [] []) [DeclArray (STemp a); Decl (SCall cm f [SVar O; STemp b]); Decl (SVar 1); Set_ O i v] = Some w /\ shown w 1 i = Some (f [v; c]) /\ shown w 2 i = Some (f [v; c]).
Proof.
  intros V cm f a b i v c Hi Hb. set (p := [_; _; _; _]).
  assert (E : ideal_run (Ideal O []) p = Some (Ideal 1 [(true, KArr O (upd a i v)); (true, KTree (TCall f [TArr O; TConst b])); (true, KTree (TCall f [TArr O; TConst b]))])).
  { unfold p. cbn [ideal_run ideal_step denote tree_of]. rewrite tvals_const. cbn -[Nat.ltb]. rewrite (proj2 (Nat.ltb_lt _ _) Hi). reflexivity. }
  destruct (C77_stored V p _ E) as (w & Ew & Hs & _). exists w. split; [exact Ew|]. assert (Hn : nth_error (upd a i v) i = Some v) by now apply nth_upd_same. split; apply Hs; cbn; now rewrite Hn, Hb.
Qed.
Print Assumptions C77_reads_late.

(** Assignment of an expression that reads the array itself in the same place: each element is computed from the old one. *)
Theorem C77_in_place : forall (V : Type) (cm : bool) (f : list V -> V) (a b : list V), length a = length b ->
  exists w, run (World [] []) [DeclArray (STemp a); DeclArray (STemp b); Decl (SSlice (SVar O) (seq 0 (length a))); Assign O (SCall cm f [SVar O; SVar 1])] = Some w
  /\ forall i x y, nth_error a i = Some x -> nth_error b i = Some y -> shown w O i = Some (f [x; y]) /\ shown w 2 i = Some (f [x; y]) /\ shown w 1 i = Some y.
Proof.
  intros V cm f a b Hl. set (p := [_; _; _; _]). set (s2 := Ideal 2 [(true, KArr O a); (true, KArr 1 b); (true, KTree (TView O O (seq 0 (length a))))]).
  assert (E2 : ideal_run (Ideal O []) [DeclArray (STemp a); DeclArray (STemp b); Decl (SSlice (SVar O) (seq 0 (length a)))] = Some s2).
  { cbn [ideal_run ideal_step denote tree_of]. rewrite tvals_const. cbn [fresh i_next i_var app]. cbn [ideal_run ideal_step denote tree_of]. rewrite tvals_const. reflexivity. }
  assert (Ev : exists l, tvals s2 (TCall f [TArr O; TArr 1]) = Some l /\ length l = length a /\ forall i x y, nth_error a i = Some x -> nth_error b i = Some y -> nth_error l i = Some (f [x; y])).
  { exists (map (fun q => f [fst q; snd q]) (combine a b)). split; [|split].
    - unfold tvals. cbn. clear p s2 E2. apply gather_of.
      assert (G : forall (a0 b0 : list V) k, length a0 = length b0 -> (forall i, nth_error a (k + i) = nth_error a0 i /\ nth_error b (k + i) = nth_error b0 i) ->
        Forall2 (fun i v => match match nth_error a i with Some y => match match nth_error b i with Some y0 => Some [y0] | None => None end with Some ys => Some (y :: ys) | None => None end | None => None end with Some ys => Some (f ys) | None => None end = Some v) (seq k (length a0)) (map (fun q => f [fst q; snd q]) (combine a0 b0))).
      { induction a0 as [|x a0 IH]; intros [|y b0] k Hk Hn; cbn in *; try discriminate; constructor.
        - destruct (Hn O) as [H1 H2]. rewrite Nat.add_0_r in H1, H2. now rewrite H1, H2.
        - apply IH; [lia|]. intros i. specialize (Hn (S i)). cbn in Hn. rewrite <- plus_n_Sm in Hn. exact Hn. }
      apply (G a b O Hl). auto.
    - rewrite map_length, combine_length. lia.
    - clear. revert b. induction a as [|x a IH]; intros [|y b] [|i] u v E1 E2; cbn in *; try discriminate; [congruence|]. now apply IH. }
  destruct Ev as (l & Ev & Ll & Hv).
  assert (E : ideal_run (Ideal O []) p = Some (Ideal 2 [(true, KArr O l); (true, KArr 1 b); (true, KTree (TView O O (seq 0 (length a))))])).
  { unfold p. change [DeclArray (STemp a); DeclArray (STemp b); Decl (SSlice (SVar O) (seq 0 (length a))); Assign O (SCall cm f [SVar O; SVar 1])] with ([DeclArray (STemp a); DeclArray (STemp b); Decl (SSlice (SVar O) (seq 0 (length a)))] ++ [Assign O (SCall cm f [SVar O; SVar 1])]).
    assert (A : forall q r s s', ideal_run (V := V) s q = Some s' -> ideal_run s (q ++ r) = ideal_run s' r). { induction q as [|st q IH]; intros r s s' Eq; cbn in *; [congruence|]. destruct (ideal_step s st); [|discriminate]. now apply IH. }
    rewrite (A _ _ _ _ E2). cbn [ideal_run ideal_step]. change (denote s2 (SCall cm f [SVar O; SVar 1])) with (Some (IPR (TCall f [TArr O; TArr 1]))). change (name_of s2 O) with (Some O). change (array s2 O) with (Some (O, a)). cbn [tree_of]. rewrite Ev, Ll. change (array s2 O) with (Some (O, a)). cbv beta iota. rewrite Nat.eqb_refl. reflexivity. }
  destruct (C77_stored V p _ E) as (w & Ew & Hs & _). exists w. split; [exact Ew|]. intros i x y Ex Ey. pose proof (Hv i x y Ex Ey) as Hi. split; [apply Hs; exact Hi|]. split; [|apply Hs; exact Ey]. apply Hs. cbn.
  assert (Li : (i < length a)%nat) by (apply nth_error_Some; congruence). rewrite (nth_error_nth' _ O) by (rewrite seq_length; exact Li). rewrite seq_nth by exact Li. exact Hi.
Qed.
Print Assumptions C77_in_place.

(** ** What is not legal *)
Definition sum (l : list Z) : Z := fold_right Z.add 0 l.
Definition add (e1 e2 : src Z) : src Z := SCall false sum [e1; e2].

(** A slice of an expression with a temporary in it refers to the freed elements of the temporary; without the slice all is well. *)
Theorem C77_slice_temporary_refuted : exists w, run (World [] []) [DeclArray (STemp [1; 2; 3]); Decl (SSlice (add (SVar O) (STemp [10; 20; 30])) [1; 2]%nat); Decl (add (SVar O) (STemp [10; 20; 30]))] = Some w
  /\ shown w 1 O = None /\ shown w 2 1 = Some 22.
Proof. eexists. split; [reflexivity|]. split; reflexivity. Qed.
Print Assumptions C77_slice_temporary_refuted.

(** auto &&x = conj(temporary real array) refers to the array that is gone, auto &&x = f(temporary) for other functions f and auto x =
    conj(temporary) do not. *)
Theorem C77_conj_refuted : forall (V : Type) (l : list V) (f : list V -> V), exists w, run (World [] []) [DeclRef (SReal (STemp l)); Decl (SReal (STemp l)); DeclRef (SCall true f [STemp l])] = Some w
  /\ forall i a, nth_error l i = Some a -> shown w O i = None /\ shown w 1 i = Some a /\ shown w 2 i = Some (f [a]).
Proof. intros V l f. eexists. split; [reflexivity|]. intros i a E. unfold shown. cbn. rewrite E. auto. Qed.
Print Assumptions C77_conj_refuted.

(** Views of x refer to freed elements after x = y for an array y, even of the same shape; after x = y + 0 they show the new elements.
    Expressions with x in them are good in both cases. *)
Theorem C77_copy_assignment_refuted : forall a b c : Z, exists w w',
  run (World [] []) [DeclArray (STemp [a]); DeclArray (STemp [b]); Decl (SSlice (SVar O) [O]); Decl (add (SVar O) (STemp [c])); Assign O (SVar 1)] = Some w
  /\ run (World [] []) [DeclArray (STemp [a]); DeclArray (STemp [b]); Decl (SSlice (SVar O) [O]); Decl (add (SVar O) (STemp [c])); Assign O (add (SVar 1) (STemp [0]))] = Some w'
  /\ shown w 2 O = None /\ shown w 3 O = Some (b + (c + 0)) /\ shown w' 2 O = Some (b + (0 + 0)) /\ shown w' 3 O = Some (b + (0 + 0) + (c + 0)).
Proof. intros a b c. eexists _, _. split; [reflexivity|]. split; [reflexivity|]. repeat split; reflexivity. Qed.
Print Assumptions C77_copy_assignment_refuted.

(** An expression must not be read after the end of an array in it. *)
Theorem C77_out_of_scope_refuted : exists w, run (World [] []) [DeclArray (STemp [1]); Decl (add (SVar O) (STemp [2])); End O] = Some w /\ shown w 1 O = None.
Proof. eexists. split; reflexivity. Qed.
Print Assumptions C77_out_of_scope_refuted.

(** a = b + a where a must be resized reads freed memory *)
Theorem C77_resize_refuted : run (World [] []) [DeclArray (STemp [1]); DeclArray (STemp [2; 3]); Assign O (add (SVar 1) (SVar O))] = None.
Proof. reflexivity. Qed.
Print Assumptions C77_resize_refuted.

(** ** Non-vacuity: a program with all kinds of statements is legal. *)
Example C77_program : list (stmt Z) :=
  [DeclArray (STemp [1; 2; 3; 4]); DeclArray (add (SVar O) (SVar O)); Decl (add (SVar O) (add (STemp [100; 200; 300; 400]) (SVar 1)));
   DeclRef (SVar 2); Decl (SSlice (SVar 3) [3; 1]%nat); Decl (SSlice (SVar O) [O; 2%nat]); Set_ 5 1 30; Assign 1 (SCall true sum [SVar 2; SVar O]);
   Decl (SCall true sum [SVar 4; SReal (STemp [7; 8])]); Assign O (STemp [5; 6]); End 5; DeclArray (SSlice (SVar 1) [2%nat])].
Example C77_legal : exists s, ideal_run (Ideal O []) C77_program = Some s
  /\ map (meant s O) [0; 1]%nat = [Some 5; Some 6] /\ map (meant s 1) [0; 1; 2; 3]%nat = [Some 104; Some 208; Some 366; Some 416] /\ map (meant s 2) [0; 1]%nat = [Some 209; Some 414]
  /\ meant s 3 1 = Some 414 /\ meant s 7 O = Some 366 /\ meant s 4 O = None /\ meant s 5 O = None.
Proof. eexists. split; [vm_compute; reflexivity|]. vm_compute. repeat split. Qed.
Example C77_ran : exists w, run (World [] []) C77_program = Some w /\ map (shown w 1) [0; 1; 2; 3]%nat = [Some 104; Some 208; Some 366; Some 416].
Proof. eexists. split; [vm_compute; reflexivity|]. vm_compute. reflexivity. Qed.
