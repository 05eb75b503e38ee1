(** What the p-norm of a list of n complex numbers is. *)
From Coq Require Import Reals.
From Verif Require Import Base M_IdxMap M_Slice M_Assign M_Expr M_Norm S_Layout S_Assign S_Blas.

(** [r] is the norm of order [p] of e 0, ..., e (n-1) *)
Definition p_norm (n : Z) (e : Z -> C) (p : order) (r : R) : Prop :=
  match p with
  | Finite p =>
      (* the number of elements that are not zero *)
      (p = 0%R -> exists S, NoDup S /\ (forall i, In i S <-> 0 <= i < n /\ e i <> (0, 0)%R) /\ r = INR (length S)) /\
      (* not negative and r^p = |e 0|^p + ... *)
      ((0 < p)%R -> (0 <= r)%R /\ real_pow r p = sum_to R_arith n (fun i => real_pow (C_abs (e i)) p)) /\
      ((p < 0)%R -> 1 <= n -> (forall i, 0 <= i < n -> e i <> (0, 0)%R) -> (0 < r)%R /\ real_pow r p = sum_to R_arith n (fun i => real_pow (C_abs (e i)) p))
  | PlusInf => 1 <= n -> (exists i, 0 <= i < n /\ r = C_abs (e i)) /\ forall i, 0 <= i < n -> (C_abs (e i) <= r)%R
  | MinusInf => 1 <= n -> (exists i, 0 <= i < n /\ r = C_abs (e i)) /\ forall i, 0 <= i < n -> (r <= C_abs (e i))%R
  end.
(** the vector has the n elements e 0, e 1, ...; in memory: with a positive stride *)
Definition elements (x : vec) (base : Z) (m : mem C) (n : Z) (e : Z -> C) : Prop :=
  0 <= n /\ int_range n /\
  match x with
  | VMem v => exists s, 0 < s /\ vector_of v n s /\ truthful (v_lay v) /\ forall i, 0 <= i < n -> m (cell v [i]) = e i
  | VExpr k f => k = n /\ (forall i, 0 <= i < n -> f m [i] = e i) /\
      (* it does not read the storage of the copy *)
      (forall i m1 m2, 0 <= i < n -> (forall a, ~ block base n a -> m1 a = m2 a) -> f m1 [i] = f m2 [i])
  end.
