(** Matrices of views as matrices of the Mathematical Components library, to speak of determinants. *)
From Verif Require Import Base M_Perm M_IdxMap M_Slice M_Loops M_Assign M_Expr M_Transform M_Blas M_Lapack S_Layout S_Assign S_Blas S_Lapack.
From mathcomp Require Import all_ssreflect all_algebra.
Import GRing.Theory.
Local Open Scope ring_scope.

(** the operations of a commutative ring; division is of no importance *)
Definition ring_arith (R : comRingType) (div : R -> R -> R) : arith R := Arith R 0 1 (fun x => - x) (fun x y => x + y) (fun x y => x - y) (fun x y => x * y) div.
Definition field_arith (K : fieldType) : arith K := ring_arith K (fun x y => x / y).
Definition zero_test (K : fieldType) : K -> bool := fun x => x == 0.
(** an n by n matrix of Mathematical Components with the given entries *)
Definition mat_of {R : ringType} (n : nat) (a : Z -> Z -> R) : 'M[R]_n := \matrix_(i < n, j < n) a (Z.of_nat i) (Z.of_nat j).
