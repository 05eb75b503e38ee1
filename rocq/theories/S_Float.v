(** What the theorems on rounding say: real numbers, sums of real numbers, and the two constants of a floating-point format. *)
From Coq Require Import ZArith Reals List.
Import ListNotations.

(** r1 + (r2 + (... + 0)) and r1 * (r2 * (... * 1)) *)
Fixpoint Rsum (l : list R) : R := match l with [] => 0%R | x :: l' => (x + Rsum l')%R end.
Fixpoint Rprod (l : list R) : R := match l with [] => 1%R | x :: l' => (x * Rprod l')%R end.
(** 2 to the power e *)
Definition two_to (e : Z) : R := powerRZ 2 e.
(** A format has [prec] digits and numbers below 2^emax.  Half of the distance from 1 to the next number: *)
Definition unit_roundoff (prec : Z) : R := two_to (- prec).
(** Half of the smallest positive number: *)
Definition half_smallest (prec emax : Z) : R := two_to (3 - emax - prec - 1).
(** The smallest number with all its digits: *)
Definition smallest_normal (prec emax : Z) : R := two_to (2 - emax).
