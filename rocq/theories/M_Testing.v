(** Model of c++/nda/gtest_tools.hpp: the comparisons behind EXPECT_EQ_ARRAY, EXPECT_ARRAY_NEAR, EXPECT_ARRAY_ZERO, EXPECT_COMPLEX_NEAR and
    EXPECT_CLOSE.  Success is [true].  Floating point numbers may be NaN; there is no rounding: [dist x y] is what abs(x - y) gives. *)
From Verif Require Import Base M_Loops M_Assign M_Expr.

Inductive flt (R : Type) := NaN | Num (r : R).
Arguments NaN {R}. Arguments Num {R}.
(** operator< of floating point numbers: false with NaN *)
Definition flt_ltb {R} (ltb : R -> R -> bool) (a b : flt R) : bool := match a, b with Num x, Num y => ltb x y | _, _ => false end.

Section Testing.
(** element types of the arrays compared, real numbers; the implicit conversion from [Y] to [X] *)
Context {X Y R : Type}.
Variables (ltb : R -> R -> bool) (conv : Y -> X) (dist : X -> X -> flt R) (mag : X -> flt R) (precision : flt R).

(** gtest_tools.hpp:35-42; y has the element type of x *)
Definition complex_are_close (x y : X) : bool := if flt_ltb ltb (dist x y) precision then true else false.
(** gtest_tools.hpp:47-56 *)
Definition array_are_equal {V} (veq : V -> V -> bool) (sx : list Z) (x : list Z -> V) (sy : list Z) (y : list Z -> V) : bool :=
  if negb (shape_eqb sx sy) then false else if array_eq veq sx x sy y then true else false.
(** gtest_tools.hpp:62-80: both arguments are copied to arrays of x's element type *)
Definition array_are_close (sx : list Z) (x1 : list Z -> X) (sy : list Z) (y1 : list Z -> Y) : bool :=
  let x := x1 in let y idx := conv (y1 idx) in
  if negb (shape_eqb sx sy) then false else
  if prodZ sx =? 0 then true else
  let maxdiff := array_max (flt_ltb ltb) sx (fun idx => dist (x idx) (y idx)) in
  if flt_ltb ltb maxdiff precision then true else false.
(** gtest_tools.hpp:85-94 *)
Definition array_almost_zero (sx : list Z) (x : list Z -> X) : bool :=
  if (prodZ sx =? 0) || flt_ltb ltb (array_max (flt_ltb ltb) sx (fun idx => mag (x idx))) precision then true else false.
(** gtest_tools.hpp:98-105 *)
Definition generic_are_near (x y : X) : bool := if flt_ltb ltb precision (dist x y) then false else true.
End Testing.
