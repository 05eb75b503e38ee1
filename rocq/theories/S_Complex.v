(** What the theorems on numbers of different types say: the complex number that a number of C++ is. *)
From Coq Require Import ZArith Reals List Bool.
From Flocq Require Import Core BinarySingleNaN.
From Verif Require Import M_Float M_Complex S_Float.
Local Open Scope R_scope.

(** its real and imaginary parts *)
Definition re_value (x : number) : R :=
  match x with NInt n => IZR n | NFloat y => B2R y | NDouble y => B2R y | NCFloat z => B2R (re z) | NCDouble z => B2R (re z) end.
Definition im_value (x : number) : R :=
  match x with NCFloat z => B2R (im z) | NCDouble z => B2R (im z) | _ => 0 end.
(** neither part is infinite or not a number *)
Definition finite_number (x : number) : Prop :=
  match x with
  | NInt _ => True
  | NFloat y => is_finite y = true | NDouble y => is_finite y = true
  | NCFloat z => is_finite (re z) = true /\ is_finite (im z) = true | NCDouble z => is_finite (re z) = true /\ is_finite (im z) = true
  end.
(** one part is not a number *)
Definition not_a_number (x : number) : Prop :=
  match x with
  | NInt _ => False
  | NFloat y => is_nan y = true | NDouble y => is_nan y = true
  | NCFloat z => is_nan (re z) = true \/ is_nan (im z) = true | NCDouble z => is_nan (re z) = true \/ is_nan (im z) = true
  end.
(** its type *)
Inductive kind := KInt | KFloat | KDouble | KCFloat | KCDouble.
Definition kind_of (x : number) : kind := match x with NInt _ => KInt | NFloat _ => KFloat | NDouble _ => KDouble | NCFloat _ => KCFloat | NCDouble _ => KCDouble end.
(** the number of digits and the largest exponent of a result that is a complex number: double if one operand is *)
Definition digits_of (x y : number) : Z := match kind_of x, kind_of y with (KDouble | KCDouble), _ | _, (KDouble | KCDouble) => 53 | _, _ => 24 end.
Definition exponents_of (x y : number) : Z := match kind_of x, kind_of y with (KDouble | KCDouble), _ | _, (KDouble | KCDouble) => 1024 | _, _ => 128 end.
(** an integer that is a floating-point number with p digits *)
Definition fits (p : Z) (x : number) : Prop := match x with NInt n => (Z.abs n <= 2 ^ p)%Z | _ => True end.
(** the square of the absolute value *)
Definition square_value (x : number) : R := re_value x * re_value x + im_value x * im_value x.
(** [r] is the sum of two numbers with one rounding error; it is exact if one of them is zero *)
Definition close_sum (prec : Z) (r x y : R) : Prop := Rabs (r - (x + y)) <= unit_roundoff prec * Rabs (x + y) /\ (x = 0 \/ y = 0 -> r = x + y).
(** [r] is the sum of two products x and y with the rounding errors of two products and one sum *)
Definition close_product (prec emax : Z) (r x y : R) : Prop :=
  Rabs (r - (x + y)) <= ((1 + unit_roundoff prec) ^ 2 - 1) * (Rabs x + Rabs y) + 2 * (1 + unit_roundoff prec) * half_smallest prec emax.
(** the sum of the absolute values of x and y, rounding errors included, is less than 2^emax *)
Definition in_reach (prec emax : Z) (x y : R) : Prop :=
  (1 + unit_roundoff prec) * ((1 + unit_roundoff prec) * (Rabs x + Rabs y) + 2 * half_smallest prec emax) < two_to emax.
