(** Model of the numbers of different types in one expression and of the functions of one element: c++/nda/stdutil/complex.hpp,
    c++/nda/mapped_functions.hpp, c++/nda/mapped_functions.hxx, and the norm of c++/nda/algorithms.hpp for matrices of float.
    Numbers are integers (any integer type: int, long, ...), float, double, std::complex<float> and std::complex<double>.
    Not modelled: std::complex of integers (unspecified in C++), long double, and what std::pow, std::exp, ... return. *)
From Coq Require Import ZArith.
From Flocq Require Import Core BinarySingleNaN.
From Verif Require Import Base M_IdxMap M_Slice M_Loops M_Assign M_Expr M_Float.


Section Complex.
Context (prec emax : Z) {Hp : Prec_gt_0 prec} {Hm : Prec_lt_emax prec emax}.
Notation F := (fl prec emax).
(** The conversion of an integer to a floating-point type rounds to nearest. *)
Definition of_int (n : Z) : F := binary_normalize prec emax Hp Hm mode_NE n 0 false.
(** So does the conversion of one floating-point type to another one. *)
Definition of_float {p e : Z} (x : fl p e) : F :=
  match x with
  | B754_zero s => B754_zero s
  | B754_infinity s => B754_infinity s
  | B754_nan => B754_nan
  | B754_finite s m ex _ => binary_normalize prec emax Hp Hm mode_NE (cond_Zopp s (Zpos m)) ex s
  end.

(** std::complex<T> *)
Record cplx := Cplx { re : F; im : F }.
(** complex of a real number *)
Definition of_real (x : F) : cplx := Cplx x (B754_zero false).
Definition conjugate (z : cplx) : cplx := Cplx (re z) (Bopp (im z)).
(** operator*(complex, complex): the four products; if both parts of the result are not a number the standard library calls a function that
    looks for infinities ([recover]).  [quotient]: operator/(complex, complex), about which the C++ standard says nothing. *)
Context (recover quotient : cplx -> cplx -> cplx).
Definition cplx_mult (z w : cplx) : cplx :=
  let r := Bminus mode_NE (Bmult mode_NE (re z) (re w)) (Bmult mode_NE (im z) (im w)) in
  let i := Bplus mode_NE (Bmult mode_NE (re z) (im w)) (Bmult mode_NE (im z) (re w)) in
  if is_nan r && is_nan i then recover z w else Cplx r i.
Definition cplx_op (op : bin_op) (z w : cplx) : cplx :=
  match op with
  | OpPlus => Cplx (Bplus mode_NE (re z) (re w)) (Bplus mode_NE (im z) (im w))
  | OpMinus => Cplx (Bminus mode_NE (re z) (re w)) (Bminus mode_NE (im z) (im w))
  | OpTimes => cplx_mult z w
  | OpDiv => quotient z w
  end.
End Complex.
Arguments Cplx {prec emax}. Arguments re {prec emax}. Arguments im {prec emax}.
Arguments of_real {prec emax}. Arguments conjugate {prec emax}. Arguments of_float {prec emax Hp Hm p e}. Arguments of_int {prec emax Hp Hm}.

Definition cplx32 : Type := cplx 24 128.
Definition cplx64 : Type := cplx 53 1024.
(** The element types. *)
Inductive number := NInt (n : Z) | NFloat (x : binary32) | NDouble (x : binary64) | NCFloat (z : cplx32) | NCDouble (z : cplx64).
Definition is_complex (x : number) : bool := match x with NCFloat _ | NCDouble _ => true | _ => false end.
(** std::common_type_t of the real types is double if one of them is, and float if one of them is and the other one is float or an integer type *)
Definition has_double (x : number) : bool := match x with NDouble _ | NCDouble _ => true | _ => false end.
Definition same_real_type (x y : number) : bool :=
  match x, y with
  | (NFloat _ | NCFloat _), (NFloat _ | NCFloat _) | (NDouble _ | NCDouble _), (NDouble _ | NCDouble _) | NInt _, NInt _ => true
  | _, _ => false
  end.
(** complex.hpp:27-44 C(x.real(), x.imag()), C(y) for C = std::complex<float>, of a number that is not double *)
Definition as_cfloat (x : number) : cplx32 :=
  match x with
  | NInt n => of_real (of_int n)
  | NFloat y => of_real y
  | NCFloat z => z
  | NDouble y => of_real (of_float y)
  | NCDouble z => Cplx (of_float (re z)) (of_float (im z))
  end.
(** the same for C = std::complex<double> *)
Definition as_cdouble (x : number) : cplx64 :=
  match x with
  | NInt n => of_real (of_int n)
  | NFloat y => of_real (of_float y)
  | NCFloat z => Cplx (of_float (re z)) (of_float (im z))
  | NDouble y => of_real y
  | NCDouble z => z
  end.

Section Library.
Context (recover32 quotient32 : cplx32 -> cplx32 -> cplx32) (recover64 quotient64 : cplx64 -> cplx64 -> cplx64).
(** complex.hpp:24-51 the operators + - * / between a complex number and a number of another real type.  None: two real numbers, or two numbers with
    the same real type, for which the overloads of the C++ standard library are taken. *)
Definition mixed (op : bin_op) (x y : number) : option number :=
  if (is_complex x || is_complex y) && negb (same_real_type x y) then
    Some (if has_double x || has_double y then NCDouble (cplx_op 53 1024 recover64 quotient64 op (as_cdouble x) (as_cdouble y))
          else NCFloat (cplx_op 24 128 recover32 quotient32 op (as_cfloat x) (as_cfloat y)))
  else None.

(** mapped_functions.hpp:22-33 [real] of a scalar *)
Definition real (x : number) : number := match x with NCFloat z => NFloat (re z) | NCDouble z => NDouble (re z) | _ => x end.
(** mapped_functions.hxx:74-84: std::imag of a scalar (a double for integers) *)
Definition imag (x : number) : number :=
  match x with NInt _ => NDouble (B754_zero false) | NFloat _ => NFloat (B754_zero false) | NDouble _ => NDouble (B754_zero false)
             | NCFloat z => NFloat (im z) | NCDouble z => NDouble (im z) end.
(** mapped_functions.hpp:35-45, 80-95 [conj] of a scalar *)
Definition conj (x : number) : number := match x with NCFloat z => NCFloat (conjugate z) | NCDouble z => NCDouble (conjugate z) | _ => x end.
(** mapped_functions.hpp:47-51 [abs2]: integers and float convert to double, complex<float> to complex<double> *)
Definition abs2 (x : number) : binary64 :=
  if is_complex x then let z := as_cdouble x in re (cplx_mult 53 1024 recover64 (conjugate z) z)
  else let y := re (as_cdouble x) in Bmult mode_NE y y.
(** mapped_functions.hpp:53-54 [isnan], called for all types with the element converted to complex<double> *)
Definition isnan (x : number) : bool := let z := as_cdouble x in is_nan (re z) || is_nan (im z).
End Library.

(** map.hpp:88-100, 61-80 with mapped_functions.hxx:61-129: the element of f(A) at [idx] is f of the element of A *)
Definition mapped {T U : Type} (f : T -> U) (a : list Z -> T) (idx : list Z) : U := f (a idx).

(** algorithms.hpp:113-121 [frobenius_norm] of a matrix of float: the square is a float, the sum and the square root are doubles *)
Definition frobenius_norm_float (shape : list Z) (a : list Z -> binary32) : binary64 :=
  Bsqrt mode_NE (fold (fun (r : binary64) (x : binary32) => let ab := Babs x in Bplus mode_NE r (of_float (Bmult mode_NE ab ab))) shape a (B754_zero false)).
