(** Floating-point arithmetic of the elements: the type float of C++ is [binary_float 24 128], double is [binary_float 53 1024] (IEEE 754 binary32
    and binary64, with signed zeros, infinities and one NaN).  The operators that nda applies to the elements are those of IEEE 754 with rounding to
    nearest, ties to even.  Not modelled: payloads of NaNs, exceptions and flags, other rounding modes, and compilers that evaluate x * y + z with one
    rounding, use more precision or reorder additions (-ffp-contract, -ffast-math). *)
From Coq Require Import ZArith.
From Flocq Require Import Core BinarySingleNaN.
From Verif Require Import Base M_IdxMap M_Slice M_Loops M_Assign M_Expr M_Transform M_Blas.

Section Float.
Context (prec emax : Z) {Hp : Prec_gt_0 prec} {Hm : Prec_lt_emax prec emax}.
Definition fl : Type := binary_float prec emax.
(** The operators that the lambdas and loops of nda apply to elements of type float or double: arithmetic.hpp:28-40, 100-158 (expressions),
    algorithms.hpp:131-151 (std::plus, std::multiplies), matrix_functions.hpp:33-41, blas/dot.hpp:81-110, blas/gemm.hpp:35-50 and
    blas/gemv.hpp:26-35 (products and increments).  [v_zero] is value_type{}, [v_one] is value_type{1}. *)
Definition float_arith : arith fl :=
  Arith fl (B754_zero false) Bone Bopp (Bplus mode_NE) (Bminus mode_NE) (Bmult mode_NE) (Bdiv mode_NE).
(** algorithms.hpp:113-121 [frobenius_norm] of a matrix of doubles: std::abs and std::sqrt are exact and correctly rounded.  The code returns double
    for any element type; for float it multiplies in float and adds in double, which is not modelled. *)
Definition frobenius_norm (shape : list Z) (a : list Z -> fl) : fl := Bsqrt mode_NE (frobenius_square float_arith Babs shape a).
End Float.

(** The two types of C++. *)
Definition binary32 : Type := fl 24 128.
Definition binary64 : Type := fl 53 1024.
#[global] Instance prec_24 : Prec_gt_0 24 := eq_refl.
#[global] Instance emax_128 : Prec_lt_emax 24 128 := eq_refl.
#[global] Instance prec_53 : Prec_gt_0 53 := eq_refl.
#[global] Instance emax_1024 : Prec_lt_emax 53 1024 := eq_refl.
