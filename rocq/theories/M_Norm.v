(** Model of c++/nda/linalg/norm.hpp.  Numbers are real and complex numbers without rounding; an array of real numbers is one of complex
    numbers whose imaginary parts are zero. *)
From Coq Require Import Reals.
From Verif Require Import Base M_IdxMap M_Slice M_Loops M_Assign M_Expr M_Transform M_Blas.

Definition C : Type := (R * R)%type.
Definition C_conj (z : C) : C := (fst z, - snd z)%R.
(** the norm |z|^2 of a complex number *)
Definition C_sqr (z : C) : R := (fst z * fst z + snd z * snd z)%R.
Definition C_arith : arith C := Arith C (0, 0)%R (1, 0)%R (fun z => (- fst z, - snd z)%R) (fun z w => (fst z + fst w, snd z + snd w)%R)
  (fun z w => (fst z - fst w, snd z - snd w)%R) (fun z w => (fst z * fst w - snd z * snd w, fst z * snd w + snd z * fst w)%R)
  (fun z w => ((fst z * fst w + snd z * snd w) / C_sqr w, (snd z * fst w - fst z * snd w) / C_sqr w)%R).
Definition R_arith : arith R := Arith R 0%R 1%R Ropp Rplus Rminus Rmult Rdiv.
(** mapped_functions.hxx:27-45 std::abs of a complex number *)
Definition C_abs (z : C) : R := sqrt (C_sqr z).
(** std::pow(x, y) for x >= 0 and y <> 0; the power of zero to y < 0, which is infinite, is set to 0 *)
Definition real_pow (x y : R) : R := if Req_EM_T x 0 then 0%R else Rpower x y.
Definition R_ltb (x y : R) : bool := if Rlt_dec x y then true else false.
Definition R_eqb (x y : R) : bool := if Req_EM_T x y then true else false.
Definition C_is0 (z : C) : bool := R_eqb (fst z) 0 && R_eqb (snd z) 0.

(** the order: a double that is no NaN *)
Inductive order := Finite (p : R) | PlusInf | MinusInf.
(** the argument: an array or view in memory, or an expression of n elements *)
Inductive vec := VMem (v : view) | VExpr (n : Z) (f : mem C -> list Z -> C).
Definition vec_size (x : vec) : Z := match x with VMem v => size (v_lay v) | VExpr n _ => n end.
Definition vec_shape (x : vec) : list Z := match x with VMem v => im_len (v_lay v) | VExpr n _ => [n] end.
Definition vec_at (x : vec) (m : mem C) (idx : list Z) : C := match x with VMem v => m (elem v idx) | VExpr _ f => f m idx end.
(** norm.hpp:44-47 for arrays in memory *)
Definition norm_mem (checks : bool) (v : view) (m : mem C) : bout R := bbind (blas_dot C_arith C_conj checks true v v m) (fun z => BRet (sqrt (fst z))).
Definition p_is (p : order) (q : R) : bool := match p with Finite p => R_eqb p q | _ => false end.
(** norm.hpp:38-66; [base] is where the copy of an expression is allocated; sum, max_element, min_element: algorithms.hpp (C22) *)
Definition norm (checks : bool) (base : Z) (x : vec) (p : order) (m : mem C) : bout R :=
  let abs_x := fun idx => C_abs (vec_at x m idx) in
  if p_is p 2 then
    match x with
    | VMem v => norm_mem checks v m
    | VExpr n f => match array_of_ndarray checks true [0%nat] base [n] (RExpr f) m with (a, Some m) => norm_mem checks a m | _ => BStop end
    end
  else if p_is p 1 then BRet (sum R_arith (vec_shape x) abs_x)
  else if p_is p 0 then BRet (IZR (fold_left (fun count i => if C_is0 (vec_at x m [i]) then count else count + 1) (zseq (vec_size x)) 0))
  else match p with
       | PlusInf => BRet (array_max R_ltb (vec_shape x) abs_x)
       | MinusInf => BRet (array_min R_ltb (vec_shape x) abs_x)
       | Finite p => BRet (real_pow (sum R_arith (vec_shape x) (fun idx => real_pow (abs_x idx) p)) (1 / p))
       end.
