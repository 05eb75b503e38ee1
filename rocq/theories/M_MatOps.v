(** Model of the quotients of matrices in c++/nda/arithmetic.hpp:271-310.  Sums, products with scalars and elementwise quotients are in
    M_Expr.v, the products of matrices and vectors in M_Blas.v. *)
From Verif Require Import Base M_Perm M_IdxMap M_Slice M_Loops M_Assign M_Expr M_Transform M_Blas M_Lapack.

Section MatOps.
Context {V : Type} (A : arith V) (cj : V -> V) (is0 : V -> bool) (L : lapack V).
Implicit Types (m : mem V).

(** arithmetic.hpp:292 and 307: inverse(matrix<T>{r}): r is copied into a matrix in C order at [c1] (a temporary of this type would be
    moved instead), its inverse is at [c2]; None is the exception. *)
Definition inverse_of_copy (checks : bool) (c1 c2 : Z) (shape : list Z) (r : rhs V) m : bout (mem V * option view) :=
  match array_of_ndarray checks true [0; 1]%nat c1 shape r m with
  | (c, Some m) => bbind (inverse A is0 L checks c2 [0; 1]%nat shape (RMem c) m) (fun '(v, m, ok) => BRet (m, if ok then Some v else None))
  | _ => BStop
  end.
(** arithmetic.hpp:289-293 [operator/] for two matrices: l * inverse(r); the further addresses are those of matmul. *)
Definition matrix_div (checks : bool) (c1 c2 b1 b2 b3 b4 b5 : Z) (l : operand) (shape : list Z) (r : rhs V) m : bout (mem V * option view) :=
  bbind (inverse_of_copy checks c1 c2 shape r m) (fun '(m, v) =>
  match v with
  | None => BRet (m, None)
  | Some v => bbind (matmul A cj checks b1 b2 b3 b4 b5 l (OMat true v) m) (fun '(res, m) => BRet (m, Some res))
  end).
(** arithmetic.hpp:303-310 [operator/] for a scalar and a matrix: the lazy product s * inverse(a). *)
Definition scalar_div (checks : bool) (c1 c2 : Z) (s : V) (shape : list Z) (r : rhs V) m : bout (mem V * option (expr V)) :=
  bbind (inverse_of_copy checks c1 c2 shape r m) (fun '(m, v) =>
  BRet (m, match v with None => None | Some v => Some (EScalL OpTimes s (ELeaf AlgM v)) end)).
End MatOps.
