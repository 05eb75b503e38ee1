(** Model of [is_matrix_square] and [is_matrix_diagonal] (c++/nda/linalg/det_and_inverse.hpp:24-40).  The messages on std::cerr are left out. *)
From Verif Require Import Base M_Perm M_IdxMap M_Loops M_Assign M_Expr M_Transform.

(** det_and_inverse.hpp:26-31 *)
Definition is_matrix_square (shape : list Z) : bool := nthZ shape 0 =? nthZ shape 1.
(** det_and_inverse.hpp:36-40: [a == diag(diagonal(a))], the new matrix being made at [base]; None: a failed check of the assignment in [diag]. *)
Definition is_matrix_diagonal {V} (A : arith V) (veq : V -> V -> bool) (checks : bool) (base : Z) (a : view) (m : mem V) : option (bool * mem V) :=
  if negb (is_matrix_square (im_len (v_lay a))) then Some (false, m) else
  let d := diagonal a in
  match diag A checks base (nthZ (im_len (v_lay d)) 0) (RMem d) m with
  | (b, Some m') => Some (array_eq veq (im_len (v_lay a)) (fun idx => m' (elem a idx)) (im_len (v_lay b)) (fun idx => m' (elem b idx)), m')
  | _ => None
  end.
