(** Model of c++/nda/lapack/gelss.hpp: the wrapper of the LAPACK least squares solver.
    The library routine is a parameter; what it promises is in S_Lsq.v.  Workspace queries and work arrays are left out.  Singular values are taken as
    elements of the type of the matrix. *)
From Verif Require Import Base M_Perm M_IdxMap M_Slice M_Loops M_Assign M_Expr M_Transform M_Blas.

(** interface/cxx_interface.cpp:32-39: M, N, NRHS, A, LDA, B, LDB and RCOND; results: the memory, the singular values, the rank and info *)
Definition f77_gelss_t (V : Type) := forall (M N NRHS pa lda pb ldb : Z) (rcond : V), mem V -> bout (mem V * (list V * Z * Z)).

Section Lsq.
Context {V : Type} (f77_gelss : f77_gelss_t V).
(** gelss.hpp:73-102 [gelss].  [s] is what the vector s holds before: it has to own its elements, as it may be resized (s.resize does not exist for views,
    so they do not compile).  The values are written to the first min(m, n) places.  The result has the new s and the rank; None is the exception. *)
Definition gelss (checks : bool) (a b : view) (s : list V) (rcond : V) (m : mem V) : bout (mem V * option (list V * Z)) :=
  if negb (has_F_layout a && has_F_layout b) then BCompile else
  let dm := Z.min (extent a 0) (extent a 1) in
  let rest := if Z.of_nat (length s) <? dm then [] else skipn (Z.to_nat dm) s in
  expects checks (min_stride (v_lay a) =? 1) (
  expects checks (min_stride (v_lay b) =? 1) (
  bbind (f77_gelss (int32 (extent a 0)) (int32 (extent a 1)) (int32 (extent b 1)) (v_base a) (get_ld a) (v_base b) (get_ld b) rcond m)
    (fun '(m, (sv, rank, info)) => BRet (m, if info =? 0 then Some (sv ++ rest, rank) else None)))).
End Lsq.
