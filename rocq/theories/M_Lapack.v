(** Model of c++/nda/lapack/{getrf,getri,getrs,gtsv,gesvd}.hpp, c++/nda/linalg/det_and_inverse.hpp and c++/nda/linalg/eigenelements.hpp.
    The LAPACK library is a parameter; what it promises is in S_Lapack.v.  Host memory only.  Pivot indices and singular or eigenvalues
    are in arrays of their own (int, double), which are modelled as lists; singular and eigenvalues are taken as elements of the type
    of the matrix.  Workspace queries are left out. *)
From Verif Require Import Base M_Perm M_IdxMap M_Slice M_Loops M_Assign M_Expr M_Transform M_Blas.

(** the routines of the library: matrices by address and leading dimension, in column-major order; results: the memory, further
    results and info *)
Record lapack (V : Type) := Lapack {
  f77_getrf : forall (M N pa lda : Z), mem V -> bout (mem V * (list Z * Z));
  f77_getri : forall (N pa lda : Z) (ipiv : list Z), mem V -> bout (mem V * Z);
  f77_getrs : forall (o : op) (N NRHS pa lda : Z) (ipiv : list Z) (pb ldb : Z), mem V -> bout (mem V * Z);
  f77_gtsv : forall (N NRHS pdl pd pdu pb ldb : Z), mem V -> bout (mem V * Z);
  f77_gesvd : forall (M N pa lda pu ldu pvt ldvt : Z), mem V -> bout (mem V * (list V * Z));
  f77_syev : forall (vectors : bool) (N pa lda : Z), mem V -> bout (mem V * (list V * Z)) }.
Arguments f77_getrf {V}. Arguments f77_getri {V}. Arguments f77_getrs {V}. Arguments f77_gtsv {V}. Arguments f77_gesvd {V}. Arguments f77_syev {V}.

Section Lapack.
Context {V : Type} (A : arith V) (is0 : V -> bool) (L : lapack V).
Implicit Types (m : mem V) (a b v : view).
Notation "x + y" := (v_add A x y) : lapack_scope. Notation "x * y" := (v_mul A x y) : lapack_scope. Notation "x - y" := (v_sub A x y) : lapack_scope.
Notation "- x" := (v_opp A x) : lapack_scope.
Delimit Scope lapack_scope with v.

(** ** lapack/*.hpp *)
(** getrf.hpp:52-81 [getrf]; the result has the pivot indices and info. *)
Definition getrf (checks : bool) a m : bout (mem V * (list Z * Z)) :=
  expects checks (min_stride (v_lay a) =? 1) (f77_getrf L (int32 (extent a 0)) (int32 (extent a 1)) (v_base a) (get_ld a) m).
(** getri.hpp:46-82 [getri]; None is the exception. *)
Definition getri (checks : bool) a (ipiv : list Z) m : bout (mem V * option Z) :=
  if Z.of_nat (length ipiv) <? Z.min (extent a 0) (extent a 1) then BRet (m, None) else
  expects checks (min_stride (v_lay a) =? 1) (
  bbind (f77_getri L (int32 (extent a 0)) (v_base a) (get_ld a) ipiv m) (fun '(m, info) => BRet (m, Some info))).
(** getrs.hpp:45-70 [getrs]: a is a matrix in memory, so never conjugated. *)
Definition getrs (checks : bool) a b (ipiv : list Z) m : bout (mem V * Z) :=
  expects checks (Z.min (extent a 0) (extent a 1) <=? Z.of_nat (length ipiv)) (
  expects checks ((min_stride (v_lay a) =? 1) && (min_stride (v_lay b) =? 1)) (
  match get_op false (has_C_layout a) with
  | None => BCompile
  | Some o => f77_getrs L o (get_ncols a) (get_ncols b) (v_base a) (get_ld a) ipiv (v_base b) (get_ld b) m
  end)).
(** gtsv.hpp:62-76 [gtsv]; b is of rank 1 or 2. *)
Definition gtsv (checks : bool) (dl d du : view) b m : bout (mem V * Z) :=
  let N := int32 (extent d 0) in
  let NRHS := if Nat.eqb (rank (v_lay b)) 2 then int32 (extent b 1) else 1 in
  expects checks ((extent dl 0 =? extent d 0 - 1) && (extent du 0 =? extent d 0 - 1) && (extent b 0 =? extent d 0)) (
  f77_gtsv L N NRHS (v_base dl) (v_base d) (v_base du) (v_base b) N m).
(** gesvd.hpp:60-103 [gesvd]; None is the exception. *)
Definition gesvd (checks : bool) a (u vt : view) m : bout (mem V * option (list V)) :=
  if negb (has_F_layout a && has_F_layout u && has_F_layout vt) then BCompile else
  expects checks ((min_stride (v_lay a) =? 1) && (min_stride (v_lay u) =? 1) && (min_stride (v_lay vt) =? 1)) (
  bbind (f77_gesvd L (int32 (extent a 0)) (int32 (extent a 1)) (v_base a) (get_ld a) (v_base u) (get_ld u) (v_base vt) (get_ld vt) m)
    (fun '(m, (s, info)) => BRet (m, if info =? 0 then Some s else None))).

(** ** linalg/det_and_inverse.hpp *)
(** det_and_inverse.hpp:45-74 [determinant_in_place]; None is the exception. *)
Definition determinant_in_place (checks : bool) v m : bout (mem V * option V) :=
  if size (v_lay v) =? 0 then BRet (m, Some (v_one A)) else
  if negb (extent v 0 =? extent v 1) then BRet (m, None) else
  let dim := int32 (extent v 0) in
  bbind (getrf checks v m) (fun '(m, (ipiv, info)) =>
  if info <? 0 then BRet (m, None) else
  let '(det, n_flips) := fold_left (fun '(det, n_flips) i => ((det * m (elem v [i; i]))%v, if nthZ ipiv (Z.to_nat i) =? i + 1 then n_flips else n_flips + 1)) (zseq dim) (v_one A, 0) in
  BRet (m, Some (if n_flips mod 2 =? 1 then (- det)%v else det))).
(** det_and_inverse.hpp:76-80 [determinant]: of a copy at [base] of anything with stride order [so] and the given shape. *)
Definition determinant (checks : bool) (base : Z) (so : list nat) (shape : list Z) (r : rhs V) m : bout (mem V * option V) :=
  match array_of_ndarray checks true so base shape r m with (c, Some m) => determinant_in_place checks c m | _ => BStop end.

(** a(i, j) = x *)
Definition put v (i j : Z) (x : V) m : mem V := mset m (elem v [i; j]) x.
(** det_and_inverse.hpp:94-99 [inverse1_in_place]; false is the exception. *)
Definition inverse1_in_place v m : mem V * bool :=
  if is0 (m (elem v [0; 0])) then (m, false) else (put v 0 0 (v_div A (v_one A) (m (elem v [0; 0]))) m, true).
(** det_and_inverse.hpp:102-118 [inverse2_in_place]. *)
Definition inverse2_in_place v m : mem V * bool :=
  let x := m (elem v [0; 0]) in
  let m := put v 0 0 (m (elem v [1; 1])) m in
  let m := put v 1 1 x m in
  let det := (m (elem v [0; 0]) * m (elem v [1; 1]) - m (elem v [0; 1]) * m (elem v [1; 0]))%v in
  if is0 det then (m, false) else
  let detinv := v_div A (v_one A) det in
  let m := put v 0 0 (m (elem v [0; 0]) * detinv)%v m in
  let m := put v 1 1 (m (elem v [1; 1]) * detinv)%v m in
  let m := put v 1 0 (m (elem v [1; 0]) * - detinv)%v m in
  let m := put v 0 1 (m (elem v [0; 1]) * - detinv)%v m in
  (m, true).
(** det_and_inverse.hpp:121-151 [inverse3_in_place]. *)
Definition inverse3_in_place v m : mem V * bool :=
  let a i j := m (elem v [i; j]) in
  let b00 := (a 1 1 * a 2 2 - a 1 2 * a 2 1)%v in
  let b10 := (- (a 1 0) * a 2 2 + a 1 2 * a 2 0)%v in
  let b20 := (a 1 0 * a 2 1 - a 1 1 * a 2 0)%v in
  let b01 := (- (a 0 1) * a 2 2 + a 0 2 * a 2 1)%v in
  let b11 := (a 0 0 * a 2 2 - a 0 2 * a 2 0)%v in
  let b21 := (- (a 0 0) * a 2 1 + a 0 1 * a 2 0)%v in
  let b02 := (a 0 1 * a 1 2 - a 0 2 * a 1 1)%v in
  let b12 := (- (a 0 0) * a 1 2 + a 0 2 * a 1 0)%v in
  let b22 := (a 0 0 * a 1 1 - a 0 1 * a 1 0)%v in
  let det := (a 0 0 * b00 + a 0 1 * b10 + a 0 2 * b20)%v in
  if is0 det then (m, false) else
  let detinv := v_div A (v_one A) det in
  let m := put v 0 0 (detinv * b00)%v m in
  let m := put v 0 1 (detinv * b01)%v m in
  let m := put v 0 2 (detinv * b02)%v m in
  let m := put v 1 0 (detinv * b10)%v m in
  let m := put v 1 1 (detinv * b11)%v m in
  let m := put v 1 2 (detinv * b12)%v m in
  let m := put v 2 0 (detinv * b20)%v m in
  let m := put v 2 1 (detinv * b21)%v m in
  let m := put v 2 2 (detinv * b22)%v m in
  (m, true).
(** det_and_inverse.hpp:154-182 [inverse_in_place]; the bool is false for an exception. *)
Definition inverse_in_place (checks : bool) v m : bout (mem V * bool) :=
  expects checks (extent v 0 =? extent v 1) (
  if size (v_lay v) =? 0 then BRet (m, true) else
  if extent v 0 =? 1 then BRet (inverse1_in_place v m) else
  if extent v 0 =? 2 then BRet (inverse2_in_place v m) else
  if extent v 0 =? 3 then BRet (inverse3_in_place v m) else
  bbind (getrf checks v m) (fun '(m, (ipiv, info)) =>
  if negb (info =? 0) then BRet (m, false) else
  bbind (getri checks v ipiv m) (fun '(m, info) => BRet (m, match info with Some info => info =? 0 | None => false end)))).
(** det_and_inverse.hpp:184-192 [inverse]: of a copy, as in [determinant]. *)
Definition inverse (checks : bool) (base : Z) (so : list nat) (shape : list Z) (r : rhs V) m : bout (view * mem V * bool) :=
  expects checks (nthZ shape 0 =? nthZ shape 1) (
  match array_of_ndarray checks true so base shape r m with
  | (c, Some m) => bbind (inverse_in_place checks c m) (fun '(m, ok) => BRet (c, m, ok))
  | _ => BStop
  end).

(** ** linalg/eigenelements.hpp *)
(** eigenelements.hpp:22-55 [_eigen_element_impl]; None is the exception. *)
Definition eigen_element_impl (checks vectors : bool) v m : bout (mem V * option (list V)) :=
  expects checks (negb (size (v_lay v) =? 0) && (extent v 0 =? extent v 1) && is_contiguous (v_lay v)) (
  let dim := int32 (extent v 0) in
  bbind (f77_syev L vectors dim (v_base v) dim m) (fun '(m, (ev, info)) => BRet (m, if info =? 0 then Some ev else None))).
(** eigenelements.hpp:65-83 [eigenelements], [eigenvalues]: of a copy at [base] in Fortran order; the matrix of eigenvectors is then copied
    to the regular type of the argument, of stride order [so], at [base2]. *)
Definition eigenvalues (checks : bool) (base : Z) (shape : list Z) (r : rhs V) m : bout (mem V * option (list V)) :=
  match array_of_ndarray checks true [1; 0]%nat base shape r m with (c, Some m) => eigen_element_impl checks false c m | _ => BStop end.
Definition eigenelements (checks : bool) (base base2 : Z) (so : list nat) (shape : list Z) (r : rhs V) m : bout (mem V * option (list V * view)) :=
  match array_of_ndarray checks true [1; 0]%nat base shape r m with
  | (c, Some m) =>
      bbind (eigen_element_impl checks true c m) (fun '(m, ev) =>
      match ev with
      | None => BRet (m, None)
      | Some ev => match array_of_ndarray checks true so base2 shape (RMem c) m with (z, Some m) => BRet (m, Some (ev, z)) | _ => BStop end
      end)
  | _ => BStop
  end.
End Lapack.
