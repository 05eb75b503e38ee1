(** Specification for the LAPACK wrappers: matrices as functions, LU factorisations, what the library promises. *)
From Coq Require Export Field_theory.
From Verif Require Import Base M_Perm M_IdxMap M_Slice M_Loops M_Assign M_Expr M_Transform M_Blas M_Lapack S_Layout S_Assign S_Blas.

(** the operations of [A] make a field; [is0] decides whether an element is zero *)
Definition is_field {V} (A : arith V) : Prop :=
  field_theory (v_zero A) (v_one A) (v_add A) (v_mul A) (v_sub A) (v_opp A) (v_div A) (fun x => v_div A (v_one A) x) eq.
Definition decides_zero {V} (A : arith V) (is0 : V -> bool) : Prop := forall x, is0 x = true <-> x = v_zero A.

(** the matrix a view shows *)
Definition entry {V} (v : view) (m : mem V) (i j : Z) : V := m (cell v [i; j]).

(** [r] is an n by n matrix, or an expression of this shape, which reads nothing from the n*n cells at [b] *)
Definition square_source {V} (r : rhs V) (n b : Z) : Prop :=
  (forall src, r = RMem src -> truthful (v_lay src) /\ im_len (v_lay src) = [n; n]) /\
  (forall idx m1 m2, in_range idx [n; n] -> (forall a, ~ block b (n * n) a -> m1 a = m2 a) -> rhs_value r m1 idx = rhs_value r m2 idx).

Section Matrices.
Context {V : Type} (A : arith V).
Implicit Types (a b f x : Z -> Z -> V).

Definition transposed a : Z -> Z -> V := fun i j => a j i.
Definition unit_matrix (i j : Z) : V := if i =? j then v_one A else v_zero A.
(** x is the inverse of the n by n matrix a *)
Definition inverse_of (n : Z) a x : Prop := forall i j, 0 <= i < n -> 0 <= j < n -> product_at A n a x i j = unit_matrix i j /\ product_at A n x a i j = unit_matrix i j.

(** ** factorisations in the form of LAPACK *)
(** [f] has the lower factor below the diagonal, its diagonal of ones is not stored, and the upper factor above and on the diagonal *)
Definition lower_of f (i k : Z) : V := if k <? i then f i k else if k =? i then v_one A else v_zero A.
Definition upper_of f (k j : Z) : V := if k <=? j then f k j else v_zero A.
Definition swap_rows (p q : Z) a : Z -> Z -> V := fun i j => a (if i =? p then q else if i =? q then p else i) j.
(** rows i and ipiv_i interchanged, for i = 0, 1, ...; row numbers in ipiv count from 1; [i0]: number of the first *)
Fixpoint interchange_from (i0 : Z) (ipiv : list Z) a : Z -> Z -> V :=
  match ipiv with [] => a | p :: l => interchange_from (i0 + 1) l (swap_rows i0 (p - 1) a) end.
Definition interchanged (ipiv : list Z) a : Z -> Z -> V := interchange_from 0 ipiv a.
Definition lu_of (M N : Z) (ipiv : list Z) a f : Prop :=
  Z.of_nat (length ipiv) = Z.min M N /\ (forall i, 0 <= i < Z.min M N -> i + 1 <= nthZ ipiv (Z.to_nat i) <= M) /\
  (forall i j, 0 <= i < M -> 0 <= j < N -> interchanged ipiv a i j = product_at A (Z.min M N) (lower_of f) (upper_of f) i j).

(** ** what the library promises *)
(** the matrix in column-major order at [p] *)
Definition seen (m : mem V) (p ld : Z) : Z -> Z -> V := fun i j => m (col_major p ld i j).
Definition in_rect (p ld M N q : Z) : Prop := exists i j, 0 <= i < M /\ 0 <= j < N /\ q = col_major p ld i j.

(** getrf: factors; info is the number (from 1) of a zero on the diagonal of the upper factor, or 0 *)
Definition getrf_promise (L : lapack V) : Prop := forall M N pa lda (m : mem V), 0 <= M -> 0 <= N -> Z.max 1 M <= lda ->
  exists m' ipiv info, f77_getrf L M N pa lda m = BRet (m', (ipiv, info)) /\ lu_of M N ipiv (seen m pa lda) (seen m' pa lda) /\
    (forall q, ~ in_rect pa lda M N q -> m' q = m q) /\ 0 <= info <= Z.min M N /\
    (info = 0 -> forall i, 0 <= i < Z.min M N -> seen m' pa lda i i <> v_zero A) /\ (0 < info -> seen m' pa lda (info - 1) (info - 1) = v_zero A).
(** getri: given the factors of a matrix with no zero on the diagonal of the upper one, the inverse of the matrix *)
Definition getri_promise (L : lapack V) : Prop := forall N pa lda ipiv (m : mem V) a, 0 <= N -> Z.max 1 N <= lda -> lu_of N N ipiv a (seen m pa lda) ->
  (forall i, 0 <= i < N -> seen m pa lda i i <> v_zero A) ->
  exists m', f77_getri L N pa lda ipiv m = BRet (m', 0) /\ inverse_of N a (seen m' pa lda) /\ (forall q, ~ in_rect pa lda N N q -> m' q = m q).
(** getrs: given such factors, the solution of op(a) X = B in the place of B *)
Definition op_of (cj : V -> V) (o : op) a : Z -> Z -> V := match o with OpN => a | OpT => transposed a | OpC => fun i j => cj (a j i) end.
Definition getrs_promise (cj : V -> V) (L : lapack V) : Prop := forall o N NRHS pa lda ipiv pb ldb (m : mem V) a, 0 <= N -> 0 <= NRHS -> Z.max 1 N <= lda -> Z.max 1 N <= ldb ->
  lu_of N N ipiv a (seen m pa lda) -> (forall i, 0 <= i < N -> seen m pa lda i i <> v_zero A) -> (forall q, in_rect pa lda N N q -> in_rect pb ldb N NRHS q -> False) ->
  exists m', f77_getrs L o N NRHS pa lda ipiv pb ldb m = BRet (m', 0) /\
    (forall i j, 0 <= i < N -> 0 <= j < NRHS -> product_at A N (op_of cj o a) (seen m' pb ldb) i j = seen m pb ldb i j) /\ (forall q, ~ in_rect pb ldb N NRHS q -> m' q = m q).
(** gtsv: the solution of T X = B for an invertible T with the given diagonals; the diagonals are overwritten, too *)
Definition tridiagonal (dl d du : Z -> V) (i j : Z) : V := if i =? j then d i else if i =? j + 1 then dl j else if j =? i + 1 then du i else v_zero A.
Definition gtsv_promise (L : lapack V) : Prop := forall N NRHS pdl pd pdu pb ldb (m : mem V), 0 <= N -> 0 <= NRHS -> Z.max 1 N <= ldb ->
  (forall q, block pdl (N - 1) q -> block pd N q -> False) -> (forall q, block pdl (N - 1) q -> block pdu (N - 1) q -> False) -> (forall q, block pd N q -> block pdu (N - 1) q -> False) ->
  (forall q, in_rect pb ldb N NRHS q -> block pdl (N - 1) q \/ block pd N q \/ block pdu (N - 1) q -> False) ->
  let t := tridiagonal (fun i => m (pdl + i)) (fun i => m (pd + i)) (fun i => m (pdu + i)) in
  exists m' info, f77_gtsv L N NRHS pdl pd pdu pb ldb m = BRet (m', info) /\
    ((exists x, inverse_of N t x) -> info = 0) /\
    (info = 0 -> forall i j, 0 <= i < N -> 0 <= j < NRHS -> product_at A N t (seen m' pb ldb) i j = seen m pb ldb i j) /\
    (forall q, ~ in_rect pb ldb N NRHS q -> ~ block pdl (N - 1) q -> ~ block pd N q -> ~ block pdu (N - 1) q -> m' q = m q).
(** syev, heev with 'U': given the upper triangle of a hermitian matrix h ([cj] is the identity for syev), its eigenvalues and, if asked for,
    orthonormal eigenvectors in the place of the matrix *)
Definition adjoint (cj : V -> V) a : Z -> Z -> V := fun i j => cj (a j i).
Definition eigen_of (cj : V -> V) (N : Z) h (ev : list V) z : Prop :=
  (forall i k, 0 <= i < N -> 0 <= k < N -> product_at A N h z i k = v_mul A (nth (Z.to_nat k) ev (v_zero A)) (z i k)) /\ inverse_of N z (adjoint cj z).
Definition syev_promise (cj : V -> V) (L : lapack V) : Prop := forall vectors N pa lda (m : mem V) h, 0 <= N -> Z.max 1 N <= lda ->
  (forall i j, 0 <= i -> i <= j -> j < N -> h i j = seen m pa lda i j /\ h j i = cj (h i j)) ->
  exists m' ev info, f77_syev L vectors N pa lda m = BRet (m', (ev, info)) /\ (forall q, ~ in_rect pa lda N N q -> m' q = m q) /\
    (info = 0 -> Z.of_nat (length ev) = N /\ exists z, eigen_of cj N h ev z /\ (vectors = true -> forall i j, 0 <= i < N -> 0 <= j < N -> seen m' pa lda i j = z i j)).
End Matrices.
