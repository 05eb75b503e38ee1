(** Specification for least squares. *)
From Verif Require Import Base M_Perm M_IdxMap M_Slice M_Loops M_Assign M_Expr M_Transform M_Blas M_Lapack S_Assign S_Blas S_Lapack.

(** a conjugation: compatible with sums and products, of order two *)
Record conjugation {V} (A : arith V) (cj : V -> V) : Prop := {
  cj_add : forall x y, cj (v_add A x y) = v_add A (cj x) (cj y);
  cj_mul : forall x y, cj (v_mul A x y) = v_mul A (cj x) (cj y);
  cj_cj : forall x, cj (cj x) = x }.

Section Gelss.
Context {V : Type} (A : arith V) (cj : V -> V).
Implicit Types (a b x y u vt : Z -> Z -> V).

Definition minus a b : Z -> Z -> V := fun i j => v_sub A (a i j) (b i j).
(** the square of the 2-norm of column j of an M row matrix *)
Definition norm2 (M : Z) a (j : Z) : V := sum_to A M (fun i => v_mul A (cj (a i j)) (a i j)).
(** a x - b, for a M by N *)
Definition residual (N : Z) a x b : Z -> Z -> V := minus (product_at A N a x) b.
(** a is u diag(s) vt with unitary u, vt and real s *)
Definition svd_of (M N : Z) a (s : list V) u vt : Prop :=
  Z.of_nat (length s) = Z.min M N /\ (forall k, 0 <= k < Z.min M N -> cj (nth (Z.to_nat k) s (v_zero A)) = nth (Z.to_nat k) s (v_zero A)) /\
  (forall i j, 0 <= i < M -> 0 <= j < N -> a i j = sum_to A (Z.min M N) (fun k => v_mul A (v_mul A (u i k) (nth (Z.to_nat k) s (v_zero A))) (vt k j))) /\
  inverse_of A M u (adjoint cj u) /\ inverse_of A N vt (adjoint cj vt).
(** the library computes such decompositions, or throws *)
Definition svd_promise (svd : Z -> Z -> (Z -> Z -> V) -> option (list V * (Z -> Z -> V) * (Z -> Z -> V))) : Prop :=
  forall M N a s u vt, 0 <= N <= M -> svd M N a = Some (s, u, vt) -> svd_of M N a s u vt.
(** the same for the library routine, on matrices in column-major order; it may overwrite a *)
Definition gesvd_promise (L : lapack V) : Prop := forall M N pa lda pu ldu pvt ldvt (m : mem V), 0 <= M -> 0 <= N -> Z.max 1 M <= lda -> Z.max 1 M <= ldu -> Z.max 1 N <= ldvt ->
  (forall q, in_rect pa lda M N q -> in_rect pu ldu M M q -> False) -> (forall q, in_rect pa lda M N q -> in_rect pvt ldvt N N q -> False) -> (forall q, in_rect pu ldu M M q -> in_rect pvt ldvt N N q -> False) ->
  exists (m' : mem V) (s : list V) (info : Z), f77_gesvd L M N pa lda pu ldu pvt ldvt m = BRet (m', (s, info)) /\
    (info = 0 -> svd_of M N (seen m pa lda) s (seen m' pu ldu) (seen m' pvt ldvt)) /\
    (forall q, ~ in_rect pa lda M N q -> ~ in_rect pu ldu M M q -> ~ in_rect pvt ldvt N N q -> m' q = m q).
(** a has full column rank: no singular value is zero, or: only 0 is mapped to 0 *)
Definition full_rank (M N : Z) a : Prop := forall z : Z -> V, (forall i, 0 <= i < M -> sum_to A N (fun k => v_mul A (a i k) (z k)) = v_zero A) -> forall k, 0 <= k < N -> z k = v_zero A.
(** sums of squares are not negative, whatever that means for [V] *)
Record nonnegative (P : V -> Prop) : Prop := {
  nn_zero : P (v_zero A);
  nn_add : forall v w, P v -> P w -> P (v_add A v w);
  nn_square : forall v, P (v_mul A (cj v) v) }.
(** the columns of an n row matrix are lists of hermitian d by d blocks, stored row by row *)
Definition hermitian_blocks (d r c : Z) y : Prop :=
  forall i n p q, 0 <= i < r -> 0 <= n < c / (d * d) -> 0 <= p < d -> 0 <= q < d -> y i (n * (d * d) + p * d + q) = cj (y i (n * (d * d) + q * d + p)).
(** the blocks of b adjoined *)
Definition blocks_adjoined (d r c : Z) b b' : Prop :=
  forall i n p q, 0 <= i < r -> 0 <= n < c / (d * d) -> 0 <= p < d -> 0 <= q < d -> b' i (n * (d * d) + p * d + q) = cj (b i (n * (d * d) + q * d + p)).
End Gelss.
