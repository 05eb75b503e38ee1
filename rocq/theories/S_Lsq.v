(** Specification for the LAPACK least squares solver. *)
From Verif Require Import Base M_Perm M_IdxMap M_Slice M_Loops M_Assign M_Expr M_Transform M_Blas M_Lsq S_Assign S_Blas S_Lapack S_Gelss.

Section Lsq.
Context {V : Type} (A : arith V) (cj : V -> V).
(** [keep rcond s0 s]: beside the largest singular value s0, the value s counts as different from zero *)
Context (keep : V -> V -> V -> Prop).
Implicit Types (a b x : Z -> Z -> V).

(** x is, for the first K columns of b, the solution of a x = b made from a singular value decomposition of a whose values from number r on are taken
    as zero, and those before are not zero: v_k (u_k . b) / s_k, added up for k < r *)
Definition truncated_solution (M N K : Z) (rcond : V) a b (s : list V) (r : Z) x : Prop :=
  let sv k := nth (Z.to_nat k) s (v_zero A) in
  exists u vt, svd_of A cj M N a s u vt /\ 0 <= r <= Z.min M N /\ (forall k, 0 <= k < Z.min M N -> (k < r <-> keep rcond (sv 0) (sv k))) /\ (forall k, 0 <= k < r -> sv k <> v_zero A) /\
    forall i j, 0 <= i < N -> 0 <= j < K ->
      x i j = sum_to A r (fun k => v_mul A (cj (vt k i)) (v_div A (sum_to A M (fun l => v_mul A (cj (u l k)) (b l j))) (sv k))).

(** the library: for matrices with elements, b with at least max(M, N) rows between its columns, apart from a.  It may overwrite a, and these rows of b. *)
Definition gelss_promise (G : f77_gelss_t V) : Prop := forall M N K pa lda pb ldb rcond (m : mem V), 1 <= M -> 1 <= N -> 0 <= K -> M <= lda -> Z.max M N <= ldb ->
  (forall q, in_rect pa lda M N q -> in_rect pb ldb (Z.max M N) K q -> False) ->
  exists m' s r info, G M N K pa lda pb ldb rcond m = BRet (m', (s, r, info)) /\
    (info = 0 -> truncated_solution M N K rcond (seen m pa lda) (seen m pb ldb) s r (seen m' pb ldb)) /\
    (forall q, ~ in_rect pa lda M N q -> ~ in_rect pb ldb (Z.max M N) K q -> m' q = m q).
End Lsq.
