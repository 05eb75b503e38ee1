(** Model of c++/nda/lapack/gelss_worker.hpp: linear least squares by singular value decomposition.
    Matrices are modelled by their values, as functions of row and column beside their extents: the operations used (products, dagger,
    vstack, reshape, permuted views) are modelled in memory in M_Blas.v and M_Transform.v and proved to have these values (C43, C27, C24, C06).
    Real and complex numbers are elements of one type [V]; [sq] is the square root, [lt] the comparison of real numbers, [half] is 0.5. *)
From Verif Require Import Base M_Expr.

Inductive gout (T : Type) := GRet (x : T) | GThrow | GStop | GUndef.
Arguments GRet {T}. Arguments GThrow {T}. Arguments GStop {T}. Arguments GUndef {T}.
Definition gbind {T U} (x : gout T) (f : T -> gout U) : gout U := match x with GRet y => f y | GThrow => GThrow | GStop => GStop | GUndef => GUndef end.

Section Gelss.
Context {V : Type} (A : arith V) (cj sq : V -> V) (lt : V -> V -> bool) (half : V) (of_Z : Z -> V).
Notation matrix := (Z -> Z -> V).

(** x_0 + ... + x_(n-1), added in this order to zero *)
Fixpoint add_up (n : nat) (f : Z -> V) : V := match n with O => v_zero A | S n => v_add A (add_up n f) (f (Z.of_nat n)) end.
(** a * b, the inner extent being [k] *)
Definition times (k : Z) (a b : matrix) : matrix := fun i j => add_up (Z.to_nat k) (fun l => v_mul A (a i l) (b l j)).
(** matrix_functions.hpp:45-50 *)
Definition dagger_of (a : matrix) : matrix := fun i j => cj (a j i).
(** matrix_functions.hpp:78-97, [n] is the number of rows of a *)
Definition stack (n : Z) (a b : matrix) : matrix := fun i j => if i <? n then a i j else b (i - n) j.
(** algorithms.hpp:114-121 [frobenius_norm] of an r by c matrix: the square root of the sum over the elements in C order *)
Definition frobenius (r c : Z) (a : matrix) : V :=
  sq (add_up (Z.to_nat (r * c)) (fun p => let x := a (p / c) (p mod c) in v_mul A (cj x) x)).
(** std::max_element; [None]: the end of an empty vector *)
Definition max_elem (l : list V) : option V := match l with [] => None | x :: l => Some (fold_left (fun m y => if lt m y then y else m) l x) end.

(** the library's gesvd for M by N matrices: singular values, U, V^H; None is the exception *)
Context (svd : Z -> Z -> matrix -> option (list V * matrix * matrix)).

(** gelss_worker.hpp:24-44, the members *)
Record worker := Worker { w_M : Z; w_N : Z; w_A : matrix; w_inv : matrix; w_null : matrix; w_s : list V }.

(** gelss_worker.hpp:65-68: S_inv, N by M *)
Definition s_inv (M N : Z) (s : list V) : matrix := fun i j =>
  if (i =? j) && (i <? Z.min M N) then v_div A (v_one A) (nth (Z.to_nat i) s (v_zero A)) else v_zero A.
(** gelss_worker.hpp:53-73 the constructor.  Products of empty matrices stop the program (C43). *)
Definition new_worker (M N : Z) (a : matrix) : gout worker :=
  if M <? N then GThrow else
  match svd M N a with
  | None => GThrow
  | Some (s, u, vt) =>
      if N =? 0 then GStop else
      let v_s_ut := times M (times N (dagger_of vt) (s_inv M N s)) (dagger_of u) in
      let ut_null := if N <? M then (fun i j => dagger_of u (N + i) j) else (fun _ _ => v_zero A) in
      GRet (Worker M N a v_s_ut ut_null s)
  end.
(** gelss_worker.hpp:76-85 operator() for an [r] by [c] matrix b.  A number of rows other than M is refused by the products (in debug
    builds; not defined otherwise). *)
Definition solve (w : worker) (r c : Z) (b : matrix) : gout (matrix * V) :=
  let err := if w_M w =? w_N w then GRet (v_zero A) else
    if negb (c =? 0) && negb (r =? w_M w) then GStop else
    match max_elem (map (fun i => v_div A (frobenius (w_M w - w_N w) 1 (times (w_M w) (w_null w) (fun k _ => b k (Z.of_nat i)))) (sq (of_Z r))) (seq 0 (Z.to_nat c))) with
    | None => GUndef
    | Some e => GRet e
    end in
  gbind err (fun e => if (r =? w_M w) && negb (c =? 0) then GRet (times (w_M w) (w_inv w) b, e) else GStop).

(** gelss_worker.hpp:120-148 inner_adjoint of an [r] by [c] matrix: position p of the elements in C order is (i, n, x, y) for an array of shape
    (r, N, d, d) *)
Definition inner_adjoint (d r c : Z) (b : matrix) : gout matrix :=
  if d =? 0 then GUndef else
  if negb (Z.rem c (d * d) =? 0) then GStop else
  let N := Z.quot c (d * d) in
  let reshaped := fun i n x y => let p := ((i * N + n) * d + x) * d + y in b (p / c) (p mod c) in
  let arr_dag := fun i n x y => cj (reshaped i n y x) in
  GRet (fun i j => let p := i * c + j in arr_dag (p / (N * d * d)) (p / (d * d) mod N) (p / d mod d) (p mod d)).

(** gelss_worker.hpp:96-113 gelss_worker_hermitian: the two solvers *)
Definition new_worker_hermitian (M N : Z) (a : matrix) : gout (worker * worker) :=
  gbind (new_worker M N a) (fun w1 =>
  gbind (new_worker (M + M) N (stack M a (fun i j => cj (a i j)))) (fun w2 => GRet (w1, w2))).
(** gelss_worker.hpp:116-155 *)
Definition solve_hermitian (w : worker * worker) (r c : Z) (b : matrix) (dim : option Z) : gout (matrix * V) :=
  match dim with
  | None => GThrow
  | Some d =>
      gbind (inner_adjoint d r c b) (fun b_dag =>
      gbind (solve (snd w) (r + r) c (stack r b b_dag)) (fun '(x, err) =>
      gbind (inner_adjoint d (w_N (snd w)) c x) (fun x_dag =>
      GRet (fun i j => v_mul A half (v_add A (x i j) (x_dag i j)), err))))
  end.
End Gelss.
