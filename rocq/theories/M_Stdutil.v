(** Model of c++/nda/stdutil/array.hpp: what nda adds to std::array, on which shapes, strides and indices are computed with.  A std::array<T, R> is a
    list of length R.  A std::array that is not initialised is a list of [None]; T{} is [d].  Sizes fit int, the type of the loop variables. *)
From Coq Require Import String Ascii.
From Verif Require Import Base M_Loops M_Expr M_Print.
Local Open Scope list_scope.

(** for (int i = from; i < to; ++i) body *)
Definition for_int {S} (from to : nat) (body : nat -> S -> S) (s : S) : S := fold_left (fun s i => body i s) (seq from (to - from)) s.

Section Arrays.
Context {T : Type} (d : T).
(** array.hpp:83-100 [make_initialized_array] *)
Definition make_initialized_array (R : nat) (v : T) : list T := map (fun i => match i with O => v | _ => v end) (seq 0 R).
(** array.hpp:109-115 [make_std_array] from elements of another type *)
Definition make_std_array {U} (conv : U -> T) (du : U) (a : list U) : list T :=
  for_int 0 (length a) (fun u res => upd res u (conv (nth u a du))) (make_initialized_array (length a) d).
(** array.hpp:122-127 [to_vector]: std::vector<T> V(R) *)
Definition to_vector (a : list T) : list T := for_int 0 (length a) (fun i V => upd V i (nth i a d)) (repeat d (length a)).
(** array.hpp:137-143 [append] *)
Definition append (a : list T) (x : T) : list T :=
  let R := length a in upd (for_int 0 R (fun i res => upd res i (nth i a d)) (make_initialized_array (R + 1) d)) R x.
(** array.hpp:153-159 [front_append] *)
Definition front_append (a : list T) (x : T) : list T :=
  let R := length a in for_int 0 R (fun i res => upd res (i + 1) (nth i a d)) (upd (make_initialized_array (R + 1) d) 0 x).
(** array.hpp:168-172 [pop] *)
Definition pop (a : list T) : list T :=
  let R := length a in for_int 0 (R - 1) (fun i res => upd res i (nth i a d)) (make_initialized_array (R - 1) d).
(** array.hpp:181-187 [mpop]<N> *)
Definition mpop (N : nat) (a : list T) : list T :=
  let R := length a in for_int 0 (R - N) (fun i res => upd res i (nth i a d)) (make_initialized_array (R - N) d).
(** array.hpp:196-200 [front_pop] *)
Definition front_pop (a : list T) : list T :=
  let R := length a in for_int 1 R (fun i res => upd res (i - 1) (nth i a d)) (make_initialized_array (R - 1) d).
(** array.hpp:209-213 [front_mpop]<N> *)
Definition front_mpop (N : nat) (a : list T) : list T :=
  let R := length a in for_int N R (fun i res => upd res (i - N) (nth i a d)) (make_initialized_array (R - N) d).
(** array.hpp:223-228 [join] *)
Definition join (a1 a2 : list T) : list T :=
  let R1 := length a1 in let R2 := length a2 in
  for_int 0 R2 (fun i res => upd res (R1 + i) (nth i a2 d)) (for_int 0 R1 (fun i res => upd res i (nth i a1 d)) (make_initialized_array (R1 + R2) d)).

(** array.hpp:45-79 [operator+], [-], [*] of two arrays, unary [-], scalar [*]: res is not initialised *)
Definition array_op2 (op : T -> T -> T) (a1 a2 : list T) : list (option T) :=
  for_int 0 (length a1) (fun i res => upd res i (Some (op (nth i a1 d) (nth i a2 d)))) (repeat None (length a1)).
Definition array_op1 (op : T -> T) (a : list T) : list (option T) :=
  for_int 0 (length a) (fun i res => upd res i (Some (op (nth i a d)))) (repeat None (length a)).
Definition array_plus (A : arith T) := array_op2 (v_add A).
Definition array_minus (A : arith T) := array_op2 (v_sub A).
Definition array_times (A : arith T) := array_op2 (v_mul A).
Definition array_neg (A : arith T) := array_op1 (v_opp A).
Definition array_scale (A : arith T) (s : T) := array_op1 (fun x => v_mul A s x).

(** array.hpp:237-246 [sum] *)
Definition array_sum (A : arith T) (a : list T) : T :=
  match length a with O => d | R => for_int 1 R (fun i res => v_add A res (nth i a d)) (nth 0 a d) end.
(** array.hpp:255-261 [product]; None: does not compile for R = 0 *)
Definition array_product (A : arith T) (a : list T) : option T :=
  match length a with O => None | R => Some (for_int 1 R (fun i res => v_mul A res (nth i a d)) (nth 0 a d)) end.
(** array.hpp:272-281 [dot_product] *)
Definition dot_product (A : arith T) (a1 a2 : list T) : T :=
  match length a1 with
  | O => d
  | R => for_int 1 R (fun i res => v_add A res (v_mul A (nth i a1 d) (nth i a2 d))) (v_mul A (nth 0 a1 d) (nth 0 a2 d))
  end.
(** array.hpp:29-41 [operator<<], [to_string]; [show] is operator<< of T *)
Definition array_to_string (show : T -> text) (a : list T) : text :=
  for_int 0 (length a) (fun i fs => fs ++ (match i with O => [] | _ => lit " " end) ++ show (nth i a d)) (lit "(") ++ lit ")".
End Arrays.

(** array_adapter.hpp:24-43: the shape given, converted to long, and a function; [size] is the product of the extents *)
Record adapter {V} := Adapter { ad_shape : list Z; ad_f : list Z -> V }.
Arguments adapter : clear implicits.
Arguments Adapter {V}.
Definition make_adapter {V U} (conv : U -> Z) (du : U) (shape : list U) (f : list Z -> V) : adapter V := Adapter (make_std_array 0 conv du shape) f.
Definition adapter_size {V} (A : arith Z) (x : adapter V) : option Z := array_product 0 A (ad_shape x).
Definition adapter_call {V} (x : adapter V) (idx : list Z) : V := ad_f x idx.
