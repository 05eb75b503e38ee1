(** Arrays of C++ integers: c++/nda/arithmetic.hpp (elementwise operations), c++/nda/algorithms.hpp (sum, product, frobenius_norm),
    c++/nda/matrix_functions.hpp (trace), c++/nda/blas/dot.hpp (dot_generic), c++/nda/mapped_functions.hpp (pow), with the rules of
    C++20 for integers: promotion, usual conversions, wrap-around of unsigned types, undefined behaviour on overflow of signed ones.
    int has 32 bits; types of equal width and sign (long and long long) are not distinguished. *)
From Verif Require Import Base M_Loops M_Expr.

(** the integer types: bool, [w] bits signed, [w] bits unsigned *)
Inductive ity := TBool | TSigned (w : Z) | TUnsigned (w : Z).
Definition lo (t : ity) : Z := match t with TBool | TUnsigned _ => 0 | TSigned w => - 2 ^ (w - 1) end.
Definition hi (t : ity) : Z := match t with TBool => 1 | TSigned w => 2 ^ (w - 1) - 1 | TUnsigned w => 2 ^ w - 1 end.
Definition inside (t : ity) (z : Z) : bool := (lo t <=? z) && (z <=? hi t).
(** [conv.integral], [conv.bool]: conversion of an integer to type [t] *)
Definition conv (t : ity) (z : Z) : Z :=
  match t with
  | TBool => if z =? 0 then 0 else 1
  | TUnsigned w => z mod 2 ^ w
  | TSigned w => (z + 2 ^ (w - 1)) mod 2 ^ w - 2 ^ (w - 1)
  end.
(** [conv.prom]: types narrower than int are promoted to int *)
Definition int_t : ity := TSigned 32.
Definition promote (t : ity) : ity := match t with TBool => int_t | TSigned w | TUnsigned w => if w <? 32 then int_t else t end.
(** [expr.arith.conv], for promoted types *)
Definition common (t u : ity) : ity :=
  match promote t, promote u with
  | TSigned v, TSigned w => TSigned (Z.max v w)
  | TUnsigned v, TUnsigned w => TUnsigned (Z.max v w)
  | TSigned v, TUnsigned w | TUnsigned w, TSigned v => if v <=? w then TUnsigned w else TSigned v
  | _, _ => int_t
  end.
(** [expr.add], [expr.mul] in promoted type [t]; None: undefined behaviour *)
Definition exact_op (op : bin_op) (x y : Z) : option Z :=
  match op with OpPlus => Some (x + y) | OpMinus => Some (x - y) | OpTimes => Some (x * y) | OpDiv => if y =? 0 then None else Some (Z.quot x y) end.
Definition fit (t : ity) (z : Z) : option Z := match t with TUnsigned _ => Some (conv t z) | _ => if inside t z then Some z else None end.
Definition iop (t : ity) (op : bin_op) (x y : Z) : option Z := match exact_op op x y with Some z => fit t z | None => None end.
(** x op y for x of type [t], y of type [u] *)
Definition binary (t u : ity) (op : bin_op) (x y : Z) : option Z := let c := common t u in iop c op (conv c x) (conv c y).

(** expressions of integer arrays and numbers: arithmetic.hpp:30-42 [expr_unary], 57-164 [expr] (elements by index; numbers in matrix
    algebra, which stand for multiples of the unit matrix, are left to M_Expr) *)
Inductive iexpr := IArr (t : ity) (a : list Z -> Z) | INum (t : ity) (z : Z) | INeg (e : iexpr) | IBin (op : bin_op) (l r : iexpr).
Fixpoint type_of (e : iexpr) : ity := match e with IArr t _ | INum t _ => t | INeg e => promote (type_of e) | IBin _ l r => common (type_of l) (type_of r) end.
Definition both (x y : option Z) (f : Z -> Z -> option Z) : option Z := match x, y with Some x, Some y => f x y | _, _ => None end.
(** arithmetic.hpp:35-38, 101-157: the call operators *)
Fixpoint ieval (e : iexpr) (idx : list Z) : option Z :=
  match e with
  | IArr _ a => Some (a idx)
  | INum _ z => Some z
  | INeg e => match ieval e idx with Some x => fit (promote (type_of e)) (- x) | None => None end
  | IBin op l r => both (ieval l idx) (ieval r idx) (binary (type_of l) (type_of r) op)
  end.
(** _impl_basic_array_view_common.hpp:331-408 [assign_from_ndarray]: what the element of an array of type [t] becomes *)
Definition istored (t : ity) (e : iexpr) (idx : list Z) : option Z := match ieval e idx with Some x => Some (conv t x) | None => None end.

(** algorithms.hpp:33-53 [fold] with std::plus or std::multiplies and an accumulator of the type of its results *)
Definition int_fold (t : ity) (op : bin_op) (init : Z) (shape : list Z) (a : list Z -> Z) : option Z :=
  fold (fun r x => match r with Some r => binary (promote t) t op r x | None => None end) shape a (Some (conv (promote t) init)).
(** algorithms.hpp:131-151 [sum], [product]; the result has type [promote t] *)
Definition int_sum (t : ity) := int_fold t OpPlus 0.
Definition int_product (t : ity) := int_fold t OpTimes 1.
(** std::abs of the promoted type (unsigned types of 32 bits and more do not compile, the model takes them as they are) *)
Definition int_abs (t : ity) (x : Z) : option Z := if x <? 0 then fit (promote t) (- x) else Some x.
(** algorithms.hpp:113-121 [frobenius_norm] before the square root: [ab * ab] is computed in the type of [ab], the sum as double (here:
    exactly) *)
Definition int_frobenius (t : ity) (shape : list Z) (a : list Z -> Z) : option Z :=
  fold (fun r x => match r, int_abs t x with Some r, Some ab => match binary (promote t) (promote t) OpTimes ab ab with Some p => Some (r + p) | None => None end | _, _ => None end) shape a (Some 0).
(** matrix_functions.hpp:33-41 [trace]: the accumulator has the type of the elements *)
Definition int_trace (t : ity) (shape : list Z) (a : list Z -> Z) : option Z :=
  fold_left (fun r i => match r with Some r => match binary t t OpPlus r (a [i; i]) with Some z => Some (conv t z) | None => None end | None => None end) (zseq (nthZ shape 0)) (Some 0).
(** dot.hpp:81-121 [dot_generic]; the accumulator has the type of the products *)
Definition int_dot (t u : ity) (n : Z) (x y : Z -> Z) : option Z :=
  fold_left (fun r i => both r (binary t u OpTimes (x i) (y i)) (binary (common t u) (common t u) OpPlus)) (map (fun i => i + 1) (zseq (n - 1))) (binary t u OpTimes (x 0) (y 0)).
(** mapped_functions.hpp:57-64 [pow] *)
Definition int_pow_at (t : ity) (x n : Z) : option Z :=
  fold_left (fun r _ => match r with Some r => match binary t t OpTimes r x with Some z => Some (conv t z) | None => None end | None => None end) (zseq n) (Some 1).
