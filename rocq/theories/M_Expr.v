(** Model of lazy expressions, comparisons and reductions: c++/nda/arithmetic.hpp, c++/nda/map.hpp,
    c++/nda/algorithms.hpp, c++/nda/basic_functions.hpp (operator==), c++/nda/mapped_functions.hpp (pow).
    The element type is any type [V] with operations; the promotions between C++ element types are not modelled. *)
From Verif Require Import Base M_Perm M_IdxMap M_Slice M_Loops M_Assign.

(** the arithmetic of the element type *)
Record arith (V : Type) := Arith { v_zero : V; v_one : V; v_opp : V -> V; v_add : V -> V -> V; v_sub : V -> V -> V; v_mul : V -> V -> V; v_div : V -> V -> V }.
Arguments v_zero {V}. Arguments v_one {V}. Arguments v_opp {V}. Arguments v_add {V}. Arguments v_sub {V}. Arguments v_mul {V}. Arguments v_div {V}.

(** traits.hpp: get_algebra: arrays, matrices, vectors, none *)
Inductive algebra := AlgA | AlgM | AlgV | AlgN.
Definition algebra_eqb (a b : algebra) : bool :=
  match a, b with AlgA, AlgA | AlgM, AlgM | AlgV, AlgV | AlgN, AlgN => true | _, _ => false end.
(** the character OP of expr<OP, L, R> *)
Inductive bin_op := OpPlus | OpMinus | OpTimes | OpDiv.

(** Expression objects: an array or view, expr_unary<'-', A> (arithmetic.hpp:32-43), expr<OP, L, R> (58-164) with two
    arrays, a scalar on the left, a scalar on the right, and expr_call<F, A...> (map.hpp:46-86). *)
Inductive expr (V : Type) :=
| ELeaf (alg : algebra) (v : view)
| ENeg (a : expr V)
| EBin (op : bin_op) (l r : expr V)
| EScalL (op : bin_op) (s : V) (r : expr V)
| EScalR (op : bin_op) (l : expr V) (s : V)
| EMap (f : list V -> V) (a : exprs V)
with exprs (V : Type) :=
| EOne (a : expr V)
| EMore (a : expr V) (rest : exprs V).
Arguments ELeaf {V}. Arguments ENeg {V}. Arguments EBin {V}. Arguments EScalL {V}. Arguments EScalR {V}. Arguments EMap {V}. Arguments EOne {V}. Arguments EMore {V}.

(** arithmetic.hpp:47 and 69, map.hpp:31-39: the algebra of an expression. *)
Fixpoint get_algebra {V} (e : expr V) : algebra :=
  match e with
  | ELeaf alg _ => alg
  | ENeg a => get_algebra a
  | EBin _ l _ => get_algebra l
  | EScalL _ _ r => get_algebra r
  | EScalR _ l _ => get_algebra l
  | EMap _ a => match a with
                | EOne a0 => get_algebra a0
                | EMore a0 rest => if all_algebra (get_algebra a0) rest then get_algebra a0 else AlgN
                end
  end
with all_algebra {V} (x0 : algebra) (l : exprs V) : bool :=
  match l with
  | EOne a => algebra_eqb (get_algebra a) x0
  | EMore a rest => algebra_eqb (get_algebra a) x0 && all_algebra x0 rest
  end.

(** arithmetic.hpp:41, 77-87, map.hpp:83: shape(). *)
Fixpoint expr_shape {V} (e : expr V) : list Z :=
  match e with
  | ELeaf _ v => im_len (v_lay v)
  | ENeg a => expr_shape a
  | EBin _ l _ => expr_shape l
  | EScalL _ _ r => expr_shape r
  | EScalR _ l _ => expr_shape l
  | EMap _ (EOne a) => expr_shape a
  | EMap _ (EMore a _) => expr_shape a
  end.
(** the EXPECTS of arithmetic.hpp:84 and map.hpp:97 (debug builds) for the expression and its parts *)
Definition shape_eqb (a b : list Z) : bool := if list_eq_dec Z.eq_dec a b then true else false.
Fixpoint shape_checks {V} (e : expr V) : bool :=
  match e with
  | ELeaf _ _ => true
  | ENeg a => shape_checks a
  | EBin _ l r => shape_eqb (expr_shape l) (expr_shape r) && shape_checks l && shape_checks r
  | EScalL _ _ r => shape_checks r
  | EScalR _ l _ => shape_checks l
  | EMap _ (EOne a) => shape_checks a
  | EMap _ (EMore a rest) => shape_checks a && shapes_check (expr_shape a) rest
  end
with shapes_check {V} (s0 : list Z) (l : exprs V) : bool :=
  match l with
  | EOne a => shape_eqb (expr_shape a) s0 && shape_checks a
  | EMore a rest => shape_eqb (expr_shape a) s0 && shape_checks a && shapes_check s0 rest
  end.

(** The static_asserts of arithmetic.hpp:193, 213, 231-256, 274-294 (products and quotients of two arrays are lazy only in
    array algebra, with matrices they go to matmul and inverse, with vectors they do not compile) and 303-310
    (a scalar divided by a matrix goes to inverse), and the equality of ranks. *)
Fixpoint expr_rank {V} (e : expr V) : nat :=
  match e with
  | ELeaf _ v => rank (v_lay v)
  | ENeg a => expr_rank a
  | EBin _ l _ => expr_rank l
  | EScalL _ _ r => expr_rank r
  | EScalR _ l _ => expr_rank l
  | EMap _ (EOne a) => expr_rank a
  | EMap _ (EMore a _) => expr_rank a
  end.
Definition is_A (a : algebra) : bool := algebra_eqb a AlgA.
Definition is_M (a : algebra) : bool := algebra_eqb a AlgM.
Fixpoint compiles {V} (e : expr V) : bool :=
  match e with
  | ELeaf alg v => match alg with AlgM => Nat.eqb (rank (v_lay v)) 2 | AlgV => Nat.eqb (rank (v_lay v)) 1 | _ => true end
  | ENeg a => compiles a
  | EBin op l r => compiles l && compiles r && Nat.eqb (expr_rank l) (expr_rank r) &&
                   match op with OpPlus | OpMinus => true | OpTimes | OpDiv => is_A (get_algebra l) && is_A (get_algebra r) end
  | EScalL op _ r => compiles r && match op with OpDiv => negb (is_M (get_algebra r)) | _ => true end
  | EScalR _ l _ => compiles l
  | EMap _ (EOne a) => compiles a
  | EMap _ (EMore a rest) => compiles a && compile_all rest
  end
with compile_all {V} (l : exprs V) : bool :=
  match l with EOne a => compiles a | EMore a rest => compiles a && compile_all rest end.

(** std::equal_to{}(args...) of two arguments *)
Definition on_diagonal (idx : list Z) : bool := match idx with [i; j] => i =? j | _ => false end.

(** arithmetic.hpp:36-39, 101-157, map.hpp:55-64, 71-74: operator()(args...) with integers, reading memory [m]. *)
Fixpoint expr_at {V} (A : arith V) (m : mem V) (e : expr V) (idx : list Z) : V :=
  match e with
  | ELeaf _ v => m (elem v idx)
  | ENeg a => v_opp A (expr_at A m a idx)
  | EBin op l r =>
      match op with
      | OpPlus => v_add A (expr_at A m l idx) (expr_at A m r idx)
      | OpMinus => v_sub A (expr_at A m l idx) (expr_at A m r idx)
      | OpTimes => v_mul A (expr_at A m l idx) (expr_at A m r idx)
      | OpDiv => v_div A (expr_at A m l idx) (expr_at A m r idx)
      end
  | EScalL op s r =>
      match op with
      | OpPlus => if is_M (get_algebra r) then (if on_diagonal idx then v_add A s (expr_at A m r idx) else expr_at A m r idx)
                  else v_add A s (expr_at A m r idx)
      | OpMinus => if is_M (get_algebra r) then (if on_diagonal idx then v_sub A s (expr_at A m r idx) else v_opp A (expr_at A m r idx))
                   else v_sub A s (expr_at A m r idx)
      | OpTimes => v_mul A s (expr_at A m r idx)
      | OpDiv => v_div A s (expr_at A m r idx)
      end
  | EScalR op l s =>
      match op with
      | OpPlus => if is_M (get_algebra l) then (if on_diagonal idx then v_add A (expr_at A m l idx) s else expr_at A m l idx)
                  else v_add A (expr_at A m l idx) s
      | OpMinus => if is_M (get_algebra l) then (if on_diagonal idx then v_sub A (expr_at A m l idx) s else expr_at A m l idx)
                   else v_sub A (expr_at A m l idx) s
      | OpTimes => v_mul A (expr_at A m l idx) s
      | OpDiv => v_div A (expr_at A m l idx) s
      end
  | EMap f a => f (exprs_at A m a idx)
  end
with exprs_at {V} (A : arith V) (m : mem V) (l : exprs V) (idx : list Z) : list V :=
  match l with
  | EOne a => [expr_at A m a idx]
  | EMore a rest => expr_at A m a idx :: exprs_at A m rest idx
  end.

(** _impl_basic_array_view_common.hpp:154-170: the view made by a slice, with its algebra. *)
Definition slice_view (alg : algebra) (v : view) (args : list arg) : option (algebra * view) :=
  match slice (v_lay v) args with
  | Some (off, lay) => Some ((if is_M alg && Nat.eqb (rank lay) 1 then AlgV else alg), View lay (v_base v + off))
  | None => None
  end.
(** arithmetic.hpp:36-39, 101-157, map.hpp:55-64: operator()(args...) with ranges gives the expression of the
    slices; a scalar added to a matrix does not compile then (two types in the conditional expression). *)
Fixpoint slice_expr {V} (e : expr V) (args : list arg) : option (expr V) :=
  match e with
  | ELeaf alg v => match slice_view alg v args with Some (alg', v') => Some (ELeaf alg' v') | None => None end
  | ENeg a => match slice_expr a args with Some a' => Some (ENeg a') | None => None end
  | EBin op l r => match slice_expr l args, slice_expr r args with Some l', Some r' => Some (EBin op l' r') | _, _ => None end
  | EScalL op s r =>
      match op, is_M (get_algebra r) with
      | (OpPlus | OpMinus), true => None
      | _, _ => match slice_expr r args with Some r' => Some (EScalL op s r') | None => None end
      end
  | EScalR op l s =>
      match op, is_M (get_algebra l) with
      | (OpPlus | OpMinus), true => None
      | _, _ => match slice_expr l args with Some l' => Some (EScalR op l' s) | None => None end
      end
  | EMap f a => match slice_exprs a args with Some a' => Some (EMap f a') | None => None end
  end
with slice_exprs {V} (l : exprs V) (args : list arg) : option (exprs V) :=
  match l with
  | EOne a => match slice_expr a args with Some a' => Some (EOne a') | None => None end
  | EMore a rest => match slice_expr a args, slice_exprs rest args with Some a', Some rest' => Some (EMore a' rest') | _, _ => None end
  end.

(** _impl_basic_array_view_common.hpp:285-316: operator+= -= *= /= with an expression or a scalar. *)
Inductive operand (V : Type) := OExpr (e : expr V) | OScalar (s : V).
Arguments OExpr {V}. Arguments OScalar {V}.
Definition compound_expr {V} (op : bin_op) (alg : algebra) (dst : view) (r : operand V) : expr V :=
  match r with OExpr e => EBin op (ELeaf alg dst) e | OScalar s => EScalR op (ELeaf alg dst) s end.
Definition assign_expr {V} (A : arith V) (checks : bool) (dst : view) (e : expr V) (m : mem V) : option (mem V) :=
  assign_from_ndarray checks true dst (expr_shape e) (RExpr (fun m idx => expr_at A m e idx)) m.
Definition compound_assign {V} (A : arith V) (checks : bool) (op : bin_op) (alg : algebra) (dst : view) (r : operand V) (m : mem V) : option (mem V) :=
  assign_expr A checks dst (compound_expr op alg dst r) m.

(** ** algorithms on anything with a shape and a call operator *)
(** algorithms.hpp:33-40 [fold]. *)
Definition fold {V R} (f : R -> V -> R) (shape : list Z) (a : list Z -> V) (r : R) : R :=
  for_each shape (fun idx r2 => f r2 (a idx)) r.
(** algorithms.hpp:57-71 [any], [all] *)
Definition any (shape : list Z) (a : list Z -> bool) : bool := fold (fun r x => r || x) shape a false.
Definition all (shape : list Z) (a : list Z -> bool) : bool := fold (fun r x => r && x) shape a true.
(** traits.hpp:142-150 [get_first_element] *)
Definition get_first_element {V} (shape : list Z) (a : list Z -> V) : V := a (map (fun _ => 0) shape).
(** std::max(x, y) is (x < y) ? y : x; std::min(x, y) is (y < x) ? y : x *)
Definition std_max {V} (ltb : V -> V -> bool) (x y : V) : V := if ltb x y then y else x.
Definition std_min {V} (ltb : V -> V -> bool) (x y : V) : V := if ltb y x then y else x.
(** algorithms.hpp:79-103 [max_element], [min_element] *)
Definition array_max {V} (ltb : V -> V -> bool) (shape : list Z) (a : list Z -> V) : V := fold (std_max ltb) shape a (get_first_element shape a).
Definition array_min {V} (ltb : V -> V -> bool) (shape : list Z) (a : list Z -> V) : V := fold (std_min ltb) shape a (get_first_element shape a).
(** algorithms.hpp:131-151 [sum], [product] *)
Definition sum {V} (A : arith V) (shape : list Z) (a : list Z -> V) : V := fold (v_add A) shape a (v_zero A).
Definition product {V} (A : arith V) (shape : list Z) (a : list Z -> V) : V := fold (v_mul A) shape a (v_one A).
(** algorithms.hpp:113-121 [frobenius_norm], before the square root; [abs] is std::abs. *)
Definition frobenius_square {V} (A : arith V) (abs : V -> V) (shape : list Z) (a : list Z -> V) : V :=
  fold (fun r x => let ab := abs x in v_add A r (v_mul A ab ab)) shape a (v_zero A).

(** basic_functions.hpp:290-299 [operator==]; [r &= c] on bool evaluates both. *)
Definition array_eq {V} (veq : V -> V -> bool) (sa : list Z) (a : list Z -> V) (sb : list Z) (b : list Z -> V) : bool :=
  if negb (shape_eqb sa sb) then false else for_each sa (fun idx r => r && veq (a idx) (b idx)) true.

(** mapped_functions.hpp:57-64 [pow] for integers. *)
Definition int_pow {V} (A : arith V) (x : V) (n : Z) : V := fold_left (fun r _ => v_mul A r x) (zseq n) (v_one A).
