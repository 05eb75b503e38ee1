(** Model of the layout information of expressions (traits.hpp:177-211, declarations.hpp:146-155, arithmetic.hpp:49-75, 170-172),
    of linear indices in expressions, of the generic dot product that uses both (blas/dot.hpp:79-130), of linalg/dot.hpp and of
    make_regular (basic_functions.hpp:144-155, basic_array.hpp:421-428). *)
From Verif Require Import Base M_Perm M_IdxMap M_Slice M_Loops M_Assign M_Expr M_Transform M_Blas.

(** traits.hpp:188-191 [layout_info_t]; the stride order is encoded (permutation.hpp [encode]; None: the program does not compile,
    from rank 9 on, see C05). *)
Record layout_info := LInfo { li_so : option Z; li_prop : layout_prop }.
(** traits.hpp:189-190: the default. *)
Definition no_info : layout_info := LInfo (Some 0) LP_none.
Definition same_code (a b : option Z) : bool := match a, b with Some x, Some y => x =? y | _, _ => false end.
(** traits.hpp:194-199 [operator&]; -1 as an uint64_t. *)
Definition info_and (a b : layout_info) : layout_info :=
  if same_code (li_so a) (li_so b) then LInfo (li_so a) (lp_and (li_prop a) (li_prop b)) else LInfo (Some (2 ^ 64 - 1)) LP_none.
(** declarations.hpp:146-155, arithmetic.hpp:49-51, 71-75, 170-172; mapped functions have the default (traits.hpp:201-202). *)
Fixpoint get_layout_info {V} (e : expr V) : layout_info :=
  match e with
  | ELeaf _ v => LInfo (encode (map Z.of_nat (im_so (v_lay v)))) (im_prop (v_lay v))
  | ENeg a => get_layout_info a
  | EBin _ l r => info_and (get_layout_info r) (get_layout_info l)
  | EScalL _ _ r => if is_A (get_algebra r) then get_layout_info r else no_info
  | EScalR _ l _ => if is_A (get_algebra l) then get_layout_info l else no_info
  | EMap _ _ => no_info
  end.

(** arithmetic.hpp:36-39, 101-157, map.hpp:55-64, _impl_basic_array_view_common.hpp:90-110: operator()(_linear_index_t); None is a
    program that does not compile: a leaf without linear index, or a scalar added to a matrix (std::equal_to with one argument). *)
Fixpoint expr_lin {V} (A : arith V) (m : mem V) (e : expr V) (k : Z) : option V :=
  let op_of op := match op with OpPlus => v_add A | OpMinus => v_sub A | OpTimes => v_mul A | OpDiv => v_div A end in
  match e with
  | ELeaf _ v => match lin_elem v k with Some a => Some (m a) | None => None end
  | ENeg a => match expr_lin A m a k with Some x => Some (v_opp A x) | None => None end
  | EBin op l r => match expr_lin A m l k, expr_lin A m r k with Some x, Some y => Some (op_of op x y) | _, _ => None end
  | EScalL op s r => match op, is_M (get_algebra r) with
                     | (OpPlus | OpMinus), true => None
                     | _, _ => match expr_lin A m r k with Some y => Some (op_of op s y) | None => None end
                     end
  | EScalR op l s => match op, is_M (get_algebra l) with
                     | (OpPlus | OpMinus), true => None
                     | _, _ => match expr_lin A m l k with Some x => Some (op_of op x s) | None => None end
                     end
  | EMap f a => match exprs_lin A m a k with Some l => Some (f l) | None => None end
  end
with exprs_lin {V} (A : arith V) (m : mem V) (l : exprs V) (k : Z) : option (list V) :=
  match l with
  | EOne a => match expr_lin A m a k with Some x => Some [x] | None => None end
  | EMore a rest => match expr_lin A m a k, exprs_lin A m rest k with Some x, Some l => Some (x :: l) | _, _ => None end
  end.

(** blas/dot.hpp:81-110 [_dot_impl] of two vectors or expressions, with its three branches; None does not compile.  The EXPECTS on
    equal shapes is a hypothesis of the theorems. *)
Definition is_leaf {V} (e : expr V) : option view := match e with ELeaf _ v => Some v | _ => None end.
Definition dot_branches {V} (A : arith V) (cj : V -> V) (star : bool) (x y : expr V) (m : mem V) : option V :=
  let c z := if star then cj z else z in
  let n := nthZ (expr_shape x) 0 in
  let loop (px py : Z -> option V) : option V :=
    fold_left (fun res i => match res, px i, py i with Some r, Some a, Some b => Some (v_add A r (v_mul A (c a) b)) | _, _, _ => None end)
      (map (fun i => i + 1) (zseq (n - 1))) (match px 0, py 0 with Some a, Some b => Some (v_mul A (c a) b) | _, _ => None end) in
  if has_smallest_stride_is_one (li_prop (get_layout_info x)) && has_smallest_stride_is_one (li_prop (get_layout_info y)) then
    match is_leaf x, is_leaf y with
    | Some u, Some v => loop (fun i => Some (m (v_base u + i))) (fun i => Some (m (v_base v + i)))
    | _, _ => loop (expr_lin A m x) (expr_lin A m y)
    end
  else loop (fun i => Some (expr_at A m x [i])) (fun i => Some (expr_at A m y [i])).

(** linalg/dot.hpp:31-55, 65-89 [dot], [dotc] for double and complex elements: a vector in memory of the element type of the result
    is used as it is, anything else is copied into a new vector at [base]. *)
Inductive vec_operand (V : Type) := VMem (v : view) | VOther (n : Z) (f : mem V -> list Z -> V).
Arguments VMem {V}. Arguments VOther {V}.
Definition vec_container {V} (checks : bool) (base : Z) (x : vec_operand V) (m : mem V) : bout (view * mem V) :=
  match x with
  | VMem v => BRet (v, m)
  | VOther n f => match array_of_ndarray checks true [0%nat] base [n] (RExpr f) m with (a, Some m) => BRet (a, m) | _ => BStop end
  end.
Definition linalg_dot {V} (A : arith V) (cj : V -> V) (checks star : bool) (b1 b2 : Z) (x y : vec_operand V) (m : mem V) : bout (V * mem V) :=
  bbind (vec_container checks b1 x m) (fun '(u, m) => bbind (vec_container checks b2 y m) (fun '(v, m) =>
  bbind (blas_dot A cj checks star u v m) (fun r => BRet (r, m)))).

(** basic_functions.hpp:144-155 [make_regular] of a view or an expression: a new array at [base]; deduction guides
    basic_array.hpp:423-428: the stride order of a view is kept, expressions are stored in C order. *)
Definition make_regular_copy {V} (A : arith V) (checks trivial : bool) (base : Z) (e : expr V) (m : mem V) : view * option (mem V) :=
  match e with
  | ELeaf _ v => array_of_ndarray checks trivial (im_so (v_lay v)) base (im_len (v_lay v)) (RMem v) m
  | _ => array_of_ndarray checks trivial (identity (length (expr_shape e))) base (expr_shape e) (RExpr (fun m idx => expr_at A m e idx)) m
  end.
