(** Model of whole programs that create arrays and views, write through them, assign expressions to them, swap and rebind
    views, multiply matrices and destroy arrays: the statements run the functions modelled in M_Slice, M_Assign, M_Expr, M_Transform
    and M_Blas one after the other on one memory.  Views do not own memory (borrowed storage, mem/handle.hpp:515-554): nothing happens to
    them when their array goes, and they may then point to memory another array has been given. *)
From Verif Require Import Base M_Perm M_IdxMap M_Slice M_Loops M_Assign M_Expr M_Transform M_Blas M_Info.

(** Right hand sides, over variables (numbered in order of creation) that are arrays or views: arithmetic.hpp:178-310 (operators
    + - * / between two arrays or an array and a scalar, unary minus), map.hpp:88-115 (functions of one and of two arrays;
    simplification: calls with three and more arrays are left out here, see C23). *)
Inductive pexpr (V : Type) :=
| PVar (x : nat)
| PNeg (a : pexpr V)
| PBin (op : bin_op) (l r : pexpr V)
| PScalL (op : bin_op) (s : V) (r : pexpr V)
| PScalR (op : bin_op) (l : pexpr V) (s : V)
| PMap1 (f : V -> V) (a : pexpr V)
| PMap2 (f : V -> V -> V) (a b : pexpr V).
Arguments PVar {V}. Arguments PNeg {V}. Arguments PBin {V}. Arguments PScalL {V}. Arguments PScalR {V}. Arguments PMap1 {V}. Arguments PMap2 {V}.

(** Statements. *)
Inductive pstmt (V : Type) :=
| PNew (alg : algebra) (so : list nat) (shape : list Z) (f : list Z -> V)   (* array<T, R, order> x(lazy object of that shape) *)
| PCopy (alg : algebra) (so : list nat) (e : pexpr V)                        (* array<T, R, order> x(e) *)
| PDestroy (k : nat)                                                         (* the k-th array goes out of scope *)
| PSlice (x : nat) (args : list arg)                                         (* auto y = x(args...) *)
| PPermute (x : nat) (p : list nat)                                          (* auto y = permuted_indices_view<p>(x) *)
| PReshape (x : nat) (shape : list Z)                                        (* auto y = reshape(x, shape) *)
| PWrite (x : nat) (idx : list Z) (val : V)                                  (* x(idx...) = val *)
| PFill (x : nat) (val : V)                                                  (* x = val *)
| PAssign (x : nat) (e : pexpr V)                                            (* x = e, x a view or an array of the right shape *)
| PCompound (op : bin_op) (x : nat) (e : pexpr V)                            (* x op= e *)
| PRebind (x y : nat)                                                        (* x.rebind(y) *)
| PSwap (x y : nat)                                                          (* swap(x, y) on views *)
| PDeepSwap (x y : nat)                                                      (* deep_swap(x, y) *)
| PReassign (fresh : bool) (k x : nat) (e : pexpr V)                         (* x = e, x the k-th array, which is resized or (fresh) replaced *)
| PMatmul (e f : pexpr V)                                                    (* auto z = e * f, arrays, views or expressions that are matrices of double or complex numbers *)
| PMatvec (e f : pexpr V).                                                   (* auto z = e * f, such a matrix and a vector *)
Arguments PNew {V}. Arguments PCopy {V}. Arguments PDestroy {V}. Arguments PSlice {V}. Arguments PPermute {V}. Arguments PReshape {V}.
Arguments PWrite {V}. Arguments PFill {V}. Arguments PAssign {V}. Arguments PCompound {V}. Arguments PRebind {V}. Arguments PSwap {V}. Arguments PDeepSwap {V}. Arguments PReassign {V}. Arguments PMatmul {V}. Arguments PMatvec {V}.

(** basic_array.hpp:69-70: an array object holds a layout and the storage of its elements; [cb_alive]: not yet destroyed. *)
Record cblock := CBlock { cb_lay : idx_map; cb_base : Z; cb_alive : bool }.
(** All arrays ever made, temporaries of the library, the variables (an array is used through its layout and storage as a
    view is), and the memory. *)
Record cworld (V : Type) := CWorld { cw_mem : mem V; cw_blocks : list cblock; cw_temps : list cblock; cw_vars : list (algebra * view) }.
Arguments CWorld {V}. Arguments cw_mem {V}. Arguments cw_blocks {V}. Arguments cw_temps {V}. Arguments cw_vars {V}.

Definition no_var : algebra * view := (AlgN, View (IdxMap [] [] [] [] LP_none) 0).
Definition cvar {V} (w : cworld V) (x : nat) : algebra * view := nth x (cw_vars w) no_var.
Definition with_mem {V} (w : cworld V) (m : mem V) : cworld V := CWorld m (cw_blocks w) (cw_temps w) (cw_vars w).
Definition with_vars {V} (w : cworld V) (l : list (algebra * view)) : cworld V := CWorld (cw_mem w) (cw_blocks w) (cw_temps w) l.

(** arithmetic.hpp:178-310, map.hpp:88-115: the expression object made from the variables. *)
Fixpoint build {V} (w : cworld V) (zero : V) (e : pexpr V) : expr V :=
  match e with
  | PVar x => ELeaf (fst (cvar w x)) (snd (cvar w x))
  | PNeg a => ENeg (build w zero a)
  | PBin op l r => EBin op (build w zero l) (build w zero r)
  | PScalL op s r => EScalL op s (build w zero r)
  | PScalR op l s => EScalR op (build w zero l) s
  | PMap1 f a => EMap (fun l => match l with [x] => f x | _ => zero end) (EOne (build w zero a))
  | PMap2 f a b => EMap (fun l => match l with [x; y] => f x y | _ => zero end) (EMore (build w zero a) (EOne (build w zero b)))
  end.
(** _impl_basic_array_view_common.hpp:326-410: an array or view on the right is read in memory, anything else evaluated. *)
Definition rhs_of {V} (A : arith V) (e : expr V) : rhs V :=
  match e with ELeaf _ v => RMem v | _ => RExpr (fun m idx => expr_at A m e idx) end.

(** [checks]: a debug build.  [trivial]: the element type is trivial or complex (basic_array.hpp:165).  [alloc]: the address
    the allocator returns for a number of elements, in a given situation (mem/allocators.hpp; any function, see S_Program).
    None: an assertion of the library fails or the statement does not compile. *)
Section machine.
Context {V : Type} (A : arith V) (checks trivial : bool) (alloc : cworld V -> Z -> Z).

(** basic_array.hpp:156-174: an array made from an array-like object of shape [shape]. *)
Definition make_array (w : cworld V) (alg : algebra) (so : list nat) (shape : list Z) (r : rhs V) : option (cworld V) :=
  let base := alloc w (prodZ shape) in
  match array_of_ndarray checks trivial so base shape r (cw_mem w) with
  | (a, Some m) => Some (CWorld m (cw_blocks w ++ [CBlock (v_lay a) base true]) (cw_temps w) (cw_vars w ++ [(alg, a)]))
  | _ => None
  end.

(** linalg/matmul.hpp:60-73, 121-126: a factor of a product.  An array or a view is used as it is (the two differ only if conjugated or
    with extents in the type, which no variable here has), other expressions are copied into an array ([copied]).  The stride order of an
    expression is that of its layout information (traits.hpp:194-211). *)
Definition factor (w : cworld V) (e : pexpr V) : operand :=
  match build w (v_zero A) e with
  | ELeaf _ v => OMat false v
  | x => OOther (match li_so (get_layout_info x) with Some c => map Z.to_nat (decode 2 c) | None => [] end) (expr_shape x) (fun m idx => expr_at A m x idx)
  end.
Definition copied (e : pexpr V) : bool := match e with PVar _ => false | _ => true end.
(** mem/allocators.hpp: memory for an array of that shape, if it is needed: its address, and the situation in which the next block is asked for *)
Definition reserve (w : cworld V) (needed : bool) (so : list nat) (shape : list Z) : Z * cworld V :=
  let base := alloc w (prodZ shape) in
  (base, if needed then CWorld (cw_mem w) (cw_blocks w ++ [CBlock (v_lay (new_array so base shape)) base true]) (cw_temps w) (cw_vars w) else w).
Definition temporary (needed : bool) (so : list nat) (base : Z) (shape : list Z) : list cblock :=
  if needed then [CBlock (v_lay (new_array so base shape)) base false] else [].

(** One statement. *)
Definition cstep (w : cworld V) (s : pstmt V) : option (cworld V) :=
  match s with
  | PNew alg so shape f => make_array w alg so shape (RExpr (fun _ idx => f idx))
  | PCopy alg so e => let e := build w (v_zero A) e in make_array w alg so (expr_shape e) (rhs_of A e)
  (* basic_array.hpp: implicit destructor; mem/handle.hpp:62-80 frees the block *)
  | PDestroy k => Some (CWorld (cw_mem w) (upd (cw_blocks w) k (let b := nth k (cw_blocks w) (CBlock (IdxMap [] [] [] [] LP_none) 0 false) in CBlock (cb_lay b) (cb_base b) false))
                               (cw_temps w) (cw_vars w))
  (* _impl_basic_array_view_common.hpp:129-172 *)
  | PSlice x args => let '(alg, v) := cvar w x in
                     match slice_view alg v args with Some y => Some (with_vars w (cw_vars w ++ [y])) | None => None end
  (* layout_transforms.hpp:72-75 *)
  | PPermute x p => let '(alg, v) := cvar w x in Some (with_vars w (cw_vars w ++ [permuted_indices_view p alg v]))
  (* layout_transforms.hpp:44-61 with the layout policy C_layout *)
  | PReshape x shape => let '(alg, v) := cvar w x in
                        match reshape checks PolC alg (repeat 0 (length shape)) v shape with Some y => Some (with_vars w (cw_vars w ++ [y])) | None => None end
  (* _impl_basic_array_view_common.hpp:129-172 *)
  | PWrite x idx val => Some (with_mem w (mset (cw_mem w) (elem (snd (cvar w x)) idx) val))
  (* _impl_basic_array_view_common.hpp:413-431; the fuel is the number of elements *)
  | PFill x val => let '(alg, v) := cvar w x in
                   match assign_from_scalar (Z.to_nat (prodZ (im_len (v_lay v)))) (is_M alg) (v_zero A) v val (cw_mem w) with
                   | Some m => Some (with_mem w m) | None => None end
  (* basic_array_view.hpp:178-202, basic_array.hpp:358-364 when the shape stays (then resize, 411-416, keeps the block) *)
  | PAssign x e => let e := build w (v_zero A) e in
                   match assign_from_ndarray checks true (snd (cvar w x)) (expr_shape e) (rhs_of A e) (cw_mem w) with
                   | Some m => Some (with_mem w m) | None => None end
  (* _impl_basic_array_view_common.hpp:285-316 *)
  | PCompound op x e => let '(alg, v) := cvar w x in
                        match compound_assign A checks op alg v (OExpr (build w (v_zero A) e)) (cw_mem w) with
                        | Some m => Some (with_mem w m) | None => None end
  (* basic_array_view.hpp:230-258; the algebra is part of the type *)
  | PRebind x y => let '(alg, v) := cvar w x in Some (with_vars w (upd (cw_vars w) x (alg, rebind v (snd (cvar w y)))))
  | PSwap x y => let '(ax, vx) := cvar w x in let '(ay, vy) := cvar w y in
                 let '(vx', vy') := swap_views vx vy in
                 Some (with_vars w (upd (upd (cw_vars w) x (ax, vx')) y (ay, vy')))
  (* basic_array_view.hpp:265-269; make_regular: basic_functions.hpp:134-152 *)
  | PDeepSwap x y => let v := snd (cvar w x) in
                     let base := alloc w (prodZ (im_len (v_lay v))) in
                     let tmp := new_array (im_so (v_lay v)) base (im_len (v_lay v)) in
                     match deep_swap checks tmp v (snd (cvar w y)) (cw_mem w) with
                     | Some m => Some (CWorld m (cw_blocks w) (CBlock (v_lay tmp) base false :: cw_temps w) (cw_vars w))
                     | None => None end
  (* basic_array.hpp:358-364: resize (411-416) takes a new block, and frees the old one, unless the number of elements stays the same; then the elements are
     assigned.  [fresh]: the defaulted assignment of an array of the same type (341-342), which always makes a new block (mem/handle.hpp:340-343) holding a copy. *)
  | PReassign fresh k x e => let e := build w (v_zero A) e in let '(alg, v) := cvar w x in
                             let b := nth k (cw_blocks w) (CBlock (IdxMap [] [] [] [] LP_none) 0 false) in
                             let base := if negb fresh && (size (v_lay v) =? prodZ (expr_shape e)) then cb_base b else alloc w (prodZ (expr_shape e)) in
                             match array_of_ndarray checks true (im_so (v_lay v)) base (expr_shape e) (rhs_of A e) (cw_mem w) with
                             | (a, Some m) => Some (CWorld m (upd (cw_blocks w) k (CBlock (cb_lay b) (cb_base b) false) ++ [CBlock (v_lay a) base true]) (cw_temps w) (upd (cw_vars w) x (alg, a)))
                             | _ => None
                             end
  (* arithmetic.hpp:246-251, linalg/matmul.hpp:51-96: the result, then copies of the factors that are expressions, which are gone at the end *)
  | PMatmul e f => let l := factor w e in let r := factor w f in
                   let so := fst (result_policy l r) in
                   let '(b1, w1) := reserve w true so [nthZ (operand_shape l) 0; nthZ (operand_shape r) 1] in
                   let '(b2, w2) := reserve w1 (copied e) so (operand_shape l) in
                   let '(b3, _) := reserve w2 (copied f) so (operand_shape r) in
                   match matmul A (fun z => z) checks b1 b2 b3 b1 b1 l r (cw_mem w) with
                   | BRet (a, m) => Some (CWorld m (cw_blocks w ++ [CBlock (v_lay a) b1 true]) (temporary (copied e) so b2 (operand_shape l) ++ temporary (copied f) so b3 (operand_shape r) ++ cw_temps w)
                                                (cw_vars w ++ [(AlgM, a)]))
                   | _ => None
                   end
  (* arithmetic.hpp:252-254, linalg/matmul.hpp:107-149: the result, then a copy of the matrix if it is an expression and, in any case, of the vector *)
  | PMatvec e f => let l := factor w e in let v := build w (v_zero A) f in
                   let '(b1, w1) := reserve w true [0%nat] [nthZ (operand_shape l) 0] in
                   let '(b2, w2) := reserve w1 (copied e) [0; 1]%nat (operand_shape l) in
                   let '(b3, _) := reserve w2 true [0%nat] (expr_shape v) in
                   match matvecmul A (fun z => z) checks b1 b2 b3 b1 l (expr_shape v) (fun m idx => expr_at A m v idx) (cw_mem w) with
                   | BRet (a, m) => Some (CWorld m (cw_blocks w ++ [CBlock (v_lay a) b1 true]) (temporary (copied e) [0; 1]%nat b2 (operand_shape l) ++ temporary true [0%nat] b3 (expr_shape v) ++ cw_temps w)
                                                (cw_vars w ++ [(AlgV, a)]))
                   | _ => None
                   end
  end.
(** The statements of a program, one after the other. *)
Fixpoint crun (w : cworld V) (p : list (pstmt V)) : option (cworld V) :=
  match p with [] => Some w | s :: p' => match cstep w s with Some w' => crun w' p' | None => None end end.
End machine.
