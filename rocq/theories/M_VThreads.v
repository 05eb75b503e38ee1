(** Model of threads that assign to views of common memory at the same time, one access to a cell after the other: the functions of M_Assign
    and M_Expr (c++/nda/_impl_basic_array_view_common.hpp, c++/nda/arithmetic.hpp, c++/nda/map.hpp, c++/nda/algorithms.hpp) are written once
    more as trees of single reads and writes of cells.  Making and slicing views touches no cell, so each thread may have its own views.  The
    operands of an operation are read from left to right (C++ leaves the order open; reads alone do not change anything). *)
From Verif Require Import Base M_Perm M_IdxMap M_Loops M_Assign M_Expr.

(** What a thread does next: nothing more, an exception or a loop that does not end, a read or a write of one cell. *)
Inductive vact (V : Type) :=
| VDone
| VWrong
| VLoad (a : Z) (k : V -> vact V)
| VStore (a : Z) (x : V) (k : vact V).
Arguments VDone {V}. Arguments VWrong {V}. Arguments VLoad {V}. Arguments VStore {V}.

Section VThreads.
Context {V : Type}.
Variable (A : arith V) (checks : bool).

(** arithmetic.hpp:36-39, 101-157, map.hpp:55-64: the value of an expression at [idx] (M_Expr: expr_at); [k] uses the value. *)
Fixpoint t_expr (e : expr V) (idx : list Z) (k : V -> vact V) : vact V :=
  match e with
  | ELeaf _ v => VLoad (elem v idx) k
  | ENeg a => t_expr a idx (fun x => k (v_opp A x))
  | EBin op l r =>
      t_expr l idx (fun x => t_expr r idx (fun y =>
        k (match op with OpPlus => v_add A x y | OpMinus => v_sub A x y | OpTimes => v_mul A x y | OpDiv => v_div A x y end)))
  | EScalL op s r =>
      t_expr r idx (fun y => k (
        match op with
        | OpPlus => if is_M (get_algebra r) then (if on_diagonal idx then v_add A s y else y) else v_add A s y
        | OpMinus => if is_M (get_algebra r) then (if on_diagonal idx then v_sub A s y else v_opp A y) else v_sub A s y
        | OpTimes => v_mul A s y
        | OpDiv => v_div A s y
        end))
  | EScalR op l s =>
      t_expr l idx (fun x => k (
        match op with
        | OpPlus => if is_M (get_algebra l) then (if on_diagonal idx then v_add A x s else x) else v_add A x s
        | OpMinus => if is_M (get_algebra l) then (if on_diagonal idx then v_sub A x s else x) else v_sub A x s
        | OpTimes => v_mul A x s
        | OpDiv => v_div A x s
        end))
  | EMap f a => t_exprs a idx (fun l => k (f l))
  end
with t_exprs (l : exprs V) (idx : list Z) (k : list V -> vact V) : vact V :=
  match l with
  | EOne a => t_expr a idx (fun x => k [x])
  | EMore a rest => t_expr a idx (fun x => t_exprs rest idx (fun r => k (x :: r)))
  end.

(** _impl_basic_array_view_common.hpp:385-387: the element-wise loop; [f idx k] reads the right-hand side at [idx].  The state of the loop is
    what has been done before a given continuation. *)
Definition t_elementwise (dst : view) (f : list Z -> (V -> vact V) -> vact V) : vact V -> vact V :=
  for_each (im_len (v_lay dst)) (fun idx (before : vact V -> vact V) k => before (f idx (fun x => VStore (elem dst idx) x k))) (fun k => k).
(** ... 347-349: the loop over linear indices *)
Definition t_linear (dst src : view) : vact V -> vact V :=
  fold_left (fun (before : vact V -> vact V) i k =>
               before (match lin_elem dst i, lin_elem src i with
                       | Some a, Some b => VLoad b (fun x => VStore a x k)
                       | _, _ => VWrong
                       end)) (zseq (size (v_lay dst))) (fun k => k).
(** ... 393-408 [fill_with_scalar] *)
Fixpoint t_fill_strided (fuel : nat) (p i Lstri stri : Z) (x : V) (k : vact V) : vact V :=
  if i <? Lstri then match fuel with
                     | O => VWrong
                     | S fuel => VStore (p + i) x (t_fill_strided fuel p (i + stri) Lstri stri x k)
                     end
  else k.
Fixpoint t_fill_iter (fuel : nat) (p : Z) (it end_ : grid_it) (x : V) (k : vact V) : vact V :=
  if grid_eqb it end_ then k else
  match fuel with
  | O => VWrong
  | S fuel => VStore (p + grid_deref it) x (t_fill_iter fuel p (grid_incr it) end_ x k)
  end.
Definition t_fill (fuel : nat) (dst : view) (x : V) (k : vact V) : vact V :=
  let lay := v_lay dst in
  if has_strided_1d (im_prop lay) then
    let L := size lay in
    if has_contiguous (im_prop lay) then fold_left (fun (before : vact V -> vact V) i k => before (VStore (v_base dst + i) x k)) (zseq L) (fun k => k) k
    else t_fill_strided fuel (v_base dst) 0 (L * min_stride lay) (min_stride lay) x k
  else t_fill_iter fuel (v_base dst) (make_iterator lay false) (make_iterator lay true) x k.
(** algorithms.hpp:33-40 [fold] over an expression; [k] uses the result *)
Definition t_fold (f : V -> V -> V) (e : expr V) (r0 : V) : (V -> vact V) -> vact V :=
  for_each (expr_shape e) (fun idx (before : (V -> vact V) -> vact V) k => before (fun r => t_expr e idx (fun x => k (f r x)))) (fun k => k r0).

(** *** statements of a thread *)
Inductive vstmt :=
| SExpr (dst : view) (e : expr V)                                               (* dst = e, also dst += e, ... (compound_expr) *)
| SView (dst src : view)                                                        (* dst = src *)
| SFill (fuel : nat) (dst : view) (x : V)                                       (* dst = x, array algebra; at most [fuel] steps *)
| SFold (dst : view) (idx : list Z) (f : V -> V -> V) (e : expr V) (r0 : V).   (* dst(idx) = fold(f, e, r0) *)

(** _impl_basic_array_view_common.hpp:331-388 [assign_from_ndarray] in host memory, 413-431 [assign_from_scalar] in array algebra,
    129-172 (an element) and algorithms.hpp:33-40 *)
Definition shape_ok (dst : view) (shape : list Z) : bool := negb (checks && negb (if list_eq_dec Z.eq_dec (im_len (v_lay dst)) shape then true else false)).
Definition t_stmt (s : vstmt) (k : vact V) : vact V :=
  match s with
  | SExpr dst e => if shape_ok dst (expr_shape e) then t_elementwise dst (t_expr e) k else VWrong
  | SView dst src =>
      let elementwise := t_elementwise dst (fun idx k => VLoad (elem src idx) k) k in
      if negb (shape_ok dst (im_len (v_lay src))) then VWrong else
      if same_stride_order (v_lay dst) (v_lay src) then
        if size (v_lay src) =? 0 then k else
        if has_strided_1d (im_prop (v_lay dst)) && has_strided_1d (im_prop (v_lay src)) then t_linear dst src k else elementwise
      else elementwise
  | SFill fuel dst x => t_fill fuel dst x k
  | SFold dst idx f e r0 => t_fold f e r0 (fun r => VStore (elem dst idx) r k)
  end.
Fixpoint t_stmts (p : list vstmt) : vact V := match p with [] => VDone | s :: p' => t_stmt s (t_stmts p') end.

(** *** threads: the common memory, and what each thread still has to do *)
Definition v_finished (a : vact V) : bool := match a with VDone => true | _ => false end.
(** thread [i] makes one access; None is undefined behaviour (an exception that leaves a thread calls std::terminate) *)
Definition v_step (s : mem V * list (vact V)) (i : nat) : option (mem V * list (vact V)) :=
  let '(m, ts) := s in
  match nth_error ts i with
  | None | Some VDone => Some s
  | Some VWrong => None
  | Some (VLoad a k) => Some (m, upd ts i (k (m a)))
  | Some (VStore a x k) => Some (mset m a x, upd ts i k)
  end.
(** a schedule is a list of numbers of threads *)
Fixpoint v_sched (s : mem V * list (vact V)) (l : list nat) : option (mem V * list (vact V)) :=
  match l with [] => Some s | i :: l' => match v_step s i with Some s1 => v_sched s1 l' | None => None end end.
Definition v_fork (m : mem V) (progs : list (list vstmt)) : mem V * list (vact V) := (m, map t_stmts progs).

(** One program alone: its statements one after the other, with the functions of M_Assign and M_Expr. *)
Definition exec_stmt (s : vstmt) (m : mem V) : option (mem V) :=
  match s with
  | SExpr dst e => assign_expr A checks dst e m
  | SView dst src => assign_from_ndarray checks true dst (im_len (v_lay src)) (RMem src) m
  | SFill fuel dst x => assign_from_scalar fuel false x dst x m
  | SFold dst idx f e r0 => Some (mset m (elem dst idx) (fold f (expr_shape e) (fun i => expr_at A m e i) r0))
  end.
Fixpoint exec_stmts (p : list vstmt) (m : mem V) : option (mem V) :=
  match p with [] => Some m | s :: p' => match exec_stmt s m with Some m1 => exec_stmts p' m1 | None => None end end.
End VThreads.
Arguments vstmt V : clear implicits.
