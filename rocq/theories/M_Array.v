(** Model of c++/nda/basic_array.hpp (class basic_array on the heap): layout and storage of the array variables of a
    program, all of one value type, rank and layout policy (without static extents).  The storage of variable [v] is
    handle variable [v] of the memory of M_Handle; one more handle variable is used for temporaries. *)
From Verif Require Import Base M_Perm M_IdxMap M_Loops M_Handle.

(** basic_array.hpp:69-70: the members [lay] and [sto]. *)
Record aworld (A : Type) := AWorld { aw_w : world A; aw_lay : list idx_map }.
Arguments AWorld {A}. Arguments aw_w {A}. Arguments aw_lay {A}.

Section Arrays.
Context {A : Type}.
Variable (t : traits) (dflt zero : A) (so : list nat) (pr : layout_prop) (junk : list Z).

(** [layout_t{shape}] and [layout_t{}]; [junk] is uninitialised memory *)
Definition layout (shape : list Z) : idx_map := idx_map_of_shape so (repeat 0 (length so)) pr junk shape.
Definition layout_default : idx_map := idx_map_default so (repeat 0 (length so)) pr junk.
Definition nelem (m : idx_map) : nat := Z.to_nat (size m).
Definition lay_of (w : aworld A) (v : nat) : idx_map := nth v (aw_lay w) layout_default.
Definition set_lay (w : aworld A) (v : nat) (m : idx_map) : aworld A := AWorld (aw_w w) (upd (aw_lay w) v m).
Definition on_sto (w : aworld A) (ops : list (op (A := A))) : option (aworld A) :=
  do w1 <- run t dflt zero (aw_w w) ops; Some (AWorld w1 (aw_lay w)).
Definition tmp (w : aworld A) : nat := length (aw_lay w).
Definition offset (m : idx_map) (idx : list Z) : nat := Z.to_nat (call_impl m (map CLong idx)).

(** basic_array.hpp:160-177: from an expression with values [f]: uninitialised storage, then placement new of every
    element in the loops of [for_each] (for simple types the assignment has the same effect: C16, C17). *)
Definition construct_loop (w : world A) (v : nat) (m : idx_map) (f : list Z -> A) : option (world A) :=
  for_each (im_len m) (fun idx o =>
    do w <- o; do h <- getv (w_h w) v; do b <- h_data h;
    do hp <- construct t b (offset m idx) (f idx) (m_heap (w_mem w)); Some (set_heap w hp)) (Some w).
Definition a_from (w : aworld A) (v : nat) (shape : list Z) (f : list Z -> A) : option (aworld A) :=
  let m := layout shape in
  do w1 <- on_sto (set_lay w v m) [New v (nelem m) Raw];
  do w2 <- construct_loop (aw_w w1) v m f; Some (AWorld w2 (aw_lay w1)).

(** _impl_basic_array_view_common.hpp:331-388 [assign_from_ndarray], element by element (385-387; for the block copies of
    344-381 see C18). *)
Definition assign_loop (w : aworld A) (v : nat) (f : list Z -> A) : option (aworld A) :=
  for_each (im_len (lay_of w v)) (fun idx o => do w <- o; on_sto w [WriteH v (offset (lay_of w v) idx) (f idx)]) (Some w).

(** basic_array.hpp:412-416 [resize]. *)
Definition a_resize (w : aworld A) (v : nat) (shape : list Z) : option (aworld A) :=
  let w1 := set_lay w v (layout shape) in
  do h <- getv (w_h (aw_w w1)) v;
  if is_null h || negb (Nat.eqb (h_size h) (nelem (layout shape)))
  then on_sto w1 [New (tmp w1) (nelem (layout shape)) Default; AssignMove v (tmp w1); End (tmp w1)]
  else Some w1.

(** basic_array.hpp:358-364 with a view on the right: a pointer into block [b], at [base], and a layout [m].  The view
    does not own its storage; the pointer is followed when the loop reads. *)
Definition a_assign_view (w : aworld A) (v : nat) (b : nat) (base : Z) (m : idx_map) : option (aworld A) :=
  do w1 <- a_resize w v (im_len m);
  for_each (im_len m) (fun idx o =>
    do w <- o;
    do c <- read_cell (m_heap (w_mem (aw_w w))) b (Z.to_nat (base + call_impl m (map CLong idx)));
    do a <- c; on_sto w [WriteH v (offset (lay_of w v) idx) a]) (Some w1).

(** statements of a program with array variables *)
Inductive aop :=
| AEmpty (v : nat) | AShape (v : nat) (shape : list Z) | AZeros (v : nat) (shape : list Z) | AFrom (v : nat) (shape : list Z) (f : list Z -> A)
| ACopy (v x : nat) | AMove (v x : nat) | AAssignCopy (v x : nat) | AAssignMove (v x : nat)
| AAssignExpr (v : nat) (shape : list Z) (f : list Z -> A) | AResize (v : nat) (shape : list Z)
| AWrite (v : nat) (idx : list Z) (a : A) | AEnd (v : nat).

Definition a_exec (w : aworld A) (o : aop) : option (aworld A) :=
  match o with
  | AEmpty v => on_sto (set_lay w v layout_default) [Declare v]                                     (* 95 *)
  | AShape v shape => on_sto (set_lay w v (layout shape)) [New v (nelem (layout shape)) Default]     (* 116-121, 144-146 *)
  | AZeros v shape => on_sto (set_lay w v (layout shape)) [New v (nelem (layout shape)) Zero]        (* 73, 276-281 *)
  | AFrom v shape f => a_from w v shape f
  | ACopy v x => on_sto (set_lay w v (lay_of w x)) [CopyH v x]                                        (* 101 *)
  | AMove v x => on_sto (set_lay w v (lay_of w x)) [MoveH v x]                                        (* 98 *)
  | AAssignCopy v x => on_sto (set_lay w v (lay_of w x)) [AssignCopy v x]                             (* 342 *)
  | AAssignMove v x => on_sto (set_lay w v (lay_of w x)) [AssignMove v x]                             (* 339 *)
  | AAssignExpr v shape f => do w1 <- a_resize w v shape; assign_loop w1 v f                          (* 358-364 *)
  | AResize v shape => a_resize w v shape
  | AWrite v idx a => on_sto w [WriteH v (offset (lay_of w v) idx) a]
  | AEnd v => on_sto w [End v]
  end.
Fixpoint a_run (w : aworld A) (p : list aop) : option (aworld A) :=
  match p with [] => Some w | o :: p' => do w1 <- a_exec w o; a_run w1 p' end.
Definition a_start (n : nat) : aworld A := AWorld (start (S n) 0) (repeat layout_default n).
End Arrays.
