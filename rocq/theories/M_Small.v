(** Model of arrays with a small buffer: c++/nda/basic_array.hpp with the container policy [sso<cap>] of
    c++/nda/mem/policies.hpp, i.e. the storage [handle_sso] of M_Sso instead of the [handle_heap] of M_Array.  Statements and
    layouts are those of M_Array; the storage of variable [v] is handle variable [v] of M_Sso, one more is used for temporaries. *)
From Verif Require Import Base M_Perm M_IdxMap M_Loops M_Handle M_Sso M_Array.

(** basic_array.hpp:69-70: the members [lay] and [sto]. *)
Record qworld (A : Type) := QWorld { qw_w : sworld A; qw_lay : list idx_map }.
Arguments QWorld {A}. Arguments qw_w {A}. Arguments qw_lay {A}.

Section Small.
Context {A : Type}.
Variable (t : traits) (dflt zero : A) (cap : nat) (so : list nat) (pr : layout_prop) (junk : list Z).

Definition q_lay_of (w : qworld A) (v : nat) : idx_map := nth v (qw_lay w) (layout_default so pr junk).
Definition q_set_lay (w : qworld A) (v : nat) (m : idx_map) : qworld A := QWorld (qw_w w) (upd (qw_lay w) v m).
Definition q_sto (w : qworld A) (ops : list (sop (A := A))) : option (qworld A) :=
  do w1 <- sso_run t dflt zero cap (qw_w w) ops; Some (QWorld w1 (qw_lay w)).

(** basic_array.hpp:160-177: uninitialised storage (handle.hpp:396-407), then placement new of every element in the loops of
    [for_each] (for simple types the assignment has the same effect: C16, C17). *)
Definition q_construct (w : sworld A) (v : nat) (m : idx_map) (f : list Z -> A) : option (sworld A) :=
  for_each (im_len m) (fun idx o =>
    do w <- o; do q <- getv (sw_v w) v; do b <- q_data q; lift w (construct t b (offset m idx) (f idx))) (Some w).
Definition q_from (w : qworld A) (v : nat) (shape : list Z) (f : list Z -> A) : option (qworld A) :=
  let m := layout so pr junk shape in
  do w1 <- sso_init t dflt zero cap (sso_declare cap (qw_w w) v) v (nelem m) Raw;
  do w2 <- q_construct w1 v m f; Some (QWorld w2 (upd (qw_lay w) v m)).

(** _impl_basic_array_view_common.hpp:331-388 [assign_from_ndarray], element by element (C16, C18). *)
Definition q_loop (w : qworld A) (v : nat) (f : list Z -> A) : option (qworld A) :=
  for_each (im_len (q_lay_of w v)) (fun idx o => do w <- o; q_sto w [SWrite v (offset (q_lay_of w v) idx) (f idx)]) (Some w).

(** basic_array.hpp:412-416 [resize]; handle.hpp:310-315 [is_null] and 322 [size]. *)
Definition q_resize (w : qworld A) (v : nat) (shape : list Z) : option (qworld A) :=
  let m := layout so pr junk shape in
  let w1 := q_set_lay w v m in
  let tmp := length (qw_lay w) in
  do q <- getv (sw_v (qw_w w1)) v;
  if match q_data q with None => true | Some _ => false end || negb (Nat.eqb (q_size q) (nelem m))
  then q_sto w1 [SNew tmp (nelem m) Default; SAssignMove v tmp; SEnd tmp]
  else Some w1.

Definition q_exec (w : qworld A) (o : aop (A := A)) : option (qworld A) :=
  match o with
  | AEmpty v => q_sto (q_set_lay w v (layout_default so pr junk)) [SDeclare v]                          (* 95 *)
  | AShape v shape => q_sto (q_set_lay w v (layout so pr junk shape)) [SNew v (nelem (layout so pr junk shape)) Default] (* 116-121, 144-146 *)
  | AZeros v shape => q_sto (q_set_lay w v (layout so pr junk shape)) [SNew v (nelem (layout so pr junk shape)) Zero]    (* 73, 276-281 *)
  | AFrom v shape f => q_from w v shape f
  | ACopy v x => q_sto (q_set_lay w v (q_lay_of w x)) [SCopy v x]                                        (* 101 *)
  | AMove v x => q_sto (q_set_lay w v (q_lay_of w x)) [SMove v x]                                        (* 98 *)
  | AAssignCopy v x => q_sto (q_set_lay w v (q_lay_of w x)) [SAssignCopy v x]                            (* 342 *)
  | AAssignMove v x => q_sto (q_set_lay w v (q_lay_of w x)) [SAssignMove v x]                            (* 339 *)
  | AAssignExpr v shape f => do w1 <- q_resize w v shape; q_loop w1 v f                                  (* 358-364 *)
  | AResize v shape => q_resize w v shape
  | AWrite v idx a => q_sto w [SWrite v (offset (q_lay_of w v) idx) a]
  | AEnd v => q_sto w [SEnd v]
  end.
Fixpoint q_run (w : qworld A) (p : list (aop (A := A))) : option (qworld A) :=
  match p with [] => Some w | o :: p' => do w1 <- q_exec w o; q_run w1 p' end.
Definition q_start (n : nat) : qworld A := QWorld (sso_start (S n)) (repeat (layout_default so pr junk) n).
End Small.
