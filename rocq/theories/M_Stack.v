(** Model of arrays of fixed shape: c++/nda/declarations.hpp [stack_array] and its relatives, i.e. c++/nda/basic_array.hpp
    with the storage [handle_stack] of c++/nda/mem/handle.hpp (M_Sso).  The array variables of a program all have one type.
    A variable is its buffer, a block of the memory of M_Handle, together with its layout. *)
From Verif Require Import Base M_Perm M_IdxMap M_Loops M_Handle M_Sso M_Array.

(** declarations.hpp:80-83 [static_extents]: only the first extent is compared with 15 (the exception is a compile error). *)
Definition static_extents (ns : list Z) : option Z :=
  match ns with [] => None | i0 :: _ => if 15 <? i0 then None else encode ns end.
(** declarations.hpp:85-99 and idx_map.hpp:83-88: the compile-time extents the layout of [stack_array<T, ns...>] has, and
    the number of elements of the buffer.  None: the type does not compile. *)
Definition stack_type (ns : list Z) : option (list Z * nat) :=
  do code <- static_extents ns; Some (decode (length ns) code, Z.to_nat (fold_left Z.mul ns 1)).

(** A statement ends normally, is stopped by a check of a debug build, or is undefined (or loses objects). *)
Inductive kres (T : Type) := KOk (x : T) | KStop | KBad.
Arguments KOk {T}. Arguments KStop {T}. Arguments KBad {T}.

Record kworld (A : Type) := KWorld { kw_heap : heap A; kw_v : list (option (nat * idx_map)) }.
Arguments KWorld {A}. Arguments kw_heap {A}. Arguments kw_v {A}.

Section Stack.
Context {A : Type}.
Variable (t : traits) (dflt zero : A) (checks : bool).
(** the type: stride order, compile-time extents, layout property, size of the buffer; [junk] is uninitialised memory *)
Variable (so : list nat) (se : list Z) (pr : layout_prop) (cap : nat) (junk : list Z).

Definition k_done {T} (o : option T) : kres T := match o with Some x => KOk x | None => KBad end.
Definition k_put (w : kworld A) (v : nat) (x : option (nat * idx_map)) (h : heap A) : kworld A := KWorld h (upd (kw_v w) v x).
Definition k_var (w : kworld A) (v : nat) : option (nat * idx_map) := match nth_error (kw_v w) v with Some x => x | None => None end.

(** idx_map.hpp:290-297 with the checks of 245-255: the layout for a shape *)
Definition with_layout {T} (shape : list Z) (f : idx_map -> kres T) : kres T :=
  if checks && negb (forallb (fun l => 0 <=? l) shape && static_extents_ok se shape) then KStop
  else f (idx_map_of_shape so se pr junk shape).

(** assignment to an element *)
Definition k_write (b i : nat) (a : A) (h : heap A) : option (heap A) :=
  do c <- read_cell h b i;
  if match c with Some _ => true | None => t_tcopy t end then write_cell h b i (Some a) else None.
(** [sto = storage_t{lay.size()}]: a temporary is created, assigned (handle.hpp:254-257) and destroyed; the size is ignored *)
Definition k_renew (h : heap A) (b : nat) : option (heap A) :=
  do (h1, x) <- k_new t dflt cap h; do h2 <- k_assign t cap h1 b x; k_end t cap h2 x.

(** basic_array.hpp:412-416 [resize]; [handle_stack] is never null and has constant size (handle.hpp:284-285) *)
Definition k_resize (w : kworld A) (v : nat) (shape : list Z) : kres (kworld A) :=
  match k_var w v with
  | None => KBad
  | Some (b, _) => with_layout shape (fun m =>
      if negb (Nat.eqb cap (nelem m)) then k_done (do h <- k_renew (kw_heap w) b; Some (k_put w v (Some (b, m)) h))
      else KOk (k_put w v (Some (b, m)) (kw_heap w)))
  end.

(** statements of a program *)
Inductive kop :=
| KDeclare (v : nat) | KDims (v : nat) (shape : list Z) | KShape (v : nat) (shape : list Z) | KZeros (v : nat) (shape : list Z)
| KFrom (v : nat) (shape : list Z) (f : list Z -> A) | KCopy (v x : nat) | KMove (v x : nat)
| KAssignCopy (v x : nat) | KAssignMove (v x : nat) | KAssignExpr (v : nat) (shape : list Z) (f : list Z -> A)
| KResize (v : nat) (shape : list Z) | KFill (v : nat) (a : A) | KWrite (v : nat) (idx : list Z) (a : A) | KEnd (v : nat).

(** handle.hpp:274-282: copies are made element by element; moving copies (252-257) *)
Definition k_copy (w : kworld A) (v x : nat) : kres (kworld A) :=
  match k_var w x with
  | None => KBad
  | Some (bx, mx) => let '(h, b) := allocate cap (kw_heap w) in k_done (do h1 <- k_assign t cap h b bx; Some (k_put w v (Some (b, mx)) h1))
  end.
Definition k_set (w : kworld A) (v x : nat) : kres (kworld A) :=
  match k_var w v, k_var w x with
  | Some (b, _), Some (bx, mx) => k_done (do h1 <- k_assign t cap (kw_heap w) b bx; Some (k_put w v (Some (b, mx)) h1))
  | _, _ => KBad
  end.
(** _impl_basic_array_view_common.hpp:331-388 (element by element: C16, C17) *)
Definition k_loop (w : kworld A) (v : nat) (f : list Z -> A) : kres (kworld A) :=
  match k_var w v with
  | None => KBad
  | Some (b, m) => k_done (do h <- for_each (im_len m) (fun idx o => do h <- o; k_write b (offset m idx) (f idx) h) (Some (kw_heap w));
                           Some (KWorld h (kw_v w)))
  end.

Definition k_exec (w : kworld A) (o : kop) : kres (kworld A) :=
  match o with
  (* basic_array.hpp:95, idx_map.hpp:187-195, handle.hpp:244: nothing is initialised *)
  | KDeclare v => let '(h, b) := allocate cap (kw_heap w) in KOk (k_put w v (Some (b, idx_map_default so se pr junk)) h)
  (* basic_array.hpp:116-121 *)
  | KDims v shape => with_layout shape (fun m =>
      let '(h, b) := allocate cap (kw_heap w) in k_done (do h1 <- k_renew h b; Some (k_put w v (Some (b, m)) h1)))
  (* basic_array.hpp:143-146, handle.hpp:259-264 *)
  | KShape v shape => with_layout shape (fun m => k_done (do (h, b) <- k_new t dflt cap (kw_heap w); Some (k_put w v (Some (b, m)) h)))
  (* basic_array.hpp:73, 275-281, handle.hpp:269-272 *)
  | KZeros v shape => with_layout shape (fun m =>
      let '(h, b) := allocate cap (kw_heap w) in
      k_done (do h1 <- for_upto cap (fun i h => k_write b i zero h) h; Some (k_put w v (Some (b, m)) h1)))
  (* basic_array.hpp:160-177, handle.hpp:266; for simple types the assignment has the same effect *)
  | KFrom v shape f => with_layout shape (fun m =>
      let '(h, b) := allocate cap (kw_heap w) in
      k_done (do h1 <- for_each shape (fun idx o => do h <- o; construct t b (offset m idx) (f idx) h) (Some h);
              Some (k_put w v (Some (b, m)) h1)))
  (* basic_array.hpp:98, 101 *)
  | KCopy v x | KMove v x => k_copy w v x
  (* basic_array.hpp:339, 342 *)
  | KAssignCopy v x | KAssignMove v x => k_set w v x
  (* basic_array.hpp:358-364 *)
  | KAssignExpr v shape f => match k_resize w v shape with KOk w1 => k_loop w1 v f | r => r end
  | KResize v shape => k_resize w v shape
  (* basic_array.hpp:372-379, _impl_basic_array_view_common.hpp:393-399 *)
  | KFill v a =>
      match k_var w v with
      | None => KBad
      | Some (b, m) => k_done (do h <- for_upto (nelem m) (fun i h => k_write b i a h) (kw_heap w); Some (KWorld h (kw_v w)))
      end
  | KWrite v idx a =>
      match k_var w v with
      | None => KBad
      | Some (b, m) => k_done (do h <- k_write b (offset m idx) a (kw_heap w); Some (KWorld h (kw_v w)))
      end
  (* handle.hpp:246-250 *)
  | KEnd v => match k_var w v with None => KBad | Some (b, _) => k_done (do h <- k_end t cap (kw_heap w) b; Some (k_put w v None h)) end
  end.
Fixpoint k_run (w : kworld A) (p : list kop) : kres (kworld A) :=
  match p with [] => KOk w | o :: p' => match k_exec w o with KOk w1 => k_run w1 p' | r => r end end.
Definition k_start (n : nat) : kworld A := KWorld [] (repeat None n).
End Stack.
