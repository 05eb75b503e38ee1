(** Functions of the library (c++/nda/mem/allocators.hpp, c++/nda/mem/handle.hpp) that use common state without protection, cut where another thread can come in between *)
From Verif Require Import Base M_Alloc M_Handle.

(** allocators.hpp:113-114: [bucket::allocate] up to the choice of the chunk; None is abort *)
Definition bk_choose (f : Z) : option Z := if f =? 0 then None else Some (ctz f).
(** allocators.hpp:115: the flags are read again and written *)
Definition bk_mark (b : bucket) (pos : Z) : bucket := Bucket (b_p b) (Z.land (b_flags b) (Z.lnot (Z.shiftl 1 pos))).
(** allocators.hpp:116 *)
Definition bk_chunk (chunk : Z) (b : bucket) (pos : Z) : Z := b_p b + pos * chunk.

(** allocators.hpp:265, 272, 278: [memory_used] is read, then written *)
Definition lc_read (used : Z) : Z := used.
Definition lc_write (r n : Z) : Z := r + n.

Section GetSptr.
Context {A : Type}.
Variable t : traits.
(** handle.hpp:102: the test of [sptr] *)
Definition sptr_test (w : world A) (v : nat) : option bool := do hv <- getv (w_h w) v; Some (match h_sptr hv with None => true | Some _ => false end).
(** handle.hpp:102: [sptr.reset(new blk_T_t{_data, _size}, deleter)], which also releases what [sptr] held before *)
Definition sptr_reset (w : world A) (v : nat) : option (world A) :=
  do hv <- getv (w_h w) v;
  do b <- h_data hv;
  let c := length (m_ctrl (w_mem w)) in
  let w1 := World (Mem (m_heap (w_mem w)) (m_ctrl (w_mem w) ++ [Ctrl 1 (b, h_size hv) true])) (w_h w) (w_s w) in
  let w2 := set_h w1 v (Some (HHeap (h_data hv) (h_size hv) (Some c))) in
  do m <- sptr_release t (h_sptr hv) (w_mem w2); Some (set_mem w2 m).
(** handle.hpp:103: the copy that is returned *)
Definition sptr_return (w : world A) (v : nat) : option (world A * nat) :=
  do hv <- getv (w_h w) v; do c <- h_sptr hv; do m <- sptr_copy (Some c) (w_mem w); Some (set_mem w m, c).
End GetSptr.
