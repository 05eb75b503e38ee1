(** Model of threads that share the ownership of arrays: c++/nda/mem/handle.hpp, [handle_shared] (shared views) and the conversion from
    [handle_heap], one access to common memory after the other.  Each thread has shared handles of its own; the arrays (heap handles), the blocks
    and the control blocks are common.  The count of a control block is changed by single atomic operations (std::shared_ptr, external).  An
    element is only alive or destroyed here: what is written to elements is C72 and C85.  None as a result is undefined behaviour. *)
From Verif Require Import Base M_Handle.

(** A block of memory: not yet released, and which of its elements are alive; a control block: use count, and pointer and size of what it manages. *)
Record sblock := SBlock { sb_live : bool; sb_cells : list bool }.
Record sctrl := SCtrl { sc_count : nat; sc_blk : nat * nat }.
(** Common memory; an array that has ended is None. *)
Record common := Common { cm_blocks : list sblock; cm_ctrls : list sctrl; cm_arrays : list (option hheap) }.

(** Statements of a thread; [s], [x] are its shared handles, [a] is an array. *)
Inductive sstmt :=
| TShare (s a : nat) | TCopy (s x : nat) | TCopyAssign (s x : nat) | TMove (s x : nat) | TMoveAssign (s x : nat)
| TUse (s i : nat) | TEnd (s : nat) | TDrop (a : nat).

(** The access to common memory a thread makes next, within a statement. *)
Inductive micro :=
| MLook (s a : nat)     (* is the shared pointer of the array set? *)
| MReset (s a : nat)    (* set it *)
| MJoin (s a : nat)     (* copy it *)
| MCopy (s x : nat)     (* copy the shared pointer of x *)
| MDec (c : nat)        (* one owner less *)
| MKill (b i n : nat)   (* destroy element i of n *)
| MFree (b : nat)       (* release the block *)
| MUse (s i : nat)      (* access an element *)
| MDrop (a : nat).      (* the array ends *)
Record sthread := SThread { st_vars : list (option hshared); st_now : option micro; st_prog : list sstmt }.

Section SThreads.
(** is_trivial_v<T> or is_complex_v<T> *)
Variable trivial : bool.

(** handle.hpp:81-95 [destruct] of a block with [n] elements, called by the deleter (98) and the destructor (109-112) *)
Definition s_destruct (b n : nat) : micro := if trivial then MFree b else if Nat.eqb n 0 then MFree b else MKill b 0 n.
(** the destructor of a shared pointer (external): nothing for a null pointer *)
Definition s_release (p : option nat) : option micro := match p with Some c => Some (MDec c) | None => None end.
(** one owner more; a control block without owners no longer exists *)
Definition s_inc (k : list sctrl) (c : nat) : option (list sctrl) :=
  match nth_error k c with Some (SCtrl (S n) b) => Some (upd k c (SCtrl (S (S n)) b)) | _ => None end.
Definition with_ctrls (w : common) (k : list sctrl) : common := Common (cm_blocks w) k (cm_arrays w).
Definition with_array (w : common) (a : nat) (h : option hheap) : common := Common (cm_blocks w) (cm_ctrls w) (upd (cm_arrays w) a h).
Definition with_block (w : common) (b : nat) (x : sblock) : common := Common (upd (cm_blocks w) b x) (cm_ctrls w) (cm_arrays w).

(** A statement begins: the handles of the thread, which no other thread sees, are checked and (for moves) changed.
    handle.hpp:490-493 constructor from a heap handle, with get_sptr (101-104); the copy and move operations of [handle_shared] and its
    destructor are implicit (M_Handle: s_copy, s_copy_assign, s_move, s_move_assign); 496-497 operator[]; 109-112 destructor of [handle_heap]. *)
Definition s_begin (vars : list (option hshared)) (st : sstmt) : option (list (option hshared) * option micro) :=
  match st with
  | TShare s a => match nth_error vars s with Some None => Some (vars, Some (MLook s a)) | _ => None end
  | TCopy s x =>
      match nth_error vars s, nth_error vars x with Some None, Some (Some _) => Some (vars, Some (MCopy s x)) | _, _ => None end
  | TCopyAssign s x =>
      match nth_error vars s, nth_error vars x with Some (Some _), Some (Some _) => Some (vars, Some (MCopy s x)) | _, _ => None end
  | TMove s x =>
      match nth_error vars s, nth_error vars x with
      | Some None, Some (Some h) => Some (upd (upd vars s (Some h)) x (Some (HShared (s_data h) (s_size h) None)), None)
      | _, _ => None
      end
  | TMoveAssign s x =>
      match nth_error vars s, nth_error vars x with
      | Some (Some old), Some (Some h) =>
          if Nat.eqb s x then Some (vars, None)
          else Some (upd (upd vars s (Some h)) x (Some (HShared (s_data h) (s_size h) None)), s_release (s_sptr old))
      | _, _ => None
      end
  | TUse s i => match nth_error vars s with Some (Some _) => Some (vars, Some (MUse s i)) | _ => None end
  | TEnd s => match nth_error vars s with Some (Some h) => Some (upd vars s None, s_release (s_sptr h)) | _ => None end
  | TDrop a => Some (vars, Some (MDrop a))
  end.

(** One access to common memory; the results are the common memory, the handles of the thread and its next access. *)
Definition s_access (w : common) (vars : list (option hshared)) (m : micro) : option (common * list (option hshared) * option micro) :=
  match m with
  | MLook s a =>
      match nth_error (cm_arrays w) a with
      | Some (Some h) =>
          (* handle.hpp:493 [if (not x.is_null())] and 102 [if (not sptr)] *)
          match h_data h, h_sptr h with
          | None, _ => Some (w, upd vars s (Some (HShared None (h_size h) None)), None)
          | Some _, None => Some (w, vars, Some (MReset s a))
          | Some _, Some _ => Some (w, vars, Some (MJoin s a))
          end
      | _ => None
      end
  | MReset s a =>
      (* handle.hpp:102 [sptr.reset(new blk_T_t{_data, _size}, deleter)]: a new control block with one owner; a pointer that has been set in the
         meantime by another thread is released (that it is then the last owner is left out) *)
      match nth_error (cm_arrays w) a with
      | Some (Some (HHeap (Some b) n old)) =>
          let k := cm_ctrls w in
          let k' := match old with
                    | None => Some k
                    | Some c => match nth_error k c with Some (SCtrl (S (S j)) bl) => Some (upd k c (SCtrl (S j) bl)) | _ => None end
                    end in
          match k' with
          | Some k1 => Some (with_array (with_ctrls w (k1 ++ [SCtrl 1 (b, n)])) a (Some (HHeap (Some b) n (Some (length k1)))), vars, Some (MJoin s a))
          | None => None
          end
      | _ => None
      end
  | MJoin s a =>
      (* handle.hpp:103 [return sptr;], and 492: pointer and size are those of the heap handle *)
      match nth_error (cm_arrays w) a with
      | Some (Some (HHeap d n (Some c))) =>
          match s_inc (cm_ctrls w) c with
          | Some k => Some (with_ctrls w k, upd vars s (Some (HShared d n (Some c))), None)
          | None => None
          end
      | _ => None
      end
  | MCopy s x =>
      (* the new owner is taken before the old one is released (libstdc++) *)
      match nth_error vars s, nth_error vars x with
      | Some old, Some (Some h) =>
          let next := match old with Some o => s_release (s_sptr o) | None => None end in
          match s_sptr h with
          | None => Some (w, upd vars s (Some h), next)
          | Some c => match s_inc (cm_ctrls w) c with
                      | Some k => Some (with_ctrls w k, upd vars s (Some h), next)
                      | None => None
                      end
          end
      | _, _ => None
      end
  | MDec c =>
      match nth_error (cm_ctrls w) c with
      | Some (SCtrl (S k) (b, n)) =>
          Some (with_ctrls w (upd (cm_ctrls w) c (SCtrl k (b, n))), vars, if Nat.eqb k 0 then Some (s_destruct b n) else None)
      | _ => None
      end
  | MKill b i n =>
      (* handle.hpp:90 [data[i].~T()] *)
      match nth_error (cm_blocks w) b with
      | Some (SBlock true cs) =>
          match nth_error cs i with
          | Some true => Some (with_block w b (SBlock true (upd cs i false)), vars, Some (if Nat.ltb (S i) n then MKill b (S i) n else MFree b))
          | _ => None
          end
      | _ => None
      end
  | MFree b =>
      (* handle.hpp:94 *)
      match nth_error (cm_blocks w) b with
      | Some (SBlock true cs) => Some (with_block w b (SBlock false cs), vars, None)
      | _ => None
      end
  | MUse s i =>
      match nth_error vars s with
      | Some (Some (HShared (Some b) _ _)) =>
          match nth_error (cm_blocks w) b with
          | Some (SBlock true cs) => match nth_error cs i with Some true => Some (w, vars, None) | _ => None end
          | _ => None
          end
      | _ => None
      end
  | MDrop a =>
      (* handle.hpp:109-112: the block, if it is not in the shared pointer; then the destructor of the member [sptr] *)
      match nth_error (cm_arrays w) a with
      | Some (Some h) =>
          Some (with_array w a None, vars,
                match h_sptr h, h_data h with
                | Some c, _ => Some (MDec c)
                | None, Some b => Some (s_destruct b (h_size h))
                | None, None => None
                end)
      | _ => None
      end
  end.

(** One turn of a thread. *)
Definition s_turn (w : common) (t : sthread) : option (common * sthread) :=
  match st_now t with
  | Some m => match s_access w (st_vars t) m with Some (w1, v1, m1) => Some (w1, SThread v1 m1 (st_prog t)) | None => None end
  | None =>
      match st_prog t with
      | [] => Some (w, t)
      | st :: p => match s_begin (st_vars t) st with Some (v1, m1) => Some (w, SThread v1 m1 p) | None => None end
      end
  end.
(** A schedule is a list of numbers of threads. *)
Definition s_step (s : common * list sthread) (i : nat) : option (common * list sthread) :=
  match nth_error (snd s) i with
  | None => Some s
  | Some t => match s_turn (fst s) t with Some (w, t1) => Some (w, upd (snd s) i t1) | None => None end
  end.
Fixpoint s_sched (s : common * list sthread) (l : list nat) : option (common * list sthread) :=
  match l with [] => Some s | i :: l' => match s_step s i with Some s1 => s_sched s1 l' | None => None end end.
Definition s_finished (t : sthread) : bool := match st_now t, st_prog t with None, [] => true | _, _ => false end.
End SThreads.
