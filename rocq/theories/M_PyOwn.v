(** Model of who keeps memory alive when arrays are passed between C++ and Python: python/nda_py/make_py_capsule.hpp,
    python/nda_py/nda_py.hpp and the handles of c++/nda/mem/handle.hpp, as a machine with the reference counts of
    std::shared_ptr and of Python.  A pointer is the block of memory it points into (where in the block is the matter of
    C64); a freed block is None and is never reused.  Elements are constructed without exceptions; one thread.  None as a
    result is undefined behaviour: use or release of freed memory, or a reference count that goes below zero. *)
From Verif Require Import Base.

(** what an object keeps alive: a block of memory, another object, or nothing *)
Inductive target := TBlk (b : nat) | TObj (o : nat) | TNone.
(** handle.hpp:66-76 and 471-477: pointer and shared pointer of [handle_heap] and [handle_shared]; the latter is a reference to a
    control block.  A null pointer is None; sizes are those of the blocks. *)
Record hnd := Hnd { h_data : option nat; h_sptr : option nat }.
(** Objects with a reference count: a control block of std::shared_ptr, with what its deleter releases (a block, handle.hpp:98-104, or
    the foreign object given to the constructor at handle.hpp:485-487); a PyCapsule with its [handle_shared]
    (make_py_capsule.hpp:73-77); a NumPy array with its data pointer and what it owns: its base object or its own memory. *)
Inductive obj := OCtrl (n : nat) (managed : target) | OCapsule (n : nat) (h : hnd) | OArray (n : nat) (data : option nat) (base : target).
Definition count (x : obj) : nat := match x with OCtrl n _ | OCapsule n _ | OArray n _ _ => n end.
Definition set_count (x : obj) (n : nat) : obj := match x with OCtrl _ t => OCtrl n t | OCapsule _ h => OCapsule n h | OArray _ d b => OArray n d b end.
(** what is released when the count of the object falls to zero: the deleter of the shared pointer, delete_pycapsule
    (make_py_capsule.hpp:62-68: delete of the handle, which releases its shared pointer), or NumPy's release of its base or memory *)
Definition sptr_target (s : option nat) : target := match s with Some c => TObj c | None => TNone end.
Definition next (x : obj) : target := match x with OCtrl _ t => t | OCapsule _ h => sptr_target (h_sptr h) | OArray _ _ b => b end.

Record pymem (A : Type) := PyMem { m_blk : list (option (list A)); m_obj : list obj }.
Arguments PyMem {A}. Arguments m_blk {A}. Arguments m_obj {A}.
(** handle.hpp:518-538 [handle_borrowed]: the pointer and the address of the parent (a variable) *)
Record bview := BView { v_data : option nat; v_parent : option nat }.
(** variables: heap handles of arrays, shared handles, views, and the names of Python *)
Record world (A : Type) := World { w_mem : pymem A; w_h : list (option hnd); w_s : list (option hnd); w_v : list (option bview); w_p : list (option nat) }.
Arguments World {A}. Arguments w_mem {A}. Arguments w_h {A}. Arguments w_s {A}. Arguments w_v {A}. Arguments w_p {A}.

Notation "'do' x <- a ; b" := (match a with Some x => b | None => None end) (at level 200, x pattern, a at level 100, b at level 200).

Section Machine.
Context {A : Type}.
Notation pymem := (pymem A). Notation world := (world A).

(** delete of a block *)
Definition free (b : nat) (m : pymem) : option pymem :=
  match nth_error (m_blk m) b with Some (Some _) => Some (PyMem (upd (m_blk m) b None) (m_obj m)) | _ => None end.
(** one reference to [t] is given up: std::shared_ptr's destructor or Py_DECREF (make_py_capsule.hpp:36 [py_decref]) *)
Fixpoint release (fuel : nat) (t : target) (m : pymem) : option pymem :=
  match t with
  | TNone => Some m
  | TBlk b => free b m
  | TObj o =>
      match fuel with
      | O => None
      | S k =>
          do x <- nth_error (m_obj m) o;
          match count x with
          | O => None
          | S O => release k (next x) (PyMem (m_blk m) (upd (m_obj m) o (set_count x 0)))
          | S n => Some (PyMem (m_blk m) (upd (m_obj m) o (set_count x n)))
          end
      end
  end.
Definition drop (t : target) (m : pymem) : option pymem := release (S (length (m_obj m))) t m.
(** one more reference: copy of a std::shared_ptr, or Py_INCREF *)
Definition retain (o : nat) (m : pymem) : option pymem :=
  do x <- nth_error (m_obj m) o;
  match count x with O => None | S n => Some (PyMem (m_blk m) (upd (m_obj m) o (set_count x (S (S n))))) end.
Definition add_obj (x : obj) (m : pymem) : pymem * nat := (PyMem (m_blk m) (m_obj m ++ [x]), length (m_obj m)).
(** new memory with the given elements; none for no elements *)
Definition new_block (l : list A) (m : pymem) : pymem * option nat :=
  match l with [] => (m, None) | _ => (PyMem (m_blk m ++ [Some l]) (m_obj m), Some (length (m_blk m))) end.
Definition read_block (d : option nat) (m : pymem) : option (list A) :=
  match d with None => Some [] | Some b => match nth_error (m_blk m) b with Some (Some l) => Some l | _ => None end end.
Definition write_block (d : option nat) (i : nat) (a : A) (m : pymem) : option pymem :=
  do b <- d;
  match nth_error (m_blk m) b with
  | Some (Some l) => if Nat.ltb i (length l) then Some (PyMem (upd (m_blk m) b (Some (upd l i a))) (m_obj m)) else None
  | _ => None
  end.

Definition getv {T} (l : list (option T)) (v : nat) : option T := match nth_error l v with Some (Some x) => Some x | _ => None end.
Definition set_mem (w : world) (m : pymem) : world := World m (w_h w) (w_s w) (w_v w) (w_p w).
Definition set_h (w : world) (v : nat) (x : option hnd) : world := World (w_mem w) (upd (w_h w) v x) (w_s w) (w_v w) (w_p w).
Definition set_s (w : world) (v : nat) (x : option hnd) : world := World (w_mem w) (w_h w) (upd (w_s w) v x) (w_v w) (w_p w).
Definition set_v (w : world) (v : nat) (x : option bview) : world := World (w_mem w) (w_h w) (w_s w) (upd (w_v w) v x) (w_p w).
Definition set_p (w : world) (v : nat) (x : option nat) : world := World (w_mem w) (w_h w) (w_s w) (w_v w) (upd (w_p w) v x).

(** handle.hpp:109-112: ~handle_heap: the memory is deleted if no shared pointer was made; then that member is destroyed *)
Definition destroy_h (x : hnd) (m : pymem) : option pymem :=
  match h_sptr x with
  | Some c => drop (TObj c) m
  | None => match h_data x with Some b => free b m | None => Some m end
  end.
(** handle.hpp:101-104 [get_sptr] and 490-494: a shared handle of the heap handle in variable [v]: a control block is made
    at the first call *)
Definition share (v : nat) (w : world) : option (world * hnd) :=
  do hv <- getv (w_h w) v;
  match h_data hv with
  | None => Some (w, Hnd None None)
  | Some b =>
      match h_sptr hv with
      | Some c => do m <- retain c (w_mem w); Some (set_mem w m, Hnd (Some b) (Some c))
      | None => let '(m, c) := add_obj (OCtrl 2 (TBlk b)) (w_mem w) in Some (set_h (set_mem w m) v (Some (Hnd (Some b) (Some c))), Hnd (Some b) (Some c))
      end
  end.
(** make_py_capsule.hpp:73-77, and nda_py.hpp:28-43 with the array made of the proxy (cpp2py, external): a capsule with a shared handle
    of variable [v], a NumPy array of pointer [d] whose base is that capsule; the only reference to the array is the name [p] *)
Definition to_numpy (p v : nat) (d : option nat) (w : world) : option world :=
  do (w1, h) <- share v w;
  let '(m1, k) := add_obj (OCapsule 1 h) (w_mem w1) in
  let '(m2, a) := add_obj (OArray 1 d (TObj k)) m1 in
  Some (set_p (set_mem w1 m2) p (Some a)).
Definition array_data (o : nat) (m : pymem) : option (option nat) := match nth_error (m_obj m) o with Some (OArray (S _) d _) => Some d | _ => None end.

(** handle.hpp:124-132: move assignment of heap handles; on the same object the pointer is lost and the shared pointer kept *)
Definition move_assign (v x : nat) (w : world) : option world :=
  do hv <- getv (w_h w) v;
  do m <- (match h_sptr hv, h_data hv with None, Some b => free b (w_mem w) | _, _ => Some (w_mem w) end);
  let w1 := set_mem w m in
  if Nat.eqb v x then Some (set_h w1 v (Some (Hnd None (h_sptr hv)))) else
  do hx <- getv (w_h w1) x;
  let w2 := set_h (set_h w1 v (Some hx)) x (Some (Hnd None None)) in
  do m2 <- drop (sptr_target (h_sptr hv)) (w_mem w2);
  Some (set_mem w2 m2).

(** statements of C++ and of Python *)
Inductive op :=
| New (v : nat) (l : list A) | CopyH (v x : nat) | MoveH (v x : nat) | AssignMove (v x : nat) | WriteH (v i : nat) (a : A) | End (v : nat)
| Share (s v : nat) | CopySS (s x : nat) | WriteS (s i : nat) (a : A) | EndS (s : nat)
| MakeView (u v : nat) | SubView (u x : nat) | WriteV (u i : nat) (a : A) | EndView (u : nat)
| ToPy (p v : nat) | ViewToPy (p u : nat) | ViewOfPy (u p : nat) | FromPy (v p : nat) | Foreign (s p : nat)
| PyNew (p : nat) (l : list A) | PyAlias (p q : nat) | PySlice (p q : nat) | PyWrite (p i : nat) (a : A) | PyDel (p : nat).

(** [new_array]: a heap handle of new memory (handle.hpp:146-203, as in C29) *)
Definition new_array (v : nat) (l : list A) (w : world) : option world :=
  let '(m, d) := new_block l (w_mem w) in Some (set_h (set_mem w m) v (Some (Hnd d None))).
Definition write_through (d : option nat) (i : nat) (a : A) (w : world) : option world := do m <- write_block d i a (w_mem w); Some (set_mem w m).

Definition exec (w : world) (o : op) : option world :=
  match o with
  | New v l => new_array v l w
  | CopyH v x => do hx <- getv (w_h w) x; do l <- read_block (h_data hx) (w_mem w); new_array v l w
  (** handle.hpp:116-122 *)
  | MoveH v x => do hx <- getv (w_h w) x; Some (set_h (set_h w v (Some hx)) x (Some (Hnd None None)))
  | AssignMove v x => move_assign v x w
  | WriteH v i a => do hv <- getv (w_h w) v; write_through (h_data hv) i a w
  | End v => do hv <- getv (w_h w) v; do m <- destroy_h hv (w_mem w); Some (set_h (set_mem w m) v None)
  | Share s v => do (w1, h) <- share v w; Some (set_s w1 s (Some h))
  | CopySS s x => do hx <- getv (w_s w) x;
                  do m <- (match h_sptr hx with Some c => retain c (w_mem w) | None => Some (w_mem w) end); Some (set_s (set_mem w m) s (Some hx))
  | WriteS s i a => do hs <- getv (w_s w) s; write_through (h_data hs) i a w
  | EndS s => do hs <- getv (w_s w) s; do m <- drop (sptr_target (h_sptr hs)) (w_mem w); Some (set_s (set_mem w m) s None)
  (** handle.hpp:533-538: a view of an array remembers it; a view of a view does not *)
  | MakeView u v => do hv <- getv (w_h w) v; Some (set_v w u (Some (BView (h_data hv) (Some v))))
  | SubView u x => do vx <- getv (w_v w) x; Some (set_v w u (Some (BView (v_data vx) None)))
  | WriteV u i a => do vu <- getv (w_v w) u; write_through (v_data vu) i a w
  | EndView u => do vu <- getv (w_v w) u; Some (set_v w u None)
  (** cpp2py_converters.hpp:31-34, 107-113 [c2py] of an array or an expiring one *)
  | ToPy p v => do hv <- getv (w_h w) v; to_numpy p v (h_data hv) w
  (** ... of a view: make_py_capsule.hpp:79-85; without parent an exception is thrown *)
  | ViewToPy p u => do vu <- getv (w_v w) u; match v_parent vu with None => Some w | Some v => to_numpy p v (v_data vu) w end
  (** cpp2py_converters.hpp:75-87: a view of a NumPy array is its pointer *)
  | ViewOfPy u p => do o <- getv (w_p w) p; do d <- array_data o (w_mem w); Some (set_v w u (Some (BView d None)))
  (** cpp2py_converters.hpp:161-178: an array is a copy *)
  | FromPy v p => do o <- getv (w_p w) p; do d <- array_data o (w_mem w); do l <- read_block d (w_mem w); new_array v l w
  (** make_py_capsule.hpp:41-58 [make_handle] with handle.hpp:485-487 *)
  | Foreign s p => do o <- getv (w_p w) p; do d <- array_data o (w_mem w); do m <- retain o (w_mem w);
                   let '(m2, c) := add_obj (OCtrl 1 (TObj o)) m in Some (set_s (set_mem w m2) s (Some (Hnd d (Some c))))
  (** Python: numpy.array(l), p = q, p = q[...], del p *)
  | PyNew p l => let '(m, d) := new_block l (w_mem w) in
                 let '(m2, o) := add_obj (OArray 1 d (match d with Some b => TBlk b | None => TNone end)) m in Some (set_p (set_mem w m2) p (Some o))
  | PyAlias p q => do o <- getv (w_p w) q; do m <- retain o (w_mem w); Some (set_p (set_mem w m) p (Some o))
  | PySlice p q => do o <- getv (w_p w) q; do d <- array_data o (w_mem w); do m <- retain o (w_mem w);
                   let '(m2, k) := add_obj (OArray 1 d (TObj o)) m in Some (set_p (set_mem w m2) p (Some k))
  | PyWrite p i a => do o <- getv (w_p w) p; do d <- array_data o (w_mem w); write_through d i a w
  | PyDel p => do o <- getv (w_p w) p; do m <- drop (TObj o) (w_mem w); Some (set_p (set_mem w m) p None)
  end.
Fixpoint run (w : world) (p : list op) : option world := match p with [] => Some w | o :: p => do w1 <- exec w o; run w1 p end.
Definition start (nh ns nv np : nat) : world := World (PyMem [] []) (repeat None nh) (repeat None ns) (repeat None nv) (repeat None np).
End Machine.
