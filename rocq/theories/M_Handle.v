(** Model of c++/nda/mem/handle.hpp: [handle_heap] and [handle_shared], as a machine on an explicit memory with object
    lifetimes.  An allocation gives a block that was never used before (addresses of freed blocks are not reused in
    the model; that distinct live blocks do not overlap is the allocator's contract, C32).  Allocation never fails (the
    ASSERT on the pointer), element constructors do not throw.  None as a result is undefined behaviour or a lost
    object: access to or release of a dead block, release with another size than allocated, destruction of a cell
    without object, construction over a living object, release of a block that still contains objects. *)
From Verif Require Import Base.

(** The properties of the value type the code branches on: is_trivial, nda::is_complex, is_trivially_copyable. *)
Record traits := Traits { t_trivial : bool; t_complex : bool; t_tcopy : bool }.

(** A cell is raw memory (None) or holds an object.  For a trivially copyable type raw means indeterminate bytes. *)
Record block (A : Type) := Block { b_live : bool; b_cells : list (option A) }.
Arguments Block {A}. Arguments b_live {A}. Arguments b_cells {A}.
Notation heap A := (list (block A)).

(** A control block of std::shared_ptr (external): use count, the object it manages (a pair of pointer and size), and
    whether this pair, created by [new] at handle.hpp:102, still exists. *)
Record ctrl := Ctrl { c_count : nat; c_blk : nat * nat; c_pair : bool }.
Record mem (A : Type) := Mem { m_heap : heap A; m_ctrl : list ctrl }.
Arguments Mem {A}. Arguments m_heap {A}. Arguments m_ctrl {A}.

(** handle.hpp:66-67, 76: the members of [handle_heap]: data (None is nullptr), size, shared pointer. *)
Record hheap := HHeap { h_data : option nat; h_size : nat; h_sptr : option nat }.
(** handle.hpp:472-476: the members of [handle_shared]. *)
Record hshared := HShared { s_data : option nat; s_size : nat; s_sptr : option nat }.

(** The program: memory and the variables of the two types; None is a variable not (or no longer) in scope.
    Temporaries are variables pushed at the end of [w_h]. *)
Record world (A : Type) := World { w_mem : mem A; w_h : list (option hheap); w_s : list (option hshared) }.
Arguments World {A}. Arguments w_mem {A}. Arguments w_h {A}. Arguments w_s {A}.

Notation "'do' x <- a ; b" := (match a with Some x => b | None => None end)
  (at level 200, x pattern, a at level 100, b at level 200).

Section Machine.
Context {A : Type}.
Variable (t : traits) (dflt zero : A).

(** *** Cells and blocks *)
(** [for (size_t i = 0; i < n; ++i)] with a body that can fail *)
Fixpoint for_upto {T} (n : nat) (f : nat -> T -> option T) (s : T) : option T :=
  match n with O => Some s | S n' => do s' <- for_upto n' f s; f n' s' end.

Definition get_block (h : heap A) (b : nat) : option (list (option A)) :=
  match nth_error h b with Some blk => if b_live blk then Some (b_cells blk) else None | None => None end.
Definition read_cell (h : heap A) (b i : nat) : option (option A) :=
  do cs <- get_block h b; nth_error cs i.
Definition write_cell (h : heap A) (b i : nat) (c : option A) : option (heap A) :=
  do cs <- get_block h b;
  if Nat.ltb i (length cs) then Some (upd h b (Block true (upd cs i c))) else None.

(** placement new; for types that are not trivially copyable there must be no object in the cell *)
Definition construct (b i : nat) (v : A) (h : heap A) : option (heap A) :=
  do c <- read_cell h b i;
  match c with
  | Some _ => if t_tcopy t then write_cell h b i (Some v) else None
  | None => write_cell h b i (Some v)
  end.
(** a destructor call *)
Definition destroy (b i : nat) (h : heap A) : option (heap A) :=
  do c <- read_cell h b i;
  match c with
  | Some _ => write_cell h b i None
  | None => if t_tcopy t then Some h else None
  end.
(** mallocator::allocate, allocate_zero (mem/allocators.hpp:67-78): raw or zero bytes; the size in elements *)
Definition allocate (n : nat) (h : heap A) : heap A * nat := (h ++ [Block true (repeat None n)], length h).
Definition allocate_zero (n : nat) (h : heap A) : heap A * nat := (h ++ [Block true (repeat (Some zero) n)], length h).
(** mallocator::deallocate (mem/allocators.hpp:80-82), with the size check of the allocator protocol *)
Definition deallocate (b n : nat) (h : heap A) : option (heap A) :=
  do cs <- get_block h b;
  if Nat.eqb (length cs) n && (t_tcopy t || forallb (fun c => match c with None => true | Some _ => false end) cs)
  then Some (upd h b (Block false [])) else None.
(** memcpy of [n] elements between two blocks *)
Definition memcpy (dst src n : nat) (h : heap A) : option (heap A) :=
  for_upto n (fun i h => do c <- read_cell h src i; write_cell h dst i c) h.

(** *** handle_heap *)
Definition h_null : hheap := HHeap None 0 None.
(** handle.hpp:208-214 [is_null]. *)
Definition is_null (h : hheap) : bool := match h_data h with None => true | Some _ => false end.

(** handle.hpp:81-95 [destruct]. *)
Definition destruct_blk (p : option nat * nat) (h : heap A) : option (heap A) :=
  match fst p with
  | None => Some h
  | Some b =>
      do h1 <- (if negb (t_trivial t || t_complex t) then for_upto (snd p) (fun i h => destroy b i h) h else Some h);
      deallocate b (snd p) h1
  end.

(** std::shared_ptr: release of one owner; the last one runs [deleter] (handle.hpp:98), which does not delete the pair *)
Definition sptr_release (s : option nat) (m : mem A) : option (mem A) :=
  match s with
  | None => Some m
  | Some c =>
      do k <- nth_error (m_ctrl m) c;
      match c_count k with
      | O => None
      | S O => do h <- destruct_blk (Some (fst (c_blk k)), snd (c_blk k)) (m_heap m);
               Some (Mem h (upd (m_ctrl m) c (Ctrl 0 (c_blk k) (c_pair k))))
      | S n => Some (Mem (m_heap m) (upd (m_ctrl m) c (Ctrl n (c_blk k) (c_pair k))))
      end
  end.
(** std::shared_ptr: copy *)
Definition sptr_copy (s : option nat) (m : mem A) : option (mem A) :=
  match s with
  | None => Some m
  | Some c => do k <- nth_error (m_ctrl m) c;
              match c_count k with
              | O => None
              | S n => Some (Mem (m_heap m) (upd (m_ctrl m) c (Ctrl (S (S n)) (c_blk k) (c_pair k))))
              end
  end.

(** handle.hpp:146-152, 155-161, 164-181: the constructors from a size.  [Raw] leaves the memory uninitialised. *)
Inductive init := Raw | Zero | Default.
Definition h_new (n : nat) (i : init) (h : heap A) : option (heap A * hheap) :=
  if Nat.eqb n 0 then Some (h, h_null) else
  match i with
  | Raw => let '(h1, b) := allocate n h in Some (h1, HHeap (Some b) n None)
  | Zero => let '(h1, b) := allocate_zero n h in Some (h1, HHeap (Some b) n None)
  | Default =>
      let '(h1, b) := if t_complex t then allocate_zero n h else allocate n h in
      do h2 <- (if negb (t_trivial t) && negb (t_complex t) then for_upto n (fun i h => construct b i dflt h) h1 else Some h1);
      Some (h2, HHeap (Some b) n None)
  end.
(** construction of all elements after [Raw], as basic_array.hpp:156-174 and 200-239 do *)
Definition h_from (l : list A) (h : heap A) : option (heap A * hheap) :=
  do (h1, x) <- h_new (length l) Raw h;
  match h_data x with
  | None => Some (h1, x)
  | Some b => do h2 <- for_upto (length l) (fun i h => do v <- nth_error l i; construct b i v h) h1; Some (h2, x)
  end.
(** handle.hpp:183-190: copy constructor, and 193-203: from another owning handle, of data [d] and size [n]. *)
Definition h_copy (d : option nat) (n : nat) (h : heap A) : option (heap A * hheap) :=
  do (h1, x) <- h_new n Raw h;
  match h_data x, d with
  | None, _ => Some (h1, x)
  | Some b, Some src =>
      do h2 <- (if t_tcopy t then memcpy b src n h1
                else for_upto n (fun i h => do c <- read_cell h src i; do v <- c; construct b i v h) h1);
      Some (h2, x)
  | Some _, None => None
  end.
(** handle.hpp:109-112: destructor, followed by the destructor of the member [sptr]. *)
Definition h_destroy (x : hheap) (m : mem A) : option (mem A) :=
  do h <- (if match h_sptr x with None => true | Some _ => false end && negb (is_null x)
           then destruct_blk (h_data x, h_size x) (m_heap m) else Some (m_heap m));
  sptr_release (h_sptr x) (Mem h (m_ctrl m)).

(** *** variables *)
Definition getv {T} (l : list (option T)) (v : nat) : option T := match nth_error l v with Some (Some x) => Some x | _ => None end.
Definition set_mem (w : world A) (m : mem A) : world A := World m (w_h w) (w_s w).
Definition set_heap (w : world A) (h : heap A) : world A := World (Mem h (m_ctrl (w_mem w))) (w_h w) (w_s w).
Definition set_h (w : world A) (v : nat) (x : option hheap) : world A := World (w_mem w) (upd (w_h w) v x) (w_s w).
Definition set_s (w : world A) (v : nat) (x : option hshared) : world A := World (w_mem w) (w_h w) (upd (w_s w) v x).

(** handle.hpp:116-122: move constructor of variable [v] from variable [x]. *)
Definition move_ctor (w : world A) (v x : nat) : option (world A) :=
  do hx <- getv (w_h w) x;
  Some (set_h (set_h w v (Some hx)) x (Some h_null)).

(** handle.hpp:124-132: move assignment, [v] and [x] possibly the same variable; the fields of [x] are read when the
    statement is executed.  [sptr = std::move(x.sptr)] on the same object keeps it (libstdc++). *)
Definition move_assign (w : world A) (v x : nat) : option (world A) :=
  do hv <- getv (w_h w) v;
  do h <- (if match h_sptr hv with None => true | Some _ => false end && negb (is_null hv)
           then destruct_blk (h_data hv, h_size hv) (m_heap (w_mem w)) else Some (m_heap (w_mem w)));
  let w1 := set_heap w h in
  do hx <- getv (w_h w1) x;
  let w2 := set_h w1 v (Some (HHeap (h_data hx) (h_size hx) (h_sptr hv))) in
  do hx2 <- getv (w_h w2) x;
  do w3 <- (if Nat.eqb v x then Some w2 else
            let w2' := set_h w2 v (Some (HHeap (h_data hx2) (h_size hx2) (h_sptr hx2))) in
            let w2'' := set_h w2' x (Some (HHeap (h_data hx2) (h_size hx2) None)) in
            do m <- sptr_release (h_sptr hv) (w_mem w2''); Some (set_mem w2'' m));
  do hx3 <- getv (w_h w3) x;
  Some (set_h w3 x (Some (HHeap None 0 (h_sptr hx3)))).

(** handle.hpp:134-137: copy assignment through a temporary, which is pushed, moved from and destroyed. *)
Definition copy_assign (w : world A) (v x : nat) : option (world A) :=
  do hx <- getv (w_h w) x;
  do (h1, tmp) <- h_copy (h_data hx) (h_size hx) (m_heap (w_mem w));
  let k := length (w_h w) in
  do w1 <- move_assign (World (Mem h1 (m_ctrl (w_mem w))) (w_h w ++ [Some tmp]) (w_s w)) v k;
  do ht <- getv (w_h w1) k;
  do m <- h_destroy ht (w_mem w1);
  Some (World m (firstn k (w_h w1)) (w_s w1)).

(** handle.hpp:101-104 [get_sptr] of variable [v]: creates the control block at the first call; the result is one more owner. *)
Definition get_sptr (w : world A) (v : nat) : option (world A * nat) :=
  do hv <- getv (w_h w) v;
  match h_sptr hv with
  | Some c => do m <- sptr_copy (Some c) (w_mem w); Some (set_mem w m, c)
  | None => do b <- h_data hv;
            let c := length (m_ctrl (w_mem w)) in
            let w1 := World (Mem (m_heap (w_mem w)) (m_ctrl (w_mem w) ++ [Ctrl 1 (b, h_size hv) true])) (w_h w) (w_s w) in
            let w2 := set_h w1 v (Some (HHeap (h_data hv) (h_size hv) (Some c))) in
            do m <- sptr_copy (Some c) (w_mem w2); Some (set_mem w2 m, c)
  end.

(** handle.hpp:488-494: a shared handle [s] of the heap handle [v]. *)
Definition share (w : world A) (s v : nat) : option (world A) :=
  do hv <- getv (w_h w) v;
  if is_null hv then Some (set_s w s (Some (HShared (h_data hv) (h_size hv) None)))
  else do (w1, c) <- get_sptr w v; Some (set_s w1 s (Some (HShared (h_data hv) (h_size hv) (Some c)))).
(** implicit copy constructor of [handle_shared] *)
Definition s_copy (w : world A) (s x : nat) : option (world A) :=
  do hx <- getv (w_s w) x;
  do m <- sptr_copy (s_sptr hx) (w_mem w);
  Some (set_s (set_mem w m) s (Some hx)).
(** implicit copy assignment (memberwise); libstdc++ takes the new owner before it releases the old one *)
Definition s_copy_assign (w : world A) (s x : nat) : option (world A) :=
  do hs <- getv (w_s w) s;
  do hx <- getv (w_s w) x;
  do m <- sptr_copy (s_sptr hx) (w_mem w);
  let w1 := set_s (set_mem w m) s (Some hx) in
  do m1 <- sptr_release (s_sptr hs) (w_mem w1);
  Some (set_mem w1 m1).
(** implicit move constructor: pointer and size are copied, only the shared pointer is moved *)
Definition s_move (w : world A) (s x : nat) : option (world A) :=
  do hx <- getv (w_s w) x;
  Some (set_s (set_s w s (Some hx)) x (Some (HShared (s_data hx) (s_size hx) None))).
(** implicit move assignment *)
Definition s_move_assign (w : world A) (s x : nat) : option (world A) :=
  do hs <- getv (w_s w) s;
  do hx <- getv (w_s w) x;
  if Nat.eqb s x then Some w else
  let w1 := set_s (set_s w s (Some hx)) x (Some (HShared (s_data hx) (s_size hx) None)) in
  do m <- sptr_release (s_sptr hs) (w_mem w1);
  Some (set_mem w1 m).

(** *** histories *)
Inductive op :=
| Declare (v : nat) | New (v n : nat) (i : init) | From (v : nat) (l : list A)
| CopyH (v x : nat) | CopyS (v s : nat) | MoveH (v x : nat)
| AssignCopy (v x : nat) | AssignMove (v x : nat) | WriteH (v i : nat) (a : A) | End (v : nat)
| Share (s v : nat) | CopySS (s x : nat) | MoveSS (s x : nat) | AssignCopySS (s x : nat) | AssignMoveSS (s x : nat)
| WriteS (s i : nat) (a : A) | EndS (s : nat).

Definition new_var (w : world A) (v : nat) (r : option (heap A * hheap)) : option (world A) :=
  do (h, x) <- r; Some (set_h (set_heap w h) v (Some x)).

(** One statement.  Assignment to an element requires an object there, or a trivially copyable type. *)
Definition write_elem (d : option nat) (i : nat) (a : A) (w : world A) : option (world A) :=
  do b <- d;
  do c <- read_cell (m_heap (w_mem w)) b i;
  if match c with Some _ => true | None => t_tcopy t end
  then do h <- write_cell (m_heap (w_mem w)) b i (Some a); Some (set_heap w h) else None.

Definition exec (w : world A) (o : op) : option (world A) :=
  let h := m_heap (w_mem w) in
  match o with
  | Declare v => Some (set_h w v (Some h_null))
  | New v n i => new_var w v (h_new n i h)
  | From v l => new_var w v (h_from l h)
  | CopyH v x => do hx <- getv (w_h w) x; new_var w v (h_copy (h_data hx) (h_size hx) h)
  | CopyS v s => do hs <- getv (w_s w) s; new_var w v (h_copy (s_data hs) (s_size hs) h)
  | MoveH v x => move_ctor w v x
  | AssignCopy v x => copy_assign w v x
  | AssignMove v x => move_assign w v x
  | WriteH v i a => do hv <- getv (w_h w) v; write_elem (h_data hv) i a w
  | End v => do hv <- getv (w_h w) v; do m <- h_destroy hv (w_mem w); Some (set_h (set_mem w m) v None)
  | Share s v => share w s v
  | CopySS s x => s_copy w s x
  | MoveSS s x => s_move w s x
  | AssignCopySS s x => s_copy_assign w s x
  | AssignMoveSS s x => s_move_assign w s x
  | WriteS s i a => do hs <- getv (w_s w) s; write_elem (s_data hs) i a w
  | EndS s => do hs <- getv (w_s w) s; do m <- sptr_release (s_sptr hs) (w_mem w); Some (set_s (set_mem w m) s None)
  end.

(** A program is a list of statements; [nh] and [ns] are the numbers of variable names. *)
Fixpoint run (w : world A) (p : list op) : option (world A) :=
  match p with [] => Some w | o :: p' => do w1 <- exec w o; run w1 p' end.
Definition start (nh ns : nat) : world A := World (Mem [] []) (repeat None nh) (repeat None ns).
End Machine.
