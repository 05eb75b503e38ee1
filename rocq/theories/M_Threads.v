(** Model of programs whose threads use arrays (c++/nda/basic_array.hpp, c++/nda/mem/handle.hpp) at the same time, one access to memory
    after the other, in any order.  The functions of M_Handle and M_Array are written once more as trees of single accesses.  Block names
    are local to a thread (threads exchange no pointers after the fork) and malloc and free are thread safe: a thread sees the blocks that
    exist at the fork and those it allocated itself.  std::shared_ptr is not used by the statements modelled here (no handle is shared). *)
From Verif Require Import Base M_Perm M_IdxMap M_Loops M_Handle M_Array.

(** What a thread does next: nothing more, undefined behaviour, malloc or calloc, a read or a write of one cell, free. *)
Inductive act (A T : Type) :=
| Done (x : T)
| Wrong
| Alloc (zeroed : bool) (n : nat) (k : nat -> act A T)
| Load (b i : nat) (k : option A -> act A T)
| Store (b i : nat) (c : option A) (k : act A T)
| Free (b n : nat) (k : act A T).
Arguments Done {A T}. Arguments Wrong {A T}. Arguments Alloc {A T}. Arguments Load {A T}. Arguments Store {A T}. Arguments Free {A T}.

Fixpoint bind {A T U} (a : act A T) (f : T -> act A U) : act A U :=
  match a with
  | Done x => f x
  | Wrong => Wrong
  | Alloc z n k => Alloc z n (fun b => bind (k b) f)
  | Load b i k => Load b i (fun c => bind (k c) f)
  | Store b i c k => Store b i c (bind k f)
  | Free b n k => Free b n (bind k f)
  end.
Notation "x <<- a ;; b" := (bind a (fun x => b)) (at level 100, a at next level, right associativity).
Notation "a ;;; b" := (bind a (fun _ => b)) (at level 100, right associativity).
(** [for (size_t i = 0; i < n; ++i)] *)
Fixpoint loop {A} (n : nat) (f : nat -> act A unit) : act A unit :=
  match n with O => Done tt | S n' => loop n' f ;;; f n' end.

(** the variables of a thread: handles and layouts (handle.hpp:66-76, basic_array.hpp:69-70) *)
Record priv := Priv { p_h : list (option hheap); p_lay : list idx_map }.

Section Threads.
Context {A : Type}.
Variable (t : traits) (dflt zero : A) (so : list nat) (pr : layout_prop) (junk : list Z).
Notation prog T := (act A T).

(** One access, on the blocks the thread sees.  allocators.hpp:68-84; M_Handle: allocate, allocate_zero, deallocate. *)
Definition act_step {T} (a : prog T) (h : heap A) : option (heap A * prog T) :=
  match a with
  | Done x => Some (h, Done x)
  | Wrong => None
  | Alloc z n k => let '(h1, b) := if z then allocate_zero zero n h else allocate n h in Some (h1, k b)
  | Load b i k => do c <- read_cell h b i; Some (h, k c)
  | Store b i c k => do h1 <- write_cell h b i c; Some (h1, k)
  | Free b n k => do h1 <- deallocate t b n h; Some (h1, k)
  end.

(** placement new and destructor (as M_Handle: construct, destroy) *)
Definition t_construct (b i : nat) (v : A) : prog unit :=
  Load b i (fun c => match c with
                     | Some _ => if t_tcopy t then Store b i (Some v) (Done tt) else Wrong
                     | None => Store b i (Some v) (Done tt)
                     end).
Definition t_destroy (b i : nat) : prog unit :=
  Load b i (fun c => match c with Some _ => Store b i None (Done tt) | None => if t_tcopy t then Done tt else Wrong end).
(** assignment to an element (as M_Handle: write_elem) *)
Definition t_write (d : option nat) (i : nat) (a : A) : prog unit :=
  match d with
  | None => Wrong
  | Some b => Load b i (fun c => if match c with Some _ => true | None => t_tcopy t end then Store b i (Some a) (Done tt) else Wrong)
  end.

(** handle.hpp:146-181: the constructors from a size. *)
Definition t_new (n : nat) (i : init) : prog hheap :=
  if Nat.eqb n 0 then Done h_null else
  match i with
  | Raw => Alloc false n (fun b => Done (HHeap (Some b) n None))
  | Zero => Alloc true n (fun b => Done (HHeap (Some b) n None))
  | Default => Alloc (t_complex t) n (fun b =>
      (if negb (t_trivial t) && negb (t_complex t) then loop n (fun i => t_construct b i dflt) else Done tt) ;;;
      Done (HHeap (Some b) n None))
  end.
(** handle.hpp:183-203: copy, of a handle with data [d] and size [n]. *)
Definition t_copy (d : option nat) (n : nat) : prog hheap :=
  x <<- t_new n Raw ;;
  match h_data x, d with
  | None, _ => Done x
  | Some b, Some src =>
      (if t_tcopy t then loop n (fun i => Load src i (fun c => Store b i c (Done tt)))
       else loop n (fun i => Load src i (fun c => match c with Some v => t_construct b i v | None => Wrong end))) ;;;
      Done x
  | Some _, None => Wrong
  end.
(** handle.hpp:81-95, 109-112: destructor of a handle without shared pointer. *)
Definition t_drop (x : hheap) : prog unit :=
  match h_data x with
  | None => Done tt
  | Some b => (if negb (t_trivial t || t_complex t) then loop (h_size x) (fun i => t_destroy b i) else Done tt) ;;;
              Free b (h_size x) (Done tt)
  end.

(** *** statements (as M_Array: a_exec; the lines are cited there) *)
Inductive tstmt :=
| TOp (o : aop (A := A))
| TSet (v : nat) (idx : list Z) (rs : list (nat * list Z)) (g : list A -> A)    (* v(idx) = g(x1(i1), x2(i2), ...) *)
| TMap (v x : nat) (g : A -> A).                                                 (* v = map(g)(x) *)

Definition t_lay (p : priv) (v : nat) : idx_map := nth v (p_lay p) (layout_default so pr junk).
Definition set_var (p : priv) (v : nat) (x : option hheap) (m : idx_map) : priv := Priv (upd (p_h p) v x) (upd (p_lay p) v m).
Definition t_get {T} (p : priv) (v : nat) (k : hheap -> prog T) : prog T := match getv (p_h p) v with Some h => k h | None => Wrong end.
(** basic_array.hpp:412-416 *)
Definition t_resize (p : priv) (v : nat) (shape : list Z) : prog priv :=
  let m := layout so pr junk shape in
  t_get p v (fun h =>
    if is_null h || negb (Nat.eqb (h_size h) (nelem m))
    then x <<- t_new (nelem m) Default ;; t_drop h ;;; Done (set_var p v (Some x) m)
    else Done (Priv (p_h p) (upd (p_lay p) v m))).
(** _impl_basic_array_view_common.hpp:385-387; [f idx] gives the value of the right-hand side *)
Definition t_assign (p : priv) (v : nat) (lens : list Z) (f : list Z -> prog A) : prog priv :=
  for_each lens (fun idx a => a ;;; (y <<- f idx ;; t_get p v (fun h => t_write (h_data h) (offset (t_lay p v) idx) y))) (Done tt) ;;; Done p.
(** reading x(idx) *)
Definition t_elem (p : priv) (x : nat) (idx : list Z) : prog A :=
  t_get p x (fun h => match h_data h with
                      | Some b => Load b (offset (t_lay p x) idx) (fun c => match c with Some a => Done a | None => Wrong end)
                      | None => Wrong
                      end).
Fixpoint t_elems (p : priv) (rs : list (nat * list Z)) : prog (list A) :=
  match rs with
  | [] => Done []
  | r :: rs' => a <<- t_elem p (fst r) (snd r) ;; l <<- t_elems p rs' ;; Done (a :: l)
  end.

Definition t_exec (p : priv) (s : tstmt) : prog priv :=
  match s with
  | TOp (AEmpty v) => Done (set_var p v (Some h_null) (layout_default so pr junk))
  | TOp (AShape v shape) => let m := layout so pr junk shape in x <<- t_new (nelem m) Default ;; Done (set_var p v (Some x) m)
  | TOp (AZeros v shape) => let m := layout so pr junk shape in x <<- t_new (nelem m) Zero ;; Done (set_var p v (Some x) m)
  | TOp (AFrom v shape f) =>
      let m := layout so pr junk shape in
      x <<- t_new (nelem m) Raw ;;
      for_each (im_len m) (fun idx a => a ;;; match h_data x with Some b => t_construct b (offset m idx) (f idx) | None => Wrong end) (Done tt) ;;;
      Done (set_var p v (Some x) m)
  | TOp (ACopy v x) => t_get p x (fun hx => y <<- t_copy (h_data hx) (h_size hx) ;; Done (set_var p v (Some y) (t_lay p x)))
  | TOp (AMove v x) => t_get p x (fun hx => Done (Priv (upd (upd (p_h p) v (Some hx)) x (Some h_null)) (upd (p_lay p) v (t_lay p x))))
  | TOp (AAssignCopy v x) =>
      t_get p x (fun hx => y <<- t_copy (h_data hx) (h_size hx) ;; t_get p v (fun hv => t_drop hv ;;; Done (set_var p v (Some y) (t_lay p x))))
  | TOp (AAssignMove v x) =>
      t_get p v (fun hv => t_drop hv ;;; t_get p x (fun hx => Done (Priv (upd (upd (p_h p) v (Some hx)) x (Some h_null)) (upd (p_lay p) v (t_lay p x)))))
  | TOp (AAssignExpr v shape f) => q <<- t_resize p v shape ;; t_assign q v (im_len (t_lay q v)) (fun idx => Done (f idx))
  | TOp (AResize v shape) => t_resize p v shape
  | TOp (AWrite v idx a) => t_get p v (fun h => t_write (h_data h) (offset (t_lay p v) idx) a) ;;; Done p
  | TOp (AEnd v) => t_get p v (fun h => t_drop h ;;; Done (Priv (upd (p_h p) v None) (p_lay p)))
  | TSet v idx rs g => l <<- t_elems p rs ;; t_get p v (fun h => t_write (h_data h) (offset (t_lay p v) idx) (g l)) ;;; Done p
  | TMap v x g => q <<- t_resize p v (im_len (t_lay p x)) ;; t_assign q v (im_len (t_lay q v)) (fun idx => a <<- t_elem q x idx ;; Done (g a))
  end.
Fixpoint t_prog (p : priv) (l : list tstmt) : prog priv :=
  match l with [] => Done p | s :: l' => q <<- t_exec p s ;; t_prog q l' end.

(** *** threads: the blocks that existed at the fork, and for each thread its own blocks and what it still has to do *)
Record tsys := TSys { ts_shared : heap A; ts_thr : list (heap A * prog priv) }.
Definition finished {T} (a : prog T) : bool := match a with Done _ => true | _ => false end.
(** thread [i] makes one access; None is undefined behaviour *)
Definition sched_step (s : tsys) (i : nat) : option tsys :=
  match nth_error (ts_thr s) i with
  | None => Some s
  | Some (own, a) =>
      if finished a then Some s else
      do (h, a') <- act_step a (ts_shared s ++ own);
      let m := length (ts_shared s) in
      Some (TSys (firstn m h) (upd (ts_thr s) i (skipn m h, a')))
  end.
(** a schedule is a list of numbers of threads *)
Fixpoint run_sched (s : tsys) (l : list nat) : option tsys :=
  match l with [] => Some s | i :: l' => do s1 <- sched_step s i; run_sched s1 l' end.
(** threads are started: each has its copy of the variables' handles and layouts (references to the arrays of the parent) *)
Definition fork (w : aworld A) (progs : list (list tstmt)) : tsys :=
  TSys (m_heap (w_mem (aw_w w))) (map (fun l => ([], t_prog (Priv (w_h (aw_w w)) (aw_lay w)) l)) progs).
(** the parent after the threads have ended *)
Definition join (w : aworld A) (s : tsys) : aworld A := AWorld (set_heap (aw_w w) (ts_shared s)) (aw_lay w).
End Threads.
