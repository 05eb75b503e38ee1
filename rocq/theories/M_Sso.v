(** Model of c++/nda/mem/handle.hpp: [handle_sso] and [handle_stack].  Memory is the one of M_Handle; the buffer inside
    a handle is a block of [cap] cells that exists from the declaration of the variable to its end of life, where the
    objects left in it are lost (None for types with constructors).  For trivially copyable types copying an element
    copies its bytes, also when they are indeterminate. *)
From Verif Require Import Base M_Handle.

(** handle.hpp:299-302: members of [handle_sso]: the buffer, the pointer (None is nullptr) and the size. *)
Record sso := Sso { q_buf : nat; q_data : option nat; q_size : nat }.
Record sworld (A : Type) := SWorld { sw_heap : heap A; sw_v : list (option sso) }.
Arguments SWorld {A}. Arguments sw_heap {A}. Arguments sw_v {A}.

Section Sso.
Context {A : Type}.
Variable (t : traits) (dflt zero : A) (cap : nat).

(** [new (dst + i) T(src[i])] *)
Definition copy_elem (dst src : option nat) (i : nat) (h : heap A) : option (heap A) :=
  do d <- dst; do s <- src; do c <- read_cell h s i;
  if t_tcopy t then write_cell h d i c else do v <- c; construct t d i v h.

(** handle.hpp:308 [on_heap]. *)
Definition on_heap (q : sso) : bool := Nat.ltb cap (q_size q).
Definition set_v (w : sworld A) (v : nat) (q : option sso) : sworld A := SWorld (sw_heap w) (upd (sw_v w) v q).
Definition set_hp (w : sworld A) (h : heap A) : sworld A := SWorld h (sw_v w).
(** setting one member of variable [v] *)
Definition set_data (w : sworld A) (v : nat) (d : option nat) : option (sworld A) :=
  do q <- getv (sw_v w) v; Some (set_v w v (Some (Sso (q_buf q) d (q_size q)))).
Definition set_size (w : sworld A) (v : nat) (n : nat) : option (sworld A) :=
  do q <- getv (sw_v w) v; Some (set_v w v (Some (Sso (q_buf q) (q_data q) n))).
Definition lift (w : sworld A) (f : heap A -> option (heap A)) : option (sworld A) := do h <- f (sw_heap w); Some (set_hp w h).

(** handle.hpp:329-337 [clean]. *)
Definition clean (w : sworld A) (v : nat) : option (sworld A) :=
  do q <- getv (sw_v w) v;
  match q_data q with
  | None => Some w
  | Some b =>
      do w1 <- lift w (fun h => if negb (t_trivial t) then for_upto (q_size q) (fun i h => destroy t b i h) h else Some h);
      do w2 <- lift w1 (fun h => if on_heap q then deallocate t b (q_size q) h else Some h);
      set_data w2 v None
  end.

(** handle.hpp:326: the variable comes into existence with its uninitialised buffer *)
Definition sso_declare (w : sworld A) (v : nat) : sworld A :=
  let '(h, b) := allocate cap (sw_heap w) in SWorld h (upd (sw_v w) v (Some (Sso b None 0))).
(** handle.hpp:340: destructor; the buffer goes out of scope *)
Definition sso_end (w : sworld A) (v : nat) : option (sworld A) :=
  do w1 <- clean w v;
  do q <- getv (sw_v w1) v;
  do w2 <- lift w1 (deallocate t (q_buf q) cap);
  Some (set_v w2 v None).

(** the loop [for i < n: new (_data + i) T(x[i])] of variables [v] and [x], pointers read at each step *)
Definition copy_loop (w : sworld A) (v x n : nat) : option (sworld A) :=
  do q <- getv (sw_v w) v; do r <- getv (sw_v w) x;
  lift w (for_upto n (fun i h => copy_elem (q_data q) (q_data r) i h)).

(** handle.hpp:342-355: move constructor (after [sso_declare]) and 357-371: move assignment, which differs by [clean]. *)
Definition sso_move_from (w : sworld A) (v x : nat) : option (sworld A) :=
  do r <- getv (sw_v w) x;
  do w1 <- set_size w v (q_size r);
  do q <- getv (sw_v w1) v;
  do w2 <- (if on_heap q then do r1 <- getv (sw_v w1) x; set_data w1 v (q_data r1)
            else if negb (Nat.eqb (q_size q) 0)
                 then do w1' <- set_data w1 v (Some (q_buf q)); copy_loop w1' v x (q_size q)
                 else Some w1);
  do w3 <- set_data w2 x None;
  set_size w3 x 0.
Definition sso_move_assign (w : sworld A) (v x : nat) : option (sworld A) := do w1 <- clean w v; sso_move_from w1 v x.

(** handle.hpp:396-407: (size, do_not_initialize); 410-422: (size, init_zero); 425-445: (size). *)
Definition sso_init (w : sworld A) (v n : nat) (i : init) : option (sworld A) :=
  if Nat.eqb n 0 then Some w else
  do w1 <- set_size w v n;
  do q <- getv (sw_v w1) v;
  if negb (on_heap q) then
    do w2 <- set_data w1 v (Some (q_buf q));
    match i with
    | Raw => Some w2
    | Zero => lift w2 (for_upto n (fun j h => write_cell h (q_buf q) j (Some zero)))
    | Default => if negb (t_trivial t) && negb (t_complex t)
                 then lift w2 (for_upto n (fun j h => construct t (q_buf q) j dflt h)) else Some w2
    end
  else
    let '(h, b) := match i with
                   | Raw => allocate n (sw_heap w1)
                   | Zero => allocate_zero zero n (sw_heap w1)
                   | Default => if t_complex t then allocate_zero zero n (sw_heap w1) else allocate n (sw_heap w1)
                   end in
    do w2 <- set_data (set_hp w1 h) v (Some b);
    match i with
    | Default => if negb (t_trivial t) && negb (t_complex t) then lift w2 (for_upto n (fun j h => construct t b j dflt h)) else Some w2
    | _ => Some w2
    end.
(** construction of all elements after [Raw] (basic_array.hpp:156-174) *)
Definition sso_from (w : sworld A) (v : nat) (l : list A) : option (sworld A) :=
  do w1 <- sso_init w v (length l) Raw;
  do q <- getv (sw_v w1) v;
  lift w1 (for_upto (length l) (fun i h => do b <- q_data q; do a <- nth_error l i; construct t b i a h)).
(** handle.hpp:373-380: copy constructor (memcpy written as the element loop). *)
Definition sso_copy_from (w : sworld A) (v x : nat) : option (sworld A) :=
  do r <- getv (sw_v w) x;
  do w1 <- sso_init w v (q_size r) Raw;
  do q <- getv (sw_v w1) v;
  match q_data q with None => Some w1 | Some _ => copy_loop w1 v x (q_size q) end.
(** handle.hpp:447-462: copy assignment; [x] may be the variable itself. *)
Definition sso_copy_assign (w : sworld A) (v x : nat) : option (sworld A) :=
  do w1 <- clean w v;
  do r <- getv (sw_v w1) x;
  do w2 <- set_size w1 v (q_size r);
  do q <- getv (sw_v w2) v;
  if Nat.eqb (q_size q) 0 then Some w2 else
  do w3 <- (if on_heap q then let '(h, b) := allocate (q_size q) (sw_heap w2) in set_data (set_hp w2 h) v (Some b)
            else set_data w2 v (Some (q_buf q)));
  copy_loop w3 v x (q_size q).

(** statements of a program with variables of this handle type *)
Inductive sop :=
| SDeclare (v : nat) | SNew (v n : nat) (i : init) | SFrom (v : nat) (l : list A) | SCopy (v x : nat) | SMove (v x : nat)
| SAssignCopy (v x : nat) | SAssignMove (v x : nat) | SWrite (v i : nat) (a : A) | SEnd (v : nat).

(** handle.hpp:319 [operator[]] followed by an assignment of the element. *)
Definition sso_write (w : sworld A) (v i : nat) (a : A) : option (sworld A) :=
  do q <- getv (sw_v w) v;
  do b <- q_data q;
  if Nat.ltb i (q_size q) then
    do c <- read_cell (sw_heap w) b i;
    if match c with Some _ => true | None => t_tcopy t end then lift w (fun h => write_cell h b i (Some a)) else None
  else None.

Definition sso_exec (w : sworld A) (o : sop) : option (sworld A) :=
  match o with
  | SDeclare v => Some (sso_declare w v)
  | SNew v n i => sso_init (sso_declare w v) v n i
  | SFrom v l => sso_from (sso_declare w v) v l
  | SCopy v x => sso_copy_from (sso_declare w v) v x
  | SMove v x => sso_move_from (sso_declare w v) v x
  | SAssignCopy v x => sso_copy_assign w v x
  | SAssignMove v x => sso_move_assign w v x
  | SWrite v i a => sso_write w v i a
  | SEnd v => sso_end w v
  end.
Fixpoint sso_run (w : sworld A) (p : list sop) : option (sworld A) :=
  match p with [] => Some w | o :: p' => do w1 <- sso_exec w o; sso_run w1 p' end.
Definition sso_start (n : nat) : sworld A := SWorld [] (repeat None n).

(** ** handle_stack (handle.hpp:226-286): the buffer holds exactly [cap] elements; a variable is its buffer. *)
(** 274-277: copy assignment (also used by the copy and move constructors and by move assignment). *)
Definition k_assign (h : heap A) (d s : nat) : option (heap A) := for_upto cap (fun i h => copy_elem (Some d) (Some s) i h) h.
(** 246-250: destructor; the buffer goes out of scope *)
Definition k_end (h : heap A) (d : nat) : option (heap A) :=
  do h1 <- (if negb (t_trivial t) then for_upto cap (fun i h => destroy t d i h) h else Some h);
  deallocate t d cap h1.
(** 259-264: default initialisation of the elements *)
Definition k_new (h : heap A) : option (heap A * nat) :=
  let '(h1, b) := allocate cap h in
  do h2 <- (if negb (t_trivial t) && negb (t_complex t) then for_upto cap (fun i h => construct t b i dflt h) h1 else Some h1);
  Some (h2, b).
End Sso.
