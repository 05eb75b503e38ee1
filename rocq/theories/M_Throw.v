(** What happens when the constructor of an element throws: statements on array variables (M_Array) in which the construction of
    an element ends with an exception, with the C++ rules on what is destroyed then.  Constructors of basic_array and the
    assignment of expressions are noexcept (std::terminate); [resize] (basic_array.hpp:411-416) and the defaulted assignment
    (342) are not.  Only constructions throw: what an assignment of an element that throws leaves behind is the affair of the
    element type.  Allocation does not fail. *)
From Verif Require Import Base M_Perm M_IdxMap M_Loops M_Handle M_Array.

(** [Thrown w]: the exception leaves the statement, the program can catch it and go on with [w]. *)
Inductive outcome (T : Type) := Done (x : T) | Thrown (x : T) | Terminated | Undefined.
Arguments Done {T}. Arguments Thrown {T}. Arguments Terminated {T}. Arguments Undefined {T}.
Definition lift {T} (x : option T) : outcome T := match x with Some y => Done y | None => Undefined end.

Section Throw.
Context {A : Type}.
Variable (t : traits) (dflt zero : A) (so : list nat) (pr : layout_prop) (junk : list Z).
Notation a_exec := (a_exec t dflt zero so pr junk).
Notation layout := (layout so pr junk).

(** mem/handle.hpp:178: elements are constructed by placement new *)
Definition constructed : bool := negb (t_trivial t) && negb (t_complex t).
(** basic_array.hpp:414: resize makes a new storage *)
Definition new_storage (h : hheap) (sh : list Z) : bool := is_null h || negb (Nat.eqb (h_size h) (nelem (layout sh))).
Definition with_heap (w : aworld A) (hp : heap A) : aworld A := AWorld (set_heap (aw_w w) hp) (aw_lay w).

(** mem/handle.hpp:164-181: the constructor from a size, when the construction of element [k] throws.  It does not delegate, so the
    handle does not exist yet and is not destroyed: the block stays allocated, with [k] objects in it. *)
Definition new_thrown (n k : nat) (h : heap A) : option (heap A) :=
  let '(h1, b) := allocate n h in for_upto k (fun i h => construct t b i dflt h) h1.
(** mem/handle.hpp:183-190: the copy constructor delegates to the constructor of 146-152; once that has finished the object exists, and
    an exception in the body runs the destructor (109-112), which destroys all [n] elements. *)
Definition copy_thrown (src : option nat) (n k : nat) (h : heap A) : option (heap A) :=
  let '(h1, b) := allocate n h in
  do s <- src;
  do h2 <- for_upto k (fun i h => do c <- read_cell h s i; do v <- c; construct t b i v h) h1;
  destruct_blk t (Some b, n) h2.

(** One statement; [k]: the construction number k (from 0) of this statement throws, if there are so many. *)
Definition a_exec_x (w : aworld A) (o : aop (A := A)) (k : nat) : outcome (aworld A) :=
  let hp := m_heap (w_mem (aw_w w)) in
  match o with
  | AShape v sh => if constructed && Nat.ltb k (nelem (layout sh)) then Terminated else lift (a_exec w o)      (* 116-121, 144-146: noexcept *)
  | AFrom v sh f => if constructed && Nat.ltb k (nelem (layout sh)) then Terminated else lift (a_exec w o)     (* 157-174: noexcept *)
  | ACopy v x => match getv (w_h (aw_w w)) x with                                                              (* 101: noexcept *)
                 | Some h => if negb (t_tcopy t) && Nat.ltb k (h_size h) then Terminated else lift (a_exec w o)
                 | None => Undefined
                 end
  | AAssignExpr v sh f => match getv (w_h (aw_w w)) v with                                                     (* 358-364: noexcept *)
                          | Some h => if new_storage h sh && constructed && Nat.ltb k (nelem (layout sh)) then Terminated else lift (a_exec w o)
                          | None => Undefined
                          end
  (* 411-416: the layout is assigned first *)
  | AResize v sh => match getv (w_h (aw_w w)) v with
                    | Some h => if new_storage h sh && constructed && Nat.ltb k (nelem (layout sh))
                                then match new_thrown (nelem (layout sh)) k hp with
                                     | Some hp' => Thrown (with_heap (set_lay w v (layout sh)) hp')
                                     | None => Undefined
                                     end
                                else lift (a_exec w o)
                    | None => Undefined
                    end
  (* 342, defaulted: [lay] (69) before [sto] (70); mem/handle.hpp:134-137 copies into a temporary first *)
  | AAssignCopy v x => match getv (w_h (aw_w w)) x with
                       | Some h => if negb (t_tcopy t) && Nat.ltb k (h_size h)
                                   then match copy_thrown (h_data h) (h_size h) k hp with
                                        | Some hp' => Thrown (with_heap (set_lay w v (lay_of so pr junk w x)) hp')
                                        | None => Undefined
                                        end
                                   else lift (a_exec w o)
                       | None => Undefined
                       end
  | _ => lift (a_exec w o)
  end.

(** A program that catches every exception and goes on; for each statement the construction that throws, if any. *)
Fixpoint a_run_x (w : aworld A) (p : list (aop (A := A) * option nat)) : outcome (aworld A) :=
  match p with
  | [] => Done w
  | (o, k) :: p' => match match k with Some k => a_exec_x w o k | None => lift (a_exec w o) end with
                    | Done w1 | Thrown w1 => a_run_x w1 p'
                    | Terminated => Terminated
                    | Undefined => Undefined
                    end
  end.
End Throw.
