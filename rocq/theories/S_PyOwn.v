(** What programs of C++ and Python that pass arrays to each other should do, without pointers and reference counts: there are
    storages with contents, a variable of C++ or a name of Python is out of scope, empty, or refers to a storage; nothing is ever
    released. *)
From Verif Require Import Base M_PyOwn.

Inductive place := Dead | Null | Ref (o : nat).
Record ideal (A : Type) := Ideal { i_objs : list (list A); i_h : list place; i_s : list place; i_v : list (place * option nat); i_p : list place }.
Arguments Ideal {A}. Arguments i_objs {A}. Arguments i_h {A}. Arguments i_s {A}. Arguments i_v {A}. Arguments i_p {A}.

Section Ideal.
Context {A : Type}.
Notation ideal := (ideal A).

Definition at_ (l : list place) (v : nat) : place := nth v l Dead.
Definition alive (l : list place) (v : nat) : bool := match nth_error l v with Some Null | Some (Ref _) => true | _ => false end.
Definition unused (l : list place) (v : nat) : bool := match nth_error l v with Some Dead => true | _ => false end.
Definition contents (s : ideal) (p : place) : option (list A) := match p with Null => Some [] | Ref o => nth_error (i_objs s) o | Dead => None end.
(** some owner (an array, a shared handle, a NumPy array) refers to storage [o]; views do not own *)
Definition owners (s : ideal) : list place := i_h s ++ i_s s ++ i_p s.
Definition owned (s : ideal) (p : place) : bool :=
  match p with Ref o => existsb (fun q => match q with Ref k => Nat.eqb k o | _ => false end) (owners s) | _ => true end.

Definition put_h (s : ideal) v p := Ideal (i_objs s) (upd (i_h s) v p) (i_s s) (i_v s) (i_p s).
Definition put_s (s : ideal) v p := Ideal (i_objs s) (i_h s) (upd (i_s s) v p) (i_v s) (i_p s).
Definition put_v (s : ideal) v p := Ideal (i_objs s) (i_h s) (i_s s) (upd (i_v s) v p) (i_p s).
Definition put_p (s : ideal) v p := Ideal (i_objs s) (i_h s) (i_s s) (i_v s) (upd (i_p s) v p).
(** a new storage; none for no elements *)
Definition create (l : list A) (s : ideal) : ideal * place :=
  match l with [] => (s, Null) | _ => (Ideal (i_objs s ++ [l]) (i_h s) (i_s s) (i_v s) (i_p s), Ref (length (i_objs s))) end.
Definition poke (p : place) (i : nat) (a : A) (s : ideal) : option ideal :=
  match p with
  | Ref o => match nth_error (i_objs s) o with
             | Some l => if Nat.ltb i (length l) then Some (Ideal (upd (i_objs s) o (upd l i a)) (i_h s) (i_s s) (i_v s) (i_p s)) else None
             | None => None
             end
  | _ => None
  end.
Definition view_at (s : ideal) (u : nat) : place * option nat := nth u (i_v s) (Dead, None).
Definition view_unused (s : ideal) (u : nat) : bool := match nth_error (i_v s) u with Some (Dead, _) => true | _ => false end.
Definition view_alive (s : ideal) (u : nat) : bool := match nth_error (i_v s) u with Some (Null, _) | Some (Ref _, _) => true | _ => false end.
Definition same_place (p q : place) : bool := match p, q with Dead, Dead | Null, Null => true | Ref a, Ref b => Nat.eqb a b | _, _ => false end.

(** one statement; None: not a legal program (a variable is used out of scope or declared twice, an index is out of range, a view is
    written through although nobody owns what it looks at, or passed to Python although the array it was made of is gone or
    refers to another storage; x = std::move(x)) *)
Definition ideal_step (s : ideal) (o : op (A := A)) : option ideal :=
  match o with
  | New v l => if unused (i_h s) v then let '(s1, p) := create l s in Some (put_h s1 v p) else None
  | CopyH v x => if unused (i_h s) v then match contents s (at_ (i_h s) x) with Some l => let '(s1, p) := create l s in Some (put_h s1 v p) | None => None end else None
  | MoveH v x => if unused (i_h s) v && alive (i_h s) x then Some (put_h (put_h s v (at_ (i_h s) x)) x Null) else None
  | AssignMove v x => if alive (i_h s) v && alive (i_h s) x && negb (Nat.eqb v x) then Some (put_h (put_h s v (at_ (i_h s) x)) x Null) else None
  | WriteH v i a => if alive (i_h s) v then poke (at_ (i_h s) v) i a s else None
  | End v => if alive (i_h s) v then Some (put_h s v Dead) else None
  | Share x v => if unused (i_s s) x && alive (i_h s) v then Some (put_s s x (at_ (i_h s) v)) else None
  | CopySS x y => if unused (i_s s) x && alive (i_s s) y then Some (put_s s x (at_ (i_s s) y)) else None
  | WriteS x i a => if alive (i_s s) x then poke (at_ (i_s s) x) i a s else None
  | EndS x => if alive (i_s s) x then Some (put_s s x Dead) else None
  | MakeView u v => if view_unused s u && alive (i_h s) v then Some (put_v s u (at_ (i_h s) v, Some v)) else None
  | SubView u x => if view_unused s u && view_alive s x then Some (put_v s u (fst (view_at s x), None)) else None
  | WriteV u i a => if view_alive s u && owned s (fst (view_at s u)) then poke (fst (view_at s u)) i a s else None
  | EndView u => if view_alive s u then Some (put_v s u (Dead, None)) else None
  | ToPy p v => if unused (i_p s) p && alive (i_h s) v then Some (put_p s p (at_ (i_h s) v)) else None
  | ViewToPy p u =>
      if unused (i_p s) p && view_alive s u then
        match snd (view_at s u) with
        | None => Some s
        | Some v => if same_place (at_ (i_h s) v) (fst (view_at s u)) then Some (put_p s p (fst (view_at s u))) else None
        end
      else None
  | ViewOfPy u p => if view_unused s u && alive (i_p s) p then Some (put_v s u (at_ (i_p s) p, None)) else None
  | FromPy v p => if unused (i_h s) v then match contents s (at_ (i_p s) p) with Some l => let '(s1, q) := create l s in Some (put_h s1 v q) | None => None end else None
  | Foreign x p => if unused (i_s s) x && alive (i_p s) p then Some (put_s s x (at_ (i_p s) p)) else None
  | PyNew p l => if unused (i_p s) p then let '(s1, q) := create l s in Some (put_p s1 p q) else None
  | PyAlias p q | PySlice p q => if unused (i_p s) p && alive (i_p s) q then Some (put_p s p (at_ (i_p s) q)) else None
  | PyWrite p i a => if alive (i_p s) p then poke (at_ (i_p s) p) i a s else None
  | PyDel p => if alive (i_p s) p then Some (put_p s p Dead) else None
  end.
Fixpoint ideal_run (s : ideal) (p : list (op (A := A))) : option ideal :=
  match p with [] => Some s | o :: p => match ideal_step s o with Some s1 => ideal_run s1 p | None => None end end.
Definition ideal_start (nh ns nv np : nat) : ideal := Ideal [] (repeat Dead nh) (repeat Dead ns) (repeat (Dead, None) nv) (repeat Dead np).

(** what is found at a pointer: the elements, unless it dangles *)
Definition shows (m : pymem A) (d : option nat) (l : list A) : Prop := match d with None => l = [] | Some b => nth_error (m_blk m) b = Some (Some l) end.
(** every array, shared handle and NumPy array in scope shows the contents it should have; so do views of storages with an owner *)
Definition same_contents (w : world A) (s : ideal) : Prop :=
  (forall v, alive (i_h s) v = true -> exists x l, nth_error (w_h w) v = Some (Some x) /\ contents s (at_ (i_h s) v) = Some l /\ shows (w_mem w) (h_data x) l)
  /\ (forall v, alive (i_s s) v = true -> exists x l, nth_error (w_s w) v = Some (Some x) /\ contents s (at_ (i_s s) v) = Some l /\ shows (w_mem w) (h_data x) l)
  /\ (forall v, alive (i_p s) v = true -> exists o n d b l, nth_error (w_p w) v = Some (Some o) /\ nth_error (m_obj (w_mem w)) o = Some (OArray n d b) /\
        contents s (at_ (i_p s) v) = Some l /\ shows (w_mem w) d l)
  /\ (forall u, view_alive s u = true -> owned s (fst (view_at s u)) = true -> exists x l, nth_error (w_v w) u = Some (Some x) /\ contents s (fst (view_at s u)) = Some l /\ shows (w_mem w) (v_data x) l).
(** a block of memory is allocated exactly when some owner in C++ or in Python refers to it *)
Definition exactly_live (w : world A) (s : ideal) : Prop :=
  forall b, (exists l, nth_error (m_blk (w_mem w)) b = Some (Some l)) <-> In (Ref b) (owners s).
(** no object with a reference count is left when nothing refers to anything *)
Definition nothing_left (w : world A) (s : ideal) : Prop :=
  (forall q, In q (owners s) -> q = Dead) -> (forall b x, nth_error (m_blk (w_mem w)) b = Some x -> x = None) /\ (forall o x, nth_error (m_obj (w_mem w)) o = Some x -> count x = 0%nat).
End Ideal.
