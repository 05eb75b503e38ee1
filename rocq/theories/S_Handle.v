(** What programs with heap and shared handles should do, without allocation, pointers or counters: there are storages
    with contents, a variable is out of scope, empty, or refers to a storage; nothing is ever released. *)
From Verif Require Import Base M_Handle.

(** [Moved]: a shared handle that was moved from; its value is unspecified, it may only be assigned to or destroyed. *)
Inductive place := Dead | Null | Ref (o : nat) | Moved.
Record ideal (A : Type) := Ideal { i_objs : list (list (option A)); i_h : list place; i_s : list place }.
Arguments Ideal {A}. Arguments i_objs {A}. Arguments i_h {A}. Arguments i_s {A}.

(** trivial types and complex numbers are trivially copyable (a fact about the C++ types) *)
Definition traits_ok (t : traits) : Prop :=
  (t_trivial t = true -> t_tcopy t = true) /\ (t_complex t = true -> t_tcopy t = true).

Section Ideal.
Context {A : Type}.
Variable (t : traits) (dflt zero : A).

(** initial contents; None is an unspecified value *)
Definition initial (n : nat) (i : init) : list (option A) :=
  match i with
  | Raw => repeat None n
  | Zero => repeat (Some zero) n
  | Default => repeat (if t_complex t then Some zero else if t_trivial t then None else Some dflt) n
  end.

Definition create (l : list (option A)) (objs : list (list (option A))) : list (list (option A)) * place :=
  match l with [] => (objs, Null) | _ => (objs ++ [l], Ref (length objs)) end.
Definition contents (objs : list (list (option A))) (p : place) : option (list (option A)) :=
  match p with Null => Some [] | Ref o => nth_error objs o | Dead | Moved => None end.
Definition alive (l : list place) (v : nat) : bool := match nth_error l v with Some Dead | None => false | Some _ => true end.
Definition unused (l : list place) (v : nat) : bool := match nth_error l v with Some Dead => true | _ => false end.
Definition at_ (l : list place) (v : nat) : place := nth v l Dead.
Definition readable (p : place) : bool := match p with Null | Ref _ => true | _ => false end.

(** assignment of an element through a variable *)
Definition poke (p : place) (i : nat) (a : A) (s : ideal A) : option (ideal A) :=
  match p with
  | Ref o => match nth_error (i_objs s) o with
             | Some l => if Nat.ltb i (length l) then Some (Ideal (upd (i_objs s) o (upd l i (Some a))) (i_h s) (i_s s)) else None
             | None => None
             end
  | _ => None
  end.

(** one statement; None: not a legal program (a variable is used out of scope or declared twice, a handle of a type
    with constructors is left uninitialised, an index is out of range) *)
Definition ideal_step (s : ideal A) (o : op (A := A)) : option (ideal A) :=
  let objs := i_objs s in let hs := i_h s in let ss := i_s s in
  let init_h v l := let '(objs', p) := create l objs in Some (Ideal objs' (upd hs v p) ss) in
  match o with
  | Declare v => if unused hs v then Some (Ideal objs (upd hs v Null) ss) else None
  | New v n i => if unused hs v && match i with Default => true | _ => t_tcopy t end then init_h v (initial n i) else None
  | From v l => if unused hs v then init_h v (map Some l) else None
  | CopyH v x => if unused hs v && alive hs x
                 then match contents objs (at_ hs x) with Some l => init_h v l | None => None end else None
  | CopyS v x => if unused hs v
                 then match contents objs (at_ ss x) with Some l => init_h v l | None => None end else None
  | MoveH v x => if unused hs v && alive hs x then Some (Ideal objs (upd (upd hs v (at_ hs x)) x Null) ss) else None
  | AssignCopy v x => if alive hs v && alive hs x
                      then match contents objs (at_ hs x) with Some l => init_h v l | None => None end else None
  | AssignMove v x => if alive hs v && alive hs x then Some (Ideal objs (upd (upd hs v (at_ hs x)) x Null) ss) else None
  | WriteH v i a => if alive hs v then poke (at_ hs v) i a s else None
  | End v => if alive hs v then Some (Ideal objs (upd hs v Dead) ss) else None
  | Share x v => if unused ss x && alive hs v then Some (Ideal objs hs (upd ss x (at_ hs v))) else None
  | CopySS x y => if unused ss x && readable (at_ ss y) then Some (Ideal objs hs (upd ss x (at_ ss y))) else None
  | MoveSS x y => if unused ss x && readable (at_ ss y) then Some (Ideal objs hs (upd (upd ss x (at_ ss y)) y Moved)) else None
  | AssignCopySS x y => if alive ss x && readable (at_ ss y) then Some (Ideal objs hs (upd ss x (at_ ss y))) else None
  | AssignMoveSS x y => if alive ss x && readable (at_ ss y)
                        then Some (if Nat.eqb x y then s else Ideal objs hs (upd (upd ss x (at_ ss y)) y Moved)) else None
  | WriteS x i a => if alive ss x then poke (at_ ss x) i a s else None
  | EndS x => if alive ss x then Some (Ideal objs hs (upd ss x Dead)) else None
  end.
Fixpoint ideal_run (s : ideal A) (p : list (op (A := A))) : option (ideal A) :=
  match p with [] => Some s | o :: p' => match ideal_step s o with Some s' => ideal_run s' p' | None => None end end.
Definition ideal_start (nh ns : nat) : ideal A := Ideal [] (repeat Dead nh) (repeat Dead ns).

(** what a program can observe of a variable holding pointer [d] and size [n]: the elements, unless the pointer dangles *)
Definition shows (H : heap A) (d : option nat) (n : nat) (l : list (option A)) : Prop :=
  n = length l /\ match d with
                  | None => l = []
                  | Some b => nth_error H b = Some (Block true l)
                  end.

(** every variable in scope shows the contents it should have *)
Definition same_contents (w : world A) (s : ideal A) : Prop :=
  (forall v l, alive (i_h s) v = true -> contents (i_objs s) (at_ (i_h s) v) = Some l ->
     exists x, nth_error (w_h w) v = Some (Some x) /\ shows (m_heap (w_mem w)) (h_data x) (h_size x) l)
  /\ (forall v, alive (i_h s) v = true -> contents (i_objs s) (at_ (i_h s) v) <> None)
  /\ (forall v l, contents (i_objs s) (at_ (i_s s) v) = Some l ->
     exists x, nth_error (w_s w) v = Some (Some x) /\ shows (m_heap (w_mem w)) (s_data x) (s_size x) l).

(** a block is allocated exactly when some variable refers to it *)
Definition exactly_live (w : world A) (s : ideal A) : Prop :=
  forall b, (exists cells, nth_error (m_heap (w_mem w)) b = Some (Block true cells)) <-> In (Ref b) (i_h s ++ i_s s).

(** statements that involve shared handles *)
Definition sharing (o : op (A := A)) : bool :=
  match o with
  | Share _ _ | CopySS _ _ | MoveSS _ _ | AssignCopySS _ _ | AssignMoveSS _ _ | WriteS _ _ _ | EndS _ | CopyS _ _ => true
  | _ => false
  end.
(** x = std::move(x) *)
Definition self_move (o : op (A := A)) : bool := match o with AssignMove v x => Nat.eqb v x | _ => false end.
End Ideal.
