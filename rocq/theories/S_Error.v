(** What error objects should show: the pieces they were given, one after the other.  No streams and no memory. *)
From Verif Require Import Base M_Error.
From Coq Require Import Ascii String.
Local Open Scope nat_scope.

(** an object: the text it was given, and whether more may be added (not to copies with a text, see C79_copy_refuted); the texts what()
    has returned, in order, with the object *)
Record note := Note { n_text : text; n_open : bool }.
Definition notes := list (option note).
Definition note_of (s : notes) (x : nat) : option note := match nth_error s x with Some o => o | None => None end.
Definition empty (l : text) : bool := match l with [] => true | _ => false end.
Definition ideal_step (s : notes) (o : op) : option notes :=
  match o with
  | New => Some (s ++ [Some (Note [] true)])
  | Add x t => do n <- note_of s x; if n_open n then Some (upd s x (Some (Note (n_text n ++ t) true))) else None
  | Copy x => do n <- note_of s x; Some (s ++ [Some (Note (n_text n) (empty (n_text n)))])
  | What x => do _ <- note_of s x; Some s
  | Drop x => do _ <- note_of s x; Some (upd s x None)
  end.
Fixpoint ideal_run (s : notes) (p : list op) : option notes := match p with [] => Some s | o :: p => do s1 <- ideal_step s o; ideal_run s1 p end.

(** the text of what() for an object with text [t] *)
Definition shown (t : text) : text := t ++ newline :: lit ".. Error occurred on node ".
(** statement [o] calls what() on [x] or destroys it *)
Definition ends (o : op) (x : nat) : bool := match o with What y | Drop y => Nat.eqb x y | _ => false end.
