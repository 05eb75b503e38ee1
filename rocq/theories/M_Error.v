(** Error objects: nda::runtime_error (exceptions.hpp) and the macros that throw it, in programs that build, copy, read and destroy them. *)
From Verif Require Import Base.
From Coq Require Import Ascii String.
Local Open Scope nat_scope.
Notation "'do' x <- e ; f" := (match e with Some x => f | None => None end) (at level 200, x pattern, e at level 100, f at level 200).

Definition text := list ascii.
(** string literals as texts *)
Definition lit (s : string) : text := list_ascii_of_string s.
Definition newline : ascii := ascii_of_nat 10.

(** std::stringstream (the standard library): its characters and the place where the next ones are written *)
Record stream := Stream { s_text : text; s_put : nat }.
(** std::stringstream{} and std::stringstream{s}: the default open mode is in | out, without ate, hence writing begins at the first character *)
Definition stream_new : stream := Stream [] 0.
Definition stream_of (s : text) : stream := Stream s 0.
(** out << s: the characters at the place of writing are replaced, those beyond the end appended *)
Definition stream_write (st : stream) (s : text) : stream :=
  Stream (firstn (s_put st) (s_text st) ++ s ++ skipn (s_put st + List.length s) (s_text st)) (s_put st + List.length s).

(** exceptions.hpp:34-37: the members acc and _what.  The characters of _what are in a block of memory, None: _what is empty and owns none.
    _trace is never set (line 40). *)
Record error := Error { e_acc : stream; e_what : option nat }.
(** blocks of memory (None: released); error objects in order of construction (None: destroyed) *)
Record world := World { w_mem : list (option text); w_err : list (option error) }.

Definition get (w : world) (x : nat) : option error := match nth_error (w_err w) x with Some o => o | None => None end.
Definition set (w : world) (x : nat) (o : option error) : world := World (w_mem w) (upd (w_err w) x o).
Definition block (w : world) (b : nat) : option text := match nth_error (w_mem w) b with Some o => o | None => None end.
(** the release of the characters of a std::string; None: they have been released before *)
Definition release (w : world) (o : option nat) : option world :=
  match o with None => Some w | Some b => do _ <- block w b; Some (World (upd (w_mem w) b None) (w_err w)) end.

(** exceptions.hpp:40 *)
Definition construct (w : world) : world := World (w_mem w) (w_err w ++ [Some (Error stream_new None)]).
(** exceptions.hpp:46-55: both overloads write to acc.  Pieces are the texts the values of type T are printed as. *)
Definition append (w : world) (x : nat) (s : text) : option world :=
  do e <- get w x; Some (set w x (Some (Error (stream_write (e_acc e) s) (e_what e)))).
(** exceptions.hpp:42: a stream made of the text, a copy of the characters of _what *)
Definition copy (w : world) (x : nat) : option world :=
  do e <- get w x;
  match e_what e with
  | None => Some (World (w_mem w) (w_err w ++ [Some (Error (stream_of (s_text (e_acc e))) None)]))
  | Some b => do s <- block w b;
      Some (World (w_mem w ++ [Some s]) (w_err w ++ [Some (Error (stream_of (s_text (e_acc e))) (Some (List.length (w_mem w))))]))
  end.
(** exceptions.hpp:57-64: a new stream, whose text replaces _what; the block of the former _what is released.  The result points to the
    characters of _what. *)
Definition what (w : world) (x : nat) : option (world * nat) :=
  do e <- get w x;
  let out := stream_write (stream_write stream_new (s_text (e_acc e))) (newline :: lit ".. Error occurred on node ") in
  let b := List.length (w_mem w) in
  let w := World (w_mem w ++ [Some (s_text out)]) (w_err w) in
  do w <- release w (e_what e);
  Some (set w x (Some (Error (e_acc e) (Some b))), b).
(** exceptions.hpp:44 *)
Definition destroy (w : world) (x : nat) : option world :=
  do e <- get w x; do w <- release w (e_what e); Some (set w x None).

(** statements of a program: construction, <<, copy construction, what(), end of scope *)
Inductive op := New | Add (x : nat) (s : text) | Copy (x : nat) | What (x : nat) | Drop (x : nat).
Definition step (w : world) (o : op) : option world :=
  match o with
  | New => Some (construct w) | Add x s => append w x s | Copy x => copy w x | What x => do (w, _) <- what w x; Some w | Drop x => destroy w x
  end.
Fixpoint run (w : world) (p : list op) : option world := match p with [] => Some w | o :: p => do w1 <- step w o; run w1 p end.
Definition start : world := World [] [].

(** exceptions.hpp:25 NDA_RUNTIME_ERROR << pieces: the temporary is object [n]; operator<< returns an lvalue, so that throw copies it, and the
    temporary is then destroyed: the exception is object [n + 1].  [line]: the text of __LINE__ *)
Definition throw_error (n : nat) (file line : text) (pieces : list text) : list op :=
  [New] ++ map (Add n) ([lit "Error at "; file; lit " : "; line; [newline; newline]] ++ pieces) ++ [Copy n; Drop n].
(** exceptions.hpp:27-30 NDA_ASSERT(X) and NDA_ASSERT2(X, pieces); [x]: the source text of X *)
Definition nda_assert (holds : bool) (n : nat) (file line x : text) : list op := if holds then [] else throw_error n file line [x].
Definition nda_assert2 (holds : bool) (n : nat) (file line x : text) (pieces : list text) : list op :=
  if holds then [] else throw_error n file line (x :: (newline :: lit " ") :: pieces).
