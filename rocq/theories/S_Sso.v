(** What programs with small-size-optimised handles should do: every variable in scope has its own list of elements. *)
From Verif Require Import Base M_Handle M_Sso.

Section Values.
Context {A : Type}.
Variable (t : traits) (dflt zero : A) (cap : nat).

(** the values of the variables: None is out of scope; an element None is unspecified *)
Notation vals := (list (option (list (option A)))).
Definition val (s : vals) (v : nat) : option (list (option A)) := match nth_error s v with Some x => x | None => None end.
Definition fresh (s : vals) (v : nat) : bool := match nth_error s v with Some None => true | _ => false end.

Definition start_with (n : nat) (i : init) : list (option A) :=
  match i with
  | Raw => repeat None n
  | Zero => repeat (Some zero) n
  | Default => repeat (if t_trivial t || t_complex t then None else Some dflt) n
  end.

(** one statement; None: not a legal program *)
Definition val_step (s : vals) (o : sop (A := A)) : option vals :=
  match o with
  | SDeclare v => if fresh s v then Some (upd s v (Some [])) else None
  | SNew v n i => if fresh s v && match i with Default => true | _ => t_tcopy t end then Some (upd s v (Some (start_with n i))) else None
  | SFrom v l => if fresh s v then Some (upd s v (Some (map Some l))) else None
  | SCopy v x => if fresh s v then match val s x with Some l => Some (upd s v (Some l)) | None => None end else None
  | SMove v x => if fresh s v then match val s x with Some l => Some (upd (upd s v (Some l)) x (Some [])) | None => None end else None
  | SAssignCopy v x => match val s v, val s x with Some _, Some l => Some (upd s v (Some l)) | _, _ => None end
  | SAssignMove v x => match val s v, val s x with Some _, Some l => Some (upd (upd s v (Some l)) x (Some [])) | _, _ => None end
  | SWrite v i a => match val s v with
                    | Some l => if Nat.ltb i (length l) then Some (upd s v (Some (upd l i (Some a)))) else None
                    | None => None
                    end
  | SEnd v => match val s v with Some _ => Some (upd s v None) | None => None end
  end.

(** the statements the code gets right: no self-assignment of a non-empty handle, except by copy when it is of a trivial
    type and fits the buffer or by move when it is of a trivially copyable type or on the heap; a small handle is
    moved only if its type is trivially copyable *)
Definition careful (s : vals) (o : sop (A := A)) : bool :=
  let small l := negb (Nat.eqb (length l) 0) && Nat.leb (length l) cap in
  match o with
  | SAssignCopy v x => negb (Nat.eqb v x) ||
                       match val s v with Some l => Nat.eqb (length l) 0 || (t_trivial t && small l) | None => true end
  | SMove v x | SAssignMove v x => t_tcopy t || match val s x with Some l => negb (small l) | None => true end
  | _ => true
  end.
Fixpoint val_run (s : vals) (p : list (sop (A := A))) : option vals :=
  match p with
  | [] => Some s
  | o :: p' => if careful s o then match val_step s o with Some s' => val_run s' p' | None => None end else None
  end.

(** the same without the restriction *)
Fixpoint val_history (s : vals) (p : list (sop (A := A))) : option vals :=
  match p with
  | [] => Some s
  | o :: p' => match val_step s o with Some s' => val_history s' p' | None => None end
  end.

(** a variable in scope has the size and the elements it should have *)
Definition sees (H : heap A) (q : sso) (l : list (option A)) : Prop :=
  q_size q = length l /\ (l = [] <-> q_data q = None)
  /\ forall i a, nth_error l i = Some (Some a) -> exists b, q_data q = Some b /\ read_cell H b i = Some (Some a).
Definition right_values (w : sworld A) (s : vals) : Prop :=
  forall v, match val s v with
            | Some l => exists q, getv (sw_v w) v = Some q /\ sees (sw_heap w) q l
            | None => getv (sw_v w) v = None
            end.
(** the memory in use is exactly the buffers of the variables in scope and what they point to *)
Definition right_memory (w : sworld A) : Prop :=
  forall b, (exists cells, nth_error (sw_heap w) b = Some (Block true cells))
            <-> exists v q, getv (sw_v w) v = Some q /\ (q_buf q = b \/ q_data q = Some b).
(** no two variables use the same memory *)
Definition disjoint (w : sworld A) : Prop :=
  forall u v p q b, u <> v -> getv (sw_v w) u = Some p -> getv (sw_v w) v = Some q ->
    (q_buf p = b \/ q_data p = Some b) -> (q_buf q = b \/ q_data q = Some b) -> False.
End Values.
