(** What programs of several processes with MPI operations should do: one statement after the other, for all processes at once. *)
From Verif Require Import Base M_Perm M_IdxMap M_Loops M_Assign M_Transform M_Mpi M_MpiProc.

Section Meaning.
Context {V : Type}.
Variable red : nat -> Z -> list V -> V.

(** the results of an operation on [y] of every process *)
Definition put_all (ss : list (lstate V)) (y : nat) (res : list (mem V * view)) : list (lstate V) := map (fun sr => put (fst sr) y (fst (snd sr)) (snd (snd sr))) (combine ss res).
Definition on_all (ss : list (lstate V)) (x y : nat) (f : list (proc V) -> option (list (mem V * view))) : option (list (lstate V)) :=
  match all_some (map (fun s => as_proc s x y) ss) with
  | None => None
  | Some ps => match f ps with Some res => Some (put_all ss y res) | None => None end
  end.
(** In release builds y is an array in all processes, or a view in all: the two make different numbers of MPI calls. *)
Definition is_array (t : target) : bool := match t with TArray _ _ => true | TView _ => false end.
Definition one_kind (checks : bool) (ps : list (proc V)) : bool :=
  checks || forallb (fun p => is_array (p_tgt p)) ps || forallb (fun p => negb (is_array (p_tgt p))) ps.
(** y has the same rank in all processes (in C++ the rank is part of its type) *)
Definition one_rank (ps : list (proc V)) : bool :=
  match ps with
  | [] => true
  | p0 :: _ => forallb (fun p => (length (im_len (v_lay (tgt_view (p_tgt p)))) =? length (im_len (v_lay (tgt_view (p_tgt p0)))))%nat) ps
  end.
(** The meaning of a program, with the operations of M_Mpi (C36, C37). *)
Definition meaning1 (checks : bool) (st : stmt V) (ss : list (lstate V)) : option (list (lstate V)) :=
  match st with
  | Local f => ranks f ss
  | Scatter root x y => on_all ss x y (fun ps => if one_kind checks ps then scatter_assign checks root ps else None)
  | Gather all root x y => on_all ss x y (fun ps => if one_kind checks ps then gather_assign checks all root ps else None)
  | Reduce all root x y => on_all ss x y (reduce_assign red checks all root)
  | Broadcast root y => on_all ss y y (fun ps => if one_rank ps then broadcast root ps else None)
  end.
Fixpoint meaning (checks : bool) (prog : list (stmt V)) (ss : list (lstate V)) : option (list (lstate V)) :=
  match prog with
  | [] => Some ss
  | st :: t => match meaning1 checks st ss with Some ss' => meaning checks t ss' | None => None end
  end.

(** calls that belong together: the same function, with the same root unless there is none *)
Definition belong (c c' : call V) : Prop :=
  match c, c' with
  | CBcastL root l, CBcastL root' l' => root = root' /\ length l = length l'
  | CSum all root _, CSum all' root' _ => all = all' /\ root = root'
  | CGatherI all root _, CGatherI all' root' _ => all = all' /\ root = root'
  | CScatterv root _ _, CScatterv root' _ _ => root = root'
  | CGatherv all root _ _, CGatherv all' root' _ _ => all = all' /\ root = root'
  | CReduce all root _ l, CReduce all' root' _ l' => all = all' /\ root = root' /\ length l = length l'
  | CBcast root n _, CBcast root' n' _ => root = root' /\ n = n'
  | _, _ => False
  end.
(** every process gets a turn in each part of the schedule *)
Definition fair (n : nat) (parts : list (list (nat * bool))) : Prop := Forall (fun part => forall r, (r < n)%nat -> exists e, In (r, e) part) parts.
End Meaning.
