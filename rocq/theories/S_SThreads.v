(** What threads that share arrays should do: what each handle refers to, programs that are legal by themselves, arrays used apart, and the
    states of memory between which the threads run. *)
From Verif Require Import Base M_Handle M_SThreads.

(** What a variable refers to: None - it does not exist; Some None - nothing (empty or moved from); Some (Some (b, n)) - block [b] with [n]
    elements. *)
Notation ref := (option (option (nat * nat))).
Definition refers_to (h : hshared) : option (nat * nat) :=
  match s_sptr h, s_data h with Some _, Some b => Some (b, s_size h) | _, _ => None end.
Definition array_refers_to (h : hheap) : option (nat * nat) := match h_data h with Some b => Some (b, h_size h) | None => None end.
Definition refs (vars : list (option hshared)) : list ref := map (option_map refers_to) vars.
Definition array_refs (l : list (option hheap)) : list ref := map (option_map array_refers_to) l.

(** One program alone, in terms of what variables and arrays refer to; None - the program is not legal. *)
Definition ref_step (v a : list ref) (st : sstmt) : option (list ref * list ref) :=
  match st with
  | TShare s x => match nth_error v s, nth_error a x with Some None, Some (Some r) => Some (upd v s (Some r), a) | _, _ => None end
  | TCopy s x => match nth_error v s, nth_error v x with Some None, Some (Some r) => Some (upd v s (Some r), a) | _, _ => None end
  | TCopyAssign s x => match nth_error v s, nth_error v x with Some (Some _), Some (Some r) => Some (upd v s (Some r), a) | _, _ => None end
  | TMove s x =>
      match nth_error v s, nth_error v x with Some None, Some (Some r) => Some (upd (upd v s (Some r)) x (Some None), a) | _, _ => None end
  | TMoveAssign s x =>
      match nth_error v s, nth_error v x with
      | Some (Some _), Some (Some r) => if Nat.eqb s x then Some (v, a) else Some (upd (upd v s (Some r)) x (Some None), a)
      | _, _ => None
      end
  | TUse s i => match nth_error v s with Some (Some (Some (_, n))) => if Nat.ltb i n then Some (v, a) else None | _ => None end
  | TEnd s => match nth_error v s with Some (Some _) => Some (upd v s None, a) | _ => None end
  | TDrop x => match nth_error a x with Some (Some _) => Some (v, upd a x None) | _ => None end
  end.
Fixpoint ref_run (v a : list ref) (p : list sstmt) : option (list ref * list ref) :=
  match p with [] => Some (v, a) | st :: p' => match ref_step v a st with Some (v1, a1) => ref_run v1 a1 p' | None => None end end.

Definition mentions (p : list sstmt) (a : nat) : Prop := (exists s, In (TShare s a) p) \/ In (TDrop a) p.
(** Arrays are used apart: an array two threads share from has been shared before (or is empty), and ends in neither of them. *)
Definition arrays_apart (w : common) (ts : list sthread) : Prop :=
  forall i j t u a, i <> j -> nth_error ts i = Some t -> nth_error ts j = Some u -> mentions (st_prog t) a -> mentions (st_prog u) a ->
    (exists h, nth_error (cm_arrays w) a = Some (Some h) /\ (h_sptr h <> None \/ h_data h = None)) /\ ~ In (TDrop a) (st_prog t).
(** Every thread is at the beginning of a program that is legal by itself. *)
Definition ready (w : common) (ts : list sthread) : Prop :=
  forall t, In t ts -> st_now t = None /\ ref_run (refs (st_vars t)) (array_refs (cm_arrays w)) (st_prog t) <> None.

(** Owners of control block [c]: shared handles of all threads, and arrays. *)
Definition owns_s (c : nat) (h : option hshared) : nat :=
  match h with Some h => match s_sptr h with Some d => if Nat.eqb c d then 1%nat else 0%nat | None => 0%nat end | None => 0%nat end.
Definition owns_h (c : nat) (h : option hheap) : nat :=
  match h with Some h => match h_sptr h with Some d => if Nat.eqb c d then 1%nat else 0%nat | None => 0%nat end | None => 0%nat end.
Fixpoint total {T} (f : T -> nat) (l : list T) : nat := match l with [] => 0%nat | x :: l' => (f x + total f l')%nat end.
Definition owners (c : nat) (w : common) (ts : list sthread) : nat :=
  (total (fun t => total (owns_s c) (st_vars t)) ts + total (owns_h c) (cm_arrays w))%nat.

Definition intact (w : common) (b n : nat) : Prop := nth_error (cm_blocks w) b = Some (SBlock true (repeat true n)).
(** released, after every element has been destroyed (if the type has a destructor) *)
Definition released (trivial : bool) (w : common) (b n : nat) : Prop := nth_error (cm_blocks w) b = Some (SBlock false (repeat trivial n)).

(** Who is responsible for a block: a control block that has owners, or an array whose shared pointer is not set. *)
Inductive keeper := KCtrl (c : nat) | KArray (a : nat).
Definition keeps (w : common) (k : keeper) (b n : nat) : Prop :=
  match k with
  | KCtrl c => exists j, nth_error (cm_ctrls w) c = Some (SCtrl (S j) (b, n))
  | KArray a => nth_error (cm_arrays w) a = Some (Some (HHeap (Some b) n None))
  end.
(** Memory is in order: the counts are the numbers of owners; owners agree with their control blocks; every block in use has one keeper and
    is intact. *)
Record in_order (w : common) (ts : list sthread) : Prop := {
  io_count : forall c k, nth_error (cm_ctrls w) c = Some k -> sc_count k = owners c w ts;
  io_shared : forall t h c, In t ts -> In (Some h) (st_vars t) -> s_sptr h = Some c ->
    exists b j, s_data h = Some b /\ nth_error (cm_ctrls w) c = Some (SCtrl j (b, s_size h));
  io_arrays : forall h c, In (Some h) (cm_arrays w) -> h_sptr h = Some c ->
    exists b j, h_data h = Some b /\ nth_error (cm_ctrls w) c = Some (SCtrl j (b, h_size h));
  io_intact : forall k b n, keeps w k b n -> intact w b n;
  io_one : forall k k' b n n', keeps w k b n -> keeps w k' b n' -> k = k' }.

(** Two threads race: they are about to access the shared pointer of the same array and one of them changes it. *)
Definition next_array (t : sthread) : option (bool * nat) :=
  match st_now t with
  | Some (MLook _ a) | Some (MJoin _ a) => Some (false, a)
  | Some (MReset _ a) | Some (MDrop a) => Some (true, a)
  | _ => None
  end.
Definition s_race (ts : list sthread) : Prop :=
  exists i j t u w1 w2 a, i <> j /\ nth_error ts i = Some t /\ nth_error ts j = Some u /\
    next_array t = Some (w1, a) /\ next_array u = Some (w2, a) /\ (w1 = true \/ w2 = true).
Definition s_all_done (ts : list sthread) : Prop := forall t, In t ts -> s_finished t = true.

(** something still refers to block [b] *)
Definition referred (w : common) (ts : list sthread) (b : nat) : Prop :=
  (exists t h n, In t ts /\ In (Some h) (st_vars t) /\ refers_to h = Some (b, n)) \/
  (exists h n, In (Some h) (cm_arrays w) /\ array_refers_to h = Some (b, n)).

(** Memory of new arrays with the given numbers of elements (an array without elements is empty), before any of them has been shared. *)
Fixpoint new_arrays (b : nat) (sizes : list nat) : list (option hheap) :=
  match sizes with [] => [] | n :: l => Some (HHeap (if Nat.eqb n 0 then None else Some b) n None) :: new_arrays (S b) l end.
Definition new_memory (sizes : list nat) : common := Common (map (fun n => SBlock true (repeat true n)) sizes) [] (new_arrays 0 sizes).
