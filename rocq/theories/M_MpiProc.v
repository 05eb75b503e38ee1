(** Model of the MPI operations (c++/nda/mpi.hpp, mpi/scatter.hpp, mpi/gather.hpp, mpi/reduce.hpp) as what each single process does: local
    computations and calls of MPI functions, one after the other.  The processes run at their own pace, each with its own memory; an MPI function
    may return as soon as what it needs of the other processes is there, or any time later.  M_Mpi has the same operations as functions of the
    data of all processes; that the two agree for every pace of the processes is C87.  MPI is initialised (mpi::has_env), element types have an
    MPI type, all operations use one communicator. *)
From Verif Require Import Base M_Perm M_IdxMap M_Loops M_Assign M_Expr M_Transform M_Mpi.

Section MpiProc.
Context {V : Type}.

(** The calls of MPI functions with the data they send: mpi.hpp:42, scatter.hpp:39 (MPI_Bcast of longs), gather.hpp:41, 44 (MPI_Reduce and
    MPI_Allreduce of one long), gather.hpp:74-77 (MPI_Gather, MPI_Allgather of one int), scatter.hpp:72 (MPI_Scatterv; the blocks are those of
    the root, other processes send nothing), gather.hpp:81-84 (MPI_Gatherv, MPI_Allgatherv), reduce.hpp:72-82 (MPI_Reduce, MPI_Allreduce), mpi.hpp:44
    (MPI_Bcast).  [all]: the MPI_All... function. *)
Inductive call :=
| CBcastL (root : nat) (l : list Z)
| CSum (all : bool) (root : nat) (z : Z)
| CGatherI (all : bool) (root : nat) (z : Z)
| CScatterv (root : nat) (blocks : list (list V)) (recvcount : Z)
| CGatherv (all : bool) (root : nat) (data : list V) (recvcounts : list Z)
| CReduce (all : bool) (root : nat) (inpl : bool) (data : list V)
| CBcast (root : nat) (count : Z) (data : list V).
(** what a call brings: nothing, numbers, elements, or the elements of each process *)
Inductive reply := RNo | RZ (z : Z) | RZs (l : list Z) | REl (l : list V) | RBl (l : list (list V)).

(** [red r k l] as in M_Mpi: the value MPI computes on process r for element k from the elements l of all processes *)
Variable red : nat -> Z -> list V -> V.

(** The answer to process [r] of [n], of which [get q] is what process q has passed to the matching call, if it has called. *)
Inductive outcome := Wait | Wrong | Got (x : reply).
Definition everyone (n : nat) (get : nat -> option call) : option (list call) := all_some (map get (seq 0 n)).
Definition column (k : Z) (datas : list (list V)) : list V := flat_map (fun l => match nth_error l (Z.to_nat k) with Some x => [x] | None => [] end) datas.
(** on the processes that receive from all others: wait for everyone, and combine what they passed, if it matches *)
Definition collect {B} (n : nat) (get : nat -> option call) (f : call -> option B) (g : list B -> option reply) : outcome :=
  match everyone n get with
  | None => Wait
  | Some cs => match all_some (map f cs) with
               | Some l => match g l with Some x => Got x | None => Wrong end
               | None => Wrong
               end
  end.
Definition answer (n r : nat) (c : call) (get : nat -> option call) : outcome :=
  match c with
  | CBcastL root l =>
      match get root with
      | None => Wait
      | Some (CBcastL root' l') => if (root =? root')%nat && (length l =? length l')%nat then Got (RZs l') else Wrong
      | Some _ => Wrong
      end
  | CSum all root _ =>
      if all || (r =? root)%nat
      then collect n get (fun c' => match c' with CSum all' root' z => if eqb all all' && (all || (root =? root')%nat) then Some z else None | _ => None end) (fun l => Some (RZ (sumZ l)))
      else Got RNo
  | CGatherI all root _ =>
      if all || (r =? root)%nat
      then collect n get (fun c' => match c' with CGatherI all' root' z => if eqb all all' && (all || (root =? root')%nat) then Some z else None | _ => None end) (fun l => Some (RZs l))
      else Got RNo
  | CScatterv root _ recvcount =>
      match get root with
      | None => Wait
      | Some (CScatterv root' blocks _) =>
          match nth_error blocks r with
          | Some b => if (root =? root')%nat && (Z.of_nat (length b) =? recvcount) then Got (REl b) else Wrong
          | None => Wrong
          end
      | Some _ => Wrong
      end
  | CGatherv all root _ recvcounts =>
      if all || (r =? root)%nat
      then collect n get (fun c' => match c' with CGatherv all' root' d _ => if eqb all all' && (all || (root =? root')%nat) then Some d else None | _ => None end)
             (fun l => if list_eq_dec Z.eq_dec (map (fun d => Z.of_nat (length d)) l) recvcounts then Some (RBl l) else None)
      else Got RNo
  | CReduce all root inpl data =>
      if all || (r =? root)%nat
      then collect n get (fun c' => match c' with CReduce all' root' inpl' d => if eqb all all' && (all || (root =? root')%nat) && (negb all || eqb inpl inpl') && (length d =? length data)%nat then Some d else None | _ => None end)
             (fun l => Some (REl (map (fun k => red r k (column k l)) (zseq (Z.of_nat (length data))))))
      else Got RNo
  | CBcast root count _ =>
      match get root with
      | None => Wait
      | Some (CBcast root' count' d) => if (root =? root')%nat && (count =? count') then Got (if (r =? root)%nat then RNo else REl d) else Wrong
      | Some _ => Wrong
      end
  end.

(** ** What a process does *)
(** its memory and its variables *)
Record lstate := LState { l_mem : mem V; l_vars : list target }.
(** [Fin]: the end of the program; [Bad]: an exception, or buffers that MPI does not allow; [Call]: a call, and what happens with its result *)
Inductive act := Fin (s : lstate) | Bad | Call (c : call) (k : reply -> act).

(** the [n] elements from address [a] on, and writing elements to addresses from [a] on *)
Definition read (m : mem V) (a n : Z) : list V := map (fun k => m (a + k)) (zseq n).
Fixpoint store (m : mem V) (a : Z) (l : list V) : mem V := match l with [] => m | x :: l' => store (mset m a x) (a + 1) l' end.

(** [operator=] of an ArrayInitializer before its [invoke], basic_array.hpp:384-389 and basic_array_view.hpp:219-224: an array asks for the shape
    of the initializer in order to be resized; a view asks for it in debug builds only, to check it.  [sh]: what shape() does. *)
Definition begin_act (checks : bool) (sh : (list Z -> act) -> act) (p : proc V) (k : proc V -> act) : act :=
  let next := fun sha => match begin_assign checks (p_rhs p) (p_tgt p) sha with Some t => k (Proc (p_mem p) (p_rhs p) t) | None => Bad end in
  match p_tgt p with
  | TArray _ _ => sh next
  | TView _ => if checks then sh next else k p
  end.

(** scatter.hpp:36-42 [shape] *)
Definition scatter_shape_act (n root r : nat) (p : proc V) (k : list Z -> act) : act :=
  Call (CBcastL root [nthZ (im_len (v_lay (p_rhs p))) 0]) (fun x => match x with RZs [slow] => k (scatter_shape n r slow p) | _ => Bad end).
(** scatter.hpp:46-73 [invoke] *)
Definition scatter_invoke (n root r : nat) (p : proc V) (k : mem V -> view -> act) : act :=
  if is_contiguous (v_lay (tgt_view (p_tgt p))) then
    scatter_shape_act n root r p (fun sha =>
    match resize_or_check (p_tgt p) sha, displs_from 0 (scatter_counts n p) with
    | Some tv, Some displs =>
        let recvcount := scatter_count n r p in
        let part q := read (p_mem p) (v_base (p_rhs p) + nthZ displs q) (nthZ (scatter_counts n p) q) in
        if (0 <=? recvcount) && (negb (r =? root)%nat || apart (v_base (p_rhs p) + nthZ displs r) recvcount (v_base tv) recvcount) then
          Call (CScatterv root (if (r =? root)%nat then map part (seq 0 n) else []) recvcount)
               (fun x => match x with REl l => k (store (p_mem p) (v_base tv) l) tv | _ => Bad end)
        else Bad
    | _, _ => Bad
    end)
  else Bad.
(** scatter.hpp:89-97 [mpi_scatter] in an assignment *)
Definition scatter_act (checks : bool) (n root r : nat) (p : proc V) (k : mem V -> view -> act) : act :=
  if is_contiguous (v_lay (p_rhs p)) then begin_act checks (scatter_shape_act n root r p) p (fun p => scatter_invoke n root r p k) else Bad.

(** gather.hpp:37-47 [shape]; where nothing is received the result of mpi::reduce is not used *)
Definition gather_shape_act (all : bool) (root r : nat) (p : proc V) (k : list Z -> act) : act :=
  Call (CSum all root (slow_size p)) (fun x => match x with RZ total => k (gather_shape all root r total p) | RNo => k (gather_shape all root r 0 p) | _ => Bad end).
(** the elements of process q go to displs[q] *)
Definition place (m : mem V) (d : Z) (displs : list Z) (blocks : list (list V)) : mem V :=
  fold_left (fun m q => match nth_error blocks q with Some l => store m (d + nthZ displs q) l | None => m end) (seq 0 (length blocks)) m.
(** gather.hpp:51-85 [invoke]; where nothing is received recvcounts remains zero and is not used *)
Definition gather_invoke (all : bool) (root r : nat) (p : proc V) (k : mem V -> view -> act) : act :=
  if is_contiguous (v_lay (tgt_view (p_tgt p))) then
    gather_shape_act all root r p (fun sha =>
    match (if all || (r =? root)%nat then resize_or_check (p_tgt p) sha else Some (tgt_view (p_tgt p))) with
    | None => Bad
    | Some tv =>
        let data := read (p_mem p) (v_base (p_rhs p)) (gather_count p) in
        Call (CGatherI all root (gather_count p)) (fun x =>
        match x with
        | RZs counts =>
            match displs_from 0 counts with
            | None => Bad
            | Some displs =>
                if forallb (fun c => 0 <=? c) counts && apart (v_base (p_rhs p)) (gather_count p) (v_base tv) (sumZ counts)
                then Call (CGatherv all root data counts) (fun y => match y with RBl bl => k (place (p_mem p) (v_base tv) displs bl) tv | _ => Bad end)
                else Bad
            end
        | RNo => Call (CGatherv all root data []) (fun y => match y with RNo => k (p_mem p) tv | _ => Bad end)
        | _ => Bad
        end)
    end)
  else Bad.
(** gather.hpp:101-109 [mpi_gather] in an assignment *)
Definition gather_act (checks all : bool) (root r : nat) (p : proc V) (k : mem V -> view -> act) : act :=
  if is_contiguous (v_lay (p_rhs p)) then begin_act checks (gather_shape_act all root r p) p (fun p => gather_invoke all root r p k) else Bad.

(** reduce.hpp:42-84 [invoke] *)
Definition reduce_invoke (all : bool) (root r : nat) (p : proc V) (k : mem V -> view -> act) : act :=
  if is_contiguous (v_lay (tgt_view (p_tgt p))) then
    match reduce_target all root r p with
    | None => Bad
    | Some tv =>
        let count := to_int (size (v_lay (p_rhs p))) in
        if 0 <=? count then
          Call (CReduce all root (in_place p) (read (p_mem p) (v_base (p_rhs p)) count))
               (fun x => match x with REl l => k (store (p_mem p) (if in_place p then v_base (p_rhs p) else v_base tv) l) tv | RNo => k (p_mem p) tv | _ => Bad end)
        else Bad
    end
  else Bad.
(** reduce.hpp:102-110 [mpi_reduce] in an assignment; reduce.hpp:38: shape() makes no call *)
Definition reduce_act (checks all : bool) (root r : nat) (p : proc V) (k : mem V -> view -> act) : act :=
  if is_contiguous (v_lay (p_rhs p)) then begin_act checks (fun k => k (im_len (v_lay (p_rhs p)))) p (fun p => reduce_invoke all root r p k) else Bad.

(** mpi.hpp:36-45 [mpi_broadcast] of the target *)
Definition broadcast_act (root r : nat) (p : proc V) (k : mem V -> view -> act) : act :=
  Call (CBcastL root (im_len (v_lay (tgt_view (p_tgt p))))) (fun x =>
  match x with
  | RZs sh =>
      match (if (r =? root)%nat then Some (tgt_view (p_tgt p)) else resize_or_check (p_tgt p) sh) with
      | None => Bad
      | Some tv =>
          let count := to_int (size (v_lay tv)) in
          if 0 <=? count then
            Call (CBcast root count (if (r =? root)%nat then read (p_mem p) (v_base tv) count else []))
                 (fun y => match y with REl l => k (store (p_mem p) (v_base tv) l) tv | RNo => k (p_mem p) tv | _ => Bad end)
          else Bad
      end
  | _ => Bad
  end).

(** ** Programs *)
(** y = scatter(x), y = gather(x), y = reduce(x), broadcast(y), and computations of each process on its own: [f r] on process r (None: an exception).
    The local computations also stand for the allocator: they may set where the next storage of a variable will be. *)
Inductive stmt :=
| Local (f : nat -> lstate -> option lstate)
| Scatter (root x y : nat)
| Gather (all : bool) (root x y : nat)
| Reduce (all : bool) (root x y : nat)
| Broadcast (root y : nat).
(** the process as M_Mpi has it, for an operation on x and y *)
Definition as_proc (s : lstate) (x y : nat) : option (proc V) :=
  match nth_error (l_vars s) x, nth_error (l_vars s) y with
  | Some a, Some b => Some (Proc (l_mem s) (tgt_view a) b)
  | _, _ => None
  end.
(** the state after an operation that leaves [y] as [tv] *)
Definition retarget (t : target) (tv : view) : target := match t with TArray _ nb => TArray tv nb | TView _ => TView tv end.
Definition put (s : lstate) (y : nat) (m : mem V) (tv : view) : lstate :=
  LState m (match nth_error (l_vars s) y with Some t => upd (l_vars s) y (retarget t tv) | None => l_vars s end).
Definition on_proc (s : lstate) (x y : nat) (f : proc V -> act) : act := match as_proc s x y with Some p => f p | None => Bad end.
(** process [r] of [n] running a program *)
Fixpoint prog_act (checks : bool) (n r : nat) (prog : list stmt) (s : lstate) : act :=
  match prog with
  | [] => Fin s
  | Local f :: t => match f r s with Some s => prog_act checks n r t s | None => Bad end
  | Scatter root x y :: t => on_proc s x y (fun p => scatter_act checks n root r p (fun m tv => prog_act checks n r t (put s y m tv)))
  | Gather all root x y :: t => on_proc s x y (fun p => gather_act checks all root r p (fun m tv => prog_act checks n r t (put s y m tv)))
  | Reduce all root x y :: t => on_proc s x y (fun p => reduce_act checks all root r p (fun m tv => prog_act checks n r t (put s y m tv)))
  | Broadcast root y :: t => on_proc s y y (fun p => broadcast_act root r p (fun m tv => prog_act checks n r t (put s y m tv)))
  end.

(** ** The processes together *)
(** [sent]: the calls a process has made so far; [got]: how many of them have returned *)
Record pstate := PState { sent : list call; got : nat; cur : act }.
Definition start (checks : bool) (prog : list stmt) (ss : list lstate) : list pstate :=
  map (fun rs => PState [] 0 (prog_act checks (length ss) (fst rs) prog (snd rs))) (combine (seq 0 (length ss)) ss).
(** what process [q] has passed to its call number [k] *)
Definition passed (S : list pstate) (k q : nat) : option call := match nth_error S q with Some p => nth_error (sent p) k | None => None end.
(** Process [r] gets a turn: it makes its next call, or a call returns.  If not [early], the call returns only if all processes have made it (MPI
    functions may, but need not, wait for all).  None: the processes make calls that do not match. *)
Definition turn (S : list pstate) (r : nat) (early : bool) : option (list pstate) :=
  match nth_error S r with
  | None => Some S
  | Some p =>
      match cur p with
      | Call c k =>
          if (length (sent p) =? got p)%nat then Some (upd S r (PState (sent p ++ [c]) (got p) (cur p)))
          else if early || match everyone (length S) (passed S (got p)) with Some _ => true | None => false end then
            match answer (length S) r c (passed S (got p)) with
            | Wait => Some S
            | Wrong => None
            | Got x => Some (upd S r (PState (sent p) (Datatypes.S (got p)) (k x)))
            end
          else Some S
      | _ => Some S
      end
  end.
Fixpoint turns (S : list pstate) (sched : list (nat * bool)) : option (list pstate) :=
  match sched with
  | [] => Some S
  | (r, e) :: sched' => match turn S r e with Some S' => turns S' sched' | None => None end
  end.
(** process [r] has come to the end of its program, with state [s] *)
Definition ended (S : list pstate) (r : nat) (s : lstate) : Prop := exists p, nth_error S r = Some p /\ cur p = Fin s.
End MpiProc.
Arguments act : clear implicits. Arguments call : clear implicits. Arguments reply : clear implicits. Arguments lstate : clear implicits.
Arguments stmt : clear implicits. Arguments pstate : clear implicits. Arguments outcome : clear implicits.
