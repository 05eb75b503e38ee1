(** Model of c++/nda/mpi.hpp, mpi/scatter.hpp, mpi/gather.hpp and mpi/reduce.hpp.

    A communicator is the list of its processes; each has its own memory, the right hand side array and the target.  All
    processes call the same function; the collective MPI calls are functions of the data all processes pass to them, as the
    MPI standard defines them.  [None]: a process throws NDA_RUNTIME_ERROR, or an MPI call is used erroneously (counts that do
    not match, negative counts, overlapping buffers).  MPI is initialised (mpi::has_env), element types have an MPI type. *)
From Verif Require Import Base M_Perm M_IdxMap M_Loops M_Assign M_Expr M_Transform.

(** conversion of a long to int (sendcounts, displs, ... are int) *)
Definition to_int (z : Z) : Z := (z + 2147483648) mod 4294967296 - 2147483648.
(** addition of two ints; None: overflow *)
Definition add_int (a b : Z) : option Z := let c := a + b in if (-2147483648 <=? c) && (c <? 2147483648) then Some c else None.

(** mpi::chunk_length(end, n_nodes, r) of the mpi library *)
Definition chunk_length (e : Z) (n r : nat) : Z := e / Z.of_nat n + (if Z.of_nat r <? e mod Z.of_nat n then 1 else 0).

(** the target of the assignment: an array ([nb]: the address of its storage should it be reallocated) or a view *)
Inductive target := TArray (cur : view) (nb : Z) | TView (cur : view).
Definition tgt_view (t : target) : view := match t with TArray v _ => v | TView v => v end.
(** basic_array.hpp:412-416 [resize]: the storage is kept if the number of elements is the same *)
Definition resized (v : view) (nb : Z) (sha : list Z) : view := new_array (im_so (v_lay v)) (if size (v_lay v) =? prodZ sha then v_base v else nb) sha.
(** basic_functions.hpp:215-225 [resize_or_check_if_view] *)
Definition resize_or_check (t : target) (sha : list Z) : option view :=
  if list_eq_dec Z.eq_dec (im_len (v_lay (tgt_view t))) sha then Some (tgt_view t)
  else match t with TArray v nb => Some (resized v nb sha) | TView _ => None end.

(** a process; a.data() is [v_base] *)
Record proc (V : Type) := Proc { p_mem : mem V; p_rhs : view; p_tgt : target }.
Arguments Proc {V}. Arguments p_mem {V}. Arguments p_rhs {V}. Arguments p_tgt {V}.

Fixpoint all_some {A} (l : list (option A)) : option (list A) :=
  match l with
  | [] => Some []
  | Some x :: l' => match all_some l' with Some r => Some (x :: r) | None => None end
  | None :: _ => None
  end.
(** what every process computes *)
Definition ranks {A B} (f : nat -> A -> option B) (ps : list A) : option (list B) :=
  all_some (map (fun rp => f (fst rp) (snd rp)) (combine (seq 0 (length ps)) ps)).

Section Mpi.
Context {V : Type}.

(** MPI moving [n] elements from address [s] of one memory to address [d] of another *)
Definition transfer (src : mem V) (s : Z) (m : mem V) (d n : Z) : mem V := fold_left (fun m k => mset m (d + k) (src (s + k))) (zseq n) m.
Definition apart (a n b k : Z) : bool := (n <=? 0) || (k <=? 0) || (a + n <=? b) || (b + k <=? a).

(** the displacements: displs[r + 1] = counts[r] + displs[r], scatter.hpp:67-70, gather.hpp:79 *)
Fixpoint displs_from (d : Z) (counts : list Z) : option (list Z) :=
  match counts with
  | [] => Some [d]
  | c :: counts' => match add_int c d with
                    | None => None
                    | Some d' => match displs_from d' counts' with Some l => Some (d :: l) | None => None end
                    end
  end.

(** both mpi_scatter/mpi_gather/mpi_reduce (a.is_contiguous()) and [invoke] (target.is_contiguous()): scatter.hpp:47, 94, gather.hpp:52, 106, reduce.hpp:43, 107 *)
Definition contiguous_args (p : proc V) : bool := is_contiguous (v_lay (p_rhs p)) && is_contiguous (v_lay (tgt_view (p_tgt p))).

(** ** scatter *)
(** scatter.hpp:36-42 [shape]: [slow] is the value of slow_size the root broadcasts *)
Definition scatter_shape (n r : nat) (slow : Z) (p : proc V) : list Z := upd (im_len (v_lay (p_rhs p))) 0 (chunk_length slow n r).
(** scatter.hpp:60-70: counts of one process, from its own slow_size and slow_stride *)
Definition scatter_count (n r : nat) (p : proc V) : Z := to_int (chunk_length (nthZ (im_len (v_lay (p_rhs p))) 0) n r * nthZ (im_str (v_lay (p_rhs p))) 0).
Definition scatter_counts (n : nat) (p : proc V) : list Z := map (fun r => scatter_count n r p) (seq 0 n).
(** scatter.hpp:46-73 [invoke]; the last step is MPI_Scatterv: process r receives sendcounts[r] elements, starting at displs[r], of the root *)
Definition scatter_rank (n root : nat) (proot : proc V) (displs : list Z) (r : nat) (p : proc V) : option (mem V * view) :=
  if contiguous_args p then
    match resize_or_check (p_tgt p) (scatter_shape n r (nthZ (im_len (v_lay (p_rhs proot))) 0) p), displs_from 0 (scatter_counts n p) with
    | Some tv, Some _ =>
        let recvcount := scatter_count n r p in
        let sendcount := nthZ (scatter_counts n proot) r in
        let from := v_base (p_rhs proot) + nthZ displs r in
        if (0 <=? recvcount) && (recvcount =? sendcount) && (negb (r =? root)%nat || apart from recvcount (v_base tv) recvcount)
        then Some (transfer (p_mem proot) from (p_mem p) (v_base tv) recvcount, tv) else None
    | _, _ => None
    end
  else None.
Definition scatter (root : nat) (ps : list (proc V)) : option (list (mem V * view)) :=
  match nth_error ps root with
  | None => None
  | Some proot => match displs_from 0 (scatter_counts (length ps) proot) with
                  | None => None
                  | Some displs => ranks (scatter_rank (length ps) root proot displs) ps
                  end
  end.

(** ** gather *)
(** gather.hpp:37-47 [shape]: the sum of the slow sizes of all processes (mpi::reduce, mpi::all_reduce) *)
Definition slow_size (p : proc V) : Z := nthZ (im_len (v_lay (p_rhs p))) 0.
Definition gather_shape (all : bool) (root r : nat) (total : Z) (p : proc V) : list Z :=
  upd (im_len (v_lay (p_rhs p))) 0 (if negb all && negb (r =? root)%nat then 1 else total).
(** gather.hpp:64: sendcount *)
Definition gather_count (p : proc V) : Z := to_int (size (v_lay (p_rhs p))).
(** MPI_Gatherv / MPI_Allgatherv on a receiving process: the data of process q goes to displs[q] *)
Definition gatherv (ps : list (proc V)) (counts displs : list Z) (m : mem V) (d : Z) : mem V :=
  fold_left (fun m q => match nth_error ps q with
                        | Some p => transfer (p_mem p) (v_base (p_rhs p)) m (d + nthZ displs q) (nthZ counts q)
                        | None => m
                        end) (seq 0 (length ps)) m.
(** gather.hpp:51-85 [invoke] *)
Definition gather_rank (all : bool) (root : nat) (ps : list (proc V)) (r : nat) (p : proc V) : option (mem V * view) :=
  if contiguous_args p then
    if all || (r =? root)%nat then
      match resize_or_check (p_tgt p) (gather_shape all root r (sumZ (map slow_size ps)) p) with
      | None => None
      | Some tv =>
          let counts := map gather_count ps in
          match displs_from 0 counts with
          | None => None
          | Some displs =>
              if forallb (fun c => 0 <=? c) counts && apart (v_base (p_rhs p)) (gather_count p) (v_base tv) (sumZ counts)
              then Some (gatherv ps counts displs (p_mem p) (v_base tv), tv) else None
          end
      end
    else Some (p_mem p, tgt_view (p_tgt p))
  else None.
Definition gather (all : bool) (root : nat) (ps : list (proc V)) : option (list (mem V * view)) :=
  if (root <? length ps)%nat then ranks (gather_rank all root ps) ps else None.

(** ** reduce: [red r k l] is the value MPI computes on process r for element k from the elements l of all processes *)
Variable red : nat -> Z -> list V -> V.
Definition reduced (ps : list (proc V)) (r : nat) (n : Z) (m : mem V) (d : Z) : mem V :=
  fold_left (fun m k => mset m (d + k) (red r k (map (fun p => p_mem p (v_base (p_rhs p) + k)) ps))) (zseq n) m.
(** reduce.hpp:58-65: the checks; the result is where the reduced elements go *)
Definition in_place (p : proc V) : bool := v_base (tgt_view (p_tgt p)) =? v_base (p_rhs p).
Definition reduce_target (all : bool) (root r : nat) (p : proc V) : option view :=
  let rhs := p_rhs p in
  if in_place p then
    if size (v_lay rhs) =? size (v_lay (tgt_view (p_tgt p))) then Some (tgt_view (p_tgt p)) else None
  else
    match (if (r =? root)%nat || all then resize_or_check (p_tgt p) (im_len (v_lay rhs)) else Some (tgt_view (p_tgt p))) with
    | None => None
    | Some tv => if Z.abs (v_base tv - v_base rhs) <? size (v_lay rhs) then None else Some tv
    end.
(** reduce.hpp:42-84 [invoke].  The counts of all processes must agree; with MPI_Allreduce all or no processes pass MPI_IN_PLACE. *)
Definition reduce_rank (all : bool) (root : nat) (ps : list (proc V)) (count : Z) (inpl : bool) (r : nat) (p : proc V) : option (mem V * view) :=
  if contiguous_args p && (to_int (size (v_lay (p_rhs p))) =? count) && (0 <=? count) && (negb all || eqb (in_place p) inpl) then
    match reduce_target all root r p with
    | None => None
    | Some tv => if all || (r =? root)%nat
                 then Some (reduced ps r count (p_mem p) (if in_place p then v_base (p_rhs p) else v_base tv), tv)
                 else Some (p_mem p, tv)
    end
  else None.
Definition reduce (all : bool) (root : nat) (ps : list (proc V)) : option (list (mem V * view)) :=
  match nth_error ps root with
  | None => None
  | Some proot => ranks (reduce_rank all root ps (to_int (size (v_lay (p_rhs proot)))) (in_place proot)) ps
  end.

(** ** assignment and construction *)
(** basic_array.hpp:384-389 and basic_array_view.hpp:219-224 [operator=] of an ArrayInitializer, before its [invoke]: an array is resized to
    the shape of the initializer, which frees its old storage if the number of elements changes (None: the right hand side refers to it and
    would be used after it was freed; on processes where scatter does not read its right hand side the program would go on); a view must have
    this shape, which is checked in debug builds.  basic_array.hpp:183-186, construction from an initializer, is the assignment to a new
    empty array. *)
Definition begin_assign (checks : bool) (rhs : view) (t : target) (sha : list Z) : option target :=
  match t with
  | TArray v nb => if (size (v_lay v) =? prodZ sha) || apart (v_base rhs) (size (v_lay rhs)) (v_base v) (size (v_lay v)) then Some (TArray (resized v nb sha) nb) else None
  | TView v => if checks && negb (if list_eq_dec Z.eq_dec (im_len (v_lay v)) sha then true else false) then None else Some t
  end.
Definition begin_all (checks : bool) (sha : nat -> proc V -> list Z) (ps : list (proc V)) : option (list (proc V)) :=
  ranks (fun r p => match begin_assign checks (p_rhs p) (p_tgt p) (sha r p) with Some t => Some (Proc (p_mem p) (p_rhs p) t) | None => None end) ps.
Definition scatter_assign (checks : bool) (root : nat) (ps : list (proc V)) : option (list (mem V * view)) :=
  match nth_error ps root with
  | None => None
  | Some proot => match begin_all checks (fun r p => scatter_shape (length ps) r (nthZ (im_len (v_lay (p_rhs proot))) 0) p) ps with Some ps => scatter root ps | None => None end
  end.
Definition gather_assign (checks all : bool) (root : nat) (ps : list (proc V)) : option (list (mem V * view)) :=
  match begin_all checks (fun r p => gather_shape all root r (sumZ (map slow_size ps)) p) ps with Some ps => gather all root ps | None => None end.
Definition reduce_assign (checks all : bool) (root : nat) (ps : list (proc V)) : option (list (mem V * view)) :=
  match begin_all checks (fun r p => im_len (v_lay (p_rhs p))) ps with Some ps => reduce all root ps | None => None end.

(** ** broadcast *)
(** mpi.hpp:36-45 [mpi_broadcast] of the target of each process; the layout type is contiguous *)
Definition broadcast_rank (root : nat) (mroot : mem V) (vroot : view) (r : nat) (p : proc V) : option (mem V * view) :=
  if (r =? root)%nat then if 0 <=? to_int (size (v_lay (tgt_view (p_tgt p)))) then Some (p_mem p, tgt_view (p_tgt p)) else None
  else match resize_or_check (p_tgt p) (im_len (v_lay vroot)) with
       | None => None
       | Some tv => if (0 <=? to_int (size (v_lay tv))) && (to_int (size (v_lay tv)) =? to_int (size (v_lay vroot)))
                    then Some (transfer mroot (v_base vroot) (p_mem p) (v_base tv) (to_int (size (v_lay tv))), tv) else None
       end.
Definition broadcast (root : nat) (ps : list (proc V)) : option (list (mem V * view)) :=
  match nth_error ps root with
  | None => None
  | Some p => ranks (broadcast_rank root (p_mem p) (tgt_view (p_tgt p))) ps
  end.
End Mpi.
