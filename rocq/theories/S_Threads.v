(** What programs with threads should do: ownership of the elements of shared arrays, the effect of a thread on its own, and the arrays
    after the threads have ended. *)
From Verif Require Import Base M_Perm M_IdxMap M_Loops S_Layout S_Loops M_Handle S_Handle M_Array S_Array M_Threads.

Section Spec.
Context {A : Type}.
Variable (t : traits) (dflt zero : A) (so : list nat).
Notation avals := (list (option (aval A))).

(** the value of x(idx), if there is one *)
Definition elem_of (s : avals) (r : nat * list Z) : option A :=
  match aval_of s (fst r) with
  | Some (AVal sh (Some l)) => if in_bounds (snd r) sh then match nth_error l (place_of so sh (snd r)) with Some c => c | None => None end else None
  | _ => None
  end.
Fixpoint all_some {T} (l : list (option T)) : option (list T) :=
  match l with [] => Some [] | Some x :: l' => match all_some l' with Some r => Some (x :: r) | None => None end | None :: _ => None end.
(** one statement of a thread running alone; None: not a legal program *)
Definition th_step (s : avals) (o : tstmt (A := A)) : option avals :=
  match o with
  | TOp o => a_step t dflt zero so s o
  | TSet v idx rs g => match all_some (map (elem_of s) rs) with Some l => a_step t dflt zero so s (AWrite v idx (g l)) | None => None end
  | TMap v x g =>
      if Nat.eqb v x then None else
      match aval_of s x with
      | Some (AVal sh (Some cells)) =>
          match all_some cells with
          | Some l => a_step t dflt zero so s (AAssignExpr v sh (fun idx => g (nth (place_of so sh idx) l dflt)))
          | None => None
          end
      | _ => None
      end
  end.
Fixpoint th_history (s : avals) (p : list (tstmt (A := A))) : option avals :=
  match p with [] => Some s | o :: p' => match th_step s o with Some s' => th_history s' p' | None => None end end.

(** Variables below [ns] are shared by all threads.  [owner v idx = Some i]: while the threads run, only thread [i] accesses element [idx] of
    shared variable [v]; [None]: all threads may read it and nobody writes it. *)
Section Permissions.
Variable (ns : nat) (owner : nat -> list Z -> option nat) (i : nat).
Definition can_write (v : nat) (idx : list Z) : Prop := (ns <= v)%nat \/ owner v idx = Some i.
Definition can_read (v : nat) (idx : list Z) : Prop := (ns <= v)%nat \/ owner v idx = None \/ owner v idx = Some i.
Definition permitted (o : tstmt (A := A)) : Prop :=
  match o with
  | TOp (AEmpty v) | TOp (AShape v _) | TOp (AZeros v _) | TOp (AFrom v _ _) | TOp (AAssignExpr v _ _) | TOp (AResize v _) | TOp (AEnd v) => (ns <= v)%nat
  | TOp (ACopy v x) | TOp (AAssignCopy v x) => (ns <= v)%nat /\ forall idx, can_read x idx
  | TOp (AMove v x) | TOp (AAssignMove v x) => (ns <= v)%nat /\ (ns <= x)%nat
  | TOp (AWrite v idx _) => can_write v idx
  | TSet v idx rs _ => can_write v idx /\ forall r, In r rs -> can_read (fst r) (snd r)
  | TMap v x _ => (ns <= v)%nat /\ forall idx, can_read x idx
  end.
End Permissions.

(** The parent's arrays after all threads have ended: every element is as its owner left it. *)
Definition joined (owner : nat -> list Z -> option nat) (s0 : avals) (ss : list avals) : avals :=
  map (fun v => match aval_of s0 v with
                | Some (AVal sh (Some cells)) =>
                    Some (AVal sh (Some (map (fun k =>
                      match owner v (index_at so sh (Z.of_nat k)) with
                      | Some i => match nth_error ss i with
                                  | Some si => match aval_of si v with Some (AVal _ (Some l)) => nth k l None | _ => None end
                                  | None => nth k cells None
                                  end
                      | None => nth k cells None
                      end) (seq 0 (length cells)))))
                | x => x
                end) (seq 0 (length s0)).

(** The program is disciplined: only variables below [ns] exist when the threads start, and each thread's program is legal on its own, ends with
    the arrays [ss i], and uses only what it may. *)
Definition disciplined (ns : nat) (owner : nat -> list Z -> option nat) (s0 : avals) (progs : list (list (tstmt (A := A)))) (ss : list avals) : Prop :=
  (forall v, (ns <= v)%nat -> aval_of s0 v = None) /\ length ss = length progs /\
  forall i q si, nth_error progs i = Some q -> nth_error ss i = Some si -> th_history s0 q = Some si /\ Forall (permitted ns owner i) q.
(** What thread [i] sees through its variables, in a memory other threads are changing: all its own arrays, and the elements of the shared
    arrays it may read, are as [s] says. *)
Definition thread_looks (dl : idx_map) (ns : nat) (owner : nat -> list Z -> option nat) (i : nat) (h : heap A) (p : priv) (s : avals) : Prop :=
  forall v, (v < length s)%nat ->
    match aval_of s v with
    | None => getv (p_h p) v = None
    | Some a =>
        let m := nth v (p_lay p) dl in
        exists x, getv (p_h p) v = Some x /\ im_len m = av_shape a /\
          match av_cells a with
          | None => h_data x = None
          | Some l => Z.of_nat (h_size x) = prodZ (av_shape a) /\
                      forall idx, in_range idx (av_shape a) -> can_read ns owner i v idx ->
                        exists b c, h_data x = Some b /\ read_cell h b (Z.to_nat (call_impl m (map CLong idx))) = Some c
                                    /\ nth_error l (place_of so (av_shape a) idx) = Some c
          end
    end.
(** the thread's allocated blocks (numbered from [m], the number of blocks at the fork) are exactly those of its own variables in scope *)
Definition thread_memory (ns m : nat) (own : heap A) (p : priv) (s : avals) : Prop :=
  forall b, (exists cells, nth_error own b = Some (Block true cells))
            <-> exists v a x, (ns <= v)%nat /\ aval_of s v = Some a /\ getv (p_h p) v = Some x /\ h_data x = Some (m + b)%nat.

(** A parallel loop: a thread computes v(idx) = g(idx, x1(i1), x2(i2), ...) for the index tuples in [work], one after the other. *)
Definition par_for (v : nat) (reads : list Z -> list (nat * list Z)) (g : list Z -> list A -> A) (work : list (list Z)) : list (tstmt (A := A)) :=
  map (fun idx => TSet v idx (reads idx) (g idx)) work.
(** the elements of an array of shape [sh] are distributed: each is in the list of thread [part idx] and of no other *)
Definition distributed (sh : list Z) (part : list Z -> nat) (works : list (list (list Z))) : Prop :=
  (forall idx, in_range idx sh -> In idx (nth (part idx) works [])) /\
  forall i idx, In idx (nth i works []) -> in_range idx sh /\ part idx = i.

(** Two threads race: the next accesses of both touch the same cell of a block that existed at the fork and one of them writes, or one frees
    such a block that the other touches or frees. *)
Inductive access := Reads (b k : nat) | Writes (b k : nat) | Frees (b : nat).
Definition next_access {T} (a : act A T) : option access :=
  match a with Load b k _ => Some (Reads b k) | Store b k _ _ => Some (Writes b k) | Free b _ _ => Some (Frees b) | _ => None end.
Definition block_of (x : access) : nat := match x with Reads b _ | Writes b _ | Frees b => b end.
Definition conflict (x y : access) : Prop :=
  block_of x = block_of y /\
  match x, y with
  | Reads _ _, Reads _ _ => False
  | Reads _ k, Writes _ k' | Writes _ k, Reads _ k' | Writes _ k, Writes _ k' => k = k'
  | Frees _, _ | _, Frees _ => True
  end.
Definition race (s : tsys (A := A)) : Prop :=
  exists i j own1 a1 own2 a2 x y, i <> j /\ nth_error (ts_thr s) i = Some (own1, a1) /\ nth_error (ts_thr s) j = Some (own2, a2) /\
    next_access a1 = Some x /\ next_access a2 = Some y /\ (block_of x < length (ts_shared s))%nat /\ conflict x y.
End Spec.
