(** What the MPI operations should do. *)
From Verif Require Import Base M_Perm M_IdxMap M_Loops M_Assign M_Transform M_Mpi S_Layout S_Assign.

(** an array or view with positive strides, of the given stride order and shape, that the library considers contiguous *)
Definition plain (v : view) (so : list nat) (shape : list Z) : Prop :=
  (exists n off, view_of (fun s => 0 < s) n off (v_lay v)) /\ im_len (v_lay v) = shape /\ im_so (v_lay v) = so /\ is_contiguous (v_lay v) = true.
(** a target that can take an array of this shape: any array, or a view of the shape *)
Definition fit_target (t : target) (so : list nat) (shape : list Z) : Prop :=
  match t with TArray v _ => exists old, plain v so old | TView v => plain v so shape end.
(** the first dimension is the slowest *)
Definition first_slowest (so : list nat) : Prop := nth 0 so 1%nat = 0%nat.
(** number of elements below index [r] when the processes have the given numbers of slabs *)
Definition before (sizes : list Z) (r : nat) : Z := sumZ (firstn r sizes).
Definition chunks (N : Z) (n : nat) : list Z := map (chunk_length N n) (seq 0 n).

(** MPI reductions: [op] applied to the values in some order and bracketing *)
Inductive reduces {V} (op : V -> V -> V) : list V -> V -> Prop :=
| reduces_one x : reduces op [x] x
| reduces_op l1 l2 l v1 v2 : reduces op l1 v1 -> reduces op l2 v2 -> Permutation (l1 ++ l2) l -> reduces op l (op v1 v2).
(** the MPI library: each result is such a reduction *)
Definition mpi_reduces {V} (op : V -> V -> V) (red : nat -> Z -> list V -> V) : Prop := forall r k l, l <> [] -> reduces op l (red r k l).
(** the reduction from left to right *)
Definition total {V} (op : V -> V -> V) (l : list V) (v : V) : Prop := match l with [] => False | x :: l' => v = fold_left op l' x end.
Definition assoc_comm {V} (op : V -> V -> V) : Prop := (forall a b c, op a (op b c) = op (op a b) c) /\ (forall a b, op a b = op b a).

(** the arguments of reduce on one process.  In place: the target is the array itself.  Otherwise the target must be able to take the result and the
    result must not overlap the array; on a process that receives nothing the addresses must be far enough apart. *)
Definition reduce_args {V} (in_place recv : bool) (p : proc V) (so : list nat) (shape : list Z) : Prop :=
  if in_place then tgt_view (p_tgt p) = p_rhs p
  else fit_target (p_tgt p) so shape /\ v_base (tgt_view (p_tgt p)) <> v_base (p_rhs p) /\
    (recv = true -> forall tv, resize_or_check (p_tgt p) shape = Some tv -> disjoint (p_rhs p) tv) /\
    (recv = false -> prodZ shape <= Z.abs (v_base (tgt_view (p_tgt p)) - v_base (p_rhs p))).

(** a target of an assignment from the array [rhs] with a result of the given shape: any array apart from [rhs] (before and after it is resized), or a view of
    this shape apart from [rhs] *)
Definition assign_args (rhs : view) (t : target) (so : list nat) (shape : list Z) : Prop :=
  match t with
  | TArray v nb => (exists b old, v = new_array so b old /\ plain v so old) /\ disjoint rhs v /\ disjoint rhs (new_array so nb shape)
  | TView v => plain v so shape /\ disjoint rhs v
  end.
(** where the result is: a view stays where it is; an array keeps its memory unless the number of elements changes *)
Definition result_of (t : target) (so : list nat) (shape : list Z) (tv : view) : Prop :=
  match t with
  | TArray v nb => tv = new_array so (if prodZ (im_len (v_lay v)) =? prodZ shape then v_base v else nb) shape
  | TView v => tv = v
  end.
