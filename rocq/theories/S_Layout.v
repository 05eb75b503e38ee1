(** Specification vocabulary for layouts.  Independent of the model's algorithms: only plain
    definitions over lists of extents, strides and indices. *)
From Verif Require Import Base M_IdxMap M_Slice.

(** The memory position (relative to the first element) of the element with index tuple [idx]. *)
Definition addr (m : idx_map) (idx : list Z) : Z := dot idx (im_str m).

(** [idx] is a valid index tuple of a layout. *)
Definition valid_idx (m : idx_map) (idx : list Z) : Prop := in_range idx (im_len m).

(** [p] mentions every dimension below [n] exactly once. *)
Definition is_order (n : nat) (p : list nat) : Prop := Permutation p (seq 0 n).

(** A layout object as the type system allows it: one stride, one static extent and one place in the
    stride order per dimension, no negative extent, at least one dimension and at most 15 (static_assert
    Rank < 16, idx_map.hpp:81). *)
Definition wf (m : idx_map) : Prop :=
  length (im_str m) = length (im_len m) /\ is_order (length (im_len m)) (im_so m) /\
  length (im_se m) = length (im_len m) /\ Forall (fun l => 0 <= l) (im_len m) /\ (0 < length (im_len m) < 16)%nat.

(** the extents / strides / indices listed from the slowest to the fastest dimension *)
Definition in_order {A} (d : A) (so : list nat) (l : list A) : list A := map (fun k => nth k l d) so.

(** Rank of [idx] among all index tuples when they are enumerated with the last dimension of the
    stride order running fastest ([radix] is the mixed radix number, most significant digit first). *)
Definition seq_number (so : list nat) (len idx : list Z) : Z := radix (in_order 0 so len) (in_order 0 so idx).

(** ** meaning of the declared layout flags *)
(** elements, in stride order, sit at positions 0, d, 2d, ... where d is the stride of the fastest dimension *)
Definition strided_1d_true (m : idx_map) : Prop :=
  forall idx, valid_idx m idx -> addr m idx = min_stride m * seq_number (im_so m) (im_len m) idx.
Definition contiguous_true (m : idx_map) : Prop :=
  forall idx, valid_idx m idx -> addr m idx = seq_number (im_so m) (im_len m) idx.
Definition smallest_one_true (m : idx_map) : Prop := min_stride m = 1.

(** stride by stride: along the stride order, the stride of each dimension is [d] times the product of
    the extents of all faster dimensions *)
Definition regular (d : Z) (m : idx_map) : Prop :=
  forall k, (k < length (im_so m))%nat ->
    nth k (in_order 0 (im_so m) (im_str m)) 0 = d * prodZ (skipn (S k) (in_order 0 (im_so m) (im_len m))).

(** everything the declared property promises *)
Definition flags_true (m : idx_map) : Prop :=
  (has_strided_1d (im_prop m) = true -> regular (min_stride m) m) /\
  (has_smallest_stride_is_one (im_prop m) = true -> smallest_one_true m).

(** along the stride order, each stride exceeds (in absolute value) the total reach of all faster
    dimensions: the elements selected by the faster dimensions fit strictly inside one step *)
Definition reach (len str : list Z) : Z := sumZ (map (fun i => (nthZ len i - 1) * Z.abs (nthZ str i)) (seq 0 (length len))).
Definition separated (m : idx_map) : Prop :=
  let L := in_order 0 (im_so m) (im_len m) in
  let S' := in_order 0 (im_so m) (im_str m) in
  forall k, (k < length (im_so m))%nat -> reach (skipn (S k) L) (skipn (S k) S') < Z.abs (nthZ S' k).

(** ** slicing *)
(** which argument lists compile for a map of rank [rank] *)
Definition args_ok (rank : nat) (args : list arg) : Prop :=
  (count_ell args = 0%nat /\ length args = rank) \/ (count_ell args = 1%nat /\ (length args <= rank + 1)%nat).
(** the argument list with the ellipsis written out *)
Fixpoint expand (missing : nat) (args : list arg) : list arg :=
  match args with
  | [] => []
  | AEll :: args' => repeat AAll missing ++ args'
  | a :: args' => a :: expand missing args'
  end.
(** [missing] dimensions are covered by the ellipsis *)
Definition expand_args (rank : nat) (args : list arg) : list arg := expand (rank + 1 - length args) args.

(** index tuple of the parent element that is element [j] of the view *)
Fixpoint parent_idx (ex : list arg) (j : list Z) : list Z :=
  match ex with
  | [] => []
  | ALong i :: ex' => i :: parent_idx ex' j
  | ARange r :: ex' => match j with
                       | x :: j' => (r_first r + x * r_step r) :: parent_idx ex' j'
                       | [] => []
                       end
  | _ :: ex' => match j with x :: j' => x :: parent_idx ex' j' | [] => [] end
  end.

(** [x] is a position of the range, [l] being the extent of the sliced dimension: a last bound of -1
    together with a positive step stands for the extent *)
Definition in_range_arg (r : range) (l x : Z) : Prop :=
  0 <= x /\ (if (r_last r =? -1) && (0 <? r_step r) then r_first r + x * r_step r < l
             else if 0 <? r_step r then r_first r + x * r_step r < r_last r
             else r_first r + x * r_step r > r_last r).

(** [j] is a position of the view of a parent with extents [len] *)
Fixpoint view_pos (ex : list arg) (len : list Z) (j : list Z) : Prop :=
  match ex, len with
  | [], _ => j = []
  | ALong _ :: ex', _ :: len' => view_pos ex' len' j
  | ARange r :: ex', l :: len' => match j with x :: j' => in_range_arg r l x /\ view_pos ex' len' j' | [] => False end
  | _ :: ex', l :: len' => match j with x :: j' => 0 <= x < l /\ view_pos ex' len' j' | [] => False end
  | _ :: _, [] => False
  end.

(** the argument addresses only existing indices of a dimension of extent [l] *)
Definition arg_in_bounds (a : arg) (l : Z) : Prop :=
  match a with
  | ALong i => 0 <= i < l
  | ARange r => forall x, in_range_arg r l x -> 0 <= r_first r + x * r_step r < l
  | AAll | AEll => True
  end.
Definition args_in_bounds (ex : list arg) (len : list Z) : Prop := Forall2 arg_in_bounds ex len.

(** ranges are built with a nonzero step *)
Definition steps_nonzero (args : list arg) : Prop := forall r, In (ARange r) args -> r_step r <> 0.
Definition steps_positive (args : list arg) : Prop := forall r, In (ARange r) args -> 0 < r_step r.
(** the one degenerate range the bounds check misreads *)
Definition no_minus_one_range (args : list arg) : Prop :=
  forall r, In (ARange r) args -> ~ (r_first r = -1 /\ r_last r = -1 /\ 0 < r_step r).
(** at least one dimension is left *)
Definition some_dim_left (rank : nat) (args : list arg) : Prop :=
  exists a, In a (expand_args rank args) /\ is_long a = false.

(** ** layouts a program can build
    [view_of ok_step n off m]: [m] is the layout of a freshly allocated array with [n] elements
    ([off] = 0), or of a view obtained from it by any sequence of slicings (ranges with steps allowed by
    [ok_step], arguments in bounds) and transpositions; [off] is the position of the view's first
    element in the allocated block. *)
Inductive view_of (ok_step : Z -> Prop) (n : Z) : Z -> idx_map -> Prop :=
| vo_fresh so se p junk shape :
    is_order (length shape) so -> length junk = length shape -> length se = length shape ->
    Forall (fun l => 0 <= l) shape -> (0 < length shape < 16)%nat -> prodZ shape = n ->
    view_of ok_step n 0 (idx_map_of_shape so se p junk shape)
| vo_slice off m args o m' :
    view_of ok_step n off m -> slice m args = Some (o, m') ->
    (forall r, In (ARange r) args -> ok_step (r_step r) /\ r_step r <> 0) ->
    args_in_bounds (expand_args (rank m) args) (im_len m) -> some_dim_left (rank m) args ->
    view_of ok_step n (off + o) m'
| vo_transpose off m p :
    view_of ok_step n off m -> is_order (rank m) p -> view_of ok_step n off (transpose p m).

(** ** chains of slices *)
Fixpoint slices (m : idx_map) (l : list (list arg)) : option (Z * idx_map) :=
  match l with
  | [] => Some (0, m)
  | a :: l' => match slice m a with
               | Some (o, m1) => match slices m1 l' with Some (o', m2) => Some (o + o', m2) | None => None end
               | None => None
               end
  end.
(** number of dimensions left by a slice of a rank-[r] map *)
Definition rank_after (r : nat) (args : list arg) : nat := length (filter (fun a => negb (is_long a)) (expand_args r args)).
Fixpoint chain_idx (r : nat) (l : list (list arg)) (j : list Z) : list Z :=
  match l with [] => j | a :: l' => parent_idx (expand_args r a) (chain_idx (rank_after r a) l' j) end.
Fixpoint chain_dims_left (r : nat) (l : list (list arg)) : Prop :=
  match l with [] => True | a :: l' => some_dim_left r a /\ chain_dims_left (rank_after r a) l' end.
