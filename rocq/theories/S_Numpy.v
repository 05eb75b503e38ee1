(** What NumPy arrays mean. *)
From Verif Require Import Base M_IdxMap M_Slice M_Loops M_Assign M_Numpy S_Layout S_Assign.

(** the byte where element [idx] of the array starts *)
Definition np_addr (n : numpy) (idx : list Z) : Z := np_data n + dot idx (np_strides n).
(** a value of [w] bytes that starts at byte [b] *)
Definition value_at {V} (w : Z) (m : mem V) (b : Z) : option V := if b mod w =? 0 then Some (m (b / w)) else None.
(** Python's n[idx] *)
Definition np_item {V} (w : Z) (m : mem V) (n : numpy) (idx : list Z) : option V := value_at w m (np_addr n idx).

(** as many strides as extents, no negative extent *)
Definition np_wf (n : numpy) : Prop := length (np_strides n) = length (np_dims n) /\ Forall (fun d => 0 <= d) (np_dims n).
(** the strides that matter are whole numbers of elements and not negative; numbers fit into long *)
Definition whole_strides (w : Z) (n : numpy) : Prop :=
  Forall (fun s => - 9223372036854775808 <= s < 9223372036854775808) (np_strides n) /\
  forall d, (d < length (np_dims n))%nat -> 1 < nthZ (np_dims n) d -> 0 <= nthZ (np_strides n) d /\ (w | nthZ (np_strides n) d).
(** the strides of a view in bytes fit into long *)
Definition strides_fit (w : Z) (v : view) : Prop := Forall (fun s => - 9223372036854775808 <= s * w < 9223372036854775808) (im_str (v_lay v)).

(** [v] is a view on the elements of the NumPy array [n]: same shape, same places *)
Definition views (w : Z) (v : view) (n : numpy) : Prop :=
  im_len (v_lay v) = np_dims n /\ forall idx, in_range idx (np_dims n) -> w * cell v idx = np_addr n idx.

(** strides of a new NumPy array in C order; extents zero count as one *)
Fixpoint c_strides (w : Z) (shape : list Z) : list Z :=
  match shape with [] => [] | _ :: shape => w * prodZ (map (Z.max 1) shape) :: c_strides w shape end.
(** what PyArray_FromAny promises for an object whose elements as values of T are [val]: a new array of type T in C order with these
    elements in a buffer that starts at cell [b]; memory outside of the buffer is not changed *)
Definition makes {V} (w npy_type : Z) (m : mem V) (shape : list Z) (val : list Z -> V) (b : Z) (n : numpy) (m' : mem V) : Prop :=
  np_type n = npy_type /\ np_dims n = shape /\ np_strides n = c_strides w shape /\ np_data n = w * b /\
  (forall idx, in_range idx shape -> m' (b + radix shape idx) = val idx) /\ (forall a, ~ (b <= a < b + prodZ shape) -> m' a = m a).
(** [obj] is an object with the shape [shape] and the elements [val] (for objects other than NumPy arrays of type T: what PyArray_FromAny takes
    for its elements) *)
Definition means {V O} (w npy_type : Z) (obj : pyobj O) (m : mem V) (shape : list Z) (val : list Z -> V) : Prop :=
  match obj with
  | PyArray n => np_type n = npy_type -> np_wf n /\ np_dims n = shape /\ forall idx, in_range idx shape -> np_item w m n idx = Some (val idx)
  | PyOther _ => True
  end.
(** C order: along the dimensions with more than one element strides do not grow in magnitude *)
Definition in_c_order (dims strides : list Z) : Prop :=
  forall a b, (a < b < length dims)%nat -> 1 < nthZ dims a -> 1 < nthZ dims b -> Z.abs (nthZ strides b) <= Z.abs (nthZ strides a).
