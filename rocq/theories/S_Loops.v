(** Specification vocabulary for loops over index tuples. *)
From Coq Require Import Sorted.
From Verif Require Import Base M_IdxMap M_Loops S_Layout.

(** lexicographic order on index tuples of equal length (last index fastest) *)
Fixpoint lex_lt (a b : list Z) : Prop :=
  match a, b with
  | x :: a', y :: b' => x < y \/ (x = y /\ lex_lt a' b')
  | _, _ => False
  end.

(** [L] lists every index tuple of [shape] exactly once, in lexicographic order *)
Definition lists_all_indices (shape : list Z) (L : list (list Z)) : Prop :=
  (forall idx, In idx L <-> in_range idx shape) /\ StronglySorted lex_lt L.

(** [L] lists every index tuple of the layout [m]; the k-th entry is the tuple with sequence number k
    with respect to the layout's stride order *)
Definition lists_in_stride_order (m : idx_map) (L : list (list Z)) : Prop :=
  Z.of_nat (length L) = prodZ (im_len m) /\
  forall k, (k < length L)%nat -> valid_idx m (nth k L []) /\ seq_number (im_so m) (im_len m) (nth k L []) = Z.of_nat k.

(** record the visited index tuples, in order *)
Definition record_visit (idx : list Z) (seen : list (list Z)) : list (list Z) := seen ++ [idx].

(** net displacement of a sequence of iterator moves *)
Definition move_by (mv : move) : Z := match mv with MIncr => 1 | MDecr => -1 | MAdd n => n | MSub n => - n end.
Definition displacement (l : list move) : Z := sumZ (map move_by l).

(** the layout is walked by a one-dimensional iterator (declared strided_1d, or rank one) *)
Definition walked_in_1d (m : idx_map) : Prop := has_strided_1d (im_prop m) = true \/ rank m = 1%nat.
(** no extent other than that of the slowest dimension is zero, or the slowest one is zero itself *)
Definition zero_extents_harmless (m : idx_map) : Prop :=
  walked_in_1d m \/ nthZ (in_order 0 (im_so m) (im_len m)) 0 = 0 \/
  (forall k, (0 < k < rank m)%nat -> 0 < nthZ (in_order 0 (im_so m) (im_len m)) k).
