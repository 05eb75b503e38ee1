(** Specification vocabulary for layout transformations, new arrays and nested lists. *)
From Verif Require Import Base M_Perm M_IdxMap M_Slice M_Assign M_Expr S_Layout S_Assign.

(** the k-th element of one view in its stride order is the k-th element of the other in its own stride order *)
Definition same_sequence (a b : view) : Prop :=
  prodZ (im_len (v_lay a)) = prodZ (im_len (v_lay b)) /\
  forall i j, in_view a i -> in_view b j ->
    seq_number (im_so (v_lay a)) (im_len (v_lay a)) i = seq_number (im_so (v_lay b)) (im_len (v_lay b)) j -> cell a i = cell b j.

(** ** groups of dimensions *)
(** the groups mention every dimension below [R] exactly once *)
Definition partition_of (R : nat) (grps : list (list nat)) : Prop := Permutation (concat grps) (seq 0 R).
(** the dimensions of a group stand side by side in the stride order *)
Definition side_by_side (so : list nat) (grp : list nat) : Prop := exists a b c, so = a ++ b ++ c /\ Permutation b grp.
(** the dimensions of a group, slowest first *)
Definition mem_order (so : list nat) (grp : list nat) : list nat := filter (fun k => existsb (Nat.eqb k) grp) so.
(** the index, within the group, of the element with index tuple [idx], counting with the fastest dimension of the group
    running fastest *)
Definition merged_index (m : idx_map) (idx : list Z) (grp : list nat) : Z := seq_number (mem_order (im_so m) grp) (im_len m) idx.
Definition merged (m : idx_map) (grps : list (list nat)) (idx : list Z) : list Z := map (merged_index m idx) grps.

(** ** nested lists *)
Definition rectangular {T} (n : nat) (l : list (list T)) : Prop := forall x, In x l -> length x = n.
(** the members of a list of [n] the check compares with the first: the last and, if [n] is odd, the one before it *)
Definition looked_at (n k : nat) : Prop := S k = n \/ Nat.odd n = true /\ S (S k) = n.
(** one of them has another length *)
Definition seen_ragged {T} (l : list (list T)) : Prop :=
  exists k r0 r, looked_at (length l) k /\ nth_error l 0 = Some r0 /\ nth_error l k = Some r /\ length r <> length r0.

(** ** arguments of functions that build a new array
    the argument has shape [shape] and reads nothing from the storage of the new array [a] *)
Definition reads_outside {V} (a : view) (shape : list Z) (r : rhs V) : Prop :=
  (forall src, r = RMem src -> truthful (v_lay src) /\ im_len (v_lay src) = shape) /\
  (forall idx m1 m2, in_range idx shape -> (forall c, ~ is_cell_of a c -> m1 c = m2 c) -> rhs_value r m1 idx = rhs_value r m2 idx).
