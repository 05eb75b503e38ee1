(** Specification vocabulary for assignment: which cells belong to a view, what it means that a memory
    holds given values at the elements of a view, that nothing else changed, that views do not overlap. *)
From Verif Require Import Base M_Perm M_IdxMap M_Slice M_Assign S_Layout.

(** the cell of element [idx] *)
Definition cell (v : view) (idx : list Z) : Z := v_base v + addr (v_lay v) idx.
Definition in_view (v : view) (idx : list Z) : Prop := valid_idx (v_lay v) idx.
Definition is_cell_of (v : view) (a : Z) : Prop := exists idx, in_view v idx /\ a = cell v idx.
Definition disjoint (v w : view) : Prop := forall a, is_cell_of v a -> is_cell_of w a -> False.

(** the view shows the values [f] *)
Definition holds {V} (v : view) (m : mem V) (f : list Z -> V) : Prop := forall idx, in_view v idx -> m (cell v idx) = f idx.
(** nothing outside the view changed *)
Definition unchanged_outside {V} (v : view) (m m' : mem V) : Prop := forall a, ~ is_cell_of v a -> m' a = m a.

(** the declared layout properties are true; no two elements share a cell.  Every layout a program builds by
    allocating, slicing (any nonzero steps) and transposing is [usable]: C01_views_inside_and_injective, C03_flag_hypothesis_met. *)
Definition truthful (m : idx_map) : Prop := wf m /\ flags_true m.
Definition no_aliasing (m : idx_map) : Prop := forall i j, valid_idx m i -> valid_idx m j -> addr m i = addr m j -> i = j.
Definition usable (m : idx_map) : Prop := truthful m /\ no_aliasing m.

(** an expression that reads nothing from [dst], or, at index [idx], nothing but element [idx] of [dst] *)
Definition reads_not {V} (dst : view) (e : mem V -> list Z -> V) : Prop :=
  forall idx m1 m2, in_view dst idx -> (forall a, ~ is_cell_of dst a -> m1 a = m2 a) -> e m1 idx = e m2 idx.
Definition reads_own_element {V} (dst : view) (e : mem V -> list Z -> V) : Prop :=
  forall idx m1 m2, in_view dst idx -> (forall a, a = cell dst idx \/ ~ is_cell_of dst a -> m1 a = m2 a) -> e m1 idx = e m2 idx.

(** the right hand side has the shape of the destination and does not overlap it *)
Definition rhs_apart {V} (dst : view) (r : rhs V) : Prop :=
  match r with
  | RMem src => truthful (v_lay src) /\ im_len (v_lay src) = im_len (v_lay dst) /\ disjoint dst src
  | RExpr e => reads_not dst e
  end.

(** ** block layouts *)
(** in stride order the elements form [n] blocks of [b] consecutive cells, [s] cells apart *)
Definition is_block_layout (m : idx_map) (n b s : Z) : Prop :=
  n * b = prodZ (im_len m) /\ 0 < b /\
  forall idx, valid_idx m idx -> let q := seq_number (im_so m) (im_len m) idx in addr m idx = (q / b) * s + q mod b.
(** every dimension leaves room for the whole of the next faster one (true of slices with step one) *)
Definition roomy (m : idx_map) : Prop :=
  let L := in_order 0 (im_so m) (im_len m) in let S' := in_order 0 (im_so m) (im_str m) in
  1 <= nthZ S' (rank m - 1) /\ forall k, (S k < rank m)%nat -> nthZ S' (S k) * nthZ L (S k) <= nthZ S' k.
(** all products extent times stride, and the size, fit into a 32-bit int *)
Definition fits_int (m : idx_map) : Prop :=
  prodZ (im_len m) < 2 ^ 31 /\ forall k, (k < rank m)%nat -> nthZ (im_len m) k * nthZ (im_str m) k < 2 ^ 31.

(** the value of the right hand side at [idx] in memory [m] *)
Definition rhs_value {V} (r : rhs V) (m : mem V) (idx : list Z) : V :=
  match r with RMem v => m (cell v idx) | RExpr e => e m idx end.
(** the memories [m1] and [m2] are equal, cell by cell *)
Definition same_memory {V} (m1 m2 : mem V) : Prop := forall a, m1 a = m2 a.
