(** The numbers the type long can hold (64 bit two's complement). *)
From Verif Require Import Base M_IdxMap M_Slice S_Layout.
Definition fits_long (z : Z) : Prop := - 2 ^ 63 <= z < 2 ^ 63.
(** the range [r] has at least two positions in a dimension of extent [l], or step 1 *)
Definition wide_or_plain (a : arg) (l : Z) : Prop :=
  match a with ARange r => r_step r = 1 \/ 2 <= get_l a l | _ => True end.
(** Layouts programs build: a new array whose extents have a product below 2^63 (zero extents counted as 1), then any number of transpositions and of
    non-empty slices inside the bounds whose ranges have step 1 or at least two positions.  [n] is the number of elements allocated, [off] the
    position of the first element. *)
Inductive plain_view (n : Z) : Z -> idx_map -> Prop :=
| plain_fresh so se p junk shape :
    is_order (length shape) so -> length junk = length shape -> length se = length shape -> Forall (fun l => 0 <= l) shape -> (0 < length shape < 16)%nat ->
    prodZ shape = n -> prodZ (map (Z.max 1) shape) < 2 ^ 63 -> plain_view n 0 (idx_map_of_shape so se p junk shape)
| plain_slice off m args o m' :
    plain_view n off m -> slice m args = Some (o, m') -> steps_nonzero args -> args_in_bounds (expand_args (rank m) args) (im_len m) -> some_dim_left (rank m) args ->
    Forall (fun l => 1 <= l) (im_len m') -> Forall2 wide_or_plain (expand_args (rank m) args) (im_len m) -> plain_view n (off + o) m'
| plain_transpose off m p : plain_view n off m -> is_order (rank m) p -> plain_view n off (transpose p m).
