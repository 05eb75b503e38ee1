(** Model of the memory of a program using arrays and views, and of assignment:
    c++/nda/_impl_basic_array_view_common.hpp (assignment part), c++/nda/basic_array_view.hpp (operator=,
    rebind, swap, deep_swap), c++/nda/basic_functions.hpp (get_block_layout), c++/nda/mem/memcpy.hpp.
    Memory is a function from cell addresses to values; one cell holds one array element (all arrays have
    the same element type; conversions between element types and byte addresses are not modelled). *)
From Verif Require Import Base M_Perm M_IdxMap M_Loops.

Definition mem (V : Type) := Z -> V.
Definition mset {V} (m : mem V) (a : Z) (v : V) : mem V := fun x => if x =? a then v else m x.

(** basic_array_view.hpp:52-70: a layout and a pointer (the address of cell 0 of the storage). *)
Record view := View { v_lay : idx_map; v_base : Z }.

(** _impl_basic_array_view_common.hpp:129-172 [call] with integer arguments: sto[lay(i...)]. *)
Definition elem (v : view) (idx : list Z) : Z := v_base v + call_impl (v_lay v) (map CLong idx).
(** ... and 90-110 [operator()(_linear_index_t)]; None is the static_assert. *)
Definition lin_elem (v : view) (x : Z) : option Z :=
  match im_prop (v_lay v) with
  | LP_strided_1d => Some (v_base v + x * min_stride (v_lay v))
  | LP_contiguous => Some (v_base v + x)
  | _ => None
  end.

(** The right hand side of an assignment: an array or view in memory, or a lazy expression, that is a
    function which reads memory each time it is called. *)
Inductive rhs (V : Type) :=
| RMem (v : view)
| RExpr (e : mem V -> list Z -> V).
Arguments RMem {V}. Arguments RExpr {V}.
Definition rhs_at {V} (r : rhs V) (m : mem V) (idx : list Z) : V :=
  match r with RMem v => m (elem v idx) | RExpr e => e m idx end.

(** _impl_basic_array_view_common.hpp:385-387: element-wise assignment. *)
Definition assign_elementwise {V} (dst : view) (r : rhs V) (m : mem V) : mem V :=
  for_each (im_len (v_lay dst)) (fun idx m => mset m (elem dst idx) (rhs_at r m idx)) m.

(** _impl_basic_array_view_common.hpp:347-349: the vectorisable loop over linear indices. *)
Definition assign_linear {V} (dst src : view) (m : mem V) : option (mem V) :=
  fold_left (fun om i => match om, lin_elem dst i, lin_elem src i with
                         | Some m, Some a, Some b => Some (mset m a (m b))
                         | _, _, _ => None
                         end) (zseq (size (v_lay dst))) (Some m).

(** conversion of a long to a 32-bit int (two's complement) *)
Definition int32 (x : Z) : Z := (x + 2 ^ 31) mod 2 ^ 32 - 2 ^ 31.

(** basic_functions.hpp:350-377 [get_block_layout]; the three results and [data_size] are ints. [a.size() / inner_size]
    truncates.  None of the two final ASSERTs is modelled (they are only active in debug builds). *)
Record block_st := BlockSt { b_n : Z; b_size : Z; b_str : Z }.
Definition block_step (m : idx_map) (data_size : Z) (st : option block_st) (n : nat) : option block_st :=
  match st with
  | None => None
  | Some b =>
      let l k := nthZ (im_len m) (nthN (im_so m) k) in
      let s k := nthZ (im_str m) (nthN (im_so m) k) in
      let inner_size := if Nat.eqb n (rank m - 1) then 1 else s (n + 1)%nat * l (n + 1)%nat in
      if negb (s n =? inner_size) then
        if b_size b <? data_size then None
        else Some (BlockSt (int32 (Z.quot (size m) inner_size)) (int32 inner_size) (int32 (s n)))
      else Some b
  end.
Definition get_block_layout (m : idx_map) : option block_st :=
  let data_size := int32 (nthZ (im_len m) (nthN (im_so m) 0) * nthZ (im_str m) (nthN (im_so m) 0)) in
  fold_left (block_step m data_size) (seq 0 (rank m)) (Some (BlockSt 1 data_size data_size)).

(** mem/memcpy.hpp:39-52 [memcpy2D], with pitches and width counted in elements (C89_elements: the same as counted in bytes). *)
Definition memcpy2D {V} (dest dpitch src spitch width height : Z) (m : mem V) : mem V :=
  fold_left (fun m i => fold_left (fun m j => mset m (dest + i * dpitch + j) (m (src + i * spitch + j))) (zseq width) m)
            (zseq height) m.

(** _impl_basic_array_view_common.hpp:352-380: block copy.  Outcome: the new memory, "not applicable"
    (continue to the fallback) or a run-time error. *)
Inductive block_outcome (V : Type) := BDone (m : mem V) | BFallback | BError.
Arguments BDone {V}. Arguments BFallback {V}. Arguments BError {V}.
Definition assign_blocks {V} (dst src : view) (m : mem V) : block_outcome V :=
  match get_block_layout (v_lay dst), get_block_layout (v_lay src) with
  | Some d, Some s =>
      if negb (b_n d * b_size d =? b_n s * b_size s) then BError else
      let d' := if (b_n d =? 1) && (1 <? b_n s)
                then BlockSt (b_n s) (Z.quot (b_size d) (b_n s)) (Z.quot (b_size d) (b_n s)) else d in
      let s' := if (b_n s =? 1) && (1 <? b_n d')
                then BlockSt (b_n d') (Z.quot (b_size s) (b_n d')) (Z.quot (b_size s) (b_n d')) else s in
      if (b_n d' =? b_n s') && (b_size d' =? b_size s')
      then BDone (memcpy2D (v_base dst) (b_str d') (v_base src) (b_str s') (b_size s') (b_n s') m)
      else BFallback
  | _, _ => BFallback
  end.

(** _impl_basic_array_view_common.hpp:331-388 [assign_from_ndarray].  [checks]: NDA_ENFORCE_BOUNDCHECK; [host]: both
    sides in host memory (otherwise a device side is involved).  None is an exception. *)
Definition same_stride_order (a b : idx_map) : bool := if list_eq_dec Nat.eq_dec (im_so a) (im_so b) then true else false.
Definition assign_from_ndarray {V} (checks host : bool) (dst : view) (rhs_shape : list Z) (r : rhs V) (m : mem V) : option (mem V) :=
  if checks && negb (if list_eq_dec Z.eq_dec (im_len (v_lay dst)) rhs_shape then true else false) then None else
  let fallback := if host then Some (assign_elementwise dst r m) else None in
  match r with
  | RMem src =>
      if same_stride_order (v_lay dst) (v_lay src) then
        if size (v_lay src) =? 0 then Some m else
        if host then
          if has_strided_1d (im_prop (v_lay dst)) && has_strided_1d (im_prop (v_lay src)) then assign_linear dst src m
          else fallback
        else match assign_blocks dst src m with
             | BDone m' => Some m'
             | BFallback => fallback
             | BError => None
             end
      else fallback
  | RExpr _ => fallback
  end.

(** _impl_basic_array_view_common.hpp:393-408 [fill_with_scalar].  [for (i = 0; i < Lstri; i += stri)] and the range-for
    loop take fuel; None is "does not end within the fuel". *)
Fixpoint fill_strided {V} (fuel : nat) (p i Lstri stri : Z) (x : V) (m : mem V) : option (mem V) :=
  if i <? Lstri then match fuel with
                     | O => None
                     | S fuel => fill_strided fuel p (i + stri) Lstri stri x (mset m (p + i) x)
                     end
  else Some m.
Fixpoint fill_iter {V} (fuel : nat) (p : Z) (it end_ : grid_it) (x : V) (m : mem V) : option (mem V) :=
  if grid_eqb it end_ then Some m else
  match fuel with
  | O => None
  | S fuel => fill_iter fuel p (grid_incr it) end_ x (mset m (p + grid_deref it) x)
  end.
Definition fill_with_scalar {V} (fuel : nat) (dst : view) (x : V) (m : mem V) : option (mem V) :=
  let lay := v_lay dst in
  if has_strided_1d (im_prop lay) then
    let L := size lay in
    if has_contiguous (im_prop lay) then Some (fold_left (fun m i => mset m (v_base dst + i) x) (zseq L) m)
    else fill_strided fuel (v_base dst) 0 (L * min_stride lay) (min_stride lay) x m
  else fill_iter fuel (v_base dst) (make_iterator lay false) (make_iterator lay true) x m.

(** _impl_basic_array_view_common.hpp:413-431 [assign_from_scalar]; [matrix]: the algebra is 'M'; [zero] is the value 0
    (or 0 * scalar) converted to the element type. *)
Definition assign_from_scalar {V} (fuel : nat) (matrix : bool) (zero : V) (dst : view) (x : V) (m : mem V) : option (mem V) :=
  if negb matrix then fill_with_scalar fuel dst x m else
  match fill_with_scalar fuel dst zero m with
  | None => None
  | Some m =>
      let imax := Z.min (nthZ (im_len (v_lay dst)) 0) (nthZ (im_len (v_lay dst)) 1) in
      Some (fold_left (fun m i => mset m (elem dst [i; i]) x) (zseq imax) m)
  end.

(** std::swap on two variables *)
Definition std_swap {A} (x y : A) : A * A := let tmp := x in let x := y in let y := tmp in (x, y).
(** basic_array_view.hpp:255-258 [swap]: the layouts, then the handles. *)
Definition swap_views (a b : view) : view * view :=
  let '(la, lb) := std_swap (v_lay a) (v_lay b) in
  let '(sa, sb) := std_swap (v_base a) (v_base b) in
  (View la sa, View lb sb).
(** basic_array_view.hpp:230-248 [rebind] (the const variant converts the layout to the same declaration). *)
Definition rebind (a v : view) : view :=
  let lay := v_lay v in let sto := v_base v in View lay sto.
(** basic_array_view.hpp:265-269 [deep_swap]: [make_regular] copies [a] into a new array [tmp] of the
    same stride order (its storage is at the fresh address [v_base tmp]). *)
Definition deep_swap {V} (checks : bool) (tmp a b : view) (m : mem V) : option (mem V) :=
  match assign_from_ndarray checks true tmp (im_len (v_lay a)) (RMem a) m with
  | None => None
  | Some m1 => match assign_from_ndarray checks true a (im_len (v_lay b)) (RMem b) m1 with
               | None => None
               | Some m2 => assign_from_ndarray checks true b (im_len (v_lay tmp)) (RMem tmp) m2
               end
  end.
