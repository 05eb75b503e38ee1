(** Model of the types that describe layouts: idx_map<Rank, StaticExtents, StrideOrder, LayoutProp> (c++/nda/layout/idx_map.hpp) and the layout
    policies (c++/nda/layout/policies.hpp, [policy] of M_Transform), as functions on the numbers in them.  rect_str.hpp:206-265 has the same functions
    for the layouts with strings and is not modelled. *)
From Verif Require Import Base M_Perm M_IdxMap M_Slice M_Loops M_Assign M_Expr M_Transform.

(** idx_map.hpp:35-36: the parameters of the type; static extents and stride order are encoded *)
Record ltype := LType { lt_rank : nat; lt_se : Z; lt_so : Z; lt_prop : layout_prop }.
(** idx_map.hpp:86-92 [static_extents, stride_order, layout_prop] *)
Definition type_extents (t : ltype) : list Z := decode (lt_rank t) (lt_se t).
Definition type_order (t : ltype) : list nat := if lt_so t =? 0 then identity (lt_rank t) else map Z.to_nat (decode (lt_rank t) (lt_so t)).
(** idx_map.hpp:44-48; None: no constant expression, from rank 9 on (C05) *)
Definition C_code (n : nat) : option Z := encode (map Z.of_nat (identity n)).
Definition F_code (n : nat) : option Z := encode (map Z.of_nat (reverse_identity n)).
(** idx_map.hpp:81-82: the static_asserts of the class *)
Definition compiles (t : ltype) : bool := Nat.ltb (lt_rank t) 16 && (negb (lt_so t =? 0) || Nat.eqb (lt_rank t) 1).
Definition checked (t : ltype) : option ltype := if compiles t then Some t else None.
Definition with_code (n : nat) (c : option Z) (p : layout_prop) : option ltype := match c with Some so => checked (LType n 0 so p) | None => None end.
(** policies.hpp:28, 36, 44, 52, 62 [mapping<Rank>]; None: it does not compile *)
Definition mapping (pol : policy) (n : nat) : option ltype :=
  match pol with
  | PolC => with_code n (C_code n) LP_contiguous
  | PolF => with_code n (F_code n) LP_contiguous
  | PolCStride => with_code n (C_code n) LP_none
  | PolFStride => with_code n (F_code n) LP_none
  | PolBasic se so p => checked (LType n se so p)
  end.
(** policies.hpp:30, 38, 46, 54, 64 [with_lowest_guarantee_t] and 31, 39, 47, 55, 65 [contiguous_t] *)
Definition with_lowest_guarantee (pol : policy) : policy :=
  match pol with PolC | PolCStride => PolCStride | PolF | PolFStride => PolFStride | PolBasic se so _ => PolBasic se so LP_none end.
Definition contiguous_of (pol : policy) : policy :=
  match pol with PolC | PolCStride => PolC | PolF | PolFStride => PolF | PolBasic se so _ => PolBasic se so LP_contiguous end.
Definition is_code (c : option Z) (so : Z) : bool := match c with Some x => x =? so | None => false end.
(** policies.hpp:68-74 [get_contiguous_layout_policy] *)
Definition contiguous_policy (n : nat) (so : Z) : policy :=
  if is_code (C_code n) so then PolC else if is_code (F_code n) so then PolF else PolBasic 0 so LP_contiguous.
(** policies.hpp:78-95 [layout_to_policy]: the two specialisations, for C order and dynamic extents *)
Definition layout_to_policy (t : ltype) : policy :=
  if (lt_se t =? 0) && is_code (C_code (lt_rank t)) (lt_so t) then
    match lt_prop t with LP_contiguous => PolC | LP_none => PolCStride | p => PolBasic 0 (lt_so t) p end
  else PolBasic (lt_se t) (lt_so t) (lt_prop t).
(** the type of a layout as the library makes it from another one (slices: slice_static.hpp:270-281; transpose: idx_map.hpp:472-476): both codes
    are made with encode *)
Definition type_of (lay : idx_map) : option ltype :=
  match encode (im_se lay), encode (map Z.of_nat (im_so lay)) with
  | Some se, Some so => checked (LType (rank lay) se so (im_prop lay))
  | _, _ => None
  end.
(** the policy of the view that a slice or a layout transformation returns, _impl_basic_array_view_common.hpp:163-168, layout_transforms.hpp:25-41 *)
Definition view_policy (lay : idx_map) : option policy := option_map layout_to_policy (type_of lay).
(** the policy of the array that make_regular makes of a view or array, basic_array.hpp:423-425; the encoded order is idx_map.hpp:91 *)
Definition regular_policy_of (t : ltype) : option policy :=
  match encode (map Z.of_nat (type_order t)) with Some so => Some (contiguous_policy (lt_rank t) so) | None => None end.
