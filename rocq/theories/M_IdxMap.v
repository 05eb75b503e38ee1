(** Model of c++/nda/layout/idx_map.hpp and of the layout flags of c++/nda/traits.hpp.
    Extents, strides and offsets are unbounded [Z] (the C++ type is 64-bit long; overflow is
    not modelled).  The template parameters of [idx_map] (static extents, stride order,
    layout property) are ordinary fields. *)
From Verif Require Import Base M_Perm.

(** traits.hpp:162-167 [layout_prop_e]; the two bits are strided_1d = 0x1, smallest_stride_is_one = 0x2. *)
Inductive layout_prop := LP_none | LP_strided_1d | LP_smallest_one | LP_contiguous.

(** traits.hpp:183 [has_strided_1d]. *)
Definition has_strided_1d (p : layout_prop) : bool :=
  match p with LP_strided_1d | LP_contiguous => true | _ => false end.
(** traits.hpp:184 [has_smallest_stride_is_one]. *)
Definition has_smallest_stride_is_one (p : layout_prop) : bool :=
  match p with LP_smallest_one | LP_contiguous => true | _ => false end.
(** traits.hpp:185 [has_contiguous]. *)
Definition has_contiguous (p : layout_prop) : bool := has_strided_1d p && has_smallest_stride_is_one p.

Definition lp_eqb (p q : layout_prop) : bool :=
  match p, q with
  | LP_none, LP_none | LP_strided_1d, LP_strided_1d
  | LP_smallest_one, LP_smallest_one | LP_contiguous, LP_contiguous => true
  | _, _ => false
  end.

(** traits.hpp:172-175 [layout_property_compatible]. *)
Definition layout_property_compatible (from to : layout_prop) : bool :=
  if lp_eqb from LP_contiguous then true else lp_eqb to LP_none || lp_eqb to from.

(** traits.hpp:178-180 and 194-199: intersection of the flag bits ([operator&]). *)
Definition lp_and (p q : layout_prop) : layout_prop :=
  match has_strided_1d p && has_strided_1d q, has_smallest_stride_is_one p && has_smallest_stride_is_one q with
  | true, true => LP_contiguous
  | true, false => LP_strided_1d
  | false, true => LP_smallest_one
  | false, false => LP_none
  end.

(** idx_map.hpp:79-94: the run-time arrays [len], [str] and the compile-time parameters. *)
Record idx_map := IdxMap {
  im_len : list Z;
  im_str : list Z;
  im_so : list nat;      (* stride_order: slowest dimension first *)
  im_se : list Z;        (* static_extents: 0 means dynamic *)
  im_prop : layout_prop  (* layout_prop *)
}.

(** idx_map.hpp:114 [rank]. *)
Definition rank (m : idx_map) : nat := length (im_len m).

(** idx_map.hpp:118 [size]: std::accumulate(..., 1L, std::multiplies). *)
Definition size (m : idx_map) : Z := fold_left Z.mul (im_len m) 1.

(** idx_map.hpp:104-108 [n_dynamic_extents]. *)
Definition n_dynamic_extents (se : list Z) : nat := length (filter (fun e => e =? 0) se).

(** idx_map.hpp:121-129 [ce_size]. *)
Definition ce_size (se : list Z) : Z :=
  if Nat.eqb (n_dynamic_extents se) 0 then fold_left Z.mul se 1 else 0.

(** idx_map.hpp:138 [min_stride]. *)
Definition min_stride (m : idx_map) : Z := nthZ (im_str m) (nthN (im_so m) (rank m - 1)).

(** std::max_element on a non-empty range (value); used at idx_map.hpp:145 and 153. *)
Definition max_element (l : list Z) : Z :=
  match l with [] => 0 | x :: l' => fold_left (fun m y => if m <? y then y else m) l' x end.

(** stdutil/array.hpp:63-68 [operator*] on std::array. *)
Definition arr_mul (a b : list Z) : list Z := map (fun i => nthZ a i * nthZ b i) (seq 0 (length a)).

(** idx_map.hpp:141-146 [is_contiguous]. *)
Definition is_contiguous (m : idx_map) : bool :=
  if size m =? 0 then true else max_element (arr_mul (im_str m) (im_len m)) =? size m.

(** idx_map.hpp:149-154 [is_strided_1d]. *)
Definition is_strided_1d (m : idx_map) : bool :=
  if size m =? 0 then true else max_element (arr_mul (im_str m) (im_len m)) =? size m * min_stride m.

(** idx_map.hpp:157-161 [is_stride_order_C]. *)
Definition is_stride_order_C (m : idx_map) : bool :=
  if list_eq_dec Nat.eq_dec (im_so m) (identity (rank m)) then true else false.
(** idx_map.hpp:164-167 [is_stride_order_Fortran]. *)
Definition is_stride_order_Fortran (m : idx_map) : bool :=
  if list_eq_dec Nat.eq_dec (im_so m) (reverse_identity (rank m)) then true else false.

(** idx_map.hpp:173-181 [compute_strides_contiguous]: [v] runs from rank-1 down to 0.
    [junk] is the uninitialised content of [str]. *)
Definition compute_strides_step (so : list nat) (len : list Z) (st : list Z * Z) (v : nat) : list Z * Z :=
  let u := nthN so v in (upd (fst st) u (snd st), snd st * nthZ len u).
Definition compute_strides_contiguous (so : list nat) (len junk : list Z) : list Z :=
  fst (fold_left (compute_strides_step so len) (rev (seq 0 (length len))) (junk, 1)).

(** idx_map.hpp:291-297: constructor from the shape (the EXPECTS on the shape is a hypothesis of the
    theorems).  The layout property of such a map is whatever its type says. *)
Definition idx_map_of_shape (so : list nat) (se : list Z) (p : layout_prop) (junk shape : list Z) : idx_map :=
  IdxMap shape (compute_strides_contiguous so shape junk) so se p.

(** idx_map.hpp:285-289: constructor from shape and strides. *)
Definition idx_map_of_shape_strides (so : list nat) (se : list Z) (p : layout_prop) (shape strides : list Z) : idx_map :=
  IdxMap shape strides so se p.

(** idx_map.hpp:187-195: default constructor; [junk] is the uninitialised [str]. *)
Definition idx_map_default (so : list nat) (se : list Z) (p : layout_prop) (junk : list Z) : idx_map :=
  if Nat.eqb (n_dynamic_extents se) 0
  then IdxMap se (compute_strides_contiguous so se junk) so se p
  else IdxMap (repeat 0 (length se)) junk so se p.

(** idx_map.hpp:300-304 [merge_static_and_dynamic_extents]: [v] is the running position in [s]. *)
Fixpoint merge_static_and_dynamic_extents (se s : list Z) : list Z :=
  match se with
  | [] => []
  | e :: se' => if e =? 0 then match s with x :: s' => x :: merge_static_and_dynamic_extents se' s'
                                          | [] => 0 :: merge_static_and_dynamic_extents se' [] end
                else e :: merge_static_and_dynamic_extents se' s
  end.

(** idx_map.hpp:209-221 [is_stride_order_valid]. *)
Definition is_stride_order_valid (m : idx_map) : bool :=
  let dims := filter (fun dim => 1 <? nthZ (im_len m) dim) (im_so m) in
  forallb (fun n => negb (Z.abs (nthZ (im_str m) (nthN dims (n - 1))) <? Z.abs (nthZ (im_str m) (nthN dims n))))
          (seq 1 (length dims - 1)).

(** idx_map.hpp:227-242 and 259-275: conversion to a map type with property [p] (and static
    extents [se]); None is a failed EXPECTS (abort in debug builds).  With [checks] = false
    (release builds) nothing is checked.  idx_map.hpp:245-255 is the static extent check. *)
Definition static_extents_ok (se len : list Z) : bool :=
  forallb (fun u => (nthZ se u =? 0) || (nthZ se u =? nthZ len u)) (seq 0 (length len)).
Definition convert (checks : bool) (p : layout_prop) (se : list Z) (m : idx_map) : option idx_map :=
  let r := IdxMap (im_len m) (im_str m) (im_so m) se p in
  if negb checks then Some r else
  if negb (is_stride_order_valid m) then None else
  if (if layout_property_compatible (im_prop m) p then true
      else (if has_contiguous p then is_contiguous m else true)
           && (if has_strided_1d p then is_strided_1d m else true))
  then if static_extents_ok se (im_len m) then Some r else None
  else None.

(** Arguments of the call operator: an integer, or the empty ellipsis. *)
Inductive carg := CLong (i : Z) | CEll.

(** idx_map.hpp:333-344 [myget]. *)
Definition myget (m : idx_map) (skip_stride : bool) (is : nat) (a : carg) : Z :=
  match a with
  | CEll => 0
  | CLong arg => if skip_stride && Nat.eqb is (nthN (im_so m) (rank m - 1)) then arg else arg * nthZ (im_str m) is
  end.

(** idx_map.hpp:351: [e_pos]. *)
Definition call_e_pos (args : list carg) : Z :=
  sumZ (map (fun i => match nth i args CEll with CEll => Z.of_nat i + 1 | CLong _ => 0 end) (seq 0 (length args))) - 1.

(** idx_map.hpp:349-362 [call_impl]. *)
Definition call_impl (m : idx_map) (args : list carg) : Z :=
  let e_pos := call_e_pos args in
  let one := has_smallest_stride_is_one (im_prop m) in
  if e_pos =? -1 then
    if one then sumZ (map (fun i => myget m true i (nth i args CEll)) (seq 0 (length args)))
    else sumZ (map (fun i => match nth i args CEll with CLong x => x * nthZ (im_str m) i | CEll => 0 end)
                   (seq 0 (length args)))
  else sumZ (map (fun i => myget m one (if Z.of_nat i <? e_pos then i else (i - 1)%nat) (nth i args CEll))
                 (seq 0 (length args))).

(** idx_map.hpp:392-409 [to_idx].  [/] and [%] truncate; None is a division by zero.
    The cells of [idx] are written independently of each other (one map here). *)
Definition to_idx (m : idx_map) (lin_idx : Z) : option (list Z) :=
  let R := rank m in
  let s i := nthZ (im_str m) (nthN (im_so m) i) in
  if existsb (fun i => s i =? 0) (seq 0 R) then None else
  let residues := fold_left (fun res i => upd res i (Z.rem (nthZ res (i - 1)) (s (i - 1)%nat))) (seq 1 (R - 1))
                            (upd (repeat 0 R) 0 lin_idx) in
  let idx := map (fun i => if Nat.eqb i (R - 1) then Z.quot (nthZ residues i) (s i)
                           else Z.quot (nthZ residues i - nthZ residues (i + 1)) (s i)) (seq 0 R) in
  Some (apply_inverse 0 (im_so m) idx).

(** idx_map.hpp:420-423 [operator==]. *)
Definition idx_map_eqb (m m' : idx_map) : bool :=
  Nat.eqb (rank m) (rank m') &&
  (if list_eq_dec Z.eq_dec (im_len m) (im_len m') then true else false) &&
  (if list_eq_dec Z.eq_dec (im_str m) (im_str m') then true else false).

(** idx_map.hpp:442-478 [transpose<Permutation>]. *)
Definition transpose (permu : list nat) (m : idx_map) : idx_map :=
  IdxMap (apply_inverse 0 permu (im_len m)) (apply_inverse 0 permu (im_str m))
         (compose permu (im_so m)) (apply_inverse 0 permu (im_se m)) (im_prop m).
