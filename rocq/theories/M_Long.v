(** 64-bit arithmetic on extents, strides and positions: the computations of c++/nda/layout/idx_map.hpp and c++/nda/layout/slice_static.hpp
    with the type long, signed overflow being undefined (None).  M_IdxMap and M_Slice have the same computations in [Z]. *)
From Verif Require Import Base M_Perm M_IdxMap M_Slice.

Definition long_ok (z : Z) : bool := (- 9223372036854775808 <=? z) && (z <? 9223372036854775808).
Definition long (z : Z) : option Z := if long_ok z then Some z else None.
Definition add64 (a b : option Z) : option Z := match a, b with Some x, Some y => long (x + y) | _, _ => None end.
Definition mul64 (a b : option Z) : option Z := match a, b with Some x, Some y => long (x * y) | _, _ => None end.
(** right fold of + (the last + 0 that slice_static.hpp:263 has and idx_map.hpp:354-361 has not makes no difference) *)
Definition sum64 (l : list (option Z)) : option Z := fold_right add64 (Some 0) l.
Fixpoint all64 (l : list (option Z)) : option (list Z) :=
  match l with [] => Some [] | x :: l' => match x, all64 l' with Some v, Some r => Some (v :: r) | _, _ => None end end.

(** idx_map.hpp:118 [size] *)
Definition size64 (len : list Z) : option Z := fold_left (fun s l => mul64 s (Some l)) len (Some 1).
(** idx_map.hpp:173-181 [compute_strides_contiguous]; in debug builds ENSURES(s == size()) is evaluated, [None] if it fails *)
Definition compute_strides_step64 (so : list nat) (len : list Z) (st : option (list Z * Z)) (v : nat) : option (list Z * Z) :=
  match st with
  | None => None
  | Some (str, s) => let u := nthN so v in match mul64 (Some s) (Some (nthZ len u)) with Some s' => Some (upd str u s, s') | None => None end
  end.
Definition compute_strides64 (checks : bool) (so : list nat) (len junk : list Z) : option (list Z) :=
  match fold_left (compute_strides_step64 so len) (rev (seq 0 (length len))) (Some (junk, 1)) with
  | None => None
  | Some (str, s) => if checks then match size64 len with Some t => if s =? t then Some str else None | None => None end else Some str
  end.
(** idx_map.hpp:333-362 [myget], [call_impl] *)
Definition myget64 (m : idx_map) (skip_stride : bool) (is : nat) (a : carg) : option Z :=
  match a with
  | CEll => Some 0
  | CLong arg => if skip_stride && Nat.eqb is (nthN (im_so m) (rank m - 1)) then Some arg else mul64 (Some arg) (Some (nthZ (im_str m) is))
  end.
Definition call_impl64 (m : idx_map) (args : list carg) : option Z :=
  let e_pos := call_e_pos args in
  let one := has_smallest_stride_is_one (im_prop m) in
  if e_pos =? -1 then
    if one then sum64 (map (fun i => myget64 m true i (nth i args CEll)) (seq 0 (length args)))
    else sum64 (map (fun i => match nth i args CEll with CLong x => mul64 (Some x) (Some (nthZ (im_str m) i)) | CEll => Some 0 end) (seq 0 (length args)))
  else sum64 (map (fun i => myget64 m one (if Z.of_nat i <? e_pos then i else (i - 1)%nat) (nth i args CEll)) (seq 0 (length args))).
(** idx_map.hpp:141-146 [is_contiguous] *)
Definition is_contiguous64 (m : idx_map) : option bool :=
  match size64 (im_len m) with
  | None => None
  | Some s => if s =? 0 then Some true else
      match all64 (map (fun i => mul64 (Some (nthZ (im_str m) i)) (Some (nthZ (im_len m) i))) (seq 0 (length (im_str m)))) with
      | Some p => Some (max_element p =? s)
      | None => None
      end
  end.
(** slice_static.hpp:201-203 [get_offset], 214-215 [get_s] *)
Definition get_offset64 (a : arg) (s_n : Z) : option Z :=
  match a with ALong i => mul64 (Some i) (Some s_n) | ARange r => mul64 (Some (r_first r)) (Some s_n) | AAll | AEll => Some 0 end.
Definition get_s64 (a : arg) (s_n : Z) : option Z :=
  match a with ARange r => mul64 (Some s_n) (Some (r_step r)) | AAll | AEll => Some s_n | ALong _ => Some 0 end.
(** slice_static.hpp:230-283; the extents come from itertools::range (contract: no overflow there) *)
Definition slice64 (m : idx_map) (args : list arg) : option (Z * idx_map) :=
  let N := rank m in
  let e_len := (N + 1 - length args)%nat in
  let e_pos := ellipsis_position args in
  let n_of_p := n_of_p_map N args e_pos e_len in
  let q_of_p := q_of_p_map N args e_pos e_len in
  let argq q := nth q args AAll in
  match slice m args with
  | None => None
  | Some (_, m') =>
      match sum64 (map (fun n => get_offset64 (argq (q_of_n n e_pos e_len)) (nthZ (im_str m) n)) (seq 0 N)),
            all64 (map (fun p => get_s64 (argq (nthN q_of_p p)) (nthZ (im_str m) (nthN n_of_p p))) (seq 0 (length n_of_p))) with
      | Some offset, Some str => Some (offset, IdxMap (im_len m') str (im_so m') (im_se m') (im_prop m'))
      | _, _ => None
      end
  end.
(** mem/handle.hpp:146-175 [handle_heap(long size)], 395-440 [handle_sso(long size)]: the number of bytes asked from the allocator,
    [size * sizeof(T)], where size is converted to std::size_t and the product is taken modulo 2^64 *)
Definition bytes64 (size sizeof_T : Z) : Z := ((size mod 18446744073709551616) * sizeof_T) mod 18446744073709551616.
