(** Model of c++/nda/layout/slice_static.hpp, of itertools::range (external) and of
    c++/nda/layout/bound_check_worker.hpp. *)
From Verif Require Import Base M_Perm M_IdxMap.

(** itertools::range (external dependency, contract): first, last (excluded), step; step <> 0 is
    enforced by its constructor. *)
Record range := Range { r_first : Z; r_last : Z; r_step : Z }.

(** itertools::range::size(): number of k >= 0 with first + k*step strictly before last. *)
Definition range_size (r : range) : Z :=
  if 0 <? r_step r then Z.max 0 ((r_last r - r_first r + r_step r - 1) / r_step r)
  else if r_step r <? 0 then Z.max 0 ((r_first r - r_last r + (- r_step r) - 1) / (- r_step r))
  else 0.

(** range.hpp:27-33: kinds of slice arguments (integer, range, range::all_t, ellipsis). *)
Inductive arg := ALong (i : Z) | ARange (r : range) | AAll | AEll.

Definition is_long (a : arg) : bool := match a with ALong _ => true | _ => false end.
(** slice_static.hpp:251: [args_is_range] (ellipsis derives from all_t, range.hpp:30). *)
Definition is_range (a : arg) : bool := match a with ALong _ => false | _ => true end.
(** slice_static.hpp:252: [args_is_range_all]. *)
Definition is_range_all (a : arg) : bool := match a with AAll | AEll => true | _ => false end.
Definition is_ellipsis (a : arg) : bool := match a with AEll => true | _ => false end.

(** slice_static.hpp:66-78 [ellipsis_position]: 128 when there is none. *)
Definition ellipsis_position (args : list arg) : nat :=
  let r := fold_right Nat.add 0%nat
             (map (fun i => if is_ellipsis (nth i args AAll) then (i + 1)%nat else 0%nat) (seq 0 (length args))) in
  if Nat.eqb r 0 then 128%nat else (r - 1)%nat.

(** slice_static.hpp:85-91 [q_of_n]; [n - (e_len - 1)] is written [n + 1 - e_len]. *)
Definition q_of_n (n e_pos e_len : nat) : nat :=
  if Nat.ltb n e_pos then n else if Nat.ltb n (e_pos + e_len) then e_pos else (n + 1 - e_len)%nat.

(** slice_static.hpp:100-110 [n_of_p_map] (the loop appends n at position p++). *)
Definition n_of_p_map (N : nat) (args : list arg) (e_pos e_len : nat) : list nat :=
  filter (fun n => is_range (nth (q_of_n n e_pos e_len) args AAll)) (seq 0 N).

(** slice_static.hpp:115-125 [q_of_p_map]. *)
Definition q_of_p_map (N : nat) (args : list arg) (e_pos e_len : nat) : list nat :=
  map (fun n => q_of_n n e_pos e_len) (n_of_p_map N args e_pos e_len).

(** slice_static.hpp:131-136 [p_of_n_map]; None stands for -1. *)
Definition p_of_n_map (N : nat) (n_of_p : list nat) : list (option nat) :=
  fold_left (fun r p => upd r (nthN n_of_p p) (Some p)) (seq 0 (length n_of_p)) (repeat None N).

(** slice_static.hpp:142-155 [sliced_mem_stride_order]. *)
Definition sliced_mem_stride_order (so n_of_p : list nat) : list nat :=
  let p_of_n := p_of_n_map (length so) n_of_p in
  flat_map (fun n => match nth n p_of_n None with Some p => [p] | None => [] end) so.

(** slice_static.hpp:165-195 [slice_layout_prop]: the loop state is (n_1_blocks, previous_arg_is_rangeall). *)
Definition blocks_step (args : list arg) (e_pos e_len : nat) (st : nat * bool) (n : nat) : nat * bool :=
  let cur := is_range_all (nth (q_of_n n e_pos e_len) args AAll) in
  ((if cur && negb (snd st) then S (fst st) else fst st), cur).
Definition slice_layout_prop (P : nat) (has_only_rangeall_and_long : bool) (args : list arg)
    (so : list nat) (lp : layout_prop) (e_pos e_len : nat) : layout_prop :=
  if negb has_only_rangeall_and_long then
    if Nat.eqb P 1 then LP_strided_1d else LP_none
  else
    let st := fold_left (blocks_step args e_pos e_len) so (0%nat, false) in
    let grouped := Nat.leb (fst st) 1 in
    let last_is_rangeall := snd st in
    if has_contiguous lp && grouped && last_is_rangeall then LP_contiguous else
    if has_strided_1d lp && grouped then LP_strided_1d else
    if has_smallest_stride_is_one lp && last_is_rangeall then LP_smallest_one else
    LP_none.

(** slice_static.hpp:201-203 [get_offset]. *)
Definition get_offset (a : arg) (s_n : Z) : Z :=
  match a with ALong i => i * s_n | ARange r => r_first r * s_n | AAll | AEll => 0 end.

(** slice_static.hpp:207-211 [get_l]; never called on a long. *)
Definition get_l (a : arg) (l_n : Z) : Z :=
  match a with
  | ARange r => let last := if (r_last r =? -1) && (0 <? r_step r) then l_n else r_last r in
                range_size (Range (r_first r) last (r_step r))
  | AAll | AEll => l_n
  | ALong _ => 0
  end.

(** slice_static.hpp:214-215 [get_s]; never called on a long. *)
Definition get_s (a : arg) (s_n : Z) : Z :=
  match a with ARange r => s_n * r_step r | AAll | AEll => s_n | ALong _ => 0 end.

(** slice_static.hpp:230-283 [slice_stride_order_impl]: (offset, new map). *)
Definition slice_impl (m : idx_map) (args : list arg) : Z * idx_map :=
  let N := rank m in
  let Q := length args in
  let e_len := (N + 1 - Q)%nat in
  let e_pos := ellipsis_position args in
  let n_of_p := n_of_p_map N args e_pos e_len in
  let q_of_p := q_of_p_map N args e_pos e_len in
  let P := length n_of_p in
  let argq q := nth q args AAll in
  let offset := sumZ (map (fun n => get_offset (argq (q_of_n n e_pos e_len)) (nthZ (im_str m) n)) (seq 0 N)) in
  let len := map (fun p => get_l (argq (nthN q_of_p p)) (nthZ (im_len m) (nthN n_of_p p))) (seq 0 P) in
  let str := map (fun p => get_s (argq (nthN q_of_p p)) (nthZ (im_str m) (nthN n_of_p p))) (seq 0 P) in
  let se := map (fun p => if is_range_all (argq (nthN q_of_p p)) then nthZ (im_se m) (nthN n_of_p p) else 0) (seq 0 P) in
  let so := sliced_mem_stride_order (im_so m) n_of_p in
  let only := forallb (fun a => is_long a || is_range_all a) args in
  (offset, IdxMap len str so se (slice_layout_prop P only args (im_so m) (im_prop m) e_pos e_len)).

(** slice_static.hpp:287-299 [slice_stride_order] and idx_map.hpp:414: None is a violated static_assert. *)
Definition count_ell (args : list arg) : nat := length (filter is_ellipsis args).
Definition slice (m : idx_map) (args : list arg) : option (Z * idx_map) :=
  let n_ell := count_ell args in
  if negb (Nat.leb n_ell 1) then None else
  if negb (Nat.leb (length args) (rank m + 1)) then None else
  if negb (Nat.eqb n_ell 1 || Nat.eqb (length args) (rank m)) then None else
  Some (slice_impl m args).

(** bound_check_worker.hpp:26-47: the state is (N, error_code); [error_code] is uint32_t. *)
Definition bc_f (lengths : list Z) (ellipsis_loss : Z) (st : Z * Z) (a : arg) : Z * Z :=
  let '(N, err) := st in
  let bad := (err + 2 ^ N) mod 2 ^ 32 in
  let ln := nthZ lengths (Z.to_nat N) in
  match a with
  | ALong key => (N + 1, if (key <? 0) || (ln <=? key) then bad else err)
  | AAll => (N + 1, err)
  | ARange r =>
      if 0 <? range_size r then
        let first_idx := r_first r in
        let last_idx := first_idx + (range_size r - 1) * r_step r in
        (N + 1, if (first_idx <? 0) || (ln <=? first_idx) || (last_idx <? 0) || (ln <=? last_idx) then bad else err)
      else (N + 1, err)
  | AEll => (N + (ellipsis_loss + 1), err)
  end.

(** bound_check_worker.hpp:58-69 [assert_in_bounds]: true means no exception. *)
Definition assert_in_bounds (rank : nat) (lengths : list Z) (args : list arg) : bool :=
  let ellipsis_loss := Z.of_nat rank - Z.of_nat (length args) in
  let st := fold_left (bc_f lengths ellipsis_loss) args (0, 0) in
  snd st =? 0.

(** idx_map.hpp:374-383 [operator()] with NDA_ENFORCE_BOUNDCHECK: None is the exception. *)
Definition carg_arg (a : carg) : arg := match a with CLong i => ALong i | CEll => AEll end.
Definition call_checked (m : idx_map) (args : list carg) : option Z :=
  if assert_in_bounds (rank m) (im_len m) (map carg_arg args) then Some (call_impl m args) else None.
(** slice_static.hpp:234-236: slicing with NDA_ENFORCE_BOUNDCHECK. *)
Definition slice_checked (m : idx_map) (args : list arg) : option (Z * idx_map) :=
  if assert_in_bounds (rank m) (im_len m) args then slice m args else None.
