(** Model of c++/nda/layout/for_each.hpp and c++/nda/iterators.hpp, and of the iterator construction in
    c++/nda/_impl_basic_array_view_common.hpp.  The body of a loop is a state transformer: calling
    [f] on indices [x] in state [s] gives the state [f x s]. *)
From Verif Require Import Base M_Perm M_IdxMap.

(** the values taken by [for (long i = 0; i < imax; ++i)] *)
Definition zseq (imax : Z) : list Z := map Z.of_nat (seq 0 (Z.to_nat imax)).

(** for_each.hpp:50-54 [index_from_stride_order]. *)
Definition index_from_stride_order (R : nat) (code : Z) (i : nat) : nat :=
  if code =? 0 then i else Z.to_nat (nthZ (decode R code) i).

(** for_each.hpp:58-69 [get_extent]. *)
Definition get_extent (R : nat) (se_code : Z) (l : list Z) (i : nat) : Z :=
  if se_code =? 0 then nthZ l i else
  let e := nthZ (decode R se_code) i in if e =? 0 then nthZ l i else e.

(** for_each.hpp:73-93 [for_each_static_impl]: recursion on the loop level; level [I] has the bound
    [imax] of dimension [J = index_from_stride_order(I)], already listed in [imaxs]; the lambda passed
    down prepends the current [i] to the indices of the inner levels. *)
Fixpoint for_each_levels {S : Type} (imaxs : list Z) (f : list Z -> S -> S) (s : S) : S :=
  match imaxs with
  | [] => f [] s
  | imax :: imaxs' => fold_left (fun s i => for_each_levels imaxs' (fun x => f (i :: x)) s) (zseq imax) s
  end.

(** for_each.hpp:99-103 [for_each_static]. *)
Definition for_each_static {S : Type} (se_code so_code : Z) (lengths : list Z) (f : list Z -> S -> S) (s : S) : S :=
  let R := length lengths in
  for_each_levels (map (fun i => get_extent R se_code lengths (index_from_stride_order R so_code i)) (seq 0 R)) f s.

(** for_each.hpp:105-109 [for_each]. *)
Definition for_each {S : Type} (lengths : list Z) (f : list Z -> S -> S) (s : S) : S := for_each_static 0 0 lengths f s.

(** iterators.hpp:30-126 [grid_iterator]: rank 1 and rank > 1. *)
Inductive grid_it :=
| G1 (stri pos offset : Z)
| GS (stri pos offset : Z) (it_begin it_end it : grid_it).

(** iterators.hpp:46-52 and 95 (constructors); the lists of lengths and strides start at the current level. *)
Fixpoint grid_make (lengths strides : list Z) (at_end : bool) : grid_it :=
  match lengths, strides with
  | l :: lengths', s :: strides' =>
      let pos := if at_end then l else 0 in
      match lengths' with
      | [] => G1 s pos (pos * s)
      | _ => let b := grid_make lengths' strides' false in
             GS s pos (pos * s) b (grid_make lengths' strides' true) b
      end
  | _, _ => G1 0 0 0
  end.

(** iterators.hpp:56 and 99 [operator*]. *)
Fixpoint grid_deref (g : grid_it) : Z :=
  match g with G1 _ _ offset => offset | GS _ _ offset _ _ it => offset + grid_deref it end.

(** iterators.hpp:54 and 97 [indices]. *)
Fixpoint grid_indices (g : grid_it) : list Z :=
  match g with G1 _ pos _ => [pos] | GS _ pos _ _ _ it => pos :: grid_indices it end.

(** iterators.hpp:59 and 102 [operator==] (written with the arguments of the inner comparison swapped: it is symmetric). *)
Fixpoint grid_eqb (a b : grid_it) : bool :=
  match a, b with
  | G1 _ pos _, G1 _ pos' _ => pos' =? pos
  | GS _ pos _ _ _ it, GS _ pos' _ _ _ it' => (pos' =? pos) && grid_eqb it it'
  | _, _ => false
  end.

(** iterators.hpp:61-69 and 105-109 [operator++]. *)
Fixpoint grid_incr (g : grid_it) : grid_it :=
  match g with
  | G1 stri pos offset => G1 stri (pos + 1) (offset + stri)
  | GS stri pos offset b e it =>
      let it := grid_incr it in
      if grid_eqb it e then GS stri (pos + 1) (offset + stri) b e b
      else GS stri pos offset b e it
  end.

(** iterators.hpp:111-121: rank 1 only. *)
Definition grid1_decr (g : grid_it) : grid_it := match g with G1 stri pos offset => G1 stri (pos - 1) (offset - stri) | _ => g end.
Definition grid1_add (g : grid_it) (n : Z) : grid_it := match g with G1 stri pos offset => G1 stri (pos + n) (offset + n * stri) | _ => g end.
(** iterators.hpp:125-127: differences and comparisons. *)
Definition grid1_pos (g : grid_it) : Z := match g with G1 _ pos _ | GS _ pos _ _ _ _ => pos end.
Definition grid1_diff (a b : grid_it) : Z := grid1_pos a - grid1_pos b.
Definition grid1_ltb (a b : grid_it) : bool := grid1_pos a <? grid1_pos b.
Definition grid1_gtb (a b : grid_it) : bool := grid1_pos b <? grid1_pos a.

(** [for (it = begin; it != end; ++it)] collecting the offsets; None is "still running after [fuel] steps". *)
Fixpoint iterate (fuel : nat) (it end_ : grid_it) : option (list Z) :=
  if grid_eqb it end_ then Some [] else
  match fuel with
  | O => None
  | S fuel => match iterate fuel (grid_incr it) end_ with
              | Some l => Some (grid_deref it :: l)
              | None => None
              end
  end.

(** _impl_basic_array_view_common.hpp:240 [iterator_rank] and 250-262 [make_iterator]. *)
Definition make_iterator (m : idx_map) (at_end : bool) : grid_it :=
  let iterator_rank := if has_strided_1d (im_prop m) then 1%nat else rank m in
  if Nat.eqb iterator_rank (rank m) then
    if is_stride_order_C m then grid_make (im_len m) (im_str m) at_end
    else grid_make (apply 0 (im_so m) (im_len m)) (apply 0 (im_so m) (im_str m)) at_end
  else grid_make [size m] [min_stride m] at_end.

(** moves of a one-dimensional iterator: iterators.hpp:185-222 ([++], [--], [+=], [-=], and [+], [-] by copies) *)
Inductive move := MIncr | MDecr | MAdd (n : Z) | MSub (n : Z).
Definition grid1_move (g : grid_it) (mv : move) : grid_it :=
  match mv with
  | MIncr => grid_incr g
  | MDecr => grid1_decr g
  | MAdd n => grid1_add g n
  | MSub n => grid1_add g (- n)
  end.
(** iterators.hpp:226 [operator[]] *)
Definition grid1_at (g : grid_it) (n : Z) : Z := grid_deref (grid1_add g n).
(** iterators.hpp:231-232 *)
Definition grid1_leb (a b : grid_it) : bool := negb (grid1_gtb a b).
Definition grid1_geb (a b : grid_it) : bool := negb (grid1_ltb a b).
