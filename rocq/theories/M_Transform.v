(** Model of c++/nda/layout/policies.hpp, c++/nda/layout_transforms.hpp, c++/nda/group_indices.hpp,
    c++/nda/matrix_functions.hpp and of the constructors and factories of c++/nda/basic_array.hpp and
    c++/nda/basic_functions.hpp.  A new array is given the address [base] of its storage; the uninitialised content of
    the stride array of a new layout is taken to be zero (C01_fresh_bijective is about any content). *)
From Verif Require Import Base M_Perm M_IdxMap M_Slice M_Loops M_Assign M_Expr.

(** ** policies.hpp:26-63 *)
Inductive policy := PolC | PolF | PolCStride | PolFStride | PolBasic (se_code so_code : Z) (p : layout_prop).
(** policies.hpp:28, 36, 44, 52, 62 [mapping<Rank>] and idx_map.hpp:84-90: stride order, static extents and property of
    the layouts of rank [n] of a policy.  For the four fixed policies the stride order is not encoded and decoded again
    (see C05 for what that costs at ranks above 8). *)
Definition policy_order (pol : policy) (n : nat) : list nat :=
  match pol with
  | PolC | PolCStride => identity n
  | PolF | PolFStride => reverse_identity n
  | PolBasic _ so_code _ => if so_code =? 0 then identity n else map Z.to_nat (decode n so_code)
  end.
Definition policy_extents (pol : policy) (n : nat) : list Z :=
  match pol with PolBasic se_code _ _ => decode n se_code | _ => repeat 0 n end.
Definition policy_prop (pol : policy) : layout_prop :=
  match pol with PolC | PolF => LP_contiguous | PolCStride | PolFStride => LP_none | PolBasic _ _ p => p end.
(** layout_t{shape}: the layout of rank length [shape] of the policy, built from a shape (idx_map.hpp:291-297). [junk]: the
    uninitialised strides.  With [checks] the EXPECTS on static extents (idx_map.hpp:245-255) is evaluated. *)
Definition policy_layout (checks : bool) (pol : policy) (junk shape : list Z) : option idx_map :=
  let n := length shape in
  if checks && negb (static_extents_ok (policy_extents pol n) shape) then None else
  Some (idx_map_of_shape (policy_order pol n) (policy_extents pol n) (policy_prop pol) junk shape).

(** ** layout_transforms.hpp *)
(** layout_transforms.hpp:25-41 [map_layout_transform]: same storage, new layout; algebra 'A' if the rank changes. *)
Definition map_layout_transform (alg : algebra) (a : view) (new_layout : idx_map) : algebra * view :=
  ((if Nat.eqb (rank new_layout) (rank (v_lay a)) then alg else AlgA), View new_layout (v_base a)).
(** layout_transforms.hpp:44-51 [reshape].  None is a failed EXPECTS. *)
Definition reshape (checks : bool) (pol : policy) (alg : algebra) (junk : list Z) (a : view) (new_shape : list Z) : option (algebra * view) :=
  if checks && negb (size (v_lay a) =? fold_left Z.mul new_shape 1) then None else
  if checks && negb (is_contiguous (v_lay a)) then None else
  match policy_layout checks pol junk new_shape with
  | Some lay => Some (map_layout_transform alg a lay)
  | None => None
  end.
(** layout_transforms.hpp:65-68 [flatten]. *)
Definition flatten (checks : bool) (pol : policy) (alg : algebra) (junk : list Z) (a : view) : option (algebra * view) :=
  reshape checks pol alg junk a [size (v_lay a)].
(** layout_transforms.hpp:72-75 [permuted_indices_view]; 89-98 [transpose]; 102-107 [transposed_view]. *)
Definition permuted_indices_view (permu : list nat) (alg : algebra) (a : view) : algebra * view :=
  map_layout_transform alg a (transpose permu (v_lay a)).
Definition transpose_view (alg : algebra) (a : view) : algebra * view := permuted_indices_view [1%nat; 0%nat] alg a.
Definition transposed_view (i j : nat) (alg : algebra) (a : view) : algebra * view :=
  permuted_indices_view (transposition (rank (v_lay a)) i j) alg a.

(** layout_transforms.hpp:123-129 [complete_stride_order_with_fast]. *)
Definition complete_stride_order_with_fast (N : nat) (a : list nat) : list nat :=
  map (fun i => if Nat.ltb i (length a) then nthN a i else i) (seq 0 (length a + N)).
(** layout_transforms.hpp:133-151 [reinterpret_add_fast_dims_of_size_one]. *)
Definition add_fast_dims_layout (N : nat) (lay : idx_map) : idx_map :=
  idx_map_of_shape_strides (complete_stride_order_with_fast N (im_so lay)) (im_se lay ++ repeat 0 N) (im_prop lay)
                           (im_len lay ++ repeat 1 N) (im_str lay ++ repeat 1 N).
Definition reinterpret_add_fast_dims (N : nat) (alg : algebra) (a : view) : algebra * view :=
  map_layout_transform alg a (add_fast_dims_layout N (v_lay a)).

(** ** group_indices.hpp *)
(** group_indices.hpp:32-55 [is_partition_of_indices]; false also stands for the exceptions (all stop the compilation). *)
Definition count_indices (R : nat) (grps : list (list nat)) : list nat :=
  fold_left (fun c grp => fold_left (fun c g => upd c g (S (nthN c g))) grp c) grps (repeat 0%nat R).
Definition is_partition_of_indices (R : nat) (grps : list (list nat)) : bool :=
  Nat.eqb (fold_right Nat.add 0%nat (map (@length nat) grps)) R &&
  forallb (forallb (fun g => Nat.ltb g R)) grps &&
  (if list_eq_dec Nat.eq_dec (count_indices R grps) (repeat 1%nat R) then true else false).
(** group_indices.hpp:80-93: the lambda [min_mem_pos]; None is the exception "not consecutive". *)
Definition min_mem_pos (mem_pos : list nat) (grp : list nat) : option nat :=
  let '(m, M) := fold_left (fun st idx => let v := nthN mem_pos idx in
                                          ((if Nat.ltb v (fst st) then v else fst st), (if Nat.ltb (snd st) v then v else snd st)))
                           grp (length mem_pos, 0%nat) in
  if Nat.eqb (M + 1) (length grp + m) then Some m else None.
Fixpoint all_some {A} (l : list (option A)) : option (list A) :=
  match l with
  | [] => Some []
  | Some x :: l' => match all_some l' with Some r => Some (x :: r) | None => None end
  | None :: _ => None
  end.
(** group_indices.hpp:62-113 [stride_order_of_grouped_idx_map]. *)
Definition mem_pos_out (mins : list nat) : list nat :=
  map (fun u => length (filter (fun i => Nat.ltb (nthN mins i) (nthN mins u)) (seq 0 (length mins)))) (seq 0 (length mins)).
Definition stride_order_of_grouped_idx_map (so : list nat) (grps : list (list nat)) : option (list nat) :=
  match all_some (map (min_mem_pos (inverse so)) grps) with
  | Some mins => Some (inverse (mem_pos_out mins))
  | None => None
  end.
(** group_indices.hpp:143-174 [group_indices_layout]; None is a compile-time error. *)
Definition total_len_of_a_grp (idxm : idx_map) (grp : list nat) : Z := fold_left (fun l u => l * nthZ (im_len idxm) u) grp 1.
Definition min_stride_of_a_grp (idxm : idx_map) (grp : list nat) : Z := fold_left (fun s u => Z.min s (nthZ (im_str idxm) u)) grp (size idxm).
Definition group_indices_layout (idxm : idx_map) (grps : list (list nat)) : option idx_map :=
  if negb (lp_eqb (im_prop idxm) LP_contiguous) then None else
  if negb (is_partition_of_indices (rank idxm) grps) then None else
  match stride_order_of_grouped_idx_map (im_so idxm) grps with
  | Some so => Some (idx_map_of_shape_strides so (repeat 0 (length grps)) LP_contiguous
                       (map (total_len_of_a_grp idxm) grps) (map (min_stride_of_a_grp idxm) grps))
  | None => None
  end.
Definition group_indices_view (alg : algebra) (a : view) (grps : list (list nat)) : option (algebra * view) :=
  match group_indices_layout (v_lay a) grps with Some lay => Some (map_layout_transform alg a lay) | None => None end.

(** ** new arrays *)
(** basic_array.hpp:114-154: an array of a contiguous layout policy and shape; [base] is the address of its storage. *)
Definition new_array (so : list nat) (base : Z) (shape : list Z) : view :=
  View (idx_map_of_shape so (repeat 0 (length shape)) LP_contiguous (repeat 0 (length shape)) shape) base.
Definition c_array (base : Z) (shape : list Z) : view := new_array (identity (length shape)) base shape.
(** basic_array.hpp:275-280 [zeros]: storage constructed with init_zero (mem/handle.hpp:145-152: calloc). *)
Definition zeros {V} (zero : V) (so : list nat) (base : Z) (shape : list Z) (m : mem V) : view * mem V :=
  let a := new_array so base shape in
  (a, fold_left (fun m i => mset m (base + i) zero) (zseq (size (v_lay a))) m).
(** basic_array.hpp:291-298 [ones]: [res() = ValueType{1}], where res() has the algebra of the array. *)
Definition ones {V} (A : arith V) (matrix : bool) (so : list nat) (base : Z) (shape : list Z) (m : mem V) : view * option (mem V) :=
  let a := new_array so base shape in
  (a, assign_from_scalar 0 matrix (v_zero A) a (v_one A) m).
(** basic_array.hpp:129-136: rank one array of [i] elements with value [val] (not a matrix: rank 1). *)
Definition array_filled {V} (zero : V) (base i : Z) (val : V) (m : mem V) : view * option (mem V) :=
  let a := c_array base [i] in (a, assign_from_scalar 0 false zero a val m).
(** basic_functions.hpp:75-86 [arange]; zip of an array and a range of its size is the loop over positions. *)
Definition range_value (r : range) (k : Z) : Z := r_first r + k * r_step r.
Definition arange (base first last step : Z) (m : mem Z) : view * mem Z :=
  let r := Range first last step in
  let a := c_array base [range_size r] in
  (a, fold_left (fun m k => mset m (elem a [k]) (range_value r k)) (zseq (range_size r)) m).
Definition arange1 (base last : Z) (m : mem Z) : view * mem Z := arange base 0 last 1 m.
(** basic_array.hpp:156-174: construction from any array-like object: [trivial] element types are assigned, others
    constructed in place element by element. *)
Definition array_of_ndarray {V} (checks trivial : bool) (so : list nat) (base : Z) (shape : list Z) (r : rhs V) (m : mem V) : view * option (mem V) :=
  let a := new_array so base shape in
  (a, if trivial then assign_from_ndarray checks true a shape r m
      else Some (for_each (im_len (v_lay a)) (fun idx m => mset m (v_base a + call_impl (v_lay a) (map CLong idx)) (rhs_at r m idx)) m)).

(** ** matrix_functions.hpp *)
(** matrix_functions.hpp:25-30 [eye]. *)
Definition eye {V} (A : arith V) (base dim : Z) (m : mem V) : view * option (mem V) :=
  let r := c_array base [dim; dim] in (r, assign_from_scalar 0 true (v_zero A) r (v_one A) m).
(** matrix_functions.hpp:33-41 [trace] of anything with a shape and a call operator; None is the EXPECTS. The loop counter
    is an int there; extents above 2^31 are not modelled. *)
Definition trace {V} (A : arith V) (shape : list Z) (a : list Z -> V) : option V :=
  if nthZ shape 0 =? nthZ shape 1 then Some (fold_left (fun r i => v_add A r (a [i; i])) (zseq (nthZ shape 0)) (v_zero A)) else None.
(** matrix_functions.hpp:44-50 [dagger]; [conj] is the identity for real element types. *)
Definition dagger {V} (A : arith V) (conj : V -> V) (a : view) : expr V :=
  let '(alg, t) := transpose_view AlgM a in EMap (fun l => match l with x :: _ => conj x | [] => v_zero A end) (EOne (ELeaf alg t)).
(** matrix_functions.hpp:53-60 [diagonal]. *)
Definition diagonal (a : view) : view :=
  let dim := Z.min (nthZ (im_len (v_lay a)) 0) (nthZ (im_len (v_lay a)) 1) in
  let stride := sumZ (im_str (v_lay a)) in
  View (idx_map_of_shape_strides (identity 1) [0] LP_none [dim] [stride]) (v_base a).
(** matrix_functions.hpp:63-73 [diag] of a vector [v] (shape [n], values [r]). *)
Definition diag {V} (A : arith V) (checks : bool) (base n : Z) (r : rhs V) (m : mem V) : view * option (mem V) :=
  let '(a, m) := zeros (v_zero A) (identity 2) base [n; n] m in
  (a, assign_from_ndarray checks true (diagonal a) [n] r m).
(** matrix_functions.hpp:78-97 [vstack]; [ra], [rb] are the two arguments, of shapes [sa], [sb]. *)
Definition vstack {V} (checks : bool) (base : Z) (sa : list Z) (ra : rhs V) (sb : list Z) (rb : rhs V) (m : mem V) : option (view * mem V) :=
  if checks && negb (nthZ sa 1 =? nthZ sb 1) then None else
  let n := nthZ sa 0 in let q := nthZ sa 1 in let p := nthZ sb 0 in
  let res := c_array base [n + p; q] in
  match slice_view AlgM res [ARange (Range 0 n 1); AAll], slice_view AlgM res [ARange (Range n (n + p) 1); AAll] with
  | Some (_, top), Some (_, bot) =>
      match assign_from_ndarray checks true top sa ra m with
      | None => None
      | Some m1 => match assign_from_ndarray checks true bot sb rb m1 with None => None | Some m2 => Some (res, m2) end
      end
  | _, _ => None
  end.

(** ** nested initializer lists *)
(** std::minmax_element of libstdc++ (bits/stl_algo.h), on the values; None: empty range (both iterators are end). *)
Fixpoint minmax_loop {T} (comp : T -> T -> bool) (l : list T) (mn mx : T) : T * T :=
  match l with
  | [] => (mn, mx)
  | [x] => if comp x mn then (x, mx) else if negb (comp x mx) then (mn, x) else (mn, mx)
  | x :: y :: l' =>
      if comp y x then minmax_loop comp l' (if comp y mn then y else mn) (if negb (comp x mx) then x else mx)
      else minmax_loop comp l' (if comp x mn then x else mn) (if negb (comp y mx) then y else mx)
  end.
Definition minmax_element {T} (comp : T -> T -> bool) (l : list T) : option (T * T) :=
  match l with
  | [] => None
  | [x] => Some (x, x)
  | x :: y :: l' => Some (if comp y x then minmax_loop comp l' y x else minmax_loop comp l' x y)
  end.
(** what [shape_from_init_list] can do: give a shape, fail its EXPECTS, read past the end of an empty list *)
Inductive list_shape := LShape (s : list Z) | LNotRectangular | LUndefined.
Definition shape_known (x : list_shape) : list Z := match x with LShape s => s | _ => [] end.
Definition bad_shape (x : list_shape) : bool := match x with LShape _ => false | _ => true end.
(** basic_array.hpp:189-197 [shape_from_init_list]; [subs] are the shapes of the elements of the list, which the
    comparison evaluates for every element (the element of a one element list is evaluated too). *)
Definition shape_of_list1 {V} (l : list V) : list_shape := LShape [Z.of_nat (length l)].
Definition shape_of_list (checks : bool) (subs : list list_shape) : list_shape :=
  match find bad_shape subs with
  | Some x => x
  | None =>
      match minmax_element shape_eqb (map shape_known subs) with
      | None => LUndefined
      | Some (mn, mx) => if checks && negb (shape_eqb mn mx) then LNotRectangular else LShape (Z.of_nat (length subs) :: mx)
      end
  end.
Definition shape_of_list2 {V} (checks : bool) (l2 : list (list V)) : list_shape := shape_of_list checks (map shape_of_list1 l2).
Definition shape_of_list3 {V} (checks : bool) (l3 : list (list (list V))) : list_shape := shape_of_list checks (map (shape_of_list2 checks) l3).
(** basic_array.hpp:200-239: the three constructors; the loop variables are incremented as written. *)
Definition fill_list1 {V} (a : view) (pre : list Z) (l1 : list V) (m : mem V) : mem V :=
  snd (fold_left (fun '(j, m) x => (j + 1, mset m (v_base a + call_impl (v_lay a) (map CLong (pre ++ [j]))) x)) l1 (0, m)).
Definition fill_list2 {V} (a : view) (pre : list Z) (l2 : list (list V)) (m : mem V) : mem V :=
  snd (fold_left (fun '(i, m) l1 => (i + 1, fill_list1 a (pre ++ [i]) l1 m)) l2 (0, m)).
Definition fill_list3 {V} (a : view) (l3 : list (list (list V))) (m : mem V) : mem V :=
  snd (fold_left (fun '(i, m) l2 => (i + 1, fill_list2 a [i] l2 m)) l3 (0, m)).
Definition array_of_list1 {V} (so : list nat) (base : Z) (l : list V) (m : mem V) : view * mem V :=
  let a := new_array so base [Z.of_nat (length l)] in (a, fill_list1 a [] l m).
Inductive list_outcome (V : Type) := LArray (a : view) (m : mem V) | LReported | LUB.
Arguments LArray {V}. Arguments LReported {V}. Arguments LUB {V}.
Definition array_of_list2 {V} (checks : bool) (so : list nat) (base : Z) (l : list (list V)) (m : mem V) : list_outcome V :=
  match shape_of_list2 checks l with
  | LShape s => let a := new_array so base s in LArray a (fill_list2 a [] l m)
  | LNotRectangular => LReported
  | LUndefined => LUB
  end.
Definition array_of_list3 {V} (checks : bool) (so : list nat) (base : Z) (l : list (list (list V))) (m : mem V) : list_outcome V :=
  match shape_of_list3 checks l with
  | LShape s => let a := new_array so base s in LArray a (fill_list3 a l m)
  | LNotRectangular => LReported
  | LUndefined => LUB
  end.
