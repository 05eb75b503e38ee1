(** Model of python/nda_py/nda_py.hpp, python/nda_py/cpp2py_converters.hpp and the Python side they talk to, for an element type T that
    NumPy knows.  A NumPy array is its type code, the byte address of element (0,..,0), extents and strides in bytes, and whether Python may
    write to it.  Cell [a] of the memory of T starts at byte [w * a], [w] = sizeof(T).  Reference counts are those of C31. *)
From Verif Require Import Base M_Perm M_IdxMap M_Slice M_Loops M_Assign M_Expr M_Transform.

(** conversions between long and size_t: modulo 2^64 *)
Definition to_size_t (z : Z) : Z := z mod 18446744073709551616.
Definition to_long (z : Z) : Z := (z + 9223372036854775808) mod 18446744073709551616 - 9223372036854775808.

Record numpy := Numpy { np_type : Z; np_data : Z; np_dims : list Z; np_strides : list Z; np_readonly : bool }.
(** a Python object: a NumPy array, or another one (number, list, ...) *)
Inductive pyobj (O : Type) := PyArray (n : numpy) | PyOther (o : O).
Arguments PyArray {O}. Arguments PyOther {O}.

Section Numpy.
Variables (w : Z) (npy_type : Z).

(** nda_py.hpp:20-49: the product of a long and sizeof(T) is taken as size_t and stored as long *)
Definition make_numpy_proxy (is_const : bool) (v : view) : numpy :=
  Numpy npy_type (w * v_base v) (im_len (v_lay v)) (map (fun s => to_long (to_size_t (to_size_t s * w))) (im_str (v_lay v))) is_const.

(** cpp2py_converters.hpp:15-20 with idx_map.hpp:209-219 for C order: the first R dimensions of the array *)
Definition numpy_check_layout (R : nat) (n : numpy) : bool :=
  is_stride_order_valid (IdxMap (firstn R (np_dims n)) (firstn R (np_strides n)) (identity R) (repeat 0 R) LP_none).

(** cpp2py_converters.hpp:41-71 *)
Definition view_is_convertible {O} (R : nat) (allow_lower_rank require_c_order : bool) (obj : pyobj O) : bool :=
  match obj with
  | PyOther _ => false
  | PyArray n =>
      let r := length (np_dims n) in
      if (if allow_lower_rank then Nat.ltb r R else negb (Nat.eqb r R)) then false else
      if negb allow_lower_rank && Nat.eqb r R && negb (np_type n =? npy_type) then false else
      if require_c_order && negb (numpy_check_layout R n) then false else true
  end.

(** cpp2py_converters.hpp:75-87: the quotient of a long and sizeof(T) is taken as size_t and stored as long; the data pointer is cast.
    None: a failed EXPECTS, or a data pointer that is not the address of a cell. *)
Definition view_py2c {O} (checks : bool) (R : nat) (obj : pyobj O) : option view :=
  match obj with
  | PyOther _ => None
  | PyArray n =>
      let r := length (np_dims n) in
      if Nat.ltb r R then None else
      if checks && negb ((np_type n =? npy_type) || Nat.ltb R r) then None else
      if checks && negb (numpy_check_layout R n) then None else
      if np_data n mod w =? 0 then
        Some (View (IdxMap (firstn R (np_dims n)) (map (fun s => to_long (to_size_t s / w)) (firstn R (np_strides n))) (identity R) (repeat 0 R) LP_none) (np_data n / w))
      else None
  end.

(** Python's PyArray_FromAny (cpp2py_converters.hpp:119-121): a new array of type T and rank R in C order, and the memory after its
    contents have been written; None: a Python exception *)
Context {V O : Type}.
Variable make_numpy : pyobj O -> mem V -> option (numpy * mem V).

(** cpp2py_converters.hpp:123-135, the case of a NumPy type *)
Definition needs_numpy (obj : pyobj O) : bool := match obj with PyArray n => negb (np_type n =? npy_type) | PyOther _ => true end.
Definition array_is_convertible (R : nat) (obj : pyobj O) (m : mem V) : bool :=
  if needs_numpy obj then
    match make_numpy obj m with Some (n, _) => view_is_convertible R false false (@PyArray O n) | None => false end
  else view_is_convertible R false false obj.

(** cpp2py_converters.hpp:163-179; the view is copied into a new array at [base] (basic_array's constructor from arrays) *)
Definition array_of_view (checks : bool) (R : nat) (base : Z) (obj : pyobj O) (m : mem V) : option (view * mem V) :=
  match view_py2c checks R obj with
  | None => None
  | Some v => match array_of_ndarray checks true (identity R) base (im_len (v_lay v)) (RMem v) m with (a, Some m') => Some (a, m') | _ => None end
  end.
Definition array_py2c_numpy (checks : bool) (R : nat) (base : Z) (n : numpy) (m : mem V) : option (view * mem V) :=
  if numpy_check_layout R n then array_of_view checks R base (PyArray n) m
  else match make_numpy (PyArray n) m with None => None | Some (n', m') => array_of_view checks R base (PyArray n') m' end.
Definition array_py2c (checks : bool) (R : nat) (base : Z) (obj : pyobj O) (m : mem V) : option (view * mem V) :=
  if needs_numpy obj then match make_numpy obj m with None => None | Some (n, m') => array_py2c_numpy checks R base n m' end
  else match obj with PyArray n => array_py2c_numpy checks R base n m | PyOther _ => None end.
End Numpy.
