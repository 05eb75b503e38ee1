(** Model of the conversions between Python and arrays whose element type T NumPy does not know (strings, user classes, ...): the branches of
    python/nda_py/nda_py.hpp and python/nda_py/cpp2py_converters.hpp for [not has_npy_type<T>].  The NumPy arrays are those of M_Numpy.
    Reference counts are not modelled here (see C31 and C76). *)
From Verif Require Import Base M_Perm M_IdxMap M_Slice M_Loops M_Assign M_Expr M_Transform M_Numpy.

Section Objects.
Context {T O : Type}.
(** [w] = sizeof(PyObject * ) and the type code of NumPy arrays of objects *)
Variables (w npy_object : Z).
(** cpp2py's converters of T (external): whether an object can be converted, its value (None: the object is not one of those, and what
    happens is up to the converter), and the object made of a value *)
Variables (elt_convertible : pyobj O -> bool) (elt_py2c : pyobj O -> option T) (elt_c2py : T -> pyobj O).
(** the Python number NumPy makes of an element of an array whose elements are not objects *)
Variable box : numpy -> list Z -> pyobj O.

(** Python's n[i, j, ...] (PyObject_GetItem with a tuple of indices): with as many indices as dimensions an element, with fewer a view of the
    sub-array at these indices *)
Definition getitem (m : mem (pyobj O)) (n : numpy) (idx : list Z) : pyobj O :=
  if Nat.eqb (length idx) (length (np_dims n)) then
    if np_type n =? npy_object then m ((np_data n + dot idx (np_strides n)) / w) else box n idx
  else PyArray (Numpy (np_type n) (np_data n + dot idx (np_strides n)) (skipn (length idx) (np_dims n)) (skipn (length idx) (np_strides n)) (np_readonly n)).

(** PyArray_FromAny of an object that is no NumPy array; None: a Python exception *)
Variable make_numpy : pyobj O -> mem (pyobj O) -> option (numpy * mem (pyobj O)).

(** cpp2py_converters.hpp:134-156: the rank and the order are those asked of a view of objects of rank R or more (the type is not looked at);
    [sum] adds the answers for the elements as int and the sum is converted to bool.  Overflow of the int (2^31 elements) is not modelled. *)
Definition numpy_convertible (R : nat) (n : numpy) (m : mem (pyobj O)) : bool :=
  if negb (view_is_convertible npy_object R true true (@PyArray O n)) then false else
  negb (fold Z.add (firstn R (np_dims n)) (fun idx => Z.b2z (elt_convertible (getitem m n idx))) 0 =? 0).
(** cpp2py_converters.hpp:120-129: only objects that are no arrays go through PyArray_FromAny *)
Definition objects_convertible (R : nat) (obj : pyobj O) (m : mem (pyobj O)) : bool :=
  match obj with
  | PyArray n => numpy_convertible R n m
  | PyOther _ => match make_numpy obj m with Some (n, m') => numpy_convertible R n m' | None => false end
  end.

(** cpp2py_converters.hpp:178-188: an array of the first R extents, built of the converted elements with the constructor of arrays of
    array-like objects.  A cell of the new array is None if the converter was given an object it cannot convert.  None as result: the extents are
    read outside of the vector, or a failed EXPECTS. *)
Definition numpy_py2c (checks trivial : bool) (R : nat) (base : Z) (n : numpy) (mo : mem (pyobj O)) (m : mem (option T)) : option (view * mem (option T)) :=
  if Nat.ltb (length (np_dims n)) R then None else
  match array_of_ndarray checks trivial (identity R) base (firstn R (np_dims n)) (RExpr (fun _ idx => elt_py2c (getitem mo n idx))) m with
  | (a, Some m') => Some (a, m')
  | _ => None
  end.
(** cpp2py_converters.hpp:161-169 *)
Definition objects_py2c (checks trivial : bool) (R : nat) (base : Z) (obj : pyobj O) (mo : mem (pyobj O)) (m : mem (option T)) : option (view * mem (option T)) :=
  match obj with
  | PyArray n => numpy_py2c checks trivial R base n mo m
  | PyOther _ => match make_numpy obj mo with Some (n, mo') => numpy_py2c checks trivial R base n mo' m | None => None end
  end.

(** nda_py.hpp:44-60: an array of objects is constructed element by element from the mapped elements of [a], and a NumPy array made of it
    (nda_py.hpp:29-43).  The elements of an expiring array are moved from: [moved x] is what the move leaves of [x]. *)
Variable moved : T -> T.
Definition objects_c2py (expiring : bool) (base : Z) (a : view) (m : mem T) (mo : mem (pyobj O)) : numpy * mem T * mem (pyobj O) :=
  let aobj := new_array (identity (length (im_len (v_lay a)))) base (im_len (v_lay a)) in
  let '(m, mo) := for_each (im_len (v_lay aobj)) (fun idx '(m, mo) =>
      (if expiring then mset m (elem a idx) (moved (m (elem a idx))) else m, mset mo (elem aobj idx) (elt_c2py (m (elem a idx))))) (m, mo) in
  (make_numpy_proxy w npy_object false aobj, m, mo).
End Objects.
