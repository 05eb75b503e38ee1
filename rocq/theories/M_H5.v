(** Model of c++/nda/h5.hpp.  The h5 library and HDF5 are external; their contract is written down below: a data set is a
    shape, a flag (the "__complex__" attribute) and values; a hyperslab selects elements in row-major order of its counts;
    selecting an element outside of the data set is an error; a contiguous memory buffer is read and written in order.
    [None] is an exception, a violated static_assert or undefined behaviour. *)
From Verif Require Import Base M_Perm M_IdxMap M_Slice M_Loops M_Assign M_Expr M_Transform M_Mpi.
From Coq Require Import DecimalString DecimalN.
From Coq Require String Ascii.

(** ** hyperslabs *)
(** conversion of a long to h5::hsize_t (unsigned long long) *)
Definition hsize (z : Z) : Z := z mod 18446744073709551616.
(** h5::array_interface::hyperslab; hyperslab(rank, is_complex): offset 0, stride 1, count 0, and a last dimension of 2 for complex values *)
Record hyperslab := Slab { hs_off : list Z; hs_str : list Z; hs_cnt : list Z }.
Definition new_slab (rank : nat) (cplx : bool) : hyperslab :=
  Slab (repeat 0 rank ++ (if cplx then [0] else [])) (repeat 1 rank ++ (if cplx then [1] else [])) (repeat 0 rank ++ (if cplx then [2] else [])).

(** h5.hpp:109-124: the counts the function computes at compile time *)
Definition count_int (args : list arg) : nat := length (filter is_long args).
Definition range_count (args : list arg) : nat := (length args - count_int args - count_ell args)%nat.
Definition ellipsis_width (ndim : nat) (args : list arg) : nat := (ndim - range_count args)%nat.
(** h5.hpp:113-117 [ellipsis_position]: the index of the ellipsis, the number of arguments when there is none *)
Definition h5_ellipsis_position (args : list arg) : nat :=
  if Nat.eqb (count_ell args) 1 then fold_right Nat.add 0%nat (map (fun i => if is_ellipsis (nth i args AAll) then i else 0%nat) (seq 0 (length args)))
  else length args.
(** h5.hpp:134-156: the loop over the arguments; [shape[m++]] appends *)
Definition slab_step (epos width : nat) (lengths : list Z) (st : hyperslab * list Z) (na : nat * arg) : hyperslab * list Z :=
  let '(h, shape) := st in
  let n := if Nat.ltb epos (fst na) then (fst na + width - 1)%nat else fst na in
  match snd na with
  | ALong i => (Slab (upd (hs_off h) n (hsize i)) (hs_str h) (upd (hs_cnt h) n 1), shape)
  | AEll => fold_left (fun st k => let '(h, shape) := st in (Slab (hs_off h) (hs_str h) (upd (hs_cnt h) k (nthZ lengths k)), shape ++ [nthZ lengths k])) (seq n width) (h, shape)
  | ARange r => (Slab (upd (hs_off h) n (hsize (r_first r))) (upd (hs_str h) n (hsize (r_step r))) (upd (hs_cnt h) n (hsize (range_size r))), shape ++ [range_size r])
  | AAll => (Slab (hs_off h) (hs_str h) (upd (hs_cnt h) n (nthZ lengths n)), shape ++ [nthZ lengths n])
  end.
(** h5.hpp:107-159 [hyperslab_and_shape_from_slice] *)
Definition hyperslab_and_shape (ndim : nat) (args : list arg) (lengths : list Z) (cplx : bool) : option (hyperslab * list Z) :=
  let slab_rank := (ndim + count_int args)%nat in
  if negb (Nat.leb (count_ell args) 1) then None else
  if negb ((Nat.eqb (count_ell args) 1 && Nat.leb (range_count args) ndim) || Nat.eqb (range_count args) ndim) then None else
  if negb (Nat.eqb slab_rank (length lengths - (if cplx then 1 else 0))) then None else
  Some (fold_left (slab_step (h5_ellipsis_position args) (ellipsis_width ndim args) lengths) (combine (seq 0 (length args)) args) (new_slab slab_rank cplx, [])).

(** ** data sets (contract of h5 and HDF5) *)
Section File.
Context {V : Type}.
(** [ds_val idx]: the scalar at [idx]; a complex number is one value here, two numbers along a last dimension of length 2 in the file *)
Record dataset := DS { ds_len : list Z; ds_cplx : bool; ds_val : list Z -> V }.
(** h5_lengths_type::lengths *)
Definition lt_lengths (d : dataset) : list Z := ds_len d ++ (if ds_cplx d then [2] else []).
(** indices in row-major order *)
Fixpoint c_order (cnt : list Z) : list (list Z) :=
  match cnt with [] => [[]] | n :: cnt' => flat_map (fun i => map (cons i) (c_order cnt')) (zseq n) end.
Fixpoint slab_coord (off str k : list Z) : list Z :=
  match off, str, k with o :: off', s :: str', x :: k' => (o + x * s) :: slab_coord off' str' k' | _, _, _ => [] end.
(** the elements a hyperslab selects, in order *)
Definition selected (d : dataset) (h : hyperslab) : option (list (list Z)) :=
  let R := length (ds_len d) in
  let l := map (slab_coord (firstn R (hs_off h)) (firstn R (hs_str h))) (c_order (firstn R (hs_cnt h))) in
  if forallb (fun c => forallb (fun p => fst p <? snd p) (combine c (ds_len d))) l then Some l else None.
(** h5::array_interface::read into a contiguous buffer; no slab: everything *)
Definition file_read (d : dataset) (h : option hyperslab) : option (list V) :=
  match h with None => Some (map (ds_val d) (c_order (ds_len d))) | Some h => option_map (map (ds_val d)) (selected d h) end.
Definition set_val (f : list Z -> V) (c : list Z) (v : V) : list Z -> V := fun x => if list_eq_dec Z.eq_dec x c then v else f x.
(** h5::array_interface::write_slice of a contiguous buffer *)
Definition file_write (d : dataset) (h : hyperslab) (buf : list V) : option dataset :=
  option_map (fun l => DS (ds_len d) (ds_cplx d) (fold_left (fun f cv => set_val f (fst cv) (snd cv)) (combine l buf) (ds_val d))) (selected d h).

(** the memory cells from [base] on *)
Fixpoint put (base : Z) (vals : list V) (m : mem V) : mem V := match vals with [] => m | v :: vals' => put (base + 1) vals' (mset m base v) end.
Definition buffer (base n : Z) (m : mem V) : list V := map (fun k => m (base + k)) (zseq n).

(** ** h5_write *)
(** h5.hpp:182-213, scalars: the array is C-ordered and contiguous; [old] is the data set of that name *)
Definition write_direct (cplx : bool) (a : view) (sl : option (list arg)) (old : option dataset) (m : mem V) : option dataset :=
  let shape := im_len (v_lay a) in
  match sl with
  | None => Some (DS shape cplx (fun idx => nth (Z.to_nat (radix shape idx)) (buffer (v_base a) (prodZ shape) m) (m (v_base a))))
  | Some args =>
      match old with
      | None => None
      | Some d =>
          if negb (eqb cplx (ds_cplx d)) then None else
          match hyperslab_and_shape (length shape) args (lt_lengths d) cplx with
          | None => None
          | Some (h, sh) => if list_eq_dec Z.eq_dec sh shape then file_write d h (buffer (v_base a) (prodZ (hs_cnt h) / (if cplx then 2 else 1)) m) else None
          end
      end
  end.
(** h5.hpp:162-173: other arrays are copied into an array with C layout (at [tmp]) first *)
Definition h5_write (checks cplx : bool) (tmp : Z) (a : view) (sl : option (list arg)) (old : option dataset) (m : mem V) : option dataset :=
  if is_stride_order_C (v_lay a) && is_contiguous (v_lay a) then write_direct cplx a sl old m
  else let c := c_array tmp (im_len (v_lay a)) in
       match assign_from_ndarray checks true c (im_len (v_lay a)) (RMem a) m with
       | None => None
       | Some m1 => write_direct cplx c sl old m1
       end.

(** ** h5_read *)
(** h5.hpp:268-300: data set and array both real or both complex *)
Definition read_direct (cplx : bool) (d : dataset) (sl : option (list arg)) (t : target) (m : mem V) : option (mem V * view) :=
  let R := length (im_len (v_lay (tgt_view t))) in
  match (match sl with
         | None => if Nat.eqb (length (lt_lengths d) - (if cplx then 1 else 0)) R then Some (firstn R (lt_lengths d), None) else None
         | Some args => option_map (fun hs => (snd hs, Some (fst hs))) (hyperslab_and_shape R args (lt_lengths d) cplx)
         end) with
  | None => None
  | Some (shape, h) =>
      match resize_or_check t shape, file_read d h with
      | Some tv, Some vals => Some (put (v_base tv) vals m, tv)
      | _, _ => None
      end
  end.
(** h5.hpp:252-266: real data into a complex array: the whole data set is read into a temporary at [tmp] *)
Definition read_scalar (checks cplx : bool) (tmp : Z) (d : dataset) (sl : option (list arg)) (t : target) (m : mem V) : option (mem V * view) :=
  if cplx && negb (ds_cplx d) then
    let R := length (im_len (v_lay (tgt_view t))) in
    match read_direct false d None (TArray (c_array tmp (repeat 0 R)) tmp) m with
    | None => None
    | Some (m1, w) =>
        let tv := match t with TArray _ _ => resize_or_check t (im_len (v_lay w)) | TView v => Some v end in
        match tv with
        | None => None
        | Some tv => option_map (fun m2 => (m2, tv)) (assign_from_ndarray checks true tv (im_len (v_lay w)) (RMem w) m1)
        end
    end
  else if negb cplx && ds_cplx d then None (* not modelled: the two parts of complex data are an additional dimension *)
  else read_direct cplx d sl t m.
(** h5.hpp:227-242: into other arrays by way of an array with C layout (at [tmp]) *)
Definition h5_read (checks cplx : bool) (tmp tmp' : Z) (d : dataset) (sl : option (list arg)) (t : target) (m : mem V) : option (mem V * view) :=
  let lay := v_lay (tgt_view t) in
  if is_stride_order_C lay && is_contiguous lay then read_scalar checks cplx tmp' d sl t m
  else
    if negb (is_stride_order_C lay) && (match t with TView _ => true | TArray _ _ => false end) then None else
    match read_scalar checks cplx tmp' d sl (TArray (c_array tmp (repeat 0 (rank lay))) tmp) m with
    | None => None
    | Some (m1, w) =>
        let tv := match t with TArray _ _ => resize_or_check t (im_len (v_lay w)) | TView v => Some v end in
        match tv with
        | None => None
        | Some tv => option_map (fun m2 => (m2, tv)) (assign_from_ndarray checks true tv (im_len (v_lay w)) (RMem w) m1)
        end
    end.

(** ** elements of other types: one entry of the group per element *)
(** h5.hpp:221, 314 [make_name]; std::to_string of an index *)
Definition to_string (i : Z) : String.string := NilZero.string_of_uint (N.to_uint (Z.to_N i)).
Definition underscore : Ascii.ascii := Ascii.ascii_of_nat 95.
Fixpoint make_name (idx : list Z) : String.string :=
  match idx with [] => String.EmptyString | [i] => to_string i | i :: idx' => String.append (to_string i) (String.String underscore (make_name idx')) end.
Record group := Group { g_shape : option (list Z); g_elem : String.string -> option V }.
Definition set_elem (g : group) (n : String.string) (v : V) : group := Group (g_shape g) (fun x => if String.eqb x n then Some v else g_elem g x).
(** h5.hpp:215-222 *)
Definition write_generic (shape : list Z) (a : list Z -> V) : group :=
  for_each shape (fun idx g => set_elem g (make_name idx) (a idx)) (Group (Some shape) (fun _ => None)).
(** h5.hpp:302-316; the array is a function of its indices; a missing entry is an error *)
Definition read_generic (g : group) : option (list Z * list (list Z * V)) :=
  match g_shape g with
  | None => None
  | Some shape => option_map (pair shape)
      (for_each shape (fun idx acc => match acc, g_elem g (make_name idx) with Some l, Some v => Some (l ++ [(idx, v)]) | _, _ => None end) (Some []))
  end.
End File.
Arguments dataset : clear implicits. Arguments group : clear implicits.

(** ** arrays of strings *)
(** a std::string is a list of characters; character 0 is NUL *)
Definition cpp_string := list Z.
(** what c_str() means to strcpy: the characters before the first NUL *)
Fixpoint c_str (s : cpp_string) : list Z := match s with [] => [] | c :: s' => if c =? 0 then [] else c :: c_str s' end.
(** strcpy(&buf[p], x): the characters and a NUL; None: beyond the end of the buffer *)
Definition strcpy (buf : list Z) (p : nat) (x : cpp_string) : option (list Z) :=
  if Nat.leb (p + length (c_str x) + 1) (length buf)
  then Some (firstn p buf ++ c_str x ++ [0] ++ skipn (p + length (c_str x) + 1) buf) else None.
(** h5.hpp:62-75 [to_char_buf]; [v] lists the elements in the order of iteration *)
Definition row_length (v : list cpp_string) : nat := fold_left (fun s x => Nat.max s (length x + 1)) v 0%nat.
Fixpoint copy_rows (s i : nat) (v : list cpp_string) (buf : list Z) : option (list Z) :=
  match v with
  | [] => Some buf
  | x :: v' => match strcpy buf (i * s) x with None => None | Some buf' => copy_rows s (S i) v' buf' end
  end.
Record char_buf := CharBuf { cb_buffer : list Z; cb_n : nat; cb_len : nat }.
Definition to_char_buf (v : list cpp_string) : option char_buf :=
  let s := row_length v in
  option_map (fun b => CharBuf b (length v) s) (copy_rows s 0 v (repeat 0 (length v * s))).
(** append(&buffer[p]): up to the first NUL; None: no NUL before the end of the buffer *)
Fixpoint read_c_str (l : list Z) : option cpp_string :=
  match l with [] => None | c :: l' => if c =? 0 then Some [] else option_map (cons c) (read_c_str l') end.
(** h5.hpp:78-88 [from_char_buf] *)
Definition from_char_buf (cb : char_buf) : option (list cpp_string) :=
  M_Mpi.all_some (map (fun i => read_c_str (skipn (i * cb_len cb) (cb_buffer cb))) (seq 0 (cb_n cb))).
