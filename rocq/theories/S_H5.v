(** What reading and writing HDF5 files should do. *)
From Verif Require Import Base M_Perm M_IdxMap M_Slice M_Assign M_Transform M_Mpi M_H5 S_Layout S_Assign S_Mpi.

(** a data set with the extents [len] *)
Definition good_lengths (len : list Z) : Prop := Forall (fun l => 0 <= l < 9223372036854775808) len /\ (0 < length len < 16)%nat.
(** ranges with a positive step whose last bound is not the "end of the dimension" -1 *)
Definition forward_ranges (args : list arg) : Prop := forall r, In (ARange r) args -> 0 < r_step r /\ r_last r <> -1.

(** a target for an array of this shape: any array, or a C-ordered view of the shape *)
Definition h5_target (t : target) (shape : list Z) : Prop :=
  match t with
  | TArray v _ => exists so old, plain v so old /\ length old = length shape
  | TView v => (exists n off, view_of (fun s => 0 < s) n off (v_lay v)) /\ im_so (v_lay v) = identity (length shape) /\ im_len (v_lay v) = shape
  end.
(** memory outside of the view and of the temporary arrays is as before *)
Definition unchanged_but {V} (v : view) (tmps : list view) (m m' : mem V) : Prop :=
  forall a, ~ is_cell_of v a -> (forall w, In w tmps -> ~ is_cell_of w a) -> m' a = m a.
(** an in-memory array in C layout with the contents of the data set *)
Definition loaded {V} (d : dataset V) (b : Z) (m : mem V) : Prop := holds (c_array b (ds_len d)) m (ds_val d).
(** the numbers in a slice are longs *)
Definition is_long_number (z : Z) : Prop := -9223372036854775808 <= z < 9223372036854775808.
Definition longs (args : list arg) : Prop := Forall (fun a => match a with ALong i => is_long_number i | ARange r => is_long_number (r_first r) /\ is_long_number (r_last r) /\ is_long_number (r_step r) | _ => True end) args.
(** the temporary arrays a read may allocate are not in the target's memory *)
Definition temporaries_apart (tmp tmp' : Z) (t : target) (shape : list Z) : Prop :=
  (forall tv, resize_or_check t shape = Some tv -> disjoint tv (c_array tmp shape) /\ disjoint tv (c_array tmp' shape)) /\ disjoint (c_array tmp shape) (c_array tmp' shape).
(** a view with positive strides, as a program can build it *)
Definition forward_view (a : view) : Prop := exists n off, view_of (fun s => 0 < s) n off (v_lay a).
