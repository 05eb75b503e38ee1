(** What programs with small-buffer arrays should do: the same as with arrays on the heap (S_Array), except that new complex elements
    are unspecified. *)
From Verif Require Import Base M_Perm M_IdxMap M_Loops S_Layout M_Handle S_Handle M_Sso S_Sso M_Array S_Array M_Small.

Section Spec.
Context {A : Type}.
Variable (t : traits) (dflt zero : A) (cap : nat) (so : list nat).
Notation avals := (list (option (aval A))).

(** elements of a new array are unspecified if they are trivial or complex, default values otherwise *)
Definition plain : traits := Traits (t_trivial t || t_complex t) false (t_tcopy t).
Definition cells (a : aval A) : list (option A) := match av_cells a with Some l => l | None => [] end.
Definition in_buffer (n : nat) : bool := negb (Nat.eqb n 0) && Nat.leb n cap.
Definition n_cells (s : avals) (v : nat) : nat := match aval_of s v with Some a => length (cells a) | None => 0 end.

(** the statements the code gets right: no [a = a]; elements in the buffer are moved, and storage in the buffer is replaced, only
    for trivially copyable types *)
Definition gentle (s : avals) (o : aop (A := A)) : bool :=
  match o with
  | AAssignCopy v x => negb (Nat.eqb v x)
  | AMove _ x | AAssignMove _ x => t_tcopy t || negb (in_buffer (n_cells s x))
  | AResize v sh | AAssignExpr v sh _ => t_tcopy t || negb (in_buffer (volume sh)) || Nat.eqb (n_cells s v) (volume sh)
  | _ => true
  end.
Fixpoint small_history (s : avals) (p : list (aop (A := A))) : option avals :=
  match p with
  | [] => Some s
  | o :: p' => if gentle s o then match a_step plain dflt zero so s o with Some s' => small_history s' p' | None => None end else None
  end.

(** what a program sees of variable [v]: shape, number of elements, a(idx) for every index tuple (some value where unspecified) *)
Definition q_looks (dl : idx_map) (w : qworld A) (v : nat) (a : aval A) : Prop :=
  exists q, getv (sw_v (qw_w w)) v = Some q
  /\ let m := nth v (qw_lay w) dl in
     im_len m = av_shape a
     /\ match av_cells a with
        | None => q_data q = None /\ q_size q = 0%nat
        | Some l => Z.of_nat (length l) = prodZ (av_shape a) /\ q_size q = length l
                    /\ forall idx, in_range idx (av_shape a) ->
                       exists b c e, q_data q = Some b
                         /\ read_cell (sw_heap (qw_w w)) b (Z.to_nat (call_impl m (map CLong idx))) = Some c
                         /\ nth_error l (place_of so (av_shape a) idx) = Some e /\ (e = c \/ e = None)
        end.
Definition q_all_right (dl : idx_map) (w : qworld A) (s : avals) : Prop :=
  forall v, (v < length s)%nat -> match aval_of s v with Some a => q_looks dl w v a | None => getv (sw_v (qw_w w)) v = None end.
End Spec.
