(** What threads that assign to views of common memory should do: the cells a statement reads and writes, programs that keep apart, races, and
    how the elements of one array are divided among threads. *)
From Verif Require Import Base M_Perm M_IdxMap M_Slice M_Loops S_Layout S_Loops M_Assign S_Assign M_Expr S_Expr M_VThreads.

Section Spec.
Context {V : Type}.

(** the cells a statement writes, and those it reads *)
Definition writes (s : vstmt V) (a : Z) : Prop :=
  match s with
  | SExpr dst _ | SView dst _ | SFill _ dst _ => is_cell_of dst a
  | SFold dst idx _ _ _ => a = cell dst idx
  end.
Definition reads (s : vstmt V) (a : Z) : Prop :=
  match s with
  | SExpr _ e | SFold _ _ _ e _ => exists v, In v (leaves e) /\ is_cell_of v a
  | SView _ src => is_cell_of src a
  | SFill _ _ _ => False
  end.
(** A statement is legal: the shapes agree and the views are as programs make them.  (For a fill see C19: a declared constant stride is positive,
    an empty view is one the iterator can walk, and the number of steps allowed is enough.) *)
Definition legal (s : vstmt V) : Prop :=
  match s with
  | SExpr dst e => usable (v_lay dst) /\ common_shape e (im_len (v_lay dst)) /\ leaves_truthful e
  | SView dst src => usable (v_lay dst) /\ truthful (v_lay src) /\ im_len (v_lay src) = im_len (v_lay dst)
  | SFill fuel dst _ =>
      usable (v_lay dst) /\ zero_extents_harmless (v_lay dst) /\
      (has_strided_1d (im_prop (v_lay dst)) = true -> has_contiguous (im_prop (v_lay dst)) = true \/ 0 < min_stride (v_lay dst)) /\
      prodZ (im_len (v_lay dst)) <= Z.of_nat fuel
  | SFold dst idx _ e _ => truthful (v_lay dst) /\ in_view dst idx /\ (exists sh, common_shape e sh) /\ leaves_truthful e
  end.
(** Different threads keep apart: no cell written by one is read or written by another.  (Cells nobody writes may be read by all.) *)
Definition apart (progs : list (list (vstmt V))) : Prop :=
  forall i j p q s s' a, i <> j -> nth_error progs i = Some p -> nth_error progs j = Some q -> In s p -> In s' q ->
    writes s a -> ~ (reads s' a \/ writes s' a).
Definition all_legal (progs : list (list (vstmt V))) : Prop := forall p s, In p progs -> In s p -> legal s.

(** two threads race: their next accesses touch the same cell and at least one of them writes *)
Definition next_cell (a : vact V) : option (bool * Z) := match a with VLoad a _ => Some (false, a) | VStore a _ _ => Some (true, a) | _ => None end.
Definition v_race (ts : list (vact V)) : Prop :=
  exists i j t1 t2 w1 w2 a, i <> j /\ nth_error ts i = Some t1 /\ nth_error ts j = Some t2 /\
    next_cell t1 = Some (w1, a) /\ next_cell t2 = Some (w2, a) /\ (w1 = true \/ w2 = true).
Definition v_all_done (ts : list (vact V)) : Prop := forall t, In t ts -> v_finished t = true.

(** [dst = e] is divided: part number [i] is the pair of the same slice of [dst] and of [e], with arguments in bounds; every element of [dst] is
    in a part, and no element is in two parts. *)
Definition part_of (alg : algebra) (dst : view) (e : expr V) (args : list arg) (d : view) (e' : expr V) : Prop :=
  steps_nonzero args /\ some_dim_left (rank (v_lay dst)) args /\ args_in_bounds (expand_args (rank (v_lay dst)) args) (im_len (v_lay dst)) /\
  (exists alg', slice_view alg dst args = Some (alg', d)) /\ slice_expr e args = Some e'.
Definition divides (alg : algebra) (dst : view) (e : expr V) (parts : list (list arg)) (progs : list (list (vstmt V))) : Prop :=
  length parts = length progs /\
  (forall i args p, nth_error parts i = Some args -> nth_error progs i = Some p -> exists d e', part_of alg dst e args d e' /\ p = [SExpr d e']) /\
  (forall a, is_cell_of dst a -> exists i d e', nth_error progs i = Some [SExpr d e'] /\ is_cell_of d a) /\
  (forall i j d e' d2 e2, i <> j -> nth_error progs i = Some [SExpr d e'] -> nth_error progs j = Some [SExpr d2 e2] -> disjoint d d2).
End Spec.
