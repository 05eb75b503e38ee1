(** What programs with arrays of fixed shape should do: every variable has the elements its own statements gave it. *)
From Verif Require Import Base M_Perm M_IdxMap M_Loops S_Layout M_Handle S_Handle M_Sso M_Array S_Array M_Stack.

Section Spec.
Context {A : Type}.
Variable (t : traits) (dflt zero : A) (so : list nat) (ext : list Z).
(** the elements of each variable in stride order; [None] is an unspecified value *)
Notation kvals := (list (option (list (option A)))).

Definition kval (s : kvals) (v : nat) : option (list (option A)) := match nth_error s v with Some x => x | None => None end.
Definition kfresh (s : kvals) (v : nat) : bool := match nth_error s v with Some None => true | _ => false end.
Definition is_ext (sh : list Z) : bool := if list_eq_dec Z.eq_dec sh ext then true else false.
Definition default_elements : list (option A) := repeat (if t_trivial t || t_complex t then None else Some dflt) (volume ext).

(** one statement; None: not a legal program.  All shapes must be the shape of the type.  Only arrays of trivially copyable
    elements may be declared without initialisation or assigned to each other. *)
Definition k_step (s : kvals) (o : kop (A := A)) : option kvals :=
  match o with
  | KDeclare v => if kfresh s v && t_tcopy t then Some (upd s v (Some (repeat None (volume ext)))) else None
  | KDims v sh | KShape v sh => if kfresh s v && is_ext sh then Some (upd s v (Some default_elements)) else None
  | KZeros v sh => if kfresh s v && is_ext sh && t_tcopy t then Some (upd s v (Some (repeat (Some zero) (volume ext)))) else None
  | KFrom v sh f => if kfresh s v && is_ext sh then Some (upd s v (Some (tabulate so ext f))) else None
  | KCopy v x | KMove v x => if kfresh s v then match kval s x with Some l => Some (upd s v (Some l)) | None => None end else None
  | KAssignCopy v x | KAssignMove v x =>
      match kval s v, kval s x with Some _, Some l => if t_tcopy t then Some (upd s v (Some l)) else None | _, _ => None end
  | KAssignExpr v sh f => match kval s v with Some _ => if is_ext sh then Some (upd s v (Some (tabulate so ext f))) else None | None => None end
  | KResize v sh => match kval s v with Some _ => if is_ext sh then Some s else None | None => None end
  | KFill v a => match kval s v with Some _ => Some (upd s v (Some (repeat (Some a) (volume ext)))) | None => None end
  | KWrite v idx a => match kval s v with
                      | Some l => if in_bounds idx ext then Some (upd s v (Some (upd l (place_of so ext idx) (Some a)))) else None
                      | None => None
                      end
  | KEnd v => match kval s v with Some _ => Some (upd s v None) | None => None end
  end.
Fixpoint k_history (s : kvals) (p : list (kop (A := A))) : option kvals :=
  match p with [] => Some s | o :: p' => match k_step s o with Some s' => k_history s' p' | None => None end end.

(** what a program sees of variable [v]: the shape, the number of elements, and a(idx) for every index tuple *)
Definition k_looks (w : kworld A) (v : nat) (l : list (option A)) : Prop :=
  exists b m, nth_error (kw_v w) v = Some (Some (b, m)) /\ im_len m = ext /\ Z.of_nat (length l) = prodZ ext
    /\ forall idx, in_range idx ext ->
       exists c, read_cell (kw_heap w) b (Z.to_nat (call_impl m (map CLong idx))) = Some c /\ nth_error l (place_of so ext idx) = Some c.
Definition k_all_right (w : kworld A) (s : kvals) : Prop :=
  forall v, (v < length s)%nat -> match kval s v with Some l => k_looks w v l | None => nth_error (kw_v w) v = Some None end.
(** no two variables share a buffer, and there are no buffers but those of the variables in scope *)
Definition k_memory (w : kworld A) : Prop :=
  (forall u v b m m', nth_error (kw_v w) u = Some (Some (b, m)) -> nth_error (kw_v w) v = Some (Some (b, m')) -> u = v)
  /\ forall b, (exists cells, nth_error (kw_heap w) b = Some (Block true cells)) <-> exists v m, nth_error (kw_v w) v = Some (Some (b, m)).
End Spec.
