(** What programs with array variables should do when constructors of elements throw, on top of S_Array. *)
From Verif Require Import Base M_Perm M_IdxMap M_Loops S_Layout M_Handle S_Handle M_Array S_Array M_Throw.

Section Spec.
Context {A : Type}.
Variable (t : traits) (dflt zero : A) (so : list nat).
Notation avals := (list (option (aval A))).

(** variables whose elements a statement reads or writes one by one, or whose shape it takes *)
Definition uses (o : aop (A := A)) : list nat :=
  match o with ACopy _ x | AMove _ x | AAssignCopy _ x | AAssignMove _ x => [x] | AWrite v _ _ => [v] | _ => [] end.
(** the variable that gets a new value as a whole, or ends *)
Definition target (o : aop (A := A)) : option nat :=
  match o with
  | AEmpty v | AShape v _ | AZeros v _ | AFrom v _ _ | ACopy v _ | AMove v _ | AAssignCopy v _ | AAssignMove v _ | AAssignExpr v _ _ | AResize v _ | AEnd v => Some v
  | AWrite _ _ _ => None
  end.
(** does the element type have a default constructor and a copy constructor that run code *)
Definition default_runs : bool := negb (t_trivial t || t_complex t).
Definition copy_runs : bool := negb (t_tcopy t).
(** how many elements a statement constructs *)
Definition resize_constructs (a : aval A) (sh : list Z) : nat :=
  if default_runs then match av_cells a with
                       | Some l => if Nat.eqb (length l) (volume sh) then 0%nat else volume sh
                       | None => volume sh
                       end else 0%nat.
Definition count_of (x : option (aval A)) : nat := match x with Some (AVal _ (Some l)) => length l | _ => 0%nat end.
Definition constructs (s : avals) (o : aop (A := A)) : nat :=
  match o with
  | AShape _ sh | AFrom _ sh _ => if default_runs then volume sh else 0%nat
  | ACopy _ x | AAssignCopy _ x => if copy_runs then count_of (aval_of s x) else 0%nat
  | AAssignExpr v sh _ | AResize v sh => match aval_of s v with Some a => resize_constructs a sh | None => 0%nat end
  | _ => 0%nat
  end.

(** [Goes]: the program goes on; [Ends]: std::terminate; [Illegal]: no promise.  The second component of the state lists the variables
    whose last [resize] failed: they may be assigned as a whole, resized or destroyed, but not read. *)
Inductive verdict := Goes (s : avals) (broken : list nat) | Ends | Illegal.
Definition mended (o : aop (A := A)) (br : list nat) : list nat :=
  match target o with Some v => remove Nat.eq_dec v br | None => br end.
Definition x_step (s : avals) (br : list nat) (o : aop (A := A)) (k : option nat) : verdict :=
  match a_step t dflt zero so s o with
  | None => Illegal
  | Some s' =>
      if existsb (fun x => existsb (Nat.eqb x) br) (uses o) then Illegal else
      if match k with Some k => Nat.ltb k (constructs s o) | None => false end
      then match o with
           | AResize v _ => Goes s (v :: br)       (* the old elements are still there, but the array must not be used *)
           | AAssignCopy _ _ => Illegal            (* see C71_copy_assignment_refuted *)
           | _ => Ends
           end
      else Goes s' (mended o br)
  end.
Fixpoint x_history (s : avals) (br : list nat) (p : list (aop (A := A) * option nat)) : verdict :=
  match p with
  | [] => Goes s br
  | (o, k) :: p' => match x_step s br o k with Goes s' br' => x_history s' br' p' | v => v end
  end.
(** how many statements of the program throw and let it go on *)
Fixpoint failed_resizes (s : avals) (br : list nat) (p : list (aop (A := A) * option nat)) : nat :=
  match p with
  | [] => 0%nat
  | (o, k) :: p' => match x_step s br o k with
                    | Goes s' br' => ((if match k with Some k => Nat.ltb k (constructs s o) | None => false end then 1 else 0) + failed_resizes s' br' p')%nat
                    | _ => 0%nat
                    end
  end.

(** the live blocks are those of the variables in scope, and [leaked], which belong to no variable *)
Definition memory_but (leaked : list nat) (w : aworld A) : Prop :=
  (forall b, (exists cells, nth_error (m_heap (w_mem (aw_w w))) b = Some (Block true cells))
             <-> (exists v h, getv (w_h (aw_w w)) v = Some h /\ h_data h = Some b) \/ In b leaked)
  /\ (forall v h b, getv (w_h (aw_w w)) v = Some h -> h_data h = Some b -> ~ In b leaked)
  /\ forall u v g h b, getv (w_h (aw_w w)) u = Some g -> getv (w_h (aw_w w)) v = Some h -> h_data g = Some b -> h_data h = Some b -> u = v.
End Spec.
