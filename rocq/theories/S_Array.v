(** What programs with array variables should do: an array is a shape and its elements; variables share nothing. *)
From Verif Require Import Base M_Perm M_IdxMap M_Loops S_Layout M_Handle S_Handle M_Array.

(** elements in stride order ([None]: unspecified); no elements at all after the array was moved from *)
Record aval (A : Type) := AVal { av_shape : list Z; av_cells : option (list (option A)) }.
Arguments AVal {A}. Arguments av_shape {A}. Arguments av_cells {A}.

Section Spec.
Context {A : Type}.
Variable (t : traits) (dflt zero : A) (so : list nat).
Notation avals := (list (option (aval A))).

Definition volume (shape : list Z) : nat := Z.to_nat (prodZ shape).
(** the index tuple with number [k] in stride order *)
Definition index_at (shape : list Z) (k : Z) : list Z := apply_inverse 0 so (digits (apply 0 so shape) k).
Definition tabulate (shape : list Z) (f : list Z -> A) : list (option A) :=
  map (fun k => Some (f (index_at shape k))) (zseq (prodZ shape)).
(** position of the element with index tuple [idx] *)
Definition place_of (shape idx : list Z) : nat := Z.to_nat (seq_number so shape idx).

Definition shape_ok (shape : list Z) : bool := Nat.eqb (length shape) (length so) && forallb (fun l => 0 <=? l) shape.
Definition in_bounds (idx shape : list Z) : bool :=
  Nat.eqb (length idx) (length shape) && forallb (fun p => (0 <=? fst p) && (fst p <? snd p)) (combine idx shape).
Definition aval_of (s : avals) (v : nat) : option (aval A) := match nth_error s v with Some x => x | None => None end.
Definition afresh (s : avals) (v : nat) : bool := match nth_error s v with Some None => true | _ => false end.
Definition moved (a : aval A) : aval A :=
  AVal (av_shape a) (match av_cells a with Some [] => Some [] | _ => None end).
Definition resized (a : aval A) (shape : list Z) : aval A :=
  AVal shape (Some (match av_cells a with
                    | Some l => if Nat.eqb (length l) (volume shape) then l else initial t dflt zero (volume shape) Default
                    | None => initial t dflt zero (volume shape) Default
                    end)).

(** one statement; None: not a legal program *)
Definition a_step (s : avals) (o : aop (A := A)) : option avals :=
  match o with
  | AEmpty v => if afresh s v then Some (upd s v (Some (AVal (repeat 0 (length so)) (Some [])))) else None
  | AShape v sh => if afresh s v && shape_ok sh then Some (upd s v (Some (AVal sh (Some (initial t dflt zero (volume sh) Default))))) else None
  | AZeros v sh => if afresh s v && shape_ok sh && t_tcopy t
                   then Some (upd s v (Some (AVal sh (Some (initial t dflt zero (volume sh) Zero))))) else None
  | AFrom v sh f => if afresh s v && shape_ok sh then Some (upd s v (Some (AVal sh (Some (tabulate sh f))))) else None
  | ACopy v x => if afresh s v then match aval_of s x with Some a => Some (upd s v (Some a)) | None => None end else None
  | AMove v x => if afresh s v then match aval_of s x with Some a => Some (upd (upd s v (Some a)) x (Some (moved a))) | None => None end else None
  | AAssignCopy v x => match aval_of s v, aval_of s x with Some _, Some a => Some (upd s v (Some a)) | _, _ => None end
  | AAssignMove v x => match aval_of s v, aval_of s x with
                       | Some _, Some a => Some (upd (upd s v (Some a)) x (Some (moved a)))
                       | _, _ => None
                       end
  | AAssignExpr v sh f => match aval_of s v with
                          | Some _ => if shape_ok sh then Some (upd s v (Some (AVal sh (Some (tabulate sh f))))) else None
                          | None => None
                          end
  | AResize v sh => match aval_of s v with
                    | Some a => if shape_ok sh then Some (upd s v (Some (resized a sh))) else None
                    | None => None
                    end
  | AWrite v idx a => match aval_of s v with
                      | Some (AVal sh (Some l)) =>
                          if in_bounds idx sh then Some (upd s v (Some (AVal sh (Some (upd l (place_of sh idx) (Some a)))))) else None
                      | _ => None
                      end
  | AEnd v => match aval_of s v with Some _ => Some (upd s v None) | None => None end
  end.
Fixpoint a_history (s : avals) (p : list (aop (A := A))) : option avals :=
  match p with [] => Some s | o :: p' => match a_step s o with Some s' => a_history s' p' | None => None end end.

(** [a] is what a program sees of variable [v]: shape, number of elements, a(idx) for every index tuple *)
Definition looks_like (dl : idx_map) (w : aworld A) (v : nat) (a : aval A) : Prop :=
  exists h, getv (w_h (aw_w w)) v = Some h
  /\ let m := nth v (aw_lay w) dl in
     im_len m = av_shape a
     /\ match av_cells a with
        | None => h_data h = None
        | Some l => Z.of_nat (length l) = prodZ (av_shape a) /\ Z.of_nat (h_size h) = size m /\ size m = prodZ (av_shape a)
                    /\ forall idx, in_range idx (av_shape a) ->
                       exists b c, h_data h = Some b
                         /\ read_cell (m_heap (w_mem (aw_w w))) b (Z.to_nat (call_impl m (map CLong idx))) = Some c
                         /\ nth_error l (place_of (av_shape a) idx) = Some c
        end.
Definition all_look_right (dl : idx_map) (w : aworld A) (s : avals) : Prop :=
  forall v, (v < length s)%nat -> match aval_of s v with
                                  | Some a => looks_like dl w v a
                                  | None => getv (w_h (aw_w w)) v = None
                                  end.
(** the allocated blocks are exactly those of the variables in scope, and no two variables have the same *)
Definition memory_exact (w : aworld A) : Prop :=
  (forall b, (exists cells, nth_error (m_heap (w_mem (aw_w w))) b = Some (Block true cells))
             <-> exists v h, getv (w_h (aw_w w)) v = Some h /\ h_data h = Some b)
  /\ forall u v g h b, getv (w_h (aw_w w)) u = Some g -> getv (w_h (aw_w w)) v = Some h ->
       h_data g = Some b -> h_data h = Some b -> u = v.
End Spec.
