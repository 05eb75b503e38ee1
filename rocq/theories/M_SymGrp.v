(** Model of c++/nda/sym_grp.hpp.  Arrays have C order unless said otherwise; the pool of threads and the MPI ranks of
    [init] are modelled by an arbitrary distribution of the classes. *)
From Verif Require Import Base M_Perm M_IdxMap M_Loops M_Assign M_Expr M_Transform.

(** sym_grp.hpp:26-39 [operation]: product and call. *)
Record operation := Op { sgn : bool; cc : bool }.
Definition op_mul (a b : operation) : operation := Op (xorb (sgn a) (sgn b)) (xorb (cc a) (cc b)).
Definition op_id : operation := Op false false.
Definition op_call {V} (opp conj : V -> V) (o : operation) (x : V) : V :=
  if sgn o then (if cc o then opp (conj x) else opp x) else if cc o then conj x else x.

(** sym_grp.hpp:41-49 [is_valid]. *)
Definition is_valid (shape idx : list Z) : bool := forallb (fun i => (0 <=? nthZ idx i) && (nthZ idx i <? nthZ shape i)) (seq 0 (length shape)).

(** concept NdaSymmetry: an index tuple gives an index tuple and an operation *)
Notation symmetry := (list Z -> list Z * operation).
Notation sym_idx := (Z * operation)%type.

(** sym_grp.hpp:93-94: the members, and the array [checked] (197) while the constructor runs. A class is a span (start,
    length) of [data]. *)
Record grp := Grp { g_checked : list bool; g_data : list sym_idx; g_classes : list (nat * nat) }.

Section Build.
Variables (shape : list Z) (syms : list symmetry) (max_length : Z).
(** checked.indexmap(): array<bool, ndims> has C layout *)
Definition lin (idx : list Z) : Z := call_impl (v_lay (c_array 0 shape)) (map CLong idx).
(** checked(i...) and checked(i...) = true: sym_grp.hpp:204, 206, 236, 237 *)
Definition is_checked (g : grp) (idx : list Z) : bool := nth (Z.to_nat (lin idx)) (g_checked g) true.
Definition check (g : grp) (idx : list Z) : grp := Grp (upd (g_checked g) (Z.to_nat (lin idx)) true) (g_data g) (g_classes g).
(** sym_grp.hpp:201, 209, 240: data.emplace_back; None: the vector grows beyond the reserved x.size() elements, the spans made so far dangle *)
Definition emplace (g : grp) (idx : list Z) (op : operation) : option grp :=
  if Z.of_nat (length (g_data g)) <? size (v_lay (c_array 0 shape)) then Some (Grp (g_checked g) (g_data g ++ [(lin idx, op)]) (g_classes g)) else None.

(** sym_grp.hpp:227-248: the loop of [iterate] over the symmetries; [rec] is the recursive call. *)
Fixpoint sym_loop (rec : list Z -> operation -> Z -> grp -> option (grp * nat)) (idx : list Z) (op : operation)
    (l : list symmetry) (exc : Z) (g : grp) (seg : nat) : option (grp * nat) :=
  match l with
  | [] => Some (g, seg)
  | sym :: l' =>
      let '(idxp, o) := sym idx in
      let opp := op_mul o op in
      if is_valid shape idxp then
        if is_checked g idxp then sym_loop rec idx op l' exc g seg
        else match emplace (check g idxp) idxp opp with
             | None => None
             | Some g1 => match rec idxp opp 0 g1 with
                          | None => None
                          | Some (g2, n) => sym_loop rec idx op l' exc g2 (seg + (n + 1))
                          end
             end
      else if exc <? max_length then
        match rec idxp opp (exc + 1) g with
        | None => None
        | Some (g1, n) => sym_loop rec idx op l' (exc + 1) g1 (seg + n)
        end
      else sym_loop rec idx op l' exc g seg
  end.
(** sym_grp.hpp:221-253 [iterate]; None also if the recursion is deeper than [fuel]. *)
Fixpoint iterate (fuel : nat) (idx : list Z) (op : operation) (exc : Z) (g : grp) : option (grp * nat) :=
  match fuel with
  | O => None
  | S fuel => sym_loop (iterate fuel) idx op syms exc g 0
  end.
(** sym_grp.hpp:194-217: the constructor. *)
Definition new_class (fuel : nat) (idx : list Z) (og : option grp) : option grp :=
  match og with
  | None => None
  | Some g =>
      if is_checked g idx then Some g
      else match emplace (check g idx) idx op_id with
           | None => None
           | Some g1 => match iterate fuel idx op_id 0 g1 with
                        | None => None
                        | Some (g2, n) => Some (Grp (g_checked g2) (g_data g2) (g_classes g2 ++ [(length (g_data g), (n + 1)%nat)]))
                        end
           end
  end.
Definition build (fuel : nat) : option grp :=
  for_each shape (new_class fuel) (Some (Grp (repeat false (Z.to_nat (size (v_lay (c_array 0 shape))))) [] [])).
End Build.

(** sym_grp.hpp:101 [get_sym_classes]: the elements of the spans; 107 [num_classes]. *)
Definition class_of (g : grp) (c : nat * nat) : list sym_idx := firstn (snd c) (skipn (fst c) (g_data g)).
Definition get_sym_classes (g : grp) : list (list sym_idx) := map (class_of g) (g_classes g).
Definition num_classes (g : grp) : nat := length (g_classes g).

(** ** init and symmetrize on an array [x] in memory.  None: division by zero in to_idx or an empty class. *)
Section Use.
Context {V : Type}.
Variables (opp conj : V -> V) (x : view).
(** std::apply(x, x.indexmap().to_idx(lin_idx)) = v *)
Definition put (om : option (mem V)) (l : Z) (v : V) : option (mem V) :=
  match om, to_idx (v_lay x) l with Some m, Some idx => Some (mset m (elem x idx) v) | _, _ => None end.
(** sym_grp.hpp:126-129, 137-140: the body of the loops of [init]. *)
Definition init_class (f : list Z -> V) (om : option (mem V)) (c : list sym_idx) : option (mem V) :=
  match c with
  | [] => None
  | (l0, _) :: _ =>
      match to_idx (v_lay x) l0 with
      | None => None
      | Some idx => let ref_val := f idx in
                    fold_left (fun om e => put om (fst e) (op_call opp conj (snd e) ref_val)) c
                              (match om with Some m => Some (mset m (elem x idx) ref_val) | None => None end)
      end
  end.
(** sym_grp.hpp:136-141: sequential [init] *)
Definition init (classes : list (list sym_idx)) (f : list Z -> V) (m : mem V) : option (mem V) := fold_left (init_class f) classes (Some m).
(** sym_grp.hpp:120-134: parallel [init]: on each rank the array is set to zero and the classes of the rank are treated
    ([parts]: the classes of each rank in the order its threads take them; the threads of a rank write to different
    elements); the result is the sum over the ranks.  Here the value of element [idx] after that, on every rank.
    All ranks have the same memory contents outside [x] in this model. *)
Definition init_parallel (zero : V) (add : V -> V -> V) (parts : list (list (list sym_idx))) (f : list Z -> V) (m : mem V) (idx : list Z) : option V :=
  let zeros := for_each (im_len (v_lay x)) (fun idx m => mset m (elem x idx) zero) m in
  fold_left (fun acc part => match acc, init part f zeros with Some a, Some m' => Some (add a (m' (elem x idx))) | _, _ => None end) parts (Some zero).

(** sym_grp.hpp:153-181 [symmetrize]; [D] is double with its abs and comparison *)
Context {D : Type}.
Variables (zero : V) (add sub : V -> V -> V) (divn : V -> Z -> V) (d0 : D) (abs : V -> D) (gtb : D -> D -> bool).
(** sym_grp.hpp:161: reading an element *)
Definition get (m : mem V) (l : Z) : option V := match to_idx (v_lay x) l with Some idx => Some (m (elem x idx)) | None => None end.
Definition class_sum (m : mem V) (c : list sym_idx) : option V :=
  fold_left (fun acc e => match acc, get m (fst e) with Some r, Some v => Some (add r (op_call opp conj (snd e) v)) | _, _ => None end) c (Some zero).
Definition sym_state := (mem V * (D * list Z))%type.
Definition sym_element (ref_val : V) (st : option sym_state) (e : sym_idx) : option sym_state :=
  match st, to_idx (v_lay x) (fst e) with
  | Some (m, (max_diff, max_idx)), Some mapped_idx =>
      let mapped_val := op_call opp conj (snd e) ref_val in
      let current_val := m (elem x mapped_idx) in
      let diff := abs (sub mapped_val current_val) in
      let best := if gtb diff max_diff then (diff, mapped_idx) else (max_diff, max_idx) in
      Some (mset m (elem x mapped_idx) mapped_val, best)
  | _, _ => None
  end.
Definition sym_class_step (st : option sym_state) (c : list sym_idx) : option sym_state :=
  match st with
  | None => None
  | Some (m, b) => match class_sum m c with
                   | None => None
                   | Some s => let ref_val := divn s (Z.of_nat (length c)) in fold_left (sym_element ref_val) c (Some (m, b))
                   end
  end.
Definition symmetrize (classes : list (list sym_idx)) (m : mem V) : option sym_state :=
  fold_left sym_class_step classes (Some (m, (d0, map (fun _ => 0) (im_len (v_lay x))))).
End Use.
