(** What symmetry classes are. *)
From Verif Require Import Base M_Perm M_IdxMap M_Loops M_Assign M_SymGrp S_Layout S_Assign.

(** operations: a change of sign and a complex conjugation, each done or not.  [neutral] does neither, [combined a b] is first b, then a,
    [acts o] is what o does to a number, [opp] being the change of sign and [conj] the conjugation. *)
Definition neutral : operation := Op false false.
Definition combined (a b : operation) : operation := Op (xorb (sgn a) (sgn b)) (xorb (cc a) (cc b)).
Definition acts {V} (opp conj : V -> V) (o : operation) (x : V) : V :=
  match sgn o, cc o with false, false => x | true, false => opp x | false, true => conj x | true, true => opp (conj x) end.

(** a list of symmetries for arrays of rank [R] *)
Definition keep_rank (R : nat) (syms : list symmetry) : Prop := forall s idx, In s syms -> length idx = R -> length (fst (s idx)) = R.
(** [b] is reached from [a] by applying symmetries one after the other, out of range indices allowed in between; [o] is the
    product of their operations *)
Inductive path (syms : list symmetry) (a : list Z) : list Z -> operation -> Prop :=
| path_start : path syms a a neutral
| path_step b o s c o1 : path syms a b o -> In s syms -> s b = (c, o1) -> path syms a c (combined o1 o).
(** the same with all indices in range *)
Inductive reach (shape : list Z) (syms : list symmetry) (a : list Z) : list Z -> Prop :=
| reach_start : in_range a shape -> reach shape syms a a
| reach_step b s : reach shape syms a b -> In s syms -> in_range (fst (s b)) shape -> reach shape syms a (fst (s b)).
(** what symmetries lead from one index to another also leads back (for instance: the inverse of each is in the list) *)
Definition reversible (shape : list Z) (syms : list symmetry) : Prop := forall a b, reach shape syms a b -> reach shape syms b a.

(** position of an index in a C ordered array *)
Definition c_position (shape idx : list Z) : Z := radix shape idx.
Definition entry_of (shape idx : list Z) (e : sym_idx) : Prop := in_range idx shape /\ fst e = c_position shape idx.
Definition in_class (shape idx : list Z) (c : list sym_idx) : Prop := exists e, In e c /\ entry_of shape idx e.

(** every index is in one class, at one place *)
Definition partitions (shape : list Z) (classes : list (list sym_idx)) : Prop :=
  Permutation (map fst (concat classes)) (map Z.of_nat (seq 0 (Z.to_nat (prodZ shape)))) /\ Forall (fun c => c <> []) classes.
(** a class is given by a representative with the identity, and members reached from it with their operation *)
Definition generated (shape : list Z) (syms : list symmetry) (c : list sym_idx) : Prop :=
  exists rep, entry_of shape rep (hd (0, neutral) c) /\ snd (hd (0, neutral) c) = neutral
  /\ forall e, In e c -> exists idx, entry_of shape idx e /\ path syms rep idx (snd e).
Definition same_class (shape : list Z) (classes : list (list sym_idx)) (a b : list Z) : Prop := exists c, In c classes /\ in_class shape a c /\ in_class shape b c.

(** ** values.  [opp], [conj], [add], [zero], [divn]: the operations used on elements. *)
Section Values.
Context {V : Type}.
Variables (opp conj : V -> V).
Definition involutive : Prop := (forall v, opp (opp v) = v) /\ (forall v, conj (conj v) = v) /\ (forall v, opp (conj v) = conj (opp v)).
(** an array [f] (on all index tuples, also out of range) with the symmetries *)
Definition symmetric (syms : list symmetry) (f : list Z -> V) : Prop := forall s idx, In s syms -> f (fst (s idx)) = acts opp conj (snd (s idx)) (f idx).
(** the mean of n equal numbers is that number *)
Definition mean_of_equals (zero : V) (add : V -> V -> V) (divn : V -> Z -> V) : Prop :=
  forall n v, (0 < n)%nat -> divn (fold_left add (repeat v n) zero) (Z.of_nat n) = v.
(** the average of a class, moved to the representative *)
Definition class_average (zero : V) (add : V -> V -> V) (divn : V -> Z -> V) (shape : list Z) (f : list Z -> V) (c : list sym_idx) (avg : V) : Prop :=
  exists idxs, Forall2 (entry_of shape) idxs c /\
    avg = divn (fold_left add (map (fun ie => acts opp conj (snd (snd ie)) (f (fst ie))) (combine idxs c)) zero) (Z.of_nat (length c)).
End Values.
(** [gtb]: a strict order *)
Definition strict {D} (gtb : D -> D -> bool) : Prop := (forall a, gtb a a = false) /\ (forall a b c, gtb a b = true -> gtb b c = true -> gtb a c = true).

(** an array of shape [shape] whose elements are in C order, without gaps *)
Definition c_ordered (shape : list Z) (x : view) : Prop :=
  im_len (v_lay x) = shape /\ (exists n off, view_of (fun s => 0 < s) n off (v_lay x)) /\ forall idx, in_range idx shape -> addr (v_lay x) idx = c_position shape idx.
(** the contents of the array [x] *)
Definition contents {V} (x : view) (m : mem V) (idx : list Z) : V := m (cell x idx).
