(** What the comparisons used in tests should mean. *)
From Verif Require Import Base M_Testing.

(** [ltb] is the order of numbers (two numbers may be equal without being the same, as 0 and -0) *)
Definition number_order {R} (ltb : R -> R -> bool) : Prop :=
  (forall x, ltb x x = false) /\ (forall x y z, ltb x y = true -> ltb y z = true -> ltb x z = true) /\ (forall x y z, ltb x y = false -> ltb y z = false -> ltb x z = false).
(** [a] is a number less than [b] *)
Definition below {R} (ltb : R -> R -> bool) (a b : flt R) : Prop := exists x y, a = Num x /\ b = Num y /\ ltb x y = true.
(** arrays agree within [p]: same shape, every pair of elements has a distance less than [p] *)
Definition near {X R} (ltb : R -> R -> bool) (dist : X -> X -> flt R) (p : flt R) (sx : list Z) (x : list Z -> X) (sy : list Z) (y : list Z -> X) : Prop :=
  sx = sy /\ forall idx, in_range idx sx -> below ltb (dist (x idx) (y idx)) p.
