(** Specification vocabulary for the layout information of expressions. *)
From Verif Require Import Base M_IdxMap M_Slice M_Assign M_Expr M_Info S_Layout S_Assign S_Expr.

(** all arrays of the expression are stored in the same stride order *)
Definition one_order {V} (e : expr V) (so : list nat) : Prop := forall v, In v (leaves e) -> im_so (v_lay v) = so.
(** arithmetic of arrays, without functions and without scalars in matrix or vector expressions *)
Fixpoint plain {V} (e : expr V) : Prop :=
  match e with
  | ELeaf _ _ => True
  | ENeg a => plain a
  | EBin _ l r => plain l /\ plain r
  | EScalL _ _ r => plain r /\ get_algebra r = AlgA
  | EScalR _ l _ => plain l /\ get_algebra l = AlgA
  | EMap _ _ => False
  end.
(** a vector operand of nda::dot with [n] elements, which depends on nothing but the memory [P]; its elements *)
Definition vec_at {V} (x : vec_operand V) (m : mem V) (i : Z) : V := match x with VMem v => m (cell v [i]) | VOther _ f => f m [i] end.
Definition vec_reads {V} (x : vec_operand V) (P : Z -> Prop) : Prop :=
  match x with
  | VMem v => forall a, is_cell_of v a -> P a
  | VOther n f => forall idx m1 m2, in_range idx [n] -> (forall a, P a -> m1 a = m2 a) -> f m1 idx = f m2 idx
  end.
