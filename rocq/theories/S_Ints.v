(** Integers of C++ types, without C++ arithmetic. *)
From Verif Require Import Base M_Expr M_Ints S_Layout.

(** the integer is a value of the type; the types are those with at least one value bit *)
Definition value (t : ity) (z : Z) : Prop := match t with TBool => z = 0 \/ z = 1 | TSigned w => - 2 ^ (w - 1) <= z < 2 ^ (w - 1) | TUnsigned w => 0 <= z < 2 ^ w end.
Definition proper (t : ity) : Prop := match t with TBool => True | TSigned w | TUnsigned w => 2 <= w end.
(** [r] is [z] up to multiples of 2^w, in the range of the type; for bool, whether [z] is not zero *)
Definition wrapped (t : ity) (z r : Z) : Prop :=
  match t with TBool => r = (if z =? 0 then 0 else 1) | TSigned w | TUnsigned w => value t r /\ exists k, r = z + k * 2 ^ w end.
(** narrower than int: 8 or 16 bits, or bool *)
Definition narrow (t : ity) : Prop := match t with TBool => True | TSigned w | TUnsigned w => w <= 16 end.
Definition signed (t : ity) : Prop := match t with TSigned w => 32 <= w | _ => False end.
Definition unsigned (t : ity) (w : Z) : Prop := t = TUnsigned w /\ 32 <= w.

(** what an expression means for integers; division drops the fraction and is not defined for 0 *)
Fixpoint imeans (e : iexpr) (idx : list Z) : option Z :=
  match e with
  | IArr _ a => Some (a idx)
  | INum _ z => Some z
  | INeg e => match imeans e idx with Some x => Some (- x) | None => None end
  | IBin op l r => match imeans l idx, imeans r idx with
                   | Some x, Some y => match op with OpPlus => Some (x + y) | OpMinus => Some (x - y) | OpTimes => Some (x * y) | OpDiv => if y =? 0 then None else Some (Z.quot x y) end
                   | _, _ => None end
  end.
(** every intermediate result, and every operand of it, is a value of the type it is computed in *)
Fixpoint no_overflow (e : iexpr) (idx : list Z) : Prop :=
  match e with
  | IArr t a => value t (a idx)
  | INum t z => value t z
  | INeg e1 => no_overflow e1 idx /\ forall z, imeans e idx = Some z -> value (type_of e) z
  | IBin _ l r => no_overflow l idx /\ no_overflow r idx /\ (forall z, imeans l idx = Some z \/ imeans r idx = Some z \/ imeans e idx = Some z -> value (type_of e) z)
  end.
(** made of arrays and numbers of one type, without division *)
Fixpoint made_of (t : ity) (e : iexpr) : Prop :=
  match e with IArr u _ | INum u _ => u = t | INeg e => made_of t e | IBin op l r => op <> OpDiv /\ made_of t l /\ made_of t r end.
Fixpoint proper_types (e : iexpr) : Prop := match e with IArr t _ | INum t _ => proper t | INeg e => proper_types e | IBin _ l r => proper_types l /\ proper_types r end.
Definition bits (t : ity) : Z := match t with TBool => 1 | TSigned w | TUnsigned w => w end.
(** the integers the elements are *)
Definition has_type (t : ity) (shape : list Z) (a : list Z -> Z) : Prop := forall idx, in_range idx shape -> value t (a idx).
(** what has been added, or multiplied, after the first [k] elements *)
Definition so_far (op : Z -> Z -> Z) (one : Z) (l : list Z) (k : nat) : Z := fold_left op (firstn k l) one.
