(** Model of c++/nda/clef/io.hpp: the characters operator<< writes for a lazy expression.  [show] is what operator<< of an
    ordinary value writes (no width, precision or locale set on the stream). *)
From Coq Require Import String Ascii DecimalString.
From Verif Require Import Base M_Perm M_IdxMap M_Loops M_Assign M_Clef M_Print.
Local Open Scope list_scope.

(** clef.hpp:259-267 and 291-293: Tag::name(), the operator as a string. *)
Definition bin_name (b : binop) : text :=
  match b with BPlus => lit "+" | BMinus => lit "-" | BTimes => lit "*" | BDivides => lit "/" | BGreater => lit ">" | BLess => lit "<" | BLeq => lit "<="
  | BGeq => lit ">=" | BEq => lit "==" end.
Definition un_name (u : unop) : text := match u with UPlus => lit "+" | UNegate => lit "-" | UNot => lit "!" end.

(** clef/io.hpp:27-30: a placeholder. *)
Definition print_ph (n : nat) : text := lit "_" ++ lit (NilEmpty.string_of_uint (Nat.to_uint n)).
(** clef/io.hpp:37-43 [variadic_print] and 45-62 [print_tuple]: the texts in order; ", " after every one but the last. *)
Fixpoint variadic_print (l : list text) : text :=
  match l with [] => [] | t :: l => t ++ (if (0 <? Z.of_nat (length l)) then lit ", " else []) ++ variadic_print l end.

Section Print.
Context {V : Type} (show : V -> text).

(** clef/io.hpp:31-34: x.get() is printed; a reference to a temporary that is gone is dangling. *)
Definition print_ref (h : heap V) (r : ref V) : out text := match r with RTmp _ => Stuck | _ => bind (deref h r) (fun v => Ret (show v)) end.

(** clef/io.hpp:63-113.  The overload for negate (102-105) is more specialised than the one for unary operators (63-66); a
    function or subscript node does not print its first child.  Nodes with another number of children do not exist. *)
Fixpoint print_node (h : heap V) (e : node V) : out text :=
  match e with
  | NVal v => Ret (show v)
  | NRef r => print_ref h r
  | NPh n => Ret (print_ph n)
  | NExpr TTerminal [c] => print_node h c
  | NExpr (TUn UNegate) [c] => bind (print_node h c) (fun t => Ret (lit "-(" ++ t ++ lit ")"))
  | NExpr (TUn u) [c] => bind (print_node h c) (fun t => Ret (lit "(" ++ un_name u ++ lit " " ++ t ++ lit ")"))
  | NExpr (TBin b) [l; r] => bind (print_node h l) (fun s => bind (print_node h r) (fun t => Ret (lit "(" ++ s ++ lit " " ++ bin_name b ++ lit " " ++ t ++ lit ")")))
  | NExpr TIfElse [c; a; b] =>
      bind (print_node h c) (fun s => bind (print_node h a) (fun t => bind (print_node h b) (fun u => Ret (lit "(" ++ s ++ lit "?" ++ t ++ lit " : " ++ u ++ lit ")"))))
  | NExpr TFunction (_ :: args) => bind (sequence (map (print_node h) args)) (fun ts => Ret (lit "lambda" ++ lit "(" ++ variadic_print ts ++ lit ")"))
  | NExpr TSum args => bind (sequence (map (print_node h) args)) (fun ts => Ret (lit "lambda" ++ lit "(" ++ variadic_print ts ++ lit ")"))
  | NExpr TSubscript (_ :: args) => bind (sequence (map (print_node h) args)) (fun ts => Ret (lit "lambda" ++ lit "[" ++ variadic_print ts ++ lit "]"))
  | NExpr _ _ => Stuck
  | NFun b is => bind (print_node h b) (fun t => Ret (lit "lazy function : (" ++ variadic_print (map print_ph is) ++ lit ") --> " ++ t))
  end.
End Print.
