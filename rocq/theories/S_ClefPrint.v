(** Specification of printed lazy expressions: what the reader of the text knows of the expression. *)
From Coq Require Import String Ascii.
From Verif Require Import Base M_Perm M_IdxMap M_Loops M_Assign M_Clef M_Print S_Layout S_Assign S_Clef M_RectStr S_Print.
Local Open Scope list_scope.

(** an expression as it is written: values by their text, calls and subscripts without the name of what is called *)
Inductive written :=
  | WVal (t : text)
  | WPh (n : nat)
  | WUn (u : unop) (a : written)
  | WBin (b : binop) (x y : written)
  | WIf (c x y : written)
  | WCall (args : list written)
  | WSub (args : list written)
  | WLam (is : list nat) (b : written).

(** the notation: operators between their operands and in parentheses, arguments separated by commas *)
Definition symbol (b : binop) : text :=
  lit (match b with BPlus => "+" | BMinus => "-" | BTimes => "*" | BDivides => "/" | BGreater => ">" | BLess => "<" | BLeq => "<=" | BGeq => ">=" | BEq => "==" end)%string.
Definition index_name (n : nat) : text := lit "_" ++ lit (to_string n).
Fixpoint notation (w : written) : text :=
  match w with
  | WVal t => t
  | WPh n => index_name n
  | WUn UPlus a => lit "(+ " ++ notation a ++ lit ")"
  | WUn UNot a => lit "(! " ++ notation a ++ lit ")"
  | WUn UNegate a => lit "-(" ++ notation a ++ lit ")"
  | WBin b x y => lit "(" ++ notation x ++ lit " " ++ symbol b ++ lit " " ++ notation y ++ lit ")"
  | WIf c x y => lit "(" ++ notation c ++ lit "?" ++ notation x ++ lit " : " ++ notation y ++ lit ")"
  | WCall l => lit "lambda(" ++ joined (lit ", ") (map notation l) ++ lit ")"
  | WSub l => lit "lambda[" ++ joined (lit ", ") (map notation l) ++ lit "]"
  | WLam is b => lit "lazy function : (" ++ joined (lit ", ") (map index_name is) ++ lit ") --> " ++ notation b
  end.

Section Spec.
Context {V : Type} (show : V -> text).

(** [Written h x w]: [w] is the expression [x] without the names of its functions, its objects replaced by the texts of their
    current values *)
Inductive Written (h : heap V) : node V -> written -> Prop :=
  | W_val v : Written h (NVal v) (WVal (show v))
  | W_ref r v : lookup_ref h r = Ret v -> Written h (NRef r) (WVal (show v))
  | W_ph n : Written h (NPh n) (WPh n)
  | W_terminal x w : Written h x w -> Written h (NExpr TTerminal [x]) w
  | W_un u x w : Written h x w -> Written h (NExpr (TUn u) [x]) (WUn u w)
  | W_bin b x y w z : Written h x w -> Written h y z -> Written h (NExpr (TBin b) [x; y]) (WBin b w z)
  | W_if c x y q w z : Written h c q -> Written h x w -> Written h y z -> Written h (NExpr TIfElse [c; x; y]) (WIf q w z)
  | W_call f l ws : Forall2 (Written h) l ws -> Written h (NExpr TFunction (f :: l)) (WCall ws)
  | W_sum l ws : Forall2 (Written h) l ws -> Written h (NExpr TSum l) (WCall ws)
  | W_sub f l ws : Forall2 (Written h) l ws -> Written h (NExpr TSubscript (f :: l)) (WSub ws)
  | W_lam b is w : Written h b w -> Written h (NFun b is) (WLam is w).

(** the expression has the number of operands its operators take and refers to live objects *)
Definition readable_ref (h : heap V) (r : ref V) : Prop := exists v, lookup_ref h r = Ret v.
Definition arity_ok (t : tag) (l : list (node V)) : Prop :=
  match t with TTerminal | TUn _ => length l = 1%nat | TBin _ => length l = 2%nat | TIfElse => length l = 3%nat | TFunction | TSubscript => l <> [] | TSum => True end.
Fixpoint live (h : heap V) (x : node V) : Prop :=
  match x with
  | NVal _ | NPh _ => True
  | NRef r => readable_ref h r
  | NExpr t l => arity_ok t l /\ fold_right (fun c P => live h c /\ P) True l
  | NFun b _ => live h b
  end.

(** no calls and no subscripts *)
Fixpoint only_operators (x : node V) : Prop :=
  match x with
  | NVal _ | NPh _ | NRef _ => True
  | NExpr t l => match t with TFunction | TSubscript | TSum => False | _ => True end /\ fold_right (fun c P => only_operators c /\ P) True l
  | NFun _ _ => False
  end.
End Spec.

(** a text that cannot be taken for a part of the notation: not empty, none of the characters [ ,()[]?_!], not a plus sign
    alone; digits, letters, points and signs are allowed *)
Definition mark (c : ascii) : bool := existsb (Ascii.eqb c) (lit " ,()[]?_!").
Definition word (t : text) : Prop := t <> [] /\ t <> lit "+" /\ Forall (fun c => mark c = false) t.
