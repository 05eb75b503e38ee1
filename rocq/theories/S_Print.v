(** The text an array is expected to be printed as. *)
From Coq Require Import String Ascii.
From Verif Require Import Base M_IdxMap M_Slice M_Loops M_Assign M_Expr S_Layout S_Loops S_Assign M_Print.
Local Open Scope list_scope.

(** a, sep, b, sep, c *)
Fixpoint joined (sep : text) (l : list text) : text :=
  match l with [] => [] | [t] => t | t :: l => t ++ sep ++ joined sep l end.
Definition bracketed (t : text) : text := lit "[" ++ t ++ lit "]".
(** the elements of row i of a matrix with c columns, or of a vector *)
Definition row {V} (c : Z) (f : Z -> V) : list V := map f (zseq c).

(** a text without blanks, brackets, parentheses, commas and newlines: what numbers are printed as *)
Definition special (c : ascii) : bool := existsb (Ascii.eqb c) (lit "[](), " ++ nl).
Definition plain (t : text) : Prop := t <> [] /\ Forall (fun c => special c = false) t.
(** different values are printed differently, without special characters *)
Definition legible {V} (show : V -> text) : Prop := (forall x, plain (show x)) /\ (forall x y, show x = show y -> x = y).

(** both views have the same shape and elements *)
Definition same_array {V} (m : mem V) (v w : view) : Prop :=
  im_len (v_lay v) = im_len (v_lay w) /\ forall idx, in_view v idx -> m (cell v idx) = m (cell w idx).
(** both expressions are built in the same way from the same scalars and from arrays with the same shapes and elements *)
Fixpoint same_expr {V} (m : mem V) (e e' : expr V) : Prop :=
  match e, e' with
  | ELeaf _ v, ELeaf _ w => same_array m v w
  | ENeg a, ENeg a' => same_expr m a a'
  | EBin o l r, EBin o' l' r' => o = o' /\ same_expr m l l' /\ same_expr m r r'
  | EScalL o s r, EScalL o' s' r' => o = o' /\ s = s' /\ same_expr m r r'
  | EScalR o l s, EScalR o' l' s' => o = o' /\ same_expr m l l' /\ s = s'
  | _, _ => False
  end.
(** the expression is made of vectors and of matrices that have rows, without mapped functions *)
Fixpoint printable {V} (e : expr V) : Prop :=
  match e with
  | ELeaf _ v => truthful (v_lay v) /\ (rank (v_lay v) = 1%nat \/ rank (v_lay v) = 2%nat /\ 1 <= nthZ (im_len (v_lay v)) 0)
  | ENeg a => printable a
  | EBin _ l r => printable l /\ printable r
  | EScalL _ _ r => printable r
  | EScalR _ l _ => printable l
  | EMap _ _ => False
  end.
