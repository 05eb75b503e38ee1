(** Model of c++/nda/print.hpp: the characters written to a stream.  [show] is what the element type's operator<< writes
    (no width, precision or locale set on the stream). *)
From Coq Require Import String Ascii DecimalString.
From Verif Require Import Base M_Perm M_IdxMap M_Slice M_Loops M_Assign M_Expr.
Local Open Scope list_scope.

Definition text : Type := list ascii.
Definition lit (s : string) : text := list_ascii_of_string s.
(** the character '\n' *)
Definition nl : text := ["010"%char].

Section Print.
Context {V : Type} (show : V -> text).

(** print.hpp:54-59 rank 1 *)
Definition print1 (v : view) (m : mem V) : text :=
  lit "[" ++ fold_left (fun out i => out ++ (if 0 <? i then lit "," else []) ++ show (m (elem v [i]))) (zseq (nthZ (im_len (v_lay v)) 0)) [] ++ lit "]".
(** print.hpp:61-70 rank 2 *)
Definition print2 (v : view) (m : mem V) : text :=
  let len0 := nthZ (im_len (v_lay v)) 0 in let len1 := nthZ (im_len (v_lay v)) 1 in
  nl ++ lit "[" ++
  fold_left (fun out i => out ++ (if i =? 0 then lit "[" else lit " [") ++
    fold_left (fun out j => out ++ (if 0 <? j then lit "," else []) ++ show (m (elem v [i; j]))) (zseq len1) [] ++
    lit "]" ++ (if i =? len0 - 1 then [] else nl)) (zseq len0) [] ++
  lit "]".
(** print.hpp:72-80 higher ranks: the loop over the iterators; None: it does not end within [fuel] elements *)
Definition printn (fuel : nat) (v : view) (m : mem V) : option text :=
  match iterate fuel (make_iterator (v_lay v) false) (make_iterator (v_lay v) true) with
  | None => None
  | Some l => Some (lit "[" ++ fst (fold_left (fun '(out, first) o => (out ++ (if first : bool then [] else lit ",") ++ show (m (v_base v + o)), false)) l ([], true)) ++ lit "]")
  end.
(** print.hpp:48-83; for rank 0 no branch is taken *)
Definition print_array (fuel : nat) (v : view) (m : mem V) : option text :=
  match rank (v_lay v) with
  | 0%nat => Some []
  | 1%nat => Some (print1 v m)
  | 2%nat => Some (print2 v m)
  | _ => printn fuel v m
  end.

(** the template argument OP *)
Definition op_char (o : bin_op) : ascii := match o with OpPlus => "+" | OpMinus => "-" | OpTimes => "*" | OpDiv => "/" end%char.
Definition text2 (a b : option text) (f : text -> text -> text) : option text := match a, b with Some a, Some b => Some (f a b) | _, _ => None end.
(** print.hpp:94-112 *)
Fixpoint print_expr (fuel : nat) (e : expr V) (m : mem V) : option text :=
  let infix o (l r : text) := lit "(" ++ l ++ lit " " ++ [op_char o] ++ lit " " ++ r ++ lit ")" in
  match e with
  | ELeaf _ v => print_array fuel v m
  | ENeg a => option_map (fun t => ["-"%char] ++ t) (print_expr fuel a m)
  | EBin o l r => text2 (print_expr fuel l m) (print_expr fuel r m) (infix o)
  | EScalL o s r => text2 (Some (show s)) (print_expr fuel r m) (infix o)
  | EScalR o l s => text2 (print_expr fuel l m) (Some (show s)) (infix o)
  | EMap _ _ => Some (lit "mapped")
  end.
End Print.

(** operator<< of integers: decimal digits after a minus sign for negative numbers *)
Definition show_int (z : Z) : text :=
  (if z <? 0 then ["-"%char] else []) ++ lit (NilEmpty.string_of_uint (Nat.to_uint (Z.to_nat (Z.abs z)))).
