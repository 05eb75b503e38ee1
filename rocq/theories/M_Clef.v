(** Model of the lazy expressions of c++/nda/clef/clef.hpp, of the lazy sums of c++/nda/clef/sum.hpp, of
    lazy assignment to arrays (c++/nda/basic_functions.hpp) and to std::vector (c++/nda/clef/adapters/vector.hpp).
    [V] is the universe of ordinary C++ values (numbers, callables, domains); what the C++ operators, calls
    and conversions do to them is given by a record [ops].  What the C++ compiler decides (laziness, sets of
    placeholders, the position of a binding) is computed here by functions on the expression; a program that
    does not compile is [Stuck], as is one that uses an object that is no longer alive. *)
From Verif Require Import Base M_Perm M_IdxMap M_Loops M_Assign.

(** outcome: a result, a C++ exception, or a program that does not compile or has undefined behaviour *)
Inductive out (A : Type) := Ret (a : A) | Raise | Stuck.
Arguments Ret {A}. Arguments Raise {A}. Arguments Stuck {A}.
Definition bind {A B} (x : out A) (f : A -> out B) : out B := match x with Ret a => f a | Raise => Raise | Stuck => Stuck end.
Fixpoint sequence {A} (l : list (out A)) : out (list A) :=
  match l with [] => Ret [] | x :: l => bind x (fun a => bind (sequence l) (fun r => Ret (a :: r))) end.
Fixpoint mapi_from {A B} (f : nat -> A -> B) (i : nat) (l : list A) : list B :=
  match l with [] => [] | a :: l => f i a :: mapi_from f (S i) l end.

(** clef.hpp:241-268 and 273-293: the operator tags. *)
Inductive binop := BPlus | BMinus | BTimes | BDivides | BGreater | BLess | BLeq | BGeq | BEq.
Inductive unop := UPlus | UNegate | UNot.
(** clef.hpp:32-39: the tags of nodes.  [TSum] is a function node whose callee is the function object
    made by CLEF_MAKE_FNT_LAZY(sum_f_domain_impl) (sum.hpp:52): its children are the function and the domain. *)
Inductive tag := TTerminal | TFunction | TSubscript | TBin (b : binop) | TUn (u : unop) | TIfElse | TSum.

Section Clef.
Context {V : Type}.

(** the C++ meaning of operators, calls, subscripts, conversion to bool, iteration over a domain, and of a loop
    index ([long]) as a value *)
Record ops := Ops {
  o_bin : binop -> V -> V -> out V;
  o_un : unop -> V -> out V;
  o_call : V -> list V -> out V;
  o_sub : V -> list V -> out V;
  o_true : V -> out bool;
  o_dom : V -> out (list V);
  o_int : Z -> V }.

(** what a std::reference_wrapper in a node refers to: a named object of the program, the value stored in the
    node at path [p] of the expression object [o], or the value stored in a node of a temporary (alive only
    until the end of the evaluation that created the reference; it carries that value) *)
Inductive ref := RObj (a : nat) | RLeaf (o : nat) (p : list nat) | RTmp (v : V).

(** clef.hpp:41-70 [expr_storage]: rvalues are stored by value ([NVal]), lvalues as references ([NRef]), placeholders,
    expressions and functions by value; 81-100 placeholder; 151-181 [expr]; 450-460 [make_fun_impl]. *)
Inductive node := NVal (v : V) | NRef (r : ref) | NPh (n : nat) | NExpr (t : tag) (l : list node) | NFun (b : node) (is : list nat).

(** the objects of the program that are alive: named objects and expression objects *)
Record heap := Heap { h_ops : ops; h_obj : nat -> option V; h_exp : nat -> option node }.

(** the node at a path *)
Fixpoint subnode (e : node) (p : list nat) : option node :=
  match p with
  | [] => Some e
  | i :: p => match e with
              | NExpr _ l => match nth_error l i with Some c => subnode c p | None => None end
              | NFun b _ => subnode b p
              | _ => None
              end
  end.
(** reading through a reference during an evaluation *)
Definition deref (h : heap) (r : ref) : out V :=
  match r with
  | RObj a => match h_obj h a with Some v => Ret v | None => Stuck end
  | RLeaf o p => match h_exp h o with
                 | Some e => match subnode e p with Some (NVal v) => Ret v | _ => Stuck end
                 | None => Stuck
                 end
  | RTmp v => Ret v
  end.
Definition read (h : heap) (e : node) : out V :=
  match e with NVal v => Ret v | NRef r => deref h r | _ => Stuck end.

(** clef.hpp:110-127 and 183-184, 467-482 [ph_set], [ph_filter]: a set of placeholders as the bits of an unsigned long
    long; None is the shift by 64 or more, an error in a constant expression. *)
Definition ph_bit (n : nat) : option Z := if (n <? 64)%nat then Some (2 ^ Z.of_nat n) else None.
Definition obind {A B} (x : option A) (f : A -> option B) : option B := match x with Some a => f a | None => None end.
Fixpoint ph_or (l : list (option Z)) : option Z :=
  match l with [] => Some 0 | x :: l => obind x (fun a => obind (ph_or l) (fun b => Some (Z.lor a b))) end.
Fixpoint ph_filter (x : Z) (is : list nat) : option Z :=
  match is with [] => Some x | i :: is => obind (ph_filter x is) (fun y => obind (ph_bit i) (fun b => Some (Z.ldiff y b))) end.
Fixpoint ph_set (e : node) : option Z :=
  match e with
  | NVal _ | NRef _ => Some 0
  | NPh n => ph_bit n
  | NExpr _ l => ph_or (map ph_set l)
  | NFun b is => obind (ph_set b) (fun x => ph_filter x is)
  end.
(** ... of a pack of pairs; there is no ph_set of an empty pack. *)
Definition ph_set_pairs (pairs : list (nat * node)) : option Z :=
  match pairs with [] => None | _ => ph_or (map (fun q => ph_bit (fst q)) pairs) end.

(** clef.hpp:132-146, 186-187, 484-485 [is_lazy] and [is_any_lazy]. *)
Definition is_lazy (e : node) : option bool :=
  match e with
  | NVal _ | NRef _ => Some false
  | NPh _ | NExpr _ _ => Some true
  | NFun _ _ => obind (ph_set e) (fun x => Some (negb (x =? 0)))
  end.
Fixpoint any_of (l : list (option bool)) : option bool :=
  match l with [] => Some false | x :: l => obind x (fun a => obind (any_of l) (fun b => Some (a || b))) end.
Definition is_any_lazy (l : list node) : option bool := any_of (map is_lazy l).

(** clef.hpp:348-352 [get_position_of_N]. *)
Definition position_of (pairs : list (nat * node)) (n : nat) : Z :=
  sumZ (mapi_from (fun q (x : nat * node) => if Nat.eqb (fst x) n then Z.of_nat q + 1 else 0) 0 pairs) - 1.

(** [evaluator<T, Pairs...>::is_lazy]: clef.hpp:318 (leaves), 355 (placeholders), 370 (references), 390 (expressions), 498
    (functions). *)
Fixpoint ev_lazy (pairs : list (nat * node)) (e : node) : option bool :=
  match e with
  | NVal _ | NRef _ => Some false
  | NPh n => Some (position_of pairs n =? -1)
  | NExpr _ l => any_of (map (ev_lazy pairs) l)
  | NFun _ _ => obind (ph_set e) (fun x => obind (ph_set_pairs pairs) (fun y => Some (negb (x =? y))))
  end.

(** sum.hpp:39-50 [sum_f_domain_impl]: [call] is the function, the values the points of the domain; make_regular is the
    identity on values. *)
Fixpoint sum_rest (o : ops) (call : V -> out V) (res : V) (xs : list V) : out V :=
  match xs with
  | [] => Ret res
  | x :: xs => bind (call x) (fun y => bind (o_bin o BPlus res y) (fun r => sum_rest o call r xs))
  end.
Definition sum_f_domain (o : ops) (call : V -> out V) (xs : list V) : out V :=
  match xs with
  | [] => Raise
  | x :: xs => bind (call x) (fun y => sum_rest o call y xs)
  end.

(** clef.hpp:212-304 [operation<Tag>] applied to evaluated children.  With a lazy argument the operators (247-250, 279-282),
    calls and subscripts of placeholders and expressions (89-96, 161-171), the lazy overloads of functions (CLEF_MAKE_FNT_LAZY)
    and of arrays build a new node; callables without such an overload, and if_else with lazy arguments, are taken not
    to compile; terminal nodes holding a function object are not modelled.  [ev] evaluates the body of a temporary function. *)
Definition operation (h : heap) (ev : list (nat * node) -> node -> out node) (t : tag) (cs : list node) : out node :=
  let o := h_ops h in
  match t, cs with
  | TTerminal, [NFun _ _] => Stuck
  | TTerminal, [c] => Ret c
  | TTerminal, _ => Stuck
  | _, _ =>
      match is_any_lazy cs with
      | None => Stuck
      | Some true => match t with TIfElse => Stuck | _ => Ret (NExpr t cs) end
      | Some false =>
          match t, cs with
          | TFunction, f :: args => bind (read h f) (fun fv => bind (sequence (map (read h) args)) (fun vs => bind (o_call o fv vs) (fun r => Ret (NVal r))))
          | TSubscript, f :: args => bind (read h f) (fun fv => bind (sequence (map (read h) args)) (fun vs => bind (o_sub o fv vs) (fun r => Ret (NVal r))))
          | TBin b, [l; r] => bind (read h l) (fun x => bind (read h r) (fun y => bind (o_bin o b x y) (fun r => Ret (NVal r))))
          | TUn u, [l] => bind (read h l) (fun x => bind (o_un o u x) (fun r => Ret (NVal r)))
          | TIfElse, [c; a; b] =>
              bind (read h c) (fun x => bind (read h a) (fun y => bind (read h b) (fun z => bind (o_true o x) (fun q => Ret (NVal (if q then y else z))))))
          | TSum, [NFun b [n]; d] =>
              bind (read h d) (fun dv => bind (o_dom o dv) (fun xs =>
              bind (sum_f_domain o (fun x => bind (ev [(n, NVal x)] b) (read h)) xs) (fun r => Ret (NVal r))))
          | _, _ => Stuck
          end
      end
  end.

(** clef.hpp:315-320, 345-412 and 495-502: evaluation of the node [e] found at path [p] of the expression object [own] (None: of a
    temporary).  A stored value is returned by reference (319); a placeholder gives the value of the pair at
    [position_of] (357-363); [make_function] copies what the body evaluates to (490-493).  The recursion takes fuel:
    a sum calls the function it has just evaluated. *)
Fixpoint eval (k : nat) (h : heap) (own : option nat) (p : list nat) (pairs : list (nat * node)) (e : node) : out node :=
  match k with
  | O => Stuck
  | S k =>
      match e with
      | NVal v => Ret (NRef (match own with Some o => RLeaf o p | None => RTmp v end))
      | NRef r => Ret (NRef r)
      | NPh n =>
          let q := position_of pairs n in
          if q =? -1 then Ret (NPh n) else match nth_error pairs (Z.to_nat q) with Some (_, rhs) => Ret rhs | None => Stuck end
      | NExpr t l =>
          bind (sequence (mapi_from (fun i c => eval k h own (p ++ [i]) pairs c) 0 l)) (fun cs =>
          match ev_lazy pairs e with
          | None => Stuck
          | Some true => Ret (NExpr t cs)
          | Some false => operation h (fun prs b => eval k h None [] prs b) t cs
          end)
      | NFun b is =>
          bind (eval k h own (p ++ [0%nat]) pairs b) (fun b' =>
          match b' with
          | NRef r => bind (deref h r) (fun v => Ret (NFun (NVal v) is))
          | _ => Ret (NFun b' is)
          end)
      end
  end.

(** clef.hpp:455-459: a call of a function object; the number of arguments must be that of the placeholders. *)
Definition call_fun (k : nat) (h : heap) (own : option nat) (f : node) (args : list node) : out node :=
  match f with
  | NFun b is => if Nat.eqb (length args) (length is)
                 then eval k h own (match own with Some _ => [0%nat] | None => [] end) (combine is args) b else Stuck
  | _ => Stuck
  end.

(** sum.hpp:55-70 [sum(f, i = domain)] and its recursive form for several indices. *)
Definition sum1 (k : nat) (h : heap) (f : node) (b : nat * node) : out node :=
  let '(n, d) := b in
  let F := NFun f [n] in
  match is_any_lazy [F; d] with
  | None => Stuck
  | Some true => Ret (NExpr TSum [F; d])
  | Some false => operation h (fun prs b => eval k h None [] prs b) TSum [F; d]
  end.
Fixpoint sum_many (k : nat) (h : heap) (f : node) (l : list (nat * node)) : out node :=
  match l with [] => Ret f | b :: l => bind (sum1 k h f b) (fun f' => sum_many k h f' l) end.

(** clef.hpp:559-562 [_all_different] (computed without the bound of int). *)
Definition all_different (is : list nat) : bool :=
  match is with
  | [] => false
  | i0 :: is => negb (fold_right (fun i acc => (Z.of_nat i - Z.of_nat i0) * acc) 1 is =? 0)
  end.

(** basic_functions.hpp:316-325 [clef_auto_assign] for an array whose elements are not arrays themselves; [H m] are the
    objects and operators of the program when the memory of arrays is [m]. *)
Definition clef_auto_assign (k : nat) (H : mem V -> heap) (dst : view) (f : node) (m : mem V) : out (mem V) :=
  for_each (im_len (v_lay dst))
    (fun x st => bind st (fun m =>
       bind (call_fun k (H m) None f (map (fun i => NVal (o_int (h_ops (H m)) i)) x)) (fun r =>
       bind (read (H m) r) (fun v => Ret (mset m (elem dst x) v))))) (Ret m).
(** clef.hpp:535-553 and 567-585 [A(i_, j_, ...) << rhs]; Stuck is the static_assert. *)
Definition lazy_assign (k : nat) (H : mem V -> heap) (dst : view) (is : list nat) (rhs : node) (m : mem V) : out (mem V) :=
  if all_different is then clef_auto_assign k H dst (NFun rhs is) m else Stuck.

(** nested std::vectors *)
Inductive vec := VElem (v : V) | VVec (l : list vec).
(** adapters/vector.hpp:23-36: [clef_auto_assign_subscript] on a vector, [..._std_vector_impl] on one of its elements. *)
Fixpoint assign_vec (k : nat) (h : heap) (x : vec) (f : node) : out vec :=
  match x with
  | VElem _ => Stuck
  | VVec l =>
      bind (sequence ((fix go (i : nat) (l : list vec) : list (out vec) :=
                         match l with
                         | [] => []
                         | y :: l =>
                             bind (call_fun k h None f [NVal (o_int (h_ops h) (Z.of_nat i))]) (fun r =>
                             match r with
                             | NFun _ _ => assign_vec k h y r
                             | _ => match y with VElem _ => bind (read h r) (fun v => Ret (VElem v)) | VVec _ => Stuck end
                             end) :: go (S i) l
                         end) 0%nat l)) (fun l' => Ret (VVec l'))
  end.
(** clef.hpp:615-655 [v[i_][j_]... << rhs]: the chain of subscripts gives nested functions, the first index outermost;
    each static_assert sees one placeholder. *)
Definition chain (is : list nat) (rhs : node) : node := fold_right (fun i b => NFun b [i]) rhs is.
Definition lazy_assign_vec (k : nat) (h : heap) (x : vec) (is : list nat) (rhs : node) : out vec :=
  assign_vec k h x (chain is rhs).

End Clef.
Arguments ops : clear implicits. Arguments ref : clear implicits. Arguments node : clear implicits.
Arguments heap : clear implicits. Arguments vec : clear implicits.
