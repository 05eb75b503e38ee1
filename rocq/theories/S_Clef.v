(** Specification of lazy expressions: the meaning of an expression in an environment that gives a value to
    every placeholder, by the usual rules of substitution and lexical scope. *)
From Verif Require Import Base M_Perm M_IdxMap M_Loops M_Assign M_Clef S_Layout S_Assign.

Section Spec.
Context {V : Type}.
Notation node := (node V). Notation heap := (heap V).

(** an environment: the value of each placeholder (Stuck: it has none) *)
Definition env := nat -> out V.
Definition nothing : env := fun _ => Stuck.
Definition update (e : env) (n : nat) (x : out V) : env := fun k => if Nat.eqb k n then x else e k.

(** what an operator does to values *)
Definition meaning (o : ops V) (t : tag) (vs : list V) : out V :=
  match t, vs with
  | TTerminal, [x] => Ret x
  | TFunction, f :: args => o_call o f args
  | TSubscript, f :: args => o_sub o f args
  | TBin b, [x; y] => o_bin o b x y
  | TUn u, [x] => o_un o u x
  | TIfElse, [c; x; y] => bind (o_true o c) (fun q => Ret (if q then x else y))
  | _, _ => Stuck
  end.
(** the sum of the values [f x], from the first to the last; no value for no summand *)
Fixpoint add_all (o : ops V) (acc : V) (ys : list V) : out V :=
  match ys with [] => Ret acc | y :: ys => bind (o_bin o BPlus acc y) (fun r => add_all o r ys) end.
Definition total (o : ops V) (ys : list V) : out V := match ys with [] => Raise | y :: ys => add_all o y ys end.

(** a reference can be read if the object referred to is alive; one into a temporary cannot be read afterwards *)
Fixpoint part (x : node) (p : list nat) : option node :=
  match p, x with
  | [], _ => Some x
  | i :: p, NExpr _ l => match nth_error l i with Some c => part c p | None => None end
  | _ :: p, NFun b _ => part b p
  | _ :: _, _ => None
  end.
Definition lookup_ref (h : heap) (r : ref V) : out V :=
  match r with
  | RObj a => match h_obj h a with Some v => Ret v | None => Stuck end
  | RLeaf o p => match h_exp h o with Some x => match part x p with Some (NVal v) => Ret v | _ => Stuck end | None => Stuck end
  | RTmp _ => Stuck
  end.

(** the value of an expression; a sum binds its index in the summand only *)
Fixpoint value (h : heap) (e : env) (x : node) : out V :=
  match x with
  | NVal v => Ret v
  | NRef r => lookup_ref h r
  | NPh n => e n
  | NFun _ _ => Stuck
  | NExpr TSum [NFun b [n]; d] =>
      bind (value h e d) (fun dv => bind (o_dom (h_ops h) dv) (fun xs =>
      match xs with
      | [] => Raise
      | _ => bind (sequence (map (fun v => value h (update e n (Ret v)) b) xs)) (total (h_ops h))
      end))
  | NExpr t l => bind (sequence (map (value h e) l)) (meaning (h_ops h) t)
  end.

(** the placeholders an expression depends on, and those it binds *)
Fixpoint free (x : node) : list nat :=
  match x with
  | NVal _ | NRef _ => []
  | NPh n => [n]
  | NExpr _ l => flat_map free l
  | NFun b is => filter (fun n => negb (existsb (Nat.eqb n) is)) (free b)
  end.
Fixpoint binders (x : node) : list nat :=
  match x with
  | NVal _ | NRef _ | NPh _ => []
  | NExpr _ l => flat_map binders l
  | NFun b is => is ++ binders b
  end.
(** no index is bound again inside its own scope *)
Fixpoint no_shadowing (x : node) : Prop :=
  match x with
  | NVal _ | NRef _ | NPh _ => True
  | NExpr _ l => fold_right (fun c P => no_shadowing c /\ P) True l
  | NFun b is => (forall n, In n is -> ~ In n (binders b)) /\ no_shadowing b
  end.
(** it refers to no temporary that is gone *)
Fixpoint no_temporary (x : node) : Prop :=
  match x with
  | NRef (RTmp _) => False
  | NVal _ | NRef _ | NPh _ => True
  | NExpr _ l => fold_right (fun c P => no_temporary c /\ P) True l
  | NFun b _ => no_temporary b
  end.
(** an expression without sums and other function objects; a value or a reference to one *)
Fixpoint function_free (x : node) : Prop :=
  match x with
  | NVal _ | NRef _ | NPh _ => True
  | NExpr _ l => fold_right (fun c P => function_free c /\ P) True l
  | NFun _ _ => False
  end.
Definition is_plain (x : node) : Prop := match x with NVal _ | NRef _ => True | _ => False end.

(** bindings [x_ = rhs]: they are for different placeholders; none is for, and none mentions, an index bound in [x] *)
Definition keys (pairs : list (nat * node)) : list nat := map fst pairs.
Definition bindings_for (pairs : list (nat * node)) (x : node) : Prop :=
  NoDup (keys pairs) /\ no_shadowing x /\
  (forall n, In n (binders x) -> ~ In n (keys pairs) /\ forall k r, In (k, r) pairs -> ~ In n (free r)) /\
  (forall k r, In (k, r) pairs -> function_free r /\ no_temporary r).
(** the environment in which the bound placeholders have the values of what they are bound to *)
Definition bound (h : heap) (e : env) (pairs : list (nat * node)) : env :=
  fun n => match find (fun q => Nat.eqb (fst q) n) pairs with Some (_, r) => value h e r | None => e n end.

(** the height of an expression *)
Fixpoint height (x : node) : nat :=
  match x with
  | NVal _ | NRef _ | NPh _ => 1
  | NExpr _ l => S (fold_right Nat.max 0%nat (map height l))
  | NFun b _ => S (height b)
  end.

(** expressions made of operators and of sums that were left lazy: every sum is over the points of a plain domain and its
    summand depends on some placeholder besides the index *)
Fixpoint lazy_sums (x : node) : Prop :=
  match x with
  | NVal _ | NRef _ => True
  | NPh n => (n < 64)%nat
  | NFun _ _ => False
  | NExpr TSum [NFun b [n]; d] => lazy_sums b /\ (n < 64)%nat /\ is_plain d /\ exists m, In m (free (NFun b [n]))
  | NExpr TSum _ => False
  | NExpr _ l => fold_right (fun c P => lazy_sums c /\ P) True l
  end.

(** a further expression object [o] in memory *)
Definition with_exp (h : heap) (o : nat) (x : node) : heap :=
  Heap (h_ops h) (h_obj h) (fun q => if Nat.eqb q o then Some x else h_exp h q).
(** the expression object [o] has been destroyed *)
Definition without_exp (h : heap) (o : nat) : heap :=
  Heap (h_ops h) (h_obj h) (fun q => if Nat.eqb q o then None else h_exp h q).

(** the sum of [f] over the first index, then of that over the second, and so on *)
Definition nested_sum (f : node) (l : list (nat * node)) : node :=
  fold_left (fun x q => NExpr TSum [NFun x [fst q]; snd q]) l f.
Definition domains_for (l : list (nat * node)) (f : node) : Prop :=
  NoDup (keys l) /\ (forall n d, In (n, d) l -> (n < 64)%nat /\ is_plain d /\ no_temporary d /\ ~ In n (binders f)).

(** the placeholders [is] have the values of the indices [idx] *)
Definition index_env (o : ops V) (is : list nat) (idx : list Z) : env :=
  fun n => match find (fun q => Nat.eqb (fst q) n) (combine is idx) with Some (_, i) => Ret (o_int o i) | None => Stuck end.

(** the element of nested vectors at a list of positions *)
Fixpoint vec_at (x : vec V) (idx : list nat) : option V :=
  match x, idx with
  | VElem v, [] => Some v
  | VVec l, i :: idx => match nth_error l i with Some y => vec_at y idx | None => None end
  | _, _ => None
  end.
(** vectors nested [n] times *)
Fixpoint vec_depth (n : nat) (x : vec V) : Prop :=
  match n, x with
  | O, VElem _ => True
  | S n, VVec l => fold_right (fun y P => vec_depth n y /\ P) True l
  | _, _ => False
  end.
End Spec.
