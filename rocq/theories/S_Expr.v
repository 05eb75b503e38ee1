(** Specification vocabulary for lazy expressions and reductions. *)
From Verif Require Import Base M_IdxMap M_Slice M_Assign M_Expr S_Layout S_Assign.

(** the ordinary meaning of an operation sign *)
Definition op_value {V} (A : arith V) (op : bin_op) : V -> V -> V :=
  match op with OpPlus => v_add A | OpMinus => v_sub A | OpTimes => v_mul A | OpDiv => v_div A end.
(** A scalar inside an expression: in matrix algebra, added or subtracted, it stands for the scalar times the unit
    matrix; otherwise for the array with that value everywhere (multiplying or dividing by it scales every element). *)
Definition scalar_value {V} (A : arith V) (alg : algebra) (op : bin_op) (s : V) (idx : list Z) : V :=
  match alg, op with
  | AlgM, (OpPlus | OpMinus) => if on_diagonal idx then s else v_zero A
  | _, _ => s
  end.
(** the value the expression denotes at [idx], from the values of its arrays at [idx] *)
Fixpoint denote {V} (A : arith V) (m : mem V) (e : expr V) (idx : list Z) : V :=
  match e with
  | ELeaf _ v => m (cell v idx)
  | ENeg a => v_opp A (denote A m a idx)
  | EBin op l r => op_value A op (denote A m l idx) (denote A m r idx)
  | EScalL op s r => op_value A op (scalar_value A (get_algebra r) op s idx) (denote A m r idx)
  | EScalR op l s => op_value A op (denote A m l idx) (scalar_value A (get_algebra l) op s idx)
  | EMap f a => f (denotes A m a idx)
  end
with denotes {V} (A : arith V) (m : mem V) (l : exprs V) (idx : list Z) : list V :=
  match l with EOne a => [denote A m a idx] | EMore a rest => denote A m a idx :: denotes A m rest idx end.

(** the arrays and views an expression refers to *)
Fixpoint leaves {V} (e : expr V) : list view :=
  match e with
  | ELeaf _ v => [v]
  | ENeg a => leaves a
  | EBin _ l r => leaves l ++ leaves r
  | EScalL _ _ r => leaves r
  | EScalR _ l _ => leaves l
  | EMap _ a => leaves_list a
  end
with leaves_list {V} (l : exprs V) : list view :=
  match l with EOne a => leaves a | EMore a rest => leaves a ++ leaves_list rest end.
(** all arrays of the expression have shape [sh] *)
Definition common_shape {V} (e : expr V) (sh : list Z) : Prop := forall v, In v (leaves e) -> im_len (v_lay v) = sh.
Definition leaves_truthful {V} (e : expr V) : Prop := forall v, In v (leaves e) -> truthful (v_lay v).

(** adding zero does nothing, subtracting from zero is the opposite *)
Definition zero_neutral {V} (A : arith V) : Prop :=
  forall x, v_add A (v_zero A) x = x /\ v_add A x (v_zero A) = x /\ v_sub A x (v_zero A) = x /\ v_sub A (v_zero A) x = v_opp A x.

(** commutative monoid *)
Definition comm_monoid {V} (add : V -> V -> V) (zero : V) : Prop :=
  (forall x y z, add x (add y z) = add (add x y) z) /\ (forall x y, add x y = add y x) /\ (forall x, add zero x = x).
(** [L] lists every index tuple once, in any order *)
Definition enumerates (shape : list Z) (L : list (list Z)) : Prop := NoDup L /\ forall idx, In idx L <-> in_range idx shape.
(** sum (product) of the listed values *)
Definition total {V} (add : V -> V -> V) (zero : V) (l : list V) : V := fold_right add zero l.
(** [ltb] decides a strict total order *)
Definition strict_total {V} (ltb : V -> V -> bool) : Prop :=
  (forall x, ltb x x = false) /\ (forall x y z, ltb x y = true -> ltb y z = true -> ltb x z = true) /\ (forall x y, ltb x y = true \/ x = y \/ ltb y x = true).
(** the algebras of the arrays in an expression *)
Fixpoint leaf_algebras {V} (e : expr V) : list algebra :=
  match e with
  | ELeaf a _ => [a]
  | ENeg a => leaf_algebras a
  | EBin _ l r => leaf_algebras l ++ leaf_algebras r
  | EScalL _ _ r => leaf_algebras r
  | EScalR _ l _ => leaf_algebras l
  | EMap _ a => leaf_algebras_list a
  end
with leaf_algebras_list {V} (l : exprs V) : list algebra :=
  match l with EOne a => leaf_algebras a | EMore a rest => leaf_algebras a ++ leaf_algebras_list rest end.

(** Which expressions are accepted by the compiler, with which algebra and rank: [typed e alg r].  A matrix has rank two and a vector rank
    one; sums and differences need equal ranks and take the algebra of the left operand; element-wise products and quotients need two
    operands in array algebra (with matrices the operators * and / are not element-wise, with vectors they are refused); only a division of
    a scalar by a matrix is not an element-wise expression; a map has the rank of its first argument, and an algebra if all arguments have
    the same one. *)
Definition elementwise (op : bin_op) : Prop := op = OpPlus \/ op = OpMinus.
Inductive typed {V} : expr V -> algebra -> nat -> Prop :=
| T_array v : typed (ELeaf AlgA v) AlgA (length (im_len (v_lay v)))
| T_matrix v : length (im_len (v_lay v)) = 2%nat -> typed (ELeaf AlgM v) AlgM 2
| T_vector v : length (im_len (v_lay v)) = 1%nat -> typed (ELeaf AlgV v) AlgV 1
| T_other v : typed (ELeaf AlgN v) AlgN (length (im_len (v_lay v)))
| T_neg a alg r : typed a alg r -> typed (ENeg a) alg r
| T_sum op l r alg alg' k : elementwise op -> typed l alg k -> typed r alg' k -> typed (EBin op l r) alg k
| T_product op l r k : ~ elementwise op -> typed l AlgA k -> typed r AlgA k -> typed (EBin op l r) AlgA k
| T_scalar_left op s r alg k : typed r alg k -> (op = OpDiv -> alg <> AlgM) -> typed (EScalL op s r) alg k
| T_scalar_right op l s alg k : typed l alg k -> typed (EScalR op l s) alg k
| T_map1 f a alg k : typed a alg k -> typed (EMap f (EOne a)) alg k
| T_map f a rest alg k algs : typed a alg k -> typed_all rest algs -> (forall x, In x algs -> x = alg) -> typed (EMap f (EMore a rest)) alg k
| T_map_mixed f a rest alg k algs x : typed a alg k -> typed_all rest algs -> In x algs -> x <> alg -> typed (EMap f (EMore a rest)) AlgN k
with typed_all {V} : exprs V -> list algebra -> Prop :=
| T_last a alg k : typed a alg k -> typed_all (EOne a) [alg]
| T_more a alg k rest algs : typed a alg k -> typed_all rest algs -> typed_all (EMore a rest) (alg :: algs).
