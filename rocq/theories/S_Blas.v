(** Specification of the linear algebra: rings, finite sums, matrices and vectors in memory. *)
From Coq Require Export Ring_theory.
From Verif Require Import Base M_Perm M_IdxMap M_Slice M_Loops M_Assign M_Expr M_Transform M_Blas S_Layout S_Assign.

(** the operations of [A] make a commutative ring *)
Definition is_ring {V} (A : arith V) : Prop := ring_theory (v_zero A) (v_one A) (v_add A) (v_mul A) (v_sub A) (v_opp A) eq.

(** f 0 + f 1 + ... + f (n-1) *)
Fixpoint sum_nat {V} (A : arith V) (n : nat) (f : Z -> V) : V :=
  match n with O => v_zero A | S n => v_add A (sum_nat A n f) (f (Z.of_nat n)) end.
Definition sum_to {V} (A : arith V) (n : Z) (f : Z -> V) : V := sum_nat A (Z.to_nat n) f.

(** what fits an int *)
Definition int_range (x : Z) : Prop := - 2 ^ 31 <= x < 2 ^ 31.

(** [v] is an [r] by [c] matrix of a kind BLAS can use, stored row by row (C order) or column by column (Fortran order): in the fast
    direction the elements are adjacent, and rows or columns do not overlap *)
Definition row_major (v : view) (r c ld : Z) : Prop :=
  im_len (v_lay v) = [r; c] /\ im_so (v_lay v) = [0; 1]%nat /\ im_str (v_lay v) = [ld; 1] /\ Z.max 1 c <= ld.
Definition column_major (v : view) (r c ld : Z) : Prop :=
  im_len (v_lay v) = [r; c] /\ im_so (v_lay v) = [1; 0]%nat /\ im_str (v_lay v) = [1; ld] /\ Z.max 1 r <= ld.
Definition blas_matrix (v : view) (r c : Z) : Prop :=
  0 <= r /\ 0 <= c /\ int_range r /\ int_range c /\ exists ld, int_range ld /\ (row_major v r c ld \/ column_major v r c ld).
(** [v] is a vector of [n] elements *)
Definition vector_of (v : view) (n s : Z) : Prop :=
  0 <= n /\ int_range n /\ int_range s /\ im_len (v_lay v) = [n] /\ im_so (v_lay v) = [0%nat] /\ im_str (v_lay v) = [s].

(** element (i, j) of a matrix argument *)
Definition mat_at {V} (cj : V -> V) (x : mat) (m : mem V) (i j : Z) : V :=
  if m_conj x then cj (m (cell (m_view x) [i; j])) else m (cell (m_view x) [i; j]).
(** entry (i, j) of the product of a matrix with [k] columns and one with [k] rows *)
Definition product_at {V} (A : arith V) (k : Z) (a b : Z -> Z -> V) (i j : Z) : V := sum_to A k (fun l => v_mul A (a i l) (b l j)).

(** conj(a) can be used as factor of a product stored in the order of c if a is stored in the other order *)
Definition same_order (a c : view) : Prop := im_so (v_lay a) = im_so (v_lay c).
Definition conj_allowed (x : mat) (c : view) : Prop := m_conj x = true -> ~ same_order (m_view x) c.

(** ** operands of matmul *)
(** the cells from [b] to [b + n - 1] *)
Definition block (b n a : Z) : Prop := b <= a < b + n.
Definition operand_at {V} (cj : V -> V) (x : @operand V) (m : mem V) (i j : Z) : V :=
  match x with OMat _ v => m (cell v [i; j]) | OConj v => cj (m (cell v [i; j])) | OOther _ _ f => f m [i; j] end.
(** an [r] by [c] operand: a usable matrix in memory BLAS can use, or an expression *)
Definition operand_fits {V} (x : @operand V) (r c : Z) : Prop :=
  1 <= r /\ 1 <= c /\ int_range r /\ int_range c /\
  match x with
  | OMat _ v | OConj v => blas_matrix v r c /\ usable (v_lay v)
  | OOther _ s f => s = [r; c]
  end.
(** both factors are stored in the same order (the right one, if an expression: all its matrices) *)
Definition orders_agree {V} (l r : @operand V) : Prop :=
  match l, r with OMat _ v, OMat _ w => im_so (v_lay w) = im_so (v_lay v) | OMat _ v, OOther so _ _ => so = im_so (v_lay v) | _, _ => False end.
(** the storage order of a product: that of the factors if it is the same, else C order *)
Definition product_order {V} (l r : @operand V) (so : list nat) : Prop :=
  (forall reg v, l = OMat reg v -> orders_agree l r -> so = im_so (v_lay v)) /\ (~ orders_agree l r -> so = [0; 1]%nat).
(** extents fixed by a type (0: not fixed) agree with a shape *)
Definition extents_agree (se shape : list Z) : Prop := forall u, (u < length shape)%nat -> nthZ se u = 0 \/ nthZ se u = nthZ shape u.
(** the type of the left factor, if it is an array (a stack_matrix has a type that fixes its extents) whose order the product takes
    over, allows the shape of the product [n] by [p] and, if the right factor has to be copied, its shape *)
Definition static_fits {V} (l r : @operand V) (n k p : Z) : Prop :=
  forall v, l = OMat true v -> orders_agree l r ->
    extents_agree (im_se (v_lay v)) [n; p] /\ match r with OOther _ _ _ => extents_agree (im_se (v_lay v)) [k; p] | _ => True end.
(** the operand reads no cell outside [P] *)
Definition operand_reads {V} (x : @operand V) (P : Z -> Prop) : Prop :=
  match x with
  | OMat _ v | OConj v => forall a, is_cell_of v a -> P a
  | OOther _ s f => forall idx m1 m2, in_range idx s -> (forall a, P a -> m1 a = m2 a) -> f m1 idx = f m2 idx
  end.
(** blocks of new memory: apart from each other and from [P] *)
Fixpoint new_blocks (P : Z -> Prop) (l : list (Z * Z)) : Prop :=
  match l with
  | [] => True
  | (b, n) :: l => (forall a, block b n a -> ~ P a) /\ new_blocks (fun a => P a \/ block b n a) l
  end.

(** ** batches *)
(** the products of a batch: the factors and the result *)
Notation triple := (mat * mat * view)%type.
Definition triple_fits (t : triple) : Prop := let '(x, y, c) := t in
  exists r k n, blas_matrix (m_view x) r k /\ blas_matrix (m_view y) k n /\ blas_matrix c r n.
(** all products have the same types ... *)
Definition same_kind (t0 t : triple) : Prop := let '(x0, y0, c0) := t0 in let '(x, y, c) := t in
  m_conj x = m_conj x0 /\ m_conj y = m_conj y0 /\ same_order (m_view x) (m_view x0) /\ same_order (m_view y) (m_view y0) /\ same_order c c0.
(** ... and the same extents and strides *)
Definition same_sizes (t0 t : triple) : Prop := let '(x0, y0, c0) := t0 in let '(x, y, c) := t in
  let eq (v w : view) := im_len (v_lay v) = im_len (v_lay w) /\ im_str (v_lay v) = im_str (v_lay w) in
  eq (m_view x) (m_view x0) /\ eq (m_view y) (m_view y0) /\ eq c c0.

(** no result overlaps a factor or another result *)
Definition batch_apart (l : list triple) : Prop :=
  (forall x y c x' y' c', In (x, y, c) l -> In (x', y', c') l -> disjoint c (m_view x') /\ disjoint c (m_view y')) /\
  ForallOrdPairs (fun t t' => disjoint (snd t) (snd t')) l.
(** one product after the other *)
Definition one_by_one {V} (f : triple -> mem V -> bout (mem V)) (l : list triple) (m : mem V) : bout (mem V) := fold_left (fun st t => bbind st (f t)) l (BRet m).

(** [b] matrices, [r] by [c], the first index counting the matrices, each stored row by row or column by column, the starts [s] cells apart *)
Definition stack_of (v : view) (b r c s : Z) : Prop :=
  0 <= b /\ 0 <= r /\ 0 <= c /\ int_range b /\ int_range r /\ int_range c /\ int_range s /\ im_len (v_lay v) = [b; r; c] /\
  exists ld, int_range ld /\ ((im_so (v_lay v) = [0; 1; 2]%nat /\ im_str (v_lay v) = [s; ld; 1] /\ Z.max 1 c <= ld) \/
                            (im_so (v_lay v) = [0; 2; 1]%nat /\ im_str (v_lay v) = [s; 1; ld] /\ Z.max 1 r <= ld)).
(** the distances of the matrices of a stack from the first fit an int *)
Definition starts_in_int (b s : Z) : Prop := forall q, 0 <= q < b -> int_range (q * s).
(** matrix number [q] *)
Definition stacked (v : view) (q : Z) : option view := match slice_view AlgA v [ALong q; AAll; AAll] with Some (_, s) => Some s | None => None end.
Definition stack_at {V} (cj : V -> V) (x : mat) (m : mem V) (q i j : Z) : V :=
  if m_conj x then cj (m (cell (m_view x) [q; i; j])) else m (cell (m_view x) [q; i; j]).
