(** What programs of arrays and views mean: arrays are functions from index tuples to values, a view is a window on an array
    given by a map from its own index tuples to those of the array.  No layouts, strides, addresses or memory. *)
From Verif Require Import Base M_Slice M_Expr M_Program S_Layout S_Expr S_Blas.

(** An array: its shape, its elements, the order its dimensions are stored in (only [reshape] shows it), and whether it still exists. *)
Record aarray (V : Type) := AArray { aa_shape : list Z; aa_order : list nat; aa_val : list Z -> V; aa_alive : bool }.
Arguments AArray {V}. Arguments aa_shape {V}. Arguments aa_order {V}. Arguments aa_val {V}. Arguments aa_alive {V}.
(** A variable: element [idx] of it is element [av_at idx] of array number [av_arr].  [av_whole]: it is the array itself;
    [av_forward]: only ranges with positive steps were used to make it.  Only products of matrices show the following: [av_order]: the
    order its dimensions are stored in, slowest first; [av_gap]: how many elements of the array's storage lie between neighbours, in each
    dimension (1: neighbours are adjacent). *)
Record avar := AVar { av_alg : algebra; av_arr : nat; av_shape : list Z; av_at : list Z -> list Z; av_whole : bool; av_forward : bool; av_order : list nat; av_gap : list Z }.
Record astate (V : Type) := AState { as_arr : list (aarray V); as_var : list avar }.
Arguments AState {V}. Arguments as_arr {V}. Arguments as_var {V}.

Definition no_arr {V} (zero : V) : aarray V := AArray [] [] (fun _ => zero) false.
Definition no_avar : avar := AVar AlgN 0 [] (fun i => i) false false [] [].
Definition var {V} (s : astate V) (x : nat) : avar := nth x (as_var s) no_avar.

(** ** windows *)
(** how many positions a range has in a dimension of extent [l] *)
Definition positions (r : range) (l : Z) : Z :=
  let stop := if (r_last r =? -1) && (0 <? r_step r) then l else r_last r in
  Z.max 0 (if 0 <? r_step r then (stop - r_first r + (r_step r - 1)) / r_step r else (r_first r - stop + (- r_step r - 1)) / (- r_step r)).
(** the shape of a slice, the ellipsis being written out *)
Fixpoint window_shape (ex : list arg) (shape : list Z) : list Z :=
  match ex, shape with
  | ALong _ :: ex', _ :: shape' => window_shape ex' shape'
  | ARange r :: ex', l :: shape' => positions r l :: window_shape ex' shape'
  | _ :: ex', l :: shape' => l :: window_shape ex' shape'
  | _, _ => []
  end.
(** the extents of a view with permuted indices: extent number p[k] is that of dimension k *)
Definition permuted_shape (p : list nat) (shape : list Z) : list Z :=
  map (fun j => nthZ shape (hd 0%nat (filter (fun k => Nat.eqb (nth k p 0%nat) j) (seq 0 (length p))))) (seq 0 (length p)).
(** gaps in a new array: along dimension [d], the number of elements of the dimensions stored faster than [d] *)
Fixpoint faster (d : nat) (so : list nat) : list nat := match so with [] => [] | x :: so' => if Nat.eqb x d then so' else faster d so' end.
Definition new_gaps (so : list nat) (shape : list Z) : list Z := map (fun d => prodZ (map (nthZ shape) (faster d so))) (seq 0 (length shape)).
(** gaps in a slice, and the order of its dimensions: that of the parent, without those that are fixed and renumbered *)
Fixpoint window_gaps (ex : list arg) (gap : list Z) : list Z :=
  match ex, gap with
  | ALong _ :: ex', _ :: gap' => window_gaps ex' gap'
  | ARange r :: ex', g :: gap' => g * r_step r :: window_gaps ex' gap'
  | _ :: ex', g :: gap' => g :: window_gaps ex' gap'
  | _, _ => []
  end.
Definition kept_dim (ex : list arg) (d : nat) : bool := match nth d ex AAll with ALong _ => false | _ => true end.
Definition window_order (ex : list arg) (so : list nat) : list nat := map (fun d => length (filter (kept_dim ex) (seq 0 d))) (filter (kept_dim ex) so).
Definition forward_step (a : arg) : bool := match a with ARange r => 0 <? r_step r | _ => true end.

(** every index tuple of a shape *)
Fixpoint tuples (shape : list Z) : list (list Z) :=
  match shape with [] => [[]] | l :: shape' => flat_map (fun i => map (cons (Z.of_nat i)) (tuples shape')) (seq 0 (Z.to_nat l)) end.
Definition same_tuple (i j : list Z) : bool := if list_eq_dec Z.eq_dec i j then true else false.

(** ** values *)
Section meaning.
Context {V : Type} (A : arith V).
(** element [idx] of variable [x] *)
Definition read (s : astate V) (x : nat) (idx : list Z) : V := aa_val (nth (av_arr (var s x)) (as_arr s) (no_arr (v_zero A))) (av_at (var s x) idx).
Fixpoint algebra_of (s : astate V) (e : pexpr V) : algebra :=
  match e with
  | PVar x => av_alg (var s x)
  | PNeg a => algebra_of s a
  | PBin _ l _ => algebra_of s l
  | PScalL _ _ r => algebra_of s r
  | PScalR _ l _ => algebra_of s l
  | PMap1 _ a => algebra_of s a
  | PMap2 _ a b => if algebra_eqb (algebra_of s b) (algebra_of s a) then algebra_of s a else AlgN
  end.
(** element [idx] of an expression *)
Fixpoint value (s : astate V) (e : pexpr V) (idx : list Z) : V :=
  match e with
  | PVar x => read s x idx
  | PNeg a => v_opp A (value s a idx)
  | PBin op l r => op_value A op (value s l idx) (value s r idx)
  | PScalL op c r => op_value A op (scalar_value A (algebra_of s r) op c idx) (value s r idx)
  | PScalR op l c => op_value A op (value s l idx) (scalar_value A (algebra_of s l) op c idx)
  | PMap1 f a => f (value s a idx)
  | PMap2 f a b => f (value s a idx) (value s b idx)
  end.
Fixpoint vars_of (e : pexpr V) : list nat :=
  match e with
  | PVar x => [x]
  | PNeg a | PScalL _ _ a | PScalR _ a _ | PMap1 _ a => vars_of a
  | PBin _ l r => vars_of l ++ vars_of r
  | PMap2 _ a b => vars_of a ++ vars_of b
  end.
(** the shape of an expression: that of its first array *)
Definition shape_of (s : astate V) (e : pexpr V) : list Z := av_shape (var s (hd 0%nat (vars_of e))).

(** the elements of [x] get the values [g]; all other elements of all arrays keep theirs *)
Definition overwrite (s : astate V) (x : nat) (g : list Z -> V) : astate V :=
  let a := nth (av_arr (var s x)) (as_arr s) (no_arr (v_zero A)) in
  AState (upd (as_arr s) (av_arr (var s x))
            (AArray (aa_shape a) (aa_order a)
               (fun i => match find (fun idx => same_tuple (av_at (var s x) idx) i) (tuples (av_shape (var s x))) with
                         | Some idx => g idx
                         | None => aa_val a i
                         end) (aa_alive a)))
         (as_var s).
Definition add_array (s : astate V) (alg : algebra) (so : list nat) (shape : list Z) (f : list Z -> V) : astate V :=
  AState (as_arr s ++ [AArray shape so f true]) (as_var s ++ [AVar alg (length (as_arr s)) shape (fun i => i) true true so (new_gaps so shape)]).
Definition add_var (s : astate V) (v : avar) : astate V := AState (as_arr s) (as_var s ++ [v]).

(** the order the matrices of an expression are stored in, if it is the same and no scalar or function comes between *)
Fixpoint order_of (s : astate V) (e : pexpr V) : option (list nat) :=
  match e with
  | PVar x => Some (av_order (var s x))
  | PNeg a => order_of s a
  | PBin _ l r => match order_of s l, order_of s r with Some o, Some o' => if list_eq_dec Nat.eq_dec o o' then Some o else None | _, _ => None end
  | PScalL _ _ a | PScalR _ a _ => if algebra_eqb (algebra_of s a) AlgA then order_of s a else None
  | PMap1 _ _ | PMap2 _ _ _ => None
  end.
(** the order a product is stored in: that of the left factor if this is an array or a view and the right factor has the same, else C order *)
Definition product_stored (s : astate V) (e f : pexpr V) : list nat :=
  match e with
  | PVar x => match order_of s f with Some o => if list_eq_dec Nat.eq_dec o (av_order (var s x)) then o else [0; 1]%nat | None => [0; 1]%nat end
  | _ => [0; 1]%nat
  end.

(** ** statements *)
Definition astep (s : astate V) (st : pstmt V) : astate V :=
  match st with
  | PNew alg so shape f => add_array s alg so shape f
  | PCopy alg so e => add_array s alg so (shape_of s e) (value s e)
  | PDestroy k => let a := nth k (as_arr s) (no_arr (v_zero A)) in
                  AState (upd (as_arr s) k (AArray (aa_shape a) (aa_order a) (aa_val a) false)) (as_var s)
  | PSlice x args =>
      let v := var s x in let ex := expand_args (length (av_shape v)) args in let shape := window_shape ex (av_shape v) in
      add_var s (AVar (match av_alg v with AlgM => if Nat.eqb (length shape) 1 then AlgV else AlgM | g => g end) (av_arr v) shape
                      (fun idx => av_at v (parent_idx ex idx)) false (av_forward v && forallb forward_step ex)
                      (window_order ex (av_order v)) (window_gaps ex (av_gap v)))
  | PPermute x p => let v := var s x in
      add_var s (AVar (av_alg v) (av_arr v) (permuted_shape p (av_shape v)) (fun idx => av_at v (in_order 0 p idx)) false (av_forward v)
                      (map (fun d => nth d p 0%nat) (av_order v)) (permuted_shape p (av_gap v)))
  | PReshape x shape => let v := var s x in
      add_var s (AVar (if Nat.eqb (length shape) (length (av_shape v)) then av_alg v else AlgA) (av_arr v) shape
                      (fun idx => digits (av_shape v) (radix shape idx)) false true (seq 0 (length shape)) (new_gaps (seq 0 (length shape)) shape))
  | PWrite x idx val => overwrite s x (fun j => if same_tuple j idx then val else read s x j)
  | PFill x val => overwrite s x (fun j => match av_alg (var s x) with AlgM => if on_diagonal j then val else v_zero A | _ => val end)
  | PAssign x e => overwrite s x (value s e)
  | PCompound op x e => overwrite s x (fun j => op_value A op (read s x j) (value s e j))
  | PRebind x y => let v := var s x in let u := var s y in
      AState (as_arr s) (upd (as_var s) x (AVar (av_alg v) (av_arr u) (av_shape u) (av_at u) (av_whole u) (av_forward u) (av_order u) (av_gap u)))
  | PSwap x y => let v := var s x in let u := var s y in
      AState (as_arr s) (upd (upd (as_var s) x (AVar (av_alg v) (av_arr u) (av_shape u) (av_at u) (av_whole u) (av_forward u) (av_order u) (av_gap u)))
                             y (AVar (av_alg u) (av_arr v) (av_shape v) (av_at v) (av_whole v) (av_forward v) (av_order v) (av_gap v)))
  | PDeepSwap x y => overwrite (overwrite s x (read s y)) y (read s x)
  (* the array becomes another one; variables that were windows on the old one are left without an array *)
  | PReassign _ k x e => let a := nth k (as_arr s) (no_arr (v_zero A)) in
      AState (upd (as_arr s) k (AArray (aa_shape a) (aa_order a) (aa_val a) false) ++ [AArray (shape_of s e) (aa_order a) (value s e) true])
             (upd (as_var s) x (AVar (av_alg (var s x)) (length (as_arr s)) (shape_of s e) (fun i => i) true true (aa_order a) (new_gaps (aa_order a) (shape_of s e))))
  (* a new matrix, a new vector: sums of products *)
  | PMatmul e f => add_array s AlgM (product_stored s e f) [nthZ (shape_of s e) 0; nthZ (shape_of s f) 1]
      (fun idx => sum_to A (nthZ (shape_of s e) 1) (fun l => v_mul A (value s e [nthZ idx 0; l]) (value s f [l; nthZ idx 1])))
  | PMatvec e f => add_array s AlgV [0%nat] [nthZ (shape_of s e) 0]
      (fun idx => sum_to A (nthZ (shape_of s e) 1) (fun l => v_mul A (value s e [nthZ idx 0; l]) (value s f [l])))
  end.
Fixpoint arun (s : astate V) (p : list (pstmt V)) : astate V := match p with [] => s | st :: p' => arun (astep s st) p' end.

(** ** what a program may do *)
(** the variable exists and its array still exists *)
Definition live (s : astate V) (x : nat) : Prop :=
  (x < length (as_var s))%nat /\ exists a, nth_error (as_arr s) (av_arr (var s x)) = Some a /\ aa_alive a = true.
(** all arrays of the expression exist and have that shape; products and quotients of arrays only where they are element-wise *)
Definition well_shaped (s : astate V) (e : pexpr V) (shape : list Z) : Prop := forall x, In x (vars_of e) -> live s x /\ av_shape (var s x) = shape.
Fixpoint element_wise (s : astate V) (e : pexpr V) : Prop :=
  match e with
  | PVar _ => True
  | PNeg a | PMap1 _ a | PScalR _ a _ => element_wise s a
  | PBin op l r => element_wise s l /\ element_wise s r /\ match op with OpPlus | OpMinus => True | _ => algebra_of s l = AlgA /\ algebra_of s r = AlgA end
  | PScalL op _ r => element_wise s r /\ match op with OpDiv => algebra_of s r <> AlgM | _ => True end
  | PMap2 _ a b => element_wise s a /\ element_wise s b
  end.
(** an expression assigned to [x] reads, of the elements of [x], at most element [idx] to compute element [idx] *)
Definition no_crossed_reads (s : astate V) (x : nat) (e : pexpr V) : Prop :=
  forall y, In y (vars_of e) -> av_arr (var s y) = av_arr (var s x) ->
    forall i j, in_range i (av_shape (var s y)) -> in_range j (av_shape (var s x)) -> av_at (var s y) i = av_at (var s x) j -> i = j.
Definition possible_shape (shape : list Z) : Prop := Forall (fun l => 0 <= l) shape /\ (0 < length shape < 16)%nat.

(** a view that is a factor of a product: neighbours are adjacent in the dimension stored fastest, and nothing is in reverse order; the library
    passes the gap between rows or columns as int.  See C43 for what happens otherwise. *)
Definition adjacent (s : astate V) (e : pexpr V) : Prop :=
  match e with
  | PVar x => nthZ (av_gap (var s x)) (nth 1 (av_order (var s x)) 0%nat) = 1 /\ Forall (fun g => 0 < g /\ int_range g) (av_gap (var s x))
  | _ => True
  end.

Definition legal (s : astate V) (st : pstmt V) : Prop :=
  match st with
  | PNew _ so shape _ => possible_shape shape /\ is_order (length shape) so
  | PCopy _ so e => well_shaped s e (shape_of s e) /\ element_wise s e /\ is_order (length (shape_of s e)) so
  | PDestroy k => exists a, nth_error (as_arr s) k = Some a /\ aa_alive a = true
  | PSlice x args => (x < length (as_var s))%nat /\ let n := length (av_shape (var s x)) in
      args_ok n args /\ steps_nonzero args /\ args_in_bounds (expand_args n args) (av_shape (var s x)) /\ some_dim_left n args
  | PPermute x p => (x < length (as_var s))%nat /\ is_order (length (av_shape (var s x))) p
  | PReshape x shape => (x < length (as_var s))%nat /\ possible_shape shape /\ prodZ shape = prodZ (av_shape (var s x)) /\ av_whole (var s x) = true /\
      aa_order (nth (av_arr (var s x)) (as_arr s) (no_arr (v_zero A))) = seq 0 (length (av_shape (var s x)))
  | PWrite x idx _ => live s x /\ in_range idx (av_shape (var s x))
  | PFill x _ => live s x /\ av_forward (var s x) = true /\ Forall (fun l => 1 <= l) (av_shape (var s x)) /\
      (av_alg (var s x) = AlgM -> length (av_shape (var s x)) = 2%nat)
  | PAssign x e => live s x /\ well_shaped s e (av_shape (var s x)) /\ element_wise s e /\ no_crossed_reads s x e
  | PCompound op x e => live s x /\ well_shaped s e (av_shape (var s x)) /\ element_wise s (PBin op (PVar x) e) /\ no_crossed_reads s x e
  | PRebind x y | PSwap x y => (x < length (as_var s))%nat /\ (y < length (as_var s))%nat /\ x <> y /\ length (av_shape (var s x)) = length (av_shape (var s y))
  | PDeepSwap x y => live s x /\ live s y /\ av_shape (var s y) = av_shape (var s x) /\
      (av_arr (var s x) = av_arr (var s y) -> forall i j, in_range i (av_shape (var s x)) -> in_range j (av_shape (var s y)) -> av_at (var s x) i <> av_at (var s y) j)
  | PReassign fresh k x e => live s x /\ av_arr (var s x) = k /\ av_whole (var s x) = true /\ well_shaped s e (shape_of s e) /\ element_wise s e /\
      length (shape_of s e) = length (av_shape (var s x)) /\ (fresh = false -> forall y, In y (vars_of e) -> av_arr (var s y) <> k)
  (* products are only used with elements that are a ring; the library passes extents as int *)
  | PMatmul e f => is_ring A /\ algebra_of s e = AlgM /\ algebra_of s f = AlgM /\ element_wise s e /\ element_wise s f /\ adjacent s e /\ adjacent s f /\
      exists n k p, well_shaped s e [n; k] /\ well_shaped s f [k; p] /\ 1 <= n /\ 1 <= k /\ 1 <= p /\ int_range n /\ int_range k /\ int_range p
  | PMatvec e f => is_ring A /\ algebra_of s e = AlgM /\ algebra_of s f = AlgV /\ element_wise s e /\ element_wise s f /\ adjacent s e /\
      exists n k, well_shaped s e [n; k] /\ well_shaped s f [k] /\ 1 <= n /\ 1 <= k /\ int_range n /\ int_range k
  end.
Fixpoint legal_run (s : astate V) (p : list (pstmt V)) : Prop := match p with [] => True | st :: p' => legal s st /\ legal_run (astep s st) p' end.

(** ** memory *)
(** the cells of an array object *)
Definition in_block (b : cblock) (a : Z) : Prop := cb_base b <= a < cb_base b + prodZ (M_IdxMap.im_len (cb_lay b)).
(** an allocator never returns memory of an array that still exists; it may return memory of a destroyed one *)
Definition sound_allocator (alloc : cworld V -> Z -> Z) : Prop :=
  forall w n b a, In b (cw_blocks w) -> cb_alive b = true -> in_block b a -> ~ alloc w n <= a < alloc w n + n.
End meaning.
