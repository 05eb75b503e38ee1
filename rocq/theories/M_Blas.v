(** Model of c++/nda/blas (tools, gemm, gemv, ger, dot, scal, gemm_batch) and of c++/nda/linalg/{matmul,dot,cross_product}.hpp.
    Element types are any [arith] with a conjugation [cj]; exact arithmetic.  Host memory only: the device branches are not
    modelled. *)
From Verif Require Import Base M_Perm M_IdxMap M_Slice M_Loops M_Assign M_Expr M_Transform.

(** the outcome of a call: a new memory, the end of the program (a failed EXPECTS or an illegal BLAS argument), or a
    program that does not compile (failed static_assert) *)
Inductive bout (T : Type) := BRet (x : T) | BStop | BCompile.
Arguments BRet {T} x. Arguments BStop {T}. Arguments BCompile {T}.
Definition bbind {T U} (o : bout T) (k : T -> bout U) : bout U := match o with BRet x => k x | BStop => BStop | BCompile => BCompile end.
(** macros.hpp:36-70 EXPECTS; [checks]: NDEBUG is not defined. *)
Definition expects {T} (checks cond : bool) (k : bout T) : bout T := if checks && negb cond then BStop else k.

Section Blas.
Context {V : Type} (A : arith V) (cj : V -> V).
Notation "x + y" := (v_add A x y) : blas_scope. Notation "x * y" := (v_mul A x y) : blas_scope.
Delimit Scope blas_scope with v.
Implicit Types (m : mem V).

(** ** the BLAS library (reference implementation, level 1-3 routines of double and complex).  Exact arithmetic, so that
    the shortcuts for alpha = 0 and beta = 0 or 1 give the same values and are left out; the shortcuts for empty
    dimensions are kept.  An illegal argument ends the program (xerbla). *)
Inductive op := OpN | OpT | OpC.
Definition col_major (p ld i j : Z) : Z := p + i + j * ld.
Definition op_at m (o : op) (p ld i j : Z) : V :=
  match o with OpN => m (col_major p ld i j) | OpT => m (col_major p ld j i) | OpC => cj (m (col_major p ld j i)) end.
(** for (i = 0; i < n; ++i) acc += f(i) *)
Definition acc_loop (n : Z) (f : Z -> V) (acc : V) : V := fold_left (fun s i => (s + f i)%v) (zseq n) acc.
(** dgemm.f, zgemm.f: C := alpha*op(A)*op(B) + beta*C. *)
Definition f77_gemm (oa ob : op) (M N K : Z) (alpha : V) (pa lda pb ldb : Z) (beta : V) (pc ldc : Z) m : bout (mem V) :=
  let nrowa := match oa with OpN => M | _ => K end in
  let nrowb := match ob with OpN => K | _ => N end in
  if (M <? 0) || (N <? 0) || (K <? 0) || (lda <? Z.max 1 nrowa) || (ldb <? Z.max 1 nrowb) || (ldc <? Z.max 1 M) then BStop else
  if (M =? 0) || (N =? 0) then BRet m else
  BRet (fold_left (fun m j => fold_left (fun m i =>
          mset m (col_major pc ldc i j)
               (alpha * acc_loop K (fun l => op_at m oa pa lda i l * op_at m ob pb ldb l j) (v_zero A) + beta * m (col_major pc ldc i j))%v)
        (zseq M) m) (zseq N) m).
(** the first element of a vector of [n] elements with increment [inc] *)
Definition f77_start (n inc : Z) : Z := if 0 <? inc then 0 else (1 - n) * inc.
Definition f77_elem (p n inc i : Z) : Z := p + f77_start n inc + i * inc.
(** dgemv.f, zgemv.f: y := alpha*op(A)*x + beta*y.  Note the return for M = 0 or N = 0, which leaves y as it is. *)
Definition f77_gemv (o : op) (M N : Z) (alpha : V) (pa lda px incx : Z) (beta : V) (py incy : Z) m : bout (mem V) :=
  if (M <? 0) || (N <? 0) || (lda <? Z.max 1 M) || (incx =? 0) || (incy =? 0) then BStop else
  if (M =? 0) || (N =? 0) then BRet m else
  let lenx := match o with OpN => N | _ => M end in
  let leny := match o with OpN => M | _ => N end in
  BRet (fold_left (fun m i =>
          mset m (f77_elem py leny incy i)
               (alpha * acc_loop lenx (fun j => op_at m o pa lda i j * m (f77_elem px lenx incx j)) (v_zero A) + beta * m (f77_elem py leny incy i))%v)
        (zseq leny) m).
(** dger.f, zgeru.f: A := alpha*x*y**T + A. *)
Definition f77_ger (M N : Z) (alpha : V) (px incx py incy pa lda : Z) m : bout (mem V) :=
  if (M <? 0) || (N <? 0) || (incx =? 0) || (incy =? 0) || (lda <? Z.max 1 M) then BStop else
  if (M =? 0) || (N =? 0) then BRet m else
  BRet (fold_left (fun m j => fold_left (fun m i =>
          mset m (col_major pa lda i j) (m (col_major pa lda i j) + m (f77_elem px M incx i) * (alpha * m (f77_elem py N incy j)))%v)
        (zseq M) m) (zseq N) m).
(** ddot.f, zdotu.f and zdotc.f (the first factor conjugated). *)
Definition f77_dot (star : bool) (n px incx py incy : Z) m : V :=
  if n <=? 0 then v_zero A else
  acc_loop n (fun i => ((if star then cj (m (f77_elem px n incx i)) else m (f77_elem px n incx i)) * m (f77_elem py n incy i))%v) (v_zero A).
(** dscal.f, zscal.f: nothing is done for an increment that is not positive. *)
Definition f77_scal (n : Z) (alpha : V) (px incx : Z) m : mem V :=
  if (n <=? 0) || (incx <=? 0) then m else fold_left (fun m i => mset m (px + i * incx) (alpha * m (px + i * incx)%Z)%v) (zseq n) m.

(** ** blas/tools.hpp *)
(** a matrix argument: a matrix in memory or (tools.hpp:31-38 [is_conj_array_expr]) conj(matrix in memory) *)
Record mat := Mat { m_conj : bool; m_view : view }.
(** tools.hpp:42-58 [has_F_layout], [has_C_layout]: the static stride order. *)
Definition has_F_layout (v : view) : bool := is_stride_order_Fortran (v_lay v).
Definition has_C_layout (v : view) : bool := is_stride_order_C (v_lay v).
(** tools.hpp:61-70 [get_op]; None is the static_assert. *)
Definition get_op (conj transpose : bool) : option op :=
  if conj && negb transpose then None else
  Some (if conj && transpose then OpC else if transpose then OpT else OpN).
(** tools.hpp:73-82 [get_ld], [get_ncols]: conversion of long to int. *)
Definition get_ld (a : view) : Z := int32 (nthZ (im_str (v_lay a)) (if has_F_layout a then 1 else 0)).
Definition get_ncols (a : view) : Z := int32 (nthZ (im_len (v_lay a)) (if has_F_layout a then 1 else 0)).
Definition extent (a : view) (i : nat) : Z := nthZ (im_len (v_lay a)) i.
Definition stride (a : view) (i : nat) : Z := nthZ (im_str (v_lay a)) i.
(** layout_transforms.hpp:89-98 [transpose] of a matrix and of conj(matrix) *)
Definition transpose_mat (x : mat) : mat := Mat (m_conj x) (snd (transpose_view AlgM (m_view x))).

(** ** blas/gemm.hpp *)
(** gemm.hpp:81-87: the EXPECTS *)
Definition gemm_checks (a b c : view) : bool :=
  (extent a 1 =? extent b 0) && (extent a 0 =? extent c 0) && (extent b 1 =? extent c 1) &&
  (min_stride (v_lay a) =? 1) && (min_stride (v_lay b) =? 1) && (min_stride (v_lay c) =? 1).
(** gemm.hpp:92-107: the call of the library when c is in Fortran order; the dimensions are converted to int
    (interface/cxx_interface.cpp:84-91). *)
Definition gemm_fortran (alpha : V) (x y : mat) (beta : V) (c : view) m : bout (mem V) :=
  let a := m_view x in let b := m_view y in
  match get_op (m_conj x) (has_C_layout a), get_op (m_conj y) (has_C_layout b) with
  | Some oa, Some ob =>
      f77_gemm oa ob (int32 (extent a 0)) (int32 (extent b 1)) (int32 (extent a 1)) alpha (v_base a) (get_ld a) (v_base b) (get_ld b) beta (v_base c) (get_ld c) m
  | _, _ => BCompile
  end.
(** gemm.hpp:60-110 [gemm].  The recursive call is with the transposed of a matrix in C order, that is with one in Fortran order. *)
Definition gemm (checks : bool) (alpha : V) (x y : mat) (beta : V) (c : view) m : bout (mem V) :=
  expects checks (gemm_checks (m_view x) (m_view y) c) (
  if has_C_layout c then
    let x' := transpose_mat y in let y' := transpose_mat x in let c' := snd (transpose_view AlgM c) in
    expects checks (gemm_checks (m_view x') (m_view y') c') (gemm_fortran alpha x' y' beta c' m)
  else gemm_fortran alpha x y beta c m).
(** gemm.hpp:35-50 [gemm_generic]; [a], [b] are any expressions, given by their shape and elements; [c() = 0] takes fuel
    (see M_Assign.v). *)
Definition gemm_generic (checks : bool) (fuel : nat) (alpha : V) (sa : list Z) (a : mem V -> Z -> Z -> V) (sb : list Z) (b : mem V -> Z -> Z -> V)
  (beta : V) (matrix : bool) (c : view) m : bout (mem V) :=
  expects checks ((nthZ sa 1 =? nthZ sb 0) && (nthZ sa 0 =? extent c 0) && (nthZ sb 1 =? extent c 1)) (
  match assign_from_scalar fuel matrix (v_zero A) c (v_zero A) m with
  | None => BStop
  | Some m =>
      BRet (fold_left (fun m i => fold_left (fun m j =>
              let acc := acc_loop (nthZ sa 1) (fun k => (alpha * a m i k * b m k j)%v) (v_zero A) in
              mset m (elem c [i; j]) (acc + beta * m (elem c [i; j]))%v)
            (zseq (nthZ sb 1)) m) (zseq (nthZ sa 0)) m)
  end).

(** ** blas/gemv.hpp *)
(** gemv.hpp:57-98 [gemv]. *)
Definition gemv (checks : bool) (alpha : V) (x : mat) (b : view) (beta : V) (c : view) m : bout (mem V) :=
  let a := m_view x in
  expects checks ((extent a 1 =? extent b 0) && (extent a 0 =? extent c 0) &&
                  (min_stride (v_lay a) =? 1) && (min_stride (v_lay b) =? 1) && (min_stride (v_lay c) =? 1)) (
  match get_op (m_conj x) (negb (has_F_layout a)) with
  | None => BCompile
  | Some o =>
      let '(M, N) := if has_C_layout a then (extent a 1, extent a 0) else (extent a 0, extent a 1) in
      f77_gemv o (int32 M) (int32 N) alpha (v_base a) (get_ld a) (v_base b) (int32 (stride b 0)) beta (v_base c) (int32 (stride c 0)) m
  end).
(** gemv.hpp:26-35 [gemv_generic]. *)
Definition gemv_generic (checks : bool) (fuel : nat) (alpha : V) (sa : list Z) (a : mem V -> Z -> Z -> V) (sb : list Z) (b : mem V -> Z -> V)
  (beta : V) (c : view) m : bout (mem V) :=
  expects checks ((nthZ sa 1 =? nthZ sb 0) && (nthZ sa 0 =? extent c 0)) (
  match assign_from_scalar fuel false (v_zero A) c (v_zero A) m with
  | None => BStop
  | Some m =>
      BRet (fold_left (fun m i =>
              let m := fold_left (fun m k => mset m (elem c [i]) (m (elem c [i]) + alpha * a m i k * b m k)%v) (zseq (nthZ sa 1)) m in
              mset m (elem c [i]) (m (elem c [i]) + beta * m (elem c [i]))%v)
            (zseq (nthZ sa 0)) m)
  end).

(** ** blas/ger.hpp *)
(** ger.hpp:40-64 [ger]; the recursion is as in [gemm]. *)
Definition ger_fortran (alpha : V) (x y mv : view) m : bout (mem V) :=
  f77_ger (int32 (extent mv 0)) (int32 (extent mv 1)) alpha (v_base x) (int32 (stride x 0)) (v_base y) (int32 (stride y 0)) (v_base mv) (get_ld mv) m.
Definition ger_checks (x y mv : view) : bool := (extent mv 0 =? extent x 0) && (extent mv 1 =? extent y 0) && (min_stride (v_lay mv) =? 1).
Definition ger (checks : bool) (alpha : V) (x y mv : view) m : bout (mem V) :=
  expects checks (ger_checks x y mv) (
  if has_C_layout mv then
    let mt := snd (transpose_view AlgM mv) in expects checks (ger_checks y x mt) (ger_fortran alpha y x mt m)
  else ger_fortran alpha x y mv m).
(** ger.hpp:81-97 [outer_product] of two arrays; [pa], [pb] are the layout policies of the arguments; the result is an array in C order
    at [base].  None is an exception (or a failed EXPECTS). *)
Definition outer_product (checks : bool) (base : Z) (pa pb : policy) (a b : view) m : bout (view * mem V) :=
  if negb (is_contiguous (v_lay a)) then BStop else
  if negb (is_contiguous (v_lay b)) then BStop else
  let '(res, m) := zeros (v_zero A) (identity (length (im_len (v_lay a) ++ im_len (v_lay b)))) base (im_len (v_lay a) ++ im_len (v_lay b)) m in
  let sa := size (v_lay a) in let sb := size (v_lay b) in
  match reshape checks pa AlgA [0] a [sa], reshape checks pb AlgA [0] b [sb], reshape checks PolC AlgA [0; 0] res [sa; sb] with
  | Some (_, a_vec), Some (_, b_vec), Some (_, mt) => bbind (ger checks (v_one A) a_vec b_vec mt m) (fun m => BRet (res, m))
  | _, _, _ => BStop
  end.

(** ** blas/dot.hpp *)
(** dot.hpp:26-77 [dot] and [dotc] of vectors in memory; for real types dotc is dot and conjugation does nothing. *)
Definition blas_dot (checks : bool) (star : bool) (x y : view) m : bout V :=
  expects checks (shape_eqb (im_len (v_lay x)) (im_len (v_lay y))) (
  BRet (f77_dot star (int32 (size (v_lay x))) (v_base x) (int32 (stride x 0)) (v_base y) (int32 (stride y 0)) m)).
(** dot.hpp:81-110 [_dot_impl]: [n] is the length of x; [x], [y]: their elements by position.  The three branches (pointers, linear
    index, call) all read element i of each; see C13 for the linear index. *)
Definition dot_impl (star : bool) (n : Z) (x y : Z -> V) : V :=
  let c z := if star then cj z else z in
  fold_left (fun res i => (res + c (x i) * y i)%v) (map (fun i => (i + 1)%Z) (zseq (n - 1))) (c (x 0) * y 0)%v.
(** blas/scal.hpp:26-40 [scal]. *)
Definition scal (alpha : V) (x : view) m : mem V := f77_scal (int32 (size (v_lay x))) alpha (v_base x) (int32 (stride x 0)) m.

(** ** linalg/matmul.hpp *)
(** operands: a matrix in memory of the element type of the result ([regular]: an array, not a view), its conjugate, or any other
    expression, given by the stride order get_layout_info says (arithmetic.hpp:50-51, 71-75, 170-172; a list that is no order if
    there is none), shape and elements *)
Inductive operand := OMat (regular : bool) (v : view) | OConj (v : view) | OOther (so : list nat) (shape : list Z) (f : mem V -> list Z -> V).
(** the stride order of get_layout_info (declarations.hpp:146-155); mapped functions as conj have the default, traits.hpp:188-191,
    202-205, which is the order of no matrix *)
Definition operand_info (x : operand) : list nat := match x with OMat _ v => im_so (v_lay v) | OConj _ => [] | OOther so _ _ => so end.
(** matmul.hpp:40-41 [get_layout_policy]: stride order and static extents of make_regular(x) (basic_functions.hpp:144-155,
    basic_array.hpp:423-428): arrays stay as they are, copies of views keep the stride order, expressions are stored in C order. *)
Definition regular_policy (x : operand) : list nat * list Z :=
  match x with OMat reg v => (im_so (v_lay v), if reg then im_se (v_lay v) else [0; 0]) | _ => ([0; 1]%nat, [0; 0]) end.
Definition operand_shape (x : operand) : list Z := match x with OMat _ v | OConj v => im_len (v_lay v) | OOther _ s _ => s end.
(** matmul.hpp:68-73, 121-126 [as_container]: other expressions are copied into an array of stride order [so] and static extents
    [se] at [base].  Simplification: static extents are only used for the check in the constructor of the layout
    (idx_map.hpp:245-255, 292-297), the new layouts do not record them. *)
Definition as_container (checks : bool) (so : list nat) (se : list Z) (base : Z) (x : operand) m : bout (mat * bool * mem V) :=
  match x with
  | OMat reg v => BRet (Mat false v, reg, m)
  | OConj v => BRet (Mat true v, false, m)
  | OOther _ s f => expects checks (static_extents_ok se s) (
                    match array_of_ndarray checks true so base s (RExpr f) m with (a, Some m) => BRet (Mat false a, true, m) | _ => BStop end)
  end.
(** basic_functions.hpp:144-155 [make_regular] and basic_array.hpp:423-428: a view is copied into a new array of the same stride
    order at [base], a conjugated matrix into one in C order. *)
Definition make_regular (checks : bool) (base : Z) (x : mat) (reg : bool) m : bout (mat * mem V) :=
  if reg then BRet (x, m) else
  let v := m_view x in
  let r := if m_conj x then RExpr (fun m idx => cj (m (elem v idx))) else RMem v in
  let so := if m_conj x then [0; 1]%nat else im_so (v_lay v) in
  match array_of_ndarray checks true so base (im_len (v_lay v)) r m with (a, Some m) => BRet (Mat false a, m) | _ => BStop end.
(** matmul.hpp:26-38 [is_valid_gemm_triple]. *)
Definition is_valid_gemm_triple (x y : mat) (c : view) : bool :=
  if has_F_layout c then negb (m_conj x && has_F_layout (m_view x)) && negb (m_conj y && has_F_layout (m_view y))
  else negb (m_conj y && negb (has_F_layout (m_view y))) && negb (m_conj x && negb (has_F_layout (m_view x))).
(** matmul.hpp:60-63: stride order and static extents of the type of the result *)
Definition result_policy (l r : operand) : list nat * list Z :=
  if list_eq_dec Nat.eq_dec (operand_info l) (operand_info r) then regular_policy l else ([0; 1]%nat, [0; 0]).
(** matmul.hpp:51-96 [matmul], for double and complex elements; the new arrays are at [b1] (result), [b2], [b3] (containers), [b4], [b5]
    (regular copies). *)
Definition matmul (checks : bool) (b1 b2 b3 b4 b5 : Z) (l r : operand) m : bout (view * mem V) :=
  expects checks (nthZ (operand_shape l) 1 =? nthZ (operand_shape r) 0) (
  let '(so, se) := result_policy l r in
  expects checks (static_extents_ok se [nthZ (operand_shape l) 0; nthZ (operand_shape r) 1]) (
  let result := new_array so b1 [nthZ (operand_shape l) 0; nthZ (operand_shape r) 1] in
  bbind (as_container checks so se b2 l m) (fun '(x, xr, m) =>
  bbind (as_container checks so se b3 r m) (fun '(y, yr, m) =>
  if is_valid_gemm_triple x y result then
    bbind (gemm checks (v_one A) x y (v_zero A) result m) (fun m => BRet (result, m))
  else
    bbind (make_regular checks b4 x xr m) (fun '(x, m) => bbind (make_regular checks b5 y yr m) (fun '(y, m) =>
    bbind (gemm checks (v_one A) x y (v_zero A) result m) (fun m => BRet (result, m)))))))).
(** ... and for other element types (matmul.hpp:92-94), where the operands are used as they are *)
Definition matmul_generic (checks : bool) (fuel : nat) (b1 : Z) (so : list nat) (se : list Z) (sl : list Z) (l : mem V -> Z -> Z -> V) (sr : list Z) (r : mem V -> Z -> Z -> V) m : bout (view * mem V) :=
  expects checks (nthZ sl 1 =? nthZ sr 0) (
  expects checks (static_extents_ok se [nthZ sl 0; nthZ sr 1]) (
  let result := new_array so b1 [nthZ sl 0; nthZ sr 1] in
  bbind (gemm_generic checks fuel (v_one A) sl l sr r (v_zero A) true result m) (fun m => BRet (result, m)))).
(** matmul.hpp:107-149 [matvecmul], for double and complex elements; the vector is copied into a new array at [b3] in any
    case (a vector is not a MemoryMatrix), the result is a new array at [b1]. *)
Definition matvecmul (checks : bool) (b1 b2 b3 b4 : Z) (l : operand) (sr : list Z) (r : mem V -> list Z -> V) m : bout (view * mem V) :=
  expects checks (nthZ (operand_shape l) 1 =? nthZ sr 0) (
  let result := c_array b1 [nthZ (operand_shape l) 0] in
  bbind (as_container checks [0; 1]%nat [0; 0] b2 l m) (fun '(x, xr, m) =>
  match array_of_ndarray checks true [0%nat] b3 sr (RExpr r) m with
  | (y, Some m) =>
      bbind (if m_conj x && has_F_layout (m_view x) then make_regular checks b4 x xr m else BRet (x, m)) (fun '(x, m) =>
      bbind (gemv checks (v_one A) x y (v_zero A) result m) (fun m => BRet (result, m)))
  | _ => BStop
  end)).

(** ** blas/gemm_batch.hpp *)
(** interface/cxx_interface.cpp:93-144: the loops used without MKL; [l] has the pointers of the batch.  The products i * strideA are of two
    ints; their overflow, undefined in C++, is modelled as wrapping. *)
Definition f77_gemm_batch (oa ob : op) (M N K : Z) (alpha : V) (lda ldb : Z) (beta : V) (ldc : Z) (l : list (Z * Z * Z)) m : bout (mem V) :=
  fold_left (fun st '(pa, pb, pc) => bbind st (fun m => f77_gemm oa ob M N K alpha pa lda pb ldb beta pc ldc m)) l (BRet m).
Definition f77_gemm_vbatch (oa ob : op) (alpha beta : V) (l : list (Z * Z * Z * (Z * Z) * (Z * Z) * (Z * Z))) m : bout (mem V) :=
  fold_left (fun st '(M, N, K, (pa, lda), (pb, ldb), (pc, ldc)) => bbind st (fun m => f77_gemm oa ob M N K alpha pa lda pb ldb beta pc ldc m)) l (BRet m).
Definition f77_gemm_batch_strided (oa ob : op) (M N K : Z) (alpha : V) (pa lda sa pb ldb sb : Z) (beta : V) (pc ldc sc count : Z) m : bout (mem V) :=
  fold_left (fun st i => bbind st (fun m => f77_gemm oa ob M N K alpha (pa + int32 (i * sa)) lda (pb + int32 (i * sb)) ldb beta (pc + int32 (i * sc)) ldc m)) (zseq count) (BRet m).
(** gemm_batch.hpp:81-91 [get_ptrs]: the EXPECTS on the matrices of a batch ([v0]: the first) *)
Definition batch_checks (vbatch : bool) (l : list view) (v0 : view) : bool :=
  forallb (fun z => (vbatch || shape_eqb (im_len (v_lay z)) (im_len (v_lay v0))) && (min_stride (v_lay z) =? 1)) l.
(** gemm_batch.hpp:76-157, c in Fortran order.  A batch is a list of triples, all of the types of its first member (so with the same
    conjugation and stride orders). *)
Definition gemm_batch_fortran (checks vbatch : bool) (alpha beta : V) (l : list (mat * mat * view)) m : bout (mem V) :=
  match l with
  | [] => BRet m
  | (x0, y0, c0) :: _ =>
      let a0 := m_view x0 in let b0 := m_view y0 in
      expects checks (batch_checks vbatch (map (fun '(x, _, _) => m_view x) l) a0 && batch_checks vbatch (map (fun '(_, y, _) => m_view y) l) b0 &&
                      batch_checks vbatch (map (fun '(_, _, c) => c) l) c0) (
      match get_op (m_conj x0) (has_C_layout a0), get_op (m_conj y0) (has_C_layout b0) with
      | Some oa, Some ob =>
          if vbatch then
            expects checks (forallb (fun '(x, y, c) => (extent (m_view x) 1 =? extent (m_view y) 0) && (extent (m_view x) 0 =? extent c 0) && (extent (m_view y) 1 =? extent c 1)) l) (
            f77_gemm_vbatch oa ob alpha beta
              (map (fun '(x, y, c) => let a := m_view x in let b := m_view y in
                      (int32 (extent a 0), int32 (extent b 1), int32 (extent a 1), (v_base a, get_ld a), (v_base b, get_ld b), (v_base c, get_ld c))) l) m)
          else
            expects checks ((extent a0 1 =? extent b0 0) && (extent a0 0 =? extent c0 0) && (extent b0 1 =? extent c0 1)) (
            f77_gemm_batch oa ob (int32 (extent a0 0)) (int32 (extent b0 1)) (int32 (extent a0 1)) alpha (get_ld a0) (get_ld b0) beta (get_ld c0)
              (map (fun '(x, y, c) => (v_base (m_view x), v_base (m_view y), v_base c)) l) m)
      | _, _ => BCompile
      end)
  end.
(** gemm_batch.hpp:43-158 [gemm_batch] (the EXPECTS on equal lengths is left out: the batch is a list of triples). *)
Definition gemm_batch (checks vbatch : bool) (alpha beta : V) (l : list (mat * mat * view)) m : bout (mem V) :=
  match l with
  | [] => BRet m
  | (_, _, c0) :: _ =>
      if has_C_layout c0 then
        gemm_batch_fortran checks vbatch alpha beta (map (fun '(x, y, c) => (transpose_mat y, transpose_mat x, snd (transpose_view AlgM c))) l) m
      else gemm_batch_fortran checks vbatch alpha beta l m
  end.
(** gemm_batch.hpp:175-233 [gemm_batch_strided].  The copies made by [auto a = to_arr(x)] of arrays have the same content and are not
    modelled.  [first a]: the slice a(0, _, _). *)
Definition slice_first (a : view) : option view := match slice_view AlgA a [ALong 0; AAll; AAll] with Some (_, s) => Some s | None => None end.
Definition strided_fortran (alpha : V) (x y : mat) (a0 b0 : view) (beta : V) (c c0 : view) m : bout (mem V) :=
  let a := m_view x in let b := m_view y in
  match get_op (m_conj x) (has_C_layout a), get_op (m_conj y) (has_C_layout b) with
  | Some oa, Some ob =>
      f77_gemm_batch_strided oa ob (int32 (extent a0 0)) (int32 (extent b0 1)) (int32 (extent a0 1)) alpha (v_base a) (get_ld a0) (int32 (stride a 0))
        (v_base b) (get_ld b0) (int32 (stride b 0)) beta (v_base c) (get_ld c0) (int32 (stride c 0)) (int32 (extent a 0)) m
  | _, _ => BCompile
  end.
Definition strided_checks (a b a0 b0 c c0 : view) : bool :=
  (extent a 0 =? extent b 0) && (extent b 0 =? extent c 0) && (extent a0 1 =? extent b0 0) && (extent a0 0 =? extent c0 0) && (extent b0 1 =? extent c0 1) &&
  (min_stride (v_lay a) =? 1) && (min_stride (v_lay b) =? 1) && (min_stride (v_lay c) =? 1).
Definition gemm_batch_strided (checks : bool) (alpha : V) (x y : mat) (beta : V) (c : view) m : bout (mem V) :=
  let body x y c (k : view -> view -> view -> bout (mem V)) :=
    match slice_first (m_view x), slice_first (m_view y), slice_first c with
    | Some a0, Some b0, Some c0 => expects checks (strided_checks (m_view x) (m_view y) a0 b0 c c0) (k a0 b0 c0)
    | _, _, _ => BStop
    end in
  body x y c (fun a0 b0 c0 =>
  if has_C_layout c then
    let tr z := Mat (m_conj z) (snd (transposed_view 1 2 AlgA (m_view z))) in
    let ct := snd (transposed_view 1 2 AlgA c) in
    body (tr y) (tr x) ct (fun a0 b0 c0 => strided_fortran alpha (tr y) (tr x) a0 b0 beta ct c0 m)
  else strided_fortran alpha x y a0 b0 beta c c0 m).

(** ** linalg/cross_product.hpp:21-33 [cross_product]: elements of the result, into a new array at [base]; [a], [b]: elements of the
    arguments. *)
Definition cross_product (checks : bool) (base : Z) (sa : list Z) (a : Z -> V) (sb : list Z) (b : Z -> V) m : bout (view * mem V) :=
  expects checks ((nthZ sa 0 =? 3) && (nthZ sb 0 =? 3)) (
  let r := c_array base [3] in
  let m := mset m (elem r [0]) (v_sub A (a 1 * b 2) (b 1 * a 2))%v in
  let m := mset m (elem r [1]) (v_opp A (a 0) * b 2 + b 0 * a 2)%v in
  let m := mset m (elem r [2]) (v_sub A (a 0 * b 1) (b 0 * a 1))%v in
  BRet (r, m)).
End Blas.
Arguments Mat : clear implicits.
