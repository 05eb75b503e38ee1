# Formal model of TRIQS/nda in Rocq

## 1. Shape of the development

Everything lives in `rocq/theories` (logical name `Verif`). The files come in layers:

| kind | files | content |
|---|---|---|
| library | `Base.v` | list and Z lemmas that mention nothing from nda |
| model | `M_*.v` | definitions only, each citing the `/repo` lines it models and saying where it simplifies; no proofs |
| specification | `S_*.v` | what the properties mean, written without using the model's helpers |
| proofs | `L_*.v` | lemmas |
| properties | `P_*.v` | one `Theorem` per (part of a) property, `Print Assumptions` below it, and `Example`s showing that the hypotheses are met by concrete non-trivial cases |

Theorem `Cnn_xxx` belongs to property `Cnn` in `properties.jsonl`. Suffix `_partial`: only part of the
property. Suffix `_refuted`: the code violates (a case of) the property and the theorem exhibits the witness; the
statement of the property in `properties.jsonl` then names the exception. `seeded/LOG.jsonl` records the wrong programs
the theorems were tried against.

## 2. Modelling conventions

* Extents, strides, offsets, linear positions are `Z` (C++ `long`); the model does not wrap at 2^63. Where the code
  passes through a 32-bit `int` (BLAS, LAPACK and MPI arguments, `encode`) the conversion is modelled.
* An index tuple, a shape, a stride tuple are `list Z`; rank is the list length. Permutations are `list nat`.
* Compile-time data (stride order, static extents, layout property, placeholder numbers, algebra) are ordinary data of
  the model, so that theorems range over every instantiation; where the code does not compile the model has an outcome for it.
* Memory is a function from addresses to values (for element-level properties), with one address per element, or an
  explicit finite heap of blocks with allocation state and object lifetimes (for handle, array and allocator properties).
  Reads of unallocated, freed or out-of-block memory, division by zero, indexing past an array and other undefined
  behaviour are distinct outcomes of the model.
* `EXPECTS`, `NDA_ASSERT` and bound checks are modelled with a flag for debug and release builds.
* Element types are any type with the operations the code uses (`arith`); theorems state which laws they need (ring,
  field). Rounding is not modelled: statements about numbers hold in exact arithmetic.
* C++ loops become structural recursion on lists or `seq`, or fuelled recursion with a distinct out-of-fuel outcome.
* A new array is given the address of its storage as a parameter; that new storage is apart from what is in use is a
  hypothesis (`new_blocks`), provided by the allocator (C32).

## 3. Plan per property

For each property: what is modelled, how it is proved. The theorems and their status are in `MANIFEST.json`.

| property | what is modelled | how it is proved | theorems in |
|---|---|---|---|
| C01 Fresh arrays address their memory bijectively | `compute_strides_contiguous`, constructor from shape, `operator()` | strides as suffix products along the stride order; mixed-radix bijection by induction over the stride order | `P_Layout.v` |
| C02 Linear position and index tuple conversions are mutually inverse | `to_idx` | mixed-radix division, same induction | `P_Layout.v` |
| C03 Element access computes the index/stride scalar product for every call form | `myget`, `call_impl`, ellipsis and trailing `_` | fold equality by induction on the argument list | `P_Layout.v` |
| C04 Permutation algebra | `permutation.hpp` | list and permutation lemmas; two corner cases refuted | `P_Perm.v` |
| C05 Stride orders and static extents survive integer encoding | `encode`/`decode` with 32-bit int shift | bit-field arithmetic; refuted from rank 9 on | `P_Perm.v` |
| C06 Index permutation views | `idx_map::transpose`, `layout_transforms.hpp` | offset invariance under reindexing of sums | `P_Layout.v`, `P_Transform.v` |
| C07 Slicing selects the elements the arguments denote | `slice_static.hpp` with all argument kinds | offset equality by induction over the argument list | `P_Slice.v` |
| C08 Slices of slices compose | chains of slices | composition by induction over the chain | `P_Slice.v` |
| C09 Slices stay inside the parent's memory | `bound_check_worker.hpp`, slices | per-argument analysis; refuted for `range(a,-1)` | `P_Slice.v` |
| C10 Declared stride order of a slice is truthful | sliced stride order | invariant of layouts closed under slicing | `P_Slice.v` |
| C11 Declared layout properties of a slice are truthful | sliced layout property | invariant of layouts closed under slicing | `P_Slice.v` |
| C12 Run-time contiguity queries are right | `is_contiguous`, `is_strided_1d` | characterisation under the chain condition; refuted outside | `P_Slice.v` |
| C13 Bound-checked element access accepts exactly the in-range tuples | `operator()` with bound checks | equivalence by induction on the argument list | `P_Slice.v` |
| C14 for_each enumerates every index tuple once, in order | `for_each.hpp` | the list of visited tuples equals the lexicographic enumeration, for any loop body | `P_Loops.v` |
| C15 Iterating over an array visits each element exactly once | `iterators.hpp` as state machines | invariant of the odometer state; refuted for zero inner extents | `P_Loops.v` |
| C16 Assignment copies every element and nothing else | memory as a function of addresses, the assignment loops | fold of updates, with frame | `P_Assign.v` |
| C17 Fast assignment paths agree with element-wise assignment | the 1d and contiguous fast paths | equality with the element loop through the address map | `P_Assign.v` |
| C18 Block copy path agrees with element-wise assignment | `get_block_layout`, `memcpy2D` | arithmetic of blocks; refuted cases by witness | `P_Assign.v` |
| C19 Assigning a scalar | `fill_with_scalar` | fold of updates; refuted for negative strides and empty inner extents | `P_Assign.v` |
| C20 Assignment from an expression that reads the destination | assignment of expressions | reads and writes at the same index commute; overlapping cases refuted | `P_Assign.v`, `P_Expr.v` |
| C21 Equality of arrays | `operator==` | fold over the enumeration | `P_Expr.v` |
| C22 Reductions | `fold`, `sum`, `product`, `max_element`, ... | folds over the enumeration | `P_Expr.v`, `P_Testing.v` |
| C23 Lazy arithmetic equals element-wise arithmetic | expression trees as an inductive type | structural induction | `P_Expr.v` |
| C24 Reshape and flatten keep the element sequence | `reshape`, `flatten` with layout policies | bijection of C01 | `P_Transform.v` |
| C25 Grouping indices | `group_indices.hpp` | strides of merged groups; induction over the groups | `P_Transform.v` |
| C26 Adding trailing unit dimensions | `reinterpret_add_fast_dims_of_size_one` | address map | `P_Transform.v` |
| C27 Diagonals, identity, trace, stacking | `matrix_functions.hpp`, is_matrix_square and is_matrix_diagonal of `det_and_inverse.hpp` | via C01, C06, C07, C21 | `P_Square.v`, `P_Transform.v` |
| C28 Nested initializer lists | nested list constructors, `minmax_element` of libstdc++ | induction over the nesting; refuted rectangularity check | `P_Transform.v` |
| C29 Heap handles never leak, double free or dangle | `handle_heap` over an explicit heap with object lifetimes | simulation by a machine without memory management, over all histories | `P_Handle.v` |
| C30 Small-size-optimised handles have value semantics | `handle_sso`, `handle_stack` | simulation over all histories; excluded statements refuted | `P_Sso.v` |
| C31 Shared ownership frees exactly once | `handle_shared`, `handle_borrowed`, reference counts | invariant over all histories | `P_Handle.v` |
| C32 Bucket allocators hand out disjoint blocks | `bucket`, `multi_bucket` with bit masks | invariant over all histories | `P_Alloc.v` |
| C33 Allocator combinators | `segregator`, `leak_check`, `stats`, `mallocator` | invariants over all histories | `P_Alloc.v` |
| C34 Symmetry classes partition the index set | `sym_grp` depth-first search with fuel | invariants of the visited array | `P_SymGrp.v` |
| C35 Symmetrisation | `sym_grp::init`, `symmetrize` | folds over the classes of C34 | `P_SymGrp.v` |
| C36 MPI scatter and gather | rank-indexed families of local memories; MPI collectives by contract | list concatenation lemmas | `P_Mpi.v`, `P_Mpi2.v` |
| C37 MPI reduce and broadcast | reduce with any bracketing; broadcast with resizing | associativity and commutativity over trees | `P_Mpi.v`, `P_Mpi2.v` |
| C38 HDF5 slices select the elements of the C++ slice | hyperslab computation | per-dimension arithmetic | `P_H5.v` |
| C39 Strings survive the character buffer | char buffers | induction on the list of strings | `P_H5.v` |
| C40 Lazy (placeholder) expressions evaluate by substitution | clef expression trees, evaluator, references and lifetimes | structural induction; refuted cases (capture, duplicates, temporaries) | `P_Clef.v` |
| C41 Lazy assignment fills arrays | `clef_auto_assign` for arrays and nested vectors | induction on the loop nest | `P_Clef.v` |
| C42 Lazy sums | `clef::sum` | induction on the domains | `P_Clef.v` |
| C43 Matrix products are correct for every memory layout | `gemm`, `matmul`, marshalling of arguments on top of reference BLAS | sums over a ring; address maps of both storage orders | `P_Blas.v` |
| C44 Matrix-vector products | `gemv`, `matvecmul` | as C43 | `P_Blas.v` |
| C45 Rank-one update and outer product | `ger`, `outer_product` | as C43 | `P_Blas.v` |
| C46 Dot products | `dot`, `dotc`, `dot_generic` | as C43 | `P_Blas.v`, `P_Info.v` |
| C47 Small matrix inverses | `inverse`, `inverse_in_place`, explicit formulas and getrf/getri by promise | `field`; algebra of LU factors | `P_Det.v`, `P_Lapack.v` |
| C48 Determinant from the LU factorisation | `determinant`, pivot sequence | mathcomp determinants | `P_Det.v` |
| C49 Cross product | `cross_product` | `ring` | `P_Blas.v` |
| C50 Batched products | `gemm_batch`, `gemm_batch_strided` | induction over the batch | `P_Blas.v` |
| C51 LAPACK wrappers pass the matrix that was meant | `getrf`, `getrs`, `gtsv` wrappers | what LAPACK sees through the passed description | `P_Det.v`, `P_Gelss.v`, `P_Lapack.v` |
| C52 Arrays are regular values | `basic_array` over the handles of C29 | simulation by values, over all histories | `P_Array.v` |
| C53 Swapping views | `swap`, `deep_swap` of views | two-sided fold of updates | `P_Assign.v` |
| C54 Views keep their own addressing when copied or converted | copies and conversions of views | address map | `P_Assign.v` |
| C55 arange and fixed-shape fillers | `arange`, `zeros`, `ones`, ... | direct | `P_Program.v`, `P_Transform.v` |
| C56 Arrays survive a file | `h5_read`, `h5_write` | composition of C38 with assignment | `P_H5.v` |
| C57 Scaling of vectors | `scal` | as C43 | `P_Blas.v` |
| C58 Eigenvalues and eigenvectors | `eigenvalues`, `eigenelements` | syev/heev by promise | `P_Lapack.v` |
| C59 Layouts with string labels | `rect_str.hpp` | induction over argument lists; decimal strings of numbers are injective | `P_RectStr.v` |
| C60 Division by a matrix | `operator/` of matrices | composition of C43 and C47 | `P_MatOps.v` |
| C62 Linear least squares | `gelss_worker`, `gelss_worker_hermitian`, by values | normal equations and Pythagoras from a singular value decomposition; uniqueness from full rank | `P_Gelss.v` |
| C61 Norms of vectors | `norm` over the models of dotc, sum, max_element | the elements decide; real analysis of powers and roots from the standard library | `P_Norm.v` |
| C63 Printing arrays and expressions | `operator<<` of arrays and expressions as lists of characters | the exact text by induction; a parser argument (first special character) with arbitrary suffixes, by induction on the expression | `P_Print.v` |
| C64 Arrays shared with NumPy | NumPy arrays as type, byte address, extents and byte strides; `make_numpy_proxy_from_array_or_view` and both converters; PyArray_FromAny by promise | addresses in bytes against addresses in elements, C order decided exactly by `is_stride_order_valid`, composition with C16 | `P_Numpy.v` |
| C65 Comparisons of arrays in tests | `gtest_tools.hpp`: the predicates behind the EXPECT macros, with NaN | the maximum is below p exactly if all are, by induction over the elements; exact characterisation with NaN | `P_Testing.v` |
| C66 No overflow in index arithmetic | `idx_map` and `slice_static` with checked 64-bit arithmetic | partial sums of a position are differences of positions of valid elements, so bounded by the block; products by monotonicity; invariant over all chains of views | `P_Long.v` |
| C67 Host, device and unified memory | address spaces of expressions, the branch taken by assignment, BLAS/LAPACK wrappers, products, conversions | induction over expression trees: the space bounds the leaves and is attained; case analysis over the branches | `P_Space.v` |
| C68 Short arrays of fixed length | `stdutil/array.hpp` loop by loop (uninitialised results explicit), `array_adapter` | one lemma on loops that write consecutive places; folds; reading the text back | `P_Stdutil.v` |
| C69 Programs of arrays and views mean what their indices say | whole programs: statements on a world of one memory, array blocks and views (`M_Program.cstep`) composed of the functions modelled for C09-C24; meaning by indices only (`S_Program.astep`) | simulation: one relation between the world and the index meaning (distinct elements of live arrays are distinct cells, views agree with their index maps), preserved by every statement; the program theorem by induction; independence as a corollary | `P_Program.v` |
| C70 What an expression says about its layout is true of all its arrays; linear access and regular copies of expressions | `layout_info_t`, `operator&`, `get_layout_info` of arrays and expressions, linear indices in expressions, `make_regular` | induction over expressions; the encoded stride orders are injective (C05); C55_construct for the copies | `P_Info.v` |
| C71 Exceptions thrown while elements are constructed | statements of C52 with a construction that throws (`M_Throw.a_exec_x`): which objects C++ destroys then, `noexcept` | frame lemma: no statement depends on blocks that belong to nobody; simulation of each program by one without the leaked blocks; induction over the history | `P_Throw.v` |
| C72 Arrays used by several threads | the statements of C52, and assignments of single elements and maps, as trees of single accesses to memory (`M_Threads`); a scheduler that picks any thread for each access; fork and join; the library's unprotected common state (`M_Unsafe`) | the trees run alone are the functions of M_Array; each access of a disciplined thread is to a cell it may use (L_Confine); invariant: each thread is at a point of its solo run, and every shared cell is as its owner's solo run has it (L_Sched); join: the relation of C52 with new contents | `P_Threads.v` |
| C73 Debug builds stop at calls of BLAS and LAPACK functions with unsuitable arguments, and only there | the EXPECTS of the wrappers (M_Blas, M_Lapack), as functions of a flag for debug builds | each check decides its condition; the second check after transposing the arguments follows from the first; debug and release runs then coincide | `P_Checks.v` |
| C74 lapack::gelss solves least squares problems | `lapack::gelss` (M_Lsq), the library routine by promise | extents and leading dimensions passed on are those of the matrices; normal equations and orthogonality to the null space from the truncated singular value decomposition, then Pythagoras twice | `P_Lsq.v` |
| C75 The text of a lazy expression determines the expression, up to the names of functions | operator<< of every kind of node of a lazy expression as a function to lists of characters; references print the object's current value, dangling ones are Stuck (M_ClefPrint) | the text is a code that can be cut unambiguously: by induction on the size of the written expression, text e1 ++ r1 = text e2 ++ r2 with r1, r2 starting by a delimiter implies e1 = e2 and r1 = r2 (L_ClefPrint.all_read); values through a relation from written expressions to values | `P_ClefPrint.v` |
| C76 Memory shared by C++ and Python is released exactly when its last owner is gone | handles, control blocks, capsules and NumPy arrays with reference counts; statements of C++ and Python (M_PyOwn); the ideal machine without counts is the specification (S_PyOwn) | invariant: every count is the number of references from variables and from live objects, objects refer to older ones only (L_PyOwn.Good), so release terminates; simulation of the ideal machine statement by statement (L_PyOwn2.step_rel); liveness by following referrers upwards | `P_PyOwn.v` |
| C77 Lazy expressions kept in variables | expressions as objects whose members are references, owned arrays or views; declarations, assignments and ends of scope on a memory of blocks (M_Stored); the ideal machine without memory is the specification (S_Stored) | relation between objects and trees with a ghost map from storages to blocks; owned blocks are distinct and exactly the allocated ones (L_Stored.Inv); reads, slices, copies, moves and construction respect it by induction on objects and on the order of declaration; simulation statement by statement (L_Stored3.run_rel) | `P_Stored.v` |
| C78 Arithmetic on arrays of integers | integer types with the C++ rules of promotion, conversion and overflow; elementwise expressions, fold, trace, dot and pow on them (M_Ints) | induction on expressions; induction on the list of elements with the partial results as invariant; congruences modulo 2^w for unsigned and narrow types; powers of a number that fit have smaller powers that fit | `P_Ints.v` |
| C79 The message of an error has all the pieces it was given | nda::runtime_error as a stream with a place of writing and a text in memory; the macros as programs (M_Error); objects with their texts only are the specification (S_Error) | simulation statement by statement; invariant: the place of writing is the end of the text for objects that may be added to, and the returned texts belong to one live object each (L_Error.good) | `P_Error.v` |
| C80 Rounding errors of reductions and generic products | the models of fold, trace, dot and the generic products over IEEE 754 numbers of any format (M_Float, with Flocq's binary_float); real sums and the constants of the format are the specification (S_Float) | error of one operation from Flocq; induction on the list of elements for chains of additions and of products; the loops are reduced to such chains without any law of arithmetic (L_Float2) | `P_Float.v` |
| C81 Arrays of other types to and from Python | acceptance, conversion and construction of NumPy arrays of objects for element types NumPy does not know, with the element converter and NumPy's indexing as parameters (M_PyObj) | the sum of answers is zero iff all are no (induction on the list of indices); construction of arrays from C55; loop over disjoint cells with moves; strides of new C arrays are suffix products | `P_PyObj.v` |
| C82 Numbers of different types in one expression, and functions of elements | numbers of five types with their conversions, the operators between different types, real, imag, conj, abs2, isnan and the norm of matrices of float (M_Complex, with Flocq's binary_float); pairs of real numbers are the specification (S_Complex) | conversions to the larger type are exact (formats are included in each other); errors of the operations on the parts from L_Float; signs and NaN by cases on the constructors; chains of additions as in C80 | `P_Complex.v` |
| C83 Arrays of fixed shape are regular values | types of fixed shape (encoding of the extents, size of the buffer) and programs over arrays of one such type, with debug checks as an outcome (M_Stack); one list of elements per variable is the specification (S_Stack) | relation: each variable has its own live block with its elements and the one layout the type allows; preserved by every statement (L_Stack.k_step_sim), with the loops of C15 and the buffer lemmas of C30; encoding from C05 | `P_Stack.v` |
| C84 Arrays with a small buffer are regular values | programs over arrays with small-buffer storage: the statements of C52 on the handles of C30 (M_Small); the specification is that of C52 (S_Small) | relation: the handle of each variable is related, as in C30, to the elements of its array, the layout to its shape; every statement is a sequence of handle statements handled by L_Sso.run_rel, the loops by induction over the index tuples (L_Small.a_step_sim) | `P_Small.v` |
| C85 Threads may assign to disjoint views of common memory | M_VThreads: the assignment functions of M_Assign and the evaluation of expressions of M_Expr once more as trees of single reads and writes of cells; a schedule picks the thread that makes the next access. S_VThreads: cells read and written by a statement, programs that keep apart, races, division of an assignment by slices. | A tree run alone computes the function of M_Assign/M_Expr (by induction on expressions and loops); it accesses only the cells of the views named in the statement; invariant over schedules: each thread has a ghost memory, that of its program alone, which agrees with the common memory on its cells. Sequential order: running the threads one after the other is one of the schedules. | `P_VThreads.v` |
| C86 Threads may share the ownership of arrays | M_SThreads: shared handles and heap handles of M_Handle, with the statements of a thread split into single accesses to common memory (shared pointer of an array, count of a control block, one element, one block); a schedule picks the thread that makes the next access. S_SThreads: what each handle refers to, without counts; memory in order (counts are numbers of owners, one keeper per block). | Invariant over all threads: the count of a control block is the number of handles, arrays and pending releases that own it; each block has one responsible (control block with owners, array never shared, thread that destroys it) or is released; the rest of each program, run alone on references, has the result it had at the beginning. Preserved by every access (L_SThreads.good_turn). Termination by a measure: statements left, elements alive and blocks not released. | `P_SThreads.v` |
| C87 MPI programs have one result and no deadlock, at any pace of the processes | M_MpiProc: what one process does, as a tree of MPI calls and what happens with their results: shape() and invoke() of the lazy scatter, gather and reduce, broadcast, the assignment of an initializer to an array or a view; n processes with lists of the calls made so far, a schedule that gives turns to processes, and for every call whether its answer is there, must be waited for, or the calls do not match. S_MpiProc: the meaning of a program, one operation after the other for all processes at once. | First in step: one round of calls of all processes gives the result of M_Mpi, operation by operation, and by induction for programs (L_MpiProc2). Then at any pace: an answer computed from a part of the calls is the answer from all of them (answer_part), so every process is always at a state of the run in step (invariant over schedules), and in every two fair parts of a schedule the slowest process gains a round (L_MpiProc.async_all). | `P_MpiProc.v` |
| C88 The type of an array or view describes its layout | M_Policy: layout types as a rank, two codes and a property; mapping, layout_to_policy, get_contiguous_layout_policy, with_lowest_guarantee_t and contiguous_t as functions on them; reshape is that of M_Transform | round trip of encode and decode (C05) for orders of rank up to 8; the digits above the rank are zero, so at a higher rank dimension 0 is named repeatedly and dimension `rank` never; case analysis on the specialisations | `P_Policy.v` |
| C89 The functions on raw memory change exactly the bytes asked for | M_Bytes: memory as a function from addresses to bytes; memset, memset2D, memcpy, memcpy2D with their loops over rows, std::memcpy undefined for overlapping regions | induction on the number of rows; the element version of M_Assign is written as one loop over all elements and compared with the byte version element by element | `P_Bytes.v` |

## 4. Trusted base

* Coq 8.16.1's kernel (`coqc`; `coqchk` accepts the compiled files, see section 7).
* What `Print Assumptions` lists for each theorem: section 7.
* mathcomp (ssreflect, fingroup, algebra) is used as a library in `S_Det.v`, `L_Det.v`, `L_Ref.v`, `P_Det.v` and
  supplies determinants; it adds no axioms.
* Flocq is used as a library in `M_Float.v`, `L_Float.v`, `P_Float.v` (C80) and supplies IEEE 754 arithmetic and its error bounds; it adds no
  axioms, those listed for C80 in section 7 are the ones of the standard library's real numbers.
* The reading of the C++ source into the model. Every definition of an `M_*.v` file cites the lines it models. The code
  was neither built nor run.
* The contracts of external code:
  * itertools `range`, `zip`: the values they enumerate.
  * libstdc++: `minmax_element` (its result for a predicate that is no ordering), `shared_ptr` self-move, `std::string`.
  * `malloc`/`calloc`/`free`: disjoint blocks; they do not fail.
  * MPI: scatterv, gatherv, allgatherv, reduce with an arbitrary bracketing and order, bcast; `mpi::chunk_length`.
    Calls without an MPI environment (`has_env == false`) are the one-rank case.
  * HDF5: hyperslabs select elements in row-major order of their counts.
  * BLAS: the reference implementation of gemm, gemv, ger, dot, dotc, scal (loops of the Fortran source, including
    the treatment of negative increments and of `xerbla`).
  * LAPACK: promises in `S_Lapack.v` (getrf, getri, getrs, gtsv, syev/heev) and `S_Gelss.v` (gesvd), as hypotheses of the
    theorems; `L_Ref.v` exhibits a library that keeps those of `S_Lapack.v` over every field. Workspace queries are left out.
  * NumPy: `PyArray_FromAny` makes a new C ordered array of the elements (`makes` in `S_Numpy.v`), as a hypothesis.

## 5. What is modelled and what is not

Modelled, function by function: `layout/permutation.hpp`, `layout/idx_map.hpp`, `layout/slice_static.hpp`,
`layout/bound_check_worker.hpp`, `layout/for_each.hpp`, `layout/policies.hpp`, `layout/rect_str.hpp`, the layout flags of
`traits.hpp`, `iterators.hpp`, `_impl_basic_array_view_common.hpp`, `basic_array.hpp`, `basic_array_view.hpp`,
`basic_functions.hpp`, `group_indices.hpp`, `layout_transforms.hpp`, `matrix_functions.hpp`, `arithmetic.hpp`, `map.hpp`,
`algorithms.hpp`, `print.hpp`, `mem/handle.hpp`, `mem/allocators.hpp`, `mem/memcpy.hpp`, `mem/memset.hpp` (host), `mem/address_space.hpp`, `stdutil/array.hpp`, `array_adapter.hpp`, `sym_grp.hpp`, `mpi.hpp` and `mpi/*.hpp`,
`h5.hpp`, `clef/clef.hpp`, `clef/sum.hpp`, `clef/adapters/vector.hpp`, `blas/*.hpp` (host), `lapack/{getrf,getri,getrs,gtsv,gesvd}.hpp`
(host), `lapack/gelss_worker.hpp` (by values), `lapack/gelss.hpp`, `gtest_tools.hpp`, `linalg/*.hpp`, `python/nda_py/{nda_py,cpp2py_converters,make_py_capsule}.hpp`; further files as listed in section 3.

Not modelled:

* Floating point rounding outside C80 and C82 (reductions and the generic products of real types; operators between numbers of different types, abs2 and norms; other expressions, BLAS and LAPACK are exact), conversions between element types outside C78 and C82. Integers are unbounded except in C64 (bytes, `long` and `size_t`), C66,
  which shows where the index arithmetic of the other chapters fits 64 bits, and C78 (elements of integer types).
* Template overload resolution, concepts and value categories beyond what the definitions cite; unwinding after exceptions
  other than those of element constructors in programs of array variables (C71).
* What device (CUDA) code computes: the device branches of BLAS, LAPACK and `memcpy`, cuBLAS and cuSOLVER interfaces. C67 models which branch is taken.
* MPI programs beyond C87: several communicators, non-blocking calls, programs whose control flow differs between processes, progress and buffering inside MPI (any answer that is possible may be given early or late).
* Threads beyond C72 (arrays and their elements), C85 (assignments to views of existing memory) and C86 (shared ownership): device copies, matrix products and LAPACK calls inside threads, weak memory (irrelevant without races), locks; `sym_grp::init` with OpenMP is modelled by an arbitrary distribution of the classes.
* clef: `int` overflow in the test for different placeholders; `if_else` on lazy arguments and terminal nodes holding
  functions are stuck; arrays of arrays on the left of `<<`.
* h5: reading complex data into a real array of one rank more.
* Programs (C69): functions of three or more arrays, factors of products BLAS cannot use; which variables are array objects and which are views is not tracked
  (each modelled on its own: C23, C43).
* `eigenvalues_in_place` (takes a reference to a pointer and cannot be called in the usual way).
* Python: reference counts of the elements of arrays of Python objects, reference cycles and their collector, exceptions with live objects, pybind11's casters (pybind11_converters.hpp calls functions that no longer exist and cannot be compiled).

## 6. Where the code violates a property

Found while modelling; each has a `_refuted` theorem unless said otherwise, and the property excludes it.

1. `encode` of a stride order shifts an int beyond its width from rank 9 on (C05). `permutations::cycle` with p > pos and
   `is_valid` with entries out of range misbehave (C04).
2. `is_contiguous` and `is_strided_1d` answer wrongly for layouts with unit extents, negative strides or extents 0 (C12).
3. The bound check accepts `range(-1, -1, step > 0)` (C09).
4. Iterating over an array of rank >= 2 with a zero inner extent never ends (C15); so does filling it (C19).
5. `fill_with_scalar` on negative strides (C19); overlapping assignments depend on the loop order (C17, C20, C69), also when an array is assigned a view of itself with another shape and as many elements (`a = transpose(a)`: C69_transpose_refuted).
6. `get_block_layout` takes layouts that are not blocks for blocks (C18).
7. `max_element`/`min_element` of an empty array read its first element (C22).
8. Layout policies that carry a stride order of another rank in reshape and flatten (C24); merged indices are in memory
   order, strides 0 for empty arrays (C25); `reinterpret_add_fast_dims_of_size_one` on strided_1d layouts (C26).
9. The check for rectangular nested lists misses lists from four rows on; an empty outer list dereferences the end (C28).
10. `handle_sso`: copies and moves between inline and heap storage (C30); `handle_shared`: deleter pair leaks, self-move,
    moved-from handles (C31).
11. `bucket::allocate` does not check the size (C32); `stats::allocate_zero` does not zero, `stats` with size 0 is
    undefined, leaks of empty blocks are not seen (C33). `~stats` prints bin labels that are off by one (no theorem).
12. `sym_grp`: relations are followed one way only, a walk that leaves the index range (C34); arrays that are not in C
    order (C35). The spans of a copied object point into the original (no theorem).
13. MPI: layouts whose slowest dimension is not the first, local extents that differ, empty arrays (C36); a = gather(a) and
    a = scatter(a) free the array the data is sent from before the call to MPI (C36_self_assign_refuted); b = gather(a) shrinks an
    array b to one slab on ranks that receive nothing, and stops debug builds there if b is a view of the full shape
    (C36_gather_view_refuted).
14. h5: ranges ending in -1 and negative steps, real data read as complex (C38), embedded NUL (C39), negative strides (C56).
15. clef: partially evaluated temporaries dangle, placeholders bound twice, captured parameters (C40); repeated
    placeholders and aliasing on the left of `<<` (C41); sums evaluated with unused bindings, library literals as summation indices (C42).
16. The generic gemm ignores beta, the generic gemv gives (1+beta)*alpha*a*b; reversed vectors are passed to BLAS with the
    pointer to the wrong end (C43-C46, C57); empty matrices stop the program in xerbla (C43, C44); `outer_product` of Fortran
    ordered arrays (C45); dot_generic of empty vectors reads element 0 (C46).
17. gemm_batch without VBATCH does not notice different strides; gemm_batch_strided on Fortran stacks (C50).
18. getrf of rectangular row-wise matrices, getrs and gtsv with row-wise right-hand sides, gtsv with strided diagonals (C51).
19. inverse_in_place of a singular 2x2 matrix changes it before it throws (C47).
20. A = A(range) reads freed storage; moved-from arrays keep their layout (C52).
21. Conversion to a layout with smallest_stride_is_one is not checked (C54). `matrix::ones` is the identity (C55).
22. `expr_call::size()` calls `size()` of a tuple and does not compile (no theorem).
23. rect_str: slices and accesses through an ellipsis that stands for another number of dimensions than one mix up labels; looking a
    label up changes the labels of later views; equality is not transitive (C59).
24. `gelss_worker` with right-hand sides of zero columns reads the maximum of an empty range (C62).
25. `norm` of order 2 of a vector with negative stride reads other memory; of infinite order of an empty vector reads element 0 (C61).
26. Printing: arrays of rank 3 and more are written in memory order, so that equal arrays of different stride orders print
    differently and different ones alike; matrices without rows do not show their columns; rank 0 prints nothing; a view of rank 3 or
    more with a zero extent that is not the slowest makes the loop endless (C63).
27. Conversion from NumPy divides a signed stride by the unsigned `sizeof(T)`: arrays with negative strides, accepted as views (also as source of a
    copy), get a huge stride; strides that are not multiples of the size are rounded down (C64). `make_pycapsule` of a borrowed handle with
    const elements stores a `handle_shared<U>` that is deleted as `handle_shared<const U>` (no theorem).
28. `max_element` skips NaN unless it is the first element, so EXPECT_ARRAY_NEAR and EXPECT_ARRAY_ZERO succeed although elements are NaN; EXPECT_CLOSE
    accepts a NaN; EXPECT_ARRAY_NEAR(x, y) converts y to the element type of x first, so integers are near truncated numbers (C65).
29. `handle_heap(long size)` and `handle_sso(long size)` ask for `size * sizeof(T)` bytes modulo 2^64: an array of 2^61 + k doubles gets 8 k bytes, without
    error. `size()` overflows for arrays without elements whose other extents are large (C66).
30. An expression over device and unified arrays has address space Unified, so its assignment is not refused and host code dereferences device pointers;
    `fill_with_scalar` and the generic products do so for every device array; `combine<Host, Device, Unified>` is refused while
    `combine<Host, Unified, Device>` is accepted (C67).
31. The result type of `matmul` takes over the layout policy of the left factor; for a `stack_matrix` this includes its compile-time extents, so the product
    of a 2x3 `stack_matrix` with a 3x4 matrix ends debug builds and gives a matrix type with wrong static extents otherwise (C43_stack_matrix_refuted).
32. A vector known to have stride 1 but not to be strided_1d (a row of a slice that skips a middle dimension) makes the generic `dot` of an expression with
    it take the linear loop, which does not compile (C46_smallest_refuted).
33. When the constructor of an element throws: `resize` has already assigned the new layout, so the array claims elements outside its storage, and `handle_heap(long)`
    never releases the block it allocated; the copy constructor of `handle_heap` delegates, so its destructor destroys elements that were never constructed (x = y);
    constructors of arrays and the assignment of expressions are `noexcept` and end the program - also for the exceptions the library throws itself, as in
    assignments of device arrays (C71).
34. The sum of an array and a matrix is accepted and has the algebra of its left operand: `(a + m) + 1` adds one to every element, `(m + a) + 1` to the diagonal
    (C23_mixed_refuted).
35. State shared by threads without protection: the allocator of `handle_heap` is one static object (a `bucket` gives one chunk to two threads, the counter of
    `leak_check` loses updates); `get_sptr() const` sets the mutable `sptr` of a const array, so two threads that make shared views of one array each make a
    control block and the memory is released twice (C72). Not modelled: the static generators of `rand`, the mutable members of `rect_str` and `runtime_error`.
36. `lapack::gelss` does not check that b has as many rows as a has columns: for a view of a larger matrix the solution is written outside b (C74_rows_refuted).
37. Slices of `rect_str` arrays with ranges that leave the extents are not checked and read labels outside the table (C59_slice_outside).
38. operator<< of lazy expressions writes "lambda" for every callee: `f(x_)` and `g(x_)` print as the same text (C75_names_refuted).
39. A view remembers the address of the array it was made of: if that array was moved from, a NumPy array made of the view keeps nothing alive and
    dangles as soon as the new owner is gone (C76_parent_moved_refuted). A view of a NumPy array does not keep it alive (C76_python_view_refuted). Slices
    of views have no parent and can never be given to Python: an exception is thrown (C76_view_of_view). `make_handle` passes `(void *)&py_decref` where a
    pointer to a function is expected and cannot be compiled when used; the model takes it with the right type (no theorem).
40. A slice of an expression with a temporary in it, `auto s = (a + f(b))(range(1, 3))`, refers to the freed elements of the temporary
    (C77_slice_temporary_refuted); so does `auto &&c = conj(f(a))` for real arrays, where `conj` returns a reference to its argument, unlike the other
    mapped functions (C77_conj_refuted). `x = y` for arrays replaces the storage of x even if the shapes agree, `x = y + 0` does not: views of x dangle
    after the one and show the new elements after the other (C77_copy_assignment_refuted).
41. Integer elements: `frobenius_norm` squares them in their own type, so that a matrix of int with an element of 46341 or more is undefined behaviour
    (C78_frobenius_refuted); `trace` sums in the element type, unlike `sum`: 128 + 128 is 0 for unsigned char and true + true is 1 (C78_trace_refuted);
    `pow(x, n)` overflows int for unsigned short and is 1 for negative n (C78_pow_unsigned_short_refuted, C78_pow_negative_refuted).
42. `nda::runtime_error`: the copy constructor makes a stream whose writing begins at the first character, and NDA_RUNTIME_ERROR throws a copy;
    `catch (nda::runtime_error &e) { e << "in f"; throw; }` overwrites the beginning of the message (C79_copy_refuted). `what()` always ends with
    the unfinished line ".. Error occurred on node ".
43. Floating point: `sum(a)` and `sum(transpose(a))` can differ (C80_order_refuted); `frobenius_norm` squares without scaling, so that it is infinite
    for an element 2^600 and zero for 2^-600 (C80_frobenius_refuted).
44. Conversion of a Python array of objects to an array of a type NumPy does not know: "all elements are convertible" is computed with `sum` instead of `all`, so
    an array with one convertible element is accepted and the other elements are handed to a converter that cannot convert them (C81_all_refuted); an array
    without elements is refused with the message that one element can not be converted (C81_empty_refuted).
45. `frobenius_norm` of a matrix of float returns a double, but squares the elements in float: it is infinite for an element 2^64 and zero for 2^-80, although the
    norm and its square are values of double (C82_frobenius_float_refuted). `2^53 + 1` as a long plus a complex<double> loses its last digit, as does `abs2` of
    integers above 2^26.5, which are converted to double first (C82_integer_refuted, C82_abs2_integer_refuted).
46. Arrays of fixed shape: `static_extents` compares only the first extent with 15, so `stack_array<double, 3, 20>` compiles and has shape (3, 4)
    (C83_wide_refuted). In release builds `a(2, 4)`, `resize` and assignments of other shapes are executed and leave the buffer (C83_shape_refuted).
    `handle_stack::operator=` constructs over live elements, so strings and other elements with destructors leak at every `a = b`
    (C83_assign_refuted), and `stack_array<std::string, 2> a;` destroys elements that were never constructed (C83_declare_refuted).
47. Arrays with a small buffer, elements with destructors: `resize` replaces the storage by a moved temporary, and moving small storage copies the
    elements without destroying those of the source, so `a.resize(2)`, `a = expr` and `b = std::move(a)` leak elements when they end in the buffer
    (C84_resize_refuted, C84_assign_refuted, C84_move_refuted). `a = a` loses the elements of arrays larger than the buffer (C84_self_assign_refuted).
    New complex arrays are zero on the heap but not in the buffer (C84_complex_refuted).
48. `gemm_batch_strided` without MKL computes the start of matrix `i` as `A + i * strideA` with both factors of type int, so stacks with more than
    2^31 cells between the first and the last matrix overflow although every size and stride fits an int (C50_distance_refuted; the
    theorem C50_strided has the condition starts_in_int).
49. In builds without checks `b = gather(a)` and `b = scatter(a)` make one MPI call more if `b` is an array than if it is a view: operator= of
    an array asks the initializer for its shape, that of a view does so only inside EXPECTS, and shape() is itself a collective call. With an
    array on one process and a view on another the calls no longer match (C87_mixed_refuted); in debug builds they do. An exception on one
    process (a right hand side that is not contiguous) is thrown before its MPI call, and the others wait forever (C87_throw_refuted).
50. The result of reshape on an F_layout array has the policy basic_layout with the stride order of its own rank, because the specialisations of
    layout_to_policy for Fortran order are commented out (policies.hpp:96-106). Reshaping it again to a higher rank compiles and leaves a stride
    unwritten; the same holds for every view of rank two or more that is not of C order with dynamic extents and property contiguous or none
    (C88_higher_rank_refuted, C88_second_reshape_refuted).
51. `memset2D` does not check that rows fit into the pitch, unlike `memcpy2D`; on the host this is harmless (C89_memset2D). `memcpy2D` without
    checks and with rows wider than the pitch of the target loses bytes (C89_wide_rows_refuted).

## 7. Assumptions per theorem

`Print Assumptions` is run below every property theorem (636 theorems at the time of writing). For all but those listed here it answers `Closed under the global context`.

| theorem | axioms (all from Coq's standard library) |
|---|---|
| C61_definite | ClassicalDedekindReals.sig_not_dec, ClassicalDedekindReals.sig_forall_dec, FunctionalExtensionality.functional_extensionality_dep, Classical_Prop.classic |
| C61_empty_refuted | ClassicalDedekindReals.sig_not_dec, ClassicalDedekindReals.sig_forall_dec, FunctionalExtensionality.functional_extensionality_dep, Classical_Prop.classic |
| C61_euclidean | ClassicalDedekindReals.sig_not_dec, ClassicalDedekindReals.sig_forall_dec, FunctionalExtensionality.functional_extensionality_dep, Classical_Prop.classic |
| C61_norm | ClassicalDedekindReals.sig_not_dec, ClassicalDedekindReals.sig_forall_dec, FunctionalExtensionality.functional_extensionality_dep, Classical_Prop.classic |
| C61_reversed_refuted | ClassicalDedekindReals.sig_not_dec, ClassicalDedekindReals.sig_forall_dec, FunctionalExtensionality.functional_extensionality_dep, Classical_Prop.classic |
| C80_dot | ClassicalDedekindReals.sig_not_dec, ClassicalDedekindReals.sig_forall_dec, FunctionalExtensionality.functional_extensionality_dep, Classical_Prop.classic |
| C80_finite | ClassicalDedekindReals.sig_not_dec, ClassicalDedekindReals.sig_forall_dec, FunctionalExtensionality.functional_extensionality_dep, Classical_Prop.classic |
| C80_frobenius | ClassicalDedekindReals.sig_not_dec, ClassicalDedekindReals.sig_forall_dec, FunctionalExtensionality.functional_extensionality_dep, Classical_Prop.classic |
| C80_frobenius_refuted | ClassicalDedekindReals.sig_not_dec, ClassicalDedekindReals.sig_forall_dec, FunctionalExtensionality.functional_extensionality_dep, Classical_Prop.classic |
| C80_matmul | ClassicalDedekindReals.sig_not_dec, ClassicalDedekindReals.sig_forall_dec, FunctionalExtensionality.functional_extensionality_dep, Classical_Prop.classic |
| C80_matvec | ClassicalDedekindReals.sig_not_dec, ClassicalDedekindReals.sig_forall_dec, FunctionalExtensionality.functional_extensionality_dep, Classical_Prop.classic |
| C80_nan | ClassicalDedekindReals.sig_not_dec, ClassicalDedekindReals.sig_forall_dec, FunctionalExtensionality.functional_extensionality_dep, Classical_Prop.classic |
| C80_order_refuted | ClassicalDedekindReals.sig_not_dec, ClassicalDedekindReals.sig_forall_dec, FunctionalExtensionality.functional_extensionality_dep, Classical_Prop.classic |
| C80_product | ClassicalDedekindReals.sig_not_dec, ClassicalDedekindReals.sig_forall_dec, FunctionalExtensionality.functional_extensionality_dep, Classical_Prop.classic |
| C80_sum | ClassicalDedekindReals.sig_not_dec, ClassicalDedekindReals.sig_forall_dec, FunctionalExtensionality.functional_extensionality_dep, Classical_Prop.classic |
| C80_sum_exact | ClassicalDedekindReals.sig_not_dec, ClassicalDedekindReals.sig_forall_dec, FunctionalExtensionality.functional_extensionality_dep, Classical_Prop.classic |
| C80_trace | ClassicalDedekindReals.sig_not_dec, ClassicalDedekindReals.sig_forall_dec, FunctionalExtensionality.functional_extensionality_dep, Classical_Prop.classic |
| C82_abs2 | ClassicalDedekindReals.sig_not_dec, ClassicalDedekindReals.sig_forall_dec, FunctionalExtensionality.functional_extensionality_dep, Classical_Prop.classic |
| C82_abs2_exact | ClassicalDedekindReals.sig_not_dec, ClassicalDedekindReals.sig_forall_dec, FunctionalExtensionality.functional_extensionality_dep, Classical_Prop.classic |
| C82_abs2_integer_refuted | ClassicalDedekindReals.sig_not_dec, ClassicalDedekindReals.sig_forall_dec, FunctionalExtensionality.functional_extensionality_dep, Classical_Prop.classic |
| C82_abs2_sign | ClassicalDedekindReals.sig_not_dec, ClassicalDedekindReals.sig_forall_dec, FunctionalExtensionality.functional_extensionality_dep, Classical_Prop.classic |
| C82_any_nan | ClassicalDedekindReals.sig_not_dec, ClassicalDedekindReals.sig_forall_dec, FunctionalExtensionality.functional_extensionality_dep, Classical_Prop.classic |
| C82_difference | ClassicalDedekindReals.sig_not_dec, ClassicalDedekindReals.sig_forall_dec, FunctionalExtensionality.functional_extensionality_dep, Classical_Prop.classic |
| C82_frobenius_float | ClassicalDedekindReals.sig_not_dec, ClassicalDedekindReals.sig_forall_dec, FunctionalExtensionality.functional_extensionality_dep, Classical_Prop.classic |
| C82_frobenius_float_refuted | ClassicalDedekindReals.sig_not_dec, ClassicalDedekindReals.sig_forall_dec, FunctionalExtensionality.functional_extensionality_dep, Classical_Prop.classic |
| C82_integer_refuted | ClassicalDedekindReals.sig_not_dec, ClassicalDedekindReals.sig_forall_dec, FunctionalExtensionality.functional_extensionality_dep, Classical_Prop.classic |
| C82_isnan | ClassicalDedekindReals.sig_not_dec, ClassicalDedekindReals.sig_forall_dec, FunctionalExtensionality.functional_extensionality_dep, Classical_Prop.classic |
| C82_parts | ClassicalDedekindReals.sig_forall_dec, FunctionalExtensionality.functional_extensionality_dep |
| C82_product | ClassicalDedekindReals.sig_not_dec, ClassicalDedekindReals.sig_forall_dec, FunctionalExtensionality.functional_extensionality_dep, Classical_Prop.classic |
| C82_quotient | ClassicalDedekindReals.sig_not_dec, ClassicalDedekindReals.sig_forall_dec, FunctionalExtensionality.functional_extensionality_dep, Classical_Prop.classic |
| C82_result_type | ClassicalDedekindReals.sig_not_dec, ClassicalDedekindReals.sig_forall_dec, FunctionalExtensionality.functional_extensionality_dep, Classical_Prop.classic |
| C82_scale | ClassicalDedekindReals.sig_not_dec, ClassicalDedekindReals.sig_forall_dec, FunctionalExtensionality.functional_extensionality_dep, Classical_Prop.classic |
| C82_scale_left | ClassicalDedekindReals.sig_not_dec, ClassicalDedekindReals.sig_forall_dec, FunctionalExtensionality.functional_extensionality_dep, Classical_Prop.classic |
| C82_sum | ClassicalDedekindReals.sig_not_dec, ClassicalDedekindReals.sig_forall_dec, FunctionalExtensionality.functional_extensionality_dep, Classical_Prop.classic |
| C82_sum_abs2 | ClassicalDedekindReals.sig_not_dec, ClassicalDedekindReals.sig_forall_dec, FunctionalExtensionality.functional_extensionality_dep, Classical_Prop.classic |
