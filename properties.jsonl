{"id": "C01", "title": "Fresh arrays address their memory bijectively", "statement": "For an array constructed from a shape (any rank, any stride order), the map from in-range index tuples to positions in the data block is a bijection onto 0..size()-1: two different index tuples never share an element, no element is unreachable, and no in-range tuple addresses memory outside the block. Extents fixed at compile time are merged with the others in their places; a default constructed layout has no elements unless all its extents are fixed at compile time.", "quantifier": "every rank, every shape with non-negative extents, every stride-order permutation, every in-range index tuple", "why_tests_cant": "The number of (rank, shape, stride order) combinations is infinite; a test can only sample small shapes and usually C order.", "anchors": ["c++/nda/layout/idx_map.hpp: idx_map(shape), compute_strides_contiguous, operator(), size"]}
{"id": "C02", "title": "Linear position and index tuple conversions are mutually inverse", "statement": "On a contiguous layout, converting an in-range index tuple to its linear position and back with to_idx returns the same tuple, and converting any position 0..size()-1 to an index tuple gives an in-range tuple that addresses that position.", "quantifier": "every rank, shape, stride order, every index tuple and every position below size()", "why_tests_cant": "Exhaustive enumeration is impossible over all shapes and stride orders.", "anchors": ["c++/nda/layout/idx_map.hpp: to_idx, operator()"]}
{"id": "C03", "title": "Element access computes the index/stride scalar product for every call form", "statement": "a(i0,...,iR-1), also when a zero-length ellipsis is written at any position and also when the layout lets the code skip the multiplication by the fastest stride, reads the element at data() + sum_k i_k*stride_k.", "quantifier": "every rank, every layout meeting its declared guarantee, every index tuple, every position of a zero-length ellipsis", "why_tests_cant": "The optimised call path depends on compile-time layout and on the ellipsis position; tests instantiate only a few combinations.", "anchors": ["c++/nda/layout/idx_map.hpp: myget, call_impl, operator()"]}
{"id": "C04", "title": "Permutation algebra", "statement": "The permutation helpers behave as a group acting on tuples: inverse is two-sided, compose is associative with identity, apply and apply_inverse undo each other, applying a composite equals applying one after the other, and transposition/cycle (shift not larger than the cycled block)/identity/reverse_identity build permutations. Validity checking accepts exactly the permutations among arrays whose entries are in range (an out-of-range entry is an unchecked array access; a too large cycle shift gives negative entries: both shown by _refuted witnesses).", "quantifier": "every rank and every permutation", "why_tests_cant": "n! permutations per rank, all ranks.", "anchors": ["c++/nda/layout/permutation.hpp: compose, inverse, apply, apply_inverse, identity, reverse_identity, transposition, cycle, is_valid"]}
{"id": "C05", "title": "Stride orders and static extents survive integer encoding", "statement": "Decoding an encoded array of small non-negative integers gives back the array, so that a stride order or a static-extent list carried in a template integer is the one that was meant, for every rank up to 8. (For ranks 9 to 15, which the library also accepts, the encoder shifts a 32-bit int too far: shown as a _refuted theorem.)", "quantifier": "every rank below 16 and every array of entries below 16", "why_tests_cant": "The encoding is evaluated at compile time for the ranks instantiated; tests use ranks up to about 6.", "anchors": ["c++/nda/layout/permutation.hpp: encode, decode"]}
{"id": "C06", "title": "Index permutation views", "statement": "permuted_indices_view / transpose / transposed_view give a view of the same memory whose element at a permuted index tuple is the original element; the view's declared stride order is again truthful; permuting twice equals permuting once with the composite; transposing twice is the identity.", "quantifier": "every rank, every permutation, every layout, every index tuple", "why_tests_cant": "n! permutations at each rank, composed arbitrarily.", "anchors": ["c++/nda/layout/idx_map.hpp: transpose", "c++/nda/layout_transforms.hpp: permuted_indices_view, transpose, transposed_view"]}
{"id": "C07", "title": "Slicing selects the elements the arguments denote", "statement": "a(args...)(j...) is the same element as a at the index tuple obtained by putting each integer argument in its place, start+step*j for each range argument, j for each all argument, and j for every dimension covered by the ellipsis; the view's shape is the tuple of the lengths of the retained dimensions.", "quantifier": "every rank, every mixture of integers, ranges (any step sign), all and at most one ellipsis, every index of the resulting view", "why_tests_cant": "Argument combinations grow as 3^rank times ellipsis positions times range parameters.", "anchors": ["c++/nda/layout/slice_static.hpp: slice_stride_order, slice_stride_order_impl, get_offset, get_l, get_s, n_of_p_map, q_of_n", "c++/nda/layout/idx_map.hpp: slice"]}
{"id": "C08", "title": "Slices of slices compose", "statement": "Slicing a slice addresses the same elements as composing the index selections on the original array, to any nesting depth.", "quantifier": "every chain of slices of any length, on any layout", "why_tests_cant": "Chains are unbounded.", "anchors": ["c++/nda/layout/slice_static.hpp: slice_stride_order", "c++/nda/_impl_basic_array_view_common.hpp: call"]}
{"id": "C09", "title": "Slices stay inside the parent's memory", "statement": "If the bound checker accepts a slice expression, then every element of the resulting view is an element of the parent, and it accepts every slice expression for which that is so. The single exception is a range with first = last = -1 and a positive step, which is accepted although it addresses index -1 (shown by a _refuted witness).", "quantifier": "every parent shape and every slice argument list", "why_tests_cant": "The claim is about all integer parameters of ranges, including the special value -1 for 'to the end'.", "anchors": ["c++/nda/layout/bound_check_worker.hpp: bound_check_worker, assert_in_bounds", "c++/nda/layout/slice_static.hpp: get_l"]}
{"id": "C10", "title": "Declared stride order of a slice is truthful", "statement": "The stride order carried by the type of a slice lists the retained dimensions from slowest to fastest, i.e. it is a permutation and the absolute strides are non-increasing along it whenever that held for the parent and the steps do not break it (steps of modulus 1, or the chain condition).", "quantifier": "every parent stride order and every slice argument pattern", "why_tests_cant": "All patterns and permutations at all ranks.", "anchors": ["c++/nda/layout/slice_static.hpp: sliced_mem_stride_order, slice_stride_order_impl", "c++/nda/layout/idx_map.hpp: is_stride_order_valid"]}
{"id": "C11", "title": "Declared layout properties of a slice are truthful", "statement": "When the type of a slice claims to be contiguous, 1d-strided, or to have smallest stride one, the memory really is so: contiguous means the view's elements in stride order occupy consecutive positions; strided_1d means they occupy positions k*min_stride; smallest_stride_is_one means the fastest stride is 1.", "quantifier": "every parent layout meeting its own declaration, every slice argument pattern, every shape", "why_tests_cant": "The flag is computed from argument types only, its meaning from run-time values.", "anchors": ["c++/nda/layout/slice_static.hpp: slice_layout_prop", "c++/nda/traits.hpp: layout_prop_e"]}
{"id": "C12", "title": "Run-time contiguity queries are right", "statement": "A true answer of is_contiguous() on a view built by slices with positive steps and permutations means that the view's elements, taken in stride order, occupy consecutive memory positions, and with all extents at least 2 the answer is exact; is_strided_1d() is right likewise when the fastest stride divides the others. Declared-contiguous layouts always answer true. Outside these conditions the answers can be wrong (negative steps, non-dividing strides, unit extents: _refuted witnesses).", "quantifier": "every layout a sequence of slices and permutations can produce", "why_tests_cant": "All strides and lengths.", "anchors": ["c++/nda/layout/idx_map.hpp: is_contiguous, is_strided_1d, min_stride"]}
{"id": "C13", "title": "Bound-checked element access accepts exactly the in-range tuples", "statement": "With bound checking on, an access with one integer per dimension is accepted if and only if every index is between 0 and its extent minus 1, wherever a zero-length ellipsis is placed.", "quantifier": "every shape, every integer tuple, every ellipsis position", "why_tests_cant": "All integers including negative and huge ones.", "anchors": ["c++/nda/layout/bound_check_worker.hpp", "c++/nda/layout/idx_map.hpp: operator(), slice"]}
{"id": "C14", "title": "for_each enumerates every index tuple once, in order", "statement": "for_each(shape, f) calls f on each in-range index tuple exactly once, in lexicographic order (last index fastest), and never if some extent is zero; the static variant runs through the dimensions in the given stride order with the given static extents and visits the same set, the callback receiving the indices in the order of the loops (so for a non-C stride order not in the order of the dimensions: shown by a _refuted witness).", "quantifier": "every rank, shape, stride order, static extents compatible with the shape", "why_tests_cant": "All shapes and ranks.", "anchors": ["c++/nda/layout/for_each.hpp: for_each, for_each_static, for_each_static_impl"]}
{"id": "C15", "title": "Iterating over an array visits each element exactly once", "statement": "A loop from begin() to end() over an array or view terminates after size() steps and visits each element exactly once in stride order (memory order for a fresh array), unless the layout is not walked in one dimension and has a zero extent behind a non-zero slowest extent: then, exactly, it never terminates (shown by a _refuted theorem). For layouts iterated in one dimension the iterator arithmetic (++, --, +=, -=, -, [], comparisons) agrees with the net displacement.", "quantifier": "every rank, layout, shape including zero extents", "why_tests_cant": "All shapes; termination on degenerate shapes is not observable by a finite test suite that does not contain them.", "anchors": ["c++/nda/iterators.hpp: grid_iterator, array_iterator", "c++/nda/_impl_basic_array_view_common.hpp: make_iterator, begin, end"]}
{"id": "C16", "title": "Assignment copies every element and nothing else", "statement": "After view = rhs (same shape, memory not overlapping), view(i...) equals rhs(i...) for every index tuple, every memory location that is not an element of the view is unchanged, and rhs is unchanged. With bounds checking on, a shape mismatch is reported and nothing is written.", "quantifier": "every shape and rank, every injective destination layout, every source layout, every memory content", "why_tests_cant": "Universal over memory contents and layouts; the frame part is about all other locations.", "anchors": ["c++/nda/_impl_basic_array_view_common.hpp: assign_from_ndarray", "c++/nda/basic_array_view.hpp: operator="]}
{"id": "C17", "title": "Fast assignment paths agree with element-wise assignment", "statement": "The vectorised 1d-strided copy gives the same memory as the element-wise loop whenever its compile-time conditions (same stride order, both layouts declared strided_1d) hold truthfully and source and destination do not overlap or coincide; in C order it does so for any overlap. (With overlap and another stride order the two differ: _refuted witness.)", "quantifier": "every pair of layouts with equal stride order that are truthfully strided_1d, every memory content", "why_tests_cant": "All layouts and contents.", "anchors": ["c++/nda/_impl_basic_array_view_common.hpp: assign_from_ndarray, operator()(_linear_index_t)"]}
{"id": "C18", "title": "Block copy path agrees with element-wise assignment", "statement": "Whenever get_block_layout reports (n_blocks, block_size, block_stride) for a non-empty layout cut with steps of one, or with any positive steps and extents of at least two, and all extents times strides fit into a 32-bit int, the elements in stride order form exactly these blocks; the two-dimensional memory copy built on it gives the memory element-wise assignment would give. (Unit extents cut with larger steps and arrays of 2^31 elements or more get wrong blocks: _refuted witnesses.)", "quantifier": "every pair of non-overlapping layouts with the same stride order, every content", "why_tests_cant": "All shapes and strides; the block analysis is a run-time algorithm over them.", "anchors": ["c++/nda/basic_functions.hpp: get_block_layout", "c++/nda/_impl_basic_array_view_common.hpp: assign_from_ndarray", "c++/nda/mem/memcpy.hpp: memcpy2D"]}
{"id": "C19", "title": "Assigning a scalar", "statement": "a = x sets every element of an array to x; for a matrix it gives x on the diagonal and zero elsewhere, also for rectangular matrices; nothing outside the view changes; all internal fill paths agree. This holds for every layout with positive smallest stride and no zero extent. (A negative-stride strided_1d view is left unchanged, and a view with a zero extent in a faster dimension makes the loop run forever: _refuted witnesses.)", "quantifier": "every shape, layout, memory content and scalar", "why_tests_cant": "All layouts including strided ones.", "anchors": ["c++/nda/_impl_basic_array_view_common.hpp: fill_with_scalar, assign_from_scalar", "c++/nda/matrix_functions.hpp: eye"]}
{"id": "C20", "title": "Assignment from an expression that reads the destination", "statement": "A = f(A, B, ...) where the expression at index i reads A only at index i (A = A + B, A *= 2, ...) gives the value computed from the old contents at every index; A = A changes nothing. (Expressions reading other elements of A, such as A = transpose(A) or shifted views, mix old and new values: _refuted witnesses.)", "quantifier": "every element-wise expression, every shape, every content", "why_tests_cant": "All expressions and contents; the unsafe aliasing cases (A = transpose(A), A = A(range)) are exactly the ones a test may miss.", "anchors": ["c++/nda/_impl_basic_array_view_common.hpp: operator+=, operator-=, operator*=, operator/=, assign_from_ndarray", "c++/nda/basic_array.hpp: operator=, resize"]}
{"id": "C21", "title": "Equality of arrays", "statement": "a == b holds exactly when the shapes agree and all corresponding elements compare equal, independently of the two layouts; in particular it is reflexive, symmetric and transitive when the element equality is.", "quantifier": "every pair of arrays/views/expressions of the same rank", "why_tests_cant": "All contents and layouts.", "anchors": ["c++/nda/basic_functions.hpp: operator=="]}
{"id": "C22", "title": "Reductions", "statement": "fold visits elements in lexicographic index order starting from the given value; any/all are the boolean or/and of all elements, sum/product the sum/product, min_element/max_element return an element that is a lower/upper bound of all elements.", "quantifier": "every shape and content", "why_tests_cant": "All shapes, all contents, all folding functions.", "anchors": ["c++/nda/algorithms.hpp: fold, any, all, sum, product, min_element, max_element"]}
{"id": "C23", "title": "Lazy arithmetic equals element-wise arithmetic", "statement": "For any expression built from arrays, scalars, unary minus and + - * /, and mapped functions, its shape is the common shape and its value at index i is the arithmetic expression of the operands' values at i; in matrix algebra a scalar added or subtracted acts on the diagonal only. Which expressions are accepted by the compiler, with which algebra and rank, follows from typing rules on the operands: equal ranks, and products and quotients of two operands only between arrays.", "quantifier": "every expression tree of any depth, every index", "why_tests_cant": "Expression trees are unbounded.", "anchors": ["c++/nda/arithmetic.hpp: expr, expr_unary, operator+ - * /", "c++/nda/map.hpp: expr_call, map"]}
{"id": "C24", "title": "Reshape and flatten keep the element sequence", "statement": "reshape(a, shape) and flatten(a) of a contiguous C- or Fortran-policy array give a view on the same storage whose element sequence in stride order is the element sequence of a; a shape with another number of elements is rejected when checks are on. (A non-standard layout policy - the result of a transpose, or static extents - decodes its stride order and static extents at the new rank, so flattening such an array gives a wrong or rejected layout: _refuted witnesses.)", "quantifier": "every contiguous array, every new shape with the same number of elements", "why_tests_cant": "All shapes.", "anchors": ["c++/nda/layout_transforms.hpp: reshape, reshaped_view, flatten, map_layout_transform"]}
{"id": "C25", "title": "Grouping indices", "statement": "group_indices_view(a, groups...) is accepted exactly when the groups partition the dimensions and each is consecutive in memory; the view then has the products of the grouped extents as shape, covers exactly the elements of a, and its element at the merged index (groups read in memory order) is the element of a at the original index. (The merged index follows memory order, not the order in which the group lists its dimensions: witness.)", "quantifier": "every contiguous layout, every partition of the dimensions into groups contiguous in memory", "why_tests_cant": "All partitions at all ranks.", "anchors": ["c++/nda/group_indices.hpp: group_indices_layout, is_partition_of_indices, stride_order_of_grouped_idx_map"]}
{"id": "C26", "title": "Adding trailing unit dimensions", "statement": "Adding N trailing dimensions of size one gives a view whose elements are those of a at the same leading indices, for any layout, and a usable layout whenever a's declared properties do not rely on a smallest stride other than one. (A strided_1d layout with a larger stride keeps the strided_1d claim while its smallest stride becomes one, so iteration goes wrong: _refuted witness.)", "quantifier": "every layout, every N", "why_tests_cant": "All layouts; the declared properties matter only on the fast paths.", "anchors": ["c++/nda/layout_transforms.hpp: reinterpret_add_fast_dims_of_size_one, complete_stride_order_with_fast"]}
{"id": "C27", "title": "Diagonals, identity, trace, stacking", "statement": "diagonal(m)(i) is m(i,i) for i below the smaller extent, whatever the layout; diag(v) has v on the diagonal and zero elsewhere; eye is the identity; trace is the sum of the diagonal; vstack(a,b) has a's rows followed by b's rows. is_matrix_square(m) says whether the extents are equal; is_matrix_diagonal(m) whether m is square, its elements off the diagonal equal zero and those on it equal themselves (NaN does not), and m is not changed.", "quantifier": "every matrix layout, shape and content", "why_tests_cant": "All layouts and shapes.", "anchors": ["c++/nda/matrix_functions.hpp: diagonal, diag, eye, trace, vstack", "c++/nda/linalg/det_and_inverse.hpp: is_matrix_square, is_matrix_diagonal"]}
{"id": "C28", "title": "Nested initializer lists", "statement": "Constructing from a nested list stores element i of list k ... at (.., k, i) if all lists of a level have the same length. In debug builds a list is reported exactly if its last member, or the last but one if their number is odd, has another shape than the first (so always for up to three members that differ); other lists that are not rectangular are accepted and written past the end of the array, and an outer empty list dereferences the end.", "quantifier": "every nested list", "why_tests_cant": "All list shapes; the rectangularity check compares only two rows chosen by an algorithm.", "anchors": ["c++/nda/basic_array.hpp: basic_array(initializer_list), shape_from_init_list"]}
{"id": "C29", "title": "Heap handles never leak, double free or dangle", "statement": "Any sequence of constructions, copies, moves, assignments (self-assignment included), element writes and destructions of heap handles frees every block exactly once, destroys every element exactly once, never reads or writes dead memory, keeps copies independent, transfers the contents on a move and leaves the source empty; at every point the allocated blocks are exactly those some variable refers to.", "quantifier": "every finite history of handle operations, every size and content", "why_tests_cant": "Histories are unbounded.", "anchors": ["c++/nda/mem/handle.hpp: handle_heap"]}
{"id": "C30", "title": "Small-size-optimised handles have value semantics", "statement": "Copying, moving and assigning handles that store small arrays in a buffer and large ones on the heap preserves contents, keeps source and destination independent, and never leaks or double frees, whatever the sizes on each side; likewise for handles entirely on the stack. This holds for every history without self-assignment of non-empty handles (allowed where it works) and, for element types with destructors, without moving small handles or assigning stack handles. (Self-assignment on the heap loses the contents, moving a small handle never destroys the elements of the source, assigning stack handles constructs over living elements, complex elements are zeroed only on the heap: _refuted witnesses.)", "quantifier": "every finite history, every size relative to the stack capacity", "why_tests_cant": "Histories and the four stack/heap combinations at every step.", "anchors": ["c++/nda/mem/handle.hpp: handle_sso, handle_stack"]}
{"id": "C31", "title": "Shared ownership frees exactly once", "statement": "Handles sharing a block through a shared handle see the same contents; the block stays alive while any owner exists and is freed exactly once when the last one goes, in any order of destruction. (The bookkeeping pair of the deleter is never freed; moving a shared heap handle into itself leaves it empty but still owning; a moved-from shared handle keeps a pointer it does not own: _refuted witnesses.)", "quantifier": "every finite history of creation, copy, assignment and destruction", "why_tests_cant": "Histories are unbounded.", "anchors": ["c++/nda/mem/handle.hpp: handle_shared, handle_heap"]}
{"id": "C32", "title": "Bucket allocators hand out disjoint blocks", "statement": "Any history of allocate/allocate_zero/deallocate and writes on bucket and multi_bucket with requests of at most ChunkSize bytes returns blocks that lie inside the owned buffers and never overlap while live, keep their contents, give all memory back on destruction, and report ownership, fullness and emptiness correctly; multi_bucket asks for more memory only when every chunk is in use. (A request above ChunkSize is not checked and overlaps: refuted.)", "quantifier": "every finite history of allocate/deallocate of blocks obtained from the allocator", "why_tests_cant": "Histories are unbounded.", "anchors": ["c++/nda/mem/allocators.hpp: bucket, multi_bucket"]}
{"id": "C33", "title": "Allocator combinators", "statement": "segregator routes each block back to the allocator it came from, so it is as reliable as its parts; leak_check changes nothing but keeps a counter equal to the bytes allocated and not yet deallocated and complains at destruction exactly when it is not zero; stats counts allocations by size class and keeps allocate/deallocate semantics of the wrapped allocator, except for zeroing (refuted) and size 0 (refuted).", "quantifier": "every finite history", "why_tests_cant": "Histories are unbounded.", "anchors": ["c++/nda/mem/allocators.hpp: segregator, leak_check, stats"]}
{"id": "C34", "title": "Symmetry classes partition the index set", "statement": "Building a symmetry group from an array shape and any list of symmetry maps ends, within a bounded recursion depth, without exceeding the reserved storage; it puts every index in exactly one class; each class has a representative with the identity, and each member is reached from it by symmetries whose operations multiply to the recorded one; the image of a member lies in the same or an earlier class. If the symmetries can be undone by symmetries, indices related through indices in range share a class, and without excursions out of range only those do. (Maps without inverse, or excursions whose count is charged to the next symmetry, separate related indices: _refuted witnesses.)", "quantifier": "every shape, every list of symmetry maps, every maximal depth", "why_tests_cant": "All graphs generated by the maps.", "anchors": ["c++/nda/sym_grp.hpp: sym_grp, iterate, num_classes"]}
{"id": "C35", "title": "Symmetrisation", "statement": "For arrays in C order, init(x, f) makes x agree on each class with the recorded operation applied to the value at the representative, and equals f if f has the symmetries; the parallel variant gives the same for every distribution and order of the classes; symmetrize replaces each class by its average transported by the recorded operations, reports the largest deviation and its index, leaves an already symmetric array unchanged with zero deviation, and is idempotent. (For other layouts wrong elements are written: refuted.)", "quantifier": "every shape, symmetries, array layout and content", "why_tests_cant": "All contents and symmetry graphs.", "anchors": ["c++/nda/sym_grp.hpp: init, symmetrize, get_representative_data"]}
{"id": "C36", "title": "MPI scatter and gather", "statement": "Scattering an array whose first dimension is the slowest gives each rank a contiguous block of slabs of the root's array; the blocks in rank order partition the array with sizes differing by at most one; gathering concatenates arrays along the first dimension in rank order (on the root, or on every rank), leaving other memory alone; gather after scatter is the identity. This holds for b = scatter(a) and b = gather(a), for arrays b of any size (which are resized, keeping their memory if the number of elements stays the same) and for views b of the right shape; on ranks that receive nothing from gather, an array b is resized to one slab of unspecified content. Where the first dimension is not the slowest, local extents differ from the root's, inner extents are empty (scatter) or differ (gather), the library does not check and the claim fails; so it does for a = gather(a) and a = scatter(a), and in debug builds for views of the full shape on ranks that receive nothing.", "quantifier": "every number of ranks, every shape, every content", "why_tests_cant": "All communicator sizes and shapes.", "anchors": ["c++/nda/mpi/scatter.hpp: invoke, shape", "c++/nda/mpi/gather.hpp: invoke, shape"]}
{"id": "C37", "title": "MPI reduce and broadcast", "statement": "Reduce leaves on the root (or on all ranks for all-reduce) the element-wise reduction of all ranks' arrays, in place or not; the target of the assignment b = reduce(a) takes the shape of a on every rank, and on ranks that receive nothing no element is written; broadcast makes every rank's array equal to the root's, resizing if needed.", "quantifier": "every number of ranks, root, shape and content, every associative commutative operation", "why_tests_cant": "All communicator sizes.", "anchors": ["c++/nda/mpi/reduce.hpp", "c++/nda/mpi.hpp: mpi_broadcast"]}
{"id": "C38", "title": "HDF5 slices select the elements of the C++ slice", "statement": "Reading a slice (integers, ranges with positive step and an explicit end, all, ellipsis) of a data set gives exactly the elements, in the same positions and with the same shape, as the same slice of an in-memory array with the data set's contents; writing an array to a slice changes the data set exactly as assigning it to the slice of the in-memory array; a slice reaching outside the data set is never read. Ranges with last = -1 or a negative step, and slices of real data read into complex arrays, do not follow the in-memory meaning.", "quantifier": "every data-set shape and every slice", "why_tests_cant": "All argument combinations.", "anchors": ["c++/nda/h5.hpp: hyperslab_and_shape_from_slice, h5_read, h5_write"]}
{"id": "C39", "title": "Strings survive the character buffer", "statement": "An array of strings without NUL characters written as a rectangular character buffer and read back is the same array; a string with an embedded NUL is cut there.", "quantifier": "every array of strings", "why_tests_cant": "All strings, including ones with embedded zero bytes and of all lengths.", "anchors": ["c++/nda/h5.hpp: to_char_buf, from_char_buf"]}
{"id": "C40", "title": "Lazy (placeholder) expressions evaluate by substitution", "statement": "Evaluating an expression object with bindings x_ = rhs, ... (for different placeholders, rhs values, references or lazy expressions) gives an expression whose value, for any values of the remaining placeholders, is that of the original with rhs put for x_; binding all placeholders of an operator expression gives that value, binding some leaves exactly the others, and binding the rest in a second step gives the same value while the first object lives; a function object make_function(e, x_, ...) called on values is e with the values for the placeholders, also when nested. Outside these conditions it fails: partially evaluated temporaries dangle, a placeholder bound twice takes neither value, a function's own parameter is replaced or captured.", "quantifier": "every expression tree, every set of bindings, every order of binding", "why_tests_cant": "Trees and bindings are unbounded.", "anchors": ["c++/nda/clef/clef.hpp: evaluator, eval, make_function, op_dispatch"]}
{"id": "C41", "title": "Lazy assignment fills arrays", "statement": "a(i_, j_, ...) << expr with pairwise different placeholders sets every element of a to the value of expr at its indices and changes nothing else, provided expr reads at each index no other element of a; the same for nested std::vectors v[i_][j_]... << expr. A repetition of the first placeholder is rejected; other repetitions are accepted and give wrong values, and expressions that read other elements of a depend on the loop order.", "quantifier": "every shape, every expression, every list of placeholders", "why_tests_cant": "All shapes, expressions, placeholder lists.", "anchors": ["c++/nda/clef/clef.hpp: operator<<, _all_different", "c++/nda/basic_functions.hpp: clef_auto_assign"]}
{"id": "C42", "title": "Lazy sums", "statement": "sum(expr, i_ = D1, j_ = D2, ...) has in every environment the value of the nested sum of expr over the domains: if expr depends on the summation indices only it is computed at once, otherwise it is computed when the last other placeholder is bound on its own; a sum over an empty domain throws and never gives a value. A sum evaluated together with bindings its summand does not contain is never computed, and the library's own literals i_, j_, ... cannot be summation indices.", "quantifier": "every expression and all finite domains", "why_tests_cant": "All domains and expressions.", "anchors": ["c++/nda/clef/sum.hpp: sum, sum_f_domain_impl"]}
{"id": "C43", "title": "Matrix products are correct for every memory layout", "statement": "gemm(alpha, a, b, beta, c) (and so matmul) leaves in c the value alpha*a*b + beta*c for every combination of C and Fortran stored (strided with unit fastest stride and positive slow stride) a, b, c, optionally conjugated where allowed, changing nothing outside c; conj is refused at compile time exactly where it is not allowed; matmul gives the product of any matrix operands and expressions as a new matrix, stored in the order of the left factor if both factors are stored alike and in C order otherwise. Not so: the generic product ignores beta, a fast stride other than 1 is checked only in debug builds, reversed rows and empty inner dimensions end the program.", "quantifier": "every dimensions, every leading dimension, every layout combination, every content over any ring", "why_tests_cant": "All sizes and eight layout combinations times conjugations.", "anchors": ["c++/nda/blas/gemm.hpp: gemm, gemm_generic", "c++/nda/blas/tools.hpp: get_op, get_ld", "c++/nda/linalg/matmul.hpp: matmul"]}
{"id": "C44", "title": "Matrix-vector products", "statement": "gemv(alpha, a, b, beta, c) (and so matvecmul) leaves alpha*a*b + beta*c in c for C and Fortran stored a with at least one column and vectors with positive strides (in debug builds: stride 1). Not so: the generic product gives (1 + beta)*alpha*a*b, a matrix without columns leaves c as it was or ends the program, reversed vectors are used wrongly in release builds.", "quantifier": "every dimension, leading dimension, layout, content over any ring", "why_tests_cant": "All sizes and layouts.", "anchors": ["c++/nda/blas/gemv.hpp: gemv, gemv_generic", "c++/nda/linalg/matmul.hpp: matvecmul"]}
{"id": "C45", "title": "Rank-one update and outer product", "statement": "ger(alpha, x, y, m) adds alpha*x_i*y_j to m(i,j) for C and Fortran m and vectors with positive strides; outer_product(a,b) of non-empty contiguous arrays in C order has element (i...,j...) equal to a(i...)*b(j...). Fortran ordered arrays give elements in the wrong order, reversed vectors wrong elements, an empty second array ends the program.", "quantifier": "every shape, stride, content", "why_tests_cant": "All shapes and layouts.", "anchors": ["c++/nda/blas/ger.hpp: ger, outer_product"]}
{"id": "C46", "title": "Dot products", "statement": "dot(x,y) is sum x_i*y_i and dotc(x,y) is sum conj(x_i)*y_i for vectors with any positive strides; the generic version for any expressions with at least one element. Reversed vectors give wrong values, the generic version of empty vectors reads elements that do not exist. nda::dot and dotc accept vectors, views and expressions; the generic product gives the sum in each of its three loops, except that products of an expression with a vector known to have stride 1 but not to be strided_1d do not compile.", "quantifier": "every length (also zero), every stride, every content", "why_tests_cant": "All strides including negative ones and the empty vector.", "anchors": ["c++/nda/blas/dot.hpp: dot, dotc, _dot_impl", "c++/nda/linalg/dot.hpp"]}
{"id": "C47", "title": "Small matrix inverses", "statement": "inverse_in_place succeeds exactly when the matrix has an inverse and then leaves the exact two-sided inverse, changing nothing outside the matrix; for 1x1, 2x2 and 3x3 matrices with any strides by explicit formulas, for larger ones given what LAPACK's getrf and getri promise; it reports an error exactly when the determinant is zero. inverse does the same for a copy.", "quantifier": "every matrix over any field", "why_tests_cant": "All coefficients.", "anchors": ["c++/nda/linalg/det_and_inverse.hpp: inverse1_in_place, inverse2_in_place, inverse3_in_place"]}
{"id": "C48", "title": "Determinant from the LU factorisation", "statement": "Given what LAPACK's getrf promises (row interchanges ipiv, unit lower times upper factors), determinant returns the determinant of the original matrix, including its sign.", "quantifier": "every dimension, every matrix over any commutative ring", "why_tests_cant": "All dimensions and pivot sequences.", "anchors": ["c++/nda/linalg/det_and_inverse.hpp: determinant_in_place"]}
{"id": "C49", "title": "Cross product", "statement": "cross_product(a,b) has the three components of the cross product, writes nothing else, and is bilinear, antisymmetric, orthogonal to both arguments and satisfies Lagrange's identity.", "quantifier": "every pair of 3-vectors over any commutative ring", "why_tests_cant": "All vectors.", "anchors": ["c++/nda/linalg/cross_product.hpp: cross_product"]}
{"id": "C50", "title": "Batched products", "statement": "gemm_batch does what a loop of gemm over the batch does (with sizes and strides that may differ if vbatch is set) and so gives every product its value if no result overlaps a factor or another result; gemm_batch_strided performs the product for every matrix of the stacks. Without vbatch different strides are not noticed, and stacks in plain Fortran order are accepted, both giving wrong results. The distance of each matrix of a stack from the first must fit an int: it is computed as an int product, and overflows otherwise.", "quantifier": "every batch size, dimensions and leading dimensions", "why_tests_cant": "All batches.", "anchors": ["c++/nda/blas/gemm_batch.hpp"]}
{"id": "C51", "title": "LAPACK wrappers pass the matrix that was meant", "statement": "getrf, getrs, gtsv and gesvd hand LAPACK a description (pointer, dimensions, leading dimension, transposition flag) under which LAPACK sees the user's matrix and right-hand sides, for matrices stored by columns and, where square, by rows; right-hand sides must be stored by columns.", "quantifier": "every layout, shape and leading dimension", "why_tests_cant": "All layouts and shapes.", "anchors": ["c++/nda/lapack/getrf.hpp", "c++/nda/lapack/getrs.hpp", "c++/nda/lapack/gtsv.hpp"]}
{"id": "C52", "title": "Arrays are regular values", "statement": "In every history of array declarations, constructions from shapes and expressions, copies, moves, assignments (also to itself), resizes, element writes and destructions, each array has exactly the shape and elements its own statements gave it: copies are deep and independent, moves transfer the contents, resize to the same number of elements keeps the block, the storage size matches the shape, all memory is released exactly once. (A moved-from array keeps its shape without storage; A = A(range) reads released storage: _refuted witnesses.)", "quantifier": "every finite history of array operations", "why_tests_cant": "Histories are unbounded.", "anchors": ["c++/nda/basic_array.hpp: basic_array(const&), operator=, resize", "c++/nda/mem/handle.hpp"]}
{"id": "C53", "title": "Swapping views", "statement": "swap exchanges two views without touching elements; deep_swap exchanges the elements of two non-overlapping views of the same shape and leaves everything else unchanged.", "quantifier": "every shape, layout and content", "why_tests_cant": "All layouts and contents.", "anchors": ["c++/nda/basic_array_view.hpp: swap, deep_swap, rebind"]}
{"id": "C54", "title": "Views keep their own addressing when copied or converted", "statement": "Converting a view or array to a view with another declared layout (weaker properties, or dynamic extents) keeps shape, strides and data pointer; with checks on, conversions that would make a false claim about contiguity, constant distance (strides multiples of the smallest one) or static extents are rejected. (The claim that the smallest stride is one is not checked: _refuted witness.)", "quantifier": "every layout and target declaration", "why_tests_cant": "All layouts.", "anchors": ["c++/nda/layout/idx_map.hpp: idx_map(idx_map const&), is_stride_order_valid, merge_static_and_dynamic_extents", "c++/nda/traits.hpp: layout_property_compatible"]}
{"id": "C55", "title": "arange and fixed-shape fillers", "statement": "zeros, ones and arange give arrays of the requested shape with all elements 0, all elements 1, and first + k*step for exactly the k with first + k*step before last. (matrix<T>::ones gives the identity matrix: _refuted witness.)", "quantifier": "every first, last, non-zero step, shape", "why_tests_cant": "All integers.", "anchors": ["c++/nda/basic_functions.hpp: arange, zeros, ones"]}
{"id": "C56", "title": "Arrays survive a file", "statement": "An array or view of any layout with positive strides, written to an HDF5 file and read back into an array or view of any admissible layout, gives the same shape and elements and leaves other memory alone (real data may be read into complex arrays); arrays of other element types are stored one entry per element under pairwise distinct names and come back unchanged. With negative strides the wrong elements can be written.", "quantifier": "every shape, rank, layout of source and target, element values, placement in memory", "why_tests_cant": "Layout combinations and shapes are unbounded; names must never collide for any pair of indices.", "anchors": ["c++/nda/h5.hpp: h5_write, h5_read"]}
{"id": "C57", "title": "Scaling of vectors", "statement": "scal(alpha, x) multiplies every element of a vector of positive stride by alpha and changes nothing else; with a negative stride nothing happens.", "quantifier": "every length, positive stride, content, alpha", "why_tests_cant": "Lengths, strides and contents are unbounded.", "anchors": ["c++/nda/blas/scal.hpp: scal"]}
{"id": "C58", "title": "Eigenvalues and eigenvectors", "statement": "eigenvalues and eigenelements of a symmetric or hermitian matrix or expression return n eigenvalues and, for eigenelements, a matrix whose column k is an eigenvector for eigenvalue k, the columns being orthonormal, in the storage order of the argument; the argument is not changed.", "quantifier": "every dimension, every storage order, every matrix expression, every library that keeps LAPACK's promise", "why_tests_cant": "All dimensions and matrices.", "anchors": ["c++/nda/linalg/eigenelements.hpp: eigenvalues, eigenelements, _eigen_element_impl"]}
{"id": "C59", "title": "Layouts with string labels", "statement": "An array whose layout carries string labels can be accessed by label, number or a mix: the element at the first position carrying each label is meant, an unknown label is reported, and looking labels up changes neither elements nor labels. Unlabelled dimensions have the decimal numbers as labels. Slices with one argument per dimension keep for every element the labels of the dimensions kept; permuting dimensions permutes the labels; layouts built from labels have their sizes; equality compares shape, strides and labels. Not so: slices or accesses with an ellipsis that stands for another number of dimensions than one mix labels up; looking up a label of an unlabelled array changes the labels of later views; equality is not transitive.", "quantifier": "every rank, shape, layout, label lists, argument list", "why_tests_cant": "Ranks, shapes, labels and argument lists are unbounded.", "anchors": ["c++/nda/layout/rect_str.hpp: rect_str, operator(), slice, get_string_indices, transpose, operator=="]}
{"id": "C60", "title": "Division by a matrix", "statement": "a / b for a p by n matrix a (matrix, conjugated matrix or expression) and an n by n matrix or expression b throws exactly if b has no inverse, and otherwise returns a new p by n matrix x with x*b = a; s / b for a scalar s likewise gives x with x*b = s times the unit matrix. What a and b read is left unchanged. A b that is not square is refused where assertions are on.", "quantifier": "every shape, every storage order of a and b, every field, every content, every library that keeps the promises of getrf and getri (none needed for n up to 3)", "why_tests_cant": "All shapes and contents.", "anchors": ["c++/nda/arithmetic.hpp: operator/", "c++/nda/linalg/det_and_inverse.hpp: inverse"]}
{"id": "C62", "title": "Linear least squares", "statement": "A worker built from an m by n matrix A of full column rank (m >= n), called with right-hand sides b, returns the unique x with A^h (b - A x) = 0 for every column; by Pythagoras no other y has a smaller residual; the error returned is the largest residual norm of a column divided by sqrt(m), and 0 for square systems. The hermitian worker returns x with hermitian blocks whose residual is smallest among all y with hermitian blocks. Fewer rows than columns, a right-hand side of other length, and blocks that do not fit are refused. Not so: right-hand sides without columns (for rectangular A) read the maximum of an empty range.", "quantifier": "every shape, matrix of full rank, right-hand side, block dimension, every field with conjugation, every singular value decomposition", "why_tests_cant": "All shapes, matrices and right-hand sides.", "anchors": ["c++/nda/lapack/gelss_worker.hpp: gelss_worker, gelss_worker_hermitian", "c++/nda/lapack/gesvd.hpp: gesvd"]}
{"id": "C61", "title": "Norms of vectors", "statement": "norm(x, p) of a vector, view or expression with n elements is the norm of order p: for p = 0 the number of elements that are not zero, for finite p > 0 the number r >= 0 with r^p = sum |x_i|^p (p = 2: the Euclidean norm), likewise for p < 0 if no element is zero, for +inf (-inf) the largest (smallest) absolute value of a non-empty vector. Norms of positive and infinite order vanish exactly for zero vectors. Not so: vectors with a negative stride (p = 2), empty vectors (infinite p).", "quantifier": "every length, stride > 0, content, expression, order p", "why_tests_cant": "Lengths, contents and orders are unbounded.", "anchors": ["c++/nda/linalg/norm.hpp: norm"]}
{"id": "C63", "title": "Printing arrays and expressions", "statement": "operator<< writes a vector as [a,b,c] in index order and a matrix row by row, for every layout; an array of higher rank as one bracket with every element once, in the order of its layout. From the text of vectors, of matrices that have rows, and of expressions made of them, the shape, the elements and the way the expression was built can be read back (two of them print alike exactly if they agree), provided that elements print differently and without brackets, commas, blanks; integers do. Not so: arrays of rank 3 and more are printed in memory order, so arrays with different elements may print alike and equal arrays differently; matrices without rows lose their number of columns; the value of a rank 0 array is not printed; printing a view of rank 3 or more with an extent zero that is not the slowest never ends.", "quantifier": "every rank, shape, layout, content, expression tree, element type with a legible text", "why_tests_cant": "Shapes, contents and expressions are unbounded; unambiguity is a statement about pairs of them.", "anchors": ["c++/nda/print.hpp: operator<<"]}
{"id": "C64", "title": "Arrays shared with NumPy", "statement": "An array or view handed to Python becomes a NumPy array of the same shape on the same elements (read-only exactly if the elements are const). A NumPy array is accepted as a view exactly if rank and type agree and it is in C order, and the view then looks at the same elements; a view in C order that goes to Python and back is the same view. Any object Python can turn into an array of the type and rank is accepted as an array and gives a new array with its elements. Not so: NumPy arrays with negative strides (a[::-1]) or with strides that are not multiples of the element size (fields of records) are accepted but looked at in wrong places.", "quantifier": "every rank, shape, layout, element size, content, every Python that keeps NumPy's promise for PyArray_FromAny", "why_tests_cant": "Shapes, strides and contents are unbounded.", "anchors": ["python/nda_py/nda_py.hpp: make_numpy_proxy_from_array_or_view", "python/nda_py/cpp2py_converters.hpp: py_converter<nda::basic_array_view>, py_converter<nda::basic_array>, numpy_check_layout"]}
{"id": "C65", "title": "Comparisons of arrays in tests", "statement": "EXPECT_EQ_ARRAY succeeds exactly if shapes and all elements are equal; EXPECT_ARRAY_NEAR of arrays with the same element type exactly if the shapes are equal and every pair of elements is closer than the precision, EXPECT_ARRAY_ZERO exactly if every element is smaller than the precision, given that no difference is a NaN; empty arrays of one shape always agree. EXPECT_COMPLEX_NEAR demands a distance below, EXPECT_CLOSE one not above the precision. With NaN: only one in the first element is noticed (refuted beyond), EXPECT_CLOSE notices none; elements are first converted to the type of the left array, so integers agree with truncated floating point numbers.", "quantifier": "all ranks, shapes, arrays or expressions, element types, conversions, orders of numbers with NaN, precisions", "why_tests_cant": "these functions are what tests rely on; which inputs they let through is a statement about all inputs, in particular about rare values such as NaN at any position", "anchors": ["c++/nda/gtest_tools.hpp: array_are_equal, array_are_close, array_almost_zero, complex_are_close, generic_are_near", "c++/nda/algorithms.hpp: max_element"]}
{"id": "C66", "title": "No overflow in index arithmetic", "statement": "Sizes, strides and offsets are 64-bit signed numbers. For an array whose extents have a product below 2^63 (zero extents counted as 1) the size and the strides are computed without overflow; so are offset and strides of every non-empty slice inside the bounds of any view, if its ranges have step 1 or select two positions or more, the position of every element of such a view, with or without ellipsis, and, up to 2^62 elements, the contiguity test. Beyond these limits it is refuted: arrays without elements whose other extents are large, single-element ranges with large steps; the number of bytes allocated wraps modulo 2^64, so that huge arrays get a small block instead of an error.", "quantifier": "all ranks, shapes, stride orders, chains of slicings and transpositions, indices and argument lists", "why_tests_cant": "overflow needs extents near 2^63, which no test can allocate, in any of infinitely many chains of views; the limits are a statement about all of them", "anchors": ["c++/nda/layout/idx_map.hpp: size, is_contiguous, compute_strides_contiguous, myget, call_impl", "c++/nda/layout/slice_static.hpp: get_offset, get_s, slice_stride_order_impl", "c++/nda/mem/handle.hpp: handle_heap, handle_sso constructors"]}
{"id": "C67", "title": "Host, device and unified memory", "statement": "An assignment between arrays, or from an expression whose arrays are not partly in device and partly in unified memory, never makes host code touch device memory: it copies blocks, throws, or loops over memory the host can reach; without device memory it never throws for that reason. The BLAS and LAPACK wrappers accept exactly argument lists that the host can reach as a whole or the device can reach as a whole, and run the host or device library accordingly, with buffers it can reach; the predicates on address spaces hold of a list exactly if they hold of each of its spaces; every wrapper hands all its arguments to the library; so do inverse, matmul, matvecmul and dot for element types BLAS knows. to_host, to_device and to_unified return the argument if it is there, and otherwise copy. Combining address spaces gives the greatest one and is symmetric for two. Not so: an expression mixing device and unified memory is read by host code; scalars are assigned to device arrays by host code; products of other element types loop on the host over device memory; whether three spaces may be combined depends on their order.", "quantifier": "all combinations of address spaces, all expression trees, all layouts and shapes as far as the code tests them", "why_tests_cant": "needs every combination of spaces and every expression tree; a wrong branch shows only as a crash on a machine with a GPU", "anchors": ["c++/nda/mem/address_space.hpp: combine, get_addr_space, have_compatible_addr_space", "c++/nda/_impl_basic_array_view_common.hpp: assign_from_ndarray, fill_with_scalar", "c++/nda/blas/gemm.hpp: gemm, gemm_generic", "c++/nda/linalg/matmul.hpp: matmul, matvecmul", "c++/nda/basic_functions.hpp: to_host, to_device, to_unified"]}
{"id": "C68", "title": "Short arrays of fixed length", "statement": "The functions nda adds to std::array, with which shapes, strides and indices are computed, do what they say for every length: append, front_append, pop, mpop, front_pop, front_mpop, join, make_initialized_array, make_std_array, to_vector give the expected sequence (appending and removing, joining and separating are inverse); + - * are elementwise and leave no element uninitialised; sum, product and dot_product go from left to right and over every ring are the usual ones; the text is (a b c), and two arrays print alike exactly if they are equal. array_adapter has the shape given and the values of the function as elements.", "quantifier": "every length, element type, content; every ring for sums and products; every legible element text", "why_tests_cant": "Lengths and contents are unbounded.", "anchors": ["c++/nda/stdutil/array.hpp: append, front_append, pop, mpop, front_pop, front_mpop, join, sum, product, dot_product, to_string", "c++/nda/array_adapter.hpp: array_adapter"]}
{"id": "C69", "title": "Programs of arrays and views mean what their indices say", "statement": "A program that makes arrays from values and expressions, takes slices, permuted and reshaped views of them and of views, writes elements, fills, assigns and compound-assigns expressions, assigns to an array an object of another shape (in the same or in other memory) or a whole array, multiplies matrices, views of matrices and matrix expressions with each other and with vectors, rebinds, swaps and deep-swaps views and destroys arrays, runs to its end and leaves in every variable whose array still exists exactly the elements it would have if arrays were functions of their indices and views renamings of indices; memory outside the arrays is not touched. Hence the elements do not depend on the storage orders of the arrays, on the build (debug or release), on the element type being trivial, on the allocator or on what the memory held before. Required: indices in bounds, shapes that fit, factors of products whose elements are adjacent in the dimension stored fastest, no use of destroyed arrays or of views of an array that has since been resized or replaced, an assignment that resizes an array does not read it, assignments that read of the elements they write only the one being written.", "quantifier": "every program of any length, all shapes, ranks below 16, storage orders, slices, element types with + - * /, allocators that do not hand out memory in use (they may reuse freed memory), initial memories, debug and release builds", "why_tests_cant": "Programs, shapes and allocators are unbounded; an error may need a particular chain of views and statements.", "anchors": ["c++/nda/basic_array.hpp:basic_array", "c++/nda/basic_array_view.hpp:basic_array_view", "c++/nda/_impl_basic_array_view_common.hpp:assign_from_ndarray", "c++/nda/_impl_basic_array_view_common.hpp:operator()", "c++/nda/layout_transforms.hpp:permuted_indices_view", "c++/nda/layout_transforms.hpp:reshape", "c++/nda/arithmetic.hpp", "c++/nda/map.hpp", "c++/nda/mem/handle.hpp:handle_heap"]}
{"id": "C70", "title": "What an expression says about its layout is true of all its arrays; linear access and regular copies of expressions", "statement": "If the layout information of an arithmetic expression of arrays and views says strided_1d, all its arrays are stored in one common stride order and reading the expression at the linear index k gives its value at the k-th index tuple in that order; if it says smallest_stride_is_one, all arrays have stride 1 along their common fastest dimension; for plain arithmetic no such property is lost. make_regular of an expression or view is a new contiguous array with the same values, in the storage order of the view or, for an expression, in C order.", "quantifier": "every expression of arrays and views of any one shape (rank up to 8), built from +, -, *, /, scalars and functions, in every algebra, every stride order and memory content", "why_tests_cant": "expressions nest without bound and combine with any stride orders and layout properties; tests try a few", "anchors": ["c++/nda/traits.hpp: layout_info_t, operator&, get_layout_info, has_layout_strided_1d", "c++/nda/arithmetic.hpp: expr::compute_layout_info, operator()", "c++/nda/_impl_basic_array_view_common.hpp: operator()(_linear_index_t)", "c++/nda/basic_functions.hpp: make_regular", "c++/nda/basic_array.hpp: deduction guides"]}
{"id": "C71", "title": "Exceptions thrown while elements are constructed", "statement": "In a program with arrays whose elements' constructors may throw, and which catches what leaves a statement: an exception in a constructor of an array or in the assignment of an expression ends the program; an exception in resize leaves the statement, and then every other array is unchanged, the array itself keeps its storage and elements and may be resized, assigned or destroyed (resized to a shape with as many elements as before, it has its old elements), no memory of another array is touched or freed; statements that do not throw do what they do without exceptions. Not so: after a failed resize the array already has the new shape, so that elements it claims to have lie outside its storage; the block the resize allocated, with the elements constructed in it, is never released (exactly one for each failed resize); x = y for arrays of one type, when a copy constructor throws, destroys elements that were never constructed.", "quantifier": "every program of any length, every point at which a construction throws, all shapes, ranks, stride orders and element types", "why_tests_cant": "every construction of every statement of every program is a place where an exception may start; what is destroyed then shows only in memory", "anchors": ["c++/nda/basic_array.hpp: resize, operator=, constructors", "c++/nda/mem/handle.hpp: handle_heap(long), handle_heap(handle_heap const &), operator=, ~handle_heap"]}
{"id": "C72", "title": "Arrays used by several threads", "statement": "A program creates arrays, starts any number of threads and waits for them. If each element of the shared arrays is either only read, or accessed by one thread only while the threads run, and each thread's program - it may read and assign elements of shared arrays, and create, copy, move, resize, assign, map and destroy arrays of its own - is legal on its own, then for every interleaving of the single accesses to memory: no thread does anything undefined, no two threads race, every thread ends after a bounded number of its turns; a thread that has ended sees the values its program alone would have computed and has exactly the memory of its own arrays; after all have ended every element of the parent's arrays is as its owner left it, and the parent goes on as if it had computed these values itself. In particular a parallel loop v(idx) = g(idx, x(i), ...) whose elements are distributed over the threads gives the array of the values, for every schedule. Not so: two threads that update the same element; a thread that resizes an array another reads; two allocations from a bucket allocator, or the counter of leak_check, at the same time; two views that share the memory of one array made at the same time by two threads, although the array is const for both.", "quantifier": "every number of threads, every thread's program of any length, every schedule, all ownerships of elements, shapes, ranks, stride orders and element types", "why_tests_cant": "a schedule that loses an update or reads released memory may never happen in a test run", "anchors": ["c++/nda/mem/handle.hpp: handle_heap, allocator, get_sptr", "c++/nda/basic_array.hpp: constructors, operator=, resize, operator()", "c++/nda/mem/allocators.hpp: bucket::allocate, leak_check"]}
{"id": "C73", "title": "Debug builds stop at calls of BLAS and LAPACK functions with unsuitable arguments, and only there", "statement": "For each of gemm, gemv, ger, dot, dotc, gemm_batch, gemm_vbatch, gemm_batch_strided, the generic gemm, gemv and matmul, cross_product, getrf, getri, getrs, gtsv, gesvd, gelss, determinant_in_place, inverse_in_place and the eigenvalue functions there is a condition on the extents and steps of the arguments such that a debug build ends the program if it is not met - in particular nothing is computed and no memory is written - and does exactly what the release build does if it is met: extents that fit, dense matrices (step 1 along the last dimension of the stride order), and, for gemv, dense vectors; for a batch equal shapes; for the inverse a square matrix, dense from four rows on; for eigenvalues a square matrix without gaps. gesvd and gelss compile only for matrices stored by columns.", "quantifier": "all arguments (extents, strides, stride orders, memory contents, element types) of the listed functions", "why_tests_cant": "death tests try a few wrong arguments; that no wrong argument passes, and that no right one is refused, is about all of them", "anchors": ["c++/nda/blas/gemm.hpp: gemm, gemm_generic", "c++/nda/blas/gemv.hpp: gemv, gemv_generic", "c++/nda/blas/ger.hpp: ger", "c++/nda/blas/dot.hpp: dot, dotc", "c++/nda/blas/gemm_batch.hpp: gemm_batch, gemm_vbatch, gemm_batch_strided", "c++/nda/lapack/getrf.hpp", "c++/nda/lapack/getri.hpp", "c++/nda/lapack/getrs.hpp", "c++/nda/lapack/gtsv.hpp", "c++/nda/lapack/gesvd.hpp", "c++/nda/linalg/det_and_inverse.hpp", "c++/nda/linalg/eigenelements.hpp", "c++/nda/linalg/cross_product.hpp", "c++/nda/macros.hpp: EXPECTS", "c++/nda/lapack/gelss.hpp"]}
{"id": "C74", "title": "lapack::gelss solves least squares problems", "statement": "For an m by n matrix a and right-hand sides in the first m rows of b (both stored by columns, with any leading dimensions, b with at least max(m, n) rows), gelss leaves the solutions in the first n rows of b and the singular values in s, which is made longer if needed and otherwise keeps its further elements; it returns the number of singular values that rcond keeps, throws if the library reports a failure, and changes no other memory than a and these rows of b. If rcond drops only values that are zero, the solution is the one of smallest norm among those with the smallest residual. Not so: if b has fewer rows than a has columns and is part of a larger matrix, the solution overwrites elements outside b, without any error.", "quantifier": "every shape, rank, matrix, right-hand sides, leading dimensions, rcond, length of s, every field with conjugation and every library that computes what LAPACK documents", "why_tests_cant": "All shapes, ranks, matrices and right-hand sides.", "anchors": ["c++/nda/lapack/gelss.hpp: gelss", "c++/nda/lapack/interface/cxx_interface.cpp: gelss", "c++/nda/blas/tools.hpp: get_ld"]}
{"id": "C75", "title": "The text of a lazy expression determines the expression, up to the names of functions", "statement": "Every lazy expression that refers to live objects can be printed. Two expressions that print the same text have the same operators, placeholders, indices bound by functions and texts of values in the same places; expressions without calls and subscripts that print the same text evaluate to the same value for every binding of the placeholders, provided values print as distinct texts without the characters ' ,()[]?_!'. The names of called functions and arrays are not printed.", "quantifier": "all expressions (any depth and number of arguments), all states of the objects they refer to, all ways values are printed, all bindings", "why_tests_cant": "that no two different expressions have the same text is a statement about pairs of trees of any size; a test compares a few texts with a reference", "anchors": ["c++/nda/clef/io.hpp: operator<<(std::ostream &, expr<...> const &), operator<<(std::ostream &, make_fun_impl<...> const &), variadic_print, print_tuple", "c++/nda/clef/clef.hpp: tags::...::name()"]}
{"id": "C76", "title": "Memory shared by C++ and Python is released exactly when its last owner is gone", "statement": "In every program that passes arrays between C++ and Python (arrays, shared handles, views, NumPy arrays and their slices; sharing, copies, moves, assignments, writes, ends of scope and del, in any order and number), an array given to Python keeps its elements when the C++ array is destroyed, moved or assigned; writes on one side are seen on the other; memory is released exactly when no array, shared handle or NumPy array refers to it, once; a NumPy array held by a C++ handle outlives its Python names.", "quantifier": "all programs of the listed statements of any length, over any number of variables and names, all contents", "why_tests_cant": "lifetimes depend on the order in which owners on both sides disappear; the histories are unbounded, and use after free often goes unnoticed in a test", "anchors": ["python/nda_py/make_py_capsule.hpp: make_pycapsule, delete_pycapsule, make_handle, py_decref", "python/nda_py/nda_py.hpp", "python/nda_py/cpp2py_converters.hpp: c2py, py2c", "c++/nda/mem/handle.hpp: handle_heap::get_sptr, handle_heap move constructor, move assignment and destructor, handle_shared, handle_borrowed::parent"]}
{"id": "C77", "title": "Lazy expressions kept in variables", "statement": "In every program that keeps expressions, views and slices in variables (auto, auto &&, copies, arrays made of them, any nesting), an expression shows the elements its arrays have at the time of reading, owns the temporaries it was made from, and its copies do the same; views and slices show and change the elements of the array they were made from, as long as it keeps its storage; x = f(x, y) computes each element from the old one; nothing is leaked or freed twice. Not so: slices of expressions with temporaries, auto &&x = conj(real temporary) and views of x after x = y for an array y of the same shape refer to freed memory.", "quantifier": "all programs of the listed statements of any length, expressions of any depth, functions of any number of arguments, contents and slices", "why_tests_cant": "which operands an expression owns shows only when they are changed or gone before it is read; the histories are unbounded, and use after free often goes unnoticed in a test", "anchors": ["c++/nda/arithmetic.hpp: expr, expr_unary, operator+, operator-", "c++/nda/map.hpp: expr_call, mapped", "c++/nda/mapped_functions.hpp: conj", "c++/nda/basic_array.hpp: constructors and operator=", "c++/nda/mem/handle.hpp: handle_heap copy and move assignment"]}
{"id": "C78", "title": "Arithmetic on arrays of integers", "statement": "For arrays of any integer types, the elements of an expression are those of integer arithmetic if no operand or intermediate result leaves the type it is computed in, and a value stored in an array of a narrower type is wrapped. sum, product, trace and dot of int and wider types are right if all partial results are values of the type, and undefined behaviour otherwise; unsigned types of 32 bits and more compute modulo 2^w; sums of narrower types are computed as int, so the sum of an array of bool is the number of true elements. pow(x, n) with n >= 0 is right for every type if x^n is a value of it. frobenius_norm is right exactly if the square of every element is a value of its (promoted) type. Not so: trace wraps in the element type, pow of unsigned short can overflow int, pow(x, n) is 1 for n < 0.", "quantifier": "all integer types, shapes, elements, exponents, expressions of any depth", "why_tests_cant": "Overflow shows for few of the 2^32 or 2^64 values of an element, and undefined behaviour often goes unnoticed in a test.", "anchors": ["c++/nda/arithmetic.hpp: expr, expr_unary", "c++/nda/algorithms.hpp: fold, sum, product, frobenius_norm", "c++/nda/matrix_functions.hpp: trace", "c++/nda/blas/dot.hpp: dot_generic", "c++/nda/mapped_functions.hpp: pow"]}
{"id": "C79", "title": "The message of an error has all the pieces it was given", "statement": "what() of an nda::runtime_error shows the pieces given with << in the order given, then the closing line, whatever copies are made, destroyed or read in between; a copy shows the text of the original at the time of the copy. An error thrown with NDA_RUNTIME_ERROR, NDA_ASSERT or NDA_ASSERT2 names file and line, the condition and all pieces, and nothing happens if the condition holds. The text what() returns stays readable until the next what() on, or the end of, that object. Not so: adding to an error that was caught overwrites the beginning of its message.", "quantifier": "all programs of construction, <<, copy, what() and destruction of any length, over any number of objects, all texts", "why_tests_cant": "the order of copies, additions and reads is unbounded; a test shows one message", "anchors": ["c++/nda/exceptions.hpp: runtime_error, runtime_error::operator<<, runtime_error::what, NDA_RUNTIME_ERROR, NDA_ASSERT, NDA_ASSERT2"]}
{"id": "C80", "title": "Rounding errors of reductions and generic products", "statement": "For arrays of floating-point numbers of any shape, sum, product, trace, frobenius_norm, the generic dot product and the generic matrix and matrix-vector products have an error bounded by the number of elements combined, the unit roundoff and the sum of absolute values (plus half of the smallest number per product); if that bound stays in the range of the type the result is finite. Sums of integers (or multiples of a power of two) are exact as long as the sum of absolute values fits the mantissa. A NaN element makes sum, product and frobenius_norm NaN; a finite sum or product means that all elements are finite. Exceptions: sums depend on the order of elements, so a matrix and its transpose may have different sums; frobenius_norm overflows to infinity or underflows to zero for elements near the ends of the range.", "quantifier": "all precisions and exponent ranges (float and double among them), shapes, sizes, strides of vectors and elements", "why_tests_cant": "errors depend on all the values and on their order; tests compare a few results with a tolerance", "anchors": ["c++/nda/algorithms.hpp: fold, sum, product, frobenius_norm", "c++/nda/matrix_functions.hpp: trace", "c++/nda/blas/dot.hpp: dot_generic", "c++/nda/blas/gemm.hpp: gemm_generic", "c++/nda/blas/gemv.hpp: gemv_generic", "c++/nda/linalg/matmul.hpp: matmul"]}
{"id": "C81", "title": "Arrays of other types to and from Python", "statement": "For an element type that NumPy does not know but that has a converter: a Python array of rank at least R in C order, with at least one element and all elements convertible, is accepted and becomes an array with the converted elements at the same indices; for arrays of higher rank the converter is given the sub-arrays. A C++ array or view of any layout becomes a NumPy array of objects with the converted elements, is unchanged unless it expires (then each element is moved from once), and comes back equal. Not so: an array with one convertible element is accepted whatever its other elements are, and the converter is called on them; an array without elements is refused.", "quantifier": "all converters, ranks, shapes, strides, contents, layouts of the C++ array", "why_tests_cant": "tests convert arrays of good elements; which mixtures of elements are accepted, for all shapes and converters, is not visible from examples", "anchors": ["python/nda_py/cpp2py_converters.hpp: py_converter<nda::basic_array>::is_convertible, py2c", "python/nda_py/nda_py.hpp: make_numpy_proxy_from_array_or_view", "c++/nda/algorithms.hpp: sum", "c++/nda/array_adapter.hpp"]}
{"id": "C82", "title": "Numbers of different types in one expression, and functions of elements", "statement": "An operator + - * between a complex number and a real or complex number of another real type computes, in the larger of the two types, the complex sum, difference or product with the rounding errors of the operations on the parts only; adding a real number leaves the imaginary part as it is, multiplying by one scales both parts with one rounding each. real, imag and conj give the parts of every element; isnan(A) is true exactly where a part is not a number; abs2(A) is the square of the absolute value up to rounding, never negative, and exact for float; the sum of abs2 over an array of any type, and the Frobenius norm of a matrix of float, have bounded errors.", "quantifier": "all pairs of integers, float, double, complex<float> and complex<double> values, infinities and NaN included where stated; all shapes and elements; any recovery from NaN and any division of the C++ library", "why_tests_cant": "there are 2^128 complex numbers; conversions and overloads that lose digits or signs show for few of them", "anchors": ["c++/nda/stdutil/complex.hpp: operator+, operator-, operator*, operator/", "c++/nda/mapped_functions.hpp: real, conj, abs2, isnan", "c++/nda/mapped_functions.hxx: real, imag, abs2, isnan", "c++/nda/algorithms.hpp: frobenius_norm, sum, any, all"]}
{"id": "C83", "title": "Arrays of fixed shape are regular values", "statement": "stack_array, stack_matrix and stack_vector with one to eight extents from 1 to 15: the array has these extents and room for its elements. After any sequence of declarations, constructions, copies, moves, assignments, resizes to the same shape, fills, element writes and ends of scope each variable has its own elements, those its own statements gave it, no two variables share storage, and at the end all elements have been destroyed; in debug and release builds. In a debug build a statement that asks for another shape is stopped. Not so: in a release build such a statement is executed and leaves the buffer; for elements with destructors a = b does not destroy the old elements and a plain declaration does not construct them; extents above 15 other than the first give an array of another shape.", "quantifier": "all element types, extents, stride orders, numbers of variables, histories of any length, debug and release builds", "why_tests_cant": "histories and types are unbounded; tests use one or two shapes, numbers as elements and debug builds", "anchors": ["c++/nda/declarations.hpp: static_extents, stack_array, stack_vector, stack_matrix", "c++/nda/basic_array.hpp: basic_array, resize, operator=", "c++/nda/mem/handle.hpp: handle_stack", "c++/nda/layout/idx_map.hpp: idx_map, assert_static_extents_and_len_are_compatible, static_extents"]}
{"id": "C84", "title": "Arrays with a small buffer are regular values", "statement": "Arrays with the container policy sso<N>, whose elements are in a buffer inside the array if there are at most N of them and on the heap otherwise. After any sequence of declarations, constructions, copies, moves, assignments, resizes, element writes and ends of scope each variable has the shape and the elements its own statements gave it, as arrays on the heap have; arrays of at most N elements use no heap memory; no two variables share memory and everything is released at the end. This holds for trivially copyable elements and histories without a = a, and for elements with destructors as long as no array in the buffer is moved from and no resize ends in the buffer; those lose elements that are never destroyed. New complex elements are not zero in the buffer, although they are on the heap.", "quantifier": "all capacities, element types, ranks, stride orders, shapes, numbers of variables and histories of any length", "why_tests_cant": "histories, capacities and shapes are unbounded, and the errors appear only when sizes cross the capacity", "anchors": ["c++/nda/mem/policies.hpp: sso", "c++/nda/mem/handle.hpp: handle_sso", "c++/nda/basic_array.hpp: basic_array, resize, operator="]}
{"id": "C85", "title": "Threads may assign to disjoint views of common memory", "statement": "Several threads run programs made of the statements dst = e (e any lazy expression, also containing dst, as in dst += e), dst = view, dst = scalar (array algebra) and dst(idx) = fold(f, e, r), on views of common memory that each thread may have made by slicing. If every statement is legal by itself and no cell written by one thread is read or written by another, then for every interleaving of the single reads and writes: no thread fails and no two threads race; every thread ends after a bounded number of its own turns; once a thread has ended, the cells it read or wrote hold what its program running alone would have left there; cells no thread writes keep their values; and when all have ended the memory equals that of the programs run one after the other in any order. In particular an assignment dst = e divided among threads, each assigning the same slice of dst and of e, where the slices cover dst without overlap, gives exactly the memory of the single assignment.", "quantifier": "for all element types and arithmetic, all numbers of threads, all programs of such statements on views of any rank, shape, stride order, steps and layout property, all initial memories, and all schedules (finite sequences of thread numbers)", "why_tests_cant": "data races and lost updates show up only in some of the exponentially many interleavings; a test observes a few schedules of one machine", "anchors": ["c++/nda/_impl_basic_array_view_common.hpp: operator(), assign_from_ndarray, fill_with_scalar, operator+=", "c++/nda/arithmetic.hpp: expr::operator()", "c++/nda/map.hpp: expr_call", "c++/nda/algorithms.hpp: fold"]}
{"id": "C86", "title": "Threads may share the ownership of arrays", "statement": "Several threads share arrays: each makes shared handles of the arrays (as views that share ownership and views handed to Python do), copies, moves, assigns and ends its handles, uses elements, and may end arrays. If each program is legal by itself (in terms of what each handle refers to), and an array from which two threads make handles has been shared before and ends in neither of them, then for every interleaving: nothing undefined happens and there is no race; a block is intact as long as any handle or array refers to it; every thread ends after a bounded number of its own turns; once all have ended the handles of each thread refer to what its program alone makes them refer to, and each block is intact if something still refers to it and otherwise has been released once, with each element destroyed once. Not so: two threads that share the same (const) array for the first time may make two control blocks, and the block is released while in use.", "quantifier": "for all numbers of threads, arrays, sizes and handles, element types with and without destructor, all programs of such statements, all memories in order (new arrays are, and so are the memories reached), and all schedules", "why_tests_cant": "use after release and double release depend on the interleaving of the last decrements and on who is the last owner; tests see few schedules", "anchors": ["c++/nda/mem/handle.hpp: handle_shared, handle_heap::get_sptr, handle_heap::destruct, handle_heap::deleter, ~handle_heap"]}
{"id": "C87", "title": "MPI programs have one result and no deadlock, at any pace of the processes", "statement": "Several processes run the same program of array operations y = mpi::scatter(x), y = mpi::gather(x), y = mpi::all_gather(x), y = mpi::reduce(x), y = mpi::all_reduce(x), mpi::broadcast(y) and computations of each process on its own arrays. An MPI function may return on a process as soon as that process has what it needs, or only when all processes have called it. If every operation is legal on all processes, and in builds without checks the target of a scatter or gather is an array on all processes or a view on all processes, then for every interleaving: the k-th MPI calls of all processes are calls of the same function, with the same root and matching counts; nothing goes wrong; no process waits forever; a process that has finished has exactly the arrays that result from carrying out the operations one after the other on all processes at once. Not so: with an array on one process and a view on another, scatter and gather in a build without checks make different numbers of MPI calls on the two (the calls no longer match), and an exception in one process leaves the others waiting.", "quantifier": "for all numbers of processes, programs of any length, arrays of any rank, shape and layout, local computations, reduction operations, debug and release builds, and all schedules (finite sequences of turns, in each of which MPI may or may not wait for the others)", "why_tests_cant": "the pace of the processes and the buffering inside MPI differ from run to run; a test sees a few interleavings with two to four processes", "anchors": ["c++/nda/mpi/scatter.hpp: mpi_scatter, lazy_scatter shape, invoke", "c++/nda/mpi/gather.hpp: mpi_gather, shape, invoke", "c++/nda/mpi/reduce.hpp: mpi_reduce, invoke", "c++/nda/mpi.hpp: mpi_broadcast", "c++/nda/basic_array.hpp: operator= of an ArrayInitializer", "c++/nda/basic_array_view.hpp: operator= of an ArrayInitializer"]}
{"id": "C88", "title": "The type of an array or view describes its layout", "statement": "The type of the view that a slice, transpose or reshape returns names a layout policy; at the rank of the view this policy stands for exactly the type of its layout: the same stride order, static extents and layout property. The array made from a view keeps its stride order, has dynamic extents and is contiguous, with C_layout for C order and F_layout for Fortran order. The weaker and the stronger variant of a policy differ from it in the property only. A contiguous view of C order (property contiguous or none) can be reshaped to every shape with as many elements, and the result has the same policy and can be reshaped again. For the other views the policy carries the stride order of their own rank: reshaping to a lower rank works exactly if the first entries of the stride order are an order of the new rank, and reshaping to a higher rank compiles but leaves a stride unwritten.", "quantifier": "all layouts of rank 1 to 8 with all stride orders, static extents and properties; all shapes reshaped to; all uninitialised memory contents", "why_tests_cant": "the numbers of ranks, stride orders and extents are too large to instantiate, and an unwritten stride often happens to have a harmless value", "anchors": ["c++/nda/layout/policies.hpp: C_layout, F_layout, C_stride_layout, F_stride_layout, basic_layout, get_contiguous_layout_policy, layout_to_policy", "c++/nda/layout/idx_map.hpp: idx_map", "c++/nda/layout_transforms.hpp: map_layout_transform, reshape", "c++/nda/basic_array.hpp: deduction guide from MemoryArray"]}
{"id": "C89", "title": "The functions on raw memory change exactly the bytes asked for", "statement": "memset(p, value, count) and memset2D(p, pitch, value, width, height) on the host set every byte of the region or of the rows to the value (modulo 256) and change no other byte, whatever the pitch. memcpy(dest, src, count) copies the bytes between regions that do not overlap. memcpy2D(dest, dpitch, src, spitch, width, height) with rows that fit into both pitches and a source apart from the target makes row i of the target equal to row i of the source, without undefined behaviour, and changes no other byte, in particular not those between the rows; in debug builds rows that do not fit are reported. Copying rows of elements of any size is copying the rows of their bytes.", "quantifier": "all addresses, counts, pitches, widths, heights, values, element sizes and memory contents", "why_tests_cant": "sizes, pitches and contents are unbounded, and bytes changed by mistake between or behind rows are not looked at by tests of values", "anchors": ["c++/nda/mem/memset.hpp: memset, memset2D", "c++/nda/mem/memcpy.hpp: memcpy, memcpy2D", "c++/nda/_impl_basic_array_view_common.hpp: assign_from_ndarray"]}
