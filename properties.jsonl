{"id": "C01", "title": "Flat offset is the affine address map and vanishes at min", "statement": "For a shape s of any rank, s[i] equals the sum over all dimensions of (i_d - min_d)*stride_d. In particular s[s.min()] = 0, and moving an index by a vector v moves the offset by the sum of v_d*stride_d, regardless of where the mins are.", "quantifier": "all ranks, all mins/extents/strides (any sign), all indices of matching rank", "why_tests_cant": "Tests evaluate a handful of shapes of rank at most 10; the variadic sum is implemented in chunks of four arguments and could be wrong at an untested rank or stride sign.", "anchors": ["include/array/array.h: dim::flat_offset", "include/array/array.h: internal::flat_offset", "include/array/array.h: internal::sum", "include/array/array.h: shape::operator[]"]}
{"id": "C02", "title": "flat_min and flat_max are the exact range of in-range offsets", "statement": "For a non-empty shape (all extents at least 1), every in-range index has an offset in [flat_min, flat_max], both ends are attained by some in-range index, and flat_extent = flat_max - flat_min + 1 >= 1.", "quantifier": "all ranks, all non-empty shapes with arbitrary stride signs, all in-range indices", "why_tests_cant": "It is a statement about every index of every shape; tests only sample a few shapes.", "anchors": ["include/array/array.h: internal::flat_min", "include/array/array.h: internal::flat_max", "include/array/array.h: shape::flat_extent"]}
{"id": "C03", "title": "Element accesses of an allocated array stay inside its buffer", "statement": "After an array allocates storage for a non-empty shape (flat_extent elements, base pointer placed at buffer - flat_min), reading or writing the element at any in-range index touches a cell of that buffer, whatever the strides and mins.", "quantifier": "all non-empty shapes of any rank, any stride sign, all in-range indices", "why_tests_cant": "Memory safety has to hold for every index of every layout; a test run only visits particular ones and a small overrun may go unnoticed.", "anchors": ["include/array/array.h: array::allocate", "include/array/array.h: array::operator[]", "include/array/array.h: pointer_add"]}
{"id": "C04", "title": "resolve() fills exactly the unknown strides", "statement": "shape::resolve leaves rank, mins, extents and all already known strides unchanged, gives every unknown stride a positive value (never the 'unresolved' marker nor the 'no candidate' marker), and is idempotent.", "quantifier": "all ranks, all extents >= 0, any subset of strides unknown, products of extent and stride representable", "why_tests_cant": "The stride search is a greedy algorithm over all other dimensions; tests check a few dozen hand computed combinations.", "anchors": ["include/array/array.h: shape::resolve", "include/array/array.h: internal::find_stride", "include/array/array.h: internal::filter_stride", "include/array/array.h: internal::is_stride_ok", "include/array/array.h: internal::candidate_stride"]}
{"id": "C05", "title": "Automatically resolved strides never make two indices collide", "statement": "If the dimensions whose stride the user gave are pairwise nested (those with extent > 1 have a non-zero stride and, for any two of them, one's whole span fits inside the other's stride), then after resolve() two different in-range indices never have the same flat offset. The nesting requirement cannot be dropped: there are user-given strides that are injective by themselves for which resolve() creates a collision.", "quantifier": "all ranks, all extents >= 1, any subset of strides unknown, arbitrary nested known strides of any sign", "why_tests_cant": "Injectivity quantifies over all pairs of indices and over all ways the greedy choice can go; tests only compare chosen strides with expected numbers.", "anchors": ["include/array/array.h: shape::resolve", "include/array/array.h: internal::is_stride_ok", "include/array/array.h: internal::find_stride"]}
{"id": "C06", "title": "Default layout is dense, compact and innermost-first", "statement": "A shape whose strides are all unknown resolves to stride_0 = 1 and stride_k = product of the earlier extents; the result is compact: flat_min = 0, flat_extent = size, and the offsets of its indices are exactly 0..size-1.", "quantifier": "all ranks, all extents >= 1", "why_tests_cant": "Tests check ranks up to 10 with particular extents; the claim is for all.", "anchors": ["include/array/array.h: shape::resolve", "include/array/array.h: internal::find_stride"]}
{"id": "C07", "title": "One dense dimension in any position still gives a compact array", "statement": "If exactly one dimension has a known stride of 1 or -1 and all others are unknown, resolve() produces a layout without holes and without collisions: the offsets of the in-range indices are exactly the integers from flat_min to flat_max, each hit once, and flat_extent = size. More generally this holds whenever the known strides themselves tile an initial block.", "quantifier": "all ranks, all positions of the dense dimension, all extents >= 1", "why_tests_cant": "Tests cover a few permutations for rank up to 6.", "anchors": ["include/array/array.h: shape::resolve", "include/array/array.h: internal::find_stride", "include/array/array.h: shape::is_compact"]}
{"id": "C08", "title": "size() counts the in-range indices", "statement": "If no extent is negative, size() is the number of distinct in-range indices and empty() is true exactly when there is none. (With two negative extents size() is positive although no index is in range: the non-negativity requirement is necessary.)", "quantifier": "all ranks, all extents >= 0", "why_tests_cant": "Counting all indices of all shapes cannot be done by running examples.", "anchors": ["include/array/array.h: shape::size", "include/array/array.h: shape::empty", "include/array/array.h: internal::product"]}
{"id": "C09", "title": "is_compact and is_one_to_one are sound in one direction", "statement": "If is_one_to_one() is false, two different in-range indices share an offset. If every offset in [flat_min, flat_max] is hit by some index of a non-empty shape then is_compact() is true. The converse directions fail: there are shapes reported one-to-one that are not injective, and shapes reported compact that have holes.", "quantifier": "all ranks, all shapes with extents >= 1", "why_tests_cant": "A pigeonhole argument over all indices; tests check small lists of literals.", "anchors": ["include/array/array.h: shape::is_compact", "include/array/array.h: shape::is_one_to_one"]}
{"id": "C10", "title": "is_in_range is exact, and slices that pass it stay in bounds", "statement": "is_in_range(i) is true exactly when min_d <= i_d <= max_d in every dimension. For interval arguments it is true for a non-empty interval exactly when every point of the interval is in range. (The placeholder _ is not recognised: is_in_range(_) is false for a dimension with min > 0.)", "quantifier": "all ranks, all shapes, all tuples of indices and intervals", "why_tests_cant": "Universal over indices and intervals.", "anchors": ["include/array/array.h: interval::is_in_range", "include/array/array.h: shape::is_in_range", "include/array/array.h: internal::is_in_range", "include/array/array.h: internal::all"]}
{"id": "C11", "title": "Range-for over an interval or dim visits min..max once each, ascending", "statement": "for (i : interval) visits exactly the integers min, min+1, ..., max, each once and in ascending order, when extent >= 0. When extent is negative the loop does not stop before incrementing the largest representable index (signed overflow), because it compares with !=.", "quantifier": "all intervals whose end is representable", "why_tests_cant": "Universal over intervals; the non-terminating case cannot be observed by a test.", "anchors": ["include/array/array.h: index_iterator", "include/array/array.h: interval::begin", "include/array/array.h: interval::end"]}
{"id": "C12", "title": "for_each_index visits every index exactly once, first dimension innermost", "statement": "for_each_index (default traits) calls the callback once for each in-range index and never with any other index, in the order in which the first dimension varies fastest (indices increase in reversed lexicographic order).", "quantifier": "all ranks, all shapes with extents >= 0", "why_tests_cant": "Exactly-once coverage over all shapes; the loop nest is generated recursively two dimensions at a time.", "anchors": ["include/array/array.h: for_each_index_in_order", "include/array/array.h: internal::for_each_index_in_order_impl", "include/array/array.h: shape_traits::for_each_index"]}
{"id": "C13", "title": "Explicit loop orders only permute the traversal", "statement": "for_each_index<LoopOrder...> with a permutation as loop order calls the callback with each in-range index exactly once, given in the dimension order of the shape, and the first listed dimension is the innermost loop.", "quantifier": "all ranks, all permutations, all shapes with extents >= 0", "why_tests_cant": "There are rank! orders and unboundedly many shapes; tests try two.", "anchors": ["include/array/array.h: for_each_index", "include/array/array.h: internal::unshuffle", "include/array/array.h: internal::index_of", "include/array/array.h: reorder"]}
{"id": "C14", "title": "for_each_value reaches every element exactly once, whatever the layout", "statement": "Although for_each_value sorts dimensions by stride and fuses them, the callback is applied to exactly the addresses base + s[i] of the in-range indices i, with the same multiplicity (each index once).", "quantifier": "all ranks, all shapes with extents >= 0, arbitrary strides including 0 and negative", "why_tests_cant": "The loop optimiser has many data dependent paths (sorting, chains of fusions); tests visit few.", "anchors": ["include/array/array.h: shape_traits::for_each_value", "include/array/array.h: internal::dynamic_optimize_shape", "include/array/array.h: internal::can_fuse", "include/array/array.h: internal::fuse", "include/array/array.h: internal::bubble_sort", "include/array/array.h: internal::for_each_value_in_order_impl"]}
{"id": "C15", "title": "Lockstep traversal of two arrays pairs equal indices", "statement": "The two-array traversal used by copy, move, equality and reshape pairs, for every in-range index i of the destination shape exactly once, the source element at i with the destination element at i, for any combination of layouts and mins, even though both shapes are jointly sorted and fused.", "quantifier": "all ranks, all pairs of source and destination shapes of the same rank, destination extents >= 0", "why_tests_cant": "The joint optimisation depends on two sets of strides, extents and mins simultaneously.", "anchors": ["include/array/array.h: copy_shape_traits::for_each_value", "include/array/array.h: internal::dynamic_optimize_copy_shapes", "include/array/array.h: for_each_value_in_order"]}
{"id": "C16", "title": "copy makes every destination element equal the source and touches nothing else", "statement": "After copy(src, dst) with dst's index range inside src's, dst(i) == src(i) for every in-range index i of dst, no memory outside dst's elements changes, nothing is read outside src, provided dst's layout is injective and the two do not share memory. If dst's range is not inside src's, the call is rejected by an assertion.", "quantifier": "all ranks, all layouts, all memory contents", "why_tests_cant": "Functional correctness with a frame condition for all layouts.", "anchors": ["include/array/array.h: copy", "include/array/array.h: copy_shape_traits::for_each_value"]}
{"id": "C17", "title": "fill, generate and transform_index write every element and nothing else", "statement": "fill(a, v) makes every element v; transform_index(a, f) makes a(i) = f(i) for every in-range i; generate calls the generator once per element; in each case no other memory changes and no access is out of bounds.", "quantifier": "all ranks, all layouts (injective for transform_index), all values", "why_tests_cant": "Universal over layouts and memory contents.", "anchors": ["include/array/array.h: fill", "include/array/array.h: generate", "include/array/array.h: transform_index"]}
{"id": "C18", "title": "Array equality is element-wise equality", "statement": "equal(a, b) is true exactly when the mins and extents agree and a(i) == b(i) for every in-range i. operator== is true exactly when the shapes (including strides) agree and all elements agree.", "quantifier": "all ranks, all pairs of layouts with extents >= 0, all contents", "why_tests_cant": "A wrong pairing in the fused traversal could make unequal arrays equal for layouts no test uses.", "anchors": ["include/array/array.h: equal", "include/array/array.h: array_ref::operator!="]}
{"id": "C19", "title": "Slices and crops denote the parent's elements", "statement": "For any mix of single indices, intervals and _ placed in the parent's range, the element of the slice at an in-range index of the slice is the element of the parent at the corresponding full index (same address), the slice has one dimension per non-index argument with exactly the requested bounds, and therefore stays in the parent's memory.", "quantifier": "all ranks, all combinations of argument kinds, all layouts", "why_tests_cant": "Combinatorially many argument kinds per rank; tests use a few.", "anchors": ["include/array/array.h: internal::make_array_ref_at", "include/array/array.h: internal::intervals_with_strides", "include/array/array.h: internal::range_with_stride", "include/array/array.h: internal::skip_slices", "include/array/array.h: internal::mins_of_intervals", "include/array/array.h: array_ref::operator()"]}
{"id": "C20", "title": "Slicing composes", "statement": "Taking a slice of a slice addresses the same elements, with the same bounds, as the single slice with the combined arguments.", "quantifier": "all ranks, all pairs of successive slicings that are in range", "why_tests_cant": "Quantifies over pairs of arbitrary slicings.", "anchors": ["include/array/array.h: internal::make_array_ref_at", "include/array/array.h: array_ref::operator()"]}
{"id": "C21", "title": "transpose and reorder only relabel indices", "statement": "transpose<Is...>(a) at the permuted index addresses the same element as a at the original index; transposing by a permutation and then by its inverse gives back the original shape. reorder keeps the selected dimensions.", "quantifier": "all ranks, all permutations, all layouts", "why_tests_cant": "rank! permutations for every rank.", "anchors": ["include/array/array.h: transpose", "include/array/array.h: reorder", "include/array/array.h: internal::transpose"]}
{"id": "C22", "title": "The compile-time permutation test is exact up to rank 4 and wrong at rank 5", "statement": "For rank at most 4 the product test used to validate transpose arguments accepts exactly the permutations. At rank 5 it accepts the non-permutation <1,1,2,2,3>, so an invalid transpose compiles and drops dimensions.", "quantifier": "all index lists up to rank 4; existence at rank 5", "why_tests_cant": "No test can enumerate rejected template arguments, as these do not compile.", "anchors": ["include/array/array.h: internal::enable_if_permutation", "include/array/array.h: internal::factorial"]}
{"id": "C23", "title": "Dynamic split partitions the interval", "statement": "split(v, n) with n >= 1 visits consecutive intervals that partition v in order: each has extent n except possibly the last, which holds the remainder; every element of v lies in exactly one of them.", "quantifier": "all intervals with extent >= 0, all split factors >= 1", "why_tests_cant": "Universal over extents and factors, including non divisible ones.", "anchors": ["include/array/array.h: split", "include/array/array.h: split_iterator::operator+=", "include/array/array.h: split_result"]}
{"id": "C24", "title": "Static split covers the interval with full-size pieces", "statement": "split<N>(v) with v.extent() >= N >= 1 visits intervals of extent exactly N, all inside v, whose union is v; all but the last are disjoint and consecutive and the last overlaps its predecessor by fewer than N elements. If v.extent() < N the call is rejected by an assertion; without it, if v is not empty, the loop leaves v and never ends.", "quantifier": "all intervals, all N >= 1", "why_tests_cant": "Universal over extents and factors.", "anchors": ["include/array/array.h: split", "include/array/array.h: split_iterator::operator+="]}
{"id": "C25", "title": "Split results have consistent random access", "statement": "size() of a split result is the number of pieces visited (the ceiling of extent/n), and result[k] for 0 <= k < size() is the k-th visited piece; begin + k for k < size() agrees with k increments. begin + size() is not end when the factor does not divide the extent.", "quantifier": "all intervals, all factors >= 1, all positions", "why_tests_cant": "Universal over positions, extents and factors; also used by the z-order traversal.", "anchors": ["include/array/array.h: split_result::size", "include/array/array.h: split_result::operator[]", "include/array/array.h: split_iterator::operator-", "include/array/array.h: split_iterator::operator+="]}
{"id": "C26", "title": "Z-order traversal visits every combination exactly once, in Morton order", "statement": "for_each_in_z_order over ranges of positive lengths calls the callback with every combination of elements exactly once, in increasing order of the bit-interleaved (Morton) code. If some range is empty the callback is nevertheless invoked, with an element that is not in the range.", "quantifier": "all ranks >= 1, all positive range lengths", "why_tests_cant": "Exactly-once coverage for all ranks and lengths of a recursive bit algorithm.", "anchors": ["include/array/z_order.h: for_each_index_in_z_order_impl", "include/array/z_order.h: for_each_index_in_z_order", "include/array/z_order.h: next_power_of_two", "include/array/z_order.h: for_each_in_z_order"]}
{"id": "C27", "title": "set_shape and reinterpret_shape checks imply memory safety; move_reinterpret_shape checks the wrong way", "statement": "If the bounds assertion of set_shape or reinterpret_shape passes then every in-range index of the new view addresses memory inside the old view's flat range. The assertion in move_reinterpret_shape has the opposite sign: it rejects an in-bounds offset and accepts an offset with which every element is outside of the buffer.", "quantifier": "all old and new non-empty shapes, all offsets", "why_tests_cant": "Universal over offsets and shapes; debug assertion behaviour with nonzero offsets is never tested for the move variant.", "anchors": ["include/array/array.h: shape::is_subset_of", "include/array/array.h: array_ref::set_shape", "include/array/array.h: array::set_shape", "include/array/array.h: reinterpret_shape", "include/array/array.h: move_reinterpret_shape"]}
{"id": "C28", "title": "make_compact keeps bounds and gives a compact layout for fully dynamic strides", "statement": "make_compact keeps mins and extents. If no stride is static the result is compact and injective. With static strides it can fail: it may leave padding although none is needed (dense first dimension of static extent), and it may even produce a layout in which two indices collide (static stride of magnitude > 1 with negative sign).", "quantifier": "all ranks, all static/dynamic parameter combinations for bounds; all extents >= 1 for compactness", "why_tests_cant": "The stride computation happens at compile time over all template parameter combinations.", "anchors": ["include/array/array.h: make_compact", "include/array/array.h: internal::make_compact_dims"]}
{"id": "C29", "title": "Conversions between shape types preserve the index to element mapping or are rejected", "statement": "Converting a shape to another type with the same rank either fails an assertion (some static min, extent or stride differs) or yields the same mins, extents and strides, hence the same element for every index. convert_shape may drop trailing dimensions of extent 1 or append dimensions of extent 1 without changing the element denoted. A stride that is still missing is taken from the target type. is_compatible returns true only if the conversion passes the assertions, and always does so for a shape without missing strides. Without assertions the static values of the target type win, so that an incompatible conversion silently changes the mapping.", "quantifier": "all ranks, all static/dynamic parameters, all runtime values", "why_tests_cant": "Cross product of template parameters and runtime values.", "anchors": ["include/array/array.h: internal::assert_dim_compatible", "include/array/array.h: internal::convert_dims", "include/array/array.h: convert_shape", "include/array/array.h: is_compatible", "include/array/array.h: is_explicitly_compatible"]}
{"id": "C30", "title": "clamp returns the nearest point", "statement": "clamp(i, interval) with a non-empty interval is in the interval, equals i if i is already inside, and no point of the interval is nearer to i. clamp(shape, bounds) is the intersection of the index sets.", "quantifier": "all integers, all intervals; all pairs of shapes of equal rank", "why_tests_cant": "Universal statement.", "anchors": ["include/array/array.h: clamp", "include/array/array.h: internal::clamp_dims", "include/array/array.h: internal::clamp"]}
{"id": "C31", "title": "Constructing an array initialises each element exactly once", "statement": "An array constructed from a shape, from a shape and a value, by copying or by element-wise move starts the lifetime of exactly the cells addressed by its in-range indices, each exactly once, with the right value; padding cells stay untouched. This needs an injective layout: with a broadcast (stride 0) dimension the same element is constructed several times without being destroyed.", "quantifier": "all shapes with injective layout, all element types (abstract values)", "why_tests_cant": "Double construction over padding/overlap is not visible for trivial types and only counted for two layouts in the tests.", "anchors": ["include/array/array.h: array::construct", "include/array/array.h: array::copy_construct", "include/array/array.h: array::move_construct", "include/array/array.h: array::allocate"]}
{"id": "C32", "title": "Copy construction and copy assignment make equal, independent arrays", "statement": "After b = a or array b(a): b has a's shape, b(i) == a(i) for all in-range i, a is unchanged, and later writes to one are not visible in the other; self assignment changes nothing.", "quantifier": "all states of both arrays, all shapes, all allocator propagation traits", "why_tests_cant": "Aliasing and reuse-of-storage paths depend on runtime state combinations.", "anchors": ["include/array/array.h: array::operator=", "include/array/array.h: array::assign", "include/array/array.h: array::array(const array&)"]}
{"id": "C33", "title": "Moves transfer contents and leave an empty array", "statement": "Move construction and move assignment give the target the source's shape and contents. If the memory can be taken over, no element is copied or moved; after move construction the source is then empty and safe to reuse (provided that the default value of the shape type is empty), after move assignment it has what the target had before. Otherwise the elements are moved one by one. If the shape type is statically non-empty the moved-from array reports a non-empty shape while owning no memory, and assign(shape, value) on it leaves it without memory.", "quantifier": "all states of both arrays, all allocator propagation traits and equality outcomes", "why_tests_cant": "State combinations of two arrays and allocators; moved-from states with static shapes are untested.", "anchors": ["include/array/array.h: array::array(array&&)", "include/array/array.h: array::operator=(array&&)", "include/array/array.h: array::swap_except_allocator", "include/array/array.h: array::move_alloc"]}
{"id": "C34", "title": "swap exchanges shape and contents", "statement": "a.swap(b) exchanges shapes and elements of a and b for every allocator propagation and equality outcome, and leaks nothing.", "quantifier": "all pairs of array states, all allocator traits", "why_tests_cant": "Several allocator dependent implementations; tests run two.", "anchors": ["include/array/array.h: array::swap"]}
{"id": "C35", "title": "reshape preserves the elements in the intersection", "statement": "After a.reshape(s): a has shape s, elements at indices that are in both the old and the new range keep their values, the others are value initialised. Failing cases: reshaping an empty default rank 2 array to bounds that start beyond the origin trips an assertion although the operation is valid; with a propagating allocator, reshape replaces the allocator of the array by a default constructed one.", "quantifier": "all old and new shapes (overlapping bounds), all contents", "why_tests_cant": "Universal over pairs of shapes.", "anchors": ["include/array/array.h: array::reshape", "include/array/array.h: clamp", "include/array/array.h: for_each_value_in_order"]}
{"id": "C36", "title": "No sequence of container operations leaks, double frees or touches dead objects", "statement": "Starting from no arrays, after any sequence of constructions, copies, moves, assignments, swaps, reshapes, clears, element writes and destructions with non-overlapping layouts (and shape types whose default is empty): no operation reads or destroys a dead element or constructs over a live one, no block is freed twice or by the wrong allocator, and after all arrays are destroyed every element ever constructed has been destroyed and every block has been freed.", "quantifier": "all finite operation sequences, all shapes, all allocator propagation traits and allocator equalities", "why_tests_cant": "Unbounded histories; tests check construction/destruction counts for short scripted scenarios.", "anchors": ["include/array/array.h: array", "test/array_lifetime.cpp"]}
{"id": "C37", "title": "auto_allocator never hands out its inline buffer twice", "statement": "auto_allocator returns its inline buffer only when it is free and the request fits, otherwise delegates; an array whose memory fits never has it from the base allocator; it frees through the matching path; two auto_allocators compare equal only if each can release the other's memory. Hence arrays using it are safe under all container operations, including moves and swaps of inline arrays.", "quantifier": "all sequences of allocate/deallocate/copy/move/swap, all sizes and alignments capacities", "why_tests_cant": "State machine over unbounded sequences, including swaps of partially inline arrays.", "anchors": ["include/array/array.h: auto_allocator", "include/array/array.h: array::operator=(array&&)", "include/array/array.h: array::swap"]}
{"id": "C38", "title": "ein_reduce computes the index-notation sum", "statement": "ein_reduce(ein<out...>(R) += E) leaves R(o) = R0(o) + sum over all values of the reduction indices of E, for every in-range output index o, where every operand is read at the index obtained by substituting the loop variables; with = and no reduction index it is an element-wise assignment. Elements not addressed by R are unchanged.", "quantifier": "all operand ranks, all index assignments, all expressions built from +, -, *, /, casts and functions, all layouts with R injective and not aliased with operands, any loop order of index numbers", "why_tests_cant": "Universal over expressions, index patterns and extents.", "anchors": ["include/array/ein_reduce.h: ein_reduce", "include/array/ein_reduce.h: ein_op", "include/array/ein_reduce.h: make_ein_reduce_shape"]}
{"id": "C39", "title": "ein_reduce's dimension checks make all operand accesses in range", "statement": "If ein_reduce's assertions pass and no operand uses the same index twice, every operand is only accessed at in-range indices. With a repeated index in one operand (e.g. ein<i,i>(A)) the second occurrence is not checked, and a non-square A is accessed out of range without any assertion failing.", "quantifier": "all operand shapes and index assignments", "why_tests_cant": "Universal over shapes; out of range reads do not fail deterministically.", "anchors": ["include/array/ein_reduce.h: reconcile_dim", "include/array/ein_reduce.h: gather_dims", "include/array/ein_reduce.h: make_ein_reduce_shape"]}
{"id": "C40", "title": "make_ein_sum infers the result bounds and sums into zeros", "statement": "make_ein_sum<T, out...>(E) returns an array whose dimension d has the min and extent of the operand dimension labelled with the d-th output index, and whose elements are the sums of E over the remaining indices. In particular matrix product, dot product, outer product, trace and transposition come out as their textbook definitions.", "quantifier": "all operand shapes with compatible bounds", "why_tests_cant": "Universal over shapes and contents.", "anchors": ["include/array/ein_reduce.h: make_ein_sum", "include/array/ein_reduce.h: make_ein_reduce_shape"]}
{"id": "C41", "title": "Image crop and channel slices denote the original pixels", "statement": "crop(im, x0, y0, x1, y1, crop) restricts im to the intersection of its bounds with [x0,x1) x [y0,y1) and every pixel of the result is the pixel of im at the same coordinates; with origin zero the coordinates are shifted by the clamped (x0, y0). If the requested box lies apart from the image both in x and in y, the result has two negative extents, contains no pixel, and yet reports a positive size and is not empty().", "quantifier": "all image shapes, all crop boxes (including partially outside), both origins", "why_tests_cant": "Universal over boxes and layouts.", "anchors": ["include/array/image.h: crop", "include/array/image.h: crop_image_shape", "include/array/image.h: slice_channel"]}
{"id": "C42", "title": "Specialised image and matrix traversals visit the same elements", "statement": "For chunky images and matrices the specialised for_each_index and for_each_value visit every index/element exactly once, channels innermost for images and columns innermost for matrices; fusing x and c in a chunky image does not change the set of elements.", "quantifier": "all image and matrix shapes with non-negative extents, any x stride and number of channels", "why_tests_cant": "Universal over shapes.", "anchors": ["include/array/image.h: for_each_image_index", "include/array/image.h: shape_traits", "include/array/matrix.h: for_each_matrix_index", "include/array/matrix.h: shape_traits"]}
{"id": "C43", "title": "Offset arithmetic does not overflow when the layout fits", "statement": "If the span of a shape, the sum over the dimensions of |extent-1|*|stride|, is representable in index_t, then computing the offset of an in-range index, flat_min, flat_max and is_subset_of never overflows, and the 64-bit result is the mathematical one; flat_extent needs one element less. size() does not overflow if the product of the extents is representable, but a shape with an extent 0 can still overflow because all extents are multiplied.", "quantifier": "all ranks, all shapes meeting the bound, all in-range indices", "why_tests_cant": "Overflow needs huge extents which tests cannot allocate.", "anchors": ["include/array/array.h: dim::flat_offset", "include/array/array.h: internal::flat_min", "include/array/array.h: internal::flat_max", "include/array/array.h: shape::size"]}
{"id": "C44", "title": "The stride search does not overflow within its budget", "statement": "During resolve() no intermediate product overflows and the result is the mathematical one if the largest span of the dimensions with known stride times the product of the extents of the dimensions without one is below the largest index_t, although the search uses the largest index_t as 'no candidate' marker. It is not enough that the final layout is representable: candidates that are rejected later can overflow.", "quantifier": "all ranks, all shapes meeting the bound", "why_tests_cant": "Undefined behaviour in intermediate computations is not observable by tests.", "anchors": ["include/array/array.h: internal::is_stride_ok", "include/array/array.h: internal::filter_stride", "include/array/array.h: internal::find_stride"]}
{"id": "C45", "title": "Compile-time min/extent/stride arithmetic agrees with run time", "statement": "Whenever static_add/sub/mul/min/max and the derived Max/Extent parameters produce a static value, it equals the run-time value of the same expression for all run-time values of the dynamic parts; 'dynamic' is contagious. In a debug build a constructor asserts that a value passed for a static parameter equals it; in a release build the static value wins. A static parameter equal to the marker value -9 silently means dynamic.", "quantifier": "all static/dynamic combinations, all run-time values consistent with them", "why_tests_cant": "Cross product of template parameters.", "anchors": ["include/array/array.h: internal::static_add", "include/array/array.h: internal::static_sub", "include/array/array.h: internal::static_mul", "include/array/array.h: internal::static_min", "include/array/array.h: internal::static_max", "include/array/array.h: dynamic"]}
{"id": "C46", "title": "Tiling with split does not change results", "statement": "Running an element-wise or accumulate-then-store kernel tile by tile over split<N>/split(v,n) of each dimension writes every element at least once with the same value as the untiled loop, also when tiles overlap; accumulating in place over overlapping static tiles double counts.", "quantifier": "all extents and tile sizes, all kernels that compute an element from its index", "why_tests_cant": "Universal over sizes; tests use one size.", "anchors": ["include/array/array.h: split", "examples/linear_algebra/matrix.cpp: multiply_reduce_tiles"]}
{"id": "C47", "title": "The internal sort orders dimensions by stride", "statement": "The sort used by the loop optimiser returns a permutation of its input ordered by stride; hence the innermost loop has the smallest stride.", "quantifier": "all lists of dimensions", "why_tests_cant": "Universal over inputs.", "anchors": ["include/array/array.h: internal::bubble_sort", "include/array/array.h: internal::operator<"]}
{"id": "C48", "title": "Rational arithmetic is exact for positive denominators", "statement": "In the resampling example, rational values are kept reduced; +, -, *, comparisons, floor, ceil, round and frac agree with exact rational arithmetic when denominators are positive. A negative denominator survives reduction and makes comparison and floor wrong.", "quantifier": "all integers without overflow, denominators > 0", "why_tests_cant": "Universal over integers.", "anchors": ["examples/resample/rational.h: rational", "examples/resample/rational.h: euclidean_div", "examples/resample/rational.h: euclidean_mod", "examples/resample/rational.h: gcd"]}
{"id": "C49", "title": "Copy assignment between two empty arrays with negative strides can silently do nothing", "statement": "Assigning one array to another gives the target the source's shape, except that two empty arrays that own no memory but have a nonzero flat_min are mistaken for the same array, so the target keeps its old shape (or an assertion fails).", "quantifier": "existence of the failing pair; all other pairs of array states satisfy the property", "why_tests_cant": "Needs an empty shape with negative stride; base pointers are null minus an offset.", "anchors": ["include/array/array.h: array::allocate", "include/array/array.h: array::operator=", "include/array/array.h: array::deallocate"]}
{"id": "C50", "title": "The tiled convolution computes what the naive one does", "statement": "conv2d_naive and conv2d_tiled leave in every element (co, x, y, n) of the output the ReLU of bias(co) plus the sum over ci, dy, dx of filter(co, dx, dy, ci) * input(ci, x + dx, y + dy, n), added in that order; all accesses are in range, nothing else is written, and the results of the two agree whether or not the tiles overlap. An output smaller than a tile is rejected by the assertion in split. The two differ for sums that are not comparable with zero (NaN), because the arguments of std::max are swapped.", "quantifier": "all input, filter, bias and output views with enough elements, any bounds and strides, all tile sizes up to the output's extents, any element type", "why_tests_cant": "The program only compares one size with random positive numbers and prints differences; ReLU never does anything for those, and overlapping tiles occur only for sizes that are no multiples of the tile.", "anchors": ["examples/linear_algebra/conv2d_relu.cpp: conv2d_naive", "examples/linear_algebra/conv2d_relu.cpp: conv2d_tiled", "include/array/array.h: split"]}
{"id": "C51", "title": "Interval operations denote the documented index sets", "statement": "set_min, set_extent and set_max give the intervals [m, m+extent), [min, min+e) and [min, m]; r(b, e) is [b, e); is_in_range of an index is membership and of a non-empty interval is containment; two non-empty intervals compare equal exactly if they contain the same indices. Intervals without indices can be unequal and out of range of each other.", "quantifier": "all intervals and indices", "why_tests_cant": "Off-by-one errors at either end and empty intervals are a few points among unbounded combinations.", "anchors": ["include/array/array.h: interval", "include/array/array.h: range", "include/array/array.h: set_max"]}
{"id": "C52", "title": "data, empty, bounds and compact copies", "statement": "data() of a non-empty view is the address of an element, the least one, and all elements are in the flat_extent cells from there; it is null for a null base. empty() holds exactly for null views and views without indices. bounds() keeps min and extent of every dimension and forgets the strides, and the shape an array gets from it is gapless. make_compact_copy and make_compact_move return an array with the bounds of the source, without gaps, that has the source's elements; the source keeps them (copy) or has moved-from elements (move).", "quantifier": "all views with known strides and positive extents; all states of array programs and shapes with dynamic strides for the compact copies", "why_tests_cant": "Negative and mixed-sign strides, any rank, and all previous histories of the arrays.", "anchors": ["include/array/array.h: data", "include/array/array.h: bounds", "include/array/array.h: make_compact_copy", "include/array/array.h: make_compact_move"]}
{"id": "C53", "title": "Failed allocations", "statement": "When an allocator throws bad_alloc at any point of any program that catches the exception and goes on, nothing undefined happens and no assertion fails, provided arrays that have lost their storage are only assigned to, cleared or destroyed. An operation either does what it does when nothing fails, or throws; then the same arrays exist and only the ones assigned to differ. Constructors, make_copy and make_move that throw change nothing. Every block stays owned by exactly one array, exactly the elements of usable arrays are alive, and nothing is left when all arrays are destroyed. Arrays left behind can be destroyed, cleared, and given new contents by assignment.", "quantifier": "all programs of array operations, all failure points, element types, allocators, propagation traits and inline capacities", "why_tests_cant": "The failing allocation can be any one in any history; tests with a failing allocator cover a handful of them.", "anchors": ["include/array/array.h: allocate", "include/array/array.h: array::operator=", "include/array/array.h: assign", "include/array/array.h: reshape", "include/array/array.h: swap", "include/array/array.h: auto_allocator::allocate"]}
{"id": "C54", "title": "Throwing element constructors", "statement": "When constructing the (k+1)-st element of an array throws: array(shape), the copy constructor, make_copy, make_move and reshape leave all arrays as they were, but k live objects and their memory are lost for good; array(shape, value) and the allocator-extended copy constructor are undefined, because the destructor runs over elements that were never constructed; assignments pass the exception on and leave an array whose destruction or clear is undefined. Moving element by element does the same, with k elements of the source moved from; swap and reshape, which construct elements several times, complete or end in one of these states. An operation that completes has done what it does when nothing can throw.", "quantifier": "all states of array programs, all shapes with more than k elements, all k", "why_tests_cant": "The defect needs an element type that throws at a chosen element; no test of the library has one.", "anchors": ["include/array/array.h: construct", "include/array/array.h: copy_construct", "include/array/array.h: destroy", "include/array/array.h: array::array", "include/array/array.h: assign"]}
{"id": "C55", "title": "Resampling kernels", "statement": "build_kernels computes, for each output position x, the exact position (x + 1/2)/rate - 1/2 in lowest terms, and a kernel array that extends from the first input position with a non-zero weight to the last one, holds each weight divided by the sum of the weights, and never reaches outside of the input interval, also if there are zero weights in between. The kernels own their memory and nothing else in memory changes. If the weights of some position have no positive sum, an assertion fails; a release build can then run into a loop that does not end.", "quantifier": "all kernels (any function), all arithmetics, all rates and intervals within the range of index_t, all heaps", "why_tests_cant": "The window depends on rate, position and kernel; tests look at a few resized images.", "anchors": ["examples/resample/resample.h: build_kernels", "examples/resample/rational.h"]}
{"id": "C56", "title": "Resampling an image", "statement": "resample writes, to each pixel (x, y, c) of the output, the weighted sum in x of the weighted sums in y of the input, with the weights of C55; for overlapping strips as well. It touches no other object, reads nothing that is not an element of the input, and frees all temporary images and kernels. With fewer than 64 rows, or a position without weights, an assertion fails; in a release build the loop over strips need not end.", "quantifier": "all images of three dimensions with any strides and bounds, all rates, kernels and arithmetics", "why_tests_cant": "Strip, transposition and offset errors show only for particular sizes, and leaks or stray writes not at all in image comparisons.", "anchors": ["examples/resample/resample.h: resample", "examples/resample/resample.h: resample_y", "examples/resample/resample.h: make_temp_image"]}
{"id": "C57", "title": "Resampling in exact arithmetic", "statement": "With exact numbers the weights of each kernel sum to 1, so constant images stay constant; a kernel that is nowhere negative never produces a value beyond those of the input; an interpolating kernel at rate 1 copies the image. box, linear, quadratic_bspline and cubic_bspline are positive kernels, which have usable weights at every output position that lies between the outer edges of the input; box, linear, interpolating_quadratic and interpolating_cubic are interpolating. The taps of linear and of every member of the quadratic and cubic families sum to 1 wherever the grid of taps lies.", "quantifier": "all images, rates and positions; kernels at all rational arguments", "why_tests_cant": "Tests compare images with a tolerance at a few rates.", "anchors": ["examples/resample/resample.h: box", "examples/resample/resample.h: linear", "examples/resample/resample.h: quadratic_family", "examples/resample/resample.h: cubic_family", "examples/resample/resample.h: resample"]}
{"id": "C58", "title": "Programs with arrays and algorithms", "statement": "In programs that mix array operations with copy, move, fill, generate, transform_index and assign from an element of another array, nothing undefined happens and no assertion fails; the live objects are exactly the elements of the arrays, each block belongs to one array, and nothing is left when all arrays are gone. Each algorithm changes only its destination (move also its source), element for element, and no shape or allocation. fill(x, x[i]) fills with the old value of x[i], and copy(x, x) changes nothing. move(std::move(y), x) gives x the shape of y. x.assign(shape, x[i]) with one of x's own elements is undefined.", "quantifier": "all programs of these statements, all shapes, element types and allocators", "why_tests_cant": "Aliasing and the histories of several arrays multiply; tests run each algorithm on fresh arrays.", "anchors": ["include/array/array.h: copy", "include/array/array.h: move", "include/array/array.h: fill", "include/array/array.h: generate", "include/array/array.h: transform_index", "include/array/array.h: assign"]}
{"id": "C59", "title": "Loops, splits and fused loops stay within index_t", "statement": "Range-for, for_each_index, the image and matrix traversals, split iterators, and the loop optimiser of for_each_value and copy never overflow 64-bit arithmetic, and visit what they should, provided the ends of the intervals and the distances they compute fit in index_t. The bounds cannot all be dropped: an interval that ends at INT64_MAX cannot be looped over, the last increment of a split near INT64_MAX overflows, and fusing loops with a large outer min overflows although every offset is small.", "quantifier": "all intervals, split factors and shapes of every rank whose distances fit", "why_tests_cant": "Tests use small indices; signed overflow is undefined behaviour and may go unnoticed.", "anchors": ["include/array/array.h: interval::max", "include/array/array.h: split_iterator::operator+=", "include/array/array.h: can_fuse", "include/array/array.h: fuse", "include/array/array.h: dynamic_optimize_shape", "include/array/array.h: dynamic_optimize_copy_shapes"]}
{"id": "C60", "title": "Intervals, dims and slices with compile-time parameters", "statement": "An interval with static parameters is constructed, converted, assigned and modified from exactly the values its type allows; other values fail an assertion, and in a release build leave the static value in place. The defaults are the static values, else min 0 and extent 1. Assigning a dim is converting it. A slice of a shape with static parameters fails no assertion; each of its dims has the bounds of its argument and the stride of its parent, static and run-time alike, and the values fit the types. The placeholder is recognised by its type, and range<-9>(b) has extent 1.", "quantifier": "all combinations of static and dynamic parameters, all run-time values, shapes of every rank, all slice arguments", "why_tests_cant": "Cross product of template parameters and argument kinds.", "anchors": ["include/array/array.h: interval", "include/array/array.h: constexpr_index", "include/array/array.h: dim::operator=", "include/array/array.h: range", "include/array/array.h: range_with_stride", "include/array/array.h: skip_slices", "include/array/array.h: shape::operator[]"]}
{"id": "C61", "title": "Elements are opaque", "statement": "Programs of array operations and algorithms do not look at the values of elements: two programs that differ only in those values (or even in the type of elements) have the same outcome, with the same arrays in the same memory and corresponding elements, or fail in the same way. Every element is a value from the program, a default constructed one, or what remains of such a value after moving.", "quantifier": "all relations between values, all pairs of related programs and starting states, legal or not", "why_tests_cant": "A test has one element type and a few values; independence of the values is a statement about pairs of executions.", "anchors": ["include/array/array.h: array", "include/array/array.h: copy", "include/array/array.h: move", "include/array/array.h: fill", "include/array/array.h: generate", "include/array/array.h: transform_index"]}
{"id": "C62", "title": "uninitialized_allocator", "statement": "For trivial element types a legal program does not fail with uninitialized_allocator, and every element has the value it has with the base allocator or is indeterminate, so the determinate elements do not depend on default construction. array(shape) leaves all elements indeterminate, reshape the new ones; make_copy, fill and transform_index leave none. For element types that need their constructor, an array(shape) can be neither destroyed nor written to.", "quantifier": "all legal programs, configurations, shapes and states", "why_tests_cant": "An indeterminate value looks like any other to a test.", "anchors": ["include/array/array.h: uninitialized_allocator", "include/array/array.h: uninitialized_std_allocator", "include/array/array.h: uninitialized_auto_allocator"]}
{"id": "C63", "title": "printed intervals, dims and shapes", "statement": "AbslStringify prints an interval as [begin, end), a dim as dim(min, extent, stride), without the stride if it is unresolved, and a shape as shape<rank>(dims) with dims separated by a comma and a space; numbers are in decimal notation. Different intervals, dims or shapes have different texts. Printing an interval whose end does not fit 64 bits is undefined behaviour; dims and shapes always print.", "quantifier": "all intervals, dims and shapes of any rank", "why_tests_cant": "Tests compare a few strings.", "anchors": ["absl/absl.h: AbslStringify(interval)", "absl/absl.h: AbslStringify(dim)", "absl/absl.h: AbslStringify(shape)"]}
{"id": "C64", "title": "reductions that read their result, scalars and pointers", "statement": "ein_reduce(r = g(r, e)) does what a compound assignment with g would do; more generally an expression that contains the result operand with its own indices reads the latest value of the element it assigns. ein_reduce(r = max(r, e)) leaves in each element the largest of its old value and the values of e. The cross product example of the README computes cross products. ein(scalar), ein(pointer, size) and ein(C array) address the objects they are given; in a debug build different sizes trip an assertion; a size of 2^63 or more becomes a negative extent, and the loop overflows.", "quantifier": "all expressions, shapes, index numberings, strict weak orders, sizes", "why_tests_cant": "Universal over expressions and shapes; tests take one shape each.", "anchors": ["include/array/ein_reduce.h: ein_reduce", "include/array/ein_reduce.h: ein", "include/array/ein_reduce.h: ein_op_max", "README.md: Einstein reductions"]}
{"id": "C65", "title": "traversal order in memory and overlapping copies", "statement": "When the dims of a shape are nested in each other and have positive strides, for_each_value visits its elements in increasing order of their addresses. copy between views that share elements stores the old values of the source whenever elements are shared at equal indices only (copying a view to itself changes nothing), and whenever the destination's dims are nested with positive strides and no element of the destination lies after the one copied to it. In one dimension, copying k > 0 indices up onto the same elements repeats the first k elements instead, so copy is not memmove.", "quantifier": "all shapes, ranks, bases, heaps and shifts satisfying the stated conditions, in debug and release builds", "why_tests_cant": "Depends on the order the loop optimiser chooses for every combination of strides and extents.", "anchors": ["include/array/array.h: copy", "include/array/array.h: copy_shape_traits", "include/array/array.h: dynamic_optimize_copy_shapes", "include/array/array.h: for_each_value_in_order"]}
{"id": "C66", "title": "exceptions thrown by assignments, generators, functions and operands", "statement": "If the assignment of an element, a generator, a function passed to transform_index or an operand of an Einstein reduction throws after k completed assignments, then fill, copy, move, generate, transform_index and ein_reduce propagate the exception leaving exactly the first k elements in traversal order assigned (for move: and moved from), the next element as the throwing operation left it, and nothing else changed; the traversal order is that of memory for shapes with nested, ascending dims, and index order for transform_index. In programs that catch such exceptions after every statement, no statement is undefined or asserts, a statement that throws leaves the same arrays with the same shapes and storage (temporaries of make_copy, make_move and reshape are destroyed) with other elements only in the arrays it assigns to, the objects alive are the elements of the arrays, every block has one owner, and nothing leaks. A reshape or make_move that throws leaves the elements not yet moved; reshape is not all or nothing.", "quantifier": "all element types, all behaviours of a throwing assignment or move, all views, functions and expressions satisfying the documented preconditions, every number k of completed assignments; all legal programs with exceptions at arbitrary points, debug and release builds, every allocator configuration", "why_tests_cant": "A test throws at a few chosen points of a few loops; the state left behind has to be right for every point, shape and traversal order.", "anchors": ["include/array/array.h: copy", "include/array/array.h: move", "include/array/array.h: fill", "include/array/array.h: generate", "include/array/array.h: transform_index", "include/array/array.h: reshape", "include/array/array.h: make_copy", "include/array/array.h: make_move", "include/array/ein_reduce.h: ein_reduce"]}
{"id": "C67", "title": "rational numbers in 64-bit arithmetic", "statement": "With index_t as the number type, overflow being undefined: euclidean_div is defined unless the divisor is 0 or INT64_MIN is divided by -1, euclidean_mod also not for the divisor INT64_MIN, and both satisfy the division law with a remainder in [0, |b|); the constructor reduces to lowest terms for all signs and is undefined exactly for 0/0, denominator INT64_MIN and INT64_MIN/-1. For positive denominators, +, -, *, / (by positive numbers), the comparisons, min, max, ceil and round are exact if the products and sums they compute fit and undefined otherwise; floor and frac are always exact; 32-bit operands always fit. The positions of resample.h, (x + 1/2) / rate - 1/2, are exact for images of up to 2^30 pixels per side, but not for all sizes of type int.", "quantifier": "all pairs of 64-bit integers, all rationals with 64-bit positive denominators, all rates and positions within the stated bounds", "why_tests_cant": "The pairs that overflow are sparse among 2^128, and tests use small fractions.", "anchors": ["examples/resample/rational.h: euclidean_div", "examples/resample/rational.h: euclidean_mod", "examples/resample/rational.h: gcd", "examples/resample/rational.h: rational", "examples/resample/rational.h: round", "examples/resample/rational.h: ceil", "examples/resample/resample.h: build_kernels", "examples/resample/resample.cpp: main"]}
{"id": "C68", "title": "views and Einstein reductions in 64-bit arithmetic", "statement": "With index_t of 64 bits and overflow undefined: if min, extent, stride and the ends of every dimension are values of index_t and the sum of |extent - 1| * |stride| is at most 2^63 - 1, then element access computes the address of the element; every chain of slices (each argument an index, the whole dimension or a non-empty part of it), transpositions, reorderings, crops to rectangles that meet the image and channel slices computes without overflow or assertion, its result has the dims asked for and again satisfies the bounds, and each of its elements is the element of the original that the composed index denotes. set_shape and reinterpret_shape accept exactly what lies in the flat range of the view. An Einstein reduction over such operands never overflows and computes the reduction of C38. The bounds matter: an empty slice far outside, and a crop to a rectangle beside the image, overflow although no element is accessed.", "quantifier": "all ranks, bounds, strides (negative, zero, overlapping) within 64 bits, all chains of views of any length, all expressions, operators and element types; debug and release builds", "why_tests_cant": "Overflow happens only near the ends of a 64-bit range, and the chains of views are unbounded.", "anchors": ["include/array/array.h: array_ref::operator()", "include/array/array.h: make_array_ref_at", "include/array/array.h: reinterpret_shape", "include/array/array.h: array_ref::set_shape", "include/array/array.h: transpose", "include/array/array.h: reorder", "include/array/image.h: crop", "include/array/image.h: slice_channel", "include/array/ein_reduce.h: ein_reduce", "include/array/ein_reduce.h: reconcile_dim"]}
{"id": "C69", "title": "algorithms on arrays in 64-bit arithmetic", "statement": "With index_t of 64 bits and overflow undefined: call a shape tame if min, extent, stride and the ends of its dimensions are values of index_t, the number of elements (an extent 0 counted as 1) fits, three times this number multiplied by the sum of the |min| fits, and the rank multiplied by the widest extent*|stride| and the extents of the dimensions without stride fits; call it settled if only empty dimensions have no stride. On tame settled shapes copy, move, fill, generate, transform_index, equal and the operators == and != compute without overflow and do what C16-C18 say; data() is right if all strides are known. It is not for a moved-from array, whose strides are unknown: data() overflows.", "quantifier": "all ranks, tame shapes, layouts, heaps and element types; debug and release builds", "why_tests_cant": "Overflow happens only near the ends of a 64-bit range; the arithmetic is that of the loop optimiser, which rewrites mins and strides.", "anchors": ["include/array/array.h: copy", "include/array/array.h: move", "include/array/array.h: fill", "include/array/array.h: generate", "include/array/array.h: transform_index", "include/array/array.h: equal", "include/array/array.h: array_ref::operator==", "include/array/array.h: array::data", "include/array/array.h: optimize_copy_shapes"]}
{"id": "C70", "title": "programs over arrays in 64-bit arithmetic", "statement": "With index_t of 64 bits and overflow undefined: every legal program of constructions, copies, moves, assignments, make_copy, make_move, reshapes, swaps, writes, clears and destructions whose shapes are tame (C69) runs without overflow and reaches the state that unbounded integers give, if the default shape is tame and has extent 0 in its dimensions without stride; otherwise, if no array without strides is used. set_shape and move_reinterpret_shape agree as well if the distances fit. The conditions matter: reshaping a moved-from array whose type fixes an extent multiplies the placeholder of an unknown stride, and constructing 2048 consecutive elements overflows if one min is 2^60.", "quantifier": "all programs of any length over any number of arrays, all allocators, tame shapes of any rank; debug and release builds", "why_tests_cant": "Programs are unbounded, and overflow happens only near the ends of a 64-bit range.", "anchors": ["include/array/array.h: array::array", "include/array/array.h: array::operator=", "include/array/array.h: array::assign", "include/array/array.h: array::reshape", "include/array/array.h: array::set_shape", "include/array/array.h: swap", "include/array/array.h: make_copy", "include/array/array.h: make_move", "include/array/array.h: move_reinterpret_shape", "include/array/array.h: array::allocate", "include/array/array.h: shape::resolve"]}
{"id": "C71", "title": "the order of value loops and how far loops are fused", "statement": "for_each_value and the loops of copy, move and equal visit the elements with the dimension of smallest stride (of the destination) innermost. If the elements do not overlap and no stride of a dimension with more than one element is negative, the addresses visited, of the destination for two arrays, increase. After optimisation no two neighbouring loops that could be one are left. Arrays with the default layout, and compact arrays whose dimensions are in any order and have extents of at least 2, are visited by one loop over consecutive elements; a copy between equal shapes needs no more loops than visiting one. With a negative stride the elements are not visited in memory order, and a dimension of extent 1 can stand between loops that could be one.", "quantifier": "all ranks, extents, strides and bases, both kinds of loop", "why_tests_cant": "Order and fusing depend on the relative size of all strides and extents; results are correct whatever the order, so that no test of results notices.", "anchors": ["include/array/array.h: bubble_sort", "include/array/array.h: dynamic_optimize_shape", "include/array/array.h: dynamic_optimize_copy_shapes", "include/array/array.h: for_each_value", "include/array/array.h: for_each_value_in_order"]}
{"id": "C72", "title": "elements as bytes: size, alignment, representation and reinterpret", "statement": "With elements of any size, alignment and representation (trivially copyable types, padding included): storage allocated for an array with an aligned address holds an aligned element for every index, and elements of a layout without collisions have no byte in common. copy and move between arrays whose elements have different types, fill, transform_index and equal read and write exactly the bytes of the elements, and what they do to cells of one element each they do to bytes. reinterpret keeps shape and addresses and can be undone; reading shows the bits of what was written, and copying through views reinterpreted as a type without padding copies the elements. The buffer of auto_allocator is aligned wherever the array is if and only if Alignment is at least that of the element type. reinterpret accepts types with stricter alignment, whose elements then cannot be read, and uninitialized_auto_allocator does not compile with its default alignment if the size of the elements is not a power of two.", "quantifier": "all element types with their sizes, alignments and representations, all shapes and memory contents; debug and release builds", "why_tests_cant": "Tests run with a few element types whose addresses happen to be aligned.", "anchors": ["include/array/array.h: reinterpret", "include/array/array.h: copy", "include/array/array.h: fill", "include/array/array.h: transform_index", "include/array/array.h: equal", "include/array/array.h: array::allocate", "include/array/array.h: auto_allocator", "include/array/array.h: uninitialized_auto_allocator"]}
{"id": "C73", "title": "lifetime of array_refs", "statement": "For every statement about arrays (constructors, assignments, clear, reshape, swap, destructor, algorithms), whether the elements of each array stay in their places, and which array has them afterwards, is determined by the shapes and allocators: they stay, they become those of another array, or they are destroyed and nothing is created in their place later. A program that makes array_refs of arrays, slices them, and reads, writes, fills and copies through them while the elements exist has no undefined behaviour and no failing assertion; each array_ref refers to elements of the array that has them at that point, at the indices given by the slices, reads return the values of that array and writes change its elements and no others. Reading or writing through an array_ref whose elements are gone is undefined behaviour. swap moves elements, contrary to its comment, if the allocators differ and are not exchanged.", "quantifier": "all legal programs with arrays and array_refs, all element types, shapes, allocators and allocator traits, debug and release builds", "why_tests_cant": "A dangling reference usually reads plausible values; whether one dangles depends on allocators and shapes that tests do not vary.", "anchors": ["include/array/array.h: array::ref", "include/array/array.h: array_ref::operator()", "include/array/array.h: array::operator=", "include/array/array.h: array::assign", "include/array/array.h: array::reshape", "include/array/array.h: array::clear", "include/array/array.h: array::swap", "include/array/array.h: fill", "include/array/array.h: copy"]}
{"id": "C74", "title": "how much work arrays do", "statement": "Every statement about arrays (constructors, assignments, clear, reshape, swap, destructor, algorithms) constructs by default, copies, moves, copy-assigns, move-assigns and destroys exactly as many elements, and calls allocate and deallocate of the base allocator exactly as often, as the shapes, the allocators and their traits say. Along a program the objects constructed and not destroyed are as many as the arrays have elements and the blocks allocated and not released are those the arrays hold; when all arrays are gone both are zero. Statements that move make no copies; algorithms construct, destroy and allocate nothing; moves between arrays with equal or propagating allocators touch no element. With an allocator that keeps small arrays inside the array object, a program whose shapes are all that small never allocates. swap of arrays with equal allocators moves every element, contrary to its comment, if the allocators are not equal to a default-constructed one and do not propagate.", "quantifier": "all legal programs with arrays, all element types, shapes, allocators and allocator traits, debug and release builds; the balance of objects and blocks also for programs that are not legal but run to an end", "why_tests_cant": "test/array_lifetime.cpp counts the constructors for one shape, one slice of it and one operation at a time, and never with unequal allocators.", "anchors": ["test/array_lifetime.cpp: lifetime tests", "test/lifetime.h: lifetime_counter, custom_alloc", "include/array/array.h: array::construct", "include/array/array.h: array::destroy", "include/array/array.h: array::allocate", "include/array/array.h: array::deallocate", "include/array/array.h: array::operator=", "include/array/array.h: array::assign", "include/array/array.h: array::reshape", "include/array/array.h: array::swap", "include/array/array.h: auto_allocator", "include/array/array.h: fill", "include/array/array.h: copy", "include/array/array.h: move"]}
{"id": "C75", "title": "arrays of a trivial type: broadcasting layouts, set_shape and move_reinterpret_shape", "statement": "Programs over arrays of a trivial type may use layouts in which elements share a place and may change the shape of an array in place with set_shape and move_reinterpret_shape. Every legal program runs without undefined behaviour and ends, or stops at the assertion of a set_shape whose shape leaves the range of the old one or of a move_reinterpret_shape; all elements of all arrays are in the memory of their own array, every block belongs to exactly one array and is released to where it came from, and nothing leaks. Every statement leaves the arrays it does not name as they were; copies, moves, assignments and swaps transfer shape and values; fill, assign and the constructors give all elements the value; writes and transform_index give exactly the elements meant their values. set_shape and move_reinterpret_shape leave every value in its place: elements of the new shape have the values of the elements of the old one at the same address; setting the shape back restores the array. In a release build move_reinterpret_shape of an array without memory with an offset, of an array with inline storage, or of an array with another allocator gives an array that cannot be destroyed.", "quantifier": "all legal programs with any number of arrays, all shapes of any rank whose extents are not negative, all allocators and traits, with and without initialization of elements, debug and release builds", "why_tests_cant": "The programs are unbounded; what set_shape may do depends on the memory left by all earlier statements.", "anchors": ["include/array/array.h: array::set_shape", "include/array/array.h: move_reinterpret_shape", "include/array/array.h: array::reshape", "include/array/array.h: array::assign", "include/array/array.h: array::operator=", "include/array/array.h: array::allocate", "include/array/array.h: array::destroy", "include/array/array.h: swap", "include/array/array.h: make_copy", "include/array/array.h: fill", "include/array/array.h: copy"]}
{"id": "C76", "title": "threads that use the library at the same time", "statement": "Calls of fill, generate, for_each_value, transform_index, copy, move, equal, make_ein_sum-like reductions and matrix products by several threads: each legal call reads and writes exactly the elements its arguments name. If no call writes an element another one reads or writes, then under every schedule no two threads race, nothing fails, the threads finish after a fixed number of steps, and each call returns and leaves behind what it does when it is made alone; the calls made one after the other in any order leave the same memory. If two calls are in conflict some schedule has a data race. Tiles of an array made by split, each updated or computed by a thread of its own, give the result of the loop over the whole array if the splits are even; if a static split is not even, the tiles overlap and the threads race, and updates can be lost.", "quantifier": "all numbers of threads, all schedules, all calls with all shapes, layouts and memory contents, all splits; debug and release builds", "why_tests_cant": "Tests run on one thread; races depend on schedules.", "anchors": ["include/array/array.h: for_each_index", "include/array/array.h: for_each_value", "include/array/array.h: copy", "include/array/array.h: move", "include/array/array.h: fill", "include/array/array.h: generate", "include/array/array.h: transform_index", "include/array/array.h: equal", "include/array/array.h: split", "include/array/ein_reduce.h: ein_reduce", "include/array/matrix.h, examples/linear_algebra/matrix.cpp: products and tiles"]}
{"id": "C77", "title": "a reference interpreter for programs with arrays", "statement": "There is an interpreter for programs with arrays and algorithms that knows neither memory nor addresses: an array is its allocator, whether it has memory, its shape, and a function from indices to elements; each statement is a short expression over these. The programs that are legal are exactly those the interpreter allows, and every legal program runs without a failed assertion or undefined behaviour and ends with exactly the arrays the interpreter computes (allocators, shapes, inline storage and all elements, including what moves leave behind), with the calls of generate's function numbered in one order per shape. The same holds for every statement from every reachable state. A program that is legal in a debug build is legal in a release build and ends with the same arrays.", "quantifier": "all legal programs of any length with any number of arrays, all statements, element types, shapes, layouts, allocators and traits, inline storage of any size; debug and release builds", "why_tests_cant": "Tests compare a few programs with results computed by hand.", "anchors": ["include/array/array.h: array::array", "include/array/array.h: array::operator=", "include/array/array.h: array::assign", "include/array/array.h: array::clear", "include/array/array.h: array::reshape", "include/array/array.h: array::swap", "include/array/array.h: make_copy", "include/array/array.h: make_move", "include/array/array.h: copy", "include/array/array.h: move", "include/array/array.h: fill", "include/array/array.h: generate", "include/array/array.h: transform_index", "include/array/array.h: auto_allocator"]}
{"id": "C78", "title": "programs on different arrays do not affect each other", "statement": "What a program does to the arrays it mentions does not depend on addresses, on how these arrays came about, or on other arrays: in two reachable states in which they have the same allocators, shapes and elements, the program is legal in both or neither and leaves the same arrays. Threads that execute whole statements, declare no arrays and mention different arrays can be interleaved in any order: every order is legal, each thread leaves its arrays as it leaves them when it runs alone, other arrays do not change, and all orders end with the same arrays.", "quantifier": "all reachable states, all programs and numbers of threads, all interleavings of whole statements, all element types, shapes, allocators and traits; debug and release builds", "why_tests_cant": "Whether storage is shared by mistake shows only when two arrays are used in a particular order.", "anchors": ["include/array/array.h: array", "include/array/array.h: array::operator=", "include/array/array.h: array::reshape", "include/array/array.h: array::swap", "include/array/array.h: auto_allocator", "include/array/array.h: copy", "include/array/array.h: move"]}
{"id": "C79", "title": "programs with array_refs compute what an interpreter without memory computes", "statement": "A program that makes arrays, makes array_refs from arrays and from other array_refs, operates on the arrays and reads, writes, fills and copies through the array_refs is legal if and only if a reference interpreter allows it in which an array_ref is the name of an array, a shape, and the index of that array for each of its own indices. The program then reads the sequence of values that the interpreter reads, and its arrays and array_refs at the end are the interpreter's: an array_ref follows its elements when they are handed to another array, and refers to nothing once they are destroyed. This includes copies between overlapping array_refs, which are made one element at a time in an order that depends on the two shapes only, and is that of increasing addresses if the destination's strides are positive. A program that is legal in a debug build is legal in a release build, where it reads the same values.", "quantifier": "all programs (any number of statements, arrays and array_refs), all element types, shapes, slices, allocators and traits; debug and release builds; overlapping and disjoint array_refs", "why_tests_cant": "Aliasing through array_refs gives unboundedly many programs; a test that reads a dangling array_ref can still see the old value.", "anchors": ["include/array/array.h: array_ref", "include/array/array.h: array::ref", "include/array/array.h: array_ref::operator()", "include/array/array.h: fill", "include/array/array.h: copy", "include/array/array.h: array::operator=", "include/array/array.h: array::swap"]}
{"id": "C80", "title": "when function objects are called, what they compute, and what is left of them", "statement": "for_each_index, for_all_indices and for_each_value call the function object once for every index or element, one call after the other, in the documented order, each seeing the memory the one before left; the first exception ends the loop and is passed on. for_each_index without a loop order and for_each_value of shapes other than matrices and chunky images with a stride in x call the caller's own object, which ends in the state after the last call; with these, an object that accumulates the elements it is given and replaces them ends with all of them accumulated, and each element replaced once. An array filled by generate, transform_index or transform_indices has what filling it without memory gives, for calls whose results depend on the index, on a state that they change, on other memory and on the elements of the array itself, and that may throw: then the elements up to the exception have been set and the others are the old ones. In place, the result at an index is computed from new elements at the indices before it and from old ones from it on. The other functions move the caller's object, even one passed as an lvalue: one whose move leaves it as it is can be used again and continues its sequence, a std::function cannot.", "quantifier": "all function objects (types, states, effects on memory, exceptions), all ranks, shapes, layouts and memory contents; debug and release builds", "why_tests_cant": "Tests use a few lambdas without state that are not used again; the state that a call sees depends on all calls before it.", "anchors": ["include/array/array.h: for_each_index", "include/array/array.h: for_all_indices", "include/array/array.h: array_ref::for_each_value", "include/array/array.h: array::for_each_value", "include/array/array.h: generate", "include/array/array.h: transform_index", "include/array/array.h: transform_indices", "include/array/matrix.h: for_each_value"]}
{"id": "C81", "title": "programs with control flow compute what an interpreter without memory computes", "statement": "A program chooses each statement from its own variables, from the values it has read and from the allocators, nullness and shapes of its arrays and the shapes of its array_refs: conditionals, loops, and programs that do not end. After any number of statements a legal program has not had undefined behaviour or failed an assertion, and its variables, what it has seen, its arrays and its array_refs are those of the same program run by the reference interpreter without memory, so it goes on with the same statement or has ended as well. It is legal if and only if the interpreter allows it. Its states are states of programs without control flow, so C73 applies to it. A program that is legal in a debug build is legal in a release build and does the same there.", "quantifier": "all programs (variables of any type, any function that chooses the next statement, any number of statements), all element types, shapes, slices, allocators and traits; debug and release builds", "why_tests_cant": "A test runs one path; which statements are reached depends on the data.", "anchors": ["include/array/array.h: array", "include/array/array.h: array_ref", "include/array/array.h: array::get_allocator", "include/array/array.h: array::data", "include/array/array.h: array::shape", "include/array/array.h: array_ref::shape"]}
{"id": "C82", "title": "programs in which allocations fail compute what an interpreter without memory computes", "statement": "A reference interpreter without memory says how often each statement on arrays asks an allocator for memory, and what the arrays are if one of these requests fails: an array under construction does not come into being, an array being assigned to keeps its allocator, has the new shape and no elements, and a swap that fails midway has already moved the elements of one of the arrays. In every legal program in which any requests fail, and the exceptions are caught, exactly the statements throw of which the interpreter says so, namely those one of whose requests fails, and the arrays are after every statement those of the interpreter: allocators, shapes, whether they have elements, whether these are stored in the array object, and the elements. A program is legal if and only if the interpreter allows it.", "quantifier": "all programs with arrays, any choice of failing requests, all element types, shapes, allocators and traits, with and without storage in the array object; debug and release builds", "why_tests_cant": "Every request of every statement can fail, in every state; tests rarely make allocations fail.", "anchors": ["include/array/array.h: array::allocate", "include/array/array.h: array::construct", "include/array/array.h: array::operator=", "include/array/array.h: array::assign", "include/array/array.h: array::clear", "include/array/array.h: array::reshape", "include/array/array.h: swap", "include/array/array.h: make_copy", "include/array/array.h: make_move", "include/array/array.h: auto_allocator::allocate"]}
{"id": "C83", "title": "the kernels that can be named give a usable image of any size", "statement": "With real numbers in place of floats: the five names stand for their kernels; sinc is within 1e-12 of sin(pi s) / (pi s); the Lanczos kernel with any number of side lobes is even, 1 at 0 and 0 at all other integers, 0 from its radius on, at most 1 in magnitude, and its lobes alternate in sign. The box, linear, interpolating quadratic and interpolating cubic kernels and the Lanczos kernel with 4 side lobes have weights with a positive sum at every position between the outer edges of the input, at any rate, and the Lanczos kernel with any number of side lobes has at rates of 1 and more. So the resampling program, with any kernel that it has a name for and any new size of at least 64 rows, smaller or larger than the old one, fails no assertion: every pixel is the weighted sum of weighted sums limited to the range of the pixel type, a constant image stays constant, an image of the same size is the same image, and nothing else changes.", "quantifier": "all kernels of the program, all numbers of side lobes, all rates, positions, image sizes (up to 2^29 in width and height) and pixel values; debug and release builds", "why_tests_cant": "Kernels with negative lobes that are cut off at the edge of the image could have a sum of 0 or less at some rate and position; tests try a few sizes.", "anchors": ["examples/resample/resample.h: sinc", "examples/resample/resample.h: lanczos", "examples/resample/resample.h: build_kernels", "examples/resample/resample.h: interpolating_quadratic", "examples/resample/resample.h: interpolating_cubic", "examples/resample/resample.cpp: parse_kernel", "examples/resample/resample.cpp: main"]}
{"id": "C84", "title": "matrix products and traversals in z-order do not overflow", "statement": "In 64-bit arithmetic, if the distances between elements of each matrix fit in index_t, and for tiles also the ends of the tiles and the accumulation buffer, and in z-order also the numbers of tiles and the addresses of the prefetches, then none of the ways to multiply matrices overflows: each computes the product (in z-order, what it computes in unbounded integers), and nothing else is written. The z-order curve visits a box of extents up to 2^62 without overflow; for larger ones next_power_of_two overflows. Matrices whose rows end near the last index can be multiplied by plain loops although tiles overflow, and by tiles although the prefetches of the z-order product overflow.", "quantifier": "all matrices (sizes, mins, strides, elements, element types and operations), all tile sizes and all sizes of cache lines; all numbers of ranges; debug and release builds", "why_tests_cant": "Overflow happens only for matrices with indices near the end of index_t, which tests do not have.", "anchors": ["examples/linear_algebra/matrix.cpp: multiply_reduce_cols", "examples/linear_algebra/matrix.cpp: multiply_reduce_tiles", "examples/linear_algebra/matrix.cpp: multiply_ein_reduce_tiles", "examples/linear_algebra/matrix.cpp: multiply_reduce_tiles_z_order", "include/array/z_order.h: for_each_index_in_z_order", "include/array/z_order.h: for_all_in_z_order", "include/array/array.h: split", "include/array/array.h: make_compact"]}
{"id": "C85", "title": "convolutions do not overflow", "statement": "In 64-bit arithmetic, if the distances between elements of the input, of the filter, of the bias and of the output fit in index_t, the plain convolution does not overflow, and if the ends of the tiles fit too, nor does the tiled one: each element of the output is the bias plus the sum of the products, or zero if that is less than zero, and nothing else is written.", "quantifier": "all shapes, layouts, elements, element types and operations of the four arrays, all tile sizes; debug and release builds", "why_tests_cant": "Overflow happens only for arrays with indices near the end of index_t, which tests do not have.", "anchors": ["examples/linear_algebra/conv2d_relu.cpp: conv2d_naive", "examples/linear_algebra/conv2d_relu.cpp: conv2d_tiled", "include/array/array.h: split"]}
{"id": "C86", "title": "resampling does not overflow", "statement": "In 64-bit arithmetic: if the distances between elements of both images fit in index_t, and so do, with a factor 3 to spare, the sizes of and distances in an array over a side of the input and of 64 rows of the temporary images, then resampling does not overflow: the kernels are the normalised weights, each pixel is the weighted sum of weighted sums, nothing else changes and all temporary memory is freed, and fewer than 64 rows or a position without weights fail an assertion. The program, from the sizes of the images through the kernel that is named to the limited pixels, does not overflow either (in real arithmetic). Images that begin at 0, with sides of up to 2^24 pixels, up to 128 channels and strides of up to 2^37 are small enough. Images that are small but begin far from 0 can overflow, although each of their positions can be computed.", "quantifier": "all image sizes, positions, layouts, pixel values, kernels, rates, number types and operations; debug and release builds", "why_tests_cant": "Overflow happens only for images with sizes or positions near the end of index_t, which tests do not have.", "anchors": ["examples/resample/resample.h: build_kernels", "examples/resample/resample.h: resample_y", "examples/resample/resample.h: resample", "examples/resample/resample.cpp: main", "include/array/array.h: split", "include/array/array.h: array::array"]}
{"id": "C87", "title": "Einstein reductions on arrays of different types", "statement": "In an Einstein expression on arrays of different element types each operator works on the types of its operands, and each assignment converts to the type of the result, one after the other in the order of the loops; reductions have no undefined behaviour and every object keeps its type, whatever aliases what; make_ein_sum<T> gives a new array of T with the bounds and dim types the library infers. Reductions whose dimensions agree on all bounds compile, whatever is known of the bounds at compile time; an operand whose type excludes the bounds of the result is rejected; if all bounds are known at compile time, what compiles passes the run-time checks and accesses nothing out of bounds. Four claims are refuted: an integer result is not the converted sum, but is truncated at every step; the compile-time check is stricter than the run-time check; = with an operand of the same type and indices does not compile, since it means copying the operand; and an index that an operand has twice is checked for its first dimension only, also at compile time.", "quantifier": "all element types with any conversions and operators, all expressions, shapes, dim types, layouts, memory contents and numbers of indices; debug and release builds", "why_tests_cant": "Tests instantiate a few expressions on a few types; what does not compile cannot be a test at all.", "anchors": ["include/array/ein_reduce.h: ein_op", "include/array/ein_reduce.h: ein_cast_op", "include/array/ein_reduce.h: ein_binary_op", "include/array/ein_reduce.h: reconcile_dim", "include/array/ein_reduce.h: ein_reduce", "include/array/ein_reduce.h: make_ein_sum"]}
{"id": "C88", "title": "Calls select one overload, and the right one", "statement": "a(args...), a[tuple], s(args...) and s[tuple], for an array, view or shape, are never ambiguous: they give an element exactly if there are as many arguments as dims and all are indices, and a view exactly if each is an index, an interval or a dim and not all are indices; any other number of arguments, and any unusable argument, is refused before anything is compiled; is_in_range takes all of these. Inside, each helper (range_with_stride, skip_slices_impl, min_of_range, interval::is_in_range) has one best and accessible overload for each such argument, and running the selected overloads gives the slice the models of slicing describe, types included. A view converts to another shape type exactly if the dims agree in number and in what both types fix. Refuted: that the constraints admit only arguments that are implicitly convertible (a class with an explicit conversion to index_t, or one that converts to interval<>, passes them and then fails to compile; a(x) and a[tuple] differ on the former); and that a shape of another rank is always refused (a shape with one dim claims to be constructible from every shape).", "quantifier": "all ranks, all lists of argument types (index_t, other arithmetic types, intervals and dims with any template arguments, and four kinds of user-defined types), all values of these types, all shape types", "why_tests_cant": "Tests are calls that compile; that others do not, that none is ambiguous and that no constraint is too weak cannot be tested by running code.", "anchors": ["include/array/array.h: all_of_any_type", "include/array/array.h: enable_if_all_indices", "include/array/array.h: enable_if_any_slices", "include/array/array.h: enable_if_any_slices_or_indices", "include/array/array.h: range_with_stride", "include/array/array.h: skip_slices_impl", "include/array/array.h: min_of_range", "include/array/array.h: shape::operator()", "include/array/array.h: array_ref::operator()", "include/array/array.h: enable_if_shapes_compatible"]}
{"id": "C89", "title": "Threads that declare arrays of their own", "statement": "Threads that run statements on arrays, views and algorithms, that share no array when they begin and that declare, copy, move, swap, reshape and destroy arrays of their own, do not disturb each other: in every schedule of their statements no assertion fails and there is no undefined behaviour, and after any number of turns each thread sees, under its own names, the arrays (allocator, shape, elements) that it would see after as many statements alone; arrays no thread mentions do not change. Every array declared since the start belongs to one thread under one name, and the state is one that a single legal program reaches. In two schedules that run as many statements of a thread, that thread sees the same.", "quantifier": "all element types, configurations, reachable states, numbers of threads, programs legal alone, schedules of any length, complete or not", "why_tests_cant": "Tests are single-threaded, and cannot try all schedules; which addresses and which internal order of allocations each schedule gives differs.", "anchors": ["include/array/array.h: array", "include/array/array.h: swap", "include/array/array.h: array::reshape", "include/array/array.h: make_copy", "include/array/array.h: make_move"]}
{"id": "C90", "title": "Rounding errors of matrix products and convolutions", "statement": "With numbers that are rounded after each operation, with a relative error of at most u and an absolute one of at most e, every way of computing a sum of products (any order, fused multiplications and additions, as -ffast-math permits) differs from the exact sum by at most ((1+u)^d - 1) times the sum of absolute values plus m (1+u)^d e, where d roundings follow each other and there are m in all. Each version of the matrix product attains that with d = K+1 for sums of K products, the one in z-order with d = tile_k + 1 + (K-1)/tile_k, and both convolutions (with a bias and a maximum with 0) with d = 1 plus the number of filter taps. Products of integers are exact as long as the sums of absolute values are numbers of the format. Main's checks pass: versions in the same order agree exactly, and so do the two convolutions; the version in z-order passes for data that are not negative if the tolerance covers the errors.", "quantifier": "all rounding functions within the error bounds, all orders of summation, all shapes, strides, sizes, tile sizes (that divide the extents in z-order) and elements", "why_tests_cant": "Main compares one product of random numbers with a tolerance on one machine; its relative error accepts any two negative numbers, as proved here.", "anchors": ["examples/linear_algebra/matrix.cpp: multiply_reduce_tiles_z_order", "examples/linear_algebra/matrix.cpp: relative_error", "examples/linear_algebra/matrix.cpp: multiply_ref", "examples/linear_algebra/conv2d_relu.cpp: conv2d_tiled", "examples/linear_algebra/conv2d_relu.cpp: relative_error"]}
{"id": "C91", "title": "Rounding errors of resampling", "statement": "With floats that are rounded after each operation with a relative error of at most u, resampling computes at each pixel an average of the pixels of the input, with the kernel's weights as computed, up to an error that depends on u, on how many positions have a weight that is not 0 and on how far negative weights cancel positive ones only, times the largest absolute value in the input; the sum of the weights stays positive, so that no assertion fails. A constant image stays constant up to that error, and with a kernel that is nowhere negative all values are between the smallest and the largest of the input up to that error. At rate 1 an interpolating kernel copies an image without any error. The linear kernel, as computed, is nowhere negative and interpolating, and has a positive weight at every position in the image if the image is small compared with 1/u; pixels of 8 bits of images of up to 1000x1000 are off by at most 1/16 from the average with the weights as computed. The box kernel has a weight at every position that is not too near to the edges. If the computed weights are near the exact ones the image is near the exactly resampled one: with the linear kernel when enlarging, the weights differ by at most 8 u n + 20 u for n pixels, and images of up to 100x100 pixels of 8 bits by at most 1/2.", "quantifier": "all rounding functions within the error bounds (no underflow), images, shapes, strides, rates, sizes and kernels; formats that hold the positions as integers at rate 1", "why_tests_cant": "No test runs resample; that rounding neither makes the sum of weights vanish nor lets errors grow at other sizes and positions cannot be tested.", "anchors": ["examples/resample/resample.h: build_kernels", "examples/resample/resample.h: resample_y", "examples/resample/resample.h: resample", "examples/resample/resample.h: linear", "examples/resample/resample.h: box"]}
{"id": "C92", "title": "Resampling in single precision", "statement": "Rounding to nearest with ties to even gives a number of the format to which none is nearer, the even one of two as near, is monotone, and meets what C90 and C91 assume of rounding. With floats rounded that way to 24 digits, the box, linear, interpolating quadratic and interpolating cubic kernels are exactly 1 at 0 and exactly 0 at other integers, so that resampling at rate 1 with them leaves an image of floats as it is; all six polynomial kernels are within 2^-17 or less of their exact values at every float. The B-splines, nowhere negative exactly, are negative at some floats, and make negative pixels of pixels that are not. Still, with each of the five continuous polynomial kernels, enlarging in floats always has weights whose sum it can divide by: the absolute values sum up to at most 6 times the sum, at most 5 in a row are not 0, and an image of numbers up to 255 comes out within 1/16 of the exact averages with these weights. The exact kernels have no jumps where their pieces meet: they change by at most a constant (from 2/3 for the cubic B-spline to 2 for the interpolating quadratic) times what the argument does, so that at every rate and position weights in floats are within a bound, linear in the size of the image, of exact ones.", "quantifier": "all numbers and numbers of digits of the format; all floats as arguments of kernels; all rates of at least 1, positions in the image and images of up to 16384 pixels in x and y; all images, shapes, strides and sizes up to 2^23 or so at rate 1", "why_tests_cant": "No test runs resample, and the kernels have 2^32 arguments each; values that should vanish but do not show at single arguments only.", "anchors": ["examples/resample/resample.h: linear", "examples/resample/resample.h: quadratic_family", "examples/resample/resample.h: cubic_family", "examples/resample/resample.h: interpolating_quadratic", "examples/resample/resample.h: interpolating_cubic", "examples/resample/resample.h: quadratic_bspline", "examples/resample/resample.h: cubic_bspline", "examples/resample/resample.h: resample"]}
{"id": "C93", "title": "Resampling reproduces linear images", "statement": "In exact arithmetic, enlarging an image whose values are a linear function of the position gives values of that function at the positions of the output's pixels, wherever all pixels within the kernel's radius exist: for the linear kernel, all members of the quadratic family, and the members of the cubic family with B + 2C = 1 and no others, which include interpolating_cubic and cubic_bspline. The interpolating cubic kernel also reproduces images that are quadratic functions of the position.", "quantifier": "all linear functions, images, shapes, strides and rates of at least 1; all members of the families of kernels; all quadratic functions", "why_tests_cant": "No test runs resample; a wrong coefficient or a shift of the positions by a fraction of a pixel shows only in how values vary between pixels.", "anchors": ["examples/resample/resample.h: linear", "examples/resample/resample.h: quadratic_family", "examples/resample/resample.h: cubic_family", "examples/resample/resample.h: build_kernels", "examples/resample/resample.h: resample"]}
{"id": "C94", "title": "The kernels are what their names say", "statement": "In exact arithmetic the linear kernel, quadratic_bspline and cubic_bspline are the uniform B-splines of degrees 1, 2 and 3: each follows from the one before by the recursion of de Boor and Cox, starting from the box; at 0 the linear kernel is an exception, as the box includes both its edges. A member of the quadratic family interpolates just if r = 1, one of the cubic family just if B = 0, and it then reproduces linear images just if C = 1/2: the parameters of interpolating_quadratic and interpolating_cubic.", "quantifier": "all arguments and all parameters of the families", "why_tests_cant": "Tests can compare values at some arguments with tables; they cannot exclude a wrong coefficient or limit of a piece that shows at others.", "anchors": ["examples/resample/resample.h: box", "examples/resample/resample.h: linear", "examples/resample/resample.h: quadratic_family", "examples/resample/resample.h: cubic_family", "examples/resample/resample.h: quadratic_bspline", "examples/resample/resample.h: cubic_bspline"]}
