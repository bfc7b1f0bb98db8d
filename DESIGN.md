# Formal model of dsharlet/array (`nda`) in Rocq

This file is the plan and the trusted-base statement.  `properties.jsonl` has the
English properties, `MANIFEST.json` maps each one to theorem names,
`rocq/theories` has the development and `seeded/LOG.jsonl` the mutation tests.

## Approach

* **Language level.** The headers are templates over compile-time `Min/Extent/Stride`
  parameters and over the rank.  A shape is modelled as a `list` of run-time
  dimensions `(min, extent, stride)`, so every theorem is rank-generic (induction on
  the list).  Where the compile-time parameters matter (conversion, `make_compact`,
  `clamp`, static arithmetic) a separate record of static parameters is used, with the
  library's own marker `dynamic = -9`.
* **Integers.** `index_t` is a 64-bit signed integer.  The model computes in `Z`;
  a separate overflow-checked model (`Checked*.v`) shows for the offset and stride
  computations that the machine result is the `Z` result under explicit bounds.
* **Undefined behaviour, assertions.** Functions that can fail return an `outcome`:
  `Ok v`, `AssertFail` (an `assert` fires, debug builds) or `UB` (out-of-bounds access,
  dead object, overflow, non-terminating counting loop, wrong deallocation...).
  Functions containing `assert` take a flag `ndebug`; with `ndebug = true` a failing
  assert is skipped, as in release builds.
* **Callbacks.** Traversals (`for_each_index`, `for_each_value`, z-order, ...) are
  modelled as the list of callback arguments in call order: the library never inspects
  what the callback does.  Algorithms (`copy`, `fill`, ...) fold memory updates over
  these lists.
* **Specifications** live in their own file(s), written without the model's helpers
  (in-range predicate on lists, permutations, sums over sets of indices, Morton code,
  abstract array = bounds + function from index to value).
* **Findings.** When the faithful model violates a property, a theorem named
  `..._refuted` exhibits the witness (`exists ...`), and the property is proved under
  the extra hypothesis that excludes it.

## Files

Models contain definitions only; specifications use the model's types but not its functions; `*Facts`,
`*Props` and the like are lemmas; `*Cases` are the concrete data of the examples; `Prop*` files contain only
property theorems, each closed by `exact`, with `Print Assumptions` and an `Example` beside it.

| model | code it models | specification | lemmas | theorems |
|---|---|---|---|---|
| Base | outcomes, `index_t` (array.h:95-110) | | Tac | |
| Interval | array.h:95-647: intervals, dims, split iterators, `clamp` | Spec | IntervalFacts | PropInterval: C11, C23-C25, C30, C51 |
| Shape | array.h:649-1320, 1324-1360, 1547-1594: offsets, slicing of shapes, stride search, size, range tests, transposition | Spec | ShapeFacts, ResolveFacts, ShapeProps | PropShape: C01, C02, C04-C10 |
| Traverse | array.h:1364-1486, 1687-1972; image.h:53-107; matrix.h:61-85: loops, optimiser, traits | Spec | TraverseFacts | PropTraverse: C12-C15, C42, C47 |
| Memory, Ref | the machine's memory; array.h:1692-1730, 1880-1925, 1990-2219, 2757-3108; image.h:131-191: array_ref, copy, move, fill, generate, equal, slices, reinterpretation, crops | SpecMem | MemFacts, RefFacts, SliceFacts | PropRef: C16-C22, C27, C41 |
| ZOrder | z_order.h | SpecZ | ZOrderFacts | PropMisc: C26 |
| Rational | examples/resample/rational.h | SpecRational | RationalFacts | PropMisc: C48 |
| RatChecked | the arithmetic of Rational, and the positions of resample.h:106-122, in 64 bits | SpecRatChecked | RatCheckedFacts | PropRatChecked: C67 |
| ViewChecked | element access, slices, transposition, reordering, reinterpretation, crops, chains of them, and Einstein reductions, in 64 bits | SpecViewChecked | ViewCheckedFacts | PropViewChecked: C68 |
| ContChecked | the algorithms on arrays and all operations of the container in 64 bits | SpecContChecked | ContCheckedFacts, ContCheckedCases | PropContChecked: C69, C70 |
| (Traverse) | the order of value loops | SpecOrder | OrderFacts | PropOrder: C71 |
| Bytes | elements as bytes, reinterpret, alignment | SpecBytes | BytesFacts, BytesRefine | PropBytes: C72 |
| Views | programs that hold array_refs | SpecViews | ViewsFacts, ViewsWorld, ViewsCases | PropViews: C73 |
| Count | programs with arrays, counting constructors, assignments, destructors and calls of the base allocator | SpecCount | CountFacts, CountWorld, CountProps, CountInline, CountCases | PropCount: C74 |
| Trivial | arrays of a trivial type: the functions of Container, Program and Ref on storage in which nothing needs to be constructed; `set_shape`, `move_reinterpret_shape` | SpecTrivial | TrivialFacts, TrivialWorld, TrivialProps, TrivialCases | PropTrivial: C75 |
| Threads | the algorithms and `for_each_index` over tiles as programs that touch one element at a time, so that several of them can be interleaved | SpecThreads (steps of several threads, data race, the elements each call may touch) | ThreadsFacts, ThreadsCalls, ThreadsTiles, ThreadsCases | PropThreads: C76 |
| (Container, Program) | nothing new | SpecInterp (an interpreter for programs with arrays that has values only), SpecRelate (states that look the same, the arrays a statement mentions, interleavings of statements) | InterpForms (form of the result of each container function), InterpFacts, RelateFacts, InterpCases | PropInterp: C77; PropRelate: C78 |
| (Views) | nothing new | SpecInterpViews (the interpreter with array_refs: a name, a shape, and indices) | InterpViewsFacts, InterpViewsCases | PropInterpViews: C79 |
| Callback | array.h:1887-1898, 1943-1972, 2104-2107, 2576-2583, 2914-2953; matrix.h:80-84; image.h:78-82: function objects: where they are called and moved from; calls may read and write elements and state, and throw | SpecCallback | CallbackFacts, CallbackCases | PropCallback: C80 |
| Control | array.h:2118-2148, 2540, 2589-2613: what a program can see of its arrays and array_refs; programs that choose each statement from what they have seen | SpecControl (legal programs, the interpreter running a program) | ControlFacts, ControlCases | PropControl: C81 |
| (Throw) | nothing new | SpecInterpThrow (an interpreter for programs in which allocations fail: the requests for memory of a statement in order, with the arrays left if this request fails) | ThrowSpent (what the container functions do and how many allocations they use), InterpThrowFacts, InterpThrowStep, InterpThrowCases | PropInterpThrow: C82 |
| Lanczos | examples/resample/resample.h:76-92 `sinc`, `lanczos`; resample.cpp:24-38 `parse_kernel`, 95-100 the part of `main` on arrays | SpecLanczos (real numbers in place of floats) | RealWeights (kernels with short negative lobes), LanczosFacts, LanczosShrink (4 lobes, any rate), LanczosWhole | PropLanczos: C83 |
| MatChecked | the arithmetic of Matrix, Conv, ZOrder and make_compact in 64 bits; matrix.cpp:299-304 prefetches | SpecMatChecked | MatCheckedFacts, MatCheckedProd, ConvCheckedFacts, MatCheckedCases | PropMatChecked: C84, C85 |
| ResChecked | the arithmetic of Resample, and of the array part of resample's `main`, in 64 bits | SpecResChecked | ResCheckedFacts, ResCheckedCases, ResCheckedReal | PropResChecked: C86 |
| EinTyped | ein_reduce.h on arrays of different element types, with the compile-time checks of `ein`, `reconcile_dim` and `ein_reduce`; types, conversions and operators are a parameter | SpecEinTyped | EinTypedFacts, EinTypedCases | PropEinTyped: C87 |
| Calls | the constraints and overloads of `operator()`, `operator[]` and `is_in_range` of arrays, views and shapes, of the helpers of slicing, and the constructors of `shape` as `std::is_constructible` sees them | SpecCalls | CallsFacts | PropCalls: C88 |
| Scopes | threads that run statements of Program.v and declare arrays of their own: scopes, schedules | SpecScopes | ScopesFacts, ScopesCases | PropScopes: C89 |
| Rounding | floating point sums of products in any order, as exact arithmetic with rounded results; examples/linear_algebra/matrix.cpp:342, 389-398, conv2d_relu.cpp:100, 134: the comparison in main | SpecRounding | RoundingFacts, RoundingProps, RoundingCases | PropRounding: C90 |
| ResRounding | examples/resample/resample.h:31-157 with rounded results of all operations of `float` | SpecResRounding | ResRoundingFacts, ResRoundingProps, ResRoundingExact, ResRoundingCases | PropResRounding: C91 |
| Float | examples/resample/resample.h:31-157 with `float` as IEEE 754 binary32 | SpecFloat | FloatFacts, FloatProps, FloatNear, FloatUse, FloatSteep | PropFloat: C92 |
| Resample (as above) | examples/resample/resample.h:31-157 in exact arithmetic | SpecMoments | MomentsProps | PropMoments: C93 |
| Resample (as above) | examples/resample/resample.h:31-74 in exact arithmetic | SpecBSplines | BSplines | PropBSplines: C94 |
| Container | array.h:2235-2887, 3045-3077, 3114-3179: the container, make_copy/make_move, auto_allocator | SpecContainer | ContainerFacts, ContainerWorld, ContainerProps, ContainerCases | PropContainer: C03, C27, C31-C37, C49 |
| Checked | the arithmetic of Interval and Shape in 64 bits | SpecChecked | CheckedFacts | PropChecked: C43, C44 |
| Overflow | the arithmetic of split iterators and of Traverse in 64 bits | SpecOverflow | OverflowFacts | PropOverflow: C59 |
| Static | compile-time parameters: array.h:112-167, 256, 413-478, 961-1032, 1131-1144, 1489-1533, 1547-1561, 1634-1677 | SpecStatic | StaticFacts | PropStatic: C28, C29, C45 |
| Typed | array.h:143-167, 245-303, 344-365, 427-455, 738-783, 1187-1199: typed intervals, assignments, typed slices | SpecTyped | TypedFacts | PropTyped: C60 |
| Ein | ein_reduce.h | SpecEin | EinFacts, EinSum, EinMake, EinUses, EinCases | PropEin: C38-C40 |
| EinOps | ein_reduce.h:330-373; README.md:285-311: operands that are not arrays | SpecEinOps | EinOpsFacts | PropEinOps: C64 |
| (Ref, Traverse) | the same code, for views that share elements | SpecAlias | AliasFacts | PropAlias: C65 |
| Matrix, Tiling | examples/linear_algebra/matrix.cpp; tiled loops of README.md:225-248 | SpecMatrix | TileFacts, MatrixFacts, MatrixProd, MatrixEin, MatrixTiles, MatrixZ, MatrixOrder, TilingFacts, MatrixCases | PropMatrix: C46 |
| Conv | examples/linear_algebra/conv2d_relu.cpp | SpecConv | LoopFacts, ConvFacts, ConvCases | PropConv: C50 |
| Resample | examples/resample/resample.h:27-74, 94-224 | SpecResample | ResampleFacts, ResampleImage, ResampleStrip, ResampleWhole, ResampleExact, ResampleCases | PropResample: C55, C56, C57 |
| Throw | array.h:2235-2732, 2790-2887, 3114-3179 when allocations or element constructors throw | SpecThrow | ThrowFacts, ThrowWorld, ThrowLift, ThrowPlain, ThrowProps, ThrowElems, ThrowMoves, ThrowCases | PropThrow: C53, C54 |
| Abort | array.h:1364-1486, 2628-2645, 2757-2949; ein_reduce.h:158-169, 193-196, 418-443 when assignments, generators, functions or operands throw | SpecAbort | AbortFacts, AbortWorld, AbortCases | PropAbort: C66 |
| Program | array.h:2527-2537, 2757-2949: programs of array operations and algorithms | SpecProgram | ProgramFacts, ProgramCases | PropProgram: C58 |
| Uninit | array.h:3181-3237: uninitialized_allocator | SpecParam | ParamFacts, UninitFacts, UninitCases | PropParam: C61, C62 |
| Print | absl/absl.h:12-39 | SpecPrint | PrintFacts | PropPrint: C63 |
| Compact | array.h:2820-2829, 2888-2903: make_compact_copy, make_compact_move | SpecStatic, SpecContainer | AccessFacts | PropAccess: C52, parts of C27, C33, C42 |

## Properties and how they are proved

| id | modelled | proof idea |
|---|---|---|
| C01 C02 C03 | flat offset, min/max, allocation | induction on the dimension list |
| C04 C05 C06 C07 | resolve | invariants of the left-to-right stride assignment; mixed radix argument on nested strides |
| C08 C09 | size, is_compact, is_one_to_one | counting/pigeonhole on lists of indices |
| C10 C11 C30 C51 | intervals | linear arithmetic, loop relation |
| C12 C13 C14 C15 C42 C47 | traversals, optimiser | trace = enumeration up to permutation, fusion lemma |
| C16 C17 C18 | algorithms over a partial memory | fold over trace, frame |
| C19 C20 C21 C22 | slices, transpose | induction on the argument list; finite check up to rank 4 for C22 |
| C23 C24 C25 C46 | split iterators | well-founded induction on the remaining extent |
| C26 | z-order | induction on bits and dimensions |
| C27 C28 C29 C45 | static parameters, conversions | case analysis, witnesses |
| C31-C37, C49 | container and allocators on a block heap with element lifetimes | ownership invariant preserved by every operation; refinement to abstract arrays |
| C38 C39 C40 | expression trees, ein_reduce | fold over the trace, permutation invariance of sums |
| C41 | image crop | arithmetic |
| C43 C44 | overflow-checked arithmetic | bounds |
| C59 | overflow-checked loops | bounds preserved by fusing; agreement with the unbounded loops |
| C60 | typed intervals, dims and slices | cases on static and dynamic parameters; relation between typed and untyped slices by induction |
| C48 | rational.h | Z division lemmas |
| C50 | convolutions | refinement of loop nests to updates of the denoted output |
| C53 | containers whose allocations fail | arrays without storage are replaced by empty ones: the ownership invariant of C31-C37 holds for the replaced state, and every operation commutes with the replacement |
| C54 | throwing elements | the first k steps of the construction loop; a destructor loop over storage with a raw cell is undefined |
| C55 | kernels of resample.h | invariant of the loop over positions: arrays that own their memory and hold the normalised weights |
| C56 | resampling | each step refines an update of the denoted image; temporaries are framed away, strips by induction over the split |
| C57 | resampling in exact arithmetic | sums over permutations, nonlinear arithmetic for the kernels |
| C58 | programs with algorithms | assigning to live elements keeps the ownership invariant of C31-C37 |
| C61 | element values as a parameter | relational parametricity of every function of Container, Ref and Program, proved by hand |
| C62 | uninitialized_allocator | elements of type `option V`; C61 with the relation "indeterminate or equal" |
| C63 | printed text | decimal notation read back digit by digit; a number ends at the first character that is not a digit |
| C64 | reductions that read their result | the fold of C38 with the latest value of the assigned element; corollaries of C38 for maxima, cross products, scalars and C arrays |
| C65 | memory order; overlapping copies | the sums of the sorted, fused dims have gaps of at least the next stride; a fold of assignments in which none reads what an earlier one wrote; induction on the shifted loop for the repeating case |
| C66 | exceptions in algorithms | a loop of callbacks that write different cells, stopped after k of them; the invariant of Program.v allows any change of element values, and unwinding is the destructor |
| C67 | rationals in 64 bits | quotient and remainder are bounded by the operands; the gcd divides both; agreement with C48 |
| C68 | views and reductions in 64 bits | every view keeps the bounds; induction on the chain; agreement with C19-C21, C38, C41 |
| C69, C70 | algorithms and arrays in 64 bits | every intermediate value of resolution, loop optimisation and access is bounded by the quantities that make a shape tame; agreement with the unbounded model, operation by operation, then by induction on programs |
| C71 | order of value loops | fusing keeps the sequence of offsets; the sums of nested dims sorted by stride are increasing in colexicographic order; a sorted permutation with distinct strides is unique |
| C72 | elements as bytes | a loop of writes to disjoint ranges of bytes; a simulation of the memory of cells by the memory of bytes, loop by loop |
| C73 | how long an array_ref may be used | for each statement, the block of each array before and after; blocks are never reused, so what is gone stays gone; invariant of programs: every array_ref refers to elements of its owner or to a freed block |
| C74 | how much work arrays do | the counted functions erase to the plain ones; the counts of each statement are given by the shapes, the allocators and who holds memory; the balance of the counts is the number of live objects and blocks, by counting along every primitive of the heap |
| C75 | arrays of a trivial type | an invariant of the world that says where the elements are, not that they are alive (every element in the block of its array, in debug builds the range of its shape too); loops as lists of writes; the layout need not be injective, so values are proved where the writes to one place agree |
| C76 | threads that use the library at the same time | programs independent of each other commute step by step: along every execution each thread is where it would be alone, by induction over the steps; conversely a conflict is brought about by running one thread up to the access and then the other; the programs run alone are the sequential algorithms, and their footprints are computed by following the sequential proofs; tiles overlap if and only if the split is not even (C23, C24, C46) |
| C77 | reference interpreter | forward simulation: each statement of the model with memory is matched by the interpreter's, case by case; legality is shown equivalent on matching states; both are lifted to programs by induction. The number the interpreter gives to an index in `generate` is its position in the value loop, which depends on the shape alone |
| C78 | programs on different arrays | on the interpreter's values, a statement is a function of the arrays it mentions; induction over programs and over interleavings, carried to the states with memory by C77 |
| C79 | programs with array_refs compute what an interpreter computes | simulation statement by statement on top of C77's and C73's invariant; the order of copies is the closed form of C71, read back as indices |
| C80 | function objects | the loops are folds over the lists of C12-C14 and C71; a fold that stores results is matched by one without memory (`fills`), and the in-place theorem reads the heap at the moment an index is reached |
| C81 | programs with control flow | what a program sees is a function of what C79's simulation relates, so both choose the same statement; induction on the number of statements |
| C82 | reference interpreter for failing allocations | each container function is described twice, by what it does when its requests are granted and by what it leaves when its n-th request is not; forward simulation per statement, with legality equivalent on matching states; induction over programs |
| C83 | kernels in real arithmetic | Lanczos: values at distance 1 alternate in sign and fall in magnitude (the window by the mean value theorem), so sums over each side of a position are positive however they are cut off; when shrinking, each value of a negative lobe but two on each side is paired with an earlier one of the first lobe, and bounds on sines and on pi limit those two; the others: a sum of the kernel is at least a telescoping sum of an explicit antiderivative of a step function below it, at any scale |
| C84, C85 | matrix products and convolutions in 64 bits | every index that occurs is one of a matrix, tile or widened matrix, so each checked loop equals the unchecked one (for all heaps); then C26, C46 and C50 |
| C86 | resampling in 64 bits | kernels, temporary images and strips are each small enough, so each checked step equals the unchecked one on every heap that the step before can leave; then C55, C56 and C83 |
| C87 | typed Einstein reductions | simulation: on memory where operands have their types, the typed reduction equals that of Ein.v on objects of any type, and a store keeps the type of its object, also seen through another operand; then C38 and C40.  Known bounds: what the types say is what the assertions test |
| C88 | overloads of calls | case analysis on the type of an argument, induction on the list of arguments; the selected overloads are run and compared with Typed.v and Shape.v |
| C89 | threads that declare arrays | the interpreter of C77 commutes with an injective renaming of arrays; invariant of the threads' scopes by induction on the schedule, then back to worlds |
| C90 | rounding errors of matrix products and convolutions | induction on the tree of operations, for any rounding with a relative and an absolute error; C46's and C50's results for arbitrary operations give the tree of each version |
| C91 | rounding errors of resampling | sums of the rounded shares against the average with the weights as computed; conversions, positions and weights of the linear kernel are bounded as well, so that some weight is positive; at rate 1 all numbers are integers; averages are stable under small changes of the weights, which gives the distance from C57's exact result |
| C92 | resampling in single precision | rounding picks an integer multiple of a power of 2; numbers on a finer grid are below the power of 2 at or below the argument, which is on the grid; kernels at integers by computation and beyond by bounds; errors of kernels by composing bounds of operations; weights when enlarging from the nearest pixel's, of at least 7/16, and up to four others of at least -5/64; slopes of kernels piece by piece, glued where the pieces meet |
| C93 | resampling reproduces linear images | weighted distances of the taps sum up to 0 for every position of the grid, by the pieces of the kernels; sums over a row are sums over the taps from the first position in the window; rows of rows for images |
| C94 | the kernels are what their names say | closed forms of the pieces, including both ends, and the recursion piece by piece; parameters from values at integers |
| C52 | data, bounds, compact copies | corollaries of C02, C06, C28, C32, C33 |

## Trusted base

* Coq 8.16.1's kernel, including `vm_compute` (used for examples and for the finite check of C22).
* `Print Assumptions` prints "Closed under the global context" for every theorem of the `Prop*.v` files but those of
  C83 and C86_resize, which are about real numbers.  Those use axioms of Coq's standard library, which are what its real numbers are made
  of: C83_short and C83_usable_short use `ClassicalDedekindReals.sig_forall_dec` and
  `FunctionalExtensionality.functional_extensionality_dep`; the other nine theorems of C83, C86_resize and their examples use these and
  `ClassicalDedekindReals.sig_not_dec` and `Classical_Prop.classic` (by way of the library's sine).  No other axiom of the
  standard library, and none of any other library, is used.  Loading the standard library's `ssreflect`
  plugin files brings the seven axioms of `Coq.ssr.ssrunder` (`Under_rel.Over_rel`, `Under_rel_from_rel`,
  `over_rel`, `over_rel_done`, `Under_rel`, `Under_relE`, `under_rel_done`) into the context of a checker that
  looks at all loaded modules; no theorem depends on them.  Such a checker also lists, as opaque, the definitions that the standard
  library's `Rdefinitions` seals in modules: `RbaseSymbolsImpl.{R, Rabst, Rrepr, Rquot1, Rquot2, R0, R1, Rplus, Rmult, Ropp, Rlt, R0_def,
  R1_def, Rplus_def, Rmult_def, Ropp_def, Rlt_def}` and `RinvImpl.{Rinv, Rinv_def}`.  These have definitions and are not axioms.
* The specifications: `Spec*.v`, and the statements in `Prop*.v`.
* The reading of C++ into the model.  Each definition cites the lines it models.  `TestShape.v`, `TestArrays.v`,
  `TestOthers.v` and `CountCases.v` compute the library's own tests (`test/*.cpp`, `absl/absl_test.cpp`) in the model:
  with smaller extents where they are large, all of the assertions hold there.  Left out are the tests of overload resolution, of reading an `int` as a `float`
  (C72 has that), of timings, and one that needs floating point.

## What the model leaves out

* **Overload resolution and SFINAE.** The model has the function that is called.  For the call and subscript operators, slicing and conversions of
  views, `Calls.v` has the candidates, the constraints and the choice (C88); its rules of C++ are conversion ranks, the more specialised template and access to bases, for one
  parameter, and user-defined argument types are of four kinds.  Elsewhere overloads are resolved by hand.  Static assertions are modelled
  where a property is about them (C22), and what `ein_reduce` requires in order to compile (C87: constraints, and which `operator=` an assignment
  calls); a program they reject is not in the model.  In `Ein.v` all values have one type; `EinTyped.v` has their types.
* **Exceptions.** In `Container.v` nothing throws.  `Throw.v` repeats the container with a budget of allocations and
  element constructions after which the next one throws.  `Abort.v` repeats the algorithms and programs with an
  element assignment, generator, function or operand that throws; there allocations and constructors do not.
  An assignment that throws leaves some value in the element (an arbitrary function of the old and the new one).
  Destructors and comparisons do not throw.
* **Pointers.** A pointer is a block and an offset.  Forming a pointer outside of its block is allowed (the library
  does so for every array whose `min` is not 0); only dereferencing it is undefined.
* **Indeterminate values** (`Uninit.v`, `Trivial.v`) may be copied; the standard leaves that undefined for some types.
* **Elements** occupy one cell each, except in `Bytes.v` (C72), where they are bytes with a size, an alignment and a
  representation, and which shows that bytes do what cells do.  There, types are trivially copyable, and reading an element as
  another type decodes its bytes (type-based alias analysis is left out).
* **Floating point.** C57 is about resampling with rational numbers in place of floats, C83 with real numbers (and the real
  sine and pi): with floats the sine of a multiple of pi is not exactly 0.  Shrinking with the `lanczos` template is covered for 4 side
  lobes (the only instance in the code), enlarging for any number.  Examples compute in an arbitrary type with arbitrary operations; the order of the operations is
  modelled, rounding is up to the type.  C90 adds the standard model of rounding (rationals, a relative error and an absolute one for
  underflow) for matrix products and convolutions: no overflow, infinities, NaN or signed zeros, and the comparison in main is exact.
  The bound proved for main's sizes is 1.08e-4, just above main's tolerance of 1e-4, which is covered for sums of up to 1408 products; that says nothing
  about the random data main uses, whose errors are far below the worst case.  C91 does the same for resampling, without underflow: errors are
  relative to the average with the weights as they are computed, and to exact resampling only with the linear kernel when enlarging (or given a bound
  on the weights' errors).  The absolute value is modelled as a rounded difference.  Of the kernels only the linear one and the box are shown to have
  weights at every position with rounding, the box away from the edges.  C92 takes the rounding of IEEE 754 binary32 (to nearest, ties to
  even) for these roundings: exponents are unbounded, zeros have no sign, and operations are neither contracted (fused multiply-add) nor done with more precision.
* **Integers.** Models compute in Z unless they say otherwise.  C43 and C44 (`Checked.v`) give the conditions under
  which offsets, sizes, flat ranges and the stride search agree with 64-bit arithmetic; C59 (`Overflow.v`) does so for
  loops, split iterators and the loop optimiser, C67 (`RatChecked.v`) for rational numbers, C68 (`ViewChecked.v`) for views and reductions, C69 and C70 (`ContChecked.v`) for algorithms and arrays, C84 and C85 (`MatChecked.v`) for z-order, matrix products and convolutions, C86 (`ResChecked.v`) for resampling (the bounds of `sizes_fit` are sufficient, not necessary).  The bounds of C59 on value loops are sufficient, not necessary.
* **Concurrency** is modelled (`Threads.v`, C76) for threads that call algorithms on views of arrays that live throughout, with element reads and writes as the only shared accesses, interleaved one at a time. That is what the C++ memory model gives programs without data races; a race is undefined behaviour, and `C76_lost_update_refuted` shows only the mildest consequence. Threads that assign, reshape, swap or destroy arrays of their own are modelled only with whole statements as steps (C78; C89 for threads that also declare arrays, each under names of its own); the thread safety of allocators is not modelled.
* **Performance, CUDA, benchmarks, `main` functions** (but for the array part of resample's, C83).
* Prefetch addresses in matrix.cpp are left out of `Matrix.v` and computed in `MatChecked.v`; in `Ref.v` `generate` is modelled by the sequence of results of the generator, and other callbacks by functions; `Callback.v` (C80) has function objects that read and write memory, and shows that these are the special case of objects that do not.  Calls that write elements of the array being filled are covered for `for_each_index` and `for_each_value` only.  The object is passed as an lvalue, and its move constructor does not throw.

## Findings

Behaviour of the code that contradicts its documentation or the property one would expect.  Those with a theorem are
machine-checked.

| finding | theorem |
|---|---|
| The stride search can make dims collide if the given strides are not nested | C05_not_nested_refuted |
| Negative extents: `size()` and `for_each_value` disagree with the set of indices | C08_negative_extents_refuted, C14_negative_extents_refuted |
| `is_one_to_one` and `is_compact` are not exact in the other direction | C09_one_to_one_refuted, C09_compact_refuted |
| `is_in_range(_)` is false although `_` selects the whole dimension | C10_placeholder_refuted |
| `split<N>` of an interval of fewer than N elements: in a release build the loop leaves the interval and does not end | C24_split_static_release |
| `reorder` of an empty ref with a null base trips an assertion | C21_reorder_empty_refuted |
| The compile-time permutation test accepts non-permutations from rank 5 on, and `transpose` then duplicates a dim | C22_permutation_test_refuted, C22_bad_transpose_refuted |
| `for_all_in_z_order` calls the function once although a range is empty | C26_empty_range_refuted |
| `move_reinterpret_shape` checks `offset` where `set_shape` and `reinterpret_shape` check `-offset`: legal uses are rejected, illegal ones accepted | C27_move_reinterpret_rejects_refuted, C27_move_reinterpret_accepts_refuted |
| `make_compact` of shapes with static strides: padding, or two indices at one address | C28_padding_refuted, C28_collision_refuted |
| `copy` onto the same elements at higher indices repeats the first ones; it is not memmove (nothing says it should be) | C65_memmove_refuted |
| `reshape` is not all or nothing: if moving an element throws, the array keeps its shape and the elements moved so far are lost | C66_reshape, C66_reshape_strong_refuted |
| `is_compatible` is false for shapes whose strides are unresolved; release builds convert silently to a different mapping | C29_is_compatible_unresolved_refuted, C29_release_refuted |
| A shape with stride 0 constructs an element several times | C31_broadcast_refuted |
| A moved-from array of static, non-empty shape still claims its elements | C33_static_shape_refuted |
| `make_move(array&&, shape)` with an equal shape and allocator copies the elements (`return src;` of a named rvalue reference, C++14/17 rules) | C33_make_move_rvalue_copies |
| `reshape` to a shape apart from the old one trips an assertion; it uses a default-constructed allocator | C35_apart_refuted, C35_allocator_refuted |
| `ein<i, i>(A)` of a non-square matrix reads out of bounds in a debug build | C39_repeated_refuted |
| The same if all sizes are known at compile time: the compile-time check, too, takes the first dimension only | C87_repeated_refuted |
| `ein_reduce(ein<i>(a) = ein<i>(b))` does not compile for two non-const arrays of the same type: `=` copies the operand `ein<i>(b)` instead of making an expression; `+=` works | C87_copy_refuted |
| An operand larger than the result is accepted at run time, but not if both sizes are known at compile time | C87_relaxed_refuted |
| With an integer result and fractional terms, `+=` truncates at every step | C87_rounding_refuted |
| `all_of_any_type` tests `is_constructible`, not "implicitly convertible": a class with an explicit conversion to `index_t`, or one that converts to `interval<>`, passes the constraints of `a(x)`, which then does not compile | C88_constraints_refuted, C88_same_refuted |
| A shape of rank 1 claims to be constructible from any shape, so conversions of views from another rank are not refused by the constraint, but fail inside | C88_rank_one_refuted |
| The constraint of `is_compatible<ShapeDst>(src)` has its two shapes swapped; harmful only for a source of rank 1 | C88_is_compatible_rank_one |
| Cropping to a disjoint rectangle makes dims of negative extent | C41_disjoint_crop_refuted |
| `size()` overflows for some empty shapes; `resolve()` overflows although the final layout fits | C43_empty_size_refuted, C44_layout_fits_refuted |
| An interval that ends at INT64_MAX, or an empty one that starts at INT64_MIN, cannot be looped over: `max()` overflows | C59_last_index_refuted, C59_first_index_refuted |
| `split` of an interval near INT64_MAX overflows in its last increment | C59_split_near_the_end_refuted |
| `for_each_value` of a compact array of 2048 elements overflows when its loops are fused and the outer min is large | C59_fused_min_refuted |
| `range<-9>(b)` has extent 1, since -9 means dynamic; a variable of type `interval<0, -1>` selects a whole dimension, the same bounds in an `interval<>` select nothing | C60_range_marker_refuted, C60_placeholder_by_type_refuted |
| A dim whose min, extent or stride is -9 is taken for dynamic | C45_marker_refuted |
| `multiply_ref` overflows `int` for matrices of more than 2^31 elements | C46_plain_overflow |
| `multiply_reduce_tiles_z_order` adds overlapping tiles twice, and leaves the output as it was if there is nothing to sum | C46_z_order_refuted, C46_z_order_unset |
| `relative_error` of matrix.cpp and conv2d_relu.cpp divides by the larger number without its absolute value, so any two negative numbers pass; main's data are not negative | C90_relative_error_refuted, C90_relative_error_negative |
| In floats `cubic_bspline` and `quadratic_bspline` are slightly negative (-2^-23) at some distances where they are positive or 0 exactly; `cubic_bspline(2.0f)` is, so at rate 1 a pixel two away from a bright one becomes negative | C92_bspline_positive_refuted, C92_between_refuted |
| Tiled products overflow for matrices near the last index although plain loops do not; the prefetches of the z-order product overflow although its tiles do not | C84_last_rows_refuted, C84_prefetch_refuted |
| rational numbers with negative denominators compare and round wrongly | C48_negative_denominator_refuted |
| `ceil` of a rational and comparisons overflow although the result is representable; resampling between widths above 2^30 can overflow | C67_ceil_refuted, C67_compare_refuted, C67_scale_refuted |
| `resample` overflows for small images whose rows begin far from 0 (2^58): the strides of the temporary images are multiplied by the first row | C86_far_refuted |
| An empty slice far outside its dimension, or a crop to a rectangle beside the image, overflows although no element is accessed | C68_empty_slice_refuted, C68_far_crop_refuted |
| Assignment between empty arrays whose `flat_min` is not 0 does nothing | C49_empty_assign_refuted |
| `assign(shape, value)` that has thrown bad_alloc cannot be repeated: the array has the new shape and no storage | C53_retry_debug_refuted, C53_retry_refuted |
| Moving an empty array into one that has lost its storage leaves the source without storage | C53_move_empty_refuted |
| `swap` of arrays with unequal, non-propagating allocators loses the elements of one of them when an allocation fails | C53_swap_refuted |
| An element constructor that throws: non-delegating constructors leak, delegating ones destroy elements that do not exist, assignments leave an array that cannot be destroyed | C54_new_leaks, C54_copy_leaks, C54_make_leaks, C54_reshape_leaks, C54_value_ub, C54_copy_alloc_ub, C54_assign_ub, C54_move_leaks, C54_move_assign_ub, C54_swap, C54_reshape |
| `uninitialized_allocator` with an element type that is not trivial: array(shape) can be neither destroyed nor written to | C62_nontrivial_ub |
| Printing an interval computes its end, which overflows if the interval ends at INT64_MAX | C63_interval_ub |
| `x.assign(shape, x[i])` destroys the element before it copies it | C58_assign_own_elem_ub |
| `move(array&&, array&)` replaces the destination, shape included; the other overloads of `move` keep its shape | C58_move_all, C58_move |
| `conv2d_naive` and `conv2d_tiled` disagree on NaN | C50_nan_refuted |
| `resample` to fewer than 64 rows asserts; in a release build the loop over strips runs past the end | C56_rejected, C56_few_rows_refuted |
| `build_kernels` asserts that the weights of each position have a positive sum; in a release build, without any weight, the extent of the kernel is negative and the loop over it does not end | C55_unusable_rejected, C55_unusable_unchecked_refuted |
| `data()` of a moved-from array overflows: its strides are unknown | C69_data_refuted |
| `reshape` of a moved-from array overflows if the type fixes an extent but not the strides | C70_reshape_refuted |
| An array of 2048 consecutive elements cannot be constructed if one min is 2^60: fusing loops multiplies the mins | C70_far_refuted |
| A flipped array is not visited in memory order: the negative stride, whatever its size, is innermost | C71_flipped_refuted |
| A dimension of extent 1 can keep loops over a compact array from being fused | C71_unit_refuted |
| `reinterpret` compares the sizes of the types, not their alignments | C72_misaligned_refuted |
| `uninitialized_auto_allocator` asks for `alignas(sizeof(T))`, which does not compile if the size is not a power of two | C72_uninit_auto_refuted |
| The comment of `swap` ("zero copies or moves of individual elements") does not hold if the allocators differ and do not propagate | C73_swap_zero_moves_refuted |
| `swap` of arrays with equal allocators moves every element and allocates if the allocators differ from a default-constructed one and do not propagate: the temporary array uses `Alloc()` | C74_swap_equal_allocators_refuted |
| A release build of `move_reinterpret_shape` adds an offset to a null base (then the destructor releases a null buffer), takes inline storage out of the array that holds it, and takes memory of another allocator | C75_move_null_offset_refuted, C75_move_inline_refuted, C75_move_allocator_refuted |
| Tiles of `split<N>` over an extent that is not a multiple of `N` overlap: the last tile is moved back to keep its size. One after the other that only repeats work; given to threads it is a data race, and with updates in place (`+=`) even one after the other counts elements twice and between threads loses updates | C76_update_tiles_race, C76_product_tiles_race, C76_lost_update_refuted |
| `generate`, `transform_index`, `transform_indices`, `for_all_indices`, `for_each_index<...>` and `for_each_value` of matrices and of chunky images with a stride in x move from the caller's function object even if it is an lvalue: a `std::function` passed to two of them is empty the second time | C80_object, C80_reuse_refuted |

Seen while reading, not modelled:

* `enable_if_shapes_explicitly_compatible` is always true; up-rank conversion leaves strides unresolved.
* `select_on_container_copy_construction` of auto_allocator is declared with a parameter, so `allocator_traits`
  never calls it.
* A `matrix_shape<4, 4>` reshaped to a shifted min keeps its static min.
* `custom_alloc(int state)` of test/array_lifetime.cpp ignores its argument (`state_(0)`), so all its allocators compare
  equal and the cases with unequal allocators are never run.
