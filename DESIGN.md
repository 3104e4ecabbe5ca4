# Formal model of ACTL in Rocq (Coq 8.16.1)

## 1. Approach

ACTL is a header-only C++20 template library.  The code was read as text and
never built or run.  It is modelled function by function as total, computable
Gallina functions in files `*Model.v` under `rocq/theories`.  Every definition
cites the file and lines it comes from and says where it simplifies.  The
150 properties in `properties.jsonl` are stated against small independent
specifications (definitions in the proof files or directly above the theorem),
proved in `*Proofs.v`, and stated in final form in `Prop*.v`, where every theorem has a
concrete `Example` meeting its hypotheses and is followed by `Print Assumptions`.

Conventions:

* Machine words are `Z` (or `N`) with explicit `mod 2^w` at each C++ operation
  that wraps.  Widths are parameters wherever the C++ type is a template
  parameter.
* `AC_ASSERT`, thrown exceptions and undefined behaviour are distinct outcomes
  (`Outcome.v`): `Ok`, `AssertFail`, `Throw`, `UB`, and `NoFuel`.  A theorem that
  states `= Ok ...` therefore excludes all others.  `AC_ASSERT` is modelled as
  in a debug build (`AC_ASSERT.hpp:12-20`); in a release build the code
  continues.
* C++ templates over a type with operations are modelled by Gallina functions
  over an arbitrary type with the operations as arguments.
* Loops are structural recursion when possible and otherwise recursion on
  fuel with an explicit out-of-fuel outcome which the theorems exclude.
* Geometry is modelled in exact arithmetic (`Z` or canonical rationals `Qc`);
  square roots are a parameter with their specification as a hypothesis of the
  theorems that need it.
* Where the code violates the natural property, the property is stated on its
  exact domain and a `_refuted` theorem gives a machine-checked counterexample of
  the faithful model outside of that domain (a "finding").

## 2. Trusted base

* The Coq 8.16.1 kernel, including its `vm_compute` conversion (used by examples and
  counterexamples).  No native compilation, no plugins beyond the standard tactics
  (`lia`, `nia`, `lra`, `ring`, `field` produce terms checked by the kernel).
* The reading of the C++ text into the models, and of standard library components
  (containers, `std::sort`, `std::lower_bound`, iterators) into lists and list
  functions.
* Axioms: none.  `Print Assumptions` says "Closed under the global context" for each of
  the 819 theorems listed in section 6.

## 3. Properties: what is modelled and how it is proved

| Property | Modelled | Proof | Finding or note | File |
|---|---|---|---|---|
| C01 binary_pow computes the n-th power in every monoid | `binary_pow` over an arbitrary type with an operation (NumericModel) | loop invariant `res * value^power`; the number of multiplications is bounded by counting them in the model | - | PropNumeric.v |
| C02 Modular addition and subtraction are exact and never overflow | `mod_add`, `mod_sub`, `mod_neg` on words of any width with wrap | case split on the comparison with the modulus; no overflow because operands are reduced | - | PropNumeric.v |
| C03 Modular multiplication is exact for every word size | `mod_mul` (double word and binary variant) | invariant of the doubling loop modulo m | - | PropNumeric.v |
| C04 Modular division solves q*y = x exactly when it is solvable | `mod_div`: extended Euclid on words | invariant of the Euclid loop, solvability by gcd | division by zero with modulus 2^w evaluates x % 0 | PropNumeric.v |
| C05 Ring elements form a commutative ring | `modular` ring elements, static and dynamic modulus | ring laws through the homomorphism to Z/m; primality for division | the constructor does not reduce its argument | PropExtra.v, PropNumeric.v |
| C06 splitmix64 step is a permutation of the 64-bit states | splitmix64 step | explicit inverse function (xor-shift inversion, inverse of odd multipliers), proved two-sided | - | PropNumeric.v |
| C07 xoroshiro128cplus never loses or degenerates its state | xoroshiro128cplus step and output | linear map with an explicit inverse; zero is the only fixed bad state | - | PropExtra.v, PropNumeric.v |
| C08 Hashing of arithmetic values is collision-free for every seed | hash of values, ranges and tuples | injectivity of each step for a fixed seed | +0 and -0 are equal but hash differently | PropNumeric.v |
| C09 Bit helpers read and write exactly the requested bits | bit helpers on words | `Z.testbit` extensionality for every bit position | - | PropNumeric.v |
| C10 min, max and three-way comparison obey order laws | min, max, compare3way, sgn | order laws over an abstract total order | - | PropNumeric.v |
| C11 Absolute-error comparison: trichotomy holds, transitivity does not | absolute error policy over Q | linear arithmetic | equality is not transitive | PropNumeric.v |
| C12 Integer constant literals denote exactly the written number | literal parser with base prefixes and separators | fold invariant of the digits | - | PropNumeric.v |
| C13 Split keeping empty fields is the inverse of join | `split` keeping empty fields | induction on the string: join and split are mutually inverse | - | PropString.v |
| C14 Split removing empty fields returns exactly the maximal delimiter-free runs | `split` removing empty fields | characterised as the filter of C13 and as maximal runs | - | PropString.v |
| C15 Trim removes exactly the maximal matching prefix and suffix | `trim` | prefix and suffix maximality by induction | - | PropString.v |
| C16 Integer output is the canonical numeral | integer writer: digits, sign, base prefix | value of the digit string by a separate numeral semantics; uniqueness of canonical numerals | - | PropIntText.v |
| C17 Integer output never overruns its stack buffer | stack buffer of the writer | digit count bound for every width and base | - | PropIntText.v |
| C18 Integers read back what was written | writer followed by the parser | C16 with the numeral specification of C19 | - | PropIntText.v |
| C19 Integer input never returns a wrapped or out-of-range value | parser automaton: sign, base, digits, overflow test | simulation of the automaton by a numeral specification | - | PropIntText.v |
| C20 Zero followed by a non-digit is misread (finding) | the same automaton | counterexample | `0` followed by a non-digit | PropIntText.v |
| C21 Parsing does not depend on how input is chunked | parser executor on chunks | the state after two chunks is the state after their concatenation | - | PropIntText.v |
| C22 Memory output device never writes past its end and keeps the prefix | memory output device | refinement to the longest prefix that fits | - | PropDevice.v |
| C23 Memory input device: reads deliver the content in order until the end | memory input device | refinement to a tape | reading after the end goes past the block | PropDevice.v |
| C24 Buffered writer delivers every byte once and in order | buffered writer on any device | invariant: delivered ++ buffer = written | after a write that exactly fills the buffer bytes are delivered twice | PropDevice.v |
| C25 Escaped strings can be decoded unambiguously | escaped strings and characters | explicit decoder, left inverse | - | PropFormat.v |
| C26 Adjusted output has exactly the requested width and keeps the content | adjusted output | length arithmetic | - | PropFormat.v |
| C27 Spaced output puts exactly one separator between adjacent items | spaced output of nested values | induction on the nested values with the separator flag as invariant | - | PropFormat.v |
| C28 Manipulators and nesting scopes of the formats | manipulators, flags, nesting levels | state invariants over nested values | flags changed inside a value are not restored | PropFormat.v |
| C29 Binary serialisation round trip | binary format over a universe of types | induction on values: reader undoes writer with any continuation, canonicity, truncation | reading does not overwrite lists, sets and maps but appends | PropBinary.v |
| C30 Rounded real output is within half a unit of the last digit | `real_write` in exact rational arithmetic, rounding as a parameter | half unit bound; digits by C16 | buffer overrun, values above 2^64, prefix, precision and base zero | PropReal.v |
| C31 Queue built from two stacks is FIFO | queue from two stacks | refinement to a list | - | PropContainer.v |
| C32 Vector-backed queue is FIFO | vector backed queue | refinement to a list; storage never shrinks | - | PropContainer.v |
| C33 Fixed-capacity vector refines a bounded sequence | `array_as_vector` | refinement to a bounded list, assertion exactly when full | a copy shares the end position with the original | PropContainer.v |
| C34 Semi-static array maps static and dynamic indices to disjoint slots | `semi_static_array` | disjointness of static and dynamic slots by arithmetic on the selector | - | PropContainer.v |
| C35 Tensor multi-indices address distinct in-bounds elements | tensor offsets | mixed radix bijection | the size of a tensor wraps | PropContainer.v |
| C36 Tensor nested initialisation places elements row-major only for square trailing shapes (finding) | tensor construction from nested lists | row-major placement iff trailing extents are equal | misplaced elements | PropContainer.v, PropExtra.v |
| C37 BFS discovers exactly the reachable vertices, each once | BFS with an explicit queue | loop invariant: queue, colours and reached set | - | PropGraph.v |
| C38 BFS distance recorder computes shortest path lengths | distance recorder | queue monotonicity invariant; shortest walks in a separate walk semantics | - | PropGraph.v |
| C39 Predecessor recorder yields a tree of valid paths | predecessor recorders | forest invariant | - | PropGraph.v |
| C40 Iterative and recursive DFS produce the same event sequence | recursive and iterative DFS with visitors | simulation in both directions | - | PropGraph.v |
| C41 DFS visits exactly the reachable vertices with properly nested intervals | DFS | white path argument, nesting of intervals in the event list | - | PropGraph.v |
| C42 Topological sort orders every edge of an acyclic graph | topological sort | finish order on acyclic graphs | - | PropGraph.v |
| C43 Connected component labels characterise connectivity | connected components | labels iff connected in a separate walk semantics | - | PropGraph.v |
| C44 Tarjan strong components: claimed result fails on a 4-vertex graph (finding) | Tarjan strong components | invariants of the component stack prove the half that holds and the order of labels along edges; a vertex that pops the stack is the first discovered vertex of its component, or the cross edge that was ignored closes two disjoint ways, which gives the graphs on which the result is right | components are split: the low link of a finished vertex is not read | PropConnect.v |
| C45 Articulation points: claimed result fails on small graphs (finding) | articulation points | invariants prove that every cut vertex is reported, and that a false report comes from a back edge below a child, which closes a cycle of at least four vertices | vertices that are not cut vertices are reported | PropConnect.v |
| C46 Edge end-point lookup by xor | end points stored as xor | xor algebra on words | - | PropAdj.v |
| C47 Adjacency list keeps in-, out- and edge counts consistent | adjacency list, all directedness and container kinds | invariant over all insertion histories | bundles of in-edges; edges of a graph without vertices | PropAdj.v |
| C48 Adjacency list without parallel edges never stores duplicates | adjacency list with unique out-edges | invariant over histories | the handle returned for a refused edge | PropAdj.v |
| C49 Orientation is antisymmetric and cyclic | orientation of three points | `ring`, `nia`; collinear iff on a common line | - | PropGeo.v, PropReach.v |
| C50 Polygon area formula | area of simple polygons | shoelace sum; additivity over cuts | - | PropGeo.v |
| C51 Convex hull encloses all points | Andrew monotone chain | stack invariant: convex chain below all earlier points; supporting lines | only one point for collinear input | PropGeo.v |
| C52 Reflection and projection laws | project, reflect, rotate over Q | `field` in Qc; minimality by sums of squares | rotation formula | PropReach.v, PropVec.v |
| C53 Integer ranges enumerate exactly the arithmetic progression | integer ranges over C++ integer types | arithmetic progression by induction | whole type, step overflow | PropExtra.v, PropRange.v |
| C54 Filtered range visits exactly the matching elements in order | filtered range | iteration forward and backward is the filter | - | PropRange.v, PropReach.v |
| C55 Lexicographical comparison of ranges misorders proper prefixes (finding) | lexicographical comparison of ranges | relation to the reference order | a proper prefix is greater | PropRange.v |
| C56 Tuple comparison is the lexicographical total order | lexicographical comparison of tuples | equals the lexicographic order of the components | - | PropRange.v |
| C57 Sub-spans stay within the parent span | sub-spans | offset arithmetic | offset + count may wrap | PropRange.v |
| C58 Accounting map assigns dense stable ids | accounting map | ids are dense and stable over all histories | narrow id types | PropRange.v |
| C59 Composite and shift maps compose lawfully | composite, shift, associative maps | get/put laws over abstract maps | - | PropRange.v, PropReach.v |
| C60 Type list indexing, slicing and concatenation | type list at, slice, concat | induction on lists | - | PropRange.v |
| C61 Bridges recorder reports exactly the bridges | bridges recorder | low link invariant: reported iff removing the edge disconnects its ends | - | PropConnect.v |
| C62 Cyclic iterators implement arithmetic modulo the length of the range | cyclic iterators | arithmetic modulo the length | - | PropRange.v |
| C63 Range copy overwrites exactly the destination slots | range copy | exact effect on the destination | - | PropRange.v |
| C64 Tensor equality is equality of shapes and of all elements | tensor equality | all elements | - | PropContainer.v |
| C65 Container ids stay valid under insertion | container ids | positions under insertion and erasure | - | PropContainer.v, PropReach.v |
| C66 Edge list keeps accepted edges and finds them | edge list | history invariant | removing a missing edge | PropAdj.v |
| C67 Finding an edge in an adjacency list | edge lookup in adjacency lists | soundness and completeness | a missing edge is answered by one equal to the first edge | PropAdj.v |
| C68 String device is a tape: writes append, reads deliver in order | string device | refinement to a tape | reading after the end | PropDevice.v |
| C69 Buffered reader delivers the source in order | buffered reader on any device | invariant: consumed ++ buffer ++ rest = source | the first get | PropDevice.v |
| C70 Reading up to a terminator | reading up to a terminator | span semantics | - | PropDevice.v |
| C71 Skipping characters | skipping characters | maximal matching prefix | string literal sets include the terminator | PropDevice.v |
| C72 Writing a repeated character into memory | repeated characters into memory | exact effect | overflow of the block | PropDevice.v, PropReach.v |
| C73 Character classes | character classes | the ASCII tables as separate predicates, for all char values | - | PropExtra.v |
| C74 Equality of ranges | equality of ranges | equality of sequences | - | PropExtra.v |
| C75 Indented output reflects the nesting | indented output | lines and levels of nested values | the size takes a line | PropFormat.v |
| C76 Manipulators as arguments of write take effect | manipulators as arguments | flag semantics | base manipulators do nothing | PropFormat.v |
| C77 Nearest point of a line, ray or segment | nearest points | minimality over all points of the line | - | PropVec.v |
| C78 Inversion in a sphere | inversion in a sphere | involution, fixed points | - | PropVec.v |
| C79 Collinearity of vectors of any dimension | collinearity in N dimensions | proportionality | zero vectors | PropVec.v |
| C80 Planes through points and crossing planes | planes | membership of points | the plane and sphere test is inverted | PropVec.v |
| C81 Intersection of lines, rays and segments in the plane | intersection of lines, rays, segments | set of common points is exactly the output | open ends, degenerate segments | PropCross.v |
| C82 Point on a line, ray or segment | point on line | membership | begin point in dimension other than 2 | PropCross.v, PropReach.v |
| C83 Circumcenter | circumcenter | equal distances and uniqueness | - | PropCross.v |
| C84 Intersections with spheres and circles | spheres and circles | common points exactly, given exact square roots | equal circles | PropCross.v |
| C85 Intersection points written through an iterator | output through an iterator | effect on the array | the iterator does not advance | PropCross.v |
| C86 Winding number of a polygon around a point | winding number | crossing sum; half plane, chord and segment invariance determine the winding number | - | PropPoly.v |
| C87 Location of a point in a convex polygon or triangle | point location by winding number, triangles | crossing count of a convex polygon is one | degenerate triangles | PropPoly.v |
| C88 Location by binary search in convex and monotone polygons | point location by binary search, `to_monotone` | chains of a convex polygon sorted; agreement with C87 | - | PropPoly.v |
| C89 The convex hull as a polygon | convex hull composed with point location | global convexity from local turns | - | PropPoly.v |
| C90 Orientation of polygons | polygon orientation | extreme vertex corner | - | PropPoly.v |
| C91 Sorting by polar angle | sorting by angle | sortedness with respect to the polar order; strict weak order | sorting around another point | PropPoly.v |
| C92 Closest pair of points | closest pair by divide and conquer | strip invariant: pairs across the middle closer than the current result are compared | - | PropPoly.v |
| C93 Antipodal vertices and the largest distance in a convex polygon | antipodal vertices by rotating calipers, largest distance (squared) | every antipodal pair is on the staircase of visited pairs: edges between the two turn left of the first edge (unimodality of the height over an edge) | two vertices are read out of bounds | PropExtreme.v |
| C94 Extreme vertex of a convex polygon in a direction | extreme vertex by binary search | height given by a quotient of affine functions is unimodal along the border (barycentric identity); invariant of the search | - | PropExtreme.v |
| C95 Tangents from a point to a convex polygon | tangents from a point | the same search with the quotient of affine functions that orders the directions from the point | - | PropExtreme.v |
| C96 Intersection of a line and a convex polygon | intersection of a line, ray or segment and a convex polygon | each chain search ends at an edge over which the side changes; crossing points are convex combinations, edges bound the parameter from both sides | a touching point is reported twice | PropExtreme.v |
| C97 Edge labels of find_articulation_points_and_components | the edge stack of the articulation point search | every edge that is not a loop is pushed from its later end and popped by the end of the search, so it has a label; cycles as lists of edges for the refutation; without cycles through three or more vertices the edges popped together are exactly the parallel edges of one pair (invariant of the stack along the search), so the labels are exact | two edges of one cycle get different labels and unrelated edges get the same | PropOrder.v |
| C98 preorder, postorder and inorder list a depth-first search tree | the orders of order.hpp | the events of a search determine a rooted ordered tree; outputs of the three visitors read off the tree; lengths by induction on the tree | inorder stores -1 in a char: with unsigned char only the first vertex is written | PropOrder.v |
| C99 Expressions apply operations pointwise | expressions, placeholders, overload resolution, passing of arguments and evaluation (ExprModel.v), for any operations and for the comparisons | a relational meaning indexed by height; resolution and passing keep it and do not increase the height; both directions by induction on fuel and on height | overloads chosen before the types of ranges are known: greater(l, r) is not less(r, l) | PropExpr.v |
| C100 Laziness, captured variables and assignment of expressions | if_else, capture of variables, assignment to out | by computation of one step; the other branch is arbitrary | - | PropExpr.v |
| C101 Comparisons with an absolute error policy | formulas and policies of the comparisons over exact numbers | symbolic evaluation for the four combinations of types | sgn, placeholders and ranges lose the policy | PropExpr.v |
| C102 Searches with a terminator stop at the right vertex | both searches with the terminator argument (GraphModel.v), TermProofs.v | the trace of the search with a terminator is a cut of the trace without one; predecessors by invariants of prefixes of the trace | the search of the whole graph continues with other roots after a terminator | PropTerm.v |
| C103 Reading floating point numbers from text | the parser of floating point numbers (FloatTextModel.v) with a rounding of each operation as parameter | simulation of the parser by an automaton over characters; value of each block with a calculus of relative errors; number of blocks bounded by digits and pieces | infinity and nan are written but not read | PropFloat.v |
| C104 Reading booleans from text | the parser and the writer of booleans (FloatTextModel.v) | matching of a constant text is compositional over pieces | - | PropFloat.v |
| C105 Arithmetic of integer iterators with offsets of any integer type | operators of random_access_iterator_interface for integer_iterator with typed operands: promotion, usual arithmetic conversions, wrap and signed overflow (IterModel.v) | one lemma on sums modulo the width of the value type; case split on the signedness of the common type | subtraction of narrow unsigned offsets goes forward; order over unsigned types; overflow of the product with the step | PropIter.v |
| C106 Linked list iterators visit the nodes in order | linked list iterators over a memory of nodes (IterModel.v) | induction on the chain of nodes | -- of the end of a null-terminated list | PropIter.v |
| C107 Structured data written as spaced text is read back | reading through skipws and text on a memory device for a universe of argument types (ReadModel.v), together with the writer of C27 | mutual induction on the values with the text before and after as parameters; integers by C18, booleans by C104 | zeros and empty vectors that are not at the end | PropRead.v |
| C108 Intersection of a line with a simple polygon | TransModel.v: the loop over the cyclic vertices with the signs of three consecutive vertices, between_endpoints, the scalar projection; crossings as in ChordModel.v. Integer coordinates, rational parameters. | C108_sound, C108_complete; C108_parity: each output is split between the two edges of its vertex, so that the contributions of an edge agree modulo 2 with the crossings of the ray along the line by the half open rule; the crossings of a ray in any direction add up to the winding number, since the difference for two directions is a difference of indicators of a cone. C108_even in the same way. | A corner that touches the line is not reported (the TODO in the code); the report of a touching edge depends on the order of the vertices: C108_touch_refuted, C108_order_refuted. | PropTrans.v |
| C109 Tangents from a point to a circle, angles and bisectors | TangentModel.v over exact rational arithmetic with an exact square root at the values used; an angle is represented by a vector with that polar angle. | C109_contact from the common points of two circles (C84); C109_two, C109_line, C109_border_inside, C109_polar_border, C109_angle, C109_bisector, C109_bisector_between by algebra. | C109_polar_refuted holds for every point outside; C109_iterator_refuted. | PropTangent.v |
| C110 Files behave as sequences of bytes with a position | FileModel.v: streams of the C library (contents, position, end-of-file indicator, last operation, contents at the last flush), the table of modes, constructors, get, peek, read, move, write, flush, destructors | refinement of a sequence of bytes with a position (ideal, overwrite) by induction over the operations; case analysis over the modes | trunc does not clear and in|out does; peek at the end of the file steps back over the last byte | PropFile.v, PropReach.v |
| C111 Line buffered writing and reading of files | FileModel.v: write with the search for the last line feed, read through fgets and strlen | induction over the pieces; the head up to the last line feed is unique; lines by the relation next_line | write has no return statement (every call is undefined); read does not compile for files that can be read, and with zero bytes loses the rest of the line | PropFile.v |
| C112 Conversion between numbers, tuples and ranges keeps the elements | ConvModel.v: types and values as data; selection of the specialization by types and kind of reference (can1, conv1), construction and assignment by the standard library (direct, assign) | relation Elems as specification (ConvSpec.v); induction over the plain pairs of types; determinism and typing of the relation by mutual induction | numbers taken as sizes of vectors, result depending on const, hard errors after can_convert_to_v, tuples of one element, empty tuples, unsigned constants from negative numbers | PropConv.v |
| C113 Seeding a generator with a string and drawing integers | RngModel.v: the loop of seed with the default generator, the addition of the characters, the test of two outputs; uniform over an arbitrary distribution | the degenerate state gives two equal outputs, so the loop does not end there; the step is a bijection (C07); sums of characters modulo 2^64 | only the sum of the characters counts; uniform(0u) draws from all numbers | PropRng.v |
| C114 Planar predicates over machine integers do not overflow within stated bounds | MGeoModel.v: the predicates and the hull with every operation in the promoted type, outcome UB on signed overflow, static_cast when vectors are stored | twice the area of a triangle in a box is at most the area of the box; refinement of the exact model (C49-C51) step by step; sums modulo the width for unsigned types | unsigned coordinates are never counter-clockwise; 8-bit and unsigned hulls lose points; 16-bit orientation overflows int; areas overflow far from the origin | PropMGeo.v |
| C115 Orientation over floating point numbers never mistakes left for right for vectors | FGeoModel.v: numbers as rationals, infinities and NaN; every operation rounds to nearest even in a format given by precision and exponent range, with gradual underflow and overflow to infinity; orientation on top of it | rounding is monotone and exact on representable numbers, so the sign of a difference of rounded products is right or zero; Sterbenz lemma; error bound of rounding | three doubles points near (1/2,1/2), (12,12), (24,24) get the opposite orientation; integers just outside of the bound get a wrong collinear | PropFGeo.v |
| C116 Colours and predecessor edges describe the search | GraphModel.v: color_recorder and predecessor_edge_recorder as components of the searches; the watcher of gray targets is a user's visitor | induction over the big-step descriptions of the searches: the gray vertices are those on the current path and the black ones can be ordered with targets first | the map of predecessor edges is not initialized by the recorder: the entries of sources and of unreachable vertices are stale if the map is reused | PropColor.v |
| C117 Traits of functions take types apart and put them together again | FnTypeModel.v: types as data, templates as functions on them with the choice of specializations, an ill-formed instantiation is None | case analysis and induction over types | a volatile pointer to a function, though callable, has no traits; a pointer to a pointer to a function, though not callable, counts as a free function; a const object with a non-const operator() counts as a function object; with_return_type of a function pointer is a function and not a pointer | PropFnType.v |
| C118 A limited range gives exactly its limit of elements and a transformed range is the image | LimModel.v: a base iterator is a record of operations (pointers into an array with undefined behaviour outside, linked lists, or any other); limited and transformed iterators are built from it | induction over the elements read | limit 0 is not an empty range: assertion failure in debug, one element in release; + and -- bypass the limit; input iterators proper do not compile, since operator== of the adaptor needs the forward category | PropLim.v |
| C119 Equality of sequences compares lengths and elements alike for ranges and tuples | EqSeqModel.v: the three overloads and their choice, elements with their integer types, == after the usual arithmetic conversions | induction over the loop and over the fold of && | a negative number equals a large unsigned one, so equality is not transitive | PropEqSeq.v |
| C120 Calls of the first and of all matching elements of a tuple | CallModel.v: binding of arguments to parameters by value category and constness, the choice of elements, effects as functions on a state | induction over the tuple | a function object with a parameter that is a reference to non-const is silently not called by invoke_all_matching, because the check is made with rvalues | PropCall.v |
| C121 Point location and sorting by angle over machine integers | MPolyModel.v: the algorithms of PolyModel.v with differences, products and the counter in C++ arithmetic | every orientation is exact within the box (MGeoProofs.v), so the results are those of the exact model, whose meaning is C86 to C91 | over unsigned types of 32 bits or more the answers are wrong; coordinates of 16 bits already overflow | PropMPoly.v |
| C122 Operations on integers declared associative and commutative | ScalarOpModel.v: typed integers, usual arithmetic conversions, the type of a conditional, list initialisation, conversion of the result to the target | congruences modulo powers of two, bitwise extensionality, a total order of types | declared associativity fails for mixed types and where a grouping overflows; no identity of bit_and for unsigned types; min does not compile | PropScalarOp.v |
| C123 Rebinding of templates and common types | RebindModel.v: types as finite trees, partial specialisations as pattern matching | induction over types with lists of parameters | rebinding of a map keeps the allocator of the old type and replaces values of the type of keys | PropRebind.v |
| C124 Graph that owns its vertices and edges | VELModel.v: try_add_edge over int vertices with growth of the vector, add_edge by values over nodes of a set with identities, writes to vertices | invariants over histories: the vector refines a count and a function, the edges are those of an inductive specification of accepted requests | resizing down and negative vertices leave edges with invalid ends; the greatest int as a vertex is undefined; writing to a vertex of a set breaks its order | PropVEL.v |
| C125 Searches of graphs built by adding edges | BuiltModel.v: the graph a search sees through out_edges of an adjacency list | the adjacency list after a history refines the list of accepted requests (AdjProofs.v), the searches refine reachability; bridges of graphs without a container of edges by a simulation between graphs whose edges differ in identity only (RelabelProofs.v) | none | PropBuilt.v |
| C126 Default maps of vertices and edges | DefMapModel.v: the two kinds of default maps with keys of AdjModel.v edges | edges got in each way stand for accepted requests (AdjProofs.v), keys are equal iff the requests are; induction over the writes | without a container of edges the directions of an undirected edge have separate values (noted as a TODO in edge.hpp) | PropDefMap.v |
| C127 Crossing of lines over machine integers | MCrossModel.v: intersect and crosses of lines with C++ integer arithmetic | refinement of the exact rational model (CrossModel.v) under the bound, composed with C81; the specification is stated with points of rational coordinates | over unsigned types crossing segments are reported not to cross | PropMCross.v |
| C128 Closest pair and largest distance over machine integers | MDistModel.v: nearest, antipodal_vertices and max_distance with C++ integer arithmetic and correctly rounded square roots of type double | rounding keeps the order of roots, strictly below 2^52, so the machine version refines the exact model (PolyModel.v, ExtremeModel.v); composed with C92 and C93; edges of a convex polygon span at most the area of the box; beyond 2^52 (MNearProofs.v) the divide and conquer is proved again for the rounded metric: conversion and root keep the order, and a coordinate difference x is at most the rounded root of the rounded x*x | from 2^52 on the pair need not be the closest one; over unsigned types the closest pair is missed | PropMDist.v, PropMNear.v |
| C129 Extreme vertices, tangents and chords over machine integers | MExtModel.v: extreme_vertex, tangents and intersect of a line and a convex polygon with C++ integer arithmetic; quotients stay numerator and denominator | all comparisons are exact within the bounds (twice the area of a triangle is at most the area of the box), so the searches refine the exact models (ExtremeModel.v, ChordModel.v); composed with C94, C95 and C96 | over unsigned types the results are wrong for every polygon away from the origin that was tried | PropMExt.v |
| C130 Plane geometry over floating point coordinates | FPolyModel.v: hull, polygon area, winding number, within, orientation of a polygon and sort_by_angle with IEEE arithmetic of a format (FGeoModel.v) | comparisons and orientations of grid points equal those of integers (C115, and the sign of a rounded difference of grid numbers is exact), so the algorithms refine the exact models and the integer theorems apply; totality: order of non-NaN numbers is a strict weak order, and the extreme points of the set are never right of the line through them | nothing more is true in general, shown by counterexamples over double | PropFPoly.v |
| C131 Comparisons, differences and absolute values of integers of any types | ScalarCmpModel.v: the operations on typed integers with the usual arithmetic conversions (IterModel.v, ScalarOpModel.v) | the conversion to the common type is the identity unless a negative number becomes unsigned, where it adds 2^width; the result type is specified by widths and signs alone | bool and floating point operands are not modelled here | PropScalarCmp.v |
| C132 Rounded intersection points and projections for integer coordinates | FCrossModel.v: the ratio and the point at it in double, after the integer products of MCrossModel.v | relative errors of the conversions, the quotient, the product and the sum are composed with the model of rounding of C115; monotonicity of rounding gives the box; the exact point is that of C127 | ratio is not defined in the repository and is read as a division after conversion to double, as the geometry policy cast_before<Div, double> says | PropFCross.v |
| C133 Visitors used together in one search do not influence each other | GraphModel.v: the searches with visitors as events and answers; pairs of visitors | a simulation between searches with related visitors (ComposeProofs.v), used with a visitor that records the events | visitors that change the graph or throw are outside of the model | PropCompose.v |
| C134 Iterators over devices give back in order what iterators over devices wrote | DevIterModel.v: both iterators over any read function; binary, spaced text and deduced text formats | induction on the values (DevIterProofs.v) with C29, C18, C19 and C107 | copies of an iterator share the device and are not modelled; the contents after a failed read are not described | PropDevIter.v |
| C135 Lines over floating point coordinates cross as the exact lines do on a fine grid | FLineModel.v: intersect (scalar, general position, full) and crosses with rounded operations; NaN and infinity included | areas are exact on the grid, refinement to CrossModel.v (FLineProofs.v) and C81; negation commutes with rounding for the order of lines | contraction into fused operations is not modelled | PropFLine.v |
| C136 Searches on convex polygons with floating point coordinates are exact on a fine grid and end with a vertex for any numbers | FExtModel.v: the searches with rounded operations; the number of steps of the chord search is a parameter so that endless loops can be stated | signs and areas are exact on the grid, refinement to ExtremeModel.v and ChordModel.v (FExtProofs.v), then C93-C96; the interval of the extreme search halves whatever the comparisons say | contraction into fused operations is not modelled | PropFExt.v |
| C137 Geometric algorithms keep the running times their documentation states | CostModel.v: the functions of GeoModel.v, PolyModel.v, ExtremeModel.v and ChordModel.v with a count of evaluations | the same results without the count; halving of the interval; amortisation over the stack of the hull; packing of points in squares of half the distance (CostProofs.v) | sorts and std::lower_bound have the complexity the standard library guarantees and are not counted; what is counted is named at every definition | PropCost.v |
| C138 The closest pair of points with floating point coordinates has the smallest distance that the library can see | FNearModel.v: FGeoModel.v's arithmetic with correctly rounded square roots; nearest/multi_point.hpp and max_distance.hpp over it | a rounded leg is never longer than the rounded hypotenuse (root_square: the rounded root of the rounded square of a number is not below the number), so pruning is safe; rounding is monotone; relative errors of the six roundings; C136 for antipodal vertices (FNearProofs.v) | C138_small_refuted, C138_large_refuted: with underflow or overflow of squares the first pair is returned, four times as far as the closest; C138_rounded_refuted: integers of type double whose squared distances need 55 bits | PropFNear.v |
| C139 Ids of the elements of lists, sets and hash sets name the same element until it is erased | NodeModel.v: containers as sequences of nodes with addresses (std::list, std::set, std::multiset, hash_set, hash_multiset by what the standard says: fresh addresses, any order of iteration after an insertion into a hashed container); id functions and the generic emplace, erase, find over them | invariant: addresses are distinct, sorted containers are sorted, containers without duplicates have none alike; induction over histories; hashes of ids by C08 | C139_list_erase_refuted, C139_write_refuted, C139_null_key_refuted, C139_hash_refuted are findings | PropNode.v |
| C140 Searches of graphs take linear time and memory | GraphModel.v with the fuel of the loops as the number of steps; BoundedModel.v: the same loops with a queue or stack of bounded capacity, where an insertion into a full one fails | the big-step description of the searches gives the exact number of steps: induction over it with the number of finished vertices and examined edges; the queue is a list of distinct discovered vertices; the depth of calls by a walk for every discovered vertex | C140_sources_refuted is a finding | PropBounded.v |
| C141 Tensors, views of their slices, swap and move | TenMemModel.v: a memory of blocks with uninitialised elements; a tensor is its dimensions and a pointer that may be null; construction, operator(), operator[], iteration, swap with a pointer and with the elements in the object, move | the positions of the elements by the row-major bijection of C35; reading and writing runs of a block described by firstn and skipn; frame conditions by disjoint positions | C141_swap_views_refuted, C141_moved_from_refuted and C141_dims_refuted are findings; that operator[] with dimensions known only at run time is accepted by a compiler is not claimed (span<Int> is made from a const pointer) | PropTenMem.v |
| C142 Searching, merging, extreme elements and permutations of ranges | AlgModel.v: the functions of range/algorithm.hpp with the loops of the standard algorithms they call | the binary searches with one loop over a downward closed predicate; extreme elements by extending the range one element at a time; next_permutation by the decomposition of the list into a prefix, an element and a descending suffix, and the loop over it by a number for a list that grows with the order | the standard algorithms are part of the trusted base as far as their loops are those modelled; sort, partition, shuffle, for_each, fill, generate and reverse are not modelled; merge is declared to return bool while std::merge returns the output iterator, so it compiles only for iterators that convert to bool, and with pointers returns true; C142_max_tie_refuted is a finding | PropAlg.v |
| C143 Property maps of members and elements change the named part of an object and no other | ObjMapModel.v: a store of objects whose members are objects and whose life may have ended; references as a number of the object and a path; get, put, invert and iteration of the maps and their composites, with the temporary objects of a composite | laws of reading and writing at paths (ObjMapProofs.v); the part named by a map and a key as an inductive relation; induction on the nesting and on the elements | const maps of members are not distinguished from others, so the programs a compiler rejects (a map of a member after a map that returns a value, unless the former is const) are also described; shifts without conversions (C59); function maps return values; C143_value_refuted, C143_nesting_refuted and C143_same_vector_refuted are findings | PropObjMap.v |
| C144 Distances to lines, rays and segments over floating point coordinates | FDistModel.v: dot, norm, area and the three cases of distance with the rounded operations of FGeoModel.v and the rounded square root of FNearModel.v | on the grid dots and areas are exact (FDistProofs.v), so the case is the exact one; relative errors of the root and the quotient; the nearest point by completing the square and Lagrange's identity | the errors are stated for the squares, as the distances are not rational; no negative zero; one format for all numbers; C144_degenerate_refuted and C144_far_refuted are findings | PropFDist.v |
| C145 What is left after an exception | ExcModel.v: the operations of ContainerModel.v, MapModel.v and AdjModel.v with a list that says which of the coming steps throw; the state is returned also if a step threw | the elements in the order of service (ExcProofs.v) are kept up to rotation by pouring, by induction over histories; the numbering of keys with the inverse one short, by induction over later keys; the graph after each step (ExcGraphProofs.v) | operations of the standard containers have no effect if they throw; moves of vertices while the vertex container grows do not throw; wrapping of values as in C58; C145_queue_order_refuted, C145_vector_refuted, C145_accounting_refuted and C145_graph_half_edge_refuted are findings | PropExc.v |
| C146 Buffering over devices that take or give less than they are asked for | ShortModel.v: the buffer of DeviceModel.v over any function for the device, and over a source that is a list of pieces; the memory read into is explicit | a simulation with the writer of C24 that collects the blocks (ShortProofs.v); for the reader an invariant about the characters to come; a simulation with the reader of C69 for a source in one piece | the boundary case of C24 is excluded; pieces are not empty; C146_writer_unreported_refuted, C146_writer_gap_refuted and C146_reader_hole_refuted are findings | PropShort.v |
| C147 Lazily evaluated arguments and output parameters | LazyModel.v: a function object as a state machine that may throw, wrappers by reference or by value, maps by what find shows, events (calls, moves, searches); output wrappers as references to the cells of a memory | induction over the keys and over the statements (LazyProofs.v); the program over plain variables is a specification on functions from cells to values | how std::map, std::optional and overload resolution treat the wrapper is taken from the C++ standard; C147_emplace_same_map_refuted and C147_optional_deduced_refuted are findings | PropLazy.v |
| C148 Arguments read from text through a buffer are those read from memory | BufReadModel.v: skip, till, the parser executor and the reading of arguments over the buffered reader of ShortModel.v; the memory side is ReadModel.v | the executor over the buffers is the executor over some division of the stream into chunks (strong induction), which does not matter (IntTextProofs.v, FloatTextProofs.v); strings by strong induction over the stream; then induction over the argument types (BufReadProofs.v) | floating point arguments; blocks larger than the buffer (see C146) | PropBufRead.v |
| C149 The format that flushes after each unit leaves nothing in buffers | UnitFlushModel.v: argument trees whose leaves are the calls made by write_final (bytes, spans, repetitions, flush), the batch with flush_t around each, short circuit on failure, any device; the buffered writer of ShortModel.v and DeviceModel.v | the calls are a list of units closed by flushes (induction over the trees); no unit can meet the boundary defect (BufferProofs.v) because it starts with an empty buffer; runs over any device by induction over the list (UnitFlushProofs.v) | formats in front of it in a composition: their results are the leaves | PropUnitFlush.v |
| C150 Logical expressions have the values of logic and evaluate both operands | LogicModel.v: the logical operations with their registered overloads, identity elements and any operations of the user in the evaluator of ExprModel.v | the conditions of the general theorem on evaluation (C99) hold for these operations, then induction over formulas; truth tables are expanded one argument after another; the laws follow from strictness and uniqueness of values | the order in which the operands are evaluated: not specified by the language for the arguments of a call | PropLogic.v |

No property is only partially proved at present (no `_partial` theorem).  Properties
whose natural statement fails are proved in the strongest form that holds and refuted
beyond it.

## 4. What is modelled and what is not

Modelled, by directory of `include/actl`:

* `numeric`: binary_pow, modular ring, random engines, hash, bit operations,
  comparisons, absolute error, constant literals.
* `string`: character classes, split, trim.
* `range`: integer ranges and iterators, filtered range, cyclic iterator, span,
  comparison, equality, copy.
* `map`: accounting, composite, shift, filtered, associative container maps.
* `sequence`: tuple comparison, type lists.
* `container`: adaptors, semi-static and static arrays, tensor, container ids.
* `graph`: adjacency list, edge list, BFS, DFS, recorders, connected
  components, Tarjan, articulation points, bridges.
* `io`: memory, string and buffered devices, integer and real output, integer
  input, binary format, formats and manipulators, escaped/adjusted/braced/spaced/indented
  decorators, skip, till, repeat.
* `geometry`: points, lines, planes, spheres; area, orientation, convex hull,
  projection, reflection, nearest, distance, crosses, intersect, within, winding
  number, circumcenter, inversion, sorting by angle, closest pair.

* LogicModel.v: numeric/logic/{logical_and,logical_or,logical_not,logical_implies}.hpp

* UnitFlushModel.v: io/format/utility/unit_flush.hpp, io/utility/{flush,repeat}.hpp (the overload for unbuffered devices), the write side of io/argument/{byte,byte_span,function,tuple,range}.hpp and of io/core/batch.hpp

* BufReadModel.v: io/device/wrapper/buffered.hpp (peek, eof) with skip, till, parser executor and reading of arguments (as in ReadModel.v) over it

* LazyModel.v: functional/lazy.hpp with the uses that its documentation shows; functional/parameter/out.hpp, inout.hpp (construction, conversion between wrappers, assignment, reading)

* ShortModel.v: io/device/wrapper/buffered.hpp over any device to write to and over a source that gives its data in pieces

* ExcModel.v: container/adaptor/queue_using_stacks.hpp, array_as_vector.hpp (emplace, pop_back), map/accounting_map.hpp (get) and graph/adjacency_list.hpp (try_add_edge) with exceptions

* FDistModel.v: geometry/algorithm/distance/point_line.hpp over floating point numbers in dimension 2, with point/norm.hpp and point.hpp: dot

* ObjMapModel.v: map/member_map.hpp, map/composite_map.hpp, map/generic_container.hpp for vectors, map/pair_associative_container.hpp, map/function_map.hpp over a store of objects

* AlgModel.v: range/algorithm.hpp count, mismatch, unique, lower_bound, upper_bound, merge, min_element, max_element, minmax_element, lexicographical_compare, next_permutation

* TenMemModel.v: container/tensor.hpp construction, element access, slices, iteration, swap and move over a memory of blocks

* BoundedModel.v: the loops of breadth_first_search.hpp and depth_first_search.hpp with a user-given queue or stack of bounded capacity

* NodeModel.v: container/container_id.hpp and container/functions.hpp for containers without random access; the containers themselves by the rules of the standard library

* FNearModel.v: nearest/multi_point.hpp, distance/point_point.hpp, point/norm.hpp, polygon/max_distance.hpp and std::sqrt over floating point numbers

* CostModel.v: evaluations in polygon/extreme_vertex.hpp, tangents/point_convex_polygon.hpp, intersect/line_convex_polygon.hpp, convex_hull/andrew_monotone_chain.hpp, nearest/multi_point.hpp

* FExtModel.v: polygon/extreme_vertex.hpp, polygon/antipodal_vertices.hpp, tangents/point_convex_polygon.hpp, intersect/line_convex_polygon.hpp over floating point numbers

* FLineModel.v: intersect/line_line_2d.hpp, detail/line_test.hpp, detail/common_line.hpp, crosses/line_line_2d.hpp over floating point numbers

* DevIterModel.v: io/iterator.hpp:20-75 over BinaryModel, ReadModel and FormatModel
* the point form of geometry/algorithm/intersect/line_line_2d.hpp, project/point_line.hpp and the point of a line at a ratio (line.hpp:149-152) for integer coordinates with results of type double (FCrossModel.v); simplification: no fused operations, one zero; the cases of fdiv with infinite operands do not arise
* comparisons, compare3way, sgn, subtract, negate, divide, squared, abs, -= and absolute_error on integers of any types (ScalarCmpModel.v); simplification: bool and floating point operands left out, 0_c read as int 0
* convex_hull, area of a polygon, winding_number, within (simple, triangle, convex, monotone), orientation of a polygon, sort_by_angle over floating point numbers (FPolyModel.v); simplification: as in FGeoModel.v, no FMA, one format for all operands, one zero; std::sort is insertion
* geometry/algorithm/polygon/extreme_vertex.hpp, tangents/point_convex_polygon.hpp, intersect/line_convex_polygon.hpp over machine integers (MExtModel.v); simplification: the floating point quotient of ratio is left as numerator and denominator, line and polygon have the same coordinate type
* geometry/algorithm/nearest/multi_point.hpp, polygon/antipodal_vertices.hpp, polygon/max_distance.hpp, distance/point_point.hpp, point/norm.hpp over machine integers with distances of type double (MDistModel.v); simplification: std::sqrt is correctly rounded (IEEE 754), the merge and copy of lines 45-46 give the merged points
* geometry/algorithm/intersect/line_line_2d.hpp, crosses/line_line_2d.hpp, detail/common_line.hpp, detail/line_test.hpp over machine integers (MCrossModel.v); simplification: the division of the ratio, done in floating point, and the point computed from it are in FCrossModel.v
* graph/default_map.hpp, map/generic_container.hpp get and put (DefMapModel.v); simplification: ids of nodes of containers that are not random access are numbers, so distinct nodes have distinct ids
* out_edges of adjacency lists as the graph of the searches (BuiltModel.v)
* graph/vertex_edge_list.hpp, graph/vertex_list.hpp (VELModel.v); simplification: fewer than 2^31 vertices are added by add_vertex, the search in a set goes over the nodes in order, an associative container of edges keeps positions of insertion as ids
* numeric/arithmetic/{additive/add,multiplicative/multiply}.hpp, numeric/bit/bit_*.hpp, numeric/comparison/min_max.hpp on integers of different types, numeric/conversion/allow_promotion.hpp, operation_base.hpp:67-92, core/common.hpp (ScalarOpModel.v); not modelled: bool and floating point, for which no associativity is declared
* meta/{rebind,template_type,strict_common_type,type_traits}.hpp, container/traits.hpp (RebindModel.v); not modelled: user specialisations of rebind, templates with non-type parameters
* geometry/algorithm/{polygon/winding_number,within/*,point/sort_by_angle,orientation/simple_polygon}.hpp over machine integers (MPolyModel.v); simplification: the point and the polygon have the same coordinate type, std::sort is an insertion sort
* container/equality/{ranges,tuples,range_tuple}.hpp (EqSeqModel.v); integers only
* functional/tuple/*.hpp (CallModel.v); simplification: no conversions between types, one operator() per function object
* range/iterator/limited_input_iterator.hpp, range/limited_input_range.hpp, range/iterator/transform_iterator.hpp, range/iterator/interface/iterator_adaptor.hpp (LimModel.v); simplification: the base operations change nothing but the iterator, comparisons of base iterators are defined
* functional/traits/*.hpp except Callable.hpp, core/qualifiers/*.hpp (FnTypeModel.v); simplification: no arrays, void is an ordinary type, names stand for classes where a class is required, the lookup of operator() is given by a table
* graph/traversal/{color_recorder,predecessor_edge_recorder}.hpp (GraphModel.v, C116); on_edge_relaxed of the latter has no caller in the library
* geometry/algorithm/{area,orientation}/point_point.hpp over IEEE 754 formats (FGeoModel.v); simplification: no fused multiply-add, no wider intermediate results, the two zeros are identified
* geometry/{point,line}.hpp, geometry/algorithm/{area,orientation,convex_hull} over C++ integer types (MGeoModel.v); operands of mixed types are not modelled
* numeric/random/rng_decorator.hpp: seed and uniform for integers of at least 32 bits (RngModel.v); the distributions of the standard library are arguments constrained by their contract, real numbers are not modelled
* container/conversion/*.hpp, range/traits/strict_range.hpp, meta/static_size.hpp: selection and run time of convert_to for integers, constants, std::tuple, std::vector and std::array (ConvModel.v); bool, floating point, std::pair, noexcept and semi_static_array as target are not modelled
* io/device/file.hpp, io/device/wrapper/line_buffered.hpp, io/device/mode.hpp: all of it, over a description of the streams of the C library (FileModel.v): single byte characters, no failures of the disk, no translation of line ends; copies of file objects (which close the stream twice) are not modelled
* TangentModel.v: tangents/point_circle.hpp, point/bisector.hpp, point/norm.hpp, point/angle.hpp.
* TransModel.v: intersect/line_simple_polygon.hpp, detail/between_endpoints.hpp, the scalar of project/point_line.hpp.
* io/format/text/{skipws.hpp,parser/string.hpp}, reading of io/argument/{byte,range,size,tuple}.hpp and io/core/{batch,read_write,parser_executor}.hpp (ReadModel.v). Memory device only; the old values of arguments are not kept when reading fails; containers other than vectors and arrays are not read
* range/iterator/interface/random_access_iterator_interface.hpp, range/interface/{basic,bidirectional,random_access}_range_interface.hpp for integer iterators, range/iterator/linked_list_iterator.hpp (IterModel.v). The step is an int; value and offset types have 8 to 64 bits
* io/format/text/parser/{float_unchecked,uint_unchecked,boolean}.hpp, io/core/const_data_parser.hpp (FloatTextModel.v). Finite floating point numbers are rationals, each operation and conversion is rounded by a parameter; overflow to infinity is not modelled
* operation/{arg,expression/*,overload/*,policy/*}.hpp, core/if_else.hpp and the operations of numeric/comparison, abs, squared, subtract, logical_not (ExprModel.v). A type that is not that of a value is None, also for the branches of if_else that fail; composite operations are single operations; integers are unbounded and floating point numbers exact; UB stands for a program that does not compile
* geometry/algorithm/polygon/{antipodal_vertices,max_distance,extreme_vertex}.hpp and tangents/point_convex_polygon.hpp (ExtremeModel.v)
* geometry/algorithm/intersect/line_convex_polygon.hpp (ChordModel.v)

Not modelled, with the reason:

* Template metaprogramming which only selects overloads or checks concepts
  (`meta` except C123, `lifetime`, `functional/traits/Callable`, `*/traits`, interfaces, `noexcept` deduction,
  preprocessor and platform macros): no run-time behaviour; what the compiler selects is
  fixed in the model by the form of the argument.
* Floating point rounding in geometry (except orientation, C115, distances of points with integer coordinates, C128, and hull, area,
  point location and sorting by angle, C130, points of intersection and projections for integer coordinates, C132), tolerance policies other than the absolute error
  comparison itself: exact arithmetic is used.
* Overflow of scalar types in geometry outside of the predicates of C114 (orientation,
  area, scalar products, lines through two points, convex hull), C121 (point location, sorting by angle), C127 (crossing of lines), C128 (closest pair, largest distance), C129 (extreme vertices, tangents, chords), C132 (projections).
* Destructors, exceptions thrown by allocation, move semantics.
* Empty stubs: `graph/shortest_paths/*`, `graph/adjacency_matrix.hpp`,
  `kosaraju_strong_components.hpp`.
* `geometry/algorithm/intersect/line_simple_polygon.hpp` uses an undeclared variable and
  `io/device/wrapper/line_buffered.hpp` lacks a return; both are modelled in their evident
  reading (C108, C111).
* Templates that cannot be instantiated: the device iterators of `io/iterator.hpp`; `merge` and `mismatch` of `range/algorithm.hpp`,
  whose return types do not exist for ranges; the default `VertexContainer` of `graph/vertex_edge_list.hpp`.
* Some headers include files that do not exist, so they cannot be compiled as written:
  `range/iterator/function_output_iterator.hpp` (hence `range/all.hpp`),
  `range/iterator/cyclic_iterator.hpp`, `functional/noexcept/all.hpp`,
  `sequence/type_array/all.hpp`, `sequence/fold/*`, `io/format/binary/all.hpp`,
  `geometry/point.hpp`, `geometry/traits.hpp` and those of `geometry/algorithm` that use
  `numeric/math.hpp` or `operation/scalar/all.hpp`.  They are modelled as if the missing
  header provided what its name says.
* `tests/geometry` and `tests/graph` are excluded from the CMake build and part of the
  code they cover does not compile as written; it is modelled in its evident reading.

## 5. Findings

Each is a machine-checked counterexample on the model (theorems `*_refuted`).

* C04: division by zero with modulus 2^32 (stored as 0) evaluates `x % 0` instead of throwing.
* C05: the constructor of a ring element does not reduce its argument.
* C08: +0.0 and -0.0 compare equal and have different hashes.
* C11: equality up to an absolute error is not transitive (inherent).
* C20: the digit zero followed by a non-digit is misread by the integer parser.
* C23, C68: reading after the end of a memory or string device leaves the block.
* C24: a write which exactly fills the buffer of a buffered device makes the next
  flush deliver bytes again.
* C28, C76: flags set inside a value are not restored; base manipulators have no effect.
* C29: reading a list, set or map in binary appends to the old content.
* C30: real output overruns its buffer, fails above 2^64, prints no base prefix correctly and
  mishandles precision or base zero.
* C33: a copy of an `array_as_vector` shares the end position with the original: pushing to the copy
  overwrites the original.
* C35, C36: tensor size wraps; nested initialisation misplaces elements unless trailing extents agree.
* C44: Tarjan components are split on a graph with four vertices. The labels then are not in
  reverse topological order either (C44_order_refuted).
* C45: vertices that are not articulation points are reported.
* C47, C48, C66, C67: bundles of in-edges, edges of an empty graph, handles of refused edges,
  undefined removal of a missing edge, missing edges found equal to the first edge.
* C51: the hull of collinear points is a single point.
* C52: the formula of the rotation in the plane does not preserve length.
* C53, C57, C58: ranges over a whole type, steps near the limits, wrapping sub-spans, narrow id types.
* C55: a proper prefix compares greater than the longer range.
* C69, C71, C72, C75: first get of the buffered reader, sets given by literals, repeated characters past
  the block, blank line for the size in indented output.
* C79, C80, C81, C82, C84, C85: collinearity with zero vectors, inverted plane and sphere
  test, collinear segments with open ends, degenerate segments, begin point in dimension other
  than 2, equal circles, output iterator not advanced.
* C87, C91: degenerate triangles contain every collinear point; sorting by angle
  around a point ignores the point in the comparison.

* C150_guard_refuted: `x != 0 && 10 / x > 1` written as an expression divides by zero for x = 0, as both operands are evaluated before operator&& (evaluate.hpp:40-61); if_else must be used instead.

* C149_repeat_refuted: writing repeated characters reports success whatever the device took (repeat.hpp:23-28 ignores the results). C149_without_refuted: without the format bytes are left in the buffer and the defect of C24 shows.

* C148_unfilled_refuted: nothing fills the buffer of a new buffered_reader: reading an integer, a boolean or a vector fails however often it is tried and whatever the source has; reading a character fails and puts the reader past its end for good. C148_first_string_refuted: a string is read as empty, with success, and only this fills the buffer. A block read (of no characters) has to come first.

* C147_optional_deduced_refuted: the documented example std::optional optional2{ac::lazy{computeValue}} deduces an optional of the wrapper: computeValue is not called (the test names the type and so does not show this). C147_emplace_same_map_refuted: emplace with a lazy argument calls the function for every key.

* C146_writer_unreported_refuted, C146_writer_gap_refuted: buffered ignores how much the device took: data is lost and every call reports success. C146_reader_hole_refuted: buffered_reader::read advances the destination by what it asked for, not by what it got: with a device that gives less (a line), a block longer than the buffer has a hole and characters are lost.

* C145_queue_order_refuted: an exception while elements are moved between the stacks of a queue_using_stacks makes the last elements be served first. C145_vector_refuted: push_back of an array_as_vector advances the end before it assigns. C145_accounting_refuted: an exception of push_back in accounting_map::get leaves the key in the map without its inverse; all later inverses are wrong. C145_graph_half_edge_refuted: an exception in the last step of try_add_edge leaves an edge only one end knows; adding it again is refused, adding it the other way counts it twice.

* C144_degenerate_refuted: the distance to a segment whose ends are equal is not a number (0 / 0). C144_far_refuted: with double coordinates 2^27 the area of two vectors is rounded to 0 and so is the distance of a point that is not on the line.

* C143_value_refuted: get of a composite of a map that returns an object by value (std::map, a function map) and a constant map of a member returns a reference to an object whose life has ended. C143_nesting_refuted: composite_map of three maps nests to the left and reads such an object where the same maps nested to the right do not. C143_same_vector_refuted: a composite of one vector with itself (v[v[k]]) does not give back what was put.

* C142_max_tie_refuted: with several greatest elements max_element gives the first and minmax_element the last of them.

* C141_swap_views_refuted: after swap of two fixed tensors a view taken before shows the same elements as before if the tensors have more than 16 elements and the elements of the other tensor if they have at most 16.
* C141_moved_from_refuted: a tensor that was moved from keeps its dimensions and so a nonzero size, while its data is null; with a rank known at run time it has rank 0 and size 1. empty() is false and any access is undefined.
* C141_dims_refuted: a braced list of dimensions shorter than the rank is read past its end, and a longer one is cut, without an assertion (tensor.hpp:206-208).

* C140_sources_refuted: breadth_first_search does not look whether a source is already discovered: a vertex that occurs twice among the sources is discovered, queued and started twice and its edges are examined twice.

* C139_list_erase_refuted: ac::erase(list, value) uses std::remove, which moves elements between the nodes: the id of the erased element then names its successor and the id of the last element dangles.
* C139_write_refuted: id_at casts constness away, so an element of a set can be overwritten and the set has two elements alike.
* C139_null_key_refuted: comparing the null id of a list or set with < or hashing it dereferences the end (a disabled test in /repo/tests/container/container_id.cpp expects it to work).
* C139_hash_refuted: in a hash_set of double that holds 0.0, find(-0.0) succeeds and emplace(-0.0) inserts another element; also id_erase of a null id is undefined, while for a vector an assertion fails (C139_null).

* C138_small_refuted, C138_large_refuted: nearest of a set of points of type double with differences below about 2^-537 or above 2^511 returns an arbitrary pair because norms are not scaled (no hypot).
* C138_rounded_refuted: of (0, 0), (2^27, 1), (2^28, 1) as doubles the first two are returned although the last two are closer.
* C138_max_refuted: max_distance is infinite for a small convex polygon with coordinates of about 2^600.


* C136_thin_refuted: for the convex triangle (1, 1), (2.5, 2.5), (0.3, 0.30000000000000004) of doubles extreme_vertex reports a wrong vertex, antipodal_vertices reads past the end and intersect with the line through (0, 0) and (1, 1) does not end
* C136_range_refuted: for a pentagon with a factor 2^-600, antipodal_vertices reads past the end and intersect does not end; with 2^600 the chord is NaN

* C135_end_refuted: closed segments of doubles with the same end, from (0.3, 0.3) and (0.2, 0.1) to (0, 0.3), are not reported to cross
* C135_order_refuted: crosses of the segments (2.9, 2.9)-(3.6, 3.7) and (2.2, 2.1)-(4.3, 4.5) of doubles depends on their order

* C134_lists_refuted: an input_device_iterator does not clear its object, the k-th list seen (also sets and maps, C29) contains the first k lists
* C134_strings_refuted: an input_device_iterator over strings never ends, behind the last word it gives empty strings
* C134_space_refuted, C134_merged_refuted: with the format deduced for a text device, an input_device_iterator over integers ends at the first space, and an output_device_iterator writes no separators, 1 and 2 are read back as 12
* C132_on_second_refuted: the segments (0,0)-(49,0) and (1,-1)-(1,1) cross at (1,0), but the x reported is 0.9999999999999999, left of the second segment.
* C132_open_end_refuted: the open segment (2^30,0)-(2^30+1,0) and the segment (2^30,-1)-(2^30+1,2^24-1) cross inside it, and the point reported is (2^30,0), its excluded end.
* C131_order_refuted, C131_equal_refuted, C131_compare_refuted: is_less of mixed integer types has a cycle (-1 < 0 < 1u < -1), is_equal is not transitive (-1 == 4294967295u == 4294967295LL != -1), compare3way(-1, 1u) is 1.
* C131_abs_refuted: abs of int8_t -128 is -128. C131_negate_refuted: 1LL - 1u is 0 but 1LL + (-1u) is 4294967296. C131_divide_refuted: divide(-6, 2u) is 2147483645.
* C131_within_refuted: with absolute_error and epsilon 2u, is_equal(5u, 3u) is true, is_equal(3u, 5u) is false and is_less(5u, 3u) is true: differences of unsigned numbers wrap.
* C130_hull_lost_refuted: convex_hull of five doubles near the diagonal drops the greatest point (24, 24); all returned points are below 13 in both coordinates.
* C130_area_refuted: area of a counter-clockwise triangle with integer coordinates near 2^52 (in a box of 3 x 23) is -4 instead of 6, while its orientation is right; area should be computed relative to a vertex.
* C130_angle_order_refuted: over double the comparator of sort_by_angle is not a strict weak order (undefined behaviour of std::sort) for the vectors (n, n-1), (n+1, n), (n+2, n+1), n = 94906267.
* C129_unsigned_refuted: with unsigned coordinates orientation is never negative, so extreme_vertex returns a vertex that is not extreme, tangents returns lines that cross the polygon, and intersect of a line and a convex polygon outputs nothing although the line crosses it.
* C128_double_refuted: nearest over 64-bit coordinates compares rounded roots, and returns a pair with the square of the distance 2^52 + 1 although there is one with 2^52. C128_unsigned_refuted: over unsigned coordinates p.x() - middle_x wraps, so the strip misses the points left of the middle and the closest pair.
* C127_unsigned_refuted: over unsigned coordinates areas wrap, so crossing segments with coordinates up to 2 are reported not to cross.
* C126_directions_refuted: a value written to an undirected edge reached from one end reads as the default from the other end when edges have no container.
* C124_shrink_refuted: resize to fewer vertices keeps edges that end at vertices that are gone. C124_negative_refuted: try_add_edge with negative vertices succeeds and stores the edge. C124_int_max_refuted: try_add_edge with the greatest int as a vertex overflows. C124_set_write_refuted: g[u] = x over a set of vertices (the cast in id_at, noted as a TODO there) leaves two equal values in the set.
* C122_associative_refuted: add, multiply, bit_or, bit_xor, min and max are declared associative, but 0LL + (0u + -1) is 4294967295 and (0LL + 0u) + -1 is -1. C122_grouping_refuted: for int one grouping overflows. C122_ushort_refuted: the product of two unsigned 16-bit numbers can be undefined. C122_identity_refuted: identity_element of bit_and is T{-1}, which is ill-formed for unsigned types. Min uses less, which is not declared anywhere.
* C123_map_refuted: rebind_t<map<K, K>, U> is map<U, U, less<>, allocator<pair<K const, K>>>, whose allocator does not fit.
* C121_unsigned_triangle_refuted, C121_unsigned_turn_refuted, C121_unsigned_refuted: over unsigned types of at least 32 bits no point is outside of a triangle, left_turn is always false, sort_by_angle does not sort and a point outside of a square is said to be inside. C121_short_refuted: points with 16-bit coordinates overflow int in within.
* C119_signs_refuted, C119_transitive_refuted: is_equal_sequence of {-1} and {4294967295u} is true, so it is not transitive. C120_mutable_refuted: invoke_all_matching never calls a function object that takes an argument by reference to non-const.
* C118_zero_refuted: a limited range with limit zero fails an assertion or delivers one element. C118_add_refuted, C118_back_refuted: addition to a limited iterator over pointers leaves the limit, so elements past the range are delivered; decrement after increment loses an element. C52_rotate_about_refuted: rotation about a point has the wrong sign, too.
* C117_callable_refuted: a volatile function pointer is not a FreeFunction though it can be called, and a pointer to a function pointer is one though it cannot. C117_const_object_refuted: FunctionObject holds of a const class whose operator() is not const. C117_pointer_kept_refuted: with_return_type_t of a function pointer drops the pointer.
* C115_opposite_refuted: orientation of three points of doubles answers left for right (rounding of the differences). C115_grid_bound_refuted: integer points just outside of W H <= 2^53 get a wrong collinear.
* C114_orientation_unsigned_refuted: over unsigned types of at least 32 bits orientation never answers left. C114_orientation_short_refuted: 16-bit coordinates overflow int. C114_vector_refuted, C114_hull_narrow_refuted: the vector of a line over 8-bit (and 16-bit) integers is reduced modulo the width, so convex_hull silently drops hull points of sets wider than 127. C114_hull_unsigned_refuted: hulls over unsigned types lose points or are not convex. C114_area_refuted: a triangle of doubled area 50000 overflows int because of its coordinates. C114_dot_refuted: a scalar product of value 0 overflows.
* C113_distinct_refuted: strings that are rearrangements of each other (or have equal sums of characters) seed the same generator. C113_uniform_zero_refuted: uniform(0u) is not an error but draws from all unsigned numbers. For types smaller than int uniform does not compile (narrowing of to - 1 inside of braces); the greatest number of a type can never be drawn.
* C112_sizes_refuted: convert_to<vector<vector<int>>>(vector<int>{2, 3}) gives {{0, 0}, {0, 0, 0}}: elements are constructed, and numbers are taken for sizes, which the comment in to_range.hpp sets out to avoid. C112_const_refuted: a const std::array is not a StrictRange, so that the same array as a const reference gives {{2}, {3}}.
* C112_negative_size_refuted: convert_to<vector<vector<T>>>(vector<int>{-1}) throws std::length_error, as the number is taken for a size.
* C112_can_convert_refuted: can_convert_to_v<vector<vector<long>>, vector<vector<int>>> is true, the conversion does not compile.
* C112_single_tuple_refuted: tuple<vector<int>> converted to its own type fails the assertion unless the vector has one element (the only element is unpacked and then taken as the range). C112_empty_tuple_refuted: an empty tuple converts to arrays and tuples of zeros of any size.
* C112_constant_refuted: constant<4294967295u> is made from int -1. C112_constant_reference_refuted: different constants are rejected by the compiler only for rvalues; for references the test is at run time.
* C110_trunc_refuted: the table of modes gives "r+" to trunc and "w+" to in|out: a file opened with trunc keeps its contents (and must exist), one opened with in|out is emptied; for the string device trunc clears.
* C110_peek_refuted: peek of a file at its end moves back over the last byte and clears the end-of-file indicator, so the last byte is read again; in an empty file peek fails the assertion of move.
* C111_write_refuted: line_buffered::write lacks a return statement. line_buffered_reader::read passes this->get(), which for readable files is the get of a character. C111_zero_refuted: a zero byte in a line cuts it.
* C109_polar_refuted: the polar angles of the tangents to a circle are wrong for every point outside of it; C109_iterator_refuted: tangents drops the iterator returned by intersect.
* C108_touch_refuted, C108_order_refuted: intersect of a line and a simple polygon misses a corner that touches the line, and reports a touching edge only for one order of the vertices. The header does not compile: it uses `P` and `it` without declaration.
* An empty vector written before other data with spaces makes the reader throw, because the size 0 before a space is read as 2^64 - 16 (C107).
* it -= n negates n in its own type: an unsigned n narrower than the value type moves the iterator forward by 2^w - n (C105).
* integer_iterator over unsigned types of 32 bits and more: the difference is unsigned and compared with 0, so l < r is never true (C105).
* irange(first, last, step)[i] computes i * step in the type of i (C105).
* doubly_linked_list_iterator: -- of the end asserts (C106).
* The texts written for infinity and nan are not read back; in base 36 they are read as numbers (C103).
* depth_first_search over the whole graph does not stop at a terminator: the loop over the roots continues and reports vertices as roots that were reachable (C102).
* is_greater on ranges compares with std::vector < and not with the overload for ranges, since the overload is chosen for placeholders (C99).
* The absolute error policy is lost in sgn, in expressions of placeholders and in lexicographical comparison (C101).
* The largest distance of a polygon of two vertices reads past its end (C93).
* Components of find_articulation_points_and_components are not the biconnected components (C97), partly for the same reason as C45; besides, an edge of an earlier child is popped with a later child when both its ends are not above the vertex, so a triangle with one more edge at a corner is labelled wrongly (C97_triangle_refuted).
* inorder keeps its state in char with the value -1 and stops at the first vertex where char is unsigned (C98).
Observed in the text, not stated as theorems: flag manipulators on composed formats are
ambiguous; an owning `std::string` is written by `braced` like a container; `static_array` equality
is always true as written; `memory.hpp` read copies `count` bytes, not `count * sizeof(Char)`;
`input_device_iterator` leaves its device uninitialised; the terminator of a depth first search does not
stop the loop over the roots; a breadth first search from several sources does not check for
duplicates among them.

## 6. Print Assumptions

Every theorem below (prefix `Cxx_`): "Closed under the global context".

* C01: binary_pow_monoid, binary_pow_multiplications, binary_pow_rejects_negative
* C02: add, sub, neg
* C03: mul, mul_binary
* C04: div_solvable, div_unsolvable, div_sound, div_by_zero_pow2_refuted
* C05: static_modulus, ring_laws, prime_division_inverts_multiplication, constructor_reduces_refuted
* C06: splitmix_permutation, splitmix_seeds_never_meet
* C07: xoroshiro_output, xoroshiro_bijective, xoroshiro_never_degenerates, xoroshiro_default_state_never_degenerates
* C08: hash_value_injective, hash_range_last_element, hash_tuple_last_element, signed_zero_hash_refuted
* C09: set_bits, clear_bits, clear_bit, has_bits, has_bit_and_bit
* C10: min, max, compare3way, or_equal, sgn
* C11: trichotomy, laws, equality_transitive_refuted
* C12: literal_exact
* C13: split_weave, join_split, split_join
* C14: split_maximal_runs, split_is_filtered
* C15: trim_spec, trim_idempotent, trim_space
* C16: canonical_numeral, canonical_unique
* C17: no_overrun
* C18: round_trip
* C19: parse_exact, leading_zero, in_range
* C20: zero_misread_refuted
* C21: chunks, end
* C22: longest_prefix, each_count
* C23: in_order, get_at_end, read_after_end_refuted
* C24: exact_iff, prefix_before_flush, characters_exact, exact_fill_refuted
* C25: string, char, list_injective
* C26: adjusted, length
* C27: spaced, every_value, one_separator, words
* C28: flags, levels, independent, notation, group_undefined, scope_restores_flags_refuted
* C29: round_trip, overwrite, list_keeps_old, map_keeps_old, set_keeps_old, overwrite_any_refuted, truncated, self_delimiting, canonical, layout
* C30: nearest, floating, special, buffer_refuted, large_refuted, showbase_refuted, precision_refuted, base_zero_refuted
* C31: fifo, fifo_any_state
* C32: fifo, storage_grows, back_empty
* C33: bounded_vector, copy_refuted
* C34: construct, read_write, equality
* C35: index_bijection, size, size_wrap_refuted
* C36: dimensions, nested_init, nested_init_refuted, misplaced_refuted, from_list
* C37: bfs_reachable
* C38: bfs_distance, discovery_order
* C39: bfs_predecessors, dfs_predecessors
* C40: recursive_to_iterative, iterative_to_recursive
* C41: dfs_reachable, dfs_nested
* C42: topological_sort
* C43: connected_components
* C44: equal_labels_strongly_connected, pop, exact, symmetric, unique_paths, arc_order, order_refuted, strong_components_refuted
* C45: cut_vertices_reported, reports, first_vertex, short_cycles, articulation_points_refuted
* C46: other_end, stored_fits, other_end_pointer
* C47: counts, out_edges, in_edges, in_edges_end_points, in_edge_bundle_refuted, edges, edges_no_vertices_refuted
* C48: no_parallel_edges, refused_insertion, accepted_insertion, refused_handle_refuted
* C49: swap, cyclic, translation, scaling, mirror, collinear, line_direction, area_line
* C50: shoelace, fan, rotate, reverse, translation, scaling, cut, triangle, rectangle, straight_vertex
* C51: hull, area, vertex_extreme, collinear_refuted, two_points_refuted
* C52: rotate_about_refuted, project_line, project_line_fixes, project_plane, project_plane_fixes, reflect_line, reflect_line_midpoint, reflect_plane, reflect_point, rotate_refuted, rotate_norm_refuted
* C53: drange_size, irange, drange, drange_whole_type_refuted, irange_step_up, irange_step_down, irange_step_overflow_refuted, step_zero_rejected, size_signed
* C54: filtered_forward_backward, filtered_step_inverse, filtered_map
* C55: compare_vs_reference, compare_is_an_order, is_less_is_an_order, prefix_refuted
* C56: tuple_lexicographical, tuple_equal
* C57: subspans, out_of_bounds_rejected, subspan_wrap_refuted
* C58: accounting, accounting_order, narrow_value_refuted
* C59: composite_get_invert, composite_put2, composite_put1, associative_container_laws, shift_map, composite_range, identity_map
* C60: at, slice, prefix_suffix, concat
* C61: bridges, two_edge_connected_components, parallel_edges_need_flag
* C62: cyclic, cyclic_construct
* C63: copy_range, copy_iterator
* C64: tensor_equality
* C65: ids, erase, null
* C66: edge_list, find_edge, remove_edge, remove_missing_refuted
* C67: find_edge, missing_edge_refuted
* C68: tape, first_in_first_out, truncate, read_after_end_refuted
* C69: in_order, first_get_refuted
* C70: buffered, unbuffered
* C71: skip, string_set_refuted
* C72: fits, overflow_refuted, simple
* C73: classes
* C74: range_equal, range_equal_sequences
* C75: indented, any_level, size_line_refuted
* C76: boolalpha, base_ignored, hex_refuted
* C77: nearest, unique, distance, plane
* C78: invert, fixes_sphere, center
* C79: collinear, symmetric, zero_refuted
* C80: make_plane2d, make_plane3d, coplanar, crosses, crosses_degenerate, sphere_refuted, sphere_disjoint_refuted
* C81: intersect, none, crosses, scalar, open_refuted, degenerate_refuted
* C82: within, within_n, point, begin_refuted, plane
* C83: circumcenter
* C84: line_sphere, line_sphere_sorted, circles, equal_circles_refuted, spheres, circles_cross, within_sphere
* C85: output_refuted, position_refuted, appended
* C86: boundary, crossings, rotation, reversal, chord, half_plane, constant
* C87: once, inside, outside, border, triangle, degenerate_refuted
* C88: convex, monotone, rotated
* C89: convex, contains, located
* C90: simple, convex
* C91: sorted, order, around_permutation, around_refuted
* C92: nearest, assert
* C93: antipodal, max_distance, two_vertices_refuted
* C94: extreme
* C95: tangents
* C96: chord, kinds, single_refuted
* C97: every_edge_labelled, biconnected_components_refuted, without_larger_cycles, triangle_refuted
* C98: orders_of_search_tree, orders_of_tree, inorder_length, unsigned_char_refuted
* C99: evaluation, meaning_unique, composition, ranges_refuted
* C100: if_else, capture, assignment
* C101: is_less, is_greater, equal_ranges, is_less_or_equal, is_greater_or_equal, is_equal, is_not_equal, compare3way, exact, ranges, sgn_refuted, placeholders_refuted, ranges_refuted
* C102: bfs, bfs_path, dfs, dfs_path, whole_graph_refuted
* C103: read, no_digits, exact, error, round_trip, floating_round_trip, special_refuted, end
* C104: names, digits, round_trip, end
* C105: plus, minus, minus_unsigned_refuted, step, zero_step_refuted, order, order_unsigned_refuted, index, index_refuted
* C106: walk, back, end_refuted, past_end
* C107: round_trip, layout, missing, zero_refuted, empty_refuted
* C108: sound, complete, parity, even, order_refuted, touch_refuted
* C109: contact, two, line, border_inside, polar_refuted, polar_border, iterator_refuted, angle, bisector, bisector_between
* C110: open, missing, trunc_refuted, read, eof, peek_refuted, update, append, write, turn, bin
* C111: write_refuted, write, read, unique, zero_refuted
* C112: elements, unique, typed, same, size, sizes_refuted, const_refuted, can_convert_refuted, single_tuple_refuted, negative_size_refuted, wrapped, empty_tuple_refuted, constant_refuted, constant_reference_refuted
* C113: not_degenerate, round, sum, distinct_refuted, distinct_sums, uniform, uniform_empty, uniform_zero_refuted
* C114: orientation, orientation_bound, orientation_small, orientation_int, orientation_long, orientation_unsigned_refuted, orientation_short_refuted, squared_length, dot, dot_refuted, end, end_wide, vector_refuted, area, area_unsigned, area_refuted, hull, hull_same, hull_narrow_refuted, hull_unsigned_refuted, hull_bound_refuted
* C115: formats, vectors, collinear, exact_differences, near_origin, grid, opposite_refuted, grid_bound_refuted, overflow_refuted
* C116: bfs_colors, dfs_colors, dfs_all_colors, gray_cycle, bfs_predecessor_edges, dfs_predecessor_edges
* C117: free_round_trip, member_round_trip, traits_injective, object, free_function, same_traits, callable, callable_refuted, member_function, const_object_refuted, modify_free, modify_member, member_queries, member_as, data_member, pointer_kept_refuted, object_modify, from_list, function_object, copy, copy_cvref, inner
* C118: exact, ends, zero_refuted, pointer, pointer_past, outside, add_refuted, back_refuted, list, transform, transform_index
* C119: sequence, symmetric, reflexive, numbers, signs_refuted, transitive_refuted, transitive
* C120: first, all, all_const, mutable_refuted
* C121: winding, within_simple, convex_polygon, within_triangle, located, orientation, orientation_empty, orientation_convex, sorted, unsigned_triangle_refuted, unsigned_turn_refuted, unsigned_refuted, short_refuted
* C122: arithmetic, bits, not, overflow, commutative, min_max, associative, associative_refuted, grouping_refuted, ushort_refuted, identity, identity_exists, identity_refuted, promotion, inout, common
* C123: target, same, twice, back, containers, map_refuted, of_none, are_same, is_one_of, strict_common
* C124: vector, endpoints, shrink_refuted, negative_refuted, int_max_refuted, set, set_stable, set_write_refuted, set_write_one
* C125: distance, depth_first, topological_sort, connected_components, bridges, cut_vertices, strong_components
* C126: edge_map, vertex_map, edge_map_later, vertex_map_later, directions_refuted
* C127: crosses, scalar, tight, unsigned_refuted
* C128: nearest, max_distance, antipodal, tight, double_refuted, unsigned_refuted, conversion, nearest_rounded, nearest_error, max_distance_rounded
* C129: extreme, tangents, chord, tight, unsigned_refuted
* C130: hull, hull_total, hull_lost_refuted, area, area_refuted, winding, convex_polygon, triangle, located, few_vertices, orientation, sorted, angle_order_refuted
* C131: compare, compare_signed, compare_unsigned, trichotomy, sgn, subtract, squared, negate, divide, abs, undo, within, less_within, order_refuted, equal_refuted, compare_refuted, abs_refuted, negate_refuted, divide_refuted, within_refuted
* C132: accuracy, in_box, exact, project, project_degenerate, on_second_refuted, open_end_refuted
* C133: breadth_first, depth_first, depth_first_all, any_order
* C134: value, binary, binary_short, lists_refuted, text, layout, strings_refuted, space_refuted, merged_refuted
* C135: crosses, scalar, common, symmetric, begin, end_refuted, order_refuted
* C136: extreme, tangents, antipodal, chord, total, thin_refuted, range_refuted
* C137: extreme, tangents, chord, hull, nearest, strip
* C138: sqrt, nearest, near, exact, max_distance, max_distance_largest, small_refuted, large_refuted, rounded_refuted, max_refuted
* C139: range, null, stale, emplace, emplace_place, erase, find, find_sorted, erase_value, progress, stable, list_erase_refuted, write_refuted, write, hash_refuted, hash, order, hash_of_ids, null_key_refuted
* C140: bfs, dfs, dfs_all, recursion, deep_recursion, bfs_terminator, dfs_terminator, sources_refuted
* C141: new, fill, copy, iteration, write, view, views_apart, swap, swap_views, swap_views_refuted, move, moved_from_refuted, dims_refuted
* C142: count_mismatch, bounds, unique, merge, extremes, max_tie_refuted, lexicographical, next_permutation, all_permutations
* C143: get, put, put_laws, members, independent, associative, value_refuted, value_inside, iteration, transform, two_vectors, same_vector_refuted, nesting_refuted, invert, put_shifted
* C144: distance, zero, reversed, moved, degenerate_refuted, far_refuted
* C145: queue, queue_kept, queue_fifo, queue_order_refuted, vector, vector_refuted, accounting, accounting_refuted, graph_complete, graph_directed, graph, graph_half_edge_refuted
* C146: writer, writer_full, writer_part, writer_unreported_refuted, writer_gap_refuted, reader, reader_whole, reader_hole_refuted
* C147: try_emplace, once_per_new_key, same_as_alternative, emplace_calls_always, emplace_same_map_refuted, conversions, optional, optional_deduced_refuted, out_is_the_variable, out_kinds, out_accepted
* C148: same_as_memory, round_trip, unfilled_refuted, first_string_refuted, at_end, pipe
* C149: calls, on_device, stopped, any_device, repeat_refuted, only_flushes, plain_any_device, without_refuted
* C150: formula, complete, strict, laws, if_else, guard_refuted, fold
