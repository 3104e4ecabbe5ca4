{"id": "C01", "title": "binary_pow computes the n-th power in every monoid", "statement": "For any value type with an associative multiplication and an identity 1, and any non-negative exponent n, binary_pow(x, n) returns the product of n copies of x (1 for n = 0), multiplication need not be commutative; it uses at most 2*floor(log2 n)+1 multiplications. A negative exponent is rejected by the assertion.", "quantifier": "all monoids, all x, all n >= 0 (unbounded)", "why_tests_cant": "The exponent, the value type and its multiplication are all unbounded; tests sample a few integer powers and never a non-commutative type.", "anchors": ["include/actl/numeric/algorithm/binary_pow.hpp: binary_pow"]}
{"id": "C02", "title": "Modular addition and subtraction are exact and never overflow", "statement": "For a modulus 1 <= m <= 2^w - 1 stored in a w-bit unsigned word and reduced operands x, y < m, adding, subtracting and negating ring elements yields the reduced representative of x+y, x-y and -x modulo m, although every intermediate step is computed modulo 2^w.", "quantifier": "all word sizes w, all moduli m < 2^w, all reduced x and y", "why_tests_cant": "There are 2^192 (modulus, x, y) triples for 64-bit words; the dangerous ones (m close to 2^64, where x+y wraps) are a vanishing fraction.", "anchors": ["include/actl/numeric/modular/ring.hpp: mod_add, mod_sub, operator-"]}
{"id": "C03", "title": "Modular multiplication is exact for every word size", "statement": "For reduced x, y < m the product of ring elements is (x*y) mod m: on the path that widens to 64 bits, on the path that multiplies by repeated doubling because no wider word exists, and on the static-modulus-0 path (m = 2^w).", "quantifier": "all word sizes, all moduli, all reduced operands", "why_tests_cant": "2^192 operand combinations; the doubling path only differs from the widening path on large moduli.", "anchors": ["include/actl/numeric/modular/ring.hpp: mod_mul, mod_mul_binary"]}
{"id": "C04", "title": "Modular division solves q*y = x exactly when it is solvable", "statement": "For a modulus m >= 1 and reduced x, y, dividing ring elements terminates; if gcd(y, m) divides x it returns a reduced q with q*y congruent to x modulo m, otherwise it throws; it never returns a wrong quotient. The only exception is modulus 2^32 (stored as 0) with y = 0, where the code evaluates x % 0 (finding).", "quantifier": "all word sizes, all moduli (prime or composite), all reduced x and y", "why_tests_cant": "Termination and the composite-modulus / non-coprime cases cannot be enumerated; tests use a few primes.", "anchors": ["include/actl/numeric/modular/ring.hpp: mod_div"]}
{"id": "C05", "title": "Ring elements form a commutative ring", "statement": "Ring elements holding reduced values stay reduced under all operators and satisfy the commutative ring laws; for prime m, dividing a product by a non-zero factor returns the other factor. The constructor stores its argument without reducing it, so an element built from a value >= m is outside of this contract (finding).", "quantifier": "all word sizes, all moduli, all reduced elements", "why_tests_cant": "The laws quantify over triples of elements of every modulus.", "anchors": ["include/actl/numeric/modular/ring.hpp: ring_element, static_quotient_ring"]}
{"id": "C06", "title": "splitmix64 step is a permutation of the 64-bit states", "statement": "The splitmix64 step maps distinct 64-bit states to distinct 64-bit states, so two generators with different seeds never produce equal outputs at the same step, at any step.", "quantifier": "all pairs of 64-bit states and all numbers of steps", "why_tests_cant": "2^64 states; collisions of a hash-like function cannot be found or excluded by sampling.", "anchors": ["include/actl/numeric/random/splitmix64.hpp: splitmix64::next, operator()"]}
{"id": "C07", "title": "xoroshiro128cplus never loses or degenerates its state", "statement": "The state transition of xoroshiro128cplus is a bijection on pairs of 64-bit words and, starting from any state other than (0,0) (in particular the built-in initial state), never reaches (0,0) after any number of calls.", "quantifier": "all 2^128 states, all numbers of calls", "why_tests_cant": "2^128 states and unbounded sequences.", "anchors": ["include/actl/numeric/random/xoroshiro128cplus.hpp: operator(), state"]}
{"id": "C08", "title": "Hashing of arithmetic values is collision-free for every seed", "statement": "For any process seed and any arithmetic type of at most 8 bytes, distinct byte representations of that type have distinct hashes; combining is injective in the last element, so tuples or ranges that differ only in their last element hash differently. As a consequence 0.0 and -0.0, which compare equal, always have different hashes (finding).", "quantifier": "all seeds, all pairs of values, all prefixes", "why_tests_cant": "2^64 seeds times 2^128 pairs; absence of collisions is a universal statement.", "anchors": ["include/actl/numeric/hash.hpp: compute, hash_value, hash_combine"]}
{"id": "C09", "title": "Bit helpers read and write exactly the requested bits", "statement": "set_bits(x, mask, bits) agrees with bits inside the mask and with x outside of it, clear_bits and clear_bit zero exactly the selected bits, has_bits(x, mask) holds iff every bit of mask is set in x, has_bit(x, n) iff bit n is set, bit<n> has exactly bit n set.", "quantifier": "all words, all masks, all bit positions", "why_tests_cant": "2^128+ operand combinations per word size.", "anchors": ["include/actl/numeric/bit/operation.hpp: bit, has_bit, has_bits, clear_bits, set_bits"]}
{"id": "C10", "title": "min, max and three-way comparison obey order laws", "statement": "For any strict weak order, min returns an operand not greater than either, max returns an operand not less than either, ties resolve to the first operand, compare3way is -1/0/1 exactly as less / equivalent / greater and is antisymmetric; <= and >= are the negations of > and <.", "quantifier": "all strict weak orders, all operands", "why_tests_cant": "Quantifies over user-supplied orders.", "anchors": ["include/actl/numeric/comparison/min_max.hpp: min, max", "include/actl/numeric/comparison/compare3way.hpp: compare3way", "include/actl/numeric/comparison/ordering.hpp: is_less, is_greater"]}
{"id": "C11", "title": "Absolute-error comparison: trichotomy holds, transitivity does not", "statement": "With a tolerance eps >= 0, for any two values exactly one of less, equal, greater holds; equality is reflexive, symmetric and translation invariant and less is transitive; but tolerant equality is not transitive for any eps > 0, so it is not an equivalence relation.", "quantifier": "all tolerances, all pairs / triples of values (exact arithmetic)", "why_tests_cant": "Universal over continuous values; a failing triple exists for every eps.", "anchors": ["include/actl/numeric/comparison/absolute_error.hpp"]}
{"id": "C12", "title": "Integer constant literals denote exactly the written number", "statement": "For any spelling of digits, digit separators and prefix (0x, 0b, 0, none), the _c literal evaluates to the mathematical value of the digits in that base or is rejected at compile time when a digit is invalid for the base or the value does not fit; it never wraps.", "quantifier": "all literal spellings of any length", "why_tests_cant": "Spellings have unbounded length and overflow checks are one-off comparisons at the limit.", "anchors": ["include/actl/numeric/constant_literals.hpp: operator _c"]}
{"id": "C13", "title": "Split keeping empty fields is the inverse of join", "statement": "With remove_empty = false, joining the fields of split(s, d, false) with d gives back s and no field contains a delimiter; the number of fields is one more than the number of delimiters, except that the empty string yields no fields.", "quantifier": "all strings of any length, all delimiter predicates", "why_tests_cant": "Strings are unbounded.", "anchors": ["include/actl/string/split.hpp: split"]}
{"id": "C14", "title": "Split removing empty fields returns exactly the maximal delimiter-free runs", "statement": "With remove_empty = true, split returns, in order, exactly the maximal non-empty delimiter-free runs of the string; equivalently the non-empty fields of the split that keeps empties; no returned field is empty or contains a delimiter.", "quantifier": "all strings, all delimiter predicates", "why_tests_cant": "Strings are unbounded.", "anchors": ["include/actl/string/split.hpp: split"]}
{"id": "C15", "title": "Trim removes exactly the maximal matching prefix and suffix", "statement": "trim(s, f, g) returns the middle part t of s = p ++ t ++ q where all of p satisfies f, all of q satisfies g, t does not start with a character satisfying f and does not end with a character satisfying g; it is idempotent, and never reads outside of the string.", "quantifier": "all strings, all predicates", "why_tests_cant": "Strings and predicates are unbounded.", "anchors": ["include/actl/string/trim.hpp: trim"]}
{"id": "C16", "title": "Integer output is the canonical numeral", "statement": "Writing an integer in base 2..36 produces: a minus sign iff negative (plus sign iff requested and non-negative signed), then the base prefix iff requested and the value is non-zero in base 8/16, then the digits of the absolute value without leading zeros (a single 0 for zero); the digits evaluate to |x| for every value including the most negative one.", "quantifier": "all integer widths, all values, all bases 2..36, all flag combinations", "why_tests_cant": "2^64 values times 35 bases times flags; the minimum value is special.", "anchors": ["include/actl/io/format/text/arithmetic/detail/uitoa.hpp: uitoa", "include/actl/io/format/text/arithmetic/integer_write.hpp: write"]}
{"id": "C17", "title": "Integer output never overruns its stack buffer", "statement": "The text of a w-bit integer with sign and base prefix never needs more than the w+1 bytes reserved for it on the stack, so no write happens before the start of the buffer.", "quantifier": "all widths, values, bases 2..36, flag combinations", "why_tests_cant": "Buffer safety is a universal claim over all inputs.", "anchors": ["include/actl/io/format/text/arithmetic/integer_write.hpp: write", "include/actl/io/format/text/arithmetic/detail/digit_count.hpp: digit_count"]}
{"id": "C18", "title": "Integers read back what was written", "statement": "Any integer written in base b and read back in base b from the same text at the end of input parses to the same integer and consumes the whole text; the same holds when the text is followed by a non-digit, provided the value is not zero.", "quantifier": "all widths, all values, all bases 2..36", "why_tests_cant": "2^64 values times bases times following characters.", "anchors": ["include/actl/io/format/text/parser/integral.hpp", "include/actl/io/format/text/arithmetic/integer_write.hpp"]}
{"id": "C19", "title": "Integer input never returns a wrapped or out-of-range value", "statement": "If parsing an integer from text that does not start with the digit 0 succeeds, the result equals the mathematical value of the consumed sign and digits, and it lies in the range of the type; digit strings whose value does not fit are reported as failure for any length.", "quantifier": "all texts of any length, all bases, all integer widths, signed and unsigned", "why_tests_cant": "Texts are unbounded and the overflow check must be right at every prefix.", "anchors": ["include/actl/io/format/text/parser/uint_simple.hpp", "include/actl/io/format/text/parser/sign.hpp", "include/actl/io/format/text/parser/base.hpp", "include/actl/io/format/text/parser/integral.hpp"]}
{"id": "C20", "title": "Zero followed by a non-digit is misread (finding)", "statement": "Reading an integer whose text is the single digit 0 followed by a character that is not a digit should give 0 but yields a value derived from the following character; the zero case is read correctly only at the end of input. The exact wrong value is (digit value of the next character) as a function of that character.", "quantifier": "all following characters, all bases", "why_tests_cant": "The unit tests only read zero at the end of the input.", "anchors": ["include/actl/io/format/text/parser/base.hpp", "include/actl/io/format/text/parser/uint_simple.hpp"]}
{"id": "C21", "title": "Parsing does not depend on how input is chunked", "statement": "Feeding the same text to the integer parser in any sequence of chunks gives the same result and the same number of consumed characters as feeding it whole.", "quantifier": "all texts, all ways to cut a text into chunks", "why_tests_cant": "The number of chunkings is exponential in the length.", "anchors": ["include/actl/io/core/parser_executor.hpp", "include/actl/io/format/text/parser/integral.hpp"]}
{"id": "C22", "title": "Memory output device never writes past its end and keeps the prefix", "statement": "For any sequence of writes to the fixed memory device, the bytes stored are exactly the longest prefix of the concatenated data that fits, the returned counts add up to the stored length, and no byte outside of the given buffer is written.", "quantifier": "all capacities, all sequences of writes of any length", "why_tests_cant": "Histories are unbounded.", "anchors": ["include/actl/io/device/memory.hpp: memory::write"]}
{"id": "C23", "title": "Memory input device: reads deliver the content in order until the end", "statement": "For any sequence of reads and single-character gets that does not step past the end, the characters delivered are consecutive and in order; after a get at the end of data has set end-of-file, a following block read is undefined behaviour (finding).", "quantifier": "all contents, all sequences of operations", "why_tests_cant": "Histories are unbounded; the failing history needs a get beyond the end followed by a read.", "anchors": ["include/actl/io/device/memory.hpp: get, read, eof"]}
{"id": "C24", "title": "Buffered writer delivers every byte once and in order", "statement": "For any sequence of character and block writes followed by flush, the bytes passed to the underlying device are exactly the concatenation of the written data, if and only if no block write that starts at a non-zero fill position ends exactly on a multiple of the buffer size (counted from the last flush); in that boundary case bytes are delivered twice (finding). Before the flush the device holds a prefix of the data and less than one buffer is held back.", "quantifier": "all buffer sizes, all histories of writes and flushes", "why_tests_cant": "Histories are unbounded; corruption needs an exact alignment of write sizes.", "anchors": ["include/actl/io/device/wrapper/buffered.hpp: write, overflow, flush"]}
{"id": "C25", "title": "Escaped strings can be decoded unambiguously", "statement": "The quoted and escaped text form of a string determines the string: a decoder recovers every string of bytes, the text contains no unescaped quote except the delimiters, so concatenated escaped strings can be separated.", "quantifier": "all byte strings of any length", "why_tests_cant": "Strings are unbounded; injectivity is about all pairs.", "anchors": ["include/actl/io/format/text/decorator/escaped.hpp"]}
{"id": "C26", "title": "Adjusted output has exactly the requested width and keeps the content", "statement": "Writing with width w pads content of length n with exactly max(0, w-n) fill characters, split left/right according to the alignment (center: the extra character goes to the right unless the right bit is set), and never truncates the content.", "quantifier": "all widths, all contents, all fill characters, all alignments", "why_tests_cant": "Widths and contents are unbounded.", "anchors": ["include/actl/io/format/text/decorator/adjusted.hpp"]}
{"id": "C27", "title": "Spaced output puts exactly one separator between adjacent items", "statement": "Writing a sequence of items through the spaced format yields the items with exactly one space between neighbours, none before the first and none after the last, for nested containers the same holds at every level.", "quantifier": "all nested values of any depth and size", "why_tests_cant": "Nesting is unbounded.", "anchors": ["include/actl/io/format/text/decorator/spaced.hpp"]}
{"id": "C28", "title": "Manipulators and nesting scopes of the formats", "statement": "Every bit of the text flags is decided by the last manipulator written that concerns it, in the order of writing and regardless of the nesting of the arguments; a group manipulator changes only the bits of its group. Whatever nested values are written, the nesting level and all parameters of every format of the composition are the same after the write as before. The flags are not restored at the end of a scope (finding).", "quantifier": "all sequences of manipulators, all nesting depths", "why_tests_cant": "Histories are unbounded.", "anchors": ["include/actl/io/core/manipulator.hpp", "include/actl/io/format/text/text.hpp", "include/actl/io/format/text/settings/flags.hpp"]}
{"id": "C29", "title": "Binary serialisation round trip", "statement": "For fixed-width scalars, tuples and (size-prefixed) dynamic containers of such values nested to any depth, reading back the bytes produced by writing a value with the same byte order into a default-constructed object gives the same value and consumes exactly the bytes written, leaving the following bytes untouched. The same holds for any object read into when its type has no lists, sets or maps; those keep their old elements (finding). A truncated encoding makes the read fail, encodings are self-delimiting, and for types without ordered containers every successful read is the encoding of the value read.", "quantifier": "all values of all such types, all trailing data", "why_tests_cant": "Containers are unbounded and nested.", "anchors": ["include/actl/io/format/binary/binary.hpp", "include/actl/io/argument/range.hpp", "include/actl/io/argument/tuple.hpp", "include/actl/io/argument/size.hpp"]}
{"id": "C30", "title": "Rounded real output is within half a unit of the last digit", "statement": "In exact arithmetic, writing a non-negative real number x with precision p in base b prints an integer part and exactly p fractional digits whose value differs from x by at most half of b^-p; the rounding carry propagates into the integer part, halves are rounded up. In floating point arithmetic with relative error u the difference is at most half a unit of the last digit plus 4u(b^p+1) units. Infinities and NaN print as words. Outside of that domain (findings): a sign with a 20 digit integer part writes before the buffer, values not below 2^64 are undefined, showbase puts the prefix into the fraction, too large precision prints wrong digits, base 0 divides by zero.", "quantifier": "all values with representable integer part, all precisions with b^p representable", "why_tests_cant": "Carry chains of any length.", "anchors": ["include/actl/io/format/text/arithmetic/real_write.hpp"]}
{"id": "C31", "title": "Queue built from two stacks is FIFO", "statement": "Any history of push and pop operations (with pop only on a non-empty queue) on queue_using_stacks observes exactly the same front values and emptiness as an abstract FIFO queue; each element is moved at most once (amortised constant time).", "quantifier": "all histories of any length", "why_tests_cant": "Histories are unbounded.", "anchors": ["include/actl/container/adaptor/queue_using_stacks.hpp"]}
{"id": "C32", "title": "Vector-backed queue is FIFO", "statement": "Any history of push, pop and front on vector_as_queue observes the same fronts, backs, sizes and emptiness as an abstract FIFO queue; pop on an empty queue is rejected; popped storage is never reclaimed, so memory equals the number of pushes.", "quantifier": "all histories of any length", "why_tests_cant": "Histories are unbounded.", "anchors": ["include/actl/container/adaptor/vector_as_queue.hpp"]}
{"id": "C33", "title": "Fixed-capacity vector refines a bounded sequence", "statement": "Any history of push_back, pop_back, emplace, clear on array_as_vector of capacity N that never exceeds N elements observes the same contents as a list, and no element outside the N-element storage is accessed, for any interleaving over several vectors. Finding: a copy of such a vector keeps an end iterator into the original, so its size is undefined and pushes to the copy overwrite the original.", "quantifier": "all capacities, all histories", "why_tests_cant": "Histories are unbounded.", "anchors": ["include/actl/container/adaptor/array_as_vector.hpp"]}
{"id": "C34", "title": "Semi-static array maps static and dynamic indices to disjoint slots", "statement": "A semi-static array constructed from all its elements reads them back at every index; static elements cannot be changed, writing a dynamic element changes only the element at its index, indices beyond the size are rejected, and two arrays compare equal exactly if all their elements are equal.", "quantifier": "all sizes, all index pairs, all histories of writes", "why_tests_cant": "Histories are unbounded.", "anchors": ["include/actl/container/array/semi_static_array.hpp"]}
{"id": "C35", "title": "Tensor multi-indices address distinct in-bounds elements", "statement": "For every shape, the mapping from multi-indices within the shape to linear positions is a bijection onto 0 .. product of dimensions - 1 in row-major order, identical for full indexing and for step-by-step sub-tensor indexing, if the product fits size_t; other multi-indices are rejected. Finding: if the product wraps, the storage is too small for addressable indices.", "quantifier": "all ranks, all dimensions, all multi-indices", "why_tests_cant": "Ranks and dimensions are unbounded.", "anchors": ["include/actl/container/tensor.hpp: get_index, operator[]"]}
{"id": "C36", "title": "Tensor nested initialisation places elements row-major only for square trailing shapes (finding)", "statement": "Nested-list initialisation should store element (i1,..,ik) at its row-major position; it does so when all the dimensions but the last coincide (always for rank 1 and 2); for every other shape the complete nested list runs into undefined behaviour, and incomplete lists may be silently misplaced.", "quantifier": "all shapes and nested initialisers", "why_tests_cant": "Unit tests only use shapes that mask the wrong stride.", "anchors": ["include/actl/container/tensor.hpp: initialize, strides"]}
{"id": "C37", "title": "BFS discovers exactly the reachable vertices, each once", "statement": "Breadth-first search from any set of sources starts every vertex reachable from a source exactly once and no other vertex, and terminates; each out-edge of a reachable vertex is examined exactly once.", "quantifier": "all finite graphs (directed or undirected, with loops and parallel edges), all sources", "why_tests_cant": "Graphs are unbounded.", "anchors": ["include/actl/graph/traversal/breadth_first_search.hpp"]}
{"id": "C38", "title": "BFS distance recorder computes shortest path lengths", "statement": "After BFS from a source, the recorded distance of every reachable vertex is the minimum number of edges on a path from the source, and vertices are discovered in non-decreasing distance.", "quantifier": "all finite graphs, all sources", "why_tests_cant": "Graphs are unbounded; minimality quantifies over all paths.", "anchors": ["include/actl/graph/traversal/breadth_first_search.hpp", "include/actl/graph/traversal/distance_recorder.hpp"]}
{"id": "C39", "title": "Predecessor recorder yields a tree of valid paths", "statement": "After a BFS or DFS, following recorded predecessors from any reached vertex leads along edges of the graph back to the source in finitely many steps; for BFS the path has minimum length.", "quantifier": "all finite graphs, all sources", "why_tests_cant": "Graphs are unbounded.", "anchors": ["include/actl/graph/traversal/predecessor_recorder.hpp"]}
{"id": "C40", "title": "Iterative and recursive DFS produce the same event sequence", "statement": "On every graph and source the explicit-stack depth-first search emits exactly the same sequence of visitor events as the recursive one.", "quantifier": "all finite graphs, all sources, all visitors", "why_tests_cant": "Graphs are unbounded; the two implementations are different code.", "anchors": ["include/actl/graph/traversal/depth_first_search.hpp: recurse, visit"]}
{"id": "C41", "title": "DFS visits exactly the reachable vertices with properly nested intervals", "statement": "Depth-first search starts and finishes each vertex reachable from the source exactly once, no other vertex; the discovery/finish time intervals of any two vertices are nested or disjoint.", "quantifier": "all finite graphs, all sources", "why_tests_cant": "Graphs are unbounded.", "anchors": ["include/actl/graph/traversal/depth_first_search.hpp", "include/actl/graph/traversal/time_stamper.hpp"]}
{"id": "C42", "title": "Topological sort orders every edge of an acyclic graph", "statement": "Topological sort outputs each vertex of any directed graph exactly once; if the graph is acyclic, the target of each edge comes before its source (the documented reversed order), so that the reversed output is a topological order.", "quantifier": "all finite DAGs", "why_tests_cant": "Graphs are unbounded.", "anchors": ["include/actl/graph/traversal/order.hpp: topological_sort"]}
{"id": "C43", "title": "Connected component labels characterise connectivity", "statement": "For every undirected graph the recorded component labels are equal for two vertices iff there is a path between them, and labels are 0 .. count-1 without gaps.", "quantifier": "all finite undirected graphs", "why_tests_cant": "Graphs are unbounded.", "anchors": ["include/actl/graph/connectivity/connected_components.hpp"]}
{"id": "C44", "title": "Tarjan strong components: claimed result fails on a 4-vertex graph (finding)", "statement": "Every vertex gets a label, and two vertices with equal labels are always mutually reachable; the converse, that mutually reachable vertices get equal labels, fails: the implementation splits a strongly connected component of a concrete 4-vertex graph. A component can only be split if it has two vertices a and x with two ways from a to x that share no vertex inside, the second one ending with an edge whose reverse is missing; so the labels are exactly the strong components if all edges are present in both directions, or if there is at most one way between mutually reachable vertices, and then labels never grow along a path. In every graph the target of an edge that cannot be walked back has a smaller label than its source; along longer paths this fails when a component is split.", "quantifier": "all finite directed graphs", "why_tests_cant": "The failing shape needs a cross edge into a finished subtree of the same component.", "anchors": ["include/actl/graph/connectivity/tarjan_strong_components.hpp"]}
{"id": "C45", "title": "Articulation points: claimed result fails on small graphs (finding)", "statement": "Every vertex whose removal separates two connected vertices is reported. A reported vertex is such a vertex, or it lies on a cycle of at least four vertices and is not the least vertex of its component; so the result is right in graphs whose cycles have at most three vertices, and for the least vertex of every component. Already for a cycle of four vertices it is wrong: a vertex is reported although its removal leaves the rest connected.", "quantifier": "all finite undirected graphs", "why_tests_cant": "The failing shape needs a back edge from depth >= 3.", "anchors": ["include/actl/graph/connectivity/articulation_points.hpp"]}
{"id": "C46", "title": "Edge end-point lookup by xor", "statement": "For any edge that remembers its end-points (the target only, the xor of both, or both) and any of its end-points (the source, if only the target is kept), asking for the other end-point returns the other end-point, for loops as well; the remembered xor always fits the vertex type.", "quantifier": "all vertex ids", "why_tests_cant": "2^128 pairs of ids.", "anchors": ["include/actl/graph/detail/edge_list_traits.hpp: edge_vertices::other"]}
{"id": "C47", "title": "Adjacency list keeps in-, out- and edge counts consistent", "statement": "After any history of edge insertions the edge count equals the number of successful insertions, the returned handles lead to the end-points and bundle they were inserted with, the out-edges of a vertex are the accepted edges leaving it in insertion order with their bundles (for undirected graphs those at either end, a loop once), the in-edges are those entering it (bidirectional graphs, and undirected graphs with an edge container), and iterating over the edges of a graph that has vertices yields every accepted edge exactly once with distinct edge ids.", "quantifier": "all histories of insertions", "why_tests_cant": "Histories are unbounded.", "anchors": ["include/actl/graph/adjacency_list.hpp"]}
{"id": "C48", "title": "Adjacency list without parallel edges never stores duplicates", "statement": "When parallel edges are disallowed, inserting an edge between already joined vertices reports failure and leaves the graph unchanged, inserting any other edge succeeds and adds exactly one edge, and at any time at most one edge joins an ordered (unordered for undirected graphs) pair. (The edge handle returned by a failed insertion is a default one and means nothing.)", "quantifier": "all histories of insertions", "why_tests_cant": "Histories are unbounded.", "anchors": ["include/actl/graph/adjacency_list.hpp: try_add_edge"]}
{"id": "C49", "title": "Orientation is antisymmetric and cyclic", "statement": "In exact arithmetic, the orientation of three points changes sign under swapping any two of them, is invariant under cyclic shifts, translation and positive scaling, and is zero iff the points are collinear.", "quantifier": "all points with integer coordinates", "why_tests_cant": "Continuum / unbounded integers.", "anchors": ["include/actl/geometry/algorithm/orientation/orientation.hpp", "include/actl/geometry/algorithm/orientation/point_point.hpp", "include/actl/geometry/algorithm/area/point_point.hpp"]}
{"id": "C50", "title": "Polygon area formula", "statement": "In exact arithmetic the polygon area functional (twice the signed area) is invariant under cyclic shifts of the vertex list and translation, changes sign under reversal, and is additive when the polygon is cut by a diagonal.", "quantifier": "all polygons with any number of vertices", "why_tests_cant": "Polygons are unbounded.", "anchors": ["include/actl/geometry/algorithm/area/simple_polygon.hpp"]}
{"id": "C51", "title": "Convex hull encloses all points", "statement": "In exact arithmetic, for points that are not all on one line, the monotone chain returns distinct input points that form a strictly convex counter-clockwise polygon starting with the least point; no input point lies strictly outside of any hull edge, the area is positive, and no vertex is a weighted average of other input points. Finding: for two or more points on one line only the least point is returned.", "quantifier": "all finite sets of points", "why_tests_cant": "Point sets are unbounded.", "anchors": ["include/actl/geometry/algorithm/convex_hull/andrew_monotone_chain.hpp"]}
{"id": "C52", "title": "Reflection and projection laws", "statement": "In exact arithmetic projecting onto a line or plane is idempotent and orthogonal, reflection is an involution that fixes the mirror and preserves distances; rotation by the provided 2D formula is not a rotation (finding).", "quantifier": "all points and lines with non-zero direction, in exact arithmetic over a field", "why_tests_cant": "Continuum of inputs.", "anchors": ["include/actl/geometry/algorithm/project/point_line.hpp", "include/actl/geometry/algorithm/project/point_plane.hpp", "include/actl/geometry/algorithm/reflect/point.hpp", "include/actl/geometry/algorithm/rotate/point2d.hpp"]}
{"id": "C53", "title": "Integer ranges enumerate exactly the arithmetic progression", "statement": "irange(first, last) yields first, first+1, ..., last-1 for every integer type; drange(first, last) yields first, first-1, ..., last; irange(first, last, step) yields exactly the terms first+k*step that are below last (positive step) or not below last (negative step, signed type) whenever the end value first+step*n is representable. Findings: drange over a whole unsigned type is empty; a non-representable end value is undefined (signed) or gives an empty range (unsigned); a negative step over an unsigned type yields a wrong count; size() of an unsigned drange fails its assertion.", "quantifier": "all integer bounds and non-zero steps (without overflow of the index type)", "why_tests_cant": "Bounds and steps are unbounded.", "anchors": ["include/actl/range/irange.hpp", "include/actl/range/iterator/integer_iterator.hpp"]}
{"id": "C54", "title": "Filtered range visits exactly the matching elements in order", "statement": "Iterating a filtered range forward yields the elements satisfying the predicate in order, iterating backwards yields their reverse, stepping forward and back returns to the same element.", "quantifier": "all ranges, all predicates", "why_tests_cant": "Ranges are unbounded.", "anchors": ["include/actl/range/filtered_range.hpp"]}
{"id": "C55", "title": "Lexicographical comparison of ranges misorders proper prefixes (finding)", "statement": "Three-way comparison of ranges should be the lexicographical order in which a proper prefix is smaller; it is antisymmetric, and zero iff equal, and coincides with the lexicographical order unless one range is a proper prefix of the other, in which case the sign is inverted.", "quantifier": "all ranges of any length over any three-way comparison", "why_tests_cant": "Ranges are unbounded; unit tests compare equal-length ranges.", "anchors": ["include/actl/range/operation/lexicographical_compare_range.hpp"]}
{"id": "C56", "title": "Tuple comparison is the lexicographical total order", "statement": "Comparing tuples lexicographically is antisymmetric, transitive and zero iff component-wise equal, whenever each component comparison is.", "quantifier": "all tuples of any size, all component orders", "why_tests_cant": "Quantifies over component orders and all triples.", "anchors": ["include/actl/sequence/tuple/lexicographical_compare_tuple.hpp"]}
{"id": "C57", "title": "Sub-spans stay within the parent span", "statement": "first(n), last(n), subspan(offset, count) that pass their assertions return views inside of the parent, covering exactly the requested elements, when offset+count does not wrap; subspan(offset) with an offset beyond the size passes the assertion and yields an out-of-bounds view (finding).", "quantifier": "all spans, all offsets and counts in size_t", "why_tests_cant": "2^128 offset/count pairs, wrap-around included.", "anchors": ["include/actl/range/span.hpp: first, last, subspan"]}
{"id": "C58", "title": "Accounting map assigns dense stable ids", "statement": "Over any history of lookups, the id of a key never changes, distinct keys have distinct ids, ids are exactly 0 .. number of distinct keys - 1 in order of first lookup, and invert(get(k)) = k, as long as the number of distinct keys fits the value type; beyond that ids wrap (finding).", "quantifier": "all histories of lookups", "why_tests_cant": "Histories are unbounded.", "anchors": ["include/actl/map/accounting_map.hpp"]}
{"id": "C59", "title": "Composite and shift maps compose lawfully", "statement": "get on a composite map is the composition, invert undoes get for invertible components, a put through the composite is observed by get and changes only keys that map to the same intermediate key; a shift map's invert undoes get for all keys, even when the difference wraps, if the value type is at least as wide as the key type and signed differences do not overflow; iteration enumerates pairs (key, get key).", "quantifier": "all component maps satisfying the map laws, all keys and values", "why_tests_cant": "Quantifies over component maps.", "anchors": ["include/actl/map/composite_map.hpp", "include/actl/map/shift_map.hpp"]}
{"id": "C60", "title": "Type list indexing, slicing and concatenation", "statement": "at_t, slice_t, prefix_t, suffix_t and concat_t coincide with list indexing, slicing and concatenation for lists of any length and all valid indices, despite the unrolled recursion in steps of 8 and 4.", "quantifier": "all type lists, all index pairs with First <= Last <= length", "why_tests_cant": "Lists are unbounded; unrolled recursion has different behaviour at each residue.", "anchors": ["include/actl/sequence/type_array/at.hpp", "include/actl/sequence/type_array/slice.hpp", "include/actl/sequence/type_array/concat.hpp"]}
{"id": "C61", "title": "Bridges recorder reports exactly the bridges", "statement": "For every undirected graph, the recorder reports an edge iff removing this edge disconnects its end-points, also when parallel edges are present and the recorder is configured for them; each bridge is reported once. The component labels produced alongside are equal iff the two vertices stay connected after removing any one edge.", "quantifier": "all finite undirected graphs", "why_tests_cant": "Graphs are unbounded; bridge-ness quantifies over all paths.", "anchors": ["include/actl/graph/connectivity/bridges.hpp"]}
{"id": "C62", "title": "Cyclic iterators implement arithmetic modulo the length of the range", "statement": "++ and -- of a cyclic iterator over a non-empty range are inverse permutations of the positions (addition of 1 and -1 modulo the length); += d is addition modulo the length for |d| less than the length and is rejected otherwise; the difference of two iterators is non-negative and brings one to the other.", "quantifier": "all range lengths, all positions, all offsets", "why_tests_cant": "Wrap-around correctness for every length and offset is a statement about infinitely many ranges.", "anchors": ["include/actl/range/iterator/cyclic_iterator.hpp"]}
{"id": "C63", "title": "Range copy overwrites exactly the destination slots", "statement": "copy between ranges makes the target equal to the source for equal lengths and is rejected otherwise; copy into an output iterator changes exactly the slots covered by the source, leaves the rest, and returns the iterator after the last written element; it writes out of bounds exactly when the source does not fit.", "quantifier": "all element types, all sources, all destinations and start positions", "why_tests_cant": "Lengths and contents are unbounded.", "anchors": ["include/actl/range/operation/copy.hpp"]}
{"id": "C64", "title": "Tensor equality is equality of shapes and of all elements", "statement": "Two tensors compare equal exactly if their ranks and dimensions coincide and the elements at every multi-index are equal; equal data with different shapes is unequal.", "quantifier": "all ranks, dimensions and contents", "why_tests_cant": "Shapes and contents are unbounded.", "anchors": ["include/actl/container/tensor.hpp: TensorEqual"]}
{"id": "C65", "title": "Container ids stay valid under insertion", "statement": "For random access containers: the valid ids are exactly those of id_range; id_emplace returns a fresh id of the new element and keeps the meaning of all other ids; id_find returns the smallest id holding the value, or id_end; id_erase keeps smaller ids and shifts larger ones by one; erase by value removes exactly the equal elements.", "quantifier": "all contents, all ids and values", "why_tests_cant": "Contents are unbounded.", "anchors": ["include/actl/container/container_id.hpp", "include/actl/container/functions.hpp"]}
{"id": "C66", "title": "Edge list keeps accepted edges and finds them", "statement": "After any history of insertions an edge list holds exactly the accepted edges in order, undirected ones with ordered end-points; each insertion (accepted or, in a list of unique edges, refused) returns a handle of an edge with the requested end-points; finding an edge between joined vertices returns such an edge and otherwise the end id; removing an edge of a sequence removes exactly that edge.", "quantifier": "all histories of insertions, both directions, unique or not", "why_tests_cant": "Histories are unbounded.", "anchors": ["include/actl/graph/edge_list.hpp: try_add_edge, edges, find_edge, remove_edge"]}
{"id": "C67", "title": "Finding an edge in an adjacency list", "statement": "After any history of insertions, find_edge(u, v) returns the first accepted edge that joins u to v, with its bundle, if there is one; otherwise it fails an assertion when targets are stored with out-edges and returns a default edge (not distinguishable from a real one) when they are not.", "quantifier": "all histories of insertions, all kinds of adjacency lists with a vector of vertices, all vertices u of the graph and all v", "why_tests_cant": "Histories are unbounded.", "anchors": ["include/actl/graph/adjacency_list.hpp: find_edge"]}
{"id": "C68", "title": "String device is a tape: writes append, reads deliver in order", "statement": "For any interleaving of writes, reads, gets and repositioning that never steps outside of the string, the string device behaves like a tape: written data is appended at the end, reads deliver the characters following the position, and without repositioning the delivered characters are exactly the first ones of the initial content followed by everything written. A block read after a get past the end is undefined behaviour (finding).", "quantifier": "all initial contents, all interleavings of operations", "why_tests_cant": "Interleavings are unbounded; the failing history needs a get past the end followed by a read.", "anchors": ["include/actl/io/device/string.hpp: string::write, read, get, move, eof"]}
{"id": "C69", "title": "Buffered reader delivers the source in order", "statement": "For any sequence of gets and block reads of any sizes that starts with a block read (possibly empty) and makes no get at the end of the data, the buffered reader delivers the characters of the source in order, none lost and none repeated, for every buffer size. A reader whose first operation is a get returns zero and reports the end of the file whatever the source holds, and a following block read is undefined behaviour (finding).", "quantifier": "all buffer sizes, all sources, all sequences of reads", "why_tests_cant": "The relation of block sizes, buffer size and source length has unboundedly many cases.", "anchors": ["include/actl/io/device/wrapper/buffered.hpp: buffered_reader::read, get, move, underflow"]}
{"id": "C70", "title": "Reading up to a terminator", "statement": "Reading up to a terminator stores the longest prefix of the input that has no terminator and fits into the given span; on a device with an input buffer the terminator is left unread, on a device without it the terminator is consumed.", "quantifier": "all inputs, all span sizes, all kinds of terminators (character, set of characters, function)", "why_tests_cant": "Inputs are unbounded; the two versions differ only in what they leave behind.", "anchors": ["include/actl/io/utility/till.hpp: read_till", "include/actl/io/utility/predicate.hpp: predicate"]}
{"id": "C71", "title": "Skipping characters", "statement": "Skipping removes exactly the longest prefix of characters that satisfy the predicate, provided that the predicate rejects the zero character. For a set of characters given as a string the skip runs into a failing assertion when all remaining characters belong to the set, because the set is taken to contain zero (finding).", "quantifier": "all inputs, all predicates", "why_tests_cant": "Inputs are unbounded; the failure needs data that ends inside of the skipped part.", "anchors": ["include/actl/io/utility/skip.hpp: skip", "include/actl/io/utility/predicate.hpp: predicate"]}
{"id": "C72", "title": "Writing a repeated character into memory", "statement": "Writing a character repeated k times to a memory device with at least k bytes left stores exactly k copies at the position and advances it by k; with fewer than k bytes left it divides by zero (finding).", "quantifier": "all memory contents, positions and counts", "why_tests_cant": "Sizes are unbounded; the failure needs a count above the room left.", "anchors": ["include/actl/io/utility/repeat.hpp: write_final(repeat)", "include/actl/io/device/memory.hpp: memory::move"]}
{"id": "C73", "title": "Character classes", "statement": "For every char value the classification functions accept exactly the ASCII digits, lower case letters, upper case letters, letters and the six white space characters respectively; in particular negative char values belong to no class, although the letter test clears a bit and compares after a wrapping subtraction.", "quantifier": "all char values", "why_tests_cant": "Tests sample a few characters; the interesting ones are the neighbours of each interval and the negative values.", "anchors": ["include/actl/string/char_classes.hpp: is_digit, is_lower, is_upper, is_alpha, is_alphanumeric, is_space"]}
{"id": "C74", "title": "Equality of ranges", "statement": "Two ranges compare equal exactly when they have the same length and the elements at equal positions are equal with respect to the given element equality; for an element equality that is equality of values this is equality of sequences.", "quantifier": "all pairs of ranges, all element equalities", "why_tests_cant": "Ranges are unbounded; prefixes and length differences are the missed cases.", "anchors": ["include/actl/range/operation/is_equal_range.hpp: IsEqualRange"]}
{"id": "C75", "title": "Indented output reflects the nesting", "statement": "Writing through the indented format puts every scalar and every tuple on a line of its own, indented by count fill characters per nesting level, members of tuples and containers one level deeper; strings and raw text continue the current line. The first line is written without a line break and without indentation. The size of a dynamic container is preceded by a blank line (finding).", "quantifier": "all nested values of any depth, all fill characters, all counts and levels that do not overflow size_t", "why_tests_cant": "Nesting is unbounded; the library has no test of this format.", "anchors": ["include/actl/io/format/text/decorator/indented.hpp", "include/actl/io/core/manipulator.hpp: nested_scope_guard"]}
{"id": "C76", "title": "Manipulators as arguments of write take effect", "statement": "A flag manipulator among the arguments of write affects exactly the arguments after it; the base manipulators hex, octal, decimal and detect_base are accepted but have no effect (finding).", "quantifier": "all formats and arguments", "why_tests_cant": "Absence of an effect concerns all following arguments.", "anchors": ["include/actl/io/format/text/text.hpp: manipulate", "include/actl/io/format/text/settings/base.hpp: base_t", "include/actl/io/core/manipulator.hpp: manipulate"]}
{"id": "C77", "title": "Nearest point of a line, ray or segment", "statement": "The nearest point computed for a point and a line, ray or segment belongs to it (end points included) and no point of it is nearer; the minimiser is unique. The distance in the plane is the distance to that point, and the distance to a plane of any dimension is the distance to the orthogonal projection, which is the least distance to a point of the plane.", "quantifier": "all dimensions, all points, all lines with non-zero direction and every combination of end point kinds, in exact arithmetic", "why_tests_cant": "A continuum of inputs, minimality is over all points of the line.", "anchors": ["include/actl/geometry/algorithm/nearest/point_line.hpp: nearest", "include/actl/geometry/algorithm/distance/point_line.hpp: distance", "include/actl/geometry/algorithm/distance/point_plane.hpp: distance"]}
{"id": "C78", "title": "Inversion in a sphere", "statement": "Inversion with non-zero radius is defined for every point other than the centre, maps it to a point on the same ray from the centre, inverting again gives the point back, the product of the distances to the centre is the square of the radius and points of the sphere stay. The centre is rejected by an assertion.", "quantifier": "all dimensions, centres, non-zero radii and points, in exact arithmetic", "why_tests_cant": "A continuum of inputs.", "anchors": ["include/actl/geometry/algorithm/point/invert.hpp: invert"]}
{"id": "C79", "title": "Collinearity of vectors of any dimension", "statement": "Two vectors are reported collinear exactly when the second one is a multiple of the first one; for non-zero vectors the order does not matter. With the zero vector the answer depends on the order (finding).", "quantifier": "all pairs of vectors of the same dimension", "why_tests_cant": "The loop over the coordinates is unbounded; the failure needs leading or all zero coordinates.", "anchors": ["include/actl/geometry/algorithm/orientation/point_point.hpp: orientation"]}
{"id": "C80", "title": "Planes through points and crossing planes", "statement": "Planes constructed from two points in 2D and three points in 3D contain the points. Two planes with non-zero normals are reported to cross exactly when they have a common point. A plane is reported to cross a sphere when they are disjoint and not when it cuts the sphere (finding).", "quantifier": "all dimensions, all planes with non-zero normal", "why_tests_cant": "A continuum of inputs; existence of a common point is not testable.", "anchors": ["include/actl/geometry/plane.hpp: make_plane2d, make_plane3d", "include/actl/geometry/algorithm/crosses/plane_plane.hpp: crosses", "include/actl/geometry/algorithm/crosses/plane_sphere.hpp: crosses"]}
{"id": "C81", "title": "Intersection of lines, rays and segments in the plane", "statement": "For two lines, rays or segments with non-zero direction and any end point kinds, if they have a common point the intersection is output as exactly one line (possibly a single point) whose points are exactly the common points, and if nothing is output there is no common point; crosses tells whether there is a common point when they are not parallel or have no open ends. Collinear segments which touch at an open end may be reported to cross (finding); a zero length segment as the second argument crosses segments it is not on (finding).", "quantifier": "all pairs of lines, rays and segments with exact coordinates", "why_tests_cant": "A continuum of inputs with many degenerate positions and six kinds on each side.", "anchors": ["include/actl/geometry/algorithm/intersect/line_line_2d.hpp: intersect", "include/actl/geometry/algorithm/crosses/line_line_2d.hpp: crosses", "include/actl/geometry/detail/common_line.hpp: common_line", "include/actl/geometry/detail/line_test.hpp: line_test", "include/actl/geometry/line.hpp: make_any_line"]}
{"id": "C82", "title": "Point on a line, ray or segment", "statement": "A point is reported on the border of a line, ray or segment exactly if it is one of its points with respect to the kinds of the ends, never inside. In dimension other than 2 the begin point is always reported outside (finding), all other points are answered correctly.", "quantifier": "all points and all lines with non-zero direction and valid kind, in exact arithmetic", "why_tests_cant": "A continuum of inputs; the failure is a single point.", "anchors": ["include/actl/geometry/algorithm/within/line.hpp: within", "include/actl/geometry/detail/between_endpoints.hpp: between_endpoints", "include/actl/geometry/algorithm/orientation/point_point.hpp: orientation"]}
{"id": "C83", "title": "Circumcenter", "statement": "For three points which are not collinear the circumcenter is the only point with equal distances to them.", "quantifier": "all triples of non-collinear points in the plane, in exact arithmetic", "why_tests_cant": "A continuum of inputs.", "anchors": ["include/actl/geometry/algorithm/point/circumcenter.hpp: circumcenter"]}
{"id": "C84", "title": "Intersections with spheres and circles", "statement": "Given exact square roots, intersecting a line, ray or segment with a sphere of any dimension outputs exactly the parameters of the common points in increasing order; intersecting two circles with different centers outputs exactly the common points; crosses for circles agrees; a point is inside, on the border or outside of a sphere as its distance to the center compares to the radius. Two equal circles divide by zero (finding).", "quantifier": "all dimensions, lines with non-zero direction, spheres with non-negative radius, in exact arithmetic", "why_tests_cant": "A continuum of inputs; completeness speaks about all points.", "anchors": ["include/actl/geometry/algorithm/intersect/line_sphere.hpp: intersect", "include/actl/geometry/algorithm/intersect/circle_circle.hpp: intersect", "include/actl/geometry/algorithm/crosses/sphere_sphere.hpp: crosses", "include/actl/geometry/algorithm/within/sphere.hpp: within"]}
{"id": "C85", "title": "Intersection points written through an iterator", "statement": "Points of intersection with a line are written through the output iterator given, but the iterator is never advanced: through an iterator into an array every point overwrites the one before and the returned iterator is the one given (finding); through an inserter that appends all points are kept in order.", "quantifier": "all lines, arrays, positions and numbers of points", "why_tests_cant": "Tests with back inserters do not show it.", "anchors": ["include/actl/geometry/detail/scalar_to_point_adaptor.hpp: scalar_to_point_adaptor", "include/actl/geometry/algorithm/intersect/intersect.hpp: intersect"]}
{"id": "C86", "title": "Winding number of a polygon around a point", "statement": "The winding number reports the boundary exactly if the point lies on some edge; otherwise it is the number of upward minus downward crossings of the ray to the right. It does not depend on the vertex the list begins with, changes sign when the list is reversed, adds up when the polygon is cut along a chord, is zero if a line separates the point from the vertices, and is the same for the end points of any segment which meets no edge.", "quantifier": "all points and all lists of vertices, including self-intersecting and degenerate ones, in exact arithmetic", "why_tests_cant": "Degenerate rays through vertices and horizontal edges come in infinitely many configurations.", "anchors": ["include/actl/geometry/algorithm/polygon/winding_number.hpp: winding_number"]}
{"id": "C87", "title": "Location of a point in a convex polygon or triangle", "statement": "For a strictly convex counterclockwise polygon the test for simple polygons answers inside exactly if the point is to the left of every edge, outside exactly if it is to the right of some edge, and border exactly if it is on some edge. For a triangle with non-zero area of any orientation the triangle test gives the same answer. For a degenerate triangle it says inside for points far away (finding).", "quantifier": "all strictly convex polygons, all non-degenerate triangles, all points", "why_tests_cant": "Unbounded number of vertices and positions.", "anchors": ["include/actl/geometry/algorithm/within/simple_polygon.hpp: within", "include/actl/geometry/algorithm/within/triangle.hpp: within"]}
{"id": "C88", "title": "Location by binary search in convex and monotone polygons", "statement": "Converting a strictly convex polygon to monotone form only rotates its vertices to begin at the least one and finds the greatest one; the logarithmic tests for convex and monotone polygons then give exactly the answer of the linear test.", "quantifier": "all strictly convex counterclockwise polygons, all points", "why_tests_cant": "Binary search boundary cases depend on all relative positions of point and chains.", "anchors": ["include/actl/geometry/algorithm/within/convex_monotone_polygon.hpp: within", "include/actl/geometry/algorithm/within/monotone_polygon.hpp: within", "include/actl/geometry/polygon.hpp: to_monotone"]}
{"id": "C89", "title": "The convex hull as a polygon", "statement": "The convex hull of points which are not all on one line is a strictly convex polygon in counterclockwise order, none of the points is outside of it, and locating a point in it by binary search agrees with the linear test.", "quantifier": "all finite lists of points not all on one line, all query points", "why_tests_cant": "Composition of algorithms on unbounded inputs.", "anchors": ["include/actl/geometry/algorithm/convex_hull/andrew_monotone_chain.hpp: convex_hull", "include/actl/geometry/algorithm/within/convex_monotone_polygon.hpp: within"]}
{"id": "C90", "title": "Orientation of polygons", "statement": "The orientation of a strictly convex polygon is left if its vertices are listed counterclockwise and right if listed clockwise, for both the test for simple and the test for convex polygons.", "quantifier": "all strictly convex polygons with any first vertex", "why_tests_cant": "Unbounded number of vertices.", "anchors": ["include/actl/geometry/algorithm/orientation/simple_polygon.hpp: orientation", "include/actl/geometry/algorithm/orientation/convex_polygon.hpp: orientation"]}
{"id": "C91", "title": "Sorting by polar angle", "statement": "Sorting by angle permutes the points so that copies of the origin come first and then the polar angle in [0, 2 pi) does not decrease; the comparison used is a strict weak order on each half plane. Sorting around another point does not sort by the angle around that point (finding).", "quantifier": "all lists of points", "why_tests_cant": "Unbounded lists; validity of the comparator speaks about all triples.", "anchors": ["include/actl/geometry/algorithm/point/sort_by_angle.hpp: sort_by_angle"]}
{"id": "C92", "title": "Closest pair of points", "statement": "For at least two points the result are points at two different positions such that no two points at different positions are closer; duplicates are found at distance zero; for fewer points an assertion fails.", "quantifier": "all lists of at least two points in the plane, in exact arithmetic", "why_tests_cant": "Divide and conquer over unbounded inputs; missed pairs across the middle depend on the position of all points.", "anchors": ["include/actl/geometry/algorithm/nearest/multi_point.hpp: nearest"]}
{"id": "C93", "title": "Antipodal vertices and the largest distance in a convex polygon", "statement": "For a strictly convex counterclockwise polygon the enumeration of antipodal vertices reports fewer than twice as many pairs as there are vertices, every pair consists of two different vertices, and every two vertices which have parallel supporting lines touching no other vertex are among them. The largest distance computed from these pairs is the distance of some two vertices and no two vertices are farther apart. A polygon of two vertices is read out of bounds (finding).", "quantifier": "all strictly convex counterclockwise polygons, in exact arithmetic", "why_tests_cant": "Rotating calipers move over unboundedly many vertices; a missed pair depends on the angles of all edges.", "anchors": ["include/actl/geometry/algorithm/polygon/antipodal_vertices.hpp: antipodal_vertices", "include/actl/geometry/algorithm/polygon/max_distance.hpp: max_distance"]}
{"id": "C94", "title": "Extreme vertex of a convex polygon in a direction", "statement": "The logarithmic search returns a vertex such that no vertex is farther to the right of the given direction; if an edge is parallel to the direction and two vertices qualify, the first of them in counterclockwise order is returned.", "quantifier": "all strictly convex counterclockwise polygons, all non-zero directions, in exact arithmetic", "why_tests_cant": "The decisions of the binary search on a cyclic sequence depend on the position of the first vertex, parity of the size and ties.", "anchors": ["include/actl/geometry/algorithm/polygon/extreme_vertex.hpp: extreme_vertex"]}
{"id": "C95", "title": "Tangents from a point to a convex polygon", "statement": "For a point outside of the polygon two vertices are returned; all vertices are on the left of the ray through the first one or on it and on the right of the ray through the second one or on it.", "quantifier": "all strictly convex counterclockwise polygons, all points strictly outside", "why_tests_cant": "The search compares directions which change with the vertex; unbounded number of vertices.", "anchors": ["include/actl/geometry/algorithm/tangents/point_convex_polygon.hpp: tangents"]}
{"id": "C96", "title": "Intersection of a line and a convex polygon", "statement": "The points of a line that are in the closed polygon form an interval of parameters; the logarithmic intersection reports the two ends of the interval in increasing order, keeping only those which belong to the ray or segment, and nothing exactly if the line without ends misses the polygon or the ends do not belong to it. If the line only touches one vertex, the vertex is reported twice (finding, noted in the code).", "quantifier": "all strictly convex counterclockwise polygons, all lines, rays and segments with non-zero vector, open or closed ends, exact arithmetic", "why_tests_cant": "Two nested binary searches over cyclic sequences of any length with degenerate contacts.", "anchors": ["include/actl/geometry/algorithm/intersect/line_convex_polygon.hpp: intersect"]}
{"id": "C97", "title": "Edge labels of find_articulation_points_and_components", "statement": "find_articulation_points_and_components gives every edge that is not a loop a component number between 0 and the number of components; two edges get the same number exactly if they are the same edge or lie on a common simple cycle.", "quantifier": "for every undirected graph, with parallel edges and loops, and every previous content of the maps", "why_tests_cant": "The labels depend on the order of the edges and on how cycles overlap; the defect needs a back edge skipping a finished subtree and small examples are labelled correctly.", "anchors": ["include/actl/graph/connectivity/articulation_points.hpp: articulation_point_finder, find_articulation_points_and_components"]}
{"id": "C98", "title": "preorder, postorder and inorder list a depth-first search tree", "statement": "For a start vertex, preorder, postorder and inorder write the vertices of one and the same rooted ordered tree that spans the reachable vertices and follows edges of the graph: a vertex before its children, after them, and between each pair of children (once after them if there are less than two). If the graph is a rooted tree, this is the tree itself. inorder writes at least n and, for n at least 3, at most 2n-3 vertices, and each vertex once if nobody has more than two children.", "quantifier": "for every directed or undirected graph, every start vertex and any initial content of the maps", "why_tests_cant": "Relates three traversals on all graphs, and the length bound is over all trees; tests check a handful of trees on a platform with signed char.", "anchors": ["include/actl/graph/traversal/order.hpp: preorder, postorder, inorder, inorder_printer"]}
{"id": "C99", "title": "Expressions apply operations pointwise", "statement": "An expression made of operations, applied to arguments, has exactly the value obtained by applying the inner operations to the arguments and the outer operation to the results; this holds through overload resolution for all operand types, and the result is unique. For ranges it fails: greater(l, r) and less(r, l) are different (finding).", "quantifier": "for all expressions of any depth over any set of operations, all arguments and all contents of the captured variables", "why_tests_cant": "Expressions nest without bound and overloads are chosen recursively at different levels; a test fixes one expression.", "anchors": ["include/actl/operation/expression/expression.hpp: expression", "include/actl/operation/expression/evaluate.hpp: evaluate", "include/actl/operation/overload/resolve_overload.hpp: resolve_overload", "include/actl/operation/overload/resolve_expression.hpp", "include/actl/operation/arg.hpp: arg"]}
{"id": "C100", "title": "Laziness, captured variables and assignment of expressions", "statement": "if_else in an expression evaluates the condition and only the chosen branch; an expression holds the value that a cheap variable had when the expression was made and follows later changes of other variables; assigning an expression to an out-parameter computes it from the old values and changes nothing else.", "quantifier": "for all expressions, conditions, branches (also failing ones) and variables", "why_tests_cant": "The failing branch can be any expression and the interleaving of creation, change and evaluation is not visible in one result.", "anchors": ["include/actl/core/if_else.hpp: if_else", "include/actl/operation/expression/value_if_cheap.hpp: value_if_cheap", "include/actl/operation/expression/evaluate.hpp: evaluate", "include/actl/functional/parameter/out.hpp: out"]}
{"id": "C101", "title": "Comparisons with an absolute error policy", "statement": "With an absolute error eps, less holds exactly if r - l > eps, greater if l - r > eps, equality if |l - r| <= eps, and the negations are their complements; compare3way is 0 exactly if equality holds and the sign of the difference otherwise; without policy the comparisons are exact and sgn is the sign. For ranges l > r is the lexicographical order, while l < r calls the longer range less where one continues the other (finding). sgn, expressions of placeholders and comparisons of ranges ignore the policy (finding).", "quantifier": "for all numbers, integer, bool or real, all ranges of numbers and all eps (exact arithmetic)", "why_tests_cant": "All pairs of numbers and all eps; the boundary |l - r| = eps and mixed types.", "anchors": ["include/actl/numeric/comparison/absolute_error.hpp: absolute_error", "include/actl/numeric/comparison/ordering.hpp: is_less, is_greater", "include/actl/numeric/comparison/equality.hpp: is_equal", "include/actl/numeric/comparison/compare3way.hpp: compare3way", "include/actl/numeric/comparison/sgn.hpp: sgn", "include/actl/operation/policy/tuned_operation.hpp: tuned_operation"]}
{"id": "C102", "title": "Searches with a terminator stop at the right vertex", "statement": "A breadth-first search with a terminator reports the same events as without one up to the discovery of the first terminator, and this is one of the terminators nearest to the sources; the recorded predecessors then form a shortest path from a source to it. A depth-first search stops when the first terminator in its order is started and its predecessors form a path. If no terminator is reachable, nothing changes. The depth-first search of the whole graph does not stop at a terminator but goes on with the next root (finding).", "quantifier": "for every graph, every set of sources, every predicate for the terminators and every additional component", "why_tests_cant": "The claim relates two runs for every predicate and needs nearest over all paths; a test has one graph and one target.", "anchors": ["include/actl/graph/traversal/breadth_first_search.hpp: breadth_first_search", "include/actl/graph/traversal/depth_first_search.hpp: depth_first_search", "include/actl/graph/traversal/predecessor_recorder.hpp: predecessor_recorder"]}
{"id": "C103", "title": "Reading floating point numbers from text", "statement": "Reading a floating point number consumes exactly the longest prefix made of an optional sign, digits of the base and optionally a point with further digits, and succeeds exactly if there is a digit before the point; neither depends on how the text is divided into pieces by the device. If each operation has relative error at most u, the value is the number in the text up to the factor (1-u)^k with k = 3 (digits / L + pieces + 1), L digits being below 2^64; with exact operations it is the number. A number written with p digits after the point is read back within half a unit of the last digit, and with roundings in writing and reading also up to the errors of these operations; the texts for infinity and nan are not read back (finding).", "quantifier": "for every text, every division into pieces, every base from 2 to 36, every rounding with relative error below 1 and all numbers within the range of the writer", "why_tests_cant": "Digits are gathered in blocks that depend on the pieces delivered by the device, so the roundings differ for each division of the text; tests read short numbers from one block of memory.", "anchors": ["include/actl/io/format/text/parser/float_unchecked.hpp: float_unchecked_parser", "include/actl/io/format/text/parser/uint_unchecked.hpp: uint_unchecked_parser", "include/actl/io/core/parser_executor.hpp: parser_executor", "include/actl/io/format/text/parser/arithmetic.hpp: make_parser"]}
{"id": "C104", "title": "Reading booleans from text", "statement": "With boolalpha, reading a bool succeeds exactly if the text starts with true or false and consumes the word; otherwise nothing is stored and the common beginning with a word is consumed. Without boolalpha it consumes one character 0 or 1. Both are independent of the division of the text into pieces, and a written bool is read back whatever follows it.", "quantifier": "for every text and every division into pieces", "why_tests_cant": "All texts and all divisions; mismatches at each position of a word that is itself split between pieces.", "anchors": ["include/actl/io/format/text/parser/boolean.hpp: boolean_parser", "include/actl/io/core/const_data_parser.hpp: const_data_parser", "include/actl/io/format/text/arithmetic/boolean.hpp: encode"]}
{"id": "C105", "title": "Arithmetic of integer iterators with offsets of any integer type", "statement": "it + n and it[n] are n steps after it and it - n is n steps before it, for every integer type of n, if the product of n and the step fits the promoted type of n or that type is unsigned and not narrower than the value type; ++ and -- undo each other; the difference of two iterators is the number of steps between them, and <, ==, > agree with it, for signed value types and those narrower than int. operator[] of a range returns the element for an index of any type and rejects every other index. Subtracting an unsigned offset narrower than the value type moves forward by 2^w - n; iterators over unsigned, unsigned long are never less than each other; an int index can overflow in the product with the step (findings).", "quantifier": "for all value types, steps, offset types of 8 to 64 bits, and all values", "why_tests_cant": "The implicit conversions depend on pairs of types and the values are 64 bit; a test fixes the types, mostly int.", "anchors": ["include/actl/range/iterator/interface/random_access_iterator_interface.hpp: random_access_iterator_interface", "include/actl/range/iterator/integer_iterator.hpp: integer_iterator", "include/actl/range/interface/random_access_range_interface.hpp: random_access_range_interface", "include/actl/range/interface/bidirectional_range_interface.hpp: back"]}
{"id": "C106", "title": "Linked list iterators visit the nodes in order", "statement": "Iterating from a node to a later node or to the null iterator yields the values of the nodes between them in the order of the links; between two nodes of a doubly linked list -- undoes ++ and the other way round. The end of a list that ends in null cannot be decremented (finding).", "quantifier": "for every memory, every list of any length and all addresses", "why_tests_cant": "Lists of any length in any memory layout.", "anchors": ["include/actl/range/iterator/linked_list_iterator.hpp: singly_linked_list_iterator, doubly_linked_list_iterator"]}
{"id": "C107", "title": "Structured data written as spaced text is read back", "statement": "Tuples, arrays and vectors, nested in any way, of non-zero integers, booleans, characters and words, written with a separator of white space, are read back by reading with white space skipped into arguments of the same types, and no word is left. Words are read whatever white space surrounds them, and when they run out reading returns false. A zero that is not the end of the input is read as another number, and an empty vector that is not the end of the input is read with a size near 2^64 so that the container throws (findings).", "quantifier": "for all values of all such types, all bases and flags of the text format, all separators of white space and all layouts of words", "why_tests_cant": "Nested types, every value and every layout of the text; a test reads a few short lines.", "anchors": ["include/actl/io/format/text/skipws.hpp: encode", "include/actl/io/argument/range.hpp: read_final, read_container", "include/actl/io/argument/tuple.hpp: read_final", "include/actl/io/format/text/parser/string.hpp: read_till", "include/actl/io/core/parser_executor.hpp: parser_executor", "include/actl/io/core/batch.hpp: batch_resolver"]}
{"id": "C108", "title": "Intersection of a line with a simple polygon", "statement": "Every reported parameter gives a point of the line, ray or segment that is on the border of the polygon. Every edge whose ends are strictly on different sides of the line, and every vertex on the line whose neighbours are strictly on different sides, is reported if its point is between the ends of the line. For a line without ends and a polygon without consecutive overlapping edges, the number of reported points is even, and the number of those after a point of the line that is not on the border has the parity of the winding number of that point, also if vertices and edges lie on the line. A corner that touches the line is not reported, and whether an edge that touches it is reported depends on the order of the vertices (findings).", "quantifier": "for all lines, rays and segments, all polygons with integer coordinates and any number of vertices, and all points of the line", "why_tests_cant": "The parity is a global property of any number of edges and needs all cases of runs of vertices on the line; tests have a few polygons.", "anchors": ["include/actl/geometry/algorithm/intersect/line_simple_polygon.hpp: intersect", "include/actl/geometry/detail/between_endpoints.hpp: between_endpoints", "include/actl/geometry/algorithm/project/point_line.hpp: project"]}
{"id": "C109", "title": "Tangents from a point to a circle, angles and bisectors", "statement": "For a point outside of a circle, tangents writes exactly the two points of contact: the points of the circle at which the radius is perpendicular to the line from the point, so that these lines do not enter the circle; for a point on the circle the point itself, for one inside nothing. The angle between two vectors turns the first into the direction of the second. The bisector of two vectors has equal angles with both and lies between them. Findings: the iterator returned is not advanced past the two points, and the polar angles of the tangents use atan2(radius, distance) instead of asin(radius / distance), so that both lines always enter the circle.", "quantifier": "for all points, all circles with non-negative radius and all vectors, with exact square roots", "why_tests_cant": "All points and circles; the wrong angles are close to the right ones for distant points, which a tolerance hides.", "anchors": ["include/actl/geometry/algorithm/tangents/point_circle.hpp: tangents", "include/actl/geometry/algorithm/point/bisector.hpp: bisector", "include/actl/geometry/algorithm/point/angle.hpp: angle", "include/actl/geometry/algorithm/point/norm.hpp: norm"]}
{"id": "C110", "title": "Files behave as sequences of bytes with a position", "statement": "A file opened with a mode that contains in delivers its bytes in order through get, read, peek and move, eof holds exactly after more was asked for than there is, and the file is unchanged. Writing is counted completely and is in the file after the destructor: overwriting from the position without append, and always after the old contents with append, whatever other operations are done. The mode trunc clears the file as it does for strings, and peek never consumes or repeats a byte.", "quantifier": "for all modes, contents of the file and sequences of operations", "why_tests_cant": "The sequences of reads, writes and moves and the contents are unbounded; tests do not open files at all.", "anchors": ["include/actl/io/device/file.hpp: in_file, file, mode_str", "include/actl/io/device/mode.hpp: in, out, app, trunc, is_in, is_out"]}
{"id": "C111", "title": "Line buffered writing and reading of files", "statement": "Writing through the line buffered wrapper puts all bytes into the file in order, and after every call everything up to the last line feed written so far is on the disk; the call returns the number of bytes. Reading delivers one line at a time, a line longer than the buffer in parts, and nothing is lost.", "quantifier": "for all modes, contents, sequences of written pieces and of buffer sizes", "why_tests_cant": "The pieces and the positions of the line feeds in them are arbitrary; the wrapper is not instantiated by any test.", "anchors": ["include/actl/io/device/wrapper/line_buffered.hpp: line_buffered::write, line_buffered_reader::read", "include/actl/io/device/file.hpp: file"]}
{"id": "C112", "title": "Conversion between numbers, tuples and ranges keeps the elements", "statement": "convert_to gives the value of the target type that has the elements of the source in order, numbers wrapped to their type, constants checked, a number standing for a sequence of one element, sizes equal; it fails the assertion exactly when there is no such value and the types do not exclude it, and can_convert_to_v is false only when there is none for any value. A conversion for which can_convert_to_v holds compiles, the result does not depend on whether the source is const, and a value converted to its own type is unchanged.", "quantifier": "for all nestings of integers, constants, tuples, vectors and arrays as source and target, all values and all kinds of references", "why_tests_cant": "The types nest without bound and every level selects among eight specializations; tests have a few flat pairs.", "anchors": ["include/actl/container/conversion/convert_to.hpp: convert_to, can_convert_to_v", "include/actl/container/conversion/between_ranges.hpp: can_convert_as_ranges", "include/actl/container/conversion/from_range_to_tuple.hpp: range_to_tuple_impl", "include/actl/container/conversion/from_tuple.hpp: from_tuple", "include/actl/container/conversion/to_constant.hpp: conversion", "include/actl/container/conversion/to_range.hpp: range_initialization", "include/actl/container/conversion/to_tuple.hpp: to_tuple_impl", "include/actl/range/traits/strict_range.hpp: StrictRange", "include/actl/meta/static_size.hpp: static_sizes_match"]}
{"id": "C113", "title": "Seeding a generator with a string and drawing integers", "statement": "After seed(string) the generator is not, and never gets, in the state that yields only zeros, and its state is determined by the string alone; different strings give different generators. uniform(from, to) is in [from, to) for every non-empty interval, whatever numbers the distribution draws.", "quantifier": "for all strings and numbers of draws, all intervals of an integer type and all distributions that keep to their bounds", "why_tests_cant": "Strings and states (2^128) cannot be enumerated; whether a seed leads to the degenerate state is invisible in samples.", "anchors": ["include/actl/numeric/random/rng_decorator.hpp: rng_decorator::seed, rng_decorator::uniform", "include/actl/numeric/random/xoroshiro128cplus.hpp: operator(), state"]}
{"id": "C114", "title": "Planar predicates over machine integers do not overflow within stated bounds", "statement": "For points whose coordinates lie in a W x H box, the orientation of three points and the convex hull computed in C++ integer arithmetic (promotion, signed overflow undefined, unsigned wrap, narrowing of stored vectors) agree with the exact ones whenever W, H and W*H fit the type; the bound W*H is the best possible. The end of a line built from two points is the second point. Scalar products and polygon areas are exact within stated bounds.", "quantifier": "for all integer types, point sets of any size, polygons of any length and boxes", "why_tests_cant": "Overflow depends on products of coordinates over 2^64 values each; tests use small coordinates only and cannot show the bound is tight or that no intermediate result overflows.", "anchors": ["include/actl/geometry/point.hpp: operator-, dot, point_base(point const&)", "include/actl/geometry/line.hpp: line, end, make_line", "include/actl/geometry/algorithm/area/point_point.hpp: area", "include/actl/geometry/algorithm/area/simple_polygon.hpp: area", "include/actl/geometry/algorithm/orientation/point_point.hpp: orientation", "include/actl/geometry/algorithm/convex_hull/andrew_monotone_chain.hpp: convex_hull"]}
{"id": "C115", "title": "Orientation over floating point numbers never mistakes left for right for vectors", "statement": "In every binary floating point format with round to nearest, the orientation of two vectors is the exact one or collinear, even if products overflow or underflow; collinear vectors are always found collinear, and a wrong collinear needs an area below about 2^-p of the products. For three points the same holds if the differences are representable, which is so if the coordinates are within a factor of two of those of the origin. On a grid of W x H steps with W*H at most 2^p the answer is exact. In general three points can get the opposite answer.", "quantifier": "for all precisions and exponent ranges, all vectors and points", "why_tests_cant": "A sign error appears for rare triples among 2^384 triples of points; tests with handpicked coordinates cannot show its absence nor find where it starts.", "anchors": ["include/actl/geometry/point.hpp: operator-", "include/actl/geometry/algorithm/area/point_point.hpp: area", "include/actl/geometry/algorithm/orientation/point_point.hpp: orientation", "include/actl/numeric/comparison/sgn.hpp: sgn"]}
{"id": "C116", "title": "Colours and predecessor edges describe the search", "statement": "With the colour recorder a search terminates and leaves exactly the reachable vertices black, the others white, whatever the map held before; during a depth-first search of a whole graph a non-tree edge to a gray vertex is met if and only if the graph has a directed cycle. The predecessor edges recorded by a search lead from a source to each reachable vertex, by a shortest path for a breadth-first search; entries of sources and unreachable vertices keep their old values.", "quantifier": "for all graphs, sets of sources and earlier contents of the maps", "why_tests_cant": "Cycle detection by colours is a statement about all graphs and all orders of edges; a test shows single graphs.", "anchors": ["include/actl/graph/traversal/color_recorder.hpp: color_recorder, make_default_color_recorder", "include/actl/graph/traversal/predecessor_edge_recorder.hpp: predecessor_edge_recorder", "include/actl/graph/traversal/depth_first_search.hpp: depth_first_search", "include/actl/graph/traversal/breadth_first_search.hpp: breadth_first_search"]}
{"id": "C117", "title": "Traits of functions take types apart and put them together again", "statement": "The traits of a free function or member function determine its type: assembling them gives the same type, and each modifier (noexcept, variadic arguments, return type, each member qualifier, class) changes exactly what it names, for all combinations of qualifiers. References, pointers and const around a function do not change its traits. A function object has the parameters of its operator(). Copying of const, volatile and reference gives the target exactly the qualifiers of the source.", "quantifier": "for all function types with any parameters, all qualifiers, all nestings of references and pointers", "why_tests_cant": "The combinations are infinitely many types; the tests pick a few dozen.", "anchors": ["include/actl/functional/traits/FreeFunction.hpp: FreeFunction, function_traits", "include/actl/functional/traits/MemberFunction.hpp: MemberFunction, function_traits, assemble_function", "include/actl/functional/traits/FunctionObject.hpp: FunctionObject", "include/actl/functional/traits/member_qualifiers.hpp", "include/actl/functional/traits/member_traits.hpp: as_member_of_t, class_of_t", "include/actl/functional/traits/noexcept.hpp", "include/actl/functional/traits/return.hpp: with_return_type_t", "include/actl/functional/traits/variadic_arguments.hpp", "include/actl/core/qualifiers/copy.hpp", "include/actl/core/qualifiers/inner.hpp"]}
{"id": "C118", "title": "A limited range gives exactly its limit of elements and a transformed range is the image", "statement": "For a positive limit n, traversing make_limited_input_range(it, n) delivers exactly the first n elements read from it, in order, and increments it only n - 1 times, so nothing is read ahead; if the base iterator becomes the end earlier, the range ends there. A transform_iterator delivers f of every element of the base range in order, and fails only where the base traversal fails.", "quantifier": "for all base iterators, all positions, all limits below 2^31, all functions", "why_tests_cant": "Limits and underlying sequences are unbounded in number; tests try one of each.", "anchors": ["include/actl/range/iterator/limited_input_iterator.hpp: limited_input_iterator", "include/actl/range/limited_input_range.hpp: make_limited_input_range", "include/actl/range/iterator/transform_iterator.hpp: transform_iterator", "include/actl/range/iterator/interface/iterator_adaptor.hpp: iterator_adaptor"]}
{"id": "C119", "title": "Equality of sequences compares lengths and elements alike for ranges and tuples", "statement": "is_equal_sequence of any two of ranges and tuples of integers is true exactly if they have the same length and every two corresponding elements compare equal; it reads no element outside of either; the answer does not depend on the order of arguments; for elements with a signed common type or without negative values it says whether the sequences consist of the same numbers, and is transitive.", "quantifier": "for all ranges and tuples of any lengths and integer element types of 8 to 64 bits", "why_tests_cant": "Lengths, types and values combine without bound; tests compare a few pairs.", "anchors": ["include/actl/container/equality/ranges.hpp: is_equal_sequence", "include/actl/container/equality/tuples.hpp: is_equal_sequence", "include/actl/container/equality/range_tuple.hpp: is_equal_sequence"]}
{"id": "C120", "title": "Calls of the first and of all matching elements of a tuple", "statement": "invoke_first_matching calls the first function object of a tuple that can be called with the given arguments, and no other. invoke_all_matching calls every function object that can be called with the arguments, in the order of the tuple and once each.", "quantifier": "for all tuples of function objects with any parameters, all arguments of any constness and value category, all effects of the calls", "why_tests_cant": "Signatures and tuples are unbounded in number; the tests use parameters taken by value only.", "anchors": ["include/actl/functional/tuple/invoke_first_matching.hpp: invoke_first_matching", "include/actl/functional/tuple/invoke_all_matching.hpp: invoke_all_matching"]}
{"id": "C121", "title": "Point location and sorting by angle over machine integers", "statement": "For points and polygons with integer coordinates in a box whose sides and area fit into the type of the products, winding_number, within a simple polygon, a triangle, a convex polygon and a monotone polygon, and orientation of a polygon have no undefined behaviour and answer as over unbounded integers; no winding number is mistaken for the boundary value. sort_by_angle of points for which twice the product of the greatest coordinates fits sorts by the polar angle.", "quantifier": "for all integer coordinate types that promote to a signed one, all points and polygons of any number of vertices below the greatest int", "why_tests_cant": "Overflow depends on the magnitudes of all coordinates at once; tests use small coordinates.", "anchors": ["include/actl/geometry/algorithm/polygon/winding_number.hpp: winding_number", "include/actl/geometry/algorithm/within/triangle.hpp: within", "include/actl/geometry/algorithm/within/convex_monotone_polygon.hpp: within", "include/actl/geometry/algorithm/within/monotone_polygon.hpp: within", "include/actl/geometry/algorithm/within/simple_polygon.hpp: within", "include/actl/geometry/algorithm/point/sort_by_angle.hpp: sort_by_angle", "include/actl/geometry/algorithm/orientation/simple_polygon.hpp: orientation"]}
{"id": "C122", "title": "Operations on integers declared associative and commutative", "statement": "add, multiply, bit_and, bit_or, bit_xor, min and max of integers of any types do not depend on the order of the two arguments. For arguments of one type after promotion, and for bit_and of any types, both groupings of three arguments that are defined give the same value of the same type. The result is the true one modulo the width of the common type, bit by bit for bit operations, and undefined only if a signed common type cannot hold it. identity_element is neutral. allow_promotion changes no result. An inout argument in either position keeps its type and gets the true value modulo its width.", "quantifier": "for all integer types of 8 to 64 bits, all values", "why_tests_cant": "2 to the 192 triples for one combination of types out of hundreds; the tests evaluate one pair of small ints per operation.", "anchors": ["include/actl/numeric/arithmetic/additive/add.hpp: Add, identity_element", "include/actl/numeric/arithmetic/multiplicative/multiply.hpp: Multiply", "include/actl/numeric/bit/bit_and.hpp: BitAnd", "include/actl/numeric/bit/bit_or.hpp: BitOr", "include/actl/numeric/bit/bit_xor.hpp: BitXor", "include/actl/numeric/bit/bit_not.hpp: BitNot", "include/actl/numeric/comparison/min_max.hpp: Min, Max", "include/actl/numeric/conversion/allow_promotion.hpp: Promotion", "include/actl/operation/operation/operation_base.hpp: operator()", "include/actl/core/common.hpp: Common"]}
{"id": "C123", "title": "Rebinding of templates and common types", "statement": "rebind_t replaces the first parameter of a template or the element of an array, and every further parameter that is the old one or is built directly from it; rebinding to the old type gives the type back, and of two consecutive rebindings only the last one counts if the first target is new. rebind_container_t of or to none is dummy_container. are_same_v and is_one_of_v decide equality of all and membership; strict_common_type_t is the only type that is not a constant, or the first of constants, and is ill-formed otherwise.", "quantifier": "for all types built from plain types, arrays and class templates of any depth and number of parameters", "why_tests_cant": "There are infinitely many types; tests check a handful of specialisations.", "anchors": ["include/actl/meta/rebind.hpp: rebind_t", "include/actl/meta/template_type.hpp: template_type", "include/actl/container/traits.hpp: rebind_container_t", "include/actl/meta/type_traits.hpp: are_same_v, is_one_of_v", "include/actl/meta/strict_common_type.hpp: strict_common_type_t"]}
{"id": "C124", "title": "Graph that owns its vertices and edges", "statement": "vertex_edge_list over a vector: after any history of adding edges and vertices, writing values and resizing, the vertex count is the greatest of what was asked for and one more than the greatest end of an edge, every vertex has the value last written or the default, edges and answers are those of the requests (without parallel edges a request is refused iff an accepted edge joins the same vertices), and unless the graph is made smaller both ends of each edge are vertices. Over a set: edges added by values create each value mentioned once, whatever the order of evaluation and the addresses of the nodes, the ends of each edge read as the values asked for, and vertices stay valid.", "quantifier": "for all histories of any length, directed or not, with or without parallel edges, and all orders of evaluation and of addresses", "why_tests_cant": "The result depends on the whole history, on an unspecified order of evaluation and on addresses.", "anchors": ["include/actl/graph/vertex_edge_list.hpp: vertex_edge_list", "include/actl/graph/vertex_list.hpp: vertex_list", "include/actl/graph/edge_list.hpp: edge_list_edges::try_add_edge", "include/actl/container/container_id.hpp: id_at"]}
{"id": "C125", "title": "Searches of graphs built by adding edges", "statement": "For a graph built by any sequence of add_edge requests in any configuration of the adjacency list (directed, undirected or bidirectional, with or without parallel edges, edges in a container or not), the algorithms answer in terms of the requests: breadth-first search gives the least number of requested edges on a path, depth-first search starts exactly the vertices connected to the root, topological_sort of requests without a cycle lists the target of each request before its source, connected components are those of the requests, vertices with equal labels of strong components are connected both ways, bridges are the accepted requests without which their ends are disconnected, and every vertex that separates two others is reported as an articulation point (the converses of the latter and of strong components fail, see C44 and C45).", "quantifier": "for all sequences of requests, all configurations and all sources", "why_tests_cant": "It joins the correctness of storage with the correctness of every search over all histories; a test shows single graphs.", "anchors": ["include/actl/graph/adjacency_list.hpp: try_add_edge, out_edges", "include/actl/graph/traversal/breadth_first_search.hpp: breadth_first_search", "include/actl/graph/traversal/depth_first_search.hpp: depth_first_search", "include/actl/graph/connectivity/bridges.hpp: find_bridges", "include/actl/graph/connectivity/articulation_points.hpp: find_articulation_points"]}
{"id": "C126", "title": "Default maps of vertices and edges", "statement": "A map made by make_default_edge_map for a graph built by any requests: reading an edge gives the value last written to the same accepted request or the default value, whether the edges were got from out_edges, in_edges or edges and from whichever end; without a container of edges the two directions of an undirected edge are separate keys (finding). If the graph grows after the map was made, earlier edges read as before; later ones fail the check when edges are kept in a random access container and read the default value otherwise. The same holds for make_default_vertex_map and vertices.", "quantifier": "for all sequences of requests before and after the map is made, all configurations, all sequences of writes", "why_tests_cant": "The agreement of keys of edges got in different ways depends on the whole history of the graph.", "anchors": ["include/actl/graph/default_map.hpp: make_default_vertex_map, make_default_edge_map", "include/actl/graph/detail/edge.hpp: edge", "include/actl/map/generic_container.hpp: map_ops", "include/actl/map/pair_associative_container.hpp: map_ops"]}
{"id": "C127", "title": "Crossing of lines over machine integers", "statement": "For lines, rays and segments through points with coordinates of a signed integer type, in a box whose sides fit into the type and whose doubled area fits into the type of products: crosses and intersect_scalar finish without overflow; unless the lines are parallel and have an open end, crosses answers whether a point with rational coordinates lies on both; for lines that are not parallel the ratio of intersect_scalar is the position of the common point on the first line, and no ratio means there is no common point. The bound is exact: the diagonals of any larger box overflow. Over unsigned types the answer is wrong even for small coordinates (finding).", "quantifier": "for all integer types, all points and all kinds of ends within the bound", "why_tests_cant": "There are 2^256 inputs and the exact bound for overflow is not visible from tests.", "anchors": ["include/actl/geometry/algorithm/intersect/line_line_2d.hpp: intersect, intersect_scalar, cross_test", "include/actl/geometry/algorithm/crosses/line_line_2d.hpp: crosses", "include/actl/geometry/detail/common_line.hpp: common_line", "include/actl/geometry/detail/line_test.hpp: line_test, endpoint_test"]}
{"id": "C128", "title": "Closest pair and largest distance over machine integers", "statement": "For points with coordinates of a signed integer type in a box, the square of whose diagonal fits into the type of products: nearest returns two of the points at the least distance, although distances are compared as doubles, if the square of the diagonal is less than 2^52; max_distance of a convex polygon returns the double nearest to the largest distance of two vertices if it is less than 2^53; antipodal_vertices needs only the area of the box to fit. The bounds are exact: the ends of a larger diagonal overflow, and from 2^52 on nearest can return a pair that is not the closest (finding); but for every box in which nothing overflows the pair still has the smallest distance of type double, its squared distance exceeds the smallest by a factor of at most 1 + 2^-50, and max_distance is the rounded distance of two vertices farthest apart. Over unsigned types the closest pair is missed (finding).", "quantifier": "for all signed integer types, all numbers of points and all coordinates within the bounds", "why_tests_cant": "Rounding merges distances only for rare pairs of large coordinates, and overflow depends on the whole box.", "anchors": ["include/actl/geometry/algorithm/nearest/multi_point.hpp: nearest", "include/actl/geometry/algorithm/polygon/max_distance.hpp: max_distance", "include/actl/geometry/algorithm/polygon/antipodal_vertices.hpp: antipodal_vertices", "include/actl/geometry/algorithm/distance/point_point.hpp: distance", "include/actl/geometry/algorithm/point/norm.hpp: norm", "include/actl/numeric/arithmetic/exponential/square_root.hpp: SquareRoot"]}
{"id": "C129", "title": "Extreme vertices, tangents and chords over machine integers", "statement": "For a convex polygon with coordinates of a signed integer type in a box: extreme_vertex returns the vertex farthest to the right of a direction (the first of two) if |dx|*height + |dy|*width fits into the type of products; tangents from a point outside returns the two vertices between which all others are seen, if the box with the point has an area that fits; intersect of a line with the polygon outputs the ends of the chord that are on the line, and nothing if the line misses the polygon, if twice the area of the box with two points of the line fits. The bounds are exact: for every larger box there is a polygon for which the arithmetic overflows. Over unsigned types the vertex is not extreme, the tangents cross the polygon and chords are missed (finding).", "quantifier": "for all signed integer types, all convex polygons, directions, points, lines and kinds of lines within the bounds", "why_tests_cant": "Overflow depends on the whole box and on which comparisons the binary search makes; short tests with small coordinates never reach it.", "anchors": ["include/actl/geometry/algorithm/polygon/extreme_vertex.hpp: extreme_vertex", "include/actl/geometry/algorithm/tangents/point_convex_polygon.hpp: tangents", "include/actl/geometry/algorithm/intersect/line_convex_polygon.hpp: intersect", "include/actl/geometry/algorithm/intersect/line_line_2d.hpp: intersect", "include/actl/geometry/point.hpp: operator-"]}
{"id": "C130", "title": "Plane geometry over floating point coordinates", "statement": "For points whose coordinates are multiples of a power of two in a box of W x H steps with W*H at most 2^precision (2^53 for double): convex_hull returns the exact hull; winding_number, within a simple, triangular or convex polygon, and orientation of a polygon are exact; sort_by_angle sorts if products of two coordinates are at most 2^precision steps; the doubled polygon area is exact if number of vertices times twice the largest product is at most 2^precision. For arbitrary coordinates that are not NaN (infinities included) convex_hull fails no assertion, returns input points and begins with a least one. Nothing more holds: for five doubles near a line the hull loses the greatest point by a distance greater than the extent of the result, a triangle far from the origin gets an area of the wrong sign, and the comparator of sort_by_angle is no strict weak order for coordinates from about 9.5e7 on (findings).", "quantifier": "for all binary floating point formats, all grids within the exponent range, all lists of points, polygons and query points within the bounds; totality of the hull for all points without NaN", "why_tests_cant": "The outcome depends on every intermediate rounding; failures occur only for rare combinations of nearly collinear points or large coordinates.", "anchors": ["include/actl/geometry/algorithm/convex_hull/andrew_monotone_chain.hpp: convex_hull", "include/actl/geometry/algorithm/area/simple_polygon.hpp: area", "include/actl/geometry/algorithm/polygon/winding_number.hpp: winding_number", "include/actl/geometry/algorithm/within: within", "include/actl/geometry/algorithm/orientation/simple_polygon.hpp: orientation", "include/actl/geometry/algorithm/point/sort_by_angle.hpp: sort_by_angle"]}
{"id": "C131", "title": "Comparisons, differences and absolute values of integers of any types", "statement": "is_less, is_greater, is_less_or_equal, is_greater_or_equal, is_equal, is_not_equal and compare3way agree with the numbers unless a negative operand meets an operand of an unsigned type of at least 32 bits and at least its width; then 2^width is added to the negative operand. For any types exactly one of less, equal and greater holds and compare3way tells which. sgn is right for all types. subtract, negate and squared are exact in a signed result type or undefined if the result does not fit, and are taken modulo 2^width in an unsigned one; divide truncates and is undefined exactly for the divisor 0 and for the least number by -1. abs is right except for the least number of a signed type: undefined from int on and negative for narrow types. l += r followed by l -= r restores l. absolute_error compares rightly if the type of the difference is signed and it fits. Findings: for mixed types is_less has cycles (-1 < 0 < 1u < -1), is_equal is not transitive; with absolute_error unsigned 3 and 5 are equal within 2 in one order only, and 5 is less than 3.", "quantifier": "for all integer types from 8 to 64 bits and all values of them, in all combinations", "why_tests_cant": "There are about 2^128 pairs of operands per combination of types; the exceptions are single values or need a particular combination of signedness and width.", "anchors": ["include/actl/numeric/comparison/ordering.hpp: is_less", "include/actl/numeric/comparison/equality.hpp: is_equal", "include/actl/numeric/comparison/compare3way.hpp: compare3way", "include/actl/numeric/comparison/sgn.hpp: sgn", "include/actl/numeric/comparison/abs.hpp: abs", "include/actl/numeric/comparison/absolute_error.hpp: absolute_error", "include/actl/numeric/arithmetic/additive/subtract.hpp: subtract", "include/actl/numeric/arithmetic/additive/negate.hpp: negate", "include/actl/numeric/arithmetic/multiplicative/divide.hpp: divide", "include/actl/numeric/arithmetic/exponential/squared.hpp: squared"]}
{"id": "C132", "title": "Rounded intersection points and projections for integer coordinates", "statement": "intersect of two lines, rays or segments with integer coordinates reports a point of type double for lines that are not parallel and have a common point, and no step overflows within the bounds of C127. Each coordinate is finite and differs from the exact one by at most 2^-50 times the sum of the coordinate of the beginning of the first line and its distance to the exact coordinate. If the first line is a segment with coordinates up to 2^52 the point is in its bounding box. With coordinates up to 2^25 the point is exact if it divides the first line in the ratio m / 2^k with k up to 26. project of a point to a line has the same accuracy with respect to the foot of the perpendicular; if the ends of the line are equal both coordinates are not numbers. Findings: the reported point need not be on the second line even if the exact point has integer coordinates, and the point reported for an open segment may be its excluded end.", "quantifier": "for all signed integer types up to 64 bits and all coordinates within the bounds, for every kind of the ends of both lines", "why_tests_cant": "There are 2^256 quadruples of points; the errors depend on the remainder of each of the four rounded operations.", "anchors": ["include/actl/geometry/algorithm/intersect/line_line_2d.hpp: intersect", "include/actl/geometry/algorithm/project/point_line.hpp: project", "include/actl/geometry/line.hpp: operator()", "include/actl/geometry/detail/scalar_to_point_adaptor.hpp: scalar_to_point_adaptor", "include/actl/geometry/traits.hpp: geometry_policy"]}
{"id": "C133", "title": "Visitors used together in one search do not influence each other", "statement": "If a breadth first or depth first search is run with a visitor that answers is_vertex_discovered together with any other visitor, the first one ends in the same state as alone, and the other one has reacted to the same sequence of events, which does not depend on it. This holds for the other visitor after the answering one, even if it answers is_vertex_discovered too, and before it if it does not answer. The order of the two does not change the results, and the search with both ends if and only if the search with one does. No search has undefined behaviour, whatever the answers are.", "quantifier": "for all graphs, all visitors and states, all terminators and all sources, also for graphs and answers for which the search does not end", "why_tests_cant": "Visitors are arbitrary programs with arbitrary state; a test can only try the visitors it knows.", "anchors": ["include/actl/functional/tuple/invoke_all_matching.hpp: invoke_all_matching", "include/actl/functional/tuple/invoke_first_matching.hpp: invoke_first_matching", "include/actl/graph/traversal/breadth_first_search.hpp: breadth_first_search", "include/actl/graph/traversal/depth_first_search.hpp: depth_first_search"]}
{"id": "C134", "title": "Iterators over devices give back in order what iterators over devices wrote", "statement": "Values assigned one after another to an output_device_iterator are seen in the same order through an input_device_iterator over the same data: the constructor reads the first value and every increment one more, so that after n values the device stands right behind the n-th one. When the input ends there or in the middle of a value, one more increment is allowed; after it the iterator must not be incremented (an assertion fails). This holds for binary devices and for text devices with a format that separates values and skips white space.", "quantifier": "for all sequences of values of all types (nested without lists, sets and maps in binary; those that text keeps apart, without strings, in text), all rests of the input and all white space", "why_tests_cant": "Number, types and sizes of values are unbounded, and where the device stands depends on all of them.", "anchors": ["include/actl/io/iterator.hpp: input_device_iterator", "include/actl/io/iterator.hpp: output_device_iterator", "include/actl/io/io.hpp: read", "include/actl/io/io.hpp: write", "include/actl/io/device/wrapper/formatted.hpp: formatted"]}
{"id": "C135", "title": "Lines over floating point coordinates cross as the exact lines do on a fine grid", "statement": "crosses and intersect of two lines, rays or segments with floating point coordinates are exact if the four points are multiples of a power of two in a box whose doubled area, in steps, is at most 2^prec: crosses tells whether there is a common point, the scalar of intersect is the exact position rounded once, and the common part of parallel lines is output exactly. For arbitrary doubles of magnitude up to 2^510 whether lines in general position intersect does not depend on which comes first, and lines that begin in the same point meet in exactly this point, unless their vectors are taken for collinear.", "quantifier": "for all binary floating point formats, all points of the grid and all kinds of ends (not open ones for parallel lines in crosses); for all doubles up to 2^510 in the second part", "why_tests_cant": "Every operation rounds, and whether a rounding changes a comparison depends on all coordinates; tests sample few of 2^512 combinations.", "anchors": ["include/actl/geometry/algorithm/intersect/line_line_2d.hpp: intersect", "include/actl/geometry/algorithm/crosses/line_line_2d.hpp: crosses", "include/actl/geometry/detail/line_test.hpp: line_test", "include/actl/geometry/detail/common_line.hpp: common_line"]}
{"id": "C136", "title": "Searches on convex polygons with floating point coordinates are exact on a fine grid and end with a vertex for any numbers", "statement": "extreme_vertex, tangents from a point, antipodal_vertices and intersect of a line with a convex polygon over floating point coordinates give the results of exact arithmetic if the points are multiples of a power of two in a box whose area, in steps, is at most 2^prec (half of it for intersect, whose output is the exact positions rounded once). For arbitrary numbers, NaN and infinity included, extreme_vertex and the tangents of a polygon with at least two vertices end with positions of vertices.", "quantifier": "for all binary floating point formats, all convex polygons, points, directions and lines on the grid with all kinds of ends; for all lists of at least two points in the second part", "why_tests_cant": "Binary searches follow signs of rounded products; one wrong sign sends the search elsewhere, past the end, or into an endless loop, for few of the polygons.", "anchors": ["include/actl/geometry/algorithm/polygon/extreme_vertex.hpp: extreme_vertex", "include/actl/geometry/algorithm/polygon/antipodal_vertices.hpp: antipodal_vertices", "include/actl/geometry/algorithm/tangents/point_convex_polygon.hpp: tangents", "include/actl/geometry/algorithm/intersect/line_convex_polygon.hpp: intersect"]}
{"id": "C137", "title": "Geometric algorithms keep the running times their documentation states", "statement": "With n points and L = log2 n rounded up: extreme_vertex takes at most 3 L + 2 comparisons of vertices, the tangents from a point 6 L + 4, intersect of a line with a convex polygon 8 L + 8 comparisons, orientations and intersections with edges (documented O(log N)); convex_hull takes at most 3 n orientations besides its two sorts, and nearest of a set of points at most n + 19 n L distances and comparisons besides its sort (documented O(N log N)), because in the strip around the middle at most eight points lie within the distance below any point.", "quantifier": "for all numbers of points and all positions; extreme_vertex and tangents for arbitrary lists of points, the intersection for convex polygons and lines that are no points", "why_tests_cant": "Worst cases are rare inputs: a search that halves the wrong part, or a strip that compares all pairs, gives right results and is fast for random points.", "anchors": ["include/actl/geometry/algorithm/polygon/extreme_vertex.hpp: extreme_vertex", "include/actl/geometry/algorithm/tangents/point_convex_polygon.hpp: tangents", "include/actl/geometry/algorithm/intersect/line_convex_polygon.hpp: intersect", "include/actl/geometry/algorithm/convex_hull/andrew_monotone_chain.hpp: convex_hull", "include/actl/geometry/algorithm/nearest/multi_point.hpp: nearest"]}
{"id": "C138", "title": "The closest pair of points with floating point coordinates has the smallest distance that the library can see", "statement": "If differences of coordinates are 0 or neither so small that their squares underflow nor so large that they overflow, nearest of a set of points returns two of the points, at different positions, such that no two points have a smaller distance as distance computes it, although the search prunes with rounded differences; the square of their true distance is the smallest one up to a factor of ((1 + u) / (1 - u))^6 with u = 2^-prec. For points of a grid it is exactly a closest pair if some pair has a squared distance, in steps, below 2^prec / 16 - 1, however far away the others are. max_distance of a convex polygon on a grid is the computed distance of two vertices that are farthest up to the same factor.", "quantifier": "for all formats of floating point numbers, all sets of at least two points, all positions and sizes in the range", "why_tests_cant": "Rounding can reorder distances; the divide and conquer search discards pairs by comparing a rounded difference of one coordinate with a rounded distance, and whether that ever discards the best pair depends on all bits of the numbers.", "anchors": ["include/actl/geometry/algorithm/nearest/multi_point.hpp: nearest", "include/actl/geometry/algorithm/distance/point_point.hpp: distance", "include/actl/geometry/algorithm/point/norm.hpp: norm", "include/actl/geometry/algorithm/polygon/max_distance.hpp: max_distance", "include/actl/numeric/arithmetic/exponential/square_root.hpp: SquareRoot"]}
{"id": "C139", "title": "Ids of the elements of lists, sets and hash sets name the same element until it is erased", "statement": "For a list, set, multiset, hash_set or hash_multiset, an id that id_emplace, id_find or id_range gave names the same element through any sequence of insertions and erasures of other elements; id_range gives each element once in the order of iteration, id_emplace inserts exactly when the container has no element alike (or allows duplicates), id_erase removes exactly the named element, id_find gives the first equal or an equivalent element or the null id. Ids of elements are totally ordered and have different hashes for different elements. Findings: erase by value on a list moves elements to other ids; writing through an id can give a set two elements alike; the null id cannot be compared with < or hashed; a hash set whose elements have a hash that disagrees with == finds an element and inserts it again.", "quantifier": "for all element types, orders, hashes and seeds, all contents, all addresses of nodes, all orders of iteration of hashed containers, all histories of operations", "why_tests_cant": "Ids are kept across arbitrarily long histories with reused addresses and rehashing; tests see one allocator and a few operations, and undefined behaviour of the null id shows by accident only.", "anchors": ["include/actl/container/container_id.hpp: iterator_id, get_id_key, id_begin, id_end, id_null, id_range, id_check, id_at, id_emplace, id_erase, id_find", "include/actl/container/functions.hpp: emplace, erase, find", "include/actl/container/hash_set.hpp: hash_set, hash_multiset"]}
{"id": "C140", "title": "Searches of graphs take linear time and memory", "statement": "A breadth-first search takes exactly as many steps of its loop as there are reachable vertices, and a queue with room for that many vertices never overflows. A depth-first search takes exactly as many steps as there are reachable vertices and edges leaving them, and a stack with room for one entry less than the reachable vertices never overflows; a search of the whole graph takes at most as many steps as there are vertices and edges. The recursive version has no more nested calls than reachable vertices and at least as many as vertices on a shortest path to any of them; on a row of n vertices it has exactly n. The bounds are reached. A search that a terminator stops early takes no more steps and needs no more room. A source given twice to the breadth-first search is started twice (finding).", "quantifier": "for all graphs, sources, components next to the discovered flags, states, and all capacities of the queue or stack above the bound", "why_tests_cant": "Resource use for all graphs is not visible in tests of small graphs; a search that revisits some vertices still gives the right events on most of them.", "anchors": ["include/actl/graph/traversal/breadth_first_search.hpp: breadth_first_search", "include/actl/graph/traversal/depth_first_search.hpp: depth_first_search, visit"]}
{"id": "C141", "title": "Tensors, views of their slices, swap and move", "statement": "A tensor made with a value has that value everywhere; made from a range it has the elements of the range in row-major order, and a range of another length is rejected; made from dimensions only, its elements must be written before they are read. Making a tensor leaves all others alone. A write changes exactly the element at the given indices. A view t[i] reads, writes and iterates over exactly the elements of t with first index i, and views with different i share no element. Iteration is in row-major order. swap exchanges dimensions and elements; what was taken from a tensor by move is in the new one.", "quantifier": "for all memories, ranks, dimensions with a product below 2^64, values, ranges, indices, and all other tensors and views in the memory", "why_tests_cant": "Aliasing between a tensor, its views and other tensors, for every rank and every shape, is not covered by reading back a few elements.", "anchors": ["include/actl/container/tensor.hpp: tensor_data, tensor_shape, tensor_reference, tensor_subscript::operator[], tensor_base::operator(), swap"]}
{"id": "C142", "title": "Searching, merging, extreme elements and permutations of ranges", "statement": "Of a sorted range, lower_bound and upper_bound give the ends of the run of elements equivalent to the value with at most 1 + log2 n comparisons each. unique keeps the first of each group of consecutive equal elements and leaves a sorted range with every element once. merge of sorted ranges is sorted, has exactly their elements and keeps the order of equivalent ones, those of the first range first. min_element and max_element give the first extreme element, minmax_element the first least and the last greatest with at most 3(n-1)/2 comparisons. lexicographical_compare is the lexicographical order. next_permutation gives the next arrangement in that order, and the usual loop over it, started with a sorted range, goes through every arrangement exactly once.", "quantifier": "for all ranges of any length and all comparisons that are strict weak orders (total orders for permutations and for unique of sorted ranges)", "why_tests_cant": "The number of arrangements grows too fast for tests, and the order among equivalent elements and the number of comparisons are not visible in results over plain numbers.", "anchors": ["include/actl/range/algorithm.hpp: lower_bound, upper_bound, unique, merge, min_element, max_element, minmax_element, lexicographical_compare, next_permutation, count, mismatch"]}
{"id": "C143", "title": "Property maps of members and elements change the named part of an object and no other", "statement": "A map of a member, a vector as a map, and composites of such maps in any nesting, with a shift of the key in front, name one part of one object for every key: get returns a reference to it and changes nothing, put replaces it and leaves every part that has nothing in common with it as it was, putting what is there changes nothing and the last of two puts stays. Maps of different members, and of the same member of different elements, do not influence each other. Iterating gives every key once in order with a reference to its part, and assigning to these references in a loop changes that member of every element once and nothing else. Composition is associative unless the first map returns an object and the second takes a reference. Findings: a composite of a map that returns an object, such as std::map, and a constant map of a member returns a reference to an object that is gone; a composite of three maps reads such an object where the same maps nested to the right do not; a composite of one vector with itself does not give back what was put.", "quantifier": "for all objects with members nested to any depth, all stores, all composites of any depth, all keys and values", "why_tests_cant": "Whether parts overlap depends on how maps are nested and on where the objects live; tests read and write one member of one object, and a reference to an object that is gone often still reads the expected value.", "anchors": ["include/actl/map/member_map.hpp: member_map, static_member_map", "include/actl/map/composite_map.hpp: composite_map, map_ops", "include/actl/map/generic_container.hpp: map_ops", "include/actl/map/pair_associative_container.hpp: map_ops", "include/actl/map/function_map.hpp: function_map"]}
{"id": "C144", "title": "Distances to lines, rays and segments over floating point coordinates", "statement": "For points whose coordinates are multiples of a power of two in a box whose squared diagonal fits the precision, the distance of a point to a line, ray or segment is a number that differs from the distance to a nearest point by at most the relative error of two roundings; it is 0 exactly if the point is on the line, ray or segment; it does not depend on the order in which the two points of the line are given, nor on a shift of all points. Open ends count as if they were closed. Findings: for a segment whose ends are equal the result is not a number, for every point; outside of such a box the distance can be 0 for a point that is not on the line although all coordinates are exact.", "quantifier": "for all binary floating point formats, all grids, points and kinds of lines within the stated bounds", "why_tests_cant": "The result is rounded, so tests compare with a tolerance and a few points; they do not show that the sign tests choose the right end everywhere, that 0 means on the line, and where precision is lost.", "anchors": ["include/actl/geometry/algorithm/distance/point_line.hpp: distance", "include/actl/geometry/algorithm/area/point_line.hpp: area", "include/actl/geometry/algorithm/point/norm.hpp: norm", "include/actl/geometry/point.hpp: dot", "include/actl/geometry/line.hpp: line"]}
{"id": "C145", "title": "What is left after an exception", "statement": "If an allocation or a copy throws and the client catches it: a queue of two stacks has all its elements and no others after any history, a push that throws changes nothing, and as long as only pushes throw it is first in, first out; a push_back of an array_as_vector changes nothing if making the object throws; a lookup in an accounting map that is not invertible changes nothing; adding an edge to a directed graph without an edge container leaves nothing but vertices without edges, and adding an edge to any graph keeps the edges there were. Findings: a top or pop of the queue that throws at a copy other than the first rotates the elements, so that the last are served first; a push_back whose assignment throws makes the vector longer; an invertible accounting map whose push_back throws gives wrong keys for all later values and undefined behaviour for the last; adding an edge that throws half way leaves an edge that only one end knows, which is counted or not and, in a graph with unique edges, cannot be added again and is counted twice if added the other way.", "quantifier": "for all element types, histories, kinds of graphs, graphs and choices of the steps that throw", "why_tests_cant": "Exceptions of allocations are not provoked by tests; which step throws, in which state and what happens afterwards are more cases than can be tried.", "anchors": ["include/actl/container/adaptor/queue_using_stacks.hpp: fill_out_stack, top, pop, emplace", "include/actl/container/adaptor/array_as_vector.hpp: emplace, pop_back", "include/actl/map/accounting_map.hpp: get, invert", "include/actl/graph/adjacency_list.hpp: try_add_edge"]}
{"id": "C146", "title": "Buffering over devices that take or give less than they are asked for", "statement": "Writing through the buffer gives any device blocks that together are the data in order, whatever the device does with them; a device that is full holds exactly the beginning of the data, and a device that takes some of each block holds a part of the data in order. Reading through the buffer from a source that gives its data in pieces (such as lines) loses and reorders nothing and returns something from every call until the end, as long as no block is longer than the buffer; blocks of any length can be read from a source that gives all it is asked for. Findings: what a device did not take is neither reported nor given again, every call returns the full count; reading a block longer than the buffer from a source that gives less than asked leaves a hole: the call claims characters it did not store, and characters of the source are lost.", "quantifier": "for all devices, buffer sizes, data, ways to cut the data into pieces and histories of calls", "why_tests_cant": "Tests use devices in memory, which take and give everything; how a device cuts the data relative to the buffer is outside of the test's control.", "anchors": ["include/actl/io/device/wrapper/buffered.hpp: buffered::write, overflow, flush, buffered_reader::read, get, underflow", "include/actl/io/device/wrapper/line_buffered.hpp: line_buffered_reader::read", "include/actl/io/device/memory.hpp: memory::write"]}
{"id": "C147", "title": "Lazily evaluated arguments and output parameters", "statement": "Inserting into a map with try_emplace and a lazy argument calls the function exactly when the key is not in the map: once for each different new key, in the order of first appearance, if it does not throw; a call that throws leaves the map as it was and the key is tried again. The effect is that of the documented alternative with find and emplace, without its second search and its moves. A wrapper over a named function acts on that function every time it is converted, one over a temporary acts on its own copy. A program that assigns and reads through output wrappers has the effect of the program over the variables themselves: no assignment makes a wrapper name another variable, and an input-output wrapper is never built from an output wrapper. Findings: with emplace in place of try_emplace the function is called for every key and the map is filled differently; the documented example that initialises an optional and leaves its type to deduction never calls the function and holds the wrapper.", "quantifier": "for all functions with any state, throwing or not, maps, sequences of keys and programs over any number of wrappers and variables", "why_tests_cant": "Tests insert three keys with one counting function; the number of calls for all sequences of keys with repetitions and exceptions, and all patterns of aliasing between wrappers, are not finite.", "anchors": ["include/actl/functional/lazy.hpp: lazy, operator decltype(function())", "include/actl/functional/parameter/out.hpp: out, assign", "include/actl/functional/parameter/inout.hpp: inout"]}
{"id": "C148", "title": "Arguments read from text through a buffer are those read from memory", "statement": "Reading arguments of any types (integers, booleans, characters, strings, tuples, arrays and vectors of these, to any depth) with the white-space-skipping text format through a buffered reader gives what reading from a memory with the remaining characters gives: the same values, the same failure, the same assertion or exception, and after a success the same characters are left. This does not depend on the size of the buffer, on the pieces in which the source gives its data (a number, a word or a run of white space may be cut anywhere), or on the blocks and characters that were taken before. What is written with a separator of white space is read back. The end is reported from the first attempt to take a character past it.", "quantifier": "for all argument types, buffer sizes, contents, divisions of the contents into pieces and earlier operations that ask for no more than the buffer holds", "why_tests_cant": "Tests read a few numbers from a buffer that holds all of them; where the boundaries of buffers and pieces fall within tokens is unbounded.", "anchors": ["include/actl/io/device/wrapper/buffered.hpp: buffered_reader", "include/actl/io/utility/skip.hpp: skip", "include/actl/io/utility/till.hpp: read_till", "include/actl/io/core/parser_executor.hpp", "include/actl/io/format/text/parser/string.hpp", "include/actl/io/argument/range.hpp: read_format", "include/actl/io/io.hpp: read"]}
{"id": "C149", "title": "The format that flushes after each unit leaves nothing in buffers", "statement": "Writing arguments of any nesting with the format that flushes after each unit makes the calls for the bytes of the arguments in their order, with one flush after each argument of every level. Through a buffer of any size over any device it succeeds, and when it returns the device has been given exactly the bytes of the arguments, nothing is left in the buffer, and the duplication of bytes at the end of a full buffer cannot happen. If the program is stopped between two calls, what is missing on the device is less than a buffer full from the end of the one argument that was being written. Over a device that may take less than it is given, writing of arguments without repeated characters succeeds exactly when everything was taken, and a call that was not taken whole is the last one.", "quantifier": "for all argument trees, buffer sizes, devices and points at which the program may stop", "why_tests_cant": "The test writes one character through a buffer of two; the positions of arguments relative to the buffer, their nesting and the points of interruption are unbounded.", "anchors": ["include/actl/io/format/utility/unit_flush.hpp: unit_flush, encode", "include/actl/io/utility/flush.hpp: flush_t", "include/actl/io/utility/repeat.hpp: write_final", "include/actl/io/device/wrapper/buffered.hpp: write, flush", "include/actl/io/core/batch.hpp: write_pre_final"]}
{"id": "C150", "title": "Logical expressions have the values of logic and evaluate both operands", "statement": "A formula written with !, &&, || and logical_implies over placeholders and constants, called with booleans, has the value that the formula has in logic and no other; every function of at least one boolean is the value of such a formula with !, && and || only. The operators are strict: an expression has a value exactly if each operand has a boolean value, so they are commutative, associative and distributive and obey the laws of De Morgan also for operands without a value, and the identity elements are neutral and give the folds all-of and any-of. Hence a guard on the left does not protect the operand on the right as it does with the operators of the language, while if_else does.", "quantifier": "for all formulas, numbers of placeholders, operands including calls of any operations of the user, and lists of booleans", "why_tests_cant": "The test checks a few rows of the tables with literal arguments; formulas, operands and the operations that may fail are unbounded.", "anchors": ["include/actl/numeric/logic/logical_and.hpp: LogicalAnd, LogicalAndScalar, operator&&, identity_element", "include/actl/numeric/logic/logical_or.hpp: LogicalOr, LogicalOrScalar, operator||, identity_element", "include/actl/numeric/logic/logical_not.hpp: LogicalNot, LogicalNotScalar, operator!", "include/actl/numeric/logic/logical_implies.hpp: logical_implies", "include/actl/core/if_else.hpp: IfElse", "include/actl/operation/expression/evaluate.hpp: eval"]}
