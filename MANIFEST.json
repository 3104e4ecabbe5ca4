{
 "claims": [
  {
   "property": "C01",
   "status": "proved",
   "theorems": [
    "C01_binary_pow_monoid",
    "C01_binary_pow_multiplications",
    "C01_binary_pow_rejects_negative"
   ],
   "note": "`binary_pow` over an arbitrary type with an operation (NumericModel); loop invariant `res * value^power`; the number of multiplications is bounded by counting them in the model"
  },
  {
   "property": "C02",
   "status": "proved",
   "theorems": [
    "C02_add",
    "C02_sub",
    "C02_neg"
   ],
   "note": "`mod_add`, `mod_sub`, `mod_neg` on words of any width with wrap; case split on the comparison with the modulus; no overflow because operands are reduced"
  },
  {
   "property": "C03",
   "status": "proved",
   "theorems": [
    "C03_mul",
    "C03_mul_binary"
   ],
   "note": "`mod_mul` (double word and binary variant); invariant of the doubling loop modulo m"
  },
  {
   "property": "C04",
   "status": "proved",
   "theorems": [
    "C04_div_solvable",
    "C04_div_unsolvable",
    "C04_div_sound",
    "C04_div_by_zero_pow2_refuted"
   ],
   "note": "`mod_div`: extended Euclid on words; invariant of the Euclid loop, solvability by gcd; finding: division by zero with modulus 2^w evaluates x % 0"
  },
  {
   "property": "C05",
   "status": "proved",
   "theorems": [
    "C05_static_modulus",
    "C05_ring_laws",
    "C05_prime_division_inverts_multiplication",
    "C05_constructor_reduces_refuted"
   ],
   "note": "`modular` ring elements, static and dynamic modulus; ring laws through the homomorphism to Z/m; primality for division; finding: the constructor does not reduce its argument"
  },
  {
   "property": "C06",
   "status": "proved",
   "theorems": [
    "C06_splitmix_permutation",
    "C06_splitmix_seeds_never_meet"
   ],
   "note": "splitmix64 step; explicit inverse function (xor-shift inversion, inverse of odd multipliers), proved two-sided"
  },
  {
   "property": "C07",
   "status": "proved",
   "theorems": [
    "C07_xoroshiro_output",
    "C07_xoroshiro_bijective",
    "C07_xoroshiro_never_degenerates",
    "C07_xoroshiro_default_state_never_degenerates"
   ],
   "note": "xoroshiro128cplus step and output; linear map with an explicit inverse; zero is the only fixed bad state"
  },
  {
   "property": "C08",
   "status": "proved",
   "theorems": [
    "C08_hash_value_injective",
    "C08_hash_range_last_element",
    "C08_hash_tuple_last_element",
    "C08_signed_zero_hash_refuted"
   ],
   "note": "hash of values, ranges and tuples; injectivity of each step for a fixed seed; finding: +0 and -0 are equal but hash differently"
  },
  {
   "property": "C09",
   "status": "proved",
   "theorems": [
    "C09_set_bits",
    "C09_clear_bits",
    "C09_clear_bit",
    "C09_has_bits",
    "C09_has_bit_and_bit"
   ],
   "note": "bit helpers on words; `Z.testbit` extensionality for every bit position"
  },
  {
   "property": "C10",
   "status": "proved",
   "theorems": [
    "C10_min",
    "C10_max",
    "C10_compare3way",
    "C10_or_equal",
    "C10_sgn"
   ],
   "note": "min, max, compare3way, sgn; order laws over an abstract total order"
  },
  {
   "property": "C11",
   "status": "proved",
   "theorems": [
    "C11_trichotomy",
    "C11_laws",
    "C11_equality_transitive_refuted"
   ],
   "note": "absolute error policy over Q; linear arithmetic; finding: equality is not transitive"
  },
  {
   "property": "C12",
   "status": "proved",
   "theorems": [
    "C12_literal_exact"
   ],
   "note": "literal parser with base prefixes and separators; fold invariant of the digits"
  },
  {
   "property": "C13",
   "status": "proved",
   "theorems": [
    "C13_split_weave",
    "C13_join_split",
    "C13_split_join"
   ],
   "note": "`split` keeping empty fields; induction on the string: join and split are mutually inverse"
  },
  {
   "property": "C14",
   "status": "proved",
   "theorems": [
    "C14_split_maximal_runs",
    "C14_split_is_filtered"
   ],
   "note": "`split` removing empty fields; characterised as the filter of C13 and as maximal runs"
  },
  {
   "property": "C15",
   "status": "proved",
   "theorems": [
    "C15_trim_spec",
    "C15_trim_idempotent",
    "C15_trim_space"
   ],
   "note": "`trim`; prefix and suffix maximality by induction"
  },
  {
   "property": "C16",
   "status": "proved",
   "theorems": [
    "C16_canonical_numeral",
    "C16_canonical_unique"
   ],
   "note": "integer writer: digits, sign, base prefix; value of the digit string by a separate numeral semantics; uniqueness of canonical numerals"
  },
  {
   "property": "C17",
   "status": "proved",
   "theorems": [
    "C17_no_overrun"
   ],
   "note": "stack buffer of the writer; digit count bound for every width and base"
  },
  {
   "property": "C18",
   "status": "proved",
   "theorems": [
    "C18_round_trip"
   ],
   "note": "writer followed by the parser; C16 with the numeral specification of C19"
  },
  {
   "property": "C19",
   "status": "proved",
   "theorems": [
    "C19_parse_exact",
    "C19_leading_zero",
    "C19_in_range"
   ],
   "note": "parser automaton: sign, base, digits, overflow test; simulation of the automaton by a numeral specification"
  },
  {
   "property": "C20",
   "status": "proved",
   "theorems": [
    "C20_zero_misread_refuted"
   ],
   "note": "the same automaton; counterexample; finding: `0` followed by a non-digit"
  },
  {
   "property": "C21",
   "status": "proved",
   "theorems": [
    "C21_chunks",
    "C21_end"
   ],
   "note": "parser executor on chunks; the state after two chunks is the state after their concatenation"
  },
  {
   "property": "C22",
   "status": "proved",
   "theorems": [
    "C22_longest_prefix",
    "C22_each_count"
   ],
   "note": "memory output device; refinement to the longest prefix that fits"
  },
  {
   "property": "C23",
   "status": "proved",
   "theorems": [
    "C23_in_order",
    "C23_get_at_end",
    "C23_read_after_end_refuted"
   ],
   "note": "memory input device; refinement to a tape; finding: reading after the end goes past the block"
  },
  {
   "property": "C24",
   "status": "proved",
   "theorems": [
    "C24_exact_iff",
    "C24_prefix_before_flush",
    "C24_characters_exact",
    "C24_exact_fill_refuted"
   ],
   "note": "buffered writer on any device; invariant: delivered ++ buffer = written; finding: after a write that exactly fills the buffer bytes are delivered twice"
  },
  {
   "property": "C25",
   "status": "proved",
   "theorems": [
    "C25_string",
    "C25_char",
    "C25_list_injective"
   ],
   "note": "escaped strings and characters; explicit decoder, left inverse"
  },
  {
   "property": "C26",
   "status": "proved",
   "theorems": [
    "C26_adjusted",
    "C26_length"
   ],
   "note": "adjusted output; length arithmetic"
  },
  {
   "property": "C27",
   "status": "proved",
   "theorems": [
    "C27_spaced",
    "C27_every_value",
    "C27_one_separator",
    "C27_words"
   ],
   "note": "spaced output of nested values; induction on the nested values with the separator flag as invariant"
  },
  {
   "property": "C28",
   "status": "proved",
   "theorems": [
    "C28_flags",
    "C28_levels",
    "C28_independent",
    "C28_notation",
    "C28_group_undefined",
    "C28_scope_restores_flags_refuted"
   ],
   "note": "manipulators, flags, nesting levels; state invariants over nested values; finding: flags changed inside a value are not restored"
  },
  {
   "property": "C29",
   "status": "proved",
   "theorems": [
    "C29_round_trip",
    "C29_overwrite",
    "C29_list_keeps_old",
    "C29_map_keeps_old",
    "C29_set_keeps_old",
    "C29_overwrite_any_refuted",
    "C29_truncated",
    "C29_self_delimiting",
    "C29_canonical",
    "C29_layout"
   ],
   "note": "binary format over a universe of types; induction on values: reader undoes writer with any continuation, canonicity, truncation; finding: reading does not overwrite lists, sets and maps but appends"
  },
  {
   "property": "C30",
   "status": "proved",
   "theorems": [
    "C30_nearest",
    "C30_floating",
    "C30_special",
    "C30_buffer_refuted",
    "C30_large_refuted",
    "C30_showbase_refuted",
    "C30_precision_refuted",
    "C30_base_zero_refuted"
   ],
   "note": "`real_write` in exact rational arithmetic, rounding as a parameter; half unit bound; digits by C16; finding: buffer overrun, values above 2^64, prefix, precision and base zero"
  },
  {
   "property": "C31",
   "status": "proved",
   "theorems": [
    "C31_fifo",
    "C31_fifo_any_state"
   ],
   "note": "queue from two stacks; refinement to a list"
  },
  {
   "property": "C32",
   "status": "proved",
   "theorems": [
    "C32_fifo",
    "C32_storage_grows",
    "C32_back_empty"
   ],
   "note": "vector backed queue; refinement to a list; storage never shrinks"
  },
  {
   "property": "C33",
   "status": "proved",
   "theorems": [
    "C33_bounded_vector",
    "C33_copy_refuted"
   ],
   "note": "`array_as_vector`; refinement to a bounded list, assertion exactly when full; finding: a copy shares the end position with the original"
  },
  {
   "property": "C34",
   "status": "proved",
   "theorems": [
    "C34_construct",
    "C34_read_write",
    "C34_equality"
   ],
   "note": "`semi_static_array`; disjointness of static and dynamic slots by arithmetic on the selector"
  },
  {
   "property": "C35",
   "status": "proved",
   "theorems": [
    "C35_index_bijection",
    "C35_size",
    "C35_size_wrap_refuted"
   ],
   "note": "tensor offsets; mixed radix bijection; finding: the size of a tensor wraps"
  },
  {
   "property": "C36",
   "status": "proved",
   "theorems": [
    "C36_dimensions",
    "C36_nested_init",
    "C36_nested_init_refuted",
    "C36_misplaced_refuted",
    "C36_from_list"
   ],
   "note": "tensor construction from nested lists; row-major placement iff trailing extents are equal; finding: misplaced elements"
  },
  {
   "property": "C37",
   "status": "proved",
   "theorems": [
    "C37_bfs_reachable"
   ],
   "note": "BFS with an explicit queue; loop invariant: queue, colours and reached set"
  },
  {
   "property": "C38",
   "status": "proved",
   "theorems": [
    "C38_bfs_distance",
    "C38_discovery_order"
   ],
   "note": "distance recorder; queue monotonicity invariant; shortest walks in a separate walk semantics"
  },
  {
   "property": "C39",
   "status": "proved",
   "theorems": [
    "C39_bfs_predecessors",
    "C39_dfs_predecessors"
   ],
   "note": "predecessor recorders; forest invariant"
  },
  {
   "property": "C40",
   "status": "proved",
   "theorems": [
    "C40_recursive_to_iterative",
    "C40_iterative_to_recursive"
   ],
   "note": "recursive and iterative DFS with visitors; simulation in both directions"
  },
  {
   "property": "C41",
   "status": "proved",
   "theorems": [
    "C41_dfs_reachable",
    "C41_dfs_nested"
   ],
   "note": "DFS; white path argument, nesting of intervals in the event list"
  },
  {
   "property": "C42",
   "status": "proved",
   "theorems": [
    "C42_topological_sort"
   ],
   "note": "topological sort; finish order on acyclic graphs"
  },
  {
   "property": "C43",
   "status": "proved",
   "theorems": [
    "C43_connected_components"
   ],
   "note": "connected components; labels iff connected in a separate walk semantics"
  },
  {
   "property": "C44",
   "status": "proved",
   "theorems": [
    "C44_equal_labels_strongly_connected",
    "C44_pop",
    "C44_exact",
    "C44_symmetric",
    "C44_unique_paths",
    "C44_arc_order",
    "C44_order_refuted",
    "C44_strong_components_refuted"
   ],
   "note": "Tarjan strong components; invariants of the component stack prove the half that holds and the order of labels along edges; a vertex that pops the stack is the first discovered vertex of its component, or the cross edge that was ignored closes two disjoint ways, which gives the graphs on which the result is right; finding: components are split: the low link of a finished vertex is not read"
  },
  {
   "property": "C45",
   "status": "proved",
   "theorems": [
    "C45_cut_vertices_reported",
    "C45_reports",
    "C45_first_vertex",
    "C45_short_cycles",
    "C45_articulation_points_refuted"
   ],
   "note": "articulation points; invariants prove that every cut vertex is reported, and that a false report comes from a back edge below a child, which closes a cycle of at least four vertices; finding: vertices that are not cut vertices are reported"
  },
  {
   "property": "C46",
   "status": "proved",
   "theorems": [
    "C46_other_end",
    "C46_stored_fits",
    "C46_other_end_pointer"
   ],
   "note": "end points stored as xor; xor algebra on words"
  },
  {
   "property": "C47",
   "status": "proved",
   "theorems": [
    "C47_counts",
    "C47_out_edges",
    "C47_in_edges",
    "C47_in_edges_end_points",
    "C47_in_edge_bundle_refuted",
    "C47_edges",
    "C47_edges_no_vertices_refuted"
   ],
   "note": "adjacency list, all directedness and container kinds; invariant over all insertion histories; finding: bundles of in-edges; edges of a graph without vertices"
  },
  {
   "property": "C48",
   "status": "proved",
   "theorems": [
    "C48_no_parallel_edges",
    "C48_refused_insertion",
    "C48_accepted_insertion",
    "C48_refused_handle_refuted"
   ],
   "note": "adjacency list with unique out-edges; invariant over histories; finding: the handle returned for a refused edge"
  },
  {
   "property": "C49",
   "status": "proved",
   "theorems": [
    "C49_swap",
    "C49_cyclic",
    "C49_translation",
    "C49_scaling",
    "C49_mirror",
    "C49_collinear",
    "C49_line_direction",
    "C49_area_line"
   ],
   "note": "orientation of three points; `ring`, `nia`; collinear iff on a common line"
  },
  {
   "property": "C50",
   "status": "proved",
   "theorems": [
    "C50_shoelace",
    "C50_fan",
    "C50_rotate",
    "C50_reverse",
    "C50_translation",
    "C50_scaling",
    "C50_cut",
    "C50_triangle",
    "C50_rectangle",
    "C50_straight_vertex"
   ],
   "note": "area of simple polygons; shoelace sum; additivity over cuts"
  },
  {
   "property": "C51",
   "status": "proved",
   "theorems": [
    "C51_hull",
    "C51_area",
    "C51_vertex_extreme",
    "C51_collinear_refuted",
    "C51_two_points_refuted"
   ],
   "note": "Andrew monotone chain; stack invariant: convex chain below all earlier points; supporting lines; finding: only one point for collinear input"
  },
  {
   "property": "C52",
   "status": "proved",
   "theorems": [
    "C52_rotate_about_refuted",
    "C52_project_line",
    "C52_project_line_fixes",
    "C52_project_plane",
    "C52_project_plane_fixes",
    "C52_reflect_line",
    "C52_reflect_line_midpoint",
    "C52_reflect_plane",
    "C52_reflect_point",
    "C52_rotate_refuted",
    "C52_rotate_norm_refuted"
   ],
   "note": "project, reflect, rotate over Q; `field` in Qc; minimality by sums of squares; finding: rotation formula"
  },
  {
   "property": "C53",
   "status": "proved",
   "theorems": [
    "C53_drange_size",
    "C53_irange",
    "C53_drange",
    "C53_drange_whole_type_refuted",
    "C53_irange_step_up",
    "C53_irange_step_down",
    "C53_irange_step_overflow_refuted",
    "C53_step_zero_rejected",
    "C53_size_signed"
   ],
   "note": "integer ranges over C++ integer types; arithmetic progression by induction; finding: whole type, step overflow"
  },
  {
   "property": "C54",
   "status": "proved",
   "theorems": [
    "C54_filtered_forward_backward",
    "C54_filtered_step_inverse",
    "C54_filtered_map"
   ],
   "note": "filtered range; iteration forward and backward is the filter"
  },
  {
   "property": "C55",
   "status": "proved",
   "theorems": [
    "C55_compare_vs_reference",
    "C55_compare_is_an_order",
    "C55_is_less_is_an_order",
    "C55_prefix_refuted"
   ],
   "note": "lexicographical comparison of ranges; relation to the reference order; finding: a proper prefix is greater"
  },
  {
   "property": "C56",
   "status": "proved",
   "theorems": [
    "C56_tuple_lexicographical",
    "C56_tuple_equal"
   ],
   "note": "lexicographical comparison of tuples; equals the lexicographic order of the components"
  },
  {
   "property": "C57",
   "status": "proved",
   "theorems": [
    "C57_subspans",
    "C57_out_of_bounds_rejected",
    "C57_subspan_wrap_refuted"
   ],
   "note": "sub-spans; offset arithmetic; finding: offset + count may wrap"
  },
  {
   "property": "C58",
   "status": "proved",
   "theorems": [
    "C58_accounting",
    "C58_accounting_order",
    "C58_narrow_value_refuted"
   ],
   "note": "accounting map; ids are dense and stable over all histories; finding: narrow id types"
  },
  {
   "property": "C59",
   "status": "proved",
   "theorems": [
    "C59_composite_get_invert",
    "C59_composite_put2",
    "C59_composite_put1",
    "C59_associative_container_laws",
    "C59_shift_map",
    "C59_composite_range",
    "C59_identity_map"
   ],
   "note": "composite, shift, associative maps; get/put laws over abstract maps"
  },
  {
   "property": "C60",
   "status": "proved",
   "theorems": [
    "C60_at",
    "C60_slice",
    "C60_prefix_suffix",
    "C60_concat"
   ],
   "note": "type list at, slice, concat; induction on lists"
  },
  {
   "property": "C61",
   "status": "proved",
   "theorems": [
    "C61_bridges",
    "C61_two_edge_connected_components",
    "C61_parallel_edges_need_flag"
   ],
   "note": "bridges recorder; low link invariant: reported iff removing the edge disconnects its ends"
  },
  {
   "property": "C62",
   "status": "proved",
   "theorems": [
    "C62_cyclic",
    "C62_cyclic_construct"
   ],
   "note": "cyclic iterators; arithmetic modulo the length"
  },
  {
   "property": "C63",
   "status": "proved",
   "theorems": [
    "C63_copy_range",
    "C63_copy_iterator"
   ],
   "note": "range copy; exact effect on the destination"
  },
  {
   "property": "C64",
   "status": "proved",
   "theorems": [
    "C64_tensor_equality"
   ],
   "note": "tensor equality; all elements"
  },
  {
   "property": "C65",
   "status": "proved",
   "theorems": [
    "C65_ids",
    "C65_erase",
    "C65_null"
   ],
   "note": "container ids; positions under insertion and erasure"
  },
  {
   "property": "C66",
   "status": "proved",
   "theorems": [
    "C66_edge_list",
    "C66_find_edge",
    "C66_remove_edge",
    "C66_remove_missing_refuted"
   ],
   "note": "edge list; history invariant; finding: removing a missing edge"
  },
  {
   "property": "C67",
   "status": "proved",
   "theorems": [
    "C67_find_edge",
    "C67_missing_edge_refuted"
   ],
   "note": "edge lookup in adjacency lists; soundness and completeness; finding: a missing edge is answered by one equal to the first edge"
  },
  {
   "property": "C68",
   "status": "proved",
   "theorems": [
    "C68_tape",
    "C68_first_in_first_out",
    "C68_truncate",
    "C68_read_after_end_refuted"
   ],
   "note": "string device; refinement to a tape; finding: reading after the end"
  },
  {
   "property": "C69",
   "status": "proved",
   "theorems": [
    "C69_in_order",
    "C69_first_get_refuted"
   ],
   "note": "buffered reader on any device; invariant: consumed ++ buffer ++ rest = source; finding: the first get"
  },
  {
   "property": "C70",
   "status": "proved",
   "theorems": [
    "C70_buffered",
    "C70_unbuffered"
   ],
   "note": "reading up to a terminator; span semantics"
  },
  {
   "property": "C71",
   "status": "proved",
   "theorems": [
    "C71_skip",
    "C71_string_set_refuted"
   ],
   "note": "skipping characters; maximal matching prefix; finding: string literal sets include the terminator"
  },
  {
   "property": "C72",
   "status": "proved",
   "theorems": [
    "C72_fits",
    "C72_overflow_refuted",
    "C72_simple"
   ],
   "note": "repeated characters into memory; exact effect; finding: overflow of the block"
  },
  {
   "property": "C73",
   "status": "proved",
   "theorems": [
    "C73_classes"
   ],
   "note": "character classes; the ASCII tables as separate predicates, for all char values"
  },
  {
   "property": "C74",
   "status": "proved",
   "theorems": [
    "C74_range_equal",
    "C74_range_equal_sequences"
   ],
   "note": "equality of ranges; equality of sequences"
  },
  {
   "property": "C75",
   "status": "proved",
   "theorems": [
    "C75_indented",
    "C75_any_level",
    "C75_size_line_refuted"
   ],
   "note": "indented output; lines and levels of nested values; finding: the size takes a line"
  },
  {
   "property": "C76",
   "status": "proved",
   "theorems": [
    "C76_boolalpha",
    "C76_base_ignored",
    "C76_hex_refuted"
   ],
   "note": "manipulators as arguments; flag semantics; finding: base manipulators do nothing"
  },
  {
   "property": "C77",
   "status": "proved",
   "theorems": [
    "C77_nearest",
    "C77_unique",
    "C77_distance",
    "C77_plane"
   ],
   "note": "nearest points; minimality over all points of the line"
  },
  {
   "property": "C78",
   "status": "proved",
   "theorems": [
    "C78_invert",
    "C78_fixes_sphere",
    "C78_center"
   ],
   "note": "inversion in a sphere; involution, fixed points"
  },
  {
   "property": "C79",
   "status": "proved",
   "theorems": [
    "C79_collinear",
    "C79_symmetric",
    "C79_zero_refuted"
   ],
   "note": "collinearity in N dimensions; proportionality; finding: zero vectors"
  },
  {
   "property": "C80",
   "status": "proved",
   "theorems": [
    "C80_make_plane2d",
    "C80_make_plane3d",
    "C80_coplanar",
    "C80_crosses",
    "C80_crosses_degenerate",
    "C80_sphere_refuted",
    "C80_sphere_disjoint_refuted"
   ],
   "note": "planes; membership of points; finding: the plane and sphere test is inverted"
  },
  {
   "property": "C81",
   "status": "proved",
   "theorems": [
    "C81_intersect",
    "C81_none",
    "C81_crosses",
    "C81_scalar",
    "C81_open_refuted",
    "C81_degenerate_refuted"
   ],
   "note": "intersection of lines, rays, segments; set of common points is exactly the output; finding: open ends, degenerate segments"
  },
  {
   "property": "C82",
   "status": "proved",
   "theorems": [
    "C82_within",
    "C82_within_n",
    "C82_point",
    "C82_begin_refuted",
    "C82_plane"
   ],
   "note": "point on line; membership; finding: begin point in dimension other than 2"
  },
  {
   "property": "C83",
   "status": "proved",
   "theorems": [
    "C83_circumcenter"
   ],
   "note": "circumcenter; equal distances and uniqueness"
  },
  {
   "property": "C84",
   "status": "proved",
   "theorems": [
    "C84_line_sphere",
    "C84_line_sphere_sorted",
    "C84_circles",
    "C84_equal_circles_refuted",
    "C84_spheres",
    "C84_circles_cross",
    "C84_within_sphere"
   ],
   "note": "spheres and circles; common points exactly, given exact square roots; finding: equal circles"
  },
  {
   "property": "C85",
   "status": "proved",
   "theorems": [
    "C85_output_refuted",
    "C85_position_refuted",
    "C85_appended"
   ],
   "note": "output through an iterator; effect on the array; finding: the iterator does not advance"
  },
  {
   "property": "C86",
   "status": "proved",
   "theorems": [
    "C86_boundary",
    "C86_crossings",
    "C86_rotation",
    "C86_reversal",
    "C86_chord",
    "C86_half_plane",
    "C86_constant"
   ],
   "note": "winding number; crossing sum; half plane, chord and segment invariance determine the winding number"
  },
  {
   "property": "C87",
   "status": "proved",
   "theorems": [
    "C87_once",
    "C87_inside",
    "C87_outside",
    "C87_border",
    "C87_triangle",
    "C87_degenerate_refuted"
   ],
   "note": "point location by winding number, triangles; crossing count of a convex polygon is one; finding: degenerate triangles"
  },
  {
   "property": "C88",
   "status": "proved",
   "theorems": [
    "C88_convex",
    "C88_monotone",
    "C88_rotated"
   ],
   "note": "point location by binary search, `to_monotone`; chains of a convex polygon sorted; agreement with C87"
  },
  {
   "property": "C89",
   "status": "proved",
   "theorems": [
    "C89_convex",
    "C89_contains",
    "C89_located"
   ],
   "note": "convex hull composed with point location; global convexity from local turns"
  },
  {
   "property": "C90",
   "status": "proved",
   "theorems": [
    "C90_simple",
    "C90_convex"
   ],
   "note": "polygon orientation; extreme vertex corner"
  },
  {
   "property": "C91",
   "status": "proved",
   "theorems": [
    "C91_sorted",
    "C91_order",
    "C91_around_permutation",
    "C91_around_refuted"
   ],
   "note": "sorting by angle; sortedness with respect to the polar order; strict weak order; finding: sorting around another point"
  },
  {
   "property": "C92",
   "status": "proved",
   "theorems": [
    "C92_nearest",
    "C92_assert"
   ],
   "note": "closest pair by divide and conquer; strip invariant: pairs across the middle closer than the current result are compared"
  },
  {
   "property": "C93",
   "status": "proved",
   "theorems": [
    "C93_antipodal",
    "C93_max_distance",
    "C93_two_vertices_refuted"
   ],
   "note": "antipodal vertices by rotating calipers, largest distance (squared); every antipodal pair is on the staircase of visited pairs: edges between the two turn left of the first edge (unimodality of the height over an edge); finding: two vertices are read out of bounds"
  },
  {
   "property": "C94",
   "status": "proved",
   "theorems": [
    "C94_extreme"
   ],
   "note": "extreme vertex by binary search; height given by a quotient of affine functions is unimodal along the border (barycentric identity); invariant of the search"
  },
  {
   "property": "C95",
   "status": "proved",
   "theorems": [
    "C95_tangents"
   ],
   "note": "tangents from a point; the same search with the quotient of affine functions that orders the directions from the point"
  },
  {
   "property": "C96",
   "status": "proved",
   "theorems": [
    "C96_chord",
    "C96_kinds",
    "C96_single_refuted"
   ],
   "note": "intersection of a line, ray or segment and a convex polygon; each chain search ends at an edge over which the side changes; crossing points are convex combinations, edges bound the parameter from both sides; finding: a touching point is reported twice"
  },
  {
   "property": "C97",
   "status": "proved",
   "theorems": [
    "C97_every_edge_labelled",
    "C97_biconnected_components_refuted",
    "C97_without_larger_cycles",
    "C97_triangle_refuted"
   ],
   "note": "the edge stack of the articulation point search; every edge that is not a loop is pushed from its later end and popped by the end of the search, so it has a label; cycles as lists of edges for the refutation; without cycles through three or more vertices the edges popped together are exactly the parallel edges of one pair (invariant of the stack along the search), so the labels are exact; finding: two edges of one cycle get different labels and unrelated edges get the same"
  },
  {
   "property": "C98",
   "status": "proved",
   "theorems": [
    "C98_orders_of_search_tree",
    "C98_orders_of_tree",
    "C98_inorder_length",
    "C98_unsigned_char_refuted"
   ],
   "note": "the orders of order.hpp; the events of a search determine a rooted ordered tree; outputs of the three visitors read off the tree; lengths by induction on the tree; finding: inorder stores -1 in a char: with unsigned char only the first vertex is written"
  },
  {
   "property": "C99",
   "status": "proved",
   "theorems": [
    "C99_evaluation",
    "C99_meaning_unique",
    "C99_composition",
    "C99_ranges_refuted"
   ],
   "note": "expressions, placeholders, overload resolution, passing of arguments and evaluation (ExprModel.v), for any operations and for the comparisons; a relational meaning indexed by height; resolution and passing keep it and do not increase the height; both directions by induction on fuel and on height; finding: overloads chosen before the types of ranges are known: greater(l, r) is not less(r, l)"
  },
  {
   "property": "C100",
   "status": "proved",
   "theorems": [
    "C100_if_else",
    "C100_capture",
    "C100_assignment"
   ],
   "note": "if_else, capture of variables, assignment to out; by computation of one step; the other branch is arbitrary"
  },
  {
   "property": "C101",
   "status": "proved",
   "theorems": [
    "C101_is_less",
    "C101_is_greater",
    "C101_equal_ranges",
    "C101_is_less_or_equal",
    "C101_is_greater_or_equal",
    "C101_is_equal",
    "C101_is_not_equal",
    "C101_compare3way",
    "C101_exact",
    "C101_ranges",
    "C101_sgn_refuted",
    "C101_placeholders_refuted",
    "C101_ranges_refuted"
   ],
   "note": "formulas and policies of the comparisons over exact numbers; symbolic evaluation for the four combinations of types; finding: sgn, placeholders and ranges lose the policy"
  },
  {
   "property": "C102",
   "status": "proved",
   "theorems": [
    "C102_bfs",
    "C102_bfs_path",
    "C102_dfs",
    "C102_dfs_path",
    "C102_whole_graph_refuted"
   ],
   "note": "both searches with the terminator argument (GraphModel.v), TermProofs.v; the trace of the search with a terminator is a cut of the trace without one; predecessors by invariants of prefixes of the trace; finding: the search of the whole graph continues with other roots after a terminator"
  },
  {
   "property": "C103",
   "status": "proved",
   "theorems": [
    "C103_read",
    "C103_no_digits",
    "C103_exact",
    "C103_error",
    "C103_round_trip",
    "C103_floating_round_trip",
    "C103_special_refuted",
    "C103_end"
   ],
   "note": "the parser of floating point numbers (FloatTextModel.v) with a rounding of each operation as parameter; simulation of the parser by an automaton over characters; value of each block with a calculus of relative errors; number of blocks bounded by digits and pieces; finding: infinity and nan are written but not read"
  },
  {
   "property": "C104",
   "status": "proved",
   "theorems": [
    "C104_names",
    "C104_digits",
    "C104_round_trip",
    "C104_end"
   ],
   "note": "the parser and the writer of booleans (FloatTextModel.v); matching of a constant text is compositional over pieces"
  },
  {
   "property": "C105",
   "status": "proved",
   "theorems": [
    "C105_plus",
    "C105_minus",
    "C105_minus_unsigned_refuted",
    "C105_step",
    "C105_zero_step_refuted",
    "C105_order",
    "C105_order_unsigned_refuted",
    "C105_index",
    "C105_index_refuted"
   ],
   "note": "operators of random_access_iterator_interface for integer_iterator with typed operands: promotion, usual arithmetic conversions, wrap and signed overflow (IterModel.v); one lemma on sums modulo the width of the value type; case split on the signedness of the common type; finding: subtraction of narrow unsigned offsets goes forward; order over unsigned types; overflow of the product with the step"
  },
  {
   "property": "C106",
   "status": "proved",
   "theorems": [
    "C106_walk",
    "C106_back",
    "C106_end_refuted",
    "C106_past_end"
   ],
   "note": "linked list iterators over a memory of nodes (IterModel.v); induction on the chain of nodes; finding: -- of the end of a null-terminated list"
  },
  {
   "property": "C107",
   "status": "proved",
   "theorems": [
    "C107_round_trip",
    "C107_layout",
    "C107_missing",
    "C107_zero_refuted",
    "C107_empty_refuted"
   ],
   "note": "reading through skipws and text on a memory device for a universe of argument types (ReadModel.v), together with the writer of C27; mutual induction on the values with the text before and after as parameters; integers by C18, booleans by C104; finding: zeros and empty vectors that are not at the end"
  },
  {
   "property": "C108",
   "status": "proved",
   "theorems": [
    "C108_sound",
    "C108_complete",
    "C108_parity",
    "C108_even",
    "C108_order_refuted",
    "C108_touch_refuted"
   ],
   "note": "TransModel.v: the loop over the cyclic vertices with the signs of three consecutive vertices, between_endpoints, the scalar projection; crossings as in ChordModel.v. Integer coordinates, rational parameters.; C108_sound, C108_complete; C108_parity: each output is split between the two edges of its vertex, so that the contributions of an edge agree modulo 2 with the crossings of the ray along the line by the half open rule; the crossings of a ray in any direction add up to the winding number, since the difference for two directions is a difference of indicators of a cone. C108_even in the same way.; finding: A corner that touches the line is not reported (the TODO in the code); the report of a touching edge depends on the order of the vertices: C108_touch_refuted, C108_order_refuted."
  },
  {
   "property": "C109",
   "status": "proved",
   "theorems": [
    "C109_contact",
    "C109_two",
    "C109_line",
    "C109_border_inside",
    "C109_polar_refuted",
    "C109_polar_border",
    "C109_iterator_refuted",
    "C109_angle",
    "C109_bisector",
    "C109_bisector_between"
   ],
   "note": "TangentModel.v over exact rational arithmetic with an exact square root at the values used; an angle is represented by a vector with that polar angle.; C109_contact from the common points of two circles (C84); C109_two, C109_line, C109_border_inside, C109_polar_border, C109_angle, C109_bisector, C109_bisector_between by algebra.; finding: C109_polar_refuted holds for every point outside; C109_iterator_refuted."
  },
  {
   "property": "C110",
   "status": "proved",
   "theorems": [
    "C110_open",
    "C110_missing",
    "C110_trunc_refuted",
    "C110_read",
    "C110_eof",
    "C110_peek_refuted",
    "C110_update",
    "C110_append",
    "C110_write",
    "C110_turn",
    "C110_bin"
   ],
   "note": "FileModel.v: streams of the C library (contents, position, end-of-file indicator, last operation, contents at the last flush), the table of modes, constructors, get, peek, read, move, write, flush, destructors; refinement of a sequence of bytes with a position (ideal, overwrite) by induction over the operations; case analysis over the modes; finding: trunc does not clear and in|out does; peek at the end of the file steps back over the last byte"
  },
  {
   "property": "C111",
   "status": "proved",
   "theorems": [
    "C111_write_refuted",
    "C111_write",
    "C111_read",
    "C111_unique",
    "C111_zero_refuted"
   ],
   "note": "FileModel.v: write with the search for the last line feed, read through fgets and strlen; induction over the pieces; the head up to the last line feed is unique; lines by the relation next_line; finding: write has no return statement (every call is undefined); read does not compile for files that can be read, and with zero bytes loses the rest of the line"
  },
  {
   "property": "C112",
   "status": "proved",
   "theorems": [
    "C112_elements",
    "C112_unique",
    "C112_typed",
    "C112_same",
    "C112_size",
    "C112_sizes_refuted",
    "C112_const_refuted",
    "C112_can_convert_refuted",
    "C112_single_tuple_refuted",
    "C112_negative_size_refuted",
    "C112_wrapped",
    "C112_empty_tuple_refuted",
    "C112_constant_refuted",
    "C112_constant_reference_refuted"
   ],
   "note": "ConvModel.v: types and values as data; selection of the specialization by types and kind of reference (can1, conv1), construction and assignment by the standard library (direct, assign); relation Elems as specification (ConvSpec.v); induction over the plain pairs of types; determinism and typing of the relation by mutual induction; finding: numbers taken as sizes of vectors, result depending on const, hard errors after can_convert_to_v, tuples of one element, empty tuples, unsigned constants from negative numbers"
  },
  {
   "property": "C113",
   "status": "proved",
   "theorems": [
    "C113_not_degenerate",
    "C113_round",
    "C113_sum",
    "C113_distinct_refuted",
    "C113_distinct_sums",
    "C113_uniform",
    "C113_uniform_empty",
    "C113_uniform_zero_refuted"
   ],
   "note": "RngModel.v: the loop of seed with the default generator, the addition of the characters, the test of two outputs; uniform over an arbitrary distribution; the degenerate state gives two equal outputs, so the loop does not end there; the step is a bijection (C07); sums of characters modulo 2^64; finding: only the sum of the characters counts; uniform(0u) draws from all numbers"
  },
  {
   "property": "C114",
   "status": "proved",
   "theorems": [
    "C114_orientation",
    "C114_orientation_bound",
    "C114_orientation_small",
    "C114_orientation_int",
    "C114_orientation_long",
    "C114_orientation_unsigned_refuted",
    "C114_orientation_short_refuted",
    "C114_squared_length",
    "C114_dot",
    "C114_dot_refuted",
    "C114_end",
    "C114_end_wide",
    "C114_vector_refuted",
    "C114_area",
    "C114_area_unsigned",
    "C114_area_refuted",
    "C114_hull",
    "C114_hull_same",
    "C114_hull_narrow_refuted",
    "C114_hull_unsigned_refuted",
    "C114_hull_bound_refuted"
   ],
   "note": "MGeoModel.v: the predicates and the hull with every operation in the promoted type, outcome UB on signed overflow, static_cast when vectors are stored; twice the area of a triangle in a box is at most the area of the box; refinement of the exact model (C49-C51) step by step; sums modulo the width for unsigned types; finding: unsigned coordinates are never counter-clockwise; 8-bit and unsigned hulls lose points; 16-bit orientation overflows int; areas overflow far from the origin"
  },
  {
   "property": "C115",
   "status": "proved",
   "theorems": [
    "C115_formats",
    "C115_vectors",
    "C115_collinear",
    "C115_exact_differences",
    "C115_near_origin",
    "C115_grid",
    "C115_opposite_refuted",
    "C115_grid_bound_refuted",
    "C115_overflow_refuted"
   ],
   "note": "FGeoModel.v: numbers as rationals, infinities and NaN; every operation rounds to nearest even in a format given by precision and exponent range, with gradual underflow and overflow to infinity; orientation on top of it; rounding is monotone and exact on representable numbers, so the sign of a difference of rounded products is right or zero; Sterbenz lemma; error bound of rounding; finding: three doubles points near (1/2,1/2), (12,12), (24,24) get the opposite orientation; integers just outside of the bound get a wrong collinear"
  },
  {
   "property": "C116",
   "status": "proved",
   "theorems": [
    "C116_bfs_colors",
    "C116_dfs_colors",
    "C116_dfs_all_colors",
    "C116_gray_cycle",
    "C116_bfs_predecessor_edges",
    "C116_dfs_predecessor_edges"
   ],
   "note": "GraphModel.v: color_recorder and predecessor_edge_recorder as components of the searches; the watcher of gray targets is a user's visitor; induction over the big-step descriptions of the searches: the gray vertices are those on the current path and the black ones can be ordered with targets first; finding: the map of predecessor edges is not initialized by the recorder: the entries of sources and of unreachable vertices are stale if the map is reused"
  },
  {
   "property": "C117",
   "status": "proved",
   "theorems": [
    "C117_free_round_trip",
    "C117_member_round_trip",
    "C117_traits_injective",
    "C117_object",
    "C117_free_function",
    "C117_same_traits",
    "C117_callable",
    "C117_callable_refuted",
    "C117_member_function",
    "C117_const_object_refuted",
    "C117_modify_free",
    "C117_modify_member",
    "C117_member_queries",
    "C117_member_as",
    "C117_data_member",
    "C117_pointer_kept_refuted",
    "C117_object_modify",
    "C117_from_list",
    "C117_function_object",
    "C117_copy",
    "C117_copy_cvref",
    "C117_inner"
   ],
   "note": "FnTypeModel.v: types as data, templates as functions on them with the choice of specializations, an ill-formed instantiation is None; case analysis and induction over types; finding: a volatile pointer to a function, though callable, has no traits; a pointer to a pointer to a function, though not callable, counts as a free function; a const object with a non-const operator() counts as a function object; with_return_type of a function pointer is a function and not a pointer"
  },
  {
   "property": "C118",
   "status": "proved",
   "theorems": [
    "C118_exact",
    "C118_ends",
    "C118_zero_refuted",
    "C118_pointer",
    "C118_pointer_past",
    "C118_outside",
    "C118_add_refuted",
    "C118_back_refuted",
    "C118_list",
    "C118_transform",
    "C118_transform_index"
   ],
   "note": "LimModel.v: a base iterator is a record of operations (pointers into an array with undefined behaviour outside, linked lists, or any other); limited and transformed iterators are built from it; induction over the elements read; finding: limit 0 is not an empty range: assertion failure in debug, one element in release; + and -- bypass the limit; input iterators proper do not compile, since operator== of the adaptor needs the forward category"
  },
  {
   "property": "C119",
   "status": "proved",
   "theorems": [
    "C119_sequence",
    "C119_symmetric",
    "C119_reflexive",
    "C119_numbers",
    "C119_signs_refuted",
    "C119_transitive_refuted",
    "C119_transitive"
   ],
   "note": "EqSeqModel.v: the three overloads and their choice, elements with their integer types, == after the usual arithmetic conversions; induction over the loop and over the fold of &&; finding: a negative number equals a large unsigned one, so equality is not transitive"
  },
  {
   "property": "C120",
   "status": "proved",
   "theorems": [
    "C120_first",
    "C120_all",
    "C120_all_const",
    "C120_mutable_refuted"
   ],
   "note": "CallModel.v: binding of arguments to parameters by value category and constness, the choice of elements, effects as functions on a state; induction over the tuple; finding: a function object with a parameter that is a reference to non-const is silently not called by invoke_all_matching, because the check is made with rvalues"
  },
  {
   "property": "C121",
   "status": "proved",
   "theorems": [
    "C121_winding",
    "C121_within_simple",
    "C121_convex_polygon",
    "C121_within_triangle",
    "C121_located",
    "C121_orientation",
    "C121_orientation_empty",
    "C121_orientation_convex",
    "C121_sorted",
    "C121_unsigned_triangle_refuted",
    "C121_unsigned_turn_refuted",
    "C121_unsigned_refuted",
    "C121_short_refuted"
   ],
   "note": "MPolyModel.v: the algorithms of PolyModel.v with differences, products and the counter in C++ arithmetic; every orientation is exact within the box (MGeoProofs.v), so the results are those of the exact model, whose meaning is C86 to C91; finding: over unsigned types of 32 bits or more the answers are wrong; coordinates of 16 bits already overflow"
  },
  {
   "property": "C122",
   "status": "proved",
   "theorems": [
    "C122_arithmetic",
    "C122_bits",
    "C122_not",
    "C122_overflow",
    "C122_commutative",
    "C122_min_max",
    "C122_associative",
    "C122_associative_refuted",
    "C122_grouping_refuted",
    "C122_ushort_refuted",
    "C122_identity",
    "C122_identity_exists",
    "C122_identity_refuted",
    "C122_promotion",
    "C122_inout",
    "C122_common"
   ],
   "note": "ScalarOpModel.v: typed integers, usual arithmetic conversions, the type of a conditional, list initialisation, conversion of the result to the target; congruences modulo powers of two, bitwise extensionality, a total order of types; finding: declared associativity fails for mixed types and where a grouping overflows; no identity of bit_and for unsigned types; min does not compile"
  },
  {
   "property": "C123",
   "status": "proved",
   "theorems": [
    "C123_target",
    "C123_same",
    "C123_twice",
    "C123_back",
    "C123_containers",
    "C123_map_refuted",
    "C123_of_none",
    "C123_are_same",
    "C123_is_one_of",
    "C123_strict_common"
   ],
   "note": "RebindModel.v: types as finite trees, partial specialisations as pattern matching; induction over types with lists of parameters; finding: rebinding of a map keeps the allocator of the old type and replaces values of the type of keys"
  },
  {
   "property": "C124",
   "status": "proved",
   "theorems": [
    "C124_vector",
    "C124_endpoints",
    "C124_shrink_refuted",
    "C124_negative_refuted",
    "C124_int_max_refuted",
    "C124_set",
    "C124_set_stable",
    "C124_set_write_refuted",
    "C124_set_write_one"
   ],
   "note": "VELModel.v: try_add_edge over int vertices with growth of the vector, add_edge by values over nodes of a set with identities, writes to vertices; invariants over histories: the vector refines a count and a function, the edges are those of an inductive specification of accepted requests; finding: resizing down and negative vertices leave edges with invalid ends; the greatest int as a vertex is undefined; writing to a vertex of a set breaks its order"
  },
  {
   "property": "C125",
   "status": "proved",
   "theorems": [
    "C125_distance",
    "C125_depth_first",
    "C125_topological_sort",
    "C125_connected_components",
    "C125_bridges",
    "C125_cut_vertices",
    "C125_strong_components"
   ],
   "note": "BuiltModel.v: the graph a search sees through out_edges of an adjacency list; the adjacency list after a history refines the list of accepted requests (AdjProofs.v), the searches refine reachability; bridges of graphs without a container of edges by a simulation between graphs whose edges differ in identity only (RelabelProofs.v); finding: none"
  },
  {
   "property": "C126",
   "status": "proved",
   "theorems": [
    "C126_edge_map",
    "C126_vertex_map",
    "C126_edge_map_later",
    "C126_vertex_map_later",
    "C126_directions_refuted"
   ],
   "note": "DefMapModel.v: the two kinds of default maps with keys of AdjModel.v edges; edges got in each way stand for accepted requests (AdjProofs.v), keys are equal iff the requests are; induction over the writes; finding: without a container of edges the directions of an undirected edge have separate values (noted as a TODO in edge.hpp)"
  },
  {
   "property": "C127",
   "status": "proved",
   "theorems": [
    "C127_crosses",
    "C127_scalar",
    "C127_tight",
    "C127_unsigned_refuted"
   ],
   "note": "MCrossModel.v: intersect and crosses of lines with C++ integer arithmetic; refinement of the exact rational model (CrossModel.v) under the bound, composed with C81; the specification is stated with points of rational coordinates; finding: over unsigned types crossing segments are reported not to cross"
  },
  {
   "property": "C128",
   "status": "proved",
   "theorems": [
    "C128_nearest",
    "C128_max_distance",
    "C128_antipodal",
    "C128_tight",
    "C128_double_refuted",
    "C128_unsigned_refuted",
    "C128_conversion",
    "C128_nearest_rounded",
    "C128_nearest_error",
    "C128_max_distance_rounded"
   ],
   "note": "MDistModel.v: nearest, antipodal_vertices and max_distance with C++ integer arithmetic and correctly rounded square roots of type double; rounding keeps the order of roots, strictly below 2^52, so the machine version refines the exact model (PolyModel.v, ExtremeModel.v); composed with C92 and C93; edges of a convex polygon span at most the area of the box; beyond 2^52 (MNearProofs.v) the divide and conquer is proved again for the rounded metric: conversion and root keep the order, and a coordinate difference x is at most the rounded root of the rounded x*x; finding: from 2^52 on the pair need not be the closest one; over unsigned types the closest pair is missed"
  },
  {
   "property": "C129",
   "status": "proved",
   "theorems": [
    "C129_extreme",
    "C129_tangents",
    "C129_chord",
    "C129_tight",
    "C129_unsigned_refuted"
   ],
   "note": "MExtModel.v: extreme_vertex, tangents and intersect of a line and a convex polygon with C++ integer arithmetic; quotients stay numerator and denominator; all comparisons are exact within the bounds (twice the area of a triangle is at most the area of the box), so the searches refine the exact models (ExtremeModel.v, ChordModel.v); composed with C94, C95 and C96; finding: over unsigned types the results are wrong for every polygon away from the origin that was tried"
  },
  {
   "property": "C130",
   "status": "proved",
   "theorems": [
    "C130_hull",
    "C130_hull_total",
    "C130_hull_lost_refuted",
    "C130_area",
    "C130_area_refuted",
    "C130_winding",
    "C130_convex_polygon",
    "C130_triangle",
    "C130_located",
    "C130_few_vertices",
    "C130_orientation",
    "C130_sorted",
    "C130_angle_order_refuted"
   ],
   "note": "FPolyModel.v: hull, polygon area, winding number, within, orientation of a polygon and sort_by_angle with IEEE arithmetic of a format (FGeoModel.v); comparisons and orientations of grid points equal those of integers (C115, and the sign of a rounded difference of grid numbers is exact), so the algorithms refine the exact models and the integer theorems apply; totality: order of non-NaN numbers is a strict weak order, and the extreme points of the set are never right of the line through them; finding: nothing more is true in general, shown by counterexamples over double"
  },
  {
   "property": "C131",
   "status": "proved",
   "theorems": [
    "C131_compare",
    "C131_compare_signed",
    "C131_compare_unsigned",
    "C131_trichotomy",
    "C131_sgn",
    "C131_subtract",
    "C131_squared",
    "C131_negate",
    "C131_divide",
    "C131_abs",
    "C131_undo",
    "C131_within",
    "C131_less_within",
    "C131_order_refuted",
    "C131_equal_refuted",
    "C131_compare_refuted",
    "C131_abs_refuted",
    "C131_negate_refuted",
    "C131_divide_refuted",
    "C131_within_refuted"
   ],
   "note": "ScalarCmpModel.v: the operations on typed integers with the usual arithmetic conversions (IterModel.v, ScalarOpModel.v); the conversion to the common type is the identity unless a negative number becomes unsigned, where it adds 2^width; the result type is specified by widths and signs alone; note: bool and floating point operands are not modelled here"
  },
  {
   "property": "C132",
   "status": "proved",
   "theorems": [
    "C132_accuracy",
    "C132_in_box",
    "C132_exact",
    "C132_project",
    "C132_project_degenerate",
    "C132_on_second_refuted",
    "C132_open_end_refuted"
   ],
   "note": "FCrossModel.v: the ratio and the point at it in double, after the integer products of MCrossModel.v; relative errors of the conversions, the quotient, the product and the sum are composed with the model of rounding of C115; monotonicity of rounding gives the box; the exact point is that of C127; note: ratio is not defined in the repository and is read as a division after conversion to double, as the geometry policy cast_before<Div, double> says"
  },
  {
   "property": "C133",
   "status": "proved",
   "theorems": [
    "C133_breadth_first",
    "C133_depth_first",
    "C133_depth_first_all",
    "C133_any_order"
   ],
   "note": "GraphModel.v: the searches with visitors as events and answers; pairs of visitors; a simulation between searches with related visitors (ComposeProofs.v), used with a visitor that records the events; note: visitors that change the graph or throw are outside of the model"
  },
  {
   "property": "C134",
   "status": "proved",
   "theorems": [
    "C134_value",
    "C134_binary",
    "C134_binary_short",
    "C134_lists_refuted",
    "C134_text",
    "C134_layout",
    "C134_strings_refuted",
    "C134_space_refuted",
    "C134_merged_refuted"
   ],
   "note": "DevIterModel.v: both iterators over any read function; binary, spaced text and deduced text formats; induction on the values (DevIterProofs.v) with C29, C18, C19 and C107; note: copies of an iterator share the device and are not modelled; the contents after a failed read are not described"
  },
  {
   "property": "C135",
   "status": "proved",
   "theorems": [
    "C135_crosses",
    "C135_scalar",
    "C135_common",
    "C135_symmetric",
    "C135_begin",
    "C135_end_refuted",
    "C135_order_refuted"
   ],
   "note": "FLineModel.v: intersect (scalar, general position, full) and crosses with rounded operations; NaN and infinity included; areas are exact on the grid, refinement to CrossModel.v (FLineProofs.v) and C81; negation commutes with rounding for the order of lines; note: contraction into fused operations is not modelled"
  },
  {
   "property": "C136",
   "status": "proved",
   "theorems": [
    "C136_extreme",
    "C136_tangents",
    "C136_antipodal",
    "C136_chord",
    "C136_total",
    "C136_thin_refuted",
    "C136_range_refuted"
   ],
   "note": "FExtModel.v: the searches with rounded operations; the number of steps of the chord search is a parameter so that endless loops can be stated; signs and areas are exact on the grid, refinement to ExtremeModel.v and ChordModel.v (FExtProofs.v), then C93-C96; the interval of the extreme search halves whatever the comparisons say; note: contraction into fused operations is not modelled"
  },
  {
   "property": "C137",
   "status": "proved",
   "theorems": [
    "C137_extreme",
    "C137_tangents",
    "C137_chord",
    "C137_hull",
    "C137_nearest",
    "C137_strip"
   ],
   "note": "CostModel.v: the functions of GeoModel.v, PolyModel.v, ExtremeModel.v and ChordModel.v with a count of evaluations; the same results without the count; halving of the interval; amortisation over the stack of the hull; packing of points in squares of half the distance (CostProofs.v); note: sorts and std::lower_bound have the complexity the standard library guarantees and are not counted; what is counted is named at every definition"
  },
  {
   "property": "C138",
   "status": "proved",
   "theorems": [
    "C138_sqrt",
    "C138_nearest",
    "C138_near",
    "C138_exact",
    "C138_max_distance",
    "C138_max_distance_largest",
    "C138_small_refuted",
    "C138_large_refuted",
    "C138_rounded_refuted",
    "C138_max_refuted"
   ],
   "note": "FNearModel.v: FGeoModel.v's arithmetic with correctly rounded square roots; nearest/multi_point.hpp and max_distance.hpp over it; a rounded leg is never longer than the rounded hypotenuse (root_square: the rounded root of the rounded square of a number is not below the number), so pruning is safe; rounding is monotone; relative errors of the six roundings; C136 for antipodal vertices (FNearProofs.v); note: C138_small_refuted, C138_large_refuted: with underflow or overflow of squares the first pair is returned, four times as far as the closest; C138_rounded_refuted: integers of type double whose squared distances need 55 bits"
  },
  {
   "property": "C139",
   "status": "proved",
   "theorems": [
    "C139_range",
    "C139_null",
    "C139_stale",
    "C139_emplace",
    "C139_emplace_place",
    "C139_erase",
    "C139_find",
    "C139_find_sorted",
    "C139_erase_value",
    "C139_progress",
    "C139_stable",
    "C139_list_erase_refuted",
    "C139_write_refuted",
    "C139_write",
    "C139_hash_refuted",
    "C139_hash",
    "C139_order",
    "C139_hash_of_ids",
    "C139_null_key_refuted"
   ],
   "note": "NodeModel.v: containers as sequences of nodes with addresses (std::list, std::set, std::multiset, hash_set, hash_multiset by what the standard says: fresh addresses, any order of iteration after an insertion into a hashed container); id functions and the generic emplace, erase, find over them; invariant: addresses are distinct, sorted containers are sorted, containers without duplicates have none alike; induction over histories; hashes of ids by C08; note: C139_list_erase_refuted, C139_write_refuted, C139_null_key_refuted, C139_hash_refuted are findings"
  },
  {
   "property": "C140",
   "status": "proved",
   "theorems": [
    "C140_bfs",
    "C140_dfs",
    "C140_dfs_all",
    "C140_recursion",
    "C140_deep_recursion",
    "C140_bfs_terminator",
    "C140_dfs_terminator",
    "C140_sources_refuted"
   ],
   "note": "GraphModel.v with the fuel of the loops as the number of steps; BoundedModel.v: the same loops with a queue or stack of bounded capacity, where an insertion into a full one fails; the big-step description of the searches gives the exact number of steps: induction over it with the number of finished vertices and examined edges; the queue is a list of distinct discovered vertices; the depth of calls by a walk for every discovered vertex; note: C140_sources_refuted is a finding"
  },
  {
   "property": "C141",
   "status": "proved",
   "theorems": [
    "C141_new",
    "C141_fill",
    "C141_copy",
    "C141_iteration",
    "C141_write",
    "C141_view",
    "C141_views_apart",
    "C141_swap",
    "C141_swap_views",
    "C141_swap_views_refuted",
    "C141_move",
    "C141_moved_from_refuted",
    "C141_dims_refuted"
   ],
   "note": "TenMemModel.v: a memory of blocks with uninitialised elements; a tensor is its dimensions and a pointer that may be null; construction, operator(), operator[], iteration, swap with a pointer and with the elements in the object, move; the positions of the elements by the row-major bijection of C35; reading and writing runs of a block described by firstn and skipn; frame conditions by disjoint positions; note: C141_swap_views_refuted, C141_moved_from_refuted and C141_dims_refuted are findings; that operator[] with dimensions known only at run time is accepted by a compiler is not claimed (span<Int> is made from a const pointer)"
  },
  {
   "property": "C142",
   "status": "proved",
   "theorems": [
    "C142_count_mismatch",
    "C142_bounds",
    "C142_unique",
    "C142_merge",
    "C142_extremes",
    "C142_max_tie_refuted",
    "C142_lexicographical",
    "C142_next_permutation",
    "C142_all_permutations"
   ],
   "note": "AlgModel.v: the functions of range/algorithm.hpp with the loops of the standard algorithms they call; the binary searches with one loop over a downward closed predicate; extreme elements by extending the range one element at a time; next_permutation by the decomposition of the list into a prefix, an element and a descending suffix, and the loop over it by a number for a list that grows with the order; note: the standard algorithms are part of the trusted base as far as their loops are those modelled; sort, partition, shuffle, for_each, fill, generate and reverse are not modelled; merge is declared to return bool while std::merge returns the output iterator, so it compiles only for iterators that convert to bool, and with pointers returns true; C142_max_tie_refuted is a finding"
  },
  {
   "property": "C143",
   "status": "proved",
   "theorems": [
    "C143_get",
    "C143_put",
    "C143_put_laws",
    "C143_members",
    "C143_independent",
    "C143_associative",
    "C143_value_refuted",
    "C143_value_inside",
    "C143_iteration",
    "C143_transform",
    "C143_two_vectors",
    "C143_same_vector_refuted",
    "C143_nesting_refuted",
    "C143_invert",
    "C143_put_shifted"
   ],
   "note": "ObjMapModel.v: a store of objects whose members are objects and whose life may have ended; references as a number of the object and a path; get, put, invert and iteration of the maps and their composites, with the temporary objects of a composite; laws of reading and writing at paths (ObjMapProofs.v); the part named by a map and a key as an inductive relation; induction on the nesting and on the elements; note: const maps of members are not distinguished from others, so the programs a compiler rejects (a map of a member after a map that returns a value, unless the former is const) are also described; shifts without conversions (C59); function maps return values; C143_value_refuted, C143_nesting_refuted and C143_same_vector_refuted are findings"
  },
  {
   "property": "C144",
   "status": "proved",
   "theorems": [
    "C144_distance",
    "C144_zero",
    "C144_reversed",
    "C144_moved",
    "C144_degenerate_refuted",
    "C144_far_refuted"
   ],
   "note": "FDistModel.v: dot, norm, area and the three cases of distance with the rounded operations of FGeoModel.v and the rounded square root of FNearModel.v; on the grid dots and areas are exact (FDistProofs.v), so the case is the exact one; relative errors of the root and the quotient; the nearest point by completing the square and Lagrange's identity; note: the errors are stated for the squares, as the distances are not rational; no negative zero; one format for all numbers; C144_degenerate_refuted and C144_far_refuted are findings"
  },
  {
   "property": "C145",
   "status": "proved",
   "theorems": [
    "C145_queue",
    "C145_queue_kept",
    "C145_queue_fifo",
    "C145_queue_order_refuted",
    "C145_vector",
    "C145_vector_refuted",
    "C145_accounting",
    "C145_accounting_refuted",
    "C145_graph_complete",
    "C145_graph_directed",
    "C145_graph",
    "C145_graph_half_edge_refuted"
   ],
   "note": "ExcModel.v: the operations of ContainerModel.v, MapModel.v and AdjModel.v with a list that says which of the coming steps throw; the state is returned also if a step threw; the elements in the order of service (ExcProofs.v) are kept up to rotation by pouring, by induction over histories; the numbering of keys with the inverse one short, by induction over later keys; the graph after each step (ExcGraphProofs.v); note: operations of the standard containers have no effect if they throw; moves of vertices while the vertex container grows do not throw; wrapping of values as in C58; C145_queue_order_refuted, C145_vector_refuted, C145_accounting_refuted and C145_graph_half_edge_refuted are findings"
  },
  {
   "property": "C146",
   "status": "proved",
   "theorems": [
    "C146_writer",
    "C146_writer_full",
    "C146_writer_part",
    "C146_writer_unreported_refuted",
    "C146_writer_gap_refuted",
    "C146_reader",
    "C146_reader_whole",
    "C146_reader_hole_refuted"
   ],
   "note": "ShortModel.v: the buffer of DeviceModel.v over any function for the device, and over a source that is a list of pieces; the memory read into is explicit; a simulation with the writer of C24 that collects the blocks (ShortProofs.v); for the reader an invariant about the characters to come; a simulation with the reader of C69 for a source in one piece; note: the boundary case of C24 is excluded; pieces are not empty; C146_writer_unreported_refuted, C146_writer_gap_refuted and C146_reader_hole_refuted are findings"
  },
  {
   "property": "C147",
   "status": "proved",
   "theorems": [
    "C147_try_emplace",
    "C147_once_per_new_key",
    "C147_same_as_alternative",
    "C147_emplace_calls_always",
    "C147_emplace_same_map_refuted",
    "C147_conversions",
    "C147_optional",
    "C147_optional_deduced_refuted",
    "C147_out_is_the_variable",
    "C147_out_kinds",
    "C147_out_accepted"
   ],
   "note": "LazyModel.v: a function object as a state machine that may throw, wrappers by reference or by value, maps by what find shows, events (calls, moves, searches); output wrappers as references to the cells of a memory; induction over the keys and over the statements (LazyProofs.v); the program over plain variables is a specification on functions from cells to values; note: how std::map, std::optional and overload resolution treat the wrapper is taken from the C++ standard; C147_emplace_same_map_refuted and C147_optional_deduced_refuted are findings"
  },
  {
   "property": "C148",
   "status": "proved",
   "theorems": [
    "C148_same_as_memory",
    "C148_round_trip",
    "C148_unfilled_refuted",
    "C148_first_string_refuted",
    "C148_at_end",
    "C148_pipe"
   ],
   "note": "BufReadModel.v: skip, till, the parser executor and the reading of arguments over the buffered reader of ShortModel.v; the memory side is ReadModel.v; the executor over the buffers is the executor over some division of the stream into chunks (strong induction), which does not matter (IntTextProofs.v, FloatTextProofs.v); strings by strong induction over the stream; then induction over the argument types (BufReadProofs.v); note: floating point arguments; blocks larger than the buffer (see C146)"
  },
  {
   "property": "C149",
   "status": "proved",
   "theorems": [
    "C149_calls",
    "C149_on_device",
    "C149_stopped",
    "C149_any_device",
    "C149_repeat_refuted",
    "C149_only_flushes",
    "C149_plain_any_device",
    "C149_without_refuted"
   ],
   "note": "UnitFlushModel.v: argument trees whose leaves are the calls made by write_final (bytes, spans, repetitions, flush), the batch with flush_t around each, short circuit on failure, any device; the buffered writer of ShortModel.v and DeviceModel.v; the calls are a list of units closed by flushes (induction over the trees); no unit can meet the boundary defect (BufferProofs.v) because it starts with an empty buffer; runs over any device by induction over the list (UnitFlushProofs.v); note: formats in front of it in a composition: their results are the leaves"
  },
  {
   "property": "C150",
   "status": "proved",
   "theorems": [
    "C150_formula",
    "C150_complete",
    "C150_strict",
    "C150_laws",
    "C150_if_else",
    "C150_guard_refuted",
    "C150_fold"
   ],
   "note": "LogicModel.v: the logical operations with their registered overloads, identity elements and any operations of the user in the evaluator of ExprModel.v; the conditions of the general theorem on evaluation (C99) hold for these operations, then induction over formulas; truth tables are expanded one argument after another; the laws follow from strictness and uniqueness of values; note: the order in which the operands are evaluated: not specified by the language for the arguments of a call"
  }
 ]
}