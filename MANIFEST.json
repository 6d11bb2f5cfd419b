{
 "claims": [
  {
   "property": "C01",
   "status": "proved",
   "theorems": [
    "C01_integer_in_range"
   ],
   "note": ""
  },
  {
   "property": "C02",
   "status": "proved",
   "theorems": [
    "C02_integer_uniform",
    "C02_integer_redraw",
    "C02_integer_accepts_majority",
    "C02_any"
   ],
   "note": ""
  },
  {
   "property": "C03",
   "status": "proved",
   "theorems": [
    "C03_portable_equal"
   ],
   "note": ""
  },
  {
   "property": "C04",
   "status": "proved",
   "theorems": [
    "C04_select_empty",
    "C04_rotate_uniform",
    "C04_rotate_empty",
    "C04_select_pair",
    "C04_shuffle_pair",
    "C04_shuffle_permutes",
    "C04_shuffle_uniform",
    "C04_select_uniform",
    "C04_rotate"
   ],
   "note": "Also select and rotate."
  },
  {
   "property": "C05",
   "status": "proved",
   "theorems": [
    "C05_distinct",
    "C05_distinct_uniform",
    "C05_distinct_throws",
    "C05_distinct_overflow_refuted"
   ],
   "note": "If lower+count overflows the range check itself is undefined behaviour (C05_distinct_overflow_refuted)."
  },
  {
   "property": "C06",
   "status": "proved",
   "theorems": [
    "C06_perm",
    "C06_perm_uniform"
   ],
   "note": ""
  },
  {
   "property": "C07",
   "status": "proved",
   "theorems": [
    "C07_perm_cycles",
    "C07_perm_cycles_negative_refuted",
    "C07_perm_cycles_equiprobable"
   ],
   "note": "A non-positive length is meant to throw but can be undefined behaviour first (C07_perm_cycles_negative_refuted)."
  },
  {
   "property": "C08",
   "status": "proved",
   "theorems": [
    "C08_perm_fix",
    "C08_perm_fix_throws",
    "C08_perm_fix_below",
    "C08_perm_fix_repeated_refuted",
    "C08_perm_fix_uniform"
   ],
   "note": "False for lists with a repeated entry (C08_perm_fix_repeated_refuted)."
  },
  {
   "property": "C09",
   "status": "proved",
   "theorems": [
    "C09_increasing",
    "C09_decreasing",
    "C09_increasing_uniform",
    "C09_decreasing_uniform",
    "C09_nonDecreasing",
    "C09_nonIncreasing",
    "C09_multiple_uniform",
    "C09_nonDecreasing_distribution",
    "C09_nonIncreasing_distribution",
    "C09_weakly_sorted_uniform_refuted"
   ],
   "note": "Finding: doc/validate.md 466-467 says that each possible output of these functions has the same probability; for nonDecreasing and nonIncreasing this is false (C09_weakly_sorted_uniform_refuted), the exact law is proved instead."
  },
  {
   "property": "C10",
   "status": "proved",
   "theorems": [
    "C10_partition",
    "C10_partition_uniform",
    "C10_partition_throws",
    "C10_partition_overflow_refuted"
   ],
   "note": "For very small negative min the arithmetic overflows (C10_partition_overflow_refuted)."
  },
  {
   "property": "C11",
   "status": "proved",
   "theorems": [
    "C11_bracketSequence",
    "C11_bracketSequence_uniform",
    "C11_bracketSequence_throws"
   ],
   "note": ""
  },
  {
   "property": "C12",
   "status": "proved",
   "theorems": [
    "C12_applyMod",
    "C12_mulMod",
    "C12_mulMod_portable",
    "C12_mulMod_throws"
   ],
   "note": "Both platform branches; throws exactly for mod <= 0."
  },
  {
   "property": "C13",
   "status": "proved",
   "theorems": [
    "C13_powMod",
    "C13_powMod_range_refuted"
   ],
   "note": "Both platform branches. The exception exp = 0, mod = 1 is exhibited by C13_powMod_range_refuted."
  },
  {
   "property": "C14",
   "status": "proved",
   "theorems": [
    "C14_multInv",
    "C14_multInv_negative_refuted"
   ],
   "note": "For negative n the claim is false, see C14_multInv_negative_refuted."
  },
  {
   "property": "C15",
   "status": "proved",
   "theorems": [
    "C15_isPrime_total",
    "C15_isPrime_accepts_primes",
    "C15_isPrime_small_factors",
    "C15_isPrime_exact_small",
    "C15_isPrime_sound_partial",
    "C15_isPrime_portable",
    "C15_isPrime_iff",
    "C15_isPrime_right_iff",
    "C15_isPrime_exact"
   ],
   "note": "C15_isPrime_iff says exactly what is accepted; C15_isPrime_right_iff reduces exactness for all Integers to the published result on the base set, which rests on an exhaustive computation by others and is not claimed."
  },
  {
   "property": "C16",
   "status": "proved",
   "theorems": [
    "C16_primes",
    "C16_primes_upto",
    "C16_primes_overflow_refuted",
    "C16_primes_wide_refuted",
    "C16_primes_listed",
    "C16_primes_exact"
   ],
   "note": "Undefined behaviour for wide ranges and near 2^63: C16_primes_wide_refuted, C16_primes_overflow_refuted. That no composite below 2^63 passes the tests of isPrime rests on an exhaustive computation by others and is not claimed."
  },
  {
   "property": "C17",
   "status": "proved",
   "theorems": [
    "C17_prime_law",
    "C17_prime_rarely_throws",
    "C17_prime_range",
    "C17_prime_complete",
    "C17_prime_upper_two_refuted",
    "C17_prime_overflow_refuted",
    "C17_prime_equiprobable"
   ],
   "note": "The two exceptions are exhibited by refuted theorems."
  },
  {
   "property": "C18",
   "status": "proved",
   "theorems": [
    "C18_isPerm",
    "C18_isPerm_overflow_refuted"
   ],
   "note": "Hypothesis: x - offset does not overflow; otherwise C18_isPerm_overflow_refuted."
  },
  {
   "property": "C19",
   "status": "proved",
   "theorems": [
    "C19_isPerm2",
    "C19_isPerm2_reason_refuted"
   ],
   "note": "The stronger wish that the multiplicities of the reason differ is false: C19_isPerm2_reason_refuted."
  },
  {
   "property": "C20",
   "status": "proved",
   "theorems": [
    "C20_anyAdjacent",
    "C20_noneAdjacent",
    "C20_allAdjacent",
    "C20_ordered",
    "C20_allAdjacent_container_refuted"
   ],
   "note": "Iterator overloads (and all container overloads forwarding to them); the exception is C20_allAdjacent_container_refuted."
  },
  {
   "property": "C21",
   "status": "proved",
   "theorems": [
    "C21_areDistinct"
   ],
   "note": ""
  },
  {
   "property": "C22",
   "status": "proved",
   "theorems": [
    "C22_range",
    "C22_range_zero",
    "C22_range_min_step_refuted"
   ],
   "note": "step = -2^63: C22_range_min_step_refuted."
  },
  {
   "property": "C23",
   "status": "proved",
   "theorems": [
    "C23_discrete",
    "C23_discrete_range"
   ],
   "note": ""
  },
  {
   "property": "C24",
   "status": "proved",
   "theorems": [
    "C24_stringEqual"
   ],
   "note": ""
  },
  {
   "property": "C25",
   "status": "proved",
   "theorems": [
    "C25_isInteger",
    "C25_isInteger_rejects",
    "C25_decimal_total",
    "C25_decimal_unique",
    "C25_decimal_value_unique"
   ],
   "note": ""
  },
  {
   "property": "C26",
   "status": "proved",
   "theorems": [
    "C26_realStrict",
    "C26_realStrict_else",
    "C26_realStrict_refuted"
   ],
   "note": "parseReal (from_chars for long double) is a parameter. The exception is C26_realStrict_refuted."
  },
  {
   "property": "C27",
   "status": "proved",
   "theorems": [
    "C27_integers_strict",
    "C27_integers_else",
    "C27_strings_strict",
    "C27_strings_else"
   ],
   "note": "Integers and strings; separators space and newline."
  },
  {
   "property": "C28",
   "status": "proved",
   "theorems": [
    "C28_integer",
    "C28_integer_else",
    "C28_string",
    "C28_string_else"
   ],
   "note": ""
  },
  {
   "property": "C29",
   "status": "proved",
   "theorems": [
    "C29_expectReal",
    "C29_readReal",
    "C29_expectReal_refuted"
   ],
   "note": "The documented meaning is refuted by C29_expectReal_refuted."
  },
  {
   "property": "C30",
   "status": "proved",
   "theorems": [
    "C30_parser",
    "C30_command",
    "C30_command_group",
    "C30_command_absent",
    "C30_command_throws",
    "C30_raw",
    "C30_raw_after",
    "C30_raw_absent",
    "C30_raw_all",
    "C30_index",
    "C30_integer",
    "C30_integer_throws",
    "C30_integer_default",
    "C30_integers",
    "C30_string_default"
   ],
   "note": ""
  },
  {
   "property": "C31",
   "status": "proved",
   "theorems": [
    "C31_write",
    "C31_succeeds",
    "C31_type_throws"
   ],
   "note": ""
  },
  {
   "property": "C32",
   "status": "proved",
   "theorems": [
    "C32_unionFind"
   ],
   "note": "All call sequences; answers specified by connectivity of the united pairs."
  },
  {
   "property": "C33",
   "status": "proved",
   "theorems": [
    "C33_graph"
   ],
   "note": "All programs of addEdge and areConnected calls; up to 2^62 nodes."
  },
  {
   "property": "C34",
   "status": "proved",
   "theorems": [
    "C34_bipartite"
   ],
   "note": ""
  },
  {
   "property": "C35",
   "status": "proved",
   "theorems": [
    "C35_graph_edges",
    "C35_diGraph_edges"
   ],
   "note": "Graph and DiGraph."
  },
  {
   "property": "C36",
   "status": "proved",
   "theorems": [
    "C36_diGraph_isTree",
    "C36_isTree_refuted"
   ],
   "note": "Presence of a result is not equivalent to being a tree: C36_isTree_refuted."
  },
  {
   "property": "C37",
   "status": "proved",
   "theorems": [
    "C37_isDAG_order",
    "C37_isDAG",
    "C37_isDAG_refuted"
   ],
   "note": "The intended meaning (topological order iff acyclic) is false: C37_isDAG_refuted."
  },
  {
   "property": "C38",
   "status": "proved",
   "theorems": [
    "C38_program",
    "C38_new",
    "C38_new_throws",
    "C38_addEdge",
    "C38_eraseEdge",
    "C38_observe",
    "C38_throws",
    "C38_degrees"
   ],
   "note": "The store is modelled with its sets of edge pointers (as indices) keyed by from ^ to and with swap-with-last erasure. A fresh graph under any list of calls answers like a map from pairs to data; loops and nodes outside throw."
  },
  {
   "property": "C39",
   "status": "proved",
   "theorems": [
    "C39_independent",
    "C39_clique",
    "C39_bipartite",
    "C39_star",
    "C39_path",
    "C39_cycle",
    "C39_cycle_throws",
    "C39_lolly",
    "C39_broom",
    "C39_grid",
    "C39_hypercube",
    "C39_booleanLattice",
    "C39_rado",
    "C39_completeTree",
    "C39_wheel_refuted",
    "C39_completeTree_refuted",
    "C39_rado_refuted",
    "C39_booleanLattice_refuted",
    "C39_booleanLattice_range",
    "C39_rado_range"
   ],
   "note": "Contradictions to the header's comments are C39_wheel_refuted, C39_completeTree_refuted, C39_rado_refuted and C39_booleanLattice_refuted."
  },
  {
   "property": "C40",
   "status": "proved",
   "theorems": [
    "C40_pruefer",
    "C40_pruefer_code",
    "C40_pruefer_bijective",
    "C40_randomTree",
    "C40_randomTree_uniform",
    "C40_randomTreeDir",
    "C40_randomTreeDir_uniform"
   ],
   "note": ""
  },
  {
   "property": "C41",
   "status": "proved",
   "theorems": [
    "C41_pairs",
    "C41_randomGraph",
    "C41_randomGraph_throws",
    "C41_randomGraph_uniform",
    "C41_crossPairs",
    "C41_randomBipartite",
    "C41_randomBipartite_throws",
    "C41_randomBipartite_uniform"
   ],
   "note": "Assumes that the number of pairs (and n + m) fits in int64."
  },
  {
   "property": "C42",
   "status": "proved",
   "theorems": [
    "C42_jump",
    "C42_seed"
   ],
   "note": ""
  },
  {
   "property": "C43",
   "status": "proved",
   "theorems": [
    "C43_valid",
    "C43_injective",
    "C43_surjective",
    "C43_nonzero",
    "C43_seed_nonzero",
    "C43_seed_injective",
    "C43_array_zero_refuted"
   ],
   "note": "The constructor from an array does accept the all-zero state: C43_array_zero_refuted."
  },
  {
   "property": "C44",
   "status": "proved",
   "theorems": [
    "C44_sbox",
    "C44_aes256",
    "C44_injective",
    "C44_surjective",
    "C44_counter",
    "C44_result",
    "C44_no_repeat",
    "C44_no_repeat_encrypted",
    "C44_period",
    "C44_equidistributed",
    "C44_key"
   ],
   "note": ""
  },
  {
   "property": "C45",
   "status": "proved",
   "theorems": [
    "C45_decodes",
    "C45_image_decodes",
    "C45_all_sizes_refuted",
    "C45_nothing"
   ],
   "note": "The original claim for all sizes admitted by clear is false: C45_all_sizes_refuted."
  },
  {
   "property": "C46",
   "status": "proved",
   "theorems": [
    "C46_floodFill_outside",
    "C46_floodFill"
   ],
   "note": ""
  },
  {
   "property": "C47",
   "status": "proved",
   "theorems": [
    "C47_defined",
    "C47_rejects",
    "C47_complete",
    "C47_rotations",
    "C47_quadrilaterals",
    "C47_sound_refuted",
    "C47_strict_sound_refuted",
    "C47_strict_distinct_refuted",
    "C47_strict"
   ],
   "note": "That true implies convexity is false: C47_sound_refuted, C47_strict_sound_refuted, C47_strict_distinct_refuted."
  },
  {
   "property": "C48",
   "status": "proved",
   "theorems": [
    "C48_handover",
    "C48_frame"
   ],
   "note": ""
  },
  {
   "property": "C49",
   "status": "proved",
   "theorems": [
    "C49_bit_unbiased"
   ],
   "note": ""
  },
  {
   "property": "C50",
   "status": "proved",
   "theorems": [
    "C50_string",
    "C50_string_uniform"
   ],
   "note": ""
  },
  {
   "property": "C51",
   "status": "proved",
   "theorems": [
    "C51_thueMorse",
    "C51_thueMorse_throws"
   ],
   "note": ""
  },
  {
   "property": "C52",
   "status": "proved",
   "theorems": [
    "C52_floatEqual_refl",
    "C52_floatEqual_throws",
    "C52_floatEqual_total",
    "C52_floatEqual_classes",
    "C52_floatEqual_mono"
   ],
   "note": ""
  },
  {
   "property": "C53",
   "status": "proved",
   "theorems": [
    "C53_integers_words",
    "C53_integers_else",
    "C53_strings_words",
    "C53_strings_else"
   ],
   "note": ""
  },
  {
   "property": "C54",
   "status": "proved",
   "theorems": [
    "C54_expectString",
    "C54_expectString_raises",
    "C54_expectInt",
    "C54_expectInt_else"
   ],
   "note": ""
  },
  {
   "property": "C55",
   "status": "proved",
   "theorems": [
    "C55_copy",
    "C55_setMinId",
    "C55_normalize",
    "C55_reverse",
    "C55_undirected",
    "C55_directed",
    "C55_complement",
    "C55_range",
    "C55_range_throws",
    "C55_range_shifted_refuted"
   ],
   "note": "range is wrong for graphs whose nodes do not start at 0: C55_range_shifted_refuted."
  },
  {
   "property": "C56",
   "status": "proved",
   "theorems": [
    "C56_combine",
    "C56_append"
   ],
   "note": ""
  },
  {
   "property": "C57",
   "status": "proved",
   "theorems": [
    "C57_product",
    "C57_cartesian",
    "C57_strongProduct",
    "C57_lineGraph"
   ],
   "note": "product and strongProduct exist for undirected graphs only, as in the header. lineGraph gives data of type Z the value 0."
  },
  {
   "property": "C58",
   "status": "proved",
   "theorems": [
    "C58_closure",
    "C58_power",
    "C58_power_undirected_refuted"
   ],
   "note": "The statement is for directed graphs; the undirected variant emplaces every edge twice: C58_power_undirected_refuted. C58_closure is about the graph transitiveClosure would return; its return type is a reference, so programs that call it do not compile."
  },
  {
   "property": "C59",
   "status": "proved",
   "theorems": [
    "C59_permutateEdges_uniform",
    "C59_permutateWith_uniform",
    "C59_permutate_law",
    "C59_permutate_reaches",
    "C59_permutateEdges",
    "C59_permutateWith",
    "C59_permutate",
    "C59_subgraph",
    "C59_subgraph_throws",
    "C59_permutate_length_refuted",
    "C59_subgraph_uniform",
    "C59_permutate_uniform"
   ],
   "note": "The laws of whole edge lists assume decidable equality of edge data. permutate only checks that its argument is a permutation of some length: C59_permutate_length_refuted."
  },
  {
   "property": "C60",
   "status": "proved",
   "theorems": [
    "C60_four",
    "C60_words",
    "C60_same"
   ],
   "note": ""
  },
  {
   "property": "C61",
   "status": "proved",
   "theorems": [
    "C61_period",
    "C61_visits",
    "C61_outputs",
    "C61_zeros",
    "C61_streams"
   ],
   "note": ""
  },
  {
   "property": "C62",
   "status": "proved",
   "theorems": [
    "C62_distinct",
    "C62_overlap",
    "C62_independent_refuted"
   ],
   "note": "Independence of the streams of different seeds is refuted (C62_independent_refuted)."
  },
  {
   "property": "C63",
   "status": "proved",
   "theorems": [
    "C63_returns_refuted",
    "C63_draws_refuted",
    "C63_inside_refuted",
    "C63_row1"
   ],
   "note": ""
  },
  {
   "property": "C64",
   "status": "proved",
   "theorems": [
    "C64_drawLine_ends",
    "C64_drawLine"
   ],
   "note": ""
  },
  {
   "property": "C65",
   "status": "proved",
   "theorems": [
    "C65_alpha",
    "C65_over",
    "C65_opaque",
    "C65_ends",
    "C65_modes",
    "C65_saturating",
    "C65_blend",
    "C65_rgb"
   ],
   "note": ""
  },
  {
   "property": "C66",
   "status": "proved",
   "theorems": [
    "C66_cross3",
    "C66_area",
    "C66_rotate",
    "C66_reverse",
    "C66_convex",
    "C66_defined",
    "C66_overflow_refuted",
    "C66_products"
   ],
   "note": "The comment 'can't overflow' is refuted by C66_overflow_refuted."
  },
  {
   "property": "C67",
   "status": "proved",
   "theorems": [
    "C67_nonCollinearPoints",
    "C67_throws",
    "C67_distinct_refuted",
    "C67_collinear_refuted",
    "C67_throws_refuted"
   ],
   "note": "Primality of the modulus is a premise where it is used, since the converse of C15 is open for large values; general position without the condition on p is refuted by C67_distinct_refuted and C67_collinear_refuted."
  },
  {
   "property": "C68",
   "status": "proved",
   "theorems": [
    "C68_convex",
    "C68_oracles",
    "C68_accepted",
    "C68_throws",
    "C68_order",
    "C68_flat_refuted",
    "C68_strict_refuted"
   ],
   "note": "Random::binomial is an oracle with the result range its comment promises. Degenerate results: C68_flat_refuted."
  },
  {
   "property": "C69",
   "status": "proved",
   "theorems": [
    "C69_randomGraph",
    "C69_throws",
    "C69_noEdges_refuted",
    "C69_negative_refuted",
    "C69_reach_refuted",
    "C69_queue"
   ],
   "note": "Exceptions: C69_noEdges_refuted, C69_negative_refuted, C69_reach_refuted."
  },
  {
   "property": "C70",
   "status": "proved",
   "theorems": [
    "C70_ffWorstcase",
    "C70_order",
    "C70_value_refuted",
    "C70_mcmfWorstcase",
    "C70_throws"
   ],
   "note": "The value in the comment of ffWorstcase is refuted by C70_value_refuted. That Ford-Fulkerson with dfs needs exponentially many steps is a statement about other code and not modelled."
  },
  {
   "property": "C71",
   "status": "proved",
   "theorems": [
    "C71_defined",
    "C71_search",
    "C71_rejects",
    "C71_complete",
    "C71_sound",
    "C71_spike_refuted",
    "C71_meet"
   ],
   "note": "The exception for spikes is exhibited by C71_spike_refuted. The std::set is a sequence with an arbitrary place for each search that is consistent with the two comparisons next to it."
  },
  {
   "property": "C72",
   "status": "proved",
   "theorems": [
    "C72_integer_notation",
    "C72_join",
    "C72_join_nosep",
    "C72_integers_back",
    "C72_strings_back",
    "C72_lines_iff",
    "C72_nested",
    "C72_nested_back",
    "C72_words",
    "C72_loose_back",
    "C72_empty_refuted",
    "C72_bools_back"
   ],
   "note": "The exception for empty inner containers is exhibited by C72_empty_refuted. Printing of Real is the subject of C86."
  },
  {
   "property": "C73",
   "status": "proved",
   "theorems": [
    "C73_accepts",
    "C73_meaning",
    "C73_graph_back",
    "C73_digraph_back",
    "C73_randomTree",
    "C73_randomTreeDir",
    "C73_randomGraph",
    "C73_randomBipartite",
    "C73_weighted_back"
   ],
   "note": "Edge data is modelled for NoData and Integer (any number of integers behind an edge in the reader)."
  },
  {
   "property": "C74",
   "status": "proved",
   "theorems": [
    "C74_parts",
    "C74_report",
    "C74_report_eof",
    "C74_report_none",
    "C74_report_total",
    "C74_expectString",
    "C74_newline_refuted",
    "C74_same_text_refuted"
   ],
   "note": "C74_newline_refuted shows the wrong line number for a newline, C74_same_text_refuted two different words shown as the same text. The position of the stream is an argument of the report."
  },
  {
   "property": "C75",
   "status": "proved",
   "theorems": [
    "C75_in_view",
    "C75_view",
    "C75_after_text_refuted",
    "C75_float_refuted"
   ],
   "note": "in exact arithmetic; _after_text_refuted: shapes behind a text of the same statement are not included; _float_refuted: rounding"
  },
  {
   "property": "C76",
   "status": "proved",
   "theorems": [
    "C76_real",
    "C76_real_positive",
    "C76_real_distribution",
    "C76_real_below_one_refuted",
    "C76_realBelow",
    "C76_realBelow_throws",
    "C76_realIn",
    "C76_realIn_throws"
   ],
   "note": "_below_one_refuted: real() is 1 with probability 2^-54. Loops are bounded by fuel; that the int exponent overflows after 2^25 words 0 in a row is not modelled."
  },
  {
   "property": "C77",
   "status": "proved",
   "theorems": [
    "C77_minimum_throws",
    "C77_maximum_formula",
    "C77_maximum",
    "C77_maximum_throws",
    "C77_maximum_distribution",
    "C77_minimum",
    "C77_minimum_distribution",
    "C77_minimum_wide_refuted",
    "C77_minmax"
   ],
   "note": "_wide_refuted: minimum overflows for wide intervals. The distribution for n >= 5 (through exp2 and log2) is not claimed, only the range."
  },
  {
   "property": "C78",
   "status": "proved",
   "theorems": [
    "C78_geometric_formula",
    "C78_geometricIn_formula",
    "C78_binomial_gaps",
    "C78_binomial_btrs",
    "C78_normal_formula",
    "C78_normalIn_formula",
    "C78_exponential_formula",
    "C78_exponentialIn_formula",
    "C78_exponential",
    "C78_exponentialIn",
    "C78_normalIn",
    "C78_normal_stddev_refuted",
    "C78_geometric",
    "C78_geometric_throws",
    "C78_geometricIn",
    "C78_geometric_zero_refuted",
    "C78_binomial",
    "C78_binomial_throws",
    "C78_binomial_zero",
    "C78_binomial_one",
    "C78_binomialIn",
    "C78_binomial_tiny_refuted",
    "C78_conversion"
   ],
   "note": "_stddev_refuted, _geometric_zero_refuted, _binomial_tiny_refuted show the exceptions. The distributions themselves are not claimed."
  },
  {
   "property": "C79",
   "status": "proved",
   "theorems": [
    "C79_randomGraph_law",
    "C79_randomGraph_exchangeable",
    "C79_randomGrowingGraph_law",
    "C79_randomGrowingGraph_degree",
    "C79_randomGrowingGraph_exchangeable",
    "C79_randomGraph_p",
    "C79_randomGraph_p_throws",
    "C79_randomGraph_arcs_refuted",
    "C79_randomGrowingGraph",
    "C79_randomGrowingGraph_throws"
   ],
   "note": "_arcs_refuted: digraphs get half of the arcs for p = 1. The laws are given relative to those of binomial and of the drawn degrees; that binomial has the binomial distribution is not claimed."
  },
  {
   "property": "C80",
   "status": "proved",
   "theorems": [
    "C80_absolute_accepts",
    "C80_relative_accepts",
    "C80_sound",
    "C80_without_tolerance",
    "C80_infinite_tolerance",
    "C80_absolute_refuted",
    "C80_relative_refuted",
    "C80_overflow_refuted",
    "C80_less",
    "C80_greater",
    "C80_less_greater",
    "C80_less_other"
   ],
   "note": "_absolute_refuted, _relative_refuted: without the factors the claim is false; _overflow_refuted: overflow of the difference."
  },
  {
   "property": "C81",
   "status": "proved",
   "theorems": [
    "C81_init",
    "C81_tolerance_unique",
    "C81_settings_before",
    "C81_settings_after",
    "C81_input_validator",
    "C81_answer_validator",
    "C81_output_validator",
    "C81_interactor",
    "C81_default",
    "C81_tolerance_refuted",
    "C81_generator",
    "C81_float_equal"
   ],
   "note": "_tolerance_refuted: flags for tolerances do not reach the stream of the submission in OutputValidator."
  },
  {
   "property": "C82",
   "status": "proved",
   "theorems": [
    "C82_output2_wrong",
    "C82_output2_second",
    "C82_input",
    "C82_graph",
    "C82_trees_bipartite",
    "C82_trees_edges",
    "C82_constraints",
    "C82_answer",
    "C82_output",
    "C82_output_overflow_refuted",
    "C82_output2_yes",
    "C82_output2_no",
    "C82_interactor",
    "C82_interactor_odd_refuted",
    "C82_multipass",
    "C82_input_throws",
    "C82_answer_throws",
    "C82_output_throws"
   ],
   "note": "_constraints, _output2_yes: programs that accept no correct input; _output_overflow_refuted, _interactor_odd_refuted: witnesses. The text of messages is not modelled."
  },
  {
   "property": "C83",
   "status": "proved",
   "theorems": [
    "C83_dag_reaches",
    "C83_numbers",
    "C83_numbers_distinct",
    "C83_dag"
   ],
   "note": "main of the two generators; support of generator.graph is exact, its law is not claimed to be uniform."
  },
  {
   "property": "C84",
   "status": "proved",
   "theorems": [
    "C84_value",
    "C84_value_unique",
    "C84_parse",
    "C84_read",
    "C84_read_nearest",
    "C84_monotone",
    "C84_exact",
    "C84_error",
    "C84_strict_accepts",
    "C84_strict_sound",
    "C84_strict_lower_refuted",
    "C84_strict_upper_refuted",
    "C84_compare_absolute",
    "C84_compare_relative",
    "C84_compare_sound"
   ],
   "note": "_strict_lower_refuted, _strict_upper_refuted: decimals next to the bounds. Infinities and NaN, which from_chars accepts on the command line, are not decimals."
  },
  {
   "property": "C85",
   "status": "proved",
   "theorems": [
    "C85_scale",
    "C85_fade",
    "C85_lerp",
    "C85_svg",
    "C85_text",
    "C85_parts",
    "C85_lerp_self_refuted",
    "C85_fade_opaque_refuted",
    "C85_scale_huge_refuted",
    "C85_gray"
   ],
   "note": "_lerp_self_refuted, _fade_opaque_refuted, _scale_huge_refuted: witnesses of the exceptions. assert is taken as active. The fill character that operator<< leaves behind in the stream is not modelled."
  },
  {
   "property": "C86",
   "status": "proved",
   "theorems": [
    "C86_notation",
    "C86_sign",
    "C86_half_unit",
    "C86_monotone",
    "C86_read",
    "C86_read_exact",
    "C86_equal",
    "C86_bounds",
    "C86_line",
    "C86_special",
    "C86_strict_refuted",
    "C86_injective_refuted"
   ],
   "note": "_strict_refuted, _injective_refuted: witnesses of the exceptions. The notation of std::fixed is modelled as exactly rounded (as glibc does)."
  },
  {
   "property": "C87",
   "status": "proved",
   "theorems": [
    "C87_number",
    "C87_number_error",
    "C87_number_exact",
    "C87_number_order",
    "C87_number_integer",
    "C87_document",
    "C87_unique",
    "C87_view_box",
    "C87_no_file",
    "C87_areas",
    "C87_view",
    "C87_in_view",
    "C87_long_refuted",
    "C87_small_refuted",
    "C87_dashes",
    "C87_comment_refuted",
    "C87_precision_refuted"
   ],
   "note": "_long_refuted, _small_refuted, _comment_refuted, _precision_refuted: witnesses of the exceptions. The default notation of ostreams (%g) is modelled as exactly rounded (as glibc does). The encoding is declared as UTF8, which is not the registered name UTF-8; XML names are restricted to ASCII in the grammar."
  },
  {
   "property": "C88",
   "status": "proved",
   "theorems": [
    "C88_png_colours",
    "C88_width",
    "C88_png_lines",
    "C88_png_returns_refuted",
    "C88_png_flat",
    "C88_png_missing_refuted",
    "C88_nameless",
    "C88_svg_document",
    "C88_svg_view",
    "C88_svg_strtold",
    "C88_svg_missing_refuted",
    "C88_svg_answer_refuted"
   ],
   "note": "_png_returns_refuted: the example never ends for any height of at least 1; _png_missing_refuted, _svg_missing_refuted, _svg_answer_refuted: missing files lead to undefined behaviour. operator>> is modelled as in libstdc++ in the C locale; C88_svg_strtold: the contract of the conversion can be met."
  },
  {
   "property": "C89",
   "status": "proved",
   "theorems": [
    "C89_file",
    "C89_integers",
    "C89_reals",
    "C89_no_file",
    "C89_rounding_refuted",
    "C89_hit_refuted"
   ],
   "note": "_rounding_refuted, _hit_refuted: witnesses of the exceptions. Logged values are Integers and Reals other than NaN."
  },
  {
   "property": "C90",
   "status": "proved",
   "theorems": [
    "C90_alphabets",
    "C90_characters",
    "C90_strings",
    "C90_cases",
    "C90_real",
    "C90_numbers",
    "C90_append",
    "C90_flatten",
    "C90_min_queue",
    "C90_max_queue",
    "C90_queue_sorts",
    "C90_queue_top",
    "C90_lengths",
    "C90_queue_undefined",
    "C90_append_alias"
   ],
   "note": "isLower on strings returns bool, where doc/validate.md has boolean<char>. C90_queue_top: the contract of std::priority_queue can be met for every irreflexive and transitive comparison."
  },
  {
   "property": "C91",
   "status": "proved",
   "theorems": [
    "C91_string",
    "C91_strings",
    "C91_strings_pattern",
    "C91_strings_length",
    "C91_strings_both",
    "C91_integers",
    "C91_integers_in",
    "C91_reals",
    "C91_reals_in",
    "C91_reals_strict",
    "C91_else",
    "C91_log_integer",
    "C91_log_string",
    "C91_log_string_pattern",
    "C91_log_real",
    "C91_log_real_strict",
    "C91_log_integers",
    "C91_log_strings",
    "C91_log_strings_pattern",
    "C91_log_reals",
    "C91_log_reals_strict",
    "C91_log_quiet",
    "C91_log_quiet_real",
    "C91_summary_integers",
    "C91_summary_strings",
    "C91_summary_strings_pattern",
    "C91_summary_reals",
    "C91_summary_reals_strict"
   ],
   "note": "The bounds of real(lower, upper) are met up to the tolerance of the stream, as in the code."
  },
  {
   "property": "C92",
   "status": "proved",
   "theorems": [
    "C92_sequences_fit",
    "C92_reals_fit",
    "C92_points_fit",
    "C92_graphs_fit",
    "C92_examples_fit",
    "C92_distinct",
    "C92_partition",
    "C92_bracketSequence",
    "C92_real",
    "C92_randomTree",
    "C92_randomGraph",
    "C92_numbers",
    "C92_dag",
    "C92_pairs_fit",
    "C92_selectPair",
    "C92_shufflePair",
    "C92_rotate",
    "C92_prime",
    "C92_support",
    "C92_reach",
    "C92_more",
    "C92_portable",
    "C92_law",
    "C92_ends",
    "C92_shuffle",
    "C92_composed",
    "C92_fits"
   ],
   "note": "That the words of the engine are uniform is no claim about the engine (C44 and C61 are about the engines). Whether a draw from [0, 2) is bit() or integer(0, 2) may depend on all values drawn before. randomGraph(degrees) is covered for at most 2^31 nodes."
  },
  {
   "property": "C93",
   "status": "proved",
   "theorems": [
    "C93_rounds",
    "C93_realBelow",
    "C93_realBelow_exact",
    "C93_realIn",
    "C93_exponentialIn",
    "C93_geometricIn",
    "C93_binomialIn",
    "C93_normalIn",
    "C93_rotation"
   ],
   "note": "The loops of the model are bounded; the laws hold for every bound. In binomial(lower, upper, n, p) the bound of the inner loops is that of the rounds left, so the rounds are not identical in the model."
  },
  {
   "property": "C94",
   "status": "proved",
   "theorems": [
    "C94_first_integer",
    "C94_first_string",
    "C94_first_real",
    "C94_first_realStrict",
    "C94_same",
    "C94_integer",
    "C94_anyInteger",
    "C94_expectInteger",
    "C94_string",
    "C94_expectString",
    "C94_real",
    "C94_realStrict",
    "C94_expectReal",
    "C94_separator",
    "C94_eof",
    "C94_whitespace",
    "C94_end",
    "C94_first"
   ],
   "note": "At a newline the line number is one too large (C74); expectReal complains about equal numbers (C29)."
  },
  {
   "property": "C95",
   "status": "proved",
   "theorems": [
    "C95_hull",
    "C95_single",
    "C95_distinct",
    "C95_listed",
    "C95_count",
    "C95_disk",
    "C95_disk_zero",
    "C95_disk_throws"
   ],
   "note": "archive/convex.cpp is a generator outside of src. convexDisk is proved for the executions that return; whether its rejection loops end depends on the library functions, which are arbitrary here."
  },
  {
   "property": "C96",
   "status": "proved",
   "theorems": [
    "C96_points",
    "C96_throws",
    "C96_simple",
    "C96_oracles",
    "C96_ends_refuted",
    "C96_simple_refuted"
   ],
   "note": "archive/polygon.cpp is a generator outside of src. That it ends and that the result is simple for points of which no three are on a line are refuted (C96_ends_refuted, C96_simple_refuted). The comparison n * sqrt(n) <= dim is an argument of the model; findLine is bounded by fuel."
  },
  {
   "property": "C97",
   "status": "proved",
   "theorems": [
    "C97_values",
    "C97_below",
    "C97_uniform",
    "C97_permutation_refuted",
    "C97_distinct_refuted",
    "C97_negative",
    "C97_quadratic"
   ],
   "note": "archive/javaSortHack.cpp is a generator outside of src. That the values are a permutation of mi..mi+n-1 and that they are different for all mi are refuted (C97_permutation_refuted, C97_distinct_refuted). C97_quadratic is about the partition step written in this file; that Arrays.sort of Java does the same steps is not modelled."
  },
  {
   "property": "C98",
   "status": "proved",
   "theorems": [
    "C98_hack",
    "C98_hack_small",
    "C98_hack_throws",
    "C98_hack_negative",
    "C98_polygon",
    "C98_polygon_throws",
    "C98_convex",
    "C98_convex_throws",
    "C98_convex_refuses",
    "C98_hack_uniform",
    "C98_text"
   ],
   "note": "The programs of the archive are outside of src. That convex prints n points is not what it does: C98_convex gives n + 1. Points are printed as pairs of integers."
  }
 ]
}
