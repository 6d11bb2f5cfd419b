# Design of the formal model of icpc-header

The C++ headers in /repo are read as text and modelled function by function in
Coq 8.16.1 under `rocq/theories`. Nothing of /repo is compiled or executed.

## Layout

For every area there are up to four files:

- `<Area>Model.v` — total, computable Gallina definitions; each carries a comment with
  the /repo file and lines it models and any simplification. No proofs.
- `<Area>Spec.v` (or a clearly marked section) — the specification vocabulary, written
  without the helpers of the model.
- `<Area>Proofs.v` — lemmas.
- `<Area>Props.v` — only the property theorems, each closed by `exact lemma`, a
  concrete `Example` meeting its hypotheses, and `Print Assumptions`.

## Conventions

- `Integer` is `Z`, with the 64-bit range explicit. Unsigned arithmetic is written
  `mod 2^64`. Signed operations whose overflow matters go through checked operations
  that yield the outcome `UB`.
- `outcome A = Ok a | Throw | UB | Fuel`. `Throw` is a failed `judgeAssert`, `UB` is C++
  undefined behaviour (overflow, out of bounds access, division by zero), `Fuel` is an
  exhausted loop bound of the model; theorems either exclude it or quantify over it.
- Random generators are terms of a free monad whose only effect is a draw
  `Random::integer(lo, hi)`. It has (i) a semantics as the set of possible results and (ii)
  an exact probability semantics in `Q`. `Random::integer` itself is modelled on raw
  64-bit engine words and proved uniform (C02); C92 carries both semantics over to runs of
  whole programs on engine words.
- A claim that is false of the faithful model is proved false: theorem `..._refuted` with a
  concrete witness, next to the strongest statement that does hold.

## Properties

### C01 — Random::integer stays in its half-open range

- Model/proof: Model the function on a tape of raw 64-bit engine words with explicit mod 2^64 arithmetic. Proof by arithmetic on the high word of x*s.
- Status: proved. Theorems: `C01_integer_in_range`

### C02 — Random::integer is exactly uniform

- Model/proof: Explicit bijection between [0, floor(2^64/s)) and the accepted words of a value.
- Status: proved. Theorems: `C02_integer_uniform`, `C02_integer_redraw`, `C02_integer_accepts_majority`, `C02_any`

### C03 — Portable and 128-bit code paths of Random::integer agree

- Model/proof: Both branches modelled with wrap-around; limb arithmetic proved equal to floor(x*s/2^64), no intermediate wraps.
- Status: proved. Theorems: `C03_portable_equal`

### C04 — Random::shuffle is a uniform permutation

- Model/proof: Generators are terms of a free monad over integer draws with an exact rational probability semantics; induction over the loop.
- Status: proved. Theorems: `C04_select_empty`, `C04_rotate_uniform`, `C04_rotate_empty`, `C04_select_pair`, `C04_shuffle_pair`, `C04_shuffle_permutes`, `C04_shuffle_uniform`, `C04_select_uniform`, `C04_rotate`
- Note: Also select and rotate.

### C05 — Random::distinct yields distinct in-range values, uniformly

- Model/proof: Association map modelled explicitly; refinement of a virtual array whose cells default to the identity.
- Status: proved. Theorems: `C05_distinct`, `C05_distinct_uniform`, `C05_distinct_throws`, `C05_distinct_overflow_refuted`
- Note: If lower+count overflows the range check itself is undefined behaviour (C05_distinct_overflow_refuted).

### C06 — Random::perm(count, offset) is a uniform permutation of [offset, offset+count)

- Model/proof: Composition of range and shuffle results.
- Status: proved. Theorems: `C06_perm`, `C06_perm_uniform`

### C07 — Random::perm(cycles) has the requested cycle structure

- Model/proof: Writes into the result array modelled cell by cell; invariant over blocks.
- Status: proved. Theorems: `C07_perm_cycles`, `C07_perm_cycles_negative_refuted`, `C07_perm_cycles_equiprobable`
- Note: A non-positive length is meant to throw but can be undefined behaviour first (C07_perm_cycles_negative_refuted).

### C08 — Random::perm(count, fix) keeps the requested fixed points

- Model/proof: Proved for fix lists without repetition; refuted for lists with a repeated entry (double swap undoes the fixing).
- Status: proved. Theorems: `C08_perm_fix`, `C08_perm_fix_throws`, `C08_perm_fix_below`, `C08_perm_fix_repeated_refuted`, `C08_perm_fix_uniform`
- Note: False for lists with a repeated entry (C08_perm_fix_repeated_refuted).

### C09 — Random::increasing/decreasing/nonDecreasing/nonIncreasing are ordered and in range

- Model/proof: Sorting of distinct/multiple; sort modelled by insertion sort (the sorted arrangement is unique).
- Status: proved. Theorems: `C09_increasing`, `C09_decreasing`, `C09_increasing_uniform`, `C09_decreasing_uniform`, `C09_nonDecreasing`, `C09_nonIncreasing`, `C09_multiple_uniform`, `C09_nonDecreasing_distribution`, `C09_nonIncreasing_distribution`, `C09_weakly_sorted_uniform_refuted`
- Note: Finding: doc/validate.md 466-467 says that each possible output of these functions has the same probability; for nonDecreasing and nonIncreasing this is false (C09_weakly_sorted_uniform_refuted), the exact law is proved instead.

### C10 — Random::partition returns k parts >= min with sum n

- Model/proof: Telescoping sum over sorted distinct cut points.
- Status: proved. Theorems: `C10_partition`, `C10_partition_uniform`, `C10_partition_throws`, `C10_partition_overflow_refuted`
- Note: For very small negative min the arithmetic overflows (C10_partition_overflow_refuted).

### C11 — Random::bracketSequence is balanced

- Model/proof: Loop invariant 0 <= diff <= remaining, diff == remaining mod 2; uniformity via ballot numbers.
- Status: proved. Theorems: `C11_bracketSequence`, `C11_bracketSequence_uniform`, `C11_bracketSequence_throws`

### C12 — applyMod and mulMod return the exact residue

- Model/proof: Explicit 64-bit/128-bit wrap in the model, equality to Z.modulo.
- Status: proved. Theorems: `C12_applyMod`, `C12_mulMod`, `C12_mulMod_portable`, `C12_mulMod_throws`
- Note: Both platform branches; throws exactly for mod <= 0.

### C13 — powMod returns the exact power residue

- Model/proof: Square-and-multiply invariant for both paths. Refuted for exp = 0, mod = 1 (returns 1); proved otherwise.
- Status: proved. Theorems: `C13_powMod`, `C13_powMod_range_refuted`
- Note: Both platform branches. The exception exp = 0, mod = 1 is exhibited by C13_powMod_range_refuted.

### C14 — multInv returns the inverse or -1

- Model/proof: Checked arithmetic (overflow = UB outcome); Bezout invariant and coefficient bounds. Refuted for negative n; proved for n >= 0.
- Status: proved. Theorems: `C14_multInv`, `C14_multInv_negative_refuted`
- Note: For negative n the claim is false, see C14_multInv_negative_refuted.

### C15 — isPrime never rejects a prime

- Model/proof: Fermat's little theorem and the square-root argument proved for all primes; converse (no strong pseudoprime to the witness set below 2^63) rests on an exhaustive computation of others and is left as the missing part; below 137^3 a composite without small divisor is p*q with 2^(p-1) = 1 mod q, and the powers of 2 modulo all q are enumerated.
- Status: proved. Theorems: `C15_isPrime_total`, `C15_isPrime_accepts_primes`, `C15_isPrime_small_factors`, `C15_isPrime_exact_small`, `C15_isPrime_sound_partial`, `C15_isPrime_portable`, `C15_isPrime_iff`, `C15_isPrime_right_iff`, `C15_isPrime_exact`
- Note: C15_isPrime_iff says exactly what is accepted; C15_isPrime_right_iff reduces exactness for all Integers to the published result on the base set, which rests on an exhaustive computation by others and is not claimed.

### C16 — primes(lower, upper) lists the primes of the range in increasing order

- Model/proof: Sieve loops modelled with bit arrays; characterisation of marked cells; where the sieve hands over to isPrime its exact characterisation (C15) is used.
- Status: proved. Theorems: `C16_primes`, `C16_primes_upto`, `C16_primes_overflow_refuted`, `C16_primes_wide_refuted`, `C16_primes_listed`, `C16_primes_exact`
- Note: Undefined behaviour for wide ranges and near 2^63: C16_primes_wide_refuted, C16_primes_overflow_refuted. That no composite below 2^63 passes the tests of isPrime rests on an exhaustive computation by others and is not claimed.

### C17 — Random::prime returns a prime of the range

- Model/proof: Checked arithmetic model; refuted for upper = 2 (returns 2) and for overflow of 4*(upper-lower); proved for upper > 2 and ranges below 2^61.
- Status: proved. Theorems: `C17_prime_law`, `C17_prime_rarely_throws`, `C17_prime_range`, `C17_prime_complete`, `C17_prime_upper_two_refuted`, `C17_prime_overflow_refuted`, `C17_prime_equiprobable`
- Note: The two exceptions are exhibited by refuted theorems.

### C18 — isPerm(first,last,offset) decides permutations and its reason is a culprit

- Model/proof: Loop with a seen bit vector; pigeonhole.
- Status: proved. Theorems: `C18_isPerm`, `C18_isPerm_overflow_refuted`
- Note: Hypothesis: x - offset does not overflow; otherwise C18_isPerm_overflow_refuted.

### C19 — isPerm of two ranges decides multiset equality and names a culprit

- Model/proof: Sorted sequences compared position-wise; counting argument for the first mismatch.
- Status: proved. Theorems: `C19_isPerm2`, `C19_isPerm2_reason_refuted`
- Note: The stronger wish that the multiplicities of the reason differ is false: C19_isPerm2_reason_refuted.

### C20 — allAdjacent/anyAdjacent/noneAdjacent decide their predicate on neighbours and point at the first culprit

- Model/proof: Structural recursion; container overload of allAdjacent refuted (predicate not negated).
- Status: proved. Theorems: `C20_anyAdjacent`, `C20_noneAdjacent`, `C20_allAdjacent`, `C20_ordered`, `C20_allAdjacent_container_refuted`
- Note: Iterator overloads (and all container overloads forwarding to them); the exception is C20_allAdjacent_container_refuted.

### C21 — areDistinct decides distinctness and its reason is a repeated value

- Model/proof: Sort plus adjacent equality.
- Status: proved. Theorems: `C21_areDistinct`

### C22 — range(from, to, step) is the arithmetic progression

- Model/proof: Unsigned length computation modelled modulo 2^64; every addition checked.
- Status: proved. Theorems: `C22_range`, `C22_range_zero`, `C22_range_min_step_refuted`
- Note: step = -2^63: C22_range_min_step_refuted.

### C23 — Random::discrete follows its weights

- Model/proof: upper_bound on prefix sums; counting.
- Status: proved. Theorems: `C23_discrete`, `C23_discrete_range`

### C24 — stringEqual reports equality and the first difference

- Model/proof: List recursion.
- Status: proved. Theorems: `C24_stringEqual`

### C25 — isInteger accepts exactly canonical 64-bit decimal integers

- Model/proof: Regex matcher and from_chars modelled; canonical printing function as independent spec.
- Status: proved. Theorems: `C25_isInteger`, `C25_isInteger_rejects`, `C25_decimal_total`, `C25_decimal_unique`, `C25_decimal_value_unique`

### C26 — realStrict accepts exactly the strict decimals in its bounds

- Model/proof: Regex derivative matcher; strict notation as separate spec; the conversion of a decimal to long double is a parameter; refuted part with 01.
- Status: proved. Theorems: `C26_realStrict`, `C26_realStrict_else`, `C26_realStrict_refuted`
- Note: parseReal (from_chars for long double) is a parameter. The exception is C26_realStrict_refuted.

### C27 — Strict integer input is accepted iff byte-exact

- Model/proof: Byte-list stream model of get/peek/operator>>; both directions by induction on n.
- Status: proved. Theorems: `C27_integers_strict`, `C27_integers_else`, `C27_strings_strict`, `C27_strings_else`
- Note: Integers and strings; separators space and newline.

### C28 — InputStream::integer enforces its bounds

- Model/proof: Same stream model.
- Status: proved. Theorems: `C28_integer`, `C28_integer_else`, `C28_string`, `C28_string_else`

### C29 — expectReal accepts exactly the values outside the tolerance

- Model/proof: Exact characterisation of the actual behaviour; the documented meaning refuted with a witness.
- Status: proved. Theorems: `C29_expectReal`, `C29_readReal`, `C29_expectReal_refuted`
- Note: The documented meaning is refuted by C29_expectReal_refuted.

### C30 — Command line arguments are grouped by command

- Model/proof: Association maps built by the loop over argv; spec by splitting the argument list.
- Status: proved. Theorems: `C30_parser`, `C30_command`, `C30_command_group`, `C30_command_absent`, `C30_command_throws`, `C30_raw`, `C30_raw_after`, `C30_raw_absent`, `C30_raw_all`, `C30_index`, `C30_integer`, `C30_integer_throws`, `C30_integer_default`, `C30_integers`, `C30_string_default`

### C31 — Constraint log covers all observed values

- Model/proof: State machine, invariant by induction over operations; generic argument for extremes in a total order, instantiated with integers and non-NaN floats. The text format of the numbers is not modelled.
- Status: proved. Theorems: `C31_write`, `C31_succeeds`, `C31_type_throws`

### C32 — UnionFind maintains exactly the equivalence closure of the unions

- Model/proof: Array model with fuel-free recursion over a ranking; refinement to equivalence closure.
- Status: proved. Theorems: `C32_unionFind`
- Note: All call sequences; answers specified by connectivity of the united pairs.

### C33 — Graph::isConnected/isForest/isTree/areConnected agree with graph theory

- Model/proof: On top of the UnionFind refinement; component counting.
- Status: proved. Theorems: `C33_graph`
- Note: All programs of addEdge and areConnected calls; up to 2^62 nodes.

### C34 — Graph::isBipartite decides 2-colourability

- Model/proof: Doubled vertex set invariant symmetric under parity swap.
- Status: proved. Theorems: `C34_bipartite`

### C35 — hasSelfloop/hasMultiedge/hasEdge/edgeCount report the edge multiset

- Model/proof: Adjacency sets as duplicate-free lists.
- Status: proved. Theorems: `C35_graph_edges`, `C35_diGraph_edges`
- Note: Graph and DiGraph.

### C36 — DiGraph::isTree returns the root exactly for rooted trees, but may return a non-vertex otherwise

- Model/proof: Refuted with 1->2, 2->1 on three vertices; completeness (arborescences are accepted with their root) and soundness for underlying forests proved.
- Status: proved. Theorems: `C36_diGraph_isTree`, `C36_isTree_refuted`
- Note: Presence of a result is not equivalent to being a tree: C36_isTree_refuted.

### C37 — DiGraph::isDAG returns an order only for digraphs without edges

- Model/proof: Refuted: any digraph with an edge yields nothing.
- Status: proved. Theorems: `C37_isDAG_order`, `C37_isDAG`, `C37_isDAG_refuted`
- Note: The intended meaning (topological order iff acyclic) is false: C37_isDAG_refuted.

### C38 — Generator graph edge store is consistent under every operation

- Model/proof: State machine with the XOR keyed adjacency; invariant tying edge list and adjacency entries.
- Status: proved. Theorems: `C38_program`, `C38_new`, `C38_new_throws`, `C38_addEdge`, `C38_eraseEdge`, `C38_observe`, `C38_throws`, `C38_degrees`
- Note: The store is modelled with its sets of edge pointers (as indices) keyed by from ^ to and with swap-with-last erasure. A fresh graph under any list of calls answers like a map from pairs to data; loops and nodes outside throw.

### C39 — Deterministic graph generators produce the documented graphs

- Model/proof: Refinement to an abstract adjacency map; induction over dimension and depth.
- Status: proved. Theorems: `C39_independent`, `C39_clique`, `C39_bipartite`, `C39_star`, `C39_path`, `C39_cycle`, `C39_cycle_throws`, `C39_lolly`, `C39_broom`, `C39_grid`, `C39_hypercube`, `C39_booleanLattice`, `C39_rado`, `C39_completeTree`, `C39_wheel_refuted`, `C39_completeTree_refuted`, `C39_rado_refuted`, `C39_booleanLattice_refuted`, `C39_booleanLattice_range`, `C39_rado_range`
- Note: Contradictions to the header's comments are C39_wheel_refuted, C39_completeTree_refuted, C39_rado_refuted and C39_booleanLattice_refuted.

### C40 — pruefer decodes Pruefer codes bijectively; randomTree is uniform over the labelled trees

- Model/proof: The loop's current/skip pair always finds the smallest leaf; induction over leaf removal gives degrees, injectivity and surjectivity (a leaf exists by the handshake lemma).
- Status: proved. Theorems: `C40_pruefer`, `C40_pruefer_code`, `C40_pruefer_bijective`, `C40_randomTree`, `C40_randomTree_uniform`, `C40_randomTreeDir`, `C40_randomTreeDir_uniform`

### C41 — randomGraph(n, m) and randomBipartite(n, m, k) draw an edge set uniformly

- Model/proof: Bijection proof over distinct.
- Status: proved. Theorems: `C41_pairs`, `C41_randomGraph`, `C41_randomGraph_throws`, `C41_randomGraph_uniform`, `C41_crossPairs`, `C41_randomBipartite`, `C41_randomBipartite_throws`, `C41_randomBipartite_uniform`
- Note: Assumes that the number of pairs (and n + m) fits in int64.

### C42 — xoshiro256** jump equals 2^128 steps

- Model/proof: States form a group under xor and the step T is additive. A polynomial of degree 256 with root T is checked on the 64 single-bit values of word 0 and extended to all states algebraically; x^(2^128) modulo it, found by 128 squarings inside Coq, is the polynomial of the jump constants.
- Status: proved. Theorems: `C42_jump`, `C42_seed`

### C43 — xoshiro256** step is a bijection and never reaches the zero state

- Model/proof: Inverse step exhibited; the default words differ, so no seed clears all of them; jump is a bijection by C42.
- Status: proved. Theorems: `C43_valid`, `C43_injective`, `C43_surjective`, `C43_nonzero`, `C43_seed_nonzero`, `C43_seed_injective`, `C43_array_zero_refuted`
- Note: The constructor from an array does accept the all-zero state: C43_array_zero_refuted.

### C44 — AES engine is AES-256 in counter mode

- Model/proof: Spec of FIPS 197 from GF(2^8) arithmetic, without tables; tables checked for all 256 bytes by computation, rounds by column-wise refinement; every step of a round inverted; carry loop = +1 modulo 2^128; pigeonhole for surjectivity.
- Status: proved. Theorems: `C44_sbox`, `C44_aes256`, `C44_injective`, `C44_surjective`, `C44_counter`, `C44_result`, `C44_no_repeat`, `C44_no_repeat_encrypted`, `C44_period`, `C44_equidistributed`, `C44_key`

### C45 — PNG output decodes to the drawn pixels

- Model/proof: Independent decoder with bitwise CRC and mod-65521 Adler; round trip by induction; calls keep the image rectangular.
- Status: proved. Theorems: `C45_decodes`, `C45_image_decodes`, `C45_all_sizes_refuted`, `C45_nothing`
- Note: The original claim for all sizes admitted by clear is false: C45_all_sizes_refuted.

### C46 — floodFill recolours exactly the 4-connected component

- Model/proof: Work-list invariant; reachability as independent relation.
- Status: proved. Theorems: `C46_floodFill_outside`, `C46_floodFill`

### C47 — isConvex and isStrictlyConvex

- Model/proof: Bounds on products; Grassmann-Pluecker identities for orientations; refutations with concrete polygons.
- Status: proved. Theorems: `C47_defined`, `C47_rejects`, `C47_complete`, `C47_rotations`, `C47_quadrilaterals`, `C47_sound_refuted`, `C47_strict_sound_refuted`, `C47_strict_distinct_refuted`, `C47_strict`
- Note: That true implies convexity is false: C47_sound_refuted, C47_strict_sound_refuted, C47_strict_distinct_refuted.

### C48 — Multipass state is handed from pass k to pass k+1

- Model/proof: Directory as a map from names to contents; decimal round trip of the pass number; induction over the passes.
- Status: proved. Theorems: `C48_handover`, `C48_frame`

### C49 — Random::bit is unbiased

- Model/proof: Flipping the lowest bit of a word flips the parity: a fixed-point free involution.
- Status: proved. Theorems: `C49_bit_unbiased`

### C50 — Random::string is uniform over its alphabet

- Model/proof: Induction over the length with the exact probability semantics.
- Status: proved. Theorems: `C50_string`, `C50_string_uniform`

### C51 — thueMorse(lower, upper) is the Thue-Morse sequence

- Model/proof: popcount parity against the binary recursion.
- Status: proved. Theorems: `C51_thueMorse`, `C51_thueMorse_throws`

### C52 — floatEqual is a total, reflexive, monotone comparison

- Model/proof: IEEE semantics of the x87 format from Coq.Floats.SpecFloat (no axioms).
- Status: proved. Theorems: `C52_floatEqual_refl`, `C52_floatEqual_throws`, `C52_floatEqual_total`, `C52_floatEqual_classes`, `C52_floatEqual_mono`

### C53 — Whitespace-insensitive reading accepts exactly the token sequence

- Model/proof: Same stream model as C27, word decomposition as inductive spec.
- Status: proved. Theorems: `C53_integers_words`, `C53_integers_else`, `C53_strings_words`, `C53_strings_else`

### C54 — expectString and expectInt accept exactly the expected token

- Model/proof: Same stream model.
- Status: proved. Theorems: `C54_expectString`, `C54_expectString_raises`, `C54_expectInt`, `C54_expectInt_else`

### C55 — Renumbering, reversing, (un)directing and complementing a generated graph

- Model/proof: Refinement: every operation is shown to commute with the abstract adjacency map the store represents.
- Status: proved. Theorems: `C55_copy`, `C55_setMinId`, `C55_normalize`, `C55_reverse`, `C55_undirected`, `C55_directed`, `C55_complement`, `C55_range`, `C55_range_throws`, `C55_range_shifted_refuted`
- Note: range is wrong for graphs whose nodes do not start at 0: C55_range_shifted_refuted.

### C56 — combine and append are union and disjoint union

- Model/proof: Refinement against the abstract adjacency map.
- Status: proved. Theorems: `C56_combine`, `C56_append`

### C57 — Graph products and line graphs

- Model/proof: Refinement against the abstract adjacency map; the pair numbering is injective by div/mod reasoning.
- Status: proved. Theorems: `C57_product`, `C57_cartesian`, `C57_strongProduct`, `C57_lineGraph`
- Note: product and strongProduct exist for undirected graphs only, as in the header. lineGraph gives data of type Z the value 0.

### C58 — power(k) joins nodes at distance at most k

- Model/proof: Breadth first search invariant; distances against inductively defined walks, which can be shortened below the number of nodes.
- Status: proved. Theorems: `C58_closure`, `C58_power`, `C58_power_undirected_refuted`
- Note: The statement is for directed graphs; the undirected variant emplaces every edge twice: C58_power_undirected_refuted. C58_closure is about the graph transitiveClosure would return; its return type is a reference, so programs that call it do not compile.

### C59 — permutate and subgraph randomise without changing the graph's structure

- Model/proof: Programs over random draws; every leaf satisfies the refinement. For the laws: exactly one order of the stored edges and one choice of flips gives the wanted list.
- Status: proved. Theorems: `C59_permutateEdges_uniform`, `C59_permutateWith_uniform`, `C59_permutate_law`, `C59_permutate_reaches`, `C59_permutateEdges`, `C59_permutateWith`, `C59_permutate`, `C59_subgraph`, `C59_subgraph_throws`, `C59_permutate_length_refuted`, `C59_subgraph_uniform`, `C59_permutate_uniform`
- Note: The laws of whole edge lists assume decidable equality of edge data. permutate only checks that its argument is a permutation of some length: C59_permutate_length_refuted.

### C60 — xoshiro256** is equidistributed in four dimensions

- Model/proof: Output scrambler inverted (5 and 9 are odd); the four values of word 1 determine the state by explicit elimination.
- Status: proved. Theorems: `C60_four`, `C60_words`, `C60_same`

### C61 — xoshiro256** has full period

- Model/proof: x^(2^256-1) = 1 and x^((2^256-1)/q) + 1 invertible modulo the polynomial of C42 for the 11 prime factors q (witnesses checked inside Coq, primality by Pocklington's criterion proved here); orbits by the pigeonhole principle.
- Status: proved. Theorems: `C61_period`, `C61_visits`, `C61_outputs`, `C61_zeros`, `C61_streams`

### C62 — Seeds of AES_RNG select shifts of one stream

- Model/proof: Value of the counter for a seed as xor; distance of the counters; independence of the streams refuted.
- Status: proved. Theorems: `C62_distinct`, `C62_overlap`, `C62_independent_refuted`
- Note: Independence of the streams of different seeds is refuted (C62_independent_refuted).

### C63 — fillRectangle fails outside of row 1

- Model/proof: Outer loop with arbitrary fuel; the row variable stays below 2.
- Status: proved. Theorems: `C63_returns_refuted`, `C63_draws_refuted`, `C63_inside_refuted`, `C63_row1`

### C64 — drawLine draws a digital line

- Model/proof: Bresenham error invariant in both octant cases.
- Status: proved. Theorems: `C64_drawLine_ends`, `C64_drawLine`

### C65 — Colour arithmetic stays in range

- Model/proof: Bounds on truncated division.
- Status: proved. Theorems: `C65_alpha`, `C65_over`, `C65_opaque`, `C65_ends`, `C65_modes`, `C65_saturating`, `C65_blend`, `C65_rgb`

### C66 — isCCW computes the orientation

- Model/proof: Shoelace sum equals the fan of triangles around any point; a thin spiral as counterexample to the comment.
- Status: proved. Theorems: `C66_cross3`, `C66_area`, `C66_rotate`, `C66_reverse`, `C66_convex`, `C66_defined`, `C66_overflow_refuted`, `C66_products`
- Note: The comment 'can't overflow' is refuted by C66_overflow_refuted.

### C67 — nonCollinearPoints: general position for good moduli

- Model/proof: Program over random draws; orientation modulo p is (rotA^2+rotB^2) times a times a product of differences; -1 is no square for p = 3 mod 4 by Fermat.
- Status: proved. Theorems: `C67_nonCollinearPoints`, `C67_throws`, `C67_distinct_refuted`, `C67_collinear_refuted`, `C67_throws_refuted`
- Note: Primality of the modulus is a premise where it is used, since the converse of C15 is open for large values; general position without the condition on p is refuted by C67_distinct_refuted and C67_collinear_refuted.

### C68 — Random::convex: bounding box and convexity

- Model/proof: Program over random draws with oracles for std::sort, std::partition and binomial; directions sorted by angle turn left first and right afterwards, so partial sums of cross products are not negative.
- Status: proved. Theorems: `C68_convex`, `C68_oracles`, `C68_accepted`, `C68_throws`, `C68_order`, `C68_flat_refuted`, `C68_strict_refuted`
- Note: Random::binomial is an oracle with the result range its comment promises. Degenerate results: C68_flat_refuted.

### C69 — randomGraph for a degree sequence

- Model/proof: Priority queue as a sorted list; the exchange argument of Havel and Hakimi for the largest remaining degree, degree counts as cardinalities; flips preserve degrees, simplicity and an orientation invariant.
- Status: proved. Theorems: `C69_randomGraph`, `C69_throws`, `C69_noEdges_refuted`, `C69_negative_refuted`, `C69_reach_refuted`, `C69_queue`
- Note: Exceptions: C69_noEdges_refuted, C69_negative_refuted, C69_reach_refuted.

### C70 — Flow values of the worst case networks

- Model/proof: Flows as functions on pairs of nodes; explicit flow for the lower and a cut for the upper bound; tightness of the cut fixes the cost.
- Status: proved. Theorems: `C70_ffWorstcase`, `C70_order`, `C70_value_refuted`, `C70_mcmfWorstcase`, `C70_throws`
- Note: The value in the comment of ffWorstcase is refuted by C70_value_refuted. That Ford-Fulkerson with dfs needs exponentially many steps is a statement about other code and not modelled.

### C71 — isSimple recognises simple polygons

- Model/proof: Shear the plane so that the event order is the order of one number; invariant: neighbours in the sweep line are apart or adjacent in the polygon, hence ordered along their whole common range, and pairs that have left the sweep line do not meet.
- Status: proved. Theorems: `C71_defined`, `C71_search`, `C71_rejects`, `C71_complete`, `C71_sound`, `C71_spike_refuted`, `C71_meet`
- Note: The exception for spikes is exhibited by C71_spike_refuted. The std::set is a sequence with an arbitrary place for each search that is consistent with the two comparisons next to it.

### C72 — What OutputStream writes InputStream reads back

- Model/proof: Values as a tree; the printed text is the joined notations of the leaves; uniqueness of decimal notation gives the equivalence for files.
- Status: proved. Theorems: `C72_integer_notation`, `C72_join`, `C72_join_nosep`, `C72_integers_back`, `C72_strings_back`, `C72_lines_iff`, `C72_nested`, `C72_nested_back`, `C72_words`, `C72_loose_back`, `C72_empty_refuted`, `C72_bools_back`
- Note: The exception for empty inner containers is exhibited by C72_empty_refuted. Printing of Real is the subject of C86.

### C73 — A printed graph is read, accepted and judged as generated

- Model/proof: Client program of InputStream and Graph/DiGraph; uniqueness of decimal notation gives the equivalence, the theorems on the generators and on Graph do the rest.
- Status: proved. Theorems: `C73_accepts`, `C73_meaning`, `C73_graph_back`, `C73_digraph_back`, `C73_randomTree`, `C73_randomTreeDir`, `C73_randomGraph`, `C73_randomBipartite`, `C73_weighted_back`
- Note: Edge data is modelled for NoData and Integer (any number of integers behind an edge in the reader).

### C74 — The error report points at the offending input

- Model/proof: Loop invariant over a decomposition of the input into words and characters; the cuts as decompositions of the line.
- Status: proved. Theorems: `C74_parts`, `C74_report`, `C74_report_eof`, `C74_report_none`, `C74_report_total`, `C74_expectString`, `C74_newline_refuted`, `C74_same_text_refuted`
- Note: C74_newline_refuted shows the wrong line number for a newline, C74_same_text_refuted two different words shown as the same text. The position of the stream is an argument of the report.

### C75 — The view box of an SVG image

- Model/proof: The number type is an argument of the model; over Q the box spans the coordinates included so far and 0; witnesses for the exceptions.
- Status: proved. Theorems: `C75_in_view`, `C75_view`, `C75_after_text_refuted`, `C75_float_refuted`
- Note: in exact arithmetic; _after_text_refuted: shapes behind a text of the same statement are not included; _float_refuted: rounding

### C76 — Random::real() and its intervals

- Model/proof: Engine words as uniform draws of the monad; IEEE numbers as spec_float with an own theory of rounding (value, monotonicity, exactness); the probability is summed over all pairs of words.
- Status: proved. Theorems: `C76_real`, `C76_real_positive`, `C76_real_distribution`, `C76_real_below_one_refuted`, `C76_realBelow`, `C76_realBelow_throws`, `C76_realIn`, `C76_realIn_throws`
- Note: _below_one_refuted: real() is 1 with probability 2^-54. Loops are bounded by fuel; that the int exponent overflows after 2^25 words 0 in a row is not modelled.

### C77 — maximum, minimum and minmax of Random

- Model/proof: log2 and exp2 are any functions with the right signs and ranges; IEEE multiplication by a factor of [0, 1] does not grow; induction over n for the distribution.
- Status: proved. Theorems: `C77_minimum_throws`, `C77_maximum_formula`, `C77_maximum`, `C77_maximum_throws`, `C77_maximum_distribution`, `C77_minimum`, `C77_minimum_distribution`, `C77_minimum_wide_refuted`, `C77_minmax`
- Note: _wide_refuted: minimum overflows for wide intervals. The distribution for n >= 5 (through exp2 and log2) is not claimed, only the range.

### C78 — Ranges of the random distributions

- Model/proof: The functions of the C library are arguments of the model; loops by induction over their iterations; witnesses for the exceptions.
- Status: proved. Theorems: `C78_geometric_formula`, `C78_geometricIn_formula`, `C78_binomial_gaps`, `C78_binomial_btrs`, `C78_normal_formula`, `C78_normalIn_formula`, `C78_exponential_formula`, `C78_exponentialIn_formula`, `C78_exponential`, `C78_exponentialIn`, `C78_normalIn`, `C78_normal_stddev_refuted`, `C78_geometric`, `C78_geometric_throws`, `C78_geometricIn`, `C78_geometric_zero_refuted`, `C78_binomial`, `C78_binomial_throws`, `C78_binomial_zero`, `C78_binomial_one`, `C78_binomialIn`, `C78_binomial_tiny_refuted`, `C78_conversion`
- Note: _stddev_refuted, _geometric_zero_refuted, _binomial_tiny_refuted show the exceptions. The distributions themselves are not claimed.

### C79 — randomGraph(n, p) and randomGrowingGraph

- Model/proof: C41 with the range of binomial; IEEE multiplication by p does not grow, so degrees fit. The laws condition on the drawn numbers: the number of edges determines the size of the edge set, the uniform law of distinct gives the rest.
- Status: proved. Theorems: `C79_randomGraph_law`, `C79_randomGraph_exchangeable`, `C79_randomGrowingGraph_law`, `C79_randomGrowingGraph_degree`, `C79_randomGrowingGraph_exchangeable`, `C79_randomGraph_p`, `C79_randomGraph_p_throws`, `C79_randomGraph_arcs_refuted`, `C79_randomGrowingGraph`, `C79_randomGrowingGraph_throws`
- Note: _arcs_refuted: digraphs get half of the arcs for p = 1. The laws are given relative to those of binomial and of the drawn degrees; that binomial has the binomial distribution is not claimed.

### C80 — floatEqual compares exact values up to rounding

- Model/proof: IEEE subtraction and division keep the order to all numbers of the format (theory of rounding, the remainder of the division as two more bits); different numbers are at least half a unit apart.
- Status: proved. Theorems: `C80_absolute_accepts`, `C80_relative_accepts`, `C80_sound`, `C80_without_tolerance`, `C80_infinite_tolerance`, `C80_absolute_refuted`, `C80_relative_refuted`, `C80_overflow_refuted`, `C80_less`, `C80_greater`, `C80_less_greater`, `C80_less_other`
- Note: _absolute_refuted, _relative_refuted: without the factors the claim is false; _overflow_refuted: overflow of the difference.

### C81 — Settings and init

- Model/proof: Global state as a record; the theorems of C30 about CommandParser give the meaning of each flag; total case distinctions. Files are an argument; from_chars for Real is an argument.
- Status: proved. Theorems: `C81_init`, `C81_tolerance_unique`, `C81_settings_before`, `C81_settings_after`, `C81_input_validator`, `C81_answer_validator`, `C81_output_validator`, `C81_interactor`, `C81_default`, `C81_tolerance_refuted`, `C81_generator`, `C81_float_equal`
- Note: _tolerance_refuted: flags for tolerances do not reach the stream of the submission in OutputValidator.

### C82 — The example validators and interactors accept what their comments say

- Model/proof: main as a function from command line, files and input to the exit code, composed of the models of the readers, init (C81) and graphs; total case distinctions from the specifications of the readers. outputValidator2 with the semicolon missing in line 44 added.
- Status: proved. Theorems: `C82_output2_wrong`, `C82_output2_second`, `C82_input`, `C82_graph`, `C82_trees_bipartite`, `C82_trees_edges`, `C82_constraints`, `C82_answer`, `C82_output`, `C82_output_overflow_refuted`, `C82_output2_yes`, `C82_output2_no`, `C82_interactor`, `C82_interactor_odd_refuted`, `C82_multipass`, `C82_input_throws`, `C82_answer_throws`, `C82_output_throws`
- Note: _constraints, _output2_yes: programs that accept no correct input; _output_overflow_refuted, _interactor_odd_refuted: witnesses. The text of messages is not modelled.

### C83 — The example generators print what their comments say

- Model/proof: main as a random program that ends with the printed text; the maps of C37 and C59 are followed through append, permutate, directed and setMinId; positions in the second permutation are a topological order. Conversely the first permutation is taken as a topological order of the wanted orientation and the second as the wanted names, and the law of permutate (C59) gives the order of the arcs.
- Status: proved. Theorems: `C83_dag_reaches`, `C83_numbers`, `C83_numbers_distinct`, `C83_dag`
- Note: main of the two generators; support of generator.graph is exact, its law is not claimed to be uniform.

### C84 — Decimals in files are compared up to rounding

- Model/proof: std::from_chars is any function that gives a number nearest to the exact decimal value; a correctly rounded conversion is modelled and proved to be one. Error bound from the mantissa of the ratio, then C80.
- Status: proved. Theorems: `C84_value`, `C84_value_unique`, `C84_parse`, `C84_read`, `C84_read_nearest`, `C84_monotone`, `C84_exact`, `C84_error`, `C84_strict_accepts`, `C84_strict_sound`, `C84_strict_lower_refuted`, `C84_strict_upper_refuted`, `C84_compare_absolute`, `C84_compare_relative`, `C84_compare_sound`
- Note: _strict_lower_refuted, _strict_upper_refuted: decimals next to the bounds. Infinities and NaN, which from_chars accepts on the command line, are not decimals.

### C85 — Colours with factors, interpolation and #rrggbb

- Model/proof: Products are rounded in the order of the format (theory of C80); llround on sign and mantissa; llround out of range is an argument.
- Status: proved. Theorems: `C85_scale`, `C85_fade`, `C85_lerp`, `C85_svg`, `C85_text`, `C85_parts`, `C85_lerp_self_refuted`, `C85_fade_opaque_refuted`, `C85_scale_huge_refuted`, `C85_gray`
- Note: _lerp_self_refuted, _fade_opaque_refuted, _scale_huge_refuted: witnesses of the exceptions. assert is taken as active. The fill character that operator<< leaves behind in the stream is not modelled.

### C86 — Printed reals can be read back

- Model/proof: std::fixed with setprecision as the nearest integer number of units, exact decimal digits; composed with the reading of C84 and the comparison of C80.
- Status: proved. Theorems: `C86_notation`, `C86_sign`, `C86_half_unit`, `C86_monotone`, `C86_read`, `C86_read_exact`, `C86_equal`, `C86_bounds`, `C86_line`, `C86_special`, `C86_strict_refuted`, `C86_injective_refuted`
- Note: _strict_refuted, _injective_refuted: witnesses of the exceptions. The notation of std::fixed is modelled as exactly rounded (as glibc does).

### C87 — SVG files are well-formed documents with the shapes asked for

- Model/proof: A grammar of XML with unique readability; %g as nearest decimal with a given number of digits; the numbers of the elements are read back from the text. Integers: floating point addition is exact, so the box equals that of C75 over Q.
- Status: proved. Theorems: `C87_number`, `C87_number_error`, `C87_number_exact`, `C87_number_order`, `C87_number_integer`, `C87_document`, `C87_unique`, `C87_view_box`, `C87_no_file`, `C87_areas`, `C87_view`, `C87_in_view`, `C87_long_refuted`, `C87_small_refuted`, `C87_dashes`, `C87_comment_refuted`, `C87_precision_refuted`
- Note: _long_refuted, _small_refuted, _comment_refuted, _precision_refuted: witnesses of the exceptions. The default notation of ostreams (%g) is modelled as exactly rounded (as glibc does). The encoding is declared as UTF8, which is not the registered name UTF-8; XML names are restricted to ASCII in the grammar.

### C88 — The example visualizers draw their input files

- Model/proof: operator>> of ifstream is modelled for integers and reals (conversion by strtold as an argument with the contract of C84) and proved to read the words of a text; the rest is composed of C46, C63, C64, C75 and C87.
- Status: proved. Theorems: `C88_png_colours`, `C88_width`, `C88_png_lines`, `C88_png_returns_refuted`, `C88_png_flat`, `C88_png_missing_refuted`, `C88_nameless`, `C88_svg_document`, `C88_svg_view`, `C88_svg_strtold`, `C88_svg_missing_refuted`, `C88_svg_answer_refuted`
- Note: _png_returns_refuted: the example never ends for any height of at least 1; _png_missing_refuted, _svg_missing_refuted, _svg_answer_refuted: missing files lead to undefined behaviour. operator>> is modelled as in libstdc++ in the C locale; C88_svg_strtold: the contract of the conversion can be met.

### C89 — The constraints file can be read back

- Model/proof: The text is composed of the lines of C31 with the notations of C72 and C86; words are recovered with the tokenisation of C13/C72.
- Status: proved. Theorems: `C89_file`, `C89_integers`, `C89_reals`, `C89_no_file`, `C89_rounding_refuted`, `C89_hit_refuted`
- Note: _rounding_refuted, _hit_refuted: witnesses of the exceptions. Logged values are Integers and Reals other than NaN.

### C90 — Alphabets, character classes, isReal, append, flatten and the priority queues

- Model/proof: Alphabets are computed as substrings as in the code and compared with ranges of codes; memory of containers with invalidation of iterators as undefined behaviour; std::priority_queue as any choice of a maximal element.
- Status: proved. Theorems: `C90_alphabets`, `C90_characters`, `C90_strings`, `C90_cases`, `C90_real`, `C90_numbers`, `C90_append`, `C90_flatten`, `C90_min_queue`, `C90_max_queue`, `C90_queue_sorts`, `C90_queue_top`, `C90_lengths`, `C90_queue_undefined`, `C90_append_alias`
- Note: isLower on strings returns bool, where doc/validate.md has boolean<char>. C90_queue_top: the contract of std::priority_queue can be met for every irreflexive and transitive comparison.

### C91 — Lists of values and reads with a constraint

- Model/proof: The loops of InputStream with the log of C31; lists as an inductive relation on texts.
- Status: proved. Theorems: `C91_string`, `C91_strings`, `C91_strings_pattern`, `C91_strings_length`, `C91_strings_both`, `C91_integers`, `C91_integers_in`, `C91_reals`, `C91_reals_in`, `C91_reals_strict`, `C91_else`, `C91_log_integer`, `C91_log_string`, `C91_log_string_pattern`, `C91_log_real`, `C91_log_real_strict`, `C91_log_integers`, `C91_log_strings`, `C91_log_strings_pattern`, `C91_log_reals`, `C91_log_reals_strict`, `C91_log_quiet`, `C91_log_quiet_real`, `C91_summary_integers`, `C91_summary_strings`, `C91_summary_strings_pattern`, `C91_summary_reals`, `C91_summary_reals_strict`
- Note: The bounds of real(lower, upper) are met up to the tolerance of the stream, as in the code.

### C92 — Random programs on the words of the engine

- Model/proof: An interpreter of the draws on word lists. Each value of a range belongs to equally many words (C02, C49), which gives a recurrence for the share in n; the deficit at least halves with every further word; induction over the program. That the bounds of all draws fit goes through each function, with the checks of overflow giving the ranges.
- Status: proved. Theorems: `C92_sequences_fit`, `C92_reals_fit`, `C92_points_fit`, `C92_graphs_fit`, `C92_examples_fit`, `C92_distinct`, `C92_partition`, `C92_bracketSequence`, `C92_real`, `C92_randomTree`, `C92_randomGraph`, `C92_numbers`, `C92_dag`, `C92_pairs_fit`, `C92_selectPair`, `C92_shufflePair`, `C92_rotate`, `C92_prime`, `C92_support`, `C92_reach`, `C92_more`, `C92_portable`, `C92_law`, `C92_ends`, `C92_shuffle`, `C92_composed`, `C92_fits`
- Note: That the words of the engine are uniform is no claim about the engine (C44 and C61 are about the engines). Whether a draw from [0, 2) is bit() or integer(0, 2) may depend on all values drawn before. randomGraph(degrees) is covered for at most 2^31 nodes.

### C93 — Drawing until a result is inside gives the conditioned distribution

- Model/proof: One lemma about loops that draw, accept and otherwise repeat, by induction over the rounds; IEEE multiplication of a normal number with a factor of at most 1 - 2^-53 gives a smaller number; x - y / z and x + (-y) / z are the same number.
- Status: proved. Theorems: `C93_rounds`, `C93_realBelow`, `C93_realBelow_exact`, `C93_realIn`, `C93_exponentialIn`, `C93_geometricIn`, `C93_binomialIn`, `C93_normalIn`, `C93_rotation`
- Note: The loops of the model are bounded; the laws hold for every bound. In binomial(lower, upper, n, p) the bound of the inner loops is that of the rounds left, so the rounds are not identical in the model.

### C94 — A failed read says what is wrong and where

- Model/proof: The reads with the text they write before exiting, shown equal to the reads of InputModel.v when the text is dropped. A file that is cut where a word starts or ends has the parts of both pieces, so the report of C74 is about the token.
- Status: proved. Theorems: `C94_first_integer`, `C94_first_string`, `C94_first_real`, `C94_first_realStrict`, `C94_same`, `C94_integer`, `C94_anyInteger`, `C94_expectInteger`, `C94_string`, `C94_expectString`, `C94_real`, `C94_realStrict`, `C94_expectReal`, `C94_separator`, `C94_eof`, `C94_whitespace`, `C94_end`, `C94_first`
- Note: At a newline the line number is one too large (C74); expectReal complains about equal numbers (C29).

### C95 — convexHull and convexDisk of the archive are right

- Model/proof: The scan keeps a chain that turns left and encloses all scanned points (transitivity of the cross product on vectors that point right); the second pass is the first one mirrored. A point left of all sides has no supporting line: look at the corner next to that line. Subsets of points on the boundary are on the boundary.
- Status: proved. Theorems: `C95_hull`, `C95_single`, `C95_distinct`, `C95_listed`, `C95_count`, `C95_disk`, `C95_disk_zero`, `C95_disk_throws`
- Note: archive/convex.cpp is a generator outside of src. convexDisk is proved for the executions that return; whether its rejection loops end depends on the library functions, which are arbitrary here.

### C96 — Random::polygon of the archive: simple without right angles, else endless or crossing

- Model/proof: Induction over the recursion: the line through the two cut points separates the two parts, which share the cut point only, so sides of different parts do not meet. The closing side is before all other points in the direction. Witnesses for the right angles.
- Status: proved. Theorems: `C96_points`, `C96_throws`, `C96_simple`, `C96_oracles`, `C96_ends_refuted`, `C96_simple_refuted`
- Note: archive/polygon.cpp is a generator outside of src. That it ends and that the result is simple for points of which no three are on a line are refuted (C96_ends_refuted, C96_simple_refuted). The comparison n * sqrt(n) <= dim is an argument of the model; findLine is bounded by fuel.

### C97 — HackedSort of the archive: which values it gives

- Model/proof: Exact run of one partition step on a range of unset values: it sets the two lowest values on the left and the two highest ones on the right and leaves the others unset; induction over the recursion. p stays a permutation of the indices, so the last loop only permutes. Uniformity from that of shuffle. For the time: the step on the finished values moves the same positions as the step on the unset ones, because both compare alike. Witness for mi = -1.
- Status: proved. Theorems: `C97_values`, `C97_below`, `C97_uniform`, `C97_permutation_refuted`, `C97_distinct_refuted`, `C97_negative`, `C97_quadratic`
- Note: archive/javaSortHack.cpp is a generator outside of src. That the values are a permutation of mi..mi+n-1 and that they are different for all mi are refuted (C97_permutation_refuted, C97_distinct_refuted). C97_quadratic is about the partition step written in this file; that Arrays.sort of Java does the same steps is not modelled.

### C98 — What the programs of the archive print

- Model/proof: The options by the lemmas for C30 (a command is found iff it is in the command line), the text by those for join, the values and points by C95, C96 and C97.
- Status: proved. Theorems: `C98_hack`, `C98_hack_small`, `C98_hack_throws`, `C98_hack_negative`, `C98_polygon`, `C98_polygon_throws`, `C98_convex`, `C98_convex_throws`, `C98_convex_refuses`, `C98_hack_uniform`, `C98_text`
- Note: The programs of the archive are outside of src. That convex prints n points is not what it does: C98_convex gives n + 1. Points are printed as pairs of integers.

## Trusted base

- The Coq 8.16.1 kernel including its `vm_compute` conversion.
- The faithfulness of the `*Model.v` files to the C++ text, which is by inspection.
- Axioms: `Print Assumptions` stands below each theorem and reports "Closed under the global context" for all of them, so no axiom is used. (`coqchk` also lists constants of `Coq.ssr.ssrunder`, which are module type parameters of the loaded standard library and used nowhere here.)

## Not modelled

- Templates are modelled at the types given in the model files' comments; iterator and container requirements, `constexpr` evaluation and compile errors are not modelled. `transitiveClosure` in graph_gen.h returns a reference to a temporary and would not compile; the temporary is modelled.
- That Arrays.sort of Java does the partition steps of javaSortHack.cpp.
- Time and memory limits, allocation failure and the terminal (colours, stderr buffering).
- The operating system: files are byte lists, environment and process exit are outcomes.
- visualizer_png.h: `assert` is taken as active.
- Random::convex: `std::sort` (for elements its order does not separate) and `std::partition` are unspecified; they are arguments of the model and the theorems hold for all of them that keep the promises of the standard. In Random::convex binomial is an argument that returns any value in its documented range (the range is C78).
- Floating point distributions (validate.h 1393-1586): `Real` is the x87 80-bit format with rounding to nearest, `std::ldexp` of an integer is the overload that computes in double. sqrt, sin, cos, log, log1p, log2, exp2, lgamma and llround of a number that is no Integer are arguments of the model; each theorem names what it needs of them. Loops are bounded by fuel, the theorems cover all bounds. In Random::real the overflow of the int exponent after 2^25 words 0 in a row is not modelled.
- isSimple: the `std::set` is a sequence; where `emplace` ends depends on the shape of the tree and is an argument of the model, restricted only by the comparisons with the two neighbours of the place (`searches` in SimpleSpec.v). That the standard leaves a set undefined whose comparison is no strict weak ordering is not modelled as undefined behaviour.
- visualizer_svg.h: numbers are printed by the standard library in `%g` and fixed notation, modelled as exactly rounded decimals; of the state of the stream only std::fixed and the precision are modelled. Of the programs that include it and visualizer_png.h only the two examples are modelled, with `operator>>` of ifstream as in libstdc++ in the C locale.
