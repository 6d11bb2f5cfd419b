{"id": "C01", "title": "Random::integer stays in its half-open range", "statement": "Random::integer(lower, upper) returns a value v with lower <= v < upper whenever it returns, for every 64-bit lower < upper (including ranges wider than 2^63) and whatever the random engine produces; it throws exactly when lower >= upper.", "quantifier": "all 64-bit signed lower/upper and all engine output sequences", "why_tests_cant": "2^128 argument pairs times unbounded engine outputs; the interesting cases are wrap-arounds of 64-bit products and differences.", "anchors": ["src/validate.h: Random::integer(Integer, Integer)", "src/validate.h: Random::integer(Integer)"]}
{"id": "C02", "title": "Random::integer is exactly uniform", "statement": "Among the 2^64 equally likely raw engine words, exactly floor(2^64/(upper-lower)) are accepted for every single value of [lower, upper): no value is favoured. A word that is rejected is simply replaced by the next word, and fewer than upper-lower words are rejected, so more than half of all words are accepted when upper-lower <= 2^63.", "quantifier": "all 64-bit lower < upper and all values of the range", "why_tests_cant": "Bias of 2^-40 is invisible to any statistical test; only a counting argument over all 2^64 words settles it.", "anchors": ["src/validate.h: Random::integer(Integer, Integer)"]}
{"id": "C03", "title": "Portable and 128-bit code paths of Random::integer agree", "statement": "The fallback without __int128 (32-bit limbs) returns the same value as the 128-bit path for the same engine state, so seeded generators give the same data on every platform.", "quantifier": "all 64-bit lower < upper and all engine words", "why_tests_cant": "Only one of the two paths is compiled on a given platform, so a unit test never compares them.", "anchors": ["src/validate.h: Random::integer(Integer, Integer) (#else branch)"]}
{"id": "C04", "title": "Random::shuffle is a uniform permutation", "statement": "Random::shuffle rearranges its range (never loses or duplicates an element) and every one of the n! rearrangements of n distinct elements has probability exactly 1/n!, given uniform Random::integer draws. A std::pair or std::complex keeps or swaps its two components with probability 1/2 each, and select takes each of the two with probability 1/2 (of a range, each element with probability 1/n). Random::rotate returns every amount k of [0, n) with probability exactly 1/n and moves the first k elements to the end; an empty range makes it and select throw.", "quantifier": "all sequences of any length and element type, all draws", "why_tests_cant": "n! outcomes; off-by-one draws (Sattolo, naive shuffle) give permutations too and pass any test that checks 'is a permutation'.", "anchors": ["src/validate.h: Random::shuffle(RandomIt, RandomIt)", "src/validate.h: Random::shuffle(std::pair)", "src/validate.h: Random::select", "src/validate.h: Random::rotate"]}
{"id": "C05", "title": "Random::distinct yields distinct in-range values, uniformly", "statement": "Random::distinct(count, lower, upper) returns exactly count pairwise different integers of [lower, upper), and every such sequence has the same probability 1/((u-l)(u-l-1)...(u-l-count+1)).", "quantifier": "all count, lower, upper with lower+count <= upper and no overflow, all draws", "why_tests_cant": "The sparse Fisher-Yates map is only correct if the key order of the two lookups is right; collisions are rare in tests and uniformity is not testable.", "anchors": ["src/validate.h: Random::distinct(Integer, Integer, Integer)"]}
{"id": "C06", "title": "Random::perm(count, offset) is a uniform permutation of [offset, offset+count)", "statement": "The result contains every integer of [offset, offset+count) exactly once and each of the count! arrangements has probability exactly 1/count!.", "quantifier": "all count >= 0 and offset without overflow, all draws", "why_tests_cant": "count! outcomes", "anchors": ["src/validate.h: Random::perm(Integer, Integer)"]}
{"id": "C07", "title": "Random::perm(cycles) has the requested cycle structure", "statement": "For positive cycle lengths the result is a permutation of [offset, offset+sum) whose cycle decomposition consists of one cycle of each requested length: iterating the permutation from the first element of block i returns to it after exactly cycles[i] steps and not before. All permutations with these cycle lengths are equally likely.", "quantifier": "all lists of positive cycle lengths, all offsets, all draws", "why_tests_cant": "unbounded structures; wrong block boundaries merge cycles only for particular length lists", "anchors": ["src/validate.h: Random::perm(const std::vector<Integer>&, Integer)"]}
{"id": "C08", "title": "Random::perm(count, fix) keeps the requested fixed points", "statement": "For any list of pairwise different fix points inside [offset, offset+count) the result is a permutation of [offset, offset+count) that maps each listed point to itself; a point outside of the range makes it throw, and a first point below offset does so for every count, even when offset+count is not an Integer. Each such permutation has probability 1/(count - number of fix points)!. (With a repeated entry the point need not be fixed.)", "quantifier": "all counts, fix lists, offsets, draws", "why_tests_cant": "the failing inputs (an entry listed twice) are never tried in tests", "anchors": ["src/validate.h: Random::perm(Integer, const std::vector<Integer>&, Integer)"]}
{"id": "C09", "title": "Random::increasing/decreasing/nonDecreasing/nonIncreasing are ordered and in range", "statement": "increasing and decreasing return count strictly monotone values of [lower, upper); nonDecreasing and nonIncreasing return count weakly monotone values of [lower, upper). Each count-element subset is equally likely for increasing and decreasing. A result of nonDecreasing or nonIncreasing is exactly as likely as it has distinct arrangements, out of (upper - lower)^count; so, unlike documented, these results are not equally likely.", "quantifier": "all counts, ranges and draws", "why_tests_cant": "unbounded inputs; strictness relies on distinctness of an intermediate result", "anchors": ["src/validate.h: Random::increasing", "src/validate.h: Random::decreasing", "src/validate.h: Random::nonDecreasing", "src/validate.h: Random::nonIncreasing", "src/validate.h: Random::multiple"]}
{"id": "C10", "title": "Random::partition returns k parts >= min with sum n", "statement": "For accepted arguments Random::partition(n, k, min) returns exactly k numbers, each >= min, whose sum is n, and all such compositions are equally likely.", "quantifier": "all n, k, min accepted by the function without overflow, all draws", "why_tests_cant": "infinitely many argument triples, boundary k*min = n", "anchors": ["src/validate.h: Random::partition"]}
{"id": "C11", "title": "Random::bracketSequence is balanced", "statement": "Random::bracketSequence(n) has length 2n, contains n opening and n closing characters and no prefix has more closing than opening characters, whatever is drawn; every balanced sequence has the same probability.", "quantifier": "all 0 <= n <= 2^31-1 and all draws", "why_tests_cant": "Catalan(n) many outputs; balance must hold on every path", "anchors": ["src/validate.h: Random::bracketSequence"]}
{"id": "C12", "title": "applyMod and mulMod return the exact residue", "statement": "For mod > 0, applyMod(x, mod) and mulMod(a, b, mod) lie in [0, mod) and are congruent to x and a*b; no intermediate overflow occurs on either the 128-bit or the portable path.", "quantifier": "all 64-bit x, a, b and mod > 0", "why_tests_cant": "2^192 inputs; overflow only near the type limits", "anchors": ["src/validate.h: applyMod", "src/validate.h: mulMod", "src/validate.h: details::mulMod"]}
{"id": "C13", "title": "powMod returns the exact power residue", "statement": "For mod > 0 and exp >= 0, powMod(base, exp, mod) lies in [0, mod) and is congruent to base^exp, with the single exception exp = 0, mod = 1 where it returns 1.", "quantifier": "all 64-bit base, exp >= 0, mod > 0", "why_tests_cant": "64-bit inputs; the two multiplication paths switch at 2^32 and the mod 1 boundary is special", "anchors": ["src/validate.h: powMod", "src/validate.h: details::powMod"]}
{"id": "C14", "title": "multInv returns the inverse or -1", "statement": "For mod > 0 and n >= 0, multInv(n, mod) returns x in [0, mod) with n*x congruent 1 modulo mod if gcd(n, mod) = 1, and -1 otherwise, without signed overflow. (For negative n it can return -1 although an inverse exists.)", "quantifier": "all 64-bit n >= 0 and mod > 0", "why_tests_cant": "overflow freedom of extended Euclid is a bound on Bezout coefficients for all pairs; sign cases", "anchors": ["src/validate.h: multInv", "src/validate.h: details::extendedEuclid"]}
{"id": "C15", "title": "isPrime never rejects a prime", "statement": "isPrime(n) is true for every prime n representable in Integer, and false for every n <= 1, every even n > 2 and every n with a prime factor <= 131 other than itself; for n < 137^3 it is exactly primality. Above 131 it accepts exactly the n without divisor from 2 to 131 that are Fermat probable primes to base 132 and strong probable primes to the seven bases (bases divisible by n apart).", "quantifier": "all 64-bit n", "why_tests_cant": "2^63 inputs; correctness of Miller-Rabin on primes is Fermat plus square roots of one", "anchors": ["src/validate.h: isPrime", "src/validate.h: details::powMod", "src/validate.h: details::MILLER_RABIN_WITNESS", "src/validate.h: details::TRIAL_PRIMES"]}
{"id": "C16", "title": "primes(lower, upper) lists the primes of the range in increasing order", "statement": "For ranges of at most 0x3FFFFFFF numbers that do not end near 2^63 the result is strictly increasing and contains every prime n with lower <= n < upper; a listed number that is not prime is at least 137^3, at least the square of the width, and passes all tests of isPrime - so the list is exact if upper is at most 137^3 or the square of the width. Wider ranges and ranges near 2^63 are undefined behaviour.", "quantifier": "all lower < upper in the stated window", "why_tests_cant": "the segment sieve with halved indices has many off-by-one places that depend on parity of lower", "anchors": ["src/validate.h: primes"]}
{"id": "C17", "title": "Random::prime returns a prime of the range", "statement": "If upper != 2 and 4*(upper-lower) does not overflow, Random::prime(lower, upper) either throws or returns a v with lower <= v < upper that passes isPrime, and every prime of the range can be returned, each with the same probability. (prime(0, 2) returns 2, which is outside of the range; wide ranges are undefined behaviour.) The law is exact: let n be the number of values of the range that are 2 or odd and above, g the number of those that isPrime takes and t = min(6400, 4*(upper-lower)). Then it throws with probability ((n-g)/n)^t, and each of the g values has probability (1 - ((n-g)/n)^t)/g. So in a range of at most 1600 numbers with a prime it throws with probability at most 1/128.", "quantifier": "all 64-bit lower, upper != 2 with 4*(upper-lower) representable, all draws", "why_tests_cant": "boundary ranges [.., 2) and ranges wider than 2^61", "anchors": ["src/validate.h: Random::prime"]}
{"id": "C18", "title": "isPerm(first,last,offset) decides permutations and its reason is a culprit", "statement": "isPerm is true iff the sequence is a permutation of offset..offset+n-1; if false, the reason is the first element that is out of range or repeats an earlier one.", "quantifier": "all integer sequences and offsets without overflow", "why_tests_cant": "all sequences of all lengths", "anchors": ["src/validate.h: isPerm(RandomIt, RandomIt, offset)"]}
{"id": "C19", "title": "isPerm of two ranges decides multiset equality and names a culprit", "statement": "isPerm(A, B) is true iff B is a rearrangement of A; without equal lengths no reason is given; otherwise the reported reason is an element of A that A contains more often than B or below which A has fewer elements than B (its own multiplicities may be equal).", "quantifier": "all pairs of sequences over a totally ordered type", "why_tests_cant": "multiplicity claims about sorting all sequences", "anchors": ["src/validate.h: isPerm(itA, itA, itB, itB)"]}
{"id": "C20", "title": "allAdjacent/anyAdjacent/noneAdjacent decide their predicate on neighbours and point at the first culprit", "statement": "anyAdjacent is true iff some neighbouring pair satisfies p, noneAdjacent iff none does, allAdjacent iff all do; the reason is the (1-based) position of the first pair deciding the answer. This holds for all overloads except allAdjacent(container, p), which computes noneAdjacent. areIncreasing, areNonDecreasing, areDecreasing, areNonIncreasing decide the corresponding order of the whole sequence.", "quantifier": "all sequences and predicates", "why_tests_cant": "overloads are generic; a test with one predicate cannot separate them", "anchors": ["src/validate.h: anyAdjacent", "src/validate.h: noneAdjacent", "src/validate.h: allAdjacent", "src/validate.h: areIncreasing", "src/validate.h: areNonDecreasing", "src/validate.h: areDecreasing", "src/validate.h: areNonIncreasing"]}
{"id": "C21", "title": "areDistinct decides distinctness and its reason is a repeated value", "statement": "areDistinct is true iff no value occurs twice; a reported reason occurs at least twice in the input.", "quantifier": "all sequences over a totally ordered type", "why_tests_cant": "all sequences", "anchors": ["src/validate.h: areDistinct"]}
{"id": "C22", "title": "range(from, to, step) is the arithmetic progression", "statement": "range returns from, from+step, ... containing exactly the values reachable before to (exclusive) in the direction of step, without overflow for any 64-bit from and to; step = 0 throws. (step = -2^63 is undefined behaviour.)", "quantifier": "all 64-bit from, to and non-zero step other than -2^63", "why_tests_cant": "extreme endpoints overflow naive implementations", "anchors": ["src/validate.h: range(Integer, Integer, Integer)"]}
{"id": "C23", "title": "Random::discrete follows its weights", "statement": "discrete<w0,...,wk>() returns index i with probability exactly wi / sum(w); in particular indices of weight 0 never occur.", "quantifier": "all weight lists with non-negative weights and positive representable sum, all draws", "why_tests_cant": "probabilities are not testable; zero weights at the borders", "anchors": ["src/validate.h: Random::discrete", "src/validate.h: Random::details::prefixSum"]}
{"id": "C24", "title": "stringEqual reports equality and the first difference", "statement": "details::stringEqual is true iff the strings agree (up to ASCII case when insensitive); otherwise the reported index is the first position where they differ or the length of the shorter one.", "quantifier": "all pairs of strings, both case modes", "why_tests_cant": "all strings; prefix cases", "anchors": ["src/validate.h: details::stringEqual", "src/validate.h: toDefaultCase"]}
{"id": "C25", "title": "isInteger accepts exactly canonical 64-bit decimal integers", "statement": "isInteger(s) is true iff s is the canonical decimal representation (no plus sign, no leading zeros, no -0) of an integer in [-2^63, 2^63), and its value is that integer.", "quantifier": "all strings", "why_tests_cant": "infinite set of strings; interplay of regular expression and from_chars range check", "anchors": ["src/validate.h: isInteger", "src/validate.h: INTEGER_REGEX", "src/validate.h: details::parse"]}
{"id": "C26", "title": "realStrict accepts exactly the strict decimals in its bounds", "statement": "InputStream::realStrict(lower, upper, minDecimals, maxDecimals) succeeds iff the next token is an optional minus, digits without superfluous leading zero before a dot, and a number k of digits behind the dot with minDecimals <= k < maxDecimals, and its value lies in [lower, upper); it fails with the configured verdict otherwise. Exception: a token without a dot may have leading zeros (01 is accepted).", "quantifier": "all tokens, all bounds, any number parser", "why_tests_cant": "the regular expression lets digits follow an optional dot, so failing strings are easily missed", "anchors": ["src/validate.h: InputStream::realStrict", "src/validate.h: STRICT_REAL_REGEX"]}
{"id": "C27", "title": "Strict integer input is accepted iff byte-exact", "statement": "With spaceSensitive on, testIn.integers(lower, upper, n, sep); newline(); eof() succeeds iff the file is exactly the n canonical integers in [lower, upper) joined by sep followed by a single newline; the values returned are those integers.", "quantifier": "all byte strings", "why_tests_cant": "infinitely many malformed files", "anchors": ["src/validate.h: InputStream::integers", "src/validate.h: InputStream::integer", "src/validate.h: InputStream::newline", "src/validate.h: InputStream::eof", "src/validate.h: InputStream::string"]}
{"id": "C28", "title": "InputStream::integer enforces its bounds", "statement": "integer(lower, upper) returns v only if lower <= v < upper and fails otherwise; the same holds for the length bounds of string(lower, upper).", "quantifier": "all streams and bounds", "why_tests_cant": "half-open convention at both ends", "anchors": ["src/validate.h: InputStream::integer(Integer, Integer)", "src/validate.h: InputStream::string(Integer, Integer)"]}
{"id": "C29", "title": "expectReal accepts exactly the values outside the tolerance", "statement": "expectReal(expected) reads a real token and succeeds iff the parsed value is NOT floatEqual to expected (the test in the source is inverted: the documented meaning, success iff floatEqual, is false); a token is read as a real iff it is a decimal with optional sign, fraction and exponent that the number parser accepts.", "quantifier": "all streams and expected values, any number parser", "why_tests_cant": "inverted condition; infinitely many tokens", "anchors": ["src/validate.h: InputStream::expectReal", "src/validate.h: InputStream::real", "src/validate.h: REAL_REGEX"]}
{"id": "C30", "title": "Command line arguments are grouped by command", "statement": "arguments[c] exists iff the argument c (longer than two characters, starting with --) was given; its parameters are exactly the arguments between it and the next command, in order; construction throws iff a command is given twice; asInteger(default) returns the default iff the command is absent or has no parameter; getRaw(t) yields everything after the first occurrence of t; a parameter converts to an integer iff it is an optional plus, an optional minus and digits of a value in the 64-bit range, and throws otherwise.", "quantifier": "all argument vectors", "why_tests_cant": "unbounded argument vectors, order and repetition matter", "anchors": ["src/validate.h: CommandParser", "src/validate.h: Command", "src/validate.h: Parameter"]}
{"id": "C31", "title": "Constraint log covers all observed values", "statement": "After any sequence of log calls (no NaN) the written log lists exactly the names with a logged value, in order of first access; each with the true minimum and maximum of its values, the least lower and greatest upper bound, and hadMin/hadMax set iff some call had its value at its lower / inclusive upper bound. The calls succeed iff names are tokens, upper-1 does not overflow and each name keeps one type; a second type throws.", "quantifier": "all sequences of log operations on any number of names", "why_tests_cant": "stateful over unbounded operation sequences", "anchors": ["src/validate.h: Constraint", "src/validate.h: ConstraintsLogger", "src/validate.h: details::Bounds"]}
{"id": "C32", "title": "UnionFind maintains exactly the equivalence closure of the unions", "statement": "After any sequence of unionSets calls, connected(a, b) holds iff a and b are linked by a chain of performed unions; unionSets returns true iff they were not linked before; findSet terminates and never changes the answers although it compresses paths.", "quantifier": "all sizes and all operation sequences", "why_tests_cant": "unbounded operation sequences; mutation during const queries", "anchors": ["src/graph_val.h: UnionFind"]}
{"id": "C33", "title": "Graph::isConnected/isForest/isTree/areConnected agree with graph theory", "statement": "After adding any edges to Graph, areConnected = reachability, isConnected iff all vertices are mutually reachable, isForest iff there is no cycle (no edge joins vertices connected by the other edges), isTree iff connected and acyclic.", "quantifier": "all vertex ranges [l, r) and edge sequences, including self loops and multi edges", "why_tests_cant": "all graphs", "anchors": ["src/graph_val.h: Graph"]}
{"id": "C34", "title": "Graph::isBipartite decides 2-colourability", "statement": "isBipartite() holds iff the vertices can be 2-coloured such that each added edge has differently coloured ends.", "quantifier": "all graphs", "why_tests_cant": "all graphs; the doubled union-find argument", "anchors": ["src/graph_val.h: Graph::addEdge"]}
{"id": "C35", "title": "hasSelfloop/hasMultiedge/hasEdge/edgeCount report the edge multiset", "statement": "hasSelfloop is set iff some added edge is a loop, hasMultiedge iff two added edges join the same (unordered, for Graph) pair, with a witness that really is one; hasEdge and degree reflect exactly the added edges.", "quantifier": "all edge sequences", "why_tests_cant": "all edge sequences; orientation of undirected repeats", "anchors": ["src/graph_val.h: BaseGraph::addEdge_", "src/graph_val.h: Graph::addEdge", "src/graph_val.h: DiGraph::addEdge"]}
{"id": "C36", "title": "DiGraph::isTree returns the root exactly for rooted trees, but may return a non-vertex otherwise", "statement": "isTree returns a vertex iff the digraph is an arborescence with that vertex as root (every vertex reachable from it, exactly one in-edge each except for the root); for other digraphs it returns nothing or the number one past the last vertex, and the latter does happen, so testing the result for presence is not a tree test.", "quantifier": "all digraphs", "why_tests_cant": "accepted non-trees need a cycle beside an isolated vertex", "anchors": ["src/graph_val.h: DiGraph::isTree", "src/graph_val.h: DiGraph::addEdge"]}
{"id": "C37", "title": "DiGraph::isDAG returns an order only for digraphs without edges", "statement": "isDAG terminates without undefined behaviour and returns an order iff the digraph has no edges at all; in particular it returns nothing for acyclic digraphs with an edge. The order lists all nodes from the last to the first.", "quantifier": "all digraphs", "why_tests_cant": "the test suite has no case with an edge", "anchors": ["src/graph_val.h: DiGraph::isDAG"]}
{"id": "C38", "title": "Generator graph edge store is consistent under every operation", "statement": "After any sequence of addEdge and eraseEdge, edgeCount, hasEdge, degree and the neighbour lists of graph_gen.h graphs describe the same edge multiset: exactly the edges added and not erased.", "quantifier": "all operation sequences", "why_tests_cant": "swap-with-last erase keeps cross indices; a single wrong index survives most tests", "anchors": ["src/graph_gen.h: GraphType::addEdge", "src/graph_gen.h: GraphType::eraseEdge", "src/graph_gen.h: GraphType::hasEdge"]}
{"id": "C39", "title": "Deterministic graph generators produce the documented graphs", "statement": "independent, clique, bipartite, star, path, cycle, lolly, broom, grid and hypercube have exactly the documented node range and adjacency relation for every size; cycle(n) throws for n <= 1. booleanLattice(k) is the Hasse diagram with arcs from a set to its maximal proper subsets; rado(n) joins u with the positions of its bits except when u is a power of two; completeTree(level, c) is the complete c-ary tree of depth max(1, level - 1) in preorder; wheel(n) is not a wheel. Shifts are computed in int: booleanLattice is undefined for levels below 0 or above 31 and throws for 31, rado is undefined for n > 2^30 + 1 (the exceptions contradict the comments in the header and are refuted).", "quantifier": "all sizes", "why_tests_cant": "infinitely many sizes; the exceptions concern single edges", "anchors": ["src/graph_gen.h: clique", "src/graph_gen.h: bipartite", "src/graph_gen.h: star", "src/graph_gen.h: path", "src/graph_gen.h: cycle", "src/graph_gen.h: wheel", "src/graph_gen.h: lolly", "src/graph_gen.h: broom", "src/graph_gen.h: grid", "src/graph_gen.h: hypercube", "src/graph_gen.h: completeTree", "src/graph_gen.h: booleanLattice", "src/graph_gen.h: rado"]}
{"id": "C40", "title": "pruefer decodes Pruefer codes bijectively; randomTree is uniform over the labelled trees", "statement": "For every code over n = size + 2 nodes, pruefer yields a tree on [0, n) in which node v has degree 1 + (number of occurrences of v); removing the smallest leaf again and again gives the code back, and every tree on [0, n) is the graph of exactly one code. Hence randomTree(n) returns each of the n^(n-2) labelled trees with the same probability. The directed randomTree(n) returns an arborescence with root 0 whose underlying tree is uniform.", "quantifier": "all codes, all n, all draws", "why_tests_cant": "n^(n-2) codes; uniformity is a statement about all of them", "anchors": ["src/graph_gen.h: pruefer", "src/graph_gen.h: randomTree"]}
{"id": "C41", "title": "randomGraph(n, m) and randomBipartite(n, m, k) draw an edge set uniformly", "statement": "Both generators decode distinct numbers by a bijection onto the admissible pairs, so randomGraph(n, m) returns a simple graph on [0, n) with exactly m edges and randomBipartite(n, m, k) one with k edges, all of them between [0, n) and [n, n + m); every such edge set is equally likely. A negative count or one above the number of pairs throws.", "quantifier": "all n, m, draws", "why_tests_cant": "the triangular index decoding has corner cases at row ends", "anchors": ["src/graph_gen.h: randomGraph(Integer, Integer)", "src/graph_gen.h: randomBipartite"]}
{"id": "C42", "title": "xoshiro256** jump equals 2^128 steps", "statement": "Xoshiro256ss::jump() leaves the engine in the state reached after 2^128 calls of operator(), for every state.", "quantifier": "all 2^256 states", "why_tests_cant": "2^128 calls cannot be executed", "anchors": ["src/rng.h: Xoshiro256ss"]}
{"id": "C43", "title": "xoshiro256** step is a bijection and never reaches the zero state", "statement": "Different states have different successors, every state is a successor, the all-zero state is reached only from itself, no seed produces it, and engines of different seeds are never in the same state after the same number of calls. Only the constructor from a whole state can make the all-zero state (and then all outputs are 0).", "quantifier": "all states, all seeds, any number of calls", "why_tests_cant": "2^256 states", "anchors": ["src/rng.h: Xoshiro256ss"]}
{"id": "C44", "title": "AES engine is AES-256 in counter mode", "statement": "Encrypting a block is the AES-256 cipher of FIPS 197 for every key and block and, under one key, a permutation of the blocks; AES_RNG encrypts a counter that is incremented modulo 2^128 by every call, so within 2^128 calls no block is encrypted twice, the state has period exactly 2^128, and every 64-bit value is returned equally often.", "quantifier": "all keys, blocks, starting counters and call numbers", "why_tests_cant": "2^256 keys and 2^128 calls; a wrong table entry or carry shows up for few inputs only", "anchors": ["src/secure_rng.h: AES_RNG", "src/secure_rng.h: AES"]}
{"id": "C45", "title": "PNG output decodes to the drawn pixels", "statement": "After any sequence of calls (clear, operator(), fillRectangle, floodFill, drawLine) that returns, a standard PNG decoder (chunk layout, CRC-32, zlib stored blocks, Adler-32, filter 0) applied to the written bytes returns exactly the width, height and pixels of the image, last row on top, as long as the data chunk stays below 2^31 bytes; clear also admits larger images, whose file is invalid.", "quantifier": "all call sequences, image sizes up to the stated limit and all pixel values", "why_tests_cant": "all images; checksums and block lengths at every size", "anchors": ["src/visualizer_png.h: details::PNGWriter", "src/visualizer_png.h: PNG"]}
{"id": "C46", "title": "floodFill recolours exactly the 4-connected component", "statement": "floodFill<M>(p, c) returns; exactly the pixels connected to p through equal-coloured 4-neighbours are combined with c, each exactly once. A start outside of the image is read out of bounds.", "quantifier": "all images, seeds, colours and blend modes", "why_tests_cant": "all images", "anchors": ["src/visualizer_png.h: PNG::floodFill"]}
{"id": "C47", "title": "isConvex and isStrictlyConvex", "statement": "For |coordinates| < 2^30 isConvex/isStrictlyConvex never overflow and accept every (strictly) convex counter-clockwise polygon; a polygon is convex iff isConvex accepts it from every corner, and with up to four corners iff it is accepted once; a polygon is strictly convex iff isStrictlyConvex accepts it and all other corners lie left of the first side. Without this extra condition isStrictlyConvex accepts some self-intersecting hexagon.", "quantifier": "all polygons in the coordinate bounds", "why_tests_cant": "overflow bounds and completeness are universal statements; the wrongly accepted polygons wind around their first corner", "anchors": ["src/validate.h: isConvex", "src/validate.h: isStrictlyConvex"]}
{"id": "C48", "title": "Multipass state is handed from pass k to pass k+1", "statement": "Started without a .pass file, pass k of a multipass run has number k and reads from prevstate exactly what pass k-1 wrote to nextstate, whatever other files exist; a pass changes only .pass, its state file and nextpass.in.", "quantifier": "all numbers of passes, all states, all validators", "why_tests_cant": "unbounded number of passes; alternation of two files", "anchors": ["src/validate.h: Multipass"]}
{"id": "C49", "title": "Random::bit is unbiased", "statement": "Random::bit() returns the parity of the bits of one engine word: exactly half of the 2^64 words give 1, each.", "quantifier": "all 2^64 engine words", "why_tests_cant": "statistical tests cannot show exact balance", "anchors": ["src/validate.h: Random::bit"]}
{"id": "C50", "title": "Random::string is uniform over its alphabet", "statement": "Random::string(n, alphabet) returns n characters of the alphabet and every such string has probability exactly 1/|alphabet|^n (for an alphabet without repetitions); select returns each element with probability multiplicity/size.", "quantifier": "all n < 2^32, all non-empty alphabets, all draws", "why_tests_cant": "|alphabet|^n outcomes", "anchors": ["src/validate.h: Random::string", "src/validate.h: Random::select"]}
{"id": "C51", "title": "thueMorse(lower, upper) is the Thue-Morse sequence", "statement": "thueMorse(lower, upper) returns t(lower), ..., t(upper-1) where t(0) = 0, t(2n) = t(n), t(2n+1) = 1 - t(n); empty or negative ranges throw.", "quantifier": "all 64-bit 0 <= lower < upper", "why_tests_cant": "unbounded sequence compared to its recursion", "anchors": ["src/validate.h: thueMorse"]}
{"id": "C52", "title": "floatEqual is a total, reflexive, monotone comparison", "statement": "floatEqual(given, expected, absTol, relTol) throws iff a tolerance is negative or NaN and otherwise always answers; it is reflexive (also on infinities and NaN), a non-finite value equals only the same non-finite value, and larger tolerances never reject what smaller ones accept.", "quantifier": "all pairs of long double values and tolerances", "why_tests_cant": "2^160 argument pairs, special values", "anchors": ["src/validate.h: floatEqual"]}
{"id": "C53", "title": "Whitespace-insensitive reading accepts exactly the token sequence", "statement": "With spaceSensitive off, integers/strings(..., n, sep); newline(); eof() succeed iff the whitespace-separated tokens of the file are exactly n tokens (canonical integers in range), whatever the whitespace between, before and behind; otherwise the configured verdict is given.", "quantifier": "all byte strings", "why_tests_cant": "infinitely many layouts of the same tokens", "anchors": ["src/validate.h: InputStream::integers", "src/validate.h: InputStream::strings", "src/validate.h: InputStream::space", "src/validate.h: InputStream::newline", "src/validate.h: InputStream::eof"]}
{"id": "C54", "title": "expectString and expectInt accept exactly the expected token", "statement": "expectString(e) succeeds iff the next token equals e (up to case when case-insensitive) and throws iff e is not a token; expectInt(e) succeeds iff the next token is the canonical decimal of e; otherwise the configured verdict is given.", "quantifier": "all streams and expected values", "why_tests_cant": "all strings", "anchors": ["src/validate.h: InputStream::expectString", "src/validate.h: InputStream::expectInt"]}
{"id": "C55", "title": "Renumbering, reversing, (un)directing and complementing a generated graph", "statement": "copying, setMinId and normalize keep the adjacency up to the shift of the node numbers; reverse swaps the arcs; undirected() joins u and v iff u->v or v->u; directed(p) keeps u->v exactly for the edges with p(u, v); complement joins exactly the non-adjacent pairs of distinct nodes; range(from, to) is the induced subgraph on [from, to) for graphs whose nodes start at 0 (for others it is not) and throws iff to < from.", "quantifier": "all reachable graphs, all arguments", "why_tests_cant": "all graphs", "anchors": ["src/graph_gen.h: setMinId", "src/graph_gen.h: normalize", "src/graph_gen.h: range", "src/graph_gen.h: reverse", "src/graph_gen.h: complement", "src/graph_gen.h: undirected", "src/graph_gen.h: directed"]}
{"id": "C56", "title": "combine and append are union and disjoint union", "statement": "combine(o) is the union of the two graphs on the hull of the node ranges where o's edge data win; append(o) is the disjoint union with o's nodes renumbered behind the first graph's.", "quantifier": "all pairs of reachable graphs", "why_tests_cant": "all pairs of graphs", "anchors": ["src/graph_gen.h: combine", "src/graph_gen.h: append"]}
{"id": "C57", "title": "Graph products and line graphs", "statement": "product, cartesianProduct and strongProduct have exactly the adjacency relation of the tensor, cartesian and strong product on the numbered pairs of nodes; lineGraph joins two different edges iff they share an endpoint (undirected) or the head of the first is the tail of the second (directed).", "quantifier": "all pairs of reachable graphs", "why_tests_cant": "all pairs of graphs", "anchors": ["src/graph_gen.h: product", "src/graph_gen.h: cartesianProduct", "src/graph_gen.h: strongProduct", "src/graph_gen.h: lineGraph"]}
{"id": "C58", "title": "power(k) joins nodes at distance at most k", "statement": "For directed graphs power(k) has an edge u->v iff u != v and some walk of at most k edges leads from u to v; for k = nodeCount() (transitiveClosure) iff u != v and v can be reached from u. For undirected graphs every edge is stored twice, so erasing does not remove it (refuted).", "quantifier": "all reachable graphs, all k", "why_tests_cant": "all graphs and k", "anchors": ["src/graph_gen.h: power", "src/graph_gen.h: transitiveClosure"]}
{"id": "C59", "title": "permutate and subgraph randomise without changing the graph's structure", "statement": "permutateEdges leaves the graph itself unchanged; permutate renames the nodes by a permutation (isomorphism) for all random draws; subgraph(m) has min(m, edgeCount) edges, all of them edges of the graph with their data, and throws for m < 0. Each set of m edges is equally likely in subgraph, and all labelled copies of the graph are equally likely in permutate. permutateEdges and permutate with a given permutation list the m edges in each order, the ends of undirected edges in each order, with probability 1/m! (directed) or 1/(m! 2^m); in permutate a list of edges has this probability times the share of the n! permutations of nodes that make it a list of the graph. A permutation of wrong length leads to out of bounds accesses.", "quantifier": "all reachable graphs, all draws", "why_tests_cant": "all random draws", "anchors": ["src/graph_gen.h: permutateEdges", "src/graph_gen.h: permutate", "src/graph_gen.h: subgraph"]}
{"id": "C60", "title": "xoshiro256** is equidistributed in four dimensions", "statement": "For any four 64-bit words there is exactly one state from which the next four calls of operator() return these words; so two engines that agree on four consecutive outputs agree for ever.", "quantifier": "all states, all 2^256 quadruples of outputs", "why_tests_cant": "2^256 states", "anchors": ["src/rng.h: Xoshiro256ss::operator()"]}
{"id": "C61", "title": "xoshiro256** has full period", "statement": "From every state but the all-zero one the engine returns to its state after exactly the multiples of 2^256 - 1 calls, visits every other nonzero state in between, returns every quadruple of words other than four zeros exactly once per period at four consecutive calls, and the 2^128-call streams separated by jump() never share a state.", "quantifier": "all nonzero states, all call counts", "why_tests_cant": "a period of 2^256 - 1 calls cannot be executed", "anchors": ["src/rng.h: Xoshiro256ss"]}
{"id": "C62", "title": "Seeds of AES_RNG select shifts of one stream", "statement": "Different seeds give different AES_RNG objects; since the seed is only mixed into the low 64 bits of the counter, the streams of any two seeds are shifts of each other by less than 2^64 calls - seed 0 after one call is seed 1.", "quantifier": "all pairs of 64-bit seeds", "why_tests_cant": "2^128 pairs of seeds, shifts up to 2^64", "anchors": ["src/secure_rng.h: AES_RNG"]}
{"id": "C63", "title": "fillRectangle fails outside of row 1", "statement": "Because its condition assigns to the loop variable (y = a.y or ...), fillRectangle never returns when a corner lies in row 2 or above; with corners in rows 0 and 1 it can miss pixels of the rectangle or access a row outside of the image; rectangles within row 1 are drawn correctly.", "quantifier": "all images, rectangles, colours and blend modes", "why_tests_cant": "non-termination cannot be observed by a test, and holds for every such rectangle", "anchors": ["src/visualizer_png.h: PNG::fillRectangle"]}
{"id": "C64", "title": "drawLine draws a digital line", "statement": "drawLine<M>(a, b, c) returns and combines with c exactly the pixels of a path from a to b, each once: max(|dx|,|dy|)+1 pixels, consecutive ones touching, each at most half a pixel away from the segment and within its bounding box. There is no clipping: it returns only if both end points are pixels of the image.", "quantifier": "all images, end points, colours and blend modes", "why_tests_cant": "all slopes and lengths", "anchors": ["src/visualizer_png.h: PNG::drawLine"]}
{"id": "C65", "title": "Colour arithmetic stays in range", "statement": "Adding and subtracting colours saturates per channel; blending yields channels between those of the operands, an alpha no smaller than either, and keeps opaque pixels opaque; Color(0xRRGGBB, a) has the given channels. The alpha of a blend is that of the exact composition rounded down, each channel differs from the exact one by less than 1 plus the difference of the operands divided by the exact alpha, and over an opaque pixel it is the exact one rounded down; an opaque upper colour replaces and a transparent one changes nothing. The draw modes assign, blend, add and subtract with these operations.", "quantifier": "all colours", "why_tests_cant": "2^64 pairs of colours", "anchors": ["src/visualizer_png.h: Color"]}
{"id": "C66", "title": "isCCW computes the orientation", "statement": "Whenever isCCW returns, it tells whether the signed area is positive: independent of the starting corner, not true for both a polygon and its reverse, true for convex polygons. It returns if 2*n*m^2 < 2^63 for n corners with coordinates up to m; within the asserted bounds the partial sums can overflow, even for a simple polygon. dot, cross(a, b) and cross(p, a, b) are the exact products (cross: twice the signed area), and undefined if a product or the result is no Integer.", "quantifier": "all polygons", "why_tests_cant": "the overflowing polygons are special", "anchors": ["src/validate.h: isCCW"]}
{"id": "C67", "title": "nonCollinearPoints: general position for good moduli", "statement": "Random::nonCollinearPoints(n, dim) with 0 <= n < dim <= 0x1FFFFFFF has no undefined behaviour and, unless it throws, returns n points with coordinates below dim in absolute value; if the modulus it draws is a prime p and p = 3 mod 4 or p does not divide rotA^2 + rotB^2 then the points are distinct and no three of them are collinear. Otherwise (p = 2 or p = 1 mod 4 with an unlucky rotation) points can coincide or be collinear, and a modulus of 2*dim-1 or more makes the call throw.", "quantifier": "all n, dim and all outcomes of the random draws", "why_tests_cant": "the failing rotations have probability about 2/p; the exceptions depend on the drawn prime", "anchors": ["src/validate.h: Random::nonCollinearPoints"]}
{"id": "C68", "title": "Random::convex: bounding box and convexity", "statement": "Random::convex(n, dim) with 3 <= n <= 8*dim-8 and dim <= 0x3FFFFFFF has no undefined behaviour; every result has exactly n corners, touches all four sides of the square |x|, |y| <= dim-1, and is a convex polygon in counter-clockwise order without repeated corners - unless all corners are on one line, which can happen and which isConvex rejects. Other arguments throw. The comparator of cyclicSort is a strict weak order on nonzero vectors.", "quantifier": "all n, dim, all outcomes of the random draws, all implementations of std::sort and std::partition", "why_tests_cant": "random polygons with up to 2^33 corners; degenerate ones are rare", "anchors": ["src/validate.h: Random::convex", "src/validate.h: details::cyclicSort", "src/validate.h: details::left"]}
{"id": "C69", "title": "randomGraph for a degree sequence", "statement": "randomGraph(degree, averageFlips) returns a simple graph in which node i has degree max(0, degree[i]), for every sequence that some simple graph has (negative degrees count as 0) and every outcome of the random flips, without undefined behaviour; it throws for every sequence that no simple graph has. Exceptions: a nonempty sequence without a positive degree is rejected if averageFlips > 0; and not every graph with the given degrees can be returned, because the flips keep the roles from/to of the nodes. The queue gives the node with the largest remaining degree, among equal degrees the one with the largest number.", "quantifier": "all degree sequences, flip counts and outcomes of the random draws", "why_tests_cant": "all degree sequences; graphs that are never generated cannot be seen in samples", "anchors": ["src/graph_gen.h: randomGraph(degree, averageFlips)"]}
{"id": "C70", "title": "Flow values of the worst case networks", "statement": "ffWorstcase(n) for 1 <= n <= 63 is a network on 2n nodes with 4n-3 edges in the documented order whose maximum flow from 0 to 2n-1 is 2^(n-1) (not 2^n as its comment says), without overflow of the capacities. mcmfWorstcase(n) for 1 <= n <= 60 has maximum flow 5*2^(n-2)-2 from 0 to 2n+1 (1 for n = 1), and every maximum flow costs this value times 2^(n-1)-1. Other n throw.", "quantifier": "all n, all flows in the networks", "why_tests_cant": "a maximum over all flows with capacities up to 2^62", "anchors": ["src/graph_gen.h: ffWorstcase", "src/graph_gen.h: mcmfWorstcase"]}
{"id": "C71", "title": "isSimple recognises simple polygons", "statement": "For polygons with coordinates below 2^30 in absolute value isSimple is defined whatever the shape of its std::set. It accepts every simple polygon. If it accepts a polygon in which no side returns on the one before it, the polygon is simple; with such a spike it may accept although two other sides meet. Larger coordinates throw.", "quantifier": "all polygons, all search trees of the sweep line", "why_tests_cant": "the sweep keeps segments ordered by a comparison that is no strict weak ordering of all segments; only the invariant of the sweep makes it one", "anchors": ["src/validate.h: isSimple"]}
{"id": "C72", "title": "What OutputStream writes InputStream reads back", "statement": "OutputStream prints an Integer in the notation InputStream accepts; join puts the separator between the elements only (nothing for NOSEP); pairs, tuples and containers print their leaves with single spaces, as long as no part is empty; bools print as true and false. Integers, bools and strings without white space written with join and a newline are read back unchanged by the space sensitive reader, and a file of lines of integers is accepted with given lengths exactly if it is what the writer writes for such lines. With an empty inner container two separators follow each other: the strict reader rejects the file, the lenient one reads the same values.", "quantifier": "all values, nestings, separators and files", "why_tests_cant": "round trips over all nested values; the exception needs an empty inner part", "anchors": ["src/validate.h: OutputStream", "src/validate.h: join", "src/validate.h: InputStream::integers", "src/validate.h: InputStream::strings"]}
{"id": "C73", "title": "A printed graph is read, accepted and judged as generated", "statement": "A file is accepted by the strict reader of a graph (n, m, m edges, numbers behind the edges, limits for all of them) exactly if it is n, m and the edges in the format of operator<<, and then the answers of Graph are those for the edges in the file. A generated graph that is printed with operator<< and a newline is accepted under limits that admit it; node and edge count, hasEdge, hasReverse and degrees of Graph / DiGraph agree with those of the generator's graph, there are no self loops and no multi edges, and connectivity, forest, tree and bipartiteness are those of the printed edges. In particular, whatever is drawn, a printed randomTree is accepted with isTree, a randomTreeDir with isTree = 0, a randomGraph(n, m) with m edges, a randomBipartite as bipartite.", "quantifier": "all graphs, limits, files and all outcomes of the random draws", "why_tests_cant": "two headers have to agree on all graphs of all sizes", "anchors": ["src/graph_gen.h: operator<<", "src/validate.h: InputStream::integer", "src/graph_val.h: Graph", "src/graph_val.h: DiGraph"]}
{"id": "C74", "title": "The error report points at the offending input", "statement": "When InputStream fails after reading up to some byte of the input, the report names the line and the (0-based) column of the last word or single character that was read from, shows at most 80 characters of its line with ellipses where something is left out, and puts a caret below the first character of that part (always visible, left of column 60) and tildes below the rest of it as far as shown; it never throws. No position is given if the part is a word that ends the file. Exception: if the part is a newline, the line number is one too large. The message of expectString is defined, shows at most 25 characters of each word, the first difference among them, and its position if it is behind the fifth character; the two texts shown can still be equal for different words.", "quantifier": "all inputs, all positions, all pairs of words", "why_tests_cant": "index arithmetic with two cuts and unsigned differences over all line lengths; the exceptions are special inputs", "anchors": ["src/validate.h: InputStream::fail", "src/validate.h: InputStream::expectString"]}
{"id": "C75", "title": "The view box of an SVG image", "statement": "In exact arithmetic the viewBox that SVG::write prints is the smallest box, in the flipped coordinates of the file, that contains the point (0, 0) and all shapes (rectangles, circles, ellipses, polygons, lines, polylines) put into the image - before any text of their statement: since operator<< for a comment, a string or std::endl returns std::ostream&, a shape that follows one in the same statement is printed but not included. With long double a point may be left outside by rounding. The width of strokes is not included.", "quantifier": "all sequences of statements and shapes with rational coordinates", "why_tests_cant": "all sequences of shapes; the exceptions are overload resolution and rounding", "anchors": ["src/visualizer_svg.h: SVG::includeInBB", "src/visualizer_svg.h: SVG::write", "src/visualizer_svg.h: operator<<(SVG&, ...)"]}
{"id": "C76", "title": "Random::real() and its intervals", "statement": "real() returns a number of [0, 1], not 0 unless the engine gives fifteen words 0 in a row, and for every double t in (0, 1] not below 2^-1022 it is at least t with probability exactly 1 - t plus the error of rounding the mantissa to a double, at most half a unit in the last place of t. real(upper) and real(lower, upper) return numbers of [0, upper) and [lower, upper), and throw exactly if a bound is not finite or the interval is empty. Exception to the documentation: std::ldexp with an integer argument computes in double, and real() is 1 with probability 2^-54.", "quantifier": "all sequences of engine outputs, all bounds", "why_tests_cant": "probabilities of single results are far below what sampling can see; 1 is returned once in 2^54 calls", "anchors": ["src/validate.h: Random::real"]}
{"id": "C77", "title": "maximum, minimum and minmax of Random", "statement": "maximum(lower, upper, n) and minimum(lower, upper, n) return a number of [lower, upper) and throw for empty intervals and n < 1 (minimum if upper - lower and upper - 1 are Integers); for n < 5 they are distributed as the maximum and the minimum of n independent uniform numbers: P(maximum < t) = ((t - lower)/(upper - lower))^n, P(minimum >= t) = ((upper - t)/(upper - lower))^n. minmax is maximum for n > 0 and minimum of -n for n < 0. For n >= 5 maximum is lower plus (upper - lower) * u^(1/n) rounded down, with u = real(), cut to the range. Exception: minimum overflows if upper - lower >= 2^63, where maximum works.", "quantifier": "all 64-bit bounds and n, all random draws", "why_tests_cant": "the unsigned arithmetic of maximum and rounding to upper matter at the ends of the 64-bit range", "anchors": ["src/validate.h: Random::maximum", "src/validate.h: Random::minimum", "src/validate.h: Random::minmax"]}
{"id": "C78", "title": "Ranges of the random distributions", "statement": "exponential(lambda) is not negative, exponential(lower, upper, lambda), normal(lower, upper, ...) and geometric(lower, upper, p) are in [lower, upper), geometric(p) is not negative, binomial(n, p) is in [0, n] and binomial(lower, upper, n, p) in both intervals, binomial(n, 0) = 0 and binomial(n, 1) = n; arguments outside the domain throw. This needs that the gaps log(u) / log1p(-p) are Integers: geometric accepts p = 0, where they are infinite, and for tiny p > 0 geometric and binomial convert numbers that are no Integer (unspecified) and overflow. normal scales with the square root of the argument called stddev. normal evaluates the formula of Box and Muller with a full turn of two pi at two consecutive results of real(), normal(lower, upper, ...) takes the first value in the interval among the cosine and the sine results of the pairs; exponential is -log(real()) / lambda, exponential(lower, upper, lambda) the first lower - log(real()) / lambda below upper. geometric(p) is log(real()) / log1p(-p) rounded down, geometric(lower, upper, p) the first lower plus such a number below upper. With q the smaller one of p and 1 - p, binomial(n, p) counts for q * n < 10 the successes in n trials with gaps geometric(q) between them, and otherwise is the first candidate that the algorithm BTRS of Hoermann accepts; for p > 1/2 the count is subtracted from n.", "quantifier": "all arguments, all random draws, all mathematical library functions with the stated signs", "why_tests_cant": "all results of library functions and all draws; the exceptions are special arguments", "anchors": ["src/validate.h: Random::normal", "src/validate.h: Random::exponential", "src/validate.h: Random::geometric", "src/validate.h: Random::binomial"]}
{"id": "C79", "title": "randomGraph(n, p) and randomGrowingGraph", "statement": "randomGraph(n, p) returns a simple (di)graph on [0, n) with at most n(n-1)/2 edges; a graph with m edges has the probability that binomial(n(n-1)/2, p) is m, divided by the number of edge sets of size m, so graphs with the same number of edges are equally likely. randomGrowingGraph(n, p) returns a simple graph on [0, n); node i draws at most i earlier neighbours, independently of the other nodes, and all sets of earlier nodes of the drawn size are equally likely. Both throw if p is outside [0, 1]. Exception: for digraphs n(n-1)/2 is half of the arcs, so with p = 1 only half of them exist.", "quantifier": "all n and p, all random draws", "why_tests_cant": "all graphs and draws; rounding could make a degree exceed the number of earlier nodes", "anchors": ["src/graph_gen.h: randomGraph", "src/graph_gen.h: randomGrowingGraph"]}
{"id": "C80", "title": "floatEqual compares exact values up to rounding", "statement": "For finite values floatEqual(given, expected, absTol, relTol) accepts whenever |given - expected| <= absTol, and whenever |given - expected| <= (1 - 2^-63) relTol |expected| unless relTol |expected| exceeds the range of Real; and if it accepts, |given - expected| <= (1 + 2^-63) absTol or |given - expected| <= (1 + 2^-61) relTol |expected|. With both tolerances 0 it accepts exactly equal values, with an infinite absTol all finite values. floatLess (floatGreater) holds iff given <= expected (given >= expected) or floatEqual; one of them always holds and both exactly for floatEqual. Exceptions: the factors are needed, as the difference is rounded; and if given - expected overflows, values within relTol are rejected.", "quantifier": "all finite values and tolerances", "why_tests_cant": "rounding errors depend on single bits of 64-bit mantissas; the exceptions need special pairs of numbers", "anchors": ["src/validate.h: details::floatEqual", "src/validate.h: ValidateBase::floatLess", "src/validate.h: ValidateBase::floatGreater"]}
{"id": "C81", "title": "Settings and init", "statement": "init(argc, argv) throws iff it was called before, a command occurs twice, --seed has no integer or a tolerance flag is followed by no number. Otherwise each tolerance is the value of its own flag, else of float_tolerance, else the value set before; a sensitivity is on iff it was set before or its flag is among the arguments; the engine is seeded with the argument of --seed modulo 2^64. Settings can be changed before init and every change afterwards throws. InputValidator and AnswerValidator are always strict; the streams of the judge exit with FAIL and never check spaces, the stream of the submission exits with WA and follows the settings; missing arguments or files throw. Exception: the tolerances of the settings reach only testIn of InputValidator, all other streams keep 1e-6 whatever the flags say.", "quantifier": "all command lines, settings, file systems and inputs", "why_tests_cant": "arbitrary argument lists with repeated and missing flags; misconfigured streams only show in later reads", "anchors": ["src/validate.h: ValidateBase::details::init", "src/validate.h: SettingBase", "src/validate.h: InputValidator::init", "src/validate.h: AnswerValidator::init", "src/validate.h: OutputValidator::init", "src/validate.h: Interactor::init"]}
{"id": "C82", "title": "The example validators and interactors accept what their comments say", "statement": "inputValidator accepts exactly the files with two words in the first line, the second of length 5 or 6, and 5 or 6 in the second line; inputValidator.graph accepts exactly the trees with 2 to 99999 nodes and rejects all other files, so its check for bipartite graphs never fires; answerValidator accepts exactly t lines with numbers of [0, 100); outputValidator accepts exactly half of n, or impossible if the jury says so, and FAILs only if the files of the judge are malformed; outputValidator2 accepts No for No; interactor sends n and accepts impossible for even n; multipassInteractor accepts iff both runs of the submission give the same number. Exceptions: inputValidator.constraints reads no separators and rejects every file; outputValidator2 takes the solution of the team from the answer of the jury, so with the answer Yes 6 no submission is accepted and Yes 6 is a judge error, with Yes n for another n each submission that begins with Yes or No is a judge error, and with Yes 6 n a submission is accepted iff n = 6 and it is just Yes; interactor accepts nothing for odd n; 2 * ans overflows for large answers.", "quantifier": "all command lines, files and inputs", "why_tests_cant": "acceptance for all inputs cannot be tested; the exceptions are not visible in tests with only correct submissions for other answers", "anchors": ["example/inputValidator.cpp", "example/inputValidator.graph.cpp", "example/inputValidator.constraints.cpp", "example/answerValidator.cpp", "example/outputValidator.cpp", "example/outputValidator2.cpp", "example/interactor.cpp", "example/multipassInteractor.cpp"]}
{"id": "C83", "title": "The example generators print what their comments say", "statement": "generator prints n and n distinct numbers of [0, 10), each such sequence with probability (10 - n)!/10! and different sequences as different texts; it throws iff init throws, --n has no integer argument or n is outside [0, 10]. generator.graph prints 19 and 33 and the 33 arcs of a directed graph on the nodes [1, 20) without directed cycles whose underlying graph is the blueprint up to renaming of nodes: two cubes and a triangle, three corners of each cube joined to the triangle. Every such list of arcs, in every order, is printed with positive probability.", "quantifier": "all command lines and random draws", "why_tests_cant": "all results of all draws; probabilities of single outputs are too small for sampling", "anchors": ["example/generator.cpp", "example/generator.graph.cpp"]}
{"id": "C84", "title": "Decimals in files are compared up to rounding", "statement": "The tokens real() accepts are the decimals, each with one exact value q; if q is 0 or within the range of Real, the value returned is a number nearest to q, so it keeps the order and is at most 2^-64 |q| + 2^-16446 away. floatEqual of two such values accepts if the exact difference plus both errors is at most absTol, or at most (1 - 2^-63) relTol |q2| less its error, and if it accepts, the exact difference is at most (1 + 2^-63) absTol or (1 + 2^-61) relTol |q2| plus the errors. realStrict accepts a decimal with lower <= q that is not above some number below upper, and never one with q >= upper or with a number between q and lower. Exception: bounds are compared after rounding, so 0.999999999999999999999 is accepted with lower 1 and rejected with upper 1.", "quantifier": "all files, decimals of any length and exponent, tolerances and bounds", "why_tests_cant": "all decimals; errors are in the last of 64 bits and need decimals next to the bounds", "anchors": ["src/validate.h: details::parse<Real>", "src/validate.h: InputStream::real", "src/validate.h: InputStream::realStrict", "src/validate.h: details::floatEqual"]}
{"id": "C85", "title": "Colours with factors, interpolation and #rrggbb", "statement": "f*c is a colour for every factor; if |f| <= 2^55 each part including alpha is the exact product, clamped to [0, 255] and rounded (error at most 1/2 + 2^-56); with 0 <= f <= 1 no part grows, 1 keeps the colour, 0 gives TRANSPARENT. lerp stops the program iff f is no number of [0, 1]; otherwise each part is a*f + b*(1-f) with error at most 1 + 2^-54, 1 gives a and 0 gives b. The same holds for the svg colours, which are printed as the #rrggbb that CSS reads as this colour, differently for different colours. Exceptions: lerp between a colour and itself may be another colour; fading makes opaque colours transparent; the product with a huge factor is unspecified and on x87 gives black.", "quantifier": "all colours and factors, including infinities and NaN", "why_tests_cant": "256^8 pairs of colours and all factors; halves and rounding of products decide single units", "anchors": ["src/visualizer_png.h: operator*", "src/visualizer_png.h: lerp", "src/visualizer_png.h: clamp_color", "src/visualizer_svg.h: Color", "src/visualizer_svg.h: lerp", "src/visualizer_svg.h: operator<<(std::ostream&, const Color&)"]}
{"id": "C86", "title": "Printed reals can be read back", "statement": "OutputStream prints a finite Real x in fixed notation as the decimal with p digits after the dot that is nearest to x (ties to even), a token that realStrict(.., p, p+1) can read, with a minus iff the sign bit is set; printing keeps the order. For p <= 4000 InputStream::real() reads it back at most 10^-p away (half of it up to the rounding of the reader), and exactly if x is a multiple of 10^-p. With the default precision the value read is floatEqual to x with the default tolerance, and real(lower, upper) accepts every printed x with lower <= x <= upper if the tolerances are at least the default; so does a line of such numbers. Infinities and NaN are printed as words that real() always rejects. Exceptions: different numbers may be printed the same, and realStrict(0, 1) rejects the 1.000000 printed for a number below 1.", "quantifier": "all finite Reals of the 80-bit format, precisions, separators and stream configurations", "why_tests_cant": "2^80 numbers and halves of the last digit; the loss at the bounds needs numbers within 10^-6 of them", "anchors": ["src/validate.h: OutputStream::OutputStream", "src/validate.h: DEFAULT_PRECISION", "src/validate.h: OutputStream::operator<<", "src/validate.h: InputStream::real"]}
{"id": "C87", "title": "SVG files are well-formed documents with the shapes asked for", "statement": "If colours are bytes, comments contain no -- and other text is blank, the file SVG::write writes is a well-formed XML document (in exactly one way) whose root svg has, in order, one element per shape and one comment per Comment: the element has the name of the shape, its numbers rounded to 6 significant digits with y negated, fill none or the #rrggbb of the colour, stroke none or colour, width and exactly the options that are set; the viewBox is the bounding box with 6 digits after the dot. Rounding to P significant digits has relative error at most 10^(1-P)/2, keeps the order and numbers with at most P digits. If all coordinates are integers of at most 6 digits, each element covers exactly the area of its shape, the viewBox is the exact bounding box of C75, and everything drawn is inside it if each statement has its shapes in front. No file is written iff there is no file name or nothing was printed. Exceptions: with 7 digits a line is drawn outside the viewBox; shapes below 10^-6 get an empty viewBox; setprecision changes only the points of polygons and polylines; a comment with -- gives no document or further elements.", "quantifier": "all sequences of statements, shapes, styles, comments, formats and finite coordinates", "why_tests_cant": "all texts and numbers; rendering is usually checked by eye on small integers", "anchors": ["src/visualizer_svg.h: SVG::write", "src/visualizer_svg.h: operator<<(std::ostream&, ...)", "src/visualizer_svg.h: Stroke", "src/visualizer_svg.h: Shape", "src/visualizer_svg.h: details::attribute", "src/visualizer_svg.h: Comment"]}
{"id": "C88", "title": "The example visualizers draw their input files", "statement": "visualizer.png.cpp: for an input file starting with n, w, h and n lines whose ends are in the image of (w+2) x (h+2) pixels (w+2 at most 16383), the image before the last statement shows each line in black on white, one pixel moved in both directions, with the area connected to the corner (0,0) replaced by transparent. Exceptions: for h at least 1 the program never ends (the call of fillRectangle with the corners (0,0), (w+1,h+1) does not return), so no file is written; for h = 0 the file decodes to that image with only the upper of the two rows of the rectangle blended. visualizer.svg.cpp: for an input file with n, m and n points and an answer file with m points, given as decimals in range, the file name.svg is a well-formed document with a polygon of the nearest numbers to the n points and a polyline of those to the m points, with black and red strokes of width 0.1; if the coordinates are integers of at most 6 digits these are the exact points with y negated, and the viewBox is their bounding box (with the origin) enlarged by 3 on each side, so everything drawn has a margin of 3. Both programs throw without an argument. Exceptions: a missing input file, or a missing answer file with m > 0, is not noticed: uninitialised variables are read.", "quantifier": "all texts of input and answer files, all names and further arguments", "why_tests_cant": "the failure needs every height; the exact view box all sets of points and the text of the file", "anchors": ["example/visualizer.png.cpp: main", "example/visualizer.svg.cpp: main", "src/visualizer_png.h: Visualizer::init", "src/visualizer_svg.h: Visualizer::init"]}
{"id": "C89", "title": "The constraints file can be read back", "statement": "After log calls that succeed, the constraints file consists of one line for each name with a logged value, in the order of first access. Each line has exactly eight words separated by single spaces: LocationNotSupported: followed by the name, the name, 1 or 0 for whether the lower and the upper bound were hit, the least and the greatest value, the least lower and the greatest (inclusive) upper bound. Integers are in decimal notation, Reals are the nearest decimal with six digits after the dot (infinite ones inf or -inf). So two logs with the same file have the same names of the same type, the same flags, the same four numbers for Integers and containers and, for Reals, numbers that differ by at most 10^-6. Without a file name nothing is written. Exceptions: the printed maximum of Reals can be below a logged value; and since bounds are hit up to a relative tolerance, a Real can be flagged as hitting the lower bound though the printed minimum differs from the printed bound.", "quantifier": "all sequences of log calls with any names, types, Integers and Reals other than NaN", "why_tests_cant": "injectivity of the text concerns all pairs of logs", "anchors": ["src/validate.h: ConstraintsLogger::write", "src/validate.h: Bounds::operator<<", "src/validate.h: ConstraintsLogger::operator[]", "src/validate.h: Constraint::update"]}
{"id": "C90", "title": "Alphabets, character classes, isReal, append, flatten and the priority queues", "statement": "Each alphabet lists exactly the characters of its class once in increasing order, and isLower, isUpper, isLetter, isDigit, isVowel, isConsonant decide these classes; for strings they return true or false with the first character outside the class (isLower only false). toLower and toUpper map each letter to the one at the same place of the other alphabet and keep all other characters. isReal accepts all decimals in the range of Real and nothing but decimals, with a nearest number. sign is -1, 0 or 1; dist(a, b) is |a - b| if this is below 2^63, else undefined. append(c1, c2) makes c1 the concatenation and changes nothing else, also if c1 and c2 are the same container. flatten gives the parts at the paths of the given depth in lexicographic order. A pop of MinPQ (MaxPQ) gives an element such that no other in the queue is less (greater), and is undefined iff the queue is empty; pushing elements and popping all gives a sorted permutation. shorter and longer compare lengths.", "quantifier": "all characters, strings, Integers, containers, nestings, comparisons and sequences of pushes and pops", "why_tests_cant": "all strings and operation sequences; aliasing of the containers and int64 extremes are rarely tested", "anchors": ["src/validate.h: LETTER", "src/validate.h: isLower", "src/validate.h: toLower", "src/validate.h: isReal", "src/validate.h: sign", "src/validate.h: dist", "src/validate.h: append", "src/validate.h: flatten", "src/validate.h: MinPQ", "src/validate.h: shorter"]}
{"id": "C91", "title": "Lists of values and reads with a constraint", "statement": "strings, integers and reals with (pattern), (lower, upper), (pattern, lower, upper), (lower, upper, minDecimals, maxDecimals) and a count return vs and leave r iff the separator is space or newline, vs has count entries and the text starts with tokens for them, each fulfilling the condition of the single read, with exactly one separator between neighbours on a strict stream and any white space on a loose one, and r is what follows the last token; there is no separator after the last. Otherwise the program ends with the code of the stream, and calls with another separator or a negative count are errors. The overloads with a Constraint read exactly the same and log each value (for strings the length) once, in order; they fail for no other text than the ones without, if the constraint is new or holds values of the same type. Afterwards a new constraint has the type and the least and greatest value, the bounds, and whether a bound was met.", "quantifier": "all texts, counts, separators, patterns, bounds, settings and constraints", "why_tests_cant": "all texts and all settings; lists are tested with one separator and one setting", "anchors": ["src/validate.h: strings", "src/validate.h: integers", "src/validate.h: reals", "src/validate.h: string", "src/validate.h: real", "src/validate.h: ConstraintsLogger::Constraint::log"]}
{"id": "C92", "title": "Random programs on the words of the engine", "statement": "Run a program on engine words, each draw made by integer(lo, hi), bit() or a whole word as in the code, with bounds in order. A run that ends gives an outcome that is possible for some draws (so everything proved for all draws holds for it), and every possible outcome is reached by some words; it uses a prefix of the words and does not depend on the others; the portable scaling gives the same run. Of all lists of n words, the share of those whose run ends in an event is at most the probability of this event for independent uniform draws, and converges to it as n grows; the share of runs that do not end converges to 0. All random sequences, real distributions, point sets and graphs of the library and the two example generators are such programs for Integer arguments, so their laws are laws about words: shuffle of n distinct values gives each order for a share that converges to 1/n!, distinct, partition and bracketSequence each of their results for equal shares, rotate each amount for 1/n, the overloads of select and shuffle for pairs each component or order for 1/2, prime its results for the shares of C17, real() reaches a threshold for the share of C76, randomTree each tree for 1/n^(n-2), randomGraph each graph for equal shares, generator.cpp each sequence of distinct digits for (10 - n)!/10!; generator.graph.cpp prints an acyclic orientation for all words, and each one for some.", "quantifier": "all programs with draws within the Integer range, all sequences of words, all events", "why_tests_cant": "the lists of words have 2^64 entries per draw, and rejected words make the number of words unbounded", "anchors": ["src/validate.h: Random::integer", "src/validate.h: Random::bit", "src/validate.h: Random::shuffle", "src/validate.h: details::randomNumberGenerator", "src/validate.h: Random::real", "src/validate.h: Random::distinct", "src/graph_gen.h: randomTree", "example/generator.cpp", "example/generator.graph.cpp"]}
{"id": "C93", "title": "Drawing until a result is inside gives the conditioned distribution", "statement": "For every event, the probability that real(upper), real(lower, upper), exponential(lower, upper, lambda) or geometric(lower, upper, p) ends within k rounds with a result in the event is the probability that one round gives a result that is inside the interval and in the event, times 1 + q + ... + q^(k-1), where q is the probability that a round gives a result outside. So given that the call ends, the result has the distribution of one round conditioned on being inside: of upper * real(), of lower * (1 - real()) + upper * real(), of lower + exponential(lambda), of lower + geometric(p). For binomial(lower, upper, n, p) it is that of binomial(n, p), and for normal(lower, upper, ...) that of the first value inside among the two of a pair. Unless upper is subnormal, real(upper) needs another round exactly if real() is 1, that is with probability 2^-54. The factors of the rotation in nonCollinearPoints are uniform among the pairs that are not (0, 0).", "quantifier": "all arguments in the domain, all events, all numbers of rounds, all mathematical library functions", "why_tests_cant": "the conditioned law concerns all events and unboundedly many rounds; 2^-54 is far below what sampling can see", "anchors": ["src/validate.h: Random::real", "src/validate.h: Random::exponential", "src/validate.h: Random::geometric", "src/validate.h: Random::binomial", "src/validate.h: Random::normal", "src/validate.h: Random::nonCollinearPoints"]}
{"id": "C94", "title": "A failed read says what is wrong and where", "statement": "When string, integer, real, realStrict or an expect call with pattern, length or range fails on the next token of the file, the program ends with the exit code of the stream after writing exactly: a complaint that names the token and the first test it fails (no such pattern, not parsable, wrong number of decimals, out of the range with token and bounds in decimal notation, expected but got), the location of the token, and a newline. The location is line and column with an excerpt that shows the token with marks below; it is left out for streams without positions and for a token that ends the file. For a list of strings, integers or reals, on strict and loose streams, the complaint is about the first bad entry. A wrong character instead of space, newline or end is reported as such at that character; white space instead of a token is reported as invalid; at the end of the file it is an unexpected end, without location. Apart from the text the reads are those of the other properties.", "quantifier": "all files, positions, tokens, patterns, ranges, settings, seekable or not", "why_tests_cant": "which of several failing tests is reported, and where, is tested on a few files; the location arithmetic is wrong only for particular positions", "anchors": ["src/validate.h: InputStream::fail", "src/validate.h: InputStream::integer", "src/validate.h: InputStream::string", "src/validate.h: InputStream::real", "src/validate.h: InputStream::realStrict", "src/validate.h: InputStream::expectString", "src/validate.h: InputStream::expectInt", "src/validate.h: InputStream::expectReal", "src/validate.h: InputStream::space", "src/validate.h: InputStream::newline", "src/validate.h: InputStream::eof", "src/validate.h: InputStream::check", "src/validate.h: InputStream::parse"]}
{"id": "C95", "title": "convexHull and convexDisk of the archive are right", "statement": "For points with coordinates below 2^30, convexHull of at least two different points returns a chain that goes from the leftmost point (the lowest such) to the rightmost (highest) and back to the leftmost, counterclockwise: no point lies right of a side and those not in the chain lie left of every side. The chain contains exactly the points on the boundary, also those on a side; unless all points are on one line no point but the first is repeated. If all points are equal the result is that point. Random::convexDisk(n, dim) for n > 0, if it returns, returns points with x^2 + y^2 < dim^2, and unless all are on one line these are n + 1 entries: n different points in convex order and the first one again. For n = 0 it is undefined. It throws if dim is over 2^30 - 1 or below n^2 / 1000.", "quantifier": "all point lists with coordinates below 2^30; all n, dim, random draws, and values of sqrt, sin, cos and llround", "why_tests_cant": "collinear and repeated points in all positions matter, and whether a hull is right on a few random points says nothing about them; the size of the result of convexDisk is never compared with n", "anchors": ["archive/convex.cpp: details::convexHull", "archive/convex.cpp: Random::convexDisk"]}
{"id": "C96", "title": "Random::polygon of the archive: simple without right angles, else endless or crossing", "statement": "Random::polygon(n, dim) throws if dim is not in 1..2^30 - 1, dim is below n sqrt(n) or n < 3; otherwise it either does not end or returns n points with coordinates in -dim + 1..dim - 1, an arrangement of the points drawn. If no three of these are on a line, no three form a right angle and no two have the same scalar product with the direction drawn, what it returns is a simple polygon. Both is false with right angles: for three points with the right angle at the one last in the direction drawn the recursion never ends, and for five points, no three on a line, the sides can cross, because the cut point goes to the wrong part if the scalar product is 0.", "quantifier": "all n, dim, points, directions and draws; all results of std::sort and std::partition the standard allows", "why_tests_cant": "right angles are rare among random points, so tests do not meet the endless recursion or the crossing; simplicity depends on all partitions of the recursion", "anchors": ["archive/polygon.cpp: details::findLine", "archive/polygon.cpp: Random::polygon"]}
{"id": "C97", "title": "HackedSort of the archive: which values it gives", "statement": "HackedSort(n, mi) throws if n is negative. If -1, the mark for an unset value, is not in mi..mi+n, it always ends and gives n different values: all of mi..mi+n but mi + n - 2 max(0, (n - 43) / 4). For n < 47 this is a permutation of mi..mi+n-1 (also with -1 among the values), and each of the n! permutations has the same probability. For n >= 47 it is false that data is a permutation of mi..mi+n-1: mi + n is always among the values and one below is left out. With -1 among the values it is false that they are different: n = 47 and mi = -1 gives -1 44 times. If -1 is not in mi..mi+n and the result is partitioned again with the same dual-pivot step, then (n - 43) / 4 nested steps in a row leave all but four of their values in the middle part, so sorting this way takes quadratic time.", "quantifier": "all n, mi and draws; for the probability all permutations", "why_tests_cant": "the left out value depends on n and only shows when all n values are compared; uniformity is about all n! results", "anchors": ["archive/javaSortHack.cpp: HackedSort", "archive/javaSortHack.cpp: HackedSort::hackedSort"]}
{"id": "C98", "title": "What the programs of the archive print", "statement": "javaSortHack, convex and polygon read --n (default 100000) and --min (default 1) or --dim (default 10^9) and print the number of values and the values in one line, or the number of points and a line for each point. javaSortHack prints n values, those of C97; for n < 47 each of the n! orders has the same probability. polygon prints n points of the open square of half side dim, or does not end. convex prints, if the points are not on one line, n + 1 points: the corners of a convex polygon without repetition and the first one again. If the command line is not accepted (an option twice, an option whose first argument is no integer) all of them throw before anything is drawn; so do javaSortHack for negative n, convex for dim above 2^30 - 1 or below n*n/1000 and polygon for the arguments that C96 excludes.", "quantifier": "all command lines and draws, all sqrt, sin, cos, llround, std::sort and std::partition", "why_tests_cant": "command lines are unbounded and the defaults only apply for those without the option; the repeated last point looks right in a picture", "anchors": ["archive/javaSortHack.cpp: main", "archive/convex.cpp: main", "archive/polygon.cpp: main"]}
