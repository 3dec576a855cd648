{"id": "C01", "title": "Dictionary ids are a stable bijection over every call history", "statement": "Starting from an empty Dict and after any sequence of Convert(word) / Convert(word, frozen=true) / Convert(id) calls: every id returned by Convert(word) (unfrozen) is >= 1, converting that id back yields exactly that word, equal words always get the same id, distinct words get distinct ids, ids already handed out never change their meaning later, a frozen lookup of an unknown word returns 0 and changes nothing, and max() equals the number of distinct words.", "quantifier": "all finite histories of Convert calls over all strings", "why_tests_cant": "the claim is about every interleaving and every word set, including re-conversion after arbitrary later growth; a test only checks a few histories", "anchors": ["utils/dict.h: Dict::Convert, Dict::max", "utils/tdict.cc: TD::Convert", "utils/fdict.cc: FD::Convert"]}
{"id": "C02", "title": "SmallVector behaves as a sequence across the inline/heap boundary", "statement": "For every history of constructor, push_back, pop_back, resize, element write, erase, copy, assignment, swap, clear and comparison on SmallVector (that respects the documented size limits) the observable contents (size(), operator[], ==) are those of the ideal sequence, no matter how often the vector crosses the inline/heap boundary, and the allocated capacity always covers the size.", "quantifier": "all histories of operations and all element values", "why_tests_cant": "representation switches depend on the whole history; unit tests exercise only a handful of crossings", "anchors": ["utils/small_vector.h: SmallVector::push_back, pop_back, resize, erase, ensure_capacity, copy_vals_to_ptr, ptr_to_small"]}
{"id": "C03", "title": "Sparse vectors behave as finite maps regardless of local/hash representation", "statement": "For every history of set_value / add_value / get / clear / copy / += / -= / scalar *= on FastSparseVector the value returned for every key equals that of the ideal finitely supported function from ids to numbers; in particular it does not depend on whether the vector is in its small local-array form or in its hash form, and dot product and vector addition are the mathematical ones.", "quantifier": "all operation histories, all keys and values (values from an arbitrary commutative ring)", "why_tests_cant": "both representations and every transition between them must agree for every key; tests sample", "anchors": ["utils/fast_sparse_vector.h: FastSparseVector::get_or_create_bin, get, set_value, add_value, operator+=, operator-=, operator*=, dot, swap_local_rbmap"]}
{"id": "C04", "title": "Erasing a key from a sparse vector removes that key and nothing else", "statement": "After erase(k) every key other than k keeps its value and k reads as zero. (The code violates this when k is absent in the small form: the last stored feature is lost; on an empty vector the size counter wraps.)", "quantifier": "all vectors and all keys k", "why_tests_cant": "the failure depends on the relation between the key and the representation; random tests that erase only present keys never see it", "anchors": ["utils/fast_sparse_vector.h: FastSparseVector::erase"]}
{"id": "C05", "title": "Sparse-vector equality agrees with equality of the denoted maps", "statement": "operator== is true exactly when the two vectors give the same value to every key. (True when neither side stores explicit zeros; false otherwise: the code's test is not even symmetric.)", "quantifier": "all pairs of vectors", "why_tests_cant": "requires comparing all pairs of representations, including explicit zeros left by arithmetic", "anchors": ["utils/fast_sparse_vector.h: FastSparseVector::operator=="]}
{"id": "C06", "title": "Base64 encoding round-trips every byte string", "statement": "Decoding the base64 encoding of any byte string yields that byte string again. (Holds when the length is not 2 mod 3; the code emits a padding character too early when it is 2 mod 3, so the last byte is lost - a refutation.)", "quantifier": "all byte strings of all lengths", "why_tests_cant": "infinitely many inputs; the failing residue class is data dependent", "anchors": ["utils/b64tools.cc: encodeblock, b64encode, b64decode, decodeblock"]}
{"id": "C07", "title": "Decimal printing of integers is exact", "statement": "utoa/itoa write exactly the canonical decimal representation (no leading zeros, minus sign only for negatives) of every machine integer, inside the bounds of the buffer, including 0 and the most negative value.", "quantifier": "all values of the unsigned and signed integer types", "why_tests_cant": "2^64 inputs and the most negative value as a corner case", "anchors": ["utils/utoa.h: utobuf, itobuf, utoa, itoa"]}
{"id": "C08", "title": "LogVal arithmetic is exact signed real arithmetic in the log domain", "statement": "Mapping a LogVal (sign, log-magnitude) to the real it denotes is a homomorphism: *, /, +, -, unary minus, comparison and zero/one behave as on real numbers for every pair of representable values, including zero (log = -inf), opposite signs and equal magnitudes.", "quantifier": "all pairs of LogVals over exact real arithmetic (rounding is outside the model)", "why_tests_cant": "uncountably many inputs and all sign/zero case combinations", "anchors": ["utils/logval.h: LogVal::operator+=, operator-=, operator*=, operator/=, operator<"]}
{"id": "C09", "title": "Two-dimensional arrays address every cell uniquely", "statement": "For every width/height and every in-range (i,j), writing a cell of Array2D changes the value read at that cell only; in-range accesses never leave the buffer; fill and resize keep exactly width*height cells.", "quantifier": "all dimensions, all index pairs, all write histories", "why_tests_cant": "index arithmetic must be injective for all shapes", "anchors": ["utils/array2d.h: Array2D::operator(), offset, resize, fill"]}
{"id": "C10", "title": "Word-alignment text format round-trips", "statement": "Serialising any alignment grid in Pharaoh (i-j) format and reading it back gives a grid with exactly the same links; the printed points are sorted by row then column, each link once.", "quantifier": "all alignment grids", "why_tests_cant": "unbounded sizes and digit counts", "anchors": ["utils/alignment_io.cc: AlignmentIO::ReadPharaohAlignmentGrid, SerializePharaohFormat"]}
{"id": "C11", "title": "Alignment symmetrisation stays between intersection and union", "statement": "For every pair of directed alignments the grow, grow-diag, grow-diag-final and grow-diag-final-and combinations contain the intersection, are contained in the union, and their computation always terminates; invert is an involution; intersect/union are pointwise.", "quantifier": "all pairs of alignment grids of any size", "why_tests_cant": "fixpoint iteration over arbitrary grids; termination cannot be tested", "anchors": ["utils/atools.cc: GrowDiagCommand, GDCommand, GDFCommand, GDFACommand, InvertCommand, IntersectCommand, UnionCommand"]}
{"id": "C12", "title": "Every hypergraph built through the API is structurally consistent", "statement": "After any sequence of AddNode, AddEdge, ConnectEdgeToHeadNode (each edge connected once): edge ids equal positions, each edge's head lists the edge exactly once in in_edges, each tail occurrence is listed in out_edges of that node exactly once, and nothing else is listed.", "quantifier": "all construction histories", "why_tests_cant": "invariant over all histories", "anchors": ["decoder/hg.h: Hypergraph::AddNode, AddEdge, ConnectEdgeToHeadNode"]}
{"id": "C13", "title": "Inside algorithm equals the sum over all derivations", "statement": "For every acyclic (topologically ordered) hypergraph and every commutative-free semiring weighting, the inside score of each node is the sum, over all derivation trees rooted at that node, of the product of the edge weights in the tree; nodes without incoming edges get zero; the count semiring yields the exact number of derivations.", "quantifier": "all topologically ordered hypergraphs, all semirings, all weight functions", "why_tests_cant": "number of derivations is exponential and the claim ranges over all graphs and semirings", "anchors": ["decoder/inside_outside.h: Inside", "decoder/viterbi.h", "decoder/hg.cc: Hypergraph::NumberOfPaths"]}
{"id": "C14", "title": "Viterbi returns a maximum-weight derivation", "statement": "For every topologically ordered hypergraph whose goal has a derivation, the Viterbi score equals the maximum over all derivations, the returned edge list is the post-order edge list of an actual derivation attaining it, and Viterbi on a traversal (yield) returns the yield of that derivation.", "quantifier": "all topologically ordered hypergraphs with ordered weights monotone under multiplication", "why_tests_cant": "exponential number of derivations; tie handling", "anchors": ["decoder/viterbi.h: Viterbi, ViterbiPathTraversal", "decoder/viterbi.cc"]}
{"id": "C15", "title": "Outside and edge posteriors", "statement": "For every topologically ordered hypergraph, inside(v)*outside(v) is the sum of weights of all (goal derivation, occurrence of v) pairs and the edge posterior is the total weight of derivations using the edge, counted with multiplicity. (Holds when no edge mentions the same tail node twice; the code compares node indices rather than tail positions, so it is refuted otherwise.)", "quantifier": "all topologically ordered hypergraphs, commutative semirings", "why_tests_cant": "sums over exponentially many derivations; failure only shows with repeated tails", "anchors": ["decoder/inside_outside.h: Outside, InsideOutside", "decoder/hg.cc: ComputeEdgePosteriors"]}
{"id": "C16", "title": "Topological sort preserves the derivations of the goal", "statement": "TopologicallySortNodesAndEdges(goal, prune) terminates, aborts exactly when a cycle is reachable from goal through unpruned edges, and otherwise renumbers nodes so that every tail precedes its head, keeps exactly the nodes and unpruned edges reachable from the goal, keeps edge attributes and relative order, and yields the same set of derivations of the goal (up to renumbering).", "quantifier": "all finite hypergraphs, goals and prune masks", "why_tests_cant": "iterative DFS over arbitrary graphs; cycles", "anchors": ["decoder/hg.cc: Hypergraph::TopologicallySortNodesAndEdges, PruneUnreachable, PruneEdges"]}
{"id": "C17", "title": "Pushing weights to the goal preserves relative derivation weights and normalises", "statement": "After PushWeightsToGoal, for each reachable node with non-zero inside score the weights of its incoming edges sum to one, and each derivation's weight is its old weight divided by the goal's inside score, so the ranking and posterior of derivations are unchanged.", "quantifier": "all topologically ordered hypergraphs with positive weights", "why_tests_cant": "claim about all derivations", "anchors": ["decoder/hg.cc: Hypergraph::PushWeightsToGoal", "decoder/inside_outside.h: InsideOutside"]}
{"id": "C18", "title": "Exact model intersection keeps exactly the input derivations", "statement": "With the no-pruning strategy, applying a set of stateful models yields a hypergraph whose goal derivations are in one-to-one correspondence with the input derivations, each carrying exactly the feature/estimate contributions computed bottom up from its own states; two hypotheses share a node only if they come from the same input node and have equal state.", "quantifier": "all topologically ordered forests, all model state functions", "why_tests_cant": "product construction over arbitrary forests and state spaces", "anchors": ["decoder/apply_models.cc: NoPruningRescorer::ExpandEdge, ApplyModels"]}
{"id": "C19", "title": "Cube-pruning successor generation enumerates each combination exactly once", "statement": "In each of the successor strategies (with uniqueness set, fast, fast-2), when the pop limit does not bind, every combination of tail hypotheses of every incoming edge is popped exactly once, in every order in which the priority queue may resolve ties or estimates; and no combination is ever generated twice or out of range.", "quantifier": "all grid shapes (tail hypothesis counts), all priority orders chosen by the queue", "why_tests_cant": "all pop orders on all n-dimensional grids", "anchors": ["decoder/apply_models.cc: CubePruningRescorer::PushSucc, PushSuccFast, PushSuccFast2"]}
{"id": "C20", "title": "k-best extraction is sorted, duplicate-free and complete", "statement": "For every topologically ordered hypergraph in which every tail has a derivation, with weights monotone under extension: whatever calls LazyKthBest(v, i) were made in whatever order (i below the k given to the constructor when there is no filter), there is one ranking of the derivations of each node, with non-increasing scores and listing every derivation exactly once (with FilterUnique: one best derivation for each yield), such that every call returned the derivation of the rank asked for, with its score and yield, and null exactly when there are not so many.", "quantifier": "all topologically ordered hypergraphs, all sequences of calls, all tie-breaking of the candidate heap", "why_tests_cant": "lazy candidate frontier over exponentially many derivations", "anchors": ["decoder/kbest.h: KBestDerivations::LazyKthBest, LazyNext, GetCandidates"]}
{"id": "C21", "title": "Upper-envelope computation for MERT is exact", "statement": "For every finite set of lines, the sorted envelope gives at every real x the maximum of the lines, its breakpoints are strictly increasing, and no line of the envelope is redundant; the sum (union) of two envelopes is the pointwise maximum and the product is the pointwise sum of the two functions.", "quantifier": "all finite line sets, all x", "why_tests_cant": "uncountably many x", "anchors": ["training/dpmert/mert_geometry.cc: ConvexHull::Sort, operator+=, operator*="]}
{"id": "C22", "title": "MERT over a forest finds the best derivation for every step size", "statement": "Inside over the envelope semiring yields, at every x, the maximum over all derivations of the sum of its edges' lines.", "quantifier": "all topologically ordered hypergraphs, all directions, all x", "why_tests_cant": "exponentially many derivations times uncountably many x", "anchors": ["training/dpmert/mert_geometry.cc: ConvexHullWeightFunction, ConvexHull", "decoder/inside_outside.h: Inside"]}
{"id": "C23", "title": "BLEU sufficient statistics are the clipped n-gram counts", "statement": "For every hypothesis and reference set, the collected statistics are: for each n, the number of hypothesis n-grams and the sum over distinct hypothesis n-grams of min(count in hypothesis, max count in any reference); the reference length is the closest one; the evaluator gives the same answer regardless of which hypotheses it evaluated before.", "quantifier": "all hypotheses, reference sets, and evaluation histories", "why_tests_cant": "hidden mutable clip counters must be reset after every call for all histories", "anchors": ["mteval/ns.cc: BleuSegmentEvaluator, ComputeNgramStats, Evaluate"]}
{"id": "C24", "title": "TER edit statistics are consistent and the shift search terminates", "statement": "For a hypothesis of at most 1024 words and a reference of at most 1025, the TER scorer's minimum-edit-distance routine returns the true Levenshtein distance and a path whose insert/delete/substitute counts add up to it; every shift moves one block of words; the greedy shift loop terminates; the score equals shifts+insertions+deletions+substitutions, these are the numbers of an actual edit sequence from hypothesis to reference, the score never exceeds the plain edit distance, and is zero exactly for a perfect hypothesis. With several references the counts are those of the first reference with the least score.", "quantifier": "all hypothesis/reference pairs", "why_tests_cant": "greedy loop over arbitrary strings; termination; positions are packed in 10 and 11 bits, which short test sentences never overflow", "anchors": ["mteval/ns_ter_impl.cc: TERScorerImpl::MinimumEditDistance, PerformShift, CalculateBestShift, CalculateAllShifts", "mteval/ns_ter_impl.h: Shift", "mteval/ns_ter.cc: TERMetric::ComputeSufficientStatistics"]}
{"id": "C25", "title": "Bit-packed fields round-trip and do not interfere", "statement": "Writing values with WriteInt57/WriteInt25/float variants into disjoint bit ranges of zeroed memory and reading back yields exactly the written values, for every bit offset and width within the documented limits, independent of the order of writes.", "quantifier": "all offsets, widths, values, and write histories", "why_tests_cant": "bit-level carry/overlap cases across byte boundaries for all offsets", "anchors": ["klm/util/bit_packing.hh: ReadInt57, WriteInt57, ReadInt25, WriteInt25, ReadOff, BitPackShift"]}
{"id": "C26", "title": "The probing hash table is a correct map", "statement": "For every history of Insert/Find on a ProbingHashTable with capacity not exceeded, Find returns exactly the entry inserted with that key and reports absent keys as absent; all probes terminate; Insert reports the full condition before the table can lose termination.", "quantifier": "all hash functions, key sequences and table sizes", "why_tests_cant": "clusters and wrap-around for every hash function", "anchors": ["klm/util/probing_hash_table.hh: ProbingHashTable::Insert, Find, FindOrInsert"]}
{"id": "C27", "title": "Growing a probing table in place keeps every entry", "statement": "After Double (in-place rehash into twice the buckets) every key inserted before is still found with its value and no other key is found.", "quantifier": "all tables satisfying the probing invariant, all hash functions", "why_tests_cant": "in-place rehash with wrap-around of clusters is subtle for all layouts", "anchors": ["klm/util/probing_hash_table.hh: ProbingHashTable::Double, AutoProbing::DoubleIfNeeded"]}
{"id": "C28", "title": "The automatically growing table never fills up", "statement": "For every sequence of inserts AutoProbing keeps at least one empty bucket so that every lookup terminates. (True for FindOrInsert; refuted for Insert, which never counts the entry.)", "quantifier": "all insertion sequences", "why_tests_cant": "needs unboundedly many inserts", "anchors": ["klm/util/probing_hash_table.hh: AutoProbing::Insert, FindOrInsert, DoubleIfNeeded"]}
{"id": "C29", "title": "Interpolation/binary search on sorted keys is correct for every pivot choice", "statement": "SortedUniformFind/BoundedSortedUniformFind/BinaryFind terminate and report a key as present exactly when it occurs in the sorted range, returning a position holding it; interpolation pivots always stay inside the open interval.", "quantifier": "all sorted arrays and keys, all in-range pivot functions", "why_tests_cant": "off-by-one errors on all array shapes", "anchors": ["klm/util/sorted_uniform.hh: BinaryFind, BoundedSortedUniformFind, SortedUniformFind, Pivot32, Pivot64"]}
{"id": "C30", "title": "The bounded producer/consumer queue is FIFO under every schedule", "statement": "For every interleaving of any number of producers and consumers on a PCQueue of any size: the values consumed (in the order the consumers take them) are exactly a prefix of the values produced (in the order producers deposit them), at most `size` values are buffered, a slot is never read before it is written nor overwritten before it is read, and no reachable state with a waiting producer and a waiting consumer is deadlocked.", "quantifier": "all schedules, thread counts, queue sizes, values, and failing assignments", "why_tests_cant": "all interleavings of unboundedly many threads", "anchors": ["klm/util/pcqueue.hh: PCQueue::Produce, PCQueue::Consume"]}
{"id": "C31", "title": "Suffix-array construction sorts all suffixes", "statement": "For every text without the reserved NULL word (id 0) the construction reads and writes only inside its arrays, terminates, and the suffix array is a permutation of all suffix start positions in increasing lexicographic order, whatever pivots the randomised quicksort picks. (For a text that contains the token __NULL__ this fails.)", "quantifier": "all corpora, all random pivot choices", "why_tests_cant": "randomised prefix doubling on all inputs", "anchors": ["extractor/suffix_array.cc: BuildSuffixArray, InitialBucketSort, PrefixDoublingSort, TernaryQuicksort"]}
{"id": "C32", "title": "Suffix-array lookup finds exactly the occurrences", "statement": "Given the range of suffixes that start with a phrase, Lookup(low, high, word, offset) returns the range of exactly the suffixes that start with the phrase extended by word, an empty range if there are none; so looking a phrase up word by word finds exactly its occurrences in the text. (For the token __NULL__ this fails.)", "quantifier": "all corpora, phrases, words", "why_tests_cant": "binary search boundaries on all inputs", "anchors": ["extractor/suffix_array.cc: SuffixArray::Lookup, LookupRangeStart", "extractor/matchings_finder.cc: MatchingsFinder::Find"]}
{"id": "C33", "title": "The LCP array is the longest common prefix of neighbouring suffixes", "statement": "BuildLCPArray returns for every rank r>0 the length of the longest common prefix of the suffixes at ranks r-1 and r.", "quantifier": "all corpora", "why_tests_cant": "amortised algorithm reusing lengths between iterations", "anchors": ["extractor/suffix_array.cc: SuffixArray::BuildLCPArray"]}
{"id": "C34", "title": "Rule-extraction spans are closed under the alignment", "statement": "When the fix-point search reports success, the returned source and target spans are mutually consistent with the word alignment (no link leaves the pair of spans) and cover the starting span; the search terminates.", "quantifier": "all alignments, sentence lengths, spans and option settings", "why_tests_cant": "closure iteration over arbitrary alignments", "anchors": ["extractor/rule_extractor_helper.cc: FindFixPoint, FindProjection, GetLinksSpans"]}
{"id": "C35", "title": "Gap order is the rank of each gap", "statement": "GetGapOrder assigns to each target gap its rank among the gaps by position. (True for up to two gaps; refuted for three: the code indexes through the partially built order.)", "quantifier": "all lists of gaps", "why_tests_cant": "error shows only with particular permutations of three or more gaps", "anchors": ["extractor/rule_extractor_helper.cc: GetGapOrder"]}
{"id": "C36", "title": "Precomputed collocations are the real ones", "statement": "Every pattern recorded by the precomputation index is a concatenation of frequent patterns actually occurring in the corpus at the recorded locations. (Refuted for ternary patterns: after a third chunk of length > 1 only one symbol is removed from the working pattern.)", "quantifier": "all corpora and frequent-pattern lists", "why_tests_cant": "depends on the sequence of previously visited patterns", "anchors": ["extractor/precomputation.cc: Precomputation::UpdateIndex"]}
{"id": "C37", "title": "Rule substitution and arity", "statement": "ESubstitute/FSubstitute replace the i-th nonterminal by the i-th antecedent yield and keep all terminals in order, so the yield of a derivation is the concatenation given by the synchronous rule; the arity equals the number of nonterminals for every well-formed rule.", "quantifier": "all rules and antecedents", "why_tests_cant": "all rule shapes", "anchors": ["decoder/trule.h: TRule::ESubstitute, FSubstitute, ComputeArity"]}
{"id": "C38", "title": "Lattice distances are shortest path lengths", "statement": "For every input lattice (DAG with forward arcs), Distance(i,j) is the minimum number of arcs from i to j whenever j is reachable from i.", "quantifier": "all lattices", "why_tests_cant": "all graphs", "anchors": ["decoder/lattice.cc: Lattice::ComputeDistances"]}
{"id": "C39", "title": "Python lattice format round-trips", "statement": "Every text of the Python lattice format (any spacing, dense or dictionary features, escaped characters) is read as the lattice it denotes, and is accepted exactly when all links stay inside the lattice and one reaches its end. In particular a lattice that is written and read back keeps all its (non-empty) words, whatever quotes and backslashes they contain, and all its links.", "quantifier": "all lattices, all layouts, all byte strings", "why_tests_cant": "all byte strings including quotes and backslashes; all layouts of the text", "anchors": ["decoder/hg_io.cc: HypergraphIO::Escape, AsPLF(Lattice), getEscapedString, ReadPLFEdge, ReadPLFNode, ReadFromPLF, PLFtoLattice", "decoder/lattice.cc: LatticeTools::LooksLikePLF"]}
{"id": "C40", "title": "Error surfaces survive serialisation and transport", "statement": "Serialising an error surface and reading it back yields the same boundaries and statistics, for whole-number statistics below a million in magnitude whose text is shorter than 256 bytes; sending it through base64 from mapper to reducer yields the same too if its size is not 2 modulo 3. (Refuted otherwise: at size 2 modulo 3 the last digit arrives as 0; text of 256 bytes or more is cut; larger numbers are rounded to six digits.)", "quantifier": "all error surfaces", "why_tests_cant": "size-dependent truncation, rounding and padding", "anchors": ["training/dpmert/error_surface.cc: ErrorSurface::Serialize, Deserialize", "mteval/ns.cc: SufficientStats::Encode, SufficientStats(const string&)", "training/dpmert/mr_dpmert_map.cc, mr_dpmert_reduce.cc: main", "utils/b64tools.cc"]}
{"id": "C41", "title": "BLEU scores lie in (0,1]", "statement": "For each of the four BLEU variants and every corpus, the score computed from the summed statistics is a number greater than 0 and at most 1, except when every output is empty, where it is 0/0; with IBM BLEU it is exactly 1 when every output equals one of its references. (An output file with more lines than references is read out of bounds before the check.)", "quantifier": "all corpora, all four variants, all maximum orders at least 1", "why_tests_cant": "a range claim over real-valued logarithms of arbitrary counts, including the smoothing and length-penalty cases", "anchors": ["mteval/ns.cc: BleuMetric::ComputeScore", "mteval/ns.h: SufficientStats", "mteval/fast_score.cc: main loop"]}
{"id": "C42", "title": "Score statistics add like vectors", "statement": "Adding, subtracting and scaling statistics acts index by index, an index past the end reading as 0, whatever the two sizes; totals do not depend on the order of the segments; the additive-identity test is true exactly when every index reads 0. (Equality, however, tells apart statistics which read the same at every index when their sizes differ.)", "quantifier": "all statistics of all sizes", "why_tests_cant": "resizing and default values interact for all pairs of sizes", "anchors": ["mteval/ns.h: SufficientStats operator+=, -=, *=, /=, ==, [], IsAdditiveIdentity"]}
{"id": "C43", "title": "Error surfaces reproduce the statistics of the best translation", "statement": "For every hypergraph, search line and evaluator, the error surface computed from the hypergraph's envelope gives, summed up to any point x of the line, exactly the statistics of a translation whose derivation is best at x. (Refuted when the leftmost translation is empty: it is taken to be already scored, and its statistics, e.g. the reference length, are lost.)", "quantifier": "all acyclic hypergraphs with a derivation, all lines, all evaluators, all x", "why_tests_cant": "a statement about every point of a line and every derivation of a hypergraph", "anchors": ["training/dpmert/ces.cc: ComputeErrorSurface", "training/dpmert/mert_geometry.cc: MERTPoint::ConstructTranslation", "training/dpmert/mr_dpmert_map.cc: main"]}
{"id": "C44", "title": "The line search finds the best position", "statement": "Given error surfaces whose boundaries are equal or more than epsilon apart and with scores that are numbers, the line search returns a position that is no boundary, whose score is the score returned, and no position on the line has a better score, for maximisation and minimisation. (Refuted with the default epsilon when boundaries are closer; refuted when no surface starts at minus infinity.)", "quantifier": "all surfaces, metrics, both directions, all positions", "why_tests_cant": "optimality over a continuum of positions", "anchors": ["training/dpmert/line_optimizer.cc: LineOptimizer::LineOptimize"]}
{"id": "C45", "title": "One MERT step is globally optimal along its line", "statement": "Composing the envelope semiring, the inside algorithm, error surfaces and the line search: the position returned attains, with translations that are best there, the corpus score returned, and at every other position the best translations have no better corpus score.", "quantifier": "all corpora of acyclic hypergraphs, origins, directions, evaluators and metrics", "why_tests_cant": "end-to-end optimality over all derivations and all real positions", "anchors": ["training/dpmert/mr_dpmert_map.cc: main", "training/dpmert/mr_dpmert_reduce.cc: main", "training/dpmert/line_optimizer.cc: LineOptimizer::LineOptimize"]}
{"id": "C46", "title": "Levenshtein distance, WER and CER statistics", "statement": "LevenshteinDistance(a,b) returns the least number of single-symbol insertions, deletions and replacements turning a into b, and never leaves its two-row buffer. WER (and CER) sufficient statistics of a segment are the distance to the first nearest reference and the length of that reference.", "quantifier": "all strings, all non-empty lists of references", "why_tests_cant": "rolling two-row buffer reused for every row, arbitrary lengths; the minimum over references depends on the initial bound", "anchors": ["mteval/levenshtein.h: LevenshteinDistance", "mteval/ns_wer.cc: WERMetric::ComputeSufficientStatistics", "mteval/ns_cer.cc: CERMetric::ComputeSufficientStatistics"]}
{"id": "C47", "title": "A grammar rule written to a binary archive says the same when read back", "statement": "Every rule whose words are known to the writing program and which has at most 64 symbols on each side can be saved; loading the archive, in the same program or in another program which has already numbered other words, yields a rule with the same left-hand side, the same words, categories and variable indexes on both sides, the same arity and the same scores; loading consumes exactly what was written and does not change what any word id already known to the reading program means.", "quantifier": "for all dictionaries of writer and reader, all rules with at most 64 symbols per side and all following archive contents", "why_tests_cant": "word ids differ between programs and the nonterminal mask is packed in bits: agreement has to hold for every pair of dictionary histories and every rule shape", "anchors": ["decoder/trule.h:164-225", "utils/dict.h", "decoder/tdict.cc"]}
{"id": "C48", "title": "Bottom-up parsing finds exactly the parses of the input", "statement": "For an input lattice whose arcs go forward and text grammars with distinct rules, acyclic unary rules none of which rewrites the goal category, no rule for [Goal], and span tests closed under prefixes, ExhaustiveBottomUpParser::Parse returns without a failed assertion, an access out of bounds or an abort; it returns true exactly if some path through the whole lattice has a parse with the goal category; and then the forest is topologically sorted and its derivations correspond one for one to the parses (rules, lattice arcs including epsilon arcs, and sub-parses), each under the goal rule. For arbitrary unary rules the same holds of some acyclic part of them.", "quantifier": "all lattices, grammars, numbers of grammars, goal categories and span tests", "why_tests_cant": "The set of parses is exponential in the input length and depends on the interaction of several grammars, unary chains and lattice paths; tests compare a few forests.", "anchors": ["decoder/bottom_up_parser.cc:81-340", "decoder/grammar.cc:55-133", "decoder/scfg_translator.cc:56-91", "decoder/hg.cc (TopologicallySortNodesAndEdges)"]}
{"id": "C49", "title": "The language model feature of a derivation is the model's score of its sentence", "statement": "For a back-off n-gram model with complete tables (every n-gram's prefix and suffix present and marked), and any derivation that uses each nonterminal once: the KLanguageModel feature values of the edges plus the final transition add up to exactly the Katz back-off log probability of '<s> words </s>', however the derivation brackets or reorders the words and whatever rest costs the model has; the OOV count and the class emission feature are those of the words; no table or state array is accessed out of bounds. With explicit markers (-x) the same score results without a penalty when <s> and </s> are produced exactly at the two ends by non-empty constituents and n-grams ending in </s> have no back-off weight; otherwise the number of 100-point penalties is zero only if the markers are in place. Without -x, a derivation that produces a rule-initial <s> or a </s> fails an assertion, and no other does.", "quantifier": "all models (orders, tables, weights, rest costs), feature maps and derivations", "why_tests_cant": "The incremental state (left pointers, right context, pending back-offs, completed/partial left edge) has dozens of joint cases per combination, and the claim quantifies over all ways to bracket all sentences.", "anchors": ["decoder/ff_klm.cc:90-228", "decoder/ff_klm.cc:344-369", "klm/lm/left.hh:52-211", "klm/lm/model.cc:195-317", "klm/lm/search_hashed.hh:95-137"]}
{"id": "C50", "title": "Word-by-word n-gram scoring is Katz back-off and its states are minimal and canonical", "statement": "Scoring a sequence word by word with FullScore, from the beginning-of-sentence state or the null state, gives the sum of the Katz back-off log probabilities given the whole history; FullScoreForgotState gives the same probability from a context alone; and FullScore, FullScoreForgotState and GetState all produce the one state determined by the history: its longest part that can matter, with the back-off weights of its prefixes.", "quantifier": "all models with complete tables, all sequences, contexts and words", "why_tests_cant": "States drop words of the history; whether a dropped word could have mattered depends on all n-grams of the model and all continuations.", "anchors": ["klm/lm/model.cc:80-193", "klm/lm/model.cc:229-296", "klm/lm/search_hashed.hh:95-137"]}
{"id": "C51", "title": "The language model feature maps each word to the right model word", "statement": "If the feature loads, then <s> and </s> are mapped to known model words and <s> has no emission cost; without a class file every decoder word is mapped to the model word with the same string (or to <unk>); with a class file every word is mapped to its class's model word with the emission of its line, and a word without a line to <unk>.", "quantifier": "all vocabularies, enumeration orders and class files", "why_tests_cant": "The maps are growing vectors indexed by dictionary ids that depend on the whole run so far.", "anchors": ["decoder/ff_klm.cc:75-85", "decoder/ff_klm.cc:209-291"]}
{"id": "C52", "title": "Loading an ARPA language model", "statement": "Reading an ARPA file into the hashed language model ends in a model or in an exception, never in undefined behaviour. A file of an admissible order, with the lines the configuration demands for <unk>, <s> and </s>, with n known words on every line of section n, no positive log probability where those are refused, no back-off weight on the highest order, and all n-grams closed under dropping the oldest or the newest word, is accepted. Conversely an accepted file keeps the rules about its lines, and the context of each of its n-grams is the end of some n-gram of the file. If <unk> has a line of its own or no n-gram mentions it, the loaded model is properly built, so that the language model properties C49 and C50 hold of it; if moreover no part of a listed n-gram has a positive Katz score, the log probability of any word, known or not, after any history is the Katz back-off score computed from the text of the file, also where n-grams of lower order are missing from the file, and a sentence scored word by word gets their sum. Words are kept in a state only if the file gives them a back-off weight or some n-gram of the file goes on after them.", "quantifier": "for all ARPA files of any order and vocabulary, all configurations and rest cost builders, all words and histories", "why_tests_cant": "the builder inserts missing lower-order n-grams, keeps two flags in sign bits and shares entries between lines; whether any n-gram of any file disturbs the score of another is a statement about all files", "anchors": ["klm/lm/search_hashed.cc:23-201", "klm/lm/search_hashed.cc:232-298", "klm/lm/read_arpa.hh:42-95", "klm/lm/read_arpa.cc:98-136", "klm/lm/value_build.hh:18-91", "klm/lm/vocab.cc:202-224", "klm/lm/model.cc:91-130"]}
{"id": "C53", "title": "Removing edges from a forest keeps exactly the other derivations", "statement": "After PruneEdges with a mask, the forest is consistent and topologically ordered, its edges are unmarked edges of the old forest in their old order with their old content, and its derivations are exactly, one for one, the old derivations that use no marked edge. With the reachability check every edge and every node left is part of a derivation, and if every derivation uses a marked edge nothing is left.", "quantifier": "all well-formed topologically ordered forests, all masks, both settings of the reachability check", "why_tests_cant": "the number of masks is exponential in the edges, and whether an edge is left over can depend on any other", "anchors": ["decoder/hg.cc 257-288", "decoder/hg.h 450-452", "decoder/inside_outside.h 28-66"]}
{"id": "C54", "title": "Beam and density pruning keep what their documentation says", "statement": "PruneInsideOutside in Viterbi mode: with beam alpha every edge left is preserved or lies on a derivation at most alpha below the best; every derivation at most alpha*(1-N/10^6) below the best survives with its score, N the number of edges, so with at most a million edges the best score is unchanged; if edges come after those they build on, no edge is stranded even without the reachability check. With density pruning to density*(edges of a best derivation) = d edges nothing happens to a forest with at most d edges; otherwise the best score is unchanged and at most d edges are left, provided at most d edges lie on best derivations and more than d on derivations of positive probability. With both, the result is that of the criterion named by the value returned.", "quantifier": "all well-formed topologically ordered forests without repeated tails and with a derivation of positive probability, all edge probabilities, beams, densities and preservation masks", "why_tests_cant": "every pruned edge depends on the inside and outside scores of the whole forest, and the narrowing cutoff depends on the position of each edge", "anchors": ["decoder/hg.cc 290-375", "decoder/hg.h 454-475", "decoder/inside_outside.h 28-168", "decoder/viterbi.cc ViterbiPathLength"]}
{"id": "C55", "title": "The aligner's position prior is a probability distribution", "statement": "For every target word the probabilities fast_align gives to the null word and to the source positions sum to one: with the uniform prior always, with --favor_diagonal if there is a null word. The closed-form normaliser equals the sum over source positions of exp(-tension*|j/n - i/m|), so a source position has probability (1-p0) times its share of that sum, and positions closer to the diagonal are likelier.", "quantifier": "all sentence lengths below 2^32, all positions, all tensions other than 0, all null probabilities other than 1", "why_tests_cant": "a unit test can sum up a few sentence lengths; that the geometric series in closed form is right for every split of every length needs a proof", "anchors": ["word-aligner/da.h:13-41", "word-aligner/fast_align.cc:151-166"]}
{"id": "C56", "title": "Tuning the diagonal tension", "statement": "The closed-form gradient used by --optimize_tension is the derivative, with respect to the tension, of the logarithm of the normaliser of the diagonal prior, the feature of the counted alignments is the one of the model, and a tuned tension stays between 0.1 and 14.", "quantifier": "all sentence lengths, positions and tensions", "why_tests_cant": "the formula is a sum of arithmetico-geometric series; no finite set of inputs shows it equals a derivative everywhere", "anchors": ["word-aligner/da.h:43-79", "word-aligner/fast_align.cc:205,231-246"]}
{"id": "C57", "title": "EM training of the aligner", "statement": "Training fails exactly if a sentence is empty. The likelihood printed in each iteration is the log probability of the corpus, summed over all alignments, under the parameters at that point. Without tension tuning it never falls from one iteration to the next. After at least two iterations every source word, and the null word, has a probability distribution over exactly the target words seen in a sentence pair with it.", "quantifier": "all corpora of at most 10^9 target word types, all numbers of iterations, all tensions and null probabilities that make sense; exact arithmetic", "why_tests_cant": "EM's monotonicity is a theorem about all corpora; a run shows it for one corpus", "anchors": ["word-aligner/fast_align.cc:113-256", "word-aligner/ttables.h:25-69"]}
{"id": "C58", "title": "Alignments printed by the aligner are most probable ones", "statement": "For each sentence pair the links printed are those of an alignment no other alignment of the pair has a higher probability than, under the final parameters; among equally probable ones every target word is linked to the null word if possible, else to the first possible source word. Aligning the training corpus as a test set gives the same links. If the parameters are written, every line has the probability of a pair of words seen together, and every linked pair has a line.", "quantifier": "all corpora, options (without variational Bayes and forced alignment) and numbers of iterations; exact arithmetic", "why_tests_cant": "the number of alignments of a sentence pair is exponential in its length", "anchors": ["word-aligner/fast_align.cc:167-195,271-326"]}
{"id": "C59", "title": "Extracted translation rules are consistent with the word alignment", "statement": "For an occurrence of a source phrase in a sentence pair, every rule extracted is a pair of spans with gaps such that no link leaves the pair of spans, no link leaves a pair of gaps and each pair of gaps contains a link; the terminals on the source side are exactly the words of the occurrence, the symbols of both sides are the words of the spans with numbered nonterminals in place of the gaps, and the rule's own alignment has exactly the links of its terminals, at the right indexes. The limits on span, symbols, nonterminals and gap size hold, and with the tight option the words at all ends are aligned.", "quantifier": "all sentence pairs, alignments, options, phrases with any number of gaps, and occurrences that fit into the limits", "why_tests_cant": "sentence pairs, alignments and gap configurations are unbounded; the extractor grows spans from both sides to a fixed point", "anchors": ["extractor/rule_extractor.cc:124-341", "extractor/rule_extractor_helper.cc:24-360", "extractor/target_phrase_extractor.cc:36-155", "extractor/phrase_builder.cc:11-46"]}
{"id": "C60", "title": "Rule extraction is complete for the phrase itself", "statement": "With at most two gaps, the rules extracted for an occurrence whose source side is the phrase itself are exactly the consistent rules over that occurrence that keep the limits (with the tight option the tight ones, otherwise all ways of attaching unaligned words), each exactly once, with equal fractional counts that add up to one.", "quantifier": "all sentence pairs, alignments, options, occurrences that fit, phrases with at most two gaps", "why_tests_cant": "completeness quantifies over all candidate rules of a sentence pair", "anchors": ["extractor/rule_extractor.cc:124-228", "extractor/target_phrase_extractor.cc:36-155"]}
{"id": "C61", "title": "Rule counts and scores agree with the occurrences", "statement": "The rules returned for a sampled phrase contain each pair of source and target phrase that was extracted exactly once, with the number of its extracts and the most frequent alignment; the count of a source phrase is the number of occurrences that yield it. With tight phrases the counts of the targets of a source phrase add up to that number, which is at most the number of samples, so the coherent translation score is never negative and is minus the logarithm of the relative frequency; the singleton feature fires exactly for source phrases yielded once.", "quantifier": "all corpora, lists of occurrences, phrases and options (the last sentences: with the tight option)", "why_tests_cant": "the maps are filled over arbitrarily many occurrences and the extracts of each depend on the whole sentence pair", "anchors": ["extractor/rule_extractor.cc:77-122", "extractor/features/target_given_source_coherent.cc:8-11", "extractor/features/is_source_singleton.cc:8-10"]}
{"id": "C62", "title": "Expectations over forests", "statement": "Running the inside algorithm with weight-value pairs yields, at every node, the total weight of its derivations and the weighted sum of their values, so the quotient is the expected value (for instance the expected length printed by the decoder). The inside-outside shortcut yields the same weighted sums for every feature when no edge has a node twice among its tails, and with log-linear weights the normalised result is the gradient of the log partition function.", "quantifier": "All forests in topological order with any finite number of derivations, all edge weights and values, all feature vectors and weight vectors.", "why_tests_cant": "The number of derivations is exponential in the forest; a test compares a few enumerated forests, and no test can establish a derivative.", "anchors": ["utils/exp_semiring.h:18-37", "decoder/hg.h:580-608", "decoder/inside_outside.h:135-187", "decoder/decoder.cc:797-801"]}
{"id": "C63", "title": "Conditional likelihood training: objective and gradient", "statement": "Over a training corpus, the batch trainer accumulates exactly the sum over sentences with both forests of log Z - log Z(reference), and the vector given to the optimiser is the gradient of that sum; sentences without a forest or without a reference forest contribute nothing. A Gaussian prior adds its value and its gradient.", "quantifier": "All corpora, all forests, all weight vectors, all priors.", "why_tests_cant": "That a vector is the gradient of a function at every point is not observable from finitely many evaluations in floating point.", "anchors": ["training/crf/mpi_batch_optimize.cc:86-165", "training/crf/mpi_batch_optimize.cc:320-334"]}
{"id": "C64", "title": "Minimum risk training: objective and gradient", "statement": "For a set of candidates the risk is the expected cost under probabilities proportional to exp(weights . features), the entropy is that of the same distribution, and the value minimised, risk minus temperature times entropy summed over sentences, is given to the optimiser together with its gradient.", "quantifier": "All non-empty candidate sets, metric scores, weights and temperatures (positive or negative), error metrics or not.", "why_tests_cant": "Gradients at all points; a sign error in one term goes unnoticed in tests with temperature zero.", "anchors": ["training/utils/risk.cc:12-41", "training/utils/entropy.cc:14-37", "training/minrisk/minrisk_optimize.cc:57-85"]}
{"id": "C65", "title": "Pairwise ranking optimisation: objective and gradient", "statement": "The value given to the optimiser is the negative log likelihood of the labels under the logistic model with bias, plus the penalties on the weights and on their distance from the previous weights; the vector given with it is the gradient of that value, whether or not held-out examples are being scored.", "quantifier": "All training and held-out sets, weights, previous weights and regularisation strengths.", "why_tests_cant": "Held-out scoring is meant not to change training; a test which checks the reported perplexity does not see that the gradient changed.", "anchors": ["training/pro/mr_pro_reduce.cc:92-178"]}
{"id": "C66", "title": "Sampling occurrences of a phrase", "statement": "The sample of the occurrences of a phrase has distinct occurrences in their order, at most the maximum number, and none from a blacklisted sentence; if there are no more occurrences than the maximum it has every allowed one, it is empty only if no occurrence is allowed, and with nothing blacklisted its size is the smaller of the number of occurrences and the maximum.", "quantifier": "All corpora, phrase locations (suffix array ranges or lists of matchings), sets of blacklisted sentences and maxima.", "why_tests_cant": "Which ranks the sampler tries depends on rounding, on where the range lies and on which sentences are excluded; the missing or repeated samples only show for particular combinations.", "anchors": ["extractor/backoff_sampler.cc:15-65", "extractor/matchings_sampler.cc:15-42", "extractor/suffix_array_sampler.cc:15-43", "extractor/phrase_location_sampler.cc:17-32"]}
{"id": "C67", "title": "Occurrences of phrases with gaps", "statement": "Given all occurrences of a phrase without its last symbols and without its first symbols, the occurrences computed for a phrase with gaps are exactly those in the corpus: words in order, gaps of at least the minimum size, within one sentence and the maximum span, each once; the two inputs still stand for the same occurrences afterwards.", "quantifier": "All corpora, phrases with any number of gaps, span and gap limits, and precomputed indexes that are correct where they have an entry.", "why_tests_cant": "There are exponentially many shapes of phrases, and an occurrence that is lost at a sentence boundary or at the span limit only changes counts slightly.", "anchors": ["extractor/fast_intersector.cc:30-177", "extractor/data_array.cc:59-84", "extractor/phrase_location.cc:5-24"]}
{"id": "C68", "title": "Phrases looked up for an input sentence", "statement": "For an input sentence, the grammar extractor finishes and looks at exactly the phrases with gaps that can be read off the sentence within its limits on symbols, nonterminals, gap size and span and that occur in the corpus; each of them once, with a location that stands for all of its occurrences.", "quantifier": "All corpora, input sentences (with words unknown to the corpus), limits, and precomputed indexes that are correct where they have an entry.", "why_tests_cant": "The search shares work between phrases through suffix links and null entries in a trie; whether an entry is complete when it is used depends on the order of the queue over the whole sentence.", "anchors": ["extractor/rule_factory.cc:107-309", "extractor/matchings_trie.h:18-48", "extractor/matchings_finder.cc:15-23"]}
{"id": "C69", "title": "Restricting a translation forest to a reference keeps exactly the derivations that produce it", "statement": "Intersecting a forest with a reference sentence or lattice succeeds exactly when some derivation of the forest has as its translation the words of some path through the reference. If it succeeds, the new forest has one derivation for each pair of such a derivation and path, and no others; each reads the path's words as its source and yields the old source sentence as its translation, and carries the features of the old edges and of the arcs.", "quantifier": "for all forests with well-formed rules whose target sides are not empty, all reference sentences of up to 9999 words and all reference lattices in which some position has alternatives, all dictionaries", "why_tests_cant": "tests compare a few references; a lost or doubled derivation needs a particular interplay of pruning, the inverted grammar and the parser, and the number of derivations is exponential", "anchors": ["decoder/hg_intersect.cc:23-55", "decoder/hg_intersect.cc:86-166", "decoder/decoder.cc:1020-1031"]}
{"id": "C70", "title": "The fast restriction of linear-chain forests keeps exactly the matching derivations", "statement": "For a linear-chain forest and a plain reference, restricting succeeds exactly when every position of the reference has a matching word in the forest. The new forest has exactly the derivations all of whose words match, one for one; the inner edges are unchanged, and the edges with words have source and target and their positions exchanged, provided their rule object was not used by a matching edge before.", "quantifier": "for all forests in which each word edge has one target word for an existing position of the reference", "why_tests_cant": "the fast path is only taken for particular models, and the effect of shared rule objects shows only for particular references", "anchors": ["decoder/hg_intersect.cc:57-84", "decoder/lattice.h:43-48"]}
{"id": "C71", "title": "The tagger's forest contains every tag sequence once", "statement": "For an input sentence the tagger builds a forest whose derivations are the sequences of tags from the tag set, one for one: each has the input as its source and the sequence as its translation. Restricted to a reference of the same length it succeeds exactly when all its words are tags, and then the forest has exactly the derivations with that sequence, with source and target exchanged.", "quantifier": "for all tag sets, all non-empty input sentences and all references of the same length", "why_tests_cant": "the number of sequences is exponential in the length of the sentence", "anchors": ["decoder/tagger.cc:50-82", "decoder/hg_intersect.cc:57-84"]}
{"id": "C72", "title": "Lexical translation and alignment forests contain every choice of words once", "statement": "The lexical translation model builds a forest whose derivations are the choices, for each target position, of a source position (or the empty word) and a rule for the word there, restricted on demand to the words of the reference; it gives up exactly when some source word has no rule. The alignment model's forest has one derivation for each alignment of the target words to source words with a parameter for the pair; each translates to the target sentence. Restricting the translation forest to a reference keeps exactly the derivations which produce it.", "quantifier": "for all grammars, sentences and references", "why_tests_cant": "the number of derivations is exponential in the length of the sentence", "anchors": ["decoder/lextrans.cc:158-249", "decoder/lexalign.cc:22-94"]}
{"id": "C73", "title": "Derivations are sampled with the probability the forest gives them", "statement": "Sampling n hypotheses from a forest with positive edge weights draws every derivation of the goal with probability equal to its weight divided by the total weight of all derivations, independently from sample to sample: there is a box of intervals per derivation, of exactly that volume, such that any sequence of numbers in [0,1] falls into the box of exactly one derivation, and the samples returned are the derivations whose boxes the random numbers fall into. Each sample's features are the sum of the features of the derivation's edges, its model score their product, and its words are those of the derivation provided the derivation expands a node in the same way wherever it occurs.", "quantifier": "for all forests in topological order without empty nodes, all positive rational weights, all numbers of samples and all sequences of random numbers in [0,1]", "why_tests_cant": "A statistical test only sees finitely many draws from a few forests; a wrong choice at an interval's end, a score without the inside weights of the tails, or marks left over from an earlier sample change probabilities or only the words of rare samples.", "anchors": ["decoder/hg_sampler.cc: HypergraphSampler::sample_hypotheses", "utils/sampler.h: RandomNumberGenerator::SelectSample"]}
{"id": "C74", "title": "The union of two forests has the derivations of both and nothing else", "statement": "Joining a forest into another one with the same goal, nodes being identified by their hashes, gives a well-formed, topologically sorted forest with the same goal unless the two taken together have a cycle below the goal, in which case the program is aborted. Every derivation of the result is made of edges of one of the two forests; every derivation of the forest added to is one of the result; for every derivation that mixes edges of both there is one of the result in which an edge is at most replaced by one with the same rule sides, the same tails and features within the tolerance. If the forest added to had no two such edges under one node the result has none. Joining a forest with itself changes no derivation; forests with hashes occurring twice or with different goals are refused.", "quantifier": "for all pairs of well-formed forests with unique hashes and equal goal hash, any feature representation and tolerance", "why_tests_cant": "Existing tests join two tiny forests and look at the best path; a node matched to the wrong one, an edge compared with a node's stale in-edges, or one lost when nodes are renumbered shows up only in other derivations.", "anchors": ["decoder/hg_union.cc: HG::Union", "decoder/hg_union.cc: EdgesMatch", "decoder/hg.h: Hypergraph::AddEdge(const Edge&, const TailNodeVector&)"]}
{"id": "C75", "title": "The phrase-based decoder builds exactly the ways to cover the sentence", "statement": "Given a phrase table without empty source sides and a non-empty sentence, the phrase-based decoder terminates. It reports failure exactly if the sentence cannot be covered, phrase by phrase, by source sides of the table such that each phrase covers words not yet covered and starts at most the distortion limit behind the first word not yet covered. Otherwise its forest is well-formed and topologically sorted, its derivations read from left to right are exactly those sequences of phrases (positions and rule), and if the table has no duplicate entry no sequence has two derivations. For a word lattice the decoder terminates, fails exactly if there is no covering, and every derivation is a covering (but coverings may be missing: refuted, see findings).", "quantifier": "all phrase tables without empty source sides, all distortion limits, all non-empty sentences (all forward lattices for the second part)", "why_tests_cant": "Tests look at single sentences and at the best derivation; the claim is about the set of all derivations, for every table, sentence and distortion limit, and about termination.", "anchors": ["decoder/phrasebased_translator.cc:27-204", "decoder/phrasetable_fst.cc:31-124"]}
{"id": "C76", "title": "Pass-through translations do not outlive their sentence", "statement": "Translating a list of sentences one after the other with one phrase table, with words passed through or not, gives for each sentence the forest of C75 for the table extended by a rule for each of the sentence's words that has no one-word entry, independent of the sentences before, provided that no phrase of the table starts with a word that has no one-word entry (without this the claim is refuted: entries of the table are lost for the rest of the run, see findings).", "quantifier": "all phrase tables without empty source sides, all lists of non-empty sentences, all distortion limits", "why_tests_cant": "Whether an earlier sentence leaks into a later one depends on the whole history of sentences and on the words shared between table and input; tests decode a few sentences.", "anchors": ["decoder/phrasebased_translator.cc:111-204", "decoder/phrasetable_fst.cc:79-101"]}
{"id": "C77", "title": "The alias sampler draws each outcome with exactly its probability", "statement": "For every finite distribution, the constant-time sampler built from it accesses no table out of bounds, every draw returns one of the outcomes, and each outcome is drawn with exactly its probability (as the measure of the pairs of random numbers which lead to it).", "quantifier": "every distribution over any number of outcomes, every pair of random numbers", "why_tests_cant": "Frequencies of finitely many draws cannot distinguish an exact sampler from one slightly off; the tables depend on the order in which entries become full.", "anchors": ["utils/alias_sampler.h:18-49"]}
{"id": "C78", "title": "The subsequence-kernel metric measures the weighted common subsequences", "statement": "The string subsequence kernel of two sentences is the sum over all pairs of equal subsequences of up to N words of lambda to the number of words the two stretch over. The normalised similarity is symmetric, between 0 and 1, 0 exactly for sentences without a common word and 1 for equal non-empty ones; the metric of a corpus is the average over its sentences of the similarity to the closest reference.", "quantifier": "all sentences, all N, all lambda (positive for the normalised one), all corpora", "why_tests_cant": "The number of subsequences is exponential, the implementation is a dynamic program with a table of partial sums; no finite set of sentence pairs shows that it computes the sum.", "anchors": ["utils/kernel_string_subseq.h:8-50", "mteval/ns_ssk.cc:14-31"]}
{"id": "C79", "title": "The alignment error rate is computed from the links of both alignments", "statement": "For every corpus of hypothesis and reference alignments, written in any way the reader accepts (any order, repeated points, different grid sizes), the error rate is 1 minus twice the number of common links over the sum of the numbers of links; it lies in [0,1], is 0 exactly if every hypothesis has the links of its reference and there is a link at all, and 1 if there are no links.", "quantifier": "all corpora, all alignments, all their spellings", "why_tests_cant": "Grids of different sizes, repeated points and empty alignments (0/0 in precision and recall) interact; tests fix a few grids.", "anchors": ["mteval/aer_scorer.cc:17-125", "utils/alignment_io.cc:7-63"]}
{"id": "C80", "title": "The compound splitter's forest contains exactly the splittings of the word, each once", "statement": "For every word in UTF-8, the derivations of the forest are in one-to-one correspondence with the splittings of the word into pieces of at least three characters (or the unsplit word, whatever its length), where a linking element (-es, -s, or the n of -en) may be taken off any piece but the last if at least four bytes remain. The source side of a derivation spells the word, the target side the stems, the features count the linking elements taken off, and the edge reported as the one of the whole word is used by the derivation of the unsplit word and no other.", "quantifier": "every non-empty word without blanks, every injective numbering of the strings", "why_tests_cant": "The number of splittings is exponential in the length; the pruner relies on the index of the whole-word edge for every word.", "anchors": ["decoder/csplit.cc:45-176", "utils/stringlib.h:295-303"]}
{"id": "C81", "title": "Online training with cumulative L1 penalty shrinks each weight by exactly the penalty of the epoch", "statement": "After any number of updates of an epoch, with any gradients and any nonnegative learning rates, the weight of a feature subject to the penalty is the weight which plain gradient steps would have given, moved towards 0 by the sum of the penalties (C/N times the sum of the learning rates) and cut at 0; it does not matter when the feature came into range. Frozen features keep their weights, and features outside the range get plain gradient steps. Both learning rate schedules are positive and fall.", "quantifier": "every sequence of gradients, every schedule, every set of frozen features", "why_tests_cant": "The penalty is applied lazily and incrementally; whether what each weight paid adds up to the right total depends on the whole history of signs.", "anchors": ["training/utils/online_optimizer.h:56-126", "training/utils/online_optimizer.cc:5-11", "training/crf/mpi_online_optimize.cc:324"]}
{"id": "C82", "title": "RProp moves each variable downhill by steps which depend on the signs only and stay within bounds", "statement": "After any evaluations RProp moves no variable uphill and none by more than the largest step; all step sizes stay within their bounds. The trajectory depends on the signs of the derivatives only, and on each variable's own derivative only. While a derivative keeps its sign the steps grow geometrically up to the largest; when it changes its sign the variable waits and the step shrinks.", "quantifier": "every number of variables, every sequence of gradients, all admissible parameters", "why_tests_cant": "Bounds and invariance hold along trajectories of any length, for all sign patterns.", "anchors": ["training/utils/optimize.cc:42-62", "training/utils/optimize.h:21-79"]}
{"id": "C83", "title": "The pairs dtrain learns from are exactly the wanted ones, the better hypothesis first", "statement": "With 'all', dtrain is given every pair of hypotheses of which the first is better by at least the threshold (and not preferred by the model, if only misranked pairs are asked for), as often as they occur, and no other pair, whatever order the sort gives to ties; with a limit, a part of them within the limit. 'PRO' keeps the pairs with the largest differences. Every pair of 'XYX' is such a pair.", "quantifier": "every list of hypotheses with any scores and ties, every threshold and limit, every outcome of an unstable sort", "why_tests_cant": "Ties and the unstable sort make the result depend on the library; the claims concern all outcomes.", "anchors": ["training/dtrain/pairsampling.h:8-135"]}
{"id": "C84", "title": "The sentence scores dtrain learns from are the documented BLEU variants, within their ranges, and best for the reference", "statement": "The n-gram counts behind dtrain's scores are the clipped matches of each order and the number of n-grams of the hypothesis. With default weights the plain score is the brevity penalty times the geometric mean of the precisions over the orders which the reference has. With any nonnegative weights the plain, the add-one smoothed and the approximate corpus scores are between 0 and 1 (the last after any sequence of calls, any discount); the plain and the add-one scores are 1 for the reference itself and the add-one scores 0 exactly if no word matches; the scores which sum over orders are between 0 and 1-2^-N, reached by the reference itself.", "quantifier": "every hypothesis and reference, every order N, all nonnegative weights, every sequence of calls", "why_tests_cant": "The scores are the training signal of any sentence pair; range and normalisation concern all sentences and the state kept over a whole epoch.", "anchors": ["training/dtrain/score.h:10-136", "training/dtrain/score.cc:16-42", "training/dtrain/score.cc:54-162", "training/dtrain/score.cc:226-279", "training/dtrain/dtrain.h:71-85"]}
{"id": "C85", "title": "A k-best MIRA step is the smallest change of the weights which keeps the margin, limited by C, and the averaged weights are the average", "statement": "Each iteration of kbest_mira compares the best hypothesis seen so far for the sentence with the worst one of the current list. If the decoder's first choice is as good as the best one the weights stay as they are; otherwise the new weights are the unique minimum of half the squared change plus C times the margin violation, so the margin is kept unless the step is the largest allowed. The averaged weights are the mean of the initial weights and of the weights after each iteration.", "quantifier": "every k-best list, every sequence of sentences, any number of features, all step limits", "why_tests_cant": "Optimality of a step is a statement about all other weight vectors; averages concern runs of any length.", "anchors": ["training/mira/kbest_mira.cc:119-182", "training/mira/kbest_mira.cc:228-318"]}
{"id": "C86", "title": "Cutting-plane MIRA optimises the dual of its objective step by step, and stops only at nearly optimal weights", "statement": "For a set of constraints with one oracle, every step of the optimisation keeps the multipliers nonnegative with sum 1, keeps the weights equal to those which the multipliers determine, and is the best step for its pair; a whole round never decreases the dual objective, which bounds the objective of all weights from below. When the selection heuristic finds no pair for the violations of the current weights, no weights are better by more than C times the tolerance. The passive-aggressive update is the minimum of its objective.", "quantifier": "every constraint set, any number of features and steps, all step limits", "why_tests_cant": "Optimality quantifies over all weight vectors and all step sizes; the invariants hold along runs of any length.", "anchors": ["training/mira/kbest_cut_mira.cc:185-317", "training/mira/kbest_cut_mira.cc:500-548", "training/mira/kbest_cut_mira.cc:810-960"]}
{"id": "C87", "title": "Every training line sampled for PRO states a true preference", "statement": "Each line which the PRO mapper writes for a sentence is the difference of the features of two different candidates of that sentence with different metric scores, labelled 1 exactly if the first one is better (larger score, or smaller for an error metric); every pair is written in both directions. There are at most xi pairs, in falling order of the difference of their scores, their features differ and their lengths differ by at most two deviations; the limit on lengths never excludes all pairs. Of the pairs drawn, those are kept whose random number is below a probability that grows with the difference of the scores; if there are more than xi, the ones with the largest differences.", "quantifier": "every set of candidates, every metric, every outcome of the random draws", "why_tests_cant": "The pairs depend on thousands of random draws; a wrong label for some combination of metric direction and draw would only show as worse weights.", "anchors": ["training/pro/mr_pro_map.cc:68-162", "training/pro/mr_pro_map.cc:209-217"]}
{"id": "C88", "title": "The repository of k-best candidates is read back as it was written", "statement": "Writing the candidates of a sentence and reading the file again gives the same words, feature names (even with '=' in them), values and statistics, up to what printing a number loses, for candidates with at least one feature.", "quantifier": "all lists of candidates", "why_tests_cant": "A parser of text has to be right for all names and numbers, not for those of a test file.", "anchors": ["training/utils/candidate_set.cc:88-143", "mteval/ns.cc:312-329", "utils/stringlib.h:189-275", "utils/sparse_vector.h:33-51", "utils/tdict.cc:22-29"]}
{"id": "C89", "title": "Removing duplicate candidates loses no candidate", "statement": "After merging new k-best candidates into the set, every candidate added is still there or is represented by one with the same words and the same features, whose values agree up to the lower half of their bits; nothing is invented, and no two candidates left have the same words and features.", "quantifier": "all lists of candidates, any hash function, any order of the hash table", "why_tests_cant": "What a hash set keeps depends on the hash function and its buckets; the claim must hold for all of them.", "anchors": ["training/utils/candidate_set.cc:25-86", "training/utils/candidate_set.cc:145-158"]}
{"id": "C90", "title": "Escaped feature names are unambiguous and contain no special characters", "statement": "Escaping a string for use in a feature name removes every '=', ':', ';', ',', '_', '|' and space, leaves a string without these and '%' as it is, and is undone by decoding, except that '+' is decoded as a space; the features of two different pairs of (space-free) words have different names. The buffers used are large enough.", "quantifier": "all strings", "why_tests_cant": "Injectivity of an encoding is a statement about all pairs of strings; a test samples a few characters.", "anchors": ["utils/fdict.cc:29-147", "decoder/lexalign.cc:70-80"]}
{"id": "C91", "title": "Weights survive being written to a file or a string and read again", "statement": "Reading a weights file written by the library gives every feature, by its name, the weight it had, whatever the numbering of the features in the writing and in the reading program, with zero weights hidden or not, with a comment or not; weights of features not in the file are kept; a frozen dictionary gets the weights of the features it knows. Weights written as a string and taken over from it are the same for every feature shown. Conditions: names without space, tab, '=', newline and not beginning with '#' (escaping ensures most of this), at least five characters in the file.", "quantifier": "all dictionaries, weights and names", "why_tests_cant": "The parser has to be right for all names, numbers and states of the dictionary.", "anchors": ["utils/weights.cc:12-73", "utils/weights.cc:94-127", "utils/weights.cc:162-185", "utils/fdict.h:47-52"]}
{"id": "C92", "title": "Minimum Bayes risk reranking chooses the candidate of least expected loss", "statement": "The reranker reads the k-best lists of the same sentences from several files and gets, sentence by sentence, exactly the candidates of that sentence from all files, stopping after the last one. It chooses the first candidate for which the expected loss of the others against it is least, under the probabilities obtained by normalising the scores, although it stops summing a candidate early; asked for the whole list it prints these expected losses.", "quantifier": "all k-best lists with translations which are not empty, any number of files, any metric with losses which are not negative", "why_tests_cant": "The early exit and the cached lines between sentences are only wrong for particular orders of candidates and groups.", "anchors": ["mteval/mbr_kbest.cc:54-189"]}
{"id": "C93", "title": "The corpus score of a combined metric is the weighted sum of the corpus scores", "statement": "Adding up the statistics of a combined metric over segments and computing the score gives the weighted sum of the scores which the metrics combined give for their own statistics added up. A combined score written to a string is read back as its parts.", "quantifier": "all metrics with statistics of fixed size, all weights and corpora", "why_tests_cant": "Offsets into a shared vector of statistics are right or wrong depending on the sizes and order of the metrics.", "anchors": ["mteval/ns_comb.cc:10-87", "mteval/ns.h:20-68", "mteval/comb_scorer.cc:52-60", "mteval/comb_scorer.cc:91-97"]}
{"id": "C94", "title": "N-gram indicator features count the n-grams of the sentence", "statement": "For a sentence without sentence markers, the NgramFeatures values of the edges of any derivation plus the final transition count, for every name, the stretches of at most 'order' words of the sentence with </s> which have that name; however the derivation brackets and reorders the words. If different n-grams have different names, the value of an n-gram's feature is the number of its occurrences. The same holds with -x when the rules produce <s> and </s> in their places. A well-formed sentence never fires Malformed.", "quantifier": "all orders from 1 to 5, all word clusters, all derivations using each nonterminal once", "why_tests_cant": "The features are split between partial hypotheses whose first words are scored later; a test sees a few bracketings.", "anchors": ["decoder/ff_ngrams.cc:19-47", "decoder/ff_ngrams.cc:161-363", "decoder/ff_ngrams.cc:425-431"]}
{"id": "C95", "title": "Tagger features count tags, neighbouring tags and word-tag pairs", "statement": "For an input of at least two words and tags whose names can be told apart, the sum of the Tagger_BigramIndicator features over the edges of any derivation of the tagger's forest counts every tag and every pair of neighbouring tags, with BOS before and EOS after, and nothing else. The LexicalPairIndicator features count the pairs of the source word (or the word given in its place) and its tag, the OutputIndicator features count the tags.", "quantifier": "all tag sets, all inputs, all derivations", "why_tests_cant": "Which edge fires BOS and EOS depends on spans of edges in a forest of exponentially many derivations; tests look at single edges.", "anchors": ["decoder/ff_tagger.cc:13-72", "decoder/ff_tagger.cc:98-159", "decoder/factored_lexicon_helper.h:36-60", "decoder/factored_lexicon_helper.cc:54-72"]}
{"id": "C96", "title": "Feature functions used together do not disturb each other", "statement": "When several feature functions are used, each of which fills its own part of the state and looks at and changes only its own features, then for every derivation each of them sees the states and computes the features it computes when it is used alone, including the features at the goal. Features of no function are the sum over the rules. The order in which the functions are given changes no feature. Two states are merged exactly if all parts agree up to the bytes the functions want ignored.", "quantifier": "all sets of feature functions, state sizes, derivations", "why_tests_cant": "The offsets and ranges depend on all functions before; a wrong offset shows only with certain sets of functions and derivations.", "anchors": ["decoder/ffset.cc:9-24", "decoder/ffset.cc:31-60", "decoder/ffset.cc:62-78", "decoder/ffset.cc:80-90"]}
{"id": "C97", "title": "Word and rule counting features", "statement": "In any set of feature functions which leave its feature alone, WordPenalty of a derivation is its value times the length of the target sentence, SourceWordPenalty its value times the length of the source sentence, Arity_n the number of rules used with n variables, and WordSet the number of words of the target sentence which are in the vocabulary.", "quantifier": "all derivations of well-formed rules, all values, all vocabularies, all other feature functions", "why_tests_cant": "The total depends on all rules of a derivation and on variables which are no words; tests score single rules.", "anchors": ["decoder/ff_basic.cc:9-78", "decoder/ff_wordset.cc:55-72", "decoder/trule.h:130-134"]}
{"id": "C98", "title": "The extractor's lexical probabilities are relative frequencies of the word links", "statement": "For a word-aligned corpus with links in range, the lexical table gives for every pair of corpus words the number of their links divided by the number of links of the conditioning word, a word without a link being linked to the null word. The probabilities given any linked word sum to one. Words outside the corpus get -1. The MaxLex features of a phrase pair are the sum over the words of one side of minus log10 of the best probability given a word of the other side or the null word, and 99 for a word without any.", "quantifier": "all corpora, alignments, words and phrase pairs", "why_tests_cant": "Counts are collected over a concatenated array with sentence offsets and word numbers; a wrong offset or null count changes numbers only slightly.", "anchors": ["extractor/data_array.cc:52-82", "extractor/data_array.cc:132-135", "extractor/translation_table.cc:15-90", "extractor/translation_table.cc:92-125", "extractor/features/max_lex_source_given_target.cc:15-31", "extractor/features/max_lex_target_given_source.cc:15-31"]}
{"id": "C99", "title": "Rule bigram and identity features do not depend on the cache", "statement": "With a feature dictionary which takes new names, after any sequence of rule applications for an input the rule source and target bigram features count the neighbouring symbols of the rules used, with marks at both ends, once for every use, and nothing else; the rule identity features count the uses of rules by name.", "quantifier": "all sequences of rule uses, all rules with plain symbols", "why_tests_cant": "The first and the later uses of a rule go different ways through the cache; a test sees one of them.", "anchors": ["decoder/ff_rules.cc:18-27", "decoder/ff_rules.cc:37-69", "decoder/ff_rules.cc:72-100", "decoder/ff_rules.cc:116-153"]}
{"id": "C100", "title": "Trees are read, printed and walked as written", "statement": "A tree written with brackets and any blanks between the parts is read as that tree. Every node gets a number after its children, and for an input tree the span of the words below it. Printing gives the text with single blanks, which is read as the same tree. The default iterator visits the tree depth first, a subtree once as a child and once as a left side, and the terminals are the words in order.", "quantifier": "all trees, all texts which write them, with and without frontier sites", "why_tests_cant": "The parser is a recursion over character positions with a shared node counter, and the iterator a stack machine; tests have a few trees with one way of writing.", "anchors": ["decoder/tree_fragment.cc:11-33", "decoder/tree_fragment.cc:35-50", "decoder/tree_fragment.cc:53-66", "decoder/tree_fragment.cc:68-73", "decoder/tree_fragment.cc:78-138", "decoder/tree_fragment.h:102-186"]}
{"id": "C101", "title": "Tree-to-string translation makes exactly the edges of the rules which match", "statement": "For an input text which writes a tree, composition with the grammars ends without error, and the forest has for every node which has to be translated, every part of the input tree from that node and every rule whose fragment has the walk of the part exactly one edge, whose tails are the nodes where the part stops; no other edge. If the label of a node fixes its number of children, only parts equal to the fragment match. With pass-through rules every input tree with labels has a translation, whatever the grammars.", "quantifier": "all trees, texts which write them, grammars (lists of rules with fragments), rule types", "why_tests_cant": "The composition is a search with a queue, a set of states compared by iterator, trie node and future work, and truncated iterators; tests have a few grammars and one tree.", "anchors": ["decoder/tree2string_translator.cc:28-83", "decoder/tree2string_translator.cc:98-117", "decoder/tree2string_translator.cc:185-280", "decoder/tree2string_translator.cc:287-407", "decoder/tree_fragment.h:120-186"]}
{"id": "C102", "title": "A forest written as a grammar derives what the forest derives", "statement": "When a translation forest is written as a synchronous grammar, every edge gives one rule with the edge's features, different nodes become different nonterminals, and for forests whose rules at most exchange variables in pairs (all rules with at most two variables) the derivations of a node in the forest correspond one to one to the derivations of its nonterminal in the grammar, with the same two texts, source and target exchanged. For rules which move three variables in a circle the grammar derives other pairs.", "quantifier": "all forests (node categories, edges, rules, features), all derivations", "why_tests_cant": "The correspondence is about all derivations of a forest; sample outputs are compared line by line and have rules with at most two variables.", "anchors": ["decoder/hg_io.cc:327-376"]}
{"id": "C103", "title": "Rule shape features name the shape of a rule", "statement": "The shape feature of a rule with at most two variables per side tells for each side where there are words and variables; two such rules have the same feature exactly if they have the same shapes, and exactly the rules with more variables stop the program. With word classes for one side the feature spells the classes of the symbols of that side (the last line for the word in the class file, cut to the given length, or unknown), whatever rules were seen before. With classes for both sides it can be the feature of another rule seen before.", "quantifier": "all rules, class files, prefix lengths, sequences of rules seen before", "why_tests_cant": "Names are looked up in a tree filled by earlier rules; a test sees a few rules in one order, and shapes are read by a loop over positions that has to stay in step with the symbols.", "anchors": ["decoder/ff_ruleshape.cc:13-108", "decoder/ff_ruleshape.cc:153-162", "decoder/ff_ruleshape.cc:182-243", "decoder/ff_ruleshape.h:25-65"]}
{"id": "C104", "title": "Source path, other-letter and reordering features count what they name", "statement": "Over any derivation the source path features have every word of the source text as often as it occurs; if variables come first on source sides or stand for single words they also have exactly the pairs of neighbouring words. The count of words with other letters is the number of target words with a byte which is not ASCII, for any sequence of derivations. The reordering features of a rule with two variables tell whether its target side has them in source order, and the span size, for spans of up to 15 words.", "quantifier": "all derivations with source and target texts, all word texts that begin their first non-ASCII character properly, all two-variable rules and spans", "why_tests_cant": "The pairs depend on how a text is derived, the letter count on a cache shared by all sentences, and the reordering table has a fixed size; tests use short spans and one derivation.", "anchors": ["decoder/ff_source_path.cc:9-42", "decoder/ff_charset.cc:12-43", "utils/stringlib.h:295-303", "decoder/ff_spans.cc:198-252"]}
{"id": "C105", "title": "Context features fill their template with the words around the label", "statement": "For a template of letters, word macros and one label macro, the context feature of a label at a word of the input is the template with every word macro replaced by the word that many places away (the begin mark before the sentence, the end mark after it) and the label macro by the label, with = and ; made _. Templates without a word or without a label macro, or with a label macro of another place, are refused; rules with variables or with other than one target word give no feature; longer spans stop the program.", "quantifier": "all templates whose letters are not % and whose places are not positive or have no digit 0, all sentences of words without %, all places and labels", "why_tests_cant": "Which macros are found and in which order they are replaced depends on all of the template and on the texts put in before; tests use one or two templates.", "anchors": ["decoder/ff_context.cc:17-54", "decoder/ff_context.cc:92-160", "decoder/ff_context.cc:177-231"]}
{"id": "C106", "title": "Parse match features measure spans against the constituents of the source tree", "statement": "A source tree written with brackets is read so that the span of every constituent has the label of the outermost constituent with that span and no other span has a label; a tree for another number of words stops the program. The distance of a span is 0 exactly for constituents and for other spans of two words or more the least number of words, below its length, whose addition or removal makes it a constituent, where there is such a number. With binary scoring the feature is 1 exactly if the span of the rule and those of its antecedents are constituents; with linear scoring it is 1/(1 + distance).", "quantifier": "all trees in which constituents come before the words of a constituent, with names free of blanks and brackets; all spans and antecedents", "why_tests_cant": "The reader keeps a stack and overwrites labels of unary chains, and distances depend on all constituents around a span; tests use a few trees and spans.", "anchors": ["decoder/ff_parse_match.cc:43-103", "decoder/ff_parse_match.cc:105-182", "decoder/ff_parse_match.cc:199-213"]}
{"id": "C107", "title": "Parallel text is read line by line and shared out between processes without loss", "statement": "A line of parallel text is divided at the first divider. Read by one of several processes, the source and target sides are exactly those of the lines whose number leaves the rank of the process when divided by the number of processes, in order and side by side; the vocabularies have exactly the words of all lines on that side, without repetition, on every process. The shares of all processes together are the text. Lines with a number of dividers other than the one wanted stop the program on every process.", "quantifier": "all texts, all numbers of processes and all ranks, all combinations of what the caller wants", "why_tests_cant": "Sides that go out of step or a line lost between processes show only for some numbers of lines and processes; tests read a small file with one process.", "anchors": ["utils/corpus_tools.cc:11-29", "utils/corpus_tools.cc:31-84"]}
{"id": "C108", "title": "Texts are divided into their words, and input lines into source and reference", "statement": "Splitting on blanks gives exactly the words of a text in order: nonempty, without blanks, with only blanks between; likewise for tokens at any other separator. A command line gives its first word and the others joined with single blanks. Trimming takes away exactly the blanks at both ends. An input line with source, divider and reference gives these two, also if there are dividers in the rules of a source in JSON form or in the reference; a line without divider is the source.", "quantifier": "all texts; for tokens texts without the letter 0; for input lines sources without a divider outside of their rules", "why_tests_cant": "Blanks may be missing, repeated, of two kinds, and at either end, in any mixture; tests have a few such texts.", "anchors": ["utils/stringlib.h:94-114", "utils/stringlib.h:149-174", "utils/stringlib.h:277-288", "utils/stringlib.cc:12-32"]}
{"id": "C109", "title": "A segment tag written with attributes is read back", "statement": "A line with an opening segment tag as the tag writer makes it, a text and the closing tag gives exactly the attributes of the tag with their values, and the text without the blanks around it, whatever follows the closing tag. A line without such a tag stays as it is and gives no attributes.", "quantifier": "any number of attributes; names without blanks and markup letters, values and texts without markup letters (quotation mark, =, < and >; the text may have all but <)", "why_tests_cant": "The reading loop changes the text it reads and its position in it; whether it finds every attribute depends on the lengths of the names and values before.", "anchors": ["utils/stringlib.cc:33-101"]}
