# Formal model of cdec: design

Target: `/repo` (redpony/cdec, C++), read as text.  Prover: Coq 8.16.1, logical
root `Verif` = `rocq/theories`.

## Layout

For each area there are three kinds of files in `rocq/theories`:

* `<Area>.v` - the model: total computable Gallina functions, each with a
  comment citing the file and lines of `/repo` it transcribes, and saying where
  it is simplified.  Undefined behaviour, failed assertions, thrown exceptions
  and out-of-bounds accesses are a distinct outcome (`None` / an error
  constructor), never silently totalised.
* `<Area>Proofs.v` - lemmas and invariants.
* `Properties*.v` - only the property theorems (`Theorem ... Proof. exact
  lemma. Qed. Print Assumptions ...`) and, beside each, an `Example` with a
  concrete non-trivial case meeting the hypotheses.

Theorem names start with the property id (`C06_...`).  `_refuted` marks a
counterexample to the intended claim that holds of the code as written
(a finding); `_partial` marks a theorem weaker than the stated property.

## Trusted base

* Coq's kernel (`vm_compute` is used in some examples and refutations).
* Axioms: those printed by `Print Assumptions` after each theorem; summarised
  in the section "Assumptions" below.
* The correspondence between the C++ text and the Gallina functions, which is
  by reading only; the comments give the line numbers.
* Not modelled anywhere: floating-point rounding (unless said otherwise),
  memory allocation failure, the C++ standard library containers (taken at
  their specification), file and stream IO errors, the command line drivers.

## Plan per property

| id | what is modelled | how proved |
|----|------------------|------------|
| C01 | `Dict` state = word vector + hash map; each `Convert` overload | refinement invariant over arbitrary histories |
| C02 | `SmallVector`: union of inline array / heap block with 16-bit size and capacity | simulation relation to lists, each operation preserves it; histories by induction |
| C03 | `FastSparseVector`: local pair array with count / hash map, switch at LOCAL_MAX | denotation to total functions `id -> value`; commuting lemmas per op; histories by induction |
| C04 | `erase` in both forms | theorem for present key or hash form, `_refuted` witness for absent key |
| C05 | `operator==` | theorem for zero-free vectors, `_refuted` witness |
| C06 | `encodeblock`, `decodeblock`, loops over bytes as `Z`/`N` | block lemma + list induction; `_refuted` for length 2 mod 3 |
| C07 | `utobuf`/`itobuf` digit loop with wrap-around arithmetic | value-of-digits induction, canonical form |
| C08 | `LogVal` over exact reals: sign and extended log | case analysis with `exp`/`ln` over `R` (stdlib real axioms) |
| C09 | offset arithmetic and flat buffer | injectivity of `i + j*width` |
| C10 | printer/parser on character lists | round-trip induction |
| C100 | the TreeFragment constructor (bracket check, ParseRec, SetupSpansRec), DebugRec, the depth first iterator and Terminals; texts are lists of characters, the node vector has unassigned entries, reading outside is an outcome | mutual induction over the relation between texts and trees; the stack of the iterator represents what is still to be visited; two findings |
| C101 | the rule tries, the states of the composition, the queue and the set of states made, truncated iterators, new work, the edges in order; pass-through rules with their text read again; the symbols and iterators of C100 | every state stands for a partial match of a part of the tree; invariant of the queue with the states processed, a measure over the states of the tree for the end; strong induction on nodes for the pass-through rules; two findings |
| C102 | the categories of the nodes, the two sides of the rules with the vector of variables, all edges | induction on derivations in both directions, the exchanged side filled by the inverse of the order of the variables; names of nodes are different because decimal numbers are; one finding |
| C103 | the tree of all shapes, the loop over the two sides, class files, the tree of names filled by earlier rules | the loop takes the five steps of the shape (one lemma for words followed by a variable); the tree checked by computation over all 1024 paths; invariant of the tree of names; one finding |
| C104 | the loop over a source side with the contexts of the antecedents; the letters of words with the cache; the table of reordering features; all edges of a derivation | induction on derivations with permutations of the features fired; invariant of the cache; three findings (pairs across longer variables, a loop which does not end, a table read beyond its end) |
| C105 | the expression for macros as a recogniser, the locations read from a template, find and replace of macros one after the other, the feature of a rule | induction on the pieces of the template with the words put in so far; three findings (positive places with a digit 0, a second label, words written like macros) |
| C106 | the reader of trees as a machine over the letters with its stack and table, the search for the distance, the feature for three scoring methods | induction on trees with the state of the machine before and after; constituents of a tree as an inductive relation; induction on the search; three findings (integer division, a distance which is not set, constituents after words) |
| C107 | the loops over lines and words with the pointers to the sides and sets written to; lines are lists of words | induction on lines and words; the text of a share as an inductive relation; permutations for all shares together |
| C108 | the loops over the letters of a text with the word read so far, find and substr as in the standard library | induction on texts; words of a text as an inductive relation, equivalent to the result; four findings (a line which ends with the divider, one which begins with it, dividers without blanks, letters 0) |
| C109 | the two loops over positions in the tag, which cut the tag while they go, with a number of steps; find, substr and operator[] as in the standard library | the first loop changes nothing if no = has a blank beside it; the second by induction on the attributes; three findings (the second of two unquoted attributes can be lost, blanks around = in values, unescaped > in values) |
| C11 | grid as boolean function with bounds, grow loop as worklist | invariant (between intersection and union) + measure |
| C12 | node/edge vectors, the three construction calls | invariant over histories |
| C13 | `Inside` loop over nodes in order, abstract semiring | induction on topological order against an inductive enumeration of derivation trees |
| C14 | `Viterbi` loop with `<` update and traversal | same, with ordered weights |
| C15 | `Outside` reverse loop, index comparison as in the code | sum over contexts; `_refuted` for duplicated tails |
| C16 | iterative DFS with colours, relocation tables | DFS invariant, measure |
| C17 | reweighting loop | from C13 plus telescoping over a derivation |
| C18 | `ExpandEdge` odometer, state to node map | simulation between derivations |
| C19 | three successor functions and pop loop with an oracle | exactly-once invariant |
| C20 | lazy k-best with candidate heap | frontier invariant |
| C21 | envelope sort/merge over rationals | sweep invariant |
| C22 | instance of C13 with envelope semiring up to denotation | homomorphism |
| C23 | n-gram map with clip counters | counting argument, history independence |
| C24 | DP table, back trace, shift, greedy loop | Levenshtein recursion, permutation, measure |
| C25 | memory as bits/bytes, shift and or | `testbit` extensionality |
| C26 | probing table as bucket array with abstract hash | probing invariant |
| C27 | in-place doubling | invariant on processed prefix |
| C28 | AutoProbing counters | invariant; `_refuted` for `Insert` |
| C29 | search loops with arbitrary pivot | interval invariant, measure |
| C30 | transition system: threads, two semaphores, two mutexes, ring buffer | inductive invariant over all schedules |
| C31 | bucket sort + prefix doubling | group invariant |
| C32 | binary search | sortedness |
| C33 | Kasai loop | amortised invariant |
| C34 | projection and closure loops | fixpoint invariant |
| C35 | double loop over gaps | exhaustive for <= 2 gaps, `_refuted` for 3 |
| C36 | `UpdateIndex` with shared mutable pattern | `_refuted` plus theorem for single-symbol chunks |
| C37 | substitution on symbol vectors | list induction |
| C38 | Floyd-Warshall as written | path-length invariant |
| C39 | escape/unescape state machine | round trip |
| C40 | length-prefixed records with 8-bit length | round trip under bound; `_refuted` above |
| C41 | BLEU score from the statistics vector over the reals | monotonicity of exp/ln; case analysis on zero counts |
| C42 | `SufficientStats` arithmetic with vectors of different sizes | pointwise denotation |
| C43 | `ComputeErrorSurface` on top of C22 | correspondence of segments with derivations |
| C44 | `LineOptimizer::LineOptimize` sweep | sweep invariant against a pointwise sum |
| C45 | composition of C22, C43, C44 | composition |
| C46 | two-row edit distance, WER and CER statistics | row invariant against the recursive definition |
| C47 | `TRule::save`/`load` on a value archive with two dictionaries | round trip by list induction, dictionary extension |
| C48 | `ExhaustiveBottomUpParser`: active and passive charts, rule trie, unary rule sorting, goal search | chart equations as an invariant of the span loop; derivations of the edge list read as parses (soundness, completeness, injectivity); composition with C16 |
| C49 | KenLM `RuleScore`, `ExtendLeft`, `UnRest` and the chart states over hashed tables; `BoundaryRuleScore`, `LookupWords`, `FinalTraversalCost` of the feature; weights as integers (floats in units of 2^-149, sums not rounded) | an invariant that relates a partial state to the score of its words under every left context; induction over the rule and the derivation |
| C50 | `FullScore`, `FullScoreForgotState`, `GetState` of the same model | state characterisation by usefulness of history prefixes, induction over the history |
| C51 | `VMapper::Add`, `LoadWordClasses`, `MapWord`, `ClassifyWordIfNecessary` and the constructor | pointwise denotation of the growing vectors |
| C52 | the ARPA loader of KenLM's hashed search: reading unigrams and the vocabulary, the insertion of n-grams with blanks for missing lower orders, back-off and extension marks, rest costs; the text is given as lines | an invariant after every line over the table read as a partial map from n-grams: presence is prefix-closure of the lines so far, marks are set wherever a longer n-gram or a longer history exists, values equal the Katz score of the file; ids to strings by injectivity of the vocabulary on normalised words |
| C53 | `PruneEdges`: the reachability pass as Inside over booleans, the filtered mask, the topological sort | reuse of the proofs of C13 and C16; a derivation avoids the mask iff its boolean weight is true |
| C54 | `PruneInsideOutside`, `MarginPrune`, `nth_greatest`, `compute_edge_marginals` in Viterbi mode over exact rational log-probabilities with minus infinity; the sum-product mode is not modelled | marginals as the best derivation through an edge (C15 over the tropical semiring), the creeping cutoff in closed form, ranks by sorting |
| C55 | `DiagonalAlignment::ComputeZ`, `UnnormalizedProb` and the priors of fast_align over exact reals | splitting the sum at the diagonal, geometric series |
| C56 | `ComputeDLogZ`, the feature counts and the tuning loop | arithmetico-geometric series, derivative of the log of a sum; the full statement is refuted |
| C57 | the training loop of fast_align: expected counts, `TTable::Increment`, `Normalize`, likelihood | a linear functional of the counts, Jensen's inequality and Gibbs' inequality; the sum over alignments factorises |
| C58 | the last iteration, the test set and the writing of parameters | argmax of each word gives the argmax of the product; invariants of the folds |
| C59 | `ExtractAlignments`, `AddNonterminalExtremities`, `AddExtracts`, `GetGaps`, `CheckAlignedTerminals`, `CheckTightPhrases`, `GetSourceIndexes`, `ExtractPhrases`, `GeneratePhrases`, `PhraseBuilder::Extend`, on top of `FindFixPoint` (C34) | a rule is an instance (two spans and their gaps) and the extract is what is read off the words; the least-closed-span theorems of C34 give consistency, an enumeration lemma describes the choices of chunk ends |
| C60 | the same model | the base step: gaps are least closed spans, every consistent instance differs from them only by unaligned words, which the loops over the ends enumerate without repetition |
| C61 | `ExtractRules` with its nested maps, and four feature functions over exact reals | sorted-map lemmas; an invariant over the extracts processed; one batch of equal shares per source phrase and occurrence |
| C62 | `PRPair`, `PRWeightFunction`, `InsideOutsides::expect`, over exact reals | pairs form a semiring, so C13 applies; the expectation loop is the edge posteriors (C15) weighted by the values |
| C63 | `TrainingObserver` and the Gaussian prior of the batch trainer | calculus over the list of derivations; induction over the corpus |
| C64 | `CandidateSetRisk`, `CandidateSetEntropy`, `RiskObjective` | derivatives of softmax expectations and entropy, by induction over candidates |
| C65 | `TrainingInference`, `ApplyRegularizationTerms`, `ProLoss` | the two stable forms of log1p are the same function; derivative of each example's loss |
| C66 | `BackoffSampler::Sample` with both samplers | invariant over the sampled ranks; the rounding function is monotone and stays in the range |
| C67 | `CreateDataArray`, `PhraseLocation`, `FastIntersector::Intersect` | the loops over matchings find each extension once; occurrences split at the first or last chunk |
| C68 | `HieroCachingRuleFactory::GetGrammar`, the trie with suffix links, `Find` | trie invariant (null only without occurrences, links are suffixes); queue order invariant: the state for the suffix always comes earlier; weights for termination |
| C69 | `RuleFilter`, `HG::Intersect` (general case) with the inverted grammar and the parser model of C48 | pruned rules are in no matching derivation; the inverted grammar's parses (C48) are the derivations with source and target exchanged, by induction over trees |
| C70 | `FastLinearIntersect` with its map of rule objects | invariant over the edge loop for the map; pruning is C53, the relabelled forest has the same shape |
| C71 | `TaggerImpl::BuildTrellis` | invariant over the positions: the derivations of the node so far are the choices so far |
| C72 | `LexicalTransImpl::BuildTrellis`, `LexicalAlignImpl::BuildTrellis` | the same invariant; the cells are characterised by membership |
| C73 | `HypergraphSampler::sample_hypotheses`, `SelectSample` over exact rationals, random numbers as a list | intervals per in-edge, boxes along the queue; volumes telescope with the inside recursion of C13; a potential over the queue bounds the draws; the words by C14 with 0/1 weights |
| C74 | `HG::Union`, `EdgesMatch`, with the sort of C16 | invariant over the nodes and edges added (what is old, where new ones come from, nothing redundant); the sort is followed node by node; a cycle over nodes is one over hashes |
| C75 | the decoder's loop, `EnqueuePossibleContinuations`, `Coverage`, the trie of phrases (`AddPhrase`, `Extend`), with the sort of C16 | invariant over the loop (kinds of nodes, coverages seen, states queued) with a decreasing potential; soundness by induction over derivations; for sentences a level argument shows that no coverage's node is overwritten, completeness and uniqueness follow |
| C76 | `AddPassThroughTranslation`, `ClearPassThroughTranslations`, the decoder called sentence by sentence | the trie is characterised by the rules found along each word sequence; adding and clearing preserve it; induction over the sentences |
| C77 | `AliasSampler::Init`, `Draw` over exact rationals | invariant over the work lists (mass conserved, live entries sum to their number); the outcome's pairs of random numbers are boxes whose areas are summed |
| C78 | `ssk`, `nssk`, the metric `ComputeScore` over reals | the recurrences are sums over index choices by the last member; Cauchy-Schwarz from sums of squares grouped by the words chosen |
| C79 | `AERScorer::ScoreCandidate`, `AERScore`, on top of the reader of C10 | counting lemma of C11's f-measure; float arithmetic with infinity and not-a-number |
| C80 | `SplitUTF8String`, `UTF8Len`, `BuildTrellis`, `TranslateImpl`, `GetFullWordEdgeIndex` | the graph is characterised by the list of its edges (BuiltProofs.v); derivations are paths over positions, paths are splittings by induction from the right |
| C81 | `CumulativeL1OnlineOptimizer`, `OnlineOptimizer::UpdateWeights`, `ResetEpoch`, both learning rate schedules, over the reals | invariant: weight = unpenalised weight + penalty paid, and the penalty paid never exceeds the total; soft thresholding follows; the weights after a reset are refuted by computation |
| C82 | `RPropOptimizer::OptimizeImpl` over the reals | per coordinate, by induction over the evaluations; two runs with equal signs are related by a simulation |
| C83 | `all_pairs`, `partXYX`, `PROsampling` with std::sort as a relation | the loops are filters over the list of pairs; multiplicities by counting; three findings about XYX and one about PRO |
| C84 | `make_ngrams`, `make_ngram_counts`, `NgramCounts`, the Bleu, StupidBleu, FixedStupidBleu, SmoothBleu, SumBleu, ApproxBleu and LinearBleu scorers over the reals | the map of n-grams counts occurrences; invariant 0 <= clipped <= total; logarithms and exponentials by monotonicity; two findings about the linear score |
| C85 | `UpdateOracles`, `ApproxEqual`, the update and the training loop of `main` in kbest_mira.cc, over the reals, with decoder and metric left open | a step is optimal because C times the hinge at the new weights equals the step size times the slack (strong duality), with the exact three-point identity; averages by induction; three findings by computation |
| C86 | `ComputeDelta`, `SelectPair`, the optimisation loops of --optimizer 2, 3 and 5, `CuttingPlane` with --no_reweight and the fields `UpdateOracles` leaves in a hypothesis, in kbest_cut_mira.cc | the weights of multipliers minimise the Lagrangian (expansion of squares, induction on the dimension), which gives weak duality and the exact gain of a step; the clipped step is the best one; selection by a case analysis of the loop; four findings, three of them for all inputs |
| C87 | `LengthDifferenceStdDev`, `Sample` and the output loop of mr_pro_map.cc over the reals; the draws are given, partial_sort is a relation | invariant of the first loop by nested induction on gamma and the draws; the sign argument for both lines; a mean is at least the minimum, so one drawn pair is within one deviation; one finding |
| C88 | `WriteToFile`, `ReadFromFile`, `ParseSparseVector`, `Encode`, `VisitTokens` on lists of characters; printing and reading of numbers left open | round trip by induction on the list, with the state of the character loops generalised; two findings for all inputs |
| C89 | `ApproxVectorHasher`, `ApproxVectorEquals`, `Dedup`; the hash set finds an element with the same hash and may find one with another hash | invariants of the insertions; the rounding by arithmetic on 64-bit words; two findings by computation |
| C90 | `UrlEncode`, `UrlDecode`, `HexPairValue`, `Escape` on lists of characters, the sizes of the buffers | decoding after encoding by induction with the eight special characters by cases; one finding for all strings |
| C91 | `InitFromFile`, `WriteToFile` (text), `GetString`, `UpdateFromString`, `InitSparseVector`, `FD::Convert`, getline; printing and reading of numbers left open | the file is the list of its entries; what one entry does to the weight of every name, then induction; five findings |
| C92 | `ReadKBestList` with its static cache, and the two loops of mbr_kbest.cc over the reals | reading: what one file and then all files contribute, induction on the sentences; choosing: an abandoned sum is above the best so far, invariant of the outer loop; five findings |
| C93 | `CombinationMetric`, operator+= of the statistics, Encode and ScoreFromString of comb_scorer.cc; the metrics combined are left open | the evaluation is the concatenation, sums commute with it, slices are the parts; one finding |
| C94 | `State<5>`, `FireFeatures`, `LookupWords` and `FinalTraversal` of ff_ngrams.cc as functions over derivations; names and clusters of words are left open | the state stands for the words up to the first empty place; invariant of the loop over a rule (what is scored, what is left over), induction on derivations; five findings |
| C95 | the three feature functions of ff_tagger.cc over the edges of the forest of C71, with the words of factored_lexicon_helper; features are named by their text | derivations of the trellis are left-branching spines (invariant of the loop that builds it); induction on the spine; names are injective for readable tags; four findings |
| C96 | ModelSet of ffset.cc: layout of the state, the loop over the models on edges and at the goal, the erasure of ignored bytes; a feature function is any function from an edge, its parts of the tail states and the features to its part and the features | the byte state is the concatenation of blocks; induction on the list of models and on derivations |
| C97 | the feature functions of ff_basic.cc and ff_wordset.cc as functions for C96, rules as in C37 | additivity of word counts over substitution, then C96; two findings |
| C98 | DataArray (words, numbers, sentence starts), the TranslationTable constructor and look-up, the two MaxLex features; words are texts, hash maps are association lists | the array is the concatenation of blocks, word numbers are injective, counting by numbers equals counting by words; sums by splitting the count of a word over its partners |
| C99 | the three feature functions of ff_rules.cc with their caches and the frozen dictionary; features are named by their text | invariant: the cache has what would be computed; names are injective for plain symbols; three findings |

## Outcome per property

`proved`: every theorem listed holds of the model and together they give the stated claim, under the conditions in the note.  `partial`: the full statement is false of the code as modelled (a `_refuted` theorem shows it) and the listed theorems give the part that holds.

* **C01** Dictionary ids are a stable bijection over every call history — *proved*. Fewer than 2^31 words requested (ids are 32-bit ints).  Theorems: `C01_ids_stable`, `C01_ids_injective`, `C01_frozen`, `C01_max_is_word_count`, `C01_line`.
* **C02** SmallVector behaves as a sequence across the inline/heap boundary — *partial*. Proved for histories within the 16-bit size limit that do not push an element of the vector itself; those two cases are refuted (use after free of the argument, size overflow).  Theorems: `C02_refines_sequences`, `C02_no_leak`, `C02_equality`, `C02_push_own_element_refuted`, `C02_resize_beyond_16_bits_refuted`.
* **C03** Sparse vectors behave as finite maps regardless of local/hash representation — *proved*. Over an arbitrary ring; hash map at its specification with arbitrary iteration order; erase commands restricted to stored keys (see C04).  Theorems: `C03_value_is_ideal`, `C03_no_undefined_behaviour`, `C03_size_is_key_count`, `C03_dot_is_inner_product`.
* **C04** Erasing a key from a sparse vector removes that key and nothing else — *partial*. Holds for stored keys or the hash form; refuted for absent keys in the small form (two witnesses).  Theorems: `C04_erase_partial`, `C04_erase_absent_refuted`, `C04_erase_empty_refuted`.
* **C05** Sparse-vector equality agrees with equality of the denoted maps — *partial*. Holds without explicit zeros; refuted otherwise.  Theorems: `C05_equality_partial`, `C05_equality_refuted`.
* **C06** Base64 encoding round-trips every byte string — *partial*. Exact characterisation: holds for length not 2 mod 3, and for 2 mod 3 iff the last byte is a multiple of 16; refuted in general.  Theorems: `C06_encoded_length`, `C06_roundtrip_partial`, `C06_roundtrip_two_mod_three`, `C06_roundtrip_refuted`.
* **C07** Decimal printing of integers is exact — *proved*. All four widths, signed and unsigned. append_itoa is wrong for negatives (refuted separately).  Theorems: `C07_utos`, `C07_itos`, `C07_itoa_positive_sign`, `C07_text_determines_number`, `C07_left_pad`, `C07_drop_trailing_zeros`, `C07_append_itoa_unsigned`, `C07_append_itoa_refuted`.
* **C08** LogVal arithmetic is exact signed real arithmetic in the log domain — *partial*. Arithmetic, conversion, order on non-negative values and equality proved over exact reals (no rounding). Refuted: < on negatives is reversed; x-x differs from Zero(); star(0)=0 and star of negatives has the wrong sign.  Theorems: `C08_conversion`, `C08_arithmetic`, `C08_sums_and_products`, `C08_order_nonnegative`, `C08_equality_nonzero`, `C08_order_negative_refuted`, `C08_zero_equality_refuted`, `C08_star_between_0_and_1`, `C08_star_refuted`.
* **C09** Two-dimensional arrays address every cell uniquely — *partial*. Addressing, bounds, cell count and element-wise operators proved; resize to a different width moves cells (refuted) and width*height wraps at 2^32 (refuted).  Theorems: `C09_refines_grid`, `C09_columns`, `C09_resize_same_width`, `C09_resize_keeps_cells_refuted`, `C09_elementwise`, `C09_dimension_overflow_refuted`.
* **C10** Word-alignment text format round-trips — *proved*. Grids up to the int/unsigned limits; dimensions are not part of the format (the grid read is the smallest one, 1x1 if empty).  Theorems: `C10_printed_points`, `C10_printed_numbers`, `C10_roundtrip`, `C10_read_any_points`.
* **C100** Trees are read, printed and walked as written — *proved*. Without the limits of unsigned short and short (node and word numbers); two findings: unclosed brackets, uninitialised counts.  Theorems: `C100_read`, `C100_print`, `C100_walk`, `C100_unclosed_refuted`, `C100_counts_refuted`.
* **C101** Tree-to-string translation makes exactly the edges of the rules which match — *proved*. Proved for all trees and grammars: the edges of the composition are exactly those of the rules whose fragment has the walk of a part of the tree; exact matching for ranked labels; pass-through rules always give a translation. Findings (refuted): the trie does not distinguish (S (NP a) b) from (S (NP a b)); a node with an empty label has no working pass-through rule.  Theorems: `C101_edges`, `C101_ranked`, `C101_pass_through`, `C101_structure_refuted`, `C101_no_label_refuted`.
* **C102** A forest written as a grammar derives what the forest derives — *proved*. Forests whose rules exchange variables at most in pairs; refuted for cyclic reorderings of three variables (finding). The text of the rules is C37's.  Theorems: `C102_grammar`, `C102_categories`, `C102_binary`, `C102_three_refuted`.
* **C103** Rule shape features name the shape of a rule — *proved*. Rules with at most two variables per side (others stop the program, proved); with classes for both sides only if no earlier rule has the same run of classes divided elsewhere (refuted otherwise, finding). The dictionary of features takes every name.  Theorems: `C103_shapes`, `C103_feature`, `C103_same`, `C103_too_many`, `C103_source_classes`, `C103_target_classes`, `C103_both_classes`, `C103_read`, `C103_names`, `C103_order_refuted`.
* **C104** Source path, other-letter and reordering features count what they name — *proved*. Pairs only for derivations whose variables come first or stand for single words (refuted otherwise); spans up to 15 (refuted beyond); words whose first non-ASCII byte begins a character (endless loop otherwise, proved). Span size bins, a floating point logarithm, are a parameter.  Theorems: `C104_words`, `C104_pairs`, `C104_pairs_refuted`, `C104_letters`, `C104_endless_refuted`, `C104_reorder`, `C104_none`, `C104_span_refuted`.
* **C105** Context features fill their template with the words around the label — *proved*. Proved for templates whose places are recognised and which have one label macro; the features of other templates are described by three refutations. Options before the template are not modelled; places are integers without bounds.  Theorems: `C105_feature`, `C105_filled`, `C105_refused`, `C105_none`, `C105_span`, `C105_ten_refuted`, `C105_twice_refuted`, `C105_percent_refuted`.
* **C106** Parse match features measure spans against the constituents of the source tree — *proved*. Proved for trees in which the constituents of a constituent come before its words; relative scoring, single words and other trees are described by three refutations. Exponential scoring and the reading of the file are not modelled.  Theorems: `C106_labels`, `C106_length`, `C106_distance_zero`, `C106_distance`, `C106_binary`, `C106_linear`, `C106_value`, `C106_relative_refuted`, `C106_single_refuted`, `C106_mixed_refuted`.
* **C107** Parallel text is read line by line and shared out between processes without loss — *proved*. Opening of the file and the conversion of a line to words (C01) are not part of the model; the pointer to the source lines is taken to be not null, as the code uses it without a check.  Theorems: `C107_line`, `C107_line_one`, `C107_both`, `C107_one`, `C107_refused`, `C107_shares`, `C107_share`.
* **C108** Texts are divided into their words, and input lines into source and reference — *proved*. Proved for the functions named; other forms of input lines are described by refutations. VisitTokens and the counting of substrings are not part of this model.  Theorems: `C108_words`, `C108_tokens`, `C108_command`, `C108_command_none`, `C108_trim`, `C108_trim_all`, `C108_input`, `C108_input_rules`, `C108_input_only`, `C108_no_reference_refuted`, `C108_no_source_refuted`, `C108_no_blank_refuted`, `C108_zero_refuted`.
* **C109** A segment tag written with attributes is read back — *proved*. Proved for tags as the writer makes them with the letters named; refutations describe unquoted attributes and values with = or >. Assignments to the attribute map are modelled as a list in order.  Theorems: `C109_read_back`, `C109_plain`, `C109_unquoted_refuted`, `C109_value_refuted`, `C109_greater_refuted`.
* **C11** Alignment symmetrisation stays between intersection and union — *proved*. All commands, from any earlier state of the command object; also exact greedy construction order and F-measure counts.  Theorems: `C11_invert`, `C11_intersect_union`, `C11_grow_diag`, `C11_grow_diag_final`, `C11_grow_diag_final_and`, `C11_fmeasure_counts`.
* **C12** Every hypergraph built through the API is structurally consistent — *proved*. Hypergraph construction calls refine a history specification; connecting twice leaves a stale entry (refuted).  Theorems: `C12_built_as_asked`, `C12_consistent`, `C12_calls_defined`, `C12_connect_twice_refuted`.
* **C13** Inside algorithm equals the sum over all derivations — *proved*. Inside equals the sum over derivations in any semiring; counting and boolean instances.  Theorems: `C13_inside`, `C13_number_of_derivations`, `C13_derivable`, `C13_no_edges_zero`, `C13_inside_prob`.
* **C14** Viterbi returns a maximum-weight derivation — *proved*. Viterbi returns a best derivation and its bottom-up evaluation, for any monotone ordered weights and for prob_t, when every node has an incoming edge; refuted otherwise (nodes without edges count as weight one).  Theorems: `C14_viterbi`, `C14_viterbi_prob`, `C14_traversals`, `C14_node_without_edges_refuted`.
* **C15** Outside and edge posteriors — *proved*. Edge posteriors and inside*outside in any commutative semiring when no edge repeats a tail node; refuted otherwise (the code compares node indices, not positions).  Theorems: `C15_edge_posteriors`, `C15_outside`, `C15_best_path_through_edge`, `C15_duplicate_tail_refuted`, `C15_edge_posteriors_prob`.
* **C16** Topological sort preserves the derivations of the goal — *proved*. TopoSort models TopologicallySortNodesAndEdges with its colours, explicit stack and relocation tables; PruneUnreachable/PruneEdges are calls to it.  Theorems: `C16_toposort`, `C16_result_sorted`, `C16_derivations`, `C16_built_graphs`.
* **C17** Pushing weights to the goal preserves relative derivation weights and normalises — *proved*. Proved for prob_t with positive weights; PushWeightsToSource refuted.  Theorems: `C17_push_to_goal`, `C17_push_to_source_refuted`.
* **C18** Exact model intersection keeps exactly the input derivations — *proved*. Rescore models NoPruningRescorer: odometer, state-to-node map and node map; needs every tail to have an edge (C18_dead_tail_refuted shows the out-of-bounds read otherwise); feature functions depend on the input edge and antecedent states only.  Theorems: `C18_intersection`, `C18_goal_derivations`, `C18_dead_tail_refuted`.
* **C19** Cube-pruning successor generation enumerates each combination exactly once — *proved*. All three successor strategies; the heap order is arbitrary (any element may be popped), so the result holds for every scoring; each tail is assumed to have a hypothesis.  Theorems: `C19_cube_enumerates`.
* **C20** k-best extraction is sorted, duplicate-free and complete — *proved*. Both filters; heap functions and nth_element abstracted to what the C++ library promises. Also proved: the assertion fails when some tail has no derivation (C20_dead_tail_refuted), and without a filter ranks at or beyond the constructor's k may come back null (C20_beyond_k_refuted).  Theorems: `C20_kbest`, `C20_kbest_unique`, `C20_dead_tail_refuted`, `C20_beyond_k_refuted`.
* **C21** Upper-envelope computation for MERT is exact — *proved*. Envelope of any points, sum and product (operands not the constant 1), identity; doubles are rationals with infinities. Heap-level theorem: Sort on distinct pointers is the envelope and touches nothing else. Findings: the constant 1 starts at x = 0 (and leaves is_sorted uninitialised); a sum shares points with its operands, so reading the sum damages them (C21_sum_aliases_refuted).  Theorems: `C21_sort`, `C21_plus`, `C21_times`, `C21_one`, `C21_one_refuted`, `C21_heap_sort`, `C21_sum_aliases_refuted`.
* **C22** MERT over a forest finds the best derivation for every step size — *proved*. For every node: each segment reconstructs a derivation (translation and used edges), with its slope and intercept, best among all derivations on its interval; intervals cover the line. Needs topological order and edge ids equal to positions. Points are values here (see C21 for the heap level).  Theorems: `C22_inside_envelope`.
* **C23** BLEU sufficient statistics are the clipped n-gram counts — *proved*. Stateful evaluator with hidden counters: any history of evaluations, all four reference-length conventions; lengths below 2000000 for the reference length (the code's sentinel).  Theorems: `C23_stats`.
* **C24** TER edit statistics are consistent and the shift search terminates — *proved*. edit distance = Levenshtein, path counts, block moves, termination, score bound and meaning, several references; C24_long_refuted: with a reference of 1026 words a packed position decodes to a negative index  Theorems: `C24_distance`, `C24_shift`, `C24_score`, `C24_zero`, `C24_stats`, `C24_long_refuted`.
* **C25** Bit-packed fields round-trip and do not interfere — *proved*. Both byte orders, any order of writes to disjoint fields. Findings refuted separately: BitsMask::ByMax for max >= 2^63 and 25-bit accesses on big-endian machines shift out of range; zero-length 57-bit fields on big-endian likewise (excluded).  Theorems: `C25_pack_roundtrip`, `C25_write_frame`, `C25_required_bits_least`, `C25_mask_by_max`, `C25_mask_by_max_large_refuted`, `C25_big_endian_int25_refuted`.
* **C26** The probing hash table is a correct map — *proved*. Arbitrary hash function; any history of Insert (absent keys)/FindOrInsert/Find. Looking up the invalid marker is refuted separately.  Theorems: `C26_table_is_map`, `C26_find_marker_refuted`.
* **C27** Growing a probing table in place keeps every entry — *proved*. For tables whose keys were inserted at most once.  Theorems: `C27_double_in_place`.
* **C28** The automatically growing table never fills up — *partial*. Proved for histories of FindOrInsert and for few Inserts; refuted for Insert in general (not counted, so the table fills and a lookup never returns).  Theorems: `C28_auto_is_map`, `C28_auto_few_inserts`, `C28_auto_insert_refuted`.
* **C29** Interpolation/binary search on sorted keys is correct for every pivot choice — *proved*. BinaryFind, and interpolation with the integer pivot and with any pivot below the width (float rounding of Pivot64 is abstracted by its cap); degenerate equal bounds divide 0/0: refuted.  Theorems: `C29_binary_find`, `C29_sorted_uniform_find64`, `C29_sorted_uniform_find32`, `C29_bounded_find64`, `C29_bounded_find32`, `C29_bounded_degenerate_refuted`.
* **C30** The bounded producer/consumer queue is FIFO under every schedule — *proved*. Interleaving semantics at the granularity of semaphore, mutex, slot and cursor accesses; assignments may throw.  Theorems: `C30_queue_fifo`, `C30_queue_results`, `C30_queue_race_free`, `C30_queue_in_bounds`, `C30_queue_progress`.
* **C31** Suffix-array construction sorts all suffixes — *proved*. Every text without id 0, every sequence of rand() results: BuildSuffixArray succeeds (no access out of bounds, terminates) and the result is the strictly sorted permutation of all suffixes. C31_null_refuted: a text containing __NULL__ (id 0) makes the sort index out of bounds.  Theorems: `C31_sorted`, `C31_null_refuted`.
* **C32** Suffix-array lookup finds exactly the occurrences — *proved*. Lookup maps the exact range of w to the exact range of w++[word] (unknown words give an empty range); find_phrase iterates Find from the default location and yields exactly the occurrences. C32_null_refuted: Lookup of __NULL__ reports an occurrence in a text that has none.  Theorems: `C32_lookup`, `C32_phrase`, `C32_null_refuted`.
* **C33** The LCP array is the longest common prefix of neighbouring suffixes — *proved*. Kasai loop: lcp[0] = -1, lcp[r] = longest common prefix of the suffixes at ranks r-1 and r, for every text without id 0.  Theorems: `C33_lcp`.
* **C34** Rule-extraction spans are closed under the alignment — *proved*. closure, coverage and limits for every alignment and option setting; least closed pair and completeness when the minimal source gap is 1; started from target (-1,-1) as all callers do  Theorems: `C34_closed`, `C34_spans`, `C34_least`, `C34_complete`.
* **C35** Gap order is the rank of each gap — *partial*. the full rank statement is refuted for three gaps (C35_rank_refuted); proved for two gaps, range and memory safety for any number  Theorems: `C35_safe`, `C35_two`, `C35_rank_refuted`.
* **C36** Precomputed collocations are the real ones — *partial*. frequent patterns and one-gap patterns exact; two-gap patterns exact for single-word patterns, refuted in general; last run and bounds refuted  Theorems: `C36_frequent`, `C36_last_refuted`, `C36_bounds_refuted`, `C36_binary`, `C36_ternary_partial`, `C36_ternary_refuted`.
* **C37** Rule substitution and arity — *proved*. Substitution on both sides, arity and word counts, derivations (target and source sentences, predicted length), monolingual rules. Refuted: 128 variables give a negative arity; the final check misses a repeated variable.  Theorems: `C37_target`, `C37_source`, `C37_arity`, `C37_words`, `C37_arity_refuted`, `C37_derivation`, `C37_mono`, `C37_check_refuted`.
* **C38** Lattice distances are shortest path lengths — *proved*. Walks are the specification; [reachable] j gets the least number of arcs, an unreachable one that of the next reachable position. Recomputing on a used Lattice and Distance(i,i) are refuted.  Theorems: `C38_distance`, `C38_reachable`, `C38_sentence`, `C38_self_refuted`, `C38_recompute_refuted`.
* **C39** Python lattice format round-trips — *proved*. Grammar of the format is the specification; numbers are abstract (a token, its value, its truncation to a link length). Refuted: empty words, Escape before the first AsPLF, costs after a second writing, the empty lattice, lattices whose first position has no link are not recognised.  Theorems: `C39_word`, `C39_empty_word_refuted`, `C39_uninitialised_refuted`, `C39_parse`, `C39_round_trip`, `C39_cost_refuted`, `C39_empty_lattice_refuted`, `C39_recognised`, `C39_recognised_refuted`.
* **C40** Error surfaces survive serialisation and transport — *proved*. Whole-number statistics; %g printing and >> parsing modelled; three refutations outside the stated conditions.  Theorems: `C40_roundtrip`, `C40_transport`, `C40_transport_refuted`, `C40_length_refuted`, `C40_million_refuted`.
* **C41** BLEU scores lie in (0,1] — *proved*. Reals: standard library axioms of the reals. Out of bounds read in fast_score.cc shown as C41_extra_line_refuted.  Theorems: `C41_score`, `C41_extra_line_refuted`.
* **C42** Score statistics add like vectors — *proved*. Rational arithmetic for float. Equality distinguishes sizes: C42_equality_refuted.  Theorems: `C42_arith`, `C42_identity`, `C42_order`, `C42_equality`, `C42_equality_refuted`.
* **C43** Error surfaces reproduce the statistics of the best translation — *proved*. Composition of Inside over hulls (C22) and ComputeErrorSurface. C43_empty_refuted: an empty leftmost translation loses its statistics.  Theorems: `C43_surface`, `C43_empty_refuted`.
* **C44** The line search finds the best position — *proved*. Exact rational arithmetic; epsilon > 0 merging refuted twice; missing left boundary refuted.  Theorems: `C44_line`, `C44_epsilon_refuted`, `C44_epsilon_missed_refuted`, `C44_left_refuted`.
* **C45** One MERT step is globally optimal along its line — *proved*. Under the hypotheses of C43 and C44; ties are resolved by some choice of best translations.  Theorems: `C45_mert`.
* **C46** Levenshtein distance, WER and CER statistics — *proved*. distance and WER for all inputs; CER only when some reference is nearer than the hypothesis length (C46_cer), otherwise the segment counts 0 errors and 0 characters (C46_cer_lost, C46_cer_refuted)  Theorems: `C46_distance`, `C46_wer`, `C46_cer`, `C46_cer_lost`, `C46_cer_refuted`.
* **C47** A grammar rule written to a binary archive says the same when read back — *proved*. Round trip in the same and in another program; longer rules cannot be written. Refuted: the word alignment is lost; a rule without left-hand side comes back with one. The archive is the sequence of values written; boost's binary encoding of them is not modelled.  Theorems: `C47_other_program`, `C47_round_trip`, `C47_long`, `C47_alignment_refuted`, `C47_lhs_refuted`.
* **C48** Bottom-up parsing finds exactly the parses of the input — *proved*. Hypotheses are needed: refuted without them are unary rules which rewrite the goal category, span limits on lattices (not closed under prefixes), and grammar rules for [Goal]; unary rules are used at spans their grammar does not allow.  Theorems: `C48_parse`, `C48_any_grammar`, `C48_sentence_spans`, `C48_goal_unary_refuted`, `C48_span_refuted`, `C48_goal_lhs_refuted`, `C48_unary_span_refuted`.
* **C49** The language model feature of a derivation is the model's score of its sentence — *proved*. Chart scoring, all bracketings and rest costs. Floats are exact (no rounding of sums), hash collisions not modelled. Findings, refuted separately: a second <s> inside a rule is not penalised; an empty constituent before <s> costs a false penalty; with back-off weights on n-grams ending in </s> the explicit-marker score depends on the bracketing.  Theorems: `C49_score`, `C49_assert`, `C49_explicit`, `C49_explicit_any`, `C49_inner_sos_refuted`, `C49_empty_constituent_refuted`, `C49_eos_backoff_refuted`.
* **C50** Word-by-word n-gram scoring is Katz back-off and its states are minimal and canonical — *proved*. Hashed search; floats exact.  Theorems: `C50_sentence`, `C50_fragment`, `C50_no_state`, `C50_get_state`, `C50_state_unique`.
* **C51** The language model feature maps each word to the right model word — *proved*. Strings are dictionary ids here; distinct ids for <unk>, <s>, </s>.  Theorems: `C51_load`.
* **C52** Loading an ARPA language model — *proved*. The text of the file is given as its lines (tokenising and number parsing not modelled); floats are sign and magnitude with exact sums; hashes are taken to be injective. Findings: blanks with a positive Katz score change sign; acceptance depends on line order; n-grams ending in <unk> are unusable if <unk> has no line, and the last rest cost stays unset.  Theorems: `C52_defined`, `C52_accepts`, `C52_checks`, `C52_contexts`, `C52_built`, `C52_score`, `C52_sentence`, `C52_marks`, `C52_ordinary`, `C52_positive_blank_refuted`, `C52_line_order_refuted`, `C52_missing_unk_refuted`, `C52_last_rest_refuted`.
* **C53** Removing edges from a forest keeps exactly the other derivations — *proved*. Without the reachability check edges can be stranded: C53_stranded_refuted shows what the header warns about.  Theorems: `C53_prune`, `C53_stranded_refuted`.
* **C54** Beam and density pruning keep what their documentation says — *proved*. Viterbi mode, exact log-probabilities. The qualifications in the statement are necessary: C54_large_refuted (more than a million edges), C54_unordered_refuted (edge order), C54_ties_refuted and C54_zero_refuted (density).  Theorems: `C54_beam`, `C54_within`, `C54_not_worse`, `C54_connected`, `C54_density`, `C54_both`, `C54_large_refuted`, `C54_unordered_refuted`, `C54_ties_refuted`, `C54_zero_refuted`.
* **C55** The aligner's position prior is a probability distribution — *proved*. Finding: with --no_null_word the diagonal prior sums to 1-p0 (C55_no_null_refuted).  Theorems: `C55_normaliser`, `C55_diagonal`, `C55_uniform`, `C55_value`, `C55_closer`, `C55_no_null_refuted`.
* **C56** Tuning the diagonal tension — *partial*. The gradient is right only for equal lengths (C56_gradient_partial gives the factor by which it is off otherwise); refuted in general, and so is the use of the same feature on both sides.  Theorems: `C56_gradient_partial`, `C56_square_partial`, `C56_gradient_refuted`, `C56_feature_refuted`, `C56_range`.
* **C57** EM training of the aligner — *proved*. Exact reals in place of doubles; sentence pairs are lists of word ids.  Theorems: `C57_fails`, `C57_likelihood`, `C57_rises`, `C57_table`.
* **C58** Alignments printed by the aligner are most probable ones — *proved*. Finding: writing the parameters can read s2t_viterbi behind its end (C58_overrun_refuted).  Theorems: `C58_best`, `C58_test`, `C58_written`, `C58_overrun_refuted`.
* **C59** Extracted translation rules are consistent with the word alignment — *proved*. Out-of-bounds reads at sentence boundaries yield an arbitrary value in the theorem and are shown by C59_stray_refuted.  Theorems: `C59_sound`, `C59_links`, `C59_stray_refuted`.
* **C60** Rule extraction is complete for the phrase itself — *proved*. Phrases with at most two gaps, the limit of the default options; with three gaps the claim is false (C60_three_refuted).  Theorems: `C60_exact`, `C60_three_refuted`.
* **C61** Rule counts and scores agree with the occurrences — *proved*. Without tight phrases the bound by the number of samples is false (C61_loose_refuted).  Theorems: `C61_counts`, `C61_source`, `C61_shared`, `C61_scores`, `C61_singleton`, `C61_loose_refuted`.
* **C62** Expectations over forests — *proved*. Over exact reals; the inside-outside shortcut needs distinct tails (refuted otherwise: it then disagrees with the semiring).  Theorems: `C62_expectation_semiring`, `C62_inside_outside`, `C62_partition_gradient`, `C62_duplicate_tail_refuted`.
* **C63** Conditional likelihood training: objective and gradient — *partial*. Likelihood and gradient proved; the prior is right unless a weight is exactly zero while its mean is not (refuted: the term is skipped).  Theorems: `C63_likelihood`, `C63_prior_partial`, `C63_prior_at_zero_refuted`.
* **C64** Minimum risk training: objective and gradient — *proved*. Over exact reals. The entropy's own vector has the opposite sign of its documentation (refuted), which the minimum risk objective compensates.  Theorems: `C64_risk`, `C64_entropy`, `C64_entropy_gradient_refuted`, `C64_minrisk`.
* **C65** Pairwise ranking optimisation: objective and gradient — *partial*. Proved without held-out examples; with them the gradient of the held-out loss is added by mistake (C65_heldout gives exactly what is computed; refuted as a gradient of the value).  Theorems: `C65_pro_partial`, `C65_heldout`, `C65_heldout_refuted`.
* **C66** Sampling occurrences of a phrase — *proved*. For any value read past the end of the sentence id array; that such a read happens is C66_stray_refuted. Doubles are exact rationals.  Theorems: `C66_sample`, `C66_free`, `C66_inside`, `C66_stray_refuted`.
* **C67** Occurrences of phrases with gaps — *proved*. PhraseBuilder and the arity/chunk accessors as in C59; precomputed index taken as a correct partial map.  Theorems: `C67_intersect`.
* **C68** Phrases looked up for an input sentence — *proved*. Locations as passed to the sampler; sampling, extraction and scoring of the rules are C66, C59-C61.  Theorems: `C68_grammar`.
* **C69** Restricting a translation forest to a reference keeps exactly the derivations that produce it — *proved*. General case; refuted outside the hypotheses: rules with an empty target side, lattices of single arcs that skip positions; the option that removes annotations breaks reordering rules.  Theorems: `C69_reference`, `C69_deletion_refuted`, `C69_lattice_refuted`, `C69_annotations_refuted`.
* **C70** The fast restriction of linear-chain forests keeps exactly the matching derivations — *proved*. The exact behaviour for shared rule objects is part of the theorem; the expected exchange is refuted for them.  Theorems: `C70_linear`, `C70_shared_refuted`.
* **C71** The tagger's forest contains every tag sequence once — *proved*. Refuted: empty input lines, references shorter than the input.  Theorems: `C71_tagger`, `C71_reference`, `C71_short_refuted`, `C71_empty_refuted`.
* **C72** Lexical translation and alignment forests contain every choice of words once — *proved*. Dynasearch and all_sources_to_all_targets are not modelled.  Theorems: `C72_lextrans`, `C72_reference`, `C72_lexalign`.
* **C73** Derivations are sampled with the probability the forest gives them — *proved*. Weights are exact rationals, not floating-point log values; the random numbers are any list in [0,1]. The words are proved for derivations that expand each node in one way; for the others C73_words_refuted shows they are wrong.  Theorems: `C73_sample`, `C73_words_refuted`.
* **C74** The union of two forests has the derivations of both and nothing else — *proved*. The comparison of features (no difference above 1e-6) is a parameter. Edges added lose their probability (the caller has to reweight), which the statement shows. C74_cycle_refuted: two acyclic forests can make the program abort.  Theorems: `C74_union`, `C74_same`, `C74_refused`, `C74_cycle_refuted`.
* **C75** The phrase-based decoder builds exactly the ways to cover the sentence — *proved*. Derivations are exactly the coverings for sentences; sound and successful exactly when possible for lattices. Finding: on lattices the node of a coverage reached from the left edge is overwritten, derivations are lost (C75_lattice_refuted).  Theorems: `C75_sentence`, `C75_lattice`, `C75_lattice_refuted`.
* **C76** Pass-through translations do not outlive their sentence — *proved*. Finding: without the proviso on the table, clearing deletes longer phrases (C76_lines_refuted).  Theorems: `C76_lines`, `C76_lines_refuted`.
* **C77** The alias sampler draws each outcome with exactly its probability — *proved*. Random numbers are exact rationals. Findings: an outcome of probability zero is returned if the second random number is exactly 0; weights summing to less than 1 can give UINT_MAX.  Theorems: `C77_alias`, `C77_zero_refuted`, `C77_normalised_refuted`.
* **C78** The subsequence-kernel metric measures the weighted common subsequences — *proved*. Over the reals (classical axioms of the standard library's reals listed).  Theorems: `C78_kernel`, `C78_similarity`, `C78_metric`.
* **C79** The alignment error rate is computed from the links of both alignments — *proved*. Exact arithmetic instead of float; counts do not overflow.  Theorems: `C79_sentence`, `C79_corpus`.
* **C80** The compound splitter's forest contains exactly the splittings of the word, each once — *proved*. TD::Convert is any injective numbering. Finding: stems are measured in bytes, pieces in characters.  Theorems: `C80_characters`, `C80_splittings`, `C80_stem_refuted`.
* **C81** Online training with cumulative L1 penalty shrinks each weight by exactly the penalty of the epoch — *proved*. Over the reals; within an epoch. The start of a further epoch is refuted (finding).  Theorems: `C81_shrunk`, `C81_frozen`, `C81_unpenalised`, `C81_standard_rate`, `C81_exponential_rate`, `C81_standard_passes`, `C81_exponential_passes`, `C81_new_epoch_refuted`.
* **C82** RProp moves each variable downhill by steps which depend on the signs only and stay within bounds — *proved*. Over the reals; the convergence test and serialisation are not modelled. Zero derivatives: finding.  Theorems: `C82_steps`, `C82_signs`, `C82_independent`, `C82_straight`, `C82_turn`, `C82_zero_derivative_refuted`.
* **C83** The pairs dtrain learns from are exactly the wanted ones, the better hypothesis first — *proved*. std::sort is any permutation in falling order. Findings: XYX reads past short lists, never compares middle with low, exceeds the limit; PRO with threshold 0 gives ties.  Theorems: `C83_all`, `C83_all_limit`, `C83_pro`, `C83_pro_sound`, `C83_xyx_sound`, `C83_xyx_top`, `C83_xyx_short_refuted`, `C83_xyx_middle_refuted`, `C83_xyx_limit_refuted`, `C83_pro_equal_refuted`.
* **C84** The sentence scores dtrain learns from are the documented BLEU variants, within their ranges, and best for the reference — *proved*. The counts are exact for all sentences; ranges, normalisation and the geometric mean are proved over the reals. Two findings: the linear corpus score does not look at the words of the reference, and reads missing counts for references shorter than N.  Theorems: `C84_counts`, `C84_bleu`, `C84_bleu_range`, `C84_stupid`, `C84_smooth`, `C84_sum`, `C84_approx`, `C84_linear_reference_refuted`, `C84_linear_short_refuted`.
* **C85** A k-best MIRA step is the smallest change of the weights which keeps the margin, limited by C, and the averaged weights are the average — *proved*. Proved for all iterations but the first of each later pass, where it is refuted (the averaged weights are used); two more findings: the file of final weights holds an average, and sampling with an error metric compares scores of opposite sign.  Theorems: `C85_step`, `C85_margin`, `C85_average`, `C85_final_refuted`, `C85_pass_start_refuted`, `C85_samples_refuted`.
* **C86** Cutting-plane MIRA optimises the dual of its objective step by step, and stops only at nearly optimal weights — *proved*. Over the reals, for one oracle and one round; findings: the multipliers are set back in every cutting-plane round while the weights are kept, --fear other than 1 and --no_reweight with the default list size learn nothing, --optimizer 5 reads a null pointer.  Theorems: `C86_step`, `C86_round`, `C86_bound`, `C86_stop`, `C86_passive_aggressive`, `C86_rounds_refuted`, `C86_fear_refuted`, `C86_no_reweight_refuted`, `C86_nbest_refuted`.
* **C87** Every training line sampled for PRO states a true preference — *proved*. Over the reals, for all draws, with what is kept of the pairs drawn; finding: a sentence with one candidate makes the mapper loop for ever.  Theorems: `C87_lines`, `C87_pairs`, `C87_kept`, `C87_progress`, `C87_single_refuted`.
* **C88** The repository of k-best candidates is read back as it was written — *proved*. Numbers up to what printing loses; findings: a candidate without features makes the file unreadable, statistics without a metric come back as those of NULL.  Theorems: `C88_file`, `C88_empty_refuted`, `C88_null_refuted`.
* **C89** Removing duplicate candidates loses no candidate — *proved*. For any hash; findings: the hash is not consistent with the comparison, the mask of the rounding lets one bit through.  Theorems: `C89_kept`, `C89_identical`, `C89_near`, `C89_hash_refuted`, `C89_round_refuted`.
* **C90** Escaped feature names are unambiguous and contain no special characters — *proved*. Characters are numbers, strings hold no NUL; finding: '+' is not escaped though it stands for a space.  Theorems: `C90_decode`, `C90_same`, `C90_pairs`, `C90_safe`, `C90_unchanged`, `C90_room`, `C90_plus_refuted`.
* **C91** Weights survive being written to a file or a string and read again — *proved*. Text format; printing of numbers left open (reading back what was printed with 17 digits gives the number). Findings: names with '=' and names beginning with '#' are misread, files shorter than five characters stop the program, a new feature in UpdateFromString is written outside of the vector.  Theorems: `C91_read`, `C91_over`, `C91_string`, `C91_sparse`, `C91_equals_refuted`, `C91_hash_refuted`, `C91_zero_refuted`, `C91_short_refuted`, `C91_unknown_refuted`, `C91_escaped`.
* **C92** Minimum Bayes risk reranking chooses the candidate of least expected loss — *proved*. Log probabilities are reals; findings: the sentence id is that of the sentence before for a sentence with one candidate, an empty translation in the cache is lost, a file which ends early gives an empty candidate, the roles of reference and hypothesis are exchanged, WER and CER are not taken for errors.  Theorems: `C92_read`, `C92_id_refuted`, `C92_empty_refuted`, `C92_ended_refuted`, `C92_best`, `C92_roles_refuted`, `C92_wer_refuted`.
* **C93** The corpus score of a combined metric is the weighted sum of the corpus scores — *proved*. Over the reals; for metrics whose statistics have the size they announce (not the external METEOR). Finding: the length of the first part of an encoded score is one signed char.  Theorems: `C93_score`, `C93_plus`, `C93_codec`, `C93_codec_refuted`.
* **C94** N-gram indicator features count the n-grams of the sentence — *proved*. For well-marked sentences. <s> takes part with order 2 only (C94_sos_refuted); what happens to badly marked sentences is covered by findings. Whether unused bytes of the state are initialised is not modelled.  Theorems: `C94_features`, `C94_counts`, `C94_explicit`, `C94_sos_refuted`, `C94_no_marker_refuted`, `C94_second_sos_refuted`, `C94_empty_refuted`, `C94_order_refuted`.
* **C95** Tagger features count tags, neighbouring tags and word-tag pairs — *proved*. for inputs of two or more words and readable tags; one-word inputs, tags called BOS and separators within tags are refuted separately  Theorems: `C95_bigrams`, `C95_pairs`, `C95_outputs`, `C95_names`, `C95_one_word_refuted`, `C95_bos_refuted`, `C95_names_refuted`, `C95_twice_refuted`.
* **C96** Feature functions used together do not disturb each other — *proved*. Feature functions which write outside their part of the state are not covered (ff.h warns of them); estimates of the cost are left out.  Theorems: `C96_alone`, `C96_rules`, `C96_order`, `C96_merge`.
* **C97** Word and rule counting features — *proved*. WordSet with --oov counts variables as unknown words (C97_oov_refuted, exact count in C97_oov); two functions with one feature name replace each other (C97_shared_refuted).  Theorems: `C97_words`, `C97_source`, `C97_arity`, `C97_wordset`, `C97_oov`, `C97_oov_refuted`, `C97_shared_refuted`.
* **C98** The extractor's lexical probabilities are relative frequencies of the word links — *proved*. Exact for all corpora with links in range; probabilities are rationals, the code has floats; log10 is the real function.  Theorems: `C98_table`, `C98_sums`, `C98_source_given_target`, `C98_target_given_source`.
* **C99** Rule bigram and identity features do not depend on the cache — *proved*. For dictionaries which are not frozen and rules with plain symbols; the cases outside are refuted with witnesses.  Theorems: `C99_source`, `C99_target`, `C99_identity`, `C99_frozen_refuted`, `C99_identity_refuted`, `C99_mark_refuted`.

## Findings: statements refuted of the code as modelled

* `C02_push_own_element_refuted` — push_back(v[i]) of an own element: right when no reallocation is needed, undefined when the inline buffer is full (std::vector allows it).
* `C02_resize_beyond_16_bits_refuted` — resize(n) with n beyond 16 bits truncates the requested capacity and then writes outside the block.
* `C04_erase_absent_refuted` — Erasing an absent key from a small vector loses another feature.
* `C04_erase_empty_refuted` — Erasing from an empty small vector makes the next read undefined.
* `C05_equality_refuted` — With explicit zeros operator== can be true for different maps, and is not symmetric.
* `C06_roundtrip_refuted` — The full claim is false of the code.
* `C07_append_itoa_refuted` — ... so it is wrong for negative numbers.
* `C08_order_negative_refuted` — Finding: on two negative numbers [<] is exactly reversed.
* `C08_star_refuted` — Finding: [star] of zero is zero (should be 1), and of a number between -1 and 0 it has the wrong sign.
* `C08_zero_equality_refuted` — Finding: for every positive number, [x - x] denotes zero but compares different from - and smaller than - [Zero()].
* `C09_dimension_overflow_refuted` — When width*height is exactly 2^32 the buffer is empty.
* `C09_resize_keeps_cells_refuted` — ... but with a different width it moves values to other cells.
* `C100_counts_refuted` — Finding: the constructor which reads a text does not set the numbers of terminals and of frontier sites to 0 before counting: they are off by what was in memory.
* `C100_unclosed_refuted` — Finding: the check of the brackets finds a bracket closed too early, but not one which is never closed: for such a text the parser reads behind its end.
* `C101_no_label_refuted` — Finding: a node without label, like the root of a tree in the style of the Penn treebank, gets a pass-through rule which does not match it: the text "( [S])" made for it is read as a node with the label [S]. There is no translation.
* `C101_structure_refuted` — Finding: the walk which indexes the rules does not say where the children of a node end. The rule for (S (NP a) b) is used for the input (S (NP a b)), which has no such part.
* `C102_three_refuted` — Finding: the numbers of the variables are copied from the target side where they should be inverted. For a rule which moves three variables around in a circle the grammar derives a pair of texts which the forest does not.
* `C103_order_refuted` — Finding: with classes for both sides the tree in which names are looked up does not keep the sides apart: the feature of a rule is the one of another rule if that was seen before, so that the features of a translation depend on the order of the rules.
* `C104_endless_refuted` — Finding: a word in which a byte from 128 to 191 follows ASCII letters or begins the word never ends the loop.
* `C104_pairs_refuted` — Finding: what a variable stands for is remembered by its last word only: with longer texts after another symbol the pairs are not those of neighbours. Two derivations of the same source text get different features.
* `C104_span_refuted` — Finding: for longer spans the table is read beyond its end.
* `C105_percent_refuted` — Finding: a word of the input which is written like a macro is taken for one: the label goes to the place of the word (ff_context.cc 206-221).
* `C105_ten_refuted` — Finding: the macro of a place which is positive and has a digit 0 is not recognised: the 0 is missing in the expression of RuleContextFeatures (ff_context.cc 21), and %x[10] is in the name of the feature for every word there, while %x[-10] is replaced.
* `C105_twice_refuted` — Finding: of two labels in a template, which is accepted, only the first is replaced (ff_context.cc 221).
* `C106_mixed_refuted` — Finding: a constituent after a word in the same constituent is read as words (ff_parse_match.cc 87-96): a tree of the right length stops the program.
* `C106_relative_refuted` — Finding: relative scoring divides integers (ff_parse_match.cc 175): the feature, which should be the length of the span over its length and distance together, is 0 whenever the distance is not 0.
* `C106_single_refuted` — Finding: the distance of a single word which is not a constituent is never set, and is used (ff_parse_match.cc 111-150).
* `C108_no_blank_refuted` — Finding: the letters on both sides of the divider are taken to be blanks and are lost if they are not (stringlib.cc 25-26).
* `C108_no_reference_refuted` — Finding: a line which ends with the divider stops the program (stringlib.cc 26, substr beyond the end of the line).
* `C108_no_source_refuted` — Finding: with nothing before the divider the source is the whole line, divider and reference too (stringlib.cc 25, pos - 1 is the largest number).
* `C108_zero_refuted` — Finding: tokens are cut off at a letter 0 (stringlib.h 108, 113).
* `C109_greater_refuted` — Finding: a value with a greater sign, which the writer does not escape, ends the tag.
* `C109_unquoted_refuted` — Finding: of attributes without quotation marks the second can be lost: the search goes on behind the place of the first = in the attributes left (stringlib.cc 61-87).
* `C109_value_refuted` — Finding: blanks around a = inside of a quoted value are lost as well (stringlib.cc 48-58).
* `C12_connect_twice_refuted` — Connecting an edge a second time leaves it listed by its former head.
* `C14_node_without_edges_refuted` — A node without incoming edges gets weight one although it has no derivation, so its derivation-less ancestors can win: here the goal has a derivation of weight 5, and Viterbi returns 7, from an edge whose tail has no derivation.
* `C15_duplicate_tail_refuted` — An edge with a node twice among its tails: both positions are skipped, so the outside score misses a factor. Node 1 has one edge, from (0, 0); node 0 has edges of weight 2 and 3. Of the four derivations (4 + 6 + 6 + 9 = 25) those using edge 0 have weights 4 (used twice), 6 and 6: 20, but the computed posterior is 4.
* `C17_push_to_source_refuted` — PushWeightsToSource, on the other hand, rewrites an edge once per tail. Here edge 2, from nodes 0 and 1, and edge 3, from node 0, lead to the goal with weights 1 and 2; afterwards the derivation through edge 2 is better.
* `C18_dead_tail_refuted` — A tail without incoming edges makes the program read outside of an array: "every node which is a tail has an edge" is needed.
* `C20_beyond_k_refuted` — Asking without a filter for a rank not below the k given to the constructor: null, though there is such a derivation.
* `C20_dead_tail_refuted` — A tail without a derivation: the assertion of line 194 fails though the node has a derivation.
* `C21_one_refuted` — The constant 1 itself is not an envelope: its only segment starts at 0.
* `C21_sum_aliases_refuted` — But a sum shares its operands' points: reading the sum damages an operand. [a] and [b] are envelopes; after c = a; c += b; c.GetSortedSegs(), [b], which was only ever passed as const, is not the envelope of its line.
* `C24_long_refuted` — The bound on the reference is exact: a reference position above 1024 comes out of its 11 bits as a negative number, and is then used as an index.
* `C25_big_endian_int25_refuted` — Findings: masks for 64-bit maxima, and 25-bit accesses on big-endian machines, are undefined shifts.
* `C25_mask_by_max_large_refuted` — Findings: masks for 64-bit maxima, and 25-bit accesses on big-endian machines, are undefined shifts.
* `C26_find_marker_refuted` — Finding: looking up the key that marks empty buckets reports an entry.
* `C28_auto_insert_refuted` — Finding: Insert is not counted, so the table never grows, and the call after the one that fills the last bucket does not return.
* `C29_bounded_degenerate_refuted` — Finding: the documented precondition before_v <= key <= after_v admits before_v = after_v, where the estimate of Pivot64 is 0/0.
* `C31_null_refuted` — C31, refuted in full: a text with the token __NULL__ (id 0) makes the sort read beyond its arrays.
* `C32_null_refuted` — C32, refuted in full: looking up the token __NULL__ reports one occurrence, in any text, though it does not occur there.
* `C35_rank_refuted` — With three it need not be: the three gaps below all get number 1.
* `C36_bounds_refuted` — With a minimal frequency of one a pattern that starts at the end of the data is read.
* `C36_last_refuted` — The patterns of the last run are never found: the word 4 above occurs three times, as often as any other, all places are not taken, and it is not listed.
* `C36_ternary_refuted` — The index has an entry for 2 _ 3 _ 3 3 though 3 3 does not occur in the text.
* `C37_arity_refuted` — One variable more and it is negative.
* `C37_check_refuted` — The check at the end of the substitution counts: it does not notice that one yield is used twice and another not at all.
* `C38_recompute_refuted` — Computing the distances again after a change keeps old ones: the table is resized, not cleared. The second lattice is the sentence "a b"; its length is given as 1.
* `C38_self_refuted` — The distance of a position to itself is not 0 (it is, without the table).
* `C39_cost_refuted` — So a second writing loses them.
* `C39_empty_lattice_refuted` — The empty lattice is written but cannot be read.
* `C39_empty_word_refuted` — Except for the empty word,
* `C39_recognised_refuted` — A written lattice is recognised as one when its first position has a link, otherwise it is taken for a sentence.
* `C39_uninitialised_refuted` — and except when Escape is called before any lattice was written (its table is set up by AsPLF only).
* `C40_length_refuted` — The length is kept in one byte, the assertion allows 1023.
* `C40_million_refuted` — Six significant digits.
* `C40_transport_refuted` — When the length is 2 modulo 3 the last digit arrives as 0: the reducer gets 10 for 17.
* `C41_extra_line_refuted` — An output file with more lines than there are references reads past the evaluators before the number of lines is checked.
* `C42_equality_refuted` — So == tells apart two statistics which agree at every index.
* `C43_empty_refuted` — An empty translation at the left end is skipped instead of scored: below 0 the surface lacks the reference length.
* `C44_epsilon_missed_refuted` — ... and a position with a better score may be missed.
* `C44_epsilon_refuted` — With the default epsilon, boundaries closer than it are merged: the position returned may not have the score returned ...
* `C44_left_refuted` — Without a boundary at -infinity (which ComputeErrorSurface leaves out when the leftmost translations are empty) the position returned may lie to the left of everything scored, where the score, a ratio, is 0/0.
* `C46_cer_refuted` — So the statement for all inputs is false: an empty hypothesis for a reference of three characters, or "ab" against "xyz", counts as having no error.
* `C47_alignment_refuted` — The word alignment is lost.
* `C47_lhs_refuted` — A rule without a left-hand side (0) comes back with one.
* `C48_goal_lhs_refuted` — A rule of the grammar for [Goal] makes parsing succeed from any span (243-247): no category has a parse over the whole input.
* `C48_goal_unary_refuted` — A unary rule which rewrites the goal category is never used (bottom_up_parser.cc 210): S -> a, X -> S, S -> X b parses a b, but no parse is found.
* `C48_span_refuted` — On a lattice, a rule may be used over a span within the limit and still be lost, since a prefix of it is over the limit (303): the distance from 0 to 4 is 1, but from 0 to 3 it is 3.
* `C48_unary_span_refuted` — Unary rules are used at spans where their grammar is not to be used: the glue rule S -> X, allowed at position 0 only, is part of the result at position 1 (277-286).
* `C49_empty_constituent_refuted` — Finding: an empty constituent in front of a well-marked sentence costs a penalty.
* `C49_eos_backoff_refuted` — Finding: with back-off weights on n-grams that end in </s> the score depends on the derivation.
* `C49_inner_sos_refuted` — Finding: a second <s> inside a rule is not penalised.
* `C52_last_rest_refuted` — Finding: in that case the rest cost of the last unigram is never set.
* `C52_line_order_refuted` — Finding: whether a file loads depends on the order of the lines in a section.
* `C52_missing_unk_refuted` — Finding: if unknown words have no line of their own, n-grams that end in one are never used, since writing the substitute probability clears the mark that they exist.
* `C52_positive_blank_refuted` — Finding: a blank n-gram with a positive Katz score is read back with the opposite sign. Here "a c" is only listed inside "b a c" and its score is -1 + 3.
* `C53_stranded_refuted` — Finding: without the reachability check edges can be left which no derivation uses, because what they build on was removed.
* `C54_large_refuted` — Finding: the beam narrows by a millionth of its width per edge, so in a forest with more than a million edges it ends up above the best score and the best derivation is removed.
* `C54_ties_refuted` — Finding: density pruning keeps all edges which tie for the best score, so more than density times the edges of the best derivation can be left.
* `C54_unordered_refuted` — Finding: if an edge comes before one it builds on, the narrowing beam can remove the latter and leave the former stranded.
* `C54_zero_refuted` — Finding: if no more edges than wanted have positive probability, density pruning computes with minus infinity, gets not-a-number for the cutoff and removes nothing, not even the edges of probability zero, though it says that density pruning was done.
* `C55_no_null_refuted` — Finding: with --favor_diagonal and --no_null_word the probability kept for the null word is lost: the choices sum up to 0.92 by default (fast_align.cc 160), so the likelihoods reported are too low.
* `C56_feature_refuted` — Finding: the feature of the alignments counted uses target positions from 0, the model positions from 1 (fast_align.cc 205, 163). In a corpus with one word on each side and no null word the only alignment is on the diagonal, but counts as one off it.
* `C56_gradient_refuted` — Finding: line 44 of da.h calls ComputeZ with source and target length swapped, so the gradient that --optimize_tension follows is wrong unless the lengths are equal.
* `C58_overrun_refuted` — Finding: the pairs of the best alignments are kept in a vector that is as long as the last source word aligned to needs, but it is read for every source word when the parameters are written (fast_align.cc 193-194, 314). If the last words of the vocabulary are never aligned to, as in the corpus "a ||| x" with default options, it is read behind its end.
* `C59_stray_refuted` — Finding: when phrases must be tight and the phrase stands at the start or the end of its sentence, AddNonterminalExtremities (rule_extractor.cc 242, 243) reads source_low[-1] or source_low[length] before it checks that there is room for another nonterminal. (The value read does not matter: C59_sound.)
* `C60_three_refuted` — Finding: with three gaps a rule can be lost. GetGapOrder (rule_extractor_helper.cc 332-345) gives a gap its rank, ExtractPhrases (target_phrase_extractor.cc 60-87) uses it as the gap with that rank; for a cyclic order of three gaps the chunks then cannot be laid out and nothing is extracted, although the phrase pair is consistent.
* `C61_loose_refuted` — Finding: without tight phrases one occurrence can yield the same pair of phrases more than once (equal unaligned words between two gaps, target_phrase_extractor.cc 141-155), the pair count then exceeds the number of samples and TargetGivenSourceCoherent is negative, the logarithm of a probability above one.
* `C62_duplicate_tail_refuted` — Finding: when an edge has a node twice among its tails, InsideOutside and the expectation semiring disagree: Outside (inside_outside.h 84-88) skips both positions. Expected number of edges: 35/25 instead of 75/25.
* `C63_prior_at_zero_refuted` — Finding: a weight which is zero is skipped (mpi_batch_optimize.cc 325) even if the prior's mean is not zero: the penalty 1/2 and the derivative -1 are both missing, so training which starts at zero is not pulled towards the means.
* `C64_entropy_gradient_refuted` — Finding: the vector computed with the entropy is documented as its gradient (training/utils/entropy.h) but is the gradient of minus the entropy.
* `C65_heldout_refuted` — Finding: evaluating the held-out set passes the gradient accumulator (mr_pro_reduce.cc 165), so with a held-out set the optimiser is given a vector which is not the gradient of the value it is given.
* `C66_stray_refuted` — Finding: backing off to the left does not stop at the start of the range (backoff_sampler.cc 33-40): with the sentence of all occurrences blacklisted it goes on to rank 0 of the suffix array, the empty suffix, and reads the sentence number one past the end of the array.
* `C69_annotations_refuted` — Finding: remove_intersected_rule_annotations (decoder.cc 1026-1031) puts the old rules back over tails which are in the order of the target: where a rule reorders, the forest then has derivations with another translation than the reference.
* `C69_deletion_refuted` — Finding: with a rule whose target side is empty the reference is not found, although a derivation has it as its translation: the inverted rule covers nothing, and the parser has no items over empty spans (hg_intersect.cc 133-157).
* `C69_lattice_refuted` — Finding: a lattice with one arc at each position is filtered as if it were the sentence of those words, although an arc may skip positions (hg_intersect.cc 28-36): rules with the words of a path are removed, and the reference is not found.
* `C70_shared_refuted` — Finding: the rule put into the map for a matching edge is the old one (hg_intersect.cc 70-76: the swap exchanges the two pointers), so the next matching edge with the same rule object keeps its rule as it is: with a word twice in the reference, source and target are mixed.
* `C71_empty_refuted` — Finding: for an empty line the tagger takes the last of no nodes (tagger.cc 78-80).
* `C71_short_refuted` — Finding: with a reference shorter than the input, restricting the forest reads past the end of the reference (hg_intersect.cc 66-67).
* `C73_words_refuted` — Finding: HypergraphSampler::sample_hypotheses marks the edges it has sampled and takes the words of a best derivation made of marked edges. When a node occurs twice in a derivation and has been expanded in two different ways, the words reported are not those of the derivation sampled: no derivation has both the features and the words of the sample.
* `C74_cycle_refuted` — Finding: HG::Union aborts the process on two well-formed acyclic forests with the same goal when their nodes are derived from one another in opposite orders: the union has a cycle, which TopologicallySortNodesAndEdges takes for an error. With --forest_output, decoding again what was decoded before can so end the program.
* `C75_lattice_refuted` — Finding: on a lattice the decoder loses translations. A phrase applied to the empty coverage makes its own node the node of the new coverage (phrasebased_translator.cc 160-162) whether or not that coverage has one already, so of two words on parallel arcs from the first position - each of them translated by the table - only the one applied last is in the forest.
* `C76_lines_refuted` — Finding: with pass-through rules a sentence changes how later ones are translated. ClearPassThroughTranslations (phrasetable_fst.cc 97-101) erases the whole branch of a word passed through, and with it every longer phrase of the table that starts with this word: translating the same sentence again, the phrase is gone.
* `C77_normalised_refuted` — Finding: Init does not normalise. For weights which sum to less than 1, if only by rounding, a draw can return numeric_limits<unsigned>::max() (alias_sampler.h:24-26, 46).
* `C77_zero_refuted` — Finding: an outcome of probability zero is returned when the second random number is exactly 0 (u01() > cutoffs_[n] should be >=; alias_sampler.h:46).
* `C80_stem_refuted` — Finding: the minimal size of a piece is in characters, that of a stem in bytes: the linking element is taken off though less than three characters remain (csplit.cc:80-94).
* `C81_new_epoch_refuted` — Finding: starting a new epoch forgets the total penalty but not what each weight has paid (online_optimizer.h:92 resets u_ and leaves q_), so in the next epoch weights first get their penalty back: without any gradient a positive weight grows.
* `C82_zero_derivative_refuted` — Finding: a derivative which is exactly 0 counts as positive (optimize.cc:47 takes the sign bit), so a variable which is at its optimum, or does not occur in the objective at all, is moved by the initial step at every evaluation.
* `C83_pro_equal_refuted` — Finding: "PRO" with the default threshold of 0 also gives pairs of hypotheses of equal score, in the order the sort happens to give them (pairsampling.h:8-12, 120).
* `C83_xyx_limit_refuted` — Finding: the limit on pairs ends only the first part of "XYX"; once it is reached there the second part goes on without any limit (pairsampling.h:76-95).
* `C83_xyx_middle_refuted` — Finding: "XYX" promises to compare the middle hypotheses with the lowest, but the boundary computed as a position is used as a number of hypotheses (pairsampling.h:83-86): without ties no such pair is ever given; the better hypothesis of a pair is always one of the top ones.
* `C83_xyx_short_refuted` — Finding: with the default share of 0.1 a list of two to four hypotheses has round(0.1 * size) = 0 hypotheses at either end, and "XYX", the default method, reads the hypothesis after the last (pairsampling.h:83-84).
* `C84_linear_reference_refuted` — Finding: the linear corpus score compares the numbers of all n-grams of the hypothesis (score.cc:270 reads sum_, not clipped_), so that it does not look at the words of the reference: every reference of the same length gives the same score.
* `C84_linear_short_refuted` — Finding: the first call of the linear score with a reference shorter than N reads counts which do not exist (score.h:23-24 dereferences the end of a map), if the hypothesis is the first of its list.
* `C85_final_refuted` — Finding: the file of the final weights does not hold them. The loop runs one iteration more than asked for (lcount <= max_iteration), which begins another pass, and the average written to dense_weights at that moment (kbest_mira.cc:267) is what line 314 writes as weights.mira-final.gz.
* `C85_pass_start_refuted` — Finding: for the same reason the first sentence of every pass but the first is decoded with the averaged weights, and its loss computed with them, while the step changes the current ones. Here the weights already keep the margin and are changed.
* `C85_samples_refuted` — Finding: with samples instead of a k-best list and an error metric the score of the decoder's choice keeps its sign (kbest_mira.cc:130) and is compared with a score of the other sign: it is never as good as the best, even if it is the best itself.
* `C86_fear_refuted` — Finding: the violations are computed for --fear 1 only (kbest_cut_mira.cc:523-540), for the other choices the passive-aggressive update compares 0 with 0 and never changes the weights.
* `C86_nbest_refuted` — Finding: --optimizer 5 puts the hypotheses of the decoder in the constraint set, which have no oracle (kbest_cut_mira.cc:470): ComputeDelta reads a null pointer whenever there are good and best hypotheses.
* `C86_no_reweight_refuted` — Finding: with --no_reweight the hope hypothesis is looked for in the list of the bad ones (kbest_cut_mira.cc:188-208). With the default list size of 1 it is the bad hypothesis itself, its violation becomes 0, which is that of the oracle, and the constraint is never added.
* `C86_rounds_refuted` — Finding: every round of the cutting-plane loop sets the multipliers back to (1, 0, ...) but keeps the weights of the rounds before (kbest_cut_mira.cc:898-902), so from the second round on the weights are not those of the multipliers and the bound C on the total step is lost. Here two rounds end, with no pair left, at weight 3, which is worse than weight 2, the largest weight which any multipliers allow.
* `C87_single_refuted` — Finding: for a sentence with one candidate only (mr_pro_map.cc:94-96, 115-117) every draw gives the same candidate twice and the loop draws again: no number of draws is enough, the mapper never ends.
* `C88_empty_refuted` — Finding: one candidate without features makes the whole file unreadable: it is written as an empty line, on which ParseSparseVector ends the program.
* `C88_null_refuted` — Finding: statistics without a metric are written as those of the metric NULL and read back as such.
* `C89_hash_refuted` — Finding: the hash is computed from the values before rounding, so candidates which are the same for the comparison may have different hashes and both be kept.
* `C89_round_refuted` — Finding: the mask of the rounding is 1 - MASK instead of the complement of MASK and lets one low bit through: values whose bits differ by 1 or by 4 are the same, values whose bits differ by 2 are not.
* `C90_plus_refuted` — Finding: '+' is not escaped though it stands for a space (fdict.cc:95-98), so "a b" and "a+b" have the same escaped name.
* `C91_equals_refuted` — Finding: the last '=' or tab of a line becomes a space even if a space comes after it (weights.cc:47-48): the weight written for a feature "a=b" is read as one for "a", with what "b" is read as.
* `C91_hash_refuted` — Finding: a name beginning with '#' is not changed by escaping (fdict.cc:98), but taken for a comment by the reader: the weight is lost.
* `C91_short_refuted` — Finding: the check for the header (weights.cc:27-28) stops the program for a file of fewer than five characters, such as the empty one written for weights which are all zero; GetString throws for them.
* `C91_unknown_refuted` — Finding: UpdateFromString writes past the end of the weights for a new feature (weights.cc:182-183).
* `C91_zero_refuted` — Finding: the check for the header (weights.cc:27-28) stops the program for a file of fewer than five characters, such as the empty one written for weights which are all zero; GetString throws for them.
* `C92_empty_refuted` — Finding: an empty translation in the cache is taken for an empty cache (mbr_kbest.cc:64): the candidate is lost.
* `C92_ended_refuted` — Finding: if a file ends before the others, the empty place in the cache becomes an empty candidate (mbr_kbest.cc:65-66).
* `C92_id_refuted` — Finding: the id is only set when a line of the sentence is read, not when its candidate comes from the cache (mbr_kbest.cc:64-70, 89): with one candidate for the second sentence the list is printed under the id of the first.
* `C92_roles_refuted` — Finding: the candidate in question is the reference and the others are evaluated against it (mbr_kbest.cc:154, 162), so for a metric which is not symmetric the candidate chosen need not have the least expected loss as a translation: with "a b" and "a" equally likely and the error rate, "a b" is chosen, the expected rate of "a" is lower.
* `C92_wer_refuted` — Finding: only TER is taken for an error (mbr_kbest.cc:111); with WER or CER the program prefers candidates with more errors.
* `C93_codec_refuted` — Finding: the length of the first part is one signed char (comb_scorer.cc:57, 92): for 128 characters or more the reader throws.
* `C94_empty_refuted` — Finding: an empty constituent hides that a word follows </s>.
* `C94_no_marker_refuted` — Finding: with -x a sentence without <s> loses the features of its first words instead of being marked as malformed.
* `C94_order_refuted` — Finding: an order of 6 is accepted and reads past the prefixes.
* `C94_second_sos_refuted` — Finding: what a second <s> costs depends on the derivation: -100 if the rule has a word in front of it, +1 if it begins a constituent.
* `C94_sos_refuted` — Finding: with an order of 3 or more (3 is the default) no feature has <s> in it: the word goes to the oldest place of the state, behind places without a word.
* `C95_bos_refuted` — Finding: a tag called BOS has the name of the beginning, and as values are set and not added (ff_tagger.cc 44) the two bigrams of the first edge count once.
* `C95_names_refuted` — Finding: with tags which contain the separator different bigrams are one feature.
* `C95_one_word_refuted` — Finding: the features with BOS and EOS are fired where two parts are combined (ff_tagger.cc 61-68), so a sentence of one word has neither.
* `C95_twice_refuted` — Finding: values are set and not added within a rule (ff_tagger.cc 145), so a word which a rule produces twice counts once.
* `C97_oov_refuted` — Finding: WordSet with --oov counts the variables of the rules as words out of the vocabulary: a translation with all its words in the vocabulary gets a positive count.
* `C97_shared_refuted` — Finding: two of them with the same feature name do not add up, the last one replaces the first: with two vocabularies under one name the words of the first are not counted.
* `C99_frozen_refuted` — Finding: with a frozen dictionary the features of a rule depend on how often it was used before: if a name is not known, the first use returns before anything is added, but leaves the part computed so far in the cache, and every later use adds that part.
* `C99_identity_refuted` — Finding: the identity feature does not tell a category of the source side from a word which starts with N, nor a variable of the target side from such a word: different rules share one feature.
* `C99_mark_refuted` — Finding: a word which reads like the mark at the end makes the count of the last neighbours wrong: they are counted once, whatever was there.

## Assumptions

As printed by `Print Assumptions`.  Every property theorem not listed here is "Closed under the global context".  All axioms are those of the standard library (reals, functional extensionality, excluded middle).

* `ClassicalDedekindReals.sig_forall_dec`: `C96_alone`, `C96_rules`, `C96_order`
* `ClassicalDedekindReals.sig_forall_dec`, `ClassicalDedekindReals.sig_not_dec`, `Classical_Prop.classic`, `FunctionalExtensionality.functional_extensionality_dep`: `C08_conversion`, `C08_arithmetic`, `C08_sums_and_products`, `C08_order_nonnegative`, `C08_equality_nonzero`, `C08_order_negative_refuted`, `C08_zero_equality_refuted`, `C08_star_between_0_and_1`, `C08_star_refuted`, `C14_viterbi_prob`, `C13_inside_prob`, `C15_edge_posteriors_prob`, `C17_push_to_goal`, `C41_score`, `C55_normaliser`, `C55_diagonal`, `C55_value`, `C55_closer`, `C55_no_null_refuted`, `C56_gradient_partial`, `C56_square_partial`, `C56_gradient_refuted`, `C56_feature_refuted`, `C56_range`, `C57_fails`, `C57_likelihood`, `C57_rises`, `C57_table`, `C58_best`, `C58_test`, `C58_written`, `C58_overrun_refuted`, `C61_scores`, `C61_loose_refuted`, `C62_partition_gradient`, `C63_likelihood`, `C64_risk`, `C64_entropy`, `C64_entropy_gradient_refuted`, `C64_minrisk`, `C65_pro_partial`, `C65_heldout`, `C65_heldout_refuted`, `C81_exponential_rate`, `C81_exponential_passes`, `C84_bleu`, `C84_bleu_range`, `C84_stupid`, `C84_smooth`, `C84_sum`, `C84_approx`, `C84_ex`, `C98_source_given_target`, `C98_target_given_source`
* `ClassicalDedekindReals.sig_forall_dec`, `ClassicalDedekindReals.sig_not_dec`, `FunctionalExtensionality.functional_extensionality_dep`: `C55_uniform`, `C78_similarity`, `C78_metric`, `C87_lines`, `C87_pairs`, `C87_kept`, `C87_progress`, `C87_single_refuted`, `C87_ex`, `C92_best`, `C92_roles_refuted`, `C92_wer_refuted`, `C92_ex`
* `ClassicalDedekindReals.sig_forall_dec`, `FunctionalExtensionality.functional_extensionality_dep`: `C61_singleton`, `C62_expectation_semiring`, `C62_inside_outside`, `C62_duplicate_tail_refuted`, `C63_prior_partial`, `C63_prior_at_zero_refuted`, `C78_kernel`, `C81_shrunk`, `C81_frozen`, `C81_unpenalised`, `C81_standard_rate`, `C81_standard_passes`, `C81_new_epoch_refuted`, `C82_steps`, `C82_signs`, `C82_independent`, `C82_straight`, `C82_turn`, `C82_zero_derivative_refuted`, `C84_counts`, `C84_linear_reference_refuted`, `C84_linear_short_refuted`, `C84_ex_linear`, `C85_step`, `C85_margin`, `C85_average`, `C85_final_refuted`, `C85_pass_start_refuted`, `C85_samples_refuted`, `C85_ex`, `C86_step`, `C86_round`, `C86_bound`, `C86_stop`, `C86_passive_aggressive`, `C86_rounds_refuted`, `C86_fear_refuted`, `C86_no_reweight_refuted`, `C86_nbest_refuted`, `C86_ex`, `C86_ex_stop`, `C93_score`, `C93_plus`, `C93_ex`, `C97_words`, `C97_source`, `C97_arity`, `C97_wordset`, `C97_oov`, `C97_oov_refuted`, `C97_shared_refuted`, `C98_table`, `C98_sums`

541 theorems checked, 123 of them with axioms.

## What is modelled

Per model file; each definition in it cites its lines.

* `Dict.v`: Model of utils/dict.h: class Dict (lines 13-89). [words_] is the vector of words, [d_] the hash map. The hash map (HASH_MAP<std::string, WordID>, line 16) is taken at its specification: a partial function from words to ids with [find] (line 50) and [operator[]]-assignment (line 55). WordID is a 32-bit signed int: the conversions from size_t in lines 55, 56 and 77 are made explicit by [wrap32].
* `B64.v`: Model of utils/b64tools.cc (lines 1-59). Bytes are [N] below 256.
* `SparseVec.v`: Model of utils/fast_sparse_vector.h: FastSparseVector<T, LOCAL_MAX>. The element type is arbitrary ([T] with its operations are section variables, discharged at the end of the section). The object is the union [data_] (lines 465-468): an array of LOCAL_MAX slots or a hash map, plus [local_size_] (an unsigned char, line 469) and [is_remote_]. SPARSE_HASH_MAP is taken at its specification: a list of pairs with distinct keys, in an unspecified order; [fsv_rehash] lets the order change arbitrarily at any time. Reading or writing a slot outside the array is undefined: the functions return [None].
* `Utoa.v`: Model of utils/utoa.h. Everything is parameterised by the width [w] of the integer type (8, 16, 32, 64). Text is written right to left ending at [buf]; the model keeps the bytes written so far ([out]) and the number of bytes still available to the left of the pointer ([room]); writing without room is undefined ([None]).
* `SmallVec.v`: Model of utils/small_vector.h: SmallVector<T, SV_MAX>. The element type [T] and SV_MAX ([M]) are arbitrary. The heap is explicit: [new T[n]] allocates a block of [n] uninitialised cells, [delete[]] frees it, and any access to a freed block or outside a block is [UB]. A cell is [None] while its contents are indeterminate. The union [data_] is either the inline array or a pointer; the bytes of a pointer read as inline values are indeterminate cells. size_ and capacity_ are 16-bit: conversions to uint16_t are [wr16] (mod [W]; the code has W = 2^16), the assertion limit of Alloc is [A] (0xA000 in the code). A failed assertion is [Fail]. Simplification: the element-wise copy loops are block operations with one bounds check.
* `Array2D.v`: Model of utils/array2d.h: class Array2D<T> (lines 10-84). [W] is the number of values of [unsigned] (2^32 in the code): products and sums of unsigned values are reduced mod [W]. A failed assertion, or an access outside the vector, is [None].
* `LogVal.v`: Model of [LogVal] (utils/logval.h), numbers stored as a sign and the logarithm of the magnitude. Simplification: [double] arithmetic is taken over the exact reals extended with the IEEE special values, so rounding, overflow and underflow are not modelled; infinities and NaN are.
* `Align.v`: Models of utils/alignment_io.cc (Pharaoh format) and utils/atools.cc (alignment combination), on top of the Array2D model. Characters are their codes. [W] is the number of values of [unsigned] and [IM] the number of non-negative values of [int] (2^32 and 2^31 in the code); [int] overflow, failed assertions and abort() are [None].
* `BitPack.v`: Model of klm/util/bit_packing.hh and bit_packing.cc, for both byte orders. Memory is a list of bytes (numbers below 256). Offsets and lengths are [nat], integer values [N]. Accesses outside the memory and shifts by the width of the type or more are undefined: [None]. A float is represented by its 32-bit pattern.
* `Probing.v`: Model of klm/util/probing_hash_table.hh. A table is the array of its buckets, each holding a key and a value; an empty bucket holds the key [invalid] (its value is whatever was there). Keys, values and the hash function are arbitrary; hash values are [nat], the byte size of entries and the overflow of 64-bit sizes are not modelled. Probe loops run for as many steps as there are buckets: after that many steps an unsuccessful probe is back where it started, with nothing changed, so that it never ends. This is the outcome [Loop]. A table with no buckets divides by zero: [UB].
* `SortedFind.v`: Model of klm/util/sorted_uniform.hh. Keys are unsigned integers ([N]); iterators are positions ([Z]) in an array, so that an iterator may point one before the first element; an access outside the array, a division by zero or the conversion of a NaN is [UB].
* `PCQueue.v`: Model of klm/util/pcqueue.hh (lines 75-150): a bounded queue used by any number of threads. The semantics is an interleaving one: a step is one access to a semaphore, a mutex, a slot of the storage or one of the two cursors, by one thread, in any order the semaphores and mutexes permit. A mutex has a holder; a semaphore is a counter. An assignment of a value may throw at any time; the target (a slot, or the consumer's variable) then holds anything. Not modelled: spurious wake-ups (EINTR is retried, 59-71), failing semaphores ("undefined" by the documentation), weak memory.
* `HG.v`: Model of the hypergraph type and its construction API, decoder/hg.h. An edge's rule, feature vector, span and probability are one payload of abstract type [P] (48-72); an edge's head is [None] until it is connected (it is uninitialised memory in the program, 49-52). Node hashes are left out. Indices are naturals: 32-bit limits are not modelled. An access out of the bounds of nodes_ or edges_ is [None].
* `Inside.v`: Model of decoder/inside_outside.h (Inside 30-55, Outside 57-95, compute_edge_marginals 151-167) and of Hypergraph::ComputeEdgePosteriors, decoder/hg.cc 160-172. The weight type is abstract: a carrier with the operations the templates use (zero: WeightType(), one: WeightType(1), +=, *=). The score vectors are lists updated in place, in the order of the loops; an access out of bounds gives [None].
* `Viterbi.v`: Model of decoder/viterbi.h: Viterbi (21-64) and some of its traversals. The weight type is abstract: [zero] is WeightType(), [one] WeightType(1), [ltb] operator< and [times] operator*=. A traversal receives the edge, the results of its tails and the default-constructed result, and returns the new result. Out-of-bounds accesses give [None].
* `Push.v`: Model of Hypergraph::PushWeightsToGoal (decoder/hg.cc 233-246) and PushWeightsToSource (187-199). The payload of an edge is its edge_prob_; the weight type is abstract, with [scale] for pow(scale) (hg.h ScaledEdgeProb).
* `Topo.v`: Model of Hypergraph::TopologicallySortNodesAndEdges, decoder/hg.cc 461-603 (HG_EDGES_TOPO_SORTED is undefined, hg.h 36). The depth-first search is a step function on an explicit state; an access out of bounds and a detected cycle (abort) are distinct outcomes. Indices and ids are naturals, with [None] for -1.
* `Rescore.v`: Model of full model intersection, decoder/apply_models.cc 523-614 (NoPruningRescorer). [P] is the payload of an input edge, [Q] of an output edge: its features and probability after the models were applied. A model set is given by two functions: [feat] for AddFeaturesToEdge (ffset.cc 30-60), which takes the states of the tails and returns the payload and the state of the head, and [final] for AddFinalFeatures (62-76). Their arguments are the input edge and the states: that a feature function could also look at the numbers of the output tails is left out, as are node hashes. [eqS] is equality of state vectors; the map from states to nodes is an association list. An access out of bounds or a failed assertion is [None].
* `Cube.v`: Model of the candidate enumeration of cube pruning, decoder/apply_models.cc 288-507, for one node. A candidate is an edge and a vector of indices into the hypothesis lists of its tails; [dims e] are the lengths of these lists (the sizes of D at the edge's tails, which are complete when the node is processed). The heap is the list of its elements: which of them is largest depends on the models' estimates, so a pop takes any element. [None] is a failed assertion.
* `KBest.v`: Model of lazy k-best extraction, decoder/kbest.h 44-241. A derivation object (56-75) is its edge, the vector [j] of ranks of its antecedents and its score; its yield is kept beside it once it is computed. The feature vectors and the list of objects to free are left out. The heap functions and nth_element of the C++ library are parameters: [hpop] is pop_heap followed by back and pop_back, [hpush] push_back and push_heap, [hmake n] nth_element, resize to n and make_heap. [uniq] tells whether the filter is FilterUnique (29-35) or NoFilter (21-26). Recursion goes from a node to tails of its in-edges; [depth] bounds it, and [F] bounds the inner loop (143-160). A failed assertion, a null pointer which is followed, an access out of bounds and exhausted fuel are [None].
* `Mert.v`: Model of training/dpmert/mert_geometry.h and mert_geometry.cc: the upper envelopes of lines over which MERT computes. A double is a rational or an infinity: rounding is not modelled. A point (mert_geometry.h 14-42) is its x, slope, intercept and its provenance, which stands for the fields p1, p2 and edge: both parents null and no edge (PNone), an edge, or two parents. std::sort is a parameter [srt]. A hull is its flag is_sorted and its vector of points; points are values here, in [HeapHull] below they are objects reached through shared pointers, as in the code.
* `Stats.v`: Model of class SufficientStats, mteval/ns.h 14-79. A float is a rational: rounding is not modelled. Characters of the id are opaque.
* `Bleu.v`: Model of the BLEU evaluator, mteval/ns.cc 67-254 (CharBased = false). N-gram counts held in floats are natural numbers (exact below 2^24), lengths are rationals, scores are reals: rounding is not modelled. std::map is a list of keys and values; the order of iteration plays no role. NGramCompare (114-126) identifies two n-grams only if they are equal (word ids are not negative, so the subtraction does not overflow). A write outside of the statistics vector, and a division by zero in the score, give [None].
* `Surface.v`: Model of training/dpmert/error_surface.h 12-16, ces.cc and of LineOptimizer::LineOptimize, line_optimizer.cc 11-81. A double is a rational or an infinity, or not a number; rounding is not modelled. The evaluator of a segment is the function [eval] from translations to statistics (Evaluate is const; C23 shows that the hidden counters of the BLEU evaluator do not matter). metric->ComputeScore is [metric], None for not a number. std::sort is a parameter.
* `ESer.v`: Model of ErrorSurface::Serialize and Deserialize (training/dpmert/ error_surface.cc 10-41), SufficientStats::Encode and the constructor from text (mteval/ns.cc 312-329), and of the way surfaces travel from mr_dpmert_map.cc (105-109) to mr_dpmert_reduce.cc (59-69), in base64. Bytes are numbers below 256 ([N]), as in B64. Of the statistics only whole numbers are modelled: a field is an integer, printed by operator<< with six significant digits (%g), read back as a rational. The x of a segment is its eight bytes.
* `Leven.v`: Model of cdec::LevenshteinDistance (mteval/levenshtein.h 6-25), WERMetric and CERMetric (mteval/ns_wer.cc 17-34, ns_cer.cc 17-36). Words and characters are integers. The array of two rows is a list; an access outside it is [None]. Counters are natural numbers: wrap-around of unsigned at 2^32 symbols is not modelled, nor the rounding of float above 2^24.
* `Ter.v`: Model of TERScorerImpl (mteval/ns_ter_impl.h 13-46, ns_ter_impl.cc 44-369) and of TERMetric::ComputeSufficientStatistics (mteval/ns_ter.cc 33-62). Words are integers. [None] is an access outside a vector, a failed assertion, or a loop that has not ended within [fuel] rounds. Costs are natural numbers; all costs in the code are small whole numbers held in float.
* `Suffix.v`: Model of extractor/suffix_array.cc 27-218: construction by bucket sort and prefix doubling, the LCP array, and lookup. int is unbounded here: texts of 2^30 words and more are not modelled. [data] are the word ids of the corpus, [voc] the size of the vocabulary (ids 0 .. voc-1, 0 is NULL_WORD). [rnd k] is the k-th result of rand(); the counter [k] is part of the state.
* `Fix.v`: Model of extractor/rule_extractor_helper.cc: link spans, projections, the fix point of a source span under a word alignment, gap order and source indexes. int is unbounded. [None]: an access outside an array.
* `Precomp.v`: extractor/precomputation.cc: the frequent patterns of a corpus (75-108) and the index of discontiguous patterns made of them (15-69, 121-189). Simplifications: int and size_t are unbounded (all values are at most the corpus size plus the option values); the priority queue is a list kept in descending order; matchings and annotations, two vectors of equal length in the code, are one list; Vocabulary::GetTerminalIndex of a word is a function [ann] of its id; timing output is left out. The loops of UpdateIndex never read the index, so the model returns the calls of AppendCollocation in order and the index is built from them. [None]: an access outside a vector.
* `Lattice.v`: decoder/lattice.cc and lattice.h: distances in a lattice. A lattice is the list of its positions, a position the list of the dist2next of its arcs (labels and features play no role here). The distance table is the data vector of an Array2D<int> (utils/array2d.h 23-27, 37-39, 73-78); [None]: one of its asserts fails. Simplification: unsigned and int are unbounded (the product of width and height does not wrap for lattices of fewer than 65535 positions, sums are at most twice kUNREACHABLE).
* `Plf.v`: decoder/hg_io.cc: Python lattice format. Text is a list of bytes. [None]: abort(), a failed assert, undefined behaviour or (never on the texts of the theorems) no end. Simplifications: labels are the words themselves (the dictionary is C01); a feature map is the list of its entries; [int] and [size_t] do not overflow.
* `Rule.v`: decoder/trule.h, trule.cc: translation rules. In the target side [e_] a symbol below 1 is a variable (0 the first, -1 the second, …), in the source side [f_] a category.
* `Parser.v`: decoder/bottom_up_parser.cc: exhaustive bottom-up parsing of a lattice, with the text grammars of decoder/grammar.cc (AddRule 98-116, Extend 60-64, HasRuleForSpan) and the glue and pass-through span tests of decoder/scfg_translator.cc 56-58, 89-91. Simplifications: a rule is its identity, left-hand side, source side and arity; the summed lattice features of an item or edge are the list of the arcs they come from; for reference, that list also shows where the antecedents lie between the arcs ([None]). Array2D and the maps are taken at their specification (C09), as functions; node hashes and coarse-to-fine levels are left out. Positions are naturals, so an arc cannot go backwards. [None]: an access out of bounds, a failed assertion, a list extended while it is traversed, abort() on a cyclic forest, or (never, it is shown) no end.
* `Lm.v`: Model of KenLM's n-gram scoring (klm/lm/model.cc), of its chart-state scorer (klm/lm/left.hh) and of the language model feature built on them (decoder/ff_klm.cc). Log probabilities, back-off weights and rest costs are floats in the code. They are exact integers here, in units of 2^-149: every finite float is a whole number of those units, and only the rounding of sums is left out. The two sign-bit tricks of the code are separate booleans: [ext_left] is "the sign bit of the stored probability is off" (klm/lm/value.hh 32-36) and [has_ext] is "the stored back-off is not -0.0" (klm/lm/blank.hh 33-39). An n-gram is the list of its word ids, newest word first, which is the order in which the code walks it. A 64-bit hash of an n-gram, or a trie node, is the n-gram itself, so hash collisions are not modelled. [None] is undefined behaviour: an index outside a table or array, a read of a value that was not written, a pointer to an n-gram that is not there.
* `LmExample.v`: A way to write down small models, and a check that they are well built.
* `Arpa.v`: Model of how KenLM builds its hashed model from an ARPA file (klm/lm/search_hashed.cc, read_arpa.hh, value_build.hh, vocab.cc, model.cc 91-130). A finite float is a sign bit and a magnitude in units of 2^-149, so that -0.0 and the two sign-bit tricks are as in the code; sums are not rounded. The file is given as its sections, line by line; splitting it into numbers and words is not modelled, nor are lines with the wrong number of words except as an error. The hash of an n-gram is the n-gram itself (newest word first), the hash of a word is the word. A hash table is the list of its entries in the order of insertion, of which the first with a key is the one that is found (linear probing, no deletion).
* `Prune.v`: Model of hypergraph pruning, decoder/hg.cc: PruneEdges (257-288), MarginPrune (292-317), nth_greatest (319-323) and PruneInsideOutside (325-375) with use_sum_prod_semiring = false, which is how the decoder calls it (decoder.cc 197, scfg_translator.cc 231); and of InsideOutsides::compute and compute_edge_marginals (inside_outside.h 114-130, 151-167). A prob_t is held as its logarithm (logval.h): here a rational number, or [None] for log 0. Floating-point rounding is not modelled. Tropical values (hg.cc 120-140) are such logarithms with maximum and sum. What is printed is left out.
* `FastAlign.v`: Model of the word aligner word-aligner/fast_align.cc with the diagonal alignment distribution (word-aligner/da.h) and the translation table (word-aligner/ttables.h). Doubles are exact real numbers. The corpus is given as pairs of lists of word ids (reading and swapping lines is left out, so --reverse is a corpus read the other way round); sentence lengths are below 2^15 (a short in size_counts). Hash maps are association lists; what is computed from them does not depend on their order. Not modelled: --variational_bayes, --force_align, the length model of the test set and all messages but the likelihoods.
* `FastAlignWitness.v`: Inputs on which the aligner is not what it is meant to be, and examples.
* `RuleEx.v`: Model of the extraction of rules from one occurrence of a source phrase (extractor/rule_extractor.cc, rule_extractor_helper.cc, target_phrase_extractor.cc, phrase.cc, phrase_builder.cc). int is unbounded; the words of a sentence are the indexes of the vocabulary (vocabulary.cc 7-21), nonterminal number k is the symbol -k (23-29). [None]: an access outside an array, or an iterator past the end read.
* `RuleCount.v`: Model of the rules of a source phrase and the numbers their feature scores are computed from (extractor/rule_extractor.cc 77-122, features/*.cc). std::map is a list in the order of its keys; the counts of type double are rationals.
* `RuleExWitness.v`: Concrete sentence pairs for the examples and the refutations.
* `Grad.v`: Model of the training objectives and their gradients: training/utils/risk.cc, training/utils/entropy.cc, training/minrisk/minrisk_optimize.cc 57-85, training/pro/mr_pro_reduce.cc 92-178 and the Gaussian prior of training/crf/mpi_batch_optimize.cc 320-334. Numbers are exact reals (prob_t sums are sums in log space: C08). Weight and gradient vectors are functions of the feature number; a feature number below the size of the program's arrays is assumed (they are sized by the feature dictionary). A SparseVector's operators act per coordinate (C03, C04). A NULL gradient pointer is not modelled: the gradient is always computed.
* `Expect.v`: Model of expectations over forests: the expectation semiring (utils/exp_semiring.h 18-37, decoder/hg.h 596-608), InsideOutside (decoder/inside_outside.h 135-150, 178-187), and the observer which accumulates the likelihood and its gradient (training/crf/mpi_batch_optimize.cc 86-165). Numbers are exact reals. The result of expect is a vector, modelled as a function of the feature number.
* `GradLoss.v`: Specification: the functions the trainers are meant to minimise.
* `GradWitness.v`: Concrete cases for the training objectives.
* `Intersect.v`: Model of the corpus arrays of the extractor (extractor/data_array.cc 59-84), of PhraseLocation (phrase_location.cc) and of FastIntersector (fast_intersector.cc 30-177). int and size_t are unbounded. A line of the corpus is the list of the ids of its words; [wid] is data_array->GetWordId(vocabulary->GetTerminalValue(s)), the id of a symbol of the vocabulary in the corpus, -1 when the corpus does not have the word; a symbol below 0 is a nonterminal (vocabulary.cc 23-33); [pre] is the precomputed index, None for a pattern that it does not contain. [None]: an access outside an array.
* `Sampler.v`: Model of the samplers of the extractor (extractor/backoff_sampler.cc 15-65, matchings_sampler.cc 15-42, suffix_array_sampler.cc 15-43, phrase_location_sampler.cc 17-32). Simplification: the doubles step, i, j and k are exact rationals; they are all multiples of 1/max_samples and stand here multiplied by max_samples ([stepM], [iM]). [stray]: the values read past the end of the array of sentence numbers; if it is not given such a read is an error. [None]: an access outside an array.
* `RuleFactory.v`: Model of HieroCachingRuleFactory::GetGrammar (extractor/rule_factory.cc 107-309) with the trie of matchings (matchings_trie.h 18-48): which phrases of an input sentence are looked up, and the locations that go to the sampler and the rule extractor. A node of the trie is created once and stored as the child of one node, so a node is identified with its path from the root, a list of symbols; the node of a state is always the one at the phrase of the state. The fields State::subpatterns_start and TrieNode::phrase are not used by the code and left out; size_t and int are unbounded; the k-th nonterminal is the symbol -k (vocabulary.cc 23-25). [None]: a null pointer followed, an access outside an array, or fuel used up.
* `Constrain.v`: decoder/hg_intersect.cc: intersecting a forest with a reference sentence or lattice. What is on an edge (hg.h 46-66): its rule object, its features and the four positions. A rule object (trule.h) is its address, its two sides, its arity and its parent rule; a feature vector is the list of the vectors it is the sum of. The dictionary is any function [conv] from words to ids with [str] going back (C01); [cats] follow lines 111-116. Simplifications: node hashes are left out; int, short and unsigned are unbounded. [None]: an access out of bounds, a failed assertion, or an abort in pruning or parsing.
* `Trellis.v`: decoder/tagger.cc, lextrans.cc, lexalign.cc: the trellises of the linear-chain models. The three builders add, for each position, a node with the edges for the words there, and combine it with what is before; [chain] is that loop over the labels of those edges. Rule objects carry their address; the tagger makes a new one per edge, numbered here by the edge. A grammar is what Extend and GetRules give for a word; [None] for the inner option is a missing RuleBin (an assertion). Left out: dynasearch, the unused all_sources_to_all_targets_, edge probabilities and node hashes. [None]: an access out of bounds or a failed assertion.
* `HgSample.v`: decoder/hg_sampler.cc and utils/sampler.h: sampling derivations from a forest. Weights are exact rationals (prob_t in the program), random numbers are given as a list of rationals, what U(0,1) returns one after the other. The feature vector of a sample is the list of the vectors it is the sum of. sampled_edges as weights 0 and 1 (18) are natural numbers. [None]: an access out of bounds, a failed assertion, no random numbers left, or the bound [fuel] on the number of steps reached.
* `Union.v`: decoder/hg_union.cc: the union of two forests whose nodes are identified by node_hash. A forest is a hypergraph with the list of the hashes of its nodes. The label of an edge is what of the rule is compared, the rest which is copied (hg.h 106-109), the features and the probability. The calls with the same object for both (33) are left out. [None]: an access out of bounds.
* `Pb.v`: decoder/phrasebased_translator.cc and decoder/phrasetable_fst.cc: the phrase-based decoder. Rules are abstract (what TRule::CreateRulePhrasetable makes of a line is not modelled: a line is its source words and its rule); features and weights are left out. A pointer to a trie node is the node itself. The reference to the arcs of the position behind the last (142) is formed but not used, and left out. [None]: an access out of bounds, a failed assertion, an abort, or the bound [fuel] on the number of states reached.
* `Alias.v`: Model of the alias sampler (utils/alias_sampler.h). Numbers are exact rationals (simplification: no rounding); [None] for an alias is numeric_limits<unsigned>::max().
* `Ssk.v`: Model of the string subsequence kernel (utils/kernel_string_subseq.h) and of the metric based on it (mteval/ns_ssk.cc). float arithmetic is modelled by real arithmetic (simplification: no rounding), words by numbers; [None] is an access outside an array.
* `Aer.v`: Model of the alignment error rate (mteval/aer_scorer.cc), on top of the alignment reader of Align.v. Counts are natural numbers (simplification: no overflow of int); float arithmetic is exact, with infinity and not-a-number.
* `Csplit.v`: decoder/csplit.cc: the compound splitter. A string is its list of bytes. The dictionary is a function [conv] from strings to ids (TD::Convert, C01). A feature vector is the list of its entries. Rule objects are numbered by the edge they are made for. Left out: edge probabilities (Reweight), node hashes, the source lattice of the sentence's metadata. [int] is unbounded. [None]: an access out of bounds, a failed assertion or an abort.
* `Onl.v`: Model of the online optimiser with cumulative L1 penalty (training/utils/online_optimizer.{h,cc}) and of the RProp optimiser (training/utils/optimize.{h,cc}). Simplified: doubles are real numbers (so no rounding, infinities, NaN or negative zero); a SparseVector is the function giving its values (erase stores 0; the container is the subject of C03-C05).
* `Dtrain.v`: Model of the pair sampling of dtrain (training/dtrain/pairsampling.h). Simplified: scores and model scores are rational numbers; std::sort, which may order equal elements in any way, is the relation [sorts]; the counter of pairs is not bounded (in the code it is an unsigned).
* `Dscore.v`: Model of the sentence-level scores of dtrain (training/dtrain/score.{h,cc}, dtrain.h). Simplified: score_t (double) is the real numbers; words are numbers; std::map is an association list without double keys, in the order of insertion (the code only looks keys up and adds over all entries). SumExpBleuScorer and SumWhateverBleuScorer are not modelled.
* `Mira.v`: Model of the training loop of k-best MIRA (training/mira/kbest_mira.cc). Simplified: doubles and floats are the real numbers; a sparse vector is the list of its values for the features 0, 1, ..., all lists of the same length; the decoder and the metric are not modelled: an iteration is given the hypotheses of the forest of its sentence with their scores, whatever they are. The scaling of the weights before and after decoding (lines 276-288) is left out, it does not change them.
* `Cutmira.v`: Model of the optimisation of cutting-plane and passive-aggressive MIRA (training/mira/kbest_cut_mira.cc). Simplified: doubles are the real numbers, vectors are lists of equal length (see Mira.v). The decoder, the metric and the choice of the hypotheses are left open: the constraint set is any list of hypotheses with their losses.
* `ProMap.v`: Model of the sampling of training pairs of PRO (training/pro/mr_pro_map.cc). Simplified: floats and doubles are the real numbers; a sparse vector is the list of its values for the features 0, 1, ..., all lists of the same length; the score of a candidate under the metric is a field of it. The random numbers are given: the results hold for all of them. partial_sort is the relation of the results it may have.
* `CandSet.v`: Model of the repository of k-best candidates (training/utils/candidate_set.{h,cc}, SufficientStats of mteval/ns.cc, TD::GetString and ConvertSentence of utils/tdict.cc, VisitTokens of utils/stringlib.h and print of utils/sparse_vector.h). Simplified: a character is a number; a file is the list of its lines; a number is its text: how the standard library prints and reads numbers is left open (print, strtod).
* `Weights.v`: Model of the weights files (utils/weights.cc) and of the escaping of feature names (utils/fdict.cc). Simplified: a character is a number; a file is the list of its characters; how the standard library prints and reads a number is left open (print, strtod); strings hold no NUL; only the text format: the reader of the other one writes sizeof(size_t) bytes into an int (weights.cc:77-78), which is undefined, and so is None here.
* `Mbr.v`: Model of minimum Bayes risk reranking of k-best lists (mteval/mbr_kbest.cc). Simplified: a line is already split into its sentence id (0: the empty string), its words and its score (scaled and with the offset of its file); the log probabilities are reals; std::sort is left open.
* `Comb.v`: Model of the combination of metrics (mteval/ns_comb.cc), of sums of statistics (mteval/ns.h) and of the encoding of combined scores (mteval/comb_scorer.cc). Simplified: statistics and scores are reals (float in the code); the metrics combined are left open.
* `Ngrams.v`: The n-gram indicator features of the decoder (decoder/ff_ngrams.cc). Words are integers as in the rules, 0 standing for "no word". What is left open: the cluster of a word ([cls], MapToClusterIfNecessary, ff_ngrams.cc 216-220) and the identity of the feature of an n-gram ([name], lines 230-241: the name is made of constant parts and of the words, and the tree of identities caches it by the words). Feature vectors are functions from identities to integers (the code uses doubles; all values are sums of 1 and -100). The state's memory is a record; whether unused bytes of it are initialised is not modelled.
* `TagFf.v`: decoder/ff_tagger.cc, factored_lexicon_helper.h/.cc: the features of the linear-chain models. Features are named by their text: the numbers cached per pair of words are those of the names. [None]: an access out of bounds or a failed assertion. Left out: reading the files of words to use in place of the surface words, which are given as lists.
* `Ffset.v`: decoder/ffset.cc, ff.h: several feature functions applied together. A feature function is what it does to the bytes of its part of the state and to the features of an edge: it sees only its own part of the states of the tails, and starts from a part which is zero. [None]: an access out of bounds. Features are numbered. Left out: feature functions which write outside their part (ff.h 58-63 warns of them).
* `Ffbasic.v`: decoder/ff_basic.cc, ff_wordset.cc: feature functions which count words and rules, as feature functions of Ffset.v. An edge has a rule: the target side and the source side, with the convention of Rule.v. Left out: reading of the parameters and of the vocabulary.
* `Lex.v`: extractor/data_array.cc, translation_table.cc, features/max_lex_*.cc: lexical translation probabilities of the extractor. A line is the list of its words (the splitting at white space is left out), an alignment the list of its links; hash maps are association lists. [None]: an access out of bounds, or [-1] where the code returns an id. Numbers have no limit.
* `RuleFf.v`: decoder/ff_rules.cc: features named after a rule and after the neighbouring symbols of a rule, with the cache of every function. Features are named by their text; [None] is feature 0, the number of all names a frozen dictionary does not know (utils/fdict.h 25-37, dict.h 29-45). Rules are told apart by their address, a number. Symbols are texts already: a category or a word of the source side, a word or the number of a variable of the target side.
* `Frag.v`: decoder/tree_fragment.h, tree_fragment.cc: trees read from text, printed and traversed. A text is a list of characters. [Abort]: the program stops with a message; [Undef]: it reads outside of the text or of a vector. Symbols are texts with a kind instead of numbers with a bit (numbers of words below 2^28; C01 is about the numbers). Left out: the limits of [unsigned short] and [short] (fewer than 32768 words, fewer than 65536 nodes), the breadth first iterator, remainder and truncate.
* `T2s.v`: decoder/tree2string_translator.cc: the composition of an input tree with tree-to-string grammars. A rule is anything ([R]): its target side and features are not looked at here. Nodes of the forest are named by the node of the input tree they are made for (x2hg, 298 and 317-332, is one to one). There is one transducer state (0). Left out: reading the lines of the grammar (the fragment of a rule is in Frag.v), sorting and pruning the forest afterwards (C16, C53), the goal node, reweighting, the assertion that a rule has as many variables as its fragment has sites. [None]: a failed assertion, an access outside of a vector, "This can never happen", or no fuel.
* `Cfg.v`: decoder/hg_io.cc, HypergraphIO::WriteAsCFG (327-376): a forest written as a grammar in which the nodes are the categories, with the source and the target side exchanged. The rules before they are printed (AsString, C37); [None]: an access outside of a vector. Left out: the span and the parent rule kept with the rule.
* `Shape.v`: decoder/ff_ruleshape.h, ff_ruleshape.cc: features named after the shape of a rule (the first class) and after the classes of its words (the second). Features are named by their text: the dictionary of features takes every name.
* `Srcpath.v`: decoder/ff_source_path.cc, ff_charset.cc and the reordering features of ff_spans.cc: source words and neighbours, target words with other letters, and rules with two variables which exchange them. Features are named by their words and numbers instead of by text, and the features fired are a list. [None]: undefined behaviour, a failed assertion or an endless loop.
* `Ctx.v`: decoder/ff_context.cc: features of a label made from a template, with macros for the words of the input around it. [None]: the program stops. Left out: reading of the options before the template; locations are integers without bounds.
* `Pmatch.v`: decoder/ff_parse_match.cc: how far spans are from the constituents of a source tree. [None]: an assertion, an abort, or memory read or written outside of a table. Left out: exponential scoring; reading of the file with the tree.
* `Ctools.v`: utils/corpus_tools.cc: reading of parallel text, all of it or the share of one of several processes. [None]: the program stops.
* `Strlib.v`: utils/stringlib.h and utils/stringlib.cc: dividing of texts. Positions in a text are kept as the text read since; std::string::find is [String.index] and substr is [String.substring] of the standard library. [None]: an exception or an abort.
* `Sgml.v`: utils/stringlib.cc: the attributes of a segment. std::string::find, substr and operator[] are [index], [substring] and [get] of the standard library. Outer [None]: the loop did not end within the steps given; inner [None]: an abort. The map of attributes is given by the assignments made to it, in order.

## What is not modelled

* Everything not named above; in particular: the command line drivers and
  configuration, MPI and Hadoop wrappers, the feature functions of the decoder
  except through the abstract interface of C18 and the KenLM feature (C49-C51), the n-gram features (C94), the tagger features (C95) and the features of the later properties that name them in their anchors, the learners apart from the objectives of
  C63-C65 (L-BFGS, the updates of dtrain; of MIRA the oracle selection of kbest_cut_mira.cc), the dynasearch of the lexical decoder, the
  Python and Ruby bindings, the rule lexer (flex), JSON forest IO, KenLM's
  estimation and stream sorting code, and the external libraries.
* Floating-point rounding: doubles are rationals or reals (with infinities where
  the code uses them), except that floats are 32-bit patterns in C25.
* Integer overflow, where the header of the model file says so; sizes that
  overflow in the code at realistic sizes are modelled (C01, C02, C07, C09,
  C10, C25, C37, C40, C47).
* The C++ library (vectors, maps, heaps, sort) and hash maps are taken at their
  specification, with their unspecified choices left open as parameters.
* Memory exhaustion, IO errors, signals.  Threads only in C30.

## How to read seeded/LOG.jsonl

Each line is an edit of the model made in a scratch copy, which was then rebuilt.
`theorems_failed` lists the theorems that no longer compiled, because their proof
or a lemma they depend on failed.  A failed proof does not by itself show that
the statement is false for the edited model: a script can fail for a statement
that still holds, and one broken lemma takes all theorems after it along.  Failed
examples (names with `_ex`) are closed computations and do show a difference.
An edit with an empty list is one that no theorem noticed.
