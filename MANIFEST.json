{
 "claims": [
  {
   "property": "C01",
   "status": "proved",
   "theorems": [
    "C01_ids_stable",
    "C01_ids_injective",
    "C01_frozen",
    "C01_max_is_word_count",
    "C01_line"
   ],
   "note": "Fewer than 2^31 words requested (ids are 32-bit ints)."
  },
  {
   "property": "C02",
   "status": "partial",
   "theorems": [
    "C02_refines_sequences",
    "C02_no_leak",
    "C02_equality",
    "C02_push_own_element_refuted",
    "C02_resize_beyond_16_bits_refuted"
   ],
   "note": "Proved for histories within the 16-bit size limit that do not push an element of the vector itself; those two cases are refuted (use after free of the argument, size overflow)."
  },
  {
   "property": "C03",
   "status": "proved",
   "theorems": [
    "C03_value_is_ideal",
    "C03_no_undefined_behaviour",
    "C03_size_is_key_count",
    "C03_dot_is_inner_product"
   ],
   "note": "Over an arbitrary ring; hash map at its specification with arbitrary iteration order; erase commands restricted to stored keys (see C04)."
  },
  {
   "property": "C04",
   "status": "partial",
   "theorems": [
    "C04_erase_partial",
    "C04_erase_absent_refuted",
    "C04_erase_empty_refuted"
   ],
   "note": "Holds for stored keys or the hash form; refuted for absent keys in the small form (two witnesses)."
  },
  {
   "property": "C05",
   "status": "partial",
   "theorems": [
    "C05_equality_partial",
    "C05_equality_refuted"
   ],
   "note": "Holds without explicit zeros; refuted otherwise."
  },
  {
   "property": "C06",
   "status": "partial",
   "theorems": [
    "C06_encoded_length",
    "C06_roundtrip_partial",
    "C06_roundtrip_two_mod_three",
    "C06_roundtrip_refuted"
   ],
   "note": "Exact characterisation: holds for length not 2 mod 3, and for 2 mod 3 iff the last byte is a multiple of 16; refuted in general."
  },
  {
   "property": "C07",
   "status": "proved",
   "theorems": [
    "C07_utos",
    "C07_itos",
    "C07_itoa_positive_sign",
    "C07_text_determines_number",
    "C07_left_pad",
    "C07_drop_trailing_zeros",
    "C07_append_itoa_unsigned",
    "C07_append_itoa_refuted"
   ],
   "note": "All four widths, signed and unsigned. append_itoa is wrong for negatives (refuted separately)."
  },
  {
   "property": "C08",
   "status": "partial",
   "theorems": [
    "C08_conversion",
    "C08_arithmetic",
    "C08_sums_and_products",
    "C08_order_nonnegative",
    "C08_equality_nonzero",
    "C08_order_negative_refuted",
    "C08_zero_equality_refuted",
    "C08_star_between_0_and_1",
    "C08_star_refuted"
   ],
   "note": "Arithmetic, conversion, order on non-negative values and equality proved over exact reals (no rounding). Refuted: < on negatives is reversed; x-x differs from Zero(); star(0)=0 and star of negatives has the wrong sign."
  },
  {
   "property": "C09",
   "status": "partial",
   "theorems": [
    "C09_refines_grid",
    "C09_columns",
    "C09_resize_same_width",
    "C09_resize_keeps_cells_refuted",
    "C09_elementwise",
    "C09_dimension_overflow_refuted"
   ],
   "note": "Addressing, bounds, cell count and element-wise operators proved; resize to a different width moves cells (refuted) and width*height wraps at 2^32 (refuted)."
  },
  {
   "property": "C10",
   "status": "proved",
   "theorems": [
    "C10_printed_points",
    "C10_printed_numbers",
    "C10_roundtrip",
    "C10_read_any_points"
   ],
   "note": "Grids up to the int/unsigned limits; dimensions are not part of the format (the grid read is the smallest one, 1x1 if empty)."
  },
  {
   "property": "C11",
   "status": "proved",
   "theorems": [
    "C11_invert",
    "C11_intersect_union",
    "C11_grow_diag",
    "C11_grow_diag_final",
    "C11_grow_diag_final_and",
    "C11_fmeasure_counts"
   ],
   "note": "All commands, from any earlier state of the command object; also exact greedy construction order and F-measure counts."
  },
  {
   "property": "C12",
   "status": "proved",
   "theorems": [
    "C12_built_as_asked",
    "C12_consistent",
    "C12_calls_defined",
    "C12_connect_twice_refuted"
   ],
   "note": "Hypergraph construction calls refine a history specification; connecting twice leaves a stale entry (refuted)."
  },
  {
   "property": "C13",
   "status": "proved",
   "theorems": [
    "C13_inside",
    "C13_number_of_derivations",
    "C13_derivable",
    "C13_no_edges_zero",
    "C13_inside_prob"
   ],
   "note": "Inside equals the sum over derivations in any semiring; counting and boolean instances."
  },
  {
   "property": "C14",
   "status": "proved",
   "theorems": [
    "C14_viterbi",
    "C14_viterbi_prob",
    "C14_traversals",
    "C14_node_without_edges_refuted"
   ],
   "note": "Viterbi returns a best derivation and its bottom-up evaluation, for any monotone ordered weights and for prob_t, when every node has an incoming edge; refuted otherwise (nodes without edges count as weight one)."
  },
  {
   "property": "C15",
   "status": "proved",
   "theorems": [
    "C15_edge_posteriors",
    "C15_outside",
    "C15_best_path_through_edge",
    "C15_duplicate_tail_refuted",
    "C15_edge_posteriors_prob"
   ],
   "note": "Edge posteriors and inside*outside in any commutative semiring when no edge repeats a tail node; refuted otherwise (the code compares node indices, not positions)."
  },
  {
   "property": "C16",
   "status": "proved",
   "theorems": [
    "C16_toposort",
    "C16_result_sorted",
    "C16_derivations",
    "C16_built_graphs"
   ],
   "note": "TopoSort models TopologicallySortNodesAndEdges with its colours, explicit stack and relocation tables; PruneUnreachable/PruneEdges are calls to it."
  },
  {
   "property": "C17",
   "status": "proved",
   "theorems": [
    "C17_push_to_goal",
    "C17_push_to_source_refuted"
   ],
   "note": "Proved for prob_t with positive weights; PushWeightsToSource refuted."
  },
  {
   "property": "C18",
   "status": "proved",
   "theorems": [
    "C18_intersection",
    "C18_goal_derivations",
    "C18_dead_tail_refuted"
   ],
   "note": "Rescore models NoPruningRescorer: odometer, state-to-node map and node map; needs every tail to have an edge (C18_dead_tail_refuted shows the out-of-bounds read otherwise); feature functions depend on the input edge and antecedent states only."
  },
  {
   "property": "C19",
   "status": "proved",
   "theorems": [
    "C19_cube_enumerates"
   ],
   "note": "All three successor strategies; the heap order is arbitrary (any element may be popped), so the result holds for every scoring; each tail is assumed to have a hypothesis."
  },
  {
   "property": "C20",
   "status": "proved",
   "theorems": [
    "C20_kbest",
    "C20_kbest_unique",
    "C20_dead_tail_refuted",
    "C20_beyond_k_refuted"
   ],
   "note": "Both filters; heap functions and nth_element abstracted to what the C++ library promises. Also proved: the assertion fails when some tail has no derivation (C20_dead_tail_refuted), and without a filter ranks at or beyond the constructor's k may come back null (C20_beyond_k_refuted)."
  },
  {
   "property": "C21",
   "status": "proved",
   "theorems": [
    "C21_sort",
    "C21_plus",
    "C21_times",
    "C21_one",
    "C21_one_refuted",
    "C21_heap_sort",
    "C21_sum_aliases_refuted"
   ],
   "note": "Envelope of any points, sum and product (operands not the constant 1), identity; doubles are rationals with infinities. Heap-level theorem: Sort on distinct pointers is the envelope and touches nothing else. Findings: the constant 1 starts at x = 0 (and leaves is_sorted uninitialised); a sum shares points with its operands, so reading the sum damages them (C21_sum_aliases_refuted)."
  },
  {
   "property": "C22",
   "status": "proved",
   "theorems": [
    "C22_inside_envelope"
   ],
   "note": "For every node: each segment reconstructs a derivation (translation and used edges), with its slope and intercept, best among all derivations on its interval; intervals cover the line. Needs topological order and edge ids equal to positions. Points are values here (see C21 for the heap level)."
  },
  {
   "property": "C23",
   "status": "proved",
   "theorems": [
    "C23_stats"
   ],
   "note": "Stateful evaluator with hidden counters: any history of evaluations, all four reference-length conventions; lengths below 2000000 for the reference length (the code's sentinel)."
  },
  {
   "property": "C24",
   "status": "proved",
   "theorems": [
    "C24_distance",
    "C24_shift",
    "C24_score",
    "C24_zero",
    "C24_stats",
    "C24_long_refuted"
   ],
   "note": "edit distance = Levenshtein, path counts, block moves, termination, score bound and meaning, several references; C24_long_refuted: with a reference of 1026 words a packed position decodes to a negative index"
  },
  {
   "property": "C25",
   "status": "proved",
   "theorems": [
    "C25_pack_roundtrip",
    "C25_write_frame",
    "C25_required_bits_least",
    "C25_mask_by_max",
    "C25_mask_by_max_large_refuted",
    "C25_big_endian_int25_refuted"
   ],
   "note": "Both byte orders, any order of writes to disjoint fields. Findings refuted separately: BitsMask::ByMax for max >= 2^63 and 25-bit accesses on big-endian machines shift out of range; zero-length 57-bit fields on big-endian likewise (excluded)."
  },
  {
   "property": "C26",
   "status": "proved",
   "theorems": [
    "C26_table_is_map",
    "C26_find_marker_refuted"
   ],
   "note": "Arbitrary hash function; any history of Insert (absent keys)/FindOrInsert/Find. Looking up the invalid marker is refuted separately."
  },
  {
   "property": "C27",
   "status": "proved",
   "theorems": [
    "C27_double_in_place"
   ],
   "note": "For tables whose keys were inserted at most once."
  },
  {
   "property": "C28",
   "status": "partial",
   "theorems": [
    "C28_auto_is_map",
    "C28_auto_few_inserts",
    "C28_auto_insert_refuted"
   ],
   "note": "Proved for histories of FindOrInsert and for few Inserts; refuted for Insert in general (not counted, so the table fills and a lookup never returns)."
  },
  {
   "property": "C29",
   "status": "proved",
   "theorems": [
    "C29_binary_find",
    "C29_sorted_uniform_find64",
    "C29_sorted_uniform_find32",
    "C29_bounded_find64",
    "C29_bounded_find32",
    "C29_bounded_degenerate_refuted"
   ],
   "note": "BinaryFind, and interpolation with the integer pivot and with any pivot below the width (float rounding of Pivot64 is abstracted by its cap); degenerate equal bounds divide 0/0: refuted."
  },
  {
   "property": "C30",
   "status": "proved",
   "theorems": [
    "C30_queue_fifo",
    "C30_queue_results",
    "C30_queue_race_free",
    "C30_queue_in_bounds",
    "C30_queue_progress"
   ],
   "note": "Interleaving semantics at the granularity of semaphore, mutex, slot and cursor accesses; assignments may throw."
  },
  {
   "property": "C31",
   "status": "proved",
   "theorems": [
    "C31_sorted",
    "C31_null_refuted"
   ],
   "note": "Every text without id 0, every sequence of rand() results: BuildSuffixArray succeeds (no access out of bounds, terminates) and the result is the strictly sorted permutation of all suffixes. C31_null_refuted: a text containing __NULL__ (id 0) makes the sort index out of bounds."
  },
  {
   "property": "C32",
   "status": "proved",
   "theorems": [
    "C32_lookup",
    "C32_phrase",
    "C32_null_refuted"
   ],
   "note": "Lookup maps the exact range of w to the exact range of w++[word] (unknown words give an empty range); find_phrase iterates Find from the default location and yields exactly the occurrences. C32_null_refuted: Lookup of __NULL__ reports an occurrence in a text that has none."
  },
  {
   "property": "C33",
   "status": "proved",
   "theorems": [
    "C33_lcp"
   ],
   "note": "Kasai loop: lcp[0] = -1, lcp[r] = longest common prefix of the suffixes at ranks r-1 and r, for every text without id 0."
  },
  {
   "property": "C34",
   "status": "proved",
   "theorems": [
    "C34_closed",
    "C34_spans",
    "C34_least",
    "C34_complete"
   ],
   "note": "closure, coverage and limits for every alignment and option setting; least closed pair and completeness when the minimal source gap is 1; started from target (-1,-1) as all callers do"
  },
  {
   "property": "C35",
   "status": "partial",
   "theorems": [
    "C35_safe",
    "C35_two",
    "C35_rank_refuted"
   ],
   "note": "the full rank statement is refuted for three gaps (C35_rank_refuted); proved for two gaps, range and memory safety for any number"
  },
  {
   "property": "C36",
   "status": "partial",
   "theorems": [
    "C36_frequent",
    "C36_last_refuted",
    "C36_bounds_refuted",
    "C36_binary",
    "C36_ternary_partial",
    "C36_ternary_refuted"
   ],
   "note": "frequent patterns and one-gap patterns exact; two-gap patterns exact for single-word patterns, refuted in general; last run and bounds refuted"
  },
  {
   "property": "C37",
   "status": "proved",
   "theorems": [
    "C37_target",
    "C37_source",
    "C37_arity",
    "C37_words",
    "C37_arity_refuted",
    "C37_derivation",
    "C37_mono",
    "C37_check_refuted"
   ],
   "note": "Substitution on both sides, arity and word counts, derivations (target and source sentences, predicted length), monolingual rules. Refuted: 128 variables give a negative arity; the final check misses a repeated variable."
  },
  {
   "property": "C38",
   "status": "proved",
   "theorems": [
    "C38_distance",
    "C38_reachable",
    "C38_sentence",
    "C38_self_refuted",
    "C38_recompute_refuted"
   ],
   "note": "Walks are the specification; [reachable] j gets the least number of arcs, an unreachable one that of the next reachable position. Recomputing on a used Lattice and Distance(i,i) are refuted."
  },
  {
   "property": "C39",
   "status": "proved",
   "theorems": [
    "C39_word",
    "C39_empty_word_refuted",
    "C39_uninitialised_refuted",
    "C39_parse",
    "C39_round_trip",
    "C39_cost_refuted",
    "C39_empty_lattice_refuted",
    "C39_recognised",
    "C39_recognised_refuted"
   ],
   "note": "Grammar of the format is the specification; numbers are abstract (a token, its value, its truncation to a link length). Refuted: empty words, Escape before the first AsPLF, costs after a second writing, the empty lattice, lattices whose first position has no link are not recognised."
  },
  {
   "property": "C40",
   "status": "proved",
   "theorems": [
    "C40_roundtrip",
    "C40_transport",
    "C40_transport_refuted",
    "C40_length_refuted",
    "C40_million_refuted"
   ],
   "note": "Whole-number statistics; %g printing and >> parsing modelled; three refutations outside the stated conditions."
  },
  {
   "property": "C41",
   "status": "proved",
   "theorems": [
    "C41_score",
    "C41_extra_line_refuted"
   ],
   "note": "Reals: standard library axioms of the reals. Out of bounds read in fast_score.cc shown as C41_extra_line_refuted."
  },
  {
   "property": "C42",
   "status": "proved",
   "theorems": [
    "C42_arith",
    "C42_identity",
    "C42_order",
    "C42_equality",
    "C42_equality_refuted"
   ],
   "note": "Rational arithmetic for float. Equality distinguishes sizes: C42_equality_refuted."
  },
  {
   "property": "C43",
   "status": "proved",
   "theorems": [
    "C43_surface",
    "C43_empty_refuted"
   ],
   "note": "Composition of Inside over hulls (C22) and ComputeErrorSurface. C43_empty_refuted: an empty leftmost translation loses its statistics."
  },
  {
   "property": "C44",
   "status": "proved",
   "theorems": [
    "C44_line",
    "C44_epsilon_refuted",
    "C44_epsilon_missed_refuted",
    "C44_left_refuted"
   ],
   "note": "Exact rational arithmetic; epsilon > 0 merging refuted twice; missing left boundary refuted."
  },
  {
   "property": "C45",
   "status": "proved",
   "theorems": [
    "C45_mert"
   ],
   "note": "Under the hypotheses of C43 and C44; ties are resolved by some choice of best translations."
  },
  {
   "property": "C46",
   "status": "proved",
   "theorems": [
    "C46_distance",
    "C46_wer",
    "C46_cer",
    "C46_cer_lost",
    "C46_cer_refuted"
   ],
   "note": "distance and WER for all inputs; CER only when some reference is nearer than the hypothesis length (C46_cer), otherwise the segment counts 0 errors and 0 characters (C46_cer_lost, C46_cer_refuted)"
  },
  {
   "property": "C47",
   "status": "proved",
   "theorems": [
    "C47_other_program",
    "C47_round_trip",
    "C47_long",
    "C47_alignment_refuted",
    "C47_lhs_refuted"
   ],
   "note": "Round trip in the same and in another program; longer rules cannot be written. Refuted: the word alignment is lost; a rule without left-hand side comes back with one. The archive is the sequence of values written; boost's binary encoding of them is not modelled."
  },
  {
   "property": "C48",
   "status": "proved",
   "theorems": [
    "C48_parse",
    "C48_any_grammar",
    "C48_sentence_spans",
    "C48_goal_unary_refuted",
    "C48_span_refuted",
    "C48_goal_lhs_refuted",
    "C48_unary_span_refuted"
   ],
   "note": "Hypotheses are needed: refuted without them are unary rules which rewrite the goal category, span limits on lattices (not closed under prefixes), and grammar rules for [Goal]; unary rules are used at spans their grammar does not allow."
  },
  {
   "property": "C49",
   "status": "proved",
   "theorems": [
    "C49_score",
    "C49_assert",
    "C49_explicit",
    "C49_explicit_any",
    "C49_inner_sos_refuted",
    "C49_empty_constituent_refuted",
    "C49_eos_backoff_refuted"
   ],
   "note": "Chart scoring, all bracketings and rest costs. Floats are exact (no rounding of sums), hash collisions not modelled. Findings, refuted separately: a second <s> inside a rule is not penalised; an empty constituent before <s> costs a false penalty; with back-off weights on n-grams ending in </s> the explicit-marker score depends on the bracketing."
  },
  {
   "property": "C50",
   "status": "proved",
   "theorems": [
    "C50_sentence",
    "C50_fragment",
    "C50_no_state",
    "C50_get_state",
    "C50_state_unique"
   ],
   "note": "Hashed search; floats exact."
  },
  {
   "property": "C51",
   "status": "proved",
   "theorems": [
    "C51_load"
   ],
   "note": "Strings are dictionary ids here; distinct ids for <unk>, <s>, </s>."
  },
  {
   "property": "C52",
   "status": "proved",
   "theorems": [
    "C52_defined",
    "C52_accepts",
    "C52_checks",
    "C52_contexts",
    "C52_built",
    "C52_score",
    "C52_sentence",
    "C52_marks",
    "C52_ordinary",
    "C52_positive_blank_refuted",
    "C52_line_order_refuted",
    "C52_missing_unk_refuted",
    "C52_last_rest_refuted"
   ],
   "note": "The text of the file is given as its lines (tokenising and number parsing not modelled); floats are sign and magnitude with exact sums; hashes are taken to be injective. Findings: blanks with a positive Katz score change sign; acceptance depends on line order; n-grams ending in <unk> are unusable if <unk> has no line, and the last rest cost stays unset."
  },
  {
   "property": "C53",
   "status": "proved",
   "theorems": [
    "C53_prune",
    "C53_stranded_refuted"
   ],
   "note": "Without the reachability check edges can be stranded: C53_stranded_refuted shows what the header warns about."
  },
  {
   "property": "C54",
   "status": "proved",
   "theorems": [
    "C54_beam",
    "C54_within",
    "C54_not_worse",
    "C54_connected",
    "C54_density",
    "C54_both",
    "C54_large_refuted",
    "C54_unordered_refuted",
    "C54_ties_refuted",
    "C54_zero_refuted"
   ],
   "note": "Viterbi mode, exact log-probabilities. The qualifications in the statement are necessary: C54_large_refuted (more than a million edges), C54_unordered_refuted (edge order), C54_ties_refuted and C54_zero_refuted (density)."
  },
  {
   "property": "C55",
   "status": "proved",
   "theorems": [
    "C55_normaliser",
    "C55_diagonal",
    "C55_uniform",
    "C55_value",
    "C55_closer",
    "C55_no_null_refuted"
   ],
   "note": "Finding: with --no_null_word the diagonal prior sums to 1-p0 (C55_no_null_refuted)."
  },
  {
   "property": "C56",
   "status": "partial",
   "theorems": [
    "C56_gradient_partial",
    "C56_square_partial",
    "C56_gradient_refuted",
    "C56_feature_refuted",
    "C56_range"
   ],
   "note": "The gradient is right only for equal lengths (C56_gradient_partial gives the factor by which it is off otherwise); refuted in general, and so is the use of the same feature on both sides."
  },
  {
   "property": "C57",
   "status": "proved",
   "theorems": [
    "C57_fails",
    "C57_likelihood",
    "C57_rises",
    "C57_table"
   ],
   "note": "Exact reals in place of doubles; sentence pairs are lists of word ids."
  },
  {
   "property": "C58",
   "status": "proved",
   "theorems": [
    "C58_best",
    "C58_test",
    "C58_written",
    "C58_overrun_refuted"
   ],
   "note": "Finding: writing the parameters can read s2t_viterbi behind its end (C58_overrun_refuted)."
  },
  {
   "property": "C59",
   "status": "proved",
   "theorems": [
    "C59_sound",
    "C59_links",
    "C59_stray_refuted"
   ],
   "note": "Out-of-bounds reads at sentence boundaries yield an arbitrary value in the theorem and are shown by C59_stray_refuted."
  },
  {
   "property": "C60",
   "status": "proved",
   "theorems": [
    "C60_exact",
    "C60_three_refuted"
   ],
   "note": "Phrases with at most two gaps, the limit of the default options; with three gaps the claim is false (C60_three_refuted)."
  },
  {
   "property": "C61",
   "status": "proved",
   "theorems": [
    "C61_counts",
    "C61_source",
    "C61_shared",
    "C61_scores",
    "C61_singleton",
    "C61_loose_refuted"
   ],
   "note": "Without tight phrases the bound by the number of samples is false (C61_loose_refuted)."
  },
  {
   "property": "C62",
   "status": "proved",
   "theorems": [
    "C62_expectation_semiring",
    "C62_inside_outside",
    "C62_partition_gradient",
    "C62_duplicate_tail_refuted"
   ],
   "note": "Over exact reals; the inside-outside shortcut needs distinct tails (refuted otherwise: it then disagrees with the semiring)."
  },
  {
   "property": "C63",
   "status": "partial",
   "theorems": [
    "C63_likelihood",
    "C63_prior_partial",
    "C63_prior_at_zero_refuted"
   ],
   "note": "Likelihood and gradient proved; the prior is right unless a weight is exactly zero while its mean is not (refuted: the term is skipped)."
  },
  {
   "property": "C64",
   "status": "proved",
   "theorems": [
    "C64_risk",
    "C64_entropy",
    "C64_entropy_gradient_refuted",
    "C64_minrisk"
   ],
   "note": "Over exact reals. The entropy's own vector has the opposite sign of its documentation (refuted), which the minimum risk objective compensates."
  },
  {
   "property": "C65",
   "status": "partial",
   "theorems": [
    "C65_pro_partial",
    "C65_heldout",
    "C65_heldout_refuted"
   ],
   "note": "Proved without held-out examples; with them the gradient of the held-out loss is added by mistake (C65_heldout gives exactly what is computed; refuted as a gradient of the value)."
  },
  {
   "property": "C66",
   "status": "proved",
   "theorems": [
    "C66_sample",
    "C66_free",
    "C66_inside",
    "C66_stray_refuted"
   ],
   "note": "For any value read past the end of the sentence id array; that such a read happens is C66_stray_refuted. Doubles are exact rationals."
  },
  {
   "property": "C67",
   "status": "proved",
   "theorems": [
    "C67_intersect"
   ],
   "note": "PhraseBuilder and the arity/chunk accessors as in C59; precomputed index taken as a correct partial map."
  },
  {
   "property": "C68",
   "status": "proved",
   "theorems": [
    "C68_grammar"
   ],
   "note": "Locations as passed to the sampler; sampling, extraction and scoring of the rules are C66, C59-C61."
  },
  {
   "property": "C69",
   "status": "proved",
   "theorems": [
    "C69_reference",
    "C69_deletion_refuted",
    "C69_lattice_refuted",
    "C69_annotations_refuted"
   ],
   "note": "General case; refuted outside the hypotheses: rules with an empty target side, lattices of single arcs that skip positions; the option that removes annotations breaks reordering rules."
  },
  {
   "property": "C70",
   "status": "proved",
   "theorems": [
    "C70_linear",
    "C70_shared_refuted"
   ],
   "note": "The exact behaviour for shared rule objects is part of the theorem; the expected exchange is refuted for them."
  },
  {
   "property": "C71",
   "status": "proved",
   "theorems": [
    "C71_tagger",
    "C71_reference",
    "C71_short_refuted",
    "C71_empty_refuted"
   ],
   "note": "Refuted: empty input lines, references shorter than the input."
  },
  {
   "property": "C72",
   "status": "proved",
   "theorems": [
    "C72_lextrans",
    "C72_reference",
    "C72_lexalign"
   ],
   "note": "Dynasearch and all_sources_to_all_targets are not modelled."
  },
  {
   "property": "C73",
   "status": "proved",
   "theorems": [
    "C73_sample",
    "C73_words_refuted"
   ],
   "note": "Weights are exact rationals, not floating-point log values; the random numbers are any list in [0,1]. The words are proved for derivations that expand each node in one way; for the others C73_words_refuted shows they are wrong."
  },
  {
   "property": "C74",
   "status": "proved",
   "theorems": [
    "C74_union",
    "C74_same",
    "C74_refused",
    "C74_cycle_refuted"
   ],
   "note": "The comparison of features (no difference above 1e-6) is a parameter. Edges added lose their probability (the caller has to reweight), which the statement shows. C74_cycle_refuted: two acyclic forests can make the program abort."
  },
  {
   "property": "C75",
   "status": "proved",
   "theorems": [
    "C75_sentence",
    "C75_lattice",
    "C75_lattice_refuted"
   ],
   "note": "Derivations are exactly the coverings for sentences; sound and successful exactly when possible for lattices. Finding: on lattices the node of a coverage reached from the left edge is overwritten, derivations are lost (C75_lattice_refuted)."
  },
  {
   "property": "C76",
   "status": "proved",
   "theorems": [
    "C76_lines",
    "C76_lines_refuted"
   ],
   "note": "Finding: without the proviso on the table, clearing deletes longer phrases (C76_lines_refuted)."
  },
  {
   "property": "C77",
   "status": "proved",
   "theorems": [
    "C77_alias",
    "C77_zero_refuted",
    "C77_normalised_refuted"
   ],
   "note": "Random numbers are exact rationals. Findings: an outcome of probability zero is returned if the second random number is exactly 0; weights summing to less than 1 can give UINT_MAX."
  },
  {
   "property": "C78",
   "status": "proved",
   "theorems": [
    "C78_kernel",
    "C78_similarity",
    "C78_metric"
   ],
   "note": "Over the reals (classical axioms of the standard library's reals listed)."
  },
  {
   "property": "C79",
   "status": "proved",
   "theorems": [
    "C79_sentence",
    "C79_corpus"
   ],
   "note": "Exact arithmetic instead of float; counts do not overflow."
  },
  {
   "property": "C80",
   "status": "proved",
   "theorems": [
    "C80_characters",
    "C80_splittings",
    "C80_stem_refuted"
   ],
   "note": "TD::Convert is any injective numbering. Finding: stems are measured in bytes, pieces in characters."
  },
  {
   "property": "C81",
   "status": "proved",
   "theorems": [
    "C81_shrunk",
    "C81_frozen",
    "C81_unpenalised",
    "C81_standard_rate",
    "C81_exponential_rate",
    "C81_standard_passes",
    "C81_exponential_passes",
    "C81_new_epoch_refuted"
   ],
   "note": "Over the reals; within an epoch. The start of a further epoch is refuted (finding)."
  },
  {
   "property": "C82",
   "status": "proved",
   "theorems": [
    "C82_steps",
    "C82_signs",
    "C82_independent",
    "C82_straight",
    "C82_turn",
    "C82_zero_derivative_refuted"
   ],
   "note": "Over the reals; the convergence test and serialisation are not modelled. Zero derivatives: finding."
  },
  {
   "property": "C83",
   "status": "proved",
   "theorems": [
    "C83_all",
    "C83_all_limit",
    "C83_pro",
    "C83_pro_sound",
    "C83_xyx_sound",
    "C83_xyx_top",
    "C83_xyx_short_refuted",
    "C83_xyx_middle_refuted",
    "C83_xyx_limit_refuted",
    "C83_pro_equal_refuted"
   ],
   "note": "std::sort is any permutation in falling order. Findings: XYX reads past short lists, never compares middle with low, exceeds the limit; PRO with threshold 0 gives ties."
  },
  {
   "property": "C84",
   "status": "proved",
   "theorems": [
    "C84_counts",
    "C84_bleu",
    "C84_bleu_range",
    "C84_stupid",
    "C84_smooth",
    "C84_sum",
    "C84_approx",
    "C84_linear_reference_refuted",
    "C84_linear_short_refuted"
   ],
   "note": "The counts are exact for all sentences; ranges, normalisation and the geometric mean are proved over the reals. Two findings: the linear corpus score does not look at the words of the reference, and reads missing counts for references shorter than N."
  },
  {
   "property": "C85",
   "status": "proved",
   "theorems": [
    "C85_step",
    "C85_margin",
    "C85_average",
    "C85_final_refuted",
    "C85_pass_start_refuted",
    "C85_samples_refuted"
   ],
   "note": "Proved for all iterations but the first of each later pass, where it is refuted (the averaged weights are used); two more findings: the file of final weights holds an average, and sampling with an error metric compares scores of opposite sign."
  },
  {
   "property": "C86",
   "status": "proved",
   "theorems": [
    "C86_step",
    "C86_round",
    "C86_bound",
    "C86_stop",
    "C86_passive_aggressive",
    "C86_rounds_refuted",
    "C86_fear_refuted",
    "C86_no_reweight_refuted",
    "C86_nbest_refuted"
   ],
   "note": "Over the reals, for one oracle and one round; findings: the multipliers are set back in every cutting-plane round while the weights are kept, --fear other than 1 and --no_reweight with the default list size learn nothing, --optimizer 5 reads a null pointer."
  },
  {
   "property": "C87",
   "status": "proved",
   "theorems": [
    "C87_lines",
    "C87_pairs",
    "C87_kept",
    "C87_progress",
    "C87_single_refuted"
   ],
   "note": "Over the reals, for all draws, with what is kept of the pairs drawn; finding: a sentence with one candidate makes the mapper loop for ever."
  },
  {
   "property": "C88",
   "status": "proved",
   "theorems": [
    "C88_file",
    "C88_empty_refuted",
    "C88_null_refuted"
   ],
   "note": "Numbers up to what printing loses; findings: a candidate without features makes the file unreadable, statistics without a metric come back as those of NULL."
  },
  {
   "property": "C89",
   "status": "proved",
   "theorems": [
    "C89_kept",
    "C89_identical",
    "C89_near",
    "C89_hash_refuted",
    "C89_round_refuted"
   ],
   "note": "For any hash; findings: the hash is not consistent with the comparison, the mask of the rounding lets one bit through."
  },
  {
   "property": "C90",
   "status": "proved",
   "theorems": [
    "C90_decode",
    "C90_same",
    "C90_pairs",
    "C90_safe",
    "C90_unchanged",
    "C90_room",
    "C90_plus_refuted"
   ],
   "note": "Characters are numbers, strings hold no NUL; finding: '+' is not escaped though it stands for a space."
  },
  {
   "property": "C91",
   "status": "proved",
   "theorems": [
    "C91_read",
    "C91_over",
    "C91_string",
    "C91_sparse",
    "C91_equals_refuted",
    "C91_hash_refuted",
    "C91_zero_refuted",
    "C91_short_refuted",
    "C91_unknown_refuted",
    "C91_escaped"
   ],
   "note": "Text format; printing of numbers left open (reading back what was printed with 17 digits gives the number). Findings: names with '=' and names beginning with '#' are misread, files shorter than five characters stop the program, a new feature in UpdateFromString is written outside of the vector."
  },
  {
   "property": "C92",
   "status": "proved",
   "theorems": [
    "C92_read",
    "C92_id_refuted",
    "C92_empty_refuted",
    "C92_ended_refuted",
    "C92_best",
    "C92_roles_refuted",
    "C92_wer_refuted"
   ],
   "note": "Log probabilities are reals; findings: the sentence id is that of the sentence before for a sentence with one candidate, an empty translation in the cache is lost, a file which ends early gives an empty candidate, the roles of reference and hypothesis are exchanged, WER and CER are not taken for errors."
  },
  {
   "property": "C93",
   "status": "proved",
   "theorems": [
    "C93_score",
    "C93_plus",
    "C93_codec",
    "C93_codec_refuted"
   ],
   "note": "Over the reals; for metrics whose statistics have the size they announce (not the external METEOR). Finding: the length of the first part of an encoded score is one signed char."
  },
  {
   "property": "C94",
   "status": "proved",
   "theorems": [
    "C94_features",
    "C94_counts",
    "C94_explicit",
    "C94_sos_refuted",
    "C94_no_marker_refuted",
    "C94_second_sos_refuted",
    "C94_empty_refuted",
    "C94_order_refuted"
   ],
   "note": "For well-marked sentences. <s> takes part with order 2 only (C94_sos_refuted); what happens to badly marked sentences is covered by findings. Whether unused bytes of the state are initialised is not modelled."
  },
  {
   "property": "C95",
   "status": "proved",
   "theorems": [
    "C95_bigrams",
    "C95_pairs",
    "C95_outputs",
    "C95_names",
    "C95_one_word_refuted",
    "C95_bos_refuted",
    "C95_names_refuted",
    "C95_twice_refuted"
   ],
   "note": "for inputs of two or more words and readable tags; one-word inputs, tags called BOS and separators within tags are refuted separately"
  },
  {
   "property": "C96",
   "status": "proved",
   "theorems": [
    "C96_alone",
    "C96_rules",
    "C96_order",
    "C96_merge"
   ],
   "note": "Feature functions which write outside their part of the state are not covered (ff.h warns of them); estimates of the cost are left out."
  },
  {
   "property": "C97",
   "status": "proved",
   "theorems": [
    "C97_words",
    "C97_source",
    "C97_arity",
    "C97_wordset",
    "C97_oov",
    "C97_oov_refuted",
    "C97_shared_refuted"
   ],
   "note": "WordSet with --oov counts variables as unknown words (C97_oov_refuted, exact count in C97_oov); two functions with one feature name replace each other (C97_shared_refuted)."
  },
  {
   "property": "C98",
   "status": "proved",
   "theorems": [
    "C98_table",
    "C98_sums",
    "C98_source_given_target",
    "C98_target_given_source"
   ],
   "note": "Exact for all corpora with links in range; probabilities are rationals, the code has floats; log10 is the real function."
  },
  {
   "property": "C99",
   "status": "proved",
   "theorems": [
    "C99_source",
    "C99_target",
    "C99_identity",
    "C99_frozen_refuted",
    "C99_identity_refuted",
    "C99_mark_refuted"
   ],
   "note": "For dictionaries which are not frozen and rules with plain symbols; the cases outside are refuted with witnesses."
  },
  {
   "property": "C100",
   "status": "proved",
   "theorems": [
    "C100_read",
    "C100_print",
    "C100_walk",
    "C100_unclosed_refuted",
    "C100_counts_refuted"
   ],
   "note": "Without the limits of unsigned short and short (node and word numbers); two findings: unclosed brackets, uninitialised counts."
  },
  {
   "property": "C101",
   "status": "proved",
   "theorems": [
    "C101_edges",
    "C101_ranked",
    "C101_pass_through",
    "C101_structure_refuted",
    "C101_no_label_refuted"
   ],
   "note": "Proved for all trees and grammars: the edges of the composition are exactly those of the rules whose fragment has the walk of a part of the tree; exact matching for ranked labels; pass-through rules always give a translation. Findings (refuted): the trie does not distinguish (S (NP a) b) from (S (NP a b)); a node with an empty label has no working pass-through rule."
  },
  {
   "property": "C102",
   "status": "proved",
   "theorems": [
    "C102_grammar",
    "C102_categories",
    "C102_binary",
    "C102_three_refuted"
   ],
   "note": "Forests whose rules exchange variables at most in pairs; refuted for cyclic reorderings of three variables (finding). The text of the rules is C37's."
  },
  {
   "property": "C103",
   "status": "proved",
   "theorems": [
    "C103_shapes",
    "C103_feature",
    "C103_same",
    "C103_too_many",
    "C103_source_classes",
    "C103_target_classes",
    "C103_both_classes",
    "C103_read",
    "C103_names",
    "C103_order_refuted"
   ],
   "note": "Rules with at most two variables per side (others stop the program, proved); with classes for both sides only if no earlier rule has the same run of classes divided elsewhere (refuted otherwise, finding). The dictionary of features takes every name."
  },
  {
   "property": "C104",
   "status": "proved",
   "theorems": [
    "C104_words",
    "C104_pairs",
    "C104_pairs_refuted",
    "C104_letters",
    "C104_endless_refuted",
    "C104_reorder",
    "C104_none",
    "C104_span_refuted"
   ],
   "note": "Pairs only for derivations whose variables come first or stand for single words (refuted otherwise); spans up to 15 (refuted beyond); words whose first non-ASCII byte begins a character (endless loop otherwise, proved). Span size bins, a floating point logarithm, are a parameter."
  },
  {
   "property": "C105",
   "status": "proved",
   "theorems": [
    "C105_feature",
    "C105_filled",
    "C105_refused",
    "C105_none",
    "C105_span",
    "C105_ten_refuted",
    "C105_twice_refuted",
    "C105_percent_refuted"
   ],
   "note": "Proved for templates whose places are recognised and which have one label macro; the features of other templates are described by three refutations. Options before the template are not modelled; places are integers without bounds."
  },
  {
   "property": "C106",
   "status": "proved",
   "theorems": [
    "C106_labels",
    "C106_length",
    "C106_distance_zero",
    "C106_distance",
    "C106_binary",
    "C106_linear",
    "C106_value",
    "C106_relative_refuted",
    "C106_single_refuted",
    "C106_mixed_refuted"
   ],
   "note": "Proved for trees in which the constituents of a constituent come before its words; relative scoring, single words and other trees are described by three refutations. Exponential scoring and the reading of the file are not modelled."
  },
  {
   "property": "C107",
   "status": "proved",
   "theorems": [
    "C107_line",
    "C107_line_one",
    "C107_both",
    "C107_one",
    "C107_refused",
    "C107_shares",
    "C107_share"
   ],
   "note": "Opening of the file and the conversion of a line to words (C01) are not part of the model; the pointer to the source lines is taken to be not null, as the code uses it without a check."
  },
  {
   "property": "C108",
   "status": "proved",
   "theorems": [
    "C108_words",
    "C108_tokens",
    "C108_command",
    "C108_command_none",
    "C108_trim",
    "C108_trim_all",
    "C108_input",
    "C108_input_rules",
    "C108_input_only",
    "C108_no_reference_refuted",
    "C108_no_source_refuted",
    "C108_no_blank_refuted",
    "C108_zero_refuted"
   ],
   "note": "Proved for the functions named; other forms of input lines are described by refutations. VisitTokens and the counting of substrings are not part of this model."
  },
  {
   "property": "C109",
   "status": "proved",
   "theorems": [
    "C109_read_back",
    "C109_plain",
    "C109_unquoted_refuted",
    "C109_value_refuted",
    "C109_greater_refuted"
   ],
   "note": "Proved for tags as the writer makes them with the letters named; refutations describe unquoted attributes and values with = or >. Assignments to the attribute map are modelled as a list in order."
  }
 ]
}