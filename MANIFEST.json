{
 "claims": [
  {
   "property": "C01",
   "status": "proved",
   "theorems": [
    "C01_quote_roundtrip",
    "C01_psi_quoter_roundtrip",
    "C01_quoted_letter_n_refuted"
   ],
   "note": "Quotation symbols n, t, r and the escape character itself as a quoted symbol are excluded; the refuted theorem gives the counterexample for n."
  },
  {
   "property": "C02",
   "status": "proved",
   "theorems": [
    "C02_escaped_has_no_separator",
    "C02_special_always_quoted"
   ],
   "note": ""
  },
  {
   "property": "C03",
   "status": "proved",
   "theorems": [
    "C03_isEscaped_parity"
   ],
   "note": ""
  },
  {
   "property": "C04",
   "status": "proved",
   "theorems": [
    "C04_append_next",
    "C04_append_rejects",
    "C04_next_sound"
   ],
   "note": ""
  },
  {
   "property": "C05",
   "status": "proved",
   "theorems": [
    "C05_is_valid_iff_well_formed",
    "C05_find_invalid_longest_prefix",
    "C05_distance",
    "C05_decoding_unique"
   ],
   "note": ""
  },
  {
   "property": "C06",
   "status": "proved",
   "theorems": [
    "C06_replace_invalid",
    "C06_well_formed_unchanged"
   ],
   "note": "For output through an appending iterator, the only way psi-toolkit calls it."
  },
  {
   "property": "C07",
   "status": "proved",
   "theorems": [
    "C07_prior_inverts_next",
    "C07_backward_iteration"
   ],
   "note": ""
  },
  {
   "property": "C08",
   "status": "proved",
   "theorems": [
    "C08_utf8_utf16_roundtrip"
   ],
   "note": ""
  },
  {
   "property": "C09",
   "status": "proved",
   "theorems": [
    "C09_created",
    "C09_kept",
    "C09_union",
    "C09_intersection",
    "C09_subset",
    "C09_equal",
    "C09_empty",
    "C09_matches",
    "C09_matches_const",
    "C09_monotone",
    "C09_planes",
    "C09_is_there",
    "C09_mask_spec",
    "C09_collection_spec",
    "C09_empty_spec_refuted",
    "C09_mask_equal",
    "C09_implicit_symbol",
    "C09_implicit_symbol_refuted",
    "C09_is_none_refuted",
    "C09_less_refuted"
   ],
   "note": ""
  },
  {
   "property": "C10",
   "status": "proved",
   "theorems": [
    "C10_stable",
    "C10_names",
    "C10_capacity",
    "C10_capacity_refuted"
   ],
   "note": ""
  },
  {
   "property": "C11",
   "status": "proved",
   "theorems": [
    "C11_history",
    "C11_capacity",
    "C11_equivalence",
    "C11_hash",
    "C11_equal",
    "C11_text_back",
    "C11_equal_refuted",
    "C11_equal_null_refuted",
    "C11_text_refuted"
   ],
   "note": ""
  },
  {
   "property": "C12",
   "status": "proved",
   "theorems": [
    "C12_returned_edge",
    "C12_incoming",
    "C12_symbol_item_refuted",
    "C12_inside_character_refuted"
   ],
   "note": "Proved for every lattice a program can build (any sequence of calls, also throwing ones). Two refutations: a symbol edge does not keep the item given to addEdge, and an edge ending inside a character is not listed among the in-edges."
  },
  {
   "property": "C13",
   "status": "proved",
   "theorems": [
    "C13_edges_stay",
    "C13_careful",
    "C13_append",
    "C13_ill_formed_text_refuted"
   ],
   "note": "Every call keeps every edge with its ends, item, partitions and tags; for careful programs also no call loses an edge. Refuted for ill-formed UTF-8: a failing addEdge removes an implicit symbol edge."
  },
  {
   "property": "C14",
   "status": "proved",
   "theorems": [
    "C14_merged",
    "C14_kept_apart",
    "C14_given_tags",
    "C14_one_character_refuted",
    "C14_discard_symbol_refuted",
    "C14_discard"
   ],
   "note": "C14_merged and C14_kept_apart cover all edges except those over exactly one character without plane tags; refuted there (duplicates are stored)."
  },
  {
   "property": "C15",
   "status": "proved",
   "theorems": [
    "C15_forward",
    "C15_refused",
    "C15_refused_edges",
    "C15_boundaries",
    "C15_ill_formed_text_refuted"
   ],
   "note": "An inadmissible call leaves text, edges and symbol edges unchanged; refuted for ill-formed UTF-8 text."
  },
  {
   "property": "C16",
   "status": "proved",
   "theorems": [
    "C16_append",
    "C16_path",
    "C16_ends",
    "C16_symbol_tag_refuted",
    "C16_best_refuted",
    "C16_endless_refuted"
   ],
   "note": "Progress of appending and the walk over symbol edges for every program that only annotates otherwise; refuted: extra symbol-tagged edges, 'best' edge as documented, termination with cycles."
  },
  {
   "property": "C17",
   "status": "proved",
   "theorems": [
    "C17_out",
    "C17_in",
    "C17_exact",
    "C17_first_query",
    "C17_stale_index_refuted",
    "C17_discarded_refuted",
    "C17_empty_alternative_refuted"
   ],
   "note": "The answer is exact for a first query and when no edge matches the mask only because of a later merge; in general it is an ordered part of the matching edges which contains all edges that matched when made. Refuted as claimed: stale index after a merge, discarded edges are listed, empty alternative."
  },
  {
   "property": "C18",
   "status": "proved",
   "theorems": [
    "C18_isAllowed_spec",
    "C18_limit_exists",
    "C18_queries_do_not_matter"
   ],
   "note": ""
  },
  {
   "property": "C19",
   "status": "proved",
   "theorems": [
    "C19_levenshtein_minimal",
    "C19_levenshtein_metric",
    "C19_most_similar"
   ],
   "note": ""
  },
  {
   "property": "C20",
   "status": "proved",
   "theorems": [
    "C20_segment_glob",
    "C20_non_ascii_refuted"
   ],
   "note": ""
  },
  {
   "property": "C21",
   "status": "proved",
   "theorems": [
    "C21_fragments",
    "C21_fragments_utf8",
    "C21_run",
    "C21_run_utf8",
    "C21_small_hard_limit_refuted"
   ],
   "note": ""
  },
  {
   "property": "C22",
   "status": "proved",
   "theorems": [
    "C22_monotonic_vector",
    "C22_small_steps_need_no_rests"
   ],
   "note": ""
  },
  {
   "property": "C23",
   "status": "proved",
   "theorems": [
    "C23_at",
    "C23_find_sorted",
    "C23_find_unsorted",
    "C23_find_unsorted_non_ascii_refuted",
    "C23_find_absent_refuted"
   ],
   "note": ""
  },
  {
   "property": "C24",
   "status": "proved",
   "theorems": [
    "C24_kl_roundtrip",
    "C24_kl_meaning",
    "C24_long_refuted",
    "C24_nul_refuted"
   ],
   "note": ""
  },
  {
   "property": "C25",
   "status": "proved",
   "theorems": [
    "C25_varint_roundtrip",
    "C25_varint_stream",
    "C25_varint_sum",
    "C25_simple9_roundtrip",
    "C25_simple9_zero_refuted"
   ],
   "note": ""
  },
  {
   "property": "C26",
   "status": "proved",
   "theorems": [
    "C26_lossless",
    "C26_seek",
    "C26_prefix_free",
    "C26_complete",
    "C26_optimal",
    "C26_shallow",
    "C26_end_refuted"
   ],
   "note": "Heap functions enter through the standard's contract (heap_ops); C26_shallow discharges the 64-bit side condition for tables of fewer than 4*10^13 occurrences. C26_optimal: the code is optimal among all prefix-free codes."
  },
  {
   "property": "C27",
   "status": "proved",
   "theorems": [
    "C27_recognises_what_was_added",
    "C27_reads_back",
    "C27_second_arc_refuted"
   ],
   "note": "The packed array is shown to refine a list of states for every legal construction history; with two arcs for one state and symbol only one is followed (refuted form)."
  },
  {
   "property": "C28",
   "status": "proved",
   "theorems": [
    "C28_accepts_exactly_and_minimal",
    "C28_no_words_refuted",
    "C28_unsorted_refuted"
   ],
   "note": "Proved for all sorted word lists (repetitions allowed) with a nonempty word and fewer than 2^31 letters, including that no deterministic automaton for the words is smaller; empty list and the list of the empty word reach undefined behaviour (refuted form)."
  },
  {
   "property": "C29",
   "status": "proved",
   "theorems": [
    "C29_calls_keep_the_form",
    "C29_word",
    "C29_unify",
    "C29_concatenate",
    "C29_concatenate_to_empty",
    "C29_concatenate_refuted",
    "C29_kleene_plus",
    "C29_kleene_option",
    "C29_kleene_star",
    "C29_option_and_star_refuted",
    "C29_reverse",
    "C29_prune"
   ],
   "note": "unify, concatenate (if the first automaton has an end state; otherwise exactly the second language), kleene_plus, reverse and prune are exact; kleene_option is shown to accept exactly the old language and kleene_star the positive closure, against their documentation."
  },
  {
   "property": "C30",
   "status": "proved",
   "theorems": [
    "C30_eps_remove",
    "C30_determinize",
    "C30_determinize_keeps_epsilon_refuted",
    "C30_in",
    "C30_in_epsilon_refuted",
    "C30_dfsa_in"
   ],
   "note": "Language preservation holds for every automaton; determinize yields no epsilon arcs only when its argument has none (refuted otherwise). NDFSA::in and DFSA::in decide acceptance for epsilon-free automata."
  },
  {
   "property": "C31",
   "status": "proved",
   "theorems": [
    "C31_get_returns_the_values",
    "C31_empty_value_refuted",
    "C31_any_byte_refuted"
   ],
   "note": "createFromSeparatedLines and get: exactly the nonempty values stored behind the key whose line is at most 10000 bytes long, each once, sorted; refutations for empty values and byte 254."
  },
  {
   "property": "C32",
   "status": "proved",
   "theorems": [
    "C32_numbers_the_words_in_order",
    "C32_bijection",
    "C32_empty_word_refuted",
    "C32_foreign_word_refuted"
   ],
   "note": "HashFSA over any sorted, closed, acyclic automaton: the i-th word in lexicographic order hashes to i and unhash i returns it; refutations for the empty word and for words outside the language."
  },
  {
   "property": "C33",
   "status": "proved",
   "theorems": [
    "C33_packets",
    "C33_same_stream",
    "C33_consumed"
   ],
   "note": ""
  },
  {
   "property": "C34",
   "status": "proved",
   "theorems": [
    "C34_no_body",
    "C34_post",
    "C34_multipart",
    "C34_sound",
    "C34_multipart_refuted",
    "C34_line_break_refuted",
    "C34_empty_form_refuted"
   ],
   "note": ""
  },
  {
   "property": "C35",
   "status": "proved",
   "theorems": [
    "C35_decode",
    "C35_decode_browser",
    "C35_malformed_refuted",
    "C35_path",
    "C35_served"
   ],
   "note": ""
  },
  {
   "property": "C36",
   "status": "proved",
   "theorems": [
    "C36_cookie",
    "C36_cookie_roundtrip",
    "C36_isolated",
    "C36_threads_refuted",
    "C36_cookie_throws_refuted",
    "C36_number_wraps_refuted"
   ],
   "note": ""
  },
  {
   "property": "C37",
   "status": "proved",
   "theorems": [
    "C37_chunks",
    "C37_content",
    "C37_text",
    "C37_text_refuted",
    "C37_nul_refuted",
    "C37_type_refuted",
    "C37_name_refuted"
   ],
   "note": "Fields, file names, types and file contents do not depend on the partition, and are exactly the bytes of the part, for every body built of well-formed parts. Text fields: proved for a body that arrives in one piece; refuted for a split body (C37_text_refuted) because Field::AcceptSomeData overwrites earlier pieces."
  },
  {
   "property": "C38",
   "status": "proved",
   "theorems": [
    "C38_sound",
    "C38_complete",
    "C38_ends",
    "C38_order_refuted",
    "C38_merged_refuted",
    "C38_new_edges_refuted"
   ],
   "note": "Parser over the lattice model, for any grammar, any agenda (a choice function), with blanks skipped as in chart.tpl. Soundness for every run; completeness for runs that empty the agenda under stated conditions on blanks, earlier edges and limits; termination for finitely many categories. Refuted: independence of the agenda with two blanks in a row, completeness when a rule's item is that of an edge outside the input, no duplicate edges when it is that of a symbol."
  },
  {
   "property": "C39",
   "status": "proved",
   "theorems": [
    "C39_priority",
    "C39_progress",
    "C39_fifo",
    "C39_fifo_top",
    "C39_wrap_refuted",
    "C39_wrap_reachable"
   ],
   "note": ""
  },
  {
   "property": "C40",
   "status": "proved",
   "theorems": [
    "C40_destinations",
    "C40_is_alias",
    "C40_names",
    "C40_aliases",
    "C40_aliases_loop_refuted",
    "C40_long_chain_refuted"
   ],
   "note": ""
  },
  {
   "property": "C41",
   "status": "proved",
   "theorems": [
    "C41_reads_back",
    "C41_members",
    "C41_jumping_refuted",
    "C41_roles_refuted"
   ],
   "note": "usages, size, empty, nthEdge, firstEdge, lastEdge of built sequences. Refuted: a sequence of hidden edges that returns to position 0 loses edges; packed sequences lose roles."
  },
  {
   "property": "C42",
   "status": "proved",
   "theorems": [
    "C42_text",
    "C42_loose",
    "C42_order_refuted",
    "C42_inside_refuted"
   ],
   "note": "The sort of boost is a parameter with its contract (sorts), instantiated in the example. Refuted: topological order for backward edges, vertices inside characters."
  },
  {
   "property": "C43",
   "status": "proved",
   "theorems": [
    "C43_elements",
    "C43_groups",
    "C43_brackets",
    "C43_total",
    "C43_follow",
    "C43_balance_refuted",
    "C43_nesting_refuted",
    "C43_inside_refuted"
   ],
   "note": "Alternatives and elements are bracketed for every lattice and every outcome; which elements, how many groups, and termination for careful programs. Refuted: groups balanced, groups nested, elements only inside a tagged edge."
  },
  {
   "property": "C44",
   "status": "proved",
   "theorems": [
    "C44_fragments",
    "C44_find",
    "C44_append_default_refuted",
    "C44_sub_of_stored_refuted",
    "C44_find_npos_refuted"
   ],
   "note": ""
  },
  {
   "property": "C45",
   "status": "proved",
   "theorems": [
    "C45_get_added",
    "C45_get_absent"
   ],
   "note": ""
  },
  {
   "property": "C46",
   "status": "proved",
   "theorems": [
    "C46_bonsai_vector",
    "C46_equal_neighbours_refuted"
   ],
   "note": ""
  },
  {
   "property": "C47",
   "status": "proved",
   "theorems": [
    "C47_path_glob"
   ],
   "note": ""
  },
  {
   "property": "C48",
   "status": "proved",
   "theorems": [
    "C48_form",
    "C48_browser_form",
    "C48_hang_refuted",
    "C48_names_refuted"
   ],
   "note": ""
  },
  {
   "property": "C49",
   "status": "proved",
   "theorems": [
    "C49_include",
    "C49_expands_unique"
   ],
   "note": ""
  },
  {
   "property": "C50",
   "status": "proved",
   "theorems": [
    "C50_table",
    "C50_enumerate",
    "C50_environment",
    "C50_symbols"
   ],
   "note": ""
  },
  {
   "property": "C51",
   "status": "proved",
   "theorems": [
    "C51_intersect",
    "C51_intersect_with_jokers",
    "C51_start_states_refuted",
    "C51_epsilon_refuted"
   ],
   "note": "Exact for epsilon-free automata with equal start states; two refutations show the conditions are needed."
  },
  {
   "property": "C52",
   "status": "proved",
   "theorems": [
    "C52_minimize",
    "C52_smallest"
   ],
   "note": "Brzozowski minimisation: language, determinism, pairwise distinct right languages, least number of states."
  },
  {
   "property": "C53",
   "status": "proved",
   "theorems": [
    "C53_by_source",
    "C53_by_target",
    "C53_any"
   ],
   "note": "Listing by source and by target; exact for the any mask, otherwise up to the stale index described under C17."
  },
  {
   "property": "C54",
   "status": "proved",
   "theorems": [
    "C54_run",
    "C54_whole",
    "C54_base",
    "C54_texts",
    "C54_beyond_refuted",
    "C54_symbol_item_refuted"
   ],
   "note": "For every cutter that keeps the contract of cutOff (shown for the base class of C21 with any honest doCutOff), every order of vertices, any superMask; symbols as mask. Edges of superMask are taken before the run. Refuted: tokens stay within the edge that is cut; items like those of symbols."
  },
  {
   "property": "C55",
   "status": "proved",
   "theorems": [
    "C55_insert",
    "C55_erase",
    "C55_erase_without_symbol",
    "C55_replace",
    "C55_replace_longer",
    "C55_inserted_text",
    "C55_erased_text",
    "C55_replaced_text",
    "C55_insert_one_at_the_end_refuted",
    "C55_insert_at_the_end_refuted",
    "C55_erase_at_the_end_refuted",
    "C55_replace_longer_refuted",
    "C55_insert_nothing_refuted",
    "C55_insert_twice_refuted",
    "C55_insert_at_loose_refuted"
   ],
   "note": "Symbol edges as an automaton over items; exact sets of words or arcs for all three corrections, where the characters concerned have the symbol edges of addSymbols. Refuted: insertion at the end (exception or circle on which getPath never ends), erasing up to the end, replacement by a longer text, empty insertion, second insertion at the same place, insertion at a loose vertex."
  },
  {
   "property": "C56",
   "status": "proved",
   "theorems": [
    "C56_parent",
    "C56_children",
    "C56_origin",
    "C56_origin_only",
    "C56_origin_ends",
    "C56_lemma",
    "C56_origin_loops_refuted",
    "C56_children_once_refuted",
    "C56_first_parents_refuted"
   ],
   "note": "In terms of the contents of the partitions; results exact, reading changes only the index. getEdgeOrigin: comes back with r iff the way over first parents gives r. Refuted: it always comes back; children are listed once; any lemma in a partition is found."
  },
  {
   "property": "C57",
   "status": "proved",
   "theorems": [
    "C57_line",
    "C57_text",
    "C57_shortened",
    "C57_tag_refuted",
    "C57_category_refuted",
    "C57_values_refuted",
    "C57_sequence_refuted",
    "C57_partitions_refuted",
    "C57_empty_partition_refuted",
    "C57_shortened_refuted"
   ],
   "note": "Writer's row and reader's grammars for one line, scores abstract. Round trip for every writable edge; text exact unless shortened. Refuted: tags with underscores, commas in categories and values, unnumbered children before numbered ones, several partitions beside one over symbols, empty partitions beside others, shortening inside an escape."
  },
  {
   "property": "C58",
   "status": "proved",
   "theorems": [
    "C58_exact",
    "C58_ready",
    "C58_sound",
    "C58_unchanged",
    "C58_defined",
    "C58_ends",
    "C58_choice",
    "C58_cycle_refuted",
    "C58_language_refuted",
    "C58_together_refuted",
    "C58_no_language_refuted"
   ],
   "note": "Exact characterisation of the completions, soundness, definedness, termination under a ranking of tags, and the choice of the best. Refuted: it always ends (annotators requiring each other), requirements are met in the right language, or by several processors together; processors that depend on languages vanish without languages."
  },
  {
   "property": "C59",
   "status": "proved",
   "theorems": [
    "C59_digest",
    "C59_truncated",
    "C59_text",
    "C59_long_refuted",
    "C59_wrap_refuted"
   ],
   "note": "Digest equal to an independent RFC 1321 specification for every cutting into pieces, with the counters' carries. Refuted for md5(text): lengths of 2^32 and more are truncated, and the 64 lengths below 2^32 read past the end."
  },
  {
   "property": "C60",
   "status": "proved",
   "theorems": [
    "C60_lines",
    "C60_text",
    "C60_lattice",
    "C60_lattice_text",
    "C60_escape_refuted",
    "C60_order_refuted",
    "C60_cycle_refuted"
   ],
   "note": "Lines of a PSI file for every careful and printable lattice: numbering, one line per visible edge, contents, references upwards; the text can be rebuilt if no byte is quoted and parts precede wholes. Refuted without those conditions: quoted bytes, parts after wholes, cyclic partitions (no end)."
  },
  {
   "property": "C61",
   "status": "proved",
   "theorems": [
    "C61_program",
    "C61_edges",
    "C61_text",
    "C61_follow",
    "C61_round_text",
    "C61_round_edges",
    "C61_lattice_edges",
    "C61_lattice_text",
    "C61_loose_refuted",
    "C61_shortened_refuted",
    "C61_partitions_refuted",
    "C61_bytes_refuted"
   ],
   "note": "Reader of PSI files over the lattice model: every part of every line is an edge as told; text appended; the edges that are not hidden and the text of a careful printable lattice come back, if the file is read. Refuted without conditions: edges into loose vertices, shortened texts with escapes, partitions of one symbol beside others, bytes of 128 or more in no edge."
  },
  {
   "property": "C62",
   "status": "proved",
   "theorems": [
    "C62_quoter",
    "C62_skipped",
    "C62_only",
    "C62_close",
    "C62_patterns",
    "C62_order",
    "C62_order_ends",
    "C62_written",
    "C62_total",
    "C62_crossing_refuted",
    "C62_first_two_refuted",
    "C62_mutual_refuted",
    "C62_unclosed_refuted",
    "C62_stars_refuted",
    "C62_missing_refuted",
    "C62_mark_refuted",
    "C62_less_refuted",
    "C62_loose_refuted",
    "C62_undrawn_refuted"
   ],
   "note": "Quoter, meaning of patterns with nested lists, placement, nesting and order of brackets, for all texts and edges (container of --no-collapse, without --disambig). Ten refutations: unclosed and empty lists, missing attributes, mutual parents, the first two brackets, operator<, loose vertices, crossing and undrawn edges. Which edges are skipped, what options leave, closing delimiters."
  },
  {
   "property": "C63",
   "status": "proved",
   "theorems": [
    "C63_simple",
    "C63_between",
    "C63_grown",
    "C63_final",
    "C63_ends",
    "C63_as_union",
    "C63_line",
    "C63_symmetric_refuted"
   ],
   "note": "All of symal.cpp but reading and main: simple alignments, growing (chained, closed, terminating), last passes, line. Refuted: symmetry in the two languages."
  },
  {
   "property": "C64",
   "status": "proved",
   "theorems": [
    "C64_words",
    "C64_minimal",
    "C64_memory",
    "C64_repeated_refuted",
    "C64_unsorted_refuted"
   ],
   "note": "IncrementalFSA and minfsa: language, determinism, minimality, memory, for all sorted lists of different non-empty words. Refuted: repeated, empty and no words (undefined behaviour), unsorted words (wrong automaton)."
  },
  {
   "property": "C65",
   "status": "proved",
   "theorems": [
    "C65_made",
    "C65_words",
    "C65_hash",
    "C65_unhash",
    "C65_order_refuted",
    "C65_mode_refuted"
   ],
   "note": "binfsa and CompressedDAG lookups end to end from minfsa: membership, prefixes, hash, unhash, for all fitting word lists and all merge orders. Refuted: sort_pred as an order, mode 4."
  },
  {
   "property": "C66",
   "status": "proved",
   "theorems": [
    "C66_reverse",
    "C66_determinize",
    "C66_minimize",
    "C66_union",
    "C66_in",
    "C66_build"
   ],
   "note": "SimpleDAG: reversal, determinization, Brzozowski minimization (minimal against every deterministic machine), union, membership, for all automata and every sorting function."
  },
  {
   "property": "C67",
   "status": "proved",
   "theorems": [
    "C67_ends",
    "C67_sound",
    "C67_complete",
    "C67_all_refuted"
   ],
   "note": "multihash: ends, sound with exact numbers, each word once; complete when joining ways have equal lengths (hypothesis `even`); refuted without."
  },
  {
   "property": "C68",
   "status": "proved",
   "theorems": [
    "C68_words",
    "C68_ends",
    "C68_one_more",
    "C68_astray"
   ],
   "note": "create_intersector/nextksb: exact language and termination for k<=n; boundary cases k=n+1 and k>n+1."
  },
  {
   "property": "C69",
   "status": "proved",
   "theorems": [
    "C69_prune",
    "C69_prune_ends",
    "C69_subparse",
    "C69_sentence",
    "C69_ends",
    "C69_rules",
    "C69_rules_all_refuted"
   ],
   "note": "subparse_to_dag, prune_by_intersector, parse_to_dag: exact languages and termination; C69_rules with C67; completeness refuted."
  },
  {
   "property": "C70",
   "status": "proved",
   "theorems": [
    "C70_fit",
    "C70_ends",
    "C70_index",
    "C70_all_ways_refuted",
    "C70_empty_refuted",
    "C70_scan",
    "C70_scan_sign",
    "C70_scan_plain",
    "C70_unset_refuted",
    "C70_targets",
    "C70_cost",
    "C70_points"
   ],
   "note": "word_to_slist: sound, complete per left side, terminating (for non-empty symbols); nt_index, sscanf targets, costs."
  },
  {
   "property": "C71",
   "status": "proved",
   "theorems": [
    "C71_text",
    "C71_links",
    "C71_substitute",
    "C71_outside",
    "C71_between_refuted",
    "C71_tree",
    "C71_twice_refuted",
    "C71_front",
    "C71_terminals",
    "C71_terminals_refuted"
   ],
   "note": "Exact formula for what substitute adds, with the excess of words between nonterminals; the tree theorem needs linear target sides without such words."
  },
  {
   "property": "C72",
   "status": "proved",
   "theorems": [
    "C72_sound",
    "C72_size",
    "C72_ends",
    "C72_first",
    "C72_cheapest",
    "C72_ties_refuted",
    "C72_replace_refuted"
   ],
   "note": "Exactness under monotone, different costs; the sets with an irregular comparison are parameters with a weak contract."
  },
  {
   "property": "C73",
   "status": "proved",
   "theorems": [
    "C73_sorter_refuted",
    "C73_sorter",
    "C73_fill",
    "C73_fill_refuted",
    "C73_keep",
    "C73_equal_refuted",
    "C73_symbols",
    "C73_merge",
    "C73_merge_refuted",
    "C73_tables"
   ],
   "note": "insert of the set with an irregular comparison is a parameter with a weak contract."
  },
  {
   "property": "C74",
   "status": "proved",
   "theorems": [
    "C74_create",
    "C74_boundary_refuted",
    "C74_pairs",
    "C74_once",
    "C74_long_refuted",
    "C74_lexical"
   ],
   "note": "Exact characterisation for at most 10000 source words; beyond that refuted."
  },
  {
   "property": "C75",
   "status": "proved",
   "theorems": [
    "C75_rules",
    "C75_once",
    "C75_words"
   ],
   "note": "Exact characterisation, for all options with min_hole_t > 0."
  },
  {
   "property": "C76",
   "status": "proved",
   "theorems": [
    "C76_sides",
    "C76_alignment",
    "C76_lexical",
    "C76_label",
    "C76_label_refuted",
    "C76_duplicates",
    "C76_total",
    "C76_written"
   ],
   "note": "Counts are rational; labels without syntax."
  },
  {
   "property": "C77",
   "status": "proved",
   "theorems": [
    "C77_cardinal",
    "C77_ordinal",
    "C77_read",
    "C77_different",
    "C77_number",
    "C77_empty",
    "C77_plural_refuted",
    "C77_long_refuted",
    "C77_zeros_refuted",
    "C77_bigger",
    "C77_bigger_refuted"
   ],
   "note": "Text of cardinals and ordinals (nominative) of up to 660 digits; other forms are modelled and covered by the refutations only."
  },
  {
   "property": "C78",
   "status": "proved",
   "theorems": [
    "C78_plain",
    "C78_skip",
    "C78_endless",
    "C78_alternatives",
    "C78_ends",
    "C78_endless_refuted",
    "C78_after_refuted",
    "C78_two_refuted",
    "C78_reference_refuted",
    "C78_parse",
    "C78_lost_refuted",
    "C78_rules",
    "C78_blank",
    "C78_first",
    "C78_maps",
    "C78_maps_refuted"
   ],
   "note": "Theorems about alternatives are for constant values; rules with references are modelled and covered by the refutations."
  },
  {
   "property": "C79",
   "status": "proved",
   "theorems": [
    "C79_condition",
    "C79_satisfied",
    "C79_vertex",
    "C79_ends",
    "C79_cover",
    "C79_run",
    "C79_anti",
    "C79_anti_run",
    "C79_gap_refuted",
    "C79_over_refuted",
    "C79_blank_refuted",
    "C79_default_refuted",
    "C79_endless_refuted"
   ],
   "note": "What an iterator over vertices or edges gives for edges added during the run is not modelled."
  },
  {
   "property": "C80",
   "status": "proved",
   "theorems": [
    "C80_escape",
    "C80_escape_plain",
    "C80_escape_injective",
    "C80_unescape",
    "C80_reads_unique",
    "C80_there_and_back",
    "C80_round_trip",
    "C80_round_trip_refuted",
    "C80_morphology",
    "C80_morphology_refuted",
    "C80_bounds",
    "C80_group",
    "C80_group_refuted",
    "C80_head",
    "C80_head_refuted",
    "C80_before",
    "C80_move"
   ],
   "note": "Regular expressions are modelled only as far as escapeSpecialChars uses them (one character)."
  },
  {
   "property": "C81",
   "status": "proved",
   "theorems": [
    "C81_top",
    "C81_same_end",
    "C81_some",
    "C81_vertex",
    "C81_range",
    "C81_range_ends",
    "C81_some_refuted",
    "C81_range_refuted",
    "C81_vertex_refuted",
    "C81_blank_refuted",
    "C81_endless_refuted"
   ],
   "note": "Beyond the last vertex the model has no edges; what the lattice does when asked there is not modelled."
  },
  {
   "property": "C82",
   "status": "proved",
   "theorems": [
    "C82_count",
    "C82_start",
    "C82_end",
    "C82_required",
    "C82_match",
    "C82_unique",
    "C82_sentence",
    "C82_after_refuted",
    "C82_category_refuted"
   ],
   "note": "Numbers in the string do not overflow an int; matchPattern without the negative named groups of RE2."
  },
  {
   "property": "C83",
   "status": "proved",
   "theorems": [
    "C83_possible",
    "C83_possible_two",
    "C83_sequences",
    "C83_unify",
    "C83_delete",
    "C83_found",
    "C83_possible_refuted",
    "C83_skipped_refuted",
    "C83_repeated_refuted",
    "C83_delete_refuted"
   ],
   "note": "Whether a partition of the rule contains a sequence of edges is a parameter; regular expressions are parameters."
  },
  {
   "property": "C84",
   "status": "proved",
   "theorems": [
    "C84_labels",
    "C84_attributes",
    "C84_round",
    "C84_read",
    "C84_read_twice",
    "C84_add",
    "C84_order_refuted",
    "C84_unknown_refuted",
    "C84_blank_refuted",
    "C84_add_refuted"
   ],
   "note": "The regular expressions that take a line of the tagset file apart are not modelled."
  },
  {
   "property": "C85",
   "status": "proved",
   "theorems": [
    "C85_cuts",
    "C85_first",
    "C85_over_refuted",
    "C85_order_refuted",
    "C85_parens",
    "C85_groups",
    "C85_set_refuted",
    "C85_rules"
   ],
   "note": "For all texts and rules that fit: exact cuts, by an invariant of the cached positions; scan of patterns; choice of rules. Regular expressions are given by their matches. Three refutations: matches over a cut, matches out of order, sets of characters."
  },
  {
   "property": "C86",
   "status": "proved",
   "theorems": [
    "C86_comments",
    "C86_elements",
    "C86_joined",
    "C86_trim",
    "C86_value",
    "C86_conditions",
    "C86_meaning",
    "C86_nested_refuted",
    "C86_else_refuted",
    "C86_stack_refuted",
    "C86_token"
   ],
   "note": "For all texts: comments, elements, trimming, unescaping as scans; for all programs: conditions as meant, unless an else part is inside another condition. Regular expressions are parameters. Three refutations: nested else, second else, else without condition."
  },
  {
   "property": "C87",
   "status": "proved",
   "theorems": [
    "C87_code",
    "C87_code_fails",
    "C87_decode",
    "C87_kept",
    "C87_long_form_refuted",
    "C87_line",
    "C87_line_fails",
    "C87_dictionary",
    "C87_levels",
    "C87_written",
    "C87_lemma_twice_refuted"
   ],
   "note": "For all forms and lemmas: the code is the longest match and is read back iff both cuts are at most 62 bytes; for all lists of lines the dictionary answers exactly what they say, composed with C31. Refutations: long forms, lemmas given twice."
  },
  {
   "property": "C88",
   "status": "proved",
   "theorems": [
    "C88_counted",
    "C88_frequencies",
    "C88_bigrams",
    "C88_letters",
    "C88_by_letters",
    "C88_guess",
    "C88_throw_refuted"
   ],
   "note": "For all texts and lists of languages, over exact rationals: what is counted, the nearest language, the letters, the whole decision. Refutation: one character that is not ASCII throws."
  },
  {
   "property": "C89",
   "status": "proved",
   "theorems": [
    "C89_text",
    "C89_unique",
    "C89_content",
    "C89_lost_refuted"
   ],
   "note": "For all lists of tokens: the text is the gluing of the tokens that count; the order is unique. Refutation: tokens at one position."
  },
  {
   "property": "C90",
   "status": "proved",
   "theorems": [
    "C90_simple",
    "C90_choices",
    "C90_parse",
    "C90_forms",
    "C90_lexeme",
    "C90_forms_lost_refuted",
    "C90_sfst_gender_refuted",
    "C90_levels",
    "C90_nothing",
    "C90_form_values",
    "C90_lemma_twice_refuted"
   ],
   "note": "For all tags, tables and answers: descriptions, exact products, forms, lexemes, levels. Refutations: lost forms, SFST genders, repeated lemmas on level 1."
  },
  {
   "property": "C91",
   "status": "proved",
   "theorems": [
    "C91_text",
    "C91_text_whole",
    "C91_text_unreadable",
    "C91_left",
    "C91_from_target_refuted",
    "C91_ucs2_text_refuted",
    "C91_long_refuted",
    "C91_sets",
    "C91_utf8_write",
    "C91_utf8_read",
    "C91_utf8_cut",
    "C91_utf8_unicode_refuted",
    "C91_ucs2",
    "C91_ucs2_marks",
    "C91_convert",
    "C91_codecs"
   ],
   "note": "For all bytes, characters, inputs, buffer sizes and options: the tables, UTF-8 and UCS-2 both ways, the conversion, the texts of EncodingConverter. Refutations: long texts, zero bytes, from the target, characters that are not Unicode."
  },
  {
   "property": "C92",
   "status": "proved",
   "theorems": [
    "C92_adler32",
    "C92_adler_goes_on",
    "C92_adler_combine",
    "C92_adler_combine_refuted",
    "C92_tables",
    "C92_crc32",
    "C92_little",
    "C92_goes_on",
    "C92_detects",
    "C92_combine"
   ],
   "note": "For all buffers, starts and alignments: tables, register, words, going on, detection of changes within four bytes, combination; Adler sums without overflow. Refutation: adler32_combine on sums that are 0."
  },
  {
   "property": "C93",
   "status": "proved",
   "theorems": [
    "C93_attribute",
    "C93_no_attribute",
    "C93_tags",
    "C93_line",
    "C93_document",
    "C93_line_refuted",
    "C93_words",
    "C93_tokens_back",
    "C93_tokens",
    "C93_unescape",
    "C93_unescape_hangs",
    "C93_refused"
   ],
   "note": "For all strings and lines: words, tokens, escapes, attributes, tags, acceptance exactly of documents. Refutations: empty attributes, names by their ends, unfinished tags, lines without tags; unescape may hang."
  },
  {
   "property": "C94",
   "status": "proved",
   "theorems": [
    "C94_parse",
    "C94_parse_refuted",
    "C94_parents",
    "C94_parents_refuted",
    "C94_document"
   ],
   "note": "For all trees with a child or only words at the front of every node; documents give forests. Refutation: a word before the first child. Parse: for all forests in which every word has a node; refutation by a loop that never ends."
  },
  {
   "property": "C95",
   "status": "proved",
   "theorems": [
    "C95_batches",
    "C95_empty_refuted",
    "C95_singleton_refuted",
    "C95_match",
    "C95_groups",
    "C95_groups_refuted"
   ],
   "note": "For all files not beginning with an empty line, any reading of lines and any addition; for all lists of pairs whose non-terminals have one place. Refutations: the mark of singletons, an empty first line, a non-terminal with two places."
  },
  {
   "property": "C96",
   "status": "proved",
   "theorems": [
    "C96_lines",
    "C96_scores",
    "C96_scores_refuted",
    "C96_discounts",
    "C96_bins",
    "C96_names"
   ],
   "note": "For all lines of simple items, lists of scores, rational counts and bins. Refutation: negative scores are taken for names."
  },
  {
   "property": "C97",
   "status": "proved",
   "theorems": [
    "C97_vocabulary",
    "C97_read",
    "C97_rule_refuted",
    "C97_best"
   ],
   "note": "For all vocabularies, lines of the stated form and groups. Refutation: for rules, points at the left-hand sides and empty sides."
  },
  {
   "property": "C98",
   "status": "proved",
   "theorems": [
    "C98_load",
    "C98_last_line_refuted",
    "C98_sentence",
    "C98_undefined",
    "C98_counts",
    "C98_indicators",
    "C98_ratios",
    "C98_ratios_sum",
    "C98_subsets"
   ],
   "note": "For all files of lines of a number and a name, all sentences, groups and lists of domains. Refutation: a last line without newline is not read."
  },
  {
   "property": "C99",
   "status": "proved",
   "theorems": [
    "C99_table",
    "C99_lexical",
    "C99_lexical_refuted",
    "C99_penalty",
    "C99_crossed"
   ],
   "note": "For all lines, growing vocabularies, phrases and alignments. Refutation: unaligned words without NULL in the table; an empty line."
  },
  {
   "property": "C100",
   "status": "proved",
   "theorems": [
    "C100_random",
    "C100_mother_refuted",
    "C100_interval",
    "C100_imoaxor",
    "C100_doxor",
    "C100_strings",
    "C100_integers",
    "C100_strings_refuted"
   ],
   "note": "For all keys, texts, intervals, strings and integers. Refutations: the generator is not Mother of all; reserved values are printed as numbers."
  },
  {
   "property": "C101",
   "status": "proved",
   "theorems": [
    "C101_paths",
    "C101_one",
    "C101_paths_refuted"
   ],
   "note": "For all bundles of chains without proper beginnings, and for one chain without conditions. Refutations: beginnings of other paths, later forks, sums of weights."
  },
  {
   "property": "C102",
   "status": "proved",
   "theorems": [
    "C102_rules",
    "C102_no_tab",
    "C102_normalize",
    "C102_required",
    "C102_join",
    "C102_outer",
    "C102_items",
    "C102_right_refuted"
   ],
   "note": "For all files of rules, tokens, requirements and relations of edges. Refutation: right edges are lost by an outer join. Lines without a tab are undefined."
  },
  {
   "property": "C103",
   "status": "proved",
   "theorems": [
    "C103_lexicon",
    "C103_indented",
    "C103_short",
    "C103_lexicon_refuted",
    "C103_records",
    "C103_item",
    "C103_key",
    "C103_attributes",
    "C103_edges",
    "C103_key_refuted"
   ],
   "note": "For all lexica with the lines of each key together, any unescape, all records, attributes and options. Refutations: indented entries, semicolons, keys apart, keys with commas."
  }
 ]
}