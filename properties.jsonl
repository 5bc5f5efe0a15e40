{"id": "C01", "title": "UTT-style quoting is lossless", "statement": "Unescaping the escaped form of any byte string with the same quoter (the plain UTT quoter or any quoter with extra characters to quote, provided none of the extra characters is one of the letters n, t, r) gives back exactly the original string and never raises the 'Wrong escape sequence' error.", "quantifier": "every byte string; every set of additional quoted characters not containing n, t, r", "why_tests_cant": "Strings are unbounded and every interaction of backslashes, underscores and the additional characters must be covered; tests only try a handful of strings.", "anchors": ["common/utt_like_quoter.cpp: UTTLikeQuoter::doEscape, UTTLikeQuoter::doUnescape", "common/quoter.cpp: Quoter::escape, Quoter::unescape", "common/psi_quoter.cpp"]}
{"id": "C02", "title": "An escaped value can never break the record it is written into", "statement": "The escaped form of any byte string contains no space, tab, newline or carriage return, contains a star only directly after a backslash that quotes it, and contains an additional quoted character only directly after a quoting backslash, so a reader that splits lines on white space sees exactly one field.", "quantifier": "every byte string and every set of additional quoted characters", "why_tests_cant": "A universally quantified absence statement about output of arbitrary length.", "anchors": ["common/utt_like_quoter.cpp: UTTLikeQuoter::doEscape"]}
{"id": "C03", "title": "Escape detection counts backslashes by parity", "statement": "isEscaped(s,pos) answers true exactly when the maximal run of backslashes that ends directly before pos has odd length, for every position up to the length of s.", "quantifier": "every string and every position", "why_tests_cant": "Runs of backslashes have unbounded length and may start at the beginning of the string (a separate branch in the code).", "anchors": ["common/escaping.cpp: Escaping::isEscaped"]}
{"id": "C04", "title": "UTF-8 encoding followed by decoding is the identity", "statement": "For every Unicode scalar value, appending its UTF-8 encoding to a buffer and reading the next code point back, whatever bytes follow, returns this scalar value and advances by exactly the number of appended bytes; the checked and the unchecked reader agree; surrogates and values above 0x10FFFF are rejected by the checked writer.", "quantifier": "every code point and every continuation of the buffer", "why_tests_cant": "1.1 million code points times every following context; boundary values between encoded lengths are easy to miss.", "anchors": ["utf8/utf8/checked.h: utf8::append, utf8::next", "utf8/utf8/unchecked.h: utf8::unchecked::append, utf8::unchecked::next", "utf8/utf8/core.h: validate_next, sequence_length"]}
{"id": "C05", "title": "UTF-8 validation accepts exactly the well-formed texts", "statement": "find_invalid reports no error on a byte sequence if and only if this sequence is the concatenation of the UTF-8 encodings of some Unicode scalar values; on an ill-formed sequence the reported position is the end of the longest well-formed prefix made of whole encodings; distance returns the number of the scalar values.", "quantifier": "every byte sequence", "why_tests_cant": "Soundness and completeness over all byte sequences (over-long forms, truncated forms, surrogates at any place) cannot be enumerated.", "anchors": ["utf8/utf8/core.h: find_invalid, is_valid, validate_next, get_sequence_1..4, is_overlong_sequence", "utf8/utf8/checked.h: distance"]}
{"id": "C06", "title": "Repairing invalid UTF-8 always yields valid UTF-8", "statement": "replace_invalid writing through an appending iterator terminates on every input without an exception, its output is always well-formed UTF-8, and it returns a well-formed input unchanged.", "quantifier": "every byte sequence (a malformed one included)", "why_tests_cant": "Garbage input is unbounded in shape; the claim is about all of it.", "anchors": ["utf8/utf8/checked.h: replace_invalid"]}
{"id": "C07", "title": "Stepping backwards in UTF-8 undoes stepping forwards", "statement": "In a well-formed text, prior moved from the end of any encoded character returns this character and the position of its first byte, so that iterating backwards enumerates the characters in the reverse order of iterating forwards.", "quantifier": "every well-formed text and every character boundary in it", "why_tests_cant": "All texts and all positions.", "anchors": ["utf8/utf8/checked.h: utf8::prior", "utf8/utf8/unchecked.h: utf8::unchecked::prior"]}
{"id": "C08", "title": "UTF-8 to UTF-16 and back is lossless", "statement": "For every well-formed UTF-8 text, converting it to UTF-16 and converting the result back gives the original bytes, and the UTF-16 form contains properly paired surrogates only.", "quantifier": "every well-formed UTF-8 text", "why_tests_cant": "All texts; surrogate arithmetic matters only for supplementary characters, which tests rarely contain.", "anchors": ["utf8/utf8/checked.h: utf8to16, utf16to8"]}
{"id": "C09", "title": "Layer tag sets behave as sets and masks as alternatives of required sets", "statement": "Union, intersection, emptiness and equality of layer tag collections agree with the set operations on the tag names they were created from; a collection matches a mask exactly when the mask is 'any', or when some alternative of the mask is a subset of the collection; matching is monotone in the collection. Shown false: operator< is not irreflexive, isNone() changes what the mask matches afterwards, and a mask with an empty alternative matches symbols without being applied to implicit ones.", "quantifier": "every list of tag names (up to the tag capacity), every pair of collections, every mask", "why_tests_cant": "All tag sets of all sizes, including repeated names and empty alternatives.", "anchors": ["common/layer_tag_collection.cpp", "common/layer_tag_mask.cpp", "common/layer_tag_manager.cpp"]}
{"id": "C10", "title": "Layer tag names survive registration", "statement": "For every history of tag registrations on one tag manager, as long as there are at most 64 different tags (and exactly then registration succeeds), the collection created for a list of names lists back exactly these names as a set, an identifier given to a name never changes afterwards and different names never share an identifier.", "quantifier": "every sequence of createTagCollection / createMask calls", "why_tests_cant": "Quantifies over histories; a test sees one short history.", "anchors": ["common/layer_tag_manager.cpp: createTagCollection, getTagNames"]}
{"id": "C11", "title": "Annotation items are independent records", "statement": "For every history of calls (with at most 128 attribute names), reading an attribute returns the last value set for it on this item (or null if never set), and neither other attributes nor other items change; two items compare equal exactly when category, text and the attributes that are set agree, provided no attribute was set to null or to the empty value; equality is an equivalence; a value set as text reads back as this text unless it is a number in an unusual form or one of the reserved words. Shown false without the conditions.", "quantifier": "every history of setValue calls on any number of items sharing one manager", "why_tests_cant": "The per-manager attribute numbering makes the value slots of different items interact; only some registration orders would show a defect.", "anchors": ["common/annotation_item_manager.cpp", "common/annotation_item.cpp"]}
{"id": "C12", "title": "Adding an edge makes it visible with the given data", "statement": "For every lattice a program can build: after a successful addEdge(from,to,item,tags,...) the returned edge has source from, target to and a tag collection including tags, and, unless it is an implicit symbol edge, an equal annotation item, a score at least as good and a partition with the given data; it is enumerated among the outgoing edges of from and, if to is on a character boundary, among the incoming edges of to. Shown false: the item of a symbol edge, and incoming edges inside a character.", "quantifier": "every lattice reachable by any sequence of public operations, every admissible argument", "why_tests_cant": "Reachable lattices are unbounded; merging with already existing edges and symbol edges makes different branches.", "anchors": ["common/lattice.cpp: Lattice::addEdge, outEdges, inEdges, getEdgeSource, getEdgeTarget, getEdgeAnnotationItem, getEdgeLayerTags"]}
{"id": "C13", "title": "Adding edges never damages what is already in the lattice", "statement": "For programs over well-formed UTF-8 with vertices between characters no call at all (successful or failing) ever changes source, target or annotation item of an existing edge, removes a tag or a partition from it, lowers its score or removes the edge; appending text only extends the text, nothing else changes it. For arbitrary programs this holds for every call that does not fail with an invalid UTF-8 exception, and is shown false for those.", "quantifier": "every reachable lattice and every operation", "why_tests_cant": "An invariant over histories.", "anchors": ["common/lattice.cpp: Lattice::addEdge, addPartitionToEdge, discard"]}
{"id": "C14", "title": "Equal annotations are merged, different ones are kept apart", "statement": "Adding the same annotation between the same vertices under tags of the same planes does not create a second edge: the existing edge gets the union of the tags, the better score and one more partition, and all else is unchanged; additions with a different item or on different planes make a new edge and leave the old ones as they are; discard marks exactly the given edge. Edges over exactly one character without plane tags are excluded, and shown to be stored repeatedly.", "quantifier": "every reachable lattice and every pair of additions", "why_tests_cant": "Needs all orders and all interleavings with other additions.", "anchors": ["common/lattice.cpp: Lattice::addEdge"]}
{"id": "C15", "title": "The lattice over a text stays a forward graph", "statement": "Every edge of a lattice a program can build that joins two text vertices goes from a smaller to a greater text position inside the text, on UTF-8 character boundaries if the caller's vertices are; an addEdge call with a loop or a reversed edge throws and leaves the lattice as it was, and any other refused call leaves text and edges unchanged unless it fails on ill-formed UTF-8 (shown false there).", "quantifier": "every reachable lattice", "why_tests_cant": "Invariant over all histories.", "anchors": ["common/lattice.cpp: Lattice::addEdge, addSymbols, appendStringWithSymbols"]}
{"id": "C16", "title": "Symbol edges spell the text", "statement": "After appending any well-formed texts with symbols (which never fails while there are no loose vertices), with any annotating calls in between or afterwards, getPath over the symbol edges from position 0 ends at the end of the text; its edges follow one another, their texts are, one by one, the characters of the concatenated appended texts, so the text of the sequence is the whole text and its size the number of characters. Without loose vertices its ends are getFirstVertex and getLastVertex. Shown false: if other calls give the symbol tag to longer edges; that getPath takes the best-scored edge as documented (it takes the last); that getPath always ends (cycles through loose vertices).", "quantifier": "every sequence of appended well-formed texts, interleaved with any calls that do not use the symbol tag", "why_tests_cant": "All texts, all ways of splitting them into appends and all annotations in between.", "anchors": ["common/lattice.cpp: appendStringWithSymbols, addSymbols, getPath, getEdgeText", "common/lattice.hpp: getPath"]}
{"id": "C17", "title": "Mask-filtered edge enumeration agrees with unfiltered enumeration", "statement": "outEdges(v,mask) and inEdges(v,mask) enumerate, in the order of allOutEdges(v)/allInEdges(v), only edges whose tags match mask, and among them every edge that has matched the mask since it was made; the answer is exact when the mask has not been queried before. Shown false: an edge that matches only since tags were merged into it is missing when the mask was queried before; discarded edges are enumerated.", "quantifier": "every reachable lattice, every vertex and mask, every history of earlier queries", "why_tests_cant": "Depends on the history of queries through an internal index; a test checks one order.", "anchors": ["common/lattice.cpp: outEdges, inEdges, addTagMaskIndex_, addEdge"]}
{"id": "C18", "title": "The edge limit is respected", "statement": "isAllowed(argument,value) is equivalent to value not exceeding the limit of the smallest specified argument that is not less than the given one (the first specified such limit if an argument was specified several times), or the absolute limit if there is none, independently of the order of the specifications and of earlier isAllowed calls.", "quantifier": "every history of addLimitSpec/addUnlimitedSpec/setAbsoluteLimit/isAllowed calls", "why_tests_cant": "Lazy sorting makes answers depend on a hidden flag; all interleavings must be considered.", "anchors": ["common/limit_checker.cpp: LimitChecker::isAllowed, addLimitSpec"]}
{"id": "C19", "title": "The edit distance function computes the Levenshtein distance", "statement": "levenshteinDistance(a,b) equals the minimal number of single-element insertions, deletions and substitutions that turn a into b; it is symmetric, zero only on equal sequences and satisfies the triangle inequality; the most similar string returned for a non-empty container has the minimal distance provided this distance is below 99.", "quantifier": "all pairs of sequences", "why_tests_cant": "Minimality over all edit scripts cannot be tested.", "anchors": ["common/edit_distance.hpp: levenshteinDistance, findTheMostSimilarString"]}
{"id": "C20", "title": "Path segment globs match by the usual wildcard semantics", "statement": "A segment glob matches an ASCII segment exactly when there is a way to replace every '*' by a (possibly empty) string and every '?' by one character so that the glob becomes the segment; the matcher terminates on every input.", "quantifier": "all globs and all segments over non-zero ASCII bytes", "why_tests_cant": "Correctness of greedy backtracking must be shown for all patterns; tests cannot exclude a missed backtrack.", "anchors": ["common/segment_glob.cpp: SegmentGlob::matches"]}
{"id": "C21", "title": "Cutting a text loses and duplicates nothing", "statement": "When a too long segment is fragmented under soft and hard limits, the concatenation of the fragments is the original segment, no fragment is empty, every fragment respects the hard limit and, for a hard limit of 0 (none) or at least 4 and a well-formed text, fragments end on character boundaries; with a smaller hard limit cutting can fail (shown).", "quantifier": "every well-formed segment, every pair of limits", "why_tests_cant": "All texts, all limits, including limits smaller than one encoded character.", "anchors": ["common/cutter.hpp: fragmentSegment_, findSoftLimitCutPoint_, findHardLimitCutPoint_"]}
{"id": "C22", "title": "The compressed integer vector is a faithful vector", "statement": "After any sequence of push_back calls on a MonotonicVector, size() is the number of pushed values and at(i) is the i-th pushed value, for every i below size(), although only differences are stored.", "quantifier": "every sequence of values of the position type (in particular non-decreasing ones), every index", "why_tests_cant": "Overflowing differences, anchors and their interplay appear only for specific lengths and gaps.", "anchors": ["tools/datastructures/lexica/monotonic_vector.hpp: MonotonicVector::push_back, at, size"]}
{"id": "C23", "title": "The string vector stores strings faithfully and finds them", "statement": "After any sequence of push_back calls on a StringVector (total length below the position type's range), at(i) is the i-th pushed string; for strings pushed in increasing order find(s) of a stored string is its index.", "quantifier": "every sequence of strings", "why_tests_cant": "Composition of compressed offsets with a sorted-flag that decides between two search algorithms.", "anchors": ["tools/datastructures/lexica/string_vector.hpp: push_back, at, find, length"]}
{"id": "C24", "title": "Stem-ending encoding of lemmas is lossless", "statement": "Decoding the K-L-ending code of any word form/lemma pair without NUL bytes against the same word form restores the lemma, as long as the cut lengths stay within the range of the one-character codes; shown false beyond.", "quantifier": "every pair of strings within the range", "why_tests_cant": "All pairs; the search for the best common substring has many tie cases.", "anchors": ["tools/lemmatizers/lamerlemma/utility_functions.cpp: KLEndEncode, KLEndDecode"]}
{"id": "C25", "title": "Variable-length integer lists are lossless", "statement": "Decoding the variable-byte encoding of any list of non-negative integers of the given width returns this list; the encoding of a concatenation is the concatenation of encodings; the summing decoder returns the prefix sums.", "quantifier": "every list of integers representable in the type", "why_tests_cant": "All lists and all widths.", "anchors": ["tools/translators/bonsai/rules/ListCoders.h: VarIntType::Encode, Decode, DecodeAndSum"]}
{"id": "C26", "title": "Canonical Huffman coding is lossless", "statement": "For any frequency table with at least two symbols the assigned code is prefix-free and complete, and decoding the bits written for any sequence of symbols yields this sequence.", "quantifier": "every frequency table and every symbol sequence", "why_tests_cant": "The in-place code length computation and canonical code assignment must be right for all tables.", "anchors": ["tools/lemmatizers/lamerlemma/canonical_huffman.hpp: CalcLengths, CalcCodes, Put, Read"]}
{"id": "C27", "title": "The binary automaton stores what was put into it", "statement": "A BinDFSA built by any legal sequence of addState/addArc/setEndState calls, with at most one arc for each state and symbol, recognises exactly the words spelled by the added arcs from the start state to the end states; with a second arc for a symbol this is shown false.", "quantifier": "every sequence of construction calls and every word", "why_tests_cant": "A packed array with flag bits is to refine a mathematical automaton for every history.", "anchors": ["tools/datastructures/psi_query/fsa_bindfsa.hpp: addState, addArc, setEndState, delta, in"]}
{"id": "C28", "title": "Incremental minimisation keeps exactly the given words", "statement": "For every sorted list of words with at least one nonempty word, the automaton built by minimize_incremental accepts a word if and only if it is in the list, no two of its states accept the same set of continuations, and no deterministic automaton for these words is smaller; empty lists are shown to reach undefined behaviour and unsorted ones to give wrong automata.", "quantifier": "every sorted list of words", "why_tests_cant": "Language equality over all words for all inputs; minimality is a property of all pairs of states.", "anchors": ["tools/datastructures/psi_query/fsa_algorithms.hpp: minimize_incremental, replace_or_register"]}
{"id": "C29", "title": "Automata algebra: union, concatenation, plus, option, star and reversal", "statement": "unify gives the union, concatenate the concatenation (if the first automaton has an end state; otherwise the second language), kleene_plus the positive closure, reverse the mirror image of the languages of its arguments, prune the same language; kleene_option accepts exactly the old language and kleene_star exactly the positive closure, so that neither accepts the empty word as documented.", "quantifier": "all finite automata with epsilon arcs and all words", "why_tests_cant": "Languages are infinite sets.", "anchors": ["tools/datastructures/psi_query/fsa_algorithms.hpp: unify, concatenate, kleene_plus, kleene_option, kleene_star, reverse"]}
{"id": "C30", "title": "Epsilon removal and determinisation preserve the language", "statement": "For every automaton, removing epsilon arcs and determinising preserve the set of accepted words; the result of epsilon removal has no epsilon arcs; the result of determinize has at most one transition per state and symbol, and no epsilon arcs if its argument has none (shown false otherwise); membership tests are exact for automata without epsilon arcs.", "quantifier": "all finite automata and all words", "why_tests_cant": "Infinite language equality.", "anchors": ["tools/datastructures/psi_query/fsa_algorithms.hpp: epsRemove, determinize, traverse"]}
{"id": "C31", "title": "Looking up a key in the multi-store returns exactly its values", "statement": "For a store built from any sorted list of key<TAB>value lines of at most 10000 bytes, get(key) returns exactly the nonempty values that occur with this key in the lines, each once, in sorted order; empty values and keys with byte 254 are shown to be answered wrongly.", "quantifier": "every list of lines, every key", "why_tests_cant": "Composition of incremental construction, truncation and enumeration over all dictionaries.", "anchors": ["tools/datastructures/psi_query/fsa_multi_store.hpp: get", "tools/datastructures/psi_query/fsa_multi_store.cpp: buildSearchSuffix"]}
{"id": "C32", "title": "Perfect hashing by the automaton is a bijection", "statement": "On the nonempty words accepted by the automaton of a HashFSA, hash is the number of the word in lexicographic order, so injective with values below the number of words, and unhash is its inverse; shown false for the empty word and for words that are not accepted.", "quantifier": "every word set and every word in it", "why_tests_cant": "Counting argument over all dictionaries.", "anchors": ["tools/datastructures/psi_query/fsa_hash_fsa.hpp: hash, unhash, rec_compute_word_numbers"]}
{"id": "C33", "title": "HTTP request parsing does not depend on packet boundaries", "statement": "Feeding a byte stream to the request parser in any partition into packets gives the same verdict (complete, bad, incomplete), the same parsed request and the same number of consumed bytes.", "quantifier": "every byte stream and every partition of it", "why_tests_cant": "Exponentially many partitions of unboundedly many streams.", "anchors": ["server/server/request_parser.cpp: consume", "server/server/request_parser.hpp: parse"]}
{"id": "C34", "title": "HTTP request parsing understands every well-formed request", "statement": "For every method, URI, version and header list over admissible characters, the parser applied to the rendered request succeeds exactly at its end and returns these components; a nonempty form body of the announced length without line breaks is read completely, a multipart body up to its last byte, which is lost. Shown: form bodies with line breaks are rejected and empty ones never complete.", "quantifier": "every well-formed request", "why_tests_cant": "All requests; the state machine has about twenty states.", "anchors": ["server/server/request_parser.cpp: consume, set_post_data_length, is_multipart"]}
{"id": "C35", "title": "URL decoding inverts URL encoding, and no request escapes the document root", "statement": "Decoding the percent-encoding of any byte string gives back that string; a request for which a file is opened always has a decoded path that starts with a slash and contains no '..'.", "quantifier": "every byte string, every request URI", "why_tests_cant": "A security invariant over all inputs.", "anchors": ["server/server/request_handler.cpp: url_decode, handle_request"]}
{"id": "C36", "title": "Sessions are isolated", "statement": "For every history of fewer than 10000 requests handled one after another, data read in a session is the data last written in the same session under the same key; the session identifier is recovered from the cookie header that was sent for it. Shown false: isolation when requests are handled concurrently by several threads, cookies cut short, more than 10000 sessions in a second.", "quantifier": "every history over any number of sessions", "why_tests_cant": "Quantifies over interleavings of several clients.", "anchors": ["server/session_manager.cpp", "server/session.cpp", "common/guid_generator.cpp"]}
{"id": "C37", "title": "Upload parsing does not depend on packet boundaries", "statement": "For a multipart upload built of well-formed parts, the parsed fields, file names, types and file contents do not depend on how the body is split into chunks, and the content of a file is exactly the bytes between the end of its header and the line break before the next boundary; for text fields this holds when the body arrives in one piece and is shown false otherwise.", "quantifier": "every body and every partition of it", "why_tests_cant": "Boundaries can be split at every byte between any two chunks.", "anchors": ["server/mpfd-parser/Parser.cpp: AcceptSomeData, _ProcessData, ProcessContentOfTheField"]}
{"id": "C38", "title": "The chart parser derives exactly what the rules derive", "statement": "Whatever the agenda order, every partition a run of the bottom-up parser of gobio adds to the lattice is an application of a unary or binary rule to edges read as its premises, over a span and with a category derivable from the input edges with runs of blanks between the parts, and earlier edges keep ends, item and partitions (soundness). If the agenda was emptied, no limit cut scores or edges, input edges had their tags when made, at most one blank starts and one ends at a vertex, blanks do not touch input edges from inside, and no edge that is not input has the item of a derived category, then for every category derivable with at most one blank between the parts there is an edge read as it (completeness). With finitely many rule categories, no plane tags and no symbol edge filed under a rule's item, the parser stops after a number of turns that does not depend on the agenda order (termination). Without these conditions the result depends on the agenda order (two blanks in a row), derivable categories are lost (merging with an edge that is not parsed), or equal edges are made again and again (items of symbols).", "quantifier": "every grammar, conversion of categories, agenda order, limit and lattice of a careful program without loose vertices", "why_tests_cant": "The result must be independent of the agenda order; all schedules, grammars and lattices must be covered.", "anchors": ["tools/parsers/gobio/parser/agenda_parser.hpp: apply", "tools/parsers/gobio/parser/agenda_parser.tpl: go_, fill_, apply_unary_rules_", "tools/parsers/gobio/chart/chart.tpl: add_edge, edge_source, edge_target, edge_category"]}
{"id": "C39", "title": "The priority agenda serves the best edge first and is fair among equals", "statement": "For every sequence of fewer than 2^32 pushes and any pops, a pop returns an element with maximal score among those present, the earliest pushed one among equal scores; the FIFO agenda returns elements in insertion order. Beyond 2^32 pushes fairness is shown to fail.", "quantifier": "every sequence of operations", "why_tests_cant": "Histories of arbitrary length.", "anchors": ["tools/parsers/gobio/parser/agenda.hpp: priority_agenda, fifo_agenda"]}
{"id": "C40", "title": "Alias resolution finds exactly the reachable processors", "statement": "getAllDestinations(name) returns exactly the names that are not aliases and are reachable from name by at most five alias definitions, each once and in order, for every alias graph including cyclic ones; getAllAliases returns exactly the aliases from which the name is reachable when there is no cycle, and does not terminate when there is one above the name.", "quantifier": "every alias graph, including cyclic ones", "why_tests_cant": "All graphs.", "anchors": ["framework/aliaser.cpp: addAlias, getAllDestinations, findDestinations_"]}
{"id": "C41", "title": "Reading an edge sequence returns what was put into it", "statement": "An edge sequence built by adding edges one after another enumerates exactly these edges in this order, and has this size, these members, and this first and last edge, provided the edges follow one another or the first one does not begin at position 0; the roles are kept, except that a path of symbol edges stored in packed form loses them. Shown false: without the condition edges are lost, and roles of packed sequences.", "quantifier": "every sequence of edges, including runs of neighbouring symbol edges which are stored in a packed form", "why_tests_cant": "The packed and the explicit representation switch on particular shapes of input.", "anchors": ["common/lattice.cpp: Lattice::EdgeSequence::Builder, EdgeSequence::Iterator, EdgeSequence::size"]}
{"id": "C42", "title": "Vertex iteration visits every vertex once", "statement": "In every lattice built over well-formed texts with vertices between characters, the iteration over vertices visits exactly once every character boundary (only those at which an edge begins or ends, if unused ones are skipped) in order of position. With loose vertices it visits also each of them once, and the end of the text even if unused; a loose vertex stands at the greatest text position it can be reached from (before all others if there is none), vertices come in order of these places, and sources come before targets of edges that do not lead backwards; if the edges form a cycle the iteration throws, and only then. Shown false: the order is not topological for edges that lead back to an earlier place, and vertices inside characters are not visited.", "quantifier": "every reachable lattice and every correct topological sort", "why_tests_cant": "All lattices, with loose vertices created at any time.", "anchors": ["common/lattice.cpp: VertexIterator"]}
{"id": "C43", "title": "What the iterating writer puts out", "statement": "Whatever the lattice and however the run ends, alternatives are opened and closed in pairs, elements are put only inside one, and groups are opened or closed only outside. For lattices built by careful programs: each visited vertex (after some group was opened, if group tags are given) yields one alternative with exactly the kept, non-blank edges of the basic tag, or else of the first fallback tag that has any; the groups of each group tag alternate open, close as many times as edges with the tag follow one another from the start of the text; a tag that occurs only elsewhere gets a single closing without opening; the run ends normally whenever the vertices can be ordered (in linear mode: without loose vertices).", "quantifier": "every lattice, configuration and topological sort", "why_tests_cant": "All lattices, configurations and lengths; the automaton per tag interacts with the queues of the fallback tags.", "anchors": ["common/lattice_iter_writer.cpp: LatticeIterWriter::run"]}
{"id": "C44", "title": "String fragments denote the substrings they were made of", "statement": "A string fragment made from a source string, and any fragments made of it by taking sub-fragments and by appending fragments in the documented way, has the contents, length, character access and search results of the corresponding std::string; default-constructed fragments, sub-fragments of stored ones and searches from npos are shown to differ.", "quantifier": "every chain of operations on fragments", "why_tests_cant": "Two internal representations and all chains of operations.", "anchors": ["common/string_frag.cpp: append, find, str", "common/string_frag.hpp"]}
{"id": "C45", "title": "The key-value store returns the stored records", "statement": "After building a key-value store from any list of added pairs with distinct keys, get of an added key returns its value.", "quantifier": "every list of pairs", "why_tests_cant": "All dictionaries; depends on composition of the perfect hash, the index permutation and the string vector.", "anchors": ["tools/datastructures/lexica/key_value_store.cpp: Builder::add, Builder::build, get"]}
{"id": "C46", "title": "The translator's compressed vector is a faithful vector", "statement": "After pushing strictly increasing positions with steps below 2^28 to the MonotonicVector of the bonsai translator, size() and at(i) are those of a plain vector, both before and after commit(); pushing equal neighbours (which the header comment allows) makes the encoder divide by zero.", "quantifier": "every strictly increasing sequence of positions, every block size", "why_tests_cant": "the block structure and the packing of steps into words of nine layouts give unboundedly many shapes of the stored data", "anchors": ["tools/translators/bonsai/rules/MonotonicVector.hpp: MonotonicVector::push_back, at, commit", "tools/translators/bonsai/rules/ListCoders.h: Simple9, VarIntType"]}
{"id": "C47", "title": "Ant-like path globs find exactly the matching regular files", "statement": "For a relative glob and a directory tree, AntLikePathGlob::allMatchingFiles returns exactly the regular files whose path matches the glob segment by segment, where a ** segment stands for any number of directories and a final ** for any file below.", "quantifier": "for all globs, all finite directory trees with unique names and all paths", "why_tests_cant": "The number of directory shapes and segment globs is unbounded; a test tries a handful of trees.", "anchors": ["common/ant_like_path_glob.cpp:5-114", "common/segment_glob.cpp:9-68"]}
{"id": "C48", "title": "Form data arrives as it was sent", "statement": "Parsing the URL-encoded form of any non-empty list of fields (names without '=') writes exactly these fields, decoded and in order, to the session; parsing of a form body always ends.", "quantifier": "every field list, every form body", "why_tests_cant": "All byte strings as values; termination over all bodies.", "anchors": ["server/psi_server.cpp: parseNamesAndValues, urlDecode"]}
{"id": "C49", "title": "Page templates are expanded from left to right exactly once", "statement": "For every page and every set of registered text generators, include replaces each complete <!--#psis CODE --> markup by the text generated for its code and leaves everything else unchanged, never expands generated text again, and terminates.", "quantifier": "every page and every map of generators", "why_tests_cant": "Generated texts may contain markups themselves; all pages.", "anchors": ["server/psi_server.cpp: include"]}
{"id": "C50", "title": "Hash tables, environments and symbols behave as bags, maps and interned strings", "statement": "After every history of puts and removes (fewer than 2^28 puts) the open-addressing table holds exactly the values put and not removed, get finds a value exactly when an equal one is present, enumerating with getNext visits every value exactly once, and every probe sequence terminates; an environment is a finite map; two symbols are the same object exactly when their strings are equal.", "quantifier": "every history of operations, every hash function and every capacity reached by growing", "why_tests_cant": "Collisions, tombstones and resizing interact; all histories and all hash functions.", "anchors": ["common/zvalue.hpp: zhash, zenvironment, zsymboltable", "common/zvalue.cpp 402-529"]}
{"id": "C51", "title": "Intersection of automata, with and without the joker symbol", "statement": "For automata without epsilon arcs and with the same start states intersect accepts exactly the words both accept; with jokers, exactly the words obtained from two accepted words that agree letter by letter up to the joker. The code's use of the first automaton's start states for both, and its blindness to end states behind epsilon arcs, are shown to give wrong results otherwise.", "quantifier": "all pairs of automata and all words", "why_tests_cant": "Equality of infinite languages for all pairs of automata.", "anchors": ["tools/datastructures/psi_query/fsa_algorithms.hpp: Intersector, intersect"]}
{"id": "C52", "title": "Minimisation gives the smallest deterministic automaton", "statement": "For every automaton minimize terminates with a deterministic automaton without epsilon arcs that accepts the same words, no two states of which accept the same continuations, and no deterministic automaton for these words has fewer states.", "quantifier": "all automata, all words, all competing deterministic automata", "why_tests_cant": "Minimality quantifies over all other automata.", "anchors": ["tools/datastructures/psi_query/fsa_algorithms.hpp: minimize, determinize, reverse, epsRemove"]}
{"id": "C53", "title": "Sorted edge iteration lists every edge once", "statement": "Iterating over the edges sorted by source (or by target) under a mask lists no edge twice, only edges whose tags match the mask, and every edge that has matched it since it was made; the sources (targets) come in the order of the vertex iteration. Under the 'any' mask these are exactly all edges.", "quantifier": "every lattice built over well-formed texts, with or without loose vertices, and every mask", "why_tests_cant": "Combines the vertex iteration with the per-vertex indices for all lattices, all orders and all masks.", "anchors": ["common/lattice.cpp: EdgesSortedBySourceIterator, EdgesSortedByTargetIterator, VertexIterator"]}
{"id": "C54", "title": "Running a cutter puts tokens over the whole text of the symbols", "statement": "For every cutter that advances, cuts between characters and makes no symbol items, runCutter ends normally: from the source of every edge that matches superMask the pieces the cutter gives get edges, which lie one after another up to the place where the symbol edges end; each has the cutter's tags and a partition of symbol edges that lead from its begin to its end. All earlier edges stay, and nothing else is added. Cutters of the base class with an honest doCutOff are such cutters, and their items are made of the text they stand over. That tokens stay within the edge that was cut is shown to be false.", "quantifier": "every lattice whose symbol edges come from addSymbols, every cutter with its state, every superMask and vertex order", "why_tests_cant": "Composition of an arbitrary stateful cutter with path walking, packed sequences and the merging of edges, for all texts.", "anchors": ["common/lattice.cpp: runCutter, runCutterOnEdge_, cutSequenceByTextLength_, firstSequenceVertex_, lastSequenceVertex_, EdgeSequence::Iterator", "common/cutter.hpp: Cutter::cutOff"]}
{"id": "C55", "title": "Corrections add exactly the ways that read the corrected text", "statement": "On a lattice whose characters have their symbol edges, correctionInsert before a character ends normally and the words read along symbol edges between the old vertices are the old ones plus those with the detour 'inserted characters, then that character'; correctionErase adds exactly one symbol edge, over the erased part and the next character; correctionReplace by a text that is not longer adds one symbol edge per new character and, if shorter, one over the rest; text and old symbol edges stay, and some way from start to end reads the corrected text. A longer replacement inserts the whole new text again; insertion or erasure at the end of the text fails or makes a circle.", "quantifier": "every lattice a program of calls and corrections can build, every place, every text of Unicode characters", "why_tests_cant": "The tests correct the text 'cear' only, never insert at its end and never replace by a longer text; they follow one path, not all words the symbol edges can read.", "anchors": ["common/lattice.cpp:825-848", "common/lattice.cpp:850-876", "common/lattice.cpp:878-905"]}
{"id": "C56", "title": "Parents, children and origins follow the partitions", "statement": "getParent gives the first edge in the partitions, in order, that matches the mask; getChildren gives exactly the edges between the same two vertices that have the parent in a partition and match the mask, each as often as the parent is in its partitions; getEdgeOrigin comes back exactly when the way over first parents reaches an edge with the tag or an edge without parents, with that edge, and getEdgeLemma gives its text. Where first parents are older edges it always comes back; two edges made of each other by merging make it run forever. The lattice stays as it was.", "quantifier": "every lattice careful programs can build, every edge, every mask and tag name", "why_tests_cant": "The tests look at a few edges of one lattice; merged edges that refer to each other and edges that hold a parent in several partitions do not occur in them.", "anchors": ["common/lattice.cpp:680-712", "common/lattice.cpp:714-736", "common/lattice.cpp:739-751", "common/lattice.cpp:754-760"]}
{"id": "C57", "title": "A line of the PSI format reads back as it was written", "statement": "For every edge whose names, category, attributes, roles, scores and partitions contain none of the characters the format leaves unescaped (and whose numbered children come before the unnumbered ones), the line PsiLatticeWriter writes is accepted by the grammars of PsiLatticeReader and gives the same ordinal, places, length, tags, item text, category, score, attributes and partitions (edges, roles, tags, scores), or 'from symbols' exactly if the writer takes the partition for the default one. The text is the edge's own text if it was not shortened, and its first six and last three characters around '...' if the cuts do not hit an escape. Each excluded case has a witness where the line is misread.", "quantifier": "every edge data, every type of scores with a printer and scanner that fit together, every alignment of the cells", "why_tests_cant": "The writer and reader tests compare a few fixed files; no test writes a lattice with underscores in tags, commas in categories, several partitions over symbols or long texts with escapes and reads it back.", "anchors": ["formats/psi/psi_writer/psi_lattice_writer.cpp:61-390", "common/aligning_writer_worker.cpp:27-77", "formats/psi/psi_reader/psi_lattice_reader.hpp:32-311", "formats/psi/psi_reader/psi_lattice_reader.cpp:52-303"]}
{"id": "C58", "title": "The completion of a pipeline finds exactly the complete sequences and takes the best", "statement": "The sequences AutoCompleter finds are exactly those that the rules of completion allow (an inductive relation without iterators and restarts). In each, everything a processor requires is given by one processor in front of it; a choice for every original alternative is there in order, once per language where the alternative depends on languages; everything else was added for a requirement. A sequence with nothing missing is kept as it is. If annotators only require tags of a lower rank than those they are asked for, the completion ends; two annotators that require each other make it endless. The sequence taken is the first of the best (quality, then time) of those whose processors can all be created; if there is none, what the first of the best of all threw is thrown.", "quantifier": "every set of factories and promises, every sequence of alternatives, every list of languages, every weakly ordered type of scores, every number of turns", "why_tests_cant": "The tests complete a handful of pipelines with the installed processors; circles between annotators, several languages with several fulfillers, and ties between sequences are not tried, and a test cannot show that completion ends.", "anchors": ["framework/auto_completer.cpp:19-440", "framework/auto_completer.hpp"]}
{"id": "C59", "title": "MD5 digests are those of RFC 1321", "statement": "For every content of the not initialised buffer and every list of pieces of bytes, each shorter than 2^32 - 64 bytes, MD5::init, MD5::update for each piece, MD5::finalize and MD5::hexdigest give the 32 hexadecimal digits of the digest of RFC 1321 of the concatenation, however it is cut into pieces and however long it is. md5(text) gives the digest of the first (length mod 2^32) bytes if that number is less than 2^32 - 64; so it is right for shorter texts, but all texts of 2^32 bytes get the digest of the empty text, and for the 64 lengths below 2^32 memory after the text is read.", "quantifier": "all buffers, all lists of pieces, all texts", "why_tests_cant": "There are infinitely many texts and ways of cutting them; the lengths at which the counters of bits carry and the index wraps are beyond 512 MB and 4 GB, which unit tests do not reach.", "anchors": ["common/md5.cpp:112-363", "common/md5.hpp:50-95"]}
{"id": "C60", "title": "A PSI file has one line per visible edge, and its text can be rebuilt", "statement": "For every lattice that a program builds with vertices between characters, whose symbol edges are between vertices of the text, whose partitions can be read, in which no edge is made of itself and whose items at loose vertices have UTF-8 texts, the PSI writer ends; line k has the number k; every edge that is not hidden has exactly one line; every line for an edge tells the ends, the length, the text, the text and category of the item, and the tags, score, values and partitions of that edge (or it is the line of a symbol in a gap); every number in a partition is that of a line above, and only symbols have none. If moreover the text has no byte that the quoter writes as two and parts come before wholes, the text is rebuilt from the lines up to the end of the last visible edge. Without the last conditions it may not be: fourteen underscores let the writer shorten the next fourteen characters, and a part that comes after its whole is shortened. For edges made of each other the writer does not end.", "quantifier": "all lattices of careful programs, all topological sorts, all attribute managers", "why_tests_cant": "Which lines are written depends on the order of edges, on the texts written so far and on the recursion through partitions of any depth; tests compare a few files of short texts.", "anchors": ["formats/psi/psi_writer/psi_lattice_writer.cpp:74-399"]}
{"id": "C61", "title": "A PSI file that is read back gives the edges and the text that were written", "statement": "Whenever the PSI reader reads a file without an error, its lattice is one that calls of the lattice build; numbers of loose vertices stand for distinct loose vertices; if line numbers are distinct, every part of every line is an edge between the vertices the line names, with its tags, item and score, and with a partition made of the edges of the lines it names, and a line number stands for an edge of that line. Without edges from the text to loose vertices, the text is what the lines append, with question marks in gaps. For every lattice of a careful program that the writer can write, every edge that is not hidden is in the lattice that is read from the file; the text is read back up to the last end of such an edge, if no byte is quoted, parts come before wholes and no edge goes from the text to a loose vertex. Without these conditions the text may differ: the item of an edge from the text to a loose vertex, or the last byte of a shortened text with escapes, is appended to the text; \"X[1,-]\" is refused though \"X[-,1]\" is read; a byte of 128 or more in no edge stops the writer.", "quantifier": "all files, all lattices of careful programs, all topological sorts, all ways to show and scan scores that agree", "why_tests_cant": "The tests compare a few files read and written; that numbers, loose vertices, partitions and gaps come back in all combinations needs an argument over all files and lattices.", "anchors": ["formats/psi/psi_reader/psi_lattice_reader.cpp:44-326", "formats/psi/psi_writer/psi_lattice_writer.cpp:145-175"]}
{"id": "C62", "title": "The bracketing writer puts out the text with the brackets of its edges where they belong", "statement": "What the quoter of options quotes it unquotes to the same string. A printer whose patterns have at most one list prints every edge as the patterns mean: bytes, category, text, tags, attributes, score, role, and for the list the subpattern for every edge of the same place that agrees in what is printed, joined by the separator (if all attributes named are there, none is empty, and no per cent sign is printed before the list). Whatever is written: without the brackets it is the text; opening and closing brackets stand exactly at the beginnings and ends of the edges between beginnings of characters that are not empty, one pair for each; the brackets are well nested if no two such edges cross. An edge is skipped exactly if it is discarded, or blank where blanks are skipped, or a mere symbol where symbols are not shown, or has none of the tags of a filter; the options leave exactly the tags and attributes they name (all, if none); each of the eight brackets closes with its counterpart and any other character with itself. Brackets of one place are permuted so that no edge is inside one made of it, except perhaps the second in the first; this ends if edges rank above their parents. Without the conditions: an unclosed list may never end, an empty list stays as \"%*****\", missing attributes appear empty, mutual parents make the ordering loop forever, operator< of the edges is not an order, and an edge of loose vertices without a parent dereferences an empty optional.", "quantifier": "all texts, all lists of edges, all patterns, all types of scores", "why_tests_cant": "The tests print a dozen patterns for single edges and a few sentences; that brackets stay nested, in place and complete for all combinations of edges, patterns and nested lists needs an argument over all of them.", "anchors": ["formats/bracketing/bracketing-writer/bracketing_quoter.cpp:8-45", "formats/bracketing/bracketing-writer/bracket_printer.hpp:84-270", "formats/bracketing/bracketing-writer/bracketing_lattice_writer.hpp:112-243", "formats/bracketing/bracketing-writer/edge_data.hpp:15-93"]}
{"id": "C63", "title": "Symmetrised word alignments lie between intersection and union, are closed, and cover what they should", "statement": "For every direct and inverse alignment of two sentences: the direct, inverse, intersection and union alignments are printed as these sets of points, without repetitions. Whatever grow (with or without diagonal, final, bothuncovered) gives is in increasing order, contains the intersection, lies within the union, and is itself the union of a direct and an inverse alignment. Without final, every point is chained to the intersection by neighbouring points of the union, and a neighbouring point of the union is left out only if both its words have points. With final, both words of every point of the union have points, or with bothuncovered at least one of them; no grown point is lost. Growing ends after at most n + m + 1 rounds. The line is the pairs counted from 0, separated by spaces and ended by a newline. Exchanging the two languages does not always exchange the coordinates.", "quantifier": "all sentence lengths, all direct and inverse alignments within them, all options", "why_tests_cant": "There are no tests of this tool; the set is extended while it is walked through, so what is found depends on the order, and only an invariant shows that the result is closed for all alignments.", "anchors": ["tools/translators/bonsai/utils/binaries/symal.cpp:123-384"]}
{"id": "C64", "title": "minfsa writes the minimal automaton of sorted words while it keeps only one word in memory", "statement": "For every non-empty list of different non-empty words in increasing order, minfsa writes lines (arcs and end states), none of them twice, that make a deterministic automaton accepting exactly these words from state 0. Its states are numbered 0, 1, 2, ... without gaps; no two of them accept the same words, each is on the way from the start to an end, and no deterministic automaton of the words has fewer states. After any number of words the table kept in memory has just one state more than the last word has symbols. A repeated word, an empty word or no word at all is undefined behaviour, and words out of order may give an automaton that accepts a word that was not given.", "quantifier": "all lists of sequences of ints, all word lengths; no automaton, of whatever type of states, is smaller", "why_tests_cant": "States are written out and forgotten while words are still to come; that nothing written could still have changed, and that no equal states remain, holds only because of an invariant over the whole run.", "anchors": ["tools/translators/bonsai/utils/binaries/IncrementalFSA.cpp:9-238", "tools/translators/bonsai/utils/binaries/IncrementalFSA.hpp:15-74", "tools/translators/bonsai/utils/binaries/Register.hpp:22-86", "tools/translators/bonsai/utils/binaries/minfsa.cpp:10-51"]}
{"id": "C65", "title": "The index of rules made by minfsa, sort and binfsa finds, numbers and gives back exactly the rules", "statement": "For every non-empty list of different non-empty words in increasing order with symbols from 0 to 2^31-1 and fewer than 2^31 symbols in all: minfsa, sorting its lines and binfsa give an index; in it `in` finds exactly the words and `prefix` exactly their beginnings; `hash` of the i-th word is i (from 1) and of any other sequence of ints -1; `unhash` of i is the i-th word and of any other number the empty word. This holds for whatever order std::list::sort leaves the states in, though the predicate given to it is no strict weak ordering (two states may each come before the other). In mode 4 a state whose arcs start just where the loaded arcs end is read beyond them.", "quantifier": "all lists of words, all looked-up sequences of ints, all numbers of type int, every way of cutting the list of states into pieces that are merged", "why_tests_cant": "The numbers depend on counts over whole subautomata, and renumbering the states by usage has to keep state 0 first under an inconsistent comparison; the claim is over all word lists and all merge orders.", "anchors": ["tools/translators/bonsai/utils/binaries/CompressedDAGBuilder.hpp:17-264", "tools/translators/bonsai/rules/CompressedDAG.cpp:45-320", "tools/translators/bonsai/utils/binaries/binfsa.cpp:1-39", "tools/translators/bonsai/utils/scripts/binarize-rules.perl:188-192"]}
{"id": "C66", "title": "The automata built while translating are determinized, minimized and united without changing their words", "statement": "For every SimpleDAG whose arcs lead to its states and whatever order std::sort leaves arcs of one symbol in: reverse gives the automaton of the words read backwards; determinize ends, its result has state 0 as its only start state, at most one arc for each state and symbol, only states that are reached, and the same words; minimize ends, keeps the words, and no deterministic automaton for these words, with any kind of states, has fewer states; nd_union gives exactly the words of both, det_union the same deterministically; on a deterministic automaton `in` says yes to exactly its words and `prefix` to exactly the sequences that lead somewhere; new_state changes no words and new_arc adds exactly the arc.", "quantifier": "all automata (cyclic, not deterministic, with several start states, with no states), all words of ints, every function that sorts arcs by symbol", "why_tests_cant": "Equality of infinite languages and minimality against all other automata are not observable by running finitely many words; determinize runs through a queue that may hold the start set twice and renumbers states in the order of a map of bitsets.", "anchors": ["tools/translators/bonsai/rules/SimpleDAG.cpp:19-31", "tools/translators/bonsai/rules/SimpleDAG.cpp:87-206", "tools/translators/bonsai/rules/SimpleDAG.cpp:237-395"]}
{"id": "C67", "title": "Looking up all words of an automaton in the index of rules gives exact numbers, each word once", "statement": "For every index made from a fitting list of words (as in C65) and every whole deterministic automaton, multihash ends after at most states-of-index times states-of-automaton turns; every word it gives is in both, comes with its place in the list of words counted from one, and comes once. Every common word is given if two beginnings that lead to one state of the automaton and have the same continuations in the index always have the same length; without this common words are lost (index of 5 1 4 and 5 2 3 4, automaton with the same two words: only the first is given).", "quantifier": "all fitting word lists, all resulting indexes, all whole deterministic automata", "why_tests_cant": "Which words are lost depends on the order in which pairs of states leave the queue; tests with short rules never join ways of different lengths.", "anchors": ["tools/translators/bonsai/rules/CompressedDAG.cpp:485-562", "tools/translators/bonsai/rules/RuleSet.cpp:86-110"]}
{"id": "C68", "title": "The automaton bounding rules takes exactly the rules of bounded length with a bounded number of nonterminals", "statement": "For all maximal lengths n and numbers of nonterminals k at most n, building the intersector ends, and the result is a whole deterministic automaton that takes exactly the words made of a one (the left side) and then one to n zeros and ones with at most k ones. With k = n+1 it takes only words with no ones on the right, and with k > n+1 the enumeration of places reads before the beginning of its vector.", "quantifier": "all n, all k, all contracts-meeting sorts of arcs", "why_tests_cant": "The enumeration of places (nextksb) has n-choose-k runs; tests use the defaults seven and four and never the boundary k > n.", "anchors": ["tools/translators/bonsai/rules/RuleSet.cpp:296-380", "tools/translators/bonsai/rules/RuleSet.cpp:492-523"]}
{"id": "C69", "title": "The automaton of a parsed sentence takes exactly the bounded rules that fit it; rules found are rules of the index that fit", "statement": "The automaton of one nonterminal takes exactly its symbol followed by the symbols of each way of edges from its first to its last token (nothing if these are the same). Cutting an automaton down with any whole deterministic automaton over zeros and ones ends and keeps exactly the words whose image (one for symbols known as nonterminals) is taken by it. So for k at most n the automaton of a sentence is whole, deterministic and takes exactly the rules that fit some nonterminal of the sentence, have at most n symbols on the right and at most k that are known as nonterminals. The rules found for the sentence in an index are rules of the index with their places, fit the sentence, and come once. Not all are found: for S(NP(a b) c) and the rules S -> NP c, S -> a b c only the first is found.", "quantifier": "all sentences (lists of nonterminals with their edges), all sets of known nonterminals, all n, k <= n, all indexes", "why_tests_cant": "The loss of rules needs two ways of different lengths to one state of the index, which small test rule sets do not have; exactness concerns all ways of a sentence.", "anchors": ["tools/translators/bonsai/rules/RuleSet.cpp:296-316", "tools/translators/bonsai/rules/RuleSet.cpp:318-399", "tools/translators/bonsai/rules/RuleSet.cpp:401-444"]}
{"id": "C70", "title": "Rules are fitted into the sentence exactly, targets take the numbered nonterminals, costs are weighted sums", "statement": "If the symbols of a sentence cover something, word_to_slist ends; every list of symbols it gives fits (each symbol stands for its number of the rule, begins where the one before ends, the whole covers the left side exactly, and the rule is not applied to itself); every left side that the rule fits is given, once, with one way to fit it; nt_index gives the place of the i-th nonterminal. Target symbols '<X>[d]...' (d with white space and a sign before it or without) become the d-th source nonterminal if there is one, and stay themselves otherwise, as do all symbols that neither begin with '<X>[' nor begin it; the cost is the weighted sum of as many costs as there are weights. Not true: that all ways to fit are given, that fits with empty symbols are found, that the word '<' is safe (sscanf gives EOF and an unset index is used), that odd alignments are safe.", "quantifier": "all sentences, all words, all sets of names, all weights", "why_tests_cant": "Which way is found depends on the order of a set; '<' as a target word and empty edges do not occur in test grammars.", "anchors": ["tools/translators/bonsai/rules/RuleSet.cpp:181-246", "tools/translators/bonsai/rules/RuleSet.cpp:248-290", "tools/translators/bonsai/translator/TransferTypes.cpp:74-121"]}
{"id": "C71", "title": "Language model costs of translations add up to the cost of the text, unless words stand between nonterminals", "statement": "For models of order n >= 1 get_cost of a text is the sum over all of its windows of n words; get_cost with link points is the sum over the windows that have words on both sides of at least one of them, each once. What substitute adds to the cost of a translation is the cost of its text minus those of the texts of its nonterminals, plus, for every run of words between two nonterminals, the cost of all that stands before the run and of the windows on its border (an excess). If in all target sides of a tree of transformations no words stand between nonterminals and every nonterminal occurs once, the cost of the translation is the sum of the costs of the transformations and the weighted model cost of its text. The heuristic is the cost of the first n-1 words, each after those before it. Not true: that the excess is zero in general, that a nonterminal used twice is paid for twice, and that get_terminal_cost counts words after the first nonterminal.", "quantifier": "all language models, all texts, all sets of links, all trees of transformations", "why_tests_cant": "The result is a float compared with others; a constant overcount on some rules only changes which translation wins.", "anchors": ["tools/translators/bonsai/translator/LmContainer.cpp:53-181", "tools/translators/bonsai/translator/LmContainer.cpp:222-240", "tools/translators/bonsai/translator/Translation.cpp:10-35", "tools/translators/bonsai/translator/Translation.cpp:218-309"]}
{"id": "C72", "title": "Merging hyperedges gives translations of theirs, ends, and gives the k cheapest if costs are monotone and differ", "statement": "Whatever std::set does with a comparison that is no strict weak order (it may refuse only elements that have something neither less nor greater in the set): everything merge gives is a translation of one of the hyperedges, at most k are given, it ends if no set is empty, and the cheapest of the first translations of the hyperedges is among them. If choosing a later transformation or a later translation of a nonterminal is never cheaper, all translations have different costs and the order of the queue tells them apart, exactly the k cheapest of all translations are given (all, if there are fewer). Not true: that translations of equal cost are all found when there is room for them (candidates are compared by cost only), and that a cheaper way to the same text replaces one found before.", "quantifier": "all hyperedges, all translations of their nonterminals, all k, all ways to build and to compare translations", "why_tests_cant": "Ties between floats and orders of the candidates are rare and invisible in the output of a test.", "anchors": ["tools/translators/bonsai/translator/Translator.cpp:80-168", "tools/translators/bonsai/translator/Translator.hpp:31-57", "tools/translators/bonsai/translator/Translation.hpp:90-97"]}
{"id": "C73", "title": "Hyperedges: how many transformations and hyperedges are kept, which ones, and what merging rule sets does to them", "statement": "Whatever std::set does with the comparison of transformations: a hyperedge gets at most max transformations, all from the list, and without a threshold the first max of them if they differ; the comparison is an order only among transformations of which cheaper ones never have greater strings. A symbol keeps, for each of its max cheapest costs, the hyperedge that came first with that cost, in the order of costs, and symbols do not influence each other. Merging a hyperedge of another rule set gives its transformations to the last hyperedge with the same nonterminals (keeping those that were there) or adds it, unless another hyperedge has the cost it then has; tables are merged symbol by symbol. Not true: that the comparison of transformations is an order, that the cheapest transformation is kept when there are too many, that hyperedges are kept if there is room, and that merging loses no transformation.", "quantifier": "all lists of transformations and hyperedges, all bounds and thresholds, all ways to insert into a set with that comparison", "why_tests_cant": "Which transformations survive depends on ties and on orders of whole rule sets; the output only gets slightly worse.", "anchors": ["tools/translators/bonsai/rules/RuleSet.cpp:111-169", "tools/translators/bonsai/rules/RuleLoader.cpp:137-189", "tools/translators/bonsai/translator/Transformation.hpp:68-114", "tools/translators/bonsai/translator/Transformation.cpp:117-124"]}
{"id": "C74", "title": "Rule extraction: the phrase pairs are exactly those consistent with the word alignment", "statement": "An alignment is accepted exactly if no sentence is empty and all points lie between words. For sentences of at most 10000 source words, the pairs of spans found are exactly those for which some word of one span is aligned to one of the other, no word of either is aligned outside of the other, both are within the length limit and both have nodes in the trees (if syntax is used); each is found once. Rules without holes are those pairs with few enough words on both sides, except a boundary mark alone. Not true: that this holds in longer sentences (the minimum starts at 9999), and that with boundary rules points behind the last word are refused.", "quantifier": "all sentences, alignments, limits and trees", "why_tests_cant": "Spans with unaligned words at the edges, duplicate points and limits combine in too many ways.", "anchors": ["tools/translators/bonsai/utils/binaries/extract-rules-main.cpp:374-471", "tools/translators/bonsai/utils/binaries/extract-rules-main.cpp:880-887", "tools/translators/bonsai/utils/binaries/SentenceAlignment.cpp:57-123"]}
{"id": "C75", "title": "Rule extraction: the rules with holes are exactly those that meet all limits, each found once", "statement": "A rule with holes is saved exactly if its pair of spans is consistent and its holes (at least one, at most the allowed number) are consistent pairs inside of it that are not all of its target, are large enough, follow each other in the target and are disjoint in the source (with a word between them where required), leave enough words on both sides, give few enough symbols and choice points, and leave an aligned word unless no word is left; the tests made while holes are added never lose a rule that meets the final conditions. No rule is saved twice. Words and holes that are left are aligned to what is left, so no position is missing when the alignment is written.", "quantifier": "all sentences, alignments and options with holes of at least one target word", "why_tests_cant": "The search prunes with conditions on unfinished rules; whether a rule is lost shows only for particular combinations of options.", "anchors": ["tools/translators/bonsai/utils/binaries/extract-rules-main.cpp:449-471", "tools/translators/bonsai/utils/binaries/extract-rules-main.cpp:756-878", "tools/translators/bonsai/utils/binaries/HoleCollection.cpp:42-65", "tools/translators/bonsai/utils/binaries/HoleCollection.h:71-93", "tools/translators/bonsai/utils/binaries/Hole.h:92-101", "tools/translators/bonsai/utils/binaries/RuleExist.h:49-75"]}
{"id": "C76", "title": "Extracted rules: the sides cover the phrase, the alignment is that of the sentence, and counts add up", "statement": "The two sides of a rule with holes are the words of the phrase in order with each hole once in the place of its words, within the limits on symbols. Its alignment never uses a missing position and links exactly the words that are left and were aligned in the sentence, and each hole to itself; the alignment of a rule without holes is that of the sentence, moved to its beginning. If duplicates are not allowed, a rule is dropped exactly if a kept one has the same words and a target that meets its own. Each different rule (words and alignment) is written once, with the counts of its equals; the counts written add up to the number of different phrases with fractional counting and to the number of rules without. Not true: that with boundary rules the rules at the end of the sentence are labelled as sentences (only those without holes are).", "quantifier": "all sentences, alignments, options and lists of rules", "why_tests_cant": "Positions of holes and words shift against each other on the two sides; rounding apart, totals over all rules cannot be tested.", "anchors": ["tools/translators/bonsai/utils/binaries/extract-rules-main.cpp:473-703", "tools/translators/bonsai/utils/binaries/extract-rules-main.cpp:756-759", "tools/translators/bonsai/utils/binaries/extract-rules-main.cpp:894-1031", "tools/translators/bonsai/utils/binaries/HoleCollection.cpp:27-40"]}
{"id": "C77", "title": "Numbers in Polish words: the right numeral for every number of up to 660 digits, and it can be read back", "statement": "For every string of 1 to 660 digits the cardinal and the ordinal text are the words of an independent grammar of Polish numerals (groups of three digits with the name of their power of a thousand in the form that the group governs; of an ordinal only the last group that is not zero is declined), and there is one code of inflection per word. The words of the cardinal, read one by one, give the number back, so different numbers have different texts. A string of digits is converted as it is; only a string without any digit on a side of a comma, slash or minus reads outside of a string. The comparison that tells a difference from a range is right for integers without leading zeros. Not true: that plural ordinals of round thousands are ordinals; that longer numbers are converted (a mark # is left in the text); that zeros behind a comma are read as often as they are written; that decimal fractions are compared rightly.", "quantifier": "all strings of digits (up to 660 digits for the text)", "why_tests_cant": "There are more numbers of 660 digits than can be tried; forms change with the last digits of every group and with its rank.", "anchors": ["tools/translators/transferer/numconversion.cpp:554-945", "tools/translators/transferer/numconversion.cpp:962-1048", "tools/translators/transferer/numconversion.cpp:1126-1219", "tools/translators/transferer/transferer.cpp:2094-2114"]}
{"id": "C78", "title": "Tagset converter: what rules do to annotations, exactly when they end, and how lines become rules", "statement": "A rule without alternatives gives every annotation that meets its words and conditions the last constant assigned to each name, leaves the others, adds none, and reports exactly whether one met them; a skipping rule removes exactly those. A rule with alternatives v|w|... ends exactly if no alternative but the first still meets the conditions; then each annotation becomes the first alternative, and the others are put behind all annotations in order. A line is taken apart into the conditions and commands it was put together of, and gives rules with its conditions, at most one command with alternatives each, and all its commands in order; of several definitions of a name the first counts. Category, attributes and values are renamed by the maps, if no two attributes get one name. Not true: that every rule ends (CAT=adj >> Typ=a|b never does); that commands behind alternatives are done for each of them, that two pairs of alternatives give all combinations, that references may stand in any alternative of a category, that a line with an empty command is done to its end, that lines behind an empty line are read.", "quantifier": "all rules, annotations, lists of annotations and lines", "why_tests_cant": "Whether a rule ends depends on which conditions its own alternatives keep true; a test of one rule says nothing about others.", "anchors": ["tools/converters/unumsunt/unumsunt_rule.cpp:52-174", "tools/converters/unumsunt/unumsunt.cpp:104-219", "tools/converters/unumsunt/unumsunt.cpp:236-288", "tools/converters/unumsunt/unumsunt.hpp:36-94"]}
{"id": "C79", "title": "Selector: which edges are chosen at a vertex, when the search for them ends, and what covers the text; antiselector", "statement": "An edge is allowed if it has no condition, the condition *, or one that an edge with the same ends meets: one of its alternatives between bars has only descriptions (between ampersands) that are the category or an attribute=value of that edge. At a vertex with a fallback edge the selector adds exactly the edges of those sequences (an edge, then always the first one behind it, to the end of the fallback edge or as far as there are any) in which all edges are allowed, and the fallback edge if there is no such sequence; blank ones are left out unless asked for. The search ends if edges lead forward. A sequence begins at the vertex, is without gaps, and ends where the fallback edge does if no edge leads over that place and no vertex before it is a dead end. If the new edges have no tag that is looked for, a whole run adds what these choices are for the lattice as it was. The antiselector adds exactly the fallback edges that have no edge of the other kind with the same ends. Not true: that chosen edges always cover the fallback edge, that a vertex whose fallback edge is not blank always gets an edge, that the search always ends, that a run with the default tags adds only edges of such sequences of the lattice as it was.", "quantifier": "all lattices (as far as they are asked), vertices, edges, conditions and options", "why_tests_cant": "Sequences of any length over any lattice, with any conditions; whether the text stays covered depends on edges that no test has.", "anchors": ["tools/converters/selector/selector.cpp:108-275", "tools/converters/antiselector/antiselector.cpp:102-133"]}
{"id": "C80", "title": "Puddle: escaping of special characters there and back, morphology strings, positions of matched tokens, moving rules", "statement": "Escaping replaces every character by its code at once, leaves none of < > ( ) | + * ? in the text and maps different texts to different ones. Unescaping reads five codes (of parentheses, asterisk, plus, ampersand) from left to right, then the four others from left to right in what that gives. Of an escaped text unescaping gives the text with plus and asterisk exchanged and with the four other codes read where they stood in the text; so exactly the text if it has no plus, asterisk, &lt; &gt; &#63; &#124;. A morphology string is the part of speech and the other values in the order of the attributes, joined by colons, if there is a part of speech. The positions of an element, of a range of elements and of a group are the numbers of tokens matched before them; a group whose head has matched nothing is refused; the position of the head is counted from the beginning of the group; a head that is an element of the group is kept. A moved rule stands at the given place and the others keep their order. Not true: that unescaping undoes escaping; that the head of a group behind a left context is counted from where the other positions are; that the head of a group is always an element.", "quantifier": "all texts, morphologies, vectors of sizes, group boundaries and lists of rules", "why_tests_cant": "Any text can be a word of the sentence; the nine replacements done one after the other act on each other's results.", "anchors": ["tools/parsers/puddle/puddle_util.cpp:15-243", "tools/parsers/puddle/group_action.cpp:20-110", "tools/parsers/puddle/rule_modifier.cpp:26-38"]}
{"id": "C81", "title": "Puddle: top edges of a vertex, the position of the k-th token, and the sequences of edges between two vertices", "statement": "The top edges of a vertex are, in the order of the lattice, those that are not discarded and not blank tokens, that no edge inside the edges of this vertex outreaches, that are like none of those inside edges, and that are no tokens if there is an edge of another kind. They all end where the longest edge does if the edges inside reach to the ends; there is one if the longest edge is like none inside and is a token only if all are. If at every vertex the last edge ends where the top edges do, or is a blank of one character followed by a word, the k-th position is that of the k-th token of the sentence string from the same offset on, or the end of the text if there are fewer tokens. The ranges from a vertex to another are exactly the ways over top edges and vertices without any, if the top edges of a vertex have the same length; the search for them ends if no edge is empty. Not true: that a vertex with a usable edge has a top edge, that ranges never overlap, that positions agree when an edge is discarded or two blanks stand in a row, that the search for a position ends at the end of the text.", "quantifier": "all lattices (as far as they are asked), vertices, offsets and numbers of tokens", "why_tests_cant": "It depends on every edge of the lattice, discarded ones included, and on their order; lattices are unbounded.", "anchors": ["tools/parsers/puddle/lattice_wrapper.cpp:195-350", "tools/parsers/puddle/lattice_wrapper.hpp:132-210", "tools/parsers/puddle/rule_matcher.cpp:111-187"]}
{"id": "C82", "title": "Puddle: the sentence string tells every token and is taken apart correctly", "statement": "If the kinds are t, s or g and no category contains an angle bracket then different lists of tokens have different strings, also with the marks of the sentence around them; the number of tokens counted in a piece that consists of whole tokens is their number; the index read at the beginning of a piece is the start of its first token and that read at its end is the end of its last; the sizes of the parts of a match are the numbers of their tokens, and the match is refused exactly if a required part is empty or all are; a match of whole tokens starts where the token before it ends (or where its first token starts, if there is none) and the search goes on at the start of the token behind it. Not true: that there is always a place to go on (a match that takes in the end of the sentence gives -1); that a category with > is read as one token.", "quantifier": "all lists of tokens with any texts, base forms, morphologies and numbers; any pattern", "why_tests_cant": "The string is taken apart again with regular expressions for every rule; the texts in it are arbitrary.", "anchors": ["tools/parsers/puddle/rule_matcher.cpp:111-187", "tools/parsers/puddle/rule.cpp:150-253", "tools/parsers/puddle/rule.cpp:332-385"]}
{"id": "C83", "title": "Puddle: the actions unify and delete: when they are possible and which edges they discard", "statement": "Unify is possible if for every attribute there is a value on which all tokens that have any agree; with two tokens only then. The sequences of edges that it keeps are exactly the choices of one edge for every token, not discarded and fitting the same interpretation. If every element of the rule matched one token, an edge is discarded exactly if some kept sequence is in a partition of the rule and no kept sequence has at its place an edge of its morphology. Delete discards exactly the edges not yet discarded for which one of the conditions asks: a morphology that matches, a base form that does not (or, with a negation, that does). The search for edges to delete finds whether any edge is not discarded, whatever the conditions, and the test always succeeds. Not true: that three tokens agree if unify is possible; that elements that match nothing or several tokens are handled (all edges are discarded, or a vector is written behind its end); that all conditions of delete must hold, or that a condition on the base form deletes the edges that meet it.", "quantifier": "all tokens, edges, values, patterns and conditions; regular expressions are parameters", "why_tests_cant": "The sets of values and the product of the edges grow with every token; the wrong cases need three tokens or an element that matches none.", "anchors": ["tools/parsers/puddle/unify_action.cpp:14-400", "tools/parsers/puddle/delete_action.cpp:43-148", "tools/parsers/puddle/lattice_wrapper.cpp:987-1027"]}
{"id": "C84", "title": "Puddle: the tagset: what is read, the proper labels, reading a label and the interpretations of the action add", "statement": "What is read from the entries of a tagset is exactly the attributes, parts of speech and open classes in them, each name once (a second time is refused), and open classes are parts of speech. The proper labels are exactly: a part of speech and a value for each of its attributes (or none where it is optional) in the alphabetical order of the attributes. If no value belongs to two attributes of a part of speech, a label with values in the order of its attributes is read back as these values; so proper labels are read back if the attributes stand in alphabetical order. The interpretations that a pattern of the action add gives are exactly those in which every attribute, by its position, has one of the values asked for, and all are proper. Not true: that proper labels are read back in general; that a label of an unknown part of speech can be read (an iterator at the end is dereferenced); that every value has a character; that a star too many is an error.", "quantifier": "all entries, tagsets with well-formed names, labels, choices of values and patterns", "why_tests_cant": "The number of labels is the product of the numbers of values; the order of a std::map against the order in the file shows only in some tagsets.", "anchors": ["tools/parsers/puddle/tagset.cpp:102-204", "tools/parsers/puddle/tagset.cpp:426-485", "tools/parsers/puddle/tagset.cpp:596-711", "tools/parsers/puddle/rule_loader.cpp:1050-1127"]}
{"id": "C85", "title": "The SRX segmenter cuts where the first rule that speaks of a place says to break", "statement": "A rule speaks of a place if one of its matches has its break there. If the matches of rules begin and break between characters, are not empty, and of two matches of a rule the later does not break earlier, then the first cut is the first place behind the start of which the first rule to speak, in the order of the rules, is a breaking one, and without such a place there is no cut; if no match lies over such a place, the cuts are exactly all these places from left to right, whatever the cache of positions of the rules holds. In a pattern exactly the parentheses that are not escaped and not followed by a question mark become non-capturing, after which the pattern has no groups. The rules are those of the names of all maps whose pattern matches the language (the first only, if there is no cascade), in the order of the rules. Not true: that a non-breaking match that begins in the sentence before is respected (it depends on the order of the rules whether it is remembered); that a non-breaking match is heard if an earlier match of its rule breaks later; that sets of characters with a parenthesis keep their meaning.", "quantifier": "all texts, all lists of rules, all patterns, all maps; regular expressions are given by their matches", "why_tests_cant": "The positions of every rule are kept from cut to cut and only looked for again when they fall behind; the errors need matches that overlap a cut.", "anchors": ["tools/segmenters/srx/srx_segmenter.cpp:105-142", "tools/segmenters/srx/srx_segmenter.cpp:187-261", "tools/segmenters/srx/srx_segmenter.cpp:301-389", "tools/segmenters/srx/srx_rules.cpp:37-95", "tools/segmenters/srx/srx_rules.hpp:57-111", "common/escaping.cpp:4-12"]}
{"id": "C86", "title": "The tp tokenizer: its rule files are taken apart and obeyed as meant, and the last rule that matches makes the token", "statement": "From a text exactly the comments are removed (an unescaped # up to and with the end of the line), and it is told whether it ends in one; a file falls into the pieces between the at signs that are neither escaped nor in a comment, and joined again they are the file. Trimming takes away exactly the white space around, but leaves an escaped space behind the last black character. In the value of a definition an odd number of backslashes before # or @ becomes less by two (one becomes none), all else stays. If conditions with an else part are not inside other conditions, a file is obeyed as it is meant: exactly the commands whose conditions hold are done, and the first definition of a name counts. A token is what the last rule of the file that matches at the place consumes, with its category, the rule main_regex apart; if none matches it is one symbol of category X. Not true: that a condition with an else part may stand in a part that is skipped (its end opens the text again); that a second else is refused; that an else without a condition is (the end of an empty list is read).", "quantifier": "all texts, all files, all nestings of conditions, all lists of rules; regular expressions are parameters", "why_tests_cant": "The tests load one file; escapes before comments and at signs, and conditions inside conditions, combine without end.", "anchors": ["tools/tokenizers/tp/tp_basic_tokenizer_rule_set.cpp:34-108", "tools/tokenizers/tp/tp_basic_tokenizer_rule_set.cpp:395-513", "tools/tokenizers/tp/tp_basic_tokenizer_rule_set.cpp:826-886", "tools/tokenizers/tp/tp_token_cutter.hpp:40-67"]}
{"id": "C87", "title": "LamerLemma: the lemma codes are read back, and the dictionary answers what the lines of the text say", "statement": "The code of a lemma for a form is the number of bytes of the form before and behind the longest beginning of the lemma that the form has (its first place counts), and the rest of the lemma. It is read back as the lemma exactly if not more than 62 bytes are before it and not more than 62 behind. A line is stored with the code in the place of the lemma; fields after the fourth are dropped; a line with one field is refused. For a dictionary read from lines whose forms have not more than 62 bytes, and a token without a tab, the answer has exactly the lemmas of the lines with this form, under a lemma exactly the tags of its lines, under a tag exactly what the tag says (the last field about a key counts) and a set of features for every line. lemmatize gives at level 3 exactly the lemmas, lexemes and forms of these lines, and at a lower level the same without those of a higher rank. Not true: that longer forms keep their lemmas (a form of 64 bytes is put before the lemma); that every lemma is given once (lemmas that differ behind a colon are given twice).", "quantifier": "all forms and lemmas, all lists of lines below the size of the store, all tokens and levels", "why_tests_cant": "The tests look up a few words of one lexicon; the code has a limit at 62 bytes that no test reaches, and lines combine in any number under one form.", "anchors": ["tools/lemmatizers/lamerlemma/utility_functions.cpp:10-143", "tools/lemmatizers/lamerlemma/utility_functions.hpp:29-53", "tools/lemmatizers/lamerlemma/dictionary.cpp:9-19", "tools/lemmatizers/lamerlemma/dictionary.cpp:47-53", "tools/lemmatizers/lamerlemma/lamerlemma.cpp:46-105"]}
{"id": "C88", "title": "The language guesser: bigrams are counted, letters looked for and languages chosen as told", "statement": "The bigram table counts every pair of neighbouring characters of a text but the last pair, at a place below 512; the frequencies are between 0 and 1 and sum up to 1 for a text of three characters or more, and are 0 otherwise. The guess by bigrams is the nearest language, the first of several, and with tables of frequencies there always is one unless the text is empty. The guess by letters is the first language such that the text has a word and every word has one of its letters. The forced language is always answered; a text of 24 bytes or more gets the nearest language; a shorter one the language of its letters, or else the default language, or if a guess is forced the only language or the nearest one. Not true: that a forced guess always gives a language (one character that is not ASCII makes an exception).", "quantifier": "all texts of code points, all lists of languages with tables between 0 and 1, all settings", "why_tests_cant": "The tests guess a few sentences; the last pair that is never counted and texts of one character are not seen by them.", "anchors": ["tools/recognizers/langguesser/lang_guesser.cpp:96-221", "tools/recognizers/langguesser/bigram_language_model.cpp:23-28", "tools/recognizers/langguesser/bigram_language_model.cpp:46-95"]}
{"id": "C89", "title": "The detokenizer joins the tokens in the order of their positions with spaces where they belong", "statement": "The text is the tokens that are not empty, in the order of their surface positions, of several at one position the last one only; between two of them there is one space, but none behind an opening bracket and none before a closing bracket, a stop, a comma, a colon, an exclamation or a question mark. Nothing but spaces is added to the tokens. Not true: that every token is in the text (of two at one position one is lost).", "quantifier": "all lists of tokens with positions", "why_tests_cant": "The order, empty tokens and brackets combine in any number; a test joins one sentence.", "anchors": ["tools/tokenizers/detok/detok.cpp:53-149"]}
{"id": "C90", "title": "Morfologik and SFST tags: the kinds of their parts, the choices between dots, attributes of lexemes and forms, and the three levels", "statement": "The description of a tag has for every kind the first of its parts of this kind. If every part with dots is known and the first of its kind, the tag is read as exactly the descriptions with one of the values between dots for every kind, in order; any other tag is read as nothing. The forms of a tag leave out the part of speech and the gender of a noun or the aspect of a verb; there are none if the part of speech has dots, and for SFST also if the gender or aspect left out has. The lexeme has the first of pos, depreciativity, tense and mode (participles are verbs) and the gender or aspect with dashes. On levels 2 and 3 every stem is a lemma once, in order, with the lexemes and forms of its answers; a form has the values of its lexeme beneath its own. Not true: that a tag with known parts always has forms; that on level 1 a lemma is given once.", "quantifier": "all tags, all tables, all answers of the stemmer", "why_tests_cant": "The tests read a handful of tags from the dictionary; the counter of dotted parts goes wrong only for tags that are not in them.", "anchors": ["common/morfologik_tags_parser.cpp:14-317", "tools/lemmatizers/sfst/sfst_tags_parser.cpp:14-274", "tools/lemmatizers/morfologik/morfologik.cpp:94-350"]}
{"id": "C91", "title": "Conversion of encodings: tiniconv's sets and UTF-8 read back what they write, the conversion stops where it says, and what the converter keeps of a text", "statement": "In each of the 28 one-byte sets a byte that is read as a character is what is written for this character and the other way round, the lower half is ASCII, and no table is read beyond its end. UTF-8 is read exactly in the shortest form of the characters below 2^31 and written so if there is room; a character that is cut off asks for more bytes. UCS-2 is read back except for byte order marks, which are read over; a mark in the other byte order turns the order for what follows. The conversion writes the encodings of the characters at the front of the input, never more than the buffer, reports the bytes of exactly these, and the code says why it stopped. EncodingConverter turns a text in a one-byte encoding into the UTF-8 of its characters before the first zero byte, as many as fit into the buffer; a byte that the encoding does not have leaves the text as it was; a text from ASCII, an unknown or the target encoding is left alone. Not true: that only Unicode is read as UTF-8; that texts longer than the buffer are converted whole or refused; that a converter for UTF-8 converts from UTF-8; that a UCS-2 text of Latin letters survives.", "quantifier": "all bytes and characters, all inputs, buffer sizes and options, all texts and encodings", "why_tests_cant": "The tests convert a few short sentences from a few encodings; a wrong entry in one of 28 pairs of tables, a full buffer or a zero byte never comes up.", "anchors": ["tiniconv/encdec/cp1250.h:25-150", "tiniconv/encdec/iso8859_2.h:25-115", "tiniconv/encdec/utf8.h:27-128", "tiniconv/encdec/ucs2.h:28-67", "tiniconv/tiniconv.c:46-133", "common/encoding_converter.cpp:10-175"]}
{"id": "C92", "title": "Checksums of zlib: the CRC is the shift register of its polynomial and detects any change of four bytes, Adler-32 is the sums modulo 65521, and what combining gives", "statement": "The four CRC tables are the register of the polynomial after one to four bytes; crc32, byte by byte or by words from any alignment, is the register over all bytes, can be gone on with, and differs between buffers that differ only within four neighbouring bytes; crc32_combine gives the CRC of two buffers from theirs and the second length and never reads beyond a matrix. adler32 gives the sums of the bytes and of the running sums modulo 65521 for buffers of any length: with an unsigned long of 32 bits nothing is lost between two reductions; it can be gone on with; adler32_combine gives the sums of both buffers but with 65521 for a sum that is 0. Not true: that adler32_combine always gives the checksum of both buffers (two empty ones give another).", "quantifier": "all buffers of bytes, start values, alignments and splits; all word sizes of at least 32 bits", "why_tests_cant": "The project has no test of the bundled zlib; a wrong table entry, a block one byte too long for 32 bits or a sum that is exactly 0 is met by next to no buffer.", "anchors": ["fex/zlib/adler32.c:11-149", "fex/zlib/crc32.c:219-423", "fex/zlib/crc32.h:5-440"]}
{"id": "C93", "title": "Annotated sentences of the rule extraction: words, tokens, escapes, attributes and tags, and that a line is read exactly if it is a document", "statement": "Tokenize gives the pieces between delimiters that are not empty. A line is cut into tags and texts that make it up again, and every list of tags with texts between them is what its line is cut into; if a tag has no end, the text before it is lost and nothing else but the tag. Escapes are replaced by what they mean, an unknown name is an exception, and a known name without a semicolon makes the loop go on for ever. An attribute that is not empty is what is between its quotes where its name first ends before an equals sign and a quote. Tags with blanks around a name and a content are opening, closing or unary ones with these. A tag that begins and ends with a slash, or is blank, makes its line be refused. A line with tags is accepted exactly if its tokens are a document: elements closed in order by their names with at least one word or a span of their own; then the words are those of the texts, the nodes those of the elements in the order of their ends, and the top labels those of the nodes over all words. Not true: that empty attributes are read as empty, that an attribute is found by its whole name, that a line with an unfinished tag is refused, that a line without tags is unescaped.", "quantifier": "all strings, delimiters, tokens, attributes and lines, with and without unescaping", "why_tests_cant": "The project has no tests of these binaries; unfinished tags, empty attributes and missing semicolons never come up in tests on tidy data.", "anchors": ["tools/translators/bonsai/utils/binaries/XmlTree.cpp:38-398", "tools/translators/bonsai/utils/binaries/SyntaxTree.cpp:48-111"]}
{"id": "C94", "title": "Syntax trees of the rule extraction: ConnectNodes finds the parents from the spans, and Parse the branchings", "statement": "The nodes read from a document without span attributes are those of a forest over its words, children before parents. For every tree in which each node has a word and no node with children begins with a word of its own, ConnectNodes makes the top node the root and gives every other node the parent it has in the tree, however nodes over the same span are stacked. Not true without this condition: the first child of such a node becomes a child of the node above it, and under the root a null pointer is used. If every word has a node of its own, Parse ends and gives exactly the places where the nodes with two or more children and their children begin and end. Not true otherwise: a word without a node at the end of a larger one makes Parse loop for ever.", "quantifier": "all documents; all trees of any depth and width", "why_tests_cant": "The project has no tests of these binaries; treebanks in which every word has its own tag never show the wrong parents.", "anchors": ["tools/translators/bonsai/utils/binaries/SyntaxTree.cpp:48-54", "tools/translators/bonsai/utils/binaries/SyntaxTree.cpp:56-111", "tools/translators/bonsai/utils/binaries/SyntaxTree.cpp:121-161", "tools/translators/bonsai/utils/binaries/XmlTree.cpp:231-398"]}
{"id": "C95", "title": "score: how the lines of the extract file become batches, pairs and groups, and which batches are marked as singletons", "statement": "Unless the file begins with an empty line, score cuts its lines into runs of the same phrase pair (same phrases, alignments and domain) and these into batches with the same source phrase, both as long as can be, and the count of a pair is the sum of the counts of its lines. The first batch and every later batch of two pairs or more is marked as singleton, a later batch of one pair is not, which is the opposite of what the mark means. Among pairs whose non-terminals each have one place, Compare is an order in which exactly the pairs that match are equal, and the groups of a batch are the classes of pairs that match, in the order of their first pairs, each in the order of the pairs. Not true otherwise: with a non-terminal of two places the groups depend on the order and hold pairs that do not match. A file that begins with an empty line uses a null pointer.", "quantifier": "all files, any reading of a line, any addition of counts; all lists of phrase pairs", "why_tests_cant": "The project has no tests of these binaries; whether an order used in a set is transitive, and whether the cuts are right after every history, is about all triples and all files.", "anchors": ["tools/translators/bonsai/utils/binaries/score-main.cpp:223-279", "tools/translators/bonsai/utils/binaries/score-main.cpp:313-357", "tools/translators/bonsai/utils/binaries/score-main.cpp:878-889", "tools/translators/bonsai/utils/binaries/PhraseAlignment.cpp:174-240", "tools/translators/bonsai/utils/binaries/PhraseAlignment.h:45-80"]}
{"id": "C96", "title": "consolidate: lines into items, scores with and without names, Good-Turing discounts, bins of counts", "statement": "A line of items with ' ||| ' between them is read as these items, if no item written between blanks has a separator in it; empty items are kept. Scores that begin with a digit are kept apart from pairs of a name and a value, in any mixture and order; not so negative scores, as --LogProb gives them, which are taken for names. There is a Good-Turing discount for 0 and each number but the last of the count-of-counts; it is (k+1)/k times the quotient of the counts (with 0.1 added), but at most 1 and at least the one before, so all are between 0.01 and 1 and grow; a whole count k below the end of the table is multiplied by the k-th, every count reads within the table and is never made larger. Exactly one bin feature is set, that of the first bin that the count is not above or the one after all; for growing bins the name of the sparse feature tells where the bin begins and ends.", "quantifier": "all lines, all lists of scores, all count-of-counts and counts as rational numbers, all lists of bins", "why_tests_cant": "The project has no tests of these binaries; overlapping separators, mixtures of scores and the ends of the tables are unbounded in number.", "anchors": ["tools/translators/bonsai/utils/binaries/consolidate-main.cpp:151-162", "tools/translators/bonsai/utils/binaries/consolidate-main.cpp:249-252", "tools/translators/bonsai/utils/binaries/consolidate-main.cpp:292-305", "tools/translators/bonsai/utils/binaries/consolidate-main.cpp:328-346", "tools/translators/bonsai/utils/binaries/consolidate-main.cpp:354-370", "tools/translators/bonsai/utils/binaries/consolidate-main.cpp:385-405", "tools/translators/bonsai/utils/binaries/tables-core.cpp:10-30"]}
{"id": "C97", "title": "score: how a phrase pair is read into word numbers, alignment tables and a count, and which of a group is the best", "statement": "A word gets the number it has in the vocabulary or the next free one, numbers once given stay, and equal numbers are equal words. A line 'source ||| target ||| points', with or without a count, is read so that the numbers of both phrases name their words in order, the table of each side holds for each place exactly the points of the line that lie within the phrases, in increasing order, and the count is the one given, or 1. For rules this holds if no side is empty and no point lies at a left-hand side; otherwise the tables are written beyond their ends or get the size -1. Of a group of pairs with counts from 0 on, the best alignment has the highest count, and is the first such, or the last for the inverse table.", "quantifier": "all vocabularies, phrases, alignment points and counts (rational), both modes, all groups", "why_tests_cant": "The project has no tests of these binaries; repeated, unordered and out-of-range points, and ties between alignments, are unbounded in number.", "anchors": ["tools/translators/bonsai/utils/binaries/PhraseAlignment.cpp:82-133", "tools/translators/bonsai/utils/binaries/PhraseAlignment.cpp:152-164", "tools/translators/bonsai/utils/binaries/tables-core.cpp:40-51", "tools/translators/bonsai/utils/binaries/score-main.cpp:359-381"]}
{"id": "C98", "title": "score: the file of domains, the domain of a sentence, and the domain features of a group of phrase pairs", "statement": "A file of lines 'number name' is read into these entries, each name being listed once, where it comes first; what stands after the last newline is not read, so a last line without newline is lost. If the numbers grow, an entry holds exactly for the sentences after the number before it up to its own, and sentences after all numbers are 'undefined'. A domain has a count for a group exactly if a pair of the group is of it, and it is the sum of the counts of these pairs. The indicator feature of a domain is set exactly then; its ratio is the share of its count, and the ratios make 1 if all pairs have domains of the list; with up to six domains the feature of the k-th subset, k read as a binary number, is set exactly if the domains of the list that the group has are this subset.", "quantifier": "all files of such lines, all sentence numbers, all groups with rational counts, all lists of domains", "why_tests_cant": "The project has no tests of these binaries; the numbers, the groups and the subsets are unbounded in number.", "anchors": ["tools/translators/bonsai/utils/binaries/domain.cpp:16-39", "tools/translators/bonsai/utils/binaries/domain.cpp:42-49", "tools/translators/bonsai/utils/binaries/domain.cpp:57-71", "tools/translators/bonsai/utils/binaries/domain.cpp:73-91", "tools/translators/bonsai/utils/binaries/domain.cpp:110-124", "tools/translators/bonsai/utils/binaries/domain.cpp:139-154"]}
{"id": "C99", "title": "score: the lexical table and weight, the penalties for unaligned words, and crossing non-terminals", "statement": "After loading, the lexical table gives for each pair of words the probability in the last line with them and 1 for every other pair, also for words that get their numbers later. The lexical weight of a pair of phrases is the product over the target words of the average probability with the words they are aligned to, or of the probability with NULL for unaligned ones, if NULL is a word of the source vocabulary; if it is not, unaligned words are explained by the first word there is. The penalty is 2.718 to the power of the number of unaligned target places (those with function words). If every non-terminal is aligned to one place, the crossing feature is set exactly if some point crosses that of a non-terminal. An empty line in the table file reads the first element of an empty vector.", "quantifier": "all files of lines, all vocabularies that grow from them, all phrases and alignments, all sets of function words and non-terminals", "why_tests_cant": "The project has no tests of these binaries; repeated lines, unknown words and alignments are unbounded in number.", "anchors": ["tools/translators/bonsai/utils/binaries/score-main.cpp:782-816", "tools/translators/bonsai/utils/binaries/score.h:19-26", "tools/translators/bonsai/utils/binaries/score-main.cpp:759-780", "tools/translators/bonsai/utils/binaries/score-main.cpp:706-732", "tools/translators/bonsai/utils/binaries/score-main.cpp:471-523", "tools/translators/bonsai/utils/binaries/tables-core.cpp:53-59"]}
{"id": "C100", "title": "gobio: scrambled texts come back, the random numbers stay in range, and the numbers of attribute values name their strings", "statement": "A step of imoa_random on a key of 32-bit words never overflows 64 bits, gives the lower half of its sum, keeps the upper half as carry, and keeps the key one of 32-bit words; imoa_irandom stays in its interval. imoaxor and doxor give a text back when run twice from the same key, leave the same key, and imoaxor may be run on a text in parts. It is not the generator 'Mother of all': three of the products wrap at 32 bits. A string that is not reserved gets a number above all integers, by which it is found again even after more strings came, and no other string gets this number; the reserved strings are the true or the false value; integers up to 65535 stand for themselves. Not true: that a value is printed as it was given ('nil' is printed 0, 'empty' -1), or that 0 and -1 differ from 'nil' and 'fail'.", "quantifier": "all keys, texts and intervals; all sequences of strings and all integers", "why_tests_cant": "The tests run the parser on a few grammars; overflow needs particular keys among 2^160, and the texts and strings are unbounded.", "anchors": ["tools/parsers/gobio/translator/prandseq.cpp:4-22", "tools/parsers/gobio/translator/prandseq.cpp:24-44", "tools/parsers/gobio/translator/prandseq.cpp:46-60", "tools/parsers/gobio/translator/prandseq.cpp:62-68", "tools/parsers/gobio/registrar/number_master.cpp:18-77", "tools/parsers/gobio/registrar/registrar.tpl:6-30"]}
{"id": "C101", "title": "iayko: the path finder lists the words of separate chains once each, in order, up to its limit", "statement": "For an automaton of separate chains from one state, as a shortest-path run makes it, in which no word (the labels that are not skipped) is a proper beginning of another, the paths found are the words of the chains, each once, with the weight of the first chain that has it, in the order of the chains, and at most one more than the number asked for. A single chain is found whatever its labels, with the sum of its weights. Not true: that a path which begins one already found is kept, that a path with a found one as its beginning is compared within bounds, that paths which part later than at the start keep their common beginning, or that the weights of equal paths are summed.", "quantifier": "all sets of skipped labels, limits, numbers and lengths of chains, labels and whole-number weights", "why_tests_cant": "The normalizer asks for one path only and its tests use a few rule files; the limits, repeated words and words that begin others do not come up.", "anchors": ["tools/normalizers/iayko/plugin/fst_path_finder.cpp:45-55", "tools/normalizers/iayko/plugin/fst_path_finder.cpp:57-91", "tools/normalizers/iayko/plugin/openfst_adapter_impl.cpp:135-142"]}
{"id": "C102", "title": "simplenorm normalizes by the last rule for a word, and the joiner joins exactly the edges with a common parent", "statement": "A file of rules (word, tab, form, perhaps more after a further tab), with or without a newline at its end, is read, and a word is then found exactly if it has a rule, with the form of the last one; a line without a tab, such as an empty one, is read beyond its end. Just the tokens of category T with a rule get an edge with the form, over the same place and in order; forms are not normalized again. The tags the joiner asks for are met exactly if both masks are. It joins a left edge with a right one exactly if the right one is made of the first parent of the left one; a left edge alone comes if it has no such right edge and the outer join is on, or always with the extended one, and then as a partition exactly in the plane of the tags given. An outer join loses no left edge. Categories, texts and attributes come from the sides asked for, and in merged attributes the right side wins. Not true: that right edges are kept by an outer join.", "quantifier": "all rule files of such lines, tokens, tag requirements, and all relations of parents and children, items and options", "why_tests_cant": "The tests of simplenorm run on one short file; the joiner is tested on a few pipelines. Repeated rules, lines without tabs, planes and the options together are not tried.", "anchors": ["tools/normalizers/simplenorm/simplenorm_normalizer.cpp:90-102", "tools/normalizers/simplenorm/simplenorm_normalizer.cpp:130-159", "tools/converters/joiner/joiner.cpp:70-103", "tools/converters/joiner/joiner.cpp:164-263"]}
{"id": "C103", "title": "A lexicon in plain text gives each key the records of its lines, and the mapper reads text, category and attributes of a record", "statement": "A lexicon in which the lines of each key stand together is read: comments, blank lines and blanks between and after fields do not count, escapes are replaced, each key has the records of its lines in order with tabs between their fields if no field has a semicolon, and other keys have none. A line with nothing but a key is an exception. A line that begins with a blank is left out whatever it says. The mapper reads text, category and attributes (with a value, or 1 without one) of a record and nothing after them; the text and the category of the new edge are as set, else cloned, else as in the record, and the category is the whole record if it has none. Its key is made of the text, the category and the sorted attributes, whichever are asked for, and does not depend on the order of the attributes; in the attributes of the new edge, each there once, the lexicon wins over what is set and this over what is cloned; there is an edge for each record, or one for an unknown key just if an option for it is given. Not true: that different texts and categories have different keys, that an indented entry is read, that a record with a semicolon comes back, that a key whose lines are apart is added to the store once.", "quantifier": "all lexica of such lines, all functions that replace escapes, all keys, records, attributes and options", "why_tests_cant": "The tests use short tidy lexica without indented lines, semicolons in fields or keys whose lines are apart.", "anchors": ["tools/datastructures/lexica/lexicon_base.cpp:11-69", "tools/datastructures/lexica/lexicon_base.cpp:88-97", "tools/datastructures/lexica/lexicon_base.cpp:99-104", "tools/datastructures/lexica/lexicon_base.cpp:106-108", "tools/lexica/mapper/mapper.cpp:248-277", "tools/lexica/mapper/mapper.cpp:279-334", "tools/lexica/mapper/mapper.cpp:385-414"]}
