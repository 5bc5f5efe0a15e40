# Formal model of psi-toolkit: design

The C++ sources in `/repo` were read as text only; nothing was built or run.
This directory holds a hand-written Rocq (Coq 8.16.1) model of selected parts
of the code and machine-checked proofs about the model.

## Trusted base

* The Coq kernel (including the `vm_compute` machine used for concrete
  examples and for a few finite checks).
* Axioms: none.  Every theorem listed in `MANIFEST.json` is followed by
  `Print Assumptions` in its `P_*.v` file, and each of them answers "Closed
  under the global context".  No development file declares an axiom,
  parameter or section-less variable; no kernel check is switched off.
  (The list of library axioms that a whole-environment scan shows, the
  `Under_rel` interface of ssreflect, comes with loading a library that
  requires ssreflect; no theorem depends on it.)
* The faithfulness of the hand translation.  Every model definition carries a
  comment with the file and lines it models and with the simplifications made.
  No extraction, no C++ semantics, no compiler is involved.
* The reading of the English statements in `properties.jsonl` as the Coq
  statements in `P_*.v`.

## Modelling conventions

* A C++ function becomes a total Gallina function.  Exceptions are a value of
  an `option`/error type.  Undefined behaviour is a separate outcome or is
  excluded by a stated precondition.
* Loops become structural recursion, or recursion on explicit fuel with a
  distinct "out of fuel" result and a proof that the given fuel suffices.
* Bytes are `ascii` where particular characters matter and `N`/`Z` where
  arithmetic matters.  Machine integers are `N`/`Z`/`nat`; wrap-around is
  written explicitly where a property depends on it.
* Iterators into a string are suffix lists or positions; `std::map` is an
  association list; `std::set` is the increasing list of its elements.
* External code (the heap functions of the standard library, cmph perfect
  hash functions, the client's `doCutOff`, the random numbers of the GUID
  generator, the file system) is a function parameter.  What is assumed of it
  is a hypothesis of the theorem, and the examples instantiate it.
* Files: `M_*.v` model only, `S_*.v` independent specification where it is not
  small enough to live next to the theorem, `L_*.v` lemmas, `P_*.v` the
  theorems with their non-vacuity examples and `Print Assumptions`.
* Names: `Cnn_...` belongs to property `Cnn`; `..._refuted` is a machine-checked
  counterexample to a natural stronger claim; `..._partial` would be a theorem
  that covers only a part of its property.

A property whose first formulation turned out false of the code was reworded
in `properties.jsonl` to what is true; the falsified part is kept as a
`..._refuted` theorem and is listed under Findings.

## Properties

### Quoting (M_Quoter, P_Quoter): C01, C02, C03
`common/utt_like_quoter.cpp` and `common/escaping.cpp` completely.  Strings are
lists of `ascii`.  `doEscape`/`doUnescape` are list recursions; the additional
quotations are an arbitrary list.  Proofs by induction on the string; C02's
specification is a small automaton that reads the escaped text, C03's is the
parity of the trailing run of backslashes.

### UTF-8 (M_Utf8, S_Utf8, L_Utf8, P_Utf8*): C04-C08
`utf8/utf8/{core,checked,unchecked}.h`: append, validate_next, next, prior,
peek, advance, distance, find_invalid, replace_invalid, utf8to16, utf16to8.
The specification is the arithmetic definition of the encoding of a scalar
value.  Not modelled: the iterator adaptors, utf8to32/utf32to8.  Output
iterators append to a buffer.

### Layer tags (M_Tags, P_Tags): C09, C10
`layer_tag_collection.cpp`, `layer_tag_mask.cpp`, `layer_tag_manager.cpp`.
A bitset is an `N`; the specification is a finite set of names (`denotes`).
All registration histories; the assertion failure for the 65th tag is `None`.

### Annotation items (M_Items, P_Items): C11
`annotation_item.cpp`, `annotation_item_manager.cpp` and the value macros of
`zvalue.hpp` (31-bit integers, symbols, strings).  Specification: each item is
a record with a map.  Not modelled: memory, AV-matrix conversion.

### Lattice (M_Lattice, S_Lattice, L_Lattice*, P_Lattice): C12-C15, C17
`common/lattice.cpp`: addEdge with all its cases (symbol edges kept as bits,
hidden and visible representation, merging, plane tags, the index over masks),
addPartitionToEdge, discard, allOut/InEdges, out/inEdges, first*Edge, tag
masks, appendString, addSymbols, addLooseVertex, sequences as used by
partitions.  The state is a record; every operation is a state monad with the
results Ok, Throw and Undefined (out-of-bounds access).  The theorems quantify
over `lattice_of_program`: every lattice obtained from the empty one by any
sequence of public calls, including ones that throw.  `good` (L_Lattice) is
the invariant; it is proved for every call (`exec_good`).  `careful_program`
adds that texts are well-formed and vertices lie between characters.
Simplifications: a Score (double) is its rank, an integer (no NaN); iterators
are the lists they would enumerate, so changing the lattice during an
iteration is not modelled; the Boost graph is the list of edges with ends.

### Sequences and walks (M_LatticeWalk, L_LatticeNodes, P_LatticeWalk, P_LatticeVertices, P_LatticePath): C16, C41, C42, C53
`common/lattice.cpp`: the sequence builder with its packed form for runs of
hidden symbol edges, the sequence iterators and accessors, getPath, the vertex
and edge iterators, getParent.  `chain` (neighbouring edges share a vertex) is
the specification of a path.  C42 and C53 quantify over every topological sort
that keeps boost's contract (`sorts`); `stands_at` says where a loose vertex
belongs.  C16 is an invariant (`spells`) of all programs that append texts with
symbols and otherwise use calls without the symbol tag (`spelled`); the walk
is then followed edge by edge.

### Iterating writer (M_IterWriter, P_IterWriter): C43
`common/lattice_iter_writer.cpp`: run, as the list of calls made on the output
iterator, together with how it ended.  C43_brackets holds for every lattice
value and every outcome; the other theorems for careful programs.  The state
kept per tag is an automaton over the edges with that tag (`tag_run`), which is
proved to be what run does to one tag whatever happens to the others.

### Running a cutter (M_LatticeCut, L_LatticeMarks, L_LatticeCut, P_LatticeCut): C54
`common/lattice.cpp`: runCutter, runCutterOnEdge_, cutSequenceByTextLength_ and the sequence
iterator between calls, as actions on the lattice model.  The cutter is any state with
functions reset and cutOff that keep a contract (`obedient`); C54_base shows that a cutter of
the base class of C21 keeps it, whatever its doCutOff, when doCutOff is honest.  C54_run: the
run ends without an exception, every edge of superMask gets its tokens, each over symbol
edges that lead exactly from its begin to its end, the tokens lie one after another up to
where the symbols end, all edges stay and nothing else is added.  `symbols_to` is the
specification of that place; C54_whole: in a lattice with symbols over the whole text it is
the end of the text.  C54_texts: the items are made of the text they stand over.  The programs
considered (`symbol_program`) make symbol edges with addSymbols only.  The proof keeps that
the list of symbol edges of each vertex does not change during the run (`keeps`).  The masks
are the ones used by the callers: symbols for mask; any mask for superMask, but the edges are
taken before the run, so a cutter whose own tags match superMask is not covered.

### Corrections (M_LatticeCorrect, L_LatticeCorrect, P_LatticeCorrect): C55
`common/lattice.cpp`: correctionInsert, correctionErase, correctionReplace, as actions on the
lattice model; a local variable without a value is None and reading it is Undefined.  The
specification looks at the symbol edges as the arcs of an automaton over items (`arc`, up to
item equality) and at the words it reads (`words`).  `row L p m q`: the m characters from p to
q have the edges addSymbols gave them.  C55_insert gives the words between old vertices
exactly (`detours`); C55_erase, C55_replace give the arcs exactly; C55_replace_longer says
what the loop really does with a longer text; C55_*_text: some way reads the corrected text.
The programs (`correcting`) mix corrections with other calls that add no symbol edges.  The
proof needs that an added edge is neither hidden nor merged into an implicit one (`typed`:
items filed for implicit edges have no text; `can_show`).  Not covered by the positive
theorems: corrections at loose vertices and where a symbol edge of the text was unfolded or
where the text has no symbols.

### Kin of edges (M_LatticeKin, P_LatticeKin): C56
`common/lattice.cpp`: getParent, getChildren, getEdgeOrigin, getEdgeLemma.  The specification
is `contents`: the edges in the partitions of an edge, in order, as the iteration over
sequences gives them.  C56_parent and C56_children give the results in terms of it;
reading changes nothing but the index.  `origin` is the way over first parents, as an
inductive relation; C56_origin and C56_origin_only: getEdgeOrigin comes back with r just when
`origin` gives r.  The loop has a number of rounds; C56_origin says that enough rounds exist,
C56_origin_ends gives a condition for the way to end (first parents are older edges).  isThere
registers the tag name, so there must be room for it in the tag manager.

### PSI lines (M_Psi, L_Psi, P_Psi): C57
One line as PsiLatticeWriter writes it (cells, escaping, alignment, shortening of long texts)
and as PsiLatticeReader parses it with its Spirit grammars (the grammars are written out as
parsers, with what failing optional parts leave in containers).  An edge is the data that the
writer asks the lattice for; what the reader then does with the lattice is not modelled here.
Scores are of any type with a printer and a scanner; the contract (what is printed is scanned
back in front of ">") is part of `writable` and is met by the whole numbers of the examples.
`meant e t` says what the line should mean; `writable` lists what an edge needs.
C57_line: every writable edge whose line is written is read back as `meant`, where t is the
unescaped text cell.  C57_text: t is the text itself if it was not shortened; C57_shortened:
six characters, "...", three characters, if the cuts do not hit an escape (characters are
counted by the UTF-8 specification of C04-C08).
Refuted: tags with "_", categories with "," (also the category ","), values with ",", empty values,
a child without a number in front of one with a number, partitions beside one over symbols,
empty partitions beside others, shortened texts cut inside an escape.

### PSI files (M_PsiFile, M_PsiLattice, P_PsiFile, P_PsiLattice): C60

M_PsiFile is doRun and printEdge of PsiLatticeWriter: the order of the lines, the numbers
(edgeOrdinalMap), the text taken for written (latticeTextCovered), the symbols and bytes put into
gaps, the recursive printing of edges of partitions.  The lattice is a set of queries there;
M_PsiLattice gives the queries of the lattice of M_Lattice.  A row is the record that M_Psi turns
into a line, so C57 says what a reader makes of it.  Simplifications: queries are asked of one
lattice (they add only indices of masks, C17); the header line and the output stream are left out;
an exception and a recursion deeper than the fuel are both `None` (C60_lines gives the fuel).
C60_lines and C60_text are about any queries that satisfy `sound`; C60_lattice and
C60_lattice_text are about every lattice of a careful program that is `printable` (symbols
between text vertices, readable partitions, no edge made of itself, UTF-8 texts at loose
vertices).  C60_lattice: the file is written, line k has number k, every edge that is not hidden
has exactly one line, every line is of an edge and tells its ends, text, item, tags, score, values and
partitions (or is the line of a symbol in a gap), and numbers in partitions are those of lines
above.  C60_lattice_text: `rebuild` reads the lines from the top and needs of every line that ends
behind the text so far that it begins in it and is not shortened; it gives the text up to the last end of
an edge that is not hidden, if no byte is written as two and parts come before wholes.
C60_escape_refuted, C60_order_refuted and C60_cycle_refuted show that these conditions are needed.

### The reader of PSI files (M_PsiReader, L_PsiReader, P_PsiReader): C61

M_PsiReader is doRun of PsiLatticeReader over the lattice of M_Lattice: the text put in place of what is
missing, the vertices of a line (loose ones by number), the edge or edges of a line, the sequences of its
partitions (explicit children by number, implicit ones found by walking over symbols).  `None` is an
exception, an access out of bounds or too little fuel.  Scores are the numbers of M_Lattice, ints have no
bounds, warnings are left out.  file_text is the writer's side: the rows of C60 as lines of M_Psi, and the
lines of bytes in no edge.  Nothing is claimed about files that are not read (the theorems say "if the
file is read").  C61_program: what is read is the lattice of some sequence of calls, and numbers of loose
vertices are in one-to-one correspondence with loose vertices.  C61_edges (distinct line numbers): every
part of every line is an edge with the ends, tags, item and score of the line (`told`) and with a partition made of the
edges of the lines named.  C61_text: the text is what the lines append, with "?" in gaps, unless an edge
goes from the text to a loose vertex.  C61_follow: lines that follow a text (`follow`) give its beginning.
C61_round_text and C61_round_edges put that behind C57 for the rows of the writer.  C61_lattice_edges:
every edge of a careful printable lattice that is not hidden is there after writing and reading (`back`);
C61_lattice_text: the text comes back up to the last end of such an edge (plain bytes, parts before wholes,
no edge from the text to a loose vertex).  C61_loose_refuted, C61_shortened_refuted,
C61_partitions_refuted and C61_bytes_refuted show what goes wrong without these conditions.

### The bracketing writer (M_Bracketing, L_Bracketing, L_BracketPlaces, L_BracketPattern, P_Bracketing): C62

M_Bracketing is bracketing_quoter.cpp, the data of an edge (ends of loose vertices, operator<), BracketPrinter::print_
(the scanner of patterns with its wrap-around of npos, the choice of the edges that agree, the list that is put in for
`%*****`) and doRun_ of the lattice writer: edges by place, the loops that order the brackets of a place, and the text with
the brackets around it.  The edges are given as a list of their data, in the order of the iterator and without those
skipped (`skipped`, `only_tags`, `only_attributes` are modelled, but nothing is claimed of them).  Modelled with the
container of --no-collapse (a vector); of the std::set of the default mode only operator< is.  Left out: --disambig, and that
print_ counts characters.  Scores are of any type with an equality `same`; how a score is shown is a parameter.
Specifications: `render` (what a pattern means, with lists at any depth), `nested` (a grammar), `opened`/`closed` (brackets
with the number of bytes before them).  C62_quoter: unquote after quote.  C62_patterns: every edge is printed as its
patterns mean, if at most one pattern has a list, a per cent sign is printed nowhere before a list, all attributes
named are there and none is empty.  C62_order and C62_order_ends: the loops permute the brackets of a place, and leave no edge
inside one that was made of it but perhaps the second in the first; they end if edges rank above their parents.
C62_written: the bytes of what is written are the text; brackets are opened and closed at the ends of exactly the edges that
are drawn; nested if no two of them cross.  C62_total: it is written for enough fuel.  Ten refutations show the
limits.

### Symmetrised word alignments (M_Symal, P_Symal): C63

symal.cpp of the Bonsai tools: the four simple alignments, printgrow (filling, growing, the two last passes) and the line that is
printed.  getals and main are not modelled; what getals asserts (`valid`) is a hypothesis.  A std::set of points is the
increasing list of its elements, and the iterator that walks through the set while it grows goes to the least greater
point (`next`); arrays are functions; ints have no bounds.  Specification: directed, inverse, both_ways, either (sets of
points), beside, chained.  C63_simple: the simple alignments, without repetitions.  C63_between: between intersection and
union, in order.  C63_grown: chained to the intersection, and closed.  C63_final: what the last passes cover.  C63_as_union: the
comment of printgrow.  C63_ends: n + m + 1 rounds suffice (every round but the last covers a word).  C63_line: the text.
C63_symmetric_refuted: exchanging the two languages may give another alignment.

### Minimal automata of sorted words (M_Minfsa, L_Minfsa, P_Minfsa): C64

Modelled: IncrementalFSA.hpp/.cpp and the signatures of Register.hpp 22-86, as run by minfsa.cpp: the table of states that
may still change, the set of signatures, adding words, purging, the lines written.  Maps and sets are sorted lists.  `None`
is undefined behaviour (delta_prefix without a result, the last child of a state without children) or exit.  Not modelled:
the wrap-around of ints (fewer than 2^31 symbols are given), verbose messages, reading the words, the class Register.
Specification: `precedes` (order of sequences), `leads`, `accepted`, `mentioned` on the set of lines written.  The proof
relates the run to the automaton of all lines, written or in memory, which satisfies the invariant of C28 (`inv` of L_Daciuk).
C64_words: the language, determinism, no repetitions.  C64_minimal: numbering, distinct and useful states, minimality against
machines of any type.  C64_memory: the size of the table.  C64_repeated_refuted, C64_unsorted_refuted: see findings.

### Indexes of rules (M_Dag, L_Dag, L_DagSort, L_DagFind, P_Dag): C65

Modelled: CompressedDAGBuilder.hpp (reading the lines, counting words, branching factors and access counts, the order of the
states, saving) and the lookups of CompressedDAG.cpp (row, find, delta, in, prefix, hash, find_num, unhash) with their linear
and binary searches; unsigned and int wrap-around is explicit.  The files of states and arcs are the lists written.
std::list::sort is any function whose result comes from merging pieces (`merged`): its outcome is not defined by the standard
since sort_pred is no strict weak ordering.  The sort of coreutils is the relation `line_le` (by state, lines without a symbol
first, by symbol).  Not modelled: mapped files, the access counter, multiunhash.
The proof: build_from_text stores the automaton of C64 (`rep`), the counting is that of C32 with other widths
(`sim_words`, number_words_spec); access counts are at most the number of words as the number of ways to a state times the
words from it never exceeds all words (`flow_paths`, `through`), so state 0 has the greatest and stays first
(`merged_head`); `laid` says where the saved automaton is; lookups are proved on it by induction on words and on the depth.
C65_made: no step fails.  C65_words: in, prefix.  C65_hash, C65_unhash: the numbering and back.  C65_order_refuted,
C65_mode_refuted: see findings.

### Automata built while translating (M_SimpleDag, S_SimpleDag, L_SimpleDag, L_SimpleCopy, L_SimpleDet, L_SimpleFind, P_SimpleDag): C66

Modelled: SimpleDAG.cpp (new_state, new_arc, reverse, determinize, minimize, nd_union, det_union, find, delta, in, prefix).  A
bitset is a number of type N, which also gives boost's order of bitsets of one length; the map and the set of determinize are
sorted lists, its queue is a stack.  The renumbering loops of determinize and nd_union have one shape and share the model
`copy`.  std::sort is a parameter with its contract `sorts` (a permutation in the order of the symbols), instantiated by an
insertion sort in the examples.  Arcs to states that do not exist would be undefined behaviour; `whole` excludes them and is
proved to be kept.  Not modelled, as nothing calls them: hash, wordlist, common_prefix, delete_state, print.
S_SimpleDag has the specification: `leads`, `words`, `deterministic`.  Determinization is proved by an invariant of the loop
(`going`), whose table is then the set of all reached sets (`table_spec`), and one of the renumbering (`copied`); it ends because
at most 2^n sets are ever noted.  Minimality is Brzozowski's argument: after determinizing the reversal each state is reached by
a word that no other state is reached by, so that different sets accept different words (`Acc`, `Tell` in minimize_spec).

### Looking up many words at once (M_MultiHash, L_MultiHash, P_MultiHash): C67

Modelled: CompressedDAG::multihash with the pairs of states, the queue, the lists of words of each pair, the walk along two
sorted rows, int wrap-around of the numbers.  ndag is only built, not used, and left out.  Not modelled: intersect,
multiunhash and wordlist, which nothing calls.
The proof: `way` relates a word to the pair it leads to and to the number the index adds up; the invariant `inv` says each
list holds such words once; `full` adds, for automata where a pair has ways of one length only (`levelled`), that the words of
a pair are all there when the pair leaves the queue (the queue is sorted by length and holds at most two lengths).  The
numbers agree with `hash` (C65).  C67_ends, C67_sound, C67_complete; C67_all_refuted: see findings.

### Bounding rules (M_Intersector, L_Intersector, P_Intersector): C68

Modelled: RuleSet::create_intersector with its partial automata, nextksb with its h and m kept between calls, union and
minimization as in C66; reading outside the vector is the result `Astray`.  k and n are natural numbers (ints in the code).
The proof: nextksb gives the next increasing choice of k places below n in the lexicographic order (`successor`), so the
choices grow in a measure bounded by (n+1)^k; each partial automaton takes the words with ones only at chosen places;
a word has at most k ones iff some choice covers them.  C68_words, C68_ends; the boundary cases C68_one_more, C68_astray.

### Automata of sentences (M_Intersector, S_Prune, L_Prune, P_Prune): C69

Modelled: RuleSet::parse_to_dag, subparse_to_dag and prune_by_intersector as automata work.  A sentence is a list of
nonterminals with the edges below them; getTreeSymbols, getSubTreeSymbols, getCharWordTokenMap and the symbol map are not
modelled: an edge is given with its symbol, tokens and the isNT flag.  nts, which lives longer than a sentence, is an argument.
unmap and symbolEdgeMap are filled on the way and left out.
Spec (S_Prune): `path` (ways along edges), `nonterminal`.  The proof: `sinv` for subparse (tokens and states correspond),
`pinv`/`ploop` for the product (states are pairs, rows of finished states are complete), then C66 for union and minimization
and C68 for the bounding automaton.  C69_rules puts C67 on top; C69_rules_all_refuted is the whole way from a parsed sentence
to a lost rule.

### Fitting rules (M_Slist, S_Slist, L_Slist, P_Slist): C70

Modelled: SList with its vector of nonterminal places, word_to_slist with its stack and the path that is cut back by start
positions, word_to_transformation with sscanf("<X>[%d]") including its result EOF.  Costs are integers instead of floats,
lexical_cast a function that may fail.  Symbols are compared by label and range (str() in the code); starts and ends are
unbounded (short int in the code); %d does not overflow.
Spec (S_Slist): `chain`, `fits`.  The proof: for every entry of the stack, the path cut back to symbols beginning earlier is
the chain it was pushed with (`sound`), as starts on the stack do not grow downwards and symbols are not empty; a fit always
has an entry on the stack that can be completed (`promising`); the weights of entries bound the number of turns.

### Language model costs (M_Lm, S_Lm, L_Lm, P_Lm): C71

Modelled: LanguageModel::get_cost with and without link points, get_front_cost, get_terminal_cost (with the stream that stays
failed after it was read to the end), the weighted sums of LmContainer, Translation::substitute and the constructor.  The
probability of an ngram is a function parameter (irstlm's tables are not modelled), costs are integers instead of doubles,
labels are words without blanks, the interruption symbols of irstlm's dictionary do not occur.  A model has order at least 1.
Spec (S_Lm): windows of n words by the place they begin at.  The proof of the link points: after a link, exactly the windows
that end later than `last_end` and span a later link remain.  For substitute: the cost of texts put together is the sum of
theirs and of the windows across the seams, and links are the seams but for those at the ends of the text.

### Merging hyperedges (M_Cube, S_Cube, L_Cube, P_Cube): C72

Modelled: Translator::merge with its set of candidates ordered by cost and the steps to neighbours.  Iterators are indexes; the
constructor of Translation and its cost are parameters (C71 is about them); the queues of the nonterminals are given
(translate_recursive with its memory is not modelled); the nonterminals of a hyperedge are distinct; costs are integers.  The
TranslationQueue is a std::set with a comparison that is not a strict weak order; find and insert are parameters of which only
`set_like` is assumed, which libstdc++'s trees satisfy whatever the comparison; the examples use an ordered list.
Proof of C72_cheapest: every translation not given yet has a candidate before it in all coordinates, so the cheapest candidate is
the cheapest of all; no candidate comes back, as its predecessors are cheaper.  Termination: a candidate weighs (b+2) to the
power of the steps left, more than all its neighbours.

### Sets of hyperedges (M_Hyper, P_Hyper): C73

Modelled: TransformationSorter and HyperEdgeSorter, the filling of hyperedges and the trimming of a symbol's hyperedges in
RuleSet::get_edge_transformations, merge_hyper_edge and merge_edge_transformations.  A transformation is its cost and str();
insert of the set with the irregular comparison is a parameter that adds the element or, if an element is neither less nor
greater, may do nothing.  Costs are integers.  Not modelled: word_to_slist, which gives the transformations (C60, C70), and
add_top_symbol.  Proof of C73_keep: trimming after every insertion gives the same as trimming once at the end.

### Extraction of rules (M_Extract, S_Extract, L_Extract, L_Hiero, L_Once, P_Extract): C74, C75

Modelled: SentenceAlignment::create for the points that sscanf reads, extractRules with its loops over spans, RuleExist,
HoleCollection (overlap, neighbours, scope), addHieroRule and the first test of addRule.  HasNode of the trees are parameters;
9999, where the search for the minimum starts, is the parameter `big`.  Options are natural numbers.  Not modelled: reading of
the files and of XML trees, labels and PCFG scores, the text of the rules.
Proof of C74: counts of points per source word, less those inside, are zero on the span exactly if all points of the span are
inside; the loops over unaligned words give all spans between.  Proof of C75: what holds of a list of holes holds of its
beginnings (for the aligned word: the next hole has one), so the tests on the way are implied by the final ones; the scope kept
step by step is the number of choice points; all smaller pairs are known when a pair is treated, as they come by length.

### Text, alignment and counts of extracted rules (M_Rules, P_Rules): C76

Modelled: preprocessSourceHieroPhrase, saveTargetHieroPhrase, saveSourceHieroPhrase, saveHieroAlignment, saveHieroPhrase, addRule,
addRuleToCollection and consolidateRules, without syntax and with paired labels.  Texts are lists of symbols; counts are rational
numbers instead of floats; the map indexS is a search in the list of symbols, and end() of it is None.
Proof: a walk over a side with holes in order covers every position once, so every symbol is at one place; words that are left
are aligned to words that are left (C75_words).  Counts: sums by groups of equal spans and equal rules.

### Numbers in Polish words (M_Numeral, S_Numeral, P_Numeral): C77

Modelled: all of numconversion.cpp with its tables, copied from the file.  Strings are lists of bytes in UTF-8; n[n.length()-1] of an
empty string (lines 740-744) is None.  The specification is a grammar of numerals with Latin names of powers, written without the
tables of the code; decimals, fractions, ranges, and cases other than the cardinal and the ordinal nominative are modelled but only
covered by C77_number, C77_empty, C77_bigger and the refutations.
Proof: each of the 1000 groups of three digits and each of the 220 ranks is evaluated once (chunks_checked, ranks_checked), and they
are combined for all numbers by induction over the groups.

### Tagset converter (M_Unumsunt, P_Unumsunt): C78

Modelled: all of unumsunt_rule.cpp; of unumsunt.cpp the reading of rule files, the maps and the application of rules to one edge's
annotation; the two grammars of unumsunt.hpp.  Annotations are records with a map (C11); pointers that were reset are None; the
growing vector of items is a list with fuel, and running out of fuel for every fuel is an endless loop.  Not modelled: edges,
partitions and replacements made by convertTags.
Proof: constants assigned in order are an overriding map; the alternative w of an annotation is a fixed point of making the
alternative w, so a condition it keeps is kept for ever.

### Selector and antiselector (M_Selector, P_Selector): C79

Modelled: doRun and isConditionSatisfied_ of the selector, doRun of the antiselector.  The lattice is a type with the questions that
are asked of it (first edge and all edges of a vertex under a mask, ends and annotation of an edge) and addEdge; how a lattice
answers them is C14-C17.  Iterators over vertices and edges are lists: what an iterator gives for edges that are added meanwhile is
not modelled.  Annotations are records as in C78.
Spec: alternatives and descriptions are pieces of the text between delimiters; sequences are an inductive relation.
Proof: induction on fuel against that relation; on the rank of vertices for termination and covering.

### Puddle: text and positions (M_PuddleText, P_PuddleText): C80

Modelled: all of puddle_util.cpp, RuleModifier::moveRule, GroupAction::init.  The one-character regular expressions of
escapeSpecialChars are replacements of characters; find and substr are functions on lists; int does not overflow, unsigned wraps.
Spec: a table of codes for escaping; for unescaping an inductive relation "reads" (code by its character, otherwise the character
stays); sums of sizes for positions.
Proof: the find/substr loop is a left-to-right reading of one code (induction on the rest of the text); reading one code after the
other is reading all of them at once, if no character stands in a later code and no code begins another (strong induction); the
conditions are computed for the two tables.

### Puddle: reading the lattice (M_PuddleLattice, P_PuddleLattice): C81

Modelled: getVertex, getTopEdges, getEdgesRange, EdgeNonTop, EdgeNonToken, EdgeUnique and the loop of generateSentenceString over
vertices.  The lattice is given by its answers (edges of a vertex under the mask, flags, partitions, ends, annotations); loops have
fuel, and None when it is not enough.  Not modelled: the masks, getVertexForRawCharIndex.
Spec: a record of what a top edge is; the walk of the sentence; an inductive relation for ways.
Proof: the loops equal filters; induction on the distance to the last vertex; on fuel for ranges.

### Puddle: the sentence string (M_PuddleSentence, P_PuddleSentence): C82

Modelled: the text that generateSentenceString writes for a vertex, countTokensMatched, getPatternStart, getPatternEnd,
requiredTokensMatched, matchPattern (without the negative named groups of RE2).  The regular expressions that take the string apart are
written out as a function; the pattern of the rule is a parameter.  Numbers do not overflow.
Spec: lists of tokens; a decimal number is that of the library.  Proof: the fields have no angle brackets (C80), the rest is cutting lists.

### Puddle: unify and delete (M_PuddleActions, P_PuddleActions): C83

Modelled: isUnifyingPossible, generateInterpretationsVector, generateUnifiedEdgesList, discardUnunifiedEdges, UnifyAction::apply,
deleteEdges, foundEdgesToDelete, DeleteAction::test.  The tokens of an element are given as lists of edges (C81 tells which); regular
expressions are parameters; a write behind the end of unifiedMorphoStrings is None.  Not modelled: getPartitionsContainingEdges (a
parameter).  Spec: agreement on a value; choices of one edge for every token.  Proof: induction on the tokens.

### Puddle: tagset (M_PuddleTagset, P_PuddleTagset): C84

Modelled: parseAttribute, parsePartOfSpeech, parseOpenClasses, the checks, getAttributeAtIndex, getAttributeValues, getAttributes,
generateProperMorphologyLabels, compileAddInterpretation.  Not modelled: the regular expressions that take a line of the file apart, the
buffer of getAttributes, the description file.  Spec: choices of values as an inductive relation, the order of names as another, what is
held after reading as a record.  Proof: a sorted list of pairs is determined by its members; induction on attributes and entries.

### The SRX segmenter (M_Srx, P_Srx): C85

Modelled: processRule_, makeRegexp_, makeAllParensNonCapturing_ with isEscaped, performCutOff, checkBreakPoint_, updatePosition_ with the
RuleApplication of every rule, the choice of rules by SrxRulesReader.  A rule is given by its matches (for every place the break of the
match that begins there); what is before the beginning of a search has no influence on it (^, \b and lookbehind see it as the beginning of
the text).  The text is its length and the place of the next character; the limits of segment length are those of C54.  Not modelled: the
XML reader, maps inside maprule (SRX 1.0), the assertions.
Spec: `decided`: the first rule in order that speaks of the place is a breaking one; `grouped` and `groups`: a scan of a pattern from left to
right; `chosen` and `kept`.  Proof: the invariant of a RuleApplication is that every match that begins before startingPosition breaks
before what was asked for last or at breakingPosition, and that no match from startingPosition on begins before that of breakingPosition.

### The tp tokenizer (M_TpRules, P_TpRules): C86

Modelled: removeComments, loadWholeElement, trim, the unescaping in readDefinition, the state of readIf, readElse and readEndIf with the
checks at the end of a file, the order of the rules, performCutOff and defaultToken.  Not modelled: applyDefinitions (text of definitions is
put in and read again), here documents, the expressions with which readRule removes white space, includes (a command like a rule).  A sign
# or @ at the very beginning of a value is not modelled as written (find_last_not_of from npos); values begin with white space there.
Spec: a reader with a mode (`step`), `strip`, `pieces`; `means`, a relation between a nested program, what is defined before, what is done and
what is defined after.  Proof: induction on the number of signs left; the stack of conditions is the same after a part as before it.

### LamerLemma (M_Lamer, P_Lamer): C87

Modelled: KLEndEncode and KLEndDecode with the conversions to and from a signed char and the wrap-around of size_t, parseInput, parseResult,
operator>> of Line, readDictionary and Dictionary::get over the store of M_MultiStore, lemmatize as a list of calls of the output iterator.
Not modelled: options, loading and saving the binary lexicon.  Spec: `longest` (all ways to split form and lemma), `fields` (a line between
separators), `says`/`last_says` (key=value fields), `told` (what the lines say about a token).  Proof: the scan keeps the best place so far;
the dictionary is composed with C31 (the store returns exactly the values of a key) and an invariant over the values read so far.

### The language guesser (M_LangGuess, P_LangGuess): C88

Modelled: countBigramsInText, the frequencies, distance, the three guesses.  Exact arithmetic (Z and Q) in the place of int and double; the tables
of the languages are given.  Texts are lists of code points of valid UTF-8.  Not modelled: reading the tables, marking the edges.  Spec: `times`
(how many places hold a pair), `nearest`, `pieces` (words between spaces).  Proof: induction over the text; the flags of the loop over the
letters are told by the words read so far.

### The detokenizer (M_Detok, P_Detok): C89

Modelled: doRun as far as the text, and both tests for spaces.  Spec: `counted` (the last token at every position, in order), `glue` (gaps between
neighbours).  Proof: the text so far ends with the last token that is not empty.

### Tags of Morfologik and SFST (M_MorfTags, P_MorfTags): C90

Modelled: both parsers of tags whole with their tables (one model, parametric in the table, the kinds allowed as part of speech, the
generalizations and the counting), and the three levels of the Morfologik lemmatizer, given the answers of the Java library after breakForms_.
Not modelled: JNI, the regular expressions of breakForms_, warnings.  Spec: `kind`, `described` (the first part of a kind), `clean`, `choices`
(an inductive product), `pos_of`, `dashed`.  Proof: the counter is never less than the number of dotted values and equal to it exactly for clean
tags; every round of the expansion takes the dots out of one value, so that equal numbers give the product and a greater counter nothing.

### Encodings (M_Charsets, M_Tiniconv, P_Tiniconv, P_EncConv): C91

Modelled: the one-byte sets of tiniconv (tables copied from the headers by a script, the chains of tests as lists of ranges), utf8.h, ucs2.h,
tiniconv_convert with its options, and EncodingConverter but for the detection, which is uchardet's.  Not modelled: UTF-7, ISO-2022-JP, the Chinese
sets, Big5, 1255 and 1258 (given from outside), the output state.  Spec: `utf8` by division, `Reads`, `Writes` and `Ends` for the conversion, `as_many`
for the cut text.  Proof: the sets by checking every byte and every character in the range of a table, the rest of the characters being refused;
UTF-8 by turning bit operations into sums; the conversion by induction on the input for all codecs that keep to the contract of tiniconv.h, which the
modelled ones do (C91_codecs).  The buffer size (100000 in the code) is any number.

### Checksums (M_Checksum, P_Crc, P_Adler): C92

Modelled: adler32.c and, of crc32.c, crc32, crc32_little, crc32_combine with its matrices, and the first four tables of crc32.h (copied by a script).
Not modelled: crc32_big, the generation of the tables (DYNAMIC_CRC_TABLE), the unrolling of the loops.  Spec: the register bit by bit with the powers of
the polynomial; the sums with unbounded numbers, `total` and `weighted`.  Proof: tables by computation; the register is linear over exclusive or, so
words, combination and detection follow; Adler by bounding the sums of a block of 5552 bytes below 2^32.

### Annotated sentences (M_XmlTree, P_XmlTree, P_XmlDoc): C93

Modelled: XmlTree.cpp function by function, AddNode and GetNodes.  Not modelled: integer overflow, atof (the text is kept), what a failed call leaves
in the tree, messages.  Spec: `words`, `Tokens`, `escaped` and `Means`, `Doc` (a grammar of documents with the words and nodes they give).  Proof:
induction on the strings; accepting and being a document by going through the tokens with the open elements on a stack (`Docs`).

### Syntax trees (M_SyntaxTree, P_SyntaxTree, P_SyntaxParse): C94

Modelled: ConnectNodes, Parse (its while loop with fuel, None when it has not ended), HasNode; the nested maps are a list in the order of the
iteration.  Not modelled: the printing, the lists of children.  Spec:
`forest` (words and trees), its nodes upward with their spans and downward with their parents.  Proof: the order of the index is the downward order
(both are sorted by the same strict order and have the same nodes), then induction on the forest with the path from the last node up to the parent.
For Parse, `Occurs` (a node with these kids is at this word) and `bounds` (the ends of the kids) are the spec; the spans inside a node are its own and
those of its kids, so the largest span from the end of one kid is the next kid; a chain of single children ends in a branching of the same span.
The order and the number of the answers are not stated.

### Groups of phrase pairs (M_Score, P_Score, P_ScoreGroups): C95

Modelled: the loop of score over the lines, processPhrasePairs up to the output of the groups, PhrasePairGroup::insert, equals, match, Compare,
isNonTerminal.  Simplifications: what create makes of a line is any function of the line; counts are of any type with an addition, so nothing is
assumed of the sums of floats but their order; pcfgSum is left out; a std::set is a list in its order, searched from the front (the same as the tree
for an order; for what is no order the witness shows only this search); the tests for the same object (`this == &other`) are left out, as no object
is compared with itself; begin() of an empty set shows 0 in the model.  Not modelled: create, the scores, the output.
Spec: runs and batches with `Linked` (what holds of neighbours), `alike`, and `leaders` (the pairs with no match before them).  Proof: an invariant of
the loop with the batches so far; for the groups a key (target, source, places of the non-terminals) of which Compare is the lexicographic order, and
an invariant of the set as a permutation of the numbered classes.

### Consolidation (M_Consolidate, P_Consolidate): C96

Modelled: splitLine, breakdownCoreAndSparse, tokenize (tables-core.cpp), the Good-Turing discounts and their use, the bins of counts.
Simplifications: floats are rational numbers (the bounds of the discounts do not depend on the rounding, the index of the table may, for counts so
large that 0.99998 is rounded away); the name of a sparse feature is its two numbers.  Not modelled: the Kneser-Ney coefficients, the consistency
checks, the output.  Spec: `joined`, `simple`, `score` with its words, `ratio` with Qmin and Qmax, positions in the list of bins.  Proof: induction
over the items, scores, counts and bins.

### Reading of phrase pairs (M_ScoreRead, P_ScoreRead): C97

Modelled: Vocabulary::storeIfNew, PhraseAlignment::create with createAlignVec, findBestAlignment.  Simplifications: what sscanf makes of a word is
a parameter (no number leaves the variables unset, which is None); negative numbers, the sentence number, the lengths of non-terminals and pcfgSum
are left out; counts are rational numbers.  None is also a write beyond the end of a table and a table of size -1.  Spec: `map (nth_error v)` for the
words, `Point` for the points of the line within the phrases, positions in the group.  Proof: induction over the words of each part of the line with
an invariant on the two tables (`side`), induction over the group.

### Domain features (M_Domain, P_Domain): C98

Modelled: Domain::load (with tokenize from M_Consolidate) and getDomainOfSentence, DomainFeature::add, the subset, ratio and indicator features.
Simplifications: sscanf is a parameter; lines are shorter than the buffer of 1000; a std::map is a list of keys and values; counts are rational
numbers; maybeLog, exp and the constant 2.718 are left out.  Not modelled: the sparse variants of the features.  Spec: `entry_line`, `first_of_each`,
`counts_in` (the counts of the pairs of a domain), `of_domain`, binary digits of k.  Proof: induction over the lines, the entries, the pairs and the
list of domains.

### Lexical weights (M_LexWeight, P_LexWeight): C99

Modelled: LexicalTable::load and permissiveLookup, Vocabulary::getWordID, computeLexicalTranslation, computeUnalignedPenalty and
computeUnalignedFWPenalty, calcCrossedNonTerm.  Simplifications: doubles are rational numbers; atof, the function words and the test for
non-terminals are parameters; the lines are given (no line as long as the buffer).  None is a read beyond the end of a phrase, token[0] of an empty
line, and the assertion that a non-terminal has one point.  Spec: `prob` (the last line with the words, or 1), `weight` and `product` over words, not
numbers; `Cross` of two points.  Proof: an invariant of the table and the vocabularies under loading, induction over the alignment.

### Helpers of gobio (M_GobioNum, P_GobioNum): C100

Modelled: prandseq.cpp (both sequences and the scrambling), number_master.cpp with the registrar (its get_id is `store` of M_ScoreRead).
Simplifications: bytes are numbers from 0 to 255; the ids of strings do not overflow int; prand_uint32 is unsigned int and int has 32 bits, as with
GNU.  imoa_init is only declared in the source.  Spec: `step_sum`, `mother` (the generator the comments name), texts, `reserved`.  Proof: bounds of the sums,
induction over the text with a law of xor on bytes, C97_vocabulary for the registrar.

### Path finder of iayko (M_PathFinder, P_PathFinder): C101

Modelled: FstPathFinder (fst_path_finder.cpp).  Simplifications: the automaton is the tree of its paths; the arcs of a final state, which are not
looked at, are left out; weights are whole numbers.  OpenFst itself is not modelled; that ShortestPath gives separate chains is an assumption of the
theorems' form (`bundle`).  A read beyond the end of a kept path is None.  Spec: `word`, `total`, `firsts`, `prefix`.  Proof: induction over a chain and over the chains.

### simplenorm and joiner (M_NormJoin, P_NormJoin): C102

Modelled: the constructor and normalize of simplenorm; doRequiredLayerTags and doRun of the joiner.  Simplifications: the lattice is given by what is
read of it, and the edges added do not change what is read, that is, the tags given do not match the masks asked for; the calls that change the
lattice are the result (addEdge and addPartitionToEdge are modelled in M_Lattice, parents and children in M_LatticeKin, the values of items in M_Items).
Spec: `rule`, `last_rule`, `meets`, `kin`, `last_value`.  Proof: induction over lines and rules; membership in the edges added.

### Lexica in plain text and the mapper (M_LexBase, P_LexBase, M_MapKey, P_MapKey): C103

Modelled: LexiconBase::readPlainText and getRecords; Mapper::parseEntry_, processEdge, and the text, category and attributes in addEntry_.  Simplifications: the file is
the list of its lines; unescape is a parameter; the store is the list of the pairs added (C45 is about the store).  Not modelled: the text and
category for unknown keys; std::sort is an insertion sort, and sorted lists of the same strings are equal.  Spec: `line` with `says`, `groups`, `attribute`.  Proof: induction over lines and groups; splitting takes back joining.

### Chart parser (M_ChartParser, L_ChartParser, L_ChartRun, L_ChartTags, P_ChartParser): C38
chart.tpl and agenda_parser.{hpp,tpl} as actions on the lattice model: the tag names the
chart takes, edge_category (quoted text, lemma of a form, or the item), skipping of blanks
(all to the left, one to the right), add_edge with its limit, fill_, go_ with the cascade of
limits.  The agenda is a list from which a function of the turn chooses, so a theorem for
every choice function covers every kind of agenda.  Parameters with contracts: conversion of
categories (`respects`, `reads_back`), getEdgeLemma (`steady`: the lemma found for a form
stays as the lattice grows), the combinator (any two functions).  The specification
(`reading`, `derives`, `application`) uses tag names and edges only.  C38_sound: every run,
whatever its ending.  C38_complete: every run that empties the agenda, with the conditions
spelled out in the statement; refutations show that two blanks in a row and edges outside
the input have to be excluded.  C38_ends: a bound on the number of turns from the number of keys
(source, target, item).  The proof keeps one invariant for all turns (`inv`, `full`): what is
new since the start is by rules, the agenda and the marked edges hold everything that is new,
and all pairs of marked edges have been combined.  Not modelled: is_astar, the combinators
with attributes (av_matrix, registrar), overflow of the turn counter.

### Completion of pipelines (M_Complete, P_Complete): C58
framework/auto_completer.cpp: the processors a pipeline is completed with, and the choice of
the best sequence.  Promises and factories are of any type, with their required and provided
tags and languages; the contracts (one language is one; a clone is of one language) hold of the
records of the examples.  std::list iterators are the split of the sequence at them; reading
front() of nothing is `Undefined`.  Specification: an inductive relation `run` that says how a
sequence may grow without iterators, restarts or copies of the sequence.  C58_exact: the
sequences found are exactly those of `run`.  C58_sound: each has for every processor what it
requires in front of it (one processor with all the tags), contains a choice for every original
alternative in order (one per language where that is needed), and everything else was added for
a requirement.  C58_unchanged: a sequence with nothing missing is kept.  C58_defined: with at
least one language nothing is read that is not there.  C58_ends: the completion ends if tags can
be ranked so that annotators require tags of a lower rank; C58_choice: what is chosen is the
first of the best (quality, then time) of those whose processors can all be created.  Numbers
are of any type with a weak order (no NaN).  Not modelled: the promises' options, and that
complete throws a sliced copy of the exception.

### Limits, distances, globs (M_Limit, M_Edit, M_Glob): C18, C19, C20, C47
`limit_checker.cpp` with its lazy sorting flag, against an order-free
specification; `edit_distance.hpp`, the two-column dynamic programming against
the inductive minimal edit script; `segment_glob.cpp` against an inductive
matching relation; `ant_like_path_glob.cpp` over a tree of directories
(symbolic links are not modelled).

### Cutter (M_Cutter, P_Cutter): C21
`common/cutter.cpp`: fragmentation by soft and hard limit and the run over a
text with a lookahead queue.  The client's cutting function is a parameter
with the stated contract (`honest`).

### Compressed data structures: C22, C23, C24, C25, C26, C45, C46
`tools/datastructures/lexica` (M_Lexica: MonotonicVector, StringVector,
PerfectHashIndex around a parameter, KeyValueStore), KLEnd codes (M_KLEnd),
`ListCoders.h` and the bonsai MonotonicVector (M_ListCoders), canonical Huffman
coding (M_Huffman).  Refinement to lists; round trips; Kraft sums and an
exchange argument for optimality.  Not modelled: saving and loading.

### Automata: C27-C32, C51, C52
`tools/datastructures/psi_query`: NDFSA and the algorithms of
`fsa_algorithms.hpp` (M_Fsa: traverse, prune, eps_remove, determinize,
intersect, reverse, unify, concatenate, kleene_*, minimize), BinDFSA and
minimize_incremental (M_BinFsa), MultiStore (M_MultiStore), HashFSA
(M_HashFsa).  Specification: accepted words by paths; right languages.
Weights of arcs other than the numbers of HashFSA are not modelled.

### Web server: C33-C37, C48, C49
`request_parser.cpp` (M_Http), `url_decode`, path check, page expansion and
form parsing (M_Web), sessions (M_Session), multipart uploads (M_Upload).
Sockets and threads are not modelled, except that C36 treats interleaved
requests of several threads for its refutation.

### Agendas and aliases: C39, C40
`agenda.hpp` (M_Agenda) as a transition relation over an arbitrary
priority-queue choice; `aliaser.cpp` (M_Aliaser).

### String fragments, hash tables: C44, C50
`string_frag.hpp/.cpp` (M_StringFrag); `zvalue.hpp/.cpp` zhash, zenvironment,
zsymboltable (M_ZHash).

### Checksums (M_Md5, P_Md5): C59
common/md5.cpp whole, except `update` after `finalize` (forbidden by the header) and the stream
operator.  The 64 lines of `transform` are kept line by line as data (function, order of the
registers, word, shift, constant).  The specification is RFC 1321: the constants are those of
the sine table (recomputed with 60 digits, not copied), functions, rotation and words are given
by the number of the operation, padding and length are appended to the whole message, which is
cut into blocks of 64 bytes.  C59_digest: for every not initialised buffer and every sequence
of calls of `update` with pieces shorter than 2^32 - 64 bytes the hexadecimal digest is the one
of RFC 1321 of the concatenation (also beyond 2^61 bytes, where the number of bits wraps as the
RFC says).  C59_truncated, C59_text: the function `md5` and the constructor, which make the
length an unsigned int.

## Not modelled

The processors' main programs, command line and pipeline parsing, the readers
and writers of file formats (but for the line of the PSI format), external libraries (re2, PCRE, boost, ICU, log4cpp,
aspell, tiniconv tables), tokenizer rule compilation, the bonsai
decoder and language model, morphological data, bindings for other languages,
the build system.

## Findings

Each is a `..._refuted` theorem unless marked (read).

Quoting and text
* A quoter that quotes `n`, `t` or `r` is not invertible (C01).
* Globs count bytes: `?` does not match a non-ASCII character (C20).
* Cutting with a hard limit below 4 can fail (C21).
* KLEnd codes break for words over 62 characters or with NUL bytes (C24).
* StringVector::find is wrong for absent strings and for unsorted non-ASCII ones (C23).
* Simple9 cannot code 0; equal neighbours in the bonsai MonotonicVector divide by zero (C25, C46).
* StringFrag: appending with default arguments, fragments of stored fragments and find from npos are wrong (C44).
* replace_invalid reads `*end` before comparing with it (read).

Tags, items, lattice
* LayerTagCollection::operator< is reflexive; isNone() changes the mask; a mask
  with an empty alternative matches symbols but is not applied to implicit ones;
  createTagCollection of an empty specification makes a tag named "" (C09).
* The 65th tag and the 129th attribute fail (C10, C11).
* An attribute set to NULL or "" equals an unset one; "007" reads back "7",
  "any" reads back "nil", 2^30 reads back as -2^30 (C11).
* A symbol edge forgets the item passed to addEdge; an edge that ends inside a
  character is not listed among the in-edges (C12).
* addEdge failing on ill-formed UTF-8 removes an implicit symbol edge (C13, C15).
* Re-adding an edge over one character stores it again (C14).
* discard of a symbol edge made by addSymbols marks another edge (C14).
* The index over masks is not updated when tags are merged into an edge, so a
  query answered before keeps missing it; discarded edges are enumerated (C17).
* A symbol edge from a loose vertex with a symbol out-edge indexes a vector at a
  negative position (Undefined in the model).
* The sequence builder stores a run of hidden edges by its ends; a run that
  begins at 0 and returns to 0 is taken for empty and loses edges, and roles are
  lost in the packed form (C41).
- getPath takes the last matching edge, not the one with the best score as
  lattice.hpp promises, and does not end on a cycle through a loose vertex
  (C16).
- With loose vertices the vertex iteration visits the end of the text even when
  it is to be skipped, loose vertices that nothing leads to come first, and an
  edge that leads from a loose vertex back to an earlier position breaks the
  topological order (C42).
* The copy constructor of AnnotationItemManager copies a pointer (read).

Compression, automata
* Huffman padding bits are read as symbols at the end of the stream (C26).
* A second arc for the same state and symbol is lost in BinDFSA (C27).
* minimize_incremental: undefined behaviour for no words or only the empty word;
  unsorted words give a wrong automaton (C28).
* kleene_option adds nothing, kleene_star does not accept the empty word;
  concatenate with an automaton without end states gives the second language (C29).
* determinize keeps epsilon arcs; NDFSA::in ignores them (C30).
* MultiStore loses empty values and lines over 10000 bytes; byte 254 in a key
  acts as a wildcard; Builder::add aborts (C31).
* HashFSA numbers the empty word 2^64-1 and gives foreign words a number (C32).
* intersect uses the first automaton's start states for both, and ignores end
  states behind epsilon arcs (C51).

Writers
* A tag group is closed at the end though it was never opened when edges with
  the tag exist but none leaves position 0: reading `targets[tag]` creates the
  entry (C43).
* Groups of different tags need not be nested; a group is closed only when the
  next one opens or at the end, so elements after its end are still written
  inside it; after a gap between edges no further group is opened (C43).

Web server
* url_decode accepts malformed escapes (C35).
* The last byte of a multipart body is dropped; form bodies with CR or LF are
  rejected; Content-Length 0 waits for ever (C34).
* A form body whose last part has no '=' makes parseNamesAndValues loop for ever;
  names are not decoded (C48).
* Sessions leak between threads; a cookie header that ends with the session
  identifier's name throws; GUID numbers wrap after 10000 (C36).
* Upload text fields are overwritten when split across chunks and cut at NUL;
  the content type loses its last character; a name is found inside "filename" (C37).

Parsers, aliases
* Agenda time stamps wrap after 2^32 pushes (C39).
* getAllAliases does not terminate on a cycle; chains of more than five aliases
  are cut (C40).
- runCutterOnEdge_ takes only the source of the edge to cut: the cutter gets the text up to the
  end of the symbols, and tokens may cross the end of the edge (C54_beyond_refuted;
  lattice.cpp 1237-1268).
- A token with the item of a symbol over one character makes runCutter throw
  (C54_symbol_item_refuted; lattice.cpp 186-204).
- correctionInsert at the end of the text looks for the edge to go on with after its own first
  edge was added: one character throws LoopEdgeException, more make a circle of symbol edges on
  which getPath never ends (C55_insert_one_at_the_end_refuted, C55_insert_at_the_end_refuted;
  lattice.cpp 841-847).
- correctionErase up to the end of the text always throws: the search for the edge before the
  erased part asks for the edge behind it again (C55_erase_without_symbol,
  C55_erase_at_the_end_refuted; lattice.cpp 861-863).
- correctionReplace by a longer text inserts the whole new text behind what it has replaced
  already: "ea" by "efg" in "cear" reads "cefefgr" (C55_replace_longer_refuted; lattice.cpp
  883-885).
- correctionInsert of an empty text reads an uninitialised vertex; a second insertion at the
  same place goes around the first; one in front of an inserted character reads a bit set with
  a negative index (C55_insert_nothing_refuted, C55_insert_twice_refuted,
  C55_insert_at_loose_refuted; lattice.cpp 825-848).
- getEdgeOrigin (and getEdgeLemma) never come back on two edges made of each other, which
  addEdge makes by merging equal items; only direct self-reference is refused
  (C56_origin_loops_refuted; lattice.cpp 739-751, 186-204).
- getChildren lists a child once per occurrence of the parent in its partitions
  (C56_children_once_refuted; lattice.cpp 697-706); the lemma of an edge is looked for along
  first parents only (C56_first_parents_refuted).
- PsiLRItem::unescape unescapes copies of the tags (the loop variable is a value), so a tag with
  an underscore comes back as "text\_tag" (C57_tag_refuted; psi_lattice_reader.hpp 84-91).
- Commas in categories and values are not escaped: an edge with the category "," makes the line a
  syntax error, "a,b" comes back as "a", a value "x,y" as "x" (C57_category_refuted,
  C57_values_refuted).
- A child that has no number is written as nothing: "9--11" is read as 9 and -11
  (C57_sequence_refuted; psi_lattice_writer.cpp 315-383).
- One partition over symbols makes the writer leave out all partitions of the edge
  (C57_partitions_refuted); an empty partition beside others loses them
  (C57_empty_partition_refuted).
- Long texts are shortened after escaping, so the cut may split an escape and the line cannot be
  read back at all (C57_shortened_refuted; psi_lattice_writer.cpp 218-265).
- Two annotators that require each other's tags make the completion go on without end; only a
  direct circle is looked for (C58_cycle_refuted; auto_completer.cpp 284-294).
- A requirement counts as met by a processor of another language
  (C58_language_refuted; auto_completer.cpp 220-236) and does not count as met by two processors
  together (C58_together_refuted).
- Without languages a processor that depends on them is silently left out
  (C58_no_language_refuted); at the front of the sequence (and wherever the scan starts) the
  iterator is moved in front of begin() (auto_completer.cpp 85-118, `Undefined`).
- Blanks are skipped repeatedly on the left of an edge but once on the right, so with two
  blank tokens in a row it depends on the agenda order whether a binary rule is applied
  (C38_order_refuted; chart.tpl 275-310).
- A rule whose left-hand side has the item of an edge already there with other tags is merged
  into that edge, which is then never put on the agenda: what follows from it is not derived
  (C38_merged_refuted; chart.tpl 118-152).
- A rule whose left-hand side has the item filed for an implicit symbol edge makes a new edge
  each time, so a unary cycle over such a category never ends (C38_new_edges_refuted; the
  example shows 40 turns).
- `md5(std::string)` and the constructor cut the length of the text to 32 bits: of a text of
  2^32 + n bytes only the first n count, all texts of 2^32 bytes have the digest of the empty
  text (C59_long_refuted; md5.cpp 112-117, md5.hpp).  Uploaded files are named by that digest.
- `i + blocksize <= length` in `MD5::update` wraps: with the 64 greatest lengths of an unsigned
  int the block after the end of the input is read (C59_wrap_refuted; md5.cpp 275).
- The PSI writer measures the text it has written by the quoted bytes: after fourteen underscores the
  next fourteen characters are taken for written, so their line is shortened to "abcdef...lmn" and the text
  cannot be read from the file (C60_escape_refuted; psi_lattice_writer.cpp 101, 135, 227-234, 258-264).
- The PSI writer prints a part that comes after its whole before the line of the whole, but takes the text of
  the whole for written: both lines are there, but the first one is shortened (C60_order_refuted;
  psi_lattice_writer.cpp 258-264 before 346-357).
- Two edges that are made of each other (addPartitionToEdge admits it) make the PSI writer recurse forever
  (C60_cycle_refuted; psi_lattice_writer.cpp 344-348).
- The PSI reader appends the text of the item of an edge that goes from the text to a loose vertex to the
  text of the lattice: "ala ma" written and read again is "ala?ą" (C61_loose_refuted;
  psi_lattice_reader.cpp 85-126).
- A shortened text that contains escapes can be longer than the edge; the reader takes its last byte for new
  text and appends it (C61_shortened_refuted; psi_lattice_writer.cpp 227-234, psi_lattice_reader.cpp 85-126).
- The PSI reader does not go back to the beginning of the edge for the next partition: "X[1,-]" is refused with
  "too many sub-edges", "X[-,1]" is read (C61_partitions_refuted; psi_lattice_reader.cpp 209-280).
- A byte of 128 or more that is in no edge gets a line of its own that is not UTF-8; the aligned printer
  throws and no file is written (C61_bytes_refuted; psi_lattice_writer.cpp 145-175).
- BracketPrinter never ends with a pattern whose list is not closed, if it begins with such a bracket: "()%*(x" (npos + 1 is
  0, so the search goes on at the beginning; C62_unclosed_refuted; bracket_printer.hpp 172-196).
- The bracketing writer prints "%*****" for a list with an empty pattern (C62_stars_refuted), and puts a list in for a
  category that is "%*****" (C62_mark_refuted; bracket_printer.hpp 221, 257-262).
- "%a(x) %A" prints "x=" for an attribute that is not there, as operator[] inserts it (C62_missing_refuted;
  bracket_printer.hpp 129-131).
- The loops that order the brackets of a place go on with the pair (0, 2) after a swap, as b is incremented: the first two may
  stay in the wrong order (C62_first_two_refuted); they do not end if two edges are parents of each other
  (C62_mutual_refuted; bracketing_lattice_writer.hpp 201-212).
- EdgeData::operator< is not an order: of two edges each may be less than the other, and they are elements of a std::set
  (C62_less_refuted; edge_data.hpp 84-93).
- An edge between loose vertices without a parent makes the bracketing writer dereference an empty boost::optional
  (C62_loose_refuted; bracketing_lattice_writer.hpp 189-191).
- Brackets of edges that cross are not nested (C62_crossing_refuted), edges of no characters are not drawn
  (C62_undrawn_refuted).
- The symmetrisation of alignments is not symmetric: with the languages exchanged, grow-diag may give another set of
  points, as it depends on the order of the walk (C63_symmetric_refuted; symal.cpp 295-322).
- minfsa on a repeated word, or on an empty word: delta_prefix runs off its end without returning a value, which is
  undefined behaviour; without any word finalize takes the last child of a state without children
  (C64_repeated_refuted; IncrementalFSA.cpp delta_prefix, finalize).
- minfsa does not check that its words are sorted: has_children creates a state anew that has been purged, and an automaton
  results that accepts words that were not given (C64_unsorted_refuted).
- binfsa sorts its states with `l.second > r.second || l.first < r.first`, which is no strict weak ordering, so that
  std::list::sort is undefined by the standard; with any merge sort the states come in some order with state 0 first, which
  is all that is needed (C65_order_refuted; CompressedDAGBuilder.hpp 17-19).
- CompressedDAG in mode 4 loads the arcs before `da_start` but `row` maps only states with `s > da_start`: the state that
  starts there is read beyond the array (C65_mode_refuted; CompressedDAG.cpp 94-105, 232).
- CompressedDAG::multihash loses rules when a pair of states is reached by ways of different lengths: words that come to the
  pair after it left the queue are not carried on (C67_all_refuted; CompressedDAG.cpp 506-554, used in RuleSet.cpp 95).
- The enumeration of nonterminal places takes no care of k > n: with as many allowed nonterminals as the maximal length plus
  one no nonterminals are taken at all on the right side, with more a[-1] is read (C68_one_more, C68_astray; RuleSet.cpp 492-523).
- The loss of C67 happens with plain sentences: for S(NP(a b) c) and the rules S -> NP c and S -> a b c only the first is found
  (C69_rules_all_refuted).
- Labels that no rule has all get the symbol 0.  If one of them is a nonterminal, all unknown words of this and all later
  sentences count as nonterminals when rules are bounded (C69_unknown; harmless, since no rule has the symbol 0).
- word_to_slist stops at the first way to fit a rule: a rule that fits a symbol in two ways is used in one only
  (C70_all_ways_refuted; RuleSet.cpp 274-277).  With symbols that cover no token, rules that fit are not found, since the path
  is cut back by start positions (C70_empty_refuted; line 268).
- A target symbol that is a proper beginning of "<X>[", such as the word "<", makes sscanf return EOF, which is taken as success:
  the uninitialized srcIndex is used (C70_unset_refuted; RuleSet.cpp 189-191).
- An alignment of odd length is read behind its end (C70_points; RuleSet.cpp 241-243).
- Before a nonterminal, substitute scores the whole translation so far instead of the run of words (`translation` instead of
  `ngram`), so everything before words that stand between two nonterminals is counted again (C71_between_refuted;
  Translation.cpp 246, while line 283 is right).
- A source nonterminal that the target side uses twice pays its costs once (C71_twice_refuted; Translation.cpp 20-22).
- get_terminal_cost ignores everything after the first nonterminal, since the string stream is not cleared (C71_terminals,
  C71_terminals_refuted; LmContainer.cpp 92).
- Candidates of equal cost displace each other: the second one and all translations that are reached from it only are lost
  (C72_ties_refuted; Translator.hpp 53-57).
- A cheaper way to a text that is in the queue already is inserted into a set that holds an equivalent element, which does
  nothing (C72_replace_refuted; Translator.cpp 155-160).
- TranslationSorter (cheaper and not the same text) and TransformationSorter (cheaper or smaller text) are not strict weak orders,
  as std::set requires.
- A hyperedge takes the first max_trans_hyper transformations it is given, not the cheapest (C73_fill_refuted; RuleSet.cpp
  137-152).
- Hyperedges of one symbol with the same best cost displace each other, although there is room (C73_equal_refuted;
  Transformation.hpp 110-114); when rule sets are merged this throws away a hyperedge with the transformations of both sets
  (C73_merge_refuted; RuleLoader.cpp 158-166).
- In sentences of more than 10000 source words phrase pairs behind word 9999 are lost (C74_long_refuted; extract-rules-main.cpp
  398).
- With boundary rules, alignment points one behind the last word are accepted as alignments to the boundary mark
  (C74_boundary_refuted; SentenceAlignment.cpp 98-108).
- `if (! sscanf(...,"%d-%d",...))` accepts a point with one number only and uses an uninitialised position (SentenceAlignment.cpp
  92); not modelled.
- The first word count limit in addHieroRule measures the hole from the beginning of the phrase (`endHoleT-startT`); it prunes less
  than intended, but as the limit is checked again nothing wrong is saved (C75_rules; extract-rules-main.cpp 768).
- saveAllHieroPhrases is given the number of words left in the rule where the number of words of the sentence is expected, so with
  boundary rules a rule with holes at the end of the sentence is labelled X, not S (C76_label, C76_label_refuted;
  extract-rules-main.cpp 756-759, 867).
- The table of prefixes of ordinals has no entries for the plural, so "3/2000" is read "trzy dwatysięczne" (C77_plural_refuted;
  numconversion.cpp 882-900).
- ",5", "1," and "1/" read the character before the beginning of an empty string (C77_empty; numconversion.cpp 740-744).
- "1,29-1,31" and "1,25-1,3" are read as differences, because digits behind the comma are compared in the wrong direction or by their
  number (C77_bigger_refuted; numconversion.cpp 623-656).
- "1,0000" is read with five zeros (C77_zeros_refuted); numbers of more than 660 digits contain "#" (C77_long_refuted).
- A converter rule whose second alternative keeps its conditions true is applied to its own results for ever and fills the memory, as
  the loop runs to the growing end of the vector (C78_endless, C78_endless_refuted; unumsunt_rule.cpp 101-103, 143-145).  The rules
  in data/ avoid it by changing what they test.
- Commands behind alternatives are done for the first alternative only (C78_after_refuted); a second command with alternatives becomes
  a rule whose conditions may be false by then (C78_two_refuted); a reference in a category is recognised by the first character of
  the whole command, so "CAT=b|$a" makes the category "$a" and "CAT=$a|" throws std::out_of_range (C78_reference_refuted; line 150).
- Rule files are read up to the first empty line (C78_blank; unumsunt.cpp 116-118), and commands behind an empty command are dropped
  without an error (C78_lost_refuted).
- An edge without a condition is selected although the comment says that a missing condition counts as not satisfied
  (C79_satisfied; selector.cpp 218-220).
- A sequence that ends before the fallback edge does, or jumps over its end, is selected instead of it, so text gets lost or is covered
  twice (C79_gap_refuted, C79_over_refuted; selector.cpp 147-154); a sequence of blank edges replaces a fallback edge that is not blank
  by nothing (C79_blank_refuted).
- With the default tags (fallback "token", output "selected,token") added edges are fallback edges for later vertices, where further
  edges get selected that are in no sequence of the original text (C79_default_refuted).  A circle of edges is followed for ever
  (C79_endless_refuted).
- Puddle escapes "+" as &#42; and "*" as &#43;, but reads them back the right way round, so "C++" becomes "C**"; and since &amp; is read
  before &lt; &gt; &#63; &#124;, a text with such a code in it comes back with the character (C80_round_trip_refuted; puddle_util.cpp
  26-36, 49-102; the text is then compared with a negative pattern, rule.cpp 202).
- The head of a puddle group is counted from the beginning of the group but looked for from the beginning of the match, so behind a
  left context the wrong token is taken as the head (C80_group_refuted; puddle_util.cpp 134-137, group_action.cpp 43-44).  A head
  outside of the group becomes 0 or a huge number, and ruleTokenSizes[head - 1] is read outside of the vector (C80_head_refuted;
  group_action.cpp 86, 102-107).
- Puddle drops text: where a form is shorter than the token, the form is not at the top and the token is removed because there is a
  form, so the vertex has no top edge (C81_some_refuted; lattice_wrapper.cpp 301-305).
- getVertex counts discarded edges, and goes over at most one blank at the end, so its positions differ from those of the sentence string
  (C81_vertex_refuted, C81_blank_refuted; lattice_wrapper.cpp 208-250).  From the last vertex it does not come back
  (C81_endless_refuted).  getEdgesRange takes the length of the first top edge for all (C81_range_refuted).
- After a match that takes in the end of the sentence matchPattern gives -1 as the place to go on, for which the rest of the sentence is
  then asked (C82_after_refuted).  The name of a group may contain > (rule_loader.cpp 880), which cuts its token off
  (C82_category_refuted).
- isUnifyingPossible takes an empty set of common values for the first token: a, b, b is possible (C83_possible_refuted; unify_action.cpp
  295).  discardUnunifiedEdges counts edges of a sequence where it should count elements: an element that matched nothing makes it discard
  all edges of the others, one that matched two tokens makes it write behind the end of a vector (C83_skipped_refuted,
  C83_repeated_refuted; unify_action.cpp 334-362).
- A condition of delete on the base form deletes the edges that do not meet it, and one of several conditions is enough
  (C83_delete_refuted; lattice_wrapper.cpp 1007-1015).  foundEdgesToDelete leaves the loop before it notes that a condition is not met, and
  its result is not used (C83_found; delete_action.cpp 117-138, 76-80).
- Proper labels list values in the alphabetical order of attributes (Morphology is a std::map) while getAttributes and the files have them
  in the order of the part of speech, so "subst:sg:nom" is not proper and "subst:nom:sg" is misread (C84_order_refuted).  getAttributes
  dereferences end() for an unknown part of speech (C84_unknown_refuted; tagset.cpp 456-458).  Two blanks make an empty value
  (C84_blank_refuted).  A star too many in add makes it add nothing (C84_add_refuted).
- The SRX segmenter forgets a non-breaking match that begins before the last cut, unless the rule happens to have been tried there before:
  three rules cut a place in one order and not in another, although the same rule speaks first of it (C85_over_refuted,
  C85_example_over; srx_segmenter.cpp 356-357).  A rule whose earlier match breaks later is not heard (C85_order_refuted; 359-388).
- makeAllParensNonCapturing_ turns the set "[(]" into "[(?:]" (C85_set_refuted; srx_segmenter.cpp 128-142).  UnexpectedElementException is
  made but not thrown in processLanguageRule_ (srx_rules.hpp 90; not modelled).
- In the rule files of the tp tokenizer the endif of a condition with an else part opens the text even inside a part that is skipped
  (C86_nested_refuted; tp_basic_tokenizer_rule_set.cpp 498-510).  A second else closes the text without an error if the condition did not
  hold (C86_else_refuted).  else and endif without a condition read back() of an empty list (C86_stack_refuted).  A redefinition is
  reported but the first value stays (434).  The rule main_regex is required but never used for cutting.
- LamerLemma writes the numbers of bytes to cut as 65 + n in a char: from 63 on the code is read back as another lemma or throws
  (C87_decode, C87_long_form_refuted; utility_functions.cpp 118-138).  An empty lemma of a form with a zero byte throws (C87_code_fails; 103, 120).
  Lemmas that differ only behind a colon are given twice (C87_lemma_twice_refuted; lamerlemma.cpp 66-70).
- The language guesser never counts the last bigram of a text (C88_counted; bigram_language_model.cpp 60-65), so a text of two characters has an
  empty table and gets the language with the smallest table.  One character that is not ASCII makes utf8::next throw (C88_throw_refuted; 55-57).
- The detokenizer keeps one token for a position (C89_lost_refuted; detok.cpp 75); a token without SurfacePosition has position 0.
- A tag such as adj:sg:nom:acc.voc loses all its forms: the counter also counts dotted parts that are not kept (C90_forms_lost_refuted;
  morfologik_tags_parser.cpp 238-241, 291-301).  The parser of SFST does not take off the removed gender or aspect, so subst:sg:nom:m1.m2 has no
  forms (C90_sfst_gender_refuted; sfst_tags_parser.cpp 101-112).  On level 1 std::unique is used on lemmas that are not sorted
  (C90_lemma_twice_refuted; morfologik.cpp 154-155).  "indecl" is twice in the table of SFST, the second one never counts (25, 79).
- EncodingConverter drops what does not fit into its 100000 bytes without notice, as OUT_TOO_SMALL is taken for success and a full buffer for OK
  (C91_long_refuted; encoding_converter.cpp 152-158); a text is cut at its first zero byte, which leaves nothing of UCS-2 (C91_ucs2_text_refuted;
  150); a converter whose target is UTF-8 does not convert from UTF-8 to anything (C91_from_target_refuted; 121).  tiniconv reads surrogates and
  numbers above 0x10ffff as UTF-8 (C91_utf8_unicode_refuted).  The names CP939, ISO-2020-JP and x-max-cyrillic are misspelt (27, 30, 50): what
  uchardet detects as x-mac-cyrillic or ISO-2022-JP is not converted.
- adler32_combine compares with `>` where `>=` is meant, so a sum that is 0 comes out as 65521; combining the checksums of two empty buffers already
  gives another number than theirs (C92_adler_combine_refuted; fex/zlib/adler32.c 144-147; nothing in the project calls it).
- unescape of the rule extraction never ends on a known name without a semicolon, as in "a &lt", because npos + 1 is 0 (C93_unescape_hangs;
  XmlTree.cpp 126-164; the assertion tests n where end is meant).  An unfinished tag drops the text before it and the line is accepted; an empty
  attribute swallows the next one (line 73 searches from one character too far); label="..." is found in sublabel="..."; a line without tags is
  returned before anything is unescaped (C93_line_refuted; 195-198, 70-73, 236).
- ConnectNodes looks for the parent of a node that starts elsewhere than the one before from the parent of the one before on, never at the one before
  itself: a first child after a word is given to the grandparent, or a null pointer is used (C94_parents_refuted; SyntaxTree.cpp 149-152).
- SyntaxTree::Parse never ends when a node over two words or more ends in a word that has no node of its own: no subspan is found and `covered`
  stays as it is (C94_parse_refuted; SyntaxTree.cpp 75-86).
- The singleton feature of score is inverted: isSingleton is false for a batch of one pair (but the first) and true for one of two or more
  (C95_singleton_refuted; score-main.cpp 261-273).
- score uses a null pointer when the extract file begins with an empty line, which equals the initial lastLine (C95_empty_refuted; score-main.cpp 239-241).
- PhraseAlignment::Compare is no strict weak order when a non-terminal of the target is aligned to two places or more: it stops there with +1 both
  ways, so rules that do not match are put in one group, depending on the order (C95_groups_refuted; PhraseAlignment.cpp 226-236).
- consolidate takes a score that does not begin with a digit for the name of a sparse feature, so negative scores (--LogProb) are written as sparse
  features and the score after them as their value (C96_scores_refuted; consolidate-main.cpp 360-365).
- For rules (hierarchicalFlag) score tests a point against the size of the phrases, but the tables are one shorter: a point at a left-hand side is
  written beyond their end; a line with an empty side asks for a table of size -1 (C97_rule_refuted; PhraseAlignment.cpp 101-111, 156-161).
- Domain::load tests for the end of the file after reading, so a last line without a newline is dropped and its sentences are "undefined"
  (C98_last_line_refuted; domain.cpp 20-22).
- getWordID answers 0 for a word that is not there, which is the number of the first word: without NULL in the lexical table, unaligned words are
  explained by that word (C99_lexical_refuted; tables-core.cpp 53-59, score-main.cpp 763).  The message for a wrong line reads token[0] of an
  empty vector if the line is empty (score-main.cpp 806).
- imoa_random multiplies an int with an unsigned int in three of its four products, so they wrap at 32 bits and the numbers are not those of "Mother
  of all", which the comments name (C100_mother_refuted; prandseq.cpp 52-54).
- number_master::string_representation asks is_int first, so "nil" and "fail" are printed as 0 and -1 (C100_strings_refuted; number_master.cpp 45-57).
- FstPathFinder compares a path with the kept ones by std::equal over its own length: a path that begins a kept one is dropped, and one that a kept one
  begins is compared beyond the end of that one.  The path is cleared at final states, so paths that part later than at the start lose their common
  beginning.  Weights of equal paths are not summed as the header says (C101_paths_refuted; fst_path_finder.cpp 57-91).  Only one path is asked for today.
- simplenorm reads pair[1] of every line, so a line without a tab, for one an empty line, is read beyond the end of a vector (C102_no_tab;
  simplenorm_normalizer.cpp 100).  It says that it provides the tag "norm" but gives its edges "simplenorm" and "normalization" (lines 81 and 137).
- The outer join of the joiner is a left one: right edges without a left one are not kept (C102_right_refuted; joiner.cpp 181-262).
- LexiconBase::isEmptyLine_ returns the position of the first character that is no blank, turned into a bool, so a line that begins with a blank is taken
  for an empty one and its entry is lost without a message (C103_indented, C103_lexicon_refuted; lexicon_base.cpp 106-108).
- A semicolon in a field of a lexicon, which is not escaped when lines are put together, makes two records of one; a key whose lines are apart is
  added to the store twice (C103_lexicon_refuted; lexicon_base.cpp 45-62 and 93).
- The parts of a key of the mapper are joined by commas without escapes, so different edges may have one key (C103_key_refuted; mapper.cpp 266).

## Testing the theorems

`seeded/LOG.jsonl` records edits of model definitions (made in a scratch copy)
as realistic bugs, with the theorems that stop being provable.
