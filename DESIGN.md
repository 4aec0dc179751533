# A Rocq (Coq 8.16.1) model of ringing-lib

## Configuration modelled

`RINGING_USE_EXCEPTIONS=1`, `RINGING_BELL_BITS=8` (a `bell` is an `unsigned char`,
values 0..255), 32-bit `int`/`unsigned`, 64-bit `size_t`. Default bell symbols.

## Shape of the development (`rocq/theories`)

| file | content |
|---|---|
| `Base.v` | outcome monad (`Ret`, `Throw`, `UB`, `Diverge`), checked vector access, loops with fuel |
| `Spec_*.v` | small, model-independent specifications (permutation, action on places, ...) |
| `M_*.v` | the model, one file per C++ source file; each definition cites file and lines |
| `P_*.v` | proofs |
| `Props_*.v` | only the property theorems, each closed by `exact`, with non-vacuity examples and `Print Assumptions` |

* C++ functions that can throw, index out of range or fail to terminate are
  functions into `outcome`. An out-of-range vector access or end-iterator
  dereference is `UB`, never a default value. A loop that is not structurally
  bounded runs on explicit fuel and returns `Diverge` when it runs out; theorems
  state that the result is `Ret`, so divergence is excluded, not hidden.
* Machine integers are unbounded `nat`/`Z` except where the property is about
  wrap-around (bells mod 256, the 32-bit factorial), where the wrap is written in.
* A vector mutated through a reference becomes a function returning the new value.

## Plan per property

C01-C16 (bell.cpp, change.cpp, row.cpp): rows are `list nat`; `act x i` is the
bell in place `i`, the identity beyond the end; validity is `Permutation x (seq 0 n)`.
Multiplication, division, inverse, power, applying a change are proved against `act`.
Cycles: `is_cycle`; order: least k with x^k = id; sign: proved to be a homomorphism
that is -1 on transpositions through split/merge of cycles.
Printing and parsing are functions on `list ascii`; round trips are by induction.

C17-C20 (place_notation.h, method.cpp): interpreter as a fuelled scanner over
characters, refined to an inductive grammar with expansion semantics.

C21-C24 (extent.cpp): numbering against lexicographic order, factorial modulo 2^32.

C25-C28 (group.cpp, multtab.cpp): sets as sorted lists without duplicates; group generation as
closure, cosets by membership.

C29-C31 (proof.h/.cpp): multiset of rows as state machine; histories by induction on
operation lists; refuted variants recorded.

C32-C34 (falseness.cpp, row.cpp): table against "two leads share a row".

C35 (touch.cpp): tree flattening.

C36-C37 (basic_search.cpp): search as a step machine; soundness by invariant,
completeness by enumeration order.

C38-C39 (music.cpp, row_wildcard.cpp): trie insertion and matching against a
declarative match relation.

C40-C41 (mathutils.cpp, dimension.cpp): integer arithmetic.

C44 (mathutils.cpp landau): the products of prime powers of bounded sum against the orders of
permutations; the table of maxima by induction over the loops; the bound on the primes, computed
in floating point, as a real number with an error of at most 1/100.

C49 (lhcode): the code as a function of the lead head's power, hunts and lead end; decided for
every method; injective on a stage.

C50-C51 (table_search.cpp): the same search over indices into a multiplication table of the cosets
of the part ends; the depth-first search is proved over abstract leads and an abstract relation of
falseness, then instantiated; repeats of a calling by powers of its lead head.

C52 (titles), C53 (litelib's base_name), C54 (litelib and method_stream): the title as words with
single spaces; the words found by their first occurrence; a library text as its lines, each line
read by a specification of first word, number before a colon and trimmed rest; the reader by
induction over the lines, the round trip from the lines written.

C55 (mslib): the same for MicroSIRIL libraries; a line is three fields, the lead head change comes
from the code, which C49 ties to the method.

C56 (methodset.cpp): refinement of operation histories to a map keyed by the changes; the loop by
induction over what its body does. C57 (library.cpp): a library as its entries and the way it ends;
searches as the first entry with the right answer; C52-C54 joined for what method_stream writes.

C58-C63 (apps/gsiril: the interpreter): expressions as trees, a fuelled interpreter in a state monad;
C58, C59 and C63 by one induction for all relations between states that the elementary updates
respect; C60 by induction over the derivation of what a composition stands for, with the
definitions of gsiril.init; C61 the same for blocks; C62 by arithmetic on the bytes.

C64-C67 (apps/gsiril/parser.cpp: expressions): a grammar on sequences of bracketed trees as the
specification; soundness by induction on the fuel, completeness by mutual induction over
derivations; C65 for arbitrary token sequences; C66 by a writer that brackets everything.

C68-C69 (apps/utils/tokeniser.cpp, apps/gsiril/parser.cpp: tokens and commands): what a token looks
like before the rest of its line, and how commands are laid out, as inductive relations; the
tokeniser and the splitter are shown to decide them, by induction on the text and the tokens.

C70 (parser.cpp: statements): a grammar of commands; the parser decides it (soundness by induction on
the fuel, completeness by mutual induction over derivations).  C71-C75 (statement.cpp,
execution_context.cpp, main.cpp): what statements do as mutually inductive relations without depths,
shown equivalent to the interpreter; C71-C73 by induction over them; C75 from C60, C69, C70, C72, C74.

C76-C78 (apps/gsiril/expression.cpp: literals): the braces, ranges and patterns as inductive relations,
decided by the code (induction on the text); C76 from C17, C78 from the theorems on music patterns.
C79: C75 for the script `prove k S`, from C68, C69 and C76.
C80 (apps/utils/row_calc.cpp, apps/rowcalc): the nodes with the state of their iterators; what an expression
stands for as an inductive relation; by mutual induction on it a node that is ready produces those rows and is
ready again after restart, using C25 for groups, C11-C13 for products, inverses and powers.
C81 (row_calc.cpp's tokens and rc_parser): the searches for operators and brackets, token by token; the grammar as an inductive relation on bracket trees, with a proof each way (whatever is read is of the grammar, whatever is of the grammar is so read), that what is accepted has matching brackets, and the reading back of a written form of each expression.
C82 (apps/methsearch/falseness.cpp): the depth-first search with its map of signs; an invariant of the search (what has been coloured, whose edges are right), then the colouring of one component is carried to all the lead heads by choosing a representative of each coset.
C83 (apps/extent/extent.cpp): the checks of the arguments and the loop over the iterator of C23.
C84 (apps/methsearch/methodutils.cpp, search.cpp): the loops with their ints and remainders; the symmetries are stated for the changes repeated for ever in both directions, indexed by the integers, and the loops over half of the points are shown to suffice by arithmetic modulo the length.
C85 (apps/methsearch/search.cpp): the recursion with its state (changes, division, row, prover, count) in the outcome monad. First it is shown by induction on the number of changes still to come that the state is determined by the changes so far (so that every pop undoes its push) and that a call emits a list of methods given by a pure function; then the methods in that list are characterised position by position (chosen, or copied from an earlier one); and then the copied ones are shown to be those of the symmetries, stated by remainders.
C86 (apps/splices/splices.cpp): the test of a pair through the falseness table and its group (C32). A splice is a division of the lead heads, a set with no row in common with leads from outside; the sets are shown to be the unions of left cosets of the group, so the group is the least; sizes are compared with (n-1)!, (n-2)! and (n-3)! by counting permutations that fix bells (and by exchanging two bells in course). The table of groups is an invariant over the saved pairs (each group connected, each method once), and the run over a library is folded to the list of pairs tested.
C87 (apps/methsearch/search.cpp, methodutils.cpp): the scan of the text of the cycles is folded to a test of the lengths of all cycles but the last (C17's decomposition); with the hunt bells fixed a cycle of n - h bells holds all the others, and the last needs no test as it holds what is left. Powers of plain bob through C16, the loops over half leads by the order of the lead head (finite) and an induction on the steps left; the place made at the back from the parser of changes.
C88 (apps/methsearch/methodutils.cpp): the rows of a division by induction from the right, each row as the list of where its bells came from; signs by the count of cycles (C17), strokes by splitting the indices; adjacent places by an invariant of the running count; the order of changes through the printed places, which are read back; the coursing order from the order of the lead head and the least number of leads that brings a tenor home (at most n by the cycle's length).
C89 (apps/methsearch/search.cpp): the three tests at the half lead, the quarter lead and of an offset lead head, by the specifications of the tests of C87 and of rows after changes of C88; the case analysis over the options is exhaustive, the blows are the runs of C85. The row hl of no bells grows on the first change.

C42-C43 (pointers.h): heap with reference counts; operation histories.

The status of each property, and the theorems that prove it, are in `MANIFEST.json`.

## Trusted base

* Coq's kernel (8.16.1), including its `vm_compute` evaluator where used.
* `Print Assumptions` prints "Closed under the global context" for every property theorem
  but one: `C44_code`, which is about real square roots and logarithms, uses the standard
  library's axioms for the reals (`ClassicalDedekindReals.sig_not_dec`,
  `ClassicalDedekindReals.sig_forall_dec`, `functional_extensionality_dep`,
  `Classical_Prop.classic`). No other axiom is used. The library files loaded contain the module parameters of
  `Coq.ssr.ssrunder.Under_rel` (loaded by the standard library); no theorem depends on them.
* The reading of the C++ source into the `M_*.v` files; nothing is extracted or run.
* The C++ standard library behaves as specified (`std::set`/`multimap` as sorted lists,
  `std::next_permutation` by its standard result, `std::string`, streams as character lists).

## What is and what is not modelled

Modelled (function by function, in `M_*.v`): bell, change, row (with the named rows and
`row_block`), place notation, method (symmetry, lead heads, format, codes, plain/dodges/
places/blows), methclass, lhcode, extents, groups, multiplication tables, provers and branches,
falseness tables and false courses, touches, music, row wildcards, mathutils, dimension,
pointers, basic_search, table_search, titles, litelib, mslib, method_stream, methodset, library (load, find, path), multilibout, and of the
applications the interpreter of gsiril (expressions, proof context, statements, imports, exit status), its tokeniser, its parser and its literals, for runs which are not interactive; and the row calculator, its parser and its evaluation; the splice finder; methsearch's search (for one part; most tests of single changes are parameters) and its tests of falseness and symmetry; the extent program. Simplifications, each also at its definition:

* exception messages, `random_row`, swaps and assignments that only copy members, dump/debug
  output, method names, `falseness.dat` symbols, `dimension::set_float` and `in_points`;
* output already written when a function throws is not visible;
* branches: the chained prover is not changed while a branch on it is in use;
* shared pointers: running out of memory is modelled for the counter only, raw pointers
  given to constructors are fresh;
* touch nodes are immutable during iteration; the vector of a `row_block` is not changed
  behind its back;
* multiplication tables: handles are indices used with their own table; a failed `assert`
  is the outcome `Throw AssertFailed`;
* place notation: reading `*last` at the end of a string gives the terminating NUL;
* values read before they are initialised or past the end (methclass, music) are parameters
  ("junk"), so that theorems show where the result does not depend on them, or are `UB`;
* music: offsets below 2^32; the state left behind by a `push_back` that throws is not visible;
* wildcards: a pattern with a `*` and more items than bells is taken to diverge (the number of
  bells for the * wraps round).

Not modelled: the method-library formats (`cclib`, `xmllib`), `pdf/ps` printing, `stringtok`, `streamutils`, and of the applications all but the extent program, methsearch's search and tests of falseness and symmetry, splices (its -F, -G, rows read from a file and the printing of groups are left out) (of the search: part ends, row masks, -E, starting in the middle, the status line, positions), the row calculator (of that: commands and files as sources of rows, the interactive mode) and gsiril's interpreter (of that: music patterns, tracing and underlining; line numbers; interactive
sessions, --filter, --determine-bells, the reading of options and of the initialisation script).
