{"id": "C01", "title": "Row construction accepts exactly the permutations", "statement": "Constructing a row from a list of bells succeeds exactly when the list is a permutation of bells 1..n (n the length of the list), and then yields that list unchanged; in every other case it throws row::invalid and never has undefined behaviour.", "quantifier": "all finite lists of bells (all 8-bit values, all lengths up to INT_MAX)", "why_tests_cant": "The space of bell lists is unbounded; tests only try a few malformed rows.", "anchors": ["ringing/row.cpp: row::row(vector<bell> const&), row::validate"]}
{"id": "C02", "title": "Row multiplication is composition", "statement": "For any two rows x, y (possibly on different numbers of bells, each up to 256) x*y is a valid row on max(x.bells(), y.bells()) bells whose bell in place i is x[y[i]], where a row is read as leaving every bell beyond its end in its own place; no out-of-range access happens.", "quantifier": "all pairs of valid rows of any sizes", "why_tests_cant": "Tests sample a handful of pairs of equal length; padding cases and all permutations need a proof.", "anchors": ["ringing/row.cpp: row::operator*(const row&)", "ringing/row.h: row"]}
{"id": "C03", "title": "Rows form a group", "statement": "Row multiplication is associative as exact row values even for mixed lengths; rounds is a two-sided identity (after padding); x*x.inverse() and x.inverse()*x are rounds; x/y equals x*y.inverse() and (x/y)*y gives back x padded to the common length.", "quantifier": "all triples of valid rows of any sizes", "why_tests_cant": "Algebraic laws over an infinite set.", "anchors": ["ringing/row.cpp: operator*, operator/, inverse"]}
{"id": "C04", "title": "Applying a change to a row", "statement": "row *= change swaps exactly the bells in the adjacent pairs of places named by the change and leaves all other places alone; the result is a valid row on max(bells) bells, equals multiplication by the row the change denotes, and applying the same change twice restores the (padded) row.", "quantifier": "all valid rows and all well-formed changes of any sizes", "why_tests_cant": "All rows x all changes is infinite.", "anchors": ["ringing/row.cpp: operator*=(row&, const change&)", "ringing/change.h: change"]}
{"id": "C05", "title": "Changes are always well formed", "statement": "Every change that can be produced through the public API (constructors from place notation or places, reverse, any sequence of swappair calls) keeps a strictly increasing list of non-overlapping adjacent pairs inside the stage, so no bell moves more than one place, provided the sequence meets no undefined behaviour.", "quantifier": "all sequences of change API calls on any number of bells up to 255", "why_tests_cant": "Invariant over arbitrary histories of mutations.", "anchors": ["ringing/change.cpp: change::change, reverse, swappair"]}
{"id": "C06", "title": "swappair semantics and its out-of-bounds read", "statement": "swappair(i) toggles the pair (i,i+1): if present it is removed and false returned, else it is added, pairs overlapping it are removed and true is returned; it throws out_of_range iff i+2>n. Whenever the pair (i-1,i) is the last pair of the change and (i,i+1) is being added, the code dereferences the end iterator (undefined behaviour); in every other case there is none.", "quantifier": "all well-formed changes and all places", "why_tests_cant": "Undefined behaviour may go unnoticed in tests; all change/place combinations needed.", "anchors": ["ringing/change.cpp: change::swappair"]}
{"id": "C07", "title": "Place notation of a single change round-trips", "statement": "For every well-formed change c on n bells (1<=n<=255) parsing the text printed by c.print() on n bells gives back c, for every choice of cross symbol flag; the parsed text is never rejected.", "quantifier": "all well-formed changes on 1..255 bells and all print flags", "why_tests_cant": "Exponentially many changes per stage, with extended {n} bell symbols beyond 33 bells.", "anchors": ["ringing/change.cpp: change::change(int,const string&), change::print, places", "ringing/bell.cpp: read_extended, operator<<"]}
{"id": "C08", "title": "places, findplace, findswap and bell movement agree", "statement": "For a well-formed change c: places() lists in increasing order exactly the places i for which findplace(i); findswap(i) holds iff the bells in places i,i+1 are exchanged; multiplying a bell position by c gives the position where row*=c moves that bell; count_places() is the number of places; reverse() mirrors the change about the middle of the row and is an involution; sign() is +1 iff the number of swapped pairs is even.", "quantifier": "all well-formed changes and all positions", "why_tests_cant": "Consistency of several independent code paths for all changes.", "anchors": ["ringing/change.cpp: places, findplace, findswap, operator*=(bell&,const change&), reverse, sign, count_places"]}
{"id": "C09", "title": "Bell symbols round-trip", "statement": "With the default symbols, every bell 0..255 printed with operator<< is read back by read_extended to the same bell, consuming exactly the printed text whatever follows it; read_char accepts exactly the 33 symbols, their lower-case forms, I/i for 1 and O/o for 0 (and NUL), and everything else throws.", "quantifier": "all 256 bells, all characters and all continuations of the text", "why_tests_cant": "Needs every following text; tests use a few literals.", "anchors": ["ringing/bell.cpp: read_char, read_extended, operator<<, is_symbol"]}
{"id": "C10", "title": "Rows print and parse back", "statement": "For every valid row on up to 33 bells, constructing a row from r.print() gives r; for every valid row on up to 256 bells, constructing it from the text written by operator<< gives r.", "quantifier": "all valid rows on 0..256 bells", "why_tests_cant": "n! rows for each n.", "anchors": ["ringing/row.cpp: row::print, operator<<, row::row(const string&)"]}
{"id": "C11", "title": "Row order and sign", "statement": "order() is the least k>0 with x^k rounds whenever it returns, and it always returns on at most 58 bells (beyond, the int may overflow); sign() is multiplicative, +1 on rounds and -1 for any exchange of two bells, so it is the parity of the number of pairwise swaps; sign() of a change equals sign() of its row.", "quantifier": "all valid rows up to 256 bells", "why_tests_cant": "All permutations.", "anchors": ["ringing/row.cpp: row::order, row::sign, row::cycles", "ringing/mathutils.cpp: hcf, lcm"]}
{"id": "C12", "title": "Cycle decomposition", "statement": "cycles() lists the disjoint cycles of the row: groups separated by commas partition the bells, each group starts with its least bell, groups are in increasing order of first bell and each bell is followed by its image; num_cycles() counts them; cycle_size(b) is the least k>0 with x^k fixing b. All loops terminate without out-of-range accesses on valid rows.", "quantifier": "all valid rows and all bells in them", "why_tests_cant": "Loop termination and all permutations.", "anchors": ["ringing/row.cpp: row::cycles, num_cycles, cycle_size"]}
{"id": "C13", "title": "Integer powers of rows", "statement": "power(n) is the n-fold product of the row for n>=0 and of its inverse for n<0: for every int n>INT_MIN on at most 18 bells, including exponents large enough to be reduced modulo order(), and for |n| <= bells() squared on more. (From 19 bells on there are rows and exponents for which power never returns, and power(INT_MIN) is signed overflow.)", "quantifier": "all valid rows and all integers n", "why_tests_cant": "Unbounded exponents and a size-dependent shortcut.", "anchors": ["ringing/row.cpp: row::power"]}
{"id": "C14", "title": "Conjugators", "statement": "are_conjugate(x,y) holds iff some valid row r of that length has y = r^-1*x*r; in that case conjugator(x,y) returns such an r and otherwise the empty row. (Rows of at most 33 bells; beyond that the implementation throws bell::invalid.)", "quantifier": "all pairs of valid rows, for any (unstable) sort of the cycles", "why_tests_cant": "Existence statement over all permutations.", "anchors": ["ringing/row.cpp: are_conjugate, conjugator, conjugacy_class_vector"]}
{"id": "C15", "title": "Named rows", "statement": "rounds, queens, kings, tittums, reverse_rounds, cyclic and pblh return valid rows with their documented shape on every stage and number of hunt bells.", "quantifier": "all stages 0..256 (and all hunt bell counts and cyclic shifts)", "why_tests_cant": "Every stage and parity; loops that temporarily write past their half.", "anchors": ["ringing/row.cpp: queens, kings, tittums, reverse_rounds, cyclic, pblh"]}
{"id": "C16", "title": "Plain Bob lead head recognition", "statement": "ispblh(h) returns i>0 iff the row is the i-th power (0<i<n-h) of the plain-bob lead head with h hunt bells, and 0 if it is none of these.", "quantifier": "all valid rows and all hunt bell counts", "why_tests_cant": "All rows and powers.", "anchors": ["ringing/row.cpp: ispblh, pblh"]}
{"id": "C17", "title": "Place notation parsing", "statement": "interpret_pn terminates on every input; on every text of the documented grammar (blocks separated by commas, '&' symmetric blocks, '+' blocks, dots and spaces as separators, x/X/- crosses) it yields exactly the expansion the grammar prescribes: a symmetric block c1..ck expands to c1..ck..c1, other blocks to themselves.", "quantifier": "all texts and all stages", "why_tests_cant": "Unbounded strings.", "anchors": ["ringing/place_notation.h: interpret_pn, skip_ws, skip_sep, read_bell_expr"]}
{"id": "C18", "title": "Method formatting round-trips", "statement": "For every method all of whose changes are well formed on b bells (0<=b<=255), and every combination of format flags without M_OMIT_LH, interpreting m.format(flags) on b bells gives back exactly the changes of m.", "quantifier": "all methods (all lengths, all changes) and all flag combinations", "why_tests_cant": "Infinite set of methods; compression of external places and symmetric blocks.", "anchors": ["ringing/method.cpp: method::format, do_single_compressed_pn, do_compressed_section", "ringing/place_notation.h: interpret_pn"]}
{"id": "C19", "title": "Palindromic symmetry detection", "statement": "is_palindromic_about(i) holds iff reflecting the changes (cyclically) about change i leaves the method unchanged; issym() is that statement for the half-lead change of an even-length method; symmetry_point() returns the least such i below half the length or -1 if there is none; issym/isdouble/ispalindromic never access the method out of range.", "quantifier": "all methods of all lengths", "why_tests_cant": "All methods.", "anchors": ["ringing/method.cpp: is_palindromic_about, issym, symmetry_point, isdouble"]}
{"id": "C20", "title": "Lead head and plain course length", "statement": "lh() is the product of the method's changes from rounds, leads() is the least number of repetitions that returns to rounds, and huntbells() counts the bells fixed by a lead.", "quantifier": "all methods", "why_tests_cant": "All methods and unbounded repetition.", "anchors": ["ringing/method.cpp: lh, leads, huntbells"]}
{"id": "C21", "title": "Extent numbering is an order isomorphism", "statement": "For nw<=13 working bells, nth_row_of_extent and position_in_extent are mutually inverse between 0..nw!-1 and the rows that fix the hunt and tenor bells, and the numbering is increasing in lexicographic order. (For nw>=14 the 32-bit factorial wraps and this fails.)", "quantifier": "all nw<=13, nh, nt and all positions/rows", "why_tests_cant": "nw! rows.", "anchors": ["ringing/extent.cpp: nth_row_of_extent, position_in_extent", "ringing/mathutils.cpp: factorial"]}
{"id": "C22", "title": "Sign of the n-th row", "statement": "sign_of_nth_row_of_extent(n) equals the sign of the n-th row of the extent; position_in_incourse_extent and nth_row_of_incourse_extent are inverse to each other between 0..nw!/2-1 and the even rows.", "quantifier": "all positions and all stages in range", "why_tests_cant": "All positions.", "anchors": ["ringing/extent.cpp: sign_of_nth_row_of_extent, nth_row_of_incourse_extent", "ringing/extent.h: position_in_incourse_extent"]}
{"id": "C23", "title": "Iterating an extent", "statement": "Incrementing an extent_iterator from begin visits every row with the given fixed bells exactly once in lexicographic order and then reports end; incourse_extent_iterator visits exactly the even ones; decrementing undoes incrementing.", "quantifier": "all nw, nh, nt", "why_tests_cant": "nw! steps for unbounded nw.", "anchors": ["ringing/extent.cpp: extent_iterator::operator++, operator--, incourse_extent_iterator::operator++"]}
{"id": "C24", "title": "Iterating all changes", "statement": "changes_iterator visits every change on the working bells exactly once and then reports end.", "quantifier": "all nw, nh, nt", "why_tests_cant": "Fibonacci-many changes, unbounded nw; stateful stack algorithm.", "anchors": ["ringing/extent.cpp: changes_iterator::next"]}
{"id": "C25", "title": "Group generation", "statement": "group(gens) terminates and contains exactly the products of the generators (padded to the common number of bells), each once, in increasing order; it is closed under multiplication and inverse and contains rounds.", "quantifier": "all finite lists of valid generators", "why_tests_cant": "Work-list algorithm over arbitrary generator sets.", "anchors": ["ringing/group.cpp: generate_group, group::group"]}
{"id": "C26", "title": "Coset labels", "statement": "rcoset_label(r) and lcoset_label(r) return the lexicographically least element of the coset G*r resp. r*G (r on G.bells() bells); hence two rows get the same label iff they lie in the same coset, and elements of G get rounds. The fast path for direct products of symmetric groups agrees with the generic one.", "quantifier": "all groups and all rows on the group's number of bells", "why_tests_cant": "All groups.", "anchors": ["ringing/group.cpp: rcoset_label, lcoset_label, is_direct_product_of_symmetric_groups, calc_orbit_space"]}
{"id": "C27", "title": "Derived groups", "statement": "conjugate(r) is { r^-1*g*r }, even_subgroup() the even elements, direct_product the internal direct product on disjoint bells, invariants() exactly the bells fixed by every element; all are groups again and sorted.", "quantifier": "all groups and rows", "why_tests_cant": "All groups.", "anchors": ["ringing/group.cpp: conjugate, even_subgroup, direct_product, invariants"]}
{"id": "C28", "title": "Multiplication tables compute products", "statement": "In a multtab whose row set is closed under right multiplication by x, for every row r of the set find(find(r) * compute_post_mult(x)) is the representative of r*x; similarly for pre-multiplication; earlier columns keep their meaning when columns are added. With a part-end group the result represents the coset of r*x.", "quantifier": "all row sets, part-end groups and sequences of column additions", "why_tests_cant": "Histories of table extension over arbitrary row sets.", "anchors": ["ringing/multtab.cpp: compute_post_mult, compute_pre_mult, find, make_representative, init"]}
{"id": "C29", "title": "Proof of truth", "statement": "After any sequence of add_row/remove_row calls that does not throw, count_row(r) is the number of outstanding additions of r, size() their total, duplicates() the number of additions beyond the first of each row, and truth() holds iff no row occurs more than max_occurs times; remove_row throws exactly for rows not outstanding. When rows are only added, the failinfo lists exactly the rows occurring more than max_occurs times, with the lines where they occur.", "quantifier": "all operation histories, rows and max_occurs>=0", "why_tests_cant": "All histories.", "anchors": ["ringing/proof.cpp: prover::add_row, remove_row, count_row, size"]}
{"id": "C30", "title": "Prover branches", "statement": "A branch sees all rows of its chain; its truth() agrees with that of a full copy provided the chain was true when branched (a branch of a false touch wrongly reports true).", "quantifier": "all histories with branches", "why_tests_cant": "All histories.", "anchors": ["ringing/proof.cpp: prover::create_branch, add_row, count_row"]}
{"id": "C31", "title": "Proof objects", "statement": "proof::prove returns true iff no row occurs more than max times in the concatenation of the two ranges, in quick and in full mode.", "quantifier": "all finite row sequences and max", "why_tests_cant": "All sequences.", "anchors": ["ringing/proof.h: proof::prove"]}
{"id": "C32", "title": "Falseness tables", "statement": "The falseness table of methods A and B (no flags restricting) is exactly the set of lead heads f for which a lead of A from rounds and a lead of B from f share a row; in_course_only/out_of_course_only/fixed treble flags select exactly the even/odd/treble-fixing ones; it is sorted without duplicates.", "quantifier": "all pairs of methods/row blocks and flags", "why_tests_cant": "All methods.", "anchors": ["ringing/falseness.cpp: falseness_table::init"]}
{"id": "C33", "title": "False course heads", "statement": "For a method whose lead head cycle moves the tenor through every place the tenor can occupy, false_courses terminates and holds exactly the course heads c whose course shares a row with the plain course and satisfy the flags.", "quantifier": "all methods for which the search for the course head terminates", "why_tests_cant": "All methods.", "anchors": ["ringing/falseness.cpp: false_courses::initialiser::process"]}
{"id": "C34", "title": "Row blocks", "statement": "A row_block holds the successive rows obtained by applying the changes to the starting row, of length c.size()+1 (or as flags say), and recalculate(k) restores this from row k onwards.", "quantifier": "all change lists, start rows and flags", "why_tests_cant": "All change lists.", "anchors": ["ringing/row.cpp: row_block::row_block, recalculate"]}
{"id": "C35", "title": "Touch iteration flattens the tree", "statement": "Iterating a touch from begin() to end() yields the concatenation of its children's changes with each child repeated its count, recursively, provided every node is non-empty and every count positive.", "quantifier": "all touch trees", "why_tests_cant": "Arbitrary nesting.", "anchors": ["ringing/touch.cpp: touch_child_list::iterator"]}
{"id": "C36", "title": "Composition search soundness", "statement": "For a method whose lead is true and calls on its bells such that the treble leads at every lead end, basic_search terminates whatever the outputer answers; every touch given to the outputer is made of whole leads, plain or called, as many as the range allows, comes round at its end and repeats no row; iterating over it gives those changes (leads of two or more changes); and the outputer is given the same touches in the same order whatever it answers, up to its first request to stop.", "quantifier": "all methods, call sets and length ranges, all output callbacks", "why_tests_cant": "Exponential search space.", "anchors": ["ringing/basic_search.cpp: run_recursive, is_row_false, output_touches"]}
{"id": "C37", "title": "Composition search completeness", "statement": "For such a method and calls, when the outputer never asks to stop: without ignore_rotations every true round calling with a length in range is given; with it, the alphabetically least rotation of each is given, in alphabetical order and none twice. Without it the touches come in groups, headed in alphabetical order, and the group headed by a calling that is the least of its rotations has each different rotation once.", "quantifier": "all methods, call sets and length ranges", "why_tests_cant": "Pruning must never lose a touch: universally quantified over touches.", "anchors": ["ringing/basic_search.cpp: is_possibly_canonical, is_really_canonical, run_recursive"]}
{"id": "C38", "title": "Music matching", "statement": "After any history of adding patterns, processing rows and resetting, processing a list of rows gives each pattern counts equal to the number of handstroke and backstroke rows that match it, where ? matches one bell, [..] one of the listed bells and * any sequence, for every pattern with no bell repeated in a [..], a named bell between any two *s, no more items than bells, long enough for a * before another * to reach, and a bell left over for a last * that is not at the end. process_row says whether any pattern matched and records the bells that stood for wildcards; runs and CRUs count the rows with that run; scores and counts are the sums.", "quantifier": "all pattern sets and row sequences", "why_tests_cant": "All patterns and rows.", "anchors": ["ringing/music.cpp: music_node::add, match, process_row"]}
{"id": "C39", "title": "Counting wildcard matches", "statement": "row_wildcard::count(b) is the number of different rows on b bells that the pattern describes, as a 64-bit number (exactly so up to 20 bells), for every pattern of bells, ?s, [..]s and any number of *s that has no more items than bells, names no bell twice, offers no bell in a [..] that is named later, writes each bell with one character, and has a named bell between any two *s that are apart. music::get_possible_score is then the sum of these counts with the scores. (Otherwise it fails, e.g. for *[345]* because only pairwise overlaps are subtracted.)", "quantifier": "all such patterns and stages with b! fitting 64 bits", "why_tests_cant": "All patterns.", "anchors": ["ringing/row_wildcard.cpp: possible_matches, count"]}
{"id": "C40", "title": "Integer mathematics", "statement": "hcf is the greatest common divisor of positive arguments, lcm their least common multiple when the product fits an int; factorial, fibonacci and ipower return the true value modulo 2^32 / when in range; is_prime decides primality and next_prime returns the least larger prime.", "quantifier": "all machine integers in the stated ranges", "why_tests_cant": "2^64 argument pairs.", "anchors": ["ringing/mathutils.cpp: hcf, factorial, fibonacci, ipower, is_prime, next_prime", "ringing/mathutils.h: lcm"]}
{"id": "C41", "title": "Dimensions", "statement": "reduce() puts a dimension with non-zero denominator in lowest terms with positive denominator without changing its value; reading accepts the documented formats with the exact rational value; printing a reduced, non-zero dimension that is positive or at least 1 in magnitude and reading it back gives the same dimension.", "quantifier": "all dimensions in int range and all texts", "why_tests_cant": "All integers and texts.", "anchors": ["ringing/dimension.cpp: reduce, read, operator<<"]}
{"id": "C42", "title": "Shared pointers free exactly once", "statement": "Under every sequence of construction, copy, assignment, reset, swap and destruction of shared_pointer handles, an object is deleted exactly when the last handle to it goes, never twice, and never while a handle remains.", "quantifier": "all operation histories", "why_tests_cant": "All histories.", "anchors": ["ringing/pointers.h: shared_pointer"]}
{"id": "C43", "title": "Copy-on-write pointers have value semantics", "statement": "Under every sequence of operations on cow_pointer handles, mutating through one handle is never visible through another and objects are freed exactly once.", "quantifier": "all operation histories", "why_tests_cant": "All histories.", "anchors": ["ringing/pointers.h: cow_pointer"]}
{"id": "C44", "title": "Landau's function", "statement": "landau(n) ends and is the order of some permutation of n bells, and no permutation of n bells has a larger order; in particular the bound on the primes that it computes in floating point excludes no greater order. (This holds for n up to 119; from n = 120 the greatest order does not fit the 32-bit result.)", "quantifier": "all n", "why_tests_cant": "The maximum ranges over all permutations.", "anchors": ["ringing/mathutils.cpp: landau"]}
{"id": "C45", "title": "What a bell does in a method", "statement": "isplain(b) holds exactly when bell b comes home at the lead end, never dodges and makes just two places, turning round there; hasdodges(b) exactly when it somewhere (also across the lead end) returns to where it was two blows before; hasplaces(b) exactly when it makes a place off the front and back; maxblows is the longest run of blows in one place, round the lead.", "quantifier": "all methods on up to 255 bells and all bells", "why_tests_cant": "All methods.", "anchors": ["ringing/method.cpp: isplain, hasdodges, hasplaces, maxblows"]}
{"id": "C46", "title": "Classification of methods", "statement": "methclass(year) always returns, and gives the one kind the method is of together with the differential and little flags, each decided by the paths of the bells: principle when no bell comes home at the lead end; otherwise, for the first hunt bell, hybrid when its path is not palindromic, slow course, bob or place when it plain hunts, alliance, treble place or treble dodging by the time it spends in and the places it makes at each position, and treble bob, delight or surprise by the internal places at the cross sections; differential by the cycles of the working bells under the rule of that year; little when the first hunt bell does not cover all places.", "quantifier": "all methods on up to 255 bells with leads of fewer than 512 changes, and all years (on one bell, from 2019)", "why_tests_cant": "The definitions quantify over whole paths; examples cover a few methods.", "anchors": ["ringing/method.cpp: methclass"]}
{"id": "C47", "title": "Comparison operators", "statement": "operator< on rows, changes and groups is a strict total order agreeing with operator== (rows and groups lexicographically, changes and groups first by number of bells), so sets, maps and sorts of them are well defined; two groups compare equal exactly when they have the same bells and the same elements.", "quantifier": "all rows, changes and groups", "why_tests_cant": "A strict weak ordering is a statement about all triples of values; a comparison that is wrong for one pair silently corrupts sets and maps.", "anchors": ["ringing/row.h: operator<", "ringing/change.h: operator<", "ringing/group.cpp: operator==, operator<"]}
{"id": "C48", "title": "find, resize and isrounds", "statement": "find(b) gives the place bell b is in (b itself when the row has fewer bells); resize to more bells appends them at home and to fewer succeeds exactly when the bells dropped are the last ones, throwing otherwise; isrounds holds exactly for rounds.", "quantifier": "all rows and bells", "why_tests_cant": "All permutations.", "anchors": ["ringing/row.cpp: row::find, row::resize, row::isrounds"]}
{"id": "C49", "title": "Lead head codes", "statement": "lhcode gives the standard code exactly when the treble, or treble and 2, are the hunt bells, the lead head is a power k of that of plain bob with k prime to the number of working bells, and the lead end (with two hunts, the first change) is one of the two kinds: a to f and p, q for seconds place, g to m and r, s for firsts, the later ones with a number, from the low end or the high end; and z for every other method. On a given number of bells a code other than z determines the lead head, the number of hunt bells and the kind of lead end.", "quantifier": "all methods on 1 to 255 bells", "why_tests_cant": "All methods, lead heads and stages; the letters repeat and numbers grow with the stage.", "anchors": ["ringing/method.cpp: lhcode", "ringing/row.cpp: row::ispblh"]}
{"id": "C50", "title": "table_search, one part", "statement": "table_search ends whatever the outputer answers. With one part end it gives, in the same order, the same touches as basic_search where that works, and also works where the treble does not lead at the lead ends: every touch given is a true touch of whole leads of a length asked for, every true calling of such a length is given (up to rotation when rotations are ignored, then in alphabetical order). With the flag for touches that do not come round it gives those that cannot be prolonged truly. With the flag for changes the range is that of the number of changes in all the parts.", "quantifier": "all methods with at least one change and true leads, all calls on the same bells, all ranges and outputers", "why_tests_cant": "All callings of all lengths, methods and stopping points; the tables are indexed and shared between leads.", "anchors": ["ringing/table_search.cpp: table_search, run, run_recursive, range_div", "ringing/multtab.cpp: multtab"]}
{"id": "C51", "title": "table_search, several parts", "statement": "With several part ends the callings given, in alphabetical order, are exactly those of a length asked for that end at a part end whose powers are all the part ends (or at any, when mutual truth is enough), such that no two different leads have a row in common in any parts, provided the first lead has none in common with itself in another part. Every calling that ends at a part end and repeated once for each part end is a true touch is given; and every calling given is true when repeated so, if no lead meets itself in another part.", "quantifier": "all methods of at least two changes on up to 58 bells, calls, groups of part ends on the same bells, and ranges", "why_tests_cant": "All groups of part ends and callings.", "anchors": ["ringing/table_search.cpp: table_search, run_recursive, output_touch", "ringing/multtab.cpp: multtab"]}
{"id": "C52", "title": "Titles of methods", "statement": "The full title of a method is its name, the words for its class (Differential, Little, the kind; none for the Grandsires and, on 6 or more bells, the Unions) and its stage, with single spaces between and no spaces for missing parts. Every stage has one word of its own, so the title tells the number of bells; and of two methods of the same name, bells and title both are differential or neither, both little or neither, and they are of the same kind if it has a name at that date.", "quantifier": "all methods of up to 255 bells and fewer than 512 changes, names and years", "why_tests_cant": "All methods, names and years.", "anchors": ["ringing/method.cpp: method::fullname, method::classname, method::stagename"]}
{"id": "C53", "title": "Taking the name out of a title", "statement": "The base name litelib finds in a title (name, class words, stage) is the name, when no class word or stage word occurs in it, for every class but Treble Bob and Treble Place and little methods of no named class; a text not ending in the stage word is left as it is.", "quantifier": "all names, stages and classes", "why_tests_cant": "All texts; the search is for the first occurrence of a word.", "anchors": ["ringing/litelib.cpp: base_name, remove_suffix, trim_trailing_whitespace"]}
{"id": "C54", "title": "Simple method libraries", "statement": "Reading a simple method library gives, for every text, one entry for each line that is not blank and is for the number of bells asked for (or gives its own), in order, with the bells, place notation and payload that the line says; or throws, exactly when the text before a colon in the first word of a line is not an int. What method_stream writes is read back: the same bells, place notation and text in the same order; methods written in any layout that keeps the lead head change are read back as the same methods.", "quantifier": "all texts, numbers of bells, lists of entries and of methods, and layouts", "why_tests_cant": "All texts and all lists of methods.", "anchors": ["ringing/litelib.cpp: readentry, read_bells, pn, get_payload, skip_bom", "ringing/method_stream.cpp: append"]}
{"id": "C55", "title": "MicroSIRIL libraries", "statement": "Reading a MicroSIRIL library gives, for every text, one entry for each line with exactly two spaces, in order, up to the first line that is not so (or is of the Central Council's format), with the number of bells of the last header line, the name before the first space and the place notation after the second, followed by the lead head change that the code between them stands for; the only failure is a header number too big for an int. The line with a method's own lead head code (that lhcode gives), or with its lead head change and z, or with a plus and the whole place notation, is read as that method.", "quantifier": "all texts, all methods with the treble the only hunt bell (all methods with z or plus), all ways of writing the place notation", "why_tests_cant": "All texts and methods.", "anchors": ["ringing/mslib.cpp: readentry, name, pn", "ringing/library.cpp: library_entry::impl::meth"]}
{"id": "C56", "title": "Sets of methods", "statement": "After any sequence of appends, clears, facet requests and facet settings a methodset is the map these make: the first entry appended for a list of changes stays, with its name, bells and the facets asked for before; find looks up by the changes, iteration visits each method once in order, size is their number. A loop over the set whose body changes the set (but does not clear it) ends, visits every method that was in it at the start, none twice, and only methods of the set.", "quantifier": "all histories of operations, and all interleavings of operations with an iteration", "why_tests_cant": "All histories and interleavings.", "anchors": ["ringing/methodset.cpp: append, find, readentry, clear", "ringing/methodset.h: append"]}
{"id": "C57", "title": "Looking up in libraries", "statement": "load returns the method of the first entry whose name is the one asked for apart from upper and lower case and whose bells are those asked for (0 for any), and throws when there is none; find returns the first entry with the same changes, or the same full title; an entry that fails on the way fails the search. A library is opened under its name and then, if that is not absolute, in the directories of the path in order, by the first type that can read it. Methods written by method_stream with their full titles are given back, with their names, by load and find on the litelib that reads the file.", "quantifier": "all libraries, names, stages, titles, methods, paths, types of library and lists of methods written", "why_tests_cant": "All libraries and file systems.", "anchors": ["ringing/library.cpp: load, find, dir, mdir, split_path, library, try_load_lib", "ringing/libout.cpp: multilibout", "ringing/litelib.cpp: litelib"]}
{"id": "C58", "title": "The verdict of a gsiril proof", "statement": "When gsiril's prove reports on a program, whatever the program does, the report fits the rows proved: each of them was rung from the one before (the first from rounds) by a change or a transposition; reported true, none of them occurs more often than the number of extents asked for, the last is rounds and there are at least the least number asked for; reported too short, not round or false, the corresponding condition fails. Failure is reported exactly if the touch was not reported true, apart from a break outside all loops.", "quantifier": "all programs, all symbol definitions, all settings and all runs that return", "why_tests_cant": "All programs and symbol tables; a program may ring, test, assign, loop and abort.", "anchors": ["apps/gsiril/statement.cpp: prove_stmt::execute", "apps/gsiril/proof_context.cpp: permute_and_prove_t, state, isrounds", "apps/gsiril/expression.cpp: execute of all nodes"]}
{"id": "C59", "title": "Tests and strings in gsiril have no side effects", "statement": "The test of an if statement has no effect on the proof (rows, current row, symbols) nor on the symbols of the session, whatever the test does; nor has writing a string with interpolated expressions, which only appends to the output.", "quantifier": "all tests, strings, states and settings", "why_tests_cant": "All programs as tests and interpolations.", "anchors": ["apps/gsiril/expression.cpp: if_node, string_node", "apps/gsiril/proof_context.cpp: silent_clone, substitute_string"]}
{"id": "C60", "title": "gsiril judges compositions right", "statement": "With the definitions of gsiril.init, a composition made of blocks of place notation, lists, repeats, multiples, reversals, symbols and replacements is proved to its end, and the verdict is true exactly when no row occurs more often than asked for, the maximum length is not exceeded, the minimum is reached and the touch ends in rounds; and otherwise is too short, not round or aborted, as the case may be. The rows proved are those of the composition.", "quantifier": "all compositions, settings without a node limit, and starting rows", "why_tests_cant": "All compositions.", "anchors": ["apps/gsiril/statement.cpp: prove_stmt::execute", "apps/gsiril/expression.cpp: list_node, repeated_node, pn_node, reverse_node, merge_node, symbol_node, mult_node", "apps/gsiril/init/gsiril.init"]}
{"id": "C61", "title": "Blocks and replacements in gsiril", "statement": "A block expression evaluates to the changes it stands for, with no effect on the proof or the output; a replacement at a place counted from the start or the end of a block replaces just as many changes as it has, there, and is refused exactly if it does not fit.", "quantifier": "all block expressions, symbols, offsets and lengths", "why_tests_cant": "All expressions and offsets.", "anchors": ["apps/gsiril/expression.cpp: do_replacement, pn_evaluate, apply_replacement"]}
{"id": "C62", "title": "Escapes in gsiril strings", "statement": "Every text can be written as a literal, with backslashes for the special characters, that is output as that text; \\x, \\u and \\U with 2, 4 and 8 hexadecimal digits give the UTF-8 encoding of the character with that number and are refused if there is none; the encodings are unambiguous.", "quantifier": "all texts, digits and numbers", "why_tests_cant": "All texts.", "anchors": ["apps/gsiril/proof_context.cpp: do_escape_seq, string_escapes"]}
{"id": "C63", "title": "gsiril's node limit", "statement": "With an even limit on the number of nodes, every proof that returns has counted fewer than the limit.", "quantifier": "all programs, states and even limits", "why_tests_cant": "All programs.", "anchors": ["apps/gsiril/execution_context.cpp: increment_node_count", "apps/gsiril/expr_base.cpp"]}
{"id": "C64", "title": "Reading gsiril expressions", "statement": "For every sequence of tokens in which the brackets match, the parser returns the expression that the grammar of the language gives it and refuses it if there is none; no sequence has two readings. The grammar: assignments bind least, then the comma, ||, &&, comparisons, &, shifts, + and -, then * . / %, and then prefixes, calls, brackets, arrays, blocks and literals.", "quantifier": "all token sequences with matching brackets, all literals", "why_tests_cant": "All token sequences; expressions nest without bound.", "anchors": ["apps/gsiril/parser.cpp: make_expr, find_one_of, is_enclosed, parse_list, make_args, check_bin_op, check_unary_op"]}
{"id": "C65", "title": "The gsiril parser ends, and brackets must match", "statement": "On any sequence of tokens the parser returns an expression or reports an error. Unless ++, --, echo or save occurs, it accepts only sequences in which every bracket is closed by one of its kind.", "quantifier": "all token sequences, balanced or not", "why_tests_cant": "All token sequences.", "anchors": ["apps/gsiril/parser.cpp: make_expr, find_one_of, is_enclosed"]}
{"id": "C66", "title": "Every gsiril expression can be written", "statement": "For every expression made of what the tokens stand for, however its operators are nested, there is a sequence of tokens that the parser reads as that expression.", "quantifier": "all expressions", "why_tests_cant": "All expression trees.", "anchors": ["apps/gsiril/parser.cpp: make_expr"]}
{"id": "C67", "title": "Precedence, grouping and numbers in gsiril", "statement": "Two operators of the same level group to the right, and of different levels according to the levels, whatever phrases stand between them; a number below 2147483648 has its value.", "quantifier": "all operators, phrases and numbers", "why_tests_cant": "All phrases between the operators.", "anchors": ["apps/gsiril/parser.cpp: make_expr", "apps/utils/stringutils.cpp: string_to_int"]}
{"id": "C68", "title": "The tokens of a gsiril script", "statement": "A script is read line by line, and each line in just one way: as names, numbers, strings, transpositions, patterns, place notation, operators and comments, each as long as it can be, with blanks between them. The tokeniser always ends; a line is unreadable only if it has an opening brace.", "quantifier": "all texts, both syntaxes, with and without case", "why_tests_cant": "All texts.", "anchors": ["apps/utils/tokeniser.cpp: parse", "apps/gsiril/parser.cpp: mstokeniser"]}
{"id": "C69", "title": "The commands of a gsiril script", "statement": "The commands a script is split into are the ones it is laid out as: a new line or a semicolon ends a command, except inside brackets and after a comma or a dot, and comments and empty commands do not matter. The splitting always ends with a result or an error.", "quantifier": "all token sequences", "why_tests_cant": "All token sequences.", "anchors": ["apps/gsiril/parser.cpp: tokenise_command, validate, parser::run"]}
{"id": "C70", "title": "The statements of a gsiril script", "statement": "From any point of a script the parser reads one statement: the one its next commands make up by the grammar of statements, in which an if goes on to its endif with elseif and else between, and a foreach to its endfor, nested to any depth. There is never more than one such statement, what follows it is left alone, and the parser always ends with a statement or an error.", "quantifier": "all scripts, split into commands; all literals", "why_tests_cant": "All scripts; statements nest without bound.", "anchors": ["apps/gsiril/parser.cpp: msparser::parse, parse_command, parse_if, parse_foreach"]}
{"id": "C71", "title": "The exit status of gsiril", "statement": "If gsiril gets to the end of the script, the exit status is 0 if every proof in it came out true (or was stopped by break) and 1 if one failed, whatever came before or after and however the statements were nested or imported; with the option to prove one touch, there was exactly one. If it does not get to the end the status is 1, 2 or 3.", "quantifier": "all scripts, files and options", "why_tests_cant": "All scripts.", "anchors": ["apps/gsiril/main.cpp: main, run, prove_stream, prove_first_symbol", "apps/gsiril/statement.cpp: prove_stmt::execute", "apps/gsiril/parser.cpp: parser::run"]}
{"id": "C72", "title": "Definitions in gsiril", "statement": "After any sequence of definitions a name stands for what its last definition with = says, or if it was empty for what the first definition with ?= after that says, and nothing else has changed. The symbol proved by default is the first definition of a name which was not defined before.", "quantifier": "all sequences of definitions and all symbol tables", "why_tests_cant": "All histories of definitions.", "anchors": ["apps/gsiril/statement.cpp: definition_stmt, default_defn_stmt", "apps/gsiril/execution_context.cpp: define_symbol, default_define_symbol", "apps/gsiril/symbol_table.cpp"]}
{"id": "C73", "title": "The number of bells in gsiril, and imports", "statement": "The number of bells can be set to any number from 2 to 256 and to no other. The rounds in force are then on that many bells: extended in order, kept, or if they were on more bells ordinary rounds again; and a proof can be started. A file that is imported leaves the number of bells and the default symbol as they were; files that import each other in a circle never come to an end.", "quantifier": "all numbers, rounds, files and circles of files", "why_tests_cant": "All rounds and files.", "anchors": ["apps/gsiril/execution_context.cpp: bells", "apps/gsiril/statement.cpp: bells_stmt, import_stmt"]}
{"id": "C74", "title": "The order in which gsiril carries out statements", "statement": "A statement comes to an end with some result exactly if the specification of its steps has it so, however deeply statements and files are nested: the statements of a block in order; of an if the first alternative whose test succeeds and no test after it; the body of a foreach once for each element, in order, with the variable standing for it. The result is determined.", "quantifier": "all statements and states of a session", "why_tests_cant": "Statements nest without bound and loops may be of any length.", "anchors": ["apps/gsiril/statement.cpp: compound_stmt, if_stmt, foreach_stmt, import_stmt", "apps/gsiril/parser.cpp: parser::run"]}
{"id": "C75", "title": "A gsiril script, from its text to the exit status", "statement": "A script which consists of definitions and then the proof of a composition exits with status 0 exactly if no row of the composition occurs more often than allowed, its length is within the limits and it comes round, and with status 1 otherwise.", "quantifier": "all scripts of that kind", "why_tests_cant": "All scripts and compositions.", "anchors": ["apps/gsiril/main.cpp", "apps/gsiril/parser.cpp", "apps/gsiril/statement.cpp: prove_stmt::execute"]}
{"id": "C76", "title": "Place notation in gsiril", "statement": "In place notation {N} is the tenor, {N-k} the bell k from the back, {k} bell k, and a..b the bells from a to b in either direction; after these are replaced the notation stands for exactly the changes that the place notation of the library (C17) gives, and whatever is not such notation is refused with an exception. Nothing is ambiguous and notation without braces and ranges is unchanged.", "quantifier": "all texts and all numbers of bells from 1 to 255", "why_tests_cant": "All texts.", "anchors": ["apps/gsiril/expression.cpp: pn_node, expand_bell_exprs, expand_bell_ranges, parse_bell_expr"]}
{"id": "C77", "title": "Transpositions in gsiril", "statement": "A transposition in quotes is accepted exactly if it is a row on no more bells than there are, the bells left out staying where they are; whatever row is printed is accepted and is that row. Carried out it moves the bells as the row says.", "quantifier": "all texts, numbers of bells and rows", "why_tests_cant": "All texts and rows.", "anchors": ["apps/gsiril/expression.cpp: transp_node::transp_node, transp_node::execute"]}
{"id": "C78", "title": "Patterns in gsiril", "statement": "A pattern between slashes is accepted exactly if, with the bells from the back and ranges replaced, it is a music pattern that names no bell beyond the number of bells. As a condition it holds of a row if and only if the row matches the pattern. Every text is accepted or refused with an exception.", "quantifier": "all texts, numbers of bells and rows", "why_tests_cant": "All texts and rows.", "anchors": ["apps/gsiril/expression.cpp: pattern_node::pattern_node, validate_regex, pattern_node::bool_evaluate", "ringing/music.cpp"]}
{"id": "C79", "title": "Proving place notation with gsiril", "statement": "A script which says prove k S, where S is place notation: the exit status is 0 exactly if the changes that S stands for, rung k times, repeat no row more often than allowed, are within the limits on the length and come round, and it is 1 otherwise.", "quantifier": "all place notation, all k below 2^31, all settings of gsiril outside MicroSiril mode", "why_tests_cant": "All place notation.", "anchors": ["apps/gsiril/main.cpp", "apps/gsiril/parser.cpp", "apps/gsiril/expression.cpp: pn_node", "apps/gsiril/statement.cpp: prove_stmt::execute"]}
{"id": "C80", "title": "The row calculator's answers", "statement": "For an expression of rows, sets {..}, groups <..>, differences, products, quotients, conjugates and powers, the calculator writes exactly the rows it stands for, each as often as it should and in a fixed order: a set lists its members, a group the rows generated (ascending), a difference drops the rows on the right, and an operator between sets takes every row on the left with the first on the right, then with the second, and so on. If a number of bells is given every row is extended or cut to it, or the calculation is refused.", "quantifier": "all expressions of any depth and size in which what has to be gone through again can be, all flags and numbers of bells up to 256", "why_tests_cant": "All nested expressions: the iterators keep state across restarts.", "anchors": ["apps/utils/row_calc.cpp: setdiff_node, mult_node, exp_node, set_node, group_node, evaluate_binary_arguments, const_iterator::increment", "apps/rowcalc/rowcalc.cpp: evaluate_expr"]}
{"id": "C81", "title": "Reading the row calculator's expressions", "statement": "The text of an expression is read by one unambiguous grammar: differences bind least and products and quotients next, both from the left, then powers and conjugates, from the right; brackets of three kinds must match; a number after ^ is an integer if it has a plus, a single digit or is not a row. Every character of the text that is not white space is in a token, reading always ends with an expression or an exception, and every expression without empty sets and negative exponents has a text which is read as it. No text gives a negative exponent.", "quantifier": "all texts of any length (but for commands and files as sources of rows), all flags, bells up to 255", "why_tests_cant": "All texts: no finite set of expressions settles precedence and nesting.", "anchors": ["apps/utils/row_calc.cpp: rc_tokeniser, rowlit_impl, rc_parser", "apps/utils/tokeniser.cpp: tokeniser::parse"]}
{"id": "C82", "title": "Whether a method may have an extent", "statement": "The test used to choose methods that might support an extent says yes exactly if all the lead heads (rows with the treble leading) can be put in two sets such that no two leads from heads in the same set have a row in common; the test for positive extents says so for the in-course lead heads. Yes to the first implies yes to the second. On 8 or more bells the test for a clean proof scale says yes exactly if no in-course tenors-together course but the plain course shares a row with it.", "quantifier": "all methods on 1 to 255 bells, of any length (for the first, with a plain hunting treble; for the last, whose working bells do one course)", "why_tests_cant": "All methods: the search visits up to (n-1)! lead heads.", "anchors": ["apps/methsearch/falseness.cpp: falseness_analysis::recurse, might_support_extent, might_support_positive_extent, is_cps"]}
{"id": "C83", "title": "The extent program", "statement": "Given the numbers of bells, fixed bells in front and fixed tenors, the program writes every row of that extent exactly once, in ascending order, and nothing else; with -i exactly the in-course rows. Each line can be read back as the row. Numbers that do not fit are refused.", "quantifier": "all numbers of bells up to 256, hunts and tenors; both settings of -i", "why_tests_cant": "All sizes of extent.", "anchors": ["apps/extent/extent.cpp: main, arguments::validate", "ringing/extent.cpp: extent_iterator"]}
{"id": "C84", "title": "The symmetries of a method", "statement": "The letters methsearch prints and filters by are right: P exactly if the changes, rung over and over, read the same backwards from some change; M exactly if every change is its own reverse; G exactly if the second half is the first half with every change reversed; R, for an even number of changes, exactly if the method read backwards from some change or row with every change reversed is the same. A method with P and with M or G has R. With floating symmetry exactly the methods with all the symmetries asked for pass. For an odd number of changes no rotational symmetry is missed.", "quantifier": "all methods on up to 255 bells, with any positive number of changes; all combinations of the options", "why_tests_cant": "All methods of all lengths: the loops look at half the points only, so parity and wrap-around matter.", "anchors": ["apps/methsearch/methodutils.cpp: has_conventional_symmetry, has_mirror_symmetry, has_glide_symmetry, has_rotational_symmetry, method_symmetry_string", "apps/methsearch/search.cpp: searcher::try_floating_symmetry"]}
{"id": "C85", "title": "The search for methods", "statement": "With options that pass its checks the search for methods ends without an exception or a failed assertion and finds exactly the methods wanted, each once: those of the right length whose changes that are not given by symmetry are changes allowed there which pass the tests, whose other changes are given by the symmetries asked for (the same backwards as forwards, the second half the first upside down, or the same turned round), whose lead is true as asked (no row of it occurs more often than allowed, nor one of the rows to be avoided), and that pass the tests of a whole method. A limit cuts the list short. Without symmetry they come in the order in which the changes are listed, no bell makes a place for more rows than the limit of blows, within the lead or over the lead end (nor in palindromic methods with one hunt bell), and no change is rung twice running if so asked. As a filter it lets through exactly the methods of a library that the search would find, in their order; inverted, exactly the others.", "quantifier": "all lists of changes allowed, leads of any length on up to 255 bells, all combinations of symmetries, falseness options and limits; all libraries", "why_tests_cant": "The search folds the lead at up to five points with index arithmetic, and keeps the prover, the current row and the division of the lead up to date in both directions; all histories of pushing and popping matter.", "anchors": ["apps/methsearch/search.cpp: searcher::general_recurse, new_midlead_change, double_existing, push_change, pop_change, call_recurse, filter, reset, run_search", "apps/methsearch/methodutils.cpp: is_too_many_places"]}
{"id": "C86", "title": "Splices between methods", "statement": "The splice finder ends for every two methods and reports them just when they can be spliced: when the lead heads (those with the treble leading, the in-course ones if so asked) can be divided so that both methods are rung and no lead of the one has a row in common with a lead of the other (or null splices are wanted). The number of leads reported is half of the least number that can be rung to the other method, and asking for splices of so many leads compares with that. A pivot bell reported says that the ways of splicing are just those where its place decides which method is rung; two swapping bells likewise. In a library every two methods are tested once; grouped, two methods share a group just when they are connected by splices of that kind; the filter lets through just the methods without a lead splice with one before them, and given a single method just those with a splice with it.", "quantifier": "all pairs of methods with leads of any length on 3 to 13 bells, all libraries, in course or not, any settings of -l, -s, -n, -g and -f", "why_tests_cant": "All divisions of (n-1)! lead heads into two sets; all libraries and orders in which groups are merged.", "anchors": ["apps/splices/splices.cpp: splices::test_splice, describe_splice, get_pivot, get_swapping_pair, save_splice, has_lead_splices, find_splices", "ringing/falseness.cpp: falseness_table::generate_group"]}
{"id": "C87", "title": "Lead heads and half lead heads asked for", "statement": "With a lead head that leaves the hunt bells at home, the test of the search for methods ends and takes it exactly when the working bells all do the same work (repeating the lead takes each to the place of every other), unless that is not asked for, and it is of the kind asked for: a plain bob lead head other than rounds for that many hunt bells, one with the working bells turned round, or a plain bob lead head for as many hunt bells as are at home. With the treble at the back a half lead head is found cyclic, or cyclic backwards, exactly when the other bells are in order, upwards or downwards, from some bell; and regular exactly when plain bob lead heads take reverse rounds, or reverse rounds after the change with a place made at the back, to it.", "quantifier": "all rows on up to 33 bells, all settings of treble, hunt bells and kinds of lead heads, in any combination", "why_tests_cant": "All n! rows: the one cycle not looked at, the bells that turn round from the last to the first, the differences taken of unsigned numbers and the loops over powers matter.", "anchors": ["apps/methsearch/search.cpp: searcher::is_acceptable_leadhead, is_cyclic_hl, is_rev_cyclic_hl, is_regular_hl", "apps/methsearch/methodutils.cpp: is_cyclic_le"]}
{"id": "C88", "title": "Tests of divisions, order of changes and coursing order", "statement": "With three or more changes before it in the division, and unless it is the last, a change is found to make the division false exactly when the row it leads to has been rung in it. The parity test of a whole division passes exactly when at either stroke as many rows are in course as out of course. A change has too many adjacent places exactly when more than that number of places are side by side. On up to 33 bells changes are sorted by their places in dictionary order, a cross first: a total order that tells all changes apart. The tenors-together coursing order ends for every method, without a failed assertion: it lists the bells that come to the tenor's place, taking as a step the number of leads that first brings the last bell but one there, up to the tenor, and is refused exactly when that bell never comes there.", "quantifier": "all methods and changes on up to 255 bells (33 for the order of changes), all divisions", "why_tests_cant": "All changes, rows and lengths of divisions; the walk round the lead heads ends for reasons of group theory only.", "anchors": ["apps/methsearch/methodutils.cpp: is_division_false, has_consec_places, division_bad_parity_hack, compare_changes, tenors_together_coursing_order"]}
{"id": "C89", "title": "The half lead, the quarter lead and an offset lead head", "statement": "With the treble at the back at the half lead, the change there is taken exactly when the rows before and after it are of one of the kinds asked for (turned round, turned round backwards, regular on both sides of the change), or none is asked for, and, for a rotational cyclic method with one hunt bell, the row before it is turned round; the test ends, without an error, and what it keeps for later calls does not change their answers at the same stage. The lead head of an offset cyclic method is the only row that turns the working bells round by one, seen from the row it starts from, and is tested as any other lead head. At the quarter lead a change is taken exactly when it is the same upside down and no bell would stay in a place too long when the half lead so far is rung backwards and upside down after it; an odd lead fails an assertion.", "quantifier": "all methods so far on 2 to 33 bells, all changes, all sets of options, all limits on blows", "why_tests_cant": "All changes so far and all combinations of options; the loops over powers of the lead head end for reasons of group theory only.", "anchors": ["apps/methsearch/search.cpp: searcher::try_halflead_change, try_offset_start_change, try_quarterlead_change"]}
