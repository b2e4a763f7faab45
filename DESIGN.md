# Formal model of Gauche in Rocq (Coq 8.16.1)

## Layout

Each area `X` has up to four files in `rocq/theories/`:

* `XModel.v` — executable Gallina transcription of the C/Scheme functions, each definition citing file:lines.
* `XSpec.v`  — the small independent specification (plain sets, maps, lists, integers).
* `XProofs.v` — lemmas.
* `XProps.v` — only the property theorems (`exact ...`), non-vacuity examples and `Print Assumptions`.

## Plan per property (written before the proofs)

| id | what is modelled | how it is proved |
|----|------------------|------------------|
| C01 | byte-level `Scm_CharUtf8Getc/Putc`, size table, NBYTES | case split by length class, lifted bit-field arithmetic |
| C02 | SCM_CHAR_BACKWARD, forward walk over concatenated encodings | induction over the character list |
| C03 | `treemap.c` as red/black tree with zipper (parent pointers = context), then pointer-level heap | refinement to sorted association list / finite map |
| C04 | same | red-black invariant by induction on histories; depth bound |
| C05 | `core_ref` TREE_NEAR, `next_node`/`prev_node`, iterators | zipper lemmas about in-order sequence |
| C06 | `hash.c` bucket array with chained entries and extension | refinement to finite map, any hash function |
| C07 | `bignum.c` digit loops with explicit word wrap-around | value function, carry invariants |
| C08 | `bignum_gdiv` (Knuth D), `bignum_sdiv`, sign handling | Knuth's quotient digit theorem |
| C09 | `Scm_NormalizeBignum` | canonical form uniqueness |
| C10 | `Scm_BignumToString`, `read_uint` | digit-list value lemmas |
| C11 | gcd loop, Newton iteration for isqrt, `expt` square-multiply | loop invariants |
| C12 | `char.c` char-set range tree (over the map proved in C03) | interval-list invariant |
| C13 | `Scm_Length` Floyd loop over an explicit heap | tortoise/hare argument |
| C14 | `list.c` functions | induction |
| C15 | `Scm_TopologicalSort` / `util.toposort` | graph invariants |
| C16 | `Scm_MonotonicMerge` + CPL | induction on merge |
| C17 | Boyer-Moore search loops | skip-table invariant |
| C18 | merge/quick/heap sort as coded | permutation + sortedness (+ stability) |
| C19 | dynamic handler chain computation | suffix/prefix decomposition of handler lists |
| C20 | regexp AST, optimiser, backtracking matcher | equivalence with declarative matching relation |
| C21 | `Scm_EqualP`, `Scm_EqualHash` on trees | structural induction |
| C22 | `bits.c` word loops | bit-level extensionality |
| C23-C25 | encoders/decoders as byte-list state machines | round-trip induction |
| C26 | array heap with sift up/down | heap invariant, multiset refinement |
| C27 | queue and mtqueue step semantics | refinement, interleaving invariant |
| C28-C30 | persistent structures | refinement to list / map |

| C31 | two's-complement loops of `bignum.c`, dispatch of `number.c` | bit-level extensionality over Z |
| C32 | splitter, iterator, append of `skew-list.scm` | induction over the tree list |
| C33 | `ext/sparse` compact trie with leaves in a heap, sparse tables on it | trie representation predicate, refinement to an association list, heap separation between tables |
| C34 | leaf element vectors on the same trie | same, one leaf holds 1 to 32 elements |
| C35 | index packing of matrices | bit-level bijection, reduction to C34 |
| C36 | buffered and string input ports with pushback | refinement of a position in a byte list, invariant relating pushback + buffer + file offset to it, for every filler behaviour |
| C37 | buffered file output ports over a write(2) that takes any share of each request | refinement of an overlay of the written bytes on the file, of which a prefix is visible |
| C38 | dynamic strings, chunk by chunk | invariant: concatenation of chunks = bytes written, cached length right or unknown |
| C39 | `print_double` (free-format Steele-White/dragon4) on exact integers; the log10 estimate is any within 1/10 | loop invariants for r, s, m-, m+; the digits generated lie in the rounding interval, no shorter ones do; composed with C40 for the round trip |
| C40 | the decimal path of `read_real`, `raise_pow10`, `algorithmR` with explicit IEEE rounding | judge decides nearness exactly; distance to the target decreases at each step; the starting approximation is within range |
| C41 | ratnums over the integer objects of C07-C11 | each path computes the cross product over the common denominator; reduction by gcd; exactness of the integer operations |
| C42 | writer and reader over lists of code points; general categories as a parameter | one written character is read back in a bounded number of turns of the loop of read_string; induction over the string |
| C43 | the two classifications over an arbitrary table of general categories; the number reader of C10 | every character the writer takes for a constituent is one for the reader; a bare name that begins with a sign or a dot is no number; the escapes between bars are undone |
| C44 | names of characters, hexadecimal forms and raw characters | case analysis; the digits of the hexadecimal form are read back to the code |
| C45 | write_rec as a machine with an explicit stack, the reader as mutually recursive functions with fuel | induction over the datum, with one invariant for data and one for tails of lists and vectors, for both sides; for termination a measure on the text left, and that more fuel changes nothing |
| C46 | fixnum cast, field arithmetic of Scm_BignumToDouble, quotient-and-round of ratnums | both algorithms produce the mantissa that round-half-even of the quotient gives; FloSpec.nearest |
| C47 | Scm_NumCmp with its screens, the fixnum-ratnum case with doubles | rounding to double is monotone; the gap between doubles is larger than the error bound; cross products |
| C48 | Scm_NumCmp on mixed arguments | rounding is monotone and exact up to 2^53; flonums from 2^53 on are integers |
| C49 | continued fractions of both ends, refine/c, refine/o, realize, over Q | induction along the common prefix of the continued fractions: the least numerator and denominator between two fractions |
| C50 | float-error-bounds and find-rational on mantissa and exponent; Scm_Exact as in C48 with real->rational filled in | the code's interval is the set of numbers whose nearest flonum is x (FloSpec.nearest); its ends are far enough apart for refine/o; rounding is monotone |
| C51 | the compiler of patterns and templates, the match vector with branch, sprout and root, the matcher and the expander with its index array; identifier comparison and renaming are parameters | matching changes the tree of each variable by adding one subtree at the current level (induction over the compiled pattern, both directions); realization by mutual induction over the instance relation, with the turn where all sequences are exhausted |
| C52 | one step per access of a thread to the mutex record; POSIX mutex and condition variable as POSIX specifies them; histories of calls, effects, returns and thread ends | invariants (who holds the internal mutex; the lock bit while a thread is about to set it; a busy thread whenever somebody sleeps on an unlocked mutex), then refinement to an atomic mutex |
| C53 | one step per critical section of the object's mutex (MutexProps: exclusive, unlock-and-wait atomic), the lists of calls that are awake and asleep; histories of calls, releases, returns | counting and wake-up invariants by induction on executions; for barriers the state of every generation (past: complete, current: counted, future: empty) |
| C54 | one step per access to promise or content (state, code, content pointer, mutex); runs of thunks end at any idle thread, any number of times, with any result | invariant: settled contents are constant, every pointer a thread holds is the promise's content or settled with the same outcome; redirecting keeps outcomes.  Two conditions under which it holds: threads take turns in user code, or thunks return values or settled promises (delay) |
| C55 | one step per access to the owner word, the tag/car word and the item/cdr word; generator calls end while their thread runs user code, with any result | invariant: an owned pair is the last one and its owner has it in hand (program counter or running call), a pair with the extended descriptor has its cdr set and its tag still set only while its forcer is about to overwrite it |
| C56 | methods, classes as precedence lists; the type vector, the applicability test, the shell sort with its gaps, the open-addressing table with triangular probing, its growth, and the way methods are entered | the shell sort's last pass is an insertion sort with a strict total order on the applicable methods; the table: triangular numbers visit every slot of a power of two, so a probe ends at its key or at a free slot; the table's entries are exactly the methods under their first specializer and argument count; a leaf method that heads the list hides the rest |
| C57 | the vectors as functions on diagonals with bounds checks, the loops with fuel that the proofs show to be enough, the side effects of lcs-edit-list's procedures in the seed | after d edits every diagonal of the parity of d holds a point at least as far as any path with d edits reaches in the grid, with x + y = d + 2l; a pairing of length L is a path with M + N - 2L edits, so the loop ends by then, and the l at the end is at least L |
| C58 | rows as lists filled from left to right, the cutoff as an early None; edit scripts with their cost as the specification | each row holds the least cost between the prefixes (rowok); a script splits where it has produced a prefix of B, so its cost is at least the least entry of that row, or of the row before when a transposition straddles it |
| C59 | lists; tails compared by eq? stand for their lengths; a called procedure is a function on a state | the accumulators are shown equal to a plain recursion on selections (element, rest) in order; completeness, order, number and absence of repetition by induction on it |
| C60 | lists; loops over sizes with the number of rounds left; a called procedure is a function on a state | from the theorems on combinations (C59) for each size; the products by induction on the list of lists, the right one through the product with a list added at the end |
| C61 | the loops with their seen lists and accumulators as in the source, eq as a boolean function | the accumulators become a plain recursion; multisets are counts up to eq; a multiset with an element of the class in front is found at that element, any other after it, where the class is in seen |
| C62 | as C60 and C61; a called procedure is a function on a state | from the theorems on combinations* for each size; parts of different sizes are not the same multiset; the loop of permutations*-for-each follows the recursion shown for permutations* |

Properties are appended as the model grows; the sections below are kept current.

## Trusted base

* Coq 8.16.1's kernel (with `vm_compute` for the computations inside `Example`s and `_refuted` theorems; no `native_compute`).
* `Print Assumptions` is run at the end of every `*Props.v` for every theorem claimed in MANIFEST.json. Each answers
  `Closed under the global context`: **no axiom is used by any theorem**. A whole-library context check (coqchk) additionally
  lists constants of Coq's own ssreflect plugin library, which are opaque module-type fields and which no theorem here uses:
  `Coq.ssr.ssrunder.Under_rel.{Under_rel, Under_rel_from_rel, Under_relE, under_rel_done, Over_rel, over_rel, over_rel_done}`.
* Libraries: Coq's standard library only (Arith, ZArith, List, Lia, Permutation, Sorting, Relations, Bool, Program.Basics-free).
* The transcription itself: that each Gallina definition says what the cited lines of `/repo` do. It was done by reading; nothing was
  extracted or executed against the real binary. Every definition cites file and lines, and says where it simplifies.
* Conventions of the model, trusted in the same way:
  * C `unsigned long` / `ScmBits` words are `Z` (or `N`) with explicit `mod 2^64`; `long` is 64-bit two's complement; `int` 32-bit.
    Signed overflow, out-of-range reads and other undefined behaviour are explicit outcomes (`Undef`, `Oob`, `Abort`, `None`), and the
    theorems state that they do not occur (or the `_refuted` theorem that they do).
  * A C loop is a fuel-indexed function, and the theorem proves that enough fuel exists (termination) unless it says otherwise.
  * Mutable pairs are an explicit heap where sharing matters (C13, C14, C18, C21, C27), otherwise immutable trees/lists.
  * Red-black tree parent pointers are a zipper (`TreeModel.v`).
  * Memory exhaustion, signals, and garbage collection are not modelled. Concurrency is modelled for C27 only (interleaving of
    atomic steps between lock operations, sequentially consistent memory).

## How to read a `_partial` / `_refuted` theorem

`X_refuted` proves that the full English claim is false of the code as modelled, with a concrete witness.
`X_partial` proves the claim on the complement of a condition that appears explicitly in its hypotheses; the MANIFEST note names what is missing.


## Coverage: what is modelled, what is not

| id | modelled functions | not modelled |
|----|--------------------|--------------|
| C01 | `Scm_CharUtf8Getc`, `Scm_CharUtf8Putc`, `Scm_CharSizeTable`, `SCM_CHAR_NFOLLOWS/NBYTES/GET/PUT` | other native encodings (EUC-JP, SJIS, none) |
| C02 | `SCM_CHAR_BACKWARD`, `forward_pos`, `count_length`, `Scm_StringRef`, `substring`/`index2ptr`, string index build, `Scm_StringAppend2`, `Scm_ListToStringFull` | incomplete strings mixed with complete ones, string ports, cursors |
| C03-C05 | all of `src/treemap.c` (core_ref, balance_tree, delete_node(1), swap_node, core_bound, iterators, copy, eq) and the tree-map API of `libdict.scm` on top of it | comparator procedures that raise errors or mutate the tree |
| C06 | `src/hash.c` bucket array, `insert_entry`, `delete_entry`, accessors for address/eqv/string/general, extension, iteration, copy | weak tables, hash function internals (any function is allowed) |
| C07-C11, C31 | `bignum.c` add/sub/mul/div/shift/logic/normalise/text, `number.c` integer dispatch, `read_uint`, gcd, `expt`, exact-integer-sqrt | flonums, ratnums, compnums; the double first guess of sqrt |
| C12 | char-set construction, complement, membership, equality, inclusion, freeze | `CaseFold`, print/read syntax |
| C13, C14 | `src/list.c` and the list procedures of `liblist.scm` named in the theorems, on a pair heap | |
| C15 | `srfi.234` topological-sort(/details), `util.toposort` | connected-components, edge-list conversions |
| C16 | `Scm_MonotonicMerge`, `Scm_ComputeCPL` | class redefinition |
| C17 | `boyer_moore(_reverse)`, `string_search(_reverse)`, `string_scan`, `string-split` by char | |
| C18 | `Scm_SortArray` (quick + heap sort), `Scm_SortList`, merge(!), stable-sort(!), sorted? | comparators that raise; generic sequences |
| C19 | `throw_cont_calculate_handlers`, `throw_cont_body`, `Scm_DynamicWind`, prompts and aborts | partial continuations, errors inside thunks |
| C20 | regexp AST, `rc2_optimize`, `rc3` code generation, `rex_rec` virtual machine, `rex` start-position search | the parser `rc1`, look-behind (reverse code), once-groups, back-references, case folding (except in the refuted theorems) |
| C21 | `Scm_EqualP`, `%interleave-equal?`, `Scm_DefaultHash`/`Scm_PortableHash` combination | user class compare/hash methods |
| C22 | every loop in `src/bits.c` | |
| C23-C25 | `rfc.base64`, `rfc.quoted-printable`, `rfc.uri` encode/decode byte machines | port plumbing, character-encoding conversion |
| C26 | `data.heap` | storage other than (u)vectors |
| C27 | `ext/data/queue.scm` plain and mt queues | thread termination while holding the lock, re-entrant callbacks |
| C28-C30, C32 | `data.ideque`, `data.skew-list`, `data.imap` | collection-framework glue |
| C33-C35 | every function of `ext/sparse/ctrie.c` except the dump functions, `sptab.c`, `spvec.c`, the index packing and the operations of `sparse.scm` | push!/pop!/dict glue; element conversion of uniform vectors is an arbitrary partial function; hash overflow of user hash functions; allocation failure; default-value initialisation |
| C36 | `bufport_fill`, `bufport_read`, `Scm_Getb`, `Scm_Getc`, `Scm_Getz`, `Scm_Peekb`, `Scm_Peekc`, `Scm_Ungetb`, `readline_body`, read-string, `Scm_GetPortPosition`, `set_port_position`, `Scm_PortSeek` on file and string input ports | virtual (procedural) ports, coding-aware ports, locking, line/byte/column counters, closing, read errors, char-ready |
| C37, C38 | `bufport_flush`, `bufport_write`, `file_flusher`, `Scm_Putb/Putc/Puts/Putz/Flush`, `port_cleanup`, position and seek of output ports, columns, fresh-line; `ScmDString` | virtual ports, locking, write errors, `set_port_position` on a closed port (the model checks, the code does not), truncate and weld of dynamic strings |
| C39, C40 | `print_double` (precision < 0, base 10), `read_real`, `read_uint`, `read_exponent`, `raise_pow10`, `algorithmR`, `Scm_GetDouble` of ratnums; IEEE multiplication/division/ldexp as correct rounding of the exact result | other radices, precision argument, exp-width, rational/complex/inf/nan syntax, `#` digits, underscores, other exponent markers; `Scm_Add/Mul/Ash` on integers (see C07-C11) |
| C41 | `Scm_MakeRational`, `Scm_ReduceRational`, `Scm_RatnumAddSub`, `Scm_RatnumMulDiv`, the exact cases of `scm_add/sub/mul/div`, `negate`, `scm_abs`, `reciprocal`, `scm_round` | flonum and compnum operands, `/.`, inexact rounding |
| C42 | `string_putc`, `string_print` (write mode), `read_string` with all its labels, `Scm_ReadXdigitsFromString/Port` (permissive mode) | string interpolation, legacy and strict reader modes, write length limits, immutability of literals |
| C43 | `escape_required_p`, `Scm_WriteSymbolName` (flags 0), `Scm_CharLexerCategoryP`, `char_word_constituent`, `read_word`, `read_symbol`, `read_symbol_or_number`, `read_escaped_symbol`, `read_keyword` | uninterned symbols, case folding modes |
| C44 | `write_char`, `read_char`, the table of character names | case folding modes |
| C45 | `write_rec` without a shared table, `read_internal`, `read_item`, `read_list_int`, `read_quoted`, comments (`;`, `#|`, `#;`) | datum labels, inexact and rational numbers, uniform vectors, arrays, char-sets, regexps, `#,` and `#!` forms; pretty printing and line limits |
| C46 | `Scm_GetDouble` of exact numbers, `Scm_BignumToDouble` | x87 and ARM mixed-endian variants |
| C47 | `Scm_NumCmp` on exact numbers | - |
| C48 | `Scm_NumCmp` on flonums and integers, `Scm_NumEq`, `Scm_NumLT`, `Scm_NumLE` | the words of the bignum that `Scm_Exact` makes are given by their value; NaN |
| C49 | `rationalize`, `real->rational` of exact arguments | NaN, infinities and inexact error bounds; ratnum arithmetic is that of Q (C11-C13) |
| C50 | `Scm_Exact` of finite flonums with `real->rational`; `Scm_NumCmp` on all pairs of reals | negative numbers in mixed comparison with ratnums (C47 shows errors there), subnormal flonums and ratnums |
| C51 | `syntax-rules`: compile_rule1 (patterns and templates), match_synrule, realize_template_rec, synrule_expand | head-match mode, source information, the environment lookup of Scm__ERCompare and of renaming (parameters), er-macro-transformer |
| C52 | `src/mutex.c` mutexes and condition variables, POSIX threads | Windows emulation of condition variables, name and specific slots, cancellation outside waits |
| C53 | `src/libthr.scm` semaphores, latches, barriers | assume-type checks, names, printing; thread ends inside the critical sections |
| C54 | `src/lazy.c` promises | kind, printing, dynamic handlers, Scm_Force's shortcut; sequentially consistent memory; results that are neither lists nor promises (SCM_ASSERT) |
| C55 | `src/lazy.c` lazy pairs | the generator and attributes slot, lcons and multiple values of generators, set-car!/set-cdr! on forced pairs, the spin's sleep; sequentially consistent memory |
| C56 | `src/class.c` method selection and ordering, add-method!, delete-method!; `src/dispatch.c`; the generic part of `src/vmcall.c` | locked methods, sealed generics, class redefinition, compute-applicable-methods and other overridden metaobject functions, concurrent changes of the table |
| C57 | `lib/util/lcs.scm` except context and unified edit lists | lcs-edit-list/context and lcs-edit-list/unified; predicates with side effects |
| C58 | `lib/util/levenshtein.scm`: l-distance(s), re-distance(s) | dl-distance(s); elt= with side effects; for re-distance, scripts that transpose a pair with the first element of either sequence (re_distance_refuted) |
| C59 | `lib/util/combinations.scm`: permutations, combinations and their for-each forms | procedures that escape (power sets and products: C60; the forms for multisets: C61, C62) |
| C60 | `lib/util/combinations.scm`: power-set, power-set-binary, cartesian-product(-right) and their for-each forms | power-set*; procedures that escape |
| C61 | `lib/util/combinations.scm`: permutations*, combinations*, combinations*-for-each | eq with side effects or not an equivalence (power-set*, permutations*-for-each: C62) |
| C62 | `lib/util/combinations.scm`: power-set*, power-set*-for-each, permutations*-for-each | permutations*-for-each on the empty list, where the claim is refuted; eq with side effects or not an equivalence; procedures that escape |

## Findings (places where the code does not do what the property says)

Each item marked * is a `_refuted` theorem; the others were found while reading and are recorded for the maintainers.

* Strings: `SCM_CHAR_BACKWARD` at the start reads before the buffer*; `index2ptr` assertion abort in substring*; `Scm_ListToStringFull` ignores `end` / mishandles an empty range*; `boyer_moore_reverse` starts one byte too far right*.
* Trees and hashes: iterator reversal on a one-entry tree*; negative `init-size` aborts*; `insert_entry` links before the INT_MAX error; `init-size` > 2^30 overflows; char-set CaseFold mutates the tree while iterating; FreezeX of a small set leaves a union uninitialised.
* Integers: `(quotient least-fixnum -1)` wraps*; quotient/remainder of least-fixnum by 2^61*; bignum by 0 unchecked*; `ash` by 0 of extreme fixnums is non-canonical*; `ash` truncates large counts*; `(ash (- least-fixnum 1) -61)` = -1*; `logand` of two negative bignums loses -2^(64k)*; `(expt 0 bignum)` errors*; "-i" in radix >= 19 reads as the imaginary unit*; `Scm_BignumToString` reads values[-1].
* Lists: `alist-delete!` keeps the second of two adjacent matches*; comparing the length of a dotted list with a bignum*; `length+` truncates to int; `monotonic-merge` treats `#f` as inconsistency*; CPL silently drops the local precedence of `<object>`/`<top>` before other supers.
* Bits: fill touches the word after a range ending on a word boundary*; overlapping `bitvector-copy!`*; operate/equal/includes/lowest wrong for ranges starting mid-word*.
* Sort: `shift_up` doubling overflows for >= 2^30 elements; `cmp_scm` treats only `#t`/negative fixnums as "less".
* equal?/hash: circular lists with tails*; compnums with signed zero parts* and float uvectors* are `equal?` but hash differently; identifiers likewise; `portable-hash` of c32/c64/c128 vectors panics; bitvector compare includes padding bits.
* dynamic-wind: an abort from an after thunk to a prompt below the unfinished jump hits an assertion*.
* Regexp: `#/(?:a+){2}/` fails on "aa"*; `#/(?:xa*|ab)*c/` fails on "xaabc"; `#/[^a]*[ab]/` fails on "b"*; `#/a*b/i` on "AAB" matches only "B"; `#/(a+)b\1/` fails on "aaba"; the optimiser drops body elements of non-greedy repetitions built through SRE*; back-references read past the end of a substring; group numbers and char-set indices >= 256 wrap; nullable loop bodies exhaust the stack; `MATCH_CI` with chars whose downcase has another byte length.
* Codecs: base64 with space/control/equal digits*; the base64 strict decoder accepts padding anywhere*; the base32 decoder loops on noise before the 8th digit*; quoted-printable text ending in CR*; "=\r" EOF*; binary mode columns*; `%`/`+` in `:noescape` breaks the URI round trip*.
* Containers: skew-list split/append/range at boundaries*; imap delete does not rebalance*; `ideque=` swaps arguments*; `binary-heap-copy` leaves capacity unbound*; `binary-heap-check` is strict*; toposort with duplicate keys*.
* mtqueue: a timed-out waiter clears another thread's big lock*; zero-length queues*; put after close*; swapped close code*; setter and marker lose wake-ups*; close with two readers*; list->queue ignores max-length*.
* Sparse containers: a fold that deletes entries while iterating skips a sibling*; `sparse-vector-inc!` of an absent element in an existing leaf is not counted in num-entries*; `sparse-vector-ref` with an index outside 0..2^64-1 ignores the given fallback*; `clear!` while iterating over a general sparse vector yields NULL objects.
* Input ports: a block read longer than the peeked rest returns 0 bytes and loses them (`1 + EOF`)*; after peeking the end, a block read of one byte returns 255*, and port-tell is one too low*; a failing port-seek drops the peeked character*; peek-char, read-byte, read-char loses a byte of the character*; a truncated character at the end of a string port loses its first byte; malformed UTF-8 on a file port makes `Scm_Getc` return SCM_CHAR_INVALID.
* Output ports: write-char asserts (aborts the process) when a short write leaves too little room for a multibyte character*; write-byte does not advance the column, so fresh-line after it writes nothing*; in mode :line a newline written by write-byte is not flushed*; mode :none with a short write leaves bytes of a character unflushed.
* Flonums: string->number never returns on the decimal expansion of (2^53-1)*2^-1075, the middle between the greatest subnormal and the least normal double*; "1.7976931348623158e308" reads as +inf.0 instead of the greatest double*; "2.4800000e-324" reads as 0.0 instead of 5e-324*; a written exponent of 325 or more gives 0 or infinity even when the digits compensate ("123456789012345678e-330")*; print_double tests for exponent -1023 where the least normal has -1074, so DBL_MIN and 2^-971 use the wrong interval (the digits still come out right, by computation).
* Ratnums: (/ (- (expt 2 61)) (expt 2 61)) is 0 instead of -1, and (/ (- (expt 2 61)) (expt 2 62)) is a ratnum with numerator 0*: Scm_ReduceRational divides the least fixnum by 2^61 with Scm_Quotient, which answers 0.
* Symbols (C43): the writer (Scm_CharLexerCategoryP) takes characters of category Nd, Mc and Me outside ASCII for constituents of a symbol after its first character, the reader (char_word_constituent) does not. The symbol named a followed by U+0663 is written without bars and read back as the symbol a; the list (a .U+0663) with a name that begins with a dot is read back as a dotted pair.
* Symbols (C43): a vertical bar is a delimiter in R7RS, but the text : followed by |x| is read as the one keyword :x, so the two symbols : and x written without a space would be merged (write always puts a space).
* inexact (C46): ratnums below 2^-1022 can be rounded the wrong way: the low bits of the quotient are masked off without being remembered, so (inexact (/ 513 (expt 2 1084))) is 0.0 although the least positive flonum is nearer (inexact_subnormal_refuted).
* Comparison (C47): a fixnum and a negative ratnum that round to the same flonum compare as if the fixnum were always less, because the error bound `y * 2.0e-52` is negative for negative y and the two tests cover everything: (< -1 (- -1 (expt 2 -100))) is #t (negative_ratnum_refuted, compare_refuted).
* Comparison (C47): the error bound 2.0e-52 is decimal where 2^-52 was meant, and SCM_EQ(SCM_INT_VALUE(0), arg0) compares a C integer with a tagged word, so it never fires; both are harmless.
* Scm_FlonumIntegerToExact (C48): the flonum 2^63 passes the test d <= LONG_MAX and is cast to long, which C leaves undefined; on x86-64 the result is LONG_MIN and the slow path is taken.
* real->rational (C49) with open? true: the interval's own ends or numbers outside are returned when the continued fraction of one end is a prefix of the other's: (real->rational 1/6 1/6 1/6 #t) is -1/2, (real->rational 11/30 1/30 1/30 #t) is 3/7, outside of (1/3, 2/5); and (real->rational 11/28 3/28 3/28 #t) is 2/5 although 1/3 is simpler (open_interval_refuted).
* exact and inexact (C50): for subnormal flonums with an odd mantissa between 2^50 and 2^52 the round trip fails: exact gives 1/N just below the upper end of the rounding interval, and Scm_GetDouble rounds it twice, to the next flonum. For x = (2^51+1)*2^-1074, (inexact (exact x)) is (2^51+2)*2^-1074 and (= x (exact x)) is #f (exact_inexact_refuted).
* syntax-rules (C51): a vector pattern that ends with an ellipsis inside a repeated pattern skips enter/exit_subpattern when the vector has no elements for the ellipsis (match_synrule, `elli < flen`), and the results shift: (_ #(a b ...) ...) applied to #(1) #(2 3) with the template ((a b ...) ...) gives ((1 3)) (vector_in_ellipsis_refuted).
* syntax-rules (C51): (x ... ...) for the pattern (_ x ...) is accepted, only the outermost ellipsis is checked, and its expansion never ends (deep_template_accepted_refuted).
* syntax-rules (C51): nine nested ellipses give maxLevel 10 and realize_template clears indices[10] of an array of 10 elements (nine_ellipses_refuted).
* mutex (C52): when a timed wait is interrupted (SCM_INTERNAL_COND_INTR), Scm_MutexLock leaves its loop with r still #t and takes the mutex although it is locked (mutex_exclusion_intr_refuted). POSIX forbids pthread_cond_timedwait to return EINTR, so on conforming systems the branch is dead; it should retry, not break.
* mutex (C52): a thread that ends while owning a mutex makes it unlocked/abandoned but wakes nobody: threads already blocked in mutex-lock! without a timeout stay blocked until somebody calls mutex-unlock! (mutex_abandoned_wakeup_refuted).
* barrier (C53): barrier-reset! while the action of a generation runs outside the lock: when the action ends, barrier-await resets the count and advances the generation once more, so a thread that arrived after the reset is let through alone (barrier_reset_refuted).
* barrier (C53): a wait that times out at the moment the last thread arrives breaks the barrier although its generation has completed and the other threads have returned their places; all later calls fail until barrier-reset! (barrier_timeout_refuted).
* semaphore, latch (C53): a relative timeout of semaphore-acquire!, latch-await and barrier-await starts anew in each round of their loops, so spurious wake-ups, or wake-ups whose token another thread takes, prolong the wait without limit (not modelled: time).
* promise (C54): force_cc copies the content of a promise returned by a thunk (lazy) without that content's mutex, code first and state later: when another thread settles it in between, the outer promise becomes FORCED with a thunk as its value list, and force hands the closure to Scm_Values (promise_torn_refuted).
* promise (C54): with (define r (delay ...)) (define p (lazy r)), one thread forcing p while another forces r can make r deliver two different values, and run its thunk again after r was settled (promise_once_refuted).
* promise (C54): when a run of a thunk raises after another (nested or concurrent) run has settled the promise with values, force_exc_handler raises c->code, that is the list of values, instead of the exception (promise_raise_refuted).
* promise (C54): force_cc copies code and state of a returned unsettled promise but not its parameterization: its thunk then runs in the parameterization of the outer promise (promise_parameterization_refuted).
* promise (C54, not modelled): (force (lazy 3)) reaches SCM_ASSERT(SCM_LISTP(result)) and aborts the process, although the comment above it says 'play safe'; Scm_Force likewise on (delay (values)).
* lazy pair (C55): when a generator call fails while another thread waits, and a third thread starts forcing again between the waiter's two reads of owner (lazy.c:671 and 674), the waiter takes the pair for forced although it still holds the LazyPair tag and its item: car returns the tag word (lazy_car_refuted).
* lazy pair (C55, not modelled): after waiting, Scm_ForceLazyPair returns SCM_OBJ(lp), a pointer to the hidden owner word, instead of &lp->data (lazy.c:675); Scm_PairP ignores the value.
* dispatch table (C56): when a leaf method with the exact class of the first argument is in the table but does not accept the other arguments, more general methods are not considered: no applicable method is found (gf_dispatch_hides_refuted).
* dispatch table (C56): mhash_delete and mhash_insert_1 `continue` at a deleted slot without advancing j (dispatch.c:196-199, 257), so the search never gets past it: a deleted method stays in the table and is called (gf_deleted_refuted).
* dispatch table (C56): mhash_delete tests SCM_NULLP(ml) && SCM_NULLP(ml) (dispatch.c:273): deleting the last leaf method drops the entry's non-leaf methods from the table; after another leaf method is added under that key they are not called (gf_delete_leaf_refuted).
* dispatch table (C56): with a table on the second argument a method that is more specific in the first argument is not considered (gf_axis1_refuted); methods with optional arguments are never entered for four arguments, for which the table is searched (gf_four_refuted).
* generic call (C56): apply with exactly maxReqargs single arguments does not count the arguments of the list (`if (applyargs && nsel)`, class.c:2258), so a method without optional arguments is called with too many (gf_apply_refuted).
* generic call (C56, not modelled): the loop that fills typev runs while nsel >= 0, one more than the PREALLOC_SIZE or maxReqargs elements of the array (class.c:2255); add_method_to_dispatcher reads specializers[req] when req equals the axis.
* util.lcs (C57, not modelled): the context and unified edit lists mark the ends of their graph by a false item (anchor-node?), so an element #f is left out of the hunks and a hunk that begins with one is said to start at 0; with :context-size 0 forward-path is called with -1 and does not stop before the next split.
* util.levenshtein (C58): (re-distance "cat" "act") is 2, while the manual gives 1 (modutil.texi 35709): the test (> i 1) (> j 1) in re-base (levenshtein.scm 196) is on 0-based indices and should be > 0, so a transposition of the first two elements of either sequence is never counted (re_distance_refuted).
* util.levenshtein (not modelled): (dl-distances A '()) is an error: apply max of no lengths.
* util.combinations (C59): permutations of () is (()), but permutations-for-each on () does not call its procedure (combinations.scm 114); the same in permutations*-for-each (permutations_for_each_refuted).
