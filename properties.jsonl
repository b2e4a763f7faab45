{"id": "C01", "title": "UTF-8 codec round trip", "statement": "Writing any character (every code 0 .. 2^31-1 the char type admits) into a string buffer and reading it back yields that character; the number of bytes written equals the advertised size, the first byte announces exactly the number of bytes that follow, and a decoder that accepts a byte sequence accepts only the shortest encoding of the character it returns.", "quantifier": "all character codes below 2^31 and all byte sequences, with any bytes following", "why_tests_cant": "2^31 codes and unbounded byte contexts; boundary and overlong forms are exactly what sampled tests miss", "anchors": ["src/char.c: Scm_CharUtf8Getc, Scm_CharUtf8Putc, Scm_CharSizeTable", "src/gauche/char_utf_8.h: SCM_CHAR_NBYTES, SCM_CHAR_NFOLLOWS, SCM_CHAR_GET, SCM_CHAR_PUT, SCM_CHAR_BACKWARD"]}
{"id": "C02", "title": "Strings are sequences of characters", "statement": "For strings built from any characters, moving forward or backward one character from a character boundary lands on the adjacent character boundary, so string indexing/iteration over the bytes sees exactly the characters that were stored.", "quantifier": "all character sequences and all positions in them", "why_tests_cant": "multi-byte boundary interactions are unbounded in string length and content", "anchors": ["src/gauche/char_utf_8.h: SCM_CHAR_BACKWARD", "src/string.c: forward_pos, count_length, Scm_StringRef, Scm_Substring"]}
{"id": "C03", "title": "tree-map is a finite ordered map", "statement": "After any sequence of tree-map put!/delete!/pop-min!/pop-max!/clear!/copy operations, lookups return exactly what an ideal finite map would, the entry count is exact, and deleting or adding one key never disturbs another.", "quantifier": "all operation histories and all keys under any strict total order", "why_tests_cant": "rebalancing cases depend on the whole history; no finite suite covers all tree shapes", "anchors": ["src/treemap.c: core_ref, balance_tree, delete_node, delete_node1, swap_node, core_bound"]}
{"id": "C04", "title": "tree-map stays balanced", "statement": "After any sequence of operations the internal tree satisfies the balance conditions checked by tree-map consistency check, so every lookup takes at most 2*log2(n+1) comparisons.", "quantifier": "all operation histories of any length", "why_tests_cant": "worst-case depth is a statement over all histories", "anchors": ["src/treemap.c: balance_tree, delete_node1, Scm_TreeCoreCheckConsistency"]}
{"id": "C05", "title": "tree-map neighbours and iteration", "statement": "floor/ceiling/successor/predecessor queries return the greatest smaller / least greater key present (or nothing), min/max return the extreme entries, and iteration visits every entry exactly once in increasing (or decreasing) key order.", "quantifier": "all reachable maps and all query keys", "why_tests_cant": "depends on arbitrary tree shape", "anchors": ["src/treemap.c: core_ref (TREE_NEAR), next_node, prev_node, Scm_TreeIterNext, Scm_TreeIterPrev, core_bound"]}
{"id": "C06", "title": "hash table is a finite map", "statement": "After any sequence of put!/delete!/clear!/copy operations on a hash table (including those that trigger growth), a lookup returns exactly the last value stored under an equivalent key and not deleted since; the entry count is exact and iteration visits each live entry exactly once.", "quantifier": "all operation histories, all keys, any hash function consistent with the equivalence", "why_tests_cant": "collisions and resize points depend on the whole history and on the hash function", "anchors": ["src/hash.c: insert_entry, delete_entry, general_access, address_access, Scm_HashCoreSearch, Scm_HashIterNext"]}
{"id": "C07", "title": "Integer addition, subtraction, multiplication are exact", "statement": "+, - and * on exact integers return the mathematically exact result whatever the sizes and signs of the operands, across the fixnum/bignum boundary.", "quantifier": "all pairs of integers of any magnitude", "why_tests_cant": "carry/borrow chains and the fixnum boundary over unbounded digit counts", "anchors": ["src/bignum.c: bignum_add, bignum_sub, bignum_mul, bignum_add_int, Scm_NormalizeBignum", "src/number.c: Scm_Add, Scm_Sub, Scm_Mul"]}
{"id": "C08", "title": "Integer division laws", "statement": "quotient/remainder/modulo (and floor/truncate variants) satisfy n = q*d + r with the documented sign and magnitude constraints for all integers d /= 0, across representations.", "quantifier": "all pairs of integers of any magnitude", "why_tests_cant": "quotient-digit estimation errors need rare digit patterns", "anchors": ["src/bignum.c: bignum_gdiv, bignum_sdiv, Scm_BignumDivRem", "src/number.c: Scm_Quotient, Scm_Modulo"]}
{"id": "C09", "title": "Canonical integer representation", "statement": "Every integer result is a fixnum exactly when it fits the fixnum range, and otherwise a bignum with no leading zero digit, so numerically equal exact integers have identical representation (eqv?).", "quantifier": "all integers and all arithmetic results", "why_tests_cant": "must hold for every producer", "anchors": ["src/bignum.c: Scm_NormalizeBignum, bignum_normalize", "src/gauche/number.h: SCM_SMALL_INT_FITS"]}
{"id": "C10", "title": "Integer text round trip", "statement": "(string->number (number->string n r) r) = n for every exact integer n and radix r in 2..36.", "quantifier": "all integers, all radixes 2..36", "why_tests_cant": "unbounded size; chunked conversion boundary cases", "anchors": ["src/number.c: Scm_NumberToString, read_uint", "src/bignum.c: Scm_BignumToString, Scm_BignumAccMultAddUI"]}
{"id": "C11", "title": "gcd, exact-integer-sqrt, expt", "statement": "gcd returns the greatest common divisor; exact-integer-sqrt returns s,r with n = s^2 + r and n < (s+1)^2; integer expt equals the repeated product.", "quantifier": "all exact (non-negative) integers", "why_tests_cant": "termination and correctness for every magnitude", "anchors": ["src/number.c: Scm_Gcd, Scm_ExactIntegerExpt", "src/libnum.scm: exact-integer-sqrt"]}
{"id": "C12", "title": "char-set algebra", "statement": "Membership in a char-set built by any sequence of add-range, union and complement operations is exactly the corresponding set-theoretic combination; equality and subset tests decide set equality and inclusion; freezing and copying do not change membership.", "quantifier": "all operation histories, all characters 0..max", "why_tests_cant": "2^(1.1M) possible sets; range merging edge cases", "anchors": ["src/char.c: Scm_CharSetAddRange, Scm_CharSetAdd, Scm_CharSetComplement, Scm_CharSetContains, Scm_CharSetEq, Scm_CharSetLE, Scm_CharSetFreeze"]}
{"id": "C13", "title": "List length and circularity", "statement": "length / proper-list? / dotted-list? / circular-list? terminate and classify correctly every list structure, including arbitrary cycles.", "quantifier": "all heaps of pairs of any size and any link structure", "why_tests_cant": "infinitely many cyclic shapes; termination", "anchors": ["src/list.c: Scm_Length", "src/liblist.scm: proper-list?, circular-list?, dotted-list?"]}
{"id": "C14", "title": "List primitives", "statement": "reverse, append, delete, delete-duplicates, list-copy, last-pair, assoc updates etc. return the mathematically expected lists and leave their (non-destructive) inputs unchanged.", "quantifier": "all lists of any length", "why_tests_cant": "unbounded length", "anchors": ["src/list.c: Scm_Reverse, Scm_Append2, Scm_Delete, Scm_DeleteDuplicates, Scm_TopologicalSort"]}
{"id": "C15", "title": "Topological sort", "statement": "When the dependency graph is acyclic the result contains every node after the nodes it depends on; when cyclic the failure is reported and never a wrong order.", "quantifier": "all finite graphs", "why_tests_cant": "infinitely many graphs", "anchors": ["lib/srfi/234.scm: topological-sort, topological-sort/details", "lib/util/toposort.scm: topological-sort"]}
{"id": "C16", "title": "Class precedence list", "statement": "For any class definition the computed precedence list contains each ancestor exactly once, extends the local precedence order and every superclass's own list (monotone), and inconsistency is reported exactly when no such order exists along the merge.", "quantifier": "all class hierarchies", "why_tests_cant": "infinitely many hierarchies", "anchors": ["src/list.c: Scm_MonotonicMerge", "src/class.c: Scm_ComputeCPL"]}
{"id": "C17", "title": "Substring search", "statement": "string-scan / string-index of a substring finds the leftmost occurrence (and the rightmost for the reverse search), or reports none exactly when there is none.", "quantifier": "all texts and patterns over bytes, any lengths", "why_tests_cant": "skip-table errors show only on specific pattern/text combinations", "anchors": ["src/string.c: boyer_moore, boyer_moore_reverse, string_search, string_search_reverse"]}
{"id": "C18", "title": "Sorting", "statement": "sort returns a permutation of the input ordered by the given predicate; stable-sort preserves the order of equivalent elements.", "quantifier": "all lists/vectors and all strict weak orders", "why_tests_cant": "n! inputs for each n", "anchors": ["src/vector.c / src/list.c: Scm_SortArray", "lib/gauche/sortutil, libsrc/gauche: stable-sort"]}
{"id": "C19", "title": "dynamic-wind and continuations", "statement": "Whenever control leaves or enters dynamic-wind extents through any captured continuation, exactly the after thunks of the exited extents (innermost first) and before thunks of the entered extents (outermost first) run, and each extent is thus balanced over the whole execution.", "quantifier": "all captured continuations and all jump histories", "why_tests_cant": "all control-flow histories", "anchors": ["src/vm.c: throw_cont_calculate_handlers, throw_cont_body, Scm_DynamicWind"]}
{"id": "C20", "title": "Regular expression matching", "statement": "If rxmatch succeeds, the reported match is in the language of the regexp at that position and submatches lie within; if it fails, no match starting at any position exists (backtracking-complete) for the regular subset.", "quantifier": "all regexps and all input strings", "why_tests_cant": "infinite pairs; optimisation passes change the compiled code", "anchors": ["src/regexp.c: rc1_parse, rc2_optimize, rc3_rec, rex_rec"]}
{"id": "C21", "title": "equal? and hashing", "statement": "equal? is an equivalence relation on acyclic data and equal data have equal hash values.", "quantifier": "all data trees", "why_tests_cant": "all pairs/triples of values", "anchors": ["src/compare.c / src/boolean.c: Scm_EqualP", "src/hash.c: Scm_EqualHash"]}
{"id": "C22", "title": "Bit-field operations on packed bits", "statement": "Fill, copy, count, boolean operation and search over any bit range of a packed bit array act exactly as on a sequence of booleans, touching no bit outside the range.", "quantifier": "all arrays, all ranges, any alignment", "why_tests_cant": "word-boundary cases across all start/end alignments", "anchors": ["src/bits.c: Scm_BitsCopyX, Scm_BitsFill, Scm_BitsOperate, Scm_BitsEqual, Scm_BitsCount1, Scm_BitsLowest1", "src/gauche/bits.h"]}
{"id": "C23", "title": "base64 round trip", "statement": "base64 decode of base64 encode is the identity on every byte string, for each alphabet, line-width and padding option.", "quantifier": "all byte strings of any length, all line widths", "why_tests_cant": "unbounded inputs; every length residue and chunk boundary", "anchors": ["lib/rfc/base64.scm: base64-encode, base64-decode"]}
{"id": "C24", "title": "quoted-printable round trip", "statement": "quoted-printable decode of encode restores the byte string, and encoded lines respect the length limit.", "quantifier": "all byte strings", "why_tests_cant": "soft line break positions depend on all content", "anchors": ["lib/rfc/quoted-printable.scm"]}
{"id": "C25", "title": "URI percent-encoding round trip", "statement": "uri-decode-string of uri-encode-string is the identity and the encoded text contains only unreserved characters and %HH escapes.", "quantifier": "all strings", "why_tests_cant": "unbounded inputs", "anchors": ["lib/rfc/uri.scm: uri-encode, uri-decode"]}
{"id": "C26", "title": "binary heap", "statement": "Any sequence of push!/pop-min!/pop-max!/swap operations on a binary heap returns elements as from a sorted multiset.", "quantifier": "all histories and total preorders", "why_tests_cant": "history-dependent shape", "anchors": ["lib/data/heap.scm"]}
{"id": "C27", "title": "queues", "statement": "enqueue!/dequeue!/push! on a queue behaves as a FIFO double-ended list under any history; bounded thread-safe queues never exceed the maximum and lose or duplicate no item under any interleaving.", "quantifier": "all histories and interleavings", "why_tests_cant": "schedules", "anchors": ["ext/data/queue.scm"]}
{"id": "C28", "title": "persistent deque", "statement": "ideque operations behave as on a plain sequence and never modify earlier versions.", "quantifier": "all histories", "why_tests_cant": "history dependent balancing", "anchors": ["lib/data/ideque.scm"]}
{"id": "C29", "title": "skew list", "statement": "skew-list cons/car/cdr/ref/set behave as on a plain list.", "quantifier": "all lists, all indices", "why_tests_cant": "tree shape depends on length", "anchors": ["lib/data/skew-list.scm"]}
{"id": "C30", "title": "immutable map", "statement": "imap put/delete/get behave as a finite map, earlier versions unaffected, and remain balanced.", "quantifier": "all histories", "why_tests_cant": "history dependent balancing", "anchors": ["lib/data/imap.scm"]}
{"id": "C31", "title": "Bitwise operations on integers", "statement": "lognot, logand, logior, logxor act bit by bit on the infinite two's complement representation of their arguments, ash shifts it (rounding down), integer-length is the length of the shortest one; for integers of every size and sign.", "quantifier": "all integers and shift counts", "why_tests_cant": "carry propagation across words in the sign conversions depends on rare digit patterns of unbounded numbers", "anchors": ["src/bignum.c: Scm_BignumLogAnd, Scm_BignumLogIor, Scm_BignumLogXor, Scm_BignumAsh, bignum_2scmpl", "src/number.c: Scm_Ash, Scm_LogAnd, Scm_LogIor, Scm_LogXor, Scm_LogNot, Scm_IntegerLength"]}
{"id": "C32", "title": "skew list: parts and concatenation", "statement": "For every skew list holding l and every k from 0 to its length, skew-list-take, -drop and -split-at return skew lists holding the first k elements and the rest, skew-list->lseq/->generator over a range enumerate exactly that range, and skew-list-append returns a skew list holding the concatenation that is equal? to any skew list with the same elements.", "quantifier": "all skew lists, all positions, all argument lists", "why_tests_cant": "the branch taken depends on the tree shape, hence on the length and position", "anchors": ["lib/data/skew-list.scm %skew-list-splitter, %skew-list-iterator, skew-list-append"]}
{"id": "C33", "title": "Sparse tables", "statement": "For every lawful pair of hash and equality (with any collisions) and every history of make/set!/ref/delete!/update!/exists?/clear!/copy/fold/num-entries/check on any number of sparse tables, every answer is that of a finite map; %-check always passes; a fold visits each entry exactly once; copies are independent.", "quantifier": "all key types with a lawful comparator, all hash functions, all histories, all contents of fresh memory", "why_tests_cant": "the compact trie's node layout depends on bit patterns of hash values; collisions of full 64-bit hashes and deep paths almost never occur in tests", "anchors": ["ext/sparse/ctrie.c: CompactTrieAdd, CompactTrieDelete, CompactTrieGet, CompactTrieNextLeaf, CompactTrieCopy, CompactTrieClear", "ext/sparse/sptab.c: SparseTableSet, SparseTableRef, SparseTableDelete, SparseTableClear, SparseTableCopy, SparseTableIterNext"]}
{"id": "C34", "title": "Sparse vectors", "statement": "For every element type and every history of make/set!/ref/delete!/inc!/update!/exists?/clear!/copy/fold/num-entries on any number of sparse vectors, with indices anywhere in 0..2^64-1 (and outside), every answer is that of a finite map from indices to converted values with the vector's default; out-of-range indices and values are errors.", "quantifier": "all element types, all indices, all histories, all contents of fresh memory", "why_tests_cant": "the index space is 2^64; leaf packing and the trie interact on index bit patterns", "anchors": ["ext/sparse/spvec.c: SparseVectorRef, SparseVectorSet, SparseVectorDelete, SparseVectorInc, SparseVectorIterNext, g_*, u8_*", "ext/sparse/sparse.scm"]}
{"id": "C35", "title": "Sparse matrices", "statement": "The index pair of a sparse matrix is packed into one index and unpacked again without loss or collision for all 2^32 x 2^32 pairs, pairs outside are rejected, and every history of matrix operations answers as a finite map from pairs to values.", "quantifier": "all index pairs, all element types, all histories", "why_tests_cant": "2^64 pairs; the packing loop bound depends on the larger index", "anchors": ["ext/sparse/sparse.scm: index-combine-2d, sparse-matrix-ref, -set!, -delete!, -fold", "ext/sparse/spvec.h", "ext/sparse/spvec.c"]}
{"id": "C36", "title": "Input ports", "statement": "Reading from a file or string port with any mixture of read-char, peek-char, read-byte, peek-byte, read-line, read-string, read-uvector, port-tell and port-seek gives the answers of a plain position in the byte sequence: peeking never changes what is read next, multibyte characters split over buffer fills are put together, read-line handles LF, CRLF and CR, port-tell and relative port-seek account for buffered and peeked bytes, however the file hands out its bytes and whatever the buffer size and mode.", "quantifier": "all contents, all operation sequences, all chunkings of the underlying reads, all buffer sizes and modes", "why_tests_cant": "the number of ways to cut the input into fills and to interleave byte, character, line and block reads is unbounded", "anchors": ["src/portapi.c: Scm_Getb, Scm_Getc, getc_scratch, Scm_Getz, getz_scratch, Scm_Peekb, Scm_Peekc, Scm_Ungetb, readline_body, Scm_GetPortPosition, set_port_position", "src/port.c: bufport_fill, bufport_read, file_filler"]}
{"id": "C37", "title": "Output file ports", "statement": "Whatever mixture of write-byte, write-char, display of strings, write-uvector, flush, port-seek, buffering-mode changes and fresh-line is applied to a file port, and however the operating system splits its writes: the file is the bytes written in order at the positions they were written to, at any moment others see only a prefix of the pending ones, everything after a flush, close or seek, everything at once in mode :none and everything up to a newline in mode :line; port-tell and port-column are right.", "quantifier": "all files, operation sequences, buffer sizes, modes and splittings of the writes by write(2)", "why_tests_cant": "short writes and buffer boundaries hitting multibyte characters depend on the schedule of the operating system", "anchors": ["src/port.c: bufport_flush, bufport_write, file_flusher, port_cleanup", "src/portapi.c: Scm_Putb, Scm_Putc, Scm_Puts, Scm_Putz, Scm_Flush, Scm_GetPortPosition, set_port_position, length_count, column_count", "src/libio.scm: fresh-line"]}
{"id": "C38", "title": "String output ports", "statement": "For every sequence of writes to a string port, get-output-string returns exactly the bytes written in order, as a complete string with the right number of characters whenever they are well-formed (including characters put together from single bytes) and as an incomplete string otherwise; port-tell is the number of bytes; no write leaves its chunk of memory.", "quantifier": "all sequences of write-byte, write-char, display, write-uvector, port-tell and get-output-string", "why_tests_cant": "chunk boundaries and the cached character count depend on the whole history", "anchors": ["src/string.c: Scm_DStringInit, Scm_DStringSize, Scm__DStringRealloc, dstring_getz, Scm_DStringGet, Scm_DStringPutz, Scm_DStringAdd", "src/gauche/string.h: SCM_DSTRING_PUTB, SCM_DSTRING_PUTC"]}
{"id": "C39", "title": "Printing flonums", "statement": "number->string of every finite flonum is a decimal literal that string->number turns back into the same flonum (including both zeros); it has at most 17 significant digits, no decimal with fewer digits reads back as the flonum, and among the decimals of that many digits it is the closest to it; different flonums have different texts.", "quantifier": "all 2^64 finite doubles, both signs, for every estimate of log10 with error below 1/10", "why_tests_cant": "there are 2^64 doubles, and shortest printing goes wrong only on a handful near powers of two or at the ends of the range", "anchors": ["src/number.c: print_double, read_real, algorithmR, Scm_DecodeFlonum"]}
{"id": "C40", "title": "Reading decimal literals", "statement": "string->number of a decimal literal with a point or an exponent terminates and gives the double nearest to the value written, ties to even, or an infinity if that is beyond the greatest double.", "quantifier": "all decimal literals, any number of digits", "why_tests_cant": "the number of digits is unbounded and only values close to the middle of two doubles are hard", "anchors": ["src/number.c: read_real, read_uint, read_exponent, raise_pow10, algorithmR, Scm_GetDouble"]}
{"id": "C41", "title": "Exact rational arithmetic", "statement": "+, -, *, / on exact integers and ratnums give the exact rational result, represented in lowest terms with positive denominator, as an integer when it is one; unary minus, abs and 1/x likewise; division by exact zero is an error; equal numbers are represented by identical objects; floor, ceiling, truncate and round give the right integers, round going to even on ties.", "quantifier": "all pairs of exact rationals whose numerators and denominators have at most 2^26 words", "why_tests_cant": "unbounded integers; the reduction goes wrong only for one fixnum", "anchors": ["src/number.c: Scm_MakeRational, Scm_ReduceRational, Scm_RatnumAddSub, Scm_RatnumMulDiv, scm_add, scm_sub, scm_mul, scm_div, negate, scm_abs, reciprocal, scm_round"]}
{"id": "C42", "title": "Written strings are read back", "statement": "For every string s, read on a port with the text (write s) followed by anything returns a string equal to s and leaves exactly what followed; likewise for incomplete (byte) strings; hence different strings have different texts, none a prefix of another, and the text contains no control character.", "quantifier": "all strings of code points, all byte strings, all continuations of the input, all tables of general categories", "why_tests_cant": "unbounded strings over more than a million characters; escape sequences interact with the characters that follow", "anchors": ["src/string.c: string_putc, string_print", "src/read.c: read_string, Scm_ReadXdigitsFromString, Scm_ReadXdigitsFromPort"]}
{"id": "C43", "title": "Written symbols are read back", "statement": "For every symbol, reading what write prints for it gives the same symbol: names that would be read as numbers, as the dot, or that contain delimiters or control characters are put between bars.", "quantifier": "all names (lists of code points) except, for names written without bars, those with a decimal digit or a spacing or enclosing mark outside ASCII; all delimited continuations", "why_tests_cant": "unbounded names over all of Unicode; the writer and the reader classify characters with different tables", "anchors": ["src/symbol.c: escape_required_p, Scm_WriteSymbolName", "src/char.c: Scm_CharLexerCategoryP", "src/read.c: char_word_constituent, read_word, read_symbol, read_symbol_or_number, read_escaped_symbol, read_keyword"]}
{"id": "C44", "title": "Written characters are read back", "statement": "For every character c, reading what write prints for it, followed by a delimiter, gives c and leaves the delimiter.", "quantifier": "all code points, all tables of general categories, all delimited continuations", "why_tests_cant": "all of Unicode, and any text after the character", "anchors": ["src/write.c: write_char", "src/read.c: read_char"]}
{"id": "C45", "title": "Written data are read back; reading ends", "statement": "For every datum built from pairs, vectors, strings, symbols, characters, exact integers, booleans and the empty list (without shared parts) nested at most 2^24 deep, write ends with a text, and read on that text followed by a delimiter gives an equal datum and leaves the rest; data written one after the other on separate lines are read back one after the other; two data with the same text are equal. The reader ends on every text whatsoever, and consumes at least one character for a datum.", "quantifier": "all data and all continuations; for termination, all texts", "why_tests_cant": "unbounded trees and texts; the writer is a stack machine with special cases for quotations and dotted tails", "anchors": ["src/write.c: write_rec, Scm__WritePrimitive", "src/read.c: read_internal, read_item, read_list_int, read_quoted, read_vector, read_nested_comment, skipws"]}
{"id": "C46", "title": "exact->inexact gives the nearest flonum", "statement": "(inexact x) of an exact integer of any size, or of an exact rational of magnitude at least 2^-1022, is the flonum nearest to x, ties to even, with the sign of x; it is infinite only for magnitudes of at least 2^1024 - 2^970.", "quantifier": "all exact integers, all exact rationals of magnitude >= 2^-1022", "why_tests_cant": "unbounded numerators and denominators; the interesting cases are ties and their neighbours, which random tests never meet", "anchors": ["src/number.c: Scm_GetDouble, double_precision, Scm__EncodeDouble", "src/bignum.c: Scm_BignumToDouble"]}
{"id": "C47", "title": "Exact numbers are compared exactly", "statement": "=, <, >, <= and >= of two exact numbers agree with the order of the rational numbers they stand for.", "quantifier": "all pairs of exact integers and ratnums (numerator and denominator below 2^(64*2^26)), except a fixnum and a negative ratnum that round to the same flonum", "why_tests_cant": "the shortcut through doubles is wrong only for pairs closer than a flonum can tell", "anchors": ["src/number.c: Scm_NumCmp"]}
{"id": "C48", "title": "Integers and flonums are compared as real numbers", "statement": "Comparison of exact integers of any size and flonums (infinities included, NaN excluded), in any mixture, agrees with the order of the real numbers they stand for; hence = and < are transitive and trichotomous over them.", "quantifier": "all exact integers and all flonums but NaN", "why_tests_cant": "the conversions round, and only pairs that collide after rounding show errors", "anchors": ["src/number.c: Scm_NumCmp, Scm_Exact, Scm_FlonumIntegerToExact", "src/bignum.c: Scm_MakeBignumFromDouble"]}
{"id": "C49", "title": "rationalize gives the simplest rational", "statement": "For exact x and e >= 0, (rationalize x e) is the simplest rational that differs from x by no more than e: it is in lowest terms, and no rational within e of x has a smaller numerator (in absolute value) or a smaller denominator. A negative e is an error. real->rational with a closed interval [x - dx-, x + dx+] does the same for that interval.", "quantifier": "all exact rationals x, all non-negative error bounds", "why_tests_cant": "continued fractions of unbounded length; R7RS 6.2.6 quantifies over all rationals in the interval", "anchors": ["lib/gauche/numutil.scm: real->rational, continued-fraction, refine/c, refine/o, realize, find-rational-1", "src/libnum.scm: rationalize"]}
{"id": "C50", "title": "exact of a flonum is the simplest number rounded to it, and comparison agrees", "statement": "(exact x) of an integral flonum is that integer; of any other finite flonum it is the simplest rational whose nearest flonum is x. For normal flonums (inexact (exact x)) is x again. Comparison of non-negative reals of any kinds (integers, ratnums, flonums, infinities; no ratnum or flonum below 2^-1022) agrees with the order of the exact numbers that exact makes of them, so = and <= are transitive across exact and inexact numbers and (= x (exact x)).", "quantifier": "all finite flonums; all pairs and triples of non-negative reals outside (0, 2^-1022)", "why_tests_cant": "2^64 flonums, and for each all rationals in its rounding interval; errors show only at ties and powers of two", "anchors": ["lib/gauche/numutil.scm: real->rational, float-error-bounds, ensure-exact", "src/number.c: Scm_Exact, Scm_GetDouble, Scm_NumCmp"]}
{"id": "C51", "title": "syntax-rules expands by the first matching rule as R7RS says", "statement": "The use of a macro defined by syntax-rules expands to the instance of the template of the first rule whose pattern matches: literals match by binding, _ matches anything, `p ...` binds its variables to the sequence of what the repeated forms bind, patterns after an ellipsis get the last forms, vectors match like lists of the same elements, and in the template `t ...` is repeated for the elements of the sequences, `t ... ...` is spliced, (... t) escapes and inserted identifiers are renamed consistently. A use that no rule matches is an error.", "quantifier": "all lists of rules (up to 8 nested ellipses, no vector pattern that ends with an ellipsis inside a repeated pattern), all forms, all literals and any ellipsis identifier", "why_tests_cant": "unbounded patterns, templates, nesting and sequence lengths; the bindings are built by side effects on a shared tree at each nesting level", "anchors": ["src/macro.c: compile_rule1, compile_rules, add_pvar, pvar_to_pvref, grow_branch, enter_subpattern, exit_subpattern, match_insert, match_subpattern, match_synrule, get_pvref_value, realize_template_rec, realize_template, synrule_expand"]}
{"id": "C52", "title": "Mutexes exclude, under every schedule", "statement": "The effects of mutex-lock!, mutex-unlock! and mutex-state on a mutex are, in every interleaving, those of one atomic mutex: mutex-lock! gets it only if it is unlocked or its owner has ended (then it raises the abandoned-mutex exception naming the old owner), returns #f only after its timeout and then changes nothing; between two successful locks somebody unlocked it or the owner ended. Each effect lies between the call and the return. mutex-unlock! with a condition variable unlocks and starts waiting in one go. When nobody is on the way, a thread sleeps in mutex-lock! only if the mutex is locked.", "quantifier": "all schedules of any number of threads and calls, all timeouts, spurious wake-ups, signals and thread ends", "why_tests_cant": "the number of interleavings of accesses to the lock bit, the internal mutex and the condition variable is unbounded", "anchors": ["src/mutex.c: Scm_MutexLock, Scm_MutexUnlock, mutex_state_get, Scm_ConditionVariableSignal, Scm_ConditionVariableBroadcast", "src/gauche/pthread.h", "src/libthr.scm: mutex-lock!, mutex-unlock!"]}
{"id": "C53", "title": "Semaphores, latches and barriers keep count, under every schedule", "statement": "At no moment have more tokens been taken from a semaphore than it had at the start plus those released; when all callers of semaphore-acquire! sleep there is no token. latch-await returns #t only once the latch was cleared or its decrements added up to its count; from then on nobody sleeps on it and every call returns #t, whatever is subtracted later. With no timeout, reset or raising action, barrier-await returns only when threshold calls have come in its generation and the action has run, once, for it; the places of a generation are threshold-1, threshold-2, ... in the order of arrival. With timeouts, resets and raising actions too, a thread sleeps on a barrier only if it is not broken and its generation is not over.", "quantifier": "all schedules of any number of threads and calls, all initial counts and thresholds, timeouts, spurious wake-ups, resets and outcomes of the action", "why_tests_cant": "the number of interleavings of critical sections, wake-ups and timeouts is unbounded", "anchors": ["src/libthr.scm: make-semaphore, semaphore-acquire!, semaphore-release!, make-latch, latch-dec!, latch-clear!, latch-await, make-barrier, barrier-reset!, barrier-await"]}
{"id": "C54", "title": "A promise is settled once and delivers the same to everybody", "statement": "All forces of a promise that end deliver the same values or the same condition, and those of an eager promise its values; what is delivered is what a run of the promise's thunk ended with (following promises returned by it). After a promise is settled its thunk is not run again, and a thread that forces it gets the result in a bounded number of its own steps. A thunk runs in the parameterization its promise was made in.", "quantifier": "all schedules of any number of threads at the granularity of accesses to the promise, all thunks (any nesting, continuations, results, exceptions)", "why_tests_cant": "the interleavings of the unlocked reads, the mutex and the redirection of promises, and the re-entrant programs, are unbounded", "anchors": ["src/lazy.c: Scm_MakePromise, Scm_VMForce, force_cc, force_exc_handler", "src/liblazy.scm: eager", "src/vminsn.scm: PROMISE", "src/compile-1.scm: lazy, delay"]}
{"id": "C55", "title": "A lazy sequence gives its generator's values, in order and once, to every thread", "statement": "The pairs of a lazy sequence hold, in order, the first item and the values the generator returns; every thread that looks at a pair finds the same item there and the same next pair, and () where the generator has returned EOF. The generator is called by one thread at a time, only for the last pair, and never after it has returned EOF. The recursion error is raised only inside a generator call for that very pair; a pair abandoned by an error is forced again by whoever waits for it.", "quantifier": "all schedules of any number of threads at the granularity of accesses to a pair's words, all generators (values, EOF, errors, generators that look at the sequence)", "why_tests_cant": "a lazy pair is overwritten in place, word by word, while other threads look at it without a lock; the interleavings are unbounded", "anchors": ["src/lazy.c: Scm_ForceLazyPair, Scm_PairP, generator_to_lazy_pair, make_lazy_pair", "src/gauche.h: SCM_PAIRP, SCM_LAZY_PAIR_P"]}
{"id": "C56", "title": "A generic function calls the applicable methods, the most specific first", "statement": "A call of a generic function runs, through next-method, exactly the methods that can take the arguments (enough required arguments, optional ones allowed, every specializer in the class precedence list of its argument), each once, the more specific before the less specific: by the first argument on which two methods differ, by the precedence list of that argument's class, then more required arguments, then no optional arguments. This depends only on the methods the history of add-method! and delete-method! leaves (a new method replaces the one with the same specializers), not on their order. A dispatch table built for the generic function (and kept while methods are added) does not change which methods a caller sees.", "quantifier": "all class hierarchies given by precedence lists, all histories of additions and deletions, all argument lists, plain calls and apply; tables of any size, with any number of methods", "why_tests_cant": "method sets, hierarchies and argument lists are unbounded; the sort must be right for every list of applicable methods; the table's probing depends on addresses", "anchors": ["src/class.c: Scm_MethodApplicableForClasses, Scm_ComputeApplicableMethods, method_more_specific, Scm_SortMethods, Scm_AddMethod, Scm_DeleteMethod", "src/dispatch.c: mhash_probe, mhash_insert_1, mhash_insert, mhash_delete, Scm__BuildMethodDispatcher, Scm__MethodDispatcherAdd, Scm__MethodDispatcherLookup", "src/vmcall.c: GENERIC_ENTRY"]}
{"id": "C57", "title": "lcs finds a longest common subsequence and edit lists are shortest", "statement": "lcs returns a common subsequence of its two lists than which none is longer; lcs-with-positions pairs elements of the first list with elements of the second that the predicate relates them to, in the order of both, with their true positions, and no such pairing is longer. lcs-fold calls its procedures along a script of deletions, insertions and common elements that turns the first list into the second with the fewest changes. lcs-edit-list gives the changes of such a script, grouped where no common element is between them: each command names an element and its true position, the first list without the removed elements is the second without the added ones, and no shorter edit list does that.", "quantifier": "all pairs of lists, all predicates (pure, not necessarily an equality), all procedures and seeds given to lcs-fold", "why_tests_cant": "optimality is against all common subsequences of lists of any length; the algorithm keeps only the furthest point on each diagonal and reuses its vectors", "anchors": ["lib/util/lcs.scm: lcs-with-positions, lcs, lcs-fold, lcs-edit-list"]}
{"id": "C58", "title": "Edit distances are the least number of edits", "statement": "l-distance returns the least number of deletions, insertions and substitutions that edit the first sequence into the second, and re-distance the least number of these and of transpositions of two adjacent elements that are not edited again. With a cutoff the result is the same number when it is not over the cutoff, and #f when it is. l-distance is 0 just for equal sequences, symmetric, satisfies the triangle inequality and lies between the difference of the lengths and the greater length; re-distance is never more than l-distance.", "quantifier": "all pairs of sequences, all cutoffs, all predicates elt= (symmetric or transitive where the statement needs it; an equivalence for re-distance)", "why_tests_cant": "the minimum is over all edit scripts between sequences of any length; that the early exit with a cutoff never loses a distance within it depends on every row", "anchors": ["lib/util/levenshtein.scm: l-distance, l-distances, l-base, re-distance, re-distances, re-base"]}
{"id": "C59", "title": "permutations and combinations are complete, without repetition and in order", "statement": "combinations returns just the selections of n elements of its list in the order of the list, each once (by position; by value when the elements are distinct), n over k in number and in lexicographic order of the positions; permutations returns just the permutations of its list, n! in number, each once when the elements are distinct, in lexicographic order. combinations-for-each and permutations-for-each call their procedures on the same lists in the same order.", "quantifier": "all lists, all sizes, all procedures and the states they act on", "why_tests_cant": "that every one of n! permutations comes exactly once cannot be tested beyond a few elements, and the code has separate paths for 0, 1, 2, 3, 4 and more elements", "anchors": ["lib/util/combinations.scm: permutations, permutations-for-each, combinations, combinations-for-each, but-kth, p/each3, p/each4, p/each*"]}
{"id": "C60", "title": "Power sets and cartesian products are complete, without repetition and in order", "statement": "power-set returns just the selections from its list, 2^n in number, each once when the elements are distinct, the smaller ones first, and power-set-binary the same ones in another order. cartesian-product returns just the lists that take one element from each list, as many as the product of their lengths, each once when the lists have no repetition, in lexicographic order; cartesian-product-right returns the same with the leftmost element varying first: the reversals of the product of the reversed lists. The for-each forms call their procedures on the same lists in the same order.", "quantifier": "all lists, all lists of lists, all procedures and the states they act on", "why_tests_cant": "the results grow exponentially, so that tests see only the smallest; completeness and the absence of repetition are claims about every element of them", "anchors": ["lib/util/combinations.scm: power-set, power-set-binary, power-set-for-each, cartesian-product, cartesian-product-for-each, cartesian-product-right, cartesian-product-right-for-each"]}
{"id": "C61", "title": "Multiset permutations and combinations give each one once", "statement": "For an equivalence eq, combinations* returns selections of n elements from its list in the order of the list such that every multiset (up to eq) of n elements contained in the list is among them and no two of them are the same multiset; combinations*-for-each calls its procedure on the same ones in the same order. permutations* returns permutations of its list such that every arrangement of the multiset is among them, element by element up to eq, and no two of them are equal element by element.", "quantifier": "all lists, all sizes, all equivalences eq (pure), all procedures and the states they act on", "why_tests_cant": "which elements are skipped depends on the pattern of repetitions, of which there are as many as set partitions; completeness and distinctness are about exponentially many results", "anchors": ["lib/util/combinations.scm: permutations*, combinations*, combinations*-for-each, but-kth"]}
{"id": "C62", "title": "Multiset power sets, and the for-each form of multiset permutations", "statement": "For an equivalence eq, power-set* returns selections from its list such that every part of the multiset (up to eq) is among them, no two of them are the same multiset, and the smaller ones come first; power-set*-for-each calls its procedure on the same ones in the same order. permutations*-for-each calls its procedure on the lists that permutations* returns, in that order.", "quantifier": "all lists, all equivalences eq (pure), all procedures and the states they act on", "why_tests_cant": "the parts of a multiset are exponentially many, and the for-each form repeats the loop of permutations* with its own shortcuts", "anchors": ["lib/util/combinations.scm: power-set*, power-set*-for-each, permutations*-for-each"]}
