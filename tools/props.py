import json
P=[]
def p(title,statement,quantifier,why,anchors):
    P.append(dict(id="C%02d"%(len(P)+1),title=title,statement=statement,quantifier=quantifier,why_tests_cant=why,anchors=anchors))
p("UTF-8 codec round trip","Writing any character (every code 0 .. 2^31-1 the char type admits) into a string buffer and reading it back yields that character; the number of bytes written equals the advertised size, the first byte announces exactly the number of bytes that follow, and a decoder that accepts a byte sequence accepts only the shortest encoding of the character it returns.",
  "all character codes below 2^31 and all byte sequences, with any bytes following","2^31 codes and unbounded byte contexts; boundary and overlong forms are exactly what sampled tests miss",
  ["src/char.c: Scm_CharUtf8Getc, Scm_CharUtf8Putc, Scm_CharSizeTable","src/gauche/char_utf_8.h: SCM_CHAR_NBYTES, SCM_CHAR_NFOLLOWS, SCM_CHAR_GET, SCM_CHAR_PUT, SCM_CHAR_BACKWARD"])
p("Strings are sequences of characters","For strings built from any characters, moving forward or backward one character from a character boundary lands on the adjacent character boundary, so string indexing/iteration over the bytes sees exactly the characters that were stored.",
  "all character sequences and all positions in them","multi-byte boundary interactions are unbounded in string length and content",
  ["src/gauche/char_utf_8.h: SCM_CHAR_BACKWARD","src/string.c: forward_pos, count_length, Scm_StringRef, Scm_Substring"])
p("tree-map is a finite ordered map","After any sequence of tree-map put!/delete!/pop-min!/pop-max!/clear!/copy operations, lookups return exactly what an ideal finite map would, the entry count is exact, and deleting or adding one key never disturbs another.",
  "all operation histories and all keys under any strict total order","rebalancing cases depend on the whole history; no finite suite covers all tree shapes",
  ["src/treemap.c: core_ref, balance_tree, delete_node, delete_node1, swap_node, core_bound"])
p("tree-map stays balanced","After any sequence of operations the internal tree satisfies the balance conditions checked by tree-map consistency check, so every lookup takes at most 2*log2(n+1) comparisons.",
  "all operation histories of any length","worst-case depth is a statement over all histories","src/treemap.c: balance_tree, delete_node1, Scm_TreeCoreCheckConsistency".split("; "))
p("tree-map neighbours and iteration","floor/ceiling/successor/predecessor queries return the greatest smaller / least greater key present (or nothing), min/max return the extreme entries, and iteration visits every entry exactly once in increasing (or decreasing) key order.",
  "all reachable maps and all query keys","depends on arbitrary tree shape",["src/treemap.c: core_ref (TREE_NEAR), next_node, prev_node, Scm_TreeIterNext, Scm_TreeIterPrev, core_bound"])
p("hash table is a finite map","After any sequence of put!/delete!/clear!/copy operations on a hash table (including those that trigger growth), a lookup returns exactly the last value stored under an equivalent key and not deleted since; the entry count is exact and iteration visits each live entry exactly once.",
  "all operation histories, all keys, any hash function consistent with the equivalence","collisions and resize points depend on the whole history and on the hash function",
  ["src/hash.c: insert_entry, delete_entry, general_access, address_access, Scm_HashCoreSearch, Scm_HashIterNext"])
p("Integer addition, subtraction, multiplication are exact","+, - and * on exact integers return the mathematically exact result whatever the sizes and signs of the operands, across the fixnum/bignum boundary.",
  "all pairs of integers of any magnitude","carry/borrow chains and the fixnum boundary over unbounded digit counts",
  ["src/bignum.c: bignum_add, bignum_sub, bignum_mul, bignum_add_int, Scm_NormalizeBignum","src/number.c: Scm_Add, Scm_Sub, Scm_Mul"])
p("Integer division laws","quotient/remainder/modulo (and floor/truncate variants) satisfy n = q*d + r with the documented sign and magnitude constraints for all integers d /= 0, across representations.",
  "all pairs of integers of any magnitude","quotient-digit estimation errors need rare digit patterns",
  ["src/bignum.c: bignum_gdiv, bignum_sdiv, Scm_BignumDivRem","src/number.c: Scm_Quotient, Scm_Modulo"])
p("Canonical integer representation","Every integer result is a fixnum exactly when it fits the fixnum range, and otherwise a bignum with no leading zero digit, so numerically equal exact integers have identical representation (eqv?).",
  "all integers and all arithmetic results","must hold for every producer",["src/bignum.c: Scm_NormalizeBignum, bignum_normalize","src/gauche/number.h: SCM_SMALL_INT_FITS"])
p("Integer text round trip","(string->number (number->string n r) r) = n for every exact integer n and radix r in 2..36.",
  "all integers, all radixes 2..36","unbounded size; chunked conversion boundary cases",["src/number.c: Scm_NumberToString, read_uint","src/bignum.c: Scm_BignumToString, Scm_BignumAccMultAddUI"])
p("gcd, exact-integer-sqrt, expt","gcd returns the greatest common divisor; exact-integer-sqrt returns s,r with n = s^2 + r and n < (s+1)^2; integer expt equals the repeated product.",
  "all exact (non-negative) integers","termination and correctness for every magnitude",["src/number.c: Scm_Gcd, Scm_ExactIntegerExpt","src/libnum.scm: exact-integer-sqrt"])
p("char-set algebra","Membership in a char-set built by any sequence of add-range, union and complement operations is exactly the corresponding set-theoretic combination; equality and subset tests decide set equality and inclusion; freezing and copying do not change membership.",
  "all operation histories, all characters 0..max","2^(1.1M) possible sets; range merging edge cases",["src/char.c: Scm_CharSetAddRange, Scm_CharSetAdd, Scm_CharSetComplement, Scm_CharSetContains, Scm_CharSetEq, Scm_CharSetLE, Scm_CharSetFreeze"])
p("List length and circularity","length / proper-list? / dotted-list? / circular-list? terminate and classify correctly every list structure, including arbitrary cycles.",
  "all heaps of pairs of any size and any link structure","infinitely many cyclic shapes; termination",["src/list.c: Scm_Length","src/liblist.scm: proper-list?, circular-list?, dotted-list?"])
p("List primitives","reverse, append, delete, delete-duplicates, list-copy, last-pair, assoc updates etc. return the mathematically expected lists and leave their (non-destructive) inputs unchanged.",
  "all lists of any length","unbounded length",["src/list.c: Scm_Reverse, Scm_Append2, Scm_Delete, Scm_DeleteDuplicates, Scm_TopologicalSort"])
p("Topological sort","When the dependency graph is acyclic the result contains every node after the nodes it depends on; when cyclic the failure is reported and never a wrong order.",
  "all finite graphs","infinitely many graphs",["src/list.c: Scm_TopologicalSort","lib/util/toposort.scm"])
p("Class precedence list","For any class definition the computed precedence list contains each ancestor exactly once, extends the local precedence order and every superclass's own list (monotone), and inconsistency is reported exactly when no such order exists along the merge.",
  "all class hierarchies","infinitely many hierarchies",["src/list.c: Scm_MonotonicMerge","src/class.c: Scm_ComputeCPL"])
p("Substring search","string-scan / string-index of a substring finds the leftmost occurrence (and the rightmost for the reverse search), or reports none exactly when there is none.",
  "all texts and patterns over bytes, any lengths","skip-table errors show only on specific pattern/text combinations",["src/string.c: boyer_moore, boyer_moore_reverse, string_search, string_search_reverse"])
p("Sorting","sort returns a permutation of the input ordered by the given predicate; stable-sort preserves the order of equivalent elements.",
  "all lists/vectors and all strict weak orders","n! inputs for each n",["src/vector.c / src/list.c: Scm_SortArray","lib/gauche/sortutil, libsrc/gauche: stable-sort"])
p("dynamic-wind and continuations","Whenever control leaves or enters dynamic-wind extents through any captured continuation, exactly the after thunks of the exited extents (innermost first) and before thunks of the entered extents (outermost first) run, and each extent is thus balanced over the whole execution.",
  "all captured continuations and all jump histories","all control-flow histories",["src/vm.c: throw_cont_calculate_handlers, throw_cont_body, Scm_DynamicWind"])
p("Regular expression matching","If rxmatch succeeds, the reported match is in the language of the regexp at that position and submatches lie within; if it fails, no match starting at any position exists (backtracking-complete) for the regular subset.",
  "all regexps and all input strings","infinite pairs; optimisation passes change the compiled code",["src/regexp.c: rc1_parse, rc2_optimize, rc3_rec, rex_rec"])
p("equal? and hashing","equal? is an equivalence relation on acyclic data and equal data have equal hash values.",
  "all data trees","all pairs/triples of values",["src/compare.c / src/boolean.c: Scm_EqualP","src/hash.c: Scm_EqualHash"])
p("Bit-field operations on packed bits","Fill, copy, count, boolean operation and search over any bit range of a packed bit array act exactly as on a sequence of booleans, touching no bit outside the range.",
  "all arrays, all ranges, any alignment","word-boundary cases across all start/end alignments",["src/bits.c: Scm_BitsCopyX, Scm_BitsFill, Scm_BitsOperate, Scm_BitsEqual, Scm_BitsCount1, Scm_BitsLowest1","src/gauche/bits.h"])
p("base64 round trip","base64 decode of base64 encode is the identity on every byte string, for each alphabet, line-width and padding option.",
  "all byte strings of any length, all line widths","unbounded inputs; every length residue and chunk boundary",["lib/rfc/base64.scm: base64-encode, base64-decode"])
p("quoted-printable round trip","quoted-printable decode of encode restores the byte string, and encoded lines respect the length limit.",
  "all byte strings","soft line break positions depend on all content",["lib/rfc/quoted-printable.scm"])
p("URI percent-encoding round trip","uri-decode-string of uri-encode-string is the identity and the encoded text contains only unreserved characters and %HH escapes.",
  "all strings","unbounded inputs",["lib/rfc/uri.scm: uri-encode, uri-decode"])
p("binary heap","Any sequence of push!/pop-min!/pop-max!/swap operations on a binary heap returns elements as from a sorted multiset.",
  "all histories and total preorders","history-dependent shape",["lib/data/heap.scm"])
p("queues","enqueue!/dequeue!/push! on a queue behaves as a FIFO double-ended list under any history; bounded thread-safe queues never exceed the maximum and lose or duplicate no item under any interleaving.",
  "all histories and interleavings","schedules",["ext/data/queue.scm"])
p("persistent deque","ideque operations behave as on a plain sequence and never modify earlier versions.",
  "all histories","history dependent balancing",["lib/data/ideque.scm"])
p("skew list","skew-list cons/car/cdr/ref/set behave as on a plain list.",
  "all lists, all indices","tree shape depends on length",["lib/data/skew-list.scm"])
p("immutable map","imap put/delete/get behave as a finite map, earlier versions unaffected, and remain balanced.",
  "all histories","history dependent balancing",["lib/data/imap.scm"])
with open('/verif/properties.jsonl','w') as f:
    for x in P: f.write(json.dumps(x)+"\n")
print(len(P))
