c('C01','proved','utf8_put_is_shortest_encoding utf8_get_put utf8_get_sound utf8_sizes utf8_get_in_bounds')
c('C02','partial','utf8_backward_step utf8_backward_at_start_refuted string_ref_correct string_substring_partial string_substring_unindexed string_append_correct string_build_index_correct list_to_string_partial string_substring_refuted list_to_string_refuted_end_ignored list_to_string_refuted_empty_range',
  'The full statement is false of the code in three places (refuted theorems).')
c('C03','proved','treemap_refines_ordered_map spec_map_laws treemap_contents_sorted treemap_copy_disjoint treecore_eq_decides')
c('C04','proved','treemap_balanced treemap_depth')
c('C05','partial','treemap_refines_ordered_map treemap_sweep_with_delete treemap_iterator_is_cursor_partial treemap_iterator_single_refuted',
  'Neighbours, extremes, full traversals and traversal with deletion are proved without restriction; reversing an iterator is proved for tree-maps with other than one entry and refuted for one entry.')
c('C06','proved','hash_table_refines_map hash_table_copy_disjoint hash_table_entries_placed hash_iterator_visits_all fspec_laws hash_table_negative_size_refuted',
  'For initial sizes 0..2^30; a negative initial size aborts the process (refuted theorem). Weak hash tables are not modelled.')
c('C13','partial','list_classification list_shape_unique length_compare_lists length_compare_int_partial length_compare_int_refuted length_compare_bignum num_pairs_counts last_pair_correct',
  'Everything is proved except that comparing the length of a dotted list with an integer of 2^61 or more answers wrongly (refuted theorem).')
c('C14','partial','list_copy_correct alist_copy_correct make_list_correct append2_correct append_correct reverse_correct list_tail_ref_correct list_range_copy_correct member_correct assoc_correct delete_correct alist_delete_correct delete_duplicates_correct reversex_correct append2x_correct appendx_correct deletex_correct delete_duplicatesx_correct alist_deletex_partial alist_deletex_refuted filterx_correct split_atx_correct takex_correct take_drop_right_correct list_set_correct',
  'alist-delete! leaves the second of two adjacent matching entries (refuted theorem); proved when there are no such entries.')
c('C07','proved','int_add_exact int_sub_exact int_mul_exact int_negate_exact int_abs_exact int_compare_exact int_sign_exact int_odd_exact',
  'Word-level model of bignum.c and the fixnum/bignum dispatch of number.c, up to the size where Gauche raises an error.')
c('C08','partial','int_quotient_remainder_partial int_remainder_partial int_modulo int_quotient_fix_by_zero int_quotient_least_fixnum_refuted int_quotient_fix_by_big_refuted int_quotient_big_by_zero_refuted',
  'modulo is proved without exception; quotient and remainder fail for (quotient least-fixnum -1), least-fixnum by -least-fixnum, and a bignum by 0 (refuted theorems), and are proved elsewhere.')
c('C09','partial','int_canonical_unique int_canonical_fixnum_iff int_normalize_canonical int_make_integer_canonical int_ash_noncanonical_refuted',
  'Every operation of C07, C08, C10, C11, C31 is proved to return canonical objects (the predicate returns), except ash by 0 of three extreme fixnums (refuted theorem).')
c('C10','partial','int_to_string int_of_string int_text_roundtrip_partial int_text_roundtrip_refuted',
  'Proved for all integers and radixes except -18 in radix 19 and above, which reads back as the imaginary unit (refuted theorem).')
c('C11','partial','int_gcd int_lcm int_expt_partial int_expt_zero_refuted int_sqrt',
  'expt is proved while the result fits a bignum; (expt 0 bignum) is an error (refuted theorem). exact-integer-sqrt: the Newton iteration is proved total from any positive guess; the double-precision first guess is not modelled.')
c('C31','partial','int_lognot int_logior int_logand_partial int_logand_refuted int_logxor_partial int_ash_partial int_ash_right_refuted int_ash_count_truncated_refuted int_integer_length',
  'logand of two negative bignums loses -2^(64k); ash rounds wrongly at one point and truncates large counts (refuted theorems); proved elsewhere.')
c('C16','proved','monotonic_merge_sound monotonic_merge_decides monotonic_merge_prefers_first monotonic_merge_false_element_refuted monotonic_merge_dotted compute_cpl_sound compute_cpl_decides class_history_good',
  'The merge of classes is proved sound and complete (the class of all histories of class definitions). Scm_MonotonicMerge on arbitrary Scheme values cannot represent #f as an element (refuted theorem): this does not concern classes.')
c('C17','partial','string_search_leftmost string_scan_leftmost string_scan_right_partial string_scan_right_refuted string_split_char split_spec_unique',
  'The forward search is proved for all texts and patterns. The backward Boyer-Moore search starts one byte too far right; the proved case excludes a text of 256 bytes or more with a pattern of 2..255 bytes whose last byte equals the byte past the text, and the refuted theorem shows a false match there.')
c('C22','partial','bits_fill_partial make_bitvector_refuted make_bitvector_ok_partial bits_copy_partial bitvector_copy_overlap_refuted bits_operate_partial bits_operate_refuted bits_equal_partial bits_includes_partial bits_equal_refuted bits_any_iff bits_every_iff bits_count_exact bits_lowest_partial bits_lowest_refuted bits_highest_exact',
  'any/every/count/highest are proved for all ranges. fill touches the word after a range that ends at a word boundary; overlapping forward copies, boolean operations, comparisons and the upward search on ranges that start inside a word are wrong (refuted theorems); they are proved for the remaining ranges, which include all uses in the code except overlapping bitvector-copy! and whole-word fills.')
c('C12','proved','charset_history spec_step_answer','Model of src/char.c char-sets over the real red-black tree model and the packed-bit model. Case folding (which modifies the tree while iterating over it), printing and reading of char-sets are not modelled.')
c('C18','partial','sort_array_sorts_partial sort_array_predicate_partial sort_list_sorts_partial merge_merges mergex_merges stable_sortx_sorts stable_sort_sorts stable_sortx_vector_sorts sorted_p_correct stable_sort_unique',
  'Quick/heap sort of compare.c (in bounds, terminating and a permutation for any comparison; ordered for strict weak orders) for fewer than 2^30 elements; merge, merge!, stable-sort, stable-sort! on lists with and without key, stable-sort! on vectors without key, sorted? proved for all inputs. Not modelled: comparison procedures that raise errors or mutate the list, generic sequences, the key variant on vectors.')
c('C29','proved','skew_of_list skew_to_list_correct skew_equal_iff_same_elements skew_empty_correct skew_cons_correct skew_car_correct skew_cdr_correct skew_ref_correct skew_set_correct skew_fold_correct skew_length_correct skew_map_correct skew_iterator_correct',
  'All of lib/data/skew-list.scm is modelled except argument type checks and the collection-framework glue.')
c('C32','partial','skew_range_correct skew_range_at_end_refuted skew_split_partial skew_split_out_of_range skew_split_refuted skew_append_partial skew_append_empty_refuted skew_append_equal_refuted',
  'take/drop/split-at raise a match error exactly when the representation starts with two one-element trees and k is not on a tree boundary; append errs when a list of two or more elements is followed by empty lists only, and its result may not be equal? to a list with the same elements; a range starting at the end is an error. Everything else is proved.')
c('C30','partial','imap_history imap_traversals imap_of_alist imap_balanced_partial imap_balanced_refuted',
  'Finite-map behaviour of put/delete/get/exists?/folds/iteration/min/max is proved for every history and every lawful comparator. Balance is proved for maps built by puts; imap-delete does not rebalance (black heights are not restored), so balance after deletes is refuted.')
c('C28','partial','ideque_constructors ideque_ends ideque_observers ideque_parts ideque_transforms ideque_equality_partial ideque_equality_order_refuted',
  'All one-deque operations of data.ideque proved against sequences, including the balance invariant. ideque= is proved for symmetric element equalities; with others it passes some elements in the wrong order (refuted). The n-ary map/fold/... variants, which go through ideque->list, and start/end arguments of list->ideque are not modelled.')
c('C26','partial','heap_make heap_build heap_push heap_find_min_max heap_pop_min_max heap_swap_min_max heap_empty_fails heap_remove_delete heap_find_correct heap_size_clear_copy heap_history_partial heap_drain_sorts heap_copy_push_refuted heap_check_equal_elements_refuted',
  'Proved for every history on heaps from make-binary-heap and build-binary-heap and every strict weak order. binary-heap-copy passes a misspelt keyword and leaves the capacity unbound, so a push to a copy is an error (refuted); binary-heap-check rejects heaps with equal elements (refuted).')
c('C15','partial','topological_sort_details_partial topological_sort_partial util_topological_sort_partial topological_sort_nodes_partial topological_sort_duplicate_key_refuted',
  'Sound and complete (order iff acyclic; reported nodes are exactly those on or downstream of a cycle) for every graph whose entries have distinct keys, for any equivalence eq. A graph that lists a node in two entries yields a wrong order (refuted).')
c('C23','partial','base64_encode_is_rfc4648 base64_decode_lax base64_decode_strict base64_round_trip base64_encode_injective base64_lines base64_space_digit_refuted base64_equal_digits_refuted base64_control_digit_refuted base64_strict_unpadded_refuted base64_strict_pad_refuted base32_encode_is_rfc4648 base32_decode_lax_partial base32_decode_strict_partial base32_round_trip_partial base32_odd_width_refuted base16_encode_is_rfc4648 base16_decode_lax base16_decode_strict base16_round_trip',
  'base64, base32, base32hex and base16 of lib/rfc/base64.scm: the encoders equal RFC 4648 with line breaks, the decoders are characterised on every text, round trips for every byte string, width and padding option. Partial: the claim is false of the code for :digits that are a space, a control character or equal, and for base32 with an odd line width (the decoder loops); those are the refuted theorems. String and port plumbing is not modelled.')
c('C24','partial','qp_decode_correct qp_encode_binary qp_round_trip_binary qp_encode_text_partial qp_round_trip_text_partial qp_trailing_cr_refuted qp_lines_partial qp_binary_lines_refuted qp_decode_trailing_cr_refuted',
  'Binary mode restores every byte string; text mode restores it up to line ends as CRLF, unless it ends in CR (an error in the code). Lines respect the width in text mode; refuted in binary mode.')
c('C25','proved','uri_decode_correct uri_encode_text uri_encode_default uri_round_trip uri_round_trip_default uri_percent_noescape_refuted uri_plus_noescape_refuted',
  'On byte strings and ASCII encoded text; conversion of character encodings is not modelled.')
c('C27','partial','queue_history queue_fifo news_pairwise marker_is_counted_refuted mtqueue_linearizable_partial mtqueue_untimed_linearizable mtqueue_nolock_linearizable mtqueue_bound_partial mtqueue_no_loss_partial mtqueue_fifo_partial mtqueue_reader_wakeup_partial mtqueue_writer_wakeup_partial mtqueue_no_deadlock_partial mtqueue_timeout_duplicates_refuted mtqueue_zero_timeout_refuted mtqueue_zero_two_writers_refuted mtqueue_put_after_close_refuted mtqueue_push_closed_refuted mtqueue_setmax_wakeup_refuted mtqueue_marker_wakeup_refuted mtqueue_close_two_readers_refuted mtqueue_list_exceeds_refuted','Plain queues on a heap of pairs: every history answers as a sequence and touches no dead pair. mtqueues: every interleaving in which no timeout fires while another thread holds the big lock is linearizable, keeps a positive maximum, loses and duplicates nothing, is FIFO, and loses no wake-up. The restriction is needed: the _refuted executions show an item delivered twice after a timed-out wait clears another thread\'s big lock, zero-length queues overfilled, puts after close, lost wake-ups. Not modelled: threads that end while holding the big lock, callbacks re-entering the queue, queue-length of an mtqueue (unlocked).')
c('C19','partial','dynwind_balanced_partial dynwind_extents_partial dynwind_jump_partial dynwind_abort_partial dynwind_thunk_partial dynwind_exit_partial dynwind_counts_partial dynwind_demo dynwind_abort_refuted',
  'Every history of calls, returns, dynamic-winds, captures, jumps through full continuations, prompts and aborts, provided no abort goes to a prompt below an unfinished jump (there the code asserts: refuted). Partial continuations, errors raised by thunks and continuations captured under a finished C call are not modelled.')
c('C21','partial','equal_decides equal_equivalence interleave_correct equal_false_correct equal_circular_refuted equal_hash_agree compnum_hash_refuted f64vector_hash_refuted',
  'equal? of src/boolean.c with its fallback %interleave-equal? (union-find) decides sameness up to sharing for all acyclic data, hence is an equivalence; default-hash and portable-hash agree with it. The hash law excludes compnums with a zero part and float uvectors, where it is false (refuted), identifiers, and classes with their own compare/hash procedures (not modelled); for circular lists with tails equal? itself can be wrong (refuted).')
c('C20','partial','regexp_search_partial regexp_nested_loop_refuted regexp_distinct_refuted regexp_lazy_alt_refuted',
  'From the AST on (rc2_optimize, rc3, rex_rec, Scm_RegExec with its start-position shortcuts): the search always ends and returns a match at the leftmost place where the language has one, with submatches inside it, or none when there is none. Excluded: case folding, backreferences, once, lookbehind, conditionals, grapheme/word-start assertions, groups in lookahead, and the patterns on which the optimizer is wrong (refuted). Which of several matches at the leftmost place is returned (greediness) and the parser are not covered.')
c('C33','proved','sparse_tables_refine_maps sparse_table_copy_independent sparse_table_iter_with_delete_refuted',
  'Every function of ctrie.c and sptab.c on a heap of leaves: for every lawful hash/equality pair and every history of fewer than 2^64 operations no memory error occurs, answers are those of finite maps, %-check passes, folds visit each entry once, copies are independent. Folds whose procedure deletes entries are outside the claim and can skip a sibling (refuted theorem). The push!/pop!/dict glue is not modelled.')
c('C34','partial','sparse_vectors_refine_maps_partial sparse_vector_num_entries_refuted sparse_vector_ref_fallback_refuted',
  'Every history over general and uniform element types. Excluded because the code is wrong there (refuted theorems): num-entries in a history with inc! (an absent element in an existing leaf is not counted), and the fallback of ref/update! for an index outside 0..2^64-1 (ignored). The element conversions are an arbitrary partial function.')
c('C35','partial','matrix_index_bijective sparse_matrices_refine_maps_partial',
  'The index packing is a bijection between pairs below 2^32 and indices below 2^64 (proved outright); histories answer as finite maps with the restrictions of C34.')

c('C36','partial','input_port_position_partial peeked_block_refuted peeked_eof_block_refuted peeked_eof_tell_refuted peeked_failed_seek_refuted peeked_malformed_refuted',
  'Every content, chunking, buffer mode and size, and every operation sequence up to the first operation that is not allowed. Excluded because the code is wrong there (refuted theorems): a block read that is longer than what is left when all of that has been peeked at (data lost), a block read or port-tell after peeking the end, a failing port-seek after a peek, reading a character where there is none. Mode :none needs a buffer of at least 5 bytes.')
c('C37','partial','output_port_contents_partial written_prefix_visible no_failure putc_assertion_refuted write_byte_column_refuted write_byte_line_refuted',
  'Every file, buffer size, mode, splitting of writes and sequence of operations. Excluded because the code is wrong there (refuted theorems): write-char of a multibyte character may abort unless write(2) takes everything and the buffer has 6 bytes; write-byte does not count columns nor flush lines. Write errors are not modelled.')
c('C38','proved','string_port_contents get_output_string',
  'Every sequence of writes; all chunk stores stay inside their chunk, the cached length is right.')
c('C39','proved','C39_print_read_roundtrip C39_print_shortest C39_print_injective',
  'Every finite double, both signs. The estimate of log10 is any whose error is below 1/10 (libm is not modelled). Digits, point and exponent layout as produced by number->string with default bounds.')
c('C40','partial','C40_read_nearest_partial C40_read_terminates_refuted C40_read_nearest_refuted',
  'Correct rounding and termination for digits below 10^308, written exponent below 325, values 0 or from 5e-324 to 1.797693134862306e308 except one tie. Outside this the code is wrong (refuted theorems: a literal on which reading never returns, finite values read as infinity or 0).')
c('C41','partial','rat_add_partial rat_sub_partial rat_mul_partial rat_div_partial rat_arith_nonnegative rat_arith_odd rat_negate_exact rat_abs_exact rat_reciprocal_exact rat_div_by_zero rat_reciprocal_zero rat_sign_exact rat_unique rat_round_exact rat_div_refuted',
  'Excluded because the code is wrong there (refuted theorem): results -1/j whose denominator before reduction is a multiple of 2^61. Negation, absolute value, reciprocal, division by zero, rounding and uniqueness of representation hold without exception.')
c('C42','proved','string_written_is_read incomplete_string_written_is_read string_text_prefix_free string_text_no_control',
  'Text ports are lists of code points; decoding is C01/C36.')
c('C43','partial','symbol_written_is_read_partial bar_symbol_is_read bare_symbol_is_no_number odd_symbol_is_cut_refuted',
  'False for bare names with digits or marks outside ASCII (odd_symbol_is_cut_refuted, with examples digit_name_refuted and dot_name_refuted). The Unicode facts used (white space characters are Zs, Zl or Zp) are the hypothesis unicode_spaces.')
c('C44','proved','char_written_is_read',
  '')
c('C45','partial','datum_written_is_read_partial written_text_is_unique data_sequence_is_read_partial reader_ends',
  'Symbols as in C43; integers within the bound of C10; other numbers and datum labels are missing.')
c('C46','partial','inexact_integer inexact_rational_partial inexact_infinite inexact_subnormal_refuted',
  'Rationals below 2^-1022 are not claimed; for them the property is false.')
c('C47','partial','exact_compare_partial exact_compare_nonnegative exact_compare_kinds negative_ratnum_refuted compare_refuted',
  'False in general: negative_ratnum_refuted gives the result for all excluded pairs.')
c('C48','proved','int_flonum_compare int_flonum_eq_transitive int_flonum_lt_transitive int_flonum_trichotomy',
  '')
c('C49','partial','real_to_rational_simplest rationalize_simplest rationalize_negative simplest_unique real_to_rational_open_partial open_interval_refuted',
  'rationalize and closed intervals: proved for all inputs. Open intervals: only if the ends are far apart; false in general.')
c('C50','partial','exact_integral exact_simplest exact_inexact_partial exact_inexact_refuted real_compare_partial real_eq_transitive real_le_transitive exact_is_equal',
  'exact is characterised for all finite flonums. The round trip is false for some subnormals; mixed comparison is claimed for non-negative numbers outside (0, 2^-1022).')
c('C51','partial','syntax_rules_expand syntax_rules_no_match matches_unique vector_in_ellipsis_refuted deep_template_accepted_refuted nine_ellipses_refuted',
  'All rules but those the three refuted statements are about (vector patterns ending with an ellipsis inside repetition; nine nested ellipses). Templates whose sequences have different lengths are undefined in the specification.')
c('C52','partial','mutex_atomic mutex_calls_orderly mutex_exclusion mutex_lock_false_timed mutex_no_lost_wakeup mutex_unlock_wait_atomic mutex_lock_solo mutex_exclusion_intr_refuted mutex_abandoned_wakeup_refuted',
  'All executions in which a timed wait is not interrupted (POSIX never does); with an interruption exclusion fails (mutex_exclusion_intr_refuted). Waiters are not woken when the owner ends (mutex_abandoned_wakeup_refuted).')
c('C53','partial','semaphore_tokens semaphore_history_prefix semaphore_no_lost_wakeup semaphore_acquires latch_passed_open latch_open latch_dec_returns barrier_waits_for_all barrier_places barrier_action_once barrier_no_lost_wakeup barrier_goes_on barrier_sleeps_below_threshold barrier_reset_refuted barrier_timeout_refuted',
  'Semaphores and latches in full. Barriers: the statement excludes resets, timeouts and raising actions where they break it; with a reset during the action (barrier_reset_refuted) a thread passes alone, with a timeout at the last arrival (barrier_timeout_refuted) a completed generation leaves the barrier broken.')
c('C54','partial','promise_once_turns promise_once promise_eager promise_ends promise_ends_turns promise_same_end promise_yields promise_not_again promise_not_again_turns promise_parameterization promise_settled_delivers promise_torn_refuted promise_once_refuted promise_raise_refuted promise_parameterization_refuted',
  "Once-and-the-same and not-again hold when threads take turns in user code (any thunks), or under every schedule when thunks return values or settled promises, as delay's do. With lazy chains and threads they fail (promise_torn_refuted, promise_once_refuted), a raise after settling raises the values (promise_raise_refuted), and lazy chains lose the parameterization (promise_parameterization_refuted).")
c('C55','partial','lazy_generator_alone lazy_generator_ends lazy_recursion lazy_car lazy_car_partial lazy_cdr lazy_eof lazy_waits lazy_abandoned lazy_car_refuted',
  'Items and links hold for every schedule when no generator call ends in an error; after errors a waiter may read the lazy pair tag as a car (lazy_car_refuted), otherwise what it reads is right (lazy_car_partial).')
c('C56','partial','gf_call calls_unique gf_dispatch_partial gf_dispatch_hides_refuted gf_deleted_refuted gf_delete_leaf_refuted gf_axis1_refuted gf_four_refuted gf_apply_refuted',
  'Full for calls without a dispatch table, except apply with exactly maxReqargs single arguments (gf_apply_refuted). With a table on the first argument the claim holds when an exactly specialized method is applicable or none matters, and only additions of new signatures follow (gf_dispatch_partial); the other cases are refuted.')
c('C57','proved','lcs_with_positions_longest lcs_longest lcs_fold_script lcs_edit_list_hunks lcs_edit_list_turns',
  '')
c('C58','partial','l_distance_least l_distances_each l_distance_zero l_distance_symmetric l_distance_bounds l_distance_triangle re_distance_partial re_distance_le_l_distance re_distance_refuted',
  'l-distance is proved in full; re-distance only for scripts without a transposition of a pair holding the first element of either sequence, and the full claim is refuted')
c('C59','partial','combinations_all combinations_nodup combinations_count combinations_lexicographic combinations_map combinations_for_each_same permutations_all permutations_nodup permutations_count permutations_lexicographic permutations_for_each_partial permutations_for_each_refuted',
  'all proved except permutations-for-each on the empty list, where the claim is refuted')
c('C60','proved','power_set_all power_set_nodup power_set_count power_set_ordered power_set_binary_same power_set_binary_all power_set_binary_count power_set_for_each_same cartesian_product_all cartesian_product_count cartesian_product_nodup cartesian_product_lexicographic cartesian_product_for_each_same cartesian_product_right_all cartesian_product_right_reverse cartesian_product_right_for_each_same',
  '')
c('C61','proved','combinations_star_sound combinations_star_complete combinations_star_distinct combinations_star_for_each_same permutations_star_sound permutations_star_complete permutations_star_distinct',
  '')
c('C62','partial','power_set_star_sound power_set_star_complete power_set_star_distinct power_set_star_ordered power_set_star_for_each_same permutations_star_for_each_partial permutations_star_for_each_refuted',
  'all proved except permutations*-for-each on the empty list, where the claim is refuted')
