{
 "claims": [
  {
   "property": "C01",
   "status": "proved",
   "theorems": [
    "C01_byte_roundtrip",
    "C01_4bytes_roundtrip",
    "C01_8bytes_roundtrip",
    "C01_write_8bytes_returns_length_refuted"
   ],
   "note": "Round trips, byte format and lengths proved. Finding: return value of kno_write_8bytes (refuted)."
  },
  {
   "property": "C02",
   "status": "partial",
   "theorems": [
    "C02_varint_roundtrip_partial",
    "C02_varint_length",
    "C02_varint_minimal",
    "C02_varint_format",
    "C02_varint_prefix_free",
    "C02_varint_above_63_bits_refuted",
    "C02_varint_outofline_refuted",
    "C02_varint_outofline_small"
   ],
   "note": "Missing: the out-of-line reader _kno_read_varint, for which the claim is refuted above 2^31. Proved below 2^63; above it, and for the out-of-line reader above 2^31, refuted with witnesses."
  },
  {
   "property": "C03",
   "status": "partial",
   "theorems": [
    "C03_varint_truncated",
    "C03_fixed_truncated",
    "C03_read_within_buffer",
    "C03_read_8bytes_eod_refuted",
    "C03_dtype_atomic_partial",
    "C03_dtype_marked_partial",
    "C03_dtype_value_refuted",
    "C03_dtype_choice_refuted",
    "C03_dtype_free_refuted",
    "C03_xtype_atomic_partial",
    "C03_xtype_marked_partial",
    "C03_xtype_value_refuted",
    "C03_xtype_table_refuted",
    "C03_xtype_compound_refuted",
    "C03_xtype_memory_refuted"
   ],
   "note": "Integers and varints; dtypes and xtypes: every strict prefix of an atomic value (for xtypes without strings, packets and bigints, and written without a table) gives end of data or an error, and for values without choices (for xtypes also without empty compounds; with and without a table) whatever value is returned is or contains the end-of-data constant, an error or VOID. As stated false: a cut pair, vector, choice or table is returned as an ordinary value with such a constant inside, a cut dtype vector can make the reader free an interior pointer, an empty compound cut in its header is returned complete, and xtypes cut in front of a length or an index access memory outside (refuted). Not covered: choices beyond the refutations."
  },
  {
   "property": "C04",
   "status": "partial",
   "theorems": [
    "C04_round_trip_partial",
    "C04_stream_partial",
    "C04_prefix_free_partial",
    "C04_flags_partial",
    "C04_immediates_refuted",
    "C04_compound_refuted",
    "C04_oid_refuted",
    "C04_schemap_refuted",
    "C04_edge_bigint_refuted"
   ],
   "note": "Round trip for every storable value (all kinds of the statement, any nesting, any following bytes, both format versions, any order of choice elements), streams of values, prefix-freeness. Storable excludes: constants above 4, symbols with NULs, lengths from 2^31, compounds with one vector field, tables other than slotmaps, and elements of choices whose comparison is outside ValueModel. As stated false: KNO_NEVERSEEN, compounds with one vector field, zero-pool OIDs, schemaps, bigints at the edge of the fixnums (refuted)."
  },
  {
   "property": "C05",
   "status": "partial",
   "theorems": [
    "C05_length_partial",
    "C05_writable_partial",
    "C05_storable_partial",
    "C05_compound_refuted",
    "C05_one_field_refuted"
   ],
   "note": "Proved for every value whose compound tags and only fields can be written; as stated false: dtype_compound adds negative results to the count (refuted)."
  },
  {
   "property": "C06",
   "status": "partial",
   "theorems": [
    "C06_plain_partial",
    "C06_refs_partial",
    "C06_history_partial",
    "C06_embed_partial",
    "C06_embed_refuted",
    "C06_values_refuted",
    "C06_hashset_refuted",
    "C06_edge_bigint_refuted",
    "C06_sequence_refuted",
    "C06_oid_base_refuted",
    "C06_empty_table_refuted",
    "C06_big_choice_refuted"
   ],
   "note": "Round trip for every storable value (constants and tag constants, characters, symbols, fixnums, OIDs, bigints, flonums, rationals, complex numbers, strings, packets, pairs, vectors, choices up to kno_bigchoice_threshold, quoted choices, compounds, slotmaps; any nesting, any following bytes), without a table, with a table that grows while writing, and for histories of values written with the same table; kno_embed_xtype if the table does not grow. With a table, OIDs of the first 2^14 bases only. As stated false: VOID, schemaps, hashsets, compounds tagged xtype, annotated sequence compounds, bigints at the edge of the fixnums, choices above the threshold, OIDs of later bases, tables of length zero, kno_embed_xtype with a table that grows (refuted). Not covered: hashtables, timestamps, UUIDs, compression."
  },
  {
   "property": "C07",
   "status": "partial",
   "theorems": [
    "C07_accumulated_set_partial",
    "C07_order_independent_partial",
    "C07_prechoice_history_partial",
    "C07_empty_accumulator_refuted",
    "C07_empty_accumulator_abort_refuted",
    "C07_singleton_accumulator_refuted",
    "C07_zero_capacity_refuted"
   ],
   "note": "Missing: empty and one-element accumulators as added values and zero-capacity accumulators, for which the claim is refuted. Elements and keys are restricted to the values on which the comparison is a total order (no strings containing NUL, no flonums or complex numbers, no choices; see C13). All API programs of additions, normalisations and set operations; zero-capacity and small accumulators as added values are refuted."
  },
  {
   "property": "C08",
   "status": "partial",
   "theorems": [
    "C08_membership_partial",
    "C08_binary_search_partial"
   ],
   "note": "Missing: values outside the total order. Elements and keys are restricted to the values on which the comparison is a total order (no strings containing NUL, no flonums or complex numbers, no choices; see C13). Binary search and the API test on all built values."
  },
  {
   "property": "C09",
   "status": "partial",
   "theorems": [
    "C09_union_partial",
    "C09_merge_choices_partial",
    "C09_neverseen_refuted"
   ],
   "note": "Missing: NEVERSEEN as an element (refuted). Elements and keys are restricted to the values on which the comparison is a total order (no strings containing NUL, no flonums or complex numbers, no choices; see C13). Scanner merge and kno_union; the internal constant NEVERSEEN as element is refuted."
  },
  {
   "property": "C10",
   "status": "partial",
   "theorems": [
    "C10_intersection_partial",
    "C10_empty_accumulator_refuted",
    "C10_skipped_argument_refuted"
   ],
   "note": "Missing: empty or one-element accumulators as arguments (refuted). Elements and keys are restricted to the values on which the comparison is a total order (no strings containing NUL, no flonums or complex numbers, no choices; see C13). All built arguments; empty or one-element accumulators created by kno_init_prechoice are refuted."
  },
  {
   "property": "C11",
   "status": "partial",
   "theorems": [
    "C11_difference_partial"
   ],
   "note": "Missing: values outside the total order. Elements and keys are restricted to the values on which the comparison is a total order (no strings containing NUL, no flonums or complex numbers, no choices; see C13). Both difference algorithms and the API function."
  },
  {
   "property": "C12",
   "status": "partial",
   "theorems": [
    "C12_overlap_partial",
    "C12_containment_partial",
    "C12_empty_containment_refuted",
    "C12_empty_overlap_refuted"
   ],
   "note": "As stated false for an empty first argument (refuted). Elements and keys are restricted to the values on which the comparison is a total order (no strings containing NUL, no flonums or complex numbers, no choices; see C13). Containment for a non-empty first argument; the empty cases are refuted."
  },
  {
   "property": "C13",
   "status": "partial",
   "theorems": [
    "C13_total_order_partial",
    "C13_three_comparisons_agree",
    "C13_atoms_first",
    "C13_equal_agrees_partial",
    "C13_flonums_partial",
    "C13_nul_strings_refuted",
    "C13_nan_refuted",
    "C13_complex_refuted",
    "C13_complex_antisym_refuted",
    "C13_secret_refuted",
    "C13_flonum_rational_refuted"
   ],
   "note": "As stated false: NUL strings, NaN, complex numbers, secrets, and flonums together with rationals are refuted. Proved: a total order on values without NUL strings, inexact or complex numbers; flonums other than NaN among themselves are ordered as their values. Missing: flonums together with fixnums and big integers inside other values."
  },
  {
   "property": "C14",
   "status": "partial",
   "theorems": [
    "C14_slotmap_history_partial",
    "C14_other_keys_partial",
    "C14_slotmap_test_partial",
    "C14_sorted_lookup",
    "C14_nul_keys_refuted"
   ],
   "note": "Missing: keys outside the total order; for strings with NUL the claim is refuted. Histories of store/add/drop/drop-all/delete/sort, sorted and unsorted, agree with an abstract map. Refuted part: string keys differing after a NUL are one key (compare.c)."
  },
  {
   "property": "C15",
   "status": "partial",
   "theorems": [
    "C15_schemap_history_partial",
    "C15_other_slots_refused",
    "C15_sorted_lookup",
    "C15_sort_schema",
    "C15_unset_slots_refuted"
   ],
   "note": "Missing: tables made without values, for which the claim is refuted. Histories on tables made with a value per slot; sorted (binary) and linear slot search; kno_sort_schema. Refuted part: slots made without values hold #VOID, which is read instead of the default and mixed into added values."
  },
  {
   "property": "C16",
   "status": "partial",
   "theorems": [
    "C16_hashtable_history_partial",
    "C16_other_keys_partial",
    "C16_probe_and_test_partial",
    "C16_empty_value",
    "C16_initialize",
    "C16_choice_key_refuted",
    "C16_init_values_refuted",
    "C16_swap_refuted",
    "C16_set_readonly_refuted",
    "C16_sizes_refuted"
   ],
   "note": "Missing: choice keys, for which the claim is refuted, keys outside the total order, and concurrent use. All histories of store/add/drop/remove/resize/reset/read-only below 2^28 operations, every hash function, load factor in (0,2], with automatic resizing; listings in C19. Refuted: choice keys in kno_hashtable_add, kno_init_hashtable loses values, kno_swap_hashtable loses the contents, read-only cannot be undone, size table has no end marker."
  },
  {
   "property": "C17",
   "status": "partial",
   "theorems": [
    "C17_few_collisions_partial",
    "C17_four_keys_refuted",
    "C17_four_keys_drop_refuted",
    "C17_equal_keys_refuted",
    "C17_resize_refuted",
    "C17_resize_merges_refuted"
   ],
   "note": "As stated false: with four keys in a bucket another key's value is returned, also for absent keys (refuted with the real hash function), equal but distinct objects are found, and resizing loses and merges pointer keys. Proved: any history of stores and drops on keys that are pairwise not equal, as long as no bucket gets a fourth key and, with pointers among the keys, the table is not resized. Missing: kno_hashtable_add on such tables."
  },
  {
   "property": "C18",
   "status": "partial",
   "theorems": [
    "C18_membership_partial",
    "C18_count_partial",
    "C18_duplicate_add_refuted",
    "C18_drop_collision_refuted",
    "C18_drop_absent_refuted",
    "C18_drop_absent_choice_refuted",
    "C18_intern_refuted",
    "C18_merge_refuted",
    "C18_clean_refuted",
    "C18_initial_count_refuted"
   ],
   "note": "As stated false: adding a member again to a bucket holding an accumulator counts it twice, and a drop not preceded by a lookup of a member may do nothing or lower the count; also refuted for interning, merging, cleaning and the initial count. Proved: membership is exact after any history of lookups, adds, growth, resets and drops made only after a lookup found the element, for every hash function and below 2^28 additions; the count is never below the number of members and equal to it if nothing present was added without a lookup. The initial count is taken to be 0 although kno_make_hashset leaves it unset. The number returned by kno_hashset_add is only shown not to be negative. Elements and keys are restricted to the values on which the comparison is a total order (no strings containing NUL, no flonums or complex numbers, no choices; see C13)."
  },
  {
   "property": "C19",
   "status": "partial",
   "theorems": [
    "C19_hashset_elts_partial",
    "C19_hashtable_keys_partial",
    "C19_hashtable_values_partial",
    "C19_hashtable_assocs_partial",
    "C19_schemap_keys_partial",
    "C19_schemap_assocs_refuted",
    "C19_slotmap_keys_partial",
    "C19_slotmap_values_partial",
    "C19_slotmap_assocs_partial",
    "C19_slotmap_keyvec_refuted"
   ],
   "note": "Keys, values and association lists of slotmaps and hashtables, keys of schemaps, elements and element vector of hash sets, on the states reached by the histories of C14, C15, C16, C18. As stated false for the slotmap key vector and the schemap association list (refuted)."
  },
  {
   "property": "C20",
   "status": "partial",
   "theorems": [
    "C20_sum_partial",
    "C20_product_partial",
    "C20_accepted_partial",
    "C20_integers",
    "C20_choice_refuted",
    "C20_choice_freed_refuted"
   ],
   "note": "C20_integers is the claim for every sequence of integers (below 2^28 of them) added to one key of a new hashtable; C20_sum_partial and C20_product_partial the same for exact rationals within any history that touches the key only by increments (or products), counting those that returned 1; C20_accepted_partial: none is refused unless the table is read-only. Missing: flonums and complex numbers, identity-keyed tables, slotmaps. As stated false when the operand is a choice of numbers (two refutations: wrong sum, use after free)."
  },
  {
   "property": "C21",
   "status": "partial",
   "theorems": [
    "C21_plus_exact",
    "C21_subtract_exact",
    "C21_multiply_exact",
    "C21_canonical_partial",
    "C21_canonical_refuted",
    "C21_canonical_unique",
    "C21_expressions_exact"
   ],
   "note": "Addition, subtraction and multiplication of fixnums and bigints, and expressions built from them, have exactly the mathematical value. Canonical form: proved except for results equal to the greatest or the least fixnum, which the code makes bigints (refuted there). Flonum arguments not modelled."
  },
  {
   "property": "C22",
   "status": "proved",
   "theorems": [
    "C22_add_exact",
    "C22_subtract_exact",
    "C22_negate_exact",
    "C22_multiply_exact",
    "C22_compare_exact",
    "C22_equal_exact",
    "C22_sign_exact",
    "C22_normal_form_unique",
    "C22_divide_exact",
    "C22_quotient_exact",
    "C22_remainder_exact",
    "C22_divide_by_zero"
   ],
   "note": "Addition, subtraction, negation, multiplication, division, comparison, sign on digit arrays of any length; value, normal form and uniqueness of the normal form. The model has no limit on the length of the arrays; memory and the field width of the length are assumed sufficient."
  },
  {
   "property": "C23",
   "status": "partial",
   "theorems": [
    "C23_division_law",
    "C23_primitives_law",
    "C23_zero_divisor_partial",
    "C23_zero_divisor_refuted"
   ],
   "note": "quotient and remainder satisfy the division law for all integers and all nonzero divisors, internal functions and primitives. Zero divisor: an error only for quotient of fixnums; refuted for quotient of a bigint, for remainder, and for the internal functions."
  },
  {
   "property": "C24",
   "status": "partial",
   "theorems": [
    "C24_division_exact",
    "C24_lowest_terms_partial",
    "C24_lowest_terms_refuted",
    "C24_arithmetic",
    "C24_expressions_exact"
   ],
   "note": "Division and arithmetic of rationals are exact. Lowest terms with positive denominator: proved for positive divisors; refuted for negative divisors (4 divided by -2 is the object -2/1)."
  },
  {
   "property": "C25",
   "status": "partial",
   "theorems": [
    "C25_numcompare_exact",
    "C25_complex_refuted"
   ],
   "note": "Comparison of exact reals equals the mathematical order. As stated false for complex numbers (refuted). Flonums not modelled here."
  },
  {
   "property": "C26",
   "status": "partial",
   "theorems": [
    "C26_roundtrip_partial",
    "C26_unique_partial",
    "C26_many_blocks_refuted"
   ],
   "note": "As stated false at the 65537th block (refuted); proved for all histories below it. Round trip and uniqueness for every history touching at most 65536 blocks of 2^20 addresses (the pointer layout's limit); C26_many_blocks_refuted shows that the full statement fails at the 65537th block."
  },
  {
   "property": "C27",
   "status": "proved",
   "theorems": [
    "C27_print_parse",
    "C27_print_injective",
    "C27_long_text_refuted"
   ],
   "note": "Print/parse round trip for all addresses; C27_long_text_refuted: a 64-digit numeral writes past the parser's 64-byte buffer."
  },
  {
   "property": "C28",
   "status": "partial",
   "theorems": [
    "C28_distinct_partial",
    "C28_allocations_only_partial",
    "C28_commit_race_refuted",
    "C28_wraparound_refuted",
    "C28_negative_request_refuted",
    "C28_two_processes_refuted",
    "C28_request_partial",
    "C28_filepool_many_refuted",
    "C28_filepool_single_partial"
   ],
   "note": "As stated false: every excluded case listed below is refuted. All interleavings of any number of allocating threads, requests and capacities without 32-bit wrap (C28_allocations_only); with commits in between as long as no allocation falls between a commit's two accesses to the load (C28_distinct). Refuted: commit/alloc race, 32-bit wrap, negative request, two processes (lock flag), multi-identifier requests in file pools."
  },
  {
   "property": "C29",
   "status": "partial",
   "theorems": [
    "C29_commit_partial",
    "C29_new_pool",
    "C29_history_partial",
    "C29_big_value_refuted",
    "C29_unencodable_refuted"
   ],
   "note": "Missing: pool drivers other than big pools (file pools: C32) and tables at or above the 32-bit limit; the excluded values are refuted. Big pools, any history of commits on a new pool, all three formats, below the 32-bit table limit and the size limits of the format. Values are byte strings (codec: C04). Refuted: 16MB values in the 40-bit format, values the encoder rejects."
  },
  {
   "property": "C30",
   "status": "partial",
   "theorems": [
    "C30_crash_atomic_partial",
    "C30_failed_commit",
    "C30_readers_partial",
    "C30_repeated_crashes",
    "C30_crash_state",
    "C30_save_failed_refuted"
   ],
   "note": "Missing: the case that the rollback file could not be saved, for which the claim is refuted. Every crash point, every survivor of the unsynced writes, failed commits, any number of crashes during recovery. Rename of the finished rollback file is taken as atomic and durable. Refuted: the commit continues when the rollback file could not be saved."
  },
  {
   "property": "C31",
   "status": "partial",
   "theorems": [
    "C31_exact",
    "C31_data_overwritten_refuted"
   ],
   "note": "As stated false; what is proved is the exact result. Exact description of the result of applying a prepared commit file for every header and data area; the stated claim is refuted: the eight bytes after the header are overwritten."
  },
  {
   "property": "C32",
   "status": "partial",
   "theorems": [
    "C32_uncached_partial",
    "C32_cached_exact",
    "C32_cached_loses_all",
    "C32_cached_refuted"
   ],
   "note": "As stated false for cached commits, which is the case the property is about; only uncached commits are proved safe. Uncached commits keep everything; for cached commits the claim is refuted for every normal commit (C32_cached_loses_all) and by example."
  },
  {
   "property": "C33",
   "status": "partial",
   "theorems": [
    "C33_direct_roundtrip_partial",
    "C33_mmap_roundtrip_partial",
    "C33_others_kept",
    "C33_readers_agree",
    "C33_format",
    "C33_b40_size_refuted",
    "C33_header_overwrite_refuted",
    "C33_index_wrap_refuted"
   ],
   "note": "Missing: table positions at or above 2^32 bytes, for which the claim is refuted. All three formats, both writers, both readers, other entries kept; the 32-bit position arithmetic and the 16MB limit of the 40-bit format are refuted."
  },
  {
   "property": "C34",
   "status": "partial",
   "theorems": [
    "C34_history_partial",
    "C34_durable_partial",
    "C34_log_file",
    "C34_add_drop_partial",
    "C34_add_store_partial",
    "C34_keys_partial",
    "C34_drop_then_add_refuted",
    "C34_store_drop_commit_refuted",
    "C34_dropped_value_back_refuted",
    "C34_prefetch_refuted",
    "C34_cache_off_refuted",
    "C34_batch_add_refuted",
    "C34_fetchn_refuted",
    "C34_keys_refuted",
    "C34_keysizes_refuted"
   ],
   "note": "As stated false (see the refuted theorems: drop then add!, store/drop/commit, prefetch of a stored key, cache switched off, batch adds). Proved for every history of adds, drops, stores, reads, prefetches, swap-outs, cache changes and commits (which may fail) on an index over a log file, under conditions on the history which are stated in terms of the operations: no drop from and no prefetch of a key stored to since the last commit, add! not on keys dropped from. C34_add_drop_partial and C34_add_store_partial have no condition other than which operations occur. C34_durable_partial: the file after a commit. Not covered: the hash, file and network index drivers, read-only and background indexes, several threads, ipeval delays."
  },
  {
   "property": "C35",
   "status": "partial",
   "theorems": [
    "C35_never_faults",
    "C35_no_false_negatives_partial",
    "C35_hits_lower_bound",
    "C35_exact",
    "C35_order_independent",
    "C35_add_result",
    "C35_import_equivalent",
    "C35_zero_bits_refuted",
    "C35_add_choice_result_refuted",
    "C35_restore_refuted"
   ],
   "note": "Missing: filters with zero bits, for which the claim is refuted. All histories on filters with at least one bit; exact characterisation, order independence, import. Findings: zero bits, result of adding a choice, restore reads the wrong elements."
  },
  {
   "property": "C36",
   "status": "partial",
   "theorems": [
    "C36_elt_partial",
    "C36_args_partial",
    "C36_slice_partial",
    "C36_slice_start_partial",
    "C36_slice_list_refuted",
    "C36_slice_packet_refuted",
    "C36_slice_compound_refuted",
    "C36_position_partial",
    "C36_position_order_partial",
    "C36_rposition_partial",
    "C36_position_end_refuted",
    "C36_position_empty_refuted",
    "C36_position_nul_refuted",
    "C36_rposition_refuted",
    "C36_rposition_choice_refuted",
    "C36_search_partial",
    "C36_search_string_partial",
    "C36_search_packet_partial",
    "C36_search_refuted",
    "C36_search_list_refuted",
    "C36_match_refuted",
    "C36_reverse_partial",
    "C36_reverse_numbers_refuted",
    "C36_append_partial",
    "C36_append_mixed_partial",
    "C36_append_refuted",
    "C36_remove_partial",
    "C36_split_partial"
   ],
   "note": "Proved at the level of the primitives: elements and lengths of all kinds; bad start and end arguments are errors; slices of all kinds but compounds; first and last positions; vectors in vectors, strings in strings and packets in packets; reverse of all but numeric vectors; append of any kinds except a string before a packet; remove; cutting and appending gives the elements again. As stated false: lists accept a start beyond the end or the length, compounds have no slices, position does not observe the end for characters below 0x80 and numeric vectors, rposition confuses bytes and characters, search returns matches beyond the end, misses lists that occur and reads beyond packets, numeric vectors are not reversed, a string before a packet loses the high bits of its characters, match? on lists compares the prefix with itself (refuted). Not covered: find/search on other sequence types, every?/some?, sorting (C37), sequence types registered elsewhere."
  },
  {
   "property": "C37",
   "status": "partial",
   "theorems": [
    "C37_sort",
    "C37_lispval_sort_partial",
    "C37_choice_sort_partial",
    "C37_sort_deterministic"
   ],
   "note": "General theorem for any total preorder; for lisp values restricted to values on which the comparison is one. Missing: user-supplied key functions. Sorting used by lispval_sort and choice construction: result is a sorted permutation for every input, any swap-based qsort path as in the code; deterministic for total orders."
  },
  {
   "property": "C38",
   "status": "partial",
   "theorems": [
    "C38_strings",
    "C38_string_line",
    "C38_symbols_partial",
    "C38_values_partial",
    "C38_printed_alike_partial",
    "C38_symbol_number_refuted",
    "C38_symbol_bar_refuted",
    "C38_symbol_backslash_refuted",
    "C38_symbol_semicolon_refuted",
    "C38_symbol_point_refuted",
    "C38_max_fixnum_refuted",
    "C38_stale_errno_refuted",
    "C38_char_plane_refuted",
    "C38_unquote_oid_refuted",
    "C38_packet64_refuted"
   ],
   "note": "Every string is read back, and every symbol whose name is empty, needs bars or is plain; also integers, packets, characters, booleans, OIDs (not after unquote; followed by nothing, a blank or a closing bracket), lists and vectors of these. As stated false: symbols named like a number, with a bar, a backslash, a semicolon in front or a single point; characters outside the basic plane, base 64 packets and unquoted OIDs are not read back either (refuted). The character functions of libu8 are parameters. Not covered: symbol names with NUL, choices, tables, flonums, rationals."
  },
  {
   "property": "C39",
   "status": "partial",
   "theorems": [
    "C39_hex_packets",
    "C39_octal_packets",
    "C39_packet_escapes",
    "C39_uri_round_trip_partial",
    "C39_uridecode",
    "C39_uri_chars",
    "C39_uri_nul_refuted"
   ],
   "note": "URI encoding of every text without NUL, hexadecimal and octal packet literals of all bytes. As stated false: uriencode stops at a NUL byte (refuted). Not covered: base 64 (done by libu8), packet->base16."
  },
  {
   "property": "C40",
   "status": "partial",
   "theorems": [
    "C40_apply_partial",
    "C40_combinations",
    "C40_once",
    "C40_log",
    "C40_empty",
    "C40_nondeterministic",
    "C40_traced_refuted",
    "C40_accumulator_refuted",
    "C40_void_refuted",
    "C40_quoted_refuted",
    "C40_accumulated_functions_refuted"
   ],
   "note": "As stated false for the refuted cases below. Functions and choices of functions, any number of arguments, aborts, quoted choices, non-deterministic functions. Refuted: traced functions run twice, accumulators as arguments or functions, void results, quoted choices with several functions."
  },
  {
   "property": "C41",
   "status": "partial",
   "theorems": [
    "C41_threads_partial",
    "C41_room",
    "C41_static",
    "C41_wrap_refuted",
    "C41_heap_partial",
    "C41_collect_partial",
    "C41_cycle_refuted"
   ],
   "note": "As stated false without the bound on the count (refuted) and, for being freed at all, on cycles (refuted). Lock-free _kno_incref/_kno_decref as atomic steps of any number of threads, and decref with recursive recycling (recycle_list's loop included) on a heap. Refuted parts: 32-bit counts wrap when three threads pass the limit check together; cycles are never freed."
  },
  {
   "property": "C42",
   "status": "partial",
   "theorems": [
    "C42_distinct",
    "C42_builtin_partial",
    "C42_name",
    "C42_blank_parse_refuted",
    "C42_lock_refuted",
    "C42_overflow_refuted"
   ],
   "note": "As stated false: first registered constant and lock (refuted). Distinctness over all histories, built-ins 0..24, names. Refuted: the first registered constant is KNO_BLANK_PARSE; the lock is never released; no bound check at 512."
  },
  {
   "property": "C43",
   "status": "partial",
   "theorems": [
    "C43_flip_word_partial",
    "C43_flip_ushort",
    "C43_flip_word8_refuted"
   ],
   "note": "As stated false for 64-bit words (refuted). 32- and 16-bit flips proved; the 64-bit flip is refuted (code bug)."
  },
  {
   "property": "C44",
   "status": "partial",
   "theorems": [
    "C44_writes_concatenate_partial",
    "C44_writes_with_flush_partial",
    "C44_flush_failure_refuted",
    "C44_nogrow_refuted"
   ],
   "note": "As stated false for NO_GROW buffers and failing flushes (refuted). Growable buffers: proved. Flush failure and NO_GROW overflow: refuted (code bug)."
  },
  {
   "property": "C45",
   "status": "partial",
   "theorems": [
    "C45_defaults_partial",
    "C45_one_missing_partial",
    "C45_no_defaults_refuted"
   ],
   "note": "As stated false without declared defaults when more than one argument is missing (refuted). Declared defaults: proved. Without declared defaults only one missing argument works (refuted for two and four)."
  },
  {
   "property": "C46",
   "status": "partial",
   "theorems": [
    "C46_of_long_long_partial",
    "C46_of_long_long_refuted",
    "C46_of_ulong_partial",
    "C46_of_ulong_refuted",
    "C46_to_long_partial",
    "C46_fits_exact"
   ],
   "note": "Exact except for the least long long (the negation overflows) and the greatest unsigned long (becomes -1), where the claim is refuted; back conversion proved above the least long."
  },
  {
   "property": "C47",
   "status": "partial",
   "theorems": [
    "C47_reading_exact",
    "C47_writing_exact",
    "C47_round_trip"
   ],
   "note": "Reading, writing and the round trip for radixes 2 to 2^15-1, the range of the digit loop; the surrounding text parser and printer (sign, base prefix, buffer) are not modelled."
  },
  {
   "property": "C48",
   "status": "partial",
   "theorems": [
    "C48_plus_partial",
    "C48_plus_four",
    "C48_plus_refuted",
    "C48_minus_partial",
    "C48_minus_refuted",
    "C48_times_exact",
    "C48_divide_exact",
    "C48_divide_zero_partial",
    "C48_divide_refuted",
    "C48_increments"
   ],
   "note": "Products exact for all lists; sums and differences exact unless all arguments are fixnums whose magnitudes reach 2^63 (refuted with five arguments); quotients exact, results canonical only for positive divisors. Quotient of no arguments refuted. Flonums, complex and vector arguments not modelled."
  },
  {
   "property": "C49",
   "status": "partial",
   "theorems": [
    "C49_floor",
    "C49_ceiling",
    "C49_unreduced_refuted",
    "C49_truncate",
    "C49_round_partial",
    "C49_round_refuted"
   ],
   "note": "floor, ceiling, truncate right for canonical rationals; wrong on the unreduced results of division by a negative number (refuted). round right for positive rationals with an even denominator only; as stated false (refuted)."
  },
  {
   "property": "C50",
   "status": "partial",
   "theorems": [
    "C50_power_partial",
    "C50_power_refuted"
   ],
   "note": "Exact for bases other than zero. As stated false for zero: every power is one (refuted). Complex bases not modelled."
  },
  {
   "property": "C51",
   "status": "partial",
   "theorems": [
    "C51_plus",
    "C51_subtract",
    "C51_multiply",
    "C51_divide_partial",
    "C51_divide_refuted"
   ],
   "note": "Sum, difference, product exact; quotient exact when the divisor has an imaginary part. As stated false for complex divided by zero (refuted). Inexact parts not modelled."
  },
  {
   "property": "C52",
   "status": "partial",
   "theorems": [
    "C52_comparisons",
    "C52_extremes"
   ],
   "note": "All comparison primitives and min/max on exact reals, any number of arguments. Flonum and complex arguments not modelled."
  },
  {
   "property": "C53",
   "status": "partial",
   "theorems": [
    "C53_modulo",
    "C53_modulo_refuted",
    "C53_gcd",
    "C53_lcm_partial",
    "C53_lcm_refuted",
    "C53_parity",
    "C53_absolute"
   ],
   "note": "modulo, gcd, parity, abs as stated for canonical arguments; lcm when an argument is not zero. As stated false for 0 modulo 0 and lcm of zeros (refuted)."
  },
  {
   "property": "C54",
   "status": "partial",
   "theorems": [
    "C54_operations_partial",
    "C54_other_keys_partial",
    "C54_maximum_partial",
    "C54_minimum_partial",
    "C54_push_partial",
    "C54_iterkeys_partial",
    "C54_iterkeys_refuted"
   ],
   "note": "Hashtables not keyed by identity; exact numbers; keys inside the total order; histories below 2^28 operations. Push is proved for a new key and single values (C54_push_partial), not within general histories. Several keys: C54_iterkeys_partial for distinct keys; that an error is always reported is refuted (C54_iterkeys_refuted)."
  },
  {
   "property": "C55",
   "status": "partial",
   "theorems": [
    "C55_size_partial",
    "C55_storable_partial",
    "C55_vector_refuted",
    "C55_schemap_refuted"
   ],
   "note": "Proved for every value whose vectors and schemaps have only parts that can be written (in particular for every value that is read back), whatever the table. As stated false: vectors pass over elements that cannot be written, write_schemap adds negative results (refuted)."
  },
  {
   "property": "C56",
   "status": "partial",
   "theorems": [
    "C56_accepts_partial",
    "C56_prefix_partial",
    "C56_unknown_refuted",
    "C56_compound_refuted",
    "C56_reference_refuted"
   ],
   "note": "Accepts and passes over exactly everything that is written for storable values without compounds and without the constant for sets, with and without references; refuses every strict prefix of what is written without a table. As stated false: a byte that is no code is accepted (61 is returned), compounds are not known, a reference cut in front of its index is accepted (refuted). Not covered: prefixes of encodings with references; agreement with the reader on inputs that were not written by the writer."
  },
  {
   "property": "C57",
   "status": "partial",
   "theorems": [
    "C57_secret_partial",
    "C57_rest_refuted"
   ],
   "note": "Proved for every primitive listed except rest. As stated false: rest, and kno_slice with a negative end, return a plain packet with the bytes (refuted)."
  },
  {
   "property": "C58",
   "status": "partial",
   "theorems": [
    "C58_form_round_trip_partial",
    "C58_choice_values_refuted",
    "C58_last_empty_refuted",
    "C58_bare_part_refuted"
   ],
   "note": "For names and string values without NUL of which the last is not empty. As stated false: several values of a name are run together, a last empty value is not recorded, a part without an equal sign is taken for another value of the name before it (refuted)."
  },
  {
   "property": "C59",
   "status": "partial",
   "theorems": [
    "C59_roundtrip_partial",
    "C59_injective_partial",
    "C59_same",
    "C59_astral_refuted",
    "C59_colon_refuted",
    "C59_protected_colon",
    "C59_first_refuted",
    "C59_choice_refuted",
    "C59_list_refuted",
    "C59_symbol_refuted",
    "C59_keys_refuted",
    "C59_special_key_refuted",
    "C59_strict_refuted"
   ],
   "note": "C59_roundtrip_partial: for strings of characters of the basic plane, fixnums, booleans, vectors and tables (symbols where the flags ask for colons), with conditions on keys and on the first character of strings that the refuted theorems show to be needed. As stated false: characters outside the basic plane, strings beginning with a colon or an escaped character under the flags of #t, choices, lists, symbols under the default flags, string keys, keys with capitals or escapes, keys beginning with @ : # and others, the strict option. Flonums, bigints, OIDs, timestamps, UUIDs and packets are not covered."
  },
  {
   "property": "C60",
   "status": "partial",
   "theorems": [
    "C60_bound",
    "C60_ends_refuted",
    "C60_lenient_refuted",
    "C60_ends_partial"
   ],
   "note": "C60_ends_partial: ends on every text without braces and without characters that begin no value. As stated false: vectors with a character that begins no value are never finished; unterminated strings, missing colons and commas, and trailing text are accepted (refuted). Texts with tables are not covered by the positive theorem."
  },
  {
   "property": "C61",
   "status": "partial",
   "theorems": [
    "C61_values_partial",
    "C61_strings_partial",
    "C61_leftover",
    "C61_unreadable",
    "C61_injective_partial",
    "C61_backslash_refuted",
    "C61_number_refuted",
    "C61_colon_refuted",
    "C61_bar_refuted",
    "C61_sign_refuted",
    "C61_leftover_refuted",
    "C61_empty_refuted"
   ],
   "note": "Values other than strings that the reader's model reads back (see C38) are read back; strings without NULs are if they begin with no backslash, colon, quote, bar, point, sign or non-ASCII digit; blanks after a value are skipped and two or more other characters after it make the argument a string. As stated false: strings beginning with a backslash, a colon, a quote, a bar or a sign are not read back, a single character after a value is dropped, the empty argument is the end-of-file object (refuted). Not covered: what the reader's model leaves out (flonums, rationals, choices, tables)."
  },
  {
   "property": "C62",
   "status": "partial",
   "theorems": [
    "C62_symbol_partial",
    "C62_string_partial",
    "C62_printed_partial",
    "C62_protected",
    "C62_primitive_refuted",
    "C62_rest_refuted"
   ],
   "note": "Proved of kno_parse_slotid: names without blanks and special first characters give symbols in lower case, names with blanks strings, printed OIDs and barred symbols are read back, as is every readable value after a colon or quote. As stated false: the primitive parse-slotid calls kno_parse_arg and gives strings; what follows a value is dropped (refuted)."
  },
  {
   "property": "C63",
   "status": "partial",
   "theorems": [
    "C63_memory_partial",
    "C63_memory_compare_partial",
    "C63_file1_partial",
    "C63_file2_partial",
    "C63_file3_partial",
    "C63_nul_refuted",
    "C63_nan_refuted",
    "C63_complex_refuted",
    "C63_secret_refuted",
    "C63_zero_refuted"
   ],
   "note": "Proved for values without NULs in strings, NaNs and complex numbers; for kno_hash_lisp1 also without secrets and negative zeros. As stated false: strings that differ after a NUL, NaN and any flonum, complex numbers of the same magnitude are equal with different codes; for kno_hash_lisp1 secrets and packets, and the two zeros (refuted). Not covered: tables, numeric vectors, timestamps, UUIDs, regexes, opaque compounds."
  },
  {
   "property": "C64",
   "status": "partial",
   "theorems": [
    "C64_file2_partial",
    "C64_file3_partial",
    "C64_file1_partial",
    "C64_flonum_refuted"
   ],
   "note": "Proved for values whose flonums are below 2^32 in magnitude (kno_hash_lisp2, kno_hash_lisp3), and for values in which no choice has a negative fixnum as element (kno_hash_lisp1). As stated false: larger flonums, infinities and NaN are converted to unsigned int, which is undefined (refuted). Not covered: tables and the types with hash functions of their own; that sorted choices with negative fixnums keep their code under kno_hash_lisp1."
  },
  {
   "property": "C65",
   "status": "partial",
   "theorems": [
    "C65_range_partial",
    "C65_negative_refuted"
   ],
   "note": "Proved for all values but negative fixnums (and quoted choices of one). As stated false: negative fixnums have codes near 2^32 (refuted)."
  },
  {
   "property": "C66",
   "status": "proved",
   "theorems": [
    "C66_fetch",
    "C66_fetchn"
   ],
   "note": "For the driver's code as modelled (offsets read from the file); the values, LISP_EQUAL, the hash function and the dtype codec are parameters with the hypotheses named in the property."
  },
  {
   "property": "C67",
   "status": "proved",
   "theorems": [
    "C67_append",
    "C67_data_appended",
    "C67_before_offsets",
    "C67_between_offsets",
    "C67_rollback",
    "C67_save_changes"
   ],
   "note": "As C66. Single writes of offsets are taken to happen whole."
  },
  {
   "property": "C68",
   "status": "partial",
   "theorems": [
    "C68_keys_partial",
    "C68_sizes_partial",
    "C68_sizes_count_refuted",
    "C68_keys_have_values_refuted",
    "C68_fetchsize_refuted",
    "C68_lock_refuted"
   ],
   "note": "Proved: every key ever saved is listed once, the sizes are upper bounds and 0 only for keys without values. As stated false: keys whose values are all dropped stay listed, sizes count values added twice, fetchsize reads the wrong word (13 for an absent key, 61 for one after a collision), and the lock is not released (refuted)."
  },
  {
   "property": "C69",
   "status": "partial",
   "theorems": [
    "C69_save_ends_partial",
    "C69_add_and_store_refuted",
    "C69_add_and_drop_refuted",
    "C69_fetchn_ends_refuted",
    "C69_drop_ends_refuted",
    "C69_crowd_refuted"
   ],
   "note": "Proved: saves without drops end, with success or an overflow. As stated false: with 259 keys of one hash code in 300 slots one of them is not found and no other can be added; in a full table fetching several keys and dropping do not end; an addition and a store, or an addition and a drop, of one key in one save lose one of the two (refuted)."
  },
  {
   "property": "C70",
   "status": "proved",
   "theorems": [
    "C70_varints"
   ],
   "note": "C02 and C03 with the limit n < 2^63, above which they are refuted."
  },
  {
   "property": "C71",
   "status": "proved",
   "theorems": [
    "C71_flips"
   ],
   "note": "C43 without 64-bit words, for which it is refuted."
  },
  {
   "property": "C72",
   "status": "proved",
   "theorems": [
    "C72_growing_buffers"
   ],
   "note": "C44 with its limits: failing flushes and no-grow buffers are refuted there. Allocation is taken to succeed."
  },
  {
   "property": "C73",
   "status": "proved",
   "theorems": [
    "C73_integers"
   ],
   "note": "C21, C23 and C53 with their hypotheses."
  },
  {
   "property": "C74",
   "status": "proved",
   "theorems": [
    "C74_exact_reals"
   ],
   "note": "C24, C25, C48, C49, C52 and C53 with their hypotheses; sums of many arguments and round are not part of it (C48, C49)."
  },
  {
   "property": "C75",
   "status": "proved",
   "theorems": [
    "C75_complex"
   ],
   "note": "C51 without division."
  },
  {
   "property": "C76",
   "status": "proved",
   "theorems": [
    "C76_digits"
   ],
   "note": "C47 with the bases for which it holds."
  },
  {
   "property": "C77",
   "status": "proved",
   "theorems": [
    "C77_choices"
   ],
   "note": "C07 to C12 with the values and programs for which they hold; what is excluded is refuted there."
  },
  {
   "property": "C78",
   "status": "proved",
   "theorems": [
    "C78_slotmaps"
   ],
   "note": "C14 and C19 with their hypotheses; assocs and key vectors of slotmaps are not part of it (C19)."
  },
  {
   "property": "C79",
   "status": "proved",
   "theorems": [
    "C79_hashtables"
   ],
   "note": "C16 and C19 with their hypotheses."
  },
  {
   "property": "C80",
   "status": "proved",
   "theorems": [
    "C80_schemaps"
   ],
   "note": "C15 with its hypotheses; initial values are given."
  },
  {
   "property": "C81",
   "status": "proved",
   "theorems": [
    "C81_dtypes"
   ],
   "note": "C04 and C05 on storable values."
  },
  {
   "property": "C82",
   "status": "proved",
   "theorems": [
    "C82_xtypes"
   ],
   "note": "C06 on storable values; sound tables are those in which every index leads to its key."
  },
  {
   "property": "C83",
   "status": "proved",
   "theorems": [
    "C83_big_pools"
   ],
   "note": "C29 and C30 together, with their hypotheses (valid changes: no object twice, within the load, values the format can refer to)."
  },
  {
   "property": "C84",
   "status": "proved",
   "theorems": [
    "C84_bloom"
   ],
   "note": "C35 with at least one bit."
  },
  {
   "property": "C85",
   "status": "proved",
   "theorems": [
    "C85_oids"
   ],
   "note": "C26 with at most 65536 blocks."
  },
  {
   "property": "C86",
   "status": "proved",
   "theorems": [
    "C86_sorting"
   ],
   "note": "C37 without key functions and failing comparisons."
  },
  {
   "property": "C87",
   "status": "proved",
   "theorems": [
    "C87_printing"
   ],
   "note": "C38 with what can be read back."
  },
  {
   "property": "C88",
   "status": "proved",
   "theorems": [
    "C88_uris"
   ],
   "note": "C39 on strings without NUL bytes."
  },
  {
   "property": "C89",
   "status": "proved",
   "theorems": [
    "C89_refcounts"
   ],
   "note": "C41 with the limit of references that the word has room for."
  },
  {
   "property": "C90",
   "status": "proved",
   "theorems": [
    "C90_chunk_refs"
   ],
   "note": "C33 with the limits of the formats."
  },
  {
   "property": "C91",
   "status": "proved",
   "theorems": [
    "C91_indexes"
   ],
   "note": "C34 with two classes of histories; mixed ones are refuted there."
  },
  {
   "property": "C92",
   "status": "proved",
   "theorems": [
    "C92_walk"
   ],
   "note": "For a fixed state of the frames and slots that are symbols; walk functions may depend on their data in any way."
  },
  {
   "property": "C93",
   "status": "proved",
   "theorems": [
    "C93_inherit",
    "C93_inheritsp",
    "C93_path"
   ],
   "note": "For a fixed state of the frames, slots that are symbols and one target of kno_pathp."
  },
  {
   "property": "C94",
   "status": "partial",
   "theorems": [
    "C94_getstar_partial",
    "C94_path_partial",
    "C94_agree_partial",
    "C94_path_error_refuted",
    "C94_path_choice_refuted",
    "C94_getstar_refuted",
    "C94_inherit_refuted",
    "C94_inherit_error_refuted",
    "C94_agree_refuted"
   ],
   "note": "As stated false: path? is true when the walk fails (any slotmap root) and false for several targets; get* takes each slot by itself; inherit includes the frames it starts from and turns an error into a value; a test fails on an OID without a pool where a get doesn't. Proved: get* slot by slot, path? of one target and the agreement of get and test when all frames can be fetched (and tested)."
  },
  {
   "property": "C95",
   "status": "partial",
   "theorems": [
    "C95_basis_partial",
    "C95_covers_partial",
    "C95_cycle_refuted",
    "C95_value_refuted"
   ],
   "note": "As stated false: the basis of a cycle is empty, and a lattice value that isn't an OID ends the collection unnoticed. Proved for frames with only OIDs in the lattice slots; that the basis covers the collection if there are no cycles."
  },
  {
   "property": "C96",
   "status": "partial",
   "theorems": [
    "C96_star",
    "C96_plus_partial",
    "C96_plus_refuted"
   ],
   "note": "As stated false for kleene+: roots on cycles are dropped. Proved: kleene* in full; kleene+ when no root is reachable from a root in one or more steps."
  },
  {
   "property": "C97",
   "status": "partial",
   "theorems": [
    "C97_fresh_partial",
    "C97_hit_refuted",
    "C97_test_refuted",
    "C97_progress_refuted",
    "C97_testmethod_refuted"
   ],
   "note": "As stated false: a method that looks at a cached slot gets no dependency on it, one that tests a symbol slot gets one nothing looks up, values computed while another operation is in progress are cached incomplete, and cached tests are never taken out. Proved for get and compute methods that look only at symbol slots and at all of their values, without test methods, for one thread, without effects and errors."
  },
  {
   "property": "C98",
   "status": "proved",
   "theorems": [
    "C98_decache"
   ],
   "note": "For the dependencies the code records (the factoids of frames and slots, and of tests); one thread."
  },
  {
   "property": "C99",
   "status": "partial",
   "theorems": [
    "C99_fetch_partial",
    "C99_fetchn_partial",
    "C99_save_ends_partial",
    "C99_b64_refuted",
    "C99_junk_refuted",
    "C99_sort_refuted",
    "C99_stored_odd_key_refuted"
   ],
   "note": "As stated false: with 64-bit offsets a save reads the references from the wrong places, a block that follows dropped values may go on with uninitialised memory, qsort may put an addition before what is left of the drops, and stored keys with slotids aren't found without a table of slotids. Drops and additions of one save: the additions come last. Proved for 32-bit and 40-bit offsets and saves without these; keys and values with an ideal codec, values as lists, the vectors of codes and the metadata in memory only, numbers not cut to 32 bits, one thread, no errors from reads and writes."
  },
  {
   "property": "C100",
   "status": "partial",
   "theorems": [
    "C100_save_appends_partial",
    "C100_appended_partial",
    "C100_between_references_partial",
    "C100_rollback_partial",
    "C100_two_phase_partial",
    "C100_two_phase_refuted",
    "C100_recover_refuted"
   ],
   "note": "As stated false: the 8 bytes that finish a two-phase commit overwrite data where no vectors follow the references, and recovering applies the damaged file to the saved head instead of the reverse. Proved: appending, old or new values between the references (with the code tables of the save), the saved head as kno_apply_head would apply it; under the limits of C99, writes reach the disk in the order in which they are made."
  },
  {
   "property": "C101",
   "status": "partial",
   "theorems": [
    "C101_keys_partial",
    "C101_sizes_partial",
    "C101_sizes_refuted",
    "C101_keys_have_values_refuted",
    "C101_fetchsize_refuted"
   ],
   "note": "As stated false: keys stay listed and counted when all their values have been dropped, and a key never added counts when one drops from it; values added twice count twice; hashindex_fetchsize takes its numbers from the bytes of the key. Proved: each key once, exactly those that a save has named, their number, sizes as upper bounds, and exact when all values that are added are new; limits of C99, fewer than 2^32 keys."
  },
  {
   "property": "C102",
   "status": "proved",
   "theorems": [
    "C102_template",
    "C102_ends"
   ],
   "note": "kno_eval as an arbitrary function of expression and state; that it doesn't change the template is assumed."
  },
  {
   "property": "C103",
   "status": "partial",
   "theorems": [
    "C103_nested_partial",
    "C103_point_refuted",
    "C103_vector_refuted",
    "C103_quasiquote_refuted",
    "C103_key_refuted",
    "C103_malformed_refuted"
   ],
   "note": "As stated false: at higher levels an unquote behind a point loses its list and a splice into a vector is an error; a quasiquote behind a point is not seen; an abort in a slotmap key is not reported; malformed quasiquotes, and splices in vectors, lose what is too much. Proved for templates without these and without slotmaps and choices."
  },
  {
   "property": "C104",
   "status": "proved",
   "theorems": [
    "C104_constants",
    "C104_never_void",
    "C104_void_refuted"
   ],
   "note": "Choices are lists of distinct elements, slotmaps lists of distinct keys; choices that evaluating gives have neither VOID nor choices as elements. With VOID behind a point the result can be VOID (refuted)."
  },
  {
   "property": "C105",
   "status": "partial",
   "theorems": [
    "C105_text_matcher_partial",
    "C105_text_match_partial",
    "C105_past_limit_refuted",
    "C105_class_past_limit_refuted",
    "C105_plus_empty_refuted",
    "C105_opt_or_nothing_refuted",
    "C105_char_range_refuted",
    "C105_ignore_case_char_refuted",
    "C105_chars_at_end_refuted",
    "C105_symbol_loop_refuted",
    "C105_not_char_refuted"
   ],
   "note": "As stated false: strings and classes match past the limit, + of something empty, OPT is not 'or nothing', CHAR-RANGE when case is ignored, characters when case is ignored, CHARS at the end, NOT of a character, symbols standing for themselves. Proved, with termination, for the whole text and patterns without these; without symbols, the wildcard and GREEDY."
  },
  {
   "property": "C106",
   "status": "partial",
   "theorems": [
    "C106_text_search_partial",
    "C106_search_char_refuted",
    "C106_search_char_never_refuted",
    "C106_search_ignore_case_refuted",
    "C106_search_not_refuted",
    "C106_search_bol_refuted",
    "C106_search_end_refuted",
    "C106_search_and_loops_refuted",
    "C106_search_empty_vector_refuted"
   ],
   "note": "As stated false: ASCII characters are never found; strings when case is ignored; NOT, BOL, EOL, EOS; AND can search forever; empty vectors. Proved, with termination, for the whole text and the other patterns; an empty match at the end need not be found."
  },
  {
   "property": "C107",
   "status": "partial",
   "theorems": [
    "C107_greedy_one_end_partial",
    "C107_greedy_repetition_partial",
    "C107_greedy_finds_match_refuted",
    "C107_greedy_and_refuted"
   ],
   "note": "As stated false: greedy matching can fail where the pattern matches, and greedy AND gives an end which is none. Proved: at most one end, soundness and repetitions, for patterns without symbols, wildcard, NOT, NOT> and AND."
  },
  {
   "property": "C108",
   "status": "partial",
   "theorems": [
    "C108_gather_list_partial",
    "C108_found_unique",
    "C108_subst_partial",
    "C108_subst_limit_refuted"
   ],
   "note": "As stated false: text/subst with a limit writes what is after it. Proved for the whole text and the patterns for which C105 and C106 are proved; replacement by rewriting is not modelled."
  },
  {
   "property": "C109",
   "status": "partial",
   "theorems": [
    "C109_slice_keeps_partial",
    "C109_slice_between_partial",
    "C109_slice_default_refuted"
   ],
   "note": "As stated false: the default keeps separators. Proved otherwise for the whole text and the patterns for which C105 and C106 are proved."
  },
  {
   "property": "C110",
   "status": "partial",
   "theorems": [
    "C110_string_contains_partial",
    "C110_string_starts_with_partial",
    "C110_string_ends_with_partial",
    "C110_ends_with_empty_refuted",
    "C110_lastword_loops_refuted"
   ],
   "note": "As stated false: no text ends with the empty string; lastword with a string as separator does not end. Proved for the patterns for which C105 and C106 are proved, up to empty matches at the end; one string and one pattern at a time."
  },
  {
   "property": "C111",
   "status": "proved",
   "theorems": [
    "C111_capture_unobservable"
   ],
   "note": "For one thread; values are opaque and reference counts are not modelled."
  },
  {
   "property": "C112",
   "status": "partial",
   "theorems": [
    "C112_locals_refuted",
    "C112_do_refuted",
    "C112_letstar_refuted",
    "C112_use_module_refuted",
    "C112_import_lost_refuted"
   ],
   "note": "As stated false: locals after a capture, use-module in a form, do variables without updating expression and repeated let* variables each make a capture visible. Nothing positive is proved for these forms."
  },
  {
   "property": "C113",
   "status": "proved",
   "theorems": [
    "C113_set_then_look",
    "C113_define_then_look",
    "C113_others_kept",
    "C113_push_look",
    "C113_push_lexref",
    "C113_push_pop",
    "C113_capture_look",
    "C113_capture_shared",
    "C113_capture_outlives",
    "C113_import"
   ],
   "note": "For the histories of C111."
  },
  {
   "property": "C114",
   "status": "proved",
   "theorems": [
    "C114_plain_file",
    "C114_any_buffer",
    "C114_read_back"
   ],
   "note": "For seekable unmapped files used by one thread; system calls other than short reads succeed."
  },
  {
   "property": "C115",
   "status": "partial",
   "theorems": [
    "C115_turn_refuted",
    "C115_flush_refuted",
    "C115_setbuf_refuted",
    "C115_endpos_refuted",
    "C115_append_refuted",
    "C115_read_at_refuted",
    "C115_direct_write_refuted",
    "C115_direct_read_refuted",
    "C115_back_refuted",
    "C115_past_end_refuted",
    "C115_start_read_refuted",
    "C115_gap_refuted",
    "C115_block_refuted"
   ],
   "note": "As stated false: thirteen refutations. What holds is C114."
  },
  {
   "property": "C116",
   "status": "proved",
   "theorems": [
    "C116_read_only",
    "C116_only_writes",
    "C116_silent_refuted"
   ],
   "note": "For seekable unmapped files used by one thread. A read-only stream answers kno_write_4bytes_at as if it had written."
  },
  {
   "property": "C117",
   "status": "partial",
   "theorems": [
    "C117_room",
    "C117_stores_partial",
    "C117_write_at_refuted",
    "C117_read_ints_refuted"
   ],
   "note": "As stated false: kno_write_4bytes_at and kno_write_8bytes_at do not test for room and kno_read_ints adds a byte count to a word pointer. Proved for all the other calls. Buffer sizes are positive."
  },
  {
   "property": "C118",
   "status": "proved",
   "theorems": [
    "C118_total",
    "C118_same",
    "C118_name",
    "C118_look",
    "C118_numbers"
   ],
   "note": "For one thread. The builtin symbols are taken as the beginning of the history."
  },
  {
   "property": "C119",
   "status": "partial",
   "theorems": [
    "C119_prefix_refuted",
    "C119_zero_refuted",
    "C119_grow_refuted"
   ],
   "note": "As stated false: a symbol made from part of a text is named like the whole text, names which differ after a zero byte can be the same symbol, and a table with such a name cannot grow within the memory of its names. Nothing positive is proved beyond C118."
  },
  {
   "property": "C120",
   "status": "proved",
   "theorems": [
    "C120_values_as_expected",
    "C120_granted",
    "C120_committed_survives"
   ],
   "note": "For one pool, one thread, without the thread cache; the driver is a map from OIDs to stored values and the contents of a table are one number."
  },
  {
   "property": "C121",
   "status": "partial",
   "theorems": [
    "C121_file_lock_kept",
    "C121_file_unlocked_refuted",
    "C121_named_commit_refuted",
    "C121_shared_table_refuted",
    "C121_aliased_refuted",
    "C121_discard_named_refuted",
    "C121_unlock_refuted",
    "C121_lock_failure_refuted",
    "C121_unlock_reports_refuted",
    "C121_alloc_refuted",
    "C121_touch_refuted",
    "C121_unlock_failure_refuted",
    "C121_no_locks_refuted",
    "C121_no_locks_alloc_refuted"
   ],
   "note": "As stated false in every one of the cases it names: see the refuted theorems. Proved: once taken, the driver's file lock is only given up by an unlock that commits."
  },
  {
   "property": "C122",
   "status": "proved",
   "theorems": [
    "C122_result",
    "C122_reached",
    "C122_limit",
    "C122_callback",
    "C122_no_push"
   ],
   "note": "For the expressions named, with lambdas whose parameters are all required; no assignment, no choices as arguments, no VM opcodes."
  },
  {
   "property": "C123",
   "status": "partial",
   "theorems": [
    "C123_loop_partial",
    "C123_when_refuted",
    "C123_and_refuted",
    "C123_profile_refuted"
   ],
   "note": "As stated false: below WHEN with a compound test, for the last clause of AND, and for lambdas with a profile, frames pile up (refuted theorems). Proved for one lambda calling itself below IF and LET."
  },
  {
   "property": "C124",
   "status": "proved",
   "theorems": [
    "C124_grammar",
    "C124_made",
    "C124_runs",
    "C124_values"
   ],
   "note": "Evaluations of type and default expressions are arbitrary functions of the expression; attribute schemaps are taken to evaluate. Reference counts are not modelled."
  },
  {
   "property": "C125",
   "status": "partial",
   "theorems": [
    "C125_required_partial",
    "C125_lock_partial",
    "C125_optional_first_refuted",
    "C125_lock_refuted",
    "C125_lock_default_refuted",
    "C125_rest_quoted_refuted",
    "C125_local_crash_refuted",
    "C125_local_skips_refuted",
    "C125_define_refuted",
    "C125_names_refuted"
   ],
   "note": "As stated false (refuted theorems): a required parameter after an optional one may be void; a failed type check or default value leaves the lock held; rest arguments stay quoted; (local a) reads past the list and (local a b) skips b; definitions after an attribute table or atom and single definitions are not local; names may repeat or be no symbols. Proved: required parameters when they come first, the lock when the body runs or the number of arguments is refused."
  },
  {
   "property": "C126",
   "status": "proved",
   "theorems": [
    "C126_once",
    "C126_value",
    "C126_stable",
    "C126_settled",
    "C126_progress"
   ],
   "note": "Reads and writes of the promise's fields are taken to be atomic and seen by all threads in one order; the evaluation's outcome is arbitrary. Callbacks, prechoices and futures with other handlers are not modelled."
  },
  {
   "property": "C127",
   "status": "partial",
   "theorems": [
    "C127_alone_partial",
    "C127_concurrent_refuted",
    "C127_again_refuted",
    "C127_self_refuted"
   ],
   "note": "As stated false (refuted theorems): a thread which calls FORCE while another evaluates may get an error although the evaluation succeeds; after a failed evaluation later calls return the exception object as a value; an expression forcing its own promise waits for ever. Proved: without overlapping calls every call returns the value if the evaluation succeeded; if it failed, the first call returns an error and all others the exception object."
  },
  {
   "property": "C128",
   "status": "proved",
   "theorems": [
    "C128_begin",
    "C128_prog1",
    "C128_and",
    "C128_or",
    "C128_tryif",
    "C128_cond",
    "C128_if",
    "C128_case",
    "C128_onbreak",
    "C128_while",
    "C128_until",
    "C128_dotimes",
    "C128_doseq",
    "C128_dolist",
    "C128_forseq",
    "C128_tryif_not",
    "C128_nothing",
    "C128_forseq_kind",
    "C128_tryseq",
    "C128_doiter"
   ],
   "note": "Loops with the counter switched off but the whole named are excluded (C129). The rounds of loops are stated by BEGIN, which has its own theorem. Syntax errors, opcodes, tail calls and assignments to the loop's variables are not modelled."
  },
  {
   "property": "C129",
   "status": "partial",
   "theorems": [
    "C129_counter_off_refuted",
    "C129_dotimes_refuted",
    "C129_begin_refuted",
    "C129_prog1_refuted",
    "C129_or_refuted",
    "C129_if_when_refuted",
    "C129_doiter_refuted",
    "C129_secret_refuted"
   ],
   "note": "As stated false (refuted theorems, one per clause). What the forms do instead is C128."
  },
  {
   "property": "C130",
   "status": "proved",
   "theorems": [
    "C130_dochoices",
    "C130_trychoices",
    "C130_forchoices",
    "C130_try",
    "C130_dosubsets",
    "C130_calls",
    "C130_exists",
    "C130_forall",
    "C130_skiperrs",
    "C130_nothing"
   ],
   "note": "Loops with the counter switched off but the whole named are excluded (C129). What a loop collects is stated by its elements; sorting and merging them is C07 and others. Syntax errors, tail calls, in-process evaluation (ipeval) and assignments to the loop's variables are not modelled."
  },
  {
   "property": "C131",
   "status": "partial",
   "theorems": [
    "C131_dochoices_refuted",
    "C131_dosubsets_refuted",
    "C131_skiperrs_refuted",
    "C131_pickn_refuted",
    "C131_last_refuted",
    "C131_pickn_partial",
    "C131_count_partial"
   ],
   "note": "As stated false (refuted theorems): DO-CHOICES returns the last value; DO-SUBSETS runs the same block for ever after #break or an error; EXISTS/SKIPERRS without a choice among its arguments returns the error; PICK-N copies a negative number of elements if the offset is beyond the end, reads before the choice for offsets from 2^31 on, and never picks the last element without an offset. Proved: PICK-N with an offset within the choice."
  },
  {
   "property": "C132",
   "status": "proved",
   "theorems": [
    "C132_extremes",
    "C132_error",
    "C132_keys",
    "C132_getrange"
   ],
   "note": "Key functions are functions of the element, without effects; comparing objects of one kind other than fixnums and OIDs is taken to be a total preorder on that kind; the elements found are a list."
  },
  {
   "property": "C133",
   "status": "partial",
   "theorems": [
    "C133_mixed_refuted",
    "C133_keys_refuted",
    "C133_getrange_refuted"
   ],
   "note": "As stated false (refuted theorems): a flonum counts as larger than any fixnum; with a choice of key functions one of which fails, the key function is returned; GETRANGE with the greater number first keeps it in an int. C132 has what holds instead."
  }
 ]
}