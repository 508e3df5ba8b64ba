{"id": "C01", "title": "Fixed-width integers survive a write/read trip", "statement": "Writing a 1-, 4- or 8-byte unsigned integer to an output buffer and reading it back from the bytes produced returns the same integer, consumes exactly the bytes written and leaves all following bytes unread.", "quantifier": "every integer in the range of the width, every surrounding byte string", "why_tests_cant": "2^64 values and arbitrary surrounding data; tests sample only a few", "anchors": ["include/kno/bufio.h: kno_write_byte kno_write_4bytes kno_write_8bytes kno_read_byte kno_read_4bytes kno_read_8bytes", "src/lisp/bufio.c"]}
{"id": "C02", "title": "Variable-length integers survive a write/read trip and are never longer than nine bytes", "statement": "kno_write_varint followed by kno_read_varint is the identity on every integer below 2^63, the returned length is the number of bytes produced (1..9), and a longer integer never has a shorter encoding.", "quantifier": "every integer below 2^63, every continuation of the stream (and: what happens at or above 2^63)", "why_tests_cant": "the failing region (bit 63) is far outside anything unit tests use", "anchors": ["include/kno/bufio.h: kno_write_varint kno_read_varint kno_get_varint_size"]}
{"id": "C03", "title": "Truncated input is reported, never misread", "statement": "Reading an integer, a varint or a serialised value from a byte string that is a strict prefix of a complete encoding reports end-of-data (or an error); it never returns a value and never reads outside the buffer.", "quantifier": "every value and every truncation point", "why_tests_cant": "all cut points of all encodings cannot be enumerated", "anchors": ["include/kno/bufio.h: kno_request_bytes kno_read_4bytes kno_read_8bytes kno_read_varint", "src/lisp/dtread.c: kno_read_dtype"]}
{"id": "C04", "title": "Serialised values read back equal", "statement": "kno_read_dtype applied to the output of kno_write_dtype returns an equal value and leaves the rest of the stream untouched (so concatenated values can be read one by one).", "quantifier": "every value built from immediates, fixnums, strings, symbols, packets, OIDs, characters, pairs, vectors, choices, slotmaps, any nesting, any following bytes", "why_tests_cant": "values are unboundedly nested and each size class picks another wire form", "anchors": ["src/lisp/dtwrite.c: kno_write_dtype write_choice_dtype write_slotmap", "src/lisp/dtread.c: kno_read_dtype read_dtypes make_character_type"]}
{"id": "C05", "title": "The length reported by the serialiser is the number of bytes it produced", "statement": "For every value the number returned by kno_write_dtype equals the number of bytes appended to the buffer; drivers compute file offsets from it.", "quantifier": "every value and every buffer state", "why_tests_cant": "one wrong size class corrupts a whole pool file, for sizes tests do not reach", "anchors": ["src/lisp/dtwrite.c: kno_write_dtype", "src/drivers/bigpool.c: bigpool_storen", "src/drivers/filepool.c: file_pool_storen"]}
{"id": "C06", "title": "XTYPE values read back equal, with and without a reference table", "statement": "Reading back what kno_write_xtype produced, using the same reference table, returns an equal value and stops exactly at its end, whether or not symbols and OIDs were replaced by references.", "quantifier": "every value of the supported kinds, every reference table and every history of additions to it", "why_tests_cant": "the table evolves while writing, so histories matter", "anchors": ["src/lisp/xtypes.c: write_xtype read_xtype kno_add_xtype_ref kno_init_xrefs"]}
{"id": "C07", "title": "An accumulated choice is exactly the set of the values added", "statement": "After adding any sequence of values (choices included) to an accumulator and simplifying it, the result contains every added element exactly once and nothing else, in strictly increasing order, and does not depend on the order or grouping of the additions.", "quantifier": "every sequence of additions, every nesting of choices, every internal threshold crossing", "why_tests_cant": "the implementation switches strategy (sorted/muddled/nested/atomic) with history", "anchors": ["include/kno/choices.h: __kno_add_to_choice __kno_prechoice_add", "src/lisp/choices.c: kno_make_prechoice kno_normalize_choice kno_init_choice"]}
{"id": "C08", "title": "Membership in a choice is exact", "statement": "Testing whether a value is in a choice answers yes iff the value is one of its elements.", "quantifier": "every choice of every size, every value", "why_tests_cant": "binary search has size-dependent boundary cases", "anchors": ["src/lisp/choices.c: choice_containsp kno_choice_containsp"]}
{"id": "C09", "title": "Merging choices is set union", "statement": "Merging any number of choices yields exactly the union of their elements, sorted and without duplicates.", "quantifier": "every list of choices", "why_tests_cant": "heap-like scanner merging has many interleavings of heads", "anchors": ["src/lisp/choices.c: merge_choices atomic_scanner_loop scanner_loop shuffle_scanners kno_union"]}
{"id": "C10", "title": "Intersecting choices is set intersection", "statement": "Intersecting values/choices yields exactly the elements common to all arguments (and the empty choice if there are none).", "quantifier": "every list of values, choices and accumulators", "why_tests_cant": "needs every combination of sizes and argument kinds", "anchors": ["src/lisp/choices.c: kno_intersect_choices kno_intersection"]}
{"id": "C11", "title": "Difference of choices is set difference", "statement": "kno_difference(a,b) contains exactly the elements of a that are not in b.", "quantifier": "every pair of values or choices", "why_tests_cant": "gallop window arithmetic depends on the relative order of all elements", "anchors": ["src/lisp/choices.c: compute_choice_difference kno_difference"]}
{"id": "C12", "title": "Overlap and containment tests agree with the set operations", "statement": "kno_overlapp(a,b) is true iff the intersection is not empty; kno_containsp(a,b) is true iff every element of a is in b.", "quantifier": "every pair of values or choices", "why_tests_cant": "infinite family of pairs", "anchors": ["src/lisp/choices.c: kno_overlapp kno_containsp"]}
{"id": "C13", "title": "The internal ordering of values is a total order compatible with equality", "statement": "The comparison used for choices, sorted tables and hash buckets is total, antisymmetric up to equality and transitive, and returns 0 exactly on equal values.", "quantifier": "every pair/triple of values", "why_tests_cant": "transitivity ranges over triples of arbitrary nested values", "anchors": ["include/kno/cons.h: base_compare __kno_cons_compare", "src/lisp/compare.c: lispval_compare", "src/lisp/cons.c: lispval_equal"]}
{"id": "C14", "title": "Slotmaps behave as finite maps from keys to value sets", "statement": "After any history of store/add/drop/delete on a slotmap, get(k) returns what the same history gives on an abstract map, other keys are unaffected, and no key occurs twice; this holds for sorted and unsorted slotmaps.", "quantifier": "every history and every key", "why_tests_cant": "histories are unbounded; the representation changes at size thresholds", "anchors": ["src/lisp/tables.c: kno_keyvals_insert kno_sortvec_insert kno_slotmap_store kno_slotmap_add kno_slotmap_drop kno_slotmap_delete", "include/kno/tables.h: __kno_slotmap_get"]}
{"id": "C15", "title": "Schema tables only ever hold the slots of their schema", "statement": "For a table with a fixed schema, storing/adding to a slot of the schema behaves as a map update; any other slot is refused with an error and nothing changes; lookup in a sorted schema finds exactly the schema's slots.", "quantifier": "every schema, every history", "why_tests_cant": "binary search boundaries depend on schema contents", "anchors": ["src/lisp/tables.c: kno_schemap_store kno_schemap_add kno_schemap_drop kno_sort_schema", "include/kno/tables.h: __kno_get_slotno"]}
{"id": "C16", "title": "Hash tables behave as finite maps under any history, including growth", "statement": "After any history of store/add/drop/remove and automatic resizing, lookup agrees with an abstract map, the key count is exact, and a key stored with the empty value is present and reads as empty rather than as the default.", "quantifier": "every history, every hash collision pattern, every table size", "why_tests_cant": "collisions and resizes depend on the whole history", "anchors": ["src/lisp/tables.c: hashvec_get hashvec_insert hash_bucket_insert kno_hashtable_get kno_hashtable_store kno_hashtable_add kno_hashtable_drop kno_resize_hashtable"]}
{"id": "C17", "title": "Identity-keyed hash tables find the key they were asked for", "statement": "In a hash table keyed by identity, lookup returns the value stored under the very same key and nothing for absent keys.", "quantifier": "every history, every bucket population", "why_tests_cant": "failure needs four or more colliding keys", "anchors": ["src/lisp/tables.c: eq_sortvec_get eq_hashvec_get eq_hash_bucket_insert"]}
{"id": "C18", "title": "Hash sets are sets", "statement": "After any history of adds and drops, membership in a hash set is exact and its element count is the number of distinct members.", "quantifier": "every history", "why_tests_cant": "collision/rehash history dependent", "anchors": ["src/lisp/tables.c: kno_hashset_get kno_hashset_add kno_hashset_mod kno_hashset_drop"]}
{"id": "C19", "title": "Table listings are complete", "statement": "The keys (and key vector, and association list) reported by a table are exactly the keys lookup finds.", "quantifier": "every table state", "why_tests_cant": "needs all states", "anchors": ["src/lisp/tables.c: kno_slotmap_keys kno_slotmap_keyvec kno_schemap_assocs kno_hashtable_keys"]}
{"id": "C20", "title": "Increment and multiply table operations are exact", "statement": "Adding numbers to a table slot through the increment operation leaves the exact sum, promoting to big integers when needed.", "quantifier": "every sequence of integers", "why_tests_cant": "overflow boundaries", "anchors": ["src/lisp/tables.c: do_hashtable_op"]}
{"id": "C21", "title": "Integer arithmetic is exact", "statement": "plus, subtract, multiply on integers return the mathematically exact integer for every magnitude, switching representation as necessary, and each integer has one canonical representation.", "quantifier": "all pairs of integers", "why_tests_cant": "infinite; overflow corners", "anchors": ["src/lisp/numbers.c: kno_plus kno_subtract kno_multiply tobigint simplify_bigint", "include/kno/ptr.h: KNO_INT2LISP"]}
{"id": "C22", "title": "Big-integer digit algorithms are correct", "statement": "The digit-array algorithms for addition, subtraction, multiplication, division and comparison of big integers compute the exact result in normal form.", "quantifier": "all digit arrays", "why_tests_cant": "carry/borrow chains of unbounded length", "anchors": ["src/lisp/numbers.c: bigint_add_unsigned bigint_subtract_unsigned bigint_multiply_unsigned bigint_compare_unsigned"]}
{"id": "C23", "title": "Integer division satisfies the division law", "statement": "quotient and remainder satisfy n = q*d + r with |r|<|d| and r having the sign of n (or being zero); division by zero is an error.", "quantifier": "all pairs of integers", "why_tests_cant": "sign/size corner cases (most negative value)", "anchors": ["src/lisp/numbers.c: kno_quotient kno_remainder kno_divide"]}
{"id": "C24", "title": "Rationals are kept in lowest terms with positive denominator", "statement": "Every rational produced by division or arithmetic is in lowest terms with a positive denominator, integers are never represented as rationals, and its value is exact.", "quantifier": "all integer pairs", "why_tests_cant": "infinite", "anchors": ["src/lisp/numbers.c: make_rational fix_gcd int_gcd kno_divide"]}
{"id": "C25", "title": "Numeric comparison is a total order on exact numbers", "statement": "Comparing exact numbers agrees with the mathematical order.", "quantifier": "all pairs", "why_tests_cant": "subtraction-based comparison may overflow", "anchors": ["src/lisp/numbers.c: kno_numcompare signum"]}
{"id": "C26", "title": "Object identifiers round-trip and are unique", "statement": "Converting a 64-bit address to an object reference and back gives the same address; two addresses give the same reference iff they are equal.", "quantifier": "all addresses, all registration histories", "why_tests_cant": "failure requires more than 65536 distinct regions", "anchors": ["src/lisp/oids.c: kno_make_oid kno_get_oid_base_index find_base_oid add_base_oid_index", "include/kno/ptr.h: KNO_OID_ADDR KNO_CONSTRUCT_OID"]}
{"id": "C27", "title": "Printed object identifiers read back", "statement": "The text printed for an object identifier (@hi/lo), followed by nothing, a blank or a closing bracket, parses to the same identifier and leaves the rest of the text unread; different identifiers have different texts.", "quantifier": "all 64-bit addresses, all continuations of the text (and: what an over-long numeral does to the parser's buffer)", "why_tests_cant": "2^64 inputs; the buffer overflow needs exactly 64 digits", "anchors": ["src/lisp/unparse.c: kno_unparse", "src/lisp/parse.c: parse_oid parse_numeric_oid resolve_numeric_oid"]}
{"id": "C28", "title": "No object identifier is ever allocated twice", "statement": "Under any interleaving of allocation requests in a pool, every returned identifier is distinct from all earlier ones, lies in the pool's range and below its capacity; a request that does not fit is refused and changes nothing.", "quantifier": "all histories and interleavings of allocation requests", "why_tests_cant": "races and exhaustion boundary", "anchors": ["src/drivers/bigpool.c: bigpool_alloc", "src/drivers/filepool.c: file_pool_alloc", "src/drivers/kpool.c: kpool_alloc"]}
{"id": "C29", "title": "Committed values are what a fresh open reads", "statement": "After a successful pool commit, opening the file again and fetching each committed identifier returns the committed value, and every other identifier reads as before.", "quantifier": "every pool contents, every set of changes, every offset format", "why_tests_cant": "depends on all prior file contents and positions", "anchors": ["src/drivers/bigpool.c: bigpool_storen write_offdata direct_write_offdata bigpool_fetch", "include/kno/streams.h: kno_get_chunk_ref kno_convert_KNO_B40_ref"]}
{"id": "C30", "title": "A crash during commit never leaves a mixture", "statement": "If the process stops at any point of a commit, with any subset of the not-yet-synced writes reaching the disk, then reopening the file yields either exactly the state before the commit or exactly the state after it.", "quantifier": "every crash point, every surviving subset of writes, every contents", "why_tests_cant": "crash points x surviving write subsets are not testable", "anchors": ["src/storage/alcor.c: kno_save_head kno_apply_head", "src/storage/drivers.c: kno_write_rollback kno_check_rollback", "src/drivers/bigpool.c: bigpool_commit"]}
{"id": "C31", "title": "Two-phase commit applies exactly the prepared header", "statement": "Applying a prepared commit file yields the new header followed by the untouched data area.", "quantifier": "every header and data area", "why_tests_cant": "corrupts 8 bytes located only relative to header size", "anchors": ["src/drivers/bigpool.c: bigpool_commit", "src/drivers/kpool.c: kpool_commit", "src/storage/alcor.c: apply_head"]}
{"id": "C32", "title": "File-pool commits with a cached offset table keep all data", "statement": "A file-pool commit with an in-memory offset table keeps the data of every object readable.", "quantifier": "every contents", "why_tests_cant": "data loss is at the end of the file, noticed only on reopen", "anchors": ["src/drivers/filepool.c: file_pool_storen"]}
{"id": "C33", "title": "Chunk references survive their on-disk formats", "statement": "Packing an (offset,size) reference into the 32-, 40- or 64-bit table format and reading it back returns the same pair whenever it is in the format's range.", "quantifier": "all offsets and sizes", "why_tests_cant": "large files only", "anchors": ["include/kno/streams.h: kno_get_chunk_ref kno_convert_KNO_B40_ref", "src/storage/streams.c: kno_fetch_chunk_ref"]}
{"id": "C34", "title": "Index lookups combine stored and pending edits correctly", "statement": "For every history of add/drop/store on an index, interleaved with commits, get(k) equals what the same history gives on an abstract map from keys to sets.", "quantifier": "every history including commits", "why_tests_cant": "stored/adds/drops/stores caches interact over histories", "anchors": ["src/storage/indexes.c: kno_index_get kno_index_add kno_index_drop kno_index_store kno_commit_index"]}
{"id": "C35", "title": "Bloom filters have no false negatives", "statement": "Once an element was added to a bloom filter, every later check of it answers yes, whatever else is added.", "quantifier": "all histories, all sizes", "why_tests_cant": "all histories", "anchors": ["src/storage/bloom.c: bloom_check_add test_bit_set_bit kno_bloom_op"]}
{"id": "C36", "title": "Sequence operations obey the list laws", "statement": "slice, position, reverse, append and search on sequences agree with their mathematical definition for every argument within range, and out-of-range arguments are errors.", "quantifier": "all sequences and indices", "why_tests_cant": "index corner cases for all lengths", "anchors": ["src/lisp/sequences.c: kno_slice kno_position kno_search kno_reverse kno_append"]}
{"id": "C37", "title": "Sorting returns an ordered permutation", "statement": "The sorting primitives return a permutation of the input that is ordered by the comparison.", "quantifier": "all vectors", "why_tests_cant": "permutations grow factorially", "anchors": ["src/lisp/compare.c: lispval_sort", "src/lisp/choices.c: cons_sort atomic_sort", "src/lisp/tables.c: kno_sort_schema"]}
{"id": "C38", "title": "Printed strings and symbols read back", "statement": "Parsing the printed form of a string or symbol returns the same string or symbol.", "quantifier": "all byte strings / names", "why_tests_cant": "all characters and escapes in all contexts", "anchors": ["src/lisp/unparse.c", "src/lisp/parse.c"]}
{"id": "C39", "title": "Text encodings round-trip", "statement": "Hex/base64/URI encodings decode to the original bytes.", "quantifier": "all byte strings", "why_tests_cant": "all lengths mod 3 and all bytes", "anchors": ["src/web/uriprims.c", "src/prims/stringprims.c"]}
{"id": "C40", "title": "Applying a function to choices yields the union over all combinations", "statement": "Calling a function on choice arguments calls it exactly once on every combination of elements and returns the union of the results; if any argument is empty the result is empty.", "quantifier": "all functions, all argument counts and choices", "why_tests_cant": "product space", "anchors": ["src/apply/apply.c: ndcall ndcall_loop ndapply1 ndapply2 ndapply3 ndapply4"]}
{"id": "C41", "title": "Reference counts free each object exactly once", "statement": "Under any interleaving of increments and decrements by threads that own their references, the object is freed exactly once, after the last reference is dropped, and never while a reference is held.", "quantifier": "all interleavings", "why_tests_cant": "schedules", "anchors": ["include/kno/cons.h: _kno_incref _kno_decref", "src/lisp/recycle.c: kno_recycle_cons"]}
{"id": "C42", "title": "Constants registered at run time are distinct from the built-in ones", "statement": "Registering named constants yields values distinct from all built-in constants and from each other, and registration never blocks.", "quantifier": "all registration histories", "why_tests_cant": "needs multiple registrations in one process", "anchors": ["src/lisp/cons.c: kno_register_constant", "include/kno/ptr.h"]}
{"id": "C43", "title": "Byte-order flips are involutions", "statement": "The 32- and 64-bit byte swap operations reverse the bytes and applying them twice is the identity.", "quantifier": "all words", "why_tests_cant": "2^64", "anchors": ["include/kno/bufio.h: kno_flip_word kno_flip_word8"]}
{"id": "C44", "title": "Output buffers grow without losing bytes", "statement": "Any sequence of writes to an output buffer leaves exactly the concatenation of the written bytes, never writing outside the allocation.", "quantifier": "all sequences of writes, all initial sizes", "why_tests_cant": "growth boundary depends on history", "anchors": ["src/lisp/bufio.c: grow_output_buffer kno_needs_space _kno_write_bytes", "include/kno/bufio.h"]}
{"id": "C45", "title": "Optional arguments of C primitives are filled in", "statement": "A C primitive called with fewer arguments than its arity receives, for each missing argument, the declared default, or void if there is none.", "quantifier": "all primitives, all argument counts", "why_tests_cant": "the failing cases depend on uninitialised stack", "anchors": ["src/apply/apply_internals.h: cprim_call", "include/kno/lisp.h: kno_lspset", "src/apply/cprims.c"]}
{"id": "C46", "title": "Machine integers convert to and from Lisp integers exactly", "statement": "Converting a machine integer (int, long long, unsigned long) to a Lisp integer keeps its value, and converting a Lisp integer that fits back to a machine integer returns that value; one that does not fit is reported as such.", "quantifier": "all 64-bit machine integers, all Lisp integers", "why_tests_cant": "2^64 inputs; the failing ones are at the edges of the signed and unsigned ranges", "anchors": ["src/lisp/numbers.c: kno_long_long_to_bigint kno_ulong_to_bigint kno_bigint_to_long kno_bigint_fits_in_word_p"]}
{"id": "C47", "title": "Digit streams convert to integers and back exactly", "statement": "For every radix, reading a stream of digits yields the integer that the digits denote, writing an integer yields its digits, and the two are inverse to each other.", "quantifier": "all integers, all radixes", "why_tests_cant": "unbounded lengths", "anchors": ["src/lisp/numbers.c: digit_stream_to_bigint bigint_to_digit_stream"]}
{"id": "C48", "title": "N-ary arithmetic is exact", "statement": "The primitives +, -, *, /, 1+ and -1+ return, for any number of exact rational arguments, the exact sum, difference, product or quotient, in canonical form; a zero divisor is reported as an error.", "quantifier": "all argument lists", "why_tests_cant": "overflow depends on the number and the magnitudes of all arguments", "anchors": ["src/eval/arith.c: plus_lexpr minus_lexpr times_lexpr div_lexpr plus1 minus1"]}
{"id": "C49", "title": "Rounding primitives return the right integer", "statement": "For every exact rational x, floor, ceiling, truncate and round return the greatest integer not above x, the least integer not below x, the nearest integer towards zero, and an integer at distance at most one half.", "quantifier": "all exact rationals", "why_tests_cant": "all numerators, denominators and signs", "anchors": ["src/eval/arith.c: floor_prim ceiling_prim truncate_prim round_prim"]}
{"id": "C50", "title": "Exact powers", "statement": "For an exact v and a fixnum n with 0 <= n < 1000000, (pow v n) is exactly v multiplied n times.", "quantifier": "all exact rationals and all such n", "why_tests_cant": "unbounded base", "anchors": ["src/eval/arith.c: pow_prim"]}
{"id": "C51", "title": "Complex arithmetic is exact", "statement": "Sums, differences, products and quotients of complex numbers with exact parts have exactly the mathematical real and imaginary parts; a result without imaginary part is a real number; division by zero is reported as an error.", "quantifier": "all exact complex numbers", "why_tests_cant": "four unbounded parts", "anchors": ["src/lisp/numbers.c: kno_plus kno_subtract kno_multiply kno_divide make_complex"]}
{"id": "C52", "title": "Comparison primitives agree with the mathematical order", "statement": "<, <=, =, >=, >, != say whether each argument is so related to the next; min and max return one of the arguments that is least or greatest.", "quantifier": "all lists of exact rationals", "why_tests_cant": "unbounded lists and magnitudes", "anchors": ["src/eval/coreops.c: do_compare", "src/eval/arith.c: min_prim max_prim"]}
{"id": "C53", "title": "Integer functions agree with their mathematical definitions", "statement": "modulo has the sign of the divisor and is congruent to the dividend (a zero divisor is an error); gcd and lcm are the greatest common divisor and the least common multiple; odd? and even? tell the parity; abs is the absolute value.", "quantifier": "all integers (abs: all exact rationals)", "why_tests_cant": "unbounded integers", "anchors": ["src/eval/arith.c: modulo_prim oddp evenp abs_prim", "src/lisp/numbers.c: int_gcd int_lcm"]}
{"id": "C54", "title": "Conditional and combining table operations do exactly what they say", "statement": "The table operations default, init, replace, maximize, minimize, increment-if-present and the like change only the given key, decide from its present value as documented (default only fills keys without values, replace only changes keys that are there, maximize and minimize keep the largest or smallest number seen), return 1 when they applied and 0 when their condition failed; push makes a list of the pushed values, last first; the same operation on several keys does it to each of them and reports an error if one failed.", "quantifier": "every table state and history, every key and value", "why_tests_cant": "any interleaving of operations and resizes", "anchors": ["src/lisp/tables.c: do_hashtable_op kno_hashtable_op kno_hashtable_iterkeys"]}
{"id": "C55", "title": "The xtype writer returns the number of bytes it appended", "statement": "kno_write_xtype returns the number of bytes it appended to the buffer, or a negative number if some part of the value has no xtype representation, with and without a reference table.", "quantifier": "every value, every reference table", "why_tests_cant": "unbounded nesting; failures inside containers", "anchors": ["src/lisp/xtypes.c: kno_write_xtype write_xtype write_slotmap write_schemap write_table write_hashset write_compound write_opaque"]}
{"id": "C56", "title": "The xtype validator agrees with the writer and the reader", "statement": "kno_validate_xtype accepts every encoding that kno_write_xtype produced and moves exactly to its end; it refuses every strict prefix of one, and every input for which kno_read_xtype returns an error.", "quantifier": "every value, every reference table, every strict prefix, every input", "why_tests_cant": "unbounded nesting", "anchors": ["src/lisp/xtypes.c: kno_validate_xtype kno_write_xtype kno_read_xtype"]}
{"id": "C57", "title": "Secrets are not shown by sequence operations", "statement": "What the sequence operations (elt, slice, rest, position, rposition, search, reverse, append, remove) return for a secret packet depends on the length of the secret only, except for the bytes of a result that is itself a secret.", "quantifier": "every two secrets of the same length, all other arguments", "why_tests_cant": "a relation between two runs, for all bytes and arguments", "anchors": ["src/lisp/sequences.c: kno_seq_elt kno_slice kno_position kno_rposition kno_search kno_reverse kno_append kno_remove", "src/prims/seqprims.c: rest"]}
{"id": "C58", "title": "A form's query string gives back its parameters", "statement": "For every list of parameter names and values, parsing the query string that form->uristring makes of it gives the same names with the same values in the same order.", "quantifier": "all lists of names and values", "why_tests_cant": "any bytes in names and values, any number of parameters", "anchors": ["src/web/uriprims.c: form_encode_prim add_query_param", "src/web/cgiexec.c: parse_query_string"]}
{"id": "C59", "title": "JSON text gives back the value", "statement": "For values made of strings, integers, booleans, symbols, vectors and tables with such keys, and flags that ->json accepts, jsonparse with the same flags of the text that ->json writes gives the same value and consumes all of the text.", "quantifier": "all such values and all flags", "why_tests_cant": "any characters in strings and keys, any nesting, every combination of flags", "anchors": ["src/web/json.c: jsonstring json_unparse json_escape json_slotval json_parse json_string json_atom json_key json_vector json_table get_json_flags"]}
{"id": "C60", "title": "jsonparse ends on every text and refuses what is not JSON", "statement": "jsonparse returns after finitely many steps for every text and all flags; text which is not a JSON value (an unterminated string, vector or table, a missing colon or comma, anything after the value) gives an error.", "quantifier": "all texts, all flags", "why_tests_cant": "arbitrary malformed text of any length", "anchors": ["src/web/json.c: jsonparseprim json_parse json_string json_atom json_key json_vector json_table skip_whitespace"]}
{"id": "C61", "title": "Arguments written by unparse-arg are read back by parse-arg", "statement": "For every value whose printed form is read back by the reader, and every string, parse-arg of the text that unparse-arg writes for it is that value; text after a value other than blanks makes the argument a string.", "quantifier": "all such values, all strings, all texts after a value", "why_tests_cant": "any characters in strings, any nesting of values", "anchors": ["src/lisp/unparse.c: kno_unparse_arg", "src/lisp/parse.c: kno_parse_arg kno_read_arg", "src/eval/coreops.c: parse_arg_prim unparse_arg_prim"]}
{"id": "C62", "title": "parse-slotid gives symbols and OIDs", "statement": "parse-slotid of a name without blanks that begins with no special character is the symbol of that name in lower case; of the printed form of an OID or of a symbol it is the OID or the symbol; text which is no slot identifier is returned as a string.", "quantifier": "all texts", "why_tests_cant": "any characters, any length", "anchors": ["src/lisp/parse.c: kno_parse_slotid", "src/eval/coreops.c: parse_slotid_prim"]}
{"id": "C63", "title": "Equal values have equal hash codes", "statement": "If LISP_EQUAL says that two values are equal, then kno_hash_lisp gives them the same hash code, and so do kno_hash_lisp1, kno_hash_lisp2 and kno_hash_lisp3, so that a key is looked for in the bucket where an equal key was stored.", "quantifier": "all pairs of values", "why_tests_cant": "a relation between two unbounded values; the failing pairs are rare (NUL bytes, NaN, complex numbers, secrets, zeros)", "anchors": ["src/lisp/tables.c: kno_hash_lisp hash_lisp hash_cons hash_elts mult_hash_bytes", "src/storage/hashdtype.c: kno_hash_lisp1 kno_hash_lisp2 kno_hash_lisp3", "src/lisp/numbers.c: hash_bigint hash_flonum hash_rational hash_complex"]}
{"id": "C64", "title": "Hash codes used in files do not depend on the process", "statement": "kno_hash_lisp1, kno_hash_lisp2 and kno_hash_lisp3 give a value the same code in every process and on every platform: the code does not depend on the numbers that symbols and base OIDs have got, on addresses, or on the order in which a choice keeps its elements.", "quantifier": "all values, all pairs of processes", "why_tests_cant": "a relation between runs of two processes with different symbol tables", "anchors": ["src/storage/hashdtype.c: kno_hash_lisp1 kno_hash_lisp2 kno_hash_lisp3"]}
{"id": "C65", "title": "kno_hash_lisp1 gives 24 bit codes", "statement": "Every code that kno_hash_lisp1 returns is below 2^24.", "quantifier": "all values", "why_tests_cant": "unbounded values; modular arithmetic with signed operands", "anchors": ["src/storage/hashdtype.c: kno_hash_lisp1 hash_lisp1"]}
{"id": "C66", "title": "What a file index gives after any sequence of saves", "statement": "Take a file made by kno_make_fileindex with at least three slots, and any sequence of fileindex_save calls that succeed, each with no key twice, no empty addition and no dropped key that is cached or redundant, the file staying below 4GB and its offsets not cached. Take keys and values that are read back as they were written and on which LISP_EQUAL is an equivalence that the hash function respects. Then fileindex_fetch returns, without duplicates, exactly the values which the sequence of additions, stores and drops gives the key, or it reports FileIndexSizeOverflow, and then the 258 slots it probes are all in use. Fetching several keys gives each the same values, with those of its pending additions.", "quantifier": "all sequences of saves, all keys", "why_tests_cant": "unbounded sequences of saves, with chains of values spread over the file and probe sequences that depend on all earlier saves", "anchors": ["src/drivers/fileindex.c: fileindex_fetch fetchn run_schedule fileindex_save fetch_keydata commit_stores commit_drops write_values write_keys write_offsets"]}
{"id": "C67", "title": "A save of a file index that is interrupted, or rolled back", "statement": "Under the hypotheses of C66: up to the writing of the offsets fileindex_save only appends to the file, and every key is fetched as before; when it is interrupted after any number of offsets, every key has either its old or its new values (or its fetch reports FileIndexSizeOverflow); a save leaves everything in the file but the offsets as it was; and putting back the head and length that were saved before gives the file as it was, byte by byte.", "quantifier": "all sequences of saves, all points of interruption between writes of offsets", "why_tests_cant": "crash points in the middle of a save, for every key and every history", "anchors": ["src/drivers/fileindex.c: fileindex_save write_offsets fileindex_commit", "src/storage/indexes.c: kno_write_rollback"]}
{"id": "C68", "title": "Listing the keys of a file index, and their numbers of values", "statement": "fileindex_fetchkeys lists exactly the keys that have values, each once; fileindex_fetchinfo and fileindex_fetchsize give the numbers of values which fetching the keys gives; afterwards the index can be used as before.", "quantifier": "all sequences of saves, all keys", "why_tests_cant": "the numbers depend on the whole history; the lock that is kept shows with the next call only", "anchors": ["src/drivers/fileindex.c: fileindex_fetchkeys fileindex_fetchinfo fileindex_fetchsize"]}
{"id": "C69", "title": "Saves and fetches of a file index succeed and end", "statement": "While the file index has free slots and the file is below its limit, fileindex_save succeeds with any additions, stores and drops, whichever keys they are for; every key that was saved can be fetched; and saving and fetching several keys come to an end.", "quantifier": "all sequences of saves, all keys", "why_tests_cant": "needs hash codes that collide hundreds of times, full tables, or several edits of one key in a save", "anchors": ["src/drivers/fileindex.c: fileindex_save fetch_keydata fileindex_fetch fetchn run_schedule commit_drops"]}
{"id": "C70", "title": "Varints below 2^63", "statement": "For every n below 2^63, kno_write_varint writes the base-128 digits of n, most significant first, without leading zeros, the high bit set on all bytes but the last; it takes one to nine bytes, returns their number, and no smaller number takes more. kno_read_varint reads n back and leaves what follows; no varint is a prefix of another, and reading one that is cut short reports the end of the data.", "quantifier": "all n < 2^63, all following bytes, all cuts", "why_tests_cant": "2^63 values", "anchors": ["include/kno/bufio.h: kno_write_varint kno_read_varint"]}
{"id": "C71", "title": "Byte order of 16 and 32 bit words", "statement": "kno_flip_word and kno_flip_ushort exchange the order of all bytes, and twice gives the word back.", "quantifier": "all words", "why_tests_cant": "2^32 words", "anchors": ["include/kno/bufio.h: kno_flip_word kno_flip_ushort"]}
{"id": "C72", "title": "Output buffers that may grow", "statement": "For a buffer that may grow (not KNO_BUFIO no-grow), with no flush function or with one whose flushes succeed, any sequence of kno_write_bytes calls succeeds; what was flushed and what is in the buffer together are what was there before followed by all that was written, and the buffer never holds more than its length.", "quantifier": "all buffers, all sequences of writes", "why_tests_cant": "depends on sizes of the buffer and of all writes before", "anchors": ["src/lisp/bufio.c: grow_output_buffer kno_grow_outbuf _kno_write_bytes", "include/kno/bufio.h: kno_write_bytes kno_needs_space"]}
{"id": "C73", "title": "Arithmetic of integers of any size", "statement": "For integers in canonical form (fixnums for what fits, big integers for the rest; the greatest and least fixnum may also be big integers), kno_plus, kno_subtract and kno_multiply give the exact result in such a form; with a divisor that is not zero quotient truncates towards zero, remainder has the sign of the dividend and modulo the sign of the divisor, all three canonical; gcd is the greatest common divisor; even? and odd? are right.", "quantifier": "all integers", "why_tests_cant": "unbounded integers; carries, normalisation and the border of fixnums", "anchors": ["src/lisp/numbers.c: kno_plus kno_subtract kno_multiply kno_quotient kno_remainder int_gcd", "src/eval/arith.c: modulo_prim oddp evenp"]}
{"id": "C74", "title": "Arithmetic of exact reals", "statement": "Expressions of +, -, * and / of integers and rationals of any shape in which no divisor is zero have their exact value; so do * and / of any number of arguments. <, <=, =, >=, >, != of any number of arguments say whether each neighbouring pair is so related, min and max give a least and a greatest argument; floor, ceiling, truncate and abs of reals in lowest terms are those of the value.", "quantifier": "all expressions, all argument lists", "why_tests_cant": "unbounded rationals and expressions", "anchors": ["src/lisp/numbers.c: kno_plus kno_subtract kno_multiply kno_divide kno_numcompare", "src/eval/arith.c: lt lte numeq gte gt numneqp min_prim max_prim times_lexpr div_lexpr floor_prim ceiling_prim truncate_prim abs_prim"]}
{"id": "C75", "title": "Arithmetic of exact complex numbers", "statement": "Sums, differences and products of exact complex numbers (parts in lowest terms) have the real and imaginary parts they should, again in lowest terms, and are real numbers exactly if their imaginary part is zero.", "quantifier": "all exact complex numbers", "why_tests_cant": "unbounded numbers", "anchors": ["src/lisp/numbers.c: kno_plus kno_subtract kno_multiply kno_make_complex"]}
{"id": "C76", "title": "Digits of big integers", "statement": "In every base r with 1 < r < 2^15, bigint_to_digit_stream gives the digits of a big integer without leading zeros, any list of digits is read as the integer it stands for, and reading what was written with the sign of the integer gives it back.", "quantifier": "all big integers, all bases, all lists of digits", "why_tests_cant": "unbounded integers", "anchors": ["src/lisp/numbers.c: bigint_to_digit_stream digit_stream_to_bigint"]}
{"id": "C77", "title": "Choices as finite sets, on exact values", "statement": "Take values that are no choices, hold no NUL bytes in strings, no inexact or complex numbers, and are none of the constants #VOID, NEVERSEEN. Whatever is built from them by adding to choices, normalising, unions, intersections and differences is, once simplified, the canonical form of the set it stands for: equal sets give equal values in whatever order they were built; membership, overlap and (for what is not empty) containment are those of the sets.", "quantifier": "all programs over the choice operations, all block sizes", "why_tests_cant": "unbounded programs; depends on order, sharing and block boundaries", "anchors": ["src/lisp/choices.c", "include/kno/choices.h"]}
{"id": "C78", "title": "Slotmaps as maps, on exact values", "statement": "For keys and values as in C77, after any history of kno_slotmap_store, add, drop, delete, sorting and switching to read-only mode on a new slotmap: all calls succeed or are refused as the map says, kno_slotmap_get gives the set of values of the key or the default, kno_slotmap_test whether it shares a value, kno_slotmap_keys lists exactly the keys that are present; and a further operation changes no other key.", "quantifier": "all histories, all keys", "why_tests_cant": "unbounded histories", "anchors": ["src/lisp/tables.c: kno_slotmap_store kno_slotmap_add kno_slotmap_drop kno_slotmap_delete kno_slotmap_keys kno_sort_slotmap"]}
{"id": "C79", "title": "Hashtables as maps, on exact values", "statement": "For keys and values as in C77, any hash function, and any history of less than 2^28 stores, additions, drops, resizings, resettings and switches to read-only mode on a new hashtable: results are as the map says, kno_hashtable_get, probe, test, keys, values and key vector show exactly the map, the count of keys is right, and a further operation changes no other key.", "quantifier": "all histories, all keys, all hash functions, all sizes and load factors in (0,2]", "why_tests_cant": "unbounded histories; collisions and growth", "anchors": ["src/lisp/tables.c: kno_hashtable_store add_to_hashtable kno_hashtable_drop kno_hashtable_get kno_hashtable_keys kno_resize_hashtable kno_reset_hashtable"]}
{"id": "C80", "title": "Schemaps as maps on their slots", "statement": "For values as in C77, any schema without duplicates (sorted or not), any initial values and any history of stores, additions, drops and switches to read-only mode: get gives the values of a slot of the schema and the default for any other, test whether a value is shared, and stores and additions to other slots are refused without effect.", "quantifier": "all schemas, all histories", "why_tests_cant": "unbounded histories and schemas", "anchors": ["src/lisp/tables.c: kno_schemap_get kno_schemap_store kno_schemap_add kno_schemap_drop kno_schemap_test"]}
{"id": "C81", "title": "Dtypes of storable values", "statement": "For values that dtypes can store (shorter than 2^31 everywhere, choices of exact values in order, compounds whose tags have no restore method), kno_write_dtype returns the number of bytes it writes; kno_read_dtype reads the value back and leaves what follows, one value or a stream of them, whichever flags it was written with; and no storable value is written as another or as a beginning of another with what follows.", "quantifier": "all storable values, all flags, all following bytes", "why_tests_cant": "unbounded nested values", "anchors": ["src/lisp/dtwrite.c: kno_write_dtype", "src/lisp/dtread.c: kno_read_dtype"]}
{"id": "C82", "title": "Xtypes of storable values", "statement": "For values that xtypes can store, written without a table of references, with any table that is sound, or as a sequence with one new table: reading with that table (or one that continues it) gives the values back and leaves what follows.", "quantifier": "all storable values, all tables, all sequences", "why_tests_cant": "unbounded nested values and tables that grow while writing", "anchors": ["src/lisp/xtypes.c: write_xtype read_xtype kno_add_xtype_ref kno_init_xrefs"]}
{"id": "C83", "title": "Big pools: histories of commits, crashes and failures", "statement": "For a big pool whose head is below 4GB, after any history of successful commits every object has the value last committed; another commit gives its values and keeps the others; if it is cut at any point, with any part of the writes since the last sync on disk, the pool when opened again has all the old values or all the new ones; if it fails, the file is as before.", "quantifier": "all histories, all crash points, all subsets of unsynced writes", "why_tests_cant": "crash points and orders of writes", "anchors": ["src/drivers/bigpool.c: bigpool_commit bigpool_storen", "src/storage/drivers.c: kno_write_rollback kno_check_rollback", "src/storage/alcor.c: kno_save_head kno_apply_head"]}
{"id": "C84", "title": "Bloom filters of at least one bit", "statement": "Whatever keys are added in whatever order to a filter of at least one bit: nothing fails; every key that was added is found, alone or among others; a key is found exactly if all its bits were set by keys added; adding a key tells whether it was new and counts it if so; the bits depend only on the set of keys; and a filter written out and read in goes on as the original.", "quantifier": "all filters, all histories, all keys", "why_tests_cant": "unbounded histories", "anchors": ["src/storage/bloom.c: bloom_check_add test_bit_set_bit kno_bloom_op"]}
{"id": "C85", "title": "OIDs of up to 65536 blocks", "statement": "For any sequence of 64-bit addresses in at most 65536 blocks of 2^20, the OID made for each has that address, and two of them are the same value exactly if their addresses are.", "quantifier": "all sequences of addresses", "why_tests_cant": "unbounded sequences", "anchors": ["src/lisp/oids.c: kno_make_oid kno_get_oid_base_index"]}
{"id": "C86", "title": "Sorting", "statement": "With any comparison that is an order on the elements of a vector, sorting gives a permutation of it in ascending order; exact values without NUL bytes in strings are sorted into one and the same vector whatever order they come in.", "quantifier": "all vectors, all orders", "why_tests_cant": "unbounded vectors", "anchors": ["src/lisp/compare.c: lispval_sort"]}
{"id": "C87", "title": "Printing and reading of readable values", "statement": "For strings, fixnums and big integers (other than those from 2^61-1 to 2^63 in size when errno may be stale), characters below 65536, packets not printed in base 64, symbols that are printed between bars or are plain names, OIDs, #t, #f, (), and pairs and vectors of them (not (unquote OID)): kno_unparse's text, followed by anything that ends a token (and for values with OIDs by a blank, a closing bracket or nothing), is read by kno_parser as the value and leaves the rest; no two such values are printed the same.", "quantifier": "all readable values, all following text", "why_tests_cant": "unbounded nested values", "anchors": ["src/lisp/unparse.c", "src/lisp/parse.c"]}
{"id": "C88", "title": "URI encoding of strings", "statement": "For every string without NUL bytes: uridecode of what uriencode gives is the string, whichever characters are to be escaped and in either case; without a list of characters the result has only percent signs and unreserved characters; with one it has no byte above 127, blank, or any of + = & # ;, nor an unescaped character of the list other than hexadecimal digits.", "quantifier": "all strings, all lists of characters", "why_tests_cant": "unbounded strings", "anchors": ["src/web/uriprims.c"]}
{"id": "C89", "title": "Reference counts shared by threads", "statement": "For an object with at most 2^45-2 references at any time, any number of threads that increment, decrement and hand on references in any interleaving of the loads and compare-and-swaps: it is freed at most once, only when nobody holds a reference; nobody touches it after it was freed and no error is raised; and when all threads are done and nobody holds a reference it has been freed.", "quantifier": "all interleavings, all numbers of threads", "why_tests_cant": "interleavings of atomic operations", "anchors": ["include/kno/cons.h: _kno_incref _kno_decref", "src/lisp/recycle.c: kno_recycle_cons"]}
{"id": "C90", "title": "References to chunks in file heads", "statement": "In the 32, 40 and 64 bit formats, for entries and references below the limits of the format: an entry that was written is read by both readers as it was; writing it through memory gives the same file; the other entries stay.", "quantifier": "all files, formats, entries and references below the limits", "why_tests_cant": "2^40 and 2^64 offsets", "anchors": ["include/kno/streams.h: kno_get_chunk_ref kno_convert_KNO_B40_ref", "src/storage/streams.c: kno_fetch_chunk_ref", "src/drivers/bigpool.c: write_offdata"]}
{"id": "C91", "title": "Indexes without stores, or without drops", "statement": "For an index opened with any contents, after any history of additions (kno_index_add), drops, fetches, prefetches, cache level changes and commits without stores; or of additions of both kinds, stores, fetches and commits without drops, prefetches and cache level changes: kno_index_get gives exactly the values which the history gives the key.", "quantifier": "all histories, all keys and values", "why_tests_cant": "unbounded histories with caching", "anchors": ["src/storage/indexes.c: kno_index_get kno_index_add kno_index_drop kno_index_store kno_commit_index"]}
{"id": "C92", "title": "Walks over frames visit what is reachable, once, and end", "statement": "kno_walk_tree, from any roots through any slots that are symbols, ends whatever cycles the frames form; it calls its function only for frames reachable from the roots through OID values of the slots, each at most once; if no call stops it and every frame can be fetched it calls it for all of them; a result of zero means that the last call returned zero or that there was no root, a negative one that the last call failed or that a frame called can't be fetched.", "quantifier": "all graphs of frames, all roots, slots and walk functions", "why_tests_cant": "unbounded graphs with cycles, stops and errors at any point", "anchors": ["src/storage/methods.c: keep_walking kno_walk_tree"]}
{"id": "C93", "title": "Inheritance and paths", "statement": "kno_inherit_values gives exactly the values which the frames reachable through the lattice slots have; kno_inherits_valuep returns 1 exactly if one of them has one of the values asked for, kno_pathp exactly if the target is reachable; errors come only from reachable frames that can't be fetched (or, for kno_inherits_valuep, tested).", "quantifier": "all graphs of frames, all roots, slots and values", "why_tests_cant": "unbounded graphs", "anchors": ["src/storage/methods.c: kno_inherit_values kno_inherits_valuep kno_pathp inherit_values_fn inherits_valuesp_fn pathp_fn"]}
{"id": "C94", "title": "Primitives over lattices of frames", "statement": "get* gives the frames given and all values reachable through the slots; inherit gives the values inherited, path? whether one of the targets is reachable; asking for a value agrees with getting all; frames that can't be fetched are reported as errors.", "quantifier": "all graphs of frames", "why_tests_cant": "unbounded graphs; errors in the middle", "anchors": ["src/prims/dbprims.c: getstar inherit_prim pathp getroots", "src/storage/methods.c: kno_inherits_valuep"]}
{"id": "C95", "title": "Bases of collections of frames", "statement": "get-basis of a collection gives its members that aren't reachable from members in one or more steps through the lattice, and every member is reachable from one of them.", "quantifier": "all graphs of frames, all collections", "why_tests_cant": "unbounded graphs", "anchors": ["src/storage/methods.c: kno_get_basis kno_collect_tree"]}
{"id": "C96", "title": "Closures of slots", "statement": "kno:kleene*-get gives the root and everything reachable from it, kno:kleene+-get everything reachable in one or more steps; both end on cycles and report an error only if an OID that is reached can't be fetched.", "quantifier": "all graphs of values", "why_tests_cant": "unbounded graphs with cycles", "anchors": ["src/storage/methods.c: kleene_get_helper kleene_star_get_method kleene_plus_get_method getter"]}
{"id": "C97", "title": "Cached slot values are never stale", "statement": "After any history of get, test, assert!, retract! and clear-slotcache! on frames whose slots have get, compute and test methods, kno_frame_get and kno_frame_test give what the methods give on the values stored now: what they would give after clearing all caches.", "quantifier": "all slots with methods, all histories, all stored values", "why_tests_cant": "a stale value needs a particular order of queries and changes; the histories are unbounded", "anchors": ["src/storage/frames.c: kno_frame_get kno_frame_test kno_frame_add kno_frame_drop note_dependency record_dependencies kno_decache kno_clear_slotcache kno_clear_slotcaches", "src/eval/tableops.c: kno_fget kno_ftest kno_assert kno_retract"]}
{"id": "C98", "title": "What a change takes out of the caches", "statement": "kno_decache of a frame and slot ends for any recorded dependencies, cyclic ones too; it takes out of the slot and test caches exactly the entries of slots that depend on the slot, directly or through others, with the dependencies recorded on them, and leaves all other entries and the stored values as they were.", "quantifier": "all states of the caches and of the implications table", "why_tests_cant": "dependencies form arbitrary graphs", "anchors": ["src/storage/frames.c: kno_decache decache_implications decache_factoid kno_clear_slotcache_entry kno_clear_testcache_entry"]}
{"id": "C99", "title": "A hash index gives back what was saved", "statement": "After any history of saves (additions, stores, drops) to a hash index, fetching a key, alone or among many, gives each value that was added or stored for it and not dropped since, once, and no others; a save comes to an end and either succeeds or reports an error.", "quantifier": "all keys and values, all histories of saves, all numbers of buckets, all types of offsets, with and without tables of slotids and base OIDs", "why_tests_cant": "the buckets, chains of value blocks and code tables reach unboundedly many layouts", "anchors": ["src/drivers/hashindex.c: hashindex_fetch hashindex_fetchn hashindex_save process_stores process_drops process_adds extend_keybucket update_keybucket update_hashindex_ondisk update_hashindex_metadata"]}
{"id": "C100", "title": "Interrupted saves of a hash index", "statement": "A save of a hash index appends to the file and changes only its header and references: until the references are written all keys keep their values; while they are being written each key has all its old or all its new values; the saved head brings back the file as it was; a two-phase commit gives the file that a plain save gives.", "quantifier": "all histories of saves, all points at which a save is interrupted", "why_tests_cant": "an interruption can happen at each of unboundedly many writes", "anchors": ["src/drivers/hashindex.c: hashindex_save hashindex_commit update_hashindex_ondisk recover_hashindex", "src/storage/alcor.c: kno_save_head kno_apply_head kno_restore_head", "src/storage/drivers.c: kno_write_rollback"]}
{"id": "C101", "title": "Keys and sizes of a hash index", "statement": "After any history of saves, the keys of a hash index are listed once each, they are the keys that have values, their number is the number of keys of the index, and the size given for a key is the number of its values.", "quantifier": "all histories of saves", "why_tests_cant": "depends on all buckets and on unbounded histories", "anchors": ["src/drivers/hashindex.c: hashindex_fetchkeys hashindex_fetchinfo hashindex_fetchsize hashindex_save"]}
{"id": "C102", "title": "Quasiquote fills in templates", "statement": "For a template of constants, lists (also with something behind the point), vectors, unquotes and splices, without a quasiquote inside and with none of the symbols quasiquote, unquote and unquote* as other elements of lists: quasiquote gives the template with each unquote replaced by the value of its expression and each splice by the elements of the list or vector that its expression gives; the expressions are evaluated from left to right, each once; the first that aborts, gives VOID or, for a splice, something else than a proper list or a vector ends it with an abort. For every value whatsoever it comes to an end.", "quantifier": "all templates, all evaluators and states", "why_tests_cant": "templates are arbitrary trees and evaluating has arbitrary effects", "anchors": ["src/eval/quasiquote.c: quasiquote_evalfn kno_quasiquote quasiquote_list quasiquote_vector"]}
{"id": "C103", "title": "Nested quasiquotes", "statement": "The same for templates with quasiquotes inside and for slotmaps: what is unquoted as often as it is quasiquoted is evaluated, everything else (inner quasiquotes with their unquotes and splices) stands for itself; an abort of any expression is reported, and so are malformed quasiquotes, unquotes and splices.", "quantifier": "all templates of any nesting, all evaluators and states", "why_tests_cant": "templates are arbitrary trees", "anchors": ["src/eval/quasiquote.c: kno_quasiquote quasiquote_list quasiquote_vector quasiquote_slotmap"]}
{"id": "C104", "title": "Quasiquote of constants, and VOID", "statement": "kno_quasiquote, at any level, of a value (lists, vectors, choices, slotmaps, any nesting) in which none of its three symbols, VOID or an error occurs gives that value and evaluates nothing; for a value in which VOID does not occur it never gives VOID.", "quantifier": "all values, levels, evaluators and states", "why_tests_cant": "values are arbitrary trees", "anchors": ["src/eval/quasiquote.c: kno_quasiquote quasiquote_list quasiquote_vector quasiquote_choice quasiquote_slotmap"]}
{"id": "C105", "title": "Matching text patterns", "statement": "For a text pattern (strings, characters, choices, vectors, *, +, OPT, NOT, NOT>, AND, CHOICE, PREF, LONGEST, IGNORE-CASE, BOL, EOL, CHARS, ISALNUM and the like) text/matcher at a position of a text comes to an end and gives exactly the ends of the parts of the text, up to the limit, which begin there and match the pattern; text/match? is true just if one of them is the limit.", "quantifier": "all texts, patterns, positions and limits", "why_tests_cant": "patterns are arbitrary trees over arbitrary texts", "anchors": ["src/text/match.c: kno_text_domatch match_sequence match_repeatedly kno_text_matcher kno_text_match"]}
{"id": "C106", "title": "Searching for text patterns", "statement": "kno_text_search comes to an end and gives the first position from the starting one on at which the pattern matches, or says that there is none before the limit.", "quantifier": "all texts, patterns, positions and limits", "why_tests_cant": "patterns are arbitrary trees over arbitrary texts", "anchors": ["src/text/match.c: kno_text_search strsearch slow_search search_not search_and"]}
{"id": "C107", "title": "Greedy matching", "statement": "When matching is greedy there is at most one end, it is the end of a part which matches, a repetition ends where the repeated pattern matches nothing further, and if some part matches, an end is found.", "quantifier": "all texts, patterns and positions", "why_tests_cant": "patterns are arbitrary trees over arbitrary texts", "anchors": ["src/text/match.c: kno_text_domatch match_repeatedly get_longest_match match_greedy match_and"]}
{"id": "C108", "title": "Gathering and replacing matches", "statement": "text/gather/list gives the parts of the text between the position and the limit that match the pattern: always the leftmost not yet passed, as long as possible, without empty ones, in order; text/subst gives the text between the position and the limit with just these replaced by the given string.", "quantifier": "all texts, patterns, positions, limits and replacements", "why_tests_cant": "the number of matches is unbounded", "anchors": ["src/text/texttools.c: textgather2list textsubst"]}
{"id": "C109", "title": "Slicing texts", "statement": "text/slice with separators kept (at the end of the piece before, at the beginning of the piece after or by themselves) gives pieces which put together are the text; with separators left out, which is the default, it gives what lies between the separators.", "quantifier": "all texts, separators, positions and limits", "why_tests_cant": "the number of separators is unbounded", "anchors": ["src/text/texttools.c: textslice interpret_keep_arg"]}
{"id": "C110", "title": "Tests on strings by patterns", "statement": "string-contains?, string-starts-with? and string-ends-with? are true just if some part of the text matches the pattern, some part beginning at the position, some part ending at the limit; lastword comes to an end.", "quantifier": "all texts, patterns and positions", "why_tests_cant": "patterns are arbitrary trees over arbitrary texts", "anchors": ["src/text/texttools.c: string_contains string_starts_with string_ends_with_test lastword_prim"]}
{"id": "C111", "title": "Capturing an environment is not observable", "statement": "A program which enters and leaves forms, captures their environments, makes modules, exports, imports, assigns, defines, looks variables up by name or by address and goes round do loops sees exactly what it would see if every environment were one frame, never copied, that lives as long as something refers to it. The program chooses each step by everything seen before; every do variable has an updating expression, let* and letrec forms have distinct variables, and neither locals nor use-module inside a form is used.", "quantifier": "all programs of any length which choose their steps by what they have seen", "why_tests_cant": "interleavings of captures, assignments and module operations are unbounded", "anchors": ["src/apply/lexenv.c: kno_dynamic_lexenv kno_copy_env", "src/eval/eval_internals.h: symeval eval_lexref reset_env", "src/eval/eval.c: kno_bind_value kno_assign_value", "src/eval/modules.c: kno_make_export_env kno_get_exports use_module_helper"]}
{"id": "C112", "title": "Capturing an environment is not observable, for all forms", "statement": "The same holds for programs which use locals, use-module inside a form, do variables without updating expression and repeated let* variables.", "quantifier": "all programs", "why_tests_cant": "interleavings of captures, assignments and module operations are unbounded", "anchors": ["src/eval/binders.c: locals_evalfn letstar_evalfn do_evalfn", "src/eval/modules.c: use_module_evalfn"]}
{"id": "C113", "title": "Laws of variables", "statement": "After any history as in the first of these properties: a variable which was set or defined has its value when looked up in the same environment, in a captured copy of it and in the environment it was captured from; other variables keep theirs in every environment; a failing assignment changes nothing; entering a form shows the variables of the form and what is outside for the others, by name and by address; leaving it restores everything; captured environments outlive the form; what a module exports and defines later is seen through imports made before, and imports cannot be assigned.", "quantifier": "all such histories, environments, variables and values", "why_tests_cant": "histories are unbounded", "anchors": ["src/eval/eval.c: kno_bind_value kno_assign_value", "src/eval/eval_internals.h: symeval eval_lexref", "src/eval/modules.c: module_export_evalfn kno_make_export_env"]}
{"id": "C114", "title": "A buffered stream is a plain file", "statement": "On a file opened with a buffer of at least eight bytes, however few bytes each system read delivers, any sequence of calls that keeps to the discipline below gets the answers a plain file with a single position would give, closing leaves the file with the plain file's contents, and neither depends on the buffer's size. The discipline: positions never lie beyond the end of the file; turning from reading to writing names the position; nothing is flushed or resized while reading; kno_endpos is not used while reading nor after a direct write extended the file; direct transfers happen with nothing buffered and stay inside the file; a block read in the middle of writing is followed by a turn or a seek before the next transfer; a word is not written at the very position of pending output; kno_read_ints is not used.", "quantifier": "all files, buffer sizes, read sizes and disciplined call sequences", "why_tests_cant": "call sequences, file contents, buffer sizes and short reads are unbounded", "anchors": ["src/lisp/streams.c: kno_fill_stream kno_flush_stream kno_set_direction _kno_setpos _kno_endpos kno_read_block kno_stream_read kno_stream_write kno_write_4bytes_at", "include/kno/streams.h: kno_getpos kno_setpos kno_endpos kno_start_read kno_start_write", "src/lisp/bufio.c: check_output_buffer grow_output_buffer"]}
{"id": "C115", "title": "A buffered stream is a plain file, for every sequence of calls", "statement": "The same for every sequence of calls, disciplined or not.", "quantifier": "all files, buffer sizes, read sizes and call sequences", "why_tests_cant": "call sequences, file contents, buffer sizes and short reads are unbounded", "anchors": ["src/lisp/streams.c: kno_set_direction kno_flush_stream kno_stream_read kno_stream_write kno_read_block", "include/kno/streams.h: kno_endpos kno_start_read"]}
{"id": "C116", "title": "Only writing calls change a stream's file", "statement": "Whatever calls are made in whatever order: a file opened read-only is never changed; and calls other than kno_write_bytes, kno_write_4bytes_at and kno_stream_write (and their variants for other widths) never change what the file will hold once the stream is closed.", "quantifier": "all files, buffer sizes, read sizes and call sequences", "why_tests_cant": "call sequences are unbounded", "anchors": ["src/lisp/streams.c: kno_flush_stream kno_set_direction kno_setbufsize kno_close_stream", "include/kno/streams.h: kno_setpos kno_endpos"]}
{"id": "C117", "title": "Streams store only inside their buffers", "statement": "Whatever calls are made in whatever order, the bytes held in a stream's buffer never exceed the memory allocated for it, and no call stores outside the buffer or the caller's array.", "quantifier": "all files, buffer sizes, read sizes and call sequences", "why_tests_cant": "call sequences, buffer sizes and short reads are unbounded", "anchors": ["src/lisp/streams.c: kno_fill_stream kno_write_4bytes_at kno_write_8bytes_at kno_read_ints", "src/lisp/bufio.c: check_output_buffer grow_output_buffer"]}
{"id": "C118", "title": "Interning names", "statement": "In every history of up to four hundred million calls which intern or look up names without zero bytes, whatever the number of symbols the table was made for, every call returns; two calls of intern give the same symbol exactly when given the same name; a symbol keeps its name for ever; looking a name up finds the symbol exactly when it was interned before; and symbols are numbered without gaps.", "quantifier": "all names, table sizes and histories up to the size where the list of table sizes ends", "why_tests_cant": "histories and names are unbounded, and growing the table moves every entry", "anchors": ["src/lisp/symbols.c: kno_make_symbol probe_symbol grow_symbol_tables init_symbol_tables mult_hash_bytes"]}
{"id": "C119", "title": "Interning parts of texts and names with zero bytes", "statement": "The same holds when a length is passed with a longer text, and for names with zero bytes, such as those read from dtypes.", "quantifier": "all texts, lengths and histories", "why_tests_cant": "histories and names are unbounded", "anchors": ["src/lisp/symbols.c: kno_make_symbol", "src/lisp/dtread.c: kno_read_dtype (dt_symbol)"]}
{"id": "C120", "title": "Values of OIDs through a pool's cache and changes", "statement": "Over a pool that can be locked, whatever is stored and whatever its caching level, in every history of reads, settings, changes of slots, locks that are granted or refused, prefetches, swap-outs, commits that succeed or fail after writing any part, unlocks and allocations, by a program which sets values of its own on allocated OIDs, commits by name only OIDs it has locked, does not read OIDs before allocating them, and a driver which does not fail when setting or unlocking: every operation gives what is expected from the program's own earlier operations; after a successful commit exactly the values seen are stored (of the OIDs named, or of all), a failed commit or a commit of the finished ones leaves each OID stored as it was or as it is seen, discarding brings back what is stored, and a setting or change succeeds when the lock is granted. A pool opened anew after a commit of everything shows the same values.", "quantifier": "all stored contents, caching levels, histories and outcomes of locks and commits", "why_tests_cant": "histories are unbounded, and what is read depends on three tables, bits of shared objects and what a failing commit leaves", "anchors": ["src/storage/pools.c: kno_pool_get kno_pool_lock kno_pool_unlock set_oid_value kno_locked_oid_value kno_pool_swapout kno_pool_prefetch kno_pool_alloc pool_docommit finish_commit abort_commit pick_modified pick_writes", "src/storage/oidstore.c: edit_oid_value"]}
{"id": "C121", "title": "Values of OIDs when the program or the driver is not so orderly", "statement": "The same holds without those conditions: for pools without locks, drivers whose lock or unlock fails, commits of OIDs which are not locked, tables stored for two OIDs or changed after an unlock, OIDs read before they are allocated, unlocking named OIDs; and when nothing is changed or locked any more the driver's file is not locked.", "quantifier": "all stored contents, pools, histories and outcomes", "why_tests_cant": "histories are unbounded", "anchors": ["src/storage/pools.c: kno_pool_unlock pick_writes set_oid_value finish_commit kno_pool_alloc", "src/drivers/bigpool.c: bigpool_lock bigpool_unlock bigpool_storen"]}
{"id": "C122", "title": "Tail calls do not change results", "statement": "Evaluating an expression with reused lambda frames gives what the expression means: for every expression made of constants, variables, lambdas, IF, WHEN, AND, BEGIN, LET, macro calls and applications of lambdas and primitives (which may call back), in every environment, on every stack of frames, with every limit on tail calls, the evaluator returns a value or an error exactly when direct evaluation does and the same one; it never returns the tail-call mark to whoever wants a value, never writes more variables into a frame than it has room for, and leaves the frames below as they were. A call in tail position of a lambda which fits an enclosing frame pushes none.", "quantifier": "all expressions, environments, primitives, stacks of frames and limits", "why_tests_cant": "programs and the depth of frames are unbounded, and whether a frame may be reused depends on bits which each evaluator sets and clears on its way", "anchors": ["src/eval/lambda.c: lambda_call lambda_setup", "src/eval/eval.c: lisp_eval eval_apply call_evalfn macro_eval get_evalop", "src/eval/eval_internals.h: eval_body doeval", "src/eval/vm.c: eval_args", "src/eval/conditionals.c: if_evalfn when_evalfn and_evalfn", "src/eval/binders.c: let_evalfn", "src/apply/apply.c: kno_dcall"]}
{"id": "C123", "title": "Calls in tail position take no stack", "statement": "A lambda which calls itself in the last expression of its body, or where the value of that is the value of the body (below IF, WHEN, UNLESS, CASE, AND, OR, LET, BEGIN), takes the same number of frames however often it does so.", "quantifier": "all numbers of rounds", "why_tests_cant": "the number of rounds is unbounded", "anchors": ["src/eval/lambda.c: lambda_call", "src/eval/conditionals.c: when_evalfn unless_evalfn case_evalfn and_evalfn or_evalfn"]}
{"id": "C124", "title": "Parameters, arguments and locals of lambdas", "statement": "An argument list is accepted exactly if it is a list of symbols and of lists of one to three elements whose type expressions evaluate, ending in the empty list or a symbol. The variables of a lambda whose body has no local forms are its parameters, its rest parameter and the names of the body's leading definitions. A call of a lambda whose required parameters come first runs the body exactly if there are at least as many arguments as required parameters, no more than parameters unless there is a rest parameter, the lambda's lock is free if it is synchronized, and every parameter has a value of its type. Then each parameter has the value its argument gives it (taken out of its quotes if a quoted choice), or its default expression evaluated in the lambda's own environment if the argument is missing, void or #default; the rest parameter is the list of the other arguments; locals are unbound; no other name is bound.", "quantifier": "all parameter lists, bodies, arguments, default values, types and evaluations of these", "why_tests_cant": "the numbers of parameters, arguments and body forms are unbounded, and positions of parameters, defaults, types, rest and locals are kept in parallel arrays", "anchors": ["src/eval/lambda.c: _make_lambda scan_body kno_set_lambda_schema lambda_setup get_rest_arg", "src/eval/eval.c: check_fcn_arity kno_get_arg", "src/eval/eval_internals.h: _pop_arg eval_arg"]}
{"id": "C125", "title": "Every parameter and definition has its place", "statement": "In every lambda a required parameter has the value of its argument; a failing call leaves a synchronized lambda's lock free; quoted choices are taken out of their quotes for every parameter; every definition or local declaration in a body makes its name local; names of parameters are distinct symbols.", "quantifier": "all lambdas and calls", "why_tests_cant": "combinations of parameters and histories of calls are unbounded", "anchors": ["src/eval/lambda.c: _make_lambda scan_body lambda_setup"]}
{"id": "C126", "title": "Promises are evaluated once", "statement": "However many threads FORCE a promise made by DELAY, however their steps interleave, and even if the delayed expression forces the promise itself: the expression is evaluated at most once; a call of FORCE returns only after the evaluation has ended, and returns its outcome or an error, never a default or nothing, so that all values returned are the same; once final, the promise keeps its value, and later calls return it in two steps without waiting for the lock; and as long as the expression does not force its own promise, some thread in FORCE can always make a step.", "quantifier": "all interleavings of the steps of any number of threads, all outcomes", "why_tests_cant": "interleavings and numbers of threads are unbounded, and tests see few of them", "anchors": ["src/eval/promises.c: delay_evalfn force_eval_promise force_prim", "src/apply/futures.c: kno_force_future kno_change_future"]}
{"id": "C127", "title": "FORCE returns what the evaluation gave", "statement": "FORCE returns the value if the evaluation succeeded and an error if it failed, whichever thread calls it and whenever, and it returns.", "quantifier": "all interleavings of the steps of any number of threads, all outcomes", "why_tests_cant": "interleavings and numbers of threads are unbounded", "anchors": ["src/eval/promises.c: force_eval_promise", "src/apply/futures.c: kno_force_future kno_change_future"]}
{"id": "C128", "title": "Control forms evaluate what they should", "statement": "IF, WHEN, UNLESS, TRYIF, COND, CASE, AND, OR, BEGIN, PROG1, ONBREAK, WHILE, UNTIL, DOTIMES with limits below 2^31, DOSEQ, DOLIST, FORSEQ, TRYSEQ and DOITER evaluate exactly the forms they should, in order, each in the state the one before left, stop at the first value which decides or aborts, evaluate nothing after it, bind the element, its number and the whole, and return the value of the deciding form, of the last form, of the rounds, or void; WHILE, UNTIL and DOITER end exactly if some round ends them.", "quantifier": "all forms with any effects and values, all states, all sequences and numbers of rounds", "why_tests_cant": "forms, effects and numbers of rounds are unbounded", "anchors": ["src/eval/conditionals.c: if_evalfn tryif_evalfn cond_evalfn case_evalfn when_evalfn unless_evalfn and_evalfn or_evalfn", "src/eval/iterators.c: while_evalfn until_evalfn dotimes_evalfn doseq_evalfn forseq_evalfn tryseq_evalfn dolist_evalfn doiter_evalfn begin_evalfn onbreak_evalfn prog1_evalfn", "src/eval/eval_internals.h: eval_body testeval init_iter_env"]}
{"id": "C129", "title": "Control forms do what their documentation says", "statement": "DOTIMES runs its body for every accepted limit as often as the limit says; DOITER and DOSEQ return the error when getting an element fails; a counter switched off is not bound; IF returns void when its test returns {}, WHEN and UNLESS return void, OR returns {} as soon as a clause does, BEGIN returns void on #break, and PROG1 its saved value.", "quantifier": "all forms, limits, iterators and sequences", "why_tests_cant": "forms, effects and numbers of rounds are unbounded", "anchors": ["src/eval/conditionals.c: if_evalfn when_evalfn or_evalfn", "src/eval/iterators.c: dotimes_evalfn doseq_evalfn doiter_evalfn begin_evalfn prog1_evalfn", "src/eval/eval_internals.h: init_iter_env"]}
{"id": "C130", "title": "Loops over choices, EXISTS and FORALL", "statement": "DO-CHOICES, TRY-CHOICES, FOR-CHOICES and FILTER-CHOICES run their bodies once for each element, with the element, its number and the whole bound, up to the first round which decides or aborts, and return the value of the last round, the first value which is not {}, the elements of all values, or the elements whose rounds gave neither #f nor {}; TRY returns the first value which is not {}; DO-SUBSETS cuts the choice into blocks of the given size which together are the choice, and ends after running all if none aborts; EXISTS and FORALL make the calls of each function with each choice of arguments in order up to the first which decides, and return accordingly; FORALL/SKIPERRS, and EXISTS/SKIPERRS with a choice among its arguments, pass over calls which fail.", "quantifier": "all forms and functions with any effects and values, all choices, numbers of arguments and states", "why_tests_cant": "forms, effects, choices and numbers of arguments are unbounded", "anchors": ["src/eval/choiceops.c: dochoices_evalfn trychoices_evalfn forchoices_evalfn filterchoices_evalfn try_evalfn dosubsets_evalfn test_exists exists_helper test_forall forall_helper"]}
{"id": "C131", "title": "Choice operations do what is said or meant", "statement": "DO-CHOICES returns void; DO-SUBSETS ends when a round returns #break or fails; EXISTS/SKIPERRS passes over calls which fail; PICK-N takes the given number of elements from the offset on, only elements of the choice, and may pick any element when no offset is given.", "quantifier": "all forms, functions, choices, counts and offsets", "why_tests_cant": "forms, effects and choices are unbounded", "anchors": ["src/eval/choiceops.c: dochoices_evalfn dosubsets_evalfn test_exists exists_helper pickn"]}
{"id": "C132", "title": "LARGEST and SMALLEST", "statement": "LARGEST returns exactly the elements which have a key such that no element has a greater one, SMALLEST those such that none has a smaller one, keys being ordered by the kind of object and then by value; elements whose key is {} do not count; the first element whose key is void or fails makes both return that error; LARGEST with a choice of key functions, none of which fails, returns the elements which are largest by one of them; GETRANGE returns the numbers from the smaller to before the greater if the first is the smaller or an int.", "quantifier": "all choices, keys and numbers", "why_tests_cant": "choices, key functions and numbers are unbounded", "anchors": ["src/eval/choiceops.c: compare_lisp smallest_prim largest_prim getrange_prim"]}
{"id": "C133", "title": "LARGEST and SMALLEST compare numbers by value", "statement": "LARGEST and SMALLEST compare numbers by their values, return the error if a key function fails, and GETRANGE works for all fixnums in either order.", "quantifier": "all choices, keys and numbers", "why_tests_cant": "choices, key functions and numbers are unbounded", "anchors": ["src/eval/choiceops.c: compare_lisp smallest_prim largest_prim getrange_prim"]}
