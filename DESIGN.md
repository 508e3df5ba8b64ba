# Design: a Rocq model of the Kno runtime core

Source: `/repo` (beingmeta/kno, C).  Nothing in `/repo` is built, run or changed.
Proof assistant: Coq 8.16.1, standard library only.

## 1. Trusted base

* Coq's kernel (and `coqchk`).
* The `Print Assumptions` output below every property theorem (files
  `*Props.v`).  Section 5 lists the result per theorem file.
* The reading of the C code.  Every model definition cites file and lines and
  states its simplifications.  Nothing ties model to code except this reading.
* The C abstract machine as assumed by the model: 64-bit little-endian
  platform, `long long` 64 bits, `int` 32 bits, two's complement, memory
  allocation succeeds, `memcpy/memcmp/qsort/mmap` behave as specified by POSIX.
  Undefined behaviour (out-of-bounds access, division by zero, signed overflow)
  is an explicit outcome (`None`/`UB`) where the modelled function can reach it.

## 2. Layout

`rocq/theories/`: for each module `X`:
`XModel.v` (definitions only, each with a `/repo` citation), `XProofs.v`
(lemmas), `XProps.v` (specifications, the property theorems, examples that meet
their hypotheses, `Print Assumptions`).

| module | models | properties | state |
|---|---|---|---|
| Bytes | include/kno/bufio.h, src/lisp/bufio.c | C01 C02 C03 C43 C44 | done |
| Value | include/kno/cons.h, src/lisp/compare.c, cons.c | C13 | done |
| Sort | src/lisp/compare.c, choices.c (sorting) | C37 | done |
| Choices | include/kno/choices.h, src/lisp/choices.c | C07..C12 | done |
| Slotmap, TableProofs, Schemap | include/kno/tables.h, src/lisp/tables.c | C14 C15 C19 | done |
| Hashtable | src/lisp/tables.c | C16 C19 | done |
| Hashset | src/lisp/tables.c | C18 C19 | done |
| Oids | src/lisp/oids.c, include/kno/ptr.h | C26 C27 | done |
| Alloc, File, Chunk, Pool, FilePool | src/drivers/{bigpool,kpool,filepool}.c, src/storage/{alcor,drivers,pools}.c | C28..C33 | done |
| Bloom | src/storage/bloom.c | C35 | done |
| Apply | src/apply/apply.c | C40 C45 | done |
| Refs | include/kno/cons.h, src/lisp/recycle.c | C41 | done |
| Consts | src/lisp/cons.c | C42 | done |
| Eqhash (identity-keyed tables) | src/lisp/tables.c | C17 | done |
| Dtype | src/lisp/dtwrite.c, dtread.c, numbers.c (bigint and flonum packets) | C03 C04 C05 | done; 16-bit strings, numeric vectors, hashtables and hashsets are not read |
| Xtype | src/lisp/xtypes.c, numbers.c (write_bigint_xtype, restore_bigint) | C03 C06 C55 C56 | done; hashtables are written but not read; no timestamps, UUIDs, compression, dump and restore functions |
| Bigint | src/lisp/numbers.c (digit arrays) | C22 C46 C47 | done |
| Numbers, Arith | src/lisp/numbers.c, src/eval/arith.c, coreops.c | C21 C23 C24 C25 C48..C53 | done, exact numbers only |
| Hashop (increment, maximize, default, ... on tables) | src/lisp/tables.c | C20 C54 | done, exact numbers, hashtables |
| Index | src/storage/indexes.c, include/kno/indexes.h, src/drivers/logindex.c | C34 | done for the log driver, one thread |
| Seq | src/lisp/sequences.c:37-1030 (elements, slices, positions, searching, making, reversing, appending, removing), src/prims/seqprims.c: range checks, slice, position, rposition, search, rest, match? | C36 C57 | done; sequence types registered by other modules not modelled; strings are lists of characters (libu8 trusted); equality and overlap are arbitrary functions |
| Text, Uri | src/web/uriprims.c, src/web/cgiexec.c (query strings) | C39 C58 | done; base 64 is in libu8 |
| Print | src/lisp/unparse.c, parse.c, numbers.c (reading integers) | C38 C39 | done for strings, symbols, integers, packets, characters, booleans, OIDs, lists, vectors; libu8's character functions are parameters |
| Json | src/web/json.c | C59 C60 | done for strings, fixnums, booleans, symbols, vectors, choices, pairs, tables; no flonums, OIDs, times, field maps, KNO_JSON_ANYKEY |
| Arg | src/lisp/unparse.c (kno_unparse_arg), parse.c (kno_read_arg, kno_parse_arg, kno_parse_slotid), src/eval/coreops.c | C61 C62 | done over the reader's model |
| Hash | include/kno/hash.h, src/lisp/tables.c (kno_hash_lisp), src/storage/hashdtype.c, src/lisp/numbers.c (hash functions of numbers) | C63 C64 C65 | done over ValueModel's values |
| FileIndex | src/drivers/fileindex.c (fetch, fetchsize, fetchkeys, fetchinfo, fetchn, save, rollback of the head, creation) | C66 C67 C68 C69 | done for uncached offsets; values, equality, hash and codec are parameters; no metadata, slotids, mmap |
| Walk | src/storage/methods.c (keep_walking, kno_walk_tree, kno_collect_tree, kno_get_basis, kno_inherit_values, kno_inherits_valuep, kno_pathp, kleene methods), src/prims/dbprims.c (get*, inherit, path?) | C92 C93 C94 C95 C96 | done for a fixed state of the frames and slots that are symbols; hash sets are lists, choices are lists in any order; no adjuncts |
| Frames | src/storage/frames.c (kno_frame_get, kno_frame_test, kno_frame_add, kno_frame_drop, kno_decache, dependencies, slot and test caches), src/eval/tableops.c (get, test, assert!, retract! of one frame and slot) | C97 C98 | done for one thread, methods without side effects and errors, no add or drop effects, no ipeval |
| HashIndex | src/drivers/hashindex.c (fetch, fetchn, fetchsize, fetchkeys, fetchinfo, save, two-phase commit, recover, making a file), src/storage/alcor.c (saved heads), src/storage/drivers.c (codes of slotids and base OIDs) | C99 C100 C101 | done for one thread, an ideal codec, code vectors and metadata in memory; getstats, histograms, control operations and mmap not modelled |
| Quasiquote | src/eval/quasiquote.c | C102 C103 C104 | done; kno_eval is a parameter |
| TextMatch, TextTools | src/text/match.c: kno_text_domatch, kno_text_search and most operators, without bindings, extraction and the remaining flags; src/text/texttools.c: text/gather/list, text/subst with a string, text/slice, string-contains? and the like | C105..C110 | done; texts are lists of characters, positions numbers of characters |
| Env | src/apply/lexenv.c; src/eval/eval_internals.h: symeval, eval_lexref, init_static_env, reset_env; src/eval/eval.c: kno_bind_value, kno_assign_value; src/eval/binders.c: set!, locals, let, let*, letrec, do; src/eval/modules.c: kno_make_env, kno_make_export_env, kno_get_exports, module-export!, use-module | C111..C113 | done; values are opaque, frames are never freed except by popping, one thread |
| Stream | src/lisp/streams.c: opening, kno_fill_stream, kno_flush_stream, kno_set_direction, positions, block, direct and positioned transfers, kno_setbufsize, closing; include/kno/streams.h (inline versions); src/lisp/bufio.c and include/kno/bufio.h: growing and flushing output, requesting and reading input | C114..C117 | done; not modelled: mmapped streams, sockets and consoles, locks, failing system calls (short reads are modelled), compressed blocks |
| Symbol | src/lisp/symbols.c: the table, growing, interning, probing; include/kno/ptr.h: KNO_SYMBOL_NAME | C118 C119 | done; not modelled: kno_getsym and kno_fixcase_symbol (libu8's character functions), threads |
| PoolCache | src/storage/pools.c: getting, setting, locking, unlocking, swapping out, prefetching, committing; src/storage/oidstore.c: edit_oid_value; src/prims/dbprims.c: SET-OID-VALUE!, LOCKED?; what src/drivers/bigpool.c does with the values | C120 C121 | done; not modelled: the thread cache, ipeval, adjuncts, metadata, several pools, use_commits, threads |
| Tail | src/eval/lambda.c: lambda_call, the frame part of lambda_setup; src/eval/eval.c: lisp_eval, eval_apply, call_evalfn, macro_eval; eval_internals.h: eval_body; vm.c: eval_args; conditionals.c: IF, WHEN, AND; binders.c: LET; iterators.c: BEGIN | C122 C123 | done; not modelled: optional and rest parameters, types, assignment, choices, VM opcodes, synchronized lambdas' locks |
| Lambda | src/eval/lambda.c: _make_lambda, scan_body, kno_set_lambda_schema, lambda_setup (arguments and lock), get_rest_arg; src/eval/eval.c: check_fcn_arity; eval_internals.h: _pop_arg, eval_arg | C124 C125 | done; not modelled: reference counts, documentation text, choiceop flags, frames (Tail), searching environments (Env) |
| Future | src/eval/promises.c: delay_evalfn, force_eval_promise, force_prim; src/apply/futures.c: kno_force_future, kno_change_future | C126 C127 | done; threads' single steps interleaved, sequentially consistent; not modelled: reference counts, callbacks, prechoices, other handlers |
| Control | src/eval/conditionals.c: all but NOT; src/eval/iterators.c: WHILE to DOITER, BEGIN, ONBREAK, PROG1; src/eval/eval_internals.h: eval_body, testeval, init_iter_env; src/lisp/sequences.c: kno_makeseq | C128 C129 | done; forms with arbitrary effects; not modelled: syntax errors, opcodes, tail calls, assignments to loop variables |
| ChoiceCtl | src/eval/choiceops.c: DO-CHOICES, TRY-CHOICES, FOR-CHOICES, FILTER-CHOICES, TRY, DO-SUBSETS, EXISTS, FORALL and their SKIPERRS variants, PICK-N | C130 C131 | done; forms and functions with arbitrary effects; not modelled: ipeval, sampling, sorting, reduction, type filters |
| Extreme | src/eval/choiceops.c: compare_lisp, smallest_prim, largest_prim, getrange_prim | C132 C133 | done; not modelled: keyfn_get, KNO_FULL_COMPARE within one type (a rank), SMALLEST with a choice of keys, type errors of GETRANGE |
| Scoped, ScopedCodec | no code of their own: C77-C80 and C81-C82 from the theorems of Choices, Slotmap, Hashtable, Schemap, Dtype, Xtype | C77..C82 | done |

## 3. Plan per property

* C01, C43: executable model of the byte macros over `N`; round trip by
  arithmetic (div/mod); the 64-bit flip macro is modelled bit for bit.
* C02: the writer's threshold cascade and the reader's loop with 64-bit
  wrap-around; round trip for n < 2^63, refutation at n = 2^63.
* C03: reader on any strict prefix returns "end of data"; by induction on the
  value for the dtype reader.
* C04, C05: values as an inductive type, writer as structural recursion,
  reader as fuelled recursion; induction on values with explicit size
  preconditions (32-bit lengths).
* C06: same for xtypes with the reference table threaded through both sides.
* C07..C12: choices as arrays of elements with an arbitrary total order
  (instantiated with the compare model); accumulate / normalise / merge /
  search algorithms as in the code; compared with set membership and the
  uniqueness of strictly sorted lists.
* C13: comparison function modelled on the inductive value type, total-order
  laws by induction.
* C14..C20: association arrays and bucket vectors modelled as in the code,
  refinement to an abstract function `key -> option values`, for all histories.
* C21..C25: 64-bit fixnum path with overflow checks, digit-array bigints.
* C26, C27: base table with linear probing, pointer bit layout; @hi/lo text.
* C28: allocation as a labelled transition system over threads.
* C29, C33: file as byte list, commit as sequence of positional writes.
* C30..C32: file-system state machine with pending writes, arbitrary surviving
  subset at crash, recovery function.
* C34: index caches (adds/drops/stores) as maps, commit, lookup; refinement.
* C35: bit vector model with arbitrary hash functions.
* C36, C37: list algorithms.
* C57: two runs with secrets of one length compared.
* C38, C39: codecs on byte/character lists; nested values by induction on the depth, for any text after the value.
* C58: the encoded form is a joined list of percent-encoded parts; the query parser splits it again.
* C59: json_parse on the text of a value, by induction on the value, for any text that may follow; tables up to the order in which their entries are written.
* C60: every value read is shorter than what was left, unless it begins with a character that begins no value.
* C61, C62: the reader theorem of C38, applied after the first character; strings by cases of their first character.
* C63..C65: hash functions by recursion on ValueModel's values; one relation between values
  (equal, or alike in two processes) and an induction that carries the loop over the cells of a list.
* C66..C69: the file as head, slots and data; an invariant (every slot in use leads to an entry with a chain of
  values, and its key was probed past slots of other keys only) kept by every save; phases of a save one by one.
* C70..C91: properties of the same code as C02-C49 in which the limits found there are hypotheses, so that a
  theorem can cover each in full; proved from the theorems of those properties (ScopedProps.v, ScopedCodecProps.v and
  the ends of the Props files).
* C92..C96: depth-first walks with a record of the order of calls; what is new is reachable and closed under steps,
  by induction on the depth; the number of frames bounds the depth; the functions on top replay the calls.
* C97, C98: decaching as a depth-first walk that takes implications out before it follows them; the invariant
  of histories is that what is cached is what the methods give and that each slot they looked at implies it.
* C40: nested loop over choices against the cartesian product.
* C41: interleaving semantics with atomic decrement, invariant on counts.
* C42: counter model; expected refutation.
* C44: buffer with capacity; every write sequence.
* C46, C47: digit arrays against Z; the streams by induction on the digits.
* C54: one step of each operation against the abstract map of C16; totals by induction over the history.
* C55, C56: induction over values with the writer's bytes, the number returned and the table as one specification.
* C48..C53: primitives composed from the exact operations of C21..C25, compared with Z and Q.
* C99, C100, C101: an invariant between a file and a map from keys to lists of values (each bucket's bytes hold its
  keys, each key's chain of blocks its values); each step of a save (drops, stores, additions, merging by bucket, writing
  blocks, buckets and references) keeps it for the keys that it is done with.
* C102, C103, C104: a language of templates with its written form and its meaning; kno_quasiquote of the written form
  is the meaning, by mutual induction on templates and items.
* C105, C106: `ends`, a relation given by recursion on patterns; matcher and searcher compute it, by induction on patterns
  with the fuel needed as a function of pattern and text. C107: `loose`, by induction on fuel. C108, C109, C110: `found`, the leftmost
  longest matches one after the other; the loops of texttools.c by induction on their rounds.
* C111, C113: EnvSpec, a machine with frames that are never copied; a relation `R` between the two memories (a frame and its copy
  stand for one frame), kept by every operation. The laws of C113 are proved on the plain machine and carried over. C112: only
  refutations.
* C114: StreamSpec, a file with one position and a discipline; a relation `R` between stream and file, kept by every allowed call.
  C115: refutations. C116: the contents-after-closing are kept by every non-writing call in every state. C117: an invariant `fits`.
* C118: an invariant of linear probing (every symbol is found from the slot its name hashes to without meeting an empty slot; the
  number of full slots is the number of symbols), kept by interning and growing; refinement of a list of names. C119: refutations.
* C120: a relation between the pool's tables and the map of values a program should see (an entry of the changes is what is seen
  and, if its table is not marked modified, also what is stored; no table in two entries; a cached value is what is stored, of an OID
  not in the changes, and read-only), kept by every operation. C121: refutations, and the file lock.
* C122: two inductions, on the steps of the evaluator (what it returns is right; a tail-call mark means that a frame up a chain
  of set bits now holds a call with the same result) and on the steps of direct evaluation (the evaluator gets there; each take-over
  leaves a call needing fewer steps). C123: an evaluator which counts frames; refutations by induction on the rounds.
* C124: parameters as a type of their own, written as lists; scanning what was written gives the arrays, entry by entry; the loop
  over the arguments against a relation between parameters, arguments and values. C125: witnesses.
* C126: an invariant with the stage of the one evaluation (fresh, evaluating, got, stored, done), which only moves forward; the lock
  counts the one call between locking and unlocking. C127: the same with at most one call; witnesses by schedules.
* C128: the states after so many forms or rounds as folds; loops reduced to one generic loop and that to the first round which does not
  pass. C129: witnesses.
* C130: the loops reduced to those of C128; EXISTS and FORALL to one scan of the list of all calls, the last argument varying first.
  C131: witnesses; that DO-SUBSETS does not end after a round which aborts is proved for all forms.
* C132: an invariant of the loop: the elements kept are those seen whose score equals the best, all others are worse. C133: witnesses.

Findings (properties that the code violates) are recorded in section 4 and have
`_refuted` theorems.

## 4. Status and findings

### Meaning of the status in MANIFEST.json

* `proved`: the theorems cover the property as stated in properties.jsonl.
* `partial`: anything less.  The theorems whose hypotheses are narrower than the
  statement end in `_partial`; the note says what is missing.  This includes the
  properties that are false of the modelled code: they keep their statement, the
  exception is a `_refuted` theorem, and the note says "as stated false".
  Properties without any theorem yet are also listed as partial, with the note
  "not modelled yet".

An earlier version of the manifest called a property proved when every excluded case
had a refutation.  That said more than the theorems do, and was withdrawn.

### Refuted in the model

The witness is a concrete input of the model; the code itself has not been run.

* `C01_write_8bytes_returns_length_refuted` (BytesProps.v): Finding: the return value of kno_write_8bytes is the number of bytes written only on the slow path; when the buffer has room it is the low byte of the integer, which a caller testing the result sees as 0 or a length.
* `C02_varint_above_63_bits_refuted` (BytesProps.v): Finding: 63 bits only. From 2^63 on the top bit is silently dropped.
* `C02_varint_outofline_refuted` (BytesProps.v): Finding: the exported function _kno_read_varint returns an [int].
* `C03_dtype_choice_refuted` (DtypeProps.v)
* `C03_dtype_free_refuted` (DtypeProps.v): And a cut vector of strings makes the reader free an address inside an allocated block.
* `C03_dtype_value_refuted` (DtypeProps.v): But a value is returned: the first half of the pair (1 . 2), with the end-of-data constant as the other half, and the first element of a choice.
* `C03_read_8bytes_eod_refuted` (BytesProps.v): Finding: kno_read_8bytes reports end of data by returning 0, which is also a legitimate value.
* `C03_xtype_compound_refuted` (XtypeProps.v): A compound without elements that is cut in its header is returned complete.
* `C03_xtype_memory_refuted` (XtypeProps.v): Memory outside the buffer or the table: a string or a vector cut in front of its length (a negative length), a reference cut in front of its index (the entry at -1).
* `C03_xtype_table_refuted` (XtypeProps.v)
* `C03_xtype_value_refuted` (XtypeProps.v): But a value is returned: here with the end-of-data constant in it, and the slotmap of which the second value is missing, with VOID.
* `C04_compound_refuted` (DtypeProps.v): A compound whose only field is a vector comes back with the elements as fields.
* `C04_edge_bigint_refuted` (DtypeProps.v)
* `C04_immediates_refuted` (DtypeProps.v): Not for every value: the constant KNO_NEVERSEEN is written as the code of the default value, which cannot be written itself.
* `C04_oid_refuted` (DtypeProps.v): An OID with a value in the zero pool comes back as that value.
* `C04_schemap_refuted` (DtypeProps.v): A schemap comes back as a slotmap; a bigint at the edge of the fixnums (which arithmetic makes, NumbersProps) as a fixnum.
* `C05_compound_refuted` (DtypeProps.v): Not for every value: dtype_compound adds the -1 that the writer returned for the tag, and returns a positive number for an encoding without a tag.
* `C05_one_field_refuted` (DtypeProps.v): The same with the only field: 7 bytes of a compound without content, 6 returned.
* `C06_big_choice_refuted` (XtypeProps.v)
* `C06_edge_bigint_refuted` (XtypeProps.v): A bigint at the edge of the fixnums (which arithmetic makes, NumbersProps) is written and cannot be read.
* `C06_embed_refuted` (XtypeProps.v): Not if the value adds to the table: the new entry is not in what was embedded.
* `C06_empty_table_refuted` (XtypeProps.v): A table set up with a length of zero is freed when the first symbol is added.
* `C06_hashset_refuted` (XtypeProps.v): A hashset is never read back: the loop over its elements has no end.
* `C06_oid_base_refuted` (XtypeProps.v)
* `C06_sequence_refuted` (XtypeProps.v): A compound that is a sequence and has annotations comes back with a longer header.
* `C06_values_refuted` (XtypeProps.v): Not for every value. VOID is written as the constant for a quoted void; a schemap comes back as a slotmap; a compound tagged xtype is written as the bytes of its packet.
* `C07_empty_accumulator_abort_refuted` (ChoicesProps.v): ... and adding it to a choice aborts.
* `C07_empty_accumulator_refuted` (ChoicesProps.v)
* `C07_singleton_accumulator_refuted` (ChoicesProps.v): An accumulator holding just the value it is added to.
* `C07_zero_capacity_refuted` (ChoicesProps.v): An accumulator of capacity 0 (kno_init_prechoice(..,0) is reachable from kno_hashtable key listings, tables.c:3184): the first addition writes out of bounds.
* `C09_neverseen_refuted` (ChoicesProps.v): The internal constant NEVERSEEN as smallest element is lost by a merge.
* `C100_recover_refuted` (HashIndexProps.v): Recovering with the rollback file brings back the file: false. kno_restore_head is called with the rollback file first and applies the file to it.
* `C100_two_phase_refuted` (HashIndexProps.v)
* `C101_fetchsize_refuted` (HashIndexProps.v): hashindex_fetchsize gives the number of values: false. It takes numbers from the bytes of the key.
* `C101_keys_have_values_refuted` (HashIndexProps.v)
* `C101_sizes_refuted` (HashIndexProps.v)
* `C103_key_refuted` (QuasiquoteProps.v): C103 with slotmaps: false. An error in evaluating a key is not reported, the entry is left out.
* `C103_malformed_refuted` (QuasiquoteProps.v): What is malformed is an error: false. [(quasiquote a b)] inside a template loses [b], and so does [(unquote* l b)] in a vector.
* `C103_point_refuted` (QuasiquoteProps.v)
* `C103_quasiquote_refuted` (QuasiquoteProps.v)
* `C103_vector_refuted` (QuasiquoteProps.v)
* `C104_void_refuted` (QuasiquoteProps.v): C104 with VOID behind a point: false. [(,@() . VOID)] gives VOID.
* `C105_char_range_refuted` (TextMatchProps.v): CHAR-RANGE when case is ignored compares the lower case of its end with itself (match.c:2118-2120): the range from "a" to "z" matches "?".
* `C105_chars_at_end_refuted` (TextMatchProps.v): CHARS and CHAR-NOT, which are to match at least one character, match the empty part at the end of the text (match.c:2126-2223).
* `C105_class_past_limit_refuted` (TextMatchProps.v)
* `C105_ignore_case_char_refuted` (TextMatchProps.v): A character in a pattern is compared exactly even when case is ignored (match.c:458-466), unlike the string of that character.
* `C105_not_char_refuted` (TextMatchProps.v): NOT of a character never stops at it: the search for the character finds nothing (see C106).
* `C105_opt_or_nothing_refuted` (TextMatchProps.v): (OPT p) is "p or nothing" only where p does not match at all: the sequence of (OPT "a") and "ab" does not match "ab" (match.c:968-977).
* `C105_past_limit_refuted` (TextMatchProps.v): Strings, classes, runs and ranges are matched past the limit (match.c:314, 2483-2500): "abc" limited to its first two characters has a match of "bc" at 1 which ends at 3.
* `C105_plus_empty_refuted` (TextMatchProps.v): [(+ (opt "a"))] does not match the empty part, which is one repetition (match.c:799-813).
* `C105_symbol_loop_refuted` (TextMatchProps.v): Matching does not answer when a symbol stands for itself (match.c:467-471 calls itself without end).
* `C106_search_and_loops_refuted` (TextMatchProps.v): The search for (AND ( * "a") "b") in "x" does not end: at the end of the text it goes on at the same place (match.c:1077-1095).
* `C106_search_bol_refuted` (TextMatchProps.v): The search for the beginning of a line takes the newline over an earlier carriage return (match.c:1930-1943).
* `C106_search_char_never_refuted` (TextMatchProps.v): For no ASCII character and no text.
* `C106_search_char_refuted` (TextMatchProps.v): The search for an ASCII character looks for the character at the limit (match.c:3984-3985): it never finds anything in a whole text.
* `C106_search_empty_vector_refuted` (TextMatchProps.v): The search for the empty vector reads its first element, which it does not have (match.c:3966).
* `C106_search_end_refuted` (TextMatchProps.v): The search for the end of a line or of the text gives a place after the limit when it starts at the limit (match.c:1957-1970, 2074-2084).
* `C106_search_ignore_case_refuted` (TextMatchProps.v): When case is ignored the search for a string goes wrong when the first character comes twice: "ab" is not found in "aab" (match.c:3900-3923).
* `C106_search_not_refuted` (TextMatchProps.v): The search for (NOT p) gives a place where (NOT p) does not match: the end of a match of p (match.c:1026-1044).
* `C107_greedy_and_refuted` (TextMatchProps.v): Greedy AND succeeds with the empty part when its patterns have no end in common (match.c:1057-1069).
* `C107_greedy_finds_match_refuted` (TextMatchProps.v): Greedy matching can fail where the pattern matches: a greedy repetition is not taken back.
* `C108_subst_limit_refuted` (TextToolsProps.v): With a limit text/subst gives, if there is a match, everything after the last one up to the end of the text (texttools.c:1421), and if there is none only what is before the limit.
* `C109_slice_default_refuted` (TextToolsProps.v): The documentation says separators are left out by default; the default of the argument is #t (texttools.c:1947, 1955), which keeps them with the piece before.
* `C10_empty_accumulator_refuted` (ChoicesProps.v): Intersection with an empty accumulator is not empty.
* `C10_skipped_argument_refuted` (ChoicesProps.v): Two accumulators that hold the same single value: the argument after them is skipped.
* `C110_ends_with_empty_refuted` (TextToolsProps.v): No text ends with the empty string as far as string-ends-with? is concerned.
* `C110_lastword_loops_refuted` (TextToolsProps.v): lastword with a string as separator does not end when the separator is in the text: it searches again from where it found it (texttools.c:2140-2142).
* `C112_do_refuted` (EnvProps.v): (do ((i 0 (+ i 1)) (x 1)) (...) (lambda () x) (set! x 2)): the second turn finds x = 1 again; without the lambda it finds 2.
* `C112_import_lost_refuted` (EnvProps.v): An import made by use-module in a form on the stack is not there afterwards (modules.c:595-598).
* `C112_letstar_refuted` (EnvProps.v): (let* ((x 1) (x (begin (lambda () x) 2))) ...): with the lambda the body sees 2, without it 1.
* `C112_locals_refuted` (EnvProps.v): (let ((x 1)) (lambda () x) (locals x 2) x): after a capture, locals writes the slot on the stack, which nothing reads any more (binders.c:121-149).
* `C112_use_module_refuted` (EnvProps.v): (let ((x 1)) (lambda () x) (set! x 2) (use-module m) x): use-module in a form drops the copy, so x is 1 again, and the import is lost too.
* `C115_append_refuted` (StreamProps.v): After a direct write extended the file, kno_endpos at the old end answers the old size, and appending there destroys what was written.
* `C115_back_refuted` (StreamProps.v): Going back after a direct read finds the wrong bytes: the buffer is taken to hold the bytes just before the new position.
* `C115_block_refuted` (StreamProps.v): Reading a block turns a stream that is being written round, so the next write is refused.
* `C115_direct_read_refuted` (StreamProps.v): A direct read after a buffered one skips what was read ahead.
* `C115_direct_write_refuted` (StreamProps.v): A direct write overtakes what is still buffered: bytes written first end up after bytes written second, over the file's own.
* `C115_endpos_refuted` (StreamProps.v): kno_endpos answers the end but, when the whole file has been read ahead, stays where it was.
* `C115_flush_refuted` (StreamProps.v): Reading one byte and flushing moves the position past what was read ahead.
* `C115_gap_refuted` (StreamProps.v): Bytes written past the end leave a gap that cannot be read as a block until the stream is flushed.
* `C115_past_end_refuted` (StreamProps.v): A direct read that goes past the end of the file never returns.
* `C115_read_at_refuted` (StreamProps.v): kno_read_byte_at does not see what was written and not yet flushed.
* `C115_setbuf_refuted` (StreamProps.v): Changing the buffer's size after a read moves the position too.
* `C115_start_read_refuted` (StreamProps.v): The exported and the inline kno_start_read disagree about negative positions.
* `C115_turn_refuted` (StreamProps.v): Reading one byte, turning to write (kno_writebuf) and writing: the byte goes after the last byte that was read ahead, not at the position.
* `C116_silent_refuted` (StreamProps.v): kno_write_4bytes_at on a read-only stream answers as if it had written.
* `C117_read_ints_refuted` (StreamProps.v): kno_read_ints stores past the end of the caller's array as soon as one read(2) delivers less than was asked for.
* `C117_write_at_refuted` (StreamProps.v): kno_write_4bytes_at with the buffer nearly full stores past its end.
* `C119_grow_refuted` (SymbolProps.v): With a name in the table that has a zero byte, the table cannot grow without reading memory that does not belong to the name.
* `C119_prefix_refuted` (SymbolProps.v): The name of a symbol made from the first two bytes of a longer text is the longer text, and so is the name of the symbol of that two-byte name.
* `C119_zero_refuted` (SymbolProps.v): Two names of three bytes which differ after a zero byte can be taken for the same.
* `C121_aliased_refuted` (PoolCacheProps.v): Storing for one OID the table read of another makes changes of the one show up in the other, where they are never stored.
* `C121_alloc_refuted` (PoolCacheProps.v): An OID that was read before it was allocated stays an error, though it is allocated, set and stored, until it is swapped out.
* `C121_discard_named_refuted` (PoolCacheProps.v): Discarding the changes of one OID discards those of the others.
* `C121_file_unlocked_refuted` (PoolCacheProps.v): So a pool of which everything is discarded or committed, with no OID left in its changes, keeps its file locked.
* `C121_lock_failure_refuted` (PoolCacheProps.v): If locking fails (rather than being refused) the value is set all the same; what was cached before is read again after the commit.
* `C121_named_commit_refuted` (PoolCacheProps.v): Committing an OID which is not locked, while another one is, writes VOID over its stored value.
* `C121_no_locks_alloc_refuted` (PoolCacheProps.v): In a pool flagged to do without locks whose driver has a lock handler, an OID that is allocated and then set still reads as having no value.
* `C121_no_locks_refuted` (PoolCacheProps.v): In a pool without locks (no lock handler: netpools and others) what is set is held in the cache only: a commit writes nothing, swapping out loses it, and without caching it is never seen.
* `C121_shared_table_refuted` (PoolCacheProps.v): One table stored for two OIDs: both show it, a commit of everything succeeds, and only one has it stored.
* `C121_touch_refuted` (PoolCacheProps.v): A table which the program got for changing remains writable after the OID is unlocked; what is changed then is lost.
* `C121_unlock_failure_refuted` (PoolCacheProps.v): If the driver fails to unlock what a commit has written, the next commit writes VOID over it.
* `C121_unlock_refuted` (PoolCacheProps.v): An OID that was locked and never read stays locked: unlocking everything, with or without a commit, does not unlock it.
* `C121_unlock_reports_refuted` (PoolCacheProps.v): An unlock whose commit fails may succeed.
* `C123_and_refuted` (TailProps.v): Nor for the last clause of AND, evaluated as if more was to come (conditionals.c:186-194; OR and TRYIF do the same).
* `C123_profile_refuted` (TailProps.v): Nor for a lambda with a profile (lambda.c:227): profiling a program which runs in bounded space may take it over the limit.
* `C123_when_refuted` (TailProps.v): Not so below WHEN: the bit saying that the WHEN is in tail position is looked at after its test has been evaluated, which has cleared it (conditionals.c:148-157; UNLESS and CASE do the same). Whatever number of frames is allowed, some number of rounds takes more.
* `C125_define_refuted` (LambdaProps.v): A definition is not made local in a body which starts with an attribute table, in one with a form which is not a pair before it, or in a body of its own.
* `C125_local_crash_refuted` (LambdaProps.v): A body with the form (local a) makes the scan of the body read the rest of the empty list.
* `C125_local_skips_refuted` (LambdaProps.v): (local a b c d) makes a and c local, but not b and d.
* `C125_lock_default_refuted` (LambdaProps.v): So does one whose default expression fails.
* `C125_lock_refuted` (LambdaProps.v): A synchronized lambda called with an argument of the wrong type leaves its lock held: every later call with enough arguments waits for ever.
* `C125_names_refuted` (LambdaProps.v): A parameter's name need not be a symbol if it is written as a list, and two parameters may have the same name; the second cannot be referred to.
* `C125_optional_first_refuted` (LambdaProps.v): A required parameter after an optional one need not be given: the body of (lambda ((x 1) y) ...) runs when called without arguments, with y void.
* `C125_rest_quoted_refuted` (LambdaProps.v): A quoted choice among the arguments for the rest parameter stays quoted, where one for a parameter is taken out of its quotes.
* `C127_again_refuted` (FutureProps.v): A promise whose evaluation fails gives an error when it is forced the first time and the exception object as a value when it is forced again.
* `C127_concurrent_refuted` (FutureProps.v): A promise whose evaluation succeeds may give an error to a thread which forces it while another thread evaluates it.
* `C127_self_refuted` (FutureProps.v): If the delayed expression forces its own promise, the thread waits for ever for the lock it holds, and no thread ever gets a result.
* `C129_begin_refuted` (ControlProps.v): BEGIN passes #break on, although it is said to return void then.
* `C129_counter_off_refuted` (ControlProps.v): A loop as documented binds nothing for a counter switched off: not so if the name of the whole is given.
* `C129_doiter_refuted` (ControlProps.v): DOITER does not notice that the iterator fails: with one which always fails, it runs its body for ever with the error as the element.
* `C129_dotimes_refuted` (ControlProps.v): (dotimes (i 2147483648) ...) runs no round and returns void, although limits up to 4294967295 are accepted.
* `C129_if_when_refuted` (ControlProps.v): IF returns {} when its test does, although it is said to return void; and WHEN returns the value of its last clause instead of void.
* `C129_or_refuted` (ControlProps.v): OR goes on after a clause which returns {}, although it is said to return it at once.
* `C129_prog1_refuted` (ControlProps.v): PROG1 passes #break on and loses the saved value; its own test for #break is never met.
* `C129_secret_refuted` (ControlProps.v): DOSEQ over a secret packet runs its body with errors as elements.
* `C12_empty_containment_refuted` (ChoicesProps.v): The empty choice is not considered contained in anything.
* `C12_empty_overlap_refuted` (ChoicesProps.v): Two empty accumulators overlap.
* `C131_dochoices_refuted` (ChoiceCtlProps.v): DO-CHOICES returns the value of its last round, although it is said to return void.
* `C131_dosubsets_refuted` (ChoiceCtlProps.v): DO-SUBSETS does not end if a round returns #break or fails, whatever the forms do: it runs the same block again for ever.
* `C131_last_refuted` (ChoiceCtlProps.v): With a random offset, which is below n - k, PICK-N of k elements never picks the last one.
* `C131_pickn_refuted` (ChoiceCtlProps.v): PICK-N copies a negative number of elements if the offset is beyond the end, and reads before the choice if the offset is 2^31 or more.
* `C131_skiperrs_refuted` (ChoiceCtlProps.v): EXISTS/SKIPERRS returns the error if its arguments are no choices, and does not try the other functions.
* `C133_getrange_refuted` (ExtremeProps.v): (getrange 4294967301 2) is the numbers 2, 3 and 4, and (getrange 2147483648 2) is empty: the greater number is kept in an int.
* `C133_keys_refuted` (ExtremeProps.v): With a choice of key functions, if one fails, the key function itself is returned as the result instead of the error.
* `C133_mixed_refuted` (ExtremeProps.v): LARGEST by numbers of different kinds does not give the largest: the flonum 1.5 (rank 15) is taken for larger than the fixnum 1000.
* `C13_complex_antisym_refuted` (ValueProps.v): When only the second argument is complex, the answer is always "equal"; swapping the arguments gives a different answer.
* `C13_complex_refuted` (ValueProps.v)
* `C13_flonum_rational_refuted` (ValueProps.v): Flonums and rationals together are not ordered: a rational is compared with a flonum by its approximation, with another rational exactly. Of the first of these two rationals the approximation is the greater one, though the rational is the smaller one.
* `C13_nan_refuted` (ValueProps.v)
* `C13_nul_strings_refuted` (ValueProps.v): Strings that differ only after a NUL byte are considered the same value.
* `C13_secret_refuted` (ValueProps.v): A packet and a secret with the same bytes are equal? but not the same choice element.
* `C14_nul_keys_refuted` (SlotmapProps.v): Outside [key_ok]: strings that differ only after a NUL byte are one key, since LISP_EQUAL compares strings with strncmp (C13).
* `C15_unset_slots_refuted` (SchemapProps.v): kno_make_schemap without values fills the slots with #VOID: reading an unset slot does not give the default, and adding to one makes #VOID a value of the slot.
* `C16_choice_key_refuted` (HashtableProps.v): kno_hashtable_add with a choice of keys: none of the keys gets the value; the choice itself becomes a key.
* `C16_init_values_refuted` (HashtableProps.v): kno_init_hashtable with initial entries: the keys are there, their values are not.
* `C16_set_readonly_refuted` (HashtableProps.v): kno_hashtable_set_readonly: a table made read-only cannot be made writable again; the call reports that there was nothing to do.
* `C16_sizes_refuted` (HashtableProps.v): kno_get_hashtable_size has no answer from 1610612741 on: its scan leaves the table of sizes, which has no end marker.
* `C16_swap_refuted` (HashtableProps.v): kno_swap_hashtable: the destination counts the keys but finds none of them, and the source keeps its entries with a count of zero.
* `C17_equal_keys_refuted` (EqhashProps.v): Two different strings with the same text, at addresses whose hashes fall into the same bucket: the second, never stored, is found.
* `C17_four_keys_drop_refuted` (EqhashProps.v): Dropping the absent key 102 removes 29.
* `C17_four_keys_refuted` (EqhashProps.v): With the real hash and the smallest size the table has, the keys 5, 29, 43 and 67 share a bucket: looking up 67 finds the value of 29, and the absent key 102 is found.
* `C17_resize_merges_refuted` (EqhashProps.v)
* `C17_resize_refuted` (EqhashProps.v)
* `C18_clean_refuted` (HashsetProps.v): kno_hashset_elts(h,1) empties the buckets and keeps the count.
* `C18_drop_absent_choice_refuted` (HashsetProps.v): The same for a bucket that is a choice.
* `C18_drop_absent_refuted` (HashsetProps.v): Dropping what is not a member is reported as done and lowers the count: one member is left and the set calls itself empty.
* `C18_drop_collision_refuted` (HashsetProps.v): Dropping a member of an accumulator bucket does nothing.
* `C18_duplicate_add_refuted` (HashsetProps.v): Adding a member again counts it again: the test of an accumulator bucket has its arguments exchanged.
* `C18_initial_count_refuted` (HashsetProps.v): A set created by kno_make_hashset starts with whatever count malloc left: with 5 in that place the empty set has size 5.
* `C18_intern_refuted` (HashsetProps.v): kno_hashset_intern adds without counting: the interned value is not found.
* `C18_merge_refuted` (HashsetProps.v): kno_hashset_merge reports the additions and does not count them.
* `C19_schemap_assocs_refuted` (SchemapProps.v): kno_schemap_assocs of a table with two or more slots returns the slots instead of the pairs, whatever the values.
* `C19_slotmap_keyvec_refuted` (SlotmapProps.v)
* `C20_choice_freed_refuted` (HashopProps.v): The same with a big integer in the key: the second step reads an object whose reference was dropped.
* `C20_choice_refuted` (HashopProps.v): A choice of numbers as the operand: a key holding the fixnum 10, incremented by {1 2}, holds 12 and not 13 (every sum starts from the value read before the loop).
* `C21_canonical_refuted` (NumbersProps.v): The sum of two fixnums that is the greatest fixnum is a bigint: it is not the same object as the fixnum of the same value.
* `C23_zero_divisor_refuted` (NumbersProps.v): ... but a bigint divided by zero is a null pointer that is followed, and the remainder primitive and the internal functions divide by zero in C.
* `C24_lowest_terms_refuted` (NumbersProps.v): A negative divisor of the numerator gives a rational with denominator one, and bigints keep a negative denominator.
* `C25_complex_refuted` (NumbersProps.v): A real compared with a complex number that is not real counts as equal: the test for complex arguments looks at the first argument twice.
* `C26_many_blocks_refuted` (OidsProps.v): After 65536 blocks have been used, the reference made for the next block's first address is the reference of address 1.
* `C27_long_text_refuted` (OidsProps.v): Finding: 64 hexadecimal digits overflow the 64-byte buffer on the stack.
* `C28_commit_race_refuted` (AllocProps.v): ** Refutations An allocation between the two accesses of a commit is undone: thread 1 allocates and commits; while its commit is running thread 0 allocates offset 1; the commit then stores the old load, and offset 1 is returned again.
* `C28_filepool_many_refuted` (AllocProps.v): File pools answer a request for two or more identifiers with an error, although they have consumed them; an allocation of no identifiers is an error in all pools.
* `C28_negative_request_refuted` (AllocProps.v): A request of 2^32-1 identifiers (accepted by allocate-oids) is read as -1: nothing is returned, but the load goes down and the last identifier is returned again.
* `C28_two_processes_refuted` (AllocProps.v)
* `C28_wraparound_refuted` (AllocProps.v): The sum of load and request is a 32-bit number: near the top of a large pool a request that does not fit is granted, beyond the pool's range.
* `C29_big_value_refuted` (PoolProps.v)
* `C29_unencodable_refuted` (PoolProps.v): A value the encoder cannot write is stored as the empty value, the commit succeeds and the old value is gone.
* `C30_save_failed_refuted` (PoolProps.v): kno_write_rollback, drivers.c:1154-1174, returns 1 even when kno_save_head has failed (and the errors are not looked at); the commit then goes on without a rollback file. A crash then leaves a mixture.
* `C31_data_overwritten_refuted` (PoolProps.v): An object stored first in the file (never touched by the commit) is lost.
* `C32_cached_refuted` (FilePoolProps.v)
* `C33_b40_size_refuted` (ChunkProps.v): A value of 16 MB or more in the 40-bit format: the reference is silently stored as (0,0), which the pool reads as the empty choice.
* `C33_header_overwrite_refuted` (ChunkProps.v): Entry 2^29-32 of an 8-byte table: the position wraps and the writer overwrites the pool's header (its magic number) instead of the table.
* `C33_index_wrap_refuted` (ChunkProps.v): Entry 2^29 is entry 0, for the writer and for the reader that does not use the mapped table.
* `C34_batch_add_refuted` (IndexProps.v): [kno_batch_add] and [kno_index_merge]: a value added in this way is not given for a key which is in the cache, nor for a key from which it was dropped.
* `C34_cache_off_refuted` (IndexProps.v): [add!] while the cache is off leaves the cached value as it was, and this is what is given when the cache is on again.
* `C34_drop_then_add_refuted` (IndexProps.v): Dropping a value from a key and adding it again with [add!] leaves the key without it, before and after a commit.
* `C34_dropped_value_back_refuted` (IndexProps.v): The same with two keys: after the commit the dropped value is back.
* `C34_fetchn_refuted` (IndexProps.v): [kno_index_fetchn] with several keys leaves out the pending changes, with one key it does not.
* `C34_keys_refuted` (IndexProps.v): [kno_index_keys] leaves out a key which has been stored to and not yet committed (unless it is a pair [(set . x)]), and an empty log index lists the empty choice as a key.
* `C34_keysizes_refuted` (IndexProps.v): [kno_index_keysizes] on a log index: a key with one value on file has size 6 (the tagged word of 1), and adding the value again makes it 7.
* `C34_prefetch_refuted` (IndexProps.v): A key stored to and then prefetched gives what is on file, not what was stored.
* `C34_store_drop_commit_refuted` (IndexProps.v): Storing two values, dropping one of them and committing: the other is no longer given, although it is on file; the next commit removes it from the file as well.
* `C35_add_choice_result_refuted` (BloomProps.v): bloom/add! answers true for a new key but false for two new keys.
* `C35_restore_refuted` (BloomProps.v): Restoring what was dumped reads a fixnum as a flonum and a flonum as a packet, for every filter.
* `C35_zero_bits_refuted` (BloomProps.v): A filter whose computed number of bits is 0 (for instance entries 1, error 0.9: one hash function) is created, and the first operation divides by zero.
* `C36_append_refuted` (SeqProps.v): C36, refuted: a string and a packet give a packet, in which of each character only the lowest byte is left; and what comes after the last pair of a list is dropped.
* `C36_match_refuted` (SeqProps.v): C36, refuted: [match?] on lists compares the prefix with itself, so it is true of any prefix that is not longer than the list.
* `C36_position_empty_refuted` (SeqProps.v): C36, refuted: with start and end the same, so with nothing to look at, [position] finds a character (the last one of the string), and in a numeric vector looks backwards and does not stop at 0.
* `C36_position_end_refuted` (SeqProps.v): C36, refuted: the end is not observed by [position] for characters below 0x80 in strings nor for numeric vectors: the place returned lies beyond it.
* `C36_position_nul_refuted` (SeqProps.v): C36, refuted: the NUL character is found in strings that do not have it.
* `C36_reverse_numbers_refuted` (SeqProps.v): C36, refuted: a numeric vector is returned as it was.
* `C36_rposition_choice_refuted` (SeqProps.v): C36, refuted: [position] and [rposition] do not agree on what an element of a vector has to be: one of them finds a choice that the key is in, the other does not.
* `C36_rposition_refuted` (SeqProps.v): C36, refuted: [rposition] in a string misses a character because there is one more of them beyond the end; takes the start as a number of bytes, so finds one before the start; and for a list with start and end the same returns an uninitialised variable.
* `C36_search_list_refuted` (SeqProps.v): C36, refuted for lists: a list that occurs is not found, because the limit for the first element is computed from the place reached, not from the end.
* `C36_search_refuted` (SeqProps.v): C36, refuted: the place found lies before the start (for the empty string), the match goes beyond the end (strings and packets), or bytes beyond the packet are looked at.
* `C36_slice_compound_refuted` (SeqProps.v): C36, refuted for compounds: one that is a sequence (it has a length and elements) has no slices.
* `C36_slice_list_refuted` (SeqProps.v): C36, refuted for lists: a start beyond the end, even beyond the length, gives the empty list; and without the check of the primitive an end beyond the length gives what there is.
* `C36_slice_packet_refuted` (SeqProps.v): C36, refuted for packets: kno_slice with an end beyond the length returns VOID, which is not an error.
* `C38_char_plane_refuted` (PrintProps.v): Characters outside the basic plane are printed with more than four digits, which is a parse error.
* `C38_max_fixnum_refuted` (PrintProps.v): The largest and the smallest fixnum are read back as bigints.
* `C38_packet64_refuted` (PrintProps.v): In the base 64 format no packet is read back: the text, which begins with #@ and a quote, is read as a list of a symbol and a string, if it is read at all.
* `C38_stale_errno_refuted` (PrintProps.v): If errno is neither 0 nor ERANGE, numbers that fit in 64 bits but not in a fixnum are read back as symbols.
* `C38_symbol_backslash_refuted` (PrintProps.v)
* `C38_symbol_bar_refuted` (PrintProps.v): C38 is false of symbols with a bar or a backslash and no character that asks for bars, and of names beginning with a semicolon: what is printed reads as another symbol, or as nothing.
* `C38_symbol_number_refuted` (PrintProps.v): C38 is false of symbols named like a number: for every small integer, the symbol whose name is the number's printed form is printed without bars and read back as the number.
* `C38_symbol_point_refuted` (PrintProps.v): The symbol named by a point changes a list's structure.
* `C38_symbol_semicolon_refuted` (PrintProps.v)
* `C38_unquote_oid_refuted` (PrintProps.v): No text beginning with a comma and an at sign is read as (unquote x): printed forms of (unquote @1/2), with an OID, are read as (unquote* ...).
* `C39_uri_nul_refuted` (UriProps.v): C39, as stated false: [uriencode] of a packet (or string) stops at its first NUL byte (uriprims.c:611-623 copies the packet and passes length -1), so what follows is lost.
* `C40_accumulated_functions_refuted` (ApplyProps.v): An accumulated choice of functions cannot be called.
* `C40_accumulator_refuted` (ApplyProps.v)
* `C40_quoted_refuted` (ApplyProps.v): A quoted choice given to a choice of functions, without other choices, stays quoted.
* `C40_traced_refuted` (ApplyProps.v)
* `C40_void_refuted` (ApplyProps.v)
* `C41_cycle_refuted` (RefsProps.v): Cycles are never freed: two vectors containing each other survive their last holder.
* `C41_wrap_refuted` (RefsProps.v)
* `C42_blank_parse_refuted` (ConstsProps.v): The first constant registered is KNO_BLANK_PARSE, a built-in constant with another name ("#blank"): KNO_N_BUILTIN_CONSTANTS is one too small. At startup this is "plugh"; the parser then drops #plugh as if it were nothing.
* `C42_lock_refuted` (ConstsProps.v)
* `C42_overflow_refuted` (ConstsProps.v)
* `C43_flip_word8_refuted` (BytesProps.v): Finding: the 64-bit flip is wrong whenever the second lowest byte is not 0.
* `C44_flush_failure_refuted` (BytesProps.v): Finding: a flush failure, or a NO_GROW buffer smaller than the datum, makes kno_needs_space return a negative number; the writers only test for zero and store outside the buffer.
* `C44_nogrow_refuted` (BytesProps.v)
* `C45_no_defaults_refuted` (ApplyProps.v)
* `C46_of_long_long_refuted` (BigintProps.v): The negation of the least long long overflows.
* `C46_of_ulong_refuted` (BigintProps.v): The greatest unsigned long becomes -1.
* `C48_divide_refuted` (ArithProps.v): Without arguments the quotient reads an argument that is not there.
* `C48_minus_refuted` (ArithProps.v)
* `C48_plus_refuted` (ArithProps.v): Five fixnums can overflow the long long that they are added in.
* `C49_round_refuted` (ArithProps.v): A third rounds to one and minus five thirds to minus one.
* `C49_unreduced_refuted` (ArithProps.v): The quotient of 4 by -2 is the unreduced -2/1: its floor and its ceiling are wrong.
* `C50_power_refuted` (ArithProps.v): Every power of zero is one.
* `C51_divide_refuted` (ArithProps.v): A complex number divided by zero is a complex object whose parts are error objects.
* `C53_lcm_refuted` (ArithProps.v)
* `C53_modulo_refuted` (ArithProps.v): Zero modulo zero is zero, not an error.
* `C54_iterkeys_refuted` (HashopProps.v): kno_hashtable_iterkeys reports success although the operation failed on a key.
* `C55_schemap_refuted` (XtypeProps.v): Nor for schemaps, where the -1 for a value is added to the size.
* `C55_vector_refuted` (XtypeProps.v): Not for vectors: elements that cannot be written are passed over, and the number returned is neither -1 nor the number of bytes appended; what was written is read as another value.
* `C56_compound_refuted` (XtypeProps.v): A compound is not passed over: the code is skipped and 61 returned.
* `C56_reference_refuted` (XtypeProps.v): A reference whose index is missing is accepted.
* `C56_unknown_refuted` (XtypeProps.v): So a value that is accepted although the input has been cut, or a compound that is refused, does not occur among these. But: a byte that is no code is accepted, with 61.
* `C57_rest_refuted` (SeqProps.v): C57, refuted: [rest] of a secret is a plain packet with its bytes, and so is a slice without an end.
* `C58_bare_part_refuted` (UriProps.v): C58, as stated false: a part of a query string without an equal sign is recorded as another value of the preceding name (slotstring is not cleared at cgiexec.c:361).
* `C58_choice_values_refuted` (UriProps.v): C58, as stated false: the values of a choice are run together without a separator, since [lastc] is -1 from the second value on (uriprims.c:553, 581).
* `C58_last_empty_refuted` (UriProps.v): C58, as stated false: a last parameter whose value is empty is not recorded among the parameters (cgiexec.c:383-394 only adds it to the request), and not at all when its name may have no slotid.
* `C59_astral_refuted` (JsonProps.v): As stated false: a character outside the basic plane is written with five digits, of which four are read.
* `C59_choice_refuted` (JsonProps.v): Choices come back as vectors, and so does the empty choice.
* `C59_colon_refuted` (JsonProps.v): With the flags of #t a string that begins with a colon comes back with a backslash.
* `C59_first_refuted` (JsonProps.v): With the flags of #t a string that begins with a character above ASCII, or a control character, comes back with the letter of its escape in its place.
* `C59_keys_refuted` (JsonProps.v): Keys: strings come back as symbols; names with capitals in lower case; two keys may come back as one key twice.
* `C59_list_refuted` (JsonProps.v): A pair is written as a table with one entry: lists come back as nested tables.
* `C59_special_key_refuted` (JsonProps.v): When names are converted to symbols, a table whose first key begins with one of @ : ' # braces or brackets is never read as a table.
* `C59_strict_refuted` (JsonProps.v): Options that ask for strictness are refused by ->json, whatever the value; given as a number, the flag is replaced by the default flags.
* `C59_symbol_refuted` (JsonProps.v): With the default flags a symbol comes back as a string.
* `C60_ends_refuted` (JsonProps.v): As stated false: jsonparse of a vector does not end when it comes to a character that begins no value, such as a percent sign, a colon or a brace.
* `C60_lenient_refuted` (JsonProps.v): Text that is no JSON is read without an error: a string without its closing quote, no text at all, a value followed by others, missing and extra commas; a key without a colon gives the end-of-data object, also as an element of a vector.
* `C61_backslash_refuted` (ArgProps.v): C61 is false of strings: a backslash in front is lost.
* `C61_bar_refuted` (ArgProps.v): C61 is false of strings between bars; and after a sign or a point bars are lost and text after a blank is, if it is one character.
* `C61_colon_refuted` (ArgProps.v): C61 is false of strings made of a colon or a quote and the printed form of a value; with the colon, a symbol, say, and a string are written in the same way.
* `C61_empty_refuted` (ArgProps.v): The empty argument is not the empty string but the end-of-file object.
* `C61_leftover_refuted` (ArgProps.v): A single character after a value is dropped, whatever it is.
* `C61_number_refuted` (ArgProps.v): C61 is false of strings that look like negative numbers: they are written without a backslash and read as numbers.
* `C61_sign_refuted` (ArgProps.v)
* `C62_primitive_refuted` (ArgProps.v): C62 is false of the primitive parse-slotid, which calls kno_parse_arg: every text that begins with a letter is a string to it.
* `C62_rest_refuted` (ArgProps.v): What follows a value is dropped without a word.
* `C63_complex_refuted` (HashProps.v): Complex numbers are compared by magnitude: 3+4i equals 5i, with another hash code.
* `C63_nan_refuted` (HashProps.v): NaN equals every flonum.
* `C63_nul_refuted` (HashProps.v): Two strings that differ after a NUL are equal and have different hash codes.
* `C63_secret_refuted` (HashProps.v): For kno_hash_lisp1 all secrets have the code 17, packets have codes of their own, and a secret equals the packet with the same bytes.
* `C63_zero_refuted` (HashProps.v): For kno_hash_lisp1 the two zeros, which are equal, differ by their sign bit.
* `C64_flonum_refuted` (HashProps.v): The flonum 2^33: the code that kno_hash_lisp2 gives it is what an undefined conversion gives.
* `C65_negative_refuted` (HashProps.v): The code of -1 is 2^32-1.
* `C68_fetchsize_refuted` (FileIndexProps.v): fileindex_fetchsize gives the number of values: false. An absent key has 13, a key that is not in its first slot has 61 (8 is behind 1).
* `C68_keys_have_values_refuted` (FileIndexProps.v)
* `C68_lock_refuted` (FileIndexProps.v): After the keys (or the sizes) have been listed, the index can be used: false. The lock is not released, and every fetch of a key, every other list, waits for ever.
* `C68_sizes_count_refuted` (FileIndexProps.v): C68. The sizes are the numbers of the values: false. 8 was given the value 4 twice.
* `C69_add_and_drop_refuted` (FileIndexProps.v)
* `C69_add_and_store_refuted` (FileIndexProps.v): C69. A key both added to and stored in one save has the values stored: false for a new key, which gets two slots, and the first is that of the addition.
* `C69_crowd_refuted` (FileIndexProps.v)
* `C69_drop_ends_refuted` (FileIndexProps.v)
* `C69_fetchn_ends_refuted` (FileIndexProps.v)
* `C94_agree_refuted` (WalkProps.v): A value that is inherited is not found by asking for it: the OID 4, which is passed before it, has no pool, which is an error for a test but not for a get.
* `C94_getstar_refuted` (WalkProps.v): get* through several slots takes each by itself: 8 is the parent of the spouse of 6, but get* through SPOUSE and PARENT doesn't find it.
* `C94_inherit_error_refuted` (WalkProps.v): inherit doesn't signal that a frame couldn't be fetched: the error value (99) is among its results.
* `C94_inherit_refuted` (WalkProps.v): inherit gives the frames it starts from besides what they have: the names inherited by 0 include 0 itself.
* `C94_path_choice_refuted` (WalkProps.v): path? with several targets is false although one of them can be reached.
* `C94_path_error_refuted` (WalkProps.v): path? from a slotmap is true for any target: the walk fails because kno_frame_get takes only OIDs, and the -1 of kno_pathp counts as true.
* `C95_cycle_refuted` (WalkProps.v): The basis of a ring is empty: nothing in it has the members below it.
* `C95_value_refuted` (WalkProps.v): A value of a lattice slot that isn't an OID ends the collection, and nobody looks at the error: 9 is in the basis of 8 and 9 although it is a parent of 8, because 8 has a string among its parents.
* `C96_plus_refuted` (WalkProps.v): kno:kleene+-get leaves out a root that can be reached from itself.
* `C97_hit_refuted` (FramesProps.v): A method that looks at a slot whose value is cached: that isn't noted as a dependency. Here slot 11 is an OID without methods and 10 has its values; after someone has looked at the empty slot 11, an assertion on it doesn't reach 10.
* `C97_progress_refuted` (FramesProps.v): Two slots defined through each other: what is computed for one while the other is in progress is incomplete, and is cached. Nothing needs to change for that.
* `C97_test_refuted` (FramesProps.v): A method that tests a symbol slot for a value: the dependency is noted under a key that kno_decache doesn't look at.
* `C97_testmethod_refuted` (FramesProps.v): A test method that looks at a symbol slot: what depends on it is the test, and a test is never taken out of the cache.
* `C99_b64_refuted` (HashIndexProps.v)
* `C99_junk_refuted` (HashIndexProps.v)
* `C99_sort_refuted` (HashIndexProps.v)
* `C99_stored_odd_key_refuted` (HashIndexProps.v)

### Seen while reading, not modelled

No theorem backs these; they are readings of the source.

* json.c: json_unparse is declared with the parameters (oidfn, slotfn) and defined with
  (slotfn, oidfn); json_slotval passes them in the other order, so a table inside a
  table gets the two functions exchanged.
* apply.c: the mask XITER|XPRUNE is tested with `&`; reckless_dcall overwrites its result before the bad-pointer check.
* Pointer locks: hashptrval returns an 8-bit value while there are 979 locks.
* recycle.c: recycle_list marks freed pairs with 0xFFFFFF80; a second free of an object of type 0 is not detected.
* bigpool.c: reload_bigpool reads the modification time at 0x12; pointer errors in cache_write_offdata; the slotcodes loop of make_bigpool does not end; set_bigpool_label never releases pool_commit_lock; `offtype = KNO_B40` is an assignment; mmap lengths wrap at 32 bits.
* hashindex.c:3049-3050, kindex.c:2790-2791: kno_write_ints is called with a byte count.
* alcor: the ftruncate in apply_head is not synced before the rename.
* tables.c: kno_copy_hashset does not set the number of buckets; kno_copy_hashtable loses the EQ bit; copy_slotmap and copy_schemap drop the sort bits; kno_schemap_assocs keeps its lock on size 0; kno_hashtable_drop can leak a reference and unlock without having locked; kno_hash_quality advances n_buckets inside its loop.
* oids.c: kno_make_oid ignores the -1 of a full table; base_oid_lock is never taken.
* compare.c: the RECURSIVE branch for packets compares beyond the shorter packet.
* Dtypes: write_mystery writes a size of 256 as 0; an unknown package's vector elements are read twice; unicode strings of odd length are read beyond their end; an ascii character of length 0, a flonum packet of less than 8 bytes and an empty bigint packet are read beyond their end; the hashtable reader reads too much after empty values; a slotmap of odd length leaves an element unread; lengths from 2^31 on become negative; validate_dtype (used nowhere else) has loops that do not end; writers keep locks after failures.
* indexes.c: kno_index_keyvec passes &n_added for the replaced keys and then reads n_replaced (785-786); kno_index_keysizes answers EMPTY when the file is empty and only stores are pending (840-842); kno_index_fetchn returns -1 as a lispval when there is no fetchn handler (702-704); remove_keyvals skips the entry after a removed one (harmless, as keys are not repeated).
* logindex.c: logindex_recycle frees logx_slotids in place of logx_baseoids (394).
* Xtypes: xt_block has no return and goes on to read a bigint; kno_init_xrefs leaves xt_refs_max unset unless its argument is negative; kno_xtype_ref is called for constants, which it never accepts; the length of a symbol's name is allocated on the stack.
* frames.c: kno_frame_drop with effects (610) and methods.c:824 (kno:clear-implies!) call kno_clear_slotcache_entry with frame and slot exchanged, so nothing is cleared; get_slotid_methods takes the slot itself in place of the method's name from tables that are neither slotmaps nor schemaps (411); kno_frame_test of VOID leaks the values (500-505).
* hashindex.c: the -1 of update_keybucket on overflow isn't checked in hashindex_save; overflow on replacing is an error only when the key vectors are to be freed; a NULL from read_keybucket is dereferenced; fast_write_dtype fixes the case of tiny strings instead of tiny symbols; read_value_block sets *consp to 0 on an error path; `bucket` is never updated in fetchn; an error of fetchn isn't checked in process_drops; hashindex_getstats of an index without keys returns with the index locked and after using an uninitialised buckets_len (1778-1810).
* drivers.c: kno_get_baseoid tests `code > n_oids` (off by one); kno_init_oidcoder without OIDs writes through NULL; kno_write_rollback returns 1 also when it fails (1154-1173).
* alcor.c:286-289: kno_restore_head exchanges its arguments; besides hashindex.c it is called so in bigpool.c:430, kpool.c:496 and kindex.c:473.
* match.c: EOW gives KNO_FIX2INT(off) in place of KNO_INT(off); ISVOWEL matches at the NUL (strchr with 0); match_not
  returns -2 of a search as if it were a value. texttools.c: textsubst takes a search which fails after the first for the
  end of the matches; lastword with a string copies from `end+STRLEN(string)`.
* binders.c:492-496: define-init looks at env->env_bindings, not at the copy, and takes an UNBOUND local for defined. let* and
  letrec start their variables as UNBOUND, so that an inner variable which has no value yet is looked up outside while set! finds it
  inside. set! of a symbol which a used module has only declared for export is refused although lookup gives the outer value.
  lexenv.c:63-73: kno_dynamic_lexenv keeps the pointer lock when the bindings are no schemap.
* Streams, seen while reading and not modelled: kno_flip_word8 shifts byte 1 by 48 instead of 40 (bufio.h:233-242).
  grow_input_buffer copies only the bytes already read when it changes the kind of allocation, so that unread bytes are lost
  (bufio.c:195-205). unlock_filestream sets FILE_LOCKED instead of clearing it; set_mmapped returns without unlocking when the
  stream is mapped already; kno_set_direction takes u8_lock_fd's nonzero result for success. kno_fill_stream compares bytes_read
  with n, not n_to_read, and reallocates buffers which may be big allocations with u8_realloc. Descriptor 0 counts as a failed open
  in kno_init_file_stream. A failing flush in kno_needs_space (-1) is taken for success by the writers. kno_stream_read on an
  unseekable stream requests four times the bytes. kno_find_crlf asks for one byte only, uses strstr on an unterminated buffer and
  steps over four bytes for a two-byte end of line.
* symbols.c:273-281: kno_make_symbol probes the table without the lock while another thread may be replacing it; the pair of
  table_size and kno_symbol_entries is not read atomically.
* pools.c: kno_pool_value passes on the int of kno_hashtable_test as a lispval (so 1 as a tagged word for a locked OID).
* pools.c:853-874: prefetching a single OID never caches it (the condition is reversed); without locks the values prefetched are
  dropped and not released.
* KNO_POOL_VIRTUAL and KNO_STORAGE_VIRTUAL are different bits and are tested in different places for the same thing; swapping out
  everything ignores KNO_STORAGE_NOSWAP.
* pools.c: kno_for_pools counts its index up twice per round and can return with its lock held.
* lambda.c, eval.c: only kno_dcall looks at the limit on the C stack (apply.c:309); calls of lambdas from interpreted code do not pass
  through it, so deep recursion of a lambda runs off the C stack.
* conditionals.c: IF's documentation says void for a test without values, the code returns {}; OR goes on after {} where the VM's OR
  opcode returns it.
* lambda.c: a synchronized lambda's lock is taken before its arguments are checked and stays taken when a type check or a default
  value fails (lines 124, 144, 179, 206).

## 5. Assumptions per theorem

`Print Assumptions` follows every property theorem in the `*Props.v` files.  For every
one of them so far it answers "Closed under the global context": no axioms.
`coqchk -o` on the whole development lists the seven parameters of the standard library's
Coq.ssr.ssrunder.Under_rel, which comes with modules the library's arithmetic tactics load;
no theorem depends on them.

Some modules leave parts of the code as parameters of their theorems, quantified in each
statement.  Hash: the decoding of a flonum's bits, the value of an undefined conversion, the tables
of symbols and base OIDs of a process.  FileIndex: the values, LISP_EQUAL, the hash
function and the dtype codec, with the hypotheses in the record `setting`; the cases show that
it can be met.

## 6. Limits of the process

* During the work the untracked files SchemapModel.v and SlotmapModel.v were overwritten
  by new versions without looking at what they held; the earlier drafts are lost.  New
  files are since created by a script that refuses to overwrite.
* Testing the theorems against wrong programs: see seeded/LOG.jsonl.  `failed` lists the theorems
  whose unchanged proofs no longer go through, by themselves or because a lemma they use
  (`lemmas_failed`) does not. A broken proof does not show that the statement has become
  false: where one lemma carries a whole module, every theorem of the module is listed. So
  `caught` means that the edit cannot go unnoticed, not that each listed theorem was seen to be
  false. Edits which leave the claims true are marked `proofs broke, claims unaffected`.
  For the promises (Future) a search over two and three threads, outside Coq, was used to see
  which statements really become false: fu12, fu17, fu19 and fu22 break none of C126 and
  C127_alone; fu13 broke none either, and C127_alone_partial was tightened for it.
