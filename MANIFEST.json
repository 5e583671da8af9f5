{
 "claims": [
  {
   "property": "C01",
   "status": "partial",
   "theorems": [
    "C01_add_exact",
    "C01_sub_exact",
    "C01_neg_exact",
    "C01_succ_exact",
    "C01_pred_exact",
    "C01_mul_partial",
    "C01_mul_refuted"
   ],
   "note": "+, -, ~ and successor/predecessor fully proved. Multiplication is refuted at 2^31 * ~2^31 (spurious Overflow) and proved exact for all other operand pairs."
  },
  {
   "property": "C02",
   "status": "proved",
   "theorems": [
    "C02_div_mod",
    "C02_quot_rem",
    "C02_floor_unique",
    "C02_div_overflow",
    "C02_div_by_zero"
   ],
   "note": "All four operations on all operands; no C undefined behaviour is reached."
  },
  {
   "property": "C03",
   "status": "partial",
   "theorems": [
    "C03_word_arith",
    "C03_word_bits",
    "C03_word_shifts",
    "C03_word_compare",
    "C03_word_toInt",
    "C03_word_neg_partial",
    "C03_word_neg_refuted"
   ],
   "note": "Everything proved except Word.~, which is refuted at 0w4611686018427387904 (raises Overflow) and proved for all other words."
  },
  {
   "property": "C04",
   "status": "proved",
   "theorems": [
    "C04_unambiguous",
    "C04_scan",
    "C04_fmt",
    "C04_roundtrip",
    "C04_fromString",
    "C04_toString",
    "C04_literals"
   ],
   "note": "Any reader and any finite source; arithmetic through the modelled opcodes SMLMULINT, SMLADDINT, ...; includes integer literals (sml_int_of_string, sml_int_of_hex) and toString (sprintf taken as in the C standard)."
  },
  {
   "property": "C05",
   "status": "proved",
   "theorems": [
    "C05_unambiguous",
    "C05_scan",
    "C05_fmt",
    "C05_roundtrip",
    "C05_fromString",
    "C05_toString",
    "C05_literals",
    "C05_documented_overflow_refuted",
    "C05_documented_prefix_refuted"
   ],
   "note": "Any reader and any finite source; value modulo 2^63. In addition two statements of Word.sig are refuted: Overflow is never raised, and 0w is accepted as a hexadecimal prefix."
  },
  {
   "property": "C06",
   "status": "partial",
   "theorems": [
    "C06_toString",
    "C06_toCString",
    "C06_fromString",
    "C06_ml_text_unambiguous",
    "C06_fromCString_partial",
    "C06_c_text_unambiguous",
    "C06_roundtrip",
    "C06_C_roundtrip_partial",
    "C06_toString_injective",
    "C06_char_roundtrip",
    "C06_char_C_roundtrip"
   ],
   "note": "ML and C escapes are specified as relations between texts and characters (Escape_Spec.v); printing gives printable, properly quoted text denoting the string; reading accepts exactly the well-formed texts; both readings are unambiguous; all round trips. Complete for the ML escapes and for characters. Missing: String.fromCString on texts of 2^31 characters or more, where the copying primitive truncates lengths (see C43)."
  },
  {
   "property": "C07",
   "status": "partial",
   "theorems": [
    "C07_representation_partial",
    "C07_compare_strings",
    "C07_compare_val",
    "C07_lex_total",
    "C07_equal_partial",
    "C07_equal_refuted",
    "C07_equal_copy_refuted",
    "C07_concat"
   ],
   "note": "Every program of create_string, copy_string, set_nth_char, fill_string and blit_string within bounds keeps the length recoverable and the contents exact (block copies below 2^31 bytes); comparison is unsigned lexicographic for all lengths; concatenation exact. Equality is proved for strings below 2^31 bytes and refuted beyond: sml_equal_aux keeps the length in an int, so a string of 2^32 bytes equals the empty string, and no string of 2^31 bytes equals its copy."
  },
  {
   "property": "C08",
   "status": "partial",
   "theorems": [
    "C08_equality_partial",
    "C08_same_equivalence",
    "C08_nan_refuted",
    "C08_order_total",
    "C08_compare_val",
    "C08_compare_partial",
    "C08_compare_refuted",
    "C08_compare_ref_refuted",
    "C08_hash_total",
    "C08_hash_structural",
    "C08_equal_hash_partial",
    "C08_equal_hash_refuted"
   ],
   "note": "Equality is structural equality for all finite values with strings below 2^31 bytes and without NaN (both exceptions refuted). compare_val computes a total order on values of one type whose equivalence is structural equality; the result of the ML function compare loses its sign for integers 2^62 apart (refuted) and treats references by contents (refuted). Hashing terminates on all values, also cyclic, depends only on the structure, and respects equality except for the reals 0.0 and ~0.0, which are equal with different hashes (refuted)."
  },
  {
   "property": "C09",
   "status": "proved",
   "theorems": [
    "C09_blocks_intact",
    "C09_heap_is_tiled",
    "C09_allocation",
    "C09_sweep_frees_white"
   ],
   "note": "Every execution of alloc_shr / fl_allocate / expand_heap / fl_add_block / sweeping with fl_merge_block, with any placement of chunks by malloc, at the level of memory words including header encodings."
  },
  {
   "property": "C10",
   "status": "partial",
   "theorems": [
    "C10_free_list_partial",
    "C10_free_list_refuted"
   ],
   "note": "Ordering and coalescing proved when new chunks obtained while sweeping lie above the sweep pointer or below some free block; refuted otherwise (fl_add_block appends without advancing fl_merge: list becomes unordered and adjacent free blocks are never joined)."
  },
  {
   "property": "C11",
   "status": "proved",
   "theorems": [
    "C11_exact",
    "C11_chunks",
    "C11_block",
    "C11_start_increment",
    "C11_gc_set_refuted"
   ],
   "note": "init_major_heap, expand_heap, aligned_malloc, round_heap_chunk_size, the range table with its growth and the unrolled search, and Is_in_heap; malloc is any allocator returning fresh user-space memory. Exact for every address and history as long as the heap increment is a multiple of the page size, which start-up guarantees (C11_start_increment). The primitive gc_set (not bound by the library) can set an increment of 1024 bytes, and then a chunk is not recognised (C11_gc_set_refuted)."
  },
  {
   "property": "C12",
   "status": "proved",
   "theorems": [
    "C12_minor_preserves",
    "C12_minor_total"
   ],
   "note": "minor_collection, oldify (with forwarding, the copying of field 0 before the forward pointer is set, tail field last), oldify_refs, on every state reachable by any program and collector interleaving. The reachable graphs before and after are isomorphic, the minor heap is given up, the remembered set is empty; the only failure is exhausted memory."
  },
  {
   "property": "C13",
   "status": "proved",
   "theorems": [
    "C13_recorded",
    "C13_modify_defined"
   ],
   "note": "Modify, initialize, direct stores of data, allocation in both heaps, the reference table with its threshold, reserve and growth; invariant over all histories. Assignments never write outside the table."
  },
  {
   "property": "C14",
   "status": "proved",
   "theorems": [
    "C14_reachable_allocated",
    "C14_frees_garbage_only",
    "C14_collector_keeps",
    "C14_garbage_freed",
    "C14_full_collection"
   ],
   "note": "Transition system with all mutator steps and the turns of mark_slice, weak_phase and sweep_slice in any order; gray stack of bounded size with overflow, realloc that may fail, and the heap walk that follows; chunks added anywhere at any time. Every block unreachable at the start of a cycle is freed before the next starts, unless a weak pointer to it is followed or overwritten in between (which may revive it). Marking and sweeping terminate, and gc_full_major leaves no unreachable block. Final functions are not modelled."
  },
  {
   "property": "C15",
   "status": "partial",
   "theorems": [
    "C15_weak_valid",
    "C15_live_partial",
    "C15_live_refuted",
    "C15_huge_array_refuted"
   ],
   "note": "A weak pointer never yields a reclaimed object: proved for every execution. That a live target is never reported dead or cleared is false of the code: an object allocated, during the weak phase, in a new chunk below the first one is white (C15_live_refuted); proved when the heap is never extended downwards (C15_live_partial). Weak arrays of 2^31 fields are skipped by weak_phase (C15_huge_array_refuted, on a hand-made state); the executions considered have smaller weak arrays."
  },
  {
   "property": "C16",
   "status": "partial",
   "theorems": [
    "C16_round_trip_partial",
    "C16_immediate",
    "C16_immediate_refuted",
    "C16_weak_refuted",
    "C16_functions"
   ],
   "note": "extern.c and intern.c (native 64-bit format) with the open-addressing table, its growth, the growing output block and the scan of the block as a queue; memory is a partial map of words, reading outside is undefined. Every graph (shared, cyclic) of less than 2^28 words is read back as an isomorphic graph by any reader, in any memory, which consumes exactly the bytes written. The full claim is false for integers at the top: every negative integer and every integer from 2^31 on is read back as another (C16_immediate), and for weak arrays (C16_weak_refuted). Big-endian and 32-bit files are not modelled."
  },
  {
   "property": "C17",
   "status": "partial",
   "theorems": [
    "C17_round_trip_partial",
    "C17_large",
    "C17_large_refuted",
    "C17_functions"
   ],
   "note": "externcp.c and interncp.c (64-bit little-endian), byte by byte, with the table of objects; memory is a partial map of words and reading or writing outside is undefined. Every graph (shared, cyclic, with strings, reals, all integers) of less than 2^28 words whose blocks have less than 2^22 fields is read back as an isomorphic graph by any reader in any memory, whatever the contents of the new block, consuming exactly the bytes written. The full claim is false for larger blocks: an array of 2^22 zeros is read back as the empty array and its elements stay in the channel (C17_large). The depth of the C stack and the seek back to the header are not modelled."
  },
  {
   "property": "C18",
   "status": "partial",
   "theorems": [
    "C18_flat_partial",
    "C18_block",
    "C18_refuted",
    "C18_length_refuted"
   ],
   "note": "string_mlval and mlval_string of mosml.c on a 64-bit machine. The claim is false for every block: C18_block shows that mlval_string fails on the string made of any block of less than 2^28 words, whatever the reader's memory and allocator. Integers and atoms survive (C18_flat_partial) but the string made of them has a wrong length (C18_length_refuted)."
  },
  {
   "property": "C19",
   "status": "partial",
   "theorems": [
    "C19_output_partial",
    "C19_seek_partial",
    "C19_flush_refuted",
    "C19_block_refuted",
    "C19_huge_refuted"
   ],
   "note": "io.c output channels with any schedule of short writes. Exact for all histories in which seeks follow a flush (all buffer alignments and block sizes below 2^31), and for arbitrary seeks when there is no flush before closing and blocks are below 4096 bytes. The full claim is false: flushing after a seek back into the buffer moves the position (C19_flush_refuted), a block of 4096 bytes or more after a seek to the start of the buffer duplicates the old bytes (C19_block_refuted), blocks of 2^31 bytes are dropped (C19_huge_refuted). Write errors are not modelled."
  },
  {
   "property": "C20",
   "status": "proved",
   "theorems": [
    "C20_input",
    "C20_read_all",
    "C20_huge_refuted"
   ],
   "note": "io.c input channels with any schedule of short reads, blocking or not; requests below 2^31 bytes, positions not negative. Beyond that a request of 2^32 characters returns the empty string, which means end of file (C20_huge_refuted). Read errors are not modelled."
  },
  {
   "property": "C21",
   "status": "proved",
   "theorems": [
    "C21_md5sum",
    "C21_encoding_injective",
    "C21_fingerprint",
    "C21_table",
    "C21_huge_refuted"
   ],
   "note": "md5sum, md5, encode, decode, enc64 and the table modelled with the 16384-byte buffer (accesses outside are UB); specification after RFC 1321 (listing of the 64 operations) and RFC 4648. C21_table proves the table against the real sine function (uses the axioms of Coq's Reals). Beyond the stated bound: from 2^31 bytes on the length becomes negative and the copy is undefined (C21_huge_refuted)."
  },
  {
   "property": "C22",
   "status": "partial",
   "theorems": [
    "C22_sort",
    "C22_sorted",
    "C22_merge",
    "C22_mergeUniq_partial",
    "C22_mergeUniq_refuted",
    "C22_eqclasses"
   ],
   "note": "sort, sorted, merge, eqclasses proved in full. The documented no-duplicates claim of mergeUniq is refuted when an argument itself contains duplicates, and proved for duplicate-free arguments."
  },
  {
   "property": "C23",
   "status": "proved",
   "theorems": [
    "C23_sort",
    "C23_sorted"
   ],
   "note": "Memory safety, termination and permutation for any pure comparison function, sortedness for total preorders; sorted is exact. Unchecked array primitives are modelled as undefined behaviour out of range."
  },
  {
   "property": "C24",
   "status": "partial",
   "theorems": [
    "C24_history",
    "C24_counts",
    "C24_map",
    "C24_balanced_refuted"
   ],
   "note": "Functional correctness of every history, absence of internal failures and correctness of the size counters proved in full. The weight-balance criterion is refuted (insert 6,7,2,4,8,1,3,5 then remove 6)."
  },
  {
   "property": "C25",
   "status": "proved",
   "theorems": [
    "C25_intmap",
    "C25_intmap_map",
    "C25_intset_observers",
    "C25_intset_binary",
    "C25_intmap_balanced_refuted",
    "C25_intset_balanced_refuted"
   ],
   "note": "Every history; sets specified by characteristic functions. In addition the balance criterion claimed in the comments of both files is refuted."
  },
  {
   "property": "C26",
   "status": "proved",
   "theorems": [
    "C26_history",
    "C26_balanced",
    "C26_map"
   ],
   "note": "Any history of insert/remove/map/transform with any total preorder on keys; find, peek, numItems, listItems, foldl, foldr, app, revapp observed. Item counter unbounded (2^62 nodes do not fit in memory)."
  },
  {
   "property": "C27",
   "status": "partial",
   "theorems": [
    "C27_observers",
    "C27_binary",
    "C27_set_laws",
    "C27_balanced",
    "C27_map",
    "C27_mapMono_refuted",
    "C27_mapMono_actual",
    "C27_compare_doc_refuted"
   ],
   "note": "Every client program over empty/singleton/add/addList/delete/union/intersection/difference/subset/map: all observers, comparisons, order and red-black balance proved. mapMono is refuted for strictly increasing functions (it accepts exactly the strictly decreasing ones); the documented 'isSubset implies compare = LESS' is refuted."
  },
  {
   "property": "C28",
   "status": "proved",
   "theorems": [
    "C28_splaymap",
    "C28_splayset_observers",
    "C28_splayset_binary"
   ],
   "note": "Every client program over any number of dictionaries/sets kept alive and sharing cells: lookups rewrite trees in place in a store, and every version keeps its abstract value. map/transform restricted to functions keeping the value type (one store holds trees of one type). Order of cost (amortised bounds) not claimed."
  },
  {
   "property": "C29",
   "status": "partial",
   "theorems": [
    "C29_observers",
    "C29_binary",
    "C29_counts",
    "C29_balanced_refuted"
   ],
   "note": "Every client program over empty/singleton/add/addList/delete/union/intersection/difference (including hedge union): all observers and comparisons proved, no internal failure reachable, size counters right. The weight-balance criterion is refuted."
  },
  {
   "property": "C30",
   "status": "proved",
   "theorems": [
    "C30_polyhash",
    "C30_polyhash_unique",
    "C30_mkTable_size",
    "C30_mkTable_terminates_refuted",
    "C30_hashset",
    "C30_hashset_binary"
   ],
   "note": "Every history (up to the length at which the array could exceed Array.maxLen), for any hash function compatible with the equality. In addition: mkTable with a size hint above 2^61 does not terminate (refuted). The polymorphic hash function itself is C08."
  },
  {
   "property": "C31",
   "status": "partial",
   "theorems": [
    "C31_buffer_partial",
    "C31_new_size",
    "C31_buffer_refuted"
   ],
   "note": "Every history of addChar/addString/addSubString/clear/reset/contents/size, whatever bytes new strings contain; Size raised exactly when the text would exceed String.maxSize. Restricted to texts below 2^31 bytes: beyond, blit_string truncates its length to 32 bits and the property is refuted."
  },
  {
   "property": "C32",
   "status": "proved",
   "theorems": [
    "C32_update",
    "C32_sub",
    "C32_array",
    "C32_fromList",
    "C32_tabulate",
    "C32_subArray",
    "C32_subArray_size",
    "C32_history",
    "C32_subArray_doc_refuted",
    "C32_update_size_refuted"
   ],
   "note": "Exact behaviour of every operation and of every history. In addition: the range documented for subArray ([m,n] inclusive) is refuted, and update may raise Size although index+1 <= Array.maxLen."
  },
  {
   "property": "C33",
   "status": "partial",
   "theorems": [
    "C33_splitl",
    "C33_splitr",
    "C33_fields",
    "C33_tokens",
    "C33_fields_unique",
    "C33_tokens_unique",
    "C33_folds",
    "C33_position",
    "C33_tests",
    "C33_collate",
    "C33_lex_equal",
    "C33_lex_less",
    "C33_extract",
    "C33_sub",
    "C33_trim",
    "C33_splitAt",
    "C33_slice_partial",
    "C33_slice_subscript_refuted",
    "C33_string_extract_subscript_refuted",
    "C33_span",
    "C33_getc",
    "C33_string_partial",
    "C33_string_refuted",
    "C33_translate_partial",
    "C33_concat_partial",
    "C33_concatWith_partial",
    "C33_implode",
    "C33_map",
    "C33_find",
    "C33_string_sub",
    "C33_string_substring_partial",
    "C33_string_tokens_partial",
    "C33_string_folds",
    "C33_pad_partial"
   ],
   "note": "All of Substring and String except escapes (C06). Splitting, fields, tokens, position, prefix/suffix/substring tests, collate, folds proved for every substring. Functions that copy with blit_string are proved for pieces shorter than 2^31 bytes and refuted beyond (C33_string_refuted). 'Subscript exactly for out-of-range arguments' is refuted for Substring.slice and String.extract, where an intermediate sum overflows, and proved otherwise."
  },
  {
   "property": "C34",
   "status": "partial",
   "theorems": [
    "C34_fields_are_fields",
    "C34_splitr_is_splitr",
    "C34_fromString",
    "C34_toString_fromString",
    "C34_fromString_toString",
    "C34_toString_relative_empty",
    "C34_fromString_toString_refuted",
    "C34_isAbsolute",
    "C34_mkCanonical",
    "C34_mkCanonical_idempotent",
    "C34_mkCanonical_complete",
    "C34_isCanonical",
    "C34_splitDirFile",
    "C34_concat",
    "C34_concat_place",
    "C34_join_split",
    "C34_join_split_doubled",
    "C34_join_split_refuted",
    "C34_split_join",
    "C34_join_split_canonical",
    "C34_splitBaseExt",
    "C34_join_split_ext",
    "C34_join_split_ext_refuted",
    "C34_mkAbsolute",
    "C34_mkRelative",
    "C34_mkRelative_other",
    "C34_relative_absolute",
    "C34_relative_absolute_canonical",
    "C34_mkRelative_refuted",
    "C34_getParent"
   ],
   "note": "Canonicalisation is proved idempotent, place-preserving and complete (equal canonical forms exactly for paths leading to the same place from everywhere). Splitting and joining are inverse exactly when no empty arc precedes the last arc: joinDirFile (splitDirFile \"a//b\") = \"a/b\" (C34_join_split_refuted), likewise joinBaseExt/splitBaseExt. mkRelative then mkAbsolute gives the canonical original whenever mkRelative returns, always for canonical paths; mkRelative{path=\"/a/\", relativeTo=\"/a\"} raises Path (C34_mkRelative_refuted). The sub-claims that are false of the code are refuted, the rest is proved. Strings beyond the maximal length are not considered."
  },
  {
   "property": "C35",
   "status": "partial",
   "theorems": [
    "C35_always_refused",
    "C35_refuted",
    "C35_empty"
   ],
   "note": "False of the code: the invalid-arc test is inverted (Path.mlp 432-434), so fromUnixPath and toUnixPath raise InvalidArc on every non-empty path. Refuted; what the functions do is proved for all paths."
  },
  {
   "property": "C36",
   "status": "partial",
   "theorems": [
    "C36_numbering_bijective",
    "C36_todaynumber",
    "C36_fromdaynumber",
    "C36_negative_year",
    "C36_date_with_offset",
    "C36_date_local",
    "C36_compare",
    "C36_toTime_partial",
    "C36_offset_12h_refuted",
    "C36_offset_excess_refuted"
   ],
   "note": "The calendar claim is proved in full for Date.date with an offset below 24 hours and for dates outside 1970-2037; between 1970 and 2037 without an offset the result passes through the C library, and the theorem is relative to its answer. Extra findings: an offset of exactly 12 hours, and offsets of two days or more, give a date whose toTime is a day late."
  },
  {
   "property": "C37",
   "status": "partial",
   "theorems": [
    "C37_longest_match_partial",
    "C37_generates",
    "C37_returns",
    "C37_epsilon_only_refuted",
    "C37_many_rules_refuted"
   ],
   "note": "Mainlex.sml (expansion of names), Lexgen.sml and the decision code of Output.sml function by function, with Sort.sml and the run of the generated code over a character stream. For every definition with at most 32767 rules: generation terminates; whenever the generated lexer returns, it returns the longest match and the first rule among equals, and Fail exactly when no rule matches a prefix; and it returns whenever the rules stop matching extensions of some prefix. The full claim is false for an entry point that matches only the empty word (the emitted text calls an undefined function) and for more than 32767 rules (the action run is that of a rule that does not match). The scanner and grammar of mosmllex, the text printed, and the Lexing buffer are not modelled here."
  },
  {
   "property": "C38",
   "status": "proved",
   "theorems": [
    "C38_transitive_closure",
    "C38_reflexive_transitive_closure"
   ],
   "note": "warshall.c modelled at word and mask level, pointers as indices, accesses outside the matrix and int overflow of n*rowsize are UB; matrices limited to fewer than 2^31 words because the C code computes n*rowsize in an int"
  },
  {
   "property": "C39",
   "status": "partial",
   "theorems": [
    "C39_match_partial",
    "C39_crash_refuted"
   ],
   "note": "Match.sml function by function (patterns, term descriptions, static matching, contexts, the dag with its reference counts and hash consing, the code with switches and shared nodes); the hash table may answer anything. For all well-typed rows and values, whenever the compiler returns code, running it on the representation of the values picks the first matching row, fails exactly if none matches, and never falls through; reported unused rules are never first to match and absence of failure code means exhaustive. The missing part, that the compiler returns, is false: on exceptions with tuple arguments of different lengths it stops with fatalError (C39_crash_refuted). Termination on other rows is not proved."
  },
  {
   "property": "C40",
   "status": "proved",
   "theorems": [
    "C40_calls"
   ],
   "note": "for the code of every phrase that the back end makes: APPLY1-4, APPLY n, APPTERM n with any number of arguments, against application one argument at a time; the bodies of functions are covered (the simulation of the whole evaluator is used). Hypotheses: shared nodes are used alike (shared_ok), the arithmetic primitives left open satisfy prims_ok (which the comparisons of reals do not when NaN arises: C46_nan_refuted)."
  },
  {
   "property": "C41",
   "status": "partial",
   "theorems": [
    "C41_handlers_partial",
    "C41_overflow_refuted"
   ],
   "note": "sp, trapsp and the trap chain as addresses in a block of memory, realloc_stack with relocation, PUSHTRAP, POPTRAP, RAISE; every trace in which at most 256 words are pushed between stack checks. Without that bound it is false: only calls check the stack, so that code building a large tuple writes below the stack (C41_overflow_refuted, and the compiled code in Back_Props.C41_code)."
  },
  {
   "property": "C42",
   "status": "partial",
   "theorems": [
    "C42_floor",
    "C42_ceil_partial",
    "C42_trunc_partial",
    "C42_round_partial",
    "C42_infinity",
    "C42_ceil_refuted",
    "C42_trunc_refuted",
    "C42_round_refuted",
    "C42_nan_refuted"
   ],
   "note": "sml_floor, sml_ceil, sml_trunc, sml_round on all 2^64 bit patterns, with C comparison, (long), (double) and rint on bits. floor is exact for every finite real. ceil and trunc are exact except at -2^62, where they raise Overflow although the result is an int (refuted); round is exact except at 2^62, where it returns -2^62 instead of raising Overflow (refuted). Infinities raise Overflow; NaN reaches an undefined C conversion. Only the rint variant of sml_round is modelled."
  },
  {
   "property": "C43",
   "status": "partial",
   "theorems": [
    "C43_array_copy",
    "C43_slice_copy",
    "C43_subslice",
    "C43_copyVec",
    "C43_new_matrix",
    "C43_array2_copy",
    "C43_memmov",
    "C43_blit_string_partial",
    "C43_blit_string_refuted",
    "C43_blit_string_negative_refuted",
    "C43_array_copy_subscript_refuted",
    "C43_array2_copy_subscript_refuted",
    "C43_array2_copy_atomic_refuted"
   ],
   "note": "Array.copy, copyVec, ArraySlice.slice/subslice/copy and Array2.copy proved for every placement of source and destination, memmov byte for byte. blit_string (CharArray, Word8Array, Buffer) proved for lengths below 2^31 and refuted from there on (length truncated to 32 bits). Refuted: Subscript in every out-of-range case (Overflow for huge di; nothing raised by Array2.copy of an empty region; Array2.copy raises after partial copying)."
  },
  {
   "property": "C44",
   "status": "proved",
   "theorems": [
    "C44_code",
    "C44_succeeds",
    "C44_operand",
    "C44_table",
    "C44_branch",
    "C44_switch",
    "C44_closure_size",
    "C44_closure_size_refuted"
   ],
   "note": "Buffcode, Labels, Reloc, Emitcode and Emit_phr modelled with their mutable buffer, label table and relocation list. C44_code: the code is the concatenation of the emitted bytes, every label operand holding definition minus origin, from any initial buffer. C44_succeeds: emission succeeds exactly when no error call, no negative label and no doubly defined label occurs. C44_branch and C44_switch state it for instructions of a phrase, for code below 2^31 bytes (offsets are 32 bits). Extra finding: closures with more than 255 free variables get their size modulo 256 (C44_closure_size_refuted)."
  },
  {
   "property": "C45",
   "status": "proved",
   "theorems": [
    "C45_resolves",
    "C45_unique",
    "C45_complete",
    "C45_refuses"
   ],
   "note": "resolveInfix modelled with its stack and output, generic in the syntax operations; function application is included as the tightest, left-associative operator; applyObj taken total (for patterns it may stop with an error message)"
  },
  {
   "property": "C46",
   "status": "partial",
   "theorems": [
    "C46_unshared_partial",
    "C46_code_partial",
    "C46_shared_refuted",
    "C46_nan_refuted",
    "C46_keys_refuted",
    "C46_tables"
   ],
   "note": "all of Back.sml modelled, and interp.c at the level of the instructions of Instruct.sml. C46_unshared_partial: for every closed term without shared nodes the code made by compileLambda (lifting of functions, removal of references, generation of code), run by the machine, leaves what the term means (Lam_Spec: de Bruijn indices, one argument at a time). C46_code_partial: for terms with shared nodes, the code does what the evaluator gives for the term after UNdeBruijn. Missing: terms with shared nodes through UNdeBruijn, in general false: C46_shared_refuted (a let whose variable is used in a shared node); C46_nan_refuted (comparison of reals: excluded by prims_ok), C46_keys_refuted (Overflow in the compiler). C46_tables: the tables of N-way branches on integers have 1 to 255 entries, as many as keys from the least to the greatest, so their size fits the byte of SWITCH; the tables of compDirectSwitch (one entry for each constructor) are not covered by it."
  },
  {
   "property": "C47",
   "status": "partial",
   "theorems": [
    "C47_unifies",
    "C47_fails_only_without_unifier",
    "C47_stops",
    "C47_fatal_refuted"
   ],
   "note": "Types.unify and all it calls, over a heap of mutable cells (type variables, record nodes, rows) with sharing; type constructors are names applied to arguments (no APPtyapp, REAts, PACKt). Solutions are assignments of finite trees that meet all links and attributes. Proved: when unify returns, the solutions of the new heap are exactly the old ones that make the types equal (sound and most general), and there is one (no circular types); when it raises Unify, no old solution makes the types equal. The last part of the claim is false: on types that share a row unify stops with fatalError although a unifier exists (C47_fatal_refuted). unify always stops (C47_stops)."
  },
  {
   "property": "C48",
   "status": "partial",
   "theorems": [
    "C48_reader",
    "C48_reader_any_token",
    "C48_portions",
    "C48_string",
    "C48_string_or_reader",
    "C48_generated_lexer",
    "C48_long_token_refuted",
    "C48_second_end_refuted",
    "C48_illegal_goes_back_refuted",
    "C48_illegal_then_too_long_refuted",
    "C48_illegal_lexeme_refuted"
   ],
   "note": "Lexing.sml and get_next_char, for arbitrary programs over a lexer buffer (trees of operations) and for generated lexers together with C37. Proved: with tokens up to 1024 characters every program gives the result it would give with the whole input before it, whatever the portions and equally with a string; with longer tokens that result or Fail; no access outside the buffer; generated lexers find the longest matches. False in four points: whether a longer token is accepted depends on the portions; a second end of input looks different with a string; after Fail for an illegal symbol the buffer is put back to a stale position, so that earlier tokens are found again or every further call fails; getLexeme then copies a negative length."
  },
  {
   "property": "C49",
   "status": "partial",
   "theorems": [
    "C49_input",
    "C49_scan",
    "C49_output",
    "C49_stderr",
    "C49_closed_output",
    "C49_scan_loses_refuted",
    "C49_inputN_refuted",
    "C49_inputAll_refuted",
    "C49_inputLine_refuted",
    "C49_close_stdout_refuted"
   ],
   "note": "TextIO.sml's stream operations on the channels of C19/C20 (BinIO calls the same functions). Proved for files below 2^31 - 1 characters and lengths below 2^32: every sequence of operations, with every schedule of short reads and writes, gives what the list of characters to come prescribes; scanners (arbitrary trees of calls of getc) see the characters to come; output. False: scanStream loses the characters the scanner looked at without using them; inputN of 2^32 characters returns the empty string; inputAll and inputLine of 2^31 characters copy a negative length; closeOut on stdOut does not flush."
  },
  {
   "property": "C50",
   "status": "proved",
   "theorems": [
    "C50_units",
    "C50_stops",
    "C50_succeeds",
    "C50_keeps_order",
    "C50_link",
    "C50_program"
   ],
   "note": "Link.sml's three passes with the tables of Symtable.sml and the patching of Patch.sml, down to the bytes of the code. Hypotheses: operands of a phrase lie in its code and do not overlap, exported identifiers of a unit are different (they come from a hash table), at most 65536 primitives (operands of 2 bytes), at most 2^32 globals (operands of 4 bytes). Not modelled: search path and file formats, header, trailer and symbol section of the executable, exceptions' names."
  },
  {
   "property": "C51",
   "status": "partial",
   "theorems": [
    "C51_generated",
    "C51_layout",
    "C51_string",
    "C51_char",
    "C51_int",
    "C51_word",
    "C51_real",
    "C51_identifier",
    "C51_only",
    "C51_only_numbers",
    "C51_ends",
    "C51_bad_string",
    "C51_bad_comment",
    "C51_sml_literals_partial",
    "C51_toString",
    "C51_formfeed_gap_refuted",
    "C51_nonprintable_refuted"
   ],
   "note": "The rules of Lexer.lex are given to the model of mosmllex (C37), and the actions run on the automaton it generates, so the theorems are about longest match as it is done. Partial because of two findings: a gap of a string constant may contain spaces, tabs, newlines and carriage returns but no formfeed, which the Definition allows (C51_formfeed_gap_refuted; without formfeeds C51_sml_literals_partial); characters 27-31 and 128-254 stand for themselves though they are not printable (C51_nonprintable_refuted; for 128-254 this is intended). Hypothesis: the source is shorter than 64 petabytes. C51_int, C51_word and C51_real need the next character not to be one that occurs in numbers. Not covered: the conversion of the text of a real constant to a double, symbolic and qualified identifiers other than that the lexer returns, quotations, the buffer (C48 shows that it does not matter)."
  },
  {
   "property": "C52",
   "status": "partial",
   "theorems": [
    "C52_generalization",
    "C52_value_restriction",
    "C52_ends",
    "C52_specialization",
    "C52_independent"
   ],
   "note": "Types.sml: generalization, specialization, copyType, refreshTypeVar, on the heap of C47. Proved for every heap and type. Partial: types of type functions (REAts, APPtyapp) and packages are not in the model of types, as in C47; the type's records must be normalised (means), which freeVarsType, called first by generalization, brings about for records reached through normType; copyType copies only the fields of a record and shares its row, and row variables are never generalised (Elab makes them at level ~1), so an instance shares them; which expressions are expansive (Elab.isExpansiveExp) is not modelled. That the level of a variable is above the binding level exactly if it does not occur in the environment is the invariant the type checker relies on: it is kept by unify (C47: levels only go down, to those of the variables they are bound to) but is not proved for the elaboration as a whole."
  },
  {
   "property": "C53",
   "status": "proved",
   "theorems": [
    "C53_arith",
    "C53_bits",
    "C53_shifts",
    "C53_conversions",
    "C53_compare",
    "C53_scan",
    "C53_fmt",
    "C53_roundtrip",
    "C53_fromString"
   ],
   "note": "All of Word8.sml (on the 64-bit machine of C01-C05). The prefix 0w before hexadecimal digits without x, which the Basis library does not provide for, is accepted, as by Word.scan (C05). Not covered: Word8 constants in programs other than their reading as words (C51)."
  },
  {
   "property": "C54",
   "status": "proved",
   "theorems": [
    "C54_url_chars",
    "C54_urlencode",
    "C54_decode",
    "C54_url_roundtrip",
    "C54_fields",
    "C54_query",
    "C54_html",
    "C54_html_unique"
   ],
   "note": "Requests that are not multipart; the multipart reader of Mosmlcgi.sml 174-240 is not modelled. The dictionary is the finite map that a Splaymap stands for (C28). Strings whose encoding would not fit in a string (maxSize) raise Size: bounds in the theorems. A value with a malformed escape is read as the empty string, as the code says."
  },
  {
   "property": "C55",
   "status": "proved",
   "theorems": [
    "C55_total",
    "C55_search_total",
    "C55_lists",
    "C55_access",
    "C55_ends",
    "C55_map",
    "C55_app",
    "C55_mapPartial",
    "C55_filter",
    "C55_tabulate",
    "C55_search",
    "C55_all",
    "C55_folds",
    "C55_collate",
    "C55_zip",
    "C55_pairs",
    "C55_pairs_eq"
   ],
   "note": "All of List.sml and ListPair.sml. The functions given are arbitrary state transformers that return or raise an exception; a call that does not return is not modelled, nor is the stack of the interpreter (List.map and foldr are not tail recursive). Evaluation from left to right is that of the Definition; that the compiler keeps it is not part of this claim."
  },
  {
   "property": "C56",
   "status": "proved",
   "theorems": [
    "C56_loops",
    "C56_indexed",
    "C56_make",
    "C56_concat",
    "C56_tabulate",
    "C56_collate"
   ],
   "note": "All of Vector.mlp on 64-bit machines. What the List operations do is C55. The functions given are arbitrary state transformers that return or raise an exception; a call that does not return is not modelled. A vector is the list of its elements; its block in the heap is not part of this claim."
  },
  {
   "property": "C57",
   "status": "proved",
   "theorems": [
    "C57_slice",
    "C57_subslice",
    "C57_access",
    "C57_loops",
    "C57_indexed",
    "C57_concat",
    "C57_collate"
   ],
   "note": "All of VectorSlice.sml on 64-bit machines. What the List operations do is C55. The functions given are arbitrary state transformers that return or raise an exception; a call that does not return is not modelled. The theorems are for slices that show a part of their vector (`shows`); C57_slice, C57_subslice and C57_access say that all slices a user can make do."
  },
  {
   "property": "C58",
   "status": "partial",
   "theorems": [
    "C58_iterators",
    "C58_indexed",
    "C58_find_partial",
    "C58_find_refuted"
   ],
   "note": "The iterators of Array.mlp (122-208); collate is not modelled here. The part about find is false: find reads the element again after the call of p, so it returns what p left there (C58_find_refuted); it holds for p that do not change the array (C58_find_partial). C58_indexed says exactly what findi does. The hypothesis keeps (a call leaves the length of the array) holds of every SML function."
  },
  {
   "property": "C59",
   "status": "partial",
   "theorems": [
    "C59_value_partial",
    "C59_delay",
    "C59_once_refuted",
    "C59_exception_refuted"
   ],
   "note": "All of Susp.sml. That the expression is evaluated at most once, as Susp.sig says, is false: not if it forces its own suspension (C59_once_refuted; the inner force returns another value than later ones), nor if it raises an exception (C59_exception_refuted: evaluated again at the next force). C59_value_partial: once a force has returned, the value stays and nothing is evaluated again."
  }
 ]
}