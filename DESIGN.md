# Verification design: Moscow ML (runtime, library, compiler back end, tools)

Source under study: `/repo` (kfl/mosml, pinned commit), read as text only.

## Method

* The model is written in Gallina (Coq 8.16.1), function by function, from the C and
  SML sources.  Each definition cites the file and the lines it transcribes and says
  where it simplifies.
* Target: Unix, 64-bit, little endian (`SIXTYFOUR` defined, `MOSML_BIG_ENDIAN` undefined), so
  ML integers are 63-bit tagged words (`Val_long(x) = 2x+1`).  `.mlp` files are read
  with the `unix` branches.
* C undefined behaviour that matters (out of bounds access, overflow) is a distinct
  outcome of the model (`UB`), never a default value.  SML exceptions are the outcome `Raise e`.
* Machine wrap-around is written explicitly (`mod 2^64`, `mod 2^63`, `mod 2^32`).
* Non-structural loops use fuel with a distinct outcome `Diverge`; the theorems give enough fuel
  explicitly and conclude a proper result, so they are total-correctness results unless the note
  says otherwise.
* User-supplied functions (comparison functions, folding functions, character readers) are
  arbitrary pure total Gallina functions; hypotheses such as "total preorder" are stated.

Layout: for an area `A`, `A_Model.v` holds definitions only (no proofs), `A_Spec.v` (where large)
the specification, `A_Proofs.v` lemmas, `A_Props.v` the specification (where small), the theorems
`Cnn_...`, Examples showing that the hypotheses can be met, and `Print Assumptions`.
`Base.v` has the outcome monad and machine integers, `ArrayLib.v` arrays, `OrderSpec.v`, `FinMap.v`,
`MapSpec.v`, `SetSpec.v` the specifications of orders, finite maps, dictionaries and sets shared by
several containers.

Names: `..._partial` marks a theorem that covers part of a property; `..._refuted` an existential
theorem showing a (sub-)claim false of the code.

## Trusted base

* Coq's kernel (including `vm_compute`, used for refutation witnesses, Examples and constants).
* `Print Assumptions` prints "Closed under the global context" for every theorem listed in
  MANIFEST.json: no axioms at all, neither own nor of the standard library.  (`ssreflect`'s
  `Under_rel` module type, loaded with the standard library, shows up in context listings only.)
* The reading of the source: that the Gallina definitions say what the cited lines say.
  The C compiler, the SML compiler bootstrapped by mosml itself, libc, and the operating
  system are not modelled except where a model section says so.
* Left shifts of negative signed longs (`Val_long` of a negative number), conversions of
  out-of-range integers to narrower types and right shifts of negative numbers are taken as gcc
  defines them (two's complement).



## Properties: what is modelled, how it is proved, status

### C01 Integer +, -, *, ~ are exact or raise Overflow

Model and method: `Arith`: each opcode of interp.c is a function from tagged words to outcomes; compared with `Z` arithmetic.

Status: **partial** (Arith_Props.v). +, -, ~ and successor/predecessor fully proved. Multiplication is refuted at 2^31 * ~2^31 (spurious Overflow) and proved exact for all other operand pairs.

Theorems: `C01_add_exact`, `C01_sub_exact`, `C01_neg_exact`, `C01_succ_exact`, `C01_pred_exact`, `C01_mul_partial`, `C01_mul_refuted`.

### C02 Integer div, mod, quot, rem obey the division laws or raise Div/Overflow

Model and method: `Arith`: as C01, with C's truncating division.

Status: **proved** (Arith_Props.v). All four operations on all operands; no C undefined behaviour is reached.

Theorems: `C02_div_mod`, `C02_quot_rem`, `C02_floor_unique`, `C02_div_overflow`, `C02_div_by_zero`.

### C03 Word arithmetic, bit operations and shifts are exact modulo 2^63

Model and method: `Arith`: as C01, operations modulo 2^63.

Status: **partial** (Arith_Props.v). Everything proved except Word.~, which is refuted at 0w4611686018427387904 (raises Overflow) and proved for all other words.

Theorems: `C03_word_arith`, `C03_word_bits`, `C03_word_shifts`, `C03_word_compare`, `C03_word_toInt`, `C03_word_neg_partial`, `C03_word_neg_refuted`.

### C04 Int.fmt / Int.toString and Int.scan / Int.fromString are inverse

Model and method: `Scan`: Int.fmt/scan over an arbitrary character reader; simulation by list scanning; value of digit strings specified by positional notation.

Status: **proved** (Scan_Props.v). Any reader and any finite source; arithmetic through the modelled opcodes SMLMULINT, SMLADDINT, ...; includes integer literals (sml_int_of_string, sml_int_of_hex) and toString (sprintf taken as in the C standard).

Theorems: `C04_unambiguous`, `C04_scan`, `C04_fmt`, `C04_roundtrip`, `C04_fromString`, `C04_toString`, `C04_literals`.

### C05 Word.fmt and Word.scan are inverse

Model and method: `Scan`: the same for Word, modulo 2^63.

Status: **proved** (Scan_Props.v). Any reader and any finite source; value modulo 2^63. In addition two statements of Word.sig are refuted: Overflow is never raised, and 0w is accepted as a hexadecimal prefix.

Theorems: `C05_unambiguous`, `C05_scan`, `C05_fmt`, `C05_roundtrip`, `C05_fromString`, `C05_toString`, `C05_literals`, `C05_documented_overflow_refuted`, `C05_documented_prefix_refuted`.

### C06 String.toString / String.fromString round trip

Model and method: `Escape`: printing and reading functions on byte lists against an inductive relation between texts and characters.

Status: **partial** (Escape_Props.v). ML and C escapes are specified as relations between texts and characters (Escape_Spec.v); printing gives printable, properly quoted text denoting the string; reading accepts exactly the well-formed texts; both readings are unambiguous; all round trips. Complete for the ML escapes and for characters. Missing: String.fromCString on texts of 2^31 characters or more, where the copying primitive truncates lengths (see C43).

Theorems: `C06_toString`, `C06_toCString`, `C06_fromString`, `C06_ml_text_unambiguous`, `C06_fromCString_partial`, `C06_c_text_unambiguous`, `C06_roundtrip`, `C06_C_roundtrip_partial`, `C06_toString_injective`, `C06_char_roundtrip`, `C06_char_C_roundtrip`.

### C07 String representation: size and contents are recoverable, comparison is lexicographic

Model and method: `Str`: string blocks as byte lists with the pad byte; representation predicate; every program of string primitives.

Status: **partial** (Str_Props.v). Every program of create_string, copy_string, set_nth_char, fill_string and blit_string within bounds keeps the length recoverable and the contents exact (block copies below 2^31 bytes); comparison is unsigned lexicographic for all lengths; concatenation exact. Equality is proved for strings below 2^31 bytes and refuted beyond: sml_equal_aux keeps the length in an int, so a string of 2^32 bytes equals the empty string, and no string of 2^31 bytes equals its copy.

Theorems: `C07_representation_partial`, `C07_compare_strings`, `C07_compare_val`, `C07_lex_total`, `C07_equal_partial`, `C07_equal_refuted`, `C07_equal_copy_refuted`, `C07_concat`.

### C08 Structural comparison, equality and hashing are consistent

Model and method: `Value`: a memory of blocks, an inductive denotation of words as finite trees, and structural equality / order / hashing on trees; induction on trees, fuel by depth.

Status: **partial** (Value_Props.v). Equality is structural equality for all finite values with strings below 2^31 bytes and without NaN (both exceptions refuted). compare_val computes a total order on values of one type whose equivalence is structural equality; the result of the ML function compare loses its sign for integers 2^62 apart (refuted) and treats references by contents (refuted). Hashing terminates on all values, also cyclic, depends only on the structure, and respects equality except for the reals 0.0 and ~0.0, which are equal with different hashes (refuted).

Theorems: `C08_equality_partial`, `C08_same_equivalence`, `C08_nan_refuted`, `C08_order_total`, `C08_compare_val`, `C08_compare_partial`, `C08_compare_refuted`, `C08_compare_ref_refuted`, `C08_hash_total`, `C08_hash_structural`, `C08_equal_hash_partial`, `C08_equal_hash_refuted`.

### C09 Free-list allocator never hands out overlapping memory and conserves words

Model and method: `Freelist`: memory words with headers; invariant over all executions of allocation, heap extension and sweeping.

Status: **proved** (Freelist_Props.v). Every execution of alloc_shr / fl_allocate / expand_heap / fl_add_block / sweeping with fl_merge_block, with any placement of chunks by malloc, at the level of memory words including header encodings.

Theorems: `C09_blocks_intact`, `C09_heap_is_tiled`, `C09_allocation`, `C09_sweep_frees_white`.

### C10 Free list stays address ordered and coalesced

Model and method: `Freelist`: same model; order and coalescing invariants.

Status: **partial** (Freelist_Props.v). Ordering and coalescing proved when new chunks obtained while sweeping lie above the sweep pointer or below some free block; refuted otherwise (fl_add_block appends without advancing fl_merge: list becomes unordered and adjacent free blocks are never joined).

Theorems: `C10_free_list_partial`, `C10_free_list_refuted`.

### C11 Page-table membership test is exact

Model and method: `Pagetable_Model`: chunk sizes and addresses, the sorted chunk list, the table of page ranges (growth, unrolled search), Is_in_heap. Invariant: table entries are the chunks in order of addition, chunk list sorted and disjoint; induction over the history of extensions.

Status: **proved** (Pagetable_Props.v). init_major_heap, expand_heap, aligned_malloc, round_heap_chunk_size, the range table with its growth and the unrolled search, and Is_in_heap; malloc is any allocator returning fresh user-space memory. Exact for every address and history as long as the heap increment is a multiple of the page size, which start-up guarantees (C11_start_increment). The primitive gc_set (not bound by the library) can set an increment of 1024 bytes, and then a chunk is not recognised (C11_gc_set_refuted).

Theorems: `C11_exact`, `C11_chunks`, `C11_block`, `C11_start_increment`, `C11_gc_set_refuted`.

### C12 A minor collection preserves the reachable object graph

Model and method: `Gc_Model` (heap of blocks, oldify, minor_collection), `Gc_Spec` (reachability, executions). Invariant of oldify over partially forwarded heaps in `Gc_Minor`, invariant of all executions in `Gc_Inv`, `Gc_Store`, `Gc_Minor2`, `Gc_Major`, `Gc_Sweep`, `Gc_Run`; `Gc_Props` states the isomorphism.

Status: **proved** (Gc_Props.v). minor_collection, oldify (with forwarding, the copying of field 0 before the forward pointer is set, tail field last), oldify_refs, on every state reachable by any program and collector interleaving. The reachable graphs before and after are isomorphic, the minor heap is given up, the remembered set is empty; the only failure is exhausted memory.

Theorems: `C12_minor_preserves`, `C12_minor_total`.

### C13 The write barrier maintains the remembered-set invariant

Model and method: `Gc_Model` (modify, initialize, push_ref, realloc_ref_table); part of the execution invariant (`rtok` in `Gc_Inv`), preserved by every step.

Status: **proved** (Gc_Props.v). Modify, initialize, direct stores of data, allocation in both heaps, the reference table with its threshold, reserve and growth; invariant over all histories. Assignments never write outside the table.

Theorems: `C13_recorded`, `C13_modify_defined`.

### C14 The incremental major collector never frees reachable objects

Model and method: Labelled transition system `step` in `Gc_Spec` (mutator and collector steps, any order; the allocator, realloc and the free blocks are an environment constrained by what C09 and C11 prove). Snapshot-at-the-beginning invariant with gray-stack overflow (`marking`, `prot`), sweep invariant (`resting`), garbage invariant (`gar` in `Gc_Run`), termination measures and whole collections in `Gc_Full`.

Status: **proved** (Gc_Props.v). Transition system with all mutator steps and the turns of mark_slice, weak_phase and sweep_slice in any order; gray stack of bounded size with overflow, realloc that may fail, and the heap walk that follows; chunks added anywhere at any time. Every block unreachable at the start of a cycle is freed before the next starts, unless a weak pointer to it is followed or overwritten in between (which may revive it). Marking and sweeping terminate, and gc_full_major leaves no unreachable block. Final functions are not modelled.

Theorems: `C14_reachable_allocated`, `C14_frees_garbage_only`, `C14_collector_keeps`, `C14_garbage_freed`, `C14_full_collection`.

### C15 Weak pointers are cleared exactly when their target dies

Model and method: Same transition system; `Gc_Weak` follows the sweep pointer and the first chunk. Refutations in `Gc_Props` by concrete executions in the environments of `Gc_Oracle`.

Status: **partial** (Gc_Props.v). A weak pointer never yields a reclaimed object: proved for every execution. That a live target is never reported dead or cleared is false of the code: an object allocated, during the weak phase, in a new chunk below the first one is white (C15_live_refuted); proved when the heap is never extended downwards (C15_live_partial). Weak arrays of 2^31 fields are skipped by weak_phase (C15_huge_array_refuted, on a hand-made state); the executions considered have smaller weak arrays.

Theorems: `C15_weak_valid`, `C15_live_partial`, `C15_live_refuted`, `C15_huge_array_refuted`.

### C16 Fast-format extern/intern round trip

Model and method: `Extern_Model` follows extern.c and intern.c. `Extern_Spec.copy_of` is graph isomorphism between two memories. `Extern_Tab`: the open-addressing table maps each emitted address to its offset. `Extern_Proofs`: invariant of the output block (translated segments, then raw segments of the objects still to scan). `Extern_In`: the adjusted block holds the copy. Examples with a shared cyclic graph.

Status: **partial** (Extern_Props.v). extern.c and intern.c (native 64-bit format) with the open-addressing table, its growth, the growing output block and the scan of the block as a queue; memory is a partial map of words, reading outside is undefined. Every graph (shared, cyclic) of less than 2^28 words is read back as an isomorphic graph by any reader, in any memory, which consumes exactly the bytes written. The full claim is false for integers at the top: every negative integer and every integer from 2^31 on is read back as another (C16_immediate), and for weak arrays (C16_weak_refuted). Big-endian and 32-bit files are not modelled.

Theorems: `C16_round_trip_partial`, `C16_immediate`, `C16_immediate_refuted`, `C16_weak_refuted`, `C16_functions`.

### C17 Compact-format extern/intern round trip

Model and method: `Compact_Model` follows externcp.c and interncp.c byte by byte. `Compact_Bytes`: each code written is read back. `Compact_Proofs`: the writer's recursion is followed by the reader's (`sim`), the object numbers agree (`idx`), and the region the reader fills equals the region of C16, so that `copy_ok` applies. The refutation computes what the reader does with an array of 2^22 elements.

Status: **partial** (Compact_Props.v). externcp.c and interncp.c (64-bit little-endian), byte by byte, with the table of objects; memory is a partial map of words and reading or writing outside is undefined. Every graph (shared, cyclic, with strings, reals, all integers) of less than 2^28 words whose blocks have less than 2^22 fields is read back as an isomorphic graph by any reader in any memory, whatever the contents of the new block, consuming exactly the bytes written. The full claim is false for larger blocks: an array of 2^22 zeros is read back as the empty array and its elements stay in the channel (C17_large). The depth of the C stack and the seek back to the header are not modelled.

Theorems: `C17_round_trip_partial`, `C17_large`, `C17_large_refuted`, `C17_functions`.

### C18 string_mlval / mlval_string round trip

Model and method: Same model; `string_mlval` writes into the bytes of a string block. Refuted for all blocks by computing the size the reader sees.

Status: **partial** (Extern_Props.v). string_mlval and mlval_string of mosml.c on a 64-bit machine. The claim is false for every block: C18_block shows that mlval_string fails on the string made of any block of less than 2^28 words, whatever the reader's memory and allocator. Integers and atoms survive (C18_flat_partial) but the string made of them has a wrong length (C18_length_refuted).

Theorems: `C18_flat_partial`, `C18_block`, `C18_refuted`, `C18_length_refuted`.

### C19 Buffered output delivers exactly the bytes written, in order

Model and method: `Io_Model` models io.c/io.h with the buffer as memory (accesses outside are undefined), the descriptor position, the file, and an oracle for short writes. `Io_Spec.unbuffered` is the reference. `Io_Out` keeps the invariant that the unbuffered file is the file overlaid with the buffer, and that descriptor and offset agree. Proved for all schedules and histories in which seeks follow flushes, and for histories with arbitrary seeks but no intermediate flush or block of 4096 bytes; the full statement is refuted by `C19_flush_refuted`, `C19_block_refuted`, `C19_huge_refuted`.

Status: **partial** (Io_Props.v). io.c output channels with any schedule of short writes. Exact for all histories in which seeks follow a flush (all buffer alignments and block sizes below 2^31), and for arbitrary seeks when there is no flush before closing and blocks are below 4096 bytes. The full claim is false: flushing after a seek back into the buffer moves the position (C19_flush_refuted), a block of 4096 bytes or more after a seek to the start of the buffer duplicates the old bytes (C19_block_refuted), blocks of 2^31 bytes are dropped (C19_huge_refuted). Write errors are not modelled.

Theorems: `C19_output_partial`, `C19_seek_partial`, `C19_flush_refuted`, `C19_block_refuted`, `C19_huge_refuted`.

### C20 Buffered input returns exactly the bytes of the file, in order

Model and method: `Io_Model` (input part): getch/refill, getword, getblock (blocking or not), really_getblock, seek_in, pos_in, input_scan_line. `Io_Spec.delivers` says what each operation may return at a position. `Io_In` keeps the invariant that the buffer holds the bytes of the file before the descriptor position.

Status: **proved** (Io_Props.v). io.c input channels with any schedule of short reads, blocking or not; requests below 2^31 bytes, positions not negative. Beyond that a request of 2^32 characters returns the empty string, which means end of file (C20_huge_refuted). Read errors are not modelled.

Theorems: `C20_input`, `C20_read_all`, `C20_huge_refuted`.

### C21 The code-fingerprint function computes MD5

Model and method: `Md5_Model` follows md5sum.c (buffer, chunk loop, padding, table-driven rounds with rotated registers, base 64). `Md5_Spec` is RFC 1321/4648. The loop over the table is proved equal to the RFC's listing, the chunk loop by an invariant (state after 64k bytes), the encoding by cases; the table by enclosing sin 1..sin 64 with integer arithmetic (Taylor sums at 1, addition formulas).

Status: **proved** (Md5_Props.v). md5sum, md5, encode, decode, enc64 and the table modelled with the 16384-byte buffer (accesses outside are UB); specification after RFC 1321 (listing of the 64 operations) and RFC 4648. C21_table proves the table against the real sine function (uses the axioms of Coq's Reals). Beyond the stated bound: from 2^31 bytes on the length becomes negative and the copy is undefined (C21_huge_refuted).

Theorems: `C21_md5sum`, `C21_encoding_injective`, `C21_fingerprint`, `C21_table`, `C21_huge_refuted`.

### C22 Listsort.sort returns a sorted permutation

Model and method: `Listsort`: loops with fuel; permutation, sortedness and stability by induction on runs.

Status: **partial** (Listsort_Props.v). sort, sorted, merge, eqclasses proved in full. The documented no-duplicates claim of mergeUniq is refuted when an argument itself contains duplicates, and proved for duplicate-free arguments.

Theorems: `C22_sort`, `C22_sorted`, `C22_merge`, `C22_mergeUniq_partial`, `C22_mergeUniq_refuted`, `C22_eqclasses`.

### C23 Arraysort.sort sorts in place

Model and method: `Arraysort`: unchecked array accesses as UB; invariants of the partition loop.

Status: **proved** (Arraysort_Props.v). Memory safety, termination and permutation for any pure comparison function, sortedness for total preorders; sorted is exact. Unchecked array primitives are modelled as undefined behaviour out of range.

Theorems: `C23_sort`, `C23_sorted`.

### C24 Binarymap implements finite maps

Model and method: `Wbtree`, `Binarymap`: search-tree invariant, `elements` against finite maps, theorem over all histories (MapSpec).

Status: **partial** (Binarymap_Props.v). Functional correctness of every history, absence of internal failures and correctness of the size counters proved in full. The weight-balance criterion is refuted (insert 6,7,2,4,8,1,3,5 then remove 6).

Theorems: `C24_history`, `C24_counts`, `C24_map`, `C24_balanced_refuted`.

### C25 Intmap and Intset implement finite maps and sets over int

Model and method: `Intmap`, `Intset` on `Wbtree`.

Status: **proved** (Intmap_Props.v, Intset_Props.v). Every history; sets specified by characteristic functions. In addition the balance criterion claimed in the comments of both files is refuted.

Theorems: `C25_intmap`, `C25_intmap_map`, `C25_intset_observers`, `C25_intset_binary`, `C25_intmap_balanced_refuted`, `C25_intset_balanced_refuted`.

### C26 Redblackmap implements finite maps with balanced trees

Model and method: `Redblackmap`: red-black and order invariants, theorem over all histories.

Status: **proved** (Redblackmap_Props.v). Any history of insert/remove/map/transform with any total preorder on keys; find, peek, numItems, listItems, foldl, foldr, app, revapp observed. Item counter unbounded (2^62 nodes do not fit in memory).

Theorems: `C26_history`, `C26_balanced`, `C26_map`.

### C27 Redblackset (Rbset) implements finite sets

Model and method: `Rbset`: client programs over many sets (SetSpec).

Status: **partial** (Rbset_Props.v). Every client program over empty/singleton/add/addList/delete/union/intersection/difference/subset/map: all observers, comparisons, order and red-black balance proved. mapMono is refuted for strictly increasing functions (it accepts exactly the strictly decreasing ones); the documented 'isSubset implies compare = LESS' is refuted.

Theorems: `C27_observers`, `C27_binary`, `C27_set_laws`, `C27_balanced`, `C27_map`, `C27_mapMono_refuted`, `C27_mapMono_actual`, `C27_compare_doc_refuted`.

### C28 Splaymap and Splayset implement finite maps and sets

Model and method: `Splaytree`, `Splaymap`, `Splayset`: store of reference cells; every version keeps its abstract value.

Status: **proved** (Splaymap_Props.v, Splayset_Props.v). Every client program over any number of dictionaries/sets kept alive and sharing cells: lookups rewrite trees in place in a store, and every version keeps its abstract value. map/transform restricted to functions keeping the value type (one store holds trees of one type). Order of cost (amortised bounds) not claimed.

Theorems: `C28_splaymap`, `C28_splayset_observers`, `C28_splayset_binary`.

### C29 Binaryset implements finite sets

Model and method: `Binaryset` on `Wbtree`.

Status: **partial** (Binaryset_Props.v). Every client program over empty/singleton/add/addList/delete/union/intersection/difference (including hedge union): all observers and comparisons proved, no internal failure reachable, size counters right. The weight-balance criterion is refuted.

Theorems: `C29_observers`, `C29_binary`, `C29_counts`, `C29_balanced_refuted`.

### C30 Polyhash and Hashset implement finite maps and sets

Model and method: `Hash`, `Polyhash`, `Hashset`: bucket invariant, histories.

Status: **proved** (Hashset_Props.v, Polyhash_Props.v). Every history (up to the length at which the array could exceed Array.maxLen), for any hash function compatible with the equality. In addition: mkTable with a size hint above 2^61 does not terminate (refuted). The polymorphic hash function itself is C08.

Theorems: `C30_polyhash`, `C30_polyhash_unique`, `C30_mkTable_size`, `C30_mkTable_terminates_refuted`, `C30_hashset`, `C30_hashset_binary`.

### C31 Buffer accumulates exactly the appended text

Model and method: `Buffer`: against the concatenation of added texts, all histories.

Status: **partial** (Buffer_Props.v). Every history of addChar/addString/addSubString/clear/reset/contents/size, whatever bytes new strings contain; Size raised exactly when the text would exceed String.maxSize. Restricted to texts below 2^31 bytes: beyond, blit_string truncates its length to 32 bits and the property is refuted.

Theorems: `C31_buffer_partial`, `C31_new_size`, `C31_buffer_refuted`.

### C32 Dynarray behaves as an unbounded array with default

Model and method: `Dynarray`: against a total function with a bound, all histories.

Status: **proved** (Dynarray_Props.v). Exact behaviour of every operation and of every history. In addition: the range documented for subArray ([m,n] inclusive) is refuted, and update may raise Size although index+1 <= Array.maxLen.

Theorems: `C32_update`, `C32_sub`, `C32_array`, `C32_fromList`, `C32_tabulate`, `C32_subArray`, `C32_subArray_size`, `C32_history`, `C32_subArray_doc_refuted`, `C32_update_size_refuted`.

### C33 String.tokens/fields/translate and Substring splitting are exact

Model and method: `Substring`: each function against list operations.

Status: **partial** (Substring_Props.v). All of Substring and String except escapes (C06). Splitting, fields, tokens, position, prefix/suffix/substring tests, collate, folds proved for every substring. Functions that copy with blit_string are proved for pieces shorter than 2^31 bytes and refuted beyond (C33_string_refuted). 'Subscript exactly for out-of-range arguments' is refuted for Substring.slice and String.extract, where an intermediate sum overflows, and proved otherwise.

Theorems: `C33_splitl`, `C33_splitr`, `C33_fields`, `C33_tokens`, `C33_fields_unique`, `C33_tokens_unique`, `C33_folds`, `C33_position`, `C33_tests`, `C33_collate`, `C33_lex_equal`, `C33_lex_less`, `C33_extract`, `C33_sub`, `C33_trim`, `C33_splitAt`, `C33_slice_partial`, `C33_slice_subscript_refuted`, `C33_string_extract_subscript_refuted`, `C33_span`, `C33_getc`, `C33_string_partial`, `C33_string_refuted`, `C33_translate_partial`, `C33_concat_partial`, `C33_concatWith_partial`, `C33_implode`, `C33_map`, `C33_find`, `C33_string_sub`, `C33_string_substring_partial`, `C33_string_tokens_partial`, `C33_string_folds`, `C33_pad_partial`.

### C34 Path canonicalisation and splitting

Model and method: `Path`: against a semantics of paths as places.

Status: **partial** (Path_Props.v). Canonicalisation is proved idempotent, place-preserving and complete (equal canonical forms exactly for paths leading to the same place from everywhere). Splitting and joining are inverse exactly when no empty arc precedes the last arc: joinDirFile (splitDirFile "a//b") = "a/b" (C34_join_split_refuted), likewise joinBaseExt/splitBaseExt. mkRelative then mkAbsolute gives the canonical original whenever mkRelative returns, always for canonical paths; mkRelative{path="/a/", relativeTo="/a"} raises Path (C34_mkRelative_refuted). The sub-claims that are false of the code are refuted, the rest is proved. Strings beyond the maximal length are not considered.

Theorems: `C34_fields_are_fields`, `C34_splitr_is_splitr`, `C34_fromString`, `C34_toString_fromString`, `C34_fromString_toString`, `C34_toString_relative_empty`, `C34_fromString_toString_refuted`, `C34_isAbsolute`, `C34_mkCanonical`, `C34_mkCanonical_idempotent`, `C34_mkCanonical_complete`, `C34_isCanonical`, `C34_splitDirFile`, `C34_concat`, `C34_concat_place`, `C34_join_split`, `C34_join_split_doubled`, `C34_join_split_refuted`, `C34_split_join`, `C34_join_split_canonical`, `C34_splitBaseExt`, `C34_join_split_ext`, `C34_join_split_ext_refuted`, `C34_mkAbsolute`, `C34_mkRelative`, `C34_mkRelative_other`, `C34_relative_absolute`, `C34_relative_absolute_canonical`, `C34_mkRelative_refuted`, `C34_getParent`.

### C35 Path.fromUnixPath and toUnixPath are inverse on Unix paths

Model and method: `Path`.

Status: **partial** (Path_Props.v). False of the code: the invalid-arc test is inverted (Path.mlp 432-434), so fromUnixPath and toUnixPath raise InvalidArc on every non-empty path. Refuted; what the functions do is proved for all paths.

Theorems: `C35_always_refused`, `C35_refuted`, `C35_empty`.

### C36 Date arithmetic is the Gregorian calendar

Model and method: `Date`: against a day-by-day calendar.

Status: **partial** (Date_Props.v). The calendar claim is proved in full for Date.date with an offset below 24 hours and for dates outside 1970-2037; between 1970 and 2037 without an offset the result passes through the C library, and the theorem is relative to its answer. Extra findings: an offset of exactly 12 hours, and offsets of two days or more, give a date whose toTime is a day late.

Theorems: `C36_numbering_bijective`, `C36_todaynumber`, `C36_fromdaynumber`, `C36_negative_year`, `C36_date_with_offset`, `C36_date_local`, `C36_compare`, `C36_toTime_partial`, `C36_offset_12h_refuted`, `C36_offset_excess_refuted`.

### C37 Generated lexers implement longest match with rule priority

Model and method: `Lex_Model` (expandRe, encode, firstpos/lastpos/followpos, subset construction with its memo, decision code, run), `Lex_Spec` (matches, selects). Proof: Glushkov words of positions (`Lex_Proofs`), the numbering of leaves and actions (`Lex_Encode`), invariant of the memoised subset construction and its termination by counting sublists (`Lex_Dfa`), interval coding and the run (`Lex_Run`).

Status: **partial** (Lex_Props.v). Mainlex.sml (expansion of names), Lexgen.sml and the decision code of Output.sml function by function, with Sort.sml and the run of the generated code over a character stream. For every definition with at most 32767 rules: generation terminates; whenever the generated lexer returns, it returns the longest match and the first rule among equals, and Fail exactly when no rule matches a prefix; and it returns whenever the rules stop matching extensions of some prefix. The full claim is false for an entry point that matches only the empty word (the emitted text calls an undefined function) and for more than 32767 rules (the action run is that of a rule that does not match). The scanner and grammar of mosmllex, the text printed, and the Lexing buffer are not modelled here.

Theorems: `C37_longest_match_partial`, `C37_generates`, `C37_returns`, `C37_epsilon_only_refuted`, `C37_many_rules_refuted`.

### C38 Transitive closure in the parser generator is correct

Model and method: `Warshall`: bit matrices at word level against the inductive transitive closure.

Status: **proved** (Warshall_Props.v). warshall.c modelled at word and mask level, pointers as indices, accesses outside the matrix and int overflow of n*rowsize are UB; matrices limited to fewer than 2^31 words because the C code computes n*rowsize in an int

Theorems: `C38_transitive_closure`, `C38_reflexive_transitive_closure`.

### C39 Compiled pattern matching selects the first matching rule

Model and method: `Match`: the decision dag and the code made from it against first-match semantics, by an invariant relating contexts, descriptions and pending patterns to a value.

Status: **partial** (Match_Props.v). Match.sml function by function (patterns, term descriptions, static matching, contexts, the dag with its reference counts and hash consing, the code with switches and shared nodes); the hash table may answer anything. For all well-typed rows and values, whenever the compiler returns code, running it on the representation of the values picks the first matching row, fails exactly if none matches, and never falls through; reported unused rules are never first to match and absence of failure code means exhaustive. The missing part, that the compiler returns, is false: on exceptions with tuple arguments of different lengths it stops with fatalError (C39_crash_refuted). Termination on other rows is not proved.

Theorems: `C39_match_partial`, `C39_crash_refuted`.

### C40 Function calls: partial, exact and over-application agree with curried application

Model and method: `Zam_Model` (the machine), `Back_Model` (the compiler), `Back_Spec` (the evaluator). Proof: simulation of the evaluator by any code of the generated form (`Back_Rel` … `Back_All`), that compexp makes such code (`Back_Frame`, `Back_Comp`, `Back_Gen`, `Back_Prog`, `Back_Lift`).

Status: **proved** (Back_Props.v). for the code of every phrase that the back end makes: APPLY1-4, APPLY n, APPTERM n with any number of arguments, against application one argument at a time; the bodies of functions are covered (the simulation of the whole evaluator is used). Hypotheses: shared nodes are used alike (shared_ok), the arithmetic primitives left open satisfy prims_ok (which the comparisons of reals do not when NaN arises: C46_nan_refuted).

Theorems: `C40_calls`.

### C41 Exceptions unwind to the innermost handler with its stack

Model and method: `Stack_Model` (memory and addresses) against `Stack_Spec` (values since the innermost handler, handlers with what was below them): a layout relation kept by each operation and by reallocation.

Status: **partial** (Stack_Props.v). sp, trapsp and the trap chain as addresses in a block of memory, realloc_stack with relocation, PUSHTRAP, POPTRAP, RAISE; every trace in which at most 256 words are pushed between stack checks. Without that bound it is false: only calls check the stack, so that code building a large tuple writes below the stack (C41_overflow_refuted, and the compiled code in Back_Props.C41_code).

Theorems: `C41_handlers_partial`, `C41_overflow_refuted`.

### C42 real to int conversions are exact or raise Overflow

Model and method: `Real`: doubles as 64-bit patterns, comparison and conversion on bits; number = scaled integer / 2^1074.

Status: **partial** (Real_Props.v). sml_floor, sml_ceil, sml_trunc, sml_round on all 2^64 bit patterns, with C comparison, (long), (double) and rint on bits. floor is exact for every finite real. ceil and trunc are exact except at -2^62, where they raise Overflow although the result is an int (refuted); round is exact except at 2^62, where it returns -2^62 instead of raising Overflow (refuted). Infinities raise Overflow; NaN reaches an undefined C conversion. Only the rint variant of sml_round is modelled.

Theorems: `C42_floor`, `C42_ceil_partial`, `C42_trunc_partial`, `C42_round_partial`, `C42_infinity`, `C42_ceil_refuted`, `C42_trunc_refuted`, `C42_round_refuted`, `C42_nan_refuted`.

### C43 Overlapping copies behave like simultaneous assignment

Model and method: `Copy`: store of arrays, loops element by element; memmov byte by byte.

Status: **partial** (Copy_Props.v). Array.copy, copyVec, ArraySlice.slice/subslice/copy and Array2.copy proved for every placement of source and destination, memmov byte for byte. blit_string (CharArray, Word8Array, Buffer) proved for lengths below 2^31 and refuted from there on (length truncated to 32 bits). Refuted: Subscript in every out-of-range case (Overflow for huge di; nothing raised by Array2.copy of an empty region; Array2.copy raises after partial copying).

Theorems: `C43_array_copy`, `C43_slice_copy`, `C43_subslice`, `C43_copyVec`, `C43_new_matrix`, `C43_array2_copy`, `C43_memmov`, `C43_blit_string_partial`, `C43_blit_string_refuted`, `C43_blit_string_negative_refuted`, `C43_array_copy_subscript_refuted`, `C43_array2_copy_subscript_refuted`, `C43_array2_copy_atomic_refuted`.

### C44 Back-patched branch offsets are correct

Model and method: `Emit`: emitting functions as call lists over the mutable buffer; invariant relating buffer, label table and pending references to the calls done.

Status: **proved** (Emit_Props.v). Buffcode, Labels, Reloc, Emitcode and Emit_phr modelled with their mutable buffer, label table and relocation list. C44_code: the code is the concatenation of the emitted bytes, every label operand holding definition minus origin, from any initial buffer. C44_succeeds: emission succeeds exactly when no error call, no negative label and no doubly defined label occurs. C44_branch and C44_switch state it for instructions of a phrase, for code below 2^31 bytes (offsets are 32 bits). Extra finding: closures with more than 255 free variables get their size modulo 256 (C44_closure_size_refuted).

Theorems: `C44_code`, `C44_succeeds`, `C44_operand`, `C44_table`, `C44_branch`, `C44_switch`, `C44_closure_size`, `C44_closure_size_refuted`.

### C45 Infix expression parsing respects precedence and associativity

Model and method: `Infix`: the two-stack algorithm against the unique tree obeying precedence and associativity.

Status: **proved** (Infix_Props.v). resolveInfix modelled with its stack and output, generic in the syntax operations; function application is included as the tightest, left-associative operator; applyObj taken total (for patterns it may stop with an error message)

Theorems: `C45_resolves`, `C45_unique`, `C45_complete`, `C45_refuses`.

### C46 Compiled code computes what the program means

Model and method: `Back_Model`, `Zam_Model`, `Back_Spec`, `Lam_Spec` (meaning of the terms before the back end). Code generation as for C40. UNdeBruijn: `Lift_Rel` relates a term to its translation (which variables hold the contents of a reference that has been removed), `Lift_Prim`, `Lift_Sim`, `Lift_Main` (tr_sim) show that related terms mean the same, with a relation between the two stores in which a removed reference has no counterpart; `Lift_Undb` (unref, opt_refs), `Lift_Lft` (lftexp), `Lift_Cap` (what is captured) show that UNdeBruijn gives related terms; `Lift_Quiet`: no shared nodes arise; `Lift_Props` puts the parts together.

Status: **partial** (Back_Props.v, Lift_Props.v, Tables_Props.v). all of Back.sml modelled, and interp.c at the level of the instructions of Instruct.sml. C46_unshared_partial: for every closed term without shared nodes the code made by compileLambda (lifting of functions, removal of references, generation of code), run by the machine, leaves what the term means (Lam_Spec: de Bruijn indices, one argument at a time). C46_code_partial: for terms with shared nodes, the code does what the evaluator gives for the term after UNdeBruijn. Missing: terms with shared nodes through UNdeBruijn, in general false: C46_shared_refuted (a let whose variable is used in a shared node); C46_nan_refuted (comparison of reals: excluded by prims_ok), C46_keys_refuted (Overflow in the compiler). C46_tables: the tables of N-way branches on integers have 1 to 255 entries, as many as keys from the least to the greatest, so their size fits the byte of SWITCH; the tables of compDirectSwitch (one entry for each constructor) are not covered by it.

Theorems: `C46_unshared_partial`, `C46_code_partial`, `C46_shared_refuted`, `C46_nan_refuted`, `C46_keys_refuted`, `C46_tables`.

### C47 Type unification is sound and most general

Model and method: `Unify_Model` (the functions over a heap of cells), `Unify_Spec` (trees, valuations, what the cells demand of them, well-formed heaps). Proof: a solvable heap has one solution for each choice of the unbound cells (`Unify_Sol`); normalisation keeps the solutions (`Unify_Norm`); what the free variables found determine (`Unify_Free`); each change of attributes adds one constraint (`Unify_Attr`); linking (`Unify_Link`), rows (`Unify_Rows`), induction on the calls (`Unify_Proof`). It stops (`Unify_Term`): more fuel never changes a result; each call either binds something, which lowers the weight of the unbound cells (`Unify_Meas`: a row weighs twice the number of labels it may still take), or leaves every solution as it was, and then the types compared next are smaller in any fixed solution.

Status: **partial** (Unify_Props.v). Types.unify and all it calls, over a heap of mutable cells (type variables, record nodes, rows) with sharing; type constructors are names applied to arguments (no APPtyapp, REAts, PACKt). Solutions are assignments of finite trees that meet all links and attributes. Proved: when unify returns, the solutions of the new heap are exactly the old ones that make the types equal (sound and most general), and there is one (no circular types); when it raises Unify, no old solution makes the types equal. The last part of the claim is false: on types that share a row unify stops with fatalError although a unifier exists (C47_fatal_refuted). unify always stops (C47_stops).

Theorems: `C47_unifies`, `C47_fails_only_without_unifier`, `C47_stops`, `C47_fatal_refuted`.

### C48 Lexers do not depend on how their input is delivered

Model and method: `Lexbuf_Model` (Lexing.sml, lexing.c; the reader is the list of what its calls leave in the shared array and return, so other lexers may use that array in between; programs are trees of operations; the functions Output.sml writes as such trees). `Lexbuf_Spec`: a lexer with the whole input before it. Proof: the buffer is a window of the input, an invariant of every operation (`Lexbuf_Proofs`); generated lexers by C37.

Status: **partial** (Lexbuf_Props.v). Lexing.sml and get_next_char, for arbitrary programs over a lexer buffer (trees of operations) and for generated lexers together with C37. Proved: with tokens up to 1024 characters every program gives the result it would give with the whole input before it, whatever the portions and equally with a string; with longer tokens that result or Fail; no access outside the buffer; generated lexers find the longest matches. False in four points: whether a longer token is accepted depends on the portions; a second end of input looks different with a string; after Fail for an illegal symbol the buffer is put back to a stale position, so that earlier tokens are found again or every further call fails; getLexeme then copies a negative length.

Theorems: `C48_reader`, `C48_reader_any_token`, `C48_portions`, `C48_string`, `C48_string_or_reader`, `C48_generated_lexer`, `C48_long_token_refuted`, `C48_second_end_refuted`, `C48_illegal_goes_back_refuted`, `C48_illegal_then_too_long_refuted`, `C48_illegal_lexeme_refuted`.

### C49 Text streams deliver and store the characters of the file

Model and method: `Textio_Model` (TextIO.sml on the channels of Io_Model; new strings have arbitrary contents; a scanner is a tree of calls of getc). `Textio_Spec`: a stream is the list of characters to come. Proof: the list is the rest of the file from the channel's position (`iinv` of Io_In); the loops keep a prefix of the temporary string; the ring of 512 characters in scanStream (`Textio_Proofs`).

Status: **partial** (Textio_Props.v). TextIO.sml's stream operations on the channels of C19/C20 (BinIO calls the same functions). Proved for files below 2^31 - 1 characters and lengths below 2^32: every sequence of operations, with every schedule of short reads and writes, gives what the list of characters to come prescribes; scanners (arbitrary trees of calls of getc) see the characters to come; output. False: scanStream loses the characters the scanner looked at without using them; inputN of 2^32 characters returns the empty string; inputAll and inputLine of 2^31 characters copy a negative length; closeOut on stdOut does not flush.

Theorems: `C49_input`, `C49_scan`, `C49_output`, `C49_stderr`, `C49_closed_output`, `C49_scan_loses_refuted`, `C49_inputN_refuted`, `C49_inputAll_refuted`, `C49_inputLine_refuted`, `C49_close_stdout_refuted`.

### C50 The linker links the program that the units make up

Model and method: `Link_Model` (Link.sml check_file, scan_file, link_object, emit_data; Symtable.sml; Patch.sml). `Link_Spec`: an environment from names to definitions is built by going through all phrases of the program in order; `linked` says what each operand of each phrase that is kept must be. Proof (`Link_Proofs`): second and third pass are related by an invariant: for the names in missing_globals the table gives the slot of the definition in the environment of the whole program; leaving a phrase out keeps it because no name it sets is missing, keeping one needs it for the names it gets. The patches are a list of writes at different places. First pass: no pending unit is added, so units are different; the number of pending units bounds the depth.

Status: **proved** (Link_Props.v). Link.sml's three passes with the tables of Symtable.sml and the patching of Patch.sml, down to the bytes of the code. Hypotheses: operands of a phrase lie in its code and do not overlap, exported identifiers of a unit are different (they come from a hash table), at most 65536 primitives (operands of 2 bytes), at most 2^32 globals (operands of 4 bytes). Not modelled: search path and file formats, header, trailer and symbol section of the executable, exceptions' names.

Theorems: `C50_units`, `C50_stops`, `C50_succeeds`, `C50_keeps_order`, `C50_link`, `C50_program`.

### C51 Constants, comments and layout of source programs are read as the Definition says

Model and method: `Token_Model` (Lexer.lex: the rules of all entry points as regular expressions, the actions of TokenN, TokenId, Comment, String, SkipString with string buffer and conversions). The rules go through the generator of `Lex_Model` (C37); `generated d` are the resulting tables, `C51_generated` shows that there are some. `Token_Spec`: `denotes` (texts of constants), `comment_text`, `layout`; `Token_Number_Spec`: `int_constant`, `word_constant`. Proof: C37 turns a call of an entry point into longest match and first rule (`step`); the words of the rules are computed (`Token_String`, `Token_Comment`, `Token_Number`), the rules that can begin with a character are found by computing first sets (`Token_Token`); then induction over texts for acceptance, over fuel for the converse, over the remaining characters for termination (`Token_Scan`, `Token_Comment`, `Token_Token`, `Token_Number`). `Token_Ident`: identifiers and reserved words (own list `sml_reserved`), real constants (`real_constant`), and the converse for numbers.

Status: **partial** (Token_Ident.v, Token_Props.v). The rules of Lexer.lex are given to the model of mosmllex (C37), and the actions run on the automaton it generates, so the theorems are about longest match as it is done. Partial because of two findings: a gap of a string constant may contain spaces, tabs, newlines and carriage returns but no formfeed, which the Definition allows (C51_formfeed_gap_refuted; without formfeeds C51_sml_literals_partial); characters 27-31 and 128-254 stand for themselves though they are not printable (C51_nonprintable_refuted; for 128-254 this is intended). Hypothesis: the source is shorter than 64 petabytes. C51_int, C51_word and C51_real need the next character not to be one that occurs in numbers. Not covered: the conversion of the text of a real constant to a double, symbolic and qualified identifiers other than that the lexer returns, quotations, the buffer (C48 shows that it does not matter).

Theorems: `C51_generated`, `C51_layout`, `C51_string`, `C51_char`, `C51_int`, `C51_word`, `C51_real`, `C51_identifier`, `C51_only`, `C51_only_numbers`, `C51_ends`, `C51_bad_string`, `C51_bad_comment`, `C51_sml_literals_partial`, `C51_toString`, `C51_formfeed_gap_refuted`, `C51_nonprintable_refuted`.

### C52 Polymorphic types are generalised and instantiated as the Definition says

Model and method: `Poly_Model` (Types.sml: newTypeVar, refreshTypeVar, copyType, specialization, generalization on the heap of `Unify_Model`). `Poly_Spec`: `otree` (types as trees), `means h t o` (the tree that a type graph stands for), `occurs`, `rename`, `replace`. `Poly_Copy`: copyType adds cells only and returns the renamed tree, by induction over `means`, with the invariant that each remembered variable stands for its renamed tree and that no shared part has a variable to rename. `Poly_Gen`: normType and freeVarsType only shorten chains of links (`keeps`), and the list they return has exactly the variables that occur, each once; `parameter` folded over it. `Poly_Props`: the theorems; termination of generalization from that of freeVarsType (C47).

Status: **partial** (Poly_Props.v). Types.sml: generalization, specialization, copyType, refreshTypeVar, on the heap of C47. Proved for every heap and type. Partial: types of type functions (REAts, APPtyapp) and packages are not in the model of types, as in C47; the type's records must be normalised (means), which freeVarsType, called first by generalization, brings about for records reached through normType; copyType copies only the fields of a record and shares its row, and row variables are never generalised (Elab makes them at level ~1), so an instance shares them; which expressions are expansive (Elab.isExpansiveExp) is not modelled. That the level of a variable is above the binding level exactly if it does not occur in the environment is the invariant the type checker relies on: it is kept by unify (C47: levels only go down, to those of the variables they are bound to) but is not proved for the elaboration as a whole.

Theorems: `C52_generalization`, `C52_value_restriction`, `C52_ends`, `C52_specialization`, `C52_independent`.

### C53 Word8 is arithmetic modulo 256

Model and method: `Word8_Model` (Word8.sml over the opcodes of `Arith_Model` and the int operations of `Scan_Model`). `Word8_Props`: `byte`, `brep`, `signed8`; the operations of 63-bit words (C03) followed by `norm`, which is mod 256. `Word8_Scan`: scan is that of Word (C05) with the digits of Int (C04) and a test at the end; proved for lists and then for arbitrary readers by simulation.

Status: **proved** (Word8_Props.v). All of Word8.sml (on the 64-bit machine of C01-C05). The prefix 0w before hexadecimal digits without x, which the Basis library does not provide for, is accepted, as by Word.scan (C05). Not covered: Word8 constants in programs other than their reading as words (C51).

Theorems: `C53_arith`, `C53_bits`, `C53_shifts`, `C53_conversions`, `C53_compare`, `C53_scan`, `C53_fmt`, `C53_roundtrip`, `C53_fromString`.

### C54 Form values are sent and received unchanged, and text is shown as written

Model and method: `Cgi_Model` (Msp.sml, Mosmlcgi.sml over `Substring_Model`). `Cgi_Spec`: `url_text` (what a form-encoded text stands for), `html_shows`, `query_text`, `values_of`. `Cgi_Proofs`: one character by cases over the 256 bytes, then induction; `dec` follows `url_text` with the position as the part already read. `Cgi_Props`: splitting by C33 and the uniqueness of fields and tokens.

Status: **proved** (Cgi_Props.v). Requests that are not multipart; the multipart reader of Mosmlcgi.sml 174-240 is not modelled. The dictionary is the finite map that a Splaymap stands for (C28). Strings whose encoding would not fit in a string (maxSize) raise Size: bounds in the theorems. A value with a malformed escape is read as the empty string, as the code says.

Theorems: `C54_url_chars`, `C54_urlencode`, `C54_decode`, `C54_url_roundtrip`, `C54_fields`, `C54_query`, `C54_html`, `C54_html_unique`.

### C55 List and ListPair call the functions they are given in order and once for each element

Model and method: `List_Model` (List.sml, ListPair.sml over a state and exception monad of its own, `run x <- m; k`). `List_Props`, `ListPair_Props`: the relations `calls`, `fails`, `never`, `first`, `first_fails` say which calls are made; every run is one of them (`C55_total`, `C55_search_total`), so the conditional theorems cover all runs. Induction on the list.

Status: **proved** (ListPair_Props.v, List_Props.v). All of List.sml and ListPair.sml. The functions given are arbitrary state transformers that return or raise an exception; a call that does not return is not modelled, nor is the stack of the interpreter (List.map and foldr are not tail recursive). Evaluation from left to right is that of the Definition; that the compiler keeps it is not part of this claim.

Theorems: `C55_total`, `C55_search_total`, `C55_lists`, `C55_access`, `C55_ends`, `C55_map`, `C55_app`, `C55_mapPartial`, `C55_filter`, `C55_tabulate`, `C55_search`, `C55_all`, `C55_folds`, `C55_collate`, `C55_zip`, `C55_pairs`, `C55_pairs_eq`.

### C56 Vector's operations are List's on the elements, and stay inside the vector

Model and method: `Vector_Model` (Vector.mlp; unchecked sub_ and update_ are `UB` out of range, unfilled cells are `None`). `Vector_Props`: each loop, started after a prefix, is the List operation (`List_Model`, C55) on the rest; `enum` pairs elements with their indexes. Induction on the rest.

Status: **proved** (Vector_Props.v). All of Vector.mlp on 64-bit machines. What the List operations do is C55. The functions given are arbitrary state transformers that return or raise an exception; a call that does not return is not modelled. A vector is the list of its elements; its block in the heap is not part of this claim.

Theorems: `C56_loops`, `C56_indexed`, `C56_make`, `C56_concat`, `C56_tabulate`, `C56_collate`.

### C57 A vector slice is a part of its vector, and its operations stay inside it

Model and method: `VectorSlice_Model` (VectorSlice.sml, with the loops of `Vector_Model` where the text is the same). `VectorSlice_Props`: `shows sl l` says which part of the vector a slice is; each loop, started after a prefix and stopped before the rest of the vector, is the List operation. Induction on the elements.

Status: **proved** (VectorSlice_Props.v). All of VectorSlice.sml on 64-bit machines. What the List operations do is C55. The functions given are arbitrary state transformers that return or raise an exception; a call that does not return is not modelled. The theorems are for slices that show a part of their vector (`shows`); C57_slice, C57_subslice and C57_access say that all slices a user can make do.

Theorems: `C57_slice`, `C57_subslice`, `C57_access`, `C57_loops`, `C57_indexed`, `C57_concat`, `C57_collate`.

### C58 The iterators of Array use each element as it is when its turn comes

Model and method: `ArrayIter_Model` (iterators of Array.mlp; the array is part of the state the user's functions act on). `ArrayIter_Props`: each loop is the List operation over the list of indexes, with `sub_now`/`update_now` (checked access as the user has it) inside the function. Induction on the number of indexes left.

Status: **partial** (ArrayIter_Props.v). The iterators of Array.mlp (122-208); collate is not modelled here. The part about find is false: find reads the element again after the call of p, so it returns what p left there (C58_find_refuted); it holds for p that do not change the array (C58_find_partial). C58_indexed says exactly what findi does. The hypothesis keeps (a call leaves the length of the array) holds of every SML function.

Theorems: `C58_iterators`, `C58_indexed`, `C58_find_partial`, `C58_find_refuted`.

### C59 A forced suspension keeps its value and is evaluated at most once

Model and method: `Susp_Model` (Susp.sml; programs of the user are a tree type `prog` run by `eval` with fuel, `starts` logs the evaluations begun). `Susp_Props`: a run keeps every cell that holds a value and begins no evaluation of it; induction on fuel.

Status: **partial** (Susp_Props.v). All of Susp.sml. That the expression is evaluated at most once, as Susp.sig says, is false: not if it forces its own suspension (C59_once_refuted; the inner force returns another value than later ones), nor if it raises an exception (C59_exception_refuted: evaluated again at the next force). C59_value_partial: once a force has returned, the value stays and nothing is evaluated again.

Theorems: `C59_value_partial`, `C59_delay`, `C59_once_refuted`, `C59_exception_refuted`.

## Which parts of the code are modelled

Runtime (src/runtime): integer and word opcodes of interp.c (1208-1283), mlvalues.h tagging; str.c,
the string parts of alloc.c and of interp.c; mosml.c sml_equal_aux, sml_concat, number conversions,
sml_floor/ceil/round/trunc; compare.c; hash.c; freelist.c, expand_heap and alloc_shr of memory.c,
sweep_slice, init_major_heap and the page table of major_gc.c; memmov and aligned_malloc of misc.c;
minor_gc.c, major_gc.c, memory.c and the weak-pointer primitives of mosml.c at the level of heap blocks
(not: final functions, the amount of work per slice, set_minor_heap_size, statistics); md5sum.c (not dec64); io.c and io.h (not: errors of
system calls, append mode, input of a channel while another writes the file); extern.c, intern.c (native 64-bit
fast format only), externcp.c, interncp.c, string_mlval and mlval_string of mosml.c; interp.c for every instruction of
compiler/Instruct.sml, one step for the opcodes an instruction is emitted as (not: signals, C calls; arithmetic primitives
and comparisons of reals and strings are parameters); stacks.c.

Library (src/mosmllib): Int, Word (fmt, scan, arithmetic), StringCvt (part), Strbase, String, Substring,
Char (escapes), Buffer, Dynarray, Array/ArraySlice/Array2 copying, Arraysort, Listsort, Binarymap, Binaryset,
Intmap, Intset, Redblackmap, Rbset, Splaytree, Splaymap, Splayset, Polyhash, Hashset, Path, Date (part), Lexing (with
runtime/lexing.c), Word8, List, ListPair, Vector, VectorSlice, Array (iterators), Susp, Msp (urlencode, htmlencode), Mosmlcgi (fields of requests that are not multipart), TextIO (not: names of streams, openAppend, openString, errors of the operating system).

Compiler (src/compiler): Buffcode, Labels, Reloc, Emitcode, Emit_phr; Infixst; Match; Back (all of it:
UNdeBruijn, unref, compexp, compileRest, the decision trees); Types.sml from normType to unify, generalization, specialization, copyType (not: type functions, packages,
kinds, signatures); Link (not: file formats, search path, trailer and symbols of the executable), Patch, the tables of
Symtable; Lexer.lex (not: the entry point Token, quotations; real constants are handed on as text).

Tools: mosmlyac/warshall.c; lex/Mainlex.sml (expandRe, expandLet, expandRule), lex/Lexgen.sml (all),
lex/Output.sml (enumerate_vect, intervals, decision code, entry points; not the text), compiler/Sort.sml.

Not modelled (nothing is claimed): the type checker other than unification, generalisation and instantiation, the module system, the lambda translation (Front,
other than Match), the interactive system, dynamic
libraries, OS structures, Real formatting, PP, the foreign function interface, and the
properties above marked as not yet proved.

## Findings (claims false of the code; each has a theorem unless marked "read")

Runtime
* Multiplication raises Overflow for 2^31 * ~2^31 although the result fits (C01).
* `sml_equal_aux` keeps string lengths in an int: strings of 2^31 bytes or more compare wrongly (C07).
* Equality of NaN depends on sharing; `compare` loses its sign for integers 2^62 apart, orders references
  by contents; 0.0 = ~0.0 have different hashes (C08).
* `blit_string` truncates its length to 32 bits (C43, C31, C33).
* `fl_add_block` does not advance fl_merge: the free list can become unordered (C10).
* `gc_set` normalises bytes with a bound in words: the increment may become 1024, and a chunk of that size is not
  in the page table (C11).
* An object allocated during the weak phase in a chunk below the first is white: weak pointers to it are
  reported dead and cleared although it is reachable; `weak_phase` skips weak arrays of 2^31 fields (C15).
* Output channels: a flush after a seek back into the buffer moves the position; a block of 4096 bytes or more written
  after a seek to the start of the buffer duplicates the buffered bytes; blocks of 2^31 bytes are dropped (C19).
* `input` of 2^32 characters returns the empty string (C20).
* Structured output of an integer writes 32 bits: negative integers and integers from 2^31 on are read back as
  others; elements of weak arrays are read back as file offsets (C16).
* externcp.c writes the low 32 bits of a 64-bit header: a block of 2^22 fields is read back as an atom and its
  fields stay unread in the channel (C17).
* `string_mlval` copies the structure over the upper half of its size: `mlval_string` fails on every block; the
  string made of an integer has a wrong, possibly negative, length (C18).
* `md5sum` keeps the length in an int: undefined from 2^31 bytes on (C21).
* `sml_ceil`, `sml_trunc` raise Overflow for -2^62, `sml_round` returns -2^62 for 2^62, NaN is undefined (C42).

Library
* Word.~ raises Overflow at 2^62 (C03); Word.scan never raises Overflow, accepts "0w" as hex prefix (C05).
* Listsort.mergeUniq keeps duplicates of an argument (C22).
* Binarymap, Binaryset, Intmap, Intset do not maintain their balance criterion (C24, C25, C29).
* Rbset.mapMono accepts decreasing functions only; documented compare/isSubset relation false (C27).
* Polyhash.mkTable with a hint above 2^61 does not terminate (C30).
* Dynarray.subArray documentation off by one (C32).
* String.extract / Substring.slice raise Overflow instead of Subscript in extreme cases (C33).
* Path: join/split not inverse with empty arcs; mkRelative raises on "/a/" vs "/a" (C34); fromUnixPath and
  toUnixPath raise on every valid path (C35).
* Date: offsets of 12 hours or of two days and more give wrong times (C36).
* TextIO.scanStream loses the characters the scanner looked at without using them: scanning an integer in "1+2" gives 1
  and the next character read is "2" (C49_scan_loses_refuted). TextIO.inputN (s, 0x100000000) returns "" before the end of
  the stream (C49_inputN_refuted); inputAll and inputLine copy a negative length when 2^31 characters are to be returned
  (C49_inputAll_refuted, C49_inputLine_refuted). closeOut stdOut does not flush, and then flushOut raises Io
  (C49_close_stdout_refuted). closeIn stdIn frees the channel that BasicIO.std_in still uses (read).
* Array.find reads the element again after the call of p: where p changes the array it returns an element of which p is
  false (C58).
* Susp: an expression that forces its own suspension, or raises an exception, is evaluated more than once; in the first
  case the suspension has two values one after the other (C59).
* Array.copy raises Overflow for huge indices; Array2.copy checks empty regions wrongly and is not atomic (C43).

Compiler and tools
* The match compiler stops with an internal error (fatalError "Match.succeed") on correct programs that match
  exceptions whose arguments are tuples of different lengths, such as `fun f (A (1, 2)) = 1 | f (B (x, y, z)) = 2 | f _ = 3`
  with `exception A of int * int` and `exception B of int * int * int`: exception constructors might be equal, so after
  A matched and its argument did not, B is tried with the description of the argument of A (C39).
* Back.sml: unref, which replaces let-bound variables by their definitions, changes the contents of shared nodes before
  it finds that the variable must be kept; the code then reads the wrong variable (C46_shared_refuted). A comparison
  of reals in a condition is inverted, which is wrong for NaN: `if x < 1.0 then 1 else 2` gives 1 (C46_nan_refuted;
  the library's own operations check for NaN, but C functions and structured input can make one). The
  compiler raises Overflow on a case over integers more than 2^62 apart (C46_keys_refuted).
* Types.unifyRec reads the rows of both records once and goes on with them after unifying fields; if a field's type contains
  the same row, it may be bound by then and the compiler stops with fatalError "extractLab" although the types unify:
  {a : {a : 'c, ...r} list, ...r} with {a : {a : int, b : bool} list, b : bool} (C47_fatal_refuted). Row variables
  are not generalised, so two instances of the type of `fn (r as {a, ...}) => r` share the row and may differ in the type of a.
* The stack is checked at calls only, with room for 256 words: code that pushes more, such as a tuple of 300 variables, may
  write below the stack (C41_overflow_refuted, C41_code); APPTERM does not check at all; Max_stack_size
  is documented in bytes but compared with words (read).
* Closures with more than 255 free variables are emitted with their size modulo 256 (C44).
* mosmllex: an entry point that matches only the empty word makes a program that does not compile
  (C37_epsilon_only_refuted); with more than 32767 rules the marker for "no action" is the number of an
  action, and the wrong action is run (C37_many_rules_refuted).
* Lexer.lex: a formfeed is white space between tokens but not in the gap of a string constant
  (C51_formfeed_gap_refuted); control characters 27-31 may stand for themselves in string constants
  (C51_nonprintable_refuted).
* Lexing: after Fail "lexer: illegal symbol in input", `backtrack` has set the position to whatever was remembered last, which
  may belong to an earlier token: a program that handles Fail and calls the lexer again finds old tokens again
  (C48_illegal_goes_back_refuted), or, if that position has left the buffer, gets "token too long" for ever
  (C48_illegal_then_too_long_refuted); getLexeme in the handler copies a negative length (C48_illegal_lexeme_refuted).
  Tokens above 1024 characters are accepted or not depending on the sizes of the reads (C48_long_token_refuted).
  Reading the end of input twice differs between createLexerString and createLexer (C48_second_end_refuted).
* mosmlyac set_first_derives reads one word past the EFF matrix when the number of non-terminals is a
  multiple of 32 (read, not modelled).
