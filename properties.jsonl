{"id": "C01", "title": "Integer +, -, *, ~ are exact or raise Overflow", "statement": "For all machine integers x and y (63-bit, -2^62..2^62-1), x+y, x-y, x*y, ~x either return the mathematical result or raise Overflow, and they raise Overflow exactly when the mathematical result is outside -2^62..2^62-1.", "quantifier": "every pair of 63-bit integers", "why_tests_cant": "2^126 operand pairs; multiplication is computed by splitting into 31-bit chunks with several overflow branches, whose corner cases occur at single points of the space", "anchors": ["src/runtime/interp.c: SMLADDINT, SMLSUBINT, SMLMULINT, SMLNEGINT, SMLSUCCINT, SMLPREDINT"]}
{"id": "C02", "title": "Integer div, mod, quot, rem obey the division laws or raise Div/Overflow", "statement": "For all 63-bit x and y<>0: x div y and x mod y satisfy x = y*(x div y) + x mod y with 0 <= (x mod y)/y < 1 (remainder has the divisor's sign), quot/rem satisfy the truncating law; Div is raised exactly when y = 0 and Overflow exactly when the quotient is not representable (minInt div ~1).", "quantifier": "every pair of 63-bit integers", "why_tests_cant": "floor division is derived from C's truncating division by sign case analysis; sign and boundary combinations are too many to enumerate", "anchors": ["src/runtime/interp.c: SMLDIVINT, SMLMODINT, SMLQUOTINT, SMLREMINT", "src/mosmllib/Int.mlp: quot, rem"]}
{"id": "C03", "title": "Word arithmetic, bit operations and shifts are exact modulo 2^63", "statement": "For all words v,w: +,-,* are arithmetic modulo 2^63; div,mod are unsigned; andb/orb/xorb/notb act bitwise on 63 bits; <<,>>,~>> by any shift count (also counts >= 63) equal multiplication/division by 2^k modulo 2^63; ~w = 0w0 - w; comparisons are unsigned.", "quantifier": "every pair of 63-bit words and every shift count", "why_tests_cant": "2^126 combinations; the operations are done on tagged words with mask tricks", "anchors": ["src/runtime/interp.c: ADDINT SUBINT MULINT DIVINT MODINT ANDINT ORINT XORINT SHIFTLEFTINT SHIFTRIGHTINTSIGNED SHIFTRIGHTINTUNSIGNED", "src/mosmllib/Word.mlp"]}
{"id": "C04", "title": "Int.fmt / Int.toString and Int.scan / Int.fromString are inverse", "statement": "For every 63-bit integer i and radix r in {2,8,10,16}, scanning the text produced by Int.fmt r i returns i and consumes all of it; and for every text, Int.scan returns the integer denoted by the longest valid numeral prefix, or raises Overflow exactly when that integer is out of range, or NONE if there is no numeral prefix.", "quantifier": "every integer, radix, and character stream", "why_tests_cant": "integers and texts are unboundedly many; minInt has no positive counterpart, so the scanner accumulates with the sign applied", "anchors": ["src/mosmllib/Int.mlp: fmt, scan, toString, fromString", "src/runtime/mosml.c: sml_string_of_int, sml_int_of_string"]}
{"id": "C05", "title": "Word.fmt and Word.scan are inverse", "statement": "For every word w and radix r, Word.scan r of Word.fmt r w returns w and consumes all of it; scanning any digit string returns the number it denotes modulo the word size.", "quantifier": "every 63-bit word, radix and character stream", "why_tests_cant": "unboundedly many texts; the hexadecimal prefix and lookahead handling depends on arbitrarily long context", "anchors": ["src/mosmllib/Word.mlp: fmt, scan", "src/runtime/mosml.c: sml_hexstring_of_word"]}
{"id": "C06", "title": "String.toString / String.fromString round trip", "statement": "For every string s (any bytes), String.toString s contains only printable ASCII characters, and String.fromString (String.toString s) = SOME s; likewise Char.toString/Char.fromString and the C-escape variants.", "quantifier": "every finite sequence of bytes", "why_tests_cant": "strings are unbounded; escape sequences of different lengths may interact with following characters (e.g. octal escape followed by a digit)", "anchors": ["src/mosmllib/Strbase.mlp: toMLescape, fromMLescape, toCescape, fromCescape", "src/mosmllib/String.sml: toString, fromString", "src/mosmllib/Char.sml"]}
{"id": "C07", "title": "String representation: size and contents are recoverable, comparison is lexicographic", "statement": "For every byte sequence, the block allocated for it by the runtime has a size from which the exact length is recovered; strings of any length, including embedded NUL bytes, compare by unsigned lexicographic order; equality of strings coincides with equality of byte sequences.", "quantifier": "every pair of byte sequences", "why_tests_cant": "lengths modulo the word size and embedded zero bytes interact; unbounded many lengths", "anchors": ["src/runtime/str.c: string_length, compare_strings", "src/runtime/alloc.c: alloc_string, copy_string"]}
{"id": "C08", "title": "Structural comparison, equality and hashing are consistent", "statement": "For all finite acyclic values a, b of the same type: polymorphic equality holds iff the values are structurally equal (references by identity); polymorphic compare is a total order consistent with equality and its sign is preserved by the result; equal values have equal hash codes for every pair of limits.", "quantifier": "every pair of values (trees of unbounded size) and all hash limits", "why_tests_cant": "values are unboundedly large graphs; sign truncation and tag ordering only show up on specific values", "anchors": ["src/runtime/compare.c: compare_val, compare, equal", "src/runtime/mosml.c: sml_equal_aux", "src/runtime/hash.c: hash_aux, hash_univ_param"]}
{"id": "C09", "title": "Free-list allocator never hands out overlapping memory and conserves words", "statement": "Starting from an empty heap, after any sequence of allocations, heap extensions and sweeper frees, the blocks handed out and the blocks on the free list are pairwise disjoint and together with one-word fragments tile the heap; an allocation of n words either returns a block of exactly n words plus header taken from the free list or reports that no free block is large enough.", "quantifier": "every interleaving of allocate / free(merge) / add-chunk operations and every heap size", "why_tests_cant": "histories are unbounded; next-fit roving pointer and splitting leave fragments in history-dependent positions", "anchors": ["src/runtime/freelist.c: fl_allocate, allocate_block, fl_merge_block, fl_add_block, fl_init_merge"]}
{"id": "C10", "title": "Free list stays address ordered and coalesced", "statement": "After any sequence of allocator operations, the free list is strictly increasing in address, and adjacent free blocks freed by a sweep are merged.", "quantifier": "every interleaving of allocator, heap-extension and sweep operations", "why_tests_cant": "depends on the relative positions of the sweep pointer, merge pointer and new chunk addresses; history dependent", "anchors": ["src/runtime/freelist.c: fl_merge_block, fl_add_block", "src/runtime/memory.c: expand_heap", "src/runtime/major_gc.c: sweep_slice"]}
{"id": "C11", "title": "Page-table membership test is exact", "statement": "For every address and every history of heap extensions, Is_in_heap(p) is true iff p lies in one of the chunks added to the heap, also after the page table has been reallocated to grow at either end.", "quantifier": "every address and every sequence of chunk additions", "why_tests_cant": "addresses and histories are unbounded; table growth at low/high end shifts indices", "anchors": ["src/runtime/memory.c: expand_heap", "src/runtime/major_gc.c: init_major_heap, p_table_in_heap", "src/runtime/gc.h/major_gc.h: Is_in_heap, Page"]}
{"id": "C12", "title": "A minor collection preserves the reachable object graph", "statement": "For any heap satisfying the remembered-set invariant, after a minor collection the graph reachable from the roots is isomorphic to the one before it (same shapes, tags, data and sharing), no reachable object lies in the minor heap, and the remembered set is empty.", "quantifier": "every heap graph (with arbitrary sharing and cycles), root set and remembered set", "why_tests_cant": "heap graphs are unbounded; forwarding of shared and cyclic structures and of tail fields is order dependent", "anchors": ["src/runtime/minor_gc.c: oldify, minor_collection"]}
{"id": "C13", "title": "The write barrier maintains the remembered-set invariant", "statement": "After any sequence of mutator operations (allocation, initialization of fresh blocks, mutation of any field through the runtime) every pointer from the major heap into the minor heap is recorded in the remembered set, for every mutator history.", "quantifier": "every sequence of mutator operations", "why_tests_cant": "the barrier records a field only when its old value was not already young; correctness depends on the whole history", "anchors": ["src/runtime/memory.c: modify, initialize", "src/runtime/memory.h: Modify", "src/runtime/minor_gc.h: ref_table"]}
{"id": "C14", "title": "The incremental major collector never frees reachable objects", "statement": "For every interleaving of mutator steps (reads, writes with barrier, allocation, root changes at slices), mark slices of any size, and sweep slices of any size, no object reachable from the roots is ever reclaimed, and every object unreachable when a cycle starts is reclaimed by the end of that cycle or the next.", "quantifier": "every interleaving of mutator and collector slices, every heap graph", "why_tests_cant": "unboundedly many interleavings of an incremental collector; mark stack overflow changes the traversal order", "anchors": ["src/runtime/major_gc.c: darken, mark_slice, sweep_slice, start_cycle, major_collection_slice", "src/runtime/memory.c: alloc_shr, modify"]}
{"id": "C15", "title": "Weak pointers are cleared exactly when their target dies", "statement": "For every heap and interleaving, a weak pointer whose target is reachable through ordinary pointers is never reported dead or cleared; a weak pointer never yields a reclaimed object.", "quantifier": "every heap graph with weak arrays, every interleaving of mutator and collection phases, every placement of new heap chunks", "why_tests_cant": "depends on the collection phase and on the addresses the operating system returns for new chunks", "anchors": ["src/runtime/major_gc.c: weak_phase", "src/mosmllib/Weak.mlp"]}
{"id": "C16", "title": "Fast-format extern/intern round trip", "statement": "For every value without functions or abstract blocks, reading back the bytes written by the fast format externalizer yields a value isomorphic to the original (including sharing and cycles); the original is unchanged.", "quantifier": "every finite value graph", "why_tests_cant": "graphs unbounded; extern temporarily overwrites the heap and encodes addresses as relative offsets", "anchors": ["src/runtime/extern.c: extern_val, emit_all, extern", "src/runtime/intern.c: intern_val, adjust_pointers"]}
{"id": "C17", "title": "Compact-format extern/intern round trip", "statement": "For every value graph, the compact format reader applied to the compact format writer's output rebuilds an isomorphic graph (sharing and cycles preserved).", "quantifier": "every finite value graph", "why_tests_cant": "several size classes (small ints, 8/16/32/64-bit codes, short/long strings, shared back-references) with boundaries, over unbounded graphs", "anchors": ["src/runtime/externcp.c", "src/runtime/interncp.c", "src/runtime/intext.h"]}
{"id": "C18", "title": "string_mlval / mlval_string round trip", "statement": "For every value v, Mosml persistence via strings returns a value equal to v: mlval_string (string_mlval v) = v.", "quantifier": "every value", "why_tests_cant": "every value shape and every size; offsets depend on the platform word size", "anchors": ["src/runtime/mosml.c: string_mlval, mlval_string"]}
{"id": "C19", "title": "Buffered output delivers exactly the bytes written, in order", "statement": "For every sequence of output operations (characters, words, blocks of any size, flushes, seeks) and every pattern of partial writes by the operating system, after a flush the file equals what an unbuffered write of the same operations would have produced, and the reported position equals the logical position.", "quantifier": "every sequence of operations and every schedule of short writes", "why_tests_cant": "partial write schedules and buffer boundary alignments are unbounded", "anchors": ["src/runtime/io.c: flush, putblock, putword, output, seek_out, pos_out", "src/runtime/io.h: putch"]}
{"id": "C20", "title": "Buffered input returns exactly the bytes of the file, in order", "statement": "For every file content, sequence of input operations (char, word, block, line scan, seek) and every pattern of short reads, the bytes delivered are those an unbuffered reader would deliver, end-of-file is reported only when no byte is left, and the reported position equals the logical position.", "quantifier": "every file, operation sequence and short-read schedule", "why_tests_cant": "short-read schedules are unbounded and interact with buffer refill, line scanning and seek-inside-buffer", "anchors": ["src/runtime/io.c: refill, getblock, getword, input, seek_in, pos_in, scan_line", "src/runtime/io.h: getch"]}
{"id": "C21", "title": "The code-fingerprint function computes MD5", "statement": "For every byte string of length < 2^31, md5sum returns the standard unpadded base64 encoding of the RFC 1321 MD5 digest, independent of how the input is chunked; the encoding is injective on digests.", "quantifier": "every byte string", "why_tests_cant": "padding depends on length modulo 64; chunk boundaries at 8192; unbounded many inputs", "anchors": ["src/runtime/md5sum.c: MD5Init, MD5Update, MD5Final, MD5Transform, md5sum"]}
{"id": "C22", "title": "Listsort.sort returns a sorted permutation", "statement": "For every total preorder and list, Listsort.sort returns a permutation of the input that is sorted, Listsort.merge of two sorted lists is a sorted permutation of their concatenation, and sorted decides sortedness.", "quantifier": "every list and every comparison function that is a total preorder", "why_tests_cant": "lists unbounded; the algorithm detects runs and merges bottom-up by a binary counter", "anchors": ["src/mosmllib/Listsort.sml: sort, sorted, merge, mergeUniq, eqclasses"]}
{"id": "C23", "title": "Arraysort.sort sorts in place", "statement": "For every array and total preorder, Arraysort.sort terminates without Subscript, and leaves a sorted permutation.", "quantifier": "every array content and length, every total preorder", "why_tests_cant": "the partitioning quicksort has many index cases; lengths and contents are unbounded", "anchors": ["src/mosmllib/Arraysort.sml: sort"]}
{"id": "C24", "title": "Binarymap implements finite maps", "statement": "For every sequence of insertions and removals with a total order on keys, find/peek/numItems/listItems/fold agree with the abstract finite map, the internal failure cases are never reached, and the tree is weight balanced.", "quantifier": "every sequence of operations, every strict total order", "why_tests_cant": "histories unbounded; rotations depend on sizes of subtrees", "anchors": ["src/mosmllib/Binarymap.sml"]}
{"id": "C25", "title": "Intmap and Intset implement finite maps and sets over int", "statement": "For every sequence of operations, Intmap and Intset agree with the abstract map/set; set union, intersection, difference, equal and isSubset are exact.", "quantifier": "every sequence of operations", "why_tests_cant": "histories unbounded", "anchors": ["src/mosmllib/Intmap.sml", "src/mosmllib/Intset.sml"]}
{"id": "C26", "title": "Redblackmap implements finite maps with balanced trees", "statement": "For every sequence of operations, Redblackmap agrees with the abstract finite map, keeps the red-black invariants (so depth is at most 2 log2(n+1)), and never reaches its internal failure cases.", "quantifier": "every sequence of insert/remove/update, every strict total order", "why_tests_cant": "histories unbounded; deletion rebalancing has many cases", "anchors": ["src/mosmllib/Redblackmap.sml"]}
{"id": "C27", "title": "Redblackset (Rbset) implements finite sets", "statement": "For every sequence of operations, Rbset agrees with abstract sets: add, delete, union, intersection, difference, equality, subset, compare, ordered sublists, min/max, fromSortedList, map and mapMono, and keeps the red-black invariants.", "quantifier": "every sequence of operations, every strict total order", "why_tests_cant": "histories unbounded; linear-time set operations use explicit stacks and a number-system construction", "anchors": ["src/mosmllib/Rbset.sml"]}
{"id": "C28", "title": "Splaymap and Splayset implement finite maps and sets", "statement": "For every sequence of operations (including lookups, which restructure the tree), Splaymap/Splayset agree with the abstract map/set.", "quantifier": "every sequence of operations, every strict total order", "why_tests_cant": "self-adjusting trees change shape on every access", "anchors": ["src/mosmllib/Splaytree.sml", "src/mosmllib/Splaymap.sml", "src/mosmllib/Splayset.sml"]}
{"id": "C29", "title": "Binaryset implements finite sets", "statement": "For every sequence of operations Binaryset agrees with abstract sets, including hedge union, difference and intersection, and stays weight balanced.", "quantifier": "every sequence of operations, every strict total order", "why_tests_cant": "hedge union works with range-restricted subtrees; unbounded", "anchors": ["src/mosmllib/Binaryset.sml"]}
{"id": "C30", "title": "Polyhash and Hashset implement finite maps and sets", "statement": "For every hash function and every equality compatible with it, and every sequence of operations (including table growth), Polyhash and Hashset agree with the abstract finite map/set and the item count is exact.", "quantifier": "every operation history, every hash function", "why_tests_cant": "bucket collisions and growth points depend on history and hash function", "anchors": ["src/mosmllib/Polyhash.sml", "src/mosmllib/Hashset.sml"]}
{"id": "C31", "title": "Buffer accumulates exactly the appended text", "statement": "For every sequence of Buffer operations the contents equal the concatenation of the appended strings since the last clear/reset, size is its length, and no write goes outside the underlying array.", "quantifier": "every sequence of operations and every initial size", "why_tests_cant": "growth points depend on history", "anchors": ["src/mosmllib/Buffer.sml"]}
{"id": "C32", "title": "Dynarray behaves as an unbounded array with default", "statement": "For every sequence of updates and lookups, sub returns the last value written at that index, the initial value if there is none, or the default; every index at or above bound holds the default; negative indices raise Subscript; subArray(a,m,n) holds the values a[m..n) shifted to 0.", "quantifier": "every history, index and initial size", "why_tests_cant": "growth by doubling at history-dependent points", "anchors": ["src/mosmllib/Dynarray.sml"]}
{"id": "C33", "title": "String.tokens/fields/translate and Substring splitting are exact", "statement": "For every string and predicate: concatenating fields with separators gives back the string, no field contains a separator, tokens are exactly the non-empty fields; splitl/splitr/dropl/taker partition the substring at the maximal prefix/suffix; position finds the leftmost occurrence; Subscript is raised exactly for out-of-range arguments.", "quantifier": "every string, predicate, index", "why_tests_cant": "strings unbounded", "anchors": ["src/mosmllib/Substring.sml", "src/mosmllib/String.sml", "src/mosmllib/Strbase.mlp"]}
{"id": "C34", "title": "Path canonicalisation and splitting", "statement": "For every Unix path: mkCanonical is idempotent and its result contains no empty, '.', or non-leading '..' arcs and denotes the same location; toString (fromString p) = p; splitDirFile/joinDirFile and splitBaseExt/joinBaseExt are inverse; mkRelative followed by mkAbsolute returns the canonical original path.", "quantifier": "every string as path", "why_tests_cant": "paths unbounded; empty arcs and parent arcs interact", "anchors": ["src/mosmllib/Path.mlp"]}
{"id": "C35", "title": "Path.fromUnixPath and toUnixPath are inverse on Unix paths", "statement": "For every valid Unix path p, Path.fromUnixPath p returns the corresponding native path (p itself up to structure) and toUnixPath inverts it; InvalidArc is raised exactly if an arc contains a separator.", "quantifier": "every string as path", "why_tests_cant": "quantifies over all paths", "anchors": ["src/mosmllib/Path.mlp: fromUnixPath, toUnixPath"]}
{"id": "C36", "title": "Date arithmetic is the Gregorian calendar", "statement": "For every year, month, day (possibly out of range) Date.date yields the unique valid Gregorian date with that day number; conversion between day numbers and dates is a bijection; weekday and yearday are those of the Gregorian calendar.", "quantifier": "every day number and every (year, month, day)", "why_tests_cant": "infinitely many dates; century and 400-year exceptions", "anchors": ["src/mosmllib/Date.sml: leapyear, todaynumber, fromdaynumber, dayinyear, date"]}
{"id": "C37", "title": "Generated lexers implement longest match with rule priority", "statement": "For every lexer definition and input, the automaton produced by mosmllex applied to the input returns the action of the longest prefix matched by some rule, and among rules matching that prefix the one listed first; it fails exactly if no rule matches a prefix.", "quantifier": "every list of regular expressions and every input", "why_tests_cant": "both regular expressions and inputs are unbounded", "anchors": ["src/lex/Lexgen.sml: make_dfa, firstpos, lastpos, followpos", "src/lex/Output.sml", "src/mosmllib/Lexing.sml"]}
{"id": "C38", "title": "Transitive closure in the parser generator is correct", "statement": "For every relation represented as a bit matrix of any size, transitive_closure computes exactly its transitive closure and reflexive_transitive_closure its reflexive transitive closure, touching only the matrix.", "quantifier": "every matrix size and content", "why_tests_cant": "matrix dimensions cross 32-bit word boundaries; unbounded", "anchors": ["src/mosmlyac/warshall.c: transitive_closure, reflexive_transitive_closure"]}
{"id": "C39", "title": "Compiled pattern matching selects the first matching rule", "statement": "For every list of pattern rows and every value, the decision dag generated by the match compiler evaluates to the right-hand side of the first row matching the value, to failure iff no row matches; a rule reported as unused is matched first by no value, and a match compiled without failure code is exhaustive.", "quantifier": "every list of rules and every value", "why_tests_cant": "patterns and values unbounded; static matching prunes tests using accumulated term descriptions", "anchors": ["src/compiler/Match.sml: makedag, staticmatch, builddsc, apply, translateMatch"]}
{"id": "C40", "title": "Function calls: partial, exact and over-application agree with curried application", "statement": "For every function arity and number of supplied arguments, the abstract machine's APPLY/APPTERM/GRAB/RESTART/RETURN protocol gives the same result as applying the curried function to the arguments one at a time.", "quantifier": "every arity, argument count, environment and stack contents", "why_tests_cant": "arity and argument counts are unbounded; partial application closures are re-entered through RESTART", "anchors": ["src/runtime/interp.c: APPLY, APPTERM, GRAB, RESTART, RETURN, CLOSURE"]}
{"id": "C41", "title": "Exceptions unwind to the innermost handler with its stack", "statement": "For every nesting of handlers and every point where an exception is raised, control transfers to the dynamically innermost handler with the stack and environment it was installed with, also after the stack has been reallocated.", "quantifier": "every execution trace with handlers and stack reallocation", "why_tests_cant": "traces unbounded; the trap chain is stored as stack offsets/pointers which are relocated", "anchors": ["src/runtime/interp.c: PUSHTRAP, POPTRAP, RAISE", "src/runtime/stacks.c: realloc_stack"]}
{"id": "C42", "title": "real to int conversions are exact or raise Overflow", "statement": "For every finite real r, floor, ceil, trunc and round return the mathematically exact integer (round: nearest, ties to even) or raise Overflow, and raise Overflow exactly when that integer is outside -2^62..2^62-1.", "quantifier": "every double-precision value", "why_tests_cant": "2^64 doubles; boundary values near 2^62", "anchors": ["src/runtime/mosml.c: sml_floor, sml_ceil, sml_round, sml_trunc"]}
{"id": "C43", "title": "Overlapping copies behave like simultaneous assignment", "statement": "For every array, source range and destination range (overlapping or not), Array.copy, ArraySlice.copy, Array2.copy and the runtime block moves give the destination the elements the source had before the copy and change nothing else.", "quantifier": "every array, offsets and lengths", "why_tests_cant": "overlap direction cases; unbounded sizes", "anchors": ["src/mosmllib/Array.mlp: copy", "src/mosmllib/ArraySlice.sml: copy", "src/mosmllib/Array2.sml: copy", "src/runtime/str.c: blit_string"]}
{"id": "C44", "title": "Back-patched branch offsets are correct", "statement": "For every instruction list with labels, in the byte code emitted every branch operand plus its own position equals the position where its label was defined, for forward and backward references alike; the byte buffer equals the concatenation of emitted bytes irrespective of growth.", "quantifier": "every instruction sequence", "why_tests_cant": "forward references are patched after an unbounded amount of further output and buffer growth", "anchors": ["src/compiler/Labels.sml", "src/compiler/Buffcode.sml", "src/compiler/Emitcode.sml"]}
{"id": "C45", "title": "Infix expression parsing respects precedence and associativity", "statement": "For every sequence of operands and infix operators with arbitrary fixities, the resolver produces the unique tree in which higher precedences bind tighter and equal precedences associate as declared, keeping the order of operands and operators; it reports an error exactly when operators of equal precedence with different associativity meet.", "quantifier": "every sequence and every fixity assignment", "why_tests_cant": "sequences and fixities unbounded", "anchors": ["src/compiler/Infixst.sml: resolveInfix", "src/compiler/Infixres.sml"]}
{"id": "C46", "title": "Compiled code computes what the program means", "statement": "For every lambda term that the front end hands to the back end, the byte code that the back end and the emitter make for it, run by the abstract machine, leaves the value that the term has by the rules of evaluation, or raises the exception that evaluation raises; the effects on the heap and on the global variables are the same.", "quantifier": "every lambda term, every value of its free globals, every result of evaluation", "why_tests_cant": "terms are unbounded; the code generator keeps stack positions, labels, shared nodes and continuations in mutable state that interacts", "anchors": ["src/compiler/Back.sml: UNdeBruijn, compexp, compileRest", "src/compiler/Emit_phr.sml", "src/runtime/interp.c: interprete"]}
{"id": "C47", "title": "Type unification is sound and most general", "statement": "For every graph of types in which no type is circular and every two types in it, unification either succeeds, and then exactly those assignments of types to type variables and rows remain possible that were possible before and make the two types equal (including the attributes: equality, imperative, overloaded, binding level), and no circular type arises; or it raises exception Unify, and then there is no such assignment; nothing else happens.", "quantifier": "every heap of type variables, record nodes and rows, every two types", "why_tests_cant": "graphs are unbounded, with sharing; links, attributes, levels and rows are changed in place in an order that matters", "anchors": ["src/compiler/Types.sml: unify, unifyRec, unifyRho, extractLab, linkVarToType, prune_level, makeEquality, makeImperative, makeOverloaded, freeVarsType, normType"]}
{"id": "C48", "title": "Lexers do not depend on how their input is delivered", "statement": "For every generated lexer and every way in which the reader function delivers the input in portions, the lexer on a buffer made by createLexer runs the actions for the longest matches in the whole input, and getLexeme, getLexemeChar, getLexemeStart and getLexemeEnd give the matched text and its position in the whole input, as on a buffer made by createLexerString from the same characters; memory outside the buffer is never read; and after Fail for an illegal symbol the buffer can still be used.", "quantifier": "every input, every sequence of results of the reader, every program using the buffer", "why_tests_cant": "the buffer is shifted and refilled at positions that depend on input, portions and program; the interplay is unbounded", "anchors": ["src/mosmllib/Lexing.sml: lexRefill, createLexer, createLexerString, getLexeme, getLexemeChar, backtrack", "src/runtime/lexing.c: get_next_char", "src/lex/Output.sml: output_state, output_entries"]}
{"id": "C49", "title": "Text streams deliver and store the characters of the file", "statement": "For every file and every sequence of input1, input, inputNoBlock, inputN, inputAll, inputLine, lookahead, endOfStream, scanStream and closeIn on a stream, each operation returns the characters that come next in the file, none lost and none delivered twice (lookahead, endOfStream and the characters a scanner looked at but did not use stay); after closeIn every operation sees the end; for every sequence of output, output1 and flushOut, after closeOut or flushOut the file holds exactly the characters written, and after every operation on stdErr.", "quantifier": "every file, every sequence of operations, every amount the operating system delivers or accepts per call, every scanner", "why_tests_cant": "sequences of operations and sizes of reads are unbounded; buffers of four layers are refilled, doubled and copied at positions that depend on them", "anchors": ["src/mosmllib/TextIO.sml: input1, input, inputNoBlock, inputN, inputAll, inputLine, lookahead, endOfStream, scanStream, closeIn, output, output1, flushOut, closeOut", "src/runtime/io.c", "src/runtime/str.c: blit_string"]}
{"id": "C50", "title": "The linker links the program that the units make up", "statement": "For every set of compiled units and every list of units to link, the linker takes the units given and, with -autolink, those they mention, each once, after the units it mentions, and only with the signatures they were compiled against; it stops on circular units and fails only if there is no such order. Of the phrases it leaves out only pure ones whose definitions are not used. In the code of the others every name is replaced by the slot of the definition it refers to when all phrases run in order (the latest before it; of another unit, the exported one), every constant by a slot holding it, every primitive by its number, and nothing else is changed; different definitions and constants have different slots. If a phrase uses a name without definition or an unknown primitive, or an export is not defined, linking fails; it does not fail otherwise.", "quantifier": "every set of units, every graph of mentions, every sequence of phrases and relocations, every list of predefined names and primitives", "why_tests_cant": "units, phrases and their dependencies are unbounded; liveness is computed backwards over all units and slots are given forwards in a table shared by all units", "anchors": ["src/compiler/Link.sml", "src/compiler/Symtable.sml", "src/compiler/Patch.sml"]}
{"id": "C51", "title": "Constants, comments and layout of source programs are read as the Definition says", "statement": "For every source program and every position in it, the compiler's lexer returns a token or raises LexicalError. White space and properly nested comments, of any depth and length, before a token do not change it. A string constant or character constant is read as exactly the characters that its text denotes (plain characters, escapes, \\^c, \\ddd, \\uxxxx, gaps), whatever its length, with its first and last position; nothing else is read as one; a constant that is not finished or not well formed, and a comment that is not closed, is refused. Integer and word constants, decimal and hexadecimal, are read as the number they denote, or refused when it does not fit; nothing else is read as one. A real constant is read as one, and an alphanumeric word as a reserved word exactly if it is one, as an identifier otherwise. What String.toString prints, between quotes, is read as the same string.", "quantifier": "every source program, every position, every nesting of comments, every text of a constant", "why_tests_cant": "sources, comments and constants are unbounded; the automaton generated by mosmllex decides by longest match among 28 rules, and the string buffer is grown by doubling", "anchors": ["src/compiler/Lexer.lex: TokenN, TokenId, Comment, String, SkipString, store_string_char, get_stored_string, char_for_backslash, charCodeOfDecimal, charCodeOfHexadecimal, scanString", "src/runtime/mosml.c: sml_int_of_string, sml_int_of_hex, sml_word_of_dec, sml_word_of_hex", "src/mosmllib/String.mlp: toString"]}
{"id": "C52", "title": "Polymorphic types are generalised and instantiated as the Definition says", "statement": "When a value declaration is closed, the type variables generalised are exactly those that occur in its type, were made deeper than the current binding level, are not overloaded and, if the expression is expansive, not imperative (with value polymorphism: none then). The others are lowered to the current level, so no enclosing declaration of that level can generalise them; no type changes its meaning. Each use of a polymorphic identifier gets the type of the identifier with a fresh variable in place of each generalised one, everywhere the same, of the same kind (equality, overloading) and at the current level; variables that are not generalised are shared; nothing that existed before changes, so the instances of two uses have no generalised variable in common. Both end.", "quantifier": "every type graph, every binding level, every set of generalised variables, every number of instances", "why_tests_cant": "types are graphs of references of any size and sharing; copyType returns the parts it need not copy and remembers the variables already copied", "anchors": ["src/compiler/Types.sml: generalization, specialization, copyType, copyTypeList, copyFields, refreshTypeVar, newTypeVar"]}
{"id": "C53", "title": "Word8 is arithmetic modulo 256", "statement": "For all bytes v, w: Word8.+, -, *, ~ are exact modulo 256; div and mod are those of the natural numbers and raise Div for 0; andb, orb, xorb, notb are bitwise; <<, >>, ~>> by any word shift the 8 bits; comparisons are unsigned. fromInt and fromLarge of any int and word are modulo 256, toInt, toIntX, toLarge, toLargeX give the unsigned and signed values. fmt prints the digits without superfluous zeros; scan reads the longest numeral of any source, returns its value, or raises Overflow if it is above 255, and returns NONE if there is none; it reads back what fmt prints.", "quantifier": "all bytes, all ints, all words as shift counts, all character sources of any length, all radixes", "why_tests_cant": "bytes are kept in 63-bit machine words which every operation has to normalise; shift counts and numerals are unbounded", "anchors": ["src/mosmllib/Word8.sml", "src/compiler/Ovlres.sml: resolveWord8OvlId", "src/runtime/interp.c"]}
{"id": "C54", "title": "Form values are sent and received unchanged, and text is shown as written", "statement": "Msp.urlencode writes only letters, digits and + - _ . %, and stands for the string it was given; Mosmlcgi's decode reads any text as form encoding prescribes, and what urlencode wrote as the original string. A query k1=v1&...&kn=vn whose names and values were written by urlencode gives every name its values, all of them, in order; any other query gives the values of the parts that have exactly one =. Msp.htmlencode writes no < or >, and a browser shows what it writes as the string given; different strings are written differently.", "quantifier": "all strings of any length, all queries, all names", "why_tests_cant": "the characters of names and values that are also separators, escapes cut off at the end and repeated names combine without bound", "anchors": ["src/mosmllib/Msp.sml: urlencode, htmlencode", "src/mosmllib/Mosmlcgi.sml: decode, addItem, addField, cgi_dict, cgi_field_strings, cgi_field_string"]}
{"id": "C55", "title": "List and ListPair call the functions they are given in order and once for each element", "statement": "For functions that have effects and may raise exceptions: List.map, app, mapPartial, filter, partition and tabulate call the function once for each element from first to last and no more after an exception, which is passed on with the effects so far; find, exists, all and collate call it up to the element that decides and no further; foldl works from the first and foldr from the last element. The results are the mathematical ones. nth, take, drop are exact and raise Subscript outside the list. ListPair's operations are those of List on the pairs of the common part; the Eq versions raise UnequalLengths for lists of different lengths: mapEq, appEq and foldlEq after the calls for the common part, foldrEq before any call; allEq gives false.", "quantifier": "all lists of any length, all element types, all functions with any state and exceptions", "why_tests_cant": "the order and number of calls of an arbitrary function with effects, and which are left out after an exception, over lists of any length", "anchors": ["src/mosmllib/List.sml", "src/mosmllib/ListPair.sml"]}
{"id": "C56", "title": "Vector's operations are List's on the elements, and stay inside the vector", "statement": "The loops of Vector use unchecked reads and writes. For every vector and all functions with effects that may raise exceptions, find, exists, all, foldl, foldr, app, map and collate make the same calls in the same order as the operation of List on the list of the elements, with the same result or exception; findi, foldli, foldri, appi and mapi do so on the elements paired with 0, 1, and so on. No loop reads or writes outside a vector, and every cell of a new vector is filled before it is returned. fromList, concat and tabulate raise Size above maxLen (concat Overflow where the sum of the lengths is not an int) (tabulate also for a negative length) before any call; concat joins the elements; sub and update are exact and raise Subscript outside the vector; update leaves the other elements as they were.", "quantifier": "all vectors of any length, all element types, all functions with any state and exceptions", "why_tests_cant": "an index one too far in an unchecked loop shows only on memory that happens to matter; the order of calls of an arbitrary function with effects over vectors of any length", "anchors": ["src/mosmllib/Vector.mlp"]}
{"id": "C57", "title": "A vector slice is a part of its vector, and its operations stay inside it", "statement": "VectorSlice.slice and subslice give the part asked for, or raise Subscript exactly when it is not inside the vector (or the slice); getItem takes off the first element. Every operation on a slice (length, sub, vector, isEmpty, getItem, find, exists, all, app, map, foldl, foldr, concat, collate) does what the operation of List does on the elements of that part, with the same calls in the same order and the same exceptions; the indexed ones pass the index in the underlying vector, as VectorSlice.sig documents. The unchecked reads and writes stay inside the vectors and all cells of a new vector are filled.", "quantifier": "all vectors and slices, nested to any depth, all element types, all functions with any state and exceptions", "why_tests_cant": "offset and bound must agree in twenty unchecked loops for every start, length and nesting; a wrong one reads a neighbouring element or memory outside", "anchors": ["src/mosmllib/VectorSlice.sml", "src/mosmllib/VectorSlice.sig"]}
{"id": "C58", "title": "The iterators of Array use each element as it is when its turn comes", "statement": "For functions that may change the array they are given the elements of, and may raise exceptions: exists, all, foldl, foldr, app, modify and their indexed versions go through the indexes in order (foldr and foldri from the last), read each element with its value at that moment, call the function once, store its result (modify) and stop where an exception is raised or the result is decided; no read or write is outside the array. find p a returns SOME x for an element x of which p was true.", "quantifier": "all arrays of any length, all functions with any effect on the array and any other state, all exceptions", "why_tests_cant": "the function called may change the array under the iterator in any way, over arrays of any length", "anchors": ["src/mosmllib/Array.mlp", "src/mosmllib/Array.sig"]}
{"id": "C59", "title": "A forced suspension keeps its value and is evaluated at most once", "statement": "Susp.delay evaluates nothing. When Susp.force su has returned v, then whatever the program does, the expression of su is not evaluated again and every force of su returns v at once. The expression is evaluated at most once.", "quantifier": "all programs that delay and force suspensions from inside each other, raise and handle exceptions and have any other effects", "why_tests_cant": "nested forcing of suspensions from inside the expressions of others, to any depth and in any order", "anchors": ["src/mosmllib/Susp.sml", "src/mosmllib/Susp.sig"]}
