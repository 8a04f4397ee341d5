{
 "C01": {
  "note": "Sliced element types ([E], str, CStr): postcondition of push over all states, allocators and destructor behaviours, plus the capacity-overflow direction."
 },
 "C02": {
  "note": "Proved for a release build, or debug build without allocator failure after a reservation; guarded where the element is zero-sized and over-aligned. The guard is needed: C02_push_unraised."
 },
 "C03": {
  "note": "Proved for nonzero-sized T. For zero-sized T every push panics (C03_push_zst_always_panics)."
 },
 "C04": {
  "note": "All kinds, every state and allocator behaviour. If the box allocation fails the element is gone and nothing else changed. That the box has the right layout is claimed for all types but CStr (F19, see C52)."
 },
 "C05": {
  "note": "All kinds, all indices, in and out of bounds."
 },
 "C06": {
  "note": "Full for nonzero-sized T and for index 0; otherwise where the element index equals the byte offset. Out of bounds in full. At the end behind an unpadded element it never works: C06_insert_end_never. Where the index lies before the byte offset, C06_insert_displaced says what the vector holds instead; C06_insert_never(_dyn): never the documented list unless the bytes happen to agree."
 },
 "C07": {
  "note": "Full for statically aligned types; run-time alignments unless appending behind an unpadded last element. Elsewhere it never works: C07_insert_with_end_never."
 },
 "C08": {
  "note": "Guarded for run-time alignments (last element behind an unpadded one). The layout of the box is claimed for all types but CStr (F19). Elsewhere it never works: C08_remove_last_never."
 },
 "C09": {
  "note": "All kinds; the whole forward run."
 },
 "C10": {
  "note": "All kinds; the whole backward run."
 },
 "C11": {
  "note": "Any interleaving for Sized types; for the other kinds interleavings without next_back after next are exact. C11_any_order: every interleaving whatsoever is free of undefined behaviour, returns the right number of items, and each wrong item is described exactly."
 },
 "C12": {
  "note": "nth/last exact unless they read through a front offset of 0 after the front advanced. C12_last_any: what last yields after any calls whatever, fair or not."
 },
 "C13": {
  "note": "For call sequences that are exact (C11); the overlap otherwise is the refuted case. There the item always overlaps the first one: C13_overlap_always."
 },
 "C14": {
  "note": "get_mut in full; iter_mut for forward or backward runs. Elsewhere writing through the item always changes the first element: C14_iter_mut_always."
 },
 "C15": {
  "note": "Every reference handed out by get/iteration, given the recorded alignment bounds every element's alignment. C15_history_partial and its two special cases: at every moment of the histories of C49."
 },
 "C16": {
  "note": "byte_len, len and capacity accounting for represented vectors. C16_history_partial and its two special cases: at every moment of the histories of C49."
 },
 "C17": {
  "note": "Bound for every represented vector; impossible requests are reported by both try_ forms; bad alignments panic before anything is changed."
 },
 "C18": {
  "note": "Guard 'promised': Sized types with at most n*size bytes, run-time alignments when a byte buffer exists or is requested. Outside it, for all such vectors: C18_reserve_bytes_sized_never (success is reported, nothing is done), C18_reserve_align_never (the alignment is never raised). Where no alignment is named, unsized elements need no guard: C18_try_reserve_bytes, C18_reserve_bytes, C18_try_reserve_exact_bytes. C18_failing: the panicking forms never return where the others report an error."
 },
 "C19": {
  "note": "No allocator call, no byte moved, same buffer."
 },
 "C20": {
  "note": "Sized types only; the other two kinds always reallocate. For those: C20_push_with_always_grows, C20_insert_with_always_grows."
 },
 "C21": {
  "note": "Release builds for the combined form; the count and exact forms in all builds. In debug builds: C21_debug_never."
 },
 "C22": {
  "note": "try_reserve_exact is exact; with_capacity_bytes is exact from 8 elements on, and its exact value below that is given."
 },
 "C27": {
  "note": "pop_into in full, including a panicking destructor; remove_into guarded as C08 (underflow when the last element is removed behind an unpadded one). Elsewhere it never works: C27_forget_last_never, C27_drop_last_never."
 },
 "C28": {
  "note": "Panic before asking for room and while writing: unchanged. Panic after delivery: the element is in the vector (refuted as stated)."
 },
 "C29": {
  "note": "pop_into in full; remove_into only for a refusing consumer on unsized kinds or the last element. A panicking destructor always breaks it: C29_destructor_panics, C29_dropped_again."
 },
 "C30": {
  "note": "Raising the alignment by a push or by a reservation keeps the elements and re-pads byte_len."
 },
 "C37": {
  "note": "Both forms, guarded as C07/C08. Outside, the last element of a vector of trait objects behind an unpadded one can never be moved: C37_push_last_never, C37_insert_last_never."
 },
 "C38": {
  "note": "Round trip through box_new_with, box_new and Emplacable::get for every well-formed value of every type, every allocator: the value comes back, its destructor runs once, memory is as before; the box's allocation has exactly the value's layout (C38_box_layout)."
 },
 "C39": {
  "note": "Proved for values, boxes and full vectors (src_vec: no spare capacity) consumed by box_new_with, drop, forget; by push_with/insert_with under the placeable/movable guards of C03/C07. Missing: sources with spare capacity (F16, C41_vec_box_refuted), and a source whose destructor panics leaks its allocation when dropped (C39_box_leak_refuted). Outside the guard of push_with the alignment is never raised: C39_push_unraised."
 },
 "C40": {
  "note": "Proved for element types that are not Copy (clone loop), boxed. For Copy element types the code copies the reference itself (C40_copy_slice_refuted) and reads out of bounds (C40_copy_slice_ub_refuted). For all Copy slices: C40_copy_never."
 },
 "C41": {
  "note": "Proved for vectors whose capacity equals their length. With spare capacity the requested layout is wrong (C41_vec_box_refuted). For all such vectors: C41_spare_never."
 },
 "C42": {
  "note": "Proved for every emplacable that meets the contract [emits] and for a producer that writes arbitrary bytes and panics: no new live block, nothing else touched. A producer that panics after delivering loses the finished box (C42_late_refuted), so the property holds for panics up to and including the write."
 },
 "C43": {
  "note": "Proved for closures that emplace into a box or vector, forget, get, drop (destructor not panicking) or panic without using the emplacable. Closures that panic after the drop, or whose drop panics, run the destructor twice (C43_double_drop_refuted, C43_panicking_destructor_refuted). For every value: C43_dropped_twice."
 },
 "C44": {
  "note": "Iterators with a claimed length equal to, below and above the real one, overflow of the size computation, and arrays; every family of independent well-behaved emplacables, boxed."
 },
 "C45": {
  "note": "Unsizing and str -> [u8]: boxed (C45_box, C45_str_bytes), dropped and forgotten (C45_drop, C45_forget, C45_str_bytes_drop, C45_str_bytes_forget) for every emplacable; pushed under the guards of C03 (C45_push_partial), without which an over-aligned zero-sized value is misplaced (C45_push_refuted). For all such values: C45_push_unraised."
 },
 "C26": {
  "note": "Proved when destructors do not panic (C26_drop, every kind and state); the deallocation layout is checked by the model (a wrong one is UB). With panicking destructors the unsized kinds leak the rest (C26_drop_panics_partial, C26_panicking_destructor_refuted)."
 },
 "C32": {
  "note": "Proved for every Sized element type of non-zero size, any clone that may panic; zero-sized types panic (C32_clone_zst_refuted). From<Vec> and back: C60. For zero-sized types always: C32_clone_zst_never."
 },
 "C33": {
  "status": "proved",
  "note": "Every kind, every pair of vectors (also the same one twice, also different element types); element equality is an arbitrary pure function. Equivalence laws lifted from the elements."
 },
 "C34": {
  "status": "proved",
  "note": "partial_cmp and cmp are the lexicographic order of an arbitrary pure element comparison; total-order laws and agreement with == and partial_cmp are lifted from the elements."
 },
 "C35": {
  "status": "proved",
  "note": "The hasher is fed exactly the elements in order (no length prefix); equal vectors leave any hasher in the same state."
 },
 "C36": {
  "note": "Any emplacables, any hint; on a panic it is said what becomes of every emplacable and every value. Missing: zero-sized Sized elements (C36_extend_zst_refuted) and over-aligned zero-sized dyn values. For zero-sized types always: C36_extend_zst_never."
 },
 "C46": {
  "note": "Proved for every element size > 0; for zero-sized elements the length is always lost (C46_zst_always_empty, C46_zst_slice_refuted)."
 },
 "C51": {
  "status": "proved",
  "note": "Any serialiser, failing at any call; and the full trace for a recording serialiser."
 },
 "C23": {
  "note": "Every outcome (return, panic, abort) of every shrink function, for all allocator schedules. shrink_to: every type and vector, no restriction. Sized and Aligned types: every argument. Unaligned types: the elements are kept for every byte capacity as long as lowering the alignment moves none of them (C23_any_byte_capacity_partial), so by shrink_capacity_bytes_to for every vector and argument (C23_shrink_capacity_bytes_to). That every later call is right too needs a byte capacity that is absorbed, at least the old one, or a multiple of the new alignment (shrinks_well; C50_odd_capacity_always says what happens otherwise). When elements have to move, the statement is false (C23_shrink_to_fit_refuted: realign_down corrupts elements)."
 },
 "C24": {
  "note": "Both bounds for the element capacity, the byte capacity and the alignment, plus the exact values when the allocator does not fail. 'used' is byte_len() after the call. C24_any_bounds_partial: every byte capacity, as long as lowering the alignment moves no element; otherwise shrink_to_fit can underflow an unchecked subtraction (C24_shrink_to_fit_refuted)."
 },
 "C25": {
  "note": "Proved for all Aligned and Unaligned types (C25_shrink_to_partial). False for Sized types: C25_sized_noop shows that shrink_to never changes anything there, C25_sized_zst that it panics for zero-sized elements; C25_shrink_to_refuted is a concrete run."
 },
 "C31": {
  "note": "C31_unsize_partial proves the full conclusion (same length, each element coerced, nothing dropped, other vectors untouched) for an empty vector or zero-sized elements. C31_byte_len_short and C31_never_right prove that for every other vector the result is wrong: from_sized stores index*size as the END offset of element index. C31_unsize_dyn_refuted and C31_unsize_slice_refuted are concrete witnesses. C31_failure_leaks: when the call panics the buffer and all elements are leaked (F24)."
 },
 "C49": {
  "note": "For Sized elements C49_sized_partial covers every history of well-typed calls (calls, constructors, clones, moves between vectors, writes through get_mut and iter_mut, push_unsize and insert_unsize, comparisons, drops; panics caught), with every allocator schedule; the values may come from closures of the caller's (emplacables and iterators of emplacables) that may panic, also halfway through the write (C49_closure_case, C49_coerced_case); only a panicking destructor while dropping the result of remove_into is excluded. Zero-sized elements included: there a call that reserves bytes may panic with a division by zero (F8), leaving every vector as it was (C49_zst_case). For all other element types C49_easy_partial (conditions on the calls), C49_history_partial (conditions on the lists) and C49_guarded_partial (conditions on the states) exclude exactly the calls that run into a defect. C49_uniform_partial covers trait objects whose sizes are multiples of a power of two bounding all alignments: there every call is right at every position, except insert inside the vector and mixing the ends of an iterator. The unrestricted claim is false: C49_insert_refuted, C49_iterate_refuted. Not among the calls: unsize and the conversions from and into Vec, which change the type (C31, C60), and the read-only Debug, Hash and Serialize (C35, C51, C61)."
 },
 "C50": {
  "note": "Same histories as C49 (also C50_uniform_partial). The unrestricted claim is false: C50_history_refuted, C50_push_after_shrink_refuted. C50_odd_capacity_always: every vector of trait objects shrunk to a byte capacity that is not a multiple of its alignment has two pushes that end in undefined behaviour."
 },
 "C47": {
  "note": "Sized and one-alignment element types: pushes move at most 2 * total - initial byte capacity, from any state (C47_sized_partial, C47_aligned_partial) and at most 2 * total from new (C47_build_partial). Elements of different alignments: bounded by (1 + log2 of the alignment increase) times twice the padded bytes plus a constant (C47_unaligned_partial). Counted in plain bytes the claim is false there: for every factor c up to 2^20 a list of trait objects is given whose construction moves more than c times its bytes (C47_refuted, for every allocator that does not fail). The partial theorems assume that the allocator never fails and sizes far from isize::MAX. The element-info Vec's own moves and in-place re-aligning are not counted."
 },
 "C48": {
  "note": "Refuted for the unsized kinds (F13): C48_push_with_moves gives the exact quadratic cost, C48_refuted shows that no factor c up to 2^50 bounds it. C48_sized_partial: it holds for Sized elements."
 },
 "C52": {
  "note": "Proved for every type with a compile-time alignment but CStr. Wrong for CStr (F19): the declared alignment is that of a reference; a box made from a popped CStr is freed with another alignment than it was allocated with. For every popped CStr: C52_cstr_never_freed."
 },
 "C53": {
  "note": "find, find_map, any, all, for_each, position for all kinds, after any earlier calls, for closures with any state that may panic. The elements seen are those of the positions; an element read after calls that trigger F3 is described by C11_any_order."
 },
 "C54": {
  "note": "Exact unless the front has advanced before (F3); for Sized types in every state. C54_nth_back_any: what nth_back yields and leaves after any calls whatever, fair or not."
 },
 "C55": {
  "note": "For all histories of well-typed calls, including those that go wrong. A is any bound of the alignments asked for."
 },
 "C56": {
  "note": "All Sized element types, emplacables and hints. C56_total: with a right hint and an allocator that does not fail it returns and asks the allocator at most once."
 },
 "C57": {
  "note": "The conversions from emplacables are proved for every emplacable that announces the layout of its value. From a Vec and back: proved for full vectors; with spare capacity (F16) the new vector frees its buffer with the wrong layout (C57_vec_refuted). For all such vectors: C57_spare_never."
 },
 "C58": {
  "note": "rc_from_box is std's; its behaviour is modelled (allocate, set counts, copy, free the box). Counts other than one, Weak and atomics are outside."
 },
 "C59": {
  "note": "unsize! and by_value_str! in full. push_unsize and insert_unsize under the guards of C02 and C06, without which they go wrong in the same way (C59_push_unsize_refuted, C59_insert_unsize_refuted). All cases outside the guards: C59_push_unsize_unraised, C59_insert_unsize_never, C59_insert_unsize_never_dyn, C59_insert_unsize_end_never."
 },
 "C60": {
  "note": "Every Sized element type and every Vec state."
 },
 "C61": {
  "note": "The plain format for any way of printing elements; C61_alternate: the indented format ({:#?}) for elements printed as pieces of text. C61_elements: what is written contains every element once and in order."
 },
 "C62": {
  "note": "Any mixture of values, emplacables and coerced values. The guards are those of push and push_with: no value of a zero-sized Sized type (emplacables of such types are fine), no over-aligned zero-sized value behind dyn (C62_macro_refuted). With a value of a zero-sized type among the arguments the macro never returns: C62_zst_never."
 },
 "C63": {
  "note": "For 16-, 32- and 64-bit targets. C63_model: at 64 bits these are the functions the rest of the model uses."
 },
 "C64": {
  "note": "REFUTED as stated: see C64_panicking_destructor_refuted (F21): a destructor that panics while a vector that is not Sized is dropped loses the buffer, always (C64_panicking_drop_leaks). Counting those, proved for the histories of C49: all for Sized elements, otherwise under the guards of C49."
 },
 "C65": {
  "note": "Proved for the histories of C49: all for Sized elements, otherwise under the guards of C49, outside which there are histories with undefined behaviour (C50_history_refuted), about which nothing can be said. C65_boxes_partial: nor is what a history itself hands out, such as the box of a popped element, touched by later calls."
 },
 "C66": {
  "note": "REFUTED as stated: see C66_double_drop_refuted (F14): dropping the result of remove_into when the element's destructor panics. C66_unsize_refuted (F2): after unsize the first element is destroyed twice and the last never. Otherwise proved for the histories of C49: all for Sized elements, else under the guards of C49. C66_once and C66_no_double_drop leave out cloning, writing through &mut and closures of the caller's, which C66_history covers: what a closure destroys on its own account when it panics counts as brought in by it."
 },
 "C67": {
  "note": "Proved for the histories of C49: all for Sized elements, otherwise under the guards of C49, outside which there are histories with undefined behaviour (C50_history_refuted). C67_respects_needed shows that a call which the borrow checker forbids does leave a reference dangling."
 },
 "C68": {
  "note": "REFUTED as stated: see C68_unsize_refuted (F2); C68_unsize_overlaps proves that unsize to trait objects always aliases the first two elements if they have bytes. Proved for the histories of C49, which do not contain unsize: all for Sized elements, otherwise under the guards of C49."
 },
 "C69": {
  "note": "All histories of well-typed calls; the claims of C49, C50, C15, C16 and C64-C68 together, under hypotheses that only mention the calls. Needs calm: VRemoveDrop only with destructors that do not panic (F14)."
 },
 "C70": {
  "note": "Conditions on the calls alone (front). Slices of zero-sized elements are excluded by typed (F11); CStr of more than isize::MAX - 7 bytes by not_huge. Histories do not free the boxes they hand out (for CStr see F19, C52) and do not contain unsize (F2)."
 },
 "C71": {
  "note": "Conditions on the calls alone (ends_only, lands). Outside them see F1, F4-F7 and the refutations of C49 and C50."
 },
 "C72": {
  "note": "Conditions on the calls alone (uniform)."
 },
 "C73": {
  "note": "For the histories of C69-C72; outside them a str can be shown that is not UTF-8 (C11_not_utf8_refuted). What a closure of the caller's destroys on its own account is not covered, so the claim about destroyed values needs a history without such closures."
 },
 "C74": {
  "note": "Closures of the caller's and T::clone do not panic, and of Sized elements bytes are asked for only with the elements they make up. For slices and strings within the guards of C70. Zero-sized elements and trait objects are left out (F8; C24, C23; pushing trait objects: C75)."
 },
 "C75": {
  "note": "For vectors without a compile-time alignment, which C74 leaves out. Values without bytes and with an alignment beyond the vector's are the subject of F4 and left out. C75_room_case: measured without padding, four bytes already fail to fit. extend and collect enlarge the buffer at every value (F13), hence the two alignments per value in C75_extend and C75_collect. C75_stack bounds the peak, not the number of calls; the factor 65 is one for each possible raise of the alignment and is not tight."
 }
}