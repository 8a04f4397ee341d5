{
 "claims": [
  {
   "property": "C01",
   "status": "proved",
   "theorems": [
    "C01_push_slices",
    "C01_push_slices_total",
    "C01_push_overflow"
   ],
   "note": "Sliced element types ([E], str, CStr): postcondition of push over all states, allocators and destructor behaviours, plus the capacity-overflow direction."
  },
  {
   "property": "C02",
   "status": "partial",
   "theorems": [
    "C02_push_debug_refuted",
    "C02_push_unraised",
    "C02_push_dyn_partial"
   ],
   "note": "REFUTED as stated: see C02_push_debug_refuted. Proved for a release build, or debug build without allocator failure after a reservation; guarded where the element is zero-sized and over-aligned. The guard is needed: C02_push_unraised."
  },
  {
   "property": "C03",
   "status": "partial",
   "theorems": [
    "C03_push_zst_refuted",
    "C03_push_sized_partial",
    "C03_push_zst_always_panics"
   ],
   "note": "REFUTED as stated: see C03_push_zst_refuted. Proved for nonzero-sized T. For zero-sized T every push panics (C03_push_zst_always_panics)."
  },
  {
   "property": "C04",
   "status": "proved",
   "theorems": [
    "C04_pop_empty",
    "C04_pop"
   ],
   "note": "All kinds, every state and allocator behaviour. If the box allocation fails the element is gone and nothing else changed. That the box has the right layout is claimed for all types but CStr (F19, see C52)."
  },
  {
   "property": "C05",
   "status": "proved",
   "theorems": [
    "C05_get",
    "C05_get_iff"
   ],
   "note": "All kinds, all indices, in and out of bounds."
  },
  {
   "property": "C06",
   "status": "partial",
   "theorems": [
    "C06_insert_str_refuted",
    "C06_insert_dyn_refuted",
    "C06_insert_end_refuted",
    "C06_insert_partial",
    "C06_insert_sized_partial",
    "C06_insert_front_partial",
    "C06_insert_oob",
    "C06_insert_displaced",
    "C06_insert_never",
    "C06_insert_never_dyn",
    "C06_insert_end_never"
   ],
   "note": "REFUTED as stated: see C06_insert_str_refuted, C06_insert_dyn_refuted, C06_insert_end_refuted. Full for nonzero-sized T and for index 0; otherwise where the element index equals the byte offset. Out of bounds in full. At the end behind an unpadded element it never works: C06_insert_end_never. Where the index lies before the byte offset, C06_insert_displaced says what the vector holds instead; C06_insert_never(_dyn): never the documented list unless the bytes happen to agree."
  },
  {
   "property": "C07",
   "status": "partial",
   "theorems": [
    "C07_insert_with_end_refuted",
    "C07_insert_with_partial",
    "C07_insert_with_static",
    "C07_insert_with_oob",
    "C07_insert_with_value_partial",
    "C07_insert_with_end_never"
   ],
   "note": "REFUTED as stated: see C07_insert_with_end_refuted. Full for statically aligned types; run-time alignments unless appending behind an unpadded last element. Elsewhere it never works: C07_insert_with_end_never."
  },
  {
   "property": "C08",
   "status": "partial",
   "theorems": [
    "C08_remove_last_refuted",
    "C08_remove_partial",
    "C08_remove_oob",
    "C08_remove_last_never"
   ],
   "note": "REFUTED as stated: see C08_remove_last_refuted. Guarded for run-time alignments (last element behind an unpadded one). The layout of the box is claimed for all types but CStr (F19). Elsewhere it never works: C08_remove_last_never."
  },
  {
   "property": "C09",
   "status": "proved",
   "theorems": [
    "C09_forward"
   ],
   "note": "All kinds; the whole forward run."
  },
  {
   "property": "C10",
   "status": "proved",
   "theorems": [
    "C10_backward"
   ],
   "note": "All kinds; the whole backward run."
  },
  {
   "property": "C11",
   "status": "partial",
   "theorems": [
    "C11_both_ends_str_refuted",
    "C11_both_ends_dyn_refuted",
    "C11_both_ends_sized",
    "C11_both_ends_partial",
    "C11_once",
    "C11_any_order",
    "C11_not_utf8_refuted"
   ],
   "note": "REFUTED as stated: see C11_both_ends_str_refuted, C11_both_ends_dyn_refuted, C11_not_utf8_refuted. Any interleaving for Sized types; for the other kinds interleavings without next_back after next are exact. C11_any_order: every interleaving whatsoever is free of undefined behaviour, returns the right number of items, and each wrong item is described exactly."
  },
  {
   "property": "C12",
   "status": "partial",
   "theorems": [
    "C12_nth_refuted",
    "C12_last_refuted",
    "C12_nth_partial",
    "C12_nth_position_partial",
    "C12_last_partial",
    "C12_last_any"
   ],
   "note": "REFUTED as stated: see C12_nth_refuted, C12_last_refuted. nth/last exact unless they read through a front offset of 0 after the front advanced. C12_last_any: what last yields after any calls whatever, fair or not."
  },
  {
   "property": "C13",
   "status": "partial",
   "theorems": [
    "C13_overlap_refuted",
    "C13_disjoint_partial",
    "C13_overlap_always"
   ],
   "note": "REFUTED as stated: see C13_overlap_refuted. For call sequences that are exact (C11); the overlap otherwise is the refuted case. There the item always overlaps the first one: C13_overlap_always."
  },
  {
   "property": "C14",
   "status": "partial",
   "theorems": [
    "C14_get_mut",
    "C14_iter_mut_partial",
    "C14_iter_mut_refuted",
    "C14_iter_mut_always"
   ],
   "note": "REFUTED as stated: see C14_iter_mut_refuted. get_mut in full; iter_mut for forward or backward runs. Elsewhere writing through the item always changes the first element: C14_iter_mut_always."
  },
  {
   "property": "C15",
   "status": "partial",
   "theorems": [
    "C15_misaligned_refuted",
    "C15_aligned_partial",
    "C15_sized_partial",
    "C15_history_partial",
    "C15_easy_partial"
   ],
   "note": "REFUTED as stated: see C15_misaligned_refuted. Every reference handed out by get/iteration, given the recorded alignment bounds every element's alignment. C15_history_partial and its two special cases: at every moment of the histories of C49."
  },
  {
   "property": "C16",
   "status": "partial",
   "theorems": [
    "C16_byte_len_refuted",
    "C16_lengths_partial",
    "C16_sized_partial",
    "C16_history_partial",
    "C16_easy_partial"
   ],
   "note": "REFUTED as stated: see C16_byte_len_refuted. byte_len, len and capacity accounting for represented vectors. C16_history_partial and its two special cases: at every moment of the histories of C49."
  },
  {
   "property": "C17",
   "status": "proved",
   "theorems": [
    "C17_capacity_bound",
    "C17_impossible_reserve",
    "C17_impossible_reserve_exact",
    "C17_bad_align_shrink",
    "C17_bad_align_reserve",
    "C17_bad_align_with_capacity"
   ],
   "note": "Bound for every represented vector; impossible requests are reported by both try_ forms; bad alignments panic before anything is changed."
  },
  {
   "property": "C18",
   "status": "partial",
   "theorems": [
    "C18_reserve_bytes_sized_refuted",
    "C18_reserve_align_refuted",
    "C18_try_reserve_bytes",
    "C18_reserve_bytes",
    "C18_try_reserve_exact_bytes",
    "C18_failing",
    "C18_reserve_bytes_sized_never",
    "C18_reserve_align_never",
    "C18_try_reserve_partial",
    "C18_reserve_partial",
    "C18_try_reserve_count",
    "C18_try_reserve_exact_partial"
   ],
   "note": "REFUTED as stated: see C18_reserve_bytes_sized_refuted, C18_reserve_align_refuted. Guard 'promised': Sized types with at most n*size bytes, run-time alignments when a byte buffer exists or is requested. Outside it, for all such vectors: C18_reserve_bytes_sized_never (success is reported, nothing is done), C18_reserve_align_never (the alignment is never raised). Where no alignment is named, unsized elements need no guard: C18_try_reserve_bytes, C18_reserve_bytes, C18_try_reserve_exact_bytes. C18_failing: the panicking forms never return where the others report an error."
  },
  {
   "property": "C19",
   "status": "proved",
   "theorems": [
    "C19_push_in_place",
    "C19_pushes_in_place"
   ],
   "note": "No allocator call, no byte moved, same buffer."
  },
  {
   "property": "C20",
   "status": "partial",
   "theorems": [
    "C20_push_with_refuted",
    "C20_push_with_always_grows",
    "C20_insert_with_always_grows",
    "C20_push_with_sized_partial",
    "C20_insert_with_sized_partial"
   ],
   "note": "REFUTED as stated: see C20_push_with_refuted. Sized types only; the other two kinds always reallocate. For those: C20_push_with_always_grows, C20_insert_with_always_grows."
  },
  {
   "property": "C21",
   "status": "partial",
   "theorems": [
    "C21_try_reserve_debug_refuted",
    "C21_debug_never",
    "C21_try_reserve_partial",
    "C21_try_reserve_count",
    "C21_try_reserve_exact"
   ],
   "note": "REFUTED as stated: see C21_try_reserve_debug_refuted. Release builds for the combined form; the count and exact forms in all builds. In debug builds: C21_debug_never."
  },
  {
   "property": "C22",
   "status": "partial",
   "theorems": [
    "C22_with_capacity_refuted",
    "C22_with_capacity_sized_refuted",
    "C22_with_capacity_partial",
    "C22_with_capacity_exact_partial",
    "C22_with_capacity_pushes",
    "C22_with_capacity_align_pushes",
    "C22_try_reserve_exact"
   ],
   "note": "REFUTED as stated: see C22_with_capacity_refuted, C22_with_capacity_sized_refuted. try_reserve_exact is exact; with_capacity_bytes is exact from 8 elements on, and its exact value below that is given."
  },
  {
   "property": "C23",
   "status": "partial",
   "theorems": [
    "C23_shrink_to_fit_refuted",
    "C23_any_byte_capacity_partial",
    "C23_shrink_capacity_bytes_to",
    "C23_shrink_capacity_bytes_align_to_partial",
    "C23_statically_aligned_partial",
    "C23_shrink_to",
    "C23_shrink_capacity_bytes_to_partial",
    "C23_shrink_to_fit_partial"
   ],
   "note": "REFUTED as stated: see C23_shrink_to_fit_refuted. Every outcome (return, panic, abort) of every shrink function, for all allocator schedules. shrink_to: every type and vector, no restriction. Sized and Aligned types: every argument. Unaligned types: the elements are kept for every byte capacity as long as lowering the alignment moves none of them (C23_any_byte_capacity_partial), so by shrink_capacity_bytes_to for every vector and argument (C23_shrink_capacity_bytes_to). That every later call is right too needs a byte capacity that is absorbed, at least the old one, or a multiple of the new alignment (shrinks_well; C50_odd_capacity_always says what happens otherwise). When elements have to move, the statement is false (C23_shrink_to_fit_refuted: realign_down corrupts elements)."
  },
  {
   "property": "C24",
   "status": "partial",
   "theorems": [
    "C24_shrink_to_fit_refuted",
    "C24_any_bounds_partial",
    "C24_bounds_partial",
    "C24_exact_partial"
   ],
   "note": "REFUTED as stated: see C24_shrink_to_fit_refuted. Both bounds for the element capacity, the byte capacity and the alignment, plus the exact values when the allocator does not fail. 'used' is byte_len() after the call. C24_any_bounds_partial: every byte capacity, as long as lowering the alignment moves no element; otherwise shrink_to_fit can underflow an unchecked subtraction (C24_shrink_to_fit_refuted)."
  },
  {
   "property": "C25",
   "status": "partial",
   "theorems": [
    "C25_shrink_to_refuted",
    "C25_shrink_to_partial",
    "C25_sized_noop",
    "C25_sized_zst"
   ],
   "note": "REFUTED as stated: see C25_shrink_to_refuted. Proved for all Aligned and Unaligned types (C25_shrink_to_partial). False for Sized types: C25_sized_noop shows that shrink_to never changes anything there, C25_sized_zst that it panics for zero-sized elements; C25_shrink_to_refuted is a concrete run."
  },
  {
   "property": "C26",
   "status": "partial",
   "theorems": [
    "C26_drop",
    "C26_drop_panics_partial",
    "C26_panicking_destructor_refuted"
   ],
   "note": "REFUTED as stated: see C26_panicking_destructor_refuted. Proved when destructors do not panic (C26_drop, every kind and state); the deallocation layout is checked by the model (a wrong one is UB). With panicking destructors the unsized kinds leak the rest (C26_drop_panics_partial, C26_panicking_destructor_refuted)."
  },
  {
   "property": "C27",
   "status": "partial",
   "theorems": [
    "C27_remove_last_refuted",
    "C27_pop_drop",
    "C27_pop_forget",
    "C27_remove_drop_partial",
    "C27_remove_forget_partial",
    "C27_forget_last_never",
    "C27_drop_last_never"
   ],
   "note": "REFUTED as stated: see C27_remove_last_refuted. pop_into in full, including a panicking destructor; remove_into guarded as C08 (underflow when the last element is removed behind an unpadded one). Elsewhere it never works: C27_forget_last_never, C27_drop_last_never."
  },
  {
   "property": "C28",
   "status": "partial",
   "theorems": [
    "C28_push_with_panic_partial",
    "C28_insert_with_panic_partial",
    "C28_early_push",
    "C28_early_insert",
    "C28_late_partial",
    "C28_late_refuted"
   ],
   "note": "REFUTED as stated: see C28_late_refuted. Panic before asking for room and while writing: unchanged. Panic after delivery: the element is in the vector (refuted as stated)."
  },
  {
   "property": "C29",
   "status": "partial",
   "theorems": [
    "C29_double_drop_refuted",
    "C29_lost_element_refuted",
    "C29_pop_refused",
    "C29_remove_refused_partial",
    "C29_destructor_panics",
    "C29_dropped_again"
   ],
   "note": "REFUTED as stated: see C29_double_drop_refuted, C29_lost_element_refuted. pop_into in full; remove_into only for a refusing consumer on unsized kinds or the last element. A panicking destructor always breaks it: C29_destructor_panics, C29_dropped_again."
  },
  {
   "property": "C30",
   "status": "proved",
   "theorems": [
    "C30_raise_alignment",
    "C30_push_overaligned"
   ],
   "note": "Raising the alignment by a push or by a reservation keeps the elements and re-pads byte_len."
  },
  {
   "property": "C31",
   "status": "partial",
   "theorems": [
    "C31_unsize_dyn_refuted",
    "C31_unsize_slice_refuted",
    "C31_unsize_partial",
    "C31_byte_len_short",
    "C31_never_right",
    "C31_failure_leaks"
   ],
   "note": "REFUTED as stated: see C31_unsize_dyn_refuted, C31_unsize_slice_refuted. C31_unsize_partial proves the full conclusion (same length, each element coerced, nothing dropped, other vectors untouched) for an empty vector or zero-sized elements. C31_byte_len_short and C31_never_right prove that for every other vector the result is wrong: from_sized stores index*size as the END offset of element index. C31_unsize_dyn_refuted and C31_unsize_slice_refuted are concrete witnesses. C31_failure_leaks: when the call panics the buffer and all elements are leaked (F24)."
  },
  {
   "property": "C32",
   "status": "partial",
   "theorems": [
    "C32_clone_zst_refuted",
    "C32_clone_zst_never",
    "C32_clone_partial"
   ],
   "note": "REFUTED as stated: see C32_clone_zst_refuted. Proved for every Sized element type of non-zero size, any clone that may panic; zero-sized types panic (C32_clone_zst_refuted). From<Vec> and back: C60. For zero-sized types always: C32_clone_zst_never."
  },
  {
   "property": "C33",
   "status": "proved",
   "theorems": [
    "C33_eq",
    "C33_equivalence"
   ],
   "note": "Every kind, every pair of vectors (also the same one twice, also different element types); element equality is an arbitrary pure function. Equivalence laws lifted from the elements."
  },
  {
   "property": "C34",
   "status": "proved",
   "theorems": [
    "C34_partial_cmp",
    "C34_cmp",
    "C34_lawful"
   ],
   "note": "partial_cmp and cmp are the lexicographic order of an arbitrary pure element comparison; total-order laws and agreement with == and partial_cmp are lifted from the elements."
  },
  {
   "property": "C35",
   "status": "proved",
   "theorems": [
    "C35_hash_feeds",
    "C35_equal_hash"
   ],
   "note": "The hasher is fed exactly the elements in order (no length prefix); equal vectors leave any hasher in the same state."
  },
  {
   "property": "C36",
   "status": "partial",
   "theorems": [
    "C36_extend_zst_refuted",
    "C36_extend_zst_never",
    "C36_extend_partial",
    "C36_collect_partial",
    "C36_extend_values_partial",
    "C36_collect_values_partial",
    "C36_macro_partial"
   ],
   "note": "REFUTED as stated: see C36_extend_zst_refuted. Any emplacables, any hint; on a panic it is said what becomes of every emplacable and every value. Missing: zero-sized Sized elements (C36_extend_zst_refuted) and over-aligned zero-sized dyn values. For zero-sized types always: C36_extend_zst_never."
  },
  {
   "property": "C37",
   "status": "partial",
   "theorems": [
    "C37_move_last_refuted",
    "C37_push_pop_partial",
    "C37_insert_remove_partial",
    "C37_push_last_never",
    "C37_insert_last_never"
   ],
   "note": "REFUTED as stated: see C37_move_last_refuted. Both forms, guarded as C07/C08. Outside, the last element of a vector of trait objects behind an unpadded one can never be moved: C37_push_last_never, C37_insert_last_never."
  },
  {
   "property": "C38",
   "status": "proved",
   "theorems": [
    "C38_box_layout",
    "C38_box_new_with",
    "C38_box_new",
    "C38_get"
   ],
   "note": "Round trip through box_new_with, box_new and Emplacable::get for every well-formed value of every type, every allocator: the value comes back, its destructor runs once, memory is as before; the box's allocation has exactly the value's layout (C38_box_layout)."
  },
  {
   "property": "C39",
   "status": "partial",
   "theorems": [
    "C39_drop",
    "C39_forget",
    "C39_box",
    "C39_push_partial",
    "C39_insert_partial",
    "C39_box_leak_refuted",
    "C39_push_unraised"
   ],
   "note": "REFUTED as stated: see C39_box_leak_refuted. Proved for values, boxes and full vectors (src_vec: no spare capacity) consumed by box_new_with, drop, forget; by push_with/insert_with under the placeable/movable guards of C03/C07. Missing: sources with spare capacity (F16, C41_vec_box_refuted), and a source whose destructor panics leaks its allocation when dropped (C39_box_leak_refuted). Outside the guard of push_with the alignment is never raised: C39_push_unraised."
  },
  {
   "property": "C40",
   "status": "partial",
   "theorems": [
    "C40_copy_slice_refuted",
    "C40_copy_slice_ub_refuted",
    "C40_clone_partial",
    "C40_copy_never",
    "C40_copy_never_slice"
   ],
   "note": "REFUTED as stated: see C40_copy_slice_refuted, C40_copy_slice_ub_refuted. Proved for element types that are not Copy (clone loop), boxed. For Copy element types the code copies the reference itself (C40_copy_slice_refuted) and reads out of bounds (C40_copy_slice_ub_refuted). For all Copy slices: C40_copy_never."
  },
  {
   "property": "C41",
   "status": "partial",
   "theorems": [
    "C41_vec_box_refuted",
    "C41_vec_partial",
    "C41_spare_never"
   ],
   "note": "REFUTED as stated: see C41_vec_box_refuted. Proved for vectors whose capacity equals their length. With spare capacity the requested layout is wrong (C41_vec_box_refuted). For all such vectors: C41_spare_never."
  },
  {
   "property": "C42",
   "status": "partial",
   "theorems": [
    "C42_box",
    "C42_breaks_off",
    "C42_late_refuted"
   ],
   "note": "REFUTED as stated: see C42_late_refuted. Proved for every emplacable that meets the contract [emits] and for a producer that writes arbitrary bytes and panics: no new live block, nothing else touched. A producer that panics after delivering loses the finished box (C42_late_refuted), so the property holds for panics up to and including the write."
  },
  {
   "property": "C43",
   "status": "partial",
   "theorems": [
    "C43_double_drop_refuted",
    "C43_box",
    "C43_forget",
    "C43_drop_partial",
    "C43_unused",
    "C43_get",
    "C43_push_partial",
    "C43_panicking_destructor_refuted",
    "C43_dropped_twice"
   ],
   "note": "REFUTED as stated: see C43_double_drop_refuted, C43_panicking_destructor_refuted. Proved for closures that emplace into a box or vector, forget, get, drop (destructor not panicking) or panic without using the emplacable. Closures that panic after the drop, or whose drop panics, run the destructor twice (C43_double_drop_refuted, C43_panicking_destructor_refuted). For every value: C43_dropped_twice."
  },
  {
   "property": "C44",
   "status": "proved",
   "theorems": [
    "C44_iter",
    "C44_long",
    "C44_overflow",
    "C44_array",
    "C44_values"
   ],
   "note": "Iterators with a claimed length equal to, below and above the real one, overflow of the size computation, and arrays; every family of independent well-behaved emplacables, boxed."
  },
  {
   "property": "C45",
   "status": "partial",
   "theorems": [
    "C45_box",
    "C45_push_partial",
    "C45_drop",
    "C45_forget",
    "C45_str_bytes",
    "C45_str_bytes_drop",
    "C45_str_bytes_forget",
    "C45_push_refuted",
    "C45_push_unraised"
   ],
   "note": "REFUTED as stated: see C45_push_refuted. Unsizing and str -> [u8]: boxed (C45_box, C45_str_bytes), dropped and forgotten (C45_drop, C45_forget, C45_str_bytes_drop, C45_str_bytes_forget) for every emplacable; pushed under the guards of C03 (C45_push_partial), without which an over-aligned zero-sized value is misplaced (C45_push_refuted). For all such values: C45_push_unraised."
  },
  {
   "property": "C46",
   "status": "partial",
   "theorems": [
    "C46_zst_slice_refuted",
    "C46_push_partial",
    "C46_zst_always_empty"
   ],
   "note": "REFUTED as stated: see C46_zst_slice_refuted. Proved for every element size > 0; for zero-sized elements the length is always lost (C46_zst_always_empty, C46_zst_slice_refuted)."
  },
  {
   "property": "C47",
   "status": "partial",
   "theorems": [
    "C47_aligned_partial",
    "C47_sized_partial",
    "C47_unaligned_partial",
    "C47_build_partial",
    "C47_refuted"
   ],
   "note": "REFUTED as stated: see C47_refuted. Sized and one-alignment element types: pushes move at most 2 * total - initial byte capacity, from any state (C47_sized_partial, C47_aligned_partial) and at most 2 * total from new (C47_build_partial). Elements of different alignments: bounded by (1 + log2 of the alignment increase) times twice the padded bytes plus a constant (C47_unaligned_partial). Counted in plain bytes the claim is false there: for every factor c up to 2^20 a list of trait objects is given whose construction moves more than c times its bytes (C47_refuted, for every allocator that does not fail). The partial theorems assume that the allocator never fails and sizes far from isize::MAX. The element-info Vec's own moves and in-place re-aligning are not counted."
  },
  {
   "property": "C48",
   "status": "partial",
   "theorems": [
    "C48_push_with_moves",
    "C48_refuted",
    "C48_sized_partial"
   ],
   "note": "REFUTED as stated: see C48_refuted. Refuted for the unsized kinds (F13): C48_push_with_moves gives the exact quadratic cost, C48_refuted shows that no factor c up to 2^50 bounds it. C48_sized_partial: it holds for Sized elements."
  },
  {
   "property": "C49",
   "status": "partial",
   "theorems": [
    "C49_guarded_partial",
    "C49_history_partial",
    "C49_sized_partial",
    "C49_start_partial",
    "C49_easy_partial",
    "C49_no_abort_partial",
    "C49_insert_refuted",
    "C49_iterate_refuted",
    "C49_uniform_partial",
    "C49_uniform_start_partial"
   ],
   "note": "REFUTED as stated: see C49_insert_refuted, C49_iterate_refuted. For Sized elements C49_sized_partial covers every history of well-typed calls (calls, constructors, clones, moves between vectors, writes through get_mut and iter_mut, push_unsize and insert_unsize, comparisons, drops; panics caught), with every allocator schedule; the values may come from closures of the caller's (emplacables and iterators of emplacables) that may panic, also halfway through the write (C49_closure_case, C49_coerced_case); only a panicking destructor while dropping the result of remove_into is excluded. Zero-sized elements included: there a call that reserves bytes may panic with a division by zero (F8), leaving every vector as it was (C49_zst_case). For all other element types C49_easy_partial (conditions on the calls), C49_history_partial (conditions on the lists) and C49_guarded_partial (conditions on the states) exclude exactly the calls that run into a defect. C49_uniform_partial covers trait objects whose sizes are multiples of a power of two bounding all alignments: there every call is right at every position, except insert inside the vector and mixing the ends of an iterator. The unrestricted claim is false: C49_insert_refuted, C49_iterate_refuted. Not among the calls: unsize and the conversions from and into Vec, which change the type (C31, C60), and the read-only Debug, Hash and Serialize (C35, C51, C61)."
  },
  {
   "property": "C50",
   "status": "partial",
   "theorems": [
    "C50_push_after_shrink_refuted",
    "C50_sized_partial",
    "C50_history_partial",
    "C50_easy_partial",
    "C50_history_refuted",
    "C50_odd_capacity_never",
    "C50_odd_capacity_always",
    "C50_uniform_partial"
   ],
   "note": "REFUTED as stated: see C50_push_after_shrink_refuted, C50_history_refuted. Same histories as C49 (also C50_uniform_partial). The unrestricted claim is false: C50_history_refuted, C50_push_after_shrink_refuted. C50_odd_capacity_always: every vector of trait objects shrunk to a byte capacity that is not a multiple of its alignment has two pushes that end in undefined behaviour."
  },
  {
   "property": "C51",
   "status": "proved",
   "theorems": [
    "C51_serialize",
    "C51_trace"
   ],
   "note": "Any serialiser, failing at any call; and the full trace for a recording serialiser."
  },
  {
   "property": "C52",
   "status": "partial",
   "theorems": [
    "C52_cstr_box_refuted",
    "C52_declared_partial",
    "C52_cstr_never_freed"
   ],
   "note": "REFUTED as stated: see C52_cstr_box_refuted. Proved for every type with a compile-time alignment but CStr. Wrong for CStr (F19): the declared alignment is that of a reference; a box made from a popped CStr is freed with another alignment than it was allocated with. For every popped CStr: C52_cstr_never_freed."
  },
  {
   "property": "C53",
   "status": "proved",
   "theorems": [
    "C53_find_map",
    "C53_find",
    "C53_find_list",
    "C53_find_map_list",
    "C53_any",
    "C53_all",
    "C53_for_each",
    "C53_position"
   ],
   "note": "find, find_map, any, all, for_each, position for all kinds, after any earlier calls, for closures with any state that may panic. The elements seen are those of the positions; an element read after calls that trigger F3 is described by C11_any_order."
  },
  {
   "property": "C54",
   "status": "partial",
   "theorems": [
    "C54_nth_back_partial",
    "C54_nth_back_refuted",
    "C54_nth_back_any"
   ],
   "note": "REFUTED as stated: see C54_nth_back_refuted. Exact unless the front has advanced before (F3); for Sized types in every state. C54_nth_back_any: what nth_back yields and leaves after any calls whatever, fair or not."
  },
  {
   "property": "C55",
   "status": "proved",
   "theorems": [
    "C55_align_bound"
   ],
   "note": "For all histories of well-typed calls, including those that go wrong. A is any bound of the alignments asked for."
  },
  {
   "property": "C56",
   "status": "proved",
   "theorems": [
    "C56_extend",
    "C56_collect",
    "C56_total"
   ],
   "note": "All Sized element types, emplacables and hints. C56_total: with a right hint and an allocator that does not fail it returns and asks the allocator at most once."
  },
  {
   "property": "C57",
   "status": "partial",
   "theorems": [
    "C57_into_vec",
    "C57_vec_partial",
    "C57_vec_refuted",
    "C57_spare_never"
   ],
   "note": "REFUTED as stated: see C57_vec_refuted. The conversions from emplacables are proved for every emplacable that announces the layout of its value. From a Vec and back: proved for full vectors; with spare capacity (F16) the new vector frees its buffer with the wrong layout (C57_vec_refuted). For all such vectors: C57_spare_never."
  },
  {
   "property": "C58",
   "status": "proved",
   "theorems": [
    "C58_le_bytes",
    "C58_drop",
    "C58_new_with",
    "C58_new"
   ],
   "note": "rc_from_box is std's; its behaviour is modelled (allocate, set counts, copy, free the box). Counts other than one, Weak and atomics are outside."
  },
  {
   "property": "C59",
   "status": "partial",
   "theorems": [
    "C59_unsize",
    "C59_by_value_str",
    "C59_push_unsize_partial",
    "C59_insert_unsize_partial",
    "C59_push_unsize_refuted",
    "C59_insert_unsize_refuted",
    "C59_push_unsize_unraised",
    "C59_insert_unsize_never",
    "C59_insert_unsize_never_dyn",
    "C59_insert_unsize_end_never"
   ],
   "note": "REFUTED as stated: see C59_push_unsize_refuted, C59_insert_unsize_refuted. unsize! and by_value_str! in full. push_unsize and insert_unsize under the guards of C02 and C06, without which they go wrong in the same way (C59_push_unsize_refuted, C59_insert_unsize_refuted). All cases outside the guards: C59_push_unsize_unraised, C59_insert_unsize_never, C59_insert_unsize_never_dyn, C59_insert_unsize_end_never."
  },
  {
   "property": "C60",
   "status": "proved",
   "theorems": [
    "C60_from_vec",
    "C60_into_vec"
   ],
   "note": "Every Sized element type and every Vec state."
  },
  {
   "property": "C61",
   "status": "proved",
   "theorems": [
    "C61_debug",
    "C61_elements",
    "C61_alternate"
   ],
   "note": "The plain format for any way of printing elements; C61_alternate: the indented format ({:#?}) for elements printed as pieces of text. C61_elements: what is written contains every element once and in order."
  },
  {
   "property": "C62",
   "status": "partial",
   "theorems": [
    "C62_macro_partial",
    "C62_macro_refuted",
    "C62_zst_refuted",
    "C62_zst_never"
   ],
   "note": "REFUTED as stated: see C62_macro_refuted, C62_zst_refuted. Any mixture of values, emplacables and coerced values. The guards are those of push and push_with: no value of a zero-sized Sized type (emplacables of such types are fine), no over-aligned zero-sized value behind dyn (C62_macro_refuted). With a value of a zero-sized type among the arguments the macro never returns: C62_zst_never."
  },
  {
   "property": "C63",
   "status": "proved",
   "theorems": [
    "C63_align_new",
    "C63_align_new_unchecked",
    "C63_align_ops",
    "C63_align_order",
    "C63_size_new",
    "C63_size_add",
    "C63_size_sub",
    "C63_size_unaligned",
    "C63_pad",
    "C63_new_padded",
    "C63_add_pad",
    "C63_squished",
    "C63_model"
   ],
   "note": "For 16-, 32- and 64-bit targets. C63_model: at 64 bits these are the functions the rest of the model uses."
  },
  {
   "property": "C64",
   "status": "partial",
   "theorems": [
    "C64_sized_partial",
    "C64_history_partial",
    "C64_easy_partial",
    "C64_uniform_partial",
    "C64_all_dropped_partial",
    "C64_panicking_destructor_refuted",
    "C64_panicking_drop_leaks"
   ],
   "note": "REFUTED as stated: see C64_panicking_destructor_refuted (F21): a destructor that panics while a vector that is not Sized is dropped loses the buffer, always (C64_panicking_drop_leaks). Counting those, proved for the histories of C49: all for Sized elements, otherwise under the guards of C49."
  },
  {
   "property": "C65",
   "status": "partial",
   "theorems": [
    "C65_boxes_partial",
    "C65_boxes_sized_partial",
    "C65_boxes_easy_partial",
    "C65_sized_partial",
    "C65_history_partial",
    "C65_easy_partial",
    "C65_uniform_partial"
   ],
   "note": "Proved for the histories of C49: all for Sized elements, otherwise under the guards of C49, outside which there are histories with undefined behaviour (C50_history_refuted), about which nothing can be said. C65_boxes_partial: nor is what a history itself hands out, such as the box of a popped element, touched by later calls."
  },
  {
   "property": "C66",
   "status": "partial",
   "theorems": [
    "C66_unsize_refuted",
    "C66_guarded_partial",
    "C66_history_partial",
    "C66_sized_partial",
    "C66_easy_partial",
    "C66_uniform_partial",
    "C66_once_partial",
    "C66_once_sized_partial",
    "C66_once_easy_partial",
    "C66_no_double_drop_partial",
    "C66_double_drop_refuted"
   ],
   "note": "REFUTED as stated: see C66_double_drop_refuted (F14): dropping the result of remove_into when the element's destructor panics. C66_unsize_refuted (F2): after unsize the first element is destroyed twice and the last never. Otherwise proved for the histories of C49: all for Sized elements, else under the guards of C49. C66_once and C66_no_double_drop leave out cloning, writing through &mut and closures of the caller's, which C66_history covers: what a closure destroys on its own account when it panics counts as brought in by it."
  },
  {
   "property": "C67",
   "status": "partial",
   "theorems": [
    "C67_history_partial",
    "C67_sized_partial",
    "C67_easy_partial"
   ],
   "note": "Proved for the histories of C49: all for Sized elements, otherwise under the guards of C49, outside which there are histories with undefined behaviour (C50_history_refuted). C67_respects_needed shows that a call which the borrow checker forbids does leave a reference dangling."
  },
  {
   "property": "C68",
   "status": "partial",
   "theorems": [
    "C68_history_partial",
    "C68_sized_partial",
    "C68_easy_partial",
    "C68_unsize_overlaps",
    "C68_unsize_refuted"
   ],
   "note": "REFUTED as stated: see C68_unsize_refuted (F2); C68_unsize_overlaps proves that unsize to trait objects always aliases the first two elements if they have bytes. Proved for the histories of C49, which do not contain unsize: all for Sized elements, otherwise under the guards of C49."
  },
  {
   "property": "C69",
   "status": "proved",
   "theorems": [
    "C69_sized",
    "C69_sized_references",
    "C69_sized_ends"
   ],
   "note": "All histories of well-typed calls; the claims of C49, C50, C15, C16 and C64-C68 together, under hypotheses that only mention the calls. Needs calm: VRemoveDrop only with destructors that do not panic (F14)."
  },
  {
   "property": "C70",
   "status": "proved",
   "theorems": [
    "C70_aligned",
    "C70_aligned_references"
   ],
   "note": "Conditions on the calls alone (front). Slices of zero-sized elements are excluded by typed (F11); CStr of more than isize::MAX - 7 bytes by not_huge. Histories do not free the boxes they hand out (for CStr see F19, C52) and do not contain unsize (F2)."
  },
  {
   "property": "C71",
   "status": "proved",
   "theorems": [
    "C71_ends",
    "C71_ends_references"
   ],
   "note": "Conditions on the calls alone (ends_only, lands). Outside them see F1, F4-F7 and the refutations of C49 and C50."
  },
  {
   "property": "C72",
   "status": "proved",
   "theorems": [
    "C72_uniform"
   ],
   "note": "Conditions on the calls alone (uniform)."
  },
  {
   "property": "C73",
   "status": "proved",
   "theorems": [
    "C73_sized",
    "C73_aligned",
    "C73_ends",
    "C73_uniform",
    "C73_str"
   ],
   "note": "For the histories of C69-C72; outside them a str can be shown that is not UTF-8 (C11_not_utf8_refuted). What a closure of the caller's destroys on its own account is not covered, so the claim about destroyed values needs a history without such closures."
  },
  {
   "property": "C74",
   "status": "proved",
   "theorems": [
    "C74_history",
    "C74_sized",
    "C74_aligned"
   ],
   "note": "Closures of the caller's and T::clone do not panic, and of Sized elements bytes are asked for only with the elements they make up. For slices and strings within the guards of C70. Zero-sized elements and trait objects are left out (F8; C24, C23; pushing trait objects: C75)."
  },
  {
   "property": "C75",
   "status": "proved",
   "theorems": [
    "C75_push",
    "C75_of_values",
    "C75_extend",
    "C75_collect",
    "C75_stack"
   ],
   "note": "For vectors without a compile-time alignment, which C74 leaves out. Values without bytes and with an alignment beyond the vector's are the subject of F4 and left out. C75_room_case: measured without padding, four bytes already fail to fit. extend and collect enlarge the buffer at every value (F13), hence the two alignments per value in C75_extend and C75_collect. C75_stack bounds the peak, not the number of calls; the factor 65 is one for each possible raise of the alignment and is not tight."
  }
 ]
}