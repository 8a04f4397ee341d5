# Design: a Coq model of `unsized-vec` and what is proved about it

Sources are cited as `file:lines` of `/repo`; `emplacable` means `emplacable/src/lib.rs`. All Coq files are in
`rocq/theories/`. Section 1 describes the model, section 2 the trusted base, section 3 what is and is not modelled,
section 4 how the proofs are organised, section 5 the defects found, section 6 the properties one by one, section 7 the
tests of the theorems against wrong programs.

## 1. The model

The model is an executable, shallow embedding: every Rust function becomes a Gallina function in a
state-and-outcome monad `M A := world -> res A * world` (World.v), where

* `res A` is `Ok a | Panic r | Abort | UB r`: normal return, unwinding panic, process abort, or
  undefined behaviour. The state is kept on every outcome, so what a panic leaves behind is visible.
* `world` holds the heap (a list of optional blocks; a block has a layout, a base address and a list of bytes),
  the vector objects, local variables captured by closures, the log of destructor runs, the number of allocator
  calls made, and the number of bytes moved by reallocations.
* Closures (emplacables, emplacers and their inner closures) are Gallina functions in the same monad. A theorem about
  "every emplacable" quantifies over Gallina functions that meet the contract of `Deal.v`.

Every `unchecked_*` operation, pointer offset, copy, deallocation and reference creation checks its
precondition and yields `UB` if it fails. A pointer offset must stay inside the allocation, a copy must read and write
inside live blocks, a deallocation must name a live block by its start and its exact layout, a reference must be
non-null, aligned and in bounds. Freed blocks are never reused, so a use after free is always noticed.
Debug assertions are modelled and switched by `cfg_debug`; theorems hold for both settings unless they say otherwise.

The environment is the class `Config`:

* `cfg_alloc : nat -> option Z`: the answer to the n-th allocator call, failure or an address (any multiple of the
  alignment). Theorems hold for every such function, that is for every allocator schedule.
* `cfg_drop_panics : nat -> bool`: whether the n-th destructor run panics.
* `cfg_oom_panics`: whether `handle_alloc_error` unwinds or aborts.
* `cfg_debug`: debug or release build.

Integers are `Z` with explicit 64-bit bounds (`usize_max = 2^64-1`, `isize_max = 2^63-1`). Bit operations
(`valid_size.rs`) are modelled with `Z.land`/`Z.lxor` and related to arithmetic by lemmas (Arith.v).

Element types are `ty` (Types.v): any Sized layout, slices of any element layout, `str`, `CStr`, trait objects (vtable
= identity, size, alignment), and structs with a slice tail (`OsStr`, `Path`, user types). `kind_of` is the
specialisation that selects one of the three implementations.

## 2. Trusted base

* Coq 8.16.1's kernel and its virtual machine (`vm_compute` is used for concrete runs). `coqchk` re-checks the
  compiled files.
* No axioms. `Print Assumptions` answers "Closed under the global context" for every theorem named in MANIFEST.json
  (the commands stand beside the theorems, `vcheck` runs them all). `coqchk` mentions three constants of the standard library
  (`Coq.ssr.ssrunder`, module `Under_rel`): they belong to ssreflect's `under` tactic, which is loaded with the
  standard library and used nowhere here.
* The definitions of the model (Types.v, World.v, ValidSize.v, Emplace.v, SizedVec.v, AlignedVec.v, UnalignedVec.v,
  Api.v, Adaptors.v, Convert.v, Macros.v) say what the Rust sources do. Nothing connects them to the sources but the cited line numbers and
  reading, and RepoTests.v: the repository's tests, `src/bin/stress.rs`, its example and the examples in its documentation, transcribed and
  run in the model (the stress program for one round, and proved for any number of rounds); all of them pass as they should (the documentation of `unsized_vec!` runs, but with the wrong element, F2).
* The specification vocabulary: Spec.v (what a user sees of a vector; sequences), and the small definitions at the head
  of each property file.

## 3. What is modelled and what is not

Modelled function by function, with the lines cited at each definition:

* `src/lib.rs`: constructors, capacity/length/alignment accessors, the whole reserve and shrink families, `insert`,
  `insert_with`, `remove_into`, `push`, `push_with`, `pop_into`, `get`/`get_mut`/`index`, `iter`/`iter_mut` with `next`,
  `nth`, `last`, `next_back`, `len` and the searching adaptors, `unsize`, `Extend`, `FromIterator`, the macros, `Clone`,
  `PartialEq`, `PartialOrd`, `Ord`, `Hash`, `Serialize`, `Debug`, `Drop`, `push_unsize`, `insert_unsize`, `From<Vec<T>>`
  and back.
* `src/inner/{sized,aligned,unaligned}.rs`: every function.
* `src/helper.rs`, `src/helper/valid_align.rs`, `src/helper/valid_size.rs`, `src/marker.rs`: everything that has an effect at run time.
* `emplacable`: `from_fn`/`into_fn`, `get`, `forget`, `unsize`, `from_iter`, `Drop`, the conversions from values, `&[T]`,
  `&str` (and `&CStr`, `&OsStr`, `&Path`), `Box`, `Vec`, arrays, `str -> [u8]`, `box_new`, `box_new_with`,
  `with_emplacable_for`, `unsize!`, `by_value_str!`, and into std's types: `Vec` (`Extend`, `FromIterator`, from `[T]`), strings, `Rc`, `Arc`.

Simplifications, all of them visible in the definitions:

* One 64-bit target. Only `valid_align.rs` and `valid_size.rs` are also modelled for 16- and 32-bit targets (Width.v, C63).
* The element-info `Vec` of the unsized implementations is a list with a capacity. Its heap block is not part of the
  modelled heap; its allocator calls are counted and can fail; its own moves are not counted in `w_moved`.
  `from_sized` collects the infos with one such call, which panics if they take more than `isize::MAX - 7` bytes.
* std's `Vec` is modelled by its pointer, capacity and length with `RawVec`'s documented growth policy (double, at least
  8, 4 or 1 elements; exact for `reserve_exact`). `Rc` and `Arc` are modelled as made by std from a box: a C struct of two
  counts and the value; only one owner.
* The allocator returns exactly the requested number of bytes, as std's `Global` does. A growing or shrinking call always
  moves; real allocators may stay in place, so costs are upper bounds on moves of the real program.
* Element operations supplied by the user: `clone` may do anything in the monad (C32, C40); equality, comparison, hashing and
  serialisation of single elements are pure functions (C33-C35, C51), also printing them (C61).
* Bytes have no validity invariant (a `bool` may hold 7): type validity is not part of the model. Pointers have provenance
  (a block number), but no aliasing model (Stacked/Tree Borrows) is checked.
* `push` and `insert` compute the size of their argument with `ValidSize::of_val`, whose unchecked precondition (size at most
  `isize::MAX` less alignment - 1) the model does not check: it holds for every Rust value, for `CStr` (declared alignment 8) up to
  `isize::MAX - 7` bytes.
* `UnsizedIter` and `UnsizedIterMut` made from slice iterators (lib.rs, `From`) are the iterators of the Sized kind.
* Memory freed on return from a stack frame is a heap block freed at that point.

* `Debug` writes to a formatter that may refuse any piece of text; in the alternate format (`{:#?}`) an element is a list of pieces of
  text, and the formatter must not depend on how the text is cut (C61_alternate).

Not modelled: `Send`/`Sync`, pinning (the pinned versions wrap the others), benches.

## 4. Organisation of the proofs

* Wp.v: `run m w Qo Qp Qa` says that `m` from `w` does not reach `UB` and ends in `Qo`, `Qp` or `Qa` according to the
  outcome. Frames: `others`, `others_but`, `spared`, `spared2`: the other vectors are untouched, no block is leaked, and no memory but the vector's own is written, freed or adopted.
* Bytes.v, Arith.v, Mem.v: byte ranges, padding, writing into a buffer.
* Repr.v: `repr t v l w` is the representation invariant: object `v` of world `w` is a vector of `t` with elements `l`.
  `good t x` says that the value `x` is well-formed and that its metadata can be recovered (excludes only slices of zero-sized elements, F11).
  Access.v shows that a represented vector `shows` exactly `l` through `len` and indexing.
* Reserve.v, Realign.v, Orep.v: the three `try_reserve` functions and their common contract.
* Deal.v: the contract `emits` between an emplacable and its consumer; Take.v, Sources.v, Copies.v, Family.v, Pop.v show that
  the emplacables of both crates meet it.
* Push.v, PushWith.v, Insert.v, Pop.v, Shrink.v, DropVec.v, Iter.v, Calls.v, AnyCalls.v, GetMut.v, Build.v, PushAll.v, Room.v: one file per group of
  operations. Zst.v: what the calls that reserve bytes do for zero-sized elements. History.v: sequences of calls. Aligns.v: a bound on the recorded alignment, for every call and outcome. Rooms.v: the calls that never
  raise a capacity.
  StdVec.v: std's `Vec` filled from emplacables.
* Prop*.v: the theorems about the properties, each with concrete cases that meet its hypotheses. Findings.v: concrete
  runs that refute properties. PropLimits.v, PropOutside.v, PropPromise.v: what happens for all inputs outside a guard. PropOdd.v: shrinking to any byte capacity. PropUnfair.v: `last` and `nth_back` after calls in any order. PropCases.v: further concrete cases. PropMemory.v: the heap over whole histories (C64, C65). PropValues.v: which values a history destroys (C66). PropBorrow.v: what holds at every moment of a history, the lifetime of references and aliasing (C15, C16, C65, C67, C68). PropKinds.v: all claims about histories together, per kind of element type (C69-C72). PropValid.v: properties of values are kept by histories (C73). PropRoom.v: calls do not fail while there is room (C74). PropFill.v: the same for filling with trait objects (C75). PropStack.v: the same for pushes and pops of trait objects in any order (C75). PropAsk.v: reservations of bytes without an alignment (C18), little-endian numbers (C58). PropInsert.v: what `insert` does instead where the index is not the byte offset. PropLimits.v: for every input outside the guards of C02, C06-C08, C20, C21, C27, C29, C32, C36, C40,
  C41, C43, C52 and C57 the code goes wrong, so these guards cannot be weakened.

## 5. Defects of the code

Each of these is a computed run of the model through the public API (Findings.v and the property files). A property
that is false because of one of them has a `_refuted` theorem and a theorem with the weakest guard found.

| | defect | source | witness |
|-|--------|--------|---------|
| F1 | `insert` uses the element index as byte offset and overwrites a neighbour ; it can also leave bytes of the last element unwritten | aligned.rs:254, unaligned.rs:609 | C06_insert_str_refuted, C06_insert_dyn_refuted; the result for every input: C06_insert_displaced, C06_insert_never, C06_insert_never_dyn |
| F2 | `unsize` stores start offsets as end offsets: the first two elements alias, the first is destroyed twice and the last never | aligned.rs:660-664, unaligned.rs:1051-1055 | C31_unsize_dyn_refuted, C31_never_right, C66_unsize_refuted, C68_unsize_refuted, C68_unsize_overlaps |
| F3 | `nth(0)`, `last`, `next_back` read from offset 0 after the front has advanced; two `&mut` to one element, `&str` that is not UTF-8 | aligned.rs:737-783, unaligned.rs:1133-1185 | C11_both_ends_str_refuted, C12_nth_refuted, C11_not_utf8_refuted, C13_overlap_refuted, C14_iter_mut_refuted, C54_nth_back_refuted |
| F4 | reserving an alignment but no bytes on an unallocated vector does not record the alignment; over-aligned zero-sized elements are misaligned | unaligned.rs:471-473 | C02_push_debug_refuted, C15_misaligned_refuted, C18_reserve_align_refuted |
| F5 | shrinking leaves a byte capacity that is not a multiple of the alignment; a later push underflows | unaligned.rs:496-506, lib.rs:1172 | C16_byte_len_refuted, C50_push_after_shrink_refuted |
| F6 | `realign_down` copies from wrong offsets, never stores the new ones and can underflow | unaligned.rs:249-303 | C23_shrink_to_fit_refuted, C24_shrink_to_fit_refuted |
| F7 | insertion at the end and removal of the last element underflow when the last end is unpadded | unaligned.rs:607, 697, 833 | C06_insert_end_refuted, C07_insert_with_end_refuted, C08_remove_last_refuted, C27_remove_last_refuted, C37_move_last_refuted |
| F8 | every byte reservation for a zero-sized type divides by zero | sized.rs:76, 88 | C03_push_zst_refuted, C25_sized_zst, C32_clone_zst_refuted, C36_extend_zst_refuted |
| F9 | bytes and elements are mixed in the byte reservation of Sized types | sized.rs:74-77 | C18_reserve_bytes_sized_refuted |
| F10 | `shrink_to` is a no-op for Sized types | lib.rs:690-694, sized.rs:87-91 | C25_shrink_to_refuted, C25_sized_noop |
| F11 | slices of zero-sized elements lose their length | helper.rs:21-24 | C46_zst_slice_refuted, C46_zst_always_empty |
| F12 | `reserve_exact`, `with_capacity` use the amortised policy | lib.rs:663 | C22_with_capacity_refuted |
| F13 | `push_with`, `insert_with` reallocate at every call; `extend`/`collect` are quadratic | aligned.rs:505-509, unaligned.rs:881-885 | C20_push_with_refuted, C48_refuted |
| F14 | a panicking destructor or consumer of a removed element leads to a double drop (unsized kinds) or a lost element (Sized) | aligned.rs:422-468, sized.rs:177-224 | C29_double_drop_refuted, C29_lost_element_refuted |
| F15 | the emplacable of a `&[T]` with `T: Copy` copies the reference, not the slice | emplacable:776 | C40_copy_slice_refuted, C40_copy_slice_ub_refuted |
| F16 | the emplacable of a `Vec` announces the layout of the whole capacity | emplacable:1072-1128 | C41_vec_box_refuted, C57_vec_refuted |
| F17 | `with_emplacable_for` drops a value twice when its closure panics after dropping the emplacable | emplacable:305-384 | C43_double_drop_refuted, C43_panicking_destructor_refuted |
| F18 | a failing byte reservation panics in debug builds | lib.rs:585 | C21_try_reserve_debug_refuted |
| F19 | `CStr`'s `ALIGN` is the alignment of a reference; boxes of popped `CStr`s are freed with the wrong layout | marker.rs:42 | C52_cstr_box_refuted |
| F20 | dropping an emplacable made from a `Box`/`Vec` whose destructor panics leaks the allocation | emplacable:1027-1128 | C39_box_leak_refuted |
| F21 | a vector whose element destructor panics while it is dropped leaks the other elements and the buffer | aligned.rs:75-112, unaligned.rs:306-344 | C26_panicking_destructor_refuted |
| F22 | a producer that panics after delivering: `push_with` keeps the element, `box_new_with` leaks the box | aligned.rs:496-534, emplacable:1390-1464 | C28_late_refuted, C42_late_refuted |
| F23 | once an element of alignment A has been stored every later element occupies a multiple of A bytes, so pushes of small elements after it move more than c times their bytes, for any factor c | unaligned.rs:36, 72-75, 400-475, 846-872 | C47_refuted |
| F24 | `unsize` takes the old vector apart before it allocates the new offsets: when that allocation fails by unwinding (no_std, or more offsets than fit in memory) the buffer and every element are leaked | aligned.rs:643, 659-667, unaligned.rs:1034, 1051-1060 | C31_failure_leaks |

## 6. The properties

`proved`: the theorems cover the statement in full. `partial`: they cover it under the guards named in the note; where the
code is wrong outside the guard, the `_refuted` theorem is the witness. The table is generated from MANIFEST.json
(`tools/gen_manifest.py`).

<!-- table -->
| id | property | status | theorems | note |
|----|----------|--------|----------|------|
| C01 | push appends (slice-like element types) | proved | C01_push_slices, C01_push_slices_total, C01_push_overflow | Sliced element types ([E], str, CStr): postcondition of push over all states, allocators and destructor behaviours, plus the capacity-overflow direction. |
| C02 | push appends (trait-object element types) | partial | C02_push_debug_refuted, C02_push_unraised, C02_push_dyn_partial | REFUTED as stated: see C02_push_debug_refuted. Proved for a release build, or debug build without allocator failure after a reservation; guarded where the element is zero-sized and over-aligned. The guard is needed: C02_push_unraised. |
| C03 | push appends (Sized element types, including zero-sized ones) | partial | C03_push_zst_refuted, C03_push_sized_partial, C03_push_zst_always_panics | REFUTED as stated: see C03_push_zst_refuted. Proved for nonzero-sized T. For zero-sized T every push panics (C03_push_zst_always_panics). |
| C04 | pop_into returns the last element and removes exactly it | proved | C04_pop_empty, C04_pop | All kinds, every state and allocator behaviour. If the box allocation fails the element is gone and nothing else changed. That the box has the right layout is claimed for all types but CStr (F19, see C52). |
| C05 | get/index: O(1) random access is exact | proved | C05_get, C05_get_iff | All kinds, all indices, in and out of bounds. |
| C06 | insert shifts and keeps every element | partial | C06_insert_str_refuted, C06_insert_dyn_refuted, C06_insert_end_refuted, C06_insert_partial, C06_insert_sized_partial, C06_insert_front_partial, C06_insert_oob, C06_insert_displaced, C06_insert_never, C06_insert_never_dyn, C06_insert_end_never | REFUTED as stated: see C06_insert_str_refuted, C06_insert_dyn_refuted, C06_insert_end_refuted. Full for nonzero-sized T and for index 0; otherwise where the element index equals the byte offset. Out of bounds in full. At the end behind an unpadded element it never works: C06_insert_end_never. Where the index lies before the byte offset, C06_insert_displaced says what the vector holds instead; C06_insert_never(_dyn): never the documented list unless the bytes happen to agree. |
| C07 | insert_with inserts the produced value | partial | C07_insert_with_end_refuted, C07_insert_with_partial, C07_insert_with_static, C07_insert_with_oob, C07_insert_with_value_partial, C07_insert_with_end_never | REFUTED as stated: see C07_insert_with_end_refuted. Full for statically aligned types; run-time alignments unless appending behind an unpadded last element. Elsewhere it never works: C07_insert_with_end_never. |
| C08 | remove_into removes exactly the element asked for | partial | C08_remove_last_refuted, C08_remove_partial, C08_remove_oob, C08_remove_last_never | REFUTED as stated: see C08_remove_last_refuted. Guarded for run-time alignments (last element behind an unpadded one). The layout of the box is claimed for all types but CStr (F19). Elsewhere it never works: C08_remove_last_never. |
| C09 | forward iteration yields every element once, in order | proved | C09_forward | All kinds; the whole forward run. |
| C10 | backward iteration yields every element once, in reverse order | proved | C10_backward | All kinds; the whole backward run. |
| C11 | double-ended iteration from both ends never repeats or mangles an element | partial | C11_both_ends_str_refuted, C11_both_ends_dyn_refuted, C11_both_ends_sized, C11_both_ends_partial, C11_once, C11_any_order, C11_not_utf8_refuted | REFUTED as stated: see C11_both_ends_str_refuted, C11_both_ends_dyn_refuted, C11_not_utf8_refuted. Any interleaving for Sized types; for the other kinds interleavings without next_back after next are exact. C11_any_order: every interleaving whatsoever is free of undefined behaviour, returns the right number of items, and each wrong item is described exactly. |
| C12 | nth and last agree with repeated next | partial | C12_nth_refuted, C12_last_refuted, C12_nth_partial, C12_nth_position_partial, C12_last_partial, C12_last_any | REFUTED as stated: see C12_nth_refuted, C12_last_refuted. nth/last exact unless they read through a front offset of 0 after the front advanced. C12_last_any: what last yields after any calls whatever, fair or not. |
| C13 | iter_mut hands out non-overlapping, in-bounds references | partial | C13_overlap_refuted, C13_disjoint_partial, C13_overlap_always | REFUTED as stated: see C13_overlap_refuted. For call sequences that are exact (C11); the overlap otherwise is the refuted case. There the item always overlaps the first one: C13_overlap_always. |
| C14 | writing through get_mut/index_mut/iter_mut changes only that element | partial | C14_get_mut, C14_iter_mut_partial, C14_iter_mut_refuted, C14_iter_mut_always | REFUTED as stated: see C14_iter_mut_refuted. get_mut in full; iter_mut for forward or backward runs. Elsewhere writing through the item always changes the first element: C14_iter_mut_always. |
| C15 | every element is stored at an address aligned for it | partial | C15_misaligned_refuted, C15_aligned_partial, C15_sized_partial, C15_history_partial, C15_easy_partial | REFUTED as stated: see C15_misaligned_refuted. Every reference handed out by get/iteration, given the recorded alignment bounds every element's alignment. C15_history_partial and its two special cases: at every moment of the histories of C49. |
| C16 | lengths never exceed capacities | partial | C16_byte_len_refuted, C16_lengths_partial, C16_sized_partial, C16_history_partial, C16_easy_partial | REFUTED as stated: see C16_byte_len_refuted. byte_len, len and capacity accounting for represented vectors. C16_history_partial and its two special cases: at every moment of the histories of C49. |
| C17 | capacity arithmetic never wraps; requests are validated | proved | C17_capacity_bound, C17_impossible_reserve, C17_impossible_reserve_exact, C17_bad_align_shrink, C17_bad_align_reserve, C17_bad_align_with_capacity | Bound for every represented vector; impossible requests are reported by both try_ forms; bad alignments panic before anything is changed. |
| C18 | reserve calls provide what they promise | partial | C18_reserve_bytes_sized_refuted, C18_reserve_align_refuted, C18_try_reserve_bytes, C18_reserve_bytes, C18_try_reserve_exact_bytes, C18_failing, C18_reserve_bytes_sized_never, C18_reserve_align_never, C18_try_reserve_partial, C18_reserve_partial, C18_try_reserve_count, C18_try_reserve_exact_partial | REFUTED as stated: see C18_reserve_bytes_sized_refuted, C18_reserve_align_refuted. Guard 'promised': Sized types with at most n*size bytes, run-time alignments when a byte buffer exists or is requested. Outside it, for all such vectors: C18_reserve_bytes_sized_never (success is reported, nothing is done), C18_reserve_align_never (the alignment is never raised). Where no alignment is named, unsized elements need no guard: C18_try_reserve_bytes, C18_reserve_bytes, C18_try_reserve_exact_bytes. C18_failing: the panicking forms never return where the others report an error. |
| C19 | pushing within the reserved capacities does not reallocate | proved | C19_push_in_place, C19_pushes_in_place | No allocator call, no byte moved, same buffer. |
| C20 | adding via push_with/insert_with/extend within the reserved capacities does not reallocate | partial | C20_push_with_refuted, C20_push_with_always_grows, C20_insert_with_always_grows, C20_push_with_sized_partial, C20_insert_with_sized_partial | REFUTED as stated: see C20_push_with_refuted. Sized types only; the other two kinds always reallocate. For those: C20_push_with_always_grows, C20_insert_with_always_grows. |
| C21 | failed try_reserve reports an error and loses nothing | partial | C21_try_reserve_debug_refuted, C21_debug_never, C21_try_reserve_partial, C21_try_reserve_count, C21_try_reserve_exact | REFUTED as stated: see C21_try_reserve_debug_refuted. Release builds for the combined form; the count and exact forms in all builds. In debug builds: C21_debug_never. |
| C22 | reserve_exact / with_capacity do not over-allocate | partial | C22_with_capacity_refuted, C22_with_capacity_sized_refuted, C22_with_capacity_partial, C22_with_capacity_exact_partial, C22_with_capacity_pushes, C22_with_capacity_align_pushes, C22_try_reserve_exact | REFUTED as stated: see C22_with_capacity_refuted, C22_with_capacity_sized_refuted. try_reserve_exact is exact; with_capacity_bytes is exact from 8 elements on, and its exact value below that is given. |
| C23 | shrinking preserves the elements | partial | C23_shrink_to_fit_refuted, C23_any_byte_capacity_partial, C23_shrink_capacity_bytes_to, C23_shrink_capacity_bytes_align_to_partial, C23_statically_aligned_partial, C23_shrink_to, C23_shrink_capacity_bytes_to_partial, C23_shrink_to_fit_partial | REFUTED as stated: see C23_shrink_to_fit_refuted. Every outcome (return, panic, abort) of every shrink function, for all allocator schedules. shrink_to: every type and vector, no restriction. Sized and Aligned types: every argument. Unaligned types: the elements are kept for every byte capacity as long as lowering the alignment moves none of them (C23_any_byte_capacity_partial), so by shrink_capacity_bytes_to for every vector and argument (C23_shrink_capacity_bytes_to). That every later call is right too needs a byte capacity that is absorbed, at least the old one, or a multiple of the new alignment (shrinks_well; C50_odd_capacity_always says what happens otherwise). When elements have to move, the statement is false (C23_shrink_to_fit_refuted: realign_down corrupts elements). |
| C24 | shrinking respects its lower bounds and never grows | partial | C24_shrink_to_fit_refuted, C24_any_bounds_partial, C24_bounds_partial, C24_exact_partial | REFUTED as stated: see C24_shrink_to_fit_refuted. Both bounds for the element capacity, the byte capacity and the alignment, plus the exact values when the allocator does not fail. 'used' is byte_len() after the call. C24_any_bounds_partial: every byte capacity, as long as lowering the alignment moves no element; otherwise shrink_to_fit can underflow an unchecked subtraction (C24_shrink_to_fit_refuted). |
| C25 | shrink_to actually shrinks the element capacity | partial | C25_shrink_to_refuted, C25_shrink_to_partial, C25_sized_noop, C25_sized_zst | REFUTED as stated: see C25_shrink_to_refuted. Proved for all Aligned and Unaligned types (C25_shrink_to_partial). False for Sized types: C25_sized_noop shows that shrink_to never changes anything there, C25_sized_zst that it panics for zero-sized elements; C25_shrink_to_refuted is a concrete run. |
| C26 | dropping the vector drops each element exactly once and frees its memory | partial | C26_drop, C26_drop_panics_partial, C26_panicking_destructor_refuted | REFUTED as stated: see C26_panicking_destructor_refuted. Proved when destructors do not panic (C26_drop, every kind and state); the deallocation layout is checked by the model (a wrong one is UB). With panicking destructors the unsized kinds leak the rest (C26_drop_panics_partial, C26_panicking_destructor_refuted). |
| C27 | a removed element is dropped exactly once or, if forgotten, never | partial | C27_remove_last_refuted, C27_pop_drop, C27_pop_forget, C27_remove_drop_partial, C27_remove_forget_partial, C27_forget_last_never, C27_drop_last_never | REFUTED as stated: see C27_remove_last_refuted. pop_into in full, including a panicking destructor; remove_into guarded as C08 (underflow when the last element is removed behind an unpadded one). Elsewhere it never works: C27_forget_last_never, C27_drop_last_never. |
| C28 | a panicking producer leaves the vector unchanged | partial | C28_push_with_panic_partial, C28_insert_with_panic_partial, C28_early_push, C28_early_insert, C28_late_partial, C28_late_refuted | REFUTED as stated: see C28_late_refuted. Panic before asking for room and while writing: unchanged. Panic after delivery: the element is in the vector (refuted as stated). |
| C29 | a panic while consuming a removed element never duplicates or loses other elements | partial | C29_double_drop_refuted, C29_lost_element_refuted, C29_pop_refused, C29_remove_refused_partial, C29_destructor_panics, C29_dropped_again | REFUTED as stated: see C29_double_drop_refuted, C29_lost_element_refuted. pop_into in full; remove_into only for a refusing consumer on unsized kinds or the last element. A panicking destructor always breaks it: C29_destructor_panics, C29_dropped_again. |
| C30 | raising the alignment re-pads without changing any element | proved | C30_raise_alignment, C30_push_overaligned | Raising the alignment by a push or by a reservation keeps the elements and re-pads byte_len. |
| C31 | unsize converts a whole vector element by element | partial | C31_unsize_dyn_refuted, C31_unsize_slice_refuted, C31_unsize_partial, C31_byte_len_short, C31_never_right, C31_failure_leaks | REFUTED as stated: see C31_unsize_dyn_refuted, C31_unsize_slice_refuted. C31_unsize_partial proves the full conclusion (same length, each element coerced, nothing dropped, other vectors untouched) for an empty vector or zero-sized elements. C31_byte_len_short and C31_never_right prove that for every other vector the result is wrong: from_sized stores index*size as the END offset of element index. C31_unsize_dyn_refuted and C31_unsize_slice_refuted are concrete witnesses. C31_failure_leaks: when the call panics the buffer and all elements are leaked (F24). |
| C32 | clone is equal to and independent of the original | partial | C32_clone_zst_refuted, C32_clone_zst_never, C32_clone_partial | REFUTED as stated: see C32_clone_zst_refuted. Proved for every Sized element type of non-zero size, any clone that may panic; zero-sized types panic (C32_clone_zst_refuted). From<Vec> and back: C60. For zero-sized types always: C32_clone_zst_never. |
| C33 | == is element-wise equality | proved | C33_eq, C33_equivalence | Every kind, every pair of vectors (also the same one twice, also different element types); element equality is an arbitrary pure function. Equivalence laws lifted from the elements. |
| C34 | ordering is lexicographic and lawful | proved | C34_partial_cmp, C34_cmp, C34_lawful | partial_cmp and cmp are the lexicographic order of an arbitrary pure element comparison; total-order laws and agreement with == and partial_cmp are lifted from the elements. |
| C35 | equal vectors hash equally | proved | C35_hash_feeds, C35_equal_hash | The hasher is fed exactly the elements in order (no length prefix); equal vectors leave any hasher in the same state. |
| C36 | extend / collect / macros append everything in order | partial | C36_extend_zst_refuted, C36_extend_zst_never, C36_extend_partial, C36_collect_partial, C36_extend_values_partial, C36_collect_values_partial, C36_macro_partial | REFUTED as stated: see C36_extend_zst_refuted. Any emplacables, any hint; on a panic it is said what becomes of every emplacable and every value. Missing: zero-sized Sized elements (C36_extend_zst_refuted) and over-aligned zero-sized dyn values. For zero-sized types always: C36_extend_zst_never. |
| C37 | moving an element between vectors | partial | C37_move_last_refuted, C37_push_pop_partial, C37_insert_remove_partial, C37_push_last_never, C37_insert_last_never | REFUTED as stated: see C37_move_last_refuted. Both forms, guarded as C07/C08. Outside, the last element of a vector of trait objects behind an unpadded one can never be moved: C37_push_last_never, C37_insert_last_never. |
| C38 | value -> Emplacable -> Box/stack round trip | proved | C38_box_layout, C38_box_new_with, C38_box_new, C38_get | Round trip through box_new_with, box_new and Emplacable::get for every well-formed value of every type, every allocator: the value comes back, its destructor runs once, memory is as before; the box's allocation has exactly the value's layout (C38_box_layout). |
| C39 | an Emplacable's value is delivered exactly once | partial | C39_drop, C39_forget, C39_box, C39_push_partial, C39_insert_partial, C39_box_leak_refuted, C39_push_unraised | REFUTED as stated: see C39_box_leak_refuted. Proved for values, boxes and full vectors (src_vec: no spare capacity) consumed by box_new_with, drop, forget; by push_with/insert_with under the placeable/movable guards of C03/C07. Missing: sources with spare capacity (F16, C41_vec_box_refuted), and a source whose destructor panics leaks its allocation when dropped (C39_box_leak_refuted). Outside the guard of push_with the alignment is never raised: C39_push_unraised. |
| C40 | a slice reference turns into an Emplacable with the same contents | partial | C40_copy_slice_refuted, C40_copy_slice_ub_refuted, C40_clone_partial, C40_copy_never, C40_copy_never_slice | REFUTED as stated: see C40_copy_slice_refuted, C40_copy_slice_ub_refuted. Proved for element types that are not Copy (clone loop), boxed. For Copy element types the code copies the reference itself (C40_copy_slice_refuted) and reads out of bounds (C40_copy_slice_ub_refuted). For all Copy slices: C40_copy_never. |
| C41 | a Vec turns into an Emplacable slice with the same contents | partial | C41_vec_box_refuted, C41_vec_partial, C41_spare_never | REFUTED as stated: see C41_vec_box_refuted. Proved for vectors whose capacity equals their length. With spare capacity the requested layout is wrong (C41_vec_box_refuted). For all such vectors: C41_spare_never. |
| C42 | box_new_with leaks nothing when the producer panics | partial | C42_box, C42_breaks_off, C42_late_refuted | REFUTED as stated: see C42_late_refuted. Proved for every emplacable that meets the contract [emits] and for a producer that writes arbitrary bytes and panics: no new live block, nothing else touched. A producer that panics after delivering loses the finished box (C42_late_refuted), so the property holds for panics up to and including the write. |
| C43 | with_emplacable_for never duplicates its value | partial | C43_double_drop_refuted, C43_box, C43_forget, C43_drop_partial, C43_unused, C43_get, C43_push_partial, C43_panicking_destructor_refuted, C43_dropped_twice | REFUTED as stated: see C43_double_drop_refuted, C43_panicking_destructor_refuted. Proved for closures that emplace into a box or vector, forget, get, drop (destructor not panicking) or panic without using the emplacable. Closures that panic after the drop, or whose drop panics, run the destructor twice (C43_double_drop_refuted, C43_panicking_destructor_refuted). For every value: C43_dropped_twice. |
| C44 | arrays/iterators of Emplacables fill a slice in order; lying lengths are not UB | proved | C44_iter, C44_long, C44_overflow, C44_array, C44_values | Iterators with a claimed length equal to, below and above the real one, overflow of the size computation, and arrays; every family of independent well-behaved emplacables, boxed. |
| C45 | unsizing or re-typing an Emplacable keeps its value | partial | C45_box, C45_push_partial, C45_drop, C45_forget, C45_str_bytes, C45_str_bytes_drop, C45_str_bytes_forget, C45_push_refuted, C45_push_unraised | REFUTED as stated: see C45_push_refuted. Unsizing and str -> [u8]: boxed (C45_box, C45_str_bytes), dropped and forgotten (C45_drop, C45_forget, C45_str_bytes_drop, C45_str_bytes_forget) for every emplacable; pushed under the guards of C03 (C45_push_partial), without which an over-aligned zero-sized value is misplaced (C45_push_refuted). For all such values: C45_push_unraised. |
| C46 | slices keep their length for every element type | partial | C46_zst_slice_refuted, C46_push_partial, C46_zst_always_empty | REFUTED as stated: see C46_zst_slice_refuted. Proved for every element size > 0; for zero-sized elements the length is always lost (C46_zst_always_empty, C46_zst_slice_refuted). |
| C47 | push has amortised constant cost | partial | C47_aligned_partial, C47_sized_partial, C47_unaligned_partial, C47_build_partial, C47_refuted | REFUTED as stated: see C47_refuted. Sized and one-alignment element types: pushes move at most 2 * total - initial byte capacity, from any state (C47_sized_partial, C47_aligned_partial) and at most 2 * total from new (C47_build_partial). Elements of different alignments: bounded by (1 + log2 of the alignment increase) times twice the padded bytes plus a constant (C47_unaligned_partial). Counted in plain bytes the claim is false there: for every factor c up to 2^20 a list of trait objects is given whose construction moves more than c times its bytes (C47_refuted, for every allocator that does not fail). The partial theorems assume that the allocator never fails and sizes far from isize::MAX. The element-info Vec's own moves and in-place re-aligning are not counted. |
| C48 | push_with has amortised constant cost | partial | C48_push_with_moves, C48_refuted, C48_sized_partial | REFUTED as stated: see C48_refuted. Refuted for the unsized kinds (F13): C48_push_with_moves gives the exact quadratic cost, C48_refuted shows that no factor c up to 2^50 bounds it. C48_sized_partial: it holds for Sized elements. |
| C49 | any history of operations behaves like a plain sequence | partial | C49_guarded_partial, C49_history_partial, C49_sized_partial, C49_start_partial, C49_easy_partial, C49_no_abort_partial, C49_insert_refuted, C49_iterate_refuted, C49_uniform_partial, C49_uniform_start_partial | REFUTED as stated: see C49_insert_refuted, C49_iterate_refuted. For Sized elements C49_sized_partial covers every history of well-typed calls (calls, constructors, clones, moves between vectors, writes through get_mut and iter_mut, push_unsize and insert_unsize, comparisons, drops; panics caught), with every allocator schedule; the values may come from closures of the caller's (emplacables and iterators of emplacables) that may panic, also halfway through the write (C49_closure_case, C49_coerced_case); only a panicking destructor while dropping the result of remove_into is excluded. Zero-sized elements included: there a call that reserves bytes may panic with a division by zero (F8), leaving every vector as it was (C49_zst_case). For all other element types C49_easy_partial (conditions on the calls), C49_history_partial (conditions on the lists) and C49_guarded_partial (conditions on the states) exclude exactly the calls that run into a defect. C49_uniform_partial covers trait objects whose sizes are multiples of a power of two bounding all alignments: there every call is right at every position, except insert inside the vector and mixing the ends of an iterator. The unrestricted claim is false: C49_insert_refuted, C49_iterate_refuted. Not among the calls: unsize and the conversions from and into Vec, which change the type (C31, C60), and the read-only Debug, Hash and Serialize (C35, C51, C61). |
| C50 | no history of safe calls leads to undefined behaviour | partial | C50_push_after_shrink_refuted, C50_sized_partial, C50_history_partial, C50_easy_partial, C50_history_refuted, C50_odd_capacity_never, C50_odd_capacity_always, C50_uniform_partial | REFUTED as stated: see C50_push_after_shrink_refuted, C50_history_refuted. Same histories as C49 (also C50_uniform_partial). The unrestricted claim is false: C50_history_refuted, C50_push_after_shrink_refuted. C50_odd_capacity_always: every vector of trait objects shrunk to a byte capacity that is not a multiple of its alignment has two pushes that end in undefined behaviour. |
| C51 | serialisation emits the length followed by the elements in order | proved | C51_serialize, C51_trace | Any serialiser, failing at any call; and the full trace for a recording serialiser. |
| C52 | the declared alignment of an aligned type is its real alignment | partial | C52_cstr_box_refuted, C52_declared_partial, C52_cstr_never_freed | REFUTED as stated: see C52_cstr_box_refuted. Proved for every type with a compile-time alignment but CStr. Wrong for CStr (F19): the declared alignment is that of a reference; a box made from a popped CStr is freed with another alignment than it was allocated with. For every popped CStr: C52_cstr_never_freed. |
| C53 | searching an iterator sees every remaining element once and stops at the first hit | proved | C53_find_map, C53_find, C53_find_list, C53_find_map_list, C53_any, C53_all, C53_for_each, C53_position | find, find_map, any, all, for_each, position for all kinds, after any earlier calls, for closures with any state that may panic. The elements seen are those of the positions; an element read after calls that trigger F3 is described by C11_any_order. |
| C54 | nth_back returns the n-th remaining element from the end | partial | C54_nth_back_partial, C54_nth_back_refuted, C54_nth_back_any | REFUTED as stated: see C54_nth_back_refuted. Exact unless the front has advanced before (F3); for Sized types in every state. C54_nth_back_any: what nth_back yields and leaves after any calls whatever, fair or not. |
| C55 | a vector never records more alignment than it was asked for | proved | C55_align_bound | For all histories of well-typed calls, including those that go wrong. A is any bound of the alignments asked for. |
| C56 | collecting emplacables into a Vec stores every value once and in order | proved | C56_extend, C56_collect, C56_total | All Sized element types, emplacables and hints. C56_total: with a right hint and an allocator that does not fail it returns and asks the allocator at most once. |
| C57 | an emplacable slice or string becomes a Vec or String with the same contents | partial | C57_into_vec, C57_vec_partial, C57_vec_refuted, C57_spare_never | REFUTED as stated: see C57_vec_refuted. The conversions from emplacables are proved for every emplacable that announces the layout of its value. From a Vec and back: proved for full vectors; with spare capacity (F16) the new vector frees its buffer with the wrong layout (C57_vec_refuted). For all such vectors: C57_spare_never. |
| C58 | rc_new, rc_new_with and their Arc versions put the value behind a fresh reference count | proved | C58_le_bytes, C58_drop, C58_new_with, C58_new | rc_from_box is std's; its behaviour is modelled (allocate, set counts, copy, free the box). Counts other than one, Weak and atomics are outside. |
| C59 | coercing on the stack keeps the value | partial | C59_unsize, C59_by_value_str, C59_push_unsize_partial, C59_insert_unsize_partial, C59_push_unsize_refuted, C59_insert_unsize_refuted, C59_push_unsize_unraised, C59_insert_unsize_never, C59_insert_unsize_never_dyn, C59_insert_unsize_end_never | REFUTED as stated: see C59_push_unsize_refuted, C59_insert_unsize_refuted. unsize! and by_value_str! in full. push_unsize and insert_unsize under the guards of C02 and C06, without which they go wrong in the same way (C59_push_unsize_refuted, C59_insert_unsize_refuted). All cases outside the guards: C59_push_unsize_unraised, C59_insert_unsize_never, C59_insert_unsize_never_dyn, C59_insert_unsize_end_never. |
| C60 | converting from and into Vec keeps elements, capacity and allocation | proved | C60_from_vec, C60_into_vec | Every Sized element type and every Vec state. |
| C61 | Debug prints every element once and in order | proved | C61_debug, C61_elements, C61_alternate | The plain format for any way of printing elements; C61_alternate: the indented format ({:#?}) for elements printed as pieces of text. C61_elements: what is written contains every element once and in order. |
| C62 | the macros build what is written | partial | C62_macro_partial, C62_macro_refuted, C62_zst_refuted, C62_zst_never | REFUTED as stated: see C62_macro_refuted, C62_zst_refuted. Any mixture of values, emplacables and coerced values. The guards are those of push and push_with: no value of a zero-sized Sized type (emplacables of such types are fine), no over-aligned zero-sized value behind dyn (C62_macro_refuted). With a value of a zero-sized type among the arguments the macro never returns: C62_zst_never. |
| C63 | size and alignment arithmetic is exact on every pointer width | proved | C63_align_new, C63_align_new_unchecked, C63_align_ops, C63_align_order, C63_size_new, C63_size_add, C63_size_sub, C63_size_unaligned, C63_pad, C63_new_padded, C63_add_pad, C63_squished, C63_model | For 16-, 32- and 64-bit targets. C63_model: at 64 bits these are the functions the rest of the model uses. |
| C64 | a history leaks no memory | partial | C64_sized_partial, C64_history_partial, C64_easy_partial, C64_uniform_partial, C64_all_dropped_partial, C64_panicking_destructor_refuted, C64_panicking_drop_leaks | REFUTED as stated: see C64_panicking_destructor_refuted (F21): a destructor that panics while a vector that is not Sized is dropped loses the buffer, always (C64_panicking_drop_leaks). Counting those, proved for the histories of C49: all for Sized elements, otherwise under the guards of C49. |
| C65 | a history touches no memory but its own | partial | C65_boxes_partial, C65_boxes_sized_partial, C65_boxes_easy_partial, C65_sized_partial, C65_history_partial, C65_easy_partial, C65_uniform_partial | Proved for the histories of C49: all for Sized elements, otherwise under the guards of C49, outside which there are histories with undefined behaviour (C50_history_refuted), about which nothing can be said. C65_boxes_partial: nor is what a history itself hands out, such as the box of a popped element, touched by later calls. |
| C66 | a history destroys no value twice and makes none up | partial | C66_unsize_refuted, C66_guarded_partial, C66_history_partial, C66_sized_partial, C66_easy_partial, C66_uniform_partial, C66_once_partial, C66_once_sized_partial, C66_once_easy_partial, C66_no_double_drop_partial, C66_double_drop_refuted | REFUTED as stated: see C66_double_drop_refuted (F14): dropping the result of remove_into when the element's destructor panics. C66_unsize_refuted (F2): after unsize the first element is destroyed twice and the last never. Otherwise proved for the histories of C49: all for Sized elements, else under the guards of C49. C66_once and C66_no_double_drop leave out cloning, writing through &mut and closures of the caller's, which C66_history covers: what a closure destroys on its own account when it panics counts as brought in by it. |
| C67 | a reference stays valid for as long as the borrow lasts | partial | C67_history_partial, C67_sized_partial, C67_easy_partial | Proved for the histories of C49: all for Sized elements, otherwise under the guards of C49, outside which there are histories with undefined behaviour (C50_history_refuted). C67_respects_needed shows that a call which the borrow checker forbids does leave a reference dangling. |
| C68 | no two elements share memory | partial | C68_history_partial, C68_sized_partial, C68_easy_partial, C68_unsize_overlaps, C68_unsize_refuted | REFUTED as stated: see C68_unsize_refuted (F2); C68_unsize_overlaps proves that unsize to trait objects always aliases the first two elements if they have bytes. Proved for the histories of C49, which do not contain unsize: all for Sized elements, otherwise under the guards of C49. |
| C69 | vectors of Sized elements are sound in every history | proved | C69_sized, C69_sized_references, C69_sized_ends | All histories of well-typed calls; the claims of C49, C50, C15, C16 and C64-C68 together, under hypotheses that only mention the calls. Needs calm: VRemoveDrop only with destructors that do not panic (F14). |
| C70 | vectors of slices and strings are sound away from two calls | proved | C70_aligned, C70_aligned_references | Conditions on the calls alone (front). Slices of zero-sized elements are excluded by typed (F11); CStr of more than isize::MAX - 7 bytes by not_huge. Histories do not free the boxes they hand out (for CStr see F19, C52) and do not contain unsize (F2). |
| C71 | vectors of trait objects are sound when used at their ends | proved | C71_ends, C71_ends_references | Conditions on the calls alone (ends_only, lands). Outside them see F1, F4-F7 and the refutations of C49 and C50. |
| C72 | vectors of trait objects of similar layout are sound at every index | proved | C72_uniform | Conditions on the calls alone (uniform). |
| C73 | values stay valid | proved | C73_sized, C73_aligned, C73_ends, C73_uniform, C73_str | For the histories of C69-C72; outside them a str can be shown that is not UTF-8 (C11_not_utf8_refuted). What a closure of the caller's destroys on its own account is not covered, so the claim about destroyed values needs a history without such closures. |
| C74 | calls do not fail while there is room | proved | C74_history, C74_sized, C74_aligned | Closures of the caller's and T::clone do not panic, and of Sized elements bytes are asked for only with the elements they make up. For slices and strings within the guards of C70. Zero-sized elements and trait objects are left out (F8; C24, C23; pushing trait objects: C75). |
| C75 | filling with trait objects does not fail while there is room | proved | C75_push, C75_of_values, C75_extend, C75_collect, C75_stack | For vectors without a compile-time alignment, which C74 leaves out. Values without bytes and with an alignment beyond the vector's are the subject of F4 and left out. C75_room_case: measured without padding, four bytes already fail to fit. extend and collect enlarge the buffer at every value (F13), hence the two alignments per value in C75_extend and C75_collect. C75_stack bounds the peak, not the number of calls; the factor 65 is one for each possible raise of the alignment and is not tight. |
<!-- /table -->

## 7. Tests against wrong programs

`seeded/LOG.jsonl` has one line per wrong program tried: the definition edited, the edit, the claim it breaks, the
lemmas whose proofs failed, the theorems that depend on them, and what was tightened. A mutation is applied to a scratch
copy; every proof that no longer goes through is replaced by `Admitted` there until the copy builds; the theorems
counted as failing are those whose `Print Assumptions` then lists one of the admitted lemmas.

How to read a line "killed": a proof script failed, which does not by itself show that the theorem is false of the wrong
program. A proof that ran for more than 200 s counts as failed as well, and the runs shared the machine with each other, so
a few of the lemmas listed may merely have been slow. Long lists of failed examples (`…_case`, `…_refuted`) are the firmer
evidence: these are computations, and they fail because the result is different. Early runs were made against earlier
states of the theorems.

Lines with a field `method` come from a quicker run: first only the concrete cases are recomputed with the wrong definition;
if none fails, the original proofs of the files that name the definition are checked against it, with every other
proof admitted. `failing_cases` on an older line lists concrete cases that were found to fail in such a run.

Wrong programs that no theorem noticed: B59 (noticed since `C63_model`, see G05), D43 (since the model checks the
dereference of the box, see J01), J19, J21, J23 and K09 (since PropAsk.v, see J19b, J21b, J23b, K09b) and W26, which
changes a case that is never reached. Two edits, E44 and W27, do not change the function; their proofs failed nevertheless,
which shows what the caveat above is about.

`invalid` means that the attempt says nothing either way: the copy did not build for another reason, the edit did not
apply, or the run was cut short (field `remark` on the later lines).
