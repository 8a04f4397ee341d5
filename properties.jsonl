{"id": "C01", "title": "push appends (slice-like element types)", "statement": "For T = [E], str or CStr: v.push(x) returns with len() one larger, v[old_len] equal to x (same length, same bytes), every earlier element unchanged, and no destructor run. If the capacity would overflow isize::MAX it panics instead, leaving v's elements unchanged and dropping x exactly once.", "quantifier": "every vector state, every value x, every allocator behaviour (success, failure, any address)", "why_tests_cant": "the buffer is reallocated and offsets recomputed for arbitrary histories of sizes; tests sample a few sizes", "anchors": ["src/lib.rs: UnsizedVec::push", "src/inner/aligned.rs: push_unchecked, try_reserve_additional_bytes_align"]}
{"id": "C02", "title": "push appends (trait-object element types)", "statement": "For T whose alignment is only known at run time (dyn Trait): v.push(x) returns with len() one larger, v[old_len] equal to x, every earlier element unchanged, for every combination of element sizes and alignments, including an x with a larger alignment than everything already stored.", "quantifier": "every vector state, every value (any size, any power-of-two alignment), every allocator behaviour, debug and release builds", "why_tests_cant": "re-padding depends on the whole sequence of sizes and alignments stored so far", "anchors": ["src/lib.rs: UnsizedVec::push", "src/inner/unaligned.rs: push_unchecked, try_reserve_additional_bytes_align, realign_up"]}
{"id": "C03", "title": "push appends (Sized element types, including zero-sized ones)", "statement": "For every Sized T: v.push(x) appends x exactly as Vec::push does.", "quantifier": "every Sized T (every size including 0), every vector state, every value", "why_tests_cant": "the element type is a parameter; tests instantiate only i32", "anchors": ["src/lib.rs: UnsizedVec::push, try_reserve_capacity_bytes_align", "src/inner/sized.rs: push_unchecked, try_reserve_additional_bytes_align"]}
{"id": "C04", "title": "pop_into returns the last element and removes exactly it", "statement": "pop_into() is None iff the vector is empty; otherwise handing the result to box_new_with yields a box equal to the last element, len() is one smaller, the other elements are unchanged and no destructor runs.", "quantifier": "every vector state of every implementation, every allocator behaviour for the box", "why_tests_cant": "size and metadata of the popped element are re-derived from offsets produced by arbitrary histories", "anchors": ["src/lib.rs: UnsizedVec::pop_into", "src/inner/aligned.rs: pop_into_unchecked", "src/inner/unaligned.rs: pop_into_unchecked", "src/inner/sized.rs: pop_into_unchecked", "emplacable/src/lib.rs: box_new_with"]}
{"id": "C05", "title": "get/index: O(1) random access is exact", "statement": "get(i) is Some(reference to the i-th element, with its own length/vtable and bytes) iff i < len(), None otherwise; v[i] panics iff i >= len().", "quantifier": "every vector state, every usize index", "why_tests_cant": "each lookup recombines two neighbouring end offsets and a padding rule; all positions and histories must agree", "anchors": ["src/lib.rs: UnsizedVec::get, Index::index", "src/inner/aligned.rs: get_unchecked_raw, start_offset_of_unchecked", "src/inner/unaligned.rs: get_unchecked_raw, start_offset_of_unchecked"]}
{"id": "C06", "title": "insert shifts and keeps every element", "statement": "v.insert(i, x) with i <= len() puts x at position i and shifts later elements right by one, changing none of them; with i > len() it panics, leaves v unchanged and drops x once.", "quantifier": "every vector state of every implementation, every index, every value", "why_tests_cant": "must hold for every index/size combination; tests only insert at index 0", "anchors": ["src/lib.rs: UnsizedVec::insert", "src/inner/aligned.rs: insert_unchecked", "src/inner/unaligned.rs: insert_unchecked", "src/inner/sized.rs: insert_unchecked"]}
{"id": "C07", "title": "insert_with inserts the produced value", "statement": "v.insert_with(i, e) with i <= len() has the same effect as inserting the value that e produces; with i > len() it panics, leaves v unchanged and drops the value of e once.", "quantifier": "every vector state of every implementation, every index including len(), every well-behaved emplacable", "why_tests_cant": "every index/size/alignment combination, including the end position", "anchors": ["src/lib.rs: UnsizedVec::insert_with", "src/inner/aligned.rs: insert_with_unchecked", "src/inner/unaligned.rs: insert_with_unchecked", "src/inner/sized.rs: insert_with_unchecked"]}
{"id": "C08", "title": "remove_into removes exactly the element asked for", "statement": "For i < len(), handing remove_into(i) to box_new_with yields the i-th element and leaves the vector with that element removed and later ones shifted left; for i >= len() it panics and changes nothing.", "quantifier": "every vector state of every implementation, every index including the last one", "why_tests_cant": "offset renumbering and byte shifting depend on every later element", "anchors": ["src/lib.rs: UnsizedVec::remove_into", "src/inner/aligned.rs: remove_into_unchecked", "src/inner/unaligned.rs: remove_into_unchecked", "src/inner/sized.rs: remove_into_unchecked"]}
{"id": "C09", "title": "forward iteration yields every element once, in order", "statement": "iter() driven only with next() yields references to exactly the elements 0..len() in order and then None forever; len()/size_hint() always equal the number of items still to come.", "quantifier": "every vector state, every number of calls to next", "why_tests_cant": "the iterator carries a running offset; must be right at every step for every history", "anchors": ["src/lib.rs: UnsizedVec::iter", "src/inner/aligned.rs: AlignedIter::next", "src/inner/unaligned.rs: UnalignedIter::next"]}
{"id": "C10", "title": "backward iteration yields every element once, in reverse order", "statement": "iter() driven only with next_back() yields the elements len()-1 .. 0 and then None forever.", "quantifier": "every vector state, every number of calls", "why_tests_cant": "as for forward iteration", "anchors": ["src/inner/aligned.rs: AlignedIter::next_back", "src/inner/unaligned.rs: UnalignedIter::next_back"]}
{"id": "C11", "title": "double-ended iteration from both ends never repeats or mangles an element", "statement": "For every interleaving of next() and next_back() on one iterator, the items produced are exactly the elements of the vector: fronts in order, backs in reverse order, none twice, each with its own extent.", "quantifier": "every vector state, every finite interleaving of the two calls", "why_tests_cant": "the number of interleavings is exponential; the ends meet only in particular schedules", "anchors": ["src/inner/aligned.rs: AlignedIter::next_back, next", "src/inner/unaligned.rs: UnalignedIter::next_back, next"]}
{"id": "C12", "title": "nth and last agree with repeated next", "statement": "At every point of an iteration, nth(n) returns what n+1 calls of next() would have returned last and leaves the iterator in the same position; last() returns the final remaining element.", "quantifier": "every vector state, every iterator position, every n", "why_tests_cant": "depends on iterator position and n jointly; unit tests use fresh iterators only, if at all", "anchors": ["src/inner/aligned.rs: AlignedIter::nth, last", "src/inner/unaligned.rs: UnalignedIter::nth, last"]}
{"id": "C13", "title": "iter_mut hands out non-overlapping, in-bounds references", "statement": "The byte ranges of the &mut T items that one iter_mut() has handed out (using any calls of the iterator) are pairwise disjoint and lie inside the vector's used bytes.", "quantifier": "every vector state, every sequence of iterator calls", "why_tests_cant": "aliasing bugs are invisible to value-level tests", "anchors": ["src/inner/aligned.rs: AlignedIterMut", "src/inner/unaligned.rs: UnalignedIterMut"]}
{"id": "C14", "title": "writing through get_mut/index_mut/iter_mut changes only that element", "statement": "Overwriting the bytes of the element reached through a mutable reference changes that element to the new bytes and no other element, length, capacity or alignment.", "quantifier": "every vector state, index and replacement contents", "why_tests_cant": "overlap with neighbours depends on the whole layout", "anchors": ["src/lib.rs: UnsizedVec::get_mut, IndexMut::index_mut", "src/inner/aligned.rs: get_unchecked_raw", "src/inner/unaligned.rs: get_unchecked_raw"]}
{"id": "C15", "title": "every element is stored at an address aligned for it", "statement": "At every moment, for every i < len(), the address of v[i] is a multiple of the alignment of that element.", "quantifier": "every history of operations, every address an allocator may return for the requested layout, every element alignment", "why_tests_cant": "real allocators over-align, which hides the failure in tests; must hold for all addresses allowed by the requested alignment", "anchors": ["src/inner/unaligned.rs: try_reserve_additional_bytes_align, push_unchecked, push_with", "src/inner/aligned.rs: as_layout"]}
{"id": "C16", "title": "lengths never exceed capacities", "statement": "At every moment len() <= capacity() and byte_len() <= byte_capacity().", "quantifier": "every history of safe operations", "why_tests_cant": "the byte accounting subtracts one from the other without a check; a single bad history is enough for out-of-bounds writes", "anchors": ["src/lib.rs: unused_byte_cap, byte_len, byte_capacity", "src/inner/unaligned.rs: shrink_capacity_bytes_align_to, aligned_byte_len"]}
{"id": "C17", "title": "capacity arithmetic never wraps; requests are validated", "statement": "byte_capacity() never exceeds isize::MAX rounded down to the alignment; a request that would exceed it is reported as a capacity-overflow error (try_*) or panic, never as a small wrapped capacity; align arguments that are not powers of two panic and leave the vector's elements unchanged.", "quantifier": "every usize argument, every vector state", "why_tests_cant": "the failing inputs lie at the edges of 64-bit arithmetic", "anchors": ["src/helper/valid_size.rs: ValidSize, ValidSizeUnaligned", "src/helper/valid_align.rs: ValidAlign::new", "src/lib.rs: to_align"]}
{"id": "C18", "title": "reserve calls provide what they promise", "statement": "When reserve_capacity_bytes_align(n, b, a) (or its try_ form) succeeds: capacity() >= len()+n, byte_capacity() >= byte_len()+b, align() >= a (when the alignment is not statically known), and every element is unchanged.", "quantifier": "every vector state of every implementation, every n, b, a, every allocator behaviour", "why_tests_cant": "depends on the current unused capacity and realignment cost", "anchors": ["src/lib.rs: reserve_capacity_bytes_align, try_reserve_capacity_bytes_align", "src/inner/sized.rs: try_reserve_additional_bytes_align", "src/inner/aligned.rs: try_reserve_additional_bytes_align", "src/inner/unaligned.rs: try_reserve_additional_bytes_align"]}
{"id": "C19", "title": "pushing within the reserved capacities does not reallocate", "statement": "If len() < capacity(), the element fits in the unused byte capacity and its alignment is at most align(), then push(x) makes no allocator call and moves no element.", "quantifier": "every vector state, every fitting value", "why_tests_cant": "must hold for all fitting values at all fill levels", "anchors": ["src/lib.rs: push, try_reserve_capacity_bytes_align (docs 181-198)"]}
{"id": "C20", "title": "adding via push_with/insert_with/extend within the reserved capacities does not reallocate", "statement": "If the element capacity, byte capacity and alignment suffice, push_with / insert_with make no allocator call either (documented: 'Adding new elements to the vec is guaranteed not to reallocate as long as ...').", "quantifier": "every vector state, every fitting value", "why_tests_cant": "as above", "anchors": ["src/lib.rs: docs 187-198", "src/inner/aligned.rs: push_with, insert_with_unchecked", "src/inner/unaligned.rs: push_with, insert_with_unchecked"]}
{"id": "C21", "title": "failed try_reserve reports an error and loses nothing", "statement": "When a try_reserve* call cannot be satisfied (overflow or allocator failure) it returns Err without panicking, and all elements, byte_len() and the byte buffer are unchanged.", "quantifier": "every vector state, every arguments, every allocator failure point, debug and release builds", "why_tests_cant": "every failure point of the allocator must be considered", "anchors": ["src/lib.rs: try_reserve_capacity_bytes_align", "src/inner/aligned.rs: try_reserve_additional_bytes_align", "src/inner/unaligned.rs: try_reserve_additional_bytes_align"]}
{"id": "C22", "title": "reserve_exact / with_capacity do not over-allocate", "statement": "On a fresh vector, with_capacity_bytes(n, b) gives capacity() exactly n and (when alignments allow) byte_capacity() exactly b; reserve_exact(n) does not deliberately over-allocate.", "quantifier": "every n, b", "why_tests_cant": "growth policy has thresholds at small sizes; tests check one pair", "anchors": ["src/lib.rs: reserve_exact, try_reserve_exact_capacity_bytes_align, with_capacity"]}
{"id": "C23", "title": "shrinking preserves the elements", "statement": "shrink_to_fit, shrink_to, shrink_capacity_bytes_to and shrink_capacity_bytes_align_to leave len() and every element unchanged.", "quantifier": "every vector state of every implementation, every argument, every allocator behaviour", "why_tests_cant": "re-packing after an alignment decrease depends on all sizes stored", "anchors": ["src/lib.rs: shrink_to_fit, shrink_capacity_bytes_align_to", "src/inner/unaligned.rs: realign_down, shrink_capacity_bytes_align_to", "src/inner/aligned.rs: shrink_capacity_bytes_align_to", "src/inner/sized.rs: shrink_capacity_bytes_align_to"]}
{"id": "C24", "title": "shrinking respects its lower bounds and never grows", "statement": "After shrink_capacity_bytes_align_to(n, b, a), each capacity is at most its old value and at least min(old value, max(used, requested)).", "quantifier": "every vector state, every argument, every allocator behaviour", "why_tests_cant": "many case splits between the three capacities", "anchors": ["src/inner/aligned.rs: shrink_capacity_bytes_align_to", "src/inner/unaligned.rs: shrink_capacity_bytes_align_to", "src/inner/sized.rs: shrink_capacity_bytes_align_to"]}
{"id": "C25", "title": "shrink_to actually shrinks the element capacity", "statement": "shrink_to(n) reduces capacity() to max(len(), n) when it was larger.", "quantifier": "every element type, every vector state, every n", "why_tests_cant": "differs between the three implementations selected by T", "anchors": ["src/lib.rs: shrink_to", "src/inner/sized.rs: shrink_capacity_bytes_align_to"]}
{"id": "C26", "title": "dropping the vector drops each element exactly once and frees its memory", "statement": "Dropping v runs the destructor of each element exactly once, in index order, on the element's own bytes, and then returns the element buffer to the allocator with the layout it was allocated with; nothing is leaked.", "quantifier": "every reachable vector state", "why_tests_cant": "double drops and wrong-layout frees are undefined behaviour that tests may not observe", "anchors": ["src/inner/aligned.rs: Drop for AlignedVecInner", "src/inner/unaligned.rs: Drop for UnalignedVecInner"]}
{"id": "C27", "title": "a removed element is dropped exactly once or, if forgotten, never", "statement": "Dropping the Emplacable returned by pop_into/remove_into runs the destructor of exactly that element once and removes it; Emplacable::forget removes it without running any destructor.", "quantifier": "every vector state, every index", "why_tests_cant": "exactly-once is a property of the whole history of destructor calls", "anchors": ["emplacable/src/lib.rs: Drop for Emplacable, Emplacable::forget", "src/inner/aligned.rs: pop_into_unchecked, remove_into_unchecked", "src/inner/unaligned.rs: pop_into_unchecked, remove_into_unchecked"]}
{"id": "C28", "title": "a panicking producer leaves the vector unchanged", "statement": "If the value producer passed to push_with or insert_with panics at any point, the vector afterwards has exactly the elements it had before (its capacities may have grown).", "quantifier": "every vector state, every index, every panic point of the producer, any bytes it wrote before panicking", "why_tests_cant": "panic points and partial writes cannot be enumerated", "anchors": ["src/inner/aligned.rs: insert_with_unchecked (ElementShifterBacker), push_with", "src/inner/unaligned.rs: insert_with_unchecked, push_with", "src/inner/sized.rs: insert_with_unchecked, push_with"]}
{"id": "C29", "title": "a panic while consuming a removed element never duplicates or loses other elements", "statement": "If the consumer of pop_into/remove_into panics before taking the element, or the element's destructor panics, then every element is afterwards either still in the vector or gone, and no destructor is ever run twice on the same element, also when the vector is dropped later.", "quantifier": "every vector state, every index, every panic point", "why_tests_cant": "requires considering every unwind point followed by every continuation", "anchors": ["src/inner/aligned.rs: remove_into_unchecked, pop_into_unchecked", "src/inner/unaligned.rs: remove_into_unchecked", "src/inner/sized.rs: remove_into_unchecked"]}
{"id": "C30", "title": "raising the alignment re-pads without changing any element", "statement": "When the vector's alignment increases (by adding an over-aligned element or reserving a larger alignment), every existing element keeps its value and order, byte_len() becomes the padded total for the new alignment, and byte_capacity() suffices.", "quantifier": "every sequence of sizes, every pair of power-of-two alignments", "why_tests_cant": "in-place right-to-left moves over arbitrary layouts", "anchors": ["src/inner/unaligned.rs: len_after_realign_up, realign_up, try_reserve_additional_bytes_align"]}
{"id": "C31", "title": "unsize converts a whole vector element by element", "statement": "For v: UnsizedVec<S> with S: Unsize<U>, v.unsize() has the same length and its i-th element is the coercion of v[i]; nothing is dropped.", "quantifier": "every S, every vector", "why_tests_cant": "needs all lengths and sizes", "anchors": ["src/lib.rs: UnsizedVec::unsize", "src/inner/aligned.rs: from_sized", "src/inner/unaligned.rs: from_sized"]}
{"id": "C32", "title": "clone is equal to and independent of the original", "statement": "v.clone() has the same elements (as cloned by T) in the same order and leaves v unchanged; converting Vec<T> to UnsizedVec<T> and back is the identity.", "quantifier": "every T: Clone (including zero-sized), every vector", "why_tests_cant": "T is a parameter", "anchors": ["src/lib.rs: Clone for UnsizedVec, From<Vec<T>>, From<UnsizedVec<T>>"]}
{"id": "C33", "title": "== is element-wise equality", "statement": "v == w iff they have the same length and their elements are pairwise equal; it is reflexive, symmetric, transitive whenever element equality is.", "quantifier": "every pair of vectors, every element equality", "why_tests_cant": "universally quantified over vectors and over the element relation", "anchors": ["src/lib.rs: PartialEq::eq"]}
{"id": "C34", "title": "ordering is lexicographic and lawful", "statement": "cmp/partial_cmp is the lexicographic order of the element sequences; it is a total order when the element order is, and agrees with ==.", "quantifier": "every pair/triple of vectors, every element order", "why_tests_cant": "laws quantify over triples and over element orders", "anchors": ["src/lib.rs: PartialOrd::partial_cmp, Ord::cmp"]}
{"id": "C35", "title": "equal vectors hash equally", "statement": "If v == w and element hashing respects element equality, both feed the hasher the same sequence.", "quantifier": "every pair of vectors, every hasher state", "why_tests_cant": "universally quantified", "anchors": ["src/lib.rs: Hash::hash"]}
{"id": "C36", "title": "extend / collect / macros append everything in order", "statement": "extend(iter) appends the values of all produced emplacables in order; from_iter and the unsized_vec!/unsize_vec! macros build exactly the listed elements.", "quantifier": "every starting vector, every finite sequence of emplacables, every (possibly wrong) size hint", "why_tests_cant": "induction over arbitrary sequences", "anchors": ["src/lib.rs: Extend::extend, FromIterator::from_iter, unsized_vec!, unsize_vec!"]}
{"id": "C37", "title": "moving an element between vectors", "statement": "w.push_with(v.pop_into().unwrap()) and w.insert_with(i, v.remove_into(j)) move the element: it leaves v, appears in w unchanged, every other element of both is unchanged and no destructor runs.", "quantifier": "every pair of vectors, every index pair", "why_tests_cant": "two nested closures mutate two vectors at once", "anchors": ["src/lib.rs: push_with, insert_with, pop_into, remove_into"]}
{"id": "C38", "title": "value -> Emplacable -> Box/stack round trip", "statement": "box_new_with(x.into()), box_new(x) and Emplacable::get give back exactly x, in an allocation with x's own layout; dropping the box frees that allocation and drops x once.", "quantifier": "every type size/alignment (including zero-sized), every value", "why_tests_cant": "layout is a parameter", "anchors": ["emplacable/src/lib.rs: IntoEmplacable for T, box_new, box_new_with, Emplacable::get"]}
{"id": "C39", "title": "an Emplacable's value is delivered exactly once", "statement": "Consuming an Emplacable delivers its value to exactly one place; dropping it runs the destructor once; forgetting it runs none. For Box and Vec sources the source allocation is freed exactly once in all three cases. A borrowed str, CStr, OsStr or Path is copied and stays as it was, and no destructor runs for it.", "quantifier": "every source kind, every consumer", "why_tests_cant": "needs all source/consumer pairs", "anchors": ["emplacable/src/lib.rs: Emplacable::forget, Drop for Emplacable, IntoEmplacable for T/Box/Vec/&str/&CStr/&OsStr/&Path"]}
{"id": "C40", "title": "a slice reference turns into an Emplacable with the same contents", "statement": "box_new_with((&s[..]).into()) for T: Clone produces a slice of the same length whose elements are clones of s's elements in order (bitwise copies for T: Copy).", "quantifier": "every element type (Copy or only Clone), every slice", "why_tests_cant": "specialised code path for Copy types is never exercised by the tests (they use Box<i32>)", "anchors": ["emplacable/src/lib.rs: CopyToBuf, IntoEmplacable<[T]> for &[T]"]}
{"id": "C41", "title": "a Vec turns into an Emplacable slice with the same contents", "statement": "Emplacable from Vec<T> delivers exactly the len() elements of the Vec and requests memory for exactly them; the resulting box or vector element has that length and can be freed.", "quantifier": "every length and capacity of the source Vec", "why_tests_cant": "tests only use Vecs with capacity == length", "anchors": ["emplacable/src/lib.rs: IntoEmplacable<[T]> for Vec<T>, box_new_with", "src/inner/aligned.rs: push_with"]}
{"id": "C42", "title": "box_new_with leaks nothing when the producer panics", "statement": "If the producer panics while writing, box_new_with unwinds with its fresh allocation freed exactly once and no box created; if allocation fails nothing is written.", "quantifier": "every layout, every panic point, every allocator behaviour", "why_tests_cant": "panic points", "anchors": ["emplacable/src/lib.rs: box_new_with (PointerDeallocer)"]}
{"id": "C43", "title": "with_emplacable_for never duplicates its value", "statement": "with_emplacable_for(val, f) hands val to f as an Emplacable; whatever f does - emplace it, drop it, forget it, or panic before or after - val's destructor is run at most once in total.", "quantifier": "every closure f, every panic point in f", "why_tests_cant": "panic points in user closures", "anchors": ["emplacable/src/lib.rs: with_emplacable_for"]}
{"id": "C44", "title": "arrays/iterators of Emplacables fill a slice in order; lying lengths are not UB", "statement": "Turning [Emplacable<T>; N] or Emplacable::from_iter(iter) into a slice delivers all values in order at consecutive positions; an ExactSizeIterator whose len() is too large leads to a panic, one whose len() is too small delivers the first len() values and drops the rest; neither writes outside the slice.", "quantifier": "every N, every sequence, every claimed length", "why_tests_cant": "claimed and actual length are independent parameters", "anchors": ["emplacable/src/lib.rs: Emplacable::from_iter, IntoEmplacable<[T;N]> for [Emplacable;N]"]}
{"id": "C45", "title": "unsizing or re-typing an Emplacable keeps its value", "statement": "Emplacable::unsize and str -> [u8] conversion deliver the same bytes with the coerced metadata, and compose with drop and forget without changing what is dropped.", "quantifier": "every emplacable, every consumer", "why_tests_cant": "higher-order: quantifies over producers and consumers", "anchors": ["emplacable/src/lib.rs: Emplacable::unsize, IntoEmplacable<[u8]> for Emplacable<str>"]}
{"id": "C46", "title": "slices keep their length for every element type", "statement": "An element pushed into UnsizedVec<[E]> is read back with the same number of elements, for every element type E including zero-sized ones.", "quantifier": "every E, every slice length", "why_tests_cant": "only wrong for zero-sized E", "anchors": ["src/helper.rs: MetadataFromSize for [T]", "src/inner/aligned.rs: get_unchecked_raw"]}
{"id": "C47", "title": "push has amortised constant cost", "statement": "Building a vector by n pushes (no allocator failure on the optimistic size) moves at most a constant times the total bytes pushed during reallocations.", "quantifier": "every n, every sequence of element sizes", "why_tests_cant": "asymptotic claim over all sequences", "anchors": ["src/lib.rs: docs 4-6, try_reserve_capacity_bytes_align"]}
{"id": "C48", "title": "push_with has amortised constant cost", "statement": "Building a vector by n calls of push_with (as extend/collect do) moves at most a constant times the total bytes pushed during reallocations.", "quantifier": "every n", "why_tests_cant": "asymptotic claim", "anchors": ["src/lib.rs: docs 4-6, Extend::extend", "src/inner/aligned.rs: push_with", "src/inner/unaligned.rs: push_with"]}
{"id": "C49", "title": "any history of operations behaves like a plain sequence", "statement": "Starting from new(), after any finite sequence of the API's operations, len(), get(i), pops and removals return what the same operations on a plain list of values would return.", "quantifier": "every finite sequence of operations, every allocator schedule", "why_tests_cant": "unbounded histories", "anchors": ["src/lib.rs: UnsizedVec (whole API)"]}
{"id": "C50", "title": "no history of safe calls leads to undefined behaviour", "statement": "No finite sequence of calls of the safe API, with any allocator behaviour, performs an out-of-bounds access, an overflowing unchecked arithmetic operation, a misaligned reference, a wrong-layout deallocation or a use of uninitialised memory.", "quantifier": "every finite sequence of safe calls, every allocator schedule", "why_tests_cant": "undefined behaviour may stay silent; histories are unbounded", "anchors": ["src/inner/aligned.rs", "src/inner/unaligned.rs", "src/inner/sized.rs", "src/lib.rs"]}
{"id": "C51", "title": "serialisation emits the length followed by the elements in order", "statement": "Serialize announces exactly len() elements and then emits every element once, in order.", "quantifier": "every vector, every serialiser state", "why_tests_cant": "universally quantified", "anchors": ["src/lib.rs: Serialize::serialize"]}
{"id": "C52", "title": "the declared alignment of an aligned type is its real alignment", "statement": "For every type T with a compile-time alignment, T::ALIGN equals the alignment of every value of T, so a box made from an element taken out of an UnsizedVec<T> has the layout with which it will be freed.", "quantifier": "every element type with a compile-time alignment, every value", "why_tests_cant": "a wrong constant only shows as a wrong-layout deallocation, which common allocators do not notice", "anchors": ["src/marker.rs: Aligned impls", "src/inner/aligned.rs: pop_into_unchecked, remove_into_unchecked"]}
{"id": "C53", "title": "searching an iterator sees every remaining element once and stops at the first hit", "statement": "find, find_map, any, all, for_each and position call the closure on the remaining elements in order, each once, stop at the first hit, return what the closure's answers dictate, and leave the iterator just behind the element they stopped at; a panicking closure propagates with the same calls made.", "quantifier": "every vector, every sequence of earlier calls on the iterator, every closure state and behaviour", "why_tests_cant": "quantifies over closures and iterator states", "anchors": ["src/lib.rs: iter_ref! (all, any, find, find_map, position, for_each)"]}
{"id": "C54", "title": "nth_back returns the n-th remaining element from the end", "statement": "nth_back(n) returns the n-th remaining element counted from the end (None if there are too few) and the iterator then yields exactly the elements before it.", "quantifier": "every vector, every n, every iterator state", "why_tests_cant": "universally quantified", "anchors": ["src/inner/aligned.rs: next_back", "src/inner/unaligned.rs: next_back", "src/lib.rs: iter_ref! (nth_back, advance_back_by)"]}
{"id": "C55", "title": "a vector never records more alignment than it was asked for", "statement": "Whatever calls are made and however they end, align() is never more than the largest of: the alignment new() starts with, the alignments requested, and the alignments of the values stored at some time.", "quantifier": "every element type whose alignment is known at run time only, every finite sequence of calls, every allocator schedule", "why_tests_cant": "unbounded histories; includes the states after failed reservations and panics", "anchors": ["src/inner/unaligned.rs: try_reserve_additional_bytes_align, shrink_capacity_bytes_align_to, realign_up", "src/lib.rs: align"]}
{"id": "C56", "title": "collecting emplacables into a Vec stores every value once and in order", "statement": "Vec::extend over emplacables appends the delivered values in order whatever the iterator's size hint is; if a delivery or a reservation panics, what was appended before stays, the value in flight is dropped once, and the emplacables not yet run are dropped; collect() does the same starting from an empty Vec and leaves nothing behind when it unwinds.", "quantifier": "every Sized T (every size including 0), every Vec, every hint, every list of emplacables (any producers, any panics), every allocator behaviour", "why_tests_cant": "quantifies over producers, panics at any position and wrong hints", "anchors": ["emplacable/src/lib.rs: Extend<Emplacable<T, F>> for Vec<T>, FromIterator<Emplacable<T, F>> for Vec<T>"]}
{"id": "C57", "title": "an emplacable slice or string becomes a Vec or String with the same contents", "statement": "Vec::from(emplacable of [T]) and the String, CString, OsString and PathBuf versions yield a full vector with exactly the delivered elements in the one allocation made, freed with the layout it was allocated with; a Vec turned into an emplacable and back holds the same elements.", "quantifier": "every element size and alignment, every length, every emplacable, every allocator behaviour", "why_tests_cant": "a wrong layout is only noticed by an allocator that checks it", "anchors": ["emplacable/src/lib.rs: From<Emplacable<[T], F>> for Vec<T>, From<Emplacable<str, F>> for String, and the versions for CStr, OsStr, Path"]}
{"id": "C58", "title": "rc_new, rc_new_with and their Arc versions put the value behind a fresh reference count", "statement": "The result is the only owner of an allocation holding the two counts, both 1, and the value at an aligned place; it reads back as the value; the intermediate box is freed without running a destructor; dropping it runs the destructor once and returns the allocation. If the second allocation cannot be made, the value is dropped once and nothing is left.", "quantifier": "every type, every value (any size and alignment), every emplacable, every allocator behaviour", "why_tests_cant": "sizes near isize::MAX and failures of the second allocation are not reachable in tests", "anchors": ["emplacable/src/lib.rs: rc_new, rc_new_with, arc_new, arc_new_with, From<Emplacable<T, F>> for Rc<T> and Arc<T>"]}
{"id": "C59", "title": "coercing on the stack keeps the value", "statement": "unsize!(v, ...) yields the same bytes with the coerced metadata and by_value_str!(lit) the literal, without allocating, dropping or changing anything; push_unsize and insert_unsize put that value where push and insert would.", "quantifier": "every Sized source type, every unsizing to a slice, trait object or struct tail, every value, every vector, every index", "why_tests_cant": "the value passes through a box with a fake allocator; quantifies over types", "anchors": ["emplacable/src/lib.rs: unsize!, by_value_str!, macro_exports", "src/lib.rs: push_unsize, insert_unsize"]}
{"id": "C60", "title": "converting from and into Vec keeps elements, capacity and allocation", "statement": "From<Vec<T>> and From<UnsizedVec<T>> for Vec<T> keep the elements, the capacity and the very allocation; nothing is allocated, moved or dropped.", "quantifier": "every Sized T, every Vec, every vector", "why_tests_cant": "universally quantified", "anchors": ["src/lib.rs: From<Vec<T>> for UnsizedVec<T>, From<UnsizedVec<T>> for Vec<T>"]}
{"id": "C61", "title": "Debug prints every element once and in order", "statement": "The Debug output is an opening bracket, the elements in order separated by commas, and a closing bracket, up to the first piece the formatter refuses, whose error is returned; in the alternate format every element stands on lines of its own, each indented by four spaces, and ends in a comma; the vector is unchanged.", "quantifier": "every element type, every vector, every formatter and its errors", "why_tests_cant": "quantifies over formatters that fail at any point", "anchors": ["src/lib.rs: Debug::fmt"]}
{"id": "C62", "title": "the macros build what is written", "statement": "unsized_vec! and unsize_vec! with any mixture of values, emplacables and coerced Sized values produce a vector with the values of all arguments in order; each emplacable delivers once; if an argument panics or a reservation fails, the unfinished vector is gone with its memory, the values already pushed are dropped once and in order, and later arguments are untouched", "quantifier": "every element type, every list of arguments of the three kinds, every emplacable, every allocator behaviour", "why_tests_cant": "argument lists and panic points combine without bound; the repository's examples only build short vectors that succeed", "anchors": ["src/lib.rs: PushToUnsizedVec, unsized_vec!, unsize_vec!"]}
{"id": "C63", "title": "size and alignment arithmetic is exact on every pointer width", "statement": "ValidAlign::new accepts exactly the powers of two that a usize holds and never makes an invalid enum value; log2 is exact; ValidSize accepts exactly the sizes whose rounding to the alignment is at most isize::MAX; adding, padding and squishing give the mathematically exact result or refuse, also where the sum or the rounding would wrap around; the unchecked versions are undefined only where the exact result does not fit.", "quantifier": "16-, 32- and 64-bit targets, every usize, every alignment up to 1 << (BITS - 1)", "why_tests_cant": "the 16- and 32-bit tables are not compiled on the test machine; the bit tricks matter at the boundaries of the range", "anchors": ["src/helper/valid_align.rs: new, new_unckecked, minus_1, log2, ValidAlignEnum", "src/helper/valid_size.rs: ValidSize, ValidSizeUnaligned"]}
{"id": "C64", "title": "a history leaks no memory", "statement": "Whatever calls are made and whichever of them panic, every block allocated at the end was allocated at the start, is the buffer of a vector that is still alive, or is a box handed to the caller; once all vectors are dropped and no box is out, the heap is what it was.", "quantifier": "every element type, every finite history on any number of vectors, every allocator behaviour, every panicking destructor", "why_tests_cant": "leaks show up only after unbounded sequences of growth, shrinking, moves and panics", "anchors": ["src/inner/sized.rs: Drop, realloc, shrink", "src/inner/aligned.rs: Drop, realloc, shrink", "src/inner/unaligned.rs: Drop, realloc, shrink", "src/lib.rs: UnsizedVec"]}
{"id": "C65", "title": "a history touches no memory but its own", "statement": "A block that was allocated by somebody else before the history starts is never written, freed or adopted as a buffer.", "quantifier": "every element type, every finite history on any number of vectors, every allocator behaviour, every panicking destructor", "why_tests_cant": "every unsafe write and deallocation is involved; universally quantified over the rest of the heap", "anchors": ["src/inner/sized.rs: all unsafe blocks", "src/inner/aligned.rs: all unsafe blocks", "src/inner/unaligned.rs: all unsafe blocks"]}
{"id": "C66", "title": "a history destroys no value twice and makes none up", "statement": "Over a whole history every value that goes into a vector is afterwards destroyed, or in exactly one live vector, or with the caller, never in two of these ways and never destroyed twice; no other value is destroyed or held; nothing is lost unless a call panics. A call that panics destroys or keeps each argument at most once.", "quantifier": "every element type, every finite history on any number of vectors, every allocator behaviour, every panicking destructor, every panicking call", "why_tests_cant": "a double drop needs a particular sequence of calls and panics; universally quantified over values and histories", "anchors": ["src/inner/sized.rs: Drop, pop_into, remove_into", "src/inner/aligned.rs: Drop, pop_into, remove_into, insert, push", "src/inner/unaligned.rs: Drop, pop_into, remove_into, insert, push", "src/lib.rs: extend, from_iter, unsized_vec!"]}
{"id": "C67", "title": "a reference stays valid for as long as the borrow lasts", "statement": "A reference to an element that get hands out still points to allocated, aligned memory and reads the same value after any calls that the borrow checker allows in the meantime: any calls on other vectors, and calls through &self on the same vector.", "quantifier": "every element type, every finite history before the borrow, every history during it, every allocator behaviour, every panicking call", "why_tests_cant": "a dangling or overwritten reference needs a particular interleaving of calls on several vectors; universally quantified over histories", "anchors": ["src/lib.rs: get, get_mut, Index, iter", "src/inner/sized.rs: get_unchecked_raw", "src/inner/aligned.rs: get_unchecked_raw", "src/inner/unaligned.rs: get_unchecked_raw"]}
{"id": "C68", "title": "no two elements share memory", "statement": "At every moment of a history the references to two different elements, of the same or of different vectors, have no byte in common, so that get_mut and iter_mut hand out no aliases.", "quantifier": "every element type, every pair of elements of live vectors, every moment of every finite history, every allocator behaviour", "why_tests_cant": "quantifies over pairs of elements and histories; aliasing has no visible effect until a write", "anchors": ["src/lib.rs: get_mut, iter_mut, unsize", "src/inner/sized.rs: get_unchecked_raw", "src/inner/aligned.rs: get_unchecked_raw, from_sized", "src/inner/unaligned.rs: get_unchecked_raw, from_sized"]}
{"id": "C69", "title": "vectors of Sized elements are sound in every history", "statement": "For every Sized T, zero-sized or not: any sequence of safe calls on any number of vectors, in any order and with panics caught, has no undefined behaviour; every call returns what it returns on plain lists or panics for a reason the list specification names; no memory is leaked, none but the vectors' own is touched; every value is destroyed once, still stored, handed out, or lost by a panic; at every moment elements are aligned, within capacity and disjoint; references last as long as the borrow checker says. Excluded: a destructor that panics when the result of remove_into is dropped.", "quantifier": "all sizes and alignments, all histories of any length, all closures meeting the emplacer contract, all allocator schedules, debug and release builds", "why_tests_cant": "histories are unbounded and the element type is a parameter", "anchors": ["src/inner/sized.rs: all", "src/lib.rs: UnsizedVec", "emplacable/src/lib.rs: Emplacable, EmplacableFn"]}
{"id": "C70", "title": "vectors of slices and strings are sound away from two calls", "statement": "For T = [E], str, CStr and any unsized T whose alignment is known at compile time: the same as for Sized elements, for every history in which insert is only called with index 0, each iterator is advanced from one end only, and no destructor panics when the result of remove_into is dropped.", "quantifier": "all such T, all element lengths including 0, all histories of any length, all closures meeting the emplacer contract, all allocator schedules, debug and release builds", "why_tests_cant": "histories are unbounded; lengths, capacities and offsets interact over many calls", "anchors": ["src/inner/aligned.rs: all", "src/lib.rs: UnsizedVec"]}
{"id": "C71", "title": "vectors of trait objects are sound when used at their ends", "statement": "For T whose alignment is only known at run time: the same as for Sized elements, for every history whose elements have at least one byte or alignment 1 and in which elements are inserted and removed at index 0 or at the end only, each iterator is advanced from one end only and shrink_capacity_bytes_align_to is not called.", "quantifier": "all layouts of elements in all mixtures, all histories of any length, all closures meeting the emplacer contract, all allocator schedules, debug and release builds", "why_tests_cant": "alignments change over a history and move all elements", "anchors": ["src/inner/unaligned.rs: all", "src/lib.rs: UnsizedVec"]}
{"id": "C72", "title": "vectors of trait objects of similar layout are sound at every index", "statement": "For T whose alignment is only known at run time: if all sizes are multiples of one power of two which bounds all alignments, and zero-sized elements have alignment 1, the same holds for every history, elements being emplaced, removed and moved at every index; insert is only called with index 0, each iterator is advanced from one end only.", "quantifier": "all powers of two, all such histories of any length, all closures meeting the emplacer contract, all allocator schedules, debug and release builds", "why_tests_cant": "histories are unbounded and every element is moved by insertions and removals", "anchors": ["src/inner/unaligned.rs: all", "src/lib.rs: UnsizedVec"]}
{"id": "C73", "title": "values stay valid", "statement": "Whatever holds of every value that is put into a history of calls and is kept by the closures that modify elements in place holds of every value that the calls return or lend, of every element left in a vector and of every value destroyed: the bytes of a str stay UTF-8, a bool stays 0 or 1, the vtable of a trait object is that of a type that was put in.", "quantifier": "every property of values, every element type, every history of C69-C72 of any length with panics caught, all allocator schedules", "why_tests_cant": "quantifies over all properties of values and unbounded histories", "anchors": ["src/lib.rs: all", "src/inner/sized.rs: all", "src/inner/aligned.rs: all", "src/inner/unaligned.rs: all"]}
{"id": "C74", "title": "calls do not fail while there is room", "statement": "While the elements and bytes asked for over a history stay far below the address space (four times the elements, twice the bytes), the allocator serves every request and no destructor panics, every call of the history does its work: no call panics or returns an error, except that an index out of bounds is refused. For elements of at least one byte, Sized or unsized with an alignment known at compile time.", "quantifier": "all such element types, all histories of any length on any number of vectors, both builds", "why_tests_cant": "a capacity computation can fail in states that only a long history reaches", "anchors": ["src/inner/sized.rs: all", "src/inner/aligned.rs: all", "src/lib.rs: UnsizedVec"]}
{"id": "C75", "title": "filling with trait objects does not fail while there is room", "statement": "While the elements of a vector, each padded to the largest alignment among them, stay below an eighth of the address space together with the buffer that is there already (and the elements below a sixty-fourth of it), the allocator serves every request and no destructor panics, pushing any number of values of different sizes and alignments returns and leaves exactly the old elements followed by the new ones. The same for extend and collect with closures that do not panic, where two alignments more per value are needed and any size hint is allowed that leaves room for the entries. The same for pushes and pops in any order and number, while sixty-five times the largest padded list on the way leaves room.", "quantifier": "all element types without a compile-time alignment, all vectors, all sequences of values the vector can align, all sequences of pushes and pops, both builds", "why_tests_cant": "raising the alignment re-pads every element that is there, so the room needed depends on the whole order of pushes", "anchors": ["src/inner/unaligned.rs: UnalignedVecInner::try_reserve_capacity_bytes_align, push, pop_into", "src/lib.rs: push, pop_into, extend, from_iter"]}
