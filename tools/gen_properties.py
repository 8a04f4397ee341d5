#!/usr/bin/env python3
"""Writes /verif/properties.jsonl (one JSON object per line)."""
import json, os
L = "src/lib.rs"; A = "src/inner/aligned.rs"; U = "src/inner/unaligned.rs"; S = "src/inner/sized.rs"
VS = "src/helper/valid_size.rs"; VA = "src/helper/valid_align.rs"; H = "src/helper.rs"; E = "emplacable/src/lib.rs"
P = []
def p(title, statement, quantifier, why, anchors):
    P.append(dict(id="C%02d" % (len(P)+1), title=title, statement=statement, quantifier=quantifier,
                  why_tests_cant=why, anchors=anchors))

p("push appends (slice-like element types)",
  "For T = [E], str or CStr: v.push(x) returns with len() one larger, v[old_len] equal to x (same length, same bytes), every earlier element unchanged, and no destructor run. If the capacity would overflow isize::MAX it panics instead, leaving v's elements unchanged and dropping x exactly once.",
  "every vector state, every value x, every allocator behaviour (success, failure, any address)",
  "the buffer is reallocated and offsets recomputed for arbitrary histories of sizes; tests sample a few sizes",
  [L+": UnsizedVec::push", A+": push_unchecked, try_reserve_additional_bytes_align"])
p("push appends (trait-object element types)",
  "For T whose alignment is only known at run time (dyn Trait): v.push(x) returns with len() one larger, v[old_len] equal to x, every earlier element unchanged, for every combination of element sizes and alignments, including an x with a larger alignment than everything already stored.",
  "every vector state, every value (any size, any power-of-two alignment), every allocator behaviour, debug and release builds",
  "re-padding depends on the whole sequence of sizes and alignments stored so far",
  [L+": UnsizedVec::push", U+": push_unchecked, try_reserve_additional_bytes_align, realign_up"])
p("push appends (Sized element types, including zero-sized ones)",
  "For every Sized T: v.push(x) appends x exactly as Vec::push does.",
  "every Sized T (every size including 0), every vector state, every value",
  "the element type is a parameter; tests instantiate only i32",
  [L+": UnsizedVec::push, try_reserve_capacity_bytes_align", S+": push_unchecked, try_reserve_additional_bytes_align"])
p("pop_into returns the last element and removes exactly it",
  "pop_into() is None iff the vector is empty; otherwise handing the result to box_new_with yields a box equal to the last element, len() is one smaller, the other elements are unchanged and no destructor runs.",
  "every vector state of every implementation, every allocator behaviour for the box",
  "size and metadata of the popped element are re-derived from offsets produced by arbitrary histories",
  [L+": UnsizedVec::pop_into", A+": pop_into_unchecked", U+": pop_into_unchecked", S+": pop_into_unchecked", E+": box_new_with"])
p("get/index: O(1) random access is exact",
  "get(i) is Some(reference to the i-th element, with its own length/vtable and bytes) iff i < len(), None otherwise; v[i] panics iff i >= len().",
  "every vector state, every usize index",
  "each lookup recombines two neighbouring end offsets and a padding rule; all positions and histories must agree",
  [L+": UnsizedVec::get, Index::index", A+": get_unchecked_raw, start_offset_of_unchecked", U+": get_unchecked_raw, start_offset_of_unchecked"])
p("insert shifts and keeps every element",
  "v.insert(i, x) with i <= len() puts x at position i and shifts later elements right by one, changing none of them; with i > len() it panics, leaves v unchanged and drops x once.",
  "every vector state of every implementation, every index, every value",
  "must hold for every index/size combination; tests only insert at index 0",
  [L+": UnsizedVec::insert", A+": insert_unchecked", U+": insert_unchecked", S+": insert_unchecked"])
p("insert_with inserts the produced value",
  "v.insert_with(i, e) with i <= len() has the same effect as inserting the value that e produces; with i > len() it panics, leaves v unchanged and drops the value of e once.",
  "every vector state of every implementation, every index including len(), every well-behaved emplacable",
  "every index/size/alignment combination, including the end position",
  [L+": UnsizedVec::insert_with", A+": insert_with_unchecked", U+": insert_with_unchecked", S+": insert_with_unchecked"])
p("remove_into removes exactly the element asked for",
  "For i < len(), handing remove_into(i) to box_new_with yields the i-th element and leaves the vector with that element removed and later ones shifted left; for i >= len() it panics and changes nothing.",
  "every vector state of every implementation, every index including the last one",
  "offset renumbering and byte shifting depend on every later element",
  [L+": UnsizedVec::remove_into", A+": remove_into_unchecked", U+": remove_into_unchecked", S+": remove_into_unchecked"])
p("forward iteration yields every element once, in order",
  "iter() driven only with next() yields references to exactly the elements 0..len() in order and then None forever; len()/size_hint() always equal the number of items still to come.",
  "every vector state, every number of calls to next",
  "the iterator carries a running offset; must be right at every step for every history",
  [L+": UnsizedVec::iter", A+": AlignedIter::next", U+": UnalignedIter::next"])
p("backward iteration yields every element once, in reverse order",
  "iter() driven only with next_back() yields the elements len()-1 .. 0 and then None forever.",
  "every vector state, every number of calls",
  "as for forward iteration",
  [A+": AlignedIter::next_back", U+": UnalignedIter::next_back"])
p("double-ended iteration from both ends never repeats or mangles an element",
  "For every interleaving of next() and next_back() on one iterator, the items produced are exactly the elements of the vector: fronts in order, backs in reverse order, none twice, each with its own extent.",
  "every vector state, every finite interleaving of the two calls",
  "the number of interleavings is exponential; the ends meet only in particular schedules",
  [A+": AlignedIter::next_back, next", U+": UnalignedIter::next_back, next"])
p("nth and last agree with repeated next",
  "At every point of an iteration, nth(n) returns what n+1 calls of next() would have returned last and leaves the iterator in the same position; last() returns the final remaining element.",
  "every vector state, every iterator position, every n",
  "depends on iterator position and n jointly; unit tests use fresh iterators only, if at all",
  [A+": AlignedIter::nth, last", U+": UnalignedIter::nth, last"])
p("iter_mut hands out non-overlapping, in-bounds references",
  "The byte ranges of the &mut T items that one iter_mut() has handed out (using any calls of the iterator) are pairwise disjoint and lie inside the vector's used bytes.",
  "every vector state, every sequence of iterator calls",
  "aliasing bugs are invisible to value-level tests",
  [A+": AlignedIterMut", U+": UnalignedIterMut"])
p("writing through get_mut/index_mut/iter_mut changes only that element",
  "Overwriting the bytes of the element reached through a mutable reference changes that element to the new bytes and no other element, length, capacity or alignment.",
  "every vector state, index and replacement contents",
  "overlap with neighbours depends on the whole layout",
  [L+": UnsizedVec::get_mut, IndexMut::index_mut", A+": get_unchecked_raw", U+": get_unchecked_raw"])
p("every element is stored at an address aligned for it",
  "At every moment, for every i < len(), the address of v[i] is a multiple of the alignment of that element.",
  "every history of operations, every address an allocator may return for the requested layout, every element alignment",
  "real allocators over-align, which hides the failure in tests; must hold for all addresses allowed by the requested alignment",
  [U+": try_reserve_additional_bytes_align, push_unchecked, push_with", A+": as_layout"])
p("lengths never exceed capacities",
  "At every moment len() <= capacity() and byte_len() <= byte_capacity().",
  "every history of safe operations",
  "the byte accounting subtracts one from the other without a check; a single bad history is enough for out-of-bounds writes",
  [L+": unused_byte_cap, byte_len, byte_capacity", U+": shrink_capacity_bytes_align_to, aligned_byte_len"])
p("capacity arithmetic never wraps; requests are validated",
  "byte_capacity() never exceeds isize::MAX rounded down to the alignment; a request that would exceed it is reported as a capacity-overflow error (try_*) or panic, never as a small wrapped capacity; align arguments that are not powers of two panic and leave the vector's elements unchanged.",
  "every usize argument, every vector state",
  "the failing inputs lie at the edges of 64-bit arithmetic",
  [VS+": ValidSize, ValidSizeUnaligned", VA+": ValidAlign::new", L+": to_align"])
p("reserve calls provide what they promise",
  "When reserve_capacity_bytes_align(n, b, a) (or its try_ form) succeeds: capacity() >= len()+n, byte_capacity() >= byte_len()+b, align() >= a (when the alignment is not statically known), and every element is unchanged.",
  "every vector state of every implementation, every n, b, a, every allocator behaviour",
  "depends on the current unused capacity and realignment cost",
  [L+": reserve_capacity_bytes_align, try_reserve_capacity_bytes_align", S+": try_reserve_additional_bytes_align", A+": try_reserve_additional_bytes_align", U+": try_reserve_additional_bytes_align"])
p("pushing within the reserved capacities does not reallocate",
  "If len() < capacity(), the element fits in the unused byte capacity and its alignment is at most align(), then push(x) makes no allocator call and moves no element.",
  "every vector state, every fitting value",
  "must hold for all fitting values at all fill levels",
  [L+": push, try_reserve_capacity_bytes_align (docs 181-198)"])
p("adding via push_with/insert_with/extend within the reserved capacities does not reallocate",
  "If the element capacity, byte capacity and alignment suffice, push_with / insert_with make no allocator call either (documented: 'Adding new elements to the vec is guaranteed not to reallocate as long as ...').",
  "every vector state, every fitting value",
  "as above",
  [L+": docs 187-198", A+": push_with, insert_with_unchecked", U+": push_with, insert_with_unchecked"])
p("failed try_reserve reports an error and loses nothing",
  "When a try_reserve* call cannot be satisfied (overflow or allocator failure) it returns Err without panicking, and all elements, byte_len() and the byte buffer are unchanged.",
  "every vector state, every arguments, every allocator failure point, debug and release builds",
  "every failure point of the allocator must be considered",
  [L+": try_reserve_capacity_bytes_align", A+": try_reserve_additional_bytes_align", U+": try_reserve_additional_bytes_align"])
p("reserve_exact / with_capacity do not over-allocate",
  "On a fresh vector, with_capacity_bytes(n, b) gives capacity() exactly n and (when alignments allow) byte_capacity() exactly b; reserve_exact(n) does not deliberately over-allocate.",
  "every n, b",
  "growth policy has thresholds at small sizes; tests check one pair",
  [L+": reserve_exact, try_reserve_exact_capacity_bytes_align, with_capacity"])
p("shrinking preserves the elements",
  "shrink_to_fit, shrink_to, shrink_capacity_bytes_to and shrink_capacity_bytes_align_to leave len() and every element unchanged.",
  "every vector state of every implementation, every argument, every allocator behaviour",
  "re-packing after an alignment decrease depends on all sizes stored",
  [L+": shrink_to_fit, shrink_capacity_bytes_align_to", U+": realign_down, shrink_capacity_bytes_align_to", A+": shrink_capacity_bytes_align_to", S+": shrink_capacity_bytes_align_to"])
p("shrinking respects its lower bounds and never grows",
  "After shrink_capacity_bytes_align_to(n, b, a), each capacity is at most its old value and at least min(old value, max(used, requested)).",
  "every vector state, every argument, every allocator behaviour",
  "many case splits between the three capacities",
  [A+": shrink_capacity_bytes_align_to", U+": shrink_capacity_bytes_align_to", S+": shrink_capacity_bytes_align_to"])
p("shrink_to actually shrinks the element capacity",
  "shrink_to(n) reduces capacity() to max(len(), n) when it was larger.",
  "every element type, every vector state, every n",
  "differs between the three implementations selected by T",
  [L+": shrink_to", S+": shrink_capacity_bytes_align_to"])
p("dropping the vector drops each element exactly once and frees its memory",
  "Dropping v runs the destructor of each element exactly once, in index order, on the element's own bytes, and then returns the element buffer to the allocator with the layout it was allocated with; nothing is leaked.",
  "every reachable vector state",
  "double drops and wrong-layout frees are undefined behaviour that tests may not observe",
  [A+": Drop for AlignedVecInner", U+": Drop for UnalignedVecInner"])
p("a removed element is dropped exactly once or, if forgotten, never",
  "Dropping the Emplacable returned by pop_into/remove_into runs the destructor of exactly that element once and removes it; Emplacable::forget removes it without running any destructor.",
  "every vector state, every index",
  "exactly-once is a property of the whole history of destructor calls",
  [E+": Drop for Emplacable, Emplacable::forget", A+": pop_into_unchecked, remove_into_unchecked", U+": pop_into_unchecked, remove_into_unchecked"])
p("a panicking producer leaves the vector unchanged",
  "If the value producer passed to push_with or insert_with panics at any point, the vector afterwards has exactly the elements it had before (its capacities may have grown).",
  "every vector state, every index, every panic point of the producer, any bytes it wrote before panicking",
  "panic points and partial writes cannot be enumerated",
  [A+": insert_with_unchecked (ElementShifterBacker), push_with", U+": insert_with_unchecked, push_with", S+": insert_with_unchecked, push_with"])
p("a panic while consuming a removed element never duplicates or loses other elements",
  "If the consumer of pop_into/remove_into panics before taking the element, or the element's destructor panics, then every element is afterwards either still in the vector or gone, and no destructor is ever run twice on the same element, also when the vector is dropped later.",
  "every vector state, every index, every panic point",
  "requires considering every unwind point followed by every continuation",
  [A+": remove_into_unchecked, pop_into_unchecked", U+": remove_into_unchecked", S+": remove_into_unchecked"])
p("raising the alignment re-pads without changing any element",
  "When the vector's alignment increases (by adding an over-aligned element or reserving a larger alignment), every existing element keeps its value and order, byte_len() becomes the padded total for the new alignment, and byte_capacity() suffices.",
  "every sequence of sizes, every pair of power-of-two alignments",
  "in-place right-to-left moves over arbitrary layouts",
  [U+": len_after_realign_up, realign_up, try_reserve_additional_bytes_align"])
p("unsize converts a whole vector element by element",
  "For v: UnsizedVec<S> with S: Unsize<U>, v.unsize() has the same length and its i-th element is the coercion of v[i]; nothing is dropped.",
  "every S, every vector",
  "needs all lengths and sizes",
  [L+": UnsizedVec::unsize", A+": from_sized", U+": from_sized"])
p("clone is equal to and independent of the original",
  "v.clone() has the same elements (as cloned by T) in the same order and leaves v unchanged; converting Vec<T> to UnsizedVec<T> and back is the identity.",
  "every T: Clone (including zero-sized), every vector",
  "T is a parameter",
  [L+": Clone for UnsizedVec, From<Vec<T>>, From<UnsizedVec<T>>"])
p("== is element-wise equality",
  "v == w iff they have the same length and their elements are pairwise equal; it is reflexive, symmetric, transitive whenever element equality is.",
  "every pair of vectors, every element equality",
  "universally quantified over vectors and over the element relation",
  [L+": PartialEq::eq"])
p("ordering is lexicographic and lawful",
  "cmp/partial_cmp is the lexicographic order of the element sequences; it is a total order when the element order is, and agrees with ==.",
  "every pair/triple of vectors, every element order",
  "laws quantify over triples and over element orders",
  [L+": PartialOrd::partial_cmp, Ord::cmp"])
p("equal vectors hash equally",
  "If v == w and element hashing respects element equality, both feed the hasher the same sequence.",
  "every pair of vectors, every hasher state",
  "universally quantified",
  [L+": Hash::hash"])
p("extend / collect / macros append everything in order",
  "extend(iter) appends the values of all produced emplacables in order; from_iter and the unsized_vec!/unsize_vec! macros build exactly the listed elements.",
  "every starting vector, every finite sequence of emplacables, every (possibly wrong) size hint",
  "induction over arbitrary sequences",
  [L+": Extend::extend, FromIterator::from_iter, unsized_vec!, unsize_vec!"])
p("moving an element between vectors",
  "w.push_with(v.pop_into().unwrap()) and w.insert_with(i, v.remove_into(j)) move the element: it leaves v, appears in w unchanged, every other element of both is unchanged and no destructor runs.",
  "every pair of vectors, every index pair",
  "two nested closures mutate two vectors at once",
  [L+": push_with, insert_with, pop_into, remove_into"])
p("value -> Emplacable -> Box/stack round trip",
  "box_new_with(x.into()), box_new(x) and Emplacable::get give back exactly x, in an allocation with x's own layout; dropping the box frees that allocation and drops x once.",
  "every type size/alignment (including zero-sized), every value",
  "layout is a parameter",
  [E+": IntoEmplacable for T, box_new, box_new_with, Emplacable::get"])
p("an Emplacable's value is delivered exactly once",
  "Consuming an Emplacable delivers its value to exactly one place; dropping it runs the destructor once; forgetting it runs none. For Box and Vec sources the source allocation is freed exactly once in all three cases. A borrowed str, CStr, OsStr or Path is copied and stays as it was, and no destructor runs for it.",
  "every source kind, every consumer",
  "needs all source/consumer pairs",
  [E+": Emplacable::forget, Drop for Emplacable, IntoEmplacable for T/Box/Vec/&str/&CStr/&OsStr/&Path"])
p("a slice reference turns into an Emplacable with the same contents",
  "box_new_with((&s[..]).into()) for T: Clone produces a slice of the same length whose elements are clones of s's elements in order (bitwise copies for T: Copy).",
  "every element type (Copy or only Clone), every slice",
  "specialised code path for Copy types is never exercised by the tests (they use Box<i32>)",
  [E+": CopyToBuf, IntoEmplacable<[T]> for &[T]"])
p("a Vec turns into an Emplacable slice with the same contents",
  "Emplacable from Vec<T> delivers exactly the len() elements of the Vec and requests memory for exactly them; the resulting box or vector element has that length and can be freed.",
  "every length and capacity of the source Vec",
  "tests only use Vecs with capacity == length",
  [E+": IntoEmplacable<[T]> for Vec<T>, box_new_with", A+": push_with"])
p("box_new_with leaks nothing when the producer panics",
  "If the producer panics while writing, box_new_with unwinds with its fresh allocation freed exactly once and no box created; if allocation fails nothing is written.",
  "every layout, every panic point, every allocator behaviour",
  "panic points",
  [E+": box_new_with (PointerDeallocer)"])
p("with_emplacable_for never duplicates its value",
  "with_emplacable_for(val, f) hands val to f as an Emplacable; whatever f does - emplace it, drop it, forget it, or panic before or after - val's destructor is run at most once in total.",
  "every closure f, every panic point in f",
  "panic points in user closures",
  [E+": with_emplacable_for"])
p("arrays/iterators of Emplacables fill a slice in order; lying lengths are not UB",
  "Turning [Emplacable<T>; N] or Emplacable::from_iter(iter) into a slice delivers all values in order at consecutive positions; an ExactSizeIterator whose len() is too large leads to a panic, one whose len() is too small delivers the first len() values and drops the rest; neither writes outside the slice.",
  "every N, every sequence, every claimed length",
  "claimed and actual length are independent parameters",
  [E+": Emplacable::from_iter, IntoEmplacable<[T;N]> for [Emplacable;N]"])
p("unsizing or re-typing an Emplacable keeps its value",
  "Emplacable::unsize and str -> [u8] conversion deliver the same bytes with the coerced metadata, and compose with drop and forget without changing what is dropped.",
  "every emplacable, every consumer",
  "higher-order: quantifies over producers and consumers",
  [E+": Emplacable::unsize, IntoEmplacable<[u8]> for Emplacable<str>"])
p("slices keep their length for every element type",
  "An element pushed into UnsizedVec<[E]> is read back with the same number of elements, for every element type E including zero-sized ones.",
  "every E, every slice length",
  "only wrong for zero-sized E",
  [H+": MetadataFromSize for [T]", A+": get_unchecked_raw"])
p("push has amortised constant cost",
  "Building a vector by n pushes (no allocator failure on the optimistic size) moves at most a constant times the total bytes pushed during reallocations.",
  "every n, every sequence of element sizes",
  "asymptotic claim over all sequences",
  [L+": docs 4-6, try_reserve_capacity_bytes_align"])
p("push_with has amortised constant cost",
  "Building a vector by n calls of push_with (as extend/collect do) moves at most a constant times the total bytes pushed during reallocations.",
  "every n",
  "asymptotic claim",
  [L+": docs 4-6, Extend::extend", A+": push_with", U+": push_with"])
p("any history of operations behaves like a plain sequence",
  "Starting from new(), after any finite sequence of the API's operations, len(), get(i), pops and removals return what the same operations on a plain list of values would return.",
  "every finite sequence of operations, every allocator schedule",
  "unbounded histories",
  [L+": UnsizedVec (whole API)"])
p("no history of safe calls leads to undefined behaviour",
  "No finite sequence of calls of the safe API, with any allocator behaviour, performs an out-of-bounds access, an overflowing unchecked arithmetic operation, a misaligned reference, a wrong-layout deallocation or a use of uninitialised memory.",
  "every finite sequence of safe calls, every allocator schedule",
  "undefined behaviour may stay silent; histories are unbounded",
  [A, U, S, L])
p("serialisation emits the length followed by the elements in order",
  "Serialize announces exactly len() elements and then emits every element once, in order.",
  "every vector, every serialiser state",
  "universally quantified",
  [L+": Serialize::serialize"])
p("the declared alignment of an aligned type is its real alignment",
  "For every type T with a compile-time alignment, T::ALIGN equals the alignment of every value of T, so a box made from an element taken out of an UnsizedVec<T> has the layout with which it will be freed.",
  "every element type with a compile-time alignment, every value",
  "a wrong constant only shows as a wrong-layout deallocation, which common allocators do not notice",
  ["src/marker.rs: Aligned impls", A+": pop_into_unchecked, remove_into_unchecked"])
p("searching an iterator sees every remaining element once and stops at the first hit",
  "find, find_map, any, all, for_each and position call the closure on the remaining elements in order, each once, stop at the first hit, return what the closure's answers dictate, and leave the iterator just behind the element they stopped at; a panicking closure propagates with the same calls made.",
  "every vector, every sequence of earlier calls on the iterator, every closure state and behaviour",
  "quantifies over closures and iterator states",
  [L+": iter_ref! (all, any, find, find_map, position, for_each)"])
p("nth_back returns the n-th remaining element from the end",
  "nth_back(n) returns the n-th remaining element counted from the end (None if there are too few) and the iterator then yields exactly the elements before it.",
  "every vector, every n, every iterator state",
  "universally quantified",
  [A+": next_back", U+": next_back", L+": iter_ref! (nth_back, advance_back_by)"])
p("a vector never records more alignment than it was asked for",
  "Whatever calls are made and however they end, align() is never more than the largest of: the alignment new() starts with, the alignments requested, and the alignments of the values stored at some time.",
  "every element type whose alignment is known at run time only, every finite sequence of calls, every allocator schedule",
  "unbounded histories; includes the states after failed reservations and panics",
  [U+": try_reserve_additional_bytes_align, shrink_capacity_bytes_align_to, realign_up", L+": align"])
p("collecting emplacables into a Vec stores every value once and in order",
  "Vec::extend over emplacables appends the delivered values in order whatever the iterator's size hint is; if a delivery or a reservation panics, what was appended before stays, the value in flight is dropped once, and the emplacables not yet run are dropped; collect() does the same starting from an empty Vec and leaves nothing behind when it unwinds.",
  "every Sized T (every size including 0), every Vec, every hint, every list of emplacables (any producers, any panics), every allocator behaviour",
  "quantifies over producers, panics at any position and wrong hints",
  [E+": Extend<Emplacable<T, F>> for Vec<T>, FromIterator<Emplacable<T, F>> for Vec<T>"])
p("an emplacable slice or string becomes a Vec or String with the same contents",
  "Vec::from(emplacable of [T]) and the String, CString, OsString and PathBuf versions yield a full vector with exactly the delivered elements in the one allocation made, freed with the layout it was allocated with; a Vec turned into an emplacable and back holds the same elements.",
  "every element size and alignment, every length, every emplacable, every allocator behaviour",
  "a wrong layout is only noticed by an allocator that checks it",
  [E+": From<Emplacable<[T], F>> for Vec<T>, From<Emplacable<str, F>> for String, and the versions for CStr, OsStr, Path"])
p("rc_new, rc_new_with and their Arc versions put the value behind a fresh reference count",
  "The result is the only owner of an allocation holding the two counts, both 1, and the value at an aligned place; it reads back as the value; the intermediate box is freed without running a destructor; dropping it runs the destructor once and returns the allocation. If the second allocation cannot be made, the value is dropped once and nothing is left.",
  "every type, every value (any size and alignment), every emplacable, every allocator behaviour",
  "sizes near isize::MAX and failures of the second allocation are not reachable in tests",
  [E+": rc_new, rc_new_with, arc_new, arc_new_with, From<Emplacable<T, F>> for Rc<T> and Arc<T>"])
p("coercing on the stack keeps the value",
  "unsize!(v, ...) yields the same bytes with the coerced metadata and by_value_str!(lit) the literal, without allocating, dropping or changing anything; push_unsize and insert_unsize put that value where push and insert would.",
  "every Sized source type, every unsizing to a slice, trait object or struct tail, every value, every vector, every index",
  "the value passes through a box with a fake allocator; quantifies over types",
  [E+": unsize!, by_value_str!, macro_exports", L+": push_unsize, insert_unsize"])
p("converting from and into Vec keeps elements, capacity and allocation",
  "From<Vec<T>> and From<UnsizedVec<T>> for Vec<T> keep the elements, the capacity and the very allocation; nothing is allocated, moved or dropped.",
  "every Sized T, every Vec, every vector",
  "universally quantified",
  [L+": From<Vec<T>> for UnsizedVec<T>, From<UnsizedVec<T>> for Vec<T>"])
p("Debug prints every element once and in order",
  "The Debug output is an opening bracket, the elements in order separated by commas, and a closing bracket, up to the first piece the formatter refuses, whose error is returned; in the alternate format every element stands on lines of its own, each indented by four spaces, and ends in a comma; the vector is unchanged.",
  "every element type, every vector, every formatter and its errors",
  "quantifies over formatters that fail at any point",
  [L+": Debug::fmt"])
p("the macros build what is written",
  "unsized_vec! and unsize_vec! with any mixture of values, emplacables and coerced Sized values produce a vector with the values of all arguments in order; each emplacable delivers once; if an argument panics or a reservation fails, the unfinished vector is gone with its memory, the values already pushed are dropped once and in order, and later arguments are untouched",
  "every element type, every list of arguments of the three kinds, every emplacable, every allocator behaviour",
  "argument lists and panic points combine without bound; the repository's examples only build short vectors that succeed",
  [L+": PushToUnsizedVec, unsized_vec!, unsize_vec!"])

p("size and alignment arithmetic is exact on every pointer width",
  "ValidAlign::new accepts exactly the powers of two that a usize holds and never makes an invalid enum value; log2 is exact; ValidSize accepts exactly the sizes whose rounding to the alignment is at most isize::MAX; adding, padding and squishing give the mathematically exact result or refuse, also where the sum or the rounding would wrap around; the unchecked versions are undefined only where the exact result does not fit.",
  "16-, 32- and 64-bit targets, every usize, every alignment up to 1 << (BITS - 1)",
  "the 16- and 32-bit tables are not compiled on the test machine; the bit tricks matter at the boundaries of the range",
  [VA+": new, new_unckecked, minus_1, log2, ValidAlignEnum", VS+": ValidSize, ValidSizeUnaligned"])

p("a history leaks no memory",
  "Whatever calls are made and whichever of them panic, every block allocated at the end was allocated at the start, is the buffer of a vector that is still alive, or is a box handed to the caller; once all vectors are dropped and no box is out, the heap is what it was.",
  "every element type, every finite history on any number of vectors, every allocator behaviour, every panicking destructor",
  "leaks show up only after unbounded sequences of growth, shrinking, moves and panics",
  [S+": Drop, realloc, shrink", A+": Drop, realloc, shrink", U+": Drop, realloc, shrink", L+": UnsizedVec"])
p("a history touches no memory but its own",
  "A block that was allocated by somebody else before the history starts is never written, freed or adopted as a buffer.",
  "every element type, every finite history on any number of vectors, every allocator behaviour, every panicking destructor",
  "every unsafe write and deallocation is involved; universally quantified over the rest of the heap",
  [S+": all unsafe blocks", A+": all unsafe blocks", U+": all unsafe blocks"])

p("a history destroys no value twice and makes none up",
  "Over a whole history every value that goes into a vector is afterwards destroyed, or in exactly one live vector, or with the caller, never in two of these ways and never destroyed twice; no other value is destroyed or held; nothing is lost unless a call panics. A call that panics destroys or keeps each argument at most once.",
  "every element type, every finite history on any number of vectors, every allocator behaviour, every panicking destructor, every panicking call",
  "a double drop needs a particular sequence of calls and panics; universally quantified over values and histories",
  [S+": Drop, pop_into, remove_into", A+": Drop, pop_into, remove_into, insert, push", U+": Drop, pop_into, remove_into, insert, push", L+": extend, from_iter, unsized_vec!"])

p("a reference stays valid for as long as the borrow lasts",
  "A reference to an element that get hands out still points to allocated, aligned memory and reads the same value after any calls that the borrow checker allows in the meantime: any calls on other vectors, and calls through &self on the same vector.",
  "every element type, every finite history before the borrow, every history during it, every allocator behaviour, every panicking call",
  "a dangling or overwritten reference needs a particular interleaving of calls on several vectors; universally quantified over histories",
  [L+": get, get_mut, Index, iter", S+": get_unchecked_raw", A+": get_unchecked_raw", U+": get_unchecked_raw"])
p("no two elements share memory",
  "At every moment of a history the references to two different elements, of the same or of different vectors, have no byte in common, so that get_mut and iter_mut hand out no aliases.",
  "every element type, every pair of elements of live vectors, every moment of every finite history, every allocator behaviour",
  "quantifies over pairs of elements and histories; aliasing has no visible effect until a write",
  [L+": get_mut, iter_mut, unsize", S+": get_unchecked_raw", A+": get_unchecked_raw, from_sized", U+": get_unchecked_raw, from_sized"])

p("vectors of Sized elements are sound in every history",
  "For every Sized T, zero-sized or not: any sequence of safe calls on any number of vectors, in any order and with panics caught, has no undefined behaviour; every call returns what it returns on plain lists or panics for a reason the list specification names; no memory is leaked, none but the vectors' own is touched; every value is destroyed once, still stored, handed out, or lost by a panic; at every moment elements are aligned, within capacity and disjoint; references last as long as the borrow checker says. Excluded: a destructor that panics when the result of remove_into is dropped.",
  "all sizes and alignments, all histories of any length, all closures meeting the emplacer contract, all allocator schedules, debug and release builds",
  "histories are unbounded and the element type is a parameter",
  [S+": all", L+": UnsizedVec", E+": Emplacable, EmplacableFn"])
p("vectors of slices and strings are sound away from two calls",
  "For T = [E], str, CStr and any unsized T whose alignment is known at compile time: the same as for Sized elements, for every history in which insert is only called with index 0, each iterator is advanced from one end only, and no destructor panics when the result of remove_into is dropped.",
  "all such T, all element lengths including 0, all histories of any length, all closures meeting the emplacer contract, all allocator schedules, debug and release builds",
  "histories are unbounded; lengths, capacities and offsets interact over many calls",
  [A+": all", L+": UnsizedVec"])
p("vectors of trait objects are sound when used at their ends",
  "For T whose alignment is only known at run time: the same as for Sized elements, for every history whose elements have at least one byte or alignment 1 and in which elements are inserted and removed at index 0 or at the end only, each iterator is advanced from one end only and shrink_capacity_bytes_align_to is not called.",
  "all layouts of elements in all mixtures, all histories of any length, all closures meeting the emplacer contract, all allocator schedules, debug and release builds",
  "alignments change over a history and move all elements",
  [U+": all", L+": UnsizedVec"])
p("vectors of trait objects of similar layout are sound at every index",
  "For T whose alignment is only known at run time: if all sizes are multiples of one power of two which bounds all alignments, and zero-sized elements have alignment 1, the same holds for every history, elements being emplaced, removed and moved at every index; insert is only called with index 0, each iterator is advanced from one end only.",
  "all powers of two, all such histories of any length, all closures meeting the emplacer contract, all allocator schedules, debug and release builds",
  "histories are unbounded and every element is moved by insertions and removals",
  [U+": all", L+": UnsizedVec"])
p("values stay valid",
  "Whatever holds of every value that is put into a history of calls and is kept by the closures that modify elements in place holds of every value that the calls return or lend, of every element left in a vector and of every value destroyed: the bytes of a str stay UTF-8, a bool stays 0 or 1, the vtable of a trait object is that of a type that was put in.",
  "every property of values, every element type, every history of C69-C72 of any length with panics caught, all allocator schedules",
  "quantifies over all properties of values and unbounded histories",
  [L+": all", S+": all", A+": all", U+": all"])
p("calls do not fail while there is room",
  "While the elements and bytes asked for over a history stay far below the address space (four times the elements, twice the bytes), the allocator serves every request and no destructor panics, every call of the history does its work: no call panics or returns an error, except that an index out of bounds is refused. For elements of at least one byte, Sized or unsized with an alignment known at compile time.",
  "all such element types, all histories of any length on any number of vectors, both builds",
  "a capacity computation can fail in states that only a long history reaches",
  [S+": all", A+": all", L+": UnsizedVec"])
p("filling with trait objects does not fail while there is room",
  "While the elements of a vector, each padded to the largest alignment among them, stay below an eighth of the address space together with the buffer that is there already (and the elements below a sixty-fourth of it), the allocator serves every request and no destructor panics, pushing any number of values of different sizes and alignments returns and leaves exactly the old elements followed by the new ones. The same for extend and collect with closures that do not panic, where two alignments more per value are needed and any size hint is allowed that leaves room for the entries. The same for pushes and pops in any order and number, while sixty-five times the largest padded list on the way leaves room.",
  "all element types without a compile-time alignment, all vectors, all sequences of values the vector can align, all sequences of pushes and pops, both builds",
  "raising the alignment re-pads every element that is there, so the room needed depends on the whole order of pushes",
  [U+": UnalignedVecInner::try_reserve_capacity_bytes_align, push, pop_into", L+": push, pop_into, extend, from_iter"])

out = os.path.join(os.path.dirname(os.path.dirname(os.path.abspath(__file__))), "properties.jsonl")
with open(out, "w") as f:
    for q in P: f.write(json.dumps(q) + "\n")
print(len(P))
