(** Concrete runs, from the empty world through the public API only, in which the code does not do what its
    documentation (or the language) promises. Every theorem is checked by computation. *)
From Coq Require Import ZArith List Bool.
From Verif Require Import Types World Emplace SizedVec AlignedVec UnalignedVec Api Spec.
Import ListNotations.
Open Scope Z_scope.
Open Scope m_scope.

(** A release build, an allocator that always succeeds (at the smallest aligned addresses), quiet destructors. *)
Definition cfg_release : Config := Build_Config false (fun _ => Some 1) (fun _ => false) false.
(** The same in a debug build. *)
Definition cfg_dbg : Config := Build_Config true (fun _ => Some 1) (fun _ => false) false.
(** Release build in which the first destructor that runs panics. *)
Definition cfg_drop0 : Config := Build_Config false (fun _ => Some 1) (fun n => Nat.eqb n 0) false.

Ltac run := (vm_compute; reflexivity).

Definition str_val (l : list Z) : value := Value (MLen (Z.of_nat (length l))) (map Byte l).
Definition dyn_val (id : nat) (size align : Z) (l : list Z) : value := Value (MVt id size align) (map Byte l).
Definition sized_val (l : list Z) : value := Value MUnit (map Byte l).

Definition ab := str_val [97;98].
Definition cd := str_val [99;100].
Definition ef := str_val [101;102].
Definition word (n : Z) := dyn_val 1 8 8 (repeat n 8).     (* a u64 behind dyn *)
Definition half (n : Z) := dyn_val 2 4 4 (repeat n 4).     (* a u32 behind dyn *)
Definition one (n : Z) := dyn_val 3 1 1 [n].               (* a u8 behind dyn *)
Definition five (n : Z) := dyn_val 4 5 1 (repeat n 5).     (* a [u8; 5] behind dyn *)
Definition zst16 := dyn_val 5 0 16 [].                     (* a [u128; 0] behind dyn *)
Definition u32 (n : Z) := sized_val (repeat n 4).

Local Existing Instance cfg_release.


(** C02: pushing an over-aligned zero-sized value behind [dyn] into a fresh vector panics in a debug build: the vector's
    alignment was not raised (unaligned.rs:471-473). *)
Theorem C02_push_debug_refuted : exists v w w',
  v_new TDyn empty_world = (Ok v, w) /\
  v_push (C := cfg_dbg) TDyn v zst16 w = (Panic PDebugAssert, w').
Proof. do 3 eexists. do 1 (split; [run|]). run. Qed.

(** C02, C16, C50: [shrink_capacity_bytes_to] can leave a byte capacity that is not a multiple of the alignment
    (unaligned.rs:496-506); the next fitting push then makes byte_len() exceed byte_capacity(), and one more push is
    undefined behaviour (unchecked subtraction at lib.rs:1172). *)
Definition shrink13 : M nat :=
  v <- v_with_capacity_bytes TDyn 4 24 ;;
  v_push TDyn v (word 1) ;;
  v_shrink_capacity_bytes_to TDyn v 4 13 ;;
  ret v.
Theorem C16_byte_len_refuted : exists v w w',
  shrink13 empty_world = (Ok v, w) /\
  v_push TDyn v (five 2) w = (Ok tt, w') /\
  v_byte_len TDyn v w' = (Ok 16, w') /\
  v_byte_capacity TDyn v w' = (Ok 13, w').
Proof. do 3 eexists. do 3 (split; [run|]). run. Qed.
Theorem C50_push_after_shrink_refuted : exists w,
  (v <- shrink13 ;; v_push TDyn v (five 2) ;; v_push TDyn v (one 3)) empty_world = (UB UbArith, w).
Proof. eexists. run. Qed.

(** C03: pushing a zero-sized value panics (division by zero, sized.rs:76). *)
Theorem C03_push_zst_refuted : exists v w w',
  v_new (TSized 0 1) empty_world = (Ok v, w) /\
  v_push (TSized 0 1) v (sized_val []) w = (Panic PDivZero, w').
Proof. do 3 eexists. do 1 (split; [run|]). run. Qed.

(** C06: [insert] in the middle overwrites a neighbour: aligned.rs:254 and unaligned.rs:609 use the element index as a byte
    offset. *)
Theorem C06_insert_str_refuted : exists v w w',
  v_of_values TStr [ab; cd] empty_world = (Ok v, w) /\
  shows TStr v [ab; cd] w /\
  v_insert TStr v 1 ef w = (Ok tt, w') /\
  ~ shows TStr v (insert_at 1 ef [ab; cd]) w'.
Proof.
  do 3 eexists. do 3 (split; [run|]). intro H; vm_compute in H; discriminate H.
Qed.
Theorem C06_insert_dyn_refuted : exists v w w',
  v_of_values TDyn [word 1; word 2] empty_world = (Ok v, w) /\
  shows TDyn v [word 1; word 2] w /\
  v_insert TDyn v 1 (word 3) w = (Ok tt, w') /\
  ~ shows TDyn v (insert_at 1 (word 3) [word 1; word 2]) w'.
Proof.
  do 3 eexists. do 3 (split; [run|]). intro H; vm_compute in H; discriminate H.
Qed.

(** C07: [insert_with] (and [insert]) at the end of a vector of trait objects is undefined behaviour when the last element
    is not padded (unaligned.rs:697, 607). *)
Theorem C07_insert_with_end_refuted : exists v w w',
  v_of_values TDyn [one 1] empty_world = (Ok v, w) /\
  shows TDyn v [one 1] w /\
  v_insert_with TDyn v 1 (emplacable_of_value TDyn (word 2)) w = (UB UbArith, w').
Proof. do 3 eexists. do 2 (split; [run|]). run. Qed.
Theorem C06_insert_end_refuted : exists v w w',
  v_of_values TDyn [one 1] empty_world = (Ok v, w) /\
  shows TDyn v [one 1] w /\
  v_insert TDyn v 1 (word 2) w = (UB UbArith, w').
Proof. do 3 eexists. do 2 (split; [run|]). run. Qed.

(** C08: [remove_into] of the last element of a vector of trait objects is undefined behaviour when the element before it
    is not padded (unaligned.rs:833). *)
Theorem C08_remove_last_refuted : exists v w w',
  v_of_values TDyn [one 1; one 2] empty_world = (Ok v, w) /\
  shows TDyn v [one 1; one 2] w /\
  (e <- v_remove_into TDyn v 1 ;; box_new_with e) w = (UB UbArith, w').
Proof. do 3 eexists. do 2 (split; [run|]). run. Qed.
(** The same underflow, whatever is done with the element. *)
Theorem C27_remove_last_refuted : exists v w w1 w2,
  v_of_values TDyn [one 1; one 2] empty_world = (Ok v, w) /\
  shows TDyn v [one 1; one 2] w /\
  (e <- v_remove_into TDyn v 1 ;; emplacable_drop e) w = (UB UbArith, w1) /\
  (e <- v_remove_into TDyn v 1 ;; emplacable_forget e) w = (UB UbArith, w2).
Proof. do 4 eexists. do 3 (split; [run|]). run. Qed.
Theorem C37_move_last_refuted : exists v1 v2 w1 w2 w3,
  v_of_values TDyn [one 1; one 2] empty_world = (Ok v1, w1) /\
  v_of_values TDyn [one 3] w1 = (Ok v2, w2) /\
  shows TDyn v1 [one 1; one 2] w2 /\ shows TDyn v2 [one 3] w2 /\
  (e <- v_remove_into TDyn v1 1 ;; v_insert_with TDyn v2 0 e) w2 = (UB UbArith, w3).
Proof. do 5 eexists. do 4 (split; [run|]). run. Qed.

(** C11, C13: one [next] and then [next_back] on the only remaining element: the item starts at byte 0, so it overlaps
    the first one (aligned.rs:778-783, unaligned.rs:1180-1185). *)
Definition both_ends (t : ty) (xs : list value) : M (option value * option value) :=
  v <- v_of_values t xs ;;
  it <- v_iter t v ;;
  '(a, it) <- v_next t it ;;
  '(b, it) <- v_next_back t it ;;
  a <- read_opt t a ;; b <- read_opt t b ;; ret (a, b).
Theorem C11_both_ends_str_refuted : exists w,
  both_ends (TSlice 1 1) [ab; cd] empty_world = (Ok (Some ab, Some (str_val [97;98;99;100])), w).
Proof. eexists. run. Qed.
Theorem C11_both_ends_dyn_refuted : exists w,
  both_ends TDyn [word 1; word 2] empty_world = (Ok (Some (word 1), Some (word 1)), w).
Proof. eexists. run. Qed.

(** C12: after one [next], [nth(0)] does not return the next element (aligned.rs:737-741, unaligned.rs:1133-1137); the same
    for [last()] when one element remains. *)
Definition next_nth (t : ty) (xs : list value) : M (option value) :=
  v <- v_of_values t xs ;;
  it <- v_iter t v ;;
  '(a, it) <- v_next t it ;;
  '(b, it) <- v_nth t it 0 ;;
  read_opt t b.
Theorem C12_nth_refuted : exists w,
  next_nth TDyn [word 1; word 2] empty_world = (Ok (Some (word 1)), w).
Proof. eexists. run. Qed.
Definition next_last (t : ty) (xs : list value) : M (option value) :=
  v <- v_of_values t xs ;;
  it <- v_iter t v ;;
  '(a, it) <- v_next t it ;;
  b <- v_last t it ;;
  read_opt t b.
Theorem C12_last_refuted : exists w,
  next_last TDyn [word 1; word 2] empty_world = (Ok (Some (word 1)), w).
Proof. eexists. run. Qed.
(** C13: the two mutable references that [iter_mut] handed out are the same memory. *)
Theorem C13_overlap_refuted : exists v w r1 r2 it it1 it2,
  v_of_values TDyn [word 1; word 2] empty_world = (Ok v, w) /\
  v_iter TDyn v w = (Ok it, w) /\
  v_next TDyn it w = (Ok (Some r1, it1), w) /\
  v_next_back TDyn it1 w = (Ok (Some r2, it2), w) /\
  wp r1 = wp r2 /\ size_of_val TDyn (wm r1) = 8 /\ size_of_val TDyn (wm r2) = 8.
Proof. do 7 eexists. do 6 (split; [run|]). run. Qed.

(** C15, C50: an over-aligned zero-sized element ends up at an address that is not aligned for it once the vector
    allocates, because the vector's alignment was never raised. *)
Theorem C15_misaligned_refuted : exists v w w',
  v_of_values TDyn [zst16; word 1] empty_world = (Ok v, w) /\
  v_index TDyn v 0 w = (UB UbRef, w').
Proof. do 3 eexists. do 1 (split; [run|]). run. Qed.

(** C18: for Sized types [reserve_capacity_bytes] mixes bytes and elements (sized.rs:74-77): 80 bytes requested, 40
    provided, success reported. *)
Theorem C18_reserve_bytes_sized_refuted : exists v w w',
  v_with_capacity (TSized 4 4) 10 empty_world = (Ok v, w) /\
  v_try_reserve_capacity_bytes (TSized 4 4) v 0 80 w = (Ok ROk, w') /\
  v_byte_len (TSized 4 4) v w' = (Ok 0, w') /\
  v_byte_capacity (TSized 4 4) v w' = (Ok 40, w').
Proof. do 3 eexists. do 3 (split; [run|]). run. Qed.
(** C18: requesting a larger alignment without bytes on an unallocated vector reports success but does not raise it. *)
Theorem C18_reserve_align_refuted : exists v w w',
  v_new TDyn empty_world = (Ok v, w) /\
  v_try_reserve_capacity_bytes_align TDyn v 0 0 16 w = (Ok ROk, w') /\
  v_align TDyn v w' = (Ok 8, w').
Proof. do 3 eexists. do 2 (split; [run|]). run. Qed.

(** C20: [push_with] reallocates although everything fits (aligned.rs:505-509, unaligned.rs:881-885 request the size of the
    element on top of the current capacity). *)
Theorem C20_push_with_refuted : exists v w w',
  v_with_capacity_bytes TStr 4 100 empty_world = (Ok v, w) /\
  v_capacity TStr v w = (Ok 4, w) /\ v_byte_capacity TStr v w = (Ok 100, w) /\
  v_push_with TStr v (emplacable_of_value TStr ab) w = (Ok tt, w') /\
  (w_nalloc w < w_nalloc w')%nat /\ v_byte_capacity TStr v w' = (Ok 102, w').
Proof.
  do 3 eexists. do 4 (split; [run|]). split. vm_compute; apply le_n. run.
Qed.

(** C21: in a debug build a failing [try_reserve_capacity_bytes] panics instead of returning [Err] (lib.rs:585). *)
Theorem C21_try_reserve_debug_refuted : exists v w w',
  v_new TStr empty_world = (Ok v, w) /\
  v_try_reserve_capacity_bytes (C := cfg_dbg) TStr v 0 usize_max w = (Panic PDebugAssert, w').
Proof. do 3 eexists. do 1 (split; [run|]). run. Qed.

(** C22: [with_capacity(1)] and [reserve_exact(1)] over-allocate (lib.rs:663 calls the amortised [try_reserve]). *)
Theorem C22_with_capacity_refuted : exists v w,
  v_with_capacity TStr 1 empty_world = (Ok v, w) /\ v_capacity TStr v w = (Ok 4, w).
Proof. do 2 eexists. do 1 (split; [run|]). run. Qed.
Theorem C22_with_capacity_sized_refuted : exists v w,
  v_with_capacity (TSized 4 4) 1 empty_world = (Ok v, w) /\ v_capacity (TSized 4 4) v w = (Ok 4, w).
Proof. do 2 eexists. do 1 (split; [run|]). run. Qed.

(** C23: [shrink_to_fit] on trait objects corrupts the elements when the alignment can be lowered (unaligned.rs:249-303). *)
Theorem C23_shrink_to_fit_refuted : exists v w w' l',
  v_of_values TDyn [half 1; half 2; half 3] empty_world = (Ok v, w) /\
  shows TDyn v [half 1; half 2; half 3] w /\
  v_shrink_to_fit TDyn v w = (Ok tt, w') /\
  shows TDyn v l' w' /\ l' <> [half 1; half 2; half 3].
Proof.
  do 4 eexists. do 4 (split; [run|]). vm_compute; discriminate.
Qed.

(** C24, C50: with four elements the offsets it computes go below zero ([unchecked_sub], unaligned.rs:281): undefined
    behaviour in a safe call. *)
Theorem C24_shrink_to_fit_refuted : exists v w w',
  v_of_values TDyn [one 1; one 2; one 3; one 4] empty_world = (Ok v, w) /\
  shows TDyn v [one 1; one 2; one 3; one 4] w /\
  v_shrink_to_fit TDyn v w = (UB UbArith, w').
Proof. do 3 eexists. do 2 (split; [run|]). run. Qed.

(** C25: for Sized types [shrink_to] never shrinks (lib.rs:690-694 passes [usize::MAX] bytes, sized.rs:87-91 takes the
    maximum). *)
Theorem C25_shrink_to_refuted : exists v w w',
  v_with_capacity (TSized 4 4) 10 empty_world = (Ok v, w) /\
  v_shrink_to (TSized 4 4) v 2 w = (Ok tt, w') /\
  v_capacity (TSized 4 4) v w' = (Ok 10, w').
Proof. do 3 eexists. do 2 (split; [run|]). run. Qed.

(** C29: when the destructor of a removed element panics, the element stays in the vector and is dropped again later. *)
Theorem C29_double_drop_refuted : exists v w w1 w2,
  v_of_values (C := cfg_drop0) TStr [ab; cd] empty_world = (Ok v, w) /\
  (e <- v_remove_into (C := cfg_drop0) TStr v 0 ;; emplacable_drop e) w = (Panic PDrop, w1) /\
  v_drop (C := cfg_drop0) TStr v w1 = (Ok tt, w2) /\
  w_drops w2 = [ab; ab; cd].
Proof. do 4 eexists. do 3 (split; [run|]). run. Qed.
(** C29: a consumer that panics before taking the element makes a vector of Sized elements lose its last element. *)
Theorem C29_lost_element_refuted : exists v w w1 w2,
  v_of_values (TSized 4 4) [u32 1; u32 2; u32 3] empty_world = (Ok v, w) /\
  (e <- v_remove_into (TSized 4 4) v 0 ;; e (fun _ _ _ => panic (PUser 0))) w = (Panic (PUser 0), w1) /\
  shows (TSized 4 4) v [u32 1; u32 2] w1 /\
  v_drop (TSized 4 4) v w1 = (Ok tt, w2) /\
  w_drops w2 = [u32 1; u32 2].
Proof. do 4 eexists. do 4 (split; [run|]). run. Qed.

(** C31: [unsize] computes end offsets [index * size] (aligned.rs:660-664, unaligned.rs:1051-1055). *)
Theorem C31_unsize_dyn_refuted : exists v w w' l',
  v_of_values (TSized 4 4) [u32 1; u32 2] empty_world = (Ok v, w) /\
  v_unsize 4 4 TDyn (MVt 0 4 4) v w = (Ok tt, w') /\
  shows TDyn v l' w' /\
  map v_bytes l' = [map Byte [1;1;1;1]; map Byte [1;1;1;1]].
Proof. do 4 eexists. do 3 (split; [run|]). run. Qed.
Theorem C31_unsize_slice_refuted : exists v w w' l',
  v_of_values (TSized 4 4) [u32 1; u32 2] empty_world = (Ok v, w) /\
  v_unsize 4 4 (TSlice 1 1) (MLen 4) v w = (Ok tt, w') /\
  shows (TSlice 1 1) v l' w' /\
  map v_bytes l' = [[]; map Byte [1;1;1;1]].
Proof. do 4 eexists. do 3 (split; [run|]). run. Qed.

(** C32, C36: cloning, and extending, a vector of zero-sized elements panics. *)
Theorem C32_clone_zst_refuted : exists v w w',
  v_new (TSized 0 1) empty_world = (Ok v, w) /\
  v_clone (TSized 0 1) ret v w = (Panic PDivZero, w').
Proof. do 3 eexists. do 1 (split; [run|]). run. Qed.
Theorem C36_extend_zst_refuted : exists v w w',
  v_new (TSized 0 1) empty_world = (Ok v, w) /\
  v_extend (TSized 0 1) v 0 [] w = (Panic PDivZero, w').
Proof. do 3 eexists. do 1 (split; [run|]). run. Qed.

(** A slice / vector on the heap to start from: a box holding [bs]. *)
Definition boxed_bytes (bs : list Z) : M wide := box_new (TSlice 1 1) (str_val bs).

(** C40: for [T: Copy] the bytes of the reference itself are copied instead of the slice (lib.rs:776 of emplacable). *)
Theorem C40_copy_slice_refuted : exists src w r w',
  boxed_bytes [1;2;3] empty_world = (Ok src, w) /\
  box_new_with (emplacable_of_slice_ref 1 1 true ret src) w = (Ok r, w') /\
  fst (read_value (TSlice 1 1) r w') <> Ok (str_val [1;2;3]).
Proof.
  do 4 eexists. do 2 (split; [run|]). vm_compute; discriminate.
Qed.
(** ... and slices longer than the reference (16 bytes) read outside it. *)
Theorem C40_copy_slice_ub_refuted : exists src w w',
  boxed_bytes (repeat 7 17) empty_world = (Ok src, w) /\
  box_new_with (emplacable_of_slice_ref 1 1 true ret src) w = (UB UbMem, w').
Proof. do 3 eexists. do 1 (split; [run|]). run. Qed.

(** C41: a [Vec] with spare capacity requests memory for its capacity; the resulting box cannot be freed. *)
Theorem C41_vec_box_refuted : exists v o w r w1 w2,
  (v <- v_with_capacity (TSized 1 1) 10 ;; v_push (TSized 1 1) v (sized_val [7]) ;; ret v) empty_world = (Ok v, w) /\
  get_s v w = (Ok o, w) /\
  box_new_with (emplacable_of_vec 1 1 o) w = (Ok r, w1) /\
  box_drop (TSlice 1 1) r w1 = (UB UbDealloc, w2).
Proof. do 6 eexists. do 3 (split; [run|]). run. Qed.

(** C43: [with_emplacable_for]: a closure that drops the emplacable and then panics makes the value be dropped twice. *)
Theorem C43_double_drop_refuted : exists w,
  with_emplacable_for TStr ab (fun e => emplacable_drop e ;; panic (A := unit) (PUser 0)) empty_world = (Panic (PUser 0), w) /\
  w_drops w = [ab; ab].
Proof. eexists. do 1 (split; [run|]). run. Qed.

(** C46: slices of zero-sized elements lose their length (helper.rs:21-24). *)
Theorem C46_zst_slice_refuted : exists v w,
  v_of_values (TSlice 0 1) [Value (MLen 3) []] empty_world = (Ok v, w) /\
  shows (TSlice 0 1) v [Value (MLen 0) []] w.
Proof. do 2 eexists. do 1 (split; [run|]). run. Qed.

(** C38/C50 for CStr: [T::ALIGN] is the alignment of a reference (marker.rs:42), so a popped CStr is boxed in an allocation
    with alignment 8, which the box then frees with alignment 1. *)
Theorem C52_cstr_box_refuted : exists v w r w1 w2,
  v_of_values TCStr [str_val [97; 0]] empty_world = (Ok v, w) /\
  (e <- v_pop_into TCStr v ;; match e with Some e => box_new_with e | None => panic (PUser 0) end) w = (Ok r, w1) /\
  read_value TCStr r w1 = (Ok (str_val [97; 0]), w1) /\
  box_drop TCStr r w1 = (UB UbDealloc, w2).
Proof. do 5 eexists. do 3 (split; [run|]). run. Qed.

Print Assumptions C02_push_debug_refuted.
Print Assumptions C16_byte_len_refuted.
Print Assumptions C50_push_after_shrink_refuted.
Print Assumptions C03_push_zst_refuted.
Print Assumptions C06_insert_str_refuted.
Print Assumptions C06_insert_dyn_refuted.
Print Assumptions C07_insert_with_end_refuted.
Print Assumptions C06_insert_end_refuted.
Print Assumptions C08_remove_last_refuted.
Print Assumptions C27_remove_last_refuted.
Print Assumptions C37_move_last_refuted.
Print Assumptions C11_both_ends_str_refuted.
Print Assumptions C11_both_ends_dyn_refuted.
Print Assumptions C12_nth_refuted.
Print Assumptions C12_last_refuted.
Print Assumptions C13_overlap_refuted.
Print Assumptions C15_misaligned_refuted.
Print Assumptions C18_reserve_bytes_sized_refuted.
Print Assumptions C18_reserve_align_refuted.
Print Assumptions C20_push_with_refuted.
Print Assumptions C21_try_reserve_debug_refuted.
Print Assumptions C22_with_capacity_refuted.
Print Assumptions C22_with_capacity_sized_refuted.
Print Assumptions C23_shrink_to_fit_refuted.
Print Assumptions C24_shrink_to_fit_refuted.
Print Assumptions C25_shrink_to_refuted.
Print Assumptions C29_double_drop_refuted.
Print Assumptions C29_lost_element_refuted.
Print Assumptions C31_unsize_dyn_refuted.
Print Assumptions C31_unsize_slice_refuted.
Print Assumptions C32_clone_zst_refuted.
Print Assumptions C36_extend_zst_refuted.
Print Assumptions C40_copy_slice_refuted.
Print Assumptions C40_copy_slice_ub_refuted.
Print Assumptions C41_vec_box_refuted.
Print Assumptions C43_double_drop_refuted.
Print Assumptions C46_zst_slice_refuted.
Print Assumptions C52_cstr_box_refuted.
