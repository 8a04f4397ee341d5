(** src/inner/aligned.rs: the implementation for slices, str and CStr. *)
From Coq Require Import ZArith List Bool.
From Verif Require Import Types World ValidSize Emplace SizedVec.
Import ListNotations.
Open Scope Z_scope.
Open Scope m_scope.

(** The end offset of the last entry, or zero. *)
Definition last_end (infos : list info) : Z := last (map i_end infos) 0.

Section WithConfig.
Context {C : Config}.

(** [T::ALIGN] is [static_align t]; sizes are [ValidSize<T>]. *)
Notation al t := (static_align t).

(** src/inner/aligned.rs:52-56 [byte_len]. *)
Definition a_byte_len (v : avec) : Z := last_end (av_infos v).

(** src/inner/aligned.rs:64-72 [start_offset_of_unchecked]. *)
Definition a_start_offset (v : avec) (index : nat) : M Z :=
  match index with
  | O => ret 0
  | S k => match nth_error (av_infos v) k with
           | Some i => ret (i_end i)
           | None => ub UbIndex
           end
  end.

(** src/inner/aligned.rs:127-134 [NEW_ALIGN_1], [NEW_ALIGN_PTR]. *)
Definition a_new (t : ty) : avec := AVec (Raw (al t)) 0 [] 0.

(** src/inner/aligned.rs:157-164 [try_reserve], [try_reserve_exact]. *)
Definition a_reserve (t : ty) (self : nat) (additional : Z) (exact : bool) : M rres :=
  v <- get_a self ;;
  '(r, icap) <- infos_reserve t (av_icap v) (zlen (av_infos v)) additional exact ;;
  set_obj self (OA (AVec (av_ptr v) (av_bcap v) (av_infos v) icap)) ;;
  ret r.

(** src/inner/aligned.rs:167-205 [try_reserve_additional_bytes_align]. *)
Definition a_try_reserve_bytes (t : ty) (self : nat) (additional_bytes : Z) : M rres :=
  v <- get_a self ;;
  let old_cap := av_bcap v in
  if 0 <? additional_bytes then
    match (if old_cap + additional_bytes <=? usize_max then vs_new (al t) (old_cap + additional_bytes) else None) with
    | None => ret (RErr CapacityOverflow)
    | Some new_cap =>
        let new_layout := vs_layout (al t) new_cap in
        r <- (if old_cap =? 0 then galloc new_layout
              else ggrow (av_ptr v) (vs_layout (al t) old_cap) new_layout) ;;
        match r with
        | None => ret (RErr AllocError)
        | Some p =>
            set_obj self (OA (AVec p (vs_new_squished (al t) (l_size new_layout)) (av_infos v) (av_icap v))) ;;
            ret ROk
        end
    end
  else ret ROk.

(** src/inner/aligned.rs:208-240 [shrink_capacity_bytes_align_to]. *)
Definition a_shrink (t : ty) (self : nat) (min_capacity byte_capacity : Z) : M unit :=
  v <- get_a self ;;
  icap <- infos_shrink (av_icap v) (zlen (av_infos v)) min_capacity ;;
  let v := AVec (av_ptr v) (av_bcap v) (av_infos v) icap in
  set_obj self (OA v) ;;
  let old_cap := av_bcap v in
  let new_cap := Z.max (a_byte_len v) byte_capacity in
  if new_cap <? old_cap then
    new_cap <- vs_new_unchecked (al t) new_cap ;;
    if new_cap =? 0 then
      gdealloc (av_ptr v) (vs_layout (al t) old_cap) ;;
      set_obj self (OA (AVec (Raw (al t)) 0 (av_infos v) (av_icap v)))
    else
      r <- gshrink (av_ptr v) (vs_layout (al t) old_cap) (vs_layout (al t) new_cap) ;;
      match r with
      | Some p => set_obj self (OA (AVec p (vs_new_squished (al t) new_cap) (av_infos v) (av_icap v)))
      | None => ret tt
      end
  else ret tt.

(** The loop [for ElementInfo { end_offset, .. } in elems_info.get_unchecked_mut(index..)] adding/subtracting [d]. *)
Definition infos_add_from (align : Z) (infos : list info) (index : nat) (d : Z) : M (list info) :=
  if Nat.leb index (length infos) then
    tl <- mapM (fun i => e <- vs_unchecked_add align (i_end i) d ;; ret (Info (i_rem i) e)) (skipn index infos) ;;
    ret (firstn index infos ++ tl)
  else ub UbIndex.
Definition infos_sub_from (align : Z) (infos : list info) (index : nat) (d : Z) : M (list info) :=
  if Nat.leb index (length infos) then
    tl <- mapM (fun i => e <- vs_unchecked_sub align (i_end i) d ;; ret (Info (i_rem i) e)) (skipn index infos) ;;
    ret (firstn index infos ++ tl)
  else ub UbIndex.

(** src/inner/aligned.rs:242-279 [insert_unchecked]. Note [add(index)] at line 254. *)
Definition a_insert_unchecked (t : ty) (self index : nat) (x : value) (size : Z) : M unit :=
  owned x (
    v <- get_a self ;;
    dassert (zlen (av_infos v) <? av_icap v) ;;
    dassert (a_byte_len v + size <=? av_bcap v) ;;
    let metadata := from_metadata t (v_meta x) in
    start_offset <- a_start_offset v index ;;
    how_much <- vs_unchecked_sub (al t) (a_byte_len v) start_offset ;;
    start_ptr <- ptr_add (av_ptr v) (Z.of_nat index) ;;
    dst <- ptr_add start_ptr size ;;
    mem_copy start_ptr dst how_much ;;
    mem_write start_ptr (v_bytes x) ;;
    infos <- infos_add_from (al t) (av_infos v) index size ;;
    e <- vs_unchecked_add (al t) start_offset size ;;
    infos' <- infos_insert infos (av_icap v) index (Info metadata e) ;;
    set_obj self (OA (AVec (av_ptr v) (av_bcap v) infos' (av_icap v)))).

(** src/inner/aligned.rs:281-381 [insert_with_unchecked]. *)
Definition a_insert_with_unchecked (t : ty) (self index : nat) (e : emplacable) : M unit :=
  v0 <- get_a self ;;
  on_unwind (dassert (Nat.leb index (length (av_infos v0)))) (emplacable_drop e) ;;
  e (fun l metadata inner =>
    size <- vs_new_unchecked (al t) (l_size l) ;;
    r <- a_reserve t self 1 false ;;
    r <- (match r with ROk => a_try_reserve_bytes t self (l_size l) | RErr _ => ret r end) ;;
    unwrap_try_reserve_result r ;;
    v <- get_a self ;;
    start_offset <- a_start_offset v index ;;
    p <- ptr_add (av_ptr v) start_offset ;;
    n <- vs_unchecked_sub (al t) (a_byte_len v) start_offset ;;
    q <- ptr_add p size ;;
    mem_copy p q n ;;
    on_unwind (inner p) (q' <- ptr_add p size ;; mem_copy q' p n) ;;
    v' <- get_a self ;;
    infos <- infos_add_from (al t) (av_infos v') index size ;;
    e <- vs_unchecked_add (al t) start_offset size ;;
    infos' <- infos_insert infos (av_icap v') index (Info (from_metadata t metadata) e) ;;
    set_obj self (OA (AVec (av_ptr v') (av_bcap v') infos' (av_icap v')))).

(** The inner closure of src/inner/aligned.rs:422-440 and 570-587. *)
Definition a_take (t : ty) (p : ptr) (metadata : meta) (size : Z) : inner_fn := fun out =>
  if is_null out then drop_in_place t (Wide p metadata) else mem_copy_no p out size.

(** src/inner/aligned.rs:383-468 [remove_into_unchecked]. *)
Definition a_remove_into_unchecked (t : ty) (self index : nat) (E : emplacer) : M unit :=
  v <- get_a self ;;
  dassert (Nat.ltb index (length (av_infos v))) ;;
  match nth_error (av_infos v) index with
  | None => ub UbIndex
  | Some i =>
      start_offset <- a_start_offset v index ;;
      size <- vs_unchecked_sub (al t) (i_end i) start_offset ;;
      let metadata := as_metadata t (i_rem i) size in
      p <- ptr_add (av_ptr v) start_offset ;;
      E (vs_layout (al t) size) metadata (a_take t p metadata size) ;;
      v' <- get_a self ;;
      let infos := firstn index (av_infos v') ++ skipn (S index) (av_infos v') in
      infos' <- infos_sub_from (al t) infos index size ;;
      set_obj self (OA (AVec (av_ptr v') (av_bcap v') infos' (av_icap v'))) ;;
      how_much <- vs_unchecked_sub (al t) (last_end infos') start_offset ;;
      q <- ptr_add p size ;;
      mem_copy q p how_much
  end.

(** src/inner/aligned.rs:470-494 [push_unchecked]. *)
Definition a_push_unchecked (t : ty) (self : nat) (x : value) (size : Z) : M unit :=
  owned x (
    v <- get_a self ;;
    dassert (zlen (av_infos v) <? av_icap v) ;;
    dassert (a_byte_len v + size <=? av_bcap v) ;;
    let metadata := from_metadata t (v_meta x) in
    let start_offset := a_byte_len v in
    p <- ptr_add (av_ptr v) start_offset ;;
    mem_write p (v_bytes x) ;;
    e <- vs_unchecked_add (al t) start_offset size ;;
    infos' <- infos_push (av_infos v) (av_icap v) (Info metadata e) ;;
    set_obj self (OA (AVec (av_ptr v) (av_bcap v) infos' (av_icap v)))).

(** src/inner/aligned.rs:496-534 [push_with]. *)
Definition a_push_with (t : ty) (self : nat) (e : emplacable) : M unit :=
  e (fun l metadata inner =>
    size <- vs_new_unchecked (al t) (l_size l) ;;
    r <- a_reserve t self 1 false ;;
    r <- (match r with ROk => a_try_reserve_bytes t self (l_size l) | RErr _ => ret r end) ;;
    unwrap_try_reserve_result r ;;
    v <- get_a self ;;
    let start_offset := a_byte_len v in
    p <- ptr_add (av_ptr v) start_offset ;;
    inner p ;;
    e <- vs_unchecked_add (al t) start_offset size ;;
    v' <- get_a self ;;
    infos' <- infos_push (av_infos v') (av_icap v') (Info (from_metadata t metadata) e) ;;
    set_obj self (OA (AVec (av_ptr v') (av_bcap v') infos' (av_icap v')))).

(** src/inner/aligned.rs:536-588 [pop_into_unchecked]. *)
Definition a_pop_into_unchecked (t : ty) (self : nat) (E : emplacer) : M unit :=
  v <- get_a self ;;
  dassert (negb (Nat.eqb (length (av_infos v)) 0)) ;;
  match rev (av_infos v) with
  | [] => ub UbIndex
  | i :: r =>
      let v := AVec (av_ptr v) (av_bcap v) (rev r) (av_icap v) in
      set_obj self (OA v) ;;
      let start_offset := a_byte_len v in
      size <- vs_unchecked_sub (al t) (i_end i) start_offset ;;
      let metadata := as_metadata t (i_rem i) size in
      p <- ptr_add (av_ptr v) start_offset ;;
      E (vs_layout (al t) size) metadata (a_take t p metadata size)
  end.

(** src/inner/aligned.rs:596-618 [get_unchecked_raw]. *)
Definition a_get_unchecked_raw (t : ty) (self index : nat) : M wide :=
  v <- get_a self ;;
  dassert (Nat.ltb index (length (av_infos v))) ;;
  start_offset <- a_start_offset v index ;;
  match nth_error (av_infos v) index with
  | None => ub UbIndex
  | Some i =>
      size <- vs_unchecked_sub (al t) (i_end i) start_offset ;;
      p <- ptr_add (av_ptr v) start_offset ;;
      ret (Wide p (as_metadata t (i_rem i) size))
  end.

(** [collect] of an iterator of known length into the element infos (src/inner/aligned.rs:659-667, unaligned.rs:1051-1060):
    one allocation of exactly [len] entries, made before the first entry. *)
Definition infos_collect (t : ty) (len : Z) : M unit :=
  if len =? 0 then ret tt
  else if len * info_size t <=? isize_max - 7 then
    ok <- ask_alloc ;; if (ok : bool) then ret tt else handle_alloc_error
  else panic PCapacity.

(** src/inner/aligned.rs:639-677 [from_sized]: [self] is a std [Vec<S>] with [S = TSized ssize salign]; [m] is the metadata
    of the coerced pointer. The old vector is taken out of its place first ([ManuallyDrop], line 643): if collecting the
    infos unwinds, nothing drops it. Note line 660-664: [index * size_of::<S>()]. *)
Definition from_sized_infos (t : ty) (m : meta) (ssize : Z) (len : nat) : M (list info) :=
  mapM (fun index => o <- umul (Z.of_nat index) ssize ;; e <- vs_new_unchecked (al t) o ;;
                     ret (Info (from_metadata t m) e)) (seq 0 len).
Definition a_from_sized (t : ty) (m : meta) (ssize salign : Z) (self : nat) : M unit :=
  v <- get_s self ;;
  set_obj self ODead ;;
  let cap := if ssize =? 0 then usize_max else sv_cap v in
  bc <- umul cap ssize ;;
  bc <- vs_new_unchecked (al t) bc ;;
  infos_collect t (sv_len v) ;;
  infos <- from_sized_infos t m ssize (Z.to_nat (sv_len v)) ;;
  set_obj self (OA (AVec (sv_ptr v) bc infos (sv_len v))).

(** src/inner/aligned.rs:686-809: the iterators. *)
Record aiter := AIter { ai_infos : list info; ai_ptr : ptr; ai_start : Z }.
Definition a_iter (self : nat) : M aiter :=
  v <- get_a self ;; ret (AIter (av_infos v) (av_ptr v) 0).

(** Shared tail of [next], [nth], [next_back]: the reference to an element with these offsets. *)
Definition a_item (t : ty) (p : ptr) (start_offset : Z) (i : info) : M wide :=
  size <- vs_unchecked_sub (al t) (i_end i) start_offset ;;
  q <- ptr_add p start_offset ;;
  make_ref t (Wide q (as_metadata t (i_rem i) size)).

(** 698-719 [next]. *)
Definition a_next (t : ty) (it : aiter) : M (option wide * aiter) :=
  match ai_infos it with
  | [] => ret (None, it)
  | i :: r =>
      x <- a_item t (ai_ptr it) (ai_start it) i ;;
      ret (Some x, AIter r (ai_ptr it) (i_end i))
  end.

(** 732-760 [nth]: [slice::Iter::nth(n - 1)] skips [n] entries (all of them when there are fewer). *)
Definition a_nth (t : ty) (it : aiter) (n : nat) : M (option wide * aiter) :=
  let start_offset :=
    match n with
    | O => 0
    | S k => match nth_error (ai_infos it) k with Some i => i_end i | None => 0 end
    end in
  match skipn n (ai_infos it) with
  | [] => ret (None, AIter [] (ai_ptr it) (ai_start it))
  | i :: r =>
      x <- a_item t (ai_ptr it) start_offset i ;;
      ret (Some x, AIter r (ai_ptr it) (i_end i))
  end.

(** 763-765 [last]. *)
Definition a_last (t : ty) (it : aiter) : M (option wide) :=
  match length (ai_infos it) with
  | O => ret None
  | S k => '(x, _) <- a_nth t it k ;; ret x
  end.

(** 770-794 [next_back]. *)
Definition a_next_back (t : ty) (it : aiter) : M (option wide * aiter) :=
  match rev (ai_infos it) with
  | [] => ret (None, it)
  | i :: r =>
      let rest := rev r in
      x <- a_item t (ai_ptr it) (last_end rest) i ;;
      ret (Some x, AIter rest (ai_ptr it) (ai_start it))
  end.

(** src/inner/aligned.rs:75-112 [Drop]. A panicking destructor leaks what follows. *)
Fixpoint a_drop_elems (t : ty) (p : ptr) (start_offset : Z) (infos : list info) : M unit :=
  match infos with
  | [] => ret tt
  | i :: r =>
      size <- vs_unchecked_sub (al t) (i_end i) start_offset ;;
      q <- ptr_add p start_offset ;;
      drop_in_place t (Wide q (as_metadata t (i_rem i) size)) ;;
      a_drop_elems t p (i_end i) r
  end.
Definition a_drop (t : ty) (self : nat) : M unit :=
  v <- get_a self ;;
  set_obj self ODead ;;
  a_drop_elems t (av_ptr v) 0 (av_infos v) ;;
  gdealloc (av_ptr v) (vs_layout (al t) (av_bcap v)).

End WithConfig.
