(** src/inner/sized.rs: the implementation for Sized element types, over std's [Vec<T>].

    Of std only what the source uses is modelled: [RawVec]'s growth policy ([try_reserve]: amortised,
    [try_reserve_exact]: exact), [shrink_to], pointer and length. *)
From Coq Require Import ZArith List Bool.
From Verif Require Import Types World ValidSize Emplace.
Import ListNotations.
Open Scope Z_scope.
Open Scope m_scope.

(** std [RawVec::min_non_zero_cap]. *)
Definition min_non_zero_cap (esize : Z) : Z :=
  if esize =? 1 then 8 else if esize <=? 1024 then 4 else 1.

(** std [RawVec::grow_amortized] / [grow_exact]: the new capacity, or an overflow error. *)
Definition grow_cap (esize ealign cap len additional : Z) (exact : bool) : option Z :=
  if esize =? 0 then None
  else
    let required := len + additional in
    if required <=? usize_max then
      let cap' := if exact then required
                  else Z.max (min_non_zero_cap esize) (Z.max (2 * cap) required) in
      if cap' * esize <=? isize_max - (ealign - 1) then Some cap' else None
    else None.

(** std [RawVec::needs_to_grow]. *)
Definition needs_to_grow (cap len additional : Z) : bool := cap - len <? additional.

Section WithConfig.
Context {C : Config}.

(** src/lib.rs:129-143 [unwrap_try_reserve_result]. *)
Definition unwrap_try_reserve_result (r : rres) : M unit :=
  match r with
  | ROk => ret tt
  | RErr CapacityOverflow => panic PCapacity
  | RErr AllocError => handle_alloc_error
  end.

(** The element-info [Vec] of the unsized implementations: [try_reserve]/[try_reserve_exact] on a [Vec] of [len] entries
    with capacity [icap]; returns the new capacity. Its block is not part of the modelled heap; the allocator is asked. *)
Definition ask_alloc : M bool := fun w =>
  (Ok (match cfg_alloc (w_nalloc w) with None => false | Some _ => true end), bump_alloc w).
Definition infos_reserve (t : ty) (icap len additional : Z) (exact : bool) : M (rres * Z) :=
  if needs_to_grow icap len additional then
    match grow_cap (info_size t) 8 icap len additional exact with
    | None => ret (RErr CapacityOverflow, icap)
    | Some c => ok <- ask_alloc ;; if (ok : bool) then ret (ROk, c) else ret (RErr AllocError, icap)
    end
  else ret (ROk, icap).

(** std [Vec::shrink_to] on the element-info [Vec]; the allocator's failure is fatal. *)
Definition infos_shrink (icap len min_capacity : Z) : M Z :=
  if min_capacity <? icap then
    let c := Z.max len min_capacity in
    if icap =? 0 then ret icap
    else if c =? 0 then ret 0
    else ok <- ask_alloc ;; if (ok : bool) then ret c else handle_alloc_error
  else ret icap.

(** src/inner/sized.rs:227-236 and 95-107 as used on the element-info [Vec] (by src/inner/aligned.rs and unaligned.rs):
    [push_unchecked] and [insert_unchecked] of one entry. Writing past the capacity is undefined behaviour. *)
Definition infos_push (infos : list info) (icap : Z) (x : info) : M (list info) :=
  dassert (zlen infos <? icap) ;;
  if zlen infos <? icap then ret (infos ++ [x]) else ub UbCapacity.
Definition infos_insert (infos : list info) (icap : Z) (index : nat) (x : info) : M (list info) :=
  dassert (zlen infos <? icap) ;;
  if (zlen infos <? icap) && Nat.leb index (length infos)
  then ret (firstn index infos ++ x :: skipn index infos) else ub UbCapacity.

(** The size and alignment of Sized [t]. *)
Definition s_size (t : ty) : Z := size_of_val t MUnit.
Definition s_align (t : ty) : Z := align_of_val t MUnit.

(** [Vec::new] (src/inner/sized.rs:31-32). *)
Definition s_new (t : ty) : svec := SVec (Raw (s_align t)) 0 0.

(** src/inner/sized.rs:34-37 [capacity]. *)
Definition s_capacity (t : ty) (v : svec) : Z := if s_size t =? 0 then usize_max else sv_cap v.
(** src/inner/sized.rs:40-43, 46-49. *)
Definition s_byte_capacity (t : ty) (v : svec) : M Z := umul (s_capacity t v) (s_size t).
Definition s_byte_len (t : ty) (v : svec) : M Z := umul (sv_len v) (s_size t).

(** std [Vec::try_reserve] / [try_reserve_exact] (src/inner/sized.rs:57-64). *)
Definition s_reserve (t : ty) (self : nat) (additional : Z) (exact : bool) : M rres :=
  v <- get_s self ;;
  if needs_to_grow (s_capacity t v) (sv_len v) additional then
    match grow_cap (s_size t) (s_align t) (sv_cap v) (sv_len v) additional exact with
    | None => ret (RErr CapacityOverflow)
    | Some c =>
        let new := Layout (c * s_size t) (s_align t) in
        r <- (if sv_cap v =? 0 then galloc new
              else ggrow (sv_ptr v) (Layout (sv_cap v * s_size t) (s_align t)) new) ;;
        match r with
        | None => ret (RErr AllocError)
        | Some p => set_obj self (OS (SVec p c (sv_len v))) ;; ret ROk
        end
    end
  else ret ROk.

(** [usize::div_ceil]; panics when the divisor is zero. *)
Definition div_ceil (a b : Z) : M Z :=
  if b =? 0 then panic PDivZero else ret ((a + b - 1) / b).
Definition sat_add (a b : Z) : Z := Z.min usize_max (a + b).
Definition sat_sub (a b : Z) : Z := Z.max 0 (a - b).

(** src/inner/sized.rs:67-78 [try_reserve_additional_bytes_align]. *)
Definition s_try_reserve_bytes (t : ty) (self : nat) (additional_bytes : Z) : M rres :=
  v <- get_s self ;;
  free <- usub (s_capacity t v) (sv_len v) ;;
  needed <- div_ceil (sat_add additional_bytes free) (s_size t) ;;
  s_reserve t self (sat_sub needed free) true.

(** src/inner/sized.rs:81-92 [shrink_capacity_bytes_align_to], with std's [Vec::shrink_to]. *)
Definition s_shrink (t : ty) (self : nat) (min_capacity min_byte_capacity : Z) : M unit :=
  v <- get_s self ;;
  k <- div_ceil min_byte_capacity (s_size t) ;;
  let min_capacity := Z.max min_capacity k in
  if min_capacity <? s_capacity t v then
    let c := Z.max (sv_len v) min_capacity in
    if (s_size t =? 0) || (sv_cap v =? 0) then ret tt
    else
      r <- gshrink (sv_ptr v) (Layout (sv_cap v * s_size t) (s_align t)) (Layout (c * s_size t) (s_align t)) ;;
      match r with
      | None => handle_alloc_error
      | Some p => set_obj self (OS (SVec p c (sv_len v)))
      end
  else ret tt.

(** [ptr.add(n)] on a [*mut T]. *)
Definition elem_add (t : ty) (p : ptr) (n : Z) : M ptr := ptr_add p (n * s_size t).

(** src/inner/sized.rs:95-107 [insert_unchecked]. *)
Definition s_insert_unchecked (t : ty) (self index : nat) (x : value) : M unit :=
  owned x (
    v <- get_s self ;;
    dassert (sv_len v <? s_capacity t v) ;;
    how_much <- usub (sv_len v) (Z.of_nat index) ;;
    start <- elem_add t (sv_ptr v) (Z.of_nat index) ;;
    next <- elem_add t start 1 ;;
    mem_copy start next (how_much * s_size t) ;;
    mem_write start (v_bytes x) ;;
    len <- uadd (sv_len v) 1 ;;
    set_obj self (OS (SVec (sv_ptr v) (sv_cap v) len))).

(** src/inner/sized.rs:109-175 [insert_with_unchecked]. *)
Definition s_insert_with_unchecked (t : ty) (self index : nat) (e : emplacable) : M unit :=
  v0 <- get_s self ;;
  on_unwind (dassert (Z.of_nat index <=? sv_len v0)) (emplacable_drop e) ;;
  e (fun _ _ inner =>
    r <- s_reserve t self 1 true ;;
    unwrap_try_reserve_result r ;;
    v <- get_s self ;;
    p <- elem_add t (sv_ptr v) (Z.of_nat index) ;;
    n <- usub (sv_len v) (Z.of_nat index) ;;
    q <- elem_add t p 1 ;;
    mem_copy p q (n * s_size t) ;;
    on_unwind (inner p) (q' <- elem_add t p 1 ;; mem_copy q' p (n * s_size t)) ;;
    v' <- get_s self ;;
    len <- uadd (sv_len v') 1 ;;
    set_obj self (OS (SVec (sv_ptr v') (sv_cap v') len))).

(** The inner closure of src/inner/sized.rs:202-215 and 279-292: copies the element out, or drops it in place. *)
Definition s_take (t : ty) (p : ptr) : inner_fn := fun out =>
  if is_null out then drop_in_place t (Wide p MUnit) else mem_copy_no p out (s_size t).

(** src/inner/sized.rs:177-224 [remove_into_unchecked]. *)
Definition s_remove_into_unchecked (t : ty) (self index : nat) (E : emplacer) : M unit :=
  v <- get_s self ;;
  dassert (Z.of_nat index <? sv_len v) ;;
  new_len <- usub (sv_len v) 1 ;;
  set_obj self (OS (SVec (sv_ptr v) (sv_cap v) new_len)) ;;
  p <- elem_add t (sv_ptr v) (Z.of_nat index) ;;
  n <- usub new_len (Z.of_nat index) ;;
  E (Layout (s_size t) (s_align t)) MUnit (s_take t p) ;;
  q <- elem_add t p 1 ;;
  mem_copy q p (n * s_size t).

(** src/inner/sized.rs:227-236 [push_unchecked]. *)
Definition s_push_unchecked (t : ty) (self : nat) (x : value) : M unit :=
  owned x (
    v <- get_s self ;;
    dassert (sv_len v <? s_capacity t v) ;;
    p <- elem_add t (sv_ptr v) (sv_len v) ;;
    mem_write p (v_bytes x) ;;
    len <- uadd (sv_len v) 1 ;;
    set_obj self (OS (SVec (sv_ptr v) (sv_cap v) len))).

(** src/inner/sized.rs:238-258 [push_with]. *)
Definition s_push_with (t : ty) (self : nat) (e : emplacable) : M unit :=
  e (fun _ _ inner =>
    r <- s_reserve t self 1 false ;;
    unwrap_try_reserve_result r ;;
    v <- get_s self ;;
    p <- elem_add t (sv_ptr v) (sv_len v) ;;
    inner p ;;
    v' <- get_s self ;;
    len <- uadd (sv_len v') 1 ;;
    set_obj self (OS (SVec (sv_ptr v') (sv_cap v') len))).

(** src/inner/sized.rs:260-294 [pop_into_unchecked]. *)
Definition s_pop_into_unchecked (t : ty) (self : nat) (E : emplacer) : M unit :=
  v <- get_s self ;;
  dassert (negb (sv_len v =? 0)) ;;
  new_len <- usub (sv_len v) 1 ;;
  set_obj self (OS (SVec (sv_ptr v) (sv_cap v) new_len)) ;;
  p <- elem_add t (sv_ptr v) new_len ;;
  E (Layout (s_size t) (s_align t)) MUnit (s_take t p).

(** src/inner/sized.rs:302-307 [get_unchecked_raw]. *)
Definition s_get_unchecked_raw (t : ty) (self index : nat) : M wide :=
  v <- get_s self ;;
  dassert (Z.of_nat index <? sv_len v) ;;
  p <- elem_add t (sv_ptr v) (Z.of_nat index) ;;
  ret (Wide p MUnit).

(** std's slice iterator over the elements [si_lo .. si_hi) of the buffer [si_ptr] (src/inner/sized.rs:310-319). *)
Record siter := SIter { si_ptr : ptr; si_lo : Z; si_hi : Z }.
Definition s_iter (self : nat) : M siter :=
  v <- get_s self ;; ret (SIter (sv_ptr v) 0 (sv_len v)).
Definition s_item (t : ty) (it : siter) (i : Z) : M wide :=
  p <- elem_add t (si_ptr it) i ;; make_ref t (Wide p MUnit).
Definition s_next (t : ty) (it : siter) : M (option wide * siter) :=
  if si_lo it <? si_hi it then
    r <- s_item t it (si_lo it) ;; ret (Some r, SIter (si_ptr it) (si_lo it + 1) (si_hi it))
  else ret (None, it).
Definition s_next_back (t : ty) (it : siter) : M (option wide * siter) :=
  if si_lo it <? si_hi it then
    r <- s_item t it (si_hi it - 1) ;; ret (Some r, SIter (si_ptr it) (si_lo it) (si_hi it - 1))
  else ret (None, it).
Definition s_nth (t : ty) (it : siter) (n : nat) : M (option wide * siter) :=
  if Z.of_nat n <? si_hi it - si_lo it then
    s_next t (SIter (si_ptr it) (si_lo it + Z.of_nat n) (si_hi it))
  else ret (None, SIter (si_ptr it) (si_hi it) (si_hi it)).

(** Dropping a std [Vec]: the elements in order (the rest also when one unwinds), then the buffer. *)
Fixpoint s_drop_elems (t : ty) (p : ptr) (i : Z) (n : nat) : M unit :=
  match n with
  | O => ret tt
  | S k =>
      on_unwind (q <- elem_add t p i ;; drop_in_place t (Wide q MUnit)) (s_drop_elems t p (i + 1) k) ;;
      s_drop_elems t p (i + 1) k
  end.
Definition s_drop (t : ty) (self : nat) : M unit :=
  v <- get_s self ;;
  set_obj self ODead ;;
  let free := gdealloc (sv_ptr v) (Layout (sv_cap v * s_size t) (s_align t)) in
  on_unwind (s_drop_elems t (sv_ptr v) 0 (Z.to_nat (sv_len v))) free ;;
  free.

End WithConfig.
