(** src/lib.rs: the public API of [UnsizedVec<T>], dispatching on the implementation selected by [T]. *)
From Coq Require Import ZArith List Bool.
From Verif Require Import Types World ValidSize Emplace SizedVec AlignedVec UnalignedVec.
Import ListNotations.
Open Scope Z_scope.
Open Scope m_scope.

Section WithConfig.
Context {C : Config}.

(** src/lib.rs:113-125 [to_align]; for statically aligned [T] the alignment type is [()] and any argument is accepted
    (src/inner.rs:43-48). *)
Definition to_align (t : ty) (align : Z) : M Z :=
  match kind_of t with
  | KUnaligned => match valid_align_new align with Some a => ret a | None => panic PBadAlign end
  | _ => ret 1
  end.

(** src/lib.rs:265-269 [new]; 1179-1186 [Default]. *)
Definition v_new (t : ty) : M nat :=
  match kind_of t with
  | KSized => new_obj (OS (s_new t))
  | KAligned => new_obj (OA (a_new t))
  | KUnaligned => new_obj (OU u_new_align_ptr)
  end.
Definition v_new_align_1 (t : ty) : M nat :=
  match kind_of t with
  | KSized => new_obj (OS (s_new t))
  | KAligned => new_obj (OA (a_new t))
  | KUnaligned => new_obj (OU u_new_align_1)
  end.

(** src/lib.rs:323-354 [capacity], [byte_capacity], [align]; 1061-1077 [len], [byte_len], [is_empty]. *)
Definition v_capacity (t : ty) (self : nat) : M Z :=
  match kind_of t with
  | KSized => v <- get_s self ;; ret (s_capacity t v)
  | KAligned => v <- get_a self ;; ret (av_icap v)
  | KUnaligned => v <- get_u self ;; ret (uv_icap v)
  end.
Definition v_byte_capacity (t : ty) (self : nat) : M Z :=
  match kind_of t with
  | KSized => v <- get_s self ;; s_byte_capacity t v
  | KAligned => v <- get_a self ;; ret (av_bcap v)
  | KUnaligned => v <- get_u self ;; ret (uv_bcap v)
  end.
Definition v_align (t : ty) (self : nat) : M Z :=
  match kind_of t with
  | KSized => v <- get_s self ;; ret (s_align t)
  | KAligned => v <- get_a self ;; ret (static_align t)
  | KUnaligned => v <- get_u self ;; ret (uv_align v)
  end.
Definition v_len (t : ty) (self : nat) : M Z :=
  match kind_of t with
  | KSized => v <- get_s self ;; ret (sv_len v)
  | KAligned => v <- get_a self ;; ret (zlen (av_infos v))
  | KUnaligned => v <- get_u self ;; ret (zlen (uv_infos v))
  end.
Definition v_byte_len (t : ty) (self : nat) : M Z :=
  match kind_of t with
  | KSized => v <- get_s self ;; s_byte_len t v
  | KAligned => v <- get_a self ;; ret (a_byte_len v)
  | KUnaligned => v <- get_u self ;; u_aligned_byte_len v
  end.
Definition v_is_empty (t : ty) (self : nat) : M bool := n <- v_len t self ;; ret (n =? 0).

(** src/lib.rs:1170-1173 [unused_byte_cap]. *)
Definition unused_byte_cap (t : ty) (self : nat) : M Z :=
  c <- v_byte_capacity t self ;; n <- v_byte_len t self ;; usub c n.

(** Dispatch to the providers (src/inner.rs:95-206). *)
Definition p_try_reserve (t : ty) (self : nat) (additional : Z) (exact : bool) : M rres :=
  match kind_of t with
  | KSized => s_reserve t self additional exact
  | KAligned => a_reserve t self additional exact
  | KUnaligned => u_reserve t self additional exact
  end.
Definition p_try_reserve_bytes_align (t : ty) (self : nat) (additional_bytes align : Z) : M rres :=
  match kind_of t with
  | KSized => s_try_reserve_bytes t self additional_bytes
  | KAligned => a_try_reserve_bytes t self additional_bytes
  | KUnaligned => u_try_reserve_bytes_align t self additional_bytes align
  end.
Definition p_shrink (t : ty) (self : nat) (min_capacity min_byte_capacity min_align : Z) : M unit :=
  match kind_of t with
  | KSized => s_shrink t self min_capacity min_byte_capacity
  | KAligned => a_shrink t self min_capacity min_byte_capacity
  | KUnaligned => u_shrink t self min_capacity min_byte_capacity min_align
  end.
Definition p_insert_unchecked (t : ty) (self index : nat) (x : value) (size : Z) : M unit :=
  match kind_of t with
  | KSized => s_insert_unchecked t self index x
  | KAligned => a_insert_unchecked t self index x size
  | KUnaligned => u_insert_unchecked t self index x size
  end.
Definition p_insert_with_unchecked (t : ty) (self index : nat) (e : emplacable) : M unit :=
  match kind_of t with
  | KSized => s_insert_with_unchecked t self index e
  | KAligned => a_insert_with_unchecked t self index e
  | KUnaligned => u_insert_with_unchecked t self index e
  end.
Definition p_remove_into_unchecked (t : ty) (self index : nat) (E : emplacer) : M unit :=
  match kind_of t with
  | KSized => s_remove_into_unchecked t self index E
  | KAligned => a_remove_into_unchecked t self index E
  | KUnaligned => u_remove_into_unchecked t self index E
  end.
Definition p_push_unchecked (t : ty) (self : nat) (x : value) (size : Z) : M unit :=
  match kind_of t with
  | KSized => s_push_unchecked t self x
  | KAligned => a_push_unchecked t self x size
  | KUnaligned => u_push_unchecked t self x size
  end.
Definition p_push_with (t : ty) (self : nat) (e : emplacable) : M unit :=
  match kind_of t with
  | KSized => s_push_with t self e
  | KAligned => a_push_with t self e
  | KUnaligned => u_push_with t self e
  end.
Definition p_pop_into_unchecked (t : ty) (self : nat) (E : emplacer) : M unit :=
  match kind_of t with
  | KSized => s_pop_into_unchecked t self E
  | KAligned => a_pop_into_unchecked t self E
  | KUnaligned => u_pop_into_unchecked t self E
  end.
Definition p_get_unchecked_raw (t : ty) (self index : nat) : M wide :=
  match kind_of t with
  | KSized => s_get_unchecked_raw t self index
  | KAligned => a_get_unchecked_raw t self index
  | KUnaligned => u_get_unchecked_raw t self index
  end.

(** src/lib.rs:497-499 [try_reserve]; 605-607 [try_reserve_exact]; 358-360 [reserve]. *)
Definition v_try_reserve (t : ty) (self : nat) (additional : Z) : M rres := p_try_reserve t self additional false.
Definition v_try_reserve_exact (t : ty) (self : nat) (additional : Z) : M rres := p_try_reserve t self additional true.
Definition v_reserve (t : ty) (self : nat) (additional : Z) : M unit :=
  r <- v_try_reserve t self additional ;; unwrap_try_reserve_result r.

(** src/lib.rs:547-588 [try_reserve_capacity_bytes_align]. *)
Definition v_try_reserve_capacity_bytes_align (t : ty) (self : nat) (additional additional_bytes align : Z) : M rres :=
  r <- v_try_reserve t self additional ;;
  match r with
  | RErr e => ret (RErr e)
  | ROk =>
      cap <- v_capacity t self ;;
      len <- v_len t self ;;
      dassert (len + additional <=? cap) ;;
      align <- to_align t align ;;
      byte_cap <- v_byte_capacity t self ;;
      unused <- unused_byte_cap t self ;;
      let needed_bytes := sat_sub additional_bytes unused in
      let optimist_bytes := if 0 <? needed_bytes then Z.max needed_bytes byte_cap else 0 in
      let finish :=
        r <- p_try_reserve_bytes_align t self needed_bytes align ;;
        (if cfg_debug then
           bc <- v_byte_capacity t self ;; bl <- v_byte_len t self ;; dassert (bl + additional_bytes <=? bc)
         else ret tt) ;;
        ret r in
      if needed_bytes <? optimist_bytes then
        r <- p_try_reserve_bytes_align t self optimist_bytes align ;;
        match r with
        | ROk => ret ROk
        | RErr _ => finish
        end
      else finish
  end.

(** src/lib.rs:518-526 [try_reserve_capacity_bytes]; 381-383, 405-417 [reserve_capacity_bytes(_align)]. *)
Definition v_try_reserve_capacity_bytes (t : ty) (self : nat) (additional additional_bytes : Z) : M rres :=
  v_try_reserve_capacity_bytes_align t self additional additional_bytes 1.
Definition v_reserve_capacity_bytes (t : ty) (self : nat) (additional additional_bytes : Z) : M unit :=
  r <- v_try_reserve_capacity_bytes t self additional additional_bytes ;; unwrap_try_reserve_result r.
Definition v_reserve_capacity_bytes_align (t : ty) (self : nat) (additional additional_bytes align : Z) : M unit :=
  r <- v_try_reserve_capacity_bytes_align t self additional additional_bytes align ;; unwrap_try_reserve_result r.

(** src/lib.rs:657-668 [try_reserve_exact_capacity_bytes_align]: note [self.inner.try_reserve]. 628-634, 428-481. *)
Definition v_try_reserve_exact_capacity_bytes_align (t : ty) (self : nat) (additional additional_bytes align : Z)
    : M rres :=
  r <- p_try_reserve t self additional false ;;
  match r with
  | RErr e => ret (RErr e)
  | ROk => a <- to_align t align ;; p_try_reserve_bytes_align t self additional_bytes a
  end.
Definition v_try_reserve_exact_capacity_bytes (t : ty) (self : nat) (additional additional_bytes : Z) : M rres :=
  v_try_reserve_exact_capacity_bytes_align t self additional additional_bytes 1.
Definition v_reserve_exact (t : ty) (self : nat) (additional : Z) : M unit :=
  r <- v_try_reserve_exact_capacity_bytes t self additional 0 ;; unwrap_try_reserve_result r.
Definition v_reserve_exact_capacity_bytes (t : ty) (self : nat) (additional additional_bytes : Z) : M unit :=
  r <- v_try_reserve_exact_capacity_bytes t self additional additional_bytes ;; unwrap_try_reserve_result r.
Definition v_reserve_exact_capacity_bytes_align (t : ty) (self : nat) (additional additional_bytes align : Z) : M unit :=
  r <- v_try_reserve_exact_capacity_bytes_align t self additional additional_bytes align ;;
  unwrap_try_reserve_result r.

(** Dropping the vector. *)
Definition v_drop (t : ty) (self : nat) : M unit :=
  match kind_of t with
  | KSized => s_drop t self
  | KAligned => a_drop t self
  | KUnaligned => u_drop t self
  end.

(** src/lib.rs:278-314 [with_capacity], [with_capacity_bytes], [with_capacity_bytes_align]; on unwinding the new vector is
    dropped. *)
Definition v_with_capacity (t : ty) (capacity : Z) : M nat :=
  v <- v_new t ;; on_unwind (v_reserve_exact t v capacity) (v_drop t v) ;; ret v.
Definition v_with_capacity_bytes (t : ty) (capacity byte_capacity : Z) : M nat :=
  v <- v_new t ;; on_unwind (v_reserve_exact_capacity_bytes t v capacity byte_capacity) (v_drop t v) ;; ret v.
Definition v_with_capacity_bytes_align (t : ty) (capacity byte_capacity align : Z) : M nat :=
  v <- v_new_align_1 t ;;
  on_unwind (v_reserve_exact_capacity_bytes_align t v capacity byte_capacity align) (v_drop t v) ;; ret v.

(** src/lib.rs:672-742: the shrink family; [to_align] of the alignment argument is evaluated first. *)
Definition v_shrink_capacity_bytes_align_to (t : ty) (self : nat) (min_capacity min_byte_capacity min_align : Z) : M unit :=
  a <- to_align t min_align ;; p_shrink t self min_capacity min_byte_capacity a.
Definition v_shrink_to_fit (t : ty) (self : nat) : M unit := v_shrink_capacity_bytes_align_to t self 0 0 1.
Definition v_shrink_to (t : ty) (self : nat) (min_capacity : Z) : M unit :=
  v_shrink_capacity_bytes_align_to t self min_capacity usize_max max_align.
Definition v_shrink_capacity_bytes_to (t : ty) (self : nat) (min_capacity min_byte_capacity : Z) : M unit :=
  v_shrink_capacity_bytes_align_to t self min_capacity min_byte_capacity max_align.

(** src/lib.rs:775-792 [insert]; [insert_unsize] is in Convert.v. *)
Definition v_insert (t : ty) (self index : nat) (x : value) : M unit :=
  owned x (
    len <- v_len t self ;;
    if Z.of_nat index <=? len then v_reserve_capacity_bytes_align t self 1 (vsize t x) (valign t x)
    else panic PBounds) ;;
  p_insert_unchecked t self index x (vsize t x).

(** src/lib.rs:845-859 [insert_with]. *)
Definition v_insert_with (t : ty) (self index : nat) (e : emplacable) : M unit :=
  len <- v_len t self ;;
  if Z.of_nat index <=? len then p_insert_with_unchecked t self index e
  else on_unwind (panic PBounds) (emplacable_drop e).

(** src/lib.rs:889-907 [remove_into]. *)
Definition v_remove_into (t : ty) (self index : nat) : M emplacable :=
  len <- v_len t self ;;
  if Z.of_nat index <? len then ret (fun E => p_remove_into_unchecked t self index E)
  else panic PBounds.

(** src/lib.rs:938-945 [push]; [push_unsize] is in Convert.v. *)
Definition v_push (t : ty) (self : nat) (x : value) : M unit :=
  owned x (v_reserve_capacity_bytes_align t self 1 (vsize t x) (valign t x)) ;;
  p_push_unchecked t self x (vsize t x).

(** src/lib.rs:991-993 [push_with]. *)
Definition v_push_with (t : ty) (self : nat) (e : emplacable) : M unit := p_push_with t self e.

(** src/lib.rs:1043-1055 [pop_into]. *)
Definition v_pop_into (t : ty) (self : nat) : M (option emplacable) :=
  empty <- v_is_empty t self ;;
  if (empty : bool) then ret None else ret (Some (fun E => p_pop_into_unchecked t self E)).

(** src/lib.rs:1083-1123 [get], [get_mut], [get_unchecked], [get_unchecked_mut]; 1218-1238 [Index], [IndexMut]. *)
Definition v_get_unchecked (t : ty) (self index : nat) : M wide :=
  r <- p_get_unchecked_raw t self index ;; make_ref t r.
Definition v_get (t : ty) (self index : nat) : M (option wide) :=
  len <- v_len t self ;;
  if Z.of_nat index <? len then r <- v_get_unchecked t self index ;; ret (Some r) else ret None.
Definition v_index (t : ty) (self index : nat) : M wide :=
  r <- v_get t self index ;;
  match r with Some x => ret x | None => panic PBounds end.

(** src/lib.rs:1128-1141 [iter], [iter_mut]; 1260-1369: the wrappers delegate to the provider's iterator. *)
Inductive viter := VS (it : siter) | VA (it : aiter) | VU (it : uiter).
Definition v_iter (t : ty) (self : nat) : M viter :=
  match kind_of t with
  | KSized => it <- s_iter self ;; ret (VS it)
  | KAligned => it <- a_iter self ;; ret (VA it)
  | KUnaligned => it <- u_iter self ;; ret (VU it)
  end.
Definition v_next (t : ty) (it : viter) : M (option wide * viter) :=
  match it with
  | VS it => '(x, it) <- s_next t it ;; ret (x, VS it)
  | VA it => '(x, it) <- a_next t it ;; ret (x, VA it)
  | VU it => '(x, it) <- u_next t it ;; ret (x, VU it)
  end.
Definition v_next_back (t : ty) (it : viter) : M (option wide * viter) :=
  match it with
  | VS it => '(x, it) <- s_next_back t it ;; ret (x, VS it)
  | VA it => '(x, it) <- a_next_back t it ;; ret (x, VA it)
  | VU it => '(x, it) <- u_next_back t it ;; ret (x, VU it)
  end.
Definition v_nth (t : ty) (it : viter) (n : nat) : M (option wide * viter) :=
  match it with
  | VS it => '(x, it) <- s_nth t it n ;; ret (x, VS it)
  | VA it => '(x, it) <- a_nth t it n ;; ret (x, VA it)
  | VU it => '(x, it) <- u_nth t it n ;; ret (x, VU it)
  end.
Definition v_last (t : ty) (it : viter) : M (option wide) :=
  match it with
  | VS it => if si_lo it <? si_hi it
             then '(x, _) <- s_next_back t it ;; ret x else ret None
  | VA it => a_last t it
  | VU it => u_last t it
  end.
(** [ExactSizeIterator::len], [size_hint], [count]. *)
Definition v_iter_len (it : viter) : nat :=
  match it with
  | VS it => Z.to_nat (si_hi it - si_lo it)
  | VA it => length (ai_infos it)
  | VU it => length (ui_infos it)
  end.

(** Reading every remaining item of an iterator with [next]; at most [fuel] calls. *)
Fixpoint v_collect (t : ty) (fuel : nat) (it : viter) : M (list value) :=
  match fuel with
  | O => ret []
  | S k =>
      '(x, it') <- v_next t it ;;
      match x with
      | None => ret []
      | Some r => y <- read_value t r ;; ys <- v_collect t k it' ;; ret (y :: ys)
      end
  end.

(** src/lib.rs:1158-1166 [unsize]: from element type [TSized ssize salign] to [u] with pointer metadata [m]. *)
Definition v_unsize (ssize salign : Z) (u : ty) (m : meta) (self : nat) : M unit :=
  match kind_of u with
  | KSized => panic PAssert
  | KAligned => a_from_sized u m ssize salign self
  | KUnaligned => u_from_sized u m ssize salign self
  end.

(** src/lib.rs:1414-1437 [Extend]: [hint] is the lower bound of [size_hint]; the iterator is materialised, so unconsumed
    emplacables are dropped when a step unwinds. *)
Fixpoint v_push_all (t : ty) (self : nat) (es : list emplacable) : M unit :=
  match es with
  | [] => ret tt
  | e :: r => on_unwind (v_push_with t self e) (emplacables_drop r) ;; v_push_all t self r
  end.
Definition v_extend (t : ty) (self : nat) (hint : Z) (es : list emplacable) : M unit :=
  on_unwind (v_reserve_exact t self hint) (emplacables_drop es) ;;
  v_push_all t self es.

(** src/lib.rs:1399-1412 [FromIterator]. *)
Definition v_from_iter (t : ty) (hint : Z) (es : list emplacable) : M nat :=
  v <- v_new t ;;
  on_unwind (v_extend t v hint es) (v_drop t v) ;;
  ret v.

(** src/lib.rs:1589-1630 [unsized_vec!]/[unsize_vec!] with plain values: pushes in order. (Unlike an iterator, a value
    expression not yet evaluated when a push unwinds is never created.) *)
Fixpoint v_push_values (t : ty) (self : nat) (xs : list value) : M unit :=
  match xs with
  | [] => ret tt
  | x :: r => v_push t self x ;; v_push_values t self r
  end.
Definition v_of_values (t : ty) (xs : list value) : M nat :=
  v <- v_new t ;;
  on_unwind (v_push_values t v xs) (v_drop t v) ;;
  ret v.

(** src/lib.rs:1449-1465 [Clone] (Sized [T] only); [clone] is [T::clone]. *)
Fixpoint v_clone_loop (t : ty) (clone : value -> M value) (dst : nat) (fuel : nat) (it : viter) : M unit :=
  match fuel with
  | O => ret tt
  | S k =>
      '(x, it') <- v_next t it ;;
      match x with
      | None => ret tt
      | Some r => y <- read_value t r ;; z <- clone y ;; v_push t dst z ;; v_clone_loop t clone dst k it'
      end
  end.
Definition v_clone (t : ty) (clone : value -> M value) (self : nat) : M nat :=
  cap <- v_capacity t self ;;
  bcap <- v_byte_capacity t self ;;
  align <- v_align t self ;;
  dst <- v_with_capacity_bytes_align t cap bcap align ;;
  it <- v_iter t self ;;
  on_unwind (v_clone_loop t clone dst (v_iter_len it) it) (v_drop t dst) ;;
  ret dst.

(** src/lib.rs:1467-1476 [PartialEq]; [eqb] is the element comparison. *)
Fixpoint v_zip_all (t u : ty) (f : value -> value -> bool) (fuel : nat) (a b : viter) : M bool :=
  match fuel with
  | O => ret true
  | S k =>
      '(x, a') <- v_next t a ;;
      match x with
      | None => ret true
      | Some r =>
          '(y, b') <- v_next u b ;;
          match y with
          | None => ret true
          | Some s =>
              p <- read_value t r ;; q <- read_value u s ;;
              if f p q then v_zip_all t u f k a' b' else ret false
          end
      end
  end.
Definition v_eq (t u : ty) (eqb : value -> value -> bool) (self other : nat) : M bool :=
  n <- v_len t self ;;
  m <- v_len u other ;;
  if n =? m then
    a <- v_iter t self ;; b <- v_iter u other ;; v_zip_all t u eqb (v_iter_len a) a b
  else ret false.

(** src/lib.rs:1480-1494 [PartialOrd]; [cmp] answers [None] for unordered elements. *)
Fixpoint v_zip_cmp (t u : ty) (f : value -> value -> option comparison) (fuel : nat) (a b : viter)
    : M (option (option comparison)) :=
  match fuel with
  | O => ret None
  | S k =>
      '(x, a') <- v_next t a ;;
      match x with
      | None => ret None
      | Some r =>
          '(y, b') <- v_next u b ;;
          match y with
          | None => ret None
          | Some s =>
              p <- read_value t r ;; q <- read_value u s ;;
              match f p q with
              | Some Eq => v_zip_cmp t u f k a' b'
              | res => ret (Some res)
              end
          end
      end
  end.
Definition v_partial_cmp (t u : ty) (f : value -> value -> option comparison) (self other : nat)
    : M (option comparison) :=
  a <- v_iter t self ;; b <- v_iter u other ;;
  r <- v_zip_cmp t u f (v_iter_len a) a b ;;
  match r with
  | Some res => ret res
  | None => n <- v_len t self ;; m <- v_len u other ;; ret (Some (n ?= m))
  end.

(** src/lib.rs:1496-1510 [Ord]. *)
Fixpoint v_zip_ord (t : ty) (f : value -> value -> comparison) (fuel : nat) (a b : viter) : M comparison :=
  match fuel with
  | O => ret Eq
  | S k =>
      '(x, a') <- v_next t a ;;
      match x with
      | None => ret Eq
      | Some r =>
          '(y, b') <- v_next t b ;;
          match y with
          | None => ret Eq
          | Some s =>
              p <- read_value t r ;; q <- read_value t s ;;
              match f p q with
              | Eq => v_zip_ord t f k a' b'
              | res => ret res
              end
          end
      end
  end.
Definition v_cmp (t : ty) (f : value -> value -> comparison) (self other : nat) : M comparison :=
  a <- v_iter t self ;; b <- v_iter t other ;;
  r <- v_zip_ord t f (v_iter_len a) a b ;;
  match r with
  | Eq => n <- v_len t self ;; m <- v_len t other ;; ret (n ?= m)
  | res => ret res
  end.

(** src/lib.rs:1512-1522 [Hash]: [feed] hashes one element into the hasher state. *)
Fixpoint v_hash_loop {H} (t : ty) (feed : value -> H -> H) (fuel : nat) (it : viter) (st : H) : M H :=
  match fuel with
  | O => ret st
  | S k =>
      '(x, it') <- v_next t it ;;
      match x with
      | None => ret st
      | Some r => y <- read_value t r ;; v_hash_loop t feed k it' (feed y st)
      end
  end.
Definition v_hash {H} (t : ty) (feed : value -> H -> H) (self : nat) (st : H) : M H :=
  it <- v_iter t self ;; v_hash_loop t feed (v_iter_len it) it st.

(** src/lib.rs:1524-1542 [Serialize]: the serializer is a state with three fallible operations. *)
Fixpoint v_ser_loop {S E} (t : ty) (elem : S -> value -> S + E) (fuel : nat) (it : viter) (st : S) : M (S + E) :=
  match fuel with
  | O => ret (inl st)
  | Datatypes.S k =>
      '(x, it') <- v_next t it ;;
      match x with
      | None => ret (inl st)
      | Some r =>
          y <- read_value t r ;;
          match elem st y with
          | inl st' => v_ser_loop t elem k it' st'
          | inr e => ret (inr e)
          end
      end
  end.
Definition v_serialize {S E O} (t : ty) (begin : Z -> S + E) (elem : S -> value -> S + E) (fin : S -> O + E)
    (self : nat) : M (O + E) :=
  n <- v_len t self ;;
  match begin n with
  | inr e => ret (inr e)
  | inl st =>
      it <- v_iter t self ;;
      r <- v_ser_loop t elem (v_iter_len it) it st ;;
      match r with
      | inl st' => ret (fin st')
      | inr e => ret (inr e)
      end
  end.

End WithConfig.
