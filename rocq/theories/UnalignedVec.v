(** src/inner/unaligned.rs: the implementation for trait objects and other types whose alignment is known only at run time. *)
From Coq Require Import ZArith List Bool.
From Verif Require Import Types World ValidSize Emplace SizedVec AlignedVec.
Import ListNotations.
Open Scope Z_scope.
Open Scope m_scope.

Section WithConfig.
Context {C : Config}.

(** src/inner/unaligned.rs:63-67 [unaligned_byte_len]. *)
Definition u_unaligned_byte_len (v : uvec) : Z := last_end (uv_infos v).
(** src/inner/unaligned.rs:72-75 [aligned_byte_len]. *)
Definition u_aligned_byte_len (v : uvec) : M Z := unchecked_pad_to (u_unaligned_byte_len v) (uv_align v).

(** src/inner/unaligned.rs:83-94 [start_offset_of_unchecked]. *)
Definition u_start_offset (v : uvec) (index : nat) : M Z :=
  match index with
  | O => ret 0
  | S k => match nth_error (uv_infos v) k with
           | Some i => unchecked_pad_to (i_end i) (uv_align v)
           | None => ub UbIndex
           end
  end.

(** src/inner/unaligned.rs:359-373 [NEW_ALIGN_1], [NEW_ALIGN_PTR]. *)
Definition u_new_align_1 : uvec := UVec (Raw 1) 0 [] 0 1.
Definition u_new_align_ptr : uvec := UVec (Raw 8) 0 [] 0 8.

(** src/inner/unaligned.rs:1009-1017 and 1076-1214: the iterators. *)
Record uiter := UIter { ui_infos : list info; ui_ptr : ptr; ui_start : Z; ui_align : Z }.
Definition u_iter_of (v : uvec) : uiter := UIter (uv_infos v) (uv_ptr v) 0 (uv_align v).
Definition u_iter (self : nat) : M uiter := v <- get_u self ;; ret (u_iter_of v).

Definition u_item (t : ty) (p : ptr) (start_offset : Z) (i : info) : M wide :=
  size <- vu_unchecked_sub (i_end i) start_offset ;;
  q <- ptr_add p start_offset ;;
  make_ref t (Wide q (as_metadata t (i_rem i) size)).

(** 1089-1111 [next]. *)
Definition u_next (t : ty) (it : uiter) : M (option wide * uiter) :=
  match ui_infos it with
  | [] => ret (None, it)
  | i :: r =>
      x <- u_item t (ui_ptr it) (ui_start it) i ;;
      s <- unchecked_pad_to (i_end i) (ui_align it) ;;
      ret (Some x, UIter r (ui_ptr it) s (ui_align it))
  end.

(** 1127-1159 [nth]. *)
Definition u_nth (t : ty) (it : uiter) (n : nat) : M (option wide * uiter) :=
  start_offset <-
    (match n with
     | O => ret 0
     | S k => match nth_error (ui_infos it) k with
              | Some i => unchecked_pad_to (i_end i) (ui_align it)
              | None => ret 0
              end
     end) ;;
  match skipn n (ui_infos it) with
  | [] => ret (None, UIter [] (ui_ptr it) (ui_start it) (ui_align it))
  | i :: r =>
      x <- u_item t (ui_ptr it) start_offset i ;;
      s <- unchecked_pad_to (i_end i) (ui_align it) ;;
      ret (Some x, UIter r (ui_ptr it) s (ui_align it))
  end.

(** 1162-1167 [last]. *)
Definition u_last (t : ty) (it : uiter) : M (option wide) :=
  match length (ui_infos it) with
  | O => ret None
  | S k => '(x, _) <- u_nth t it k ;; ret x
  end.

(** 1172-1199 [next_back]. *)
Definition u_next_back (t : ty) (it : uiter) : M (option wide * uiter) :=
  match rev (ui_infos it) with
  | [] => ret (None, it)
  | i :: r =>
      let rest := rev r in
      start_offset <- (match r with
                       | [] => ret 0
                       | j :: _ => unchecked_pad_to (i_end j) (ui_align it)
                       end) ;;
      x <- u_item t (ui_ptr it) start_offset i ;;
      ret (Some x, UIter rest (ui_ptr it) (ui_start it) (ui_align it))
  end.

(** src/inner/unaligned.rs:99-104 [max_align_of_elems]: iterates with [next]. *)
Fixpoint u_max_align_loop (t : ty) (p : ptr) (align start : Z) (infos : list info) (acc : Z) : M Z :=
  match infos with
  | [] => ret acc
  | i :: r =>
      '(x, it) <- u_next t (UIter (i :: r) p start align) ;;
      match x with
      | None => ret acc
      | Some x => u_max_align_loop t p align (ui_start it) r (Z.max acc (align_of_val t (wm x)))
      end
  end.
Definition u_max_align_of_elems (t : ty) (v : uvec) : M Z :=
  u_max_align_loop t (uv_ptr v) (uv_align v) 0 (uv_infos v) 1.

(** src/inner/unaligned.rs:113-138 [len_after_realign_up]: the fold carries [shift] and [new_pad_to_new]. *)
Fixpoint u_len_after_loop (old_align new_align shift new_pad_to_new : Z) (infos : list info) : M (option Z) :=
  match infos with
  | [] => ret (Some new_pad_to_new)
  | i :: r =>
      match vu_checked_add (i_end i) shift with
      | None => ret None
      | Some new_end_offset =>
          match checked_pad_to new_end_offset new_align with
          | None => ret None
          | Some new_pad_to_new =>
              new_pad_to_old <- unchecked_pad_to new_end_offset old_align ;;
              padding_difference <- vu_unchecked_sub new_pad_to_new new_pad_to_old ;;
              match vu_checked_add shift padding_difference with
              | None => ret None
              | Some shift => u_len_after_loop old_align new_align shift new_pad_to_new r
              end
          end
      end
  end.
Definition u_len_after_realign_up (v : uvec) (new_align : Z) : M (option Z) :=
  dassert (uv_align v <=? new_align) ;;
  u_len_after_loop (uv_align v) new_align 0 0 (uv_infos v).

(** src/inner/unaligned.rs:155-229 [realign_up]: first pass, updating the end offsets. *)
Fixpoint u_realign_up_infos (old_align new_align shift : Z) (infos : list info) : M (list info * Z) :=
  match infos with
  | [] => ret ([], shift)
  | i :: r =>
      new_end_offset <- vu_unchecked_add (i_end i) shift ;;
      new_pad_to_new <- unchecked_pad_to new_end_offset new_align ;;
      new_pad_to_old <- unchecked_pad_to new_end_offset old_align ;;
      padding_difference <- vu_unchecked_sub new_pad_to_new new_pad_to_old ;;
      shift <- vu_unchecked_add shift padding_difference ;;
      '(r', final) <- u_realign_up_infos old_align new_align shift r ;;
      ret (Info (i_rem i) new_end_offset :: r', final)
  end.

(** Second pass, over [array_windows::<2>().rev()]; [ends] are the new end offsets in reverse order. *)
Fixpoint u_realign_up_copy (p : ptr) (old_align new_align shift_end : Z) (ends : list Z) : M unit :=
  match ends with
  | new_end_offset :: ((prev_end_offset :: _) as r) =>
      new_pad_to_new <- unchecked_pad_to new_end_offset new_align ;;
      new_pad_to_old <- unchecked_pad_to new_end_offset old_align ;;
      padding_difference <- vu_unchecked_sub new_pad_to_new new_pad_to_old ;;
      shift_start <- vu_unchecked_sub shift_end padding_difference ;;
      new_start_offset <- unchecked_pad_to prev_end_offset new_align ;;
      old_start_offset <- vu_unchecked_sub new_start_offset shift_start ;;
      size_of_val <- vu_unchecked_sub new_end_offset new_start_offset ;;
      src <- ptr_add p old_start_offset ;;
      dst <- ptr_add p new_start_offset ;;
      mem_copy src dst size_of_val ;;
      u_realign_up_copy p old_align new_align shift_start r
  | _ => ret tt
  end.
Definition u_realign_up (self : nat) (new_align : Z) : M unit :=
  v <- get_u self ;;
  dassert (Nat.ltb 1 (length (uv_infos v)) && (uv_align v <? new_align)) ;;
  '(infos, final_offset_shift) <- u_realign_up_infos (uv_align v) new_align 0 (uv_infos v) ;;
  set_obj self (OU (UVec (uv_ptr v) (uv_bcap v) infos (uv_icap v) (uv_align v))) ;;
  u_realign_up_copy (uv_ptr v) (uv_align v) new_align final_offset_shift (rev (map i_end infos)).

(** src/inner/unaligned.rs:249-303 [realign_down]: copies, but stores no end offset. *)
Fixpoint u_realign_down_loop (p : ptr) (old_align new_align shift_back : Z) (ends : list Z) : M unit :=
  match ends with
  | prev_new_end_offset :: ((old_end_offset :: _) as r) =>
      new_end_offset <- vu_unchecked_sub old_end_offset shift_back ;;
      new_start_offset <- unchecked_pad_to prev_new_end_offset new_align ;;
      old_start_offset <- vu_unchecked_sub new_start_offset shift_back ;;
      size_of_val <- vu_unchecked_sub new_end_offset new_start_offset ;;
      src <- ptr_add p old_start_offset ;;
      dst <- ptr_add p new_start_offset ;;
      mem_copy src dst size_of_val ;;
      a <- unchecked_pad_to new_end_offset old_align ;;
      b <- unchecked_pad_to new_end_offset new_align ;;
      d <- vu_unchecked_sub a b ;;
      shift_back <- vu_unchecked_add shift_back d ;;
      u_realign_down_loop p old_align new_align shift_back r
  | _ => ret tt
  end.
Definition u_realign_down (self : nat) (new_align : Z) : M unit :=
  v <- get_u self ;;
  dassert (Nat.ltb 1 (length (uv_infos v)) && (new_align <? uv_align v)) ;;
  u_realign_down_loop (uv_ptr v) (uv_align v) new_align 0 (map i_end (uv_infos v)).

(** src/inner/unaligned.rs:391-398 [try_reserve], [try_reserve_exact]. *)
Definition u_reserve (t : ty) (self : nat) (additional : Z) (exact : bool) : M rres :=
  v <- get_u self ;;
  '(r, icap) <- infos_reserve t (uv_icap v) (zlen (uv_infos v)) additional exact ;;
  set_obj self (OU (UVec (uv_ptr v) (uv_bcap v) (uv_infos v) icap (uv_align v))) ;;
  ret r.

(** src/inner/unaligned.rs:400-476 [try_reserve_additional_bytes_align]. *)
Definition u_try_reserve_bytes_align (t : ty) (self : nat) (additional_bytes align : Z) : M rres :=
  v <- get_u self ;;
  let old_align := uv_align v in
  let new_align := Z.max old_align align in
  let old_byte_cap := uv_bcap v in
  old_byte_len <- u_aligned_byte_len v ;;
  if (negb (old_align <? new_align)) && (additional_bytes =? 0) then ret ROk
  else
    realigned <- (if old_align <? new_align then u_len_after_realign_up v new_align else ret (Some old_byte_len)) ;;
    match realigned with
    | None => ret (RErr CapacityOverflow)
    | Some byte_len_realigned =>
        cost <- vu_unchecked_sub byte_len_realigned old_byte_len ;;
        match (match checked_add_pad old_byte_cap cost new_align with
               | None => None
               | Some s => checked_add_pad s additional_bytes new_align
               end) with
        | None => ret (RErr CapacityOverflow)
        | Some new_byte_cap =>
            if (old_align <? new_align) || (old_byte_cap <? new_byte_cap) then
              if 0 <? new_byte_cap then
                new_layout <- vu_layout new_byte_cap new_align ;;
                r <- (if old_byte_cap =? 0 then galloc new_layout
                      else old_layout <- vu_layout old_byte_cap old_align ;;
                           ggrow (uv_ptr v) old_layout new_layout) ;;
                match r with
                | None => ret (RErr AllocError)
                | Some p =>
                    set_obj self (OU (UVec p (new_squished_to (l_size new_layout) new_align)
                                           (uv_infos v) (uv_icap v) old_align)) ;;
                    (if old_align <? new_align then
                       (if Nat.ltb 1 (length (uv_infos v)) then u_realign_up self new_align else ret tt) ;;
                       v' <- get_u self ;;
                       set_obj self (OU (UVec (uv_ptr v') (uv_bcap v') (uv_infos v') (uv_icap v') new_align))
                     else ret tt) ;;
                    ret ROk
                end
              else
                set_obj self (OU (UVec (dangling_thin new_align) (uv_bcap v) (uv_infos v) (uv_icap v) old_align)) ;;
                ret ROk
            else ret ROk
        end
    end.

(** src/inner/unaligned.rs:478-582 [shrink_capacity_bytes_align_to]. The guard [Realigner] (511-534) runs when the
    allocator fails to shrink ([return] with the guard live). *)
Definition u_shrink (t : ty) (self : nat) (min_capacity min_byte_capacity min_align : Z) : M unit :=
  v <- get_u self ;;
  icap <- infos_shrink (uv_icap v) (zlen (uv_infos v)) min_capacity ;;
  let v := UVec (uv_ptr v) (uv_bcap v) (uv_infos v) icap (uv_align v) in
  set_obj self (OU v) ;;
  let old_align := uv_align v in
  max_elems <- u_max_align_of_elems t v ;;
  let new_align := Z.max (Z.min min_align old_align) max_elems in
  dassert (new_align <=? old_align) ;;
  let need_to_realign := (new_align <? old_align) && Nat.ltb 1 (length (uv_infos v)) in
  (if need_to_realign then u_realign_down self new_align else ret tt) ;;
  v <- get_u self ;;
  new_aligned_byte_len <- unchecked_pad_to (u_unaligned_byte_len v) new_align ;;
  let old_byte_capacity := uv_bcap v in
  m <- vu_new_unchecked (Z.min min_byte_capacity old_byte_capacity) ;;
  let new_byte_capacity := Z.max m new_aligned_byte_len in
  dassert (new_byte_capacity <=? old_byte_capacity) ;;
  if (new_byte_capacity <? old_byte_capacity) || (new_align <? old_align) then
    old_layout <- vu_layout old_byte_capacity old_align ;;
    if 0 <? new_byte_capacity then
      new_layout <- vu_layout new_byte_capacity new_align ;;
      r <- gshrink (uv_ptr v) old_layout new_layout ;;
      match r with
      | None =>
          if need_to_realign then
            set_obj self (OU (UVec (uv_ptr v) (uv_bcap v) (uv_infos v) (uv_icap v) new_align)) ;;
            u_realign_up self old_align ;;
            v' <- get_u self ;;
            set_obj self (OU (UVec (uv_ptr v') (uv_bcap v') (uv_infos v') (uv_icap v') old_align))
          else ret tt
      | Some p =>
          set_obj self (OU (UVec p (new_squished_to new_byte_capacity new_align) (uv_infos v) (uv_icap v) new_align))
      end
    else
      (if 0 <? old_byte_capacity then gdealloc (uv_ptr v) old_layout else ret tt) ;;
      set_obj self (OU (UVec (dangling_thin new_align) 0 (uv_infos v) (uv_icap v) new_align))
  else ret tt.

(** src/inner/unaligned.rs:584-638 [insert_unchecked]. Note [add(index)] at line 609. *)
Definition u_insert_unchecked (t : ty) (self index : nat) (x : value) (size : Z) : M unit :=
  owned x (
    v <- get_u self ;;
    dassert (Nat.leb index (length (uv_infos v))) ;;
    dassert (zlen (uv_infos v) <? uv_icap v) ;;
    aligned_size <- unchecked_pad_to size (uv_align v) ;;
    (if cfg_debug then len <- u_aligned_byte_len v ;; dassert (len + aligned_size <=? uv_bcap v) else ret tt) ;;
    dassert (valign t x <=? uv_align v) ;;
    let metadata := from_metadata t (v_meta x) in
    start_offset <- u_start_offset v index ;;
    how_much <- vu_unchecked_sub (u_unaligned_byte_len v) start_offset ;;
    start_ptr <- ptr_add (uv_ptr v) (Z.of_nat index) ;;
    dst <- ptr_add start_ptr aligned_size ;;
    mem_copy start_ptr dst how_much ;;
    mem_write start_ptr (v_bytes x) ;;
    infos <- infos_add_from 1 (uv_infos v) index aligned_size ;;
    e <- vu_unchecked_add start_offset size ;;
    infos' <- infos_insert infos (uv_icap v) index (Info metadata e) ;;
    set_obj self (OU (UVec (uv_ptr v) (uv_bcap v) infos' (uv_icap v) (uv_align v)))).

(** src/inner/unaligned.rs:640-746 [insert_with_unchecked]. *)
Definition u_insert_with_unchecked (t : ty) (self index : nat) (e : emplacable) : M unit :=
  v0 <- get_u self ;;
  on_unwind (dassert (Nat.leb index (length (uv_infos v0)))) (emplacable_drop e) ;;
  e (fun l metadata inner =>
    let size := l_size l in
    r <- u_reserve t self 1 false ;;
    r <- (match r with ROk => u_try_reserve_bytes_align t self size (l_align l) | RErr _ => ret r end) ;;
    unwrap_try_reserve_result r ;;
    v <- get_u self ;;
    aligned_size <- unchecked_pad_to size (uv_align v) ;;
    start_offset <- u_start_offset v index ;;
    p <- ptr_add (uv_ptr v) start_offset ;;
    n <- vu_unchecked_sub (u_unaligned_byte_len v) start_offset ;;
    q <- ptr_add p aligned_size ;;
    mem_copy p q n ;;
    on_unwind (inner p) (q' <- ptr_add p aligned_size ;; mem_copy q' p n) ;;
    v' <- get_u self ;;
    infos <- infos_add_from 1 (uv_infos v') index aligned_size ;;
    e <- vu_unchecked_add start_offset size ;;
    infos' <- infos_insert infos (uv_icap v') index (Info (from_metadata t metadata) e) ;;
    set_obj self (OU (UVec (uv_ptr v') (uv_bcap v') infos' (uv_icap v') (uv_align v')))).

(** src/inner/unaligned.rs:748-843 [remove_into_unchecked]. The inner closure is the same as in aligned.rs. *)
Definition u_remove_into_unchecked (t : ty) (self index : nat) (E : emplacer) : M unit :=
  v <- get_u self ;;
  dassert (Nat.ltb index (length (uv_infos v))) ;;
  match nth_error (uv_infos v) index with
  | None => ub UbIndex
  | Some i =>
      start_offset <- u_start_offset v index ;;
      size <- vu_unchecked_sub (i_end i) start_offset ;;
      aligned_size <- unchecked_pad_to size (uv_align v) ;;
      let metadata := as_metadata t (i_rem i) size in
      p <- ptr_add (uv_ptr v) start_offset ;;
      r <- make_ref t (Wide p metadata) ;;
      l <- vu_layout size (align_of_val t (wm r)) ;;
      E l metadata (a_take t p metadata size) ;;
      v' <- get_u self ;;
      let infos := firstn index (uv_infos v') ++ skipn (S index) (uv_infos v') in
      infos' <- infos_sub_from 1 infos index aligned_size ;;
      set_obj self (OU (UVec (uv_ptr v') (uv_bcap v') infos' (uv_icap v') (uv_align v'))) ;;
      how_much <- vu_unchecked_sub (last_end infos') start_offset ;;
      q <- ptr_add p aligned_size ;;
      mem_copy q p how_much
  end.

(** src/inner/unaligned.rs:846-873 [push_unchecked]. *)
Definition u_push_unchecked (t : ty) (self : nat) (x : value) (size : Z) : M unit :=
  owned x (
    v <- get_u self ;;
    dassert (zlen (uv_infos v) <? uv_icap v) ;;
    (if cfg_debug then len <- u_aligned_byte_len v ;; dassert (len + size <=? uv_bcap v) else ret tt) ;;
    dassert (valign t x <=? uv_align v) ;;
    let metadata := from_metadata t (v_meta x) in
    start_offset <- u_aligned_byte_len v ;;
    p <- ptr_add (uv_ptr v) start_offset ;;
    mem_write p (v_bytes x) ;;
    e <- vu_unchecked_add start_offset size ;;
    infos' <- infos_push (uv_infos v) (uv_icap v) (Info metadata e) ;;
    set_obj self (OU (UVec (uv_ptr v) (uv_bcap v) infos' (uv_icap v) (uv_align v)))).

(** src/inner/unaligned.rs:875-910 [push_with]. *)
Definition u_push_with (t : ty) (self : nat) (e : emplacable) : M unit :=
  e (fun l metadata inner =>
    let size := l_size l in
    r <- u_reserve t self 1 false ;;
    r <- (match r with ROk => u_try_reserve_bytes_align t self size (l_align l) | RErr _ => ret r end) ;;
    unwrap_try_reserve_result r ;;
    v <- get_u self ;;
    start_offset <- u_aligned_byte_len v ;;
    p <- ptr_add (uv_ptr v) start_offset ;;
    inner p ;;
    e <- vu_unchecked_add start_offset size ;;
    v' <- get_u self ;;
    infos' <- infos_push (uv_infos v') (uv_icap v') (Info (from_metadata t metadata) e) ;;
    set_obj self (OU (UVec (uv_ptr v') (uv_bcap v') infos' (uv_icap v') (uv_align v')))).

(** src/inner/unaligned.rs:913-972 [pop_into_unchecked]. *)
Definition u_pop_into_unchecked (t : ty) (self : nat) (E : emplacer) : M unit :=
  v <- get_u self ;;
  dassert (negb (Nat.eqb (length (uv_infos v)) 0)) ;;
  match rev (uv_infos v) with
  | [] => ub UbIndex
  | i :: r =>
      let v := UVec (uv_ptr v) (uv_bcap v) (rev r) (uv_icap v) (uv_align v) in
      set_obj self (OU v) ;;
      start_offset <- u_aligned_byte_len v ;;
      size <- vu_unchecked_sub (i_end i) start_offset ;;
      let metadata := as_metadata t (i_rem i) size in
      p <- ptr_add (uv_ptr v) start_offset ;;
      r <- make_ref t (Wide p metadata) ;;
      l <- vu_layout size (align_of_val t (wm r)) ;;
      E l metadata (a_take t p metadata size)
  end.

(** src/inner/unaligned.rs:985-1007 [get_unchecked_raw]. *)
Definition u_get_unchecked_raw (t : ty) (self index : nat) : M wide :=
  v <- get_u self ;;
  dassert (Nat.ltb index (length (uv_infos v))) ;;
  start_offset <- u_start_offset v index ;;
  match nth_error (uv_infos v) index with
  | None => ub UbIndex
  | Some i =>
      size <- vu_unchecked_sub (i_end i) start_offset ;;
      p <- ptr_add (uv_ptr v) start_offset ;;
      ret (Wide p (as_metadata t (i_rem i) size))
  end.

(** src/inner/unaligned.rs:1030-1069 [from_sized]. *)
Definition u_from_sized_infos (t : ty) (m : meta) (ssize : Z) (len : nat) : M (list info) :=
  mapM (fun index => o <- umul (Z.of_nat index) ssize ;; e <- vu_new_unchecked o ;;
                     ret (Info (from_metadata t m) e)) (seq 0 len).
Definition u_from_sized (t : ty) (m : meta) (ssize salign : Z) (self : nat) : M unit :=
  v <- get_s self ;;
  set_obj self ODead ;;
  let cap := if ssize =? 0 then usize_max else sv_cap v in
  bc <- umul cap ssize ;;
  bc <- vu_new_unchecked bc ;;
  infos_collect t (sv_len v) ;;
  infos <- u_from_sized_infos t m ssize (Z.to_nat (sv_len v)) ;;
  set_obj self (OU (UVec (sv_ptr v) bc infos (sv_len v) salign)).

(** src/inner/unaligned.rs:306-344 [Drop]. *)
Fixpoint u_drop_elems (t : ty) (p : ptr) (align start_offset : Z) (infos : list info) : M unit :=
  match infos with
  | [] => ret tt
  | i :: r =>
      size <- vu_unchecked_sub (i_end i) start_offset ;;
      q <- ptr_add p start_offset ;;
      next <- unchecked_pad_to (i_end i) align ;;
      drop_in_place t (Wide q (as_metadata t (i_rem i) size)) ;;
      u_drop_elems t p align next r
  end.
Definition u_drop (t : ty) (self : nat) : M unit :=
  v <- get_u self ;;
  set_obj self ODead ;;
  u_drop_elems t (uv_ptr v) (uv_align v) 0 (uv_infos v) ;;
  l <- vu_layout (uv_bcap v) (uv_align v) ;;
  gdealloc (uv_ptr v) l.

End WithConfig.
