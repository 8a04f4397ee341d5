(** emplacable/src/lib.rs:1466-1750: emplacables turned into std's owning types. emplacable/src/lib.rs:112-303: values coerced on
    the stack. src/lib.rs:1204-1216: [Vec] to [UnsizedVec] and back. *)
From Coq Require Import ZArith List Bool.
From Verif Require Import Types World ValidSize Emplace SizedVec AlignedVec UnalignedVec Api.
Import ListNotations.
Open Scope Z_scope.
Open Scope m_scope.

Section WithConfig.
Context {C : Config}.

(** std [Vec::push]: grows by the amortised policy when full. The value is dropped if that unwinds. *)
Definition std_push (t : ty) (self : nat) (x : value) : M unit :=
  owned x (r <- s_reserve t self 1 false ;; unwrap_try_reserve_result r) ;;
  s_push_unchecked t self x.

(** 1521-1523: the loop over the iterator (materialised, as in [Api.v_extend]); every emplacable is turned into a value on
    the stack first. *)
Fixpoint std_push_all (t : ty) (self : nat) (es : list emplacable) : M unit :=
  match es with
  | [] => ret tt
  | e :: r =>
      on_unwind (x <- emplacable_get t e ;; std_push t self x) (emplacables_drop r) ;;
      std_push_all t self r
  end.

(** 1505-1528 [Vec: Extend<Emplacable<T>>]; [hint] is the lower bound of [size_hint]. *)
Definition std_extend (t : ty) (self : nat) (hint : Z) (es : list emplacable) : M unit :=
  on_unwind (r <- s_reserve t self hint true ;; unwrap_try_reserve_result r) (emplacables_drop es) ;;
  std_push_all t self es.

(** 1489-1503 [Vec: FromIterator<Emplacable<T>>]. *)
Definition std_from_iter (t : ty) (hint : Z) (es : list emplacable) : M nat :=
  v <- new_obj (OS (s_new t)) ;;
  on_unwind (std_extend t v hint es) (s_drop t v) ;;
  ret v.

(** std [<[T]>::into_vec]: the allocation of the box becomes the buffer, with capacity and length the box's length (the
    stored capacity of a zero-sized element type is 0). [str::into_string] and the conversions of the other byte strings
    are the same at [esize = 1]. *)
Definition box_into_vec (esize : Z) (b : wide) : svec :=
  let n := meta_len (wm b) in SVec (wp b) (if esize =? 0 then 0 else n) n.

(** 1466-1487 [into_vec]; 1530-1553 [into_string]; 1555-1588 the same for [CString], [OsString], [PathBuf]. *)
Definition emplacable_into_vec (esize : Z) (e : emplacable) : M nat :=
  b <- box_new_with e ;;
  new_obj (OS (box_into_vec esize b)).

(** std [Rc]/[Arc]: two counters of 8 bytes, then the value ([repr(C)]). 16 rounded up to the alignment. *)
Definition rc_offset (align : Z) : Z := pad 16 align.
(** std [rc_inner_layout_for_value_layout]: [Layout::extend], unwrapped, then [pad_to_align]. *)
Definition rc_layout (l : layout) : option layout :=
  let al := Z.max 8 (l_align l) in
  let size := rc_offset (l_align l) + l_size l in
  if size <=? isize_max - (al - 1) then Some (Layout (pad size al) al) else None.

(** std [Rc::from_box_in]/[Arc::from_box_in]: allocate, set both counts to 1, copy the value, free the box without dropping
    its contents. The box is dropped when the allocation unwinds. *)
Definition rc_from_box (t : ty) (b : wide) : M wide :=
  make_ref t b ;;
  let l := Layout (size_of_val t (wm b)) (align_of_val t (wm b)) in
  p <- on_unwind
    (match rc_layout l with
     | None => panic PAssert
     | Some rl =>
         r <- galloc rl ;;
         match r with
         | None => handle_alloc_error
         | Some p =>
             mem_write p (le_bytes 8 1 ++ le_bytes 8 1) ;;
             ret p
         end
     end) (box_drop t b) ;;
  q <- ptr_add p (rc_offset (l_align l)) ;;
  mem_copy_no (wp b) q (l_size l) ;;
  box_dealloc t b ;;
  ret (Wide p (wm b)).

(** 1616-1653 [rc_new], [rc_new_with], 1684-1721 the same for [Arc]; pinning (1590-1614, 1655-1682, 1723-1750)
    only wraps. *)
Definition rc_new (t : ty) (x : value) : M wide := b <- box_new t x ;; rc_from_box t b.
Definition rc_new_with (t : ty) (e : emplacable) : M wide := b <- box_new_with e ;; rc_from_box t b.

(** The reference [&*rc]. *)
Definition rc_deref (t : ty) (r : wide) : M wide :=
  p <- ptr_add (wp r) (rc_offset (align_of_val t (wm r))) ;;
  make_ref t (Wide p (wm r)).

(** Dropping the only [Rc]: the value's destructor, then the allocation (also when the destructor unwinds). *)
Definition rc_free (t : ty) (r : wide) : M unit :=
  match rc_layout (Layout (size_of_val t (wm r)) (align_of_val t (wm r))) with
  | None => panic PAssert
  | Some rl => gdealloc (wp r) rl
  end.
Definition rc_drop (t : ty) (r : wide) : M unit :=
  v <- rc_deref t r ;;
  on_unwind (drop_in_place t v) (rc_free t r) ;;
  rc_free t r.

(** 131-253 [unsize!], [do_not_use_box_unsize]: the fake allocator is a place on the stack of the source type's size [s] and
    alignment [a]; the value is moved into a box there, the box's pointer gets the metadata [m], the value is moved out,
    which dereferences the box.
    The allocator's debug assertions compare the layout with itself and test a flag that is never set. *)
Definition unsize_macro (s a : Z) (u : ty) (m : meta) (x : value) : M value :=
  slot <- stack_slot (Layout s a) (uninit s) ;;
  mem_write slot (v_bytes x) ;;
  b <- make_ref u (Wide slot m) ;;
  y <- read_value u b ;;
  stack_free slot ;;
  ret y.
(** 192-197, 274-303 [by_value_str!], [fake_box_str]: the literal is copied to an array on the stack. *)
Definition by_value_str (literal : list byte) : M value :=
  let len := Z.of_nat (length literal) in
  slot <- stack_slot (Layout len 1) (uninit len) ;;
  mem_write slot literal ;;
  b <- make_ref TStr (Wide slot (MLen len)) ;;
  y <- read_value TStr b ;;
  stack_free slot ;;
  ret y.
(** src/lib.rs:964-966 [push_unsize], 811-816 [insert_unsize]. *)
Definition v_push_unsize (s a : Z) (u : ty) (m : meta) (self : nat) (x : value) : M unit :=
  y <- unsize_macro s a u m x ;; v_push u self y.
Definition v_insert_unsize (s a : Z) (u : ty) (m : meta) (self index : nat) (x : value) : M unit :=
  y <- unsize_macro s a u m x ;; v_insert u self index y.

(** src/lib.rs:1204-1216: [From<Vec<T>>] and [From<UnsizedVec<T>>] wrap and unwrap the field. *)
Definition v_from_vec (v : svec) : M nat := new_obj (OS v).
Definition v_into_vec (self : nat) : M svec := v <- get_s self ;; set_obj self ODead ;; ret v.

End WithConfig.
