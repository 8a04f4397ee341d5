(** The emplacable crate: emplacables, emplacers and their conversions (emplacable/src/lib.rs). *)
From Coq Require Import ZArith List Bool.
From Verif Require Import Types World ValidSize.
Import ListNotations.
Open Scope Z_scope.
Open Scope m_scope.

(** [&mut dyn FnMut( *mut PhantomData<T>)]: writes the value to the pointer, or drops it when given null. *)
Definition inner_fn := ptr -> M unit.
(** emplacable/src/lib.rs:1256-1344 [EmplacerFn]: receives layout, metadata and the inner closure. *)
Definition emplacer := layout -> meta -> inner_fn -> M unit.
(** emplacable/src/lib.rs:387-455 [EmplacableFn]: hands its value to an emplacer. [from_fn], [into_fn] are wrappers. *)
Definition emplacable := emplacer -> M unit.

Section WithConfig.
Context {C : Config}.

(** emplacable/src/lib.rs:669-698: dropping an emplacable runs it with an emplacer that passes null. *)
Definition dropping_emplacer : emplacer := fun _ _ inner => inner null.
Definition emplacable_drop (e : emplacable) : M unit := e dropping_emplacer.

(** emplacable/src/lib.rs:508-526 [forget]. *)
Definition forgetting_emplacer : emplacer := fun _ _ _ => ret tt.
Definition emplacable_forget (e : emplacable) : M unit := e forgetting_emplacer.

(** Dropping a sequence of emplacables: when one unwinds, the rest is dropped during the unwinding. *)
Fixpoint emplacables_drop (es : list emplacable) : M unit :=
  match es with
  | [] => ret tt
  | e :: r => on_unwind (emplacable_drop e) (emplacables_drop r) ;; emplacables_drop r
  end.

(** emplacable/src/lib.rs:479-498 [get]: for Sized [T]; the buffer is a stack slot, read back afterwards. The
    frame goes away on unwinding too. *)
Definition emplacable_get (t : ty) (e : emplacable) : M value :=
  let l := Layout (size_of_val t MUnit) (align_of_val t MUnit) in
  buf <- stack_slot l (uninit (l_size l)) ;;
  on_unwind (e (fun _ _ inner => inner buf)) (stack_free buf) ;;
  bs <- mem_read buf (l_size l) ;;
  stack_free buf ;;
  ret (Value MUnit bs).

(** emplacable/src/lib.rs:709-747 [From<T>]: the value lives in the closure; ManuallyDrop, so unwinding leaks it.
    Also stands for the macro-made unsized by-value temporaries (lines 90-303). *)
Definition emplacable_of_value (t : ty) (x : value) : emplacable := fun E =>
  E (layout_of t x) (v_meta x) (fun p =>
    if is_null p then drop_value x else mem_write p (v_bytes x)).

(** emplacable/src/lib.rs:815-969 [From<&str>] (the same code for &CStr, &OsStr, &Path): copies the borrowed bytes at
    [src]; nothing to drop. *)
Definition emplacable_of_str_ref (t : ty) (src : wide) : emplacable := fun E =>
  let size := size_of_val t (wm src) in
  E (Layout size (align_of_val t (wm src))) (wm src) (fun p =>
    if is_null p then ret tt else mem_copy_no (wp src) p size).

(** The object representation of a fat pointer to a slice (16 bytes: address, then length, little endian). *)
Fixpoint le_bytes (n : nat) (x : Z) : list byte :=
  match n with
  | O => []
  | S k => Byte (x mod 256) :: le_bytes k (x / 256)
  end.
Definition thin_repr (p : ptr) : list byte :=
  match p with
  | Blk b off => map (fun i => Frag b i) (seq 0 8)
  | Raw a => le_bytes 8 a
  end.
Definition meta_len (m : meta) : Z := match m with MLen n => n | _ => 0 end.
Definition fat_repr (src : wide) : list byte := thin_repr (wp src) ++ le_bytes 8 (meta_len (wm src)).

(** emplacable/src/lib.rs:770-780 [CopyToBuf] for [T: Copy]: the source of the copy is [addr_of!(slice)], the address of
    the local variable holding the reference. *)
Definition copy_to_buf_copy (esize : Z) (src : wide) (buf : ptr) : M unit :=
  slot <- stack_slot (Layout 16 8) (fat_repr src) ;;
  mem_copy_no slot buf (meta_len (wm src) * esize) ;;
  stack_free slot.

(** emplacable/src/lib.rs:757-768 [CopyToBuf] for [T: Clone]: [clone] is the user's [Clone::clone], given the bytes of an
    element. *)
Fixpoint copy_to_buf_clone (esize : Z) (clone : list byte -> M (list byte)) (src buf : ptr) (n : nat) : M unit :=
  match n with
  | O => ret tt
  | S k =>
      bs <- mem_read src esize ;;
      owned <- clone bs ;;
      mem_write buf owned ;;
      src' <- ptr_add src esize ;;
      buf' <- ptr_add buf esize ;;
      copy_to_buf_clone esize clone src' buf' k
  end.

(** emplacable/src/lib.rs:782-813 [From<&[T]>]; [copy = true] selects the specialised [T: Copy] path. Null: nothing. *)
Definition emplacable_of_slice_ref (esize ealign : Z) (copy : bool) (clone : list byte -> M (list byte))
    (src : wide) : emplacable := fun E =>
  let n := meta_len (wm src) in
  E (Layout (n * esize) ealign) (wm src) (fun p =>
    if is_null p then ret tt
    else if copy then copy_to_buf_copy esize src p
    else copy_to_buf_clone esize clone (wp src) p (Z.to_nat n)).

(** emplacable/src/lib.rs:1027-1070 [From<Box<T>>]. *)
Definition emplacable_of_box (t : ty) (b : wide) : emplacable := fun E =>
  make_ref t b ;;
  let l := Layout (size_of_val t (wm b)) (align_of_val t (wm b)) in
  E l (wm b) (fun p =>
    if is_null p then drop_in_place t b else mem_copy_no (wp b) p (l_size l)) ;;
  if 0 <? l_size l then gdealloc (wp b) l else ret tt.

(** Dropping a [Box<T>]: destructor, then deallocation with the layout of the value (also when unwinding). *)
Definition box_dealloc (t : ty) (b : wide) : M unit :=
  gdealloc (wp b) (Layout (size_of_val t (wm b)) (align_of_val t (wm b))).
Definition box_drop (t : ty) (b : wide) : M unit :=
  on_unwind (drop_in_place t b) (box_dealloc t b) ;; box_dealloc t b.

(** [drop_in_place] on the elements of a slice in order. *)
Fixpoint drop_elems (t : ty) (p : ptr) (esize : Z) (n : nat) : M unit :=
  match n with
  | O => ret tt
  | S k =>
      drop_in_place t (Wide p MUnit) ;;
      p' <- ptr_add p esize ;;
      drop_elems t p' esize k
  end.

(** emplacable/src/lib.rs:1072-1128 [From<Vec<T>>]: note that [layout] describes the whole capacity. The capacity of a
    zero-sized element type reads as [usize::MAX]. *)
Definition emplacable_of_vec (esize ealign : Z) (v : svec) : emplacable := fun E =>
  let capacity := if esize =? 0 then usize_max else sv_cap v in
  size <- umul capacity esize ;;
  l <- layout_unchecked size ealign ;;
  E l (MLen (sv_len v)) (fun p =>
    if is_null p then drop_elems (TSized esize ealign) (sv_ptr v) esize (Z.to_nat (sv_len v))
    else mem_copy_no (sv_ptr v) p (sv_len v * esize)) ;;
  if 0 <? l_size l then gdealloc (sv_ptr v) l else ret tt.

(** emplacable/src/lib.rs:533-572 [unsize]: [T] has layout [l]; [m] is the metadata of the coerced pointer. *)
Definition emplacable_unsize (l : layout) (m : meta) (e : emplacable) : emplacable := fun E =>
  e (fun _ _ inner => E l m (fun p => inner p)).

(** emplacable/src/lib.rs:981-1025: str -> [u8]. *)
Definition emplacable_str_to_bytes (e : emplacable) : emplacable := fun E =>
  e (fun l m inner => E l m (fun p => inner p)).

(** The loops of emplacable/src/lib.rs:625-643 and 1172-1197: element [i] of the sequence is emplaced at
    [arr.cast::<T>().add(i)]; if one unwinds, the iterator drops the emplacables it still holds. Stops after [len]
    elements and returns how many were emplaced; emplacables left over are dropped. *)
Fixpoint emplace_elems (esize : Z) (arr : ptr) (index : Z) (len : nat) (es : list emplacable) : M nat :=
  match len, es with
  | O, _ => emplacables_drop es ;; ret O
  | S _, [] => ret O
  | S k, e :: r =>
      on_unwind (e (fun _ _ inner => p <- ptr_add arr (index * esize) ;; inner p)) (emplacables_drop r) ;;
      n <- emplace_elems esize arr (index + 1) k r ;;
      ret (S n)
  end.

(** emplacable/src/lib.rs:582-666 [from_iter]. [claimed] is what [ExactSizeIterator::len] answered; [es] is what the
    iterator really yields (a materialised iterator: unconsumed items are dropped with it). *)
Definition emplacable_from_iter (esize ealign : Z) (claimed : nat) (es : list emplacable) : M emplacable :=
  let len := Z.of_nat claimed in
  let size := esize * len in
  if (size <=? usize_max) && (size <=? isize_max - (ealign - 1)) then
    ret (fun E =>
      E (Layout size ealign) (MLen len) (fun p =>
        if is_null p then emplacables_drop es
        else n <- emplace_elems esize p 0 claimed es ;;
             if Nat.eqb n claimed then ret tt else panic PAssert))
  else on_unwind (panic PAssert) (emplacables_drop es).

(** emplacable/src/lib.rs:1153-1218: [[Emplacable<T>; N] -> Emplacable<[T; N]>], [N = length es]. *)
Definition emplacable_of_array (esize ealign : Z) (es : list emplacable) : emplacable := fun E =>
  E (Layout (zlen es * esize) ealign) MUnit (fun p =>
    if is_null p then emplacables_drop es
    else emplace_elems esize p 0 (length es) es ;; ret tt).

(** emplacable/src/lib.rs:1231-1238: [[Emplacable<T>; N] -> Emplacable<[T]>], through [unsize] (1130-1138). *)
Definition emplacable_slice_of_array (esize ealign : Z) (es : list emplacable) : emplacable :=
  emplacable_unsize (Layout (zlen es * esize) ealign) (MLen (zlen es)) (emplacable_of_array esize ealign es).

(** emplacable/src/lib.rs:1352-1381 [box_new]. *)
Definition box_new (t : ty) (x : value) : M wide :=
  let l := layout_of t x in
  owned x (
    if 0 <? l_size l then
      r <- galloc l ;;
      match r with
      | None => handle_alloc_error
      | Some p => mem_write p (v_bytes x) ;; ret (Wide p (v_meta x))
      end
    else ret (Wide (Raw (l_align l)) (v_meta x))).

(** emplacable/src/lib.rs:1390-1464 [box_new_with]. The local [uninit_box] is a cell; the guard [PointerDeallocer] frees the
    allocation when the inner closure unwinds. *)
Definition box_new_with_emplacer (cell : nat) : emplacer := fun l m inner =>
  r <- (if l_size l =? 0 then ret (Some (Raw (l_align l))) else galloc l) ;;
  match r with
  | None => handle_alloc_error
  | Some p =>
      on_unwind (inner p) (if l_size l =? 0 then ret tt else gdealloc p l) ;;
      set_cell cell (Wide p m)
  end.
Definition box_new_with (e : emplacable) : M wide :=
  cell <- new_cell ;;
  e (box_new_with_emplacer cell) ;;
  read_cell cell.

(** emplacable/src/lib.rs:305-384 [with_emplacable_for]: [val] lives in a stack slot; it is dropped if [f] unwinds and
    forgotten otherwise. *)
Definition with_emplacable_closure (t : ty) (val : wide) : emplacable := fun E =>
  let size := size_of_val t (wm val) in
  E (Layout size (align_of_val t (wm val))) (wm val) (fun p =>
    if is_null p then drop_in_place t val else mem_copy_no (wp val) p size).
Definition with_emplacable_for {R} (t : ty) (x : value) (f : emplacable -> M R) : M R :=
  slot <- stack_slot (layout_of t x) (v_bytes x) ;;
  let val := Wide slot (v_meta x) in
  r <- on_unwind (f (with_emplacable_closure t val)) (drop_in_place t val ;; stack_free slot) ;;
  stack_free slot ;;
  ret r.

End WithConfig.
