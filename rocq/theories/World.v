(** The machine: heap, allocator, destructors, outcomes. *)
From Coq Require Import ZArith List Bool.
From Verif Require Import Types.
Import ListNotations.
Open Scope Z_scope.

(** A heap block: the layout it was allocated with, its address, its bytes. *)
Record block := Block { b_layout : layout; b_base : Z; b_data : list byte }.

(** [w_heap] is indexed by block number; freed blocks are [None] and never reused.
    [w_cells] are local variables captured by closures ([uninit_box] in emplacable/src/lib.rs:1419).
    [w_drops] logs every run of a destructor, oldest first.
    [w_nalloc] counts allocator calls; [w_moved] counts bytes moved by reallocations. *)
Record world := World {
  w_heap : list (option block);
  w_vecs : list obj;
  w_cells : list (option wide);
  w_drops : list value;
  w_nalloc : nat;
  w_moved : Z }.

Definition empty_world : world := World [] [] [] [] 0 0.

Inductive panic_reason :=
| PCapacity          (* "Capacity overflowed `isize::MAX`" *)
| PBadAlign          (* "align is not a power of 2" *)
| PBounds            (* index out of range / insertion or removal index *)
| PDebugAssert       (* debug_assert! failed *)
| PDivZero           (* attempt to divide by zero *)
| PAssert            (* assert_eq! failed, unwrap on None *)
| PDrop              (* a destructor panicked *)
| POom               (* handle_alloc_error configured to panic *)
| PUser (n : nat).   (* a panic raised by user code *)

Inductive ub_reason :=
| UbArith            (* overflow in an unchecked arithmetic operation *)
| UbSize             (* invalid ValidSize / Layout created *)
| UbPtr              (* pointer offset out of the allocation *)
| UbMem              (* read or write out of bounds, of freed memory, or overlapping *)
| UbDealloc          (* deallocation with a wrong pointer or layout *)
| UbRef              (* misaligned or out-of-bounds reference *)
| UbIndex            (* get_unchecked out of range *)
| UbUninit           (* assume_init on an uninitialised place *)
| UbCapacity         (* writing past a Vec's capacity *)
| UbType.            (* the object is of another type: cannot happen in typed code *)

Inductive res (A : Type) :=
| Ok (a : A)
| Panic (r : panic_reason)
| Abort
| UB (r : ub_reason).
Arguments Ok {A}. Arguments Panic {A}. Arguments Abort {A}. Arguments UB {A}.

(** Environment: debug or release build; the allocator's answers, by call number ([None] = failure,
    [Some k] = success at address [max 1 k * align]); which destructor runs panic, by run number;
    whether [handle_alloc_error] unwinds (no_std) or aborts. *)
Class Config := {
  cfg_debug : bool;
  cfg_alloc : nat -> option Z;
  cfg_drop_panics : nat -> bool;
  cfg_oom_panics : bool }.

Definition M (A : Type) : Type := world -> res A * world.

Definition ret {A} (a : A) : M A := fun w => (Ok a, w).
Definition fail {A} (r : res A) : M A := fun w => (r, w).
Definition panic {A} (r : panic_reason) : M A := fun w => (Panic r, w).
Definition ub {A} (r : ub_reason) : M A := fun w => (UB r, w).

Definition bind {A B} (m : M A) (f : A -> M B) : M B := fun w =>
  match m w with
  | (Ok a, w') => f a w'
  | (Panic r, w') => (Panic r, w')
  | (Abort, w') => (Abort, w')
  | (UB r, w') => (UB r, w')
  end.

Declare Scope m_scope.
Delimit Scope m_scope with M.
Notation "x <- m ;; k" := (bind m (fun x => k))
  (at level 61, m at next level, right associativity) : m_scope.
Notation "' p <- m ;; k" := (bind m (fun p => k))
  (at level 61, p pattern, m at next level, right associativity) : m_scope.
Notation "m ;; k" := (bind m (fun _ => k)) (at level 61, right associativity) : m_scope.
Open Scope m_scope.

(** A drop guard: if [m] unwinds, [g] runs during the unwinding; a second panic aborts. *)
Definition on_unwind {A} (m : M A) (g : M unit) : M A := fun w =>
  match m w with
  | (Panic r, w') =>
      match g w' with
      | (Ok _, w'') => (Panic r, w'')
      | (Panic _, w'') => (Abort, w'')
      | (Abort, w'') => (Abort, w'')
      | (UB u, w'') => (UB u, w'')
      end
  | x => x
  end.

Definition get_w : M world := fun w => (Ok w, w).
Definition put_w (w : world) : M unit := fun _ => (Ok tt, w).

Definition set_heap (h : list (option block)) (w : world) : world :=
  World h (w_vecs w) (w_cells w) (w_drops w) (w_nalloc w) (w_moved w).
Definition set_vecs (v : list obj) (w : world) : world :=
  World (w_heap w) v (w_cells w) (w_drops w) (w_nalloc w) (w_moved w).
Definition set_cells (c : list (option wide)) (w : world) : world :=
  World (w_heap w) (w_vecs w) c (w_drops w) (w_nalloc w) (w_moved w).
Definition set_drops (d : list value) (w : world) : world :=
  World (w_heap w) (w_vecs w) (w_cells w) d (w_nalloc w) (w_moved w).
Definition bump_alloc (w : world) : world :=
  World (w_heap w) (w_vecs w) (w_cells w) (w_drops w) (S (w_nalloc w)) (w_moved w).
Definition add_moved (n : Z) (w : world) : world :=
  World (w_heap w) (w_vecs w) (w_cells w) (w_drops w) (w_nalloc w) (w_moved w + n).

(** List update at a position (no effect out of range). *)
Fixpoint upd {A} (l : list A) (i : nat) (x : A) : list A :=
  match l, i with
  | [], _ => []
  | _ :: r, O => x :: r
  | y :: r, S j => y :: upd r j x
  end.

(** Byte-range access to a block's data. *)
Definition sub (off n : Z) (l : list byte) : list byte :=
  firstn (Z.to_nat n) (skipn (Z.to_nat off) l).
Definition splice (off : Z) (bs l : list byte) : list byte :=
  firstn (Z.to_nat off) l ++ bs ++ skipn (Z.to_nat off + length bs) l.

Definition zlen {A} (l : list A) : Z := Z.of_nat (length l).

Definition heap_get (h : list (option block)) (b : nat) : option block :=
  match nth_error h b with Some (Some k) => Some k | _ => None end.

(** [n] bytes at [p]; zero bytes can be read anywhere. *)
Definition heap_read (h : list (option block)) (p : ptr) (n : Z) : option (list byte) :=
  if n =? 0 then Some []
  else match p with
       | Blk b off =>
           match heap_get h b with
           | Some k => if (0 <=? off) && (0 <=? n) && (off + n <=? zlen (b_data k))
                       then Some (sub off n (b_data k)) else None
           | None => None
           end
       | Raw _ => None
       end.

Definition heap_write (h : list (option block)) (p : ptr) (bs : list byte) : option (list (option block)) :=
  if zlen bs =? 0 then Some h
  else match p with
       | Blk b off =>
           match heap_get h b with
           | Some k => if (0 <=? off) && (off + zlen bs <=? zlen (b_data k))
                       then Some (upd h b (Some (Block (b_layout k) (b_base k) (splice off bs (b_data k)))))
                       else None
           | None => None
           end
       | Raw _ => None
       end.

Definition mem_read (p : ptr) (n : Z) : M (list byte) := fun w =>
  match heap_read (w_heap w) p n with
  | Some bs => (Ok bs, w)
  | None => (UB UbMem, w)
  end.

Definition mem_write (p : ptr) (bs : list byte) : M unit := fun w =>
  match heap_write (w_heap w) p bs with
  | Some h => (Ok tt, set_heap h w)
  | None => (UB UbMem, w)
  end.

(** [ptr::copy] (memmove). *)
Definition mem_copy (src dst : ptr) (n : Z) : M unit :=
  bs <- mem_read src n ;; mem_write dst bs.

(** [ptr::copy_nonoverlapping]: also undefined if the two ranges overlap. *)
Definition overlaps (p q : ptr) (n : Z) : bool :=
  match p, q with
  | Blk b o, Blk b' o' => Nat.eqb b b' && (0 <? n) && (o <? o' + n) && (o' <? o + n)
  | _, _ => false
  end.
Definition mem_copy_no (src dst : ptr) (n : Z) : M unit :=
  if overlaps src dst n then ub UbMem else mem_copy src dst n.

(** [ptr.add(n)] on a byte pointer: must stay inside (or one past) the allocation. *)
Definition ptr_add (p : ptr) (n : Z) : M ptr := fun w =>
  if n =? 0 then (Ok p, w)
  else match p with
       | Blk b off =>
           match heap_get (w_heap w) b with
           | Some k => if (0 <=? off + n) && (off + n <=? zlen (b_data k))
                       then (Ok (Blk b (off + n)), w) else (UB UbPtr, w)
           | None => (UB UbPtr, w)
           end
       | Raw _ => (UB UbPtr, w)
       end.

Definition is_aligned (x a : Z) : bool := x mod a =? 0.

(** The address of a pointer. *)
Definition ptr_addr (h : list (option block)) (p : ptr) : option Z :=
  match p with
  | Blk b off => match heap_get h b with Some k => Some (b_base k + off) | None => None end
  | Raw a => Some a
  end.

(** Creating a reference [&*wp]: non-null, aligned for the value, and in bounds for its size. *)
Definition ref_ok (t : ty) (h : list (option block)) (r : wide) : bool :=
  let size := size_of_val t (wm r) in
  match ptr_addr h (wp r) with
  | Some a => (0 <? a) && is_aligned a (align_of_val t (wm r))
              && match heap_read h (wp r) size with Some _ => true | None => false end
  | None => false
  end.
Definition make_ref (t : ty) (r : wide) : M wide := fun w =>
  if ref_ok t (w_heap w) r then (Ok r, w) else (UB UbRef, w).

(** Reading the value behind a reference. *)
Definition read_value (t : ty) (r : wide) : M value :=
  bs <- mem_read (wp r) (size_of_val t (wm r)) ;; ret (Value (wm r) bs).

Section WithConfig.
Context {C : Config}.

Definition dassert (b : bool) : M unit :=
  if cfg_debug && negb b then panic PDebugAssert else ret tt.

(** Running a destructor: logged, and may panic (after having run). *)
Definition drop_value (x : value) : M unit := fun w =>
  let w' := set_drops (w_drops w ++ [x]) w in
  if cfg_drop_panics (length (w_drops w)) then (Panic PDrop, w') else (Ok tt, w').

(** [ptr::drop_in_place]: the pointer must be valid and aligned. *)
Definition drop_in_place (t : ty) (r : wide) : M unit :=
  make_ref t r ;; x <- read_value t r ;; drop_value x.

(** A by-value argument [x] is dropped if [m] unwinds. *)
Definition owned {A} (x : value) (m : M A) : M A := on_unwind m (drop_value x).

(** [alloc::handle_alloc_error]. *)
Definition handle_alloc_error {A} : M A :=
  if cfg_oom_panics then panic POom else fail Abort.

Definition uninit (n : Z) : list byte := repeat Uninit (Z.to_nat n).

(** [Layout::from_size_align_unchecked]. *)
Definition layout_unchecked (size align : Z) : M layout :=
  if size <=? isize_max - (align - 1) then ret (Layout size align) else ub UbSize.

(** One allocator call answering the request [l] (nonzero size) with initial contents [data]. *)
Definition raw_alloc (l : layout) (data : list byte) : M (option ptr) := fun w =>
  match cfg_alloc (w_nalloc w) with
  | None => (Ok None, bump_alloc w)
  | Some k =>
      let blk := Block l (l_align l * Z.max 1 k) data in
      (Ok (Some (Blk (length (w_heap w)) 0)),
       set_heap (w_heap w ++ [Some blk]) (bump_alloc w))
  end.

(** [alloc::Global.allocate] / [alloc::alloc]: a request for zero bytes yields a dangling pointer.
    The returned length is exactly the requested size (as std's [Global] does). *)
Definition galloc (l : layout) : M (option ptr) :=
  if l_size l =? 0 then ret (Some (Raw (l_align l))) else raw_alloc l (uninit (l_size l)).

(** The live block that [p] was returned for with layout [l]. *)
Definition layout_eqb (a b : layout) : bool := (l_size a =? l_size b) && (l_align a =? l_align b).
Definition find_block (h : list (option block)) (p : ptr) (l : layout) : option (nat * block) :=
  match p with
  | Blk b 0 => match heap_get h b with
               | Some k => if layout_eqb (b_layout k) l then Some (b, k) else None
               | None => None
               end
  | _ => None
  end.

(** [alloc::Global.deallocate]. *)
Definition gdealloc (p : ptr) (l : layout) : M unit := fun w =>
  if l_size l =? 0 then (Ok tt, w)
  else match find_block (w_heap w) p l with
       | Some (b, _) => (Ok tt, set_heap (upd (w_heap w) b None) w)
       | None => (UB UbDealloc, w)
       end.

(** [alloc::Global.grow]: the old block is kept on failure; otherwise it is freed and its bytes are found at the
    start of the new block. A successful call moves the old bytes (real allocators may do better). *)
Definition ggrow (p : ptr) (old new : layout) : M (option ptr) :=
  if l_size new <? l_size old then ub UbSize
  else if l_size old =? 0 then galloc new
  else fun w =>
    match find_block (w_heap w) p old with
    | None => (UB UbDealloc, w)
    | Some (b, k) =>
        match raw_alloc new (b_data k ++ uninit (l_size new - l_size old)) w with
        | (Ok (Some q), w') =>
            (Ok (Some q), add_moved (l_size old) (set_heap (upd (w_heap w') b None) w'))
        | x => x
        end
    end.

(** [alloc::Global.shrink]. *)
Definition gshrink (p : ptr) (old new : layout) : M (option ptr) :=
  if l_size old <? l_size new then ub UbSize
  else if l_size new =? 0 then gdealloc p old ;; ret (Some (Raw (l_align new)))
  else fun w =>
    match find_block (w_heap w) p old with
    | None => (UB UbDealloc, w)
    | Some (b, k) =>
        match raw_alloc new (firstn (Z.to_nat (l_size new)) (b_data k)) w with
        | (Ok (Some q), w') =>
            (Ok (Some q), add_moved (l_size new) (set_heap (upd (w_heap w') b None) w'))
        | x => x
        end
    end.

(** A stack slot with the given contents: a block that needs no allocator call. *)
Definition stack_slot (l : layout) (data : list byte) : M ptr := fun w =>
  (Ok (Blk (length (w_heap w)) 0),
   set_heap (w_heap w ++ [Some (Block l (l_align l) data)]) w).
Definition stack_free (p : ptr) : M unit := fun w =>
  match p with
  | Blk b _ => (Ok tt, set_heap (upd (w_heap w) b None) w)
  | Raw _ => (Ok tt, w)
  end.

(** Captured local variables. *)
Definition new_cell : M nat := fun w =>
  (Ok (length (w_cells w)), set_cells (w_cells w ++ [None]) w).
Definition set_cell (c : nat) (x : wide) : M unit := fun w =>
  (Ok tt, set_cells (upd (w_cells w) c (Some x)) w).
Definition read_cell (c : nat) : M wide := fun w =>
  match nth_error (w_cells w) c with
  | Some (Some x) => (Ok x, w)
  | _ => (UB UbUninit, w)
  end.

(** Vector objects. *)
Definition new_obj (o : obj) : M nat := fun w =>
  (Ok (length (w_vecs w)), set_vecs (w_vecs w ++ [o]) w).
Definition set_obj (self : nat) (o : obj) : M unit := fun w =>
  (Ok tt, set_vecs (upd (w_vecs w) self o) w).
Definition get_s (self : nat) : M svec := fun w =>
  match nth_error (w_vecs w) self with Some (OS v) => (Ok v, w) | _ => (UB UbType, w) end.
Definition get_a (self : nat) : M avec := fun w =>
  match nth_error (w_vecs w) self with Some (OA v) => (Ok v, w) | _ => (UB UbType, w) end.
Definition get_u (self : nat) : M uvec := fun w =>
  match nth_error (w_vecs w) self with Some (OU v) => (Ok v, w) | _ => (UB UbType, w) end.

(** Unchecked arithmetic on [usize]. *)
Definition usub (a b : Z) : M Z := if b <=? a then ret (a - b) else ub UbArith.
Definition uadd (a b : Z) : M Z := if a + b <=? usize_max then ret (a + b) else ub UbArith.
Definition umul (a b : Z) : M Z := if a * b <=? usize_max then ret (a * b) else ub UbArith.

Fixpoint mapM {A B} (f : A -> M B) (l : list A) : M (list B) :=
  match l with
  | [] => ret []
  | x :: r => y <- f x ;; ys <- mapM f r ;; ret (y :: ys)
  end.

End WithConfig.

(** Results of the [try_reserve] family. *)
Inductive rerr := CapacityOverflow | AllocError.
Inductive rres := ROk | RErr (e : rerr).
