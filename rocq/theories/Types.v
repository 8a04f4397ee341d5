(** Types, pointer metadata, values and vector objects.

    The model fixes a 64-bit target ([target_pointer_width = 64]); the sources also support 16 and 32 bits
    (src/helper/valid_align.rs:174-302).  [usize] values are [Z]s in [0, usize_max]. *)
From Coq Require Import ZArith List Bool.
Import ListNotations.
Open Scope Z_scope.

(** [usize::MAX] and [isize::MAX] on a 64-bit target. *)
Notation usize_max := 18446744073709551615.
Notation isize_max := 9223372036854775807.
(** [1 << (usize::BITS - 1)], the largest alignment (src/lib.rs:693). *)
Notation max_align := 9223372036854775808.

(** Element types [T].  The three implementations of [UnsizedVec<T>] are selected by [T]
    (src/inner.rs:208-220, src/inner/aligned.rs:682, src/inner/sized.rs:331, src/inner/unaligned.rs:1072). *)
Inductive ty :=
| TSized (size align : Z)      (* any Sized type *)
| TSlice (esize ealign : Z)    (* [E] where E has this size and alignment *)
| TStr                         (* str: bytes, alignment 1, metadata is the length *)
| TCStr                        (* CStr: like str (metadata counts the trailing nul), but see [static_align] *)
| TDyn                         (* dyn Trait: metadata is a vtable that fixes size and alignment *)
| TTail (hsize esize al : Z).  (* struct with a slice tail (OsStr, Path, user structs): size/align from length *)

(** Pointer metadata, [<T as Pointee>::Metadata]. A vtable is given by an identity, a size and an alignment. *)
Inductive meta :=
| MUnit
| MLen (n : Z)
| MVt (id : nat) (size align : Z).

(** Which provider implements [UnsizedVec<T>]. *)
Inductive kind := KSized | KAligned | KUnaligned.
Definition kind_of (t : ty) : kind :=
  match t with
  | TSized _ _ => KSized
  | TSlice _ _ | TStr | TCStr => KAligned
  | TDyn | TTail _ _ _ => KUnaligned
  end.

(** Rounding up to a multiple of [a], arithmetically (specification; the bit-level code is in ValidSize.v). *)
Definition pad (x a : Z) : Z := ((x + a - 1) / a) * a.

(** [mem::size_of_val] / [mem::align_of_val] on a pointer with the given metadata (language semantics).
    Ill-typed metadata gets size 0, alignment 1; [wf_meta] below excludes it. *)
Definition size_of_val (t : ty) (m : meta) : Z :=
  match t, m with
  | TSized s _, MUnit => s
  | TSlice es _, MLen n => n * es
  | TStr, MLen n => n
  | TCStr, MLen n => n
  | TDyn, MVt _ s _ => s
  | TTail h es a, MLen n => pad (h + n * es) a
  | _, _ => 0
  end.
Definition align_of_val (t : ty) (m : meta) : Z :=
  match t, m with
  | TSized _ a, MUnit => a
  | TSlice _ a, MLen _ => a
  | TDyn, MVt _ _ a => a
  | TTail _ _ a, MLen _ => a
  | _, _ => 1
  end.

(** [<T as Aligned>::ALIGN] (src/marker.rs:14-44); only meaningful for the sized and aligned kinds.
    For CStr the source takes [mem::align_of_val(&c"")], where [c""] already is a reference, so the constant is the
    alignment of a reference (8), not of CStr (1). *)
Definition static_align (t : ty) : Z :=
  match t with
  | TSized _ a => a
  | TSlice _ a => a
  | TCStr => 8
  | _ => 1
  end.

(** src/helper.rs:32-74: the part of the metadata that is stored beside the end offset: nothing for types whose
    metadata can be recomputed from the size ([MetadataFromSize]: sized types and slices), all of it otherwise. *)
Inductive rem := RUnit | RFull (m : meta).

(** src/helper.rs:44, 55 [from_metadata]. *)
Definition from_metadata (t : ty) (m : meta) : rem :=
  match t with
  | TSized _ _ | TSlice _ _ => RUnit
  | _ => RFull m
  end.

(** src/helper.rs:16-25 [MetadataFromSize::from_size] and 49, 58 [as_metadata].
    [checked_div(size_of::<T>()).unwrap_or(0)]: length 0 for zero-sized elements. *)
Definition from_size (t : ty) (size : Z) : meta :=
  match t with
  | TSlice es _ => if es =? 0 then MLen 0 else MLen (size / es)
  | _ => MUnit
  end.
Definition as_metadata (t : ty) (r : rem) (size : Z) : meta :=
  match r with
  | RUnit => from_size t size
  | RFull m => m
  end.

(** [size_of::<ElementInfo<T>>()]: one word when the remainder is [()], two otherwise. *)
Definition info_size (t : ty) : Z :=
  match t with
  | TSized _ _ | TSlice _ _ => 8
  | _ => 16
  end.

(** src/inner/aligned.rs:23-31 and src/inner/unaligned.rs:26-38 [ElementInfo]. *)
Record info := Info { i_rem : rem; i_end : Z }.

(** A byte of memory: uninitialised, a number, or the [i]-th byte of a pointer to block [b]. *)
Inductive byte := Uninit | Byte (n : Z) | Frag (b : nat) (i : nat).

(** A value of some type [T]: its metadata and its object representation. *)
Record value := Value { v_meta : meta; v_bytes : list byte }.

Record layout := Layout { l_size : Z; l_align : Z }.

(** Pointers: into a block at an offset, or without provenance (dangling, or null when [addr = 0]). *)
Inductive ptr := Blk (b : nat) (off : Z) | Raw (addr : Z).
Definition null : ptr := Raw 0.
Definition is_null (p : ptr) : bool := match p with Raw 0 => true | _ => false end.

(** Wide pointer / reference: [*mut T] for possibly unsized [T]. *)
Record wide := Wide { wp : ptr; wm : meta }.

(** The std [Vec<T>] used for Sized [T] (src/inner/sized.rs:18). For a zero-sized [T] the field [sv_cap] is 0
    and [capacity()] answers [usize::MAX]. *)
Record svec := SVec { sv_ptr : ptr; sv_cap : Z; sv_len : Z }.

(** src/inner/aligned.rs:41-46 [AlignedVecInner]. The element-info [Vec] is a list plus its capacity; its own heap
    block is not modelled (its allocations are counted and can fail). *)
Record avec := AVec { av_ptr : ptr; av_bcap : Z; av_infos : list info; av_icap : Z }.

(** src/inner/unaligned.rs:48-57 [UnalignedVecInner]. *)
Record uvec := UVec { uv_ptr : ptr; uv_bcap : Z; uv_infos : list info; uv_icap : Z; uv_align : Z }.

(** A vector object that [&mut self] refers to. *)
Inductive obj := OS (v : svec) | OA (v : avec) | OU (v : uvec) | ODead.

(** Well-formedness that the language guarantees for types, metadata and values. *)
Definition pow2 (a : Z) : Prop := exists k, 0 <= k <= 63 /\ a = 2 ^ k.

Definition valid_layout (size align : Z) : Prop :=
  0 <= size /\ pow2 align /\ size <= isize_max - (align - 1).

Definition wf_ty (t : ty) : Prop :=
  match t with
  | TSized s a => valid_layout s a /\ s mod a = 0
  | TSlice s a => valid_layout s a /\ s mod a = 0
  | TStr => True
  | TCStr => True
  | TDyn => True
  | TTail h es a => 0 <= h /\ 0 <= es /\ pow2 a
  end.

Definition wf_meta (t : ty) (m : meta) : Prop :=
  valid_layout (size_of_val t m) (align_of_val t m)
  /\ size_of_val t m mod align_of_val t m = 0
  /\ match t, m with
     | TSized _ _, MUnit => True
     | TSlice _ _, MLen n => 0 <= n <= usize_max
     | TStr, MLen n => 0 <= n
     | TCStr, MLen n => 0 <= n
     | TDyn, MVt _ _ _ => True
     | TTail _ _ _, MLen n => 0 <= n
     | _, _ => False
     end.

Definition vsize (t : ty) (x : value) : Z := size_of_val t (v_meta x).
Definition valign (t : ty) (x : value) : Z := align_of_val t (v_meta x).

Definition wf_value (t : ty) (x : value) : Prop :=
  wf_meta t (v_meta x) /\ Z.of_nat (length (v_bytes x)) = vsize t x.

(** The layout of a value, [Layout::for_value]. *)
Definition layout_of (t : ty) (x : value) : layout := Layout (vsize t x) (valign t x).
