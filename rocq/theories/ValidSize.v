(** src/helper/valid_align.rs and src/helper/valid_size.rs. *)
From Coq Require Import ZArith List Bool.
From Verif Require Import Types World.
Import ListNotations.
Open Scope Z_scope.

(** [usize::is_power_of_two]. *)
Definition is_power_of_two (a : Z) : bool := (0 <? a) && (Z.land a (a - 1) =? 0).

(** src/helper/valid_align.rs:40-50 [ValidAlign::new]. *)
Definition valid_align_new (align : Z) : option Z :=
  if is_power_of_two align then Some align else None.

(** src/helper/valid_align.rs:79-82 [minus_1]. *)
Definition minus_1 (align : Z) : Z := align - 1.

(** src/helper/valid_align.rs:109-112 [dangling_thin]. *)
Definition dangling_thin (align : Z) : ptr := Raw align.

(** The bitwise complement [!x] of a [usize]. *)
Definition usize_not (x : Z) : Z := Z.lxor x usize_max.

(** src/helper/valid_size.rs:55-58 [ValidSize::<T>::MAX], with [align = T::ALIGN]. *)
Definition vs_max (align : Z) : Z := isize_max - (align - 1).

(** src/helper/valid_size.rs:81-87 [ValidSize::new]. *)
Definition vs_new (align size : Z) : option Z :=
  if size <=? vs_max align then Some size else None.

(** src/helper/valid_size.rs:69-73 [ValidSize::new_unchecked]. Breaking its safety contract is undefined
    behaviour in the model (the debug_assert on the same condition is not modelled separately). *)
Definition vs_new_unchecked (align size : Z) : M Z :=
  if size <=? vs_max align then ret size else ub UbSize.

(** src/helper/valid_size.rs:92-99 [new_squished]. *)
Definition vs_new_squished (align size : Z) : Z :=
  if size <=? vs_max align then size else vs_max align.

(** src/helper/valid_size.rs:109-115 [checked_add]. *)
Definition vs_checked_add (align a b : Z) : option Z :=
  if a + b <=? usize_max then vs_new align (a + b) else None.

(** src/helper/valid_size.rs:122-125 [unchecked_add], 132-135 [unchecked_sub]. *)
Definition vs_unchecked_add (align a b : Z) : M Z := bind (uadd a b) (vs_new_unchecked align).
Definition vs_unchecked_sub (align a b : Z) : M Z := bind (usub a b) (vs_new_unchecked align).

(** src/helper/valid_size.rs:139-143 [as_layout]. *)
Definition vs_layout (align size : Z) : layout := Layout size align.

(** [ValidSizeUnaligned] wraps [ValidSize<()>] (line 163), whose alignment is 1. *)
Notation vu_new := (vs_new 1).
Notation vu_new_unchecked := (vs_new_unchecked 1).
Notation vu_checked_add := (vs_checked_add 1).
Notation vu_unchecked_add := (vs_unchecked_add 1).
Notation vu_unchecked_sub := (vs_unchecked_sub 1).

(** src/helper/valid_size.rs:203-207 [max_for_align]. *)
Definition max_for_align (align : Z) : Z := isize_max - minus_1 align.

(** src/helper/valid_size.rs:211-221 [new_padded_to]. *)
Definition new_padded_to (size align : Z) : option Z :=
  let align_m_1 := minus_1 align in
  if size + align_m_1 <=? usize_max then
    let new := Z.land (size + align_m_1) (usize_not align_m_1) in
    vu_new new
  else None.

(** src/helper/valid_size.rs:226-234 [new_squished_to]. *)
Definition new_squished_to (size align : Z) : Z :=
  let max := max_for_align align in
  if size <=? max then size else max.

(** src/helper/valid_size.rs:268-276 [checked_pad_to]. *)
Definition checked_pad_to (x align : Z) : option Z :=
  let align_m_1 := minus_1 align in
  vu_new (Z.land (x + align_m_1) (usize_not align_m_1)).

(** src/helper/valid_size.rs:283-291 [unchecked_pad_to]. *)
Definition unchecked_pad_to (x align : Z) : M Z :=
  let align_m_1 := minus_1 align in
  bind (uadd x align_m_1) (fun sum => vu_new_unchecked (Z.land sum (usize_not align_m_1))).

(** src/helper/valid_size.rs:295-301 [checked_add_pad]. *)
Definition checked_add_pad (x rhs align : Z) : option Z :=
  if x + rhs <=? usize_max then new_padded_to (x + rhs) align else None.

(** src/helper/valid_size.rs:308-311 [as_layout_with_align_unchecked]. *)
Definition vu_layout (size align : Z) : M layout := layout_unchecked size align.
