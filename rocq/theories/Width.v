(** src/helper/valid_align.rs and src/helper/valid_size.rs for every pointer width the crate supports. The rest of the model
    is about 64-bit targets (ValidSize.v); PropWidth.v shows that at that width the two descriptions agree. *)
From Coq Require Import ZArith List Bool.
From Verif Require Import Types.
Import ListNotations.
Open Scope Z_scope.

(** [target_pointer_width]. *)
Inductive width := W16 | W32 | W64.
Definition bits (p : width) : Z := match p with W16 => 16 | W32 => 32 | W64 => 64 end.
Definition umax (p : width) : Z := 2 ^ bits p - 1.
Definition imax (p : width) : Z := 2 ^ (bits p - 1) - 1.

(** The value of a [const fn], or undefined behaviour. *)
Inductive calc (A : Type) := Val (x : A) | Undef.
Arguments Val {A}. Arguments Undef {A}.
Definition also {A B} (m : calc A) (f : A -> calc B) : calc B := match m with Val x => f x | Undef => Undef end.
Notation "x <~ m ;; k" := (also m (fun x => k)) (at level 61, m at next level, right associativity).

(** [usize::checked_add], [unchecked_add], [unchecked_sub] and [!]. *)
Definition c_add (p : width) (a b : Z) : option Z := if a + b <=? umax p then Some (a + b) else None.
Definition u_add (p : width) (a b : Z) : calc Z := if a + b <=? umax p then Val (a + b) else Undef.
Definition u_sub (a b : Z) : calc Z := if b <=? a then Val (a - b) else Undef.
Definition u_not (p : width) (a : Z) : Z := Z.lxor a (umax p).
(** [usize::count_ones], [is_power_of_two] and [NonZeroUsize::trailing_zeros]. *)
Fixpoint ones_of (q : positive) : Z := match q with xH => 1 | xO q => ones_of q | xI q => ones_of q + 1 end.
Definition count_ones (a : Z) : Z := match a with Z0 => 0 | Zpos q | Zneg q => ones_of q end.
Definition power_of_two (a : Z) : bool := count_ones a =? 1.
Fixpoint zeros_of (q : positive) : Z := match q with xO q => zeros_of q + 1 | _ => 0 end.
Definition trailing_zeros (a : Z) : Z := match a with Z0 => 0 | Zpos q | Zneg q => zeros_of q end.

(** The discriminants of [ValidAlignEnum]: src/helper/valid_align.rs:174-194, 196-232, 234-302. *)
Definition discriminants (p : width) : list Z :=
  map (Z.shiftl 1) match p with
  | W16 => [0; 1; 2; 3; 4; 5; 6; 7; 8; 9; 10; 11; 12; 13; 14; 15]
  | W32 => [0; 1; 2; 3; 4; 5; 6; 7; 8; 9; 10; 11; 12; 13; 14; 15; 16; 17; 18; 19; 20; 21; 22; 23; 24; 25; 26; 27; 28; 29; 30; 31]
  | W64 => [0; 1; 2; 3; 4; 5; 6; 7; 8; 9; 10; 11; 12; 13; 14; 15; 16; 17; 18; 19; 20; 21; 22; 23; 24; 25; 26; 27; 28; 29; 30; 31;
            32; 33; 34; 35; 36; 37; 38; 39; 40; 41; 42; 43; 44; 45; 46; 47; 48; 49; 50; 51; 52; 53; 54; 55; 56; 57; 58; 59; 60; 61; 62; 63]
  end.

(** src/helper/valid_align.rs:64-68 [new_unckecked]: transmuting to an enum anything but a discriminant is undefined. *)
Definition va_new_unchecked (p : width) (align : Z) : calc Z :=
  if existsb (Z.eqb align) (discriminants p) then Val align else Undef.
(** 40-50 [new]. *)
Definition va_new (p : width) (align : Z) : calc (option Z) :=
  if power_of_two align then a <~ va_new_unchecked p align ;; Val (Some a) else Val None.
(** 79-82 [minus_1]. *)
Definition va_minus_1 (a : Z) : calc Z := u_sub a 1.
(** 86-89 [as_nonzero]: [NonZeroUsize::new_unchecked]. *)
Definition va_nonzero (a : Z) : calc Z := if a =? 0 then Undef else Val a.
(** 102-104 [log2]. *)
Definition va_log2 (a : Z) : calc Z := n <~ va_nonzero a ;; Val (trailing_zeros n).
(** 109-112 [dangling_thin]: the address; [NonNull::new_unchecked]. *)
Definition va_dangling (a : Z) : calc Z := if a =? 0 then Undef else Val a.
(** 142-163 [PartialEq], [Ord]; 165-171 [Hash] hands [as_nonzero()] to the hasher. *)
Definition va_eq (a b : Z) : bool := a =? b.
Definition va_cmp (a b : Z) : comparison := a ?= b.
Definition va_hashed (a : Z) : calc Z := va_nonzero a.

(** src/helper/valid_size.rs:55-58 [MAX]: a constant, plain subtractions, overflow would not compile. *)
Definition sz_max (p : width) (al : Z) : calc Z := a <~ u_sub al 1 ;; u_sub (imax p) a.
(** 69-73 [new_unchecked]. Breaking the contract counts as undefined. *)
Definition sz_new_unchecked (p : width) (al size : Z) : calc Z :=
  m <~ sz_max p al ;; if size <=? m then Val size else Undef.
(** 81-87 [new]. *)
Definition sz_new (p : width) (al size : Z) : calc (option Z) :=
  m <~ sz_max p al ;; Val (if size <=? m then Some size else None).
(** 92-99 [new_squished]. *)
Definition sz_squished (p : width) (al size : Z) : calc Z :=
  m <~ sz_max p al ;; if size <=? m then sz_new_unchecked p al size else Val m.
(** 109-115 [checked_add]. *)
Definition sz_checked_add (p : width) (al a b : Z) : calc (option Z) :=
  match c_add p a b with Some s => sz_new p al s | None => Val None end.
(** 122-125 [unchecked_add], 132-135 [unchecked_sub]. *)
Definition sz_unchecked_add (p : width) (al a b : Z) : calc Z := s <~ u_add p a b ;; sz_new_unchecked p al s.
Definition sz_unchecked_sub (p : width) (al a b : Z) : calc Z := s <~ u_sub a b ;; sz_new_unchecked p al s.
(** [Layout::from_size_align_unchecked]: the alignment is a power of two, the padded size fits in an [isize]. *)
Definition layout_of (p : width) (size al : Z) : calc (Z * Z) :=
  if power_of_two al && (size <=? imax p - (al - 1)) then Val (size, al) else Undef.
(** 139-143 [as_layout], 147-150 [as_unaligned]. *)
Definition sz_layout (p : width) (al size : Z) : calc (Z * Z) := layout_of p size al.
Definition sz_unaligned (p : width) (size : Z) : calc Z := sz_new_unchecked p 1 size.

(** [ValidSizeUnaligned], lines 160-320: a [ValidSize<()>]. 203-207 [max_for_align]. *)
Definition un_max_for (p : width) (a : Z) : calc Z :=
  a1 <~ va_minus_1 a ;; m <~ u_sub (imax p) a1 ;; sz_new_unchecked p 1 m.
(** 211-221 [new_padded_to]. *)
Definition un_new_padded (p : width) (size a : Z) : calc (option Z) :=
  a1 <~ va_minus_1 a ;;
  match c_add p size a1 with
  | None => Val None
  | Some sum => sz_new p 1 (Z.land sum (u_not p a1))
  end.
(** 226-234 [new_squished_to]. *)
Definition un_squished (p : width) (size a : Z) : calc Z :=
  m <~ un_max_for p a ;; if size <=? m then sz_new_unchecked p 1 size else Val m.
(** 268-276 [checked_pad_to]. *)
Definition un_checked_pad (p : width) (x a : Z) : calc (option Z) :=
  a1 <~ va_minus_1 a ;; sum <~ u_add p x a1 ;; sz_new p 1 (Z.land sum (u_not p a1)).
(** 283-291 [unchecked_pad_to]. *)
Definition un_unchecked_pad (p : width) (x a : Z) : calc Z :=
  a1 <~ va_minus_1 a ;; sum <~ u_add p x a1 ;; sz_new_unchecked p 1 (Z.land sum (u_not p a1)).
(** 295-301 [checked_add_pad]. *)
Definition un_checked_add_pad (p : width) (x rhs a : Z) : calc (option Z) :=
  match c_add p x rhs with Some sum => un_new_padded p sum a | None => Val None end.
(** 308-311 [as_layout_with_align_unchecked]. *)
Definition un_layout (p : width) (size a : Z) : calc (Z * Z) := layout_of p size a.
