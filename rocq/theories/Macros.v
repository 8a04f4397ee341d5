(** The macros [unsized_vec!] and [unsize_vec!] with any mixture of arguments. *)
From Coq Require Import ZArith List Bool.
From Verif Require Import Types World Emplace SizedVec AlignedVec UnalignedVec Api Convert.
Import ListNotations.
Open Scope Z_scope.
Open Scope m_scope.

(** An argument: a value of the element type or an emplacable (src/lib.rs:1546-1562, [PushToUnsizedVec]), or for [unsize_vec!] a
    Sized value with its size and alignment and the metadata of its coercion. *)
Inductive item :=
| IValue (x : value)
| IEmplacable (e : emplacable)
| ICoerce (s a : Z) (m : meta) (x : value).

Section WithConfig.
Context {C : Config}.

Definition v_push_item (t : ty) (self : nat) (i : item) : M unit :=
  match i with
  | IValue x => v_push t self x
  | IEmplacable e => v_push_with t self e
  | ICoerce s a m x => v_push_unsize s a t m self x
  end.
(** src/lib.rs:1589-1600, 1620-1630: [let mut ret = UnsizedVec::new()], one call per argument, [ret]. An argument is evaluated when
    its turn comes; after a panic the later ones are never evaluated. *)
Fixpoint v_push_items (t : ty) (self : nat) (is : list item) : M unit :=
  match is with
  | [] => ret tt
  | i :: r => v_push_item t self i ;; v_push_items t self r
  end.
Definition v_of_items (t : ty) (is : list item) : M nat :=
  v <- v_new t ;;
  on_unwind (v_push_items t v is) (v_drop t v) ;;
  ret v.
End WithConfig.
