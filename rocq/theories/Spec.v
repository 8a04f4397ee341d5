(** Specification vocabulary: what a user can observe, and the plain sequences it is compared with.
    Nothing here mentions the representation of vectors. *)
From Coq Require Import ZArith List Bool.
From Verif Require Import Types World Emplace SizedVec AlignedVec UnalignedVec Api.
Import ListNotations.
Open Scope Z_scope.
Open Scope m_scope.

(** Operations on plain sequences. *)
Definition insert_at {A} (i : nat) (x : A) (l : list A) : list A := firstn i l ++ x :: skipn i l.
Definition remove_at {A} (i : nat) (l : list A) : list A := firstn i l ++ skipn (S i) l.
Definition replace_at {A} (i : nat) (x : A) (l : list A) : list A := firstn i l ++ x :: skipn (S i) l.

(** Calls on an iterator, and what they do to the sequence [m] of items still to come. *)
Inductive icall := Next | NextBack | Nth (n : nat).
Definition dq_step {A} (c : icall) (m : list A) : option A * list A :=
  match c with
  | Next => (hd_error m, tl m)
  | NextBack => (hd_error (rev m), removelast m)
  | Nth n => (nth_error m n, skipn (S n) m)
  end.
(** Each call's result together with the number of items then left, and the items left at the end. *)
Fixpoint dq_run {A} (cs : list icall) (m : list A) : list (option A * nat) * list A :=
  match cs with
  | [] => ([], m)
  | c :: cs => let (x, m') := dq_step c m in
               let (xs, m'') := dq_run cs m' in ((x, length m') :: xs, m'')
  end.
(** The items handed out. *)
Definition somes {A} (rs : list (option A * nat)) : list A :=
  flat_map (fun r => match fst r with Some x => [x] | None => [] end) rs.

Section WithConfig.
Context {C : Config}.

(** The same calls made on an iterator of a vector; the results are references, with [len()] after each call. *)
Definition v_call (t : ty) (c : icall) (it : viter) : M (option wide * viter) :=
  match c with Next => v_next t it | NextBack => v_next_back t it | Nth n => v_nth t it n end.
Fixpoint v_calls (t : ty) (cs : list icall) (it : viter) : M (list (option wide * nat) * viter) :=
  match cs with
  | [] => ret ([], it)
  | c :: cs => '(x, it') <- v_call t c it ;;
               '(xs, it'') <- v_calls t cs it' ;; ret ((x, v_iter_len it') :: xs, it'')
  end.
Definition read_opt (t : ty) (o : option wide) : M (option value) :=
  match o with None => ret None | Some r => x <- read_value t r ;; ret (Some x) end.
Definition read_item (t : ty) (r : option wide * nat) : M (option value * nat) :=
  x <- read_opt t (fst r) ;; ret (x, snd r).
(** [v.iter()], the calls [cs], and then every item read through its reference. *)
Definition v_visit (t : ty) (self : nat) (cs : list icall) : M (list (option value * nat)) :=
  it <- v_iter t self ;;
  '(rs, _) <- v_calls t cs it ;;
  mapM (read_item t) rs.
(** Calls, then [last()]. *)
Definition v_visit_last (t : ty) (self : nat) (cs : list icall) : M (option value) :=
  it <- v_iter t self ;;
  '(_, it) <- v_calls t cs it ;;
  x <- v_last t it ;;
  read_opt t x.

(** Everything a user can see of a vector's contents: [len()], then [v[0]], [v[1]], ... read through the reference. *)
Definition v_view (t : ty) (self : nat) : M (list value) :=
  n <- v_len t self ;;
  mapM (fun i => r <- v_index t self i ;; read_value t r) (seq 0 (Z.to_nat n)).

(** The vector [self] of type [UnsizedVec<t>] shows exactly the sequence [l]. *)
Definition shows (t : ty) (self : nat) (l : list value) (w : world) : Prop :=
  v_view t self w = (Ok l, w).

End WithConfig.
