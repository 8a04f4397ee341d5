(** src/lib.rs:1294-1344 and 1357-1360: the iterator methods that are forwarded to the provider's iterator. The iterators of
    aligned and unaligned vectors (src/inner/aligned.rs:686-809, src/inner/unaligned.rs:1076-1214) do not override them, so
    they are core's default methods, written here as loops over [next] and [next_back]. *)
From Coq Require Import ZArith List Bool.
From Verif Require Import Types World ValidSize Emplace SizedVec AlignedVec UnalignedVec Api.
Import ListNotations.
Open Scope Z_scope.
Open Scope m_scope.

(** A closure of the caller with its captured state; it looks at the item it is given. [None]: it panics. *)
Definition closure (S B : Type) := S -> value -> option (S * B).

Section WithConfig.
Context {C : Config}.

Definition call_closure {S B} (t : ty) (f : closure S B) (st : S) (r : wide) : M (S * B) :=
  x <- read_value t r ;;
  match f st x with Some y => ret y | None => panic (PUser 0) end.

(** [Iterator::try_fold] with a closure that may stop early; at most [fuel] items. All the methods below are instances, in
    core as well as for [slice::Iter], whose own versions are the same loops. *)
Fixpoint v_try_each {S B} (t : ty) (f : S -> wide -> M (S * option B)) (fuel : nat) (it : viter) (st : S)
  : M (option B * S * viter) :=
  match fuel with
  | O => ret (None, st, it)
  | S k =>
      '(x, it') <- v_next t it ;;
      match x with
      | None => ret (None, st, it')
      | Some r =>
          '(st', b) <- f st r ;;
          match b with
          | Some b => ret (Some b, st', it')
          | None => v_try_each t f k it' st'
          end
      end
  end.

(** 1294-1300 [for_each]. *)
Definition v_for_each {S} (t : ty) (f : closure S unit) (it : viter) (st : S) : M S :=
  '(_, st, _) <- v_try_each (B := unit) t (fun st r => '(st, _) <- call_closure t f st r ;; ret (st, None)) (v_iter_len it) it st ;;
  ret st.
(** 1302-1308 [all]. *)
Definition v_all {S} (t : ty) (f : closure S bool) (it : viter) (st : S) : M (bool * S * viter) :=
  '(b, st, it) <- v_try_each t (fun st r => '(st, b) <- call_closure t f st r ;; ret (st, if b then None else Some tt))
                    (v_iter_len it) it st ;;
  ret (match b with None => true | Some _ => false end, st, it).
(** 1310-1316 [any]. *)
Definition v_any {S} (t : ty) (f : closure S bool) (it : viter) (st : S) : M (bool * S * viter) :=
  '(b, st, it) <- v_try_each t (fun st r => '(st, b) <- call_closure t f st r ;; ret (st, if b then Some tt else None))
                    (v_iter_len it) it st ;;
  ret (match b with None => false | Some _ => true end, st, it).
(** 1318-1324 [find]: the item itself is returned. *)
Definition v_find {S} (t : ty) (f : closure S bool) (it : viter) (st : S) : M (option wide * S * viter) :=
  v_try_each t (fun st r => '(st, b) <- call_closure t f st r ;; ret (st, if b then Some r else None)) (v_iter_len it) it st.
(** 1326-1332 [find_map]. *)
Definition v_find_map {S B} (t : ty) (f : closure S (option B)) (it : viter) (st : S) : M (option B * S * viter) :=
  v_try_each t (fun st r => '(st, b) <- call_closure t f st r ;; ret (st, b)) (v_iter_len it) it st.
(** 1334-1340 [position]: the number of items passed over is counted. *)
Definition v_position {S} (t : ty) (f : closure S bool) (it : viter) (st : S) : M (option nat * S * viter) :=
  '(b, (st, _), it) <- v_try_each t (fun '(st, n) r => '(st, b) <- call_closure t f st r ;;
                                       ret ((st, Datatypes.S n), if b then Some n else None)) (v_iter_len it) it (st, O) ;;
  ret (b, st, it).

(** 1357-1360 [nth_back]: [advance_back_by], then [next_back]; the slice iterator computes the place. *)
Fixpoint v_advance_back (t : ty) (n : nat) (it : viter) : M (bool * viter) :=
  match n with
  | O => ret (true, it)
  | S k =>
      '(x, it') <- v_next_back t it ;;
      match x with None => ret (false, it') | Some _ => v_advance_back t k it' end
  end.
Definition v_nth_back (t : ty) (n : nat) (it : viter) : M (option wide * viter) :=
  match it with
  | VS si =>
      if Z.of_nat n <? si_hi si - si_lo si
      then v_next_back t (VS (SIter (si_ptr si) (si_lo si) (si_hi si - Z.of_nat n)))
      else ret (None, VS (SIter (si_ptr si) (si_lo si) (si_lo si)))
  | _ =>
      '(ok, it) <- v_advance_back t n it ;;
      if (ok : bool) then v_next_back t it else ret (None, it)
  end.

(** src/lib.rs:1439-1447 [Debug], not alternate: core's [DebugList] over a formatter with a fallible [put] and fallible
    formatting of elements. After an error the remaining items are passed over. *)
Fixpoint v_debug_loop {F E} (t : ty) (put : F -> list Z -> F + E) (elem : F -> value -> F + E) (fuel : nat) (it : viter)
    (has_fields : bool) (r : F + E) : M (F + E) :=
  match fuel with
  | O => ret r
  | S k =>
      '(x, it') <- v_next t it ;;
      match x with
      | None => ret r
      | Some ref =>
          y <- read_value t ref ;;
          let r' := match r with
                    | inr e => inr e
                    | inl f => match (if has_fields then put f [44; 32] else inl f) with inr e => inr e | inl f => elem f y end
                    end in
          v_debug_loop t put elem k it' true r'
      end
  end.
Definition v_debug {F E} (t : ty) (put : F -> list Z -> F + E) (elem : F -> value -> F + E) (self : nat) (f : F) : M (F + E) :=
  let r := put f [91] in
  it <- v_iter t self ;;
  r <- v_debug_loop t put elem (v_iter_len it) it false r ;;
  ret (match r with inr e => inr e | inl f => put f [93] end).

(** The same in the alternate format ([{:#?}]): core's [PadAdapter] between the element and the formatter. An element is
    printed as some pieces of text, one [write_str] each, and stops at the first that is refused.
    [str::split_inclusive] at newlines: *)
Fixpoint split_lines (s : list Z) : list (list Z) :=
  match s with
  | [] => []
  | c :: r =>
      if c =? 10 then [c] :: split_lines r
      else match split_lines r with [] => [[c]] | p :: ps => (c :: p) :: ps end
  end.
(** [PadAdapter::write_str]: four spaces before every line; the flag says whether a line begins. *)
Fixpoint pad_lines {F E} (put : F -> list Z -> F + E) (ls : list (list Z)) (nl : bool) (f : F) : (F * bool) + E :=
  match ls with
  | [] => inl (f, nl)
  | s :: r =>
      match (if nl then put f [32; 32; 32; 32] else inl f) with
      | inr e => inr e
      | inl f => match put f s with inr e => inr e | inl f => pad_lines put r (last s 0 =? 10) f end
      end
  end.
Definition pad_write {F E} (put : F -> list Z -> F + E) (s : list Z) (nl : bool) (f : F) : (F * bool) + E :=
  pad_lines put (split_lines s) nl f.
Fixpoint pad_texts {F E} (put : F -> list Z -> F + E) (ss : list (list Z)) (nl : bool) (f : F) : (F * bool) + E :=
  match ss with
  | [] => inl (f, nl)
  | s :: r => match pad_write put s nl f with inr e => inr e | inl (f, nl) => pad_texts put r nl f end
  end.
(** core's [DebugInner::entry] with [is_pretty()]. *)
Definition pretty_entry {F E} (put : F -> list Z -> F + E) (text : list (list Z)) (has_fields : bool) (r : F + E) : F + E :=
  match r with
  | inr e => inr e
  | inl f =>
      match (if has_fields then inl f else put f [10]) with
      | inr e => inr e
      | inl f => match pad_texts put (text ++ [[44; 10]]) true f with inr e => inr e | inl (f, _) => inl f end
      end
  end.
Fixpoint v_pretty_loop {F E} (t : ty) (put : F -> list Z -> F + E) (text : value -> list (list Z)) (fuel : nat) (it : viter)
    (has_fields : bool) (r : F + E) : M (F + E) :=
  match fuel with
  | O => ret r
  | S k =>
      '(x, it') <- v_next t it ;;
      match x with
      | None => ret r
      | Some ref =>
          y <- read_value t ref ;;
          v_pretty_loop t put text k it' true (pretty_entry put (text y) has_fields r)
      end
  end.
Definition v_debug_pretty {F E} (t : ty) (put : F -> list Z -> F + E) (text : value -> list (list Z)) (self : nat) (f : F) : M (F + E) :=
  let r := put f [91] in
  it <- v_iter t self ;;
  r <- v_pretty_loop t put text (v_iter_len it) it false r ;;
  ret (match r with inr e => inr e | inl f => put f [93] end).
End WithConfig.
