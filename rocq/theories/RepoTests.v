(** The repository's own tests, run in the model: tests/test.rs, emplacable/tests/test.rs, src/bin/stress.rs,
    examples/rust-book-17-02.rs, the example of README.md and the examples in the documentation, in a debug build as [cargo test] makes. They test the model, not
    the code: these programs are expected to pass, so a model in which one of them fails would be wrong. Everything is dropped
    at the end, as in the Rust programs, and [passes] also says that no heap block is left. *)
From Coq Require Import ZArith List Bool Lia.
From Verif Require Import Types World Emplace SizedVec AlignedVec UnalignedVec Api Spec Adaptors Convert Macros Findings Wp Orep Repr Push Obs Build PropPush PropReserve.
Import ListNotations.
Open Scope Z_scope.
Open Scope m_scope.

Local Existing Instance cfg_dbg.

Definition byte_eqb (a b : byte) : bool :=
  match a, b with Byte x, Byte y => x =? y | _, _ => false end.
Fixpoint bytes_eqb (a b : list byte) : bool :=
  match a, b with [], [] => true | x :: a, y :: b => byte_eqb x y && bytes_eqb a b | _, _ => false end.

Definition assert (b : bool) : M unit := if b then ret tt else panic (PUser 0).
Definition unwrap {A} (o : option A) : M A := match o with Some a => ret a | None => panic (PUser 1) end.
(** [assert_eq!(&vec[i], x)] and [assert_eq!( *b, x)]. *)
Definition at_is (t : ty) (v i : nat) (bs : list byte) : M unit :=
  r <- v_index t v i ;; y <- read_value t r ;; assert (bytes_eqb (v_bytes y) bs).
Definition box_is (t : ty) (b : wide) (bs : list byte) : M unit :=
  b <- make_ref t b ;; y <- read_value t b ;; assert (bytes_eqb (v_bytes y) bs).
Definition len_is (t : ty) (v : nat) (n : Z) : M unit := k <- v_len t v ;; assert (k =? n).
(** [let obj: Box<t> = Box::new(x); f( *obj)]: the value is moved out of the box, then the box is freed. *)
Definition unboxed (t : ty) (x : value) (f : value -> M unit) : M unit :=
  b <- box_new t x ;; y <- read_value t b ;; f y ;; box_dealloc t b.
Definition boxed_pop (t : ty) (v : nat) : M wide :=
  e <- v_pop_into t v ;; e <- unwrap e ;; box_new_with e.

Definition i32s (l : list Z) : list byte := concat (map (fun n => le_bytes 4 (n mod 4294967296)) l).
Definition slice32 (l : list Z) : value := Value (MLen (Z.of_nat (length l))) (i32s l).
Definition array32 (l : list Z) : value := Value MUnit (i32s l).
(** A box is a word that is not looked into: [Box<i32>] is represented by the number it points to. *)
Definition boxes (l : list Z) : list byte := concat (map (fun n => le_bytes 8 (n mod 18446744073709551616)) l).
Definition slice_box (l : list Z) : value := Value (MLen (Z.of_nat (length l))) (boxes l).

Definition passes (m : M unit) (drops : nat) : Prop :=
  exists w, m empty_world = (Ok tt, w) /\ forallb (fun b => match b with None => true | Some _ => false end) (w_heap w) = true /\
            length (w_drops w) = drops.
Ltac pass := eexists; split; [run|]; split; run.

Definition TI32s := TSlice 4 4.
Definition push_i32s (v : nat) (l : list Z) : M unit :=
  v_push_unsize (4 * Z.of_nat (length l)) 4 TI32s (MLen (Z.of_nat (length l))) v (array32 l).

(** tests/test.rs:9-21 *)
Definition test_capacity_growth : M unit :=
  v <- v_with_capacity_bytes TI32s 6 (4 * 15) ;;
  push_i32s v [] ;;
  push_i32s v [1] ;;
  push_i32s v [1; 2] ;;
  push_i32s v [1; 2; 3] ;;
  push_i32s v [1; 2; 3; 4] ;;
  push_i32s v [1; 2; 3; 4; 5] ;;
  n <- v_byte_capacity TI32s v ;;
  assert (n =? 4 * 15) ;;
  v_drop TI32s v.
Example test_capacity_growth_passes : passes test_capacity_growth 6.
Proof. pass. Qed.

(** 23-27 *)
Definition emplacable_from : M unit :=
  a <- box_new_with (emplacable_of_value (TSized 4 4) (array32 [3])) ;;
  box_is (TSized 4 4) a (i32s [3]) ;;
  box_drop (TSized 4 4) a.
Example emplacable_from_passes : passes emplacable_from 1.
Proof. pass. Qed.

(** 29-43 *)
Definition test_sized : M unit :=
  let t := TSized 4 4 in
  vec <- v_new t ;;
  len_is t vec 0 ;;
  v_push t vec (array32 [32]) ;;
  len_is t vec 1 ;;
  at_is t vec 0 (i32s [32]) ;;
  v_shrink_to_fit t vec ;;
  v_push t vec (array32 [34]) ;;
  len_is t vec 2 ;;
  at_is t vec 1 (i32s [34]) ;;
  v_drop t vec.
Example test_sized_passes : passes test_sized 2.
Proof. pass. Qed.

(** 47-110 *)
Definition test_unsized_drop : M unit :=
  let t := TSlice 8 8 in
  vec <- v_new t ;;
  len_is t vec 0 ;;
  unboxed t (slice_box [1; 2]) (v_push t vec) ;;
  len_is t vec 1 ;;
  at_is t vec 0 (boxes [1; 2]) ;;
  unboxed t (slice_box []) (v_push t vec) ;;
  at_is t vec 1 [] ;;
  unboxed t (slice_box [4; 7; 3]) (v_push t vec) ;;
  r <- v_index t vec 2 ;;
  p <- ptr_add (wp r) 8 ;; mem_write p (boxes [19]) ;;
  at_is t vec 2 (boxes [4; 19; 3]) ;;
  popped <- boxed_pop t vec ;;
  box_is t popped (boxes [4; 19; 3]) ;;
  unboxed t (slice_box [4; 7; 3; 4; 5; 6; 6; -1]) (v_insert t vec 0) ;;
  at_is t vec 0 (boxes [4; 7; 3; 4; 5; 6; 6; -1]) ;;
  at_is t vec 1 (boxes [1; 2]) ;;
  at_is t vec 2 [] ;;
  v_shrink_to_fit t vec ;;
  e <- v_remove_into t vec 1 ;; removed <- box_new_with e ;;
  box_is t removed (boxes [1; 2]) ;;
  at_is t vec 0 (boxes [4; 7; 3; 4; 5; 6; 6; -1]) ;;
  at_is t vec 1 [] ;;
  box_drop t removed ;; box_drop t popped ;; v_drop t vec.
Example test_unsized_drop_passes : passes test_unsized_drop 4.
Proof. pass. Qed.

(** 112-144. [()], [1_u16] and the fat pointer of a string literal behind [dyn Debug]. *)
Definition unit_obj := dyn_val 10 0 1 [].
Definition u16_obj := dyn_val 11 2 2 [1; 0].
Definition walla := dyn_val 12 16 8 [0;16;0;0;0;0;0;0; 11;0;0;0;0;0;0;0].
Definition test_dyn : M unit :=
  vec <- v_new TDyn ;;
  len_is TDyn vec 0 ;;
  unboxed TDyn unit_obj (v_push TDyn vec) ;;
  len_is TDyn vec 1 ;;
  unboxed TDyn u16_obj (v_push TDyn vec) ;;
  len_is TDyn vec 2 ;;
  popped <- boxed_pop TDyn vec ;;
  len_is TDyn vec 1 ;;
  box_is TDyn popped (v_bytes u16_obj) ;;
  v_shrink_to_fit TDyn vec ;;
  unboxed TDyn walla (v_insert TDyn vec 0) ;;
  len_is TDyn vec 2 ;;
  at_is TDyn vec 0 (v_bytes walla) ;;
  at_is TDyn vec 1 [] ;;
  d <- v_debug (E := unit) TDyn (fun f s => inl (f ++ s)) (fun f x => inl (f ++ [Z.of_nat (length (v_bytes x))])) vec [] ;;
  assert (match d with inl s => if list_eq_dec Z.eq_dec s [91; 16; 44; 32; 0; 93] then true else false | inr _ => false end) ;;
  e <- v_remove_into TDyn vec 0 ;; removed <- box_new_with e ;;
  len_is TDyn vec 1 ;;
  box_is TDyn removed (v_bytes walla) ;;
  at_is TDyn vec 0 [] ;;
  box_drop TDyn removed ;; box_drop TDyn popped ;; v_drop TDyn vec.
Example test_dyn_passes : passes test_dyn 3.
Proof. pass. Qed.

(** 146-178 *)
Definition test_unsized_aligned : M unit :=
  let t := TI32s in
  vec <- v_new t ;;
  len_is t vec 0 ;;
  unboxed t (slice32 [1; 2]) (v_push t vec) ;;
  len_is t vec 1 ;;
  at_is t vec 0 (i32s [1; 2]) ;;
  y <- unsize_macro 0 4 t (MLen 0) (array32 []) ;; v_push t vec y ;;
  at_is t vec 1 [] ;;
  v_shrink_to_fit t vec ;;
  push_i32s vec [4; 7; 3] ;;
  r <- v_index t vec 2 ;;
  p <- ptr_add (wp r) 4 ;; mem_write p (i32s [19]) ;;
  at_is t vec 2 (i32s [4; 19; 3]) ;;
  popped <- boxed_pop t vec ;;
  box_is t popped (i32s [4; 19; 3]) ;;
  v_insert_unsize 32 4 t (MLen 8) vec 0 (array32 [4; 7; 3; 4; 5; 6; 6; -1]) ;;
  at_is t vec 0 (i32s [4; 7; 3; 4; 5; 6; 6; -1]) ;;
  at_is t vec 1 (i32s [1; 2]) ;;
  at_is t vec 2 [] ;;
  e <- v_remove_into t vec 1 ;; removed <- box_new_with e ;;
  box_is t removed (i32s [1; 2]) ;;
  at_is t vec 0 (i32s [4; 7; 3; 4; 5; 6; 6; -1]) ;;
  at_is t vec 1 [] ;;
  box_drop t removed ;; box_drop t popped ;; v_drop t vec.
Example test_unsized_aligned_passes : passes test_unsized_aligned 4.
Proof. pass. Qed.

(** 180-186: the second emplacable is dropped. *)
Definition type_inference : M unit :=
  let t := TSized 12 4 in
  vec <- v_of_values t [array32 [33; 34; 35]] ;;
  e <- v_pop_into t vec ;; e <- unwrap e ;;
  emplacable_drop (emplacable_unsize (Layout 12 4) (MLen 3) e) ;;
  v_drop t vec.
Example type_inference_passes : passes type_inference 1.
Proof. pass. Qed.

(** emplacable/tests/test.rs:8-46. Locals whose address is taken are heap blocks of the model, freed at the end. *)
Definition local (t : ty) (x : value) (f : wide -> M unit) : M unit :=
  p <- stack_slot (layout_of t x) (v_bytes x) ;; f (Wide p (v_meta x)) ;; stack_free p.
Definition str_of (l : list Z) : value := str_val l.
Definition four : list value := [array32 [1]; array32 [2]; array32 [3]; array32 [4]].
Definition into_impls : M unit :=
  let t := TSlice 8 8 in
  local t (slice_box [1; 2; 3; 4]) (fun a =>
    b <- box_new_with (emplacable_of_slice_ref 8 8 false (fun x => ret x) a) ;;
    box_is t b (boxes [1; 2; 3; 4]) ;; box_drop t b) ;;
  local TStr (str_val [105;105;105;105;105;105]) (fun a =>
    b <- box_new_with (emplacable_of_str_ref TStr a) ;; box_is TStr b (map Byte [105;105;105;105;105;105]) ;; box_drop TStr b ;;
    b <- box_new_with (emplacable_str_to_bytes (emplacable_of_str_ref TStr a)) ;;
    box_is (TSlice 1 1) b (map Byte [105;105;105;105;105;105]) ;;
    b' <- box_new_with (emplacable_of_box (TSlice 1 1) b) ;;
    box_is (TSlice 1 1) b' (map Byte [105;105;105;105;105;105]) ;; box_drop (TSlice 1 1) b') ;;
  local TCStr (str_val [104;105;105;105;0]) (fun a =>
    b <- box_new_with (emplacable_of_str_ref TCStr a) ;; box_is TCStr b (map Byte [104;105;105;105;0]) ;; box_drop TCStr b) ;;
  local (TTail 0 1 1) (str_val [97]) (fun a =>
    b <- box_new_with (emplacable_of_str_ref (TTail 0 1 1) a) ;; box_is (TTail 0 1 1) b (map Byte [97]) ;; box_drop (TTail 0 1 1) b) ;;
  v <- v_of_values (TSized 8 8) (map (fun n => Value MUnit (boxes [n])) [1; 2; 3; 4]) ;; v <- v_into_vec v ;;
  b <- box_new_with (emplacable_of_vec 8 8 v) ;; box_is t b (boxes [1; 2; 3; 4]) ;; box_drop t b ;;
  b <- box_new_with (emplacable_unsize (Layout 32 8) (MLen 4) (emplacable_of_value (TSized 32 8) (Value MUnit (boxes [1; 2; 3; 4])))) ;;
  box_is t b (boxes [1; 2; 3; 4]) ;; box_drop t b ;;
  bs <- mapM (box_new (TSized 4 4)) four ;;
  b <- box_new_with (emplacable_of_array 4 4 (map (emplacable_of_box (TSized 4 4)) bs)) ;;
  box_is (TSized 16 4) b (i32s [1; 2; 3; 4]) ;; box_drop (TSized 16 4) b.
Example into_impls_passes : passes into_impls 8.
Proof. pass. Qed.

(** src/bin/stress.rs:19-35, one round of its outer loop, with [n] rounds of its inner loop. *)
Fixpoint times (n : nat) (m : M unit) : M unit := match n with O => ret tt | S k => m ;; times k m end.
Definition arrays : list (list Z) :=
  [[]; [23]; [-4; 27]; [-4; 27; 31]; [-4; 27; 31; 42]; [-4; 27; 31; 42; 43; 342; 2342; -324; 234; 234; 65; 123; 32465532]].
Definition stress (n : nat) : M unit :=
  v <- v_with_capacity_bytes TI32s (256 * 6) (4 * 256 * (13 + 4 + 3 + 2 + 1)) ;;
  times n (mapM (push_i32s v) arrays ;; ret tt) ;;
  n <- v_byte_capacity TI32s v ;;
  assert (n =? 4 * 256 * (13 + 4 + 3 + 2 + 1)).
Example stress_passes : exists w, stress 1 empty_world = (Ok tt, w) /\ w_moved w = 0 /\ w_nalloc w = 2%nat.
Proof. eexists. split; [run|]. split; run. Qed.
(** The 255 rounds of the program, or any number up to 256, in any build and whatever the world: proved, not run. *)
Theorem stress_any (C : Config) n w : (n <= 256)%nat ->
  run (@v_with_capacity_bytes C TI32s (256 * 6) (4 * 256 * (13 + 4 + 3 + 2 + 1))) w
    (fun v w' => exists w'', @v_push_values C TI32s v (concat (repeat (map slice32 arrays) n)) w' = (Ok tt, w'') /\
       w_nalloc w'' = w_nalloc w' /\ w_moved w'' = w_moved w' /\
       v_byte_capacity TI32s v w'' = (Ok (4 * 256 * (13 + 4 + 3 + 2 + 1)), w''))
    (fun _ _ => True) (fun _ => True).
Proof.
  intros Hn. assert (W : wf_ty TI32s). { exact wf_u32. }
  eapply run_conseq; [apply run_and; [apply (@C22_with_capacity_pushes C TI32s (256 * 6) (4 * 256 * (13 + 4 + 3 + 2 + 1)) w)|
    apply (@C22_with_capacity_exact_partial C TI32s (256 * 6) (4 * 256 * (13 + 4 + 3 + 2 + 1)) w)]|..]; cbv beta; auto; try lia; try (intros E; discriminate E).
  intros v w' [F [Vc Vb]]. specialize (Vb (or_introl eq_refl)). set (xs := concat (repeat (map slice32 arrays) n)).
  assert (Z1 : zlen xs = 6 * Z.of_nat n /\ padded_total TI32s 1 xs = 92 * Z.of_nat n /\ Forall (good TI32s) xs).
  { subst xs. clear. induction n as [|n (IH1 & IH2 & IH3)]; [repeat split; constructor|]. cbn [repeat concat]. split; [|split].
    - unfold zlen in *. rewrite app_length. change (length (map slice32 arrays)) with 6%nat. lia.
    - rewrite padded_total_plen in *. rewrite plen_app, IH2. change (plen TI32s 1 (map slice32 arrays)) with 92. lia.
    - apply Forall_app. split; [|exact IH3]. unfold arrays. cbn [map]. repeat (apply Forall_cons; [apply goodb_ok; reflexivity|]). apply Forall_nil. }
  destruct Z1 as (Z1 & Z2 & Z3).
  destruct (F xs 4) as (w2 & E & _ & A1 & A2 & _ & _ & A3).
  - revert Vb. cbv [v_byte_capacity v_align kind_of TI32s bind get_a]. destruct (nth_error _ _) as [[]|]; try discriminate. reflexivity.
  - eapply Forall_impl; [|exact Z3]. intros x G. split; [exact G|discriminate].
  - lia.
  - right. change (pad_unit TI32s 4) with 1. lia.
  - exists w2. auto.
Qed.

(** examples/rust-book-17-02.rs: [SelectBox] is two [u32]s and a vector of two words behind the data pointer, [Button] two [u32]s
    and a fat pointer; [run] visits every component. *)
Definition select_box := dyn_val 20 64 8 (repeat 1 64).
Definition button := dyn_val 21 24 8 (repeat 2 24).
Definition rust_book : M unit :=
  options <- v_new TStr ;;
  y <- by_value_str (map Byte [89;101;115]) ;; v_push TStr options y ;;
  y <- by_value_str (map Byte [77;97;121;98;101]) ;; v_push TStr options y ;;
  y <- by_value_str (map Byte [78;111]) ;; v_push TStr options y ;;
  components <- v_new TDyn ;;
  v_push_unsize 64 8 TDyn (v_meta select_box) components (Value MUnit (v_bytes select_box)) ;;
  v_push_unsize 24 8 TDyn (v_meta button) components (Value MUnit (v_bytes button)) ;;
  it <- v_iter TDyn components ;;
  seen <- v_for_each TDyn (fun st x => Some (st ++ [v_meta x], tt)) it [] ;;
  assert (match seen with [MVt 20 _ _; MVt 21 _ _] => true | _ => false end) ;;
  at_is TStr options 0 (map Byte [89;101;115]) ;;
  at_is TStr options 1 (map Byte [77;97;121;98;101]) ;;
  at_is TStr options 2 (map Byte [78;111]) ;;
  v_drop TDyn components ;; v_drop TStr options.
Example rust_book_passes : passes rust_book 5.
Proof. pass. Qed.

(** README.md: an [f32], a string literal and an [Option<()>]. *)
Definition readme : M unit :=
  vec <- v_new TDyn ;;
  v_push_unsize 4 4 TDyn (MVt 30 4 4) vec (array32 [1]) ;;
  v_push_unsize 16 8 TDyn (MVt 31 16 8) vec (Value MUnit (boxes [4096; 22])) ;;
  v_push_unsize 1 1 TDyn (MVt 32 1 1) vec (sized_val [1]) ;;
  it <- v_iter TDyn vec ;;
  seen <- v_for_each TDyn (fun st x => Some (st ++ [x], tt)) it [] ;;
  assert (Nat.eqb (length seen) 3) ;;
  len_is TDyn vec 3 ;;
  popped <- boxed_pop TDyn vec ;;
  box_is TDyn popped [Byte 1] ;;
  len_is TDyn vec 2 ;;
  box_drop TDyn popped ;; v_drop TDyn vec.
Example readme_passes : passes readme 3.
Proof. pass. Qed.

(** The examples in the documentation of src/lib.rs. A string literal behind [dyn] is its fat pointer, told apart by the length. *)
Definition lit (n : Z) : item := ICoerce 16 8 (MVt 31 16 8) (Value MUnit (boxes [4096; n])).
Definition int (n : Z) : item := ICoerce 4 4 (MVt 33 4 4) (array32 [n]).
Definition lit_bytes (n : Z) : list byte := boxes [4096; n].

(** 14-60 *)
Definition doc_crate : M unit :=
  v <- v_new (TSized 4 4) ;; v_drop (TSized 4 4) v ;;
  v <- v_of_items TI32s [] ;; v_drop TI32s v ;;
  v <- v_of_items TDyn [int 1; lit 6; ICoerce 8 8 (MVt 34 8 8) (Value MUnit (boxes [3])); ICoerce 0 1 (MVt 10 0 1) (Value MUnit []); int (-17)] ;;
  v_push_item TDyn v (int 3) ;;
  at_is TDyn v 0 (i32s [1]) ;; at_is TDyn v 1 (lit_bytes 6) ;; at_is TDyn v 2 (boxes [3]) ;; at_is TDyn v 3 [] ;;
  at_is TDyn v 4 (i32s [-17]) ;; at_is TDyn v 5 (i32s [3]) ;;
  v_drop TDyn v ;;
  v <- v_of_items TDyn [int 1; lit 6] ;;
  two <- boxed_pop TDyn v ;; box_is TDyn two (lit_bytes 6) ;; box_drop TDyn two ;; v_drop TDyn v ;;
  v <- v_of_items TDyn [int 1; lit 6; ICoerce 0 1 (MVt 35 0 1) (Value MUnit [])] ;;
  at_is TDyn v 1 (lit_bytes 6) ;; v_drop TDyn v.
Example doc_crate_passes : passes doc_crate 11.
Proof. pass. Qed.
(** 757-771, 799-809, 921-934, 952-962 *)
Definition doc_insert : M unit :=
  vec <- v_new TDyn ;;
  y <- unsize_macro 8 4 TDyn (MVt 36 8 4) (array32 [1; 2]) ;; v_push TDyn vec y ;;
  at_is TDyn vec 0 (i32s [1; 2]) ;;
  v_insert_unsize 16 8 TDyn (MVt 31 16 8) vec 0 (Value MUnit (lit_bytes 18)) ;;
  at_is TDyn vec 0 (lit_bytes 18) ;; at_is TDyn vec 1 (i32s [1; 2]) ;;
  v_drop TDyn vec.
Example doc_insert_passes : passes doc_insert 2.
Proof. pass. Qed.
(** 827-843, 974-989 *)
Definition doc_insert_with : M unit :=
  vec_1 <- v_of_items TDyn [int 32; lit 5] ;;
  vec_2 <- v_of_items TDyn [int 97] ;;
  e <- v_pop_into TDyn vec_1 ;; e <- unwrap e ;; v_insert_with TDyn vec_2 0 e ;;
  len_is TDyn vec_1 1 ;; len_is TDyn vec_2 2 ;;
  at_is TDyn vec_2 0 (lit_bytes 5) ;; at_is TDyn vec_2 1 (i32s [97]) ;;
  v_drop TDyn vec_2 ;; v_drop TDyn vec_1 ;;
  vec_1 <- v_of_items TDyn [int 32; lit 5] ;;
  vec_2 <- v_new TDyn ;;
  e <- v_pop_into TDyn vec_1 ;; e <- unwrap e ;; v_push_with TDyn vec_2 e ;;
  len_is TDyn vec_1 1 ;;
  at_is TDyn vec_2 0 (lit_bytes 5) ;;
  v_drop TDyn vec_2 ;; v_drop TDyn vec_1.
Example doc_insert_with_passes : passes doc_insert_with 5.
Proof. pass. Qed.
(** 871-885, 1005-1039 *)
Definition doc_remove_pop : M unit :=
  vec <- v_of_items TDyn [lit 27; lit 19] ;;
  e <- v_remove_into TDyn vec 0 ;; b <- box_new_with e ;; box_is TDyn b (lit_bytes 27) ;; box_drop TDyn b ;; v_drop TDyn vec ;;
  vec <- v_new TDyn ;;
  n <- v_is_empty TDyn vec ;; assert n ;;
  nothing <- v_pop_into TDyn vec ;; assert (match nothing with None => true | Some _ => false end) ;;
  v_push_item TDyn vec (lit 21) ;;
  b <- boxed_pop TDyn vec ;; box_is TDyn b (lit_bytes 21) ;; box_drop TDyn b ;;
  v_push_item TDyn vec (lit 6) ;;
  at_is TDyn vec 0 (lit_bytes 6) ;;
  e <- v_pop_into TDyn vec ;; e <- unwrap e ;; emplacable_drop e ;;
  n <- v_is_empty TDyn vec ;; assert n ;;
  v_push_item TDyn vec (lit 3) ;;
  v_drop TDyn vec.
Example doc_remove_pop_passes : passes doc_remove_pop 5.
Proof. pass. Qed.
(** 1573-1585: the program runs, but the vector it makes has [16, 34] where [23, 47] is meant (F2), and the element
    with [23, 47] is lost. *)
Definition doc_unsized_vec : M unit :=
  my_vec <- v_of_items (TSized 8 4) [IValue (array32 [23; 17]); IValue (array32 [16; 34]); IValue (array32 [23; 47])] ;;
  v_unsize 8 4 TI32s (MLen 2) my_vec ;;
  y <- unsize_macro 4 4 TI32s (MLen 1) (array32 [42]) ;;
  e <- v_remove_into TI32s my_vec 2 ;;
  another <- v_of_items TI32s [IValue y; IEmplacable e] ;;
  at_is TI32s another 0 (i32s [42]) ;;
  at_is TI32s another 1 (i32s [16; 34]) ;;
  v_drop TI32s another ;; v_drop TI32s my_vec.
Example doc_unsized_vec_runs : exists w, doc_unsized_vec empty_world = (Ok tt, w).
Proof. eexists. run. Qed.
(** emplacable: 215-226, 264-272, 350-360 *)
Definition doc_emplacable : M unit :=
  y <- unsize_macro 16 8 TDyn (MVt 31 16 8) (Value MUnit (lit_bytes 12)) ;; b <- box_new TDyn y ;; box_is TDyn b (lit_bytes 12) ;; box_drop TDyn b ;;
  y <- by_value_str (map Byte [119;104;121]) ;; b <- box_new TStr y ;; box_is TStr b (map Byte [119;104;121]) ;; box_drop TStr b ;;
  y <- unsize_macro 12 4 TI32s (MLen 3) (array32 [23; 4; 32]) ;;
  b <- with_emplacable_for TI32s y box_new_with ;; box_is TI32s b (i32s [23; 4; 32]) ;; box_drop TI32s b.
Example doc_emplacable_passes : passes doc_emplacable 3.
Proof. pass. Qed.
