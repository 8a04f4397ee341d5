(** Concrete cases for the theorems whose own file does not show one: each example gives values meeting the hypotheses of the
    theorem named in its title and what the call does on them. *)
From Coq Require Import ZArith List Bool Lia.
From Verif Require Import Types World ValidSize Emplace SizedVec AlignedVec UnalignedVec Api Spec Bytes Arith Wp Mem Repr
  Access Reserve Realign Orep Push Deal PushWith Shell Insert Take Pop Box Iter Calls GetMut DropVec Family Build PushAll Obs Room
  Findings PropPush PropReserve PropAccess PropEdit PropEmplace PropCompare PropWhole PropShrink PropUnsize
  Sources Copies History PropHistory PropUniform Adaptors PropAdapt.
Import ListNotations.
Open Scope Z_scope.
Open Scope m_scope.

Ltac run := vm_compute; reflexivity.
Ltac built := eapply (built_repr _ _ empty_world); [exact I|intros K; discriminate K|apply takesb_ok; reflexivity|run].
Ltac built32 := eapply (built_repr _ _ empty_world); [apply wf_u32|intros K; reflexivity|apply takesb_ok; reflexivity|run].
Ltac good := apply goodb_ok; reflexivity.

Section Release.
Local Existing Instance cfg_release.

(** ** Pushing *)
Example C01_push_slices_total_case : exists v w w', repr TStr v [ab; cd] w /\ good TStr ef /\ alloc_total /\ drops_quiet /\
  v_capacity TStr v w = (Ok 4, w) /\ want_cap (slot_size TStr) 4 (zlen [ab; cd]) 1 false * slot_size TStr <= isize_max - 7 /\
  total TStr [ab; cd] + vsize TStr ef <= isize_max - (static_align TStr - 1) /\ v_push TStr v ef w = (Ok tt, w').
Proof.
  do 3 eexists. split; [built|]. split; [good|]. split; [apply cfg_release_total|]. split; [apply cfg_release_total|].
  split; [run|]. split; [vm_compute; discriminate|]. split; [vm_compute; discriminate|]. run.
Qed.
(** A string of [isize::MAX] bytes is a value of type [str]; after a first string it cannot be pushed. *)
Definition letters (n : Z) : value := Value (MLen n) (repeat (Byte 97) (Z.to_nat n)).
Lemma letters_good n : 0 <= n <= isize_max -> good TStr (letters n).
Proof.
  intros N. apply good_of_wf; [|discriminate]. split.
  - unfold letters; cbn [v_meta]. split; [split; [|split]|split]; cbn [size_of_val align_of_val]; try lia.
    + exists 0. split; [lia|reflexivity].
    + apply Z.mod_1_r.
  - unfold letters, vsize; cbn [v_meta v_bytes size_of_val]. rewrite repeat_length. lia.
Qed.
Lemma letters_size n : vsize TStr (letters n) = n.
Proof. reflexivity. Qed.
Example C01_push_overflow_case : exists v w, repr TStr v [ab; cd] w /\ good TStr (letters isize_max) /\
  isize_max - (static_align TStr - 1) < total TStr [ab; cd] + vsize TStr (letters isize_max).
Proof.
  do 2 eexists. split; [built|]. split; [apply letters_good; lia|]. rewrite letters_size.
  change (isize_max - (1 - 1) < 4 + isize_max). lia.
Qed.
Example C19_pushes_in_place_case : exists v w w', repr TStr v [ab; cd; ef] w /\ v_capacity TStr v w = (Ok 4, w) /\
  v_byte_capacity TStr v w = (Ok 8, w) /\ v_byte_len TStr v w = (Ok 6, w) /\ v_align TStr v w = (Ok 1, w) /\
  zlen [ab; cd; ef] + zlen [ab] <= 4 /\ 6 + padded_total TStr (pad_unit TStr 1) [ab] <= 8 /\
  v_push_values TStr v [ab] w = (Ok tt, w') /\ w_nalloc w' = w_nalloc w.
Proof. do 3 eexists. split; [built|]. do 4 (split; [run|]). do 2 (split; [vm_compute; discriminate|]). split; [run|]. run. Qed.


(** ** Taking out *)
Example C04_pop_empty_case : exists v w u w1, repr TStr v [] w /\ v_pop_into TStr v w = (Ok None, w) /\
  repr TStr u [ab] w1 /\ match v_pop_into TStr u w1 with (Ok (Some _), _) => True | _ => False end.
Proof. do 4 eexists. split; [built|]. split; [run|]. split; [built|]. vm_compute. exact I. Qed.
Example C08_remove_oob_case : exists v w, repr TDyn v [five 1; half 2] w /\ remove_box TDyn v 2 w = (Panic PBounds, w).
Proof. do 2 eexists. split; [built|]. run. Qed.
Example C27_pop_forget_case : exists v w w', repr TStr v ([ab; cd] ++ [ef]) w /\ pop_then TStr v emplacable_forget w = (Ok tt, w') /\
  shows TStr v [ab; cd] w' /\ w_drops w' = [].
Proof. do 3 eexists. split; [built|]. split; [run|]. split; [run|]. run. Qed.
Example C27_remove_case : exists v w w1 w2, repr TDyn v [five 1; word 2; half 3] w /\ closable TDyn v [five 1; word 2; half 3] 0 w /\
  remove_then TDyn v 0 emplacable_drop w = (Ok tt, w1) /\ shows TDyn v [word 2; half 3] w1 /\ w_drops w1 = [five 1] /\
  remove_then TDyn v 0 emplacable_forget w = (Ok tt, w2) /\ shows TDyn v [word 2; half 3] w2 /\ w_drops w2 = [].
Proof. do 4 eexists. split; [built|]. split; [intros _; left; cbn; lia|]. do 5 (split; [run|]). run. Qed.
Lemma refuses_all r : refuses (fun _ _ _ => panic r) r.
Proof. intros ? ? ? w. exists w. split; [reflexivity|]. split; [apply within_refl|reflexivity]. Qed.
Example C29_pop_refused_case : exists v w w', repr TStr v ([ab] ++ [cd]) w /\ refuses (fun _ _ _ => panic (PUser 1)) (PUser 1) /\
  pop_then TStr v (fun e => e (fun _ _ _ => panic (PUser 1))) w = (Panic (PUser 1), w') /\ shows TStr v [ab] w'.
Proof. do 3 eexists. split; [built|]. split; [apply refuses_all|]. split; [run|]. run. Qed.

(** ** Putting in *)
Example C06_insert_oob_case : exists v w w', repr TStr v [ab; cd] w /\ (length [ab; cd] < 3)%nat /\
  v_insert TStr v 3 ef w = (Panic PBounds, w') /\ shows TStr v [ab; cd] w' /\ w_drops w' = [ef].
Proof. do 3 eexists. split; [built|]. split; [cbn; lia|]. split; [run|]. split; [run|]. run. Qed.
Lemma value_apart t x self w : apart self (d_fv (value_deal t x)) (d_fb (value_deal t x)) w.
Proof. split; [intros []|]. split; [intros ? []|intros ? _ []]. Qed.
Example C07_insert_with_static_case : exists v w w', repr TStr v [ab; cd] w /\
  emits (emplacable_of_value TStr ef) (value_deal TStr ef) w /\ good TStr ef /\ fits TStr (d_lay (value_deal TStr ef)) ef /\
  apart v (d_fv (value_deal TStr ef)) (d_fb (value_deal TStr ef)) w /\
  v_insert_with TStr v 1 (emplacable_of_value TStr ef) w = (Ok tt, w') /\ shows TStr v [ab; ef; cd] w'.
Proof.
  do 3 eexists. split; [built|]. split; [apply value_emits|]. split; [good|].
  split; [split; [reflexivity|split; [discriminate|vm_compute; discriminate]]|]. split; [apply value_apart|]. split; [run|]. run.
Qed.
Example C07_insert_with_oob_case : exists v w w', repr TStr v [ab; cd] w /\ (length [ab; cd] < 5)%nat /\
  emits (emplacable_of_value TStr ef) (value_deal TStr ef) w /\ apart v (d_fv (value_deal TStr ef)) (d_fb (value_deal TStr ef)) w /\
  v_insert_with TStr v 5 (emplacable_of_value TStr ef) w = (Panic PBounds, w') /\ shows TStr v [ab; cd] w' /\ w_drops w' = [ef].
Proof.
  do 3 eexists. split; [built|]. split; [cbn; lia|]. split; [apply value_emits|]. split; [apply value_apart|].
  split; [run|]. split; [run|]. run.
Qed.
Example C20_insert_with_sized_case : exists v w w', repr (TSized 4 4) v [u32 1; u32 2] w /\
  emits (emplacable_of_value (TSized 4 4) (u32 3)) (value_deal (TSized 4 4) (u32 3)) w /\ v_capacity (TSized 4 4) v w = (Ok 4, w) /\
  v_insert_with (TSized 4 4) v 0 (emplacable_of_value (TSized 4 4) (u32 3)) w = (Ok tt, w') /\
  shows (TSized 4 4) v [u32 3; u32 1; u32 2] w' /\ owned_block w' v = owned_block w v.
Proof. do 3 eexists. split; [built32|]. split; [apply value_emits|]. split; [run|]. split; [run|]. split; [run|]. run. Qed.
(** Panics before, while and after delivering. *)
Definition too_soon : emplacable := fun E => panic (PUser 4).
Example C28_early_case : exists v w, repr TStr v [ab; cd] w /\ panics_early too_soon (PUser 4) w w /\
  v_push_with TStr v too_soon w = (Panic (PUser 4), w) /\ v_insert_with TStr v 1 too_soon w = (Panic (PUser 4), w).
Proof. do 2 eexists. split; [built|]. split; [intros E; reflexivity|]. split; run. Qed.
Example C28_push_case : exists v w w', repr TDyn v [five 1] w /\
  emits (breaks_off TDyn wide16 (repeat (Byte 66) 16) (PUser 3)) (breaks_off_deal TDyn wide16 (PUser 3)) w /\
  good TDyn wide16 /\ placeable TDyn v wide16 w /\
  v_push_with TDyn v (breaks_off TDyn wide16 (repeat (Byte 66) 16) (PUser 3)) w = (Panic (PUser 3), w') /\ shows TDyn v [five 1] w'.
Proof.
  do 3 eexists. split; [built|]. split; [apply breaks_off_emits; reflexivity|]. split; [good|].
  split; [intros _; do 2 eexists; split; [run|]; split; [run|]; left; reflexivity|]. split; [run|]. run.
Qed.

(** ** Iterating *)
(** An order of calls that the other two kinds of vector get wrong. *)
Example C11_both_ends_sized_case : exists v w, repr (TSized 4 4) v [u32 1; u32 2; u32 3; u32 4] w /\
  fair false 4 [NextBack; Nth 1; NextBack] = false /\
  v_visit (TSized 4 4) v [NextBack; Nth 1; NextBack] w = (Ok [(Some (u32 4), 3%nat); (Some (u32 2), 1%nat); (Some (u32 3), 0%nat)], w).
Proof. do 2 eexists. split; [built32|]. split; [run|]. run. Qed.
Example C11_once_case : NoDup [1; 2; 3; 4] /\ somes (fst (dq_run [Next; NextBack; Nth 1; Next] [1; 2; 3; 4])) = [1; 4; 3].
Proof. split; [repeat constructor; cbn; lia|]. run. Qed.
(** The references handed out from both ends of a vector of trait objects: 8, 8 and 8 bytes at the offsets 0, 16 and 8. *)
Example C13_disjoint_case : exists v w it rs it', repr TDyn v three w /\ fair false (length three) [Next; NextBack; Next] = true /\
  v_iter TDyn v w = (Ok it, w) /\ v_calls TDyn [Next; NextBack; Next] it w = (Ok (rs, it'), w) /\
  map wp (somes rs) = [Blk 2 0; Blk 2 16; Blk 2 8] /\ map (fun r => size_of_val TDyn (wm r)) (somes rs) = [5; 8; 4] /\
  owned_block w v = Some 2%nat /\ v_byte_len TDyn v w = (Ok 24, w).
Proof. do 5 eexists. split; [built|]. do 6 (split; [run|]). run. Qed.
Example C15_aligned_case : exists v w r a, repr TDyn v three w /\ nth_error three 2 = Some (word 3) /\
  v_get TDyn v 2 w = (Ok (Some r), w) /\ ptr_addr (w_heap w) (wp r) = Some a /\ 0 < a /\ a mod valign TDyn (word 3) = 0 /\ valign TDyn (word 3) = 8.
Proof. do 4 eexists. split; [built|]. do 3 (split; [run|]). split; [reflexivity|]. split; run. Qed.
Example C16_lengths_case : exists v w, repr TDyn v three w /\ v_len TDyn v w = (Ok 3, w) /\ v_capacity TDyn v w = (Ok 4, w) /\
  v_byte_len TDyn v w = (Ok 24, w) /\ v_byte_capacity TDyn v w = (Ok 32, w) /\ v_align TDyn v w = (Ok 8, w) /\
  padded_total TDyn 8 three = 24 /\ total TDyn three = 17.
Proof. do 2 eexists. split; [built|]. do 6 (split; [run|]). run. Qed.

(** ** Capacity *)
Example C17_impossible_exact_case : exists v w, repr TStr v [ab; cd] w /\ impossible TStr [ab; cd] 1 usize_max /\
  (exists w', v_try_reserve_exact_capacity_bytes_align TStr v 1 usize_max 1 w = (Ok (RErr CapacityOverflow), w')) /\
  exists w', v_try_reserve_exact_capacity_bytes_align TStr v usize_max 0 1 w = (Ok (RErr CapacityOverflow), w').
Proof. do 2 eexists. split; [built|]. split; [left; split; [discriminate|reflexivity]|]. split; eexists; run. Qed.
Example C17_bad_align_shrink_case : exists v w, repr TDyn v [five 1; half 2] w /\ bad_align 3 /\
  v_shrink_capacity_bytes_align_to TDyn v 0 0 3 w = (Panic PBadAlign, w).
Proof. do 2 eexists. split; [built|]. split; [apply bad_align_3|]. run. Qed.
Example C18_reserve_case : exists v w al bc w1 w2, repr TDyn v [five 1; half 2] w /\ v_align TDyn v w = (Ok al, w) /\
  v_byte_capacity TDyn v w = (Ok bc, w) /\ promised TDyn [five 1; half 2] 3 10 16 al bc /\
  v_reserve_capacity_bytes_align TDyn v 3 10 16 w = (Ok tt, w1) /\ v_byte_capacity TDyn v w1 = (Ok 48, w1) /\
  v_try_reserve_exact_capacity_bytes_align TDyn v 3 10 16 w = (Ok ROk, w2) /\ v_byte_capacity TDyn v w2 = (Ok 48, w2) /\
  v_capacity TDyn v w2 = (Ok 8, w2).
Proof.
  do 6 eexists. split; [built|]. split; [run|]. split; [run|]. split; [split; [exists 4; lia|left; lia]|]. do 4 (split; [run|]). run.
Qed.
Example C18_count_case : exists v w w', repr TStr v [ab; cd] w /\ v_try_reserve TStr v 7 w = (Ok ROk, w') /\ v_capacity TStr v w' = (Ok 9, w').
Proof. do 3 eexists. split; [built|]. split; [run|]. run. Qed.
Example C22_align_pushes_case : exists v w w', pow2 16 /\ v_with_capacity_bytes_align TDyn 2 32 16 empty_world = (Ok v, w) /\
  v_push_values TDyn v [wide16; word 1] w = (Ok tt, w') /\ shows TDyn v [wide16; word 1] w' /\ w_nalloc w' = w_nalloc w.
Proof. do 3 eexists. split; [exists 4; lia|]. do 3 (split; [run|]). run. Qed.
Example C23_static_case : exists v w w1 w2, repr TStr v [ab; cd; ef] w /\ v_byte_capacity TStr v w = (Ok 8, w) /\
  v_shrink_capacity_bytes_align_to TStr v 0 7 3 w = (Ok tt, w1) /\ v_byte_capacity TStr v w1 = (Ok 7, w1) /\ shows TStr v [ab; cd; ef] w1 /\
  v_shrink_capacity_bytes_to TStr v 0 0 w = (Ok tt, w2) /\ v_byte_capacity TStr v w2 = (Ok 6, w2) /\ shows TStr v [ab; cd; ef] w2.
Proof. do 4 eexists. split; [built|]. do 6 (split; [run|]). run. Qed.
Example C23_dyn_case : exists v w w1 w2, repr TDyn v [word 1; half 2] w /\ v_byte_capacity TDyn v w = (Ok 16, w) /\ v_align TDyn v w = (Ok 8, w) /\
  padded_total TDyn 8 [word 1; half 2] = 16 /\
  v_shrink_to TDyn v 0 w = (Ok tt, w1) /\ v_capacity TDyn v w1 = (Ok 2, w1) /\ shows TDyn v [word 1; half 2] w1 /\
  v_shrink_capacity_bytes_to TDyn v 3 16 w = (Ok tt, w2) /\ v_capacity TDyn v w2 = (Ok 3, w2) /\ shows TDyn v [word 1; half 2] w2.
Proof. do 4 eexists. split; [built|]. do 8 (split; [run|]). run. Qed.
Example C25_sized_zst_case : repr (TSized 0 1) 0 (repeat (Value MUnit []) 3) units /\ v_shrink_to (TSized 0 1) 0 2 units = (Panic PDivZero, units).
Proof. split; [exact units_repr|]. run. Qed.

(** ** Comparing *)
Definition three_vecs (a b c : list value) : M (nat * nat * nat) :=
  '(v, u) <- two a b ;; x <- v_of_values TStr c ;; ret (v, u, x).
Lemma three_repr a b c v u x w : takes TStr 8 a -> takes TStr 8 b -> takes TStr 8 c -> three_vecs a b c empty_world = (Ok (v, u, x), w) ->
  repr TStr v a w /\ repr TStr u b w /\ repr TStr x c w.
Proof.
  intros Ta Tb Tc E. unfold three_vecs in E. assert (W : wf_ty TStr) by exact I. assert (N : nzst TStr) by (intros K; discriminate K).
  unfold bind at 1 in E. destruct (two a b empty_world) as [[[v1 u1]| | |] w1] eqn:E1; try discriminate E.
  unfold bind in E. destruct (v_of_values TStr c w1) as [[x1| | |] w2] eqn:E2; try discriminate E. injection E as -> -> -> ->.
  destruct (two_repr _ _ _ _ _ Ta Tb E1) as [Rv Ru].
  pose proof (run_of_eq _ _ _ _ _ _ _ (v_of_values_wp TStr c w1 W N Tc) E2) as (R & V & _).
  split; [|split]; auto; eapply newvec_repr; eauto.
Qed.
Definition size_eqb (x y : value) : bool := (length (v_bytes x) =? length (v_bytes y))%nat.
Lemma size_cmp_eqb x y : size_cmp x y = Eq <-> size_eqb x y = true.
Proof. unfold size_cmp, size_eqb. rewrite Z.compare_eq_iff, Nat.eqb_eq. lia. Qed.
(** Three vectors of strings ordered by the lengths of the strings: [["ab"; "c"]], [["cd"; "ef"]], [["cd"; "ef"; "ab"]]. *)
Example C34_lawful_case : exists a b c w, let l := [ab; str_val [99]] in let m := [cd; ef] in let n := [cd; ef; ab] in
  (repr TStr a l w /\ repr TStr b m w /\ repr TStr c n w) /\ total_order (fun _ => True) size_cmp /\
  (forall x y, size_cmp x y = Eq <-> size_eqb x y = true) /\
  answer TStr size_cmp a b w = Some Lt /\ answer TStr size_cmp b c w = Some Lt /\ answer TStr size_cmp a c w = Some Lt /\
  answer TStr size_cmp b a w = Some Gt /\ lex size_cmp n m = Gt /\ v_cmp TStr size_cmp c b w = (Ok Gt, w).
Proof.
  do 4 eexists. cbv zeta. split; [eapply three_repr; [apply takesb_ok; reflexivity..|run]|].
  split; [apply size_order|]. split; [apply size_cmp_eqb|]. do 5 (split; [run|]). run.
Qed.
(** A partial order: strings are comparable when they start with the same letter. *)
Definition same_letter (x y : value) : option comparison := if first_eqb x y then Some (size_cmp x y) else None.
Example C34_partial_case : exists a b c w, (repr TStr a [ab; cd] w /\ repr TStr b [str_val [97; 97]; ef] w /\ repr TStr c [str_val [97]; ef] w) /\
  v_partial_cmp TStr TStr same_letter a b w = (Ok None, w) /\ v_partial_cmp TStr TStr same_letter a c w = (Ok (Some Gt), w) /\
  lex_partial same_letter [ab; cd] [str_val [97; 97]; ef] = None.
Proof. do 4 eexists. split; [eapply three_repr; [apply takesb_ok; reflexivity..|run]|]. split; [run|]. split; [run|]. run. Qed.
Example C33_equivalence_case : exists a b c w, (repr TStr a [ab; cd] w /\ repr TStr b [cd; ef] w /\ repr TStr c [ef; ab] w) /\
  v_eq TStr TStr size_eqb a a w = (Ok true, w) /\ v_eq TStr TStr size_eqb a b w = (Ok true, w) /\ v_eq TStr TStr size_eqb b c w = (Ok true, w) /\
  v_eq TStr TStr size_eqb a c w = (Ok true, w) /\ v_eq TStr TStr first_eqb a b w = (Ok false, w).
Proof. do 4 eexists. split; [eapply three_repr; [apply takesb_ok; reflexivity..|run]|]. do 4 (split; [run|]). run. Qed.
Example C35_case : exists a b c w, let feed x n := n * 31 + Z.of_nat (length (v_bytes x)) in
  (repr TStr a [ab; cd] w /\ repr TStr b [cd; ef] w /\ repr TStr c [ab; str_val [99]] w) /\
  (forall x y s, size_eqb x y = true -> feed x s = feed y s) /\ v_eq TStr TStr size_eqb a b w = (Ok true, w) /\
  v_hash TStr feed a 7 w = (Ok 6791, w) /\ v_hash TStr feed b 7 w = (Ok 6791, w) /\ v_hash TStr feed c 7 w = (Ok 6790, w).
Proof.
  do 4 eexists. cbv zeta. split; [eapply three_repr; [apply takesb_ok; reflexivity..|run]|].
  split. { intros x y s E. apply Nat.eqb_eq in E. now rewrite E. } do 3 (split; [run|]). run.
Qed.

(** ** Whole vectors *)
(** Two trait objects appended to a vector, and collected into a new one. *)
Example C36_family_case : exists v w al w' u w2, repr TDyn v [five 1] w /\ v_align TDyn v w = (Ok al, w) /\
  let xs := [word 2; half 3] in let Ss := value_deals TDyn xs in
  family (map (emplacable_of_value TDyn) xs) Ss w /\ apart v (fvs Ss) (fbs Ss) w /\ joins TDyn al Ss /\
  v_extend TDyn v 2 (map (emplacable_of_value TDyn) xs) w = (Ok tt, w') /\ shows TDyn v [five 1; word 2; half 3] w' /\
  v_from_iter TDyn 1 (map (emplacable_of_value TDyn) xs) w = (Ok u, w2) /\ shows TDyn u xs w2.
Proof.
  do 6 eexists. split; [built|]. split; [run|]. cbv zeta.
  split; [apply values_family; repeat constructor; apply goodb_ok; reflexivity|]. split; [apply apart_nil|].
  split; [apply value_joins; [apply takesb_ok; reflexivity|repeat constructor; discriminate]|]. do 3 (split; [run|]). run.
Qed.
Example C36_macro_case : exists v w', takes TDyn 8 [five 1; word 2] /\ v_of_values TDyn [five 1; word 2] empty_world = (Ok v, w') /\
  shows TDyn v [five 1; word 2] w'.
Proof. do 2 eexists. split; [apply takesb_ok; reflexivity|]. split; [run|]. run. Qed.
Example C37_push_pop_case : exists a b w w', two_vecs empty_world = (Ok (a, b), w) /\ placeable TDyn a (five 5) w /\
  pop_then TDyn b (v_push_with TDyn a) w = (Ok tt, w') /\ shows TDyn a [one 1; half 2; five 5] w' /\ shows TDyn b [wide16] w' /\ w_drops w' = [].
Proof.
  do 4 eexists. split; [run|]. split; [intros _; do 2 eexists; split; [run|]; split; [run|]; left; reflexivity|].
  do 3 (split; [run|]). run.
Qed.
Example C46_zst_case : exists v w w', repr (TSlice 0 1) v [Value (MLen 0) []] w /\ In (Value (MLen 0) []) [Value (MLen 0) []] /\
  v_push (TSlice 0 1) v (Value (MLen 3) []) w = (Ok tt, w') /\ shows (TSlice 0 1) v [Value (MLen 0) []; Value (MLen 0) []] w'.
Proof.
  do 3 eexists. split.
  { eapply (built_repr _ _ empty_world); [|intros K; discriminate K| |run].
    - split; [split; [lia|split; [exists 0; lia|lia]]|reflexivity].
    - constructor; [|constructor]. split; [|discriminate]. split; [|reflexivity]. split; [|reflexivity].
      split; [split; [vm_compute; discriminate|split; [exists 0; split; [lia|reflexivity]|vm_compute; discriminate]]|].
      split; [reflexivity|]. vm_compute. split; discriminate. }
  split; [left; reflexivity|]. split; [run|]. run.
Qed.

(** ** Emplacables *)
Example C38_more_case : wf_value (TSized 4 4) (u32 7) /\ v_meta (u32 7) = MUnit /\
  (exists b w', box_new_with (emplacable_of_value (TSized 4 4) (u32 7)) empty_world = (Ok b, w') /\ wp b = Blk 0 0 /\
     heap_get (w_heap w') 0 = Some (Block (Layout 4 4) 4 (v_bytes (u32 7)))) /\
  (exists w', round_trip TDyn (box_new TDyn (word 7)) empty_world = (Ok (word 7), w') /\ w_drops w' = [word 7]) /\
  exists w', emplacable_get (TSized 4 4) (emplacable_of_value (TSized 4 4) (u32 7)) empty_world = (Ok (u32 7), w') /\ w_drops w' = [].
Proof.
  split; [apply goodb_ok; reflexivity|]. split; [reflexivity|]. split; [do 2 eexists; split; [run|]; split; [run|]; run|].
  split; eexists; (split; [run|]); run.
Qed.
(** A boxed string dropped, forgotten, moved to another box, inserted. *)
Example C39_more_case : exists v w b w1 wd wf wb b' wi, repr TStr v [ab; cd] w /\ box_new TStr ef w = (Ok b, w1) /\
  source TStr (emplacable_of_box TStr b) ef (fun w => own_allocation TStr b ef w)
    (fun w => forall k, ptr_block (wp b) = Some k -> heap_get (w_heap w) k = None) [ef] (blocks (wp b)) /\
  own_allocation TStr b ef w1 /\ good TStr ef /\ not_huge TStr ef /\
  emplacable_drop (emplacable_of_box TStr b) w1 = (Ok tt, wd) /\ w_drops wd = [ef] /\
  emplacable_forget (emplacable_of_box TStr b) w1 = (Ok tt, wf) /\ w_drops wf = [] /\
  box_new_with (emplacable_of_box TStr b) w1 = (Ok b', wb) /\ read_value TStr b' wb = (Ok ef, wb) /\
  v_insert_with TStr v 1 (emplacable_of_box TStr b) w1 = (Ok tt, wi) /\ shows TStr v [ab; ef; cd] wi.
Proof.
  do 9 eexists. split; [built|]. split; [run|]. split; [apply src_box|].
  split. { split; [reflexivity|]. split; [|discriminate]. intros _. do 2 eexists. split; [reflexivity|]. split; [run|]. split; reflexivity. }
  split; [good|]. split; [discriminate|]. do 7 (split; [run|]). run.
Qed.
Example C42_box_case : exists b w', emits (emplacable_of_value TDyn wide16) (value_deal TDyn wide16) empty_world /\
  wf_value TDyn (d_value (value_deal TDyn wide16)) /\
  d_lay (value_deal TDyn wide16) = layout_of TDyn (d_value (value_deal TDyn wide16)) /\
  box_new_with (emplacable_of_value TDyn wide16) empty_world = (Ok b, w') /\ read_value TDyn b w' = (Ok wide16, w').
Proof. do 2 eexists. split; [apply value_emits|]. split; [apply goodb_ok; reflexivity|]. split; [reflexivity|]. split; [run|]. run. Qed.
Example C43_more_case : exists v w wf wd wu wg wp, repr TDyn v [half 2] w /\ wf_value TDyn (word 1) /\ placeable TDyn v (word 1) w /\
  with_emplacable_for TDyn (word 1) emplacable_forget w = (Ok tt, wf) /\ w_drops wf = [] /\
  with_emplacable_for TDyn (word 1) emplacable_drop w = (Ok tt, wd) /\ w_drops wd = [word 1] /\
  with_emplacable_for TDyn (word 1) (fun _ => panic (A := unit) (PUser 1)) w = (Panic (PUser 1), wu) /\ w_drops wu = [word 1] /\
  with_emplacable_for (TSized 4 4) (u32 3) (emplacable_get (TSized 4 4)) w = (Ok (u32 3), wg) /\ w_drops wg = [] /\
  with_emplacable_for TDyn (word 1) (v_push_with TDyn v) w = (Ok tt, wp) /\ shows TDyn v [half 2; word 1] wp /\ w_drops wp = [].
Proof.
  do 7 eexists. split; [built|]. split; [apply goodb_ok; reflexivity|].
  split; [intros _; do 2 eexists; split; [run|]; split; [run|]; left; reflexivity|]. do 10 (split; [run|]). run.
Qed.
Example C44_array_case : exists b w', wf_ty (TSlice 4 4) /\ iter_fits 4 4 3 /\ Forall (wf_value (TSized 4 4)) [u32 1; u32 2; u32 3] /\
  box_new_with (emplacable_slice_of_array 4 4 (map (emplacable_of_value (TSized 4 4)) [u32 1; u32 2; u32 3])) empty_world = (Ok b, w') /\
  read_value (TSlice 4 4) b w' = (Ok (Value (MLen 3) (map Byte [1;1;1;1;2;2;2;2;3;3;3;3])), w') /\ w_drops w' = [].
Proof.
  do 2 eexists. split; [split; [split; [lia|split; [exists 2; lia|lia]]|reflexivity]|]. split; [vm_compute; try split; discriminate|].
  split; [repeat constructor; apply goodb_ok; reflexivity|]. split; [run|]. split; [run|]. run.
Qed.
Example C45_more_case : exists b w1 w2 w3 w4 w5, let e := emplacable_of_value (TSized 3 1) (sized_val [1;2;3]) in
  emits e (value_deal (TSized 3 1) (sized_val [1;2;3])) empty_world /\ wf_value (TSlice 1 1) (str_val [1;2;3]) /\
  box_new_with (emplacable_unsize (Layout 3 1) (MLen 3) e) empty_world = (Ok b, w1) /\ read_value (TSlice 1 1) b w1 = (Ok (str_val [1;2;3]), w1) /\
  emplacable_drop (emplacable_unsize (Layout 3 1) (MLen 3) e) empty_world = (Ok tt, w2) /\ w_drops w2 = [sized_val [1;2;3]] /\
  emplacable_forget (emplacable_unsize (Layout 3 1) (MLen 3) e) empty_world = (Ok tt, w3) /\ w_drops w3 = [] /\
  emplacable_drop (emplacable_str_to_bytes (emplacable_of_value TStr ab)) empty_world = (Ok tt, w4) /\ w_drops w4 = [ab] /\
  emplacable_forget (emplacable_str_to_bytes (emplacable_of_value TStr ab)) empty_world = (Ok tt, w5) /\ w_drops w5 = [].
Proof.
  do 6 eexists. cbv zeta. split; [apply value_emits|]. split; [apply goodb_ok; reflexivity|]. do 9 (split; [run|]). run.
Qed.

(** ** Searching *)
Example C53_more_case : exists v w, repr TDyn v four w /\
  after TDyn v [Next] (fun it => finish TDyn ret (v_find_map TDyn (log (fun x => if zlen (v_bytes x) =? 8 then Some 1 else None)) it [])) w =
    (Ok (Some 1, [half 2; word 3], [half 4]), w) /\
  after TDyn v [NextBack] (fun it => v_for_each TDyn (log (fun _ => tt)) it []) w = (Ok [five 1; half 2; word 3], w).
Proof. do 2 eexists. split; [built|]. split; [run|]. run. Qed.

(** ** Histories *)
(** A history that is not easy (the second call removes from the middle, the third inserts into the middle) but safe: whatever
    the earlier calls did, each call is one that works. *)
Definition middle : list op := [OfValues [five 1; word 2; half 3]; On 0 (VRemove 1); On 0 (VInsertWith 1 wide16); On 0 (VVisit [Next; Next; Next])].
Example C49_safe_case : safe_run TDyn middle [] /\ exists env w', exec TDyn [] middle empty_world =
  (Ok ([inl BUnit; inl (BVal (word 2)); inl BUnit; inl (BItems [(Some (five 1), 2%nat); (Some wide16, 1%nat); (Some (half 3), 0%nat)])], env), w').
Proof.
  split; [|do 2 eexists; run]. unfold middle. cbn [safe_run].
  assert (V : forall s, safe TDyn (On 0 (VVisit [Next; Next; Next])) s) by (intros s l _; right; reflexivity).
  assert (I1 : forall s0, (forall l, there s0 0 = Some l -> length l <> 1%nat) ->
    typed TDyn (On 0 (VInsertWith 1 wide16)) /\ safe TDyn (On 0 (VInsertWith 1 wide16)) s0 /\
    (forall o s' ds, spec (On 0 (VInsertWith 1 wide16)) s0 o s' ds -> safe_run TDyn [On 0 (VVisit [Next; Next; Next])] s') /\
    (forall r s' ds, spec_panic TDyn (On 0 (VInsertWith 1 wide16)) s0 r s' ds -> safe_run TDyn [On 0 (VVisit [Next; Next; Next])] s')).
  { intros s0 L. split; [good|]. split.
    { intros l0 E. split; [discriminate|]. intros _. split; [left; reflexivity|]. left. intros K. now apply (L l0). }
    split; intros; cbn [safe_run]; (split; [exact I|]); (split; [apply V|]); split; auto. }
  split; [repeat constructor; good|]. split; [intros _; repeat (constructor; [left; reflexivity|]); constructor|]. split.
  - intros o s' ds (_ & -> & _). cbn [app]. split; [exact I|]. split; [intros l E _; injection E as <-; left; discriminate|].
    split.
    + intros o1 s1 ds1 (l' & (_ & -> & _) & ->). apply I1. intros l E. injection E as <-. discriminate.
    + intros r s1 ds1 (l & l' & E & P & ->). injection E as <-. apply I1. intros l E. injection E as <-.
      destruct P as [[(_ & L & _)|(_ & _ & ->)] _]; [cbn in L; lia|discriminate].
  - intros r s' ds (_ & -> & _). split; [exact I|]. split; [intros l E; discriminate E|]. split.
    + intros o1 s1 ds1 (_ & -> & _). apply I1. intros l E. discriminate E.
    + intros r1 s1 ds1 (l & l' & E & _). discriminate E.
Qed.
Example C50_case : defined (exec (TSized 4 4) [] u32_history empty_world) /\ defined (exec TDyn [] dyn_history empty_world) /\
  defined (exec TDyn [] word_history empty_world).
Proof. split; [|split]; intros u E; vm_compute in E; discriminate E. Qed.
End Release.

(** ** A destructor that panics, an allocator that fails *)
Section Panicking.
Local Existing Instance cfg_drop0.
(** The first destructor panics: the Sized vector still drops the other element and frees its buffer, the strings are leaked. *)
Example C26_drop_panics_case : exists v w w' u w1 w2, repr (TSized 4 4) v [u32 1; u32 2] w /\ v_drop (TSized 4 4) v w = (Panic PDrop, w') /\
  w_drops w' = [u32 1; u32 2] /\ owned_block w v = Some 0%nat /\ heap_get (w_heap w') 0 = None /\
  repr TStr u [ab; cd] w1 /\ v_drop TStr u w1 = (Panic PDrop, w2) /\ w_drops w2 = [ab] /\ w_heap w2 = w_heap w1.
Proof. do 6 eexists. split; [built32|]. do 4 (split; [run|]). split; [built|]. split; [run|]. split; [run|]. run. Qed.
End Panicking.
Section Failing.
Local Instance cfg_two : Config := {| cfg_debug := false; cfg_alloc n := match n with 0%nat | 1%nat => Some 1 | _ => None end;
  cfg_drop_panics _ := false; cfg_oom_panics := false |}.
Example C21_more_case : exists v w w1 w2 w3, repr TStr v [ab] w /\ v_try_reserve TStr v 50 w = (Ok (RErr AllocError), w1) /\
  v_try_reserve_exact TStr v 50 w = (Ok (RErr AllocError), w2) /\
  v_try_reserve_exact_capacity_bytes_align TStr v 1 100 1 w = (Ok (RErr AllocError), w3) /\
  alloc_failed w w3 /\ shows TStr v [ab] w1 /\ shows TStr v [ab] w2 /\ shows TStr v [ab] w3.
Proof.
  do 5 eexists. split; [built|]. do 3 (split; [run|]). split; [exists 2%nat; split; [split; [run|run]|run]|]. split; [run|]. split; run.
Qed.
End Failing.
