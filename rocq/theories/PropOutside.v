(** More inputs outside the guards of the partial theorems (PropLimits): moving the last element of a vector of trait objects
    into another one (C37), taking items from an iterator at the
    wrong end or with [nth(0)] (C13, C14), [push_unsize] and [insert_unsize] (C59), and the macros for zero-sized types (C62). *)
From Coq Require Import ZArith List Bool Lia.
From Verif Require Import Types World ValidSize Emplace SizedVec AlignedVec UnalignedVec Api Spec Bytes Arith Wp Mem Repr
  Access Reserve Realign Orep Push Deal PushWith Shell Insert Take Pop Box Iter Calls DropVec Family Build PushAll Wrote Sources Copies Obs Room Findings
  Adaptors Convert Macros StdVec PropPush PropReserve PropAccess PropEdit PropEmplace PropCompare PropWhole PropUnsize PropConvert
  PropMacro PropLimits PropInsert AnyCalls GetMut PropAdapt.
Import ListNotations.
Open Scope Z_scope.
Open Scope m_scope.

Section WithConfig.
Context {C : Config}.

(** ** C37: moving the last element behind an unpadded one *)
(** The other vector receives the element, or has no room for it; then the removal goes wrong. *)
Lemma move_last t self src l y x al w (f : emplacable -> M unit) (E : emplacer) : kind_of t = KUnaligned ->
  repr t src (l ++ [y; x]) w -> sep w self src -> v_align t src w = (Ok al, w) -> vsize t y mod al <> 0 ->
  (forall e, f e w = e E w) ->
  (forall r S, emits (with_emplacable_closure t r) S w -> d_value S = x -> fits t (d_lay S) x -> apart self (d_fv S) (d_fb S) w ->
     d_fv S = [] -> d_extra S = [] -> (forall p, ~ d_panic S p) ->
     run (f (with_emplacable_closure t r)) w (fun _ w' => touch self (d_fv S) (d_fb S) w w')
       (fun p _ => p = PCapacity \/ p = POom /\ cfg_oom_panics = true) (fun w' => alloc_failed w w')) ->
  ends (remove_then t src (S (length l)) f) w (fun _ _ => False)
    (fun r _ => r = PCapacity \/ r = POom /\ cfg_oom_panics = true) (fun w' => alloc_failed w w') (eq UbArith).
Proof.
  intros K R Sp Al Un Hf H. unfold remove_then. eapply ends_eq; [eapply v_remove_into_last; eauto|]. unfold ends. rewrite Hf.
  match goal with |- match ?b w with _ => _ end => change (ends b w (fun _ _ => False)
    (fun r _ => r = PCapacity \/ r = POom /\ cfg_oom_panics = true) (fun w' => alloc_failed w w') (eq UbArith)) end.
  eapply remove_last_underflows; eauto.
  intros r B Pb. pose proof R as R'. apply repr_orep in R' as (o & d & R').
  assert (Ix : In x (l ++ [y; x])) by (apply in_or_app; right; right; now left).
  pose proof (elem_fits _ _ _ _ _ _ _ R' Ix) as Fi. unfold elem_layout in *. rewrite K in *.
  assert (Ef : f (with_emplacable_closure t r) w = E (Layout (vsize t x) (valign t x)) (v_meta x) (take t r (vsize t x)) w).
  { rewrite Hf. unfold with_emplacable_closure. rewrite (proj1 B). reflexivity. }
  unfold run. rewrite <- Ef. eapply (run_conseq (f (with_emplacable_closure t r))); [apply (H r (slot_deal t r x)); cbn [slot_deal d_fv d_fb d_extra d_panic d_lay]; auto|..]; cbv beta; auto.
  - now apply slot_emits.
  - now destruct x.
  - destruct Sp as [_ Sp]. split; [intros []|]. split.
    + intros b I. apply in_blocks in I. eapply behind_lt; eauto.
    + intros b O I. apply in_blocks in I. apply (Sp b O). congruence.
  - intros _ w' T. apply (to_vecs _ _ _ _ _ T); auto. destruct Sp; auto.
Qed.
Theorem C37_push_last_never t self src l l2 y x al w : kind_of t = KUnaligned ->
  repr t self l2 w -> repr t src (l ++ [y; x]) w -> sep w self src -> placeable t self x w ->
  v_align t src w = (Ok al, w) -> vsize t y mod al <> 0 ->
  ends (remove_then t src (S (length l)) (v_push_with t self)) w (fun _ _ => False)
    (fun r _ => r = PCapacity \/ r = POom /\ cfg_oom_panics = true) (fun w' => alloc_failed w w') (eq UbArith).
Proof.
  intros K R Rs Sp Pl Al Un. apply repr_orep in R as (o & d & R).
  eapply move_last; eauto. { intros e. unfold v_push_with, p_push_with. rewrite K. unfold u_push_with. reflexivity. }
  intros r S Em Ev Fi Ap Fv Ex Np. assert (G : good t x).
  { apply repr_orep in Rs as (os & ds & Rs). eapply orep_elem; eauto. apply in_or_app; right; right; now left. }
  eapply run_conseq; [eapply (v_push_with_wp t self l2 o d w _ S); rewrite ?Ev; eauto using nzst_or, placeable_can|..]; cbv beta.
  - intros _ w' (o' & d' & _ & T & _). exact T.
  - intros p w' (_ & _ & [(_ & Rr & _)|[P|[_ [Nn _]]]]); auto. { now apply Np in P. } rewrite Ex in Nn. now destruct Nn.
  - intros w' [A|A]; auto. now apply not_aborted in A.
Qed.
Theorem C37_insert_last_never t self src i l l2 y x al w : kind_of t = KUnaligned ->
  repr t self l2 w -> repr t src (l ++ [y; x]) w -> sep w self src -> placeable t self x w ->
  (i <= length l2)%nat -> movable t self l2 i (valign t x) w ->
  v_align t src w = (Ok al, w) -> vsize t y mod al <> 0 ->
  ends (remove_then t src (S (length l)) (v_insert_with t self i)) w (fun _ _ => False)
    (fun r _ => r = PCapacity \/ r = POom /\ cfg_oom_panics = true) (fun w' => alloc_failed w w') (eq UbArith).
Proof.
  intros K R Rs Sp Pl Li Mv Al Un. pose proof R as R0. apply repr_orep in R as (o & d & R).
  pose proof R as Ru. destruct o as [v|v|v|]; ocbn in *; try tauto; try (destruct R; congruence).
  eapply move_last; eauto.
  { intros e. unfold v_insert_with. erewrite bind_eq by (eapply v_len_eq; eauto). rewrite (proj2 (Z.leb_le _ _)) by (unfold zlen; lia).
    unfold p_insert_with_unchecked. rewrite K. unfold u_insert_with_unchecked. destruct Ru.
    erewrite bind_eq by (eapply get_u_eq; eauto). erewrite bind_eq; [reflexivity|].
    unfold on_unwind. rewrite dassert_eq; [reflexivity|]. apply Nat.leb_le. rewrite ur_infos, infos_of_length. auto. }
  intros r S Em Ev Fi Ap Fv Ex Np. assert (G : good t x).
  { apply repr_orep in Rs as (os & ds & Rs). eapply orep_elem; eauto. apply in_or_app; right; right; now left. }
  assert (R' : orep t self l2 (OU v) d w) by exact R.
  eapply run_conseq; [eapply (v_insert_with_wp t self l2 (OU v) d w _ S i); rewrite ?Ev; eauto using nzst_or, placeable_can|..]; cbv beta.
  - intros _. eapply movable_tail; eauto. apply pow2_pos, good_align; auto.
  - intros _ w' (o' & d' & _ & T & _). exact T.
  - intros p w' (_ & _ & [(_ & Rr & _)|[P|[_ [Nn _]]]]); auto. { now apply Np in P. } rewrite Ex in Nn. now destruct Nn.
  - intros w' [A|A]; auto. now apply not_aborted in A.
Qed.

(** ** C13, C14: the item of an unfair call always overlaps the first one *)
(** After a [next] and any further calls: [next_back] on a sole remaining item, or [nth(0)]. *)
Lemma unfair_ref t self y l cs c x o d w : kind_of t <> KSized -> orep t self (y :: l) o d w ->
  let m := snd (dq_run cs l) in fair true (length m) [c] = false -> fst (dq_step c m) = Some x -> 0 < vsize t x ->
  exists it n rs it1 r it2, v_iter t self w = (Ok it, w) /\
    v_calls t (Next :: cs) it w = (Ok ((Some (eref t o (y :: l) 0 y), n) :: rs, it1), w) /\
    v_call t c it1 w = (Ok (Some r, it2), w) /\ wp r = padd (o_ptr o) 0 /\ 0 < size_of_val t (wm r) <= o_bcap t o.
Proof.
  intros K R m Un Ex Sx. destruct (v_iter_eq _ _ _ _ _ _ R) as (it & I & Kc & _).
  destruct (v_calls_any t self (y :: l) o d w (Next :: cs) R [] (y :: l) [] it false) as (it1 & a1 & m1 & b1 & V & E & K1 & S1); auto.
  { cbn. now rewrite app_nil_r. }
  assert (Em : m1 = m).
  { assert (X : snd (dq_run (Next :: cs) (y :: l)) = m1).
    { rewrite <- (seq_nth_map (y :: l) dummy). rewrite dq_run_map. cbn [snd] in *. cbn [length] in S1 |- *. rewrite S1, E. apply seq_nth_mid. }
    rewrite <- X. cbn [dq_run dq_step hd_error tl]. subst m. now destruct (dq_run cs l). }
  rewrite <- Em in *. clear Em m.
  destruct (v_call_any t self (y :: l) o d w a1 m1 b1 it1 c true R E K1) as (it2 & _ & _ & _ & V2 & _); [discriminate|].
  assert (Sb : sizedb t = false) by (unfold sizedb; destruct (kind_of t); auto; now elim K). rewrite Un, Sb in V2. cbn [orb] in V2.
  assert (Hm : exists q, m1 = x :: q /\ fst (dq_step c (seq (length a1) (length m1))) = Some (length a1)).
  { destruct c; cbn [fair] in Un; try discriminate; rewrite ?andb_true_r, ?andb_true_l in Un; cbn [dq_step fst] in Ex.
    - destruct m1 as [|z [|]]; try discriminate. injection Ex as ->. exists []. auto.
    - destruct n; [|discriminate]. destruct m1 as [|z q]; try discriminate. injection Ex as ->. exists q. auto. }
  destruct Hm as (q & -> & Hs). rewrite Hs in V2. cbn [option_map pick] in V2. cbn [app] in E.
  pose proof (sref_at t o a1 x (q ++ b1)) as Sr. rewrite <- E in Sr. rewrite <- Sr in V2. clear Sr.
  destruct (sref_ok t self (y :: l) o d w R a1 x (q ++ b1) K E) as [_ Sz].
  assert (Pos : 0 < size_of_val t (wm (sref t o a1 x))).
  { destruct (split_good t self (y :: l) o d w R _ _ _ E) as (Ga & Gx & _). pose proof (orep_wf _ _ _ _ _ _ R) as W.
    unfold vsize in Sx. destruct t; cbn [kind_of] in *; try congruence; try exact Sx.
    assert (P1 : o_pal o = 1). { destruct o; ocbn in *; try tauto. pose proof (ur_kind _ _ _ _ _ _ R). discriminate. }
    assert (E2 : plen (TSlice esize ealign) 1 a1 + vsize (TSlice esize ealign) x = plen (TSlice esize ealign) 1 (a1 ++ [x])).
    { rewrite plen_app. cbn [plen]. unfold psz. rewrite pad_1. lia. }
    pose proof (plen_nonneg (TSlice esize ealign) 1 ltac:(lia) a1 Ga).
    cbn [sref wm]. rewrite P1, E2, slice_len, <- E2; auto. unfold vsize. lia. apply Forall_app; auto. }
  cbn [dq_run dq_step seq length hd_error tl verdicts fair] in V.
  destruct (dq_run cs (seq 1 (length l))) as [xs ms].
  exists it. do 3 eexists. exists (sref t o a1 x), it2. split; [exact I|]. split; [|split; [exact V2|split; [reflexivity|lia]]].
  rewrite V. unfold as_picks. cbn [fst combine map option_map pick snd]. rewrite Sb. cbn [orb]. reflexivity.
Qed.
Theorem C13_overlap_always t self y l cs c x w : kind_of t <> KSized -> repr t self (y :: l) w -> 0 < vsize t y ->
  let m := snd (dq_run cs l) in fair true (length m) [c] = false -> fst (dq_step c m) = Some x -> 0 < vsize t x ->
  exists it r1 n rs it1 r2 it2, v_iter t self w = (Ok it, w) /\ v_calls t (Next :: cs) it w = (Ok ((Some r1, n) :: rs, it1), w) /\
    v_call t c it1 w = (Ok (Some r2, it2), w) /\ wp r1 = wp r2 /\ 0 < size_of_val t (wm r1) /\ 0 < size_of_val t (wm r2).
Proof.
  intros K R Sy m Un Ex Sx. apply repr_orep in R as (o & d & R).
  destruct (unfair_ref t self y l cs c x o d w K R Un Ex Sx) as (it & n & rs & it1 & r & it2 & I & V & V2 & P & S).
  exists it, (eref t o (y :: l) 0 y), n, rs, it1, r, it2. ands; auto; apply S.
Qed.

(** Writing at the start of the buffer. *)
Lemma stomp t self l o d w bs : orep t self l o d w -> zlen bs <= o_bcap t o ->
  exists w', mem_write (padd (o_ptr o) 0) bs w = (Ok tt, w') /\
    orep t self (reread t (o_pal o) 0 l (splice 0 bs d)) o (splice 0 bs d) w' /\ Forall2 alike l (reread t (o_pal o) 0 l (splice 0 bs d)).
Proof.
  intros R L. pose proof (zlen_nonneg bs). pose proof (orep_buf _ _ _ _ _ _ R) as B. pose proof (buf_len _ _ _ _ _ B) as Ld.
  set (d' := splice 0 bs d). assert (Ld' : zlen d' = zlen d) by (apply splice_len; lia).
  assert (P : 0 < o_pal o) by (eapply pow2_pos, orep_pal; eauto).
  pose proof R as R0. apply orep_iff in R0 as (Sh & Wi & Ho & Ct). pose proof Ho as (G & Al & Fi & Ca). unfold o_blen in Fi.
  assert (A : Forall2 alike l (reread t (o_pal o) 0 l d')) by (apply reread_alike; auto; lia).
  eexists. split; [apply (mem_write_buf w _ _ _ d 0 bs B); lia|]. split; auto. apply orep_iff. ands.
  - now apply (shell_put _ _ _ d).
  - transitivity (o_with t o l); [|exact Wi]. clear Wi Sh. revert A. generalize (reread t (o_pal o) 0 l d'). intros l' A. destruct o; cbn [o_with]; rewrite ?(alike_infos t _ _ _ A); auto. unfold zlen. now rewrite (alike_len _ _ A).
  - unfold holds, o_blen. rewrite (alike_plen t _ _ _ A). replace (zlen (reread t (o_pal o) 0 l d')) with (zlen l) by (unfold zlen; now rewrite (alike_len _ _ A)).
    ands; auto. eapply alike_Forall; eauto. intros Ku. eapply alike_valigns; eauto.
  - apply reread_contents.
Qed.
(** Writing through the item of such a call: the first element has the first byte written, whatever it was before. *)
Theorem C14_iter_mut_always t self y l cs c x w : kind_of t <> KSized -> repr t self (y :: l) w -> 0 < vsize t y ->
  let m := snd (dq_run cs l) in fair true (length m) [c] = false -> fst (dq_step c m) = Some x -> 0 < vsize t x ->
  exists it rs it1 r it2, v_iter t self w = (Ok it, w) /\ v_calls t (Next :: cs) it w = (Ok (rs, it1), w) /\
    v_call t c it1 w = (Ok (Some r, it2), w) /\
    forall bs, zlen bs = size_of_val t (wm r) -> exists w' y' l', mem_write (wp r) bs w = (Ok tt, w') /\
      holds_list t self (y' :: l') w' /\ alike y y' /\ byte_at (v_bytes y') 0 = byte_at bs 0.
Proof.
  intros K R Sy m Un Ex Sx. apply repr_orep in R as (o & d & R).
  destruct (unfair_ref t self y l cs c x o d w K R Un Ex Sx) as (it & n & rs & it1 & r & it2 & I & V & V2 & P & S).
  exists it. eexists _, it1, r, it2. ands; eauto. intros bs Lb. rewrite P.
  destruct (stomp t self (y :: l) o d w bs R ltac:(lia)) as (w' & W & R' & A). cbn [reread] in *.
  eexists w', _, _. split; [exact W|]. split; [eapply repr_holds, orep_repr; eauto|]. split; [now inversion A|].
  cbn [v_bytes]. unfold byte_at, sub, splice. cbn [Z.to_nat firstn skipn app Nat.add].
  destruct bs as [|b bs]. { unfold zlen in Lb. cbn in Lb. lia. }
  destruct (Z.to_nat (vsize t y)) eqn:E; [lia|]. reflexivity.
Qed.

(** ** C59: coercing on the stack, then [push] or [insert] outside their guards *)
Theorem C59_push_unsize_unraised s a u m self l x al w : unsizes s a u m -> wf_ty (TSized s a) -> countable u m -> good (TSized s a) x ->
  kind_of u = KUnaligned -> repr u self l w -> v_align u self w = (Ok al, w) -> v_byte_capacity u self w = (Ok 0, w) -> s = 0 -> al < a ->
  run (v_push_unsize s a u m self x) w
    (fun _ w' => cfg_debug = false /\ v_align u self w' = (Ok al, w') /\ v_len u self w' = (Ok (zlen l + 1), w'))
    (fun r w' => holds_list u self l w' /\ w_drops w' = w_drops w ++ [Value m (v_bytes x)] /\
       (r = PDebugAssert /\ cfg_debug = true \/ r = PCapacity \/ r = POom /\ cfg_oom_panics = true))
    (fun w' => abort_ok w w').
Proof.
  intros U W Cn G K R Al Bc S0 Lt. pose proof (past_slot_untouched w) as Un. unfold v_push_unsize. eapply run_eq; [apply unsize_eq; auto using good_wf|].
  destruct (unsizes_size s a u m x U) as [Es Ea].
  eapply run_conseq; [eapply (C02_push_unraised u self l (coerce m x) al);
    eauto using repr_untouched, coerce_good, align_untouched, bytecap_untouched; lia|..]; cbv beta; auto.
  all: try (intros w'; now apply failed_untouched).
Qed.
(** Behind elements with bytes of their own: the new element does not appear among them, or is not read back as it was. *)
Theorem C59_insert_unsize_never s a u m self i l x w : unsizes s a u m -> wf_ty (TSized s a) -> countable u m -> good (TSized s a) x ->
  kind_of u = KAligned -> repr u self l w -> (i <= length l)%nat -> Z.of_nat i < total u (firstn i l) -> 0 < s ->
  byte_at (image l) (Z.of_nat i) <> byte_at (v_bytes x) 0 ->
  run (v_insert_unsize s a u m self i x) w
    (fun _ w' => ~ shows u self (insert_at i (Value m (v_bytes x)) l) w')
    (fun r w' => holds_list u self l w' /\ w_drops w' = w_drops w ++ [Value m (v_bytes x)])
    (fun w' => alloc_failed w w' \/ drop_panicked w w').
Proof.
  intros U W Cn G K R Li Lt Ps Ne. pose proof (past_slot_untouched w) as Un. unfold v_insert_unsize. eapply run_eq; [apply unsize_eq; auto using good_wf|].
  destruct (unsizes_size s a u m x U) as [Es Ea].
  eapply run_conseq; [eapply (C06_insert_never u self i l (coerce m x)); eauto using repr_untouched, coerce_good; lia|..]; cbv beta; auto.
  all: try (intros w'; now apply failed_untouched).
Qed.
Theorem C59_insert_unsize_never_dyn s a u m self i y l x w : unsizes s a u m -> wf_ty (TSized s a) -> countable u m -> good (TSized s a) x ->
  kind_of u = KUnaligned -> repr u self (y :: l) w -> placeable u self (coerce m x) w -> (0 < i <= length (y :: l))%nat ->
  movable u self (y :: l) i a w -> Z.of_nat i < vsize u y -> 0 < s -> byte_at (v_bytes y) (Z.of_nat i) <> byte_at (v_bytes x) 0 ->
  run (v_insert_unsize s a u m self i x) w
    (fun _ w' => ~ shows u self (insert_at i (Value m (v_bytes x)) (y :: l)) w')
    (fun r w' => holds_list u self (y :: l) w' /\ w_drops w' = w_drops w ++ [Value m (v_bytes x)])
    (fun w' => alloc_failed w w' \/ drop_panicked w w').
Proof.
  intros U W Cn G K R Pl Li Mv Lt Ps Ne. pose proof (past_slot_untouched w) as Un. unfold v_insert_unsize. eapply run_eq; [apply unsize_eq; auto using good_wf|].
  destruct (unsizes_size s a u m x U) as [Es Ea].
  eapply run_conseq; [eapply (C06_insert_never_dyn u self i y l (coerce m x)); eauto using repr_untouched, coerce_good, placeable_untouched; try lia|..]; cbv beta; auto.
  rewrite Ea. intros Ku. destruct (Mv Ku) as [L|(al & A & E)]; auto. right. exists al. eauto using align_untouched.
Qed.
Theorem C59_insert_unsize_end_never s a u m self l y al x w : unsizes s a u m -> wf_ty (TSized s a) -> countable u m -> good (TSized s a) x ->
  kind_of u = KUnaligned -> repr u self (l ++ [y]) w -> placeable u self (coerce m x) w -> v_align u self w = (Ok al, w) ->
  vsize u y mod Z.max al a <> 0 ->
  ends (v_insert_unsize s a u m self (length (l ++ [y])) x) w (fun _ _ => False)
    (fun r w' => holds_list u self (l ++ [y]) w' /\ w_drops w' = w_drops w ++ [Value m (v_bytes x)])
    (fun w' => abort_ok w w') (eq UbArith).
Proof.
  intros U W Cn G K R Pl Al Ne. pose proof (past_slot_untouched w) as Un. unfold v_insert_unsize. eapply ends_eq; [apply unsize_eq; auto using good_wf|].
  destruct (unsizes_size s a u m x U) as [Es Ea].
  eapply ends_conseq; [eapply (C06_insert_end_never u self l y al (past_slot w) (coerce m x)); eauto using repr_untouched, coerce_good, placeable_untouched, align_untouched; now rewrite Ea|..]; cbv beta; auto.
  all: try (intros w'; now apply failed_untouched).
Qed.

(** ** C62: the macros with a value of a zero-sized Sized type never return *)
Lemma push_items_app t self a : forall b w, v_push_items t self (a ++ b) w = bind (v_push_items t self a) (fun _ => v_push_items t self b) w.
Proof.
  induction a as [|i a IH]; intros b w; [reflexivity|]. cbn [app v_push_items]. rewrite bind_assoc. unfold bind at 1 2.
  destruct (v_push_item t self i w) as [[[]|r| |r] w1]; auto.
Qed.
Theorem C62_zst_never t is1 x is2 Ss w : wf_ty t -> kind_of t = KSized -> s_size t = 0 -> good t x ->
  Forall (pushable t) is1 -> arguments t 8 is1 Ss w -> (forall j, In j (fvs Ss) -> (j < length (w_vecs w))%nat) -> zlen Ss < usize_max ->
  run (v_of_items t (is1 ++ IValue x :: is2)) w (fun _ _ => False)
    (fun r w' => vanished (length (w_vecs w)) w w' /\
       (r = PDivZero \/ no_room r \/ (exists S, In S Ss /\ d_panic S r) \/ r = PDrop /\ drop_panicked w w'))
    (fun w' => alloc_failed w w' \/ drop_panicked w w').
Proof.
  intros W K Z0 Gx Nz Ar Fv Lt. unfold v_of_items. unfold run at 1. erewrite bind_eq by apply v_new_eq.
  set (w1 := set_vecs (w_vecs w ++ [new_o t false]) w). set (v := length (w_vecs w)).
  pose proof (new_orep t false w W) as R. fold w1 v in R.
  assert (N : newvec v (fvs Ss) (fbs Ss) w w1). { apply new_newvec. right. apply new_o_raw. }
  assert (Ob : forall b, In b (fbs Ss) -> (b < length (w_heap w))%nat).
  { intros b I. apply in_flat_map in I as (S & IS & IB). destruct Ar as (_ & _ & _ & Ob & _). rewrite Forall_forall in Ob. eauto. }
  assert (Ap : apart v (fvs Ss) (fbs Ss) w1) by (eapply newvec_apart; eauto).
  assert (Ag : agree (fvs Ss) (fbs Ss) w w1).
  { split; [|split; [auto|unfold w1; proj; lia]]. intros j I. unfold w1. proj. apply nth_error_app1. auto. }
  apply (run_bind (on_unwind (v_push_items t v (is1 ++ IValue x :: is2)) (v_drop t v)) (fun _ => ret v)). apply run_on_unwind.
  unfold run at 1. rewrite push_items_app.
  apply (run_bind (v_push_items t v is1)).
  assert (Ar1 : arguments t (o_al t (new_o t false)) is1 Ss w1).
  { assert (X : arguments t 8 is1 Ss w1) by (eapply arguments_agree; eauto; lia). clear -X. unfold new_o, o_al.
    destruct (kind_of t) eqn:K; cbn; auto; destruct X as (A & B & D & E & G); unfold arguments; ands; auto;
      (eapply Forall_impl; [|exact G]; cbv beta; intros S (H & _); split; auto; congruence). }
  assert (Fin : forall r l w2, repr t v l w2 -> newvec v (fvs Ss) (fbs Ss) w w2 -> (length (w_drops w) <= length (w_drops w2))%nat ->
    (r = PDivZero \/ no_room r \/ (exists S, In S Ss /\ d_panic S r) \/ r = PDrop /\ drop_panicked w w2) ->
    run (v_drop t v) w2 (fun _ w' => vanished v w w' /\
       (r = PDivZero \/ no_room r \/ (exists S, In S Ss /\ d_panic S r) \/ r = PDrop /\ drop_panicked w w'))
      (fun _ w' => alloc_failed w w' \/ drop_panicked w w') (fun w' => alloc_failed w w' \/ drop_panicked w w')).
  { intros r l w2 R2 N2 Dle H. apply repr_orep in R2 as (o2 & d2 & R2). eapply run_conseq; [eapply v_drop_wp; eauto|..]; cbv beta.
    - intros [] w3 ->. split; [eapply vanished_dropped; eauto|]. destruct H as [H|[H|[H|[-> (n & Hn & P)]]]]; auto.
      right; right; right. split; auto. exists n. split; auto. unfold dropped_world. proj. rewrite app_length. lia.
    - intros _ w3 (_ & P & _). right. eapply drop_panicked_from; eauto.
    - intros w3 (_ & P). right. eapply drop_panicked_from; eauto. }
  eapply run_conseq; [eapply (v_push_items_wp t v is1 Nz Ss [] _ _ w1 R Ar1 Ap)|..]; cbv beta.
  - intros [] w2 (R2 & T2 & D2 & A2). cbn [app v_push_items v_push_item] in *. apply run_bind.
    assert (Dle : (length (w_drops w) <= length (w_drops w2))%nat) by (apply touch_drops_le in T2; exact T2).
    assert (N2 : newvec v (fvs Ss) (fbs Ss) w w2) by (eapply newvec_touch; eauto).
    eapply run_conseq; [eapply (C03_push_zst_always_panics t v (map d_value Ss) x w2 K Z0 R2); auto; unfold zlen in *; now rewrite map_length|..]; cbv beta.
    + intros ? ? [].
    + intros r w3 (-> & [R3 _] & ->). eapply Fin; eauto; [|proj; rewrite app_length; lia].
      eapply newvec_touch; eauto. apply touch_within; [apply within_drops| |now exists [x]].
      eapply touch_apart; eauto.
    + intros w3 P. right. eapply drop_panicked_from; eauto.
  - intros r w2 (is1' & i & is2' & Ss1 & S & Ss2 & Ei & Es & El & R2 & T2 & A & B & H). cbn [app] in R2.
    eapply Fin; [exact R2| | |].
    + eapply newvec_touch; eauto.
    + apply touch_drops_le in T2. exact T2.
    + destruct H as [(Rr & _)|[P|[-> P]]]; auto. right; right; left. exists S. split; auto. rewrite Es. apply in_or_app. right. now left.
  - auto.
Qed.
End WithConfig.

Print Assumptions C37_push_last_never.
Print Assumptions C37_insert_last_never.
Print Assumptions C13_overlap_always.
Print Assumptions C14_iter_mut_always.
Print Assumptions C59_push_unsize_unraised.
Print Assumptions C59_insert_unsize_never.
Print Assumptions C59_insert_unsize_never_dyn.
Print Assumptions C59_insert_unsize_end_never.
Print Assumptions C62_zst_never.

(** ** Concrete cases meeting the hypotheses *)
Section Cases.
Local Existing Instance cfg_release.
Ltac built := eapply (built_repr _ _ empty_world); [exact I|intros K; discriminate K|apply takesb_ok; reflexivity|run].

Example C37_last_case : exists v1 v2 w1 w2 w3 w4,
  v_of_values TDyn [five 1; Findings.one 2] empty_world = (Ok v1, w1) /\ v_of_values TDyn [word 3] w1 = (Ok v2, w2) /\
  shows TDyn v1 ([] ++ [five 1; Findings.one 2]) w2 /\ shows TDyn v2 [word 3] w2 /\ v_align TDyn v1 w2 = (Ok 8, w2) /\ vsize TDyn (five 1) mod 8 <> 0 /\
  remove_then TDyn v1 1 (v_push_with TDyn v2) w2 = (UB UbArith, w3) /\
  remove_then TDyn v1 1 (v_insert_with TDyn v2 0) w2 = (UB UbArith, w4).
Proof. do 6 eexists. do 5 (split; [run|]). split; [vm_compute; discriminate|]. split; run. Qed.
(** Three elements: [next], [next_back], and once more from the end. *)
Example C13_C14_case : exists v w it r1 n rs it1 r2 it2 w', repr TDyn v [word 1; half 2; word 3] w /\
  snd (dq_run [NextBack] [half 2; word 3]) = [half 2] /\ fair true 1 [NextBack] = false /\
  v_iter TDyn v w = (Ok it, w) /\ v_calls TDyn [Next; NextBack] it w = (Ok ((Some r1, n) :: rs, it1), w) /\
  v_call TDyn NextBack it1 w = (Ok (Some r2, it2), w) /\ wp r1 = wp r2 /\ size_of_val TDyn (wm r1) = 8 /\ size_of_val TDyn (wm r2) = 4 /\
  mem_write (wp r2) (map Byte [9; 9; 9; 9]) w = (Ok tt, w') /\
  shows TDyn v [Value (v_meta (word 1)) (map Byte [9; 9; 9; 9] ++ skipn 4 (v_bytes (word 1))); half 2; word 3] w'.
Proof. do 10 eexists. split; [built|]. do 9 (split; [run|]). run. Qed.
Example C59_unraised_case : exists v w w', repr TDyn v [] w /\ good (TSized 0 16) (Value MUnit []) /\ unsizes 0 16 TDyn (v_meta zst16) /\
  v_align TDyn v w = (Ok 8, w) /\ v_byte_capacity TDyn v w = (Ok 0, w) /\
  v_push_unsize 0 16 TDyn (v_meta zst16) v (Value MUnit []) w = (Ok tt, w') /\ v_align TDyn v w' = (Ok 8, w') /\ v_len TDyn v w' = (Ok 1, w').
Proof.
  do 3 eexists. split; [eapply (built_repr _ [] empty_world); [exact I|intros K; discriminate K|apply takesb_ok; reflexivity|run]|].
  split; [apply goodb_ok; reflexivity|]. split; [split; reflexivity|]. do 4 (split; [run|]). run.
Qed.
(** A [&[u8; 2]] between two slices of bytes. *)
Example C59_never_case : exists v w w', repr (TSlice 1 1) v [ab; cd] w /\ good (TSized 2 1) (sized_val [7; 8]) /\
  unsizes 2 1 (TSlice 1 1) (MLen 2) /\ 1 < total (TSlice 1 1) (firstn 1 [ab; cd]) /\
  byte_at (image [ab; cd]) 1 <> byte_at (v_bytes (sized_val [7; 8])) 0 /\
  v_insert_unsize 2 1 (TSlice 1 1) (MLen 2) v 1 (sized_val [7; 8]) w = (Ok tt, w') /\
  ~ shows (TSlice 1 1) v [ab; Value (MLen 2) [Byte 7; Byte 8]; cd] w'.
Proof.
  do 3 eexists. split; [eapply (built_repr _ _ empty_world); [split; [split; [lia|split; [apply pow2_1|vm_compute; discriminate]]|reflexivity]|intros K; discriminate K|apply takesb_ok; reflexivity|run]|].
  split; [apply goodb_ok; reflexivity|]. split; [cbn; repeat split; try reflexivity; lia|]. split; [reflexivity|]. split; [vm_compute; discriminate|].
  split; [run|]. intro H; vm_compute in H; discriminate H.
Qed.
Example C59_end_case : exists v w w1 w2, repr TDyn v ([word 1] ++ [five 2]) w /\ v_align TDyn v w = (Ok 8, w) /\
  vsize TDyn (five 2) mod Z.max 8 8 <> 0 /\ good (TSized 8 8) (u64 3) /\ unsizes 8 8 TDyn (v_meta (word 0)) /\
  v_insert_unsize 8 8 TDyn (v_meta (word 0)) v 2 (u64 3) w = (UB UbArith, w1) /\
  byte_at (v_bytes (word 1)) 1 <> byte_at (v_bytes (u64 3)) 0 /\ v_insert_unsize 8 8 TDyn (v_meta (word 0)) v 1 (u64 3) w = (Ok tt, w2) /\
  ~ shows TDyn v [word 1; coerce (v_meta (word 0)) (u64 3); five 2] w2.
Proof.
  do 4 eexists. split; [built|]. split; [run|]. split; [vm_compute; discriminate|]. split; [apply goodb_ok; reflexivity|].
  split; [split; reflexivity|]. split; [run|]. split; [vm_compute; discriminate|]. split; [run|]. intro H; vm_compute in H; discriminate H.
Qed.
(** Zero-sized values: emplacables only, then with a value among them. *)
Definition unit_val : value := Value MUnit [].
Definition unit_emplacable : item := IEmplacable (emplacable_of_value (TSized 0 1) unit_val).
Example C62_zst_case : Forall (pushable (TSized 0 1)) [unit_emplacable; unit_emplacable] /\ good (TSized 0 1) unit_val /\
  arguments (TSized 0 1) 8 [unit_emplacable; unit_emplacable] (map (value_deal (TSized 0 1)) [unit_val; unit_val]) empty_world /\
  exists v w w', v_of_items (TSized 0 1) [unit_emplacable; unit_emplacable] empty_world = (Ok v, w) /\ shows (TSized 0 1) v [unit_val; unit_val] w /\
  v_of_items (TSized 0 1) ([unit_emplacable; unit_emplacable] ++ [IValue unit_val]) empty_world = (Panic PDivZero, w').
Proof.
  split; [repeat constructor|]. split; [apply goodb_ok; reflexivity|]. split.
  - unfold arguments. cbn [map]. ands.
    + constructor; [|constructor; [|constructor]]; (split; [apply value_emits|apply fits_self; [apply goodb_ok; reflexivity|discriminate]]).
    + repeat constructor; intros ? [].
    + repeat constructor; apply value_stable.
    + repeat constructor; intros ? [].
    + repeat constructor; try (apply goodb_ok; reflexivity); discriminate.
  - do 3 eexists. split; [run|]. split; run.
Qed.
End Cases.
