(** Emplacables that hand over a value already in memory or held by value, and the [emits] contract for each of them. *)
From Coq Require Import ZArith List Bool Lia.
From Verif Require Import Types World ValidSize Emplace SizedVec AlignedVec UnalignedVec Api Spec Bytes Arith Wp Mem Repr
  Access Reserve Realign Orep Push Deal PushWith Shell Insert.
Import ListNotations.
Open Scope Z_scope.
Open Scope m_scope.

(** What holds of any value of a type. *)
Lemma wf_size t x : wf_value t x -> 0 <= vsize t x <= isize_max.
Proof. intros [(V & _) _]. destruct V as (H & P & L). unfold vsize. pose proof (pow2_pos _ P). lia. Qed.
Lemma wf_bytes t x : wf_value t x -> zlen (v_bytes x) = vsize t x.
Proof. intros [_ H]. exact H. Qed.
Lemma wf_align t x : wf_value t x -> pow2 (valign t x).
Proof. intros [(V & _) _]. apply V. Qed.
Lemma good_wf t x : good t x -> wf_value t x.
Proof. intros [H _]. exact H. Qed.
#[export] Hint Resolve good_wf : core.

Lemma bind_ret (m : M unit) w : bind m (fun _ => ret tt) w = m w.
Proof. unfold bind. destruct (m w) as [[[]| | |]]; auto. Qed.

Lemma heap_write_get h p bs h' : heap_write h p bs = Some h' ->
  length h' = length h /\ forall b, ptr_block p <> Some b -> heap_get h' b = heap_get h b.
Proof.
  unfold heap_write. destruct (zlen bs =? 0). { intros E; injection E as <-. auto. }
  destruct p as [b0 off|]; [|discriminate]. destruct (heap_get h b0) as [k|] eqn:E; [|discriminate].
  destruct (_ && _); [|discriminate]. intros X; injection X as <-. split. apply upd_length.
  intros b N. apply heap_get_upd_other. cbn in N. congruence.
Qed.

(** Value [x] is found behind the reference [r]. *)
Definition behind (t : ty) (r : wide) (x : value) (h : list (option block)) : Prop :=
  wm r = v_meta x /\ ref_ok t h r = true /\ heap_read h (wp r) (vsize t x) = Some (v_bytes x).

Lemma heap_read_agree h h' p n : (forall b, ptr_block p = Some b -> heap_get h' b = heap_get h b) ->
  heap_read h' p n = heap_read h p n.
Proof. intros A. unfold heap_read. destruct (n =? 0); auto. destruct p; auto. cbn in A. now rewrite A. Qed.
Lemma behind_agree t r x h h' : (forall b, ptr_block (wp r) = Some b -> heap_get h' b = heap_get h b) ->
  behind t r x h -> behind t r x h'.
Proof.
  intros A (E & R & H). unfold behind. ands; auto.
  - unfold ref_ok in *. rewrite (heap_read_agree h h') by auto.
    replace (ptr_addr h' (wp r)) with (ptr_addr h (wp r)); auto.
    unfold ptr_addr. destruct (wp r); auto. cbn in A. now rewrite A.
  - now rewrite (heap_read_agree h h').
Qed.

Section WithConfig.
Context {C : Config}.

Lemma behind_read t r x w : behind t r x (w_heap w) -> read_value t r w = (Ok x, w).
Proof.
  intros (E & _ & H). unfold read_value. rewrite E. change (size_of_val t (v_meta x)) with (vsize t x).
  unfold mem_read. erewrite bind_eq by (now rewrite H). now destruct x.
Qed.
Lemma behind_ref t r x w : behind t r x (w_heap w) -> make_ref t r w = (Ok r, w).
Proof. intros (_ & R & _). unfold make_ref. now rewrite R. Qed.
Lemma drop_in_place_eq t r x w : behind t r x (w_heap w) -> drop_in_place t r w = drop_value x w.
Proof.
  intros B. unfold drop_in_place. erewrite bind_eq by (eapply behind_ref; eauto).
  erewrite bind_eq by (eapply behind_read; eauto). reflexivity.
Qed.

(** The blocks of a pointer. *)
Definition blocks (p : ptr) : list nat := match ptr_block p with Some b => [b] | None => [] end.
Lemma in_blocks p b : In b (blocks p) <-> ptr_block p = Some b.
Proof.
  unfold blocks. destruct (ptr_block p); cbn; split; intros H; try tauto; try discriminate.
  - destruct H as [->|[]]; auto. - injection H; auto.
Qed.

(** The element reference of a vector. *)
Definition eref (t : ty) (o : obj) (l : list value) (i : nat) (x : value) : wide :=
  Wide (padd (o_ptr o) (plen t (o_pal o) (firstn i l))) (v_meta x).
Lemma orep_behind t self l o d w i x : orep t self l o d w -> nth_error l i = Some x ->
  behind t (eref t o l i x) x (w_heap w).
Proof.
  intros R E. assert (X : ref_ok t (w_heap w) (eref t o l i x) = true /\ read_value t (eref t o l i x) w = (Ok x, w)).
  { unfold eref. destruct o; ocbn in *; try tauto.
    - split. eapply s_ref_ok; eauto. eapply s_read_eq; eauto.
    - split. eapply a_ref_ok; eauto. eapply a_read_eq; eauto.
    - split. eapply u_ref_ok; eauto. eapply u_read_eq; eauto. }
  destruct X as [X Y]. unfold behind. ands; auto. unfold read_value, mem_read, bind in Y. cbn [wm eref] in Y.
  change (size_of_val t (v_meta x)) with (vsize t x) in Y.
  destruct (heap_read (w_heap w) (wp (eref t o l i x)) (vsize t x)); [|discriminate].
  unfold ret in Y. injection Y as Y. rewrite <- Y. reflexivity.
Qed.

(** ** The closure that moves a value out of memory *)
Definition take (t : ty) (r : wide) (n : Z) : inner_fn := fun out =>
  if is_null out then drop_in_place t r else mem_copy_no (wp r) out n.

Lemma copy_out_eq t r x p w h' : behind t r x (w_heap w) -> (forall b, ptr_block p = Some b -> ptr_block (wp r) <> Some b) ->
  heap_write (w_heap w) p (v_bytes x) = Some h' ->
  mem_copy_no (wp r) p (vsize t x) w = (Ok tt, set_heap h' w).
Proof.
  intros (_ & _ & H) N W. unfold mem_copy_no.
  assert (O : overlaps (wp r) p (vsize t x) = false).
  { unfold overlaps. destruct (wp r) as [b o|]; auto. destruct p as [b' o'|]; auto.
    destruct (Nat.eqb_spec b b'); auto. subst. now elim (N b'). }
  rewrite O. unfold mem_copy, mem_read. erewrite bind_eq by (now rewrite H). unfold mem_write. now rewrite W.
Qed.

Lemma take_writes t r S post w1 n : n = vsize t (d_value S) ->
  behind t r (d_value S) (w_heap w1) -> (forall b, ptr_block (wp r) = Some b -> In b (d_fb S)) -> d_extra S = [] ->
  post_ok S Delivered post w1 -> writes S (take t r n) post w1.
Proof.
  intros -> B I X P p w2 h' Ag Nn Pb HW.
  assert (B2 : behind t r (d_value S) (w_heap w2)).
  { eapply behind_agree; [|exact B]. intros b E. apply Ag. auto. }
  unfold take. rewrite Nn.
  eapply run_eq1. { apply (copy_out_eq t r (d_value S) p w2 h'); [exact B2| |exact HW]. intros b E E'. eapply Pb; eauto. }
  ands.
  - apply within_refl.
  - proj. now rewrite X, app_nil_r.
  - eapply post_ok_agree; [exact P|]. destruct (heap_write_get _ _ _ _ HW) as [L O].
    destruct Ag as (A1 & A2 & A3). unfold agree. proj. ands; auto.
    + intros b Ib. rewrite O; auto. intro E. eapply Pb; eauto.
    + lia.
Qed.
Lemma take_nulls t r S post w1 n :
  behind t r (d_value S) (w_heap w1) -> (forall b, ptr_block (wp r) = Some b -> In b (d_fb S)) -> d_nulls S = [d_value S] ->
  post_ok S Dropped post w1 -> nulls S (take t r n) post w1.
Proof.
  intros B I X P w2 Ag.
  assert (B2 : behind t r (d_value S) (w_heap w2)).
  { eapply behind_agree; [|exact B]. intros b E. apply Ag. auto. }
  unfold take. cbn [is_null null Z.eqb]. unfold run. rewrite (drop_in_place_eq t r (d_value S)) by auto.
  apply run_sound. apply run_drop_value; intros D.
  - ands.
    + apply within_drops.
    + proj. now rewrite X.
    + eapply post_ok_agree; [exact P|]. exact Ag.
  - ands; auto.
    + split; [rewrite X; discriminate|]. now apply drop_panicked_1.
    + apply within_drops.
    + exists [d_value S]. reflexivity.
Qed.

(** ** By value (emplacable/src/lib.rs:709-747) *)
Definition value_deal (t : ty) (x : value) : deal :=
  Deal (v_meta x) (v_bytes x) (layout_of t x) [] [] [x] [] (fun _ => False) (fun _ _ => True).
Lemma value_emits t x w : emits (emplacable_of_value t x) (value_deal t x) w.
Proof.
  split; [intros b []|]. intros w1 _. eexists _, (ret tt), w1. ands; cbn [d_fv d_fb d_lay d_meta d_after value_deal]; auto.
  - intros E. rewrite bind_ret. reflexivity.
  - apply within_refl.
  - intros p w2 h' Ag Nn Pb HW. cbn [d_bytes value_deal] in HW. rewrite Nn. eapply run_eq1. { unfold mem_write. now rewrite HW. }
    ands. apply within_refl. proj. now rewrite app_nil_r. apply post_ok_ret; cbn [d_after value_deal]; auto.
  - intros w2 Ag. cbn [is_null null Z.eqb]. apply run_drop_value; intros D.
    + ands. apply within_drops. reflexivity. apply post_ok_ret; cbn [d_after value_deal]; auto.
    + ands; auto. split; [discriminate|]. now apply drop_panicked_1. apply within_drops. exists [x]. reflexivity.
  - apply post_ok_ret; cbn [d_after value_deal]; auto.
Qed.

(** ** From a borrowed str-like value (emplacable/src/lib.rs:815-969) *)
Definition ref_deal (t : ty) (r : wide) (x : value) : deal :=
  Deal (v_meta x) (v_bytes x) (layout_of t x) [] (blocks (wp r)) [] [] (fun _ => False)
    (fun _ w => behind t r x (w_heap w)).
Lemma behind_lt t r x h b : behind t r x h -> ptr_block (wp r) = Some b -> (b < length h)%nat.
Proof.
  intros (_ & R & _) E. unfold ref_ok, ptr_addr in R. destruct (wp r) as [b' o|]; [|discriminate].
  injection E as ->. destruct (heap_get h b) eqn:G; [|discriminate]. eapply heap_get_lt; eauto.
Qed.
Lemma str_ref_emits t r x w : behind t r x (w_heap w) -> emits (emplacable_of_str_ref t r) (ref_deal t r x) w.
Proof.
  intros B. split. { intros b I. apply in_blocks in I. eapply behind_lt; eauto. }
  intros w1 Ag.
  assert (BA : forall w', agree [] (blocks (wp r)) w1 w' -> behind t r x (w_heap w')).
  { intros w' Ag'. eapply behind_agree; [|exact B]. intros b E. apply in_blocks in E.
    rewrite (proj1 (proj2 Ag')) by auto. apply Ag; auto. }
  eexists _, (ret tt), w1. ands; cbn [d_fv d_fb d_lay d_meta d_after ref_deal]; auto.
  - intros E. rewrite bind_ret. unfold emplacable_of_str_ref. rewrite (proj1 B). reflexivity.
  - apply within_refl.
  - intros p w2 h' Ag2 Nn Pb HW. cbn [d_fv d_fb d_bytes ref_deal] in *. rewrite Nn.
    eapply run_eq1.
    { change (size_of_val t (v_meta x)) with (vsize t x). apply (copy_out_eq t r x p w2 h'); [apply BA, Ag2| |exact HW].
      intros b E E'. apply (Pb b E). now apply in_blocks. }
    ands. apply within_refl. proj. now rewrite app_nil_r.
    apply post_ok_ret. cbn [d_fv d_fb d_after ref_deal]. intros w' Ag'. apply BA. eapply agree_trans; [exact Ag2|].
    eapply agree_trans; [|exact Ag']. destruct (heap_write_get _ _ _ _ HW) as [L O]. unfold agree. proj. ands; auto; [|lia].
    intros b Ib. apply O. intro E. eapply Pb; eauto.
  - intros w2 Ag2. cbn [is_null null Z.eqb]. apply run_ret. ands. apply within_refl. now rewrite app_nil_r.
    apply post_ok_ret. intros w' Ag'. apply BA. eapply agree_trans; eauto.
  - apply post_ok_ret. intros w' Ag'. apply BA. auto.
Qed.

(** ** A value moved out of a stack slot (emplacable/src/lib.rs:305-384, [with_emplacable_for]) *)
Definition slot_deal (t : ty) (r : wide) (x : value) : deal :=
  Deal (v_meta x) (v_bytes x) (layout_of t x) [] (blocks (wp r)) [x] [] (fun _ => False)
    (fun _ w => behind t r x (w_heap w)).
Lemma slot_emits t r x w : behind t r x (w_heap w) -> emits (with_emplacable_closure t r) (slot_deal t r x) w.
Proof.
  intros B. split. { intros b I. apply in_blocks in I. eapply behind_lt; eauto. }
  intros w1 Ag.
  assert (BA : forall w', agree [] (blocks (wp r)) w1 w' -> behind t r x (w_heap w')).
  { intros w' Ag'. eapply behind_agree; [|exact B]. intros b E. apply in_blocks in E.
    rewrite (proj1 (proj2 Ag')) by auto. apply Ag; auto. }
  assert (Ev : d_value (slot_deal t r x) = x) by now destruct x.
  assert (PO : forall u, post_ok (slot_deal t r x) u (ret tt) w1) by (intros; apply post_ok_ret; exact BA).
  exists (take t r (vsize t x)), (ret tt), w1. ands; cbn [d_fv d_fb d_lay d_meta d_after slot_deal]; auto.
  - intros E. rewrite bind_ret. unfold with_emplacable_closure. rewrite (proj1 B). reflexivity.
  - apply within_refl.
  - apply take_writes; rewrite ?Ev; auto. apply BA, agree_refl. intros b; cbn. apply in_blocks.
  - apply take_nulls; rewrite ?Ev; auto. apply BA, agree_refl. intros b; cbn. apply in_blocks.
Qed.

(** ** From a box (emplacable/src/lib.rs:1027-1070) *)

(** [b] is a [Box<t>] holding [x]: an allocation with the layout of the value (none for size zero) holding its bytes. *)
Definition boxed (t : ty) (b : wide) (x : value) (h : list (option block)) : Prop :=
  wm b = v_meta x /\ buf h (wp b) (valign t x) (vsize t x) (v_bytes x).
(** The allocation of the box is gone. *)
Definition freed (b : wide) (h : list (option block)) : Prop :=
  forall k, ptr_block (wp b) = Some k -> heap_get h k = None.
Definition box_deal (t : ty) (b : wide) (x : value) : deal :=
  Deal (v_meta x) (v_bytes x) (layout_of t x) [] (blocks (wp b)) [x] [] (fun _ => False)
    (fun u w => match u with Refused => boxed t b x (w_heap w) | _ => freed b (w_heap w) end).

Lemma boxed_agree t b x h h' : (forall k, ptr_block (wp b) = Some k -> heap_get h' k = heap_get h k) ->
  boxed t b x h -> boxed t b x h'.
Proof. intros A [B X]. split; auto. eapply buf_agree; eauto. Qed.
Lemma boxed_behind t b x h : boxed t b x h -> wf_value t x -> behind t b x h.
Proof.
  intros [E B] G. pose proof (wf_size t x G) as Sx. pose proof (pow2_pos _ (wf_align t x G)) as Px.
  pose proof (wf_bytes t x G) as Bx. destruct b as [p m]. cbn [wp wm] in *. subst m.
  unfold behind. cbn [wp wm]. rewrite <- (padd_0 p). ands; auto.
  - eapply ref_ok_buf; eauto; unfold vsize, valign in *; try lia. apply Z.divide_refl.
  - rewrite (heap_read_buf _ _ _ _ _ _ _ B) by lia. f_equal. apply sub_all. auto.
Qed.
(** Freeing a box's allocation. *)
Lemma box_dealloc_eq t b x w : boxed t b x (w_heap w) ->
  gdealloc (wp b) (layout_of t x) w = (Ok tt, set_heap (hfree (w_heap w) (wp b)) w) /\
  within [] (blocks (wp b)) w (set_heap (hfree (w_heap w) (wp b)) w) /\ freed b (hfree (w_heap w) (wp b)).
Proof.
  intros [_ B]. ands.
  - unfold layout_of. eapply dealloc_eq; eauto.
  - unfold within. proj. ands; auto. now rewrite hfree_length. intros c N. apply hfree_other. now rewrite <- in_blocks.
  - intros k E. eapply hfree_none; eauto.
Qed.
Lemma box_free_eq t b x w : boxed t b x (w_heap w) -> wf_value t x ->
  exists w', (if 0 <? vsize t x then gdealloc (wp b) (layout_of t x) else ret tt) w = (Ok tt, w') /\
    within [] (blocks (wp b)) w w' /\ w_drops w' = w_drops w /\ freed b (w_heap w').
Proof.
  intros B G. pose proof (wf_size t x G). destruct (box_dealloc_eq t b x w B) as (E & W & F).
  destruct (Z.ltb_spec 0 (vsize t x)).
  - eexists. ands; eauto.
  - exists w. ands; auto using within_refl. intros k Ek. destruct B as [_ B].
    destruct (buf_block _ _ _ _ _ _ B Ek) as (_ & _ & ?). lia.
Qed.

Lemma box_emits t b x w : boxed t b x (w_heap w) -> wf_value t x -> emits (emplacable_of_box t b) (box_deal t b x) w.
Proof.
  intros Bx G. split. { intros k I. apply in_blocks in I. eapply behind_lt; eauto using boxed_behind. }
  intros w1 Ag.
  assert (BA : forall w', agree [] (blocks (wp b)) w1 w' -> boxed t b x (w_heap w')).
  { intros w' Ag'. eapply boxed_agree; [|exact Bx]. intros k E. apply in_blocks in E.
    rewrite (proj1 (proj2 Ag')) by auto. apply Ag; auto. }
  pose proof (BA w1 (agree_refl _ _ _)) as Bx1. pose proof (boxed_behind _ _ _ _ Bx1 G) as Bh1.
  assert (Ev : d_value (box_deal t b x) = x) by now destruct x.
  set (post := if 0 <? vsize t x then gdealloc (wp b) (layout_of t x) else ret tt).
  assert (PO : forall u, u <> Refused -> post_ok (box_deal t b x) u post w1).
  { intros u Nu w4 A4. destruct (box_free_eq t b x w4 (BA w4 A4) G) as (w5 & E5 & W5 & D5 & F5).
    exists w5. ands; auto. intros w6 A6. cbn [d_after box_deal]. assert (F6 : freed b (w_heap w6)).
    { intros k E. rewrite (proj1 (proj2 A6)). auto. now apply in_blocks. }
    destruct u; auto. congruence. }
  exists (take t b (vsize t x)), post, w1. ands; cbn [d_fv d_fb d_lay d_meta d_after box_deal]; auto.
  - intros E. unfold emplacable_of_box. erewrite bind_eq by (eapply behind_ref; exact Bh1).
    rewrite (proj1 Bx). reflexivity.
  - apply within_refl.
  - apply take_writes; rewrite ?Ev; auto. intros k; cbn. apply in_blocks. apply PO; discriminate.
  - apply take_nulls; rewrite ?Ev; auto. intros k; cbn. apply in_blocks. apply PO; discriminate.
  - apply PO; discriminate.
Qed.
End WithConfig.
