(** Sized elements of size zero: everything that reserves bytes divides by that size and panics (finding F3), before anything
    has changed. Only [push_with] and [insert_with] do not. *)
From Coq Require Import ZArith List Bool Lia.
From Verif Require Import Types World ValidSize Emplace SizedVec AlignedVec UnalignedVec Api Spec Bytes Arith Wp Mem Repr
  Access Reserve Realign Orep Push Deal PushWith Shell Insert Take Pop Box Iter Calls GetMut DropVec Family Build PushAll Wrote Sources
  Obs Room Shrink PropPush PropReserve PropAccess PropEdit PropEmplace PropShrink PropCompare PropWhole.
Import ListNotations.
Open Scope Z_scope.
Open Scope m_scope.

Section WithConfig.
Context {C : Config}.
Definition zst (t : ty) : Prop := kind_of t = KSized /\ s_size t = 0.
Definition divides (t : ty) (r : panic_reason) : Prop := r = PDivZero /\ zst t.
Lemma zst_or t : wf_ty t -> nzst t \/ zst t.
Proof.
  intros W. destruct t as [s a| | | | |]; try (left; intros K; discriminate K). destruct W as [(S0 & _) _]. unfold nzst, zst. change (s_size (TSized s a)) with s.
  destruct (Z.eq_dec s 0); auto. left. intros _. lia.
Qed.

Lemma zst_obj t self l w : zst t -> repr t self l w -> exists v, nth_error (w_vecs w) self = Some (OS v) /\ sv_len v = zlen l /\ zlen l <= usize_max.
Proof.
  intros [K Z0] R. apply repr_orep in R as (o & d & R). destruct o as [v|v|v|]; cbn [orep] in R; try tauto; try (destruct R; congruence).
  exists v. pose proof (sr_fit _ _ _ _ _ _ R) as F. unfold s_capacity in F. rewrite Z0 in F. cbn [Z.eqb] in F. ands; auto; apply R.
Qed.
Lemma zst_bytes t self v w n a : zst t -> nth_error (w_vecs w) self = Some (OS v) -> sv_len v <= usize_max ->
  p_try_reserve_bytes_align t self n a w = (Panic PDivZero, w).
Proof.
  intros [K Z0] Gs Sl. apply get_s_eq in Gs. unfold p_try_reserve_bytes_align. rewrite K. unfold s_try_reserve_bytes.
  erewrite bind_eq by exact Gs. unfold s_capacity. rewrite Z0. change (0 =? 0) with true. cbv iota.
  erewrite bind_eq by (apply usub_eq; lia). reflexivity.
Qed.
Lemma bind_panic {A B} (m : M A) (k : A -> M B) w r w' : m w = (Panic r, w') -> bind m k w = (Panic r, w').
Proof. intros E. unfold bind. now rewrite E. Qed.
Lemma zst_count t self v w n ex : zst t -> nth_error (w_vecs w) self = Some (OS v) -> 
  p_try_reserve t self n ex w = (Ok (if usize_max - sv_len v <? n then RErr CapacityOverflow else ROk), w).
Proof.
  intros [K Z0] Gs. apply get_s_eq in Gs. unfold p_try_reserve. rewrite K. unfold s_reserve. erewrite bind_eq by exact Gs.
  unfold s_capacity, needs_to_grow, grow_cap. rewrite Z0. change (0 =? 0) with true. cbv iota.
  destruct (usize_max - sv_len v <? n), ex; reflexivity.
Qed.
Lemma zst_try t self l w (exact : bool) n b a : zst t -> repr t self l w ->
  let m := if exact then v_try_reserve_exact_capacity_bytes_align t self n b a else v_try_reserve_capacity_bytes_align t self n b a in
  m w = (Ok (RErr CapacityOverflow), w) \/ m w = (Panic PDivZero, w).
Proof.
  intros Z R. destruct (zst_obj _ _ _ _ Z R) as (v & Ob & Sl & Lu). pose proof (zst_count t self v w n false Z Ob) as E1.
  assert (By : forall n a, p_try_reserve_bytes_align t self n a w = (Panic PDivZero, w)) by (intros; apply (zst_bytes t self v); auto; lia).
  destruct Z as [K Z0]. cbv zeta. destruct exact.
  - unfold v_try_reserve_exact_capacity_bytes_align. erewrite bind_eq by exact E1.
    destruct (usize_max - sv_len v <? n); [left; reflexivity|right]. cbv iota.
    unfold to_align. rewrite K. erewrite bind_eq by reflexivity. apply By.
  - unfold v_try_reserve_capacity_bytes_align, v_try_reserve. erewrite bind_eq by exact E1.
    destruct (Z.ltb_spec (usize_max - sv_len v) n); [left; reflexivity|right]. cbv iota.
    apply repr_orep in R as (o & d & R).
    assert (Cap : o_cap t o = usize_max).
    { destruct o; cbn [orep] in R; try tauto; try (destruct R; congruence). ocbn. unfold s_capacity. now rewrite Z0. }
    erewrite bind_eq by (eapply v_capacity_eq; eauto). erewrite bind_eq by (eapply v_len_eq, orep_repr; eauto).
    erewrite bind_eq by (apply dassert_eq, Z.leb_le; lia). unfold to_align. rewrite K. erewrite bind_eq by reflexivity.
    erewrite bind_eq by (eapply v_byte_capacity_eq; eauto). erewrite bind_eq by (eapply unused_eq; eauto). cbv zeta.
    destruct (_ <? _); apply bind_panic, By.
Qed.
Lemma zst_reserve t self l w (exact : bool) n b a : zst t -> repr t self l w ->
  exists r, (r = PCapacity \/ r = PDivZero) /\
  (if exact then v_reserve_exact_capacity_bytes_align t self n b a else v_reserve_capacity_bytes_align t self n b a) w = (Panic r, w).
Proof.
  intros Z R. destruct (zst_try t self l w exact n b a Z R) as [E|E]; [exists PCapacity|exists PDivZero]; split; auto; destruct exact;
    unfold v_reserve_exact_capacity_bytes_align, v_reserve_capacity_bytes_align; (erewrite bind_eq by exact E; reflexivity) || exact (bind_panic _ _ _ _ _ E).
Qed.
(** A new vector for which something fails before anything has changed is gone again. *)
Lemma zst_unborn t one r (m : M unit) w : wf_ty t -> zst t -> let w1 := set_vecs (w_vecs w ++ [new_o t one]) w in
  forall w2 ds, m w1 = (Panic r, w2) -> within [] [] w1 w2 -> w_drops w2 = w_drops w1 ++ ds ->
  exists w', on_unwind m (v_drop t (length (w_vecs w))) w1 = (Panic r, w') /\
    newvec (length (w_vecs w)) [] [] w w' /\ w_drops w' = w_drops w ++ ds /\ vanished (length (w_vecs w)) w w'.
Proof.
  intros W Z w1 w2 ds E Wi Ds. pose proof (new_orep t one w W) as R. fold w1 in R.
  assert (N : newvec (length (w_vecs w)) [] [] w w1). { apply new_newvec. right. apply new_o_raw. }
  assert (N2 : newvec (length (w_vecs w)) [] [] w w2). { eapply newvec_touch; [exact N| |intros b' []]. eapply touch_within; eauto using apart_nil. }
  assert (R2 : repr t (length (w_vecs w)) [] w2). { eapply repr_within; eauto using orep_repr. apply apart_nil. }
  apply repr_orep in R2 as (o & d & R2). unfold on_unwind. rewrite E, (drop_empty_eq _ _ _ _ _ R2). eexists. split; [reflexivity|]. ands.
  - eapply newvec_frame; [exact N2|eapply dropped_frame; eauto|intros b' []].
  - unfold dropped_world. proj. rewrite app_nil_r. exact Ds.
  - eapply vanished_dropped; eauto.
Qed.
End WithConfig.
