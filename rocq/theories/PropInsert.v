(** C06: what [insert] does at a position whose byte offset is not its index (finding F1). The vector stays well-formed with
    the right number of elements of the right shapes, but the new bytes stand at byte [i]. *)
From Coq Require Import ZArith List Bool Lia.
From Verif Require Import Types World ValidSize Emplace SizedVec AlignedVec UnalignedVec Api Spec Bytes Arith Wp Mem Repr
  Access Reserve Realign Orep Push Deal PushWith Shell Insert Take Pop Box Iter Calls GetMut DropVec Build Obs Room Findings PropPush PropEdit.
Import ListNotations.
Open Scope Z_scope.
Open Scope m_scope.

(** The bytes of the elements, one after the other. *)
Definition image (l : list value) : list byte := flat_map v_bytes l.

(** The elements of the shapes of [l] that the buffer contents [d] spell. *)
Fixpoint reread (t : ty) (al s : Z) (l : list value) (d : list byte) : list value :=
  match l with
  | [] => []
  | x :: r => Value (v_meta x) (sub s (vsize t x) d) :: reread t al (s + psz t al x) r d
  end.
Lemma reread_contents t al l d : forall s, contents t al s (reread t al s l d) d.
Proof. induction l as [|x l IH]; intros s; cbn [reread contents]; auto. Qed.
Lemma reread_alike t al l d : 0 < al -> Forall (good t) l -> forall s, 0 <= s -> s + plen t al l <= zlen d ->
  Forall2 alike l (reread t al s l d).
Proof.
  intros P G. induction G as [|x l Gx G IH]; intros s S F; cbn [reread plen] in *; constructor.
  - pose proof (psz_ge t al P x). pose proof (plen_nonneg t al P _ G). pose proof (good_size t x Gx). pose proof (good_bytes t x Gx).
    split; [reflexivity|]. cbn [v_bytes]. apply Nat2Z.inj. fold (zlen (v_bytes x)). fold (zlen (sub s (vsize t x) d)). rewrite sub_len; lia.
  - pose proof (psz_nonneg t al P x Gx). apply IH; lia.
Qed.
Lemma firstn_cat {A} (e : list A) n m : firstn n e ++ firstn m (skipn n e) = firstn (n + m) e.
Proof. revert e. induction n; intros [|b e]; cbn [firstn skipn app Nat.add]; auto. now destruct m. now rewrite IHn. Qed.
Lemma skipn_cat {A} (e : list A) n m : skipn m (skipn n e) = skipn (n + m) e.
Proof. revert e. induction n; intros [|b e]; cbn [skipn Nat.add]; auto. now destruct m. Qed.
Lemma sub_cat s n m d : 0 <= s -> 0 <= n -> 0 <= m -> sub s n d ++ sub (s + n) m d = sub s (n + m) d.
Proof.
  intros. unfold sub. replace (Z.to_nat (n + m)) with (Z.to_nat n + Z.to_nat m)%nat by lia.
  replace (Z.to_nat (s + n)) with (Z.to_nat s + Z.to_nat n)%nat by lia. now rewrite <- skipn_cat, firstn_cat.
Qed.
(** Without padding the used part of the buffer is the image. *)
Lemma contents_image t l d : Forall (good t) l -> forall s, 0 <= s -> contents t 1 s l d -> image l = sub s (plen t 1 l) d.
Proof.
  intros G. induction G as [|x l Gx G IH]; intros s S Ct; cbn [image flat_map plen contents] in *; [now rewrite sub_zero|].
  destruct Ct as [Cx Ct]. pose proof (good_size t x Gx). pose proof (plen_nonneg t 1 ltac:(lia) _ G). unfold psz in *. rewrite pad_1 in *.
  rewrite <- sub_cat by lia. rewrite Cx. f_equal. apply IH; auto; lia.
Qed.

Section WithConfig.
Context {C : Config}.

(** [insert_unchecked] when byte [i] lies before the place of the element. *)
Lemma insert_displaced t self l o d w x i : kind_of t <> KSized ->
  orep t self l o d w -> good t x -> room t o l x -> (i <= length l)%nat -> tail_ok t (o_pal o) l i ->
  Z.of_nat i <= plen t (o_pal o) (firstn i l) ->
  let n := ulen t (o_pal o) l - plen t (o_pal o) (firstn i l) in
  let d' := splice (Z.of_nat i) (v_bytes x) (splice (Z.of_nat i + psz t (o_pal o) x) (sub (Z.of_nat i) n d) d) in
  let l' := reread t (o_pal o) 0 (insert_at i x l) d' in
  exists w', p_insert_unchecked t self i x (vsize t x) w = (Ok tt, w') /\ Forall2 alike (insert_at i x l) l' /\
    zlen d' = zlen d /\ orep t self l' (o_with t o l') d' w' /\ quiet self w w'.
Proof.
  intros Kn R G Rm Li T2 IO n d' l'.
  pose proof (orep_shell _ _ _ _ _ _ R) as Sh. pose proof (orep_holds _ _ _ _ _ _ R) as Hh.
  pose proof (orep_good _ _ _ _ _ _ R) as Gl. pose proof (pow2_pos _ (orep_pal _ _ _ _ _ _ R)) as P.
  destruct (holds_insert t o l i x ltac:(apply Sh) Hh G Rm Li) as (Hi & Bp).
  pose proof (orep_buf _ _ _ _ _ _ R) as Bu. pose proof (buf_len _ _ _ _ _ Bu) as Ld.
  pose proof (orep_data _ _ _ _ _ _ R) as Dt. pose proof (orep_with _ _ _ _ _ _ R) as Ew.
  assert (Fd : plen t (o_pal o) l + psz t (o_pal o) x <= zlen d) by (unfold o_blen in Bp; lia).
  pose proof T2 as T2'. unfold tail_ok in T2'.
  destruct (gap_facts t (o_pal o) l i x d P Gl G Li ltac:(lia) Fd) as (S0 & K0 & Kx & Bd & En & Lx & X0). fold n in Bd, En.
  set (k := psz t (o_pal o) x) in *. set (s := plen t (o_pal o) (firstn i l)) in *. set (z := Z.of_nat i) in *.
  set (dg := splice (z + k) (sub z n d) d) in *.
  assert (Ls : zlen (sub z n d) = n) by (apply sub_len; lia).
  assert (Lg : zlen dg = zlen d) by (apply splice_len; lia).
  assert (Lf : zlen d' = zlen dg) by (apply splice_len; lia).
  set (w2 := set_heap (hput (w_heap w) (o_ptr o) dg) w). set (w3 := set_heap (hput (w_heap w2) (o_ptr o) d') w2).
  pose proof (shell_put _ _ _ _ _ _ Sh Lg) as Shg. fold w2 in Shg. pose proof Shg as (_ & _ & Bug).
  assert (E1 : ptr_add (padd (o_ptr o) z) k w = (Ok (padd (o_ptr o) (z + k)), w)) by (eapply ptr_add_buf2; eauto; lia).
  assert (E2 : mem_copy (padd (o_ptr o) z) (padd (o_ptr o) (z + k)) n w = (Ok tt, w2)) by (erewrite mem_copy_buf by (eauto; lia); reflexivity).
  assert (E3 : mem_write (padd (o_ptr o) z) (v_bytes x) w2 = (Ok tt, w3)) by (eapply mem_write_buf; eauto; lia).
  assert (Q : quiet self w w3) by (eapply quiet_trans; eapply shell_frame_put; eauto).
  assert (Sh3 : shell t self o d' w3) by (eapply shell_put; eauto).
  assert (A : Forall2 alike (insert_at i x l) l').
  { destruct Hi as (Gi & _ & Fi & _). unfold l'. apply reread_alike; auto; try lia. unfold o_blen in Fi. lia. }
  assert (Ew' : o_with t o l' = o_with t o (insert_at i x l)).
  { destruct o; cbn [o_with]; rewrite ?(alike_infos t _ _ _ A); auto. unfold zlen. now rewrite (alike_len _ _ A). }
  pose proof (ins_finish_eq t self l o _ _ x i s Sh3 Ew Hh G Rm Li (fun _ => eq_refl)) as Fin. fold k in Fin.
  destruct (shell_set _ _ _ _ _ (insert_at i x l) Sh3) as (_ & Q4).
  match type of Fin with _ = (_, ?w') => exists w' end.
  ands; [|exact A|congruence| |eapply quiet_trans; eauto].
  2:{ rewrite Ew', <- Ew'. apply shell_make; auto; [|apply reread_contents].
      destruct Hi as (Gi & Ai & Fi & Zi). unfold holds, o_blen in *. rewrite (alike_plen t _ _ _ A).
      replace (zlen l') with (zlen (insert_at i x l)) by (unfold zlen; now rewrite (alike_len _ _ A)).
      ands; auto. eapply alike_Forall; eauto. intros Ku. eapply alike_valigns; eauto. }
  pose proof Rm as (Lr & Br & Ar). pose proof (orep_bcap_max _ _ _ _ _ _ R) as Bm.
  pose proof (orep_obj _ _ _ _ _ _ R) as Ob. pose proof (proj1 Sh3) as Ob3. pose proof (good_size t x G) as Sx.
  pose proof (plen_nonneg t _ P _ Gl) as L0.
  clear Ew Ew'. unfold p_insert_unchecked, ins_finish in *. destruct o as [v|v|v|]; ocbn in *; try tauto.
  - elim Kn. apply R.
  - rewrite (ar_kind _ _ _ _ _ _ R) in *. apply owned_eq.
    erewrite bind_eq in Fin by (eapply get_a_eq; eauto).
    erewrite bind_eq by (eapply get_a_eq; eauto). pose proof R as [].
    erewrite bind_eq by (apply dassert_eq, Z.ltb_lt; rewrite ar_infos, infos_of_zlen; auto).
    assert (BL : a_byte_len v = ulen t 1 l) by (unfold a_byte_len; rewrite ar_infos; apply last_end_infos).
    unfold o_blen in *; ocbn in *. pose proof (ulen_1 t l) as U1. assert (Ek : k = vsize t x) by (unfold k, psz; now rewrite pad_1). 
    pose proof (pow2_pos _ (static_align_pow2 t ar_wf)).
    erewrite bind_eq by (apply dassert_eq, Z.leb_le; lia).
    cbv zeta. erewrite bind_eq by (eapply a_start_offset_eq; eauto). fold s.
    rewrite BL. erewrite bind_eq by (apply vs_unchecked_sub_eq; unfold n in *; lia). fold n z.
    erewrite bind_eq by (eapply ptr_add_buf; eauto; unfold n in *; lia).
    rewrite <- Ek in *. erewrite bind_eq by exact E1. erewrite bind_eq by exact E2. erewrite bind_eq by exact E3. exact Fin.
  - rewrite (ur_kind _ _ _ _ _ _ R) in *. apply owned_eq.
    erewrite bind_eq in Fin by (eapply get_u_eq; eauto).
    erewrite bind_eq by (eapply get_u_eq; eauto). pose proof (u_byte_len_eq _ _ _ _ _ _ R) as UB. pose proof R as [].
    erewrite bind_eq by (apply dassert_eq, Nat.leb_le; rewrite ur_infos, infos_of_length; auto).
    erewrite bind_eq by (apply dassert_eq, Z.ltb_lt; rewrite ur_infos, infos_of_zlen; auto).
    assert (BL : u_unaligned_byte_len v = ulen t (uv_align v) l)
      by (unfold u_unaligned_byte_len; rewrite ur_infos; apply last_end_infos).
    unfold o_blen in *; ocbn in *. pose proof (ulen_le t _ P l) as U1. assert (Ek : k = pad (vsize t x) (uv_align v)) by reflexivity.
    erewrite bind_eq by (apply unchecked_pad_to_spec; auto; lia).
    erewrite bind_eq.
    2: { destruct cfg_debug; [|reflexivity]. erewrite bind_eq by exact UB. apply dassert_eq, Z.leb_le. lia. }
    erewrite bind_eq by (apply dassert_eq, Z.leb_le; auto).
    cbv zeta. erewrite bind_eq by (eapply u_start_offset_eq; eauto; lia). fold s.
    rewrite BL. erewrite bind_eq by (apply vs_unchecked_sub_eq; unfold n in *; lia). fold n z.
    erewrite bind_eq by (eapply ptr_add_buf; eauto; unfold n in *; lia).
    rewrite <- Ek in *. erewrite bind_eq by exact E1. erewrite bind_eq by exact E2. erewrite bind_eq by exact E3. exact Fin.
Qed.

Lemma v_insert_displaced t self l o d w x i : kind_of t <> KSized -> orep t self l o d w -> good t x ->
  can_align t o (vsize t x) (valign t x) -> (i <= length l)%nat ->
  let al := if match kind_of t with KUnaligned => true | _ => false end then req_al t o (valign t x) else 1 in
  tail_ok t al l i -> Z.of_nat i <= plen t al (firstn i l) ->
  run (v_insert t self i x) w
    (fun _ w' => exists d1 l', let n := ulen t al l - plen t al (firstn i l) in
      let d' := splice (Z.of_nat i) (v_bytes x) (splice (Z.of_nat i + psz t al x) (sub (Z.of_nat i) n d1) d1) in
      contents t al 0 l d1 /\ plen t al l + psz t al x <= zlen d1 /\ zlen d' = zlen d1 /\ 0 < al /\
      l' = reread t al 0 (insert_at i x l) d' /\ Forall2 alike (insert_at i x l) l' /\ repr t self l' w' /\ quiet self w w')
    (add_panic t self l o x w)
    (fun w' => abort_ok w w').
Proof.
  intros Kn R G CA Li al T2 IO. unfold v_insert. apply run_bind.
  assert (Eq : owned x (len <- v_len t self ;;
                 (if Z.of_nat i <=? len then v_reserve_capacity_bytes_align t self 1 (vsize t x) (valign t x)
                  else panic PBounds)) w
             = owned x (v_reserve_capacity_bytes_align t self 1 (vsize t x) (valign t x)) w).
  { unfold owned, on_unwind. erewrite bind_eq by (eapply v_len_eq, orep_repr; eauto).
    rewrite (proj2 (Z.leb_le _ _)) by (unfold zlen; lia). reflexivity. }
  unfold run at 1. rewrite Eq. apply run_sound.
  eapply run_conseq; [eapply add_reserve_wp; eauto|..]; cbv beta; auto.
  { intros K; congruence. }
  intros [] w1 (o1 & d1 & R1 & Q1 & L1 & B1 & A1 & Al1 & _).
  assert (Epal : o_pal o1 = al).
  { unfold al. destruct o1; ocbn in *; try tauto.
    - now rewrite (sr_kind _ _ _ _ _ _ R1). - now rewrite (ar_kind _ _ _ _ _ _ R1).
    - rewrite (ur_kind _ _ _ _ _ _ R1). auto. }
  assert (Rm : room t o1 l x) by (unfold room; auto).
  pose proof (orep_holds _ _ _ _ _ _ R1) as Hh. pose proof (orep_shell _ _ _ _ _ _ R1) as (_ & Co & _).
  destruct (holds_insert t o1 l i x Co Hh G Rm Li) as (_ & Bp).
  destruct (insert_displaced t self l o1 d1 w1 x i Kn R1 G Rm Li) as (w' & E & A & Lz & R' & Q'); try (now rewrite Epal).
  eapply run_eq1; [exact E|]. unfold o_blen in Bp. rewrite Epal in *. exists d1, (reread t al 0 (insert_at i x l)
    (splice (Z.of_nat i) (v_bytes x) (splice (Z.of_nat i + psz t al x) (sub (Z.of_nat i) (ulen t al l - plen t al (firstn i l)) d1) d1))).
  cbv zeta. ands; auto.
  - rewrite <- Epal. eapply orep_data; eauto.
  - rewrite (buf_len _ _ _ _ _ (orep_buf _ _ _ _ _ _ R1)). exact Bp.
  - rewrite <- Epal. apply pow2_pos. eapply orep_pal; eauto.
  - eapply orep_repr; eauto.
  - eapply quiet_trans; eauto.
Qed.

(** The hypotheses in the terms of C06. *)
Definition at_or_before (t : ty) (self i : nat) (l : list value) (x : value) (w : world) : Prop :=
  exists off, offset_of t self i (valign t x) l w off /\ Z.of_nat i <= off.
Lemma insert_facts t self l o d w x i : kind_of t <> KSized -> orep t self l o d w -> good t x -> (i <= length l)%nat ->
  movable t self l i (valign t x) w -> at_or_before t self i l x w ->
  let al := if match kind_of t with KUnaligned => true | _ => false end then req_al t o (valign t x) else 1 in
  tail_ok t al l i /\ Z.of_nat i <= plen t al (firstn i l).
Proof.
  intros Kn R G Li Mv (off & Of & Le) al. subst al. split.
  - destruct (kind_of t) eqn:K; try (apply tail_ok_1; eapply orep_good; eauto).
    replace (req_al t o (valign t x)) with (Z.max (o_al t o) (valign t x)) by (unfold req_al; now rewrite K).
    pose proof (movable_tail _ _ _ _ _ _ _ _ R K (pow2_pos _ (good_align t x G)) Li Mv) as T. unfold req_al in T. now rewrite ?K in T.
  - unfold offset_of in Of. destruct (kind_of t) eqn:K; try congruence.
    + now rewrite <- total_plen, <- Of.
    + destruct Of as (a & A & E). rewrite (v_align_eq _ _ _ _ _ _ R) in A. injection A as <-.
      unfold req_al. rewrite K. now rewrite <- padded_total_plen, <- E.
Qed.
Lemma plen_skipn_total t l i : plen t 1 l - plen t 1 (firstn i l) = total t (skipn i l).
Proof. rewrite total_plen. pose proof (plen_split t 1 l i). lia. Qed.

(** [insert] at a position that is not past its byte offset. The call itself ends, the vector has the elements' number and
    shapes, nothing else is touched. For an element type of fixed alignment the bytes are: the first [i] bytes, then the
    new element, then the bytes from [i] on, as many as the elements behind the position have; then left-overs, which need not
    have been written. *)
Theorem C06_insert_displaced t self i l x w : kind_of t <> KSized -> repr t self l w -> good t x -> placeable t self x w ->
  (i <= length l)%nat -> movable t self l i (valign t x) w -> at_or_before t self i l x w ->
  run (v_insert t self i x) w
    (fun _ w' => exists l', holds_list t self l' w' /\ Forall2 alike (insert_at i x l) l' /\ w_drops w' = w_drops w /\ others self w w' /\
       (kind_of t = KAligned -> exists rest,
          image l' = firstn i (image l) ++ v_bytes x ++ sub (Z.of_nat i) (total t (skipn i l)) (image l) ++ rest))
    (fun r w' => holds_list t self l w' /\ w_drops w' = w_drops w ++ [x] /\ others self w w' /\ push_refused t self l x w w' /\
                 (r = PCapacity \/ r = PDebugAssert /\ cfg_debug = true \/ r = POom /\ cfg_oom_panics = true))
    (fun w' => alloc_failed w w' \/ drop_panicked w w').
Proof.
  intros Kn R G Pl Li Mv Ab. apply repr_orep in R as (o & d & R). pose proof (placeable_can _ _ _ _ _ _ _ R Pl) as Ca.
  destruct (insert_facts _ _ _ _ _ _ _ _ Kn R G Li Mv Ab) as [T IO].
  eapply run_conseq; [apply (v_insert_displaced t self l o d w x i Kn R G Ca Li T IO)|..]; cbv beta; auto.
  - intros _ w' (d1 & l' & Ct & Fd & Lz & P & El & A & R' & [F D]). exists l'. ands; auto using repr_holds, others_frame.
    intros K. rewrite K in *. pose proof (orep_good _ _ _ _ _ _ R) as Gl. pose proof (Forall_insert _ i _ _ Gl G) as Gi.
    pose proof (alike_Forall t _ _ A Gi) as Gl'.
    destruct (gap_facts t 1 l i x d1 P Gl G Li ltac:(unfold tail_ok in T; lia) Fd) as (S0 & K0 & Kx & Bd & En & Lx & X0).
    rewrite ulen_1, plen_skipn_total in *. set (n := total t (skipn i l)) in *. set (z := Z.of_nat i) in *.
    assert (Ek : psz t 1 x = vsize t x) by (unfold psz; now rewrite pad_1). rewrite Ek in *.
    pose proof (plen_split t 1 l i) as Sp. pose proof (plen_skipn_total t l i) as Pn. fold n in Pn.
    pose proof (plen_nonneg t 1 P _ (Forall_skipn' _ l i Gl)) as N0.
    assert (I0 : image l = sub 0 (plen t 1 l) d1) by (apply (contents_image t l d1 Gl 0); auto; lia).
    assert (I1 : image l' = sub 0 (plen t 1 l') (splice z (v_bytes x) (splice (z + vsize t x) (sub z n d1) d1))).
    { apply (contents_image t l' _ Gl' 0); auto; try lia. rewrite El. apply reread_contents. }
    rewrite (alike_plen t 1 _ _ A), plen_insert, Ek in I1.
    assert (Ls : zlen (sub z n d1) = n) by (apply sub_len; lia).
    assert (Lg : zlen (splice (z + vsize t x) (sub z n d1) d1) = zlen d1) by (apply splice_len; lia).
    exists (sub (z + vsize t x + n) (plen t 1 l - z - n) (splice z (v_bytes x) (splice (z + vsize t x) (sub z n d1) d1))).
    rewrite I1. replace (plen t 1 l + vsize t x) with (z + (vsize t x + (n + (plen t 1 l - z - n)))) by lia.
    rewrite <- sub_cat by lia. rewrite Z.add_0_l. f_equal.
    { rewrite sub_splice_before by lia. rewrite sub_splice_before by lia. rewrite I0.
      change (firstn i (sub 0 (plen t 1 l) d1)) with (firstn i (firstn (Z.to_nat (plen t 1 l)) d1)). rewrite firstn_firstn.
      unfold sub. cbn [Z.to_nat skipn]. f_equal. lia. }
    rewrite <- sub_cat by lia. f_equal. { apply sub_splice_same; lia. }
    rewrite <- sub_cat by lia. f_equal.
    rewrite sub_splice_after by lia. rewrite sub_splice_same by lia. rewrite I0, sub_sub by lia. f_equal; lia.
  - intros r w' (R' & F & D & H & Rr). ands; auto using repr_holds, others_frame. eapply refused_of; eauto. intros K; congruence.
Qed.

Lemma shows_same t self l l' w : shows t self l w -> shows t self l' w -> l = l'.
Proof. unfold shows. intros A B. rewrite A in B. now injection B. Qed.
Lemma byte_at_app_l a b i : 0 <= i < zlen a -> byte_at (a ++ b) i = byte_at a i.
Proof. intros H. unfold byte_at. apply app_nth1. unfold zlen in H. lia. Qed.
Lemma byte_at_app_r a b i : zlen a <= i -> byte_at (a ++ b) i = byte_at b (i - zlen a).
Proof. intros H. unfold byte_at. rewrite app_nth2 by (unfold zlen in H; lia). f_equal. unfold zlen. lia. Qed.
Lemma image_app l m : image (l ++ m) = image l ++ image m.
Proof. apply flat_map_app. Qed.
Lemma image_len t l : Forall (good t) l -> zlen (image l) = total t l.
Proof.
  induction 1 as [|x l G _ IH]; [reflexivity|]. change (image (x :: l)) with (v_bytes x ++ image l). rewrite zlen_app, IH, (good_bytes t x G). reflexivity.
Qed.
Lemma alike_image l m : Forall2 alike l m -> zlen (image m) = zlen (image l).
Proof.
  induction 1 as [|x y l m [_ E] _ IH]; [reflexivity|]. change (image (x :: l)) with (v_bytes x ++ image l).
  change (image (y :: m)) with (v_bytes y ++ image m). rewrite !zlen_app, IH. unfold zlen. lia.
Qed.

(** So the result is never the documented one when the byte that the new element's first byte replaces is another. *)
Theorem C06_insert_never t self i l x w : kind_of t = KAligned -> repr t self l w -> good t x -> (i <= length l)%nat ->
  Z.of_nat i < total t (firstn i l) -> 0 < vsize t x -> byte_at (image l) (Z.of_nat i) <> byte_at (v_bytes x) 0 ->
  run (v_insert t self i x) w
    (fun _ w' => ~ shows t self (insert_at i x l) w')
    (fun r w' => holds_list t self l w' /\ w_drops w' = w_drops w ++ [x])
    (fun w' => alloc_failed w w' \/ drop_panicked w w').
Proof.
  intros K R G Li Lt Sx Ne.
  eapply run_conseq; [apply (C06_insert_displaced t self i l x w)|..]; auto.
  - congruence. - intros Ku; congruence. - intros Ku; congruence.
  - exists (total t (firstn i l)). split; [unfold offset_of; now rewrite K|lia].
  - cbv beta. intros _ w' (l' & [_ Sh] & A & _ & _ & I) Sw. specialize (I K) as (rest & I).
    pose proof (shows_same _ _ _ _ _ Sh Sw) as ->. apply repr_orep in R as (o & d & R). pose proof (orep_good _ _ _ _ _ _ R) as Gl.
    assert (L1 : zlen (image (firstn i l)) = total t (firstn i l)) by (apply image_len; now apply Forall_firstn').
    assert (L2 : zlen (firstn i (image l)) = Z.of_nat i).
    { unfold zlen. rewrite firstn_length. rewrite <- (firstn_skipn i l), image_app, app_length. unfold zlen in L1. lia. }
    apply Ne. pose proof (good_bytes t x G) as Lx.
    transitivity (byte_at (image (insert_at i x l)) (Z.of_nat i)).
    2: { rewrite I, byte_at_app_r by lia. rewrite L2, Z.sub_diag. apply byte_at_app_l. lia. }
    unfold insert_at. rewrite image_app.
    rewrite (byte_at_app_l (image (firstn i l))) by lia. rewrite <- (firstn_skipn i l) at 1. rewrite image_app. apply byte_at_app_l. lia.
  - cbv beta. intros r w' (H & D & _). auto.
Qed.
(** For the other kind: not when that byte belongs to the first element. *)
Theorem C06_insert_never_dyn t self i y l x w : kind_of t = KUnaligned -> repr t self (y :: l) w -> good t x -> placeable t self x w ->
  (0 < i <= length (y :: l))%nat -> movable t self (y :: l) i (valign t x) w ->
  Z.of_nat i < vsize t y -> 0 < vsize t x -> byte_at (v_bytes y) (Z.of_nat i) <> byte_at (v_bytes x) 0 ->
  run (v_insert t self i x) w
    (fun _ w' => ~ shows t self (insert_at i x (y :: l)) w')
    (fun r w' => holds_list t self (y :: l) w' /\ w_drops w' = w_drops w ++ [x])
    (fun w' => alloc_failed w w' \/ drop_panicked w w').
Proof.
  intros K R G Pl [I0 Li] Mv Lt Sx Ne. apply repr_orep in R as (o & d & R). pose proof (placeable_can _ _ _ _ _ _ _ R Pl) as Ca.
  assert (Kn : kind_of t <> KSized) by congruence. pose proof (orep_good _ _ _ _ _ _ R) as Gl.
  assert (Ab : at_or_before t self i (y :: l) x w).
  { exists (padded_total t (Z.max (o_al t o) (valign t x)) (firstn i (y :: l))). unfold offset_of. rewrite K. split.
    - exists (o_al t o). split; auto. eapply v_align_eq; eauto.
    - destruct i; [lia|]. cbn [firstn]. rewrite padded_total_plen. cbn [plen].
      assert (Pa : 0 < Z.max (o_al t o) (valign t x)) by (pose proof (pow2_pos _ (good_align t x G)); lia).
      pose proof (psz_ge t _ Pa y). inversion Gl; subst. pose proof (plen_firstn_nonneg t _ Pa l i ltac:(auto)). lia. }
  destruct (insert_facts _ _ _ _ _ _ _ _ Kn R G Li Mv Ab) as [T IO].
  eapply run_conseq; [apply (v_insert_displaced t self (y :: l) o d w x i Kn R G Ca Li T IO)|..]; cbv beta; auto.
  - intros _ w' (d1 & l' & Ct & Fd & Lz & P & El & A & R' & _) Sw. rewrite K in *. set (al := req_al t o (valign t x)) in *.
    pose proof (shows_same _ _ _ _ _ (repr_shows _ _ _ _ R') Sw) as El'.
    destruct (gap_facts t al (y :: l) i x d1 P Gl G Li ltac:(unfold tail_ok in T; lia) Fd) as (S0 & K0 & Kx & Bd & En & Lx & X0).
    set (z := Z.of_nat i) in *. set (n := ulen t al (y :: l) - plen t al (firstn i (y :: l))) in *.
    assert (Ls : zlen (sub z n d1) = n) by (apply sub_len; unfold tail_ok in T; lia).
    assert (Lg : zlen (splice (z + psz t al x) (sub z n d1) d1) = zlen d1) by (apply splice_len; unfold tail_ok in T; lia).
    rewrite El in El'. unfold insert_at in El'. destruct i as [|i]; [lia|]. cbn [firstn skipn app reread] in El'.
    pose proof (f_equal (fun m => match m with v :: _ => v_bytes v | [] => [] end) El') as E1. cbv beta iota in E1. cbn [v_bytes] in E1.
    set (dg := splice (z + psz t al x) (sub z n d1) d1) in *.
    pose proof Fd as Fy. cbn [plen] in Fy. inversion Gl as [|? ? Gy Gr]; subst.
    pose proof (plen_nonneg t al P _ Gr). pose proof (psz_ge t al P y).
    apply Ne. rewrite <- E1. rewrite byte_at_sub by lia. rewrite Z.add_0_l, byte_at_splice by lia.
    destruct (Z.leb_spec z z); [|lia]. destruct (Z.ltb_spec z (z + zlen (v_bytes x))); [|lia]. cbn [andb]. now rewrite Z.sub_diag.
  - intros r w' (R' & F & D & H & Rr). auto using repr_holds.
Qed.
End WithConfig.

(** ** Cases *)
Section Cases.
Local Existing Instance cfg_release.
Ltac run := vm_compute; reflexivity.
Ltac built := eapply (built_repr _ _ empty_world); [exact I|intros K; discriminate K|apply takesb_ok; reflexivity|run].
(** "ab", "cd", and "ef" inserted at position 1: the new bytes stand at byte 1, two bytes have moved behind them, and the last
    byte was never written: safe code holds a [&str] with an uninitialised byte. *)
Example C06_displaced_case : exists v w w', repr TStr v [ab; cd] w /\ at_or_before TStr v 1 [ab; cd] ef w /\
  byte_at (image [ab; cd]) 1 <> byte_at (v_bytes ef) 0 /\ 1 < total TStr (firstn 1 [ab; cd]) /\
  v_insert TStr v 1 ef w = (Ok tt, w') /\ shows TStr v [str_val [97; 101]; str_val [102; 98]; Value (MLen 2) [Byte 99; Uninit]] w'.
Proof.
  do 3 eexists. split; [built|]. split. { exists 2. split; [reflexivity|lia]. } split; [discriminate|]. split; [reflexivity|]. split; [run|]. run.
Qed.
(** Two words behind dyn: the second is inserted into the first. *)
Example C06_displaced_dyn_case : exists v w w' l', repr TDyn v [word 1; word 2] w /\ movable TDyn v [word 1; word 2] 1 (valign TDyn (word 3)) w /\
  placeable TDyn v (word 3) w /\ byte_at (v_bytes (word 1)) 1 <> byte_at (v_bytes (word 3)) 0 /\
  v_insert TDyn v 1 (word 3) w = (Ok tt, w') /\ shows TDyn v l' w' /\
  hd_error l' = Some (dyn_val 1 8 8 [1; 3; 3; 3; 3; 3; 3; 3]).
Proof.
  do 4 eexists. split; [built|]. split; [intros _; left; cbn; lia|]. split; [intros _; do 2 eexists; split; [run|]; split; [run|]; left; reflexivity|]. split; [discriminate|].
  split; [run|]. split; [run|]. run.
Qed.
End Cases.
Print Assumptions C06_insert_displaced.
Print Assumptions C06_insert_never.
Print Assumptions C06_insert_never_dyn.
