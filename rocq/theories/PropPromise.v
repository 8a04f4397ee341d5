(** C18 outside its guard: reservations that report success without providing what was asked for. *)
From Coq Require Import ZArith List Bool Lia.
From Verif Require Import Types World ValidSize Emplace SizedVec AlignedVec UnalignedVec Api Spec Bytes Arith Wp Mem Repr
  Access Reserve Realign Orep Push Deal PushWith Shell Insert Take Pop Box Iter Calls DropVec Family Build Obs Findings
  PropPush PropEdit PropEmplace PropReserve PropLimits.
Import ListNotations.
Open Scope Z_scope.
Open Scope m_scope.

Section WithConfig.
Context {C : Config}.

(** Sized types (sized.rs:67-78 adds free elements to requested bytes): with room for [free] more elements, and [free] large
    enough against the length, a request for more bytes than are free, but for less than these and the capacity together,
    is reported to be met although nothing is done. *)
Theorem C18_reserve_bytes_sized_never s a self l w n b al c : repr (TSized s a) self l w -> 0 < s ->
  v_capacity (TSized s a) self w = (Ok c, w) ->
  let free := c - zlen l in
  0 <= n <= free -> zlen l + (free + s - 1) / s <= free -> free * s < b < (free + c) * s ->
  v_try_reserve_capacity_bytes_align (TSized s a) self n b al w = (Ok ROk, w) /\
  exists bc bl, v_byte_capacity (TSized s a) self w = (Ok bc, w) /\ v_byte_len (TSized s a) self w = (Ok bl, w) /\ bc < bl + b.
Proof.
  intros R S0 Cp free Hn Hl Hb. set (t := TSized s a) in *. apply repr_orep in R as (o & d & R).
  rewrite (v_capacity_eq _ _ _ _ _ _ R) in Cp. injection Cp as Cp.
  assert (K : kind_of t = KSized) by reflexivity.
  destruct o as [v|v|v|]; cbn [orep] in R; try tauto; try (destruct R; congruence).
  assert (Ss : s_size t = s) by reflexivity.
  assert (Cv : s_capacity t v = c) by exact Cp.
  assert (Cs : sv_cap v = c). { unfold s_capacity in Cv. rewrite Ss in Cv. destruct (Z.eqb_spec s 0); [lia|auto]. }
  assert (Ro : orep t self l (OS v) d w) by exact R.
  assert (Bc : o_bcap t (OS v) = c * s). { ocbn. now rewrite Cs. }
  assert (Bl : o_blen t (OS v) l = zlen l * s). { unfold o_blen. ocbn. rewrite plen_sized; try apply R. now rewrite Ss. }
  pose proof (zlen_nonneg l) as L0. pose proof (sr_bcap _ _ _ _ _ _ R) as Mx. rewrite Cs, Ss in Mx.
  pose proof (pow2_pos _ (s_align_pow2 _ K (sr_wf _ _ _ _ _ _ R))) as Pa.
  pose proof (sr_slen _ _ _ _ _ _ R) as Sl.
  split.
  2:{ exists (c * s), (zlen l * s). rewrite (v_byte_capacity_eq _ _ _ _ _ _ Ro), (v_byte_len_eq _ _ _ _ _ _ Ro), Bc, Bl.
      split; [reflexivity|]. split; [reflexivity|]. unfold free in *. nia. }
  assert (Still : forall k, k <= free -> s_reserve t self k true w = (Ok ROk, w) /\ s_reserve t self k false w = (Ok ROk, w)).
  { intros k Hk. unfold s_reserve.
    assert (Ng : needs_to_grow (s_capacity t v) (sv_len v) k = false).
    { unfold needs_to_grow. rewrite Cv, Sl. apply Z.ltb_ge. unfold free in Hk. lia. }
    split; erewrite bind_eq by (eapply get_s_eq, R); rewrite Ng; reflexivity. }
  unfold v_try_reserve_capacity_bytes_align, v_try_reserve, p_try_reserve. rewrite K.
  erewrite bind_eq by (apply (Still n); lia). cbv beta iota.
  erewrite bind_eq by (eapply v_capacity_eq; eauto). erewrite bind_eq by (eapply v_len_eq, orep_repr; eauto).
  erewrite bind_eq by (apply dassert_eq, Z.leb_le; cbn [o_cap]; rewrite Cv; unfold free in Hn; lia).
  unfold to_align. rewrite K. erewrite bind_eq by reflexivity.
  erewrite bind_eq by (eapply v_byte_capacity_eq; eauto). erewrite bind_eq by (eapply unused_eq; eauto).
  cbv zeta. rewrite Bc, Bl. unfold sat_sub at 1 2 3 4.
  replace (c * s - zlen l * s) with (free * s) by (unfold free; ring). rewrite !(Z.max_r 0 (b - free * s)) by lia.
  rewrite (proj2 (Z.ltb_lt 0 (b - free * s))) by lia. rewrite (Z.max_r (b - free * s) (c * s)) by lia.
  rewrite (proj2 (Z.ltb_lt (b - free * s) (c * s))) by lia.
  unfold p_try_reserve_bytes_align. rewrite K. rewrite (bind_eq _ _ w ROk w); [reflexivity|].
  unfold s_try_reserve_bytes. erewrite bind_eq by (eapply get_s_eq, R).
  erewrite bind_eq by (apply usub_eq; rewrite Cv, Sl; unfold free in *; nia). rewrite Cv, Sl. fold free.
  assert (Sa : sat_add (c * s) free = c * s + free).
  { unfold sat_add. apply Z.min_r. assert (free <= c * s) by (unfold free; nia). lia. }
  assert (Mm : Z.max (sat_sub b (free * s)) (c * s) = c * s) by (unfold sat_sub; lia).
  rewrite Mm, Sa, Ss. unfold div_ceil. rewrite (proj2 (Z.eqb_neq s 0)) by lia. erewrite bind_eq by reflexivity. cbv beta.
  apply Still. unfold sat_sub. replace (c * s + free + s - 1) with (free + s - 1 + c * s) by ring. rewrite Z.div_add by lia.
  unfold free in *. lia.
Qed.

(** Run-time alignments: a larger alignment, asked for without bytes, is never set up as long as there is no byte buffer. *)
Theorem C18_reserve_align_never t self l w n a al c : kind_of t = KUnaligned -> repr t self l w -> pow2 a -> 0 <= n ->
  v_align t self w = (Ok al, w) -> v_byte_capacity t self w = (Ok 0, w) -> v_capacity t self w = (Ok c, w) ->
  run (v_try_reserve_capacity_bytes_align t self n 0 a) w
    (fun r w' => v_align t self w' = (Ok al, w') /\ (zlen l + n <= c -> r = ROk)) (fun _ _ => False) (fun _ => False).
Proof.
  intros K R Pa Hn Al Bc Cp. apply repr_orep in R as (o & d & R). rewrite (v_align_eq _ _ _ _ _ _ R) in Al. injection Al as <-.
  rewrite (v_byte_capacity_eq _ _ _ _ _ _ R) in Bc. injection Bc as Bc. rewrite (v_capacity_eq _ _ _ _ _ _ R) in Cp. injection Cp as <-.
  unfold v_try_reserve_capacity_bytes_align, v_try_reserve. apply run_bind.
  eapply run_conseq. { eapply p_try_reserve_wp; eauto. } all: cbv beta; try (intros; tauto).
  intros r w1 (o1 & d1 & R1 & Q1 & Ge1 & Gb1 & Ea1 & Ep1 & Un1 & Noop1 & Gr1 & Res1).
  destruct r as [|e].
  2: { apply run_ret. rewrite (v_align_eq _ _ _ _ _ _ R1), Ea1. split; auto. intros L. destruct (Noop1 L). discriminate. }
  destruct (Un1 ltac:(left; congruence)) as (Ub & _). rewrite Bc in Ub.
  pose proof (orep_fit _ _ _ _ _ _ R1) as Fit. pose proof (orep_blen_nonneg _ _ _ _ _ _ R1) as Bl0.
  eapply run_eq. { eapply v_capacity_eq; eauto. }
  eapply run_eq. { eapply v_len_eq, orep_repr; eauto. }
  eapply run_eq. { apply dassert_eq. apply Z.leb_le. lia. }
  destruct (to_align_eq t a w1 (fun _ => Pa)) as (a' & TA & EA). rewrite (EA K) in TA.
  eapply run_eq. { exact TA. }
  eapply run_eq. { eapply v_byte_capacity_eq; eauto. }
  eapply run_eq. { eapply unused_eq; eauto. }
  cbv zeta. unfold sat_sub. rewrite (Z.max_l 0) by lia. rewrite !Z.ltb_irrefl.
  destruct o1 as [v|v|v|]; cbn [orep] in R1; try tauto; try (destruct R1; congruence).
  assert (Ub' : uv_bcap v = 0) by exact Ub.
  unfold p_try_reserve_bytes_align. rewrite K.
  pose proof (u_try_reserve_bytes_align_wp t self l v d1 w1 0 a R1 ltac:(lia) Pa) as W. cbv zeta in W.
  assert (X : exists w2 v2 d2, u_try_reserve_bytes_align t self 0 a w1 = (Ok ROk, w2) /\ urep t self l v2 d2 w2 /\ uv_align v2 = uv_align v).
  { destruct (Z.le_gt_cases a (uv_align v)) as [Le|Gt].
    - unfold run in W. destruct (u_try_reserve_bytes_align t self 0 a w1) as [[r|r| |r] w2]; try contradiction.
      destruct W as (v2 & d2 & R2 & _ & _ & No & _). destruct (No Le eq_refl) as (-> & ->).
      exists w1, v2, d2. split; [reflexivity|]. split; [exact R2|].
      pose proof (ur_obj _ _ _ _ _ _ R2) as O2. rewrite (ur_obj _ _ _ _ _ _ R1) in O2. now injection O2 as <-.
    - pose proof (u_reserve_unraised t self l v d1 w1 a R1 Ub' ltac:(lia) Pa) as Er.
      set (v2 := UVec _ _ _ _ _) in *. set (w2 := set_vecs _ _) in *. unfold run in W. rewrite Er in W.
      destruct W as (v' & d2 & R2 & _).
      assert (v' = v2) as ->.
      { pose proof (ur_obj _ _ _ _ _ _ R2) as Ob. unfold w2 in Ob. cbn [w_vecs set_vecs] in Ob. rewrite upd_same in Ob by (eapply nth_error_lt, R1). congruence. }
      exists w2, v2, d2. split; [exact Er|]. split; [exact R2|reflexivity]. }
  destruct X as (w2 & v2 & d2 & Er & R2 & Ea2).
  eapply run_eq. { exact Er. }
  assert (R2o : orep t self l (OU v2) d2 w2) by exact R2.
  eapply run_eq.
  { instantiate (1 := w2). instantiate (1 := tt). destruct cfg_debug eqn:Db; [|reflexivity].
    erewrite bind_eq by (eapply (v_byte_capacity_eq _ _ _ (OU v2)); eauto).
    erewrite bind_eq by (eapply (v_byte_len_eq _ _ _ (OU v2)); eauto). apply dassert_eq, Z.leb_le.
    pose proof (orep_fit _ _ _ _ _ _ R2o). lia. }
  apply run_ret. split; auto. rewrite (v_align_eq _ _ _ _ _ _ R2o). cbn [o_al] in *. now rewrite Ea2, <- Ea1.
Qed.
(** C39, C45: an emplacable of an over-aligned value without bytes, pushed where there is no byte buffer. The value is taken in
    but the alignment it needs is never recorded; nothing else can happen but that room for the entry is refused or that the
    delivery unwinds. *)
Lemma push_with_unraised t self l w e D al : kind_of t = KUnaligned -> repr t self l w -> emits e D w -> good t (d_value D) ->
  fits t (d_lay D) (d_value D) -> apart self (d_fv D) (d_fb D) w ->
  v_align t self w = (Ok al, w) -> v_byte_capacity t self w = (Ok 0, w) -> vsize t (d_value D) = 0 -> al < valign t (d_value D) ->
  run (v_push_with t self e) w
    (fun _ w' => v_align t self w' = (Ok al, w') /\ v_len t self w' = (Ok (zlen l + 1), w'))
    (fun r w' => holds_list t self l w' /\ (r = PCapacity \/ r = POom \/ d_panic D r \/ r = PDrop))
    (fun w' => alloc_failed w w' \/ drop_panicked w w').
Proof.
  intros K R [_ EM] G F AP Al Bc Sz Lt. apply repr_orep in R as (o & d & R). rewrite (v_align_eq _ _ _ _ _ _ R) in Al. injection Al as <-.
  rewrite (v_byte_capacity_eq _ _ _ _ _ _ R) in Bc. injection Bc as Bc. pose proof (good_align t _ G) as Ax.
  destruct (EM w (agree_refl _ _ _)) as (inner & post & w1 & Ee & Wi & D1 & RF & Wr & _ & _).
  pose proof (orep_within _ _ _ _ _ _ _ _ _ Wi R AP) as R1.
  assert (T1 : touch self (d_fv D) (d_fb D) w w1).
  { apply touch_within; auto. exists []. now rewrite app_nil_r. }
  pose proof (touch_apart _ _ _ _ _ T1 AP) as AP1.
  assert (NA : (w_nalloc w <= w_nalloc w1)%nat) by apply Wi.
  destruct o as [v|v|v|]; cbn [orep] in R1; try tauto; try (destruct R1; congruence). cbn [o_bcap o_al] in Bc, Lt.
  unfold v_push_with, p_push_with. rewrite K. unfold u_push_with. unfold run. rewrite Ee. apply run_sound. apply run_bind.
  apply run_bind. eapply run_conseq; [eapply u_reserve_wp; [exact R1|lia]|..]; cbv beta; try (intros; contradiction).
  intros r w2 (v2 & R2 & Q2 & _ & _ & Ep & Eb & Ea & _ & _ & Res).
  pose proof (frame_agree _ _ _ _ _ (proj1 Q2) AP1) as Ag2. pose proof (frame_apart _ _ _ _ _ (proj1 Q2) AP1) as AP2.
  assert (Fit2 : holds_list t self l w2) by (apply repr_holds; eapply (orep_repr t self l (OU v2)); exact R2).
  destruct r as [|x].
  2:{ eapply run_eq; [reflexivity|]. apply run_bind. apply unwrap_wp. destruct x; auto.
      destruct cfg_oom_panics; auto. left. eapply alloc_failed_l; eauto. }
  destruct F as (Fs & Fa & _). specialize (Fa K). rewrite Fs, Fa, Sz.
  pose proof (u_reserve_unraised t self l v2 d w2 (valign t (d_value D)) R2 ltac:(lia) ltac:(lia) Ax) as Er.
  pose proof (u_try_reserve_bytes_align_wp t self l v2 d w2 0 (valign t (d_value D)) R2 ltac:(lia) Ax) as W. cbv zeta in W.
  set (v3 := UVec _ _ _ _ _) in *. set (w3 := set_vecs _ _) in *. unfold run in W. rewrite Er in W.
  destruct W as (v' & d3 & R3 & Q3 & _).
  assert (v' = v3) as ->.
  { pose proof (ur_obj _ _ _ _ _ _ R3) as Ob. unfold w3 in Ob. cbn [w_vecs set_vecs] in Ob. rewrite upd_same in Ob by (eapply nth_error_lt, R2). congruence. }
  eapply run_eq. { exact Er. }
  eapply run_eq. { reflexivity. }
  pose proof (u_byte_len_eq _ _ _ _ _ _ R3) as BL.
  assert (R3o : orep t self l (OU v3) d3 w3) by exact R3.
  pose proof (orep_fit _ _ _ _ _ _ R3o) as F3. pose proof (orep_blen_nonneg _ _ _ _ _ _ R3o) as B3. unfold o_blen in F3, B3. cbn [o_bcap o_pal] in F3, B3.
  assert (Z3 : plen t (uv_align v3) l = 0) by (cbn [uv_bcap v3] in F3; lia). rewrite Z3 in BL.
  eapply run_eq. { eapply get_u_eq, R3. }
  eapply run_eq. { exact BL. }
  pose proof (ur_buf _ _ _ _ _ _ R3) as Bu.
  eapply run_eq. { eapply ptr_add_buf; [exact Bu|]. cbn [uv_bcap v3]. lia. }
  pose proof (frame_agree _ _ _ _ _ (proj1 Q3) AP2) as Ag3. pose proof (frame_apart _ _ _ _ _ (proj1 Q3) AP2) as AP3.
  pose proof (good_bytes t _ G) as Bx. rewrite Sz in Bx.
  assert (Bx' : zlen (d_bytes D) = 0) by exact Bx.
  pose proof (heap_write_buf _ _ _ _ _ 0 (d_bytes D) Bu ltac:(lia) ltac:(cbn [uv_bcap v3]; lia)) as HW.
  assert (Pb : forall b, ptr_block (padd (uv_ptr v3) 0) = Some b -> ~ In b (d_fb D)) by (intros b Eq; discriminate Eq).
  specialize (Wr _ w3 _ (agree_trans _ _ _ _ _ Ag2 Ag3) (buf_nonnull _ _ _ _ _ _ Bu) Pb HW).
  assert (Same : forall bs h', zlen bs = 0 -> heap_write (w_heap w3) (padd (uv_ptr v3) 0) bs = Some h' -> set_heap h' w3 = w3).
  { intros bs h' Lb Hw. unfold heap_write in Hw. rewrite Lb in Hw. cbn [Z.eqb] in Hw. injection Hw as <-. reflexivity. }
  assert (Dr3 : w_drops w3 = w_drops w) by (rewrite (proj2 Q3), (proj2 Q2); exact D1).
  apply run_bind. eapply run_conseq; [exact Wr|..]; cbv beta.
  - intros _ w4 (W4 & D4 & P4). rewrite (Same _ _ Bx' HW) in W4.
    pose proof (orep_within _ _ _ _ _ _ _ _ _ W4 R3o AP3) as R4. cbn [orep] in R4.
    eapply run_eq. { apply vs_unchecked_add_eq; lia. }
    eapply run_eq. { eapply get_u_eq, R4. }
    eapply run_eq. { apply infos_push_eq. rewrite (ur_infos _ _ _ _ _ _ R4), infos_of_zlen. cbn [uv_icap v3]. lia. }
    eapply run_eq1; [reflexivity|].
    set (v5 := UVec _ _ _ _ _). set (w5 := set_vecs _ _).
    assert (Fr : frame self w4 w5).
    { apply frame_set_obj with (p := uv_ptr v3); [eapply nth_error_lt, R4|reflexivity|exact (orep_owned t self l (OU v3) _ w4 R4)]. }
    assert (AP4 : apart self (d_fv D) (d_fb D) w4).
    { eapply touch_apart; [|exact AP3]. apply touch_within; auto. exists (d_extra D). exact D4. }
    destruct (P4 w5) as (w6 & E6 & W6 & _). { eapply frame_agree; [exact Fr|exact AP4]. }
    eapply run_eq1; [exact E6|]. 
    assert (O6 : nth_error (w_vecs w6) self = Some (OU v5)).
    { destruct W6 as (V6 & _). rewrite V6 by apply AP. unfold w5. cbn [w_vecs set_vecs]. apply upd_same. eapply nth_error_lt, R4. }
    unfold v_align, v_len. rewrite K. erewrite !bind_eq by (eapply get_u_eq; exact O6). cbn [uv_align uv_infos v5 v3 o_al].
    rewrite Ea. split; [reflexivity|]. rewrite (ur_infos _ _ _ _ _ _ R2), zlen_app, infos_of_zlen. reflexivity.
  - intros r w4 (Pr & (bs & h'' & Lb & HW' & W4) & ds & D4). rewrite (Same bs h'' ltac:(congruence) HW') in W4. split.
    + apply repr_holds. eapply repr_within; eauto. eapply orep_repr; eauto.
    + destruct Pr as [?|[-> _]]; auto.
  - intros w4 (X & n & Hn & P). right. exists n. split; auto. rewrite Dr3 in Hn. auto.
Qed.

(** A value that comes by an emplacable, and one that has been unsized on the way. *)
Theorem C39_push_unraised t self l e x rd gn ds fb w al : source t e x rd gn ds fb -> good t x -> not_huge t x -> rd w -> repr t self l w ->
  kind_of t = KUnaligned -> apart self [] fb w ->
  v_align t self w = (Ok al, w) -> v_byte_capacity t self w = (Ok 0, w) -> vsize t x = 0 -> al < valign t x ->
  run (v_push_with t self e) w
    (fun _ w' => v_align t self w' = (Ok al, w') /\ v_len t self w' = (Ok (zlen l + 1), w'))
    (fun r w' => holds_list t self l w' /\ (r = PCapacity \/ r = POom \/ r = PDrop))
    (fun w' => alloc_failed w w' \/ drop_panicked w w').
Proof.
  intros Sr G Nc Rd R K Ap Al Bc Sz Lt. destruct (source_deal _ _ _ _ _ _ _ _ Sr (good_wf _ _ G) Rd) as (D & Em & Ev & El & Fv & Fb & Nl & Ex & Pn & Gn & Rf).
  eapply run_conseq; [eapply (push_with_unraised t self l w e D al); rewrite ?Ev, ?El, ?Fv, ?Fb; eauto using fits_self|..]; cbv beta; auto.
  intros r w' [H [P|[P|[P|P]]]]; auto. exfalso. eapply Pn; eauto.
Qed.
Theorem C45_push_unraised t self l e D ly m w al : emits e D w -> repr t self l w -> good t (Value m (d_bytes D)) ->
  fits t ly (Value m (d_bytes D)) -> kind_of t = KUnaligned -> apart self (d_fv D) (d_fb D) w ->
  v_align t self w = (Ok al, w) -> v_byte_capacity t self w = (Ok 0, w) -> vsize t (Value m (d_bytes D)) = 0 -> al < valign t (Value m (d_bytes D)) ->
  run (v_push_with t self (emplacable_unsize ly m e)) w
    (fun _ w' => v_align t self w' = (Ok al, w') /\ v_len t self w' = (Ok (zlen l + 1), w'))
    (fun r w' => holds_list t self l w' /\ (r = PCapacity \/ r = POom \/ d_panic D r \/ r = PDrop))
    (fun w' => alloc_failed w w' \/ drop_panicked w w').
Proof.
  intros Em R G F K Ap Al Bc Sz Lt. apply (unsize_emits ly m) in Em.
  exact (push_with_unraised t self l w _ (unsize_deal ly m D) al K R Em G F Ap Al Bc Sz Lt).
Qed.
End WithConfig.

Print Assumptions C18_reserve_bytes_sized_never.
Print Assumptions C18_reserve_align_never.
Print Assumptions C39_push_unraised.
Print Assumptions C45_push_unraised.

Section Cases.
Local Existing Instance cfg_release.
Ltac run := vm_compute; reflexivity.
Ltac built := eapply (built_repr _ _ empty_world); [exact I|intros K; discriminate K|apply takesb_ok; reflexivity|run].
Ltac built32 := eapply (built_repr _ _ empty_world); [apply wf_u32|intros K; reflexivity|apply takesb_ok; reflexivity|run].

(** One element of four bytes and room for three more: 27 bytes are 'reserved' although 12 are free. *)
Example C18_reserve_bytes_sized_never_case : exists v w, repr (TSized 4 4) v [u32 1] w /\ v_capacity (TSized 4 4) v w = (Ok 4, w) /\
  1 + (3 + 4 - 1) / 4 <= 3 /\ 3 * 4 < 27 < (3 + 4) * 4 /\
  v_try_reserve_capacity_bytes_align (TSized 4 4) v 2 27 1 w = (Ok ROk, w) /\ v_byte_capacity (TSized 4 4) v w = (Ok 16, w).
Proof. do 2 eexists. split; [built32|]. split; [run|]. split; [vm_compute; discriminate|]. split; [lia|]. split; run. Qed.
(** Two values without bytes, stored in a vector without a byte buffer: 16 is asked for, 8 remains, also with elements. *)
Example C18_reserve_align_never_case : exists v w w', repr TDyn v [Value (MVt 0 0 1) []; Value (MVt 0 0 1) []] w /\
  v_align TDyn v w = (Ok 8, w) /\ v_byte_capacity TDyn v w = (Ok 0, w) /\
  v_try_reserve_capacity_bytes_align TDyn v 0 0 16 w = (Ok ROk, w') /\ v_align TDyn v w' = (Ok 8, w').
Proof. do 3 eexists. split; [built|]. do 3 (split; [run|]). run. Qed.
(** A zero-sized value of alignment 16, unsized on the way into a vector of trait objects: the vector still records 8. *)
Example C45_push_unraised_case : exists v w w', repr TDyn v [Value (MVt 0 0 1) []] w /\
  emits (emplacable_of_value (TSized 0 16) (Value MUnit [])) (value_deal (TSized 0 16) (Value MUnit [])) w /\
  good TDyn zst16 /\ fits TDyn (Layout 0 16) zst16 /\ v_align TDyn v w = (Ok 8, w) /\ v_byte_capacity TDyn v w = (Ok 0, w) /\
  vsize TDyn zst16 = 0 /\ 8 < valign TDyn zst16 /\
  v_push_with TDyn v (emplacable_unsize (Layout 0 16) (v_meta zst16) (emplacable_of_value (TSized 0 16) (Value MUnit []))) w = (Ok tt, w') /\
  v_align TDyn v w' = (Ok 8, w').
Proof.
  do 3 eexists. split; [built|]. split; [apply value_emits|].
  split; [apply goodb_ok; reflexivity|]. split; [unfold fits; cbn; split; [reflexivity|]; split; [reflexivity|discriminate]|].
  do 3 (split; [run|]). split; [vm_compute; reflexivity|]. split; run.
Qed.
Example C39_push_unraised_case : exists v w w', repr TDyn v [] w /\
  source TDyn (emplacable_of_value TDyn zst16) zst16 (fun _ => True) (fun _ => True) [zst16] [] /\ not_huge TDyn zst16 /\
  v_align TDyn v w = (Ok 8, w) /\ v_byte_capacity TDyn v w = (Ok 0, w) /\
  v_push_with TDyn v (emplacable_of_value TDyn zst16) w = (Ok tt, w') /\ v_align TDyn v w' = (Ok 8, w').
Proof. do 3 eexists. split; [built|]. split; [constructor|]. split; [intros K; discriminate K|]. do 3 (split; [run|]). run. Qed.
End Cases.
