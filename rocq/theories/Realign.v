(** The unaligned implementation: reserving bytes and raising the alignment (src/inner/unaligned.rs:113-229, 400-476). *)
From Coq Require Import ZArith List Bool Lia.
From Verif Require Import Types World ValidSize Emplace SizedVec AlignedVec UnalignedVec Api Spec Bytes Arith Wp Mem Repr Access Reserve.
Import ListNotations.
Open Scope Z_scope.
Open Scope m_scope.

Lemma run_ext {A} (m m' : M A) w Qo Qp Qa : m w = m' w -> run m' w Qo Qp Qa -> run m w Qo Qp Qa.
Proof. unfold run. now intros ->. Qed.

Lemma vu_checked_add_spec a b : 0 <= a <= isize_max -> 0 <= b <= isize_max ->
  vu_checked_add a b = if a + b <=? isize_max then Some (a + b) else None.
Proof.
  intros. unfold vs_checked_add, vs_new, vs_max. rewrite (proj2 (Z.leb_le (a + b) usize_max)) by lia.
  now replace (isize_max - (1 - 1)) with isize_max.
Qed.

Section Pair.
Context {C : Config}.
Variable t : ty.
Variables a b : Z.
Hypothesis Ha : pow2 a.
Hypothesis Hb : pow2 b.
Hypothesis Hab : a <= b.

Let a_pos : 0 < a := pow2_pos a Ha.
Let b_pos : 0 < b := pow2_pos b Hb.
Let Hd : (a | b) := pow2_divide a b Ha Hb Hab.

Lemma psz_le x : psz t a x <= psz t b x.
Proof. apply pad_le_dvd; auto. Qed.
Lemma plen_le l : plen t a l <= plen t b l.
Proof. induction l; cbn [plen]. lia. pose proof (psz_le a0). lia. Qed.
Lemma mod_ba x : x mod b = 0 -> x mod a = 0.
Proof. apply mod_trans; auto. Qed.

Lemma u_len_after_loop_eq l : Forall (good t) l -> forall sa sb w,
  0 <= sa <= sb -> sb mod b = 0 -> sa + plen t a l <= isize_max -> sb <= isize_max ->
  u_len_after_loop a b (sb - sa) sb (infos_of t a sa l) w =
  (Ok (if sb + plen t b l <=? isize_max then Some (sb + plen t b l) else None), w).
Proof.
  induction 1 as [|x l Gx G IH]; intros sa sb w Hs Hm HB Hsb.
  - cbn [infos_of u_len_after_loop plen]. rewrite Z.add_0_r, (proj2 (Z.leb_le _ _)) by lia. reflexivity.
  - cbn [infos_of u_len_after_loop plen] in *. unfold info_of. cbn [i_end].
    pose proof (good_size t x Gx). pose proof (psz_ge t a a_pos x). pose proof (psz_ge t b b_pos x).
    pose proof (psz_le x). pose proof (plen_nonneg t a a_pos l G). pose proof (plen_nonneg t b b_pos l G).
    rewrite vu_checked_add_spec by lia.
    replace (sa + vsize t x + (sb - sa)) with (sb + vsize t x) by lia.
    destruct (Z.leb_spec (sb + vsize t x) isize_max).
    2:{ destruct (Z.leb_spec (sb + (psz t b x + plen t b l)) isize_max); [lia|reflexivity]. }
    rewrite checked_pad_to_spec by (auto; lia). rewrite pad_add by auto. fold (psz t b x).
    destruct (Z.leb_spec (sb + psz t b x) isize_max).
    2:{ destruct (Z.leb_spec (sb + (psz t b x + plen t b l)) isize_max); [lia|reflexivity]. }
    assert (PA : pad (sb + vsize t x) a = sb + psz t a x) by (apply pad_add; auto; now apply mod_ba).
    erewrite bind_eq by (apply unchecked_pad_to_spec; auto; try lia).
    rewrite PA. erewrite bind_eq by (apply vs_unchecked_sub_eq; lia).
    rewrite vu_checked_add_spec by lia. rewrite (proj2 (Z.leb_le _ _)) by lia.
    replace (sb - sa + (sb + psz t b x - (sb + psz t a x))) with (sb + psz t b x - (sa + psz t a x)) by lia.
    rewrite IH; try lia.
    + now rewrite Z.add_assoc.
    + apply mod_add_0; auto. now apply psz_mod.
Qed.

Lemma u_realign_up_infos_eq l : Forall (good t) l -> forall sa sb w,
  0 <= sa <= sb -> sb mod b = 0 -> sb + plen t b l <= isize_max ->
  u_realign_up_infos a b (sb - sa) (infos_of t a sa l) w =
  (Ok (infos_of t b sb l, sb + plen t b l - (sa + plen t a l)), w).
Proof.
  induction 1 as [|x l Gx G IH]; intros sa sb w Hs Hm HB.
  - cbn [infos_of u_realign_up_infos plen]. now rewrite !Z.add_0_r.
  - cbn [infos_of u_realign_up_infos plen] in *. unfold info_of at 1. cbn [i_end i_rem info_of].
    pose proof (good_size t x Gx). pose proof (psz_ge t a a_pos x). pose proof (psz_ge t b b_pos x).
    pose proof (psz_le x). pose proof (plen_nonneg t a a_pos l G). pose proof (plen_nonneg t b b_pos l G).
    assert (PA : pad (sb + vsize t x) a = sb + psz t a x) by (apply pad_add; auto; now apply mod_ba).
    assert (PB : pad (sb + vsize t x) b = sb + psz t b x) by (apply pad_add; auto).
    erewrite bind_eq by (apply vs_unchecked_add_eq; lia).
    replace (sa + vsize t x + (sb - sa)) with (sb + vsize t x) by lia.
    erewrite bind_eq by (apply unchecked_pad_to_spec; auto; lia).
    erewrite bind_eq by (apply unchecked_pad_to_spec; auto; lia).
    rewrite PA, PB. erewrite bind_eq by (apply vs_unchecked_sub_eq; lia).
    erewrite bind_eq by (apply vs_unchecked_add_eq; lia).
    replace (sb - sa + (sb + psz t b x - (sb + psz t a x))) with (sb + psz t b x - (sa + psz t a x)) by lia.
    erewrite bind_eq.
    2:{ apply IH; try lia. apply mod_add_0; auto. now apply psz_mod. }
    cbv beta iota. unfold ret, info_of.
    replace (sb + psz t b x + plen t b l - (sa + psz t a x + plen t a l))
      with (sb + (psz t b x + plen t b l) - (sa + (psz t a x + plen t a l))) by lia.
    reflexivity.
Qed.

Lemma rev_ends_snoc p x : rev (map i_end (infos_of t b 0 (p ++ [x]))) =
  (plen t b p + vsize t x) :: rev (map i_end (infos_of t b 0 p)).
Proof.
  rewrite infos_of_app, map_app, rev_app_distr. reflexivity.
Qed.

Lemma u_realign_up_copy_eq al cap ptr p : Forall (good t) p -> forall q d w,
  Forall (good t) q ->
  buf (w_heap w) ptr al cap d -> plen t b (p ++ q) <= cap -> cap <= isize_max ->
  contents t a 0 p d -> contents t b (plen t b p) q d ->
  exists d', u_realign_up_copy ptr a b (plen t b p - plen t a p) (rev (map i_end (infos_of t b 0 p))) w =
             (Ok tt, set_heap (hput (w_heap w) ptr d') w) /\ zlen d' = zlen d /\ contents t b 0 (p ++ q) d'.
Proof.
  induction p as [|x p IH] using rev_ind; intros Gp q d w Gq B Fit Cap Cp Cq.
  - exists d. cbn. split; [|split; auto]. unfold ret. erewrite hput_same by eauto. now rewrite set_heap_same.
  - apply Forall_app in Gp as [Gp Gx]. inversion_clear Gx as [|? ? Gx' _]. rename Gx' into Gx.
    rewrite rev_ends_snoc.
    destruct p as [|y p'] eqn:Ep using rev_ind.
    + exists d. split; [|split; auto].
      * cbn. unfold ret. erewrite hput_same by eauto. now rewrite set_heap_same.
      * cbn [contents plen app] in *. rewrite Z.add_0_r in Cq. rewrite Z.add_0_l. tauto.
    + clear IHp'. rewrite rev_ends_snoc. cbn [u_realign_up_copy]. rewrite <- Ep in *.
      assert (PE : pad (plen t b p' + vsize t y) b = plen t b p).
      { rewrite Ep, plen_app. cbn [plen]. rewrite pad_add; auto. unfold psz; lia. now apply plen_mod. }
      assert (EP : forall c, plen t c (p ++ [x]) = plen t c p + psz t c x) by (intros; rewrite plen_app; cbn [plen]; lia).
      rewrite !EP. rewrite <- app_assoc in Fit. rewrite plen_app in Fit. cbn [app plen] in Fit.
      pose proof (good_size t x Gx). pose proof (psz_ge t a a_pos x). pose proof (psz_ge t b b_pos x).
      pose proof (psz_le x). pose proof (plen_nonneg t b b_pos q Gq). pose proof (plen_le p).
      pose proof (plen_nonneg t a a_pos p Gp).
      assert (Gy : good t y /\ Forall (good t) p').
      { rewrite Ep in Gp. apply Forall_app in Gp as [? Gy]. inversion Gy; auto. }
      destruct Gy as [Gy Gp']. pose proof (good_size t y Gy). pose proof (plen_nonneg t b b_pos p' Gp').
      assert (PA : pad (plen t b p + vsize t x) a = plen t b p + psz t a x).
      { apply pad_add; auto. apply mod_ba. now apply plen_mod. }
      assert (PB : pad (plen t b p + vsize t x) b = plen t b p + psz t b x).
      { apply pad_add; auto. now apply plen_mod. }
      erewrite bind_eq by (apply unchecked_pad_to_spec; auto; lia).
      erewrite bind_eq by (apply unchecked_pad_to_spec; auto; lia).
      rewrite PA, PB. erewrite bind_eq by (apply vs_unchecked_sub_eq; lia).
      erewrite bind_eq by (apply vs_unchecked_sub_eq; lia).
      erewrite bind_eq by (apply unchecked_pad_to_spec; auto; lia).
      rewrite PE.
      erewrite bind_eq by (apply vs_unchecked_sub_eq; lia).
      erewrite bind_eq by (apply vs_unchecked_sub_eq; lia).
      replace (plen t b p - (plen t b p + psz t b x - (plen t a p + psz t a x) - (plen t b p + psz t b x - (plen t b p + psz t a x))))
        with (plen t a p) by lia.
      replace (plen t b p + vsize t x - plen t b p) with (vsize t x) by lia.
      replace (plen t b p + psz t b x - (plen t a p + psz t a x) - (plen t b p + psz t b x - (plen t b p + psz t a x)))
        with (plen t b p - plen t a p) by lia.
      erewrite bind_eq by (eapply ptr_add_buf; eauto; lia).
      erewrite bind_eq by (eapply ptr_add_buf; eauto; lia).
      erewrite bind_eq by (eapply mem_copy_buf; eauto; lia).
      apply contents_app in Cp as [Cp Cx]. cbn [contents] in Cx. destruct Cx as [Cx _]. rewrite Z.add_0_l in Cx.
      rewrite Cx. set (d1 := splice (plen t b p) (v_bytes x) d).
      pose proof (good_bytes t x Gx) as Lx. pose proof (buf_len _ _ _ _ _ B) as Dl.
      assert (L1 : zlen d1 = zlen d) by (apply splice_len; lia).
      pose proof (ulen_le t a a_pos p). pose proof (ulen_le t b b_pos q).
      destruct (IH Gp (x :: q) d1 (set_heap (hput (w_heap w) ptr d1) w)) as (d' & E & L' & Cd').
      * constructor; auto.
      * cbn [w_heap set_heap]. eapply buf_hput; eauto.
      * rewrite plen_app. cbn [plen]. lia.
      * auto.
      * apply contents_splice_before; auto; lia.
      * cbn [contents]. split.
        -- unfold d1. rewrite sub_splice_same; auto; lia.
        -- replace (plen t b p + psz t b x) with (plen t b (p ++ [x])) by (rewrite EP; auto).
           apply contents_splice_after; auto; try rewrite EP; lia.
      * exists d'. split; [|split; [congruence|]].
        -- transitivity (u_realign_up_copy ptr a b (plen t b p - plen t a p)
             (plen t b p' + vsize t y :: rev (map i_end (infos_of t b 0 p'))) (set_heap (hput (w_heap w) ptr d1) w)); [reflexivity|].
           rewrite <- rev_ends_snoc, <- Ep, E. cbn [w_heap set_heap]. now rewrite hput_hput.
        -- rewrite <- app_assoc. exact Cd'.
Qed.
End Pair.

Section WithConfig.
Context {C : Config}.

Lemma urep_bump t self l v d w : urep t self l v d w -> urep t self l v d (bump_alloc w).
Proof. intros R. destruct R. constructor; auto. Qed.
Lemma urep_set t self l v v' d w :
  urep t self l v d w -> uv_ptr v' = uv_ptr v -> uv_bcap v' = uv_bcap v -> uv_infos v' = uv_infos v -> uv_align v' = uv_align v ->
  zlen l <= uv_icap v' -> icap_ok t (uv_icap v') ->
  urep t self l v' d (set_vecs (upd (w_vecs w) self (OU v')) w) /\
  quiet self w (set_vecs (upd (w_vecs w) self (OU v')) w).
Proof.
  intros R EP EB EI EA L I. destruct R. pose proof (nth_error_lt _ _ _ ur_obj) as LT.
  split.
  - constructor; auto; rewrite ?EP, ?EB, ?EI, ?EA; auto. proj. now apply upd_same.
  - split; auto. eapply frame_set_obj; eauto. reflexivity. unfold owned_block. rewrite ur_obj. proj. now rewrite EP.
Qed.

Lemma u_reserve_wp t self l v d w n exact :
  urep t self l v d w -> 0 <= n ->
  run (u_reserve t self n exact) w
    (fun r w' => exists v', urep t self l v' d w' /\ quiet self w w' /\ w_moved w' = w_moved w /\ w_heap w' = w_heap w /\
       uv_ptr v' = uv_ptr v /\ uv_bcap v' = uv_bcap v /\ uv_align v' = uv_align v /\ uv_icap v <= uv_icap v' /\
       (zlen l + n <= uv_icap v -> r = ROk /\ w' = w) /\
       match r with
       | ROk => zlen l + n <= uv_icap v'
       | RErr CapacityOverflow => w' = w /\ isize_max - 7 < want_cap (info_size t) (uv_icap v) (zlen l) n exact * info_size t
       | RErr AllocError => alloc_failed w w'
       end) (fun _ _ => False) (fun _ => False).
Proof.
  intros R N. unfold u_reserve. eapply run_eq. { eapply get_u_eq, R. }
  apply run_bind. pose proof (zlen_nonneg l).
  eapply run_conseq. { apply infos_reserve_wp with (len := zlen (uv_infos v)); auto. apply R.
    rewrite (ur_infos _ _ _ _ _ _ R), infos_of_zlen. split; auto. apply R. } all: auto.
  rewrite (ur_infos _ _ _ _ _ _ R), infos_of_zlen. rewrite <- (ur_infos _ _ _ _ _ _ R).
  intros [r icap'] w1 (I & Le & Ew & Noop & Res).
  assert (R1 : urep t self l v d w1) by (destruct Ew as [->| ->]; auto; now apply urep_bump).
  assert (Q1 : quiet self w w1).
  { destruct Ew as [->| ->]. apply quiet_refl. split; auto. apply frame_bump. }
  pose proof (ur_len _ _ _ _ _ _ R) as Ll.
  set (v' := UVec (uv_ptr v) (uv_bcap v) (uv_infos v) icap' (uv_align v)).
  destruct (urep_set t self l v v' d w1 R1) as [R2 Q2]; auto.
  { unfold v'. proj. lia. }
  eapply run_eq. reflexivity. apply run_ret.
  exists v'.
  assert (HS : icap' = uv_icap v -> set_vecs (upd (w_vecs w1) self (OU v')) w1 = w1).
  { intros ->. apply set_vecs_same. rewrite (ur_obj _ _ _ _ _ _ R1). unfold v'. now destruct v. }
  split; [exact R2|]. split; [eapply quiet_trans; eauto|].
  split; [destruct Ew as [->| ->]; reflexivity|]. split; [destruct Ew as [->| ->]; reflexivity|].
  repeat (split; [reflexivity || (unfold v'; proj; lia)|]).
  split.
  - intros LE. destruct (Noop LE) as (-> & Ei & ->). split; auto.
  - destruct r as [|[]]; [unfold v'; proj; auto| |].
    + destruct Res as (Ei & -> & Ov). split; auto.
    + destruct Res as (Ei & AF). rewrite HS; auto.
Qed.

(** Whether a sequence of at most one element is padded does not matter. *)
Lemma infos_short t a b l : (length l <= 1)%nat -> infos_of t a 0 l = infos_of t b 0 l.
Proof. destruct l as [|x [|]]; cbn; auto; lia. Qed.
Lemma contents_short t a b l d : (length l <= 1)%nat -> contents t a 0 l d -> contents t b 0 l d.
Proof. destruct l as [|x [|]]; cbn; auto; lia. Qed.

Lemma u_byte_len_eq t self l v d w : urep t self l v d w -> u_aligned_byte_len v w = (Ok (plen t (uv_align v) l), w).
Proof.
  intros R. destruct R. unfold u_aligned_byte_len, u_unaligned_byte_len. rewrite ur_infos, last_end_infos.
  pose proof (pow2_pos _ ur_al) as Pa.
  rewrite unchecked_pad_to_spec; auto. now rewrite pad_ulen. now apply ulen_nonneg. rewrite pad_ulen; lia.
Qed.

(** Reallocating for a larger alignment and re-padding. *)
Lemma u_realign_up_eq t self l v b cap d w :
  nth_error (w_vecs w) self = Some (OU v) -> Forall (good t) l ->
  pow2 (uv_align v) -> pow2 b -> uv_align v < b -> (1 < length l)%nat ->
  uv_infos v = infos_of t (uv_align v) 0 l -> buf (w_heap w) (uv_ptr v) b cap d -> contents t (uv_align v) 0 l d ->
  plen t b l <= cap -> cap <= isize_max ->
  exists d', u_realign_up self b w =
    (Ok tt, set_heap (hput (w_heap w) (uv_ptr v) d')
              (set_vecs (upd (w_vecs w) self (OU (UVec (uv_ptr v) (uv_bcap v) (infos_of t b 0 l) (uv_icap v) (uv_align v)))) w))
    /\ zlen d' = zlen d /\ contents t b 0 l d'.
Proof.
  intros O G Pa Pb Lt Len I B Cd Fit Cap.
  unfold u_realign_up. erewrite bind_eq by (eapply get_u_eq; eauto).
  erewrite bind_eq. 2:{ apply dassert_eq. rewrite I, infos_of_length. apply andb_true_intro. split; [now apply Nat.ltb_lt|now apply Z.ltb_lt]. }
  pose proof (u_realign_up_infos_eq t (uv_align v) b Pa Pb ltac:(lia) l G 0 0 w ltac:(lia) ltac:(apply Z.mod_0_l; pose proof (pow2_pos b Pb); lia) ltac:(lia)) as E.
  rewrite !Z.add_0_l, Z.sub_diag in E. rewrite <- I in E.
  erewrite bind_eq by (exact E). cbv beta iota.
  erewrite bind_eq by reflexivity.
  set (w1 := set_vecs _ w).
  destruct (u_realign_up_copy_eq t (uv_align v) b Pa Pb ltac:(lia) b cap (uv_ptr v) l G [] d w1) as (d' & E' & L' & C'); auto.
  - rewrite app_nil_r. auto.
  - cbn; auto.
  - rewrite app_nil_r in C'. exists d'. split; [|split; auto]. exact E'.
Qed.

Lemma u_try_reserve_bytes_align_wp t self l v d w n al :
  urep t self l v d w -> 0 <= n -> pow2 al ->
  let al' := Z.max (uv_align v) al in
  run (u_try_reserve_bytes_align t self n al) w
    (fun r w' => exists v' d', urep t self l v' d' w' /\ quiet self w w' /\ uv_icap v' = uv_icap v /\
       (al <= uv_align v -> n = 0 -> r = ROk /\ w' = w) /\
       match r with
       | ROk => (uv_align v' = al' \/ uv_align v' = uv_align v /\ uv_bcap v' = 0 /\ n = 0) /\
                uv_bcap v - plen t (uv_align v) l + n <= uv_bcap v' - plen t (uv_align v') l /\
                uv_bcap v' <= plen t al' l + (uv_bcap v - plen t (uv_align v) l) + n + 2 * (al' - 1) /\
                (w_moved w' <= w_moved w + uv_bcap v /\ (uv_bcap v < uv_bcap v' -> w_moved w' = w_moved w + uv_bcap v)) /\ (w_nalloc w' <= S (w_nalloc w))%nat
       | RErr CapacityOverflow => w' = w /\ v' = v /\
           isize_max < plen t al' l + (uv_bcap v - plen t (uv_align v) l) + n + 2 * (al' - 1)
       | RErr AllocError => v' = v /\ alloc_failed w w' /\ w' = bump_alloc w
       end) (fun _ _ => False) (fun _ => False).
Proof.
  intros R N Pal al'. unfold u_try_reserve_bytes_align. eapply run_eq. { eapply get_u_eq, R. }
  eapply run_eq. { eapply u_byte_len_eq, R. }
  assert (R0 := R). destruct R. set (a := uv_align v) in *. fold al'.
  pose proof (pow2_maxi _ _ ur_al Pal) as Pal'. fold al' in Pal'.
  pose proof (pow2_pos _ ur_al) as Pa. pose proof (pow2_pos _ Pal') as Pa'.
  assert (LE : a <= al') by (unfold al'; lia).
  pose proof (buf_nonneg _ _ _ _ _ ur_buf) as Bn.
  pose proof (plen_nonneg t a Pa l ur_good) as Pn. pose proof (plen_nonneg t al' Pa' l ur_good) as Pn'.
  pose proof (plen_le t a al' ur_al Pal' LE l) as PL.
  destruct (Z.ltb_spec a al') as [RA|NR]; cbn [negb andb orb].
  - (* the alignment rises *)
    apply run_bind. eapply run_eq1.
    { unfold u_len_after_realign_up. erewrite bind_eq by (apply dassert_eq; apply Z.leb_le; lia).
      rewrite ur_infos.
      pose proof (u_len_after_loop_eq t a al' ur_al Pal' LE l ur_good 0 0 w ltac:(lia) ltac:(apply Z.mod_0_l; lia) ltac:(lia) ltac:(lia)) as E.
      rewrite !Z.add_0_l, Z.sub_diag in E. exact E. }
    destruct (Z.leb_spec (plen t al' l) isize_max) as [OK|OV].
    2:{ apply run_ret. exists v, d. ands; auto; try lia. apply quiet_refl. }
    eapply run_eq. { apply vs_unchecked_sub_eq; lia. }
    rewrite checked_add_pad_spec by (auto; lia).
    set (s1 := uv_bcap v + (plen t al' l - plen t a l)).
    pose proof (pad_lt s1 al' Pa'). pose proof (pad_ge s1 al' Pa').
    destruct (Z.leb_spec (pad s1 al') isize_max) as [O1|O1].
    2:{ apply run_ret. exists v, d. ands; auto; try lia. apply quiet_refl. }
    rewrite checked_add_pad_spec by (auto; lia).
    pose proof (pad_lt (pad s1 al' + n) al' Pa'). pose proof (pad_ge (pad s1 al' + n) al' Pa').
    set (nb := pad (pad s1 al' + n) al') in *.
    destruct (Z.leb_spec nb isize_max) as [O2|O2].
    2:{ apply run_ret. exists v, d. ands; auto; try lia. apply quiet_refl. }
    assert (NM : nb mod al' = 0) by (apply pad_mult; auto).
    assert (NB : nb <= isize_max - (al' - 1)) by (apply mult_le_max; auto).
    destruct (Z.ltb_spec 0 nb) as [NP|NP].
    + eapply run_eq. { apply layout_unchecked_eq; lia. }
      apply run_bind.
      eapply run_ext with (m' := if uv_bcap v =? 0 then galloc (Layout nb al') else ggrow (uv_ptr v) (Layout (uv_bcap v) a) (Layout nb al')).
      { destruct (uv_bcap v =? 0); auto. erewrite bind_eq by (apply layout_unchecked_eq; lia). reflexivity. }
      eapply grow_wp; eauto; try lia.
      * intros q h k m B Lh Bq HO HN -> ->.
        eapply run_eq. reflexivity. cbn [w_vecs set_vecs l_size].
        replace (new_squished_to nb al') with nb.
        2:{ unfold new_squished_to, max_for_align, minus_1. now rewrite (proj2 (Z.leb_le _ _)). }
        set (w1 := set_vecs _ _). set (v1 := UVec q nb (uv_infos v) (uv_icap v) a) in *.
        pose proof (nth_error_lt _ _ _ ur_obj) as LT.
        assert (O1' : nth_error (w_vecs w1) self = Some (OU v1)) by (apply upd_same; auto).
        set (d1 := d ++ uninit (nb - uv_bcap v)) in *.
        pose proof (buf_len _ _ _ _ _ ur_buf) as Dl.
        pose proof (ulen_le t a Pa l).
        assert (C1 : contents t a 0 l d1) by (apply contents_extend; auto; lia).
        assert (Q1 : quiet self w w1).
        { split; [|reflexivity]. unfold w1, set_vecs. proj. eapply frame_realloc; eauto. unfold owned_block. rewrite ur_obj. reflexivity. reflexivity. }
        assert (exists d2 infos2, (if Nat.ltb 1 (length (uv_infos v)) then u_realign_up self al' else ret tt) w1 =
          (Ok tt, set_heap (hput (w_heap w1) q d2) (set_vecs (upd (w_vecs w1) self (OU (UVec q nb infos2 (uv_icap v) a))) w1)) /\
          infos2 = infos_of t al' 0 l /\ zlen d2 = zlen d1 /\ contents t al' 0 l d2) as (d2 & infos2 & E2 & -> & L2 & C2).
        { rewrite ur_infos, infos_of_length. destruct (Nat.ltb_spec 1 (length l)) as [LL|LL].
          - destruct (u_realign_up_eq t self l v1 al' nb d1 w1) as (d2 & E2 & L2 & C2); auto; try (unfold v1; proj; auto; lia).
            exists d2, (infos_of t al' 0 l). split; auto.
          - exists d1, (infos_of t al' 0 l). split; [|split; [auto|split; auto]].
            + unfold ret. erewrite hput_same by (eapply B). rewrite <- (infos_short t a al') by lia. rewrite <- ur_infos.
              fold v1. rewrite set_vecs_same by auto. now rewrite set_heap_same.
            + eapply contents_short; eauto; lia. }
        apply run_bind. eapply run_eq. exact E2.
        set (w2 := set_heap _ _). set (v2 := UVec q nb (infos_of t al' 0 l) (uv_icap v) a) in *.
        assert (O2' : nth_error (w_vecs w2) self = Some (OU v2)).
        { cbn [w2 w_vecs set_heap set_vecs]. apply upd_same. unfold w1. cbn [w_vecs set_vecs]. rewrite upd_length. auto. }
        eapply run_eq. { eapply get_u_eq; eauto. }
        eapply run_eq1. reflexivity. apply run_ret.
        set (v3 := UVec _ _ _ _ al').
        exists v3, d2.
        assert (HW : forall o, w_heap (set_vecs (upd (w_vecs w2) self o) w2) = hput (w_heap w1) q d2) by reflexivity.
        assert (Q2 : quiet self w1 w2).
        { split; [|reflexivity]. unfold w2. eapply frame_trans.
          - eapply (frame_set_obj self w1 (OU v2) q). apply (nth_error_lt _ _ _ O1'). reflexivity.
            unfold owned_block. rewrite O1'. reflexivity.
          - apply (frame_hput self (set_vecs (upd (w_vecs w1) self (OU v2)) w1) q d2).
            rewrite (owned_set_obj w1 self (OU v2) q); auto. apply (nth_error_lt _ _ _ O1'). }
        assert (Q3 : quiet self w2 (set_vecs (upd (w_vecs w2) self (OU v3)) w2)).
        { split; [|reflexivity]. apply (frame_set_obj self w2 (OU v3) q). apply (nth_error_lt _ _ _ O2'). reflexivity.
          unfold owned_block. rewrite O2'. reflexivity. }
        split; [|split; [|split; [|split]]].
        -- constructor; unfold v3, v2; proj; auto; try lia.
           ++ apply upd_same. apply (nth_error_lt _ _ _ O2').
           ++ rewrite Forall_forall in *. intros x Hx. specialize (ur_aligned x Hx). lia.
           ++ eapply buf_hput; eauto.
        -- eapply quiet_trans; eauto. eapply quiet_trans; eauto.
        -- reflexivity.
        -- intros; unfold al' in *; lia.
        -- unfold v3, v2, w2, w1; proj. split; [auto|]. split; [lia|]. split; [lia|]. split; [lia|]. lia.
      * intros A. apply run_ret. exists v, d. split; [now apply urep_bump|]. split; [split; auto; apply frame_bump|].
        ands; auto; try lia. exists (w_nalloc w). proj. split; auto.
    + (* no bytes at all: the vector only gets a new dangling pointer *)
      assert (Z0 : nb = 0 /\ uv_bcap v = 0 /\ n = 0 /\ plen t a l = 0) by lia.
      destruct Z0 as (Z1 & Z2 & Z3 & Z4).
      eapply run_eq. reflexivity. apply run_ret.
      pose proof (nth_error_lt _ _ _ ur_obj) as LT.
      unfold buf in ur_buf. rewrite Z2 in ur_buf. cbn in ur_buf. destruct ur_buf as (p0 & EP & PP & PM & ->).
      exists (UVec (dangling_thin al') (uv_bcap v) (uv_infos v) (uv_icap v) a), [].
      split; [|split; [|split; [|split]]].
      * constructor; proj; auto. now apply upd_same. unfold buf. rewrite Z2. cbn.
        exists al'. repeat split; auto. apply mod_trans with al'; auto. now apply pow2_divide. apply Z.mod_same; lia.
      * split; [|reflexivity]. eapply frame_set_obj; eauto. reflexivity. unfold owned_block. rewrite ur_obj. cbn. now rewrite EP.
      * reflexivity.
      * unfold al' in *; lia.
      * proj. split; [right; auto|]. ands; lia.
  - (* same alignment *)
    assert (EA : al' = a) by lia. rewrite EA in *. clear al' EA.
    destruct (Z.eqb_spec n 0) as [N0|N0].
    { apply run_ret. exists v, d. ands; auto; try lia; try apply quiet_refl; fold a; lia. }
    apply run_bind. apply run_ret.
    eapply run_eq. { apply vs_unchecked_sub_eq; lia. }
    rewrite checked_add_pad_spec by (auto; lia).
    replace (uv_bcap v + (plen t a l - plen t a l)) with (uv_bcap v) by lia.
    rewrite pad_id by auto.
    rewrite (proj2 (Z.leb_le (uv_bcap v) isize_max)) by lia.
    rewrite checked_add_pad_spec by (auto; lia).
    pose proof (pad_lt (uv_bcap v + n) a Pa). pose proof (pad_ge (uv_bcap v + n) a Pa).
    set (nb := pad (uv_bcap v + n) a) in *.
    destruct (Z.leb_spec nb isize_max) as [O2|O2].
    2:{ apply run_ret. exists v, d. ands; auto; try lia. apply quiet_refl. }
    assert (NM : nb mod a = 0) by (apply pad_mult; auto).
    assert (NB : nb <= isize_max - (a - 1)) by (apply mult_le_max; auto).
    rewrite (proj2 (Z.ltb_lt (uv_bcap v) nb)) by lia. rewrite (proj2 (Z.ltb_lt 0 nb)) by lia.
    eapply run_eq. { apply layout_unchecked_eq; lia. }
    apply run_bind.
    eapply run_ext with (m' := if uv_bcap v =? 0 then galloc (Layout nb a) else ggrow (uv_ptr v) (Layout (uv_bcap v) a) (Layout nb a)).
    { destruct (uv_bcap v =? 0); auto. erewrite bind_eq by (apply layout_unchecked_eq; lia). reflexivity. }
    eapply grow_wp; eauto; try lia.
    * intros q h k m B Lh Bq HO HN -> ->.
      eapply run_eq. reflexivity. cbn [w_vecs set_vecs l_size].
      replace (new_squished_to nb a) with nb.
      2:{ unfold new_squished_to, max_for_align, minus_1. now rewrite (proj2 (Z.leb_le _ _)). }
      eapply run_eq. reflexivity. apply run_ret.
      pose proof (nth_error_lt _ _ _ ur_obj) as LT.
      pose proof (buf_len _ _ _ _ _ ur_buf) as Dl.
      pose proof (ulen_le t a Pa l).
      exists (UVec q nb (uv_infos v) (uv_icap v) a), (d ++ uninit (nb - uv_bcap v)).
      split; [|split; [|split; [|split]]].
      -- constructor; proj; auto; try lia. now apply upd_same. apply contents_extend; auto; lia.
      -- split; [|reflexivity]. unfold set_vecs. proj. eapply frame_realloc; eauto. unfold owned_block. rewrite ur_obj. reflexivity. reflexivity.
      -- reflexivity.
      -- lia.
      -- proj. split; [auto|]. split; [lia|]. split; [lia|]. split; [lia|]. lia.
    * intros A. apply run_ret. exists v, d. split; [now apply urep_bump|]. split; [split; auto; apply frame_bump|].
      ands; auto; try lia. exists (w_nalloc w). proj. split; auto.
Qed.
End WithConfig.
