(** [insert_with] and [insert]: shifting the tail, filling the gap, and restoring the vector when the delivery unwinds. *)
From Coq Require Import ZArith List Bool Lia.
From Verif Require Import Types World ValidSize Emplace SizedVec AlignedVec UnalignedVec Api Spec Bytes Arith Wp Mem Repr
  Access Reserve Realign Orep Push Deal PushWith Shell.
Import ListNotations.
Open Scope Z_scope.
Open Scope m_scope.

Lemma insert_at_length {A} i (x : A) l : (i <= length l)%nat -> length (insert_at i x l) = S (length l).
Proof.
  intros L. unfold insert_at. rewrite app_length. cbn [length]. rewrite firstn_length, skipn_length. lia.
Qed.
Lemma zlen_insert {A} i (x : A) l : (i <= length l)%nat -> zlen (insert_at i x l) = zlen l + 1.
Proof. intros. unfold zlen. rewrite insert_at_length by auto. lia. Qed.
Lemma Forall_insert {A} (P : A -> Prop) i x l : Forall P l -> P x -> Forall P (insert_at i x l).
Proof.
  intros. unfold insert_at. apply Forall_app. split. now apply Forall_firstn'. constructor; auto. now apply Forall_skipn'.
Qed.
Lemma plen_insert t al i x l : plen t al (insert_at i x l) = plen t al l + psz t al x.
Proof. unfold insert_at. rewrite plen_app. cbn [plen]. rewrite (plen_split t al l i). lia. Qed.
Lemma ulen_1 t l : ulen t 1 l = plen t 1 l.
Proof. rewrite <- (pad_ulen t 1 ltac:(lia)). now rewrite pad_1. Qed.

Section WithConfig.
Context {C : Config}.

(** The tail starts before the end of the data. It fails only for the unaligned vector, at the end, when the last element
    is not a multiple of the alignment (finding F7). *)
Definition tail_ok (t : ty) (al : Z) (l : list value) (i : nat) : Prop := plen t al (firstn i l) <= ulen t al l.
Lemma tail_ok_lt t al l i : 0 < al -> Forall (good t) l -> (i < length l)%nat -> tail_ok t al l i.
Proof.
  intros P G L. unfold tail_ok. rewrite <- (firstn_skipn i l) at 2.
  assert (skipn i l <> []). { intro E. apply (f_equal (@length _)) in E. rewrite skipn_length in E. cbn in E. lia. }
  rewrite ulen_app by auto. pose proof (ulen_nonneg t al P _ (Forall_skipn' _ l i G)). lia.
Qed.
Lemma tail_ok_1 t l i : Forall (good t) l -> tail_ok t 1 l i.
Proof.
  intros G. unfold tail_ok. rewrite ulen_1. rewrite (plen_split t 1 l i).
  pose proof (plen_nonneg t 1 ltac:(lia) _ (Forall_skipn' _ l i G)). lia.
Qed.

Lemma holds_insert t o l i x : core t o -> holds t o l -> good t x -> room t o l x -> (i <= length l)%nat ->
  holds t o (insert_at i x l) /\ o_blen t o l + psz t (o_pal o) x <= o_bcap t o.
Proof.
  intros K (G & A & F & L) Gx (Lr & Br & Ar) Li.
  assert (B : o_blen t o l + psz t (o_pal o) x <= o_bcap t o).
  { unfold o_blen, psz in *. destruct o as [v|v|v|]; cbn [core] in K; ocbn in *; try tauto; rewrite ?pad_1; auto.
    destruct K as (_ & _ & P & M & _). pose proof (pow2_pos _ P).
    assert (pad (plen t (uv_align v) l + vsize t x) (uv_align v) <= uv_bcap v) by (apply pad_le; auto).
    rewrite pad_add in *; auto. now apply plen_mod. }
  split; auto. unfold holds. ands.
  - now apply Forall_insert.
  - intros Ku. apply Forall_insert; auto.
  - unfold o_blen in *. rewrite plen_insert. auto.
  - rewrite zlen_insert by auto. lia.
Qed.

(** ** The steps of [insert_with] *)
Definition ins_place (t : ty) (self index : nat) (size : Z) : M (ptr * Z * Z * Z) :=
  match kind_of t with
  | KSized =>
      v <- get_s self ;; p <- elem_add t (sv_ptr v) (Z.of_nat index) ;; n <- usub (sv_len v) (Z.of_nat index) ;;
      ret (p, 1 * s_size t, n * s_size t, 0)
  | KAligned =>
      v <- get_a self ;; s <- a_start_offset v index ;; p <- ptr_add (av_ptr v) s ;;
      n <- vs_unchecked_sub (static_align t) (a_byte_len v) s ;; ret (p, size, n, s)
  | KUnaligned =>
      v <- get_u self ;; k <- unchecked_pad_to size (uv_align v) ;; s <- u_start_offset v index ;; p <- ptr_add (uv_ptr v) s ;;
      n <- vu_unchecked_sub (u_unaligned_byte_len v) s ;; ret (p, k, n, s)
  end.
Definition ins_finish (t : ty) (self index : nat) (m : meta) (size k s : Z) : M unit :=
  match kind_of t with
  | KSized => v' <- get_s self ;; len <- uadd (sv_len v') 1 ;; set_obj self (OS (SVec (sv_ptr v') (sv_cap v') len))
  | KAligned =>
      v' <- get_a self ;;
      infos <- infos_add_from (static_align t) (av_infos v') index k ;;
      e <- vs_unchecked_add (static_align t) s k ;;
      infos' <- infos_insert infos (av_icap v') index (Info (from_metadata t m) e) ;;
      set_obj self (OA (AVec (av_ptr v') (av_bcap v') infos' (av_icap v')))
  | KUnaligned =>
      v' <- get_u self ;;
      infos <- infos_add_from 1 (uv_infos v') index k ;;
      e <- vu_unchecked_add s size ;;
      infos' <- infos_insert infos (uv_icap v') index (Info (from_metadata t m) e) ;;
      set_obj self (OU (UVec (uv_ptr v') (uv_bcap v') infos' (uv_icap v') (uv_align v')))
  end.

Lemma ins_place_eq t self l o d w x i :
  orep t self l o d w -> good t x -> room t o l x -> (i <= length l)%nat -> tail_ok t (o_pal o) l i ->
  exists s0, ins_place t self i (vsize t x) w =
    (Ok (padd (o_ptr o) (plen t (o_pal o) (firstn i l)), psz t (o_pal o) x,
         ulen t (o_pal o) l - plen t (o_pal o) (firstn i l), s0), w) /\
    (kind_of t <> KSized -> s0 = plen t (o_pal o) (firstn i l)).
Proof.
  intros R Gx Rm Li T. pose proof (orep_holds _ _ _ _ _ _ R) as Hh. pose proof (orep_shell _ _ _ _ _ _ R) as (_ & Co & _).
  destruct (holds_insert t o l i x Co Hh Gx Rm Li) as (_ & Bp). pose proof (orep_good _ _ _ _ _ _ R) as G.
  pose proof (orep_fit _ _ _ _ _ _ R) as Fit. pose proof (pow2_pos _ (orep_pal _ _ _ _ _ _ R)) as P.
  pose proof (orep_bcap _ _ _ _ _ _ R) as Bm. pose proof (pow2_pos _ (orep_al _ _ _ _ _ _ R)) as Pa.
  pose proof (plen_firstn_nonneg t (o_pal o) P l i G) as S0. pose proof (good_size t x Gx) as Sx.
  pose proof (ulen_le t (o_pal o) P l) as U. pose proof (psz_nonneg t (o_pal o) P x Gx) as K0.
  pose proof (plen_nonneg t (o_pal o) P _ (Forall_skipn' _ l i G)) as S1. pose proof (plen_split t (o_pal o) l i) as Sp.
  unfold tail_ok in T. unfold ins_place, psz, o_blen in *. destruct o; ocbn in *; try tauto.
  - rewrite (sr_kind _ _ _ _ _ _ R). exists 0. split; [|congruence]. destruct R.
    erewrite bind_eq by (eapply get_s_eq; eauto). rewrite pad_1 in *. rewrite vsize_sized in * by auto.
    rewrite (plen_firstn_sized t l i) in * by auto. rewrite ulen_1 in *. rewrite (plen_sized t l) in * by auto.
    erewrite bind_eq by (unfold elem_add; eapply ptr_add_buf; eauto; lia).
    rewrite sr_slen. erewrite bind_eq by (apply usub_eq; unfold zlen; lia).
    unfold ret. do 2 f_equal. f_equal. f_equal; try lia. f_equal; lia.
  - rewrite (ar_kind _ _ _ _ _ _ R). exists (plen t 1 (firstn i l)). split; [|auto]. destruct R.
    erewrite bind_eq by (eapply get_a_eq; eauto).
    erewrite bind_eq by (eapply a_start_offset_eq; eauto).
    erewrite bind_eq by (eapply ptr_add_buf; eauto; lia).
    unfold a_byte_len. rewrite ar_infos, last_end_infos.
    erewrite bind_eq by (apply vs_unchecked_sub_eq; lia). rewrite pad_1. reflexivity.
  - rewrite (ur_kind _ _ _ _ _ _ R). exists (plen t (uv_align v) (firstn i l)). split; [|auto]. destruct R.
    erewrite bind_eq by (eapply get_u_eq; eauto).
    erewrite bind_eq by (apply unchecked_pad_to_spec; auto; lia).
    erewrite bind_eq by (eapply u_start_offset_eq; eauto; lia).
    erewrite bind_eq by (eapply ptr_add_buf; eauto; lia).
    unfold u_unaligned_byte_len. rewrite ur_infos, last_end_infos.
    erewrite bind_eq by (apply vs_unchecked_sub_eq; lia). reflexivity.
Qed.

Lemma ins_finish_eq t self l o d w x i s0 :
  shell t self o d w -> o_with t o l = o -> holds t o l -> good t x -> room t o l x -> (i <= length l)%nat ->
  (kind_of t <> KSized -> s0 = plen t (o_pal o) (firstn i l)) ->
  ins_finish t self i (v_meta x) (vsize t x) (psz t (o_pal o) x) s0 w
  = (Ok tt, set_vecs (upd (w_vecs w) self (o_with t o (insert_at i x l))) w).
Proof.
  intros Sh Ew Hh Gx Rm Li Es. pose proof Sh as (Eo & Co & Bu).
  destruct (holds_insert t o l i x Co Hh Gx Rm Li) as ((_ & _ & Fi & Zi) & Bp).
  destruct Hh as (G & A & F & Lc). rewrite zlen_insert in Zi by auto.
  pose proof (good_size t x Gx) as Sx.
  assert (Lf : length (firstn i l) = i) by (rewrite firstn_length; lia).
  unfold ins_finish. destruct o as [v|v|v|]; cbn [core] in Co; ocbn in *; try tauto.
  - destruct Co as (K & W & P & Zs & Bc). rewrite K. injection Ew as Ew. apply (f_equal sv_len) in Ew; cbn [sv_len] in Ew. cbn [o_with]. rewrite zlen_insert by auto.
    erewrite bind_eq by (eapply get_s_eq; eauto).
    assert (sv_len v + 1 <= usize_max).
    { rewrite <- Ew. unfold s_capacity in Zi. destruct (Z.eqb_spec (s_size t) 0); [lia|].
      pose proof (s_size_nonneg t K W). pose proof (pow2_pos _ (s_align_pow2 t K W)). nia. }
    erewrite bind_eq by (apply uadd_eq; auto). unfold set_obj. rewrite <- Ew. reflexivity.
  - destruct Co as (K & W & Bc & Ic). rewrite K. injection Ew as Ew. apply (f_equal av_infos) in Ew; cbn [av_infos] in Ew. rewrite Es by congruence.
    pose proof (pow2_pos _ (static_align_pow2 t W)) as P. unfold o_blen in *; ocbn in *.
    pose proof (ulen_le t 1 ltac:(lia) l). pose proof (plen_firstn_nonneg t 1 ltac:(lia) l i G).
    pose proof (plen_nonneg t 1 ltac:(lia) _ (Forall_skipn' _ l i G)) as S1. pose proof (plen_split t 1 l i) as Sp.
    erewrite bind_eq by (eapply get_a_eq; eauto). rewrite <- Ew.
    erewrite bind_eq by (apply infos_add_eq; auto; lia).
    erewrite bind_eq by (apply vs_unchecked_add_eq; lia).
    erewrite bind_eq.
    2: { apply infos_insert_eq.
         - rewrite zlen_app, !infos_of_zlen, <- zlen_app, firstn_skipn. lia.
         - rewrite app_length, !infos_of_length. lia. }
    rewrite firstn_app, skipn_app, infos_of_length, Lf, Nat.sub_diag.
    rewrite (firstn_all2 (infos_of t 1 0 (firstn i l))) by (rewrite infos_of_length; lia).
    rewrite (skipn_all2 (infos_of t 1 0 (firstn i l))) by (rewrite infos_of_length; lia).
    cbn [firstn skipn app]. rewrite app_nil_r. cbn [o_with]. rewrite infos_of_insert by auto.
    unfold info_of, psz. rewrite pad_1. reflexivity.
  - destruct Co as (K & W & P & M & Bc & Ic). rewrite K. injection Ew as Ew. apply (f_equal uv_infos) in Ew; cbn [uv_infos] in Ew. rewrite Es by congruence.
    pose proof (pow2_pos _ P) as Pp. unfold o_blen in *; ocbn in *.
    pose proof (ulen_le t _ Pp l). pose proof (plen_firstn_nonneg t _ Pp l i G). pose proof (psz_ge t _ Pp x).
    pose proof (plen_nonneg t _ Pp _ (Forall_skipn' _ l i G)) as S1. pose proof (plen_split t (uv_align v) l i) as Sp.
    erewrite bind_eq by (eapply get_u_eq; eauto). rewrite <- Ew.
    erewrite bind_eq by (apply infos_add_eq; auto; lia).
    erewrite bind_eq by (apply vs_unchecked_add_eq; lia).
    erewrite bind_eq.
    2: { apply infos_insert_eq.
         - rewrite zlen_app, !infos_of_zlen, <- zlen_app, firstn_skipn. lia.
         - rewrite app_length, !infos_of_length. lia. }
    rewrite firstn_app, skipn_app, infos_of_length, Lf, Nat.sub_diag.
    rewrite (firstn_all2 (infos_of t (uv_align v) 0 (firstn i l))) by (rewrite infos_of_length; lia).
    rewrite (skipn_all2 (infos_of t (uv_align v) 0 (firstn i l))) by (rewrite infos_of_length; lia).
    cbn [firstn skipn app]. rewrite app_nil_r. cbn [o_with]. rewrite infos_of_insert by auto.
    unfold info_of. reflexivity.
Qed.

Definition ins_exact (t : ty) : bool := match kind_of t with KSized => true | _ => false end.
Definition ins_emplacer (t : ty) (self i : nat) : emplacer := fun lay m inner =>
  r <- p_try_reserve t self 1 (ins_exact t) ;;
  r <- (match kind_of t, r with
        | KSized, r => ret r
        | _, ROk => p_try_reserve_bytes_align t self (l_size lay) (l_align lay)
        | _, RErr _ => ret r
        end) ;;
  unwrap_try_reserve_result r ;;
  '(p, k, n, s) <- ins_place t self i (l_size lay) ;;
  q <- ptr_add p k ;;
  mem_copy p q n ;;
  on_unwind (inner p) (q' <- ptr_add p k ;; mem_copy q' p n) ;;
  ins_finish t self i m (l_size lay) k s.

Lemma p_insert_with_form t self i e :
  exists E, (forall w l o d, orep t self l o d w -> (i <= length l)%nat -> p_insert_with_unchecked t self i e w = e E w) /\
    forall lay m inner x w, good t x -> fits t lay x -> E lay m inner w = ins_emplacer t self i lay m inner w.
Proof.
  unfold p_insert_with_unchecked, ins_emplacer, ins_exact, p_try_reserve, p_try_reserve_bytes_align, ins_place, ins_finish.
  destruct (kind_of t) eqn:K.
  - eexists; split.
    + intros w l o d R Li. unfold s_insert_with_unchecked. destruct o; ocbn in *; try tauto; try (destruct R; congruence).
      erewrite bind_eq by (eapply get_s_eq; apply R).
      erewrite bind_eq. { reflexivity. }
      apply on_unwind_eq, dassert_eq. rewrite (sr_slen _ _ _ _ _ _ R). apply Z.leb_le. unfold zlen. lia.
    + intros lay m inner x w G (F & _). cbv beta.
      apply bind_ext. intros r w1. match goal with |- _ = bind (ret r) ?f w1 => change (bind (ret r) f w1) with (f r w1) end.
      cbv beta. apply bind_ext. intros [] w2. rewrite bind_assoc. apply bind_ext. intros v w3. rewrite bind_assoc.
      apply bind_ext. intros p w4. rewrite bind_assoc. apply bind_ext. intros n w5. reflexivity.
  - eexists; split.
    + intros w l o d R Li. unfold a_insert_with_unchecked. destruct o; ocbn in *; try tauto; try (destruct R; congruence).
      erewrite bind_eq by (eapply get_a_eq; apply R).
      erewrite bind_eq. { reflexivity. }
      apply on_unwind_eq, dassert_eq. rewrite (ar_infos _ _ _ _ _ _ R), infos_of_length. now apply Nat.leb_le.
    + intros lay m inner x w G (F & _ & F3). cbv beta.
      erewrite bind_eq. 2: { apply vs_new_unchecked_eq. rewrite F. auto. }
      apply bind_ext. intros r w1. apply bind_ext. intros r' w2.
      apply bind_ext. intros [] w3. rewrite bind_assoc. apply bind_ext. intros v w4. rewrite bind_assoc. apply bind_ext.
      intros s w5. rewrite bind_assoc. apply bind_ext. intros p w6. rewrite bind_assoc. apply bind_ext. intros n w7. reflexivity.
  - eexists; split.
    + intros w l o d R Li. unfold u_insert_with_unchecked. destruct o; ocbn in *; try tauto; try (destruct R; congruence).
      erewrite bind_eq by (eapply get_u_eq; apply R).
      erewrite bind_eq. { reflexivity. }
      apply on_unwind_eq, dassert_eq. rewrite (ur_infos _ _ _ _ _ _ R), infos_of_length. now apply Nat.leb_le.
    + intros lay m inner x w G (F & _ & F3). cbv beta zeta.
      apply bind_ext. intros r w1. apply bind_ext. intros r' w2.
      apply bind_ext. intros [] w3. rewrite bind_assoc. apply bind_ext. intros v w4. rewrite bind_assoc. apply bind_ext.
      intros k w5. rewrite bind_assoc. apply bind_ext. intros s w6. rewrite bind_assoc. apply bind_ext. intros p w7.
      rewrite bind_assoc. apply bind_ext. intros n w8. reflexivity.
Qed.

(** ** The emplacer *)
Lemma ins_emplacer_wp t self l o d w1 S inner post i :
  orep t self l o d w1 -> good t (d_value S) -> fits t (d_lay S) (d_value S) -> nzst t \/ kind_of t = KSized ->
  can_align t o (vsize t (d_value S)) (valign t (d_value S)) -> apart self (d_fv S) (d_fb S) w1 ->
  (i <= length l)%nat ->
  (kind_of t = KUnaligned -> tail_ok t (req_al t o (valign t (d_value S))) l i) ->
  writes S inner post w1 ->
  (forall w', agree (d_fv S) (d_fb S) w1 w' -> d_after S Refused w') ->
  run (ins_emplacer t self i (d_lay S) (d_meta S) inner) w1
    (fun _ w4 => exists o' d', orep t self (insert_at i (d_value S) l) o' d' w4 /\ touch self (d_fv S) (d_fb S) w1 w4 /\
       apart self (d_fv S) (d_fb S) w4 /\
       w_drops w4 = w_drops w1 ++ d_extra S /\ post_ok S Delivered post w4 /\ o_al t o' = req_al t o (valign t (d_value S)) /\ stays t o l (d_value S) o')
    (with_panic t self l o S (ins_exact t) w1)
    (fun w4 => alloc_failed w1 w4 \/ aborted S w1 w4).
Proof.
  intros R G F Nz CA AP Li T W RF. set (x := d_value S) in *. unfold ins_emplacer.
  pose proof (good_size t x G) as Sx. pose proof (good_bytes t x G) as Bx.
  eapply with_reserve_wp; eauto.
  - intros o2 d2 w2 R2 Q2 Rm Al St. pose proof Rm as (L & B & A).
    pose proof (frame_agree _ _ _ _ _ (proj1 Q2) AP) as Ag. pose proof (frame_apart _ _ _ _ _ (proj1 Q2) AP) as AP2.
    pose proof (orep_shell _ _ _ _ _ _ R2) as Sh2. pose proof (orep_holds _ _ _ _ _ _ R2) as Hh2.
    pose proof (orep_with _ _ _ _ _ _ R2) as Ew. pose proof (orep_good _ _ _ _ _ _ R2) as Gl.
    pose proof (pow2_pos _ (orep_pal _ _ _ _ _ _ R2)) as P.
    pose proof (orep_data _ _ _ _ _ _ R2) as Dt.
    assert (T2 : tail_ok t (o_pal o2) l i).
    { destruct (kind_of t) eqn:K.
      - destruct o2; ocbn in *; try tauto; try (destruct R2; congruence). now apply tail_ok_1.
      - destruct o2; ocbn in *; try tauto; try (destruct R2; congruence). now apply tail_ok_1.
      - destruct o2; ocbn in *; try tauto; try (destruct R2; congruence). rewrite Al. auto. }
    destruct (holds_insert t o2 l i x ltac:(apply Sh2) Hh2 G Rm Li) as (Hi & Bp).
    destruct (ins_place_eq t self l o2 d2 w2 x i R2 G Rm Li T2) as (s0 & Ep & Es).
    rewrite (proj1 F). eapply run_eq; [exact Ep|]. cbv beta iota.
    pose proof (orep_buf _ _ _ _ _ _ R2) as Bu. pose proof (buf_len _ _ _ _ _ Bu) as Ld.
    set (pal := o_pal o2) in *. unfold tail_ok in T2.
    assert (Fd : plen t pal l + psz t pal x <= zlen d2) by (unfold o_blen in Bp; fold pal in Bp; lia).
    destruct (gap_facts t pal l i x d2 P Gl G Li ltac:(lia) Fd) as (S0 & K0 & Kx & Bd & En & Lx & X0).
    set (s := plen t pal (firstn i l)) in *. set (k := psz t pal x) in *. set (n := ulen t pal l - s) in *.
    eapply run_eq. { eapply ptr_add_buf2; eauto; lia. }
    eapply run_eq. { eapply mem_copy_buf; eauto; lia. }
    fold (gapped t pal l i x d2). change (splice (s + k) (sub s n d2) d2) with (gapped t pal l i x d2).
    set (dg := gapped t pal l i x d2) in *. set (wg := set_heap (hput (w_heap w2) (o_ptr o2) dg) w2).
    assert (Lg : zlen dg = zlen d2) by (apply gapped_len; auto; lia).
    pose proof (shell_put _ _ _ _ dg _ Sh2 Lg) as Shg. pose proof (shell_frame_put _ _ _ _ dg _ Sh2) as Qg. fold wg in Shg, Qg.
    pose proof Shg as (_ & _ & Bug).
    assert (Q12 : quiet self w1 wg) by (eapply quiet_trans; eauto).
    pose proof (frame_agree _ _ _ _ _ (proj1 Q12) AP) as Agg. pose proof (frame_apart _ _ _ _ _ (proj1 Q12) AP) as APg.
    assert (Pb : forall b, ptr_block (padd (o_ptr o2) s) = Some b -> ~ In b (d_fb S)).
    { intros b Eb. rewrite padd_block in Eb. destruct APg as (_ & _ & X). apply X. rewrite (shell_owned _ _ _ _ _ Shg). auto. }
    assert (Bx' : zlen (d_bytes S) = vsize t x) by exact Bx.
    assert (HWf : forall bs, zlen bs = vsize t x ->
              heap_write (w_heap wg) (padd (o_ptr o2) s) bs = Some (hput (w_heap wg) (o_ptr o2) (splice s bs dg))).
    { intros bs Lb. eapply heap_write_buf; eauto; lia. }
    specialize (W _ wg _ Agg (buf_nonnull _ _ _ _ _ _ Bug) Pb (HWf _ Bx')).
    assert (Fill : forall bs w3, zlen bs = vsize t x ->
       within (d_fv S) (d_fb S) (set_heap (hput (w_heap wg) (o_ptr o2) (splice s bs dg)) wg) w3 ->
       (exists ds, w_drops w3 = w_drops wg ++ ds) ->
       shell t self o2 (splice s bs dg) w3 /\ touch self (d_fv S) (d_fb S) w1 w3).
    { intros bs w3 Lb Wi Dd. assert (Ls : zlen (splice s bs dg) = zlen dg) by (apply splice_len; lia).
      pose proof (shell_put _ _ _ _ (splice s bs dg) _ Shg Ls) as Shf.
      pose proof (shell_frame_put _ _ _ _ (splice s bs dg) _ Shg) as Qf.
      pose proof (frame_apart _ _ _ _ _ (proj1 Qf) APg) as APf. split.
      - eapply shell_within; eauto.
      - eapply touch_trans; [exact AP|apply touch_frame, Q12|]. eapply touch_trans; [exact APg|apply touch_frame, Qf|].
        apply touch_within; auto. }
    apply run_bind. apply run_on_unwind. eapply run_conseq; [exact W|..]; cbv beta.
    + intros _ w3 (Wi & D3 & P3). destruct (Fill _ w3 Bx' Wi ltac:(eauto)) as (Sh3 & T3).
      eapply run_eq1.
      { change (d_meta S) with (v_meta x). unfold k. eapply ins_finish_eq; eauto. }
      destruct (shell_set _ _ _ _ _ (insert_at i x l) Sh3) as (_ & Q4).
      pose proof (touch_apart _ _ _ _ _ T3 AP) as AP3.
      eexists _, _. ands.
      * apply shell_make; eauto. change (d_bytes S) with (v_bytes x). fold pal. apply gap_fill; auto; lia.
      * eapply touch_trans; [exact AP|exact T3|apply touch_frame, Q4].
      * eapply frame_apart; [apply Q4|auto].
      * rewrite (proj2 Q4), D3, (proj2 Q12). reflexivity.
      * eapply post_ok_agree; [exact P3|]. eapply frame_agree; [apply Q4|]. auto.
      * destruct (o_with_same t o2 (insert_at i x l)) as (_ & _ & -> & _). auto.
      * destruct St as (St1 & St2 & St3 & St4). destruct (o_with_same t o2 (insert_at i x l)) as (Ec & Eb & _ & _ & Ept).
        unfold stays. rewrite Ec, Eb, Ept. auto.
    + intros r w3 (Pr & (bs & h'' & Lb & HW' & Wi) & ds & D3).
      assert (Lb' : zlen bs = vsize t x) by congruence. rewrite (HWf bs Lb') in HW'. injection HW' as <-.
      destruct (Fill _ w3 Lb' Wi ltac:(eauto)) as (Sh3 & T3). pose proof Sh3 as (_ & _ & Bu3).
      assert (Lf : zlen (splice s bs dg) = zlen dg) by (apply splice_len; lia).
      pose proof (touch_apart _ _ _ _ _ T3 AP) as AP3.
      eapply run_eq. { eapply ptr_add_buf2; eauto; lia. }
      eapply run_eq1. { eapply mem_copy_buf; eauto; lia. }
      set (df := splice s (sub (s + k) n (splice s bs dg)) (splice s bs dg)).
      assert (Ls : zlen (sub (s + k) n (splice s bs dg)) = n) by (apply sub_len; lia).
      assert (Ldf : zlen df = zlen (splice s bs dg)) by (apply splice_len; lia).
      pose proof (shell_put _ _ _ _ df _ Sh3 Ldf) as Sh4. pose proof (shell_frame_put _ _ _ _ df _ Sh3) as Q4.
      unfold with_panic. ands.
      * eapply orep_repr. eapply shell_orep; eauto. fold pal. unfold df, dg, k, n, s. apply gap_restore; auto; lia.
      * eapply touch_trans; [exact AP|exact T3|apply touch_frame, Q4].
      * right. destruct Pr as [?|(-> & X & m & Hm & Pm)]; auto. right. split; [auto|]. split; [auto|]. exists m. split; auto.
        rewrite (proj2 Q12) in Hm. rewrite (proj2 Q4). auto.
    + intros w3 (X & m & Hm & Pm). right. split; auto. exists m. split; auto. rewrite (proj2 Q12) in Hm. auto.
  - intros r w' R' Q' Fl Re. unfold with_panic. ands; auto.
    + apply touch_frame, Q'.
    + left. ands; auto. * apply Q'. * apply RF. eapply frame_agree; [apply Q'|]. auto.
Qed.

Theorem v_insert_with_wp t self l o d w e S i :
  orep t self l o d w -> emits e S w -> good t (d_value S) -> fits t (d_lay S) (d_value S) -> nzst t \/ kind_of t = KSized ->
  can_align t o (vsize t (d_value S)) (valign t (d_value S)) -> apart self (d_fv S) (d_fb S) w ->
  (i <= length l)%nat ->
  (kind_of t = KUnaligned -> tail_ok t (req_al t o (valign t (d_value S))) l i) ->
  run (v_insert_with t self i e) w
    (fun _ w' => exists o' d', orep t self (insert_at i (d_value S) l) o' d' w' /\ touch self (d_fv S) (d_fb S) w w' /\
       w_drops w' = w_drops w ++ d_extra S /\ d_after S Delivered w' /\ o_al t o' = req_al t o (valign t (d_value S)) /\ stays t o l (d_value S) o')
    (with_panic t self l o S (ins_exact t) w)
    (fun w' => alloc_failed w w' \/ aborted S w w').
Proof.
  intros R [_ EM] G F Nz CA AP Li T.
  destruct (EM w (agree_refl _ _ _)) as (inner & post & w1 & Ee & Wi & D1 & RF & Wr & _ & _).
  pose proof (orep_within _ _ _ _ _ _ _ _ _ Wi R AP) as R1.
  assert (T1 : touch self (d_fv S) (d_fb S) w w1).
  { apply touch_within; auto. exists []. now rewrite app_nil_r. }
  pose proof (touch_apart _ _ _ _ _ T1 AP) as AP1.
  assert (NA : (w_nalloc w <= w_nalloc w1)%nat) by apply Wi.
  assert (DP : forall w', one_panicked (d_extra S) w1 w' -> one_panicked (d_extra S) w w').
  { intros w' (X & n & Hn & P). split; auto. exists n. rewrite D1 in Hn. auto. }
  assert (DA : forall w', aborted S w1 w' -> aborted S w w').
  { intros w' (X & n & Hn & P). split; auto. exists n. rewrite D1 in Hn. auto. }
  unfold v_insert_with. eapply run_eq. { eapply v_len_eq. eapply orep_repr; eauto. }
  rewrite (proj2 (Z.leb_le _ _)) by (unfold zlen; lia).
  destruct (p_insert_with_form t self i e) as (E & E1 & Ef). unfold run. erewrite E1 by eauto. rewrite Ee.
  assert (X : bind (E (d_lay S) (d_meta S) inner) (fun _ => post) w1
            = bind (ins_emplacer t self i (d_lay S) (d_meta S) inner) (fun _ => post) w1).
  { unfold bind. erewrite Ef by eauto. reflexivity. }
  rewrite X. apply run_sound. apply run_bind.
  eapply run_conseq; [eapply ins_emplacer_wp; eauto|..]; cbv beta.
  - intros _ w4 (o' & d' & R4 & T4 & AP4 & D4 & P4 & Al & St). destruct (P4 w4 (agree_refl _ _ _)) as (w5 & E5 & W5 & D5 & A5).
    eapply run_eq1; [exact E5|]. exists o', d'. ands; auto.
    + eapply orep_within; eauto.
    + eapply touch_trans; [exact AP|exact T1|]. eapply touch_trans; [exact AP1|exact T4|].
      apply touch_within; auto. exists []. now rewrite app_nil_r.
    + congruence.
    + apply A5, agree_refl.
  - intros r w' (Rr & Tt & Ca). unfold with_panic. ands; auto.
    + eapply touch_trans; eauto.
    + destruct Ca as [(Fl & Re & Dr & Af)|[Dp|[-> Dp]]]; auto.
      left. ands; auto; try congruence. unfold with_fails in *. destruct Fl as [?|[?|?]]; auto.
      right; right. eapply alloc_failed_l; eauto.
  - intros w' [AF|Dp]; auto. left. eapply alloc_failed_l; eauto.
Qed.

(** ** Plain [insert] *)

(** The data after shifting and writing. *)
Lemma insert_bytes t self l o d w x i :
  orep t self l o d w -> good t x -> room t o l x -> (i <= length l)%nat -> tail_ok t (o_pal o) l i ->
  let s := plen t (o_pal o) (firstn i l) in
  let k := psz t (o_pal o) x in
  let n := ulen t (o_pal o) l - s in
  let dg := gapped t (o_pal o) l i x d in
  let w2 := set_heap (hput (w_heap w) (o_ptr o) dg) w in
  let w3 := set_heap (hput (w_heap w2) (o_ptr o) (splice s (v_bytes x) dg)) w2 in
  ptr_add (padd (o_ptr o) s) k w = (Ok (padd (o_ptr o) (s + k)), w) /\
  mem_copy (padd (o_ptr o) s) (padd (o_ptr o) (s + k)) n w = (Ok tt, w2) /\
  mem_write (padd (o_ptr o) s) (v_bytes x) w2 = (Ok tt, w3) /\
  quiet self w w3 /\ shell t self o (splice s (v_bytes x) dg) w3 /\
  contents t (o_pal o) 0 (insert_at i x l) (splice s (v_bytes x) dg).
Proof.
  intros R G Rm Li T2. cbv zeta.
  pose proof (orep_shell _ _ _ _ _ _ R) as Sh. pose proof (orep_holds _ _ _ _ _ _ R) as Hh.
  pose proof (orep_good _ _ _ _ _ _ R) as Gl. pose proof (pow2_pos _ (orep_pal _ _ _ _ _ _ R)) as P.
  destruct (holds_insert t o l i x ltac:(apply Sh) Hh G Rm Li) as (Hi & Bp).
  pose proof (orep_buf _ _ _ _ _ _ R) as Bu. pose proof (buf_len _ _ _ _ _ Bu) as Ld.
  pose proof (orep_data _ _ _ _ _ _ R) as Dt.
  set (pal := o_pal o) in *. unfold tail_ok in T2.
  assert (Fd : plen t pal l + psz t pal x <= zlen d) by (unfold o_blen in Bp; fold pal in Bp; lia).
  destruct (gap_facts t pal l i x d P Gl G Li ltac:(lia) Fd) as (S0 & K0 & Kx & Bd & En & Lx & X0).
  assert (Lg : zlen (gapped t pal l i x d) = zlen d) by (apply gapped_len; auto; lia).
  assert (Lf : zlen (splice (plen t pal (firstn i l)) (v_bytes x) (gapped t pal l i x d)) = zlen (gapped t pal l i x d))
    by (apply splice_len; lia).
  pose proof (shell_put _ _ _ _ _ _ Sh Lg) as Shg. pose proof Shg as (_ & _ & Bug).
  ands.
  - eapply ptr_add_buf2; eauto; lia.
  - erewrite mem_copy_buf by (eauto; lia). reflexivity.
  - eapply mem_write_buf; eauto; lia.
  - eapply quiet_trans; eapply shell_frame_put; eauto.
  - eapply shell_put; eauto.
  - apply gap_fill; auto; lia.
Qed.

(** [insert_unchecked] adds the index, not the offset, to the buffer pointer (finding F1). *)
Definition index_is_offset (t : ty) (al : Z) (l : list value) (i : nat) : Prop :=
  kind_of t = KSized \/ plen t al (firstn i l) = Z.of_nat i.

Lemma p_insert_unchecked_eq t self l o d w x i :
  orep t self l o d w -> good t x -> room t o l x -> (i <= length l)%nat -> tail_ok t (o_pal o) l i ->
  index_is_offset t (o_pal o) l i ->
  exists d' w', p_insert_unchecked t self i x (vsize t x) w = (Ok tt, w') /\
    orep t self (insert_at i x l) (o_with t o (insert_at i x l)) d' w' /\ quiet self w w'.
Proof.
  intros R G Rm Li T2 IO.
  destruct (insert_bytes t self l o d w x i R G Rm Li T2) as (E1 & E2 & E3 & Q & Sh3 & Ct).
  pose proof (orep_shell _ _ _ _ _ _ R) as Sh. pose proof (orep_holds _ _ _ _ _ _ R) as Hh.
  pose proof (orep_with _ _ _ _ _ _ R) as Ew.
  destruct (holds_insert t o l i x ltac:(apply Sh) Hh G Rm Li) as (Hi & Bp).
  set (s := plen t (o_pal o) (firstn i l)) in *.
  pose proof (ins_finish_eq t self l o _ _ x i s Sh3 Ew Hh G Rm Li (fun _ => eq_refl)) as Fin.
  destruct (shell_set _ _ _ _ _ (insert_at i x l) Sh3) as (_ & Q4).
  match type of Fin with _ = (_, ?w') => exists (splice s (v_bytes x) (gapped t (o_pal o) l i x d)), w' end.
  ands; [|now apply shell_make|eapply quiet_trans; eauto].
  destruct (ins_place_eq t self l o d w x i R G Rm Li T2) as (s0 & Pl & Es).
  pose proof Rm as (Lr & Br & Ar). pose proof (orep_bcap_max _ _ _ _ _ _ R) as Bm.
  pose proof (orep_obj _ _ _ _ _ _ R) as Ob. pose proof (proj1 Sh3) as Ob3.
  pose proof (orep_good _ _ _ _ _ _ R) as Gl. pose proof (good_size t x G) as Sx.
  pose proof (pow2_pos _ (orep_pal _ _ _ _ _ _ R)) as P. pose proof (psz_nonneg t _ P x G) as K0.
  pose proof (plen_nonneg t _ P _ Gl) as L0.
  unfold p_insert_unchecked, ins_finish, ins_place in *. destruct o as [v|v|v|]; ocbn in *; try tauto.
  - rewrite (sr_kind _ _ _ _ _ _ R) in *. apply owned_eq.
    erewrite bind_eq in Fin by (eapply get_s_eq; eauto). erewrite bind_eq in Pl by (eapply get_s_eq; eauto).
    erewrite bind_eq by (eapply get_s_eq; eauto).
    erewrite bind_eq by (apply dassert_eq, Z.ltb_lt; rewrite (sr_slen _ _ _ _ _ _ R); auto).
    assert (Us : Z.of_nat i <= sv_len v) by (rewrite (sr_slen _ _ _ _ _ _ R); unfold zlen; lia).
    erewrite bind_eq by (apply usub_eq; auto).
    assert (Ps : psz t 1 x = 1 * s_size t) by (unfold psz; rewrite pad_1, vsize_sized by (auto; apply R); lia).
    assert (Es' : s = Z.of_nat i * s_size t) by (apply plen_firstn_sized; auto; apply R).
    assert (Fit : s <= sv_cap v * s_size t).
    { pose proof (plen_split t 1 l i). pose proof (plen_nonneg t 1 P _ (Forall_skipn' _ l i Gl)).
      unfold o_blen in Bp; ocbn in *. fold s in H. lia. }
    pose proof (plen_firstn_nonneg t 1 P l i Gl) as S0. fold s in S0.
    erewrite bind_eq by (unfold elem_add; eapply ptr_add_buf; [apply R|lia]).
    rewrite <- Es'. unfold elem_add. rewrite <- Ps. erewrite bind_eq by exact E1.
    replace ((sv_len v - Z.of_nat i) * s_size t) with (ulen t 1 l - s).
    2: { rewrite ulen_1, plen_sized, Es', (sr_slen _ _ _ _ _ _ R) by apply R. lia. }
    erewrite bind_eq by exact E2. erewrite bind_eq by exact E3. exact Fin.
  - rewrite (ar_kind _ _ _ _ _ _ R) in *. destruct IO as [IO|IO]; [destruct R; congruence|]. fold s in IO. apply owned_eq.
    erewrite bind_eq in Fin by (eapply get_a_eq; eauto). 
    erewrite bind_eq by (eapply get_a_eq; eauto). pose proof R as [].
    erewrite bind_eq by (apply dassert_eq, Z.ltb_lt; rewrite ar_infos, infos_of_zlen; auto).
    assert (BL : a_byte_len v = ulen t 1 l) by (unfold a_byte_len; rewrite ar_infos; apply last_end_infos).
    unfold o_blen in *; ocbn in *. pose proof (ulen_1 t l) as U1. unfold psz in *. rewrite pad_1 in *.
    pose proof (plen_firstn_nonneg t 1 P l i Gl) as S0. fold s in S0. unfold tail_ok in T2. fold s in T2.
    pose proof (pow2_pos _ (static_align_pow2 t ar_wf)).
    erewrite bind_eq by (apply dassert_eq, Z.leb_le; lia).
    cbv zeta. erewrite bind_eq by (eapply a_start_offset_eq; eauto). fold s.
    rewrite BL. erewrite bind_eq by (apply vs_unchecked_sub_eq; lia).
    rewrite <- IO. erewrite bind_eq by (eapply ptr_add_buf; eauto; lia).
    erewrite bind_eq by exact E1. erewrite bind_eq by exact E2. erewrite bind_eq by exact E3. exact Fin.
  - rewrite (ur_kind _ _ _ _ _ _ R) in *. destruct IO as [IO|IO]; [destruct R; congruence|]. fold s in IO. apply owned_eq.
    erewrite bind_eq in Fin by (eapply get_u_eq; eauto).
    erewrite bind_eq by (eapply get_u_eq; eauto). pose proof (u_byte_len_eq _ _ _ _ _ _ R) as UB. pose proof R as [].
    erewrite bind_eq by (apply dassert_eq, Nat.leb_le; rewrite ur_infos, infos_of_length; auto).
    erewrite bind_eq by (apply dassert_eq, Z.ltb_lt; rewrite ur_infos, infos_of_zlen; auto).
    assert (BL : u_unaligned_byte_len v = ulen t (uv_align v) l)
      by (unfold u_unaligned_byte_len; rewrite ur_infos; apply last_end_infos).
    unfold o_blen in *; ocbn in *. pose proof (ulen_le t _ P l) as U1. unfold psz in *.
    pose proof (plen_firstn_nonneg t _ P l i Gl) as S0. fold s in S0. unfold tail_ok in T2. fold s in T2.
    erewrite bind_eq by (apply unchecked_pad_to_spec; auto; lia).
    erewrite bind_eq.
    2: { destruct cfg_debug; [|reflexivity]. erewrite bind_eq by exact UB. apply dassert_eq, Z.leb_le. lia. }
    erewrite bind_eq by (apply dassert_eq, Z.leb_le; auto).
    cbv zeta. erewrite bind_eq by (eapply u_start_offset_eq; eauto; lia). fold s.
    rewrite BL. erewrite bind_eq by (apply vs_unchecked_sub_eq; lia).
    rewrite <- IO. erewrite bind_eq by (eapply ptr_add_buf; eauto; lia).
    erewrite bind_eq by exact E1. erewrite bind_eq by exact E2. erewrite bind_eq by exact E3. exact Fin.
Qed.

(** src/lib.rs:775-792 [insert]. *)
Theorem v_insert_wp t self l o d w x i :
  orep t self l o d w -> good t x -> nzst t -> can_align t o (vsize t x) (valign t x) -> (i <= length l)%nat ->
  let al := if match kind_of t with KUnaligned => true | _ => false end then req_al t o (valign t x) else 1 in
  tail_ok t al l i -> index_is_offset t al l i ->
  run (v_insert t self i x) w
    (fun _ w' => exists o' d', orep t self (insert_at i x l) o' d' w' /\ quiet self w w' /\
                               o_al t o' = req_al t o (valign t x) /\
                               exists o1 d1 w1, orep t self l o1 d1 w1 /\ reserve_post t self l o 1 (vsize t x) (valign t x) w ROk w1 /\
                                 o_cap t o' = o_cap t o1 /\ o_bcap t o' = o_bcap t o1)
    (add_panic t self l o x w)
    (fun w' => abort_ok w w').
Proof.
  intros R G Nz CA Li al T2 IO. unfold v_insert. apply run_bind.
  assert (Eq : owned x (len <- v_len t self ;;
                 (if Z.of_nat i <=? len then v_reserve_capacity_bytes_align t self 1 (vsize t x) (valign t x)
                  else panic PBounds)) w
             = owned x (v_reserve_capacity_bytes_align t self 1 (vsize t x) (valign t x)) w).
  { unfold owned, on_unwind. erewrite bind_eq by (eapply v_len_eq, orep_repr; eauto).
    rewrite (proj2 (Z.leb_le _ _)) by (unfold zlen; lia). reflexivity. }
  unfold run at 1. rewrite Eq. apply run_sound.
  eapply run_conseq; [eapply add_reserve_wp; eauto|..]; cbv beta; auto.
  intros [] w1 (o1 & d1 & R1 & Q1 & L1 & B1 & A1 & Al1 & Post).
  assert (Epal : o_pal o1 = al).
  { unfold al. destruct o1; ocbn in *; try tauto.
    - now rewrite (sr_kind _ _ _ _ _ _ R1). - now rewrite (ar_kind _ _ _ _ _ _ R1).
    - rewrite (ur_kind _ _ _ _ _ _ R1). auto. }
  destruct (p_insert_unchecked_eq t self l o1 d1 w1 x i R1 G) as (d' & w' & E & R' & Q'); auto.
  - unfold room. auto.
  - now rewrite Epal.
  - now rewrite Epal.
  - eapply run_eq1; [exact E|]. eexists _, _. ands; [exact R'|eapply quiet_trans; eauto|..].
    + destruct (o_with_same t o1 (insert_at i x l)) as (_ & _ & -> & _). auto.
    + exists o1, d1, w1. destruct (o_with_same t o1 (insert_at i x l)) as (S1 & S2 & _). auto.
Qed.
Lemma v_insert_oob t self l w x i : repr t self l w -> (length l < i)%nat ->
  run (v_insert t self i x) w (fun _ _ => False)
    (fun r w' => r = PBounds /\ w' = set_drops (w_drops w ++ [x]) w)
    (fun w' => drop_panicked w w').
Proof.
  intros R L. unfold v_insert. apply run_bind. unfold owned. apply run_on_unwind.
  eapply run_eq. { eapply v_len_eq; eauto. }
  destruct (Z.leb_spec (Z.of_nat i) (zlen l)). { unfold zlen in *; lia. }
  apply run_panic. apply run_drop_value; auto. intros E. now apply drop_panicked_1.
Qed.
Lemma v_insert_with_oob t self l w e S i : repr t self l w -> (length l < i)%nat -> emits e S w ->
  run (v_insert_with t self i e) w (fun _ _ => False)
    (fun r w' => r = PBounds /\ within (d_fv S) (d_fb S) w w' /\ w_drops w' = w_drops w ++ d_nulls S /\ d_after S Dropped w')
    (fun w' => one_panicked (d_nulls S) w w').
Proof.
  intros R L EM. unfold v_insert_with.
  eapply run_eq. { eapply v_len_eq; eauto. }
  destruct (Z.leb_spec (Z.of_nat i) (zlen l)). { unfold zlen in *; lia. }
  apply run_on_unwind, run_panic. eapply run_conseq; [eapply emplacable_drop_wp; eauto|..]; cbv beta; intros; tauto.
Qed.
End WithConfig.
