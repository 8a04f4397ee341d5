(** [pop_into] and [remove_into]: the emplacables they return satisfy the contract of Deal.v. *)
From Coq Require Import ZArith List Bool Lia.
From Verif Require Import Types World ValidSize Emplace SizedVec AlignedVec UnalignedVec Api Spec Bytes Arith Wp Mem Repr
  Access Reserve Realign Orep Push Deal PushWith Shell Insert Take.
Import ListNotations.
Open Scope Z_scope.
Open Scope m_scope.

Section WithConfig.
Context {C : Config}.

(** The layout a vector announces for an element: a statically aligned vector uses the static alignment. *)
Definition elem_layout (t : ty) (x : value) : layout :=
  Layout (vsize t x) (match kind_of t with KAligned => static_align t | _ => valign t x end).

Lemma firstn_mid {A} (a b : list A) : firstn (length a) (a ++ b) = a.
Proof. now rewrite firstn_app, firstn_all, Nat.sub_diag, app_nil_r. Qed.
Lemma skipn_mid {A} (a b : list A) : skipn (length a) (a ++ b) = b.
Proof. now rewrite skipn_app, skipn_all, Nat.sub_diag. Qed.
Lemma nth_mid {A} (a b : list A) x : nth_error (a ++ x :: b) (length a) = Some x.
Proof. now rewrite nth_error_app2, Nat.sub_diag by lia. Qed.
Lemma remove_mid {A} (a b : list A) x : remove_at (length a) (a ++ x :: b) = a ++ b.
Proof.
  unfold remove_at. rewrite firstn_mid. change (a ++ x :: b) with (a ++ [x] ++ b). rewrite app_assoc.
  replace (S (length a)) with (length (a ++ [x])) by (rewrite app_length; cbn; lia). now rewrite skipn_mid.
Qed.
Lemma remove_split {A} (l : list A) i x : nth_error l i = Some x ->
  exists a b, l = a ++ x :: b /\ i = length a /\ remove_at i l = a ++ b.
Proof.
  intros E. apply nth_error_split in E as (a & b & -> & <-). exists a, b. ands; auto. apply remove_mid.
Qed.
Lemma eref_mid t o a b x : eref t o (a ++ x :: b) (length a) x = Wide (padd (o_ptr o) (plen t (o_pal o) a)) (v_meta x).
Proof. unfold eref. now rewrite firstn_mid. Qed.

(** Footprint of a vector. *)
Lemma orep_foot t self l o d w w' : agree [self] (blocks (o_ptr o)) w w' -> orep t self l o d w -> orep t self l o d w'.
Proof.
  intros (A & B & _) R. eapply orep_agree; eauto. apply A; now left. intros b E. apply B. now apply in_blocks.
Qed.
Lemma shell_foot t self o d w w' : agree [self] (blocks (o_ptr o)) w w' -> shell t self o d w -> shell t self o d w'.
Proof.
  intros (A & B & _) R. eapply shell_agree; eauto. apply A; now left. intros b E. apply B. now apply in_blocks.
Qed.
Lemma orep_foot_lt t self l o d w b : orep t self l o d w -> In b (blocks (o_ptr o)) -> (b < length (w_heap w))%nat.
Proof.
  intros R I. apply in_blocks in I. eapply repr_owned_lt. eapply orep_repr; eauto.
  rewrite (orep_owned _ _ _ _ _ _ R). auto.
Qed.
Lemma within_set_vec self fb o w : within [self] fb w (set_vecs (upd (w_vecs w) self o) w).
Proof. unfold within. proj. ands; auto. - intros j N. apply upd_other. cbn in N; tauto. - apply upd_length. Qed.
Lemma holds_app t o a b : holds t o (a ++ b) -> core t o -> holds t o a.
Proof.
  intros (G & A & F & L) K. apply Forall_app in G as [G1 G2].
  assert (P : 0 < o_pal o).
  { destruct o; cbn [core] in K; ocbn; try lia. apply pow2_pos, K. }
  unfold holds, o_blen in *. rewrite plen_app in F. rewrite zlen_app in L. pose proof (plen_nonneg t _ P _ G2).
  pose proof (zlen_nonneg b). ands; auto; try lia. intros Ku. specialize (A Ku). now apply Forall_app in A.
Qed.
Lemma holds_mid t o a x b : holds t o (a ++ x :: b) -> core t o -> holds t o (a ++ b).
Proof.
  intros (G & A & F & L) K. apply Forall_app in G as [G1 G2]. inversion G2 as [|? ? Gx G3]; subst.
  assert (P : 0 < o_pal o).
  { destruct o; cbn [core] in K; ocbn; try lia. apply pow2_pos, K. }
  unfold holds, o_blen in *. rewrite plen_app in *. cbn [plen] in F. rewrite zlen_app in *. rewrite zlen_cons in L.
  pose proof (psz_nonneg t _ P _ Gx). ands; auto; try lia. apply Forall_app; auto.
  intros Ku. specialize (A Ku). apply Forall_app in A as [A1 A2]. inversion A2; subst. apply Forall_app; auto.
Qed.

(** ** Pop *)
Lemma pop_form t self l x o d w : orep t self (l ++ [x]) o d w ->
  forall E, p_pop_into_unchecked t self E w
    = E (elem_layout t x) (v_meta x) (take t (eref t o (l ++ [x]) (length l) x) (vsize t x))
        (set_vecs (upd (w_vecs w) self (o_with t o l)) w).
Proof.
  intros R E. pose proof (orep_good _ _ _ _ _ _ R) as G. apply Forall_app in G as [G Gx]. inversion_clear Gx as [|? ? Gx' _].
  pose proof (good_size t x Gx') as Sx. pose proof (orep_fit _ _ _ _ _ _ R) as Fit. unfold o_blen in Fit.
  pose proof (orep_bcap_max _ _ _ _ _ _ R) as Bm.
  pose proof (pow2_pos _ (orep_pal _ _ _ _ _ _ R)) as P. rewrite plen_app in Fit. cbn [plen] in Fit.
  pose proof (plen_nonneg t _ P _ G) as L0. pose proof (psz_ge t _ P x) as Px.
  pose proof (orep_buf _ _ _ _ _ _ R) as Bu. pose proof (orep_shell _ _ _ _ _ _ R) as Sh.
  pose proof (proj1 (shell_set _ _ _ _ _ l Sh)) as Sh1. pose proof (orep_behind _ _ _ _ _ _ _ _ R (nth_mid l [] x)) as B.
  set (w1 := set_vecs (upd (w_vecs w) self (o_with t o l)) w) in *.
  rewrite eref_mid in *. unfold p_pop_into_unchecked, elem_layout. destruct o as [v|v|v|]; ocbn in *; try tauto.
  - rewrite (sr_kind _ _ _ _ _ _ R). pose proof R as []. unfold s_pop_into_unchecked.
    erewrite bind_eq by (eapply get_s_eq; eauto). rewrite sr_slen, zlen_app. change (zlen [x]) with 1.
    pose proof (zlen_nonneg l). 
    erewrite bind_eq. 2: { apply dassert_eq. destruct (Z.eqb_spec (zlen l + 1) 0); [lia|reflexivity]. }
    erewrite bind_eq by (apply usub_eq; lia). replace (zlen l + 1 - 1) with (zlen l) by lia.
    erewrite bind_eq by reflexivity. fold (o_with t (OS v) l). change (o_with t (OS v) l) with (OS (SVec (sv_ptr v) (sv_cap v) (zlen l))) in w1.
    fold w1. rewrite (plen_sized t l) in * by auto.
    erewrite bind_eq by (unfold elem_add; eapply ptr_add_buf; [exact Bu|lia]).
    unfold s_take, take. rewrite <- (vsize_sized t x), (valign_sized t x) by auto.
    assert (Mx : v_meta x = MUnit). { clear -Gx' sr_kind. destruct t; try discriminate. destruct Gx' as [_ S]. cbn in S. auto. }
    rewrite Mx. reflexivity.
  - rewrite (ar_kind _ _ _ _ _ _ R). pose proof R as []. unfold a_pop_into_unchecked.
    erewrite bind_eq by (eapply get_a_eq; eauto). rewrite ar_infos, infos_of_snoc.
    erewrite bind_eq. 2: { apply dassert_eq. rewrite app_length. cbn [length]. now rewrite Nat.add_1_r. }
    rewrite rev_app_distr. cbn [rev app]. rewrite rev_involutive.
    erewrite bind_eq by reflexivity. unfold a_byte_len. cbn [av_infos av_ptr]. rewrite last_end_infos, ulen_1.
    cbn [info_of i_end i_rem].
    pose proof (pow2_pos _ (static_align_pow2 t ar_wf)) as Pa.
    erewrite bind_eq by (apply vs_unchecked_sub_eq; lia).
    erewrite bind_eq by (eapply ptr_add_buf; [exact Bu|lia]).
    rewrite Z.add_simpl_l. change (from_metadata t (v_meta x)) with (i_rem (info_of t 0 x)). rewrite info_meta by auto.
    reflexivity.
  - rewrite (ur_kind _ _ _ _ _ _ R). pose proof R as []. unfold u_pop_into_unchecked.
    erewrite bind_eq by (eapply get_u_eq; eauto). rewrite ur_infos, infos_of_snoc.
    erewrite bind_eq. 2: { apply dassert_eq. rewrite app_length. cbn [length]. now rewrite Nat.add_1_r. }
    rewrite rev_app_distr. cbn [rev app]. rewrite rev_involutive.
    erewrite bind_eq by reflexivity. cbn [uv_ptr].
    erewrite bind_eq.
    2: { unfold u_aligned_byte_len, u_unaligned_byte_len. cbn [uv_infos uv_align]. rewrite last_end_infos.
         apply unchecked_pad_to_spec; auto. apply ulen_nonneg; auto. rewrite pad_ulen by auto. lia. }
    rewrite pad_ulen by auto. cbn [info_of i_end i_rem].
    erewrite bind_eq by (apply vs_unchecked_sub_eq; lia).
    erewrite bind_eq by (eapply ptr_add_buf; [exact Bu|lia]).
    rewrite Z.add_simpl_l. change (from_metadata t (v_meta x)) with (i_rem (info_of t 0 x)). rewrite info_meta by auto.
    erewrite bind_eq. 2: { eapply behind_ref. exact B. }
    cbn [wm]. fold (valign t x).
    destruct Sh as (_ & (_ & _ & _ & _ & Bc & _) & _).
    pose proof (orep_holds t self _ (OU v) d w R) as (_ & Al & _). specialize (Al ur_kind). apply Forall_app in Al as [_ Al].
    inversion_clear Al as [|? ? Al' _]. ocbn in *.
    erewrite bind_eq. 2: { apply layout_unchecked_eq. lia. }
    reflexivity.
Qed.

Definition pop_deal (t : ty) (self : nat) (l : list value) (x : value) (o : obj) : deal :=
  Deal (v_meta x) (v_bytes x) (elem_layout t x) [self] (blocks (o_ptr o)) [x] [] (fun _ => False)
    (fun _ w => exists d, orep t self l (o_with t o l) d w).

Theorem pop_emits t self l x o d w : orep t self (l ++ [x]) o d w ->
  emits (fun E => p_pop_into_unchecked t self E) (pop_deal t self l x o) w.
Proof.
  intros R0. split. { intros b I. eapply orep_foot_lt; eauto. }
  intros w0 Ag0. cbn [d_fv d_fb pop_deal] in Ag0. pose proof (orep_foot _ _ _ _ _ _ _ Ag0 R0) as R. clear R0 Ag0 w. rename w0 into w.
  pose proof (pop_form _ _ _ _ _ _ _ R) as Ef. pose proof (orep_shell _ _ _ _ _ _ R) as Sh.
  pose proof (orep_behind _ _ _ _ _ _ _ _ R (nth_mid l [] x)) as B.
  assert (Hl : holds t o l). { eapply holds_app. eapply orep_holds; eauto. apply Sh. }
  assert (Ct : contents t (o_pal o) 0 l d). { pose proof (orep_data _ _ _ _ _ _ R) as X. now apply contents_app in X. }
  pose proof (shell_make _ _ _ _ _ _ Sh Hl Ct) as R1.
  set (w1 := set_vecs (upd (w_vecs w) self (o_with t o l)) w) in *.
  assert (Epp : o_ptr (o_with t o l) = o_ptr o) by apply o_with_same.
  assert (AF : forall w', agree [self] (blocks (o_ptr o)) w1 w' -> exists d, orep t self l (o_with t o l) d w').
  { intros w' A. exists d. eapply orep_foot; [|exact R1]. now rewrite Epp. }
  assert (PO : forall u, post_ok (pop_deal t self l x o) u (ret tt) w1) by (intros; now apply post_ok_ret).
  assert (Ev : d_value (pop_deal t self l x o) = x) by now destruct x.
  exists (take t (eref t o (l ++ [x]) (length l) x) (vsize t x)), (ret tt), w1.
  ands; cbn [d_fv d_fb d_lay d_meta d_after pop_deal]; auto.
  - intros E. rewrite bind_ret. apply Ef.
  - apply within_set_vec.
  - apply take_writes; rewrite ?Ev; auto. intros b. rewrite eref_mid. cbn [wp d_fb pop_deal]. rewrite padd_block. apply in_blocks.
  - apply take_nulls; rewrite ?Ev; auto. intros b. rewrite eref_mid. cbn [wp d_fb pop_deal]. rewrite padd_block. apply in_blocks.
Qed.

(** src/lib.rs:1043-1055 [pop_into]. *)
Theorem v_pop_into_empty t self w : repr t self [] w -> v_pop_into t self w = (Ok None, w).
Proof.
  intros R. unfold v_pop_into, v_is_empty. erewrite bind_eq. 2: { erewrite bind_eq by (eapply v_len_eq; eauto). reflexivity. }
  reflexivity.
Qed.
Theorem v_pop_into_some t self l x o d w : orep t self (l ++ [x]) o d w ->
  exists e, v_pop_into t self w = (Ok (Some e), w) /\ emits e (pop_deal t self l x o) w.
Proof.
  intros R. exists (fun E => p_pop_into_unchecked t self E). split; [|eapply pop_emits; eauto].
  unfold v_pop_into, v_is_empty.
  erewrite bind_eq. 2: { erewrite bind_eq by (eapply v_len_eq, orep_repr; eauto). reflexivity. }
  rewrite zlen_snoc. pose proof (zlen_nonneg l). destruct (Z.eqb_spec (zlen l + 1) 0); [lia|]. reflexivity.
Qed.

(** ** Remove *)

(** What follows the delivery. *)
Definition rem_post (t : ty) (self index : nat) (p : ptr) (start size k n : Z) : M unit :=
  match kind_of t with
  | KSized => q <- elem_add t p 1 ;; mem_copy q p n
  | KAligned =>
      v' <- get_a self ;;
      infos' <- infos_sub_from (static_align t) (firstn index (av_infos v') ++ skipn (S index) (av_infos v')) index size ;;
      set_obj self (OA (AVec (av_ptr v') (av_bcap v') infos' (av_icap v'))) ;;
      how_much <- vs_unchecked_sub (static_align t) (last_end infos') start ;;
      q <- ptr_add p size ;;
      mem_copy q p how_much
  | KUnaligned =>
      v' <- get_u self ;;
      infos' <- infos_sub_from 1 (firstn index (uv_infos v') ++ skipn (S index) (uv_infos v')) index k ;;
      set_obj self (OU (UVec (uv_ptr v') (uv_bcap v') infos' (uv_icap v') (uv_align v'))) ;;
      how_much <- vu_unchecked_sub (last_end infos') start ;;
      q <- ptr_add p k ;;
      mem_copy q p how_much
  end.
(** The object while the element is being delivered: std's [Vec] has already been shortened. *)
Definition rem_obj (t : ty) (o : obj) (a b : list value) (x : value) : obj :=
  match o with OS v => OS (SVec (sv_ptr v) (sv_cap v) (zlen (a ++ b))) | _ => o end.

Lemma rem_form t self a x b o d w : orep t self (a ++ x :: b) o d w ->
  forall E, p_remove_into_unchecked t self (length a) E w
    = bind (E (elem_layout t x) (v_meta x) (take t (eref t o (a ++ x :: b) (length a) x) (vsize t x)))
        (fun _ => rem_post t self (length a) (padd (o_ptr o) (plen t (o_pal o) a)) (plen t (o_pal o) a) (vsize t x)
                    (psz t (o_pal o) x) (zlen b * s_size t))
        (set_vecs (upd (w_vecs w) self (rem_obj t o a b x)) w).
Proof.
  intros R E. pose proof (orep_good _ _ _ _ _ _ R) as G. apply Forall_app in G as [G Gx]. inversion_clear Gx as [|? ? Gx' G2].
  pose proof (good_size t x Gx') as Sx. pose proof (orep_fit _ _ _ _ _ _ R) as Fit. unfold o_blen in Fit.
  pose proof (orep_bcap_max _ _ _ _ _ _ R) as Bm.
  pose proof (pow2_pos _ (orep_pal _ _ _ _ _ _ R)) as P. rewrite plen_app in Fit. cbn [plen] in Fit.
  pose proof (plen_nonneg t _ P _ G) as L0. pose proof (plen_nonneg t _ P _ G2) as L2. pose proof (psz_ge t _ P x) as Px.
  pose proof (orep_buf _ _ _ _ _ _ R) as Bu. pose proof (orep_shell _ _ _ _ _ _ R) as Sh.
  pose proof (orep_behind _ _ _ _ _ _ _ _ R (nth_mid a b x)) as B.
  rewrite eref_mid in *. unfold p_remove_into_unchecked, elem_layout, rem_post, rem_obj.
  destruct o as [v|v|v|]; ocbn in *; try tauto.
  - rewrite (sr_kind _ _ _ _ _ _ R). pose proof R as []. unfold s_remove_into_unchecked.
    erewrite bind_eq by (eapply get_s_eq; eauto). rewrite sr_slen, !zlen_app, zlen_cons.
    pose proof (zlen_nonneg a). pose proof (zlen_nonneg b). fold (zlen a).
    erewrite bind_eq. 2: { apply dassert_eq, Z.ltb_lt. lia. }
    erewrite bind_eq by (apply usub_eq; lia). replace (zlen a + (zlen b + 1) - 1) with (zlen a + zlen b) by lia.
    erewrite bind_eq by reflexivity. rewrite (plen_sized t a) in * by auto.
    erewrite bind_eq by (unfold elem_add; eapply ptr_add_buf; [exact Bu|lia]).
    erewrite bind_eq by (apply usub_eq; lia). replace (zlen a + zlen b - zlen a) with (zlen b) by lia.
    unfold s_take, take. rewrite <- (vsize_sized t x), (valign_sized t x) by auto.
    assert (Mx : v_meta x = MUnit). { clear -Gx' sr_kind. destruct t; try discriminate. destruct Gx' as [_ S]. cbn in S. auto. }
    rewrite Mx. reflexivity.
  - rewrite (ar_kind _ _ _ _ _ _ R). pose proof R as []. unfold a_remove_into_unchecked.
    rewrite set_vecs_same by auto.
    erewrite bind_eq by (eapply get_a_eq; eauto).
    erewrite bind_eq. 2: { apply dassert_eq, Nat.ltb_lt. rewrite ar_infos, infos_of_length, app_length. cbn; lia. }
    assert (Nt : nth_error (av_infos v) (length a) = Some (info_of t (plen t 1 a) x)).
    { rewrite ar_infos, infos_of_nth, nth_mid, firstn_mid. reflexivity. }
    rewrite Nt. cbn [info_of i_end i_rem].
    erewrite bind_eq. 2: { eapply a_start_offset_eq; eauto. rewrite app_length; lia. } rewrite firstn_mid.
    pose proof (pow2_pos _ (static_align_pow2 t ar_wf)) as Pa.
    erewrite bind_eq by (apply vs_unchecked_sub_eq; lia).
    erewrite bind_eq by (eapply ptr_add_buf; [exact Bu|lia]).
    rewrite Z.add_simpl_l. change (from_metadata t (v_meta x)) with (i_rem (info_of t 0 x)). rewrite info_meta by auto.
    reflexivity.
  - rewrite (ur_kind _ _ _ _ _ _ R). pose proof R as []. unfold u_remove_into_unchecked.
    rewrite set_vecs_same by auto.
    erewrite bind_eq by (eapply get_u_eq; eauto).
    erewrite bind_eq. 2: { apply dassert_eq, Nat.ltb_lt. rewrite ur_infos, infos_of_length, app_length. cbn; lia. }
    assert (Nt : nth_error (uv_infos v) (length a) = Some (info_of t (plen t (uv_align v) a) x)).
    { rewrite ur_infos, infos_of_nth, nth_mid, firstn_mid. reflexivity. }
    rewrite Nt. cbn [info_of i_end i_rem].
    erewrite bind_eq. 2: { eapply u_start_offset_eq; eauto. rewrite plen_app; cbn [plen]; lia. rewrite app_length; lia. } rewrite firstn_mid.
    erewrite bind_eq by (apply vs_unchecked_sub_eq; lia). rewrite Z.add_simpl_l.
    erewrite bind_eq by (apply unchecked_pad_to_spec; unfold psz in *; auto; lia).
    erewrite bind_eq by (eapply ptr_add_buf; [exact Bu|lia]).
    change (from_metadata t (v_meta x)) with (i_rem (info_of t 0 x)). rewrite info_meta by auto.
    erewrite bind_eq. 2: { eapply behind_ref. exact B. }
    cbn [wm]. fold (valign t x).
    destruct Sh as (_ & (_ & _ & _ & _ & Bc & _) & _).
    pose proof (orep_holds t self _ (OU v) d w R) as (_ & Al & _). specialize (Al ur_kind). apply Forall_app in Al as [_ Al].
    inversion_clear Al as [|? ? Al' _]. ocbn in *.
    erewrite bind_eq. 2: { apply layout_unchecked_eq. lia. }
    reflexivity.
Qed.

Lemma infos_sub_eq va t al a x b w : 0 < al -> 1 <= va -> Forall (good t) (a ++ x :: b) ->
  plen t al (a ++ x :: b) <= isize_max - (va - 1) ->
  infos_sub_from va (firstn (length a) (infos_of t al 0 (a ++ x :: b)) ++ skipn (S (length a)) (infos_of t al 0 (a ++ x :: b)))
    (length a) (psz t al x) w = (Ok (infos_of t al 0 (a ++ b)), w).
Proof.
  intros P V G Bd. rewrite plen_app in Bd. cbn [plen] in Bd. pose proof G as G'. apply Forall_app in G' as [G1 G2]. inversion G2 as [|? ? Gx G3]; subst.
  rewrite infos_of_app. cbn [infos_of]. rewrite Z.add_0_l.
  replace (length a) with (length (infos_of t al 0 a)) at 1 by apply infos_of_length. rewrite firstn_mid.
  replace (S (length a)) with (length (infos_of t al 0 a ++ [info_of t (plen t al a) x])).
  2: { rewrite app_length, infos_of_length. cbn; lia. }
  change (info_of t (plen t al a) x :: infos_of t al (plen t al a + psz t al x) b)
    with ([info_of t (plen t al a) x] ++ infos_of t al (plen t al a + psz t al x) b).
  rewrite app_assoc, skipn_mid. unfold infos_sub_from.
  rewrite (proj2 (Nat.leb_le _ _)) by (rewrite app_length, infos_of_length; lia).
  replace (length a) with (length (infos_of t al 0 a)) by apply infos_of_length. rewrite skipn_mid, firstn_mid.
  erewrite bind_eq.
  2: { apply (mapM_map _ (fun i => Info (i_rem i) (i_end i + - psz t al x))). intros i I.
       apply In_nth_error in I as [k E]. rewrite infos_of_nth in E.
       destruct (nth_error b k) as [y|] eqn:Ey; [|discriminate]. injection E as <-.
       pose proof (good_nth _ _ _ _ G3 Ey) as Gy. pose proof (good_size t y Gy). pose proof (psz_nonneg t al P x Gx).
       pose proof (plen_nonneg t al P a G1). pose proof (plen_firstn_nonneg t al P b k G3).
       destruct (plen_firstn_le t al P b k y G3 Ey) as [Hp _]. pose proof (psz_ge t al P y).
       erewrite bind_eq. 2: { apply vs_unchecked_sub_eq; cbn [info_of i_end]; lia. }
       reflexivity. }
  rewrite infos_shift. rewrite infos_of_app. unfold ret. do 4 f_equal. lia.
Qed.

(** Closing the gap. *)
Lemma close_gap t al a x b d : 0 < al -> Forall (good t) (a ++ x :: b) -> contents t al 0 (a ++ x :: b) d ->
  plen t al (a ++ x :: b) <= zlen d -> plen t al a <= ulen t al (a ++ b) ->
  let s := plen t al a in let n := ulen t al (a ++ b) - s in
  n = ulen t al b /\ s + psz t al x + n <= zlen d /\
  contents t al 0 (a ++ b) (splice s (sub (s + psz t al x) n d) d).
Proof.
  intros P G D F T. cbv zeta. pose proof G as G'. apply Forall_app in G' as [G1 G2]. inversion G2 as [|? ? Gx G3]; subst.
  rewrite plen_app in F. cbn [plen] in F. pose proof (plen_nonneg t al P a G1). pose proof (psz_nonneg t al P x Gx).
  pose proof (ulen_le t al P b). pose proof (ulen_le t al P a). pose proof (ulen_nonneg t al P b G3).
  assert (N : ulen t al (a ++ b) - plen t al a = ulen t al b).
  { destruct b. - rewrite app_nil_r in *. cbn [ulen]. lia. - rewrite ulen_app by discriminate. lia. }
  rewrite N. ands; auto; try lia. apply contents_app in D as [D1 D2]. cbn [contents] in D2. destruct D2 as [_ D2].
  rewrite Z.add_0_l in D2.
  assert (L : zlen (sub (plen t al a + psz t al x) (ulen t al b) d) = ulen t al b) by (apply sub_len; lia).
  apply contents_app. rewrite Z.add_0_l. split.
  - apply contents_splice_before; auto; lia.
  - apply (contents_move t al P (plen t al a + psz t al x) (plen t al a) b d); auto; try lia.
    + rewrite splice_len; lia.
    + symmetry. rewrite sub_splice_same; auto; lia.
Qed.

Lemma rem_post_eq t self a x b o d w : orep t self (a ++ x :: b) o d w -> plen t (o_pal o) a <= ulen t (o_pal o) (a ++ b) ->
  forall w4, agree [self] (blocks (o_ptr o)) (set_vecs (upd (w_vecs w) self (rem_obj t o a b x)) w) w4 ->
  exists d5 w5, rem_post t self (length a) (padd (o_ptr o) (plen t (o_pal o) a)) (plen t (o_pal o) a) (vsize t x)
                    (psz t (o_pal o) x) (zlen b * s_size t) w4 = (Ok tt, w5) /\
    within [self] (blocks (o_ptr o)) w4 w5 /\ w_drops w5 = w_drops w4 /\
    orep t self (a ++ b) (o_with t o (a ++ b)) d5 w5.
Proof.
  intros R T w4 A4. pose proof (orep_good _ _ _ _ _ _ R) as G. pose proof G as G'. apply Forall_app in G' as [G1 Gx].
  inversion_clear Gx as [|? ? Gx' G2].
  pose proof (good_size t x Gx') as Sx. pose proof (orep_fit _ _ _ _ _ _ R) as Fit. unfold o_blen in Fit.
  pose proof (orep_bcap_max _ _ _ _ _ _ R) as Bm. pose proof (pow2_pos _ (orep_pal _ _ _ _ _ _ R)) as P.
  pose proof (orep_shell _ _ _ _ _ _ R) as Sh. pose proof (orep_buf _ _ _ _ _ _ R) as Bu. pose proof (buf_len _ _ _ _ _ Bu) as Ld.
  pose proof (orep_data _ _ _ _ _ _ R) as D. pose proof (holds_mid _ _ _ _ _ (orep_holds _ _ _ _ _ _ R) ltac:(apply Sh)) as Hm.
  destruct (close_gap t (o_pal o) a x b d P G D ltac:(lia) T) as (En & Bd & Ct).
  pose proof (plen_nonneg t _ P a G1) as L0. pose proof (psz_nonneg t _ P x Gx') as K0.
  assert (N0 : 0 <= ulen t (o_pal o) b) by (apply ulen_nonneg; auto).
  set (s := plen t (o_pal o) a) in *. set (k := psz t (o_pal o) x) in *. set (n := ulen t (o_pal o) (a ++ b) - s) in *.
  assert (Sh4 : shell t self (rem_obj t o a b x) d w4).
  { eapply shell_foot. { replace (o_ptr (rem_obj t o a b x)) with (o_ptr o) by (destruct o; reflexivity). exact A4. }
    destruct o as [v|v|v|]; cbn [rem_obj].
    - change (OS (SVec (sv_ptr v) (sv_cap v) (zlen (a ++ b)))) with (o_with t (OS v) (a ++ b)). now apply shell_set.
    - pose proof (proj1 Sh) as E0. now rewrite set_vecs_same by auto.
    - pose proof (proj1 Sh) as E0. now rewrite set_vecs_same by auto.
    - destruct Sh as (_ & [] & _). }
  pose proof (proj1 Sh4) as Ob4.
  (* bookkeeping, then the bytes *)
  assert (Step : forall w6, shell t self (o_with t o (a ++ b)) d w6 ->
     ptr_add (padd (o_ptr o) s) k w6 = (Ok (padd (o_ptr o) (s + k)), w6) /\
     exists w7, mem_copy (padd (o_ptr o) (s + k)) (padd (o_ptr o) s) n w6 = (Ok tt, w7) /\
       within [self] (blocks (o_ptr o)) w6 w7 /\ w_drops w7 = w_drops w6 /\
       orep t self (a ++ b) (o_with t o (a ++ b)) (splice s (sub (s + k) n d) d) w7).
  { intros w6 Sh6. pose proof Sh6 as (_ & _ & B6).
    destruct (o_with_same t o (a ++ b)) as (_ & E1 & E2 & E3 & E4). rewrite E1, E2, E4 in B6. split.
    - eapply ptr_add_buf2; eauto; lia.
    - eexists. split. { eapply mem_copy_buf; eauto; lia. }
      assert (Ls : zlen (sub (s + k) n d) = n) by (apply sub_len; lia).
      ands; auto.
      + unfold within. proj. ands; auto. now rewrite hput_length. intros c Nc. apply hput_other. rewrite <- in_blocks. auto.
      + apply shell_orep.
        * rewrite <- E4. apply (shell_put _ _ _ d); auto. apply splice_len; lia.
        * apply o_with_twice.
        * now apply holds_with.
        * now rewrite E3. }
  assert (Setw : forall oo w', within [self] (blocks oo) w' (set_vecs (upd (w_vecs w') self (o_with t o (a ++ b))) w'))
    by (intros; apply within_set_vec).
  unfold rem_post. destruct o as [v|v|v|]; cbn [rem_obj] in *; ocbn in *; try tauto.
  - rewrite (sr_kind _ _ _ _ _ _ R). destruct (Step w4 Sh4) as (E1 & w7 & E2 & W7 & D7 & R7).
    exists (splice s (sub (s + k) n d) d), w7. ands; auto. unfold elem_add.
    replace (1 * s_size t) with k. 2: { unfold k, psz. rewrite pad_1, vsize_sized by (auto; apply R). lia. }
    erewrite bind_eq by exact E1. replace (zlen b * s_size t) with n; auto.
    rewrite En, ulen_1, plen_sized by (auto; apply R). lia.
  - rewrite (ar_kind _ _ _ _ _ _ R). pose proof R as [].
    destruct (shell_set _ _ _ _ _ (a ++ b) Sh4) as [Sh6 Q6].
    destruct (Step _ Sh6) as (E1 & w7 & E2 & W7 & D7 & R7).
    exists (splice s (sub (s + k) n d) d), w7. ands; auto.
    2: { eapply within_trans; [apply Setw|exact W7]. }
    erewrite bind_eq by (eapply get_a_eq; eauto). rewrite ar_infos.
    pose proof (pow2_pos _ (static_align_pow2 t ar_wf)) as Pa.
    replace (vsize t x) with k by (unfold k, psz; now rewrite pad_1).
    erewrite bind_eq by (apply infos_sub_eq; auto; lia).
    erewrite bind_eq by reflexivity. rewrite last_end_infos.
    erewrite bind_eq by (apply vs_unchecked_sub_eq; lia).
    erewrite bind_eq by exact E1. exact E2.
  - rewrite (ur_kind _ _ _ _ _ _ R). pose proof R as [].
    destruct (shell_set _ _ _ _ _ (a ++ b) Sh4) as [Sh6 Q6].
    destruct (Step _ Sh6) as (E1 & w7 & E2 & W7 & D7 & R7).
    exists (splice s (sub (s + k) n d) d), w7. ands; auto.
    2: { eapply within_trans; [apply Setw|exact W7]. }
    erewrite bind_eq by (eapply get_u_eq; eauto). rewrite ur_infos.
    erewrite bind_eq by (apply infos_sub_eq; auto; lia).
    erewrite bind_eq by reflexivity. rewrite last_end_infos.
    erewrite bind_eq by (apply vs_unchecked_sub_eq; lia).
    erewrite bind_eq by exact E1. exact E2.
Qed.

(** What [remove_into] of element [length a] does. If the emplacer unwinds, the aligned and the unaligned vector still hold
    every element; std's [Vec] has been shortened, so it is the last element that is no longer shown. *)
Definition rem_deal (t : ty) (self : nat) (a : list value) (x : value) (b : list value) (o : obj) : deal :=
  Deal (v_meta x) (v_bytes x) (elem_layout t x) [self] (blocks (o_ptr o)) [x] [] (fun _ => False)
    (fun u w => match u with
                | Refused => let l := match kind_of t with KSized => removelast (a ++ x :: b) | _ => a ++ x :: b end in
                             exists d, orep t self l (o_with t o l) d w
                | _ => exists d, orep t self (a ++ b) (o_with t o (a ++ b)) d w
                end).

Lemma removelast_zlen {A} (a b : list A) x : zlen (removelast (a ++ x :: b)) = zlen (a ++ b).
Proof.
  destruct (@exists_last _ (a ++ x :: b)) as (l & y & E). { destruct a; discriminate. }
  rewrite E, removelast_last. apply (f_equal (@length _)) in E. rewrite !app_length in E. cbn [length] in E.
  unfold zlen. rewrite app_length. lia.
Qed.

Theorem rem_emits t self a x b o d w : orep t self (a ++ x :: b) o d w ->
  (kind_of t = KUnaligned -> tail_ok t (o_pal o) (a ++ b) (length a)) ->
  emits (fun E => p_remove_into_unchecked t self (length a) E) (rem_deal t self a x b o) w.
Proof.
  intros R0 T0. assert (T : plen t (o_pal o) a <= ulen t (o_pal o) (a ++ b)).
  { unfold tail_ok in T0. rewrite firstn_mid in T0. pose proof (orep_good _ _ _ _ _ _ R0) as G.
    apply Forall_app in G as [G1 G2]. inversion_clear G2 as [|? ? _ G3].
    assert (X : plen t 1 a <= ulen t 1 (a ++ b)).
    { rewrite ulen_1, plen_app. pose proof (plen_nonneg t 1 ltac:(lia) b G3). lia. }
    destruct o; ocbn in *; try tauto. apply T0. apply (ur_kind _ _ _ _ _ _ R0). }
  clear T0. split. { intros c I. eapply orep_foot_lt; eauto. }
  intros w0 Ag0. cbn [d_fv d_fb rem_deal] in Ag0. pose proof (orep_foot _ _ _ _ _ _ _ Ag0 R0) as R. clear R0 Ag0 w. rename w0 into w.
  pose proof (rem_form _ _ _ _ _ _ _ _ R) as Ef. pose proof (orep_shell _ _ _ _ _ _ R) as Sh.
  pose proof (orep_behind _ _ _ _ _ _ _ _ R (nth_mid a b x)) as B.
  pose proof (rem_post_eq _ _ _ _ _ _ _ _ R T) as Po.
  set (w1 := set_vecs (upd (w_vecs w) self (rem_obj t o a b x)) w) in *.
  set (post := rem_post _ _ _ _ _ _ _ _) in *.
  assert (PO : forall u, u <> Refused -> post_ok (rem_deal t self a x b o) u post w1).
  { intros u Nu w4 A4. destruct (Po w4 A4) as (d5 & w5 & E5 & W5 & D5 & R5). exists w5. ands; auto.
    intros w6 A6. cbn [d_fv d_fb d_after rem_deal] in *.
    assert (exists d, orep t self (a ++ b) (o_with t o (a ++ b)) d w6).
    { exists d5. eapply orep_foot; [|exact R5]. destruct (o_with_same t o (a ++ b)) as (_ & _ & _ & _ & ->). auto. }
    destruct u; auto. congruence. }
  assert (Ev : d_value (rem_deal t self a x b o) = x) by now destruct x.
  exists (take t (eref t o (a ++ x :: b) (length a) x) (vsize t x)), post, w1.
  ands; cbn [d_fv d_fb d_lay d_meta d_after rem_deal]; auto.
  - apply within_set_vec.
  - intros w' A'. set (l := match kind_of t with KSized => _ | _ => _ end).
    assert (R1 : orep t self l (o_with t o l) d w1).
    { pose proof (orep_with _ _ _ _ _ _ R) as Ew. pose proof (orep_obj _ _ _ _ _ _ R) as Ob.
      destruct o as [v|v|v|].
      - assert (K : kind_of t = KSized) by (apply (sr_kind _ _ _ _ _ _ R)).
        assert (Eq : o_with t (OS v) l = OS (SVec (sv_ptr v) (sv_cap v) (zlen (a ++ b)))).
        { unfold l. rewrite K. cbn [o_with]. now rewrite removelast_zlen. }
        unfold w1. cbn [rem_obj]. rewrite <- Eq.
        destruct (@exists_last _ (a ++ x :: b)) as (l' & y & E). { destruct a; discriminate. }
        assert (El : l = l') by (unfold l; rewrite K, E; apply removelast_last). rewrite El.
        apply shell_make; auto.
        + eapply holds_app. rewrite <- E. eapply orep_holds; eauto. apply Sh.
        + pose proof (orep_data _ _ _ _ _ _ R) as X. rewrite E in X. now apply contents_app in X.
      - unfold l. rewrite (ar_kind _ _ _ _ _ _ R), Ew. unfold w1. cbn [rem_obj]. now rewrite set_vecs_same by auto.
      - unfold l. rewrite (ur_kind _ _ _ _ _ _ R), Ew. unfold w1. cbn [rem_obj]. now rewrite set_vecs_same by auto.
      - destruct R. }
    exists d. eapply orep_foot; [|exact R1]. destruct (o_with_same t o l) as (_ & _ & _ & _ & ->). auto.
  - apply take_writes; rewrite ?Ev; auto.
    + intros c. rewrite eref_mid. cbn [wp d_fb rem_deal]. rewrite padd_block. apply in_blocks.
    + apply PO; discriminate.
  - apply take_nulls; rewrite ?Ev; auto.
    + intros c. rewrite eref_mid. cbn [wp d_fb rem_deal]. rewrite padd_block. apply in_blocks.
    + apply PO; discriminate.
  - apply PO; discriminate.
Qed.

(** src/lib.rs:889-907 [remove_into]. *)
Theorem v_remove_into_some t self l o d w i x : orep t self l o d w -> nth_error l i = Some x ->
  (kind_of t = KUnaligned -> tail_ok t (o_pal o) (remove_at i l) i) ->
  exists e, v_remove_into t self i w = (Ok e, w) /\ emits e (rem_deal t self (firstn i l) x (skipn (S i) l) o) w.
Proof.
  intros R E T. exists (fun E => p_remove_into_unchecked t self i E). split.
  - unfold v_remove_into. erewrite bind_eq by (eapply v_len_eq, orep_repr; eauto).
    rewrite (proj2 (Z.ltb_lt _ _)). reflexivity. apply nth_error_lt in E. unfold zlen; lia.
  - assert (Li : length (firstn i l) = i) by (apply nth_error_lt in E; rewrite firstn_length; lia).
    assert (El : l = firstn i l ++ x :: skipn (S i) l).
    { clear -E. revert i E; induction l; intros [|i] E; try discriminate. - injection E as ->. reflexivity. - cbn. f_equal. now apply IHl. }
    pose proof (rem_emits t self (firstn i l) x (skipn (S i) l) o d w) as X. rewrite Li, <- El in X. apply X; auto.
Qed.
Theorem v_remove_into_oob t self l w i : repr t self l w -> (length l <= i)%nat ->
  v_remove_into t self i w = (Panic PBounds, w).
Proof.
  intros R L. unfold v_remove_into. erewrite bind_eq by (eapply v_len_eq; eauto).
  destruct (Z.ltb_spec (Z.of_nat i) (zlen l)); [unfold zlen in *; lia|reflexivity].
Qed.
End WithConfig.
