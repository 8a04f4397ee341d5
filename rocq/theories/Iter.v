(** Iterators: every item is the reference to its element; which call sequences are right. *)
From Coq Require Import ZArith List Bool Lia.
From Verif Require Import Types World ValidSize Emplace SizedVec AlignedVec UnalignedVec Api Spec Bytes Arith Wp Mem Repr
  Access Reserve Realign Orep Push Deal PushWith Shell Insert Take Pop.
Import ListNotations.
Open Scope Z_scope.
Open Scope m_scope.

(** The reference to the element behind the prefix [a]. *)
Definition iref (t : ty) (o : obj) (a : list value) (x : value) : wide :=
  Wide (padd (o_ptr o) (plen t (o_pal o) a)) (v_meta x).

(** The iterator still has to yield the elements [m], which stand behind the prefix [a]. *)
Definition covers (t : ty) (o : obj) (a m : list value) (it : viter) : Prop :=
  match it, o with
  | VS it, OS v => it = SIter (sv_ptr v) (zlen a) (zlen a + zlen m)
  | VA it, OA v => ai_infos it = infos_of t 1 (plen t 1 a) m /\ ai_ptr it = av_ptr v /\
                   (m <> [] -> ai_start it = plen t 1 a)
  | VU it, OU v => ui_infos it = infos_of t (uv_align v) (plen t (uv_align v) a) m /\ ui_ptr it = uv_ptr v /\
                   (m <> [] -> ui_start it = plen t (uv_align v) a) /\ ui_align it = uv_align v
  | _, _ => False
  end.

(** [next_back], [nth(0)] and [last] compute the start of the item from the previous remaining entry, taking 0 when there
    is none: right only if the item really starts at offset 0. *)
Definition starts_at_0 (t : ty) (o : obj) (a : list value) : Prop := kind_of t = KSized \/ plen t (o_pal o) a = 0.

Section WithConfig.
Context {C : Config}.

Section Items.
Context (t : ty) (self : nat) (l : list value) (o : obj) (d : list byte) (w : world).
Hypothesis R : orep t self l o d w.

Lemma split_good a x b : l = a ++ x :: b -> Forall (good t) a /\ good t x /\ Forall (good t) b.
Proof.
  intros E. pose proof (orep_good _ _ _ _ _ _ R) as G. rewrite E in G. apply Forall_app in G as [G1 G2].
  inversion G2; auto.
Qed.
Lemma split_fit a x b : l = a ++ x :: b -> 0 <= plen t (o_pal o) a /\ 0 <= vsize t x <= psz t (o_pal o) x /\
  plen t (o_pal o) a + psz t (o_pal o) x <= o_bcap t o /\ o_bcap t o <= isize_max - (o_al t o - 1) /\ 0 < o_al t o.
Proof.
  intros E. destruct (split_good _ _ _ E) as (Ga & Gx & Gb). pose proof (pow2_pos _ (orep_pal _ _ _ _ _ _ R)) as P.
  pose proof (orep_fit _ _ _ _ _ _ R) as F. unfold o_blen in F. rewrite E, plen_app in F. cbn [plen] in F.
  pose proof (plen_nonneg t _ P _ Ga). pose proof (plen_nonneg t _ P _ Gb). pose proof (psz_ge t _ P x).
  pose proof (good_size t x Gx). pose proof (orep_bcap _ _ _ _ _ _ R). pose proof (pow2_pos _ (orep_al _ _ _ _ _ _ R)).
  ands; lia.
Qed.
Lemma iref_behind a x b : l = a ++ x :: b -> behind t (iref t o a x) x (w_heap w).
Proof.
  intros E. pose proof (orep_behind t self l o d w (length a) x R) as B. rewrite E in B at 1. rewrite nth_mid in B.
  specialize (B eq_refl). rewrite E in B. rewrite eref_mid in B. exact B.
Qed.
Lemma make_iref a x b : l = a ++ x :: b -> make_ref t (iref t o a x) w = (Ok (iref t o a x), w).
Proof. intros E. eapply behind_ref, iref_behind; eauto. Qed.

Lemma a_item_eq v a x b : o = OA v -> l = a ++ x :: b ->
  a_item t (av_ptr v) (plen t 1 a) (info_of t (plen t 1 a) x) w = (Ok (iref t o a x), w).
Proof.
  intros Eo E. destruct (split_fit _ _ _ E) as (A & S & F & B & P). destruct (split_good _ _ _ E) as (_ & Gx & _).
  pose proof (make_iref _ _ _ E) as MR. pose proof (orep_buf _ _ _ _ _ _ R) as Bu. subst o. ocbn in *.
  unfold a_item. cbn [info_of i_end i_rem].
  erewrite bind_eq by (apply vs_unchecked_sub_eq; lia).
  erewrite bind_eq by (eapply ptr_add_buf; eauto; lia). rewrite Z.add_simpl_l. rewrite (proj2 Gx). exact MR.
Qed.
Lemma u_item_eq v a x b : o = OU v -> l = a ++ x :: b ->
  u_item t (uv_ptr v) (plen t (uv_align v) a) (info_of t (plen t (uv_align v) a) x) w = (Ok (iref t o a x), w).
Proof.
  intros Eo E. destruct (split_fit _ _ _ E) as (A & S & F & B & P). destruct (split_good _ _ _ E) as (_ & Gx & _).
  pose proof (make_iref _ _ _ E) as MR. pose proof (orep_buf _ _ _ _ _ _ R) as Bu. subst o. ocbn in *.
  unfold u_item. cbn [info_of i_end i_rem].
  erewrite bind_eq by (apply vs_unchecked_sub_eq; lia).
  erewrite bind_eq by (eapply ptr_add_buf; eauto; lia). rewrite Z.add_simpl_l. rewrite (proj2 Gx). exact MR.
Qed.
Lemma s_item_eq v lo hi a x b : o = OS v -> l = a ++ x :: b ->
  s_item t (SIter (sv_ptr v) lo hi) (zlen a) w = (Ok (iref t o a x), w).
Proof.
  intros Eo E. destruct (split_fit _ _ _ E) as (A & S & F & B & P). destruct (split_good _ _ _ E) as (Ga & Gx & _).
  pose proof (make_iref _ _ _ E) as MR. pose proof (orep_buf _ _ _ _ _ _ R) as Bu. subst o. ocbn in *.
  unfold s_item, elem_add. cbn [si_ptr]. rewrite <- plen_sized by (auto; apply R).
  erewrite bind_eq by (eapply ptr_add_buf; eauto; lia). 
  unfold iref in *. ocbn in *. rewrite (good_sized t x (sr_kind _ _ _ _ _ _ R) Gx) in *. exact MR.
Qed.
(** Where the element behind [a ++ [x]] starts. *)
Lemma pad_end v a x b w' : o = OU v -> l = a ++ x :: b ->
  unchecked_pad_to (plen t (uv_align v) a + vsize t x) (uv_align v) w' = (Ok (plen t (uv_align v) (a ++ [x])), w').
Proof.
  intros Eo E. destruct (split_fit _ _ _ E) as (A & S & F & B & P). pose proof (orep_pal _ _ _ _ _ _ R) as Pp. subst o. ocbn in *.
  assert (Q : pad (plen t (uv_align v) a + vsize t x) (uv_align v) = plen t (uv_align v) (a ++ [x])).
  { rewrite plen_app. cbn [plen]. rewrite Z.add_0_r. apply pad_add; auto. apply plen_mod; auto. }
  rewrite unchecked_pad_to_spec; auto; try lia. now rewrite Q.
  rewrite Q, plen_app. cbn [plen]. lia.
Qed.

End Items.

Lemma v_iter_eq t self l o d w : orep t self l o d w -> exists it, v_iter t self w = (Ok it, w) /\ covers t o [] l it /\ v_iter_len it = length l.
Proof.
  intros R. unfold v_iter. destruct o as [v|v|v|]; ocbn in *; try tauto.
  - rewrite (sr_kind _ _ _ _ _ _ R). unfold s_iter. eexists. ands.
    + erewrite bind_eq by (erewrite bind_eq by (eapply get_s_eq, R); reflexivity). reflexivity.
    + cbn [covers]. now rewrite (sr_slen _ _ _ _ _ _ R).
    + cbn [v_iter_len si_hi si_lo]. rewrite (sr_slen _ _ _ _ _ _ R). unfold zlen. lia.
  - rewrite (ar_kind _ _ _ _ _ _ R). unfold a_iter. eexists. ands.
    + erewrite bind_eq by (erewrite bind_eq by (eapply get_a_eq, R); reflexivity). reflexivity.
    + cbn [covers ai_infos ai_ptr ai_start plen]. ands; auto. apply R.
    + cbn [v_iter_len ai_infos]. rewrite (ar_infos _ _ _ _ _ _ R). apply infos_of_length.
  - rewrite (ur_kind _ _ _ _ _ _ R). unfold u_iter, u_iter_of. eexists. ands.
    + erewrite bind_eq by (erewrite bind_eq by (eapply get_u_eq, R); reflexivity). reflexivity.
    + cbn [covers ui_infos ui_ptr ui_start ui_align plen]. ands; auto. apply R.
    + cbn [v_iter_len ui_infos]. rewrite (ur_infos _ _ _ _ _ _ R). apply infos_of_length.
Qed.
(** [ExactSizeIterator::len]. *)
Lemma covers_len t self l o d w a m it : orep t self l o d w -> covers t o a m it -> v_iter_len it = length m.
Proof.
  intros R. destruct it, o; cbn [covers v_iter_len]; try tauto.
  - intros ->. cbn [si_hi si_lo]. unfold zlen. lia.
  - intros (-> & _). apply infos_of_length.
  - intros (-> & _). apply infos_of_length.
Qed.

(** [next]. *)
Lemma v_next_nil t self l o d w a it : orep t self l o d w -> covers t o a [] it -> v_next t it w = (Ok (None, it), w).
Proof.
  intros R. destruct it as [it|it|it], o; cbn [covers v_next]; try tauto.
  - intros ->. unfold s_next. cbn [si_lo si_hi]. unfold zlen at 2. cbn. rewrite Z.add_0_r, Z.ltb_irrefl. reflexivity.
  - intros (E & _). unfold a_next. rewrite E. reflexivity.
  - intros (E & _). unfold u_next. rewrite E. reflexivity.
Qed.
Lemma v_next_cons t self l o d w a x m b it : orep t self l o d w -> covers t o a (x :: m) it -> l = a ++ x :: m ++ b ->
  exists it', v_next t it w = (Ok (Some (iref t o a x), it'), w) /\ covers t o (a ++ [x]) m it'.
Proof.
  intros R K E. destruct it as [it|it|it], o as [v|v|v|]; cbn [covers] in K; try tauto; cbn [v_next].
  - subst it. unfold s_next. cbn [si_lo si_hi si_ptr]. rewrite zlen_cons. pose proof (zlen_nonneg m).
    destruct (Z.ltb_spec (zlen a) (zlen a + (zlen m + 1))); [|lia].
    eexists. split. { erewrite bind_eq. 2:{ erewrite bind_eq by (eapply s_item_eq; eauto). reflexivity. } reflexivity. }
    cbn [covers]. rewrite zlen_app. change (zlen [x]) with 1. f_equal; lia.
  - destruct K as (I & P & St). unfold a_next. rewrite I. cbn [infos_of]. rewrite P, St by discriminate.
    eexists. split. { erewrite bind_eq. 2:{ erewrite bind_eq by (eapply a_item_eq; eauto). reflexivity. } reflexivity. }
    assert (Q : plen t 1 (a ++ [x]) = plen t 1 a + psz t 1 x) by (rewrite plen_app; cbn [plen]; lia).
    cbn [covers ai_infos ai_ptr ai_start info_of i_end]. rewrite Q. ands; auto. intros _. unfold psz. now rewrite pad_1.
  - destruct K as (I & P & St & Al). unfold u_next. rewrite I. cbn [infos_of]. rewrite P, St, Al by discriminate.
    assert (Q : plen t (uv_align v) (a ++ [x]) = plen t (uv_align v) a + psz t (uv_align v) x) by (rewrite plen_app; cbn [plen]; lia).
    eexists. split.
    { erewrite bind_eq. 2:{ erewrite bind_eq by (eapply u_item_eq; eauto). cbn [info_of i_end].
      erewrite bind_eq by (eapply pad_end; eauto). reflexivity. } reflexivity. }
    cbn [covers ui_infos ui_ptr ui_start ui_align]. rewrite Q. ands; auto.
Qed.

(** [next_back]. *)
Lemma v_next_back_nil t self l o d w a it : orep t self l o d w -> covers t o a [] it -> v_next_back t it w = (Ok (None, it), w).
Proof.
  intros R. destruct it as [it|it|it], o; cbn [covers v_next_back]; try tauto.
  - intros ->. unfold s_next_back. cbn [si_lo si_hi]. unfold zlen at 2. cbn. rewrite Z.add_0_r, Z.ltb_irrefl. reflexivity.
  - intros (E & _). unfold a_next_back. rewrite E. reflexivity.
  - intros (E & _). unfold u_next_back. rewrite E. reflexivity.
Qed.
Lemma v_next_back_snoc t self l o d w a m x b it : orep t self l o d w -> covers t o a (m ++ [x]) it -> l = (a ++ m) ++ x :: b ->
  m <> [] \/ starts_at_0 t o a ->
  exists it', v_next_back t it w = (Ok (Some (iref t o (a ++ m) x), it'), w) /\ covers t o a m it'.
Proof.
  intros R K E Gd. destruct it as [it|it|it], o as [v|v|v|]; cbn [covers] in K; try tauto; cbn [v_next_back].
  - subst it. unfold s_next_back. cbn [si_lo si_hi si_ptr]. rewrite zlen_snoc. pose proof (zlen_nonneg m).
    destruct (Z.ltb_spec (zlen a) (zlen a + (zlen m + 1))); [|lia].
    replace (zlen a + (zlen m + 1) - 1) with (zlen (a ++ m)) by (rewrite zlen_app; lia).
    eexists. split. { erewrite bind_eq. 2:{ erewrite bind_eq by (eapply s_item_eq; eauto). reflexivity. } reflexivity. }
    cbn [covers]. rewrite zlen_app. reflexivity.
  - destruct K as (I & P & St). unfold a_next_back. rewrite I, infos_of_app, rev_app_distr. cbn [infos_of rev app].
    rewrite rev_involutive, P.
    assert (L : last_end (infos_of t 1 (plen t 1 a) m) = plen t 1 (a ++ m)).
    { destruct m as [|y m' _] using rev_ind.
      - rewrite app_nil_r. destruct Gd as [X|[X|X]]; [congruence| |symmetry; exact X].
        pose proof (ar_kind _ _ _ _ _ _ R). congruence.
      - rewrite infos_of_app. cbn [infos_of]. rewrite last_end_snoc. cbn [info_of i_end]. rewrite !plen_app. cbn [plen].
        unfold psz. rewrite pad_1. lia. }
    rewrite L, <- plen_app.
    eexists. split. { erewrite bind_eq. 2:{ erewrite bind_eq by (eapply a_item_eq; eauto). reflexivity. } reflexivity. }
    cbn [covers ai_infos ai_ptr ai_start]. ands; auto. intros _. apply St. now destruct m.
  - destruct K as (I & P & St & Al). unfold u_next_back. rewrite I, infos_of_app, rev_app_distr. cbn [infos_of rev app].
    rewrite rev_involutive, P, Al. rewrite <- plen_app.
    assert (L : (match rev (infos_of t (uv_align v) (plen t (uv_align v) a) m) with
                 | [] => ret 0 | j :: _ => unchecked_pad_to (i_end j) (uv_align v) end) w = (Ok (plen t (uv_align v) (a ++ m)), w)).
    { destruct m as [|y m' _] using rev_ind.
      - rewrite app_nil_r. cbn [infos_of rev]. unfold ret. do 2 f_equal. destruct Gd as [X|[X|X]]; [congruence| |symmetry; exact X].
        pose proof (ur_kind _ _ _ _ _ _ R). congruence.
      - rewrite infos_of_app, rev_app_distr. cbn [infos_of rev app info_of i_end]. rewrite <- plen_app.
        rewrite app_assoc. eapply pad_end; eauto. rewrite E. rewrite <- !app_assoc. reflexivity. }
    eexists. split.
    { erewrite bind_eq. 2:{ erewrite bind_eq by (exact L). erewrite bind_eq by (eapply u_item_eq; eauto). reflexivity. }
      reflexivity. }
    cbn [covers ui_infos ui_ptr ui_start ui_align]. ands; auto. intros _. apply St. now destruct m.
Qed.

(** [nth]. *)
Lemma u_entry t self l o d w v a m b k x w' : orep t self l o d w -> o = OU v -> l = a ++ m ++ b -> nth_error m k = Some x ->
  (match nth_error (infos_of t (uv_align v) (plen t (uv_align v) a) m) k with
   | Some i => unchecked_pad_to (i_end i) (uv_align v) | None => ret 0 end) w'
  = (Ok (plen t (uv_align v) (a ++ firstn (S k) m)), w').
Proof.
  intros R Eo E N. rewrite infos_of_nth, N. cbn [info_of i_end]. rewrite <- plen_app.
  rewrite (firstn_S_nth _ _ _ N), app_assoc.
  eapply pad_end; eauto. rewrite E. rewrite <- (firstn_skipn k m) at 1.
  assert (Z : skipn k m = x :: skipn (S k) m). { clear -N. revert m N; induction k; intros [|y m] N; cbn in *; try discriminate; [congruence|]. now apply IHk. }
  rewrite Z, <- !app_assoc. reflexivity.
Qed.
Lemma v_nth_past t self l o d w a m b it n : orep t self l o d w -> covers t o a m it -> l = a ++ m ++ b -> (length m <= n)%nat ->
  exists it', v_nth t it n w = (Ok (None, it'), w) /\ covers t o (a ++ m) [] it'.
Proof.
  intros R K E L. destruct it as [it|it|it], o as [v|v|v|]; cbn [covers] in K; try tauto; cbn [v_nth].
  - subst it. unfold s_nth. cbn [si_lo si_hi si_ptr]. destruct (Z.ltb_spec (Z.of_nat n) (zlen a + zlen m - zlen a)). { unfold zlen in *; lia. }
    eexists. split. reflexivity. cbn [covers]. rewrite zlen_app. change (zlen (@nil value)) with 0. f_equal; lia.
  - destruct K as (I & P & St). unfold a_nth. rewrite skipn_all2 by (rewrite I, infos_of_length; lia).
    eexists. split. reflexivity. cbn [covers ai_infos ai_ptr ai_start infos_of]. ands; auto. congruence.
  - destruct K as (I & P & St & Al). unfold u_nth.
    assert (X : exists s, (match n with O => ret 0 | S k => match nth_error (ui_infos it) k with
                           | Some i => unchecked_pad_to (i_end i) (ui_align it) | None => ret 0 end end) w = (Ok s, w)).
    { destruct n as [|k]; [eexists; reflexivity|]. rewrite I, Al. destruct (nth_error m k) as [x|] eqn:N.
      - eexists. eapply u_entry; eauto.
      - rewrite (proj2 (nth_error_None _ _)). eexists; reflexivity. rewrite infos_of_length. now apply nth_error_None. }
    destruct X as [s X]. eexists. split.
    { erewrite bind_eq. 2:{ erewrite bind_eq by exact X. rewrite skipn_all2 by (rewrite I, infos_of_length; lia). reflexivity. } reflexivity. }
    cbn [covers ui_infos ui_ptr ui_start ui_align infos_of]. ands; auto. congruence.
Qed.
Lemma v_nth_mid t self l o d w a p x m b it n : orep t self l o d w -> covers t o a (p ++ x :: m) it -> l = (a ++ p) ++ x :: m ++ b -> length p = n ->
  p <> [] \/ starts_at_0 t o a ->
  exists it', v_nth t it n w = (Ok (Some (iref t o (a ++ p) x), it'), w) /\ covers t o ((a ++ p) ++ [x]) m it'.
Proof.
  intros R K E L Gd. destruct it as [it|it|it], o as [v|v|v|]; cbn [covers] in K; try tauto; cbn [v_nth].
  - subst it. unfold s_nth, s_next. cbn [si_lo si_hi si_ptr]. rewrite zlen_app, zlen_cons. pose proof (zlen_nonneg m).
    destruct (Z.ltb_spec (Z.of_nat n) (zlen a + (zlen p + (zlen m + 1)) - zlen a)); [|unfold zlen in *; lia].
    replace (zlen a + Z.of_nat n) with (zlen (a ++ p)) by (rewrite zlen_app; unfold zlen; lia).
    destruct (Z.ltb_spec (zlen (a ++ p)) (zlen a + (zlen p + (zlen m + 1)))); [|rewrite zlen_app in *; lia].
    eexists. split. { erewrite bind_eq. 2:{ erewrite bind_eq by (eapply s_item_eq; eauto). reflexivity. } reflexivity. }
    cbn [covers]. rewrite !zlen_app. change (zlen [x]) with 1. f_equal; lia.
  - destruct K as (I & P & St). unfold a_nth. rewrite P.
    replace (skipn n (ai_infos it)) with (info_of t (plen t 1 (a ++ p)) x :: infos_of t 1 (plen t 1 ((a ++ p) ++ [x])) m).
    2:{ rewrite I, infos_of_app, skipn_app, skipn_all2 by (rewrite infos_of_length; lia). rewrite infos_of_length, L, Nat.sub_diag.
        cbn [app skipn infos_of]. rewrite (plen_app t 1 _ [x]), plen_app. cbn [plen]. rewrite Z.add_0_r. reflexivity. }
    assert (X : match n with O => 0 | S k => match nth_error (ai_infos it) k with Some i => i_end i | None => 0 end end = plen t 1 (a ++ p)).
    { destruct p as [|y p' _] using rev_ind.
      - subst n. rewrite app_nil_r. destruct Gd as [X|[X|X]]; [congruence| |symmetry; exact X].
        pose proof (ar_kind _ _ _ _ _ _ R). congruence.
      - rewrite app_length in L. cbn [length] in L. replace n with (S (length p')) by lia. rewrite I, <- app_assoc. cbn [app].
        rewrite infos_of_nth, nth_mid. cbn [info_of i_end]. rewrite firstn_mid, !plen_app. cbn [plen].
        unfold psz. rewrite pad_1. lia. }
    rewrite X. clear X.
    eexists. split. { erewrite bind_eq. 2:{ erewrite bind_eq by (eapply a_item_eq; eauto). reflexivity. } reflexivity. }
    cbn [covers ai_infos ai_ptr ai_start info_of i_end]. ands; auto. intros _. rewrite (plen_app t 1 _ [x]). cbn [plen]. unfold psz.
    rewrite pad_1. lia.
  - destruct K as (I & P & St & Al). unfold u_nth. rewrite P, Al.
    replace (skipn n (ui_infos it)) with (info_of t (plen t (uv_align v) (a ++ p)) x :: infos_of t (uv_align v) (plen t (uv_align v) ((a ++ p) ++ [x])) m).
    2:{ rewrite I, infos_of_app, skipn_app, skipn_all2 by (rewrite infos_of_length; lia). rewrite infos_of_length, L, Nat.sub_diag.
        cbn [app skipn infos_of]. rewrite (plen_app t _ _ [x]), plen_app. cbn [plen]. rewrite Z.add_0_r. reflexivity. }
    assert (X : (match n with O => ret 0 | S k => match nth_error (ui_infos it) k with
                  | Some i => unchecked_pad_to (i_end i) (uv_align v) | None => ret 0 end end) w = (Ok (plen t (uv_align v) (a ++ p)), w)).
    { destruct p as [|y p' _] using rev_ind.
      - subst n. rewrite app_nil_r. cbn [length]. unfold ret. do 2 f_equal. destruct Gd as [X|[X|X]]; [congruence| |symmetry; exact X].
        pose proof (ur_kind _ _ _ _ _ _ R). congruence.
      - rewrite app_length in L. cbn [length] in L. replace n with (S (length p')) by lia. rewrite I.
        assert (F : firstn (S (length p')) ((p' ++ [y]) ++ x :: m) = p' ++ [y]).
        { rewrite <- app_assoc. cbn [app]. rewrite (firstn_S_nth _ _ _ (nth_mid _ _ _)), firstn_mid. reflexivity. }
        rewrite <- F at 2. eapply u_entry with (b := b) (x := y); eauto.
        + rewrite E. rewrite <- !app_assoc. reflexivity.
        + rewrite <- app_assoc. apply nth_mid. }
    eexists. split.
    { erewrite bind_eq. 2:{ erewrite bind_eq by (exact X). erewrite bind_eq by (eapply u_item_eq; eauto). cbn [info_of i_end].
      erewrite bind_eq by (eapply pad_end; eauto). reflexivity. } reflexivity. }
    cbn [covers ui_infos ui_ptr ui_start ui_align]. ands; auto.
Qed.

(** [last]. *)
Lemma v_last_nil t self l o d w a it : orep t self l o d w -> covers t o a [] it -> v_last t it w = (Ok None, w).
Proof.
  intros R. destruct it as [it|it|it], o; cbn [covers v_last]; try tauto.
  - intros ->. unfold s_next_back. cbn [si_lo si_hi]. unfold zlen at 2. cbn. rewrite Z.add_0_r, Z.ltb_irrefl. reflexivity.
  - intros (E & _). unfold a_last. rewrite E. reflexivity.
  - intros (E & _). unfold u_last. rewrite E. reflexivity.
Qed.
Lemma v_last_snoc t self l o d w a m x b it : orep t self l o d w -> covers t o a (m ++ [x]) it -> l = (a ++ m) ++ x :: b -> m <> [] \/ starts_at_0 t o a ->
  v_last t it w = (Ok (Some (iref t o (a ++ m) x)), w).
Proof.
  intros R K E Gd. destruct it as [si|ai|ui]; cbn [v_last].
  - assert (T : (si_lo si <? si_hi si) = true).
    { destruct o; cbn [covers] in K; try tauto. subst si. cbn [si_lo si_hi]. rewrite zlen_snoc. pose proof (zlen_nonneg m).
      apply Z.ltb_lt. lia. }
    rewrite T. destruct (v_next_back_snoc _ _ _ _ _ _ _ _ _ _ _ R K E Gd) as (it' & N & _). cbn [v_next_back] in N.
    destruct (s_next_back t si w) as [[[y z]|r| |r] w1] eqn:S; unfold bind in *; rewrite S in *; try discriminate.
    injection N; intros; subst. reflexivity.
  - destruct (v_nth_mid _ _ _ _ _ _ a m x [] b _ (length m) R K E eq_refl Gd) as (it' & N & _). cbn [v_nth] in N.
    assert (L : length (ai_infos ai) = S (length m)).
    { destruct o; cbn [covers] in K; try tauto. destruct K as (I & _). rewrite I, infos_of_length, app_length. cbn. lia. }
    unfold a_last. rewrite L. unfold bind in *. destruct (a_nth t ai (length m) w) as [[[y z]|r| |r] w1]; try discriminate.
    injection N; intros; subst. reflexivity.
  - destruct (v_nth_mid _ _ _ _ _ _ a m x [] b _ (length m) R K E eq_refl Gd) as (it' & N & _). cbn [v_nth] in N.
    assert (L : length (ui_infos ui) = S (length m)).
    { destruct o; cbn [covers] in K; try tauto. destruct K as (I & _). rewrite I, infos_of_length, app_length. cbn. lia. }
    unfold u_last. rewrite L. unfold bind in *. destruct (u_nth t ui (length m) w) as [[[y z]|r| |r] w1]; try discriminate.
    injection N; intros; subst. reflexivity.
Qed.
End WithConfig.
