(** [push_with]: appending the value of an emplacable. *)
From Coq Require Import ZArith List Bool Lia.
From Verif Require Import Types World ValidSize Emplace SizedVec AlignedVec UnalignedVec Api Spec Bytes Arith Wp Mem Repr
  Access Reserve Realign Orep Push Deal.
Import ListNotations.
Open Scope Z_scope.
Open Scope m_scope.

Lemma buf_nonnull h p al cap d off : buf h p al cap d -> is_null (padd p off) = false.
Proof.
  unfold buf. destruct (cap =? 0).
  - intros (a & -> & L & _). destruct a; simpl; auto; lia.
  - intros (b & base & -> & _). reflexivity.
Qed.

Section WithConfig.
Context {C : Config}.

(** The layout announced by an emplacable is the layout of its value (only what the vector uses of it). The last clause
    only says something for [CStr], whose declared alignment 8 exceeds the real one (finding F19). *)
Definition fits (t : ty) (lay : layout) (x : value) : Prop :=
  l_size lay = vsize t x /\ (kind_of t = KUnaligned -> l_align lay = valign t x) /\
  (kind_of t = KAligned -> vsize t x <= isize_max - (static_align t - 1)).

(** Why the reservation of [push_with]/[insert_with] fails. *)
Definition with_overflow (t : ty) (o : obj) (l : list value) (b a : Z) : Prop :=
  match kind_of t with
  | KSized => False
  | KAligned => isize_max - (o_al t o - 1) < o_bcap t o + b
  | KUnaligned => isize_max < plen t (req_al t o a) l + (o_bcap t o - o_blen t o l) + b + 2 * (req_al t o a - 1)
  end.
Definition with_fails (t : ty) (o : obj) (l : list value) (b a : Z) (exact : bool) (w w' : world) : Prop :=
  count_overflow t o (zlen l) 1 exact \/ with_overflow t o l b a \/ alloc_failed w w'.

Definition room (t : ty) (o : obj) (l : list value) (x : value) : Prop :=
  zlen l < o_cap t o /\ o_blen t o l + vsize t x <= o_bcap t o /\ (kind_of t = KUnaligned -> valign t x <= o_al t o).

(** The reservation, in continuation form. *)
(** For Sized elements with a free slot the vector is not reallocated. For the unsized kinds it always grows (F13). *)
Definition stays (t : ty) (o : obj) (l : list value) (x : value) (o' : obj) : Prop :=
  (kind_of t = KSized -> zlen l < o_cap t o -> o_ptr o' = o_ptr o /\ o_cap t o' = o_cap t o) /\
  (kind_of t <> KSized -> o_bcap t o + vsize t x <= o_bcap t o') /\
  (nzst t -> o_cap t o' <= Z.max (o_cap t o) (Z.max 8 (2 * (zlen l + 1)))) /\
  (kind_of t = KAligned -> o_bcap t o' = o_bcap t o + vsize t x) /\
  (kind_of t = KUnaligned -> o_bcap t o' <= plen t (req_al t o (valign t x)) l + (o_bcap t o - o_blen t o l) + vsize t x + 2 * (req_al t o (valign t x) - 1)).
(** Reserving for one more element at most doubles what is needed. *)
Lemma p_try_reserve_top t self l o d w exact : orep t self l o d w ->
  run (p_try_reserve t self 1 exact) w
    (fun r w' => nzst t -> forall o', nth_error (w_vecs w') self = Some o' -> r = ROk -> o_cap t o' <= Z.max (o_cap t o) (Z.max 8 (2 * (zlen l + 1))))
    (fun _ _ => True) (fun _ => True).
Proof.
  intros R. assert (D : nzst t \/ ~ nzst t). { unfold nzst. destruct (kind_of t); try (left; discriminate). destruct (Z.lt_ge_cases 0 (s_size t)); [left|right]; [auto|]. intros H0. specialize (H0 eq_refl). lia. }
  destruct D as [Nz|Nz].
  - eapply run_conseq. { apply run_and; [eapply p_try_reserve_wp with (n := 1) (exact := exact); eauto; lia|eapply p_try_reserve_cap with (n := 1) (exact := exact); eauto; lia]. }
    all: cbv beta; auto. intros r w' ((o1 & d1 & R1 & _ & _ & _ & _ & _ & _ & Nop & _) & Cp) _ o' E ->.
    destruct (Z.lt_ge_cases (o_cap t o) (zlen l + 1)) as [L|L].
    + destruct (Cp eq_refl L) as (o2 & E2 & Ec). assert (o2 = o') by congruence. subst o2. rewrite Ec. unfold want_cap, min_non_zero_cap.
      destruct exact; [lia|]. destruct (_ =? 1); [lia|]. destruct (_ <=? 1024); lia.
    + destruct (Nop L) as [_ ->]. rewrite (orep_obj _ _ _ _ _ _ R) in E. injection E as <-. lia.
  - eapply run_conseq. { eapply p_try_reserve_wp with (n := 1) (exact := exact); eauto; lia. } all: cbv beta; auto. tauto.
Qed.
Lemma with_reserve_wp t self l o d w x lay exact (k : M unit) (Qo : unit -> world -> Prop) (Qp : panic_reason -> world -> Prop)
    (Qa : world -> Prop) :
  orep t self l o d w -> good t x -> fits t lay x -> can_align t o (vsize t x) (valign t x) -> nzst t \/ kind_of t = KSized ->
  (forall o' d' w', orep t self l o' d' w' -> quiet self w w' -> room t o' l x -> o_al t o' = req_al t o (valign t x) ->
     stays t o l x o' -> run k w' Qo Qp Qa) ->
  (forall r w', repr t self l w' -> quiet self w w' -> with_fails t o l (vsize t x) (valign t x) exact w w' ->
     r = PCapacity \/ r = POom /\ cfg_oom_panics = true -> Qp r w') ->
  (forall w', alloc_failed w w' -> Qa w') ->
  run (r <- p_try_reserve t self 1 exact ;;
       r <- (match kind_of t, r with
             | KSized, r => ret r
             | _, ROk => p_try_reserve_bytes_align t self (l_size lay) (l_align lay)
             | _, RErr _ => ret r
             end) ;;
       unwrap_try_reserve_result r ;; k) w Qo Qp Qa.
Proof.
  intros R G (F1 & F2 & _) CA Nz HK HP HA. pose proof (good_size t x G) as Sx. pose proof (good_align t x G) as Ax.
  apply run_bind. eapply run_conseq. { apply run_and; [eapply p_try_reserve_wp with (n := 1) (exact := exact); eauto; lia|eapply p_try_reserve_top with (exact := exact); eauto]. }
  all: cbv beta; try (intros; tauto).
  intros r w1 ((o1 & d1 & R1 & Q1 & Gc & Gb & Ea & Ep & Un & Nop & _ & Res) & Top).
  assert (Tp : r = ROk -> nzst t -> o_cap t o1 <= Z.max (o_cap t o) (Z.max 8 (2 * (zlen l + 1)))).
  { intros E Z. exact (Top Z o1 (orep_obj _ _ _ _ _ _ R1) E). }
  clear Top.
  assert (UW : forall e wf (R' : repr t self l wf) (Q' : quiet self w wf),
      with_fails t o l (vsize t x) (valign t x) exact w wf ->
      (e = AllocError -> alloc_failed w wf) ->
      run (unwrap_try_reserve_result (RErr e) ;; k) wf Qo Qp Qa).
  { intros e wf R' Q' F AF. apply run_bind. destruct e; cbn [unwrap_try_reserve_result].
    - apply run_panic. apply HP; auto.
    - unfold handle_alloc_error. destruct cfg_oom_panics eqn:Om.
      + apply run_panic. apply HP; auto.
      + apply HA. auto. }
  destruct (kind_of t) eqn:K.
  - eapply run_eq. { reflexivity. }
    destruct r as [|e].
    + eapply run_eq. { reflexivity. } eapply HK; eauto.
      * unfold room. ands; try lia; try congruence.
        unfold o_blen. destruct o1; ocbn in *; try contradiction; try (destruct R1; congruence).
        rewrite plen_sized by apply R1. rewrite vsize_sized by auto. unfold s_capacity in Res. destruct R1.
        destruct (Z.eqb_spec (s_size t) 0) as [E|E]; [rewrite E; lia|]. pose proof (s_size_nonneg t K sr_wf). nia.
      * unfold req_al. now rewrite K.
      * split; [|split; [congruence|split; [auto|split; congruence]]]. intros _ L. destruct (Nop ltac:(lia)) as [_ ->]. pose proof (orep_obj _ _ _ _ _ _ R). pose proof (orep_obj _ _ _ _ _ _ R1).
        assert (o1 = o) by congruence. subst. auto.
    + apply UW; auto.
      * eapply orep_repr; eauto.
      * unfold with_fails. destruct e; [left; apply Res|right; right; auto].
      * intros ->. auto.
  - destruct Nz as [Nz|]; [|discriminate]. destruct (Un ltac:(left; discriminate)) as (Eb & _).
    assert (EL : o_blen t o1 l = o_blen t o l) by (unfold o_blen; now rewrite Ep).
    destruct r as [|e].
    + apply run_bind. eapply run_conseq.
      { eapply p_try_reserve_bytes_wp with (n := l_size lay) (a := l_align lay); eauto; try lia. congruence. }
      all: cbv beta; try (intros; contradiction). rewrite K.
      intros r w2 (o2 & d2 & R2 & Q2 & Gc2 & Ec2 & _ & Res2). pose proof (quiet_nalloc _ _ _ Q1).
      assert (Q : quiet self w w2) by (eapply quiet_trans; eauto).
      destruct r as [|e].
      * eapply run_eq. { reflexivity. } destruct Res2 as ([Al|(? & _)] & By & Eq2 & _); [|congruence].
        eapply HK; eauto.
        -- unfold room. ands; try lia; try congruence. pose proof (By ltac:(left; discriminate)).
           pose proof (orep_fit _ _ _ _ _ _ R1). lia.
        -- unfold req_al. rewrite K. congruence.
        -- specialize (Eq2 eq_refl). split; [congruence|]. split; [lia|]. split; [|split; [lia|congruence]]. intros Nz'. rewrite Ec2 by congruence. auto.
      * apply UW; auto.
        -- eapply orep_repr; eauto.
        -- unfold with_fails, with_overflow. rewrite K. destruct e.
           ++ right; left. rewrite <- Ea, <- Eb, <- F1. apply Res2.
           ++ right; right. eapply alloc_failed_l; [|apply Res2]; auto.
        -- intros ->. eapply alloc_failed_l; [|apply Res2]; auto.
    + eapply run_eq. { reflexivity. } apply UW; auto.
      * eapply orep_repr; eauto.
      * unfold with_fails. destruct e; [left; apply Res|right; right; auto].
      * intros ->. auto.
  - destruct Nz as [Nz|]; [|discriminate]. destruct (Un ltac:(left; discriminate)) as (Eb & _). specialize (F2 eq_refl).
    assert (EL : o_blen t o1 l = o_blen t o l) by (unfold o_blen; now rewrite Ep).
    destruct r as [|e].
    + apply run_bind. eapply run_conseq.
      { eapply p_try_reserve_bytes_wp with (n := l_size lay) (a := l_align lay); eauto; try lia. intros _. congruence. }
      all: cbv beta; try (intros; contradiction). rewrite K.
      intros r w2 (o2 & d2 & R2 & Q2 & Gc2 & Ec2 & _ & Res2). pose proof (quiet_nalloc _ _ _ Q1).
      assert (Q : quiet self w w2) by (eapply quiet_trans; eauto).
      destruct r as [|e].
      * eapply run_eq. { reflexivity. } destruct Res2 as (Al & By & _ & Up & _ & Mono).
        pose proof (By ltac:(left; discriminate)) as By'. pose proof (orep_fit _ _ _ _ _ _ R1).
        assert (AL : o_al t o2 = Z.max (o_al t o) (valign t x)).
        { destruct Al as [Al|(_ & E1 & E2 & E3)]; [congruence|]. destruct (CA K) as [?|[?|?]]; lia. }
        eapply HK; eauto.
        -- unfold room. ands; try lia; try congruence.
        -- unfold req_al. rewrite K. congruence.
        -- split; [congruence|]. split; [|split; [intros Nz'; rewrite Ec2 by congruence; auto|split; [congruence|intros _; unfold req_al; rewrite K; specialize (Up eq_refl); rewrite Eb, EL, Ea, F1, F2 in Up; exact Up]]]. intros _. assert (Lp : o_blen t o1 l <= o_blen t o2 l).
           { unfold o_blen. destruct o1, o2; ocbn in *; try contradiction; try (destruct R1; congruence); try (destruct R2; congruence).
             apply plen_le; try lia; [apply R1|apply R2]. }
           lia.
      * apply UW; auto.
        -- eapply orep_repr; eauto.
        -- unfold with_fails, with_overflow, req_al. rewrite K. destruct e.
           ++ right; left. rewrite <- Eb, <- F1, <- F2, <- EL, <- Ea. apply Res2.
           ++ right; right. eapply alloc_failed_l; [|apply Res2]; auto.
        -- intros ->. eapply alloc_failed_l; [|apply Res2]; auto.
    + eapply run_eq. { reflexivity. } apply UW; auto.
      * eapply orep_repr; eauto.
      * unfold with_fails. destruct e; [left; apply Res|right; right; auto].
      * intros ->. auto.
Qed.

(** Appending the bookkeeping of an element whose bytes are in place. *)
Definition finish_push (t : ty) (self : nat) (m : meta) (size : Z) (start : Z) : M unit :=
  match kind_of t with
  | KSized => v' <- get_s self ;; len <- uadd (sv_len v') 1 ;; set_obj self (OS (SVec (sv_ptr v') (sv_cap v') len))
  | KAligned =>
      e <- vs_unchecked_add (static_align t) start size ;;
      v' <- get_a self ;;
      infos' <- infos_push (av_infos v') (av_icap v') (Info (from_metadata t m) e) ;;
      set_obj self (OA (AVec (av_ptr v') (av_bcap v') infos' (av_icap v')))
  | KUnaligned =>
      e <- vu_unchecked_add start size ;;
      v' <- get_u self ;;
      infos' <- infos_push (uv_infos v') (uv_icap v') (Info (from_metadata t m) e) ;;
      set_obj self (OU (UVec (uv_ptr v') (uv_bcap v') infos' (uv_icap v') (uv_align v')))
  end.
Lemma finish_push_eq t self l o d w x :
  orep t self l o d w -> good t x -> room t o l x ->
  finish_push t self (v_meta x) (vsize t x) (o_blen t o l) w = (Ok tt, set_vecs (upd (w_vecs w) self (o_push t o l x)) w).
Proof.
  intros R G (L & B & A). pose proof (orep_bcap _ _ _ _ _ _ R) as Bm. pose proof (pow2_pos _ (orep_al _ _ _ _ _ _ R)) as Pa.
  unfold finish_push. destruct o; unfold o_blen in *; ocbn in *; try tauto.
  - rewrite (sr_kind _ _ _ _ _ _ R). pose proof (s_icap_max _ _ _ _ _ _ R). destruct R.
    erewrite bind_eq by (eapply get_s_eq; eauto). rewrite sr_slen.
    erewrite bind_eq by (apply uadd_eq; lia). cbn [o_push]. rewrite sr_slen. reflexivity.
  - rewrite (ar_kind _ _ _ _ _ _ R). destruct R.
    erewrite bind_eq by (apply vs_unchecked_add_eq; lia).
    erewrite bind_eq by (eapply get_a_eq; eauto).
    erewrite bind_eq by (apply infos_push_eq; rewrite ar_infos, infos_of_zlen; lia). reflexivity.
  - rewrite (ur_kind _ _ _ _ _ _ R). destruct R.
    erewrite bind_eq by (apply vs_unchecked_add_eq; lia).
    erewrite bind_eq by (eapply get_u_eq; eauto).
    erewrite bind_eq by (apply infos_push_eq; rewrite ur_infos, infos_of_zlen; lia). reflexivity.
Qed.

(** Where [push_with] writes. *)
Definition push_place (t : ty) (self : nat) : M (ptr * Z) :=
  match kind_of t with
  | KSized => v <- get_s self ;; p <- elem_add t (sv_ptr v) (sv_len v) ;; ret (p, 0)
  | KAligned => v <- get_a self ;; p <- ptr_add (av_ptr v) (a_byte_len v) ;; ret (p, a_byte_len v)
  | KUnaligned => v <- get_u self ;; s <- u_aligned_byte_len v ;; p <- ptr_add (uv_ptr v) s ;; ret (p, s)
  end.
Lemma push_place_eq t self l o d w x :
  orep t self l o d w -> room t o l x -> good t x ->
  exists s, push_place t self w = (Ok (padd (o_ptr o) (o_blen t o l), s), w) /\ (kind_of t <> KSized -> s = o_blen t o l).
Proof.
  intros R (L & B & A) G. pose proof (orep_blen_nonneg _ _ _ _ _ _ R) as N. pose proof (good_size t x G).
  pose proof (orep_fit _ _ _ _ _ _ R) as Fit.
  unfold push_place. destruct o; ocbn in *; try tauto; unfold o_blen in *; ocbn in *.
  - rewrite (sr_kind _ _ _ _ _ _ R). destruct R. exists 0. split; [|congruence].
    rewrite (plen_sized t l) in * by auto.
    erewrite bind_eq by (eapply get_s_eq; eauto). rewrite sr_slen.
    erewrite bind_eq by (unfold elem_add; eapply ptr_add_buf; eauto; lia). reflexivity.
  - rewrite (ar_kind _ _ _ _ _ _ R). destruct R. exists (plen t 1 l). split; [|auto].
    assert (BL : a_byte_len v = plen t 1 l).
    { unfold a_byte_len. rewrite ar_infos, last_end_infos, <- (pad_ulen t 1) by lia. now rewrite pad_1. }
    erewrite bind_eq by (eapply get_a_eq; eauto). rewrite BL.
    erewrite bind_eq by (eapply ptr_add_buf; eauto; lia). reflexivity.
  - rewrite (ur_kind _ _ _ _ _ _ R). pose proof (u_byte_len_eq _ _ _ _ _ _ R) as BL. destruct R.
    exists (plen t (uv_align v) l). split; [|auto].
    erewrite bind_eq by (eapply get_u_eq; eauto). erewrite bind_eq by exact BL.
    erewrite bind_eq by (eapply ptr_add_buf; eauto; lia). reflexivity.
Qed.

(** The emplacer of [push_with], in a form common to the three implementations. *)
Definition pw_emplacer (t : ty) (self : nat) : emplacer := fun lay m inner =>
  r <- p_try_reserve t self 1 false ;;
  r <- (match kind_of t, r with
        | KSized, r => ret r
        | _, ROk => p_try_reserve_bytes_align t self (l_size lay) (l_align lay)
        | _, RErr _ => ret r
        end) ;;
  unwrap_try_reserve_result r ;;
  '(p, s) <- push_place t self ;;
  inner p ;;
  finish_push t self m (l_size lay) s.

Lemma bind_ext {A B} (m : M A) (f g : A -> M B) w : (forall a w', f a w' = g a w') -> bind m f w = bind m g w.
Proof. intros H. unfold bind. destruct (m w) as [[]]; auto. Qed.


Lemma good_size_al t x : good t x -> vsize t x <= isize_max - (valign t x - 1).
Proof. intros [[(V & _) _] _]. destruct V as (H & P & L). unfold vsize, valign. lia. Qed.

Lemma p_push_with_form t self e :
  exists E, p_push_with t self e = e E /\
    forall lay m inner x w, good t x -> fits t lay x -> E lay m inner w = pw_emplacer t self lay m inner w.
Proof.
  unfold p_push_with, pw_emplacer, p_try_reserve, p_try_reserve_bytes_align, push_place, finish_push. destruct (kind_of t) eqn:K.
  - eexists; split; [reflexivity|]. intros lay m inner x w G (F & _ & F3). cbv beta.
    apply bind_ext. intros r w1. match goal with |- _ = bind (ret r) ?f w1 => change (bind (ret r) f w1) with (f r w1) end.
    cbv beta.
    apply bind_ext. intros [] w2. rewrite bind_assoc. apply bind_ext. intros v w3. rewrite bind_assoc. apply bind_ext.
    intros p w4. reflexivity.
  - eexists; split; [reflexivity|]. intros lay m inner x w G (F & _ & F3). cbv beta.
    erewrite bind_eq.
    2: { apply vs_new_unchecked_eq. rewrite F. auto. }
    apply bind_ext. intros r w1. apply bind_ext. intros r' w2.
    apply bind_ext. intros [] w3. rewrite bind_assoc. apply bind_ext. intros v w4. cbv zeta. rewrite bind_assoc. apply bind_ext.
    intros p w5. reflexivity.
  - eexists; split; [reflexivity|]. intros lay m inner x w G (F & _ & F3). cbv beta zeta.
    apply bind_ext. intros r w1. apply bind_ext. intros r' w2.
    apply bind_ext. intros [] w3. rewrite bind_assoc. apply bind_ext. intros v w4. rewrite bind_assoc. apply bind_ext.
    intros s w5. rewrite bind_assoc. apply bind_ext. intros p w6. reflexivity.
Qed.

(** How a delivery that unwinds leaves the vector it was meant for. *)
Definition with_panic (t : ty) (self : nat) (l : list value) (o : obj) (S : deal) (exact : bool) (w : world) (r : panic_reason)
    (w' : world) : Prop :=
  let x := d_value S in
  repr t self l w' /\ touch self (d_fv S) (d_fb S) w w' /\
  (with_fails t o l (vsize t x) (valign t x) exact w w' /\ (r = PCapacity \/ r = POom /\ cfg_oom_panics = true) /\
   w_drops w' = w_drops w /\ d_after S Refused w' \/
   d_panic S r \/ r = PDrop /\ one_panicked (d_extra S) w w').

(** The data behind the last element is free to be overwritten. *)
Lemma orep_tail t self l o d w bs h' :
  orep t self l o d w -> o_blen t o l + zlen bs <= o_bcap t o ->
  heap_write (w_heap w) (padd (o_ptr o) (o_blen t o l)) bs = Some h' ->
  orep t self l o (splice (o_blen t o l) bs d) (set_heap h' w) /\ quiet self w (set_heap h' w).
Proof.
  intros R B E. destruct (orep_write_tail t self l o d w bs R B) as (_ & R' & _).
  pose proof (orep_buf _ _ _ _ _ _ R) as Bu. rewrite (heap_write_buf _ _ _ _ _ _ _ Bu) in E; auto.
  2: { eapply orep_blen_nonneg; eauto. }
  injection E as <-. split; auto. eapply quiet_put; eauto.
Qed.

Lemma pw_emplacer_wp t self l o d w1 S inner post :
  orep t self l o d w1 -> good t (d_value S) -> fits t (d_lay S) (d_value S) -> nzst t \/ kind_of t = KSized ->
  can_align t o (vsize t (d_value S)) (valign t (d_value S)) -> apart self (d_fv S) (d_fb S) w1 ->
  writes S inner post w1 ->
  (forall w', agree (d_fv S) (d_fb S) w1 w' -> d_after S Refused w') ->
  run (pw_emplacer t self (d_lay S) (d_meta S) inner) w1
    (fun _ w4 => exists o' d', orep t self (l ++ [d_value S]) o' d' w4 /\ touch self (d_fv S) (d_fb S) w1 w4 /\
       apart self (d_fv S) (d_fb S) w4 /\
       w_drops w4 = w_drops w1 ++ d_extra S /\ post_ok S Delivered post w4 /\ o_al t o' = req_al t o (valign t (d_value S)) /\ stays t o l (d_value S) o')
    (with_panic t self l o S false w1)
    (fun w4 => alloc_failed w1 w4 \/ aborted S w1 w4).
Proof.
  intros R G F Nz CA AP W RF. set (x := d_value S) in *. unfold pw_emplacer.
  pose proof (good_size t x G) as Sx. pose proof (good_bytes t x G) as Bx.
  eapply with_reserve_wp; eauto.
  - intros o2 d2 w2 R2 Q2 Rm Al St. pose proof Rm as (L & B & A).
    pose proof (frame_agree _ _ _ _ _ (proj1 Q2) AP) as Ag. pose proof (frame_apart _ _ _ _ _ (proj1 Q2) AP) as AP2.
    destruct (push_place_eq t self l o2 d2 w2 x R2 Rm G) as (s & Ep & Es).
    eapply run_eq; [exact Ep|]. cbv beta iota.
    pose proof (orep_buf _ _ _ _ _ _ R2) as Bu. pose proof (orep_blen_nonneg _ _ _ _ _ _ R2) as N.
    assert (Pb : forall b, ptr_block (padd (o_ptr o2) (o_blen t o2 l)) = Some b -> ~ In b (d_fb S)).
    { intros b Eb. rewrite padd_block in Eb. destruct AP2 as (_ & _ & X). apply X. rewrite (orep_owned _ _ _ _ _ _ R2). auto. }
    assert (Bx' : zlen (d_bytes S) = vsize t x) by exact Bx.
    pose proof (heap_write_buf _ _ _ _ _ (o_blen t o2 l) (d_bytes S) Bu N ltac:(lia)) as HW.
    specialize (W _ w2 _ Ag (buf_nonnull _ _ _ _ _ _ Bu) Pb HW).
    apply run_bind. eapply run_conseq; [exact W|..]; cbv beta.
    + intros _ w3 (Wi & D3 & P3).
      destruct (orep_tail t self l o2 d2 w2 (d_bytes S) _ R2 ltac:(lia) HW) as (Rt & Qt).
      pose proof (frame_apart _ _ _ _ _ (proj1 Qt) AP2) as AP3.
      pose proof (orep_within _ _ _ _ _ _ _ _ _ Wi Rt AP3) as R3.
      assert (T : touch self (d_fv S) (d_fb S) w1 w3).
      { eapply touch_trans; [exact AP|apply touch_frame, Q2|]. eapply touch_trans; [exact AP2|apply touch_frame, Qt|].
        apply touch_within; auto. exists (d_extra S). exact D3. }
      assert (EF : finish_push t self (d_meta S) (l_size (d_lay S)) s w3
                   = (Ok tt, set_vecs (upd (w_vecs w3) self (o_push t o2 l x)) w3)).
      { rewrite (proj1 F). rewrite <- (finish_push_eq t self l o2 _ w3 x R3 G Rm). unfold finish_push.
        destruct (kind_of t); auto; rewrite Es by discriminate; reflexivity. }
      eapply run_eq1; [exact EF|].
      pose proof (quiet_push t self l o2 _ w3 x R3) as Q4. pose proof (touch_apart _ _ _ _ _ T AP) as AP4.
      eexists _, _. ands.
      * eapply orep_push; eauto.
        destruct (orep_write_tail t self l o2 d2 w2 (d_bytes S) R2 ltac:(lia)) as (_ & _ & X). rewrite Bx' in X. exact X.
      * eapply touch_trans; [exact AP|exact T|apply touch_frame, Q4].
      * eapply frame_apart; [apply Q4|auto].
      * rewrite (proj2 Q4), D3, (proj2 Q2). reflexivity.
      * eapply post_ok_agree; [exact P3|]. eapply frame_agree; [apply Q4|]. auto.
      * destruct (o_push_same t o2 l x) as (_ & _ & -> & _). auto.
      * destruct St as (St1 & St2 & St3 & St4). destruct (o_push_same t o2 l x) as (Ec & Eb & _ & _ & Ept).
        unfold stays. rewrite Ec, Eb, Ept. auto.
    + intros r w3 (Pr & (bs & h'' & Lb & HW' & Wi) & ds & D3).
      destruct (orep_tail t self l o2 d2 w2 bs _ R2 ltac:(lia) HW') as (Rt & Qt).
      pose proof (frame_apart _ _ _ _ _ (proj1 Qt) AP2) as AP3.
      unfold with_panic. ands.
      * eapply repr_within; eauto. eapply orep_repr; eauto.
      * eapply touch_trans; [exact AP|apply touch_frame, Q2|]. eapply touch_trans; [exact AP2|apply touch_frame, Qt|].
        apply touch_within; auto. exists ds. exact D3.
      * right. destruct Pr as [?|(-> & X & n & Hn & P)]; auto. right. split; [auto|]. split; [auto|]. exists n. split; auto.
        rewrite (proj2 Q2) in Hn. auto.
    + intros w3 (X & n & Hn & P). right. split; auto. exists n. split; auto. rewrite (proj2 Q2) in Hn. auto.
  - intros r w' R' Q' Fl Re. unfold with_panic. ands; auto.
    + apply touch_frame, Q'.
    + left. ands; auto. * apply Q'. * apply RF. eapply frame_agree; [apply Q'|]. auto.
Qed.

(** src/lib.rs:991-993 [push_with]. *)
Theorem v_push_with_wp t self l o d w e S :
  orep t self l o d w -> emits e S w -> good t (d_value S) -> fits t (d_lay S) (d_value S) -> nzst t \/ kind_of t = KSized ->
  can_align t o (vsize t (d_value S)) (valign t (d_value S)) -> apart self (d_fv S) (d_fb S) w ->
  run (v_push_with t self e) w
    (fun _ w' => exists o' d', orep t self (l ++ [d_value S]) o' d' w' /\ touch self (d_fv S) (d_fb S) w w' /\
       w_drops w' = w_drops w ++ d_extra S /\ d_after S Delivered w' /\ o_al t o' = req_al t o (valign t (d_value S)) /\ stays t o l (d_value S) o')
    (with_panic t self l o S false w)
    (fun w' => alloc_failed w w' \/ aborted S w w').
Proof.
  intros R [_ EM] G F Nz CA AP.
  destruct (EM w (agree_refl _ _ _)) as (inner & post & w1 & Ee & Wi & D1 & RF & Wr & _ & _).
  pose proof (orep_within _ _ _ _ _ _ _ _ _ Wi R AP) as R1.
  assert (T1 : touch self (d_fv S) (d_fb S) w w1).
  { apply touch_within; auto. exists []. now rewrite app_nil_r. }
  pose proof (touch_apart _ _ _ _ _ T1 AP) as AP1.
  assert (NA : (w_nalloc w <= w_nalloc w1)%nat) by apply Wi.
  assert (DP : forall w', one_panicked (d_extra S) w1 w' -> one_panicked (d_extra S) w w').
  { intros w' (X & n & Hn & P). split; auto. exists n. rewrite D1 in Hn. auto. }
  assert (DA : forall w', aborted S w1 w' -> aborted S w w').
  { intros w' (X & n & Hn & P). split; auto. exists n. rewrite D1 in Hn. auto. }
  unfold v_push_with. destruct (p_push_with_form t self e) as (E & -> & Ef). unfold run. rewrite Ee.
  assert (X : bind (E (d_lay S) (d_meta S) inner) (fun _ => post) w1
            = bind (pw_emplacer t self (d_lay S) (d_meta S) inner) (fun _ => post) w1).
  { unfold bind. erewrite Ef by eauto. reflexivity. }
  rewrite X. apply run_sound. apply run_bind.
  eapply run_conseq; [eapply pw_emplacer_wp; eauto|..]; cbv beta.
  - intros _ w4 (o' & d' & R4 & T4 & AP4 & D4 & P4 & Al & St). destruct (P4 w4 (agree_refl _ _ _)) as (w5 & E5 & W5 & D5 & A5).
    eapply run_eq1; [exact E5|]. exists o', d'. ands; auto.
    + eapply orep_within; eauto.
    + eapply touch_trans; [exact AP|exact T1|]. eapply touch_trans; [exact AP1|exact T4|].
      apply touch_within; auto. exists []. now rewrite app_nil_r.
    + congruence.
    + apply A5, agree_refl.
  - intros r w' (Rr & T & Ca). unfold with_panic. ands; auto.
    + eapply touch_trans; eauto.
    + destruct Ca as [(Fl & Re & Dr & Af)|[Dp|[-> Dp]]]; auto.
      left. ands; auto; try congruence. unfold with_fails in *. destruct Fl as [?|[?|?]]; auto.
      right; right. eapply alloc_failed_l; eauto.
  - intros w' [AF|Dp]; auto. left. eapply alloc_failed_l; eauto.
Qed.
End WithConfig.
