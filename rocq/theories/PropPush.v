(** C01, C02, C03, C19, C30: [push], and raising the alignment.

    Reading guide. [repr t v l w]: in world [w], object [v] is a well-formed [UnsizedVec<t>] with elements [l].
    [shows t v l w]: [len()] and indexing return exactly [l]. [run m w Qok Qpanic Qabort]: [m] started in [w] has no undefined
    behaviour; [Qok]/[Qpanic]/[Qabort] describe the result in the three other cases. [w_drops]: the destructors run so far.
    All theorems hold for every build configuration, allocator schedule and destructor-panic schedule (the [Config]). *)
From Coq Require Import ZArith List Bool Lia.
From Verif Require Import Types World ValidSize Emplace SizedVec AlignedVec UnalignedVec Api Spec Bytes Arith Wp Mem Repr
  Access Reserve Realign Orep Push Deal PushWith Shell Insert Take Pop Box Iter Calls DropVec Family Build Obs Room Findings.
Import ListNotations.
Open Scope Z_scope.
Open Scope m_scope.

Section WithConfig.
Context {C : Config}.

(** The alignment of the array of entries; [Orep.slot_size] is the size of one. *)
Definition slot_align (t : ty) : Z := match t with TSized _ a => a | _ => 8 end.

(** Why a push may be refused: the allocator failed, the array of entries (grown by std's policy) or the bytes would exceed
    [isize::MAX] rounded down to the alignment. *)
Definition push_refused (t : ty) (self : nat) (l : list value) (x : value) (w w' : world) : Prop :=
  alloc_failed w w' \/
  (exists c, v_capacity t self w = (Ok c, w) /\
     isize_max - (slot_align t - 1) < want_cap (slot_size t) c (zlen l) 1 false * slot_size t) \/
  match kind_of t with
  | KSized => False
  | KAligned => isize_max - (static_align t - 1) < total t l + vsize t x
  | KUnaligned => exists al bc, v_align t self w = (Ok al, w) /\ v_byte_capacity t self w = (Ok bc, w) /\
      let a := Z.max al (valign t x) in
      isize_max < padded_total t a l + Z.max (vsize t x) (bc - padded_total t al l) + 2 * (a - 1)
  end.

(** What [push] does. *)
Definition pushes (t : ty) (self : nat) (l : list value) (x : value) (w : world) : Prop :=
  run (v_push t self x) w
    (fun _ w' => repr t self (l ++ [x]) w' /\ shows t self (l ++ [x]) w' /\ w_drops w' = w_drops w /\ others self w w')
    (fun r w' => repr t self l w' /\ shows t self l w' /\ w_drops w' = w_drops w ++ [x] /\ others self w w' /\
                 push_refused t self l x w w' /\
                 (r = PCapacity \/ r = PDebugAssert /\ cfg_debug = true \/ r = POom /\ cfg_oom_panics = true))
    (fun w' => alloc_failed w w' \/ drop_panicked w w').

Lemma refused_of t self l o d w w' x : orep t self l o d w -> good t x -> nzst t ->
  reserve_fails t o l 1 (vsize t x) (valign t x) w w' -> push_refused t self l x w w'.
Proof.
  intros R G Nz [H|[H|H]]; [|right; right|now left].
  - right; left. exists (o_cap t o). split; [eapply v_capacity_eq; eauto|]. unfold count_overflow in H.
    pose proof (orep_wf _ _ _ _ _ _ R) as W.
    destruct t; cbn [kind_of slot_size slot_align] in *; auto.
    specialize (Nz eq_refl). change (s_size (TSized size align)) with size in *. change (s_align (TSized size align)) with align in *.
    pose proof (want_cap_ge size (o_cap (TSized size align) o) (zlen l) 1 false) as Wc.
    assert (P : pow2 align) by apply W. apply pow2_pos in P. destruct H as [H|H]; [exact H|]. nia.
  - unfold bytes_overflow in H. destruct (kind_of t) eqn:K.
    + rewrite (vsize_sized t x K G) in H. lia.
    + destruct o; cbn [orep] in R; try tauto; try (destruct R; congruence). unfold o_blen in H. ocbn in *. now rewrite total_plen.
    + exists (o_al t o), (o_bcap t o). ands. { eapply v_align_eq; eauto. } { eapply v_byte_capacity_eq; eauto. }
      cbv zeta. rewrite !padded_total_plen. unfold req_al in H. rewrite K in H.
      destruct o; cbn [orep] in R; try tauto; try (destruct R; congruence).
Qed.
Lemma pushes_of t self l o d w x : orep t self l o d w -> good t x -> nzst t -> can_align t o (vsize t x) (valign t x) ->
  pushes t self l x w.
Proof.
  intros R G Nz CA. unfold pushes. eapply run_conseq; [eapply v_push_wp; eauto|..]; cbv beta; auto.
  - intros _ w' (o' & o1 & d' & w1 & R' & [F D] & _). apply orep_repr in R'. ands; auto using repr_shows, others_frame.
  - intros r w' (R' & F & D & H & Rr). ands; auto using repr_shows, others_frame. eapply refused_of; eauto.
Qed.

(** C01: types whose alignment is static ([E], str, CStr). *)
Theorem C01_push_slices t self l x w : kind_of t = KAligned -> repr t self l w -> good t x -> pushes t self l x w.
Proof.
  intros K R G. apply repr_orep in R as (o & d & R). eapply pushes_of; eauto; intros K'; congruence.
Qed.
(** C01: without overflow and with an allocator that answers, [push] does return. *)
Theorem C01_push_slices_total t self l x w c : kind_of t = KAligned -> repr t self l w -> good t x ->
  alloc_total -> drops_quiet -> v_capacity t self w = (Ok c, w) ->
  want_cap (slot_size t) c (zlen l) 1 false * slot_size t <= isize_max - 7 ->
  total t l + vsize t x <= isize_max - (static_align t - 1) ->
  exists w', v_push t self x w = (Ok tt, w') /\ shows t self (l ++ [x]) w'.
Proof.
  intros K R G At Dq V H1 H2. destruct (run_ok _ _ _ _ _ (C01_push_slices t self l x w K R G)) as ([] & w' & E & P).
  - intros r w' (_ & _ & _ & _ & [F|[(c' & V' & L)|F]] & _).
    + now apply no_alloc_failed in F.
    + assert (c' = c) by congruence. subst c'. assert (slot_align t = 8) by (destruct t; [discriminate K|reflexivity..]). lia.
    + rewrite K in F. lia.
  - intros w' [F|F]; [now apply no_alloc_failed in F|now apply no_drop_panicked in F].
  - exists w'. tauto.
Qed.
(** C01: a push that would overflow never returns normally. *)
Theorem C01_push_overflow t self l x w : kind_of t = KAligned -> repr t self l w -> good t x ->
  isize_max - (static_align t - 1) < total t l + vsize t x ->
  forall w', v_push t self x w <> (Ok tt, w').
Proof.
  intros K R G H w' E. pose proof (run_of_eq _ _ _ _ _ _ _ (C01_push_slices t self l x w K R G) E) as (R' & _).
  apply repr_orep in R' as (o & d & R'). pose proof (orep_fit _ _ _ _ _ _ R'). pose proof (orep_bcap _ _ _ _ _ _ R') as B.
  destruct o; cbn [orep] in R'; try tauto; try (destruct R'; congruence). unfold o_blen in *. ocbn in *.
  rewrite total_plen in *. rewrite plen_app in *. cbn [plen] in *. pose proof (psz_ge t 1 ltac:(lia) x). lia.
Qed.

(** C02, guarded: alignment known at run time only. The guard excludes a zero-sized over-aligned value for a vector that
    has no byte buffer yet; there the statement is false ([Findings.C02_push_debug_refuted], [C15_misaligned_refuted]). *)
Theorem C02_push_dyn_partial t self l x w al bc : kind_of t = KUnaligned -> repr t self l w -> good t x ->
  v_align t self w = (Ok al, w) -> v_byte_capacity t self w = (Ok bc, w) ->
  0 < vsize t x \/ valign t x <= al \/ 0 < bc ->
  pushes t self l x w.
Proof.
  intros K R G Va Vb H. apply repr_orep in R as (o & d & R).
  rewrite (v_align_eq _ _ _ _ _ _ R) in Va. rewrite (v_byte_capacity_eq _ _ _ _ _ _ R) in Vb.
  injection Va as <-. injection Vb as <-. eapply pushes_of; eauto. intros K'; congruence. intros _; exact H.
Qed.

(** C03, guarded: Sized types that are not zero-sized. *)
Theorem C03_push_sized_partial t self l x w : kind_of t = KSized -> 0 < s_size t -> repr t self l w -> good t x ->
  pushes t self l x w.
Proof.
  intros K P R G. apply repr_orep in R as (o & d & R). eapply pushes_of; eauto; intros K'; congruence.
Qed.
(** C03, the excluded case: pushing a zero-sized value always panics (division by zero) and drops the value. *)
Theorem C03_push_zst_always_panics t self l x w : kind_of t = KSized -> s_size t = 0 -> repr t self l w -> zlen l < usize_max -> good t x ->
  run (v_push t self x) w (fun _ _ => False)
    (fun r w' => r = PDivZero /\ holds_list t self l w' /\ w' = set_drops (w_drops w ++ [x]) w)
    (fun w' => drop_panicked w w').
Proof.
  intros K Z0 R Ml G. pose proof R as R0. apply repr_orep in R as (o & d & R). unfold v_push. apply run_bind. unfold owned.
  assert (E : v_reserve_capacity_bytes_align t self 1 (vsize t x) (valign t x) w = (Panic PDivZero, w)).
  { assert (Cap : o_cap t o = usize_max).
    { destruct o; cbn [orep] in R; try tauto; try (destruct R; congruence). ocbn. unfold s_capacity. now rewrite Z0. }
    unfold v_reserve_capacity_bytes_align, v_try_reserve_capacity_bytes_align, v_try_reserve.
    rewrite (vsize_sized t x K G), Z0.
    assert (E1 : p_try_reserve t self 1 false w = (Ok ROk, w)).
    { eapply run_unit_eq; [eapply p_try_reserve_wp with (exact := false); eauto; lia|]. cbv beta.
      intros r w' (o' & d' & _ & _ & _ & _ & _ & _ & _ & No & _). apply No. lia. }
    rewrite bind_assoc. erewrite bind_eq by exact E1. cbv beta iota.
    assert (T : forall {B} (f : B -> M unit) (m : M B) r w', m w = (Panic r, w') -> bind m f w = (Panic r, w')).
    { intros B f m r w' H. unfold bind. now rewrite H. }
    apply T. erewrite bind_eq by (eapply v_capacity_eq; eauto). erewrite bind_eq by (eapply v_len_eq; eauto).
    erewrite bind_eq by (apply dassert_eq, Z.leb_le; lia).
    destruct (to_align_eq t (valign t x) w) as (a' & Ta & _). { intros K'; congruence. }
    erewrite bind_eq by exact Ta. erewrite bind_eq by (eapply v_byte_capacity_eq; eauto). erewrite bind_eq by (eapply unused_eq; eauto).
    cbv zeta. pose proof (orep_fit _ _ _ _ _ _ R). replace (sat_sub 0 (o_bcap t o - o_blen t o l)) with 0 by (unfold sat_sub; lia).
    cbn [Z.ltb Z.compare]. unfold bind at 1.
    assert (E2 : p_try_reserve_bytes_align t self 0 a' w = (Panic PDivZero, w)).
    { unfold p_try_reserve_bytes_align. rewrite K. unfold s_try_reserve_bytes.
      destruct o as [v|v|v|]; cbn [orep] in R; try tauto; try (destruct R; congruence).
      erewrite bind_eq by (eapply get_s_eq, R). pose proof (sr_slen _ _ _ _ _ _ R) as Sl. ocbn in *.
      erewrite bind_eq by (apply usub_eq; rewrite Sl; lia). unfold bind, div_ceil. rewrite Z0. reflexivity. }
    rewrite E2. reflexivity. }
  unfold run, on_unwind. rewrite E. unfold drop_value. destruct (cfg_drop_panics (length (w_drops w))) eqn:D.
  - now apply drop_panicked_1.
  - ands; auto. apply repr_holds. now apply repr_drops.
Qed.

(** C19: with room for one more element, its bytes and its alignment, [push] always returns, calls no allocator and moves
    nothing: the elements stay in the same block. *)
Theorem C19_push_in_place t self l x w c bc bl al : repr t self l w -> good t x -> nzst t ->
  v_capacity t self w = (Ok c, w) -> v_byte_capacity t self w = (Ok bc, w) -> v_byte_len t self w = (Ok bl, w) ->
  v_align t self w = (Ok al, w) ->
  zlen l < c -> bl + vsize t x <= bc -> (kind_of t = KUnaligned -> valign t x <= al) ->
  exists w', v_push t self x w = (Ok tt, w') /\ shows t self (l ++ [x]) w' /\
    w_nalloc w' = w_nalloc w /\ w_moved w' = w_moved w /\ owned_block w' self = owned_block w self /\
    v_capacity t self w' = (Ok c, w') /\ v_byte_capacity t self w' = (Ok bc, w') /\ v_align t self w' = (Ok al, w').
Proof.
  intros R G Nz Vc Vbc Vbl Va H1 H2 H3. apply repr_orep in R as (o & d & R).
  rewrite (v_capacity_eq _ _ _ _ _ _ R) in Vc. rewrite (v_byte_capacity_eq _ _ _ _ _ _ R) in Vbc.
  rewrite (v_byte_len_eq _ _ _ _ _ _ R) in Vbl. rewrite (v_align_eq _ _ _ _ _ _ R) in Va.
  injection Vc as <-. injection Vbc as <-. injection Vbl as <-. injection Va as <-.
  destruct (push_room_eq t self l o d w x R G Nz) as (d' & w' & E & R' & Q & Na & Mv). { split; [lia|auto]. }
  destruct (o_push_same t o l x) as (E1 & E2 & E3 & _ & E5).
  exists w'. ands; auto.
  - eapply repr_shows, orep_repr; eauto.
  - rewrite (orep_owned _ _ _ _ _ _ R'), (orep_owned _ _ _ _ _ _ R). now rewrite E5.
  - rewrite <- E1. eapply v_capacity_eq; eauto.
  - rewrite <- E2. eapply v_byte_capacity_eq; eauto.
  - rewrite <- E3. eapply v_align_eq; eauto.
Qed.

(** C19 for any number of pushes: with room for all of them, counting padding where there is any, none of them allocates or moves. *)
Definition pad_unit (t : ty) (al : Z) : Z := match kind_of t with KUnaligned => al | _ => 1 end.
Lemma o_pal_unit t self l o d w : orep t self l o d w -> o_pal o = pad_unit t (o_al t o).
Proof.
  intros R. unfold pad_unit. destruct o; cbn [orep] in R; try tauto.
  - now rewrite (sr_kind _ _ _ _ _ _ R).
  - now rewrite (ar_kind _ _ _ _ _ _ R).
  - now rewrite (ur_kind _ _ _ _ _ _ R).
Qed.
Theorem C19_pushes_in_place t self xs : nzst t -> forall l w c bc bl al, repr t self l w ->
  v_capacity t self w = (Ok c, w) -> v_byte_capacity t self w = (Ok bc, w) -> v_byte_len t self w = (Ok bl, w) -> v_align t self w = (Ok al, w) ->
  Forall (fun x => good t x /\ (kind_of t = KUnaligned -> valign t x <= al)) xs ->
  zlen l + zlen xs <= c -> bl + padded_total t (pad_unit t al) xs <= bc ->
  exists w', v_push_values t self xs w = (Ok tt, w') /\ shows t self (l ++ xs) w' /\
    w_nalloc w' = w_nalloc w /\ w_moved w' = w_moved w /\ w_drops w' = w_drops w /\ owned_block w' self = owned_block w self /\
    v_capacity t self w' = (Ok c, w') /\ v_byte_capacity t self w' = (Ok bc, w') /\ v_align t self w' = (Ok al, w').
Proof.
  intros Nz. induction xs as [|x xs IH]; intros l w c bc bl al R Vc Vbc Vbl Va G H1 H2.
  { exists w. rewrite app_nil_r. ands; auto using repr_shows. }
  inversion_clear G as [|? ? [Gx Ax] G']. pose proof R as R0. apply repr_orep in R as (o & d & R).
  rewrite (v_capacity_eq _ _ _ _ _ _ R) in Vc. rewrite (v_byte_capacity_eq _ _ _ _ _ _ R) in Vbc.
  rewrite (v_byte_len_eq _ _ _ _ _ _ R) in Vbl. rewrite (v_align_eq _ _ _ _ _ _ R) in Va.
  injection Vc as <-. injection Vbc as <-. injection Vbl as <-. injection Va as <-.
  pose proof (o_pal_unit _ _ _ _ _ _ R) as Pu. rewrite <- Pu in H2. cbn [padded_total fold_right] in H2. fold (padded_total t (o_pal o) xs) in H2.
  assert (P0 : 0 < o_pal o). { rewrite Pu. unfold pad_unit. pose proof (pow2_pos _ (orep_al _ _ _ _ _ _ R)). destruct (kind_of t); lia. }
  pose proof (pad_ge (vsize t x) (o_pal o) P0) as Pg.
  assert (Pn : 0 <= padded_total t (o_pal o) xs).
  { rewrite padded_total_plen. clear -G' P0. induction G' as [|y ys [Gy _] _ IH]; cbn [plen]; [lia|]. unfold psz.
    pose proof (pad_ge (vsize t y) (o_pal o) P0). pose proof (good_size t y Gy). lia. }
  assert (Zx : zlen (x :: xs) = zlen xs + 1) by (unfold zlen; cbn [length]; lia). pose proof (Zle_0_nat (length xs)) as Zn.
  destruct (push_room_eq t self l o d w x R Gx Nz) as (d' & w1 & E & R1 & Q & Na & Mv). { split; [unfold zlen in *; lia|]. split; [lia|auto]. }
  destruct (o_push_same t o l x) as (E1 & E2 & E3 & E4 & E5).
  destruct (IH (l ++ [x]) w1 (o_cap t o) (o_bcap t o) (o_blen t (o_push t o l x) (l ++ [x])) (o_al t o)) as (w' & E' & Sh & Na' & Mv' & D' & O' & Vs).
  - eapply orep_repr; eauto.
  - rewrite <- E1. eapply v_capacity_eq; eauto.
  - rewrite <- E2. eapply v_byte_capacity_eq; eauto.
  - eapply v_byte_len_eq; eauto.
  - rewrite <- E3. eapply v_align_eq; eauto.
  - exact G'.
  - unfold zlen in *. rewrite app_length. cbn [length]. lia.
  - rewrite <- Pu. unfold o_blen in *. rewrite E4, plen_snoc. unfold psz. lia.
  - exists w'. cbn [v_push_values]. erewrite bind_eq by exact E. rewrite <- app_assoc in Sh. ands; auto; try congruence.
    + rewrite D'. apply Q.
    + rewrite O', (orep_owned _ _ _ _ _ _ R1), (orep_owned _ _ _ _ _ _ R). now rewrite E5.
    + apply Vs.
    + apply Vs.
    + apply Vs.
Qed.

(** C30: reserving a larger alignment [a] (which is also the first step of adding an over-aligned element) keeps every
    element, re-pads them, and leaves room for the padded total and the requested bytes. In a debug build the failing path
    may panic instead of returning the error ([Findings.C21_try_reserve_debug_refuted]). *)
Theorem C30_raise_alignment t self l w n b a al : kind_of t = KUnaligned -> repr t self l w -> 0 <= n -> 0 <= b -> pow2 a ->
  v_align t self w = (Ok al, w) -> al < a -> 0 < b \/ l <> [] /\ 0 < total t l ->
  run (v_try_reserve_capacity_bytes_align t self n b a) w
    (fun r w' => shows t self l w' /\ w_drops w' = w_drops w /\ others self w w' /\
       (r = ROk -> v_align t self w' = (Ok a, w') /\ v_byte_len t self w' = (Ok (padded_total t a l), w') /\
                   exists bc, v_byte_capacity t self w' = (Ok bc, w') /\ padded_total t a l + b <= bc))
    (fun r w' => r = PDebugAssert /\ cfg_debug = true /\ shows t self l w' /\ w_drops w' = w_drops w)
    (fun _ => False).
Proof.
  intros K R Hn Hb P Va L Nb. apply repr_orep in R as (o & d & R). rewrite (v_align_eq _ _ _ _ _ _ R) in Va. injection Va as <-.
  assert (Nz : nzst t) by (intros K'; congruence).
  eapply run_conseq; [eapply v_try_reserve_cba_wp; eauto|..]; cbv beta; try tauto.
  - intros r w' (o' & d' & R' & Q & _ & _ & H). ands.
    + eapply repr_shows, orep_repr; eauto.
    + apply Q.
    + apply others_frame, Q.
    + intros ->. destruct H as (_ & B & Al & _). specialize (B ltac:(intros K'; congruence)).
      assert (Ea : o_al t o' = a).
      { destruct Al as [->|(_ & E1 & E2 & E3)].
        - unfold req_al. rewrite K. lia.
        - exfalso. subst b. destruct Nb as [Nb|[_ Nb]]; [lia|]. rewrite total_plen in Nb.
          pose proof (orep_fit _ _ _ _ _ _ R') as F'. rewrite E2 in F'. unfold o_blen in F'.
          pose proof (plen_le t 1 (o_pal o') pow2_1 (orep_pal _ _ _ _ _ _ R')) as PL. specialize (PL ltac:(pose proof (pow2_pos _ (orep_pal _ _ _ _ _ _ R')); lia) l).
          lia. }
      assert (Ep : o_pal o' = a). { destruct (o_al_pal _ _ _ _ _ _ R' ltac:(congruence)) as [[K' _]|[_ Ep]]; congruence. }
      rewrite padded_total_plen. unfold o_blen in B. rewrite Ep in B. ands.
      * rewrite <- Ea. eapply v_align_eq; eauto.
      * rewrite <- Ep. eapply v_byte_len_eq; eauto.
      * exists (o_bcap t o'). split; [eapply v_byte_capacity_eq; eauto|auto].
  - intros r w' (-> & Dbg & R' & Q & _). ands; auto. now apply repr_shows. apply Q.
Qed.
(** C30, adding: after pushing a non-empty over-aligned element the alignment is that element's and every element is kept. *)
Theorem C30_push_overaligned t self l x w al : kind_of t = KUnaligned -> repr t self l w -> good t x -> 0 < vsize t x ->
  v_align t self w = (Ok al, w) -> al < valign t x ->
  run (v_push t self x) w
    (fun _ w' => shows t self (l ++ [x]) w' /\ v_align t self w' = (Ok (valign t x), w') /\
                 v_byte_len t self w' = (Ok (padded_total t (valign t x) (l ++ [x])), w'))
    (fun _ w' => shows t self l w' /\ w_drops w' = w_drops w ++ [x])
    (fun w' => alloc_failed w w' \/ drop_panicked w w').
Proof.
  intros K R G Sz Va L. apply repr_orep in R as (o & d & R). rewrite (v_align_eq _ _ _ _ _ _ R) in Va. injection Va as <-.
  assert (Nz : nzst t) by (intros K'; congruence).
  eapply run_conseq; [eapply (v_push_wp t self l o d w x); eauto; intros _; auto|..]; cbv beta; auto.
  - intros _ w' (o' & o1 & d' & w1 & R' & Q & _ & _ & Al & _ & Al1 & _).
    assert (Ea : o_al t o' = valign t x). { rewrite Al, Al1. unfold req_al. rewrite K. lia. }
    assert (Ep : o_pal o' = valign t x). { destruct (o_al_pal _ _ _ _ _ _ R' ltac:(congruence)) as [[K' _]|[_ Ep]]; congruence. }
    ands. { eapply repr_shows, orep_repr; eauto. } { rewrite <- Ea. eapply v_align_eq; eauto. }
    rewrite padded_total_plen, <- Ep. eapply v_byte_len_eq; eauto.
  - intros r w' (R' & _ & D & _). split; auto. now apply repr_shows.
Qed.
End WithConfig.

Print Assumptions C01_push_slices.
Print Assumptions C01_push_slices_total.
Print Assumptions C01_push_overflow.
Print Assumptions C02_push_dyn_partial.
Print Assumptions C03_push_sized_partial.
Print Assumptions C03_push_zst_always_panics.
Print Assumptions C19_push_in_place.
Print Assumptions C19_pushes_in_place.
Print Assumptions C30_raise_alignment.
Print Assumptions C30_push_overaligned.

(** ** Concrete cases meeting the hypotheses *)
Section Cases.
Local Existing Instance cfg_release.
Ltac built := eapply (built_repr _ _ empty_world); [exact I|intros K; discriminate K|apply takesb_ok; reflexivity|run].

(** Two strings, [push("ef")]. *)
Example C01_case : exists v w w', repr TStr v [ab; cd] w /\ good TStr ef /\ v_push TStr v ef w = (Ok tt, w') /\
  shows TStr v [ab; cd; ef] w'.
Proof.
  do 3 eexists. split; [built|]. split; [apply goodb_ok; reflexivity|]. split; [run|]. run.
Qed.
(** [u8; 5] and u32 behind dyn, then a u64 raises the alignment from 4 to 8; also a case for C30. *)
Example C02_case : exists v w w', repr TDyn v [five 1; half 2] w /\ good TDyn (word 3) /\ v_push TDyn v (word 3) w = (Ok tt, w') /\
  shows TDyn v [five 1; half 2; word 3] w'.
Proof. do 3 eexists. split; [built|]. split; [apply goodb_ok; reflexivity|]. split; [run|]. run. Qed.
Definition wide16 : value := dyn_val 9 16 16 (repeat 7 16).
Example C30_case : exists v w w', repr TDyn v [five 1; half 2] w /\ v_align TDyn v w = (Ok 8, w) /\
  v_push TDyn v wide16 w = (Ok tt, w') /\ v_align TDyn v w' = (Ok 16, w') /\ v_byte_len TDyn v w' = (Ok 48, w') /\
  shows TDyn v [five 1; half 2; wide16] w'.
Proof. do 3 eexists. split; [built|]. repeat (split; [run|]). run. Qed.
Lemma wf_u32 : wf_ty (TSized 4 4).
Proof. split; [split; [lia|split; [exists 2; lia|lia]]|reflexivity]. Qed.
Example C03_case : exists v w w', repr (TSized 4 4) v [u32 1; u32 2] w /\ good (TSized 4 4) (u32 3) /\
  v_push (TSized 4 4) v (u32 3) w = (Ok tt, w') /\ shows (TSized 4 4) v [u32 1; u32 2; u32 3] w'.
Proof.
  do 3 eexists. split; [eapply (built_repr _ _ empty_world); [apply wf_u32|intros K; reflexivity|apply takesb_ok; reflexivity|run]|].
  split; [apply goodb_ok; reflexivity|]. split; [run|]. run.
Qed.
Example C03_zst_case : exists v w, repr (TSized 0 1) v [] w /\ good (TSized 0 1) (sized_val []).
Proof.
  exists 0%nat, (set_vecs [new_o (TSized 0 1) false] empty_world). split.
  - eapply orep_repr. apply (new_orep (TSized 0 1) false empty_world). split; [split; [lia|split; [exists 0; lia|lia]]|reflexivity].
  - apply goodb_ok. reflexivity.
Qed.
(** Three strings in a buffer grown to 8 bytes: a fourth two-byte string fits. *)
Example C19_case : exists v w, repr TStr v [ab; cd; ef] w /\ v_capacity TStr v w = (Ok 4, w) /\
  v_byte_capacity TStr v w = (Ok 8, w) /\ v_byte_len TStr v w = (Ok 6, w).
Proof. do 2 eexists. split; [built|]. split; [run|]. split; [run|]. run. Qed.
(** The configuration of these cases satisfies the totality assumptions. *)
Example cfg_release_total : alloc_total /\ drops_quiet.
Proof. split; intro n; [discriminate|reflexivity]. Qed.
End Cases.
