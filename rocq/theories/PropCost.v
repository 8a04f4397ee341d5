(** C47, C48: the bytes that reallocations move while a vector is filled.

    [w_moved] counts, for every successful reallocation of an element buffer, the bytes of the old block (World.v). The moves of
    the element-info [Vec] (std's own amortised growth) and the [memmove]s that re-align elements in place are not counted. *)
From Coq Require Import ZArith List Bool Lia.
From Verif Require Import Types World ValidSize Emplace SizedVec AlignedVec UnalignedVec Api Spec Bytes Arith Wp Mem Repr
  Access Reserve Realign Orep Push Deal PushWith Shell Insert Take Pop Box Iter Calls DropVec Family Build PushAll Sources Obs PropPush PropReserve PropShrink PropEmplace PropWhole Findings.
Import ListNotations.
Open Scope Z_scope.
Open Scope m_scope.

Section WithConfig.
Context {C : Config}.

(** ** One push *)
(** What the reservation of a push did, in terms of the vector before ([o], holding [l]) and after. *)
Definition paid (t : ty) (l : list value) (x : value) (o o' : obj) (w w' : world) : Prop :=
  o_al t o' = req_al t o (valign t x) /\
  (kind_of t <> KSized -> exists w1, w_moved w1 = w_moved w' /\ (alloc_failed w w1 -> False) /\ growth t l (vsize t x) (valign t x) o o' w w1 /\
     (o_cap t o' = o_cap t o \/ o_cap t o < zlen l + 1 /\ o_cap t o' = want_cap (info_size t) (o_cap t o) (zlen l) 1 false)) /\
  (kind_of t = KSized ->
     o_cap t o' = o_cap t o /\ w_moved w' = w_moved w \/
     o_cap t o < zlen l + 1 /\ o_cap t o' = want_cap (s_size t) (o_cap t o) (zlen l) 1 false /\ w_moved w' = w_moved w + o_bcap t o).

Lemma sized_caps t self l o d w : orep t self l o d w -> kind_of t = KSized -> 0 < s_size t -> o_bcap t o = o_cap t o * s_size t.
Proof.
  intros R K Z. destruct o as [v|v|v|]; cbn [orep o_bcap o_cap] in R |- *; try (destruct R; congruence); try contradiction.
  unfold s_capacity. destruct (Z.eqb_spec (s_size t) 0); lia.
Qed.

Lemma push_paid t self l o d w x : alloc_total -> orep t self l o d w -> good t x -> nzst t -> can_align t o (vsize t x) (valign t x) ->
  run (v_push t self x) w
    (fun _ w' => exists o' d', orep t self (l ++ [x]) o' d' w' /\ paid t l x o o' w w') (fun _ _ => True) (fun _ => True).
Proof.
  intros At R G Nz Ca. eapply run_conseq; [eapply v_push_wp; eauto|..]; cbv beta; auto.
  intros [] w' (o' & o1 & d' & w1 & R' & _ & Ec & Eb & Ea & _ & Al & [d1 R1] & (o2 & d2 & R2 & _ & _ & _ & _ & _ & _ & Gr & Gs) & _ & Mv).
  assert (o2 = o1) as ->. { apply orep_obj in R1, R2. congruence. }
  exists o', d'. split; auto. unfold paid. ands.
  - congruence.
  - intros K. destruct (Gr K) as [Gr' Cp]. exists w1. ands; auto; [intros (n & _ & F); apply (At n F)| |rewrite Ec; exact Cp].
    unfold growth in *. rewrite Eb. exact Gr'.
  - intros K. specialize (Nz K). pose proof (sized_caps _ _ _ _ _ _ R K Nz). pose proof (sized_caps _ _ _ _ _ _ R1 K Nz).
    destruct Gs as [->|(L & B & M)]; auto.
    + rewrite (vsize_sized _ _ K G). lia.
    + left. split; [|auto]. apply orep_obj in R, R1. congruence.
    + right. ands; auto. rewrite Ec. nia. congruence.
Qed.

Lemma push_values_paid t self (I : list value -> obj -> world -> Prop) xs : alloc_total -> nzst t ->
  forall l o d w,
  (forall xs1 x xs2 o1 d1 w1 o2 d2 w2, xs = xs1 ++ x :: xs2 -> I (l ++ xs1) o1 w1 -> paid t (l ++ xs1) x o1 o2 w1 w2 ->
     orep t self (l ++ xs1) o1 d1 w1 -> orep t self (l ++ xs1 ++ [x]) o2 d2 w2 -> I (l ++ xs1 ++ [x]) o2 w2) ->
  orep t self l o d w -> takes t (o_al t o) xs -> I l o w ->
  run (v_push_values t self xs) w (fun _ w' => exists o' d', orep t self (l ++ xs) o' d' w' /\ I (l ++ xs) o' w') (fun _ _ => True) (fun _ => True).
Proof.
  intros At Nz. induction xs as [|x xs IH]; intros l o d w Step R T Il; cbn [v_push_values].
  { apply run_ret. exists o, d. rewrite app_nil_r. auto. }
  inversion T as [|x' xs' [Gx Tx] T']; subst. apply run_bind.
  eapply run_conseq; [eapply (push_paid t self l o d w x At R Gx Nz)|..]; cbv beta; auto.
  - intros K. destruct (Tx K); auto.
  - intros [] w1 (o1 & d1 & R1 & P1).
    assert (I1 : I (l ++ [x]) o1 w1). { apply (Step [] x xs o d w o1 d1 w1); cbn [app]; rewrite ?app_nil_r; auto. }
    assert (Le : o_al t o <= o_al t o1). { rewrite (proj1 P1). apply req_al_ge. }
    assert (Eq : l ++ x :: xs = (l ++ [x]) ++ xs) by (rewrite <- app_assoc; reflexivity). rewrite Eq.
    eapply (IH (l ++ [x]) o1 d1 w1); auto.
    + intros xs1 y xs2 oa da wa ob db wb -> Ia Pa Ra Rb. rewrite <- !app_assoc in *. cbn [app] in *.
      apply (Step (x :: xs1) y xs2 oa da wa ob db wb); auto.
    + eapply takes_mono; eauto.
Qed.

Lemma pal_1 t self l o d w : orep t self l o d w -> kind_of t <> KUnaligned -> o_pal o = 1.
Proof. intros R K. destruct o as [v|v|v|]; cbn [orep o_pal] in *; auto. destruct R; congruence. Qed.
Lemma pal_al t self l o d w : orep t self l o d w -> kind_of t = KUnaligned -> o_pal o = o_al t o.
Proof. intros R K. destruct o as [v|v|v|]; cbn [orep o_pal o_al] in *; auto; try (destruct R; congruence); contradiction. Qed.
Lemma plen_le_app t a l m : 0 < a -> Forall (good t) m -> plen t a l <= plen t a (l ++ m).
Proof. intros P G. rewrite plen_app. pose proof (plen_nonneg t a P m G). lia. Qed.
Lemma plen_snoc_ge t a l x : 0 < a -> plen t a l + vsize t x <= plen t a (l ++ [x]).
Proof. intros P. rewrite plen_app. cbn [plen]. unfold psz. pose proof (pad_ge (vsize t x) a P). lia. Qed.

(** ** C47 *)
(** Filling a vector of elements of one alignment ([str], slices, tails): every reallocation at least doubles the buffer, so all of them
    together move at most the bytes by which the buffer grew, and the buffer never exceeds twice the bytes stored
    (or what it had). *)
Theorem C47_aligned_partial t self l xs w bc : kind_of t = KAligned -> repr t self l w -> Forall (good t) xs -> alloc_total ->
  v_byte_capacity t self w = (Ok bc, w) ->
  2 * bc + 4 * total t (l ++ xs) + static_align t <= isize_max ->
  run (v_push_values t self xs) w
    (fun _ w' => shows t self (l ++ xs) w' /\ w_moved w' - w_moved w <= Z.max 0 (2 * total t (l ++ xs) - bc))
    (fun _ _ => True) (fun _ => True).
Proof.
  intros K R G At Bc Fit. apply repr_orep in R as (o & d & R).
  assert (bc = o_bcap t o) as -> by (pose proof (v_byte_capacity_eq _ _ _ _ _ _ R); congruence).
  rewrite total_plen in *.
  eapply run_conseq;
    [eapply (push_values_paid t self (fun l' o' w' => w_moved w' - w_moved w <= o_bcap t o' - o_bcap t o /\
        o_bcap t o <= o_bcap t o' <= Z.max (o_bcap t o) (2 * plen t 1 l')) xs At)|..]; cbv beta; auto.
  - intros E. congruence.
  - intros xs1 x xs2 o1 d1 w1 o2 d2 w2 -> (Mv & Lo & Hi) (Al & Gr & _) R1 R2.
    destruct (Gr ltac:(congruence)) as (w2' & Ew & Nf & (B1 & B2 & B3 & B4 & B5 & _) & _). clear Gr.
    unfold o_blen in *. rewrite (pal_1 _ _ _ _ _ _ R1) in * by congruence.
    assert (req_pal t o1 (valign t x) = 1) as E1 by (unfold req_pal; now rewrite K). rewrite E1 in *.
    assert (req_al t o1 (valign t x) = o_al t o1) as E2 by (unfold req_al; now rewrite K). rewrite E2 in *.
    assert (o_al t o1 = static_align t) as E3.
    { destruct o1; cbn [orep o_al] in *; auto; try (destruct R1; congruence); contradiction. }
    rewrite app_assoc. pose proof (plen_snoc_ge t 1 (l ++ xs1) x ltac:(lia)) as Sn.
    apply Forall_app in G as [_ Gx]. inversion Gx as [|? ? Gx1 Gx2]; subst.
    pose proof (plen_le_app t 1 ((l ++ xs1) ++ [x]) xs2 ltac:(lia) Gx2) as Le.
    assert (((l ++ xs1) ++ [x]) ++ xs2 = l ++ xs1 ++ x :: xs2) as Ea by (rewrite <- !app_assoc; reflexivity). rewrite Ea in Le.
    pose proof (good_size t x Gx1) as Vn. pose proof (orep_bcap _ _ _ _ _ _ R) as Bn0.
    pose proof (orep_bcap _ _ _ _ _ _ R1) as Bn. pose proof (orep_blen_nonneg _ _ _ _ _ _ R1) as Pn.
    unfold o_blen in Pn. rewrite (pal_1 _ _ _ _ _ _ R1) in Pn by congruence.
    pose proof (plen_nonneg t 1 ltac:(lia) [x] ltac:(auto)) as Px.
    revert B5. destruct (Z.ltb_spec (o_bcap t o1) (plen t 1 (l ++ xs1) + vsize t x)) as [Lt|Ge]; intros B5.
    + destruct (B4 Lt) as [D|[F|Ov]]; [|contradiction|exfalso; lia]. rewrite (proj2 (Z.ltb_lt _ _) Lt) in B5. lia.
    + destruct (B3 Ge eq_refl) as [Eb Em]. rewrite plen_app in Sn |- *. lia.
  - exact R.
  - eapply Forall_impl; [|exact G]. cbv beta. split; auto. congruence.
  - lia.
  - intros [] w' (o' & d' & R' & Mv & Lo & Hi). split; [eapply repr_shows; eapply orep_repr; eauto|]. lia.
Qed.

(** The bookkeeping of std's growth policy: [o] and [w] at the start, [o'] and [w'] later. *)
Definition sized_bill (t : ty) (o : obj) (w : world) (l' : list value) (o' : obj) (w' : world) : Prop :=
  (o_cap t o' = 0 \/ min_non_zero_cap (s_size t) <= o_cap t o') /\
  w_moved w' - w_moved w <= (o_cap t o' - o_cap t o) * s_size t /\ o_cap t o <= o_cap t o' /\
  (w_moved w' <= w_moved w \/ o_cap t o' <= 2 * zlen l').
Lemma sized_bill_step t self o w l x o1 d1 w1 o2 w2 : kind_of t = KSized -> 0 < s_size t -> 0 <= o_cap t o ->
  sized_bill t o w l o1 w1 -> paid t l x o1 o2 w1 w2 -> orep t self l o1 d1 w1 -> sized_bill t o w (l ++ [x]) o2 w2.
Proof.
  intros K Z C0 (M1 & Mv & Lo & Hi) (_ & _ & Gs) R1. specialize (Gs K). unfold sized_bill.
  assert (Mp : 1 <= min_non_zero_cap (s_size t)).
  { unfold min_non_zero_cap. destruct (s_size t =? 1); [lia|]. destruct (s_size t <=? 1024); lia. }
  pose proof (sized_caps _ _ _ _ _ _ R1 K Z) as Eb1.
  pose proof (orep_len _ _ _ _ _ _ R1) as Ln1. assert (Zn1 : 0 <= zlen l) by apply zlen_nonneg.
  assert (Ez : zlen (l ++ [x]) = zlen l + 1) by (rewrite zlen_app; reflexivity).
  rewrite Ez. destruct Gs as [[Ec Em]|(Lt & Ec & Em)].
  + rewrite Ec, Em. ands; auto. destruct Hi; auto. right. lia.
  + unfold want_cap in Ec. rewrite Eb1 in Em.
    assert (E1 : o_cap t o1 = zlen l) by lia.
    destruct M1 as [M1|M1].
    * assert (w_moved w2 = w_moved w1) as Em' by (rewrite Em, M1; lia).
      assert (Mw : w_moved w1 - w_moved w <= 0) by (rewrite M1 in Mv; nia).
      ands; try lia; nia.
    * assert (E2 : o_cap t o2 = 2 * o_cap t o1) by lia. ands; try lia.
Qed.
Lemma sized_bill_end t self o d w l' o' d' w' : kind_of t = KSized -> 0 < s_size t ->
  orep t self l' o' d' w' -> forall l, orep t self l o d w -> sized_bill t o w l' o' w' ->
  w_moved w' - w_moved w <= Z.max 0 (2 * total t l' - o_bcap t o).
Proof.
  intros K Z R' l R (_ & Mv & Lo & Hi). rewrite (sized_caps _ _ _ _ _ _ R K Z).
  rewrite total_plen, (plen_sized t _ K) by (eapply orep_good; eauto). destruct Hi; [lia|]. nia.
Qed.

(** Filling a [Vec] of Sized elements. The capacity is 0 or at least std's first non-zero capacity, as after [new] or any growth. *)
Theorem C47_sized_partial t self l xs w c bc : kind_of t = KSized -> 0 < s_size t -> repr t self l w -> Forall (good t) xs -> alloc_total ->
  v_capacity t self w = (Ok c, w) -> v_byte_capacity t self w = (Ok bc, w) -> c = 0 \/ min_non_zero_cap (s_size t) <= c ->
  run (v_push_values t self xs) w
    (fun _ w' => shows t self (l ++ xs) w' /\ w_moved w' - w_moved w <= Z.max 0 (2 * total t (l ++ xs) - bc))
    (fun _ _ => True) (fun _ => True).
Proof.
  intros K Z R G At Cc Bc Mn. apply repr_orep in R as (o & d & R).
  assert (bc = o_bcap t o) as -> by (pose proof (v_byte_capacity_eq _ _ _ _ _ _ R); congruence).
  assert (c = o_cap t o) as -> by (pose proof (v_capacity_eq _ _ _ _ _ _ R); congruence).
  pose proof (orep_len _ _ _ _ _ _ R) as Ln. assert (Zn : 0 <= zlen l) by apply zlen_nonneg.
  eapply run_conseq; [eapply (push_values_paid t self (sized_bill t o w) xs At)|..]; cbv beta; auto.
  - intros E. auto.
  - intros xs1 x xs2 o1 d1 w1 o2 d2 w2 _ I1 P1 R1 _. rewrite app_assoc. eapply (sized_bill_step t self o w); eauto. lia.
  - exact R.
  - eapply Forall_impl; [|exact G]. cbv beta. split; auto. congruence.
  - unfold sized_bill. ands; auto; lia.
  - intros [] w' (o' & d' & R' & Bi). split; [eapply repr_shows; eapply orep_repr; eauto|]. eapply (sized_bill_end t self o d w); eauto.
Qed.

Lemma log2_lt a b : pow2 a -> pow2 b -> a < b -> 2 * a <= b /\ Z.log2 a + 1 <= Z.log2 b.
Proof.
  intros (i & Hi & ->) (j & Hj & ->) L. rewrite !Z.log2_pow2 by lia.
  assert (i < j) by (apply (Z.pow_lt_mono_r_iff 2); lia). split; [|lia].
  rewrite <- Z.pow_succ_r by lia. apply Z.pow_le_mono_r; lia.
Qed.
Lemma bill_doubled L1 L2 b b2 m : 1 <= L1 -> L1 <= L2 -> 0 <= b -> 2 * b <= b2 -> m <= L1 * b -> m + b <= L2 * b2.
Proof. intros. assert (L1 * b + b <= L1 * b2) by nia. nia. Qed.
Lemma bill_aligned L1 L2 b b2 m : 1 <= L1 -> L1 + 1 <= L2 -> 0 <= b -> b <= b2 -> m <= L1 * b -> m + b <= L2 * b2.
Proof. intros. assert (L1 * b + b <= L2 * b) by nia. nia. Qed.
Lemma fold_max_snoc a xs x : fold_right Z.max a (xs ++ [x]) = Z.max (fold_right Z.max a xs) x.
Proof. induction xs; cbn [fold_right app]; lia. Qed.

(** Filling a vector of elements of different alignments: a reallocation at least doubles the buffer, or raises the alignment. So each
    byte of the buffer is moved at most once plus once per doubling of the alignment, and the buffer stays below twice the padded
    bytes stored (plus what it had, plus a constant). Padding to the largest alignment is part of the cost: see [C47_padding_case]. *)
Theorem C47_unaligned_partial t self l xs w bc al B : kind_of t = KUnaligned -> repr t self l w -> takes t al xs -> alloc_total ->
  v_byte_capacity t self w = (Ok bc, w) -> v_align t self w = (Ok al, w) -> al <= B -> Forall (fun x => valign t x <= B) xs ->
  pow2 B -> 8 * (bc + padded_total t B (l ++ xs) + 2 * B) <= isize_max ->
  run (v_push_values t self xs) w
    (fun _ w' => shows t self (l ++ xs) w' /\ exists al', v_align t self w' = (Ok al', w') /\ al' = fold_right Z.max al (map (valign t) xs) /\
       w_moved w' - w_moved w <= (1 + Z.log2 al' - Z.log2 al) * (bc + 2 * padded_total t al' (l ++ xs) + 4 * al'))
    (fun _ _ => True) (fun _ => True).
Proof.

  intros K R T At Bc Av AB Xb PB Fit. apply repr_orep in R as (o & d & R).
  assert (bc = o_bcap t o) as -> by (pose proof (v_byte_capacity_eq _ _ _ _ _ _ R); congruence).
  assert (al = o_al t o) as -> by (pose proof (v_align_eq _ _ _ _ _ _ R); congruence).
  rewrite padded_total_plen in Fit. pose proof (orep_bcap _ _ _ _ _ _ R) as Bn0. pose proof (orep_al _ _ _ _ _ _ R) as P0.
  eapply run_conseq;
    [eapply (push_values_paid t self (fun l' o' w' => exists xs1, l' = l ++ xs1 /\
        o_al t o' = fold_right Z.max (o_al t o) (map (valign t) xs1) /\ o_al t o <= o_al t o' <= B /\
        o_bcap t o' <= o_bcap t o + 2 * plen t (o_al t o') l' + 4 * o_al t o' /\
        w_moved w' - w_moved w <= (1 + Z.log2 (o_al t o') - Z.log2 (o_al t o)) * o_bcap t o') xs At)|..]; cbv beta; auto.
  - intros E. congruence.
  - intros xs1 x xs2 o1 d1 w1 o2 d2 w2 -> (xs1' & Ex & Ea & Lo & Hi & Mv) (Al & Gr & _) R1 R2.
    apply app_inv_head in Ex as <-.
    destruct (Gr ltac:(congruence)) as (w2' & Ew & Nf & (B1 & B2 & B3 & B4 & B5 & _) & _). clear Gr.
    unfold o_blen in *. rewrite (pal_al _ _ _ _ _ _ R1 K) in *.
    assert (req_pal t o1 (valign t x) = Z.max (o_al t o1) (valign t x)) as E1 by (unfold req_pal; now rewrite K).
    assert (req_al t o1 (valign t x) = Z.max (o_al t o1) (valign t x)) as E2 by (unfold req_al; now rewrite K).
    rewrite E1, E2 in *. clear E1 E2. rewrite <- Al in *.
    pose proof (orep_al _ _ _ _ _ _ R1) as P1. pose proof (orep_al _ _ _ _ _ _ R2) as P2.
    apply Forall_app in Xb as [_ Xb]. inversion Xb as [|? ? Xb1 Xb2]; subst.
    apply Forall_app in T as [_ Tx]. inversion Tx as [|? ? [Gx _] Tx2]; subst.
    assert (G2 : Forall (good t) xs2) by (eapply Forall_impl; [|exact Tx2]; cbv beta; tauto).
    assert (Gl : Forall (good t) (l ++ xs1)) by (eapply orep_good; eauto).
    set (a := o_al t o1) in *. set (A := o_al t o2) in *. set (a0 := o_al t o) in *.
    set (bc := o_bcap t o1) in *. set (bc2 := o_bcap t o2) in *. set (bc0 := o_bcap t o) in *.
    pose proof (pow2_pos _ P1) as Pa. pose proof (pow2_pos _ P2) as PA. pose proof (pow2_pos _ PB) as PBp. pose proof (pow2_pos _ P0) as Pa0.
    pose proof (plen_snoc_ge t A (l ++ xs1) x PA) as Sn.
    pose proof (plen_le t a A P1 P2 ltac:(lia) (l ++ xs1)) as La.
    pose proof (plen_le t A B P2 PB ltac:(lia) (l ++ xs1)) as LB.
    pose proof (plen_nonneg t a Pa _ Gl) as Pn.
    pose proof (plen_le_app t B (l ++ xs1) (x :: xs2) PBp ltac:(constructor; auto)) as Le. rewrite <- app_assoc in Le.
    pose proof (good_size t x Gx) as Vn. pose proof (orep_bcap _ _ _ _ _ _ R1) as Bn. fold bc in Bn.
    assert (Lg : Z.log2 a0 <= Z.log2 a) by (apply Z.log2_le_mono; lia).
    exists (xs1 ++ [x]). rewrite map_app. change (map (valign t) [x]) with [valign t x]. rewrite fold_max_snoc, <- Ea.
    split; [auto|]. split; [auto|]. split; [lia|].
    rewrite app_assoc.
    destruct (Z.ltb_spec bc (plen t a (l ++ xs1) + vsize t x)) as [Lt|Ge].
    + destruct (B4 Lt) as [D|[F|Ov]]; [|contradiction|exfalso; lia].
      split; [lia|]. assert (Lg2 : Z.log2 a <= Z.log2 A) by (apply Z.log2_le_mono; lia).
      pose proof (bill_doubled (1 + Z.log2 a - Z.log2 a0) (1 + Z.log2 A - Z.log2 a0) bc bc2 _ ltac:(lia) ltac:(lia) (proj1 Bn) D Mv). lia.
    + destruct (Z.eq_dec A a) as [E|N].
      * destruct (B3 Ge E) as [Eb Em]. rewrite E in *. split; [lia|]. rewrite Eb. lia.
      * destruct (log2_lt a A P1 P2 ltac:(lia)) as [D2 Lg2]. split; [lia|].
        pose proof (bill_aligned (1 + Z.log2 a - Z.log2 a0) (1 + Z.log2 A - Z.log2 a0) bc bc2 _ ltac:(lia) ltac:(lia) (proj1 Bn) B1 Mv). lia.
  - exact R.
  - exact T.
  - exists []. rewrite app_nil_r. pose proof (pow2_pos _ P0). pose proof (plen_nonneg t (o_al t o) ltac:(lia) l ltac:(eapply orep_good; eauto)).
    ands; auto; try lia.
  - intros [] w' (o' & d' & R' & xs1 & Ex & Ea & Lo & Hi & Mv). apply app_inv_head in Ex as <-.
    split; [eapply repr_shows; eapply orep_repr; eauto|]. exists (o_al t o'). ands; auto. { eapply v_align_eq; eauto. }
    rewrite padded_total_plen. pose proof (pow2_pos _ P0).
    assert (Lg : Z.log2 (o_al t o) <= Z.log2 (o_al t o')) by (apply Z.log2_le_mono; lia).
    eapply Z.le_trans; [exact Mv|]. apply Z.mul_le_mono_nonneg_l; lia.
Qed.

(** ** C48 *)
Lemma run_both {A} (m : M A) w (Q1 Q2 : A -> world -> Prop) P1 P2 A1 A2 : run m w Q1 P1 A1 -> run m w Q2 P2 A2 ->
  run m w (fun a w' => Q1 a w' /\ Q2 a w') (fun r w' => P1 r w' /\ P2 r w') (fun w' => A1 w' /\ A2 w').
Proof. unfold run. destruct (m w) as [[]]; auto. Qed.

(** One [push_with] on a vector of elements of one alignment. *)
Lemma push_with_moves t self l o d w x : kind_of t = KAligned -> alloc_total -> orep t self l o d w -> good t x ->
  (o_cap t o < zlen l + 1 -> want_cap (info_size t) (o_cap t o) (zlen l) 1 false * info_size t <= isize_max - 7) ->
  o_bcap t o + vsize t x <= isize_max - (static_align t - 1) ->
  run (v_push_with t self (emplacable_of_value t x)) w
    (fun _ w' => exists o' d', orep t self (l ++ [x]) o' d' w' /\ o_bcap t o' = o_bcap t o + vsize t x /\
       w_moved w' = w_moved w + (if 0 <? vsize t x then o_bcap t o else 0) /\
       (o_cap t o' = o_cap t o \/ o_cap t o < zlen l + 1 /\ o_cap t o' = want_cap (info_size t) (o_cap t o) (zlen l) 1 false))
    (fun _ _ => False) (fun _ => False).
Proof.
  intros K At R G Cf Bf. pose proof (good_size t x G) as Sx.
  assert (F : fits t (layout_of t x) x).
  { apply fits_self; auto. intros ->. pose proof (buf_nonneg _ _ _ _ _ (orep_buf _ _ _ _ _ _ R)). cbn in *. lia. }
  assert (Nz : nzst t) by (intros E; congruence).
  destruct (p_push_with_form t self (emplacable_of_value t x)) as (E & Ef & EE).
  unfold v_push_with. rewrite Ef. unfold emplacable_of_value, run. rewrite (EE _ _ _ x w G F).
  fold (run (pw_emplacer t self (layout_of t x) (v_meta x) (fun p => if is_null p then drop_value x else mem_write p (v_bytes x))) w
    (fun _ w' => exists o' d', orep t self (l ++ [x]) o' d' w' /\ o_bcap t o' = o_bcap t o + vsize t x /\
       w_moved w' = w_moved w + (if 0 <? vsize t x then o_bcap t o else 0) /\
       (o_cap t o' = o_cap t o \/ o_cap t o < zlen l + 1 /\ o_cap t o' = want_cap (info_size t) (o_cap t o) (zlen l) 1 false))
    (fun _ _ => False) (fun _ => False)).
  unfold pw_emplacer. apply run_bind.
  eapply run_conseq; [eapply run_both; [eapply (p_try_reserve_wp t self l o d w 1 false R ltac:(lia))|
    eapply (p_try_reserve_cap t self l o d w 1 false R ltac:(lia) Nz)]|..]; cbv beta; try tauto.
  intros r w1 ((o1 & d1 & R1 & _ & _ & _ & Ea & _ & Un & Nop & _ & Res) & Cp). destruct (Un ltac:(left; congruence)) as (Eb & Em & _).
  assert (Es : slot_size t = info_size t) by (destruct t; try discriminate K; reflexivity). rewrite Es in Cp.
  destruct r as [|[]]; [|exfalso; destruct Res as [_ Ov]; unfold count_overflow in Ov; rewrite K in Ov;
      destruct (Z.lt_ge_cases (o_cap t o) (zlen l + 1)) as [L|L]; [specialize (Cf L); lia|destruct (Nop L); discriminate]
                        |exfalso; destruct Res as (n & _ & Fl); apply (At n Fl)].
  assert (Ec : o_cap t o1 = o_cap t o \/ o_cap t o < zlen l + 1 /\ o_cap t o1 = want_cap (info_size t) (o_cap t o) (zlen l) 1 false).
  { destruct (Z.lt_ge_cases (o_cap t o) (zlen l + 1)) as [L|L].
    - destruct (Cp eq_refl L) as (o2 & En & Ec). right. split; auto. pose proof (orep_obj _ _ _ _ _ _ R1). congruence.
    - left. destruct (Nop L) as [_ ->]. pose proof (orep_obj _ _ _ _ _ _ R1). pose proof (orep_obj _ _ _ _ _ _ R). congruence. }
  rewrite K. unfold p_try_reserve_bytes_align. rewrite K. apply run_bind.
  destruct o1 as [v1|v1|v1|]; cbn [orep] in R1; try (destruct R1; congruence); try contradiction.
  replace (l_size (layout_of t x)) with (vsize t x) by (symmetry; apply F).
  eapply run_conseq; [eapply (a_try_reserve_bytes_wp t self l v1 d1 w1 (vsize t x) R1 ltac:(lia))|..]; cbv beta; try tauto.
  assert (Ev : av_bcap v1 = o_bcap t o) by exact Eb. rewrite Ev.
  intros r w2 (v2 & d2 & R2 & _ & Ei & _ & Rr).
  destruct r as [|[]]; [|exfalso; lia|exfalso; destruct Rr as (_ & (n & _ & Fl) & _); apply (At n Fl)]. destruct Rr as [Eb2 Em2].
  cbn [unwrap_try_reserve_result]. eapply run_eq; [reflexivity|].
  assert (Rm : room t (OA v2) l x).
  { unfold room, o_blen. ocbn. ands; try congruence. rewrite Ei. cbn [o_cap] in Res. lia.
    rewrite Eb2. pose proof (ar_fit _ _ _ _ _ _ R1). lia. }
  assert (RO : orep t self l (OA v2) d2 w2) by exact R2.
  destruct (push_place_eq t self l (OA v2) d2 w2 x RO Rm G) as (s & Ep & Es2). specialize (Es2 ltac:(congruence)). subst s.
  eapply run_eq; [exact Ep|]. cbv beta iota.
  rewrite (buf_nonnull _ _ _ _ _ _ (orep_buf _ _ _ _ _ _ RO)).
  destruct (orep_write_tail t self l (OA v2) d2 w2 (v_bytes x) RO) as (Ew & Rw & Sw).
  { rewrite (good_bytes t x G). apply Rm. }
  eapply run_eq; [exact Ew|]. rewrite (good_bytes t x G) in Sw.
  eapply run_eq1; [apply (finish_push_eq t self l (OA v2) _ _ x Rw G Rm)|].
  destruct (o_push_same t (OA v2) l x) as (Q1 & Q2 & _).
  eexists _, _. split; [eapply orep_push; eauto; apply Rm|]. rewrite Q1, Q2. proj. cbn [o_bcap o_cap].
  split; [rewrite Eb2, ?Ev; reflexivity|]. split; [rewrite Em2, Em, ?Ev; reflexivity|]. rewrite Ei. exact Ec.
Qed.

(** Appending the values [xs], each of [s] bytes, with [push_with] (as [extend] and [collect] do) to a vector of byte
    capacity [bc]: the [i]-th call moves the whole buffer of [bc + i * s] bytes, whatever room there was. *)
Theorem C48_push_with_moves t self l xs w c bc s : kind_of t = KAligned -> alloc_total -> repr t self l w -> Forall (good t) xs ->
  v_capacity t self w = (Ok c, w) -> v_byte_capacity t self w = (Ok bc, w) ->
  0 < s -> Forall (fun x => vsize t x = s) xs ->
  16 * Z.max c (4 + 2 * zlen (l ++ xs)) <= isize_max - 7 -> bc + s * zlen xs <= isize_max - (static_align t - 1) ->
  run (v_push_all t self (map (emplacable_of_value t) xs)) w
    (fun _ w' => repr t self (l ++ xs) w' /\ shows t self (l ++ xs) w' /\
       2 * (w_moved w' - w_moved w) = zlen xs * (2 * bc + (zlen xs - 1) * s))
    (fun _ _ => False) (fun _ => False).
Proof.
  intros K At R G Cc Bc S Us Cf Bf. apply repr_orep in R as (o & d & R).
  assert (bc = o_bcap t o) as -> by (pose proof (v_byte_capacity_eq _ _ _ _ _ _ R); congruence).
  assert (c = o_cap t o) as -> by (pose proof (v_capacity_eq _ _ _ _ _ _ R); congruence). clear Cc Bc.
  revert l o d w R Cf Bf. induction xs as [|x xs IH]; intros l o d w R Cf Bf; cbn [map v_push_all].
  { apply run_ret. rewrite app_nil_r. split; [eapply orep_repr; eauto|]. split; [eapply repr_shows, orep_repr; eauto|].
    change (zlen (@nil value)) with 0. lia. }
  inversion G as [|? ? Gx Gxs]; subst. inversion Us as [|? ? Ex Uxs]; subst.
  rewrite zlen_app, zlen_cons in *. pose proof (zlen_nonneg xs) as Zx. pose proof (zlen_nonneg l) as Zl.
  assert (Is : 8 <= info_size t <= 16) by (unfold info_size; destruct t; lia).
  assert (Mz : min_non_zero_cap (info_size t) = 4) by (unfold info_size, min_non_zero_cap; destruct t; reflexivity).
  pose proof (orep_len _ _ _ _ _ _ R) as Ln.
  apply run_bind. apply run_on_unwind.
  eapply run_conseq; [eapply (push_with_moves t self l o d w x K At R Gx)|..]; cbv beta; try contradiction.
  - intros L. unfold want_cap. rewrite Mz. nia.
  - nia.
  - intros [] w1 (o1 & d1 & R1 & Eb & Em & Ec).
    assert (Lt : (0 <? vsize t x) = true) by (apply Z.ltb_lt; lia). rewrite Lt in Em.
    assert (Eq : l ++ x :: xs = (l ++ [x]) ++ xs) by (rewrite <- app_assoc; reflexivity). rewrite Eq.
    eapply run_conseq; [eapply (IH Gxs Uxs (l ++ [x]) o1 d1 w1 R1)|..]; cbv beta; try contradiction.
    + rewrite !zlen_app. change (zlen [x]) with 1. unfold want_cap in Ec. rewrite Mz in Ec. lia.
    + rewrite Eb. lia.
    + intros [] w2 (R2 & Sh & Mv). split; [exact R2|]. split; [exact Sh|]. rewrite Eb in Mv. rewrite Em in Mv. nia.
Qed.

(** The claim of amortised cost is false for [push_with]: no factor [c] bounds the bytes moved while a [Vec] of strings is collected
    by the bytes collected (here [2 * c + 2] strings of one byte, from an iterator without a size hint; every allocation succeeds). *)
Definition letter (x : Z) : value := str_val [x].
Theorem C48_refuted c w : alloc_total -> 0 <= c <= 2 ^ 50 ->
  let xs := repeat (letter 97) (Z.to_nat (2 * c + 2)) in
  Forall (good TStr) xs /\
  run (v_from_iter TStr 0 (map (emplacable_of_value TStr) xs)) w
    (fun v w' => shows TStr v xs w' /\ c * total TStr xs < w_moved w' - w_moved w) (fun _ _ => False) (fun _ => False).
Proof.
  intros At Hc xs. assert (Gl : good TStr (letter 97)) by (apply goodb_ok; reflexivity).
  assert (G : Forall (good TStr) xs) by (apply Forall_forall; intros y I; apply repeat_spec in I as ->; auto).
  assert (Zx : zlen xs = 2 * c + 2) by (unfold xs; rewrite zlen_repeat; lia).
  assert (Tx : total TStr xs = 2 * c + 2).
  { unfold xs. rewrite <- (Z2Nat.id (2 * c + 2)) at 2 by lia. generalize (Z.to_nat (2 * c + 2)) as n. induction n; [reflexivity|].
    cbn [repeat]. change (total TStr (letter 97 :: repeat (letter 97) n)) with (1 + total TStr (repeat (letter 97) n)). lia. }
  split; [exact G|]. unfold v_from_iter. unfold run. erewrite bind_eq by apply v_new_eq.
  set (w1 := set_vecs (w_vecs w ++ [new_o TStr false]) w). set (v := length (w_vecs w)).
  pose proof (new_orep TStr false w I) as R. fold w1 v in R.
  apply (run_bind (on_unwind (v_extend TStr v 0 (map (emplacable_of_value TStr) xs)) (v_drop TStr v)) (fun _ => ret v)).
  apply run_on_unwind. unfold v_extend.
  apply run_bind. apply run_on_unwind.
  unfold v_reserve_exact, v_try_reserve_exact_capacity_bytes, v_try_reserve_exact_capacity_bytes_align. apply run_bind, run_bind.
  eapply run_conseq; [eapply (p_try_reserve_wp TStr v [] _ [] w1 0 false R ltac:(lia))|..]; cbv beta; try contradiction.
  intros r w2 (_ & _ & _ & _ & _ & _ & _ & _ & _ & Nop & _). destruct (Nop ltac:(cbn; lia)) as [-> ->].
  unfold to_align. change (kind_of TStr) with KAligned. cbv iota. eapply run_eq; [reflexivity|].
  eapply run_conseq; [eapply (p_try_reserve_bytes_wp TStr v [] _ [] w1 0 1 R ltac:(lia))|..]; cbv beta; try contradiction; try discriminate.
  intros r w2 (_ & _ & _ & _ & _ & _ & Nop2 & _). destruct (Nop2 eq_refl ltac:(discriminate)) as [-> ->].
  apply run_ret.
  eapply run_conseq;
    [eapply (C48_push_with_moves TStr v [] xs w1 0 0 1 eq_refl At (orep_repr _ _ _ _ _ _ R) G)|..];
    cbv beta; try contradiction.
  - apply (v_capacity_eq _ _ _ _ _ _ R).
  - apply (v_byte_capacity_eq _ _ _ _ _ _ R).
  - lia.
  - apply Forall_forall. intros y Iy. apply repeat_spec in Iy as ->. reflexivity.
  - change ([] ++ xs) with xs. rewrite Zx. lia.
  - rewrite Zx. change (static_align TStr) with 1. lia.
  - intros [] w2 (_ & Sh & Mv). apply run_ret. split; [exact Sh|]. rewrite Tx. rewrite Zx in Mv.
    change (w_moved w1) with (w_moved w) in Mv. nia.
Qed.

(** For Sized elements [push_with] reserves as std does, and the claim holds. *)
Lemma push_with_paid t self l o d w x : kind_of t = KSized -> 0 < s_size t -> orep t self l o d w -> good t x ->
  run (v_push_with t self (emplacable_of_value t x)) w
    (fun _ w' => exists o' d', orep t self (l ++ [x]) o' d' w' /\ paid t l x o o' w w') (fun _ _ => True) (fun _ => True).
Proof.
  intros K Z R G. assert (Nc : not_huge t x) by (intros ->; discriminate K). pose proof (fits_self t x G Nc) as F.
  pose proof (good_size t x G) as Sx. assert (Nz : nzst t) by (intros _; exact Z).
  destruct (p_push_with_form t self (emplacable_of_value t x)) as (E & Ef & EE).
  unfold v_push_with. rewrite Ef. unfold emplacable_of_value, run. rewrite (EE _ _ _ x w G F).
  fold (run (pw_emplacer t self (layout_of t x) (v_meta x) (fun p => if is_null p then drop_value x else mem_write p (v_bytes x))) w
    (fun _ w' => exists o' d', orep t self (l ++ [x]) o' d' w' /\ paid t l x o o' w w') (fun _ _ => True) (fun _ => True)).
  unfold pw_emplacer. apply run_bind.
  eapply run_conseq; [eapply (p_try_reserve_wp t self l o d w 1 false R ltac:(lia))|..]; cbv beta; try tauto.
  intros r w1 (o1 & d1 & R1 & _ & Gc & _ & Ea & _ & _ & Nop & Gr & Res). rewrite K. eapply run_eq; [reflexivity|].
  destruct r as [|[]]; cbn [unwrap_try_reserve_result].
  2: { apply run_bind, run_panic. auto. }
  2: { apply run_bind. unfold handle_alloc_error. destruct cfg_oom_panics; [apply run_panic; auto|exact I]. }
  eapply run_eq; [reflexivity|].
  pose proof (sized_caps _ _ _ _ _ _ R K Z) as Eb. pose proof (sized_caps _ _ _ _ _ _ R1 K Z) as Eb1.
  assert (Rm : room t o1 l x).
  { unfold room, o_blen. rewrite (pal_1 _ _ _ _ _ _ R1) by congruence. ands; try congruence; try lia.
    rewrite Eb1, (plen_sized t l K) by (eapply orep_good; eauto). rewrite (vsize_sized t x K G). nia. }
  destruct (push_place_eq t self l o1 d1 w1 x R1 Rm G) as (s & Ep & _).
  eapply run_eq; [exact Ep|]. cbv beta iota.
  rewrite (buf_nonnull _ _ _ _ _ _ (orep_buf _ _ _ _ _ _ R1)).
  destruct (orep_write_tail t self l o1 d1 w1 (v_bytes x) R1) as (Ew & Rw & Sw).
  { rewrite (good_bytes t x G). apply Rm. }
  eapply run_eq; [exact Ew|]. rewrite (good_bytes t x G) in Sw.
  replace (l_size (layout_of t x)) with (vsize t x) by (symmetry; apply F).
  assert (Ef2 : forall s', finish_push t self (v_meta x) (vsize t x) s = finish_push t self (v_meta x) (vsize t x) s') by (intros s'; unfold finish_push; rewrite K; reflexivity).
  rewrite (Ef2 (o_blen t o1 l)).
  eapply run_eq1; [apply (finish_push_eq t self l o1 _ _ x Rw G Rm)|].
  destruct (o_push_same t o1 l x) as (Q1 & Q2 & Q3 & _).
  eexists _, _. split; [eapply orep_push; eauto; apply Rm|]. unfold paid. rewrite Q1, Q3. proj. ands.
  - rewrite Ea. unfold req_al. now rewrite K.
  - congruence.
  - intros _. destruct (Z.lt_ge_cases (o_cap t o) (zlen l + 1)) as [L|L].
    + right. destruct (Gr K L eq_refl) as [Ec Em]. ands; auto. nia.
    + left. destruct (Nop L) as [_ ->]. pose proof (orep_obj _ _ _ _ _ _ R1). pose proof (orep_obj _ _ _ _ _ _ R). split; congruence.
Qed.
Theorem C48_sized_partial t self l xs w c bc : kind_of t = KSized -> 0 < s_size t -> repr t self l w -> Forall (good t) xs ->
  v_capacity t self w = (Ok c, w) -> v_byte_capacity t self w = (Ok bc, w) -> c = 0 \/ min_non_zero_cap (s_size t) <= c ->
  run (v_push_all t self (map (emplacable_of_value t) xs)) w
    (fun _ w' => shows t self (l ++ xs) w' /\ w_moved w' - w_moved w <= Z.max 0 (2 * total t (l ++ xs) - bc))
    (fun _ _ => True) (fun _ => True).
Proof.
  intros K Z R G Cc Bc Mn. apply repr_orep in R as (o & d & R).
  assert (bc = o_bcap t o) as -> by (pose proof (v_byte_capacity_eq _ _ _ _ _ _ R); congruence).
  assert (c = o_cap t o) as -> by (pose proof (v_capacity_eq _ _ _ _ _ _ R); congruence).
  pose proof (orep_len _ _ _ _ _ _ R) as Ln. assert (Zn : 0 <= zlen l) by apply zlen_nonneg.
  assert (L : forall m o1 d1 w1, orep t self m o1 d1 w1 -> sized_bill t o w m o1 w1 ->
    run (v_push_all t self (map (emplacable_of_value t) xs)) w1
      (fun _ w' => exists o' d', orep t self (m ++ xs) o' d' w' /\ sized_bill t o w (m ++ xs) o' w') (fun _ _ => True) (fun _ => True)).
  { clear - K Z G Ln Zn. induction xs as [|x xs IH]; intros m o1 d1 w1 R1 B1; cbn [map v_push_all].
    { apply run_ret. rewrite app_nil_r. eauto. }
    inversion G; subst. apply run_bind. apply run_on_unwind.
    eapply run_conseq; [eapply (push_with_paid t self m o1 d1 w1 x K Z R1); auto|..]; cbv beta; auto.
    - intros [] w2 (o2 & d2 & R2 & P2). change (x :: xs) with ([x] ++ xs). rewrite app_assoc.
      eapply (IH ltac:(auto) (m ++ [x])); eauto. eapply (sized_bill_step t self o w m x o1 d1 w1); eauto. lia.
    - intros r w' _. eapply run_conseq; [eapply (emplacables_drop_wp _ (value_deals t xs) w')|..]; cbv beta; auto.
      apply values_family. eapply Forall_impl; [|eassumption]. intros y Gy. now apply good_wf. }
  eapply run_conseq; [eapply (L l o d w R)|..]; cbv beta; auto.
  - unfold sized_bill. ands; auto; lia.
  - intros [] w' (o' & d' & R' & Bi). split; [eapply repr_shows; eapply orep_repr; eauto|]. eapply (sized_bill_end t self o d w); eauto.
Qed.

(** C47 for a vector built from nothing ([unsized_vec![x1, ..., xn]], or [new] and [n] pushes). *)
Theorem C47_build_partial t xs w : wf_ty t -> nzst t -> takes t 8 xs -> alloc_total ->
  let al := fold_right Z.max 8 (map (valign t) xs) in
  match kind_of t with
  | KSized => True
  | KAligned => 4 * total t xs + static_align t <= isize_max
  | KUnaligned => 8 * (padded_total t al xs + 2 * al) <= isize_max
  end ->
  run (v_of_values t xs) w
    (fun v w' => shows t v xs w' /\
       match kind_of t with
       | KUnaligned => w_moved w' - w_moved w <= (Z.log2 al - 2) * (2 * padded_total t al xs + 4 * al)
       | _ => w_moved w' - w_moved w <= 2 * total t xs
       end)
    (fun _ _ => True) (fun _ => True).
Proof.
  intros W Nz T At al Fit. assert (G : Forall (good t) xs) by (eapply Forall_impl; [|exact T]; cbv beta; tauto).
  assert (Tn : 0 <= total t xs) by (rewrite total_plen; apply plen_nonneg; auto; lia).
  unfold v_of_values. unfold run. erewrite bind_eq by apply v_new_eq.
  set (w1 := set_vecs (w_vecs w ++ [new_o t false]) w). set (v := length (w_vecs w)).
  pose proof (new_orep t false w W) as R. fold w1 v in R.
  apply (run_bind (on_unwind (v_push_values t v xs) (v_drop t v)) (fun _ => ret v)). apply run_on_unwind.
  assert (T' : takes t (o_al t (new_o t false)) xs).
  { unfold new_o, o_al. destruct (kind_of t) eqn:K; eapply Forall_impl; try exact T; cbv beta; intros x [Gx Hx]; split; auto; congruence. }
  pose proof (v_byte_capacity_eq _ _ _ _ _ _ R) as Bc. pose proof (v_capacity_eq _ _ _ _ _ _ R) as Cc. pose proof (v_align_eq _ _ _ _ _ _ R) as Ac.
  assert (B0 : o_bcap t (new_o t false) = 0) by (unfold new_o; destruct (kind_of t); reflexivity). rewrite B0 in Bc.
  assert (H1 : run (v_push_values t v xs) w1 (fun _ w' => shows t v xs w' /\
       match kind_of t with
       | KUnaligned => w_moved w' - w_moved w <= (Z.log2 al - 2) * (2 * padded_total t al xs + 4 * al)
       | _ => w_moved w' - w_moved w <= 2 * total t xs
       end) (fun _ _ => True) (fun _ => True)).
  { change (w_moved w) with (w_moved w1). destruct (kind_of t) eqn:K.
    - assert (Z : 0 < s_size t) by auto.
      eapply run_conseq; [eapply (C47_sized_partial t v [] xs w1 _ 0 K Z (orep_repr _ _ _ _ _ _ R) G At Cc Bc)|..]; cbv beta; auto.
      + left. unfold new_o. rewrite K. cbn [o_cap]. unfold s_capacity. destruct (Z.eqb_spec (s_size t) 0); [lia|reflexivity].
      + intros [] w' [Sh Mv]. cbn [app] in *. split; auto. lia.
    - eapply run_conseq; [eapply (C47_aligned_partial t v [] xs w1 0 K (orep_repr _ _ _ _ _ _ R) G At Bc)|..]; cbv beta; auto.
      + intros [] w' [Sh Mv]. change ([] ++ xs) with xs in *. split; auto. lia.
    - assert (A0 : o_al t (new_o t false) = 8) by (unfold new_o; rewrite K; reflexivity). rewrite A0 in Ac.
      assert (Pal : pow2 al /\ 8 <= al /\ Forall (fun x => valign t x <= al) xs).
      { subst al. clear - G. induction G; cbn [map fold_right]; ands; auto; try lia; [apply pow2_8| |].
        - destruct IHG. apply pow2_maxi; auto. now apply good_align.
        - constructor; [lia|]. destruct IHG as (_ & _ & F). eapply Forall_impl; [|exact F]. cbv beta. lia. }
      destruct Pal as (Pal & Al8 & Fal).
      eapply run_conseq; [eapply (C47_unaligned_partial t v [] xs w1 0 8 al K (orep_repr _ _ _ _ _ _ R) T At Bc Ac Al8 Fal Pal)|..]; cbv beta; auto.
      intros [] w' (Sh & al' & _ & -> & Mv). change ([] ++ xs) with xs in *. split; auto. fold al in Mv. change (Z.log2 8) with 3 in Mv.
      replace (1 + Z.log2 al - 3) with (Z.log2 al - 2) in Mv by lia. lia. }
  eapply run_conseq; [eapply run_both; [exact H1|eapply (v_push_values_wp t v xs Nz [] _ _ w1 R T')]|..]; cbv beta; auto.
  - intros [] w' [H _]. apply run_ret. exact H.
  - intros r w' (_ & xs1 & x & xs2 & o' & d' & _ & R' & _).
    eapply run_conseq; [eapply v_drop_wp; eauto|..]; cbv beta; auto.
Qed.

(** ** C47 is false for elements of different alignments *)
Lemma push_total t self l o d w x : alloc_total -> drops_quiet -> orep t self l o d w -> good t x -> nzst t ->
  can_align t o (vsize t x) (valign t x) -> ~ count_overflow t o (zlen l) 1 false -> ~ bytes_overflow t o l 1 (vsize t x) (valign t x) ->
  run (v_push t self x) w
    (fun _ w' => exists o' d', orep t self (l ++ [x]) o' d' w' /\ paid t l x o o' w w') (fun _ _ => False) (fun _ => False).
Proof.
  intros At Dq R G Nz Ca Nc Nb. eapply run_conseq; [eapply run_both; [eapply (push_paid t self l o d w x At); eauto|eapply v_push_wp; eauto]|..]; cbv beta.
  - tauto.
  - intros r w' (_ & _ & _ & _ & F & _). destruct F as [F|[F|F]]; [tauto|tauto|]. now apply (no_alloc_failed _ _ At) in F.
  - intros w' [_ [F|F]]; [now apply (no_alloc_failed _ _ At) in F|now apply (no_drop_panicked _ _ Dq) in F].
Qed.

Definition wide (n : Z) : value := dyn_val 9 n n (repeat 5 (Z.to_nat n)).
Lemma wide_good n : pow2 n -> 2 * n <= isize_max -> good TDyn (wide n).
Proof.
  intros P L. pose proof (pow2_pos _ P). apply good_of_wf; [|intros a; discriminate].
  split; [split; [|split]|].
  - split; [unfold size_of_val, wide; cbn [v_meta dyn_val]; lia|]. split; [exact P|]. unfold size_of_val, align_of_val, wide. cbn [v_meta dyn_val]. lia.
  - unfold size_of_val, align_of_val, wide. cbn [v_meta dyn_val]. apply Z.mod_same. lia.
  - exact I.
  - unfold vsize, wide. cbn [v_meta v_bytes dyn_val size_of_val]. rewrite map_length, repeat_length. lia.
Qed.
Lemma plen_ones A n : 1 <= A -> plen TDyn A (repeat (one 1) n) = Z.of_nat n * A.
Proof.
  intros P. induction n as [|n IH]; [reflexivity|]. cbn [repeat plen]. rewrite IH. unfold psz. change (vsize TDyn (one 1)) with 1.
  assert (E : pad 1 A = A). { unfold pad. replace (1 + A - 1) with A by lia. rewrite Z.div_same by lia. lia. }
  rewrite E. lia.
Qed.
Definition after_wide (A : Z) (n : nat) : list value := wide A :: repeat (one 1) n.
Lemma plen_after A n : pow2 A -> plen TDyn A (after_wide A n) = (Z.of_nat n + 1) * A.
Proof.
  intros P. pose proof (pow2_pos _ P). unfold after_wide. cbn [plen]. rewrite plen_ones by lia. unfold psz.
  change (vsize TDyn (wide A)) with A. rewrite pad_id by (auto; apply Z.mod_same; lia). lia.
Qed.
Lemma after_snoc A n : after_wide A n ++ [one 1] = after_wide A (S n).
Proof. unfold after_wide. cbn [app]. f_equal. now rewrite <- repeat_cons. Qed.
Definition bill_wide (A : Z) (w0 : world) (n : nat) (o : obj) (w : world) : Prop :=
  o_al TDyn o = A /\ w_moved w0 <= w_moved w /\ o_bcap TDyn o <= 2 * (w_moved w - w_moved w0) + 3 * A /\
  o_bcap TDyn o <= 2 * (Z.of_nat n + 1) * A + 2 * A /\ o_cap TDyn o <= 4 + 2 * (Z.of_nat n + 1).
Lemma wide_loop self A w0 N : alloc_total -> drops_quiet -> pow2 A -> 8 <= A -> 32 * (Z.of_nat N + 2) * A <= isize_max ->
  forall n j o d w, (j + n = N)%nat -> orep TDyn self (after_wide A j) o d w -> bill_wide A w0 j o w ->
  run (v_push_values TDyn self (repeat (one 1) n)) w
    (fun _ w' => exists o' d', orep TDyn self (after_wide A N) o' d' w' /\ bill_wide A w0 N o' w') (fun _ _ => False) (fun _ => False).
Proof.
  intros At Dq P A8 Fit. induction n as [|n IH]; intros j o d w Ej R B; cbn [repeat v_push_values].
  { apply run_ret. replace N with j by lia. eauto. }
  destruct B as (Al & Mn & Bm & Bl & Cp). apply run_bind.
  assert (Go : good TDyn (one 1)) by (apply goodb_ok; reflexivity).
  assert (Jn : Z.of_nat j + 1 <= Z.of_nat N) by lia. assert (J0 : 0 <= Z.of_nat j) by lia. set (J := Z.of_nat j) in *.
  assert (Zl : zlen (after_wide A j) = J + 1). { unfold after_wide. rewrite zlen_cons, zlen_repeat. reflexivity. }
  assert (Pl : o_blen TDyn o (after_wide A j) = (J + 1) * A). { unfold o_blen. rewrite (pal_al _ _ _ _ _ _ R eq_refl), Al. now apply plen_after. }
  assert (Ra : req_al TDyn o 1 = A) by (unfold req_al; cbn [kind_of]; lia). assert (Rp : req_pal TDyn o 1 = A) by (unfold req_pal; cbn [kind_of]; lia).
  assert (JA : (J + 2) * A <= (Z.of_nat N + 2) * A) by nia. assert (Fit2 : 32 * (J * A) + 64 * A <= isize_max) by nia. assert (JA0 : 0 <= J * A) by nia.
  pose proof (orep_bcap _ _ _ _ _ _ R) as Bn.
  eapply run_conseq; [eapply (push_total TDyn self _ o d w (one 1) At Dq R Go)|..]; cbv beta; auto.
  - intros K; discriminate K.
  - intros _. change (vsize TDyn (one 1)) with 1. left. lia.
  - unfold count_overflow. cbn [kind_of]. change (info_size TDyn) with 16. unfold want_cap. change (min_non_zero_cap 16) with 4.
    rewrite Zl. intros H. nia.
  - unfold bytes_overflow. cbn [kind_of]. change (valign TDyn (one 1)) with 1. change (vsize TDyn (one 1)) with 1. rewrite Ra, Pl, (plen_after A j P). fold J. intros H. nia.
  - intros [] w' (o' & d' & R' & Al' & Pd & _). destruct (Pd ltac:(discriminate)) as (w2 & Ew & Nf & (B1 & B2 & B3 & B4 & B5 & B6) & Cc). clear Pd.
    change (valign TDyn (one 1)) with 1 in *. change (vsize TDyn (one 1)) with 1 in *. rewrite Ra, ?Rp, Pl in *. rewrite (plen_after A j P) in *. fold J in B4, B5.
    change (info_size TDyn) with 16 in Cc. unfold want_cap in Cc. change (min_non_zero_cap 16) with 4 in Cc. rewrite Zl in Cc. rewrite Ew in *.
    rewrite after_snoc in R'. eapply (IH (S j) o' d' w'); auto; [lia|]. unfold bill_wide. rewrite Nat2Z.inj_succ. fold J.
    replace (2 * (Z.succ J + 1) * A) with (2 * (J * A) + 4 * A) by ring.
    replace ((J + 1) * A) with (J * A + A) in * by ring. replace (2 * (J + 1) * A) with (2 * (J * A) + 2 * A) in * by ring.
    pose proof (orep_fit _ _ _ _ _ _ R) as Ft. rewrite Pl in Ft. clear IH R R' JA.
    destruct (Z.ltb_spec (o_bcap TDyn o) (J * A + A + 1)) as [Lt|Ge].
    + destruct (B4 Lt) as [D|[F|Ov]]; [|contradiction|exfalso; clear - Ov Fit2 Ft Bl Bn A8; lia]. specialize (B6 ltac:(lia)). ands; try lia.
    + destruct (B3 ltac:(lia) ltac:(lia)) as [Eb Em]. rewrite Eb, Em. ands; try lia.
Qed.
(** No factor [c] bounds the bytes moved by the bytes pushed: one element of size and alignment [A >= 8 * c] and then [A] elements of
    one byte, each of which is padded to [A] bytes (every allocation succeeds). *)
Theorem C47_refuted c w : alloc_total -> drops_quiet -> 0 <= c <= 2 ^ 20 ->
  let A := 8 * 2 ^ Z.log2_up (c + 1) in
  let xs := wide A :: repeat (one 1) (Z.to_nat A) in
  takes TDyn 8 xs /\
  run (v_of_values TDyn xs) w
    (fun v w' => shows TDyn v xs w' /\ c * total TDyn xs < w_moved w' - w_moved w) (fun _ _ => False) (fun _ => False).
Proof.
  intros At Dq Hc A xs.
  assert (E : A = 2 ^ (3 + Z.log2_up (c + 1))). { unfold A. rewrite Z.pow_add_r; [reflexivity|lia|apply Z.log2_up_nonneg]. }
  assert (Lg : 0 <= Z.log2_up (c + 1) <= 21).
  { split; [apply Z.log2_up_nonneg|]. change 21 with (Z.log2_up (2 ^ 20 + 1)). apply Z.log2_up_le_mono. lia. }
  assert (P : pow2 A). { exists (3 + Z.log2_up (c + 1)). split; [lia|exact E]. }
  assert (Lo : 8 * (c + 1) <= A).
  { unfold A. destruct (Z.eq_dec c 0) as [->|]; [vm_compute; discriminate|]. pose proof (Z.log2_up_spec (c + 1) ltac:(lia)). lia. }
  assert (Hi : A <= 2 ^ 24).
  { rewrite E. apply Z.pow_le_mono_r; lia. }
  clearbody A. clear E. assert (Gw : good TDyn (wide A)) by (apply wide_good; auto; lia).
  assert (Go : good TDyn (one 1)) by (apply goodb_ok; reflexivity).
  assert (T : takes TDyn 8 xs).
  { constructor. { split; auto. intros _. left. change (vsize TDyn (wide A)) with A. lia. }
    apply Forall_forall. intros y I. apply repeat_spec in I as ->. split; auto. intros _. left. reflexivity. }
  split; [exact T|].
  assert (Tt : total TDyn xs = 2 * A).
  { unfold xs. rewrite total_plen. cbn [plen]. rewrite plen_ones by lia. unfold psz. change (vsize TDyn (wide A)) with A. rewrite pad_1, Z2Nat.id by lia. lia. }
  unfold v_of_values. unfold run. erewrite bind_eq by apply v_new_eq.
  set (w1 := set_vecs (w_vecs w ++ [new_o TDyn false]) w). set (v := length (w_vecs w)).
  pose proof (new_orep TDyn false w I) as R. fold w1 v in R.
  apply (run_bind (on_unwind (v_push_values TDyn v xs) (v_drop TDyn v)) (fun _ => ret v)). apply run_on_unwind.
  unfold xs. cbn [v_push_values]. apply run_bind.
  assert (A0 : o_al TDyn (new_o TDyn false) = 8) by reflexivity. assert (B0 : o_bcap TDyn (new_o TDyn false) = 0) by reflexivity.
  assert (C0 : o_cap TDyn (new_o TDyn false) = 0) by reflexivity. assert (L0 : o_blen TDyn (new_o TDyn false) [] = 0) by reflexivity.
  set (o := new_o TDyn false) in *.
  assert (Ra : req_al TDyn o A = A) by (unfold req_al; cbn [kind_of]; lia). assert (Rp : req_pal TDyn o A = A) by (unfold req_pal; cbn [kind_of]; lia).
  eapply run_conseq; [eapply (push_total TDyn v [] o [] w1 (wide A) At Dq R Gw)|..]; cbv beta; try contradiction.
  - intros K; discriminate K.
  - intros _. change (vsize TDyn (wide A)) with A. left. lia.
  - unfold count_overflow. cbn [kind_of]. change (info_size TDyn) with 16. unfold want_cap. rewrite C0. change (min_non_zero_cap 16) with 4.
    change (zlen (@nil value)) with 0. lia.
  - unfold bytes_overflow. cbn [kind_of plen]. change (valign TDyn (wide A)) with A. change (vsize TDyn (wide A)) with A. rewrite Ra, L0, B0. lia.
  - intros [] w2 (o2 & d2 & R2 & Al2 & Pd & _). destruct (Pd ltac:(discriminate)) as (w3 & Ew & Nf & (B1 & B2 & B3 & B4 & B5 & B6) & Cc). clear Pd.
    change (valign TDyn (wide A)) with A in *. change (vsize TDyn (wide A)) with A in *. cbn [plen] in B5, B4. rewrite Ra, ?Rp, L0, B0 in *.
    rewrite C0 in Cc. change (info_size TDyn) with 16 in Cc. unfold want_cap in Cc. change (min_non_zero_cap 16) with 4 in Cc. change (zlen (@nil value)) with 0 in Cc.
    pose proof (orep_fit _ _ _ _ _ _ R2) as Ft2. unfold o_blen in Ft2. rewrite (pal_al _ _ _ _ _ _ R2 eq_refl), Al2 in Ft2.
    change ([] ++ [wide A]) with (after_wide A 0) in Ft2, R2. rewrite plen_after in Ft2 by auto.
    rewrite (proj2 (Z.ltb_lt 0 (0 + A))) in B5 by lia.
    eapply run_conseq; [eapply (wide_loop v A w1 (Z.to_nat A) At Dq P ltac:(lia) ltac:(rewrite Z2Nat.id by lia; nia) (Z.to_nat A) 0 o2 d2 w2 eq_refl R2)|..]; cbv beta; try contradiction.
    + specialize (B6 ltac:(lia)). unfold bill_wide. change (Z.of_nat 0) with 0. ands; auto; lia.
    + intros [] w' (o' & d' & R' & Al' & Mn & Bm & _). fold xs. change xs with (after_wide A (Z.to_nat A)) at 1.
      apply run_ret. split; [eapply repr_shows, orep_repr; eauto|].
      pose proof (orep_fit _ _ _ _ _ _ R') as Ft. unfold o_blen in Ft. rewrite (pal_al _ _ _ _ _ _ R' eq_refl), Al', plen_after, Z2Nat.id in Ft by (auto; lia).
      fold (after_wide A (Z.to_nat A)) in xs. change (w_moved w1) with (w_moved w) in *. change (after_wide A (Z.to_nat A)) with xs. rewrite Tt. nia.
Qed.
End WithConfig.

Print Assumptions C47_aligned_partial.
Print Assumptions C47_sized_partial.
Print Assumptions C47_unaligned_partial.
Print Assumptions C47_build_partial.
Print Assumptions C47_refuted.
Print Assumptions C48_push_with_moves.
Print Assumptions C48_refuted.
Print Assumptions C48_sized_partial.

(** ** Concrete cases *)
Section Cases.
Local Existing Instance cfg_release.
Definition letters (n : nat) : list value := map (fun i => letter (Z.of_nat i)) (seq 0 n).
Lemma release_total : @alloc_total cfg_release.
Proof. intros n. discriminate. Qed.

(** Forty strings of one byte by [push]: 63 bytes moved (the bound says 80); by [collect], even with an exact size hint: 780. *)
Example C47_case : takes TStr 8 (letters 40) /\ exists v w, v_of_values TStr (letters 40) empty_world = (Ok v, w) /\ shows TStr v (letters 40) w /\
  w_moved w = 63 /\ total TStr (letters 40) = 40.
Proof. split; [apply takesb_ok; run|]. do 2 eexists. split; [run|]. split; [run|]. split; run. Qed.
Example C48_case : Forall (good TStr) (letters 40) /\ exists v w,
  v_from_iter TStr 40 (map (emplacable_of_value TStr) (letters 40)) empty_world = (Ok v, w) /\ shows TStr v (letters 40) w /\ w_moved w = 780.
Proof. split; [apply Forall_forall; intros x I; apply goodb_ok; revert x I; apply forallb_forall; run|]. do 2 eexists. split; [run|]. split; run. Qed.
Example C47_sized_case : let xs := map u32 (map Z.of_nat (seq 0 20)) in takes (TSized 4 4) 8 xs /\ exists v w,
  v_of_values (TSized 4 4) xs empty_world = (Ok v, w) /\ shows (TSized 4 4) v xs w /\ w_moved w = 112 /\ total (TSized 4 4) xs = 80.
Proof. split; [apply takesb_ok; run|]. do 2 eexists. split; [run|]. split; [run|]. split; run. Qed.
(** Alignments 1, 4, 8, 16, 32 behind [dyn]; the bound is (5 - 2) * (2 * 224 + 4 * 32). *)
Example C47_dyn_case : let xs := [five 1; word 2; half 3; wide 16; five 2; word 5; wide 32] in takes TDyn 8 xs /\ exists v w,
  v_of_values TDyn xs empty_world = (Ok v, w) /\ shows TDyn v xs w /\ w_moved w = 152 /\ padded_total TDyn 32 xs = 224.
Proof. split; [apply takesb_ok; run|]. do 2 eexists. split; [run|]. split; [run|]. split; run. Qed.
(** Counted without padding, the cost is not a small multiple of the bytes pushed: one element of alignment 256 and then 70 bytes
    make the reallocations move 32512 bytes for 326 pushed. *)
Example C47_padding_case : let xs := wide 256 :: repeat (one 1) 70 in takes TDyn 8 xs /\
  match v_of_values TDyn xs empty_world with (Ok v, w) => w_moved w | _ => 0 end = 32512 /\
  total TDyn xs = 326 /\ padded_total TDyn 256 xs = 18176.
Proof. split; [apply takesb_ok; run|]. split; [run|]. split; run. Qed.
(** [collect] for [dyn] elements of one size and alignment is quadratic as well. *)
Example C48_dyn_case : exists v w, v_from_iter TDyn 40 (map (emplacable_of_value TDyn) (repeat (word 1) 40)) empty_world = (Ok v, w) /\
  shows TDyn v (repeat (word 1) 40) w /\ w_moved w = 8 * 780.
Proof. do 2 eexists. split; [run|]. split; run. Qed.
Example C48_sized_case : exists v w, v_from_iter (TSized 4 4) 0 (map (emplacable_of_value (TSized 4 4)) (map u32 (map Z.of_nat (seq 0 20)))) empty_world = (Ok v, w) /\
  shows (TSized 4 4) v (map u32 (map Z.of_nat (seq 0 20))) w /\ w_moved w = 112.
Proof. do 2 eexists. split; [run|]. split; run. Qed.
End Cases.
