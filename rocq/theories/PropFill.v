(** C75: filling a vector of trait objects does not fail while there is room.

    C74 leaves trait objects out: their padding grows with the largest alignment a vector has met, so the bytes asked for do not bound
    the bytes needed. Here the room is measured in padded bytes. *)
From Coq Require Import ZArith List Bool Lia.
From Verif Require Import Types World ValidSize Emplace SizedVec AlignedVec UnalignedVec Api Spec Bytes Arith Wp Mem Repr
  Access Reserve Realign Orep Push Deal PushWith Shell Insert Take Pop Box Iter Calls DropVec Family Build PushAll Sources Obs PropPush PropReserve PropShrink PropEmplace PropWhole Findings PropCost History PropRoom.
Import ListNotations.
Open Scope Z_scope.
Open Scope m_scope.

Section WithConfig.
Context {C : Config}.

(** What stays true while the vector is filled: the alignment below [A], the buffer below twice the padded bytes, the entries below twice
    the elements (each with what was there before). *)
Definition roomy (t : ty) (A bc c : Z) (l : list value) (o : obj) : Prop :=
  o_al t o <= A /\ o_bcap t o <= bc + 2 * plen t (o_al t o) l + 4 * o_al t o /\ o_cap t o <= 4 + c + 2 * zlen l.

Lemma roomy_step t self l o d w x A bc c : kind_of t = KUnaligned -> alloc_total -> drops_quiet -> orep t self l o d w -> good t x ->
  can_align t o (vsize t x) (valign t x) -> valign t x <= A -> pow2 A -> 0 <= bc -> 0 <= c -> roomy t A bc c l o ->
  8 * (bc + plen t A (l ++ [x]) + 2 * A) <= isize_max -> 64 * (c + zlen l + 4) <= isize_max ->
  run (v_push t self x) w (fun _ w' => exists o' d', orep t self (l ++ [x]) o' d' w' /\ o_al t o' = Z.max (o_al t o) (valign t x) /\ roomy t A bc c (l ++ [x]) o')
    (fun _ _ => False) (fun _ => False).
Proof.
  intros K At Dq R Gx Ca La PA Bc0 C0 (Al & Bl & Cp) Fit Fic.
  assert (Is : info_size t = 16) by (destruct t; try discriminate K; reflexivity).
  assert (E1 : req_pal t o (valign t x) = Z.max (o_al t o) (valign t x)) by (unfold req_pal; now rewrite K).
  assert (E2 : req_al t o (valign t x) = Z.max (o_al t o) (valign t x)) by (unfold req_al; now rewrite K).
  assert (E3 : o_blen t o l = plen t (o_al t o) l) by (unfold o_blen; now rewrite (pal_al _ _ _ _ _ _ R K)).
  pose proof (orep_al _ _ _ _ _ _ R) as P1. pose proof (pow2_pos _ P1) as Pp1. pose proof (pow2_pos _ PA) as PpA.
  assert (Gl : Forall (good t) l) by (eapply orep_good; eauto).
  pose proof (orep_bcap _ _ _ _ _ _ R) as Bn. pose proof (good_size t x Gx) as Vn. pose proof (zlen_nonneg l) as Zn.
  assert (PM : pow2 (Z.max (o_al t o) (valign t x))).
  { destruct (Z.max_spec (o_al t o) (valign t x)) as [[_ ->]|[_ ->]]; auto. apply (good_align t x Gx). }
  set (a := o_al t o) in *. set (M := Z.max a (valign t x)) in *. pose proof (pow2_pos _ PM) as PpM.
  assert (aM : a <= M) by lia. assert (MA : M <= A) by lia.
  pose proof (plen_snoc_ge t M l x PpM) as Sn. pose proof (plen_snoc_ge t A l x PpA) as SnA.
  pose proof (plen_le t a M P1 PM aM l) as L1. pose proof (plen_le t M A PM PA MA l) as L2.
  pose proof (plen_nonneg t a Pp1 _ Gl) as Pn.
  eapply run_conseq; [eapply (push_total t self l o d w x At Dq R Gx)|..]; cbv beta; auto.
  - intros E; congruence.
  - unfold count_overflow. rewrite K, Is. unfold want_cap. change (min_non_zero_cap 16) with 4. lia.
  - unfold bytes_overflow. rewrite K, E2, E3. lia.
  - intros [] w' (o' & d' & R' & Al' & Pd & _). exists o', d'. rewrite E2 in Al'. split; [exact R'|]. split; [exact Al'|].
    destruct (Pd ltac:(congruence)) as (w2 & Ew & Nf & (B1 & B2 & B3 & B4 & B5 & _) & Cc). clear Pd.
    rewrite E1, E3 in B5. rewrite Is in Cc. unfold want_cap in Cc. change (min_non_zero_cap 16) with 4 in Cc.
    unfold roomy. rewrite Al', zlen_app. change (zlen [x]) with 1. split; [exact MA|]. split; [|lia].
    destruct (Z.ltb_spec (o_bcap t o) (plen t a l + vsize t x)) as [Lt|Ge]; [lia|].
    destruct (Z.eq_dec M a) as [E|N].
    + destruct (B3 ltac:(lia) ltac:(rewrite E2; exact E)) as [Eb _]. rewrite Eb, E in *. lia.
    + destruct (log2_lt a M P1 PM ltac:(lia)) as [D _]. lia.
Qed.

Lemma fill_total t self A bc c xs : kind_of t = KUnaligned -> alloc_total -> drops_quiet -> pow2 A -> 0 <= bc -> 0 <= c ->
  forall l o d w, orep t self l o d w -> takes t (o_al t o) xs -> Forall (fun x => valign t x <= A) xs -> roomy t A bc c l o ->
  8 * (bc + plen t A (l ++ xs) + 2 * A) <= isize_max -> 64 * (c + zlen (l ++ xs) + 4) <= isize_max ->
  run (v_push_values t self xs) w (fun _ w' => exists o' d', orep t self (l ++ xs) o' d' w') (fun _ _ => False) (fun _ => False).
Proof.
  intros K At Dq PA Bc0 C0. induction xs as [|x xs IH]; intros l o d w R T Xa Ro Fit Fic; cbn [v_push_values].
  { apply run_ret. rewrite app_nil_r. eauto. }
  inversion T as [|x' xs' [Gx Tx] T']; subst. inversion Xa as [|? ? Xa1 Xa2]; subst.
  assert (Eq : l ++ x :: xs = (l ++ [x]) ++ xs) by (rewrite <- app_assoc; reflexivity). rewrite Eq in *.
  assert (Gs : Forall (good t) xs) by (eapply Forall_impl; [|exact T']; cbv beta; tauto).
  pose proof (plen_le_app t A (l ++ [x]) xs (pow2_pos _ PA) Gs) as Le.
  pose proof (zlen_nonneg xs) as Zx. rewrite zlen_app in Fic. assert (Zl : zlen (l ++ [x]) = zlen l + 1) by (rewrite zlen_app; reflexivity).
  apply run_bind. eapply run_conseq; [eapply (roomy_step t self l o d w x A bc c K At Dq R Gx)|..]; cbv beta; auto; try lia.
  { intros _. destruct (Tx K); auto. }
  intros [] w1 (o1 & d1 & R1 & Al1 & Ro1). eapply (IH (l ++ [x]) o1 d1 w1); auto.
  - apply (takes_mono t (o_al t o) (o_al t o1)); [exact T'|lia].
  - rewrite zlen_app. lia.
Qed.

(** ** C75 *)
(** [A] bounds the alignments; the elements are those the vector can align (F4). *)
Theorem C75_push t self l xs w c bc al A : kind_of t = KUnaligned -> alloc_total -> drops_quiet -> repr t self l w -> takes t al xs ->
  v_capacity t self w = (Ok c, w) -> v_byte_capacity t self w = (Ok bc, w) -> v_align t self w = (Ok al, w) ->
  pow2 A -> al <= A -> Forall (fun x => valign t x <= A) xs ->
  8 * (bc + padded_total t A (l ++ xs) + 2 * A) <= isize_max -> 64 * (c + zlen (l ++ xs) + 4) <= isize_max ->
  exists w', v_push_values t self xs w = (Ok tt, w') /\ shows t self (l ++ xs) w'.
Proof.
  intros K At Dq R T Cc Bc Av PA La Xa Fit Fic. apply repr_orep in R as (o & d & R).
  assert (bc = o_bcap t o) as -> by (pose proof (v_byte_capacity_eq _ _ _ _ _ _ R); congruence).
  assert (al = o_al t o) as -> by (pose proof (v_align_eq _ _ _ _ _ _ R); congruence).
  assert (c = o_cap t o) as -> by (pose proof (v_capacity_eq _ _ _ _ _ _ R); congruence).
  rewrite padded_total_plen in Fit.
  pose proof (orep_bcap _ _ _ _ _ _ R) as Bn. pose proof (orep_len _ _ _ _ _ _ R) as Ln. pose proof (zlen_nonneg l) as Zn.
  pose proof (pow2_pos _ (orep_al _ _ _ _ _ _ R)) as Pa.
  pose proof (plen_nonneg t (o_al t o) Pa l ltac:(eapply orep_good; eauto)) as Pn.
  assert (Ro : roomy t A (o_bcap t o) (o_cap t o) l o) by (unfold roomy; split; [exact La|split; lia]).
  pose proof (fill_total t self A (o_bcap t o) (o_cap t o) xs K At Dq PA ltac:(lia) ltac:(lia) l o d w R T Xa Ro Fit Fic) as H.
  unfold run in H. destruct (v_push_values t self xs w) as [[[]|r| |r] w']; try contradiction.
  destruct H as (o' & d' & R'). exists w'. split; [reflexivity|]. eapply repr_shows. eapply orep_repr; eauto.
Qed.
Theorem C75_of_values t xs w A : wf_ty t -> kind_of t = KUnaligned -> alloc_total -> drops_quiet -> takes t 8 xs ->
  pow2 A -> 8 <= A -> Forall (fun x => valign t x <= A) xs ->
  8 * (padded_total t A xs + 2 * A) <= isize_max -> 64 * (zlen xs + 4) <= isize_max ->
  exists v w', v_of_values t xs w = (Ok v, w') /\ shows t v xs w'.
Proof.
  intros Wt K At Dq T PA La Xa Fit Fic. rewrite padded_total_plen in Fit.
  unfold v_of_values. erewrite bind_eq by apply v_new_eq.
  pose proof (new_orep t false w Wt) as R. set (v := length (w_vecs w)) in *. set (w1 := set_vecs (w_vecs w ++ [new_o t false]) w) in *.
  assert (No : o_al t (new_o t false) = 8 /\ o_bcap t (new_o t false) = 0 /\ o_cap t (new_o t false) = 0).
  { unfold new_o. rewrite K. cbn. auto. }
  destruct No as (Na & Nb & Nc). rewrite <- Na in T, La.
  assert (Ro : roomy t A 0 0 [] (new_o t false)) by (unfold roomy; rewrite Na, Nb, Nc in *; split; [exact La|split; cbn [plen]; change (zlen (@nil value)) with 0; lia]).
  pose proof (fill_total t v A 0 0 xs K At Dq PA ltac:(lia) ltac:(lia) [] _ _ w1 R T Xa Ro Fit Fic) as H.
  unfold run in H. destruct (v_push_values t v xs w1) as [[[]|r| |r] w'] eqn:E; try contradiction.
  destruct H as (o' & d' & R'). exists v, w'. unfold bind, on_unwind. rewrite E. split; [reflexivity|]. eapply repr_shows, orep_repr; eauto.
Qed.

(** ** Values from closures: [push_with], [extend], [collect] *)
(** [push_with] and with it [extend] enlarge the buffer at every call (F13), by the bytes of the value and up to two alignments. *)
Definition slack (t : ty) (A s c : Z) (l : list value) (o : obj) : Prop :=
  o_al t o <= A /\ o_bcap t o - plen t (o_al t o) l <= s /\ o_cap t o <= 8 + c + 2 * zlen l.

Lemma slack_step t self l o d w e S A s c : kind_of t = KUnaligned -> alloc_total -> drops_quiet -> orep t self l o d w -> producer t e S -> peaceful S ->
  can_align t o (vsize t (d_value S)) (valign t (d_value S)) -> valign t (d_value S) <= A -> pow2 A -> 0 <= s -> 0 <= c -> slack t A s c l o ->
  s + plen t A (l ++ [d_value S]) + 2 * A <= isize_max -> 64 * (c + zlen l + 8) <= isize_max ->
  run (v_push_with t self e) w
    (fun _ w' => exists o' d', orep t self (l ++ [d_value S]) o' d' w' /\ o_al t o <= o_al t o' /\ slack t A (s + 2 * A) c (l ++ [d_value S]) o')
    (fun _ _ => False) (fun _ => False).
Proof.
  intros K At Dq R P Pe Ca La PA S0 C0 (Al & Sl & Cp) Fit Fic.
  assert (Gx : good t (d_value S)) by apply P. set (x := d_value S) in *.
  assert (Is : info_size t = 16) by (destruct t; try discriminate K; reflexivity).
  assert (E2 : req_al t o (valign t x) = Z.max (o_al t o) (valign t x)) by (unfold req_al; now rewrite K).
  assert (E3 : o_blen t o l = plen t (o_al t o) l) by (unfold o_blen; now rewrite (pal_al _ _ _ _ _ _ R K)).
  pose proof (orep_al _ _ _ _ _ _ R) as P1. pose proof (pow2_pos _ P1) as Pp1. pose proof (pow2_pos _ PA) as PpA.
  pose proof (good_size t x Gx) as Vn. pose proof (zlen_nonneg l) as Zn.
  assert (PM : pow2 (Z.max (o_al t o) (valign t x))).
  { destruct (Z.max_spec (o_al t o) (valign t x)) as [[_ ->]|[_ ->]]; auto. apply (good_align t x Gx). }
  set (a := o_al t o) in *. set (M := Z.max a (valign t x)) in *. pose proof (pow2_pos _ PM) as PpM.
  assert (aM : a <= M) by lia. assert (MA : M <= A) by lia.
  pose proof (plen_snoc_ge t M l x PpM) as Sn. pose proof (plen_snoc_ge t A l x PpA) as SnA. pose proof (plen_le t M A PM PA MA l) as L2.
  assert (Nh : not_huge t x) by (intros E; subst t; discriminate K).
  eapply run_conseq; [eapply (v_push_with_wp t self l o d w e S R (proj1 P w) Gx)|..]; cbv beta; fold x.
  - eapply producer_fits; eauto.
  - left. intros E; congruence.
  - exact Ca.
  - eapply producer_apart; eauto.
  - intros _ w' (o' & d' & R' & _ & _ & _ & Al' & (_ & _ & St & _ & Up)). exists o', d'. split; [exact R'|].
    specialize (St ltac:(intros E; congruence)). specialize (Up K). rewrite E2 in Al', Up. rewrite E3 in Up.
    unfold slack. rewrite Al', zlen_app. change (zlen [x]) with 1. split; [exact aM|]. split; [exact MA|]. split; lia.
  - intros r w' (_ & _ & [(X & _)|[X|(_ & _ & X)]]).
    + fold x in X. destruct X as [X|[X|X]].
      * unfold count_overflow in X. rewrite K, Is in X. unfold want_cap in X. change (min_non_zero_cap 16) with 4 in X. lia.
      * unfold with_overflow in X. rewrite K, E2, E3 in X. lia.
      * now apply (no_alloc_failed _ _ At) in X.
    + exact (Pe r X).
    + now apply (no_drop_panicked _ _ Dq) in X.
  - intros w' [X|[_ X]]; [now apply (no_alloc_failed _ _ At) in X|now apply (no_drop_panicked _ _ Dq) in X].
Qed.

Definition supplies (t : ty) (p : emplacable * deal) : Prop := producer t (fst p) (snd p) /\ peaceful (snd p).
Lemma all_total t self A c ps : kind_of t = KUnaligned -> alloc_total -> drops_quiet -> pow2 A -> 0 <= c -> Forall (supplies t) ps ->
  forall s l o d w, orep t self l o d w -> takes t (o_al t o) (values ps) -> Forall (fun x => valign t x <= A) (values ps) -> 0 <= s -> slack t A s c l o ->
  s + plen t A (l ++ values ps) + 2 * A * (zlen ps + 1) <= isize_max -> 64 * (c + zlen (l ++ values ps) + 8) <= isize_max ->
  run (v_push_all t self (map fst ps)) w (fun _ w' => exists o' d', orep t self (l ++ values ps) o' d' w') (fun _ _ => False) (fun _ => False).
Proof.
  intros K At Dq PA C0 Su. induction Su as [|p ps [Pp Pe] Su IH]; intros s l o d w R T Xa S0 Sl Fit Fic; cbn [map v_push_all].
  { apply run_ret. change (values []) with (@nil value). rewrite app_nil_r. eauto. }
  rewrite values_cons in *. set (x := d_value (snd p)) in *.
  inversion T as [|x' xs' [Gx Tx] T']; subst. inversion Xa as [|? ? Xa1 Xa2]; subst.
  assert (Eq : l ++ x :: values ps = (l ++ [x]) ++ values ps) by (rewrite <- app_assoc; reflexivity). rewrite Eq in *.
  assert (Gs : Forall (good t) (values ps)) by (eapply Forall_impl; [|exact T']; cbv beta; tauto).
  pose proof (pow2_pos _ PA) as PpA. pose proof (plen_le_app t A (l ++ [x]) (values ps) PpA Gs) as Le.
  rewrite zlen_app, values_zlen in Fic. rewrite zlen_cons in Fit. assert (Zl : zlen (l ++ [x]) = zlen l + 1) by (rewrite zlen_app; reflexivity).
  pose proof (zlen_nonneg ps) as Zx. assert (Pr : 0 <= 2 * A * zlen ps) by nia.
  apply run_bind, run_on_unwind. eapply run_conseq; [eapply (slack_step t self l o d w (fst p) (snd p) A s c K At Dq R Pp Pe)|..]; cbv beta; fold x; auto; try lia.
  { intros _. destruct (Tx K); auto. }
  intros [] w1 (o1 & d1 & R1 & Al1 & Sl1). eapply (IH (s + 2 * A) (l ++ [x]) o1 d1 w1); auto; try lia.
  - apply (takes_mono t (o_al t o) (o_al t o1)); [exact T'|lia].
  - rewrite zlen_app, values_zlen. lia.
Qed.

Lemma exact_total t self l o d w n : kind_of t = KUnaligned -> alloc_total -> orep t self l o d w -> 0 <= n -> ~ count_overflow t o (zlen l) n false ->
  run (v_reserve_exact t self n) w
    (fun _ w' => exists o' d', orep t self l o' d' w' /\ o_al t o' = o_al t o /\ o_bcap t o' = o_bcap t o /\
       o_cap t o' <= Z.max (o_cap t o) (want_cap 16 (o_cap t o) (zlen l) n false)) (fun _ _ => False) (fun _ => False).
Proof.
  intros K At R Hn Nc. unfold v_reserve_exact, v_try_reserve_exact_capacity_bytes, v_try_reserve_exact_capacity_bytes_align. apply run_bind, run_bind.
  assert (Nz : nzst t) by (intros E; congruence). assert (Is : slot_size t = 16) by (destruct t; try discriminate K; reflexivity).
  eapply run_conseq. { apply run_and; [eapply p_try_reserve_wp with (exact := false); eauto|eapply p_try_reserve_cap with (exact := false); eauto]. }
  all: cbv beta; try tauto.
  intros r w1 ((o1 & d1 & R1 & _ & _ & _ & Ea & _ & Un & Nop & _ & Res) & Cp). destruct r as [|[]].
  2: { destruct Res as [_ X]. contradiction. }
  2: { exfalso. now apply (no_alloc_failed _ _ At) in Res. }
  destruct (to_align_eq t 1 w1) as (a' & E & Ha). { intros _. apply pow2_1. }
  specialize (Ha K). subst a'. eapply run_eq; [exact E|].
  eapply run_conseq; [eapply (p_try_reserve_bytes_wp t self l o1 d1 w1 0 1); eauto; try lia; intros _; apply pow2_1|..]; cbv beta zeta; try tauto.
  pose proof (pow2_pos _ (orep_al _ _ _ _ _ _ R1)) as P1.
  intros r w2 (_ & _ & _ & _ & _ & _ & Nop2 & _). destruct (Nop2 eq_refl ltac:(intros _; lia)) as [-> ->]. apply run_ret.
  exists o1, d1. split; [exact R1|]. split; [exact Ea|]. split; [apply Un; left; congruence|].
  destruct (Z.lt_ge_cases (o_cap t o) (zlen l + n)) as [Lt|Ge].
  - destruct (Cp eq_refl Lt) as (o2 & E2 & Ec). rewrite (orep_obj _ _ _ _ _ _ R1) in E2. injection E2 as <-. rewrite Ec, Is. lia.
  - destruct (Nop Ge) as [_ ->]. assert (o1 = o) as -> by (pose proof (orep_obj _ _ _ _ _ _ R); pose proof (orep_obj _ _ _ _ _ _ R1); congruence). lia.
Qed.

(** [hint] is the lower size hint of the iterator; the closures keep their promise and do not panic. *)
Lemma extend_total t self l o d w hint ps A : kind_of t = KUnaligned -> alloc_total -> drops_quiet -> orep t self l o d w -> 0 <= hint ->
  Forall (supplies t) ps -> takes t (o_al t o) (values ps) -> pow2 A -> o_al t o <= A -> Forall (fun x => valign t x <= A) (values ps) ->
  o_bcap t o + plen t A (l ++ values ps) + 2 * A * (zlen ps + 1) <= isize_max -> 128 * (o_cap t o + hint + zlen (l ++ values ps) + 8) <= isize_max ->
  run (v_extend t self hint (map fst ps)) w (fun _ w' => exists o' d', orep t self (l ++ values ps) o' d' w') (fun _ _ => False) (fun _ => False).
Proof.
  intros K At Dq R Hh Su T PA La Xa Fit Fic. assert (Is : info_size t = 16) by (destruct t; try discriminate K; reflexivity).
  pose proof (orep_bcap _ _ _ _ _ _ R) as Bn. pose proof (orep_len _ _ _ _ _ _ R) as Ln. pose proof (zlen_nonneg l) as Zn. pose proof (zlen_nonneg (values ps)) as Zp.
  pose proof (plen_nonneg t (o_al t o) (pow2_pos _ (orep_al _ _ _ _ _ _ R)) l ltac:(eapply orep_good; eauto)) as Pn.
  assert (Zl : zlen (l ++ values ps) = zlen l + zlen (values ps)) by apply zlen_app.
  unfold v_extend. apply run_bind, run_on_unwind. eapply run_conseq; [eapply (exact_total t self l o d w hint K At R Hh)|..]; cbv beta; try contradiction.
  { unfold count_overflow. rewrite K, Is. unfold want_cap. change (min_non_zero_cap 16) with 4. lia. }
  intros [] w1 (o1 & d1 & R1 & Ea & Eb & Ec). unfold want_cap in Ec. change (min_non_zero_cap 16) with 4 in Ec.
  eapply run_conseq; [eapply (all_total t self A (o_cap t o + o_cap t o + hint) ps K At Dq PA ltac:(lia) Su (o_bcap t o) l o1 d1 w1 R1)|..]; cbv beta; auto; try lia.
  - now rewrite Ea.
  - unfold slack. rewrite Ea, Eb. split; [exact La|]. split; lia.
Qed.
Theorem C75_extend t self l ps w hint c bc al A : kind_of t = KUnaligned -> alloc_total -> drops_quiet -> repr t self l w -> 0 <= hint ->
  Forall (supplies t) ps -> let xs := map d_value (map snd ps) in takes t al xs ->
  v_capacity t self w = (Ok c, w) -> v_byte_capacity t self w = (Ok bc, w) -> v_align t self w = (Ok al, w) ->
  pow2 A -> al <= A -> Forall (fun x => valign t x <= A) xs ->
  bc + padded_total t A (l ++ xs) + 2 * A * (zlen xs + 1) <= isize_max -> 128 * (c + hint + zlen (l ++ xs) + 8) <= isize_max ->
  exists w', v_extend t self hint (map fst ps) w = (Ok tt, w') /\ shows t self (l ++ xs) w'.
Proof.
  intros K At Dq R Hh Su xs T Cc Bc Av PA La Xa Fit Fic. apply repr_orep in R as (o & d & R).
  assert (bc = o_bcap t o) as -> by (pose proof (v_byte_capacity_eq _ _ _ _ _ _ R); congruence).
  assert (al = o_al t o) as -> by (pose proof (v_align_eq _ _ _ _ _ _ R); congruence).
  assert (c = o_cap t o) as -> by (pose proof (v_capacity_eq _ _ _ _ _ _ R); congruence).
  rewrite padded_total_plen in Fit. change xs with (values ps) in *. rewrite values_zlen in Fit.
  pose proof (extend_total t self l o d w hint ps A K At Dq R Hh Su T PA La Xa Fit Fic) as H.
  unfold run in H. destruct (v_extend t self hint (map fst ps) w) as [[[]|r| |r] w']; try contradiction.
  destruct H as (o' & d' & R'). exists w'. split; [reflexivity|]. eapply repr_shows. eapply orep_repr; eauto.
Qed.
Theorem C75_collect t ps w hint A : wf_ty t -> kind_of t = KUnaligned -> alloc_total -> drops_quiet -> 0 <= hint ->
  Forall (supplies t) ps -> let xs := map d_value (map snd ps) in takes t 8 xs ->
  pow2 A -> 8 <= A -> Forall (fun x => valign t x <= A) xs ->
  padded_total t A xs + 2 * A * (zlen xs + 1) <= isize_max -> 128 * (hint + zlen xs + 8) <= isize_max ->
  exists v w', v_from_iter t hint (map fst ps) w = (Ok v, w') /\ shows t v xs w'.
Proof.
  intros Wt K At Dq Hh Su xs T PA La Xa Fit Fic. rewrite padded_total_plen in Fit. change xs with (values ps) in *. rewrite values_zlen in Fit.
  unfold v_from_iter. erewrite bind_eq by apply v_new_eq.
  pose proof (new_orep t false w Wt) as R. set (v := length (w_vecs w)) in *. set (w1 := set_vecs (w_vecs w ++ [new_o t false]) w) in *.
  assert (No : o_al t (new_o t false) = 8 /\ o_bcap t (new_o t false) = 0 /\ o_cap t (new_o t false) = 0).
  { unfold new_o. rewrite K. cbn. auto. }
  destruct No as (Na & Nb & Nc). rewrite <- Na in T, La.
  pose proof (extend_total t v [] _ _ w1 hint ps A K At Dq R Hh Su T PA La Xa ltac:(rewrite Nb; exact Fit) ltac:(rewrite Nc; exact Fic)) as H.
  unfold run in H. destruct (v_extend t v hint (map fst ps) w1) as [[[]|r| |r] w'] eqn:E; try contradiction.
  destruct H as (o' & d' & R'). exists v, w'. unfold bind, on_unwind. rewrite E. split; [reflexivity|]. eapply repr_shows, orep_repr; eauto.
Qed.
End WithConfig.

Print Assumptions C75_push.
Print Assumptions C75_of_values.
Print Assumptions C75_extend.
Print Assumptions C75_collect.

(** ** Concrete cases *)
Section Cases.
Local Existing Instance cfg_release.
Ltac run := vm_compute; reflexivity.
Ltac each := repeat (apply Forall_cons || apply Forall_nil).
Definition mixed : list value := [dyn_val 1 2 2 [1; 2]; dyn_val 2 16 16 (repeat 3 16); one 4; dyn_val 3 0 1 []].
(** Pushed after a byte that is there already: the alignment is raised from 8 to 16, and every element is padded to 16 bytes. *)
Example C75_push_case : takes TDyn 8 mixed /\ exists v w c bc, v_of_values TDyn [one 9] empty_world = (Ok v, w) /\ repr TDyn v [one 9] w /\
  v_capacity TDyn v w = (Ok c, w) /\ v_byte_capacity TDyn v w = (Ok bc, w) /\ v_align TDyn v w = (Ok 8, w) /\
  Forall (fun x => valign TDyn x <= 16) mixed /\ 8 * (bc + padded_total TDyn 16 ([one 9] ++ mixed) + 2 * 16) <= isize_max /\
  64 * (c + zlen ([one 9] ++ mixed) + 4) <= isize_max /\
  fst (v_push_values TDyn v mixed w) = Ok tt.
Proof.
  split; [apply takesb_ok; run|]. do 4 eexists. split; [run|].
  split. { eapply (built_repr _ _ empty_world); [exact I|intros K; discriminate K|apply takesb_ok; reflexivity|run]. }
  split; [run|]. split; [run|]. split; [run|]. split; [each; vm_compute; discriminate|].
  split; [vm_compute; discriminate|]. split; [vm_compute; discriminate|]. run.
Qed.
Example C75_of_values_case : wf_ty TDyn /\ takes TDyn 8 mixed /\ Forall (fun x => valign TDyn x <= 16) mixed /\ 8 * (padded_total TDyn 16 mixed + 2 * 16) <= isize_max /\
  exists v w, v_of_values TDyn mixed empty_world = (Ok v, w) /\ shows TDyn v mixed w.
Proof.
  split; [exact I|]. split; [apply takesb_ok; run|]. split; [each; vm_compute; discriminate|]. split; [vm_compute; discriminate|]. do 2 eexists. split; [run|]. run.
Qed.
Definition mixed_from : list (emplacable * deal) := map (fun x => (emplacable_of_value TDyn x, value_deal TDyn x)) mixed.
Lemma mixed_supplied : Forall (supplies TDyn) mixed_from.
Proof. each; (split; [apply value_producer, goodb_ok; reflexivity|intros r []]). Qed.
(** A size hint of 40 for four values: only the count is reserved. *)
Example C75_extend_case : Forall (supplies TDyn) mixed_from /\ map d_value (map snd mixed_from) = mixed /\ takes TDyn 8 mixed /\
  exists v w c bc, v_of_values TDyn [one 9] empty_world = (Ok v, w) /\ repr TDyn v [one 9] w /\
  v_capacity TDyn v w = (Ok c, w) /\ v_byte_capacity TDyn v w = (Ok bc, w) /\ v_align TDyn v w = (Ok 8, w) /\
  bc + padded_total TDyn 16 ([one 9] ++ mixed) + 2 * 16 * (zlen mixed + 1) <= isize_max /\ 128 * (c + 40 + zlen ([one 9] ++ mixed) + 8) <= isize_max /\
  fst (v_extend TDyn v 40 (map fst mixed_from) w) = Ok tt.
Proof.
  split; [exact mixed_supplied|]. split; [run|]. split; [apply takesb_ok; run|]. do 4 eexists. split; [run|].
  split. { eapply (built_repr _ _ empty_world); [exact I|intros K; discriminate K|apply takesb_ok; reflexivity|run]. }
  split; [run|]. split; [run|]. split; [run|].
  split; [vm_compute; discriminate|]. split; [vm_compute; discriminate|]. run.
Qed.
Example C75_collect_case : Forall (supplies TDyn) mixed_from /\ exists v w, v_from_iter TDyn 40 (map fst mixed_from) empty_world = (Ok v, w) /\ shows TDyn v mixed w.
Proof. split; [exact mixed_supplied|]. do 2 eexists. split; [run|]. run. Qed.
(** The room is measured in padded bytes for a reason: four bytes and a value without bytes, of alignment [2 ^ 61], do not fit. *)
Example C75_room_case : total TDyn (repeat (one 1) 4 ++ [dyn_val 5 0 (2 ^ 61) []]) = 4 /\
  good TDyn (dyn_val 5 0 (2 ^ 61) []) /\
  exists v w, v_of_values TDyn (repeat (one 1) 4) empty_world = (Ok v, w) /\ fst (v_push TDyn v (dyn_val 5 0 (2 ^ 61) []) w) = Panic PCapacity.
Proof. split; [run|]. split; [apply goodb_ok; run|]. do 2 eexists. split; [run|]. run. Qed.
End Cases.
