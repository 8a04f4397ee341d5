(** C23, C24, C25: the shrink functions. Reading guide: see PropPush.v. *)
From Coq Require Import ZArith List Bool Lia.
From Verif Require Import Types World ValidSize Emplace SizedVec AlignedVec UnalignedVec Api Spec Bytes Arith Wp Mem Repr
  Access Reserve Realign Orep Push Deal PushWith Shell Insert Take Pop Box Iter Calls DropVec Family Build Obs Room Shrink Findings
  PropPush PropReserve.
Import ListNotations.
Open Scope Z_scope.
Open Scope m_scope.

(** The alignment a shrink should settle on: the requested one, but no more than the present one and no less than the
    elements need. *)
Definition largest_align (t : ty) (l : list value) : Z := fold_right Z.max 1 (map (valign t) l).
Definition settled (t : ty) (l : list value) (al a : Z) : Z := Z.max (Z.min a al) (largest_align t l).

(** The calls that are proved right, for a vector with elements [l], byte capacity [bc] and alignment [al]. Nothing is asked
    of statically aligned types. Otherwise no element may have to move ([realign_down] moves them wrongly,
    C23_shrink_to_fit_refuted), and the byte capacity has to stay a multiple of the alignment (C16_byte_len_refuted). *)
Definition shrinks_well (t : ty) (l : list value) (bc al b a : Z) : Prop :=
  kind_of t = KUnaligned ->
  (forall x, In x (removelast l) -> pad (vsize t x) al = pad (vsize t x) (settled t l al a)) /\
  (bc <= b \/ b <= padded_total t (settled t l al a) l \/ b mod settled t l al a = 0).

Lemma maxal_largest t l acc : maxal t l acc = Z.max acc (largest_align t l) \/ acc < 1.
Proof.
  revert acc; induction l as [|x l IH]; intros acc; cbn [maxal]; unfold largest_align in *; cbn [map fold_right].
  - lia.
  - destruct (IH (Z.max acc (valign t x))); lia.
Qed.
Lemma settled_new t l al a : settled t l al a = new_align t l al a.
Proof.
  unfold settled, new_align. destruct (maxal_largest t l 1) as [E|E]; [|lia]. rewrite E.
  assert (1 <= largest_align t l) by (unfold largest_align; induction (map (valign t) l); cbn [fold_right]; lia). lia.
Qed.
Lemma shrinks_well_u t l v b a : kind_of t = KUnaligned -> shrinks_well t l (uv_bcap v) (uv_align v) b a -> shrinkable t l v b a.
Proof.
  intros K S. destruct (S K) as [A B]. unfold shrinkable. rewrite padded_total_plen, settled_new in *. split; auto.
  apply Forall_forall. exact A.
Qed.

Lemma shr_bounds cap used n : used <= cap -> shr cap used n <= cap /\ Z.min cap (Z.max used n) <= shr cap used n.
Proof. intros. unfold shr. destruct (Z.ltb_spec n cap); lia. Qed.
Lemma ceil_ge b s : 0 < s -> b <= (b + s - 1) / s * s.
Proof. intros. pose proof (Z.mul_succ_div_gt (b + s - 1) s ltac:(lia)). lia. Qed.

Section WithConfig.
Context {C : Config}.

(** What a shrink request can be refused for: memory for the smaller array, a zero-sized type, a bad alignment. *)
Definition shrink_refused (t : ty) (a : Z) (w : world) (r : panic_reason) (w' : world) : Prop :=
  oom_panic w r w' \/ w' = w /\ (r = PDivZero /\ kind_of t = KSized /\ s_size t = 0 \/ r = PBadAlign /\ kind_of t = KUnaligned /\ bad_align a).

Lemma v_shrink_wp t self l o d w n b a : orep t self l o d w -> 0 <= n -> 0 <= b -> 0 <= a <= usize_max ->
  shrinks_well t l (o_bcap t o) (o_al t o) b a ->
  run (v_shrink_capacity_bytes_align_to t self n b a) w
    (fun _ w' => exists o' d', orep t self l o' d' w' /\ quiet self w w' /\
       (o_cap t o' <= o_cap t o /\ Z.min (o_cap t o) (Z.max (zlen l) n) <= o_cap t o') /\
       (o_bcap t o' <= o_bcap t o /\ Z.min (o_bcap t o) (Z.max (o_blen t o' l) b) <= o_bcap t o') /\
       (o_al t o' <= o_al t o /\ (kind_of t = KUnaligned -> Z.min (o_al t o) a <= o_al t o')) /\
       (kind_of t <> KSized -> o_cap t o' = shr (o_cap t o) (zlen l) n) /\
       (kind_of t = KSized -> o_cap t o' = shr (o_cap t o) (zlen l) (Z.max n ((b + s_size t - 1) / s_size t)) /\
          o_bcap t o' = o_cap t o' * s_size t) /\
       (kind_of t <> KSized -> o_bcap t o' = shr (o_bcap t o) (o_blen t o' l) b \/ o_bcap t o' = o_bcap t o /\ alloc_failed w w') /\
       (kind_of t = KUnaligned -> o_al t o' = settled t l (o_al t o) a \/ o_al t o' = o_al t o /\ alloc_failed w w'))
    (shrink_refused t a w) (oom_abort w).
Proof.
  intros R Hn Hb Ha S. unfold v_shrink_capacity_bytes_align_to, to_align, p_shrink.
  destruct o as [v|v|v|]; cbn [orep] in R; try tauto.
  - pose proof (sr_kind _ _ _ _ _ _ R) as K. rewrite K. eapply run_eq. reflexivity.
    pose proof (s_size_nonneg t K (sr_wf _ _ _ _ _ _ R)) as Sn.
    destruct (Z.eq_dec (s_size t) 0) as [Z|Z].
    { unfold run. erewrite s_shrink_zst by eauto. right. auto. }
    eapply run_conseq; [eapply s_shrink_wp; eauto; lia|..]; cbv beta; auto.
    2:{ intros r w' H. now left. }
    intros _ w' (v' & d' & R' & Q & E). exists (OS v'), d'. ocbn.
    assert (E1 : forall u, s_capacity t u = sv_cap u) by (intros u; unfold s_capacity; destruct (Z.eqb_spec (s_size t) 0); lia).
    rewrite !E1. pose proof (sr_fit _ _ _ _ _ _ R) as Fit. rewrite E1 in Fit.
    pose proof (sr_fit _ _ _ _ _ _ R') as Fit'. rewrite E1 in Fit'.
    pose proof (shr_bounds _ _ (Z.max n ((b + s_size t - 1) / s_size t)) Fit) as [B1 B2]. rewrite <- E in B1, B2.
    ands; auto; try congruence; try lia.
    + nia.
    + unfold o_blen; ocbn. rewrite plen_sized by (auto; apply R). pose proof (ceil_ge b (s_size t) ltac:(lia)).
      set (k := (b + s_size t - 1) / s_size t) in *. clearbody k.
      assert (X : Z.min (sv_cap v) k <= sv_cap v') by lia. pose proof (sr_cap0 _ _ _ _ _ _ R) as C0.
      assert (Y : Z.min (sv_cap v) k * s_size t <= sv_cap v' * s_size t) by nia.
      assert (W : zlen l * s_size t <= sv_cap v' * s_size t) by nia.
      destruct (Z.min_spec (sv_cap v) k) as [[? M]|[? M]]; rewrite M in Y; lia.
  - pose proof (ar_kind _ _ _ _ _ _ R) as K. rewrite K. eapply run_eq. reflexivity.
    eapply run_conseq; [eapply a_shrink_wp; eauto; lia|..]; cbv beta; auto.
    2:{ intros r w' H. now left. }
    intros _ w' (v' & d' & R' & Q & Ei & Eb). exists (OA v'), d'. ocbn. unfold o_blen. ocbn.
    pose proof (shr_bounds _ _ n (ar_len _ _ _ _ _ _ R)) as [B1 B2]. rewrite <- Ei in B1, B2.
    pose proof (shr_bounds _ _ b (ar_fit _ _ _ _ _ _ R)) as [B3 B4].
    pose proof (ar_fit _ _ _ _ _ _ R').
    ands; auto; try congruence; try lia.
  - pose proof (ur_kind _ _ _ _ _ _ R) as K. rewrite K. unfold valid_align_new.
    destruct (is_power_of_two a) eqn:P.
    2:{ unfold run, bind, panic, fail. right. split; auto. right. ands; auto. intros (k & K0 & E).
        assert (X : is_power_of_two a = true); [|congruence]. apply is_power_of_two_pow2. exists k. split; auto. split; auto.
        destruct (Z_le_gt_dec k 63); auto. exfalso. subst a. assert (2 ^ 64 <= 2 ^ k) by (apply Z.pow_le_mono_r; lia).
        rewrite usize_max_eq in Ha. lia. }
    pose proof (pow2_of_is_power a Ha P) as Pa.
    eapply run_eq. reflexivity.
    eapply run_conseq; [eapply u_shrink_wp; eauto using shrinks_well_u; lia|..]; cbv beta; auto.
    2:{ intros r w' H. now left. }
    intros _ w' (v' & d' & R' & Q & Ei & Eb). exists (OU v'), d'. ocbn. unfold o_blen. ocbn. rewrite settled_new.
    pose proof (shr_bounds _ _ n (ur_len _ _ _ _ _ _ R)) as [B1 B2]. rewrite <- Ei in B1, B2.
    pose proof (ur_fit _ _ _ _ _ _ R) as F. pose proof (ur_fit _ _ _ _ _ _ R') as F'.
    assert (Le : new_align t l (uv_align v) a <= uv_align v).
    { pose proof (pow2_pos _ (ur_al _ _ _ _ _ _ R)).
      unfold new_align. pose proof (maxal_le t l 1 (uv_align v) ltac:(lia) (ur_aligned _ _ _ _ _ _ R)). lia. }
    assert (Ge : Z.min (uv_align v) a <= new_align t l (uv_align v) a) by (unfold new_align; lia).
    destruct Eb as [[Ea Eb]|(Ea & Eb & AF)].
    + pose proof (ur_al _ _ _ _ _ _ R') as P'. rewrite Ea in *. pose proof (plen_le t _ (uv_align v) P' (ur_al _ _ _ _ _ _ R) Le l) as PL.
      unfold shr. ands; auto; try congruence; try lia.
      intros _. left. destruct (Z.ltb_spec b (uv_bcap v)); lia.
    + rewrite Ea, Eb in *. ands; auto; try congruence; try lia.
Qed.

(** ** C23 *)
(** A shrink leaves the elements alone, whatever the outcome; a panic or abort happens before anything has changed. *)
Definition shrinks (t : ty) (self : nat) (l : list value) (a : Z) (w : world) (m : M unit) : Prop :=
  run m w
    (fun _ w' => holds_list t self l w' /\ w_drops w' = w_drops w /\ others self w w')
    (fun r w' => shrink_refused t a w r w' /\ holds_list t self l w' /\ w_drops w' = w_drops w /\ others self w w')
    (fun w' => alloc_failed w w').
Lemma refused_keeps t self l a w r w' : repr t self l w -> shrink_refused t a w r w' ->
  holds_list t self l w' /\ w_drops w' = w_drops w /\ others self w w'.
Proof.
  intros R [(_ & _ & -> & _)|(-> & _)].
  - ands; try reflexivity; [|apply others_frame, frame_bump]. apply repr_holds. apply repr_orep in R as (o & d & R). apply repr_orep.
    exists o, d. destruct o; cbn [orep] in *; auto using srep_bump, arep_bump, urep_bump.
  - ands; auto using repr_holds. apply others_frame, frame_refl.
Qed.
Theorem C23_shrink_capacity_bytes_align_to_partial t self l w n b a bc al : repr t self l w ->
  v_byte_capacity t self w = (Ok bc, w) -> v_align t self w = (Ok al, w) ->
  0 <= n -> 0 <= b -> 0 <= a <= usize_max -> shrinks_well t l bc al b a ->
  shrinks t self l a w (v_shrink_capacity_bytes_align_to t self n b a).
Proof.
  intros R Bc Al Hn Hb Ha S. pose proof R as R0. apply repr_orep in R as (o & d & R).
  rewrite (v_byte_capacity_eq _ _ _ _ _ _ R) in Bc. rewrite (v_align_eq _ _ _ _ _ _ R) in Al. injection Bc as <-. injection Al as <-.
  eapply run_conseq; [eapply v_shrink_wp; eauto|..]; cbv beta.
  - intros _ w' (o' & d' & R' & [F D] & _). ands; auto using others_frame. eapply repr_holds, orep_repr; eauto.
  - intros r w' H. split; auto. eapply refused_keeps; eauto.
  - intros w' [_ A]. exact A.
Qed.
(** Statically aligned types: every argument. *)
Theorem C23_statically_aligned_partial t self l w n b a : kind_of t <> KUnaligned -> repr t self l w ->
  0 <= n -> 0 <= b -> 0 <= a <= usize_max ->
  shrinks t self l a w (v_shrink_capacity_bytes_align_to t self n b a).
Proof.
  intros K R Hn Hb Ha. destruct (caps_of t self l w R) as (c & bc & bl & al & _ & E1 & _ & E2).
  apply (C23_shrink_capacity_bytes_align_to_partial t self l w n b a bc al); auto. intros K'. contradiction.
Qed.
Lemma settled_max t self l o d w : orep t self l o d w -> kind_of t = KUnaligned -> settled t l (o_al t o) max_align = o_al t o.
Proof.
  intros R K. destruct o as [v|v|v|]; cbn [orep] in R; try tauto; try (destruct R; congruence). ocbn. rewrite settled_new.
  pose proof (ur_al _ _ _ _ _ _ R) as P. pose proof (pow2_max _ P). pose proof (pow2_pos _ P).
  unfold new_align. pose proof (maxal_le t l 1 (uv_align v) ltac:(lia) (ur_aligned _ _ _ _ _ _ R)). lia.
Qed.
Lemma max_align_usize : 0 <= max_align <= usize_max.
Proof. split; vm_compute; discriminate. Qed.
(** [shrink_to]: every type, every vector, every argument. *)
Theorem C23_shrink_to t self l w n : repr t self l w -> 0 <= n -> shrinks t self l max_align w (v_shrink_to t self n).
Proof.
  intros R Hn. destruct (caps_of t self l w R) as (c & bc & bl & al & _ & E1 & _ & E2).
  apply (C23_shrink_capacity_bytes_align_to_partial t self l w n usize_max max_align bc al); auto.
  { vm_compute; discriminate. } { apply max_align_usize. }
  apply repr_orep in R as (o & d & R).
  rewrite (v_byte_capacity_eq _ _ _ _ _ _ R) in E1. rewrite (v_align_eq _ _ _ _ _ _ R) in E2. injection E1 as <-. injection E2 as <-.
  intros K. rewrite (settled_max _ _ _ _ _ _ R K). split; auto. left. pose proof (orep_bcap_max _ _ _ _ _ _ R).
  rewrite usize_max_eq. rewrite isize_max_eq in *. lia.
Qed.
(** [shrink_capacity_bytes_to]: the alignment stays, so only the byte count matters. *)
Theorem C23_shrink_capacity_bytes_to_partial t self l w n b bc al : repr t self l w ->
  v_byte_capacity t self w = (Ok bc, w) -> v_align t self w = (Ok al, w) ->
  0 <= n -> 0 <= b ->
  (kind_of t = KUnaligned -> bc <= b \/ b <= padded_total t al l \/ b mod al = 0) ->
  shrinks t self l max_align w (v_shrink_capacity_bytes_to t self n b).
Proof.
  intros R E1 E2 Hn Hb S.
  apply (C23_shrink_capacity_bytes_align_to_partial t self l w n b max_align bc al); auto. { apply max_align_usize. }
  apply repr_orep in R as (o & d & R). rewrite (v_align_eq _ _ _ _ _ _ R) in E2. injection E2 as <-.
  intros K. rewrite (settled_max _ _ _ _ _ _ R K). split; auto.
Qed.
(** [shrink_to_fit]: right as long as lowering the alignment moves nothing (in particular for at most one element, and when
    the alignment is already as low as the elements allow). *)
Theorem C23_shrink_to_fit_partial t self l w al : repr t self l w -> v_align t self w = (Ok al, w) ->
  (kind_of t = KUnaligned -> forall x, In x (removelast l) -> pad (vsize t x) al = pad (vsize t x) (largest_align t l)) ->
  shrinks t self l 1 w (v_shrink_to_fit t self).
Proof.
  intros R E2 S. destruct (caps_of t self l w R) as (c & bc & bl & al' & _ & E1 & _ & _).
  apply (C23_shrink_capacity_bytes_align_to_partial t self l w 0 0 1 bc al); auto; try lia.
  intros K. pose proof R as R0. apply repr_orep in R as (o & d & R). rewrite (v_align_eq _ _ _ _ _ _ R) in E2. injection E2 as <-.
  pose proof (pow2_pos _ (orep_al _ _ _ _ _ _ R)).
  assert (1 <= largest_align t l) by (unfold largest_align; induction (map (valign t) l); cbn [fold_right]; lia).
  assert (E : settled t l (o_al t o) 1 = largest_align t l) by (unfold settled; lia). rewrite E. split; auto.
Qed.

(** ** C24 *)
(** The four measures before and after a shrink that returns. *)
Definition caps (t : ty) (self : nat) (w : world) (c bc bl al : Z) : Prop :=
  v_capacity t self w = (Ok c, w) /\ v_byte_capacity t self w = (Ok bc, w) /\ v_byte_len t self w = (Ok bl, w) /\
  v_align t self w = (Ok al, w).
Lemma caps_orep t self l o d w c bc bl al : orep t self l o d w -> caps t self w c bc bl al ->
  c = o_cap t o /\ bc = o_bcap t o /\ bl = o_blen t o l /\ al = o_al t o.
Proof.
  intros R (A & B & D & E). rewrite (v_capacity_eq _ _ _ _ _ _ R) in A. rewrite (v_byte_capacity_eq _ _ _ _ _ _ R) in B.
  rewrite (v_byte_len_eq _ _ _ _ _ _ R) in D. rewrite (v_align_eq _ _ _ _ _ _ R) in E.
  injection A as <-. injection B as <-. injection D as <-. injection E as <-. auto.
Qed.
Lemma orep_caps t self l o d w : orep t self l o d w -> caps t self w (o_cap t o) (o_bcap t o) (o_blen t o l) (o_al t o).
Proof. intros R. unfold caps. ands; [eapply v_capacity_eq|eapply v_byte_capacity_eq|eapply v_byte_len_eq|eapply v_align_eq]; eauto. Qed.
(** [between old lo new]: at most the old value, and at least [lo] (the larger of what is used and what is asked for) unless
    the old value was lower. *)
Definition between (old lo new : Z) : Prop := new <= old /\ Z.min old lo <= new.
Theorem C24_bounds_partial t self l w n b a c bc bl al : repr t self l w -> caps t self w c bc bl al ->
  0 <= n -> 0 <= b -> 0 <= a <= usize_max -> shrinks_well t l bc al b a ->
  run (v_shrink_capacity_bytes_align_to t self n b a) w
    (fun _ w' => exists c' bc' bl' al', caps t self w' c' bc' bl' al' /\
       between c (Z.max (zlen l) n) c' /\ between bc (Z.max bl' b) bc' /\
       (kind_of t = KUnaligned -> between al (Z.max (largest_align t l) a) al') /\
       (kind_of t <> KUnaligned -> al' = al /\ bl' = bl))
    (fun _ w' => caps t self w' c bc bl al) (fun w' => caps t self w' c bc bl al).
Proof.
  intros R Cp Hn Hb Ha S. apply repr_orep in R as (o & d & R). destruct (caps_orep _ _ _ _ _ _ _ _ _ _ R Cp) as (-> & -> & -> & ->).
  assert (RB : orep t self l o d (bump_alloc w)) by (destruct o; cbn [orep] in *; auto using srep_bump, arep_bump, urep_bump).
  eapply run_conseq; [eapply v_shrink_wp; eauto|..]; cbv beta.
  - intros _ w' (o' & d' & R' & Q & H1 & H2 & [H3 H3'] & _ & _ & _ & H7).
    exists (o_cap t o'), (o_bcap t o'), (o_blen t o' l), (o_al t o'). split; [eapply orep_caps; eauto|].
    unfold between. ands; try lia.
    + intros K. split; [lia|]. specialize (H3' K).
      assert (largest_align t l <= o_al t o'); [|lia].
      destruct o' as [v|v|v|]; cbn [orep] in R'; try tauto; try (destruct R'; congruence). ocbn.
      pose proof (ur_aligned _ _ _ _ _ _ R') as F. pose proof (pow2_pos _ (ur_al _ _ _ _ _ _ R')) as P.
      unfold largest_align. clear -F P. induction F; cbn [map fold_right]; lia.
    + intros K. destruct o, o'; cbn [orep] in R, R'; try tauto; try (destruct R, R'; congruence);
        try (exfalso; apply K; apply R); try (exfalso; apply K; apply R'); split; reflexivity.
  - intros r w' [(_ & _ & -> & _)|(-> & _)]; eapply orep_caps; eauto.
  - intros w' [-> _]; eapply orep_caps; eauto.
Qed.

(** How small they get when the allocator does not fail: exactly as asked. *)
Theorem C24_exact_partial t self l w n b a c bc bl al : repr t self l w -> caps t self w c bc bl al -> nzst t ->
  0 <= n -> 0 <= b -> 0 <= a <= usize_max -> shrinks_well t l bc al b a -> (forall i, cfg_alloc i <> None) ->
  run (v_shrink_capacity_bytes_align_to t self n b a) w
    (fun _ w' => exists c' bc' bl' al', caps t self w' c' bc' bl' al' /\
       match kind_of t with
       | KSized => c' = Z.min c (Z.max (zlen l) (Z.max n ((b + s_size t - 1) / s_size t))) /\ bc' = c' * s_size t
       | _ => c' = Z.min c (Z.max (zlen l) n) /\ bc' = Z.min bc (Z.max bl' b)
       end /\
       (kind_of t = KUnaligned -> al' = settled t l al a))
    (fun r w' => r = PBadAlign /\ kind_of t = KUnaligned /\ bad_align a /\ w' = w) (fun _ => False).
Proof.
  intros R Cp Nz Hn Hb Ha S NF. apply repr_orep in R as (o & d & R). destruct (caps_orep _ _ _ _ _ _ _ _ _ _ R Cp) as (-> & -> & -> & ->).
  assert (AF : forall w', ~ alloc_failed w w') by (intros w' (k & _ & K); exact (NF k K)).
  eapply run_conseq; [eapply v_shrink_wp; eauto|..]; cbv beta.
  - intros _ w' (o' & d' & R' & Q & H1 & H2 & H3 & H4 & H5 & H6 & H7).
    exists (o_cap t o'), (o_bcap t o'), (o_blen t o' l), (o_al t o'). split; [eapply orep_caps; eauto|].
    pose proof (orep_len _ _ _ _ _ _ R). pose proof (orep_len _ _ _ _ _ _ R').
    pose proof (orep_fit _ _ _ _ _ _ R). pose proof (orep_fit _ _ _ _ _ _ R').
    split.
    + destruct (kind_of t) eqn:K.
      * destruct (H5 eq_refl) as [E1 E2]. split; auto. rewrite E1. unfold shr.
        destruct (Z.ltb_spec (Z.max n ((b + s_size t - 1) / s_size t)) (o_cap t o)); lia.
      * split. { rewrite H4 by discriminate. unfold shr. destruct (Z.ltb_spec n (o_cap t o)); lia. }
        destruct (H6 ltac:(discriminate)) as [E|[_ E]]; [|destruct (AF _ E)]. rewrite E in *. unfold shr in *. destruct (Z.ltb_spec b (o_bcap t o)); lia.
      * split. { rewrite H4 by discriminate. unfold shr. destruct (Z.ltb_spec n (o_cap t o)); lia. }
        destruct (H6 ltac:(discriminate)) as [E|[_ E]]; [|destruct (AF _ E)]. rewrite E in *. unfold shr in *. destruct (Z.ltb_spec b (o_bcap t o)); lia.
    + intros K. destruct (H7 K) as [E|[_ E]]; auto. destruct (AF _ E).
  - intros r w' [(_ & _ & -> & E)|(-> & [(-> & K & Z)|(-> & K & B)])]; auto.
    + destruct (AF _ E). + specialize (Nz K). lia.
  - intros w' [_ E]. destruct (AF _ E).
Qed.

(** ** C25 *)
(** [shrink_to] on unsized element types: unless memory for the smaller array is refused, [capacity()] becomes
    [max(len(), n)] if it was larger, and nothing else changes. *)
Theorem C25_shrink_to_partial t self l w n c bc bl al : kind_of t <> KSized -> repr t self l w -> caps t self w c bc bl al -> 0 <= n ->
  run (v_shrink_to t self n) w
    (fun _ w' => (n < c -> caps t self w' (Z.max (zlen l) n) bc bl al) /\ (c <= n -> caps t self w' c bc bl al) /\ holds_list t self l w')
    (fun r w' => r = POom /\ alloc_failed w w' /\ holds_list t self l w') (fun w' => alloc_failed w w').
Proof.
  intros K R Cp Hn. pose proof (C23_shrink_to t self l w n R Hn) as Sh. unfold shrinks in Sh.
  pose proof R as R0. apply repr_orep in R as (o & d & R). destruct (caps_orep _ _ _ _ _ _ _ _ _ _ R Cp) as (-> & -> & -> & ->).
  assert (UM : o_bcap t o <= usize_max).
  { pose proof (orep_bcap_max _ _ _ _ _ _ R). rewrite usize_max_eq. rewrite isize_max_eq in *. lia. }
  assert (S : shrinks_well t l (o_bcap t o) (o_al t o) usize_max max_align).
  { intros K'. rewrite (settled_max _ _ _ _ _ _ R K'). auto. }
  eapply run_conseq; [eapply run_and; [exact Sh|]; eapply v_shrink_wp; eauto; [vm_compute; discriminate|apply max_align_usize]|..]; cbv beta.
  - intros _ w' [(Hl & _) (o' & d' & R' & Q & H1 & H2 & H3 & H4 & H5 & H6 & H7)].
    pose proof (orep_caps _ _ _ _ _ _ R') as Cp'. rewrite (H4 K) in Cp'.
    assert (E1 : o_bcap t o' = o_bcap t o).
    { destruct (H6 K) as [E|[E _]]; auto. rewrite E. unfold shr. destruct (Z.ltb_spec usize_max (o_bcap t o)); lia. }
    assert (E2 : o_al t o' = o_al t o /\ o_blen t o' l = o_blen t o l).
    { unfold o_blen. destruct (kind_of t) eqn:K'; try congruence.
      - destruct o, o'; cbn [orep] in R, R'; try tauto; try (destruct R, R'; congruence); split; reflexivity.
      - assert (E : o_al t o' = o_al t o).
        { rewrite (settled_max _ _ _ _ _ _ R K') in H7. destruct (H7 eq_refl) as [E|[E _]]; auto. }
        split; auto. destruct o, o'; cbn [orep] in R, R'; try tauto; try (destruct R, R'; congruence). ocbn in *. now rewrite E. }
    destruct E2 as [E2 E3]. rewrite E1, E2, E3 in Cp'. unfold shr in Cp'.
    ands; auto; intros X; destruct (Z.ltb_spec n (o_cap t o)); auto; lia.
  - intros r w' [(_ & Hl & _) [(-> & _ & _ & A)|(_ & [(_ & K' & _)|(_ & K' & B)])]]; auto; try congruence.
    destruct B. exists 63. split; [lia|reflexivity].
  - intros w' [A _]. exact A.
Qed.
(** For Sized types it never does anything at all: with C25_shrink_to_refuted, the general form of the defect. *)
Theorem C25_sized_noop t self l w n : kind_of t = KSized -> 0 < s_size t -> repr t self l w -> 0 <= n ->
  v_shrink_to t self n w = (Ok tt, w).
Proof.
  intros K P R Hn. unfold repr in R. rewrite K in R. destruct R as (v & d & R).
  unfold v_shrink_to, v_shrink_capacity_bytes_align_to, to_align, p_shrink. rewrite K. erewrite bind_eq by reflexivity.
  unfold s_shrink. erewrite bind_eq by (eapply get_s_eq, R). unfold div_ceil.
  destruct (Z.eqb_spec (s_size t) 0); [lia|]. erewrite bind_eq by reflexivity.
  assert (E1 : s_capacity t v = sv_cap v) by (unfold s_capacity; destruct (Z.eqb_spec (s_size t) 0); lia). rewrite E1.
  assert (L : sv_cap v <= (usize_max + s_size t - 1) / s_size t).
  { apply Z.div_le_lower_bound; auto. pose proof (sr_bcap _ _ _ _ _ _ R). pose proof (sr_wf _ _ _ _ _ _ R) as W.
    pose proof (pow2_pos _ (s_align_pow2 t K W)). rewrite usize_max_eq. rewrite isize_max_eq in *. lia. }
  destruct (Z.ltb_spec (Z.max n ((usize_max + s_size t - 1) / s_size t)) (sv_cap v)); [lia|reflexivity].
Qed.
Theorem C25_sized_zst t self l w n : kind_of t = KSized -> s_size t = 0 -> repr t self l w ->
  v_shrink_to t self n w = (Panic PDivZero, w).
Proof.
  intros K P R. unfold repr in R. rewrite K in R. destruct R as (v & d & R).
  unfold v_shrink_to, v_shrink_capacity_bytes_align_to, to_align, p_shrink. rewrite K. erewrite bind_eq by reflexivity.
  eapply s_shrink_zst; eauto.
Qed.
End WithConfig.
Print Assumptions C23_shrink_capacity_bytes_align_to_partial.
Print Assumptions C23_statically_aligned_partial.
Print Assumptions C23_shrink_to.
Print Assumptions C23_shrink_capacity_bytes_to_partial.
Print Assumptions C23_shrink_to_fit_partial.
Print Assumptions C24_bounds_partial.
Print Assumptions C24_exact_partial.
Print Assumptions C25_shrink_to_partial.
Print Assumptions C25_sized_noop.
Print Assumptions C25_sized_zst.

(** ** Cases meeting the hypotheses *)
Section Cases.
Local Existing Instance cfg_release.
Ltac built := eapply (built_repr _ _ empty_world); [exact I|intros K; discriminate K|apply takesb_ok; reflexivity|run].
(** Two words behind dyn, room for 8: [shrink_to_fit] frees the rest and keeps both. Two strings, [shrink_to_fit] and
    [shrink_to]. *)
Example C23_case : exists v w w', repr TDyn v [word 1; half 2] w /\ v_align TDyn v w = (Ok 8, w) /\
  (forall x, In x (removelast [word 1; half 2]) -> pad (vsize TDyn x) 8 = pad (vsize TDyn x) (largest_align TDyn [word 1; half 2])) /\
  v_shrink_to_fit TDyn v w = (Ok tt, w') /\ shows TDyn v [word 1; half 2] w'.
Proof. do 3 eexists. split; [built|]. split; [run|]. split; [intros x [<-|[]]; reflexivity|]. split; [run|]. run. Qed.
(** One element aligned to 4 in a vector aligned to 8: the alignment drops to 4, the byte capacity to 4. *)
Example C24_case : exists v w w', repr TDyn v [half 2] w /\ caps TDyn v w 4 8 8 8 /\ shrinks_well TDyn [half 2] 8 8 0 1 /\
  v_shrink_capacity_bytes_align_to TDyn v 2 0 1 w = (Ok tt, w') /\ caps TDyn v w' 2 4 4 4 /\ shows TDyn v [half 2] w'.
Proof.
  do 3 eexists. split; [built|]. split; [unfold caps; ands; run|].
  split; [intros _; split; [intros x []|right; left; vm_compute; discriminate]|].
  split; [run|]. split; [unfold caps; ands; run|]. run.
Qed.
Example C25_case : exists v w w', repr TStr v [ab; cd] w /\ caps TStr v w 4 4 4 1 /\ v_shrink_to TStr v 1 w = (Ok tt, w') /\
  caps TStr v w' 2 4 4 1.
Proof. do 3 eexists. split; [built|]. split; [unfold caps; ands; run|]. split; [run|]. unfold caps; ands; run. Qed.
Example C25_sized_case : exists v w, repr (TSized 4 4) v [u32 1] w /\ v_capacity (TSized 4 4) v w = (Ok 4, w) /\
  v_shrink_to (TSized 4 4) v 1 w = (Ok tt, w).
Proof.
  do 2 eexists. split; [eapply (built_repr _ _ empty_world); [apply wf_u32|intros K; reflexivity|apply takesb_ok; reflexivity|run]|].
  split; [run|]. run.
Qed.
End Cases.
