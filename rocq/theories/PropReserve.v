(** C17, C18, C20, C21, C22: the reservation functions. Reading guide: see PropPush.v. *)
From Coq Require Import ZArith List Bool Lia.
From Verif Require Import Types World ValidSize Emplace SizedVec AlignedVec UnalignedVec Api Spec Bytes Arith Wp Mem Repr
  Access Reserve Realign Orep Push Deal PushWith Shell Insert Take Pop Box Iter Calls DropVec Family Build Obs Room Findings PropPush.
Import ListNotations.
Open Scope Z_scope.
Open Scope m_scope.

(** The test of valid_align.rs recognises exactly the powers of two. *)
Lemma is_power_of_two_exp a : is_power_of_two a = true -> exists k, 0 <= k /\ a = 2 ^ k.
Proof.
  unfold is_power_of_two. rewrite andb_true_iff, Z.ltb_lt, Z.eqb_eq. intros [P L]. exists (Z.log2 a).
  pose proof (Z.log2_nonneg a) as N. split; auto. destruct (Z.log2_spec a P) as [Lo Hi].
  destruct (Z.eq_dec a (2 ^ Z.log2 a)) as [|Ne]; auto. exfalso.
  assert (E : Z.log2 (a - 1) = Z.log2 a). { apply Z.log2_unique; auto. lia. }
  assert (Pp : 0 < 2 ^ Z.log2 a) by (apply Z.pow_pos_nonneg; lia).
  assert (T1 : Z.testbit a (Z.log2 a) = true) by (apply Z.bit_log2; lia).
  assert (T2 : Z.testbit (a - 1) (Z.log2 a) = true) by (rewrite <- E; apply Z.bit_log2; lia).
  assert (T : Z.testbit (Z.land a (a - 1)) (Z.log2 a) = true) by (rewrite Z.land_spec, T1, T2; reflexivity).
  rewrite L, Z.bits_0 in T. discriminate.
Qed.

Section WithConfig.
Context {C : Config}.


(** What a capacity query returns for a represented vector. *)
Lemma caps_of t self l w : repr t self l w -> exists c bc bl al,
  v_capacity t self w = (Ok c, w) /\ v_byte_capacity t self w = (Ok bc, w) /\ v_byte_len t self w = (Ok bl, w) /\
  v_align t self w = (Ok al, w).
Proof.
  intros R. apply repr_orep in R as (o & d & R). exists (o_cap t o), (o_bcap t o), (o_blen t o l), (o_al t o).
  ands; [eapply v_capacity_eq|eapply v_byte_capacity_eq|eapply v_byte_len_eq|eapply v_align_eq]; eauto.
Qed.

(** ** C17 *)
(** The capacities of any represented vector are within bounds. *)
Theorem C17_capacity_bound t self l w : repr t self l w ->
  exists bc al, v_byte_capacity t self w = (Ok bc, w) /\ v_align t self w = (Ok al, w) /\ 0 <= bc <= isize_max - (al - 1).
Proof.
  intros R. apply repr_orep in R as (o & d & R). exists (o_bcap t o), (o_al t o).
  ands; [eapply v_byte_capacity_eq; eauto|eapply v_align_eq; eauto|eapply orep_bcap; eauto..].
Qed.

(** A request that cannot be represented: too many bytes, or too many entries. *)
Definition impossible (t : ty) (l : list value) (n b : Z) : Prop :=
  kind_of t <> KSized /\ isize_max < total t l + b \/
  isize_max - (slot_align t - 1) < (zlen l + n) * slot_size t.
Lemma impossible_not t self l o d w n b : orep t self l o d w -> 0 < slot_size t -> zlen l + n <= o_cap t o ->
  (kind_of t <> KSized -> o_blen t o l + b <= o_bcap t o) -> impossible t l n b -> False.
Proof.
  intros R Sp L B [[K H]|H].
  - specialize (B K). pose proof (orep_bcap_max _ _ _ _ _ _ R). rewrite total_plen in H. unfold o_blen in B.
    pose proof (orep_pal _ _ _ _ _ _ R) as P. pose proof (pow2_pos _ P).
    pose proof (plen_le t 1 (o_pal o) pow2_1 P ltac:(lia) l). lia.
  - assert (X : o_cap t o * slot_size t <= isize_max - (slot_align t - 1)); [|nia].
    destruct o as [v|v|v|]; cbn [orep] in R; try tauto.
    + pose proof (sr_kind _ _ _ _ _ _ R) as K. destruct t; try discriminate K. pose proof (orep_bcap _ _ _ _ _ _ (R : orep _ _ _ (OS v) _ _)) as B'.
      cbn [slot_size slot_align] in *. change (s_size (TSized size align)) with size in *. ocbn in *.
      change (s_align (TSized size align)) with align in *. change (s_size (TSized size align)) with size in *.
      unfold s_capacity. change (s_size (TSized size align)) with size. destruct (Z.eqb_spec size 0); lia.
    + pose proof (ar_icap _ _ _ _ _ _ R) as [_ I]. pose proof (ar_kind _ _ _ _ _ _ R) as K. ocbn. destruct t; try discriminate K; exact I.
    + pose proof (ur_icap _ _ _ _ _ _ R) as [_ I]. pose proof (ur_kind _ _ _ _ _ _ R) as K. ocbn. destruct t; try discriminate K; exact I.
Qed.
Lemma slot_pos t : nzst t -> 0 < slot_size t.
Proof. intros N. destruct t; cbn [slot_size]; try (pose proof info_size_range; vm_compute; reflexivity). apply (N eq_refl). Qed.

(** Such a request never succeeds: it is an error, and a capacity-overflow error unless the allocator refused first. *)
Theorem C17_impossible_reserve t self l w n b a : repr t self l w -> 0 <= n -> 0 <= b -> nzst t -> (kind_of t = KUnaligned -> pow2 a) ->
  impossible t l n b ->
  run (v_try_reserve_capacity_bytes_align t self n b a) w
    (fun r w' => (r = RErr CapacityOverflow \/ r = RErr AllocError /\ alloc_failed w w') /\ shows t self l w')
    (fun r w' => r = PDebugAssert /\ cfg_debug = true /\ shows t self l w') (fun _ => False).
Proof.
  intros R Hn Hb Nz A I. apply repr_orep in R as (o & d & R).
  eapply run_conseq; [eapply v_try_reserve_cba_wp; eauto|..]; cbv beta; auto.
  - intros r w' (o' & d' & R' & _ & _ & _ & H). split; [|eapply repr_shows, orep_repr; eauto].
    destruct r as [|[]]; [exfalso|auto|right; split; [auto|apply H]].
    destruct H as (L & B & _). apply (impossible_not _ _ _ _ _ _ n b R'); auto using slot_pos. intros K. apply B. intros K'; congruence.
  - intros r w' (-> & D & R' & _). ands; auto using repr_shows.
Qed.
Theorem C17_impossible_reserve_exact t self l w n b a : repr t self l w -> 0 <= n -> 0 <= b -> nzst t -> (kind_of t = KUnaligned -> pow2 a) ->
  impossible t l n b ->
  run (v_try_reserve_exact_capacity_bytes_align t self n b a) w
    (fun r w' => (r = RErr CapacityOverflow \/ r = RErr AllocError /\ alloc_failed w w') /\ shows t self l w')
    (fun _ _ => False) (fun _ => False).
Proof.
  intros R Hn Hb Nz A I. apply repr_orep in R as (o & d & R).
  eapply run_conseq; [eapply v_try_reserve_exact_cba_wp; eauto|..]; cbv beta; auto.
  intros r w' (o' & d' & R' & _ & _ & _ & H). split; [|eapply repr_shows, orep_repr; eauto].
  destruct r as [|[]]; [exfalso|auto|right; split; [auto|apply H]].
  destruct H as (L & B & _). apply (impossible_not _ _ _ _ _ _ n b R'); auto using slot_pos. intros K. specialize (B (or_introl K)).
  pose proof (orep_fit _ _ _ _ _ _ R). lia.
Qed.

(** Alignment arguments that are not powers of two, for types whose alignment is chosen at run time. *)
Definition bad_align (a : Z) : Prop := ~ exists k, 0 <= k /\ a = 2 ^ k.
Lemma to_align_bad t a w : kind_of t = KUnaligned -> bad_align a -> to_align t a w = (Panic PBadAlign, w).
Proof.
  intros K B. unfold to_align, valid_align_new. rewrite K. destruct (is_power_of_two a) eqn:E; [|reflexivity].
  apply is_power_of_two_exp in E. contradiction.
Qed.
Lemma bind_panic {A B} (m : M A) (f : A -> M B) r w w' : m w = (Panic r, w') -> bind m f w = (Panic r, w').
Proof. unfold bind. now intros ->. Qed.
Theorem C17_bad_align_shrink t self w n b a : kind_of t = KUnaligned -> bad_align a ->
  v_shrink_capacity_bytes_align_to t self n b a w = (Panic PBadAlign, w).
Proof. intros K B. unfold v_shrink_capacity_bytes_align_to. apply bind_panic. now apply to_align_bad. Qed.
Definition bad_align_outcome (t : ty) (self : nat) (l : list value) (w : world) (m : M rres) : Prop :=
  run m w
    (fun r w' => r <> ROk /\ (r = RErr AllocError -> alloc_failed w w') /\ holds_list t self l w' /\ w_drops w' = w_drops w /\ others self w w')
    (fun r w' => r = PBadAlign /\ holds_list t self l w' /\ w_drops w' = w_drops w /\ others self w w')
    (fun _ => False).
Theorem C17_bad_align_reserve t self l w n b a : kind_of t = KUnaligned -> repr t self l w -> 0 <= n -> bad_align a ->
  bad_align_outcome t self l w (v_try_reserve_capacity_bytes_align t self n b a) /\
  bad_align_outcome t self l w (v_try_reserve_exact_capacity_bytes_align t self n b a).
Proof.
  intros K R Hn B. apply repr_orep in R as (o & d & R). split.
  - unfold bad_align_outcome, v_try_reserve_capacity_bytes_align, v_try_reserve. apply run_bind.
    eapply run_conseq; [eapply p_try_reserve_wp with (exact := false); eauto|..]; cbv beta; try tauto.
    intros r w' (o' & d' & R' & Q & _ & _ & _ & _ & _ & _ & _ & Res). pose proof (repr_holds _ _ _ _ (orep_repr _ _ _ _ _ _ R')) as Hl.
    destruct r as [|e].
    2:{ apply run_ret. ands; auto; try discriminate; try apply Q; try apply others_frame, Q; try apply Hl. intros [= ->]. apply Res. }
    eapply run_eq. { eapply v_capacity_eq; eauto. } eapply run_eq. { eapply v_len_eq, orep_repr; eauto. }
    eapply run_eq. { apply dassert_eq, Z.leb_le. lia. }
    unfold run. erewrite bind_panic by (apply to_align_bad; auto). ands; auto; try apply Q; apply others_frame, Q.
  - unfold bad_align_outcome, v_try_reserve_exact_capacity_bytes_align. apply run_bind.
    eapply run_conseq; [eapply p_try_reserve_wp with (exact := false); eauto|..]; cbv beta; try tauto.
    intros r w' (o' & d' & R' & Q & _ & _ & _ & _ & _ & _ & _ & Res). pose proof (repr_holds _ _ _ _ (orep_repr _ _ _ _ _ _ R')) as Hl.
    destruct r as [|e].
    2:{ apply run_ret. ands; auto; try discriminate; try apply Q; try apply others_frame, Q; try apply Hl. intros [= ->]. apply Res. }
    unfold run. erewrite bind_panic by (apply to_align_bad; auto). ands; auto; try apply Q; apply others_frame, Q.
Qed.

(** Every vector that existed keeps its contents. *)
Definition unharmed (w w' : world) : Prop := forall u j l, repr u j l w -> repr u j l w'.
Theorem C17_bad_align_with_capacity t n b a w : wf_ty t -> kind_of t = KUnaligned -> 0 <= n -> bad_align a ->
  run (v_with_capacity_bytes_align t n b a) w (fun _ _ => False)
    (fun r w' => (r = PBadAlign \/ r = PCapacity \/ r = POom /\ cfg_oom_panics = true) /\ w_drops w' = w_drops w /\ unharmed w w')
    (fun _ => cfg_oom_panics = false).
Proof.
  intros W K Hn B. unfold v_with_capacity_bytes_align. eapply run_eq; [apply v_new_align_1_eq|]. apply run_bind. apply run_on_unwind.
  pose proof (new_orep t true w W) as R. assert (N : newvec (length (w_vecs w)) [] [] w (set_vecs (w_vecs w ++ [new_o t true]) w)).
  { apply new_newvec. right. apply new_o_raw. }
  assert (D : forall o' d' w1 r, orep t (length (w_vecs w)) [] o' d' w1 -> quiet (length (w_vecs w)) (set_vecs (w_vecs w ++ [new_o t true]) w) w1 ->
    (r = PBadAlign \/ r = PCapacity \/ r = POom /\ cfg_oom_panics = true) ->
    run (v_drop t (length (w_vecs w))) w1
      (fun (_ : unit) w' => (r = PBadAlign \/ r = PCapacity \/ r = POom /\ cfg_oom_panics = true) /\ w_drops w' = w_drops w /\ unharmed w w')
      (fun _ _ => cfg_oom_panics = false) (fun _ => cfg_oom_panics = false)).
  { intros o' d' w1 r R' Q Hr. unfold run. rewrite (drop_empty_eq _ _ _ _ _ R').
    assert (N' : newvec (length (w_vecs w)) [] [] w w1). { eapply newvec_frame; [exact N|apply Q|intros b' []]. }
    ands; auto.
    - unfold dropped_world. proj. destruct Q as [_ ->]. apply app_nil_r.
    - intros u j l Rj. eapply (newvec_repr _ [] []); [|exact Rj|intros []|intros ? _ []].
      eapply newvec_frame; [exact N'|eapply dropped_frame; eauto|intros b' []]. }
  unfold v_reserve_exact_capacity_bytes_align, v_try_reserve_exact_capacity_bytes_align. apply run_bind, run_bind.
  eapply run_conseq; [eapply p_try_reserve_wp with (exact := false); eauto|..]; cbv beta; try (intros; contradiction).
  intros r w1 (o1 & d1 & R1 & Q & _). destruct r as [|e].
  - unfold run at 1. erewrite bind_panic by (apply to_align_bad; auto). eapply D; eauto.
  - apply run_ret. apply unwrap_wp. destruct e; [eapply D; eauto|]. destruct cfg_oom_panics eqn:E; auto. eapply D; eauto.
Qed.

(** ** C18 *)
(** What a successful reservation promises. *)
Definition provides (t : ty) (self : nat) (l : list value) (n b a : Z) (w w' : world) : Prop :=
  holds_list t self l w' /\ w_drops w' = w_drops w /\ others self w w' /\
  exists c bc bl al, v_capacity t self w' = (Ok c, w') /\ v_byte_capacity t self w' = (Ok bc, w') /\
    v_byte_len t self w' = (Ok bl, w') /\ v_align t self w' = (Ok al, w') /\
    zlen l + n <= c /\ bl + b <= bc /\ (kind_of t = KUnaligned -> a <= al).
(** Keeps the elements, whatever the result. *)
Definition keeps (t : ty) (self : nat) (l : list value) (w w' : world) : Prop :=
  holds_list t self l w' /\ w_drops w' = w_drops w /\ others self w w'.
(** The cases in which the documented promise is kept: for Sized types no more bytes than the [n] elements need
    ([Findings.C18_reserve_bytes_sized_refuted]); for run-time alignment, some byte buffer exists or is asked for, or the
    alignment is already there ([Findings.C18_reserve_align_refuted]). *)
Definition promised (t : ty) (l : list value) (n b a al bc : Z) : Prop :=
  match kind_of t with
  | KSized => 0 < s_size t /\ b <= n * s_size t
  | KAligned => True
  | KUnaligned => pow2 a /\ (0 < b \/ 0 < bc \/ a <= al)
  end.
Lemma promised_parts t l n b a al bc : promised t l n b a al bc ->
  nzst t /\ (kind_of t = KUnaligned -> pow2 a) /\ sized_request t n b /\ (kind_of t = KUnaligned -> 0 < b \/ 0 < bc \/ a <= al).
Proof. unfold promised, nzst, sized_request. destruct (kind_of t); intros H; ands; intros; try discriminate; tauto. Qed.
Lemma provides_of t self l o n b a w w' : sized_request t n b -> (kind_of t = KUnaligned -> 0 < b \/ 0 < o_bcap t o \/ a <= o_al t o) ->
  reserve_post t self l o n b a w ROk w' -> provides t self l n b a w w'.
Proof.
  intros SR CA (o' & d' & R' & Q & _ & _ & L & B & Al & Gr & _). unfold keeps, provides; ands; auto.
  - apply repr_holds. eapply orep_repr; eauto.
  - apply Q.
  - apply others_frame, Q.
  - exists (o_cap t o'), (o_bcap t o'), (o_blen t o' l), (o_al t o'). unfold keeps, provides; ands; auto.
    + eapply v_capacity_eq; eauto.
    + eapply v_byte_capacity_eq; eauto.
    + eapply v_byte_len_eq; eauto.
    + eapply v_align_eq; eauto.
    + intros K. destruct (Gr ltac:(congruence)) as ((M & _) & _). destruct Al as [->|(_ & E1 & E2 & E3)].
      * unfold req_al. rewrite K. lia.
      * destruct (CA K) as [?|[?|?]]; lia.
Qed.
Theorem C18_try_reserve_partial t self l w n b a al bc : repr t self l w -> 0 <= n -> 0 <= b ->
  v_align t self w = (Ok al, w) -> v_byte_capacity t self w = (Ok bc, w) -> promised t l n b a al bc ->
  run (v_try_reserve_capacity_bytes_align t self n b a) w
    (fun r w' => match r with ROk => provides t self l n b a w w' | RErr _ => keeps t self l w w' end)
    (fun r w' => r = PDebugAssert /\ cfg_debug = true /\ keeps t self l w w') (fun _ => False).
Proof.
  intros R Hn Hb Va Vb Pr. apply repr_orep in R as (o & d & R).
  rewrite (v_align_eq _ _ _ _ _ _ R) in Va. rewrite (v_byte_capacity_eq _ _ _ _ _ _ R) in Vb. injection Va as <-. injection Vb as <-.
  apply promised_parts in Pr as (Nz & A & SR & CA).
  eapply run_conseq; [eapply v_try_reserve_cba_wp; eauto|..]; cbv beta; auto.
  - intros r w' P. destruct r as [|e]; [eapply provides_of; eauto|]. destruct P as (o' & d' & R' & Q & _).
    unfold keeps, provides; ands. apply repr_holds; eapply orep_repr; eauto. apply Q. apply others_frame, Q.
  - intros r w' (-> & D & R' & Q & _). unfold keeps, provides; ands; auto. now apply repr_holds. apply Q. apply others_frame, Q.
Qed.
(** The panicking form. *)
Theorem C18_reserve_partial t self l w n b a al bc : repr t self l w -> 0 <= n -> 0 <= b ->
  v_align t self w = (Ok al, w) -> v_byte_capacity t self w = (Ok bc, w) -> promised t l n b a al bc ->
  run (v_reserve_capacity_bytes_align t self n b a) w
    (fun _ w' => provides t self l n b a w w')
    (fun r w' => keeps t self l w w' /\ (r = PCapacity \/ r = PDebugAssert /\ cfg_debug = true \/ r = POom /\ cfg_oom_panics = true))
    (fun w' => alloc_failed w w').
Proof.
  intros R Hn Hb Va Vb Pr. pose proof (C18_try_reserve_partial t self l w n b a al bc R Hn Hb Va Vb Pr) as H1.
  assert (H2 : run (v_try_reserve_capacity_bytes_align t self n b a) w (fun r w' => r = RErr AllocError -> alloc_failed w w') (fun _ _ => True) (fun _ => True)).
  { apply promised_parts in Pr as (Nz & A & _). apply repr_orep in R as (o & d & R).
    eapply run_conseq; [eapply v_try_reserve_cba_wp; eauto|..]; cbv beta; auto.
    intros r w' (o' & d' & _ & _ & _ & _ & H) ->. apply H. }
  unfold v_reserve_capacity_bytes_align. apply run_bind. eapply run_conseq; [eapply run_and; [exact H1|exact H2]|..]; cbv beta; try tauto.
  - intros r w' [P AF]. apply unwrap_wp. destruct r as [|[]]; auto. destruct cfg_oom_panics eqn:O; auto.
Qed.
(** [reserve], [try_reserve]: only the element count; no guard at all, and no debug assertion. *)
Theorem C18_try_reserve_count t self l w n : repr t self l w -> 0 <= n ->
  run (v_try_reserve t self n) w
    (fun r w' => keeps t self l w w' /\ (r = ROk -> exists c, v_capacity t self w' = (Ok c, w') /\ zlen l + n <= c) /\
                 (r = RErr AllocError -> alloc_failed w w'))
    (fun _ _ => False) (fun _ => False).
Proof.
  intros R Hn. apply repr_orep in R as (o & d & R). unfold v_try_reserve.
  eapply run_conseq; [eapply p_try_reserve_wp with (exact := false); eauto|..]; cbv beta; try tauto.
  intros r w' (o' & d' & R' & Q & _ & _ & _ & _ & _ & _ & _ & Res). unfold keeps, provides; ands.
  - apply repr_holds; eapply orep_repr; eauto.
  - apply Q.
  - apply others_frame, Q.
  - intros ->. exists (o_cap t o'). split; auto. eapply v_capacity_eq; eauto.
  - intros ->. auto.
Qed.
(** The exact forms: [b] bytes beyond the bytes that were unused before. *)
Theorem C18_try_reserve_exact_partial t self l w n b a al bc : repr t self l w -> 0 <= n -> 0 <= b ->
  v_align t self w = (Ok al, w) -> v_byte_capacity t self w = (Ok bc, w) -> promised t l n b a al bc ->
  (kind_of t = KSized -> b = 0) ->
  run (v_try_reserve_exact_capacity_bytes_align t self n b a) w
    (fun r w' => match r with ROk => provides t self l n b a w w' | RErr _ => keeps t self l w w' end)
    (fun _ _ => False) (fun _ => False).
Proof.
  intros R Hn Hb Va Vb Pr Sb. apply repr_orep in R as (o & d & R).
  rewrite (v_align_eq _ _ _ _ _ _ R) in Va. rewrite (v_byte_capacity_eq _ _ _ _ _ _ R) in Vb. injection Va as <-. injection Vb as <-.
  apply promised_parts in Pr as (Nz & A & SR & CA).
  eapply run_conseq; [eapply v_try_reserve_exact_cba_wp; eauto|..]; cbv beta; auto.
  intros r w' (o' & d' & R' & Q & _ & _ & H).
  assert (Kp : keeps t self l w w'). { unfold keeps, provides; ands. apply repr_holds; eapply orep_repr; eauto. apply Q. apply others_frame, Q. }
  destruct r as [|e]; [|exact Kp]. destruct Kp as (K1 & K2 & K3). unfold keeps, provides; ands; auto.
  destruct H as (L & B & EqA & Al & Mo & _). exists (o_cap t o'), (o_bcap t o'), (o_blen t o' l), (o_al t o').
  assert (B' : o_bcap t o - o_blen t o l + b <= o_bcap t o' - o_blen t o' l).
  { apply B. destruct (kind_of t) eqn:K; [right; auto|left; congruence..]. }
  pose proof (orep_fit _ _ _ _ _ _ R). pose proof (orep_blen_nonneg _ _ _ _ _ _ R). unfold keeps, provides; ands; auto; try lia.
  - eapply v_capacity_eq; eauto.
  - eapply v_byte_capacity_eq; eauto.
  - eapply v_byte_len_eq; eauto.
  - eapply v_align_eq; eauto.
  - intros K. destruct Al as [->|(_ & E1 & E2 & E3)].
    + unfold req_al. rewrite K. lia.
    + destruct (CA K) as [?|[?|?]]; lia.
Qed.

(** ** C20, guarded: Sized elements. With a free slot [push_with] and [insert_with] keep the buffer and the capacity. For the
    unsized kinds they always reallocate ([Findings.C20_push_with_refuted]). [emits e S w]: [e] is a well-behaved emplacable
    delivering [d_value S] and touching only its footprint. *)
Theorem C20_push_with_sized_partial t self l w e S c : kind_of t = KSized -> repr t self l w -> emits e S w -> good t (d_value S) ->
  l_size (d_lay S) = vsize t (d_value S) -> apart self (d_fv S) (d_fb S) w ->
  v_capacity t self w = (Ok c, w) -> zlen l < c ->
  run (v_push_with t self e) w
    (fun _ w' => holds_list t self (l ++ [d_value S]) w' /\ owned_block w' self = owned_block w self /\ v_capacity t self w' = (Ok c, w'))
    (fun _ w' => holds_list t self l w')
    (fun w' => alloc_failed w w' \/ aborted S w w').
Proof.
  intros K R Em G Ls Ap Vc L. apply repr_orep in R as (o & d & R). rewrite (v_capacity_eq _ _ _ _ _ _ R) in Vc. injection Vc as <-.
  eapply run_conseq; [eapply (v_push_with_wp t self l o d w e S); eauto|..]; cbv beta; auto.
  - unfold fits. ands; auto; intros K'; congruence.
  - intros K'; congruence.
  - intros _ w' (o' & d' & R' & _ & _ & _ & _ & St). destruct (proj1 St K L) as [E1 E2]. ands.
    + apply repr_holds. eapply orep_repr; eauto.
    + rewrite (orep_owned _ _ _ _ _ _ R), (orep_owned _ _ _ _ _ _ R'). now rewrite E1.
    + rewrite <- E2. eapply v_capacity_eq; eauto.
  - intros r w' (R' & _). now apply repr_holds.
Qed.
Theorem C20_insert_with_sized_partial t self l w e S c i : kind_of t = KSized -> repr t self l w -> emits e S w -> good t (d_value S) ->
  l_size (d_lay S) = vsize t (d_value S) -> apart self (d_fv S) (d_fb S) w ->
  v_capacity t self w = (Ok c, w) -> zlen l < c -> (i <= length l)%nat ->
  run (v_insert_with t self i e) w
    (fun _ w' => holds_list t self (insert_at i (d_value S) l) w' /\ owned_block w' self = owned_block w self /\ v_capacity t self w' = (Ok c, w'))
    (fun _ w' => holds_list t self l w')
    (fun w' => alloc_failed w w' \/ aborted S w w').
Proof.
  intros K R Em G Ls Ap Vc L Li. apply repr_orep in R as (o & d & R). rewrite (v_capacity_eq _ _ _ _ _ _ R) in Vc. injection Vc as <-.
  eapply run_conseq; [eapply (v_insert_with_wp t self l o d w e S i); eauto|..]; cbv beta; auto.
  - unfold fits. ands; auto; intros K'; congruence.
  - intros K'; congruence.
  - intros K'; congruence.
  - intros _ w' (o' & d' & R' & _ & _ & _ & _ & St). destruct (proj1 St K L) as [E1 E2]. ands.
    + apply repr_holds. eapply orep_repr; eauto.
    + rewrite (orep_owned _ _ _ _ _ _ R), (orep_owned _ _ _ _ _ _ R'). now rewrite E1.
    + rewrite <- E2. eapply v_capacity_eq; eauto.
  - intros r w' (R' & _). now apply repr_holds.
Qed.

(** ** C21, guarded: in a release build the try_ functions never panic, and a failure loses nothing. In a debug build a failing
    [try_reserve_capacity_bytes_align] panics ([Findings.C21_try_reserve_debug_refuted]). *)
Theorem C21_try_reserve_partial t self l w n b a bl bc : cfg_debug = false -> repr t self l w -> 0 <= n -> 0 <= b -> nzst t ->
  (kind_of t = KUnaligned -> pow2 a) -> sized_request t n b ->
  v_byte_len t self w = (Ok bl, w) -> v_byte_capacity t self w = (Ok bc, w) ->
  run (v_try_reserve_capacity_bytes_align t self n b a) w
    (fun r w' => r <> ROk -> keeps t self l w w' /\ w_heap w' = w_heap w /\ v_byte_len t self w' = (Ok bl, w') /\
                             v_byte_capacity t self w' = (Ok bc, w') /\ (r = RErr AllocError -> alloc_failed w w'))
    (fun _ _ => False) (fun _ => False).
Proof.
  intros Dbg R Hn Hb Nz A SR Vl Vb. apply repr_orep in R as (o & d & R).
  rewrite (v_byte_len_eq _ _ _ _ _ _ R) in Vl. rewrite (v_byte_capacity_eq _ _ _ _ _ _ R) in Vb. injection Vl as <-. injection Vb as <-.
  eapply run_conseq; [eapply v_try_reserve_cba_wp; eauto|..]; cbv beta; auto.
  - intros r w' (o' & d' & R' & Q & _ & _ & H) Ne. destruct r as [|e]; [congruence|]. destruct H as (Ca & H). destruct (H SR) as (Hh & Hp & Hb').
    unfold keeps. ands; auto.
    + apply repr_holds; eapply orep_repr; eauto.
    + apply Q.
    + apply others_frame, Q.
    + replace (o_blen t o l) with (o_blen t o' l) by (unfold o_blen; now rewrite Hp). eapply v_byte_len_eq; eauto.
    + rewrite <- Hb'. eapply v_byte_capacity_eq; eauto.
    + intros E. injection E as ->. exact Ca.
  - intros r w' (_ & D & _). congruence.
Qed.
Theorem C21_try_reserve_count t self l w n bl bc exact : repr t self l w -> 0 <= n ->
  v_byte_len t self w = (Ok bl, w) -> v_byte_capacity t self w = (Ok bc, w) ->
  run (if (exact : bool) then v_try_reserve_exact t self n else v_try_reserve t self n) w
    (fun r w' => r <> ROk -> keeps t self l w w' /\ w_heap w' = w_heap w /\ v_byte_len t self w' = (Ok bl, w') /\
                             v_byte_capacity t self w' = (Ok bc, w') /\ (r = RErr AllocError -> alloc_failed w w'))
    (fun _ _ => False) (fun _ => False).
Proof.
  intros R Hn Vl Vb. apply repr_orep in R as (o & d & R).
  rewrite (v_byte_len_eq _ _ _ _ _ _ R) in Vl. rewrite (v_byte_capacity_eq _ _ _ _ _ _ R) in Vb. injection Vl as <-. injection Vb as <-.
  assert (E : (if exact then v_try_reserve_exact t self n else v_try_reserve t self n) = p_try_reserve t self n exact) by now destruct exact.
  rewrite E. eapply run_conseq; [eapply p_try_reserve_wp; eauto|..]; cbv beta; try (intros; contradiction).
  intros r w' (o' & d' & R' & Q & _ & _ & _ & Hp & Un & _ & _ & Res) Ne. destruct (Un (or_intror Ne)) as (Eb & _ & Hh).
  unfold keeps. ands; auto.
  - apply repr_holds; eapply orep_repr; eauto.
  - apply Q.
  - apply others_frame, Q.
  - replace (o_blen t o l) with (o_blen t o' l) by (unfold o_blen; now rewrite Hp). eapply v_byte_len_eq; eauto.
  - rewrite <- Eb. eapply v_byte_capacity_eq; eauto.
  - intros ->. exact Res.
Qed.
(** The exact form has no debug assertion, so it never panics in any build. *)
Theorem C21_try_reserve_exact t self l w n b a : repr t self l w -> 0 <= n -> 0 <= b -> nzst t -> (kind_of t = KUnaligned -> pow2 a) ->
  run (v_try_reserve_exact_capacity_bytes_align t self n b a) w
    (fun r w' => keeps t self l w w' /\ (r = RErr AllocError -> alloc_failed w w'))
    (fun _ _ => False) (fun _ => False).
Proof.
  intros R Hn Hb Nz A. apply repr_orep in R as (o & d & R).
  eapply run_conseq; [eapply v_try_reserve_exact_cba_wp; eauto|..]; cbv beta; auto.
  intros r w' (o' & d' & R' & Q & _ & _ & H). unfold keeps. ands.
  - apply repr_holds; eapply orep_repr; eauto.
  - apply Q.
  - apply others_frame, Q.
  - intros ->. exact H.
Qed.

(** ** C22 *)
Lemma u_reserve_fresh t self v d w b : urep t self [] v d w -> uv_bcap v = 0 -> 0 <= b ->
  run (u_try_reserve_bytes_align t self b 1) w
    (fun r w' => r = ROk -> exists v', nth_error (w_vecs w') self = Some (OU v') /\ uv_bcap v' = pad b (uv_align v))
    (fun _ _ => True) (fun _ => True).
Proof.
  intros R B0 Hb. pose proof (u_byte_len_eq _ _ _ _ _ _ R) as BL. cbn [plen] in BL.
  assert (P : pow2 (uv_align v)) by apply R. pose proof (pow2_pos _ P) as Pp. pose proof (nth_error_lt _ _ _ (ur_obj _ _ _ _ _ _ R)) as LT.
  unfold u_try_reserve_bytes_align. eapply run_eq. { eapply get_u_eq, R. } cbv zeta.
  replace (Z.max (uv_align v) 1) with (uv_align v) by lia. rewrite B0.
  eapply run_eq. { exact BL. } rewrite Z.ltb_irrefl. cbn [negb andb orb].
  assert (P0 : pad 0 (uv_align v) = 0). { apply pad_id; [exact Pp|]. apply Z.mod_0_l. lia. }
  destruct (Z.eqb_spec b 0) as [->|Nb].
  { apply run_ret. intros _. exists v. split; [apply R|]. now rewrite P0. }
  eapply run_eq. { reflexivity. } cbv beta iota.
  eapply run_eq. { apply vs_unchecked_sub_eq; lia. }
  rewrite checked_add_pad_spec by (auto; lia). change (0 + (0 - 0)) with 0. rewrite P0. change (0 <=? isize_max) with true. cbv beta iota.
  rewrite checked_add_pad_spec by (auto; lia). rewrite Z.add_0_l. pose proof (pad_ge b (uv_align v) Pp) as Pg.
  destruct (Z.leb_spec (pad b (uv_align v)) isize_max) as [Fb|Fb]; [|apply run_ret; discriminate].
  rewrite (proj2 (Z.ltb_lt 0 (pad b (uv_align v)))) by lia.
  assert (Mx : pad b (uv_align v) <= isize_max - (uv_align v - 1)). { apply mult_le_max; auto. now apply pad_mult. }
  eapply run_eq. { apply layout_unchecked_eq. lia. } apply run_bind.
  change (0 =? 0) with true. cbv beta iota. pose proof (ur_buf _ _ _ _ _ _ R) as Bu. rewrite B0 in Bu.
  eapply (grow_wp w (uv_ptr v) (uv_align v) 0 (pad b (uv_align v)) (uv_align v) d); eauto; try lia.
  - intros q h k m _ _ _ _ _ _ _. eapply run_eq. { unfold set_obj. reflexivity. } eapply run_eq. { reflexivity. } apply run_ret. intros _.
    eexists. split. { proj. now apply upd_same. } proj. cbn [l_size]. unfold new_squished_to, max_for_align.
    rewrite (proj2 (Z.leb_le _ _)); auto.
  - intros _. apply run_ret. discriminate.
Qed.

Definition caps_post (t : ty) (self : nat) (n b : Z) (w' : world) : Prop :=
  exists c bc, v_capacity t self w' = (Ok c, w') /\ v_byte_capacity t self w' = (Ok bc, w') /\
    c = (if n =? 0 then 0 else Z.max (min_non_zero_cap (slot_size t)) n) /\
    (kind_of t = KAligned -> bc = b) /\ (kind_of t = KUnaligned -> bc = pad b 8).
Lemma fresh_exact t self w n b : orep t self [] (new_o t false) [] w -> 0 <= n -> 0 <= b -> nzst t -> (kind_of t = KSized -> b = 0) ->
  run (v_try_reserve_exact_capacity_bytes_align t self n b 1) w
    (fun r w' => r = ROk -> caps_post t self n b w') (fun _ _ => True) (fun _ => True).
Proof.
  intros R Hn Hb Nz Kb. unfold v_try_reserve_exact_capacity_bytes_align.
  assert (N0 : o_cap t (new_o t false) = 0).
  { unfold new_o. destruct (kind_of t) eqn:K; ocbn; auto. unfold s_capacity. specialize (Nz K). destruct (Z.eqb_spec (s_size t) 0); [lia|reflexivity]. }
  assert (B0 : o_bcap t (new_o t false) = 0). { unfold new_o. destruct (kind_of t) eqn:K; ocbn; auto. }
  assert (A0 : kind_of t = KUnaligned -> o_al t (new_o t false) = 8). { unfold new_o. intros ->. reflexivity. }
  apply run_bind. eapply run_conseq; [apply run_and; [eapply p_try_reserve_wp; eauto|eapply p_try_reserve_cap; eauto]|..]; cbv beta; try (intros; tauto).
  intros r w1 [(o1 & d1 & R1 & _ & _ & _ & Al & Pl & Un & Nop & _ & Res) Hc]. destruct r; [|apply run_ret; discriminate].
  assert (C1 : o_cap t o1 = if n =? 0 then 0 else Z.max (min_non_zero_cap (slot_size t)) n).
  { rewrite N0 in *. destruct (Z.eqb_spec n 0) as [->|Nn].
    - destruct (Nop ltac:(unfold zlen; cbn; lia)) as [_ ->]. pose proof (orep_obj _ _ _ _ _ _ R1) as E1. rewrite (orep_obj _ _ _ _ _ _ R) in E1. injection E1 as <-. exact N0.
    - destruct (Hc eq_refl) as (o' & No & E). { unfold zlen; cbn; lia. } rewrite (orep_obj _ _ _ _ _ _ R1) in No. injection No as <-.
      rewrite E. unfold want_cap, zlen. cbn [length]. lia. }

  destruct (to_align_eq t 1 w1 ltac:(intros; apply pow2_1)) as (a' & Ta & Ea). eapply run_eq; [exact Ta|].
  assert (Xt : run (p_try_reserve_bytes_align t self b a') w1
    (fun r w' => r = ROk -> kind_of t = KUnaligned -> exists v', nth_error (w_vecs w') self = Some (OU v') /\ uv_bcap v' = pad b 8) (fun _ _ => True) (fun _ => True)).
  { destruct (kind_of t) eqn:K.
    - eapply run_conseq; [eapply p_try_reserve_bytes_wp; eauto; intros; congruence|..]; cbv beta; auto. intros; congruence.
    - eapply run_conseq; [eapply p_try_reserve_bytes_wp; eauto; intros; congruence|..]; cbv beta; auto. intros; congruence.
    - destruct (Un ltac:(left; congruence)) as (Eb & _). rewrite Ea by auto. unfold p_try_reserve_bytes_align. rewrite K.
      destruct o1 as [v|v|v|]; cbn [orep] in R1; try contradiction; try (destruct R1; congruence).
      ocbn in *. eapply run_conseq; [eapply u_reserve_fresh; eauto; congruence|..]; cbv beta; auto.
      rewrite Al, A0 by auto. intros r w' H E _. auto. }
  eapply run_conseq; [apply run_and; [eapply p_try_reserve_bytes_wp; eauto; intros H; rewrite Ea by auto; apply pow2_1|exact Xt]|..]; cbv beta zeta; try (intros; tauto).
  intros r w2 [(o2 & d2 & R2 & _ & _ & Cs & Np & Res2) H] ->. destruct Res2 as (_ & _ & Ea2 & _). specialize (H eq_refl).
  exists (o_cap t o2), (o_bcap t o2). ands.
  - eapply v_capacity_eq; eauto.
  - eapply v_byte_capacity_eq; eauto.
  - destruct (kind_of t) eqn:K; [|rewrite Cs by congruence; exact C1..]. rewrite (Kb eq_refl) in Np.
    destruct (Np eq_refl ltac:(intros; congruence)) as [_ ->].
    pose proof (orep_obj _ _ _ _ _ _ R2) as E1. rewrite (orep_obj _ _ _ _ _ _ R1) in E1. injection E1 as <-. exact C1.
  - intros K. rewrite Ea2 by auto. destruct (Un ltac:(left; congruence)) as (-> & _). rewrite B0. reflexivity.
  - intros K. destruct (H K) as (v' & No & E). rewrite (orep_obj _ _ _ _ _ _ R2) in No. injection No as ->. exact E.
Qed.
(** [with_capacity_bytes]: the byte capacity is exact up to the padding to the default alignment, the element capacity is exact
    except that a small nonzero count is rounded up to the amortised minimum (see [C22_with_capacity_refuted]). *)
Theorem C22_with_capacity_partial t n b w : wf_ty t -> 0 <= n -> 0 <= b -> nzst t -> (kind_of t = KSized -> b = 0) ->
  run (v_with_capacity_bytes t n b) w (fun v w' => caps_post t v n b w') (fun _ _ => True) (fun _ => True).
Proof.
  intros W Hn Hb Nz Kb. unfold v_with_capacity_bytes. eapply run_eq; [apply v_new_eq|]. apply run_bind.
  apply run_on_unwind. unfold v_reserve_exact_capacity_bytes, v_try_reserve_exact_capacity_bytes. apply run_bind.
  pose proof (new_orep t false w W) as R.
  eapply run_conseq; [apply run_and; [eapply fresh_exact; eauto|eapply v_try_reserve_exact_cba_wp; eauto; intros; apply pow2_1]|..]; cbv beta; try (intros; tauto).
  intros r w' [H (o' & d' & R' & _)]. apply unwrap_wp. destruct r as [|[]]; [apply run_ret; auto|..];
    try destruct cfg_oom_panics; auto; unfold run; rewrite (drop_empty_eq _ _ _ _ _ R'); auto.
Qed.
Corollary C22_with_capacity_exact_partial t n b w : wf_ty t -> 8 <= n -> 0 <= b -> nzst t -> (kind_of t = KSized -> b = 0) ->
  run (v_with_capacity_bytes t n b) w
    (fun v w' => v_capacity t v w' = (Ok n, w') /\
      (kind_of t = KAligned \/ kind_of t = KUnaligned /\ b mod 8 = 0 -> v_byte_capacity t v w' = (Ok b, w')))
    (fun _ _ => True) (fun _ => True).
Proof.
  intros W Hn Hb Nz Kb. eapply run_conseq; [apply C22_with_capacity_partial; auto; lia|..]; cbv beta; auto.
  intros v w' (c & bc & Vc & Vb & Ec & Ea & Eu).
  assert (M : min_non_zero_cap (slot_size t) <= 8). { unfold min_non_zero_cap. destruct (_ =? 1); [lia|]. destruct (_ <=? 1024); lia. }
  destruct (Z.eqb_spec n 0); [lia|]. rewrite Z.max_r in Ec by lia. subst c. split; auto.
  intros [K|[K D]]; [rewrite (Ea K) in Vb|rewrite (Eu K), pad_id in Vb by (auto; lia)]; exact Vb.
Qed.
(** C19 and C22 together: a vector made with room for everything pushed onto it afterwards, counting padding where there is any,
    never calls the allocator again and never moves an element. *)
Definition fits_pushes (t : ty) (v : nat) (n b : Z) (w : world) : Prop :=
  forall xs al, v_align t v w = (Ok al, w) ->
    Forall (fun x => good t x /\ (kind_of t = KUnaligned -> valign t x <= al)) xs ->
    zlen xs <= n -> (kind_of t = KSized \/ padded_total t (pad_unit t al) xs <= b) ->
    exists w', v_push_values t v xs w = (Ok tt, w') /\ shows t v xs w' /\
      w_nalloc w' = w_nalloc w /\ w_moved w' = w_moved w /\ owned_block w' v = owned_block w v /\
      (forall c, v_capacity t v w = (Ok c, w) -> v_capacity t v w' = (Ok c, w')) /\
      (forall bc, v_byte_capacity t v w = (Ok bc, w) -> v_byte_capacity t v w' = (Ok bc, w')).
Lemma made_fits t one n b a w v w' : nzst t -> 0 <= b -> made t one n b a w v w' -> fits_pushes t v n b w'.
Proof.
  intros Nz Hb (o & d & w1 & R & _ & _ & R1 & o' & d' & R' & _ & _ & _ & Hc & Hbc & _) xs al Va G Hn Hp.
  pose proof (orep_obj _ _ _ _ _ _ R') as E. rewrite (orep_obj _ _ _ _ _ _ R) in E. injection E as <-.
  change (zlen []) with 0 in Hc. pose proof Va as Va0. rewrite (v_align_eq _ _ _ _ _ _ R) in Va0. injection Va0 as <-.
  destruct (C19_pushes_in_place t v xs Nz [] w' (o_cap t o) (o_bcap t o) (o_blen t o []) (o_al t o)) as (w2 & E & Sh & A1 & A2 & _ & A3 & A4 & A5 & _);
    [eapply orep_repr; eauto|eapply v_capacity_eq; eauto|eapply v_byte_capacity_eq; eauto|eapply v_byte_len_eq; eauto|exact Va|exact G| | |].
  - change (zlen []) with 0. lia.
  - assert (B0 : o_bcap t (new_o t one) = 0) by (unfold new_o; destruct (kind_of t), one; reflexivity).
    rewrite B0 in Hbc. change (o_blen t (new_o t one) []) with 0 in Hbc. change (o_blen t o []) with 0 in *.
    assert (U : kind_of t <> KSized -> padded_total t (pad_unit t (o_al t o)) xs <= b) by (destruct Hp; [congruence|auto]).
    destruct (kind_of t) eqn:K; [|specialize (Hbc ltac:(left; discriminate)); specialize (U ltac:(discriminate)); lia..].
    assert (T : padded_total t (pad_unit t (o_al t o)) xs = zlen xs * s_size t).
    { unfold pad_unit. rewrite K, padded_total_plen. apply plen_sized; auto. eapply Forall_impl; [|exact G]. intros x [? _]; auto. }
    rewrite T. destruct o; cbn [orep] in R; try tauto; try (destruct R; congruence). ocbn in *. unfold s_capacity in Hc. specialize (Nz K).
    destruct (Z.eqb_spec (s_size t) 0); [lia|]. nia.
  - exists w2. rewrite (v_capacity_eq _ _ _ _ _ _ R), (v_byte_capacity_eq _ _ _ _ _ _ R).
    ands; auto; intros ? [= <-]; auto.
Qed.
Theorem C22_with_capacity_pushes t n b w : wf_ty t -> 0 <= n -> 0 <= b -> nzst t ->
  run (v_with_capacity_bytes t n b) w (fun v w' => fits_pushes t v n b w') (fun _ _ => True) (fun _ => True).
Proof.
  intros W Hn Hb Nz. eapply run_conseq; [apply v_with_capacity_bytes_wp; auto|..]; cbv beta; auto. intros v w'. now apply made_fits.
Qed.
Theorem C22_with_capacity_align_pushes t n b a w : wf_ty t -> 0 <= n -> 0 <= b -> nzst t -> (kind_of t = KUnaligned -> pow2 a) ->
  run (v_with_capacity_bytes_align t n b a) w (fun v w' => fits_pushes t v n b w') (fun _ _ => True) (fun _ => True).
Proof.
  intros W Hn Hb Nz A. eapply run_conseq; [apply v_with_capacity_bytes_align_wp; auto|..]; cbv beta; auto. intros v w'. now apply made_fits.
Qed.
(** [try_reserve_exact] itself is exact: growing to make room for [n] more leaves room for exactly [n]. *)
Theorem C22_try_reserve_exact t self l w n c : repr t self l w -> 0 <= n -> nzst t ->
  v_capacity t self w = (Ok c, w) -> c < zlen l + n ->
  run (v_try_reserve_exact t self n) w
    (fun r w' => r = ROk -> v_capacity t self w' = (Ok (zlen l + n), w')) (fun _ _ => False) (fun _ => False).
Proof.
  intros R Hn Nz Vc L. apply repr_orep in R as (o & d & R). rewrite (v_capacity_eq _ _ _ _ _ _ R) in Vc. injection Vc as <-.
  eapply run_conseq; [apply run_and; [eapply p_try_reserve_wp; eauto|eapply p_try_reserve_cap; eauto]|..]; cbv beta; try (intros; tauto).
  intros r w1 [(o1 & d1 & R1 & _) Hc] ->. destruct (Hc eq_refl L) as (o' & No & E). rewrite (orep_obj _ _ _ _ _ _ R1) in No. injection No as <-.
  cbn [want_cap] in E. rewrite <- E. eapply v_capacity_eq; eauto.
Qed.
End WithConfig.

Print Assumptions C17_capacity_bound.
Print Assumptions C17_impossible_reserve.
Print Assumptions C17_impossible_reserve_exact.
Print Assumptions C17_bad_align_shrink.
Print Assumptions C17_bad_align_reserve.
Print Assumptions C17_bad_align_with_capacity.
Print Assumptions C18_try_reserve_partial.
Print Assumptions C18_reserve_partial.
Print Assumptions C18_try_reserve_count.
Print Assumptions C18_try_reserve_exact_partial.
Print Assumptions C20_push_with_sized_partial.
Print Assumptions C20_insert_with_sized_partial.
Print Assumptions C21_try_reserve_partial.
Print Assumptions C21_try_reserve_count.
Print Assumptions C21_try_reserve_exact.
Print Assumptions C22_with_capacity_partial.
Print Assumptions C22_with_capacity_exact_partial.
Print Assumptions C22_with_capacity_pushes.
Print Assumptions C22_with_capacity_align_pushes.
Print Assumptions C22_try_reserve_exact.

(** * Cases meeting the hypotheses *)
Section Cases.
Local Existing Instance cfg_release.
Ltac built := eapply (built_repr _ _ empty_world); [exact I|intros K; discriminate K|apply takesb_ok; reflexivity|run].
Ltac built32 := eapply (built_repr _ _ empty_world); [apply wf_u32|intros K; reflexivity|apply takesb_ok; reflexivity|run].

Lemma bad_align_3 : bad_align 3.
Proof.
  intros (k & Hk & E). destruct (Z.eq_dec k 0) as [->|]; [discriminate E|]. destruct (Z.eq_dec k 1) as [->|]; [discriminate E|].
  assert (2 ^ 2 <= 2 ^ k) by (apply Z.pow_le_mono_r; lia). lia.
Qed.
(** [try_reserve_capacity_bytes_align(1, usize::MAX, 1)] and [(usize::MAX, 0, 1)] on two strings; alignment 3 on a dyn vector. *)
Example C17_case : exists v w, repr TStr v [ab; cd] w /\ impossible TStr [ab; cd] 1 usize_max /\ impossible TStr [ab; cd] usize_max 0 /\
  (exists w', v_try_reserve_capacity_bytes_align TStr v 1 usize_max 1 w = (Ok (RErr CapacityOverflow), w')) /\
  (exists w', v_try_reserve_capacity_bytes_align TStr v usize_max 0 1 w = (Ok (RErr CapacityOverflow), w')).
Proof.
  do 2 eexists. split; [built|]. split; [left; split; [discriminate|reflexivity]|]. split; [right; reflexivity|].
  split; eexists; run.
Qed.
Example C17_align_case : exists v w, repr TDyn v [five 1; half 2] w /\ kind_of TDyn = KUnaligned /\ bad_align 3 /\
  (exists w', v_reserve_capacity_bytes_align TDyn v 1 8 3 w = (Panic PBadAlign, w')) /\
  (exists w', v_with_capacity_bytes_align TDyn 1 8 3 w = (Panic PBadAlign, w')).
Proof. do 2 eexists. split; [built|]. split; [reflexivity|]. split; [apply bad_align_3|]. split; eexists; run. Qed.
(** Reserve 3 entries, 10 bytes at alignment 16 behind dyn; 5 entries on a u32 vector. *)
Example C18_case : exists v w al bc w', repr TDyn v [five 1; half 2] w /\ v_align TDyn v w = (Ok al, w) /\
  v_byte_capacity TDyn v w = (Ok bc, w) /\ promised TDyn [five 1; half 2] 3 10 16 al bc /\
  v_try_reserve_capacity_bytes_align TDyn v 3 10 16 w = (Ok ROk, w') /\ v_align TDyn v w' = (Ok 16, w') /\
  v_byte_capacity TDyn v w' = (Ok 48, w').
Proof.
  do 5 eexists. split; [built|]. split; [run|]. split; [run|]. split; [split; [exists 4; lia|left; lia]|]. split; [run|]. split; [run|]. run.
Qed.
Example C18_sized_case : exists v w al bc w', repr (TSized 4 4) v [u32 1] w /\ v_align (TSized 4 4) v w = (Ok al, w) /\
  v_byte_capacity (TSized 4 4) v w = (Ok bc, w) /\ promised (TSized 4 4) [u32 1] 7 20 1 al bc /\
  v_try_reserve_capacity_bytes_align (TSized 4 4) v 7 20 1 w = (Ok ROk, w').
Proof.
  do 5 eexists. split; [built32|]. split; [run|]. split; [run|]. split; [split; reflexivity || discriminate|]. run.
Qed.
(** A u32 vector with capacity 4 holding two elements: [push_with] and [insert_with] stay in place. *)
Example C20_case : exists v w, repr (TSized 4 4) v [u32 1; u32 2] w /\
  emits (emplacable_of_value (TSized 4 4) (u32 3)) (value_deal (TSized 4 4) (u32 3)) w /\ good (TSized 4 4) (u32 3) /\
  apart v (d_fv (value_deal (TSized 4 4) (u32 3))) (d_fb (value_deal (TSized 4 4) (u32 3))) w /\
  v_capacity (TSized 4 4) v w = (Ok 4, w) /\ zlen [u32 1; u32 2] < 4.
Proof.
  do 2 eexists. split; [built32|]. split; [apply value_emits|]. split; [apply goodb_ok; reflexivity|].
  split; [|split; [run|reflexivity]]. split; [auto|split; [intros ? []|intros ? _ []]].
Qed.
End Cases.
(** A failing allocator: the first allocation is served, the second fails, the vector is intact. *)
Section Failing.
Local Instance cfg_second_fails : Config := {| cfg_debug := false; cfg_alloc n := match n with 0%nat | 1%nat => Some 1 | _ => None end;
  cfg_drop_panics _ := false; cfg_oom_panics := false |}.
Example C21_case : exists v w w', repr TStr v [ab] w /\ sized_request TStr 1 100 /\
  v_try_reserve_capacity_bytes_align TStr v 1 100 1 w = (Ok (RErr AllocError), w') /\ alloc_failed w w' /\ shows TStr v [ab] w'.
Proof.
  do 3 eexists. split; [eapply (built_repr _ _ empty_world); [exact I|intros K; discriminate K|apply takesb_ok; reflexivity|run]|].
  split; [intros K; discriminate K|]. split; [run|]. split; [exists 2%nat; split; [split; [run|run]|run]|run].
Qed.
End Failing.
Section Cases22.
Local Existing Instance cfg_release.
Example C22_case : (exists v w, v_with_capacity_bytes TStr 10 77 empty_world = (Ok v, w) /\ v_capacity TStr v w = (Ok 10, w) /\
    v_byte_capacity TStr v w = (Ok 77, w)) /\
  (exists v w, v_with_capacity_bytes TDyn 1 77 empty_world = (Ok v, w) /\ v_capacity TDyn v w = (Ok 4, w) /\ v_byte_capacity TDyn v w = (Ok 80, w)) /\
  exists v w w', repr TStr v [ab; cd] w /\ v_capacity TStr v w = (Ok 4, w) /\ v_try_reserve_exact TStr v 3 w = (Ok ROk, w') /\
    v_capacity TStr v w' = (Ok 5, w').
Proof.
  split; [|split]; do 2 eexists; [split; [run|]; split; [run|]; run..|].
  eexists. split; [eapply (built_repr _ _ empty_world); [exact I|intros K; discriminate K|apply takesb_ok; reflexivity|run]|].
  split; [run|]. split; [run|]. run.
Qed.
(** Room for three strings of six bytes in all: pushing them neither allocates nor moves anything; a fourth does. *)
Example C22_pushes_case : exists v w w1 w2, v_with_capacity_bytes TStr 3 6 empty_world = (Ok v, w) /\
  v_align TStr v w = (Ok 1, w) /\ Forall (fun x => good TStr x /\ (kind_of TStr = KUnaligned -> valign TStr x <= 1)) [ab; cd; ef] /\
  padded_total TStr (pad_unit TStr 1) [ab; cd; ef] = 6 /\
  v_push_values TStr v [ab; cd; ef] w = (Ok tt, w1) /\ w_nalloc w1 = w_nalloc w /\
  v_push_values TStr v [ab; cd; ef; ab] w = (Ok tt, w2) /\ (w_nalloc w < w_nalloc w2)%nat.
Proof.
  do 4 eexists. split; [run|]. split; [run|]. split; [repeat constructor; try discriminate; apply goodb_ok; reflexivity|].
  split; [run|]. split; [run|]. split; [run|]. split; [run|]. vm_compute. repeat constructor.
Qed.
End Cases22.
