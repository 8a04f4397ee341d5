(** C74: calls do not fail while there is room.

    The specification of histories (History.v) lets every call that reserves memory panic for want of room. Here the panics are
    ruled out: while the elements and bytes asked for so far are far below the address space, the allocator serves every request and
    no destructor panics, every call does its work; only an index out of bounds still panics. For all
    types but trait objects. *)
From Coq Require Import ZArith List Bool Lia.
From Verif Require Import Types World ValidSize Emplace SizedVec AlignedVec UnalignedVec Api Spec Bytes Arith Wp Mem Repr
  Access Reserve Realign Orep Push Deal PushWith Shell Insert Take Pop Box Iter Calls GetMut DropVec Family Build PushAll Wrote Sources
  Obs Room Shrink Zst PropPush PropReserve PropAccess PropEdit PropEmplace PropShrink PropCompare PropWhole Convert PropUnsize PropConvert History
  PropCost Aligns Rooms PropHistory PropKinds Findings.
Import ListNotations.
Open Scope Z_scope.
Open Scope m_scope.

Section WithConfig.
Context {C : Config}.

(** ** What the calls ask for *)
(** Elements and bytes. *)
Definition vasks (t : ty) (c : vop) : Z * Z :=
  match c with
  | VPush x | VPushWith x | VInsert _ x | VInsertWith _ x => (1, vsize t x)
  | VPushUnsize _ _ m x | VInsertUnsize _ _ m _ x => (1, vsize t (coerce m x))
  | VTryReserve _ n b _ | VReserve _ n b _ => (n, b)
  | VTryReserveCount _ n | VReserveCount n => (n, 0)
  | VExtend hint xs => (hint + zlen xs, total t xs)
  | VPushFrom _ D | VInsertFrom _ _ D => (1, vsize t (d_value D))
  | VExtendFrom hint ps => (hint + zlen ps, total t (map d_value (map snd ps)))
  | _ => (0, 0)
  end.
(** Elements of at most [mx] bytes are moved from vector to vector. *)
Definition asks (t : ty) (mx : Z) (c : op) : Z * Z :=
  match c with
  | WithCapacity n => (n, 0)
  | WithCapacityBytes n b | WithCapacityBytesAlign n b _ => (n, b)
  | OfValues xs => (zlen xs, total t xs)
  | Collect hint xs => (hint + zlen xs, total t xs)
  | CollectFrom hint ps => (hint + zlen ps, total t (map d_value (map snd ps)))
  | On _ c => vasks t c
  | MoveLast _ _ | MoveAt _ _ _ _ => (1, mx)
  | CloneOf _ _ _ => (1, 0)
  | _ => (0, 0)
  end.
(** For Sized elements bytes are only asked for together with the elements they make up. Closures of the caller's, and [T::clone], do
    not panic. *)
Definition peaceful (D : deal) : Prop := forall r, ~ d_panic D r.
Definition vmodest (t : ty) (c : vop) : Prop :=
  match c with
  | VTryReserve _ n b _ | VReserve _ n b _ => kind_of t = KSized -> b <= n * s_size t
  | VPushFrom _ D | VInsertFrom _ _ D => peaceful D
  | VExtendFrom _ ps => Forall (fun p => peaceful (snd p)) ps
  | _ => True
  end.
Definition modest (t : ty) (c : op) : Prop :=
  match c with
  | WithCapacityBytes n b | WithCapacityBytesAlign n b _ => kind_of t = KSized -> b <= n * s_size t
  | On _ c => vmodest t c
  | CollectFrom _ ps => Forall (fun p => peaceful (snd p)) ps
  | CloneOf _ f clone => copies t f (fun _ => False) clone
  | _ => True
  end.
(** The elements and bytes that vectors may come to need fit into the address space. *)
Definition fits_memory (t : ty) (N B : Z) : Prop :=
  match kind_of t with
  | KSized => (4 * N + 16) * s_size t <= isize_max - (s_align t - 1)
  | KAligned => (4 * N + 16) * info_size t <= isize_max - 7 /\ 2 * B <= isize_max - (static_align t - 1)
  | KUnaligned => False
  end.
(** The call did its work, or was given an index that it must refuse. *)
Definition serves (r : obs + panic_reason) : Prop :=
  match r with
  | inl (BRes (RErr _)) => False
  | inl _ => True
  | inr r => r = PBounds
  end.

Section WithType.
Context (t : ty) (mx : Z) (Wt : wf_ty t) (Nz : nzst t) (Kt : kind_of t <> KUnaligned) (At : alloc_total) (Dq : drops_quiet) (Mx : 0 <= mx).

Definition fit (N B : Z) (o : obj) : Prop := o_cap t o <= 2 * N + 8 /\ (kind_of t = KAligned -> o_bcap t o <= 2 * B).
Definition lowN (N B : Z) (w : world) : Prop := low (2 * N + 8) (2 * B) w.
Definition small (N B : Z) (l : list value) : Prop := zlen l <= N /\ total t l <= B.

Lemma nth_low K B w k o : low K B w -> nth_error (w_vecs w) k = Some o -> low_obj K B o.
Proof. intros L E. apply nth_error_In in E. exact (proj1 (Forall_forall _ _) L _ E). Qed.
Lemma low_nth K B w : (forall k o, nth_error (w_vecs w) k = Some o -> low_obj K B o) -> low K B w.
Proof. intros H. apply Forall_forall. intros o I. apply In_nth_error in I as (k & E). eauto. Qed.
Lemma low_obj_le K B K' B' o : K <= K' -> B <= B' -> low_obj K B o -> low_obj K' B' o.
Proof. intros. destruct o; cbn [low_obj] in *; auto; lia. Qed.
Lemma lowN_le N B N' B' w : N <= N' -> B <= B' -> lowN N B w -> lowN N' B' w.
Proof. intros HN HB. apply Forall_impl. intros o. apply low_obj_le; lia. Qed.
Lemma fit_le N B N' B' o : N <= N' -> B <= B' -> fit N B o -> fit N' B' o.
Proof. intros HN HB [H1 H2]. split; [lia|]. intros K. specialize (H2 K). lia. Qed.
Lemma fit_low self l o d w N B : orep t self l o d w -> fit N B o -> low_obj (2 * N + 8) (2 * B) o.
Proof.
  intros R [H1 H2]. pose proof (orep_len _ _ _ _ _ _ R) as Ln. destruct o as [v|v|v|]; cbn [low_obj]; auto; ocbn in *.
  - pose proof (sr_kind _ _ _ _ _ _ R) as K. specialize (Nz K). unfold s_capacity in *. destruct (Z.eqb_spec (s_size t) 0); [lia|].
    rewrite (sr_slen _ _ _ _ _ _ R). lia.
  - rewrite (ar_infos _ _ _ _ _ _ R), infos_of_zlen. specialize (H2 (ar_kind _ _ _ _ _ _ R)). lia.
Qed.
Lemma low_fit self l o d w N B : orep t self l o d w -> lowN N B w -> fit N B o.
Proof.
  intros R L. pose proof (nth_low _ _ _ _ _ L (orep_obj _ _ _ _ _ _ R)) as H. unfold fit. destruct o as [v|v|v|]; cbn [low_obj] in H; ocbn in *; try tauto.
  - pose proof (sr_kind _ _ _ _ _ _ R) as K. specialize (Nz K). unfold s_capacity. destruct (Z.eqb_spec (s_size t) 0); [lia|]. split; [lia|]. congruence.
  - destruct R. congruence.
Qed.
Lemma low_change self N B N' B' l o d w w' : lowN N B w -> N <= N' -> B <= B' ->
  (forall k, k <> self -> nth_error (w_vecs w') k = nth_error (w_vecs w) k) -> orep t self l o d w' -> fit N' B' o -> lowN N' B' w'.
Proof.
  intros L HN HB F R Fo. apply low_nth. intros k o' E. destruct (Nat.eq_dec k self) as [->|Ne].
  - rewrite (orep_obj _ _ _ _ _ _ R) in E. injection E as <-. eapply fit_low; eauto.
  - rewrite F in E by auto. eapply nth_low; [exact (lowN_le _ _ _ _ _ HN HB L)|exact E].
Qed.
Lemma low_new N B N' B' l o d w w' : lowN N B w -> N <= N' -> B <= B' -> newvec (length (w_vecs w)) [] [] w w' ->
  orep t (length (w_vecs w)) l o d w' -> fit N' B' o -> lowN N' B' w'.
Proof.
  intros L HN HB Nv R Fo. apply low_nth. intros k o' E. destruct (Nat.eq_dec k (length (w_vecs w))) as [->|Ne].
  - rewrite (orep_obj _ _ _ _ _ _ R) in E. injection E as <-. eapply fit_low; eauto.
  - assert (k < length (w_vecs w))%nat. { apply nth_error_lt in E. rewrite (nv_nvecs _ _ _ _ _ Nv) in E. lia. }
    rewrite (nv_vecs _ _ _ _ _ Nv) in E by auto. eapply nth_low; [exact (lowN_le _ _ _ _ _ HN HB L)|exact E].
Qed.

(** ** One reservation *)
Lemma slot_pos : 0 < slot_size t /\ (kind_of t = KSized -> slot_size t = s_size t) /\ (kind_of t <> KSized -> slot_size t = info_size t).
Proof.
  pose proof (info_size_range t) as I. unfold nzst in Nz. destruct t; cbn [slot_size] in *; split; auto; try lia; try (split; [discriminate|reflexivity]).
  split; [reflexivity|]. intros H. now destruct H.
Qed.
Lemma want_le N B o (l : list value) n exact : fit N B o -> zlen l <= N -> 0 <= n -> want_cap (slot_size t) (o_cap t o) (zlen l) n exact <= 4 * (N + n) + 16.
Proof.
  intros [F _] L Hn. pose proof (zlen_nonneg l). unfold want_cap, min_non_zero_cap. destruct exact; [lia|]. destruct (_ =? 1); [lia|]. destruct (_ <=? 1024); lia.
Qed.
Lemma want_grown N B o (l : list value) n exact : fit N B o -> zlen l <= N -> 0 <= n -> o_cap t o < zlen l + n -> want_cap (slot_size t) (o_cap t o) (zlen l) n exact <= 2 * (N + n) + 8.
Proof.
  intros [F _] L Hn G. pose proof (zlen_nonneg l). unfold want_cap, min_non_zero_cap. destruct exact; [lia|]. destruct (_ =? 1); [lia|]. destruct (_ <=? 1024); lia.
Qed.
Lemma count_fits N B B' o (l : list value) n exact : fit N B o -> zlen l <= N -> 0 <= n -> fits_memory t (N + n) B' -> ~ count_overflow t o (zlen l) n exact.
Proof.
  intros F L Hn M. pose proof (want_le N B o l n exact F L Hn) as W. destruct slot_pos as (Sp & Ss & Su). pose proof (zlen_nonneg l) as Zl.
  unfold count_overflow, fits_memory in *. destruct (kind_of t) eqn:K; [| |congruence].
  - rewrite Ss in * by auto. assert (0 < s_align t). { apply pow2_pos. apply s_align_pow2; auto. }
    intros [X|X]; nia.
  - rewrite Su in * by discriminate. destruct M. pose proof (info_size_range t). intros X. nia.
Qed.
Lemma blen_total self l o d w : orep t self l o d w -> kind_of t = KAligned -> o_blen t o l = total t l /\ o_al t o = static_align t.
Proof.
  intros R K. destruct o as [v|v|v|]; ocbn in *; try tauto; try (destruct R; congruence). unfold o_blen. ocbn. now rewrite total_plen.
Qed.
Lemma bytes_fit B N' self l o d w n b a : orep t self l o d w -> total t l <= B -> 0 <= b -> sized_request t n b -> fits_memory t N' (B + b) -> 0 <= B ->
  ~ bytes_overflow t o l n b a.
Proof.
  intros R L Hb Sr M B0. unfold bytes_overflow, fits_memory, sized_request in *. destruct (kind_of t) eqn:K; [| |congruence].
  - specialize (Sr eq_refl). lia.
  - destruct (blen_total _ _ _ _ _ R K) as [-> ->]. lia.
Qed.
Lemma total_nonneg l : Forall (good t) l -> 0 <= total t l.
Proof. intros G. rewrite total_plen. apply plen_nonneg; auto; lia. Qed.
Lemma small_pos N B self l o d w : orep t self l o d w -> small N B l -> 0 <= N /\ 0 <= B.
Proof. intros R [L1 L2]. pose proof (zlen_nonneg l). pose proof (total_nonneg _ (orep_good _ _ _ _ _ _ R)). lia. Qed.
Lemma reserve_fit N B self l o d w n b a w1 : orep t self l o d w -> fit N B o -> small N B l -> 0 <= n -> 0 <= b -> sized_request t n b ->
  reserve_post t self l o n b a w ROk w1 -> exists o1 d1, orep t self l o1 d1 w1 /\ frame self w w1 /\ fit (N + n) (B + b) o1.
Proof.
  intros R F Sm Hn Hb Sr (o1 & d1 & R1 & [Q _] & Ge & _ & Cap & _ & _ & Un & Sz). destruct (small_pos _ _ _ _ _ _ _ R Sm). destruct Sm as [Ln Lb]. exists o1, d1. split; auto. split; auto.
  destruct slot_pos as (Sp & Ss & Su). pose proof (want_grown N B o l n false F Ln Hn) as Wg. destruct F as [F1 F2].
  unfold fit. destruct (kind_of t) eqn:K; [| |congruence].
  - split; [|congruence]. specialize (Ss eq_refl). specialize (Nz K). destruct (Sz eq_refl (Sr K)) as [->|(Lt & Eb & _)].
    + pose proof (orep_obj _ _ _ _ _ _ R). pose proof (orep_obj _ _ _ _ _ _ R1). assert (o1 = o) by congruence. subst. lia.
    + rewrite (sized_caps _ _ _ _ _ _ R1 K Nz) in Eb. rewrite Ss in Wg. specialize (Wg Lt). nia.
  - assert (NK : KAligned <> KSized) by discriminate. destruct (Un NK) as (Gr & Ec). specialize (Su NK). specialize (F2 eq_refl). split.
    + destruct Ec as [->|(Lt & ->)]; [lia|]. rewrite Su in Wg. auto.
    + intros _. destruct Gr as (_ & _ & _ & _ & Up & _). destruct (blen_total _ _ _ _ _ R K) as [Eb _].
      rewrite Eb in Up. unfold req_pal in Up. rewrite K, <- total_plen in Up. destruct (Z.ltb_spec (o_bcap t o) (total t l + b)).
      * lia.
      * lia.
Qed.
Lemma no_fails N B self l o d w w' n b a : orep t self l o d w -> fit N B o -> small N B l -> 0 <= n -> 0 <= b -> 0 <= B -> sized_request t n b ->
  fits_memory t (N + n) (B + b) -> ~ reserve_fails t o l n b a w w'.
Proof.
  intros R F [Ln Lb] Hn Hb HB Sr M [X|[X|X]].
  - exact (count_fits N B (B + b) o l n false F Ln Hn M X).
  - exact (bytes_fit B (N + n) self l o d w n b a R Lb Hb Sr M HB X).
  - eapply no_alloc_failed; eauto.
Qed.
Lemma no_abort w w' : ~ abort_ok w w'.
Proof. intros [X|X]; [eapply no_alloc_failed|eapply no_drop_panicked]; eauto. Qed.
Lemma aligned_can o n a : can_align t o n a.
Proof. intros K. contradiction. Qed.
Lemma no_bytes n : 0 <= n -> sized_request t n 0.
Proof. intros H K. specialize (Nz K). nia. Qed.
Lemma one_request x : good t x -> sized_request t 1 (vsize t x).
Proof. intros G K. rewrite (vsize_sized t x K G). lia. Qed.

(** ** Calls that add *)
Definition grown (self : nat) (l' : list value) (N B : Z) (w w' : world) : Prop :=
  exists o d, orep t self l' o d w' /\ frame self w w' /\ fit N B o.
Lemma grown_low self l' N B N' B' w w' : lowN N B w -> N <= N' -> B <= B' -> grown self l' N' B' w w' -> lowN N' B' w'.
Proof. intros L HN HB (o & d & R & F & Ft). eapply low_change; eauto. apply F. Qed.
Lemma room_push self l o d w x N B : orep t self l o d w -> fit N B o -> small N B l -> good t x -> fits_memory t (N + 1) (B + vsize t x) ->
  run (v_push t self x) w (fun _ w' => grown self (l ++ [x]) (N + 1) (B + vsize t x) w w') (fun _ _ => False) (fun _ => False).
Proof.
  intros R F S G M. pose proof (proj1 (good_size t x G)) as Sx. pose proof (one_request x G) as Sr. destruct (small_pos _ _ _ _ _ _ _ R S).
  eapply run_conseq; [eapply v_push_wp; eauto using aligned_can|..]; cbv beta.
  - intros _ w' (o' & o1 & d' & w1 & R' & [Fr _] & Ec & Eb & _ & _ & _ & (d1 & R1) & Post & _).
    destruct (reserve_fit N B self l o d w 1 (vsize t x) _ w1 R F S ltac:(lia) Sx Sr Post) as (o2 & d2 & R2 & _ & F2).
    assert (o2 = o1). { pose proof (orep_obj _ _ _ _ _ _ R1). pose proof (orep_obj _ _ _ _ _ _ R2). congruence. } subst o2.
    exists o', d'. split; auto. split; auto. unfold fit in *. now rewrite Ec, Eb.
  - intros r w' (_ & _ & _ & X & _). eapply (no_fails N B); [exact R|exact F|exact S| | | |exact Sr|exact M|exact X]; lia.
  - intros w'. apply no_abort.
Qed.
Lemma index_fits i x l self w : vguard t self (VInsert i x) l w -> (i <= length l)%nat -> index_is_offset t 1 l i.
Proof.
  intros G L. unfold index_is_offset. cbn [vguard] in G. destruct G as [K|[X|(_ & [->|(_ & Of)])]]; auto; try lia.
  unfold offset_of in Of. destruct (kind_of t); auto; [|contradiction]. right. now rewrite <- total_plen.
Qed.
Lemma room_insert self l o d w i x N B : orep t self l o d w -> fit N B o -> small N B l -> good t x -> fits_memory t (N + 1) (B + vsize t x) ->
  (i <= length l)%nat -> vguard t self (VInsert i x) l w ->
  run (v_insert t self i x) w (fun _ w' => grown self (insert_at i x l) (N + 1) (B + vsize t x) w w') (fun _ _ => False) (fun _ => False).
Proof.
  intros R F S G M Li Gd. pose proof (proj1 (good_size t x G)) as Sx. pose proof (one_request x G) as Sr. destruct (small_pos _ _ _ _ _ _ _ R S).
  pose proof (index_fits _ _ _ _ _ Gd Li) as Ix.
  eapply run_conseq; [eapply (v_insert_wp t self l o d w x i); eauto using aligned_can|..]; cbv beta.
  - destruct (kind_of t); [| |contradiction]; apply tail_ok_1; eapply orep_good; eauto.
  - destruct (kind_of t); [| |contradiction]; auto.
  - intros _ w' (o' & d' & R' & [Fr _] & _ & o1 & d1 & w1 & R1 & Post & Ec & Eb).
    destruct (reserve_fit N B self l o d w 1 (vsize t x) _ w1 R F S ltac:(lia) Sx Sr Post) as (o2 & d2 & R2 & _ & F2).
    assert (o2 = o1). { pose proof (orep_obj _ _ _ _ _ _ R1). pose proof (orep_obj _ _ _ _ _ _ R2). congruence. } subst o2.
    exists o', d'. split; auto. split; auto. unfold fit in *. now rewrite Ec, Eb.
  - intros r w' (_ & _ & _ & X & _). eapply (no_fails N B); [exact R|exact F|exact S| | | |exact Sr|exact M|exact X]; lia.
  - intros w'. apply no_abort.
Qed.
Lemma stays_fit N B l o x o' : fit N B o -> small N B l -> 0 <= vsize t x -> stays t o l x o' -> fit (N + 1) (B + vsize t x) o'.
Proof.
  intros [F1 F2] [L1 L2] Sx (_ & _ & St & Sb & _). specialize (St Nz). pose proof (zlen_nonneg l). split; [lia|]. intros K. rewrite (Sb K). specialize (F2 K). lia.
Qed.
Lemma with_fits N B self l o d w w' x ex : orep t self l o d w -> fit N B o -> small N B l -> 0 <= vsize t x -> 0 <= B -> fits_memory t (N + 1) (B + vsize t x) ->
  ~ with_fails t o l (vsize t x) (valign t x) ex w w'.
Proof.
  intros R F [L1 L2] Sx HB M [X|[X|X]].
  - eapply count_fits; [exact F|exact L1| |exact M|exact X]. lia.
  - unfold with_overflow, fits_memory in *. destruct F as [_ F]. destruct (kind_of t) eqn:K; auto. specialize (F eq_refl). destruct (blen_total _ _ _ _ _ R K) as [_ E].
    rewrite E in X. lia.
  - eapply no_alloc_failed; eauto.
Qed.
(** With any closure that keeps its promise and does not panic. *)
Definition grown_by (self : nat) (l' : list value) (N B : Z) (S : deal) (w w' : world) : Prop :=
  exists o d, orep t self l' o d w' /\ touch self (d_fv S) (d_fb S) w w' /\ d_after S Delivered w' /\ fit N B o.
Lemma no_with_panic self l o d w S ex r w' N B : orep t self l o d w -> fit N B o -> small N B l -> good t (d_value S) -> peaceful S -> 0 <= B ->
  fits_memory t (N + 1) (B + vsize t (d_value S)) -> ~ with_panic t self l o S ex w r w'.
Proof.
  intros R F Sm G P HB M (_ & _ & [(X & _)|[X|(_ & _ & X)]]).
  - eapply with_fits; eauto. apply (good_size t _ G).
  - exact (P r X).
  - eapply no_drop_panicked; eauto.
Qed.
Lemma no_with_abort S w w' : ~ (alloc_failed w w' \/ aborted S w w').
Proof. intros [X|[_ X]]; [eapply no_alloc_failed|eapply no_drop_panicked]; eauto. Qed.
Lemma room_push_deal self l o d w e S N B : orep t self l o d w -> fit N B o -> small N B l -> emits e S w -> good t (d_value S) -> fits t (d_lay S) (d_value S) ->
  apart self (d_fv S) (d_fb S) w -> peaceful S -> fits_memory t (N + 1) (B + vsize t (d_value S)) ->
  run (v_push_with t self e) w (fun _ w' => grown_by self (l ++ [d_value S]) (N + 1) (B + vsize t (d_value S)) S w w') (fun _ _ => False) (fun _ => False).
Proof.
  intros R F Sm Em G Fi Ap P M. pose proof (proj1 (good_size t _ G)) as Sx. destruct (small_pos _ _ _ _ _ _ _ R Sm).
  eapply run_conseq; [eapply (v_push_with_wp t self l o d w e S); eauto using aligned_can|..]; cbv beta.
  - intros _ w' (o' & d' & R' & T & _ & A & _ & St). exists o', d'. ands; auto. eapply stays_fit; eauto.
  - intros r w' X. eapply no_with_panic; eauto.
  - intros w' X. eapply no_with_abort; eauto.
Qed.
Lemma room_insert_deal self l o d w i e S N B : orep t self l o d w -> fit N B o -> small N B l -> emits e S w -> good t (d_value S) -> fits t (d_lay S) (d_value S) ->
  apart self (d_fv S) (d_fb S) w -> peaceful S -> fits_memory t (N + 1) (B + vsize t (d_value S)) -> (i <= length l)%nat ->
  run (v_insert_with t self i e) w (fun _ w' => grown_by self (insert_at i (d_value S) l) (N + 1) (B + vsize t (d_value S)) S w w') (fun _ _ => False) (fun _ => False).
Proof.
  intros R F Sm Em G Fi Ap P M Li. pose proof (proj1 (good_size t _ G)) as Sx. destruct (small_pos _ _ _ _ _ _ _ R Sm).
  eapply run_conseq; [eapply (v_insert_with_wp t self l o d w e S i); eauto using aligned_can; intros K; contradiction|..]; cbv beta.
  - intros _ w' (o' & d' & R' & T & _ & A & _ & St). exists o', d'. ands; auto. eapply stays_fit; eauto.
  - intros r w' X. eapply no_with_panic; eauto.
  - intros w' X. eapply no_with_abort; eauto.
Qed.
Lemma grown_alone self l' N B S w w' : d_fv S = [] -> d_fb S = [] -> grown_by self l' N B S w w' -> grown self l' N B w w'.
Proof. intros E1 E2 (o & d & R & T & _ & F). rewrite E1, E2 in T. exists o, d. ands; auto using frame_touch. Qed.
Lemma value_of x : d_value (value_deal t x) = x.
Proof. now destruct x. Qed.
Lemma value_peaceful x : peaceful (value_deal t x).
Proof. intros r []. Qed.
Lemma room_push_with self l o d w x N B : orep t self l o d w -> fit N B o -> small N B l -> good t x -> not_huge t x -> fits_memory t (N + 1) (B + vsize t x) ->
  run (v_push_with t self (emplacable_of_value t x)) w (fun _ w' => grown self (l ++ [x]) (N + 1) (B + vsize t x) w w') (fun _ _ => False) (fun _ => False).
Proof.
  intros R F Sm G Nh M. pose proof (room_push_deal self l o d w (emplacable_of_value t x) (value_deal t x) N B R F Sm (value_emits t x w)) as H. rewrite value_of in H.
  eapply run_conseq; [apply H; auto using value_peaceful|..]; cbv beta; auto.
  - now apply fits_self.
  - apply apart_nil.
  - intros _ w'. now apply grown_alone.
Qed.
Lemma room_insert_with self l o d w i x N B : orep t self l o d w -> fit N B o -> small N B l -> good t x -> not_huge t x -> fits_memory t (N + 1) (B + vsize t x) ->
  (i <= length l)%nat ->
  run (v_insert_with t self i (emplacable_of_value t x)) w (fun _ w' => grown self (insert_at i x l) (N + 1) (B + vsize t x) w w') (fun _ _ => False) (fun _ => False).
Proof.
  intros R F Sm G Nh M Li. pose proof (room_insert_deal self l o d w i (emplacable_of_value t x) (value_deal t x) N B R F Sm (value_emits t x w)) as H. rewrite value_of in H.
  eapply run_conseq; [apply H; auto using value_peaceful|..]; cbv beta; auto.
  - now apply fits_self.
  - apply apart_nil.
  - intros _ w'. now apply grown_alone.
Qed.
Lemma room_push_from self l o d w e S N B : orep t self l o d w -> fit N B o -> small N B l -> producer t e S -> not_huge t (d_value S) -> peaceful S ->
  fits_memory t (N + 1) (B + vsize t (d_value S)) ->
  run (v_push_with t self e) w (fun _ w' => grown self (l ++ [d_value S]) (N + 1) (B + vsize t (d_value S)) w w') (fun _ _ => False) (fun _ => False).
Proof.
  intros R F Sm P Nh Pe M. eapply run_conseq; [eapply (room_push_deal self l o d w e S N B); eauto using producer_fits, producer_apart; apply P|..]; cbv beta; auto.
  intros _ w'. apply grown_alone; apply P.
Qed.
Lemma room_insert_from self l o d w i e S N B : orep t self l o d w -> fit N B o -> small N B l -> producer t e S -> not_huge t (d_value S) -> peaceful S ->
  fits_memory t (N + 1) (B + vsize t (d_value S)) -> (i <= length l)%nat ->
  run (v_insert_with t self i e) w (fun _ w' => grown self (insert_at i (d_value S) l) (N + 1) (B + vsize t (d_value S)) w w') (fun _ _ => False) (fun _ => False).
Proof.
  intros R F Sm P Nh Pe M Li. eapply run_conseq; [eapply (room_insert_deal self l o d w i e S N B); eauto using producer_fits, producer_apart; apply P|..]; cbv beta; auto.
  intros _ w'. apply grown_alone; apply P.
Qed.
Lemma total_cons x l : total t (x :: l) = vsize t x + total t l.
Proof. reflexivity. Qed.
Lemma total_app l l' : total t (l ++ l') = total t l + total t l'.
Proof. induction l; cbn [app]; rewrite ?total_cons; [reflexivity|]. rewrite IHl. lia. Qed.
Lemma small_snoc N B l x : small N B l -> small (N + 1) (B + vsize t x) (l ++ [x]).
Proof. intros [H1 H2]. split; [rewrite zlen_app; change (zlen [x]) with 1; lia|]. rewrite total_app, total_cons. change (total t []) with 0. lia. Qed.
Lemma memory_le N B N' B' : N <= N' -> B <= B' -> fits_memory t N' B' -> fits_memory t N B.
Proof.
  intros HN HB. unfold fits_memory. pose proof (info_size_range t). destruct (kind_of t) eqn:K; auto; [specialize (Nz K)|]; nia.
Qed.
Lemma room_push_values self xs N B : Forall (good t) xs -> forall l o d w, orep t self l o d w -> fit N B o -> small N B l ->
  fits_memory t (N + zlen xs) (B + total t xs) ->
  run (v_push_values t self xs) w (fun _ w' => grown self (l ++ xs) (N + zlen xs) (B + total t xs) w w') (fun _ _ => False) (fun _ => False).
Proof.
  intros G. revert N B. induction G as [|x xs Gx G IH]; intros N B l o d w R F S M; cbn [v_push_values].
  - apply run_ret. exists o, d. rewrite app_nil_r. ands; auto. apply frame_refl. eapply fit_le; [..|exact F]; cbn; lia.
  - rewrite zlen_cons, total_cons in *. pose proof (zlen_nonneg xs). pose proof (total_nonneg xs G). pose proof (proj1 (good_size t x Gx)).
    apply run_bind. eapply run_conseq; [eapply (room_push self l o d w x N B); eauto|..]; cbv beta; auto.
    { eapply memory_le; [..|exact M]; lia. }
    intros [] w1 (o1 & d1 & R1 & F1 & Ft1). eapply run_conseq; [eapply (IH (N + 1) (B + vsize t x) _ o1 d1 w1 R1 Ft1)|..]; cbv beta; auto using small_snoc.
    { eapply memory_le; [..|exact M]; lia. }
    intros [] w2 (o2 & d2 & R2 & F2 & Ft2). exists o2, d2. rewrite <- app_assoc in R2. ands; auto. eapply frame_trans; eauto.
    eapply fit_le; [..|exact Ft2]; lia.
Qed.
Definition values (ps : list (emplacable * deal)) : list value := map d_value (map snd ps).
Lemma values_cons p ps : values (p :: ps) = d_value (snd p) :: values ps.
Proof. reflexivity. Qed.
Lemma values_zlen ps : zlen (values ps) = zlen ps.
Proof. unfold values, zlen. now rewrite !map_length. Qed.
Definition supplier (p : emplacable * deal) : Prop := producer t (fst p) (snd p) /\ not_huge t (d_value (snd p)) /\ peaceful (snd p).
Lemma supplier_good ps : Forall supplier ps -> Forall (good t) (values ps).
Proof. induction 1 as [|p ps (P & _) _ IH]; [constructor|]. rewrite values_cons. constructor; auto. apply P. Qed.
Lemma producers_good ps : Forall (fun p => producer t (fst p) (snd p)) ps -> Forall (good t) (values ps).
Proof. induction 1 as [|p ps P _ IH]; [constructor|]. rewrite values_cons. constructor; auto. apply P. Qed.
Lemma suppliers ps : Forall (fun p => producer t (fst p) (snd p)) ps -> Forall (not_huge t) (values ps) -> Forall (fun p => peaceful (snd p)) ps -> Forall supplier ps.
Proof.
  induction 1 as [|p ps P _ IH]; intros Nh Pe; [constructor|]. rewrite values_cons in Nh. inversion_clear Nh. inversion_clear Pe. constructor; auto. now split.
Qed.
Lemma value_producer x : good t x -> producer t (emplacable_of_value t x) (value_deal t x).
Proof. intros G. unfold producer. rewrite value_of. ands; auto using value_emits. now intros u. Qed.
Lemma of_values xs : map (emplacable_of_value t) xs = map fst (map (fun x => (emplacable_of_value t x, value_deal t x)) xs).
Proof. now rewrite map_map. Qed.
Lemma values_of xs : values (map (fun x => (emplacable_of_value t x, value_deal t x)) xs) = xs.
Proof. unfold values. rewrite !map_map. rewrite <- (map_id xs) at 2. apply map_ext. intros x. apply value_of. Qed.
Lemma values_suppliers xs : Forall (good t) xs -> Forall (not_huge t) xs -> Forall supplier (map (fun x => (emplacable_of_value t x, value_deal t x)) xs).
Proof.
  induction 1 as [|x xs G _ IH]; intros Nh; [constructor|]. inversion_clear Nh. constructor; auto. unfold supplier. cbn [fst snd]. rewrite value_of.
  ands; auto using value_producer, value_peaceful.
Qed.
Lemma room_push_all self ps N B : Forall supplier ps -> forall l o d w, orep t self l o d w -> fit N B o -> small N B l ->
  fits_memory t (N + zlen ps) (B + total t (values ps)) ->
  run (v_push_all t self (map fst ps)) w (fun _ w' => grown self (l ++ values ps) (N + zlen ps) (B + total t (values ps)) w w') (fun _ _ => False) (fun _ => False).
Proof.
  intros G. revert N B. induction G as [|p ps (Gp & Nh & Pe) G IH]; intros N B l o d w R F S M; cbn [map v_push_all].
  - apply run_ret. exists o, d. rewrite app_nil_r. ands; auto. apply frame_refl. eapply fit_le; [..|exact F]; cbn; lia.
  - rewrite values_cons, zlen_cons, total_cons in *. assert (Gx : good t (d_value (snd p))) by apply Gp.
    pose proof (zlen_nonneg ps). pose proof (total_nonneg _ (supplier_good _ G)). pose proof (proj1 (good_size t _ Gx)).
    apply run_bind, run_on_unwind. eapply run_conseq; [eapply (room_push_from self l o d w _ (snd p) N B); eauto|..]; cbv beta; try contradiction.
    { eapply memory_le; [..|exact M]; lia. }
    intros [] w1 (o1 & d1 & R1 & F1 & Ft1). eapply run_conseq; [eapply (IH (N + 1) (B + vsize t (d_value (snd p))) _ o1 d1 w1 R1 Ft1)|..]; cbv beta; auto using small_snoc.
    { eapply memory_le; [..|exact M]; lia. }
    intros [] w2 (o2 & d2 & R2 & F2 & Ft2). exists o2, d2. rewrite <- app_assoc in R2. ands; auto. eapply frame_trans; eauto.
    eapply fit_le; [..|exact Ft2]; lia.
Qed.

(** ** Calls that reserve *)
Lemma room_count self l o d w n ex N B : orep t self l o d w -> fit N B o -> small N B l -> 0 <= n -> fits_memory t (N + n) B ->
  run (p_try_reserve t self n ex) w (fun r w' => r = ROk /\ grown self l (N + n) B w w' /\ forall o', nth_error (w_vecs w') self = Some o' -> zlen l + n <= o_cap t o')
    (fun _ _ => False) (fun _ => False).
Proof.
  intros R F [L1 L2] Hn M. eapply run_conseq. { apply run_and; [eapply p_try_reserve_wp with (exact := ex); eauto|eapply p_try_reserve_cap with (exact := ex); eauto]. }
  all: cbv beta; try tauto.
  intros r w' ((o' & d' & R' & [Fr _] & _ & _ & _ & _ & Un & Nop & _ & Res) & Cp). destruct r as [|[]].
  2: { destruct Res as [_ X]. exfalso. eapply count_fits; eauto. }
  2: { exfalso. eapply no_alloc_failed; eauto. }
  split; auto. split; [|intros o2 E; rewrite (orep_obj _ _ _ _ _ _ R') in E; now injection E as <-].
  exists o', d'. split; auto. split; auto. destruct (Z.lt_ge_cases (o_cap t o) (zlen l + n)) as [Lt|Ge].
  - destruct (Cp eq_refl Lt) as (o2 & E & Ec). rewrite (orep_obj _ _ _ _ _ _ R') in E. injection E as <-. split.
    + rewrite Ec. eapply want_grown; eauto.
    + intros K. destruct (Un ltac:(left; congruence)) as (-> & _). now apply F.
  - destruct (Nop Ge) as [_ ->]. assert (o' = o). { pose proof (orep_obj _ _ _ _ _ _ R). pose proof (orep_obj _ _ _ _ _ _ R'). congruence. } subst o'.
    eapply fit_le; [..|exact F]; lia.
Qed.
Lemma counted self l o d w n ex N B : orep t self l o d w -> fit N B o -> small N B l -> 0 <= n -> fits_memory t (N + n) B ->
  run (p_try_reserve t self n ex) w (fun r w' => r = ROk /\ grown self l (N + n) B w w') (fun _ _ => False) (fun _ => False).
Proof. intros. eapply run_conseq; [eapply room_count; eauto|..]; cbv beta; tauto. Qed.
(** Bytes that the spare capacity holds cost nothing. *)
Lemma s_bytes_spare self l v d w b : srep t self l v d w -> 0 < s_size t -> 0 <= b <= (sv_cap v - zlen l) * s_size t -> s_try_reserve_bytes t self b w = (Ok ROk, w).
Proof.
  intros R SP Hb. unfold s_try_reserve_bytes. pose proof (sr_slen _ _ _ _ _ _ R) as SL. pose proof (zlen_nonneg l).
  assert (SC : s_capacity t v = sv_cap v). { unfold s_capacity. destruct (Z.eqb_spec (s_size t) 0); lia. }
  assert (Hf : 0 <= sv_cap v - zlen l) by nia.
  erewrite bind_eq by (eapply get_s_eq, R). erewrite bind_eq. 2: { apply usub_eq. lia. }
  erewrite bind_eq. 2: { unfold div_ceil. destruct (Z.eqb_spec (s_size t) 0); [lia|reflexivity]. }
  unfold s_reserve. erewrite bind_eq by (eapply get_s_eq, R). unfold needs_to_grow. rewrite SC, SL. set (f := sv_cap v - zlen l) in *.
  assert (X : sat_sub ((sat_add b f + s_size t - 1) / s_size t) f <= f).
  { unfold sat_sub, sat_add. assert ((Z.min usize_max (b + f) + s_size t - 1) / s_size t <= f + f); [|lia].
    destruct (Z.eq_dec f 0) as [Ef|NF].
    - replace b with 0 by nia. rewrite Ef. cbn. rewrite Z.div_small; lia.
    - apply Z.div_le_upper_bound; [lia|]. assert (0 <= (f - 1) * (s_size t - 1)) by nia. lia. }
  destruct (Z.ltb_spec f (sat_sub ((sat_add b f + s_size t - 1) / s_size t) f)); [lia|reflexivity].
Qed.
Lemma p_bytes_spare self l o d w b a : orep t self l o d w -> kind_of t = KSized -> 0 <= b <= (o_cap t o - zlen l) * s_size t ->
  p_try_reserve_bytes_align t self b a w = (Ok ROk, w).
Proof.
  intros R K Hb. unfold p_try_reserve_bytes_align. rewrite K. specialize (Nz K). destruct o as [v|v|v|]; cbn [orep] in R; try contradiction; try (destruct R; congruence).
  apply (s_bytes_spare self l v d w b R Nz). cbn [o_cap] in Hb. unfold s_capacity in Hb. destruct (Z.eqb_spec (s_size t) 0); lia.
Qed.
Lemma room_bytes self l o d w b a N B : orep t self l o d w -> fit N B o -> small N B l -> 0 <= b -> (kind_of t = KSized -> b <= (o_cap t o - zlen l) * s_size t) -> fits_memory t N (B + b) ->
  run (p_try_reserve_bytes_align t self b a) w (fun r w' => r = ROk /\ grown self l N (B + b) w w') (fun _ _ => False) (fun _ => False).
Proof.
  intros R F S Hb K0 M. destruct (small_pos _ _ _ _ _ _ _ R S) as [HN HB].
  destruct (kind_of t) eqn:K; [| |congruence].
  { specialize (K0 eq_refl). unfold run. rewrite (p_bytes_spare self l o d w b a R K) by lia.
    split; auto. exists o, d. split; auto. split; [apply frame_refl|]. eapply fit_le; [..|exact F]; lia. }
  eapply run_conseq; [eapply (p_try_reserve_bytes_wp t self l o d w b a); eauto; congruence|..]; cbv beta zeta; try tauto.
  intros r w' (o' & d' & R' & [Fr _] & _ & Ec & Nop & Res).
  destruct (Z.eq_dec b 0) as [->|Nb].
  { destruct (Nop eq_refl) as [-> ->]; [congruence|]. split; auto. exists o, d. split; auto. split; [auto|]. eapply fit_le; [..|exact F]; lia. }
  destruct F as [F1 F2]. specialize (F2 K). destruct r as [|[]].
  - split; auto. exists o', d'. ands; auto. destruct Res as (_ & _ & Eb & _). split.
    + rewrite Ec by congruence. lia.
    + intros _. rewrite (Eb K). lia.
  - exfalso. destruct Res as (_ & _ & X). rewrite K in X. destruct (blen_total _ _ _ _ _ R K) as [_ E]. rewrite E in X. unfold fits_memory in M. rewrite K in M. lia.
  - exfalso. destruct Res as (_ & X & _). eapply no_alloc_failed; eauto.
Qed.
Lemma grown_trans self l l' l'' N B N' B' w w1 w2 : grown self l N B w w1 -> grown self l' N' B' w1 w2 -> l'' = l' -> grown self l'' N' B' w w2.
Proof. intros (o & d & R & F & _) (o' & d' & R' & F' & Ft) ->. exists o', d'. ands; auto. eapply frame_trans; eauto. Qed.
Lemma small_le N B N' B' l : N <= N' -> B <= B' -> small N B l -> small N' B' l.
Proof. intros ? ? []. split; lia. Qed.
Lemma to_align_ok a w : exists a', to_align t a w = (Ok a', w).
Proof. destruct (to_align_eq t a w) as (a' & E & _); eauto. intros K. contradiction. Qed.
Lemma room_exact self l o d w n b a N B : orep t self l o d w -> fit N B o -> small N B l -> 0 <= n -> 0 <= b -> sized_request t n b ->
  fits_memory t (N + n) (B + b) ->
  run (v_try_reserve_exact_capacity_bytes_align t self n b a) w (fun r w' => r = ROk /\ grown self l (N + n) (B + b) w w') (fun _ _ => False) (fun _ => False).
Proof.
  intros R F S Hn Hb K0 M. unfold v_try_reserve_exact_capacity_bytes_align. apply run_bind.
  eapply run_conseq; [eapply (room_count self l o d w n false N B); eauto; eapply memory_le; [..|exact M]; lia|..]; cbv beta; try tauto.
  intros r w1 (-> & G1 & Cp). pose proof G1 as (o1 & d1 & R1 & _ & F1). destruct (to_align_ok a w1) as (a' & E). eapply run_eq; [exact E|].
  eapply run_conseq; [eapply (room_bytes self l o1 d1 w1 b a' (N + n) B); eauto using small_le; [apply (small_le N B); auto; lia|]|..]; cbv beta; try tauto.
  { intros K. specialize (K0 K). specialize (Cp _ (orep_obj _ _ _ _ _ _ R1)). specialize (Nz K). nia. }
  intros r w2 (-> & G2). split; auto. eapply grown_trans; eauto.
Qed.
Lemma room_reserve self l o d w n b a N B : orep t self l o d w -> fit N B o -> small N B l -> 0 <= n -> 0 <= b -> sized_request t n b ->
  fits_memory t (N + n) (B + b) ->
  run (v_try_reserve_capacity_bytes_align t self n b a) w (fun r w' => r = ROk /\ grown self l (N + n) (B + b) w w') (fun _ _ => False) (fun _ => False).
Proof.
  intros R F S Hn Hb Sr M. destruct (small_pos _ _ _ _ _ _ _ R S) as [HN HB].
  eapply run_conseq; [eapply (v_try_reserve_cba_wp t self l o d w n b a); eauto; intros K; contradiction|..]; cbv beta; try tauto.
  - intros r w' P. destruct r as [|e].
    + split; auto. destruct (reserve_fit N B _ _ _ _ _ _ _ _ _ R F S Hn Hb Sr P) as (o1 & d1 & R1 & Fr & F1). exists o1, d1. auto.
    + exfalso. destruct P as (_ & _ & _ & _ & _ & _ & X & _). eapply (no_fails N B self l o d w w' n b a); eauto. unfold reserve_fails. destruct e; tauto.
  - intros r w' (_ & _ & _ & _ & X). eapply (no_fails N B self l o d w w' n b a); eauto.
Qed.
Lemma room_extend_from self l o d w hint ps N B : orep t self l o d w -> fit N B o -> small N B l -> 0 <= hint -> Forall supplier ps ->
  fits_memory t (N + (hint + zlen ps)) (B + total t (values ps)) ->
  run (v_extend t self hint (map fst ps)) w (fun _ w' => grown self (l ++ values ps) (N + (hint + zlen ps)) (B + total t (values ps)) w w') (fun _ _ => False) (fun _ => False).
Proof.
  intros R F S Hh G M. pose proof (zlen_nonneg ps). pose proof (total_nonneg _ (supplier_good _ G)). unfold v_extend. apply run_bind, run_on_unwind.
  change (v_reserve_exact t self hint) with (v_reserve_exact_capacity_bytes_align t self hint 0 1). unfold v_reserve_exact_capacity_bytes_align. apply run_bind.
  eapply run_conseq; [eapply (room_exact self l o d w hint 0 1 N B); eauto using no_bytes; try lia; eapply memory_le; [..|exact M]; lia|..]; cbv beta; try tauto.
  intros r w1 (-> & G1). apply run_ret. pose proof G1 as (o1 & d1 & R1 & _ & F1).
  eapply run_conseq; [eapply (room_push_all self ps (N + hint) (B + 0) G l o1 d1 w1 R1 F1)|..]; cbv beta; auto.
  - apply (small_le N B); auto; lia.
  - eapply memory_le; [..|exact M]; lia.
  - intros [] w2 G2. destruct (grown_trans _ _ _ _ _ _ _ _ _ _ _ G1 G2 eq_refl) as (o2 & d2 & R2 & Fr & F2). exists o2, d2. ands; auto. eapply fit_le; [..|exact F2]; lia.
Qed.
Lemma room_extend self l o d w hint xs N B : orep t self l o d w -> fit N B o -> small N B l -> 0 <= hint -> Forall (good t) xs -> Forall (not_huge t) xs ->
  fits_memory t (N + (hint + zlen xs)) (B + total t xs) ->
  run (v_extend t self hint (map (emplacable_of_value t) xs)) w (fun _ w' => grown self (l ++ xs) (N + (hint + zlen xs)) (B + total t xs) w w') (fun _ _ => False) (fun _ => False).
Proof.
  intros R F S Hh G Nh M. pose proof (room_extend_from self l o d w hint _ N B R F S Hh (values_suppliers xs G Nh)) as H.
  rewrite <- values_zlen, values_of, <- of_values in H. now apply H.
Qed.

(** ** Any call on one vector *)
Definition vserved (N B : Z) (self : nat) (c : vop) (w : world) : Prop :=
  run (vstep t self c) w (fun o w' => serves (inl o) /\ lowN (N + fst (vasks t c)) (B + snd (vasks t c)) w') (fun r w' => r = PBounds /\ lowN N B w') (fun _ => False).
Lemma run_low {X} (m : M X) K B' w Qo Qp Qa : holds K B' m (fun _ => True) -> low K B' w -> run m w Qo Qp Qa ->
  run m w (fun x w' => Qo x w' /\ low K B' w') (fun r w' => Qp r w' /\ low K B' w') Qa.
Proof. intros H L. destruct (H w L) as [L' _]. unfold run. destruct (m w) as [[x|r| |u] w']; cbn [snd] in L'; auto. Qed.
Lemma no_divides r : ~ divides t r.
Proof. intros (_ & K & E). specialize (Nz K). lia. Qed.
Lemma no_luck : ~ out_of_luck.
Proof. intros [(n & E)|(n & E)]; [now apply (At n)|]. rewrite (Dq n) in E. discriminate. Qed.
Lemma no_oom r : ~ no_memory r.
Proof. intros (_ & n & E). now apply (At n). Qed.
Lemma no_bad_drop r : ~ bad_drop r.
Proof. intros (_ & n & E). rewrite (Dq n) in E. discriminate. Qed.
Lemma lean_panic c l r l' ds : vlean c -> vpanic t c l r l' ds -> r = PBounds.
Proof.
  intros L P. pose proof (no_oom r). pose proof (no_divides r). pose proof (no_bad_drop r). destruct c; cbn [vlean vpanic] in *; try contradiction; tauto.
Qed.
Lemma lean_serves c l o l' ds : vlean c -> vspec c l o l' ds -> serves (inl o).
Proof.
  intros L P. destruct c; cbn [vlean vspec] in *; try contradiction; cbn [serves]; try (destruct P as (-> & _); exact I);
    try (destruct P as ((n & P) & _); first [rewrite P|destruct P as [-> _]|destruct P as [_ ->]]; exact I).
  destruct (nth_error l i); destruct P as (-> & _); exact I.
Qed.
Lemma lean_asks c : vlean c -> vasks t c = (0, 0).
Proof. destruct c; cbn; tauto. Qed.
Lemma vserved_lean N B self c l w : repr t self l w -> vtyped t c -> vguard t self c l w -> vlean c -> lowN N B w -> vserved N B self c w.
Proof.
  intros R T G L Lo. unfold vserved. rewrite (lean_asks _ L). cbn [fst snd].
  eapply run_conseq; [eapply run_low; [apply (h_vstep t (2 * N + 8) (2 * B) Kt self c L)|exact Lo|exact (vstep_follows t self c l w Wt R T G)]|..]; cbv beta.
  - intros o w' ((l' & ds & S & _) & Lo'). split; [eapply lean_serves; eauto|]. eapply lowN_le; [..|exact Lo']; lia.
  - intros r w' ((l' & ds & S & _) & Lo'). split; [eapply lean_panic; eauto|]. exact Lo'.
  - intros w' X. now apply no_luck in X.
Qed.
Lemma vserved_of N B self c l' w (m : M unit) : vstep t self c = (m ;; ret BUnit) -> lowN N B w -> 0 <= fst (vasks t c) -> 0 <= snd (vasks t c) ->
  run m w (fun _ w' => grown self l' (N + fst (vasks t c)) (B + snd (vasks t c)) w w') (fun _ _ => False) (fun _ => False) -> vserved N B self c w.
Proof.
  intros E L H1 H2 H. unfold vserved. rewrite E. apply run_bind. eapply run_conseq; [exact H|..]; cbv beta; try contradiction.
  intros [] w' G. apply run_ret. split; [exact I|]. eapply grown_low; [exact L| | |exact G]; lia.
Qed.
Lemma served_res N B self c l' w (m : M rres) : vstep t self c = (r <- m ;; ret (BRes r)) -> lowN N B w -> 0 <= fst (vasks t c) -> 0 <= snd (vasks t c) ->
  run m w (fun r w' => r = ROk /\ grown self l' (N + fst (vasks t c)) (B + snd (vasks t c)) w w') (fun _ _ => False) (fun _ => False) -> vserved N B self c w.
Proof.
  intros E L H1 H2 H. unfold vserved. rewrite E. apply run_bind. eapply run_conseq; [exact H|..]; cbv beta; try contradiction.
  intros r w' (-> & G). apply run_ret. split; [exact I|]. eapply grown_low; [exact L| | |exact G]; lia.
Qed.
Lemma unwrap_ok (m : M rres) w (Q : world -> Prop) : run m w (fun r w' => r = ROk /\ Q w') (fun _ _ => False) (fun _ => False) ->
  run (r <- m ;; unwrap_try_reserve_result r) w (fun _ w' => Q w') (fun _ _ => False) (fun _ => False).
Proof. intros H. apply run_bind. eapply run_conseq; [exact H|..]; cbv beta; try contradiction. intros r w' (-> & G). now apply run_ret. Qed.
Lemma vserved_push N B self x l w : repr t self l w -> good t x -> lowN N B w -> small N B l -> fits_memory t (N + 1) (B + vsize t x) -> vserved N B self (VPush x) w.
Proof.
  intros R G L S M. apply repr_orep in R as (o & d & R). pose proof (low_fit _ _ _ _ _ _ _ R L) as F.
  apply (vserved_of N B self _ (l ++ [x]) w (v_push t self x)); auto; cbn [vasks fst snd]; try lia; [apply (good_size t x G)|]. eapply room_push; eauto.
Qed.
Lemma vserved_insert N B self i x l w : repr t self l w -> good t x -> vguard t self (VInsert i x) l w -> lowN N B w -> small N B l ->
  fits_memory t (N + 1) (B + vsize t x) -> vserved N B self (VInsert i x) w.
Proof.
  intros R G Gd L S M. destruct (le_lt_dec i (length l)) as [Li|Li].
  - apply repr_orep in R as (o & d & R). pose proof (low_fit _ _ _ _ _ _ _ R L) as F.
    apply (vserved_of N B self _ (insert_at i x l) w (v_insert t self i x)); auto; cbn [vasks fst snd]; try lia; [apply (good_size t x G)|]. eapply room_insert; eauto.
  - unfold vserved. cbn [vstep]. apply run_bind. eapply run_conseq; [eapply v_insert_oob; eauto|..]; cbv beta; try contradiction.
    + intros r w' (-> & ->). auto.
    + intros w' X. eapply no_drop_panicked; eauto.
Qed.
Lemma vserved_all N B self c l w : repr t self l w -> vtyped t c -> vguard t self c l w -> vmodest t c -> lowN N B w -> small N B l ->
  fits_memory t (N + fst (vasks t c)) (B + snd (vasks t c)) -> vserved N B self c w.
Proof.
  intros R T G Mo L S M. pose proof R as R0. apply repr_orep in R as (o & d & R). pose proof (low_fit _ _ _ _ _ _ _ R L) as F.
  destruct c; try (eapply vserved_lean; eauto; exact I); cbn [vmodest] in Mo; try contradiction; cbn [vtyped] in T; cbn [vasks fst snd] in M.
  - eapply vserved_push; eauto.
  - apply (vserved_of N B self _ (l ++ [x]) w (v_push_with t self (emplacable_of_value t x))); auto; cbn [vasks fst snd]; try lia; [apply (good_size t x T)|].
    eapply room_push_with; eauto. apply G.
  - eapply vserved_insert; eauto.
  - destruct (le_lt_dec i (length l)) as [Li|Li].
    + apply (vserved_of N B self _ (insert_at i x l) w (v_insert_with t self i (emplacable_of_value t x))); auto; cbn [vasks fst snd]; try lia; [apply (good_size t x T)|].
      eapply room_insert_with; eauto. apply G.
    + unfold vserved. cbn [vstep]. apply run_bind. eapply run_conseq; [eapply v_insert_with_oob; eauto using value_emits|..]; cbv beta; try contradiction.
      * intros r w' (-> & W & _). split; auto. destruct W as (V & _). apply low_nth. intros k o' E. rewrite V in E by (intros []). eapply nth_low; eauto.
      * intros w' (_ & X). eapply no_drop_panicked; eauto.
  - destruct T as (Hn & Hb & Ha). destruct exact.
    + apply (served_res N B self _ l w (v_try_reserve_exact_capacity_bytes_align t self n b a)); auto. eapply room_exact; eauto.
    + apply (served_res N B self _ l w (v_try_reserve_capacity_bytes_align t self n b a)); auto. eapply room_reserve; eauto.
  - destruct T as (Hn & Hb & Ha). destruct exact.
    + apply (vserved_of N B self _ l w (v_reserve_exact_capacity_bytes_align t self n b a)); auto. apply unwrap_ok. eapply room_exact; eauto.
    + apply (vserved_of N B self _ l w (v_reserve_capacity_bytes_align t self n b a)); auto. apply unwrap_ok. eapply room_reserve; eauto.
  - rewrite Z.add_0_r in M.
    destruct exact; [apply (served_res N B self _ l w (v_try_reserve_exact t self n))|apply (served_res N B self _ l w (v_try_reserve t self n))]; auto;
      cbn [vasks fst snd]; try lia; rewrite Z.add_0_r; eapply counted; eauto.
  - rewrite Z.add_0_r in M. apply (vserved_of N B self _ l w (v_reserve t self n)); auto; cbn [vasks fst snd]; try lia. rewrite Z.add_0_r. apply unwrap_ok. eapply counted; eauto.
  - destruct T as [Hh Gx]. pose proof (zlen_nonneg xs). apply (vserved_of N B self _ (l ++ xs) w (v_extend t self hint (map (emplacable_of_value t) xs))); auto; cbn [vasks fst snd];
      [lia|now apply total_nonneg|]. eapply room_extend; eauto. apply G.
  - apply (vserved_of N B self _ (l ++ [d_value S0]) w (v_push_with t self e)); auto; cbn [vasks fst snd]; try lia; [apply (good_size t (d_value S0)), T|].
    eapply room_push_from; eauto. apply G.
  - destruct (le_lt_dec i (length l)) as [Li|Li].
    + apply (vserved_of N B self _ (insert_at i (d_value S0) l) w (v_insert_with t self i e)); auto; cbn [vasks fst snd]; try lia; [apply (good_size t (d_value S0)), T|].
      eapply room_insert_from; eauto. apply G.
    + unfold vserved. cbn [vstep]. apply run_bind. eapply run_conseq; [eapply (v_insert_with_oob t self l w e S0); eauto; apply T|..]; cbv beta; try contradiction.
      * intros r w' (-> & W & _). split; auto. destruct T as (_ & Efv & _). rewrite Efv in W. destruct W as (V & _). apply low_nth. intros k o' E. rewrite V in E by (intros []). eapply nth_low; eauto.
      * intros w' (_ & X). eapply no_drop_panicked; eauto.
  - destruct T as [Hh P]. destruct G as [Nh _]. assert (Sp : Forall supplier ps) by now apply suppliers. pose proof (zlen_nonneg ps).
    apply (vserved_of N B self _ (l ++ values ps) w (v_extend t self hint (map fst ps))); auto; cbn [vasks fst snd];
      [lia|now apply total_nonneg, supplier_good|]. eapply room_extend_from; eauto.
  - pose proof (past_slot_untouched w) as Un. unfold vserved, run. rewrite (step_push_unsize _ _ _ _ _ _ _ T).
    apply (vserved_push N B self (coerce m x) l (past_slot w)); eauto using repr_untouched, coercible_good.
  - pose proof (past_slot_untouched w) as Un. unfold vserved, run. rewrite (step_insert_unsize _ _ _ _ _ _ _ _ T).
    apply (vserved_insert N B self i (coerce m x) l (past_slot w)); eauto using repr_untouched, coercible_good. cbn [vguard] in *.
    destruct G as [Ks|[Lt|(Pl & Q)]]; auto. right. right. split; [eapply placeable_untouched; eauto|].
    destruct Q as [Z|(Mv & Of)]; auto. right. split; [intros Ku; contradiction|]. unfold offset_of in *. destruct (kind_of t); auto. contradiction.
Qed.

(** ** Any call *)
Ltac qq := repeat match goal with |- quiet (ret _) => apply quiet_ret | |- quiet (bind _ _) => apply quiet_bind | |- forall _, _ => intros ? | |- _ => now auto end.
Lemma vasks_nonneg c : vtyped t c -> 0 <= fst (vasks t c) /\ 0 <= snd (vasks t c).
Proof.
  intros T. destruct c; cbn [vtyped vasks fst snd] in *; try lia; try (split; [lia|]; apply (good_size t _ T)); try (split; [lia|]; apply (good_size t _ (coercible_good _ _ _ _ _ T))).
  - destruct T as [Hh G]. pose proof (zlen_nonneg xs). split; [lia|now apply total_nonneg].
  - split; [lia|]. apply (good_size t (d_value S)), T.
  - split; [lia|]. apply (good_size t (d_value S)), T.
  - destruct T as [Hh G]. pose proof (zlen_nonneg ps). split; [lia|]. now apply total_nonneg, producers_good.
Qed.
Lemma asks_nonneg c : typed t c -> 0 <= fst (asks t mx c) /\ 0 <= snd (asks t mx c).
Proof.
  intros T. destruct c; cbn [typed asks fst snd] in *; try lia; try now apply vasks_nonneg.
  - split; [apply zlen_nonneg|now apply total_nonneg].
  - destruct T as [Hh G]. pose proof (zlen_nonneg xs). split; [lia|now apply total_nonneg].
  - destruct T as [Hh G]. pose proof (zlen_nonneg ps). split; [lia|]. now apply total_nonneg, producers_good.
Qed.
Definition all_small (N B : Z) (ls : lists) : Prop := forall k l, there ls k = Some l -> small N B l.
Definition served (N B : Z) (env : list (option nat)) (c : op) (w : world) : Prop :=
  run (step t env c) w (fun p w' => serves (inl (fst p)) /\ lowN (N + fst (asks t mx c)) (B + snd (asks t mx c)) w')
    (fun r w' => r = PBounds /\ lowN N B w') (fun _ => False).
Lemma new_fit N B one : 0 <= N -> 0 <= B -> fit N B (new_o t one).
Proof.
  intros HN HB. unfold fit, new_o. destruct (kind_of t) eqn:K; cbn [o_cap o_bcap].
  - split; [|congruence]. specialize (Nz K). unfold s_capacity, s_new. destruct (Z.eqb_spec (s_size t) 0); cbn [sv_cap]; lia.
  - unfold a_new. cbn [av_icap av_bcap]. split; [lia|]. intros _. lia.
  - congruence.
Qed.
Lemma new_low N B one w : 0 <= N -> 0 <= B -> lowN N B w -> lowN N B (set_vecs (w_vecs w ++ [new_o t one]) w).
Proof.
  intros HN HB L. unfold lowN, low. proj. apply Forall_app. split; auto. constructor; auto. eapply fit_low; [apply (new_orep t one w Wt)|now apply new_fit].
Qed.
Lemma served_new N B env c l' w (one : bool) (m : nat -> M unit) : step t env c = born env (v <- (if one then v_new_align_1 t else v_new t) ;; on_unwind (m v) (v_drop t v) ;; ret v) ->
  lowN N B w -> 0 <= N -> 0 <= B -> 0 <= fst (asks t mx c) -> 0 <= snd (asks t mx c) ->
  (forall self d w1, orep t self [] (new_o t one) d w1 ->
     run (m self) w1 (fun _ w' => grown self l' (N + fst (asks t mx c)) (B + snd (asks t mx c)) w1 w') (fun _ _ => False) (fun _ => False)) -> served N B env c w.
Proof.
  intros E L HN HB H1 H2 H. unfold served. rewrite E. unfold born. apply run_bind.
  eapply run_eq. { destruct one; [apply v_new_align_1_eq|apply v_new_eq]. }
  assert (X : forall o, o = one -> run (on_unwind (m (length (w_vecs w))) (v_drop t (length (w_vecs w))) ;; ret (length (w_vecs w))) (set_vecs (w_vecs w ++ [new_o t o]) w)
    (fun v w' => run (ret (BUnit, env ++ [Some v])) w' (fun p w' => serves (inl (fst p)) /\ lowN (N + fst (asks t mx c)) (B + snd (asks t mx c)) w') (fun r w' => r = PBounds /\ lowN N B w') (fun _ => False))
    (fun r w' => r = PBounds /\ lowN N B w') (fun _ => False)).
  { intros o ->. apply run_bind, run_on_unwind. eapply run_conseq; [eapply H, (new_orep t one w Wt)|..]; cbv beta; try contradiction.
    intros [] w' G. apply run_ret, run_ret. split; [exact I|]. eapply grown_low; [apply (new_low N B one w); auto| | |exact G]; lia. }
  destruct one; now apply X.
Qed.
Lemma small_nil N B : 0 <= N -> 0 <= B -> small N B [].
Proof. intros. split; cbn; lia. Qed.
Lemma small_all N B env s w k j l : tracks t env s w -> all_small N B s -> alive env k = Some j -> there s k = Some l -> repr t j l w /\ small N B l.
Proof. intros T A E E'. split; [eapply (tr_repr _ _ _ _ T); eauto|eauto]. Qed.
Lemma served_quiet N B env c w (m : M obs) k k' (f : nat -> nat -> M obs) s : step t env c = keep env (on2 env k k' f) -> tracks t env s w -> typed t c -> guard t env c s w ->
  (forall j j', quiet (f j j')) -> (forall o s' ds, spec c s o s' ds -> serves (inl o)) -> (forall r s' ds, ~ spec_panic t c s r s' ds) -> asks t mx c = (0, 0) -> lowN N B w -> served N B env c w.
Proof.
  intros E T Ty G Q Sv Np As L. unfold served. rewrite As. cbn [fst snd]. pose proof (step_follows_all t env c s w Wt T Ty G) as H. unfold step_follows in H.
  assert (Qs : quiet (step t env c)). { rewrite E. unfold keep, on2. destruct (alive env k), (alive env k'); unfold skip; qq. }
  eapply run_conseq; [eapply run_low; [apply (quiet_holds (2 * N + 8) (2 * B)); exact Qs|exact L|exact H]|..]; cbv beta.
  - intros p w' (((s' & ds & S & _) & _) & L'). split; [eauto|]. eapply lowN_le; [..|exact L']; lia.
  - intros r w' (((s' & ds & S & _) & _) & L'). destruct (Np _ _ _ S).
  - intros w' X. now apply no_luck in X.
Qed.
(** Cloning: the clone has the capacity of the original from the start. *)
Lemma sized_memory N B B' : kind_of t = KSized -> fits_memory t N B -> fits_memory t N B'.
Proof. intros K. unfold fits_memory. now rewrite K. Qed.
Lemma room_push_spare self l o d w x N B : orep t self l o d w -> kind_of t = KSized -> o_cap t o <= 2 * N + 8 -> zlen l + 1 <= o_cap t o -> zlen l <= N -> good t x -> fits_memory t (N + 1) B ->
  run (v_push t self x) w (fun _ w' => exists o' d', orep t self (l ++ [x]) o' d' w' /\ frame self w w' /\ o_cap t o' = o_cap t o) (fun _ _ => False) (fun _ => False).
Proof.
  intros R K Hc Sp Ln G M. pose proof (proj1 (good_size t x G)) as Sx. pose proof (one_request x G) as Sr. pose proof (total_nonneg _ (orep_good _ _ _ _ _ _ R)) as Tn.
  assert (F : fit N (total t l) o) by (split; [exact Hc|congruence]). assert (Sm : small N (total t l) l) by (split; [exact Ln|lia]).
  eapply run_conseq; [eapply v_push_wp; eauto using aligned_can|..]; cbv beta.
  - intros _ w' (o' & o1 & d' & w1 & R' & [Fr _] & Ec & _ & _ & _ & _ & (d1 & R1) & (o2 & d2 & _ & _ & _ & _ & _ & _ & _ & _ & Sz) & _).
    exists o', d'. split; auto. split; auto. destruct (Sz K (Sr K)) as [->|(Lt & _)]; [|lia].
    pose proof (orep_obj _ _ _ _ _ _ R) as E1. rewrite (orep_obj _ _ _ _ _ _ R1) in E1. injection E1 as <-. exact Ec.
  - intros r w' (_ & _ & _ & X & _). eapply (no_fails N (total t l)); [exact R|exact F|exact Sm| | | |exact Sr|eapply sized_memory; [exact K|exact M]|exact X]; lia.
  - intros w'. apply no_abort.
Qed.
Lemma room_clone_loop f clone self l o d w0 dst N B : kind_of t = KSized -> copies t f (fun _ => False) clone -> orep t self l o d w0 -> zlen l <= N -> fits_memory t (N + 1) B ->
  forall m a it o' d' w, l = a ++ m -> covers t o a m it -> orep t dst (map f a) o' d' w -> newvec dst [] [] w0 w -> o_cap t o' <= 2 * N + 8 -> zlen l <= o_cap t o' ->
  run (v_clone_loop t clone dst (length m) it) w
    (fun _ w' => exists o'' d'', orep t dst (map f l) o'' d'' w' /\ newvec dst [] [] w0 w' /\ o_cap t o'' <= 2 * N + 8) (fun _ _ => False) (fun _ => False).
Proof.
  intros K [Cg Cl] R0 Ln M. induction m as [|x m IH]; intros a it o' d' w El Cv R Nv Hc Sp; cbn [length v_clone_loop].
  { apply run_ret. rewrite app_nil_r in El. subst. eauto. }
  assert (Rs : orep t self l o d w).
  { eapply orep_agree; [exact R0| |].
    - apply (nv_vecs _ _ _ _ _ Nv); [|intros []]. rewrite (nv_self _ _ _ _ _ Nv). eapply nth_error_lt, orep_obj; eauto.
    - intros b E. apply (nv_other _ _ _ _ _ Nv); [|intros []]. eapply repr_owned_lt; [eapply orep_repr; eauto|]. now rewrite (orep_owned _ _ _ _ _ _ R0). }
  destruct (v_next_cons t self l o d w a x m [] it Rs Cv) as (it1 & Nx & Cv1). { now rewrite app_nil_r. }
  eapply run_eq; [exact Nx|]. cbv beta iota. eapply run_eq; [eapply iref_read; eauto|].
  assert (Gx : good t x). { eapply orep_elem; [exact R0|]. rewrite El. apply in_or_app. right. now left. }
  assert (La : zlen (map f a) + 1 <= zlen l). { rewrite El, zlen_app, zlen_cons. unfold zlen. rewrite map_length. lia. }
  apply run_bind. eapply run_conseq; [apply (Cl x w Gx)|..]; cbv beta; try tauto.
  intros z w1 (-> & Wi & D1).
  assert (T1 : touch dst [] [] w w1). { apply touch_within; auto using apart_nil. exists []. rewrite D1. now rewrite app_nil_r. }
  assert (R1 : orep t dst (map f a) o' d' w1) by (eapply orep_within; eauto using apart_nil).
  assert (N1 : newvec dst [] [] w0 w1) by (eapply newvec_touch; eauto; intros b []).
  apply run_bind. eapply run_conseq; [eapply (room_push_spare dst _ o' d' w1 (f x) N B R1 K); eauto; lia|..]; cbv beta; auto.
  intros [] w2 (o2 & d2 & R2 & F2 & Ec). eapply (IH (a ++ [x]) it1 o2 d2 w2); auto; try lia.
  - now rewrite <- app_assoc.
  - rewrite map_app. exact R2.
  - eapply newvec_frame; eauto. intros b [].
Qed.
Lemma room_clone f clone self l w N B : kind_of t = KSized -> copies t f (fun _ => False) clone -> repr t self l w -> lowN N B w -> zlen l <= N -> 0 <= B -> fits_memory t (N + 1) B ->
  run (v_clone t clone self) w (fun _ w' => lowN (N + 1) B w') (fun _ _ => False) (fun _ => False).
Proof.
  intros K Cl R L Ln HB M. apply repr_orep in R as (o & d & R). pose proof (Nz K) as Sz. pose proof (zlen_nonneg l) as Zl.
  pose proof (low_fit _ _ _ _ _ _ _ R L) as [Fc _]. pose proof (orep_len _ _ _ _ _ _ R) as Hc. pose proof (sized_caps _ _ _ _ _ _ R K Sz) as Hb.
  unfold v_clone. eapply run_eq; [eapply v_capacity_eq; eauto|]. eapply run_eq; [eapply v_byte_capacity_eq; eauto|]. eapply run_eq; [eapply v_align_eq; eauto|].
  apply run_bind. unfold v_with_capacity_bytes_align. eapply run_eq; [apply v_new_align_1_eq|]. cbv beta.
  set (dst := length (w_vecs w)). set (w1 := set_vecs (w_vecs w ++ [new_o t true]) w). pose proof (new_orep t true w Wt) as R1. fold dst w1 in R1.
  assert (Nv1 : newvec dst [] [] w w1) by (apply new_newvec; unfold new_o; rewrite K; right; eexists; reflexivity).
  assert (C0 : o_cap t (new_o t true) = 0).
  { unfold new_o. rewrite K. cbn [o_cap]. unfold s_capacity, s_new. destruct (Z.eqb_spec (s_size t) 0); cbn [sv_cap]; lia. }
  assert (Wc : want_cap (s_size t) 0 0 (o_cap t o) false <= 2 * N + 8). { unfold want_cap, min_non_zero_cap. destruct (_ =? 1); [lia|]. destruct (_ <=? 1024); lia. }
  assert (Try : run (v_try_reserve_exact_capacity_bytes_align t dst (o_cap t o) (o_bcap t o) (o_al t o)) w1
    (fun r w2 => r = ROk /\ exists o2 d2, orep t dst [] o2 d2 w2 /\ frame dst w1 w2 /\ o_cap t o <= o_cap t o2 <= 2 * N + 8) (fun _ _ => False) (fun _ => False)).
  { unfold v_try_reserve_exact_capacity_bytes_align. apply run_bind.
  eapply run_conseq; [eapply (p_try_reserve_wp t dst [] _ [] w1 (o_cap t o) false R1); lia|..]; cbv beta; try tauto.
  intros r w2 (o2 & d2 & R2 & [F2 _] & _ & _ & _ & _ & _ & Nop & Gr & Res). rewrite C0 in Nop, Gr.
  change (zlen (@nil value)) with 0 in *. destruct r as [|[]].
  2: { exfalso. destruct Res as [_ X]. unfold count_overflow in X. rewrite K, C0 in X. unfold fits_memory in M. rewrite K in M.
    pose proof (want_cap_ge (s_size t) 0 0 (o_cap t o) false). assert (0 < s_align t) by (apply pow2_pos, s_align_pow2; auto). destruct X; nia. }
  2: { exfalso. eapply no_alloc_failed; eauto. }
  assert (H2 : o_cap t o2 <= 2 * N + 8).
  { destruct (Z.lt_ge_cases 0 (0 + o_cap t o)) as [Lt|Ge].
    - destruct (Gr K Lt eq_refl) as [E _]. rewrite (sized_caps _ _ _ _ _ _ R2 K Sz) in E. nia.
    - destruct (Nop ltac:(lia)) as [_ ->]. pose proof (orep_obj _ _ _ _ _ _ R1) as E. rewrite (orep_obj _ _ _ _ _ _ R2) in E. injection E as ->. lia. }
  destruct (to_align_ok (o_al t o) w2) as (a' & Ea). eapply run_eq; [exact Ea|].
  unfold run. rewrite (p_bytes_spare dst [] o2 d2 w2 (o_bcap t o) a' R2 K) by (change (zlen (@nil value)) with 0; nia). split; auto. exists o2, d2. ands; auto. }
  apply run_bind, run_on_unwind. unfold v_reserve_exact_capacity_bytes_align. eapply run_conseq; [apply unwrap_ok; exact Try|..]; cbv beta; try contradiction.
  intros [] w2 (o2 & d2 & R2 & F2 & Res & H2).
  assert (Nv2 : newvec dst [] [] w w2) by (eapply newvec_frame; eauto; intros b []).
  assert (Rs : orep t self l o d w2).
  { eapply orep_agree; [exact R| |].
    - apply (nv_vecs _ _ _ _ _ Nv2); [|intros []]. unfold dst. eapply nth_error_lt, orep_obj; eauto.
    - intros b E. apply (nv_other _ _ _ _ _ Nv2); [|intros []]. eapply repr_owned_lt; [eapply orep_repr; eauto|]. now rewrite (orep_owned _ _ _ _ _ _ R). }
  apply run_ret. destruct (v_iter_eq _ _ _ _ _ _ Rs) as (it & Ei & Cv & Li). eapply run_eq; [exact Ei|]. rewrite Li.
  apply (run_bind (on_unwind _ _) (fun _ => ret dst)). apply run_on_unwind.
  eapply run_conseq; [eapply (room_clone_loop f clone self l o d w dst N B K Cl R Ln M l [] it o2 d2 w2); auto; lia|..]; cbv beta; try contradiction.
  intros [] w3 (o3 & d3 & R3 & N3 & H3). apply run_ret. eapply (low_new N B); [exact L|lia|lia|exact N3|exact R3|]. split; [lia|congruence].
Qed.
(** Moves from vector to vector. *)
Definition upto (x : value) : Prop := good t x /\ vsize t x <= mx.
Lemma low_two self src fb N B N' B' l' o' d' l2 ls os ds d2 w w' : lowN N B w -> N <= N' -> B <= B' -> touch self [src] fb w w' -> orep t self l' o' d' w' -> fit N' B' o' ->
  orep t src ls os ds w -> orep t src l2 (o_with t os l2) d2 w' -> lowN N' B' w'.
Proof.
  intros L HN HB T R F Rs R2. apply low_nth. intros k o E. destruct (Nat.eq_dec k self) as [->|Ne].
  { rewrite (orep_obj _ _ _ _ _ _ R) in E. injection E as <-. eapply fit_low; eauto. }
  destruct (Nat.eq_dec k src) as [->|Ne'].
  - rewrite (orep_obj _ _ _ _ _ _ R2) in E. injection E as <-. eapply fit_low; eauto. pose proof (low_fit _ _ _ _ _ _ _ Rs L) as [F1 F2].
    pose proof (o_with_same t os l2) as (E1 & E2 & _). split; [rewrite E1; lia|]. intros K. rewrite E2. specialize (F2 K). lia.
  - rewrite (to_vecs _ _ _ _ _ T) in E by (auto; intros [X|[]]; auto). eapply nth_low; [exact (lowN_le _ _ _ _ _ HN HB L)|exact E].
Qed.
Lemma room_move_last self src l l2 x w N B : repr t self l2 w -> repr t src (l ++ [x]) w -> sep w self src -> lowN N B w -> small N B l2 -> upto x ->
  fits_memory t (N + 1) (B + mx) ->
  run (pop_then t src (v_push_with t self)) w (fun _ w' => lowN (N + 1) (B + mx) w') (fun _ _ => False) (fun _ => False).
Proof.
  intros R Rs Sp L Sm [G Sx] M. apply repr_orep in R as (o & d & R). apply repr_orep in Rs as (os & ds & Rs).
  destruct (v_pop_into_some _ _ _ _ _ _ _ Rs) as (e & E & Em). unfold pop_then. eapply run_eq; [exact E|]. cbv beta iota.
  set (D := pop_deal t src l x os) in *. assert (Ev : d_value D = x) by now destruct x.
  assert (Ap : apart self (d_fv D) (d_fb D) w) by (eapply sep_apart; eauto using sep_sym).
  assert (Fi : fits t (d_lay D) x) by (eapply elem_fits; eauto using last_in).
  pose proof (room_push_deal self l2 o d w e D N B R (low_fit _ _ _ _ _ _ _ R L) Sm Em) as H. rewrite Ev in H.
  eapply run_conseq; [apply H; auto; [intros r []|eapply memory_le; [..|exact M]; lia]|..]; cbv beta; auto.
  intros _ w' (o' & d' & R' & T & (d2 & R2) & F). unfold D in T. cbn [d_fv d_fb pop_deal] in T.
  eapply (low_two self src); [exact L|lia| |exact T|exact R'| |exact Rs|exact R2]; [pose proof (proj1 (good_size t x G)); lia|]. eapply fit_le; [..|exact F]; lia.
Qed.
Lemma room_move_at self src i j l l2 x w N B : repr t self l2 w -> repr t src l w -> sep w self src -> nth_error l j = Some x -> closable t src l j w ->
  lowN N B w -> small N B l2 -> upto x -> fits_memory t (N + 1) (B + mx) ->
  run (remove_then t src j (v_insert_with t self i)) w (fun _ w' => lowN (N + 1) (B + mx) w') (fun r w' => r = PBounds /\ lowN N B w') (fun _ => False).
Proof.
  intros R Rs Sp Ex Cl L Sm [G Sx] M. pose proof R as R0. apply repr_orep in R as (o & d & R). apply repr_orep in Rs as (os & ds & Rs).
  destruct (v_remove_into_some _ _ _ _ _ _ _ _ Rs Ex) as (e & E & Em). { intros K. eapply closable_tail; eauto. }
  unfold remove_then. eapply run_eq; [exact E|]. cbv beta iota.
  set (D := rem_deal _ _ _ _ _ _) in *. assert (Ev : d_value D = x) by now destruct x.
  assert (Ap : apart self (d_fv D) (d_fb D) w) by (eapply sep_apart; eauto using sep_sym).
  assert (Fi : fits t (d_lay D) x) by (eapply elem_fits; eauto using nth_error_In).
  destruct (le_lt_dec i (length l2)) as [Li|Li].
  - pose proof (room_insert_deal self l2 o d w i e D N B R (low_fit _ _ _ _ _ _ _ R L) Sm Em) as H. rewrite Ev in H.
    eapply run_conseq; [apply H; auto; [intros r []|eapply memory_le; [..|exact M]; lia]|..]; cbv beta; try contradiction.
    intros _ w' (o' & d' & R' & T & (d2 & R2) & F). unfold D in T. cbn [d_fv d_fb rem_deal] in T.
    eapply (low_two self src); [exact L|lia| |exact T|exact R'| |exact Rs|exact R2]; [pose proof (proj1 (good_size t x G)); lia|]. eapply fit_le; [..|exact F]; lia.
  - eapply run_conseq; [eapply v_insert_with_oob; [exact R0|exact Li|exact Em]|..]; cbv beta; try contradiction.
    + intros r w' (-> & W & _ & (d2 & R2)). split; auto. unfold D in W. cbn [d_fv d_fb rem_deal] in W. destruct W as (V & _).
      eapply (low_change src); [exact L|lia|lia| |exact R2|].
      * intros k Ne. apply V. intros [X|[]]; auto.
      * pose proof (low_fit _ _ _ _ _ _ _ Rs L) as F. pose proof (o_with_same t os (firstn j l ++ skipn (Datatypes.S j) l)) as (E1 & E2 & _). unfold fit. now rewrite E1, E2.
    + intros w' (_ & X). eapply no_drop_panicked; eauto.
Qed.
Lemma served_all N B env c s w : tracks t env s w -> typed t c -> guard t env c s w -> modest t c -> lowN N B w -> all_small N B s -> all_of upto s -> 0 <= N -> 0 <= B ->
  fits_memory t (N + fst (asks t mx c)) (B + snd (asks t mx c)) -> served N B env c w.
Proof.
  intros T Ty G Mo L S Up HN HB M. pose proof (small_nil N B HN HB) as S0. destruct c; cbn [modest] in Mo; try contradiction; cbn [typed] in Ty; cbn [asks fst snd] in M.
  - unfold served. cbn [step]. unfold born. apply run_bind. destruct one; (eapply run_eq1; [first [apply v_new_align_1_eq|apply v_new_eq]|]); apply run_ret; cbn [asks fst snd]; (split; [exact I|]); rewrite !Z.add_0_r; now apply new_low.
  - eapply (served_new N B env _ [] w false (fun v => v_reserve_exact t v n)); auto; cbn [asks fst snd]; try lia. intros self d w1 R.
    apply unwrap_ok. eapply (room_exact self [] _ d w1 n 0 1 N B); eauto using new_fit, no_bytes; lia.
  - destruct Ty as [Hn Hb]. eapply (served_new N B env _ [] w false (fun v => v_reserve_exact_capacity_bytes t v n b)); auto; cbn [asks fst snd]; try lia. intros self d w1 R.
    apply unwrap_ok. eapply (room_exact self [] _ d w1 n b 1 N B); eauto using new_fit.
  - destruct Ty as (Hn & Hb & _). eapply (served_new N B env _ [] w true (fun v => v_reserve_exact_capacity_bytes_align t v n b a)); auto; cbn [asks fst snd]; try lia. intros self d w1 R.
    apply unwrap_ok. eapply (room_exact self [] _ d w1 n b a N B); eauto using new_fit.
  - pose proof (zlen_nonneg xs). pose proof (total_nonneg xs Ty). eapply (served_new N B env _ xs w false (fun v => v_push_values t v xs)); auto; cbn [asks fst snd].
    intros self d w1 R. eapply (room_push_values self xs N B Ty []); eauto using new_fit.
  - destruct Ty as [Hh Gx]. pose proof (zlen_nonneg xs). pose proof (total_nonneg xs Gx).
    eapply (served_new N B env _ xs w false (fun v => v_extend t v hint (map (emplacable_of_value t) xs))); auto; cbn [asks fst snd]; try lia.
    intros self d w1 R. eapply (room_extend self [] _ d w1 hint xs N B); eauto using new_fit. apply G.
  - destruct Ty as [Hh P]. destruct G as [Nh _]. assert (Sp : Forall supplier ps) by now apply suppliers. pose proof (zlen_nonneg ps). pose proof (total_nonneg _ (producers_good _ P)).
    eapply (served_new N B env _ (values ps) w false (fun v => v_extend t v hint (map fst ps))); auto; cbn [asks fst snd]; try lia.
    intros self d w1 R. eapply (room_extend_from self [] _ d w1 hint ps N B); eauto using new_fit.
  - unfold served. cbn [step asks fst snd]. rewrite Z.add_0_r in *. destruct Ty as [K _]. destruct (alive env k) as [j|] eqn:A.
    + destruct (tracks_live _ _ _ _ _ _ T A) as (l & E & R). unfold born. apply run_bind.
      eapply run_conseq; [eapply (room_clone f clone j l w N B); eauto; apply (S _ _ E)|..]; cbv beta; try contradiction.
      intros v w' L'. apply run_ret. now split.
    + apply run_bind, run_ret, run_ret. split; [exact I|]. eapply lowN_le; [..|exact L]; lia.
  - unfold served. cbn [step]. unfold keep, on1. apply run_bind. destruct (alive env k) as [j|] eqn:A.
    + destruct (tracks_live _ _ _ _ _ _ T A) as (l & E & R). pose proof (G j l A E) as Gd. eapply run_conseq; [eapply (vserved_all N B j c l w); eauto|..]; cbv beta; auto.
    + apply run_ret, run_ret. split; [exact I|]. cbn [fst snd asks]. eapply lowN_le; [..|exact L]; cbn [asks fst snd].
      * assert (0 <= fst (vasks t c)); [|lia]. now apply vasks_nonneg.
      * assert (0 <= snd (vasks t c)); [|lia]. now apply vasks_nonneg.
  - unfold served. cbn [step asks fst snd]. destruct (Nat.eqb_spec dst src) as [->|Ne].
    { apply run_bind, run_ret, run_ret. split; [exact I|]. eapply lowN_le; [..|exact L]; lia. }
    unfold keep, on2. apply run_bind. destruct (alive env dst) as [j|] eqn:A, (alive env src) as [j'|] eqn:A'; try (apply run_ret, run_ret; split; [exact I|]; eapply lowN_le; [..|exact L]; lia).
    destruct (tracks_live _ _ _ _ _ _ T A) as (l & E & R). destruct (tracks_live _ _ _ _ _ _ T A') as (l' & E' & R'). apply run_bind.
    destruct l' as [|x l' _] using rev_ind.
    + unfold pop_then. eapply run_eq1. { erewrite bind_eq by (eapply v_pop_into_empty; eauto). reflexivity. }
      apply run_ret, run_ret. split; [exact I|]. eapply lowN_le; [..|exact L]; lia.
    + eapply run_conseq; [eapply (room_move_last j j' l' l x w N B); eauto|..]; cbv beta; try contradiction.
      * apply (tr_sep _ _ _ _ T dst src); auto.
      * pose proof (Up _ _ E') as U. apply Forall_app in U as [_ U]. now inversion_clear U.
      * intros [] w' L'. apply run_ret, run_ret. now split.
  - unfold served. cbn [step asks fst snd]. destruct (Nat.eqb_spec dst src) as [->|Ne].
    { apply run_bind, run_ret, run_ret. split; [exact I|]. eapply lowN_le; [..|exact L]; lia. }
    unfold keep, on2. apply run_bind. destruct (alive env dst) as [j0|] eqn:A, (alive env src) as [j'|] eqn:A'; try (apply run_ret, run_ret; split; [exact I|]; eapply lowN_le; [..|exact L]; lia).
    destruct (tracks_live _ _ _ _ _ _ T A) as (l & E & R). destruct (tracks_live _ _ _ _ _ _ T A') as (l' & E' & R'). apply run_bind.
    destruct (nth_error l' j) as [x|] eqn:Ex.
    + destruct (G j0 j' l l' x Ne A A' E E' Ex) as (Cl & _).
      eapply run_conseq; [eapply (room_move_at j0 j' i j l' l x w N B); eauto|..]; cbv beta; try contradiction; auto.
      * apply (tr_sep _ _ _ _ T dst src); auto.
      * exact (proj1 (Forall_forall _ _) (Up _ _ E') _ (nth_error_In _ _ Ex)).
      * intros [] w' L'. apply run_ret, run_ret. now split.
    + apply nth_error_None in Ex. unfold run. rewrite (remove_then_oob t j' j _ l' w R' Ex). auto.
  - eapply (served_quiet N B env _ w (ret BUnit) _ _ _ s); eauto; try reflexivity.
    + intros j j'. cbv beta. pose proof (q_eq t f j j'). qq.
    + intros o s' ds Sp. cbn [spec] in Sp. destruct (there s k), (there s k'); try (destruct Sp as (-> & _); exact I). destruct Sp as (b & -> & _). exact I.
  - eapply (served_quiet N B env _ w (ret BUnit) _ _ _ s); eauto; try reflexivity.
    + intros j j'. cbv beta. pose proof (q_cmp t f j j'). qq.
    + intros o s' ds Sp. cbn [spec] in Sp. destruct (there s k), (there s k'); destruct Sp as (-> & _); exact I.
  - pose proof (step_follows_all t env (DropVec k) s w Wt T Ty G) as H. unfold step_follows in H. unfold served. cbn [asks fst snd]. rewrite !Z.add_0_r.
    assert (Hs : holds (2 * N + 8) (2 * B) (step t env (DropVec k)) (fun _ => True)).
    { cbn [step]. destruct (alive env k) as [j|]; [|apply quiet_holds; unfold keep, skip; qq]. apply (then_holds _ _ _ (fun _ => (BUnit, upd env k None))). now apply h_v_drop. }
    eapply run_conseq; [eapply run_low; [exact Hs|exact L|exact H]|..]; cbv beta.
    + intros p w' (((s' & ds & Sp & _) & _) & L'). split; auto. cbn [spec] in Sp. destruct (there s k); destruct Sp as (-> & _); exact I.
    + intros r w' (((s' & ds & (X & _) & _) & _) & L'). now apply no_bad_drop in X.
    + intros w' X. now apply no_luck in X.
Qed.

(** ** What becomes of the lists *)
Lemma total_firstn i l : Forall (good t) l -> total t (firstn i l) + total t (skipn i l) = total t l.
Proof. intros G. rewrite <- total_app. now rewrite firstn_skipn. Qed.
Lemma zlen_firstn (i : nat) (l : list value) : zlen (firstn i l) + zlen (skipn i l) = zlen l.
Proof. rewrite <- zlen_app. now rewrite firstn_skipn. Qed.
Lemma good_part l i : Forall (good t) l -> Forall (good t) (firstn i l) /\ Forall (good t) (skipn i l).
Proof. intros G. rewrite <- (firstn_skipn i l) in G. now apply Forall_app in G. Qed.
Lemma small_remove N B l i : Forall (good t) l -> small N B l -> small N B (remove_at i l).
Proof.
  intros G [H1 H2]. unfold remove_at. destruct (good_part l i G) as [_ G'].
  assert (X : skipn (S i) l = skipn 1 (skipn i l)). { clear. revert i. induction l as [|y l IH]; intros [|i]; auto. apply (IH i). }
  pose proof (total_firstn i l G). pose proof (zlen_firstn i l). pose proof (total_firstn 1 _ G'). pose proof (zlen_firstn 1 (skipn i l)).
  destruct (good_part _ 1 G') as [G1 _]. pose proof (total_nonneg _ G1). pose proof (zlen_nonneg (firstn 1 (skipn i l))).
  split; [rewrite zlen_app, X|rewrite total_app, X]; lia.
Qed.
Lemma small_removelast N B l : Forall (good t) l -> small N B l -> small N B (removelast l).
Proof.
  intros G [H1 H2]. destruct l as [|x l _] using rev_ind; [now split|]. rewrite removelast_last. apply Forall_app in G as [_ Gx]. inversion_clear Gx.
  rewrite zlen_app in H1. rewrite total_app, total_cons in H2. change (zlen [x]) with 1 in H1. change (total t []) with 0 in H2. pose proof (proj1 (good_size t x H)). split; lia.
Qed.
Lemma small_insert N B l i x : small N B l -> small (N + 1) (B + vsize t x) (insert_at i x l).
Proof.
  intros [H1 H2]. unfold insert_at. assert (total t (firstn i l) + total t (skipn i l) = total t l) by (rewrite <- total_app; now rewrite firstn_skipn).
  pose proof (zlen_firstn i l). split; [rewrite zlen_app, zlen_cons|rewrite total_app, total_cons]; lia.
Qed.
Lemma small_app N B l xs : small N B l -> small (N + zlen xs) (B + total t xs) (l ++ xs).
Proof. intros [H1 H2]. split; [rewrite zlen_app|rewrite total_app]; lia. Qed.
Lemma small_alike N B l l' : Forall2 alike l l' -> small N B l -> small N B l'.
Proof.
  intros A [H1 H2]. split.
  - assert (E : length l' = length l) by (clear -A; induction A; cbn [length]; congruence). unfold zlen in *. now rewrite E.
  - rewrite total_plen in *. now rewrite (alike_plen t 1 l l' A).
Qed.
Lemma alike_replace l i x y : nth_error l i = Some x -> alike x y -> Forall2 alike l (replace_at i y l).
Proof.
  revert i. induction l as [|z l IH]; intros [|i] E A; try discriminate; cbn [nth_error] in E.
  - injection E as ->. constructor; auto. cbn. clear. induction l; constructor; auto using alike_refl.
  - constructor; [apply alike_refl|]. apply (IH i); auto.
Qed.
Lemma alike_all_refl l : Forall2 alike l l.
Proof. induction l; constructor; auto using alike_refl. Qed.
Lemma alike_all_trans l m n : Forall2 alike l m -> Forall2 alike m n -> Forall2 alike l n.
Proof. intros H. revert n. induction H; intros n H'; inversion_clear H'; constructor; eauto using alike_trans. Qed.
Lemma alike_update f js : (forall x, good t x -> alike x (f x)) -> forall l, Forall (good t) l -> Forall2 alike l (update_at f js l).
Proof.
  intros Hf. induction js as [|j js IH]; intros l G; cbn [update_at]; [apply alike_all_refl|]. destruct (nth_error l j) as [x|] eqn:E; auto.
  assert (A : Forall2 alike l (replace_at j (f x) l)). { eapply alike_replace; eauto. apply Hf. exact (proj1 (Forall_forall _ _) G _ (nth_error_In _ _ E)). }
  eapply alike_all_trans; [exact A|]. apply IH. eapply alike_Forall; eauto.
Qed.
Lemma small_vspec N B c l o l' ds : Forall (good t) l -> small N B l -> vtyped t c -> vmodest t c -> vspec c l o l' ds -> small (N + fst (vasks t c)) (B + snd (vasks t c)) l'.
Proof.
  intros G S T Mo P. assert (Nn := vasks_nonneg c T). destruct c; cbn [vspec vmodest vasks fst snd] in *; try contradiction; rewrite ?Z.add_0_r;
    try (destruct P as (_ & -> & _); now auto using small_removelast, small_remove, small_snoc, small_app);
    try (destruct P as (_ & _ & -> & _); now auto using small_remove, small_insert);
    try (destruct P as (_ & -> & _); apply (small_le N B); auto; lia).
  - destruct (nth_error l i) as [x|] eqn:E; destruct P as (_ & -> & _); auto. eapply small_alike; [eapply alike_replace; [exact E|]|exact S].
    apply T. exact (proj1 (Forall_forall _ _) G _ (nth_error_In _ _ E)).
  - destruct T as [Hh _]. destruct P as (_ & -> & _). apply (small_le (N + zlen xs) (B + total t xs)); [lia|lia|]. now apply small_app.
  - destruct T as [Hh _]. destruct P as (_ & -> & _). apply (small_le (N + zlen (values ps)) (B + total t (values ps))); [rewrite values_zlen; lia|unfold values; lia|]. now apply small_app.
  - destruct P as (_ & -> & _). eapply small_alike; [apply alike_update; auto|exact S].
Qed.
Lemma vpanic_bounds c l l' ds : vmodest t c -> vpanic t c l PBounds l' ds -> l' = l.
Proof.
  assert (X : ~ no_room PBounds) by (intros [|[[]|[]]]; discriminate). assert (Y := no_oom PBounds). assert (Y2 := no_divides PBounds). assert (Y3 := no_bad_drop PBounds).
  intros Mo P. destruct c; cbn [vpanic vmodest] in *; try contradiction; try intuition congruence.
  destruct P as (Ss1 & Ss2 & E & -> & H). assert (Z : Ss1 = []); [|subst; cbn; now rewrite app_nil_r].
  destruct H as [(-> & _)|(D & Ss3 & -> & [(H & _)|H])]; auto; exfalso; auto.
  assert (Pe : peaceful D). { rewrite <- (Forall_map snd) in Mo. rewrite E in Mo. apply Forall_app in Mo as [_ Mo]. now inversion_clear Mo. }
  destruct H as [H|[H _]]; [exact (Pe _ H)|now apply Y3 in H].
Qed.
Lemma all_small_upd N B N' B' s k l : N <= N' -> B <= B' -> all_small N B s -> small N' B' l -> all_small N' B' (upd s k (Some l)).
Proof.
  intros HN HB A F k' l' E. destruct (Nat.eq_dec k' k) as [->|Ne]; [|rewrite there_other in E by auto; eauto using small_le].
  pose proof (there_lt _ _ _ E) as Lt. rewrite upd_length in Lt. rewrite there_same in E by auto. now injection E as <-.
Qed.
Lemma all_small_app N B N' B' s l : N <= N' -> B <= B' -> all_small N B s -> small N' B' l -> all_small N' B' (s ++ [Some l]).
Proof. intros HN HB A F k' l' E. rewrite there_app in E. destruct (k' =? length s)%nat; [injection E as <-; auto|eauto using small_le]. Qed.
Lemma all_small_le N B N' B' s : N <= N' -> B <= B' -> all_small N B s -> all_small N' B' s.
Proof. intros HN HB A k l E. eauto using small_le. Qed.
Lemma tracked_good env s w k l : tracks t env s w -> there s k = Some l -> Forall (good t) l.
Proof.
  intros T E. destruct (alive env k) as [j|] eqn:Al.
  - pose proof (tr_repr _ _ _ _ T _ _ _ Al E) as R. apply repr_orep in R as (ob & d & R). eapply orep_good; eauto.
  - apply (tr_dead _ _ _ _ T) in Al. congruence.
Qed.
Lemma total_sized l : kind_of t = KSized -> Forall (good t) l -> total t l = zlen l * s_size t.
Proof. intros K. induction 1 as [|x l G _ IH]; [reflexivity|]. rewrite total_cons, zlen_cons, IH, (vsize_sized t x K G). lia. Qed.
Lemma small_map N B f l : kind_of t = KSized -> (forall x, good t x -> good t (f x)) -> Forall (good t) l -> small N B l -> small N B (map f l).
Proof.
  intros K F G [H1 H2]. assert (E : zlen (map f l) = zlen l) by (unfold zlen; now rewrite map_length). split; [lia|].
  rewrite total_sized in * by (auto; apply Forall_map; eapply Forall_impl; eauto). now rewrite E.
Qed.
Lemma small_spec N B env c s w o s' ds : tracks t env s w -> all_small N B s -> all_of upto s -> 0 <= N -> 0 <= B -> typed t c -> modest t c -> spec c s o s' ds ->
  all_small (N + fst (asks t mx c)) (B + snd (asks t mx c)) s'.
Proof.
  intros T A Up HN HB Ty Mo P. pose proof (asks_nonneg c Ty) as Nn. assert (A' : all_small (N + fst (asks t mx c)) (B + snd (asks t mx c)) s) by (eapply all_small_le; [..|exact A]; lia).
  destruct c; cbn [spec modest] in *; try contradiction; try (destruct P as (_ & -> & _); now auto).
  - destruct P as (_ & -> & _). eapply all_small_app; [..|exact A|]; try lia. apply small_nil; lia.
  - destruct P as (_ & -> & _). eapply all_small_app; [..|exact A|]; try lia. apply small_nil; lia.
  - destruct P as (_ & -> & _). eapply all_small_app; [..|exact A|]; try lia. apply small_nil; lia.
  - destruct P as (_ & -> & _). eapply all_small_app; [..|exact A|]; try lia. apply small_nil; lia.
  - destruct P as (_ & -> & _). eapply all_small_app; [..|exact A|]; try lia. cbn [asks fst snd] in *. apply (small_app N B [] xs). now apply small_nil.
  - destruct P as (_ & -> & _). cbn [asks fst snd] in *. destruct Ty. eapply all_small_app; [..|exact A|]; try lia.
    apply (small_le (N + zlen xs) (B + total t xs)); [lia|lia|]. apply (small_app N B [] xs). now apply small_nil.
  - destruct P as (_ & -> & _). cbn [asks fst snd] in *. destruct Ty. eapply all_small_app; [..|exact A|]; try lia.
    apply (small_le (N + zlen (values ps)) (B + total t (values ps))); [rewrite values_zlen; lia|unfold values; lia|]. apply (small_app N B [] (values ps)). now apply small_nil.
  - destruct (there s k) as [l|] eqn:E; [|now destruct P as (_ & -> & _)]. destruct P as (_ & -> & _). destruct Ty as [K _]. cbn [asks fst snd] in *.
    eapply all_small_app; [..|exact A|]; try lia. apply (small_le N B); [lia|lia|]. eapply small_map; [exact K|apply Mo|eapply tracked_good; eauto|eauto].
  - destruct (there s k) as [l|] eqn:E; [|now destruct P as (_ & -> & _)]. destruct P as (l' & P & ->). eapply all_small_upd; [..|exact A|]; try lia.
    apply (small_vspec N B c l o l' ds); [eapply tracked_good; eauto|exact (A k l E)|exact Ty|exact Mo|exact P].
  - destruct (there s dst) as [ld|] eqn:Ed; [|now destruct P as (_ & -> & _)]. destruct (there s src) as [lk|] eqn:Es; [|now destruct P as (_ & -> & _)].
    destruct (Nat.eqb dst src); [now destruct P as (_ & -> & _)|]. destruct P as (_ & _ & ->). cbn [asks fst snd] in *.
    apply (all_small_upd N B); [lia|lia|apply (all_small_upd N B); [lia|lia|exact A|]; apply small_removelast; [eapply tracked_good; eauto|exact (A _ _ Es)]|].
    pose proof (A _ _ Ed) as Sd. destruct lk as [|x lk _] using rev_ind.
    + cbn. rewrite app_nil_r. apply (small_le N B); auto; lia.
    + rewrite rev_app_distr. cbn [rev app firstn]. apply (small_le (N + 1) (B + vsize t x)); [lia| |now apply small_snoc].
      pose proof (Up _ _ Es) as U. apply Forall_app in U as [_ U]. inversion_clear U as [|? ? [_ Sx] _]. lia.
  - destruct (there s dst) as [ld|] eqn:Ed; [|now destruct P as (_ & -> & _)]. destruct (there s src) as [lk|] eqn:Es; [|now destruct P as (_ & -> & _)].
    destruct (Nat.eqb dst src); [now destruct P as (_ & -> & _)|]. destruct P as (_ & _ & x & Ex & ->). cbn [asks fst snd] in *.
    apply (all_small_upd N B); [lia|lia|apply (all_small_upd N B); [lia|lia|exact A|]; apply small_remove; [eapply tracked_good; eauto|exact (A _ _ Es)]|].
    pose proof (A _ _ Ed) as Sd. apply (small_le (N + 1) (B + vsize t x)); [lia| |now apply small_insert].
    destruct (proj1 (Forall_forall _ _) (Up _ _ Es) _ (nth_error_In _ _ Ex)) as [_ Sx]. lia.
  - destruct (there s k), (there s k'); try (now destruct P as (_ & -> & _)). now destruct P as (b & _ & _ & -> & _).
  - destruct (there s k), (there s k'); now destruct P as (_ & -> & _).
  - destruct (there s k); destruct P as (_ & -> & _); auto. intros k' l' E. destruct (Nat.eq_dec k' k) as [->|Ne]; [|rewrite there_other in E by auto; eauto].
    pose proof (there_lt _ _ _ E) as Lt. rewrite upd_length in Lt. rewrite there_same in E by auto. discriminate E.
Qed.
Lemma small_panic N B env c s w s' ds : tracks t env s w -> all_small N B s -> modest t c -> spec_panic t c s PBounds s' ds -> all_small N B s'.
Proof.
  assert (X : ~ no_room PBounds) by (intros [|[[]|[]]]; discriminate). assert (Y2 := no_divides PBounds). assert (Y3 := no_bad_drop PBounds).
  intros T A Mo P. destruct c; cbn [spec_panic modest] in *; try contradiction; try tauto.
  - destruct P as (-> & _). auto.
  - destruct P as (l & E & -> & _). auto.
  - destruct P as (l & l' & E & P & ->). apply vpanic_bounds in P; auto. subst. now rewrite upd_there.
  - destruct P as (lk & _ & P & _). tauto.
  - destruct P as (ld & lk & Ed & Es & [(_ & _ & -> & _)|[(_ & _ & -> & _)|(P & _)]]); auto; [|tauto].
    apply (all_small_upd N B); [lia|lia|exact A|]. apply small_remove; [eapply tracked_good; eauto|exact (A _ _ Es)].
Qed.

(** ** Any history *)
Definition asked (cs : list op) : Z * Z := (fold_right Z.add 0 (map (fun c => fst (asks t mx c)) cs), fold_right Z.add 0 (map (fun c => snd (asks t mx c)) cs)).
Lemma asked_cons c cs : asked (c :: cs) = (fst (asks t mx c) + fst (asked cs), snd (asks t mx c) + snd (asked cs)).
Proof. reflexivity. Qed.
Lemma asked_nonneg cs : Forall (typed t) cs -> 0 <= fst (asked cs) /\ 0 <= snd (asked cs).
Proof. induction 1 as [|c cs T _ IH]; [cbn; lia|]. rewrite asked_cons. pose proof (asks_nonneg c T). cbn [fst snd]. lia. Qed.
Theorem room_history cs : Forall (typed t) cs -> Forall (modest t) cs -> Forall (brings upto) cs -> forall env s w N B, tracks t env s w -> safe_run t cs s -> lowN N B w ->
  all_small N B s -> all_of upto s -> 0 <= N -> 0 <= B ->
  fits_memory t (N + fst (asked cs)) (B + snd (asked cs)) ->
  run (exec t env cs) w (fun p w' => (exists s' dl, spec_run t cs s (fst p) s' dl /\ tracks t (snd p) s' w') /\ Forall serves (fst p)) (fun _ _ => False) (fun _ => False).
Proof.
  induction cs as [|c cs IH]; intros Ty Mo Br env s w N B T Sf L S Up HN HB M; cbn [exec].
  - apply run_ret. split; [|constructor]. exists s, []. split; [constructor|exact T].
  - inversion_clear Ty as [|? ? Tc Tcs]. inversion_clear Mo as [|? ? Mc Mcs]. inversion_clear Br as [|? ? Bc Bcs]. destruct Sf as (_ & Sc & Ao & Ap). pose proof (safe_guard t env c s w T Tc Sc) as G.
    rewrite asked_cons in M. cbn [fst snd] in M. pose proof (asks_nonneg c Tc) as [Na Nb]. destruct (asked_nonneg cs Tcs) as [Nas Nbs].
    assert (Sv : served N B env c w). { eapply served_all; eauto. eapply memory_le; [..|exact M]; lia. }
    apply run_bind. pose proof (exec1_wp t env c s w Wt T Tc G) as H. unfold served in Sv. unfold run in Sv, H |- *. unfold exec1 in *.
    destruct (step t env c w) as [[[o env']|r| |u] w1]; auto.
    + destruct H as (_ & s1 & T1 & ds & _ & Sp). cbn [fst snd] in *. destruct Sv as [So Lo].
      change (run ('(rs, env'') <- exec t env' cs;; ret (inl o :: rs, env'')) w1
        (fun p w' => (exists s' dl, spec_run t (c :: cs) s (fst p) s' dl /\ tracks t (snd p) s' w') /\ Forall serves (fst p)) (fun _ _ => False) (fun _ => False)).
      apply run_bind. eapply run_conseq; [eapply (IH Tcs Mcs Bcs env' s1 w1 (N + fst (asks t mx c)) (B + snd (asks t mx c)) T1)|..]; cbv beta; eauto; try lia.
      * exact (small_spec N B env c s w o s1 ds T S Up HN HB Tc Mc Sp).
      * eapply brings_spec; eauto.
      * eapply memory_le; [..|exact M]; lia.
      * intros [rs env''] w2 ((s2 & dl & S2 & T2) & F2). apply run_ret. cbn [fst snd] in *. split; [|now constructor]. exists s2, (ds :: dl). split; auto. econstructor; eauto.
    + destruct H as (_ & s1 & T1 & ds & _ & Sp). cbn [fst snd] in *. destruct Sv as [-> Lo]. pose proof (small_panic N B _ _ _ _ _ _ T S Mc Sp) as A1.
      change (run ('(rs, env'') <- exec t (after_panic c env) cs;; ret (inr PBounds :: rs, env'')) w1
        (fun p w' => (exists s' dl, spec_run t (c :: cs) s (fst p) s' dl /\ tracks t (snd p) s' w') /\ Forall serves (fst p)) (fun _ _ => False) (fun _ => False)).
      apply run_bind. eapply run_conseq; [eapply (IH Tcs Mcs Bcs (after_panic c env) s1 w1 N B T1)|..]; cbv beta; eauto; try lia.
      * eapply brings_panic; eauto.
      * eapply memory_le; [..|exact M]; lia.
      * intros [rs env''] w2 ((s2 & dl & S2 & T2) & F2). apply run_ret. cbn [fst snd] in *. split; [|now constructor]. exists s2, (ds :: dl). split; auto. econstructor; eauto.
Qed.
End WithType.
End WithConfig.

(** ** C74 *)
(** Every call does its work. *)
Definition works {C : Config} (t : ty) (env : list (option nat)) (cs : list op) (s : lists) (w : world) : Prop :=
  run (exec t env cs) w
    (fun p w' => (exists s' dl, spec_run t cs s (fst p) s' dl /\ tracks t (snd p) s' w') /\ Forall serves (fst p)) (fun _ _ => False) (fun _ => False).
Section Theorems.
Context {C : Config}.
Theorem C74_history t mx cs env s w N B : wf_ty t -> nzst t -> kind_of t <> KUnaligned -> alloc_total -> drops_quiet -> Forall (typed t) cs -> Forall (modest t) cs ->
  0 <= mx -> Forall (brings (upto t mx)) cs -> tracks t env s w -> safe_run t cs s -> 0 <= N -> 0 <= B -> lowN N B w -> all_small t N B s -> all_of (upto t mx) s ->
  fits_memory t (N + fst (asked t mx cs)) (B + snd (asked t mx cs)) -> works t env cs s w.
Proof. intros. eapply (room_history t mx); eauto. Qed.
Lemma typed_brings t c : kind_of t = KSized -> modest t c -> typed t c -> brings (upto t (s_size t)) c.
Proof.
  intros K Mo T. assert (U : forall x, good t x -> upto t (s_size t) x) by (intros x G; split; auto; rewrite (vsize_sized t x K G); lia).
  assert (Us : forall xs, Forall (good t) xs -> Forall (upto t (s_size t)) xs) by (intros xs; apply Forall_impl; auto).
  destruct c; cbn [typed brings modest] in *; auto; try tauto.
  - destruct T. auto.
  - destruct T as [_ P]. apply Us. now apply producers_good.
  - intros x [G _]. apply U. now apply Mo.
  - destruct c; cbn [vtyped vbrings] in *; auto.
    + intros x [G _]. apply U. eapply alike_good; eauto.
    + destruct T. auto.
    + apply U, T.
    + apply U, T.
    + destruct T as [_ P]. apply Us. now apply producers_good.
    + intros x [G _]. apply U. eapply alike_good; eauto.
    + apply U. eapply coercible_good; eauto.
    + apply U. eapply coercible_good; eauto.
Qed.
Theorem C74_sized s a cs w : wf_ty (TSized s a) -> 0 < s -> alloc_total -> drops_quiet -> Forall (typed (TSized s a)) cs -> Forall (modest (TSized s a)) cs ->
  w_vecs w = [] -> (4 * fst (asked (TSized s a) s cs) + 16) * s <= isize_max - (a - 1) -> works (TSized s a) [] cs [] w.
Proof.
  intros Wt Hs At Dq Ty Mo V M. eapply (C74_history _ s cs [] [] w 0 0); auto using tracks_nil, all_of_nil; try lia.
  - intros _. exact Hs.
  - discriminate.
  - rewrite Forall_forall in *. intros c I. now apply (typed_brings (TSized s a)); auto.
  - apply sized_safe; auto. apply Forall_forall. intros c _. unfold calm. destruct c; auto. destruct c; auto.
  - unfold lowN, low. rewrite V. constructor.
  - intros [|k] l; discriminate.
Qed.
Theorem C74_aligned t mx cs w : wf_ty t -> kind_of t = KAligned -> alloc_total -> drops_quiet -> Forall (typed t) cs -> Forall (modest t) cs ->
  Forall front cs -> Forall (brings (not_huge t)) cs -> 0 <= mx -> Forall (brings (upto t mx)) cs -> w_vecs w = [] ->
  (4 * fst (asked t mx cs) + 16) * info_size t <= isize_max - 7 -> 2 * snd (asked t mx cs) <= isize_max - (static_align t - 1) -> works t [] cs [] w.
Proof.
  intros Wt K At Dq Ty Mo F B Hm Br V M1 M2. eapply (C74_history _ mx cs [] [] w 0 0); auto using tracks_nil, all_of_nil; try lia; try congruence.
  - apply easy_safe_run; auto using fronts_easy, all_of_nil.
  - unfold lowN, low. rewrite V. constructor.
  - intros [|k] l; discriminate.
  - unfold fits_memory. rewrite K. auto.
Qed.
End Theorems.
Print Assumptions C74_history.
Print Assumptions C74_sized.
Print Assumptions C74_aligned.

(** ** Concrete histories *)
Section Cases.
Local Existing Instance cfg_release.
Ltac run := vm_compute; reflexivity.
Ltac each := repeat (apply Forall_cons || apply Forall_nil).
(** Only the index 9 is refused. *)
Definition roomy_u32 : list op := [WithCapacity 20; On 0 (VPush (u32 7)); On 0 (VReserveCount 20); On 0 (VInsert 0 (u32 8)); On 0 (VTryReserve false 3 12 4);
  On 0 (VInsert 9 (u32 9)); On 0 (VExtend 2 [u32 1; u32 2]); On 0 (VShrink 0 0 1); Collect 5 [u32 3]; MoveLast 0 1; MoveAt 1 0 0 2; On 0 (VRemove 1); CloneOf 0 (fun x => x) (fun x => ret x); On 2 (VGet 1)].
Example C74_sized_case : wf_ty (TSized 4 4) /\ alloc_total /\ drops_quiet /\ Forall (typed (TSized 4 4)) roomy_u32 /\ Forall (modest (TSized 4 4)) roomy_u32 /\
  (4 * fst (asked (TSized 4 4) 4 roomy_u32) + 16) * 4 <= isize_max - (4 - 1) /\
  exists env w', exec (TSized 4 4) [] roomy_u32 empty_world =
    (Ok ([inl BUnit; inl BUnit; inl BUnit; inl BUnit; inl (BRes ROk); inr PBounds; inl BUnit; inl BUnit; inl BUnit; inl BUnit; inl BUnit; inl (BVal (u32 7)); inl BUnit; inl (BOpt (Some (u32 2)))], env), w').
Proof.
  split; [exact wf_u32|]. split; [exact release_total|]. split; [intros n; reflexivity|].
  split. { each; cbn [typed vtyped]; auto; try (apply goodb_ok; reflexivity); try lia; split; try lia; try reflexivity; try (eexists; apply copies_ret); each; apply goodb_ok; reflexivity. }
  split. { each; cbn [modest vmodest]; auto using copies_ret. intros _. vm_compute. discriminate. }
  split; [vm_compute; discriminate|]. do 2 eexists. run.
Qed.
Definition roomy_str : list op := [WithCapacityBytesAlign 5 20 2; On 0 (VPush ab); On 0 (VReserve false 9 20 1); On 0 (VInsert 0 cd); On 0 (VTryReserve true 3 12 1);
  On 0 (VInsertWith 9 ab); On 0 (VExtend 2 [ab; cd]); On 0 (VShrink 0 0 1); OfValues [ab]; MoveLast 0 1; MoveAt 1 0 0 2; On 0 (VRemove 1); On 0 (VGet 1)].
Example C74_aligned_case : wf_ty TStr /\ Forall (typed TStr) roomy_str /\ Forall (modest TStr) roomy_str /\ Forall front roomy_str /\ Forall (brings (not_huge TStr)) roomy_str /\ Forall (brings (upto TStr 2)) roomy_str /\
  (4 * fst (asked TStr 2 roomy_str) + 16) * info_size TStr <= isize_max - 7 /\ 2 * snd (asked TStr 2 roomy_str) <= isize_max - (static_align TStr - 1) /\
  exists env w', exec TStr [] roomy_str empty_world =
    (Ok ([inl BUnit; inl BUnit; inl BUnit; inl BUnit; inl (BRes ROk); inr PBounds; inl BUnit; inl BUnit; inl BUnit; inl BUnit; inl BUnit; inl (BVal ab); inl (BOpt (Some cd))], env), w').
Proof.
  split; [exact I|].
  split. { each; cbn [typed vtyped]; auto; try (apply goodb_ok; reflexivity); try lia; repeat split; try lia; try discriminate; each; apply goodb_ok; reflexivity. }
  split. { each; cbn [modest vmodest]; auto; discriminate. }
  split. { each; cbn [front vfront]; auto. }
  split. { each; cbn [brings vbrings]; auto; try (intros E; discriminate E); each; intros E; discriminate E. }
  split. { assert (U : forall x, goodb TStr x = true -> vsize TStr x <= 2 -> upto TStr 2 x) by (intros x G S; split; auto; now apply goodb_ok).
    each; cbn [brings vbrings]; auto; try (apply U; [reflexivity|vm_compute; discriminate]); each; apply U; (reflexivity || (vm_compute; discriminate)). }
  split; [vm_compute; discriminate|]. split; [vm_compute; discriminate|]. do 2 eexists. run.
Qed.
(** Beyond the address space the calls do fail: the bound is needed. *)
Example C74_room_case : fst (exec (TSized 4 4) [] [New false; On 0 (VReserveCount 4611686018427387904); On 0 (VTryReserveCount false 4611686018427387904)] empty_world) =
  Ok ([inl BUnit; inr PCapacity; inl (BRes (RErr CapacityOverflow))], [Some 0%nat]).
Proof. run. Qed.
End Cases.
