(** A common view of the three implementations: the capacities of a represented vector, and the reservation functions of
    src/lib.rs. *)
From Coq Require Import ZArith List Bool Lia.
From Verif Require Import Types World ValidSize Emplace SizedVec AlignedVec UnalignedVec Api Spec Bytes Arith Wp Mem Repr
  Access Reserve Realign.
Import ListNotations.
Open Scope Z_scope.
Open Scope m_scope.

Definition orep (t : ty) (self : nat) (l : list value) (o : obj) (d : list byte) (w : world) : Prop :=
  match o with
  | OS v => srep t self l v d w
  | OA v => arep t self l v d w
  | OU v => urep t self l v d w
  | ODead => False
  end.

Lemma repr_orep t self l w : repr t self l w <-> exists o d, orep t self l o d w.
Proof.
  unfold repr. split.
  - destruct (kind_of t); intros (v & d & R). exists (OS v), d; auto. exists (OA v), d; auto. exists (OU v), d; auto.
  - intros (o & d & R). destruct o; cbn in R; try tauto.
    + rewrite (sr_kind _ _ _ _ _ _ R). eauto.
    + rewrite (ar_kind _ _ _ _ _ _ R). eauto.
    + rewrite (ur_kind _ _ _ _ _ _ R). eauto.
Qed.
Lemma orep_repr t self l o d w : orep t self l o d w -> repr t self l w.
Proof. intros. apply repr_orep. eauto. Qed.

(** Capacity, byte capacity, alignment, padding, buffer pointer. *)
Definition o_cap (t : ty) (o : obj) : Z :=
  match o with OS v => s_capacity t v | OA v => av_icap v | OU v => uv_icap v | ODead => 0 end.
Definition o_bcap (t : ty) (o : obj) : Z :=
  match o with OS v => sv_cap v * s_size t | OA v => av_bcap v | OU v => uv_bcap v | ODead => 0 end.
Definition o_al (t : ty) (o : obj) : Z :=
  match o with OS v => s_align t | OA v => static_align t | OU v => uv_align v | ODead => 1 end.
Definition o_pal (o : obj) : Z :=
  match o with OU v => uv_align v | _ => 1 end.
Definition o_ptr (o : obj) : ptr :=
  match o with OS v => sv_ptr v | OA v => av_ptr v | OU v => uv_ptr v | ODead => null end.
(** The used bytes. *)
Definition o_blen (t : ty) (o : obj) (l : list value) : Z := plen t (o_pal o) l.

(** Reduce the accessors on a known object. *)
Ltac ocbn := cbn [orep o_cap o_bcap o_al o_pal o_ptr o_blen].
Tactic Notation "ocbn" "in" "*" := cbn [orep o_cap o_bcap o_al o_pal o_ptr o_blen] in *.

Section WithConfig.
Context {C : Config}.

Lemma orep_obj t self l o d w : orep t self l o d w -> nth_error (w_vecs w) self = Some o.
Proof. destruct o; ocbn; intros R; try tauto; apply R. Qed.
Lemma orep_good t self l o d w : orep t self l o d w -> Forall (good t) l.
Proof. destruct o; ocbn; intros R; try tauto; apply R. Qed.
Lemma orep_wf t self l o d w : orep t self l o d w -> wf_ty t.
Proof. destruct o; ocbn; intros R; try tauto; apply R. Qed.
Lemma orep_buf t self l o d w : orep t self l o d w -> buf (w_heap w) (o_ptr o) (o_al t o) (o_bcap t o) d.
Proof. destruct o; ocbn; intros R; try tauto; apply R. Qed.
Lemma orep_pal t self l o d w : orep t self l o d w -> pow2 (o_pal o).
Proof. destruct o; ocbn; intros R; try tauto; try apply pow2_1; apply R. Qed.
Lemma orep_al t self l o d w : orep t self l o d w -> pow2 (o_al t o).
Proof.
  destruct o; ocbn; intros R; try tauto; destruct R; auto. now apply s_align_pow2. now apply static_align_pow2.
Qed.
Lemma orep_data t self l o d w : orep t self l o d w -> contents t (o_pal o) 0 l d.
Proof. destruct o; ocbn; intros R; try tauto; apply R. Qed.
Lemma orep_fit t self l o d w : orep t self l o d w -> o_blen t o l <= o_bcap t o.
Proof.
  destruct o; ocbn; intros R; try tauto; try apply R. unfold o_blen; cbn.
  rewrite plen_sized; try apply R. eapply s_fit; eauto.
Qed.
Lemma orep_bcap t self l o d w : orep t self l o d w -> 0 <= o_bcap t o <= isize_max - (o_al t o - 1).
Proof.
  intros R. split. eapply buf_nonneg, orep_buf, R. destruct o; ocbn in *; try tauto; apply R.
Qed.
Lemma orep_bcap_max t self l o d w : orep t self l o d w -> 0 <= o_bcap t o <= isize_max.
Proof.
  intros R. pose proof (orep_bcap _ _ _ _ _ _ R). pose proof (pow2_pos _ (orep_al _ _ _ _ _ _ R)). lia.
Qed.
Lemma orep_len t self l o d w : orep t self l o d w -> zlen l <= o_cap t o.
Proof. destruct o; ocbn; intros R; try tauto; apply R. Qed.
Lemma orep_blen_nonneg t self l o d w : orep t self l o d w -> 0 <= o_blen t o l.
Proof.
  intros R. apply plen_nonneg. apply pow2_pos; eapply orep_pal; eauto. eapply orep_good; eauto.
Qed.
Lemma orep_owned t self l o d w : orep t self l o d w -> owned_block w self = ptr_block (o_ptr o).
Proof.
  intros R. unfold owned_block. rewrite (orep_obj _ _ _ _ _ _ R). destruct o; ocbn in *; try tauto; reflexivity.
Qed.

(** The queries of the API. *)
Lemma v_capacity_eq t self l o d w : orep t self l o d w -> v_capacity t self w = (Ok (o_cap t o), w).
Proof.
  destruct o; cbn [orep]; intros R; try tauto; unfold v_capacity.
  - rewrite (sr_kind _ _ _ _ _ _ R). erewrite bind_eq by (eapply get_s_eq, R). reflexivity.
  - rewrite (ar_kind _ _ _ _ _ _ R). erewrite bind_eq by (eapply get_a_eq, R). reflexivity.
  - rewrite (ur_kind _ _ _ _ _ _ R). erewrite bind_eq by (eapply get_u_eq, R). reflexivity.
Qed.
Lemma v_byte_capacity_eq t self l o d w : orep t self l o d w -> v_byte_capacity t self w = (Ok (o_bcap t o), w).
Proof.
  destruct o; cbn [orep]; intros R; try tauto; unfold v_byte_capacity.
  - rewrite (sr_kind _ _ _ _ _ _ R). erewrite bind_eq by (eapply get_s_eq, R).
    unfold s_byte_capacity, s_capacity, o_bcap. destruct R.
    pose proof (pow2_pos _ (s_align_pow2 _ sr_kind sr_wf)).
    destruct (Z.eqb_spec (s_size t) 0) as [E|E].
    + rewrite E. rewrite !Z.mul_0_r. apply umul_eq. lia.
    + apply umul_eq. lia.
  - rewrite (ar_kind _ _ _ _ _ _ R). erewrite bind_eq by (eapply get_a_eq, R). reflexivity.
  - rewrite (ur_kind _ _ _ _ _ _ R). erewrite bind_eq by (eapply get_u_eq, R). reflexivity.
Qed.
Lemma v_align_eq t self l o d w : orep t self l o d w -> v_align t self w = (Ok (o_al t o), w).
Proof.
  destruct o; cbn [orep]; intros R; try tauto; unfold v_align.
  - rewrite (sr_kind _ _ _ _ _ _ R). erewrite bind_eq by (eapply get_s_eq, R). reflexivity.
  - rewrite (ar_kind _ _ _ _ _ _ R). erewrite bind_eq by (eapply get_a_eq, R). reflexivity.
  - rewrite (ur_kind _ _ _ _ _ _ R). erewrite bind_eq by (eapply get_u_eq, R). reflexivity.
Qed.
Lemma v_byte_len_eq t self l o d w : orep t self l o d w -> v_byte_len t self w = (Ok (o_blen t o l), w).
Proof.
  intros R0. pose proof (orep_fit _ _ _ _ _ _ R0) as F. pose proof (orep_bcap_max _ _ _ _ _ _ R0) as B.
  revert R0 F B. destruct o; cbn [orep]; intros R F B; try tauto; unfold v_byte_len.
  - rewrite (sr_kind _ _ _ _ _ _ R). erewrite bind_eq by (eapply get_s_eq, R).
    unfold s_byte_len, o_blen in *. cbn [o_pal o_bcap] in *. destruct R. rewrite sr_slen.
    rewrite plen_sized in * by auto. apply umul_eq. lia.
  - rewrite (ar_kind _ _ _ _ _ _ R). erewrite bind_eq by (eapply get_a_eq, R). unfold ret, a_byte_len.
    rewrite (ar_infos _ _ _ _ _ _ R), last_end_infos. unfold o_blen; cbn [o_pal].
    rewrite <- (pad_ulen t 1) by lia. now rewrite pad_1.
  - rewrite (ur_kind _ _ _ _ _ _ R). erewrite bind_eq by (eapply get_u_eq, R). eapply u_byte_len_eq; eauto.
Qed.
Lemma unused_eq t self l o d w : orep t self l o d w ->
  unused_byte_cap t self w = (Ok (o_bcap t o - o_blen t o l), w).
Proof.
  intros R. unfold unused_byte_cap. erewrite bind_eq by (eapply v_byte_capacity_eq; eauto).
  erewrite bind_eq by (eapply v_byte_len_eq; eauto). apply usub_eq. eapply orep_fit; eauto.
Qed.

(** Element sizes for which the Sized implementation works: std's [Vec] of a zero-sized type has no bytes to divide by. *)
Definition nzst (t : ty) : Prop := kind_of t = KSized -> 0 < s_size t.

(** When a request overflows: for the element count, and for the bytes. *)
Definition count_overflow (t : ty) (o : obj) (len n : Z) (exact : bool) : Prop :=
  match kind_of t with
  | KSized => isize_max - (s_align t - 1) < want_cap (s_size t) (o_cap t o) len n exact * s_size t
              \/ usize_max < len + n
  | _ => isize_max - 7 < want_cap (info_size t) (o_cap t o) len n exact * info_size t
  end.

Lemma p_try_reserve_wp t self l o d w n exact :
  orep t self l o d w -> 0 <= n ->
  run (p_try_reserve t self n exact) w
    (fun r w' => exists o' d', orep t self l o' d' w' /\ quiet self w w' /\
       o_cap t o <= o_cap t o' /\ o_bcap t o <= o_bcap t o' /\ o_al t o' = o_al t o /\ o_pal o' = o_pal o /\
       (kind_of t <> KSized \/ r <> ROk -> o_bcap t o' = o_bcap t o /\ w_moved w' = w_moved w /\ w_heap w' = w_heap w) /\
       (zlen l + n <= o_cap t o -> r = ROk /\ w' = w) /\
       (kind_of t = KSized -> o_cap t o < zlen l + n -> r = ROk ->
          o_bcap t o' = want_cap (s_size t) (o_cap t o) (zlen l) n exact * s_size t /\
          w_moved w' = w_moved w + o_bcap t o) /\
       match r with
       | ROk => zlen l + n <= o_cap t o'
       | RErr CapacityOverflow => w' = w /\ count_overflow t o (zlen l) n exact
       | RErr AllocError => alloc_failed w w'
       end) (fun _ _ => False) (fun _ => False).
Proof.
  intros R N. unfold p_try_reserve, count_overflow. destruct o; cbn [orep] in R; try tauto.
  - rewrite (sr_kind _ _ _ _ _ _ R). eapply run_conseq. { eapply s_reserve_wp; eauto. } all: auto. cbv beta.
    intros r w' (v' & d' & R' & Q & Ge & Noop & Gr & Res). exists (OS v'), d'.
    assert (Z0 : 0 <= s_size t) by (apply s_size_nonneg; apply R).
    ocbn. ands; auto.
    + unfold s_capacity. destruct (s_size t =? 0); lia.
    + nia.
    + intros [?|Nr]; [congruence|]. destruct r as [|[]]; [congruence| |].
      * destruct Res as [-> _]. assert (v' = v); [|subst; auto]. pose proof (sr_obj _ _ _ _ _ _ R). pose proof (sr_obj _ _ _ _ _ _ R'). congruence.
      * destruct Res as (-> & _ & ->). auto.
    + intros L; destruct (Noop L) as (A & B & D); auto.
    + intros _ L E. destruct (Gr L E) as [A B]. split; auto. rewrite A. unfold s_capacity in *.
      destruct (Z.eqb_spec (s_size t) 0) as [E0|E0]; [rewrite E0; lia|reflexivity].
    + destruct r as [|[]]; auto.
      * destruct Res as [A B]. split; auto. unfold s_capacity. destruct (Z.eqb_spec (s_size t) 0); auto.
      * now destruct Res as (_ & A & _).
  - assert (NK : kind_of t = KSized -> False) by (rewrite (ar_kind _ _ _ _ _ _ R); discriminate).
    rewrite (ar_kind _ _ _ _ _ _ R). eapply run_conseq. { eapply a_reserve_wp; eauto. } all: auto. cbv beta.
    intros r w' (v' & R' & Q & Mv & Hp & Ep & Eb & Ge & Noop & Res). exists (OA v'), d.
    ocbn. rewrite Eb. ands; auto; try lia; try discriminate.
  - rewrite (ur_kind _ _ _ _ _ _ R). eapply run_conseq. { eapply u_reserve_wp; eauto. } all: auto. cbv beta.
    intros r w' (v' & R' & Q & Mv & Hp & Ep & Eb & Ea & Ge & Noop & Res). exists (OU v'), d.
    ocbn. rewrite Eb, Ea. ands; auto; try lia; try discriminate.
Qed.

Lemma run_and {A} (m : M A) w Q1 P1 A1 Q2 P2 A2 : run m w Q1 P1 A1 -> run m w Q2 P2 A2 ->
  run m w (fun a w' => Q1 a w' /\ Q2 a w') (fun r w' => P1 r w' /\ P2 r w') (fun w' => A1 w' /\ A2 w').
Proof. unfold run. destruct (m w) as [[] w']; auto. Qed.

(** Bytes per entry of the array that bounds [capacity()]: the elements themselves for Sized types, else (end, metadata). *)
Definition slot_size (t : ty) : Z := match t with TSized s _ => s | _ => info_size t end.
Lemma p_try_reserve_cap t self l o d w n exact : orep t self l o d w -> 0 <= n -> nzst t ->
  run (p_try_reserve t self n exact) w
    (fun r w' => r = ROk -> o_cap t o < zlen l + n ->
       exists o', nth_error (w_vecs w') self = Some o' /\ o_cap t o' = want_cap (slot_size t) (o_cap t o) (zlen l) n exact)
    (fun _ _ => True) (fun _ => True).
Proof.
  intros R Hn Nz.
  assert (IR : forall icap len w0, run (infos_reserve t icap len n exact) w0
    (fun '(r, c) w1 => w_vecs w1 = w_vecs w0 /\ (r = ROk -> icap < len + n -> c = want_cap (info_size t) icap len n exact)) (fun _ _ => True) (fun _ => True)).
  { intros icap len w0. unfold infos_reserve, needs_to_grow. pose proof (info_size_range t) as IS. destruct (Z.ltb_spec (icap - len) n) as [L|L].
    - destruct (grow_cap (info_size t) 8 icap len n exact) as [c|] eqn:E; [|apply run_ret; split; [auto|discriminate]].
      unfold run, bind, ask_alloc, ret. destruct (cfg_alloc (w_nalloc w0)); cbv beta iota; split; auto; [|discriminate]. intros _ L'.
      apply grow_cap_some in E; [tauto|lia].
    - apply run_ret. split; auto. lia. }
  destruct o as [v|v|v|]; pose proof R as R0; cbn [orep] in R; try contradiction.
  - pose proof (sr_kind _ _ _ _ _ _ R) as K. specialize (Nz K).
    eapply run_conseq; [eapply p_try_reserve_wp; eauto|..]; cbv beta; auto.
    intros r w' (o' & d' & R' & _ & _ & _ & _ & _ & _ & _ & Gr & _) -> L. exists o'. split; [eapply orep_obj; eauto|].
    destruct (Gr K L eq_refl) as [E _]. destruct o' as [v'|v'|v'|]; cbn [orep] in R'; try contradiction; try (destruct R'; congruence).
    ocbn in *. assert (EC : forall u, s_capacity t u = sv_cap u). { intros u; unfold s_capacity. destruct (Z.eqb_spec (s_size t) 0); lia. }
    rewrite !EC in *. assert (ES : slot_size t = s_size t) by (destruct t; try discriminate K; reflexivity). rewrite ES. nia.
  - pose proof (ar_kind _ _ _ _ _ _ R) as K. unfold p_try_reserve. rewrite K. unfold a_reserve.
    eapply run_eq. { eapply get_a_eq, R. } apply run_bind. eapply run_conseq; [apply IR|..]; cbv beta; auto.
    intros [r c] w1 [Ev H]. unfold set_obj. eapply run_eq; [reflexivity|]. apply run_ret. intros -> L.
    eexists. split; [proj; apply upd_same; rewrite Ev; eapply nth_error_lt, (orep_obj _ _ _ _ _ _ R0)|].
    ocbn in *. rewrite (ar_infos _ _ _ _ _ _ R), infos_of_zlen in H. rewrite H by auto. destruct t; try discriminate K; reflexivity.
  - pose proof (ur_kind _ _ _ _ _ _ R) as K. unfold p_try_reserve. rewrite K. unfold u_reserve.
    eapply run_eq. { eapply get_u_eq, R. } apply run_bind. eapply run_conseq; [apply IR|..]; cbv beta; auto.
    intros [r c] w1 [Ev H]. unfold set_obj. eapply run_eq; [reflexivity|]. apply run_ret. intros -> L.
    eexists. split; [proj; apply upd_same; rewrite Ev; eapply nth_error_lt, (orep_obj _ _ _ _ _ _ R0)|].
    ocbn in *. rewrite (ur_infos _ _ _ _ _ _ R), infos_of_zlen in H. rewrite H by auto. destruct t; try discriminate K; reflexivity.
Qed.

(** The byte half, for the unsized kinds. *)
Lemma p_try_reserve_bytes_wp t self l o d w n a :
  orep t self l o d w -> 0 <= n -> nzst t -> (kind_of t = KUnaligned -> pow2 a) ->
  let al' := match kind_of t with KUnaligned => Z.max (o_al t o) a | _ => o_al t o end in
  run (p_try_reserve_bytes_align t self n a) w
    (fun r w' => exists o' d', orep t self l o' d' w' /\ quiet self w w' /\
       o_cap t o <= o_cap t o' /\ (kind_of t <> KSized -> o_cap t o' = o_cap t o) /\
       (n = 0 -> (kind_of t = KUnaligned -> a <= o_al t o) -> r = ROk /\ w' = w) /\
       match r with
       | ROk => (o_al t o' = al' \/ kind_of t = KUnaligned /\ o_al t o' = o_al t o /\ o_bcap t o' = 0 /\ n = 0) /\
                (kind_of t <> KSized \/ n = 0 -> o_bcap t o - o_blen t o l + n <= o_bcap t o' - o_blen t o' l) /\
                (kind_of t = KAligned -> o_bcap t o' = o_bcap t o + n) /\
                (kind_of t = KUnaligned ->
                   o_bcap t o' <= plen t al' l + (o_bcap t o - o_blen t o l) + n + 2 * (al' - 1)) /\
                (kind_of t <> KSized -> w_moved w' <= w_moved w + o_bcap t o /\ (o_bcap t o < o_bcap t o' -> w_moved w' = w_moved w + o_bcap t o)) /\
                o_bcap t o <= o_bcap t o'
       | RErr CapacityOverflow => w' = w /\ (kind_of t <> KSized -> o' = o) /\
           match kind_of t with
           | KAligned => isize_max - (o_al t o - 1) < o_bcap t o + n
           | KUnaligned => isize_max < plen t al' l + (o_bcap t o - o_blen t o l) + n + 2 * (al' - 1)
           | KSized => isize_max - (o_al t o - 1) < zlen l * s_size t + n + o_cap t o + s_size t
           end
       | RErr AllocError => o' = o /\ alloc_failed w w' /\ (kind_of t <> KSized -> w' = bump_alloc w)
       end) (fun _ _ => False) (fun _ => False).
Proof.
  intros R N Nz A. unfold p_try_reserve_bytes_align. pose proof (orep_bcap _ _ _ _ _ _ R) as Bc.
  destruct o; cbn [orep] in R; try tauto.
  - pose proof (sr_kind _ _ _ _ _ _ R) as K. rewrite K in *. unfold nzst in Nz. rewrite K in Nz. specialize (Nz eq_refl).
    eapply run_conseq. { eapply s_try_reserve_bytes_wp; eauto. } all: auto. cbv beta.
    intros r w' (v' & d' & R' & Q & Ge & Noop & Res). exists (OS v'), d'.
    assert (EC : forall v, s_capacity t v = sv_cap v).
    { intros u; unfold s_capacity. destruct (Z.eqb_spec (s_size t) 0); lia. }
    ocbn. rewrite !EC. ands; auto; try congruence.
    + intros E _. now destruct (Noop E).
    + destruct r as [|[]].
      * ands; auto; try congruence. { intros [H|H]; [congruence|]. unfold o_blen; cbn [o_pal]. nia. } nia.
      * destruct Res as [-> Ov]. ands; auto; try congruence; lia.
      * destruct Res as [-> F]. ands; auto; congruence.
  - pose proof (ar_kind _ _ _ _ _ _ R) as K. rewrite K in *.
    eapply run_conseq. { eapply a_try_reserve_bytes_wp; eauto. } all: auto. cbv beta.
    intros r w' (v' & d' & R' & Q & Ec & Noop & Res). exists (OA v'), d'.
    ocbn in *. ands; auto; try lia.
    + intros E _. specialize (Noop E). subst w'. destruct r as [|[]]; auto.
      * exfalso. destruct Res as [_ Res]. lia.
      * exfalso. destruct Res as (_ & (k & Hk & _) & _). lia.
    + destruct r as [|[]].
      * destruct Res as [Eb Mv]. unfold o_blen; cbn [o_pal]. ands; auto; try discriminate; try lia.
        intros _. rewrite Mv. destruct (Z.ltb_spec 0 n); split; lia.
      * destruct Res as [-> Ov]. ands; auto. intros _. f_equal.
        pose proof (ar_obj _ _ _ _ _ _ R). pose proof (ar_obj _ _ _ _ _ _ R'). congruence.
      * destruct Res as (-> & F & E). ands; auto.
  - pose proof (ur_kind _ _ _ _ _ _ R) as K. rewrite K in *.
    eapply run_conseq. { eapply u_try_reserve_bytes_align_wp; eauto. } all: auto. cbv beta.
    intros r w' (v' & d' & R' & Q & Ec & Noop & Res). exists (OU v'), d'.
    ocbn in *. ands; auto; try lia; try (now apply Noop).
    + destruct r as [|[]].
      * destruct Res as (E1 & E2 & E3 & E4 & E5). unfold o_blen; cbn [o_pal]. ands; auto; try discriminate; try tauto.
        assert (plen t (uv_align v) l <= plen t (uv_align v') l); [|lia].
        apply plen_le; try apply R; try apply R'. destruct E1 as [-> | (-> & _)]; lia.
      * destruct Res as (-> & -> & Ov). ands; auto.
      * destruct Res as (-> & F & E). ands; auto.
Qed.

(** ** [try_reserve_capacity_bytes_align] *)

Definition req_al (t : ty) (o : obj) (a : Z) : Z :=
  match kind_of t with KUnaligned => Z.max (o_al t o) a | _ => o_al t o end.

(** The padding of the elements after the request. *)
Definition req_pal (t : ty) (o : obj) (a : Z) : Z :=
  match kind_of t with KUnaligned => Z.max (o_al t o) a | _ => 1 end.

(** The request does not fit in [isize::MAX] bytes at the new alignment. For unaligned types each of the two roundings of
    the code can cost up to one alignment. For [Sized] types this happens only when more bytes are asked for than the
    elements need. *)
Definition bytes_overflow (t : ty) (o : obj) (l : list value) (n b a : Z) : Prop :=
  match kind_of t with
  | KSized => n * s_size t < b
  | KAligned => isize_max - (o_al t o - 1) < o_blen t o l + b
  | KUnaligned => isize_max < plen t (req_al t o a) l + Z.max b (o_bcap t o - o_blen t o l) + 2 * (req_al t o a - 1)
  end.

(** How the byte buffer grew (unsized kinds). *)
Definition growth (t : ty) (l : list value) (b a : Z) (o o' : obj) (w w' : world) : Prop :=
  o_bcap t o <= o_bcap t o' /\
  w_moved w' <= w_moved w + o_bcap t o /\
  (o_blen t o l + b <= o_bcap t o -> req_al t o a = o_al t o -> o_bcap t o' = o_bcap t o /\ w_moved w' = w_moved w) /\
  (o_bcap t o < o_blen t o l + b ->
     2 * o_bcap t o <= o_bcap t o' \/ alloc_failed w w' \/
     isize_max - (req_al t o a - 1) < plen t (req_pal t o a) l + (o_bcap t o - o_blen t o l) + o_bcap t o
                                     + 2 * (req_pal t o a - 1)) /\
  o_bcap t o' <= plen t (req_pal t o a) l + Z.max b (o_bcap t o - o_blen t o l
                   + (if o_bcap t o <? o_blen t o l + b then o_bcap t o else 0)) + 2 * (req_pal t o a - 1) /\
  (o_bcap t o < o_bcap t o' -> w_moved w' = w_moved w + o_bcap t o).

Lemma to_align_eq t a w : (kind_of t = KUnaligned -> pow2 a) ->
  exists a', to_align t a w = (Ok a', w) /\ (kind_of t = KUnaligned -> a' = a).
Proof.
  intros A. unfold to_align. destruct (kind_of t).
  - exists 1; split; [reflexivity|discriminate].
  - exists 1; split; [reflexivity|discriminate].
  - exists a. unfold valid_align_new. rewrite is_power_of_two_pow2 by auto. split; auto.
Qed.
Lemma req_al_ext t o a a' : (kind_of t = KUnaligned -> a' = a) -> req_al t o a' = req_al t o a.
Proof. unfold req_al. destruct (kind_of t); auto. intros H; now rewrite H. Qed.
Lemma o_al_pal t self l o d w : orep t self l o d w -> kind_of t <> KSized ->
  kind_of t = KAligned /\ o_pal o = 1 \/ kind_of t = KUnaligned /\ o_pal o = o_al t o.
Proof.
  intros R K. destruct o; ocbn in *; try tauto.
  - now destruct K; apply (sr_kind _ _ _ _ _ _ R).
  - left; split; auto. apply R.
  - right; split; auto. apply R.
Qed.

(** What a panic or an error of the reservation means. *)
Definition reserve_fails (t : ty) (o : obj) (l : list value) (n b a : Z) (w w' : world) : Prop :=
  count_overflow t o (zlen l) n false \/ bytes_overflow t o l n b a \/ alloc_failed w w'.

Definition sized_request (t : ty) (n b : Z) : Prop := kind_of t = KSized -> b <= n * s_size t.

Definition reserve_post (t : ty) (self : nat) (l : list value) (o : obj) (n b a : Z) (w : world) (r : rres) (w' : world) : Prop :=
  exists o' d', orep t self l o' d' w' /\ quiet self w w' /\
    o_cap t o <= o_cap t o' /\
    (zlen l + n <= o_cap t o -> o_blen t o l + b <= o_bcap t o -> req_al t o a = o_al t o -> r = ROk /\ w' = w) /\
    match r with
    | ROk => zlen l + n <= o_cap t o' /\
             (sized_request t n b -> o_blen t o' l + b <= o_bcap t o') /\
             (o_al t o' = req_al t o a \/ kind_of t = KUnaligned /\ o_al t o' = o_al t o /\ o_bcap t o' = 0 /\ b = 0) /\
             (kind_of t <> KSized -> growth t l b a o o' w w' /\
                (o_cap t o' = o_cap t o \/ o_cap t o < zlen l + n /\ o_cap t o' = want_cap (info_size t) (o_cap t o) (zlen l) n false)) /\
             (kind_of t = KSized -> b <= n * s_size t ->
                w' = w \/ o_cap t o < zlen l + n /\
                          o_bcap t o' = want_cap (s_size t) (o_cap t o) (zlen l) n false * s_size t /\
                          w_moved w' = w_moved w + o_bcap t o)
    | RErr e =>
        match e with
        | CapacityOverflow => count_overflow t o (zlen l) n false \/ bytes_overflow t o l n b a
        | AllocError => alloc_failed w w'
        end /\
        (sized_request t n b -> w_heap w' = w_heap w /\ o_pal o' = o_pal o /\ o_bcap t o' = o_bcap t o)
    end.
(** Only a debug assertion can fail, and only when the request could not be satisfied. *)
Definition reserve_panic (t : ty) (self : nat) (l : list value) (o : obj) (n b a : Z) (w : world) (r : panic_reason) (w' : world) : Prop :=
  r = PDebugAssert /\ cfg_debug = true /\ repr t self l w' /\ quiet self w w' /\
  (sized_request t n b -> reserve_fails t o l n b a w w').

Lemma v_try_reserve_cba_wp t self l o d w n b a :
  orep t self l o d w -> 0 <= n -> 0 <= b -> nzst t -> (kind_of t = KUnaligned -> pow2 a) ->
  run (v_try_reserve_capacity_bytes_align t self n b a) w
    (reserve_post t self l o n b a w)
    (reserve_panic t self l o n b a w)
    (fun _ => False).
Proof.
  intros R N B Nz A. unfold v_try_reserve_capacity_bytes_align, v_try_reserve. apply run_bind.
  pose proof (orep_fit _ _ _ _ _ _ R) as Fit. pose proof (orep_blen_nonneg _ _ _ _ _ _ R) as Bl0.
  eapply run_conseq. { apply run_and; [eapply p_try_reserve_wp with (exact := false); eauto|eapply p_try_reserve_cap with (exact := false); eauto]. } all: cbv beta; try (intros; tauto).
  intros r w1 ((o1 & d1 & R1 & Q1 & Ge1 & Gb1 & Ea1 & Ep1 & Un1 & Noop1 & Gr1 & Res1) & Cp1).
  assert (Cw : r = ROk -> kind_of t <> KSized -> o_cap t o1 = o_cap t o \/ o_cap t o < zlen l + n /\ o_cap t o1 = want_cap (info_size t) (o_cap t o) (zlen l) n false).
  { intros -> K. destruct (Z.lt_ge_cases (o_cap t o) (zlen l + n)) as [L|L].
    - destruct (Cp1 eq_refl L) as (o' & E & Ec). rewrite (orep_obj _ _ _ _ _ _ R1) in E. injection E as <-.
      replace (info_size t) with (slot_size t) by (destruct t; try reflexivity; now destruct K). auto.
    - destruct (Noop1 L) as [_ ->]. pose proof (orep_obj _ _ _ _ _ _ R). pose proof (orep_obj _ _ _ _ _ _ R1).
      assert (o1 = o) as -> by congruence. auto. }
  clear Cp1.
  pose proof (quiet_nalloc _ _ _ Q1) as Na1.
  destruct r as [|e].
  2:{ apply run_ret. exists o1, d1. ands; auto.
      - destruct e; [|auto]. left; apply Res1.
      - intros _. destruct (Un1 ltac:(right; discriminate)) as (U1 & _ & U3). auto. }
  specialize (Cw eq_refl).
  assert (EL : o_blen t o1 l = o_blen t o l) by (unfold o_blen; now rewrite Ep1).
  eapply run_eq. { eapply v_capacity_eq; eauto. }
  eapply run_eq. { eapply v_len_eq, orep_repr; eauto. }
  eapply run_eq. { apply dassert_eq. apply Z.leb_le. lia. }
  destruct (to_align_eq t a w1 A) as (a' & TA & EA).
  eapply run_eq. { exact TA. }
  eapply run_eq. { eapply v_byte_capacity_eq; eauto. }
  eapply run_eq. { eapply unused_eq; eauto. }
  assert (A' : kind_of t = KUnaligned -> pow2 a') by (intros K; rewrite EA by auto; auto).
  assert (RA1 : req_al t o1 a' = req_al t o a).
  { rewrite (req_al_ext t o1 a a' EA). unfold req_al. now rewrite Ea1. }
  pose proof (orep_fit _ _ _ _ _ _ R1) as Fit1.
  set (un := o_bcap t o1 - o_blen t o1 l) in *.
  set (needed := sat_sub b un) in *.
  assert (Hn : needed = Z.max 0 (b - un)) by reflexivity.
  (* for Sized requests of whole elements the first step was enough *)
  assert (SN : kind_of t = KSized -> b <= n * s_size t -> needed = 0).
  { intros K L. specialize (Nz K). destruct o1; ocbn in *; try contradiction; try (destruct R1; congruence).
    rewrite Hn. unfold un, o_blen. ocbn. rewrite plen_sized; try apply R1.
    unfold s_capacity in Res1. destruct (Z.eqb_spec (s_size t) 0); [lia|]. nia. }
  assert (KB : kind_of t <> KSized -> o_bcap t o1 = o_bcap t o) by (intros K; apply Un1; auto).
  assert (KM : kind_of t <> KSized -> w_moved w1 = w_moved w) by (intros K; apply Un1; auto).
  (* the last attempt, from any world in which nothing relevant changed *)
  assert (FIN : forall w2 d2, orep t self l o1 d2 w2 -> quiet self w1 w2 -> (needed = 0 -> w2 = w1) ->
      w_moved w2 = w_moved w1 \/ kind_of t = KSized ->
      (kind_of t <> KSized -> w_heap w2 = w_heap w1) ->
      (kind_of t <> KSized -> o_bcap t o < o_blen t o l + b -> needed < o_bcap t o1 ->
         alloc_failed w1 w2 \/
         isize_max - (req_al t o a - 1) < plen t (req_pal t o a) l + (o_bcap t o - o_blen t o l) + o_bcap t o
                                     + 2 * (req_pal t o a - 1)) ->
    run (r <- p_try_reserve_bytes_align t self needed a' ;;
         (if cfg_debug then
            bc <- v_byte_capacity t self ;; bl <- v_byte_len t self ;; dassert (bl + b <=? bc)
          else ret tt) ;; ret r) w2
    (reserve_post t self l o n b a w)
    (reserve_panic t self l o n b a w)
    (fun _ => False)).
  { intros w2 d2 R2 Q2 W2 M2 Hp2 Opt. apply run_bind.
    eapply run_conseq. { eapply p_try_reserve_bytes_wp with (a := a'); eauto. lia. } all: cbv beta; try (intros; contradiction).
    fold (req_al t o1 a'). rewrite RA1. fold un.
    intros r w3 (o3 & d3 & R3 & Q3 & Ge3 & Ec3 & Noop3 & Res3).
    assert (Q : quiet self w w3) by (eapply quiet_trans; [eauto|]; eapply quiet_trans; eauto).
    pose proof (quiet_nalloc _ _ _ Q2) as Na2. pose proof (quiet_nalloc _ _ _ Q3) as Na3.
    (* after a successful step the bytes suffice *)
    assert (BOK : r = ROk -> sized_request t n b -> o_blen t o3 l + b <= o_bcap t o3).
    { intros -> SR. destruct Res3 as (_ & U & _).
      assert (un + needed <= o_bcap t o3 - o_blen t o3 l).
      { apply U. destruct (kind_of t) eqn:K; try (left; discriminate). right; apply SN; auto. }
      lia. }
    assert (OVB : r = RErr CapacityOverflow -> bytes_overflow t o l n b a).
    { intros ->. unfold bytes_overflow. destruct Res3 as (_ & _ & Ov).
        destruct (kind_of t) eqn:K; auto.
        + destruct (Z_lt_ge_dec (n * s_size t) b) as [|L]; auto. exfalso.
          assert (E0 : needed = 0) by (apply SN; auto; lia). destruct Noop3 as [E3 _]; auto; [intros K'; congruence|discriminate].
        + rewrite Ea1, KB in Ov by discriminate. unfold un in Hn. rewrite EL, KB in Hn by discriminate.
          pose proof (orep_bcap _ _ _ _ _ _ R) as BB. lia.
        + unfold un in *. rewrite EL, KB in * by discriminate. lia. }
    assert (OVF : r <> ROk -> reserve_fails t o l n b a w w3).
    { intros NR. unfold reserve_fails. destruct r as [|[]]; [congruence|auto|].
      right; right. eapply alloc_failed_l; [|apply Res3]. lia. }
    assert (MAIN : reserve_post t self l o n b a w r w3).
    { exists o3, d3. ands; auto; try lia.
      - intros L1 L2 L3. destruct (Noop1 L1) as [_ W1].
        assert (E0 : needed = 0) by (subst w1; unfold un in *; rewrite EL in *; lia).
        destruct Noop3 as [E3 E4]; auto.
        { intros K. rewrite Ea1. unfold req_al in L3. rewrite K in L3. rewrite EA by auto. lia. }
        split; auto. rewrite E4, W2, W1; auto.
      - destruct r as [|e].
        + destruct Res3 as (Al3 & U3 & EqA & UbU & Mv3 & Mono3). ands; auto; try lia.
          * destruct Al3 as [Al3|(K & H1 & H2 & H3)]; auto. right. ands; auto; try congruence.
            assert (H4 : un + needed <= o_bcap t o3 - o_blen t o3 l) by (apply U3; right; auto).
            pose proof (orep_blen_nonneg _ _ _ _ _ _ R3). lia.
          * intros K. split; [|specialize (Cw K); specialize (Ec3 K); rewrite Ec3; auto]. unfold growth. specialize (KB K). specialize (KM K). specialize (Mv3 K).
            assert (M2' : w_moved w2 = w_moved w1) by tauto.
            assert (Eun : un = o_bcap t o - o_blen t o l) by (unfold un; lia).
            assert (UP : o_bcap t o3 <= plen t (req_pal t o a) l + un + needed + 2 * (req_pal t o a - 1)).
            { destruct (o_al_pal _ _ _ _ _ _ R K) as [[K' P1]|[K' P1]].
              - rewrite (EqA K'), KB. unfold o_blen in Eun. rewrite P1 in Eun.
                unfold req_pal. rewrite K'. lia.
              - unfold req_pal. unfold req_al in UbU. rewrite K' in *. auto. }
            ands.
            -- lia.
            -- lia.
            -- intros L1 L2. assert (E0 : needed = 0) by lia.
               destruct Noop3 as [E3 E4]; auto.
               { intros K'. rewrite Ea1. unfold req_al in L2. rewrite K' in L2. rewrite EA by auto. lia. }
               subst w3. split; [|lia].
               pose proof (orep_obj _ _ _ _ _ _ R2). pose proof (orep_obj _ _ _ _ _ _ R3). congruence.
            -- intros L1. assert (N0 : 0 < needed) by lia.
               destruct (Z_lt_ge_dec needed (o_bcap t o1)) as [L2|L2].
               ++ destruct (Opt K L1 L2) as [F|F]; auto. right; left.
                  eapply alloc_failed_l; [exact Na1|]. eapply alloc_failed_r; [exact Na3|]. exact F.
               ++ left. assert (H4 : un + needed <= o_bcap t o3 - o_blen t o3 l) by (apply U3; left; auto).
                  (* the needed bytes are at least the whole old capacity *)
                  destruct (o_al_pal _ _ _ _ _ _ R K) as [[K' P1]|[K' P1]].
                  ** rewrite (EqA K'). lia.
                  ** destruct (o_al_pal _ _ _ _ _ _ R3 K) as [[K3 _]|[_ P3]]; [congruence|].
                     assert (LEN : o_blen t o l <= o_blen t o3 l).
                     { unfold o_blen. rewrite P1, P3.
                       assert (LE : o_al t o <= o_al t o3).
                       { destruct Al3 as [->|(_ & E & _)]; [|lia]. unfold req_al; rewrite K'. lia. }
                       pose proof (orep_al _ _ _ _ _ _ R). pose proof (orep_al _ _ _ _ _ _ R3).
                       apply plen_le; auto. }
                     lia.
            -- destruct (Z.ltb_spec (o_bcap t o) (o_blen t o l + b)); lia.
            -- lia.
          * intros K L. specialize (SN K L). destruct Noop3 as [E3 E4]; auto.
            { intros K'; congruence. }
            rewrite W2 in E4 by auto. subst w3.
            assert (o3 = o1).
            { pose proof (orep_obj _ _ _ _ _ _ R1). pose proof (orep_obj _ _ _ _ _ _ R3). congruence. }
            subst o3.
            destruct (Z_lt_ge_dec (o_cap t o) (zlen l + n)) as [L1|L1].
            -- right. destruct (Gr1 K L1 eq_refl). ands; auto.
            -- left. apply Noop1. lia.
        + split.
          * destruct e.
            -- right; auto.
            -- eapply alloc_failed_l; [|apply Res3]. lia.
          * intros SR. assert (K : kind_of t <> KSized).
            { intros K. destruct Noop3 as [E3 _]; [apply SN; auto|intros K'; congruence|discriminate]. }
            destruct (Un1 (or_introl K)) as (U1 & _ & U3). specialize (Hp2 K). destruct e.
            -- destruct Res3 as (-> & E3 & _). rewrite (E3 K). ands; auto; congruence.
            -- destruct Res3 as (-> & _ & E3). rewrite (E3 K). cbn [bump_alloc w_heap]. ands; auto; congruence. }
    destruct cfg_debug eqn:D.
    2:{ eapply run_eq. reflexivity. now apply run_ret. }
    apply run_bind. eapply run_eq. { eapply v_byte_capacity_eq; eauto. }
    eapply run_eq. { eapply v_byte_len_eq; eauto. }
    unfold dassert. rewrite D. destruct (Z.leb_spec (o_blen t o3 l + b) (o_bcap t o3)) as [L|L]; cbn [negb andb].
    - apply run_ret. now apply run_ret.
    - apply run_panic. unfold reserve_panic. ands; auto.
      + eapply orep_repr; eauto.
      + intros SR. apply OVF. intros ->. specialize (BOK eq_refl SR). lia. }
  destruct (Z.ltb_spec needed (if 0 <? needed then Z.max needed (o_bcap t o1) else 0)) as [L|L].
  - (* the optimistic attempt *)
    destruct (Z.ltb_spec 0 needed) as [N0|N0]; [|lia].
    rewrite Z.max_r in * by lia.
    apply run_bind.
    eapply run_conseq. { eapply p_try_reserve_bytes_wp with (a := a'); eauto. lia. } all: cbv beta; try (intros; contradiction).
    fold (req_al t o1 a'). rewrite RA1. fold un.
    intros r w2 (o2 & d2 & R2 & Q2 & Ge2 & Ec2 & Noop2 & Res2).
    pose proof (quiet_nalloc _ _ _ Q2) as Na2.
    destruct r as [|e].
    + apply run_ret. exists o2, d2. destruct Res2 as (Al2 & U2 & EqA & UbU & Mv2 & Mono2).
      assert (NS : sized_request t n b -> kind_of t <> KSized).
      { intros SR K. specialize (SN K (SR K)). lia. }
      ands; auto; try lia.
      * eapply quiet_trans; eauto.
      * intros SR. specialize (NS SR).
        assert (un + o_bcap t o1 <= o_bcap t o2 - o_blen t o2 l) by (apply U2; auto). lia.
      * intros K. split; [|specialize (Cw K); specialize (Ec2 K); rewrite Ec2; auto]. unfold growth. specialize (KB K). specialize (KM K). specialize (Mv2 K).
        assert (Eun : un = o_bcap t o - o_blen t o l) by (unfold un; lia).
        assert (UP : o_bcap t o2 <= plen t (req_pal t o a) l + un + o_bcap t o1 + 2 * (req_pal t o a - 1)).
        { destruct (o_al_pal _ _ _ _ _ _ R K) as [[K' P1]|[K' P1]].
          - rewrite (EqA K'), KB. unfold o_blen in Eun. rewrite P1 in Eun. unfold req_pal. rewrite K'. lia.
          - unfold req_pal. unfold req_al in UbU. rewrite K' in *. auto. }
        assert (H4 : un + o_bcap t o1 <= o_bcap t o2 - o_blen t o2 l) by (apply U2; left; auto).
        ands; try lia.
        -- intros L1. left.
           destruct (o_al_pal _ _ _ _ _ _ R K) as [[K' P1]|[K' P1]].
           ** rewrite (EqA K'). lia.
           ** destruct (o_al_pal _ _ _ _ _ _ R2 K) as [[K3 _]|[_ P3]]; [congruence|].
              assert (LEN : o_blen t o l <= o_blen t o2 l).
              { unfold o_blen. rewrite P1, P3.
                assert (LE : o_al t o <= o_al t o2).
                { destruct Al2 as [->|(_ & E & _)]; [|lia]. unfold req_al; rewrite K'. lia. }
                pose proof (orep_al _ _ _ _ _ _ R). pose proof (orep_al _ _ _ _ _ _ R2).
                apply plen_le; auto. }
              lia.
        -- destruct (Z.ltb_spec (o_bcap t o) (o_blen t o l + b)); lia.
      * intros K L1. specialize (SN K L1). lia.
    + (* it failed: fall back to what is needed *)
      assert (E2 : o2 = o1).
      { destruct e; [|apply Res2]. destruct Res2 as (-> & _).
        pose proof (orep_obj _ _ _ _ _ _ R1). pose proof (orep_obj _ _ _ _ _ _ R2). congruence. }
      subst o2. eapply FIN; eauto.
      * lia.
      * destruct (kind_of t) eqn:K; auto; left; destruct e; try (now destruct Res2 as (-> & _));
          destruct Res2 as (_ & _ & ->); try discriminate; reflexivity.
      * intros K. destruct e; [now destruct Res2 as (-> & _)|]. destruct Res2 as (_ & _ & E2). now rewrite (E2 K).
      * intros K _ _. destruct e; [right|left; apply Res2].
        destruct Res2 as (_ & _ & Ov). unfold req_pal, req_al in *. specialize (KB K). unfold un in Ov.
        rewrite EL, KB, Ea1 in Ov.
        pose proof (o_al_pal _ _ _ _ _ _ R K) as [[K' P1]|[K' P1]]; rewrite K' in *.
        -- unfold o_blen in *. rewrite P1 in *. lia.
        -- pose proof (pow2_pos _ (orep_al _ _ _ _ _ _ R)). lia.
  - eapply FIN; eauto.
    + apply quiet_refl.
    + intros K L1 L2. exfalso. destruct (Z.ltb_spec 0 needed); [lia|].
      specialize (KB K). unfold un in *. lia.
Qed.
End WithConfig.
