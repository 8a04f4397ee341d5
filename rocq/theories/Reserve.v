(** The reserve operations of the three implementations. *)
From Coq Require Import ZArith List Bool Lia.
From Verif Require Import Types World ValidSize Emplace SizedVec AlignedVec UnalignedVec Api Spec Bytes Arith Wp Mem Repr Access.
Import ListNotations.
Open Scope Z_scope.
Open Scope m_scope.

(** Reduce projections of explicit records only. *)
Ltac proj := cbn [w_heap w_vecs w_cells w_drops w_nalloc w_moved set_heap set_vecs set_cells set_drops bump_alloc add_moved
  av_ptr av_bcap av_infos av_icap uv_ptr uv_bcap uv_infos uv_icap uv_align sv_ptr sv_cap sv_len l_size l_align wp wm
  i_rem i_end obj_ptr].

(** Split a conjunction, without unfolding anything. *)
Ltac ands := repeat match goal with |- _ /\ _ => split end.

Lemma set_vecs_same w self o : nth_error (w_vecs w) self = Some o -> set_vecs (upd (w_vecs w) self o) w = w.
Proof. intros E. unfold set_vecs. rewrite upd_nth by auto. now destruct w. Qed.
Lemma set_vecs_twice w self o o' :
  set_vecs (upd (w_vecs (set_vecs (upd (w_vecs w) self o) w)) self o') (set_vecs (upd (w_vecs w) self o) w)
  = set_vecs (upd (w_vecs w) self o') w.
Proof. unfold set_vecs. proj. now rewrite upd_upd. Qed.
Lemma set_heap_same w : set_heap (w_heap w) w = w.
Proof. now destruct w. Qed.
Lemma info_size_range t : info_size t = 8 \/ info_size t = 16.
Proof. destruct t; simpl; auto. Qed.

(** Only the object and its buffer change, and no destructor runs. *)
Definition quiet (self : nat) (w w' : world) : Prop := frame self w w' /\ w_drops w' = w_drops w.
Lemma quiet_refl self w : quiet self w w.
Proof. split; auto. apply frame_refl. Qed.
Lemma quiet_trans self w1 w2 w3 : quiet self w1 w2 -> quiet self w2 w3 -> quiet self w1 w3.
Proof. intros [A B] [D E]. split. eapply frame_trans; eauto. congruence. Qed.
Lemma quiet_nalloc self w w' : quiet self w w' -> (w_nalloc w <= w_nalloc w')%nat.
Proof. intros [F _]. apply F. Qed.

(** The capacity the growth policy of std asks for. *)
Definition want_cap (esize cap len n : Z) (exact : bool) : Z :=
  if exact then len + n else Z.max (min_non_zero_cap esize) (Z.max (2 * cap) (len + n)).
Lemma want_cap_ge esize cap len n exact : len + n <= want_cap esize cap len n exact.
Proof. unfold want_cap; destruct exact; lia. Qed.
Lemma grow_cap_some esize ealign cap len n exact c : 0 <= esize -> grow_cap esize ealign cap len n exact = Some c ->
  0 < esize /\ c = want_cap esize cap len n exact /\ c * esize <= isize_max - (ealign - 1).
Proof.
  unfold grow_cap, want_cap. intros P. destruct (Z.eqb_spec esize 0); [discriminate|].
  destruct (Z.leb_spec (len + n) usize_max); [|discriminate].
  destruct (Z.leb_spec ((if exact then len + n else Z.max (min_non_zero_cap esize) (Z.max (2 * cap) (len + n))) * esize)
                       (isize_max - (ealign - 1))); [|discriminate].
  intros E; injection E as <-. ands; auto; lia.
Qed.
Lemma grow_cap_none esize ealign cap len n exact : 0 < ealign -> grow_cap esize ealign cap len n exact = None ->
  0 < esize -> 0 <= len + n -> isize_max - (ealign - 1) < want_cap esize cap len n exact * esize.
Proof.
  unfold grow_cap. intros A E P L. destruct (Z.eqb_spec esize 0); [lia|].
  pose proof (want_cap_ge esize cap len n exact).
  destruct (Z.leb_spec (len + n) usize_max).
  - fold (want_cap esize cap len n exact) in E.
    destruct (Z.leb_spec (want_cap esize cap len n exact * esize) (isize_max - (ealign - 1))); [discriminate|auto].
  - nia.
Qed.

Section WithConfig.
Context {C : Config}.

(** The element-info vector. *)
Lemma infos_reserve_wp t icap len n exact w :
  icap_ok t icap -> 0 <= len <= icap -> 0 <= n ->
  run (infos_reserve t icap len n exact) w
    (fun '(r, icap') w' => icap_ok t icap' /\ icap <= icap' /\ (w' = w \/ w' = bump_alloc w) /\
       (len + n <= icap -> r = ROk /\ icap' = icap /\ w' = w) /\
       match r with
       | ROk => len + n <= icap'
       | RErr CapacityOverflow => icap' = icap /\ w' = w /\ isize_max - 7 < want_cap (info_size t) icap len n exact * info_size t
       | RErr AllocError => icap' = icap /\ alloc_failed w w'
       end) (fun _ _ => False) (fun _ => False).
Proof.
  intros I L N. pose proof (info_size_range t) as IS. unfold infos_reserve, needs_to_grow.
  destruct (Z.ltb_spec (icap - len) n) as [G|G].
  - destruct (grow_cap (info_size t) 8 icap len n exact) as [c|] eqn:E.
    + apply grow_cap_some in E as (P & Ec & B); [|lia].
      pose proof (want_cap_ge (info_size t) icap len n exact) as W.
      unfold run, bind, ask_alloc, ret. destruct (cfg_alloc (w_nalloc w)) eqn:A; cbv beta iota.
      * unfold icap_ok in *; ands; auto; try lia.
      * unfold icap_ok in *; ands; auto; try lia; try apply I.
        exists (w_nalloc w). proj. split; [lia|auto].
    + apply grow_cap_none in E; [|lia|lia|lia].
      apply run_ret. unfold icap_ok in *; ands; auto; try lia; try apply I.
  - apply run_ret. unfold icap_ok in *; ands; auto; try lia; try apply I.
Qed.

(** ** Aligned *)

(** Changing only the object of an aligned vector, not its buffer. *)
Lemma arep_set t self l v v' d w :
  arep t self l v d w -> av_ptr v' = av_ptr v -> av_bcap v' = av_bcap v -> av_infos v' = av_infos v ->
  zlen l <= av_icap v' -> icap_ok t (av_icap v') ->
  arep t self l v' d (set_vecs (upd (w_vecs w) self (OA v')) w) /\
  quiet self w (set_vecs (upd (w_vecs w) self (OA v')) w).
Proof.
  intros R EP EB EI L I. destruct R. pose proof (nth_error_lt _ _ _ ar_obj) as LT.
  split.
  - constructor; auto; rewrite ?EP, ?EB, ?EI; auto. proj. now apply upd_same.
  - split; auto. eapply frame_set_obj; eauto. reflexivity. unfold owned_block. rewrite ar_obj. proj. now rewrite EP.
Qed.
Lemma arep_bump t self l v d w : arep t self l v d w -> arep t self l v d (bump_alloc w).
Proof. intros R. destruct R. constructor; auto. Qed.

Lemma a_reserve_wp t self l v d w n exact :
  arep t self l v d w -> 0 <= n ->
  run (a_reserve t self n exact) w
    (fun r w' => exists v', arep t self l v' d w' /\ quiet self w w' /\ w_moved w' = w_moved w /\ w_heap w' = w_heap w /\
       av_ptr v' = av_ptr v /\ av_bcap v' = av_bcap v /\ av_icap v <= av_icap v' /\
       (zlen l + n <= av_icap v -> r = ROk /\ w' = w) /\
       match r with
       | ROk => zlen l + n <= av_icap v'
       | RErr CapacityOverflow => w' = w /\ isize_max - 7 < want_cap (info_size t) (av_icap v) (zlen l) n exact * info_size t
       | RErr AllocError => alloc_failed w w'
       end) (fun _ _ => False) (fun _ => False).
Proof.
  intros R N. unfold a_reserve. eapply run_eq. { eapply get_a_eq, R. }
  apply run_bind. pose proof (zlen_nonneg l).
  eapply run_conseq. { apply infos_reserve_wp with (len := zlen (av_infos v)); auto. apply R.
    rewrite (ar_infos _ _ _ _ _ _ R), infos_of_zlen. split; auto. apply R. } all: auto.
  rewrite (ar_infos _ _ _ _ _ _ R), infos_of_zlen. rewrite <- (ar_infos _ _ _ _ _ _ R).
  intros [r icap'] w1 (I & Le & Ew & Noop & Res).
  assert (R1 : arep t self l v d w1) by (destruct Ew as [->| ->]; auto; now apply arep_bump).
  assert (Q1 : quiet self w w1).
  { destruct Ew as [->| ->]. apply quiet_refl. split; auto. apply frame_bump. }
  pose proof (ar_len _ _ _ _ _ _ R) as Ll.
  destruct (arep_set t self l v (AVec (av_ptr v) (av_bcap v) (av_infos v) icap') d w1 R1) as [R2 Q2]; auto.
  { proj. lia. }
  eapply run_eq. reflexivity. apply run_ret.
  exists (AVec (av_ptr v) (av_bcap v) (av_infos v) icap').
  assert (HS : icap' = av_icap v -> set_vecs (upd (w_vecs w1) self (OA (AVec (av_ptr v) (av_bcap v) (av_infos v) icap'))) w1 = w1).
  { intros ->. apply set_vecs_same. rewrite (ar_obj _ _ _ _ _ _ R1). now destruct v. }
  split; [exact R2|]. split; [eapply quiet_trans; eauto|].
  split; [destruct Ew as [->| ->]; reflexivity|]. split; [destruct Ew as [->| ->]; reflexivity|].
  repeat (split; [reflexivity || (proj; lia)|]).
  split.
  - intros LE. destruct (Noop LE) as (-> & Ei & ->). split; auto.
  - destruct r as [|[]]; proj; auto.
    + destruct Res as (Ei & -> & Ov). split; auto.
    + destruct Res as (Ei & AF). rewrite HS; auto.
Qed.

Lemma a_try_reserve_bytes_wp t self l v d w n :
  arep t self l v d w -> 0 <= n ->
  run (a_try_reserve_bytes t self n) w
    (fun r w' => exists v' d', arep t self l v' d' w' /\ quiet self w w' /\ av_icap v' = av_icap v /\
       (n = 0 -> w' = w) /\
       match r with
       | ROk => av_bcap v' = av_bcap v + n /\ w_moved w' = w_moved w + (if 0 <? n then av_bcap v else 0)
       | RErr CapacityOverflow => w' = w /\ isize_max - (static_align t - 1) < av_bcap v + n
       | RErr AllocError => v' = v /\ alloc_failed w w' /\ w' = bump_alloc w
       end) (fun _ _ => False) (fun _ => False).
Proof.
  intros R N. unfold a_try_reserve_bytes. eapply run_eq. { eapply get_a_eq, R. }
  pose proof (pow2_pos _ (static_align_pow2 t (ar_wf _ _ _ _ _ _ R))) as Pa.
  destruct (Z.ltb_spec 0 n) as [P|P].
  2:{ apply run_ret. replace n with 0 by lia. exists v, d. ands; auto; try lia. apply quiet_refl. }
  unfold vs_new, vs_max.
  destruct (Z.leb_spec (av_bcap v + n) usize_max).
  2:{ apply run_ret. exists v, d. ands; auto; try lia. apply quiet_refl. }
  destruct (Z.leb_spec (av_bcap v + n) (isize_max - (static_align t - 1))).
  2:{ apply run_ret. exists v, d. ands; auto; try lia. apply quiet_refl. }
  apply run_bind. unfold vs_layout. pose proof (buf_nonneg _ _ _ _ _ (ar_buf _ _ _ _ _ _ R)).
  eapply grow_wp; eauto using ar_buf; try lia.
  - intros q h k m B Lh Bq HO HN -> ->. eapply run_eq. reflexivity. apply run_ret.
    cbn [w_vecs w_cells w_drops w_nalloc w_moved l_size].
    replace (vs_new_squished (static_align t) (av_bcap v + n)) with (av_bcap v + n).
    2:{ unfold vs_new_squished, vs_max. now rewrite (proj2 (Z.leb_le _ _)). }
    exists (AVec q (av_bcap v + n) (av_infos v) (av_icap v)), (d ++ uninit (av_bcap v + n - av_bcap v)).
    pose proof (buf_len _ _ _ _ _ (ar_buf _ _ _ _ _ _ R)) as Dl.
    destruct R. pose proof (nth_error_lt _ _ _ ar_obj) as LT.
    assert (U := ulen_le t 1 ltac:(lia) l).
    split; [|split; [|split; [|split]]].
    + constructor; proj; auto; try lia.
      * now apply upd_same.
      * apply contents_extend; auto; lia.
    + split; [|reflexivity]. unfold set_vecs. proj. eapply frame_realloc; eauto. unfold owned_block. rewrite ar_obj. reflexivity. reflexivity.
    + reflexivity.
    + lia.
    + proj. split; auto.
  - intros A. apply run_ret. exists v, d. split; [now apply arep_bump|]. split; [split; auto; apply frame_bump|].
    ands; auto; try lia. exists (w_nalloc w). proj. split; auto.
Qed.

(** ** Sized *)
Lemma srep_bump t self l v d w : srep t self l v d w -> srep t self l v d (bump_alloc w).
Proof. intros R. destruct R. constructor; auto. Qed.

Lemma s_reserve_wp t self l v d w n exact :
  srep t self l v d w -> 0 <= n ->
  run (s_reserve t self n exact) w
    (fun r w' => exists v' d', srep t self l v' d' w' /\ quiet self w w' /\
       sv_cap v <= sv_cap v' /\
       (zlen l + n <= s_capacity t v -> r = ROk /\ w' = w /\ v' = v) /\
       (s_capacity t v < zlen l + n -> r = ROk -> sv_cap v' = want_cap (s_size t) (sv_cap v) (zlen l) n exact /\
          w_moved w' = w_moved w + sv_cap v * s_size t) /\
       match r with
       | ROk => zlen l + n <= s_capacity t v'
       | RErr CapacityOverflow => w' = w /\
           (if s_size t =? 0 then usize_max < zlen l + n
            else isize_max - (s_align t - 1) < want_cap (s_size t) (sv_cap v) (zlen l) n exact * s_size t)
       | RErr AllocError => v' = v /\ alloc_failed w w' /\ w' = bump_alloc w
       end) (fun _ _ => False) (fun _ => False).
Proof.
  intros R N. unfold s_reserve. eapply run_eq. { eapply get_s_eq, R. }
  pose proof (zlen_nonneg l). unfold needs_to_grow. rewrite (sr_slen _ _ _ _ _ _ R).
  pose proof (s_size_nonneg t (sr_kind _ _ _ _ _ _ R) (sr_wf _ _ _ _ _ _ R)) as Sn.
  pose proof (pow2_pos _ (s_align_pow2 t (sr_kind _ _ _ _ _ _ R) (sr_wf _ _ _ _ _ _ R))) as Pa.
  pose proof (sr_fit _ _ _ _ _ _ R) as Fit. pose proof (sr_cap0 _ _ _ _ _ _ R) as C0.
  destruct (Z.ltb_spec (s_capacity t v - zlen l) n) as [G|G].
  2:{ apply run_ret. exists v, d. ands; auto; try lia. apply quiet_refl. }
  destruct (grow_cap (s_size t) (s_align t) (sv_cap v) (zlen l) n exact) as [c|] eqn:E.
  2:{ apply run_ret. exists v, d. ands; auto; try lia; try discriminate. apply quiet_refl.
      unfold s_capacity in *. destruct (Z.eqb_spec (s_size t) 0). lia.
      eapply grow_cap_none; eauto; lia. }
  apply grow_cap_some in E as (P & Ec & B); [|lia].
  pose proof (want_cap_ge (s_size t) (sv_cap v) (zlen l) n exact) as W. rewrite <- Ec in W.
  unfold s_capacity in *. destruct (Z.eqb_spec (s_size t) 0) as [|NZ]; [lia|].
  apply run_bind.
  replace (sv_cap v =? 0) with (sv_cap v * s_size t =? 0).
  2:{ destruct (Z.eqb_spec (sv_cap v) 0) as [->|]; auto. apply Z.eqb_neq. nia. }
  pose proof (sr_buf _ _ _ _ _ _ R) as Bf.
  eapply grow_wp; eauto; try nia.
  - intros q h k m Bf' Lh Bq HO HN -> ->. eapply run_eq. reflexivity. apply run_ret.
    cbn [w_vecs w_cells w_drops w_nalloc w_moved l_size].
    exists (SVec q c (zlen l)), (d ++ uninit (c * s_size t - sv_cap v * s_size t)).
    pose proof (buf_len _ _ _ _ _ Bf) as Dl. pose proof (s_fit _ _ _ _ _ _ R) as FF.
    destruct R. pose proof (nth_error_lt _ _ _ sr_obj) as LT.
    assert (U := ulen_le t 1 ltac:(lia) l). rewrite plen_sized in U by auto.
    split; [|split; [|split; [|split; [|split]]]].
    + constructor; proj; auto; try lia.
      * now apply upd_same.
      * apply contents_extend; auto; lia.
      * unfold s_capacity. destruct (Z.eqb_spec (s_size t) 0); proj; lia.
    + split; [|reflexivity]. unfold set_vecs. proj. eapply frame_realloc; eauto. unfold owned_block. rewrite sr_obj. reflexivity. reflexivity.
    + proj. lia.
    + proj. lia.
    + proj. auto.
    + proj. lia.
  - intros A. apply run_ret. exists v, d. split; [now apply srep_bump|]. split; [split; auto; apply frame_bump|].
    ands; auto; try lia; try discriminate. exists (w_nalloc w). proj. split; auto.
Qed.

(** With a nonzero element size, asking for bytes reserves some elements (not the documented number). *)
Lemma s_try_reserve_bytes_wp t self l v d w n :
  srep t self l v d w -> 0 <= n -> 0 < s_size t ->
  run (s_try_reserve_bytes t self n) w
    (fun r w' => exists v' d', srep t self l v' d' w' /\ quiet self w w' /\ sv_cap v <= sv_cap v' /\
       (n = 0 -> w' = w /\ r = ROk) /\
       match r with
       | ROk => True
       | RErr CapacityOverflow => w' = w /\ isize_max - (s_align t - 1) < zlen l * s_size t + n + sv_cap v + s_size t
       | RErr AllocError => v' = v /\ alloc_failed w w'
       end) (fun _ _ => False) (fun _ => False).
Proof.
  intros R N SP. unfold s_try_reserve_bytes. eapply run_eq. { eapply get_s_eq, R. }
  pose proof (sr_slen _ _ _ _ _ _ R) as SL. pose proof (sr_fit _ _ _ _ _ _ R) as Fit.
  pose proof (zlen_nonneg l). pose proof (sr_cap0 _ _ _ _ _ _ R) as C0.
  assert (SC : s_capacity t v = sv_cap v).
  { unfold s_capacity. destruct (Z.eqb_spec (s_size t) 0); lia. }
  eapply run_eq. { apply usub_eq. lia. }
  eapply run_eq. { unfold div_ceil. destruct (Z.eqb_spec (s_size t) 0); [lia|reflexivity]. }
  rewrite SC in *. set (k := sat_sub _ _).
  assert (K0 : 0 <= k) by (unfold k, sat_sub; lia).
  set (f := sv_cap v - sv_len v) in *.
  assert (Hf : 0 <= f) by lia.
  assert (KB : k * s_size t <= n + f + s_size t).
  { unfold k, sat_sub, sat_add.
    assert (((Z.min usize_max (n + f) + s_size t - 1) / s_size t) * s_size t <= Z.min usize_max (n + f) + s_size t - 1).
    { rewrite Z.mul_comm. apply Z.mul_div_le. lia. }
    nia. }
  assert (KZ : n = 0 -> k = 0).
  { intros ->. unfold k, sat_sub, sat_add.
    assert ((Z.min usize_max (0 + f) + s_size t - 1) / s_size t <= f); [|lia].
    destruct (Z.eq_dec f 0) as [->|NF].
    - rewrite Z.div_small; lia.
    - apply Z.div_le_upper_bound; [lia|]. assert (0 <= (f - 1) * (s_size t - 1)) by nia. lia. }
  eapply run_conseq. { eapply s_reserve_wp; eauto. } all: auto.
  intros r w' (v' & d' & R' & Q & Le & Noop & _ & Res). exists v', d'. split; auto. split; auto. split; auto.
  split.
  - intros E. destruct Noop as (-> & -> & _); auto. rewrite (KZ E), SC. lia.
  - destruct r as [|[]]; auto; [|tauto]. destruct Res as [-> Ov]. split; auto.
    destruct (Z.eqb_spec (s_size t) 0); [lia|]. unfold want_cap in Ov. rewrite Z.mul_add_distr_r in Ov. subst f. lia.
Qed.
End WithConfig.
