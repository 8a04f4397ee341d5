(** Shrinking to ANY byte capacity (C23, C24) and what an odd one leads to (C16, C50).

    The partial theorems of PropShrink ask for a byte capacity that is a multiple of the alignment, because only then the
    result is a vector on which every later call is right. The elements themselves survive every byte capacity, as long
    as lowering the alignment moves none of them: in particular [shrink_capacity_bytes_to], which keeps the alignment, loses
    no element of any vector. But two pushes later an odd byte capacity ends in undefined behaviour, for every such vector. *)
From Coq Require Import ZArith List Bool Lia.
From Verif Require Import Types World ValidSize Emplace SizedVec AlignedVec UnalignedVec Api Spec Bytes Arith Wp Mem Repr
  Access Reserve Realign Orep Push Shrink Iter Obs Build Findings PropPush PropReserve PropShrink PropLimits.
Import ListNotations.
Open Scope Z_scope.
Open Scope m_scope.

Section WithConfig.
Context {C : Config}.

(** ** A vector of a type with run-time alignment whose byte capacity need not be a multiple of the alignment *)
Record odd (t : ty) (self : nat) (l : list value) (v : uvec) (d : list byte) (w : world) : Prop := {
  od_obj : nth_error (w_vecs w) self = Some (OU v);
  od_kind : kind_of t = KUnaligned;
  od_wf : wf_ty t;
  od_good : Forall (good t) l;
  od_al : pow2 (uv_align v);
  od_aligned : Forall (fun x => valign t x <= uv_align v) l;
  od_infos : uv_infos v = infos_of t (uv_align v) 0 l;
  od_buf : buf (w_heap w) (uv_ptr v) (uv_align v) (uv_bcap v) d;
  od_data : contents t (uv_align v) 0 l d;
  od_fit : plen t (uv_align v) l <= uv_bcap v;
  od_bcap : uv_bcap v <= isize_max - (uv_align v - 1);
  od_len : zlen l <= uv_icap v;
  od_icap : icap_ok t (uv_icap v) }.
Lemma odd_of t self l v d w : urep t self l v d w -> odd t self l v d w.
Proof. intros []. constructor; auto. Qed.
Local Hint Resolve odd_of : core.

Lemma odd_raw_eq t self l v d w i x :
  odd t self l v d w -> nth_error l i = Some x ->
  u_get_unchecked_raw t self i w = (Ok (Wide (padd (uv_ptr v) (plen t (uv_align v) (firstn i l))) (v_meta x)), w).
Proof.
  intros R E. destruct R. pose proof (nth_error_lt _ _ _ E).
  pose proof (good_nth _ _ _ _ od_good0 E) as Gx. pose proof (good_size t x Gx) as Sx.
  pose proof (pow2_pos _ od_al0) as Pa.
  destruct (plen_firstn_le t _ Pa l i x od_good0 E) as [P1 P2].
  pose proof (ulen_le t _ Pa l). 
  pose proof (plen_firstn_nonneg t _ Pa l i od_good0).
  unfold u_get_unchecked_raw. erewrite bind_eq by (eapply get_u_eq; eauto).
  erewrite bind_eq. 2:{ apply dassert_eq. apply Nat.ltb_lt. rewrite od_infos0, infos_of_length. auto. }
  erewrite bind_eq. 2:{ eapply u_start_offset_eq; eauto; lia. }
  rewrite od_infos0, infos_of_nth, E. cbn [info_of i_end i_rem]. rewrite Z.add_0_l.
  erewrite bind_eq by (apply vs_unchecked_sub_eq; lia).
  erewrite bind_eq by (eapply ptr_add_buf; eauto; lia).
  unfold ret. do 3 f_equal. rewrite Z.add_simpl_l. apply (proj2 Gx).
Qed.
Lemma odd_ref_ok t self l v d w i x : odd t self l v d w -> nth_error l i = Some x ->
  ref_ok t (w_heap w) (Wide (padd (uv_ptr v) (plen t (uv_align v) (firstn i l))) (v_meta x)) = true.
Proof.
  intros R E. destruct R. pose proof (good_nth _ _ _ _ od_good0 E) as Gx. pose proof (good_size t x Gx) as Sx.
  pose proof (pow2_pos _ od_al0) as Pa. pose proof (good_align t x Gx) as Ga.
  destruct (plen_firstn_le t _ Pa l i x od_good0 E) as [P1 P2].
  pose proof (psz_ge t _ Pa x). unfold vsize, valign in *.
  assert (D : (align_of_val t (v_meta x) | uv_align v)).
  { apply pow2_divide; auto. rewrite Forall_forall in od_aligned0. apply od_aligned0. eapply nth_error_In; eauto. }
  eapply ref_ok_buf; eauto; try lia.
  - now apply plen_firstn_nonneg.
  - apply pow2_pos; auto.
  - apply mod_trans with (uv_align v); auto. now apply pow2_pos. now apply plen_mod.
Qed.
Lemma odd_read_eq t self l v d w i x : odd t self l v d w -> nth_error l i = Some x ->
  read_value t (Wide (padd (uv_ptr v) (plen t (uv_align v) (firstn i l))) (v_meta x)) w = (Ok x, w).
Proof.
  intros R E. destruct R. pose proof (good_nth _ _ _ _ od_good0 E) as Gx. pose proof (good_size t x Gx) as Sx.
  pose proof (pow2_pos _ od_al0) as Pa.
  destruct (plen_firstn_le t _ Pa l i x od_good0 E) as [P1 P2].
  pose proof (ulen_le t _ Pa l). pose proof (plen_firstn_nonneg t _ Pa l i od_good0).
  unfold read_value. cbn [wp wm]. change (size_of_val t (v_meta x)) with (vsize t x).
  erewrite bind_eq. 2:{ eapply mem_read_buf; eauto; lia. }
  pose proof (contents_nth t _ 0 l d i x od_data0 E) as H1. rewrite Z.add_0_l in H1. rewrite H1. now destruct x.
Qed.
Lemma odd_get t self l v d w i x : odd t self l v d w -> nth_error l i = Some x ->
  exists r, v_get t self i w = (Ok (Some r), w) /\ wm r = v_meta x /\ read_value t r w = (Ok x, w) /\ ref_ok t (w_heap w) r = true.
Proof.
  intros R E. pose proof (od_kind _ _ _ _ _ _ R) as K. pose proof (nth_error_lt _ _ _ E).
  eexists. split; [|split; [|split; [eapply odd_read_eq|eapply odd_ref_ok]; eauto]].
  - unfold v_get, v_len, v_get_unchecked, p_get_unchecked_raw. rewrite K.
    erewrite bind_eq. 2:{ erewrite bind_eq by (eapply get_u_eq, R). reflexivity. }
    rewrite (od_infos _ _ _ _ _ _ R), infos_of_zlen. rewrite (proj2 (Z.ltb_lt _ _)) by (unfold zlen; lia).
    erewrite bind_eq. 2:{ erewrite bind_eq by (eapply odd_raw_eq; eauto). unfold make_ref. erewrite odd_ref_ok; eauto. }
    reflexivity.
  - reflexivity.
Qed.
Lemma odd_shows t self l v d w : odd t self l v d w -> shows t self l w.
Proof.
  intros R. unfold shows, v_view. erewrite bind_eq.
  2:{ unfold v_len. rewrite (od_kind _ _ _ _ _ _ R). erewrite bind_eq by (eapply get_u_eq, R). reflexivity. }
  rewrite (od_infos _ _ _ _ _ _ R), infos_of_zlen. unfold zlen. rewrite Nat2Z.id. apply mapM_eq, Forall2_seq. intros i x E. simpl.
  destruct (odd_get _ _ _ _ _ _ _ _ R E) as (r & H & _ & B & _).
  unfold v_index. erewrite bind_eq. 2:{ erewrite bind_eq by eauto. reflexivity. } exact B.
Qed.

(** ** Shrinking to any byte capacity *)
Lemma u_shrink_any t self l v d w n b a : urep t self l v d w -> 0 <= n -> 0 <= b -> pow2 a -> same_steps t (uv_align v) (new_align t l (uv_align v) a) l ->
  let na := new_align t l (uv_align v) a in
  run (u_shrink t self n b a) w
    (fun _ w' => exists v' d', odd t self l v' d' w' /\ quiet self w w' /\
       uv_icap v' = shr (uv_icap v) (zlen l) n /\
       (uv_align v' = na /\ uv_bcap v' = Z.max (plen t na l) (Z.min b (uv_bcap v)) \/
        uv_align v' = uv_align v /\ uv_bcap v' = uv_bcap v /\ alloc_failed w w'))
    (oom_panic w) (oom_abort w).
Proof.
  intros R N B Pw SS na. fold na in SS.
  unfold u_shrink. eapply run_eq. { eapply get_u_eq, R. }
  apply run_bind. pose proof (zlen_nonneg l).
  eapply run_conseq. { apply infos_shrink_wp with (t := t) (len := zlen (uv_infos v)); auto. apply R.
    rewrite (ur_infos _ _ _ _ _ _ R), infos_of_zlen. split; auto. apply R. } all: auto.
  rewrite (ur_infos _ _ _ _ _ _ R), infos_of_zlen. rewrite <- (ur_infos _ _ _ _ _ _ R).
  intros c w1 (Ec & I & Lc & Ew).
  assert (R1 : urep t self l v d w1) by (destruct Ew as [->| ->]; auto; now apply urep_bump).
  assert (Q1 : quiet self w w1) by (destruct Ew as [->| ->]; [apply quiet_refl|apply quiet_bump]).
  set (v1 := UVec (uv_ptr v) (uv_bcap v) (uv_infos v) c (uv_align v)).
  destruct (urep_set t self l v v1 d w1 R1) as [R2 Q2]; auto. { unfold v1. proj. lia. }
  eapply run_eq. reflexivity.
  set (w2 := set_vecs (upd (w_vecs w1) self (OU v1)) w1) in *. clearbody w2.
  assert (Q : quiet self w w2) by (eapply quiet_trans; eauto).
  assert (Ln : forall w3, alloc_failed w2 w3 -> alloc_failed w w3).
  { intros w3 (k & K1 & K2). exists k. split; auto. pose proof (quiet_nalloc _ _ _ Q). lia. }
  change (uv_bcap v) with (uv_bcap v1). change (uv_infos v) with (uv_infos v1).
  change (uv_align v) with (uv_align v1) in SS |- *. change (uv_ptr v) with (uv_ptr v1).
  assert (Ei : uv_icap v1 = shr (uv_icap v) (zlen l) n) by exact Ec. rewrite <- Ei.
  assert (Ena : na = new_align t l (uv_align v1) a) by reflexivity. clearbody na.
  clearbody v1. clear v R R1 Q1 Q2 Ew I Lc Ec Ei w1 c. rename v1 into v. rename R2 into R.
  eapply run_eq. { eapply u_max_align_of_elems_eq; eauto. }
  fold (new_align t l (uv_align v) a). rewrite <- Ena.
  pose proof (ur_al _ _ _ _ _ _ R) as Pal. pose proof (pow2_pos _ Pal) as al0.
  assert (Pna : pow2 na).
  { rewrite Ena. apply pow2_maxi. now apply pow2_mini. apply maxal_pow2. apply pow2_1. apply R. }
  pose proof (pow2_pos _ Pna) as na0.
  assert (Le : na <= uv_align v).
  { rewrite Ena. unfold new_align. pose proof (maxal_le t l 1 (uv_align v) ltac:(lia) (ur_aligned _ _ _ _ _ _ R)). lia. }
  assert (Al : Forall (fun x => valign t x <= na) l).
  { eapply Forall_impl; [|apply (maxal_all t l 1)]. cbv beta. intros. rewrite Ena. unfold new_align. lia. }
  eapply run_eq. { apply dassert_eq. now apply Z.leb_le. }
  pose proof (ur_good _ _ _ _ _ _ R) as Gd.
  pose proof (ur_fit _ _ _ _ _ _ R) as Fit. pose proof (ur_bcap _ _ _ _ _ _ R) as Bc.
  pose proof (ur_buf _ _ _ _ _ _ R) as Bf. pose proof (buf_len _ _ _ _ _ Bf) as Dl.
  pose proof (plen_nonneg t _ al0 l Gd) as P0. pose proof (plen_nonneg t _ na0 l Gd) as P0'.
  pose proof (plen_le t na (uv_align v) Pna Pal Le l) as PL.
  pose proof (nth_error_lt _ _ _ (ur_obj _ _ _ _ _ _ R)) as LT.
  set (need := (na <? uv_align v) && Nat.ltb 1 (length (uv_infos v))).
  assert (Rd : (if need then u_realign_down self na else ret tt) w2 = (Ok tt, w2)).
  { destruct need eqn:En; [|reflexivity]. unfold need in En. apply andb_true_iff in En as [E1 E2].
    unfold u_realign_down. erewrite bind_eq by (eapply get_u_eq, R).
    erewrite bind_eq by (apply dassert_eq; now rewrite E1, E2).
    rewrite (ur_infos _ _ _ _ _ _ R). eapply u_realign_down_loop_eq; eauto; try lia. }
  eapply run_eq. { exact Rd. }
  eapply run_eq. { eapply get_u_eq, R. }
  assert (Ul : u_unaligned_byte_len v = ulen t na l).
  { unfold u_unaligned_byte_len. rewrite (ur_infos _ _ _ _ _ _ R), last_end_infos by lia. now apply same_steps_ulen. }
  eapply run_eq.
  { apply unchecked_pad_to_spec; auto.
    - rewrite Ul. apply ulen_nonneg; auto.
    - rewrite Ul, pad_ulen by auto. lia. }
  rewrite Ul, pad_ulen by auto.
  eapply run_eq. { apply vs_new_unchecked_eq. lia. }
  set (c := Z.max (Z.min b (uv_bcap v)) (plen t na l)).
  assert (Hc : plen t na l <= c <= uv_bcap v) by lia.
  assert (Hc0 : 0 <= c) by lia.
  assert (Ec : c = Z.max (plen t na l) (Z.min b (uv_bcap v))) by (unfold c; lia).
  eapply run_eq. { apply dassert_eq. apply Z.leb_le. lia. }
  assert (Cm : c <= isize_max - (na - 1)) by lia.
  assert (Ct : contents t na 0 l d) by (eapply same_steps_contents; eauto; apply R).
  pose proof (same_steps_infos t (uv_align v) na l SS 0) as Inf.
  pose proof (ulen_le t na na0 l) as U.
  assert (Ow : owned_block w2 self = ptr_block (uv_ptr v)) by (unfold owned_block; now rewrite (ur_obj _ _ _ _ _ _ R)).
  destruct ((c <? uv_bcap v) || (na <? uv_align v)) eqn:Sh.
  2:{ apply orb_false_iff in Sh as [S1 S2]. apply Z.ltb_ge in S1, S2. apply run_ret. exists v, d. ands; auto.
      left. split; lia. }
  clearbody c.
  eapply run_eq. { unfold vu_layout. now apply layout_unchecked_eq. }
  destruct (Z.ltb_spec 0 c) as [Cp|Cz].
  - eapply run_eq. { unfold vu_layout. now apply layout_unchecked_eq. }
    apply run_bind. eapply shrink_wp; eauto; try lia.
    + intros q h k m0 Bf' Lh Bq HO HN ->. eapply run_eq1; [reflexivity|].
      replace (new_squished_to c na) with c.
      2:{ unfold new_squished_to, max_for_align. rewrite (proj2 (Z.leb_le _ _)); auto. }
      exists (UVec q c (uv_infos v) (uv_icap v) na), (firstn (Z.to_nat c) d). destruct R. ands; auto.
      * constructor; proj; auto; try lia.
        -- now apply upd_same.
        -- now rewrite ur_infos.
        -- apply contents_firstn; auto; lia.
      * eapply quiet_trans; eauto. split; [|reflexivity]. unfold set_vecs. proj. eapply frame_realloc; eauto. reflexivity.
    + intros K. pose proof (failed_bump w2 K) as AF.
      destruct need eqn:En.
      2:{ apply run_ret. exists v, d. ands; auto. now apply odd_of, urep_bump. eapply quiet_trans; eauto. apply quiet_bump. }
      unfold need in En. apply andb_true_iff in En as [E1 E2]. apply Z.ltb_lt in E1. apply Nat.ltb_lt in E2.
      eapply run_eq. reflexivity.
      set (v1 := UVec (uv_ptr v) (uv_bcap v) (uv_infos v) (uv_icap v) na).
      set (w3 := set_vecs (upd (w_vecs (bump_alloc w2)) self (OU v1)) (bump_alloc w2)).
      destruct (u_realign_up_eq t self l v1 (uv_align v) (uv_bcap v) d w3) as (d' & Er & Ld & Cd); unfold v1, w3; proj; auto; try lia.
      { now apply upd_same. } { rewrite (ur_infos _ _ _ _ _ _ R), infos_of_length in E2. lia. }
      { rewrite (ur_infos _ _ _ _ _ _ R). auto. }
      eapply run_eq. { exact Er. }
      eapply run_eq. { apply get_u_eq. unfold v1. proj. apply upd_same. unfold w3. proj. now rewrite upd_length. }
      eapply run_eq1; [reflexivity|].
      exists (UVec (uv_ptr v) (uv_bcap v) (infos_of t (uv_align v) 0 l) (uv_icap v) (uv_align v)), d'.
      unfold w3. unfold v1. proj. rewrite !upd_upd. ands; auto.
      * destruct R. constructor; proj; auto.
        -- now apply upd_same.
        -- eapply buf_hput; eauto. 
      * eapply quiet_trans; eauto. split; [|reflexivity].
        apply (frame_trans self _ (bump_alloc w2)); [apply frame_bump|].
        apply (frame_trans self _ (set_heap (hput (w_heap w2) (uv_ptr v) d') (bump_alloc w2))).
        { apply (frame_hput self (bump_alloc w2)). exact Ow. }
        apply (frame_set_obj self (set_heap (hput (w_heap w2) (uv_ptr v) d') (bump_alloc w2)) _ (uv_ptr v)); auto.
  - replace c with 0 in * by lia.
    assert (Z0 : plen t na l = 0) by lia.
    assert (Rdl : exists w3, (if 0 <? uv_bcap v then gdealloc (uv_ptr v) (Layout (uv_bcap v) (uv_align v)) else ret tt) w2 = (Ok tt, w3)
                  /\ w3 = set_heap (hfree (w_heap w2) (uv_ptr v)) w2).
    { destruct (Z.ltb_spec 0 (uv_bcap v)).
      - eexists. split; [eapply dealloc_eq; eauto|reflexivity].
      - unfold buf in Bf. pose proof (buf_nonneg _ _ _ _ _ (ur_buf _ _ _ _ _ _ R)). replace (uv_bcap v) with 0 in Bf by lia. cbn in Bf.
        destruct Bf as (p0 & Ep & _). exists w2. split; [reflexivity|]. rewrite Ep. cbn [hfree]. now rewrite set_heap_same. }
    destruct Rdl as (w3 & Er & ->).
    eapply run_eq. { exact Er. }
    eapply run_eq1; [reflexivity|]. exists (UVec (dangling_thin na) 0 (uv_infos v) (uv_icap v) na), [].
    destruct R. ands; auto.
    + constructor; proj; auto; try lia.
      * now apply upd_same.
      * now rewrite ur_infos.
      * unfold buf. cbn. exists na. ands; auto. apply Z.mod_same. lia.
      * apply (contents_move t na na0 0 0 l d []); auto; try lia.
        -- change (zlen []) with 0. lia.
        -- replace (ulen t na l) with 0; auto. pose proof (ulen_nonneg t na na0 l ur_good). lia.
    + eapply quiet_trans; eauto. split; [|reflexivity]. apply (frame_free self w2 (uv_ptr v)); auto.
Qed.

(** The calls for which lowering the alignment to the one settled on moves no element; nothing is asked of statically aligned
    types, nor of the byte capacity. *)
Definition in_place (t : ty) (l : list value) (al a : Z) : Prop :=
  kind_of t = KUnaligned -> forall x, In x (removelast l) -> pad (vsize t x) al = pad (vsize t x) (settled t l al a).
Lemma in_place_u t l v a : kind_of t = KUnaligned -> in_place t l (uv_align v) a -> same_steps t (uv_align v) (new_align t l (uv_align v) a) l.
Proof. intros K S. rewrite <- settled_new. apply Forall_forall. exact (S K). Qed.

(** The elements survive a shrink to any byte capacity, and a panic leaves the vector as it was. *)
Definition keeps_elements (t : ty) (self : nat) (l : list value) (a : Z) (w : world) (m : M unit) : Prop :=
  run m w
    (fun _ w' => shows t self l w' /\ w_drops w' = w_drops w /\ others self w w')
    (fun r w' => shrink_refused t a w r w' /\ holds_list t self l w' /\ w_drops w' = w_drops w /\ others self w w')
    (fun w' => alloc_failed w w').
Lemma u_shrink_api t self l v d w n b a : urep t self l v d w -> 0 <= n -> 0 <= b -> 0 <= a <= usize_max ->
  in_place t l (uv_align v) a ->
  run (v_shrink_capacity_bytes_align_to t self n b a) w
    (fun _ w' => exists v' d', odd t self l v' d' w' /\ quiet self w w' /\
       uv_icap v' = shr (uv_icap v) (zlen l) n /\
       (uv_align v' = settled t l (uv_align v) a /\
        uv_bcap v' = Z.max (padded_total t (settled t l (uv_align v) a) l) (Z.min b (uv_bcap v)) \/
        uv_align v' = uv_align v /\ uv_bcap v' = uv_bcap v /\ alloc_failed w w'))
    (shrink_refused t a w) (oom_abort w).
Proof.
  intros R Hn Hb Ha S. pose proof (ur_kind _ _ _ _ _ _ R) as K.
  unfold v_shrink_capacity_bytes_align_to, to_align, p_shrink. rewrite K. unfold valid_align_new.
  destruct (is_power_of_two a) eqn:P.
  2:{ unfold run, bind, panic, fail. right. split; auto. right. ands; auto. intros (k & K0 & E).
      assert (X : is_power_of_two a = true); [|congruence]. apply is_power_of_two_pow2. exists k. split; auto. split; auto.
      destruct (Z_le_gt_dec k 63); auto. exfalso. subst a. assert (2 ^ 64 <= 2 ^ k) by (apply Z.pow_le_mono_r; lia).
      rewrite usize_max_eq in Ha. lia. }
  pose proof (pow2_of_is_power a Ha P) as Pa. eapply run_eq. reflexivity.
  eapply run_conseq; [eapply u_shrink_any; eauto using in_place_u; lia|..]; cbv beta; auto.
  - intros _ w' (v' & d' & H). exists v', d'. rewrite settled_new, padded_total_plen. exact H.
  - intros r w' H. now left.
Qed.
Theorem C23_any_byte_capacity_partial t self l w n b a al : repr t self l w -> v_align t self w = (Ok al, w) ->
  0 <= n -> 0 <= b -> 0 <= a <= usize_max -> in_place t l al a ->
  keeps_elements t self l a w (v_shrink_capacity_bytes_align_to t self n b a).
Proof.
  intros R Al Hn Hb Ha S. destruct (kind_of t) eqn:K.
  1, 2: eapply run_conseq; [apply (C23_statically_aligned_partial t self l w n b a); auto; congruence|..]; cbv beta; auto;
    intros _ w' ((_ & Sh) & D); auto.
  pose proof R as R0. unfold repr in R. rewrite K in R. destruct R as (v & d & R).
  assert (Ea : uv_align v = al).
  { unfold v_align in Al. rewrite K in Al. erewrite bind_eq in Al by (eapply get_u_eq, R). now injection Al. }
  subst al. eapply run_conseq; [eapply u_shrink_api; eauto|..]; cbv beta.
  - intros _ w' (v' & d' & R' & [F D] & _). ands; auto using others_frame. eapply odd_shows; eauto.
  - intros r w' H. split; auto. eapply refused_keeps; eauto.
  - intros w' [_ A]. exact A.
Qed.
(** [shrink_capacity_bytes_to]: every type, every vector, every argument. *)
Theorem C23_shrink_capacity_bytes_to t self l w n b : repr t self l w -> 0 <= n -> 0 <= b ->
  keeps_elements t self l max_align w (v_shrink_capacity_bytes_to t self n b).
Proof.
  intros R Hn Hb. destruct (caps_of t self l w R) as (c & bc & bl & al & _ & _ & _ & Al).
  apply (C23_any_byte_capacity_partial t self l w n b max_align al); auto. { apply max_align_usize. }
  apply repr_orep in R as (o & d & R). rewrite (v_align_eq _ _ _ _ _ _ R) in Al. injection Al as <-.
  intros K. rewrite (settled_max _ _ _ _ _ _ R K). auto.
Qed.

Lemma odd_byte_len t self l v d w : odd t self l v d w -> v_byte_len t self w = (Ok (plen t (uv_align v) l), w).
Proof.
  intros R. unfold v_byte_len. rewrite (od_kind _ _ _ _ _ _ R). erewrite bind_eq by (eapply get_u_eq, R).
  destruct R. pose proof (pow2_pos _ od_al0). unfold u_aligned_byte_len, u_unaligned_byte_len. rewrite od_infos0, last_end_infos by lia.
  rewrite unchecked_pad_to_spec; auto.
  - now rewrite pad_ulen.
  - now apply ulen_nonneg.
  - rewrite pad_ulen by auto. lia.
Qed.
Lemma odd_byte_capacity t self l v d w : odd t self l v d w -> v_byte_capacity t self w = (Ok (uv_bcap v), w).
Proof. intros R. unfold v_byte_capacity. rewrite (od_kind _ _ _ _ _ _ R). now erewrite bind_eq by (eapply get_u_eq, R). Qed.
Lemma odd_caps t self l v d w : odd t self l v d w -> caps t self w (uv_icap v) (uv_bcap v) (plen t (uv_align v) l) (uv_align v).
Proof.
  intros R. pose proof (od_kind _ _ _ _ _ _ R) as K. unfold caps, v_capacity, v_align. rewrite K.
  split; [now erewrite bind_eq by (eapply get_u_eq, R)|]. split; [eapply odd_byte_capacity; eauto|].
  split; [eapply odd_byte_len; eauto|now erewrite bind_eq by (eapply get_u_eq, R)].
Qed.
Lemma odd_largest t self l v d w : odd t self l v d w -> largest_align t l <= uv_align v.
Proof.
  intros R. pose proof (od_aligned _ _ _ _ _ _ R) as F. pose proof (pow2_pos _ (od_al _ _ _ _ _ _ R)) as P.
  unfold largest_align. clear -F P. induction F; cbn [map fold_right]; lia.
Qed.
(** The bounds of C24, and the exact values, for every byte capacity. *)
Theorem C24_any_bounds_partial t self l w n b a c bc bl al : repr t self l w -> caps t self w c bc bl al ->
  0 <= n -> 0 <= b -> 0 <= a <= usize_max -> in_place t l al a ->
  run (v_shrink_capacity_bytes_align_to t self n b a) w
    (fun _ w' => exists c' bc' bl' al', caps t self w' c' bc' bl' al' /\
       between c (Z.max (zlen l) n) c' /\ between bc (Z.max bl' b) bc' /\
       (kind_of t = KUnaligned -> between al (Z.max (largest_align t l) a) al' /\
          (alloc_total -> c' = Z.min c (Z.max (zlen l) n) /\ bc' = Z.min bc (Z.max bl' b) /\ al' = settled t l al a)) /\
       (kind_of t <> KUnaligned -> al' = al /\ bl' = bl))
    (fun _ w' => caps t self w' c bc bl al) (fun w' => caps t self w' c bc bl al).
Proof.
  intros R Cp Hn Hb Ha S. destruct (kind_of t) eqn:K.
  1, 2: eapply run_conseq; [apply (C24_bounds_partial t self l w n b a c bc bl al); auto; intros K'; congruence|..]; cbv beta; auto;
    intros _ w' (c' & bc' & bl' & al' & H1 & H2 & H3 & _ & H4); exists c', bc', bl', al'; rewrite K in H4; ands; auto; discriminate.
  unfold repr in R. rewrite K in R. destruct R as (v & d & R).
  destruct (caps_orep t self l (OU v) d w c bc bl al R Cp) as (-> & -> & -> & ->). unfold o_blen in *. cbn [o_cap o_bcap o_al] in *.
  eapply run_conseq; [eapply u_shrink_api; eauto|..]; cbv beta.
  - intros _ w' (v' & d' & R' & _ & Ic & E). exists (uv_icap v'), (uv_bcap v'), (plen t (uv_align v') l), (uv_align v').
    pose proof (odd_largest _ _ _ _ _ _ R'). pose proof (odd_largest _ _ _ _ _ _ (odd_of _ _ _ _ _ _ R)).
    pose proof (shr_bounds _ _ n (ur_len _ _ _ _ _ _ R)) as [B1 B2]. rewrite <- Ic in B1, B2.
    pose proof (ur_fit _ _ _ _ _ _ R) as F. pose proof (od_fit _ _ _ _ _ _ R') as F'. pose proof (ur_len _ _ _ _ _ _ R) as Ln.
    assert (Ic' : uv_icap v' = Z.min (uv_icap v) (Z.max (zlen l) n)) by (rewrite Ic; unfold shr; destruct (Z.ltb_spec n (uv_icap v)); lia).
    split; [eapply odd_caps; eauto|]. unfold between. split; [lia|]. destruct E as [[Ea Eb]|(Ea & Eb & AF)].
    + rewrite padded_total_plen, <- Ea in Eb.
      assert (PL : plen t (uv_align v') l <= plen t (uv_align v) l).
      { apply plen_le; [apply R'|apply R|]. rewrite Ea. unfold settled. lia. }
      split; [lia|]. split; [intros _; split; [unfold settled in Ea; lia|intros _; split; [auto|split; [lia|auto]]]|congruence].
    + rewrite Ea, Eb in *. split; [lia|]. split; [intros _; split; [lia|intros T; now apply no_alloc_failed in AF]|congruence].
  - assert (RB := urep_bump _ _ _ _ _ _ R). intros r w' [(_ & _ & -> & _)|(-> & _)].
    + apply (orep_caps t self l (OU v) d _ RB). + exact Cp.
  - intros w' [-> _]. apply (orep_caps t self l (OU v) d _ (urep_bump _ _ _ _ _ _ R)).
Qed.

(** ** What an odd byte capacity leads to *)
(** A value that fits as it is, though not with its padding, is accepted. *)
Lemma odd_push t self l v d w x : odd t self l v d w -> good t x -> valign t x <= uv_align v -> zlen l < uv_icap v ->
  plen t (uv_align v) l + vsize t x <= uv_bcap v ->
  exists w', v_push t self x w = (Ok tt, w') /\
    nth_error (w_vecs w') self = Some (OU (UVec (uv_ptr v) (uv_bcap v) (infos_of t (uv_align v) 0 (l ++ [x])) (uv_icap v) (uv_align v))).
Proof.
  intros R G A L F. pose proof (od_kind _ _ _ _ _ _ R) as K. pose proof (pow2_pos _ (od_al _ _ _ _ _ _ R)) as a0.
  pose proof (good_size t x G) as Sx. pose proof (plen_nonneg t _ a0 l (od_good _ _ _ _ _ _ R)) as P0.
  pose proof (od_bcap _ _ _ _ _ _ R) as Bc. pose proof (zlen_nonneg l).
  assert (Ob : nth_error (w_vecs w) self = Some (OU v)) by apply R.
  assert (Ws : set_obj self (OU (UVec (uv_ptr v) (uv_bcap v) (uv_infos v) (uv_icap v) (uv_align v))) w = (Ok tt, w)).
  { replace (UVec (uv_ptr v) (uv_bcap v) (uv_infos v) (uv_icap v) (uv_align v)) with v by now destruct v.
    transitivity (@Ok unit tt, set_vecs (upd (w_vecs w) self (OU v)) w); [reflexivity|]. rewrite upd_nth by auto. now destruct w. }
  assert (Al : u_aligned_byte_len v w = (Ok (plen t (uv_align v) l), w)).
  { pose proof (odd_byte_len _ _ _ _ _ _ R) as E. unfold v_byte_len in E. rewrite K in E.
    erewrite bind_eq in E by (eapply get_u_eq, R). exact E. }
  assert (Rs : v_reserve_capacity_bytes_align t self 1 (vsize t x) (valign t x) w = (Ok tt, w)).
  { unfold v_reserve_capacity_bytes_align. rewrite (bind_eq _ _ w ROk w); [reflexivity|].
    unfold v_try_reserve_capacity_bytes_align, v_try_reserve, p_try_reserve, u_reserve. rewrite K.
    erewrite bind_eq.
    2:{ erewrite bind_eq by (eapply get_u_eq, R). erewrite bind_eq.
        2:{ unfold infos_reserve, needs_to_grow. rewrite (od_infos _ _ _ _ _ _ R), infos_of_zlen.
            rewrite (proj2 (Z.ltb_ge _ _)) by lia. reflexivity. }
        cbv beta iota. erewrite bind_eq by exact Ws. reflexivity. }
    cbv beta iota. unfold v_capacity, v_len. rewrite K.
    erewrite bind_eq. 2:{ erewrite bind_eq by (eapply get_u_eq, R). reflexivity. }
    erewrite bind_eq. 2:{ erewrite bind_eq by (eapply get_u_eq, R). reflexivity. }
    erewrite bind_eq. 2:{ apply dassert_eq. apply Z.leb_le. rewrite (od_infos _ _ _ _ _ _ R), infos_of_zlen. lia. }
    destruct (to_align_eq t (valign t x) w) as (a' & Ea & Ea'). { intros _. now apply good_align. }
    erewrite bind_eq by exact Ea. rewrite (Ea' K).
    erewrite bind_eq by (eapply odd_byte_capacity; eauto).
    erewrite bind_eq.
    2:{ unfold unused_byte_cap. erewrite bind_eq by (eapply odd_byte_capacity; eauto). erewrite bind_eq by (eapply odd_byte_len; eauto).
        apply usub_eq. lia. }
    cbv zeta. replace (sat_sub (vsize t x) (uv_bcap v - plen t (uv_align v) l)) with 0 by (unfold sat_sub; lia).
    cbn [Z.ltb Z.compare]. unfold p_try_reserve_bytes_align, u_try_reserve_bytes_align. rewrite K.
    erewrite bind_eq.
    2:{ erewrite bind_eq by (eapply get_u_eq, R). erewrite bind_eq by exact Al.
        rewrite Z.max_l by auto. rewrite (Z.ltb_irrefl (uv_align v)). cbn [negb andb Z.eqb]. reflexivity. }
    destruct cfg_debug; [|reflexivity].
    erewrite bind_eq; [reflexivity|]. erewrite bind_eq by (eapply odd_byte_capacity; eauto). erewrite bind_eq by (eapply odd_byte_len; eauto).
    apply dassert_eq. apply Z.leb_le. lia. }
  unfold v_push. erewrite bind_eq by (apply owned_eq, Rs). unfold p_push_unchecked, u_push_unchecked. rewrite K.
  eexists. split.
  - apply owned_eq. erewrite bind_eq by (eapply get_u_eq, R).
    erewrite bind_eq. 2:{ apply dassert_eq. apply Z.ltb_lt. now rewrite (od_infos _ _ _ _ _ _ R), infos_of_zlen. }
    erewrite bind_eq.
    2:{ instantiate (1 := w). destruct cfg_debug; [|reflexivity]. erewrite bind_eq by exact Al. apply dassert_eq. now apply Z.leb_le. }
    erewrite bind_eq. 2:{ apply dassert_eq. now apply Z.leb_le. }
    erewrite bind_eq by exact Al.
    erewrite bind_eq by (eapply ptr_add_buf; [apply R|..]; lia).
    erewrite bind_eq by (eapply mem_write_buf; [apply R|..]; try (rewrite (good_bytes t x G)); lia).
    erewrite bind_eq by (apply vs_unchecked_add_eq; lia).
    erewrite bind_eq by (apply infos_push_eq; now rewrite (od_infos _ _ _ _ _ _ R), infos_of_zlen).
    reflexivity.
  - proj. rewrite infos_of_snoc, (od_infos _ _ _ _ _ _ R). apply upd_same. eapply nth_error_lt; eauto.
Qed.
(** More bytes used than there are: the next push is undefined behaviour, whatever is pushed. *)
Lemma overfull_push t self v w y : kind_of t = KUnaligned -> nth_error (w_vecs w) self = Some (OU v) ->
  pow2 (uv_align v) -> good t y -> 0 <= u_unaligned_byte_len v -> pad (u_unaligned_byte_len v) (uv_align v) <= isize_max ->
  uv_bcap v < pad (u_unaligned_byte_len v) (uv_align v) -> zlen (uv_infos v) < uv_icap v ->
  v_push t self y w = (UB UbArith, w).
Proof.
  intros K Ob P G L0 L1 O I.
  assert (Ws : set_obj self (OU (UVec (uv_ptr v) (uv_bcap v) (uv_infos v) (uv_icap v) (uv_align v))) w = (Ok tt, w)).
  { replace (UVec (uv_ptr v) (uv_bcap v) (uv_infos v) (uv_icap v) (uv_align v)) with v by now destruct v.
    transitivity (@Ok unit tt, set_vecs (upd (w_vecs w) self (OU v)) w); [reflexivity|]. rewrite upd_nth by auto. now destruct w. }
  assert (Rs : v_reserve_capacity_bytes_align t self 1 (vsize t y) (valign t y) w = (UB UbArith, w)).
  { unfold v_reserve_capacity_bytes_align. apply bind_ub.
    unfold v_try_reserve_capacity_bytes_align, v_try_reserve, p_try_reserve, u_reserve. rewrite K.
    erewrite bind_eq.
    2:{ erewrite bind_eq by (eapply get_u_eq; eauto). erewrite bind_eq.
        2:{ unfold infos_reserve, needs_to_grow. rewrite (proj2 (Z.ltb_ge _ _)) by lia. reflexivity. }
        cbv beta iota. erewrite bind_eq by exact Ws. reflexivity. }
    cbv beta iota. unfold v_capacity, v_len. rewrite K.
    erewrite bind_eq. 2:{ erewrite bind_eq by (eapply get_u_eq; eauto). reflexivity. }
    erewrite bind_eq. 2:{ erewrite bind_eq by (eapply get_u_eq; eauto). reflexivity. }
    erewrite bind_eq. 2:{ apply dassert_eq. apply Z.leb_le. lia. }
    destruct (to_align_eq t (valign t y) w) as (a' & Ea & Ea'). { intros _. now apply good_align. }
    erewrite bind_eq by exact Ea.
    assert (Bc : v_byte_capacity t self w = (Ok (uv_bcap v), w)).
    { unfold v_byte_capacity. rewrite K. now erewrite bind_eq by (eapply get_u_eq; eauto). }
    erewrite bind_eq by exact Bc. apply bind_ub. unfold unused_byte_cap. erewrite bind_eq by exact Bc.
    unfold v_byte_len. rewrite K. erewrite bind_eq.
    2:{ erewrite bind_eq by (eapply get_u_eq; eauto). apply unchecked_pad_to_spec; auto. }
    now apply usub_under. }
  unfold v_push. apply bind_ub. unfold owned, on_unwind. now rewrite Rs.
Qed.

(** Shrink to a byte capacity [b] between what is used and what there was; then push a value that fits into the rest, but not
    with its padding; then push anything. *)
Theorem C50_odd_capacity_never t self l w n b a c bc bl al x y : alloc_total -> kind_of t = KUnaligned ->
  repr t self l w -> caps t self w c bc bl al -> zlen l + 2 <= n -> zlen l + 2 <= c ->
  0 <= a <= usize_max -> ~ bad_align a -> in_place t l al a ->
  let na := settled t l al a in
  b <= bc -> good t x -> valign t x <= na ->
  padded_total t na l + vsize t x <= b < padded_total t na (l ++ [x]) -> good t y ->
  exists w1 w2 w3,
    v_shrink_capacity_bytes_align_to t self n b a w = (Ok tt, w1) /\ shows t self l w1 /\
    v_push t self x w1 = (Ok tt, w2) /\
    v_byte_capacity t self w2 = (Ok b, w2) /\ v_byte_len t self w2 = (Ok (padded_total t na (l ++ [x])), w2) /\
    v_push t self y w2 = (UB UbArith, w3).
Proof.
  intros T K R Cs N1 N2 Ha Na IP na Hb Gx Ax Fx Gy.
  pose proof R as R0. unfold repr in R. rewrite K in R. destruct R as (v & d & R).
  destruct (caps_orep t self l (OU v) d w c bc bl al R Cs) as (-> & -> & -> & ->). cbn [o_cap o_bcap o_al] in *.
  pose proof (zlen_nonneg l). pose proof (ur_al _ _ _ _ _ _ R) as Pal. pose proof (good_size t x Gx) as Sx.
  assert (Hb0 : 0 <= b).
  { assert (1 <= na) by (subst na; unfold settled, largest_align; pose proof (pow2_pos _ Pal);
      assert (1 <= fold_right Z.max 1 (map (valign t) l)) by (induction (map (valign t) l); cbn [fold_right]; lia); lia).
    pose proof (plen_nonneg t na ltac:(lia) l (ur_good _ _ _ _ _ _ R)). rewrite padded_total_plen in Fx. lia. }
  pose proof (u_shrink_api t self l v d w n b a R ltac:(lia) Hb0 Ha IP) as H1. unfold run in H1.
  destruct (v_shrink_capacity_bytes_align_to t self n b a w) as [[[]|r| |r] w1].
  2:{ destruct H1 as [(_ & _ & _ & F)|(_ & [(_ & K' & _)|(_ & _ & B)])]; [now apply no_alloc_failed in F|congruence|contradiction]. }
  2:{ destruct H1 as [_ F]. now apply no_alloc_failed in F. } 2: contradiction.
  destruct H1 as (v1 & d1 & R1 & _ & Ic & [[Ea Eb]|(_ & _ & F)]); [|now apply no_alloc_failed in F].
  fold na in Ea, Eb. rewrite Z.min_l in Eb by auto. rewrite Z.max_r in Eb by lia.
  assert (Ic' : zlen l + 2 <= uv_icap v1) by (rewrite Ic; unfold shr; destruct (Z.ltb_spec n (uv_icap v)); lia).
  destruct (odd_push t self l v1 d1 w1 x R1 Gx) as (w2 & E2 & O2); try lia.
  { rewrite Ea, Eb. rewrite padded_total_plen in Fx. lia. }
  pose proof (od_al _ _ _ _ _ _ R1) as P1. pose proof (pow2_pos _ P1) as p1. pose proof (od_bcap _ _ _ _ _ _ R1) as B1.
  pose proof (od_good _ _ _ _ _ _ R1) as G1.
  rewrite !padded_total_plen in *. rewrite Ea, Eb in *.
  set (v2 := UVec (uv_ptr v1) b (infos_of t na 0 (l ++ [x])) (uv_icap v1) na) in *.
  assert (U : u_unaligned_byte_len v2 = ulen t na (l ++ [x])) by (unfold u_unaligned_byte_len; cbn [v2 uv_infos]; now rewrite last_end_infos by lia).
  assert (Pd : pad (u_unaligned_byte_len v2) na = plen t na (l ++ [x])) by (rewrite U; now apply pad_ulen).
  assert (U0 : 0 <= ulen t na (l ++ [x])) by (apply ulen_nonneg; auto; apply Forall_app; auto).
  assert (Mx : plen t na (l ++ [x]) <= isize_max).
  { rewrite plen_app. cbn [plen]. unfold psz. pose proof (pad_lt (vsize t x) na p1). lia. }
  exists w1, w2, w2. ands; auto.
  - eapply odd_shows; eauto.
  - unfold v_byte_capacity. rewrite K. now erewrite bind_eq by (eapply get_u_eq; eauto).
  - unfold v_byte_len. rewrite K. erewrite bind_eq by (eapply get_u_eq; eauto). unfold u_aligned_byte_len. cbn [v2 uv_align].
    rewrite unchecked_pad_to_spec; auto; fold v2. + now rewrite Pd. + now rewrite U. + now rewrite Pd.
  - apply (overfull_push t self v2); auto; cbn [v2 uv_align uv_bcap uv_infos uv_icap]; fold v2.
    + now rewrite U. + now rewrite Pd. + rewrite Pd. apply Fx.
    + rewrite infos_of_zlen. unfold zlen in *. rewrite app_length. cbn [length]. lia.
Qed.

(** Trait objects: whatever the vector, a byte capacity that is not a multiple of the alignment always leads there: there is a
    value whose push makes the next push, of anything, undefined behaviour. *)
Definition filler (n : Z) : value := Value (MVt 0 n 1) (repeat (Byte 0) (Z.to_nat n)).
Lemma filler_good n : 0 <= n <= isize_max -> good TDyn (filler n).
Proof.
  intros N. apply good_of_wf; [|discriminate]. split.
  - split; [|split; [apply Z.mod_1_r|exact I]]. cbn [filler v_meta size_of_val align_of_val].
    split; [lia|split; [apply pow2_1|lia]].
  - cbn [filler v_bytes vsize v_meta size_of_val]. unfold vsize. cbn [filler v_meta size_of_val]. rewrite repeat_length. lia.
Qed.
Theorem C50_odd_capacity_always self l w n b a c bc bl al : alloc_total ->
  repr TDyn self l w -> caps TDyn self w c bc bl al -> zlen l + 2 <= n -> zlen l + 2 <= c ->
  0 <= a <= usize_max -> ~ bad_align a -> in_place TDyn l al a ->
  let na := settled TDyn l al a in
  padded_total TDyn na l <= b <= bc -> b mod na <> 0 ->
  exists x, good TDyn x /\ forall y, good TDyn y -> exists w1 w2 w3,
    v_shrink_capacity_bytes_align_to TDyn self n b a w = (Ok tt, w1) /\ shows TDyn self l w1 /\
    v_push TDyn self x w1 = (Ok tt, w2) /\ v_push TDyn self y w2 = (UB UbArith, w3).
Proof.
  intros T R Cs N1 N2 Ha Na IP na Hb Md.
  assert (n1 : 1 <= na).
  { subst na. unfold settled. assert (1 <= largest_align TDyn l); [|lia].
    unfold largest_align. induction (map (valign TDyn) l); cbn [fold_right]; lia. }
  assert (Bm : bc <= isize_max /\ 0 <= padded_total TDyn na l).
  { destruct R as (v & d & R). destruct (caps_orep TDyn self l (OU v) d w c bc bl al R Cs) as (_ & -> & _ & _). cbn [o_bcap].
    pose proof (ur_bcap _ _ _ _ _ _ R). pose proof (pow2_pos _ (ur_al _ _ _ _ _ _ R)). rewrite padded_total_plen.
    split; [lia|]. apply plen_nonneg; [lia|apply R]. }
  set (z := b - padded_total TDyn na l) in *.
  assert (Ez : b = padded_total TDyn na l + z) by (unfold z; lia). clearbody z.
  assert (G : good TDyn (filler z)) by (apply filler_good; lia).
  assert (Mz : z mod na <> 0).
  { intros E. apply Md. rewrite Ez. apply mod_add_0; auto; [lia|].
    rewrite padded_total_plen. apply plen_mod. lia. }
  exists (filler z). split; auto. intros y Gy.
  destruct (C50_odd_capacity_never TDyn self l w n b a c bc bl al (filler z) y) as (w1 & w2 & w3 & E1 & Sh & E2 & _ & _ & E3); auto.
  - lia.
  - fold na. rewrite (padded_total_plen TDyn na l) in *. rewrite (padded_total_plen TDyn na (l ++ _)), plen_app. cbn [plen]. unfold psz.
    change (vsize TDyn (filler z)) with z. pose proof (pad_ge z na ltac:(lia)).
    assert (pad z na <> z). { intros E. apply Mz. rewrite <- E. apply pad_mult. lia. } lia.
  - exists w1, w2, w3. auto.
Qed.
End WithConfig.

Print Assumptions C23_any_byte_capacity_partial.
Print Assumptions C23_shrink_capacity_bytes_to.
Print Assumptions C24_any_bounds_partial.
Print Assumptions C50_odd_capacity_never.
Print Assumptions C50_odd_capacity_always.

(** ** Cases *)
Section Cases.
Local Existing Instance cfg_release.
Ltac run := vm_compute; reflexivity.
Ltac built := eapply (built_repr _ _ empty_world); [exact I|intros K; discriminate K|apply takesb_ok; reflexivity|run].
(** Three elements in 24 of 32 bytes, shrunk to 29: the byte capacity is odd, the elements are there. *)
Example C23_any_case : exists v w w', repr TDyn v [word 1; half 2; five 3] w /\ v_byte_capacity TDyn v w = (Ok 32, w) /\
  v_align TDyn v w = (Ok 8, w) /\ in_place TDyn [word 1; half 2; five 3] 8 max_align /\ ~ shrinks_well TDyn [word 1; half 2; five 3] 32 8 29 max_align /\
  v_shrink_capacity_bytes_to TDyn v 0 29 w = (Ok tt, w') /\ v_byte_capacity TDyn v w' = (Ok 29, w') /\
  shows TDyn v [word 1; half 2; five 3] w'.
Proof.
  do 3 eexists. split; [built|]. do 2 (split; [run|]).
  split; [intros _ x [<-|[<-|[]]]; reflexivity|].
  split; [intros H; destruct (H eq_refl) as [_ [H'|[H'|H']]]; vm_compute in H'; first [now apply H'|discriminate H']|].
  do 2 (split; [run|]). run.
Qed.
(** Five elements in 40 of 64 bytes, shrunk to 45: the next five bytes fit, the push after that does not. *)
Example C50_odd_case : exists v w w1 w2 w3, repr TDyn v [word 1; half 2; five 3; word 4; half 5] w /\
  caps TDyn v w 8 64 40 8 /\ in_place TDyn [word 1; half 2; five 3; word 4; half 5] 8 max_align /\
  padded_total TDyn (settled TDyn [word 1; half 2; five 3; word 4; half 5] 8 max_align) [word 1; half 2; five 3; word 4; half 5] = 40 /\
  45 mod settled TDyn [word 1; half 2; five 3; word 4; half 5] 8 max_align <> 0 /\
  v_shrink_capacity_bytes_align_to TDyn v 7 45 max_align w = (Ok tt, w1) /\ v_push TDyn v (filler 5) w1 = (Ok tt, w2) /\
  v_byte_capacity TDyn v w2 = (Ok 45, w2) /\ v_byte_len TDyn v w2 = (Ok 48, w2) /\ v_push TDyn v (Findings.one 6) w2 = (UB UbArith, w3).
Proof.
  do 5 eexists. split; [built|]. split; [unfold caps; ands; run|].
  split; [intros _ x [<-|[<-|[<-|[<-|[]]]]]; reflexivity|]. split; [run|]. split; [vm_compute; discriminate|].
  do 4 (split; [run|]). run.
Qed.
End Cases.
