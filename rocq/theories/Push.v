(** [push]: the unchecked append of the three implementations, and the public function. *)
From Coq Require Import ZArith List Bool Lia.
From Verif Require Import Types World ValidSize Emplace SizedVec AlignedVec UnalignedVec Api Spec Bytes Arith Wp Mem Repr
  Access Reserve Realign Orep.
Import ListNotations.
Open Scope Z_scope.
Open Scope m_scope.

Lemma zlen_snoc {A} (l : list A) x : zlen (l ++ [x]) = zlen l + 1.
Proof. rewrite zlen_app. reflexivity. Qed.
Lemma plen_snoc t al l x : plen t al (l ++ [x]) = plen t al l + psz t al x.
Proof. rewrite plen_app. cbn [plen]. lia. Qed.
Lemma contents_snoc t al l x d :
  contents t al 0 l d -> sub (plen t al l) (vsize t x) d = v_bytes x -> contents t al 0 (l ++ [x]) d.
Proof. intros A B. apply contents_app. split; auto. cbn [contents]. split; auto. Qed.
Lemma infos_of_snoc t al l x : infos_of t al 0 (l ++ [x]) = infos_of t al 0 l ++ [info_of t (plen t al l) x].
Proof. rewrite infos_of_app. cbn [infos_of]. do 3 f_equal. Qed.
Lemma Forall_snoc {A} (P : A -> Prop) l x : Forall P l -> P x -> Forall P (l ++ [x]).
Proof. intros. apply Forall_app. auto. Qed.

Section WithConfig.
Context {C : Config}.

(** The representation only depends on the object and its block. *)
Lemma orep_agree t self l o d w w' :
  orep t self l o d w -> nth_error (w_vecs w') self = nth_error (w_vecs w) self ->
  (forall b, ptr_block (o_ptr o) = Some b -> heap_get (w_heap w') b = heap_get (w_heap w) b) ->
  orep t self l o d w'.
Proof.
  destruct o; ocbn; intros R E A; try tauto; destruct R; constructor; auto; try congruence; eapply buf_agree; eauto.
Qed.

(** Rewriting the bytes of the buffer without disturbing the elements. *)
Lemma orep_put t self l o d d' w :
  orep t self l o d w -> zlen d' = zlen d -> contents t (o_pal o) 0 l d' ->
  orep t self l o d' (set_heap (hput (w_heap w) (o_ptr o) d') w).
Proof.
  destruct o; ocbn; intros R L Hc; try tauto; destruct R; constructor; auto; proj; eapply buf_hput; eauto.
Qed.
Lemma quiet_put t self l o d d' w :
  orep t self l o d w -> quiet self w (set_heap (hput (w_heap w) (o_ptr o) d') w).
Proof. intros R. split; auto. apply frame_hput. eapply orep_owned; eauto. Qed.

(** Writing behind the last element. *)
Lemma orep_write_tail t self l o d w bs :
  orep t self l o d w -> o_blen t o l + zlen bs <= o_bcap t o ->
  mem_write (padd (o_ptr o) (o_blen t o l)) bs w
    = (Ok tt, set_heap (hput (w_heap w) (o_ptr o) (splice (o_blen t o l) bs d)) w) /\
  orep t self l o (splice (o_blen t o l) bs d) (set_heap (hput (w_heap w) (o_ptr o) (splice (o_blen t o l) bs d)) w) /\
  sub (o_blen t o l) (zlen bs) (splice (o_blen t o l) bs d) = bs.
Proof.
  intros R L. pose proof (orep_buf _ _ _ _ _ _ R) as B. pose proof (orep_blen_nonneg _ _ _ _ _ _ R) as N.
  pose proof (buf_len _ _ _ _ _ B) as DL. pose proof (zlen_nonneg bs).
  ands.
  - eapply mem_write_buf; eauto.
  - apply (orep_put t self l o d); auto.
    + apply splice_len; lia.
    + apply contents_splice_before; auto; try lia.
      * apply pow2_pos. eapply orep_pal; eauto.
      * eapply orep_good; eauto.
      * rewrite Z.add_0_l. apply ulen_le. apply pow2_pos. eapply orep_pal; eauto.
      * eapply orep_data; eauto.
  - apply sub_splice_same; lia.
Qed.

(** The object after appending an element whose bytes are already in place. *)
Definition o_push (t : ty) (o : obj) (l : list value) (x : value) : obj :=
  match o with
  | OS v => OS (SVec (sv_ptr v) (sv_cap v) (sv_len v + 1))
  | OA v => OA (AVec (av_ptr v) (av_bcap v) (av_infos v ++ [info_of t (plen t 1 l) x]) (av_icap v))
  | OU v => OU (UVec (uv_ptr v) (uv_bcap v) (uv_infos v ++ [info_of t (plen t (uv_align v) l) x]) (uv_icap v) (uv_align v))
  | ODead => ODead
  end.
Lemma o_push_same t o l x : o_cap t (o_push t o l x) = o_cap t o /\ o_bcap t (o_push t o l x) = o_bcap t o /\
  o_al t (o_push t o l x) = o_al t o /\ o_pal (o_push t o l x) = o_pal o /\ o_ptr (o_push t o l x) = o_ptr o.
Proof. destruct o; ands; reflexivity. Qed.

Lemma orep_push t self l o d w x :
  orep t self l o d w -> good t x -> zlen l < o_cap t o -> o_blen t o l + vsize t x <= o_bcap t o ->
  (kind_of t = KUnaligned -> valign t x <= o_al t o) ->
  sub (o_blen t o l) (vsize t x) d = v_bytes x ->
  orep t self (l ++ [x]) (o_push t o l x) d (set_vecs (upd (w_vecs w) self (o_push t o l x)) w).
Proof.
  intros R G L B A E. pose proof (nth_error_lt _ _ _ (orep_obj _ _ _ _ _ _ R)) as Ls.
  pose proof (contents_snoc t (o_pal o) l x d (orep_data _ _ _ _ _ _ R) E) as Ct.
  pose proof (zlen_snoc l x) as Zs.
  destruct o; unfold o_blen in *; ocbn in *; try tauto; destruct R; cbn [o_push orep]; constructor; proj; auto; try (apply upd_same; auto);
    try (apply Forall_snoc; auto); try lia.
  - unfold s_capacity in *. proj. lia.
  - rewrite ar_infos, infos_of_snoc. reflexivity.
  - rewrite plen_snoc. unfold psz. rewrite pad_1. lia.
  - rewrite ur_infos, infos_of_snoc. reflexivity.
  - rewrite plen_snoc. pose proof (pow2_pos _ ur_al) as P. unfold psz.
    assert (pad (vsize t x) (uv_align v) <= uv_bcap v - plen t (uv_align v) l); [|lia].
    apply pad_le; auto; [|lia]. apply mod_sub_0; auto. now apply plen_mod.
Qed.
Lemma quiet_push t self l o d w x : orep t self l o d w ->
  quiet self w (set_vecs (upd (w_vecs w) self (o_push t o l x)) w).
Proof.
  intros R. pose proof (nth_error_lt _ _ _ (orep_obj _ _ _ _ _ _ R)) as Ls.
  split; auto. apply frame_set_obj with (p := o_ptr o); auto.
  - destruct o; ocbn in *; try tauto; reflexivity.
  - eapply orep_owned; eauto.
Qed.

Lemma owned_eq {A} x (m : M A) w a w' : m w = (Ok a, w') -> owned x m w = (Ok a, w').
Proof. apply on_unwind_eq. Qed.

Lemma infos_push_eq infos icap x w : zlen infos < icap -> infos_push infos icap x w = (Ok (infos ++ [x]), w).
Proof.
  intros L. unfold infos_push. erewrite bind_eq by (apply dassert_eq, Z.ltb_lt; auto).
  now rewrite (proj2 (Z.ltb_lt _ _)) by auto.
Qed.

Lemma s_icap_max t self l v d w : srep t self l v d w -> s_capacity t v <= usize_max.
Proof.
  intros R. destruct R. unfold s_capacity. destruct (Z.eqb_spec (s_size t) 0); [lia|].
  pose proof (s_size_nonneg t sr_kind sr_wf). pose proof (pow2_pos _ (s_align_pow2 t sr_kind sr_wf)). nia.
Qed.

(** src/inner/*.rs [push_unchecked]. *)
Lemma p_push_unchecked_eq t self l o d w x :
  orep t self l o d w -> good t x -> zlen l < o_cap t o -> o_blen t o l + vsize t x <= o_bcap t o ->
  (kind_of t = KUnaligned -> valign t x <= o_al t o) ->
  exists d' w', p_push_unchecked t self x (vsize t x) w = (Ok tt, w') /\
    orep t self (l ++ [x]) (o_push t o l x) d' w' /\ quiet self w w' /\
    w_nalloc w' = w_nalloc w /\ w_moved w' = w_moved w.
Proof.
  intros R G L B A. pose proof (good_bytes t x G) as Bx. pose proof (good_size t x G) as Sx.
  pose proof (orep_bcap _ _ _ _ _ _ R) as Bm. pose proof (pow2_pos _ (orep_al _ _ _ _ _ _ R)) as Pa.
  destruct (orep_write_tail t self l o d w (v_bytes x) R) as (W & R1 & S1). { lia. }
  rewrite Bx in S1.
  set (w1 := set_heap _ w) in *. set (d1 := splice _ _ d) in *.
  exists d1, (set_vecs (upd (w_vecs w1) self (o_push t o l x)) w1). ands; try reflexivity.
  2:{ now apply orep_push. }
  2:{ eapply quiet_trans. eapply quiet_put; eauto. eapply quiet_push; eauto. }
  pose proof (orep_blen_nonneg _ _ _ _ _ _ R) as Bl.
  unfold p_push_unchecked. destruct o; ocbn in *; try tauto.
  - rewrite (sr_kind _ _ _ _ _ _ R). apply owned_eq. unfold s_push_unchecked.
    pose proof (s_icap_max _ _ _ _ _ _ R). unfold o_blen in *; ocbn in *. destruct R.
    rewrite (plen_sized t l) in * by auto.
    erewrite bind_eq by (eapply get_s_eq; eauto). rewrite sr_slen.
    erewrite bind_eq by (apply dassert_eq, Z.ltb_lt; lia).
    erewrite bind_eq. 2:{ unfold elem_add. eapply ptr_add_buf; eauto. lia. }
    erewrite bind_eq by exact W.
    erewrite bind_eq by (apply uadd_eq; lia). cbn [o_push]. rewrite sr_slen. reflexivity.
  - rewrite (ar_kind _ _ _ _ _ _ R). apply owned_eq. unfold a_push_unchecked. unfold o_blen in *; ocbn in *. destruct R.
    assert (BL : a_byte_len v = plen t 1 l).
    { unfold a_byte_len. rewrite ar_infos, last_end_infos, <- (pad_ulen t 1) by lia. now rewrite pad_1. }
    erewrite bind_eq by (eapply get_a_eq; eauto).
    erewrite bind_eq by (apply dassert_eq, Z.ltb_lt; rewrite ar_infos, infos_of_zlen; lia).
    erewrite bind_eq by (apply dassert_eq, Z.leb_le; rewrite BL; lia). rewrite BL.
    erewrite bind_eq by (eapply ptr_add_buf; eauto; lia).
    erewrite bind_eq by exact W.
    erewrite bind_eq by (apply vs_unchecked_add_eq; lia).
    erewrite bind_eq by (apply infos_push_eq; rewrite ar_infos, infos_of_zlen; lia). reflexivity.
  - rewrite (ur_kind _ _ _ _ _ _ R). apply owned_eq. unfold u_push_unchecked. specialize (A (ur_kind _ _ _ _ _ _ R)).
    pose proof (u_byte_len_eq _ _ _ _ _ _ R) as BL. unfold o_blen in *; ocbn in *. destruct R.
    erewrite bind_eq by (eapply get_u_eq; eauto).
    erewrite bind_eq by (apply dassert_eq, Z.ltb_lt; rewrite ur_infos, infos_of_zlen; lia).
    erewrite bind_eq.
    2:{ instantiate (1 := w). instantiate (1 := tt). destruct cfg_debug; auto. erewrite bind_eq by apply BL.
        apply dassert_eq, Z.leb_le; lia. }
    erewrite bind_eq by (apply dassert_eq, Z.leb_le; lia).
    erewrite bind_eq by apply BL.
    erewrite bind_eq by (eapply ptr_add_buf; eauto; lia).
    erewrite bind_eq by exact W.
    erewrite bind_eq by (apply vs_unchecked_add_eq; lia).
    erewrite bind_eq by (apply infos_push_eq; rewrite ur_infos, infos_of_zlen; lia). reflexivity.
Qed.

(** Dropping a value: logged once; an unwinding destructor aborts if already unwinding. *)
Lemma run_drop_value x w (Qo : unit -> world -> Prop) (Qp : panic_reason -> world -> Prop) (Qa : world -> Prop) :
  (cfg_drop_panics (length (w_drops w)) = false -> Qo tt (set_drops (w_drops w ++ [x]) w)) ->
  (cfg_drop_panics (length (w_drops w)) = true -> Qp PDrop (set_drops (w_drops w ++ [x]) w)) ->
  run (drop_value x) w Qo Qp Qa.
Proof. intros A B. unfold run, drop_value. destruct (cfg_drop_panics (length (w_drops w))); auto. Qed.
Lemma drop_panicked_1 w x : cfg_drop_panics (length (w_drops w)) = true ->
  drop_panicked w (set_drops (w_drops w ++ [x]) w).
Proof. intros E. exists (length (w_drops w)). split; auto. proj. rewrite app_length. cbn. lia. Qed.

Lemma repr_drops t self l w d : repr t self l w -> repr t self l (set_drops d w).
Proof. intros R. eapply repr_agree; eauto. Qed.

(** Room for an element of alignment [a] and size [b]: the unaligned implementation does not record a larger alignment when
    it ends up with no bytes at all (finding F4). *)
Definition can_align (t : ty) (o : obj) (b a : Z) : Prop :=
  kind_of t = KUnaligned -> 0 < b \/ a <= o_al t o \/ 0 < o_bcap t o.

(** What a failed reservation of [push]/[insert] means: the vector is unchanged, the value is dropped once. *)
Definition add_panic (t : ty) (self : nat) (l : list value) (o : obj) (x : value) (w : world) (r : panic_reason) (w' : world)
    : Prop :=
  repr t self l w' /\ frame self w w' /\ w_drops w' = w_drops w ++ [x] /\
  reserve_fails t o l 1 (vsize t x) (valign t x) w w' /\
  (r = PCapacity \/ r = PDebugAssert /\ cfg_debug = true \/ r = POom /\ cfg_oom_panics = true).

(** The reservation of [push] and [insert]. *)
Lemma add_reserve_wp t self l o d w x :
  orep t self l o d w -> good t x -> nzst t -> can_align t o (vsize t x) (valign t x) ->
  run (owned x (v_reserve_capacity_bytes_align t self 1 (vsize t x) (valign t x))) w
    (fun _ w' => exists o' d', orep t self l o' d' w' /\ quiet self w w' /\
       zlen l < o_cap t o' /\ o_blen t o' l + vsize t x <= o_bcap t o' /\
       (kind_of t = KUnaligned -> valign t x <= o_al t o') /\
       o_al t o' = req_al t o (valign t x) /\
       reserve_post t self l o 1 (vsize t x) (valign t x) w ROk w')
    (add_panic t self l o x w)
    (fun w' => abort_ok w w').
Proof.
  intros R G Nz CA. pose proof (good_size t x G) as Sx. pose proof (good_align t x G) as Ax.
  assert (SR : sized_request t 1 (vsize t x)). { intros K. rewrite (vsize_sized t x K G). lia. }
  unfold owned. apply run_on_unwind. unfold v_reserve_capacity_bytes_align. apply run_bind.
  eapply run_conseq. { eapply (v_try_reserve_cba_wp t self l o d w 1 (vsize t x) (valign t x)); eauto; lia. }
  all: cbv beta; try (intros; contradiction).
  - intros r w1 P. destruct r as [|e].
    + apply run_ret. pose proof P as (o' & d' & R1 & Q1 & Ge & Noop & Res).
      destruct Res as (Cap & Byt & Al & Gr & Gs). specialize (Byt SR).
      assert (AL : o_al t o' = req_al t o (valign t x)).
      { destruct Al as [?|(K & E1 & E2 & E3)]; auto. destruct (CA K) as [?|[?|?]].
        - lia.
        - rewrite E1. unfold req_al. rewrite K. lia.
        - destruct Gr as [[Mono _] _]; [congruence|]. lia. }
      exists o', d'. ands; auto; try lia. intros K. rewrite AL. unfold req_al. rewrite K. lia.
    + destruct P as (o' & d' & R1 & Q1 & Ge & Noop & Res & _). pose proof (proj1 Q1) as Fr.
      destruct e; cbn [unwrap_try_reserve_result].
      * apply run_panic. apply run_drop_value; intros D.
        -- unfold add_panic. ands; auto.
           ++ apply repr_drops. eapply orep_repr; eauto.
           ++ eapply frame_trans. exact Fr. apply frame_set_drops.
           ++ proj. now rewrite (proj2 Q1).
           ++ unfold reserve_fails. tauto.
        -- right. rewrite (proj2 Q1) in D. exists (length (w_drops w)). split; auto. proj. rewrite (proj2 Q1), app_length. cbn. lia.
      * unfold handle_alloc_error. destruct cfg_oom_panics eqn:Om.
        -- apply run_panic. apply run_drop_value; intros D.
           ++ unfold add_panic. ands; auto.
              ** apply repr_drops. eapply orep_repr; eauto.
              ** eapply frame_trans. exact Fr. apply frame_set_drops.
              ** proj. now rewrite (proj2 Q1).
              ** right; right. destruct Res as (k & Hk & Ek). exists k; auto.
           ++ left. destruct Res as (k & Hk & Ek). exists k; auto.
        -- left. exact Res.
  - intros r w1 (-> & D & R1 & Q1 & F). apply run_drop_value; intros Dp.
    + unfold add_panic. ands; auto.
      * now apply repr_drops.
      * eapply frame_trans. exact (proj1 Q1). apply frame_set_drops.
      * proj. now rewrite (proj2 Q1).
    + right. rewrite (proj2 Q1) in Dp. exists (length (w_drops w)). split; auto. proj. rewrite (proj2 Q1), app_length. cbn. lia.
Qed.

(** src/lib.rs [push]. *)
Lemma v_push_wp t self l o d w x :
  orep t self l o d w -> good t x -> nzst t -> can_align t o (vsize t x) (valign t x) ->
  run (v_push t self x) w
    (fun _ w' => exists o' o1 d' w1, orep t self (l ++ [x]) o' d' w' /\ quiet self w w' /\
       o_cap t o' = o_cap t o1 /\ o_bcap t o' = o_bcap t o1 /\ o_al t o' = o_al t o1 /\ o_ptr o' = o_ptr o1 /\
       o_al t o1 = req_al t o (valign t x) /\
       (exists d1, orep t self l o1 d1 w1) /\
       reserve_post t self l o 1 (vsize t x) (valign t x) w ROk w1 /\
       w_nalloc w' = w_nalloc w1 /\ w_moved w' = w_moved w1)
    (add_panic t self l o x w)
    (fun w' => abort_ok w w').
Proof.
  intros R G Nz CA. unfold v_push. apply run_bind.
  eapply run_conseq. { eapply add_reserve_wp; eauto. } all: cbv beta; auto.
  intros [] w1 (o1 & d1 & R1 & Q1 & Cp & Bt & Al & Ra & Post).
  destruct (p_push_unchecked_eq t self l o1 d1 w1 x R1 G Cp Bt Al) as (d' & w' & E & R' & Q' & Na & Mv).
  eapply run_eq1; eauto. destruct (o_push_same t o1 l x) as (E1 & E2 & E3 & E4 & E5).
  exists (o_push t o1 l x), o1, d', w1. ands; eauto. eapply quiet_trans; eauto.
Qed.
End WithConfig.
