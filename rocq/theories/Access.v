(** Reading elements: [get], [index], the view of a represented vector. *)
From Coq Require Import ZArith List Bool Lia.
From Verif Require Import Types World ValidSize Emplace SizedVec AlignedVec UnalignedVec Api Spec Bytes Arith Wp Mem Repr.
Import ListNotations.
Open Scope Z_scope.
Open Scope m_scope.

Lemma nth_error_some_lt {A} (l : list A) i : (i < length l)%nat -> exists x, nth_error l i = Some x.
Proof. intros. destruct (nth_error l i) eqn:E; eauto. apply nth_error_None in E. lia. Qed.
Lemma firstn_S_nth {A} (l : list A) i x : nth_error l i = Some x -> firstn (S i) l = firstn i l ++ [x].
Proof.
  revert i; induction l; intros i E; destruct i; simpl in *; try discriminate.
  - now injection E as ->.
  - f_equal. now apply IHl.
Qed.
Lemma plen_firstn_S t al l i x : nth_error l i = Some x ->
  plen t al (firstn (S i) l) = plen t al (firstn i l) + psz t al x.
Proof. intros E. rewrite (firstn_S_nth _ _ _ E), plen_app. simpl. lia. Qed.
Lemma good_nth t l i x : Forall (good t) l -> nth_error l i = Some x -> good t x.
Proof. intros G E. rewrite Forall_forall in G. apply G. eapply nth_error_In; eauto. Qed.

Section WithConfig.
Context {C : Config}.

(** Facts about one element of an aligned vector. *)
Lemma get_a_eq w self v : nth_error (w_vecs w) self = Some (OA v) -> get_a self w = (Ok v, w).
Proof. unfold get_a; now intros ->. Qed.
Lemma get_u_eq w self v : nth_error (w_vecs w) self = Some (OU v) -> get_u self w = (Ok v, w).
Proof. unfold get_u; now intros ->. Qed.
Lemma get_s_eq w self v : nth_error (w_vecs w) self = Some (OS v) -> get_s self w = (Ok v, w).
Proof. unfold get_s; now intros ->. Qed.

Lemma a_start_offset_eq t l v w i :
  av_infos v = infos_of t 1 0 l -> (i <= length l)%nat ->
  a_start_offset v i w = (Ok (plen t 1 (firstn i l)), w).
Proof.
  intros I L. unfold a_start_offset. destruct i; [reflexivity|].
  destruct (nth_error_some_lt l i) as [x E]; [lia|].
  rewrite I, infos_of_nth, E. cbn [info_of i_end]. rewrite (plen_firstn_S _ _ _ _ _ E).
  unfold psz. rewrite pad_1. reflexivity.
Qed.

Lemma u_start_offset_eq t l v w i :
  uv_infos v = infos_of t (uv_align v) 0 l -> pow2 (uv_align v) -> Forall (good t) l ->
  plen t (uv_align v) l <= isize_max -> (i <= length l)%nat ->
  u_start_offset v i w = (Ok (plen t (uv_align v) (firstn i l)), w).
Proof.
  intros I P G B L. unfold u_start_offset. destruct i; [reflexivity|].
  destruct (nth_error_some_lt l i) as [x E]; [lia|].
  pose proof (pow2_pos _ P) as Pa.
  pose proof (plen_firstn_le t _ Pa l i x G E) as [P1 _].
  pose proof (plen_firstn_nonneg t _ Pa l i G). pose proof (good_size t x (good_nth _ _ _ _ G E)).
  rewrite I, infos_of_nth, E. cbn [info_of i_end]. rewrite Z.add_0_l.
  assert (Q : pad (plen t (uv_align v) (firstn i l) + vsize t x) (uv_align v)
              = plen t (uv_align v) (firstn i l) + psz t (uv_align v) x).
  { apply pad_add; auto. now apply plen_mod. }
  rewrite unchecked_pad_to_spec; auto; try lia.
  rewrite Q. rewrite (plen_firstn_S _ _ _ _ _ E). reflexivity.
Qed.

Lemma info_meta t s x : good t x -> as_metadata t (i_rem (info_of t s x)) (vsize t x) = v_meta x.
Proof. intros [_ S]. exact S. Qed.

Lemma a_raw_eq t self l v d w i x :
  arep t self l v d w -> nth_error l i = Some x ->
  a_get_unchecked_raw t self i w = (Ok (Wide (padd (av_ptr v) (plen t 1 (firstn i l))) (v_meta x)), w).
Proof.
  intros R E. destruct R. pose proof (nth_error_lt _ _ _ E).
  pose proof (good_nth _ _ _ _ ar_good E) as Gx. pose proof (good_size t x Gx) as Sx.
  pose proof (pow2_pos _ (static_align_pow2 t ar_wf)) as Pa.
  destruct (plen_firstn_le t 1 ltac:(lia) l i x ar_good E) as [P1 P2].
  pose proof (ulen_le t 1 ltac:(lia) l).
  pose proof (plen_firstn_nonneg t 1 ltac:(lia) l i ar_good).
  unfold a_get_unchecked_raw. erewrite bind_eq by (eapply get_a_eq; eauto).
  erewrite bind_eq. 2:{ apply dassert_eq. apply Nat.ltb_lt. rewrite ar_infos, infos_of_length. auto. }
  erewrite bind_eq. 2:{ eapply a_start_offset_eq; eauto. lia. }
  rewrite ar_infos, infos_of_nth, E. cbn [info_of i_end i_rem]. rewrite Z.add_0_l.
  erewrite bind_eq by (apply vs_unchecked_sub_eq; lia).
  erewrite bind_eq by (eapply ptr_add_buf; eauto; lia).
  unfold ret. do 3 f_equal. rewrite Z.add_simpl_l. apply (proj2 Gx).
Qed.

Lemma u_raw_eq t self l v d w i x :
  urep t self l v d w -> nth_error l i = Some x ->
  u_get_unchecked_raw t self i w = (Ok (Wide (padd (uv_ptr v) (plen t (uv_align v) (firstn i l))) (v_meta x)), w).
Proof.
  intros R E. destruct R. pose proof (nth_error_lt _ _ _ E).
  pose proof (good_nth _ _ _ _ ur_good E) as Gx. pose proof (good_size t x Gx) as Sx.
  pose proof (pow2_pos _ ur_al) as Pa.
  destruct (plen_firstn_le t _ Pa l i x ur_good E) as [P1 P2].
  pose proof (ulen_le t _ Pa l). 
  pose proof (plen_firstn_nonneg t _ Pa l i ur_good).
  unfold u_get_unchecked_raw. erewrite bind_eq by (eapply get_u_eq; eauto).
  erewrite bind_eq. 2:{ apply dassert_eq. apply Nat.ltb_lt. rewrite ur_infos, infos_of_length. auto. }
  erewrite bind_eq. 2:{ eapply u_start_offset_eq; eauto; lia. }
  rewrite ur_infos, infos_of_nth, E. cbn [info_of i_end i_rem]. rewrite Z.add_0_l.
  erewrite bind_eq by (apply vs_unchecked_sub_eq; lia).
  erewrite bind_eq by (eapply ptr_add_buf; eauto; lia).
  unfold ret. do 3 f_equal. rewrite Z.add_simpl_l. apply (proj2 Gx).
Qed.

Lemma plen_firstn_sized t l i : kind_of t = KSized -> Forall (good t) l -> (i <= length l)%nat ->
  plen t 1 (firstn i l) = Z.of_nat i * s_size t.
Proof.
  intros K G L. rewrite plen_sized; auto. unfold zlen. rewrite firstn_length_le; auto.
  now apply Forall_firstn'.
Qed.

(** An element fits in the capacity, also in bytes. *)
Lemma s_fit t self l v d w : srep t self l v d w -> zlen l * s_size t <= sv_cap v * s_size t.
Proof.
  intros R. destruct R. pose proof (s_size_nonneg t sr_kind sr_wf).
  unfold s_capacity in sr_fit. destruct (Z.eqb_spec (s_size t) 0) as [Z0|N].
  - rewrite Z0. lia.
  - apply Z.mul_le_mono_nonneg_r; lia.
Qed.

Lemma s_raw_eq t self l v d w i x :
  srep t self l v d w -> nth_error l i = Some x ->
  s_get_unchecked_raw t self i w = (Ok (Wide (padd (sv_ptr v) (plen t 1 (firstn i l))) (v_meta x)), w).
Proof.
  intros R E. pose proof (s_fit _ _ _ _ _ _ R) as F. destruct R. pose proof (nth_error_lt _ _ _ E) as Hi.
  pose proof (good_nth _ _ _ _ sr_good E) as Gx.
  pose proof (s_size_nonneg t sr_kind sr_wf).
  unfold s_get_unchecked_raw. erewrite bind_eq by (eapply get_s_eq; eauto).
  erewrite bind_eq. 2:{ apply dassert_eq. apply Z.ltb_lt. rewrite sr_slen. unfold zlen. lia. }
  unfold elem_add. rewrite plen_firstn_sized by (auto; lia).
  erewrite bind_eq. 2:{ eapply ptr_add_buf; eauto. unfold zlen in F. nia. }
  unfold ret. now rewrite (good_sized t x).
Qed.

(** The address of element [i]. *)
Definition elem_ptr (t : ty) (o : obj) (l : list value) (i : nat) : ptr :=
  match o with
  | OS v => padd (sv_ptr v) (plen t 1 (firstn i l))
  | OA v => padd (av_ptr v) (plen t 1 (firstn i l))
  | OU v => padd (uv_ptr v) (plen t (uv_align v) (firstn i l))
  | ODead => null
  end.

(** What every represented vector provides. *)
Lemma a_ref_ok t self l v d w i x : arep t self l v d w -> nth_error l i = Some x ->
  ref_ok t (w_heap w) (Wide (padd (av_ptr v) (plen t 1 (firstn i l))) (v_meta x)) = true.
Proof.
  intros R E. destruct R. pose proof (good_nth _ _ _ _ ar_good E) as Gx. pose proof (good_size t x Gx) as Sx.
  destruct (plen_firstn_le t 1 ltac:(lia) l i x ar_good E) as [P1 P2].
  unfold vsize in *. unfold psz in P1. rewrite pad_1 in P1.
  eapply ref_ok_buf; eauto; try (unfold vsize in *; lia).
  - now apply plen_firstn_nonneg.
  - apply pow2_pos, (good_align t x Gx).
  - apply pow2_pos, static_align_pow2; auto.
  - now apply (valign_aligned t x).
  - apply (plen1_mod t (firstn i l)); auto. now apply Forall_firstn'.
Qed.
Lemma u_ref_ok t self l v d w i x : urep t self l v d w -> nth_error l i = Some x ->
  ref_ok t (w_heap w) (Wide (padd (uv_ptr v) (plen t (uv_align v) (firstn i l))) (v_meta x)) = true.
Proof.
  intros R E. destruct R. pose proof (good_nth _ _ _ _ ur_good E) as Gx. pose proof (good_size t x Gx) as Sx.
  pose proof (pow2_pos _ ur_al) as Pa. pose proof (good_align t x Gx) as Ga.
  destruct (plen_firstn_le t _ Pa l i x ur_good E) as [P1 P2].
  pose proof (psz_ge t _ Pa x). unfold vsize, valign in *.
  assert (D : (align_of_val t (v_meta x) | uv_align v)).
  { apply pow2_divide; auto. rewrite Forall_forall in ur_aligned. apply ur_aligned. eapply nth_error_In; eauto. }
  eapply ref_ok_buf; eauto; try lia.
  - now apply plen_firstn_nonneg.
  - apply pow2_pos; auto.
  - apply mod_trans with (uv_align v); auto. now apply pow2_pos. now apply plen_mod.
Qed.
Lemma s_ref_ok t self l v d w i x : srep t self l v d w -> nth_error l i = Some x ->
  ref_ok t (w_heap w) (Wide (padd (sv_ptr v) (plen t 1 (firstn i l))) (v_meta x)) = true.
Proof.
  intros R E. pose proof (s_fit _ _ _ _ _ _ R) as F. destruct R.
  pose proof (good_nth _ _ _ _ sr_good E) as Gx. pose proof (good_size t x Gx) as Sx.
  destruct (plen_firstn_le t 1 ltac:(lia) l i x sr_good E) as [P1 P2].
  pose proof (nth_error_lt _ _ _ E). pose proof (s_size_mod t sr_kind sr_wf) as Sm.
  rewrite (plen_sized t l) in P1 by auto. unfold psz in P1. rewrite pad_1 in P1. unfold vsize in *.
  pose proof (pow2_pos _ (s_align_pow2 t sr_kind sr_wf)) as Pa.
  pose proof (valign_sized t x sr_kind Gx) as VA. unfold valign in VA.
  eapply ref_ok_buf; eauto; rewrite ?VA; try lia.
  - now apply plen_firstn_nonneg.
  - apply Z.divide_refl.
  - rewrite plen_firstn_sized by (auto; lia). apply mod_mul_0; auto.
Qed.

Lemma a_read_eq t self l v d w i x : arep t self l v d w -> nth_error l i = Some x ->
  read_value t (Wide (padd (av_ptr v) (plen t 1 (firstn i l))) (v_meta x)) w = (Ok x, w).
Proof.
  intros R E. destruct R. pose proof (good_nth _ _ _ _ ar_good E) as Gx. pose proof (good_size t x Gx) as Sx.
  destruct (plen_firstn_le t 1 ltac:(lia) l i x ar_good E) as [P1 P2].
  pose proof (ulen_le t 1 ltac:(lia) l). pose proof (plen_firstn_nonneg t 1 ltac:(lia) l i ar_good).
  unfold read_value. cbn [wp wm]. change (size_of_val t (v_meta x)) with (vsize t x).
  erewrite bind_eq. 2:{ eapply mem_read_buf; eauto; lia. }
  pose proof (contents_nth t 1 0 l d i x ar_data E) as H1. rewrite Z.add_0_l in H1. rewrite H1. now destruct x.
Qed.
Lemma u_read_eq t self l v d w i x : urep t self l v d w -> nth_error l i = Some x ->
  read_value t (Wide (padd (uv_ptr v) (plen t (uv_align v) (firstn i l))) (v_meta x)) w = (Ok x, w).
Proof.
  intros R E. destruct R. pose proof (good_nth _ _ _ _ ur_good E) as Gx. pose proof (good_size t x Gx) as Sx.
  pose proof (pow2_pos _ ur_al) as Pa.
  destruct (plen_firstn_le t _ Pa l i x ur_good E) as [P1 P2].
  pose proof (ulen_le t _ Pa l). pose proof (plen_firstn_nonneg t _ Pa l i ur_good).
  unfold read_value. cbn [wp wm]. change (size_of_val t (v_meta x)) with (vsize t x).
  erewrite bind_eq. 2:{ eapply mem_read_buf; eauto; lia. }
  pose proof (contents_nth t _ 0 l d i x ur_data E) as H1. rewrite Z.add_0_l in H1. rewrite H1. now destruct x.
Qed.
Lemma s_read_eq t self l v d w i x : srep t self l v d w -> nth_error l i = Some x ->
  read_value t (Wide (padd (sv_ptr v) (plen t 1 (firstn i l))) (v_meta x)) w = (Ok x, w).
Proof.
  intros R E. pose proof (s_fit _ _ _ _ _ _ R) as F.
  destruct R. pose proof (good_nth _ _ _ _ sr_good E) as Gx. pose proof (good_size t x Gx) as Sx.
  destruct (plen_firstn_le t 1 ltac:(lia) l i x sr_good E) as [P1 P2].
  rewrite (plen_sized t l) in P1 by auto.
  pose proof (ulen_le t 1 ltac:(lia) l). pose proof (plen_firstn_nonneg t 1 ltac:(lia) l i sr_good).
  unfold psz in P1; rewrite pad_1 in P1.
  unfold read_value. cbn [wp wm]. change (size_of_val t (v_meta x)) with (vsize t x).
  erewrite bind_eq. 2:{ eapply mem_read_buf; eauto; lia. }
  pose proof (contents_nth t 1 0 l d i x sr_data E) as H1. rewrite Z.add_0_l in H1. rewrite H1. now destruct x.
Qed.

(** [len()]. *)
Lemma v_len_eq t self l w : repr t self l w -> v_len t self w = (Ok (zlen l), w).
Proof.
  unfold repr, v_len. destruct (kind_of t) eqn:K; intros (v & d & R); destruct R.
  - erewrite bind_eq by (eapply get_s_eq; eauto). unfold ret. now rewrite sr_slen.
  - erewrite bind_eq by (eapply get_a_eq; eauto). unfold ret. now rewrite ar_infos, infos_of_zlen.
  - erewrite bind_eq by (eapply get_u_eq; eauto). unfold ret. now rewrite ur_infos, infos_of_zlen.
Qed.

(** The element reference produced by the API reads back the element. *)
Lemma v_get_unchecked_eq t self l w i x : repr t self l w -> nth_error l i = Some x ->
  exists r, v_get_unchecked t self i w = (Ok r, w) /\ wm r = v_meta x /\ read_value t r w = (Ok x, w)
            /\ ref_ok t (w_heap w) r = true.
Proof.
  unfold repr, v_get_unchecked, p_get_unchecked_raw.
  destruct (kind_of t) eqn:K; intros (v & d & R) E.
  - eexists. split; [|split; [|split]].
    + erewrite bind_eq by (eapply s_raw_eq; eauto). unfold make_ref. erewrite s_ref_ok; eauto.
    + reflexivity.
    + eapply s_read_eq; eauto.
    + eapply s_ref_ok; eauto.
  - eexists. split; [|split; [|split]].
    + erewrite bind_eq by (eapply a_raw_eq; eauto). unfold make_ref. erewrite a_ref_ok; eauto.
    + reflexivity.
    + eapply a_read_eq; eauto.
    + eapply a_ref_ok; eauto.
  - eexists. split; [|split; [|split]].
    + erewrite bind_eq by (eapply u_raw_eq; eauto). unfold make_ref. erewrite u_ref_ok; eauto.
    + reflexivity.
    + eapply u_read_eq; eauto.
    + eapply u_ref_ok; eauto.
Qed.

Lemma v_get_some t self l w i x : repr t self l w -> nth_error l i = Some x ->
  exists r, v_get t self i w = (Ok (Some r), w) /\ wm r = v_meta x /\ read_value t r w = (Ok x, w)
            /\ ref_ok t (w_heap w) r = true.
Proof.
  intros R E. destruct (v_get_unchecked_eq _ _ _ _ _ _ R E) as (r & H & A & B & D).
  exists r. split; auto. unfold v_get. erewrite bind_eq by (eapply v_len_eq; eauto).
  pose proof (nth_error_lt _ _ _ E). rewrite (proj2 (Z.ltb_lt _ _)) by (unfold zlen; lia).
  erewrite bind_eq by eauto. reflexivity.
Qed.
Lemma v_get_none t self l w i : repr t self l w -> (length l <= i)%nat -> v_get t self i w = (Ok None, w).
Proof.
  intros R L. unfold v_get. erewrite bind_eq by (eapply v_len_eq; eauto).
  rewrite (proj2 (Z.ltb_ge _ _)) by (unfold zlen; lia). reflexivity.
Qed.

Lemma mapM_eq {A B} (f : A -> M B) (l : list A) (m : list B) w :
  Forall2 (fun x y => f x w = (Ok y, w)) l m -> mapM f l w = (Ok m, w).
Proof.
  induction 1; [reflexivity|]. simpl. erewrite bind_eq by eauto. erewrite bind_eq by eauto. reflexivity.
Qed.
Lemma Forall2_seq {A} (P : nat -> A -> Prop) l k :
  (forall i x, nth_error l i = Some x -> P (k + i)%nat x) -> Forall2 P (seq k (length l)) l.
Proof.
  revert k; induction l; intros k H; simpl; constructor.
  - specialize (H 0%nat a eq_refl). now rewrite Nat.add_0_r in H.
  - apply IHl. intros i x E. specialize (H (S i) x E). now replace (S k + i)%nat with (k + S i)%nat by lia.
Qed.

(** A represented vector shows its sequence. *)
Theorem repr_shows t self l w : repr t self l w -> shows t self l w.
Proof.
  intros R. unfold shows, v_view. erewrite bind_eq by (eapply v_len_eq; eauto).
  unfold zlen. rewrite Nat2Z.id. apply mapM_eq, Forall2_seq. intros i x E. simpl.
  destruct (v_get_some _ _ _ _ _ _ R E) as (r & H & _ & B & _).
  unfold v_index. erewrite bind_eq. 2:{ erewrite bind_eq by eauto. reflexivity. } exact B.
Qed.

(** A sequence shown by a vector is unique. *)
Lemma shows_unique t self l l' w : shows t self l w -> shows t self l' w -> l = l'.
Proof. unfold shows. congruence. Qed.

(** Representation only depends on the vector's object and its block. *)
Lemma repr_agree t self l w w' :
  repr t self l w -> nth_error (w_vecs w') self = nth_error (w_vecs w) self ->
  (forall b, owned_block w self = Some b -> heap_get (w_heap w') b = heap_get (w_heap w) b) ->
  repr t self l w'.
Proof.
  unfold repr. destruct (kind_of t) eqn:K; intros (v & d & R) E A; exists v, d; destruct R; constructor; auto; try congruence;
    eapply buf_agree; eauto; intros b P; apply A; unfold owned_block.
  - rewrite sr_obj. exact P.
  - rewrite ar_obj. exact P.
  - rewrite ur_obj. exact P.
Qed.
Lemma repr_owned_lt t self l w b : repr t self l w -> owned_block w self = Some b -> (b < length (w_heap w))%nat.
Proof.
  unfold repr, owned_block. destruct (kind_of t) eqn:K; intros (v & d & R) E; destruct R.
  - rewrite sr_obj in E. apply (buf_block _ _ _ _ _ _ sr_buf E).
  - rewrite ar_obj in E. apply (buf_block _ _ _ _ _ _ ar_buf E).
  - rewrite ur_obj in E. apply (buf_block _ _ _ _ _ _ ur_buf E).
Qed.

(** Two vectors that own different blocks. *)
Definition sep (w : world) (a b : nat) : Prop :=
  a <> b /\ forall k, owned_block w a = Some k -> owned_block w b <> Some k.

Lemma repr_frame t self l w w' other :
  frame other w w' -> repr t self l w -> sep w other self -> repr t self l w' /\ sep w' other self.
Proof.
  intros F R [N S]. split.
  - eapply repr_agree; eauto. apply (fr_vecs _ _ _ F); auto.
    intros b O. apply (fr_other _ _ _ F). eapply repr_owned_lt; eauto. intro; eapply S; eauto.
  - split; auto. intros k O O'. unfold owned_block in O'. rewrite (fr_vecs _ _ _ F) in O' by auto.
    change (owned_block w self = Some k) in O'.
    destruct (fr_owned _ _ _ F k O) as [O2|L]. eapply S; eauto.
    pose proof (repr_owned_lt _ _ _ _ _ R O'). lia.
Qed.
End WithConfig.
