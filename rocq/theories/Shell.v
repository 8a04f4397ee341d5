(** Objects separated from the sequence they hold: what is needed while elements are being moved, and how the bookkeeping
    follows from the new sequence. *)
From Coq Require Import ZArith List Bool Lia.
From Verif Require Import Types World ValidSize Emplace SizedVec AlignedVec UnalignedVec Api Spec Bytes Arith Wp Mem Repr
  Access Reserve Realign Orep Push Deal.
Import ListNotations.
Open Scope Z_scope.
Open Scope m_scope.

Section WithConfig.
Context {C : Config}.

(** The same buffer with the bookkeeping of [l]. *)
Definition o_with (t : ty) (o : obj) (l : list value) : obj :=
  match o with
  | OS v => OS (SVec (sv_ptr v) (sv_cap v) (zlen l))
  | OA v => OA (AVec (av_ptr v) (av_bcap v) (infos_of t 1 0 l) (av_icap v))
  | OU v => OU (UVec (uv_ptr v) (uv_bcap v) (infos_of t (uv_align v) 0 l) (uv_icap v) (uv_align v))
  | ODead => ODead
  end.
Lemma o_with_same t o l : o_cap t (o_with t o l) = o_cap t o /\ o_bcap t (o_with t o l) = o_bcap t o /\
  o_al t (o_with t o l) = o_al t o /\ o_pal (o_with t o l) = o_pal o /\ o_ptr (o_with t o l) = o_ptr o.
Proof. destruct o; ands; reflexivity. Qed.
Lemma o_with_twice t o l m : o_with t (o_with t o l) m = o_with t o m.
Proof. destruct o; reflexivity. Qed.

(** The part of the invariant that does not depend on the elements. *)
Definition core (t : ty) (o : obj) : Prop :=
  match o with
  | OS v => kind_of t = KSized /\ wf_ty t /\ 0 <= sv_cap v /\ (s_size t = 0 -> sv_cap v = 0) /\
            sv_cap v * s_size t <= isize_max - (s_align t - 1)
  | OA v => kind_of t = KAligned /\ wf_ty t /\ av_bcap v <= isize_max - (static_align t - 1) /\ icap_ok t (av_icap v)
  | OU v => kind_of t = KUnaligned /\ wf_ty t /\ pow2 (uv_align v) /\ uv_bcap v mod uv_align v = 0 /\
            uv_bcap v <= isize_max - (uv_align v - 1) /\ icap_ok t (uv_icap v)
  | ODead => False
  end.
(** [l] fits into [o]. *)
Definition holds (t : ty) (o : obj) (l : list value) : Prop :=
  Forall (good t) l /\ (kind_of t = KUnaligned -> Forall (fun x => valign t x <= o_al t o) l) /\
  o_blen t o l <= o_bcap t o /\ zlen l <= o_cap t o.
Definition shell (t : ty) (self : nat) (o : obj) (d : list byte) (w : world) : Prop :=
  nth_error (w_vecs w) self = Some o /\ core t o /\ buf (w_heap w) (o_ptr o) (o_al t o) (o_bcap t o) d.

Lemma core_with t o l : core t (o_with t o l) <-> core t o.
Proof. destruct o; reflexivity. Qed.
Lemma holds_with t o l m : holds t (o_with t o l) m <-> holds t o m.
Proof. destruct o; reflexivity. Qed.

Lemma orep_iff t self l o d w :
  orep t self l o d w <-> shell t self o d w /\ o_with t o l = o /\ holds t o l /\ contents t (o_pal o) 0 l d.
Proof.
  unfold shell, core, holds, o_with, o_blen. destruct o as [v|v|v|]; ocbn; [| | |tauto]; split.
  - intros R. pose proof (s_fit _ _ _ _ _ _ R). destruct R. rewrite plen_sized in * by auto.
    destruct v as [p c n]; cbn [sv_ptr sv_cap sv_len] in *; subst. ands; auto; congruence.
  - intros ((O & (K & W & P & Zs & Bc) & Bu) & E & (G & A & F & L) & Ct).
    injection E as E. constructor; auto. rewrite <- E. auto.
  - intros R. destruct R. destruct v as [p c n q]; cbn [av_ptr av_bcap av_infos av_icap] in *; subst. ands; auto; congruence.
  - intros ((O & (K & W & P & I) & Bu) & E & (G & A & F & L) & Ct).
    injection E as E. constructor; auto. rewrite <- E. auto.
  - intros R. destruct R. destruct v as [p c n q a]; cbn [uv_ptr uv_bcap uv_infos uv_icap uv_align] in *; subst. ands; auto; congruence.
  - intros ((O & (K & W & P & M & Bc & I) & Bu) & E & (G & A & F & L) & Ct).
    injection E as E. constructor; auto. rewrite <- E. auto.
Qed.
Lemma orep_shell t self l o d w : orep t self l o d w -> shell t self o d w.
Proof. intros R. now apply orep_iff in R. Qed.
Lemma orep_with t self l o d w : orep t self l o d w -> o_with t o l = o.
Proof. intros R. now apply orep_iff in R. Qed.
Lemma orep_holds t self l o d w : orep t self l o d w -> holds t o l.
Proof. intros R. now apply orep_iff in R. Qed.

Lemma shell_owned t self o d w : shell t self o d w -> owned_block w self = ptr_block (o_ptr o).
Proof. intros (E & K & _). unfold owned_block. rewrite E. destruct o; cbn [core] in K; try tauto; reflexivity. Qed.
Lemma shell_put t self o d d' w : shell t self o d w -> zlen d' = zlen d ->
  shell t self o d' (set_heap (hput (w_heap w) (o_ptr o) d') w).
Proof. intros (E & K & B) L. unfold shell. proj. ands; auto. eapply buf_hput; eauto. Qed.
Lemma shell_frame_put t self o d d' w : shell t self o d w -> quiet self w (set_heap (hput (w_heap w) (o_ptr o) d') w).
Proof. intros S. split; auto. apply frame_hput. eapply shell_owned; eauto. Qed.
Lemma shell_agree t self o d w w' : shell t self o d w -> nth_error (w_vecs w') self = nth_error (w_vecs w) self ->
  (forall b, ptr_block (o_ptr o) = Some b -> heap_get (w_heap w') b = heap_get (w_heap w) b) -> shell t self o d w'.
Proof. intros (E & K & B) A H. unfold shell. ands; auto. congruence. eapply buf_agree; eauto. Qed.
Lemma shell_within t self o d fv fb w w' :
  within fv fb w w' -> shell t self o d w -> apart self fv fb w -> shell t self o d w'.
Proof.
  intros (A1 & _ & _ & _ & A5 & _) R (B1 & B2 & B3). eapply shell_agree; eauto.
  intros b P. apply A5. apply B3. rewrite (shell_owned _ _ _ _ _ R). auto.
Qed.
(** Installing the bookkeeping of a sequence whose bytes are in place. *)
Lemma shell_set t self o d w l : shell t self o d w ->
  shell t self (o_with t o l) d (set_vecs (upd (w_vecs w) self (o_with t o l)) w) /\
  quiet self w (set_vecs (upd (w_vecs w) self (o_with t o l)) w).
Proof.
  intros S. pose proof S as (E & K & B). pose proof (nth_error_lt _ _ _ E) as L. split.
  - unfold shell. proj. ands.
    + now apply upd_same.
    + now apply core_with.
    + destruct (o_with_same t o l) as (_ & -> & -> & _ & ->). auto.
  - split; auto. apply frame_set_obj with (p := o_ptr o); auto.
    + destruct o; cbn [core] in K; try tauto; reflexivity.
    + eapply shell_owned; eauto.
Qed.
Lemma shell_make t self o d w l : shell t self o d w -> holds t o l -> contents t (o_pal o) 0 l d ->
  orep t self l (o_with t o l) d (set_vecs (upd (w_vecs w) self (o_with t o l)) w).
Proof.
  intros S H Ct. apply orep_iff. ands.
  - now apply shell_set.
  - apply o_with_twice.
  - now apply holds_with.
  - destruct (o_with_same t o l) as (_ & _ & _ & -> & _). auto.
Qed.
(** With the bookkeeping already in place. *)
Lemma shell_orep t self o d w l : shell t self o d w -> o_with t o l = o -> holds t o l -> contents t (o_pal o) 0 l d ->
  orep t self l o d w.
Proof. intros. apply orep_iff. ands; auto. Qed.
End WithConfig.

(** ** Shifting bookkeeping *)
Lemma infos_shift t al s k l :
  map (fun i => Info (i_rem i) (i_end i + k)) (infos_of t al s l) = infos_of t al (s + k) l.
Proof.
  revert s; induction l; intros s; cbn [infos_of map]; auto. rewrite IHl. unfold info_of. proj.
  f_equal; f_equal; lia.
Qed.
Lemma infos_end_le t al l i : 0 < al -> Forall (good t) l -> In i (infos_of t al 0 l) -> 0 <= i_end i <= ulen t al l.
Proof.
  intros P G I. apply In_nth_error in I as [k E]. rewrite infos_of_nth in E.
  destruct (nth_error l k) as [x|] eqn:X; [|discriminate]. injection E as <-. cbn [info_of i_end].
  destruct (plen_firstn_le t al P l k x G X). pose proof (plen_firstn_nonneg t al P l k G).
  assert (good t x) by (rewrite Forall_forall in G; apply G; eapply nth_error_In; eauto).
  pose proof (good_size t x H2). lia.
Qed.
Lemma mapM_map {A B} (f : A -> M B) (g : A -> B) l w :
  (forall x, In x l -> f x w = (Ok (g x), w)) -> mapM f l w = (Ok (map g l), w).
Proof.
  induction l; intros H; [reflexivity|]. cbn [mapM map]. erewrite bind_eq by (apply H; now left).
  erewrite bind_eq. 2: { apply IHl. intros; apply H; now right. } reflexivity.
Qed.
Lemma in_skipn {A} n (l : list A) x : In x (skipn n l) -> In x l.
Proof. intros. rewrite <- (firstn_skipn n l). apply in_or_app; auto. Qed.

Lemma infos_add_eq va t al l i k w : 0 < al -> 1 <= va -> Forall (good t) l -> (i <= length l)%nat ->
  ulen t al l + k <= isize_max - (va - 1) ->
  infos_add_from va (infos_of t al 0 l) i k w =
  (Ok (infos_of t al 0 (firstn i l) ++ infos_of t al (plen t al (firstn i l) + k) (skipn i l)), w).
Proof.
  intros P V G L B. unfold infos_add_from. rewrite infos_of_length, (proj2 (Nat.leb_le _ _)) by auto.
  erewrite bind_eq.
  2: { apply (mapM_map _ (fun i => Info (i_rem i) (i_end i + k))). intros x I.
       apply in_skipn in I. pose proof (infos_end_le t al l x P G I).
       erewrite bind_eq by (apply vs_unchecked_add_eq; lia). reflexivity. }
  rewrite infos_of_skipn, infos_shift, infos_of_firstn. reflexivity.
Qed.
Lemma infos_insert_eq {C : Config} infos icap i x w : zlen infos < icap -> (i <= length infos)%nat ->
  infos_insert infos icap i x w = (Ok (firstn i infos ++ x :: skipn i infos), w).
Proof.
  intros L I. unfold infos_insert. destruct (Z.ltb_spec (zlen infos) icap); [|lia].
  destruct (Nat.leb_spec i (length infos)); [|lia].
  unfold dassert. rewrite andb_false_r. reflexivity.
Qed.
Lemma infos_of_insert t al l i x : (i <= length l)%nat ->
  infos_of t al 0 (insert_at i x l) =
  infos_of t al 0 (firstn i l) ++ info_of t (plen t al (firstn i l)) x ::
  infos_of t al (plen t al (firstn i l) + psz t al x) (skipn i l).
Proof. intros L. unfold insert_at. rewrite infos_of_app. reflexivity. Qed.

(** ** The gap *)
Section Gap.
Variables (t : ty) (al : Z) (l : list value) (i : nat) (x : value) (d : list byte).
Hypothesis (P : 0 < al) (G : Forall (good t) l) (Gx : good t x) (L : (i <= length l)%nat).
Let s := plen t al (firstn i l).
Let n := ulen t al l - s.
Let k := psz t al x.
Hypothesis (N : 0 <= n) (F : plen t al l + k <= zlen d) (D : contents t al 0 l d).

Lemma gap_facts : 0 <= s /\ 0 <= k /\ vsize t x <= k /\ s + k + n <= zlen d /\ n = ulen t al (skipn i l) /\ zlen (v_bytes x) = vsize t x /\ 0 <= vsize t x.
Proof.
  pose proof (plen_firstn_nonneg t al P l i G). pose proof (psz_nonneg t al P x Gx). pose proof (psz_ge t al P x).
  pose proof (ulen_le t al P l). pose proof (good_size t x Gx). pose proof (good_bytes t x Gx).
  assert (n = ulen t al (skipn i l)).
  { unfold n, s. destruct (skipn i l) as [|y r] eqn:E.
    - pose proof (firstn_skipn i l) as X. rewrite E, app_nil_r in X. cbn [ulen]. unfold n, s in N. rewrite X in *. lia.
    - rewrite <- (firstn_skipn i l) at 1. rewrite E. rewrite ulen_app by discriminate. lia. }
  ands; auto; unfold n, s, k in *; lia.
Qed.

Definition gapped : list byte := splice (s + k) (sub s n d) d.
Lemma gapped_len : zlen gapped = zlen d.
Proof. destruct gap_facts as (? & ? & ? & ? & _). unfold gapped. rewrite splice_len; auto; try lia. rewrite sub_len; lia. Qed.

Lemma gap_fill : contents t al 0 (insert_at i x l) (splice s (v_bytes x) gapped).
Proof.
  destruct gap_facts as (S0 & K0 & Kx & B & En & Lx & X0). pose proof gapped_len as GL.
  pose proof D as D'. rewrite <- (firstn_skipn i l) in D'. apply contents_app in D' as [D1 D2]. rewrite Z.add_0_l in D2. fold s in D2.
  assert (Ls : zlen (sub s n d) = n) by (rewrite sub_len; lia).
  pose proof (Forall_firstn' _ l i G) as G1. pose proof (Forall_skipn' _ l i G) as G2.
  pose proof (ulen_le t al P (firstn i l)) as U1. fold s in U1.
  unfold insert_at. apply contents_app. split.
  - apply contents_splice_before; auto; try lia. apply contents_splice_before; auto; lia.
  - rewrite Z.add_0_l. fold s. cbn [contents]. fold k. split.
    + apply sub_splice_same; lia.
    + apply contents_splice_after; auto; try lia.
      apply (contents_move t al P s (s + k) (skipn i l) d); auto; try lia.
      rewrite <- En. unfold gapped. symmetry. rewrite sub_splice_same; auto; lia.
Qed.

Lemma gap_restore bs : zlen bs = vsize t x ->
  let g := splice s bs gapped in contents t al 0 l (splice s (sub (s + k) n g) g).
Proof.
  intros Lb. cbv zeta. destruct gap_facts as (S0 & K0 & Kx & B & En & Lx & X0). pose proof gapped_len as GL.
  pose proof D as D'. rewrite <- (firstn_skipn i l) in D'. apply contents_app in D' as [D1 D2]. rewrite Z.add_0_l in D2. fold s in D2.
  assert (Ls : zlen (sub s n d) = n) by (rewrite sub_len; lia).
  pose proof (Forall_firstn' _ l i G) as G1. pose proof (Forall_skipn' _ l i G) as G2.
  pose proof (ulen_le t al P (firstn i l)) as U1. fold s in U1.
  set (g := splice s bs gapped). assert (Lg : zlen g = zlen d) by (unfold g; rewrite splice_len; lia).
  assert (Lq : zlen (sub (s + k) n g) = n) by (rewrite sub_len; lia).
  rewrite <- (firstn_skipn i l). apply contents_app. rewrite Z.add_0_l. fold s. split.
  - apply contents_splice_before; auto; try lia. unfold g. apply contents_splice_before; auto; try lia.
    apply contents_splice_before; auto; lia.
  - apply (contents_move t al P s s (skipn i l) d); auto; try lia.
    + rewrite splice_len; lia.
    + rewrite <- En. symmetry. rewrite sub_splice_same; try lia. unfold g. rewrite sub_splice_after by lia.
      unfold gapped. rewrite sub_splice_same; auto; lia.
Qed.
End Gap.
