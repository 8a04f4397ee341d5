(** The layout of a sequence of values in a buffer, and what it means for a vector object to represent a sequence. *)
From Coq Require Import ZArith List Bool Lia.
From Verif Require Import Types World ValidSize Emplace SizedVec AlignedVec UnalignedVec Api Spec Bytes Arith Wp Mem.
Import ListNotations.
Open Scope Z_scope.
Open Scope m_scope.

(** A value that survives the compressed metadata of src/helper.rs: everything except slices of zero-sized elements. *)
Definition storable (t : ty) (x : value) : Prop :=
  as_metadata t (from_metadata t (v_meta x)) (vsize t x) = v_meta x.
Definition good (t : ty) (x : value) : Prop := wf_value t x /\ storable t x.

Lemma good_of_wf t x : wf_value t x -> (forall a, t <> TSlice 0 a) -> good t x.
Proof.
  intros W N. split; auto. destruct W as [(L & _ & T) _]. unfold storable, vsize.
  destruct t; destruct (v_meta x) as [| n | id s a]; cbn in *; try tauto.
  destruct (Z.eqb_spec esize 0); [subst; now elim (N ealign)|].
  rewrite Z.div_mul; auto.
Qed.

Section Layout.
Variable t : ty.
Variable al : Z.

(** Bytes an element occupies including padding, total padded length, total length without the final padding. *)
Definition psz (x : value) : Z := pad (vsize t x) al.
Fixpoint plen (l : list value) : Z :=
  match l with [] => 0 | x :: r => psz x + plen r end.
Fixpoint ulen (l : list value) : Z :=
  match l with [] => 0 | [x] => vsize t x | x :: r => psz x + ulen r end.

Definition info_of (start : Z) (x : value) : info := Info (from_metadata t (v_meta x)) (start + vsize t x).
Fixpoint infos_of (start : Z) (l : list value) : list info :=
  match l with
  | [] => []
  | x :: r => info_of start x :: infos_of (start + psz x) r
  end.
Fixpoint contents (start : Z) (l : list value) (d : list byte) : Prop :=
  match l with
  | [] => True
  | x :: r => sub start (vsize t x) d = v_bytes x /\ contents (start + psz x) r d
  end.

Hypothesis al_pos : 0 < al.

Lemma good_size x : good t x -> 0 <= vsize t x <= isize_max.
Proof. intros [[(V & _) _] _]. destruct V as (H & P & L). unfold vsize. pose proof (pow2_pos _ P). lia. Qed.
Lemma good_bytes x : good t x -> zlen (v_bytes x) = vsize t x.
Proof. intros [[_ H] _]. exact H. Qed.
Lemma good_align x : good t x -> pow2 (valign t x).
Proof. intros [[(V & _) _] _]. apply V. Qed.
Lemma good_size_mod x : good t x -> vsize t x mod valign t x = 0.
Proof. intros [[(_ & V & _) _] _]. apply V. Qed.

Lemma psz_ge x : vsize t x <= psz x.
Proof. apply pad_ge; auto. Qed.
Lemma psz_mod x : psz x mod al = 0.
Proof. apply pad_mult; auto. Qed.
Lemma psz_nonneg x : good t x -> 0 <= psz x.
Proof. intros G. pose proof (good_size x G). pose proof (psz_ge x). lia. Qed.

Lemma plen_app l m : plen (l ++ m) = plen l + plen m.
Proof. induction l; simpl; auto. rewrite IHl; lia. Qed.
Lemma plen_mod l : plen l mod al = 0.
Proof. induction l; simpl. apply Z.mod_0_l; lia. apply mod_add_0; auto. apply psz_mod. Qed.
Lemma plen_nonneg l : Forall (good t) l -> 0 <= plen l.
Proof. induction 1; simpl; [lia|]. pose proof (psz_nonneg x H). lia. Qed.
Lemma ulen_cons x r : r <> [] -> ulen (x :: r) = psz x + ulen r.
Proof. destruct r; [congruence|reflexivity]. Qed.
Lemma ulen_snoc l x : ulen (l ++ [x]) = plen l + vsize t x.
Proof.
  induction l; [simpl; lia|]. change ((a :: l) ++ [x]) with (a :: (l ++ [x])). rewrite ulen_cons.
  - rewrite IHl. simpl. lia.
  - destruct l; discriminate.
Qed.
Lemma ulen_le l : ulen l <= plen l.
Proof.
  induction l as [|x l]; [simpl; lia|]. destruct l. simpl. pose proof (psz_ge x); lia.
  rewrite ulen_cons by discriminate. change (plen (x :: v :: l)) with (psz x + plen (v :: l)). lia.
Qed.
Lemma ulen_nonneg l : Forall (good t) l -> 0 <= ulen l.
Proof.
  induction 1; [simpl; lia|]. destruct l. simpl; pose proof (good_size x H); lia.
  rewrite ulen_cons by discriminate. pose proof (psz_nonneg x H). lia.
Qed.
Lemma pad_ulen l : pad (ulen l) al = plen l.
Proof.
  induction l as [|x l]. simpl; now apply pad_0. destruct l. simpl. unfold psz; lia.
  rewrite ulen_cons by discriminate. rewrite pad_add; auto; [|apply psz_mod]. rewrite IHl. reflexivity.
Qed.
Lemma ulen_app l m : m <> [] -> ulen (l ++ m) = plen l + ulen m.
Proof.
  intros N. induction l; [simpl; lia|]. change ((a :: l) ++ m) with (a :: (l ++ m)). rewrite ulen_cons.
  rewrite IHl; simpl; lia. destruct l; [|discriminate]. simpl. auto.
Qed.

Lemma infos_of_app s l m : infos_of s (l ++ m) = infos_of s l ++ infos_of (s + plen l) m.
Proof.
  revert s; induction l; intros; simpl. f_equal; lia. f_equal. rewrite IHl. do 2 f_equal; lia.
Qed.
Lemma infos_of_length s l : length (infos_of s l) = length l.
Proof. revert s; induction l; intros; simpl; auto. Qed.
Lemma infos_of_zlen s l : zlen (infos_of s l) = zlen l.
Proof. unfold zlen. now rewrite infos_of_length. Qed.
Lemma last_end_snoc a i : last_end (a ++ [i]) = i_end i.
Proof. unfold last_end. rewrite map_app. apply last_last. Qed.
Lemma last_end_infos l : last_end (infos_of 0 l) = ulen l.
Proof.
  destruct l as [|x l] using rev_ind; [reflexivity|]. rewrite infos_of_app. simpl infos_of at 2.
  rewrite last_end_snoc. rewrite ulen_snoc. simpl. lia.
Qed.
Lemma infos_of_nth s l i : nth_error (infos_of s l) i =
  match nth_error l i with Some x => Some (info_of (s + plen (firstn i l)) x) | None => None end.
Proof.
  revert s i; induction l; intros s i; destruct i; simpl; auto.
  - do 2 f_equal; lia.
  - rewrite IHl. destruct (nth_error l i); auto. do 2 f_equal; lia.
Qed.
Lemma infos_of_firstn s l i : firstn i (infos_of s l) = infos_of s (firstn i l).
Proof. revert s i; induction l; intros s i; destruct i; simpl; auto. now rewrite IHl. Qed.
Lemma infos_of_skipn s l i : skipn i (infos_of s l) = infos_of (s + plen (firstn i l)) (skipn i l).
Proof.
  revert s i; induction l; intros s i; destruct i; simpl; auto.
  - do 2 f_equal; lia.
  - rewrite IHl. f_equal; lia.
Qed.

Lemma contents_app s l m d : contents s (l ++ m) d <-> contents s l d /\ contents (s + plen l) m d.
Proof.
  revert s; induction l; intros; simpl.
  - rewrite Z.add_0_r. tauto.
  - rewrite IHl. replace (s + psz a + plen l) with (s + (psz a + plen l)) by lia. tauto.
Qed.

(** Moving a whole run of elements. *)
Lemma contents_move s s' l d d' :
  Forall (good t) l -> 0 <= s -> 0 <= s' -> s + ulen l <= zlen d -> s' + ulen l <= zlen d' ->
  sub s (ulen l) d = sub s' (ulen l) d' ->
  contents s l d -> contents s' l d'.
Proof.
  intros G; revert s s'; induction G as [|x l Gx G IH]; intros s s' Hs Hs' B B' E Hc; cbn [contents] in *; auto.
  destruct Hc as [Cx Cl]. pose proof (good_size x Gx). pose proof (psz_ge x). pose proof (psz_nonneg x Gx).
  destruct l as [|y r].
  - simpl in *. split; auto. congruence.
  - rewrite ulen_cons in * by discriminate.
    pose proof (ulen_nonneg _ G) as U. remember (ulen (y :: r)) as u.
    split.
    + rewrite <- Cx. transitivity (sub 0 (vsize t x) (sub s' (psz x + u) d')).
      * rewrite sub_sub by lia. f_equal; lia.
      * rewrite <- E. rewrite sub_sub by lia. f_equal; lia.
    + apply (IH (s + psz x)); auto; try lia.
      transitivity (sub (psz x) u (sub s (psz x + u) d)).
      * rewrite sub_sub by lia. f_equal; lia.
      * rewrite E. rewrite sub_sub by lia. f_equal; lia.
Qed.

(** Elements outside a written range keep their contents. *)
Lemma contents_splice_before s l o bs d :
  Forall (good t) l -> 0 <= s -> 0 <= o -> s + ulen l <= o -> o + zlen bs <= zlen d ->
  contents s l d -> contents s l (splice o bs d).
Proof.
  intros G Hs Ho L B Hc. pose proof (ulen_nonneg _ G). pose proof (zlen_nonneg bs).
  apply (contents_move s s l d); auto; try lia.
  - rewrite splice_len; lia.
  - rewrite sub_splice_before; auto; lia.
Qed.
Lemma contents_splice_after s l o bs d :
  Forall (good t) l -> 0 <= o -> o + zlen bs <= s -> s + ulen l <= zlen d ->
  contents s l d -> contents s l (splice o bs d).
Proof.
  intros G Ho L B Hc. pose proof (ulen_nonneg _ G). pose proof (zlen_nonneg bs).
  apply (contents_move s s l d); auto; try lia.
  - rewrite splice_len; lia.
  - rewrite sub_splice_after; auto; lia.
Qed.
Lemma contents_extend s l d e :
  Forall (good t) l -> 0 <= s -> s + ulen l <= zlen d -> contents s l d -> contents s l (d ++ e).
Proof.
  intros G Hs B Hc. pose proof (ulen_nonneg _ G). pose proof (zlen_nonneg e).
  apply (contents_move s s l d); auto; rewrite ?zlen_app; try lia.
  rewrite sub_app_l; auto.
Qed.
Lemma contents_firstn s l d n :
  Forall (good t) l -> 0 <= s -> s + ulen l <= n -> n <= zlen d -> contents s l d ->
  contents s l (firstn (Z.to_nat n) d).
Proof.
  intros G Hs B Hn Hc. pose proof (ulen_nonneg _ G).
  apply (contents_move s s l d); auto; try lia.
  - unfold zlen in *. rewrite firstn_length. lia.
  - rewrite sub_firstn; auto.
Qed.

Lemma contents_nth s l d i x : contents s l d -> nth_error l i = Some x ->
  sub (s + plen (firstn i l)) (vsize t x) d = v_bytes x.
Proof.
  revert s i; induction l; intros s i Hc E; destruct i; simpl in *; try discriminate.
  - injection E as ->. destruct Hc. rewrite Z.add_0_r. auto.
  - destruct Hc. rewrite <- (IHl _ _ H0 E). f_equal; lia.
Qed.
Lemma plen_firstn_le l i x : Forall (good t) l -> nth_error l i = Some x ->
  plen (firstn i l) + psz x <= plen l /\ plen (firstn i l) + vsize t x <= ulen l.
Proof.
  intros G E. apply nth_error_split in E as (l1 & l2 & -> & L). subst i.
  rewrite firstn_app, firstn_all, Nat.sub_diag, app_nil_r.
  apply Forall_app in G as [_ G]. inversion G; subst.
  rewrite plen_app. rewrite ulen_app by discriminate. cbn [plen].
  pose proof (plen_nonneg _ H2). split; [lia|].
  destruct l2. simpl; lia. rewrite ulen_cons by discriminate. pose proof (ulen_nonneg _ H2). pose proof (psz_ge x). lia.
Qed.
Lemma plen_firstn_mod l i : plen (firstn i l) mod al = 0.
Proof. apply plen_mod. Qed.
Lemma plen_firstn_nonneg l i : Forall (good t) l -> 0 <= plen (firstn i l).
Proof.
  intros G. apply plen_nonneg. apply Forall_forall. intros x Hx. rewrite Forall_forall in G. apply G.
  rewrite <- (firstn_skipn i l). apply in_or_app; auto.
Qed.
Lemma plen_split l i : plen l = plen (firstn i l) + plen (skipn i l).
Proof. rewrite <- plen_app. now rewrite firstn_skipn. Qed.
End Layout.

Lemma Forall_firstn' {A} (P : A -> Prop) l i : Forall P l -> Forall P (firstn i l).
Proof. revert i; induction l; destruct i; simpl; intros; auto. inversion H; auto. Qed.
Lemma Forall_skipn' {A} (P : A -> Prop) l i : Forall P l -> Forall P (skipn i l).
Proof. revert i; induction l; destruct i; simpl; intros; auto. inversion H; auto. Qed.

(** ** Representation of the three kinds of vector *)

(** The number of entries the info [Vec] can ever hold. *)
Definition icap_ok (t : ty) (icap : Z) : Prop := 0 <= icap /\ icap * info_size t <= isize_max - 7.

(** Aligned: elements are packed without padding. *)
Record arep (t : ty) (self : nat) (l : list value) (v : avec) (d : list byte) (w : world) : Prop := {
  ar_obj : nth_error (w_vecs w) self = Some (OA v);
  ar_kind : kind_of t = KAligned;
  ar_wf : wf_ty t;
  ar_good : Forall (good t) l;
  ar_infos : av_infos v = infos_of t 1 0 l;
  ar_buf : buf (w_heap w) (av_ptr v) (static_align t) (av_bcap v) d;
  ar_data : contents t 1 0 l d;
  ar_fit : plen t 1 l <= av_bcap v;
  ar_bcap : av_bcap v <= isize_max - (static_align t - 1);
  ar_len : zlen l <= av_icap v;
  ar_icap : icap_ok t (av_icap v) }.

(** Unaligned: every element starts at a multiple of the vector's current alignment. *)
Record urep (t : ty) (self : nat) (l : list value) (v : uvec) (d : list byte) (w : world) : Prop := {
  ur_obj : nth_error (w_vecs w) self = Some (OU v);
  ur_kind : kind_of t = KUnaligned;
  ur_wf : wf_ty t;
  ur_good : Forall (good t) l;
  ur_al : pow2 (uv_align v);
  ur_aligned : Forall (fun x => valign t x <= uv_align v) l;
  ur_infos : uv_infos v = infos_of t (uv_align v) 0 l;
  ur_buf : buf (w_heap w) (uv_ptr v) (uv_align v) (uv_bcap v) d;
  ur_data : contents t (uv_align v) 0 l d;
  ur_fit : plen t (uv_align v) l <= uv_bcap v;
  ur_bmod : uv_bcap v mod uv_align v = 0;
  ur_bcap : uv_bcap v <= isize_max - (uv_align v - 1);
  ur_len : zlen l <= uv_icap v;
  ur_icap : icap_ok t (uv_icap v) }.

(** Sized: an array of elements. *)
Record srep (t : ty) (self : nat) (l : list value) (v : svec) (d : list byte) (w : world) : Prop := {
  sr_obj : nth_error (w_vecs w) self = Some (OS v);
  sr_kind : kind_of t = KSized;
  sr_wf : wf_ty t;
  sr_good : Forall (good t) l;
  sr_slen : sv_len v = zlen l;
  sr_buf : buf (w_heap w) (sv_ptr v) (s_align t) (sv_cap v * s_size t) d;
  sr_data : contents t 1 0 l d;
  sr_cap0 : 0 <= sv_cap v;
  sr_zst : s_size t = 0 -> sv_cap v = 0;
  sr_fit : zlen l <= s_capacity t v;
  sr_bcap : sv_cap v * s_size t <= isize_max - (s_align t - 1) }.

(** The vector [self] represents the sequence [l]. *)
Definition repr (t : ty) (self : nat) (l : list value) (w : world) : Prop :=
  match kind_of t with
  | KSized => exists v d, srep t self l v d w
  | KAligned => exists v d, arep t self l v d w
  | KUnaligned => exists v d, urep t self l v d w
  end.

Lemma static_align_pow2 t : wf_ty t -> pow2 (static_align t).
Proof. destruct t; simpl; intros W; try apply pow2_1; try apply pow2_8. apply W. apply W. Qed.
Lemma s_align_pow2 t : kind_of t = KSized -> wf_ty t -> pow2 (s_align t).
Proof. destruct t; simpl; try discriminate. intros _ W. apply W. Qed.
Lemma s_size_nonneg t : kind_of t = KSized -> wf_ty t -> 0 <= s_size t <= isize_max.
Proof.
  destruct t; simpl; try discriminate. intros _ [(H & P & L) _]. unfold s_size; cbn. pose proof (pow2_pos _ P). lia.
Qed.
Lemma s_size_mod t : kind_of t = KSized -> wf_ty t -> s_size t mod s_align t = 0.
Proof. destruct t; simpl; try discriminate. intros _ [_ H]. exact H. Qed.
Lemma good_sized t x : kind_of t = KSized -> good t x -> v_meta x = MUnit.
Proof.
  destruct t; simpl; try discriminate. intros _ [[(_ & _ & H) _] _]. destruct (v_meta x); tauto.
Qed.
Lemma vsize_sized t x : kind_of t = KSized -> good t x -> vsize t x = s_size t.
Proof. intros K G. unfold vsize, s_size. now rewrite (good_sized t x K G). Qed.
Lemma valign_sized t x : kind_of t = KSized -> good t x -> valign t x = s_align t.
Proof. intros K G. unfold valign, s_align. now rewrite (good_sized t x K G). Qed.
Lemma plen_sized t l : kind_of t = KSized -> Forall (good t) l -> plen t 1 l = zlen l * s_size t.
Proof.
  intros K G. induction G; [reflexivity|]. cbn [plen]. rewrite IHG, zlen_cons. unfold psz. rewrite pad_1.
  rewrite vsize_sized; auto. lia.
Qed.
(** In the aligned kind, the alignment of every value divides the static alignment, and its size. *)
Lemma valign_aligned t x : kind_of t = KAligned -> wf_ty t -> good t x -> (valign t x | static_align t).
Proof.
  intros K W G. unfold valign. destruct t; try discriminate; simpl.
  - destruct (v_meta x); try apply Z.divide_refl; apply Z.divide_1_l.
  - apply Z.divide_1_l.
  - apply Z.divide_1_l.
Qed.
Lemma plen1_mod t l : kind_of t = KAligned -> wf_ty t -> Forall (good t) l ->
  forall x, good t x -> plen t 1 l mod valign t x = 0.
Proof.
  intros K W G x Gx. pose proof (pow2_pos _ (good_align t x Gx)).
  induction G; [apply Z.mod_0_l; lia|]. simpl. apply mod_add_0; auto. unfold psz; rewrite pad_1.
  replace (valign t x) with (valign t x0). apply good_size_mod; auto.
  destruct Gx as [[(_ & _ & A) _] _], H0 as [[(_ & _ & B) _] _].
  unfold valign. destruct t; try discriminate; cbn in *; destruct (v_meta x), (v_meta x0); tauto.
Qed.
