(** Bounding the capacities of vectors: calls that only read, remove, shrink or drop never raise a capacity above what it was,
    whatever they are given and however they end. *)
From Coq Require Import ZArith List Bool Lia.
From Verif Require Import Types World ValidSize Emplace SizedVec AlignedVec UnalignedVec Api Spec Bytes Arith Reserve PropEdit History Aligns.
Import ListNotations.
Open Scope Z_scope.
Open Scope m_scope.

Section WithConfig.
Context {C : Config}.
Context (t : ty) (K B : Z).

(** At most [K] elements of capacity; for slices and the like at most [B] bytes. *)
Definition low_obj (o : obj) : Prop :=
  match o with
  | OS v => sv_cap v <= K /\ sv_len v <= K
  | OA v => av_icap v <= K /\ zlen (av_infos v) <= K /\ av_bcap v <= B
  | _ => True
  end.
Definition low (w : world) : Prop := Forall low_obj (w_vecs w).
Definition holds {X} (m : M X) (Q : X -> Prop) : Prop := forall w, low w -> low (snd (m w)) /\ forall x, fst (m w) = Ok x -> Q x.
Notation any := (fun _ => True).

Lemma quiet_holds {X} (m : M X) : quiet m -> holds m any.
Proof. intros Q w S. split; auto. unfold low. now rewrite Q. Qed.
Lemma holds_bind {X Y} (m : M X) (f : X -> M Y) P Q : holds m P -> (forall x, P x -> holds (f x) Q) -> holds (bind m f) Q.
Proof.
  intros H1 H w S. destruct (H1 w S) as [S' R]. unfold bind. destruct (m w) as [[x|r| |u] w']; cbn [fst snd] in *;
    try (split; [exact S'|discriminate]). apply (H x); auto.
Qed.
Lemma holds_unwind {X} (m : M X) (g : M unit) P : holds m P -> holds g any -> holds (on_unwind m g) P.
Proof.
  intros H G w S. destruct (H w S) as [S' R]. unfold on_unwind. destruct (m w) as [[x|r| |u] w'] eqn:E; cbn [fst snd] in *; auto.
  destruct (G w' S') as [S'' _]. destruct (g w') as [[[]|r'| |u] w'']; cbn [fst snd] in *; split; auto; discriminate.
Qed.
Lemma holds_ret {X} (x : X) (Q : X -> Prop) : Q x -> holds (ret x) Q.
Proof. intros H w S. split; auto. intros y [= <-]. exact H. Qed.
Lemma holds_panic {X} r (Q : X -> Prop) : holds (panic r) Q.
Proof. intros w S. split; auto. discriminate. Qed.
Lemma holds_ub {X} r (Q : X -> Prop) : holds (ub r) Q.
Proof. intros w S. split; auto. discriminate. Qed.
Lemma holds_if {X} (b : bool) (m n : M X) Q : holds m Q -> holds n Q -> holds (if b then m else n) Q.
Proof. now destruct b. Qed.
Lemma holds_handle {X} (Q : X -> Prop) : holds (handle_alloc_error) Q.
Proof. unfold handle_alloc_error. destruct cfg_oom_panics; intros w S; split; auto; discriminate. Qed.
Lemma get_a_holds self : holds (get_a self) (fun v => low_obj (OA v)).
Proof.
  intros w S. unfold get_a. destruct (nth_error (w_vecs w) self) as [[v|v|v|]|] eqn:E; cbn [fst snd]; split; auto; try discriminate.
  intros v0 [= <-]. apply nth_error_In in E. exact (proj1 (Forall_forall _ _) S _ E).
Qed.
Lemma get_s_holds self : holds (get_s self) (fun v => low_obj (OS v)).
Proof.
  intros w S. unfold get_s. destruct (nth_error (w_vecs w) self) as [[v|v|v|]|] eqn:E; cbn [fst snd]; split; auto; try discriminate.
  intros v0 [= <-]. apply nth_error_In in E. exact (proj1 (Forall_forall _ _) S _ E).
Qed.
Lemma set_obj_holds self o : low_obj o -> holds (set_obj self o) any.
Proof. intros H w S. split; auto. now apply Forall_upd. Qed.
Lemma new_obj_holds o : low_obj o -> holds (new_obj o) any.
Proof. intros H w S. split; auto. cbn [new_obj snd w_vecs set_vecs]. unfold low. cbn [w_vecs set_vecs]. apply Forall_app. auto. Qed.

Ltac qq := intros; cbv zeta;
  first [ apply quiet_ret|apply quiet_panic|apply quiet_ub|apply quiet_fail|apply q_mem_read|apply q_mem_write|apply q_ptr_add
    |apply q_make_ref|apply q_drop_value|apply q_dassert|apply q_raw_alloc|apply q_gdealloc|apply q_new_cell|apply q_set_cell|apply q_read_cell
    |apply q_ask_alloc|apply q_get_u|apply q_get_a|apply q_get_s|apply q_handle|apply q_galloc|apply q_ggrow|apply q_gshrink|apply q_mem_copy
    |apply q_mem_copy_no|apply q_read_value|apply q_drop_in_place|apply q_usub|apply q_uadd|apply q_umul|apply q_layout|apply q_vu_layout
    |apply q_vs_new|apply q_vs_add|apply q_vs_sub|apply q_pad|apply q_unwrap|apply q_to_align|apply q_len|apply q_is_empty
    | match goal with
    | H : _ |- _ => solve [apply H]
    | |- quiet (mapM _ _) => apply q_mapM; qq
    | |- quiet (bind _ _) => apply quiet_bind; [qq|qq]
    | |- quiet (on_unwind _ _) => apply quiet_unwind; [qq|qq]
    | |- quiet (match ?x with _ => _ end) => destruct x; qq
    end ].
Ltac hq := eapply holds_bind; [apply quiet_holds; qq|intros ? _].
Lemma q_elem_add p n : quiet (elem_add t p n). Proof. unfold elem_add. qq. Qed.
Lemma q_s_take p out : quiet (s_take t p out). Proof. unfold s_take. qq. Qed.
Lemma q_div_ceil a b : quiet (div_ceil a b). Proof. unfold div_ceil. qq. Qed.
Lemma q_a_start v i : quiet (a_start_offset v i). Proof. unfold a_start_offset. qq. Qed.
Lemma q_s_drops p i n : quiet (s_drop_elems t p i n).
Proof. revert i. induction n; intros i; cbn [s_drop_elems]; [qq|]. apply quiet_bind; [|auto]. apply quiet_unwind; auto. apply quiet_bind; [apply q_elem_add|qq]. Qed.
Lemma q_a_drops p i l : quiet (a_drop_elems t p i l).
Proof. revert i. induction l; intros i; cbn [a_drop_elems]; qq. Qed.

(** ** Taking elements out *)
Definition eholds (E : emplacer) : Prop := forall l m inner, (forall p, quiet (inner p)) -> holds (E l m inner) any.
Definition fholds (e : emplacable) : Prop := forall E, eholds E -> holds (e E) any.
Lemma usub_holds a b : holds (usub a b) (fun c => c = a - b).
Proof. unfold usub. destruct (b <=? a); [now apply holds_ret|apply holds_ub]. Qed.
Lemma mapM_holds {X Y} (f : X -> M Y) l : (forall x, quiet (f x)) -> holds (mapM f l) (fun ys => length ys = length l).
Proof.
  intros H. induction l as [|x l IH]; cbn [mapM]; [now apply holds_ret|]. eapply holds_bind; [apply quiet_holds, H|]. intros y _.
  eapply holds_bind; [exact IH|]. cbv beta. intros ys E. apply holds_ret. cbn [length]. now rewrite E.
Qed.
Lemma sub_holds a l i d : holds (infos_sub_from a l i d) (fun l' => length l' = length l).
Proof.
  unfold infos_sub_from. destruct (i <=? length l)%nat; [|apply holds_ub]. eapply holds_bind; [apply mapM_holds; qq|]. cbv beta. intros tl E.
  apply holds_ret. rewrite <- (firstn_skipn i l) at 2. rewrite !app_length, E. reflexivity.
Qed.
Ltac hget v H := eapply holds_bind; [first [apply get_a_holds|apply get_s_holds]|cbv beta; intros v H; cbn [low_obj] in H].
Ltac hset := eapply holds_bind; [apply set_obj_holds|intros ? _].
Ltac hq2 := eapply holds_bind; [apply quiet_holds; first [apply q_elem_add|apply q_div_ceil|apply q_a_start|qq]|intros ? _].
Lemma h_s_pop self : fholds (s_pop_into_unchecked t self).
Proof.
  intros E HE. unfold s_pop_into_unchecked. hget v Hv. hq2. eapply holds_bind; [apply usub_holds|]. cbv beta. intros n ->.
  hset; [cbn; lia|]. hq2. apply HE. intros q. apply q_s_take.
Qed.
Lemma h_s_remove self i : fholds (s_remove_into_unchecked t self i).
Proof.
  intros E HE. unfold s_remove_into_unchecked. hget v Hv. hq2. eapply holds_bind; [apply usub_holds|]. cbv beta. intros n ->.
  hset; [cbn; lia|]. do 2 hq2. eapply holds_bind; [apply HE; intros q; apply q_s_take|]. intros _ _. hq2. apply quiet_holds. qq.
Qed.
Lemma h_a_pop self : fholds (a_pop_into_unchecked t self).
Proof.
  intros E HE. unfold a_pop_into_unchecked. hget v Hv. hq2. destruct (rev (av_infos v)) as [|i r] eqn:Er; [apply holds_ub|]. cbv zeta.
  assert (L : zlen (rev r) <= zlen (av_infos v)).
  { apply (f_equal (@length info)) in Er. rewrite rev_length in Er. unfold zlen. rewrite rev_length, Er. cbn [length]. lia. }
  hset; [cbn; lia|]. do 2 hq2. apply HE. intros q. apply q_take.
Qed.
Lemma h_a_remove self i : fholds (a_remove_into_unchecked t self i).
Proof.
  intros E HE. unfold a_remove_into_unchecked. hget v Hv. hq2. destruct (nth_error (av_infos v) i) as [f|]; [|apply holds_ub]. do 2 hq2. cbv zeta. hq2.
  eapply holds_bind; [apply HE; intros q; apply q_take|]. intros _ _. hget v' Hv'. eapply holds_bind; [apply sub_holds|]. cbv beta. intros l' L.
  assert (L' : zlen l' <= zlen (av_infos v')).
  { unfold zlen. rewrite L, app_length, firstn_length, skipn_length. lia. }
  hset; [cbn; lia|]. do 2 hq2. apply quiet_holds. qq.
Qed.
Lemma h_s_drop self : holds (s_drop t self) any.
Proof.
  unfold s_drop. hget v Hv. hset; [exact I|]. cbv zeta. eapply holds_bind; [apply quiet_holds, quiet_unwind; [apply q_s_drops|qq]|]. intros _ _. apply quiet_holds. qq.
Qed.
Lemma h_a_drop self : holds (a_drop t self) any.
Proof. unfold a_drop. hget v Hv. hset; [exact I|]. eapply holds_bind; [apply quiet_holds, q_a_drops|]. intros _ _. apply quiet_holds. qq. Qed.
Lemma h_s_shrink self n b : holds (s_shrink t self n b) any.
Proof.
  unfold s_shrink. hget v Hv. hq2. cbv zeta. destruct (Z.ltb_spec (Z.max n x) (s_capacity t v)); [|now apply holds_ret].
  destruct ((s_size t =? 0) || (sv_cap v =? 0)) eqn:Z0; [now apply holds_ret|]. hq2. match goal with |- holds (match ?p with _ => _ end) _ => destruct p end; [|apply holds_handle].
  apply set_obj_holds. cbn. apply orb_false_iff in Z0 as [Z0 _]. unfold s_capacity in H. rewrite Z0 in H. lia.
Qed.
Lemma infos_shrink_holds c l n : c <= K -> l <= K -> holds (infos_shrink c l n) (fun c' => c' <= K).
Proof.
  intros Hc Hl. unfold infos_shrink. destruct (Z.ltb_spec n c); [|now apply holds_ret]. cbv zeta. destruct (c =? 0); [now apply holds_ret|].
  destruct (Z.eqb_spec (Z.max l n) 0); [apply holds_ret; lia|]. hq2. destruct x; [apply holds_ret; lia|apply holds_handle].
Qed.
Lemma h_a_shrink self n b : holds (a_shrink t self n b) any.
Proof.
  unfold a_shrink. hget v Hv. eapply holds_bind; [apply infos_shrink_holds; lia|]. cbv beta. intros c Hc. cbv zeta. cbn [av_infos av_bcap av_ptr av_icap].
  hset; [cbn; lia|]. destruct (Z.ltb_spec (Z.max (a_byte_len (AVec (av_ptr v) (av_bcap v) (av_infos v) c)) b) (av_bcap v)) as [L|L]; [|now apply holds_ret].
  eapply holds_bind. { unfold vs_new_unchecked. instantiate (1 := fun z => z < av_bcap v). destruct (_ <=? _); [now apply holds_ret|apply holds_ub]. }
  cbv beta. intros z Hz. destruct (Z.eqb_spec z 0).
  - hq2. apply set_obj_holds. cbn. subst. lia.
  - hq2. match goal with |- holds (match ?p with _ => _ end) _ => destruct p end; [|now apply holds_ret]. apply set_obj_holds. cbn.
    unfold vs_new_squished. destruct (Z.leb_spec z (vs_max (static_align t))); lia.
Qed.

(** ** The public calls *)
Context (Kt : kind_of t <> KUnaligned).
Lemma h_drop e : fholds e -> holds (emplacable_drop e) any.
Proof. intros H. apply H. intros l m inner Hi. apply quiet_holds, Hi. Qed.
Lemma h_forget e : fholds e -> holds (emplacable_forget e) any.
Proof. intros H. apply H. intros l m inner Hi. now apply holds_ret. Qed.
Lemma h_box e : fholds e -> holds (box_new_with e) any.
Proof.
  intros H. unfold box_new_with. hq. eapply holds_bind; [apply H|intros _ _; apply quiet_holds; qq].
  intros l m inner Hi. apply quiet_holds. unfold box_new_with_emplacer. qq.
Qed.
Lemma h_pop_into self : holds (v_pop_into t self) (fun o => forall e, o = Some e -> fholds e).
Proof.
  unfold v_pop_into. hq. apply holds_if; apply holds_ret; [discriminate|]. intros e [= <-] E HE. unfold p_pop_into_unchecked.
  destruct (kind_of t); [now apply h_s_pop|now apply h_a_pop|contradiction].
Qed.
Lemma h_remove_into self i : holds (v_remove_into t self i) fholds.
Proof.
  unfold v_remove_into. hq. apply holds_if; [|apply holds_panic]. apply holds_ret. intros E HE. unfold p_remove_into_unchecked.
  destruct (kind_of t); [now apply h_s_remove|now apply h_a_remove|contradiction].
Qed.
Lemma h_v_drop self : holds (v_drop t self) any.
Proof. unfold v_drop. destruct (kind_of t); [apply h_s_drop|apply h_a_drop|contradiction]. Qed.
Lemma h_v_shrink self n b a : holds (v_shrink_capacity_bytes_align_to t self n b a) any.
Proof. unfold v_shrink_capacity_bytes_align_to, p_shrink. hq. destruct (kind_of t); [apply h_s_shrink|apply h_a_shrink|contradiction]. Qed.
Lemma then_holds {X Y} (m : M X) (g : X -> Y) : holds m any -> holds (x <- m ;; ret (g x)) any.
Proof. intros H. eapply holds_bind; [exact H|]. intros x _. now apply holds_ret. Qed.
Lemma h_pop_then self f : (forall e, fholds e -> holds (f e) any) -> holds (pop_then t self f) any.
Proof. intros H. unfold pop_then. eapply holds_bind; [apply h_pop_into|]. cbv beta. intros [e|] He; [|now apply holds_ret]. apply H. auto. Qed.
Lemma h_remove_then self i f : (forall e, fholds e -> holds (f e) any) -> holds (remove_then t self i f) any.
Proof. intros H. unfold remove_then. eapply holds_bind; [apply h_remove_into|]. intros e He. auto. Qed.

(** The calls that never need room. *)
Definition vlean (c : vop) : Prop :=
  match c with
  | VLen | VIsEmpty | VCapacity | VByteCapacity | VByteLen | VAlign | VGet _ | VIndex _ | VSet _ _ | VVisit _ | VVisitLast _ | VUpdate _ _
  | VPop | VPopDrop | VPopForget | VRemove _ | VRemoveDrop _ | VRemoveForget _ | VShrink _ _ _ | VShrinkTo _ => True
  | _ => False
  end.
Lemma h_vstep self c : vlean c -> holds (vstep t self c) any.
Proof.
  intros H. destruct c; cbn [vlean] in H; try contradiction; cbn [vstep];
    try (apply (then_holds _ BNum), quiet_holds; first [apply q_len|apply q_capacity|apply q_byte_capacity|apply q_byte_len|apply q_align]).
  - apply (then_holds _ BBool), quiet_holds, q_is_empty.
  - eapply holds_bind; [apply quiet_holds, q_get|]. intros o _. apply (then_holds _ BOpt), quiet_holds, q_read_opt.
  - eapply holds_bind; [apply quiet_holds, q_index|]. intros o _. apply quiet_holds. qq.
  - eapply holds_bind; [apply quiet_holds, q_get|]. intros o _. apply quiet_holds. qq.
  - apply (then_holds _ BItems), quiet_holds, q_visit.
  - apply (then_holds _ BOpt), quiet_holds, q_visit_last.
  - apply (holds_bind _ _ any); [|intros b _; apply (then_holds _ BOpt), quiet_holds, q_read_opt]. unfold pop_box.
    eapply holds_bind; [apply h_pop_into|]. cbv beta. intros [e|] He; [|now apply holds_ret]. apply (then_holds _ Some), h_box; auto.
  - apply (then_holds _ (fun _ => BUnit)), h_pop_then, h_drop.
  - apply (then_holds _ (fun _ => BUnit)), h_pop_then, h_forget.
  - eapply holds_bind; [|intros b _; apply (then_holds _ BVal), quiet_holds; qq]. unfold remove_box.
    eapply holds_bind; [apply h_remove_into|]. intros e He. now apply h_box.
  - apply (then_holds _ (fun _ => BUnit)), h_remove_then, h_drop.
  - apply (then_holds _ (fun _ => BUnit)), h_remove_then, h_forget.
  - apply (then_holds _ (fun _ => BUnit)), h_v_shrink.
  - apply (then_holds _ (fun _ => BUnit)), h_v_shrink.
  - apply (then_holds _ (fun _ => BUnit)), quiet_holds, q_update.
Qed.
End WithConfig.
