(** C04, C06, C07, C08, C27, C28, C29, C37: removing, inserting, moving and dropping single elements.

    Vocabulary as in PropPush.v. [holds_list t v l w]: the object [v] is a well-formed vector and [len]/indexing show [l].
    [emits e S w]: the emplacable [e] behaves as the deal [S] describes (Deal.v): it announces [d_lay S], writes [d_value S]
    when given room, runs the destructors [d_nulls S] when dropped, and touches only its own footprint [d_fv S], [d_fb S].
    [boxed t b x h]: [b] is a box of its own block of heap [h], holding exactly [x]. *)
From Coq Require Import ZArith List Bool Lia.
From Verif Require Import Types World ValidSize Emplace SizedVec AlignedVec UnalignedVec Api Spec Bytes Arith Wp Mem Repr
  Access Reserve Realign Orep Push Deal PushWith Shell Insert Take Pop Box Iter Calls DropVec Family Build Obs Room Findings
  PropPush.
Import ListNotations.
Open Scope Z_scope.
Open Scope m_scope.

(** The usual way to take an element out: [box_new_with(v.pop_into()?)] and [box_new_with(v.remove_into(i))]. *)
Definition pop_box {C : Config} (t : ty) (self : nat) : M (option wide) :=
  o <- v_pop_into t self ;;
  match o with None => ret None | Some e => b <- box_new_with e ;; ret (Some b) end.
Definition remove_box {C : Config} (t : ty) (self i : nat) : M wide := e <- v_remove_into t self i ;; box_new_with e.

Section WithConfig.
Context {C : Config}.

(** ** Guards *)
(** The alignment of [x] can be recorded: false only for a zero-sized, over-aligned [x] and a vector without byte buffer. *)
Definition placeable (t : ty) (self : nat) (x : value) (w : world) : Prop :=
  kind_of t = KUnaligned -> exists al bc, v_align t self w = (Ok al, w) /\ v_byte_capacity t self w = (Ok bc, w) /\
    (0 < vsize t x \/ valign t x <= al \/ 0 < bc).
(** The last element fills its slot of [a]-aligned bytes. *)
Definition end_padded (t : ty) (a : Z) (l : list value) : Prop := forall l0 y, l = l0 ++ [y] -> vsize t y mod a = 0.
(** What lies at and after position [i] can be moved: [i] is not the end, or the last slot is full
    (for the others see [Findings.C07_insert_with_end_refuted], [C08_remove_last_refuted]). *)
Definition movable (t : ty) (self : nat) (l : list value) (i : nat) (a : Z) (w : world) : Prop :=
  kind_of t = KUnaligned -> (i < length l)%nat \/ exists al, v_align t self w = (Ok al, w) /\ end_padded t (Z.max al a) l.

Lemma placeable_can t self l o d w x : orep t self l o d w -> placeable t self x w -> can_align t o (vsize t x) (valign t x).
Proof.
  intros R P K. destruct (P K) as (al & bc & A & B & H).
  rewrite (v_align_eq _ _ _ _ _ _ R) in A. rewrite (v_byte_capacity_eq _ _ _ _ _ _ R) in B.
  injection A as <-. injection B as <-. exact H.
Qed.
Lemma tail_ok_end t a l : 0 < a -> end_padded t a l -> tail_ok t a l (length l).
Proof.
  intros P H. unfold tail_ok. rewrite firstn_all. destruct l as [|y l] using rev_ind; [cbn; lia|]. clear IHl.
  rewrite ulen_snoc, plen_app. cbn [plen]. unfold psz. rewrite pad_id; [lia|auto|]. eapply H; eauto.
Qed.
Lemma movable_tail t self l o d w i a : orep t self l o d w -> kind_of t = KUnaligned -> 0 < a -> (i <= length l)%nat ->
  movable t self l i a w -> tail_ok t (req_al t o a) l i.
Proof.
  intros R K Pa Li H. unfold req_al. rewrite K. pose proof (pow2_pos _ (orep_pal _ _ _ _ _ _ R)).
  destruct (o_al_pal _ _ _ _ _ _ R ltac:(congruence)) as [[K' _]|[_ Ep]]; [congruence|].
  destruct (H K) as [L|(al & A & E)].
  - apply tail_ok_lt; auto; [lia|]. eapply orep_good; eauto.
  - rewrite (v_align_eq _ _ _ _ _ _ R) in A. injection A as <-.
    destruct (Nat.eq_dec i (length l)) as [->|N]. { apply tail_ok_end; auto. lia. }
    apply tail_ok_lt; [lia| |lia]. eapply orep_good; eauto.
Qed.

(** ** Frames *)
(** Every vector other than [self] and those of the emplacable's footprint is as before, and no memory is leaked: a live block is
    [self]'s, or was live before or the emplacable's and not [self]'s. Other memory is neither written nor freed nor taken over. *)
Definition spared (self : nat) (fv fb : list nat) (w w' : world) : Prop :=
  (forall t j l, repr t j l w -> sep w self j -> ~ In j fv -> (forall b, owned_block w j = Some b -> ~ In b fb) ->
     repr t j l w' /\ sep w' self j /\ owned_block w' j = owned_block w j) /\
  (forall b, heap_get (w_heap w') b <> None ->
     owned_block w' self = Some b \/ owned_block w self <> Some b /\ (In b fb \/ heap_get (w_heap w) b <> None)) /\
  (forall b, heap_get (w_heap w) b <> None -> owned_block w self <> Some b ->
     (~ In b fb -> heap_get (w_heap w') b = heap_get (w_heap w) b) /\ owned_block w' self <> Some b).
Lemma spared_touch self fv fb w w' : touch self fv fb w w' -> spared self fv fb w w'.
Proof.
  intros T. split; [|split].
  - intros t j l R S N B. assert (E : owned_block w' j = owned_block w j).
    { unfold owned_block. rewrite (to_vecs _ _ _ _ _ T); auto. destruct S; auto. }
    split; [eapply repr_touch; eauto|]. split; [|exact E]. destruct S as [Nj S]. split; auto. intros k O. rewrite E. intros O'.
    destruct (to_owned _ _ _ _ _ T k O) as [O2|L]. { now apply (S k). } pose proof (repr_owned_lt _ _ _ _ _ R O'). lia.
  - intros b L. destruct (le_lt_dec (length (w_heap w)) b) as [Lb|Lb]; [left; now apply (to_new _ _ _ _ _ T)|].
    destruct (opt_dec (owned_block w self) (Some b)) as [O|O]; [left; now apply (to_old _ _ _ _ _ T)|].
    right. split; auto. destruct (in_dec Nat.eq_dec b fb) as [I|I]; auto. right. now rewrite <- (to_other _ _ _ _ _ T b Lb O I).
  - intros b L N. pose proof (live_lt _ _ L) as Lb. split; [now apply (to_other _ _ _ _ _ T)|].
    intros O. destruct (to_owned _ _ _ _ _ T b O); [contradiction|lia].
Qed.
Lemma sep_apart t self l o d w j : orep t self l o d w -> sep w self j -> apart j [self] (blocks (o_ptr o)) w.
Proof.
  intros R [N S]. rewrite (orep_owned _ _ _ _ _ _ R) in S. split; [|split].
  - intros [->|[]]. now apply N.
  - intros b. eapply orep_foot_lt; eauto.
  - intros b E I. apply in_blocks in I. now apply (S b).
Qed.
Lemma others_step t self l o d w t' l' o' d' w' bs :
  orep t self l o d w -> orep t' self l' o' d' w' -> o_ptr o' = o_ptr o ->
  (forall j, j <> self -> nth_error (w_vecs w') j = nth_error (w_vecs w) j) ->
  (forall u j m x e, orep u j m x e w -> apart j [self] (blocks (o_ptr o)) w -> orep u j m x e w') ->
  (forall b, ~ In b (blocks (o_ptr o)) -> heap_get (w_heap w') b <> None -> In b bs \/ heap_get (w_heap w) b <> None) ->
  (forall b, ~ In b (blocks (o_ptr o)) -> heap_get (w_heap w) b <> None -> heap_get (w_heap w') b = heap_get (w_heap w) b) ->
  others_but bs self w w'.
Proof.
  intros R R' Ep V F H I. split; [|split].
  - intros u j m Rj S. pose proof (sep_apart _ _ _ _ _ _ _ R S) as Ap.
    apply repr_orep in Rj as (x & e & Rj). pose proof (F _ _ _ _ _ Rj Ap) as Rj'. split; [eapply orep_repr; eauto|].
    destruct S as [N S]. split; [|unfold owned_block; now rewrite V by auto]. split; auto. intros b. rewrite (orep_owned _ _ _ _ _ _ R'), (orep_owned _ _ _ _ _ _ Rj'), Ep.
    intros E. specialize (S b). rewrite (orep_owned _ _ _ _ _ _ R), (orep_owned _ _ _ _ _ _ Rj) in S. auto.
  - intros b L. rewrite (orep_owned _ _ _ _ _ _ R), (orep_owned _ _ _ _ _ _ R'), Ep.
    destruct (opt_dec (ptr_block (o_ptr o)) (Some b)) as [E|E]; auto.
    destruct (H b); auto. intros B. now apply in_blocks in B.
  - intros b L. rewrite (orep_owned _ _ _ _ _ _ R), (orep_owned _ _ _ _ _ _ R'), Ep. intros N. split; auto. apply I; auto.
    intros B. now apply in_blocks in B.
Qed.
Lemma others_fresh t self l o d w t' l' o' d' w' p :
  orep t self l o d w -> orep t' self l' o' d' w' -> o_ptr o' = o_ptr o ->
  fresh [self] (blocks (o_ptr o)) (ptr_block p) w w' -> others_but (blocks p) self w w'.
Proof.
  intros R R' Ep F. eapply others_step; eauto.
  - intros j N. apply (fs_vecs _ _ _ _ _ F). intros [->|[]]; congruence.
  - intros. eapply orep_fresh; eauto.
  - intros b N L. destruct (le_lt_dec (length (w_heap w)) b) as [Lb|Lb].
    + left. apply in_blocks. now apply (fs_new _ _ _ _ _ F).
    + right. now rewrite <- (fs_other _ _ _ _ _ F b Lb N).
  - intros b N L. apply (fs_other _ _ _ _ _ F); auto. now apply live_lt.
Qed.
Lemma others_none t self l o d w t' l' o' d' w' :
  orep t self l o d w -> orep t' self l' o' d' w' -> o_ptr o' = o_ptr o ->
  fresh [self] (blocks (o_ptr o)) None w w' -> others self w w'.
Proof. intros R R' Ep F. exact (others_fresh _ _ _ _ _ _ _ _ _ _ _ (Raw 0) R R' Ep F). Qed.
Lemma others_within t self l o d w t' l' o' d' w' :
  orep t self l o d w -> orep t' self l' o' d' w' -> o_ptr o' = o_ptr o ->
  within [self] (blocks (o_ptr o)) w w' -> others self w w'.
Proof.
  intros R R' Ep F. eapply others_step; eauto.
  - intros j N. apply F. intros [->|[]]; congruence.
  - intros. eapply orep_within; eauto.
  - intros b N L. right. destruct F as (_ & _ & _ & _ & F & _). now rewrite <- (F b N).
  - intros b N L. destruct F as (_ & _ & _ & _ & F & _). auto.
Qed.
Lemma elem_layout_ok t x : good t x -> t <> TCStr -> elem_layout t x = layout_of t x.
Proof.
  intros G N. unfold elem_layout, layout_of, valign. f_equal. destruct G as [[(_ & _ & W) _] _].
  destruct t, (v_meta x); try discriminate; try tauto; try congruence; reflexivity.
Qed.
Lemma elem_box_size t x : good t x -> zlen (v_bytes x) = l_size (elem_layout t x).
Proof. intros G. apply wf_bytes, G. Qed.
Lemma elem_box_align t x : good t x -> 0 < l_align (elem_layout t x).
Proof.
  intros G. pose proof (pow2_pos _ (good_align t x G)) as P. unfold elem_layout. cbn [l_align]. destruct (kind_of t) eqn:K; auto.
  destruct G as [[(_ & _ & W) _] _]. unfold valign in P. destruct t, (v_meta x); try discriminate; try tauto; cbn in *; lia.
Qed.
Lemma elem_box_read t b x w : boxed_as (elem_layout t x) b x (w_heap w) -> good t x -> read_value t b w = (Ok x, w).
Proof.
  intros [Em B] G. pose proof (good_size t x G) as Sx. destruct b as [p m]. cbn [wp wm] in *. subst m.
  cbn [elem_layout l_size l_align] in B. unfold read_value. cbn [wp wm]. change (size_of_val t (v_meta x)) with (vsize t x).
  rewrite <- (padd_0 p). erewrite bind_eq by (eapply mem_read_buf; eauto; lia). unfold ret. rewrite sub_all by (symmetry; apply wf_bytes, G).
  destruct x; reflexivity.
Qed.
Lemma elem_fits t self l o d w x : orep t self l o d w -> In x l -> fits t (elem_layout t x) x.
Proof.
  intros R I. unfold fits, elem_layout. cbn [l_size l_align]. ands; auto. { intros K; now rewrite K. }
  intros K. pose proof (orep_fit _ _ _ _ _ _ R) as F. pose proof (orep_good _ _ _ _ _ _ R) as G.
  pose proof (orep_bcap _ _ _ _ _ _ R) as B.
  destruct o; cbn [orep] in R; try tauto; try (destruct R; congruence). unfold o_blen in F. ocbn in *.
  apply in_split in I as (a & b & ->). rewrite plen_app in F. cbn [plen] in F. apply Forall_app in G as [Ga Gb].
  inversion_clear Gb as [|? ? Gx Gb']. pose proof (plen_nonneg t 1 ltac:(lia) a Ga). pose proof (plen_nonneg t 1 ltac:(lia) b Gb').
  pose proof (psz_ge t 1 ltac:(lia) x). lia.
Qed.
Lemma orep_elem t self l o d w x : orep t self l o d w -> In x l -> good t x.
Proof. intros R I. pose proof (orep_good _ _ _ _ _ _ R) as G. rewrite Forall_forall in G. auto. Qed.

(** ** C04: pop *)
Theorem C04_pop_empty t self l w : repr t self l w ->
  ((exists w', v_pop_into t self w = (Ok None, w')) <-> l = []).
Proof.
  intros R. split.
  - intros (w' & E). destruct l as [|x l] using rev_ind; auto. apply repr_orep in R as (o & d & R).
    destruct (v_pop_into_some _ _ _ _ _ _ _ R) as (e & E' & _). rewrite E' in E. discriminate.
  - intros ->. exists w. now apply v_pop_into_empty.
Qed.
(** A new box for [x]: its block (if [x] has any bytes) did not exist before. *)
(** A new box: reading it gives [x], and its block is new and of the layout of [x]. The layout clause leaves out [CStr], whose
    boxes get the wrong layout ([Findings.C52_cstr_box_refuted]). *)
Definition new_box (t : ty) (b : wide) (x : value) (w w' : world) : Prop :=
  read_value t b w' = (Ok x, w') /\ (t <> TCStr -> boxed t b x (w_heap w')) /\ forall k, ptr_block (wp b) = Some k -> (length (w_heap w) <= k)%nat.
Lemma elem_new_box t b x w w' : boxed_as (elem_layout t x) b x (w_heap w') -> good t x ->
  (forall k, ptr_block (wp b) = Some k -> (length (w_heap w) <= k)%nat) -> new_box t b x w w'.
Proof.
  intros B G N. split; [now apply elem_box_read|]. split; [|exact N]. intros Nc. rewrite (elem_layout_ok _ _ G Nc) in B. exact B.
Qed.
Theorem C04_pop t self l x w : repr t self (l ++ [x]) w ->
  run (pop_box t self) w
    (fun r w' => exists b, r = Some b /\ new_box t b x w w' /\ holds_list t self l w' /\ w_drops w' = w_drops w /\ others_but (blocks (wp b)) self w w')
    (fun r w' => r = POom /\ alloc_failed w w' /\ holds_list t self l w' /\ w_drops w' = w_drops w /\ others self w w')
    (fun w' => alloc_failed w w').
Proof.
  intros R. apply repr_orep in R as (o & d & R). destruct (v_pop_into_some _ _ _ _ _ _ _ R) as (e & E & Em).
  assert (G : good t x) by (eapply orep_elem; eauto using in_or_app, in_eq).
  unfold pop_box. eapply run_eq; [exact E|]. cbv beta iota. apply run_bind.
  assert (Ev : d_value (pop_deal t self l x o) = x) by now destruct x.
  eapply run_conseq; [eapply box_new_with_at; [exact Em|rewrite Ev; apply (elem_box_size t x G)|apply (elem_box_align t x G)]|..]; cbv beta; rewrite ?Ev.
  - intros b w' (B & F & D & d' & R'). cbn [d_fv d_fb d_extra pop_deal] in *. apply run_ret. exists b. rewrite app_nil_r in D.
    ands; auto. { apply elem_new_box; auto. apply (fs_ob _ _ _ _ _ F). } { eapply repr_holds, orep_repr; eauto. }
    eapply others_fresh; eauto. apply o_with_same.
  - intros r w' (F & [(Hr & Af & D & d' & R')|[[[]|(_ & Nn & _)] _]]); [|now destruct Nn].
    cbn [d_fv d_fb pop_deal] in *. ands; auto. { eapply repr_holds, orep_repr; eauto. } eapply others_none; eauto. apply o_with_same.
  - intros w' [H|H]; auto. apply not_aborted in H; [destruct H|reflexivity|intros ? []].
Qed.

(** ** C06: insert *)
(** What [insert] does; every other vector is left alone. *)
Definition inserts (t : ty) (self i : nat) (l : list value) (x : value) (w : world) : Prop :=
  run (v_insert t self i x) w
    (fun _ w' => holds_list t self (insert_at i x l) w' /\ w_drops w' = w_drops w /\ others self w w')
    (fun r w' => holds_list t self l w' /\ w_drops w' = w_drops w ++ [x] /\ others self w w' /\ push_refused t self l x w w' /\
                 (r = PCapacity \/ r = PDebugAssert /\ cfg_debug = true \/ r = POom /\ cfg_oom_panics = true))
    (fun w' => alloc_failed w w' \/ drop_panicked w w').
(** The byte offset of position [i]. The code uses [i] itself, so it is right only where the two agree. *)
Definition offset_of (t : ty) (self : nat) (i : nat) (a : Z) (l : list value) (w : world) (n : Z) : Prop :=
  match kind_of t with
  | KSized => n = Z.of_nat i
  | KAligned => n = total t (firstn i l)
  | KUnaligned => exists al, v_align t self w = (Ok al, w) /\ n = padded_total t (Z.max al a) (firstn i l)
  end.
Theorem C06_insert_partial t self i l x w : repr t self l w -> good t x -> nzst t -> placeable t self x w -> (i <= length l)%nat ->
  movable t self l i (valign t x) w -> offset_of t self i (valign t x) l w (Z.of_nat i) ->
  inserts t self i l x w.
Proof.
  intros R G Nz Pl Li Mv Of. apply repr_orep in R as (o & d & R). unfold inserts.
  pose proof (placeable_can _ _ _ _ _ _ _ R Pl) as Ca.
  eapply run_conseq; [eapply v_insert_wp; eauto|..]; cbv beta; auto.
  - destruct (kind_of t) eqn:K; try (apply tail_ok_1; eapply orep_good; eauto).
    eapply movable_tail; eauto. apply pow2_pos, good_align; auto.
  - unfold offset_of in Of. unfold index_is_offset. destruct (kind_of t) eqn:K; auto; right.
    + now rewrite <- total_plen.
    + destruct Of as (al & A & E). rewrite (v_align_eq _ _ _ _ _ _ R) in A. injection A as <-.
      unfold req_al. rewrite K. now rewrite <- padded_total_plen.
  - intros _ w' (o' & d' & R' & [F D] & _). apply orep_repr in R'. ands; auto using repr_holds, others_frame.
  - intros r w' (R' & F & D & H & Rr). ands; auto using repr_holds, others_frame. eapply refused_of; eauto.
Qed.
(** C06 for Sized types that are not zero-sized: every index. *)
Theorem C06_insert_sized_partial t self i l x w : kind_of t = KSized -> 0 < s_size t -> repr t self l w -> good t x ->
  (i <= length l)%nat -> inserts t self i l x w.
Proof.
  intros K P R G Li. apply C06_insert_partial; auto.
  - intros _; auto.
  - intros K'; congruence.
  - intros K'; congruence.
  - unfold offset_of. now rewrite K.
Qed.
(** C06 at the front: every kind (position 0 is byte 0). *)
Theorem C06_insert_front_partial t self l x w : repr t self l w -> good t x -> nzst t -> placeable t self x w ->
  inserts t self 0 l x w.
Proof.
  intros R G Nz Pl. apply C06_insert_partial; auto.
  - lia.
  - intros K. destruct l; [right|left; cbn; lia]. apply repr_orep in R as (o & d & R). exists (o_al t o).
    split; [eapply v_align_eq; eauto|]. intros l0 y E. now destruct l0.
  - unfold offset_of. destruct (kind_of t) eqn:K; auto. apply repr_orep in R as (o & d & R). exists (o_al t o).
    split; [eapply v_align_eq; eauto|reflexivity].
Qed.
(** C06 beyond the end: every kind, every state. *)
Theorem C06_insert_oob t self i l x w : repr t self l w -> (length l < i)%nat ->
  run (v_insert t self i x) w (fun _ _ => False)
    (fun r w' => r = PBounds /\ holds_list t self l w' /\ w_drops w' = w_drops w ++ [x] /\ others self w w')
    (fun w' => drop_panicked w w').
Proof.
  intros R L. eapply run_conseq; [eapply v_insert_oob; eauto|..]; cbv beta; auto.
  intros r w' [-> ->]. ands; auto. { apply repr_holds, repr_drops; auto. } apply others_frame, frame_set_drops.
Qed.

(** ** C07: insert_with *)
(** What adding the value of the emplacable [e] (described by [S]) does: [l'] is the list afterwards. A refusal leaves the
    vector and the emplacable's source as they were. *)
Definition adds_with (m : M unit) (t : ty) (self : nat) (l l' : list value) (S : deal) (w : world) : Prop :=
  run m w
    (fun _ w' => holds_list t self l' w' /\ w_drops w' = w_drops w ++ d_extra S /\ d_after S Delivered w' /\
                 spared self (d_fv S) (d_fb S) w w')
    (fun r w' => holds_list t self l w' /\ spared self (d_fv S) (d_fb S) w w' /\
                 ((r = PCapacity \/ r = POom /\ cfg_oom_panics = true) /\ w_drops w' = w_drops w /\ d_after S Refused w' \/
                  d_panic S r \/ r = PDrop /\ d_extra S <> [] /\ drop_panicked w w'))
    (fun w' => alloc_failed w w' \/ aborted S w w').
Lemma adds_of t self l l' o S ex m (w : world) :
  run m w (fun _ w' => exists o' d', orep t self l' o' d' w' /\ touch self (d_fv S) (d_fb S) w w' /\
       w_drops w' = w_drops w ++ d_extra S /\ d_after S Delivered w' /\ o_al t o' = req_al t o (valign t (d_value S)) /\ stays t o l (d_value S) o')
    (with_panic t self l o S ex w)
    (fun w' => alloc_failed w w' \/ aborted S w w') ->
  adds_with m t self l l' S w.
Proof.
  intros H. eapply run_conseq; [exact H|..]; cbv beta.
  - intros _ w' (o' & d' & R' & T & D & A & _). ands; auto using spared_touch. eapply repr_holds, orep_repr; eauto.
  - intros r w' (R' & T & [(_ & Rr & D & A)|[P|[Rr P]]]); ands; auto using spared_touch, repr_holds.
  - intros w' [A|A]; auto.
Qed.
Theorem C07_insert_with_partial t self i l w e S : repr t self l w -> emits e S w ->
  good t (d_value S) -> fits t (d_lay S) (d_value S) -> nzst t \/ kind_of t = KSized -> apart self (d_fv S) (d_fb S) w ->
  placeable t self (d_value S) w -> (i <= length l)%nat -> movable t self l i (valign t (d_value S)) w ->
  adds_with (v_insert_with t self i e) t self l (insert_at i (d_value S) l) S w.
Proof.
  intros R Em G Fi Nz Ap Pl Li Mv. apply repr_orep in R as (o & d & R).
  eapply adds_of. eapply v_insert_with_wp; eauto.
  - eapply placeable_can; eauto.
  - intros K. eapply movable_tail; eauto. apply pow2_pos, good_align; auto.
Qed.
(** For element types with a static alignment there is no guard left. *)
Theorem C07_insert_with_static t self i l w e S : kind_of t <> KUnaligned -> repr t self l w -> emits e S w ->
  good t (d_value S) -> fits t (d_lay S) (d_value S) -> apart self (d_fv S) (d_fb S) w -> (i <= length l)%nat ->
  adds_with (v_insert_with t self i e) t self l (insert_at i (d_value S) l) S w.
Proof.
  intros K R Em G Fi Ap Li. apply C07_insert_with_partial; auto.
  - destruct (kind_of t) eqn:Kt; auto; left; intros Q; congruence.
  - intros K'; congruence.
  - intros K'; congruence.
Qed.
Theorem C07_insert_with_oob t self i l w e S : repr t self l w -> (length l < i)%nat -> emits e S w ->
  apart self (d_fv S) (d_fb S) w ->
  run (v_insert_with t self i e) w (fun _ _ => False)
    (fun r w' => r = PBounds /\ holds_list t self l w' /\ w_drops w' = w_drops w ++ d_nulls S /\ d_after S Dropped w')
    (fun w' => d_nulls S <> [] /\ drop_panicked w w').
Proof.
  intros R L Em Ap. eapply run_conseq; [eapply v_insert_with_oob; eauto|..]; cbv beta; auto.
  intros r w' (-> & Wi & D & A). ands; auto. apply repr_holds. eapply repr_within; eauto.
Qed.
(** C07 for the plainest emplacable, a value moved in ([Emplacable::from], with_emplacable_for's argument). *)
Corollary C07_insert_with_value_partial t self i l w x : repr t self l w -> good t x -> not_huge t x -> nzst t \/ kind_of t = KSized ->
  placeable t self x w -> (i <= length l)%nat -> movable t self l i (valign t x) w ->
  run (v_insert_with t self i (emplacable_of_value t x)) w
    (fun _ w' => holds_list t self (insert_at i x l) w' /\ w_drops w' = w_drops w /\ others self w w')
    (fun r w' => holds_list t self l w' /\ w_drops w' = w_drops w /\ others self w w' /\
                 (r = PCapacity \/ r = POom /\ cfg_oom_panics = true))
    (fun w' => alloc_failed w w').
Proof.
  intros R G N Nz Pl Li Mv. assert (Ev : d_value (value_deal t x) = x) by now destruct x.
  apply repr_orep in R as (o & d & R).
  eapply run_conseq; [eapply (v_insert_with_wp t self l o d w _ (value_deal t x) i); eauto|..]; cbv beta; rewrite ?Ev; auto using value_emits.
  - now apply fits_self.
  - eapply placeable_can; eauto.
  - split; [auto|split; [intros ? []|intros ? _ []]].
  - intros K. eapply movable_tail; eauto. apply pow2_pos, good_align; auto.
  - intros _ w' (o' & d' & R' & T & D & _). cbn [d_fv d_fb d_extra value_deal] in *. rewrite app_nil_r in D.
    ands; auto. { eapply repr_holds, orep_repr; eauto. } now apply others_frame, frame_touch.
  - intros r w' (R' & T & [(_ & Rr & D & A)|[[]|[_ [P _]]]]); [|now destruct P].
    ands; auto using repr_holds. now apply others_frame, frame_touch.
  - intros w' [A|A]; auto. apply not_aborted in A; [destruct A|reflexivity|intros ? []].
Qed.

(** ** C08: remove *)
(** Removing the last of several elements: the element before it must fill its slot. *)
Definition closable (t : ty) (self : nat) (l : list value) (i : nat) (w : world) : Prop :=
  kind_of t = KUnaligned -> (S i < length l)%nat \/ exists al, v_align t self w = (Ok al, w) /\ end_padded t al (removelast l).
Lemma closable_tail t self l o d w i x : orep t self l o d w -> kind_of t = KUnaligned -> nth_error l i = Some x ->
  closable t self l i w -> tail_ok t (o_pal o) (remove_at i l) i.
Proof.
  intros R K E H. pose proof (pow2_pos _ (orep_pal _ _ _ _ _ _ R)). pose proof (orep_good _ _ _ _ _ _ R) as G.
  destruct (o_al_pal _ _ _ _ _ _ R ltac:(congruence)) as [[K' _]|[_ Ep]]; [congruence|].
  destruct (remove_split _ _ _ E) as (a & b & -> & -> & ->). apply Forall_app in G as [Ga Gb]. inversion_clear Gb as [|? ? Gx Gb'].
  destruct b as [|y b].
  - rewrite app_nil_r. destruct (H K) as [L|(al & A & En)]; [rewrite app_length in L; cbn in L; lia|].
    rewrite (v_align_eq _ _ _ _ _ _ R) in A. injection A as <-. rewrite removelast_last in En.
    rewrite Ep. apply tail_ok_end; auto. lia.
  - apply tail_ok_lt; auto. { apply Forall_app; auto. } rewrite app_length. cbn. lia.
Qed.
Lemma remove_at_eq {A} (l : list A) i : remove_at i l = firstn i l ++ skipn (S i) l.
Proof. reflexivity. Qed.
Theorem C08_remove_partial t self i l x w : repr t self l w -> nth_error l i = Some x -> closable t self l i w ->
  run (remove_box t self i) w
    (fun b w' => new_box t b x w w' /\ holds_list t self (remove_at i l) w' /\ w_drops w' = w_drops w /\ others_but (blocks (wp b)) self w w')
    (fun r w' => r = POom /\ alloc_failed w w' /\ w_drops w' = w_drops w /\ others self w w' /\
       holds_list t self (match kind_of t with KSized => removelast l | _ => l end) w')
    (fun w' => alloc_failed w w').
Proof.
  intros R Ex Cl. apply repr_orep in R as (o & d & R).
  destruct (v_remove_into_some _ _ _ _ _ _ _ _ R Ex) as (e & E & Em). { intros K. eapply closable_tail; eauto. }
  assert (G : good t x) by (eapply orep_elem; eauto using nth_error_In).
  unfold remove_box. eapply run_eq; [exact E|]. cbv beta iota.
  set (S := rem_deal _ _ _ _ _ _) in *. assert (Ev : d_value S = x) by now destruct x.
  assert (El : firstn i l ++ x :: skipn (Datatypes.S i) l = l).
  { clear -Ex. revert i Ex; induction l; intros [|i] E; try discriminate. - injection E as ->. reflexivity. - cbn. f_equal. now apply IHl. }
  eapply run_conseq; [eapply box_new_with_at; [exact Em|rewrite Ev; apply (elem_box_size t x G)|apply (elem_box_align t x G)]|..]; cbv beta; rewrite ?Ev.
  - intros b w' (B & F & D & d' & R'). unfold S in *. cbn [d_fv d_fb d_extra rem_deal] in *. rewrite app_nil_r in D.
    ands; auto. { apply elem_new_box; auto. apply (fs_ob _ _ _ _ _ F). } { eapply repr_holds, orep_repr; eauto. }
    eapply others_fresh; eauto. apply o_with_same.
  - intros r w' (F & [(Hr & Af & D & A)|[[[]|(_ & Nn & _)] _]]); [|now destruct Nn].
    unfold S in *. cbn [d_fv d_fb d_after rem_deal] in *. rewrite El in A. destruct A as (d' & R').
    ands; auto. { eapply others_none; eauto. apply o_with_same. } eapply repr_holds, orep_repr; eauto.
  - intros w' [H|H]; auto. apply not_aborted in H; [destruct H|reflexivity|intros ? []].
Qed.
Theorem C08_remove_oob t self i l w : repr t self l w -> (length l <= i)%nat -> remove_box t self i w = (Panic PBounds, w).
Proof.
  intros R L. unfold remove_box, bind. erewrite v_remove_into_oob by eauto. reflexivity.
Qed.

(** ** C27: dropping or forgetting the removed element *)
Definition pop_then (t : ty) (self : nat) (f : emplacable -> M unit) : M unit :=
  o <- v_pop_into t self ;; match o with Some e => f e | None => ret tt end.
Definition remove_then (t : ty) (self i : nat) (f : emplacable -> M unit) : M unit := e <- v_remove_into t self i ;; f e.

Lemma pop_then_eq t self l x o d w f : orep t self (l ++ [x]) o d w ->
  pop_then t self f w = f (fun E => p_pop_into_unchecked t self E) w.
Proof.
  intros R. unfold pop_then, v_pop_into, v_is_empty.
  erewrite bind_eq. 2: { erewrite bind_eq. 2: { erewrite bind_eq by (eapply v_len_eq, orep_repr; eauto). reflexivity. }
    rewrite zlen_snoc. pose proof (zlen_nonneg l). destruct (Z.eqb_spec (zlen l + 1) 0); [lia|]. reflexivity. }
  reflexivity.
Qed.
Lemma popped t self l x o d w : orep t self (l ++ [x]) o d w ->
  let w1 := set_vecs (upd (w_vecs w) self (o_with t o l)) w in
  orep t self l (o_with t o l) d w1 /\ within [self] (blocks (o_ptr o)) w w1 /\
  behind t (eref t o (l ++ [x]) (length l) x) x (w_heap w1).
Proof.
  intros R w1. ands.
  - destruct (pop_emits _ _ _ _ _ _ _ R) as [_ H]. unfold w1. apply shell_make; auto.
    + eapply orep_shell; eauto.
    + eapply holds_app; [eapply orep_holds; eauto|]. apply (orep_shell _ _ _ _ _ _ R).
    + pose proof (orep_data _ _ _ _ _ _ R) as X. now apply contents_app in X.
  - apply within_set_vec.
  - unfold w1. proj. eapply orep_behind; eauto. rewrite nth_error_app2, Nat.sub_diag by lia. reflexivity.
Qed.
(** Dropping the emplacable of [pop_into]: the element is gone and its destructor has run exactly once, also when that
    destructor panics. *)
Theorem C27_pop_drop t self l x w : repr t self (l ++ [x]) w ->
  run (pop_then t self emplacable_drop) w
    (fun _ w' => holds_list t self l w' /\ w_drops w' = w_drops w ++ [x] /\ others self w w')
    (fun r w' => r = PDrop /\ drop_panicked w w' /\ holds_list t self l w' /\ w_drops w' = w_drops w ++ [x] /\ others self w w')
    (fun _ => False).
Proof.
  intros R. apply repr_orep in R as (o & d & R). unfold run. rewrite (pop_then_eq _ _ _ _ _ _ _ _ R). unfold emplacable_drop.
  rewrite (pop_form _ _ _ _ _ _ _ R). destruct (popped _ _ _ _ _ _ _ R) as (R1 & W1 & B). set (w1 := set_vecs _ _) in *.
  unfold dropping_emplacer, take. cbn [is_null null]. rewrite (drop_in_place_eq _ _ _ _ B).
  assert (H : holds_list t self l (set_drops (w_drops w1 ++ [x]) w1) /\ others self w (set_drops (w_drops w1 ++ [x]) w1)).
  { split. { apply repr_holds, repr_drops. eapply orep_repr; eauto. }
    assert (R2 : orep t self l (o_with t o l) d (set_drops (w_drops w1 ++ [x]) w1)).
    { eapply orep_foot; [|exact R1]. apply agree_drops. }
    eapply others_within; [exact R|exact R2| |].
    - apply o_with_same.
    - eapply within_trans; [exact W1|]. apply within_drops. }
  destruct H as [H1 H2]. unfold drop_value. destruct (cfg_drop_panics (length (w_drops w1))) eqn:P.
  - ands; auto. apply (drop_panicked_1 w1 x P).
  - ands; auto.
Qed.
Theorem C27_pop_forget t self l x w : repr t self (l ++ [x]) w ->
  exists w', pop_then t self emplacable_forget w = (Ok tt, w') /\
    holds_list t self l w' /\ w_drops w' = w_drops w /\ others self w w'.
Proof.
  intros R. apply repr_orep in R as (o & d & R). destruct (popped _ _ _ _ _ _ _ R) as (R1 & W1 & _).
  eexists. split. { rewrite (pop_then_eq _ _ _ _ _ _ _ _ R). unfold emplacable_forget. rewrite (pop_form _ _ _ _ _ _ _ R). reflexivity. }
  ands; auto. { eapply repr_holds, orep_repr; eauto. } eapply others_within; [exact R|exact R1| |exact W1]. apply o_with_same.
Qed.
Lemma remove_then_eq t self i l x w f : repr t self l w -> nth_error l i = Some x ->
  remove_then t self i f w = f (fun E => p_remove_into_unchecked t self i E) w.
Proof.
  intros R E. unfold remove_then, v_remove_into.
  erewrite bind_eq. 2: { erewrite bind_eq by (eapply v_len_eq; eauto).
    rewrite (proj2 (Z.ltb_lt _ _)). reflexivity. apply nth_error_lt in E. unfold zlen; lia. }
  reflexivity.
Qed.
(** Dropping the emplacable of [remove_into]; the panic case is C29's. *)
Theorem C27_remove_drop_partial t self i l x w : repr t self l w -> nth_error l i = Some x -> closable t self l i w ->
  run (remove_then t self i emplacable_drop) w
    (fun _ w' => holds_list t self (remove_at i l) w' /\ w_drops w' = w_drops w ++ [x] /\ others self w w')
    (fun r w' => r = PDrop /\ drop_panicked w w')
    (fun w' => drop_panicked w w').
Proof.
  intros R Ex Cl. apply repr_orep in R as (o & d & R).
  destruct (v_remove_into_some _ _ _ _ _ _ _ _ R Ex) as (e & E & Em). { intros K. eapply closable_tail; eauto. }
  unfold remove_then. eapply run_eq; [exact E|]. cbv beta.
  eapply run_conseq; [eapply emplacable_drop_wp; exact Em|..]; cbv beta; cbn [d_fv d_fb d_nulls d_after rem_deal].
  - intros _ w' (W' & D & d' & R'). ands; auto. { eapply repr_holds, orep_repr; eauto. }
    eapply others_within; eauto. apply o_with_same.
  - intros r w' (-> & [_ P] & _). auto.
  - intros w' [_ P]. auto.
Qed.
Theorem C27_remove_forget_partial t self i l x w : repr t self l w -> nth_error l i = Some x -> closable t self l i w ->
  exists w', remove_then t self i emplacable_forget w = (Ok tt, w') /\
    holds_list t self (remove_at i l) w' /\ w_drops w' = w_drops w /\ others self w w'.
Proof.
  intros R Ex Cl. apply repr_orep in R as (o & d & R).
  destruct (v_remove_into_some _ _ _ _ _ _ _ _ R Ex) as (e & E & Em). { intros K. eapply closable_tail; eauto. }
  destruct (emplacable_forget_eq _ _ _ Em) as (w' & E' & W' & D & A). cbn [d_fv d_fb d_after rem_deal] in *. destruct A as (d' & R').
  exists w'. split. { unfold remove_then. erewrite bind_eq by exact E. exact E'. }
  ands; auto. { eapply repr_holds, orep_repr; eauto. } eapply others_within; eauto. apply o_with_same.
Qed.

(** ** C28: panicking producers *)
(** A producer that panics while writing is a deal with [d_panic S r]; it may have written any bytes of its room before. *)
Theorem C28_push_with_panic_partial t self l w e S r w' : repr t self l w -> emits e S w ->
  good t (d_value S) -> fits t (d_lay S) (d_value S) -> nzst t \/ kind_of t = KSized -> apart self (d_fv S) (d_fb S) w ->
  placeable t self (d_value S) w ->
  v_push_with t self e w = (Panic r, w') -> holds_list t self l w' /\ spared self (d_fv S) (d_fb S) w w'.
Proof.
  intros R Em G Fi Nz Ap Pl E. apply repr_orep in R as (o & d & R).
  pose proof (v_push_with_wp _ _ _ _ _ _ _ _ R Em G Fi Nz (placeable_can _ _ _ _ _ _ _ R Pl) Ap) as H.
  unfold run in H. rewrite E in H. destruct H as (R' & T & _). auto using repr_holds, spared_touch.
Qed.
Theorem C28_insert_with_panic_partial t self i l w e S r w' : repr t self l w -> emits e S w ->
  good t (d_value S) -> fits t (d_lay S) (d_value S) -> nzst t \/ kind_of t = KSized -> apart self (d_fv S) (d_fb S) w ->
  placeable t self (d_value S) w -> movable t self l i (valign t (d_value S)) w ->
  v_insert_with t self i e w = (Panic r, w') -> (i <= length l)%nat ->
  holds_list t self l w' /\ spared self (d_fv S) (d_fb S) w w'.
Proof.
  intros R Em G Fi Nz Ap Pl Mv E Li.
  pose proof (C07_insert_with_partial t self i l w e S R Em G Fi Nz Ap Pl Li Mv) as H. unfold adds_with, run in H. rewrite E in H. tauto.
Qed.
(** Such a producer: it overwrites its room with arbitrary bytes and then panics. *)
Definition breaks_off (t : ty) (x : value) (junk : list byte) (r : panic_reason) : emplacable := fun E =>
  E (layout_of t x) (v_meta x) (fun p => if is_null p then drop_value x else mem_write p junk ;; panic r).
Definition breaks_off_deal (t : ty) (x : value) (r : panic_reason) : deal :=
  Deal (v_meta x) (v_bytes x) (layout_of t x) [] [] [x] [] (fun r' => r' = r) (fun _ _ => True).
Lemma heap_write_len h p bs bs' h' : heap_write h p bs = Some h' -> zlen bs' = zlen bs -> exists h'', heap_write h p bs' = Some h''.
Proof.
  unfold heap_write. intros H E. rewrite E. destruct (zlen bs =? 0); eauto. destruct p; try discriminate.
  destruct (heap_get h _); try discriminate. destruct (_ && _); try discriminate. eauto.
Qed.
Lemma breaks_off_emits t x junk r w : zlen junk = zlen (v_bytes x) -> emits (breaks_off t x junk r) (breaks_off_deal t x r) w.
Proof.
  intros L. split; [intros b []|]. intros w1 _. eexists _, (ret tt), w1.
  ands; cbn [d_fv d_fb d_lay d_meta d_after breaks_off_deal]; auto.
  - intros E. rewrite bind_ret. reflexivity.
  - apply within_refl.
  - intros p w2 h' Ag Nn Pb HW. cbn [d_bytes breaks_off_deal d_panic d_extra d_fv d_fb] in *. rewrite Nn.
    destruct (heap_write_len _ _ _ junk _ HW L) as (h2 & HW2).
    eapply run_eq. { unfold mem_write. now rewrite HW2. } apply run_panic. ands; auto.
    + exists junk, h2. ands; auto. apply within_refl.
    + exists []. proj. now rewrite app_nil_r.
  - intros w2 Ag. cbn [is_null null Z.eqb]. apply run_drop_value; intros D.
    + ands. apply within_drops. reflexivity. apply post_ok_ret; cbn [d_after breaks_off_deal]; auto.
    + ands; auto. split; [discriminate|]. now apply drop_panicked_1. apply within_drops. exists [x]. reflexivity.
  - apply post_ok_ret; cbn [d_after breaks_off_deal]; auto.
Qed.
(** A producer that panics before it asks for room: nothing happens to the vector, whatever else the producer did elsewhere. *)
Definition panics_early (e : emplacable) (r : panic_reason) (w w' : world) : Prop := forall E, e E w = (Panic r, w').
Theorem C28_early_push t self e r w w' : panics_early e r w w' -> v_push_with t self e w = (Panic r, w').
Proof.
  intros H. unfold v_push_with, p_push_with. destruct (p_push_with_form t self e) as (E & Eq & _). unfold p_push_with in Eq. rewrite Eq. apply H.
Qed.
Theorem C28_early_insert t self i l e r w w' : repr t self l w -> (i <= length l)%nat -> panics_early e r w w' ->
  v_insert_with t self i e w = (Panic r, w').
Proof.
  intros R L H. pose proof R as R0. apply repr_orep in R as (o & d & R). unfold v_insert_with.
  erewrite bind_eq by (eapply v_len_eq; eauto). rewrite (proj2 (Z.leb_le _ _)) by (unfold zlen; lia).
  destruct (p_insert_with_form t self i e) as (E & Eq & _). rewrite (Eq _ _ _ _ R L). apply H.
Qed.
(** A producer that panics after it has delivered the value: the value is in the vector (the claim as stated fails here,
    [C28_late_refuted]). *)
Definition late (e : emplacable) (r : panic_reason) : emplacable := fun E => e E ;; panic r.
Lemma late_push t self e r : v_push_with t self (late e r) = (v_push_with t self e ;; panic r).
Proof. unfold v_push_with, p_push_with, late. destruct (kind_of t); reflexivity. Qed.
Theorem C28_late_partial t self l w e S r : repr t self l w -> emits e S w ->
  good t (d_value S) -> fits t (d_lay S) (d_value S) -> nzst t \/ kind_of t = KSized -> apart self (d_fv S) (d_fb S) w ->
  placeable t self (d_value S) w ->
  run (v_push_with t self (late e r)) w (fun _ _ => False)
    (fun r' w' => holds_list t self l w' \/ r' = r /\ holds_list t self (l ++ [d_value S]) w')
    (fun w' => alloc_failed w w' \/ aborted S w w').
Proof.
  intros R Em G Fi Nz Ap Pl. rewrite late_push. apply run_bind. apply repr_orep in R as (o & d & R).
  pose proof (v_push_with_wp _ _ _ _ _ _ _ _ R Em G Fi Nz (placeable_can _ _ _ _ _ _ _ R Pl) Ap) as H.
  apply adds_of in H. eapply run_conseq; [exact H|..]; cbv beta; auto.
  - intros _ w' (A & _). apply run_panic. auto.
  - intros r' w' (A & _). auto.
Qed.

(** ** C29: panics while an element is being taken out *)
(** A consumer that panics before taking the element. *)
Definition refuses (E : emplacer) (r : panic_reason) : Prop :=
  forall lay m inner w, exists w', E lay m inner w = (Panic r, w') /\ within [] [] w w' /\ w_drops w' = w_drops w.
(** [pop_into]: the element is gone (leaked), the others are untouched. With [C27_pop_drop], which covers a panicking
    destructor, this is C29 for [pop_into]. *)
Theorem C29_pop_refused t self l x w E r : repr t self (l ++ [x]) w -> refuses E r ->
  exists w', pop_then t self (fun e => e E) w = (Panic r, w') /\ holds_list t self l w' /\ w_drops w' = w_drops w /\ others self w w'.
Proof.
  intros R H. apply repr_orep in R as (o & d & R). destruct (popped _ _ _ _ _ _ _ R) as (R1 & W1 & _).
  rewrite (pop_then_eq _ _ _ _ _ _ _ _ R), (pop_form _ _ _ _ _ _ _ R).
  set (w1 := set_vecs _ _) in *. destruct (H (elem_layout t x) (v_meta x) (take t (eref t o (l ++ [x]) (length l) x) (vsize t x)) w1) as (w' & E' & W' & D).
  exists w'. assert (R' : orep t self l (o_with t o l) d w').
  { eapply orep_foot; [|exact R1]. eapply within_agree; eauto. }
  ands; auto. { eapply repr_holds, orep_repr; eauto. }
  eapply others_within; [exact R|exact R'|apply o_with_same|]. eapply within_trans; [exact W1|]. now apply within_nil.
Qed.
(** [remove_into], types that are not Sized: the element is still there. Sized types: false unless it was the last one
    ([Findings.C29_lost_element_refuted]). A panicking destructor: false ([Findings.C29_double_drop_refuted]). *)
Theorem C29_remove_refused_partial t self i l x w E r : repr t self l w -> nth_error l i = Some x -> refuses E r ->
  kind_of t <> KSized \/ i = (length l - 1)%nat ->
  exists w', remove_then t self i (fun e => e E) w = (Panic r, w') /\ w_drops w' = w_drops w /\ others self w w' /\
    holds_list t self (match kind_of t with KSized => remove_at i l | _ => l end) w'.
Proof.
  intros R Ex H Hk. pose proof R as R0. apply repr_orep in R as (o & d & R).
  destruct (remove_split _ _ _ Ex) as (a & b & -> & -> & ->).
  rewrite (remove_then_eq _ _ _ _ _ _ _ R0 Ex), (rem_form _ _ _ _ _ _ _ _ R).
  set (w1 := set_vecs _ _) in *. set (inner := take _ _ _).
  destruct (H (elem_layout t x) (v_meta x) inner w1) as (w' & E' & W' & D).
  exists w'. unfold bind. rewrite E'. split; [reflexivity|].
  assert (R1 : exists o1, orep t self (match kind_of t with KSized => a ++ b | _ => a ++ x :: b end) o1 d w1 /\ o_ptr o1 = o_ptr o).
  { pose proof (orep_with _ _ _ _ _ _ R) as Ew. pose proof (orep_obj _ _ _ _ _ _ R) as Ob. pose proof (orep_shell _ _ _ _ _ _ R) as Sh.
    destruct o as [v|v|v|].
    - assert (K : kind_of t = KSized) by (apply (sr_kind _ _ _ _ _ _ R)). rewrite K.
      destruct Hk as [Hk|Hk]; [congruence|]. assert (b = []) by (rewrite app_length in Hk; cbn in Hk; destruct b; [auto|cbn in Hk; lia]). subst b.
      rewrite app_nil_r. exists (o_with t (OS v) a). split; [|reflexivity].
      unfold w1. cbn [rem_obj]. rewrite app_nil_r. change (OS (SVec (sv_ptr v) (sv_cap v) (zlen a))) with (o_with t (OS v) a).
      apply shell_make; auto.
      + eapply holds_app. eapply orep_holds; eauto. apply Sh.
      + pose proof (orep_data _ _ _ _ _ _ R) as X. now apply contents_app in X.
    - rewrite (ar_kind _ _ _ _ _ _ R). exists (OA v). unfold w1. cbn [rem_obj]. rewrite set_vecs_same by auto. auto.
    - rewrite (ur_kind _ _ _ _ _ _ R). exists (OU v). unfold w1. cbn [rem_obj]. rewrite set_vecs_same by auto. auto.
    - destruct R. }
  destruct R1 as (o1 & R1 & Ep).
  assert (R' : orep t self (match kind_of t with KSized => a ++ b | _ => a ++ x :: b end) o1 d w').
  { eapply orep_foot; [|exact R1]. eapply within_agree; eauto. }
  ands; auto.
  - eapply others_within; [exact R|exact R'|exact Ep|]. eapply within_trans; [|apply within_nil; exact W']. apply within_set_vec.
  - eapply repr_holds, orep_repr; eauto.
Qed.

(** ** C37: moving an element to another vector *)
(** The same for two vectors. *)
Definition spared2 (a b : nat) (w w' : world) : Prop :=
  sep w' a b /\
  (forall t j l, repr t j l w -> sep w a j -> sep w b j ->
     repr t j l w' /\ sep w' a j /\ sep w' b j /\ owned_block w' j = owned_block w j) /\
  (forall k, heap_get (w_heap w') k <> None ->
     owned_block w' a = Some k \/ owned_block w' b = Some k \/
     heap_get (w_heap w) k <> None /\ owned_block w a <> Some k /\ owned_block w b <> Some k) /\
  (forall k, heap_get (w_heap w) k <> None -> owned_block w a <> Some k -> owned_block w b <> Some k ->
     heap_get (w_heap w') k = heap_get (w_heap w) k /\ owned_block w' a <> Some k /\ owned_block w' b <> Some k).
Lemma spared2_touch t src l o d self w w' l' o' d' : orep t src l o d w -> orep t src l' o' d' w' -> o_ptr o' = o_ptr o -> sep w self src ->
  touch self [src] (blocks (o_ptr o)) w w' -> spared2 self src w w'.
Proof.
  intros R R' Ep Ss T. assert (Eo : owned_block w' src = owned_block w src).
  { now rewrite (orep_owned _ _ _ _ _ _ R), (orep_owned _ _ _ _ _ _ R'), Ep. }
  destruct (spared_touch _ _ _ _ _ T) as (Sp & Lk & Fr). split; [|split; [|split]].
  - destruct Ss as [N S]. split; auto. intros k O. rewrite Eo. intros O'.
    destruct (to_owned _ _ _ _ _ T k O) as [O2|L]. { now apply (S k). }
    pose proof (repr_owned_lt _ _ _ _ _ (orep_repr _ _ _ _ _ _ R) O'). lia.
  - intros u j m Rj Sa [N Sb]. destruct (Sp u j m Rj Sa) as (A & B & E).
    + intros [->|[]]; congruence.
    + intros b E I. apply in_blocks in I. rewrite (orep_owned _ _ _ _ _ _ R) in Sb. now apply (Sb b).
    + ands; auto. split; auto. intros k. rewrite Eo, E. apply Sb.
  - intros k L. rewrite Eo. destruct (opt_dec (owned_block w src) (Some k)) as [O|O]; auto.
    destruct (Lk k L) as [A|[A [I|B]]]; auto. apply in_blocks in I. rewrite (orep_owned _ _ _ _ _ _ R) in O. contradiction.
  - intros k L Na Nb. destruct (Fr k L Na) as [A B]. rewrite Eo. split; auto. apply A. intros I. apply in_blocks in I.
    rewrite (orep_owned _ _ _ _ _ _ R) in Nb. contradiction.
Qed.
Lemma sep_sym w a b : sep w a b -> sep w b a.
Proof. intros [N S]. split; auto. intros k A B. now apply (S k). Qed.
Lemma last_in {A} (l : list A) x : In x (l ++ [x]).
Proof. apply in_or_app. right. now left. Qed.
Theorem C37_push_pop_partial t self src l l2 x w : repr t self l2 w -> repr t src (l ++ [x]) w -> sep w self src ->
  nzst t \/ kind_of t = KSized -> placeable t self x w ->
  run (pop_then t src (v_push_with t self)) w
    (fun _ w' => holds_list t self (l2 ++ [x]) w' /\ holds_list t src l w' /\ w_drops w' = w_drops w /\ spared2 self src w w')
    (fun r w' => holds_list t self l2 w' /\ holds_list t src l w' /\ w_drops w' = w_drops w /\ spared2 self src w w' /\
                 (r = PCapacity \/ r = POom /\ cfg_oom_panics = true))
    (fun w' => alloc_failed w w').
Proof.
  intros R Rs Sp Nz Pl. apply repr_orep in R as (o & d & R). apply repr_orep in Rs as (os & ds & Rs).
  destruct (v_pop_into_some _ _ _ _ _ _ _ Rs) as (e & E & Em).
  unfold pop_then. eapply run_eq; [exact E|]. cbv beta iota.
  set (S := pop_deal t src l x os) in *. assert (Ev : d_value S = x) by now destruct x.
  assert (Ap : apart self (d_fv S) (d_fb S) w) by (eapply sep_apart; eauto using sep_sym).
  assert (Fi : fits t (d_lay S) x) by (eapply elem_fits; eauto using last_in).
  eapply run_conseq; [eapply (v_push_with_wp t self l2 o d w e S); rewrite ?Ev; eauto using last_in, orep_elem, elem_fits, placeable_can|..];
    cbv beta; rewrite ?Ev; unfold S; cbn [d_fv d_fb d_extra d_after pop_deal].
  - intros _ w' (o' & d' & R' & T & D & (d2 & R2) & _). rewrite app_nil_r in D.
    ands; auto; try (eapply repr_holds, orep_repr; eauto). eapply (spared2_touch t src); eauto. apply o_with_same.
  - intros r w' (R' & T & [(_ & Rr & D & (d2 & R2))|[[]|[_ [Nn _]]]]); [|now destruct Nn].
    ands; auto using repr_holds. { eapply repr_holds, orep_repr; eauto. } eapply (spared2_touch t src); eauto. apply o_with_same.
  - intros w' [A|A]; auto. apply not_aborted in A; [destruct A|reflexivity|intros ? []].
Qed.
Theorem C37_insert_remove_partial t self src i j l l2 x w : repr t self l2 w -> repr t src l w -> sep w self src ->
  nth_error l j = Some x -> closable t src l j w -> (i <= length l2)%nat -> movable t self l2 i (valign t x) w ->
  nzst t \/ kind_of t = KSized -> placeable t self x w ->
  run (remove_then t src j (v_insert_with t self i)) w
    (fun _ w' => holds_list t self (insert_at i x l2) w' /\ holds_list t src (remove_at j l) w' /\ w_drops w' = w_drops w /\
                 spared2 self src w w')
    (fun r w' => holds_list t self l2 w' /\ holds_list t src (match kind_of t with KSized => removelast l | _ => l end) w' /\
                 w_drops w' = w_drops w /\ spared2 self src w w' /\ (r = PCapacity \/ r = POom /\ cfg_oom_panics = true))
    (fun w' => alloc_failed w w').
Proof.
  intros R Rs Sp Ex Cl Li Mv Nz Pl. apply repr_orep in R as (o & d & R). apply repr_orep in Rs as (os & ds & Rs).
  destruct (v_remove_into_some _ _ _ _ _ _ _ _ Rs Ex) as (e & E & Em). { intros K. eapply closable_tail; eauto. }
  assert (El : firstn j l ++ x :: skipn (Datatypes.S j) l = l).
  { clear -Ex. revert j Ex; induction l; intros [|j] E; try discriminate. - injection E as ->. reflexivity. - cbn. f_equal. now apply IHl. }
  unfold remove_then. eapply run_eq; [exact E|]. cbv beta iota.
  set (S := rem_deal _ _ _ _ _ _) in *. assert (Ev : d_value S = x) by now destruct x.
  assert (Ap : apart self (d_fv S) (d_fb S) w) by (eapply sep_apart; eauto using sep_sym).
  assert (Ix : In x l) by eauto using nth_error_In. assert (G : good t x) by eauto using orep_elem.
  assert (Fi : fits t (d_lay S) x) by (eapply elem_fits; eauto).
  eapply run_conseq; [eapply (v_insert_with_wp t self l2 o d w e S i); rewrite ?Ev; eauto using elem_fits, placeable_can|..];
    cbv beta; rewrite ?Ev.
  - intros K. eapply movable_tail; eauto. apply pow2_pos, good_align; auto.
  - unfold S; cbn [d_fv d_fb d_extra d_after rem_deal]. intros _ w' (o' & d' & R' & T & D & (d2 & R2) & _). rewrite app_nil_r in D.
    ands; auto; try (eapply repr_holds, orep_repr; eauto). eapply (spared2_touch t src); eauto. apply o_with_same.
  - intros r w' (R' & T & [(_ & Rr & D & A)|[[]|[_ [Nn _]]]]); [|now destruct Nn].
    unfold S in *; cbn [d_fv d_fb d_extra d_after rem_deal] in *. rewrite El in A. destruct A as (d2 & R2).
    ands; auto using repr_holds. { eapply repr_holds, orep_repr; eauto. } eapply (spared2_touch t src); eauto. apply o_with_same.
  - intros w' [A|A]; auto. apply not_aborted in A; [destruct A|reflexivity|intros ? []].
Qed.
End WithConfig.

Print Assumptions C04_pop_empty.
Print Assumptions C04_pop.
Print Assumptions C06_insert_partial.
Print Assumptions C06_insert_sized_partial.
Print Assumptions C06_insert_front_partial.
Print Assumptions C06_insert_oob.
Print Assumptions C07_insert_with_partial.
Print Assumptions C07_insert_with_static.
Print Assumptions C07_insert_with_oob.
Print Assumptions C07_insert_with_value_partial.
Print Assumptions C08_remove_partial.
Print Assumptions C08_remove_oob.
Print Assumptions C27_pop_drop.
Print Assumptions C27_pop_forget.
Print Assumptions C27_remove_drop_partial.
Print Assumptions C27_remove_forget_partial.
Print Assumptions C28_push_with_panic_partial.
Print Assumptions C28_insert_with_panic_partial.
Print Assumptions C28_early_push.
Print Assumptions C28_early_insert.
Print Assumptions C28_late_partial.
Print Assumptions C29_pop_refused.
Print Assumptions C29_remove_refused_partial.
Print Assumptions C37_push_pop_partial.
Print Assumptions C37_insert_remove_partial.

(** ** Concrete cases meeting the hypotheses *)
Section Cases.
Local Existing Instance cfg_release.
Ltac built := eapply (built_repr _ _ empty_world); [exact I|intros K; discriminate K|apply takesb_ok; reflexivity|run].
Ltac built32 := eapply (built_repr _ _ empty_world); [apply wf_u32|intros K; reflexivity|apply takesb_ok; reflexivity|run].

Example C04_case : exists v w r w', repr TDyn v ([five 1; word 2] ++ [half 3]) w /\ pop_box TDyn v w = (Ok r, w') /\
  r <> None /\ shows TDyn v [five 1; word 2] w'.
Proof. do 4 eexists. split; [built|]. split; [run|]. split; [discriminate|]. run. Qed.
Example C06_sized_case : exists v w w', repr (TSized 4 4) v [u32 1; u32 2] w /\
  v_insert (TSized 4 4) v 1 (u32 9) w = (Ok tt, w') /\ shows (TSized 4 4) v [u32 1; u32 9; u32 2] w'.
Proof. do 3 eexists. split; [built32|]. split; [run|]. run. Qed.
Example C06_front_case : exists v w w', repr TStr v [ab; cd] w /\
  v_insert TStr v 0 ef w = (Ok tt, w') /\ shows TStr v [ef; ab; cd] w'.
Proof. do 3 eexists. split; [built|]. split; [run|]. run. Qed.
(** In the middle: one-byte strings, where index and byte offset agree. *)
Example C06_middle_case : exists v w w', repr TStr v [str_val [97]; str_val [98]; cd] w /\
  offset_of TStr v 2 1 [str_val [97]; str_val [98]; cd] w 2 /\
  v_insert TStr v 2 ef w = (Ok tt, w') /\ shows TStr v [str_val [97]; str_val [98]; ef; cd] w'.
Proof. do 3 eexists. split; [built|]. split; [run|]. split; [run|]. run. Qed.
(** Raising the alignment from 8 to 16 in the middle, and at a padded end. *)
Example C07_case : exists v w w', repr TDyn v [five 1; word 2] w /\ placeable TDyn v wide16 w /\ movable TDyn v [five 1; word 2] 1 16 w /\
  v_insert_with TDyn v 1 (emplacable_of_value TDyn wide16) w = (Ok tt, w') /\ shows TDyn v [five 1; wide16; word 2] w'.
Proof.
  do 3 eexists. split; [built|]. split. { intros _. do 2 eexists. split; [run|]. split; [run|]. left. reflexivity. }
  split. { intros _. left. cbn. auto. } split; [run|]. run.
Qed.
Example C07_end_case : exists v w w', repr TDyn v [five 1; word 2] w /\ movable TDyn v [five 1; word 2] 2 8 w /\
  v_insert_with TDyn v 2 (emplacable_of_value TDyn (half 3)) w = (Ok tt, w') /\ shows TDyn v [five 1; word 2; half 3] w'.
Proof.
  do 3 eexists. split; [built|]. split.
  { intros _. right. eexists. split; [run|]. intros l0 y E. change [five 1; word 2] with ([five 1] ++ [word 2]) in E.
    apply app_inj_tail in E as [_ <-]. reflexivity. }
  split; [run|]. run.
Qed.
Example C08_case : exists v w r w', repr TDyn v [five 1; word 2; half 3] w /\ closable TDyn v [five 1; word 2; half 3] 1 w /\
  remove_box TDyn v 1 w = (Ok r, w') /\ shows TDyn v [five 1; half 3] w'.
Proof. do 4 eexists. split; [built|]. split; [intros _; left; cbn; auto|]. split; [run|]. run. Qed.
Example C27_case : exists v w w', repr TStr v ([ab; cd] ++ [ef]) w /\ pop_then TStr v emplacable_drop w = (Ok tt, w') /\
  w_drops w' = w_drops w ++ [ef].
Proof. do 3 eexists. split; [built|]. split; [run|]. run. Qed.
Example C27_panic_case : exists v w w', v_of_values (C := cfg_drop0) TStr [ab; cd; ef] empty_world = (Ok v, w) /\
  pop_then (C := cfg_drop0) TStr v (emplacable_drop) w = (Panic PDrop, w') /\ w_drops w' = [ef] /\ shows TStr v [ab; cd] w'.
Proof. do 3 eexists. split; [run|]. split; [run|]. split; [run|]. run. Qed.
(** A producer that fills half the room of a new middle element and panics: the moved elements are moved back. *)
Example C28_case : exists v w w', repr TDyn v [five 1; word 2; half 3] w /\
  emits (breaks_off TDyn wide16 (repeat (Byte 66) 16) (PUser 3)) (breaks_off_deal TDyn wide16 (PUser 3)) w /\
  v_insert_with TDyn v 1 (breaks_off TDyn wide16 (repeat (Byte 66) 16) (PUser 3)) w = (Panic (PUser 3), w') /\
  shows TDyn v [five 1; word 2; half 3] w' /\ v_align TDyn v w' = (Ok 16, w').
Proof.
  do 3 eexists. split; [built|]. split; [apply breaks_off_emits; reflexivity|]. split; [run|]. split; [run|]. run.
Qed.
(** C28 as stated is false for a producer that panics after delivering: the vector has the new element. *)
Theorem C28_late_refuted : exists v w w', repr TStr v [ab] w /\
  v_push_with TStr v (late (emplacable_of_value TStr cd) (PUser 3)) w = (Panic (PUser 3), w') /\ shows TStr v [ab; cd] w'.
Proof. do 3 eexists. split; [built|]. split; [run|]. run. Qed.
Example C29_case : exists v w w', repr TStr v ([ab] ++ [cd]) w /\ refuses (fun _ _ _ => panic (PUser 1)) (PUser 1) /\
  remove_then TStr v 0 (fun e => e (fun _ _ _ => panic (PUser 1))) w = (Panic (PUser 1), w') /\ shows TStr v [ab; cd] w'.
Proof.
  do 3 eexists. split; [built|]. split. { intros ? ? ? w. exists w. split; [reflexivity|]. split; [apply within_refl|reflexivity]. }
  split; [run|]. run.
Qed.
(** Two vectors of trait objects with different alignments. *)
Definition two_vecs : M (nat * nat) :=
  a <- v_of_values TDyn [one 1; half 2] ;; b <- v_of_values TDyn [wide16; five 5] ;; ret (a, b).
Example C37_case : exists a b w w', two_vecs empty_world = (Ok (a, b), w) /\ shows TDyn a [one 1; half 2] w /\
  shows TDyn b [wide16; five 5] w /\
  remove_then TDyn b 0 (v_insert_with TDyn a 1) w = (Ok tt, w') /\
  shows TDyn a [one 1; wide16; half 2] w' /\ shows TDyn b [five 5] w'.
Proof. do 4 eexists. do 5 (split; [run|]). run. Qed.
End Cases.

Print Assumptions C28_late_refuted.
