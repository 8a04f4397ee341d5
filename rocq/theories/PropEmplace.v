(** C38-C45: emplacables, the things they are made from and the things that consume them. *)
From Coq Require Import ZArith List Bool Lia.
From Verif Require Import Types World ValidSize Emplace SizedVec AlignedVec UnalignedVec Api Spec Bytes Arith Wp Mem Repr
  Access Reserve Realign Orep Push Deal PushWith Shell Insert Take Pop Box Iter Calls DropVec Family Build PushAll Wrote Sources
  Copies Obs Findings PropPush PropEdit.
Import ListNotations.
Open Scope Z_scope.
Open Scope m_scope.

(** Memory and vectors are as before: nothing leaked, nothing lost. *)
Definition clean (w w' : world) : Prop :=
  (forall b, heap_get (w_heap w') b = heap_get (w_heap w) b) /\ (forall j, nth_error (w_vecs w') j = nth_error (w_vecs w) j).
(** The same except for the blocks [fb]; none of those is new. *)
Definition clean_but (fb : list nat) (w w' : world) : Prop :=
  (forall b, ~ In b fb -> heap_get (w_heap w') b = heap_get (w_heap w) b) /\
  (forall j, nth_error (w_vecs w') j = nth_error (w_vecs w) j).
(** The box's memory: an allocation of its own with the value's layout. *)
Definition own_allocation (t : ty) (b : wide) (x : value) (w : world) : Prop :=
  wm b = v_meta x /\
  (0 < vsize t x -> exists k base, wp b = Blk k 0 /\
     heap_get (w_heap w) k = Some (Block (layout_of t x) base (v_bytes x)) /\ 0 < base /\ base mod valign t x = 0) /\
  (vsize t x = 0 -> exists a, wp b = Raw a /\ 0 < a /\ a mod valign t x = 0).

Lemma boxed_own t b x w : boxed t b x (w_heap w) -> own_allocation t b x w.
Proof.
  intros [E B]. unfold own_allocation. ands; auto; intros H; unfold buf in B.
  - destruct (Z.eqb_spec (vsize t x) 0); [lia|]. destruct B as (k & base & P & G & A1 & A2 & _). eauto 8.
  - rewrite H in B. cbn [Z.eqb] in B. destruct B as (a & P & A & D & _). eauto.
Qed.
Lemma heap_get_ge h b : (length h <= b)%nat -> heap_get h b = None.
Proof. intros L. unfold heap_get. now rewrite (proj2 (nth_error_None _ _) L). Qed.
Lemma fresh_clean fb w w' : fresh [] fb None w w' -> (forall b, In b fb -> (b < length (w_heap w))%nat) -> clean_but fb w w'.
Proof.
  intros F L. split.
  - intros b N. destruct (Nat.lt_ge_cases b (length (w_heap w))) as [Q|Q].
    + now apply (fs_other _ _ _ _ _ F).
    + rewrite (heap_get_ge _ _ Q). destruct (heap_get (w_heap w') b) eqn:E; auto.
      exfalso. assert (X : heap_get (w_heap w') b <> None) by congruence. apply (fs_new _ _ _ _ _ F) in X; [discriminate|auto].
  - intros j. apply (fs_vecs _ _ _ _ _ F). auto.
Qed.
Lemma clean_nil w w' : clean_but [] w w' <-> clean w w'.
Proof. unfold clean_but, clean. split; intros [A B]; split; auto. Qed.
Lemma within_clean fb w w' : within [] fb w w' -> clean_but fb w w'.
Proof. intros (A & _ & _ & _ & B & _). split; auto. Qed.
(** A fresh box that is freed again leaves memory as it was. *)
Lemma fresh_then_free t b x fb w w1 w2 : fresh [] fb (ptr_block (wp b)) w w1 -> boxed t b x (w_heap w1) ->
  (forall k, In k fb -> (k < length (w_heap w))%nat) ->
  within [] (blocks (wp b)) w1 w2 -> freed b (w_heap w2) -> clean_but fb w w2.
Proof.
  intros F B L W Fr. split.
  - intros k N. destruct (opt_dec (ptr_block (wp b)) (Some k)) as [Q|Q].
    + rewrite (Fr k Q). symmetry. apply heap_get_ge. now apply (fs_ob _ _ _ _ _ F).
    + destruct W as (_ & _ & _ & _ & W & _). rewrite W by (rewrite in_blocks; auto).
      destruct (Nat.lt_ge_cases k (length (w_heap w))) as [Z|Z].
      * now apply (fs_other _ _ _ _ _ F).
      * rewrite (heap_get_ge _ _ Z). destruct (heap_get (w_heap w1) k) eqn:E; auto.
        exfalso. apply Q. apply (fs_new _ _ _ _ _ F); auto. congruence.
  - intros j. destruct W as (W & _). rewrite W by auto. apply (fs_vecs _ _ _ _ _ F). auto.
Qed.

Section WithConfig.
Context {C : Config}.

(** ** C38: into a box and back *)
Definition round_trip (t : ty) (m : M wide) : M value := b <- m ;; x <- read_value t b ;; box_drop t b ;; ret x.

Lemma box_read t b x w : boxed t b x (w_heap w) -> wf_value t x -> read_value t b w = (Ok x, w).
Proof. intros B G. eapply behind_read. eapply boxed_behind; eauto. Qed.

Theorem C38_box_layout t x w : wf_value t x ->
  run (box_new_with (emplacable_of_value t x)) w
    (fun b w' => own_allocation t b x w' /\ read_value t b w' = (Ok x, w') /\ w_drops w' = w_drops w /\
       clean w (set_heap (hfree (w_heap w') (wp b)) w'))
    (fun r w' => r = POom /\ alloc_failed w w' /\ clean w w' /\ w_drops w' = w_drops w)
    (fun w' => alloc_failed w w').
Proof.
  intros G. assert (Ev : d_value (value_deal t x) = x) by now destruct x.
  eapply run_conseq; [eapply (box_new_with_wp t _ (value_deal t x)); rewrite ?Ev; eauto using value_emits|..]; cbv beta; rewrite ?Ev.
  - intros b w' (B & F & D & _). cbn [value_deal d_fv d_fb d_extra] in *. rewrite app_nil_r in D. ands; auto using boxed_own, box_read.
    destruct (box_dealloc_eq t b x w' B) as (_ & Wi & Fr). apply clean_nil. eapply fresh_then_free; eauto. intros k [].
  - intros r w' (F & [(-> & A & D & _)|[[[]|[_ [N _]]] _]]); [|now destruct N]. cbn [value_deal d_fv d_fb] in F.
    ands; auto. apply clean_nil, fresh_clean; auto. intros b [].
  - intros w' [A|A]; auto. apply not_aborted in A; [destruct A|reflexivity|intros ? []].
Qed.

Lemma round_trip_tail t b x w0 w : boxed t b x (w_heap w) -> wf_value t x -> fresh [] [] (ptr_block (wp b)) w0 w ->
  run (x <- read_value t b ;; box_drop t b ;; ret x) w
    (fun y w' => y = x /\ clean w0 w' /\ w_drops w' = w_drops w ++ [x])
    (fun r w' => r = PDrop /\ clean w0 w' /\ w_drops w' = w_drops w ++ [x] /\ drop_panicked w w')
    (fun _ => False).
Proof.
  intros B G F. eapply run_eq; [eapply box_read; eauto|]. apply run_bind.
  eapply run_conseq; [eapply box_drop_wp; eauto|..]; cbv beta.
  - intros _ w' (W & Fr & D). apply run_ret. ands; auto. apply clean_nil. eapply fresh_then_free; eauto. intros k [].
  - intros r w' (-> & P & W & Fr & D). ands; auto. apply clean_nil. eapply fresh_then_free; eauto. intros k [].
  - auto.
Qed.

(** [box_new_with(x.into())]: the value comes back, its destructor runs once, memory is as before. When the allocation
    fails the value is forgotten (it sits in a ManuallyDrop). *)
Theorem C38_box_new_with t x w : wf_value t x ->
  run (round_trip t (box_new_with (emplacable_of_value t x))) w
    (fun y w' => y = x /\ clean w w' /\ w_drops w' = w_drops w ++ [x])
    (fun r w' => clean w w' /\ (r = POom /\ alloc_failed w w' /\ w_drops w' = w_drops w \/
                                r = PDrop /\ drop_panicked w w' /\ w_drops w' = w_drops w ++ [x]))
    (fun w' => alloc_failed w w').
Proof.
  intros G. assert (Ev : d_value (value_deal t x) = x) by now destruct x. unfold round_trip. apply run_bind.
  eapply run_conseq; [eapply (box_new_with_wp t _ (value_deal t x)); rewrite ?Ev; eauto using value_emits|..]; cbv beta; rewrite ?Ev.
  - intros b w1 (B & F & D & _). cbn [value_deal d_fv d_fb d_extra] in *. rewrite app_nil_r in D.
    eapply run_conseq; [eapply round_trip_tail; eauto|..]; cbv beta.
    + intros y w' (-> & Cl & D'). ands; auto. congruence.
    + intros r w' (-> & Cl & D' & P). split; auto. right. ands; auto; [|congruence]. eapply drop_panicked_from; [|exact P]. now rewrite D.
    + intros w' [].
  - intros r w' (F & [(-> & A & D & _)|[[[]|[_ [N _]]] _]]); [|now destruct N]. cbn [value_deal d_fv d_fb] in F.
    split; auto. apply clean_nil, fresh_clean; auto. intros b [].
  - intros w' [A|A]; auto. apply not_aborted in A; [destruct A|reflexivity|intros ? []].
Qed.
Theorem C38_box_new t x w : wf_value t x ->
  run (round_trip t (box_new t x)) w
    (fun y w' => y = x /\ clean w w' /\ w_drops w' = w_drops w ++ [x])
    (fun r w' => clean w w' /\ w_drops w' = w_drops w ++ [x] /\ (r = POom /\ alloc_failed w w' \/ r = PDrop /\ drop_panicked w w'))
    (fun w' => alloc_failed w w').
Proof.
  intros G. unfold round_trip. apply run_bind. eapply run_conseq; [eapply box_new_wp; eauto|..]; cbv beta.
  - intros b w1 (B & F & D). eapply run_conseq; [eapply round_trip_tail; eauto|..]; cbv beta.
    + intros y w' (-> & Cl & D'). ands; auto. congruence.
    + intros r w' (-> & Cl & D' & P). ands; auto; [congruence|]. right. split; auto. eapply drop_panicked_from; [|exact P]. now rewrite D.
    + intros w' [].
  - intros r w' (-> & A & F & D). ands; auto. apply clean_nil, fresh_clean; auto. intros b [].
  - auto.
Qed.
(** [Emplacable::get], through a stack slot. *)
Theorem C38_get t x w : wf_value t x -> v_meta x = MUnit ->
  exists w', emplacable_get t (emplacable_of_value t x) w = (Ok x, w') /\ clean w w' /\ w_drops w' = w_drops w.
Proof.
  intros G Mx. assert (Ev : d_value (value_deal t x) = x) by now destruct x.
  assert (H : run (emplacable_get t (emplacable_of_value t x)) w (fun y w' => y = x /\ clean w w' /\ w_drops w' = w_drops w)
    (fun _ _ => False) (fun _ => False)).
  { eapply run_conseq; [eapply (emplacable_get_wp t _ (value_deal t x)); rewrite ?Ev; eauto using value_emits|..]; cbv beta; rewrite ?Ev.
    - intros y w' (-> & F & D & _). cbn [value_deal d_fv d_fb d_extra] in *. rewrite app_nil_r in D. ands; auto.
      apply clean_nil, fresh_clean; auto. intros b [].
    - intros r w' ([[]|[_ [N _]]] & _). now destruct N.
    - intros w' A. apply not_aborted in A; [destruct A|reflexivity|intros ? []]. }
  unfold run in H. destruct (emplacable_get _ _ w) as [[y|r| |u] w'] eqn:E; try contradiction. destruct H as (-> & H). eauto.
Qed.

(** ** C39: the value is delivered once *)
(** The sources that own a value, and borrowed strings: [source t e x ready gone ds]: the emplacable [e] holds [x]; [ready] describes the source,
    [gone] that the source's allocation is freed, [ds] the values whose destructors run when [e] is dropped. *)
Definition lent (t : ty) (r : wide) (x : value) (w : world) : Prop :=
  wm r = v_meta x /\ make_ref t r w = (Ok r, w) /\ read_value t r w = (Ok x, w).
Inductive source (t : ty) : emplacable -> value -> (world -> Prop) -> (world -> Prop) -> list value -> list nat -> Prop :=
| src_value x : source t (emplacable_of_value t x) x (fun _ => True) (fun _ => True) [x] []
| src_box b x : source t (emplacable_of_box t b) x (fun w => own_allocation t b x w)
    (fun w => forall k, ptr_block (wp b) = Some k -> heap_get (w_heap w) k = None) [x] (blocks (wp b))
| src_vec es ea v xs : t = TSlice es ea -> es = 0 \/ sv_cap v = zlen xs ->
    source t (emplacable_of_vec es ea v) (Value (MLen (zlen xs)) (vec_bytes xs))
      (fun w => stdvec (TSized es ea) v xs (w_heap w))
      (fun w => forall k, ptr_block (sv_ptr v) = Some k -> heap_get (w_heap w) k = None) xs (blocks (sv_ptr v))
| src_ref r x : source t (emplacable_of_str_ref t r) x (lent t r x) (lent t r x) [] (blocks (wp r)).
Lemma lent_behind t r x w : lent t r x w <-> behind t r x (w_heap w).
Proof.
  unfold lent, behind, make_ref, read_value, mem_read, bind, ret, vsize. split; intros (E & A & B); rewrite E in *; split; auto.
  - destruct (ref_ok _ _ _); [|discriminate]. split; auto. destruct (heap_read _ _ _); [|discriminate]. injection B as <-. reflexivity.
  - rewrite A, B. now destruct x.
Qed.

Lemma own_boxed t b x w : own_allocation t b x w -> wf_value t x -> boxed t b x (w_heap w).
Proof.
  intros (E & A & B) G. pose proof (wf_size _ _ G). pose proof (wf_bytes _ _ G). split; auto. unfold buf. destruct (Z.eqb_spec (vsize t x) 0) as [Z|Z].
  - destruct (B Z) as (a & P & Q & R). exists a. ands; auto. destruct (v_bytes x); auto. unfold zlen in *. cbn [length] in *. lia.
  - destruct A as (k & base & P & Q & R & R'); [lia|]. exists k, base. ands; auto; lia.
Qed.
Lemma source_deal t e x rd gn ds fb w : source t e x rd gn ds fb -> wf_value t x -> rd w ->
  exists S, emits e S w /\ d_value S = x /\ d_lay S = layout_of t x /\ d_fv S = [] /\ d_fb S = fb /\ d_nulls S = ds /\ d_extra S = [] /\
    (forall r, ~ d_panic S r) /\ (forall u w', u <> Refused -> d_after S u w' -> gn w') /\ (forall w', d_after S Refused w' -> rd w').
Proof.
  intros Sr G Rd. destruct Sr as [x|b x|es ea v xs -> Cp|r x].
  - exists (value_deal t x). ands; auto using value_emits. now destruct x.
  - exists (box_deal t b x). ands; auto. + apply box_emits; auto using own_boxed. + now destruct x.
    + intros [] w' N H; auto. now elim N. + intros w' H. now apply boxed_own.
  - exists (vec_deal (TSized es ea) v xs). ands; auto.
    + now apply vec_emits. 
    + cbn [vec_deal d_lay]. unfold vec_layout, layout_of, vsize, valign. cbn [v_meta size_of_val align_of_val]. f_equal.
      change (s_size (TSized es ea)) with es. destruct Cp as [->| ->]; lia.
    + intros [] w' N H; auto. now elim N.
  - exists (ref_deal t r x). ands; auto.
    + now apply str_ref_emits, lent_behind.
    + now destruct x.
    + intros u w' _ H. now apply lent_behind.
    + intros w' H. now apply lent_behind.
Qed.

Theorem C39_drop t e x rd gn ds fb w : source t e x rd gn ds fb -> wf_value t x -> rd w ->
  run (emplacable_drop e) w
    (fun _ w' => gn w' /\ w_drops w' = w_drops w ++ ds /\ clean_but fb w w')
    (fun r w' => r = PDrop /\ ds <> [] /\ drop_panicked w w' /\ clean_but fb w w')
    (fun w' => ds <> [] /\ drop_panicked w w').
Proof.
  intros Sr G Rd. destruct (source_deal _ _ _ _ _ _ _ _ Sr G Rd) as (S & Em & Ev & El & Fv & Fb & Nl & Ex & Pn & Gn & Rf).
  eapply run_conseq; [eapply emplacable_drop_wp; exact Em|..]; cbv beta; rewrite ?Fv, ?Fb, ?Nl.
  - intros _ w' (W & D & A). ands; auto using within_clean. eapply Gn; [|exact A]. discriminate.
  - intros r w' (-> & [N P] & W & _). ands; auto using within_clean.
  - intros w' H. exact H.
Qed.
Theorem C39_forget t e x rd gn ds fb w : source t e x rd gn ds fb -> wf_value t x -> rd w ->
  exists w', emplacable_forget e w = (Ok tt, w') /\ gn w' /\ w_drops w' = w_drops w /\ clean_but fb w w'.
Proof.
  intros Sr G Rd. destruct (source_deal _ _ _ _ _ _ _ _ Sr G Rd) as (S & Em & Ev & El & Fv & Fb & Nl & Ex & Pn & Gn & Rf).
  destruct (emplacable_forget_eq e S w Em) as (w' & E & W & D & A). rewrite Fv, Fb in W. exists w'. ands; auto using within_clean.
  eapply Gn; [|exact A]. discriminate.
Qed.
(** Consumed by [box_new_with]: one new allocation holds the value, the source's own is freed. If the allocation fails the
    source keeps the value. *)
Theorem C39_box t e x rd gn ds fb w : source t e x rd gn ds fb -> wf_value t x -> rd w ->
  run (box_new_with e) w
    (fun b w' => own_allocation t b x w' /\ gn w' /\ w_drops w' = w_drops w /\
                 forall k, heap_get (w_heap w') k <> None -> ptr_block (wp b) = Some k \/ heap_get (w_heap w') k = heap_get (w_heap w) k \/ In k fb)
    (fun r w' => r = POom /\ alloc_failed w w' /\ rd w' /\ w_drops w' = w_drops w /\ clean_but fb w w')
    (fun w' => alloc_failed w w').
Proof.
  intros Sr G Rd. destruct (source_deal _ _ _ _ _ _ _ _ Sr G Rd) as (S & Em & Ev & El & Fv & Fb & Nl & Ex & Pn & Gn & Rf).
  assert (Ob : forall b, In b fb -> (b < length (w_heap w))%nat) by (rewrite <- Fb; apply Em).
  eapply run_conseq; [eapply (box_new_with_wp t e S); rewrite ?Ev; eauto|..]; cbv beta; unfold box_panic; rewrite ?Ev, ?Fv, ?Fb, ?Ex.
  - intros b w' (B & F & D & A). rewrite app_nil_r in D. ands; auto using boxed_own. { eapply Gn; [|exact A]. discriminate. }
    intros k N. destruct (Nat.lt_ge_cases k (length (w_heap w))) as [Q|Q].
    + destruct (in_dec Nat.eq_dec k fb) as [X|X]; [auto|]. right; left. now apply (fs_other _ _ _ _ _ F).
    + left. now apply (fs_new _ _ _ _ _ F).
  - intros r w' (F & [(-> & A & D & R)|[[P|[_ [N _]]] _]]); [|now apply Pn in P|now destruct N]. ands; auto using fresh_clean.
  - intros w' [A|A]; auto. apply not_aborted in A; [destruct A|auto|auto].
Qed.
(** Consumed by a vector. *)
Theorem C39_push_partial t self l e x rd gn ds fb w : source t e x rd gn ds fb -> good t x -> not_huge t x -> rd w -> repr t self l w ->
  nzst t \/ kind_of t = KSized -> placeable t self x w -> apart self [] fb w ->
  run (v_push_with t self e) w
    (fun _ w' => holds_list t self (l ++ [x]) w' /\ gn w' /\ w_drops w' = w_drops w /\ spared self [] fb w w')
    (fun r w' => holds_list t self l w' /\ rd w' /\ w_drops w' = w_drops w /\ spared self [] fb w w' /\
                 (r = PCapacity \/ r = POom /\ cfg_oom_panics = true))
    (fun w' => alloc_failed w w').
Proof.
  intros Sr G Nc Rd R Nz Pl Ap. destruct (source_deal _ _ _ _ _ _ _ _ Sr (good_wf _ _ G) Rd) as (S & Em & Ev & El & Fv & Fb & Nl & Ex & Pn & Gn & Rf).
  apply repr_orep in R as (o & d & R).
  assert (H : adds_with (v_push_with t self e) t self l (l ++ [d_value S]) S w).
  { eapply adds_of. eapply v_push_with_wp; rewrite ?Ev, ?El; rewrite ?Fv, ?Fb; eauto using fits_self, placeable_can. }
  eapply run_conseq; [exact H|..]; cbv beta; rewrite ?Ev, ?Fv, ?Fb, ?Ex.
  - intros _ w' (L & D & A & Sp). rewrite app_nil_r in D. ands; auto. eapply Gn; [|exact A]. discriminate.
  - intros r w' (L & Sp & [(Rr & D & A)|[P|(_ & N & _)]]); [|now apply Pn in P|now destruct N]. ands; auto.
  - intros w' [A|A]; auto. apply not_aborted in A; [destruct A|auto|auto].
Qed.
Theorem C39_insert_partial t self i l e x rd gn ds fb w : source t e x rd gn ds fb -> good t x -> not_huge t x -> rd w -> repr t self l w ->
  nzst t \/ kind_of t = KSized -> placeable t self x w -> apart self [] fb w -> (i <= length l)%nat -> movable t self l i (valign t x) w ->
  run (v_insert_with t self i e) w
    (fun _ w' => holds_list t self (insert_at i x l) w' /\ gn w' /\ w_drops w' = w_drops w /\ spared self [] fb w w')
    (fun r w' => holds_list t self l w' /\ rd w' /\ w_drops w' = w_drops w /\ spared self [] fb w w' /\
                 (r = PCapacity \/ r = POom /\ cfg_oom_panics = true))
    (fun w' => alloc_failed w w').
Proof.
  intros Sr G Nc Rd R Nz Pl Ap Li Mv. destruct (source_deal _ _ _ _ _ _ _ _ Sr (good_wf _ _ G) Rd) as (S & Em & Ev & El & Fv & Fb & Nl & Ex & Pn & Gn & Rf).
  assert (H : adds_with (v_insert_with t self i e) t self l (insert_at i (d_value S) l) S w).
  { apply C07_insert_with_partial; rewrite ?Ev, ?El, ?Fv, ?Fb; auto using fits_self. }
  eapply run_conseq; [exact H|..]; cbv beta; rewrite ?Ev, ?Fv, ?Fb, ?Ex.
  - intros _ w' (L & D & A & Sp). rewrite app_nil_r in D. ands; auto. eapply Gn; [|exact A]. discriminate.
  - intros r w' (L & Sp & [(Rr & D & A)|[P|(_ & N & _)]]); [|now apply Pn in P|now destruct N]. ands; auto.
  - intros w' [A|A]; auto. apply not_aborted in A; [destruct A|auto|auto].
Qed.

(** ** C40: borrowed slices of elements that are [Clone] but not [Copy] *)
(** The slice [n] elements of [esize] bytes long behind [src] reads [bs]. *)
Definition slice_at (esize ealign : Z) (src : wide) (n : nat) (bs : list byte) (w : world) : Prop :=
  wm src = MLen (Z.of_nat n) /\ make_ref (TSlice esize ealign) src w = (Ok src, w) /\
  read_value (TSlice esize ealign) src w = (Ok (Value (MLen (Z.of_nat n)) bs), w).
Lemma slice_at_behind esize ealign src n bs w : slice_at esize ealign src n bs w <->
  behind (TSlice esize ealign) src (Value (MLen (Z.of_nat n)) bs) (w_heap w).
Proof.
  unfold slice_at, behind, make_ref, read_value, mem_read, bind, ret. cbn [v_meta v_bytes]. unfold vsize. cbn [v_meta].
  split; intros (E & A & B); rewrite E in *; split; auto.
  - destruct (ref_ok _ _ _); [|discriminate]. split; auto. destruct (heap_read _ _ _); [|discriminate]. congruence.
  - rewrite A, B. auto.
Qed.
(** Element [i] of [n] elements laid out in [bs]. *)
Definition elem (esize : Z) (i : nat) (bs : list byte) : list byte := sub (Z.of_nat i * esize) esize bs.
Lemma cloned_elem esize f n : 0 <= esize -> (forall bs, zlen bs = esize -> zlen (f bs) = esize) -> forall i bs, zlen bs = Z.of_nat n * esize -> (i < n)%nat ->
  elem esize i (cloned esize f n bs) = f (elem esize i bs).
Proof.
  intros Es F. induction n as [|n IH]; intros i bs L Li; [lia|]. cbn [cloned].
  assert (L0 : zlen (sub 0 esize bs) = esize) by (apply sub_len; nia).
  destruct i as [|i]; unfold elem.
  - rewrite Z.mul_0_l. rewrite sub_app_l by (rewrite ?F; lia). apply sub_all. now rewrite F.
  - assert (Lr : zlen (skipn (Z.to_nat esize) bs) = Z.of_nat n * esize). { unfold zlen in *. rewrite skipn_length. nia. }
    assert (E1 : forall a b, zlen a = esize -> sub (Z.of_nat (S i) * esize) esize (a ++ b) = sub (Z.of_nat i * esize) esize b).
    { intros a b La. unfold sub. rewrite skipn_app. unfold zlen in La. rewrite skipn_all2 by nia. cbn [app]. f_equal. f_equal. nia. }
    rewrite E1 by auto. specialize (IH i (skipn (Z.to_nat esize) bs) Lr ltac:(lia)). unfold elem in IH. rewrite IH. f_equal.
    rewrite <- (firstn_skipn (Z.to_nat esize) bs) at 2. now rewrite E1.
Qed.
(** [box_new_with((&s[..]).into())]: a slice of clones, element by element; the borrowed slice is untouched; when [clone]
    panics the new allocation is freed and nothing is dropped (clones made so far are leaked). *)
Theorem C40_clone_partial esize ealign f P clone src n bs w : clones esize f P clone -> wf_ty (TSlice esize ealign) ->
  Z.of_nat n * esize <= isize_max - (ealign - 1) -> Z.of_nat n <= usize_max -> slice_at esize ealign src n bs w ->
  run (box_new_with (emplacable_of_slice_ref esize ealign false clone src)) w
    (fun b w' => exists bs', own_allocation (TSlice esize ealign) b (Value (MLen (Z.of_nat n)) bs') w' /\
       (forall i, (i < n)%nat -> elem esize i bs' = f (elem esize i bs)) /\
       slice_at esize ealign src n bs w' /\ w_drops w' = w_drops w)
    (fun r w' => (P r \/ r = POom /\ alloc_failed w w' /\ slice_at esize ealign src n bs w' /\ w_drops w' = w_drops w) /\
       forall k, heap_get (w_heap w') k <> None -> (k < length (w_heap w))%nat)
    (fun w' => alloc_failed w w' \/ exists r, P r /\ drop_panicked w w').
Proof.
  intros Cl Wt Fi Fn Sl. apply slice_at_behind in Sl. destruct Wt as [(Es & Pa & _) Md].
  destruct Sl as (Em & Rf & Rd). pose proof Rd as Rd0. unfold vsize in Rd0. cbn [v_meta v_bytes size_of_val] in Rd0.
  destruct (heap_read_space _ _ _ _ Rd0) as [_ Lb]; [nia|].
  assert (Sl : behind (TSlice esize ealign) src (Value (MLen (Z.of_nat n)) bs) (w_heap w)) by (unfold behind; auto).
  set (S := slice_deal esize ealign f P src n bs).
  assert (E : emits (emplacable_of_slice_ref esize ealign false clone src) S w) by (now apply slice_clone_emits).
  assert (Ln : zlen (cloned esize f n bs) = Z.of_nat n * esize) by (apply cloned_len; auto; apply Cl).
  assert (G : wf_value (TSlice esize ealign) (d_value S)).
  { unfold wf_value, d_value, S, slice_deal. cbn [v_meta v_bytes d_meta d_bytes]. split; [|exact Ln].
    unfold wf_meta. cbn [size_of_val align_of_val]. ands; auto.
    - split; [nia|]. split; auto.
    - rewrite Z.mul_mod by (pose proof (pow2_pos _ Pa); lia). rewrite Md, Z.mul_0_r. reflexivity.
    - lia. }
  eapply run_conseq; [eapply (box_new_with_wp (TSlice esize ealign) _ S w E G); reflexivity|..]; cbv beta.
  - intros b w' (B & F & D & A). exists (cloned esize f n bs). cbn [S slice_deal d_extra d_after] in *. rewrite app_nil_r in D. ands; auto.
    + now apply boxed_own in B.
    + intros i Hi. apply cloned_elem; auto. apply Cl.
    + now apply slice_at_behind.
  - intros r w' (F & H). split.
    + destruct H as [(-> & A & D & B)|[[Pr|[_ [N _]]] _]]; [right|left; exact Pr|now destruct N]. ands; auto. now apply slice_at_behind.
    + intros k N. destruct (Nat.lt_ge_cases k (length (w_heap w))) as [Q|Q]; auto. apply (fs_new _ _ _ _ _ F) in N; [discriminate|auto].
  - intros w' [A|[[N|[r Pr]] Q]]; auto. now destruct N. right. eauto.
Qed.

(** ** C41: vectors without spare capacity *)
Definition vec_elem_ok (esize ealign : Z) (xs : list value) (bs : list byte) : Prop :=
  forall i x, nth_error xs i = Some x -> elem esize i bs = v_bytes x.
Lemma vec_bytes_elems esize ealign xs : 0 <= esize -> Forall (fun x => zlen (v_bytes x) = esize) xs -> vec_elem_ok esize ealign xs (vec_bytes xs).
Proof.
  intros Es. induction 1 as [|y xs L F IH]; intros i x E; [now destruct i|]. unfold vec_bytes. cbn [map concat]. fold (vec_bytes xs).
  unfold elem. destruct i as [|i]; cbn [nth_error] in E.
  - injection E as ->. rewrite Z.mul_0_l. rewrite sub_app_l by lia. apply sub_all. auto.
  - rewrite <- (IH i x E). unfold elem, sub. rewrite skipn_app. unfold zlen in L. rewrite skipn_all2 by nia. cbn [app]. f_equal. f_equal. nia.
Qed.
Lemma vec_box_wf esize ealign v xs h : stdvec (TSized esize ealign) v xs h -> esize = 0 \/ sv_cap v = zlen xs ->
  wf_value (TSlice esize ealign) (Value (MLen (zlen xs)) (vec_bytes xs)) /\ vec_elem_ok esize ealign xs (vec_bytes xs) /\
  zlen (vec_bytes xs) = zlen xs * esize.
Proof.
  intros Sv Cp. set (x := Value (MLen (zlen xs)) (vec_bytes xs)). set (t := TSlice esize ealign).
  pose proof (zlen_nonneg xs).
  destruct Sv as (d & R). pose proof (s_fit _ _ _ _ _ _ R) as Ft. destruct R.
  destruct sr_wf as [(Es & Pa & _) Md]. cbn [s_size s_align size_of_val align_of_val] in *.
  assert (Fl : Forall (fun x => zlen (v_bytes x) = esize) xs).
  { eapply Forall_impl; [|exact sr_good]. intros a Ga. rewrite (good_bytes _ _ Ga). rewrite (vsize_sized (TSized esize ealign) _ eq_refl Ga). reflexivity. }
  assert (Lb : zlen (vec_bytes xs) = zlen xs * esize).
  { clear -Fl. unfold vec_bytes. induction Fl; [reflexivity|]. cbn [map concat]. rewrite zlen_app, IHFl, H. unfold zlen. cbn [length]. lia. }
  ands; [|now apply vec_bytes_elems|exact Lb]. split; [|exact Lb]. unfold wf_meta, x, t. cbn [v_meta size_of_val align_of_val]. ands; auto.
  - split; [nia|]. split; auto. change (s_size (TSized esize ealign)) with esize in *. change (s_align (TSized esize ealign)) with ealign in *.
    destruct Cp as [->|Cp]; [pose proof (pow2_pos _ Pa); nia|]. rewrite Cp in sr_bcap. exact sr_bcap.
  - rewrite Z.mul_mod by (pose proof (pow2_pos _ Pa); lia). rewrite Md, Z.mul_0_r. reflexivity.
  - change (s_capacity (TSized esize ealign) v) with (if esize =? 0 then usize_max else sv_cap v) in sr_fit.
    change (s_size (TSized esize ealign)) with esize in *. change (s_align (TSized esize ealign)) with ealign in *. pose proof (pow2_pos _ Pa).
    assert (isize_max <= usize_max) by (vm_compute; discriminate). destruct (Z.eqb_spec esize 0); [lia|]. nia.
Qed.
(** The box made from a full [Vec]: its length, its elements, and its own layout; the [Vec]'s allocation is freed, no
    destructor runs; dropping the box gives its memory back. With spare capacity this is false ([C41_vec_box_refuted]). *)
Theorem C41_vec_partial esize ealign v xs w : stdvec (TSized esize ealign) v xs (w_heap w) -> esize = 0 \/ sv_cap v = zlen xs ->
  run (round_trip (TSlice esize ealign) (box_new_with (emplacable_of_vec esize ealign v))) w
    (fun y w' => v_meta y = MLen (zlen xs) /\ vec_elem_ok esize ealign xs (v_bytes y) /\ zlen (v_bytes y) = zlen xs * esize /\
       (forall k, ptr_block (sv_ptr v) = Some k -> heap_get (w_heap w') k = None) /\
       clean_but (blocks (sv_ptr v)) w w' /\ w_drops w' = w_drops w ++ [y])
    (fun r w' => (r = POom /\ alloc_failed w w' /\ stdvec (TSized esize ealign) v xs (w_heap w') /\ w_drops w' = w_drops w \/
                  r = PDrop /\ drop_panicked w w') /\ clean_but (blocks (sv_ptr v)) w w')
    (fun w' => alloc_failed w w').
Proof.
  intros Sv Cp. set (x := Value (MLen (zlen xs)) (vec_bytes xs)). set (t := TSlice esize ealign).
  destruct (vec_box_wf _ _ _ _ _ Sv Cp) as (G & El & Lb). fold x t in G.
  assert (Sr : source t (emplacable_of_vec esize ealign v) x (fun w => stdvec (TSized esize ealign) v xs (w_heap w))
      (fun w => forall k, ptr_block (sv_ptr v) = Some k -> heap_get (w_heap w) k = None) xs (blocks (sv_ptr v))) by (now constructor).
  destruct (source_deal _ _ _ _ _ _ _ _ Sr G Sv) as (S & Em & Ev & Ely & Fv & Fb & Nl & Ex & Pn & Gn & Rf).
  assert (Ob : forall b, In b (blocks (sv_ptr v)) -> (b < length (w_heap w))%nat) by (rewrite <- Fb; apply Em).
  unfold round_trip. apply run_bind.
  eapply run_conseq; [eapply (box_new_with_wp t _ S); rewrite ?Ev; eauto|..]; cbv beta; unfold box_panic; rewrite ?Ev, ?Fv, ?Fb, ?Ex.
  - intros b w1 (B & F & D & A). rewrite app_nil_r in D. pose proof (Gn Delivered w1 ltac:(discriminate) A) as Gw.
    eapply run_eq; [eapply box_read; eauto|]. apply run_bind. eapply run_conseq; [eapply box_drop_wp; eauto|..]; cbv beta.
    + intros _ w' (W & Fr & D'). apply run_ret. ands; auto.
      * intros k E. destruct (opt_dec (ptr_block (wp b)) (Some k)) as [Q|Q]; [now apply Fr|].
        destruct W as (_ & _ & _ & _ & W & _). rewrite W by (rewrite in_blocks; auto). auto.
      * eapply fresh_then_free; eauto.
      * congruence.
    + intros r w' (-> & P & W & Fr & D'). split. { right. split; auto. eapply drop_panicked_from; [|exact P]. now rewrite D. }
      eapply fresh_then_free; eauto.
    + intros w' [].
  - intros r w' (F & [(-> & A & D & R)|[[P|[_ [N _]]] _]]); [|now apply Pn in P|now destruct N]. split; auto using fresh_clean.
    left. ands; auto.
  - intros w' [A|A]; auto. apply not_aborted in A; [destruct A|auto|auto].
Qed.

(** ** C42: a producer that fails while a box is made *)
(** What the panicking [box_new_with] leaves: every block that is live afterwards was live before, and only what the producer
    owns has changed. When the allocation fails the producer is not asked to write. *)
Definition no_box (e : emplacable) (S : deal) (w : world) (r : panic_reason) (w' : world) : Prop :=
  (forall k, heap_get (w_heap w') k <> None -> (k < length (w_heap w))%nat) /\
  (forall k, (k < length (w_heap w))%nat -> ~ In k (d_fb S) -> heap_get (w_heap w') k = heap_get (w_heap w) k) /\
  (forall j, ~ In j (d_fv S) -> nth_error (w_vecs w') j = nth_error (w_vecs w) j) /\
  (r = POom /\ alloc_failed w w' /\ w_drops w' = w_drops w /\ d_after S Refused w' \/
   d_panic S r \/ r = PDrop /\ d_extra S <> [] /\ drop_panicked w w').
Lemma box_panic_none e S w r w' : box_panic S w r w' -> no_box e S w r w'.
Proof.
  intros (F & H). unfold no_box. ands.
  - intros k N. destruct (Nat.lt_ge_cases k (length (w_heap w))) as [Q|Q]; auto. apply (fs_new _ _ _ _ _ F) in N; [discriminate|auto].
  - apply F.
  - apply F.
  - destruct H as [H|[[H|[H [H1 H2]]] _]]; auto.
Qed.
Theorem C42_box t e S w : emits e S w -> wf_value t (d_value S) -> d_lay S = layout_of t (d_value S) ->
  run (box_new_with e) w
    (fun b w' => own_allocation t b (d_value S) w' /\ w_drops w' = w_drops w ++ d_extra S /\ d_after S Delivered w' /\
       forall k, heap_get (w_heap w') k <> None -> (length (w_heap w) <= k)%nat -> ptr_block (wp b) = Some k)
    (no_box e S w)
    (fun w' => alloc_failed w w' \/ aborted S w w').
Proof.
  intros Em G L. eapply run_conseq; [eapply box_new_with_wp; eauto|..]; cbv beta; auto.
  - intros b w' (B & F & D & A). ands; auto using boxed_own. intros k N Q. now apply (fs_new _ _ _ _ _ F).
  - intros r w'. apply box_panic_none.
Qed.
(** When the inner closure never returns normally no box is made. *)
Lemma box_never lay m (inner : inner_fn) w : l_align lay <> 0 ->
  (forall p w1 a w2, is_null p = false -> inner p w1 <> (Ok a, w2)) ->
  forall b w', box_new_with (fun E => E lay m inner) w <> (Ok b, w').
Proof.
  intros La H b w'. unfold box_new_with, box_new_with_emplacer. unfold bind at 1. unfold new_cell. cbv beta iota zeta.
  set (w0 := set_cells _ w). clearbody w0. generalize (length (w_cells w)). intros c.
  assert (K : forall p w1 (f : M unit), is_null p = false -> forall b w', 
    (bind (bind (on_unwind (inner p) f) (fun _ => set_cell c (Wide p m))) (fun _ => read_cell c)) w1 <> (Ok b, w')).
  { intros p w1 f Np b' w2. unfold bind at 1 2. unfold on_unwind. specialize (H p w1). destruct (inner p w1) as [[a|r| |u] w3].
    - exfalso. eapply H; eauto.
    - unfold bind. destruct (f w3) as [[?|?| |?] w4]; discriminate.
    - discriminate.
    - discriminate. }
  destruct (l_size lay =? 0).
  - unfold bind at 2. cbn [ret]. apply K. cbn [is_null]. now destruct (l_align lay).
  - unfold galloc. destruct (l_size lay =? 0).
    { unfold bind at 2. cbn [ret]. apply K. cbn [is_null]. now destruct (l_align lay). }
    unfold raw_alloc. destruct (cfg_alloc (w_nalloc w0)) as [base|] eqn:Al.
    + intros E. eapply (K (Blk (length (w_heap w0)) 0) _ (gdealloc (Blk (length (w_heap w0)) 0) lay) eq_refl b w'). unfold bind in E |- *. rewrite Al in E. exact E.
    + unfold bind. rewrite Al. unfold handle_alloc_error. destruct cfg_oom_panics; discriminate.
Qed.
Lemma run_never {A} (m : M A) w Q Qp Qa : (forall a w', m w <> (Ok a, w')) -> run m w Q Qp Qa -> run m w (fun _ _ => False) Qp Qa.
Proof. unfold run. intros H. specialize (H). destruct (m w) as [[a|r| |u] w'] eqn:E; auto. intros _. now apply (H a w'). Qed.
(** A producer that has written any bytes to the room and panics. *)
Theorem C42_breaks_off t x junk r w : wf_value t x -> zlen junk = vsize t x ->
  run (box_new_with (breaks_off t x junk r)) w (fun _ _ => False)
    (fun r' w' => clean w w' /\ (r' = r \/ r' = POom /\ alloc_failed w w'))
    (fun w' => alloc_failed w w' \/ drop_panicked w w').
Proof.
  intros G Z. pose proof (wf_size _ _ G) as Sz. pose proof (wf_align _ _ G) as Al. pose proof (pow2_pos _ Al). 
  eapply run_never.
  - apply box_never; [cbn [layout_of l_align]; lia|]. intros p w1 a w2 Np. rewrite Np. unfold bind. destruct (mem_write p junk w1) as [[?|?| |?] ?]; discriminate.
  - assert (Ev : d_value (breaks_off_deal t x r) = x) by now destruct x.
    eapply run_conseq; [eapply (box_new_with_wp t _ (breaks_off_deal t x r)); rewrite ?Ev; auto|..]; cbv beta.
    + apply breaks_off_emits. rewrite Z. symmetry. now apply wf_bytes.
    + intros b w' K. exact K.
    + intros r' w' (F & Hr). split. { apply clean_nil, fresh_clean; auto. intros k []. }
      destruct Hr as [(-> & A & _)|[[P|[_ [N _]]] _]]; [auto|left; exact P|now destruct N].
    + intros w' [A|[_ A]]; auto.
Qed.

(** ** C43: values lent through [with_emplacable_for] *)
Lemma slot_gone ob x t ds w w1 : fresh [] (blocks (wp (slot_of x w))) ob (slot_world t x w) w1 ->
  let w' := set_heap (hfree (w_heap w1) (wp (slot_of x w))) (set_drops (w_drops w1 ++ ds) w1) in
  (forall k, heap_get (w_heap w') k <> None -> ob = Some k \/ heap_get (w_heap w') k = heap_get (w_heap w) k) /\
  (ob = None -> clean w w') /\
  (forall k, ob = Some k -> heap_get (w_heap w') k = heap_get (w_heap w1) k).
Proof.
  intros F. cbv zeta. cbn [set_heap set_drops w_heap w_vecs slot_of wp hfree]. destruct F as [F1 F2 F3 F4 F5 F6 F7 F8].
  cbn [slot_world set_heap w_heap w_vecs w_cells w_nalloc] in *. rewrite app_length in *. cbn [length] in *.
  set (s := length (w_heap w)) in *.
  assert (O : forall k, (k < s)%nat -> heap_get (upd (w_heap w1) s None) k = heap_get (w_heap w) k).
  { intros k Lk. rewrite heap_get_upd_other by lia. rewrite F5; [|lia|intros [E|[]]; lia]. now apply heap_get_app_old. }
  assert (S0 : heap_get (upd (w_heap w1) s None) s = None) by (apply heap_get_upd_same; lia).
  ands.
  - intros k N. destruct (Nat.lt_trichotomy k s) as [Q|[->|Q]]; auto; [now rewrite S0 in N|].
    left. rewrite heap_get_upd_other in N by lia. apply F6; auto; lia.
  - intros ->. split.
    + cbn [set_heap set_drops w_heap]. intros k. destruct (Nat.lt_ge_cases k s) as [Q|Q]; auto. rewrite (heap_get_ge (w_heap w)) by exact Q.
      destruct (Nat.eq_dec k s) as [->|Nk]; auto. rewrite heap_get_upd_other by lia.
      destruct (heap_get (w_heap w1) k) eqn:E; auto. exfalso. assert (X : heap_get (w_heap w1) k <> None) by congruence.
      apply F6 in X; [discriminate|lia].
    + intros j. cbn [w_vecs]. apply F1. auto.
  - intros k E. apply F7 in E. apply heap_get_upd_other. lia.
Qed.
Lemma within_fresh fb w w' : within [] fb w w' -> (forall b, In b fb -> (b < length (w_heap w))%nat) -> fresh [] fb None w w'.
Proof.
  intros (A & B & Cc & D & E & F) L. constructor; auto.
  - intros c _. now rewrite Cc.
  - intros b Lb N. exfalso. rewrite E in N. { now rewrite heap_get_ge in N. } intros I. apply L in I. lia.
  - discriminate.
Qed.
Lemma slot_in x t w : forall b, In b (blocks (wp (slot_of x w))) -> (b < length (w_heap (slot_world t x w)))%nat.
Proof. intros b [<-|[]]. cbn [slot_world set_heap w_heap]. rewrite app_length. cbn [length]. lia. Qed.

Theorem C43_box t x w : wf_value t x ->
  run (with_emplacable_for t x box_new_with) w
    (fun b w' => own_allocation t b x w' /\ w_drops w' = w_drops w /\
       forall k, heap_get (w_heap w') k <> None -> ptr_block (wp b) = Some k \/ heap_get (w_heap w') k = heap_get (w_heap w) k)
    (fun r w' => r = POom /\ clean w w' /\ w_drops w' = w_drops w ++ [x])
    (fun w' => alloc_failed w w' \/ drop_panicked w w').
Proof.
  intros G. apply with_emplacable_for_wp; auto. set (S := slot_deal t (slot_of x w) x).
  assert (Ev : d_value S = x) by now destruct x.
  eapply run_conseq; [eapply (box_new_with_wp t _ S); rewrite ?Ev; auto; now apply slot_world_emits|..]; cbv beta; rewrite ?Ev.
  - intros b w1 (B & F & D & A). change (d_fv S) with (@nil nat) in F. change (d_fb S) with (blocks (wp (slot_of x w))) in F.
    change (d_extra S) with (@nil value) in D. rewrite app_nil_r in D.
    pose proof (slot_gone _ x t [] w w1 F) as (H1 & _ & H3). rewrite app_nil_r in H1, H3.
    replace (set_drops (w_drops w1) w1) with w1 in H1, H3 by now destruct w1.
    ands; auto. apply boxed_own. eapply boxed_agree; [|exact B]. intros k E. now apply H3.
  - intros r w1 (F & H). change (d_fv S) with (@nil nat) in F. change (d_fb S) with (blocks (wp (slot_of x w))) in F.
    destruct H as [(-> & Af & D & A)|[[[]|[_ [N _]]] _]]; [|now destruct N]. split; [exact A|]. intros w2 ->. split; intros Dp.
    + pose proof (slot_gone _ x t [x] w w1 F) as (_ & H2 & _). ands; auto.
      cbn [set_heap set_drops w_drops]. now rewrite D.
    + right. exists (length (w_drops w1)). split; auto. cbn [set_drops w_drops]. rewrite D. cbn [slot_world set_heap w_drops]. rewrite app_length. cbn [length]. lia.
  - intros w1 [(n & Hn & E)|X]; [|apply not_aborted in X; [destruct X|reflexivity|intros ? []]]. left. exists n. auto.
Qed.
Theorem C43_forget t x w : wf_value t x ->
  exists w', with_emplacable_for t x emplacable_forget w = (Ok tt, w') /\ clean w w' /\ w_drops w' = w_drops w.
Proof.
  intros G. destruct (emplacable_forget_eq _ _ _ (slot_world_emits t x w G)) as (w1 & E & W & D & A).
  assert (H : run (with_emplacable_for t x emplacable_forget) w (fun _ w' => clean w w' /\ w_drops w' = w_drops w) (fun _ _ => False) (fun _ => False)).
  { apply with_emplacable_for_wp; auto. unfold run. rewrite E.
    pose proof (slot_gone None x t [] w w1 (within_fresh _ _ _ W (slot_in x t w))) as (_ & H2 & _). rewrite app_nil_r in H2.
    replace (set_drops (w_drops w1) w1) with w1 in H2 by now destruct w1. split; auto. }
  unfold run in H. destruct (with_emplacable_for t x emplacable_forget w) as [[[]|r| |u] w']; try contradiction. eauto.
Qed.
(** Dropping it: provided the destructor itself does not panic (else it runs twice, see [C43_panicking_destructor_refuted]). *)
Theorem C43_drop_partial t x w : wf_value t x -> cfg_drop_panics (length (w_drops w)) = false ->
  exists w', with_emplacable_for t x emplacable_drop w = (Ok tt, w') /\ clean w w' /\ w_drops w' = w_drops w ++ [x].
Proof.
  intros G Np.
  assert (H : run (with_emplacable_for t x emplacable_drop) w (fun _ w' => clean w w' /\ w_drops w' = w_drops w ++ [x]) (fun _ _ => False) (fun _ => False)).
  { apply with_emplacable_for_wp; auto.
    assert (E : emplacable_drop (with_emplacable_closure t (slot_of x w)) (slot_world t x w) = drop_value x (slot_world t x w)).
    { apply drop_in_place_eq. apply slot_behind; auto. apply heap_get_app_new. }
    unfold run. rewrite E. apply run_sound. apply run_drop_value; intros D; [|cbn [slot_world set_heap w_drops] in D; congruence].
    assert (F : fresh [] (blocks (wp (slot_of x w))) None (slot_world t x w) (slot_world t x w)).
    { apply within_fresh; [apply within_refl|apply slot_in]. }
    pose proof (slot_gone None x t [x] w _ F) as (_ & H2 & _). split; auto. }
  unfold run in H. destruct (with_emplacable_for t x emplacable_drop w) as [[[]|r| |u] w']; try contradiction. eauto.
Qed.
(** A closure that panics without having used the emplacable. *)
Theorem C43_unused t x w {R} r : wf_value t x ->
  run (with_emplacable_for t x (fun _ => panic (A := R) r)) w (fun _ _ => False)
    (fun r' w' => r' = r /\ clean w w' /\ w_drops w' = w_drops w ++ [x])
    (fun w' => drop_panicked w w').
Proof.
  intros G. apply with_emplacable_for_wp; auto. apply run_panic. split. { apply slot_behind; auto. apply heap_get_app_new. }
  intros w2 ->. split; intros D.
  - assert (F : fresh [] (blocks (wp (slot_of x w))) None (slot_world t x w) (slot_world t x w)).
    { apply within_fresh; [apply within_refl|apply slot_in]. }
    pose proof (slot_gone None x t [x] w _ F) as (_ & H2 & _). ands; auto.
  - exists (length (w_drops w)). cbn [slot_world set_heap set_drops w_drops] in *. rewrite app_length. cbn [length]. split; auto. lia.
Qed.
Theorem C43_get t x w : wf_value t x -> v_meta x = MUnit ->
  exists w', with_emplacable_for t x (emplacable_get t) w = (Ok x, w') /\ clean w w' /\ w_drops w' = w_drops w.
Proof.
  intros G Mx. set (S := slot_deal t (slot_of x w) x). assert (Ev : d_value S = x) by now destruct x.
  assert (H : run (with_emplacable_for t x (emplacable_get t)) w (fun y w' => y = x /\ clean w w' /\ w_drops w' = w_drops w) (fun _ _ => False) (fun _ => False)).
  { apply with_emplacable_for_wp; auto.
    eapply run_conseq; [eapply (emplacable_get_wp t _ S); rewrite ?Ev; auto; now apply slot_world_emits|..]; cbv beta; rewrite ?Ev.
    - intros y w1 (-> & F & D & _). change (d_fv S) with (@nil nat) in F. change (d_fb S) with (blocks (wp (slot_of x w))) in F.
      change (d_extra S) with (@nil value) in D. rewrite app_nil_r in D.
      pose proof (slot_gone _ x t [] w w1 F) as (_ & H2 & _). rewrite app_nil_r in H2.
      replace (set_drops (w_drops w1) w1) with w1 in H2 by now destruct w1. ands; auto.
    - intros r w1 ([[]|[_ [N _]]] & _). now destruct N.
    - intros w1 X. apply not_aborted in X; [destruct X|reflexivity|intros ? []]. }
  unfold run in H. destruct (with_emplacable_for t x (emplacable_get t) w) as [[y|r| |u] w']; try contradiction. destruct H as (-> & H). eauto.
Qed.
Theorem C43_push_partial t self l w x : repr t self l w -> good t x -> not_huge t x -> nzst t \/ kind_of t = KSized -> placeable t self x w ->
  run (with_emplacable_for t x (v_push_with t self)) w
    (fun _ w' => holds_list t self (l ++ [x]) w' /\ w_drops w' = w_drops w)
    (fun r w' => holds_list t self l w' /\ w_drops w' = w_drops w ++ [x] /\ (r = PCapacity \/ r = POom /\ cfg_oom_panics = true))
    (fun w' => alloc_failed w w' \/ drop_panicked w w').
Proof.
  intros R G Nc Nz Pl. apply repr_orep in R as (o & d & R).
  eapply run_conseq; [eapply push_through_slot_wp; eauto using fits_self, placeable_can|..]; cbv beta; auto.
  - intros _ w' (R1 & _ & D). split; auto. now apply repr_holds.
  - intros r w' (R1 & _ & D & Rr). ands; auto. now apply repr_holds.
Qed.

(** ** C44: sequences of emplacables *)
(** Box the slice made of a sequence of emplacables. *)
Definition box_iter (esize ealign : Z) (claimed : nat) (es : list emplacable) : M wide :=
  e <- emplacable_from_iter esize ealign claimed es ;; box_new_with e.
Definition filled (esize : Z) (n : nat) (Ss : list deal) (bs : list byte) : Prop :=
  forall i S, (i < n)%nat -> nth_error Ss i = Some S -> elem esize i bs = d_bytes S.

Lemma seq_elem esize Ss : 0 <= esize -> Forall (fun S => zlen (d_bytes S) = esize) Ss -> forall i S tl, nth_error Ss i = Some S ->
  elem esize i (seq_bytes Ss ++ tl) = d_bytes S.
Proof.
  intros Es F. induction F as [|T Ts HT F IH]; intros i S tl E; [destruct i; discriminate|].
  unfold seq_bytes. cbn [map concat]. rewrite <- app_assoc. destruct i as [|i].
  - injection E as <-. unfold elem. rewrite Z.mul_0_l. rewrite sub_app_l by lia. now apply sub_all.
  - specialize (IH i S tl E). rewrite <- IH. unfold elem, sub. f_equal. rewrite skipn_app. unfold zlen in HT. rewrite skipn_all2 by nia. cbn [app].
    f_equal. nia.
Qed.
Lemma seq_filled m esize ealign n es Ss : 0 <= esize -> Forall (fun S => zlen (d_bytes S) = esize) (firstn n Ss) ->
  filled esize n Ss (d_bytes (seq_deal m esize ealign n es Ss)).
Proof.
  intros Es F i S Li E. cbn [seq_deal d_bytes]. apply seq_elem; auto. rewrite nth_error_firstn_lt; auto.
Qed.
Lemma seq_wf esize ealign claimed es Ss : wf_ty (TSlice esize ealign) -> iter_fits esize ealign claimed ->
  Z.of_nat claimed <= usize_max -> Forall (fun S => zlen (d_bytes S) = esize) (firstn claimed Ss) ->
  wf_value (TSlice esize ealign) (d_value (seq_deal (MLen (Z.of_nat claimed)) esize ealign claimed es Ss)).
Proof.
  intros Wt Fi Fn F. destruct Wt as [(Es & Pa & _) Md]. split.
  - cbn [d_value seq_deal d_meta v_meta]. unfold wf_meta. cbn [size_of_val align_of_val]. unfold iter_fits in Fi. ands; auto.
    + split; [nia|]. split; auto. lia.
    + rewrite Z.mul_mod by (pose proof (pow2_pos _ Pa); lia). rewrite Md, Z.mul_0_r. reflexivity.
    + lia.
  - change (v_bytes (d_value ?S)) with (d_bytes S). change (Z.of_nat (length (d_bytes ?S))) with (zlen (d_bytes S)).
    rewrite seq_bytes_total; auto.
Qed.
(** What a failing [box_iter] leaves: no new live block, and the reasons it can fail for. *)
Definition iter_panic (n : nat) (es : list emplacable) (Ss : list deal) (w : world) (r : panic_reason) (w' : world) : Prop :=
  (forall k, heap_get (w_heap w') k <> None -> (k < length (w_heap w))%nat) /\
  (forall k, (k < length (w_heap w))%nat -> ~ In k (fbs Ss) -> heap_get (w_heap w') k = heap_get (w_heap w) k) /\
  (forall j, ~ In j (fvs Ss) -> nth_error (w_vecs w') j = nth_error (w_vecs w) j) /\
  (r = POom /\ alloc_failed w w' /\ w_drops w' = w_drops w /\ family es Ss w' \/ seq_panics n Ss r \/
   (length Ss < n)%nat /\ r = PAssert \/ r = PDrop /\ seq_drops n Ss <> [] /\ drop_panicked w w').
Lemma box_iter_panic m esize ealign n es Ss w r w' : box_panic (seq_deal m esize ealign n es Ss) w r w' -> iter_panic n es Ss w r w'.
Proof.
  intros H. apply (box_panic_none (fun _ => ret tt)) in H as (A & B & D & E). unfold iter_panic. ands; auto.
  destruct E as [E|[[E|E]|E]]; auto.
Qed.
Lemma box_seq m esize ealign n es Ss e w : wf_ty (TSlice esize ealign) -> iter_fits esize ealign n -> Z.of_nat n <= usize_max ->
  Forall (fun S => zlen (d_bytes S) = esize) (firstn n Ss) -> m = MLen (Z.of_nat n) -> emits e (seq_deal m esize ealign n es Ss) w ->
  run (box_new_with e) w
    (fun b w' => exists bs, own_allocation (TSlice esize ealign) b (Value (MLen (Z.of_nat n)) bs) w' /\ filled esize n Ss bs /\
       w_drops w' = w_drops w ++ all_extra (firstn n Ss) ++ all_nulls (skipn n Ss) /\
       all_after Delivered (firstn n Ss) w' /\ all_after Dropped (skipn n Ss) w')
    (iter_panic n es Ss w)
    (fun w' => alloc_failed w w' \/ drop_panicked w w').
Proof.
  intros Wt Fi Fn F -> Em. pose proof (seq_wf _ _ _ es Ss Wt Fi Fn F) as G. pose proof Wt as [(Es & _) _].
  eapply run_conseq; [eapply box_new_with_wp; [exact Em|exact G|]|..]; cbv beta.
  - cbn [seq_deal d_lay]. unfold layout_of, vsize, valign. cbn [d_value seq_deal d_meta v_meta size_of_val align_of_val]. f_equal. lia.
  - intros b w' (B & Fr & D & A). eexists. ands; [eapply boxed_own; exact B| |exact D|apply A|apply A]. apply seq_filled; auto.
  - intros r w'. apply box_iter_panic.
  - intros w' [A|[_ A]]; auto.
Qed.
(** The claimed length is at most the real one: the first [n] values in order, the rest dropped. *)
Theorem C44_iter esize ealign n es Ss w : wf_ty (TSlice esize ealign) -> iter_fits esize ealign n -> Z.of_nat n <= usize_max ->
  family es Ss w -> Forall (fun S => zlen (d_bytes S) = esize) (firstn n Ss) -> (n <= length es)%nat ->
  run (box_iter esize ealign n es) w
    (fun b w' => exists bs, own_allocation (TSlice esize ealign) b (Value (MLen (Z.of_nat n)) bs) w' /\ filled esize n Ss bs /\
       w_drops w' = w_drops w ++ all_extra (firstn n Ss) ++ all_nulls (skipn n Ss) /\
       all_after Delivered (firstn n Ss) w' /\ all_after Dropped (skipn n Ss) w')
    (fun r w' => iter_panic n es Ss w r w' /\ (r <> PAssert \/ seq_panics n Ss PAssert))
    (fun w' => alloc_failed w w' \/ drop_panicked w w').
Proof.
  intros Wt Fi Fn Fa F Le. pose proof Wt as [(Es & Pa & _) _]. pose proof (pow2_pos _ Pa).
  destruct (from_iter_emits esize ealign n es Ss w Fi ltac:(lia) Fa Es F) as (e & E & Em).
  unfold box_iter. eapply run_eq; [exact E|]. eapply run_conseq; [eapply box_seq; eauto|..]; cbv beta; auto.
  intros r w' H1. split; auto. destruct H1 as (_ & _ & _ & [(-> & _)|[H1|[(L & _)|(-> & _)]]]); try (left; discriminate).
  - destruct r; auto; left; discriminate.
  - apply family_length in Fa. lia.
Qed.
Lemma emplace_elems_le esize arr es : forall index len w n w', emplace_elems esize arr index len es w = (Ok n, w') -> (n <= length es)%nat.
Proof.
  induction es as [|e es IH]; intros index [|len] w n w' E; cbn [emplace_elems length] in *.
  - unfold bind in E. destruct (emplacables_drop [] w) as [[?|?| |?] ?]; try discriminate. injection E as <- _. lia.
  - injection E as <- _. lia.
  - unfold bind in E. destruct (emplacables_drop (e :: es) w) as [[?|?| |?] ?]; try discriminate. injection E as <- _. lia.
  - unfold bind in E. destruct (on_unwind _ _ w) as [[?|?| |?] w1]; try discriminate.
    destruct (emplace_elems esize arr (index + 1) len es w1) as [[k|?| |?] w2] eqn:E2; try discriminate. injection E as <- _.
    apply IH in E2. lia.
Qed.
(** The claimed length is too large: never a box, never undefined behaviour; memory is given back. *)
Theorem C44_long esize ealign n es Ss w : wf_ty (TSlice esize ealign) -> iter_fits esize ealign n -> Z.of_nat n <= usize_max ->
  family es Ss w -> Forall (fun S => zlen (d_bytes S) = esize) (firstn n Ss) -> (length es < n)%nat ->
  run (box_iter esize ealign n es) w (fun _ _ => False) (iter_panic n es Ss w)
    (fun w' => alloc_failed w w' \/ drop_panicked w w').
Proof.
  intros Wt Fi Fn Fa F Lt. pose proof Wt as [(Es & Pa & _) _]. pose proof (pow2_pos _ Pa).
  destruct (from_iter_emits esize ealign n es Ss w Fi ltac:(lia) Fa Es F) as (e & E & Em).
  unfold box_iter. eapply run_eq; [exact E|]. eapply run_never; [|eapply box_seq; eauto].
  unfold emplacable_from_iter in E. cbv zeta in E. destruct (_ && _); [|].
  - injection E as <-. apply box_never; [cbn [l_align]; lia|]. intros p w1 a w2 Np. rewrite Np. unfold bind.
    destruct (emplace_elems esize p 0 n es w1) as [[k|?| |?] w3] eqn:E3; try discriminate.
    apply emplace_elems_le in E3. destruct (Nat.eqb_spec k n); [lia|discriminate].
  - unfold on_unwind, panic in E. destruct (emplacables_drop es w) as [[?|?| |?] ?]; discriminate.
Qed.
(** So large that the size computation overflows: a panic before anything is taken from the iterator, which is dropped. *)
Theorem C44_overflow esize ealign n es Ss w : ~ iter_fits esize ealign n -> family es Ss w ->
  run (box_iter esize ealign n es) w (fun _ _ => False)
    (fun r w' => r = PAssert /\ (forall k, ~ In k (fbs Ss) -> heap_get (w_heap w') k = heap_get (w_heap w) k) /\
       w_drops w' = w_drops w ++ all_nulls Ss /\ all_after Dropped Ss w')
    (fun w' => all_nulls Ss <> [] /\ drop_panicked w w').
Proof.
  intros Fi Fa. unfold box_iter. apply run_bind. eapply run_conseq; [eapply from_iter_overflow; eauto|..]; cbv beta.
  - intros ? ? [].
  - intros r w' (-> & (_ & _ & _ & _ & W & _) & D & A). ands; auto.
  - intros w' H. exact H.
Qed.
Theorem C44_array esize ealign es Ss w : wf_ty (TSlice esize ealign) -> iter_fits esize ealign (length es) -> zlen es <= usize_max ->
  family es Ss w -> Forall (fun S => zlen (d_bytes S) = esize) Ss ->
  run (box_new_with (emplacable_slice_of_array esize ealign es)) w
    (fun b w' => exists bs, own_allocation (TSlice esize ealign) b (Value (MLen (zlen es)) bs) w' /\ filled esize (length es) Ss bs /\
       w_drops w' = w_drops w ++ all_extra Ss /\ all_after Delivered Ss w')
    (iter_panic (length es) es Ss w)
    (fun w' => alloc_failed w w' \/ drop_panicked w w').
Proof.
  intros Wt Fi Fn Fa F. pose proof Wt as [(Es & Pa & _) _]. pose proof (family_length _ _ _ Fa) as Ln.
  pose proof (array_emits esize ealign es Ss w Fa Es F) as Em.
  assert (A1 : firstn (length es) Ss = Ss) by (rewrite Ln; apply firstn_all).
  assert (A2 : skipn (length es) Ss = []) by (rewrite Ln; apply skipn_all).
  eapply run_conseq; [eapply (box_seq (MLen (zlen es)) esize ealign (length es) es Ss); eauto|..]; cbv beta; auto.
  - now rewrite A1.
  - unfold emplacable_slice_of_array. apply (unsize_emits (Layout (zlen es * esize) ealign) (MLen (zlen es))) in Em.
    unfold unsize_deal in Em. cbn [seq_deal d_bytes d_fv d_fb d_nulls d_extra d_panic d_after] in Em. unfold seq_deal.
    rewrite (Z.mul_comm esize). exact Em.
  - rewrite A1, A2. intros b w' (bs & B & Fl & D & A & _). cbn [all_nulls flat_map] in D. rewrite app_nil_r in D. exists bs. ands; auto.
Qed.
(** The same for a sequence of plain values. *)
Definition value_deals (t : ty) (xs : list value) : list deal := map (value_deal t) xs.
Lemma values_family t xs w : Forall (wf_value t) xs -> family (map (emplacable_of_value t) xs) (value_deals t xs) w.
Proof.
  intros G. unfold family, value_deals. ands.
  - induction G; cbn [map]; constructor; auto using value_emits.
  - induction xs; cbn [map]; constructor; inversion G; subst; auto. rewrite Forall_map. apply Forall_forall. intros y _. split; intros ? [].
  - rewrite Forall_map. apply Forall_forall. intros y _. apply value_stable.
Qed.
Theorem C44_values esize ealign n xs w : wf_ty (TSlice esize ealign) -> iter_fits esize ealign n -> Z.of_nat n <= usize_max ->
  Forall (wf_value (TSized esize ealign)) xs -> (n <= length xs)%nat ->
  run (box_iter esize ealign n (map (emplacable_of_value (TSized esize ealign)) xs)) w
    (fun b w' => own_allocation (TSlice esize ealign) b (Value (MLen (Z.of_nat n)) (concat (map v_bytes (firstn n xs)))) w' /\
       w_drops w' = w_drops w ++ skipn n xs /\ clean w (set_heap (hfree (w_heap w') (wp b)) w'))
    (fun r w' => r = POom /\ alloc_failed w w' /\ w_drops w' = w_drops w /\ clean w w' \/ r = PDrop /\ drop_panicked w w' /\ clean w w')
    (fun w' => alloc_failed w w' \/ drop_panicked w w').
Proof.
  intros Wt Fi Fn G Le. pose proof Wt as [(Es & Pa & _) _]. pose proof (pow2_pos _ Pa). set (t := TSized esize ealign).
  set (Ss := value_deals t xs). pose proof (values_family t xs w G) as Fa. fold Ss in Fa.
  assert (F : Forall (fun S => zlen (d_bytes S) = esize) Ss).
  { unfold Ss, value_deals. rewrite Forall_map. eapply Forall_impl; [|exact G]. intros x Gx. cbn [value_deal d_bytes].
    rewrite (wf_bytes _ _ Gx). destruct x as [[] ?]; destruct Gx as [[_ [_ Gx]] _]; try contradiction. reflexivity. }
  assert (L : length Ss = length xs) by apply map_length.
  assert (Fb : fbs Ss = []) by (unfold Ss, value_deals, fbs; clear; induction xs; auto).
  assert (Fv : fvs Ss = []) by (unfold Ss, value_deals, fvs; clear; induction xs; auto).
  assert (Ex : forall k, all_extra (firstn k Ss) = []).
  { unfold Ss, value_deals, all_extra; clear; induction xs; intros [|k]; cbn [map firstn flat_map]; auto. apply IHxs. }
  assert (Nl : forall k, all_nulls (skipn k Ss) = skipn k xs).
  { unfold Ss, value_deals, all_nulls; clear; induction xs as [|x xs IH]; intros [|k]; cbn [map skipn flat_map]; auto.
    cbn [value_deal d_nulls app]. f_equal. apply (IH 0%nat). }
  assert (Np : forall r, ~ seq_panics n Ss r).
  { intros r H1. unfold seq_panics in H1. apply Exists_exists in H1 as (S & I & P). assert (I' : In S Ss) by (rewrite <- (firstn_skipn n Ss); apply in_or_app; auto). clear I. rename I' into I. unfold Ss, value_deals in I.
    apply in_map_iff in I as (x & <- & _). exact P. }
  destruct (from_iter_emits esize ealign n _ Ss w Fi ltac:(lia) Fa Es (Forall_firstn' _ _ _ F)) as (e & E & Em).
  pose proof (seq_wf _ _ _ (map (emplacable_of_value t) xs) Ss Wt Fi Fn (Forall_firstn' _ _ _ F)) as Gw.
  unfold box_iter. eapply run_eq; [exact E|].
  eapply run_conseq; [eapply box_new_with_wp; [exact Em|exact Gw|]|..]; cbv beta.
  - cbn [seq_deal d_lay]. unfold layout_of, vsize, valign. cbn [d_value seq_deal d_meta v_meta size_of_val align_of_val]. f_equal. lia.
  - intros b w' (B & Fr & D & A).
    assert (Eb : d_value (seq_deal (MLen (Z.of_nat n)) esize ealign n (map (emplacable_of_value t) xs) Ss) =
                 Value (MLen (Z.of_nat n)) (concat (map v_bytes (firstn n xs)))).
    { unfold d_value. cbn [seq_deal d_meta d_bytes]. f_equal. unfold seq_bytes.
      replace (zlen (firstn n Ss)) with (Z.of_nat n) by (unfold zlen; rewrite firstn_length; lia). rewrite Z.sub_diag, Z.mul_0_l.
      change (uninit 0) with (@nil byte). rewrite app_nil_r. f_equal. unfold Ss, value_deals. rewrite firstn_map, map_map. reflexivity. }
    rewrite Eb in B, Gw. ands.
    + now apply boxed_own in B.
    + rewrite D. cbn [seq_deal d_extra]. unfold seq_drops. now rewrite Ex, Nl.
    + cbn [seq_deal d_fv d_fb] in Fr. rewrite Fb, Fv in Fr.
      destruct (box_dealloc_eq _ b _ w' B) as (_ & Wi & Fe). apply clean_nil. eapply fresh_then_free; eauto. intros k [].
  - intros r w' (Fr & H1). cbn [seq_deal d_fv d_fb] in Fr. rewrite Fb, Fv in Fr.
    assert (Cl : clean w w') by (apply clean_nil, fresh_clean; auto; intros k []).
    destruct H1 as [(-> & A & D & _)|[[P|[-> [_ P]]] _]]; auto. cbn [seq_deal d_panic] in P. destruct P as [P|[P _]]; [now apply Np in P|lia].
  - intros w' [A|[_ A]]; auto.
Qed.

(** ** C45: unsizing *)
Theorem C45_box t e S l m w : emits e S w -> wf_value t (Value m (d_bytes S)) -> l = layout_of t (Value m (d_bytes S)) ->
  run (box_new_with (emplacable_unsize l m e)) w
    (fun b w' => own_allocation t b (Value m (d_bytes S)) w' /\ w_drops w' = w_drops w ++ d_extra S /\ d_after S Delivered w')
    (no_box e S w)
    (fun w' => alloc_failed w w' \/ aborted S w w').
Proof.
  intros Em G ->. eapply run_conseq; [eapply box_new_with_wp; [eapply unsize_emits; exact Em|exact G|reflexivity]|..]; cbv beta; auto.
  - intros b w' (B & F & D & A). ands; auto. now apply boxed_own in B.
  - intros r w' H. apply (box_panic_none e) in H. exact H.
Qed.
Theorem C45_push_partial t self l e S ly m w : emits e S w -> repr t self l w -> good t (Value m (d_bytes S)) ->
  fits t ly (Value m (d_bytes S)) -> nzst t \/ kind_of t = KSized -> placeable t self (Value m (d_bytes S)) w -> apart self (d_fv S) (d_fb S) w ->
  adds_with (v_push_with t self (emplacable_unsize ly m e)) t self l (l ++ [Value m (d_bytes S)]) S w.
Proof.
  intros Em R G Fi Nz Pl Ap. apply repr_orep in R as (o & d & R).
  assert (H : adds_with (v_push_with t self (emplacable_unsize ly m e)) t self l (l ++ [d_value (unsize_deal ly m S)]) (unsize_deal ly m S) w).
  { eapply adds_of. eapply v_push_with_wp; eauto using placeable_can. now apply unsize_emits. }
  exact H.
Qed.
(** Dropping or forgetting the unsized emplacable does what dropping or forgetting the original does: the destructors that the
    original runs, once each, and nothing else. *)
Theorem C45_drop l m e S w : emits e S w ->
  run (emplacable_drop (emplacable_unsize l m e)) w
    (fun _ w' => within (d_fv S) (d_fb S) w w' /\ w_drops w' = w_drops w ++ d_nulls S /\ d_after S Dropped w')
    (fun r w' => r = PDrop /\ one_panicked (d_nulls S) w w' /\ within (d_fv S) (d_fb S) w w')
    (fun w' => one_panicked (d_nulls S) w w').
Proof.
  intros Em. eapply run_conseq; [eapply emplacable_drop_wp, unsize_emits, Em|..]; cbv beta; auto.
  intros r w' (-> & P & W & _). auto.
Qed.
Theorem C45_forget l m e S w : emits e S w -> exists w', emplacable_forget (emplacable_unsize l m e) w = (Ok tt, w') /\
  within (d_fv S) (d_fb S) w w' /\ w_drops w' = w_drops w /\ d_after S Forgotten w'.
Proof. intros Em. apply (emplacable_forget_eq _ (unsize_deal l m S)). now apply unsize_emits. Qed.
Lemma str_as_bytes x : wf_value TStr x -> wf_value (TSlice 1 1) x.
Proof.
  destruct x as [m bs]. unfold wf_value, wf_meta, vsize. cbn [v_meta v_bytes]. destruct m as [|n|]; cbn [size_of_val align_of_val]; try tauto.
  intros (((P & V & L) & M & N) & E). rewrite ?Z.mul_1_r, ?Z.mul_1_l. unfold valid_layout. ands; auto; change isize_max with 9223372036854775807 in *; change usize_max with 18446744073709551615 in *; lia.
Qed.
(** str -> [u8]: the same bytes, boxed as a slice; dropped and forgotten like the original. *)
Theorem C45_str_bytes e S x w : emits e S w -> d_value S = x -> d_lay S = layout_of TStr x -> wf_value TStr x ->
  run (box_new_with (emplacable_str_to_bytes e)) w
    (fun b w' => own_allocation (TSlice 1 1) b x w' /\ w_drops w' = w_drops w ++ d_extra S /\ d_after S Delivered w')
    (no_box e S w)
    (fun w' => alloc_failed w w' \/ aborted S w w').
Proof.
  intros Em Ev El G. eapply run_conseq; [eapply (box_new_with_wp (TSlice 1 1)); [eapply str_to_bytes_emits; exact Em|..]|..]; cbv beta; auto.
  - rewrite Ev. now apply str_as_bytes.
  - rewrite Ev, El. unfold layout_of, vsize, valign. cbn [size_of_val align_of_val]. destruct (v_meta x); f_equal; lia.
  - rewrite Ev. intros b w' (B & F & D & A). ands; auto. now apply boxed_own in B.
  - intros r w' H. apply (box_panic_none e) in H. exact H.
Qed.
Theorem C45_str_bytes_drop e S w : emits e S w ->
  run (emplacable_drop (emplacable_str_to_bytes e)) w
    (fun _ w' => within (d_fv S) (d_fb S) w w' /\ w_drops w' = w_drops w ++ d_nulls S /\ d_after S Dropped w')
    (fun r w' => r = PDrop /\ one_panicked (d_nulls S) w w' /\ within (d_fv S) (d_fb S) w w')
    (fun w' => one_panicked (d_nulls S) w w').
Proof.
  intros Em. eapply run_conseq; [eapply emplacable_drop_wp, str_to_bytes_emits, Em|..]; cbv beta; auto.
  intros r w' (-> & P & W & _). auto.
Qed.
Theorem C45_str_bytes_forget e S w : emits e S w -> exists w', emplacable_forget (emplacable_str_to_bytes e) w = (Ok tt, w') /\
  within (d_fv S) (d_fb S) w w' /\ w_drops w' = w_drops w /\ d_after S Forgotten w'.
Proof. intros Em. apply emplacable_forget_eq. now apply str_to_bytes_emits. Qed.
End WithConfig.

Print Assumptions C38_box_layout.
Print Assumptions C38_box_new_with.
Print Assumptions C38_box_new.
Print Assumptions C38_get.
Print Assumptions C39_drop.
Print Assumptions C39_forget.
Print Assumptions C39_box.
Print Assumptions C39_push_partial.
Print Assumptions C39_insert_partial.
Print Assumptions C40_clone_partial.
Print Assumptions C41_vec_partial.
Print Assumptions C42_box.
Print Assumptions C42_breaks_off.
Print Assumptions C43_box.
Print Assumptions C43_forget.
Print Assumptions C43_drop_partial.
Print Assumptions C43_unused.
Print Assumptions C43_get.
Print Assumptions C43_push_partial.
Print Assumptions C44_iter.
Print Assumptions C44_long.
Print Assumptions C44_overflow.
Print Assumptions C44_array.
Print Assumptions C44_values.
Print Assumptions C45_box.
Print Assumptions C45_push_partial.
Print Assumptions C45_drop.
Print Assumptions C45_forget.
Print Assumptions C45_str_bytes.
Print Assumptions C45_str_bytes_drop.
Print Assumptions C45_str_bytes_forget.

(** ** Concrete cases *)
Section Cases.
Local Existing Instance cfg_release.
Ltac built := eapply (built_repr _ _ empty_world); [exact I|intros K; discriminate K|apply takesb_ok; reflexivity|run].

Example C38_case : wf_value TDyn (word 7) /\ exists w', round_trip TDyn (box_new_with (emplacable_of_value TDyn (word 7))) empty_world = (Ok (word 7), w') /\
  w_drops w' = [word 7] /\ heap_get (w_heap w') 0 = None.
Proof. split; [apply good_wf, goodb_ok; reflexivity|]. eexists. split; [run|]. split; [run|]. run. Qed.
(** A boxed value moved into a vector: its destructor does not run, the box is freed. *)
(** A borrowed string is copied, the original remains. *)
Example C39_ref_case : exists b w b' w', box_new TStr ab empty_world = (Ok b, w) /\ lent TStr b ab w /\
  box_new_with (emplacable_of_str_ref TStr b) w = (Ok b', w') /\ own_allocation TStr b' ab w' /\ lent TStr b ab w' /\ w_drops w' = [].
Proof.
  do 4 eexists. split; [run|]. split; [split; [run|split; run]|]. split; [run|].
  split; [|split; [split; [run|split; run]|run]].
  split; [run|]. split; [|intros Z; discriminate Z]. intros _. do 2 eexists. split; [run|]. split; [run|]. split; [split|]; run.
Qed.
Example C39_case : exists v w b w1 w', repr TDyn v [five 1] w /\ box_new TDyn (word 2) w = (Ok b, w1) /\ repr TDyn v [five 1] w1 /\
  placeable TDyn v (word 2) w1 /\ apart v [] (blocks (wp b)) w1 /\ own_allocation TDyn b (word 2) w1 /\
  v_push_with TDyn v (emplacable_of_box TDyn b) w1 = (Ok tt, w') /\ shows TDyn v [five 1; word 2] w' /\ w_drops w' = [] /\
  (forall k, ptr_block (wp b) = Some k -> heap_get (w_heap w') k = None).
Proof.
  do 5 eexists. split; [built|]. split; [run|].
  split. { eapply repr_agree; [built|reflexivity|]. intros b E. vm_compute in E. injection E as <-. reflexivity. }
  split. { intros _. do 2 eexists. split; [run|]. split; [run|]. left. reflexivity. }
  split. { split; [auto|]. split. - intros b [<-|[]]. vm_compute. auto. - intros b E [<-|[]]. vm_compute in E. discriminate E. }
  split. { split; [reflexivity|]. split; [|discriminate]. intros _. do 2 eexists. split; [reflexivity|]. split; [run|]. split; reflexivity. }
  split; [run|]. split; [run|]. split; [run|]. intros k E. vm_compute in E. injection E as <-. run.
Qed.
(** A box of a value whose destructor panics: dropping the emplacable leaks the box's memory. *)
Theorem C39_box_leak_refuted : exists b w w', box_new (C := cfg_drop0) TStr ab empty_world = (Ok b, w) /\
  emplacable_drop (emplacable_of_box (C := cfg_drop0) TStr b) w = (Panic PDrop, w') /\ w_drops w' = [ab] /\
  (exists k, ptr_block (wp b) = Some k /\ heap_get (w_heap w') k <> None).
Proof. do 3 eexists. split; [run|]. split; [run|]. split; [run|]. eexists. split; [run|]. vm_compute. discriminate. Qed.
(** Cloning the slice [1; 2; 3] of bytes, where cloning adds ten. *)
Definition plus10 (bs : list byte) : M (list byte) := ret (map (fun b => match b with Byte z => Byte (z + 10) | b => b end) bs).
Example C40_case : exists src w r w', boxed_bytes [1;2;3] empty_world = (Ok src, w) /\
  box_new_with (emplacable_of_slice_ref 1 1 false plus10 src) w = (Ok r, w') /\ read_value (TSlice 1 1) r w' = (Ok (str_val [11;12;13]), w').
Proof. do 4 eexists. split; [run|]. split; [run|]. run. Qed.
Example C41_case : exists v o w y w', v_of_values (TSized 4 4) [u32 1; u32 2; u32 3; u32 4] empty_world = (Ok v, w) /\
  get_s v w = (Ok o, w) /\ box_new_with (emplacable_of_vec 4 4 o) w = (Ok y, w') /\ sv_cap o = 4 /\
  read_value (TSlice 4 4) y w' = (Ok (Value (MLen 4) (map Byte [1;1;1;1;2;2;2;2;3;3;3;3;4;4;4;4])), w').
Proof. do 5 eexists. split; [run|]. split; [run|]. split; [run|]. split; [run|]. run. Qed.
Example C42_case : exists w', box_new_with (breaks_off TStr ab [Byte 1; Byte 2] (PUser 5)) empty_world = (Panic (PUser 5), w') /\
  heap_get (w_heap w') 0 = None /\ length (w_heap w') = 1%nat.
Proof. eexists. split; [run|]. split; [run|]. run. Qed.
(** A producer that panics after it has delivered: the finished box is lost. *)
Theorem C42_late_refuted : exists w', box_new_with (late (emplacable_of_value TStr ab) (PUser 5)) empty_world = (Panic (PUser 5), w') /\
  heap_get (w_heap w') 0 <> None /\ w_drops w' = [].
Proof. eexists. split; [run|]. split; [vm_compute; discriminate|]. run. Qed.
Example C43_case : exists b w', with_emplacable_for TStr ab box_new_with empty_world = (Ok b, w') /\ w_drops w' = [] /\
  read_value TStr b w' = (Ok ab, w').
Proof. do 2 eexists. split; [run|]. split; [run|]. run. Qed.
(** A destructor that panics while the closure drops the emplacable runs a second time. *)
Theorem C43_panicking_destructor_refuted : exists w',
  with_emplacable_for (C := cfg_drop0) TStr ab emplacable_drop empty_world = (Panic PDrop, w') /\ w_drops w' = [ab; ab].
Proof. eexists. split; [run|]. run. Qed.
(** An iterator of three that claims two, and one that claims four. *)
Example C44_case : exists b w', box_iter 4 4 2 (map (emplacable_of_value (TSized 4 4)) [u32 1; u32 2; u32 3]) empty_world = (Ok b, w') /\
  read_value (TSlice 4 4) b w' = (Ok (Value (MLen 2) (map Byte [1;1;1;1;2;2;2;2])), w') /\ w_drops w' = [u32 3].
Proof. do 2 eexists. split; [run|]. split; [run|]. run. Qed.
Example C44_long_case : exists w', box_iter 4 4 4 (map (emplacable_of_value (TSized 4 4)) [u32 1; u32 2; u32 3]) empty_world = (Panic PAssert, w') /\
  heap_get (w_heap w') 0 = None.
Proof. eexists. split; [run|]. run. Qed.
Example C44_overflow_case : ~ iter_fits 4611686018427387904 1 4 /\
  exists w', box_iter 4611686018427387904 1 4 [] empty_world = (Panic PAssert, w').
Proof. split; [intros H; now apply H|]. eexists. run. Qed.
Example C45_case : exists v w w', repr (TSlice 1 1) v [] w /\
  v_push_with (TSlice 1 1) v (emplacable_unsize (Layout 3 1) (MLen 3) (emplacable_of_value (TSized 3 1) (sized_val [1;2;3]))) w = (Ok tt, w') /\
  shows (TSlice 1 1) v [str_val [1;2;3]] w'.
Proof. do 3 eexists. split; [eapply (built_repr _ [] empty_world); [|intros K; discriminate K|apply takesb_ok; reflexivity|run]|]. 2:{ split; [run|]. run. }
  split; [split; [discriminate|split; [exists 0; vm_compute; intuition discriminate|discriminate]]|reflexivity].
Qed.
(** Pushing without the guards: an over-aligned zero-sized value unsized to [dyn] does not raise the vector's alignment, and the next
    push leaves it where it cannot be read. *)
Theorem C45_push_refuted : exists v w w1 w2 w3,
  v_new TDyn empty_world = (Ok v, w) /\
  v_push_with TDyn v (emplacable_unsize (Layout 0 16) (v_meta zst16) (emplacable_of_value (TSized 0 16) (Value MUnit []))) w = (Ok tt, w1) /\
  v_push TDyn v (word 1) w1 = (Ok tt, w2) /\
  v_index TDyn v 0 w2 = (UB UbRef, w3).
Proof. do 5 eexists. do 3 (split; [run|]). run. Qed.
Example C45_str_case : exists b w', box_new_with (emplacable_str_to_bytes (emplacable_of_value TStr ab)) empty_world = (Ok b, w') /\
  read_value (TSlice 1 1) b w' = (Ok ab, w') /\ w_drops w' = [].
Proof. do 2 eexists. split; [run|]. split; [run|]. run. Qed.
End Cases.

Print Assumptions C45_push_refuted.
Print Assumptions C39_box_leak_refuted.
Print Assumptions C42_late_refuted.
Print Assumptions C43_panicking_destructor_refuted.
