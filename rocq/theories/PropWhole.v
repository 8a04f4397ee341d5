(** C26, C32, C36, C46: dropping, cloning and building whole vectors.

    Vocabulary as in PropPush.v and PropEdit.v. *)
From Coq Require Import ZArith List Bool Lia.
From Verif Require Import Types World ValidSize Emplace SizedVec AlignedVec UnalignedVec Api Spec Bytes Arith Wp Mem Repr
  Access Reserve Realign Orep Push Deal PushWith Shell Insert Take Pop Box Iter Calls DropVec Family Build PushAll Wrote Sources Obs Room Findings
  PropPush PropAccess PropEdit PropEmplace PropCompare.
Import ListNotations.
Open Scope Z_scope.
Open Scope m_scope.

Section WithConfig.
Context {C : Config}.

Lemma apart_nil self w : apart self [] [] w.
Proof. split; [auto|split; [intros ? []|intros ? _ []]]. Qed.

(** ** C26: dropping a vector *)
(** The vector and its buffer are gone, everything else is as it was. *)
Definition gone (self : nat) (w w' : world) : Prop :=
  nth_error (w_vecs w') self = Some ODead /\ (forall b, owned_block w self = Some b -> heap_get (w_heap w') b = None) /\ others self w w' /\
  (forall b, owned_block w self <> Some b -> heap_get (w_heap w') b = heap_get (w_heap w) b).

Lemma dropped_gone t self l o d w ds : orep t self l o d w -> gone self w (dropped_world self (o_ptr o) ds w).
Proof.
  intros R. unfold gone. ands.
  - unfold dropped_world. proj. rewrite upd_same; auto. eapply nth_error_lt, orep_obj; eauto.
  - intros b O. eapply dropped_freed; eauto.
  - apply others_frame. eapply dropped_frame; eauto.
  - intros b O. unfold dropped_world. proj. rewrite (orep_owned _ _ _ _ _ _ R) in O. now rewrite hfree_other.
Qed.

(** Each destructor runs once, in index order, on the element's own bytes ([l] lists the elements), and the buffer is freed.
    The model's [dealloc] is undefined behaviour unless given the layout of the allocation, so that the right layout is used
    is part of [run]. *)
Theorem C26_drop t self l w : drops_quiet -> repr t self l w ->
  exists w', v_drop t self w = (Ok tt, w') /\ w_drops w' = w_drops w ++ l /\ gone self w w'.
Proof.
  intros Q R. apply repr_orep in R as (o & d & R). destruct (run_ok _ _ _ _ _ (v_drop_wp t self l o d w R)) as ([] & w' & E & H).
  - intros r w' (_ & P & _). eapply no_drop_panicked; eauto.
  - intros w' (_ & P). eapply no_drop_panicked; eauto.
  - cbv beta in H. subst w'. eexists. split; [exact E|]. split; [reflexivity|]. eapply dropped_gone; eauto.
Qed.
(** The vector's buffer, if it has one. *)
Definition buffer (w : world) (self : nat) : list nat := match owned_block w self with Some b => [b] | None => [] end.
(** With destructors that may panic. Sized: all destructors run and the buffer is freed (a second panic aborts). Otherwise
    the remaining elements and the buffer are leaked, see [C26_panicking_destructor_refuted]; none is dropped twice. *)
Theorem C26_drop_panics_partial t self l w : repr t self l w ->
  run (v_drop t self) w
    (fun _ w' => w_drops w' = w_drops w ++ l /\ gone self w w')
    (fun r w' => r = PDrop /\ drop_panicked w w' /\
       match kind_of t with
       | KSized => w_drops w' = w_drops w ++ l /\ gone self w w'
       | _ => exists m1 m2, l = m1 ++ m2 /\ w_drops w' = w_drops w ++ m1 /\ nth_error (w_vecs w') self = Some ODead /\
              others_but (buffer w self) self w w' /\ w_heap w' = w_heap w
       end)
    (fun w' => kind_of t = KSized /\ drop_panicked w w').
Proof.
  intros R. apply repr_orep in R as (o & d & R). eapply run_conseq; [eapply v_drop_wp; eauto|..]; cbv beta; auto.
  - intros [] w' ->. split; [reflexivity|]. eapply dropped_gone; eauto.
  - intros r w' (-> & P & H). ands; auto.
    assert (L : forall m1, nth_error (w_vecs (leaked_world self m1 w)) self = Some ODead /\ others_but (buffer w self) self w (leaked_world self m1 w)).
    { intros m1. split.
      - unfold leaked_world. proj. rewrite upd_same; auto. eapply nth_error_lt, orep_obj; eauto.
      - split; [|split].
        + intros u j m Rj [N S]. split; [|split; [|unfold owned_block, leaked_world; proj; now rewrite upd_other by auto]].
          * eapply repr_agree; eauto. unfold leaked_world. proj. apply upd_other; auto.
          * split; auto. intros k. unfold owned_block, leaked_world. proj. rewrite upd_same. discriminate.
            eapply nth_error_lt, orep_obj; eauto.
        + intros b Lb. right. unfold buffer. destruct (opt_dec (owned_block w self) (Some b)) as [Ob|Ob]; [rewrite Ob; left; now left|].
          right. split; auto.
        + intros b Lb N. split; [reflexivity|]. unfold owned_block, leaked_world. proj. rewrite upd_same. discriminate.
          eapply nth_error_lt, orep_obj; eauto. }
    destruct (kind_of t).
    + subst w'. split; [reflexivity|]. eapply dropped_gone; eauto.
    + destruct H as (m1 & m2 & El & ->). destruct (L m1). exists m1, m2. ands; auto.
    + destruct H as (m1 & m2 & El & ->). destruct (L m1). exists m1, m2. ands; auto.
Qed.

(** ** C36: extend, collect, macros *)
(** Extending with any emplacables, any hint. Zero-sized Sized elements are left out ([Findings.C36_extend_zst_refuted]), and
    so are over-aligned zero-sized values of [dyn] vectors ([joins]). *)
(** What became of the emplacables when [extend] panicked after pushing the first ones, [Ss1]: none is left over. If there was
    no room at the start, the others are all dropped; otherwise the next one is refused or panics itself, and those behind it
    are dropped. *)
Definition stopped (Ss1 Ss2 : list deal) (pushed : list value) (w : world) (r : panic_reason) (w' : world) : Prop :=
  (Ss1 = [] /\ reserve_reason r /\ all_after Dropped Ss2 w' /\ w_drops w' = w_drops w ++ all_nulls Ss2) \/
  exists S Ss3, Ss2 = S :: Ss3 /\ all_after Dropped Ss3 w' /\
    (reserve_reason r /\ d_after S Refused w' /\ w_drops w' = w_drops w ++ all_extra Ss1 ++ all_nulls Ss3 ++ pushed \/
     d_panic S r \/ r = PDrop /\ d_extra S <> [] /\ drop_panicked w w').
Theorem C36_extend_partial t self hint es Ss l al w : nzst t -> 0 <= hint -> repr t self l w -> v_align t self w = (Ok al, w) -> family es Ss w ->
  apart self (fvs Ss) (fbs Ss) w -> joins t al Ss ->
  run (v_extend t self hint es) w
    (fun _ w' => holds_list t self (l ++ map d_value Ss) w' /\ w_drops w' = w_drops w ++ all_extra Ss /\ all_after Delivered Ss w' /\
       spared self (fvs Ss) (fbs Ss) w w')
    (fun r w' => exists Ss1 Ss2, Ss = Ss1 ++ Ss2 /\ holds_list t self (l ++ map d_value Ss1) w' /\ spared self (fvs Ss) (fbs Ss) w w' /\
       all_after Delivered Ss1 w' /\ stopped Ss1 Ss2 [] w r w')
    (fun w' => alloc_failed w w' \/ drop_panicked w w').
Proof.
  intros Nz Hh R A Fa Ap J. apply repr_orep in R as (o & d & R). rewrite (v_align_eq _ _ _ _ _ _ R) in A. injection A as <-.
  eapply run_conseq; [eapply v_extend_wp; eauto|..]; cbv beta.
  - intros _ w' (R' & T & D & Af). ands; auto using repr_holds, spared_touch.
  - intros r w' [(Ss1 & S & Ss2 & -> & R' & T & A1 & A2 & H)|(Rr & R' & T & A1 & D)].
    + exists Ss1, (S :: Ss2). ands; auto using repr_holds, spared_touch. right. exists S, Ss2. ands; auto. rewrite app_nil_r.
      destruct H as [H|[P|(-> & N & P)]]; auto.
    + exists [], Ss. cbn [map app]. rewrite app_nil_r. ands; auto using repr_holds, spared_touch. { constructor. } left. ands; auto.
  - intros w' [F|[_ P]]; auto.
Qed.
Theorem C36_collect_partial t hint es Ss w : wf_ty t -> nzst t -> 0 <= hint -> family es Ss w ->
  (forall j, In j (fvs Ss) -> (j < length (w_vecs w))%nat) -> joins t 8 Ss ->
  run (v_from_iter t hint es) w
    (fun v w' => holds_list t v (map d_value Ss) w' /\ newvec v (fvs Ss) (fbs Ss) w w' /\
       w_drops w' = w_drops w ++ all_extra Ss /\ all_after Delivered Ss w')
    (fun r w' => vanished (length (w_vecs w)) w w' /\ (forall b, (b < length (w_heap w))%nat -> ~ In b (fbs Ss) -> heap_get (w_heap w') b = heap_get (w_heap w) b) /\
       exists Ss1 Ss2, Ss = Ss1 ++ Ss2 /\ all_after Delivered Ss1 w' /\ stopped Ss1 Ss2 (map d_value Ss1) w r w')
    (fun w' => alloc_failed w w' \/ drop_panicked w w').
Proof.
  intros W Nz Hh Fa Fv J. eapply run_conseq; [eapply v_from_iter_wp; eauto|..]; cbv beta; auto.
  - intros v w' (R & N & D & A). auto using repr_holds.
  - intros r w' (N & V & H). split; auto. split; [apply (nv_other _ _ _ _ _ N)|].
    destruct H as [(Ss1 & S & Ss2 & -> & A1 & A2 & H)|(Rr & A & D)].
    + exists Ss1, (S :: Ss2). ands; auto. right. exists S, Ss2. ands; auto.
    + exists [], Ss. ands; auto. { constructor. } left. auto.
Qed.
(** The plainest case: values moved in, [v.extend(xs)] with any lower bound from [size_hint]. *)
Lemma value_fvs t xs : fvs (value_deals t xs) = [] /\ fbs (value_deals t xs) = [] /\ all_extra (value_deals t xs) = [] /\ map d_value (value_deals t xs) = xs.
Proof. ands; induction xs as [|[] xs IH]; auto. cbn [value_deals map] in *. unfold value_deals in IH. now rewrite IH. Qed.
Lemma value_joins t al xs : takes t al xs -> Forall (not_huge t) xs -> joins t al (value_deals t xs).
Proof.
  intros T N. unfold joins, value_deals. rewrite Forall_map. pose proof (Forall_and T N) as TN. eapply Forall_impl; [|exact TN]. cbv beta. intros x [[G H] Nx].
  assert (E : d_value (value_deal t x) = x) by now destruct x. rewrite E. ands; auto. now apply fits_self.
Qed.
Lemma others_spared self w w' : spared self [] [] w w' -> others self w w'.
Proof.
  intros (A & B & D). split; [|split].
  - intros t j l R Sp. apply A; auto.
  - intros b L. destruct (B b L) as [H|(N & [[]|H])]; auto.
  - intros b L N. destruct (D b L N) as [H O]. auto.
Qed.
Lemma value_nulls t xs : all_nulls (value_deals t xs) = xs.
Proof. induction xs as [|[] xs IH]; auto. unfold all_nulls, value_deals in *. cbn [map flat_map value_deal d_nulls app]. now rewrite IH. Qed.
(** On a panic the values not yet moved in are destroyed, except for the one that was being moved in, which is leaked:
    the emplacable has already given it up (emplacable lib.rs:305-384). *)
Theorem C36_extend_values_partial t self hint xs l al w : nzst t -> 0 <= hint -> repr t self l w -> v_align t self w = (Ok al, w) -> takes t al xs -> Forall (not_huge t) xs ->
  run (v_extend t self hint (map (emplacable_of_value t) xs)) w
    (fun _ w' => holds_list t self (l ++ xs) w' /\ w_drops w' = w_drops w /\ others self w w')
    (fun r w' => exists ys zs, holds_list t self (l ++ ys) w' /\ w_drops w' = w_drops w ++ zs /\ others self w w' /\ reserve_reason r /\
       (ys = [] /\ xs = zs \/ exists x, xs = ys ++ x :: zs))
    (fun w' => alloc_failed w w' \/ drop_panicked w w').
Proof.
  intros Nz Hh R A T Nc. destruct (value_fvs t xs) as (Fv & Fb & Ex & Ev).
  assert (G : Forall (wf_value t) xs). { eapply Forall_impl; [|exact T]. intros x [G _]. apply G. }
  eapply run_conseq; [eapply (C36_extend_partial t self hint _ _ l al w Nz Hh R A (values_family t xs w G))|..]; cbv beta.
  - rewrite Fv, Fb. apply apart_nil.
  - now apply value_joins.
  - rewrite Fv, Fb, Ev, Ex, app_nil_r. intros _ w' (R' & D & _ & Sp). ands; auto. now apply others_spared.
  - rewrite Fv, Fb. intros r w' (Ss1 & Ss2 & E & R' & Sp & _ & H). unfold value_deals in E. apply map_eq_app in E as (ys & zs & -> & <- & <-).
    fold (value_deals t ys) in *. fold (value_deals t zs) in *. destruct (value_fvs t ys) as (_ & _ & Xy & Ey). rewrite Ey in R'. apply others_spared in Sp.
    destruct H as [(E1 & Rr & _ & D)|(S & Ss3 & E2 & _ & H)].
    + rewrite value_nulls in D. exists ys, zs. destruct ys; [|discriminate E1]. ands; auto.
    + destruct zs as [|z zs]; [discriminate E2|]. cbn [value_deals map] in E2. injection E2 as <- <-. fold (value_deals t zs) in H.
      rewrite Xy, value_nulls, app_nil_r in H. destruct H as [(Rr & _ & D)|[[]|(_ & N & _)]]; [|now destruct N]. exists ys, zs. ands; eauto.
  - auto.
Qed.
(** [xs.into_iter().map(Emplacable::from).collect()]. *)
Theorem C36_collect_values_partial t hint xs w : wf_ty t -> nzst t -> 0 <= hint -> takes t 8 xs -> Forall (not_huge t) xs ->
  run (v_from_iter t hint (map (emplacable_of_value t) xs)) w
    (fun v w' => holds_list t v xs w' /\ newvec v [] [] w w' /\ w_drops w' = w_drops w)
    (fun r w' => vanished (length (w_vecs w)) w w' /\ newvec (length (w_vecs w)) [] [] w w' /\ reserve_reason r /\
       (w_drops w' = w_drops w ++ xs \/ exists ys x zs, xs = ys ++ x :: zs /\ w_drops w' = w_drops w ++ zs ++ ys))
    (fun w' => alloc_failed w w' \/ drop_panicked w w').
Proof.
  intros W Nz Hh T Nc. destruct (value_fvs t xs) as (Fv & Fb & Ex & Ev).
  assert (G : Forall (wf_value t) xs). { eapply Forall_impl; [|exact T]. intros x [G _]. apply G. }
  eapply run_conseq; [eapply (v_from_iter_wp t hint _ _ w W Nz Hh (values_family t xs w G))|..]; cbv beta; auto.
  - rewrite Fv. intros ? [].
  - now apply value_joins.
  - rewrite Fv, Fb, Ev, Ex, app_nil_r. intros v w' (R & N & D & _). ands; auto using repr_holds.
  - intros r w' (N & V & H). rewrite Fv, Fb in N. ands; auto.
    + destruct H as [(Ss1 & S & Ss2 & E & _ & _ & H)|(Rr & _)]; auto.
      assert (I : In S (value_deals t xs)) by (rewrite E; apply in_or_app; right; left; auto).
      unfold value_deals in I. apply in_map_iff in I as (x & <- & _). destruct H as [(Rr & _)|[[]|(_ & Ne & _)]]; auto. now destruct Ne.
    + destruct H as [(Ss1 & S & Ss2 & E & _ & _ & H)|(_ & _ & D)]; [|left; now rewrite value_nulls in D].
      right. unfold value_deals in E. apply map_eq_app in E as (ys & zs & -> & <- & E2). fold (value_deals t ys) in *.
      destruct zs as [|z zs]; [discriminate E2|]. cbn [map] in E2. injection E2 as <- <-. fold (value_deals t zs) in *.
      destruct (value_fvs t ys) as (_ & _ & Xy & Ey). rewrite Xy, Ey, value_nulls in H.
      destruct H as [(Rr & _ & D)|[[]|(_ & N' & _)]]; [|now destruct N']. exists ys, z, zs. auto.
Qed.
(** [unsized_vec![x, y, ...]]. *)
Theorem C36_macro_partial t xs w : wf_ty t -> nzst t -> takes t 8 xs ->
  run (v_of_values t xs) w
    (fun v w' => holds_list t v xs w' /\ newvec v [] [] w w' /\ w_drops w' = w_drops w)
    (fun r w' => (exists ys x zs, xs = ys ++ x :: zs /\ w_drops w' = w_drops w ++ x :: ys) /\ vanished (length (w_vecs w)) w w' /\
       newvec (length (w_vecs w)) [] [] w w')
    (fun w' => alloc_failed w w' \/ drop_panicked w w').
Proof.
  intros W Nz T. eapply run_conseq; [eapply v_of_values_wp; eauto|..]; cbv beta; auto.
  - intros v w' (R & N & D). auto using repr_holds.
  - intros r w' (N & _ & ys & x & zs & E & D & V). split; auto. eauto.
Qed.

(** ** C46: slices *)
Theorem C46_push_partial es ea self l n bs w : 0 < es -> wf_value (TSlice es ea) (Value (MLen n) bs) -> repr (TSlice es ea) self l w ->
  run (v_push (TSlice es ea) self (Value (MLen n) bs)) w
    (fun _ w' => exists r, v_index (TSlice es ea) self (length l) w' = (Ok r, w') /\ wm r = MLen n /\ read_value (TSlice es ea) r w' = (Ok (Value (MLen n) bs), w'))
    (fun r w' => True) (fun w' => alloc_failed w w' \/ drop_panicked w w').
Proof.
  intros P W R. set (t := TSlice es ea) in *. set (x := Value (MLen n) bs) in *.
  assert (G : good t x). { apply good_of_wf; auto. intros a [= E _]. lia. }
  apply repr_orep in R as (o & d & R).
  eapply run_conseq; [eapply (v_push_wp t self l o d w x R G); intros K; discriminate K|..]; cbv beta; auto.
  intros _ w' (o' & o1 & d' & w1 & R' & _).
  apply orep_repr in R'. pose proof (C05_get t self _ w' (length l) R') as H. rewrite nth_error_app2, Nat.sub_diag in H by lia.
  destruct H as (r & _ & E & M & _ & B). eauto.
Qed.
(** The excluded case fails always: in a vector of slices of zero-sized elements every slice reads back as empty. *)
Theorem C46_zst_always_empty ea self l x w : repr (TSlice 0 ea) self l w -> In x l -> v_meta x = MLen 0.
Proof.
  intros R I. apply repr_orep in R as (o & d & R). destruct (orep_elem _ _ _ _ _ _ x R I) as [W S]. unfold storable in S.
  destruct W as [[_ [_ W]] _]. destruct x as [[|n|] bs]; cbn in *; try tauto. congruence.
Qed.

(** ** C32: clone *)
(** [T::clone] as a function of values; it may panic and may allocate temporarily. *)
Definition copies (t : ty) (f : value -> value) (P : panic_reason -> Prop) (clone : value -> M value) : Prop :=
  (forall y, good t y -> good t (f y)) /\
  forall y w, good t y -> run (clone y) w
    (fun z w' => z = f y /\ within [] [] w w' /\ w_drops w' = w_drops w)
    (fun r w' => P r /\ within [] [] w w' /\ w_drops w' = w_drops w)
    (fun _ => False).
Definition clone_panic (t : ty) (f : value -> value) (P : panic_reason -> Prop) (l : list value) (dst : nat) (w0 : world) (r : panic_reason) (w' : world) : Prop :=
  exists l1 l2 o' d', l = l1 ++ l2 /\ orep t dst (map f l1) o' d' w' /\ newvec dst [] [] w0 w' /\
    (P r /\ w_drops w' = w_drops w0 \/
     exists y l3, l2 = y :: l3 /\ w_drops w' = w_drops w0 ++ [f y] /\ (r = PCapacity \/ r = PDebugAssert /\ cfg_debug = true \/ r = POom /\ cfg_oom_panics = true)).

Lemma clone_loop_wp t f P clone self l o d w0 dst : kind_of t = KSized -> nzst t -> copies t f P clone -> orep t self l o d w0 ->
  forall m a it o' d' w, l = a ++ m -> covers t o a m it -> orep t dst (map f a) o' d' w -> newvec dst [] [] w0 w -> w_drops w = w_drops w0 ->
  run (v_clone_loop t clone dst (length m) it) w
    (fun _ w' => exists o'' d'', orep t dst (map f l) o'' d'' w' /\ newvec dst [] [] w0 w' /\ w_drops w' = w_drops w0)
    (clone_panic t f P l dst w0)
    (fun w' => abort_ok w0 w').
Proof.
  intros K Nz [Cg Cl] R0. induction m as [|x m IH]; intros a it o' d' w El Cv R N D; cbn [length v_clone_loop].
  { apply run_ret. rewrite app_nil_r in El. subst. eauto. }
  assert (Rs : orep t self l o d w).
  { eapply orep_agree; [exact R0| |].
    - apply (nv_vecs _ _ _ _ _ N); [|intros []]. rewrite (nv_self _ _ _ _ _ N). eapply nth_error_lt, orep_obj; eauto.
    - intros b E. apply (nv_other _ _ _ _ _ N); [|intros []]. eapply repr_owned_lt; [eapply orep_repr; eauto|]. now rewrite (orep_owned _ _ _ _ _ _ R0). }
  destruct (v_next_cons t self l o d w a x m [] it Rs Cv) as (it1 & Nx & Cv1). { now rewrite app_nil_r. }
  eapply run_eq; [exact Nx|]. cbv beta iota. eapply run_eq; [eapply iref_read; eauto|].
  assert (Gx : good t x). { eapply orep_elem; [exact R0|]. rewrite El. apply in_or_app. right. now left. }
  apply run_bind. eapply run_conseq; [apply (Cl x w Gx)|..]; cbv beta.
  - intros z w1 (-> & Wi & D1).
    assert (T1 : touch dst [] [] w w1). { apply touch_within; auto using apart_nil. exists []. rewrite D1. now rewrite app_nil_r. }
    assert (R1 : orep t dst (map f a) o' d' w1) by (eapply orep_within; eauto using apart_nil).
    assert (N1 : newvec dst [] [] w0 w1) by (eapply newvec_touch; eauto; intros b []).
    apply run_bind. eapply run_conseq; [eapply (v_push_wp t dst _ o' d' w1 (f x) R1); auto; intros K'; congruence|..]; cbv beta.
    + intros [] w2 (o2 & _ & d2 & _ & R2 & [F2 D2] & _).
      eapply (IH (a ++ [x]) it1 o2 d2 w2); auto.
      * now rewrite <- app_assoc.
      * rewrite map_app. exact R2.
      * eapply newvec_frame; eauto. intros b [].
      * congruence.
    + intros r w2 (R2 & F2 & D2 & _ & Rr). unfold clone_panic. apply repr_orep in R2 as (o2 & d2 & R2).
      exists a, (x :: m), o2, d2. ands; auto. { eapply newvec_frame; eauto. intros b []. } right. exists x, m. ands; auto. congruence.
    + intros w2 [A|A]; [left|right].
      * eapply alloc_failed_l; [|exact A]. apply (nv_nalloc _ _ _ _ _ N1).
      * eapply drop_panicked_from; [|exact A]. rewrite D1, D. lia.
  - intros r w1 (Pr & Wi & D1). unfold clone_panic.
    assert (T1 : touch dst [] [] w w1). { apply touch_within; auto using apart_nil. exists []. rewrite D1. now rewrite app_nil_r. }
    exists a, (x :: m), o', d'. ands; auto. { eapply orep_within; eauto using apart_nil. } { eapply newvec_touch; eauto; intros b []. } left. split; auto; congruence.
  - intros w1 [].
Qed.
(** The clone holds the clones of the elements in order; the original, and every other vector, is untouched; when [T::clone]
    panics, the clones made so far are dropped in order and their memory is freed. *)
Theorem C32_clone_partial t f P clone self l w : kind_of t = KSized -> 0 < s_size t -> copies t f P clone -> repr t self l w ->
  run (v_clone t clone self) w
    (fun v w' => holds_list t v (map f l) w' /\ holds_list t self l w' /\ sep w' v self /\ newvec v [] [] w w' /\ w_drops w' = w_drops w)
    (fun r w' => holds_list t self l w' /\ vanished (length (w_vecs w)) w w' /\ newvec (length (w_vecs w)) [] [] w w' /\
       (w_drops w' = w_drops w /\ reserve_reason r \/
        exists l1 l2, l = l1 ++ l2 /\
          (P r /\ w_drops w' = w_drops w ++ map f l1 \/
           exists y l3, l2 = y :: l3 /\ w_drops w' = w_drops w ++ f y :: map f l1 /\
             (r = PCapacity \/ r = PDebugAssert /\ cfg_debug = true \/ r = POom /\ cfg_oom_panics = true))))
    (fun w' => alloc_failed w w' \/ drop_panicked w w').
Proof.
  intros K Sz Cl R. pose proof R as R0. apply repr_orep in R as (o & d & R). assert (Nz : nzst t) by (intros _; auto).
  pose proof (orep_wf _ _ _ _ _ _ R) as Wt. unfold v_clone.
  eapply run_eq; [eapply v_capacity_eq; eauto|]. eapply run_eq; [eapply v_byte_capacity_eq; eauto|]. eapply run_eq; [eapply v_align_eq; eauto|].
  assert (Keep : forall v w', newvec v [] [] w w' -> repr t self l w'). { intros v w' N. eapply newvec_repr; eauto. }
  pose proof (orep_len _ _ _ _ _ _ R) as Hc. pose proof (orep_bcap _ _ _ _ _ _ R) as Hb. assert (Zl : 0 <= zlen l) by (unfold zlen; lia).
  apply run_bind. eapply run_conseq; [eapply v_with_capacity_bytes_align_wp; auto; try lia; intros K'; congruence|..]; cbv beta.
  - intros v w1 (o1 & d1 & _ & R1 & N1 & D1 & _).
    assert (Rs : orep t self l o d w1).
    { eapply orep_agree; [exact R| |].
      - apply (nv_vecs _ _ _ _ _ N1); [|intros []]. rewrite (nv_self _ _ _ _ _ N1). eapply nth_error_lt, orep_obj; eauto.
      - intros b E. apply (nv_other _ _ _ _ _ N1); [|intros []]. eapply repr_owned_lt; [eapply orep_repr; eauto|]. now rewrite (orep_owned _ _ _ _ _ _ R). }
    destruct (v_iter_eq _ _ _ _ _ _ Rs) as (it & Ei & Cv & L). eapply run_eq; [exact Ei|]. rewrite L.
    apply (run_bind (on_unwind _ _) (fun _ => ret v)). apply run_on_unwind.
    eapply run_conseq; [eapply (clone_loop_wp t f P clone self l o d w v K Nz Cl R l [] it o1 d1 w1); auto|..]; cbv beta.
    + intros [] w2 (o2 & d2 & R2 & N2 & D2). apply run_ret. ands; auto.
      * eapply repr_holds, orep_repr; eauto.
      * apply repr_holds. eauto.
      * eapply newvec_sep; eauto.
    + intros r w2 (l1 & l2 & o2 & d2 & E & R2 & N2 & H).
      assert (Dl : (length (w_drops w) <= length (w_drops w2))%nat).
      { destruct H as [(_ & ->)|(y & l3 & _ & -> & _)]; rewrite ?app_length; lia. }
      eapply run_conseq; [eapply v_drop_wp; eauto|..]; cbv beta.
      * intros [] w3 ->. assert (N3 : newvec v [] [] w (dropped_world v (o_ptr o2) (map f l1) w2)).
        { eapply newvec_frame; [exact N2|eapply dropped_frame; eauto|intros b []]. }
        ands.
        -- apply repr_holds. eauto.
        -- rewrite <- (nv_self _ _ _ _ _ N2). eapply vanished_dropped; eauto.
        -- now rewrite <- (nv_self _ _ _ _ _ N2).
        -- right. exists l1, l2. split; auto. destruct H as [(Pr & Dd)|(y & l3 & Ey & Dd & Rr)].
           ++ left. split; auto. unfold dropped_world. proj. now rewrite Dd.
           ++ right. exists y, l3. ands; auto. unfold dropped_world. proj. rewrite Dd, <- app_assoc. reflexivity.
      * intros _ w3 (_ & Pd & _). right. eapply drop_panicked_from; eauto.
      * intros w3 (_ & Pd). right. eapply drop_panicked_from; eauto.
    + auto.
  - intros r w1 (Rr & N & D & V). ands; auto. apply repr_holds. eauto.
  - intros w1 A. now left.
Qed.
End WithConfig.

(** C26 for [str]: the destructor of the first element panics; the others and the buffer are leaked. *)
Theorem C26_panicking_destructor_refuted : exists v w w',
  v_of_values (C := cfg_drop0) TStr [ab; cd] empty_world = (Ok v, w) /\
  v_drop (C := cfg_drop0) TStr v w = (Panic PDrop, w') /\ w_drops w' = [ab] /\
  exists b, owned_block w v = Some b /\ heap_get (w_heap w') b <> None.
Proof. do 3 eexists. split; [run|]. split; [run|]. split; [run|]. eexists. split; [run|]. vm_compute. discriminate. Qed.

Print Assumptions C26_drop.
Print Assumptions C26_drop_panics_partial.
Print Assumptions C36_extend_partial.
Print Assumptions C36_collect_partial.
Print Assumptions C36_extend_values_partial.
Print Assumptions C36_collect_values_partial.
Print Assumptions C36_macro_partial.
Print Assumptions C46_push_partial.
Print Assumptions C46_zst_always_empty.
Print Assumptions C32_clone_partial.
Print Assumptions C26_panicking_destructor_refuted.

(** ** Concrete cases *)
Section Cases.
Local Existing Instance cfg_release.
Ltac built := eapply (built_repr _ _ empty_world); [exact I|intros K; discriminate K|apply takesb_ok; reflexivity|run].
Ltac built32 := eapply (built_repr _ _ empty_world); [apply wf_u32|intros K; reflexivity|apply takesb_ok; reflexivity|run].
(** Three strings are dropped in order and nothing is left on the heap. *)
Example C26_case : exists v w w', repr TStr v [ab; cd; ef] w /\ v_drop TStr v w = (Ok tt, w') /\ w_drops w' = [ab; cd; ef] /\
  forallb (fun b => match b with None => true | Some _ => false end) (w_heap w') = true.
Proof. do 3 eexists. split; [built|]. split; [run|]. split; [run|]. run. Qed.
(** Extending with a wrong hint of 100. *)
Example C36_case : exists v w w' al, repr TStr v [ab] w /\ v_align TStr v w = (Ok al, w) /\ takes TStr al [cd; ef] /\
  v_extend TStr v 100 (map (emplacable_of_value TStr) [cd; ef]) w = (Ok tt, w') /\ shows TStr v [ab; cd; ef] w'.
Proof. do 4 eexists. split; [built|]. split; [run|]. split; [apply takesb_ok; reflexivity|]. split; [run|]. run. Qed.
(** A slice of three u16. *)
Definition three16 := Value (MLen 3) (map Byte [1;0;2;0;3;0]).
Example C46_case : exists v w w' r, repr (TSlice 2 2) v [Value (MLen 1) (map Byte [9;9])] w /\ wf_value (TSlice 2 2) three16 /\
  v_push (TSlice 2 2) v three16 w = (Ok tt, w') /\ v_index (TSlice 2 2) v 1 w' = (Ok r, w') /\ wm r = MLen 3.
Proof.
  do 4 eexists. split.
  { eapply (built_repr _ _ empty_world); [|intros K; discriminate K|apply takesb_ok; reflexivity|run]. split; [|reflexivity]. split; [lia|]. split; [apply pow2b_ok; reflexivity|]. vm_compute. discriminate. }
  split; [apply good_wf, goodb_ok; reflexivity|]. split; [run|]. split; [run|]. run.
Qed.
(** Cloning two u32, with a clone that panics at the second element of another vector. *)
Definition clone_or_panic (y : value) : M value := if first_eqb y (u32 2) then panic (PUser 7) else ret y.
Lemma clone_or_panic_copies : copies (TSized 4 4) (fun y => y) (fun r => r = PUser 7) clone_or_panic.
Proof.
  split; auto. intros y w G. unfold clone_or_panic. destruct (first_eqb y (u32 2)).
  - apply run_panic. ands; auto using within_refl.
  - apply run_ret. ands; auto using within_refl.
Qed.
Example C32_case : exists v w w' u, repr (TSized 4 4) v [u32 1; u32 3] w /\ v_clone (TSized 4 4) clone_or_panic v w = (Ok u, w') /\
  shows (TSized 4 4) u [u32 1; u32 3] w' /\ shows (TSized 4 4) v [u32 1; u32 3] w'.
Proof. do 4 eexists. split; [built32|]. split; [run|]. split; [run|]. run. Qed.
Example C32_panic_case : exists v w w', repr (TSized 4 4) v [u32 1; u32 2] w /\ v_clone (TSized 4 4) clone_or_panic v w = (Panic (PUser 7), w') /\
  w_drops w' = [u32 1] /\ shows (TSized 4 4) v [u32 1; u32 2] w'.
Proof. do 3 eexists. split; [built32|]. split; [run|]. split; [run|]. run. Qed.
End Cases.
