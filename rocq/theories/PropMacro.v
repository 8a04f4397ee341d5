(** C62: the macros [unsized_vec!] and [unsize_vec!] with values, emplacables and coerced values in any order. *)
From Coq Require Import ZArith List Bool Lia.
From Verif Require Import Types World ValidSize Emplace SizedVec AlignedVec UnalignedVec Api Spec Bytes Arith Wp Mem Repr
  Access Reserve Realign Orep Push Deal PushWith Shell Insert Take Pop Box Iter Calls DropVec Family Build PushAll Wrote Sources Copies Obs Room Findings
  Adaptors Convert Macros StdVec PropPush PropReserve PropAccess PropEdit PropEmplace PropCompare PropWhole PropUnsize PropConvert.
Import ListNotations.
Open Scope Z_scope.
Open Scope m_scope.

Section WithConfig.
Context {C : Config}.

(** A reservation failed (F18: in debug builds by a debug assertion). *)
Definition no_room (r : panic_reason) : Prop := r = PCapacity \/ r = PDebugAssert /\ cfg_debug = true \/ r = POom /\ cfg_oom_panics = true.
Lemma reserve_no_room r : reserve_reason r -> no_room r.
Proof. unfold reserve_reason, no_room. tauto. Qed.

(** What an argument brings: a value of its own, the value of an emplacable that behaves as [S] says, a coerced value. *)
Definition brings (t : ty) (i : item) (S : deal) (w : world) : Prop :=
  match i with
  | IValue x => S = value_deal t x
  | IEmplacable e => emits e S w /\ fits t (d_lay S) (d_value S)
  | ICoerce s a m x => S = value_deal t (Value m (v_bytes x)) /\ unsizes s a t m /\ wf_ty (TSized s a) /\ good (TSized s a) x
  end.
(** The destructors that run for an argument whose reservation fails: the value's, if it is not the emplacable's. *)
Definition refused_drops (i : item) : list value :=
  match i with IValue x => [x] | IEmplacable _ => [] | ICoerce _ _ m x => [Value m (v_bytes x)] end.
(** [push] has no use for zero-sized Sized types (F8: C03_push_zst_always_panics), [push_with] has. *)
Definition pushable (t : ty) (i : item) : Prop := match i with IEmplacable _ => True | _ => nzst t end.
Lemma pushable_nzst t is : nzst t -> Forall (pushable t) is.
Proof. intros N. apply Forall_forall. intros [] _; cbn; auto. Qed.
Lemma nzst_or t : nzst t \/ kind_of t = KSized.
Proof. destruct (kind_of t) eqn:K; auto; left; intros Z; congruence. Qed.
(** Arguments with separate footprints, whose values the vector can store and (for [dyn]) align. *)
Definition arguments (t : ty) (al : Z) (is : list item) (Ss : list deal) (w : world) : Prop :=
  Forall2 (fun i S => brings t i S w) is Ss /\ ForallOrdPairs indep Ss /\ Forall stable Ss /\ Forall (fun S => forall b, In b (d_fb S) -> (b < length (w_heap w))%nat) Ss /\
  Forall (fun S => good t (d_value S) /\ (kind_of t = KUnaligned -> 0 < vsize t (d_value S) \/ valign t (d_value S) <= al)) Ss.

Lemma arguments_cons t al i is S Ss w : arguments t al (i :: is) (S :: Ss) w ->
  brings t i S w /\ stable S /\ Forall (indep S) Ss /\ good t (d_value S) /\
  (kind_of t = KUnaligned -> 0 < vsize t (d_value S) \/ valign t (d_value S) <= al) /\ arguments t al is Ss w.
Proof.
  intros (F & I & St & Ob & G). inversion F; subst. inversion I; subst. inversion St; subst. inversion Ob; subst. inversion G as [|? ? [] ?]; subst. unfold arguments. ands; auto.
Qed.
Lemma brings_agree t i S w w' : brings t i S w -> agree (d_fv S) (d_fb S) w w' -> brings t i S w'.
Proof. destruct i; cbn [brings]; auto. intros [Em F] A. split; auto. eapply emits_agree; eauto. Qed.
Lemma arguments_agree t al al' is Ss w w' : arguments t al is Ss w -> agree (fvs Ss) (fbs Ss) w w' -> al <= al' -> arguments t al' is Ss w'.
Proof.
  intros (F & I & St & Ob & G) A L. unfold arguments. ands; auto.
  - clear I St G Ob. induction F; constructor.
    + eapply brings_agree; eauto. eapply agree_mono; [| |exact A]; cbn [fvs fbs flat_map]; apply incl_appl, incl_refl.
    + apply IHF. eapply agree_mono; [| |exact A]; cbn [fvs fbs flat_map]; apply incl_appr, incl_refl.
  - eapply Forall_impl; [|exact Ob]. cbv beta. intros S H b Hb. destruct A as (_ & _ & A). specialize (H b Hb). lia.
  - eapply Forall_impl; [|exact G]. cbv beta. intros S (H & K). split; auto. intros Q. destruct (K Q); [auto|right; lia].
Qed.

Lemma past_slot_touch self w : touch self [] [] w (past_slot w).
Proof.
  constructor; auto using past_slot_get.
  - unfold past_slot. proj. rewrite app_length. lia.
  - intros b L H. rewrite past_slot_get, heap_get_ge in H by auto. congruence.
  - exists []. now rewrite app_nil_r.
Qed.
Lemma orep_past t self l o d w : orep t self l o d w -> orep t self l o d (past_slot w).
Proof.
  intros R. eapply orep_agree; eauto. intros b _. apply past_slot_get.
Qed.

(** One argument. *)
Lemma v_push_item_wp t self l o d w i S : pushable t i -> orep t self l o d w -> brings t i S w -> good t (d_value S) ->
  can_align t o (vsize t (d_value S)) (valign t (d_value S)) -> apart self (d_fv S) (d_fb S) w ->
  run (v_push_item t self i) w
    (fun _ w' => exists o' d', orep t self (l ++ [d_value S]) o' d' w' /\ touch self (d_fv S) (d_fb S) w w' /\
       w_drops w' = w_drops w ++ d_extra S /\ d_after S Delivered w' /\ o_al t o <= o_al t o')
    (fun r w' => repr t self l w' /\ touch self (d_fv S) (d_fb S) w w' /\
       (no_room r /\ w_drops w' = w_drops w ++ refused_drops i /\ d_after S Refused w' \/ d_panic S r \/ r = PDrop /\ drop_panicked w w'))
    (fun w' => alloc_failed w w' \/ drop_panicked w w').
Proof.
  intros Nz R B G Ca Ap. destruct i as [x|e|s a m x]; cbn [brings v_push_item refused_drops pushable] in *.
  - subst S. assert (Ev : d_value (value_deal t x) = x) by now destruct x. rewrite Ev in *. cbn [value_deal d_fv d_fb d_extra d_after d_panic] in *.
    eapply run_conseq; [eapply v_push_wp; eauto|..]; cbv beta; auto.
    + intros _ w' (o1 & o2 & d1 & w2 & R1 & [F D] & _ & _ & Al & _ & Al2 & _). exists o1, d1. rewrite app_nil_r. ands; auto.
      * now apply touch_frame.
      * rewrite Al, Al2. apply req_al_ge.
    + intros r w' (R' & F & D & _ & Rr). ands; auto using touch_frame.
  - destruct B as [Em Fi]. eapply run_conseq; [eapply v_push_with_wp; eauto using nzst_or|..]; cbv beta.
    + intros _ w' (o1 & d1 & R1 & T1 & D1 & A1 & Al & _). exists o1, d1. ands; auto. rewrite Al. apply req_al_ge.
    + intros r w' (R' & T & H). ands; auto. rewrite app_nil_r. destruct H as [(_ & Rr & D & A)|[P|[-> [_ P]]]]; auto using reserve_no_room.
    + intros w' [A|[_ A]]; auto.
  - destruct B as (-> & U & W & Gx). assert (Ev : d_value (value_deal t (Value m (v_bytes x))) = Value m (v_bytes x)) by reflexivity. rewrite Ev in *.
    cbn [value_deal d_fv d_fb d_extra d_after d_panic] in *. unfold v_push_unsize.
    eapply run_eq; [apply unsize_eq; auto using good_wf|]. change (coerce m x) with (Value m (v_bytes x)).
    pose proof (past_slot_touch self w) as T0. pose proof (past_slot_untouched w) as Un.
    eapply run_conseq; [eapply v_push_wp; [apply orep_past|..]; eauto|..]; cbv beta.
    + intros _ w' (o1 & o2 & d1 & w2 & R1 & [F D] & _ & _ & Al & _ & Al2 & _). exists o1, d1. rewrite app_nil_r. ands; auto.
      * eapply touch_trans; [exact Ap|exact T0|now apply touch_frame].
      * rewrite Al, Al2. apply req_al_ge.
    + intros r w' (R' & F & D & _ & Rr). ands; auto. eapply touch_trans; [exact Ap|exact T0|now apply touch_frame].
    + intros w' A. apply (failed_untouched w (past_slot w)); auto.
Qed.

Definition items_panic (t : ty) (self : nat) (l : list value) (is : list item) (Ss : list deal) (w : world) (r : panic_reason) (w' : world) : Prop :=
  exists is1 i is2 Ss1 S Ss2, is = is1 ++ i :: is2 /\ Ss = Ss1 ++ S :: Ss2 /\ length is1 = length Ss1 /\ repr t self (l ++ map d_value Ss1) w' /\
    touch self (fvs Ss) (fbs Ss) w w' /\ all_after Delivered Ss1 w' /\ agree (fvs Ss2) (fbs Ss2) w w' /\
    (no_room r /\ d_after S Refused w' /\ w_drops w' = w_drops w ++ all_extra Ss1 ++ refused_drops i \/
     d_panic S r \/ r = PDrop /\ drop_panicked w w').

Theorem v_push_items_wp t self is : Forall (pushable t) is ->
  forall Ss l o d w, orep t self l o d w -> arguments t (o_al t o) is Ss w -> apart self (fvs Ss) (fbs Ss) w ->
  run (v_push_items t self is) w
    (fun _ w' => repr t self (l ++ map d_value Ss) w' /\ touch self (fvs Ss) (fbs Ss) w w' /\
       w_drops w' = w_drops w ++ all_extra Ss /\ all_after Delivered Ss w')
    (items_panic t self l is Ss w)
    (fun w' => alloc_failed w w' \/ drop_panicked w w').
Proof.
  intros Nz. induction Nz as [|i is Nz Nzs IH]; intros Ss l o d w R Ar Ap.
  - destruct Ar as [F2 _]. inversion F2; subst. cbn [v_push_items map fvs fbs flat_map all_extra]. apply run_ret.
    rewrite !app_nil_r. ands. eapply orep_repr; eauto. apply touch_refl. reflexivity. constructor.
  - destruct Ss as [|S Ss]; [destruct Ar as [F2 _]; inversion F2|].
    apply arguments_cons in Ar as (Br & Sta & Ind & G & Ka & Ar). pose proof (indep_fvs _ _ Ind) as [Iv Ib].
    change (fvs (S :: Ss)) with (d_fv S ++ fvs Ss) in *. change (fbs (S :: Ss)) with (d_fb S ++ fbs Ss) in *.
    pose proof Ap as Ap0. apply apart_app in Ap as [ApS ApR].
    cbn [v_push_items]. apply run_bind.
    assert (Ind2 : (forall j, In j (fvs Ss) -> ~ In j (d_fv S)) /\ (forall b, In b (fbs Ss) -> ~ In b (d_fb S))).
    { split; intros j A B; [eapply Iv|eapply Ib]; eauto. }
    eapply run_conseq; [eapply v_push_item_wp; eauto|..]; cbv beta.
    + intros K. destruct (Ka K); auto.
    + intros _ w1 (o1 & d1 & R1 & T1 & D1 & A1 & Al1).
      assert (Ap1 : apart self (d_fv S ++ fvs Ss) (d_fb S ++ fbs Ss) w1) by (eapply touch_apart; [apply touch_l; exact T1|auto]).
      apply apart_app in Ap1 as [ApS1 ApR1].
      assert (Ag1 : agree (fvs Ss) (fbs Ss) w w1) by (eapply touch_agree; [exact T1|exact ApR|apply Ind2|apply Ind2]).
      eapply run_conseq; [eapply (IH Ss (l ++ [d_value S]) o1 d1 w1); eauto|..]; cbv beta.
      * eapply arguments_agree; eauto.
      * intros _ w2 (R2 & T2 & D2 & A2). rewrite <- app_assoc in R2. ands; auto.
        -- eapply touch_trans; [exact Ap0|apply touch_l; exact T1|apply touch_r; exact T2].
        -- rewrite D2, D1, <- app_assoc. reflexivity.
        -- constructor; auto. eapply Sta; [|exact A1]. eapply touch_agree; [exact T2|exact ApS1|apply Iv|apply Ib].
      * intros r w2 (is1 & i' & is2 & Ss1 & S' & Ss2 & -> & -> & El & R2 & T2 & Ad & An & H). exists (i :: is1), i', is2, (S :: Ss1), S', Ss2. rewrite <- app_assoc in R2.
        ands; auto.
        -- cbn [length]. lia.
        -- eapply touch_trans; [exact Ap0|apply touch_l; exact T1|apply touch_r; exact T2].
        -- constructor; auto. eapply Sta; [|exact A1]. eapply touch_agree; [exact T2|exact ApS1|apply Iv|apply Ib].
        -- eapply agree_trans; [|exact An]. eapply agree_mono; [| |exact Ag1]; rewrite ?fvs_app, ?fbs_app; apply incl_appr, incl_appr, incl_refl.
        -- destruct H as [(Rr & Ar' & D)|[P|[-> P]]]; auto.
           ++ left. ands; auto. change (all_extra (S :: Ss1)) with (d_extra S ++ all_extra Ss1). now rewrite D, D1, <- !app_assoc.
           ++ right; right. split; auto. eapply drop_panicked_from; [|exact P]. eapply touch_drops_le; eauto.
      * intros w2 [A|A]. { left. eapply alloc_failed_l; [|exact A]. apply T1. }
        right. eapply drop_panicked_from; [|exact A]. eapply touch_drops_le; eauto.
    + intros r w1 (R1 & T1 & H). exists [], i, is, [], S, Ss. cbn [map app all_extra flat_map length]. rewrite app_nil_r. ands; auto.
      * now apply touch_l.
      * constructor.
      * eapply touch_agree; [exact T1|exact ApR|apply Ind2|apply Ind2].
      * destruct H as [(Rr & D & A)|[P|P]]; auto.
    + auto.
Qed.

(** The vector has the values of all arguments, in order. On a panic the vector is gone with all memory it had; of the arguments,
    those before the failing one have been delivered and their values dropped in order, those after it are as they were. *)
Theorem C62_macro_partial t is Ss w : wf_ty t -> Forall (pushable t) is -> arguments t 8 is Ss w -> (forall j, In j (fvs Ss) -> (j < length (w_vecs w))%nat) ->
  run (v_of_items t is) w
    (fun v w' => holds_list t v (map d_value Ss) w' /\ newvec v (fvs Ss) (fbs Ss) w w' /\
       w_drops w' = w_drops w ++ all_extra Ss /\ all_after Delivered Ss w')
    (fun r w' => vanished (length (w_vecs w)) w w' /\ newvec (length (w_vecs w)) (fvs Ss) (fbs Ss) w w' /\
       exists is1 i is2 Ss1 S Ss2, is = is1 ++ i :: is2 /\ Ss = Ss1 ++ S :: Ss2 /\ length is1 = length Ss1 /\
         all_after Delivered Ss1 w' /\ agree (fvs Ss2) (fbs Ss2) w w' /\
         (no_room r /\ d_after S Refused w' /\ w_drops w' = w_drops w ++ all_extra Ss1 ++ refused_drops i ++ map d_value Ss1 \/
          d_panic S r \/ r = PDrop /\ drop_panicked w w'))
    (fun w' => alloc_failed w w' \/ drop_panicked w w').
Proof.
  intros W Nz Ar Fv. unfold v_of_items. unfold run at 1. erewrite bind_eq by apply v_new_eq.
  set (w1 := set_vecs (w_vecs w ++ [new_o t false]) w). set (v := length (w_vecs w)).
  pose proof (new_orep t false w W) as R. fold w1 v in R.
  assert (N : newvec v (fvs Ss) (fbs Ss) w w1). { apply new_newvec. right. apply new_o_raw. }
  assert (Ob : forall b, In b (fbs Ss) -> (b < length (w_heap w))%nat).
  { intros b I. apply in_flat_map in I as (S & IS & IB). destruct Ar as (_ & _ & _ & Ob & _). rewrite Forall_forall in Ob. eauto. }
  assert (Ap : apart v (fvs Ss) (fbs Ss) w1) by (eapply newvec_apart; eauto).
  assert (Ag : agree (fvs Ss) (fbs Ss) w w1).
  { split; [|split; [auto|unfold w1; proj; lia]]. intros j I. unfold w1. proj. apply nth_error_app1. auto. }
  apply (run_bind (on_unwind (v_push_items t v is) (v_drop t v)) (fun _ => ret v)). apply run_on_unwind.
  assert (Ar1 : arguments t (o_al t (new_o t false)) is Ss w1).
  { assert (X : arguments t 8 is Ss w1) by (eapply arguments_agree; eauto; lia). clear -X. unfold new_o, o_al.
    destruct (kind_of t) eqn:K; cbn; auto; destruct X as (A & B & D & E & G); unfold arguments; ands; auto;
      (eapply Forall_impl; [|exact G]; cbv beta; intros S (H & _); split; auto; congruence). }
  eapply run_conseq; [eapply (v_push_items_wp t v is Nz Ss [] _ _ w1 R Ar1 Ap)|..]; cbv beta.
  - intros [] w2 (R2 & T2 & D2 & A2). apply run_ret. ands; auto using repr_holds. eapply newvec_touch; eauto.
  - intros r w2 (is1 & i & is2 & Ss1 & S & Ss2 & Ei & Es & El & R2 & T2 & A & B & H). cbn [app] in R2.
    assert (Sta : Forall stable Ss) by apply Ar. pose proof R2 as R2'. apply repr_orep in R2' as (o2 & d2 & R2').
    assert (N2 : newvec v (fvs Ss) (fbs Ss) w w2) by (eapply newvec_touch; eauto).
    assert (Ap2 : apart v (fvs Ss) (fbs Ss) w2) by (eapply touch_apart; eauto).
    assert (Dle : (length (w_drops w) <= length (w_drops w2))%nat) by (apply touch_drops_le in T2; exact T2).
    eapply run_conseq; [eapply v_drop_wp; eauto|..]; cbv beta.
    + intros [] w3 ->. set (m := map d_value Ss1) in *. assert (N3 : newvec v (fvs Ss) (fbs Ss) w (dropped_world v (o_ptr o2) m w2)).
      { eapply newvec_touch; eauto. eapply dropped_touch; eauto. }
      assert (Ag3 : agree (fvs Ss) (fbs Ss) w2 (dropped_world v (o_ptr o2) m w2)).
      { eapply frame_agree; eauto. eapply dropped_frame; eauto. }
      split; [eapply vanished_dropped; eauto|]. split; [exact N3|].
      exists is1, i, is2, Ss1, S, Ss2. rewrite Es, fvs_app, fbs_app in Ag3. rewrite Es in Sta. apply Forall_app in Sta as [St1 St2].
      inversion_clear St2 as [|? ? StS St3]. ands; auto.
      * eapply all_after_agree; [exact St1| |exact A]. eapply agree_mono; [| |exact Ag3]; apply incl_appl, incl_refl.
      * eapply agree_trans; [eapply agree_mono; [| |exact Ag]; rewrite Es, ?fvs_app, ?fbs_app; apply incl_appr, incl_appr, incl_refl|].
        eapply agree_trans; [exact B|]. eapply agree_mono; [| |exact Ag3]; apply incl_appr, incl_appr, incl_refl.
      * destruct H as [(Rr & Ar' & D)|[P|[-> P]]]; auto.
        -- left. ands; auto. { eapply StS; [|exact Ar']. eapply agree_mono; [| |exact Ag3]; apply incl_appr, incl_appl, incl_refl. }
           unfold dropped_world. proj. rewrite D. unfold w1. proj. now rewrite <- !app_assoc.
        -- right; right. split; auto. destruct P as (n & Hn & P). exists n. split; auto.
           unfold dropped_world, w1 in *. proj. change (w_drops (set_vecs (w_vecs w ++ [new_o t false]) w)) with (w_drops w) in Hn.
           rewrite app_length. lia.
    + intros _ w3 (_ & P & _). right. eapply drop_panicked_from; eauto.
    + intros w3 (_ & P). right. eapply drop_panicked_from; eauto.
  - auto.
Qed.
End WithConfig.

Print Assumptions C62_macro_partial.

(** ** Concrete cases *)
Section Cases.
Local Existing Instance cfg_release.

(** A value, an emplacable and a coerced [u32] in one vector of trait objects. *)
Definition three : list item := [IValue (word 1); IEmplacable (emplacable_of_value TDyn (five 2)); ICoerce 4 4 (MVt 2 4 4) (u32 3)].
Example C62_case : arguments TDyn 8 three (map (value_deal TDyn) [word 1; five 2; half 3]) empty_world /\ exists v w,
  v_of_items TDyn three empty_world = (Ok v, w) /\ shows TDyn v [word 1; five 2; half 3] w /\ w_drops w = [].
Proof.
  split.
  - unfold arguments, three. cbn [map]. ands.
    + constructor; [reflexivity|]. constructor.
      * split; [apply value_emits|apply fits_self; [apply goodb_ok; reflexivity|discriminate]].
      * constructor; [|constructor]. cbn [brings]. split; [reflexivity|]. split; [split; reflexivity|]. split; [exact wf_u32|apply goodb_ok; reflexivity].
    + repeat constructor; intros ? [].
    + repeat constructor; apply value_stable.
    + repeat constructor; intros ? [].
    + repeat constructor; try (apply goodb_ok; reflexivity); left; reflexivity.
  - do 2 eexists. split; [run|]. split; run.
Qed.
(** Without the guard on alignment: [unsize_vec![[0_u128; 0], 1_u64]] behind [dyn]. *)
Theorem C62_macro_refuted : exists v w w',
  v_of_items TDyn [ICoerce 0 16 (MVt 5 0 16) (Value MUnit []); ICoerce 8 8 (MVt 1 8 8) (Value MUnit (map Byte (repeat 1 8)))] empty_world = (Ok v, w) /\
  v_index TDyn v 0 w = (UB UbRef, w').
Proof. do 3 eexists. split; [run|]. run. Qed.
(** Without the guard on zero-sized types: [unsized_vec![()]] panics. *)
Theorem C62_zst_refuted : exists w, v_of_items (TSized 0 1) [IValue (Value MUnit [])] empty_world = (Panic PDivZero, w).
Proof. eexists. run. Qed.
End Cases.

Print Assumptions C62_macro_refuted.
Print Assumptions C62_zst_refuted.
