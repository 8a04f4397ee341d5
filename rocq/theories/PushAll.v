(** [extend], [collect]: pushing the values of a sequence of emplacables. *)
From Coq Require Import ZArith List Bool Lia.
From Verif Require Import Types World ValidSize Emplace SizedVec AlignedVec UnalignedVec Api Spec Bytes Arith Wp Mem Repr
  Access Reserve Realign Orep Push Deal PushWith Shell Insert Take Pop Box Iter Calls DropVec Family Build.
Import ListNotations.
Open Scope Z_scope.
Open Scope m_scope.

Section WithConfig.
Context {C : Config}.

Definition joins (t : ty) (al : Z) (Ss : list deal) : Prop :=
  Forall (fun S => good t (d_value S) /\ fits t (d_lay S) (d_value S) /\
                   (kind_of t = KUnaligned -> 0 < vsize t (d_value S) \/ valign t (d_value S) <= al)) Ss.
Lemma joins_mono t al al' Ss : joins t al Ss -> al <= al' -> joins t al' Ss.
Proof. intros H L. eapply Forall_impl; [|exact H]. cbv beta. intros S (G & F & K). ands; auto. intros Q. destruct (K Q); [auto|right; lia]. Qed.

Definition all_extra (Ss : list deal) : list value := flat_map d_extra Ss.

Lemma apart_app self S Ss w : apart self (d_fv S ++ fvs Ss) (d_fb S ++ fbs Ss) w ->
  apart self (d_fv S) (d_fb S) w /\ apart self (fvs Ss) (fbs Ss) w.
Proof.
  intros (A & B & D). split; (split; [|split]).
  - intros X; apply A, in_or_app; auto.
  - intros b X; apply B, in_or_app; auto.
  - intros b O X; eapply D; eauto. apply in_or_app; auto.
  - intros X; apply A, in_or_app; auto.
  - intros b X; apply B, in_or_app; auto.
  - intros b O X; eapply D; eauto. apply in_or_app; auto.
Qed.
Lemma touch_l self S Ss w w' : touch self (d_fv S) (d_fb S) w w' -> touch self (d_fv S ++ fvs Ss) (d_fb S ++ fbs Ss) w w'.
Proof. apply touch_mono; apply incl_appl, incl_refl. Qed.
Lemma touch_r self S Ss w w' : touch self (fvs Ss) (fbs Ss) w w' -> touch self (d_fv S ++ fvs Ss) (d_fb S ++ fbs Ss) w w'.
Proof. apply touch_mono; apply incl_appr, incl_refl. Qed.
Lemma within_r S Ss w w' : within (fvs Ss) (fbs Ss) w w' -> within (d_fv S ++ fvs Ss) (d_fb S ++ fbs Ss) w w'.
Proof. apply within_mono; apply incl_appr, incl_refl. Qed.

(** A destructor panicked while unwinding from a destructor panic or a panicking producer. *)
Definition all_aborted (Ss : list deal) (w w' : world) : Prop :=
  Exists (fun S => d_extra S <> [] \/ d_nulls S <> [] \/ exists r, d_panic S r) Ss /\ drop_panicked w w'.
Lemma all_aborted_cons S Ss w w' : all_aborted Ss w w' -> all_aborted (S :: Ss) w w'.
Proof. intros [E D]. split; auto. Qed.
Lemma all_aborted_from Ss w w1 w' : (length (w_drops w) <= length (w_drops w1))%nat -> all_aborted Ss w1 w' -> all_aborted Ss w w'.
Proof. intros L [E D]. split; auto. eapply drop_panicked_from; eauto. Qed.
Lemma all_aborted_one S Ss w w' : aborted S w w' -> all_aborted (S :: Ss) w w'.
Proof. intros [E D]. split; auto. constructor. tauto. Qed.
Lemma all_panicked Ss w w' : one_panicked (all_nulls Ss) w w' -> all_aborted Ss w w'.
Proof.
  intros [N D]. split; auto. clear D. induction Ss as [|S Ss IH]; [now destruct N|].
  unfold all_nulls in *. cbn [flat_map] in N. destruct (d_nulls S) eqn:E; [right; auto|left]. right; left. congruence.
Qed.

Definition push_all_panic (t : ty) (self : nat) (l : list value) (Ss : list deal) (w : world) (r : panic_reason) (w' : world) : Prop :=
  exists Ss1 S Ss2, Ss = Ss1 ++ S :: Ss2 /\ repr t self (l ++ map d_value Ss1) w' /\
    touch self (fvs Ss) (fbs Ss) w w' /\ all_after Delivered Ss1 w' /\ all_after Dropped Ss2 w' /\
    (reserve_reason r /\ d_after S Refused w' /\ w_drops w' = w_drops w ++ all_extra Ss1 ++ all_nulls Ss2 \/
     d_panic S r \/ r = PDrop /\ one_panicked (d_extra S) w w').

Lemma touch_drops_le self fv fb w w' : touch self fv fb w w' -> (length (w_drops w) <= length (w_drops w'))%nat.
Proof. intros T. destruct (to_drops _ _ _ _ _ T) as (d & ->). rewrite app_length. lia. Qed.

Theorem v_push_all_wp t self es : nzst t \/ kind_of t = KSized ->
  forall Ss l o d w, orep t self l o d w -> family es Ss w -> apart self (fvs Ss) (fbs Ss) w -> joins t (o_al t o) Ss ->
  run (v_push_all t self es) w
    (fun _ w' => repr t self (l ++ map d_value Ss) w' /\ touch self (fvs Ss) (fbs Ss) w w' /\
       w_drops w' = w_drops w ++ all_extra Ss /\ all_after Delivered Ss w')
    (push_all_panic t self l Ss w)
    (fun w' => alloc_failed w w' \/ all_aborted Ss w w').
Proof.
  intros Nz. induction es as [|e es IH]; intros Ss l o d w R Fa Ap J.
  - destruct Fa as [F2 _]. inversion F2; subst. cbn [v_push_all map fvs fbs flat_map all_extra]. apply run_ret.
    rewrite !app_nil_r. ands. eapply orep_repr; eauto. apply touch_refl. reflexivity. constructor.
  - destruct Ss as [|S Ss]; [destruct Fa as [F2 _]; inversion F2|].
    apply family_cons in Fa as (Em & Fa & Sta & Ind). pose proof (indep_fvs _ _ Ind) as [Iv Ib].
    change (fvs (S :: Ss)) with (d_fv S ++ fvs Ss) in *. change (fbs (S :: Ss)) with (d_fb S ++ fbs Ss) in *.
    pose proof Ap as Ap0. apply apart_app in Ap as [ApS ApR]. inversion_clear J as [|? ? (G & Fi & Ka) J'].
    cbn [v_push_all]. apply run_bind. apply run_on_unwind.
    assert (Ind2 : (forall j, In j (fvs Ss) -> ~ In j (d_fv S)) /\ (forall b, In b (fbs Ss) -> ~ In b (d_fb S))).
    { split; intros j A B; [eapply Iv|eapply Ib]; eauto. }
    eapply run_conseq; [eapply v_push_with_wp; eauto|..]; cbv beta.
    + intros K. destruct (Ka K); auto.
    + intros _ w1 (o1 & d1 & R1 & T1 & D1 & A1 & Al1 & _).
      assert (Ap1 : apart self (d_fv S ++ fvs Ss) (d_fb S ++ fbs Ss) w1) by (eapply touch_apart; [apply touch_l; exact T1|auto]).
      apply apart_app in Ap1 as [ApS1 ApR1].
      eapply run_conseq; [eapply (IH Ss (l ++ [d_value S]) o1 d1 w1); eauto|..]; cbv beta.
      * eapply family_agree; eauto. eapply touch_agree; [exact T1|exact ApR|apply Ind2|apply Ind2].
      * eapply joins_mono; eauto. rewrite Al1. apply req_al_ge.
      * intros _ w2 (R2 & T2 & D2 & A2). rewrite <- app_assoc in R2. ands; auto.
        -- eapply touch_trans; [exact Ap0|apply touch_l; exact T1|apply touch_r; exact T2].
        -- rewrite D2, D1, <- app_assoc. reflexivity.
        -- constructor; auto. eapply Sta; [|exact A1]. eapply touch_agree; [exact T2|exact ApS1|apply Iv|apply Ib].
      * intros r w2 (Ss1 & S' & Ss2 & -> & R2 & T2 & Ad & An & H). exists (S :: Ss1), S', Ss2. rewrite <- app_assoc in R2.
        ands; auto.
        -- eapply touch_trans; [exact Ap0|apply touch_l; exact T1|apply touch_r; exact T2].
        -- constructor; auto. eapply Sta; [|exact A1]. eapply touch_agree; [exact T2|exact ApS1|apply Iv|apply Ib].
        -- destruct H as [(Rr & Ar & D)|[P|[-> P]]]; auto.
           ++ left. ands; auto. change (all_extra (S :: Ss1)) with (d_extra S ++ all_extra Ss1). now rewrite D, D1, <- !app_assoc.
           ++ right; right. split; auto. eapply one_panicked_from; [|exact P]. eapply touch_drops_le; eauto.
      * intros w2 [A|A]. { left. eapply alloc_failed_l; [|exact A]. apply T1. }
        right. apply all_aborted_cons. eapply all_aborted_from; [|exact A]. eapply touch_drops_le; eauto.
    + intros r w1 (R1 & T1 & H).
      assert (Ap1 : apart self (d_fv S ++ fvs Ss) (d_fb S ++ fbs Ss) w1) by (eapply touch_apart; [apply touch_l; exact T1|auto]).
      apply apart_app in Ap1 as [ApS1 ApR1].
      eapply run_conseq; [eapply (emplacables_drop_wp es Ss w1)|..]; cbv beta.
      * eapply family_agree; eauto. eapply touch_agree; [exact T1|exact ApR|apply Ind2|apply Ind2].
      * intros _ w2 (W2 & D2 & A2).
        assert (T2 : touch self (fvs Ss) (fbs Ss) w1 w2) by (apply touch_within; eauto).
        exists [], S, Ss. cbn [map app all_extra flat_map]. rewrite app_nil_r. ands; auto.
        -- eapply repr_within; eauto.
        -- eapply touch_trans; [exact Ap0|apply touch_l; exact T1|apply touch_r; exact T2].
        -- constructor.
        -- destruct H as [(_ & Rr & D & Ar)|[P|[-> P]]]; auto.
           ++ left. ands; auto. eapply Sta; [|exact Ar]. eapply touch_agree; [exact T2|exact ApS1|apply Iv|apply Ib]. now rewrite D2, D.
           ++ right; right. split; auto. destruct P as [N P]. split; auto.
              destruct P as (n & Hn & P). exists n. split; auto. pose proof (touch_drops_le _ _ _ _ _ T2). lia.
      * intros _ w2 (_ & P & _). right. apply all_aborted_cons, all_panicked. eapply one_panicked_from; [|exact P]. eapply touch_drops_le; eauto.
      * intros w2 P. right. apply all_aborted_cons, all_panicked. eapply one_panicked_from; [|exact P]. eapply touch_drops_le; eauto.
    + intros w1 [A|A]; auto. right. now apply all_aborted_one.
Qed.

(** [extend]: reserve for the hint, then push everything. *)
Definition extend_panic (t : ty) (self : nat) (l : list value) (Ss : list deal) (w : world) (r : panic_reason) (w' : world) : Prop :=
  push_all_panic t self l Ss w r w' \/
  reserve_reason r /\ repr t self l w' /\ touch self (fvs Ss) (fbs Ss) w w' /\ all_after Dropped Ss w' /\
  w_drops w' = w_drops w ++ all_nulls Ss.

Theorem v_extend_wp t self hint es Ss l o d w : nzst t -> 0 <= hint -> orep t self l o d w -> family es Ss w ->
  apart self (fvs Ss) (fbs Ss) w -> joins t (o_al t o) Ss ->
  run (v_extend t self hint es) w
    (fun _ w' => repr t self (l ++ map d_value Ss) w' /\ touch self (fvs Ss) (fbs Ss) w w' /\
       w_drops w' = w_drops w ++ all_extra Ss /\ all_after Delivered Ss w')
    (extend_panic t self l Ss w)
    (fun w' => alloc_failed w w' \/ all_aborted Ss w w').
Proof.
  intros Nz Hh R Fa Ap J. unfold v_extend. apply run_bind. apply run_on_unwind.
  change (v_reserve_exact t self hint) with (v_reserve_exact_capacity_bytes_align t self hint 0 1).
  eapply run_conseq; [eapply (v_reserve_exact_cba_wp t self l o d w hint 0 1); eauto using pow2_1; lia|..]; cbv beta.
  - intros _ w1 (o1 & d1 & R1 & Q1 & _ & Al & _).
    assert (Ag : agree (fvs Ss) (fbs Ss) w w1) by (eapply frame_agree; [apply Q1|auto]).
    assert (T1 : touch self (fvs Ss) (fbs Ss) w w1) by (apply touch_frame, Q1).
    eapply run_conseq; [eapply (v_push_all_wp t self es (or_introl Nz) Ss l o1 d1 w1); eauto|..]; cbv beta.
    + eapply family_agree; eauto.
    + eapply frame_apart; [apply Q1|auto].
    + eapply joins_mono; eauto.
    + intros _ w2 (R2 & T2 & D2 & A2). ands; auto. eapply touch_trans; eauto. rewrite D2. now rewrite (proj2 Q1).
    + intros r w2 (Ss1 & S & Ss2 & -> & R2 & T2 & A & B & H). left. exists Ss1, S, Ss2. ands; auto.
      * eapply touch_trans; eauto.
      * rewrite (proj2 Q1) in H. destruct H as [H|[H|[Hr [N H]]]]; auto. right; right. split; auto. split; auto.
        eapply drop_panicked_from; [|exact H]. now rewrite (proj2 Q1).
    + intros w2 [A|[N A]]. { left. eapply alloc_failed_l; [|exact A]. apply T1. }
      right. split; auto. eapply drop_panicked_from; [|exact A]. now rewrite (proj2 Q1).
  - intros r w1 (Rr & e & o1 & d1 & R1 & Q1 & _).
    assert (Ag : agree (fvs Ss) (fbs Ss) w w1) by (eapply frame_agree; [apply Q1|auto]).
    assert (T1 : touch self (fvs Ss) (fbs Ss) w w1) by (apply touch_frame, Q1).
    assert (Ap1 : apart self (fvs Ss) (fbs Ss) w1) by (eapply frame_apart; [apply Q1|auto]).
    eapply run_conseq; [eapply (emplacables_drop_wp es Ss w1); eapply family_agree; eauto|..]; cbv beta.
    + intros _ w2 (W2 & D2 & A2). right. ands; auto.
      * eapply repr_within; eauto. eapply orep_repr; eauto.
      * eapply touch_trans; [exact Ap|exact T1|]. apply touch_within; eauto.
      * now rewrite D2, (proj2 Q1).
    + intros _ w2 (_ & P & _). right. apply all_panicked. eapply one_panicked_from; [|exact P]. now rewrite (proj2 Q1).
    + intros w2 P. right. apply all_panicked. eapply one_panicked_from; [|exact P]. now rewrite (proj2 Q1).
  - auto.
Qed.

(** [collect]: a new vector, dropped again on unwinding. *)
Definition collect_panic (t : ty) (Ss : list deal) (w : world) (r : panic_reason) (w' : world) : Prop :=
  newvec (length (w_vecs w)) (fvs Ss) (fbs Ss) w w' /\ vanished (length (w_vecs w)) w w' /\
  ((exists Ss1 S Ss2, Ss = Ss1 ++ S :: Ss2 /\ all_after Delivered Ss1 w' /\ all_after Dropped Ss2 w' /\
      (reserve_reason r /\ d_after S Refused w' /\
         w_drops w' = w_drops w ++ all_extra Ss1 ++ all_nulls Ss2 ++ map d_value Ss1 \/
       d_panic S r \/ r = PDrop /\ one_panicked (d_extra S) w w')) \/
   reserve_reason r /\ all_after Dropped Ss w' /\ w_drops w' = w_drops w ++ all_nulls Ss).
Lemma dropped_touch t self l o d fv fb w ds : orep t self l o d w -> touch self fv fb w (dropped_world self (o_ptr o) ds w).
Proof. intros R. apply touch_frame. eapply dropped_frame; eauto. Qed.

Lemma repr_fun t self l m w : repr t self l w -> repr t self m w -> l = m.
Proof. intros A B. apply repr_shows in A. apply repr_shows in B. unfold shows in *. congruence. Qed.

Theorem v_from_iter_wp t hint es Ss w : wf_ty t -> nzst t -> 0 <= hint -> family es Ss w ->
  (forall j, In j (fvs Ss) -> (j < length (w_vecs w))%nat) -> joins t 8 Ss ->
  run (v_from_iter t hint es) w
    (fun v w' => repr t v (map d_value Ss) w' /\ newvec v (fvs Ss) (fbs Ss) w w' /\
       w_drops w' = w_drops w ++ all_extra Ss /\ all_after Delivered Ss w')
    (collect_panic t Ss w)
    (fun w' => alloc_failed w w' \/ drop_panicked w w').
Proof.
  intros W Nz Hh Fa Fv J. unfold v_from_iter. unfold run at 1. erewrite bind_eq by apply v_new_eq.
  set (w1 := set_vecs (w_vecs w ++ [new_o t false]) w). set (v := length (w_vecs w)).
  pose proof (new_orep t false w W) as R. fold w1 v in R.
  assert (N : newvec v (fvs Ss) (fbs Ss) w w1). { apply new_newvec. right. apply new_o_raw. }
  assert (Ob : forall b, In b (fbs Ss) -> (b < length (w_heap w))%nat) by (intros b; eapply family_old; eauto).
  assert (Ap : apart v (fvs Ss) (fbs Ss) w1) by (eapply newvec_apart; eauto).
  assert (Ag : agree (fvs Ss) (fbs Ss) w w1).
  { split; [|split; [auto|unfold w1; proj; lia]]. intros j I. unfold w1. proj. apply nth_error_app1. auto. }
  apply (run_bind (on_unwind (v_extend t v hint es) (v_drop t v)) (fun _ => ret v)). apply run_on_unwind.
  eapply run_conseq; [eapply (v_extend_wp t v hint es Ss [] _ _ w1 Nz Hh R); auto|..]; cbv beta.
  - eapply family_agree; eauto.
  - unfold new_o, o_al. destruct (kind_of t) eqn:K; eapply Forall_impl; try exact J; cbv beta; intros S (G & F & H); ands; auto; congruence.
  - intros [] w2 (R2 & T2 & D2 & A2). apply run_ret. ands; auto. eapply newvec_touch; eauto.
  - intros r w2 H.
    assert (Rp : exists m, repr t v m w2 /\ touch v (fvs Ss) (fbs Ss) w1 w2).
    { destruct H as [(Ss1 & S & Ss2 & _ & R2 & T2 & _)|(_ & R2 & T2 & _)]; eauto. }
    assert (Sta : Forall stable Ss) by apply Fa.
    destruct Rp as (m & R2 & T2). pose proof R2 as R2'. apply repr_orep in R2' as (o2 & d2 & R2').
    assert (N2 : newvec v (fvs Ss) (fbs Ss) w w2) by (eapply newvec_touch; eauto).
    assert (Ap2 : apart v (fvs Ss) (fbs Ss) w2) by (eapply touch_apart; eauto).
    assert (Dle : (length (w_drops w) <= length (w_drops w2))%nat) by (apply touch_drops_le in T2; exact T2).
    eapply run_conseq; [eapply v_drop_wp; eauto|..]; cbv beta.
    + intros [] w3 ->. assert (N3 : newvec v (fvs Ss) (fbs Ss) w (dropped_world v (o_ptr o2) m w2)).
      { eapply newvec_touch; eauto. eapply dropped_touch; eauto. }
      assert (Ag3 : agree (fvs Ss) (fbs Ss) w2 (dropped_world v (o_ptr o2) m w2)).
      { eapply frame_agree; eauto. eapply dropped_frame; eauto. }
      split; [exact N3|]. split; [eapply vanished_dropped; eauto|].
      destruct H as [(Ss1 & S & Ss2 & -> & R2x & _ & A & B & H)|(Rr & R2x & _ & A & D)].
      * left. assert (m = map d_value Ss1) as -> by (eapply repr_fun; eauto). rewrite fvs_app, fbs_app in Ag3.
        apply Forall_app in Sta as [St1 St2]. inversion_clear St2 as [|? ? StS St3].
        assert (I1 : incl (fvs Ss1) (fvs Ss1 ++ fvs (S :: Ss2))) by apply incl_appl, incl_refl.
        assert (I2 : incl (fbs Ss1) (fbs Ss1 ++ fbs (S :: Ss2))) by apply incl_appl, incl_refl.
        assert (I3 : incl (fvs Ss2) (fvs Ss1 ++ fvs (S :: Ss2))) by (apply incl_appr, incl_appr, incl_refl).
        assert (I4 : incl (fbs Ss2) (fbs Ss1 ++ fbs (S :: Ss2))) by (apply incl_appr, incl_appr, incl_refl).
        assert (I5 : incl (d_fv S) (fvs Ss1 ++ fvs (S :: Ss2))) by (apply incl_appr, incl_appl, incl_refl).
        assert (I6 : incl (d_fb S) (fbs Ss1 ++ fbs (S :: Ss2))) by (apply incl_appr, incl_appl, incl_refl).
        exists Ss1, S, Ss2. ands; auto.
        -- eapply all_after_agree; [exact St1| |exact A]. eapply agree_mono; eauto.
        -- eapply all_after_agree; [exact St3| |exact B]. eapply agree_mono; eauto.
        -- destruct H as [(Rr & Ar & D)|[P|[-> [Nn P]]]]; auto.
           ++ left. ands; auto. { eapply StS; [|exact Ar]. eapply agree_mono; eauto. }
              unfold dropped_world. proj. rewrite D. unfold w1. proj. now rewrite <- !app_assoc.
           ++ right; right. split; auto. split; auto. destruct P as (n & Hn & P). exists n. split; auto.
              unfold dropped_world, w1 in *. proj. change (w_drops (set_vecs (w_vecs w ++ [new_o t false]) w)) with (w_drops w) in Hn.
              rewrite app_length. lia.
      * right. assert (m = []) as -> by (eapply repr_fun; eauto). ands; auto.
        -- eapply all_after_agree; eauto.
        -- unfold dropped_world. proj. rewrite D. unfold w1. proj. now rewrite app_nil_r.
    + intros _ w3 (_ & P & _). right. eapply drop_panicked_from; eauto.
    + intros w3 (_ & P). right. eapply drop_panicked_from; eauto.
  - intros w2 [A|[_ A]]; auto.
Qed.
End WithConfig.
