(** std's [Vec] extended from emplacables (Convert). *)
From Coq Require Import ZArith List Bool Lia.
From Verif Require Import Types World ValidSize Emplace SizedVec AlignedVec UnalignedVec Api Convert
  Bytes Wp Arith Mem Repr Access Reserve Orep Push Deal Shell Take Box DropVec Family Build PushAll.
Import ListNotations.
Open Scope Z_scope.
Open Scope m_scope.

Section WithConfig.
Context {C : Config}.

Lemma passed_touch self fv fb w w' : passed fv fb w w' -> apart self fv fb w -> (exists ds, w_drops w' = w_drops w ++ ds) ->
  touch self fv fb w w'.
Proof.
  intros [F Ec] (A & B & D) Ds. assert (Eo : owned_block w' self = owned_block w self).
  { unfold owned_block. now rewrite (fs_vecs _ _ _ _ _ F) by auto. }
  constructor; auto; try apply F.
  - intros j _ I. now apply (fs_vecs _ _ _ _ _ F).
  - intros b L _ I. now apply (fs_other _ _ _ _ _ F).
  - intros b O _. congruence.
  - intros b L Lv. pose proof (fs_new _ _ _ _ _ F b L Lv). discriminate.
  - intros b O. left. congruence.
Qed.

(** When std refuses room for [n] more elements. *)
Definition std_over (t : ty) (v : svec) (l : list value) (n : Z) (exact : bool) : Prop :=
  if s_size t =? 0 then usize_max < zlen l + n
  else isize_max - (s_align t - 1) < want_cap (s_size t) (sv_cap v) (zlen l) n exact * s_size t.
Definition std_reason (t : ty) (self : nat) (l : list value) (n : Z) (exact : bool) (w : world) (r : panic_reason) (w' : world) : Prop :=
  r = PCapacity /\ (exists v, nth_error (w_vecs w') self = Some (OS v) /\ std_over t v l n exact) \/
  r = POom /\ cfg_oom_panics = true /\ alloc_failed w w'.

Lemma std_reserve_wp t self l v d w n exact : srep t self l v d w -> 0 <= n ->
  run (r <- s_reserve t self n exact ;; unwrap_try_reserve_result r) w
    (fun _ w' => exists v' d', srep t self l v' d' w' /\ quiet self w w' /\ zlen l + n <= s_capacity t v')
    (fun r w' => std_reason t self l n exact w r w' /\ exists v' d', srep t self l v' d' w' /\ quiet self w w')
    (fun w' => alloc_failed w w').
Proof.
  intros R N. apply run_bind. eapply run_conseq; [eapply s_reserve_wp; eauto|..]; cbv beta; try (intros; contradiction).
  intros r w' (v' & d' & R' & Q & _ & _ & _ & H). destruct r as [|[]]; apply unwrap_wp; cbv beta iota.
  - eauto.
  - destruct H as [-> O]. split; eauto. left. split; auto. exists v. split; [apply R|exact O].
  - destruct H as (_ & F & _). destruct cfg_oom_panics eqn:Eo; auto. split; eauto. right. auto.
Qed.

Lemma std_push_wp t self l v d w x : srep t self l v d w -> good t x ->
  run (std_push t self x) w
    (fun _ w' => exists v' d', srep t self (l ++ [x]) v' d' w' /\ quiet self w w')
    (fun r w' => std_reason t self l 1 false w r w' /\ repr t self l w' /\ frame self w w' /\ w_drops w' = w_drops w ++ [x])
    (fun w' => alloc_failed w w' \/ drop_panicked w w').
Proof.
  intros R G. unfold std_push. apply run_bind. unfold owned at 1. apply run_on_unwind.
  eapply run_conseq; [eapply std_reserve_wp; eauto; lia|..]; cbv beta; auto.
  - intros _ w1 (v1 & d1 & R1 & Q1 & L). pose proof (sr_kind _ _ _ _ _ _ R1) as K.
    destruct (p_push_unchecked_eq t self l (OS v1) d1 w1 x R1 G) as (d2 & w2 & E & R2 & Q2 & _); ocbn; auto.
    + lia.
    + unfold o_blen; ocbn. rewrite plen_sized by (auto; apply R1). rewrite (vsize_sized t x K G). unfold s_capacity in L.
      pose proof (s_size_nonneg t K (sr_wf _ _ _ _ _ _ R1)). destruct (Z.eqb_spec (s_size t) 0) as [->|]; nia.
    + intros E. congruence.
    + unfold run. assert (Es : s_push_unchecked t self x w1 = (Ok tt, w2)).
      { unfold p_push_unchecked in E. rewrite K in E. exact E. }
      rewrite Es. exists (SVec (sv_ptr v1) (sv_cap v1) (sv_len v1 + 1)), d2. split; [exact R2|]. eapply quiet_trans; eauto.
  - intros r w1 (Rs & v1 & d1 & R1 & Q1). unfold run, drop_value.
    assert (Ed : w_drops (set_drops (w_drops w1 ++ [x]) w1) = w_drops w ++ [x]).
    { destruct Q1 as [_ D]. cbn [set_drops w_drops]. now rewrite D. }
    destruct (cfg_drop_panics (length (w_drops w1))) eqn:P.
    + right. exists (length (w_drops w1)). split; auto. rewrite Ed, (proj2 Q1), app_length. cbn [length]. lia.
    + ands; auto.
      * apply repr_drops. exact (orep_repr t self l (OS v1) d1 w1 R1).
      * eapply frame_trans; [apply Q1|]. apply frame_set_drops.
Qed.

(** The loop. If it stops early the vector holds the values so far and the remaining emplacables are dropped. *)
Definition std_panic (t : ty) (self : nat) (l : list value) (Ss : list deal) (w : world) (r : panic_reason) (w' : world) : Prop :=
  exists Ss1 S Ss2, Ss = Ss1 ++ S :: Ss2 /\ repr t self (l ++ map d_value Ss1) w' /\
    touch self (fvs Ss) (fbs Ss) w w' /\ all_after Delivered Ss1 w' /\ all_after Dropped Ss2 w' /\
    (std_reason t self (l ++ map d_value Ss1) 1 false w r w' /\ d_after S Delivered w' /\
       w_drops w' = w_drops w ++ all_extra (Ss1 ++ [S]) ++ [d_value S] ++ all_nulls Ss2 \/
     d_panic S r \/ r = PDrop /\ one_panicked (d_extra S) w w').
Definition std_abort (w w' : world) : Prop := alloc_failed w w' \/ drop_panicked w w'.

Lemma std_reason_from t self l n e w w1 r w' : (w_nalloc w <= w_nalloc w1)%nat -> std_reason t self l n e w1 r w' ->
  std_reason t self l n e w r w'.
Proof. intros L [H|(A & B & D)]; [left; auto|right]. ands; auto. eapply alloc_failed_l; eauto. Qed.
Lemma std_reason_to t self l n e w r w1 w' : nth_error (w_vecs w') self = nth_error (w_vecs w1) self ->
  (w_nalloc w1 <= w_nalloc w')%nat -> std_reason t self l n e w r w1 -> std_reason t self l n e w r w'.
Proof.
  intros E L [(A & v & B & D)|(A & B & D)]; [left|right]; ands; auto. { exists v. split; auto. congruence. }
  destruct D as (k & Hk & D). exists k. split; auto. lia.
Qed.

Theorem std_push_all_wp t self es :
  forall Ss l v d w, srep t self l v d w -> family es Ss w -> apart self (fvs Ss) (fbs Ss) w -> Forall (fun S => good t (d_value S)) Ss ->
  run (std_push_all t self es) w
    (fun _ w' => repr t self (l ++ map d_value Ss) w' /\ touch self (fvs Ss) (fbs Ss) w w' /\
       w_drops w' = w_drops w ++ all_extra Ss /\ all_after Delivered Ss w')
    (std_panic t self l Ss w) (std_abort w).
Proof.
  induction es as [|e es IH]; intros Ss l v d w R Fa Ap J.
  - destruct Fa as [F2 _]. inversion F2; subst. cbn [std_push_all map fvs fbs flat_map all_extra]. apply run_ret.
    rewrite !app_nil_r. ands. exact (orep_repr t self l (OS v) d w R). apply touch_refl. reflexivity. constructor.
  - destruct Ss as [|S Ss]; [destruct Fa as [F2 _]; inversion F2|].
    apply family_cons in Fa as (Em & Fa & Sta & Ind). pose proof (indep_fvs _ _ Ind) as [Iv Ib].
    change (fvs (S :: Ss)) with (d_fv S ++ fvs Ss) in *. change (fbs (S :: Ss)) with (d_fb S ++ fbs Ss) in *.
    pose proof Ap as Ap0. apply apart_app in Ap as [ApS ApR]. inversion_clear J as [|? ? G J'].
    cbn [std_push_all]. apply run_bind. apply run_on_unwind.
    assert (Ind2 : (forall j, In j (fvs Ss) -> ~ In j (d_fv S)) /\ (forall b, In b (fbs Ss) -> ~ In b (d_fb S))).
    { split; intros j A B; [eapply Iv|eapply Ib]; eauto. }
    assert (Mu : d_meta S = MUnit).
    { pose proof (sr_kind _ _ _ _ _ _ R) as K. destruct G as [[(_ & _ & Hm) _] _]. unfold d_value in Hm. cbn [v_meta] in Hm.
      destruct t; try discriminate K. destruct (d_meta S); tauto. }
    (* dropping what is left *)
    assert (DR : forall w1 r (l1 := l), repr t self l w1 -> touch self (d_fv S) (d_fb S) w w1 ->
       (std_reason t self l 1 false w r w1 /\ d_after S Delivered w1 /\ w_drops w1 = w_drops w ++ d_extra S ++ [d_value S] \/
        d_panic S r \/ r = PDrop /\ one_panicked (d_extra S) w w1) ->
       run (emplacables_drop es) w1 (fun _ w2 => std_panic t self l (S :: Ss) w r w2) (fun _ w2 => std_abort w w2) (std_abort w)).
    { intros w1 r _ R1 T1 H.
      assert (Ap1 : apart self (d_fv S ++ fvs Ss) (d_fb S ++ fbs Ss) w1) by (eapply touch_apart; [apply touch_l; exact T1|auto]).
      apply apart_app in Ap1 as [ApS1 ApR1].
      eapply run_conseq; [eapply (emplacables_drop_wp es Ss w1)|..]; cbv beta.
      * eapply family_agree; eauto. eapply touch_agree; [exact T1|exact ApR|apply Ind2|apply Ind2].
      * intros _ w2 (W2 & D2 & A2).
        assert (T2 : touch self (fvs Ss) (fbs Ss) w1 w2) by (apply touch_within; eauto).
        exists [], S, Ss. cbn [map app all_extra flat_map]. rewrite !app_nil_r. ands; auto.
        -- eapply repr_within; eauto.
        -- eapply touch_trans; [exact Ap0|apply touch_l; exact T1|apply touch_r; exact T2].
        -- constructor.
        -- destruct H as [(Rr & Ar & D)|[P|[-> P]]]; auto.
           ++ left. ands; auto.
              ** eapply std_reason_to; [| |exact Rr]. apply W2. apply ApR1. apply T2.
              ** eapply Sta; [|exact Ar]. eapply touch_agree; [exact T2|exact ApS1|apply Iv|apply Ib].
              ** now rewrite D2, D, <- !app_assoc.
           ++ right; right. split; auto. destruct P as [N P]. split; auto.
              destruct P as (n & Hn & P). exists n. split; auto. pose proof (touch_drops_le _ _ _ _ _ T2). lia.
      * intros _ w2 (_ & P & _). right. destruct P as [_ P]. eapply drop_panicked_from; [|exact P]. eapply touch_drops_le; eauto.
      * intros w2 P. right. destruct P as [_ P]. eapply drop_panicked_from; [|exact P]. eapply touch_drops_le; eauto. }
    apply run_bind. eapply run_conseq; [eapply emplacable_get_at; eauto; apply G|..]; cbv beta.
    + intros x w1 (-> & P1 & D1 & A1).
      assert (T1 : touch self (d_fv S) (d_fb S) w w1) by (apply passed_touch; eauto).
      assert (R1 : srep t self l v d w1) by exact (orep_fresh t self l (OS v) d _ _ _ _ _ (proj1 P1) R ApS).
      eapply run_conseq; [eapply std_push_wp; eauto|..]; cbv beta.
      * intros _ w2 (v2 & d2 & R2 & Q2).
        assert (ApS1 : apart self (d_fv S) (d_fb S) w1) by (eapply touch_apart; eauto).
        assert (Aq : agree (d_fv S) (d_fb S) w1 w2) by (eapply frame_agree; [apply Q2|auto]).
        assert (T2 : touch self (d_fv S) (d_fb S) w w2) by (eapply touch_trans; eauto; apply touch_frame, Q2).
        assert (Ap2 : apart self (d_fv S ++ fvs Ss) (d_fb S ++ fbs Ss) w2) by (eapply touch_apart; [apply touch_l; exact T2|auto]).
        apply apart_app in Ap2 as [ApS2 ApR2].
        assert (D2 : w_drops w2 = w_drops w ++ d_extra S) by now rewrite (proj2 Q2).
        assert (A2 : d_after S Delivered w2) by (eapply Sta; eauto).
        eapply run_conseq; [eapply (IH Ss (l ++ [d_value S]) v2 d2 w2); eauto|..]; cbv beta.
        -- eapply family_agree; eauto. eapply touch_agree; [exact T2|exact ApR|apply Ind2|apply Ind2].
        -- intros _ w3 (R3 & T3 & D3 & A3). rewrite <- app_assoc in R3. ands; auto.
           ++ eapply touch_trans; [exact Ap0|apply touch_l; exact T2|apply touch_r; exact T3].
           ++ rewrite D3, D2, <- app_assoc. reflexivity.
           ++ constructor; auto. eapply Sta; [|exact A2]. eapply touch_agree; [exact T3|exact ApS2|apply Iv|apply Ib].
        -- intros r w3 (Ss1 & S' & Ss2 & -> & R3 & T3 & Ad & An & H). exists (S :: Ss1), S', Ss2. rewrite <- app_assoc in R3.
           ands; auto.
           ++ eapply touch_trans; [exact Ap0|apply touch_l; exact T2|apply touch_r; exact T3].
           ++ constructor; auto. eapply Sta; [|exact A2]. eapply touch_agree; [exact T3|exact ApS2|apply Iv|apply Ib].
           ++ destruct H as [(Rr & Ar & D)|[P|[-> P]]]; auto.
              ** left. rewrite <- app_assoc in Rr. ands; auto.
                 { eapply std_reason_from; [|exact Rr]. apply T2. }
                 cbn [app]. change (all_extra (S :: Ss1 ++ [S'])) with (d_extra S ++ all_extra (Ss1 ++ [S'])).
                 now rewrite D, D2, <- !app_assoc.
              ** right; right. split; auto. eapply one_panicked_from; [|exact P]. eapply touch_drops_le; eauto.
        -- intros w3 [A|A]; [left|right]. { eapply alloc_failed_l; [|exact A]. apply T2. }
           eapply drop_panicked_from; [|exact A]. eapply touch_drops_le; eauto.
      * intros r w2 (Rr & R2 & F2 & D2). apply DR; auto.
        -- eapply touch_trans; eauto. now apply touch_frame.
        -- left. ands.
           ++ eapply std_reason_from; [|exact Rr]. apply T1.
           ++ eapply Sta; [|exact A1]. eapply frame_agree; eauto. eapply touch_apart; eauto.
           ++ now rewrite D2, D1, <- app_assoc.
      * intros w2 [A|A]; [left|right]. { eapply alloc_failed_l; [|exact A]. apply T1. }
        eapply drop_panicked_from; [|exact A]. eapply touch_drops_le; eauto.
    + intros r w1 (P & P1 & ds & D1). apply DR.
      * exact (orep_repr t self l (OS v) d w1 (orep_fresh t self l (OS v) d _ _ _ _ _ (proj1 P1) R ApS)).
      * apply passed_touch; eauto.
      * auto.
    + intros w1 (_ & A). right. exact A.
Qed.

(** [extend]: reserve exactly for the hint, then the loop. *)
Definition std_extend_panic (t : ty) (self : nat) (l : list value) (hint : Z) (Ss : list deal) (w : world) (r : panic_reason) (w' : world) : Prop :=
  std_panic t self l Ss w r w' \/
  std_reason t self l hint true w r w' /\ repr t self l w' /\ touch self (fvs Ss) (fbs Ss) w w' /\ all_after Dropped Ss w' /\
  w_drops w' = w_drops w ++ all_nulls Ss.
Theorem std_extend_wp t self hint es Ss l v d w : 0 <= hint -> srep t self l v d w -> family es Ss w ->
  apart self (fvs Ss) (fbs Ss) w -> Forall (fun S => good t (d_value S)) Ss ->
  run (std_extend t self hint es) w
    (fun _ w' => repr t self (l ++ map d_value Ss) w' /\ touch self (fvs Ss) (fbs Ss) w w' /\
       w_drops w' = w_drops w ++ all_extra Ss /\ all_after Delivered Ss w')
    (std_extend_panic t self l hint Ss w) (std_abort w).
Proof.
  intros Hh R Fa Ap J. unfold std_extend. apply run_bind. apply run_on_unwind.
  eapply run_conseq; [eapply std_reserve_wp; eauto|..]; cbv beta.
  - intros _ w1 (v1 & d1 & R1 & Q1 & _).
    assert (Ag : agree (fvs Ss) (fbs Ss) w w1) by (eapply frame_agree; [apply Q1|auto]).
    assert (T1 : touch self (fvs Ss) (fbs Ss) w w1) by (apply touch_frame, Q1).
    eapply run_conseq; [eapply (std_push_all_wp t self es Ss l v1 d1 w1); eauto|..]; cbv beta.
    + eapply family_agree; eauto.
    + eapply frame_apart; [apply Q1|auto].
    + intros _ w2 (R2 & T2 & D2 & A2). ands; auto. eapply touch_trans; eauto. rewrite D2. now rewrite (proj2 Q1).
    + intros r w2 (Ss1 & S & Ss2 & -> & R2 & T2 & A & B & H). left. exists Ss1, S, Ss2. ands; auto.
      * eapply touch_trans; eauto.
      * rewrite (proj2 Q1) in H. destruct H as [(Rr & Da & D)|[H|[Hr [N H]]]]; auto.
        -- left. ands; auto. eapply std_reason_from; [|exact Rr]. apply T1.
        -- right; right. split; auto. split; auto. eapply drop_panicked_from; [|exact H]. now rewrite (proj2 Q1).
    + intros w2 [A|A]; [left|right]. { eapply alloc_failed_l; [|exact A]. apply T1. }
      eapply drop_panicked_from; [|exact A]. now rewrite (proj2 Q1).
  - intros r w1 (Rr & v1 & d1 & R1 & Q1).
    assert (Ag : agree (fvs Ss) (fbs Ss) w w1) by (eapply frame_agree; [apply Q1|auto]).
    assert (T1 : touch self (fvs Ss) (fbs Ss) w w1) by (apply touch_frame, Q1).
    assert (Ap1 : apart self (fvs Ss) (fbs Ss) w1) by (eapply frame_apart; [apply Q1|auto]).
    eapply run_conseq; [eapply (emplacables_drop_wp es Ss w1); eapply family_agree; eauto|..]; cbv beta.
    + intros _ w2 (W2 & D2 & A2). right. ands; auto.
      * eapply std_reason_to; [| |exact Rr]. apply W2. apply Ap1. apply W2.
      * eapply repr_within; eauto. exact (orep_repr t self l (OS v1) d1 w1 R1).
      * eapply touch_trans; [exact Ap|exact T1|]. apply touch_within; eauto.
      * now rewrite D2, (proj2 Q1).
    + intros _ w2 (_ & [_ P] & _). right. eapply drop_panicked_from; [|exact P]. now rewrite (proj2 Q1).
    + intros w2 [_ P]. right. eapply drop_panicked_from; [|exact P]. now rewrite (proj2 Q1).
  - intros w1 A. left. exact A.
Qed.

(** [collect]: a new vector, dropped again on unwinding. *)
Definition std_collect_panic (t : ty) (hint : Z) (Ss : list deal) (w : world) (r : panic_reason) (w' : world) : Prop :=
  newvec (length (w_vecs w)) (fvs Ss) (fbs Ss) w w' /\ vanished (length (w_vecs w)) w w' /\
  ((exists Ss1 S Ss2, Ss = Ss1 ++ S :: Ss2 /\ all_after Delivered Ss1 w' /\ all_after Dropped Ss2 w' /\
      (reserve_reason r /\ d_after S Delivered w' /\
         w_drops w' = w_drops w ++ all_extra (Ss1 ++ [S]) ++ [d_value S] ++ all_nulls Ss2 ++ map d_value Ss1 \/
       d_panic S r \/ r = PDrop /\ one_panicked (d_extra S) w w')) \/
   reserve_reason r /\ all_after Dropped Ss w' /\ w_drops w' = w_drops w ++ all_nulls Ss).
Lemma std_reason_reserve t self l n e w r w' : std_reason t self l n e w r w' -> reserve_reason r.
Proof. unfold reserve_reason. intros [(A & _)|(A & B & _)]; auto. Qed.

Theorem std_from_iter_wp t hint es Ss w : kind_of t = KSized -> wf_ty t -> 0 <= hint -> family es Ss w ->
  (forall j, In j (fvs Ss) -> (j < length (w_vecs w))%nat) -> Forall (fun S => good t (d_value S)) Ss ->
  run (std_from_iter t hint es) w
    (fun v w' => repr t v (map d_value Ss) w' /\ newvec v (fvs Ss) (fbs Ss) w w' /\
       w_drops w' = w_drops w ++ all_extra Ss /\ all_after Delivered Ss w')
    (std_collect_panic t hint Ss w) (std_abort w).
Proof.
  intros K W Hh Fa Fv J. unfold std_from_iter. unfold run at 1. erewrite bind_eq by reflexivity.
  assert (En : OS (s_new t) = new_o t false) by (unfold new_o; now rewrite K). rewrite En.
  set (w1 := set_vecs (w_vecs w ++ [new_o t false]) w). set (v := length (w_vecs w)).
  pose proof (new_orep t false w W) as R. fold w1 v in R. rewrite <- En in R. cbn [orep] in R.
  assert (N : newvec v (fvs Ss) (fbs Ss) w w1). { apply new_newvec. right. apply new_o_raw. }
  assert (Ob : forall b, In b (fbs Ss) -> (b < length (w_heap w))%nat) by (intros b; eapply family_old; eauto).
  assert (Ap : apart v (fvs Ss) (fbs Ss) w1) by (eapply newvec_apart; eauto).
  assert (Ag : agree (fvs Ss) (fbs Ss) w w1).
  { split; [|split; [auto|unfold w1; proj; lia]]. intros j I. unfold w1. proj. apply nth_error_app1. auto. }
  assert (Ev : s_drop t v = v_drop t v) by (unfold v_drop; now rewrite K). rewrite Ev.
  apply (run_bind (on_unwind (std_extend t v hint es) (v_drop t v)) (fun _ => ret v)). apply run_on_unwind.
  eapply run_conseq; [eapply (std_extend_wp t v hint es Ss [] _ _ w1 Hh R); auto|..]; cbv beta.
  - eapply family_agree; eauto.
  - intros [] w2 (R2 & T2 & D2 & A2). apply run_ret. ands; auto. eapply newvec_touch; eauto.
  - intros r w2 H.
    assert (Rp : exists m, repr t v m w2 /\ touch v (fvs Ss) (fbs Ss) w1 w2).
    { destruct H as [(Ss1 & S & Ss2 & _ & R2 & T2 & _)|(_ & R2 & T2 & _)]; eauto. }
    assert (Sta : Forall stable Ss) by apply Fa.
    destruct Rp as (m & R2 & T2). pose proof R2 as R2'. apply repr_orep in R2' as (o2 & d2 & R2').
    assert (N2 : newvec v (fvs Ss) (fbs Ss) w w2) by (eapply newvec_touch; eauto).
    assert (Ap2 : apart v (fvs Ss) (fbs Ss) w2) by (eapply touch_apart; eauto).
    assert (Dle : (length (w_drops w) <= length (w_drops w2))%nat) by (apply touch_drops_le in T2; exact T2).
    eapply run_conseq; [eapply v_drop_wp; eauto|..]; cbv beta.
    + intros [] w3 ->. assert (N3 : newvec v (fvs Ss) (fbs Ss) w (dropped_world v (o_ptr o2) m w2)).
      { eapply newvec_touch; eauto. eapply dropped_touch; eauto. }
      assert (Ag3 : agree (fvs Ss) (fbs Ss) w2 (dropped_world v (o_ptr o2) m w2)).
      { eapply frame_agree; eauto. eapply dropped_frame; eauto. }
      split; [exact N3|]. split; [eapply vanished_dropped; eauto|].
      destruct H as [(Ss1 & S & Ss2 & -> & R2x & _ & A & B & H)|(Rr & R2x & _ & A & D)].
      * left. assert (m = map d_value Ss1) as -> by (eapply repr_fun; eauto). rewrite fvs_app, fbs_app in Ag3.
        apply Forall_app in Sta as [St1 St2]. inversion_clear St2 as [|? ? StS St3].
        assert (I1 : incl (fvs Ss1) (fvs Ss1 ++ fvs (S :: Ss2))) by apply incl_appl, incl_refl.
        assert (I2 : incl (fbs Ss1) (fbs Ss1 ++ fbs (S :: Ss2))) by apply incl_appl, incl_refl.
        assert (I3 : incl (fvs Ss2) (fvs Ss1 ++ fvs (S :: Ss2))) by (apply incl_appr, incl_appr, incl_refl).
        assert (I4 : incl (fbs Ss2) (fbs Ss1 ++ fbs (S :: Ss2))) by (apply incl_appr, incl_appr, incl_refl).
        assert (I5 : incl (d_fv S) (fvs Ss1 ++ fvs (S :: Ss2))) by (apply incl_appr, incl_appl, incl_refl).
        assert (I6 : incl (d_fb S) (fbs Ss1 ++ fbs (S :: Ss2))) by (apply incl_appr, incl_appl, incl_refl).
        exists Ss1, S, Ss2. ands; auto.
        -- eapply all_after_agree; [exact St1| |exact A]. eapply agree_mono; eauto.
        -- eapply all_after_agree; [exact St3| |exact B]. eapply agree_mono; eauto.
        -- destruct H as [(Rr & Ar & D)|[P|[-> [Nn P]]]]; auto.
           ++ left. ands; auto. { eapply std_reason_reserve; eauto. } { eapply StS; [|exact Ar]. eapply agree_mono; eauto. }
              unfold dropped_world. proj. rewrite D. unfold w1. proj. now rewrite <- !app_assoc.
           ++ right; right. split; auto. split; auto. destruct P as (n & Hn & P). exists n. split; auto.
              unfold dropped_world, w1 in *. proj. change (w_drops (set_vecs (w_vecs w ++ [new_o t false]) w)) with (w_drops w) in Hn.
              rewrite app_length. lia.
      * right. assert (m = []) as -> by (eapply repr_fun; eauto). ands; auto.
        -- eapply std_reason_reserve; eauto.
        -- eapply all_after_agree; eauto.
        -- unfold dropped_world. proj. rewrite D. unfold w1. proj. now rewrite app_nil_r.
    + intros _ w3 (_ & P & _). right. eapply drop_panicked_from; eauto.
    + intros w3 (_ & P). right. eapply drop_panicked_from; eauto.
  - intros w2 [A|A]; [left|right]; auto.
Qed.
End WithConfig.
