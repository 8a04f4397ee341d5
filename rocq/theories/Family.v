(** Several emplacables with separate footprints; dropping them one after the other. *)
From Coq Require Import ZArith List Bool Lia.
From Verif Require Import Types World ValidSize Emplace SizedVec AlignedVec UnalignedVec Api Spec Bytes Arith Wp Mem Repr
  Access Reserve Realign Orep Push Deal PushWith Shell Insert Take Pop Iter DropVec.
Import ListNotations.
Open Scope Z_scope.
Open Scope m_scope.

Definition fvs (Ss : list deal) : list nat := flat_map d_fv Ss.
Definition fbs (Ss : list deal) : list nat := flat_map d_fb Ss.
(** Separate footprints. *)
Definition indep (S T : deal) : Prop :=
  (forall j, In j (d_fv S) -> ~ In j (d_fv T)) /\ (forall b, In b (d_fb S) -> ~ In b (d_fb T)).
(** What a deal promises depends on its footprint only. *)
Definition stable (S : deal) : Prop := forall u w w', agree (d_fv S) (d_fb S) w w' -> d_after S u w -> d_after S u w'.

Lemma fvs_in S Ss : In S Ss -> incl (d_fv S) (fvs Ss).
Proof. intros I j J. apply in_flat_map. eauto. Qed.
Lemma fbs_in S Ss : In S Ss -> incl (d_fb S) (fbs Ss).
Proof. intros I j J. apply in_flat_map. eauto. Qed.
Lemma fvs_app Ss Ts : fvs (Ss ++ Ts) = fvs Ss ++ fvs Ts.
Proof. apply flat_map_app. Qed.
Lemma fbs_app Ss Ts : fbs (Ss ++ Ts) = fbs Ss ++ fbs Ts.
Proof. apply flat_map_app. Qed.

Lemma indep_fvs S Ss : Forall (indep S) Ss -> (forall j, In j (d_fv S) -> ~ In j (fvs Ss)) /\ (forall b, In b (d_fb S) -> ~ In b (fbs Ss)).
Proof.
  intros F. rewrite Forall_forall in F. split; intros j J I; apply in_flat_map in I as (T & IT & IJ); destruct (F T IT); firstorder.
Qed.
Lemma agree_tail S Ss w w' : agree (d_fv S ++ fvs Ss) (d_fb S ++ fbs Ss) w w' ->
  agree (d_fv S) (d_fb S) w w' /\ agree (fvs Ss) (fbs Ss) w w'.
Proof. intros A. split; eapply agree_mono; try exact A; first [apply incl_appl, incl_refl|apply incl_appr, incl_refl]. Qed.

Section WithConfig.
Context {C : Config}.

Definition family (es : list emplacable) (Ss : list deal) (w : world) : Prop :=
  Forall2 (fun e S => emits e S w) es Ss /\ ForallOrdPairs indep Ss /\ Forall stable Ss.

Lemma family_cons e es S Ss w : family (e :: es) (S :: Ss) w ->
  emits e S w /\ family es Ss w /\ stable S /\ Forall (indep S) Ss.
Proof.
  intros (F & I & St). inversion F; subst. inversion I; subst. inversion St; subst. unfold family. auto.
Qed.
Lemma family_agree es Ss w w' : family es Ss w -> agree (fvs Ss) (fbs Ss) w w' -> family es Ss w'.
Proof.
  intros (F & I & St) A. unfold family. ands; auto. clear I St. induction F; constructor.
  - eapply emits_agree; eauto. eapply agree_mono; [| |exact A]; cbn [fvs fbs flat_map]; apply incl_appl, incl_refl.
  - apply IHF. eapply agree_mono; [| |exact A]; cbn [fvs fbs flat_map]; apply incl_appr, incl_refl.
Qed.
Lemma family_old es Ss w b : family es Ss w -> In b (fbs Ss) -> (b < length (w_heap w))%nat.
Proof.
  intros (F & _) I. apply in_flat_map in I as (S & IS & IB). clear -F IS IB. induction F as [|e T es Ts E F IH]; [easy|].
  destruct IS as [<-|IS]; [|auto]. apply E; auto.
Qed.
(** One member acting leaves the others alone. *)
Lemma within_family S Ss w w' : Forall (indep S) Ss -> within (d_fv S) (d_fb S) w w' -> agree (fvs Ss) (fbs Ss) w w'.
Proof.
  intros I W. destruct (indep_fvs _ _ I) as [A B]. eapply within_agree; eauto.
  - intros j J K. eapply A; eauto.
  - intros b J K. eapply B; eauto.
Qed.
Lemma family_within S Ss w w' : Forall (indep S) Ss -> within (fvs Ss) (fbs Ss) w w' -> agree (d_fv S) (d_fb S) w w'.
Proof. intros I W. destruct (indep_fvs _ _ I) as [A B]. eapply within_agree; eauto. Qed.

Lemma one_panicked_app_l a b w w' : one_panicked a w w' -> one_panicked (a ++ b) w w'.
Proof. intros [N D]. split; auto. destruct a; [congruence|discriminate]. Qed.
Lemma one_panicked_app_r a b w w' : one_panicked b w w' -> one_panicked (a ++ b) w w'.
Proof. intros [N D]. split; auto. destruct a; [auto|discriminate]. Qed.
Lemma one_panicked_from ds w w1 w' : (length (w_drops w) <= length (w_drops w1))%nat -> one_panicked ds w1 w' -> one_panicked ds w w'.
Proof. intros L [N D]. split; auto. eapply drop_panicked_from; eauto. Qed.

Lemma within_cons S Ss a b c : within (d_fv S) (d_fb S) a b -> within (fvs Ss) (fbs Ss) b c ->
  within (d_fv S ++ fvs Ss) (d_fb S ++ fbs Ss) a c.
Proof.
  intros A B. eapply within_trans; eapply within_mono; [| |exact A| | |exact B]; first [apply incl_appl, incl_refl|apply incl_appr, incl_refl].
Qed.
Definition all_nulls (Ss : list deal) : list value := flat_map d_nulls Ss.
Definition all_after (u : usage) (Ss : list deal) (w : world) : Prop := Forall (fun S => d_after S u w) Ss.
Lemma all_after_agree u Ss w w' : Forall stable Ss -> agree (fvs Ss) (fbs Ss) w w' -> all_after u Ss w -> all_after u Ss w'.
Proof.
  intros St A H. unfold all_after in *. induction H; constructor; inversion St; subst.
  - eapply H3; eauto. eapply agree_mono; [| |exact A]; cbn [fvs fbs flat_map]; apply incl_appl, incl_refl.
  - apply IHForall; auto. eapply agree_mono; [| |exact A]; cbn [fvs fbs flat_map]; apply incl_appr, incl_refl.
Qed.

Lemma emplacables_drop_wp es Ss w : family es Ss w ->
  run (emplacables_drop es) w
    (fun _ w' => within (fvs Ss) (fbs Ss) w w' /\ w_drops w' = w_drops w ++ all_nulls Ss /\ all_after Dropped Ss w')
    (fun r w' => r = PDrop /\ one_panicked (all_nulls Ss) w w' /\ within (fvs Ss) (fbs Ss) w w' /\ exists ds, w_drops w' = w_drops w ++ ds)
    (fun w' => one_panicked (all_nulls Ss) w w').
Proof.
  revert Ss w. induction es as [|e es IH]; intros Ss w Fm.
  { destruct Fm as (F & _). inversion F; subst. apply run_ret. ands. apply within_refl. cbn. now rewrite app_nil_r. constructor. }
  destruct Ss as [|S Ss]. { destruct Fm as (F & _). inversion F. }
  destruct (family_cons _ _ _ _ _ Fm) as (E & Fm' & St & I). cbn [emplacables_drop]. unfold all_nulls. cbn [fvs fbs flat_map].
  apply run_bind. apply run_on_unwind. eapply run_conseq; [eapply emplacable_drop_wp; eauto|..]; cbv beta.
  - intros _ w1 (W1 & D1 & A1). pose proof (within_family _ _ _ _ I W1) as Ag.
    eapply run_conseq; [apply IH; eapply family_agree; eauto|..]; cbv beta.
    + intros _ w2 (W2 & D2 & A2). ands.
      * eapply within_cons; eauto.
      * rewrite D2, D1. now rewrite app_assoc.
      * constructor; auto. eapply St; [|exact A1]. eapply family_within; eauto.
    + intros r w2 (-> & P & W2 & ds & D2). ands; auto.
      * eapply one_panicked_app_r, one_panicked_from; [|eauto]. rewrite D1, app_length. lia.
      * eapply within_cons; eauto.
      * eexists. rewrite D2, D1. now rewrite <- app_assoc.
    + intros w2 P. eapply one_panicked_app_r, one_panicked_from; [|eauto]. rewrite D1, app_length. lia.
  - intros r w1 (-> & P & W1 & ds & D1). pose proof (within_family _ _ _ _ I W1) as Ag.
    eapply run_conseq; [apply IH; eapply family_agree; eauto|..]; cbv beta.
    + intros _ w2 (W2 & D2 & A2). ands; auto.
      * apply one_panicked_app_l. destruct P as (N & n & L & P). split; auto. exists n. split; auto. rewrite D2, app_length. lia.
      * eapply within_cons; eauto.
      * eexists. rewrite D2, D1. now rewrite <- app_assoc.
    + intros r w2 (-> & P2 & W2 & ds2 & D2). apply one_panicked_app_l. destruct P as (N & n & L & P). split; auto. exists n. split; auto.
      rewrite D2, app_length. lia.
    + intros w2 P2. eapply one_panicked_app_r, one_panicked_from; [|eauto]. rewrite D1, app_length. lia.
  - intros w1 P. now apply one_panicked_app_l.
Qed.

(** The deals used so far. *)
Lemma value_stable t x : stable (value_deal t x).
Proof. intros u w w' _ _. exact I. Qed.
Lemma ref_stable t r x : stable (ref_deal t r x).
Proof.
  intros u w w' (_ & A & _). cbn [ref_deal d_after d_fb] in *. intros B. eapply behind_agree; [|exact B]. intros b E. apply A. now apply in_blocks.
Qed.
Lemma slot_stable t r x : stable (slot_deal t r x).
Proof.
  intros u w w' (_ & A & _). cbn [slot_deal d_after d_fb] in *. intros B. eapply behind_agree; [|exact B]. intros b E. apply A. now apply in_blocks.
Qed.
Lemma box_stable t b x : stable (box_deal t b x).
Proof.
  intros u w w' (_ & A & _). cbn [box_deal d_after d_fb] in *. destruct u; intros B.
  1-3: intros k E; rewrite A by (now apply in_blocks); now apply B.
  eapply boxed_agree; [|exact B]. intros k E. apply A. now apply in_blocks.
Qed.
End WithConfig.
