(** C49, C50: finite histories of calls on any number of vectors.

    [exec t env cs] runs the calls [cs]; a panic is caught and the history goes on ([inr] in the results). [spec_run] is the same
    on plain lists (History.v). [tracks t env s w]: the live vectors are well formed, pairwise disjoint, and hold the lists [s].
    The allocator schedule and the panicking destructors are those of the [Config], which is arbitrary. *)
From Coq Require Import ZArith List Bool Lia.
From Verif Require Import Types World ValidSize Emplace SizedVec AlignedVec UnalignedVec Api Spec Bytes Arith Wp Mem Repr
  Access Reserve Realign Orep Push Deal PushWith Shell Insert Take Pop Box Iter Calls GetMut DropVec Family Build PushAll Wrote Sources
  Obs Room Shrink PropPush PropReserve PropAccess PropEdit PropEmplace PropShrink PropCompare PropWhole Convert PropUnsize PropConvert History Findings.
Import ListNotations.
Open Scope Z_scope.
Open Scope m_scope.

Section WithConfig.
Context {C : Config}.

(** ** Any history that respects the guards *)
(** The guards of History.v hold whenever the corresponding call is reached. *)
Fixpoint admissible (t : ty) (env : list (option nat)) (cs : list op) (s : lists) (w : world) : Prop :=
  match cs with
  | [] => True
  | c :: cs => typed t c /\ guard t env c s w /\
      forall r env' s' w', exec1 t env c w = (Ok (r, env'), w') -> tracks t env' s' w' -> admissible t env' cs s' w'
  end.
(** Boxes handed to the caller, and buffers lost to panicking destructors. *)
Fixpoint handed (t : ty) (cs : list op) (rs : list (obs + panic_reason)) : nat :=
  match cs, rs with c :: cs, r :: rs => (given t c r + handed t cs rs)%nat | _, _ => 0%nat end.
(** What a history must do. *)
Definition behaves (t : ty) (env : list (option nat)) (cs : list op) (s : lists) (w : world) : Prop :=
  run (exec t env cs) w
    (fun p w' => exists s' dl, spec_run t cs s (fst p) s' dl /\ tracks t (snd p) s' w' /\
       w_drops w' = w_drops w ++ concat dl /\ books env (snd p) (handed t cs (fst p)) w w')
    (fun _ _ => False) (fun _ => out_of_luck).

Lemma exec1_wp t env c s w : wf_ty t -> tracks t env s w -> typed t c -> guard t env c s w ->
  run (exec1 t env c) w
    (fun p w' => books env (snd p) (given t c (fst p)) w w' /\ exists s', tracks t (snd p) s' w' /\
       exists ds, w_drops w' = w_drops w ++ ds /\ match fst p with inl o => spec c s o s' ds | inr r => spec_panic t c s r s' ds end) (fun _ _ => False) (fun _ => out_of_luck).
Proof.
  intros Wt T Ty G. pose proof (step_follows_all t env c s w Wt T Ty G) as H. unfold step_follows, run in H. unfold run, exec1.
  destruct (step t env c w) as [[[o env']|r| |u] w']; auto.
  - destruct H as ((s' & ds & S & T' & D) & B). split; auto. exists s'. cbn [fst snd] in *. eauto.
  - destruct H as ((s' & ds & S & T' & D) & B). split; auto. exists s'. cbn [fst snd] in *. eauto.
Qed.
Theorem C49_guarded_partial t cs : wf_ty t -> forall env s w, tracks t env s w -> admissible t env cs s w -> behaves t env cs s w.
Proof.
  intros Wt. induction cs as [|c cs IH]; intros env s w T Ad; unfold behaves; cbn [exec].
  - apply run_ret. exists s, []. cbn [fst snd concat]. rewrite app_nil_r. split; [constructor|]. split; auto. split; auto. apply books_refl.
  - destruct Ad as (Ty & G & Ad). apply run_bind. pose proof (exec1_wp t env c s w Wt T Ty G) as H. unfold run in H |- *.
    destruct (exec1 t env c w) as [[[r env']|r| |u] w1] eqn:E; auto. destruct H as (B1 & s1 & T1 & ds & D1 & S1). cbn [fst snd] in *.
    change (run ('(rs, env'') <- exec t env' cs;; ret (r :: rs, env'')) w1
      (fun p w' => exists s' dl, spec_run t (c :: cs) s (fst p) s' dl /\ tracks t (snd p) s' w' /\
         w_drops w' = w_drops w ++ concat dl /\ books env (snd p) (handed t (c :: cs) (fst p)) w w') (fun _ _ => False) (fun _ => out_of_luck)).
    apply run_bind. eapply run_conseq; [exact (IH env' s1 w1 T1 (Ad r env' s1 w1 eq_refl T1))|..]; cbv beta; auto.
    intros [rs env''] w2 (s2 & dl & S2 & T2 & D2 & B2). apply run_ret. cbn [fst snd] in *.
    pose proof (books_trans _ _ _ _ _ _ _ _ B1 B2) as B. exists s2, (ds :: dl). split; [destruct r; econstructor; eauto|].
    split; auto. split; auto. cbn [concat]. now rewrite D2, D1, app_assoc.
Qed.

(** ** Guards that only speak of the lists *)
(** A value that every vector has room and alignment for: the exception are over-aligned zero-sized values (F4). *)
Definition lands (t : ty) (x : value) : Prop := 0 < vsize t x \/ valign t x = 1.
(** [vsafe t c l]: the call is free of the defects found, whatever the state of the vector holding [l]. *)
Definition vsafe (t : ty) (c : vop) (l : list value) : Prop :=
  match c with
  | VVisit cs | VUpdate cs _ => kind_of t = KSized \/ fair false (length l) cs = true
  | VVisitLast cs => kind_of t = KSized \/ fair false (length l) (cs ++ [NextBack]) = true
  | VPush x => kind_of t = KUnaligned -> lands t x
  | VPushWith x => not_huge t x /\ (kind_of t = KUnaligned -> lands t x)
  | VInsert i x => kind_of t = KSized \/ (length l < i)%nat \/
      (kind_of t = KUnaligned -> lands t x) /\ (i = 0%nat \/ kind_of t = KAligned /\ total t (firstn i l) = Z.of_nat i)
  | VInsertWith i x => not_huge t x /\ (kind_of t = KUnaligned -> lands t x /\ (i <> length l \/ l = []))
  | VRemove i => kind_of t = KUnaligned -> S i <> length l \/ i = 0%nat
  | VRemoveDrop i => drops_quiet /\ (kind_of t = KUnaligned -> S i <> length l \/ i = 0%nat)
  | VRemoveForget i => kind_of t = KUnaligned -> S i <> length l \/ i = 0%nat
  | VShrink n b a => kind_of t <> KUnaligned
  | VExtend _ xs => Forall (not_huge t) xs /\ (kind_of t = KUnaligned -> Forall (lands t) xs)
  | VPushFrom _ D => not_huge t (d_value D) /\ (kind_of t = KUnaligned -> lands t (d_value D))
  | VInsertFrom i _ D => not_huge t (d_value D) /\ (kind_of t = KUnaligned -> lands t (d_value D) /\ (i <> length l \/ l = []))
  | VExtendFrom _ ps => Forall (not_huge t) (map d_value (map snd ps)) /\ (kind_of t = KUnaligned -> Forall (lands t) (map d_value (map snd ps)))
  | VPushUnsize _ _ m x => kind_of t = KUnaligned -> lands t (coerce m x)
  | VInsertUnsize _ _ m i x => kind_of t = KSized \/ (length l < i)%nat \/
      (kind_of t = KUnaligned -> lands t (coerce m x)) /\ (i = 0%nat \/ kind_of t = KAligned /\ total t (firstn i l) = Z.of_nat i)
  | _ => True
  end.
Definition safe (t : ty) (c : op) (s : lists) : Prop :=
  match c with
  | OfValues xs => kind_of t = KUnaligned -> Forall (lands t) xs
  | Collect _ xs => Forall (not_huge t) xs /\ (kind_of t = KUnaligned -> Forall (lands t) xs)
  | CollectFrom _ ps => Forall (not_huge t) (map d_value (map snd ps)) /\ (kind_of t = KUnaligned -> Forall (lands t) (map d_value (map snd ps)))
  | On k c => forall l, there s k = Some l -> vsafe t c l
  | MoveLast d k => forall lk x, there s k = Some (lk ++ [x]) -> kind_of t = KUnaligned -> lands t x
  | MoveAt d i k j => forall ld lk x, there s d = Some ld -> there s k = Some lk -> nth_error lk j = Some x -> kind_of t = KUnaligned ->
      lands t x /\ (S j <> length lk \/ j = 0%nat) /\ (i <> length ld \/ ld = [])
  | _ => True
  end.
Fixpoint safe_run (t : ty) (cs : list op) (s : lists) : Prop :=
  match cs with
  | [] => True
  | c :: cs => typed t c /\ safe t c s /\
      (forall o s' ds, spec c s o s' ds -> safe_run t cs s') /\ (forall r s' ds, spec_panic t c s r s' ds -> safe_run t cs s')
  end.

Lemma end_padded_nil t a : end_padded t a [].
Proof. intros l0 y E. destruct l0; discriminate E. Qed.
Lemma takes_of t al xs : 1 <= al -> Forall (good t) xs -> (kind_of t = KUnaligned -> Forall (lands t) xs) -> takes t al xs.
Proof.
  intros A G P. apply Forall_forall. intros x I. split; [eapply Forall_forall in G; eauto|]. intros K. specialize (P K). eapply Forall_forall in P; eauto.
  destruct P; [auto|right; lia].
Qed.
Lemma align_ex t self l w : repr t self l w -> exists al, v_align t self w = (Ok al, w).
Proof. intros R. apply repr_orep in R as (o & d & R'). eexists. eapply v_align_eq; eauto. Qed.
Lemma align_1 t self l w al : repr t self l w -> v_align t self w = (Ok al, w) -> 1 <= al.
Proof.
  intros R A. apply repr_orep in R as (o & d & R). rewrite (v_align_eq _ _ _ _ _ _ R) in A. injection A as <-. pose proof (pow2_pos _ (orep_al _ _ _ _ _ _ R)). lia.
Qed.
Lemma bcap_ex t self l w : repr t self l w -> exists bc, v_byte_capacity t self w = (Ok bc, w).
Proof. intros R. apply repr_orep in R as (o & d & R'). eexists. eapply v_byte_capacity_eq; eauto. Qed.
Lemma placeable_pos t self l w x : repr t self l w -> (kind_of t = KUnaligned -> lands t x) -> placeable t self x w.
Proof.
  intros R P K. destruct (align_ex _ _ _ _ R) as (al & A), (bcap_ex _ _ _ _ R) as (bc & B). exists al, bc. pose proof (align_1 _ _ _ _ _ R A).
  destruct (P K); auto. split; auto. split; auto. right; left. lia.
Qed.
Lemma movable_not_end t self l w i a : repr t self l w -> (kind_of t = KUnaligned -> i <> length l \/ l = []) -> (i <= length l)%nat -> movable t self l i a w.
Proof.
  intros R P L K. destruct (align_ex _ _ _ _ R) as (al & A). destruct (P K) as [N| ->]; [left; lia|]. right. exists al. split; auto. apply end_padded_nil.
Qed.
Lemma closable_not_last t self l w i : repr t self l w -> (kind_of t = KUnaligned -> S i <> length l \/ i = 0%nat) -> (i < length l)%nat -> closable t self l i w.
Proof.
  intros R P L K. destruct (align_ex _ _ _ _ R) as (al & A). destruct (P K) as [N| ->]; [left; lia|]. destruct l as [|x [|y m]]; cbn [length] in *; [lia| |left; lia].
  right. exists al. split; auto. apply end_padded_nil.
Qed.
Lemma producers_good t ps : Forall (fun p => producer t (fst p) (snd p)) ps -> Forall (good t) (map d_value (map snd ps)).
Proof. intros F. rewrite map_map, Forall_map. eapply Forall_impl; [|exact F]. intros p P. apply P. Qed.
Lemma vsafe_guard t self l w c : repr t self l w -> vtyped t c -> vsafe t c l -> vguard t self c l w.
Proof.
  intros R Ty S. destruct (align_ex _ _ _ _ R) as (al & A), (bcap_ex _ _ _ _ R) as (bc & B). destruct c; cbn [vsafe vguard vtyped] in *; eauto using placeable_pos.
  - destruct S. eauto using placeable_pos.
  - destruct S as [K|[L|[P [-> |[K E]]]]]; auto.
    + right; right. eauto using placeable_pos.
    + destruct (le_lt_dec i (length l)) as [Li|]; auto. right; right. split; [eauto using placeable_pos|]. right. split.
      * intros K'. congruence.
      * unfold offset_of. now rewrite K.
  - destruct S as [N P]. ands; auto.
    + apply (placeable_pos t self l); auto. intros K. apply P, K.
    + intros L. apply movable_not_end; auto. intros K. apply P, K.
  - eauto using closable_not_last.
  - destruct S. split; eauto using closable_not_last.
  - eauto using closable_not_last.
  - exists bc, al. ands; auto. intros K. contradiction.
  - destruct S, Ty. split; auto. exists al. split; auto. apply takes_of; eauto using align_1.
  - destruct S. eauto using placeable_pos.
  - destruct S as [N P]. ands; auto.
    + apply (placeable_pos t self l); auto. intros K. apply P, K.
    + intros L. apply movable_not_end; auto. intros K. apply P, K.
  - destruct S, Ty as [_ Ty]. split; auto. exists al. split; auto. apply takes_of; eauto using align_1. now apply producers_good.
  - destruct S as [K|[L|[P [-> |[K E]]]]]; auto.
    + right; right. eauto using placeable_pos.
    + destruct (le_lt_dec i (length l)) as [Li|]; auto. right; right. split; [eauto using placeable_pos|]. right. split.
      * intros K'. congruence.
      * unfold offset_of. now rewrite K.
Qed.
Lemma safe_guard t env c s w : tracks t env s w -> typed t c -> safe t c s -> guard t env c s w.
Proof.
  intros T Ty S. destruct c; cbn [safe guard typed] in *; auto.
  - apply takes_of; auto. lia.
  - destruct S, Ty. split; auto. apply takes_of; auto. lia.
  - destruct S, Ty as [_ Ty]. split; auto. apply takes_of; auto using producers_good. lia.
  - intros j l A E. eapply vsafe_guard; eauto. eapply (tr_repr _ _ _ _ T); eauto.
  - intros j lk x N A E. destruct (tracks_live _ _ _ _ _ _ T A) as (l & _ & R). eapply placeable_pos; eauto.
  - intros j0 j' ld lk x N A A' E E' Ex. pose proof (tr_repr _ _ _ _ T _ _ _ A E) as R. pose proof (tr_repr _ _ _ _ T _ _ _ A' E') as R'.
    ands.
    + eapply closable_not_last; eauto using nth_error_lt. intros K. eapply S; eauto.
    + intros L. eapply movable_not_end; eauto. intros K. eapply S; eauto.
    + eapply placeable_pos; eauto. intros K. eapply S; eauto.
Qed.
Theorem C49_history_partial t cs : wf_ty t -> forall env s w, tracks t env s w -> safe_run t cs s -> behaves t env cs s w.
Proof.
  intros Wt. induction cs as [|c cs IH]; intros env s w T Ad; unfold behaves; cbn [exec].
  - apply run_ret. exists s, []. cbn [fst snd concat]. rewrite app_nil_r. split; [constructor|]. split; auto. split; auto. apply books_refl.
  - destruct Ad as (Ty & Sf & Ao & Ap). pose proof (safe_guard t env c s w T Ty Sf) as G.
    apply run_bind. eapply run_conseq; [exact (exec1_wp t env c s w Wt T Ty G)|..]; cbv beta; auto.
    intros [r env'] w1 (B1 & s1 & T1 & ds & D1 & S1). cbn [fst snd] in *. apply run_bind.
    assert (Ad : safe_run t cs s1). { destruct r; eauto. }
    eapply run_conseq; [exact (IH env' s1 w1 T1 Ad)|..]; cbv beta; auto.
    intros [rs env''] w2 (s2 & dl & S2 & T2 & D2 & B2). apply run_ret. cbn [fst snd] in *.
    pose proof (books_trans _ _ _ _ _ _ _ _ B1 B2) as B. exists s2, (ds :: dl). split; [destruct r; econstructor; eauto|].
    split; auto. split; auto. cbn [concat]. now rewrite D2, D1, app_assoc.
Qed.

(** ** Sized elements: every history of well-typed calls *)
(** The exception is dropping the result of [remove_into] when the element's destructor panics
    ([Findings.C29_double_drop_refuted]). *)
Definition calm (c : op) : Prop := match c with On _ (VRemoveDrop _) => drops_quiet | _ => True end.
Lemma sized_safe t cs : kind_of t = KSized -> Forall (typed t) cs -> Forall calm cs -> forall s, safe_run t cs s.
Proof.
  intros K. assert (Nc : forall x, not_huge t x) by (intros x ->; discriminate K). assert (Nf : forall xs, Forall (not_huge t) xs) by (intros xs; now apply Forall_forall). assert (Nu : kind_of t <> KUnaligned) by congruence.
  induction cs as [|c cs IH]; intros Ty Ca s; cbn [safe_run]; auto. inversion_clear Ty. inversion_clear Ca. ands; auto.
  destruct c; cbn [safe]; auto; try (intros; congruence); try (split; auto; intros; congruence).
  intros l _. destruct c; cbn [vsafe]; auto; try (intros; congruence); try (split; auto; intros; congruence).
Qed.
Lemma tracks_nil t w : tracks t [] [] w.
Proof.
  constructor; auto.
  - intros [|k]; split; reflexivity.
  - intros [|k]; discriminate.
  - intros [|k] [|k']; discriminate.
Qed.
Theorem C49_sized_partial s a cs w : wf_ty (TSized s a) -> Forall (typed (TSized s a)) cs -> Forall calm cs ->
  behaves (TSized s a) [] cs [] w.
Proof.
  intros Wt Ty Ca. apply C49_history_partial; auto.
  - apply tracks_nil.
  - now apply sized_safe.
Qed.
(** From the start, for all element types. *)
Theorem C49_start_partial t cs w : wf_ty t -> safe_run t cs [] -> behaves t [] cs [] w.
Proof. intros. apply C49_history_partial; auto using tracks_nil. Qed.

(** ** Guards that only speak of the calls *)
Definition pos (t : ty) (x : value) : Prop := kind_of t = KUnaligned -> lands t x.
Lemma posb t x : (0 <? vsize t x) || (valign t x =? 1) = true -> pos t x.
Proof. rewrite orb_true_iff. intros [E|E] _; [left; now apply Z.ltb_lt|right; now apply Z.eqb_eq]. Qed.
Definition only (c : icall) (cs : list icall) : Prop := cs = repeat c (length cs).
Definition veasy (t : ty) (c : vop) : Prop :=
  match c with
  | VSet _ f => kind_of t = KUnaligned -> forall x, v_meta (f x) = v_meta x
  | VVisit cs => kind_of t = KSized \/ only Next cs \/ only NextBack cs
  | VVisitLast cs => kind_of t = KSized \/ only NextBack cs
  | VPush x => pos t x
  | VPushWith x => not_huge t x /\ pos t x
  | VInsert i x => pos t x /\ (kind_of t = KSized \/ i = 0%nat)
  | VInsertWith i x => not_huge t x /\ pos t x /\ (kind_of t <> KUnaligned \/ i = 0%nat)
  | VRemove i => kind_of t <> KUnaligned \/ i = 0%nat
  | VRemoveDrop i => drops_quiet /\ (kind_of t <> KUnaligned \/ i = 0%nat)
  | VRemoveForget i => kind_of t <> KUnaligned \/ i = 0%nat
  | VShrink n b a => kind_of t <> KUnaligned
  | VExtend _ xs => Forall (not_huge t) xs /\ Forall (pos t) xs
  | VPushFrom _ D => not_huge t (d_value D) /\ pos t (d_value D)
  | VInsertFrom i _ D => not_huge t (d_value D) /\ pos t (d_value D) /\ (kind_of t <> KUnaligned \/ i = 0%nat)
  | VExtendFrom _ ps => Forall (not_huge t) (map d_value (map snd ps)) /\ Forall (pos t) (map d_value (map snd ps))
  | VUpdate cs f => (kind_of t = KSized \/ only Next cs \/ only NextBack cs) /\ (kind_of t = KUnaligned -> forall x, v_meta (f x) = v_meta x)
  | VPushUnsize _ _ m x => pos t (coerce m x)
  | VInsertUnsize _ _ m i x => pos t (coerce m x) /\ (kind_of t = KSized \/ i = 0%nat)
  | _ => True
  end.
Definition easy (t : ty) (c : op) : Prop :=
  match c with
  | OfValues xs => Forall (pos t) xs
  | Collect _ xs => Forall (not_huge t) xs /\ Forall (pos t) xs
  | CollectFrom _ ps => Forall (not_huge t) (map d_value (map snd ps)) /\ Forall (pos t) (map d_value (map snd ps))
  | On k c => veasy t c
  | MoveAt _ i _ j => kind_of t <> KUnaligned \/ i = 0%nat /\ j = 0%nat
  | _ => True
  end.
(** [P] holds of all elements; it does so again after a call that only brings in such values. *)
Definition all_of (P : value -> Prop) (s : lists) : Prop := forall k l, there s k = Some l -> Forall P l.
Definition vbrings (P : value -> Prop) (c : vop) : Prop :=
  match c with
  | VSet _ f | VUpdate _ f => forall x, P x -> P (f x)
  | VPushUnsize _ _ m x | VInsertUnsize _ _ m _ x => P (coerce m x)
  | VPush x | VPushWith x | VInsert _ x | VInsertWith _ x => P x
  | VExtend _ xs => Forall P xs
  | VPushFrom _ D | VInsertFrom _ _ D => P (d_value D)
  | VExtendFrom _ ps => Forall P (map d_value (map snd ps))
  | _ => True
  end.
Definition brings (P : value -> Prop) (c : op) : Prop :=
  match c with OfValues xs | Collect _ xs => Forall P xs | CollectFrom _ ps => Forall P (map d_value (map snd ps)) | CloneOf _ f _ => forall x, P x -> P (f x) | On _ c => vbrings P c | _ => True end.
Lemma all_of_upd P s k l : all_of P s -> Forall P l -> all_of P (upd s k (Some l)).
Proof.
  intros A F k' l' E. destruct (Nat.eq_dec k' k) as [->|N]; [|rewrite there_other in E by auto; eauto].
  pose proof (there_lt _ _ _ E) as L. rewrite upd_length in L. rewrite there_same in E by auto. injection E as <-. exact F.
Qed.
Lemma all_of_dead P s k : all_of P s -> all_of P (upd s k None).
Proof.
  intros A k' l' E. destruct (Nat.eq_dec k' k) as [->|N]; [|rewrite there_other in E by auto; eauto].
  pose proof (there_lt _ _ _ E) as L. rewrite upd_length in L. rewrite there_same in E by auto. discriminate E.
Qed.
Lemma all_of_app P s l : all_of P s -> Forall P l -> all_of P (s ++ [Some l]).
Proof. intros A F k' l' E. rewrite there_app in E. destruct (k' =? length s)%nat; [injection E as <-|]; eauto. Qed.
Lemma Forall_removelast {A} (P : A -> Prop) l : Forall P l -> Forall P (removelast l).
Proof. intros F. destruct l as [|x l _] using rev_ind; auto. rewrite removelast_last. now apply Forall_app in F. Qed.
Lemma In_firstn_skipn {A} (x : A) n l : In x (firstn n l) \/ In x (skipn n l) -> In x l.
Proof. intros H. rewrite <- (firstn_skipn n l). now apply in_or_app. Qed.
Lemma Forall_remove_at {A} (P : A -> Prop) i l : Forall P l -> Forall P (remove_at i l).
Proof.
  rewrite !Forall_forall. intros F x I. unfold remove_at in I. apply in_app_or in I as [I|I]; apply F; eauto using In_firstn_skipn.
Qed.
Lemma Forall_insert_at {A} (P : A -> Prop) i x l : P x -> Forall P l -> Forall P (insert_at i x l).
Proof.
  rewrite !Forall_forall. intros Px F y I. unfold insert_at in I. apply in_app_or in I as [I|[<-|I]]; auto; apply F; eauto using In_firstn_skipn.
Qed.
Lemma Forall_replace_at {A} (P : A -> Prop) i x l : P x -> Forall P l -> Forall P (replace_at i x l).
Proof.
  rewrite !Forall_forall. intros Px F y I. unfold replace_at in I. apply in_app_or in I as [I|[<-|I]]; auto; apply F; eauto using In_firstn_skipn.
Qed.
Lemma Forall_update_at (P : value -> Prop) f js : (forall x, P x -> P (f x)) -> forall l, Forall P l -> Forall P (update_at f js l).
Proof.
  intros Hf. induction js as [|j js IH]; intros l F; cbn [update_at]; auto. apply IH. destruct (nth_error l j) as [x|] eqn:E; auto.
  apply Forall_replace_at; auto. apply Hf. eapply Forall_forall in F; [exact F|eapply nth_error_In; eauto].
Qed.
Lemma vbrings_spec P c l o l' ds : vbrings P c -> Forall P l -> vspec c l o l' ds -> Forall P l'.
Proof.
  intros Ea F S. destruct c; cbn [vbrings vspec] in *;
    try (destruct S as (_ & -> & _); now auto using Forall_removelast, Forall_remove_at).
  - destruct (nth_error l i) as [x|] eqn:E; destruct S as (_ & -> & _); auto. apply Forall_replace_at; auto.
    eapply Forall_forall in F; [|eapply nth_error_In; eauto]. now apply Ea.
  - destruct S as (_ & -> & _). apply Forall_app. auto.
  - destruct S as (_ & -> & _). apply Forall_app. auto.
  - destruct S as (_ & _ & -> & _). now apply Forall_insert_at.
  - destruct S as (_ & _ & -> & _). now apply Forall_insert_at.
  - destruct S as (_ & _ & -> & _). now apply Forall_remove_at.
  - destruct S as (_ & -> & _). apply Forall_app. auto.
  - destruct S as (_ & -> & _). apply Forall_app. auto.
  - destruct S as (_ & _ & -> & _). now apply Forall_insert_at.
  - destruct S as (_ & -> & _). apply Forall_app. auto.
  - destruct S as (_ & -> & _). now apply Forall_update_at.
  - destruct S as (_ & -> & _). apply Forall_app. auto.
  - destruct S as (_ & _ & -> & _). now apply Forall_insert_at.
Qed.
Lemma vbrings_panic P t c l r l' ds : vbrings P c -> Forall P l -> vpanic t c l r l' ds -> Forall P l'.
Proof.
  intros Ea F S. destruct c; cbn [vbrings vpanic] in *; try contradiction;
    try (destruct S as (_ & _ & -> & _); now auto); try (destruct S as (_ & -> & _); now auto using Forall_removelast); try (destruct S as (_ & ->); now auto).
  - destruct S as [[(_ & _ & ->)|(_ & _ & ->)] _]; auto. destruct (kind_of t); auto using Forall_removelast.
  - destruct S as (_ & ys & -> & H). apply Forall_app. split; auto. destruct H as [[-> _]|[x ->]]; auto. now apply Forall_app in Ea as [? _].
  - now destruct S as (-> & _).
  - now destruct S as (-> & _).
  - destruct S as (Ss1 & Ss2 & E & -> & _). rewrite E, map_app in Ea. apply Forall_app. split; auto. now apply Forall_app in Ea as [? _].
Qed.
Lemma brings_spec P c s o s' ds : brings P c -> all_of P s -> spec c s o s' ds -> all_of P s'.
Proof.
  intros Ea F S. destruct c; cbn [brings spec] in *; try (destruct S as (_ & -> & _); now apply all_of_app; auto).
  - destruct (there s k) as [l|] eqn:E; destruct S as (_ & -> & _); auto. apply all_of_app; auto. apply Forall_map.
    apply F in E. eapply Forall_impl; [|exact E]. exact Ea.
  - destruct (there s k) as [l|] eqn:E.
    + destruct S as (l' & S & ->). apply all_of_upd; auto. exact (vbrings_spec P c l o l' ds Ea (F k l E) S).
    + now destruct S as (_ & -> & _).
  - destruct (there s dst) as [ld|] eqn:E; [|now destruct S as (_ & -> & _)].
    destruct (there s src) as [lk|] eqn:E'; [|now destruct S as (_ & -> & _)].
    destruct (dst =? src)%nat; [now destruct S as (_ & -> & _)|]. destruct S as (_ & _ & ->).
    apply all_of_upd; [apply all_of_upd; auto; apply Forall_removelast; eauto|]. apply Forall_app. split; eauto.
    apply F in E'. destruct lk as [|x lk _] using rev_ind; cbn; auto. rewrite rev_app_distr. cbn. apply Forall_app in E' as [_ X]. exact X.
  - destruct (there s dst) as [ld|] eqn:E; [|now destruct S as (_ & -> & _)].
    destruct (there s src) as [lk|] eqn:E'; [|now destruct S as (_ & -> & _)].
    destruct (dst =? src)%nat; [now destruct S as (_ & -> & _)|]. destruct S as (_ & _ & x & Ex & ->).
    apply all_of_upd; [apply all_of_upd; auto; apply Forall_remove_at; eauto|]. apply Forall_insert_at; eauto.
    apply F in E'. eapply Forall_forall in E'; [|eapply nth_error_In; eauto]. exact E'.
  - destruct (there s k), (there s k'); try (now destruct S as (_ & -> & _)). now destruct S as (b & _ & _ & -> & _).
  - destruct (there s k), (there s k'); now destruct S as (_ & -> & _).
  - destruct (there s k); destruct S as (_ & -> & _); auto using all_of_dead.
Qed.
Lemma brings_panic P t c s r s' ds : brings P c -> all_of P s -> spec_panic t c s r s' ds -> all_of P s'.
Proof.
  intros Ea F S. destruct c; cbn [brings spec_panic] in *; try contradiction; try (destruct S as (_ & -> & _); now auto using all_of_dead).
  - now destruct S as [-> _].
  - destruct S as (l & _ & -> & _). auto.
  - destruct S as (l & l' & E & P' & ->). apply all_of_upd; auto. exact (vbrings_panic P t c l r l' ds Ea (F k l E) P').
  - destruct S as (lk & E & _ & -> & _). apply all_of_upd; auto. apply Forall_removelast; eauto.
  - destruct S as (ld & lk & E & E' & [(_ & _ & -> & _)|[(_ & _ & -> & _)|(_ & -> & _)]]); auto.
    + apply all_of_upd; auto. apply Forall_remove_at; eauto.
    + destruct (kind_of t); auto. apply all_of_upd; auto. apply Forall_removelast; eauto.
Qed.
Lemma all_of_nil P : all_of P [].
Proof. intros [|k] l; discriminate. Qed.
Lemma easy_brings t c : typed t c -> easy t c -> brings (pos t) c.
Proof.
  intros Ty Ea. destruct c; cbn [typed easy brings] in *; try tauto.
  - destruct Ty as [K _]. intros x _ K'. congruence.
  - destruct c; cbn [veasy vbrings] in *; try tauto.
    + intros x Px K. unfold lands, vsize, valign. rewrite (Ea K). now apply Px.
    + destruct Ea as [_ Ea]. intros x Px K. unfold lands, vsize, valign. rewrite (Ea K). now apply Px.
Qed.
Lemma only_fair_next cs n : only Next cs -> fair false n cs = true.
Proof. unfold only. intros ->. apply fair_next. Qed.
Lemma only_fair_back cs n : only NextBack cs -> fair false n cs = true.
Proof. unfold only. intros ->. apply fair_next_back. Qed.
Lemma only_snoc c cs : only c cs -> only c (cs ++ [c]).
Proof. unfold only. intros E. rewrite app_length, Nat.add_comm. cbn [length Nat.add]. rewrite E at 1. symmetry. apply repeat_cons. Qed.
Lemma veasy_safe t c l : veasy t c -> vsafe t c l.
Proof.
  assert (Z : forall i : nat, kind_of t <> KUnaligned \/ i = 0%nat -> kind_of t = KUnaligned -> S i <> length l \/ i = 0%nat) by tauto.
  intros Ea. destruct c; cbn [veasy vsafe] in *; auto.
  - destruct Ea as [K|[O|O]]; auto using only_fair_next, only_fair_back.
  - destruct Ea as [K|O]; auto using only_fair_back, only_snoc.
  - destruct Ea as [P [K|Z0]]; auto.
  - destruct Ea as (N & P & Z0). split; auto. intros K. split; [now apply P|]. destruct Z0 as [|Z0]; [congruence|].
    rewrite Z0. destruct l; auto. left. discriminate.
  - destruct Ea. auto.
  - destruct Ea as [N F]. split; auto. intros K. eapply Forall_impl; [|exact F]. intros x P. now apply P.
  - destruct Ea as (N & P & Z0). split; auto. intros K. split; [now apply P|]. destruct Z0 as [|Z0]; [congruence|].
    rewrite Z0. destruct l; auto. left. discriminate.
  - destruct Ea as [N F]. split; auto. intros K. eapply Forall_impl; [|exact F]. intros x P. now apply P.
  - destruct Ea as [[K|[O|O]] _]; auto using only_fair_next, only_fair_back.
  - destruct Ea as [P [K|Z0]]; auto.
Qed.
Lemma easy_safe t c s : easy t c -> all_of (pos t) s -> safe t c s.
Proof.
  intros Ea F. destruct c; cbn [easy safe] in *; auto using veasy_safe.
  - intros K. eapply Forall_impl; [|exact Ea]. intros x P. now apply P.
  - destruct Ea as [N Ea]. split; auto. intros K. eapply Forall_impl; [|exact Ea]. intros x P. now apply P.
  - destruct Ea as [N Ea]. split; auto. intros K. eapply Forall_impl; [|exact Ea]. intros x P. now apply P.
  - intros lk x E. apply F in E. apply Forall_app in E as [_ E]. inversion_clear E. assumption.
  - intros ld lk x E E' Ex K. destruct Ea as [|[-> ->]]; [congruence|]. ands; auto.
    + apply F in E'. eapply Forall_forall in E'; [|eapply nth_error_In; eauto]. now apply E'.
    + destruct ld; auto. left. discriminate.
Qed.
Lemma easy_safe_run t cs : Forall (typed t) cs -> Forall (easy t) cs -> forall s, all_of (pos t) s -> safe_run t cs s.
Proof.
  induction cs as [|c cs IH]; intros Ty Ea s F; cbn [safe_run]; auto. inversion_clear Ty. inversion_clear Ea. ands; eauto using easy_safe.
  - intros o s' ds S. eauto using brings_spec, easy_brings.
  - intros r s' ds S. eauto using brings_panic, easy_brings.
Qed.
Theorem C49_easy_partial t cs w : wf_ty t -> Forall (typed t) cs -> Forall (easy t) cs -> behaves t [] cs [] w.
Proof. intros. apply C49_start_partial; auto. apply easy_safe_run; auto using all_of_nil. Qed.

(** ** C50: no undefined behaviour *)
Definition defined {A} (p : res A * world) : Prop := forall u, fst p <> UB u.
Lemma behaves_defined t env cs s w : behaves t env cs s w -> defined (exec t env cs w).
Proof. unfold behaves, run, defined. destruct (exec t env cs w) as [[|r| |u] w']; cbn [fst]; intros H u'; try discriminate. destruct H. Qed.
Theorem C50_sized_partial s a cs w : wf_ty (TSized s a) -> Forall (typed (TSized s a)) cs -> Forall calm cs ->
  defined (exec (TSized s a) [] cs w).
Proof. intros. eapply behaves_defined, C49_sized_partial; eauto. Qed.
Theorem C50_history_partial t cs w : wf_ty t -> safe_run t cs [] -> defined (exec t [] cs w).
Proof. intros. eapply behaves_defined, C49_start_partial; eauto. Qed.
Theorem C50_easy_partial t cs w : wf_ty t -> Forall (typed t) cs -> Forall (easy t) cs -> defined (exec t [] cs w).
Proof. intros. eapply behaves_defined, C49_easy_partial; eauto. Qed.
(** And a history only aborts if the allocator or a destructor fails. *)
Theorem C49_no_abort_partial t cs w : wf_ty t -> safe_run t cs [] -> (forall n, cfg_alloc n <> None) -> drops_quiet ->
  exists rs env w' s' dl, exec t [] cs w = (Ok (rs, env), w') /\ spec_run t cs [] rs s' dl /\ tracks t env s' w'.
Proof.
  intros Wt S A Q. pose proof (C49_start_partial t cs w Wt S) as H. unfold behaves, run in H.
  destruct (exec t [] cs w) as [[[rs env]|r| |u] w']; try contradiction.
  - destruct H as (s' & dl & S' & T & _). exists rs, env, w', s', dl. auto.
  - destruct H as [(n & E)|(n & E)]; [now apply A in E|]. rewrite Q in E. discriminate.
Qed.
End WithConfig.

Print Assumptions C49_guarded_partial.
Print Assumptions C49_history_partial.
Print Assumptions C49_sized_partial.
Print Assumptions C49_easy_partial.
Print Assumptions C49_no_abort_partial.
Print Assumptions C50_sized_partial.
Print Assumptions C50_history_partial.
Print Assumptions C50_easy_partial.

(** ** Concrete histories *)
Section Cases.
Local Existing Instance cfg_release.
Definition same_first (x y : value) : bool := first_eqb x y.
Definition u32_history : list op :=
  [New false; On 0 (VPush (u32 1)); On 0 (VPush (u32 2)); On 0 (VInsert 1 (u32 3)); CloneOf 0 (fun x => x) (fun x => ret x);
   MoveLast 0 1; On 0 (VRemove 0); On 0 (VIndex 9); Equal 0 1 same_first; On 0 (VVisit [Next; NextBack; Nth 0]);
   MoveAt 1 0 0 2; DropVec 1; On 1 VLen; On 0 (VGet 1); On 0 VPopDrop; On 0 VLen].
Lemma copies_ret t : copies t (fun x => x) (fun _ => False) (fun x => ret x).
Proof. split; auto. intros y w G. apply run_ret. split; auto. split; auto. apply within_refl. Qed.
Example C49_sized_case : wf_ty (TSized 4 4) /\ Forall (typed (TSized 4 4)) u32_history /\ Forall calm u32_history /\
  exists env w', exec (TSized 4 4) [] u32_history empty_world =
    (Ok ([inl BUnit; inl BUnit; inl BUnit; inl BUnit; inl BUnit; inl BUnit; inl (BVal (u32 1)); inr PBounds; inl (BBool false);
          inl (BItems [(Some (u32 3), 2%nat); (Some (u32 2), 1%nat); (Some (u32 2), 0%nat)]); inl BUnit; inl BUnit; inl BSkip;
          inl (BOpt (Some (u32 2))); inl BUnit; inl (BNum 1)], env), w') /\ w_drops w' = [u32 2; u32 1; u32 3; u32 2].
Proof.
  split; [apply wf_u32|]. split.
  { repeat (apply Forall_cons || apply Forall_nil); cbn [typed vtyped]; auto; try (apply goodb_ok; reflexivity).
    split; [reflexivity|]. eexists. apply copies_ret. }
  split; [repeat (apply Forall_cons || apply Forall_nil); exact I|]. do 2 eexists. split; [run|]. run.
Qed.
(** Zero-sized elements: what reserves bytes panics (F8) and leaves everything as it was; the rest works. *)
Definition nothing : value := Value MUnit [].
Definition unit_history : list op :=
  [New false; On 0 (VPush nothing); On 0 (VPushWith nothing); On 0 (VInsertWith 1 nothing); On 0 (VPushWith nothing); On 0 VLen; On 0 VByteLen; CloneOf 0 (fun x => x) (fun x => ret x);
   On 0 (VInsert 0 nothing); On 0 (VExtend 2 [nothing; nothing]); On 0 (VReserveCount 7); On 0 (VShrinkTo 0); OfValues [nothing]; Collect 0 []; New true; MoveLast 1 0;
   On 0 (VVisit [NextBack; Next; Next]); On 0 (VRemove 1); On 0 (VIndex 1); On 0 VPopDrop; DropVec 0; On 1 VLen].
Example C49_zst_case : wf_ty (TSized 0 1) /\ Forall (typed (TSized 0 1)) unit_history /\ Forall calm unit_history /\
  exists env w', exec (TSized 0 1) [] unit_history empty_world =
    (Ok ([inl BUnit; inr PDivZero; inl BUnit; inl BUnit; inl BUnit; inl (BNum 3); inl (BNum 0); inr PDivZero;
          inr PDivZero; inr PDivZero; inl BUnit; inr PDivZero; inr PDivZero; inr PDivZero; inl BUnit; inl BUnit;
          inl (BItems [(Some nothing, 1%nat); (Some nothing, 0%nat); (None, 0%nat)]); inl (BVal nothing); inr PBounds; inl BUnit; inl BUnit; inl (BNum 1)], env), w') /\
    w_drops w' = repeat nothing 6.
Proof.
  split; [split; [split; [lia|split; [exists 0; lia|lia]]|reflexivity]|]. split.
  { repeat (apply Forall_cons || apply Forall_nil); cbn [typed vtyped]; auto; try (apply goodb_ok; reflexivity).
    - split; [reflexivity|]. eexists. apply copies_ret.
    - split; [discriminate|]. repeat (apply Forall_cons || apply Forall_nil); apply goodb_ok; reflexivity.
    - discriminate.
    - discriminate.
    - split; [discriminate|constructor]. }
  split; [repeat (apply Forall_cons || apply Forall_nil); exact I|]. do 2 eexists. split; [run|]. run.
Qed.
(** Trait objects of different layouts, one of them without bytes. *)
Definition nil1 : value := dyn_val 11 0 1 [].
Definition nil2 : value := dyn_val 12 0 1 [].
Definition dyn_history : list op :=
  [New true; On 0 (VPush (one 1)); On 0 (VPush (word 2)); On 0 (VPush (half 3)); On 0 (VInsert 0 (five 4)); On 0 (VVisit [NextBack; NextBack]);
   OfValues [nil1; half 5; one 6]; On 1 (VRemove 0); On 0 (VPush nil2); On 0 VPop; MoveLast 1 0; MoveAt 0 0 1 0; On 1 (VExtend 0 [word 7; one 8]); On 1 (VShrinkTo 0); On 1 (VIndex 7); On 0 (VGet 0); On 1 (VGet 3); On 0 VPop;
   On 0 (VTryReserve false 3 100 64); On 0 VAlign; On 0 (VVisit [Next; Next; Next; Next]); DropVec 0; On 0 VLen].
Example C49_dyn_case : wf_ty TDyn /\ Forall (typed TDyn) dyn_history /\ Forall (easy TDyn) dyn_history /\
  exists env w', exec TDyn [] dyn_history empty_world =
    (Ok ([inl BUnit; inl BUnit; inl BUnit; inl BUnit; inl BUnit; inl (BItems [(Some (half 3), 3%nat); (Some (word 2), 2%nat)]);
          inl BUnit; inl (BVal nil1); inl BUnit; inl (BOpt (Some nil2)); inl BUnit; inl BUnit; inl BUnit; inl BUnit; inr PBounds; inl (BOpt (Some (half 5))); inl (BOpt (Some (one 8)));
          inl (BOpt (Some (word 2))); inl (BRes ROk); inl (BNum 64); inl (BItems [(Some (half 5), 2%nat); (Some (five 4), 1%nat); (Some (one 1), 0%nat); (None, 0%nat)]);
          inl BUnit; inl BSkip], env), w') /\ w_drops w' = [half 5; five 4; one 1].
Proof.
  split; [exact I|]. split.
  { repeat (apply Forall_cons || apply Forall_nil); cbn [typed vtyped]; auto; try (apply goodb_ok; reflexivity).
    - split; [discriminate|]. repeat (apply Forall_cons || apply Forall_nil); apply goodb_ok; reflexivity.
    - discriminate.
    - repeat split; discriminate. }
  split.
  { assert (P : forall x, (0 <? vsize TDyn x) || (valign TDyn x =? 1) = true -> pos TDyn x) by (intros x; apply posb).
    repeat (apply Forall_cons || apply Forall_nil); cbn [easy veasy]; auto; try (apply P; reflexivity); try discriminate.
    - right; right. reflexivity.
    - split; repeat (apply Forall_cons || apply Forall_nil); try (intros E; discriminate E); apply P; reflexivity.
    - right; left. reflexivity. }
  do 2 eexists. split; [run|]. run.
Qed.
(** Closures of the caller's: [intact] delivers its value, [broken] scribbles over the room it was given and panics. *)
Definition intact (t : ty) (x : value) : emplacable * deal := (emplacable_of_value t x, value_deal t x).
Definition broken (t : ty) (x : value) (n : nat) : emplacable * deal :=
  (breaks_off t x (repeat (Byte 66) (length (v_bytes x))) (PUser n), breaks_off_deal t x (PUser n)).
Lemma intact_producer t x : goodb t x = true -> producer t (fst (intact t x)) (snd (intact t x)).
Proof.
  intros G. split; [intros; apply value_emits|]. split; [reflexivity|]. split; [reflexivity|]. split; [apply value_stable|].
  destruct x. split; [reflexivity|]. now apply goodb_ok.
Qed.
Lemma broken_producer t x n : goodb t x = true -> producer t (fst (broken t x n)) (snd (broken t x n)).
Proof.
  intros G. split; [intros; apply breaks_off_emits; unfold zlen; now rewrite repeat_length|]. split; [reflexivity|]. split; [reflexivity|].
  split; [repeat intro; auto|]. destruct x. split; [reflexivity|]. now apply goodb_ok.
Qed.
Definition push_from (p : emplacable * deal) : vop := VPushFrom (fst p) (snd p).
Definition insert_from (i : nat) (p : emplacable * deal) : vop := VInsertFrom i (fst p) (snd p).
Definition closure_history : list op :=
  [New true; On 0 (push_from (intact TDyn (word 1))); On 0 (push_from (broken TDyn (five 2) 7)); On 0 (insert_from 0 (broken TDyn (half 3) 8)); On 0 VLen;
   On 0 (insert_from 0 (intact TDyn (half 4)));
   On 0 (VExtendFrom 1 [intact TDyn (five 6); broken TDyn (word 7) 9; intact TDyn (word 8)]); On 0 (VVisit [Next; Next; Next; Next]); DropVec 0;
   CollectFrom 0 [intact TDyn (half 10); broken TDyn (five 11) 4; intact TDyn (word 12)]; CollectFrom 2 [intact TDyn (five 13); intact TDyn (word 14)]; On 1 (VGet 1)].
Example C49_closure_case : Forall (typed TDyn) closure_history /\ Forall (easy TDyn) closure_history /\
  exists env w', exec TDyn [] closure_history empty_world =
    (Ok ([inl BUnit; inl BUnit; inr (PUser 7); inr (PUser 8); inl (BNum 1); inl BUnit; inr (PUser 9);
          inl (BItems [(Some (half 4), 2%nat); (Some (word 1), 1%nat); (Some (five 6), 0%nat); (None, 0%nat)]); inl BUnit;
          inr (PUser 4); inl BUnit; inl (BOpt (Some (word 14)))], env), w') /\
    w_drops w' = [word 8; half 4; word 1; five 6; word 12; half 10].
Proof.
  split.
  { repeat (apply Forall_cons || apply Forall_nil); cbn [typed vtyped push_from insert_from]; auto;
      try (apply intact_producer; reflexivity); try (apply broken_producer; reflexivity).
    all: split; [discriminate|].
    all: repeat (apply Forall_cons || apply Forall_nil); (apply intact_producer; reflexivity) || (apply broken_producer; reflexivity). }
  split.
  { assert (P : forall x, (0 <? vsize TDyn x) || (valign TDyn x =? 1) = true -> pos TDyn x) by (intros x; apply posb).
    repeat (apply Forall_cons || apply Forall_nil); cbn [easy veasy push_from insert_from]; auto;
      repeat match goal with |- _ /\ _ => split end; auto; try (apply P; reflexivity); try discriminate;
      try (repeat (apply Forall_cons || apply Forall_nil); try (intros E; discriminate E); apply P; reflexivity).
    right; left. reflexivity. }
  do 2 eexists. split; [run|]. run.
Qed.
(** Writing through the references of an iterator, and values coerced on their way in. *)
Definition bump (x : value) : value := Value (v_meta x) (map (fun b => match b with Byte n => Byte (n + 1) | b => b end) (v_bytes x)).
Lemma bump_alike x : alike x (bump x).
Proof. split; [reflexivity|]. cbn. now rewrite map_length. Qed.
Definition coerced_history : list op :=
  [New true; On 0 (VPushUnsize 4 4 (MVt 2 4 4) (u32 1)); On 0 (VPush (word 2)); On 0 (VInsertUnsize 4 4 (MVt 2 4 4) 0 (u32 3));
   On 0 (VUpdate [Next; Next] bump); On 0 (VUpdate [NextBack] bump); On 0 (VVisit [Next; Next; Next]); DropVec 0].
Example C49_coerced_case : Forall (typed TDyn) coerced_history /\ Forall (easy TDyn) coerced_history /\
  exists env w', exec TDyn [] coerced_history empty_world =
    (Ok ([inl BUnit; inl BUnit; inl BUnit; inl BUnit; inl BUnit; inl BUnit;
          inl (BItems [(Some (half 4), 2%nat); (Some (half 2), 1%nat); (Some (word 3), 0%nat)]); inl BUnit], env), w') /\
    w_drops w' = [half 4; half 2; word 3].
Proof.
  assert (K : forall n, goodb (TSized 4 4) (u32 n) = true -> coercible TDyn 4 4 (MVt 2 4 4) (u32 n)).
  { intros n G. split; [split; reflexivity|]. split; [split; [apply goodb_ok in G; apply G|reflexivity]|]. split; [intros ea E; discriminate E|]. now apply goodb_ok. }
  split. { repeat (apply Forall_cons || apply Forall_nil); cbn [typed vtyped]; auto using bump_alike; try (apply K; reflexivity). apply goodb_ok; reflexivity. }
  split. { repeat (apply Forall_cons || apply Forall_nil); cbn [easy veasy]; auto; try (apply posb; reflexivity); try (split; [apply posb; reflexivity|auto]).
    - split; [right; left; reflexivity|reflexivity].
    - split; [right; right; reflexivity|reflexivity].
    - right; left; reflexivity. }
  do 2 eexists. split; [run|]. run.
Qed.
(** C strings: [CStr]'s wrong declared alignment does no harm as long as no box made from an element is freed. *)
Definition cstr_history : list op :=
  [OfValues [str_val [97; 0]; str_val [98; 99; 0]]; On 0 (VPushWith (str_val [0])); On 0 VPop; On 0 (VRemove 0); On 0 (VGet 0)].
Example C49_cstr_case : Forall (typed TCStr) cstr_history /\ Forall (easy TCStr) cstr_history /\
  exists env w', exec TCStr [] cstr_history empty_world =
    (Ok ([inl BUnit; inl BUnit; inl (BOpt (Some (str_val [0]))); inl (BVal (str_val [97; 0])); inl (BOpt (Some (str_val [98; 99; 0])))], env), w').
Proof.
  split. { repeat (apply Forall_cons || apply Forall_nil); cbn [typed vtyped]; auto; apply goodb_ok; reflexivity. }
  split. { repeat (apply Forall_cons || apply Forall_nil); cbn [easy veasy]; try (intros K; discriminate K).
    - split; [intros _; vm_compute; discriminate|intros K; discriminate K].
    - exact I.
    - left; discriminate.
    - exact I. }
  do 2 eexists. run.
Qed.
(** An allocator that fails the second time, with a handler that panics: the push is undone and the history goes on. *)
Definition cfg_second : Config := Build_Config false (fun n => if Nat.eqb n 1 then None else Some 1) (fun _ => false) true.
Definition oom_history : list op :=
  [New false; On 0 (VPush (word 1)); On 0 (VPush (word 2)); On 0 VLen; On 0 (VPush (word 3)); On 0 (VVisit [Next; Next; Next])].
Example C49_oom_case : Forall (typed (C := cfg_second) TDyn) oom_history /\ Forall (easy (C := cfg_second) TDyn) oom_history /\
  exists env w', exec (C := cfg_second) TDyn [] oom_history empty_world =
    (Ok ([inl BUnit; inr POom; inl BUnit; inl (BNum 1); inl BUnit; inl (BItems [(Some (word 2), 1%nat); (Some (word 3), 0%nat); (None, 0%nat)])], env), w').
Proof.
  split. { repeat (apply Forall_cons || apply Forall_nil); cbn [typed vtyped]; auto; apply goodb_ok; reflexivity. }
  split. { repeat (apply Forall_cons || apply Forall_nil); cbn [easy veasy]; auto; [apply posb; reflexivity..|right; left; reflexivity]. }
  do 2 eexists. run.
Qed.

(** ** The claims themselves are false *)
(** C49: inserting between two strings. *)
Definition str_insert : list op := [OfValues [ab; cd]; On 0 (VInsert 1 ef); On 0 (VGet 0); On 0 (VGet 1); On 0 (VGet 2)].
Theorem C49_insert_refuted : Forall (typed TStr) str_insert /\
  exists rs env w', exec TStr [] str_insert empty_world = (Ok (rs, env), w') /\ forall s' dl, ~ spec_run TStr str_insert [] rs s' dl.
Proof.
  split. { repeat (apply Forall_cons || apply Forall_nil); cbn [typed vtyped]; auto; try (apply goodb_ok; reflexivity).  }
  do 3 eexists. split; [run|]. intros s' dl H. unfold str_insert in H.
  repeat match goal with
  | H : spec_run _ (_ :: _) _ _ _ _ |- _ => inversion H; clear H; subst
  | H : spec (OfValues _) _ _ _ _ |- _ => destruct H as (_ & -> & _)
  | H : spec (On _ _) _ _ _ _ |- _ => destruct H as (? & H & ->)
  | H : vspec _ _ _ _ _ |- _ => cbn [vspec] in H; destruct H as (? & H)
  | H : _ /\ _ |- _ => destruct H
  end; subst; discriminate.
Qed.
(** C49: mixing the two ends of an iterator. *)
Definition dyn_ends : list op := [OfValues [word 1; word 2]; On 0 (VVisit [Next; NextBack])].
Theorem C49_iterate_refuted : Forall (typed TDyn) dyn_ends /\
  exists rs env w', exec TDyn [] dyn_ends empty_world = (Ok (rs, env), w') /\ forall s' dl, ~ spec_run TDyn dyn_ends [] rs s' dl.
Proof.
  split. { repeat (apply Forall_cons || apply Forall_nil); cbn [typed vtyped]; auto; try (apply goodb_ok; reflexivity).  }
  do 3 eexists. split; [run|]. intros s' dl H. unfold dyn_ends in H.
  repeat match goal with
  | H : spec_run _ (_ :: _) _ _ _ _ |- _ => inversion H; clear H; subst
  | H : spec (OfValues _) _ _ _ _ |- _ => destruct H as (_ & -> & _)
  | H : spec (On _ _) _ _ _ _ |- _ => destruct H as (? & H & ->)
  | H : vspec _ _ _ _ _ |- _ => cbn [vspec] in H; destruct H as (? & H)
  end; discriminate.
Qed.
(** C49, C50: removing the last trait object. *)
Definition dyn_remove : list op := [OfValues [half 1; half 2]; On 0 (VRemove 1)].
Theorem C50_history_refuted : Forall (typed TDyn) dyn_remove /\ exists u w', exec TDyn [] dyn_remove empty_world = (UB u, w').
Proof.
  split. { repeat (apply Forall_cons || apply Forall_nil); cbn [typed vtyped]; auto; try (apply goodb_ok; reflexivity).  }
  do 2 eexists. run.
Qed.
End Cases.

Print Assumptions C49_start_partial.
Print Assumptions C49_insert_refuted.
Print Assumptions C49_iterate_refuted.
Print Assumptions C50_history_refuted.
