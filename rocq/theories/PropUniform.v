(** C49, C50, C55: vectors of trait objects of similar layout.

    Most defects of the code for trait objects come from slots that are larger than their element. If the sizes of all elements
    are multiples of some power of two [A] and nothing is aligned to more than [A], then no vector ever records a larger
    alignment than [A] (Aligns.v; [new()] starts with 8), all slots are full, and every call does what it does on lists, except [insert] inside the
    vector (C06_insert_dyn_refuted) and mixing the two ends of an iterator (C49_iterate_refuted). *)
From Coq Require Import ZArith List Bool Lia.
From Verif Require Import Types World ValidSize Emplace SizedVec AlignedVec UnalignedVec Api Spec Bytes Arith Wp Mem Repr
  Access Reserve Realign Orep Push Deal PushWith Shell Insert Take Pop Box Iter Calls GetMut DropVec Family Build PushAll Wrote Sources
  Obs Room Shrink PropPush PropReserve PropAccess PropEdit PropEmplace PropShrink PropCompare PropWhole Convert PropUnsize PropConvert History Findings PropHistory Aligns.
Import ListNotations.
Open Scope Z_scope.
Open Scope m_scope.

Section WithConfig.
Context {C : Config}.

(** ** C55: a vector never records more alignment than it was asked for *)
(** [modest t A c]: the values brought in by the call and the alignments it requests are aligned to at most [A]. *)
Definition vmodest (t : ty) (A : Z) (c : vop) : Prop :=
  match c with
  | VPush x | VPushWith x | VInsert _ x | VInsertWith _ x => valign t x <= A
  | VTryReserve _ _ _ a | VReserve _ _ _ a => a <= A
  | VExtend _ xs => Forall (fun x => valign t x <= A) xs
  | VPushFrom e _ | VInsertFrom _ e _ => fkeeps t A e
  | VExtendFrom _ ps => Forall (fkeeps t A) (map fst ps)
  | VPushUnsize _ _ m x | VInsertUnsize _ _ m _ x => valign t (coerce m x) <= A
  | _ => True
  end.
Definition modest (t : ty) (A : Z) (c : op) : Prop :=
  match c with
  | New false | WithCapacity _ | WithCapacityBytes _ _ => 8 <= A
  | WithCapacityBytesAlign _ _ a => a <= A
  | OfValues xs | Collect _ xs => 8 <= A /\ Forall (fun x => valign t x <= A) xs
  | CollectFrom _ ps => 8 <= A /\ Forall (fkeeps t A) (map fst ps)
  | On _ c => vmodest t A c
  | _ => True
  end.
Lemma modest_mild t A c : kind_of t = KUnaligned -> typed t c -> modest t A c -> mild t A c.
Proof. intros K Ty H. destruct c; cbn [modest mild typed] in *; auto. destruct Ty. congruence. Qed.
Lemma small_align t A self al w : kind_of t = KUnaligned -> small t A w -> v_align t self w = (Ok al, w) -> al <= A.
Proof.
  intros K S. unfold v_align, bind, get_u. rewrite K. destruct (nth_error (w_vecs w) self) as [[v|v|v|]|] eqn:E; try discriminate.
  intros [= <-]. apply nth_error_In in E. eapply Forall_forall in S; eauto. apply S.
Qed.
Lemma exec_small t A cs : kind_of t = KUnaligned -> 1 <= A -> Forall (typed t) cs -> Forall (modest t A) cs ->
  forall env w, small t A w -> small t A (snd (exec t env cs w)).
Proof.
  intros K A1. induction cs as [|c cs IH]; intros Ty Mo env w S; cbn [exec]; [exact S|]. inversion_clear Ty. inversion_clear Mo.
  pose proof (k_exec1 t A K A1 env c w ltac:(apply modest_mild; auto) S) as S1. unfold bind at 1.
  destruct (exec1 t env c w) as [[[r env']|r| |u] w1]; cbn [snd] in *; auto.
  specialize (IH ltac:(auto) ltac:(auto) env' w1 S1). unfold bind. destruct (exec t env' cs w1) as [[[rs env'']|r'| |u] w2]; exact IH.
Qed.
(** No guard is needed: the bound survives the calls that go wrong, too. *)
Theorem C55_align_bound t A cs w r w' j al : kind_of t = KUnaligned -> 1 <= A -> Forall (typed t) cs -> Forall (modest t A) cs -> w_vecs w = [] ->
  exec t [] cs w = (r, w') -> v_align t j w' = (Ok al, w') -> al <= A.
Proof.
  intros K A1 Ty Mo V E. apply small_align; auto. change w' with (snd (r, w')). rewrite <- E. apply exec_small; auto. unfold small. rewrite V. constructor.
Qed.

(** ** Elements of similar layout *)
Definition even (t : ty) (A : Z) (x : value) : Prop := lands t x /\ vsize t x mod A = 0 /\ valign t x <= A.
Definition vuniform (t : ty) (A : Z) (c : vop) : Prop :=
  match c with
  | VSet _ f => forall x, v_meta (f x) = v_meta x
  | VVisit cs => only Next cs \/ only NextBack cs
  | VVisitLast cs => only NextBack cs
  | VPush x | VPushWith x | VInsertWith _ x => even t A x
  | VInsert i x => even t A x /\ i = 0%nat
  | VRemoveDrop i => drops_quiet
  | VTryReserve _ _ _ a | VReserve _ _ _ a => a <= A
  | VShrink n b a => pow2 a /\ b mod A = 0
  | VExtend _ xs => Forall (even t A) xs
  | VPushFrom e D | VInsertFrom _ e D => even t A (d_value D) /\ fkeeps t A e
  | VExtendFrom _ ps => Forall (even t A) (map d_value (map snd ps)) /\ Forall (fkeeps t A) (map fst ps)
  | VUpdate cs f => (only Next cs \/ only NextBack cs) /\ forall x, v_meta (f x) = v_meta x
  | VPushUnsize _ _ m x => even t A (coerce m x)
  | VInsertUnsize _ _ m i x => even t A (coerce m x) /\ i = 0%nat
  | _ => True
  end.
Definition uniform (t : ty) (A : Z) (c : op) : Prop :=
  match c with
  | New false | WithCapacity _ | WithCapacityBytes _ _ => 8 <= A
  | WithCapacityBytesAlign _ _ a => a <= A
  | OfValues xs | Collect _ xs => 8 <= A /\ Forall (even t A) xs
  | CollectFrom _ ps => 8 <= A /\ Forall (even t A) (map d_value (map snd ps)) /\ Forall (fkeeps t A) (map fst ps)
  | On _ c => vuniform t A c
  | _ => True
  end.
Lemma even_pos t A x : even t A x -> lands t x. Proof. now intros []. Qed.
Lemma even_all_pos t A xs : Forall (even t A) xs -> Forall (lands t) xs.
Proof. intros F. eapply Forall_impl; [|exact F]. intros x. apply even_pos. Qed.
Lemma even_all_align t A xs : Forall (even t A) xs -> Forall (fun x => valign t x <= A) xs.
Proof. intros F. eapply Forall_impl; [|exact F]. now intros x (_ & _ & ?). Qed.
Lemma uniform_modest t A c : uniform t A c -> modest t A c.
Proof.
  intros H. destruct c; cbn [uniform modest] in *; try (destruct H; split); eauto using even_all_align.
  { now destruct H0. }
  destruct c; cbn [vuniform vmodest] in *; eauto using even_all_align; try (now destruct H as (_ & _ & ?)). all: apply H.
Qed.
Lemma uniform_brings t A c : kind_of t = KUnaligned -> typed t c -> uniform t A c -> brings (even t A) c.
Proof.
  intros K Ty H. destruct c; cbn [uniform brings typed] in *; try tauto. { destruct Ty. congruence. }
  destruct c; cbn [vuniform vbrings] in *; try tauto.
  - intros x. unfold even, lands, vsize, valign. now rewrite H.
  - destruct H as [_ H]. intros x. unfold even, lands, vsize, valign. now rewrite H.
Qed.
Lemma even_mod t A x a : pow2 A -> pow2 a -> a <= A -> even t A x -> vsize t x mod a = 0.
Proof.
  intros PA Pa L (_ & M & _). pose proof (pow2_pos _ PA). pose proof (pow2_pos _ Pa). apply Z.mod_divide; [lia|].
  apply Z.divide_trans with A; [now apply pow2_divide|]. now apply Z.mod_divide in M; [|lia].
Qed.
Lemma even_padded t A l a : pow2 A -> pow2 a -> a <= A -> Forall (even t A) l -> end_padded t a l.
Proof. intros PA Pa L F l0 y ->. apply Forall_app in F as [_ F]. inversion_clear F. now apply (even_mod t A). Qed.
Lemma align_small t A self l w : kind_of t = KUnaligned -> repr t self l w -> small t A w -> exists al, v_align t self w = (Ok al, w) /\ pow2 al /\ al <= A.
Proof.
  intros K R S. apply repr_orep in R as (o & d & R). pose proof (v_align_eq _ _ _ _ _ _ R) as E. exists (o_al t o). ands; auto.
  - eapply orep_al; eauto.
  - eapply small_align; eauto.
Qed.
Lemma closable_even t A self l w i : pow2 A -> repr t self l w -> small t A w -> Forall (even t A) l -> closable t self l i w.
Proof.
  intros PA R S F K. right. destruct (align_small t A self l w K R S) as (al & E & P & L). exists al. split; auto. apply (even_padded t A); auto. now apply Forall_removelast.
Qed.
Lemma movable_even t A self l w i a : pow2 A -> pow2 a -> a <= A -> repr t self l w -> small t A w -> Forall (even t A) l -> movable t self l i a w.
Proof.
  intros PA Pa La R S F K. right. destruct (align_small t A self l w K R S) as (al & E & P & L). exists al. split; auto.
  apply (even_padded t A); auto using pow2_maxi. lia.
Qed.
Lemma uniform_shrinks t A self l w al a bc b : kind_of t = KUnaligned -> pow2 A -> pow2 a -> repr t self l w -> pow2 al -> al <= A -> Forall (even t A) l ->
  b mod A = 0 -> shrinks_well t l bc al b a.
Proof.
  intros K PA Pa R P L F Hb _. pose proof (pow2_pos _ PA). pose proof (pow2_pos _ P).
  assert (Ps : pow2 (settled t l al a)). { rewrite settled_new. unfold new_align. apply pow2_maxi; [now apply pow2_mini|].
    apply maxal_pow2; [apply pow2_1|]. apply repr_orep in R as (o & d & R). eapply orep_good; eauto. }
  assert (Ls : settled t l al a <= A). { rewrite settled_new. unfold new_align.
    pose proof (maxal_le t l 1 A ltac:(lia) (even_all_align _ _ _ F)). lia. }
  pose proof (pow2_pos _ Ps). split.
  - intros x I. apply Forall_removelast in F. eapply Forall_forall in F; eauto. rewrite !pad_id; auto; now apply (even_mod t A).
  - right; right. apply Z.mod_divide; [lia|]. apply Z.divide_trans with A; [now apply pow2_divide|]. apply Z.mod_divide in Hb; auto. lia.
Qed.
Lemma vuniform_guard t A self l w c : kind_of t = KUnaligned -> pow2 A -> repr t self l w -> vtyped t c -> small t A w -> Forall (even t A) l ->
  vuniform t A c -> vguard t self c l w.
Proof.
  intros K PA R Ty S F U. assert (Nh : forall x, not_huge t x) by (intros x ->; discriminate K).
  destruct (bcap_ex _ _ _ _ R) as (bc & B). destruct (align_small t A self l w K R S) as (al & E & P & L).
  destruct c; cbn [vuniform vguard vtyped] in *; auto; try (now apply (closable_even t A); auto).
  - destruct U; auto using only_fair_next, only_fair_back.
  - auto using only_fair_back, only_snoc.
  - eapply placeable_pos; eauto using even_pos.
  - split; auto. eapply placeable_pos; eauto using even_pos.
  - destruct U as [Ev ->]. right; right. split; auto. eapply placeable_pos; eauto using even_pos.
  - ands; auto. { eapply placeable_pos; eauto using even_pos. } intros Li. apply (movable_even t A); auto. { now apply good_align. } apply U. 
  - intros _. apply (closable_even t A); auto.
  - split; auto. intros _. apply (closable_even t A); auto.
  - intros _. apply (closable_even t A); auto.
  - exists bc, al. ands; auto. destruct U. apply (uniform_shrinks t A self l w); auto.
  - split. { now apply Forall_forall. } exists al. split; auto. destruct Ty. apply takes_of; eauto using align_1. intros _. eapply even_all_pos; eauto.
  - destruct U as [U _]. split; auto. eapply placeable_pos; eauto using even_pos.
  - destruct U as [U _]. ands; auto. { eapply placeable_pos; eauto using even_pos. } intros Li. apply (movable_even t A); auto. { apply good_align, Ty. } apply U.
  - destruct U as [U _]. split. { now apply Forall_forall. } exists al. split; auto. destruct Ty as [_ Ty]. apply takes_of; eauto using align_1, producers_good. intros _. eapply even_all_pos; eauto.
  - destruct U as [[U|U] _]; auto using only_fair_next, only_fair_back.
  - eapply placeable_pos; eauto using even_pos.
  - destruct U as [Ev ->]. right; right. split; auto. eapply placeable_pos; eauto using even_pos.
Qed.
Lemma uniform_guard t A env c s w : kind_of t = KUnaligned -> pow2 A -> tracks t env s w -> typed t c -> small t A w -> all_of (even t A) s ->
  uniform t A c -> guard t env c s w.
Proof.
  intros K PA T Ty S F U. assert (Nh : forall x, not_huge t x) by (intros x ->; discriminate K).
  destruct c; cbn [uniform guard typed] in *; auto.
  - destruct U. apply takes_of; auto; [lia|]. intros _. eapply even_all_pos; eauto.
  - destruct Ty, U. split. { now apply Forall_forall. } apply takes_of; auto; [lia|]. intros _. eapply even_all_pos; eauto.
  - destruct Ty, U as (_ & U & _). split. { now apply Forall_forall. } apply takes_of; [lia|now apply producers_good|]. intros _. eapply even_all_pos; eauto.
  - intros j l Al E. eapply vuniform_guard; eauto. eapply (tr_repr _ _ _ _ T); eauto.
  - intros j lk x N Al E. destruct (tracks_live _ _ _ _ _ _ T Al) as (l & _ & R). eapply placeable_pos; eauto.
    apply F in E. apply Forall_app in E as [_ E]. inversion_clear E. intros _. eapply even_pos; eauto.
  - intros j0 j' ld lk x N Al Al' E E' Ex. pose proof (tr_repr _ _ _ _ T _ _ _ Al E) as R. pose proof (tr_repr _ _ _ _ T _ _ _ Al' E') as R'.
    pose proof (F _ _ E) as Fd. pose proof (F _ _ E') as Fk. apply nth_error_In in Ex. pose proof Fk as Fx. eapply Forall_forall in Fx; eauto.
    ands.
    + apply (closable_even t A); auto.
    + intros Li. apply (movable_even t A); auto; [|apply Fx]. apply repr_orep in R' as (o & d & R'). apply orep_good in R'. eapply Forall_forall in R'; eauto. now apply good_align.
    + eapply placeable_pos; eauto. intros _. eapply even_pos; eauto.
Qed.
Theorem C49_uniform_partial t A cs : wf_ty t -> kind_of t = KUnaligned -> pow2 A -> 1 <= A -> Forall (typed t) cs -> Forall (uniform t A) cs ->
  forall env s w, tracks t env s w -> small t A w -> all_of (even t A) s -> behaves t env cs s w.
Proof.
  intros Wt K PA A1.
  induction cs as [|c cs IH]; intros Ty Un env s w T S F; unfold behaves; cbn [exec].
  - apply run_ret. exists s, []. cbn [fst snd concat]. rewrite app_nil_r. split; [constructor|]. split; auto. split; auto. apply books_refl.
  - inversion_clear Ty as [|? ? Tc Ty']. inversion_clear Un as [|? ? Uc Un'].
    pose proof (uniform_guard t A env c s w K PA T Tc S F Uc) as G.
    pose proof (k_exec1 t A K A1 env c w (modest_mild _ _ _ K Tc (uniform_modest _ _ _ Uc)) S) as S1.
    pose proof (uniform_brings t A c K Tc Uc) as Br.
    apply run_bind. pose proof (exec1_wp t env c s w Wt T Tc G) as H. unfold run in H |- *.
    destruct (exec1 t env c w) as [[[r env']|r| |u] w1] eqn:E; auto. destruct H as (B1 & s1 & T1 & ds & D1 & Sp). cbn [fst snd] in *.
    assert (F1 : all_of (even t A) s1). { destruct r; eauto using brings_spec, brings_panic. }
    change (run ('(rs, env'') <- exec t env' cs;; ret (r :: rs, env'')) w1
      (fun p w' => exists s' dl, spec_run t (c :: cs) s (fst p) s' dl /\ tracks t (snd p) s' w' /\
         w_drops w' = w_drops w ++ concat dl /\ books env (snd p) (handed t (c :: cs) (fst p)) w w') (fun _ _ => False) (fun _ => out_of_luck)).
    apply run_bind. eapply run_conseq; [exact (IH Ty' Un' env' s1 w1 T1 S1 F1)|..]; cbv beta; auto.
    intros [rs env''] w2 (s2 & dl & S2 & T2 & D2 & B2). apply run_ret. cbn [fst snd] in *.
    pose proof (books_trans _ _ _ _ _ _ _ _ B1 B2) as B. exists s2, (ds :: dl). split; [destruct r; econstructor; eauto|].
    split; auto. split; auto. cbn [concat]. now rewrite D2, D1, app_assoc.
Qed.
Theorem C49_uniform_start_partial t A cs w : wf_ty t -> kind_of t = KUnaligned -> pow2 A -> 1 <= A -> Forall (typed t) cs -> Forall (uniform t A) cs ->
  w_vecs w = [] -> behaves t [] cs [] w.
Proof.
  intros. eapply C49_uniform_partial; eauto using tracks_nil, all_of_nil. unfold small. rewrite H5. constructor.
Qed.
Theorem C50_uniform_partial t A cs w : wf_ty t -> kind_of t = KUnaligned -> pow2 A -> 1 <= A -> Forall (typed t) cs -> Forall (uniform t A) cs ->
  w_vecs w = [] -> defined (exec t [] cs w).
Proof. intros. eapply behaves_defined, C49_uniform_start_partial; eauto. Qed.
End WithConfig.

Print Assumptions C49_uniform_partial.
Print Assumptions C49_uniform_start_partial.
Print Assumptions C50_uniform_partial.
Print Assumptions C55_align_bound.

(** ** Concrete histories *)
Section Cases.
Local Existing Instance cfg_release.
Definition pair8 (n : Z) : value := dyn_val 10 16 8 (repeat n 16).   (* a [u64; 2] behind dyn *)
Lemma evenb t A x : ((0 <? vsize t x) || (valign t x =? 1)) && (vsize t x mod A =? 0) && (valign t x <=? A) = true -> even t A x.
Proof. rewrite !andb_true_iff, orb_true_iff. intros [[H H0] H1]. split; [|split]; [destruct H; [left; now apply Z.ltb_lt|right; now apply Z.eqb_eq]|now apply Z.eqb_eq|now apply Z.leb_le]. Qed.
(** Removing the last element, emplacing at the end and in the middle, moving elements between vectors, [shrink_to_fit]: each of
    them goes wrong for trait objects in general. *)
Definition word_history : list op :=
  [New true; On 0 (VPush (word 1)); On 0 (VPush (pair8 2)); On 0 (VInsertWith 2 (word 3)); On 0 (VInsertWith 1 (pair8 4));
   On 0 (VInsert 0 (word 5)); On 0 (VRemove 4); On 0 (VRemove 1); OfValues [pair8 6; word 7]; MoveAt 0 3 1 1; MoveAt 1 1 0 1;
   On 0 (VShrink 0 0 1); On 1 (VShrink 0 0 1); On 0 VAlign; On 0 VByteLen; On 0 (VVisit [Next; Next; Next; Next]); On 1 (VVisit [NextBack; NextBack]);
   On 0 (VRemoveDrop 2); On 0 (VRemove 7); DropVec 1].
Example C49_uniform_case : pow2 8 /\ Forall (typed TDyn) word_history /\ Forall (uniform TDyn 8) word_history /\
  exists env w', exec TDyn [] word_history empty_world =
    (Ok ([inl BUnit; inl BUnit; inl BUnit; inl BUnit; inl BUnit; inl BUnit; inl (BVal (word 3)); inl (BVal (word 1)); inl BUnit; inl BUnit; inl BUnit;
          inl BUnit; inl BUnit; inl (BNum 8); inl (BNum 32);
          inl (BItems [(Some (word 5), 2%nat); (Some (pair8 2), 1%nat); (Some (word 7), 0%nat); (None, 0%nat)]);
          inl (BItems [(Some (pair8 4), 1%nat); (Some (pair8 6), 0%nat)]); inl BUnit; inr PBounds; inl BUnit], env), w') /\
    w_drops w' = [word 7; pair8 6; pair8 4].
Proof.
  split; [apply pow2_8|]. split.
  { repeat (apply Forall_cons || apply Forall_nil); cbn [typed vtyped]; auto; try (apply goodb_ok; reflexivity); repeat split; discriminate. }
  split.
  { repeat (apply Forall_cons || apply Forall_nil); cbn [uniform vuniform]; auto; try (apply evenb; reflexivity);
      try (split; [apply evenb; reflexivity|reflexivity]); try (split; [apply pow2_1|reflexivity]); try (left; reflexivity); try (right; reflexivity).
    - split; [lia|]. repeat (apply Forall_cons || apply Forall_nil); apply evenb; reflexivity.
    - intros n. reflexivity. }
  do 2 eexists. split; [run|]. run.
Qed.
(** Unaligned objects of any size, in a vector made without an alignment: [A = 1]. *)
Definition byte_history : list op :=
  [WithCapacityBytesAlign 2 4 1; On 0 (VPush (five 1)); On 0 (VInsertWith 1 (one 2)); On 0 (VInsertWith 0 (one 3)); On 0 (VRemove 2);
   On 0 (VShrink 0 0 1); On 0 (VRemove 1); On 0 VByteLen; On 0 (VGet 0)].
Example C49_bytes_case : pow2 1 /\ Forall (typed TDyn) byte_history /\ Forall (uniform TDyn 1) byte_history /\
  exists env w', exec TDyn [] byte_history empty_world =
    (Ok ([inl BUnit; inl BUnit; inl BUnit; inl BUnit; inl (BVal (one 2)); inl BUnit; inl (BVal (five 1)); inl (BNum 1); inl (BOpt (Some (one 3)))], env), w').
Proof.
  split; [apply pow2_1|]. split.
  { repeat (apply Forall_cons || apply Forall_nil); cbn [typed vtyped]; auto; try (apply goodb_ok; reflexivity); repeat split; try discriminate.
    intros _. apply pow2_1. }
  split.
  { repeat (apply Forall_cons || apply Forall_nil); cbn [uniform vuniform]; auto; try (apply evenb; reflexivity); try lia; split; [apply pow2_1|reflexivity]. }
  do 2 eexists. run.
Qed.
(** A type whose last field is a slice: here every value is even. *)
Lemma tail_even h es a x : 1 <= a -> 0 < h -> 0 <= es -> good (TTail h es a) x -> even (TTail h es a) a x.
Proof.
  intros La Ph Pe [[(_ & _ & G) _] _]. unfold even, lands, vsize, valign. destruct (v_meta x); try contradiction.
  cbn [size_of_val align_of_val]. unfold pad. split; [|split; [apply Z_mod_mult|lia]].
  assert (0 <= n * es) by nia. assert (1 <= (h + n * es + a - 1) / a) by (apply Z.div_le_lower_bound; lia). nia.
Qed.
(** C55: the bound is reached, and holds after a failed call too. *)
Definition grow_history : list op :=
  [New true; On 0 (VPush (one 1)); On 0 (VReserve false 1 8 32); On 0 (VPush (half 2)); On 0 (VShrinkTo 0); On 0 (VRemove 1)].
Example C55_case : Forall (typed TDyn) grow_history /\ Forall (modest TDyn 32) grow_history /\
  exists u w', exec TDyn [] grow_history empty_world = (UB u, w') /\ v_align TDyn 0 w' = (Ok 32, w').
Proof.
  split. { repeat (apply Forall_cons || apply Forall_nil); cbn [typed vtyped]; auto; try (apply goodb_ok; reflexivity); repeat split; discriminate. }
  split. { repeat (apply Forall_cons || apply Forall_nil); cbn [modest vmodest]; auto; vm_compute; discriminate. }
  do 2 eexists. split; run.
Qed.
End Cases.
