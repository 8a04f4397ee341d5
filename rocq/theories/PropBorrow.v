(** C67, C68, and C15, C16, C65 for every moment of a history.

    A history may be interrupted anywhere: [pre] is what has been called so far, [cs] what follows. *)
From Coq Require Import ZArith List Bool Lia.
From Verif Require Import Types World ValidSize Emplace SizedVec AlignedVec UnalignedVec Api Spec Bytes Arith Wp Mem Repr
  Access Reserve Realign Orep Push Deal PushWith Shell Insert Take Pop Box Iter Calls GetMut DropVec Family Build PushAll Wrote Sources
  Obs Room Shrink PropPush PropReserve PropAccess PropEdit PropEmplace PropShrink PropCompare PropWhole Convert PropUnsize PropConvert Zst History PropHistory Aligns PropUniform Findings PropMemory PropUnsize.
Import ListNotations.
Open Scope Z_scope.
Open Scope m_scope.

Section WithConfig.
Context {C : Config}.

(** ** Every moment *)
(** What every vector alive in [env] satisfies. *)
Definition each (env : list (option nat)) (P : nat -> Prop) : Prop := forall k j, alive env k = Some j -> P j.
Definition at_every_moment (t : ty) (cs : list op) (w : world) (P : nat -> world -> Prop) : Prop :=
  forall pre post, cs = pre ++ post -> run (exec t [] pre) w (fun p w' => each (snd p) (fun j => P j w')) (fun _ _ => False) (fun _ => out_of_luck).

(** C15: wherever [get] finds an element, it lies at a multiple of the element's alignment. *)
Definition stored_aligned (t : ty) (j : nat) (w : world) : Prop :=
  forall i r, v_get t j i w = (Ok (Some r), w) ->
    exists a, ptr_addr (w_heap w) (wp r) = Some a /\ 0 < a /\ a mod align_of_val t (wm r) = 0.
(** C16 *)
Definition lengths_fit (t : ty) (j : nat) (w : world) : Prop :=
  exists n c bl bc, v_len t j w = (Ok n, w) /\ v_capacity t j w = (Ok c, w) /\ v_byte_len t j w = (Ok bl, w) /\ v_byte_capacity t j w = (Ok bc, w) /\
    0 <= n <= c /\ 0 <= bl <= bc.
Lemma get_nth t j l i r w : repr t j l w -> v_get t j i w = (Ok (Some r), w) -> exists x, nth_error l i = Some x.
Proof.
  intros R G. destruct (nth_error l i) as [x|] eqn:E; eauto. apply nth_error_None in E. rewrite (v_get_none _ _ _ _ _ R E) in G. discriminate G.
Qed.
Lemma repr_stored t j l w : repr t j l w -> stored_aligned t j w.
Proof.
  intros R i r G. destruct (get_nth _ _ _ _ _ _ R G) as (x & N). destruct (C15_aligned_partial t j l w i x R N) as (r' & a & G' & A).
  destruct (v_get_some t j l w i x R N) as (r2 & G2 & M & _). rewrite G in G', G2. injection G' as <-. injection G2 as <-. rewrite M. eauto.
Qed.
Lemma repr_lengths t j l w : repr t j l w -> lengths_fit t j w.
Proof.
  intros R. destruct (C16_lengths_partial t j l w R) as (n & c & bl & bc & En & Ec & Lc & Eb & Ebc & Lb & Nl & Hu & Hs). exists n, c, bl, bc.
  ands; auto. { subst n. unfold zlen. lia. }
  apply repr_orep in R as (o & d & R). rewrite (v_byte_len_eq _ _ _ _ _ _ R) in Eb. injection Eb as <-. eapply orep_blen_nonneg; eauto.
Qed.
(** A history that behaves does so up to any point. *)
Lemma safe_run_app t pre post : forall s, safe_run t (pre ++ post) s -> safe_run t pre s /\
  forall rs s' dl, spec_run t pre s rs s' dl -> safe_run t post s'.
Proof.
  induction pre as [|c pre IH]; intros s; cbn [app safe_run].
  - intros H. split; auto. intros rs s' dl S. inversion S. now subst.
  - intros (Ty & Sf & Ao & Ap). split.
    + ands; auto; intros; apply (IH s'); eauto.
    + intros rs s' dl S. inversion S; subst; eapply IH; eauto.
Qed.
Lemma moments t cs w (P : nat -> world -> Prop) : wf_ty t -> safe_run t cs [] -> (forall j l w', repr t j l w' -> P j w') -> at_every_moment t cs w P.
Proof.
  intros Wt S H pre post ->. apply safe_run_app in S as [S _]. eapply run_conseq; [exact (C49_start_partial t pre w Wt S)|..]; cbv beta; auto.
  intros p w' (s' & dl & _ & T & _) k j A. destruct (tracks_live _ _ _ _ _ _ T A) as (l & _ & R). eauto.
Qed.
Lemma calm_safe s a cs : wf_ty (TSized s a) -> Forall (typed (TSized s a)) cs -> Forall calm cs -> forall l, safe_run (TSized s a) cs l.
Proof. intros. apply sized_safe; auto. Qed.

Theorem C15_sized_partial s a cs w : wf_ty (TSized s a) -> Forall (typed (TSized s a)) cs -> Forall calm cs ->
  at_every_moment (TSized s a) cs w (stored_aligned (TSized s a)).
Proof. intros. apply moments; eauto using repr_stored, calm_safe. Qed.
Theorem C15_history_partial t cs w : wf_ty t -> safe_run t cs [] -> at_every_moment t cs w (stored_aligned t).
Proof. intros. apply moments; eauto using repr_stored. Qed.
Theorem C15_easy_partial t cs w : wf_ty t -> Forall (typed t) cs -> Forall (easy t) cs -> at_every_moment t cs w (stored_aligned t).
Proof. intros. apply C15_history_partial; auto. apply easy_safe_run; auto using all_of_nil. Qed.

Theorem C16_sized_partial s a cs w : wf_ty (TSized s a) -> Forall (typed (TSized s a)) cs -> Forall calm cs ->
  at_every_moment (TSized s a) cs w (lengths_fit (TSized s a)).
Proof. intros. apply moments; eauto using repr_lengths, calm_safe. Qed.
Theorem C16_history_partial t cs w : wf_ty t -> safe_run t cs [] -> at_every_moment t cs w (lengths_fit t).
Proof. intros. apply moments; eauto using repr_lengths. Qed.
Theorem C16_easy_partial t cs w : wf_ty t -> Forall (typed t) cs -> Forall (easy t) cs -> at_every_moment t cs w (lengths_fit t).
Proof. intros. apply C16_history_partial; auto. apply easy_safe_run; auto using all_of_nil. Qed.

(** ** C68: no two elements share memory *)
(** The bytes behind the two references have none in common. *)
Definition clear_of (t : ty) (r r' : wide) : Prop :=
  size_of_val t (wm r) = 0 \/ size_of_val t (wm r') = 0 \/
  exists b f b' f', wp r = Blk b f /\ wp r' = Blk b' f' /\
    (b <> b' \/ f + size_of_val t (wm r) <= f' \/ f' + size_of_val t (wm r') <= f).
Definition no_overlap (t : ty) (env : list (option nat)) (w : world) : Prop :=
  forall k i k' i' j j' r r', k <> k' \/ i <> i' -> alive env k = Some j -> alive env k' = Some j' ->
    v_get t j i w = (Ok (Some r), w) -> v_get t j' i' w = (Ok (Some r'), w) -> clear_of t r r'.

(** Where [get] points to. *)
Lemma get_place t j l o d i x r w : orep t j l o d w -> nth_error l i = Some x -> v_get t j i w = (Ok (Some r), w) -> r = eref t o l i x.
Proof.
  intros R N G. unfold v_get in G. erewrite bind_eq in G by (eapply v_len_eq, orep_repr; eauto).
  pose proof (nth_error_lt _ _ _ N). rewrite (proj2 (Z.ltb_lt _ _)) in G by (unfold zlen; lia).
  unfold v_get_unchecked in G. rewrite bind_assoc in G. erewrite bind_eq in G by (eapply p_raw_eq; eauto). unfold make_ref, bind in G.
  destruct (ref_ok t (w_heap w) (eref t o l i x)); [|discriminate]. now injection G as <-.
Qed.
Lemma owned_ptr t j l o d w : orep t j l o d w -> (exists b, o_ptr o = Blk b 0 /\ owned_block w j = Some b) \/ o_bcap t o = 0.
Proof.
  intros R. rewrite (orep_owned _ _ _ _ _ _ R). pose proof (orep_buf _ _ _ _ _ _ R) as B. unfold buf in B. destruct (o_bcap t o =? 0) eqn:Z.
  - right. now apply Z.eqb_eq.
  - left. destruct B as (b & base & E & _). exists b. rewrite E. auto.
Qed.
Lemma empty_size t j l o d w i x : orep t j l o d w -> nth_error l i = Some x -> o_bcap t o = 0 -> vsize t x = 0.
Proof.
  intros R N Z. pose proof (orep_fit _ _ _ _ _ _ R) as F. pose proof (orep_good _ _ _ _ _ _ R) as G.
  pose proof (pow2_pos _ (orep_pal _ _ _ _ _ _ R)) as P. destruct (plen_firstn_le t (o_pal o) P l i x G N) as [L _].
  pose proof (psz_ge t (o_pal o) P x). pose proof (plen_firstn_nonneg t (o_pal o) P l i G). unfold o_blen in F.
  assert (0 <= vsize t x). { apply good_size. eapply good_nth; eauto. } lia.
Qed.
Lemma tracks_overlap t env s w : tracks t env s w -> no_overlap t env w.
Proof.
  intros T k i k' i' j j' r r' Ne A A' G G'. destruct (tracks_live _ _ _ _ _ _ T A) as (l & E & R). destruct (tracks_live _ _ _ _ _ _ T A') as (l' & E' & R').
  destruct (get_nth _ _ _ _ _ _ R G) as (x & N). destruct (get_nth _ _ _ _ _ _ R' G') as (x' & N').
  apply repr_orep in R as (o & d & R). apply repr_orep in R' as (o' & d' & R').
  rewrite (get_place _ _ _ _ _ _ _ _ _ R N G), (get_place _ _ _ _ _ _ _ _ _ R' N' G'). unfold clear_of, eref. cbn [wp wm].
  change (size_of_val t (v_meta x)) with (vsize t x). change (size_of_val t (v_meta x')) with (vsize t x').
  destruct (owned_ptr _ _ _ _ _ _ R) as [(b & Eb & Ob)|Z]; [|left; exact (empty_size _ _ _ _ _ _ _ _ R N Z)].
  destruct (owned_ptr _ _ _ _ _ _ R') as [(b' & Eb' & Ob')|Z]; [|right; left; exact (empty_size _ _ _ _ _ _ _ _ R' N' Z)].
  right; right. rewrite Eb, Eb'. cbn [padd]. do 4 eexists. split; [reflexivity|]. split; [reflexivity|].
  destruct (Nat.eq_dec k k') as [<-|Nk].
  - right. rewrite A in A'. injection A' as <-. rewrite E in E'. injection E' as <-.
    assert (Eo : o' = o). { apply orep_obj in R, R'. congruence. } subst o'.
    pose proof (orep_good _ _ _ _ _ _ R) as Gd. pose proof (pow2_pos _ (orep_pal _ _ _ _ _ _ R)) as P.
    assert (Ord : forall i j x, (i < j)%nat -> nth_error l i = Some x -> plen t (o_pal o) (firstn i l) + vsize t x <= plen t (o_pal o) (firstn j l)).
    { clear -P Gd. intros i j x L N. pose proof (psz_ge t (o_pal o) P x).
      assert (L' : firstn i l = firstn i (firstn j l)) by (rewrite firstn_firstn; f_equal; lia).
      rewrite L'. enough (plen t (o_pal o) (firstn i (firstn j l)) + psz t (o_pal o) x <= plen t (o_pal o) (firstn j l)) by lia.
      apply plen_firstn_le; auto. now apply Forall_firstn'. rewrite nth_error_firstn_lt; auto. }
    assert (i <> i') by (destruct Ne; congruence). destruct (Nat.lt_total i i') as [L|[L|L]]; [left|congruence|right]; cbn [Z.add]; eapply Ord; eauto.
  - left. destruct (tr_sep _ _ _ _ T k k' j j' Nk A A') as [_ S]. intros <-. eapply S; eauto.
Qed.
Definition never_overlap (t : ty) (cs : list op) (w : world) : Prop :=
  forall pre post, cs = pre ++ post -> run (exec t [] pre) w (fun p w' => no_overlap t (snd p) w') (fun _ _ => False) (fun _ => out_of_luck).
Theorem C68_history_partial t cs w : wf_ty t -> safe_run t cs [] -> never_overlap t cs w.
Proof.
  intros Wt S pre post ->. apply safe_run_app in S as [S _]. eapply run_conseq; [exact (C49_start_partial t pre w Wt S)|..]; cbv beta; auto.
  intros p w' (s' & dl & _ & T & _). eapply tracks_overlap; eauto.
Qed.
Theorem C68_sized_partial s a cs w : wf_ty (TSized s a) -> Forall (typed (TSized s a)) cs -> Forall calm cs -> never_overlap (TSized s a) cs w.
Proof. intros. apply C68_history_partial; auto using calm_safe. Qed.
Theorem C68_easy_partial t cs w : wf_ty t -> Forall (typed t) cs -> Forall (easy t) cs -> never_overlap t cs w.
Proof. intros. apply C68_history_partial; auto. apply easy_safe_run; auto using all_of_nil. Qed.

(** ** C67: a reference stays valid for as long as the borrow lasts *)
(** Calls through [&self]. *)
Definition vreads (c : vop) : Prop :=
  match c with VLen | VIsEmpty | VCapacity | VByteCapacity | VByteLen | VAlign | VGet _ | VIndex _ | VVisit _ | VVisitLast _ => True | _ => False end.
(** The calls that the borrow checker lets through while an element of vector [k] is borrowed: any on other vectors, those through
    [&self] on [k] itself. *)
Definition respects (k : nat) (c : op) : Prop :=
  match c with
  | On k' c => k' = k -> vreads c
  | MoveLast d s | MoveAt d _ s _ => d <> k /\ s <> k
  | DropVec k' => k' <> k
  | _ => True
  end.
(** Every reference that [get] gives out on vector [k] of [env] reads the same value after [cs] as before. *)
Definition outlives (t : ty) (env : list (option nat)) (k : nat) (cs : list op) (w : world) : Prop :=
  run (exec t env cs) w
    (fun p w' => forall j i r x, alive env k = Some j -> v_get t j i w = (Ok (Some r), w) -> read_value t r w = (Ok x, w) ->
       alive (snd p) k = Some j /\ read_value t r w' = (Ok x, w') /\ ref_ok t (w_heap w') r = true)
    (fun _ _ => False) (fun _ => out_of_luck).

Lemma reads_same t self l w c : repr t self l w -> vreads c -> vguard t self c l w -> snd (vstep t self c w) = w.
Proof.
  intros R K G. pose proof R as R0. apply repr_orep in R as (o & d & R). destruct c; try destruct K; cbn [vguard] in G; cbn [vstep].
  - erewrite then_ret by (eapply v_len_eq; eauto). reflexivity.
  - erewrite then_ret by (eapply is_empty_eq; eauto). reflexivity.
  - erewrite then_ret by (eapply v_capacity_eq; eauto). reflexivity.
  - erewrite then_ret by (eapply v_byte_capacity_eq; eauto). reflexivity.
  - erewrite then_ret by (eapply v_byte_len_eq; eauto). reflexivity.
  - erewrite then_ret by (eapply v_align_eq; eauto). reflexivity.
  - pose proof (C05_get t self l w i R0) as H. destruct (nth_error l i) as [x|].
    + destruct H as (r & E & _ & _ & _ & Rd). erewrite bind_eq by exact E. cbn [read_opt].
      erewrite bind_eq; [reflexivity|]. now erewrite bind_eq by exact Rd.
    + destruct H as [E _]. erewrite bind_eq by exact E. reflexivity.
  - pose proof (C05_get t self l w i R0) as H. destruct (nth_error l i) as [x|] eqn:E.
    + destruct H as (r & _ & Ei & _ & _ & Rd). erewrite bind_eq by exact Ei. erewrite then_ret by exact Rd. reflexivity.
    + destruct H as [_ Ei]. unfold bind at 1. now rewrite Ei.
  - erewrite then_ret by exact (visit_eq t self l w cs R0 G). reflexivity.
  - erewrite then_ret by exact (visit_last_eq t self l w cs R0 G). reflexivity.
Qed.

(** Leaving vector [k] out changes nothing for the calls that do not name it. *)
Definition hide (k : nat) (env : list (option nat)) : list (option nat) := upd env k None.
Lemma hide_other k k' env : k' <> k -> alive (hide k env) k' = alive env k'.
Proof. apply alive_other. Qed.
Lemma tracks_hide t env s w k : (k < length env)%nat -> tracks t env s w -> tracks t (hide k env) (upd s k None) w.
Proof.
  intros L T. unfold hide. pose proof L as L'. rewrite (tr_len _ _ _ _ T) in L'. constructor.
  - rewrite !upd_length. apply T.
  - intros k1. destruct (Nat.eq_dec k1 k) as [->|N]; [rewrite alive_same, there_same by auto; tauto|].
    rewrite alive_other, there_other by auto. apply T.
  - intros k1 j1 l1. destruct (Nat.eq_dec k1 k) as [->|N]; [rewrite alive_same by auto; discriminate|].
    rewrite alive_other, there_other by auto. apply T.
  - intros k1 k2 j1 j2 N. destruct (Nat.eq_dec k1 k) as [->|N1]; [rewrite alive_same by auto; discriminate|].
    destruct (Nat.eq_dec k2 k) as [->|N2]; [rewrite (alive_same env k) by auto; discriminate|]. rewrite !alive_other by auto. apply T; auto.
Qed.
Lemma upd_comm {A} (l : list A) i j x y : i <> j -> upd (upd l i x) j y = upd (upd l j y) i x.
Proof. revert i j. induction l as [|a l IH]; intros [|i] [|j] N; cbn; try congruence; auto. now rewrite IH by congruence. Qed.
Lemma hide_app k env o : (k < length env)%nat -> hide k (env ++ [o]) = hide k env ++ [o].
Proof.
  unfold hide. revert k. induction env as [|e env IH]; intros k L; cbn in L; [lia|]. destruct k; cbn; auto. f_equal. apply IH. lia.
Qed.
(** The calls that do not name vector [k]. *)
Definition ignores (k : nat) (c : op) : Prop :=
  match c with
  | On k' _ | CloneOf k' _ _ | DropVec k' => k' <> k
  | MoveLast d s | MoveAt d _ s _ | Equal d s _ | Compare d s _ => d <> k /\ s <> k
  | _ => True
  end.
Lemma exec1_hide t env k c w : (k < length env)%nat -> ignores k c ->
  exec1 t (hide k env) c w =
    match exec1 t env c w with (Ok (r, env'), w') => (Ok (r, hide k env'), w') | (Panic r, w') => (Panic r, w') | (Abort, w') => (Abort, w') | (UB u, w') => (UB u, w') end.
Proof.
  intros L I.
  assert (Ba : forall m, born (hide k env) m w = match born env m w with (Ok (o, env'), w') => (Ok (o, hide k env'), w') | (Panic r, w') => (Panic r, w') | (Abort, w') => (Abort, w') | (UB u, w') => (UB u, w') end).
  { intros m. unfold born, bind, ret. destruct (m w) as [[v|r| |u] w']; auto. now rewrite hide_app. }
  assert (Ka : forall m m', m w = m' w -> keep (hide k env) m w = match keep env m' w with (Ok (o, env'), w') => (Ok (o, hide k env'), w') | (Panic r, w') => (Panic r, w') | (Abort, w') => (Abort, w') | (UB u, w') => (UB u, w') end).
  { intros m m' E. unfold keep, bind, ret. rewrite E. now destruct (m' w) as [[v|r| |u] w']. }
  assert (Sa : step t (hide k env) c w = match step t env c w with (Ok (o, env'), w') => (Ok (o, hide k env'), w') | (Panic r, w') => (Panic r, w') | (Abort, w') => (Abort, w') | (UB u, w') => (UB u, w') end).
  { destruct c; cbn [step ignores] in *; auto.
    - rewrite hide_other by auto. destruct (alive env k0); auto.
    - apply Ka. unfold on1. now rewrite hide_other.
    - destruct I. destruct (dst =? src)%nat; auto. apply Ka. unfold on2. now rewrite !hide_other.
    - destruct I. destruct (dst =? src)%nat; auto. apply Ka. unfold on2. now rewrite !hide_other.
    - destruct I. apply Ka. unfold on2. now rewrite !hide_other.
    - destruct I. apply Ka. unfold on2. now rewrite !hide_other.
    - rewrite hide_other by auto. destruct (alive env k0); auto. unfold bind, ret. destruct (v_drop t n w) as [[v|r| |u] w']; auto.
      do 3 f_equal. unfold hide. apply upd_comm; auto. }
  unfold exec1. rewrite Sa. destruct (step t env c w) as [[[o env']|r| |u] w']; auto.
  assert (Ea : after_panic c (hide k env) = hide k (after_panic c env)); [|now rewrite Ea].
  destruct c; auto. cbn [after_panic ignores] in *. unfold hide. apply upd_comm; auto.
Qed.
Lemma guard_hide t env k c s w : ignores k c -> guard t env c s w -> guard t (hide k env) c (upd s k None) w.
Proof.
  intros I G. destruct c; cbn [guard ignores] in *; auto.
  - intros j l. rewrite hide_other, there_other by auto. apply G.
  - destruct I. intros j lk x. rewrite hide_other, there_other by auto. apply G.
  - destruct I. intros j0 j' ld lk x. rewrite !hide_other, !there_other by auto. apply G.
Qed.
Lemma alive_hide env k : (k < length env)%nat -> alive (hide k env) k = None.
Proof. intros L. now apply alive_same. Qed.

Lemma exec1_keeps t env k j c w r env' w' : alive env k = Some j -> respects k c -> exec1 t env c w = (Ok (r, env'), w') -> alive env' k = Some j.
Proof.
  intros A Re. pose proof (alive_lt _ _ _ A) as L.
  assert (Ap : forall c, respects k c -> alive (after_panic c env) k = Some j).
  { clear -A L. intros c Re. destruct c; auto. cbn [respects after_panic] in *. now rewrite alive_other by auto. }
  assert (Bo : forall m o env1 w1, born env m w = (Ok (o, env1), w1) -> alive env1 k = Some j).
  { intros m o env1 w1. unfold born, bind, ret. destruct (m w) as [[v|q| |u] w2]; try discriminate. intros [= _ <- _]. rewrite alive_app.
    destruct (Nat.eqb_spec k (length env)); [lia|auto]. }
  assert (Ke : forall m o env1 w1, keep env m w = (Ok (o, env1), w1) -> alive env1 k = Some j).
  { intros m o env1 w1. unfold keep, bind, ret. destruct (m w) as [[v|q| |u] w2]; try discriminate. now intros [= _ <- _]. }
  unfold exec1. destruct (step t env c w) as [[[o env1]|q| |u] w1] eqn:E; try discriminate.
  2:{ intros [= _ <- _]. auto. }
  intros [= _ <- _]. destruct c; cbn [step respects] in *; eauto.
  - destruct (alive env k0); eauto.
  - destruct (dst =? src)%nat; eauto.
  - destruct (dst =? src)%nat; eauto.
  - destruct (alive env k0) as [n|]; eauto. unfold bind, ret in E. destruct (v_drop t n w) as [[v|q| |u] w2]; try discriminate.
    injection E as _ <- _. now rewrite alive_other by auto.
Qed.
(** One call: a block that is no other vector's. *)
Lemma outlives1 t env k j c s w b : wf_ty t -> tracks t env s w -> typed t c -> guard t env c s w -> alive env k = Some j -> respects k c ->
  live w b -> foreign (hide k env) w b ->
  run (exec1 t env c) w (fun p w' => alive (snd p) k = Some j /\ heap_get (w_heap w') b = heap_get (w_heap w) b /\ foreign (hide k (snd p)) w' b)
    (fun _ _ => False) (fun _ => out_of_luck).
Proof.
  intros Wt T Ty G A Re Lv Fo. pose proof (alive_lt _ _ _ A) as L. pose proof (tracks_hide _ _ _ _ _ L T) as Th.
  set (Q := fun (p : (obs + panic_reason) * list (option nat)) w' => alive (snd p) k = Some j /\ heap_get (w_heap w') b = heap_get (w_heap w) b /\ foreign (hide k (snd p)) w' b).
  assert (Same : forall o, exec1 t env c w = (Ok (o, env), w) -> run (exec1 t env c) w Q (fun _ _ => False) (fun _ => out_of_luck)).
  { intros o E. unfold run. rewrite E. unfold Q. cbn [snd]. auto. }
  assert (Skip : ignores k c -> run (exec1 t env c) w Q (fun _ _ => False) (fun _ => out_of_luck)).
  { intros I. pose proof (exec1_wp t (hide k env) c (upd s k None) w Wt Th Ty (guard_hide _ _ _ _ _ _ I G)) as H.
    unfold run in *. rewrite (exec1_hide t env k c w L I) in H. pose proof (exec1_keeps t env k j c w) as Al.
    destruct (exec1 t env c w) as [[[r env']|r| |u] w'] eqn:E; auto. cbn [fst snd] in *. destruct H as ([_ B] & _).
    destruct (B b Lv Fo) as [B1 B2]. unfold Q. cbn [fst snd]. eauto. }
  destruct c; cbn [respects typed guard] in *; try (apply Skip; cbn [ignores]; auto; fail).
  - (* clone *)
    destruct (Nat.eq_dec k0 k) as [->|Nk]; [|now apply Skip]. destruct Ty as (K & P & Cp). destruct (tracks_live _ _ _ _ _ _ T A) as (l & E & R).
    assert (X : forall v w', newvec v [] [] w w' -> heap_get (w_heap w') b = heap_get (w_heap w) b /\ foreign (hide k env) w' b /\ owned_block w' v <> Some b).
    { intros v w' N. exact (newvec_foreign _ _ _ _ _ _ _ Th N Lv Fo). }
    destruct (zst_or t Wt) as [Nz|Z].
    2: { pose proof R as R0. apply repr_orep in R as (o & d & R). unfold run, exec1. cbn [step]. rewrite A. unfold born, bind, ret.
      destruct (zst_make t true (o_cap t o) (o_bcap t o) (o_al t o) w Wt Z) as (r & w' & Rr & N & D & V & Er).
      assert (Ec : v_clone t clone j w = (Panic r, w')).
      { unfold v_clone. erewrite bind_eq by (eapply v_capacity_eq; eauto). erewrite bind_eq by (eapply v_byte_capacity_eq; eauto).
        erewrite bind_eq by (eapply v_align_eq; eauto). apply bind_panic. unfold v_with_capacity_bytes_align. erewrite bind_eq by apply v_new_align_1_eq.
        exact (bind_panic _ _ _ _ _ Er). }
      rewrite Ec. cbn [fst snd after_panic]. destruct (X _ _ N) as (E1 & F1 & _). unfold Q. auto. }
    pose proof (C32_clone_partial t f P clone j l w K (Nz K) Cp R) as H. unfold run, exec1 in *. cbn [step]. rewrite A. unfold born, bind, ret.
    unfold Q. destruct (v_clone t clone j w) as [[v|r| |u] w']; cbn [fst snd after_panic]; auto.
    + destruct H as (_ & _ & _ & N & _). destruct (X _ _ N) as (E1 & F1 & F2). split; [|split; auto].
      * rewrite alive_app. destruct (Nat.eqb_spec k (length env)); [lia|auto].
      * rewrite hide_app by auto. intros k1 j1. rewrite alive_app. destruct (Nat.eqb_spec k1 (length (hide k env))); [intros [= <-]; auto|apply F1].
    + destruct H as (_ & _ & N & _). destruct (X _ _ N) as (E1 & F1 & _). auto.
    + destruct H; eauto using luck_alloc, luck_drop.
  - (* On *)
    destruct (Nat.eq_dec k0 k) as [->|Nk]; [|now apply Skip]. specialize (Re eq_refl). destruct (tracks_live _ _ _ _ _ _ T A) as (l & E & R).
    pose proof (G j l A E) as Gv. pose proof (reads_same t j l w c R Re Gv) as Sm.
    pose proof (exec1_wp t env (On k c) s w Wt T Ty G) as H. unfold run, exec1 in *. cbn [step after_panic] in *. unfold keep, on1, bind, ret in *. rewrite A in *.
    destruct (vstep t j c w) as [[o|r| |u] w']; cbn [snd] in Sm; subst w'; auto; unfold Q; cbn [fst snd]; auto.
  - destruct (both_or_none _ _ _ _ k0 k' T) as [(j0 & j' & l & l' & A0 & A' & _ & _ & R & R')|[N _]].
    + destruct (C33_eq t t f j0 l j' l' w R R') as (y & Ey & _). eapply Same. unfold exec1. cbn [step]. unfold keep, on2. rewrite A0, A'.
      erewrite bind_eq; [reflexivity|]. erewrite bind_eq by exact Ey. reflexivity.
    + eapply Same. unfold exec1. cbn [step]. rewrite on2_skip by auto. reflexivity.
  - destruct (both_or_none _ _ _ _ k0 k' T) as [(j0 & j' & l & l' & A0 & A' & _ & _ & R & R')|[N _]].
    + eapply Same. unfold exec1. cbn [step]. unfold keep, on2. rewrite A0, A'.
      erewrite bind_eq; [reflexivity|]. erewrite bind_eq by exact (C34_cmp t f j0 l j' l' w R R'). reflexivity.
    + eapply Same. unfold exec1. cbn [step]. rewrite on2_skip by auto. reflexivity.
Qed.

(** Any number of calls. *)
Lemma outlives_all t k j b cs : wf_ty t -> Forall (respects k) cs -> forall env s w, tracks t env s w -> safe_run t cs s ->
  alive env k = Some j -> live w b -> foreign (hide k env) w b ->
  run (exec t env cs) w (fun p w' => alive (snd p) k = Some j /\ heap_get (w_heap w') b = heap_get (w_heap w) b) (fun _ _ => False) (fun _ => out_of_luck).
Proof.
  intros Wt. induction 1 as [|c cs Re F IH]; intros env s w T S A Lv Fo; cbn [exec].
  - apply run_ret. auto.
  - destruct S as (Ty & Sf & Ao & Ap). pose proof (safe_guard t env c s w T Ty Sf) as G. apply run_bind.
    pose proof (exec1_wp t env c s w Wt T Ty G) as H1. pose proof (outlives1 t env k j c s w b Wt T Ty G A Re Lv Fo) as H2. unfold run in H1, H2 |- *.
    destruct (exec1 t env c w) as [[[r env']|r| |u] w1]; auto. cbn [fst snd] in *. destruct H1 as (_ & s1 & T1 & ds & _ & S1). destruct H2 as (A1 & E1 & F1).
    assert (S2 : safe_run t cs s1) by (destruct r; eauto).
    assert (L1 : live w1 b) by (unfold live in *; congruence). pose proof (IH env' s1 w1 T1 S2 A1 L1 F1) as H. unfold run, bind, ret in *.
    destruct (exec t env' cs w1) as [[[rs env'']|r'| |u] w2]; auto. cbn [fst snd] in *. destruct H. split; congruence.
Qed.
Lemma keeps_alive t k j cs : wf_ty t -> Forall (respects k) cs -> forall env s w, tracks t env s w -> safe_run t cs s ->
  alive env k = Some j -> run (exec t env cs) w (fun p w' => alive (snd p) k = Some j) (fun _ _ => False) (fun _ => out_of_luck).
Proof.
  intros Wt. induction 1 as [|c cs Re F IH]; intros env s w T S A; cbn [exec].
  - apply run_ret. auto.
  - destruct S as (Ty & Sf & Ao & Ap). pose proof (safe_guard t env c s w T Ty Sf) as G. apply run_bind.
    pose proof (exec1_wp t env c s w Wt T Ty G) as H1. pose proof (exec1_keeps t env k j c w) as H2. unfold run in H1 |- *.
    destruct (exec1 t env c w) as [[[r env']|r| |u] w1]; auto. cbn [fst snd] in *. destruct H1 as (_ & s1 & T1 & ds & _ & S1).
    assert (S2 : safe_run t cs s1) by (destruct r; eauto).
    pose proof (IH env' s1 w1 T1 S2 (H2 _ _ _ A Re eq_refl)) as H. unfold run, bind, ret in *.
    destruct (exec t env' cs w1) as [[[rs env'']|r'| |u] w2]; auto.
Qed.
Lemma foreign_hide t env s w k j b : tracks t env s w -> alive env k = Some j -> owned_block w j = Some b -> foreign (hide k env) w b.
Proof.
  intros T A O k1 j1 A1 O1. pose proof (alive_lt _ _ _ A) as L. destruct (Nat.eq_dec k1 k) as [->|N]; [now rewrite alive_hide in A1|].
  rewrite hide_other in A1 by auto. destruct (tr_sep _ _ _ _ T k k1 j j1 ltac:(auto) A A1) as [_ S]. eapply S; eauto.
Qed.
(** Reading depends on the block only. *)
Lemma read_agree t r x w w' : (forall b, ptr_block (wp r) = Some b -> heap_get (w_heap w') b = heap_get (w_heap w) b) ->
  read_value t r w = (Ok x, w) -> ref_ok t (w_heap w) r = true -> read_value t r w' = (Ok x, w') /\ ref_ok t (w_heap w') r = true.
Proof.
  intros H. assert (E1 : forall n, heap_read (w_heap w') (wp r) n = heap_read (w_heap w) (wp r) n).
  { intros n. unfold heap_read. destruct (wp r) as [b f|a]; auto. cbn [ptr_block] in H. now rewrite H. }
  assert (E2 : ptr_addr (w_heap w') (wp r) = ptr_addr (w_heap w) (wp r)).
  { unfold ptr_addr. destruct (wp r) as [b f|a]; auto. cbn [ptr_block] in H. now rewrite H. }
  unfold read_value, mem_read, ref_ok, bind, ret. rewrite E1, E2. destruct (heap_read (w_heap w) (wp r) (size_of_val t (wm r))); [|discriminate].
  intros [= <-]. auto.
Qed.
Lemma outlives_any t env k cs s w : wf_ty t -> tracks t env s w -> safe_run t cs s -> Forall (respects k) cs -> outlives t env k cs w.
Proof.
  intros Wt T S Re. unfold outlives. destruct (alive env k) as [j|] eqn:A.
  2:{ eapply run_conseq; [exact (C49_history_partial t cs Wt env s w T S)|..]; cbv beta; auto. intros; discriminate. }
  destruct (tracks_live _ _ _ _ _ _ T A) as (l & _ & R). apply repr_orep in R as (o & d & R). pose proof (orep_repr _ _ _ _ _ _ R) as R0.
  assert (Fin : forall j0 i r x (p : list (obs + panic_reason) * list (option nat)) w', (forall b, owned_block w j = Some b -> heap_get (w_heap w') b = heap_get (w_heap w) b) ->
    alive (snd p) k = Some j -> Some j = Some j0 -> v_get t j0 i w = (Ok (Some r), w) -> read_value t r w = (Ok x, w) ->
    alive (snd p) k = Some j0 /\ read_value t r w' = (Ok x, w') /\ ref_ok t (w_heap w') r = true).
  { intros j0 i r x p w' H A' [= <-] G Rd. split; auto. destruct (get_nth _ _ _ _ _ _ R0 G) as (y & N).
    destruct (v_get_some t j l w i y R0 N) as (r' & G' & _ & _ & Ok'). rewrite G in G'. injection G' as <-.
    apply (read_agree t r x w w'); auto. intros b Eb. apply H. rewrite (orep_owned _ _ _ _ _ _ R).
    rewrite (get_place _ _ _ _ _ _ _ _ _ R N G) in Eb. unfold eref in Eb. cbn [wp] in Eb. now rewrite padd_block in Eb. }
  destruct (owned_block w j) as [b|] eqn:Ob.
  - pose proof (owned_live _ _ _ _ _ R0 Ob) as Lv.
    eapply run_conseq; [exact (outlives_all t k j b cs Wt Re env s w T S A Lv (foreign_hide _ _ _ _ _ _ _ T A Ob))|..]; cbv beta; auto.
    intros p w' [A' E'] j0 i r x Ej. apply Fin; auto. now intros b' [= <-].
  - eapply run_conseq; [exact (keeps_alive t k j cs Wt Re env s w T S A)|..]; cbv beta; auto.
    intros p w' A' j0 i r x Ej. apply Fin; auto. discriminate.
Qed.

(** After any history [pre], whatever follows. *)
Definition references_last (t : ty) (pre : list op) (k : nat) (cs : list op) (w : world) : Prop :=
  run (exec t [] pre) w (fun p w' => outlives t (snd p) k cs w') (fun _ _ => False) (fun _ => out_of_luck).
Theorem C67_history_partial t pre k cs w : wf_ty t -> safe_run t (pre ++ cs) [] -> Forall (respects k) cs -> references_last t pre k cs w.
Proof.
  intros Wt S Re. apply safe_run_app in S as [S S']. eapply run_conseq; [exact (C49_start_partial t pre w Wt S)|..]; cbv beta; auto.
  intros p w' (s' & dl & Sp & T & _). eapply outlives_any; eauto.
Qed.
Theorem C67_sized_partial s a pre k cs w : wf_ty (TSized s a) -> Forall (typed (TSized s a)) (pre ++ cs) -> Forall calm (pre ++ cs) ->
  Forall (respects k) cs -> references_last (TSized s a) pre k cs w.
Proof. intros. apply C67_history_partial; auto using calm_safe. Qed.
Theorem C67_easy_partial t pre k cs w : wf_ty t -> Forall (typed t) (pre ++ cs) -> Forall (easy t) (pre ++ cs) ->
  Forall (respects k) cs -> references_last t pre k cs w.
Proof. intros. apply C67_history_partial; auto. apply easy_safe_run; auto using all_of_nil. Qed.

(** ** C65: boxes *)
(** What is allocated after [pre] and belongs to no vector, such as a box made from a popped element, is never touched by what follows. *)
Definition leaves_boxes (t : ty) (pre cs : list op) (w : world) : Prop :=
  run (exec t [] pre) w (fun p w1 => run (exec t (snd p) cs) w1
      (fun q w2 => forall b, live w1 b -> ~ in_use (snd p) w1 b -> heap_get (w_heap w2) b = heap_get (w_heap w1) b /\ ~ in_use (snd q) w2 b)
      (fun _ _ => False) (fun _ => out_of_luck)) (fun _ _ => False) (fun _ => out_of_luck).
Theorem C65_boxes_partial t pre cs w : wf_ty t -> safe_run t (pre ++ cs) [] -> leaves_boxes t pre cs w.
Proof.
  intros Wt S. apply safe_run_app in S as [S S']. eapply run_conseq; [exact (C49_start_partial t pre w Wt S)|..]; cbv beta; auto.
  intros p w1 (s' & dl & Sp & T & _). eapply run_conseq; [exact (C49_history_partial t cs Wt (snd p) s' w1 T (S' _ _ _ Sp))|..]; cbv beta; auto.
  intros q w2 (s2 & dl2 & _ & _ & _ & [_ B]) b Lv Fo. destruct (B b Lv) as [E F]. { intros k j A O. apply Fo. exists k, j. auto. }
  split; auto. intros (k & j & A & O). exact (F k j A O).
Qed.
Theorem C65_boxes_sized_partial s a pre cs w : wf_ty (TSized s a) -> Forall (typed (TSized s a)) (pre ++ cs) -> Forall calm (pre ++ cs) ->
  leaves_boxes (TSized s a) pre cs w.
Proof. intros. apply C65_boxes_partial; auto using calm_safe. Qed.
Theorem C65_boxes_easy_partial t pre cs w : wf_ty t -> Forall (typed t) (pre ++ cs) -> Forall (easy t) (pre ++ cs) -> leaves_boxes t pre cs w.
Proof. intros. apply C65_boxes_partial; auto. apply easy_safe_run; auto using all_of_nil. Qed.

(** ** C68 and [unsize] *)
(** A vector of Sized elements with bytes in them that is turned into a vector of trait objects (which no history above does) hands out
    the very same reference for its first two elements, also by get_mut, where the two of them alias. *)
Theorem C68_unsize_overlaps s a m self l w w' : repr (TSized s a) self l w -> unsizes s a TDyn m -> (2 <= length l)%nat -> 0 < s ->
  v_unsize s a TDyn m self w = (Ok tt, w') ->
  exists r, v_get TDyn self 0 w' = (Ok (Some r), w') /\ v_get TDyn self 1 w' = (Ok (Some r), w') /\ ~ clear_of TDyn r r.
Proof.
  intros R U Ln S E. unfold repr in R. cbn [kind_of] in R. destruct R as (v & d & R).
  pose proof (run_of_eq _ _ _ _ _ _ _ (v_unsize_wp s a TDyn m self l v d w R U) E) as (_ & w1 & Ew & ->).
  pose proof (nth_error_lt _ _ _ (sr_obj _ _ _ _ _ _ R)) as LT.
  pose proof (sr_wf _ _ _ _ _ _ R) as [(S0 & P & _) Md]. pose proof (pow2_pos _ P) as Pa. pose proof (pow2_max _ P).
  pose proof (sr_bcap _ _ _ _ _ _ R) as Bc. pose proof (sr_fit _ _ _ _ _ _ R) as Fit. unfold s_capacity in Fit. pose proof (sr_buf _ _ _ _ _ _ R) as B.
  change (s_size (TSized s a)) with s in *. change (s_align (TSized s a)) with a in *. destruct (Z.eqb_spec s 0) as [|_]; [lia|].
  unfold zlen in Fit. assert (Hh : w_heap w1 = w_heap w) by (destruct Ew as [->| ->]; reflexivity).
  unfold buf in B. destruct (Z.eqb_spec (sv_cap v * s) 0) as [Z|_]; [nia|]. destruct B as (b & base & Ep & Hb & Pb & Mb & Lb & _).
  set (o := unsized_obj a s TDyn m v (length l)). set (w2 := set_vecs (upd (w_vecs w) self o) w1).
  assert (Ro : ref_ok TDyn (w_heap w2) (Wide (Blk b 0) m) = true).
  { destruct m; cbn [unsizes] in U; try contradiction. destruct U as [-> ->]. unfold ref_ok, heap_read. cbn [wp wm size_of_val align_of_val ptr_addr]. subst w2. proj.
    rewrite Hh, Hb. cbn [b_base b_data]. rewrite Z.add_0_r. unfold is_aligned. rewrite Mb. rewrite (proj2 (Z.ltb_lt 0 base)) by auto.
    destruct (Z.eqb_spec s 0); [lia|]. rewrite Lb. rewrite !(proj2 (Z.leb_le _ _)) by nia. reflexivity. }
  assert (Gu : get_u self w2 = (Ok (UVec (sv_ptr v) (sv_cap v * s) (map (fun i => Info (RFull m) (Z.of_nat i * s)) (seq 0 (length l))) (Z.of_nat (length l)) a), w2)).
  { apply get_u_eq. subst w2. proj. now apply upd_same. }
  assert (Lm : zlen (map (fun i => Info (RFull m) (Z.of_nat i * s)) (seq 0 (length l))) = Z.of_nat (length l)) by (unfold zlen; now rewrite map_length, seq_length).
  exists (Wide (Blk b 0) m). destruct l as [|x [|y l]]; [cbn in Ln; lia..|]. clearbody w2 o. split; [|split].
  - unfold v_get, v_len. cbn [kind_of]. rewrite bind_assoc. erewrite bind_eq by exact Gu. cbv beta. unfold ret at 1, bind at 1. proj. rewrite Lm.
    rewrite (proj2 (Z.ltb_lt _ _)) by (cbn [length]; lia). unfold v_get_unchecked, p_get_unchecked_raw, u_get_unchecked_raw. cbn [kind_of].
    rewrite !bind_assoc. erewrite bind_eq by exact Gu. cbn -[vs_unchecked_sub make_ref]. rewrite !bind_assoc.
    erewrite bind_eq by (apply dassert_eq; reflexivity). rewrite !bind_assoc. erewrite bind_eq by reflexivity. cbv beta. rewrite !bind_assoc.
    erewrite bind_eq by (apply vs_unchecked_sub_eq; lia). cbv beta. rewrite !bind_assoc. erewrite bind_eq by reflexivity. cbv beta. rewrite Ep.
    unfold ret at 1, bind at 1. unfold make_ref, bind. rewrite Ro. reflexivity.
  - unfold v_get, v_len. cbn [kind_of]. rewrite bind_assoc. erewrite bind_eq by exact Gu. cbv beta. unfold ret at 1, bind at 1. proj. rewrite Lm.
    rewrite (proj2 (Z.ltb_lt _ _)) by (cbn [length]; lia). unfold v_get_unchecked, p_get_unchecked_raw, u_get_unchecked_raw. cbn [kind_of].
    rewrite !bind_assoc. erewrite bind_eq by exact Gu. cbn -[vs_unchecked_sub make_ref unchecked_pad_to Z.mul Z.of_nat]. rewrite !bind_assoc.
    erewrite bind_eq by (apply dassert_eq; reflexivity). rewrite !bind_assoc. change (Z.of_nat 0 * s) with 0. change (Z.of_nat 1) with 1.
    assert (P0 : pad 0 a = 0) by (apply pad_id; auto; apply Z.mod_0_l; lia).
    erewrite bind_eq by (apply unchecked_pad_to_spec; [auto|lia|rewrite P0; lia]). cbv beta. rewrite P0. rewrite !bind_assoc.
    erewrite bind_eq by (apply vs_unchecked_sub_eq; nia). cbv beta. rewrite !bind_assoc. erewrite bind_eq by reflexivity. cbv beta. rewrite Ep.
    unfold ret at 1, bind at 1. unfold make_ref, bind. rewrite Ro. reflexivity.
  - unfold clear_of. cbn [wp wm]. destruct m; cbn [unsizes] in U; try contradiction. destruct U as [-> ->]. cbn [size_of_val].
    intros [Z|[Z|(b1 & f1 & b2 & f2 & E1 & E2 & H1)]]; try lia. injection E1 as <- <-. injection E2 as <- <-. lia.
Qed.
End WithConfig.

Section Cases.
Local Existing Instance cfg_release.
Ltac run := vm_compute; reflexivity.
(** Two vectors of trait objects. *)
Definition lent_before : list op := [New true; On 0 (VPush (one 1)); On 0 (VPush (word 2)); OfValues [half 5; one 6]].
(** Everything that may happen while an element of vector 0 is borrowed: reading it, and growing, editing and dropping others. *)
Definition lent_after : list op :=
  [On 0 (VVisit [NextBack; NextBack]); On 1 (VPush (five 4)); On 1 (VInsert 0 (word 7)); New false; MoveLast 2 1; On 0 (VIndex 9); On 1 VPop; DropVec 1].
Lemma lent_typed : Forall (typed TDyn) (lent_before ++ lent_after) /\ Forall (easy TDyn) (lent_before ++ lent_after) /\ Forall (respects 0) lent_after.
Proof.
  assert (P : forall x, (0 <? vsize TDyn x) || (valign TDyn x =? 1) = true -> pos TDyn x) by (intros x; apply posb).
  split; [|split]; repeat (apply Forall_cons || apply Forall_nil); cbn [typed vtyped easy veasy respects vreads]; auto; try (apply goodb_ok; reflexivity);
    try (apply P; reflexivity); try discriminate; try (right; right; reflexivity);
    repeat split; try discriminate; repeat (apply Forall_cons || apply Forall_nil); apply goodb_ok; reflexivity.
Qed.
(** The two references to vector 0 point into one block without overlap, and are both still good at the end. *)
Example C67_case : exists rs env w rs' env' w' r r', exec TDyn [] lent_before empty_world = (Ok (rs, env), w) /\ alive env 0 = Some 0%nat /\
  v_get TDyn 0 0 w = (Ok (Some r), w) /\ v_get TDyn 0 1 w = (Ok (Some r'), w) /\ read_value TDyn r w = (Ok (one 1), w) /\
  exec TDyn env lent_after w = (Ok (rs', env'), w') /\ alive env' 0 = Some 0%nat /\ alive env' 1 = None /\
  read_value TDyn r w' = (Ok (one 1), w') /\ read_value TDyn r' w' = (Ok (word 2), w').
Proof. do 8 eexists. do 9 (split; [run|]). run. Qed.
Example C68_case : exists rs env w r r', exec TDyn [] lent_before empty_world = (Ok (rs, env), w) /\
  v_get TDyn 0 0 w = (Ok (Some r), w) /\ v_get TDyn 0 1 w = (Ok (Some r'), w) /\ 0 < size_of_val TDyn (wm r) /\ 0 < size_of_val TDyn (wm r') /\
  exists b, wp r = Blk b 0 /\ wp r' = Blk b 8.
Proof. do 5 eexists. do 3 (split; [run|]). split; [vm_compute; reflexivity|]. split; [vm_compute; reflexivity|]. eexists. split; run. Qed.
Example C15_history_case : exists rs env w r a, exec TDyn [] lent_before empty_world = (Ok (rs, env), w) /\
  v_get TDyn 0 1 w = (Ok (Some r), w) /\ ptr_addr (w_heap w) (wp r) = Some a /\ align_of_val TDyn (wm r) = 8 /\ a mod 8 = 0.
Proof. do 5 eexists. do 4 (split; [run|]). run. Qed.
Example C16_history_case : exists rs env w, exec TDyn [] lent_before empty_world = (Ok (rs, env), w) /\
  v_len TDyn 0 w = (Ok 2, w) /\ v_byte_len TDyn 0 w = (Ok 16, w) /\ (exists c, v_capacity TDyn 0 w = (Ok c, w) /\ 2 <= c) /\
  exists c, v_byte_capacity TDyn 0 w = (Ok c, w) /\ 16 <= c.
Proof.
  do 3 eexists. do 3 (split; [run|]). split; (eexists; split; [run|]; vm_compute; discriminate).
Qed.
(** What the borrow checker forbids: a push that makes the borrowed vector reallocate leaves the reference dangling. *)
Example C67_respects_needed : exists rs env w rs' env' w' r, exec TDyn [] lent_before empty_world = (Ok (rs, env), w) /\
  v_get TDyn 0 0 w = (Ok (Some r), w) /\ read_value TDyn r w = (Ok (one 1), w) /\
  exec TDyn env [On 0 (VPush (five 4)); On 0 (VPush (word 7)); On 0 (VPush (word 8))] w = (Ok (rs', env'), w') /\
  ref_ok TDyn (w_heap w') r = false /\ exists u, read_value TDyn r w' = (UB u, w').
Proof. do 7 eexists. do 5 (split; [run|]). eexists. run. Qed.
(** A popped element in its box is not touched by what happens to the vector it comes from. *)
Example C65_boxes_case : exists rs env w rs' env' w' b, exec TDyn [] (lent_before ++ [On 0 VPop]) empty_world = (Ok (rs, env), w) /\
  heap_get (w_heap w) b <> None /\ owned_block w 0 <> Some b /\ owned_block w 1 <> Some b /\
  exec TDyn env [On 0 (VPush (five 4)); DropVec 0; On 1 (VPush (word 8))] w = (Ok (rs', env'), w') /\
  heap_get (w_heap w') b = heap_get (w_heap w) b.
Proof.
  do 7 eexists. split; [run|]. instantiate (1 := 4%nat). split; [vm_compute; discriminate|]. split; [vm_compute; discriminate|]. split; [vm_compute; discriminate|].
  split; [run|]. run.
Qed.
(** [unsize] on a vector of two numbers: both elements are the first one... *)
Theorem C68_unsize_refuted : exists v w w' r, v_of_values (TSized 4 4) [u32 1; u32 2] empty_world = (Ok v, w) /\
  v_unsize 4 4 TDyn (MVt 2 4 4) v w = (Ok tt, w') /\ v_get TDyn v 0 w' = (Ok (Some r), w') /\ v_get TDyn v 1 w' = (Ok (Some r), w') /\ ~ clear_of TDyn r r.
Proof.
  do 4 eexists. split; [run|]. do 3 (split; [run|]). intros [H|[H|(b & f & b' & f' & E & E' & H)]]; try discriminate H.
  injection E as <- <-. injection E' as <- <-. destruct H as [H|[H|H]]; [now apply H|now apply H..].
Qed.
(** ... and dropping the vector destroys it twice, and the second one never. *)
Theorem C66_unsize_refuted : exists v w w' w2, v_of_values (TSized 4 4) [u32 1; u32 2] empty_world = (Ok v, w) /\
  v_unsize 4 4 TDyn (MVt 2 4 4) v w = (Ok tt, w') /\ v_drop TDyn v w' = (Ok tt, w2) /\
  w_drops w2 = [Value (MVt 2 4 4) (v_bytes (u32 1)); Value (MVt 2 4 4) (v_bytes (u32 1))].
Proof. do 4 eexists. split; [run|]. do 2 (split; [run|]). run. Qed.
End Cases.

Print Assumptions C15_sized_partial.
Print Assumptions C15_history_partial.
Print Assumptions C15_easy_partial.
Print Assumptions C16_sized_partial.
Print Assumptions C16_history_partial.
Print Assumptions C16_easy_partial.
Print Assumptions C68_history_partial.
Print Assumptions C68_sized_partial.
Print Assumptions C68_easy_partial.
Print Assumptions C67_history_partial.
Print Assumptions C67_sized_partial.
Print Assumptions C67_easy_partial.
Print Assumptions C65_boxes_partial.
Print Assumptions C65_boxes_sized_partial.
Print Assumptions C65_boxes_easy_partial.
Print Assumptions C68_unsize_overlaps.
Print Assumptions C68_unsize_refuted.
Print Assumptions C66_unsize_refuted.
