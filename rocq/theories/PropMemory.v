(** C64, C65: the heap over whole histories.

    [live w b]: block [b] of the heap is allocated. [handed t cs rs] counts the boxes that the history [cs] with results [rs] gave to
    its caller, plus, for types that are not Sized, the vectors whose destruction was cut short by a panicking destructor
    ([PropHistory.handed]). The histories are those of C49. *)
From Coq Require Import ZArith List Bool Lia.
From Verif Require Import Types World ValidSize Emplace SizedVec AlignedVec UnalignedVec Api Spec Bytes Arith Wp Mem Repr
  Access Reserve Realign Orep Push Deal PushWith Shell Insert Take Pop Box Iter Calls GetMut DropVec Family Build PushAll Wrote Sources
  Obs Room Shrink PropPush PropReserve PropAccess PropEdit PropEmplace PropShrink PropCompare PropWhole Convert PropUnsize PropConvert History PropHistory Aligns PropUniform Findings.
Import ListNotations.
Open Scope Z_scope.
Open Scope m_scope.

Section WithConfig.
Context {C : Config}.

Definition live (w : world) (b : nat) : Prop := heap_get (w_heap w) b <> None.
(** The buffer of a vector that has not been dropped. *)
Definition in_use (env : list (option nat)) (w : world) (b : nat) : Prop := exists k j, alive env k = Some j /\ owned_block w j = Some b.

(** C64: what is allocated at the end was allocated at the start, is a live vector's buffer, or one of the [bs], of which there are
    no more than boxes handed out. *)
Definition leaks_nothing (t : ty) (cs : list op) (w : world) : Prop :=
  run (exec t [] cs) w
    (fun p w' => exists bs, (length bs <= handed t cs (fst p))%nat /\
       forall b, live w' b -> live w b \/ In b bs \/ in_use (snd p) w' b)
    (fun _ _ => False) (fun _ => out_of_luck).
(** C65: memory that was allocated at the start is never written, freed or taken over. *)
Definition keeps_out (t : ty) (cs : list op) (w : world) : Prop :=
  run (exec t [] cs) w
    (fun p w' => forall b, live w b -> heap_get (w_heap w') b = heap_get (w_heap w) b /\ ~ in_use (snd p) w' b)
    (fun _ _ => False) (fun _ => out_of_luck).
(** Both together: when every vector has been dropped and nothing was handed out, the heap is what it was. *)
Definition cleans_up (t : ty) (cs : list op) (w : world) : Prop :=
  run (exec t [] cs) w
    (fun p w' => (forall k, alive (snd p) k = None) -> handed t cs (fst p) = 0%nat -> forall b, heap_get (w_heap w') b = heap_get (w_heap w) b)
    (fun _ _ => False) (fun _ => out_of_luck).

Lemma alive_nil k : alive [] k = None.
Proof. now destruct k. Qed.
Lemma books_leaks t cs w p w' : books [] (snd p) (handed t cs (fst p)) w w' ->
  exists bs, (length bs <= handed t cs (fst p))%nat /\ forall b, live w' b -> live w b \/ In b bs \/ in_use (snd p) w' b.
Proof.
  intros [B _]. set (hs := filter (fun b => match heap_get (w_heap w) b with Some _ => true | None => false end) (seq 0 (length (w_heap w)))).
  destruct (B hs) as (bs & L & A).
  - intros b Lb. left. apply filter_In. split.
    + apply in_seq. pose proof (live_lt _ _ Lb). lia.
    + destruct (heap_get (w_heap w) b); congruence.
  - exists bs. split; auto. intros b Lb. destruct (A b Lb) as [I|I]; auto. apply in_app_or in I as [I|I]; auto.
    left. apply filter_In in I as [_ I]. unfold live. destruct (heap_get (w_heap w) b); congruence.
Qed.
Lemma books_keeps env n w w' : books [] env n w w' ->
  forall b, live w b -> heap_get (w_heap w') b = heap_get (w_heap w) b /\ ~ in_use env w' b.
Proof.
  intros [_ F] b L. destruct (F b L) as [E Fo]. { intros k j. rewrite alive_nil. discriminate. }
  split; auto. intros (k & j & A & O). exact (Fo k j A O).
Qed.
Lemma behaves_leaks t cs w : behaves t [] cs [] w -> leaks_nothing t cs w.
Proof.
  intros H. eapply run_conseq; [exact H|..]; cbv beta; auto. intros p w' (s' & dl & _ & _ & _ & B). now apply books_leaks.
Qed.
Lemma behaves_keeps t cs w : behaves t [] cs [] w -> keeps_out t cs w.
Proof.
  intros H. eapply run_conseq; [exact H|..]; cbv beta; auto. intros p w' (s' & dl & _ & _ & _ & B). eapply books_keeps; eauto.
Qed.
Lemma behaves_cleans t cs w : behaves t [] cs [] w -> cleans_up t cs w.
Proof.
  intros H. eapply run_conseq; [exact H|..]; cbv beta; auto. intros p w' (s' & dl & _ & _ & _ & B) Al Hd b.
  destruct (books_leaks _ _ _ _ _ B) as (bs & L & A). rewrite Hd in L. destruct bs; [|cbn in L; lia].
  destruct (heap_get (w_heap w') b) eqn:E.
  - destruct (A b) as [Lb|[[]|(k & j & Ak & _)]]; [unfold live; congruence| |rewrite Al in Ak; discriminate Ak].
    rewrite <- E. now apply (books_keeps _ _ _ _ B).
  - destruct (heap_get (w_heap w) b) eqn:E'; auto.
    destruct (books_keeps _ _ _ _ B b) as [X _]; [unfold live; congruence|]. congruence.
Qed.

(** ** C64 *)
(** Sized types: every history of well-typed calls (but see [calm]); here only boxes count. *)
Theorem C64_sized_partial s a cs w : wf_ty (TSized s a) -> Forall (typed (TSized s a)) cs -> Forall calm cs ->
  leaks_nothing (TSized s a) cs w.
Proof. intros. now apply behaves_leaks, C49_sized_partial. Qed.
Theorem C64_history_partial t cs w : wf_ty t -> safe_run t cs [] -> leaks_nothing t cs w.
Proof. intros. now apply behaves_leaks, C49_start_partial. Qed.
Theorem C64_easy_partial t cs w : wf_ty t -> Forall (typed t) cs -> Forall (easy t) cs -> leaks_nothing t cs w.
Proof. intros. now apply behaves_leaks, C49_easy_partial. Qed.
Theorem C64_uniform_partial t A cs w : wf_ty t -> kind_of t = KUnaligned -> pow2 A -> 1 <= A -> Forall (typed t) cs -> Forall (uniform t A) cs ->
  w_vecs w = [] -> leaks_nothing t cs w.
Proof. intros. eapply behaves_leaks, C49_uniform_start_partial; eauto. Qed.
(** The heap after everything has been dropped. *)
Theorem C64_all_dropped_partial t cs w : wf_ty t -> safe_run t cs [] -> cleans_up t cs w.
Proof. intros. now apply behaves_cleans, C49_start_partial. Qed.

(** ** C65 *)
Theorem C65_sized_partial s a cs w : wf_ty (TSized s a) -> Forall (typed (TSized s a)) cs -> Forall calm cs ->
  keeps_out (TSized s a) cs w.
Proof. intros. now apply behaves_keeps, C49_sized_partial. Qed.
Theorem C65_history_partial t cs w : wf_ty t -> safe_run t cs [] -> keeps_out t cs w.
Proof. intros. now apply behaves_keeps, C49_start_partial. Qed.
Theorem C65_easy_partial t cs w : wf_ty t -> Forall (typed t) cs -> Forall (easy t) cs -> keeps_out t cs w.
Proof. intros. now apply behaves_keeps, C49_easy_partial. Qed.
Theorem C65_uniform_partial t A cs w : wf_ty t -> kind_of t = KUnaligned -> pow2 A -> 1 <= A -> Forall (typed t) cs -> Forall (uniform t A) cs ->
  w_vecs w = [] -> keeps_out t cs w.
Proof. intros. eapply behaves_keeps, C49_uniform_start_partial; eauto. Qed.
End WithConfig.

(** C64 without counting them: the buffer of a vector whose destruction is cut short by a panicking destructor belongs to nobody
    (history: two strings, the destructor of the first panics). *)
Definition no_box (rs : list (obs + panic_reason)) : Prop := Forall (fun r => match r with inl (BOpt _) | inl (BVal _) => False | _ => True end) rs.
Theorem C64_panicking_destructor_refuted : exists cs rs env w',
  Forall (typed (C := cfg_drop0) TStr) cs /\ Forall (easy (C := cfg_drop0) TStr) cs /\ exec (C := cfg_drop0) TStr [] cs empty_world = (Ok (rs, env), w') /\ no_box rs /\
  exists b, live w' b /\ ~ live empty_world b /\ ~ in_use env w' b.
Proof.
  exists [OfValues [ab; cd]; DropVec 0]. do 3 eexists. split.
  { repeat (apply Forall_cons || apply Forall_nil); cbn [typed]; auto. apply goodb_ok; reflexivity. apply goodb_ok; reflexivity. }
  split. { repeat (apply Forall_cons || apply Forall_nil); cbn [easy]; auto; intros K; discriminate K. }
  split; [run|]. split. { repeat constructor. }
  exists 1%nat. split; [vm_compute; discriminate|]. split; [intros H; apply H; reflexivity|]. intros (k & j & A & _). destruct k as [|[|k]]; discriminate A.
Qed.
Lemma owned_live t self l w b : repr t self l w -> owned_block w self = Some b -> heap_get (w_heap w) b <> None.
Proof.
  intros R O. apply repr_orep in R as (o & d & R). rewrite (orep_owned _ _ _ _ _ _ R) in O. pose proof (orep_buf _ _ _ _ _ _ R) as B.
  unfold buf in B. destruct (o_bcap t o =? 0).
  - destruct B as (a & E & _). rewrite E in O. discriminate O.
  - destruct B as (k & base & E & H & _). rewrite E in O. injection O as <-. congruence.
Qed.
(** And it always is, whatever is in the vector. *)
Theorem C64_panicking_drop_leaks {C : Config} t self l w r w' : kind_of t <> KSized -> repr t self l w ->
  v_drop t self w = (Panic r, w') -> forall b, owned_block w self = Some b -> live w' b /\ owned_block w' self = None.
Proof.
  intros K R E b O. pose proof (C26_drop_panics_partial t self l w R) as H. unfold run in H. rewrite E in H. destruct H as (_ & _ & H).
  assert (X : nth_error (w_vecs w') self = Some ODead /\ w_heap w' = w_heap w).
  { destruct (kind_of t); [congruence| |]; destruct H as (m1 & m2 & _ & _ & D & _ & X); auto. }
  destruct X as [D X]. split.
  - unfold live. rewrite X. eapply owned_live; eauto.
  - unfold owned_block. now rewrite D.
Qed.

Print Assumptions C64_sized_partial.
Print Assumptions C64_history_partial.
Print Assumptions C64_easy_partial.
Print Assumptions C64_uniform_partial.
Print Assumptions C64_all_dropped_partial.
Print Assumptions C64_panicking_destructor_refuted.
Print Assumptions C64_panicking_drop_leaks.
Print Assumptions C65_sized_partial.
Print Assumptions C65_history_partial.
Print Assumptions C65_easy_partial.
Print Assumptions C65_uniform_partial.

(** ** Concrete cases *)
Section Cases.
Local Existing Instance cfg_release.
(** A world in which somebody else's block is allocated. *)
Definition theirs : block := Block (Layout 2 1) 8 (v_bytes ab).
Definition shared_world : world := World [Some theirs] [] [] [] 0 0.
(** Numbers of the allocated blocks. *)
Definition allocated (w : world) : list nat :=
  filter (fun b => match heap_get (w_heap w) b with Some _ => true | None => false end) (seq 0 (length (w_heap w))).
(** Two vectors of trait objects that grow, shrink, exchange elements and are dropped: what is left is the other's block. *)
Definition dropped_history : list op :=
  [New true; On 0 (VPush (one 1)); On 0 (VPush (word 2)); On 0 (VInsert 0 (five 4)); OfValues [half 5; one 6]; MoveLast 1 0; MoveAt 0 0 1 0;
   On 0 (VTryReserve false 3 100 64); On 1 (VShrinkTo 0); On 1 (VIndex 7); On 1 VPopDrop; DropVec 0; DropVec 1].
Lemma dropped_easy : Forall (typed TDyn) dropped_history /\ Forall (easy TDyn) dropped_history.
Proof.
  assert (P : forall x, (0 <? vsize TDyn x) || (valign TDyn x =? 1) = true -> pos TDyn x) by (intros x; apply posb).
  split; repeat (apply Forall_cons || apply Forall_nil); cbn [typed vtyped easy veasy]; auto; try (apply goodb_ok; reflexivity);
    try (apply P; reflexivity); try discriminate; repeat split; discriminate.
Qed.
Example C64_dropped_case : exists rs env w', exec TDyn [] dropped_history shared_world = (Ok (rs, env), w') /\
  handed TDyn dropped_history rs = 0%nat /\ allocated w' = [0%nat] /\ heap_get (w_heap w') 0 = Some theirs /\ (1 < length (w_heap w'))%nat.
Proof. do 3 eexists. split; [run|]. split; [run|]. split; [run|]. split; [run|]. vm_compute. lia. Qed.
(** The same but the last vector kept, and an element popped into a box: their blocks and the other's. *)
Definition kept_history : list op := firstn 10 dropped_history ++ [On 1 VPop; DropVec 0].
Example C64_kept_case : exists rs env w', exec TDyn [] kept_history shared_world = (Ok (rs, env), w') /\
  handed TDyn kept_history rs = 1%nat /\ length (allocated w') = 3%nat /\ heap_get (w_heap w') 0 = Some theirs /\
  exists b, alive env 1 = Some 1%nat /\ owned_block w' 1 = Some b /\ In b (allocated w').
Proof. do 3 eexists. split; [run|]. split; [run|]. split; [run|]. split; [run|]. eexists. split; [run|]. split; [run|]. vm_compute. auto. Qed.
(** Sized elements. *)
Example C64_sized_case : exists rs env w', exec (TSized 4 4) [] u32_history shared_world = (Ok (rs, env), w') /\
  handed (TSized 4 4) u32_history rs = 1%nat /\ length (allocated w') = 3%nat /\ heap_get (w_heap w') 0 = Some theirs.
Proof. do 3 eexists. split; [run|]. split; [run|]. split; [run|]. run. Qed.
Example C65_case : wf_ty TDyn /\ Forall (typed TDyn) dropped_history /\ Forall (easy TDyn) dropped_history /\ live shared_world 0 /\
  exists rs env w', exec TDyn [] (firstn 10 dropped_history) shared_world = (Ok (rs, env), w') /\
    heap_get (w_heap w') 0 = Some theirs /\ owned_block w' 0 <> Some 0%nat /\ owned_block w' 1 <> Some 0%nat /\ owned_block w' 0 <> None.
Proof.
  split; [exact I|]. split; [apply dropped_easy|]. split; [apply dropped_easy|]. split; [discriminate|].
  do 3 eexists. split; [run|]. split; [run|]. split; [vm_compute; discriminate|]. split; vm_compute; discriminate.
Qed.
End Cases.
