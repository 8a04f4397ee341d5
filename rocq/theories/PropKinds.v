(** C69-C72: everything that is known about whole histories, for each kind of element type.

    Conditions are on the calls alone and stated per kind, so that a caller can check them by reading the program. *)
From Coq Require Import ZArith List Bool Lia Permutation.
From Verif Require Import Types World ValidSize Emplace SizedVec AlignedVec UnalignedVec Api Spec Bytes Arith Wp Mem Repr
  Access Reserve Realign Orep Push Deal PushWith Shell Insert Take Pop Box Iter Calls GetMut DropVec Family Build PushAll Wrote Sources
  Obs Room Shrink PropPush PropReserve PropAccess PropEdit PropEmplace PropShrink PropCompare PropWhole Convert PropUnsize PropConvert Zst History PropHistory Aligns PropUniform Findings PropMemory PropUnsize PropValues PropBorrow.
Import ListNotations.
Open Scope Z_scope.
Open Scope m_scope.

Section WithConfig.
Context {C : Config}.

(** Nothing is undefined; every result is the result on lists and every panic one that the list specification allows; no
    memory is leaked, none but the history's own is touched; every value that went in is destroyed once, still there, handed out,
    or lost by a panic; and at every moment elements are aligned, within capacity, and share no memory. *)
Record sound (t : ty) (cs : list op) (w : world) : Prop := Sound {
  so_defined : defined (exec t [] cs w);
  so_lists : behaves t [] cs [] w;
  so_leaks : leaks_nothing t cs w;
  so_memory : keeps_out t cs w;
  so_values : conserves t [] cs [] w;
  so_aligned : at_every_moment t cs w (stored_aligned t);
  so_lengths : at_every_moment t cs w (lengths_fit t);
  so_apart : never_overlap t cs w }.
Lemma behaves_sound t cs w : wf_ty t -> (forall pre post, cs = pre ++ post -> behaves t [] pre [] w) -> sound t cs w.
Proof.
  intros Wt H. assert (B : behaves t [] cs [] w) by (apply (H cs []); now rewrite app_nil_r). split.
  - eapply behaves_defined; eauto.
  - exact B.
  - now apply behaves_leaks.
  - now apply behaves_keeps.
  - now apply behaves_conserves.
  - intros pre post E. eapply run_conseq; [exact (H pre post E)|..]; cbv beta; auto.
    intros p w' (s' & dl & _ & T & _) k j A. destruct (tracks_live _ _ _ _ _ _ T A) as (l & _ & R). eapply repr_stored; eauto.
  - intros pre post E. eapply run_conseq; [exact (H pre post E)|..]; cbv beta; auto.
    intros p w' (s' & dl & _ & T & _) k j A. destruct (tracks_live _ _ _ _ _ _ T A) as (l & _ & R). eapply repr_lengths; eauto.
  - intros pre post E. eapply run_conseq; [exact (H pre post E)|..]; cbv beta; auto.
    intros p w' (s' & dl & _ & T & _). eapply tracks_overlap; eauto.
Qed.

(** ** C69: Sized elements *)
(** Every history, if no destructor panics inside the one call that cannot cope with it (F14). *)
Theorem C69_sized s a cs w : wf_ty (TSized s a) -> Forall (typed (TSized s a)) cs -> Forall calm cs -> sound (TSized s a) cs w.
Proof.
  intros Wt Ty Ca. apply behaves_sound; auto. intros pre post ->. apply Forall_app in Ty as [Ty _], Ca as [Ca _]. now apply C49_sized_partial.
Qed.
Theorem C69_sized_references s a pre k cs w : wf_ty (TSized s a) -> Forall (typed (TSized s a)) (pre ++ cs) -> Forall calm (pre ++ cs) ->
  Forall (respects k) cs -> references_last (TSized s a) pre k cs w.
Proof. apply C67_sized_partial. Qed.
(** With an allocator and destructors that do not fail, a history always runs to its end. *)
Theorem C69_sized_ends s a cs w : wf_ty (TSized s a) -> Forall (typed (TSized s a)) cs -> (forall n, cfg_alloc n <> None) -> drops_quiet ->
  exists rs env w' s' dl, exec (TSized s a) [] cs w = (Ok (rs, env), w') /\ spec_run (TSized s a) cs [] rs s' dl /\ tracks (TSized s a) env s' w'.
Proof.
  intros Wt Ty A Q. assert (Ca : Forall calm cs). { apply Forall_forall. intros [| | | | | | | |k c| | | | |] _; cbn [calm]; auto. destruct c; auto. }
  apply C49_no_abort_partial; auto. now apply sized_safe.
Qed.

(** ** C70: slices, strings and what else has an alignment known at compile time *)
(** [insert] only at the front (F1), an iterator only from one end (F3), no panicking destructor when the result of
    [remove_into] is dropped (F14). *)
Definition vfront (c : vop) : Prop :=
  match c with
  | VVisit cs | VUpdate cs _ => only Next cs \/ only NextBack cs
  | VVisitLast cs => only NextBack cs
  | VInsert i _ | VInsertUnsize _ _ _ i _ => i = 0%nat
  | VRemoveDrop _ => drops_quiet
  | _ => True
  end.
Definition front (c : op) : Prop := match c with On _ c => vfront c | _ => True end.
Lemma front_easy t c : kind_of t = KAligned -> front c -> brings (not_huge t) c -> easy t c.
Proof.
  intros K F B. assert (P : forall x, pos t x) by (intros x K'; congruence). assert (Ps : forall xs, Forall (pos t) xs) by (intros; now apply Forall_forall).
  assert (Nu : kind_of t <> KUnaligned) by congruence.
  destruct c; cbn [easy front brings] in *; auto. destruct c; cbn [veasy vfront vbrings] in *; auto; try tauto; intros; congruence.
Qed.
Lemma fronts_easy t cs : kind_of t = KAligned -> Forall front cs -> Forall (brings (not_huge t)) cs -> Forall (easy t) cs.
Proof. intros K F B. rewrite Forall_forall in *. intros c I. apply front_easy; auto. Qed.
Theorem C70_aligned t cs w : wf_ty t -> kind_of t = KAligned -> Forall (typed t) cs -> Forall front cs -> Forall (brings (not_huge t)) cs -> sound t cs w.
Proof.
  intros Wt K Ty F B. pose proof (fronts_easy _ _ K F B) as E. apply behaves_sound; auto. intros pre post ->.
  apply Forall_app in Ty as [Ty _], E as [E _]. now apply C49_easy_partial.
Qed.
Theorem C70_aligned_references t pre k cs w : wf_ty t -> kind_of t = KAligned -> Forall (typed t) (pre ++ cs) -> Forall front (pre ++ cs) ->
  Forall (brings (not_huge t)) (pre ++ cs) -> Forall (respects k) cs -> references_last t pre k cs w.
Proof. intros. apply C67_easy_partial; auto using fronts_easy. Qed.

(** ** C71: trait objects of any layouts *)
(** Elements that have bytes or need no alignment ([lands]), inserted and removed at the ends only; no shrinking below the bytes asked for; an
    iterator only from one end. *)
Definition vends (c : vop) : Prop :=
  match c with
  | VSet _ f => forall x, v_meta (f x) = v_meta x
  | VVisit cs => only Next cs \/ only NextBack cs
  | VUpdate cs f => (only Next cs \/ only NextBack cs) /\ forall x, v_meta (f x) = v_meta x
  | VVisitLast cs => only NextBack cs
  | VInsert i _ | VInsertWith i _ | VInsertFrom i _ _ | VInsertUnsize _ _ _ i _ | VRemove i | VRemoveForget i => i = 0%nat
  | VRemoveDrop i => drops_quiet /\ i = 0%nat
  | VShrink _ _ _ => False
  | _ => True
  end.
Definition ends_only (c : op) : Prop := match c with On _ c => vends c | MoveAt _ i _ j => i = 0%nat /\ j = 0%nat | _ => True end.
Lemma ends_easy t c : kind_of t = KUnaligned -> ends_only c -> brings (lands t) c -> easy t c.
Proof.
  intros K F B. assert (P : forall x, lands t x -> pos t x) by (intros x H _; exact H).
  assert (Ps : forall xs, Forall (lands t) xs -> Forall (pos t) xs) by (intros xs; now apply Forall_impl).
  assert (N : forall x, not_huge t x) by (intros x ->; discriminate K). assert (Ns : forall xs, Forall (not_huge t) xs) by (intros; now apply Forall_forall).
  destruct c; cbn [easy ends_only brings] in *; auto. destruct c; cbn [veasy vends vbrings] in *; auto; try tauto; repeat split; auto; tauto.
Qed.
Lemma all_ends_easy t cs : kind_of t = KUnaligned -> Forall ends_only cs -> Forall (brings (lands t)) cs -> Forall (easy t) cs.
Proof. intros K F B. rewrite Forall_forall in *. intros c I. apply ends_easy; auto. Qed.
Theorem C71_ends t cs w : wf_ty t -> kind_of t = KUnaligned -> Forall (typed t) cs -> Forall ends_only cs -> Forall (brings (lands t)) cs -> sound t cs w.
Proof.
  intros Wt K Ty F B. pose proof (all_ends_easy _ _ K F B) as E. apply behaves_sound; auto. intros pre post ->.
  apply Forall_app in Ty as [Ty _], E as [E _]. now apply C49_easy_partial.
Qed.
Theorem C71_ends_references t pre k cs w : wf_ty t -> kind_of t = KUnaligned -> Forall (typed t) (pre ++ cs) -> Forall ends_only (pre ++ cs) ->
  Forall (brings (lands t)) (pre ++ cs) -> Forall (respects k) cs -> references_last t pre k cs w.
Proof. intros. apply C67_easy_partial; auto using all_ends_easy. Qed.

(** ** C72: trait objects whose sizes are multiples of a common alignment *)
(** All positions, except [insert] inside (F1). *)
Theorem C72_uniform t A cs w : wf_ty t -> kind_of t = KUnaligned -> pow2 A -> 1 <= A -> Forall (typed t) cs -> Forall (uniform t A) cs ->
  w_vecs w = [] -> sound t cs w.
Proof.
  intros Wt K PA A1 Ty U E. apply behaves_sound; auto. intros pre post ->. apply Forall_app in Ty as [Ty _], U as [U _].
  eapply C49_uniform_start_partial; eauto.
Qed.
End WithConfig.

Print Assumptions C69_sized.
Print Assumptions C69_sized_references.
Print Assumptions C69_sized_ends.
Print Assumptions C70_aligned.
Print Assumptions C70_aligned_references.
Print Assumptions C71_ends.
Print Assumptions C71_ends_references.
Print Assumptions C72_uniform.

(** ** Concrete histories *)
Section Cases.
Local Existing Instance cfg_release.
Ltac each := repeat (apply Forall_cons || apply Forall_nil).
Lemma landsb t x : (0 <? vsize t x) || (valign t x =? 1) = true -> lands t x.
Proof. rewrite orb_true_iff. intros [E|E]; [left; now apply Z.ltb_lt|right; now apply Z.eqb_eq]. Qed.

Example C69_case : wf_ty (TSized 4 4) /\ Forall (typed (TSized 4 4)) u32_history /\ Forall calm u32_history /\ drops_quiet /\ (forall n, cfg_alloc n <> None).
Proof.
  pose proof C49_sized_case as (Wt & Ty & Ca & _). split; auto. split; auto. split; auto. split; [intros n; reflexivity|]. intros n. discriminate.
Qed.
(** Strings, also the empty one: removal and emplacement anywhere, shrinking, moves; a reference to an element of vector 0 lasts
    while only vector 1 changes. *)
Definition str_pre : list op := [New false; On 0 (VPush ab); On 0 (VPushWith cd); On 0 (VInsertWith 1 (str_val [])); On 0 (VInsert 0 ef); OfValues [ab; str_val []]].
Definition str_post : list op := [On 1 (VPush ef); On 1 (VInsertWith 2 cd); On 1 (VRemove 1); On 1 (VShrink 0 0 1); On 0 (VGet 3); On 0 (VVisit [NextBack; NextBack]); On 1 (VVisit [Next; Next; Next]);
  On 1 (VIndex 5); On 1 VPopDrop; On 1 (push_from (broken TStr ab 3)); On 1 VLen].
Example C70_case : kind_of TStr = KAligned /\ Forall (typed TStr) (str_pre ++ str_post) /\ Forall front (str_pre ++ str_post) /\
  Forall (brings (not_huge TStr)) (str_pre ++ str_post) /\ Forall (respects 0) str_post /\
  exists env w', exec TStr [] (str_pre ++ str_post) empty_world =
    (Ok ([inl BUnit; inl BUnit; inl BUnit; inl BUnit; inl BUnit; inl BUnit; inl BUnit; inl BUnit; inl (BVal (str_val [])); inl BUnit; inl (BOpt (Some cd));
          inl (BItems [(Some cd, 3%nat); (Some (str_val []), 2%nat)]); inl (BItems [(Some ab, 2%nat); (Some cd, 1%nat); (Some ef, 0%nat)]); inr PBounds; inl BUnit;
          inr (PUser 3); inl (BNum 2)], env), w') /\ w_drops w' = [ef].
Proof.
  split; [reflexivity|]. assert (N : forall x, not_huge TStr x) by discriminate. split.
  { each; cbn [typed vtyped push_from]; auto; try (apply goodb_ok; reflexivity); try (apply broken_producer; reflexivity).
    repeat split; discriminate. }
  split. { each; cbn [front vfront push_from]; auto; first [left; reflexivity|right; reflexivity]. }
  split. { each; cbn [brings vbrings push_from]; auto. }
  split. { each; cbn [respects vreads]; auto; discriminate. }
  do 2 eexists. split; [run|]. run.
Qed.
Example C71_case : kind_of TDyn = KUnaligned /\ Forall (typed TDyn) dyn_history /\ Forall ends_only dyn_history /\ Forall (brings (lands TDyn)) dyn_history.
Proof.
  pose proof C49_dyn_case as (_ & Ty & _). split; [reflexivity|]. split; auto. split.
  { each; cbn [ends_only vends]; auto; first [left; reflexivity|right; reflexivity]. }
  each; cbn [brings vbrings]; auto; try (apply landsb; reflexivity); each; apply landsb; reflexivity.
Qed.
Example C72_case : pow2 8 /\ Forall (typed TDyn) word_history /\ Forall (uniform TDyn 8) word_history /\ w_vecs empty_world = [].
Proof. pose proof C49_uniform_case as (P & Ty & U & _). repeat split; auto. Qed.
End Cases.
