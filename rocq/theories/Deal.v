(** The contract between an emplacable and whoever consumes it.

    An emplacable is run exactly once. It calls the emplacer exactly once, with a layout, metadata and an inner closure, and
    may do some work before and after. [emits e S w0] states what a well-behaved emplacable does, without saying how:
    [S] names the value it delivers and the part of the world ("footprint": vector objects and heap blocks) it may touch. *)
From Coq Require Import ZArith List Bool Lia.
From Verif Require Import Types World ValidSize Emplace SizedVec AlignedVec UnalignedVec Api Spec Bytes Arith Wp Mem Repr
  Access Reserve Realign Orep Push.
Import ListNotations.
Open Scope Z_scope.
Open Scope m_scope.

(** What became of the value: written to a place, dropped, forgotten, or never asked for because the emplacer unwound. *)
Inductive usage := Delivered | Dropped | Forgotten | Refused.

Record deal := Deal {
  d_meta : meta;
  d_bytes : list byte;
  d_lay : layout;                       (* the layout announced to the emplacer *)
  d_fv : list nat;                      (* footprint: vector objects *)
  d_fb : list nat;                      (* footprint: heap blocks *)
  d_nulls : list value;                 (* destructors run when the emplacable is dropped *)
  d_extra : list value;                 (* destructors run while delivering *)
  d_panic : panic_reason -> Prop;       (* panics the delivery may raise *)
  d_after : usage -> world -> Prop }.   (* what holds of the footprint afterwards *)

Definition d_value (S : deal) : value := Value (d_meta S) (d_bytes S).

(** [w'] has the same footprint as [w]. *)
Definition agree (fv fb : list nat) (w w' : world) : Prop :=
  (forall j, In j fv -> nth_error (w_vecs w') j = nth_error (w_vecs w) j) /\
  (forall b, In b fb -> heap_get (w_heap w') b = heap_get (w_heap w) b) /\
  (length (w_heap w) <= length (w_heap w'))%nat.
(** Only the footprint changes from [w] to [w']. *)
Definition within (fv fb : list nat) (w w' : world) : Prop :=
  (forall j, ~ In j fv -> nth_error (w_vecs w') j = nth_error (w_vecs w) j) /\
  length (w_vecs w') = length (w_vecs w) /\
  w_cells w' = w_cells w /\
  (length (w_heap w) <= length (w_heap w'))%nat /\
  (forall b, ~ In b fb -> heap_get (w_heap w') b = heap_get (w_heap w) b) /\
  (w_nalloc w <= w_nalloc w')%nat.

Lemma agree_refl fv fb w : agree fv fb w w.
Proof. unfold agree; auto. Qed.
Lemma agree_trans fv fb a b c : agree fv fb a b -> agree fv fb b c -> agree fv fb a c.
Proof.
  intros (A1 & A2 & A3) (B1 & B2 & B3). unfold agree. ands.
  - intros. rewrite B1; auto.
  - intros. rewrite B2; auto.
  - lia.
Qed.
Lemma within_refl fv fb w : within fv fb w w.
Proof. unfold within. ands; auto. Qed.
Lemma within_trans fv fb a b c : within fv fb a b -> within fv fb b c -> within fv fb a c.
Proof.
  intros (A1 & A2 & A3 & A4 & A5 & A6) (B1 & B2 & B3 & B4 & B5 & B6). unfold within. ands; try congruence; try lia.
  - intros. rewrite B1; auto.
  - intros. rewrite B5; auto.
Qed.
Lemma within_mono fv fb fv' fb' a b : incl fv fv' -> incl fb fb' -> within fv fb a b -> within fv' fb' a b.
Proof. intros I J (A1 & A2 & A3 & A4 & A5 & A6). unfold within. ands; auto. Qed.
Lemma within_nil a b fv fb : within [] [] a b -> within fv fb a b.
Proof. apply within_mono; intros x []. Qed.
Lemma within_drops fv fb w d : within fv fb w (set_drops d w).
Proof. unfold within; proj; ands; auto. Qed.
(** Changes inside one footprint are not seen by a disjoint one. *)
Lemma within_agree fv fb gv gb w w' :
  within fv fb w w' -> (forall j, In j gv -> ~ In j fv) -> (forall b, In b gb -> ~ In b fb) -> agree gv gb w w'.
Proof. intros (A1 & A2 & A3 & A4 & A5 & A6) N M. unfold agree. ands; auto. Qed.
Lemma agree_mono fv fb gv gb w w' : incl gv fv -> incl gb fb -> agree fv fb w w' -> agree gv gb w w'.
Proof. intros I J (A & B & D). unfold agree. auto. Qed.
Lemma agree_drops fv fb w d : agree fv fb w (set_drops d w).
Proof. unfold agree; auto. Qed.

(** Only vector [self], the memory it owns and the footprint change; no block is leaked. *)
Record touch (self : nat) (fv fb : list nat) (w w' : world) : Prop := Touch {
  to_vecs : forall j, j <> self -> ~ In j fv -> nth_error (w_vecs w') j = nth_error (w_vecs w) j;
  to_nvecs : length (w_vecs w') = length (w_vecs w);
  to_cells : w_cells w' = w_cells w;
  to_len : (length (w_heap w) <= length (w_heap w'))%nat;
  to_other : forall b, (b < length (w_heap w))%nat -> owned_block w self <> Some b -> ~ In b fb ->
             heap_get (w_heap w') b = heap_get (w_heap w) b;
  to_old : forall b, owned_block w self = Some b -> heap_get (w_heap w') b <> None -> owned_block w' self = Some b;
  to_new : forall b, (length (w_heap w) <= b)%nat -> heap_get (w_heap w') b <> None -> owned_block w' self = Some b;
  to_owned : forall b, owned_block w' self = Some b -> owned_block w self = Some b \/ (length (w_heap w) <= b)%nat;
  to_nalloc : (w_nalloc w <= w_nalloc w')%nat;
  to_drops : exists d, w_drops w' = w_drops w ++ d }.

(** The footprint exists in [w] and does not meet vector [self]. *)
Definition apart (self : nat) (fv fb : list nat) (w : world) : Prop :=
  ~ In self fv /\ (forall b, In b fb -> (b < length (w_heap w))%nat) /\ (forall b, owned_block w self = Some b -> ~ In b fb).

Lemma touch_frame self fv fb w w' : frame self w w' -> touch self fv fb w w'.
Proof. intros []. constructor; auto. Qed.
Lemma touch_refl self fv fb w : touch self fv fb w w.
Proof. apply touch_frame, frame_refl. Qed.
Lemma frame_touch self w w' : touch self [] [] w w' -> frame self w w'.
Proof. intros []. constructor; auto. Qed.
Lemma touch_within self fv fb w w' : within fv fb w w' -> apart self fv fb w -> (exists d, w_drops w' = w_drops w ++ d) ->
  touch self fv fb w w'.
Proof.
  intros (A1 & A2 & A3 & A4 & A5 & A6) (B1 & B2 & B3) D.
  assert (O : owned_block w' self = owned_block w self) by (unfold owned_block; now rewrite A1).
  constructor; auto.
  - intros b Ob _. congruence.
  - intros b Hb L. rewrite A5 in L. rewrite heap_get_ge in L by auto. congruence. intro I. specialize (B2 b I). lia.
  - intros b Ob. left; congruence.
Qed.
Lemma touch_apart self fv fb w w' : touch self fv fb w w' -> apart self fv fb w -> apart self fv fb w'.
Proof.
  intros T (B1 & B2 & B3). unfold apart. ands; auto.
  - intros b I. pose proof (to_len _ _ _ _ _ T). specialize (B2 b I). lia.
  - intros b O I. destruct (to_owned _ _ _ _ _ T b O) as [O'|L]. eapply B3; eauto. specialize (B2 b I). lia.
Qed.
Lemma touch_mono self fv fb fv' fb' w w' : incl fv fv' -> incl fb fb' -> touch self fv fb w w' -> touch self fv' fb' w w'.
Proof. intros I J []. constructor; auto. Qed.

Lemma touch_trans self fv fb w1 w2 w3 : apart self fv fb w1 -> touch self fv fb w1 w2 -> touch self fv fb w2 w3 ->
  touch self fv fb w1 w3.
Proof.
  intros AP A B. pose proof (touch_apart _ _ _ _ _ A AP) as (_ & _ & AP2). destruct AP as (AP0 & APl & APo).
  destruct A, B. constructor; try congruence; try lia.
  - intros. rewrite to_vecs1; auto.
  - intros b Hb H I. rewrite to_other1; auto; try lia.
    intro O. destruct (to_owned0 b O); [auto|lia].
  - intros b O L. destruct (owned_block w2 self) as [b2|] eqn:E2.
    + destruct (Nat.eq_dec b2 b) as [->|N].
      * apply to_old1; auto.
      * destruct (Nat.ltb_spec b (length (w_heap w2))); [|apply to_new1; auto].
        rewrite to_other1 in L; auto; try congruence. pose proof (to_old0 b O L). congruence.
    + destruct (Nat.ltb_spec b (length (w_heap w2))); [|apply to_new1; auto].
      rewrite to_other1 in L; auto; try congruence. pose proof (to_old0 b O L). congruence.
  - intros b Hb L. assert (~ In b fb) by (intro I; specialize (APl b I); lia).
    destruct (Nat.ltb_spec b (length (w_heap w2))); [|apply to_new1; auto].
    destruct (owned_block w2 self) as [b2|] eqn:E2.
    + destruct (Nat.eq_dec b2 b) as [->|N].
      * apply to_old1; auto.
      * rewrite to_other1 in L; auto; [|congruence]. pose proof (to_new0 b Hb L). congruence.
    + rewrite to_other1 in L; auto; [|congruence]. pose proof (to_new0 b Hb L). congruence.
  - intros b O. destruct (to_owned1 b O) as [O2|L]; [|right; lia]. auto.
  - destruct to_drops0 as [d D]. destruct to_drops1 as [e ->]. rewrite D. exists (d ++ e). now rewrite app_assoc.
Qed.

(** A footprint that does not meet vector [self] or another footprint is not disturbed. *)
Lemma touch_agree self fv fb gv gb w w' :
  touch self fv fb w w' -> apart self gv gb w -> (forall j, In j gv -> ~ In j fv) -> (forall b, In b gb -> ~ In b fb) ->
  agree gv gb w w'.
Proof.
  intros T (B1 & B2 & B3) N M. unfold agree. ands.
  - intros j I. apply (to_vecs _ _ _ _ _ T); auto. intros ->; auto.
  - intros b I. apply (to_other _ _ _ _ _ T); auto. intro O. eapply B3; eauto.
  - apply (to_len _ _ _ _ _ T).
Qed.
Lemma frame_agree self gv gb w w' : frame self w w' -> apart self gv gb w -> agree gv gb w w'.
Proof. intros F A. apply (touch_agree self [] []); auto. now apply touch_frame. Qed.
Lemma frame_apart self gv gb w w' : frame self w w' -> apart self gv gb w -> apart self gv gb w'.
Proof. intros F. apply touch_apart. now apply touch_frame. Qed.

Section WithConfig.
Context {C : Config}.

Lemma repr_touch t other l self fv fb w w' :
  touch self fv fb w w' -> repr t other l w -> sep w self other -> ~ In other fv ->
  (forall b, owned_block w other = Some b -> ~ In b fb) -> repr t other l w'.
Proof.
  intros T R [N S] I J. eapply repr_agree; eauto.
  - apply (to_vecs _ _ _ _ _ T); auto.
  - intros b O. apply (to_other _ _ _ _ _ T); auto. eapply repr_owned_lt; eauto. intro; eapply S; eauto.
Qed.
Lemma orep_within t self l o d fv fb w w' :
  within fv fb w w' -> orep t self l o d w -> apart self fv fb w -> orep t self l o d w'.
Proof.
  intros (A1 & _ & _ & _ & A5 & _) R (B1 & B2 & B3). eapply orep_agree; eauto.
  intros b P. apply A5. apply B3. rewrite (orep_owned _ _ _ _ _ _ R). auto.
Qed.
Lemma repr_within t self l fv fb w w' :
  within fv fb w w' -> repr t self l w -> apart self fv fb w -> repr t self l w'.
Proof. intros W R A. apply repr_orep in R as (o & d & R). eapply orep_repr, orep_within; eauto. Qed.

(** ** The contract *)

(** [post], run once the emplacer has returned in a world that kept the footprint. *)
Definition post_ok (S : deal) (u : usage) (post : M unit) (w3 : world) : Prop :=
  forall w4, agree (d_fv S) (d_fb S) w3 w4 ->
    exists w5, post w4 = (Ok tt, w5) /\ within (d_fv S) (d_fb S) w4 w5 /\ w_drops w5 = w_drops w4 /\
      (forall w6, agree (d_fv S) (d_fb S) w5 w6 -> d_after S u w6).

(** One of the destructors of [ds] panicked: possible only if there is one. *)
Definition one_panicked (ds : list value) (w w' : world) : Prop := ds <> [] /\ drop_panicked w w'.

(** A second destructor panic while unwinding aborts: the first panic was a destructor run by the delivery or a panic of the
    delivery itself. *)
Definition aborted (S : deal) (w w' : world) : Prop := (d_extra S <> [] \/ exists r, d_panic S r) /\ drop_panicked w w'.
Lemma not_aborted S w w' : d_extra S = [] -> (forall r, ~ d_panic S r) -> ~ aborted S w w'.
Proof. intros E N [[H|[r H]] _]; [auto|]. eapply N; eauto. Qed.
(** The inner closure given a place: it writes the bytes of the value, or unwinds having written garbage. *)
Definition writes (S : deal) (inner : inner_fn) (post : M unit) (w1 : world) : Prop :=
  forall p w2 h', agree (d_fv S) (d_fb S) w1 w2 -> is_null p = false ->
    (forall b, ptr_block p = Some b -> ~ In b (d_fb S)) ->
    heap_write (w_heap w2) p (d_bytes S) = Some h' ->
    run (inner p) w2
      (fun _ w3 => within (d_fv S) (d_fb S) (set_heap h' w2) w3 /\ w_drops w3 = w_drops w2 ++ d_extra S /\
                   post_ok S Delivered post w3)
      (fun r w3 => (d_panic S r \/ r = PDrop /\ one_panicked (d_extra S) w2 w3) /\
                   (exists bs h'', zlen bs = zlen (d_bytes S) /\ heap_write (w_heap w2) p bs = Some h'' /\
                                   within (d_fv S) (d_fb S) (set_heap h'' w2) w3) /\
                   (exists ds, w_drops w3 = w_drops w2 ++ ds))
      (fun w3 => aborted S w2 w3).

(** The inner closure given null: it drops the value. *)
Definition nulls (S : deal) (inner : inner_fn) (post : M unit) (w1 : world) : Prop :=
  forall w2, agree (d_fv S) (d_fb S) w1 w2 ->
    run (inner null) w2
      (fun _ w3 => within (d_fv S) (d_fb S) w2 w3 /\ w_drops w3 = w_drops w2 ++ d_nulls S /\ post_ok S Dropped post w3)
      (fun r w3 => r = PDrop /\ one_panicked (d_nulls S) w2 w3 /\ within (d_fv S) (d_fb S) w2 w3 /\
                   (exists ds, w_drops w3 = w_drops w2 ++ ds))
      (fun w3 => one_panicked (d_nulls S) w2 w3).

Definition emits (e : emplacable) (S : deal) (w0 : world) : Prop :=
  (forall b, In b (d_fb S) -> (b < length (w_heap w0))%nat) /\
  forall w, agree (d_fv S) (d_fb S) w0 w ->
    exists inner post w1,
      (forall E, e E w = bind (E (d_lay S) (d_meta S) inner) (fun _ => post) w1) /\
      within (d_fv S) (d_fb S) w w1 /\ w_drops w1 = w_drops w /\
      (forall w', agree (d_fv S) (d_fb S) w1 w' -> d_after S Refused w') /\
      writes S inner post w1 /\ nulls S inner post w1 /\ post_ok S Forgotten post w1.

Lemma emits_agree e S w w' : emits e S w -> agree (d_fv S) (d_fb S) w w' -> emits e S w'.
Proof.
  intros [B H] A. split.
  - intros b I. specialize (B b I). destruct A as (_ & _ & L). lia.
  - intros w2 A2. apply H. eapply agree_trans; eauto.
Qed.
Lemma post_ok_agree S u post w w' : post_ok S u post w -> agree (d_fv S) (d_fb S) w w' -> post_ok S u post w'.
Proof. intros H A w4 A4. apply H. eapply agree_trans; eauto. Qed.
Lemma post_ok_ret S u w : (forall w', agree (d_fv S) (d_fb S) w w' -> d_after S u w') -> post_ok S u (ret tt) w.
Proof.
  intros H w4 A. exists w4. ands; auto using within_refl. intros w6 A6. apply H. eapply agree_trans; eauto.
Qed.

(** ** Dropping and forgetting *)

Lemma emplacable_drop_wp e S w :
  emits e S w ->
  run (emplacable_drop e) w
    (fun _ w' => within (d_fv S) (d_fb S) w w' /\ w_drops w' = w_drops w ++ d_nulls S /\ d_after S Dropped w')
    (fun r w' => r = PDrop /\ one_panicked (d_nulls S) w w' /\ within (d_fv S) (d_fb S) w w' /\ exists ds, w_drops w' = w_drops w ++ ds)
    (fun w' => one_panicked (d_nulls S) w w').
Proof.
  intros [_ H]. destruct (H w (agree_refl _ _ _)) as (inner & post & w1 & E & W1 & D1 & _ & _ & N & _).
  unfold emplacable_drop, run. rewrite E. unfold dropping_emplacer.
  change (run (bind (inner null) (fun _ => post)) w1
    (fun _ w' => within (d_fv S) (d_fb S) w w' /\ w_drops w' = w_drops w ++ d_nulls S /\ d_after S Dropped w')
    (fun r w' => r = PDrop /\ one_panicked (d_nulls S) w w' /\ within (d_fv S) (d_fb S) w w' /\ exists ds, w_drops w' = w_drops w ++ ds)
    (fun w' => one_panicked (d_nulls S) w w')).
  apply run_bind. specialize (N w1 (agree_refl _ _ _)).
  assert (DP : forall w', one_panicked (d_nulls S) w1 w' -> one_panicked (d_nulls S) w w').
  { intros w' (X & n & Hn & P). split; auto. exists n. rewrite D1 in Hn. auto. }
  eapply run_conseq; [exact N|..]; cbv beta.
  - intros _ w3 (W3 & D3 & P3). destruct (P3 w3 (agree_refl _ _ _)) as (w5 & E5 & W5 & D5 & A5).
    eapply run_eq1; [exact E5|]. ands.
    + eapply within_trans; [exact W1|]. eapply within_trans; eauto.
    + congruence.
    + apply A5, agree_refl.
  - intros r w3 (-> & P & W3 & ds & D3). ands; auto.
    + eapply within_trans; eauto.
    + exists ds. congruence.
  - auto.
Qed.

Lemma emplacable_forget_eq e S w :
  emits e S w ->
  exists w', emplacable_forget e w = (Ok tt, w') /\ within (d_fv S) (d_fb S) w w' /\ w_drops w' = w_drops w /\
             d_after S Forgotten w'.
Proof.
  intros [_ H]. destruct (H w (agree_refl _ _ _)) as (inner & post & w1 & E & W1 & D1 & _ & _ & _ & F).
  destruct (F w1 (agree_refl _ _ _)) as (w5 & E5 & W5 & D5 & A5).
  exists w5. unfold emplacable_forget. rewrite E. unfold forgetting_emplacer.
  erewrite bind_eq by reflexivity. ands; auto.
  - eapply within_trans; eauto.
  - congruence.
  - apply A5, agree_refl.
Qed.
End WithConfig.
