(** Dropping a vector. *)
From Coq Require Import ZArith List Bool Lia.
From Verif Require Import Types World ValidSize Emplace SizedVec AlignedVec UnalignedVec Api Spec Bytes Arith Wp Mem Repr
  Access Reserve Realign Orep Push Deal PushWith Shell Insert Take Pop Iter.
Import ListNotations.
Open Scope Z_scope.
Open Scope m_scope.

Section WithConfig.
Context {C : Config}.

Lemma drop_panicked_snoc w ds x w' : w_drops w' = w_drops w ++ x :: ds -> cfg_drop_panics (length (w_drops w)) = true ->
  drop_panicked w w'.
Proof. intros E P. exists (length (w_drops w)). split; auto. rewrite E, app_length. cbn. lia. Qed.
Lemma drop_panicked_from w w1 w' : (length (w_drops w) <= length (w_drops w1))%nat -> drop_panicked w1 w' -> drop_panicked w w'.
Proof. intros L (n & N & P). exists n. split; auto. lia. Qed.
Lemma drops_snoc_le (w : world) x : (length (w_drops w) <= length (w_drops (set_drops (w_drops w ++ [x]) w)))%nat.
Proof. cbn [set_drops w_drops]. rewrite app_length. lia. Qed.
Lemma set_drops_drops a b w : set_drops a (set_drops b w) = set_drops a w.
Proof. reflexivity. Qed.

(** Destructors of the elements [m] behind the prefix [a], one after the other; a panicking one stops the run. *)
Definition drops_run (m : list value) (act : M unit) (w : world) : Prop :=
  run act w
    (fun _ w' => w' = set_drops (w_drops w ++ m) w)
    (fun r w' => r = PDrop /\ drop_panicked w w' /\ exists m1 m2, m = m1 ++ m2 /\ w' = set_drops (w_drops w ++ m1) w)
    (fun _ => False).
Lemma drops_run_nil w : drops_run [] (ret tt) w.
Proof. apply run_ret. rewrite app_nil_r. now destruct w. Qed.
Lemma drops_run_cons t r x m k w : behind t r x (w_heap w) ->
  drops_run m k (set_drops (w_drops w ++ [x]) w) -> drops_run (x :: m) (drop_in_place t r ;; k) w.
Proof.
  intros B K. apply run_bind. unfold run at 1. rewrite (drop_in_place_eq _ _ _ _ B). unfold drop_value.
  destruct (cfg_drop_panics (length (w_drops w))) eqn:P.
  - ands; auto. eapply drop_panicked_snoc; eauto. reflexivity. exists [x], m. auto.
  - eapply run_conseq; [exact K|..]; cbv beta.
    + intros _ w' ->. cbn [set_drops w_drops]. rewrite <- app_assoc. reflexivity.
    + intros r' w' (-> & D & m1 & m2 & -> & ->). ands; auto.
      * eapply drop_panicked_from; [apply drops_snoc_le|eauto].
      * exists (x :: m1), m2. cbn [set_drops w_drops]. rewrite <- app_assoc. auto.
    + auto.
Qed.
Lemma drops_run_bind {A} m (act : M A) (k : A -> M unit) a w : act w = (Ok a, w) -> drops_run m (k a) w -> drops_run m (x <- act ;; k x) w.
Proof. intros E K. unfold drops_run, run in *. erewrite bind_eq by exact E. exact K. Qed.

Lemma a_drop_elems_wp t self l v d w0 : orep t self l (OA v) d w0 -> forall m a w, l = a ++ m -> w_heap w = w_heap w0 ->
  drops_run m (a_drop_elems t (av_ptr v) (plen t 1 a) (infos_of t 1 (plen t 1 a) m)) w.
Proof.
  intros R. induction m as [|x m IH]; intros a w E H; cbn [infos_of a_drop_elems]. { apply drops_run_nil. }
  destruct (split_fit _ _ _ _ _ _ R _ _ _ E) as (A & S & F & B & P). destruct (split_good _ _ _ _ _ _ R _ _ _ E) as (_ & Gx & _).
  pose proof (iref_behind _ _ _ _ _ _ R _ _ _ E) as Bh. pose proof (orep_buf _ _ _ _ _ _ R) as Bu. ocbn in *.
  rewrite <- H in Bh, Bu. unfold iref in Bh. ocbn in *. cbn [info_of i_end i_rem].
  eapply drops_run_bind. { apply vs_unchecked_sub_eq; lia. }
  eapply drops_run_bind. { eapply ptr_add_buf; eauto; lia. }
  rewrite Z.add_simpl_l, (proj2 Gx). apply drops_run_cons; auto.
  assert (Q : plen t 1 a + vsize t x = plen t 1 (a ++ [x])) by (rewrite plen_app; cbn [plen]; unfold psz; rewrite pad_1; lia).
  assert (Q' : plen t 1 a + psz t 1 x = plen t 1 (a ++ [x])) by (rewrite plen_app; cbn [plen]; lia).
  rewrite Q, Q'. apply IH; auto. rewrite <- app_assoc. exact E.
Qed.
Lemma u_drop_elems_wp t self l v d w0 : orep t self l (OU v) d w0 -> forall m a w, l = a ++ m -> w_heap w = w_heap w0 ->
  drops_run m (u_drop_elems t (uv_ptr v) (uv_align v) (plen t (uv_align v) a) (infos_of t (uv_align v) (plen t (uv_align v) a) m)) w.
Proof.
  intros R. induction m as [|x m IH]; intros a w E H; cbn [infos_of u_drop_elems]. { apply drops_run_nil. }
  destruct (split_fit _ _ _ _ _ _ R _ _ _ E) as (A & S & F & B & P). destruct (split_good _ _ _ _ _ _ R _ _ _ E) as (_ & Gx & _).
  pose proof (iref_behind _ _ _ _ _ _ R _ _ _ E) as Bh. pose proof (orep_buf _ _ _ _ _ _ R) as Bu. ocbn in *.
  rewrite <- H in Bh, Bu. unfold iref in Bh. ocbn in *. cbn [info_of i_end i_rem].
  eapply drops_run_bind. { apply vs_unchecked_sub_eq; lia. }
  eapply drops_run_bind. { eapply ptr_add_buf; eauto; lia. }
  eapply drops_run_bind. { eapply (pad_end t self l (OU v) d w0); eauto. }
  rewrite Z.add_simpl_l, (proj2 Gx). apply drops_run_cons; auto.
  assert (Q' : plen t (uv_align v) a + psz t (uv_align v) x = plen t (uv_align v) (a ++ [x])) by (rewrite plen_app; cbn [plen]; lia).
  rewrite Q'. apply IH; auto. rewrite <- app_assoc. exact E.
Qed.
(** A std [Vec] drops the rest also when one destructor panics. *)
Lemma s_drop_elems_wp t self l v d w0 : orep t self l (OS v) d w0 -> forall m a w, l = a ++ m -> w_heap w = w_heap w0 ->
  run (s_drop_elems t (sv_ptr v) (zlen a) (length m)) w
    (fun _ w' => w' = set_drops (w_drops w ++ m) w)
    (fun r w' => r = PDrop /\ drop_panicked w w' /\ w' = set_drops (w_drops w ++ m) w)
    (fun w' => drop_panicked w w').
Proof.
  intros R. induction m as [|x m IH]; intros a w E H; cbn [length s_drop_elems].
  { apply run_ret. rewrite app_nil_r. now destruct w. }
  destruct (split_fit _ _ _ _ _ _ R _ _ _ E) as (A & S & F & B & P). destruct (split_good _ _ _ _ _ _ R _ _ _ E) as (Ga & Gx & _).
  pose proof (iref_behind _ _ _ _ _ _ R _ _ _ E) as Bh. pose proof (orep_buf _ _ _ _ _ _ R) as Bu. ocbn in *.
  rewrite <- H in Bh, Bu. unfold iref in Bh. ocbn in *. rewrite (good_sized t x (sr_kind _ _ _ _ _ _ R) Gx) in Bh.
  replace (zlen a + 1) with (zlen (a ++ [x])) by (now rewrite zlen_snoc).
  assert (E' : l = (a ++ [x]) ++ m) by (rewrite <- app_assoc; exact E).
  pose proof (IH _ (set_drops (w_drops w ++ [x]) w) E' H) as K. clear IH.
  assert (X : (q <- elem_add t (sv_ptr v) (zlen a) ;; drop_in_place t (Wide q MUnit)) w = drop_value x w).
  { unfold elem_add. rewrite <- plen_sized by (auto; apply R).
    erewrite bind_eq by (eapply ptr_add_buf; eauto; lia). now apply drop_in_place_eq. }
  apply run_bind. unfold run at 1, on_unwind. rewrite X. unfold drop_value.
  unfold run in K. destruct (cfg_drop_panics (length (w_drops w))) eqn:Pn.
  - destruct (s_drop_elems t (sv_ptr v) (zlen (a ++ [x])) (length m) (set_drops (w_drops w ++ [x]) w)) as [[[]|r| |r] w1]; try tauto.
    + subst w1. ands; auto. eapply drop_panicked_snoc; eauto. cbn [set_drops w_drops]. rewrite <- app_assoc. reflexivity.
      cbn [set_drops w_drops]. rewrite <- app_assoc. reflexivity.
    + destruct K as (-> & D & ->). eapply drop_panicked_from; [apply drops_snoc_le|eauto].
    + eapply drop_panicked_from; [apply drops_snoc_le|eauto].
  - unfold run. destruct (s_drop_elems t (sv_ptr v) (zlen (a ++ [x])) (length m) (set_drops (w_drops w ++ [x]) w)) as [[[]|r| |r] w1]; try tauto.
    + subst w1. cbn [set_drops w_drops]. rewrite <- app_assoc. reflexivity.
    + destruct K as (-> & D & ->). ands; auto. eapply drop_panicked_from; [apply drops_snoc_le|eauto].
      cbn [set_drops w_drops]. rewrite <- app_assoc. reflexivity.
    + eapply drop_panicked_from; [apply drops_snoc_le|eauto].
Qed.

(** The world after [ds] were dropped, vector [self] is gone and the buffer at [p] is freed. *)
Definition dropped_world (self : nat) (p : ptr) (ds : list value) (w : world) : world :=
  set_vecs (upd (w_vecs w) self ODead) (set_heap (hfree (w_heap w) p) (set_drops (w_drops w ++ ds) w)).
(** The same when a destructor panicked and the buffer is leaked. *)
Definition leaked_world (self : nat) (ds : list value) (w : world) : world :=
  set_vecs (upd (w_vecs w) self ODead) (set_drops (w_drops w ++ ds) w).

Theorem v_drop_wp t self l o d w : orep t self l o d w ->
  run (v_drop t self) w
    (fun _ w' => w' = dropped_world self (o_ptr o) l w)
    (fun r w' => r = PDrop /\ drop_panicked w w' /\
       if match kind_of t with KSized => true | _ => false end then w' = dropped_world self (o_ptr o) l w
       else exists m1 m2, l = m1 ++ m2 /\ w' = leaked_world self m1 w)
    (fun w' => kind_of t = KSized /\ drop_panicked w w').
Proof.
  intros R. pose proof (orep_buf _ _ _ _ _ _ R) as Bu. unfold v_drop.
  destruct o as [v|v|v|]; cbn [orep] in R; try tauto.
  - rewrite (sr_kind _ _ _ _ _ _ R). unfold s_drop. unfold run at 1. erewrite bind_eq by (eapply get_s_eq, R).
    unfold set_obj at 1. erewrite bind_eq by reflexivity. cbv zeta.
    set (w1 := set_vecs (upd (w_vecs w) self ODead) w).
    pose proof (s_drop_elems_wp _ _ _ _ _ _ (R : orep t self l (OS v) d w) l [] w1 eq_refl eq_refl) as K.
    change (zlen (@nil value)) with 0 in K.
    rewrite (sr_slen _ _ _ _ _ _ R). replace (Z.to_nat (zlen l)) with (length l) by (unfold zlen; lia).
    unfold run, on_unwind, bind in *. ocbn in *.
    destruct (s_drop_elems t (sv_ptr v) 0 (length l) w1) as [[[]|r| |r] w2]; try tauto.
    + subst w2. rewrite (dealloc_eq _ _ _ _ d) by exact Bu. reflexivity.
    + destruct K as (-> & D & ->). rewrite (dealloc_eq _ _ _ _ d) by exact Bu. ands; auto.
  - rewrite (ar_kind _ _ _ _ _ _ R). unfold a_drop. unfold run at 1. erewrite bind_eq by (eapply get_a_eq, R).
    unfold set_obj at 1. erewrite bind_eq by reflexivity.
    set (w1 := set_vecs (upd (w_vecs w) self ODead) w).
    pose proof (a_drop_elems_wp _ _ _ _ _ _ (R : orep t self l (OA v) d w) l [] w1 eq_refl eq_refl) as K.
    cbn [plen] in K. rewrite (ar_infos _ _ _ _ _ _ R). unfold drops_run, run, bind in *. ocbn in *.
    destruct (a_drop_elems t (av_ptr v) 0 (infos_of t 1 0 l) w1) as [[[]|r| |r] w2]; try tauto.
    subst w2. unfold vs_layout. rewrite (dealloc_eq _ _ _ _ d) by exact Bu. reflexivity.
  - rewrite (ur_kind _ _ _ _ _ _ R). unfold u_drop. unfold run at 1. erewrite bind_eq by (eapply get_u_eq, R).
    unfold set_obj at 1. erewrite bind_eq by reflexivity.
    set (w1 := set_vecs (upd (w_vecs w) self ODead) w).
    pose proof (u_drop_elems_wp _ _ _ _ _ _ (R : orep t self l (OU v) d w) l [] w1 eq_refl eq_refl) as K.
    cbn [plen] in K. rewrite (ur_infos _ _ _ _ _ _ R).
    pose proof (orep_bcap _ _ _ _ _ _ (R : orep t self l (OU v) d w)) as Bc. unfold drops_run, run, bind in *. ocbn in *.
    destruct (u_drop_elems t (uv_ptr v) (uv_align v) 0 (infos_of t (uv_align v) 0 l) w1) as [[[]|r| |r] w2]; try tauto.
    subst w2. unfold vu_layout. rewrite layout_unchecked_eq by lia. rewrite (dealloc_eq _ _ _ _ d) by exact Bu. reflexivity.
Qed.

(** Seen from outside: only the vector and its buffer changed. *)
Lemma dropped_frame t self l o d w ds : orep t self l o d w -> frame self w (dropped_world self (o_ptr o) ds w).
Proof.
  intros R. pose proof (orep_obj _ _ _ _ _ _ R) as Ob. eapply frame_trans.
  - apply (frame_set_drops self w ds).
  - apply (frame_free self (set_drops (w_drops w ++ ds) w) (o_ptr o) ODead); auto.
    + proj. eapply nth_error_lt; eauto.
    + unfold owned_block. proj. apply (orep_owned _ _ _ _ _ _ R).
Qed.
Lemma dropped_freed t self l o d w ds b : orep t self l o d w -> owned_block w self = Some b ->
  heap_get (w_heap (dropped_world self (o_ptr o) ds w)) b = None.
Proof. intros R E. rewrite (orep_owned _ _ _ _ _ _ R) in E. unfold dropped_world. proj. now apply hfree_none. Qed.
End WithConfig.
