(** Sequences of iterator calls. *)
From Coq Require Import ZArith List Bool Lia.
From Verif Require Import Types World ValidSize Emplace SizedVec AlignedVec UnalignedVec Api Spec Bytes Arith Wp Mem Repr
  Access Reserve Realign Orep Push Deal PushWith Shell Insert Take Pop Iter.
Import ListNotations.
Open Scope Z_scope.
Open Scope m_scope.

(** ** Plain sequences *)
Lemma dq_step_map {A B} (f : A -> B) c m :
  dq_step c (map f m) = (option_map f (fst (dq_step c m)), map f (snd (dq_step c m))).
Proof.
  destruct c; cbn [dq_step fst snd].
  - now destruct m.
  - rewrite <- map_rev. f_equal. now destruct (rev m).
    induction m as [|x [|y m] IH]; auto. cbn [map removelast] in *. now rewrite IH.
  - rewrite nth_error_map. f_equal. revert m. induction n; intros [|x m]; auto. apply IHn.
Qed.
Lemma dq_run_map {A B} (f : A -> B) cs m :
  dq_run cs (map f m) = (map (fun r => (option_map f (fst r), snd r)) (fst (dq_run cs m)), map f (snd (dq_run cs m))).
Proof.
  revert m. induction cs as [|c cs IH]; intros m; cbn [dq_run]; [reflexivity|].
  rewrite dq_step_map. destruct (dq_step c m) as [x m']. cbn [fst snd]. rewrite IH.
  destruct (dq_run cs m') as [xs m'']. cbn [fst snd map]. now rewrite map_length.
Qed.
Lemma dq_step_incl {A} c (m : list A) : incl (snd (dq_step c m)) m /\ (forall x, fst (dq_step c m) = Some x -> In x m).
Proof.
  destruct c; cbn [dq_step fst snd].
  - destruct m; cbn; split; try discriminate; auto using incl_refl, incl_tl. intros ? [= ->]. auto.
  - destruct m as [|y m _] using rev_ind; [split; [apply incl_refl|discriminate]|].
    rewrite removelast_last, rev_app_distr. cbn. split. apply incl_appl, incl_refl. intros ? [= ->]. apply in_or_app. cbn. auto.
  - split; [|intros; eapply nth_error_In; eauto]. intros x. rewrite <- (firstn_skipn (S n) m) at 2. intros; apply in_or_app. auto.
Qed.
Lemma dq_step_nodup {A} c (m : list A) : NoDup m ->
  NoDup (snd (dq_step c m)) /\ (forall x, fst (dq_step c m) = Some x -> ~ In x (snd (dq_step c m))).
Proof.
  intros N. destruct c; cbn [dq_step fst snd].
  - destruct m; cbn. split; [auto|discriminate]. inversion N; subst. split; auto. intros ? [= ->]. auto.
  - destruct m as [|y m _] using rev_ind; [split; [constructor|discriminate]|].
    rewrite removelast_last, rev_app_distr. cbn. apply NoDup_remove in N. rewrite app_nil_r in N. split. tauto.
    intros ? [= ->]. tauto.
  - split. rewrite <- (firstn_skipn (S n) m) in N. revert N. induction (firstn (S n) m); cbn; auto. inversion 1; auto.
    intros x E. revert n E. induction N; intros [|k]; cbn [nth_error skipn]; try discriminate.
    + now intros [= <-].
    + intros E. destruct l; [destruct k; discriminate|]. now apply IHN.
Qed.
Lemma dq_run_nodup {A} cs (m : list A) : NoDup m -> NoDup (somes (fst (dq_run cs m))) /\ incl (somes (fst (dq_run cs m))) m.
Proof.
  revert m. induction cs as [|c cs IH]; intros m N. { split; [constructor|intros ? []]. }
  cbn [dq_run]. destruct (dq_step c m) as [x m'] eqn:S. destruct (dq_run cs m') as [xs m''] eqn:X.
  pose proof (dq_step_nodup c m N) as [N1 N2]. pose proof (dq_step_incl c m) as [I1 I2]. rewrite S in *. cbn [fst snd] in *.
  destruct (IH m' N1) as [J1 J2]. rewrite X in *. cbn [fst] in *. unfold somes in *. cbn [flat_map fst].
  destruct x as [x|]; cbn [app].
  - split. constructor; auto. intros H. eapply N2; eauto. intros y [<-|H]; auto.
  - split; auto. eapply incl_tran; eauto.
Qed.

(** Forward only and backward only. *)
Lemma dq_next_run {A} (m : list A) k :
  fst (dq_run (repeat Next k) m) = map (fun i => (nth_error m i, (length m - S i)%nat)) (seq 0 k).
Proof.
  revert m. induction k; intros m; [reflexivity|]. cbn [repeat dq_run dq_step]. specialize (IHk (tl m)).
  destruct (dq_run (repeat Next k) (tl m)) as [xs m']. cbn [fst] in *. subst xs. rewrite <- cons_seq. cbn [map]. f_equal.
  - destruct m; cbn [hd_error tl nth_error length]; f_equal; lia.
  - rewrite <- seq_shift, map_map. apply map_ext. intros i. destruct m; cbn [tl nth_error length]; f_equal; try lia. now destruct i.
Qed.
Lemma removelast_rev {A} (m : list A) : rev (removelast m) = tl (rev m).
Proof. destruct m as [|x m _] using rev_ind; [reflexivity|]. now rewrite removelast_last, rev_app_distr. Qed.
Lemma length_removelast {A} (m : list A) : length (removelast m) = (length m - 1)%nat.
Proof. rewrite <- rev_length, removelast_rev. rewrite <- (rev_length m). destruct (rev m); cbn; lia. Qed.
Lemma dq_next_back_run {A} (m : list A) k :
  fst (dq_run (repeat NextBack k) m) = map (fun i => (nth_error (rev m) i, (length m - S i)%nat)) (seq 0 k).
Proof.
  revert m. induction k; intros m; [reflexivity|]. cbn [repeat dq_run dq_step]. specialize (IHk (removelast m)).
  destruct (dq_run (repeat NextBack k) (removelast m)) as [xs m']. cbn [fst] in *. subst xs. rewrite <- cons_seq. cbn [map]. f_equal.
  - rewrite length_removelast. destruct (rev m); reflexivity.
  - rewrite <- seq_shift, map_map. apply map_ext. intros i. rewrite removelast_rev, length_removelast. f_equal; [|lia].
    destruct (rev m); cbn [tl nth_error]; auto. now destruct i.
Qed.
(** [nth] is repeated [next]. *)
Lemma dq_nth_next {A} (m : list A) n :
  snd (dq_run (repeat Next (S n)) m) = snd (dq_step (Nth n) m) /\
  nth_error (fst (dq_run (repeat Next (S n)) m)) n = Some (fst (dq_step (Nth n) m), length (snd (dq_step (Nth n) m))).
Proof.
  split.
  - revert m. induction n; intros m. now destruct m. cbn [dq_step snd] in *. change (repeat Next (S (S n))) with (Next :: repeat Next (S n)).
    cbn [dq_run dq_step]. specialize (IHn (tl m)). destruct (dq_run (repeat Next (S n)) (tl m)) as [xs m']. cbn [snd] in *. subst m'.
    destruct m; [now destruct n|reflexivity].
  - rewrite dq_next_run, nth_error_map.
    assert (X : nth_error (seq 0 (S n)) n = Some n).
    { rewrite (nth_error_nth' _ 0%nat) by (rewrite seq_length; lia). rewrite seq_nth by lia. reflexivity. }
    rewrite X. cbn [option_map dq_step fst snd]. now rewrite skipn_length.
Qed.

(** ** Guards *)
(** [NextBack] on a sole remaining item and [nth(0)] are excluded once the front has moved; [adv] says that it has. *)
Fixpoint fair (adv : bool) (n : nat) (cs : list icall) : bool :=
  match cs with
  | [] => true
  | Next :: cs => fair true (n - 1) cs
  | NextBack :: cs => negb (adv && (n =? 1)%nat) && fair adv (n - 1) cs
  | Nth k :: cs => negb (adv && (k =? 0)%nat && negb (n =? 0)%nat) && fair true (n - S k) cs
  end.
Lemma fair_next k : forall adv n, fair adv n (repeat Next k) = true.
Proof. induction k; intros; cbn [repeat fair]; auto. Qed.
Lemma fair_next_back k : forall n, fair false n (repeat NextBack k) = true.
Proof. induction k; intros; cbn [repeat fair andb negb]; auto. Qed.

Section WithConfig.
Context {C : Config}.

Definition dummy : value := Value MUnit [].
Definition eref_at (t : ty) (o : obj) (l : list value) (i : nat) : wide := eref t o l i (nth i l dummy).
Lemma iref_at t o a x b : iref t o a x = eref_at t o (a ++ x :: b) (length a).
Proof. unfold iref, eref_at, eref. rewrite firstn_mid, app_nth2, Nat.sub_diag by lia. reflexivity. Qed.

Definition as_refs (t : ty) (o : obj) (l : list value) : list (option nat * nat) -> list (option wide * nat) :=
  map (fun r => (option_map (eref_at t o l) (fst r), snd r)).

Lemma v_call_eq t self l o d w a m b it c adv :
  orep t self l o d w -> l = a ++ m ++ b -> covers t o a m it ->
  kind_of t = KSized \/ fair adv (length m) [c] = true -> (adv = false -> a = []) ->
  let st := dq_step c (seq (length a) (length m)) in
  exists it' a' m' b', v_call t c it w = (Ok (option_map (eref_at t o l) (fst st), it'), w) /\
    l = a' ++ m' ++ b' /\ covers t o a' m' it' /\ snd st = seq (length a') (length m') /\
    (c = NextBack -> a' = a).
Proof.
  intros R E K G A. cbn zeta.
  destruct c; cbn [v_call dq_step fair] in *.
  - destruct m as [|x m].
    + exists it, a, [], b. erewrite v_next_nil by eauto. cbn. ands; auto.
    + destruct (v_next_cons _ _ _ _ _ _ a x m b it R K E) as (it' & N & K'). exists it', (a ++ [x]), m, b.
      rewrite N. cbn [length seq hd_error fst snd tl option_map]. rewrite (iref_at t o a x (m ++ b)).
      cbn [app] in E. rewrite <- E. ands; auto.
      * rewrite E, <- app_assoc. reflexivity.
      * rewrite app_length. cbn [length]. f_equal. lia.
      * discriminate.
  - destruct m as [|x m _] using rev_ind.
    + exists it, a, [], b. erewrite v_next_back_nil by eauto. cbn. ands; auto.
    + assert (E' : l = (a ++ m) ++ x :: b) by (rewrite E, <- !app_assoc; reflexivity).
      assert (Gd : m <> [] \/ starts_at_0 t o a).
      { destruct G as [G|G]; [now right; left|]. destruct m as [|y m]; [right|left; discriminate].
        right. destruct adv; [discriminate G|]. now rewrite A. }
      destruct (v_next_back_snoc _ _ _ _ _ _ a m x b it R K E' Gd) as (it' & N & K').
      exists it', a, m, (x :: b). rewrite N. rewrite (iref_at t o (a ++ m) x b), <- E'.
      rewrite !app_length. cbn [length]. rewrite Nat.add_1_r, seq_S, rev_app_distr, removelast_last. cbn [rev app hd_error fst snd option_map].
      ands; auto. rewrite E', <- app_assoc. reflexivity.
  - destruct (nth_error m n) as [x|] eqn:N.
    + destruct (nth_error_split _ _ N) as (p & q & Em & L).
      assert (E' : l = (a ++ p) ++ x :: q ++ b) by (rewrite E, Em, <- !app_assoc; reflexivity).
      assert (Gd : p <> [] \/ starts_at_0 t o a).
      { destruct G as [G|G]; [now right; left|]. destruct p as [|y p]; [right|left; discriminate].
        right. destruct adv; [|now rewrite A]. subst. cbn in G. discriminate G. }
      rewrite Em in K. destruct (v_nth_mid _ _ _ _ _ _ a p x q b it n R K E' L Gd) as (it' & V & K').
      exists it', ((a ++ p) ++ [x]), q, b. rewrite V. rewrite (iref_at t o (a ++ p) x (q ++ b)), <- E'.
      assert (Sn : nth_error (seq (length a) (length m)) n = Some (length (a ++ p))).
      { rewrite (nth_error_nth' _ 0%nat) by (rewrite seq_length; apply nth_error_Some; congruence).
        rewrite seq_nth by (apply nth_error_Some; congruence). rewrite app_length. f_equal. lia. }
      rewrite Sn. cbn [fst snd option_map]. ands; auto.
      * rewrite E', <- !app_assoc. reflexivity.
      * rewrite Em, !app_length. cbn [length]. replace (length p + S (length q))%nat with (S n + length q)%nat by lia.
        rewrite seq_app, skipn_app, skipn_all2 by (rewrite seq_length; lia). rewrite seq_length, Nat.sub_diag. cbn [skipn app]. f_equal. lia.
      * discriminate.
    + apply nth_error_None in N. destruct (v_nth_past _ _ _ _ _ _ a m b it n R K E N) as (it' & V & K').
      exists it', (a ++ m), [], b. rewrite V. assert (Sn : nth_error (seq (length a) (length m)) n = None).
      { apply nth_error_None. now rewrite seq_length. }
      rewrite Sn. cbn [fst snd option_map length seq]. ands; auto.
      * rewrite E, <- app_assoc. reflexivity.
      * apply skipn_all2. rewrite seq_length. lia.
      * discriminate.
Qed.

Lemma v_calls_eq t self l o d w cs : orep t self l o d w -> forall a m b it adv,
  l = a ++ m ++ b -> covers t o a m it ->
  kind_of t = KSized \/ fair adv (length m) cs = true -> (adv = false -> a = []) ->
  let st := dq_run cs (seq (length a) (length m)) in
  exists it' a' m' b', v_calls t cs it w = (Ok (as_refs t o l (fst st), it'), w) /\
    l = a' ++ m' ++ b' /\ covers t o a' m' it' /\ snd st = seq (length a') (length m') /\
    exists adv', (adv' = false -> a' = []) /\ forall cs', fair adv (length m) (cs ++ cs') = true -> fair adv' (length m') cs' = true.
Proof.
  intros R. induction cs as [|c cs IH]; intros a m b it adv E K G A st; subst st; cbn [v_calls dq_run].
  - exists it, a, m, b. ands; auto. exists adv. auto.
  - destruct (v_call_eq _ _ _ _ _ _ a m b it c adv R E K) as (it1 & a1 & m1 & b1 & V & E1 & K1 & S1 & B1).
    { destruct G as [G|G]; [now left|right]. destruct c; cbn [fair] in *; auto; apply andb_true_iff in G as [G _]; rewrite G; reflexivity. }
    { auto. }
    pose proof (f_equal (@length nat) S1) as L1. rewrite seq_length in L1.
    destruct (dq_step c (seq (length a) (length m))) as [x m1'] eqn:Ds. cbn [fst snd] in *. subst m1'.
    assert (Lm : length m1 = match c with Next => length m - 1 | NextBack => length m - 1 | Nth k => length m - S k end%nat).
      { rewrite <- (seq_length (length m1) (length a1)). replace (seq (length a1) (length m1)) with (snd (dq_step c (seq (length a) (length m)))) by (now rewrite Ds).
        destruct c; cbn [dq_step snd].
        - destruct m; cbn; rewrite ?seq_length; lia.
        - now rewrite length_removelast, seq_length.
        - now rewrite skipn_length, seq_length. }
    destruct (IH a1 m1 b1 it1 (match c with NextBack => adv | _ => true end) E1 K1) as (it2 & a2 & m2 & b2 & V2 & E2 & K2 & S2 & adv' & A' & F').
    { destruct G as [G|G]; [now left|right].
      rewrite Lm. destruct c; cbn [fair] in *; auto; now apply andb_true_iff in G as [_ G]. }
    { destruct c; try discriminate. intros Q. rewrite B1; auto. }
    exists it2, a2, m2, b2. erewrite bind_eq by exact V. cbv beta iota. erewrite bind_eq by exact V2.
    destruct (dq_run cs (seq (length a1) (length m1))) as [xs m'']. cbn [fst snd as_refs map] in *. ands; auto.
    + unfold ret. do 2 f_equal. f_equal. f_equal. f_equal. rewrite seq_length. eapply covers_len; eauto.
    + exists adv'. split; auto. intros cs' F. apply F'. rewrite Lm. cbn [app] in F.
      destruct c; cbn [fair] in F; auto; now apply andb_true_iff in F as [_ F].
Qed.

(** ** From a fresh iterator *)
Lemma map_eref t self l o d w : orep t self l o d w -> forall i, (i < length l)%nat ->
  read_value t (eref_at t o l i) w = (Ok (nth i l dummy), w).
Proof.
  intros R i L. eapply behind_read, orep_behind; eauto. apply nth_error_nth'. auto.
Qed.
Lemma seq_nth_map {A} (l : list A) dft : map (fun i => nth i l dft) (seq 0 (length l)) = l.
Proof.
  induction l as [|x l IH]; [reflexivity|]. cbn [length seq map nth]. f_equal. rewrite <- seq_shift, map_map. exact IH.
Qed.
Lemma seq_nth_mid {A} (a m b : list A) dft : map (fun i => nth i (a ++ m ++ b) dft) (seq (length a) (length m)) = m.
Proof.
  revert a. induction m as [|x m IH]; intros a; [reflexivity|]. cbn [length seq map app]. f_equal.
  - now rewrite app_nth2, Nat.sub_diag by lia.
  - specialize (IH (a ++ [x])). rewrite app_length, Nat.add_1_r, <- app_assoc in IH. exact IH.
Qed.
Lemma nth_error_firstn_lt {A} (l : list A) i j : (i < j)%nat -> nth_error (firstn j l) i = nth_error l i.
Proof. revert i l. induction j; intros i [|x l] L; try lia; auto. destruct i; cbn; auto. apply IHj. lia. Qed.
Lemma visit_eq t self l w cs : repr t self l w -> kind_of t = KSized \/ fair false (length l) cs = true ->
  v_visit t self cs w = (Ok (fst (dq_run cs l)), w).
Proof.
  intros R G. apply repr_orep in R as (o & d & R). destruct (v_iter_eq _ _ _ _ _ _ R) as (it & I & K & _).
  destruct (v_calls_eq _ _ _ _ _ _ cs R [] l [] it false) as (it' & a' & m' & b' & V & _); auto.
  { cbn. now rewrite app_nil_r. }
  unfold v_visit. erewrite bind_eq by exact I. erewrite bind_eq by exact V. cbv beta iota. cbn [length].
  rewrite <- (seq_nth_map l dummy) at 3. rewrite dq_run_map. cbn [fst].
  pose proof (dq_run_nodup cs (seq 0 (length l)) (seq_NoDup _ _)) as [_ Inc].
  induction (fst (dq_run cs (seq 0 (length l)))) as [|[x n] xs IH]; [reflexivity|].
  cbn [as_refs map mapM fst snd]. unfold somes in Inc. cbn [flat_map fst] in Inc.
  assert (X : read_item t (option_map (eref_at t o l) x, n) w = (Ok (option_map (fun i => nth i l dummy) x, n), w)).
  { unfold read_item. cbn [fst snd]. destruct x as [i|]; [|reflexivity]. cbn [option_map read_opt].
    assert (i < length l)%nat. { specialize (Inc i ltac:(cbn; auto)). apply in_seq in Inc. lia. }
    erewrite bind_eq. 2:{ erewrite bind_eq by (eapply map_eref; eauto). reflexivity. } reflexivity. }
  erewrite bind_eq by exact X. erewrite bind_eq. 2:{ apply IH. intros i Hi. apply Inc. apply in_or_app. auto. } reflexivity.
Qed.

Lemma visit_last_eq t self l w cs : repr t self l w -> kind_of t = KSized \/ fair false (length l) (cs ++ [NextBack]) = true ->
  v_visit_last t self cs w = (Ok (hd_error (rev (snd (dq_run cs l)))), w).
Proof.
  intros R G. apply repr_orep in R as (o & d & R). destruct (v_iter_eq _ _ _ _ _ _ R) as (it & I & K & _).
  assert (Fp : forall cs cs' adv n, fair adv n (cs ++ cs') = true -> fair adv n cs = true).
  { clear. induction cs as [|c cs IH]; intros cs' adv n; auto. cbn [app].
    destruct c; cbn [fair]; rewrite ?andb_true_iff; intros F; try apply IH in F; auto; destruct F as [F1 F2]; split; auto; eapply IH; eauto. }
  destruct (v_calls_eq _ _ _ _ _ _ cs R [] l [] it false) as (it' & a' & m' & b' & V & E & K' & S & adv' & A' & F'); auto.
  { cbn. now rewrite app_nil_r. }
  { destruct G as [G|G]; [now left|]. right. eapply Fp; eauto. }
  unfold v_visit_last. erewrite bind_eq by exact I. erewrite bind_eq by exact V. cbv beta iota.
  assert (Sl : snd (dq_run cs l) = m').
  { rewrite <- (seq_nth_map l dummy). rewrite dq_run_map. cbn [snd length] in *. rewrite S, E. apply seq_nth_mid. }
  rewrite Sl. destruct m' as [|x m' _] using rev_ind.
  { erewrite bind_eq by (eapply v_last_nil; eauto). reflexivity. }
  assert (E' : l = (a' ++ m') ++ x :: b') by (rewrite E, <- !app_assoc; reflexivity).
  erewrite bind_eq.
  2:{ eapply v_last_snoc; eauto. destruct G as [G|G]; [now right; left|]. destruct m' as [|y m']; [right|left; discriminate].
      right. specialize (F' _ G). destruct adv'; [discriminate F'|]. now rewrite A'. }
  rewrite rev_app_distr. cbn [rev app hd_error read_opt].
  erewrite bind_eq by (eapply behind_read, iref_behind; eauto). reflexivity.
Qed.

(** ** The references handed out *)
Lemma refs_apart t self l w cs : repr t self l w -> kind_of t = KSized \/ fair false (length l) cs = true ->
  exists it rs it' n base offs, v_iter t self w = (Ok it, w) /\ v_calls t cs it w = (Ok (rs, it'), w) /\
    v_byte_len t self w = (Ok n, w) /\
    (n = 0 \/ exists b blk, base = Blk b 0 /\ owned_block w self = Some b /\ heap_get (w_heap w) b = Some blk /\ n <= zlen (b_data blk)) /\
    Forall2 (fun r off => wp r = padd base off /\ 0 <= off /\ off + size_of_val t (wm r) <= n) (somes rs) offs /\
    ForallOrdPairs (fun p q => snd p + size_of_val t (wm (fst p)) <= snd q \/ snd q + size_of_val t (wm (fst q)) <= snd p)
      (combine (somes rs) offs).
Proof.
  intros R G. apply repr_orep in R as (o & d & R). destruct (v_iter_eq _ _ _ _ _ _ R) as (it & I & K & _).
  destruct (v_calls_eq _ _ _ _ _ _ cs R [] l [] it false) as (it' & a' & m' & b' & V & _); auto.
  { cbn. now rewrite app_nil_r. }
  pose (ix := somes (fst (dq_run cs (seq 0 (length l))))).
  pose (off := fun i => plen t (o_pal o) (firstn i l)).
  exists it, (as_refs t o l (fst (dq_run cs (seq 0 (length l))))), it', (o_blen t o l), (o_ptr o), (map off ix).
  assert (Si : somes (as_refs t o l (fst (dq_run cs (seq 0 (length l))))) = map (eref_at t o l) ix).
  { subst ix. unfold somes, as_refs. induction (fst (dq_run cs (seq 0 (length l)))) as [|[[i|] n] xs IH]; cbn in *; auto. now rewrite IH. }
  rewrite Si. destruct (dq_run_nodup cs (seq 0 (length l)) (seq_NoDup _ _)) as [ND Inc]. fold ix in ND, Inc.
  pose proof (pow2_pos _ (orep_pal _ _ _ _ _ _ R)) as P. pose proof (orep_good _ _ _ _ _ _ R) as Gd.
  assert (B : forall i, In i ix -> exists x, nth_error l i = Some x /\ nth i l dummy = x /\ good t x).
  { intros i Hi. apply Inc, in_seq in Hi. exists (nth i l dummy). ands; auto. apply nth_error_nth'. lia.
    rewrite Forall_forall in Gd. apply Gd, nth_In. lia. }
  ands; auto.
  - eapply v_byte_len_eq; eauto.
  - pose proof (orep_buf _ _ _ _ _ _ R) as Bu. pose proof (orep_fit _ _ _ _ _ _ R) as F. rewrite (orep_owned _ _ _ _ _ _ R).
    pose proof (orep_blen_nonneg _ _ _ _ _ _ R). unfold buf in Bu. destruct (o_bcap t o =? 0) eqn:Z.
    + left. apply Z.eqb_eq in Z. lia.
    + right. destruct Bu as (b & base & Ep & Hg & _ & _ & L & _). exists b. eexists. rewrite Ep. cbn [ptr_block b_data]. ands; eauto.
      cbn. lia.
  - clear ND Inc Si. induction ix as [|i ix IH]; cbn [map]; constructor.
    + destruct (B i ltac:(now left)) as (x & N & D & Gx). unfold eref_at, eref. rewrite D. cbn [wp wm]. subst off. cbn beta.
      change (size_of_val t (v_meta x)) with (vsize t x).
      pose proof (plen_nonneg t (o_pal o) P (firstn i l) ltac:(now apply Forall_firstn')).
      pose proof (plen_firstn_le t (o_pal o) P l i x Gd N) as [L _]. pose proof (psz_ge t (o_pal o) P x). unfold o_blen. ands; auto. lia.
    + apply IH. intros; apply B; now right.
  - clear Inc Si. induction ND as [|i ix Hi ND IH]; cbn [map combine]; constructor.
    + apply Forall_forall. intros [r f] Hin. cbn [fst snd].
      assert (exists j, In j ix /\ r = eref_at t o l j /\ f = off j) as (j & Hj & -> & ->).
      { clear -Hin. induction ix; cbn in Hin; [tauto|]. destruct Hin as [H|H]. exists a; injection H; intros; subst; cbn; auto.
        destruct (IHix H) as (j & ? & ?). exists j; cbn; auto. }
      destruct (B i ltac:(now left)) as (x & N & D & Gx). destruct (B j ltac:(now right)) as (y & N' & D' & Gy).
      unfold eref_at, eref. rewrite D, D'. cbn [wm].
      change (size_of_val t (v_meta x)) with (vsize t x). change (size_of_val t (v_meta y)) with (vsize t y).
      assert (Ord : forall i j x, (i < j)%nat -> nth_error l i = Some x -> good t x -> off i + vsize t x <= off j).
      { clear -P Gd. intros i j x L N Gx. subst off. cbn beta. pose proof (psz_ge t (o_pal o) P x).
        assert (L' : firstn i l = firstn i (firstn j l)) by (rewrite firstn_firstn; f_equal; lia).
        rewrite L'. enough (plen t (o_pal o) (firstn i (firstn j l)) + psz t (o_pal o) x <= plen t (o_pal o) (firstn j l)) by lia.
        apply plen_firstn_le; auto. now apply Forall_firstn'. rewrite nth_error_firstn_lt; auto. }
      assert (i <> j) by congruence. destruct (Nat.lt_total i j) as [L|[L|L]]; [left|congruence|right]; eapply Ord; eauto.
    + apply IH. intros; apply B; now right.
Qed.
End WithConfig.
