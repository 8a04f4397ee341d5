(** [last] (C12) and [nth_back] (C54) after calls in ANY order, fair or not (as C11_any_order for the calls themselves): they
    never reach outside the buffer, they leave the right elements behind, and it is said exactly which item they yield. It is
    the right one unless it is the only one left, the front has advanced before, and the type is not Sized. *)
From Coq Require Import ZArith List Bool Lia.
From Verif Require Import Types World ValidSize Emplace SizedVec AlignedVec UnalignedVec Api Spec Bytes Arith Wp Mem Repr
  Access Reserve Realign Orep Push Deal PushWith Shell Insert Take Pop Box Iter Calls DropVec Family Build Obs Findings
  Adaptors AnyCalls PropAdapt.
Import ListNotations.
Open Scope Z_scope.
Open Scope m_scope.

Section WithConfig.
Context {C : Config}.

(** The item for element [i], as it is read. *)
Definition item_read (t : ty) (l : list value) (right : bool) (i : nat) (r : option value) : Prop :=
  exists y, r = Some y /\ if right then nth_error l i = Some y else misread t l i y.

Lemma sizedb_true t : sizedb t = true <-> kind_of t = KSized.
Proof. unfold sizedb. destruct (kind_of t); split; congruence. Qed.
Lemma start_0 t o : starts_at_0 t o [].
Proof. unfold starts_at_0. auto. Qed.

(** The last of the remaining items, taken from the back. *)
Lemma back_item t self l o d w a m x b it : orep t self l o d w -> covers t o a (m ++ [x]) it -> l = (a ++ m) ++ x :: b ->
  exists r it' v, v_next_back t it w = (Ok (Some r, it'), w) /\ covers t o a m it' /\ read_value t r w = (Ok v, w) /\
    item_read t l (sizedb t || negb (Nat.eqb (length m) 0) || Nat.eqb (length a) 0) (length a + length m) (Some v).
Proof.
  intros R K E.
  assert (N : nth_error l (length a + length m) = Some x) by (rewrite E, <- app_length; apply nth_mid).
  destruct (sizedb t || negb (Nat.eqb (length m) 0) || Nat.eqb (length a) 0) eqn:G.
  - assert (Gd : m <> [] \/ starts_at_0 t o a).
    { destruct m as [|y m]; [right|left; discriminate]. destruct a as [|z a]; [apply start_0|]. cbn in G.
      rewrite !orb_false_r in G. left. now apply sizedb_true. }
    destruct (v_next_back_snoc _ _ _ _ _ _ a m x b it R K E Gd) as (it1 & V & K1).
    eexists _, it1, x. ands; eauto. { eapply behind_read, iref_behind; eauto. } exists x. auto.
  - apply orb_false_iff in G as [G _]. apply orb_false_iff in G as [Gk Gm]. apply negb_false_iff, Nat.eqb_eq in Gm.
    destruct m; [|discriminate]. cbn [app] in *. rewrite app_nil_r in *.
    assert (Kn : kind_of t <> KSized) by (intros Q; apply sizedb_true in Q; congruence).
    destruct (v_next_back_one _ _ _ _ _ _ a x b it R Kn K E) as (it' & V & K').
    eexists _, it', _. ands; eauto. { eapply read_sref; eauto. }
    eexists. split; [reflexivity|]. cbn [length]. rewrite Nat.add_0_r. now apply (misread_eq t self l o d w a x b).
Qed.
Lemma last_item t self l o d w a m x b it : orep t self l o d w -> covers t o a (m ++ [x]) it -> l = (a ++ m) ++ x :: b ->
  exists r v, v_last t it w = (Ok (Some r), w) /\ read_value t r w = (Ok v, w) /\
    item_read t l (sizedb t || negb (Nat.eqb (length m) 0) || Nat.eqb (length a) 0) (length a + length m) (Some v).
Proof.
  intros R K E.
  assert (N : nth_error l (length a + length m) = Some x) by (rewrite E, <- app_length; apply nth_mid).
  destruct (sizedb t || negb (Nat.eqb (length m) 0) || Nat.eqb (length a) 0) eqn:G.
  - assert (Gd : m <> [] \/ starts_at_0 t o a).
    { destruct m as [|y m]; [right|left; discriminate]. destruct a as [|z a]; [apply start_0|]. cbn in G.
      rewrite !orb_false_r in G. left. now apply sizedb_true. }
    pose proof (v_last_snoc _ _ _ _ _ _ a m x b it R K E Gd) as V.
    eexists _, x. ands; eauto. { eapply behind_read, iref_behind; eauto. } exists x. auto.
  - apply orb_false_iff in G as [G _]. apply orb_false_iff in G as [Gk Gm]. apply negb_false_iff, Nat.eqb_eq in Gm.
    destruct m; [|discriminate]. cbn [app] in *. rewrite app_nil_r in *.
    assert (Kn : kind_of t <> KSized) by (intros Q; apply sizedb_true in Q; congruence).
    destruct (v_nth_0 t self l o d w a x [] b it R Kn K E) as (it' & V & K').
    eexists _, _. ands.
    + destruct it as [si|ai|ui]; destruct o as [v|v|v|]; cbn [covers] in K; try tauto; cbn [v_last v_nth] in *.
      * elim Kn. apply (sr_kind _ _ _ _ _ _ R).
      * assert (L : length (ai_infos ai) = 1%nat) by (rewrite (proj1 K); reflexivity). unfold a_last. rewrite L.
        unfold bind in V |- *. destruct (a_nth t ai 0 w) as [[[y it2]|r| |r] w2]; try discriminate. now injection V as -> _ ->.
      * assert (L : length (ui_infos ui) = 1%nat) by (rewrite (proj1 K); reflexivity). unfold u_last. rewrite L.
        unfold bind in V |- *. destruct (u_nth t ui 0 w) as [[[y it2]|r| |r] w2]; try discriminate. now injection V as -> _ ->.
    + eapply read_sref; eauto.
    + eexists. split; [reflexivity|]. cbn [length]. rewrite Nat.add_0_r. now apply (misread_eq t self l o d w a x b).
Qed.

(** Where the iterator stands after any calls. *)
Lemma after_calls t self l o d w cs : orep t self l o d w -> exists it rs it' a m b, v_iter t self w = (Ok it, w) /\
  v_calls t cs it w = (Ok (rs, it'), w) /\ l = a ++ m ++ b /\ covers t o a m it' /\
  snd (dq_run cs (seq 0 (length l))) = seq (length a) (length m) /\ snd (dq_run cs l) = m.
Proof.
  intros R. destruct (v_iter_eq _ _ _ _ _ _ R) as (it & I & K & _).
  destruct (v_calls_any _ _ _ _ _ _ cs R [] l [] it false) as (it' & a & m & b & V & E & K' & S); auto.
  { cbn. now rewrite app_nil_r. }
  exists it. eexists _, it', a, m, b. ands; eauto.
  rewrite <- (seq_nth_map l dummy) at 1. rewrite dq_run_map. cbn [snd length] in *. rewrite S, E. apply seq_nth_mid.
Qed.

Lemma last_seq a n : hd_error (rev (seq a (S n))) = Some (a + n)%nat.
Proof. rewrite seq_S, rev_app_distr. reflexivity. Qed.

Lemma nth_error_rev {A} (l : list A) n : (n < length l)%nat -> nth_error (rev l) n = nth_error l (length l - S n).
Proof.
  intros L. destruct (nth_error l (length l - S n)) as [x|] eqn:N. 2:{ apply nth_error_None in N. lia. }
  destruct (nth_error_split _ _ N) as (p & q & -> & Lp). rewrite app_length in *. cbn [length] in *. rewrite rev_app_distr. cbn [rev].
  rewrite <- app_assoc. rewrite nth_error_app2 by (rewrite rev_length; lia). rewrite rev_length.
  replace (n - length q)%nat with O by lia. reflexivity.
Qed.
Lemma nth_error_seq a n i : (i < n)%nat -> nth_error (seq a n) i = Some (a + i)%nat.
Proof. intros L. rewrite (nth_error_nth' _ O) by (now rewrite seq_length). now rewrite seq_nth. Qed.

(** [last()] after any calls: the indices still to be yielded are those of the sequence; the item is the last of them. *)
Theorem C12_last_any t self l w cs : repr t self l w ->
  let m := snd (dq_run cs (seq 0 (length l))) in
  exists r, v_visit_last t self cs w = (Ok r, w) /\
    match hd_error (rev m) with
    | None => r = None
    | Some i => item_read t l (sizedb t || negb (Nat.eqb (length m) 1) || Nat.eqb (hd 0%nat m) 0) i r
    end.
Proof.
  intros R. apply repr_orep in R as (o & d & R). destruct (after_calls t self l o d w cs R) as (it & rs & it' & a & m & b & I & V & E & K & Sq & _).
  cbv zeta. rewrite Sq. unfold v_visit_last. erewrite bind_eq by exact I. erewrite bind_eq by exact V. cbv beta iota.
  destruct m as [|x m _] using rev_ind.
  { exists None. split; [|reflexivity]. erewrite bind_eq by (eapply v_last_nil; eauto). reflexivity. }
  assert (E' : l = (a ++ m) ++ x :: b) by (rewrite E, <- !app_assoc; reflexivity).
  destruct (last_item t self l o d w a m x b it' R K E') as (r & v & L & Rd & It).
  exists (Some v). split. { erewrite bind_eq by exact L. cbn [read_opt]. erewrite bind_eq by exact Rd. reflexivity. }
  rewrite app_length. cbn [length]. rewrite Nat.add_1_r, last_seq, seq_length. cbn [seq hd].
  replace (Nat.eqb (S (length m)) 1) with (Nat.eqb (length m) 0) by now destruct m. exact It.
Qed.

(** ** [nth_back] *)
Lemma advance_back_any t self l o d w n : orep t self l o d w -> forall m a b it, l = a ++ m ++ b -> covers t o a m it ->
  exists it', v_advance_back t n it w = (Ok ((n <=? length m)%nat, it'), w) /\ covers t o a (firstn (length m - n) m) it'.
Proof.
  intros R. induction n as [|n IH]; intros m a b it E K; cbn [v_advance_back].
  - exists it. rewrite Nat.sub_0_r, firstn_all. auto.
  - destruct m as [|x m _] using rev_ind.
    + exists it. erewrite bind_eq by (eapply v_next_back_nil; eauto). auto.
    + assert (E' : l = (a ++ m) ++ x :: b) by (rewrite E, <- !app_assoc; reflexivity).
      destruct (back_item t self l o d w a m x b it R K E') as (r & it1 & v & V & K1 & _).
      destruct (IH m a (x :: b) it1) as (it2 & V2 & K2); auto. { rewrite E', <- app_assoc. reflexivity. }
      exists it2. erewrite bind_eq by exact V. cbv beta iota. rewrite V2, app_length. cbn [length].
      replace (length m + 1 - S n)%nat with (length m - n)%nat by lia. rewrite firstn_app.
      replace (length m - n - length m)%nat with O by lia. rewrite firstn_O, app_nil_r. split; auto.
      do 3 f_equal. destruct (Nat.leb_spec n (length m)), (Nat.leb_spec (S n) (length m + 1)); auto; lia.
Qed.

Theorem C54_nth_back_any t self l w cs n : repr t self l w ->
  let m := snd (dq_run cs (seq 0 (length l))) in
  exists r, after t self cs (fun it => '(r, it) <- v_nth_back t n it ;; x <- read_opt t r ;; rest <- v_collect t (v_iter_len it) it ;; ret (x, rest)) w
      = (Ok (r, firstn (length m - S n) (snd (dq_run cs l))), w) /\
    match nth_error (rev m) n with
    | None => r = None
    | Some i => item_read t l (sizedb t || negb (Nat.eqb (length m) (S n)) || Nat.eqb i 0) i r
    end.
Proof.
  intros R. pose proof R as R0. apply repr_orep in R as (o & d & R).
  destruct (after_calls t self l o d w cs R) as (it & rs & it' & a & m & b & I & V & E & K & Sq & Sv).
  cbv zeta. rewrite Sq, Sv, seq_length.
  assert (Nr : nth_error (rev (seq (length a) (length m))) n = if (n <? length m)%nat then Some (length a + (length m - 1 - n))%nat else None).
  { destruct (Nat.ltb_spec n (length m)) as [L|L].
    - rewrite nth_error_rev by (now rewrite seq_length). rewrite seq_length.
      replace (length m - S n)%nat with (length m - 1 - n)%nat by lia. apply nth_error_seq. lia.
    - apply nth_error_None. rewrite rev_length, seq_length. lia. }
  rewrite Nr. unfold after. erewrite bind_eq by exact I. erewrite bind_eq by exact V. cbv beta iota.
  assert (Nb : exists r it2, v_nth_back t n it' w = (Ok (r, it2), w) /\ covers t o a (firstn (length m - S n) m) it2 /\
    exists v, read_opt t r w = (Ok v, w) /\
      if (n <? length m)%nat
      then item_read t l (sizedb t || negb (Nat.eqb (length m) (S n)) || Nat.eqb (length a + (length m - 1 - n)) 0)
             (length a + (length m - 1 - n)) v
      else v = None).
  { destruct (sizedb t) eqn:Ks.
    - pose proof (proj1 (sizedb_true t) Ks) as Kt.
      destruct (nth_back_eq t self l o d w true n m a b it' R E K (or_introl Kt)) as (r & it2 & B & Rd & K2); [discriminate|].
      exists r, it2. ands; auto. eexists. split; [exact Rd|]. destruct (Nat.ltb_spec n (length m)) as [L|L].
      + exists (nth (length m - 1 - n) m dummy). split.
        * rewrite nth_error_rev by auto. replace (length m - S n)%nat with (length m - 1 - n)%nat by lia.
          apply nth_error_nth'. lia.
        * cbn [orb]. rewrite E, nth_error_app2, Nat.add_comm, Nat.add_sub, nth_error_app1 by lia. apply nth_error_nth'. lia.
      + apply nth_error_None. rewrite rev_length. lia.
    - assert (Un : v_nth_back t n it' = ('(ok, it) <- v_advance_back t n it' ;; if (ok : bool) then v_next_back t it else ret (None, it))).
      { destruct it' as [si|ai|ui]; try reflexivity. destruct o; cbn [covers] in K; try tauto.
        exfalso. pose proof (sr_kind _ _ _ _ _ _ R) as Q. apply sizedb_true in Q. congruence. }
      rewrite Un. destruct (advance_back_any t self l o d w n R m a b it' E K) as (it1 & A & K1).
      erewrite bind_eq by exact A. cbv beta iota. destruct (Nat.ltb_spec n (length m)) as [L|L].
      + rewrite (proj2 (Nat.leb_le n (length m))) by lia.
        assert (Fs : firstn (length m - n) m = firstn (length m - S n) m ++ [nth (length m - 1 - n) m dummy]).
        { replace (length m - n)%nat with (S (length m - S n)) by lia.
          replace (length m - 1 - n)%nat with (length m - S n)%nat by lia.
          apply firstn_S_nth, nth_error_nth'. lia. }
        rewrite Fs in K1.
        assert (E' : l = (a ++ firstn (length m - S n) m) ++ nth (length m - 1 - n) m dummy :: skipn (length m - n) m ++ b).
        { rewrite E at 1. rewrite <- (firstn_skipn (length m - n) m) at 1. rewrite Fs, <- !app_assoc. reflexivity. }
        destruct (back_item t self l o d w a _ _ _ it1 R K1 E') as (r & it2 & v & B & K2 & Rd & It).
        exists (Some r), it2. ands; auto. exists (Some v). split.
        { cbn [read_opt]. erewrite bind_eq by exact Rd. reflexivity. }
        rewrite firstn_length_le, Ks in It by lia. replace (length m - S n)%nat with (length m - 1 - n)%nat in It by lia.
        replace (false || negb (Nat.eqb (length m) (S n)) || Nat.eqb (length a + (length m - 1 - n)) 0) with
          (false || negb (Nat.eqb (length m - 1 - n) 0) || Nat.eqb (length a) 0); [exact It|].
        destruct (Nat.eqb_spec (length m - 1 - n) 0), (Nat.eqb_spec (length m) (S n)), (Nat.eqb_spec (length a) 0),
          (Nat.eqb_spec (length a + (length m - 1 - n)) 0); auto; lia.
      + replace (length m - S n)%nat with O by lia. replace (length m - n)%nat with O in K1 by lia. rewrite firstn_O in *.
        destruct (Nat.leb_spec n (length m)).
        * exists None, it1. ands; auto. { eapply v_next_back_nil; eauto. } exists None. auto.
        * exists None, it1. ands; auto. exists None. auto. }
  destruct Nb as (r & it2 & B & K2 & v & Rd & It).
  exists v. split.
  - erewrite bind_eq by exact B. cbv beta iota. erewrite bind_eq by exact Rd. cbv beta.
    erewrite bind_eq; [reflexivity|]. rewrite (covers_len _ _ _ _ _ _ _ _ _ R K2).
    eapply (collect_eq t self l o d w R _ a (skipn (length m - S n) m ++ b)); eauto.
    rewrite E. rewrite <- (firstn_skipn (length m - S n) m) at 1. now rewrite <- app_assoc.
  - destruct (n <? length m)%nat; auto.
Qed.
End WithConfig.

Print Assumptions C12_last_any.
Print Assumptions C54_nth_back_any.

Section Cases.
Local Existing Instance cfg_release.
Ltac run := vm_compute; reflexivity.
Ltac built := eapply (built_repr _ _ empty_world); [exact I|intros K; discriminate K|apply takesb_ok; reflexivity|run].

(** [ab, c, def]: after two steps the last item is the only one left and is read from the start of the buffer; after one step
    it is the right one. *)
Definition three := [str_val [97; 98]; str_val [99]; str_val [100; 101; 102]].
Example C12_last_any_case : exists v w y, repr TStr v three w /\
  v_visit_last TStr v [Next; Next] w = (Ok (Some y), w) /\ v_bytes y = [Byte 97; Byte 98; Byte 99] /\
  v_visit_last TStr v [Next] w = (Ok (Some (str_val [100; 101; 102])), w) /\
  v_visit_last TStr v [Next; Next; NextBack] w = (Ok None, w).
Proof. do 3 eexists. split; [built|]. do 3 (split; [run|]). run. Qed.

(** The same vector, [nth_back] after one step: the right item and its rest, then the sole one left, then too far. *)
Example C54_nth_back_any_case : exists v w y, repr TStr v three w /\
  let back n := after TStr v [Next] (fun it => '(r, it) <- v_nth_back TStr n it ;; x <- read_opt TStr r ;;
                                      rest <- v_collect TStr (v_iter_len it) it ;; ret (x, rest)) w in
  back 0%nat = (Ok (Some (str_val [100; 101; 102]), [str_val [99]]), w) /\
  back 1%nat = (Ok (Some y, []), w) /\ v_bytes y = [Byte 97] /\
  back 2%nat = (Ok (None, []), w) /\ back 5%nat = (Ok (None, []), w).
Proof. do 3 eexists. split; [built|]. cbv zeta. do 4 (split; [run|]). run. Qed.
End Cases.
