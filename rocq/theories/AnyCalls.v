(** Iterator calls in any order, including those that [fair] excludes: the item is then taken from the start of the buffer,
    but it stays inside the buffer, and the iterator still has the right elements to yield afterwards. *)
From Coq Require Import ZArith List Bool Lia.
From Verif Require Import Types World ValidSize Emplace SizedVec AlignedVec UnalignedVec Api Spec Bytes Arith Wp Mem Repr
  Access Reserve Realign Orep Push Deal PushWith Shell Insert Take Pop Iter Calls.
Import ListNotations.
Open Scope Z_scope.
Open Scope m_scope.

(** The metadata the code computes for an element that ends at [e] when it takes 0 for the start. *)
Definition smeta (t : ty) (e : Z) (x : value) : meta := as_metadata t (from_metadata t (v_meta x)) e.
(** The reference it then makes for an element behind the prefix [a]. *)
Definition sref (t : ty) (o : obj) (a : list value) (x : value) : wide :=
  Wide (padd (o_ptr o) 0) (smeta t (plen t (o_pal o) a + vsize t x) x).

Lemma smeta_size t n x : kind_of t <> KSized -> wf_ty t -> good t x -> vsize t x <= n ->
  0 <= size_of_val t (smeta t n x) <= n /\ align_of_val t (smeta t n x) = valign t x.
Proof.
  intros K W G L. pose proof (good_size t x G) as S. unfold vsize, valign, smeta in *. destruct G as [[(_ & _ & M) _] _].
  destruct t; cbn [from_metadata as_metadata from_size kind_of] in *; try congruence; try (split; [lia|reflexivity]).
  destruct (v_meta x) as [|k|]; try tauto. destruct W as ((Es & _) & _). destruct (Z.eqb_spec esize 0). cbn in *; split; lia.
  cbn [size_of_val align_of_val]. split; [|reflexivity].
  pose proof (Z.div_mod n esize ltac:(lia)). pose proof (Z.mod_pos_bound n esize ltac:(lia)).
  pose proof (Z.div_pos n esize ltac:(cbn in *; lia) ltac:(lia)). nia.
Qed.

Section WithConfig.
Context {C : Config}.

Section Items.
Context (t : ty) (self : nat) (l : list value) (o : obj) (d : list byte) (w : world).
Hypothesis R : orep t self l o d w.

Lemma sref_ok a x b : kind_of t <> KSized -> l = a ++ x :: b -> ref_ok t (w_heap w) (sref t o a x) = true /\
  0 <= size_of_val t (wm (sref t o a x)) <= o_bcap t o.
Proof.
  intros K E. destruct (split_fit t self l o d w R _ _ _ E) as (A & S & F & B & P). destruct (split_good t self l o d w R _ _ _ E) as (_ & Gx & _).
  destruct (smeta_size t (plen t (o_pal o) a + vsize t x) x K (orep_wf _ _ _ _ _ _ R) Gx ltac:(lia)) as [Sz Al].
  cbn [sref wm]. split; [|lia]. unfold sref. pose proof (pow2_pos _ (good_align t x Gx)) as Pa.
  assert (D : (valign t x | o_al t o)).
  { assert (I : In x l) by (rewrite E; apply in_or_app; cbn; auto). destruct o as [v|v|v|]; ocbn in *; try tauto.
    - pose proof (sr_kind _ _ _ _ _ _ R). congruence.
    - destruct R. now apply valign_aligned.
    - destruct R. apply pow2_divide; auto. now apply good_align. rewrite Forall_forall in ur_aligned. auto. }
  eapply ref_ok_buf; try rewrite Al; try apply (orep_buf _ _ _ _ _ _ R); auto; try lia.
Qed.
Lemma make_sref a x b : kind_of t <> KSized -> l = a ++ x :: b -> make_ref t (sref t o a x) w = (Ok (sref t o a x), w).
Proof. intros K E. unfold make_ref. now rewrite (proj1 (sref_ok _ _ _ K E)). Qed.
(** What is read through it: the bytes at the start of the buffer. *)
Lemma read_sref a x b : kind_of t <> KSized -> l = a ++ x :: b ->
  read_value t (sref t o a x) w = (Ok (Value (wm (sref t o a x)) (sub 0 (size_of_val t (wm (sref t o a x))) d)), w).
Proof.
  intros K E. destruct (sref_ok _ _ _ K E) as [_ S]. unfold read_value.
  erewrite bind_eq. 2:{ cbn [sref wp]. eapply mem_read_buf; [apply (orep_buf _ _ _ _ _ _ R)|lia|apply S|apply S]. }
  reflexivity.
Qed.
Lemma a_stale_eq v a x b : o = OA v -> l = a ++ x :: b ->
  a_item t (av_ptr v) 0 (info_of t (plen t 1 a) x) w = (Ok (sref t o a x), w).
Proof.
  intros Eo E. destruct (split_fit t self l o d w R _ _ _ E) as (A & S & F & B & P).
  assert (K : kind_of t <> KSized). { subst o. ocbn in *. rewrite (ar_kind _ _ _ _ _ _ R). discriminate. }
  pose proof (make_sref _ _ _ K E) as MR. pose proof (orep_buf _ _ _ _ _ _ R) as Bu. subst o. ocbn in *.
  unfold a_item. cbn [info_of i_end i_rem].
  erewrite bind_eq by (apply vs_unchecked_sub_eq; lia).
  erewrite bind_eq by (eapply ptr_add_buf; eauto; lia). rewrite Z.sub_0_r. exact MR.
Qed.
Lemma u_stale_eq v a x b : o = OU v -> l = a ++ x :: b ->
  u_item t (uv_ptr v) 0 (info_of t (plen t (uv_align v) a) x) w = (Ok (sref t o a x), w).
Proof.
  intros Eo E. destruct (split_fit t self l o d w R _ _ _ E) as (A & S & F & B & P).
  assert (K : kind_of t <> KSized). { subst o. ocbn in *. rewrite (ur_kind _ _ _ _ _ _ R). discriminate. }
  pose proof (make_sref _ _ _ K E) as MR. pose proof (orep_buf _ _ _ _ _ _ R) as Bu. subst o. ocbn in *.
  unfold u_item. cbn [info_of i_end i_rem].
  erewrite bind_eq by (apply vs_unchecked_sub_eq; lia).
  erewrite bind_eq by (eapply ptr_add_buf; eauto; lia). rewrite Z.sub_0_r. exact MR.
Qed.

End Items.

(** [next_back] on the only remaining element, [nth(0)]. *)
Lemma v_next_back_one t self l o d w a x b it : orep t self l o d w -> kind_of t <> KSized -> covers t o a [x] it -> l = a ++ x :: b ->
  exists it', v_next_back t it w = (Ok (Some (sref t o a x), it'), w) /\ covers t o a [] it'.
Proof.
  intros R Kn K E. destruct it as [it|it|it]; destruct o as [v|v|v|]; cbn [covers] in K; try tauto; cbn [v_next_back].
  - elim Kn. apply (sr_kind _ _ _ _ _ _ R).
  - destruct K as (I & P & St). unfold a_next_back. rewrite I. cbn [infos_of rev app last_end]. rewrite P.
    eexists. split. { erewrite bind_eq. 2:{ erewrite bind_eq. 2:{ eapply (a_stale_eq t self l (OA v)); eauto. } reflexivity. } reflexivity. }
    cbn [covers ai_infos ai_ptr ai_start infos_of]. ands; auto; congruence.
  - destruct K as (I & P & St & Al). unfold u_next_back. rewrite I. cbn [infos_of rev app]. rewrite P.
    eexists. split. { erewrite bind_eq. 2:{ erewrite bind_eq by reflexivity. erewrite bind_eq. 2:{ eapply (u_stale_eq t self l (OU v)); eauto. } reflexivity. } reflexivity. }
    cbn [covers ui_infos ui_ptr ui_start ui_align infos_of]. ands; auto; congruence.
Qed.
Lemma v_nth_0 t self l o d w a x m b it : orep t self l o d w -> kind_of t <> KSized -> covers t o a (x :: m) it -> l = a ++ x :: m ++ b ->
  exists it', v_nth t it 0 w = (Ok (Some (sref t o a x), it'), w) /\ covers t o (a ++ [x]) m it'.
Proof.
  intros R Kn K E. destruct it as [it|it|it]; destruct o as [v|v|v|]; cbn [covers] in K; try tauto; cbn [v_nth].
  - elim Kn. apply (sr_kind _ _ _ _ _ _ R).
  - destruct K as (I & P & St). unfold a_nth. rewrite I. cbn [infos_of skipn]. rewrite P.
    eexists. split. { erewrite bind_eq. 2:{ erewrite bind_eq. 2:{ eapply (a_stale_eq t self l (OA v)); eauto. } reflexivity. } reflexivity. }
    assert (Q : plen t 1 (a ++ [x]) = plen t 1 a + psz t 1 x) by (rewrite plen_app; cbn [plen]; lia).
    cbn [covers ai_infos ai_ptr ai_start info_of i_end]. rewrite Q. ands; auto. intros _. unfold psz. now rewrite pad_1.
  - destruct K as (I & P & St & Al). unfold u_nth. rewrite I. cbn [infos_of skipn]. rewrite P, Al.
    assert (Q : plen t (uv_align v) (a ++ [x]) = plen t (uv_align v) a + psz t (uv_align v) x) by (rewrite plen_app; cbn [plen]; lia).
    eexists. split.
    { erewrite bind_eq. 2:{ erewrite bind_eq by reflexivity. erewrite bind_eq. 2:{ eapply (u_stale_eq t self l (OU v)); eauto. } cbn [info_of i_end].
      erewrite bind_eq by (eapply pad_end; eauto). reflexivity. } reflexivity. }
    cbn [covers ui_infos ui_ptr ui_start ui_align]. rewrite Q. ands; auto.
Qed.

(** ** Sequences of calls *)
Definition sizedb (t : ty) : bool := match kind_of t with KSized => true | _ => false end.
(** Which of the calls are fair. *)
Fixpoint verdicts (adv : bool) (n : nat) (cs : list icall) : list bool :=
  match cs with
  | [] => []
  | c :: cs => fair adv n [c] ::
      match c with
      | Next => verdicts true (n - 1) cs
      | NextBack => verdicts adv (n - 1) cs
      | Nth k => verdicts true (n - S k) cs
      end
  end.
Lemma verdicts_fair cs : forall adv n, fair adv n cs = forallb id (verdicts adv n cs).
Proof.
  induction cs as [|c cs IH]; intros; [reflexivity|]. destruct c; cbn [fair verdicts forallb id]; rewrite ?IH, ?andb_true_r; reflexivity.
Qed.

Definition pick (t : ty) (o : obj) (l : list value) (ok : bool) (i : nat) : wide :=
  if ok then eref_at t o l i else sref t o (firstn i l) (nth i l dummy).
Lemma sref_at t o a x b : sref t o a x = sref t o (firstn (length a) (a ++ x :: b)) (nth (length a) (a ++ x :: b) dummy).
Proof. rewrite firstn_mid, app_nth2, Nat.sub_diag by lia. reflexivity. Qed.

Lemma v_call_any t self l o d w a m b it c adv :
  orep t self l o d w -> l = a ++ m ++ b -> covers t o a m it -> (adv = false -> a = []) ->
  let st := dq_step c (seq (length a) (length m)) in
  exists it' a' m' b', v_call t c it w = (Ok (option_map (pick t o l (sizedb t || fair adv (length m) [c])) (fst st), it'), w) /\
    l = a' ++ m' ++ b' /\ covers t o a' m' it' /\ snd st = seq (length a') (length m') /\ (c = NextBack -> a' = a).
Proof.
  intros R E K A. cbn zeta. destruct (sizedb t || fair adv (length m) [c]) eqn:G.
  - eapply v_call_eq; eauto. apply orb_true_iff in G as [G|G]; [left|now right]. unfold sizedb in G. destruct (kind_of t); congruence.
  - apply orb_false_iff in G as [Z G]. assert (Kn : kind_of t <> KSized) by (intros Q; unfold sizedb in Z; now rewrite Q in Z).
    destruct c; cbn [fair] in G; [discriminate| |]; rewrite andb_true_r in G; apply negb_false_iff in G; cbn [v_call dq_step].
    + apply andb_true_iff in G as [_ G]. apply Nat.eqb_eq in G. destruct m as [|x [|y m]]; try discriminate.
      destruct (v_next_back_one _ _ _ _ _ _ a x b it R Kn K E) as (it' & V & K'). exists it', a, [], (x :: b). rewrite V.
      cbn [length seq rev app hd_error fst snd option_map removelast pick]. cbn [app] in E.
      pose proof (sref_at t o a x b) as Q. rewrite <- E in Q. rewrite <- Q. ands; auto.
    + apply andb_true_iff in G as [G1 G2]. apply andb_true_iff in G1 as [_ G1]. apply Nat.eqb_eq in G1 as ->.
      destruct m as [|x m]; [discriminate|].
      destruct (v_nth_0 _ _ _ _ _ _ a x m b it R Kn K E) as (it' & V & K'). exists it', (a ++ [x]), m, b. rewrite V.
      cbn [length seq nth_error fst snd option_map skipn pick]. cbn [app] in E.
      pose proof (sref_at t o a x (m ++ b)) as Q. rewrite <- E in Q. rewrite <- Q. ands; auto.
      * rewrite E, <- app_assoc. reflexivity.
      * rewrite app_length. cbn [length]. f_equal. lia.
      * discriminate.
Qed.

Definition as_picks (t : ty) (o : obj) (l : list value) (rs : list (option nat * nat)) (oks : list bool) : list (option wide * nat) :=
  map (fun r => (option_map (pick t o l (sizedb t || snd r)) (fst (fst r)), snd (fst r))) (combine rs oks).

Lemma v_calls_any t self l o d w cs : orep t self l o d w -> forall a m b it adv,
  l = a ++ m ++ b -> covers t o a m it -> (adv = false -> a = []) ->
  let st := dq_run cs (seq (length a) (length m)) in
  exists it' a' m' b', v_calls t cs it w = (Ok (as_picks t o l (fst st) (verdicts adv (length m) cs), it'), w) /\
    l = a' ++ m' ++ b' /\ covers t o a' m' it' /\ snd st = seq (length a') (length m').
Proof.
  intros R. induction cs as [|c cs IH]; intros a m b it adv E K A st; subst st; cbn [v_calls dq_run].
  - exists it, a, m, b. ands; auto.
  - destruct (v_call_any _ _ _ _ _ _ a m b it c adv R E K A) as (it1 & a1 & m1 & b1 & V & E1 & K1 & S1 & B1).
    destruct (dq_step c (seq (length a) (length m))) as [x m1'] eqn:Ds. cbn [fst snd] in *. subst m1'.
    assert (Lm : length m1 = match c with Next => length m - 1 | NextBack => length m - 1 | Nth k => length m - S k end%nat).
      { rewrite <- (seq_length (length m1) (length a1)). replace (seq (length a1) (length m1)) with (snd (dq_step c (seq (length a) (length m)))) by (now rewrite Ds).
        destruct c; cbn [dq_step snd].
        - destruct m; cbn; rewrite ?seq_length; lia.
        - now rewrite length_removelast, seq_length.
        - now rewrite skipn_length, seq_length. }
    destruct (IH a1 m1 b1 it1 (match c with NextBack => adv | _ => true end) E1 K1) as (it2 & a2 & m2 & b2 & V2 & E2 & K2 & S2).
    { destruct c; try discriminate. intros Q. rewrite B1; auto. }
    exists it2, a2, m2, b2. erewrite bind_eq by exact V. cbv beta iota. erewrite bind_eq by exact V2.
    rewrite seq_length. destruct (dq_run cs (seq (length a1) (length m1))) as [xs m'']. cbn [fst snd] in *. ands; auto.
    unfold ret. do 2 f_equal. rewrite (covers_len _ _ _ _ _ _ _ _ _ R K1).
    rewrite Lm. cbn [verdicts]. unfold as_picks. destruct c; cbn [combine map fst snd]; reflexivity.
Qed.
End WithConfig.
