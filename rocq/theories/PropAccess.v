(** C05, C09 - C16: reading, iterating, writing in place, alignment and lengths. Reading guide: see PropPush.v. *)
From Coq Require Import ZArith List Bool Lia.
From Verif Require Import Types World ValidSize Emplace SizedVec AlignedVec UnalignedVec Api Spec Bytes Arith Wp Mem Repr
  Access Reserve Realign Orep Push Deal PushWith Shell Insert Take Pop Box Iter Calls GetMut DropVec Family Build Obs Room Findings PropPush.
Import ListNotations.
Open Scope Z_scope.
Open Scope m_scope.

Section WithConfig.
Context {C : Config}.

(** ** C05 *)
(** A usable reference to a value equal to [x]: its metadata, in bounds, aligned, not null, and the bytes behind it. *)
Definition refers (t : ty) (r : wide) (x : value) (w : world) : Prop :=
  wm r = v_meta x /\ ref_ok t (w_heap w) r = true /\ read_value t r w = (Ok x, w).
Theorem C05_get t self l w i : repr t self l w ->
  match nth_error l i with
  | Some x => exists r, v_get t self i w = (Ok (Some r), w) /\ v_index t self i w = (Ok r, w) /\ refers t r x w
  | None => v_get t self i w = (Ok None, w) /\ v_index t self i w = (Panic PBounds, w)
  end.
Proof.
  intros R. destruct (nth_error l i) as [x|] eqn:N.
  - destruct (v_get_some t self l w i x R N) as (r & G & M & Rd & Rf). exists r. ands; auto; [|unfold refers; ands; auto].
    unfold v_index. erewrite bind_eq by exact G. reflexivity.
  - apply nth_error_None in N. pose proof (v_get_none t self l w i R N) as G. split; auto.
    unfold v_index. erewrite bind_eq by exact G. reflexivity.
Qed.
Corollary C05_get_iff t self l w i : repr t self l w ->
  ((exists r w', v_get t self i w = (Ok (Some r), w')) <-> (i < length l)%nat) /\
  ((exists w', v_index t self i w = (Panic PBounds, w')) <-> (length l <= i)%nat).
Proof.
  intros R. pose proof (C05_get t self l w i R) as H. destruct (nth_error l i) as [x|] eqn:N.
  - destruct H as (r & G & I & _). assert (i < length l)%nat by (apply nth_error_Some; congruence).
    split; split; intros X; try lia; eauto. destruct X as (w' & X). rewrite I in X. discriminate X.
  - destruct H as (G & I). apply nth_error_None in N. split; split; intros X; try lia; eauto.
    destruct X as (r & w' & X). rewrite G in X. discriminate X.
Qed.

(** ** C09, C10 *)
(** [k] calls of [next], for every [k] (also past the end): the [i]-th returns the [i]-th element or [None], and
    [len()] = [size_hint()] is then the number of elements left. *)
Theorem C09_forward t self l w k : repr t self l w ->
  v_visit t self (repeat Next k) w = (Ok (map (fun i => (nth_error l i, (length l - S i)%nat)) (seq 0 k)), w).
Proof. intros R. rewrite (visit_eq t self l w _ R). { now rewrite dq_next_run. } right. apply fair_next. Qed.
Theorem C10_backward t self l w k : repr t self l w ->
  v_visit t self (repeat NextBack k) w = (Ok (map (fun i => (nth_error (rev l) i, (length l - S i)%nat)) (seq 0 k)), w).
Proof. intros R. rewrite (visit_eq t self l w _ R). { now rewrite dq_next_back_run. } right. apply fair_next_back. Qed.

(** ** C11, C12 *)
(** All interleavings of [next], [next_back] and [nth] on a vector of Sized elements; for the other kinds, those in which
    the single remaining element is not asked for by [next_back] (or by [nth(0)]) after the front has advanced: [fair]. *)
Theorem C11_both_ends_sized t self l w cs : kind_of t = KSized -> repr t self l w ->
  v_visit t self cs w = (Ok (fst (dq_run cs l)), w).
Proof. intros K R. apply visit_eq; auto. Qed.
Theorem C11_both_ends_partial t self l w cs : repr t self l w -> fair false (length l) cs = true ->
  v_visit t self cs w = (Ok (fst (dq_run cs l)), w).
Proof. intros R F. apply visit_eq; auto. Qed.
(** In the sequence specification no element is handed out twice, and everything handed out is an element. *)
Theorem C11_once {A} cs (l : list A) : NoDup l -> NoDup (somes (fst (dq_run cs l))) /\ incl (somes (fst (dq_run cs l))) l.
Proof. apply dq_run_nodup. Qed.

Lemma dq_run_app {A} cs cs' (m : list A) : dq_run (cs ++ cs') m =
  (fst (dq_run cs m) ++ fst (dq_run cs' (snd (dq_run cs m))), snd (dq_run cs' (snd (dq_run cs m)))).
Proof.
  revert m. induction cs as [|c cs IH]; intros m; cbn [app dq_run].
  - cbn. now destruct (dq_run cs' m).
  - destruct (dq_step c m) as [x m']. rewrite IH. destruct (dq_run cs m') as [xs m'']. reflexivity.
Qed.
Lemma nth_error_last {A} (l : list A) n k : length l = S n -> nth_error l n = Some k -> hd_error (rev l) = Some k.
Proof.
  intros L N. destruct l as [|a l _] using rev_ind; [discriminate|]. rewrite app_length in L. cbn in L.
  rewrite nth_error_app2 in N by lia. replace (n - length l)%nat with 0%nat in N by lia. now rewrite rev_app_distr.
Qed.
Lemma dq_run_length {A} cs (m : list A) : length (fst (dq_run cs m)) = length cs.
Proof.
  revert m. induction cs as [|c cs IH]; intros m; cbn [dq_run]; auto. destruct (dq_step c m) as [x m'].
  specialize (IH m'). destruct (dq_run cs m'). cbn in *. now rewrite IH.
Qed.
(** [nth(n)] after the calls [cs]: result and number of items left are those of [n+1] calls of [next]. *)
Lemma nth_is_next t self l w cs n :
  v_visit t self (cs ++ [Nth n]) w = (Ok (fst (dq_run (cs ++ [Nth n]) l)), w) ->
  v_visit t self (cs ++ repeat Next (S n)) w = (Ok (fst (dq_run (cs ++ repeat Next (S n)) l)), w) ->
  exists rs rs', v_visit t self (cs ++ [Nth n]) w = (Ok rs, w) /\ v_visit t self (cs ++ repeat Next (S n)) w = (Ok rs', w) /\
    rs <> [] /\ hd_error (rev rs) = hd_error (rev rs').
Proof.
  intros V1 V2. do 2 eexists. split; [exact V1|]. split; [exact V2|]. rewrite !dq_run_app. cbn [fst]. set (m := snd (dq_run cs l)).
  split. { cbn [dq_run]. destruct (dq_step (Nth n) m). intros E. apply app_eq_nil in E as [_ E]. discriminate E. }
  pose proof (dq_nth_next m n) as [_ E]. rewrite !rev_app_distr.
  assert (E' := nth_error_last _ n _ (eq_trans (dq_run_length (repeat Next (S n)) m) (repeat_length _ _)) E).
  change (dq_run [Nth n] m) with (let (x, m') := dq_step (Nth n) m in let (xs, m'') := dq_run [] m' in ((x, length m') :: xs, m'')).
  destruct (rev (fst (dq_run (repeat Next (S n)) m))) as [|z zs]; [discriminate E'|]. cbn in E'. injection E' as ->.
  reflexivity.
Qed.
Theorem C12_nth_partial t self l w cs n : repr t self l w ->
  kind_of t = KSized \/ fair false (length l) (cs ++ [Nth n]) = true /\ fair false (length l) (cs ++ repeat Next (S n)) = true ->
  exists rs rs', v_visit t self (cs ++ [Nth n]) w = (Ok rs, w) /\ v_visit t self (cs ++ repeat Next (S n)) w = (Ok rs', w) /\
    rs <> [] /\ hd_error (rev rs) = hd_error (rev rs').
Proof. intros R F. apply (nth_is_next _ _ l); apply visit_eq; tauto. Qed.
(** What follows an [nth] is also as in the specification. *)
Theorem C12_nth_position_partial t self l w cs n cs' : repr t self l w ->
  kind_of t = KSized \/ fair false (length l) (cs ++ Nth n :: cs') = true ->
  v_visit t self (cs ++ Nth n :: cs') w =
    (Ok (fst (dq_run cs l) ++ (nth_error (snd (dq_run cs l)) n, length (skipn (S n) (snd (dq_run cs l)))) ::
         fst (dq_run cs' (skipn (S n) (snd (dq_run cs l))))), w).
Proof.
  intros R F. rewrite (visit_eq t self l w _ R F), dq_run_app. cbn [fst]. do 3 f_equal. cbn [dq_run]. cbn [dq_step].
  destruct (dq_run cs' _). reflexivity.
Qed.
(** [last()] after the calls [cs]: the final remaining element. *)
Theorem C12_last_partial t self l w cs : repr t self l w ->
  kind_of t = KSized \/ fair false (length l) (cs ++ [NextBack]) = true ->
  v_visit_last t self cs w = (Ok (hd_error (rev (snd (dq_run cs l)))), w).
Proof. intros R F. now apply visit_last_eq. Qed.

(** ** C13 *)
(** The ranges handed out by one iterator lie in the used part of the vector's own block and are pairwise disjoint. *)
Theorem C13_disjoint_partial t self l w cs : repr t self l w -> kind_of t = KSized \/ fair false (length l) cs = true ->
  exists it rs it' n base offs, v_iter t self w = (Ok it, w) /\ v_calls t cs it w = (Ok (rs, it'), w) /\
    v_byte_len t self w = (Ok n, w) /\
    (n = 0 \/ exists b blk, base = Blk b 0 /\ owned_block w self = Some b /\ heap_get (w_heap w) b = Some blk /\ n <= zlen (b_data blk)) /\
    Forall2 (fun r off => wp r = padd base off /\ 0 <= off /\ off + size_of_val t (wm r) <= n) (somes rs) offs /\
    ForallOrdPairs (fun p q => snd p + size_of_val t (wm (fst p)) <= snd q \/ snd q + size_of_val t (wm (fst q)) <= snd p)
      (combine (somes rs) offs).
Proof. apply refs_apart. Qed.

(** ** C14 *)
(** The vector's measures. *)
Definition measures (t : ty) (self : nat) (w : world) : res Z * res Z * res Z * res Z :=
  (fst (v_capacity t self w), fst (v_byte_capacity t self w), fst (v_byte_len t self w), fst (v_align t self w)).
Lemma alike_blen t o l l' : Forall2 alike l l' -> o_blen t o l' = o_blen t o l.
Proof. intros A. unfold o_blen. now apply alike_plen. Qed.
Lemma measures_same t self l l' o d d' w w' : orep t self l o d w -> orep t self l' o d' w' -> o_blen t o l' = o_blen t o l ->
  measures t self w' = measures t self w.
Proof.
  intros R R' E. unfold measures.
  rewrite (v_capacity_eq _ _ _ _ _ _ R), (v_capacity_eq _ _ _ _ _ _ R'), (v_byte_capacity_eq _ _ _ _ _ _ R), (v_byte_capacity_eq _ _ _ _ _ _ R'),
    (v_byte_len_eq _ _ _ _ _ _ R), (v_byte_len_eq _ _ _ _ _ _ R'), (v_align_eq _ _ _ _ _ _ R), (v_align_eq _ _ _ _ _ _ R'), E. reflexivity.
Qed.
Definition only_bytes (t : ty) (self : nat) (w w' : world) : Prop :=
  others self w w' /\ w_drops w' = w_drops w /\ w_nalloc w' = w_nalloc w /\ measures t self w' = measures t self w.
Lemma p_raw_eq t self l o d w i x : orep t self l o d w -> nth_error l i = Some x ->
  p_get_unchecked_raw t self i w = (Ok (eref t o l i x), w).
Proof.
  intros R N. unfold p_get_unchecked_raw. destruct o as [v|v|v|]; cbn [orep] in R; try contradiction.
  - rewrite (sr_kind _ _ _ _ _ _ R). eapply s_raw_eq; eauto.
  - rewrite (ar_kind _ _ _ _ _ _ R). eapply a_raw_eq; eauto.
  - rewrite (ur_kind _ _ _ _ _ _ R). eapply u_raw_eq; eauto.
Qed.
Theorem C14_get_mut t self l w i x y : repr t self l w -> nth_error l i = Some x -> alike x y ->
  exists r w', v_get t self i w = (Ok (Some r), w) /\ mem_write (wp r) (v_bytes y) w = (Ok tt, w') /\
    holds_list t self (replace_at i y l) w' /\ only_bytes t self w w'.
Proof.
  intros R N A. pose proof R as R0. apply repr_orep in R as (o & d & R). destruct (overwrite_at t self l o d w i x y R N A) as (d' & W & R' & Q).
  assert (G : v_get t self i w = (Ok (Some (eref_at t o l i)), w)).
  { unfold v_get. erewrite bind_eq by (eapply v_len_eq; eauto).
    assert (i < length l)%nat by (apply nth_error_Some; congruence). rewrite (proj2 (Z.ltb_lt _ _)) by (unfold zlen; lia).
    erewrite bind_eq; [reflexivity|]. unfold v_get_unchecked.
    assert (E : eref_at t o l i = eref t o l i x). { unfold eref_at. f_equal. now apply nth_error_nth. }
    rewrite E. erewrite bind_eq by (eapply p_raw_eq; eauto). unfold make_ref.
    destruct (v_get_unchecked_eq t self l w i x R0 N) as (r & Hr & _ & _ & Rf). unfold v_get_unchecked in Hr.
    erewrite bind_eq in Hr by (eapply p_raw_eq; eauto). unfold make_ref in Hr.
    destruct (ref_ok t (w_heap w) (eref t o l i x)); [reflexivity|discriminate]. }
  do 2 eexists. split; [exact G|]. split; [exact W|]. split; [apply repr_holds; eapply orep_repr; eauto|].
  unfold only_bytes. ands; auto; try apply Q.
  - apply others_frame, Q.
  - eapply measures_same; eauto. apply alike_blen. eapply replace_at_alike; eauto.
Qed.
(** Writing through all the references that one [iter_mut] hands out, in any order of calls that the iterator serves right. *)
Theorem C14_iter_mut_partial t self l w cs ys : repr t self l w -> kind_of t = KSized \/ fair false (length l) cs = true ->
  let js := somes (fst (dq_run cs (seq 0 (length l)))) in
  Forall2 (fun j y => exists x, nth_error l j = Some x /\ alike x y) js ys ->
  exists it rs it' w', v_iter t self w = (Ok it, w) /\ v_calls t cs it w = (Ok (rs, it'), w) /\
    write_all (combine (somes rs) ys) w = (Ok tt, w') /\ holds_list t self (replace_all js ys l) w' /\ only_bytes t self w w'.
Proof.
  intros R G js F. apply repr_orep in R as (o & d & R). destruct (v_iter_eq _ _ _ _ _ _ R) as (it & I & K & _).
  destruct (v_calls_eq _ _ _ _ _ _ cs R [] l [] it false) as (it' & a' & m' & b' & V & _); auto.
  { cbn. now rewrite app_nil_r. }
  cbn [length] in V.
  assert (S : somes (as_refs t o l (fst (dq_run cs (seq 0 (length l))))) = map (eref_at t o l) js).
  { subst js. clear. unfold somes, as_refs. induction (fst (dq_run cs (seq 0 (length l)))) as [|[[j|] n] xs IH]; cbn; auto. now f_equal. }
  destruct (write_all_eq t self o js ys l l d w R (alike_all_refl l) F) as (d' & w' & W & R' & Q & Na).
  do 4 eexists. split; [exact I|]. split; [exact V|]. rewrite S. split; [exact W|]. split; [apply repr_holds; eapply orep_repr; eauto|].
  unfold only_bytes. ands; auto; try apply Q.
  - apply others_frame, Q.
  - eapply measures_same; eauto. apply alike_blen. clear -F. clearbody js.
    enough (X : forall l', Forall2 alike l l' -> Forall2 alike l (replace_all js ys l')) by (apply X, alike_all_refl).
    induction F as [|j y js ys (x & N & A) _ IH]; intros l' H; cbn [replace_all]; auto. apply IH.
    assert (X : exists x', nth_error l' j = Some x' /\ alike x' y).
    { clear -H N A. revert j N. induction H as [|u v l0 l Huv _ IH]; intros [|j] N; cbn in *; try discriminate; auto.
      injection N as ->. exists v. split; auto. destruct Huv, A. split; congruence. }
    destruct X as (x' & N' & A'). eapply alike_all_trans; [exact H|]. eapply replace_at_alike; eauto.
Qed.

(** ** C15, C16 *)
(** Every element of a represented vector lies at an address that is a multiple of its alignment. The representation
    invariant is kept by every operation except the ones refuted in Findings.v (see History.v). *)
Theorem C15_aligned_partial t self l w i x : repr t self l w -> nth_error l i = Some x ->
  exists r a, v_get t self i w = (Ok (Some r), w) /\ ptr_addr (w_heap w) (wp r) = Some a /\ 0 < a /\ a mod valign t x = 0.
Proof.
  intros R N. destruct (v_get_some t self l w i x R N) as (r & G & M & _ & Rf). exists r. unfold ref_ok in Rf.
  destruct (ptr_addr (w_heap w) (wp r)) as [a|]; [|discriminate]. exists a. rewrite M in Rf. rewrite !andb_true_iff in Rf. destruct Rf as [[P A] _].
  ands; auto; [now apply Z.ltb_lt|]. now apply Z.eqb_eq.
Qed.
Theorem C16_lengths_partial t self l w : repr t self l w ->
  exists n c bl bc, v_len t self w = (Ok n, w) /\ v_capacity t self w = (Ok c, w) /\ n <= c /\
    v_byte_len t self w = (Ok bl, w) /\ v_byte_capacity t self w = (Ok bc, w) /\ bl <= bc /\ n = zlen l /\
    (kind_of t = KUnaligned -> exists a, v_align t self w = (Ok a, w) /\ bl = padded_total t a l) /\
    (kind_of t <> KUnaligned -> bl = total t l).
Proof.
  intros R. pose proof (v_len_eq t self l w R) as Vl. apply repr_orep in R as (o & d & R).
  exists (zlen l), (o_cap t o), (o_blen t o l), (o_bcap t o). ands; auto.
  - eapply v_capacity_eq; eauto.
  - eapply orep_len; eauto.
  - eapply v_byte_len_eq; eauto.
  - eapply v_byte_capacity_eq; eauto.
  - eapply orep_fit; eauto.
  - intros K. exists (o_al t o). split; [eapply v_align_eq; eauto|]. rewrite padded_total_plen.
    destruct o as [v|v|v|]; cbn [orep] in R; try contradiction; try (destruct R; congruence). reflexivity.
  - intros K. rewrite total_plen. destruct o as [v|v|v|]; cbn [orep] in R; try contradiction; try (destruct R; congruence); reflexivity.
Qed.
End WithConfig.

(** C14: after [next] and [next_back] on two trait objects the second reference is to the first element: writing through it
    changes the wrong element. *)
Theorem C14_iter_mut_refuted : let C := cfg_release in exists v w it r1 it1 r2 it2 w',
  v_of_values TDyn [word 1; word 2] empty_world = (Ok v, w) /\ v_iter TDyn v w = (Ok it, w) /\
  v_next TDyn it w = (Ok (Some r1, it1), w) /\ v_next_back TDyn it1 w = (Ok (Some r2, it2), w) /\
  mem_write (wp r2) (v_bytes (word 9)) w = (Ok tt, w') /\
  (w_heap w', match v_view TDyn v w' with (Ok l, _) => map v_bytes l | _ => [] end) = (w_heap w', [v_bytes (word 9); v_bytes (word 2)]).
Proof. do 8 eexists. do 5 (split; [run|]). run. Qed.

Print Assumptions C05_get.
Print Assumptions C05_get_iff.
Print Assumptions C09_forward.
Print Assumptions C10_backward.
Print Assumptions C11_both_ends_sized.
Print Assumptions C11_both_ends_partial.
Print Assumptions C11_once.
Print Assumptions C12_nth_partial.
Print Assumptions C12_nth_position_partial.
Print Assumptions C12_last_partial.
Print Assumptions C13_disjoint_partial.
Print Assumptions C14_get_mut.
Print Assumptions C14_iter_mut_partial.
Print Assumptions C15_aligned_partial.
Print Assumptions C16_lengths_partial.
Print Assumptions C14_iter_mut_refuted.

(** * Cases meeting the hypotheses *)
Section Cases.
Local Existing Instance cfg_release.
Ltac built := eapply (built_repr _ _ empty_world); [exact I|intros K; discriminate K|apply takesb_ok; reflexivity|run].
(** [u8; 5], u32 and u64 behind dyn. *)
Definition three : list value := [five 1; half 2; word 3].
Example C05_case : exists v w r, repr TDyn v three w /\ v_get TDyn v 1 w = (Ok (Some r), w) /\ refers TDyn r (half 2) w /\
  v_get TDyn v 3 w = (Ok None, w).
Proof.
  do 3 eexists. split; [built|]. split; [run|]. split; [unfold refers; split; [run|]; split; [run|]; run|]. run.
Qed.
Example C09_case : exists v w, repr TDyn v three w /\ v_visit TDyn v (repeat Next 4) w =
  (Ok [(Some (five 1), 2%nat); (Some (half 2), 1%nat); (Some (word 3), 0%nat); (None, 0%nat)], w).
Proof. do 2 eexists. split; [built|]. run. Qed.
Example C10_case : exists v w, repr TDyn v three w /\ v_visit TDyn v (repeat NextBack 4) w =
  (Ok [(Some (word 3), 2%nat); (Some (half 2), 1%nat); (Some (five 1), 0%nat); (None, 0%nat)], w).
Proof. do 2 eexists. split; [built|]. run. Qed.
Example C11_case : exists v w, repr TDyn v three w /\ fair false 3 [Next; NextBack; Next; NextBack] = true /\
  v_visit TDyn v [Next; NextBack; Next; NextBack] w =
  (Ok [(Some (five 1), 2%nat); (Some (word 3), 1%nat); (Some (half 2), 0%nat); (None, 0%nat)], w).
Proof. do 2 eexists. split; [built|]. split; [run|]. run. Qed.
Example C12_case : exists v w, repr TDyn v three w /\ fair false 3 ([] ++ [Nth 1]) = true /\ fair false 3 ([] ++ repeat Next 2) = true /\
  fair false 3 ([Next] ++ [Nth 1; Next]) = true /\ fair false 3 ([Next] ++ [NextBack]) = true /\
  v_visit TDyn v [Next; Nth 1; Next] w = (Ok [(Some (five 1), 2%nat); (Some (word 3), 0%nat); (None, 0%nat)], w) /\
  v_visit_last TDyn v [Next] w = (Ok (Some (word 3)), w).
Proof. do 2 eexists. split; [built|]. do 5 (split; [run|]). run. Qed.
Example C14_case : exists v w, repr TDyn v three w /\ nth_error three 1 = Some (half 2) /\ alike (half 2) (Value (v_meta (half 2)) (v_bytes (half 9))) /\
  Forall2 (fun j y => exists x, nth_error three j = Some x /\ alike x y) (somes (fst (dq_run [Next; NextBack] (seq 0 3))))
    [Value (v_meta (five 1)) (v_bytes (five 8)); Value (v_meta (word 3)) (v_bytes (word 9))].
Proof.
  do 2 eexists. split; [built|]. split; [run|]. split; [split; reflexivity|].
  repeat constructor; eexists; (split; [reflexivity|split; reflexivity]).
Qed.
End Cases.
