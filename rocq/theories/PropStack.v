(** C75: a vector of trait objects as a stack. Pushes and pops in any order return what a plain list gives, while the largest list on
    the way leaves room. The number of calls is not bounded: what counts is the peak. *)
From Coq Require Import ZArith List Bool Lia.
From Verif Require Import Types World ValidSize Emplace SizedVec AlignedVec UnalignedVec Api Spec Bytes Arith Wp Mem Repr
  Access Reserve Realign Orep Push Deal PushWith Shell Insert Take Pop Box Iter Calls DropVec Family Build PushAll Sources Obs PropPush PropReserve PropShrink PropEdit PropEmplace PropWhole Findings PropCost.
Import ListNotations.
Open Scope Z_scope.
Open Scope m_scope.

Inductive sop := SPush (x : value) | SPop.

(** ** A plain stack *)
(** The last element is the top. *)
Definition plain_step (c : sop) (l : list value) : option value * list value :=
  match c with
  | SPush x => (None, l ++ [x])
  | SPop => (nth_error l (length l - 1), firstn (length l - 1) l)
  end.
Fixpoint plain_run (cs : list sop) (l : list value) : list (option value) * list value :=
  match cs with
  | [] => ([], l)
  | c :: r => let '(x, l1) := plain_step c l in let '(xs, l2) := plain_run r l1 in (x :: xs, l2)
  end.
(** The lists on the way. *)
Fixpoint stages (cs : list sop) (l : list value) : list (list value) :=
  l :: match cs with [] => [] | c :: r => stages r (snd (plain_step c l)) end.
Definition pushed (cs : list sop) : list value := flat_map (fun c => match c with SPush x => [x] | SPop => [] end) cs.

Section WithConfig.
Context {C : Config}.

(** ** The calls: [push], and [box_new_with(v.pop_into()?)] with a look at what is in the box. *)
Definition stack_step (t : ty) (self : nat) (c : sop) : M (option value) :=
  match c with
  | SPush x => v_push t self x ;; ret None
  | SPop => b <- pop_box t self ;; match b with None => ret None | Some b => x <- read_value t b ;; ret (Some x) end
  end.
Fixpoint stack_run (t : ty) (self : nat) (cs : list sop) : M (list (option value)) :=
  match cs with
  | [] => ret []
  | c :: r => x <- stack_step t self c ;; xs <- stack_run t self r ;; ret (x :: xs)
  end.

(** The buffer at its largest: twice the peak, and the peak once more for every doubling of the alignment. *)
Definition peak (t : ty) (A al bc c P N : Z) (o : obj) : Prop :=
  al <= o_al t o <= A /\ o_bcap t o <= bc + (2 + Z.log2 (o_al t o) - Z.log2 al) * (P + 2 * A) /\ o_cap t o <= 4 + c + 2 * N.

Lemma log2_62 a : 0 < a <= isize_max -> Z.log2 a <= 62.
Proof. intros H. change 62 with (Z.log2 isize_max). apply Z.log2_le_mono. lia. Qed.

Lemma peak_push t self l o d w x A al bc c P N : kind_of t = KUnaligned -> alloc_total -> drops_quiet -> orep t self l o d w -> good t x ->
  can_align t o (vsize t x) (valign t x) -> valign t x <= A -> pow2 A -> pow2 al -> 0 <= bc -> 0 <= c -> peak t A al bc c P N o ->
  plen t A (l ++ [x]) <= P -> zlen l + 1 <= N ->
  bc + 65 * (P + 2 * A) <= isize_max -> 64 * (c + N + 4) <= isize_max ->
  run (v_push t self x) w (fun _ w' => exists o' d', orep t self (l ++ [x]) o' d' w' /\ peak t A al bc c P N o') (fun _ _ => False) (fun _ => False).
Proof.
  intros K At Dq R Gx Ca La PA Pal Bc0 C0 ([Al0 Al] & Bl & Cp) HP HN Fit Fic.
  assert (Is : info_size t = 16) by (destruct t; try discriminate K; reflexivity).
  assert (E1 : req_pal t o (valign t x) = Z.max (o_al t o) (valign t x)) by (unfold req_pal; now rewrite K).
  assert (E2 : req_al t o (valign t x) = Z.max (o_al t o) (valign t x)) by (unfold req_al; now rewrite K).
  assert (E3 : o_blen t o l = plen t (o_al t o) l) by (unfold o_blen; now rewrite (pal_al _ _ _ _ _ _ R K)).
  pose proof (orep_al _ _ _ _ _ _ R) as P1. pose proof (pow2_pos _ P1) as Pp1. pose proof (pow2_pos _ PA) as PpA. pose proof (pow2_pos _ Pal) as Ppal.
  assert (Gl : Forall (good t) l) by (eapply orep_good; eauto).
  pose proof (orep_bcap _ _ _ _ _ _ R) as Bn. pose proof (good_size t x Gx) as Vn. pose proof (zlen_nonneg l) as Zn.
  assert (PM : pow2 (Z.max (o_al t o) (valign t x))).
  { destruct (Z.max_spec (o_al t o) (valign t x)) as [[_ ->]|[_ ->]]; auto. apply (good_align t x Gx). }
  set (a := o_al t o) in *. set (M := Z.max a (valign t x)) in *. pose proof (pow2_pos _ PM) as PpM.
  assert (aM : a <= M) by lia. assert (MA : M <= A) by lia.
  pose proof (plen_snoc_ge t A l x PpA) as SnA.
  pose proof (plen_le t a M P1 PM aM l) as L1. pose proof (plen_le t M A PM PA MA l) as L2.
  pose proof (plen_nonneg t a Pp1 _ Gl) as Pn.
  assert (Q0 : 0 <= P + 2 * A) by lia.
  assert (Lg : 0 <= Z.log2 a - Z.log2 al <= 62).
  { pose proof (Z.log2_le_mono al a ltac:(lia)). pose proof (log2_62 a ltac:(lia)). pose proof (Z.log2_nonneg al). lia. }
  assert (Top : o_bcap t o <= bc + 64 * (P + 2 * A)).
  { pose proof (Z.mul_le_mono_nonneg_r (2 + Z.log2 a - Z.log2 al) 64 (P + 2 * A) Q0 ltac:(lia)). lia. }
  eapply run_conseq; [eapply (push_total t self l o d w x At Dq R Gx)|..]; cbv beta; auto.
  - intros E; congruence.
  - unfold count_overflow. rewrite K, Is. unfold want_cap. change (min_non_zero_cap 16) with 4. lia.
  - unfold bytes_overflow. rewrite K, E2, E3. lia.
  - intros [] w' (o' & d' & R' & Al' & Pd & _). exists o', d'. rewrite E2 in Al'. split; [exact R'|].
    destruct (Pd ltac:(congruence)) as (w2 & Ew & Nf & (B1 & B2 & B3 & B4 & B5 & _) & Cc). clear Pd.
    rewrite E1, E3 in B5. rewrite Is in Cc. unfold want_cap in Cc. change (min_non_zero_cap 16) with 4 in Cc.
    unfold peak. rewrite Al'. split; [lia|]. split; [|lia].
    pose proof (Z.log2_le_mono a M aM) as LgM.
    destruct (Z.ltb_spec (o_bcap t o) (plen t a l + vsize t x)) as [Lt|Ge].
    + assert (o_bcap t o' <= 2 * (P + 2 * A)) by lia.
      pose proof (Z.mul_le_mono_nonneg_r 2 (2 + Z.log2 M - Z.log2 al) (P + 2 * A) Q0 ltac:(lia)). lia.
    + destruct (Z.eq_dec M a) as [E|Ne].
      * destruct (B3 ltac:(lia) ltac:(rewrite E2; exact E)) as [Eb _]. rewrite Eb, E. exact Bl.
      * destruct (log2_lt a M P1 PM ltac:(lia)) as [_ D]. assert (o_bcap t o' <= o_bcap t o + (P + 2 * A)) by lia.
        pose proof (Z.mul_le_mono_nonneg_r (2 + Z.log2 a - Z.log2 al + 1) (2 + Z.log2 M - Z.log2 al) (P + 2 * A) Q0 ltac:(lia)) as Mu.
        rewrite Z.mul_add_distr_r in Mu. lia.
Qed.

Lemma peak_pop t self l x o d w A al bc c P N : alloc_total -> orep t self (l ++ [x]) o d w -> peak t A al bc c P N o ->
  run (stack_step t self SPop) w (fun r w' => r = Some x /\ exists o' d', orep t self l o' d' w' /\ peak t A al bc c P N o' /\ o_al t o' = o_al t o)
    (fun _ _ => False) (fun _ => False).
Proof.
  intros At R Pk. destruct (v_pop_into_some _ _ _ _ _ _ _ R) as (e & E & Em).
  assert (G : good t x) by (eapply orep_elem; eauto using in_or_app, in_eq).
  cbn [stack_step]. apply run_bind. unfold pop_box. eapply run_eq; [exact E|]. cbv beta iota. apply run_bind.
  assert (Ev : d_value (pop_deal t self l x o) = x) by now destruct x.
  eapply run_conseq; [eapply box_new_with_at; [exact Em|rewrite Ev; apply (elem_box_size t x G)|apply (elem_box_align t x G)]|..]; cbv beta; rewrite ?Ev.
  - intros b w' (B & F & _ & d' & R'). apply run_ret. cbv beta iota.
    destruct (elem_new_box t b x w w' B G (fs_ob _ _ _ _ _ F)) as [Rd _].
    eapply run_eq; [exact Rd|]. apply run_ret. split; [reflexivity|]. exists (o_with t o l), d'. split; [exact R'|].
    destruct (o_with_same t o l) as (E1 & E2 & E3 & _). split; [|exact E3]. unfold peak in *. now rewrite E1, E2, E3.
  - intros r w' (_ & [(_ & Af & _)|[[[]|(_ & Nn & _)] _]]); [|now destruct Nn]. now apply (no_alloc_failed _ _ At) in Af.
  - intros w' [H|H]; [now apply (no_alloc_failed _ _ At) in H|]. apply not_aborted in H; [destruct H|reflexivity|intros ? []].
Qed.
Lemma empty_pop t self w : repr t self [] w -> stack_step t self SPop w = (Ok None, w).
Proof. intros R. cbn [stack_step]. unfold pop_box. rewrite bind_assoc. erewrite bind_eq by (now apply v_pop_into_empty). reflexivity. Qed.

Lemma stages_head cs l : In l (stages cs l).
Proof. destruct cs; now left. Qed.
Lemma stack_total t self A al bc c P N cs : kind_of t = KUnaligned -> alloc_total -> drops_quiet -> pow2 A -> pow2 al -> 0 <= bc -> 0 <= c ->
  bc + 65 * (P + 2 * A) <= isize_max -> 64 * (c + N + 4) <= isize_max ->
  forall l o d w, orep t self l o d w -> takes t al (pushed cs) -> Forall (fun x => valign t x <= A) (pushed cs) -> peak t A al bc c P N o ->
  Forall (fun m => plen t A m <= P /\ zlen m <= N) (stages cs l) ->
  run (stack_run t self cs) w (fun r w' => r = fst (plain_run cs l) /\ exists o' d', orep t self (snd (plain_run cs l)) o' d' w') (fun _ _ => False) (fun _ => False).
Proof.
  intros K At Dq PA Pal Bc0 C0 Fit Fic. induction cs as [|k cs IH]; intros l o d w R T Xa Pk St; cbn [stack_run plain_run].
  { apply run_ret. eauto. }
  cbn [stages] in St. inversion St as [|? ? _ St']; subst. apply run_bind.
  assert (Step : run (stack_step t self k) w (fun r w' => r = fst (plain_step k l) /\ exists o' d', orep t self (snd (plain_step k l)) o' d' w' /\ peak t A al bc c P N o') (fun _ _ => False) (fun _ => False)).
  { destruct k as [x|]; cbn [plain_step fst snd] in *.
    - cbn [pushed flat_map app] in T, Xa. inversion T as [|? ? [Gx Tx] _]; subst. inversion Xa as [|? ? Xa1 _]; subst.
      destruct (proj1 (Forall_forall _ _) St' _ (stages_head cs (l ++ [x]))) as [S1 S2].
      assert (Zl : zlen (l ++ [x]) = zlen l + 1) by (rewrite zlen_app; reflexivity).
      cbn [stack_step]. apply run_bind. eapply run_conseq; [eapply (peak_push t self l o d w x A al bc c P N K At Dq R Gx)|..]; cbv beta; auto; try lia.
      + intros _. destruct Pk as ([Lo _] & _). destruct (Tx K); auto. right; left. lia.
      + intros [] w' H. apply run_ret. auto.
    - destruct l as [|x l _] using rev_ind.
      + eapply run_eq1; [apply empty_pop; eapply orep_repr; eauto|]. split; [reflexivity|]. exists o, d. auto.
      + rewrite app_length. cbn [length]. replace (length l + 1 - 1)%nat with (length l) by lia.
        rewrite nth_error_app2, Nat.sub_diag by lia. rewrite firstn_app, Nat.sub_diag, firstn_all, app_nil_r. cbn [nth_error].
        eapply run_conseq; [eapply (peak_pop t self l x o d w A al bc c P N At R Pk)|..]; cbv beta; auto.
        intros r w' (-> & o' & d' & R' & Pk' & _). split; eauto. }
  eapply run_conseq; [exact Step|..]; cbv beta; try contradiction.
  intros r w1 (-> & o1 & d1 & R1 & Pk1). destruct (plain_step k l) as [y l1] eqn:Ek. cbn [fst snd] in *.
  apply run_bind. eapply run_conseq; [eapply (IH l1 o1 d1 w1 R1)|..]; cbv beta; auto.
  - destruct k; cbn [pushed flat_map app] in T; [now inversion T|exact T].
  - destruct k; cbn [pushed flat_map app] in Xa; [now inversion Xa|exact Xa].
  - intros xs w2 (-> & H). apply run_ret. destruct (plain_run cs l1) as [ys l2]. cbn [fst snd] in *. auto.
Qed.

(** [P] and [N] bound the padded bytes and the elements of every list on the way, [A] the alignments. *)
Theorem C75_stack t self l cs w c bc al A P N : kind_of t = KUnaligned -> alloc_total -> drops_quiet -> repr t self l w -> takes t al (pushed cs) ->
  v_capacity t self w = (Ok c, w) -> v_byte_capacity t self w = (Ok bc, w) -> v_align t self w = (Ok al, w) ->
  pow2 A -> al <= A -> Forall (fun x => valign t x <= A) (pushed cs) ->
  Forall (fun m => padded_total t A m <= P /\ zlen m <= N) (stages cs l) ->
  bc + 65 * (P + 2 * A) <= isize_max -> 64 * (c + N + 4) <= isize_max ->
  exists w', stack_run t self cs w = (Ok (fst (plain_run cs l)), w') /\ shows t self (snd (plain_run cs l)) w'.
Proof.
  intros K At Dq R T Cc Bc Av PA La Xa St Fit Fic. apply repr_orep in R as (o & d & R).
  assert (bc = o_bcap t o) as -> by (pose proof (v_byte_capacity_eq _ _ _ _ _ _ R); congruence).
  assert (al = o_al t o) as -> by (pose proof (v_align_eq _ _ _ _ _ _ R); congruence).
  assert (c = o_cap t o) as -> by (pose proof (v_capacity_eq _ _ _ _ _ _ R); congruence).
  assert (St' : Forall (fun m => plen t A m <= P /\ zlen m <= N) (stages cs l)).
  { eapply Forall_impl; [|exact St]. cbv beta. intros m. now rewrite padded_total_plen. }
  destruct (proj1 (Forall_forall _ _) St' _ (stages_head cs l)) as [S1 S2].
  pose proof (orep_bcap _ _ _ _ _ _ R) as Bn. pose proof (orep_len _ _ _ _ _ _ R) as Ln. pose proof (zlen_nonneg l) as Zn.
  pose proof (orep_al _ _ _ _ _ _ R) as Pa. pose proof (pow2_pos _ PA) as PpA.
  pose proof (plen_nonneg t A PpA l ltac:(eapply orep_good; eauto)) as Pn.
  assert (Pk : peak t A (o_al t o) (o_bcap t o) (o_cap t o) P N o) by
    (unfold peak; replace (2 + Z.log2 (o_al t o) - Z.log2 (o_al t o)) with 2 by lia; split; [lia|]; split; lia).
  pose proof (stack_total t self A (o_al t o) (o_bcap t o) (o_cap t o) P N cs K At Dq PA Pa ltac:(lia) ltac:(lia) Fit Fic l o d w R T Xa Pk St') as H.
  unfold run in H. destruct (stack_run t self cs w) as [[r|r| |r] w']; try contradiction.
  destruct H as (-> & o' & d' & R'). exists w'. split; [reflexivity|]. eapply repr_shows, orep_repr; eauto.
Qed.
End WithConfig.

Print Assumptions C75_stack.

Section Cases.
Local Existing Instance cfg_release.
Ltac run := vm_compute; reflexivity.
Ltac each := repeat (apply Forall_cons || apply Forall_nil).
(** Two elements of different alignment and one without bytes; the stack runs empty, is asked once more and is filled again. *)
Definition calls : list sop := [SPush (dyn_val 1 2 2 [1; 2]); SPush (dyn_val 2 16 16 (repeat 3 16)); SPop; SPush (dyn_val 3 0 1 []); SPop; SPop; SPop; SPop; SPush (one 4)].
Example C75_stack_case : takes TDyn 8 (pushed calls) /\ exists v w c bc, v_of_values TDyn [one 9] empty_world = (Ok v, w) /\ repr TDyn v [one 9] w /\
  v_capacity TDyn v w = (Ok c, w) /\ v_byte_capacity TDyn v w = (Ok bc, w) /\ v_align TDyn v w = (Ok 8, w) /\
  Forall (fun x => valign TDyn x <= 16) (pushed calls) /\ Forall (fun m => padded_total TDyn 16 m <= 48 /\ zlen m <= 3) (stages calls [one 9]) /\
  bc + 65 * (48 + 2 * 16) <= isize_max /\ 64 * (c + 3 + 4) <= isize_max /\
  fst (stack_run TDyn v calls w) = Ok [None; None; Some (dyn_val 2 16 16 (repeat 3 16)); None; Some (dyn_val 3 0 1 []); Some (dyn_val 1 2 2 [1; 2]); Some (one 9); None; None] /\
  plain_run calls [one 9] = ([None; None; Some (dyn_val 2 16 16 (repeat 3 16)); None; Some (dyn_val 3 0 1 []); Some (dyn_val 1 2 2 [1; 2]); Some (one 9); None; None], [one 4]).
Proof.
  split; [apply takesb_ok; run|]. do 4 eexists. split; [run|].
  split. { eapply (built_repr _ _ empty_world); [exact I|intros K; discriminate K|apply takesb_ok; reflexivity|run]. }
  split; [run|]. split; [run|]. split; [run|]. split; [each; vm_compute; discriminate|].
  split; [each; split; vm_compute; discriminate|].
  split; [vm_compute; discriminate|]. split; [vm_compute; discriminate|]. split; [run|]. run.
Qed.
End Cases.
