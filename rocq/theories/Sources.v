(** The emplacables built from other things: iterators and arrays of emplacables, borrowed slices, vectors. *)
From Coq Require Import ZArith List Bool Lia.
From Verif Require Import Types World ValidSize Emplace SizedVec AlignedVec UnalignedVec Api Spec Bytes Arith Wp Mem Repr
  Access Reserve Realign Orep Push Deal PushWith Shell Insert Take Pop Box Iter Calls DropVec Family Build PushAll Wrote.
Import ListNotations.
Open Scope Z_scope.
Open Scope m_scope.

Section WithConfig.
Context {C : Config}.

Lemma within_wrote fv fb p bs w w1 w2 : (forall c, ptr_block p = Some c -> ~ In c fb) ->
  within fv fb w w1 -> wrote fv fb p bs w1 w2 -> wrote fv fb p bs w w2.
Proof.
  intros N W Wr. apply (wrote_app fv fb p [] bs w w1 w2); auto. now apply wrote_nil.
  destruct p; cbn [padd zlen length Z.of_nat]; auto. change (zlen (@nil byte)) with 0. now rewrite Z.add_0_r.
Qed.
Lemma within_space fv fb w w' p n : within fv fb w w' -> (forall c, ptr_block p = Some c -> ~ In c fb) ->
  space (w_heap w) p n -> space (w_heap w') p n.
Proof.
  intros (_ & _ & _ & _ & A & _) N [->|(b & off & k & -> & G & R)]; [left; auto|right]. exists b, off, k. rewrite A; auto.
Qed.
Lemma aborted_from S w w1 w' : (length (w_drops w) <= length (w_drops w1))%nat -> aborted S w1 w' -> aborted S w w'.
Proof. intros L [E D]. split; auto. eapply drop_panicked_from; eauto. Qed.
Lemma drop_panicked_upto w w1 w' : (length (w_drops w1) <= length (w_drops w'))%nat -> drop_panicked w w1 -> drop_panicked w w'.
Proof. intros L (n & A & B). exists n. split; auto. lia. Qed.

(** ** Delivering to a given place *)
Lemma place_wp e S arr k w :
  emits e S w -> is_null arr = false -> 0 <= k -> (forall c, ptr_block arr = Some c -> ~ In c (d_fb S)) ->
  space (w_heap w) arr (k + zlen (d_bytes S)) ->
  run (e (fun _ _ inner => p <- ptr_add arr k ;; inner p)) w
    (fun _ w' => wrote (d_fv S) (d_fb S) (padd arr k) (d_bytes S) w w' /\ w_drops w' = w_drops w ++ d_extra S /\ d_after S Delivered w')
    (fun r w' => (d_panic S r \/ r = PDrop /\ one_panicked (d_extra S) w w') /\
       (exists bs, zlen bs = zlen (d_bytes S) /\ wrote (d_fv S) (d_fb S) (padd arr k) bs w w') /\ exists ds, w_drops w' = w_drops w ++ ds)
    (fun w' => aborted S w w').
Proof.
  intros [_ H] Nn K Pb Sp. destruct (H w (agree_refl _ _ _)) as (inner & post & w1 & E & W1 & D1 & _ & Wr & _ & _).
  unfold run. rewrite E. apply run_sound. pose proof (zlen_nonneg (d_bytes S)).
  assert (Pb' : forall c, ptr_block (padd arr k) = Some c -> ~ In c (d_fb S)) by (now rewrite padd_block).
  assert (Sp1 : space (w_heap w1) arr (k + zlen (d_bytes S))) by (eapply within_space; eauto).
  assert (Sp2 : space (w_heap w1) (padd arr k) (zlen (d_bytes S))) by (eapply space_part; eauto; lia).
  apply space_write in Sp2 as (h' & HW).
  apply run_bind, run_bind. eapply run_eq1; [eapply space_add; [exact Sp1|lia]|].
  assert (N' : is_null (padd arr k) = false) by (destruct arr; auto).
  eapply run_conseq; [apply (Wr (padd arr k) w1 h'); auto using agree_refl|..]; cbv beta.
  - intros _ w3 (W3 & D3 & P3). destruct (P3 w3 (agree_refl _ _ _)) as (w5 & E5 & W5 & D5 & A5).
    eapply run_eq1; [exact E5|]. ands.
    + eapply within_wrote; eauto. exists h'. split; auto. eapply within_trans; eauto.
    + congruence.
    + apply A5, agree_refl.
  - intros r w3 (P & (bs & h'' & L & HW2 & W3) & ds & D3). ands.
    + destruct P as [P|[-> P]]; auto. right. split; auto. eapply one_panicked_from; [|exact P]. now rewrite D1.
    + exists bs. split; auto. eapply within_wrote; eauto. exists h''. auto.
    + exists ds. congruence.
  - intros w3 A. eapply aborted_from; [|exact A]. now rewrite D1.
Qed.

(** ** The loops of [from_iter] and of the array conversion *)
Definition seq_bytes (Ss : list deal) : list byte := concat (map d_bytes Ss).
Lemma seq_bytes_len esize Ss : Forall (fun S => zlen (d_bytes S) = esize) Ss -> zlen (seq_bytes Ss) = zlen Ss * esize.
Proof.
  unfold seq_bytes. induction 1 as [|S Ss E F IH]; [reflexivity|]. cbn [map concat]. rewrite zlen_app, IH, E.
  unfold zlen. cbn [length]. lia.
Qed.
Definition seq_drops (n : nat) (Ss : list deal) : list value := all_extra (firstn n Ss) ++ all_nulls (skipn n Ss).
Definition seq_panics (n : nat) (Ss : list deal) (r : panic_reason) : Prop := Exists (fun S => d_panic S r) (firstn n Ss).

Lemma family_length es Ss w : family es Ss w -> length es = length Ss.
Proof. intros [F _]. induction F; cbn; auto. Qed.

Lemma wrote_l S Ss p bs w w' : wrote (d_fv S) (d_fb S) p bs w w' -> wrote (d_fv S ++ fvs Ss) (d_fb S ++ fbs Ss) p bs w w'.
Proof. apply wrote_mono; apply incl_appl, incl_refl. Qed.
Lemma wrote_r S Ss p bs w w' : wrote (fvs Ss) (fbs Ss) p bs w w' -> wrote (d_fv S ++ fvs Ss) (d_fb S ++ fbs Ss) p bs w w'.
Proof. apply wrote_mono; apply incl_appr, incl_refl. Qed.

Theorem emplace_elems_wp esize arr len : forall es Ss index w,
  family es Ss w -> 0 <= esize -> 0 <= index -> is_null arr = false -> (forall c, ptr_block arr = Some c -> ~ In c (fbs Ss)) ->
  Forall (fun S => zlen (d_bytes S) = esize) (firstn len Ss) ->
  space (w_heap w) arr ((index + Z.of_nat (Nat.min len (length es))) * esize) ->
  run (emplace_elems esize arr index len es) w
    (fun n w' => n = Nat.min len (length es) /\ wrote (fvs Ss) (fbs Ss) (padd arr (index * esize)) (seq_bytes (firstn len Ss)) w w' /\
       w_drops w' = w_drops w ++ seq_drops len Ss /\ all_after Delivered (firstn len Ss) w' /\ all_after Dropped (skipn len Ss) w')
    (fun r w' => (seq_panics len Ss r \/ r = PDrop /\ one_panicked (seq_drops len Ss) w w') /\
       (exists bs, zlen bs <= Z.of_nat (Nat.min len (length es)) * esize /\ wrote (fvs Ss) (fbs Ss) (padd arr (index * esize)) bs w w') /\
       exists ds, w_drops w' = w_drops w ++ ds)
    (fun w' => (seq_drops len Ss <> [] \/ exists r, seq_panics len Ss r) /\ drop_panicked w w').
Proof.
  induction len as [|len IH]; intros es Ss index w Fm Es Ix Nn Pb Sz Sp.
  - cbn [emplace_elems firstn skipn Nat.min seq_bytes map concat]. unfold seq_drops. cbn [firstn skipn all_extra flat_map app].
    destruct es; apply run_bind.
    all: eapply run_conseq; [apply emplacables_drop_wp; eauto|..]; cbv beta.
    1,4: intros _ w1 (W1 & D1 & A1); apply run_ret; ands; auto using wrote_nil; constructor.
    1,3: intros r w1 (-> & P & W1 & ds & D1); ands; eauto; exists []; split; [reflexivity|now apply wrote_nil].
    all: intros w1 [N P]; split; auto.
  - destruct es as [|e es].
    { pose proof (family_length _ _ _ Fm) as L. destruct Ss; [|discriminate]. cbn [emplace_elems firstn skipn length Nat.min].
      apply run_ret. ands; auto. apply wrote_nil, within_refl. unfold seq_drops. cbn. now rewrite app_nil_r. constructor. constructor. }
    destruct Ss as [|S Ss]. { destruct Fm as (F & _). inversion F. }
    destruct (family_cons _ _ _ _ _ Fm) as (Em & Fm' & St & Ind). pose proof (indep_fvs _ _ Ind) as [Iv Ib].
    change (fvs (S :: Ss)) with (d_fv S ++ fvs Ss) in *. change (fbs (S :: Ss)) with (d_fb S ++ fbs Ss) in *.
    cbn [firstn] in Sz. inversion_clear Sz as [|? ? SzS SzR].
    set (m := Nat.min len (length es)) in *.
    assert (Lm : Nat.min (Datatypes.S len) (length (e :: es)) = Datatypes.S m) by reflexivity. rewrite Lm in Sp. rewrite Lm.
    assert (PbS : forall c, ptr_block arr = Some c -> ~ In c (d_fb S)) by (intros c E X; eapply Pb; eauto; apply in_or_app; auto).
    assert (PbR : forall c, ptr_block arr = Some c -> ~ In c (fbs Ss)) by (intros c E X; eapply Pb; eauto; apply in_or_app; auto).
    assert (PbA : forall c, ptr_block (padd arr (index * esize)) = Some c -> ~ In c (d_fb S ++ fbs Ss)) by (now rewrite padd_block).
    assert (ED : seq_drops (Datatypes.S len) (S :: Ss) = d_extra S ++ seq_drops len Ss).
    { unfold seq_drops. cbn [firstn skipn all_extra flat_map]. now rewrite <- app_assoc. }
    assert (EP : forall r, seq_panics (Datatypes.S len) (S :: Ss) r <-> d_panic S r \/ seq_panics len Ss r).
    { intros r. unfold seq_panics. cbn [firstn]. split; [intros X; inversion X; auto|intros [X|X]; auto]. }
    assert (EN : d_extra S <> [] -> seq_drops (Datatypes.S len) (S :: Ss) <> []) by (rewrite ED; destruct (d_extra S); [congruence|discriminate]).
    assert (ER : seq_drops len Ss <> [] -> seq_drops (Datatypes.S len) (S :: Ss) <> []) by (rewrite ED; destruct (d_extra S); [auto|discriminate]).
    cbn [emplace_elems]. apply run_bind, run_on_unwind.
    assert (Sp1 : space (w_heap w) arr (index * esize + zlen (d_bytes S))).
    { rewrite SzS. replace arr with (padd arr 0) by (destruct arr; cbn [padd]; auto; now rewrite Z.add_0_r).
      eapply space_part; [exact Sp|lia|nia|nia]. }
    eapply run_conseq; [eapply (place_wp e S arr (index * esize) w); eauto; nia|..]; cbv beta.
    + intros _ w1 (W1 & D1 & A1). apply run_bind.
      assert (Ag : agree (fvs Ss) (fbs Ss) w w1).
      { eapply wrote_keeps; [exact W1|..]. intros j X Y; eapply Iv; eauto. intros j X Y; eapply Ib; eauto. now rewrite padd_block. }
      eapply run_conseq; [eapply (IH es Ss (index + 1) w1); eauto; try lia|..]; cbv beta.
      * eapply family_agree; eauto.
      * fold m. eapply wrote_space; [exact W1|auto|].
        replace (index + 1 + Z.of_nat m) with (index + Z.of_nat (Datatypes.S m)) by lia. exact Sp.
      * fold m. intros n w2 (-> & W2 & D2 & A2 & A3). apply run_ret. ands; auto.
        -- unfold seq_bytes. cbn [map concat firstn]. eapply wrote_app; [exact PbA|apply wrote_l; exact W1|].
           rewrite padd_padd, SzS. replace (index * esize + esize) with ((index + 1) * esize) by lia. apply wrote_r. exact W2.
        -- rewrite D2, D1, ED. now rewrite <- app_assoc.
        -- cbn [firstn]. constructor; auto. eapply St; [|exact A1]. eapply wrote_keeps; [exact W2|..]; auto. now rewrite padd_block.
      * fold m. intros r w2 (P & (bs & Lb & W2) & ds & D2). ands.
        -- destruct P as [P|[-> [N P]]]; [left; apply EP; auto|right]. split; auto. split; [auto|].
           eapply drop_panicked_from; [|exact P]. rewrite D1, app_length. lia.
        -- exists (d_bytes S ++ bs). split. { rewrite zlen_app, SzS. nia. }
           eapply wrote_app; [exact PbA|apply wrote_l; exact W1|].
           rewrite padd_padd, SzS. replace (index * esize + esize) with ((index + 1) * esize) by lia. apply wrote_r. exact W2.
        -- eexists. rewrite D2, D1. now rewrite <- app_assoc.
      * intros w2 [[N|[r P]] Q]; split; try (eapply drop_panicked_from; [|exact Q]; rewrite D1, app_length; lia).
        -- left; auto.
        -- right. exists r. apply EP. auto.
    + intros r w1 (P & (bs & Lb & W1) & ds & D1).
      assert (Ag : agree (fvs Ss) (fbs Ss) w w1).
      { eapply wrote_keeps; [exact W1|..]. intros j X Y; eapply Iv; eauto. intros j X Y; eapply Ib; eauto. now rewrite padd_block. }
      eapply run_conseq; [apply (emplacables_drop_wp es Ss w1); eapply family_agree; eauto|..]; cbv beta.
      * intros _ w2 (W2 & D2 & A2). ands.
        -- destruct P as [P|[-> [N P]]]; [left; apply EP; auto|right]. split; auto. split; [auto|].
           eapply drop_panicked_upto; [|exact P]. rewrite D2, app_length. lia.
        -- exists bs. split. { rewrite Lb, SzS. nia. }
           eapply wrote_within; [apply wrote_l; exact W1|]. now apply within_r.
        -- eexists. rewrite D2, D1. now rewrite <- app_assoc.
      * intros r' w2 (-> & [N2 P2] & W2 & ds2 & D2). split.
        { destruct P as [P|[-> [N P]]]; [right; exists r; apply EP; auto|left; auto]. }
        eapply drop_panicked_from; [|exact P2]. rewrite D1, app_length. lia.
      * intros w2 [N2 P2]. split.
        { destruct P as [P|[-> [N P]]]; [right; exists r; apply EP; auto|left; auto]. }
        eapply drop_panicked_from; [|exact P2]. rewrite D1, app_length. lia.
    + intros w1 [[N|[r P]] Q]; split; auto. right. exists r. apply EP. auto.
Qed.

(** ** [from_iter] (emplacable/src/lib.rs:582-666) and arrays (1153-1238) *)
Definition seq_deal (m : meta) (esize ealign : Z) (claimed : nat) (es : list emplacable) (Ss : list deal) : deal :=
  Deal m (seq_bytes (firstn claimed Ss) ++ uninit ((Z.of_nat claimed - zlen (firstn claimed Ss)) * esize))
    (Layout (esize * Z.of_nat claimed) ealign) (fvs Ss) (fbs Ss) (all_nulls Ss) (seq_drops claimed Ss)
    (fun r => seq_panics claimed Ss r \/ (length Ss < claimed)%nat /\ r = PAssert)
    (fun u w => match u with
                | Delivered => all_after Delivered (firstn claimed Ss) w /\ all_after Dropped (skipn claimed Ss) w
                | Dropped => all_after Dropped Ss w
                | Forgotten | Refused => family es Ss w
                end).

Lemma seq_stable m esize ealign claimed es Ss : Forall stable Ss -> stable (seq_deal m esize ealign claimed es Ss).
Proof.
  intros F u w w' A. cbn [seq_deal d_fv d_fb d_after] in *.
  assert (Sp : forall n, fvs Ss = fvs (firstn n Ss) ++ fvs (skipn n Ss)) by (intros; rewrite <- fvs_app, firstn_skipn; auto).
  assert (Sq : forall n, fbs Ss = fbs (firstn n Ss) ++ fbs (skipn n Ss)) by (intros; rewrite <- fbs_app, firstn_skipn; auto).
  assert (Fs : Forall stable (firstn claimed Ss) /\ Forall stable (skipn claimed Ss)) by (apply Forall_app; now rewrite firstn_skipn).
  destruct Fs as [F1 F2]. destruct u.
  - intros [X Y]. split.
    + eapply all_after_agree; [auto| |exact X]. eapply agree_mono; [| |exact A]; rewrite ?(Sp claimed), ?(Sq claimed); apply incl_appl, incl_refl.
    + eapply all_after_agree; [auto| |exact Y]. eapply agree_mono; [| |exact A]; rewrite ?(Sp claimed), ?(Sq claimed); apply incl_appr, incl_refl.
  - intros X. eapply all_after_agree; eauto.
  - intros X. eapply family_agree; eauto.
  - intros X. eapply family_agree; eauto.
Qed.

(** What both conversions hand to the emplacer. *)
Definition seq_inner (esize : Z) (claimed : nat) (es : list emplacable) (p : ptr) : M unit :=
  if is_null p then emplacables_drop es
  else n <- emplace_elems esize p 0 claimed es ;; if Nat.eqb n claimed then ret tt else panic PAssert.

Lemma seq_bytes_total m esize ealign claimed es Ss : Forall (fun S => zlen (d_bytes S) = esize) (firstn claimed Ss) -> 0 <= esize ->
  zlen (d_bytes (seq_deal m esize ealign claimed es Ss)) = Z.of_nat claimed * esize.
Proof.
  intros F E. cbn [seq_deal d_bytes]. rewrite zlen_app, (seq_bytes_len _ _ F). unfold uninit, zlen. rewrite repeat_length, firstn_length.
  rewrite Z2Nat.id; nia.
Qed.

Lemma seq_emits_gen m esize ealign claimed es Ss e inner w :
  (forall E w, e E w = E (Layout (esize * Z.of_nat claimed) ealign) m inner w) ->
  (forall p w, inner p w = seq_inner esize claimed es p w) ->
  family es Ss w -> 0 <= esize -> Forall (fun S => zlen (d_bytes S) = esize) (firstn claimed Ss) ->
  emits e (seq_deal m esize ealign claimed es Ss) w.
Proof.
  intros He Hi Fm Es Sz. pose proof (proj2 (proj2 Fm)) as Sta.
  set (D := seq_deal m esize ealign claimed es Ss).
  assert (SD : stable D) by (apply seq_stable; auto).
  split. { intros b I. eapply family_old; eauto. }
  intros w1 Ag. exists inner, (ret tt), w1.
  assert (Fm1 : family es Ss w1) by (eapply family_agree; eauto).
  ands; auto using within_refl.
  - intros E. rewrite bind_ret. apply He.
  - intros w' A. cbn [D seq_deal d_after]. eapply family_agree; [exact Fm1|exact A].
  - intros p w2 h' A2 Nn Pb HW. unfold run. rewrite Hi. apply run_sound. unfold seq_inner. rewrite Nn. apply run_bind.
    assert (Fm2 : family es Ss w2) by (eapply family_agree; [exact Fm1|exact A2]).
    assert (LD : zlen (d_bytes D) = Z.of_nat claimed * esize) by (apply seq_bytes_total; auto).
    assert (Sp : space (w_heap w2) p (zlen (d_bytes D))) by (apply space_write; eauto).
    pose proof (family_length _ _ _ Fm) as Le.
    assert (P0 : padd p (0 * esize) = p) by (rewrite Z.mul_0_l; destruct p; cbn [padd]; auto; now rewrite Z.add_0_r).
    assert (Sp' : space (w_heap w2) p ((0 + Z.of_nat (Nat.min claimed (length es))) * esize)).
    { rewrite <- P0. rewrite Z.mul_0_l. eapply space_part; [exact Sp|lia|nia|]. rewrite LD. nia. }
    eapply run_conseq; [eapply (emplace_elems_wp esize p claimed es Ss 0 w2); eauto; lia|..]; cbv beta; rewrite ?P0.
    + intros n w3 (-> & W3 & D3 & A3 & A4). destruct (Nat.eqb_spec (Nat.min claimed (length es)) claimed) as [En|En].
      * apply run_ret. 
        assert (Eb : d_bytes D = seq_bytes (firstn claimed Ss)).
        { cbn [D seq_deal d_bytes]. unfold zlen. rewrite firstn_length. rewrite Nat.min_l by lia. rewrite Z.sub_diag. apply app_nil_r. }
        destruct W3 as (h3 & HW3 & W3). rewrite <- Eb, HW in HW3. injection HW3 as <-. ands.
        -- exact W3.
        -- exact D3.
        -- apply post_ok_ret. intros w' A'. apply (SD Delivered w3 w' A'). split; auto.
      * apply run_panic. 
        assert (Lt : (length Ss < claimed)%nat) by lia.
        ands; [left; right; auto| |].
        -- destruct (wrote_extend _ _ _ _ _ _ _ W3 Pb Sp) as (b & Lb & h3 & HW3 & W4).
           { rewrite LD. rewrite (seq_bytes_len _ _ Sz). unfold zlen. rewrite firstn_length. nia. }
           exists (seq_bytes (firstn claimed Ss) ++ b), h3. ands; auto.
        -- exists (seq_drops claimed Ss). exact D3.
    + intros r w3 (P & (bs & Lb & W3) & ds & D3). ands.
      * destruct P as [P|[-> P]]; [left; left; exact P|right; split; auto].
      * destruct (wrote_extend _ _ _ _ _ _ _ W3 Pb Sp) as (b & Lb' & h3 & HW3 & W4). { rewrite LD. nia. }
        exists (bs ++ b), h3. ands; auto.
      * exists ds. exact D3.
    + intros w3 [N P]. split; auto. destruct N as [N|[r N]]; [left; exact N|right]. exists r. left. exact N.
  - intros w2 A2. unfold run. rewrite Hi. apply run_sound. unfold seq_inner. cbn [is_null null Z.eqb].
    eapply run_conseq; [apply (emplacables_drop_wp es Ss w2); eapply family_agree; [exact Fm1|exact A2]|..]; cbv beta.
    + intros _ w3 (W3 & D3 & A3). ands; auto. apply post_ok_ret. intros w' A'. apply (SD Dropped w3 w' A'). exact A3.
    + intros r w3 (-> & P & W3 & X). ands; auto.
    + auto.
  - apply post_ok_ret. intros w' A'. cbn [D seq_deal d_after]. eapply family_agree; [exact Fm1|exact A'].
Qed.

(** The layout computed by [from_iter] is representable. *)
Definition iter_fits (esize ealign : Z) (claimed : nat) : Prop :=
  esize * Z.of_nat claimed <= isize_max - (ealign - 1).

Theorem from_iter_emits esize ealign claimed es Ss w : iter_fits esize ealign claimed -> 1 <= ealign ->
  family es Ss w -> 0 <= esize -> Forall (fun S => zlen (d_bytes S) = esize) (firstn claimed Ss) ->
  exists e, emplacable_from_iter esize ealign claimed es w = (Ok e, w) /\
    emits e (seq_deal (MLen (Z.of_nat claimed)) esize ealign claimed es Ss) w.
Proof.
  intros Ft Ea Fm Es Sz. unfold iter_fits in Ft. unfold emplacable_from_iter.
  assert (isize_max <= usize_max) by (vm_compute; discriminate).
  rewrite (proj2 (Z.leb_le (esize * Z.of_nat claimed) usize_max)) by lia. rewrite (proj2 (Z.leb_le _ _) Ft). cbn [andb].
  eexists. split; [reflexivity|]. eapply seq_emits_gen; eauto.
Qed.
(** A length that cannot be represented panics, and the items are dropped. *)
Theorem from_iter_overflow esize ealign claimed es Ss w : ~ iter_fits esize ealign claimed -> family es Ss w ->
  run (emplacable_from_iter esize ealign claimed es) w (fun _ _ => False)
    (fun r w' => r = PAssert /\ within (fvs Ss) (fbs Ss) w w' /\ w_drops w' = w_drops w ++ all_nulls Ss /\ all_after Dropped Ss w')
    (fun w' => one_panicked (all_nulls Ss) w w').
Proof.
  intros N Fm. unfold emplacable_from_iter, iter_fits in *. rewrite (proj2 (Z.leb_gt (esize * Z.of_nat claimed) (isize_max - (ealign - 1)))) by lia.
  rewrite andb_false_r. apply run_on_unwind, run_panic.
  eapply run_conseq; [apply (emplacables_drop_wp es Ss w); auto|..]; cbv beta; auto.
  intros r w' (_ & P & _). exact P.
Qed.

Lemma emplace_elems_all esize arr es : forall index w, 
  (n <- emplace_elems esize arr index (length es) es ;; if Nat.eqb n (length es) then ret tt else panic PAssert) w =
  (emplace_elems esize arr index (length es) es ;; ret tt) w.
Proof.
  intros index w. unfold bind. destruct (emplace_elems esize arr index (length es) es w) as [[n| | |] w'] eqn:E; auto.
  assert (n = length es) as ->; [|now rewrite Nat.eqb_refl].
  revert index w n w' E. induction es as [|e es IH]; intros index w n w' E; cbn [length emplace_elems] in E.
  - unfold bind in E. cbn [emplacables_drop] in E. unfold ret in E. injection E as <- <-. reflexivity.
  - unfold bind at 1 in E. destruct (on_unwind _ _ w) as [[[]| | |] w1]; try discriminate. unfold bind in E.
    destruct (emplace_elems esize arr (index + 1) (length es) es w1) as [[k| | |] w2] eqn:E2; try discriminate.
    apply IH in E2. unfold ret in E. injection E as <- <-. cbn [length]. congruence.
Qed.
Theorem array_emits esize ealign es Ss w : family es Ss w -> 0 <= esize -> Forall (fun S => zlen (d_bytes S) = esize) Ss ->
  emits (emplacable_of_array esize ealign es) (seq_deal MUnit esize ealign (length es) es Ss) w.
Proof.
  intros Fm Es Sz. unfold emplacable_of_array.
  eapply seq_emits_gen with (inner := fun p => if is_null p then emplacables_drop es else emplace_elems esize p 0 (length es) es ;; ret tt); eauto.
  - intros E w0. unfold zlen. rewrite (Z.mul_comm (Z.of_nat (length es))). reflexivity.
  - intros p w0. unfold seq_inner. destruct (is_null p); auto. symmetry. apply emplace_elems_all.
  - now apply Forall_firstn'.
Qed.
End WithConfig.
