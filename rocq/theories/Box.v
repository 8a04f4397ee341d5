(** Consumers of emplacables: [box_new_with], [get], [with_emplacable_for], and boxes themselves. *)
From Coq Require Import ZArith List Bool Lia.
From Verif Require Import Types World ValidSize Emplace SizedVec AlignedVec UnalignedVec Api Spec Bytes Arith Wp Mem Repr
  Access Reserve Realign Orep Push Deal PushWith Shell Insert Take.
Import ListNotations.
Open Scope Z_scope.
Open Scope m_scope.

(** Only the footprint changes, and at most the block [ob] is new: nothing is leaked. *)
Record fresh (fv fb : list nat) (ob : option nat) (w w' : world) : Prop := Fresh {
  fs_vecs : forall j, ~ In j fv -> nth_error (w_vecs w') j = nth_error (w_vecs w) j;
  fs_nvecs : length (w_vecs w') = length (w_vecs w);
  fs_cells : forall c, (c < length (w_cells w))%nat -> nth_error (w_cells w') c = nth_error (w_cells w) c;
  fs_len : (length (w_heap w) <= length (w_heap w'))%nat;
  fs_other : forall b, (b < length (w_heap w))%nat -> ~ In b fb -> heap_get (w_heap w') b = heap_get (w_heap w) b;
  fs_new : forall b, (length (w_heap w) <= b)%nat -> heap_get (w_heap w') b <> None -> ob = Some b;
  fs_ob : forall b, ob = Some b -> (length (w_heap w) <= b)%nat;
  fs_nalloc : (w_nalloc w <= w_nalloc w')%nat }.

Lemma opt_dec (a b : option nat) : {a = b} + {a <> b}.
Proof. decide equality. apply Nat.eq_dec. Qed.

Section WithConfig.
Context {C : Config}.

Lemma orep_fresh t self l o d fv fb ob w w' : fresh fv fb ob w w' -> orep t self l o d w -> apart self fv fb w ->
  orep t self l o d w'.
Proof.
  intros F R (A & B & D). eapply orep_agree; eauto. apply (fs_vecs _ _ _ _ _ F); auto.
  intros b E. rewrite <- (orep_owned _ _ _ _ _ _ R) in E. apply (fs_other _ _ _ _ _ F); auto.
  eapply repr_owned_lt. eapply orep_repr; eauto. auto.
Qed.

(** The state after asking for memory for a box. *)
Record room_for (p : ptr) (al n : Z) (w w' : world) : Prop := RoomFor {
  rf_buf : buf (w_heap w') p al n (uninit n);
  rf_vecs : w_vecs w' = w_vecs w;
  rf_cells : w_cells w' = w_cells w;
  rf_drops : w_drops w' = w_drops w;
  rf_len : (length (w_heap w) <= length (w_heap w'))%nat;
  rf_other : forall b, (b < length (w_heap w))%nat -> heap_get (w_heap w') b = heap_get (w_heap w) b;
  rf_new : forall b, (length (w_heap w) <= b)%nat -> heap_get (w_heap w') b <> None -> ptr_block p = Some b;
  rf_fresh : forall b, ptr_block p = Some b -> (length (w_heap w) <= b)%nat;
  rf_nalloc : (w_nalloc w <= w_nalloc w')%nat }.

Lemma box_alloc_wp l w (Q : option ptr -> world -> Prop) Qp Qa : 0 <= l_size l -> 0 < l_align l ->
  (forall p w', room_for p (l_align l) (l_size l) w w' -> Q (Some p) w') ->
  (cfg_alloc (w_nalloc w) = None -> Q None (bump_alloc w)) ->
  run (if l_size l =? 0 then ret (Some (Raw (l_align l))) else galloc l) w Q Qp Qa.
Proof.
  intros S A HS HN. destruct (Z.eqb_spec (l_size l) 0) as [E|E].
  - apply run_ret. apply HS. constructor; auto; cbn [ptr_block]; try discriminate.
    + rewrite E. unfold buf. cbn [Z.eqb]. exists (l_align l). ands; auto. now apply Z.mod_same; lia.
    + intros b L Lv. now rewrite heap_get_ge in Lv.
  - unfold run, galloc. destruct (Z.eqb_spec (l_size l) 0); [contradiction|].
    unfold raw_alloc. destruct (cfg_alloc (w_nalloc w)) as [k|] eqn:K; [|auto].
    apply HS. constructor; proj; auto; cbn [ptr_block].
    + unfold buf. destruct (Z.eqb_spec (l_size l) 0); [contradiction|].
      exists (length (w_heap w)), (l_align l * Z.max 1 k). rewrite heap_get_app_new. destruct l as [s a]; cbn [l_size l_align] in *.
      ands; auto; try nia. rewrite Z.mul_comm. apply Z.mod_mul; lia. apply zlen_uninit; lia.
    + rewrite app_length. lia.
    + intros. now apply heap_get_app_old.
    + intros b L Lv. destruct (Nat.eq_dec (length (w_heap w)) b); [congruence|]. rewrite heap_get_app_ge in Lv by lia. congruence.
    + intros b X. injection X as <-. lia.
Qed.

(** Freed again. *)
Lemma room_free p al n d w : buf (w_heap w) p al n d -> 0 <= n ->
  (if n =? 0 then ret tt else gdealloc p (Layout n al)) w = (Ok tt, set_heap (hfree (w_heap w) p) w).
Proof.
  intros B N. destruct (Z.eqb_spec n 0) as [E|E]; [|eapply dealloc_eq; eauto].
  unfold buf in B. subst n. cbn [Z.eqb] in B. destruct B as (a & -> & _). cbn [hfree]. now rewrite set_heap_same.
Qed.

(** [box_new_with] (emplacable/src/lib.rs:1390-1464). *)
Definition box_panic (S : deal) (w : world) (r : panic_reason) (w' : world) : Prop :=
  fresh (d_fv S) (d_fb S) None w w' /\
  ((r = POom /\ alloc_failed w w' /\ w_drops w' = w_drops w /\ d_after S Refused w') \/
   (d_panic S r \/ r = PDrop /\ one_panicked (d_extra S) w w') /\ exists ds, w_drops w' = w_drops w ++ ds).

(** A box whose allocation has the layout [lay]. *)
Definition boxed_as (lay : layout) (b : wide) (x : value) (h : list (option block)) : Prop :=
  wm b = v_meta x /\ buf h (wp b) (l_align lay) (l_size lay) (v_bytes x).
Lemma boxed_as_layout t b x h : boxed_as (layout_of t x) b x h <-> boxed t b x h.
Proof. reflexivity. Qed.

Theorem box_new_with_at e S w :
  emits e S w -> zlen (v_bytes (d_value S)) = l_size (d_lay S) -> 0 < l_align (d_lay S) ->
  run (box_new_with e) w
    (fun b w' => boxed_as (d_lay S) b (d_value S) (w_heap w') /\ fresh (d_fv S) (d_fb S) (ptr_block (wp b)) w w' /\
                 w_drops w' = w_drops w ++ d_extra S /\ d_after S Delivered w')
    (box_panic S w)
    (fun w' => alloc_failed w w' \/ aborted S w w').
Proof.
  intros [FB EM] Bx Px. set (x := d_value S) in *. assert (Sx : 0 <= l_size (d_lay S)) by (rewrite <- Bx; apply zlen_nonneg).
  unfold box_new_with. eapply run_eq; [reflexivity|]. set (cell := length (w_cells w)).
  set (wc := set_cells (w_cells w ++ [None]) w).
  destruct (EM wc ltac:(unfold agree; auto)) as (inner & post & w1 & Ee & Wi & D1 & RF & Wr & _ & _).
  apply run_bind. unfold run at 1. rewrite Ee. apply run_sound. apply run_bind. unfold box_new_with_emplacer. apply run_bind.
  destruct Wi as (W1 & W2 & W3 & W4 & W5 & W6).
  assert (N1 : forall b, (length (w_heap w) <= b)%nat -> heap_get (w_heap w1) b = None).
  { intros b L. rewrite W5. apply heap_get_ge; auto. intro I. specialize (FB b I). cbn in *. lia. }
  apply box_alloc_wp; try lia.
  2: { intros K. unfold handle_alloc_error. destruct cfg_oom_panics.
       - apply run_panic. split.
         + constructor; proj; auto; try (cbn in *; lia).
           * intros c Lc. rewrite W3. cbn. now rewrite nth_error_app1.
           * intros b L Lv. now rewrite N1 in Lv.
           * discriminate.
         + left. ands; auto. exists (w_nalloc w1). proj. unfold wc in W6; cbn in W6. ands; auto; lia.
           apply RF. unfold agree; proj; auto.
       - unfold run. cbn. left. exists (w_nalloc w1). proj. unfold wc in W6; cbn in W6. ands; auto; lia. }
  intros p w2 RM. destruct RM as [RB RV RC RD RL RO RN RFr RNa].
  assert (Pn : forall b, ptr_block p = Some b -> ~ In b (d_fb S)).
  { intros b E I. specialize (FB b I). specialize (RFr b E). cbn in *; lia. }
  assert (Nn : is_null p = false). { rewrite <- (padd_0 p). eapply buf_nonnull; eauto. }
  assert (Ag : agree (d_fv S) (d_fb S) w1 w2).
  { unfold agree. ands; auto. intros; now rewrite RV. intros b I. apply RO. specialize (FB b I). cbn in *; lia. }
  assert (HWf : forall bs, zlen bs = l_size (d_lay S) -> heap_write (w_heap w2) p bs = Some (hput (w_heap w2) p bs)).
  { intros bs L. rewrite <- (padd_0 p) at 1. rewrite (heap_write_buf _ _ _ _ _ 0 bs RB) by lia. do 2 f_equal.
    unfold splice. cbn [Z.to_nat firstn app Nat.add]. rewrite skipn_all2, app_nil_r; auto.
    rewrite <- Bx in L. pose proof (zlen_uninit (l_size (d_lay S)) ltac:(lia)). unfold zlen in *. lia. }
  pose proof (Wr p w2 _ Ag Nn Pn (HWf _ Bx)) as Run.
  apply run_bind. apply run_on_unwind. eapply run_conseq; [exact Run|..]; cbv beta.
  - intros _ w3 (Wi3 & D3 & P3). eapply run_eq1; [reflexivity|].
    set (w4 := set_cells _ _).
    destruct (P3 w4 ltac:(unfold agree; auto)) as (w5 & E5 & W5' & D5 & A5).
    eapply run_eq1; [exact E5|].
    destruct Wi3 as (X1 & X2 & X3 & X4 & X5 & X6). destruct W5' as (Y1 & Y2 & Y3 & Y4 & Y5 & Y6).
    assert (C3 : w_cells w3 = w_cells w ++ [None]). { rewrite X3. cbn. rewrite RC, W3. reflexivity. }
    unfold run, read_cell. rewrite Y3. unfold w4 at 1. cbn [set_cells w_cells]. rewrite C3.
    rewrite upd_same by (rewrite app_length; cbn; lia).
    cbn [set_heap w_heap] in *.
    assert (Lf : fresh (d_fv S) (d_fb S) (ptr_block p) w w5).
    { constructor.
      - intros j I. rewrite Y1 by auto. cbn. rewrite X1 by auto. cbn. rewrite RV. rewrite W1 by auto. reflexivity.
      - rewrite Y2. cbn. rewrite X2. cbn. rewrite RV, W2. reflexivity.
      - intros c L. rewrite Y3. cbn. rewrite C3. rewrite upd_other by (unfold cell; lia). now rewrite nth_error_app1.
      - cbn in *. rewrite hput_length in X4. lia.
      - intros b L I. rewrite Y5 by auto. cbn. rewrite X5 by auto. rewrite hput_other.
        rewrite RO by (cbn in *; lia). rewrite W5 by auto. reflexivity.
        intro E. specialize (RFr b E). cbn in *; lia.
      - intros b L Lv. assert (I : ~ In b (d_fb S)) by (intro I; specialize (FB b I); lia).
        rewrite Y5 in Lv by auto. cbn in Lv. rewrite X5 in Lv by auto. rewrite hput_live in Lv.
        destruct (Nat.ltb_spec b (length (w_heap w1))). rewrite RO in Lv by auto. now rewrite N1 in Lv. apply RN; auto.
      - intros b E. specialize (RFr b E). cbn in *; lia.
      - cbn in *. lia. }
    ands; auto.
    + split; auto. cbn [wp]. eapply buf_agree; [eapply buf_hput; [exact RB|]|].
      * rewrite zlen_uninit by lia. exact Bx.
      * intros b E. rewrite Y5 by auto. cbn. rewrite X5 by auto. reflexivity.
    + rewrite D5. cbn. rewrite D3, RD, D1. reflexivity.
    + apply A5, agree_refl.
  - intros r w3 (Pr & (bs & h'' & Lb & HW' & Wi3) & ds & D3).
    assert (Lbs : zlen bs = l_size (d_lay S)) by (rewrite <- Bx; exact Lb).
    rewrite (HWf bs Lbs) in HW'. injection HW' as <-.
    destruct Wi3 as (X1 & X2 & X3 & X4 & X5 & X6). cbn [set_heap w_heap] in *.
    assert (B3 : buf (w_heap w3) p (l_align (d_lay S)) (l_size (d_lay S)) bs).
    { eapply buf_agree; [eapply buf_hput; [exact RB|]|].
      - rewrite zlen_uninit by lia. exact Lbs.
      - intros b E. rewrite X5 by auto. reflexivity. }
    destruct (d_lay S) as [sz al]; cbn [l_size l_align] in *.
    eapply run_eq1. { eapply room_free; eauto. }
    split.
    + constructor; cbn [set_heap w_heap w_vecs w_cells w_nalloc]; auto.
      * intros j I. rewrite X1 by auto. cbn. rewrite RV. now rewrite W1 by auto.
      * rewrite X2. cbn. rewrite RV, W2. reflexivity.
      * intros c L. rewrite X3. cbn. rewrite RC, W3. cbn. now rewrite nth_error_app1.
      * rewrite hfree_length. rewrite hput_length in X4. cbn in *. lia.
      * intros b L I. assert (ptr_block p <> Some b) by (intro E; specialize (RFr b E); cbn in *; lia).
        rewrite hfree_other by auto. rewrite X5 by auto. rewrite hput_other by auto.
        rewrite RO by (cbn in *; lia). now rewrite W5 by auto.
      * intros b L Lv. exfalso. assert (I : ~ In b (d_fb S)) by (intro I; specialize (FB b I); lia).
        destruct (opt_dec (ptr_block p) (Some b)) as [E|E]. now rewrite hfree_none in Lv.
        rewrite hfree_other in Lv by auto. rewrite X5 in Lv by auto. rewrite hput_live in Lv.
        destruct (Nat.ltb_spec b (length (w_heap w1))). rewrite RO in Lv by auto. now rewrite N1 in Lv. apply E, RN; auto.
      * discriminate.
      * cbn in *. lia.
    + right. split.
      * destruct Pr as [?|(-> & X & n & Hn & Pn')]; auto. right. split; [auto|]. split; [auto|]. exists n. split; auto.
        cbn. rewrite RD, D1 in Hn. cbn in Hn. auto.
      * exists ds. cbn. rewrite D3, RD, D1. reflexivity.
  - intros w3 (X & n & Hn & Pn'). right. split; auto. exists n. split; auto. rewrite RD, D1 in Hn. cbn in Hn. auto.
Qed.

Theorem box_new_with_wp t e S w :
  emits e S w -> wf_value t (d_value S) -> d_lay S = layout_of t (d_value S) ->
  run (box_new_with e) w
    (fun b w' => boxed t b (d_value S) (w_heap w') /\ fresh (d_fv S) (d_fb S) (ptr_block (wp b)) w w' /\
                 w_drops w' = w_drops w ++ d_extra S /\ d_after S Delivered w')
    (box_panic S w)
    (fun w' => alloc_failed w w' \/ aborted S w w').
Proof.
  intros E G L. eapply run_conseq; [apply (box_new_with_at e S w E); rewrite L; cbn [layout_of l_size l_align]|..]; cbv beta; auto.
  - now apply wf_bytes.
  - apply pow2_pos. now apply wf_align.
  - rewrite L. auto.
Qed.

(** [box_new] (emplacable/src/lib.rs:1352-1381). *)
Theorem box_new_wp t x w :
  wf_value t x ->
  run (box_new t x) w
    (fun b w' => boxed t b x (w_heap w') /\ fresh [] [] (ptr_block (wp b)) w w' /\ w_drops w' = w_drops w)
    (fun r w' => r = POom /\ alloc_failed w w' /\ fresh [] [] None w w' /\ w_drops w' = w_drops w ++ [x])
    (fun w' => alloc_failed w w').
Proof.
  intros G. pose proof (wf_size t x G) as Sx. pose proof (wf_bytes t x G) as Bx.
  pose proof (pow2_pos _ (wf_align t x G)) as Px.
  unfold box_new, owned. apply run_on_unwind. cbn [layout_of l_size l_align].
  destruct (Z.ltb_spec 0 (vsize t x)) as [L|L].
  - apply run_bind. pose proof (box_alloc_wp (layout_of t x) w) as BA. cbn [layout_of l_size l_align] in BA.
    destruct (Z.eqb_spec (vsize t x) 0); [lia|]. apply BA; try lia; clear BA.
    + intros p w1 [RB RV RC RD RL RO RN RFr RNa].
      assert (HW : heap_write (w_heap w1) p (v_bytes x) = Some (hput (w_heap w1) p (v_bytes x))).
      { rewrite <- (padd_0 p) at 1. rewrite (heap_write_buf _ _ _ _ _ 0 (v_bytes x) RB) by lia. do 2 f_equal.
        unfold splice. cbn [Z.to_nat firstn app Nat.add]. rewrite skipn_all2, app_nil_r; auto.
        pose proof (zlen_uninit (vsize t x) ltac:(lia)). unfold zlen in *. lia. }
      eapply run_eq. { unfold mem_write. now rewrite HW. } apply run_ret. cbn [wp]. ands; auto.
      * split; auto. cbn [wp set_heap w_heap]. eapply buf_hput; eauto. now rewrite zlen_uninit by lia.
      * constructor; cbn [set_heap w_heap w_vecs w_cells w_nalloc]; rewrite ?RV, ?RC, ?hput_length; auto.
        -- intros b Lb _. rewrite hput_other; auto. intro E. specialize (RFr b E). lia.
        -- intros b Lb. rewrite hput_live. auto.
    + intros K. unfold handle_alloc_error.
      assert (AF : forall d, alloc_failed w (set_drops d (bump_alloc w))).
      { intros d. exists (w_nalloc w). proj. ands; auto; lia. }
      destruct cfg_oom_panics; [|unfold run; cbn; exact (AF (w_drops w))].
      apply run_panic. apply run_drop_value; intros D; [|apply AF]. ands; auto.
      constructor; proj; auto. intros b Lb Lv. now rewrite heap_get_ge in Lv. discriminate.
  - apply run_ret. assert (E0 : vsize t x = 0) by lia. ands; auto.
    + split; auto. cbn [wp]. rewrite E0. unfold buf. cbn [Z.eqb]. exists (valign t x). ands; auto.
      * apply Z.mod_same; lia. * apply length_zero_iff_nil. unfold zlen in Bx. lia.
    + constructor; auto; try discriminate. intros b Lb Lv. now rewrite heap_get_ge in Lv.
Qed.

(** Dropping a box runs the destructor once and frees the allocation, even when the destructor panics. *)
Theorem box_drop_wp t b x w :
  boxed t b x (w_heap w) -> wf_value t x ->
  run (box_drop t b) w
    (fun _ w' => within [] (blocks (wp b)) w w' /\ freed b (w_heap w') /\ w_drops w' = w_drops w ++ [x])
    (fun r w' => r = PDrop /\ drop_panicked w w' /\ within [] (blocks (wp b)) w w' /\ freed b (w_heap w') /\
                 w_drops w' = w_drops w ++ [x])
    (fun _ => False).
Proof.
  intros B G. unfold box_drop. apply run_bind, run_on_unwind.
  unfold run at 1. rewrite (drop_in_place_eq t b x) by auto using boxed_behind. apply run_sound.
  unfold box_dealloc. rewrite (proj1 B). change (Layout _ _) with (layout_of t x).
  set (w1 := set_drops (w_drops w ++ [x]) w).
  destruct (box_dealloc_eq t b x w1 B) as (E & W & F).
  apply run_drop_value; intros D; (eapply run_eq1; [exact E|]); ands; auto.
  exists (length (w_drops w)). unfold w1. cbn. rewrite app_length. cbn. ands; auto; lia.
Qed.

(** ** Stack slots *)
Lemma slot_write h b l base d bs : heap_get h b = Some (Block l base d) -> zlen bs = zlen d ->
  heap_write h (Blk b 0) bs = Some (hput h (Blk b 0) bs) /\
  heap_get (hput h (Blk b 0) bs) b = Some (Block l base bs).
Proof.
  intros E L. assert (Lb : (b < length h)%nat) by (eapply heap_get_lt; eauto).
  unfold heap_write, hput. rewrite E. cbn [b_data b_layout b_base]. split.
  - destruct (Z.eqb_spec (zlen bs) 0) as [Z0|Z0].
    + assert (bs = d). { destruct bs, d; auto; unfold zlen in *; cbn in *; lia. } subst d.
      f_equal. symmetry. apply upd_nth. unfold heap_get in E.
      destruct (nth_error h b) as [[k|]|] eqn:X; try discriminate. now injection E as ->.
    + destruct (Z.leb_spec 0 0); [|lia]. destruct (Z.leb_spec (0 + zlen bs) (zlen d)); [|lia]. cbn [andb].
      do 4 f_equal. unfold splice. cbn [Z.to_nat firstn app Nat.add]. rewrite skipn_all2, app_nil_r; auto. unfold zlen in *; lia.
  - apply heap_get_upd_same; auto.
Qed.
Lemma slot_read h b l base d : heap_get h b = Some (Block l base d) -> heap_read h (Blk b 0) (zlen d) = Some d.
Proof.
  intros E. unfold heap_read. rewrite E. cbn [b_data]. destruct (Z.eqb_spec (zlen d) 0) as [Z0|Z0].
  - destruct d; auto. unfold zlen in *; cbn in *; lia.
  - pose proof (zlen_nonneg d). destruct (Z.leb_spec 0 0), (Z.leb_spec 0 (zlen d)), (Z.leb_spec (0 + zlen d) (zlen d)); try lia.
    cbn [andb]. f_equal. apply sub_all. auto.
Qed.

(** [get] (emplacable/src/lib.rs:479-498). *)
Definition passed (fv fb : list nat) (w w' : world) : Prop := fresh fv fb None w w' /\ w_cells w' = w_cells w.
Theorem emplacable_get_at t e S w :
  emits e S w -> wf_value t (d_value S) -> d_meta S = MUnit ->
  run (emplacable_get t e) w
    (fun x w' => x = d_value S /\ passed (d_fv S) (d_fb S) w w' /\ w_drops w' = w_drops w ++ d_extra S /\
                 d_after S Delivered w')
    (fun r w' => (d_panic S r \/ r = PDrop /\ one_panicked (d_extra S) w w') /\ passed (d_fv S) (d_fb S) w w' /\
                 exists ds, w_drops w' = w_drops w ++ ds)
    (fun w' => aborted S w w').
Proof.
  intros [FB EM] G EM0. set (x := d_value S) in *. pose proof (wf_size t x G) as Sx. pose proof (wf_bytes t x G) as Bx.
  unfold emplacable_get. rewrite <- EM0. change (size_of_val t (d_meta S)) with (vsize t x).
  change (align_of_val t (d_meta S)) with (valign t x). cbn [l_size].
  eapply run_eq; [reflexivity|]. set (b := length (w_heap w)). set (ws := set_heap _ w).
  destruct (EM ws) as (inner & post & w1 & Ee & Wi & D1 & RF & Wr & _ & _).
  { unfold agree, ws. proj. ands; auto. intros k I. apply heap_get_app_old; auto. rewrite app_length; lia. }
  assert (Nb : ~ In b (d_fb S)). { intro I. specialize (FB b I). unfold b in FB. lia. }
  assert (Gs : heap_get (w_heap w1) b = Some (Block (Layout (vsize t x) (valign t x)) (valign t x) (uninit (vsize t x)))).
  { destruct Wi as (_ & _ & _ & _ & W5 & _). rewrite W5 by auto. apply heap_get_app_new. }
  apply run_bind. apply run_on_unwind. unfold run at 1. rewrite Ee. apply run_sound. apply run_bind.
  assert (HWf : forall bs, zlen bs = vsize t x -> heap_write (w_heap w1) (Blk b 0) bs = Some (hput (w_heap w1) (Blk b 0) bs) /\
            heap_get (hput (w_heap w1) (Blk b 0) bs) b = Some (Block (Layout (vsize t x) (valign t x)) (valign t x) bs)).
  { intros bs Lb. eapply slot_write; eauto. rewrite zlen_uninit; lia. }
  (* freeing the slot at the end *)
  assert (FR : forall bs w3, zlen bs = vsize t x ->
             within (d_fv S) (d_fb S) (set_heap (hput (w_heap w1) (Blk b 0) bs) w1) w3 ->
             passed (d_fv S) (d_fb S) w (set_heap (upd (w_heap w3) b None) w3)).
  { intros bs w3 Lb X. pose proof (within_trans _ _ _ _ _ (within_refl _ _ _) X) as (X1 & X2 & X3 & X4 & X5 & X6).
    cbn [set_heap w_heap w_vecs w_cells w_nalloc] in *. destruct Wi as (W1 & W2 & W3 & W4 & W5 & W6). unfold ws in *.
    cbn [set_heap w_heap w_vecs w_cells w_nalloc] in *. rewrite hput_length in X4. rewrite app_length in W4. cbn [length] in W4.
    assert (Lb3 : (b < length (w_heap w3))%nat) by (unfold b; lia).
    split; [|cbn [set_heap w_cells]; congruence].
    constructor; cbn [set_heap w_heap w_vecs w_cells w_nalloc]; rewrite ?upd_length; try discriminate; try lia.
    - intros j I. rewrite X1 by auto. auto.
    - intros c Lc. f_equal. congruence.
    - intros k Lk I. rewrite heap_get_upd_other by (unfold b; lia). rewrite X5 by auto.
      rewrite hput_other by (cbn; unfold b; injection; lia). rewrite W5 by auto. apply heap_get_app_old; auto.
    - intros k Lk Lv. exfalso. destruct (Nat.eq_dec b k) as [<-|Nk]. now rewrite heap_get_upd_same in Lv.
      rewrite heap_get_upd_other in Lv by auto. assert (I : ~ In k (d_fb S)) by (intro I; specialize (FB k I); lia).
      rewrite X5 in Lv by auto. rewrite hput_other in Lv by (cbn; congruence). rewrite W5 in Lv by auto.
      rewrite heap_get_app_ge in Lv; [congruence|]. unfold b in Nk. lia. }
  destruct (HWf _ Bx) as [HW HG].
  eapply run_conseq; [eapply (Wr (Blk b 0) w1); [apply agree_refl|reflexivity| |exact HW]|..]; cbv beta.
  - intros k E. injection E as <-. auto.
  - intros _ w3 (Wi3 & D3 & P3). destruct (P3 w3 (agree_refl _ _ _)) as (w5 & E5 & W5 & D5 & A5).
    eapply run_eq1; [exact E5|].
    assert (G5 : heap_get (w_heap w5) b = Some (Block (Layout (vsize t x) (valign t x)) (valign t x) (v_bytes x))).
    { destruct W5 as (_ & _ & _ & _ & Y & _). rewrite Y by auto. destruct Wi3 as (_ & _ & _ & _ & Z & _). rewrite Z by auto. exact HG. }
    eapply run_eq. { unfold mem_read. rewrite <- Bx at 1. now rewrite (slot_read _ _ _ _ _ G5). }
    eapply run_eq; [reflexivity|]. apply run_ret. ands.
    + unfold x, d_value in *. rewrite EM0. reflexivity.
    + apply (FR (v_bytes x) w5 Bx). eapply within_trans; eauto.
    + cbn. rewrite D5, D3, D1. reflexivity.
    + apply A5. unfold agree. proj. ands; auto. intros k I. apply heap_get_upd_other. congruence. rewrite upd_length; lia.
  - intros r w3 (Pr & (bs & h'' & Lb & HW' & Wi3) & ds & D3).
    assert (Lbs : zlen bs = vsize t x) by (rewrite <- Bx; exact Lb).
    rewrite (proj1 (HWf bs Lbs)) in HW'. injection HW' as <-.
    eapply run_eq1; [reflexivity|]. ands.
    + destruct Pr as [?|(-> & X & n & Hn & Pn')]; auto. right. split; [auto|]. split; [auto|]. exists n. split; auto.
      cbn. rewrite D1 in Hn. cbn in Hn. auto.
    + apply (FR bs w3); auto.
    + exists ds. cbn. rewrite D3, D1. reflexivity.
  - intros w3 (X & n & Hn & Pn'). split; auto. exists n. split; auto. rewrite D1 in Hn. cbn in Hn. auto.
Qed.

Theorem emplacable_get_wp t e S w :
  emits e S w -> wf_value t (d_value S) -> d_meta S = MUnit ->
  run (emplacable_get t e) w
    (fun x w' => x = d_value S /\ fresh (d_fv S) (d_fb S) None w w' /\ w_drops w' = w_drops w ++ d_extra S /\
                 d_after S Delivered w')
    (fun r w' => (d_panic S r \/ r = PDrop /\ one_panicked (d_extra S) w w') /\ fresh (d_fv S) (d_fb S) None w w' /\
                 exists ds, w_drops w' = w_drops w ++ ds)
    (fun w' => aborted S w w').
Proof.
  intros E G M. eapply run_conseq; [eapply emplacable_get_at; eauto|..]; cbv beta; auto.
  - intros x w' (A & [B _] & D & F). auto.
  - intros r w' (A & [B _] & D). auto.
Qed.

(** [with_emplacable_for] (emplacable/src/lib.rs:305-384), for a callback that leaves the value in its slot when it unwinds.
    (A callback that unwinds after the value was moved out is finding F17.) *)
Definition slot_world (t : ty) (x : value) (w : world) : world :=
  set_heap (w_heap w ++ [Some (Block (layout_of t x) (valign t x) (v_bytes x))]) w.
Definition slot_of (x : value) (w : world) : wide := Wide (Blk (length (w_heap w)) 0) (v_meta x).

Lemma slot_behind t x w h : wf_value t x ->
  heap_get h (length (w_heap w)) = Some (Block (layout_of t x) (valign t x) (v_bytes x)) -> behind t (slot_of x w) x h.
Proof.
  intros G E. pose proof (wf_size t x G) as Sx. pose proof (pow2_pos _ (wf_align t x G)) as Px.
  pose proof (wf_bytes t x G) as Bx.
  unfold behind, slot_of. cbn [wp wm]. pose proof (slot_read _ _ _ _ _ E) as R. rewrite Bx in R. ands; auto.
  unfold ref_ok, ptr_addr. cbn [wp wm]. rewrite E. cbn [b_base]. change (size_of_val t (v_meta x)) with (vsize t x).
  change (align_of_val t (v_meta x)) with (valign t x). rewrite R. unfold is_aligned.
  destruct (Z.ltb_spec 0 (valign t x + 0)); [|lia]. rewrite Z.add_0_r, Z.mod_same by lia. reflexivity.
Qed.
Lemma slot_world_emits t x w : wf_value t x ->
  emits (with_emplacable_closure t (slot_of x w)) (slot_deal t (slot_of x w) x) (slot_world t x w).
Proof. intros G. apply slot_emits, slot_behind; auto. apply heap_get_app_new. Qed.

Theorem with_emplacable_for_wp {R} t x (f : emplacable -> M R) w (Q : R -> world -> Prop)
    (Qp : panic_reason -> world -> Prop) (Qa : world -> Prop) :
  wf_value t x ->
  run (f (with_emplacable_closure t (slot_of x w))) (slot_world t x w)
    (fun r w' => Q r (set_heap (hfree (w_heap w') (wp (slot_of x w))) w'))
    (fun r w' => behind t (slot_of x w) x (w_heap w') /\
       forall w'', w'' = set_drops (w_drops w' ++ [x]) w' ->
         (cfg_drop_panics (length (w_drops w')) = false -> Qp r (set_heap (hfree (w_heap w'') (wp (slot_of x w))) w'')) /\
         (cfg_drop_panics (length (w_drops w')) = true -> Qa w''))
    Qa ->
  run (with_emplacable_for t x f) w Q Qp Qa.
Proof.
  intros G H. unfold with_emplacable_for. eapply run_eq; [reflexivity|]. cbv zeta.
  fold (slot_of x w). change (set_heap _ w) with (slot_world t x w).
  apply run_bind, run_on_unwind. eapply run_conseq; [exact H|..]; cbv beta.
  - intros r w1 H1. eapply run_eq; [reflexivity|]. apply run_ret. exact H1.
  - intros r w1 (B & H1). destruct (H1 _ eq_refl) as [HA HB]. apply run_bind.
    unfold run at 1. rewrite (drop_in_place_eq t (slot_of x w) x) by auto. apply run_sound.
    apply run_drop_value; intros D; auto. eapply run_eq1; [reflexivity|]. auto.
  - auto.
Qed.

(** An operation on vector [self] that only sees the slot touches nothing but the vector once the slot is gone. *)
Lemma frame_slot t x self l w w1 ds : repr t self l w -> good t x ->
  touch self [] (blocks (wp (slot_of x w))) (slot_world t x w) w1 ->
  let w' := set_drops (w_drops w1 ++ ds) w1 in
  frame self w (set_heap (hfree (w_heap w') (wp (slot_of x w))) w').
Proof.
  intros R G T. assert (OL : forall b, owned_block w self = Some b -> (b < length (w_heap w))%nat) by (intros b0 E0; eapply repr_owned_lt; eauto). set (b := length (w_heap w)).
  assert (OW : owned_block (slot_world t x w) self = owned_block w self) by reflexivity.
  destruct T as [T1 T2 T3 T4 T5 T6 T7 T8 T9 T10]. cbn [blocks slot_of wp ptr_block] in *.
  cbn [slot_world set_heap w_heap w_vecs w_cells w_nalloc w_drops] in *. rewrite app_length in *. cbn [length] in *. rewrite OW in *.
  cbv zeta. cbn [set_drops set_heap w_heap w_vecs w_cells w_nalloc w_drops hfree].
  assert (OW' : forall ds' h', owned_block (World h' (w_vecs w1) (w_cells w1) ds' (w_nalloc w1) (w_moved w1)) self = owned_block w1 self) by reflexivity.
  assert (NB : owned_block w1 self <> Some b).
  { intro E. destruct (T8 b E) as [E'|]; [|unfold b in *; lia]. specialize (OL b E'). unfold b in *; lia. }
  constructor; unfold set_heap; cbn [w_heap w_vecs w_cells w_nalloc w_drops]; rewrite ?OW', ?upd_length; auto.
  - lia.
  - intros k Lk N. rewrite heap_get_upd_other by lia. rewrite T5; auto; try lia. apply heap_get_app_old; auto. intros [E|[]]. lia.
  - intros k E Lv. apply T6; auto. specialize (OL k E). rewrite heap_get_upd_other in Lv by lia. auto.
  - intros k Lk Lv. destruct (Nat.eq_dec b k) as [<-|Nk].
    + rewrite heap_get_upd_same in Lv; [congruence|lia].
    + rewrite heap_get_upd_other in Lv by auto. apply T7; auto. unfold b in Nk. lia.
  - intros k E. destruct (T8 k E); auto. right; lia.
  - destruct T10 as [d E]. exists (d ++ ds). rewrite E. now rewrite app_assoc.
Qed.

(** A value fits the layout it announces. The guard concerns CStr values within seven bytes of isize::MAX: their declared
    alignment is 8 (marker.rs:42). *)
Definition not_huge (t : ty) (x : value) : Prop := t = TCStr -> vsize t x <= isize_max - 7.
Lemma fits_self t x : good t x -> not_huge t x -> fits t (layout_of t x) x.
Proof.
  intros G N. unfold fits. cbn [layout_of l_size l_align]. ands; auto. intros K.
  pose proof (good_size_al t x G) as H. destruct G as [[(_ & _ & W) _] _].
  assert (E : t = TCStr \/ static_align t = valign t x).
  { clear -K W. unfold valign. destruct t, (v_meta x); try discriminate K; try solve [destruct W]; cbn; auto. }
  destruct E as [->|E]; [|lia]. specialize (N eq_refl). change (static_align TCStr) with 8. lia.
Qed.

(** The intended use: moving an owned unsized value into a vector. *)
Theorem push_through_slot_wp t self l o d w x :
  orep t self l o d w -> good t x -> fits t (layout_of t x) x -> nzst t \/ kind_of t = KSized -> can_align t o (vsize t x) (valign t x) ->
  run (with_emplacable_for t x (v_push_with t self)) w
    (fun _ w' => repr t self (l ++ [x]) w' /\ frame self w w' /\ w_drops w' = w_drops w)
    (fun r w' => repr t self l w' /\ frame self w w' /\ w_drops w' = w_drops w ++ [x] /\
                 (r = PCapacity \/ r = POom /\ cfg_oom_panics = true))
    (fun w' => alloc_failed w w' \/ drop_panicked w w').
Proof.
  intros R G Ft Nz CA. pose proof (orep_repr _ _ _ _ _ _ R) as Rp. assert (OL : forall b, owned_block w self = Some b -> (b < length (w_heap w))%nat) by (intros b0 E0; eapply repr_owned_lt; eauto).
  set (ws := slot_world t x w). set (r0 := slot_of x w).
  assert (Ev : d_value (slot_deal t r0 x) = x) by now destruct x.
  assert (Rs : orep t self l o d ws).
  { eapply orep_agree; eauto. intros b E. rewrite <- (orep_owned _ _ _ _ _ _ R) in E. specialize (OL b E). now apply heap_get_app_old. }
  apply with_emplacable_for_wp; auto. fold r0. fold ws.
  assert (KEEP : forall l' ds w1, touch self [] (blocks (wp r0)) ws w1 -> repr t self l' w1 ->
            repr t self l' (set_heap (hfree (w_heap w1) (wp r0)) (set_drops (w_drops w1 ++ ds) w1))).
  { intros l' ds w1 T R1. eapply repr_agree; [exact R1|reflexivity|]. intros b E. cbn. apply heap_get_upd_other.
    intros X. destruct (to_owned _ _ _ _ _ T b E) as [E'|L].
    - specialize (OL b E'). lia.
    - unfold ws, slot_world in L. cbn in L. rewrite app_length in L. cbn in L. lia. }
  eapply run_conseq; [eapply (v_push_with_wp t self l o d ws _ (slot_deal t r0 x)); rewrite ?Ev; eauto|..]; cbv beta.
  - apply slot_world_emits; auto.
  - unfold apart. cbn [d_fv d_fb slot_deal]. ands; auto.
    + intros b [E|[]]. unfold ws, slot_world. cbn. rewrite app_length. cbn. lia.
    + intros b E [E'|[]]. specialize (OL b E). lia.
  - rewrite Ev. intros _ w1 (o' & d' & R1 & T1 & D1 & _ & _). cbn [d_fv d_fb d_extra slot_deal] in *. rewrite app_nil_r in D1.
    replace w1 with (set_drops (w_drops w1 ++ []) w1) by (rewrite app_nil_r; now destruct w1). ands.
    + cbn [set_drops w_heap]. apply KEEP; auto. eapply orep_repr; eauto.
    + eapply frame_slot; eauto.
    + cbn. rewrite app_nil_r. exact D1.
  - unfold with_panic. rewrite Ev. cbn [d_fv d_fb d_extra d_panic d_after slot_deal].
    intros r w1 (R1 & T1 & [(_ & Re & D1 & B1)|[[]|(_ & X & _)]]); [|congruence]. split; auto.
    intros w2 ->. split; intros Dp.
    + ands; auto. * cbn [set_drops w_heap]. apply KEEP; auto. * eapply frame_slot; eauto. * cbn. rewrite D1. reflexivity.
    + right. exists (length (w_drops w1)). split; auto. cbn. rewrite D1. unfold ws. cbn. rewrite app_length. cbn. lia.
  - intros w1 [(n & Hn & E)|X]; [|apply not_aborted in X; [destruct X|reflexivity|intros ? []]]. left. exists n. auto.
Qed.

(** ** Unsizing an emplacable (emplacable/src/lib.rs:533-572) and str -> [u8] (981-1025) *)
Definition unsize_deal (l : layout) (m : meta) (S : deal) : deal :=
  Deal m (d_bytes S) l (d_fv S) (d_fb S) (d_nulls S) (d_extra S) (d_panic S) (d_after S).
Theorem unsize_emits l m e S w : emits e S w -> emits (emplacable_unsize l m e) (unsize_deal l m S) w.
Proof.
  intros [B H]. split; [exact B|]. intros w1 A. destruct (H w1 A) as (inner & post & w2 & E & W1 & D1 & RF & Wr & Nl & F).
  exists inner, post, w2. ands; auto. intros E'. unfold emplacable_unsize. rewrite E. reflexivity.
Qed.
Theorem str_to_bytes_emits e S w : emits e S w -> emits (emplacable_str_to_bytes e) S w.
Proof.
  intros [B H]. split; [exact B|]. intros w1 A. destruct (H w1 A) as (inner & post & w2 & E & W1 & D1 & RF & Wr & Nl & F).
  exists inner, post, w2. ands; auto.
Qed.
End WithConfig.
