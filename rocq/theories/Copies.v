(** Emplacables that copy or move out of a borrowed slice or a vector (emplacable/src/lib.rs:757-813, 1072-1128). *)
From Coq Require Import ZArith List Bool Lia.
From Verif Require Import Types World ValidSize Emplace SizedVec AlignedVec UnalignedVec Api Spec Bytes Arith Wp Mem Repr
  Access Reserve Realign Orep Push Deal PushWith Shell Insert Take Pop Box Iter Calls DropVec Family Build PushAll Wrote Sources.
Import ListNotations.
Open Scope Z_scope.
Open Scope m_scope.

Lemma heap_read_space h p n bs : heap_read h p n = Some bs -> 0 <= n -> space h p n /\ zlen bs = n.
Proof.
  unfold heap_read. destruct (Z.eqb_spec n 0) as [->|N]. { intros E _. injection E as <-. split; [left; auto|reflexivity]. }
  destruct p as [b off|]; [|discriminate]. destruct (heap_get h b) as [k|] eqn:G; [|discriminate].
  destruct ((0 <=? off) && (0 <=? n) && (off + n <=? zlen (b_data k))) eqn:X; [|discriminate].
  apply andb_prop in X as [X Z]. apply andb_prop in X as [X Y]. apply Z.leb_le in X, Y, Z.
  intros E Hn. injection E as <-. split. right. exists b, off, k. repeat split; auto; lia. apply sub_len; lia.
Qed.
Lemma heap_read_part h p n bs a b : heap_read h p n = Some bs -> 0 <= a -> 0 <= b -> a + b <= n ->
  heap_read h (padd p a) b = Some (sub a b bs).
Proof.
  intros H A B L. unfold heap_read in *. destruct (Z.eqb_spec b 0) as [->|Nb]. { now rewrite sub_zero. }
  destruct (Z.eqb_spec n 0); [lia|].
  destruct p as [c off|]; [|discriminate]. cbn [padd]. destruct (heap_get h c) as [k|]; [|discriminate].
  destruct ((0 <=? off) && (0 <=? n) && (off + n <=? zlen (b_data k))) eqn:X; [|discriminate].
  apply andb_prop in X as [X Z]. apply andb_prop in X as [X Y]. apply Z.leb_le in X, Y, Z.
  rewrite (proj2 (Z.leb_le 0 (off + a))) by lia. rewrite (proj2 (Z.leb_le 0 b)) by lia.
  rewrite (proj2 (Z.leb_le (off + a + b) _)) by lia. cbn [andb]. injection H as <-. f_equal. symmetry. apply sub_sub; lia.
Qed.

Section WithConfig.
Context {C : Config}.

(** ** Cloning the elements of a slice *)

(** [Clone::clone] as a function of the element's bytes; it may allocate, and may panic. *)
Definition clones (esize : Z) (f : list byte -> list byte) (P : panic_reason -> Prop) (clone : list byte -> M (list byte)) : Prop :=
  (forall bs, zlen bs = esize -> zlen (f bs) = esize) /\
  forall bs w, zlen bs = esize -> run (clone bs) w
    (fun bs' w' => bs' = f bs /\ within [] [] w w' /\ w_drops w' = w_drops w)
    (fun r w' => P r /\ within [] [] w w' /\ w_drops w' = w_drops w) (fun _ => False).
(** The clones of [n] elements laid out one after the other. *)
Fixpoint cloned (esize : Z) (f : list byte -> list byte) (n : nat) (bs : list byte) : list byte :=
  match n with
  | O => []
  | S k => f (sub 0 esize bs) ++ cloned esize f k (skipn (Z.to_nat esize) bs)
  end.
Lemma cloned_len esize f n bs : (forall bs, zlen bs = esize -> zlen (f bs) = esize) -> 0 <= esize -> zlen bs = Z.of_nat n * esize ->
  zlen (cloned esize f n bs) = Z.of_nat n * esize.
Proof.
  intros F E. revert bs. induction n as [|n IH]; intros bs L; [reflexivity|]. cbn [cloned]. rewrite zlen_app, F, IH. lia.
  - unfold zlen in *. rewrite skipn_length. nia.
  - apply sub_len; lia.
Qed.
Lemma sub_skipn a n d : 0 <= a -> sub a n d = sub 0 n (skipn (Z.to_nat a) d).
Proof. intros A. unfold sub. now rewrite skipn_O. Qed.

Lemma copy_clone_wp esize f P clone n : clones esize f P clone -> 0 <= esize ->
  forall src buf bs w, heap_read (w_heap w) src (Z.of_nat n * esize) = Some bs -> space (w_heap w) buf (Z.of_nat n * esize) ->
  (forall b, ptr_block src = Some b -> ptr_block buf <> Some b) ->
  run (copy_to_buf_clone esize clone src buf n) w
    (fun _ w' => wrote [] [] buf (cloned esize f n bs) w w' /\ w_drops w' = w_drops w)
    (fun r w' => P r /\ (exists bs', zlen bs' <= Z.of_nat n * esize /\ wrote [] [] buf bs' w w') /\ w_drops w' = w_drops w)
    (fun _ => False).
Proof.
  intros [Fl Cl] Es. induction n as [|n IH]; intros src buf bs w Rd Sp Ne.
  { cbn [copy_to_buf_clone cloned]. apply run_ret. split; auto. apply wrote_nil, within_refl. }
  assert (Hn : Z.of_nat (S n) * esize = esize + Z.of_nat n * esize) by lia. rewrite Hn in *. clear Hn.
  set (rest := Z.of_nat n * esize) in *. assert (0 <= rest) by (unfold rest; nia).
  assert (P0 : forall p, padd p 0 = p) by (destruct p; cbn [padd]; auto; now rewrite Z.add_0_r).
  destruct (heap_read_space _ _ _ _ Rd) as [SpS Lb]; [lia|].
  pose proof (heap_read_part _ _ _ _ 0 esize Rd ltac:(lia) Es ltac:(lia)) as R0. rewrite P0 in R0.
  pose proof (heap_read_part _ _ _ _ esize rest Rd Es ltac:(lia) ltac:(lia)) as R1.
  assert (Ls : zlen (sub 0 esize bs) = esize) by (apply sub_len; lia).
  cbn [copy_to_buf_clone cloned]. eapply run_eq. { unfold mem_read. now rewrite R0. }
  apply run_bind. eapply run_conseq; [apply Cl; exact Ls|..]; cbv beta.
  - intros bs' w1 (-> & W1 & D1).
    assert (A1 : forall p k, space (w_heap w) p k -> space (w_heap w1) p k) by (intros; eapply within_space; eauto).
    assert (Sp1 : space (w_heap w1) buf esize). { rewrite <- (P0 buf). eapply space_part; [apply A1; exact Sp|lia|lia|lia]. }
    rewrite <- (Fl _ Ls) in Sp1. apply space_write in Sp1 as (h & HW).
    assert (Wr : wrote [] [] buf (f (sub 0 esize bs)) w1 (set_heap h w1)) by (exists h; split; auto using within_refl).
    assert (Wr' : wrote [] [] buf (f (sub 0 esize bs)) w (set_heap h w1)) by (eapply within_wrote; eauto).
    eapply run_eq. { unfold mem_write. now rewrite HW. }
    eapply run_eq. { eapply space_add; [eapply wrote_space; [exact Wr'|auto|exact SpS]|lia]. }
    eapply run_eq. { eapply space_add; [eapply wrote_space; [exact Wr'|auto|exact Sp]|lia]. }
    assert (Rd' : heap_read (w_heap (set_heap h w1)) (padd src esize) rest = Some (skipn (Z.to_nat esize) bs)).
    { transitivity (heap_read (w_heap w) (padd src esize) rest).
      - apply heap_read_agree. intros b E. rewrite padd_block in E.
        pose proof (wrote_keeps _ _ _ _ _ _ [] [b] Wr') as K. apply K; cbn; auto.
        intros c X [Y|[]]. subst c. eapply Ne; eauto.
      - rewrite R1. f_equal. rewrite sub_skipn by auto. apply sub_all. unfold zlen in *. rewrite skipn_length. lia. }
    eapply run_conseq; [eapply (IH _ (padd buf esize) _ (set_heap h w1)); [exact Rd'| |now rewrite !padd_block]|..]; cbv beta.
    + eapply wrote_space; [exact Wr'|intros ? ? []|]. eapply space_part; [exact Sp|lia|unfold rest; lia|lia].
    + intros _ w2 (W2 & D2). split; [|rewrite D2; exact D1]. eapply wrote_app; [intros ? ? []|exact Wr'|].
      rewrite Fl by auto. exact W2.
    + intros r w2 (Pr & (bs' & L' & W2) & D2). ands; [auto| |rewrite D2; exact D1].
      exists (f (sub 0 esize bs) ++ bs'). split. { rewrite zlen_app, Fl by auto. lia. }
      eapply wrote_app; [intros ? ? []|exact Wr'|]. rewrite Fl by auto. exact W2.
    + auto.
  - intros r w1 (Pr & W1 & D1). ands; auto. exists []. split; [change (zlen (@nil byte)) with 0; lia|]. now apply wrote_nil.
  - auto.
Qed.

Definition slice_deal (esize ealign : Z) (f : list byte -> list byte) (P : panic_reason -> Prop) (r : wide) (n : nat) (bs : list byte) : deal :=
  Deal (MLen (Z.of_nat n)) (cloned esize f n bs) (Layout (Z.of_nat n * esize) ealign) [] (blocks (wp r)) [] [] P
    (fun _ w => behind (TSlice esize ealign) r (Value (MLen (Z.of_nat n)) bs) (w_heap w)).

Lemma slice_stable esize ealign f P r n bs : stable (slice_deal esize ealign f P r n bs).
Proof.
  intros u w w' (_ & A & _). cbn [slice_deal d_after d_fb] in *. intros B. eapply behind_agree; [|exact B]. intros b E. apply A. now apply in_blocks.
Qed.

(** The conversion of a slice whose elements are not [Copy]. *)
Theorem slice_clone_emits esize ealign f P clone r n bs w : clones esize f P clone -> 0 <= esize ->
  behind (TSlice esize ealign) r (Value (MLen (Z.of_nat n)) bs) (w_heap w) ->
  emits (emplacable_of_slice_ref esize ealign false clone r) (slice_deal esize ealign f P r n bs) w.
Proof.
  intros Cl Es B0. set (D := slice_deal esize ealign f P r n bs). pose proof (slice_stable esize ealign f P r n bs : stable D) as SD.
  assert (Hm : wm r = MLen (Z.of_nat n)) by apply B0.
  split. { intros b I. apply in_blocks in I. eapply behind_lt; eauto. }
  intros w1 Ag. assert (B1 : behind (TSlice esize ealign) r (Value (MLen (Z.of_nat n)) bs) (w_heap w1)) by (apply (SD Delivered w w1 Ag B0)).
  eexists. exists (ret tt), w1. ands; auto using within_refl.
  - intros E. rewrite bind_ret. unfold emplacable_of_slice_ref. rewrite Hm. cbn [meta_len]. rewrite Nat2Z.id. reflexivity.
  - intros w' A. apply (SD Refused w1 w' A B1).
  - intros p w2 h' A2 Nn Pb HW. cbv beta. rewrite Nn. cbn match.
    assert (B2 : behind (TSlice esize ealign) r (Value (MLen (Z.of_nat n)) bs) (w_heap w2)) by (apply (SD Delivered w1 w2 A2 B1)).
    destruct B2 as (_ & _ & Rd). unfold vsize in Rd. cbn [v_meta v_bytes size_of_val] in Rd.
    destruct (heap_read_space _ _ _ _ Rd) as [_ Lb]; [nia|].
    assert (Ld : zlen (d_bytes D) = Z.of_nat n * esize) by (apply cloned_len; [apply Cl|auto|auto]).
    assert (Sp : space (w_heap w2) p (Z.of_nat n * esize)) by (rewrite <- Ld; apply space_write; eauto).
    assert (Pn : forall b, ptr_block p = Some b -> ~ In b (blocks (wp r))) by exact Pb.
    eapply run_conseq; [eapply (copy_clone_wp esize f P clone n Cl Es (wp r) p bs w2); eauto|..]; cbv beta.
    + intros b X Y. eapply Pn; eauto. now apply in_blocks.
    + intros _ w3 (W3 & D3). assert (Ag3 : agree [] (blocks (wp r)) w2 w3) by (eapply wrote_keeps; [exact W3|auto|auto|auto]).
      apply (wrote_mono _ _ [] (blocks (wp r))) in W3; [|intros ? []|intros ? []]. destruct W3 as (h3 & HW3 & W3). cbn [D slice_deal d_bytes] in HW. rewrite HW in HW3. injection HW3 as <-. ands.
      * exact W3.
      * rewrite D3. cbn [D slice_deal d_extra]. now rewrite app_nil_r.
      * apply post_ok_ret. intros w' A'. apply (SD Delivered w3 w' A'). apply (SD Delivered w2 w3 Ag3).
        apply (SD Delivered w1 w2 A2 B1).
    + intros r' w3 (Pr & (bs' & L' & W3) & D3). apply (wrote_mono _ _ [] (blocks (wp r))) in W3; [|intros ? []|intros ? []]. ands.
      * left. exact Pr.
      * destruct (wrote_extend _ _ _ _ _ _ _ W3 Pb Sp L') as (b & Lb' & h3 & HW3 & W4).
        exists (bs' ++ b), h3. ands; auto. congruence.
      * exists []. now rewrite app_nil_r.
    + intros w3 [].
  - intros w2 A2. cbv beta. cbn [is_null null Z.eqb]. apply run_ret. ands; auto using within_refl.
    + cbn [D slice_deal d_nulls]. now rewrite app_nil_r.
    + apply post_ok_ret. intros w' A'. apply (SD Dropped w2 w' A'). apply (SD Dropped w1 w2 A2 B1).
  - apply post_ok_ret. intros w' A'. apply (SD Forgotten w1 w' A' B1).
Qed.

(** ** Moving the elements out of a [Vec<T>] *)

(** The standard-library vector [v] holds [xs] (it would be a good vector object). *)
Definition stdvec (t : ty) (v : svec) (xs : list value) (h : list (option block)) : Prop :=
  exists d, srep t 0 xs v d (World h [OS v] [] [] 0 0).
Lemma stdvec_agree t v xs h h' : (forall b, ptr_block (sv_ptr v) = Some b -> heap_get h' b = heap_get h b) ->
  stdvec t v xs h -> stdvec t v xs h'.
Proof.
  intros A (d & R). exists d. destruct R. constructor; auto. cbn [w_heap] in *. eapply buf_agree; eauto.
Qed.
Lemma stdvec_behind t v xs h i x : stdvec t v xs h -> nth_error xs i = Some x ->
  behind t (Wide (padd (sv_ptr v) (Z.of_nat i * s_size t)) MUnit) x h.
Proof.
  intros (d & R) E. pose proof (orep_behind t 0 xs (OS v) d _ i x R E) as B. cbn [w_heap] in B.
  unfold eref in B. cbn [o_ptr o_pal] in B. destruct R. pose proof (nth_error_lt _ _ _ E).
  rewrite plen_firstn_sized in B by (auto; lia). rewrite (good_sized t x) in B by (auto; eapply good_nth; eauto). exact B.
Qed.

Lemma drop_elems_wp t v xs h : stdvec t v xs h -> forall zs ys w, xs = ys ++ zs -> w_heap w = h ->
  run (drop_elems t (padd (sv_ptr v) (zlen ys * s_size t)) (s_size t) (length zs)) w
    (fun _ w' => w' = set_drops (w_drops w ++ zs) w)
    (fun r w' => r = PDrop /\ drop_panicked w w' /\ zs <> [] /\ exists ds, w' = set_drops (w_drops w ++ ds) w)
    (fun _ => False).
Proof.
  intros Sv zs. induction zs as [|z zs IH]; intros ys w E Hw; cbn [drop_elems length].
  { apply run_ret. rewrite app_nil_r. now destruct w. }
  assert (B : behind t (Wide (padd (sv_ptr v) (zlen ys * s_size t)) MUnit) z (w_heap w)).
  { rewrite Hw. apply (stdvec_behind t v xs h (length ys)); auto. rewrite E. rewrite nth_error_app2 by lia. now rewrite Nat.sub_diag. }
  apply run_bind. unfold run at 1. rewrite (drop_in_place_eq _ _ _ _ B). apply run_sound, run_drop_value; intros Dp.
  - assert (Ad : ptr_add (padd (sv_ptr v) (zlen ys * s_size t)) (s_size t) (set_drops (w_drops w ++ [z]) w) =
      (Ok (padd (sv_ptr v) (zlen (ys ++ [z]) * s_size t)), set_drops (w_drops w ++ [z]) w)).
    { assert (zlen (ys ++ [z]) * s_size t = zlen ys * s_size t + s_size t) as ->.
      { rewrite zlen_app. change (zlen [z]) with 1. lia. }
      rewrite <- padd_padd. destruct Sv as (d & R). destruct R. pose proof (s_size_nonneg t sr_kind sr_wf).
      eapply space_add; [|split; [lia|apply Z.le_refl]]. proj.
      destruct B as (_ & _ & Rd). cbn [wp] in Rd.
      assert (vsize t z = s_size t) as Vz.
      { apply vsize_sized; auto. rewrite Forall_forall in sr_good. apply sr_good. rewrite E. apply in_or_app. right. left. auto. }
      rewrite Vz in Rd. apply heap_read_space in Rd as [Sp _]; [|lia]. exact Sp. }
    eapply run_eq; [exact Ad|].
    eapply run_conseq; [apply (IH (ys ++ [z])); [now rewrite <- app_assoc|exact Hw]|..]; cbv beta.
    + intros _ w' ->. destruct w. cbn. now rewrite <- app_assoc.
    + intros r w' (-> & Q & _ & ds & ->). ands; auto; [|discriminate|].
      * eapply drop_panicked_from; [|exact Q]. cbn. rewrite app_length. lia.
      * exists (z :: ds). destruct w. cbn. now rewrite <- app_assoc.
    + auto.
  - ands; auto; [now apply drop_panicked_1|discriminate|]. exists [z]. reflexivity.
Qed.

Definition vec_bytes (xs : list value) : list byte := concat (map v_bytes xs).
Lemma contents_bytes t d : kind_of t = KSized -> 0 <= s_size t -> forall xs k, Forall (good t) xs -> 0 <= k -> contents t 1 k xs d ->
  k + zlen xs * s_size t <= zlen d -> sub k (zlen xs * s_size t) d = vec_bytes xs.
Proof.
  intros K Sz. induction xs as [|x xs IH]; intros k G Hk Ct L. { change (zlen (@nil value) * s_size t) with 0. apply sub_zero. }
  cbn [contents] in Ct. destruct Ct as [C1 C2]. inversion G; subst. 
  assert (V : vsize t x = s_size t) by (apply vsize_sized; auto). unfold psz in C2. rewrite pad_1, V in *.
  assert (Zc : zlen (x :: xs) = 1 + zlen xs) by (unfold zlen; cbn [length]; lia). rewrite Zc in *. pose proof (zlen_nonneg xs).
  unfold vec_bytes. cbn [map concat]. fold (vec_bytes xs). rewrite <- C1, <- (IH (k + s_size t)) by (auto; lia).
  unfold sub. replace (Z.to_nat ((1 + zlen xs) * s_size t)) with (Z.to_nat (s_size t) + Z.to_nat (zlen xs * s_size t))%nat by nia.
  replace (Z.to_nat (k + s_size t)) with (Z.to_nat k + Z.to_nat (s_size t))%nat by lia.
  rewrite <- skip_skip. set (e := skipn (Z.to_nat k) d). generalize (Z.to_nat (zlen xs * s_size t)). intros m.
  assert (Le : (Z.to_nat (s_size t) <= length e)%nat). { unfold e. rewrite skipn_length. unfold zlen in *. nia. }
  rewrite <- (firstn_skipn (Z.to_nat (s_size t)) e) at 1. rewrite firstn_app, firstn_length_le by auto.
  rewrite firstn_firstn. rewrite Nat.min_r by lia. f_equal. f_equal. lia.
Qed.

Lemma copy_bytes_eq src p n bs w h' : heap_read (w_heap w) src n = Some bs -> (forall b, ptr_block p = Some b -> ptr_block src <> Some b) ->
  heap_write (w_heap w) p bs = Some h' -> mem_copy_no src p n w = (Ok tt, set_heap h' w).
Proof.
  intros H N W. unfold mem_copy_no.
  assert (O : overlaps src p n = false).
  { unfold overlaps. destruct src as [b o|]; auto. destruct p as [b' o'|]; auto. destruct (Nat.eqb_spec b b'); auto. subst. now elim (N b'). }
  rewrite O. unfold mem_copy, mem_read. erewrite bind_eq by (now rewrite H). unfold mem_write. now rewrite W.
Qed.

(** What the conversion announces: the capacity, not the length. *)
Definition vec_layout (t : ty) (v : svec) : layout := Layout (sv_cap v * s_size t) (s_align t).
Definition vec_deal (t : ty) (v : svec) (xs : list value) : deal :=
  Deal (MLen (zlen xs)) (vec_bytes xs) (vec_layout t v) [] (blocks (sv_ptr v)) xs [] (fun _ => False)
    (fun u w => match u with
                | Refused => stdvec t v xs (w_heap w)
                | _ => forall b, ptr_block (sv_ptr v) = Some b -> heap_get (w_heap w) b = None
                end).
Lemma vec_stable t v xs : stable (vec_deal t v xs).
Proof.
  intros u w w' (_ & A & _). cbn [vec_deal d_after d_fb] in *. destruct u; intros B.
  1-3: intros b E; rewrite A by (now apply in_blocks); now apply B.
  eapply stdvec_agree; [|exact B]. intros b E. apply A. now apply in_blocks.
Qed.

Theorem vec_emits esize ealign v xs w : let t := TSized esize ealign in
  stdvec t v xs (w_heap w) -> emits (emplacable_of_vec esize ealign v) (vec_deal t v xs) w.
Proof.
  intros t Sv. set (D := vec_deal t v xs). pose proof (vec_stable t v xs : stable D) as SD.
  assert (Lt : forall b, ptr_block (sv_ptr v) = Some b -> (b < length (w_heap w))%nat).
  { destruct Sv as (d & R). destruct R. intros b E. eapply buf_block; eauto. }
  split. { intros b I. apply in_blocks in I. auto. }
  intros w1 Ag. assert (S1 : stdvec t v xs (w_heap w1)) by (apply (SD Refused w w1 Ag Sv)).
  pose proof S1 as (d & R). pose proof (sr_kind _ _ _ _ _ _ R) as Kt. pose proof (sr_wf _ _ _ _ _ _ R) as Wt.
  pose proof (s_size_nonneg t Kt Wt) as Sz. pose proof (pow2_pos _ (s_align_pow2 t Kt Wt)) as Pa.
  pose proof (sr_slen _ _ _ _ _ _ R) as Ln. pose proof (sr_bcap _ _ _ _ _ _ R) as Bc. pose proof (sr_cap0 _ _ _ _ _ _ R) as C0.
  assert (Ssz : s_size t = esize) by reflexivity. assert (Sal : s_align t = ealign) by reflexivity.
  set (post := if 0 <? l_size (vec_layout t v) then gdealloc (sv_ptr v) (vec_layout t v) else ret tt).
  (* the deallocation at the end *)
  assert (PO : forall u w2, u <> Refused -> agree [] (blocks (sv_ptr v)) w1 w2 -> post_ok D u post w2).
  { intros u w2 Nu A2 w4 A4.
    assert (S4 : stdvec t v xs (w_heap w4)) by (apply (SD Refused w2 w4 A4), (SD Refused w1 w2 A2 S1)).
    destruct S4 as (d4 & R4). pose proof (sr_buf _ _ _ _ _ _ R4) as Bu. cbn [w_heap] in Bu.
    unfold post. unfold vec_layout at 1. cbn [l_size]. destruct (Z.ltb_spec 0 (sv_cap v * s_size t)) as [Hc|Hc].
    - exists (set_heap (hfree (w_heap w4) (sv_ptr v)) w4).
      destruct (box_dealloc_eq (TSized (sv_cap v * s_size t) (s_align t)) (Wide (sv_ptr v) MUnit) (Value MUnit d4) w4) as (E1 & E2 & E3).
      { split; [reflexivity|]. exact Bu. }
      ands.
      + exact E1.
      + exact E2.
      + reflexivity.
      + intros w6 A6. assert (X : d_after D Delivered (set_heap (hfree (w_heap w4) (sv_ptr v)) w4)). { intros b E. apply E3. exact E. }
        destruct u; try (now elim Nu); apply (SD Delivered _ _ A6 X).
    - exists w4. ands; auto using within_refl. intros w6 A6.
      assert (Z0 : sv_cap v * s_size t = 0) by nia. unfold buf in Bu. rewrite Z0 in Bu. cbn [Z.eqb] in Bu. destruct Bu as (a & Ep & _).
      destruct u; try (now elim Nu); cbn [D vec_deal d_after]; rewrite Ep; discriminate. }
  exists (fun p => if is_null p then drop_elems t (sv_ptr v) esize (Z.to_nat (sv_len v)) else mem_copy_no (sv_ptr v) p (sv_len v * esize)), post, w1.
  ands; auto using within_refl.
  - intros E. unfold emplacable_of_vec.
    set (cap := if esize =? 0 then usize_max else sv_cap v).
    assert (Ec : cap * esize = sv_cap v * esize). { unfold cap. destruct (Z.eqb_spec esize 0); nia. }
    assert (isize_max <= usize_max) by (vm_compute; discriminate).
    pose proof Bc as Bc'. rewrite Ssz, Sal in Bc'. rewrite Ssz in Sz. rewrite Sal in Pa.
    erewrite bind_eq by (apply umul_eq; rewrite Ec; nia). rewrite Ec.
    erewrite bind_eq by (apply layout_unchecked_eq; exact Bc').
    unfold D, vec_deal. cbn [d_lay d_meta]. unfold vec_layout. rewrite Ssz, Sal, Ln. reflexivity.
  - intros w' A. apply (SD Refused w1 w' A S1).
  - intros p w2 h' A2 Nn Pb HW. cbv beta. rewrite Nn.
    assert (S2 : stdvec t v xs (w_heap w2)) by (apply (SD Refused w1 w2 A2 S1)).
    destruct S2 as (d2 & R2). pose proof (sr_buf _ _ _ _ _ _ R2) as Bu. cbn [w_heap] in Bu.
    pose proof (s_fit _ _ _ _ _ _ R2) as Ft. pose proof (zlen_nonneg xs).
    assert (Ld : zlen d2 = sv_cap v * s_size t) by (eapply buf_len; eauto).
    assert (Rd : heap_read (w_heap w2) (sv_ptr v) (sv_len v * esize) = Some (vec_bytes xs)).
    { rewrite Ln, <- Ssz. replace (sv_ptr v) with (padd (sv_ptr v) 0) by (destruct (sv_ptr v); cbn [padd]; auto; now rewrite Z.add_0_r).
      erewrite heap_read_buf by (eauto; nia). f_equal. apply contents_bytes; auto; try lia; try apply R2. }
    eapply run_eq1.
    { eapply copy_bytes_eq; [exact Rd| |exact HW]. intros b E E'. apply (Pb b E). apply in_blocks. exact E'. }
    assert (Ag3 : agree [] (blocks (sv_ptr v)) w2 (set_heap h' w2)).
    { destruct (heap_write_get _ _ _ _ HW) as [L O]. unfold agree. proj. ands; auto; [|lia]. intros b I. apply O. intros E. eapply Pb; eauto. }
    ands.
    + apply within_refl.
    + proj. now rewrite app_nil_r.
    + apply PO; [discriminate|]. eapply agree_trans; [exact A2|exact Ag3].
  - intros w2 A2. cbv beta. cbn [is_null null Z.eqb].
    assert (S2 : stdvec t v xs (w_heap w2)) by (apply (SD Refused w1 w2 A2 S1)).
    pose proof (drop_elems_wp t v xs _ S2 xs [] w2 eq_refl eq_refl) as W.
    change (zlen (@nil value) * s_size t) with 0 in W.
    replace (padd (sv_ptr v) 0) with (sv_ptr v) in W by (destruct (sv_ptr v); cbn [padd]; auto; now rewrite Z.add_0_r).
    rewrite Ln. unfold zlen. rewrite Nat2Z.id. eapply run_conseq; [exact W|..]; cbv beta.
    + intros _ w3 ->. ands; auto using within_drops. apply PO; [discriminate|]. exact A2.
    + intros r w3 (-> & Q & N & ds & ->). ands; auto using within_drops; [split; auto|]. now exists ds.
    + intros w3 [].
  - apply PO; [discriminate|]. apply agree_refl.
Qed.
End WithConfig.
