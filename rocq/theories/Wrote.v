(** Writing a room piece by piece. *)
From Coq Require Import ZArith List Bool Lia.
From Verif Require Import Types World ValidSize Emplace Bytes Arith Wp Mem Reserve Repr Orep Push Deal PushWith Take.
Import ListNotations.
Open Scope Z_scope.
Open Scope m_scope.

Lemma skip_skip {A} n m (l : list A) : skipn n (skipn m l) = skipn (m + n) l.
Proof. revert l. induction m; intros l; cbn; auto. destruct l; auto. now rewrite skipn_nil. Qed.

(** [n] bytes at [p] can be accessed. *)
Definition space (h : list (option block)) (p : ptr) (n : Z) : Prop :=
  n = 0 \/ exists b off k, p = Blk b off /\ heap_get h b = Some k /\ 0 <= off /\ 0 < n /\ off + n <= zlen (b_data k).

Lemma space_write h p bs : space h p (zlen bs) <-> exists h', heap_write h p bs = Some h'.
Proof.
  unfold space, heap_write. pose proof (zlen_nonneg bs). destruct (Z.eqb_spec (zlen bs) 0) as [E|E].
  - split; eauto.
  - split.
    + intros [H0|(b & off & k & -> & -> & A & B & D)]; [lia|]. rewrite (proj2 (Z.leb_le _ _)) by lia. rewrite (proj2 (Z.leb_le _ _)) by lia. cbn [andb]. eauto.
    + intros (h' & H0). right. destruct p as [b off|]; [|discriminate]. destruct (heap_get h b) as [k|] eqn:G; [|discriminate].
      destruct ((0 <=? off) && (off + zlen bs <=? zlen (b_data k))) eqn:X; [|discriminate]. apply andb_prop in X as [X Y].
      apply Z.leb_le in X. apply Z.leb_le in Y. exists b, off, k. repeat split; auto; lia.
Qed.
Lemma space_part h p n k m : space h p n -> 0 <= k -> 0 <= m -> k + m <= n -> space h (padd p k) m.
Proof.
  intros [->|(b & off & c & -> & G & A & B & D)] K M L; [left; lia|].
  destruct (Z.eq_dec m 0); [left; auto|right]. exists b, (off + k), c. cbn [padd]. repeat split; auto; lia.
Qed.
Lemma space_add w p n k : space (w_heap w) p n -> 0 <= k <= n -> ptr_add p k w = (Ok (padd p k), w).
Proof.
  intros S K. unfold ptr_add. destruct (Z.eqb_spec k 0) as [->|N].
  - destruct p; cbn [padd]; now rewrite ?Z.add_0_r.
  - destruct S as [->|(b & off & c & -> & -> & A & B & D)]; [lia|]. rewrite (proj2 (Z.leb_le _ _)) by lia.
    rewrite (proj2 (Z.leb_le _ _)) by lia. reflexivity.
Qed.
Lemma padd_padd p a b : padd (padd p a) b = padd p (a + b).
Proof. destruct p; cbn [padd]; auto. f_equal. lia. Qed.
Lemma padd_nonnull p n k h : is_null p = false -> space h p n -> 0 <= k <= n -> is_null (padd p k) = false.
Proof. intros N _ _. destruct p; auto. Qed.

Lemma heap_write_app h p a b h1 h2 : heap_write h p a = Some h1 -> heap_write h1 (padd p (zlen a)) b = Some h2 ->
  heap_write h p (a ++ b) = Some h2.
Proof.
  unfold heap_write. rewrite zlen_app. pose proof (zlen_nonneg a). pose proof (zlen_nonneg b).
  destruct (Z.eqb_spec (zlen a) 0) as [Ea|Ea].
  - intros E; injection E as <-. rewrite Ea, Z.add_0_l. assert (a = []) as -> by (destruct a; [auto|unfold zlen in Ea; cbn in Ea; lia]).
    cbn [app]. destruct (zlen b =? 0); auto. destruct p; cbn [padd]; auto. now rewrite Z.add_0_r.
  - destruct (Z.eqb_spec (zlen a + zlen b) 0); [lia|]. destruct p as [c off|]; [|discriminate].
    destruct (heap_get h c) as [k|] eqn:G; [|discriminate].
    destruct ((0 <=? off) && (off + zlen a <=? zlen (b_data k))) eqn:X; [|discriminate].
    apply andb_prop in X as [X Y]. apply Z.leb_le in X. apply Z.leb_le in Y.
    intros E; injection E as <-. destruct (Z.eqb_spec (zlen b) 0) as [Eb|Eb].
    + intros E; injection E as <-. rewrite Eb, Z.add_0_r. assert (b = []) as -> by (destruct b; [auto|unfold zlen in Eb; cbn in Eb; lia]).
      rewrite app_nil_r. now rewrite (proj2 (Z.leb_le _ _) X), (proj2 (Z.leb_le _ _) Y).
    + cbn [padd]. rewrite heap_get_upd_same by (eapply heap_get_lt; eauto). cbn [b_data b_layout b_base].
      rewrite splice_len by lia. destruct ((0 <=? off + zlen a) && (off + zlen a + zlen b <=? zlen (b_data k))) eqn:Z; [|discriminate].
      apply andb_prop in Z as [_ Z]. apply Z.leb_le in Z. intros E; injection E as <-.
      rewrite (proj2 (Z.leb_le _ _) X). rewrite (proj2 (Z.leb_le _ _)) by lia. cbn [andb]. rewrite upd_upd.
      assert (splice (off + zlen a) b (splice off a (b_data k)) = splice off (a ++ b) (b_data k)) as ->; [|reflexivity].
      unfold splice, zlen in *. rewrite app_length.
      replace (Z.to_nat (off + Z.of_nat (length a))) with (Z.to_nat off + length a)%nat by lia.
      rewrite firstn_app. rewrite firstn_length_le by lia. 
      replace (Z.to_nat off + length a - Z.to_nat off)%nat with (length a) by lia.
      rewrite firstn_all2 with (n := (Z.to_nat off + length a)%nat) by (rewrite firstn_length; lia).
      rewrite firstn_app, firstn_all, Nat.sub_diag, firstn_O, app_nil_r.
      rewrite !skipn_app. rewrite firstn_length_le by lia. rewrite !skipn_all2 by (rewrite ?firstn_length; lia). cbn [app].
      rewrite skip_skip. rewrite <- !app_assoc. do 3 f_equal. f_equal. lia.
Qed.
Lemma heap_write_ext h g p bs h' : heap_write h p bs = Some h' -> (forall b, ptr_block p = Some b -> heap_get g b = heap_get h b) ->
  exists g', heap_write g p bs = Some g' /\ (forall b, ptr_block p = Some b -> heap_get g' b = heap_get h' b) /\
    length g' = length g /\ (forall b, ptr_block p <> Some b -> heap_get g' b = heap_get g b).
Proof.
  intros H E.
  assert (X : exists g', heap_write g p bs = Some g').
  { apply space_write.
    destruct (proj2 (space_write h p bs) (ex_intro _ h' H)) as [Z|(b & off & k & -> & G & R)]; [left; auto|right].
    exists b, off, k. rewrite E by reflexivity. auto. }
  destruct X as (g' & W). exists g'. destruct (heap_write_get _ _ _ _ W) as [L O]. repeat split; auto.
  intros b Pb. unfold heap_write in *. destruct (zlen bs =? 0). { injection H as <-. injection W as <-. auto. }
  destruct p as [c off|]; [|discriminate]. injection Pb as ->. rewrite (E b eq_refl) in W.
  destruct (heap_get h b) as [k|] eqn:G; [|discriminate]. destruct (_ && _); [|discriminate].
  injection H as <-. injection W as <-. rewrite !heap_get_upd_same; auto; eapply heap_get_lt; eauto.
  rewrite (E b eq_refl). exact G.
Qed.

Section WithConfig.
Context {C : Config}.

Lemma opt_dec_ (a b : option nat) : {a = b} + {a <> b}.
Proof. decide equality. apply Nat.eq_dec. Qed.

(** Up to the footprint, exactly [bs] has been written to [p]. *)
Definition wrote (fv fb : list nat) (p : ptr) (bs : list byte) (w w' : world) : Prop :=
  exists h, heap_write (w_heap w) p bs = Some h /\ within fv fb (set_heap h w) w'.

Lemma wrote_nil fv fb p w w' : within fv fb w w' -> wrote fv fb p [] w w'.
Proof. intros W. exists (w_heap w). split; [reflexivity|]. now destruct w. Qed.
Lemma wrote_keeps fv fb p bs w w' gv gb : wrote fv fb p bs w w' -> (forall j, In j gv -> ~ In j fv) -> (forall b, In b gb -> ~ In b fb) ->
  (forall b, ptr_block p = Some b -> ~ In b gb) -> agree gv gb w w'.
Proof.
  intros (h & E & W) A B P. destruct (heap_write_get _ _ _ _ E) as [L O]. destruct (within_agree _ _ _ _ _ _ W A B) as (X & Y & Z).
  cbn [w_heap w_vecs set_heap] in X, Y, Z. split; [|split].
  - intros j I. now rewrite X.
  - intros b I. rewrite Y by auto. apply O. intros Q. eapply P; eauto.
  - lia.
Qed.
Lemma wrote_space fv fb p bs w w' q n : wrote fv fb p bs w w' -> (forall b, ptr_block q = Some b -> ~ In b fb) ->
  space (w_heap w) q n -> space (w_heap w') q n.
Proof.
  intros (h & E & W) N [->|(b & off & k & -> & G & R)]; [left; auto|right].
  assert (X : heap_get (w_heap w') b = heap_get h b). { apply W. now apply N. }
  unfold heap_write in E. destruct (zlen bs =? 0).
  { injection E as <-. exists b, off, k. rewrite X. auto. }
  destruct p as [c o|]; [|discriminate]. destruct (heap_get (w_heap w) c) as [k'|] eqn:G'; [|discriminate].
  destruct ((0 <=? o) && (o + zlen bs <=? zlen (b_data k'))) eqn:Y; [|discriminate].
  apply andb_prop in Y as [Y1 Y2]. apply Z.leb_le in Y1. apply Z.leb_le in Y2. injection E as <-.
  destruct (Nat.eq_dec c b) as [->|Nb].
  - rewrite G in G'. injection G' as <-. rewrite heap_get_upd_same in X by (eapply heap_get_lt; eauto).
    eexists b, off, _. split; [reflexivity|]. split; [exact X|]. cbn [b_data]. rewrite splice_len by lia. auto.
  - rewrite heap_get_upd_other in X by auto. exists b, off, k. rewrite X. auto.
Qed.
Lemma wrote_app fv fb p a b w w1 w2 : (forall c, ptr_block p = Some c -> ~ In c fb) ->
  wrote fv fb p a w w1 -> wrote fv fb (padd p (zlen a)) b w1 w2 -> wrote fv fb p (a ++ b) w w2.
Proof.
  intros N (h1 & E1 & W1) (h2 & E2 & W2).
  assert (Pb : forall c, ptr_block (padd p (zlen a)) = Some c <-> ptr_block p = Some c) by (destruct p; cbn; intuition).
  destruct (heap_write_ext _ h1 _ _ _ E2) as (g & E3 & G & L & O).
  { intros c I. symmetry. apply W1. apply N. now apply Pb. }
  exists g. split; [eapply heap_write_app; eauto|].
  destruct (heap_write_get _ _ _ _ E2) as [L2 O2]. destruct W1 as (A1 & A2 & A3 & A4 & A5 & A6). destruct W2 as (B1 & B2 & B3 & B4 & B5 & B6).
  cbn [w_heap w_vecs w_cells w_nalloc set_heap] in *. unfold within. proj. ands.
  - intros j I. rewrite B1, A1 by auto. reflexivity.
  - congruence.
  - congruence.
  - lia.
  - intros c I. rewrite B5 by auto. destruct (opt_dec_ (ptr_block p) (Some c)) as [Q|Q].
    + symmetry. apply G. now apply Pb.
    + rewrite O2 by (rewrite Pb; auto). rewrite O by (rewrite Pb; auto). now apply A5.
  - lia.
Qed.
Lemma wrote_mono fv fb gv gb p bs w w' : incl fv gv -> incl fb gb -> wrote fv fb p bs w w' -> wrote gv gb p bs w w'.
Proof. intros A B (h & E & W). exists h. split; auto. eapply within_mono; eauto. Qed.
Lemma wrote_within fv fb p bs w w1 w2 : wrote fv fb p bs w w1 -> within fv fb w1 w2 -> wrote fv fb p bs w w2.
Proof. intros (h & E & W) W2. exists h. split; auto. eapply within_trans; eauto. Qed.
(** Bytes not yet written count as written with their old contents. *)
Lemma wrote_extend fv fb p a w w' n : wrote fv fb p a w w' -> (forall c, ptr_block p = Some c -> ~ In c fb) ->
  space (w_heap w) p n -> zlen a <= n -> exists b, zlen (a ++ b) = n /\ wrote fv fb p (a ++ b) w w'.
Proof.
  intros Wr N Sp L. pose proof (zlen_nonneg a).
  assert (S' : space (w_heap w') (padd p (zlen a)) (n - zlen a)).
  { eapply wrote_space; eauto. - intros c. destruct p; cbn; auto. - eapply space_part; eauto; lia. }
  destruct S' as [Z|(b & off & k & E & G & A & B & D)].
  - exists []. rewrite app_nil_r. split; [lia|auto].
  - exists (sub off (n - zlen a) (b_data k)). assert (Ls : zlen (sub off (n - zlen a) (b_data k)) = n - zlen a) by (apply sub_len; lia).
    split. { rewrite zlen_app. lia. }
    eapply wrote_app; eauto. rewrite E. exists (w_heap w'). split.
    + unfold heap_write. rewrite Ls. destruct (Z.eqb_spec (n - zlen a) 0); [lia|]. rewrite G.
      rewrite (proj2 (Z.leb_le _ _)) by lia. rewrite (proj2 (Z.leb_le _ _)) by lia. cbn [andb]. f_equal.
      assert (splice off (sub off (n - zlen a) (b_data k)) (b_data k) = b_data k) as ->.
      { unfold splice, sub, zlen in *. rewrite firstn_length, skipn_length.
        rewrite Nat.min_l by lia. rewrite <- (firstn_skipn (Z.to_nat off) (b_data k)) at 4. f_equal.
        rewrite <- (firstn_skipn (Z.to_nat (n - Z.of_nat (length a))) (skipn (Z.to_nat off) (b_data k))) at 2. f_equal.
        now rewrite skip_skip. }
      apply upd_nth. unfold heap_get in G. destruct (nth_error (w_heap w') b) as [[q|]|]; try discriminate. injection G as ->.
      now destruct k.
    + destruct w'; apply within_refl.
Qed.
End WithConfig.
