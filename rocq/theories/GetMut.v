(** Writing through the references that [get_mut], [index_mut] and [iter_mut] hand out. *)
From Coq Require Import ZArith List Bool Lia.
From Verif Require Import Types World ValidSize Emplace SizedVec AlignedVec UnalignedVec Api Spec Bytes Arith Wp Mem Repr
  Access Reserve Realign Orep Push Deal PushWith Shell Insert Take Pop Box Iter Calls.
Import ListNotations.
Open Scope Z_scope.
Open Scope m_scope.

(** A value that may be written over [x] in place: same metadata, same number of bytes. *)
Definition alike (x y : value) : Prop := v_meta y = v_meta x /\ length (v_bytes y) = length (v_bytes x).
Lemma alike_refl x : alike x x. Proof. split; reflexivity. Qed.
Lemma alike_trans x y z : alike x y -> alike y z -> alike x z.
Proof. intros [A B] [D E]. split; congruence. Qed.
Lemma alike_size t x y : alike x y -> vsize t y = vsize t x.
Proof. intros [A _]. unfold vsize. now rewrite A. Qed.
Lemma alike_valign t x y : alike x y -> valign t y = valign t x.
Proof. intros [A _]. unfold valign. now rewrite A. Qed.
Lemma alike_good t x y : alike x y -> good t x -> good t y.
Proof.
  intros [A B] [[W L] S]. split; [split|].
  - now rewrite A.
  - unfold vsize in *. now rewrite A, B.
  - unfold storable, vsize in *. now rewrite A.
Qed.
Lemma alike_psz t al x y : alike x y -> psz t al y = psz t al x.
Proof. intros A. unfold psz. now rewrite (alike_size t x y A). Qed.
Lemma alike_plen t al l m : Forall2 alike l m -> plen t al m = plen t al l.
Proof. induction 1 as [|x y l m A _ IH]; cbn [plen]; auto. now rewrite IH, (alike_psz t al x y A). Qed.
Lemma alike_infos t al l m : Forall2 alike l m -> forall s, infos_of t al s m = infos_of t al s l.
Proof.
  induction 1 as [|x y l m A _ IH]; intros s; cbn [infos_of]; auto. rewrite IH, (alike_psz t al x y A). f_equal.
  unfold info_of. rewrite (alike_size t x y A). destruct A as [-> _]. reflexivity.
Qed.
Lemma alike_Forall t l m : Forall2 alike l m -> Forall (good t) l -> Forall (good t) m.
Proof. induction 1; intros F; inversion F; subst; constructor; auto. eapply alike_good; eauto. Qed.
Lemma alike_valigns t a l m : Forall2 alike l m -> Forall (fun x => valign t x <= a) l -> Forall (fun x => valign t x <= a) m.
Proof. induction 1 as [|x y l m A _ IH]; intros F; inversion F; subst; constructor; auto. now rewrite (alike_valign t x y A). Qed.
Lemma alike_len l m : Forall2 alike l m -> length m = length l.
Proof. induction 1; cbn; auto. Qed.
Lemma alike_all_refl l : Forall2 alike l l.
Proof. induction l; constructor; auto using alike_refl. Qed.

Lemma alike_all_trans l m n : Forall2 alike l m -> Forall2 alike m n -> Forall2 alike l n.
Proof.
  intros A. revert n. induction A; intros n B; inversion B; subst; constructor; auto. eapply alike_trans; eauto.
Qed.

Section WithConfig.
Context {C : Config}.

(** The bytes of the buffer may become those of another list of the same shape. *)
Lemma orep_reshape t self l l' o d d' w :
  orep t self l o d w -> Forall2 alike l l' -> zlen d' = zlen d -> contents t (o_pal o) 0 l' d' ->
  orep t self l' o d' (set_heap (hput (w_heap w) (o_ptr o) d') w).
Proof.
  intros R A L Hc. pose proof (alike_Forall t l l' A) as AF. pose proof (alike_len l l' A) as AL.
  assert (ZL : zlen l' = zlen l) by (unfold zlen; now rewrite AL).
  destruct o as [v|v|v|]; ocbn in *; try contradiction; destruct R; constructor; auto; proj; try (eapply buf_hput; eauto); try congruence.
  - now rewrite (alike_infos t 1 l l' A).
  - now rewrite (alike_plen t 1 l l' A).
  - eapply alike_valigns; eauto.
  - now rewrite (alike_infos t _ l l' A).
  - now rewrite (alike_plen t _ l l' A).
Qed.

Lemma orep_overwrite t self a x b y o d w : orep t self (a ++ x :: b) o d w -> alike x y ->
  exists d', let w' := set_heap (hput (w_heap w) (o_ptr o) d') w in
    mem_write (padd (o_ptr o) (plen t (o_pal o) a)) (v_bytes y) w = (Ok tt, w') /\ orep t self (a ++ y :: b) o d' w' /\
    quiet self w w'.
Proof.
  intros R A. pose proof (orep_buf _ _ _ _ _ _ R) as Bu. pose proof (orep_good _ _ _ _ _ _ R) as G. pose proof (orep_fit _ _ _ _ _ _ R) as Fi.
  pose proof (pow2_pos _ (orep_pal _ _ _ _ _ _ R)) as Pp. pose proof (buf_len _ _ _ _ _ Bu) as DL.
  apply Forall_app in G as [Ga G]. inversion G as [|? ? Gx Gb]; subst. pose proof (alike_good t x y A Gx) as Gy.
  pose proof (good_bytes t y Gy) as By. pose proof (alike_size t x y A) as Sz. pose proof (good_size t x Gx) as Sx.
  unfold o_blen in Fi. rewrite plen_app in Fi. cbn [plen] in Fi.
  pose proof (psz_ge t (o_pal o) Pp x). pose proof (plen_nonneg t (o_pal o) Pp a Ga). pose proof (plen_nonneg t (o_pal o) Pp b Gb).
  set (off := plen t (o_pal o) a) in *. exists (splice off (v_bytes y) d). cbv zeta. ands.
  - eapply mem_write_buf; eauto; lia.
  - eapply orep_reshape; eauto.
    + apply Forall2_app; [apply alike_all_refl|]. constructor; auto using alike_all_refl.
    + apply splice_len; lia.
    + pose proof (orep_data _ _ _ _ _ _ R) as D. apply contents_app in D as [Da D]. rewrite Z.add_0_l in D. fold off in D. cbn [contents] in D. destruct D as [Dx Db].
      apply contents_app. rewrite Z.add_0_l. fold off. split; [|cbn [contents]; split].
      * apply contents_splice_before; auto; try lia. pose proof (ulen_le t (o_pal o) Pp a). fold off in H2. lia.
      * rewrite <- By. apply sub_splice_same; lia.
      * rewrite (alike_psz t _ x y A). apply contents_splice_after; auto; try lia. pose proof (ulen_le t (o_pal o) Pp b). lia.
  - eapply quiet_put; eauto.
Qed.
Lemma firstn_app_len {A} (a b : list A) : firstn (length a) (a ++ b) = a.
Proof. now rewrite firstn_app, firstn_all, Nat.sub_diag, firstn_O, app_nil_r. Qed.
Lemma replace_at_app {A} (a b : list A) x y : replace_at (length a) y (a ++ x :: b) = a ++ y :: b.
Proof.
  unfold replace_at. rewrite firstn_app_len. f_equal. f_equal. rewrite skipn_app, (skipn_all2 a) by lia.
  replace (S (length a) - length a)%nat with 1%nat by lia. reflexivity.
Qed.
Lemma replace_at_alike l i x y : nth_error l i = Some x -> alike x y -> Forall2 alike l (replace_at i y l).
Proof.
  intros N A. apply nth_error_split in N as (a & b & -> & <-). rewrite replace_at_app.
  apply Forall2_app; [apply alike_all_refl|]. constructor; auto using alike_all_refl.
Qed.
Lemma overwrite_at t self l o d w i x y : orep t self l o d w -> nth_error l i = Some x -> alike x y ->
  exists d', let w' := set_heap (hput (w_heap w) (o_ptr o) d') w in
    mem_write (wp (eref_at t o l i)) (v_bytes y) w = (Ok tt, w') /\ orep t self (replace_at i y l) o d' w' /\ quiet self w w'.
Proof.
  intros R N A. apply nth_error_split in N as (a & b & -> & <-). rewrite replace_at_app.
  destruct (orep_overwrite t self a x b y o d w R A) as (d' & H). exists d'. unfold eref_at, eref. cbn [wp].
  rewrite firstn_app_len. exact H.
Qed.
Lemma firstn_Forall2 {A B} (P : A -> B -> Prop) l m : Forall2 P l m -> forall i, Forall2 P (firstn i l) (firstn i m).
Proof. induction 1; intros [|i]; cbn; constructor; auto. Qed.
(** References stay the same when the list changes in place. *)
Lemma eref_at_alike t o l l' i : Forall2 alike l l' -> wp (eref_at t o l' i) = wp (eref_at t o l i).
Proof. intros A. unfold eref_at, eref. cbn [wp]. now rewrite (alike_plen t _ _ _ (firstn_Forall2 _ _ _ A i)). Qed.

(** Writing new values through many references, one after another. *)
Fixpoint write_all (ws : list (wide * value)) : M unit :=
  match ws with [] => ret tt | (r, y) :: ws => mem_write (wp r) (v_bytes y) ;; write_all ws end.
Fixpoint replace_all (js : list nat) (ys l : list value) : list value :=
  match js, ys with j :: js, y :: ys => replace_all js ys (replace_at j y l) | _, _ => l end.
Lemma write_all_eq t self o js : forall ys l0 l d w, orep t self l o d w -> Forall2 alike l0 l ->
  Forall2 (fun j y => exists x, nth_error l0 j = Some x /\ alike x y) js ys ->
  exists d' w', write_all (combine (map (eref_at t o l0) js) ys) w = (Ok tt, w') /\
    orep t self (replace_all js ys l) o d' w' /\ quiet self w w' /\ w_nalloc w' = w_nalloc w.
Proof.
  induction js as [|j js IH]; intros ys l0 l d w R A F; inversion F as [|? y ? ys' (x & Nx & Ax) F']; subst; cbn [map combine write_all replace_all].
  - exists d, w. ands; auto. apply quiet_refl.
  - assert (X : exists x', nth_error l j = Some x' /\ alike x' y).
    { clear -A Nx Ax. revert j Nx. induction A as [|u v l0 l Huv _ IH]; intros [|j] N; cbn in *; try discriminate; auto.
      injection N as ->. exists v. split; auto. destruct Huv, Ax. split; congruence. }
    destruct X as (x' & N' & A').
    destruct (overwrite_at t self l o d w j x' y R N' A') as (d1 & W & R1 & Q1).
    rewrite (eref_at_alike t o l0 l j A) in W.
    destruct (IH ys' l0 (replace_at j y l) d1 _ R1) as (d2 & w2 & W2 & R2 & Q2 & E2); auto.
    { eapply alike_all_trans; [exact A|eapply replace_at_alike; eauto]. }
    exists d2, w2. ands; auto.
    + rewrite (bind_eq _ _ _ _ _ W). exact W2.
    + eapply quiet_trans; eauto.
Qed.
End WithConfig.
