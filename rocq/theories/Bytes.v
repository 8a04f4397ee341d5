(** Lemmas about byte ranges ([sub], [splice]) and list updates. *)
From Coq Require Import ZArith List Bool Lia.
From Verif Require Import Types World.
Import ListNotations.
Open Scope Z_scope.

Lemma zlen_nil {A} : zlen (@nil A) = 0. Proof. reflexivity. Qed.
Lemma zlen_cons {A} (x : A) l : zlen (x :: l) = zlen l + 1.
Proof. unfold zlen; simpl length; lia. Qed.
Lemma zlen_app {A} (l m : list A) : zlen (l ++ m) = zlen l + zlen m.
Proof. unfold zlen; rewrite app_length; lia. Qed.
Lemma zlen_nonneg {A} (l : list A) : 0 <= zlen l.
Proof. unfold zlen; lia. Qed.
Lemma zlen_map {A B} (f : A -> B) l : zlen (map f l) = zlen l.
Proof. unfold zlen; now rewrite map_length. Qed.
Lemma zlen_repeat {A} (x : A) n : zlen (repeat x n) = Z.of_nat n.
Proof. unfold zlen; now rewrite repeat_length. Qed.
Lemma zlen_uninit n : 0 <= n -> zlen (uninit n) = n.
Proof. intros; unfold uninit; rewrite zlen_repeat; lia. Qed.
Lemma zlen_zero {A} (l : list A) : zlen l = 0 -> l = [].
Proof. destruct l; auto. rewrite zlen_cons. pose proof (zlen_nonneg l). lia. Qed.

(** The byte at an offset. *)
Definition byte_at (d : list byte) (i : Z) : byte := nth (Z.to_nat i) d Uninit.

Lemma nth_skipn' {A} (l : list A) i j d : nth i (skipn j l) d = nth (j + i) l d.
Proof.
  revert l; induction j; intros l; simpl; auto.
  destruct l; simpl; auto. now destruct i.
Qed.
Lemma nth_firstn' {A} (l : list A) i j d : (i < j)%nat -> nth i (firstn j l) d = nth i l d.
Proof.
  revert l i; induction j; intros l i H; [lia|].
  destruct l; simpl; auto. destruct i; auto. apply IHj; lia.
Qed.

Lemma sub_len off n d : 0 <= off -> 0 <= n -> off + n <= zlen d -> zlen (sub off n d) = n.
Proof.
  unfold sub, zlen; intros. rewrite firstn_length, skipn_length. lia.
Qed.

Lemma byte_at_sub off n d i :
  0 <= off -> 0 <= i < n -> byte_at (sub off n d) i = byte_at d (off + i).
Proof.
  intros. unfold byte_at, sub. rewrite nth_firstn' by lia. rewrite nth_skipn'. f_equal; lia.
Qed.

Lemma splice_len off bs d :
  0 <= off -> off + zlen bs <= zlen d -> zlen (splice off bs d) = zlen d.
Proof.
  unfold splice, zlen; intros. rewrite !app_length, firstn_length, skipn_length. lia.
Qed.

Lemma byte_at_splice off bs d i :
  0 <= off -> off + zlen bs <= zlen d -> 0 <= i ->
  byte_at (splice off bs d) i =
  if (off <=? i) && (i <? off + zlen bs) then byte_at bs (i - off) else byte_at d i.
Proof.
  unfold byte_at, splice, zlen; intros.
  assert (L : length (firstn (Z.to_nat off) d) = Z.to_nat off) by (rewrite firstn_length; lia).
  destruct (Z.leb_spec off i); simpl.
  - rewrite app_nth2 by lia. rewrite L.
    destruct (Z.ltb_spec i (off + Z.of_nat (length bs))).
    + rewrite app_nth1 by lia. f_equal; lia.
    + rewrite app_nth2 by lia. rewrite nth_skipn'. f_equal; lia.
  - rewrite app_nth1 by lia. apply nth_firstn'; lia.
Qed.

Lemma bytes_ext (a b : list byte) :
  zlen a = zlen b -> (forall i, 0 <= i < zlen a -> byte_at a i = byte_at b i) -> a = b.
Proof.
  unfold zlen, byte_at; intros L H.
  apply nth_ext with (d := Uninit) (d' := Uninit); [lia|].
  intros n Hn. specialize (H (Z.of_nat n)). rewrite Nat2Z.id in H. apply H; lia.
Qed.

Lemma sub_zero off d : sub off 0 d = [].
Proof. reflexivity. Qed.

(** Solve an equality between byte lists by comparing bytes. *)
Ltac split_ifs :=
  repeat match goal with
  | |- context [ (?a <=? ?b) && (?c <? ?d) ] =>
      destruct (Z.leb_spec a b); destruct (Z.ltb_spec c d); cbn [andb]
  end.

Lemma sub_splice_before off n o bs d :
  0 <= off -> 0 <= n -> 0 <= o -> o + zlen bs <= zlen d -> off + n <= o ->
  sub off n (splice o bs d) = sub off n d.
Proof.
  intros. pose proof (zlen_nonneg bs).
  apply bytes_ext; rewrite ?sub_len; rewrite ?splice_len; auto; try lia.
  intros i Hi. rewrite !byte_at_sub by lia. rewrite byte_at_splice by lia.
  split_ifs; auto; lia.
Qed.

Lemma sub_splice_after off n o bs d :
  0 <= n -> 0 <= o -> o + zlen bs <= off -> off + n <= zlen d ->
  sub off n (splice o bs d) = sub off n d.
Proof.
  intros. pose proof (zlen_nonneg bs).
  apply bytes_ext; rewrite ?sub_len; rewrite ?splice_len; auto; try lia.
  intros i Hi. rewrite !byte_at_sub by lia. rewrite byte_at_splice by lia.
  split_ifs; auto; lia.
Qed.

(** Reading inside the written range. *)
Lemma sub_splice_in off n o bs d :
  0 <= n -> 0 <= o -> o + zlen bs <= zlen d -> o <= off -> off + n <= o + zlen bs ->
  sub off n (splice o bs d) = sub (off - o) n bs.
Proof.
  intros. pose proof (zlen_nonneg bs).
  apply bytes_ext; rewrite ?sub_len; rewrite ?splice_len; auto; try lia.
  intros i Hi. rewrite !byte_at_sub by lia. rewrite byte_at_splice by lia.
  split_ifs; try lia. f_equal; lia.
Qed.

Lemma sub_all d n : n = zlen d -> sub 0 n d = d.
Proof.
  intros ->. unfold sub, zlen. simpl skipn. rewrite Nat2Z.id. apply firstn_all.
Qed.

Lemma sub_splice_same o bs d n :
  0 <= o -> o + zlen bs <= zlen d -> n = zlen bs -> sub o n (splice o bs d) = bs.
Proof.
  intros. pose proof (zlen_nonneg bs). rewrite sub_splice_in by lia.
  rewrite Z.sub_diag. now apply sub_all.
Qed.

Lemma sub_sub a n b m d :
  0 <= a -> 0 <= n -> 0 <= b -> a + n <= m -> b + m <= zlen d ->
  sub a n (sub b m d) = sub (b + a) n d.
Proof.
  intros. apply bytes_ext; rewrite ?sub_len; rewrite ?sub_len; try lia.
  intros i Hi. rewrite !byte_at_sub by lia. f_equal; lia.
Qed.

Lemma sub_app_l off n d e :
  0 <= off -> 0 <= n -> off + n <= zlen d -> sub off n (d ++ e) = sub off n d.
Proof.
  intros. pose proof (zlen_nonneg e).
  apply bytes_ext; rewrite ?sub_len; rewrite ?zlen_app; try lia.
  intros i Hi. rewrite !byte_at_sub by lia. unfold byte_at. apply app_nth1. unfold zlen in *; lia.
Qed.

Lemma sub_firstn off n m d :
  0 <= off -> 0 <= n -> off + n <= m -> m <= zlen d ->
  sub off n (firstn (Z.to_nat m) d) = sub off n d.
Proof.
  intros.
  assert (L : zlen (firstn (Z.to_nat m) d) = m) by (unfold zlen in *; rewrite firstn_length; lia).
  apply bytes_ext; rewrite ?sub_len; try lia.
  intros i Hi. rewrite !byte_at_sub by lia. unfold byte_at. apply nth_firstn'; lia.
Qed.

Lemma sub_app_mid a b c n : n = zlen b -> sub (zlen a) n (a ++ b ++ c) = b.
Proof.
  intros ->. unfold sub, zlen. rewrite !Nat2Z.id.
  rewrite skipn_app, skipn_all, Nat.sub_diag. simpl.
  rewrite firstn_app, firstn_all, Nat.sub_diag. simpl. apply app_nil_r.
Qed.

(** [upd]. *)
Lemma upd_length {A} (l : list A) i x : length (upd l i x) = length l.
Proof. revert i; induction l; destruct i; simpl; auto. Qed.
Lemma upd_same {A} (l : list A) i x : (i < length l)%nat -> nth_error (upd l i x) i = Some x.
Proof.
  revert i; induction l; destruct i; simpl; intros; auto; try lia. apply IHl; lia.
Qed.
Lemma upd_other {A} (l : list A) i j x : i <> j -> nth_error (upd l i x) j = nth_error l j.
Proof. revert i j; induction l; destruct i, j; simpl; intros; auto; try lia. Qed.
Lemma upd_upd {A} (l : list A) i x y : upd (upd l i x) i y = upd l i y.
Proof. revert i; induction l; destruct i; simpl; auto. now rewrite IHl. Qed.
Lemma upd_nth {A} (l : list A) i x : nth_error l i = Some x -> upd l i x = l.
Proof.
  revert i; induction l; destruct i; simpl; intros H; auto; try discriminate.
  - now inversion H.
  - now rewrite IHl.
Qed.
Lemma nth_error_lt {A} (l : list A) i x : nth_error l i = Some x -> (i < length l)%nat.
Proof. intros H; apply nth_error_Some; congruence. Qed.

(** [heap_get]. *)
Lemma heap_get_upd_same h b o : (b < length h)%nat -> heap_get (upd h b o) b = o.
Proof. intros; unfold heap_get; rewrite upd_same by auto. now destruct o. Qed.
Lemma heap_get_upd_other h b c o : b <> c -> heap_get (upd h b o) c = heap_get h c.
Proof. intros; unfold heap_get; now rewrite upd_other. Qed.
Lemma heap_get_lt h b k : heap_get h b = Some k -> (b < length h)%nat.
Proof.
  unfold heap_get. intros H. apply nth_error_Some. destruct (nth_error h b); congruence.
Qed.
Lemma heap_get_app_old h o b : (b < length h)%nat -> heap_get (h ++ [o]) b = heap_get h b.
Proof. intros; unfold heap_get. now rewrite nth_error_app1. Qed.
Lemma heap_get_app_new h o : heap_get (h ++ [o]) (length h) = o.
Proof. unfold heap_get. rewrite nth_error_app2, Nat.sub_diag by lia. now destruct o. Qed.
Lemma heap_get_app_ge h o b : (length h < b)%nat -> heap_get (h ++ [o]) b = None.
Proof.
  intros; unfold heap_get. replace (nth_error (h ++ [o]) b) with (@None (option block)); auto.
  symmetry; apply nth_error_None. rewrite app_length; simpl; lia.
Qed.
Lemma heap_get_ge h b : (length h <= b)%nat -> heap_get h b = None.
Proof.
  intros; unfold heap_get. replace (nth_error h b) with (@None (option block)); auto.
  symmetry; now apply nth_error_None.
Qed.
