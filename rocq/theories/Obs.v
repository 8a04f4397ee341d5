(** Vocabulary and glue for the property files. *)
From Coq Require Import ZArith List Bool Lia.
From Verif Require Import Types World ValidSize Emplace SizedVec AlignedVec UnalignedVec Api Spec Bytes Arith Wp Mem Repr
  Access Reserve Realign Orep Push Deal PushWith Shell Insert Take Pop Box Iter Calls DropVec Family Build.
Import ListNotations.
Open Scope Z_scope.
Open Scope m_scope.

(** Bytes of all elements, without and with padding to a multiple of [a]. *)
Definition total (t : ty) (l : list value) : Z := fold_right (fun x n => vsize t x + n) 0 l.
Definition padded_total (t : ty) (a : Z) (l : list value) : Z := fold_right (fun x n => pad (vsize t x) a + n) 0 l.
Lemma padded_total_plen t a l : padded_total t a l = plen t a l.
Proof. induction l; cbn [padded_total fold_right plen]; [auto|]. fold (padded_total t a l). now rewrite IHl. Qed.
Lemma total_plen t l : total t l = plen t 1 l.
Proof. induction l; cbn [total fold_right plen]; [auto|]. fold (total t l). unfold psz. now rewrite pad_1, IHl. Qed.

(** Every other vector in the world is exactly as before, in the same buffer, and still shares no memory with [self]. No memory is
    leaked: a live block is the vector's own, one of [bs], or was live before and not the vector's. Memory that is not the
    vector's is neither written nor freed nor taken over. *)
Definition others_but (bs : list nat) (self : nat) (w w' : world) : Prop :=
  (forall t j l, repr t j l w -> sep w self j -> repr t j l w' /\ sep w' self j /\ owned_block w' j = owned_block w j) /\
  (forall b, heap_get (w_heap w') b <> None ->
     owned_block w' self = Some b \/ In b bs \/ heap_get (w_heap w) b <> None /\ owned_block w self <> Some b) /\
  (forall b, heap_get (w_heap w) b <> None -> owned_block w self <> Some b ->
     heap_get (w_heap w') b = heap_get (w_heap w) b /\ owned_block w' self <> Some b).
Notation others := (others_but []).

Lemma live_lt h b : heap_get h b <> None -> (b < length h)%nat.
Proof. unfold heap_get. intros H. apply nth_error_Some. intros E. now rewrite E in H. Qed.

Section WithConfig.
Context {C : Config}.

Lemma others_frame self w w' : frame self w w' -> others self w w'.
Proof.
  intros F. split; [|split].
  - intros t j l R S. destruct (repr_frame _ _ _ _ _ _ F R S) as [R' S']. split; [|split]; auto.
    unfold owned_block. rewrite (fr_vecs _ _ _ F); auto. destruct S; auto.
  - intros b L. destruct (le_lt_dec (length (w_heap w)) b) as [Lb|Lb]; [left; now apply (fr_new _ _ _ F)|].
    destruct (owned_block w self) as [k|] eqn:O.
    + destruct (Nat.eq_dec k b) as [->|N]; [left; now apply (fr_old _ _ _ F)|].
      right; right. rewrite <- (fr_other _ _ _ F b Lb) by congruence. split; congruence.
    + right; right. rewrite <- (fr_other _ _ _ F b Lb) by congruence. split; congruence.
  - intros b L N. pose proof (live_lt _ _ L) as Lb. split; [now apply (fr_other _ _ _ F)|].
    intros O. destruct (fr_owned _ _ _ F b O); [contradiction|lia].
Qed.

(** The vector's contents, as the invariant and as seen through [len] and indexing. *)
Definition holds_list (t : ty) (self : nat) (l : list value) (w : world) : Prop := repr t self l w /\ shows t self l w.
Lemma repr_holds t self l w : repr t self l w -> holds_list t self l w.
Proof. intros R. split; auto. now apply repr_shows. Qed.

(** The allocator serves every request; destructors return. *)
Definition alloc_total : Prop := forall n, cfg_alloc n <> None.
Definition drops_quiet : Prop := forall n, cfg_drop_panics n = false.
Lemma no_alloc_failed w w' : alloc_total -> ~ alloc_failed w w'.
Proof. intros T (n & _ & E). now apply (T n). Qed.
Lemma no_drop_panicked w w' : drops_quiet -> ~ drop_panicked w w'.
Proof. intros T (n & _ & E). rewrite T in E. discriminate. Qed.

Lemma run_ok {A} (m : M A) w Qo Qp Qa : run m w Qo Qp Qa -> (forall r w', ~ Qp r w') -> (forall w', ~ Qa w') ->
  exists a w', m w = (Ok a, w') /\ Qo a w'.
Proof. unfold run. destruct (m w) as [[] w'] eqn:E; intros H P Q; eauto; exfalso; eauto. eapply P; eauto. eapply Q; eauto. Qed.
Lemma run_of_eq {A} (m : M A) w Qo Qp Qa a w' : run m w Qo Qp Qa -> m w = (Ok a, w') -> Qo a w'.
Proof. unfold run. intros H E. now rewrite E in H. Qed.

(** Concrete vectors for the examples: built by the model's own [unsized_vec!]. *)
Lemma built_repr t xs w v w' : wf_ty t -> nzst t -> takes t 8 xs -> v_of_values t xs w = (Ok v, w') ->
  repr t v xs w'.
Proof. intros W N T E. pose proof (run_of_eq _ _ _ _ _ _ _ (v_of_values_wp t xs w W N T) E) as (R & V & _). auto. Qed.
End WithConfig.

(** Decidable well-formedness, for the examples. *)
Definition pow2b (a : Z) : bool := (0 <? a) && (Z.log2 a <=? 63) && (a =? 2 ^ Z.log2 a).
Lemma pow2b_ok a : pow2b a = true -> pow2 a.
Proof.
  unfold pow2b. rewrite !andb_true_iff, Z.ltb_lt, Z.leb_le, Z.eqb_eq. intros [[A B] D]. exists (Z.log2 a).
  pose proof (Z.log2_nonneg a). auto.
Qed.
Definition goodb (t : ty) (x : value) : bool :=
  let s := vsize t x in let a := valign t x in
  (0 <=? s) && pow2b a && (s <=? isize_max - (a - 1)) && (s mod a =? 0) &&
  match t, v_meta x with
  | TSized _ _, MUnit => true
  | TSlice es _, MLen n => (0 <=? n) && (n <=? usize_max) && negb (es =? 0)
  | TStr, MLen n | TCStr, MLen n | TTail _ _ _, MLen n => 0 <=? n
  | TDyn, MVt _ _ _ => true
  | _, _ => false
  end && (Z.of_nat (length (v_bytes x)) =? s).
Lemma goodb_ok t x : goodb t x = true -> good t x.
Proof.
  unfold goodb. rewrite !andb_true_iff, !Z.leb_le, !Z.eqb_eq. intros [[[[[A B] D] E] F] G]. apply pow2b_ok in B.
  assert (T : forall a, t <> TSlice 0 a). { intros a ->. destruct (v_meta x); cbn in F; try discriminate. now rewrite !andb_false_r in F. }
  apply good_of_wf; auto. split; auto. unfold wf_meta. fold (vsize t x) (valign t x). split; [split; [lia|split; auto]|]. split; auto.
  destruct t, (v_meta x); try discriminate; auto; try (now apply Z.leb_le).
  rewrite !andb_true_iff, !Z.leb_le in F. lia.
Qed.
Definition takesb (t : ty) (al : Z) (xs : list value) : bool :=
  forallb (fun x => goodb t x && match kind_of t with KUnaligned => (0 <? vsize t x) || (valign t x <=? al) | _ => true end) xs.
Lemma takesb_ok t al xs : takesb t al xs = true -> takes t al xs.
Proof.
  unfold takesb, takes. rewrite forallb_forall, Forall_forall. intros H x I. specialize (H x I).
  rewrite andb_true_iff in H. destruct H as [G K]. split; [now apply goodb_ok|]. intros E. rewrite E in K.
  rewrite orb_true_iff, Z.ltb_lt, Z.leb_le in K. exact K.
Qed.
