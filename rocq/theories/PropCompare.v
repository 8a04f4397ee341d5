(** C33-C35, C51: comparing, hashing and serialising whole vectors. The element operations are parameters. *)
From Coq Require Import ZArith List Bool Lia.
From Verif Require Import Types World ValidSize Emplace SizedVec AlignedVec UnalignedVec Api Spec Bytes Arith Wp Mem Repr
  Access Reserve Realign Orep Push Deal PushWith Shell Insert Take Pop Box Iter Calls DropVec Family Build PushAll Obs Findings PropPush.
Import ListNotations.
Open Scope Z_scope.
Open Scope m_scope.

(** ** Specification: orders on plain lists *)
(** The lexicographic order that a comparison of elements induces; [None]: unordered. *)
Fixpoint lex_partial {A B} (f : A -> B -> option comparison) (l : list A) (m : list B) : option comparison :=
  match l, m with
  | [], [] => Some Eq
  | [], _ :: _ => Some Lt
  | _ :: _, [] => Some Gt
  | x :: l, y :: m => match f x y with Some Eq => lex_partial f l m | c => c end
  end.
Fixpoint lex {A} (f : A -> A -> comparison) (l m : list A) : comparison :=
  match l, m with
  | [], [] => Eq
  | [], _ :: _ => Lt
  | _ :: _, [] => Gt
  | x :: l, y :: m => match f x y with Eq => lex f l m | c => c end
  end.
(** A comparison is a total order (preorder) on the elements satisfying [P]. *)
Record total_order {A} (P : A -> Prop) (f : A -> A -> comparison) : Prop := TotalOrder {
  to_refl : forall x, P x -> f x x = Eq;
  to_sym : forall x y, P x -> P y -> f y x = CompOpp (f x y);
  to_trans : forall x y z c, P x -> P y -> P z -> f x y = c -> f y z = c -> f x z = c;
  to_eq : forall x y z, P x -> P y -> P z -> f x y = Eq -> f x z = f y z }.

Lemma lex_total {A} (P : A -> Prop) f : total_order P f -> total_order (Forall P) (lex f).
Proof.
  intros [Rf Sy Tr Eqv]. 
  assert (Ev2 : forall x y z, P x -> P y -> P z -> f y z = Eq -> f x z = f x y).
  { intros x y z Px Py Pz E. assert (E' : f z y = Eq) by (rewrite (Sy y z), E; auto). 
    rewrite (Sy z x), (Sy y x) by auto. f_equal. now apply Eqv. }
  constructor.
  - intros l F. induction F; cbn [lex]; auto. now rewrite Rf.
  - intros l. induction l as [|x l IH]; intros [|y m] Fl Fm; cbn [lex]; auto. inversion_clear Fl. inversion_clear Fm.
    rewrite (Sy x y) by auto. destruct (f x y); cbn [CompOpp]; auto.
  - intros l. induction l as [|x l IH]; intros [|y m] [|z n] c Fl Fm Fn; cbn [lex]; try congruence.
    inversion_clear Fl. inversion_clear Fm. inversion_clear Fn.
    destruct (f x y) eqn:E1.
    + rewrite (Eqv x y z) by auto. destruct (f y z) eqn:E2; auto. intros K1 K2. eauto.
    + intros <-. destruct (f y z) eqn:E2; try discriminate.
      * intros _. rewrite (Ev2 x y z), E1; auto.
      * intros _. now rewrite (Tr x y z Lt).
    + intros <-. destruct (f y z) eqn:E2; try discriminate.
      * intros _. rewrite (Ev2 x y z), E1; auto.
      * intros _. now rewrite (Tr x y z Gt).
  - intros l. induction l as [|x l IH]; intros [|y m] [|z n] Fl Fm Fn; cbn [lex]; try congruence.
    inversion_clear Fl. inversion_clear Fm. inversion_clear Fn.
    destruct (f x y) eqn:E1; try discriminate. intros K. rewrite (Eqv x y z) by auto. destruct (f y z); auto.
Qed.
Lemma lex_eq {A} (f : A -> A -> comparison) : forall l m, lex f l m = Eq <-> Forall2 (fun x y => f x y = Eq) l m.
Proof.
  induction l as [|x l IH]; intros [|y m]; cbn [lex]; split; intros H; try discriminate; auto; try (inversion H; fail).
  - destruct (f x y) eqn:E; try discriminate. constructor; auto. now apply IH.
  - inversion_clear H. rewrite H0. now apply IH.
Qed.
Lemma lex_some {A} (f : A -> A -> comparison) : forall l m, lex_partial (fun x y => Some (f x y)) l m = Some (lex f l m).
Proof. induction l as [|x l IH]; intros [|y m]; cbn [lex lex_partial]; auto. destruct (f x y); auto. Qed.

(** A recording serialiser. *)
Inductive event := Begin (n : Z) | Elem (x : value) | End.
Definition rec_begin (n : Z) : list event + unit := inl [Begin n].
Definition rec_elem (st : list event) (x : value) : list event + unit := inl (st ++ [Elem x]).
Definition rec_fin (st : list event) : list event + unit := inl (st ++ [End]).
(** What a serialiser that may fail at any call makes of the elements. *)
Fixpoint feed_all {S E} (elem : S -> value -> S + E) (l : list value) (st : S) : S + E :=
  match l with
  | [] => inl st
  | x :: l => match elem st x with inl st' => feed_all elem l st' | inr e => inr e end
  end.

Section WithConfig.
Context {C : Config}.

(** ** C33 *)
Fixpoint all2 (f : value -> value -> bool) (l m : list value) : bool :=
  match l, m with x :: l, y :: m => f x y && all2 f l m | _, _ => true end.
Lemma iref_read t self l o d w a x b : orep t self l o d w -> l = a ++ x :: b -> read_value t (iref t o a x) w = (Ok x, w).
Proof. intros R E. eapply behind_read. eapply iref_behind; eauto. Qed.

Lemma zip_all_eq t u f self l o d other m o' d' w : orep t self l o d w -> orep u other m o' d' w ->
  forall l1 m1 a b it it', l = a ++ l1 -> m = b ++ m1 -> covers t o a l1 it -> covers u o' b m1 it' ->
  v_zip_all t u f (length l1) it it' w = (Ok (all2 f l1 m1), w).
Proof.
  intros R R'. induction l1 as [|x l1 IH]; intros m1 a b it it' El Em Cv Cv'; cbn [length v_zip_all]; [reflexivity|].
  destruct (v_next_cons t self l o d w a x l1 [] it R Cv) as (it1 & N & Cv1). { now rewrite app_nil_r. }
  erewrite bind_eq by exact N. cbv beta iota. destruct m1 as [|y m1].
  - erewrite bind_eq by (eapply v_next_nil; eauto). reflexivity.
  - destruct (v_next_cons u other m o' d' w b y m1 [] it' R' Cv') as (it2 & N' & Cv2). { now rewrite app_nil_r. }
    erewrite bind_eq by exact N'. cbv beta iota.
    erewrite bind_eq by (eapply iref_read; eauto). erewrite bind_eq by (eapply iref_read; eauto). cbn [all2].
    destruct (f x y); cbn [andb]; [|reflexivity]. eapply IH; eauto. + now rewrite <- app_assoc. + now rewrite <- app_assoc.
Qed.
Lemma v_eq_eq t u f self l other m w : repr t self l w -> repr u other m w ->
  v_eq t u f self other w = (Ok ((zlen l =? zlen m) && all2 f l m), w).
Proof.
  intros R R'. unfold v_eq. erewrite bind_eq by (eapply v_len_eq; eauto). erewrite bind_eq by (eapply v_len_eq; eauto).
  apply repr_orep in R as (o & d & R). apply repr_orep in R' as (o' & d' & R').
  destruct (zlen l =? zlen m); [|reflexivity]. cbn [andb].
  destruct (v_iter_eq _ _ _ _ _ _ R) as (it & I & Cv & L). destruct (v_iter_eq _ _ _ _ _ _ R') as (it' & I' & Cv' & L').
  erewrite bind_eq by exact I. erewrite bind_eq by exact I'. rewrite L. now apply (zip_all_eq t u f self l o d other m o' d' w R R' l m [] []).
Qed.
Lemma all2_forall f : forall l m, length l = length m -> all2 f l m = true <-> Forall2 (fun x y => f x y = true) l m.
Proof.
  induction l as [|x l IH]; intros [|y m] L; try discriminate L; cbn [all2].
  - split; auto.
  - injection L as L. rewrite andb_true_iff, (IH m L). split; [intros [A B]; now constructor|intros H; inversion H; auto].
Qed.

(** [==] never fails, changes nothing, and is element-wise equality. The two vectors may be the same one. *)
Theorem C33_eq t u f self l other m w : repr t self l w -> repr u other m w ->
  exists b, v_eq t u f self other w = (Ok b, w) /\ (b = true <-> Forall2 (fun x y => f x y = true) l m).
Proof.
  intros R R'. eexists. split; [eapply v_eq_eq; eauto|]. rewrite andb_true_iff, Z.eqb_eq. unfold zlen. rewrite Nat2Z.inj_iff. split.
  - intros [L A]. now apply all2_forall.
  - intros H. assert (length l = length m) by (clear -H; induction H; cbn; congruence). split; auto. now apply all2_forall.
Qed.
Lemma eq_true t u f self l other m w : repr t self l w -> repr u other m w ->
  v_eq t u f self other w = (Ok true, w) <-> Forall2 (fun x y => f x y = true) l m.
Proof.
  intros R R'. destruct (C33_eq t u f _ _ _ _ _ R R') as (b & E & H). rewrite E, <- H. split; [congruence|now intros ->].
Qed.
Theorem C33_equivalence t f a b c l m n w : repr t a l w -> repr t b m w -> repr t c n w ->
  (Forall (fun x => f x x = true) l -> v_eq t t f a a w = (Ok true, w)) /\
  ((forall x y, In x l -> In y m -> f x y = true -> f y x = true) ->
     v_eq t t f a b w = (Ok true, w) -> v_eq t t f b a w = (Ok true, w)) /\
  ((forall x y z, In x l -> In y m -> In z n -> f x y = true -> f y z = true -> f x z = true) ->
     v_eq t t f a b w = (Ok true, w) -> v_eq t t f b c w = (Ok true, w) -> v_eq t t f a c w = (Ok true, w)).
Proof.
  intros Ra Rb Rc. rewrite !(eq_true t t f a l a l w), !(eq_true t t f a l b m w), !(eq_true t t f b m a l w), !(eq_true t t f b m c n w),
    !(eq_true t t f a l c n w) by auto. clear. ands.
  - intros F. induction F; auto.
  - intros H F. revert H. induction F; intros S; constructor; [apply S; cbn; auto|]. apply IHF. intros. apply S; cbn; auto.
  - intros H F. revert n H. induction F as [|x y l m E F IH]; intros n H G; inversion G; subst; constructor.
    + eapply H; cbn; eauto.
    + apply IH; auto. intros. eapply H; cbn; eauto.
Qed.

(** ** C34 *)
Lemma zip_cmp_eq t u f self l o d other m o' d' w : orep t self l o d w -> orep u other m o' d' w ->
  forall l1 m1 a b it it', l = a ++ l1 -> m = b ++ m1 -> covers t o a l1 it -> covers u o' b m1 it' ->
  exists r, v_zip_cmp t u f (length l1) it it' w = (Ok r, w) /\
    lex_partial f l1 m1 = match r with Some c => c | None => Some (zlen l1 ?= zlen m1) end.
Proof.
  intros R R'. assert (SL : forall (A B : Type) (x : A) (y : B) p q, (zlen (x :: p) ?= zlen (y :: q)) = (zlen p ?= zlen q)).
  { intros. unfold zlen. rewrite !Nat2Z.inj_compare; reflexivity. }
  induction l1 as [|x l1 IH]; intros m1 a b it it' El Em Cv Cv'; cbn [length v_zip_cmp].
  - exists None. split; [reflexivity|]. now destruct m1.
  - destruct (v_next_cons t self l o d w a x l1 [] it R Cv) as (it1 & N & Cv1). { now rewrite app_nil_r. }
    erewrite bind_eq by exact N. cbv beta iota. destruct m1 as [|y m1].
    + exists None. erewrite bind_eq by (eapply v_next_nil; eauto). split; reflexivity.
    + destruct (v_next_cons u other m o' d' w b y m1 [] it' R' Cv') as (it2 & N' & Cv2). { now rewrite app_nil_r. }
      erewrite bind_eq by exact N'. cbv beta iota.
      erewrite bind_eq by (eapply iref_read; eauto). erewrite bind_eq by (eapply iref_read; eauto). cbn [lex_partial]. rewrite SL.
      destruct (f x y) as [[]|]; try (eexists; split; reflexivity).
      eapply IH; eauto. * now rewrite <- app_assoc. * now rewrite <- app_assoc.
Qed.
Lemma zip_ord_eq t f self l o d other m o' d' w : orep t self l o d w -> orep t other m o' d' w ->
  forall l1 m1 a b it it', l = a ++ l1 -> m = b ++ m1 -> covers t o a l1 it -> covers t o' b m1 it' ->
  exists r, v_zip_ord t f (length l1) it it' w = (Ok r, w) /\
    lex f l1 m1 = match r with Eq => zlen l1 ?= zlen m1 | c => c end.
Proof.
  intros R R'. assert (SL : forall (A B : Type) (x : A) (y : B) p q, (zlen (x :: p) ?= zlen (y :: q)) = (zlen p ?= zlen q)).
  { intros. unfold zlen. rewrite !Nat2Z.inj_compare; reflexivity. }
  induction l1 as [|x l1 IH]; intros m1 a b it it' El Em Cv Cv'; cbn [length v_zip_ord].
  - exists Eq. split; [reflexivity|]. now destruct m1.
  - destruct (v_next_cons t self l o d w a x l1 [] it R Cv) as (it1 & N & Cv1). { now rewrite app_nil_r. }
    erewrite bind_eq by exact N. cbv beta iota. destruct m1 as [|y m1].
    + exists Eq. erewrite bind_eq by (eapply v_next_nil; eauto). split; reflexivity.
    + destruct (v_next_cons t other m o' d' w b y m1 [] it' R' Cv') as (it2 & N' & Cv2). { now rewrite app_nil_r. }
      erewrite bind_eq by exact N'. cbv beta iota.
      erewrite bind_eq by (eapply iref_read; eauto). erewrite bind_eq by (eapply iref_read; eauto). cbn [lex]. rewrite SL.
      destruct (f x y); try (eexists; split; reflexivity).
      eapply IH; eauto. * now rewrite <- app_assoc. * now rewrite <- app_assoc.
Qed.
Theorem C34_partial_cmp t u f self l other m w : repr t self l w -> repr u other m w ->
  v_partial_cmp t u f self other w = (Ok (lex_partial f l m), w).
Proof.
  intros Ra Rb. pose proof (v_len_eq _ _ _ _ Ra) as La. pose proof (v_len_eq _ _ _ _ Rb) as Lb.
  apply repr_orep in Ra as (o & d & R). apply repr_orep in Rb as (o' & d' & R'). unfold v_partial_cmp.
  destruct (v_iter_eq _ _ _ _ _ _ R) as (it & I & Cv & L). destruct (v_iter_eq _ _ _ _ _ _ R') as (it' & I' & Cv' & L').
  erewrite bind_eq by exact I. erewrite bind_eq by exact I'. rewrite L.
  destruct (zip_cmp_eq t u f _ _ _ _ _ _ _ _ _ R R' l m [] [] it it' eq_refl eq_refl Cv Cv') as (r & Z & E).
  erewrite bind_eq by exact Z. rewrite E. destruct r; [reflexivity|].
  erewrite bind_eq by exact La. erewrite bind_eq by exact Lb. reflexivity.
Qed.
Theorem C34_cmp t f self l other m w : repr t self l w -> repr t other m w ->
  v_cmp t f self other w = (Ok (lex f l m), w).
Proof.
  intros Ra Rb. pose proof (v_len_eq _ _ _ _ Ra) as La. pose proof (v_len_eq _ _ _ _ Rb) as Lb.
  apply repr_orep in Ra as (o & d & R). apply repr_orep in Rb as (o' & d' & R'). unfold v_cmp.
  destruct (v_iter_eq _ _ _ _ _ _ R) as (it & I & Cv & L). destruct (v_iter_eq _ _ _ _ _ _ R') as (it' & I' & Cv' & L').
  erewrite bind_eq by exact I. erewrite bind_eq by exact I'. rewrite L.
  destruct (zip_ord_eq t f _ _ _ _ _ _ _ _ _ R R' l m [] [] it it' eq_refl eq_refl Cv Cv') as (r & Z & E).
  erewrite bind_eq by exact Z. rewrite E. destruct r; try reflexivity.
  erewrite bind_eq by exact La. erewrite bind_eq by exact Lb. reflexivity.
Qed.
(** With a total order on the elements ([P] holds of all of them), vectors are totally ordered, and [cmp], [partial_cmp] and
    [==] agree. [answer f a b w] is what [a.cmp(&b)] answers. *)
Definition answer (t : ty) (f : value -> value -> comparison) (a b : nat) (w : world) : option comparison :=
  match v_cmp t f a b w with (Ok c, _) => Some c | _ => None end.
Theorem C34_lawful t f eqb (P : value -> Prop) a b c l m n w : repr t a l w -> repr t b m w -> repr t c n w ->
  total_order P f -> Forall P l -> Forall P m -> Forall P n ->
  (forall x y, P x -> P y -> f x y = Eq <-> eqb x y = true) ->
  answer t f a a w = Some Eq /\
  (exists o, answer t f a b w = Some o /\ answer t f b a w = Some (CompOpp o) /\
     v_partial_cmp t t (fun x y => Some (f x y)) a b w = (Ok (Some o), w) /\ v_eq t t eqb a b w = (Ok (match o with Eq => true | _ => false end), w)) /\
  (forall o, answer t f a b w = Some o -> answer t f b c w = Some o -> answer t f a c w = Some o) /\
  (answer t f a b w = Some Eq -> answer t f a c w = answer t f b c w).
Proof.
  intros Ra Rb Rc T Pl Pm Pn Q. pose proof (lex_total P f T) as [Rf Sy Tr Ev]. unfold answer.
  rewrite !(C34_cmp t f a l a l w), !(C34_cmp t f a l b m w), !(C34_cmp t f b m a l w), !(C34_cmp t f b m c n w), !(C34_cmp t f a l c n w) by auto. ands.
  - now rewrite Rf.
  - exists (lex f l m). ands; auto. + now rewrite Sy.
    + rewrite (C34_partial_cmp t t _ a l b m w) by auto. now rewrite lex_some.
    + destruct (C33_eq t t eqb a l b m w Ra Rb) as (e & E & H). rewrite E. do 2 f_equal.
      assert (X : lex f l m = Eq <-> e = true).
      { rewrite lex_eq, H. clear -Pl Pm Q. revert m Pm. induction Pl as [|x l Px Pl IH]; intros m Pm; split; intros F; inversion F; subst; inversion_clear Pm; constructor; auto; try (now apply Q); now apply IH. }
      destruct e; destruct (lex f l m); auto; try (assert (true = false) by (symmetry; apply X; auto); discriminate).
      * assert (Lt = Eq) by (now apply X). discriminate.
      * assert (Gt = Eq) by (now apply X). discriminate.
  - intros o [= E1] [= E2]. f_equal. now apply (Tr l m n).
  - intros [= E]. f_equal. now apply Ev.
Qed.

(** ** C35 *)
Lemma hash_loop_eq {H} t (feed : value -> H -> H) self l o d w : orep t self l o d w ->
  forall m a it st, l = a ++ m -> covers t o a m it ->
  v_hash_loop t feed (length m) it st w = (Ok (fold_left (fun st x => feed x st) m st), w).
Proof.
  intros R. induction m as [|x m IH]; intros a it st El Cv; cbn [length v_hash_loop]; [reflexivity|].
  destruct (v_next_cons t self l o d w a x m [] it R Cv) as (it1 & N & Cv1). { now rewrite app_nil_r. }
  erewrite bind_eq by exact N. cbv beta iota. erewrite bind_eq by (eapply iref_read; eauto). cbn [fold_left].
  eapply IH; eauto. now rewrite <- app_assoc.
Qed.
Theorem C35_hash_feeds {H} t (feed : value -> H -> H) self l st w : repr t self l w ->
  v_hash t feed self st w = (Ok (fold_left (fun st x => feed x st) l st), w).
Proof.
  intros R. apply repr_orep in R as (o & d & R). unfold v_hash. destruct (v_iter_eq _ _ _ _ _ _ R) as (it & I & Cv & L).
  erewrite bind_eq by exact I. rewrite L. now eapply (hash_loop_eq t feed self l o d w R l []).
Qed.
(** Equal vectors (in any two implementations) leave every hasher in the same state. *)
Theorem C35_equal_hash {H} t u eqb (feed : value -> H -> H) self l other m st w : repr t self l w -> repr u other m w ->
  (forall x y s, In x l -> In y m -> eqb x y = true -> feed x s = feed y s) ->
  v_eq t u eqb self other w = (Ok true, w) ->
  exists h, v_hash t feed self st w = (Ok h, w) /\ v_hash u feed other st w = (Ok h, w).
Proof.
  intros R R' F E. apply eq_true with (l := l) (m := m) in E; auto. eexists. split; [exact (C35_hash_feeds t feed self l st w R)|].
  rewrite (C35_hash_feeds u feed other m st w R'). do 2 f_equal. clear -F E. revert st. induction E as [|x y l m E El IH]; intros st; cbn [fold_left]; auto.
  rewrite (F x y) by (cbn; auto). apply IH. intros. apply F; cbn; auto.
Qed.

(** ** C51 *)
Lemma ser_loop_eq {S E} t (elem : S -> value -> S + E) self l o d w : orep t self l o d w ->
  forall m a it st, l = a ++ m -> covers t o a m it ->
  v_ser_loop t elem (length m) it st w = (Ok (feed_all elem m st), w).
Proof.
  intros R. induction m as [|x m IH]; intros a it st El Cv; cbn [length v_ser_loop]; [reflexivity|].
  destruct (v_next_cons t self l o d w a x m [] it R Cv) as (it1 & N & Cv1). { now rewrite app_nil_r. }
  erewrite bind_eq by exact N. cbv beta iota. erewrite bind_eq by (eapply iref_read; eauto). cbn [feed_all].
  destruct (elem st x); [|reflexivity]. eapply IH; eauto. now rewrite <- app_assoc.
Qed.
(** Any serialiser: the length is announced, then the elements are fed in order until one is refused, then the end. *)
Theorem C51_serialize {S E O} t (begin : Z -> S + E) elem (fin : S -> O + E) self l w : repr t self l w ->
  v_serialize t begin elem fin self w =
    (Ok (match begin (zlen l) with
         | inr e => inr e
         | inl st => match feed_all elem l st with inl st' => fin st' | inr e => inr e end
         end), w).
Proof.
  intros R. unfold v_serialize. erewrite bind_eq by (eapply v_len_eq; eauto). apply repr_orep in R as (o & d & R).
  destruct (begin (zlen l)) as [st|e]; [|reflexivity]. destruct (v_iter_eq _ _ _ _ _ _ R) as (it & I & Cv & L).
  erewrite bind_eq by exact I. rewrite L. erewrite bind_eq by (now eapply (ser_loop_eq t elem self l o d w R l [])).
  destruct (feed_all elem l st); reflexivity.
Qed.
(** What is written, in full: a recording serialiser sees the length, each element once in order, and the end. *)
Theorem C51_trace t self l w : repr t self l w ->
  v_serialize t rec_begin rec_elem rec_fin self w = (Ok (inl (Begin (zlen l) :: map Elem l ++ [End])), w).
Proof.
  intros R. rewrite (C51_serialize _ _ _ _ _ _ _ R). cbn [rec_begin].
  assert (H : forall l st, feed_all rec_elem l st = inl (st ++ map Elem l)).
  { clear. induction l as [|x l IH]; intros st; cbn [feed_all map]. now rewrite app_nil_r. cbn [rec_elem]. rewrite IH. now rewrite <- app_assoc. }
  rewrite H. reflexivity.
Qed.
End WithConfig.

Print Assumptions C33_eq.
Print Assumptions C33_equivalence.
Print Assumptions C34_partial_cmp.
Print Assumptions C34_cmp.
Print Assumptions C34_lawful.
Print Assumptions C35_hash_feeds.
Print Assumptions C35_equal_hash.
Print Assumptions C51_serialize.
Print Assumptions C51_trace.

(** ** Concrete cases *)
Section Cases.
Local Existing Instance cfg_release.
Definition byte_val (b : byte) : Z := match b with Byte z => z | _ => 0 end.
Definition size_cmp (x y : value) : comparison := Z.of_nat (length (v_bytes x)) ?= Z.of_nat (length (v_bytes y)).
Definition first_eqb (x y : value) : bool := byte_val (hd (Byte 0) (v_bytes x)) =? byte_val (hd (Byte 0) (v_bytes y)).
Lemma size_order : total_order (fun _ => True) size_cmp.
Proof.
  constructor; unfold size_cmp; intros.
  - apply Z.compare_refl.
  - apply Z.compare_antisym.
  - subst c. destruct (Z.compare_spec (Z.of_nat (length (v_bytes x))) (Z.of_nat (length (v_bytes y)))).
    + now rewrite H2.
    + apply (proj1 (Z.compare_lt_iff _ _)) in H3. apply Z.compare_lt_iff. lia.
    + apply (proj1 (Z.compare_gt_iff _ _)) in H3. apply Z.compare_gt_iff. lia.
  - apply Z.compare_eq in H2. now rewrite H2.
Qed.
Definition two (a b : list value) : M (nat * nat) := v <- v_of_values TStr a ;; u <- v_of_values TStr b ;; ret (v, u).
Lemma two_repr a b v u w : takes TStr 8 a -> takes TStr 8 b -> two a b empty_world = (Ok (v, u), w) -> repr TStr v a w /\ repr TStr u b w.
Proof.
  intros Ta Tb E. unfold two in E. assert (W : wf_ty TStr) by exact I. assert (N : nzst TStr) by (intros K; discriminate K).
  unfold bind in E. destruct (v_of_values TStr a empty_world) as [[v1| | |] w1] eqn:E1; try discriminate E.
  destruct (v_of_values TStr b w1) as [[u1| | |] w2] eqn:E2; try discriminate E. injection E as -> -> ->.
  pose proof (run_of_eq _ _ _ _ _ _ _ (v_of_values_wp TStr b w1 W N Tb) E2) as (R & V & _). split; auto.
  eapply newvec_repr; eauto. eapply built_repr; eauto.
Qed.
(** Two vectors of strings, compared by length of the strings, and by first letter. *)
Example C33_case : exists v u w, repr TStr v [ab; cd] w /\ repr TStr u [str_val [97]; cd] w /\
  v_eq TStr TStr first_eqb v u w = (Ok true, w) /\ v_cmp TStr size_cmp v u w = (Ok Gt, w) /\
  v_hash TStr (fun x n => n * 31 + byte_val (hd (Byte 0) (v_bytes x)))%Z v 7 w = v_hash TStr (fun x n => n * 31 + byte_val (hd (Byte 0) (v_bytes x)))%Z u 7 w.
Proof.
  do 3 eexists. apply and_assoc. split; [eapply two_repr; [apply takesb_ok; reflexivity|apply takesb_ok; reflexivity|run]|].
  split; [run|]. split; [run|]. run.
Qed.
Example C51_case : exists v w, repr TStr v [ab; cd] w /\
  v_serialize TStr rec_begin rec_elem rec_fin v w = (Ok (inl [Begin 2; Elem ab; Elem cd; End]), w).
Proof. do 2 eexists. split; [eapply (built_repr _ _ empty_world); [exact I|intros K; discriminate K|apply takesb_ok; reflexivity|run]|]. run. Qed.
End Cases.
