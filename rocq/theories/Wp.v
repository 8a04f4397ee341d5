(** Reasoning about the monad: weakest preconditions and ownership frames. *)
From Coq Require Import ZArith List Bool Lia.
From Verif Require Import Types World ValidSize Bytes Arith.
Import ListNotations.
Open Scope Z_scope.
Open Scope m_scope.

(** [run m w Qo Qp Qa]: running [m] in [w] is not undefined behaviour; a normal result satisfies [Qo], a panic [Qp],
    an abort [Qa]. *)
Definition run {A} (m : M A) (w : world) (Qo : A -> world -> Prop) (Qp : panic_reason -> world -> Prop)
    (Qa : world -> Prop) : Prop :=
  match m w with
  | (Ok a, w') => Qo a w'
  | (Panic r, w') => Qp r w'
  | (Abort, w') => Qa w'
  | (UB _, _) => False
  end.

Lemma run_ret {A} (a : A) w (Qo : A -> world -> Prop) Qp Qa : Qo a w -> run (ret a) w Qo Qp Qa.
Proof. auto. Qed.
Lemma run_panic {A} r w (Qo : A -> world -> Prop) (Qp : panic_reason -> world -> Prop) Qa : Qp r w -> run (panic r) w Qo Qp Qa.
Proof. auto. Qed.
Lemma run_bind {A B} (m : M A) (f : A -> M B) w Qo Qp Qa :
  run m w (fun a w' => run (f a) w' Qo Qp Qa) Qp Qa -> run (bind m f) w Qo Qp Qa.
Proof. unfold run, bind. destruct (m w) as [[] ?]; auto. Qed.
Lemma run_eq {A B} (m : M A) (f : A -> M B) w a w' Qo Qp Qa :
  m w = (Ok a, w') -> run (f a) w' Qo Qp Qa -> run (bind m f) w Qo Qp Qa.
Proof. intros E. unfold run, bind. now rewrite E. Qed.
Lemma run_eq1 {A} (m : M A) w a w' (Qo : A -> world -> Prop) Qp Qa :
  m w = (Ok a, w') -> Qo a w' -> run m w Qo Qp Qa.
Proof. intros E. unfold run. now rewrite E. Qed.
Lemma run_conseq {A} (m : M A) w (Qo Qo' : A -> world -> Prop) (Qp Qp' : panic_reason -> world -> Prop)
    (Qa Qa' : world -> Prop) :
  run m w Qo Qp Qa ->
  (forall a w', Qo a w' -> Qo' a w') -> (forall r w', Qp r w' -> Qp' r w') -> (forall w', Qa w' -> Qa' w') ->
  run m w Qo' Qp' Qa'.
Proof. unfold run. destruct (m w) as [[] ?]; auto. Qed.
Lemma run_on_unwind {A} (m : M A) g w Qo Qp Qa :
  run m w Qo (fun r w' => run g w' (fun _ w'' => Qp r w'') (fun _ w'' => Qa w'') Qa) Qa ->
  run (on_unwind m g) w Qo Qp Qa.
Proof.
  unfold run, on_unwind. destruct (m w) as [[] w']; auto.
  destruct (g w') as [[] ?]; auto.
Qed.
Lemma run_sound {A} (m : M A) w Qo Qp Qa : run m w Qo Qp Qa ->
  match m w with
  | (Ok a, w') => Qo a w'
  | (Panic r, w') => Qp r w'
  | (Abort, w') => Qa w'
  | (UB _, _) => False
  end.
Proof. auto. Qed.

Lemma bind_eq {A B} (m : M A) (f : A -> M B) w a w' : m w = (Ok a, w') -> bind m f w = f a w'.
Proof. unfold bind; intros ->; auto. Qed.
Lemma bind_assoc {A B D} (m : M A) (f : A -> M B) (g : B -> M D) w :
  bind (bind m f) g w = bind m (fun a => bind (f a) g) w.
Proof. unfold bind. destruct (m w) as [[] ?]; auto. Qed.
Lemma on_unwind_eq {A} (m : M A) g w a w' : m w = (Ok a, w') -> on_unwind m g w = (Ok a, w').
Proof. unfold on_unwind; intros ->; auto. Qed.

(** Unchecked arithmetic when it is in range. *)
Lemma usub_eq a b w : b <= a -> usub a b w = (Ok (a - b), w).
Proof. intros; unfold usub. now rewrite (proj2 (Z.leb_le b a)). Qed.
Lemma uadd_eq a b w : a + b <= usize_max -> uadd a b w = (Ok (a + b), w).
Proof. intros; unfold uadd. now rewrite (proj2 (Z.leb_le _ _)). Qed.
Lemma umul_eq a b w : a * b <= usize_max -> umul a b w = (Ok (a * b), w).
Proof. intros; unfold umul. now rewrite (proj2 (Z.leb_le _ _)). Qed.
Lemma vs_new_unchecked_eq al s w : s <= isize_max - (al - 1) -> vs_new_unchecked al s w = (Ok s, w).
Proof. intros; unfold vs_new_unchecked, vs_max. now rewrite (proj2 (Z.leb_le _ _)). Qed.
Lemma vs_unchecked_add_eq al a b w : 1 <= al -> a + b <= isize_max - (al - 1) ->
  vs_unchecked_add al a b w = (Ok (a + b), w).
Proof.
  intros. unfold vs_unchecked_add. rewrite (bind_eq _ _ _ _ _ (uadd_eq a b w ltac:(lia))).
  now apply vs_new_unchecked_eq.
Qed.
Lemma vs_unchecked_sub_eq al a b w : b <= a -> a - b <= isize_max - (al - 1) ->
  vs_unchecked_sub al a b w = (Ok (a - b), w).
Proof.
  intros. unfold vs_unchecked_sub. rewrite (bind_eq _ _ _ _ _ (usub_eq a b w ltac:(lia))).
  now apply vs_new_unchecked_eq.
Qed.
Lemma layout_unchecked_eq s al w : s <= isize_max - (al - 1) -> layout_unchecked s al w = (Ok (Layout s al), w).
Proof. intros; unfold layout_unchecked. now rewrite (proj2 (Z.leb_le _ _)). Qed.
Lemma dassert_eq {C : Config} b w : b = true -> dassert b w = (Ok tt, w).
Proof. intros ->. unfold dassert. rewrite andb_false_r. reflexivity. Qed.

(** Objects and the block they own. *)
Definition ptr_block (p : ptr) : option nat := match p with Blk b _ => Some b | Raw _ => None end.
Definition obj_ptr (o : obj) : option ptr :=
  match o with
  | OS v => Some (sv_ptr v)
  | OA v => Some (av_ptr v)
  | OU v => Some (uv_ptr v)
  | ODead => None
  end.
Definition owned_block (w : world) (self : nat) : option nat :=
  match nth_error (w_vecs w) self with
  | Some o => match obj_ptr o with Some p => ptr_block p | None => None end
  | None => None
  end.

(** Only vector [self] and the memory it owns change: nothing else is touched, freed or leaked. *)
Record frame (self : nat) (w w' : world) : Prop := Frame {
  fr_vecs : forall j, j <> self -> nth_error (w_vecs w') j = nth_error (w_vecs w) j;
  fr_nvecs : length (w_vecs w') = length (w_vecs w);
  fr_cells : w_cells w' = w_cells w;
  fr_len : (length (w_heap w) <= length (w_heap w'))%nat;
  fr_other : forall b, (b < length (w_heap w))%nat -> owned_block w self <> Some b ->
             heap_get (w_heap w') b = heap_get (w_heap w) b;
  fr_old : forall b, owned_block w self = Some b -> heap_get (w_heap w') b <> None -> owned_block w' self = Some b;
  fr_new : forall b, (length (w_heap w) <= b)%nat -> heap_get (w_heap w') b <> None -> owned_block w' self = Some b;
  fr_owned : forall b, owned_block w' self = Some b -> owned_block w self = Some b \/ (length (w_heap w) <= b)%nat;
  fr_nalloc : (w_nalloc w <= w_nalloc w')%nat;
  fr_drops : exists d, w_drops w' = w_drops w ++ d }.

Lemma frame_refl self w : frame self w w.
Proof.
  constructor; auto; try lia.
  - intros b Hb H. exfalso. apply H. unfold heap_get.
    replace (nth_error (w_heap w) b) with (@None (option block)); auto.
    symmetry. now apply nth_error_None.
  - exists []. now rewrite app_nil_r.
Qed.

Lemma frame_trans self w1 w2 w3 : frame self w1 w2 -> frame self w2 w3 -> frame self w1 w3.
Proof.
  intros A B. destruct A, B. constructor.
  - intros. rewrite fr_vecs1; auto.
  - congruence.
  - congruence.
  - lia.
  - intros b Hb H. rewrite fr_other1; auto; try lia.
    intro O. destruct (fr_owned0 b O); [auto|lia].
  - intros b O L. destruct (option_map (Nat.eqb b) (owned_block w2 self)) as [[]|] eqn:E.
    + destruct (owned_block w2 self) eqn:E2; simpl in E; [|discriminate].
      injection E as E. apply Nat.eqb_eq in E; subst. apply fr_old1; auto.
    + destruct (Nat.ltb_spec b (length (w_heap w2))).
      * rewrite fr_other1 in L; auto.
        -- rewrite (fr_old0 b O L) in E. simpl in E. rewrite Nat.eqb_refl in E. discriminate.
        -- intro O2. rewrite O2 in E. simpl in E. rewrite Nat.eqb_refl in E. discriminate.
      * apply fr_new1; auto.
    + destruct (Nat.ltb_spec b (length (w_heap w2))).
      * rewrite fr_other1 in L; auto.
        -- rewrite (fr_old0 b O L) in E. discriminate.
        -- intro O2. rewrite O2 in E. discriminate.
      * apply fr_new1; auto.
  - intros b Hb L.
    destruct (Nat.ltb_spec b (length (w_heap w2))); [|apply fr_new1; auto].
    destruct (owned_block w2 self) as [b2|] eqn:E2.
    + destruct (Nat.eq_dec b2 b) as [->|N].
      * apply fr_old1; auto.
      * rewrite fr_other1 in L; auto; [|congruence]. pose proof (fr_new0 b Hb L). congruence.
    + rewrite fr_other1 in L; auto; [|congruence]. pose proof (fr_new0 b Hb L). congruence.
  - intros b O. destruct (fr_owned1 b O) as [O2|L]; [|right; lia]. auto.
  - lia.
  - destruct fr_drops0 as [d D]. destruct fr_drops1 as [e ->]. rewrite D. exists (d ++ e). now rewrite app_assoc.
Qed.

(** Allocation failures between two worlds, and why a run may abort the process. *)
Section WithConfig.
Context {C : Config}.
Definition alloc_failed (w w' : world) : Prop :=
  exists n, (w_nalloc w <= n < w_nalloc w')%nat /\ cfg_alloc n = None.
Definition drop_panicked (w w' : world) : Prop :=
  exists n, (length (w_drops w) <= n < length (w_drops w'))%nat /\ cfg_drop_panics n = true.
(** A process abort needs an allocation failure or a destructor that panics. *)
Definition abort_ok (w w' : world) : Prop := alloc_failed w w' \/ drop_panicked w w'.

Lemma alloc_failed_l w1 w2 w3 : (w_nalloc w1 <= w_nalloc w2)%nat -> alloc_failed w2 w3 -> alloc_failed w1 w3.
Proof. intros L (n & Hn & E). exists n; split; auto; lia. Qed.
Lemma alloc_failed_r w1 w2 w3 : (w_nalloc w2 <= w_nalloc w3)%nat -> alloc_failed w1 w2 -> alloc_failed w1 w3.
Proof. intros L (n & Hn & E). exists n; split; auto; lia. Qed.
End WithConfig.
