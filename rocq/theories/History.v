(** Histories: finite sequences of calls on any number of vectors of one element type, and what the same calls do to plain lists. *)
From Coq Require Import ZArith List Bool Lia.
From Verif Require Import Types World ValidSize Emplace SizedVec AlignedVec UnalignedVec Api Spec Bytes Arith Wp Mem Repr
  Access Reserve Realign Orep Push Deal PushWith Shell Insert Take Pop Box Iter Calls GetMut DropVec Family Build PushAll Wrote Sources
  Obs Room Shrink Convert PropUnsize PropConvert PropPush PropReserve PropAccess PropEdit PropEmplace PropShrink PropCompare PropWhole Zst.
Import ListNotations.
Open Scope Z_scope.
Open Scope m_scope.

(** ** Calls on one vector *)
Inductive vop :=
| VLen | VIsEmpty | VCapacity | VByteCapacity | VByteLen | VAlign
| VGet (i : nat) | VIndex (i : nat)
| VSet (i : nat) (f : value -> value)                (* if let Some(r) = v.get_mut(i) { *r = f(r) } *)
| VVisit (cs : list icall) | VVisitLast (cs : list icall)
| VPush (x : value) | VPushWith (x : value) | VInsert (i : nat) (x : value) | VInsertWith (i : nat) (x : value)
| VPop | VPopDrop | VPopForget                       (* into a box, dropping the emplacable, forgetting it *)
| VRemove (i : nat) | VRemoveDrop (i : nat) | VRemoveForget (i : nat)
| VTryReserve (exact : bool) (n b a : Z) | VReserve (exact : bool) (n b a : Z)
| VTryReserveCount (exact : bool) (n : Z) | VReserveCount (n : Z)
| VShrink (n b a : Z) | VShrinkTo (n : Z)
| VExtend (hint : Z) (xs : list value)
(* with the caller's own closures instead of values; the deal (Deal.v) is what such a closure promises *)
| VPushFrom (e : emplacable) (S : deal) | VInsertFrom (i : nat) (e : emplacable) (S : deal) | VExtendFrom (hint : Z) (ps : list (emplacable * deal))
| VUpdate (cs : list icall) (f : value -> value)     (* let mut it = v.iter_mut(); the calls cs; *r = f(r) through every reference obtained *)
(* a value of a Sized type of size s and alignment a; m is the metadata of the coercion *)
| VPushUnsize (s a : Z) (m : meta) (x : value) | VInsertUnsize (s a : Z) (m : meta) (i : nat) (x : value).

(** What a call returns. *)
Inductive obs :=
| BUnit | BNum (n : Z) | BBool (b : bool) | BVal (x : value) | BOpt (o : option value) | BItems (rs : list (option value * nat))
| BRes (r : rres) | BCmp (c : comparison) | BSkip.

Section WithConfig.
Context {C : Config}.

(** Writing through references one after another. *)
Fixpoint rewrite_all (t : ty) (f : value -> value) (rs : list wide) : M unit :=
  match rs with
  | [] => ret tt
  | r :: rs => x <- read_value t r ;; mem_write (wp r) (v_bytes (f x)) ;; rewrite_all t f rs
  end.
Definition v_update (t : ty) (self : nat) (cs : list icall) (f : value -> value) : M unit :=
  it <- v_iter t self ;;
  r <- v_calls t cs it ;;
  rewrite_all t f (somes (fst r)).

Definition vstep (t : ty) (self : nat) (c : vop) : M obs :=
  match c with
  | VLen => n <- v_len t self ;; ret (BNum n)
  | VIsEmpty => b <- v_is_empty t self ;; ret (BBool b)
  | VCapacity => n <- v_capacity t self ;; ret (BNum n)
  | VByteCapacity => n <- v_byte_capacity t self ;; ret (BNum n)
  | VByteLen => n <- v_byte_len t self ;; ret (BNum n)
  | VAlign => n <- v_align t self ;; ret (BNum n)
  | VGet i => r <- v_get t self i ;; x <- read_opt t r ;; ret (BOpt x)
  | VIndex i => r <- v_index t self i ;; x <- read_value t r ;; ret (BVal x)
  | VSet i f =>
      r <- v_get t self i ;;
      match r with
      | None => ret (BBool false)
      | Some r => x <- read_value t r ;; mem_write (wp r) (v_bytes (f x)) ;; ret (BBool true)
      end
  | VVisit cs => rs <- v_visit t self cs ;; ret (BItems rs)
  | VVisitLast cs => x <- v_visit_last t self cs ;; ret (BOpt x)
  | VPush x => v_push t self x ;; ret BUnit
  | VPushWith x => v_push_with t self (emplacable_of_value t x) ;; ret BUnit
  | VInsert i x => v_insert t self i x ;; ret BUnit
  | VInsertWith i x => v_insert_with t self i (emplacable_of_value t x) ;; ret BUnit
  | VPop => b <- pop_box t self ;; x <- read_opt t b ;; ret (BOpt x)
  | VPopDrop => pop_then t self emplacable_drop ;; ret BUnit
  | VPopForget => pop_then t self emplacable_forget ;; ret BUnit
  | VRemove i => b <- remove_box t self i ;; x <- read_value t b ;; ret (BVal x)
  | VRemoveDrop i => remove_then t self i emplacable_drop ;; ret BUnit
  | VRemoveForget i => remove_then t self i emplacable_forget ;; ret BUnit
  | VTryReserve false n b a => r <- v_try_reserve_capacity_bytes_align t self n b a ;; ret (BRes r)
  | VTryReserve true n b a => r <- v_try_reserve_exact_capacity_bytes_align t self n b a ;; ret (BRes r)
  | VReserve false n b a => v_reserve_capacity_bytes_align t self n b a ;; ret BUnit
  | VReserve true n b a => v_reserve_exact_capacity_bytes_align t self n b a ;; ret BUnit
  | VTryReserveCount false n => r <- v_try_reserve t self n ;; ret (BRes r)
  | VTryReserveCount true n => r <- v_try_reserve_exact t self n ;; ret (BRes r)
  | VReserveCount n => v_reserve t self n ;; ret BUnit
  | VShrink n b a => v_shrink_capacity_bytes_align_to t self n b a ;; ret BUnit
  | VShrinkTo n => v_shrink_to t self n ;; ret BUnit
  | VExtend hint xs => v_extend t self hint (map (emplacable_of_value t) xs) ;; ret BUnit
  | VPushFrom e _ => v_push_with t self e ;; ret BUnit
  | VInsertFrom i e _ => v_insert_with t self i e ;; ret BUnit
  | VExtendFrom hint ps => v_extend t self hint (map fst ps) ;; ret BUnit
  | VUpdate cs f => v_update t self cs f ;; ret BUnit
  | VPushUnsize s a m x => v_push_unsize s a t m self x ;; ret BUnit
  | VInsertUnsize s a m i x => v_insert_unsize s a t m self i x ;; ret BUnit
  end.

(** ** The same calls on a plain list *)
(** The elements at the positions [js] replaced by their images. *)
Fixpoint update_at (f : value -> value) (js : list nat) (l : list value) : list value :=
  match js with
  | [] => l
  | j :: js => update_at f js (match nth_error l j with Some x => replace_at j (f x) l | None => l end)
  end.
(** The positions that a sequence of calls on an iterator reaches. *)
Definition reached (cs : list icall) (l : list value) : list nat := somes (fst (dq_run cs (seq 0 (length l)))).
(** [vspec c l o l' ds]: the call returns [o], leaves [l'] and destroys the values [ds]. *)
Definition vspec (c : vop) (l : list value) (o : obs) (l' : list value) (ds : list value) : Prop :=
  match c with
  | VLen => o = BNum (zlen l) /\ l' = l /\ ds = []
  | VIsEmpty => o = BBool (match l with [] => true | _ => false end) /\ l' = l /\ ds = []
  | VCapacity => (exists n, o = BNum n /\ zlen l <= n) /\ l' = l /\ ds = []
  | VByteCapacity | VByteLen | VAlign => (exists n, o = BNum n) /\ l' = l /\ ds = []
  | VGet i => o = BOpt (nth_error l i) /\ l' = l /\ ds = []
  | VIndex i => (exists x, nth_error l i = Some x /\ o = BVal x) /\ l' = l /\ ds = []
  | VSet i f =>
      match nth_error l i with
      | None => o = BBool false /\ l' = l /\ ds = []
      | Some x => o = BBool true /\ l' = replace_at i (f x) l /\ ds = []
      end
  | VVisit cs => o = BItems (fst (dq_run cs l)) /\ l' = l /\ ds = []
  | VVisitLast cs => o = BOpt (hd_error (rev (snd (dq_run cs l)))) /\ l' = l /\ ds = []
  | VPush x | VPushWith x => o = BUnit /\ l' = l ++ [x] /\ ds = []
  | VInsert i x | VInsertWith i x => o = BUnit /\ (i <= length l)%nat /\ l' = insert_at i x l /\ ds = []
  | VPop => o = BOpt (hd_error (rev l)) /\ l' = removelast l /\ ds = []
  | VPopDrop => o = BUnit /\ l' = removelast l /\ ds = firstn 1 (rev l)
  | VPopForget => o = BUnit /\ l' = removelast l /\ ds = []
  | VRemove i => (exists x, nth_error l i = Some x /\ o = BVal x) /\ l' = remove_at i l /\ ds = []
  | VRemoveDrop i => o = BUnit /\ l' = remove_at i l /\ exists x, nth_error l i = Some x /\ ds = [x]
  | VRemoveForget i => o = BUnit /\ (i < length l)%nat /\ l' = remove_at i l /\ ds = []
  | VTryReserve _ _ _ _ | VTryReserveCount _ _ => (exists r, o = BRes r) /\ l' = l /\ ds = []
  | VReserve _ _ _ _ | VReserveCount _ | VShrink _ _ _ | VShrinkTo _ => o = BUnit /\ l' = l /\ ds = []
  | VExtend _ xs => o = BUnit /\ l' = l ++ xs /\ ds = []
  | VPushFrom _ D => o = BUnit /\ l' = l ++ [d_value D] /\ ds = d_extra D
  | VInsertFrom i _ D => o = BUnit /\ (i <= length l)%nat /\ l' = insert_at i (d_value D) l /\ ds = d_extra D
  | VExtendFrom _ ps => o = BUnit /\ l' = l ++ map d_value (map snd ps) /\ ds = all_extra (map snd ps)
  | VUpdate cs f => o = BUnit /\ l' = update_at f (reached cs l) l /\ ds = []
  | VPushUnsize _ _ m x => o = BUnit /\ l' = l ++ [coerce m x] /\ ds = []
  | VInsertUnsize _ _ m i x => o = BUnit /\ (i <= length l)%nat /\ l' = insert_at i (coerce m x) l /\ ds = []
  end.
(** A call may panic because there is no room: the address space is exhausted, a debug assertion says so, or the allocator
    gave up. Calls that reserve bytes also panic for elements of size zero (finding F8): [divides]. *)
Definition no_room (r : panic_reason) : Prop := r = PCapacity \/ r = PDebugAssert /\ cfg_debug = true \/ r = POom /\ cfg_oom_panics = true.
(** A destructor panicked. *)
Definition bad_drop (r : panic_reason) : Prop := r = PDrop /\ exists n, cfg_drop_panics n = true.
(** A closure may panic as it promised, or a destructor it runs may; what it destroys then is its own. *)
Definition gives_up (S : deal) (r : panic_reason) : Prop := d_panic S r \/ bad_drop r /\ d_extra S <> [].
(** Calls that only allocate a box or a smaller buffer can panic only if the allocator can fail. *)
Definition no_memory (r : panic_reason) : Prop := r = POom /\ exists n, cfg_alloc n = None.
(** [vpanic c l r l' ds]: the call may panic with [r], leaving [l'] and destroying the values [ds]. *)
Definition vpanic (t : ty) (c : vop) (l : list value) (r : panic_reason) (l' : list value) (ds : list value) : Prop :=
  match c with
  | VLen | VIsEmpty | VCapacity | VByteCapacity | VByteLen | VAlign | VGet _ | VSet _ _ | VVisit _ | VVisitLast _ | VPopForget | VUpdate _ _
  | VTryReserveCount _ _ => False
  | VIndex i | VRemoveDrop i | VRemoveForget i => r = PBounds /\ (length l <= i)%nat /\ l' = l /\ ds = []
  | VPush x => (no_room r \/ divides t r) /\ l' = l /\ ds = [x]
  | VPushWith _ | VReserveCount _ => no_room r /\ l' = l /\ ds = []
  | VInsert i x => (r = PBounds /\ (length l < i)%nat \/ (no_room r \/ divides t r) /\ (i <= length l)%nat) /\ l' = l /\ ds = [x]
  | VInsertWith i x => (r = PBounds /\ (length l < i)%nat /\ ds = [x] \/ no_room r /\ (i <= length l)%nat /\ ds = []) /\ l' = l
  | VPop => no_memory r /\ l' = removelast l /\ ds = []
  | VPopDrop => bad_drop r /\ l' = removelast l /\ ds = firstn 1 (rev l)
  | VRemove i => (r = PBounds /\ (length l <= i)%nat /\ l' = l \/
                  no_memory r /\ (i < length l)%nat /\ l' = match kind_of t with KSized => removelast l | _ => l end) /\ ds = []
  | VTryReserve _ _ _ a => (r = PDebugAssert /\ cfg_debug = true \/ r = PBadAlign /\ kind_of t = KUnaligned /\ bad_align a \/ divides t r) /\ l' = l /\ ds = []
  | VReserve _ _ _ a => (no_room r \/ r = PBadAlign /\ kind_of t = KUnaligned /\ bad_align a \/ divides t r) /\ l' = l /\ ds = []
  | VShrink _ _ a => (no_memory r \/ r = PBadAlign /\ kind_of t = KUnaligned /\ bad_align a \/ divides t r) /\ l' = l /\ ds = []
  | VShrinkTo _ => (no_memory r \/ divides t r) /\ l' = l /\ ds = []
  | VExtend _ xs => (no_room r \/ divides t r) /\ exists ys, l' = l ++ ys /\ (ys = [] /\ ds = xs \/ exists x, xs = ys ++ x :: ds)
  | VPushFrom _ D => l' = l /\ (no_room r /\ ds = [] \/ gives_up D r)
  | VInsertFrom i _ D => l' = l /\ (r = PBounds /\ (length l < i)%nat /\ ds = d_nulls D \/ (i <= length l)%nat /\ (no_room r /\ ds = [] \/ gives_up D r))
  | VExtendFrom _ ps => exists Ss1 Ss2, map snd ps = Ss1 ++ Ss2 /\ l' = l ++ map d_value Ss1 /\
      (Ss1 = [] /\ (no_room r \/ divides t r) /\ ds = all_nulls Ss2 \/
       exists S Ss3, Ss2 = S :: Ss3 /\ (no_room r /\ ds = all_extra Ss1 ++ all_nulls Ss3 \/ gives_up S r))
  | VPushUnsize _ _ m x => (no_room r \/ divides t r) /\ l' = l /\ ds = [coerce m x]
  | VInsertUnsize _ _ m i x => (r = PBounds /\ (length l < i)%nat \/ (no_room r \/ divides t r) /\ (i <= length l)%nat) /\ l' = l /\ ds = [coerce m x]
  end.

(** A closure that keeps its promise, announces the layout of its value and has no part in the vectors or in other memory. *)
Definition producer (t : ty) (e : emplacable) (S : deal) : Prop :=
  (forall w, emits e S w) /\ d_fv S = [] /\ d_fb S = [] /\ stable S /\ d_lay S = layout_of t (d_value S) /\ good t (d_value S).
(** A value of a Sized type whose coercion to [t] has the metadata [m]. *)
Definition coercible (t : ty) (s a : Z) (m : meta) (x : value) : Prop :=
  unsizes s a t m /\ wf_ty (TSized s a) /\ countable t m /\ good (TSized s a) x.
(** Arguments of the right type. *)
Definition vtyped (t : ty) (c : vop) : Prop :=
  match c with
  | VSet _ f | VUpdate _ f => forall x, good t x -> alike x (f x)
  | VPush x | VPushWith x | VInsert _ x | VInsertWith _ x => good t x
  | VTryReserve _ n b a | VReserve _ n b a | VShrink n b a => 0 <= n /\ 0 <= b /\ 0 <= a <= usize_max
  | VTryReserveCount _ n | VReserveCount n | VShrinkTo n => 0 <= n
  | VExtend hint xs => 0 <= hint /\ Forall (good t) xs
  | VPushFrom e D | VInsertFrom _ e D => producer t e D
  | VExtendFrom hint ps => 0 <= hint /\ Forall (fun p => producer t (fst p) (snd p)) ps
  | VPushUnsize s a m x | VInsertUnsize s a m _ x => coercible t s a m x
  | _ => True
  end.
(** What the defects of the code make necessary; nothing for Sized elements, except that removals there must not meet a
    panicking destructor. *)
Definition vguard (t : ty) (self : nat) (c : vop) (l : list value) (w : world) : Prop :=
  match c with
  | VVisit cs | VUpdate cs _ => kind_of t = KSized \/ fair false (length l) cs = true
  | VVisitLast cs => kind_of t = KSized \/ fair false (length l) (cs ++ [NextBack]) = true
  | VPush x => placeable t self x w
  | VPushWith x => not_huge t x /\ placeable t self x w
  | VInsert i x => kind_of t = KSized \/ (length l < i)%nat \/
      placeable t self x w /\ (i = 0%nat \/ movable t self l i (valign t x) w /\ offset_of t self i (valign t x) l w (Z.of_nat i))
  | VInsertWith i x => not_huge t x /\ placeable t self x w /\ ((i <= length l)%nat -> movable t self l i (valign t x) w)
  | VRemove i => (i < length l)%nat -> closable t self l i w
  | VRemoveDrop i => drops_quiet /\ ((i < length l)%nat -> closable t self l i w)
  | VRemoveForget i => (i < length l)%nat -> closable t self l i w
  | VShrink n b a => exists bc al, v_byte_capacity t self w = (Ok bc, w) /\ v_align t self w = (Ok al, w) /\ shrinks_well t l bc al b a
  | VExtend _ xs => Forall (not_huge t) xs /\ exists al, v_align t self w = (Ok al, w) /\ takes t al xs
  | VPushFrom _ D => not_huge t (d_value D) /\ placeable t self (d_value D) w
  | VInsertFrom i _ D => not_huge t (d_value D) /\ placeable t self (d_value D) w /\ ((i <= length l)%nat -> movable t self l i (valign t (d_value D)) w)
  | VExtendFrom _ ps => Forall (not_huge t) (map d_value (map snd ps)) /\ exists al, v_align t self w = (Ok al, w) /\ takes t al (map d_value (map snd ps))
  | VPushUnsize _ _ m x => placeable t self (coerce m x) w
  | VInsertUnsize _ _ m i x => kind_of t = KSized \/ (length l < i)%nat \/
      placeable t self (coerce m x) w /\ (i = 0%nat \/ movable t self l i (valign t (coerce m x)) w /\ offset_of t self i (valign t (coerce m x)) l w (Z.of_nat i))
  | _ => True
  end.

Definition out_of_luck : Prop := (exists n, cfg_alloc n = None) \/ (exists n, cfg_drop_panics n = true).
Lemma luck_alloc w w' : alloc_failed w w' -> out_of_luck.
Proof. intros (n & _ & E). left. eauto. Qed.
Lemma out_of_memory w w' : alloc_failed w w' -> no_memory POom.
Proof. intros (n & _ & E). split; eauto. Qed.
Lemma dropped_badly w w' : drop_panicked w w' -> bad_drop PDrop.
Proof. intros (n & _ & E). split; eauto. Qed.
Lemma luck_drop w w' : drop_panicked w w' -> out_of_luck.
Proof. intros (n & _ & E). right. eauto. Qed.

(** Boxes handed to the caller. *)
Definition vgiven (c : vop) (o : obs) : nat :=
  match c, o with VPop, BOpt (Some _) => 1%nat | VRemove _, BVal _ => 1%nat | _, _ => 0%nat end.
(** The other vectors are untouched, and no memory is leaked; the boxes are the caller's. *)
Definition leaves (c : vop) (o : obs) (self : nat) (w w' : world) : Prop :=
  exists bs, others_but bs self w w' /\ (length bs <= vgiven c o)%nat.
Lemma leaves_others c o self w w' : others self w w' -> leaves c o self w w'.
Proof. intros O. exists []. split; [exact O|]. cbn. lia. Qed.
Hint Resolve leaves_others : core.

Definition follows (t : ty) (self : nat) (c : vop) (l : list value) (w : world) : Prop :=
  run (vstep t self c) w
    (fun o w' => exists l' ds, vspec c l o l' ds /\ repr t self l' w' /\ w_drops w' = w_drops w ++ ds /\ leaves c o self w w')
    (fun r w' => exists l' ds, vpanic t c l r l' ds /\ repr t self l' w' /\ w_drops w' = w_drops w ++ ds /\ others self w w')
    (fun _ => out_of_luck).

Lemma others_refl self w : others self w w.
Proof. apply others_frame, frame_refl. Qed.
Lemma others_within0 self w w' : within [] [] w w' -> others self w w'.
Proof.
  intros (V & _ & _ & _ & H & _).
  assert (Vj : forall k, nth_error (w_vecs w') k = nth_error (w_vecs w) k) by (intros k; apply V; intros []).
  assert (Eo : forall k, owned_block w' k = owned_block w k) by (intros k; unfold owned_block; now rewrite Vj).
  split; [|split].
  - intros u j l R [N S]. split; [|split]; auto.
    + eapply repr_agree; eauto.
    + split; auto. intros k. rewrite !Eo. apply S.
  - intros b L. rewrite H in L by auto. rewrite Eo. destruct (opt_dec (owned_block w self) (Some b)); auto.
  - intros b _ N. rewrite Eo. auto.
Qed.

Ltac step_ok l' ds := exists l', ds; rewrite ?app_nil_r; ands; auto.
Lemma follows_same t self c l w o : repr t self l w -> vstep t self c w = (Ok o, w) -> vspec c l o l [] -> follows t self c l w.
Proof.
  intros R E S. eapply run_eq1; [exact E|]. exists l, []. rewrite app_nil_r. split; [|split; [|split]]; auto using others_refl.
Qed.
Lemma then_ret {A B} (m : M A) (g : A -> B) w a w' : m w = (Ok a, w') -> (x <- m ;; ret (g x)) w = (Ok (g a), w').
Proof. intros E. unfold bind, ret. now rewrite E. Qed.

Lemma is_empty_eq t self l w : repr t self l w -> v_is_empty t self w = (Ok (match l with [] => true | _ => false end), w).
Proof.
  intros R. unfold v_is_empty. erewrite then_ret by (eapply v_len_eq; eauto). now destruct l.
Qed.

Lemma follows_observers t self l w c : repr t self l w ->
  match c with VLen | VIsEmpty | VCapacity | VByteCapacity | VByteLen | VAlign | VGet _ | VVisit _ | VVisitLast _ => True | _ => False end ->
  vguard t self c l w -> follows t self c l w.
Proof.
  intros R K G. pose proof R as R0. apply repr_orep in R as (o & d & R). destruct c; try destruct K; cbn [vguard] in G.
  - eapply follows_same; eauto. { cbn [vstep]. apply (then_ret _ BNum). eapply v_len_eq; eauto. } split; auto.
  - eapply follows_same; eauto. { cbn [vstep]. apply (then_ret _ BBool). eapply is_empty_eq; eauto. } split; auto.
  - eapply follows_same; eauto. { cbn [vstep]. apply (then_ret _ BNum). eapply v_capacity_eq; eauto. } split; auto.
    eexists. split; eauto. eapply orep_len; eauto.
  - eapply follows_same; eauto. { cbn [vstep]. apply (then_ret _ BNum). eapply v_byte_capacity_eq; eauto. } split; eauto.
  - eapply follows_same; eauto. { cbn [vstep]. apply (then_ret _ BNum). eapply v_byte_len_eq; eauto. } split; eauto.
  - eapply follows_same; eauto. { cbn [vstep]. apply (then_ret _ BNum). eapply v_align_eq; eauto. } split; eauto.
  - pose proof (C05_get t self l w i R0) as H. eapply follows_same; eauto; [|cbn [vspec]; split; [reflexivity|auto]].
    cbn [vstep]. destruct (nth_error l i) as [x|].
    + destruct H as (r & E & _ & _ & _ & Rd). erewrite bind_eq by exact E. cbn [read_opt].
      erewrite bind_eq; [reflexivity|]. now erewrite bind_eq by exact Rd.
    + destruct H as [E _]. erewrite bind_eq by exact E. reflexivity.
  - apply (follows_same _ _ _ _ _ (BItems (fst (dq_run cs l)))); auto.
    + cbn [vstep]. apply (then_ret _ BItems). destruct G; [now apply C11_both_ends_sized|now apply C11_both_ends_partial].
    + split; auto.
  - apply (follows_same _ _ _ _ _ (BOpt (hd_error (rev (snd (dq_run cs l)))))); auto.
    + cbn [vstep]. apply (then_ret _ BOpt). now apply C12_last_partial.
    + split; auto.
Qed.
Lemma follows_index t self l w i : repr t self l w -> follows t self (VIndex i) l w.
Proof.
  intros R. pose proof (C05_get t self l w i R) as H. destruct (nth_error l i) as [x|] eqn:E.
  - destruct H as (r & _ & Ei & _ & _ & Rd). eapply follows_same; eauto.
    + cbn [vstep]. erewrite bind_eq by exact Ei. apply (then_ret _ BVal). exact Rd.
    + cbn [vspec]. split; eauto.
  - destruct H as [_ Ei]. unfold follows, run. cbn [vstep]. unfold bind at 1. rewrite Ei. step_ok l (@nil value); auto using others_refl.
    cbn [vpanic]. ands; auto. now apply nth_error_None.
Qed.
Lemma follows_set t self l w i f : repr t self l w -> vtyped t (VSet i f) -> follows t self (VSet i f) l w.
Proof.
  intros R T. pose proof (C05_get t self l w i R) as H. unfold follows. cbn [vstep]. destruct (nth_error l i) as [x|] eqn:E.
  - destruct H as (r & Eg & _ & _ & _ & Rd).
    assert (G : good t x). { apply repr_orep in R as (o & d & R). eapply orep_elem; eauto using nth_error_In. }
    destruct (C14_get_mut t self l w i x (f x) R E (T x G)) as (r' & w' & Eg' & Wr & [R' _] & Ot & D & _).
    rewrite Eg in Eg'. injection Eg' as <-. eapply run_eq; [exact Eg|]. cbv beta iota. eapply run_eq; [exact Rd|].
    eapply run_eq; [exact Wr|]. apply run_ret. exists (replace_at i (f x) l), []. rewrite app_nil_r. ands; auto. cbn [vspec]. now rewrite E.
  - destruct H as [Eg _]. eapply run_eq; [exact Eg|]. apply run_ret. exists l, []. rewrite app_nil_r. ands; auto using others_refl.
    cbn [vspec]. now rewrite E.
Qed.

Lemma pushes_any t self l x w : nzst t -> repr t self l w -> good t x -> placeable t self x w -> pushes t self l x w.
Proof.
  intros Nz R G Pl. destruct (kind_of t) eqn:K.
  - apply C03_push_sized_partial; auto.
  - apply C01_push_slices; auto.
  - destruct (Pl K) as (al & bc & A & B & P). eapply C02_push_dyn_partial; eauto.
Qed.
Lemma divides_reason t r : zst t -> r = PCapacity \/ r = PDivZero -> no_room r \/ divides t r.
Proof. intros Z [->| ->]; [left; left; auto|right; split; auto]. Qed.
Lemma zst_push t self l w x : zst t -> repr t self l w -> good t x ->
  run (v_push t self x) w (fun _ _ => False)
    (fun r w' => (no_room r \/ divides t r) /\ repr t self l w' /\ w_drops w' = w_drops w ++ [x] /\ within [] [] w w') (fun w' => drop_panicked w w').
Proof.
  intros Z R G. unfold v_push, owned. apply run_bind. destruct (zst_reserve t self l w false 1 (vsize t x) (valign t x) Z R) as (r & Rr & E). cbv iota in E.
  unfold run, on_unwind. rewrite E. unfold drop_value. destruct (cfg_drop_panics (length (w_drops w))) eqn:D; [now apply drop_panicked_1|].
  ands; auto using divides_reason, repr_drops, within_drops.
Qed.
Lemma follows_push t self l w x : nzst t \/ zst t -> repr t self l w -> good t x -> placeable t self x w -> follows t self (VPush x) l w.
Proof.
  intros [Nz|Z] R G Pl; unfold follows; cbn [vstep]; apply run_bind.
  2: { eapply run_conseq; [exact (zst_push t self l w x Z R G)|..]; cbv beta; try tauto.
    - intros r w' (Rr & R' & D & W). step_ok l [x]; auto using others_within0. cbn [vpanic]. auto.
    - intros w' F. eauto using luck_drop. }
  eapply run_conseq; [exact (pushes_any t self l x w Nz R G Pl)|..]; cbv beta.
  - intros [] w' (R' & _ & D & O). apply run_ret. step_ok (l ++ [x]) (@nil value). cbn [vspec]. auto.
  - intros r w' (R' & _ & D & O & _ & Rr). step_ok l [x]. cbn [vpanic]. auto.
  - intros w' [F|F]; eauto using luck_alloc, luck_drop.
Qed.
Lemma push_with_value t self l w x : repr t self l w -> good t x -> not_huge t x -> nzst t \/ kind_of t = KSized -> placeable t self x w ->
  run (v_push_with t self (emplacable_of_value t x)) w
    (fun _ w' => repr t self (l ++ [x]) w' /\ w_drops w' = w_drops w /\ others self w w')
    (fun r w' => repr t self l w' /\ w_drops w' = w_drops w /\ others self w w' /\ (r = PCapacity \/ r = POom /\ cfg_oom_panics = true))
    (fun w' => alloc_failed w w').
Proof.
  intros R G N Nz Pl. assert (Ev : d_value (value_deal t x) = x) by now destruct x.
  apply repr_orep in R as (o & d & R).
  eapply run_conseq; [eapply (v_push_with_wp t self l o d w _ (value_deal t x)); eauto|..]; cbv beta; rewrite ?Ev; auto using value_emits.
  - now apply fits_self.
  - eapply placeable_can; eauto.
  - split; [auto|split; [intros ? []|intros ? _ []]].
  - intros _ w' (o' & d' & R' & T & D & _). cbn [d_fv d_fb d_extra value_deal] in *. rewrite app_nil_r in D.
    ands; auto. { eapply orep_repr; eauto. } now apply others_frame, frame_touch.
  - intros r w' (R' & T & [(_ & Rr & D & A)|[[]|[_ [P _]]]]); [|now destruct P].
    ands; auto. now apply others_frame, frame_touch.
  - intros w' [A|A]; auto. apply not_aborted in A; [destruct A|reflexivity|intros ? []].
Qed.
Lemma zst_kind t : nzst t \/ zst t -> nzst t \/ kind_of t = KSized.
Proof. intros [|[]]; auto. Qed.
Lemma follows_push_with t self l w x : nzst t \/ zst t -> repr t self l w -> good t x -> vguard t self (VPushWith x) l w ->
  follows t self (VPushWith x) l w.
Proof.
  intros Nz R G [N Pl]. unfold follows. cbn [vstep]. apply run_bind.
  eapply run_conseq; [exact (push_with_value t self l w x R G N (zst_kind _ Nz) Pl)|..]; cbv beta.
  - intros [] w' (R' & D & O). apply run_ret. step_ok (l ++ [x]) (@nil value). cbn [vspec]. auto.
  - intros r w' (R' & D & O & Rr). step_ok l (@nil value). cbn [vpanic]. ands; auto. unfold no_room. tauto.
  - intros w' F. eauto using luck_alloc.
Qed.
Lemma follows_insert t self l w i x : nzst t \/ zst t -> repr t self l w -> good t x -> vguard t self (VInsert i x) l w ->
  follows t self (VInsert i x) l w.
Proof.
  intros Nz R G Gd. unfold follows. cbn [vstep]. apply run_bind.
  destruct (le_lt_dec i (length l)) as [Li|Li].
  - destruct Nz as [Nz|Z].
    2: { assert (E : v_insert t self i x w = (owned x (v_reserve_capacity_bytes_align t self 1 (vsize t x) (valign t x)) ;; p_insert_unchecked t self i x (vsize t x)) w).
      { unfold v_insert, owned, bind, on_unwind. rewrite (v_len_eq _ _ _ _ R). rewrite (proj2 (Z.leb_le _ _)) by (unfold zlen; lia). reflexivity. }
      destruct (zst_reserve t self l w false 1 (vsize t x) (valign t x) Z R) as (r & Rr & Er). cbv iota in Er.
      unfold run. rewrite E. unfold bind, owned, on_unwind. rewrite Er. unfold drop_value.
      destruct (cfg_drop_panics (length (w_drops w))) eqn:D; [right; eauto|].
      step_ok l [x]; auto using repr_drops, others_within0, within_drops. cbn [vpanic]. auto 6 using divides_reason. }
    assert (I : inserts t self i l x w).
    { destruct Gd as [K|[L|(Pl & [->|(Mv & Of)])]]; [|lia|now apply C06_insert_front_partial|now apply C06_insert_partial].
      apply C06_insert_sized_partial; auto. }
    eapply run_conseq; [exact I|..]; cbv beta.
    + intros [] w' ((R' & _) & D & O). apply run_ret. step_ok (insert_at i x l) (@nil value). cbn [vspec]. auto.
    + intros r w' ((R' & _) & D & O & _ & Rr). step_ok l [x]. cbn [vpanic]. auto.
    + intros w' [F|F]; eauto using luck_alloc, luck_drop.
  - eapply run_conseq; [exact (C06_insert_oob t self i l x w R Li)|..]; cbv beta; try tauto.
    + intros r w' (-> & (R' & _) & D & O). step_ok l [x]. cbn [vpanic]. auto.
    + intros w' F; eauto using luck_drop.
Qed.
Lemma follows_insert_with t self l w i x : nzst t \/ zst t -> repr t self l w -> good t x -> vguard t self (VInsertWith i x) l w ->
  follows t self (VInsertWith i x) l w.
Proof.
  intros Nz R G (N & Pl & Mv). unfold follows. cbn [vstep]. apply run_bind.
  destruct (le_lt_dec i (length l)) as [Li|Li].
  - eapply run_conseq; [exact (C07_insert_with_value_partial t self i l w x R G N (zst_kind _ Nz) Pl Li (Mv Li))|..]; cbv beta.
    + intros [] w' ((R' & _) & D & O). apply run_ret. step_ok (insert_at i x l) (@nil value). cbn [vspec]. auto.
    + intros r w' ((R' & _) & D & O & Rr). step_ok l (@nil value). cbn [vpanic]. split; auto. right. ands; auto. unfold no_room. tauto.
    + intros w' F. eauto using luck_alloc.
  - eapply run_conseq; [eapply (v_insert_with_oob t self l w (emplacable_of_value t x) (value_deal t x) i); eauto|..]; cbv beta; try tauto.
    + apply value_emits.
    + intros r w' (-> & Wi & D & _). exists l, [x]. cbn [d_fv d_fb d_nulls value_deal] in Wi, D. ands; auto.
      * cbn [vpanic]. split; auto.
      * eapply repr_within; eauto. split; [auto|split; [intros ? []|intros ? _ []]].
      * now apply others_within0.
    + intros w' (_ & F). eauto using luck_drop.
Qed.
Lemma blocks_one p : (length (blocks p) <= 1)%nat.
Proof. unfold blocks. destruct (ptr_block p); cbn; lia. Qed.
Lemma rev_last {A} (l : list A) x : rev (l ++ [x]) = x :: rev l.
Proof. now rewrite rev_app_distr. Qed.
Lemma follows_pop t self l w : repr t self l w -> follows t self VPop l w.
Proof.
  intros R. unfold follows. cbn [vstep]. destruct l as [|x l _] using rev_ind.
  - destruct (proj2 (C04_pop_empty t self [] w R) eq_refl) as (w' & E).
    assert (w' = w) as ->. { rewrite (v_pop_into_empty t self w R) in E. congruence. }
    unfold pop_box. eapply run_eq. { erewrite bind_eq by exact E. reflexivity. }
    eapply run_eq. { reflexivity. } apply run_ret. step_ok (@nil value) (@nil value); auto using others_refl. cbn [vspec]. auto.
  - apply run_bind. eapply run_conseq; [exact (C04_pop t self l x w R)|..]; cbv beta.
    + intros b w' (b' & -> & (Bx & _) & (R' & _) & D & O).
      assert (G : good t x). { apply repr_orep in R as (o & d & R). eapply orep_elem; eauto using last_in. }
      cbn [read_opt]. eapply run_eq. { erewrite bind_eq by exact Bx. reflexivity. }
      apply run_ret. step_ok l (@nil value). { cbn [vspec]. rewrite rev_last, removelast_last. auto. }
      exists (blocks (wp b')). split; [exact O|]. apply blocks_one.
    + intros r w' (-> & F & (R' & _) & D & O). step_ok l (@nil value). cbn [vpanic]. rewrite removelast_last. eauto using out_of_memory.
    + intros w' F. eauto using luck_alloc.
Qed.
Lemma pop_then_empty t self f w : repr t self [] w -> pop_then t self f w = (Ok tt, w).
Proof. intros R. unfold pop_then. erewrite bind_eq by (now apply v_pop_into_empty). reflexivity. Qed.
Lemma follows_pop_drop t self l w : repr t self l w -> follows t self VPopDrop l w.
Proof.
  intros R. unfold follows. cbn [vstep]. destruct l as [|x l _] using rev_ind.
  - eapply run_eq. { now apply pop_then_empty. } apply run_ret. step_ok (@nil value) (@nil value); auto using others_refl. cbn [vspec]. auto.
  - apply run_bind. eapply run_conseq; [exact (C27_pop_drop t self l x w R)|..]; cbv beta.
    + intros [] w' ((R' & _) & D & O). apply run_ret. step_ok l [x]. cbn [vspec]. rewrite rev_last, removelast_last. auto.
    + intros r w' (-> & F & (R' & _) & D & O). step_ok l [x]. cbn [vpanic]. rewrite rev_last, removelast_last. eauto using dropped_badly.
    + tauto.
Qed.
Lemma follows_pop_forget t self l w : repr t self l w -> follows t self VPopForget l w.
Proof.
  intros R. unfold follows. cbn [vstep]. destruct l as [|x l _] using rev_ind.
  - eapply run_eq. { now apply pop_then_empty. } apply run_ret. step_ok (@nil value) (@nil value); auto using others_refl. cbn [vspec]. auto.
  - destruct (C27_pop_forget t self l x w R) as (w' & E & (R' & _) & D & O). eapply run_eq; [exact E|]. apply run_ret.
    step_ok l (@nil value). cbn [vspec]. rewrite removelast_last. auto.
Qed.
Lemma remove_then_oob t self i f l w : repr t self l w -> (length l <= i)%nat -> remove_then t self i f w = (Panic PBounds, w).
Proof. intros R L. unfold remove_then, bind. erewrite v_remove_into_oob by eauto. reflexivity. Qed.
Lemma run_panics {A B} (m : M A) (f : A -> M B) w r w' Qo (Qp : panic_reason -> world -> Prop) Qa : m w = (Panic r, w') -> Qp r w' -> run (bind m f) w Qo Qp Qa.
Proof. intros E H. unfold run, bind. now rewrite E. Qed.
Lemma follows_remove t self l w i : repr t self l w -> vguard t self (VRemove i) l w -> follows t self (VRemove i) l w.
Proof.
  intros R Cl. unfold follows. cbn [vstep]. destruct (nth_error l i) as [x|] eqn:E.
  - pose proof (nth_error_lt _ _ _ E) as L. apply run_bind.
    eapply run_conseq; [exact (C08_remove_partial t self i l x w R E (Cl L))|..]; cbv beta.
    + intros b w' ((Bx & _) & (R' & _) & D & O).
      assert (G : good t x). { apply repr_orep in R as (o & d & R). eapply orep_elem; eauto using nth_error_In. }
      eapply run_eq. { exact Bx. } apply run_ret. step_ok (remove_at i l) (@nil value). { cbn [vspec]. eauto. }
      exists (blocks (wp b)). split; [exact O|]. apply blocks_one.
    + intros r w' (-> & F & D & O & (R' & _)). eexists _, []. rewrite app_nil_r. ands; eauto. cbn [vpanic]. eauto 6 using out_of_memory.
    + intros w' F. eauto using luck_alloc.
  - apply nth_error_None in E. eapply run_panics; [now apply (C08_remove_oob t self i l)|]. step_ok l (@nil value); auto using others_refl.
    cbn [vpanic]. auto.
Qed.
Lemma follows_remove_drop t self l w i : repr t self l w -> vguard t self (VRemoveDrop i) l w -> follows t self (VRemoveDrop i) l w.
Proof.
  intros R [Q Cl]. unfold follows. cbn [vstep]. destruct (nth_error l i) as [x|] eqn:E.
  - pose proof (nth_error_lt _ _ _ E) as L. apply run_bind.
    eapply run_conseq; [exact (C27_remove_drop_partial t self i l x w R E (Cl L))|..]; cbv beta.
    + intros [] w' ((R' & _) & D & O). apply run_ret. step_ok (remove_at i l) [x]. cbn [vspec]. eauto.
    + intros r w' (_ & P). destruct (no_drop_panicked _ _ Q P).
    + intros w' F. eauto using luck_drop.
  - apply nth_error_None in E. eapply run_panics; [now apply (remove_then_oob t self i _ l)|]. step_ok l (@nil value); auto using others_refl.
    cbn [vpanic]. auto.
Qed.
Lemma follows_remove_forget t self l w i : repr t self l w -> vguard t self (VRemoveForget i) l w -> follows t self (VRemoveForget i) l w.
Proof.
  intros R Cl. unfold follows. cbn [vstep]. destruct (nth_error l i) as [x|] eqn:E.
  - pose proof (nth_error_lt _ _ _ E) as L. destruct (C27_remove_forget_partial t self i l x w R E (Cl L)) as (w' & Er & (R' & _) & D & O).
    eapply run_eq; [exact Er|]. apply run_ret. step_ok (remove_at i l) (@nil value). cbn [vspec]. auto.
  - apply nth_error_None in E. eapply run_panics; [now apply (remove_then_oob t self i _ l)|]. step_ok l (@nil value); auto using others_refl.
    cbn [vpanic]. auto.
Qed.

(** Reservations. *)
Lemma align_cases a : 0 <= a <= usize_max -> pow2 a \/ bad_align a.
Proof.
  intros B. destruct (is_power_of_two a) eqn:E; [left; now apply pow2_of_is_power|]. right. intros (k & K & ->).
  assert (P : 0 < 2 ^ k) by (apply Z.pow_pos_nonneg; lia).
  assert (k <= 63). { destruct (Z.le_gt_cases k 63); auto. assert (2 ^ 64 <= 2 ^ k) by (apply Z.pow_le_mono_r; lia). change (2 ^ 64) with 18446744073709551616 in *. lia. }
  rewrite (is_power_of_two_pow2 (2 ^ k)) in E; [discriminate|]. exists k. auto.
Qed.
Lemma try_reserve_cases t self l w exact n b a : nzst t \/ zst t -> repr t self l w -> 0 <= n -> 0 <= b -> 0 <= a <= usize_max ->
  run (if (exact : bool) then v_try_reserve_exact_capacity_bytes_align t self n b a else v_try_reserve_capacity_bytes_align t self n b a) w
    (fun r w' => (r = RErr AllocError -> alloc_failed w w') /\ repr t self l w' /\ w_drops w' = w_drops w /\ others self w w')
    (fun r w' => (r = PDebugAssert /\ cfg_debug = true \/ r = PBadAlign /\ kind_of t = KUnaligned /\ bad_align a \/ divides t r) /\ repr t self l w' /\ w_drops w' = w_drops w /\ others self w w')
    (fun _ => False).
Proof.
  intros [Nz|Z] R Hn Hb Ha.
  2: { destruct (zst_try t self l w exact n b a Z R) as [E|E]; cbv zeta in E; unfold run; rewrite E; ands; auto using others_refl.
    - discriminate.
    - right. right. split; auto. }
  assert (K : (kind_of t = KUnaligned -> pow2 a) \/ kind_of t = KUnaligned /\ bad_align a).
  { destruct (align_cases a Ha); auto. destruct (kind_of t); auto; left; discriminate. }
  destruct K as [P|[K B]].
  - apply repr_orep in R as (o & d & R). destruct exact.
    + eapply run_conseq; [eapply v_try_reserve_exact_cba_wp; eauto|..]; cbv beta; try tauto.
      intros r w' (o' & d' & R' & Q & _ & _ & X). ands; [|eapply orep_repr; eauto|apply Q|apply others_frame, Q]. intros ->. exact X.
    + eapply run_conseq; [eapply v_try_reserve_cba_wp; eauto|..]; cbv beta; try tauto.
      * intros r w' (o' & d' & R' & Q & _ & _ & X). ands; [|eapply orep_repr; eauto|apply Q|apply others_frame, Q]. intros ->. apply X.
      * intros r w' (-> & D & R' & Q & _). ands; auto; [apply Q|apply others_frame, Q].
  - destruct (C17_bad_align_reserve t self l w n b a K R Hn B) as [B1 B2].
    assert (X : bad_align_outcome t self l w (if exact then v_try_reserve_exact_capacity_bytes_align t self n b a else v_try_reserve_capacity_bytes_align t self n b a)) by now destruct exact.
    clear B1 B2. eapply run_conseq; [exact X|..]; cbv beta; try tauto.
    + intros r w' (_ & Fl & (R' & _) & D & O). auto.
    + intros r w' (-> & (R' & _) & D & O). ands; auto 6.
Qed.
Lemma follows_try_reserve t self l w exact n b a : nzst t \/ zst t -> repr t self l w -> vtyped t (VTryReserve exact n b a) ->
  follows t self (VTryReserve exact n b a) l w.
Proof.
  intros Nz R (Hn & Hb & Ha). pose proof (try_reserve_cases t self l w exact n b a Nz R Hn Hb Ha) as H.
  assert (X : run (r <- (if exact then v_try_reserve_exact_capacity_bytes_align t self n b a else v_try_reserve_capacity_bytes_align t self n b a) ;; ret (BRes r)) w
    (fun o w' => exists l' ds, vspec (VTryReserve exact n b a) l o l' ds /\ repr t self l' w' /\ w_drops w' = w_drops w ++ ds /\ leaves (VTryReserve exact n b a) o self w w')
    (fun r w' => exists l' ds, vpanic t (VTryReserve exact n b a) l r l' ds /\ repr t self l' w' /\ w_drops w' = w_drops w ++ ds /\ others self w w') (fun _ => out_of_luck)).
  { apply run_bind. eapply run_conseq; [exact H|..]; cbv beta; try tauto.
    - intros r w' (_ & R' & D & O). apply run_ret. step_ok l (@nil value). cbn [vspec]. eauto.
    - intros r w' (Rr & R' & D & O). step_ok l (@nil value). cbn [vpanic]. auto. }
  now destruct exact.
Qed.
Lemma unwrap_cases r w w' (Qo : unit -> world -> Prop) (Qp : panic_reason -> world -> Prop) (Qa : world -> Prop) :
  (r = ROk -> Qo tt w') -> (r = RErr AllocError -> alloc_failed w w') ->
  (forall p, (p = PCapacity \/ p = POom /\ cfg_oom_panics = true) -> Qp p w') -> (out_of_luck -> Qa w') ->
  run (unwrap_try_reserve_result r) w' Qo Qp Qa.
Proof.
  intros A B D E. apply unwrap_wp. destruct r as [|[]]; auto. specialize (B eq_refl). destruct (cfg_oom_panics) eqn:O; eauto using luck_alloc.
Qed.
Lemma follows_reserve t self l w exact n b a : nzst t \/ zst t -> repr t self l w -> vtyped t (VReserve exact n b a) ->
  follows t self (VReserve exact n b a) l w.
Proof.
  intros Nz R (Hn & Hb & Ha). pose proof (try_reserve_cases t self l w exact n b a Nz R Hn Hb Ha) as H.
  assert (X : run (r <- (if exact then v_try_reserve_exact_capacity_bytes_align t self n b a else v_try_reserve_capacity_bytes_align t self n b a) ;;
                   unwrap_try_reserve_result r) w
    (fun _ w' => repr t self l w' /\ w_drops w' = w_drops w /\ others self w w')
    (fun r w' => (no_room r \/ r = PBadAlign /\ kind_of t = KUnaligned /\ bad_align a \/ divides t r) /\ repr t self l w' /\ w_drops w' = w_drops w /\ others self w w') (fun _ => out_of_luck)).
  { apply run_bind. eapply run_conseq; [exact H|..]; cbv beta; try tauto.
    - intros r w' (Fl & R' & D & O). apply (unwrap_cases r w); auto. intros p P. ands; auto. left. unfold no_room. tauto.
    - intros r w' (Rr & R' & D & O). ands; auto. unfold no_room. tauto. }
  unfold follows. cbn [vstep].
  assert (Y : run (if exact then v_reserve_exact_capacity_bytes_align t self n b a else v_reserve_capacity_bytes_align t self n b a) w
    (fun _ w' => repr t self l w' /\ w_drops w' = w_drops w /\ others self w w')
    (fun r w' => (no_room r \/ r = PBadAlign /\ kind_of t = KUnaligned /\ bad_align a \/ divides t r) /\ repr t self l w' /\ w_drops w' = w_drops w /\ others self w w') (fun _ => out_of_luck)) by now destruct exact.
  clear X. destruct exact; (apply run_bind; eapply run_conseq; [exact Y|..]; cbv beta; auto;
    [intros [] w' (R' & D & O); apply run_ret; step_ok l (@nil value); cbn [vspec]; auto|
     intros r w' (Rr & R' & D & O); step_ok l (@nil value); cbn [vpanic]; auto]).
Qed.
Lemma follows_try_reserve_count t self l w exact n : repr t self l w -> 0 <= n -> follows t self (VTryReserveCount exact n) l w.
Proof.
  intros R Hn. apply repr_orep in R as (o & d & R). unfold follows.
  assert (X : forall ex, run (p_try_reserve t self n ex) w (fun r w' => repr t self l w' /\ w_drops w' = w_drops w /\ others self w w') (fun _ _ => False) (fun _ => False)).
  { intros ex. eapply run_conseq; [eapply p_try_reserve_wp; eauto|..]; cbv beta; try tauto.
    intros r w' (o' & d' & R' & Q & _). ands; [eapply orep_repr; eauto|apply Q|apply others_frame, Q]. }
  destruct exact; cbn [vstep]; (apply run_bind; eapply run_conseq; [apply X|..]; cbv beta; try tauto;
    intros r w' (R' & D & O); apply run_ret; step_ok l (@nil value); cbn [vspec]; eauto).
Qed.
Lemma follows_reserve_count t self l w n : repr t self l w -> 0 <= n -> follows t self (VReserveCount n) l w.
Proof.
  intros R Hn. unfold follows. cbn [vstep]. unfold v_reserve. apply run_bind, run_bind.
  eapply run_conseq; [exact (C18_try_reserve_count t self l w n R Hn)|..]; cbv beta; try tauto.
  intros r w' (((R' & _) & D & O) & _ & Fl). apply (unwrap_cases r w); auto.
  - intros _. apply run_ret. step_ok l (@nil value). cbn [vspec]. auto.
  - intros p P. step_ok l (@nil value). cbn [vpanic]. ands; auto. unfold no_room. tauto.
Qed.
Lemma shrink_reason t a w r w' : shrink_refused t a w r w' -> no_memory r \/ r = PBadAlign /\ kind_of t = KUnaligned /\ bad_align a \/ divides t r.
Proof.
  intros [(-> & _ & _ & F)|(_ & [(E & K & Z)|X])].
  - left. exact (out_of_memory _ _ F).
  - right. right. split; auto. split; auto.
  - auto.
Qed.
Lemma follows_shrink t self l w n b a : nzst t \/ zst t -> repr t self l w -> vtyped t (VShrink n b a) -> vguard t self (VShrink n b a) l w ->
  follows t self (VShrink n b a) l w.
Proof.
  intros Nz R (Hn & Hb & Ha) (bc & al & B & A & Sw). unfold follows. cbn [vstep]. apply run_bind.
  eapply run_conseq; [exact (C23_shrink_capacity_bytes_align_to_partial t self l w n b a bc al R B A Hn Hb Ha Sw)|..]; cbv beta.
  - intros [] w' ((R' & _) & D & O). apply run_ret. step_ok l (@nil value). cbn [vspec]. auto.
  - intros r w' (Rr & (R' & _) & D & O). step_ok l (@nil value). cbn [vpanic]. ands; auto.
    destruct (shrink_reason _ _ _ _ _ Rr); tauto.
  - intros w' F. eauto using luck_alloc.
Qed.
Lemma follows_shrink_to t self l w n : nzst t \/ zst t -> repr t self l w -> 0 <= n -> follows t self (VShrinkTo n) l w.
Proof.
  intros Nz R Hn. unfold follows. cbn [vstep]. apply run_bind.
  eapply run_conseq; [exact (C23_shrink_to t self l w n R Hn)|..]; cbv beta.
  - intros [] w' ((R' & _) & D & O). apply run_ret. step_ok l (@nil value). cbn [vspec]. auto.
  - intros r w' (Rr & (R' & _) & D & O). step_ok l (@nil value). cbn [vpanic]. ands; auto.
    destruct (shrink_reason _ _ _ _ _ Rr) as [|[(_ & _ & X)|]]; auto. destruct X. exists 63. split; [lia|reflexivity].
  - intros w' F. eauto using luck_alloc.
Qed.
Lemma values_drop t xs w : Forall (good t) xs -> run (emplacables_drop (map (emplacable_of_value t) xs)) w
    (fun _ w' => within [] [] w w' /\ w_drops w' = w_drops w ++ xs) (fun _ w' => drop_panicked w w') (fun w' => drop_panicked w w').
Proof.
  intros G. assert (Gw : Forall (wf_value t) xs) by (eapply Forall_impl; [|exact G]; intros x Gx; apply Gx). destruct (value_fvs t xs) as (Fv & Fb & _).
  eapply run_conseq; [exact (emplacables_drop_wp _ _ w (values_family t xs w Gw))|..]; cbv beta; rewrite ?Fv, ?Fb, ?value_nulls.
  - intros _ w' (W & D & _). auto.
  - intros r w' (_ & [_ P] & _). exact P.
  - intros w' [_ P]. exact P.
Qed.
Lemma zst_extend t self l w hint xs : zst t -> repr t self l w -> Forall (good t) xs ->
  run (v_extend t self hint (map (emplacable_of_value t) xs)) w (fun _ _ => False)
    (fun r w' => (no_room r \/ divides t r) /\ within [] [] w w' /\ w_drops w' = w_drops w ++ xs) (fun w' => drop_panicked w w').
Proof.
  intros Z R G. unfold v_extend. change (v_reserve_exact t self hint) with (v_reserve_exact_capacity_bytes_align t self hint 0 1).
  destruct (zst_reserve t self l w true hint 0 1 Z R) as (r & Rr & E). cbv iota in E. apply run_bind. unfold run, on_unwind. rewrite E.
  pose proof (values_drop t xs w G) as H. unfold run in H. destruct (emplacables_drop _ w) as [[[]|r'| |u] w']; auto.
  destruct H. auto using divides_reason.
Qed.
Lemma follows_extend t self l w hint xs : nzst t \/ zst t -> repr t self l w -> vtyped t (VExtend hint xs) -> vguard t self (VExtend hint xs) l w ->
  follows t self (VExtend hint xs) l w.
Proof.
  intros [Nz|Z] R (Hh & Gx) (N & al & A & T); unfold follows; cbn [vstep]; apply run_bind.
  2: { eapply run_conseq; [exact (zst_extend t self l w hint xs Z R Gx)|..]; cbv beta; try tauto.
    - intros r w' (Rr & W & D). exists l, xs. ands; auto using others_within0.
      + cbn [vpanic]. split; auto. exists []. rewrite app_nil_r. auto.
      + eapply repr_within; eauto using apart_nil.
    - intros w' F. eauto using luck_drop. }
  eapply run_conseq; [exact (C36_extend_values_partial t self hint xs l al w Nz Hh R A T N)|..]; cbv beta.
  - intros [] w' ((R' & _) & D & O). apply run_ret. step_ok (l ++ xs) (@nil value). cbn [vspec]. auto.
  - intros r w' (ys & zs & (R' & _) & D & O & Rr & E). exists (l ++ ys), zs. ands; auto. cbn [vpanic]. split.
    { destruct Rr as [->|[-> Oo]]; unfold no_room; auto. }
    exists ys. split; auto. destruct E as [[-> ->]|[x ->]]; eauto.
  - intros w' [F|F]; eauto using luck_alloc, luck_drop.
Qed.

(** The caller's closures. *)
Lemma producer_fits t e S : producer t e S -> not_huge t (d_value S) -> fits t (d_lay S) (d_value S).
Proof. intros (_ & _ & _ & _ & -> & G) N. now apply fits_self. Qed.
Lemma producer_apart t e S self w : producer t e S -> apart self (d_fv S) (d_fb S) w.
Proof. intros (_ & -> & -> & _). apply apart_nil. Qed.
Lemma producer_others t e S self w w' : producer t e S -> touch self (d_fv S) (d_fb S) w w' -> others self w w'.
Proof. intros (_ & -> & -> & _) T. now apply others_frame, frame_touch. Qed.
Lemma with_gives_up t e S self l o ex w r w' : producer t e S -> with_panic t self l o S ex w r w' ->
  repr t self l w' /\ others self w w' /\ exists ds, w_drops w' = w_drops w ++ ds /\ (no_room r /\ ds = [] \/ gives_up S r).
Proof.
  intros P (R & T & H). pose proof (to_drops _ _ _ _ _ T) as [ds D]. ands; eauto using producer_others.
  destruct H as [(_ & Rr & E & _)|[Pr|(-> & N & Bd)]].
  - exists []. rewrite app_nil_r. split; auto. left. split; auto. unfold no_room. tauto.
  - exists ds. unfold gives_up. auto.
  - exists ds. unfold gives_up. eauto 6 using dropped_badly.
Qed.
Lemma follows_push_from t self l w e S : nzst t \/ zst t -> repr t self l w -> vtyped t (VPushFrom e S) -> vguard t self (VPushFrom e S) l w ->
  follows t self (VPushFrom e S) l w.
Proof.
  intros Nz R P [N Pl]. cbn [vtyped] in P. unfold follows. cbn [vstep]. apply run_bind. apply repr_orep in R as (o & d & R).
  eapply run_conseq; [eapply (v_push_with_wp t self l o d w e S R); [apply P|apply P|now apply (producer_fits t e)|now apply zst_kind|eapply placeable_can; eauto|now apply (producer_apart t e)]|..]; cbv beta.
  - intros [] w' (o' & d' & R' & T & D & _). apply run_ret. exists (l ++ [d_value S]), (d_extra S). ands; eauto using leaves_others, producer_others, orep_repr. cbn [vspec]. auto.
  - intros r w' H. destruct (with_gives_up _ _ _ _ _ _ _ _ _ _ P H) as (R' & O & ds & D & Rr). exists l, ds. ands; auto. cbn [vpanic]. auto.
  - intros w' [F|[_ F]]; eauto using luck_alloc, luck_drop.
Qed.
Lemma follows_insert_from t self l w i e S : nzst t \/ zst t -> repr t self l w -> vtyped t (VInsertFrom i e S) -> vguard t self (VInsertFrom i e S) l w ->
  follows t self (VInsertFrom i e S) l w.
Proof.
  intros Nz R P (N & Pl & Mv). cbn [vtyped] in P. unfold follows. cbn [vstep]. apply run_bind.
  destruct (le_lt_dec i (length l)) as [Li|Li].
  - apply repr_orep in R as (o & d & R).
    eapply run_conseq; [eapply (v_insert_with_wp t self l o d w e S i R); [apply P|apply P|now apply (producer_fits t e)|now apply zst_kind|eapply placeable_can; eauto|now apply (producer_apart t e)|exact Li|]|..]; cbv beta.
    + intros K. eapply movable_tail; eauto. apply pow2_pos, good_align; auto. apply P.
    + intros [] w' (o' & d' & R' & T & D & _). apply run_ret. exists (insert_at i (d_value S) l), (d_extra S). ands; eauto using leaves_others, producer_others, orep_repr. cbn [vspec]. auto.
    + intros r w' H. destruct (with_gives_up _ _ _ _ _ _ _ _ _ _ P H) as (R' & O & ds & D & Rr). exists l, ds. ands; auto. cbn [vpanic]. auto.
    + intros w' [F|[_ F]]; eauto using luck_alloc, luck_drop.
  - eapply run_conseq; [eapply (v_insert_with_oob t self l w e S i); eauto using producer_apart; apply P|..]; cbv beta; try tauto.
    + intros r w' (-> & Wi & D & _). destruct P as (_ & Ev & Eb & _). rewrite Ev, Eb in Wi. exists l, (d_nulls S). ands; auto.
      * cbn [vpanic]. auto.
      * eapply repr_within; eauto using apart_nil.
      * now apply others_within0.
    + intros w' (_ & F). eauto using luck_drop.
Qed.
Lemma producers_family t ps w : Forall (fun p => producer t (fst p) (snd p)) ps ->
  family (map fst ps) (map snd ps) w /\ fvs (map snd ps) = [] /\ fbs (map snd ps) = [].
Proof.
  intros F. unfold family, fvs, fbs. induction F as [|p ps P F ((F2 & I & St) & Ev & Eb)]; cbn [map flat_map].
  - repeat constructor.
  - destruct P as (Em & Pv & Pb & Sp & _). rewrite Pv, Pb. ands; auto; constructor; auto.
    rewrite Forall_map. apply Forall_forall. intros q _. unfold indep. rewrite Pv, Pb. split; intros ? [].
Qed.
Lemma producers_joins t al ps : Forall (fun p => producer t (fst p) (snd p)) ps -> Forall (not_huge t) (map d_value (map snd ps)) -> takes t al (map d_value (map snd ps)) ->
  joins t al (map snd ps).
Proof.
  intros F. unfold joins, takes. induction F as [|p ps P F IH]; cbn [map]; intros N T; constructor; inversion_clear N; inversion_clear T; auto.
  ands; try tauto. now apply (producer_fits t (fst p)).
Qed.
Lemma follows_extend_from t self l w hint ps : nzst t \/ zst t -> repr t self l w -> vtyped t (VExtendFrom hint ps) -> vguard t self (VExtendFrom hint ps) l w ->
  follows t self (VExtendFrom hint ps) l w.
Proof.
  intros [Nz|Z] R (Hh & P) (N & al & A & T); unfold follows; cbn [vstep]; apply run_bind; destruct (producers_family t ps w P) as (Fa & Ev & Eb).
  2: { unfold v_extend. change (v_reserve_exact t self hint) with (v_reserve_exact_capacity_bytes_align t self hint 0 1).
    destruct (zst_reserve t self l w true hint 0 1 Z R) as (r & Rr & E). cbv iota in E. apply run_bind. unfold run, on_unwind. rewrite E.
    pose proof (emplacables_drop_wp _ _ w Fa) as H. unfold run in H. destruct (emplacables_drop _ w) as [[[]|r'| |u] w']; auto.
    - destruct H as (W & D & _). rewrite Ev, Eb in W. exists l, (all_nulls (map snd ps)). ands; auto using others_within0.
      + cbn [vpanic]. exists [], (map snd ps). cbn [map app]. rewrite app_nil_r. ands; auto. left. ands; auto using divides_reason.
      + eapply repr_within; eauto using apart_nil.
    - destruct H as (_ & (_ & H) & _). eauto using luck_drop.
    - destruct H as [_ H]. eauto using luck_drop. }
  apply repr_orep in R as (o & d & R). rewrite (v_align_eq _ _ _ _ _ _ R) in A. injection A as <-.
  eapply run_conseq; [eapply (v_extend_wp t self hint (map fst ps) (map snd ps)); eauto; [rewrite Ev, Eb; apply apart_nil|now apply producers_joins]|..]; cbv beta; rewrite ?Ev, ?Eb.
  - intros [] w' (R' & T' & D & _). apply run_ret. eexists _, _. split; [cbn [vspec]; eauto|]. ands; eauto. apply leaves_others. now apply others_frame, frame_touch.
  - intros r w' [(Ss1 & S & Ss2 & E & R' & T' & _ & _ & H)|(Rr & R' & T' & _ & D)]; rewrite Ev, Eb in T'.
    + pose proof (to_drops _ _ _ _ _ T') as [ds D].
      assert (O : others self w w') by now apply others_frame, frame_touch.
      destruct H as [(Rr & _ & D')|[Pr|(-> & X & Bd)]].
      * exists (l ++ map d_value Ss1), (all_extra Ss1 ++ all_nulls Ss2). ands; auto. cbn [vpanic]. exists Ss1, (S :: Ss2). ands; auto. right.
        exists S, Ss2. ands; auto. left. split; auto. unfold no_room. destruct Rr as [->|[-> Oo]]; auto.
      * exists (l ++ map d_value Ss1), ds. ands; auto. cbn [vpanic]. exists Ss1, (S :: Ss2). ands; auto. right. exists S, Ss2. unfold gives_up. auto.
      * exists (l ++ map d_value Ss1), ds. ands; auto. cbn [vpanic]. exists Ss1, (S :: Ss2). ands; auto. right. exists S, Ss2. unfold gives_up. eauto 6 using dropped_badly.
    + exists l, (all_nulls (map snd ps)). ands; auto; [|now apply others_frame, frame_touch]. cbn [vpanic]. exists [], (map snd ps). cbn [map app]. rewrite app_nil_r. ands; auto. left. ands; auto.
      left. destruct Rr as [->|[-> Oo]]; unfold no_room; auto.
  - intros w' [F|[_ F]]; eauto using luck_alloc, luck_drop.
Qed.

(** Writing through the references of an [iter_mut]. *)
Lemma eref_same t o l l' j : Forall2 alike l l' -> (j < length l)%nat -> eref_at t o l' j = eref_at t o l j.
Proof.
  intros A L. pose proof (eref_at_alike t o l l' j A) as E. unfold eref_at, eref in *. cbn [wp] in E. rewrite E. f_equal.
  clear -A L. revert j L. induction A as [|x y l l' [M _] _ IH]; intros [|j] L; cbn [length nth] in *; auto; try lia. apply IH. lia.
Qed.
Lemma rewrite_all_eq t self o f js : forall l0 l d w, (forall x, good t x -> alike x (f x)) -> orep t self l o d w -> Forall2 alike l0 l ->
  Forall (fun j => j < length l0)%nat js ->
  exists d' w', rewrite_all t f (map (eref_at t o l0) js) w = (Ok tt, w') /\ orep t self (update_at f js l) o d' w' /\ quiet self w w'.
Proof.
  induction js as [|j js IH]; intros l0 l d w Hf R A F; inversion F as [|? ? Lj F']; subst; cbn [map rewrite_all update_at].
  - exists d, w. split; [reflexivity|]. split; auto using quiet_refl.
  - assert (L : (j < length l)%nat) by now rewrite (alike_len l0 l A).
    pose proof (nth_error_nth' l dummy L) as N. rewrite N. set (x := nth j l dummy) in *.
    assert (G : good t x) by (eapply orep_elem; eauto using nth_error_In).
    destruct (overwrite_at t self l o d w j x (f x) R N (Hf x G)) as (d1 & W & R1 & Q1). rewrite <- (eref_same t o l0 l j A Lj).
    destruct (IH l0 (replace_at j (f x) l) d1 _ Hf R1) as (d2 & w2 & W2 & R2 & Q2); auto.
    { eapply alike_all_trans; [exact A|]. eapply replace_at_alike; eauto. }
    exists d2, w2. split; [|split; [auto|eapply quiet_trans; eauto]].
    erewrite bind_eq by (eapply map_eref; eauto). erewrite bind_eq by exact W. exact W2.
Qed.
Lemma dq_step_in {A} c (m : list A) : (forall x, fst (dq_step c m) = Some x -> In x m) /\ (forall x, In x (snd (dq_step c m)) -> In x m).
Proof.
  destruct c as [| |k]; cbn [dq_step fst snd].
  - destruct m; cbn; split; intros ? H; try discriminate; try tauto. injection H as ->. auto.
  - split; intros x H.
    + apply in_rev. destruct (rev m); [discriminate|]. injection H as ->. now left.
    + destruct m as [|y m _] using rev_ind; [destruct H|]. rewrite removelast_last in H. apply in_or_app. auto.
  - split; intros x H; [eauto using nth_error_In|]. rewrite <- (firstn_skipn (S k) m). apply in_or_app. auto.
Qed.
Lemma dq_run_in {A} cs : forall (m : list A) x, In x (somes (fst (dq_run cs m))) -> In x m.
Proof.
  induction cs as [|c cs IH]; intros m x H; cbn [dq_run] in H; [destruct H|].
  destruct (dq_step_in c m) as [Hy Hm]. destruct (dq_step c m) as [y m1]. specialize (IH m1 x).
  destruct (dq_run cs m1) as [xs m2]. cbn [fst snd] in *. unfold somes in H, IH. cbn [flat_map fst] in H. apply in_app_or in H as [H|H]; auto.
  destruct y as [y|]; [|destruct H]. destruct H as [->|[]]. auto.
Qed.
Lemma reached_lt cs l : Forall (fun j => j < length l)%nat (reached cs l).
Proof. apply Forall_forall. intros j H. apply dq_run_in, in_seq in H. lia. Qed.
Lemma follows_update t self l w cs f : repr t self l w -> vtyped t (VUpdate cs f) -> vguard t self (VUpdate cs f) l w -> follows t self (VUpdate cs f) l w.
Proof.
  intros R T G. apply repr_orep in R as (o & d & R). cbn [vtyped vguard] in *. destruct (v_iter_eq _ _ _ _ _ _ R) as (it & I & K & _).
  destruct (v_calls_eq _ _ _ _ _ _ cs R [] l [] it false) as (it' & a' & m' & b' & V & _); auto. { cbn. now rewrite app_nil_r. }
  cbn [length] in V.
  assert (E : somes (as_refs t o l (fst (dq_run cs (seq 0 (length l))))) = map (eref_at t o l) (reached cs l)).
  { unfold reached. clear. unfold somes, as_refs. induction (fst (dq_run cs (seq 0 (length l)))) as [|[[j|] n] xs IH]; cbn; auto. now f_equal. }
  destruct (rewrite_all_eq t self o f (reached cs l) l l d w T R (alike_all_refl l) (reached_lt cs l)) as (d' & w' & W & R' & Q).
  unfold follows. cbn [vstep]. eapply run_eq.
  { unfold v_update. erewrite bind_eq by exact I. erewrite bind_eq by exact V. cbn [fst]. rewrite E. exact W. }
  apply run_ret. step_ok (update_at f (reached cs l) l) (@nil value).
  - cbn [vspec]. auto.
  - eapply orep_repr; eauto.
  - apply Q.
  - apply leaves_others, others_frame, Q.
Qed.

(** Coercing on the stack first. *)
Lemma step_push_unsize t self s a m x w : coercible t s a m x ->
  vstep t self (VPushUnsize s a m x) w = vstep t self (VPush (coerce m x)) (past_slot w).
Proof. intros (U & W & K & G). cbn [vstep]. unfold v_push_unsize, bind. now rewrite (unsize_eq _ _ _ _ _ _ U (good_wf _ _ G)). Qed.
Lemma step_insert_unsize t self s a m i x w : coercible t s a m x ->
  vstep t self (VInsertUnsize s a m i x) w = vstep t self (VInsert i (coerce m x)) (past_slot w).
Proof. intros (U & W & K & G). cbn [vstep]. unfold v_insert_unsize, bind. now rewrite (unsize_eq _ _ _ _ _ _ U (good_wf _ _ G)). Qed.
Lemma coercible_good t s a m x : coercible t s a m x -> good t (coerce m x).
Proof. intros (U & W & K & G). eapply coerce_good; eauto. Qed.
Lemma others_past_slot self w w' : others self (past_slot w) w' -> others self w w'.
Proof. apply others_untouched, past_slot_untouched. Qed.
Lemma leaves_past_slot c c' o self w w' : vgiven c o = 0%nat -> leaves c o self (past_slot w) w' -> leaves c' o self w w'.
Proof. intros E (bs & O & L). rewrite E in L. destruct bs; [|cbn in L; lia]. apply leaves_others, others_past_slot, O. Qed.
Lemma follows_push_unsize t self l w s a m x : nzst t \/ zst t -> repr t self l w -> coercible t s a m x -> placeable t self (coerce m x) w ->
  follows t self (VPushUnsize s a m x) l w.
Proof.
  intros Nz R K Pl. pose proof (past_slot_untouched w) as Un.
  pose proof (follows_push t self l (past_slot w) (coerce m x) Nz (repr_untouched _ _ _ _ _ Un R) (coercible_good _ _ _ _ _ K)
    (placeable_untouched _ _ _ _ _ _ R Un Pl)) as H.
  unfold follows, run in *. rewrite (step_push_unsize _ _ _ _ _ _ _ K). destruct (vstep t self (VPush _) _) as [[b|r| |u] w']; auto.
  - destruct H as (l' & ds & Sp & R' & D & O). exists l', ds. ands; auto. eapply leaves_past_slot; [|exact O]. reflexivity.
  - destruct H as (l' & ds & Sp & R' & D & O). exists l', ds. ands; auto using others_past_slot.
Qed.
Lemma follows_insert_unsize t self l w s a m i x : nzst t \/ zst t -> repr t self l w -> coercible t s a m x ->
  vguard t self (VInsertUnsize s a m i x) l w -> follows t self (VInsertUnsize s a m i x) l w.
Proof.
  intros Nz R K Gd. pose proof (past_slot_untouched w) as Un.
  assert (Gd' : vguard t self (VInsert i (coerce m x)) l (past_slot w)).
  { cbn [vguard] in *. destruct Gd as [Ks|[L|(Pl & Q)]]; auto. right. right. split; [eapply placeable_untouched; eauto|].
    destruct Q as [Z|(Mv & Of)]; auto. right. split.
    - intros Ku. destruct (Mv Ku) as [L|(al & A & E)]; auto. right. exists al. eauto using align_untouched.
    - unfold offset_of in *. destruct (kind_of t); auto. destruct Of as (al & A & E). exists al. eauto using align_untouched. }
  pose proof (follows_insert t self l (past_slot w) i (coerce m x) Nz (repr_untouched _ _ _ _ _ Un R) (coercible_good _ _ _ _ _ K) Gd') as H.
  unfold follows, run in *. rewrite (step_insert_unsize _ _ _ _ _ _ _ _ K). destruct (vstep t self (VInsert _ _) _) as [[b|r| |u] w']; auto.
  - destruct H as (l' & ds & Sp & R' & D & O). exists l', ds. ands; auto. eapply leaves_past_slot; [|exact O]. reflexivity.
  - destruct H as (l' & ds & Sp & R' & D & O). exists l', ds. ands; auto using others_past_slot.
Qed.

(** Every call on one vector does what the same call on the list does. *)
Theorem vstep_follows t self c l w : wf_ty t -> repr t self l w -> vtyped t c -> vguard t self c l w -> follows t self c l w.
Proof.
  intros Wt R T G. pose proof (zst_or t Wt) as Nz. destruct c; try (now apply follows_observers).
  - now apply follows_index.
  - now apply follows_set.
  - now apply follows_push.
  - now apply follows_push_with.
  - now apply follows_insert.
  - now apply follows_insert_with.
  - now apply follows_pop.
  - now apply follows_pop_drop.
  - now apply follows_pop_forget.
  - now apply follows_remove.
  - now apply follows_remove_drop.
  - now apply follows_remove_forget.
  - now apply follows_try_reserve.
  - now apply follows_reserve.
  - now apply follows_try_reserve_count.
  - now apply follows_reserve_count.
  - now apply follows_shrink.
  - now apply follows_shrink_to.
  - now apply follows_extend.
  - now apply follows_push_from.
  - now apply follows_insert_from.
  - now apply follows_extend_from.
  - now apply follows_update.
  - now apply follows_push_unsize.
  - now apply follows_insert_unsize.
Qed.

(** ** Any number of vectors *)
(** Vectors are named by the order of their creation. [env] says which objects are still alive; a call on a vector that has
    been dropped, or that borrows the same vector twice, is refused by the Rust compiler and is skipped here. *)
Inductive op :=
| New (one : bool)
| WithCapacity (n : Z) | WithCapacityBytes (n b : Z) | WithCapacityBytesAlign (n b a : Z)
| OfValues (xs : list value) | Collect (hint : Z) (xs : list value) | CollectFrom (hint : Z) (ps : list (emplacable * deal))
| CloneOf (k : nat) (f : value -> value) (clone : value -> M value)
| On (k : nat) (c : vop)
| MoveLast (dst src : nat)                    (* dst.push_with(src.pop_into()) *)
| MoveAt (dst i src j : nat)                  (* dst.insert_with(i, src.remove_into(j)) *)
| Equal (k k' : nat) (f : value -> value -> bool)
| Compare (k k' : nat) (f : value -> value -> comparison)
| DropVec (k : nat).

Definition alive (env : list (option nat)) (k : nat) : option nat := match nth_error env k with Some o => o | None => None end.
Definition skip : M obs := ret BSkip.
Definition on1 (env : list (option nat)) (k : nat) (f : nat -> M obs) : M obs :=
  match alive env k with Some j => f j | None => skip end.
Definition on2 (env : list (option nat)) (k k' : nat) (f : nat -> nat -> M obs) : M obs :=
  match alive env k, alive env k' with Some j, Some j' => f j j' | _, _ => skip end.
Definition born (env : list (option nat)) (m : M nat) : M (obs * list (option nat)) := v <- m ;; ret (BUnit, env ++ [Some v]).
Definition keep (env : list (option nat)) (m : M obs) : M (obs * list (option nat)) := o <- m ;; ret (o, env).

Definition step (t : ty) (env : list (option nat)) (c : op) : M (obs * list (option nat)) :=
  match c with
  | New one => born env (if one then v_new_align_1 t else v_new t)
  | WithCapacity n => born env (v_with_capacity t n)
  | WithCapacityBytes n b => born env (v_with_capacity_bytes t n b)
  | WithCapacityBytesAlign n b a => born env (v_with_capacity_bytes_align t n b a)
  | OfValues xs => born env (v_of_values t xs)
  | Collect hint xs => born env (v_from_iter t hint (map (emplacable_of_value t) xs))
  | CollectFrom hint ps => born env (v_from_iter t hint (map fst ps))
  | CloneOf k f clone => match alive env k with Some j => born env (v_clone t clone j) | None => keep env skip end
  | On k c => keep env (on1 env k (fun j => vstep t j c))
  | MoveLast d s => if (d =? s)%nat then keep env skip else
      keep env (on2 env d s (fun j j' => pop_then t j' (v_push_with t j) ;; ret BUnit))
  | MoveAt d i s k => if (d =? s)%nat then keep env skip else
      keep env (on2 env d s (fun j j' => remove_then t j' k (v_insert_with t j i) ;; ret BUnit))
  | Equal k k' f => keep env (on2 env k k' (fun j j' => b <- v_eq t t f j j' ;; ret (BBool b)))
  | Compare k k' f => keep env (on2 env k k' (fun j j' => o <- v_cmp t f j j' ;; ret (BCmp o)))
  | DropVec k => match alive env k with Some j => v_drop t j ;; ret (BUnit, upd env k None) | None => keep env skip end
  end.

(** A panic is caught and the history goes on; a vector whose [drop] panics is gone. *)
Definition after_panic (c : op) (env : list (option nat)) : list (option nat) :=
  match c with DropVec k => upd env k None | _ => env end.
Definition exec1 (t : ty) (env : list (option nat)) (c : op) : M ((obs + panic_reason) * list (option nat)) := fun w =>
  match step t env c w with
  | (Ok (o, env'), w') => (Ok (inl o, env'), w')
  | (Panic r, w') => (Ok (inr r, after_panic c env), w')
  | (Abort, w') => (Abort, w')
  | (UB u, w') => (UB u, w')
  end.
Fixpoint exec (t : ty) (env : list (option nat)) (cs : list op) : M (list (obs + panic_reason) * list (option nat)) :=
  match cs with
  | [] => ret ([], env)
  | c :: cs => '(r, env') <- exec1 t env c ;; '(rs, env'') <- exec t env' cs ;; ret (r :: rs, env'')
  end.

(** ** The same on lists *)
Definition lists := list (option (list value)).
Definition there (s : lists) (k : nat) : option (list value) := match nth_error s k with Some o => o | None => None end.
Definition skipped (s : lists) (o : obs) (s' : lists) (ds : list value) : Prop := o = BSkip /\ s' = s /\ ds = [].
Definition spec (c : op) (s : lists) (o : obs) (s' : lists) (ds : list value) : Prop :=
  match c with
  | New _ | WithCapacity _ | WithCapacityBytes _ _ | WithCapacityBytesAlign _ _ _ => o = BUnit /\ s' = s ++ [Some []] /\ ds = []
  | OfValues xs | Collect _ xs => o = BUnit /\ s' = s ++ [Some xs] /\ ds = []
  | CollectFrom _ ps => o = BUnit /\ s' = s ++ [Some (map d_value (map snd ps))] /\ ds = all_extra (map snd ps)
  | CloneOf k f _ =>
      match there s k with Some l => o = BUnit /\ s' = s ++ [Some (map f l)] /\ ds = [] | None => skipped s o s' ds end
  | On k c => match there s k with Some l => exists l', vspec c l o l' ds /\ s' = upd s k (Some l') | None => skipped s o s' ds end
  | MoveLast d k =>
      match there s d, there s k with
      | Some ld, Some lk => if (d =? k)%nat then skipped s o s' ds else
          o = BUnit /\ ds = [] /\ s' = upd (upd s k (Some (removelast lk))) d (Some (ld ++ firstn 1 (rev lk)))
      | _, _ => skipped s o s' ds
      end
  | MoveAt d i k j =>
      match there s d, there s k with
      | Some ld, Some lk => if (d =? k)%nat then skipped s o s' ds else
          o = BUnit /\ ds = [] /\ exists x, nth_error lk j = Some x /\ s' = upd (upd s k (Some (remove_at j lk))) d (Some (insert_at i x ld))
      | _, _ => skipped s o s' ds
      end
  | Equal k k' f =>
      match there s k, there s k' with
      | Some l, Some l' => exists b, o = BBool b /\ (b = true <-> Forall2 (fun x y => f x y = true) l l') /\ s' = s /\ ds = []
      | _, _ => skipped s o s' ds
      end
  | Compare k k' f =>
      match there s k, there s k' with
      | Some l, Some l' => o = BCmp (lex f l l') /\ s' = s /\ ds = []
      | _, _ => skipped s o s' ds
      end
  | DropVec k => match there s k with Some l => o = BUnit /\ s' = upd s k None /\ ds = l | None => skipped s o s' ds end
  end.
(** Cloning some element panics. *)
Definition clone_fails (clone : value -> M value) (r : panic_reason) : Prop := exists y w w', clone y w = (Panic r, w').
Definition spec_panic (t : ty) (c : op) (s : lists) (r : panic_reason) (s' : lists) (ds : list value) : Prop :=
  match c with
  | New _ | Equal _ _ _ | Compare _ _ _ => False
  | WithCapacity _ | WithCapacityBytes _ _ | WithCapacityBytesAlign _ _ _ => (no_room r \/ divides t r) /\ s' = s /\ ds = []
  | OfValues xs => (no_room r \/ divides t r) /\ s' = s /\ exists ys x zs, xs = ys ++ x :: zs /\ ds = x :: ys
  | Collect _ xs => (no_room r \/ divides t r) /\ s' = s /\ (ds = xs \/ exists ys x zs, xs = ys ++ x :: zs /\ ds = zs ++ ys)
  | CollectFrom _ ps => s' = s /\
      ((no_room r \/ divides t r) /\ ds = all_nulls (map snd ps) \/
       exists Ss1 S Ss2, map snd ps = Ss1 ++ S :: Ss2 /\ (no_room r /\ ds = all_extra Ss1 ++ all_nulls Ss2 ++ map d_value Ss1 \/ gives_up S r))
  | CloneOf k f clone => exists l, there s k = Some l /\ s' = s /\
      ((no_room r \/ divides t r) /\ ds = [] \/
       exists l1 l2, l = l1 ++ l2 /\ (clone_fails clone r /\ ds = map f l1 \/ exists y l3, l2 = y :: l3 /\ ds = f y :: map f l1 /\ no_room r))
  | On k c => exists l l', there s k = Some l /\ vpanic t c l r l' ds /\ s' = upd s k (Some l')
  | MoveLast d k => exists lk, there s k = Some lk /\ no_room r /\ s' = upd s k (Some (removelast lk)) /\ ds = []
  | MoveAt d i k j => exists ld lk, there s d = Some ld /\ there s k = Some lk /\
      (r = PBounds /\ (length lk <= j)%nat /\ s' = s /\ ds = [] \/
       r = PBounds /\ (length ld < i)%nat /\ s' = upd s k (Some (remove_at j lk)) /\ (exists x, nth_error lk j = Some x /\ ds = [x]) \/
       no_room r /\ s' = match kind_of t with KSized => upd s k (Some (removelast lk)) | _ => s end /\ ds = [])
  | DropVec k => bad_drop r /\ s' = upd s k None /\
      exists l, there s k = Some l /\ match kind_of t with KSized => ds = l | _ => exists m, l = ds ++ m end
  end.
(** [spec_run t cs s rs s' dl]: running [cs] from the lists [s] may give the results [rs] and the lists [s']; the calls destroy
    the values of [dl], in this order. *)
Inductive spec_run (t : ty) : list op -> lists -> list (obs + panic_reason) -> lists -> list (list value) -> Prop :=
| spec_nil s : spec_run t [] s [] s []
| spec_ok c cs s o s1 ds rs s2 dl : spec c s o s1 ds -> spec_run t cs s1 rs s2 dl -> spec_run t (c :: cs) s (inl o :: rs) s2 (ds :: dl)
| spec_caught c cs s r s1 ds rs s2 dl : spec_panic t c s r s1 ds -> spec_run t cs s1 rs s2 dl -> spec_run t (c :: cs) s (inr r :: rs) s2 (ds :: dl).

(** ** The invariant *)
Record tracks (t : ty) (env : list (option nat)) (s : lists) (w : world) : Prop := Tracks {
  tr_len : length env = length s;
  tr_dead : forall k, alive env k = None <-> there s k = None;
  tr_repr : forall k j l, alive env k = Some j -> there s k = Some l -> repr t j l w;
  tr_sep : forall k k' j j', k <> k' -> alive env k = Some j -> alive env k' = Some j' -> sep w j j' }.

Lemma alive_lt env k j : alive env k = Some j -> (k < length env)%nat.
Proof. unfold alive. destruct (nth_error env k) eqn:E; [|discriminate]. intros _. eapply nth_error_lt; eauto. Qed.
Lemma there_lt s k l : there s k = Some l -> (k < length s)%nat.
Proof. unfold there. destruct (nth_error s k) eqn:E; [|discriminate]. intros _. eapply nth_error_lt; eauto. Qed.
Lemma there_same s k o : (k < length s)%nat -> there (upd s k o) k = o.
Proof. intros L. unfold there. now rewrite upd_same. Qed.
Lemma there_other s k k' o : k' <> k -> there (upd s k o) k' = there s k'.
Proof. intros N. unfold there. now rewrite upd_other by auto. Qed.
Lemma alive_same s k o : (k < length s)%nat -> alive (upd s k o) k = o.
Proof. intros L. unfold alive. now rewrite upd_same. Qed.
Lemma alive_other s k k' o : k' <> k -> alive (upd s k o) k' = alive s k'.
Proof. intros N. unfold alive. now rewrite upd_other by auto. Qed.
Lemma alive_app env o k : alive (env ++ [o]) k = if (k =? length env)%nat then o else alive env k.
Proof.
  unfold alive. destruct (Nat.eqb_spec k (length env)) as [->|N].
  - rewrite nth_error_app2, Nat.sub_diag by lia. reflexivity.
  - destruct (lt_dec k (length env)).
    + now rewrite nth_error_app1 by auto.
    + rewrite !(proj2 (nth_error_None _ _)); auto; rewrite ?app_length; cbn; lia.
Qed.
Lemma there_app s o k : there (s ++ [o]) k = if (k =? length s)%nat then o else there s k.
Proof.
  unfold there. destruct (Nat.eqb_spec k (length s)) as [->|N].
  - rewrite nth_error_app2, Nat.sub_diag by lia. reflexivity.
  - destruct (lt_dec k (length s)).
    + now rewrite nth_error_app1 by auto.
    + rewrite !(proj2 (nth_error_None _ _)); auto; rewrite ?app_length; cbn; lia.
Qed.
Lemma tracks_live t env s w k j : tracks t env s w -> alive env k = Some j -> exists l, there s k = Some l /\ repr t j l w.
Proof.
  intros T A. destruct (there s k) as [l|] eqn:E; [|apply (tr_dead _ _ _ _ T) in E; congruence]. exists l. split; auto.
  eapply (tr_repr _ _ _ _ T); eauto.
Qed.
Lemma tracks_none t env s w k : tracks t env s w -> alive env k = None -> there s k = None.
Proof. intros T. apply (tr_dead _ _ _ _ T). Qed.
Lemma tracks_on t env s w k j l' w' bs : tracks t env s w -> alive env k = Some j -> repr t j l' w' -> others_but bs j w w' ->
  tracks t env (upd s k (Some l')) w'.
Proof.
  intros T A R [O _]. pose proof (alive_lt _ _ _ A) as L. rewrite (tr_len _ _ _ _ T) in L.
  assert (Fr : forall k1 j1, k1 <> k -> alive env k1 = Some j1 -> exists l1, there s k1 = Some l1 /\ repr t j1 l1 w' /\ sep w' j j1 /\ owned_block w' j1 = owned_block w j1).
  { intros k1 j1 N A1. destruct (tracks_live _ _ _ _ _ _ T A1) as (l1 & E1 & R1). exists l1. split; auto. apply (O t j1 l1 R1).
    apply (tr_sep _ _ _ _ T k k1); auto. }
  constructor.
  - now rewrite upd_length, (tr_len _ _ _ _ T).
  - intros k1. destruct (Nat.eq_dec k1 k) as [->|N].
    + rewrite A, there_same by auto. split; discriminate.
    + rewrite there_other by auto. apply T.
  - intros k1 j1 l1 A1. destruct (Nat.eq_dec k1 k) as [->|N].
    + rewrite there_same by auto. intros [= <-]. congruence.
    + rewrite there_other by auto. intros E1. destruct (Fr k1 j1 N A1) as (l2 & E2 & R2 & _). congruence.
  - intros k1 k2 j1 j2 N A1 A2. destruct (Nat.eq_dec k1 k) as [->|N1].
    + rewrite A in A1. injection A1 as <-. now destruct (Fr k2 j2 ltac:(auto) A2) as (_ & _ & _ & S & _).
    + destruct (Nat.eq_dec k2 k) as [->|N2].
      * rewrite A in A2. injection A2 as <-. destruct (Fr k1 j1 ltac:(auto) A1) as (_ & _ & _ & S & _). now apply sep_sym.
      * destruct (Fr k1 j1 N1 A1) as (_ & _ & _ & _ & E1). destruct (Fr k2 j2 N2 A2) as (_ & _ & _ & _ & E2).
        destruct (tr_sep _ _ _ _ T k1 k2 j1 j2 N A1 A2) as [Nj S]. split; auto. intros b. rewrite E1, E2. apply S.
Qed.
Lemma upd_there (s : lists) k l : there s k = Some l -> upd s k (Some l) = s.
Proof.
  intros E. unfold there in E. destruct (nth_error s k) as [o|] eqn:N; [subst o|discriminate].
  clear -N. revert k N. induction s as [|a s IH]; intros [|k] N; cbn in *; try discriminate; auto.
  - injection N as ->. reflexivity.
  - now rewrite IH.
Qed.
Lemma tracks_drop t env s w k j w' bs : tracks t env s w -> alive env k = Some j -> others_but bs j w w' ->
  tracks t (upd env k None) (upd s k None) w'.
Proof.
  intros T A [O _]. pose proof (alive_lt _ _ _ A) as L. pose proof L as L'. rewrite (tr_len _ _ _ _ T) in L'.
  assert (Fr : forall k1 j1, k1 <> k -> alive env k1 = Some j1 -> exists l1, there s k1 = Some l1 /\ repr t j1 l1 w' /\ owned_block w' j1 = owned_block w j1).
  { intros k1 j1 N A1. destruct (tracks_live _ _ _ _ _ _ T A1) as (l1 & E1 & R1). exists l1. split; auto.
    destruct (O t j1 l1 R1) as (X & _ & Y); auto. apply (tr_sep _ _ _ _ T k k1); auto. }
  constructor.
  - now rewrite !upd_length, (tr_len _ _ _ _ T).
  - intros k1. destruct (Nat.eq_dec k1 k) as [->|N].
    + rewrite alive_same, there_same by auto. split; auto.
    + rewrite alive_other, there_other by auto. apply T.
  - intros k1 j1 l1. destruct (Nat.eq_dec k1 k) as [->|N].
    + rewrite alive_same by auto. discriminate.
    + rewrite alive_other, there_other by auto. intros A1 E1. destruct (Fr k1 j1 N A1) as (l2 & E2 & R2 & _). congruence.
  - intros k1 k2 j1 j2 N. destruct (Nat.eq_dec k1 k) as [->|N1]; [rewrite alive_same by auto; discriminate|].
    destruct (Nat.eq_dec k2 k) as [->|N2]; [rewrite (alive_same env k) by auto; discriminate|]. rewrite !alive_other by auto. intros A1 A2.
    destruct (Fr k1 j1 N1 A1) as (_ & _ & _ & E1). destruct (Fr k2 j2 N2 A2) as (_ & _ & _ & E2).
    destruct (tr_sep _ _ _ _ T k1 k2 j1 j2 N A1 A2) as [Nj S]. split; auto. intros b. rewrite E1, E2. apply S.
Qed.
Lemma newvec_owned v fv w w' j fb : newvec v fv fb w w' -> (j < v)%nat -> ~ In j fv -> owned_block w' j = owned_block w j.
Proof. intros N L I. unfold owned_block. now rewrite (nv_vecs _ _ _ _ _ N). Qed.
Lemma tracks_newvec t env s w v w' : tracks t env s w -> newvec v [] [] w w' -> tracks t env s w'.
Proof.
  intros T N.
  assert (Fr : forall k1 j1, alive env k1 = Some j1 -> exists l1, there s k1 = Some l1 /\ repr t j1 l1 w' /\ owned_block w' j1 = owned_block w j1).
  { intros k1 j1 A1. destruct (tracks_live _ _ _ _ _ _ T A1) as (l1 & E1 & R1). exists l1. split; auto.
    assert (L : (j1 < v)%nat). { rewrite (nv_self _ _ _ _ _ N). apply repr_orep in R1 as (o & d & R1). eapply nth_error_lt, orep_obj; eauto. }
    split; [eapply newvec_repr; eauto|eapply newvec_owned; eauto]. }
  constructor.
  - apply T.
  - apply T.
  - intros k1 j1 l1 A1 E1. destruct (Fr k1 j1 A1) as (l2 & E2 & R2 & _). congruence.
  - intros k1 k2 j1 j2 Nk A1 A2. destruct (Fr k1 j1 A1) as (_ & _ & _ & E1). destruct (Fr k2 j2 A2) as (_ & _ & _ & E2).
    destruct (tr_sep _ _ _ _ T k1 k2 j1 j2 Nk A1 A2) as [Nj S]. split; auto. intros b. rewrite E1, E2. apply S.
Qed.
Lemma tracks_born t env s w v l w' : tracks t env s w -> newvec v [] [] w w' -> repr t v l w' ->
  tracks t (env ++ [Some v]) (s ++ [Some l]) w'.
Proof.
  intros T N R. pose proof (tracks_newvec _ _ _ _ _ _ T N) as T'. pose proof (tr_len _ _ _ _ T) as L.
  assert (Sv : forall k j, alive env k = Some j -> sep w' v j).
  { intros k j A. destruct (tracks_live _ _ _ _ _ _ T A) as (l1 & _ & R1). eapply newvec_sep; eauto. }
  constructor.
  - rewrite !app_length, L. reflexivity.
  - intros k. rewrite alive_app, there_app, L. destruct (Nat.eqb_spec k (length s)); [split; discriminate|apply T].
  - intros k j l1. rewrite alive_app, there_app, L. destruct (Nat.eqb_spec k (length s)); [intros [= <-] [= <-]; auto|apply T'].
  - intros k k' j j' Nk. rewrite !alive_app, L. destruct (Nat.eqb_spec k (length s)), (Nat.eqb_spec k' (length s)); try lia.
    + intros [= <-] A. eauto.
    + intros A [= <-]. apply sep_sym. eauto.
    + intros A A'. apply (tr_sep _ _ _ _ T' k k'); auto.
Qed.
Lemma tracks_two t env s w k k' j j' l l' w' : tracks t env s w -> k <> k' -> alive env k = Some j -> alive env k' = Some j' ->
  repr t j l w' -> repr t j' l' w' -> spared2 j j' w w' -> tracks t env (upd (upd s k' (Some l')) k (Some l)) w'.
Proof.
  intros T N A A' R R' [S0 [Sp _]]. pose proof (alive_lt _ _ _ A) as L. rewrite (tr_len _ _ _ _ T) in L.
  pose proof (alive_lt _ _ _ A') as L'. rewrite (tr_len _ _ _ _ T) in L'.
  assert (Fr : forall k1 j1, k1 <> k -> k1 <> k' -> alive env k1 = Some j1 -> exists l1, there s k1 = Some l1 /\ repr t j1 l1 w' /\
    sep w' j j1 /\ sep w' j' j1 /\ owned_block w' j1 = owned_block w j1).
  { intros k1 j1 N1 N1' A1. destruct (tracks_live _ _ _ _ _ _ T A1) as (l1 & E1 & R1). exists l1. split; auto.
    apply (Sp t j1 l1 R1); [apply (tr_sep _ _ _ _ T k k1)|apply (tr_sep _ _ _ _ T k' k1)]; auto. }
  constructor.
  - now rewrite !upd_length, (tr_len _ _ _ _ T).
  - intros k1. destruct (Nat.eq_dec k1 k) as [->|N1].
    + rewrite A, there_same by now rewrite upd_length. split; discriminate.
    + rewrite there_other by auto. destruct (Nat.eq_dec k1 k') as [->|N1'].
      * rewrite A', there_same by auto. split; discriminate.
      * rewrite there_other by auto. apply T.
  - intros k1 j1 l1 A1. destruct (Nat.eq_dec k1 k) as [->|N1].
    + rewrite there_same by now rewrite upd_length. intros [= <-]. congruence.
    + rewrite there_other by auto. destruct (Nat.eq_dec k1 k') as [->|N1'].
      * rewrite there_same by auto. intros [= <-]. congruence.
      * rewrite there_other by auto. intros E1. destruct (Fr k1 j1 N1 N1' A1) as (l2 & E2 & R2 & _). congruence.
  - assert (X : forall k1 k2 j1 j2, k1 <> k2 -> alive env k1 = Some j1 -> alive env k2 = Some j2 -> k2 <> k -> sep w' j1 j2).
    { intros k1 k2 j1 j2 Nk A1 A2 N2. destruct (Nat.eq_dec k1 k) as [->|N1].
      - rewrite A in A1. injection A1 as <-. destruct (Nat.eq_dec k2 k') as [->|N2'].
        + rewrite A' in A2. injection A2 as <-. auto.
        + destruct (Fr k2 j2 N2 N2' A2) as (_ & _ & _ & S & _). auto.
      - destruct (Nat.eq_dec k1 k') as [->|N1'].
        + rewrite A' in A1. injection A1 as <-. destruct (Fr k2 j2 N2 ltac:(auto) A2) as (_ & _ & _ & _ & S & _). auto.
        + destruct (Fr k1 j1 N1 N1' A1) as (_ & _ & _ & S1 & S1' & E1). destruct (Nat.eq_dec k2 k') as [->|N2'].
          * rewrite A' in A2. injection A2 as <-. now apply sep_sym.
          * destruct (Fr k2 j2 N2 N2' A2) as (_ & _ & _ & _ & _ & E2).
            destruct (tr_sep _ _ _ _ T k1 k2 j1 j2 Nk A1 A2) as [Nj S]. split; auto. intros b. rewrite E1, E2. apply S. }
    intros k1 k2 j1 j2 Nk A1 A2. destruct (Nat.eq_dec k2 k) as [->|N2]; [|eauto].
    apply sep_sym. eapply X; [..|exact A2|exact A1|]; auto.
Qed.

(** ** The memory *)
(** Every live block is one of [hs] or the buffer of a live vector. *)
Definition accounts (env : list (option nat)) (hs : list nat) (w : world) : Prop :=
  forall b, heap_get (w_heap w) b <> None -> In b hs \/ exists k j, alive env k = Some j /\ owned_block w j = Some b.
Definition foreign (env : list (option nat)) (w : world) (b : nat) : Prop := forall k j, alive env k = Some j -> owned_block w j <> Some b.
(** From [w] to [w'] at most [n] blocks come in that belong to no vector, and the memory that is no vector's is left alone. *)
Definition books (env env' : list (option nat)) (n : nat) (w w' : world) : Prop :=
  (forall hs, accounts env hs w -> exists bs, (length bs <= n)%nat /\ accounts env' (bs ++ hs) w') /\
  (forall b, heap_get (w_heap w) b <> None -> foreign env w b -> heap_get (w_heap w') b = heap_get (w_heap w) b /\ foreign env' w' b).
Lemma books_refl env n w : books env env n w w.
Proof. split; auto. intros hs A. exists []. split; [cbn; lia|exact A]. Qed.
Lemma books_le env env' n m w w' : books env env' n w w' -> (n <= m)%nat -> books env env' m w w'.
Proof. intros [B F] L. split; auto. intros hs A. destruct (B hs A) as (bs & Lb & H). exists bs. split; [lia|exact H]. Qed.
Lemma books_trans env env1 env2 n m w w1 w2 : books env env1 n w w1 -> books env1 env2 m w1 w2 -> books env env2 (n + m) w w2.
Proof.
  intros [A F] [B G]. split.
  - intros hs H. destruct (A hs H) as (bs & L & H1). destruct (B _ H1) as (bs' & L' & H2). exists (bs' ++ bs).
    rewrite app_length, <- app_assoc. split; [lia|exact H2].
  - intros b L Fb. destruct (F b L Fb) as [E Fb1]. rewrite <- E. apply G; auto. now rewrite E.
Qed.
(** What a call on the vector [j] does to another live vector's buffer. *)
Lemma books_other t env s w k j w' bs k1 j1 : tracks t env s w -> alive env k = Some j -> others_but bs j w w' -> alive env k1 = Some j1 -> k <> k1 ->
  owned_block w' j1 = owned_block w j1.
Proof.
  intros T A [O _] A1 N. destruct (tracks_live _ _ _ _ _ _ T A1) as (l1 & _ & R1).
  destruct (O t j1 l1 R1) as (_ & _ & E); auto. apply (tr_sep _ _ _ _ T k k1); auto.
Qed.
Lemma books_on t env s w k j w' bs n : tracks t env s w -> alive env k = Some j -> others_but bs j w w' -> (length bs <= n)%nat ->
  books env env n w w'.
Proof.
  intros T A O Ln. pose proof (fun k1 j1 => books_other t env s w k j w' bs k1 j1 T A O) as Ot. destruct O as (_ & L & Fr). split.
  - intros hs H. exists bs. split; auto. intros b Lb. destruct (L b Lb) as [E|[I|[Lb' N]]].
    + right. eauto.
    + left. apply in_or_app. auto.
    + destruct (H b Lb') as [I|(k1 & j1 & A1 & E1)]; [left; apply in_or_app; auto|]. right. exists k1, j1. split; auto.
      rewrite Ot with k1 j1; auto. intros <-. congruence.
  - intros b Lb F. destruct (Fr b Lb (F k j A)) as [E N]. split; auto. intros k1 j1 A1. destruct (Nat.eq_dec k k1) as [<-|Nk].
    + congruence.
    + rewrite Ot with k1 j1; auto. now apply (F k1).
Qed.
Lemma books_drop t env s w k j w' bs n : tracks t env s w -> alive env k = Some j -> others_but bs j w w' -> (length bs <= n)%nat ->
  nth_error (w_vecs w') j = Some ODead -> books env (upd env k None) n w w'.
Proof.
  intros T A O Ln Dd. pose proof (fun k1 j1 => books_other t env s w k j w' bs k1 j1 T A O) as Ot. destruct O as (_ & L & Fr). split.
  - intros hs H. exists bs. split; auto. intros b Lb. destruct (L b Lb) as [E|[I|[Lb' N]]].
    + unfold owned_block in E. rewrite Dd in E. discriminate E.
    + left. apply in_or_app. auto.
    + destruct (H b Lb') as [I|(k1 & j1 & A1 & E1)]; [left; apply in_or_app; auto|]. right. exists k1, j1.
      assert (Nk : k <> k1) by (intros <-; congruence). split. { now rewrite alive_other by auto. } rewrite Ot with k1 j1; auto.
  - intros b Lb F. destruct (Fr b Lb (F k j A)) as [E N]. split; auto. intros k1 j1. destruct (Nat.eq_dec k k1) as [<-|Nk].
    + rewrite alive_same by (eapply alive_lt; eauto). discriminate.
    + rewrite alive_other by auto. intros A1. rewrite Ot with k1 j1; auto. now apply (F k1).
Qed.
Lemma books_two t env s w k k' j j' w' : tracks t env s w -> alive env k = Some j -> alive env k' = Some j' ->
  spared2 j j' w w' -> books env env 0 w w'.
Proof.
  intros T A A' (_ & O & L & Fr).
  assert (Ot : forall k1 j1, alive env k1 = Some j1 -> k <> k1 -> k' <> k1 -> owned_block w' j1 = owned_block w j1).
  { intros k1 j1 A1 N N'. destruct (tracks_live _ _ _ _ _ _ T A1) as (l1 & _ & R1).
    destruct (O t j1 l1 R1) as (_ & _ & _ & E); auto; [apply (tr_sep _ _ _ _ T k k1)|apply (tr_sep _ _ _ _ T k' k1)]; auto. }
  split.
  - intros hs H. exists []. split; auto. intros b Lb. destruct (L b Lb) as [E|[E|(Lb' & N & N')]]; [right; eauto|right; eauto|].
    destruct (H b Lb') as [I|(k1 & j1 & A1 & E1)]; [left; auto|]. right. exists k1, j1. split; auto.
    rewrite Ot with k1 j1; auto; intros <-; congruence.
  - intros b Lb F. destruct (Fr b Lb (F k j A) (F k' j' A')) as (E & N & N'). split; auto. intros k1 j1 A1.
    destruct (Nat.eq_dec k k1) as [<-|Nk]; [congruence|]. destruct (Nat.eq_dec k' k1) as [<-|Nk']; [congruence|].
    rewrite Ot with k1 j1; auto. now apply (F k1).
Qed.
Lemma alive_old t env s w v w' k1 j1 : tracks t env s w -> newvec v [] [] w w' -> alive env k1 = Some j1 -> owned_block w' j1 = owned_block w j1.
Proof.
  intros T N A1. destruct (tracks_live _ _ _ _ _ _ T A1) as (l1 & _ & R1).
  rewrite (newvec_owned _ _ _ _ j1 _ N); auto. rewrite (nv_self _ _ _ _ _ N). apply repr_orep in R1 as (o & d & R1). eapply nth_error_lt, orep_obj; eauto.
Qed.
Lemma newvec_old t env s w v w' b hs : tracks t env s w -> newvec v [] [] w w' -> accounts env hs w -> (b < length (w_heap w))%nat ->
  heap_get (w_heap w') b <> None -> In b hs \/ exists k j, alive env k = Some j /\ owned_block w' j = Some b.
Proof.
  intros T N H Lb Hb. rewrite (nv_other _ _ _ _ _ N b Lb) in Hb by auto. destruct (H b Hb) as [I|(k1 & j1 & A1 & E1)]; auto.
  right. exists k1, j1. split; auto. now rewrite (alive_old _ _ _ _ _ _ _ _ T N A1).
Qed.
Lemma newvec_foreign t env s w v w' b : tracks t env s w -> newvec v [] [] w w' -> heap_get (w_heap w) b <> None -> foreign env w b ->
  heap_get (w_heap w') b = heap_get (w_heap w) b /\ foreign env w' b /\ owned_block w' v <> Some b.
Proof.
  intros T N L F. pose proof (live_lt _ _ L) as Lb. split; [apply (nv_other _ _ _ _ _ N); auto|]. split.
  - intros k1 j1 A1. rewrite (alive_old _ _ _ _ _ _ _ _ T N A1). eauto.
  - intros O. apply (nv_owned _ _ _ _ _ N) in O. lia.
Qed.
Lemma books_born t env s w v w' : tracks t env s w -> newvec v [] [] w w' -> books env (env ++ [Some v]) 0 w w'.
Proof.
  intros T N. split.
  - intros hs H. exists []. split; auto. intros b Hb. destruct (le_lt_dec (length (w_heap w)) b) as [Lb|Lb].
    + right. exists (length env), v. rewrite alive_app, Nat.eqb_refl. split; auto. now apply (nv_new _ _ _ _ _ N).
    + destruct (newvec_old _ _ _ _ _ _ _ _ T N H Lb Hb) as [I|(k1 & j1 & A1 & E1)]; auto. right. exists k1, j1. split; auto.
      rewrite alive_app. pose proof (alive_lt _ _ _ A1). destruct (Nat.eqb_spec k1 (length env)); [lia|auto].
  - intros b L F. destruct (newvec_foreign _ _ _ _ _ _ _ T N L F) as (E & F' & Nv). split; auto. intros k1 j1. rewrite alive_app.
    destruct (Nat.eqb_spec k1 (length env)); [intros [= <-]; auto|apply F'].
Qed.
Lemma books_unborn t env s w v w' : tracks t env s w -> newvec v [] [] w w' -> vanished v w w' -> books env env 0 w w'.
Proof.
  intros T N [_ V]. split.
  - intros hs H. exists []. split; auto. intros b Hb. destruct (le_lt_dec (length (w_heap w)) b) as [Lb|Lb].
    + now rewrite V in Hb by auto.
    + eapply newvec_old; eauto.
  - intros b L F. destruct (newvec_foreign _ _ _ _ _ _ _ T N L F) as (E & F' & _). auto.
Qed.

(** ** One step *)
(** Boxes handed to the caller, and buffers lost to a destructor that panics while a vector is dropped
    ([PropWhole.C26_panicking_destructor_refuted]). *)
Definition given (t : ty) (c : op) (r : obs + panic_reason) : nat :=
  match c, r with
  | On _ c, inl o => vgiven c o
  | DropVec _, inr _ => match kind_of t with KSized => 0%nat | _ => 1%nat end
  | _, _ => 0%nat
  end.
(** What the Rust types, the signatures and the documentation require of the arguments. *)
Definition typed (t : ty) (c : op) : Prop :=
  match c with
  | WithCapacity n => 0 <= n
  | WithCapacityBytes n b => 0 <= n /\ 0 <= b
  | WithCapacityBytesAlign n b a => 0 <= n /\ 0 <= b /\ (kind_of t = KUnaligned -> pow2 a)
  | OfValues xs => Forall (good t) xs
  | Collect hint xs => 0 <= hint /\ Forall (good t) xs
  | CollectFrom hint ps => 0 <= hint /\ Forall (fun p => producer t (fst p) (snd p)) ps
  | CloneOf _ f clone => kind_of t = KSized /\ exists P, copies t f P clone
  | On _ c => vtyped t c
  | _ => True
  end.
Definition guard (t : ty) (env : list (option nat)) (c : op) (s : lists) (w : world) : Prop :=
  match c with
  | OfValues xs => takes t 8 xs
  | Collect _ xs => Forall (not_huge t) xs /\ takes t 8 xs
  | CollectFrom _ ps => Forall (not_huge t) (map d_value (map snd ps)) /\ takes t 8 (map d_value (map snd ps))
  | On k c => forall j l, alive env k = Some j -> there s k = Some l -> vguard t j c l w
  | MoveLast d k => forall j lk x, d <> k -> alive env d = Some j -> there s k = Some (lk ++ [x]) -> placeable t j x w
  | MoveAt d i k i' => forall j j' ld lk x, d <> k -> alive env d = Some j -> alive env k = Some j' -> there s d = Some ld -> there s k = Some lk ->
      nth_error lk i' = Some x -> closable t j' lk i' w /\ ((i <= length ld)%nat -> movable t j ld i (valign t x) w) /\ placeable t j x w
  | _ => True
  end.

Definition stepped (t : ty) (env : list (option nat)) (c : op) (s : lists) (w : world) (p : obs * list (option nat)) (w' : world) : Prop :=
  (exists s' ds, spec c s (fst p) s' ds /\ tracks t (snd p) s' w' /\ w_drops w' = w_drops w ++ ds) /\
  books env (snd p) (given t c (inl (fst p))) w w'.
Definition step_panics (t : ty) (env : list (option nat)) (c : op) (s : lists) (w : world) (r : panic_reason) (w' : world) : Prop :=
  (exists s' ds, spec_panic t c s r s' ds /\ tracks t (after_panic c env) s' w' /\ w_drops w' = w_drops w ++ ds) /\
  books env (after_panic c env) (given t c (inr r)) w w'.
Definition step_follows (t : ty) (env : list (option nat)) (c : op) (s : lists) (w : world) : Prop :=
  run (step t env c) w (stepped t env c s w) (step_panics t env c s w) (fun _ => out_of_luck).

Lemma step_skip t env c s w : tracks t env s w -> step t env c w = (Ok (BSkip, env), w) -> spec c s BSkip s [] -> step_follows t env c s w.
Proof.
  intros T E S. unfold step_follows. eapply run_eq1; [exact E|]. split; [|apply books_refl]. exists s, []. rewrite app_nil_r. auto.
Qed.
Lemma born_follows_ds t env c s w (m : M nat) l ds0 : tracks t env s w -> step t env c = born env m ->
  spec c s BUnit (s ++ [Some l]) ds0 -> after_panic c env = env ->
  run m w (fun v w' => repr t v l w' /\ newvec v [] [] w w' /\ w_drops w' = w_drops w ++ ds0)
    (fun r w' => (exists ds, spec_panic t c s r s ds /\ w_drops w' = w_drops w ++ ds) /\ newvec (length (w_vecs w)) [] [] w w' /\ vanished (length (w_vecs w)) w w') (fun _ => out_of_luck) ->
  step_follows t env c s w.
Proof.
  intros T E S Ea H. unfold step_follows. rewrite E. unfold born. apply run_bind. eapply run_conseq; [exact H|..]; cbv beta; auto.
  - intros v w' (R & N & D). apply run_ret. split.
    + exists (s ++ [Some l]), ds0. cbn [fst snd]. split; [|split]; eauto using tracks_born.
    + eapply books_le; [eapply books_born; eauto|lia].
  - intros r w' ((ds & P & D) & N & V). split.
    + exists s, ds. rewrite Ea. eauto using tracks_newvec.
    + rewrite Ea. eapply books_le; [eapply books_unborn; eauto|lia].
Qed.
Lemma born_follows t env c s w (m : M nat) l : tracks t env s w -> step t env c = born env m ->
  spec c s BUnit (s ++ [Some l]) [] -> after_panic c env = env ->
  run m w (fun v w' => repr t v l w' /\ newvec v [] [] w w' /\ w_drops w' = w_drops w)
    (fun r w' => (exists ds, spec_panic t c s r s ds /\ w_drops w' = w_drops w ++ ds) /\ newvec (length (w_vecs w)) [] [] w w' /\ vanished (length (w_vecs w)) w w') (fun _ => out_of_luck) ->
  step_follows t env c s w.
Proof.
  intros T E S Ea H. eapply born_follows_ds; eauto. eapply run_conseq; [exact H|..]; cbv beta; auto. intros v w' (R & N & D). rewrite app_nil_r. auto.
Qed.
Lemma built_follows t env c s w (m : M nat) n b a one : tracks t env s w -> step t env c = born env m ->
  spec c s BUnit (s ++ [Some []]) [] -> after_panic c env = env -> (forall r, reserve_reason r -> spec_panic t c s r s []) ->
  run m w (made t one n b a w) (not_made w) (fun w' => alloc_failed w w') -> step_follows t env c s w.
Proof.
  intros T E S Ea P H. eapply born_follows; eauto. eapply run_conseq; [exact H|..]; cbv beta.
  - intros v w' (o & d & w1 & R & N & D & _). eauto using orep_repr.
  - intros r w' (Rr & N & D & V). split; auto. exists []. rewrite app_nil_r. auto.
  - intros w'. apply luck_alloc.
Qed.
Lemma reserve_no_room r : reserve_reason r -> no_room r.
Proof. unfold no_room. intros [E|E]; auto. Qed.


(** A vector of zero-sized elements cannot be made by anything that reserves bytes. *)
Lemma new_repr t one w : wf_ty t -> repr t (length (w_vecs w)) [] (set_vecs (w_vecs w ++ [new_o t one]) w).
Proof. intros W. eapply orep_repr, new_orep; auto. Qed.
Lemma zst_make t one n b a w : wf_ty t -> zst t ->
  exists r w', (no_room r \/ divides t r) /\ newvec (length (w_vecs w)) [] [] w w' /\ w_drops w' = w_drops w /\ vanished (length (w_vecs w)) w w' /\
    on_unwind (v_reserve_exact_capacity_bytes_align t (length (w_vecs w)) n b a) (v_drop t (length (w_vecs w))) (set_vecs (w_vecs w ++ [new_o t one]) w) = (Panic r, w').
Proof.
  intros W Z. destruct (zst_reserve _ _ _ _ true n b a Z (new_repr t one w W)) as (r & Rr & E). cbv iota in E.
  destruct (zst_unborn t one r _ w W Z _ [] E (within_refl _ _ _)) as (w' & E' & N & D & V). { now rewrite app_nil_r. }
  exists r, w'. rewrite app_nil_r in D. ands; auto using divides_reason.
Qed.
Lemma zst_made t env c s w (m : M nat) one n b a : wf_ty t -> zst t -> tracks t env s w -> step t env c = born env m ->
  spec c s BUnit (s ++ [Some []]) [] -> after_panic c env = env -> (forall r, no_room r \/ divides t r -> spec_panic t c s r s []) ->
  (forall r w', on_unwind (v_reserve_exact_capacity_bytes_align t (length (w_vecs w)) n b a) (v_drop t (length (w_vecs w))) (set_vecs (w_vecs w ++ [new_o t one]) w) = (Panic r, w') ->
     m w = (Panic r, w')) -> step_follows t env c s w.
Proof.
  intros Wt Z T E S Ea P H. eapply born_follows; eauto. destruct (zst_make t one n b a w Wt Z) as (r & w' & Rr & N & D & V & Er).
  unfold run. rewrite (H _ _ Er). ands; auto. exists []. rewrite app_nil_r. auto.
Qed.
Lemma follows_collect t env hint xs s w : wf_ty t -> nzst t \/ zst t -> tracks t env s w -> 0 <= hint -> Forall (good t) xs -> Forall (not_huge t) xs -> takes t 8 xs ->
  step_follows t env (Collect hint xs) s w.
Proof.
  intros Wt Nz T Hh Gx Nc Tk.
  eapply (born_follows t env (Collect hint xs) s w _ xs); [exact T|reflexivity|cbn [spec]; auto|reflexivity|].
  destruct Nz as [Nz|Z].
  2: { unfold v_from_iter. eapply run_eq; [apply v_new_eq|]. cbv beta. apply run_bind.
    pose proof (zst_extend t _ _ _ hint xs Z (new_repr t false w Wt) Gx) as H.
    set (w1 := set_vecs (w_vecs w ++ [new_o t false]) w) in *. set (m := v_extend t _ hint _) in *. unfold run in H.
    destruct (m w1) as [[u|r| |u] w2] eqn:Em; try contradiction.
    - destruct H as (Rr & W & D). destruct (zst_unborn t false r m w Wt Z w2 xs Em W D) as (w' & E & N & D' & V). unfold run. fold w1 in E. rewrite E.
      ands; auto. exists xs. split; auto. cbn [spec_panic]. auto.
    - unfold run, on_unwind. rewrite Em. destruct H as (n & _ & H). right. eauto. }
  eapply run_conseq; [exact (C36_collect_values_partial t hint xs w Wt Nz Hh Tk Nc)|..]; cbv beta.
  - intros v w' ((R & _) & N & D). auto.
  - intros r w' (V & N & Rr & D). split; auto. cbn [spec_panic].
    destruct D as [D|(ys & x & zs & E & D)]; eexists; (split; [|exact D]); eauto 10 using reserve_no_room.
  - intros w' [F|F]; eauto using luck_alloc, luck_drop.
Qed.
Lemma follows_collect_from t env hint ps s w : wf_ty t -> nzst t \/ zst t -> tracks t env s w -> 0 <= hint ->
  Forall (fun p => producer t (fst p) (snd p)) ps -> Forall (not_huge t) (map d_value (map snd ps)) -> takes t 8 (map d_value (map snd ps)) ->
  step_follows t env (CollectFrom hint ps) s w.
Proof.
  intros Wt Nz T Hh P Nc Tk. eapply (born_follows_ds t env (CollectFrom hint ps) s w); [exact T|reflexivity|cbn [spec]; eauto|reflexivity|].
  destruct (producers_family t ps w P) as (Fa & Ev & Eb). destruct Nz as [Nz|Z].
  2: { unfold v_from_iter. eapply run_eq; [apply v_new_eq|]. cbv beta. apply run_bind.
    destruct (zst_reserve t _ _ _ true hint 0 1 Z (new_repr t false w Wt)) as (r & Rr & E). cbv iota in E.
    set (w1 := set_vecs (w_vecs w ++ [new_o t false]) w) in *. destruct (producers_family t ps w1 P) as (Fa1 & _).
    pose proof (emplacables_drop_wp _ _ w1 Fa1) as H. unfold run in H.
    assert (X : forall q, on_unwind (v_reserve_exact t (length (w_vecs w)) hint) (emplacables_drop (map fst ps)) w1 = q ->
      (forall x, fst q <> Ok x) -> v_extend t (length (w_vecs w)) hint (map fst ps) w1 = q).
    { intros [[x|r'| |u] w2] E1 Nq; cbn [fst] in Nq; [now destruct (Nq x)|..]; unfold v_extend, bind; now rewrite E1. }
    change (v_reserve_exact t (length (w_vecs w)) hint) with (v_reserve_exact_capacity_bytes_align t (length (w_vecs w)) hint 0 1) in X.
    unfold on_unwind at 1 in X. rewrite E in X. destruct (emplacables_drop _ w1) as [[[]|r'| |u] w2]; [..|contradiction].
    - destruct H as (W & D & _). rewrite Ev, Eb in W. assert (Em := X _ eq_refl ltac:(discriminate)).
      destruct (zst_unborn t false r _ w Wt Z w2 _ Em W D) as (w' & E' & N & D' & V). unfold run. fold w1 in E'. rewrite E'.
      ands; auto. exists (all_nulls (map snd ps)). split; auto. cbn [spec_panic]. split; auto. left. split; auto using divides_reason.
    - destruct H as (_ & (_ & H) & _). unfold run, on_unwind. rewrite (X _ eq_refl) by discriminate. eauto using luck_drop.
    - destruct H as [_ H]. unfold run, on_unwind. rewrite (X _ eq_refl) by discriminate. eauto using luck_drop. }
  eapply run_conseq; [eapply (v_from_iter_wp t hint _ _ w Wt Nz Hh Fa)|..]; cbv beta; rewrite ?Ev, ?Eb.
  - intros j [].
  - now apply producers_joins.
  - intros v w' (R & N & D & _). auto.
  - intros r w' (N & V & H). rewrite Ev, Eb in N. split; auto. destruct H as [(Ss1 & S & Ss2 & E & _ & _ & H)|(Rr & _ & D)].
    + destruct H as [(Rr & _ & D)|H].
      * eexists. split; [|exact D]. cbn [spec_panic]. split; auto. right. exists Ss1, S, Ss2. eauto using reserve_no_room.
      * destruct (nv_drops _ _ _ _ _ N) as [ds D]. exists ds. split; auto. cbn [spec_panic]. split; auto. right. exists Ss1, S, Ss2. split; auto. right.
        unfold gives_up. destruct H as [H|(-> & Ne & Bd)]; eauto using dropped_badly.
    + exists (all_nulls (map snd ps)). split; auto. cbn [spec_panic]. split; auto. left. split; auto using reserve_no_room.
  - intros w' [F|F]; eauto using luck_alloc, luck_drop.
Qed.
Lemma follows_of_values t env xs s w : wf_ty t -> nzst t \/ zst t -> tracks t env s w -> Forall (good t) xs -> takes t 8 xs -> step_follows t env (OfValues xs) s w.
Proof.
  intros Wt Nz T Gx Tk. eapply (born_follows t env (OfValues xs) s w _ xs); [exact T|reflexivity|cbn [spec]; auto|reflexivity|].
  destruct Nz as [Nz|Z].
  2: { unfold v_of_values. eapply run_eq; [apply v_new_eq|]. cbv beta. apply run_bind.
    pose proof (new_repr t false w Wt) as R. assert (N1 : newvec (length (w_vecs w)) [] [] w (set_vecs (w_vecs w ++ [new_o t false]) w)) by (apply new_newvec; right; apply new_o_raw).
    set (w1 := set_vecs (w_vecs w ++ [new_o t false]) w) in *. destruct xs as [|x xs].
    - apply run_on_unwind. apply run_ret. apply run_ret. auto.
    - inversion_clear Gx. pose proof (zst_push t _ _ _ x Z R H) as P. cbn [v_push_values]. set (m := v_push t _ x ;; _) in *.
      unfold run in P. destruct (v_push t (length (w_vecs w)) x w1) as [[u|r| |u] w2] eqn:Em; try contradiction.
      + destruct P as (Rr & _ & D & W). assert (Em' : m w1 = (Panic r, w2)) by exact (bind_panic _ _ _ _ _ Em).
        destruct (zst_unborn t false r m w Wt Z w2 [x] Em' W D) as (w' & E & N & D' & V). unfold run. fold w1 in E. rewrite E.
        ands; auto. exists [x]. split; auto. cbn [spec_panic]. ands; auto. exists [], x, xs. auto.
      + unfold run, on_unwind. unfold m. unfold bind at 1. rewrite Em. destruct P as (n & _ & P). right. eauto. }
  eapply run_conseq; [exact (v_of_values_wp t xs w Wt Nz Tk)|..]; cbv beta.
  - auto.
  - intros r w' (N & Rr & xs1 & x & xs2 & E & D & V). cbn [spec_panic]. split; auto. exists (x :: xs1). split; auto. ands; auto. eauto.
  - intros w' [F|F]; eauto using luck_alloc, luck_drop.
Qed.
Lemma copies_fails t f P clone : copies t f P clone -> copies t f (clone_fails clone) clone.
Proof.
  intros [G H]. split; auto. intros y w Gy. specialize (H y w Gy). unfold run in *. destruct (clone y w) as [[z|r| |u] w'] eqn:E; auto.
  destruct H as (_ & H). split; auto. exists y, w, w'. exact E.
Qed.
Lemma follows_clone t env k f clone s w : wf_ty t -> nzst t \/ zst t -> tracks t env s w -> typed t (CloneOf k f clone) ->
  step_follows t env (CloneOf k f clone) s w.
Proof.
  intros Wt Nz T (K & P & Cp). destruct (alive env k) as [j|] eqn:A.
  - destruct (tracks_live _ _ _ _ _ _ T A) as (l & E & R).
    eapply (born_follows t env (CloneOf k f clone) s w (v_clone t clone j) (map f l)); [exact T|cbn [step]; now rewrite A|cbn [spec]; now rewrite E|reflexivity|].
    destruct Nz as [Nz|Z].
    2: { pose proof R as R0. apply repr_orep in R as (o & d & R). unfold v_clone.
      eapply run_eq; [eapply v_capacity_eq; eauto|]. eapply run_eq; [eapply v_byte_capacity_eq; eauto|]. eapply run_eq; [eapply v_align_eq; eauto|].
      apply run_bind. unfold v_with_capacity_bytes_align. eapply run_eq; [apply v_new_align_1_eq|]. cbv beta. apply run_bind.
      destruct (zst_make t true (o_cap t o) (o_bcap t o) (o_al t o) w Wt Z) as (r & w' & Rr & N & D & V & Er). unfold run. rewrite Er.
      ands; auto. exists []. rewrite app_nil_r. split; auto. cbn [spec_panic]. exists l. split; auto using divides_reason. }
    eapply run_conseq; [exact (C32_clone_partial t f (clone_fails clone) clone j l w K (Nz K) (copies_fails t f P clone Cp) R)|..]; cbv beta.
    + intros v w' ((R1 & _) & _ & _ & N & D). auto.
    + intros r w' (_ & V & N & H). split; auto. cbn [spec_panic]. rewrite E. destruct H as [[D Rr]|(l1 & l2 & El & [[Pr D]|(y & l3 & -> & D & Rr)])].
      * exists []. rewrite app_nil_r. split; auto. exists l. ands; auto using reserve_no_room.
      * exists (map f l1). split; auto. exists l. ands; auto. right. exists l1, l2. auto.
      * exists (f y :: map f l1). split; auto. exists l. ands; auto. right. exists l1, (y :: l3). split; auto. right. exists y, l3. ands; auto.
    + intros w' [F|F]; eauto using luck_alloc, luck_drop.
  - apply step_skip; auto.
    + cbn [step]. now rewrite A.
    + cbn [spec]. rewrite (tracks_none _ _ _ _ _ T A). repeat split.
Qed.
Lemma follows_on t env k c s w : wf_ty t -> tracks t env s w -> vtyped t c -> guard t env (On k c) s w -> step_follows t env (On k c) s w.
Proof.
  intros Wt T Ty G. destruct (alive env k) as [j|] eqn:A.
  - destruct (tracks_live _ _ _ _ _ _ T A) as (l & E & R). cbn [guard] in G.
    unfold step_follows. cbn [step]. unfold keep, on1. rewrite A. apply run_bind.
    eapply run_conseq; [exact (vstep_follows t j c l w Wt R Ty (G j l A E))|..]; cbv beta; auto.
    + intros o w' (l' & ds & S & R' & D & (bs & O & Lb)). apply run_ret. split; [|eapply books_on; eauto].
      exists (upd s k (Some l')), ds. cbn [fst snd spec]. rewrite E. split; [eauto|]. split; auto. eapply tracks_on; eauto.
    + intros r w' (l' & ds & P & R' & D & O). split; [|eapply books_on; eauto].
      exists (upd s k (Some l')), ds. cbn [spec_panic after_panic]. split; [eauto 6|]. split; auto. eapply tracks_on; eauto.
  - apply step_skip; auto.
    + cbn [step]. unfold keep, on1. now rewrite A.
    + cbn [spec]. rewrite (tracks_none _ _ _ _ _ T A). repeat split.
Qed.
Lemma on2_skip env k k' f w : alive env k = None \/ alive env k' = None -> keep env (on2 env k k' f) w = (Ok (BSkip, env), w).
Proof. intros H. unfold keep, on2. destruct (alive env k), (alive env k'); auto; destruct H; discriminate. Qed.
Lemma both_or_none t env s w k k' : tracks t env s w ->
  (exists j j' l l', alive env k = Some j /\ alive env k' = Some j' /\ there s k = Some l /\ there s k' = Some l' /\ repr t j l w /\ repr t j' l' w) \/
  (alive env k = None \/ alive env k' = None) /\ (there s k = None \/ there s k' = None).
Proof.
  intros T. destruct (alive env k) as [j|] eqn:A; [|right; split; auto; left; eapply tracks_none; eauto].
  destruct (alive env k') as [j'|] eqn:A'; [|right; split; auto; right; eapply tracks_none; eauto].
  destruct (tracks_live _ _ _ _ _ _ T A) as (l & E & R), (tracks_live _ _ _ _ _ _ T A') as (l' & E' & R'). left.
  exists j, j', l, l'. auto 10.
Qed.
Lemma follows_equal t env k k' f s w : tracks t env s w -> step_follows t env (Equal k k' f) s w.
Proof.
  intros T. destruct (both_or_none _ _ _ _ k k' T) as [(j & j' & l & l' & A & A' & E & E' & R & R')|[N N']].
  - destruct (C33_eq t t f j l j' l' w R R') as (b & Eb & Hb).
    unfold step_follows. cbn [step]. unfold keep, on2. rewrite A, A'. eapply run_eq1.
    { erewrite bind_eq; [reflexivity|]. erewrite bind_eq by exact Eb. reflexivity. }
    split; [|apply books_refl]. exists s, []. rewrite app_nil_r. cbn [spec fst snd]. rewrite E, E'. split; eauto.
  - apply step_skip; auto. { cbn [step]. now apply on2_skip. }
    cbn [spec]. destruct (there s k), (there s k'); auto; try (repeat split; fail). destruct N'; discriminate.
Qed.
Lemma follows_compare t env k k' f s w : tracks t env s w -> step_follows t env (Compare k k' f) s w.
Proof.
  intros T. destruct (both_or_none _ _ _ _ k k' T) as [(j & j' & l & l' & A & A' & E & E' & R & R')|[N N']].
  - unfold step_follows. cbn [step]. unfold keep, on2. rewrite A, A'. eapply run_eq1.
    { erewrite bind_eq; [reflexivity|]. erewrite bind_eq by exact (C34_cmp t f j l j' l' w R R'). reflexivity. }
    split; [|apply books_refl]. exists s, []. rewrite app_nil_r. cbn [spec fst snd]. rewrite E, E'. split; auto.
  - apply step_skip; auto. { cbn [step]. now apply on2_skip. }
    cbn [spec]. destruct (there s k), (there s k'); auto; try (repeat split; fail). destruct N'; discriminate.
Qed.
Lemma follows_drop t env k s w : tracks t env s w -> step_follows t env (DropVec k) s w.
Proof.
  intros T. destruct (alive env k) as [j|] eqn:A.
  - destruct (tracks_live _ _ _ _ _ _ T A) as (l & E & R).
    unfold step_follows. cbn [step]. rewrite A. apply run_bind.
    eapply run_conseq; [exact (C26_drop_panics_partial t j l w R)|..]; cbv beta.
    + intros [] w' (D & Dd & _ & O & _). apply run_ret. split; [|eapply books_drop; eauto].
      exists (upd s k None), l. cbn [fst snd spec]. rewrite E. split; [auto|]. split; auto. eapply tracks_drop; eauto.
    + intros r w' (-> & Bd & H).
      assert (X : exists bs, others_but bs j w w' /\ (length bs <= given t (DropVec k) (inr PDrop))%nat /\ nth_error (w_vecs w') j = Some ODead /\
        exists ds, w_drops w' = w_drops w ++ ds /\ match kind_of t with KSized => ds = l | _ => exists m, l = ds ++ m end).
      { cbn [given]. assert (Lb : (length (buffer w j) <= 1)%nat) by (unfold buffer; destruct (owned_block w j); cbn; lia).
        destruct (kind_of t); [destruct H as (D & Dd & _ & O & _); exists []; ands; eauto| |];
          destruct H as (m1 & m2 & El & D & Dd & O & _); exists (buffer w j); ands; eauto. }
      destruct X as (bs & O & Lb & Dd & ds & D & El). split; [|eapply books_drop; eauto].
      exists (upd s k None), ds. cbn [spec_panic after_panic]. split; [split; eauto using dropped_badly|]. split; auto. eapply tracks_drop; eauto.
    + intros w' (_ & F). eauto using luck_drop.
  - apply step_skip; auto.
    + cbn [step]. now rewrite A.
    + cbn [spec]. rewrite (tracks_none _ _ _ _ _ T A). repeat split.
Qed.
Lemma upd_two (s : lists) k l k' l' : there s k = Some l -> there s k' = Some l' -> upd (upd s k' (Some l')) k (Some l) = s.
Proof. intros E E'. rewrite (upd_there s k' l' E'). now apply upd_there. Qed.
Lemma follows_move_last t env d k s w : nzst t \/ zst t -> tracks t env s w -> guard t env (MoveLast d k) s w -> step_follows t env (MoveLast d k) s w.
Proof.
  intros Nz T G. destruct (both_or_none _ _ _ _ d k T) as [(j & j' & l & l' & A & A' & E & E' & R & R')|[N N']].
  - destruct (Nat.eqb_spec d k) as [->|Ne].
    { apply step_skip; auto. { cbn [step]. now rewrite Nat.eqb_refl. } cbn [spec]. rewrite E, Nat.eqb_refl. repeat split. }
    assert (Eb : (d =? k)%nat = false) by now apply Nat.eqb_neq.
    unfold step_follows. cbn [step]. rewrite Eb. unfold keep, on2. rewrite A, A'. apply run_bind, run_bind.
    destruct l' as [|x l' _] using rev_ind.
    + unfold pop_then. eapply run_eq1. { erewrite bind_eq by (eapply v_pop_into_empty; eauto). reflexivity. }
      apply run_ret. apply run_ret. split; [|apply books_refl].
      exists s, []. rewrite app_nil_r. cbn [spec fst snd]. rewrite E, E', Eb. split; auto. split; auto. split; auto.
      cbn [removelast rev firstn]. rewrite app_nil_r. symmetry. now apply upd_two.
    + assert (Sp : sep w j j') by (apply (tr_sep _ _ _ _ T d k); auto).
      eapply run_conseq; [exact (C37_push_pop_partial t j j' l' l x w R R' Sp (zst_kind _ Nz) (G j l' x Ne A E'))|..]; cbv beta.
      * intros [] w' ((R1 & _) & (R2 & _) & D & S2). apply run_ret. apply run_ret.
        split; [|exact (books_two t env s w d k j j' w' T A A' S2)].
        exists (upd (upd s k (Some l')) d (Some (l ++ [x]))), []. rewrite app_nil_r. cbn [spec fst snd]. rewrite E, E', Eb.
        rewrite removelast_last, rev_last. cbn [firstn]. split; auto. split; auto. eapply tracks_two; eauto.
      * intros r w' ((R1 & _) & (R2 & _) & D & S2 & Rr). split; [|exact (books_two t env s w d k j j' w' T A A' S2)]. exists (upd s k (Some l')), []. rewrite app_nil_r. cbn [spec_panic after_panic]. split.
        { exists (l' ++ [x]). rewrite removelast_last. ands; auto. unfold no_room. tauto. }
        split; auto. rewrite <- (upd_there (upd s k (Some l')) d l) by (rewrite there_other by auto; exact E). eapply tracks_two; eauto.
      * intros w'. apply luck_alloc.
  - apply step_skip; auto. { cbn [step]. destruct (d =? k)%nat; [reflexivity|]. now apply on2_skip. }
    cbn [spec]. destruct (there s d), (there s k); auto; try (repeat split; fail). destruct N'; discriminate.
Qed.
(** An insertion out of bounds of an element being removed: it is removed and destroyed. *)
Lemma insert_oob_removed t j j' i i' l' l x w : repr t j l w -> repr t j' l' w -> nth_error l' i' = Some x -> closable t j' l' i' w ->
  (length l < i)%nat ->
  run (remove_then t j' i' (v_insert_with t j i)) w (fun _ _ => False)
    (fun r w' => r = PBounds /\ repr t j' (remove_at i' l') w' /\ w_drops w' = w_drops w ++ [x] /\ others j' w w') (fun _ => out_of_luck).
Proof.
  intros R R' Ex Cl Li. pose proof R' as R0. apply repr_orep in R' as (o & d & R').
  destruct (v_remove_into_some _ _ _ _ _ _ _ _ R' Ex) as (e & E & Em). { intros K. eapply closable_tail; eauto. }
  unfold remove_then. eapply run_eq; [exact E|]. cbv beta.
  eapply run_conseq; [eapply v_insert_with_oob; [exact R|exact Li|exact Em]|..]; cbv beta; cbn [d_fv d_fb d_nulls d_after rem_deal]; auto.
  - intros r w' (-> & W' & D & d' & Rn). ands; auto. { eapply orep_repr; eauto. }
    eapply others_within; eauto. apply o_with_same.
  - intros w' [_ P]. eauto using luck_drop.
Qed.
Lemma follows_move_at t env d i k i' s w : nzst t \/ zst t -> tracks t env s w -> guard t env (MoveAt d i k i') s w -> step_follows t env (MoveAt d i k i') s w.
Proof.
  intros Nz T G. destruct (both_or_none _ _ _ _ d k T) as [(j & j' & l & l' & A & A' & E & E' & R & R')|[N N']].
  - destruct (Nat.eqb_spec d k) as [->|Ne].
    { apply step_skip; auto. { cbn [step]. now rewrite Nat.eqb_refl. } cbn [spec]. rewrite E, Nat.eqb_refl. repeat split. }
    assert (Eb : (d =? k)%nat = false) by now apply Nat.eqb_neq.
    unfold step_follows. cbn [step]. rewrite Eb. unfold keep, on2. rewrite A, A'. apply run_bind, run_bind.
    destruct (nth_error l' i') as [x|] eqn:Ex.
    + assert (Sp : sep w j j') by (apply (tr_sep _ _ _ _ T d k); auto).
      destruct (G j j' l l' x Ne A A' E E' Ex) as (Cl & Mv & Pl).
      destruct (le_lt_dec i (length l)) as [Li|Li]; [specialize (Mv Li)|clear Mv].
      2: { eapply run_conseq; [exact (insert_oob_removed t j j' i i' l' l x w R R' Ex Cl Li)|..]; cbv beta; auto.
        - intros _ _ [].
        - intros r w' (-> & R2 & D & O). split; [|eapply books_on; eauto]. exists (upd s k (Some (remove_at i' l'))), [x]. cbn [spec_panic after_panic].
          split; [|split; [eapply tracks_on; eauto|auto]]. exists l, l'. split; auto. split; auto. right; left. ands; eauto. }
      eapply run_conseq; [exact (C37_insert_remove_partial t j j' i i' l' l x w R R' Sp Ex Cl Li Mv (zst_kind _ Nz) Pl)|..]; cbv beta.
      * intros [] w' ((R1 & _) & (R2 & _) & D & S2). apply run_ret. apply run_ret.
        split; [|exact (books_two t env s w d k j j' w' T A A' S2)].
        exists (upd (upd s k (Some (remove_at i' l'))) d (Some (insert_at i x l))), []. rewrite app_nil_r. cbn [spec fst snd]. rewrite E, E', Eb.
        split; [eauto|]. split; auto. eapply tracks_two; eauto.
      * intros r w' ((R1 & _) & (R2 & _) & D & S2 & Rr). split; [|exact (books_two t env s w d k j j' w' T A A' S2)].
        exists (upd s k (Some (match kind_of t with KSized => removelast l' | _ => l' end))), []. rewrite app_nil_r. cbn [spec_panic after_panic]. split.
        { exists l, l'. split; auto. split; auto. right; right. ands; [unfold no_room; tauto| |auto]. destruct (kind_of t); auto; now apply upd_there. }
        split; auto.
        set (m := match kind_of t with KSized => removelast l' | _ => l' end) in *.
        rewrite <- (upd_there (upd s k (Some m)) d l) by (rewrite there_other by auto; exact E). eapply tracks_two; eauto.
      * intros w'. apply luck_alloc.
    + apply nth_error_None in Ex. unfold run. rewrite (remove_then_oob t j' i' _ l' w R' Ex).
      split; [|apply books_refl]. exists s, []. rewrite app_nil_r. cbn [spec_panic after_panic]. split; auto. exists l, l'. auto 10.
  - apply step_skip; auto. { cbn [step]. destruct (d =? k)%nat; [reflexivity|]. now apply on2_skip. }
    cbn [spec]. destruct (there s d), (there s k); auto; try (repeat split; fail). destruct N'; discriminate.
Qed.
Theorem step_follows_all t env c s w : wf_ty t -> tracks t env s w -> typed t c -> guard t env c s w -> step_follows t env c s w.
Proof.
  intros Wt T Ty G. pose proof (zst_or t Wt) as Nz. destruct c.
  - eapply (born_follows t env (New one) s w _ []); [exact T|reflexivity|cbn [spec]; auto|reflexivity|].
    assert (X : forall o m, m = new_o t o -> run (ret (length (w_vecs w))) (set_vecs (w_vecs w ++ [m]) w) (fun v w' => repr t v [] w' /\ newvec v [] [] w w' /\ w_drops w' = w_drops w)
      (fun r w' => (exists ds, spec_panic t (New one) s r s ds /\ w_drops w' = w_drops w ++ ds) /\ newvec (length (w_vecs w)) [] [] w w' /\ vanished (length (w_vecs w)) w w') (fun _ => out_of_luck)).
    { intros o m ->. apply run_ret. split; [|split]; auto. { eapply orep_repr, new_orep; auto. }
      apply new_newvec. right. apply new_o_raw. }
    destruct one; [eapply run_eq1; [apply v_new_align_1_eq|]|eapply run_eq1; [apply v_new_eq|]]; exact (X _ _ eq_refl).
  - cbn [typed] in Ty. destruct Nz as [Nz|Z].
    2: { eapply (zst_made t env (WithCapacity n) s w _ false n 0 1); [exact Wt|exact Z|exact T|reflexivity|cbn [spec]; auto|reflexivity|cbn [spec_panic]; auto|].
      intros r w' E. unfold v_with_capacity. erewrite bind_eq by apply v_new_eq. exact (bind_panic _ _ _ _ _ E). }
    eapply (built_follows t env (WithCapacity n) s w); [exact T|reflexivity|cbn [spec]; auto|reflexivity| |now apply v_with_capacity_wp].
    intros r Rr. cbn [spec_panic]. auto using reserve_no_room.
  - destruct Ty. destruct Nz as [Nz|Z].
    2: { eapply (zst_made t env (WithCapacityBytes n b) s w _ false n b 1); [exact Wt|exact Z|exact T|reflexivity|cbn [spec]; auto|reflexivity|cbn [spec_panic]; auto|].
      intros r w' E. unfold v_with_capacity_bytes. erewrite bind_eq by apply v_new_eq. exact (bind_panic _ _ _ _ _ E). }
    eapply (built_follows t env (WithCapacityBytes n b) s w); [exact T|reflexivity|cbn [spec]; auto|reflexivity| |now apply v_with_capacity_bytes_wp].
    intros r Rr. cbn [spec_panic]. auto using reserve_no_room.
  - destruct Ty as (? & ? & ?). destruct Nz as [Nz|Z].
    2: { eapply (zst_made t env (WithCapacityBytesAlign n b a) s w _ true n b a); [exact Wt|exact Z|exact T|reflexivity|cbn [spec]; auto|reflexivity|cbn [spec_panic]; auto|].
      intros r w' E. unfold v_with_capacity_bytes_align. erewrite bind_eq by apply v_new_align_1_eq. exact (bind_panic _ _ _ _ _ E). }
    eapply (built_follows t env (WithCapacityBytesAlign n b a) s w); [exact T|reflexivity|cbn [spec]; auto|reflexivity| |now apply v_with_capacity_bytes_align_wp].
    intros r Rr. cbn [spec_panic]. auto using reserve_no_room.
  - now apply follows_of_values.
  - destruct Ty, G. now apply follows_collect.
  - destruct Ty, G. now apply follows_collect_from.
  - now apply follows_clone.
  - now apply follows_on.
  - now apply follows_move_last.
  - now apply follows_move_at.
  - now apply follows_equal.
  - now apply follows_compare.
  - now apply follows_drop.
Qed.
End WithConfig.
