(** C66: the values over whole histories.

    Nothing in the model stops a program from running a destructor twice: it only logs the run ([w_drops]). Here the log is compared
    with what went into the vectors and what came out. The histories are those of C49. *)
From Coq Require Import ZArith List Bool Lia Permutation.
From Verif Require Import Types World ValidSize Emplace SizedVec AlignedVec UnalignedVec Api Spec Bytes Arith Wp Mem Repr
  Access Reserve Realign Orep Push Deal PushWith Shell Insert Take Pop Box Iter Calls GetMut DropVec Family Build PushAll Wrote Sources
  Obs Room Shrink PropPush PropReserve PropAccess PropEdit PropEmplace PropShrink PropCompare PropWhole Convert PropUnsize PropConvert History PropHistory Aligns PropUniform Findings.
Import ListNotations.
Open Scope Z_scope.
Open Scope m_scope.

(** ** What goes in and what comes out *)
(** Writing through the references of an [iter_mut]: the values written and the values written over. *)
Fixpoint written (f : value -> value) (js : list nat) (l : list value) : list value * list value :=
  match js with
  | [] => ([], [])
  | j :: js =>
      match nth_error l j with
      | Some x => let (n, o) := written f js (replace_at j (f x) l) in (f x :: n, x :: o)
      | None => written f js l
      end
  end.
(** The values a call brings in. Writing through a [&mut] takes the old value out and brings the new one in. *)
Definition vincoming (c : vop) (l : list value) : list value :=
  match c with
  | VPush x | VPushWith x | VInsert _ x | VInsertWith _ x => [x]
  | VExtend _ xs => xs
  | VPushFrom _ D | VInsertFrom _ _ D => d_value D :: d_extra D
  | VExtendFrom _ ps => map d_value (map snd ps) ++ all_extra (map snd ps)
  | VSet i f => match nth_error l i with Some x => [f x] | None => [] end
  | VUpdate cs f => fst (written f (reached cs l) l)
  | VPushUnsize _ _ m x | VInsertUnsize _ _ m _ x => [coerce m x]
  | _ => []
  end.
(** When a closure of the caller panics or is dropped without having run, what it destroys is its own. *)
Definition vcloses (c : vop) : Prop := match c with VPushFrom _ _ | VInsertFrom _ _ _ | VExtendFrom _ _ => True | _ => False end.
Definition closes (c : op) : Prop := match c with On _ c => vcloses c | CollectFrom _ _ => True | _ => False end.
(** The values a call that returns gives to its caller, or forgets for it. *)
Definition voutgoing (c : vop) (l : list value) : list value :=
  match c with
  | VPop | VPopForget => firstn 1 (rev l)
  | VRemove i | VRemoveForget i | VSet i _ => match nth_error l i with Some x => [x] | None => [] end
  | VUpdate cs f => snd (written f (reached cs l) l)
  | _ => []
  end.
Definition incoming (c : op) (s : lists) : list value :=
  match c with
  | OfValues xs | Collect _ xs => xs
  | CollectFrom _ ps => map d_value (map snd ps) ++ all_extra (map snd ps)
  | CloneOf k f _ => match there s k with Some l => map f l | None => [] end
  | On k c => match there s k with Some l => vincoming c l | None => [] end
  | _ => []
  end.
Definition outgoing (c : op) (s : lists) : list value :=
  match c with On k c => match there s k with Some l => voutgoing c l | None => [] end | _ => [] end.
(** The elements of all live vectors. *)
Definition held (o : option (list value)) : list value := match o with Some l => l | None => [] end.
Definition contents (s : lists) : list value := concat (map held s).

(** ** Permutations *)
Lemma perm_bring {A} (a b r x : list A) : Permutation r (a ++ x) -> Permutation (b ++ r) (a ++ b ++ x).
Proof. intros ->. apply Permutation_app_swap_app. Qed.
Lemma perm_use {A} (a l r x : list A) : Permutation r (a ++ x) -> Permutation l x -> Permutation (a ++ l) r.
Proof. intros -> ->. reflexivity. Qed.
Lemma perm_nil {A} (l r : list A) : Permutation (l ++ []) (r ++ []) -> Permutation l r.
Proof. now rewrite !app_nil_r. Qed.
Lemma cons_one {A} (x : A) l : x :: l = [x] ++ l.
Proof. reflexivity. Qed.
Ltac bring := lazymatch goal with
  | |- Permutation (?a ++ _) (?a ++ _) => reflexivity
  | |- Permutation (_ ++ _) _ => apply perm_bring; bring
  end.
Ltac perm := apply perm_nil; rewrite <- ?app_assoc, ?app_nil_l;
  repeat (lazymatch goal with |- Permutation [] [] => fail | |- Permutation ([] ++ _) _ => idtac | |- _ => eapply perm_use; [bring|] end);
  try reflexivity.

Lemma perm_insert {A} i (x : A) l : Permutation (insert_at i x l) ([x] ++ l).
Proof. unfold insert_at. rewrite <- (firstn_skipn i l) at 3. rewrite cons_one. perm. Qed.
Lemma skipn_nth {A} i (x : A) l : nth_error l i = Some x -> skipn i l = x :: skipn (S i) l.
Proof. revert i. induction l as [|y l IH]; intros [|i] E; cbn in *; try discriminate; [congruence|]. now apply IH. Qed.
Lemma perm_remove {A} i (x : A) l : nth_error l i = Some x -> Permutation l ([x] ++ remove_at i l).
Proof. intros E. unfold remove_at. rewrite <- (firstn_skipn i l) at 1. rewrite (skipn_nth _ _ _ E), cons_one. perm. Qed.
Lemma perm_replace {A} i (x y : A) l : nth_error l i = Some x -> Permutation ([y] ++ l) (replace_at i y l ++ [x]).
Proof. intros E. unfold replace_at. rewrite <- (firstn_skipn i l) at 1. rewrite (skipn_nth _ _ _ E), (cons_one y (skipn _ _)), (cons_one x (skipn _ _)). perm. Qed.
Lemma removelast_firstn {A} (l : list A) : removelast l ++ firstn 1 (rev l) = l.
Proof. destruct l as [|x l _] using rev_ind; auto. now rewrite removelast_last, rev_app_distr. Qed.
Lemma contents_split s k l : there s k = Some l -> exists rest, Permutation (contents s) (l ++ rest) /\
  forall o, Permutation (contents (upd s k o)) (held o ++ rest).
Proof.
  unfold there. revert k. induction s as [|a s IH]; intros [|k] E; cbn in E; try discriminate.
  - subst a. exists (contents s). split; [reflexivity|]. intros o. reflexivity.
  - destruct (IH k E) as (rest & H & U). exists (held a ++ rest). unfold contents in *. cbn [map concat upd].
    split; [rewrite H; perm|]. intros o. cbn. rewrite U. perm.
Qed.
Lemma contents_app s l : contents (s ++ [Some l]) = contents s ++ l.
Proof. unfold contents. rewrite map_app, concat_app. cbn. now rewrite app_nil_r. Qed.

Section WithConfig.
Context {C : Config}.

(** ** One call *)
Lemma perm_update f js : forall l, Permutation (fst (written f js l) ++ l) (update_at f js l ++ snd (written f js l)).
Proof.
  induction js as [|j js IH]; intros l; cbn [written update_at]; [now rewrite app_nil_r|].
  destruct (nth_error l j) as [x|] eqn:E; [|apply IH]. specialize (IH (replace_at j (f x) l)). destruct (written f js (replace_at j (f x) l)) as [n o]. cbn [fst snd] in *.
  rewrite (cons_one x o), (cons_one (f x) n). transitivity (n ++ ([f x] ++ l)); [perm|]. rewrite (perm_replace j x (f x) l E).
  transitivity ((n ++ replace_at j (f x) l) ++ [x]); [perm|]. rewrite IH. perm.
Qed.
Lemma vspec_flow c l o l' ds : vspec c l o l' ds -> Permutation (vincoming c l ++ l) (ds ++ l' ++ voutgoing c l).
Proof.
  intros S. destruct c; cbn [vspec vincoming voutgoing] in *; rewrite ?app_nil_r; cbn [app];
    try (destruct S as (_ & -> & ->); rewrite ?app_nil_r, ?removelast_firstn; reflexivity).
  - destruct (nth_error l i) as [x|] eqn:E; destruct S as (_ & -> & ->); [|now rewrite app_nil_r]. now apply (perm_replace i x).
  - destruct S as (_ & -> & ->). apply Permutation_cons_append.
  - destruct S as (_ & -> & ->). apply Permutation_cons_append.
  - destruct S as (_ & _ & -> & ->). symmetry. apply perm_insert.
  - destruct S as (_ & _ & -> & ->). symmetry. apply perm_insert.
  - destruct S as (_ & -> & ->). rewrite <- (removelast_firstn l) at 1. perm.
  - destruct S as ((x & E & _) & -> & ->). rewrite E. rewrite (perm_remove _ _ _ E) at 1. perm.
  - destruct S as (_ & -> & x & E & ->). now apply perm_remove.
  - destruct S as (_ & L & -> & ->). destruct (nth_error l i) as [x|] eqn:E; [|apply nth_error_None in E; lia].
    rewrite (perm_remove _ _ _ E) at 1. perm.
  - destruct S as (_ & -> & ->). perm.
  - destruct S as (_ & -> & ->). rewrite app_comm_cons, (cons_one (d_value S0)). perm.
  - destruct S as (_ & _ & -> & ->). rewrite perm_insert, app_comm_cons, (cons_one (d_value S0)). perm.
  - destruct S as (_ & -> & ->). perm.
  - destruct S as (_ & -> & ->). apply perm_update.
  - destruct S as (_ & -> & ->). apply Permutation_cons_append.
  - destruct S as (_ & _ & -> & ->). symmetry. apply perm_insert.
Qed.
Lemma vclosure_flow t c l r l' ds : vcloses c -> vpanic t c l r l' ds -> exists own lost, Permutation (vincoming c l ++ own ++ l) (ds ++ l' ++ lost).
Proof.
  intros V S. destruct c; try destruct V; cbn [vpanic vincoming] in *.
  - destruct S as [-> _]. exists ds, (d_value S0 :: d_extra S0). perm.
  - destruct S as [-> _]. exists ds, (d_value S0 :: d_extra S0). perm.
  - destruct S as (Ss1 & Ss2 & E & -> & _). rewrite E, map_app. exists ds, (map d_value Ss2 ++ all_extra (Ss1 ++ Ss2)). perm.
Qed.
Lemma vpanic_flow0 t c l r l' ds : ~ vcloses c -> vpanic t c l r l' ds -> exists lost, Permutation (vincoming c l ++ l) (ds ++ l' ++ lost).
Proof.
  intros V S. destruct c; try (destruct V; exact I); cbn [vpanic vincoming] in *; try contradiction;
    try (destruct S as (_ & -> & ->); exists []; rewrite app_nil_r; reflexivity);
    try (destruct S as (_ & _ & -> & ->); exists []; rewrite app_nil_r; reflexivity).
  - destruct S as (_ & -> & ->). exists [x]. perm.
  - destruct S as [[(_ & _ & ->)|(_ & _ & ->)] ->]; [exists []|exists [x]]; perm.
  - destruct S as (_ & -> & ->). exists (firstn 1 (rev l)). now rewrite removelast_firstn.
  - destruct S as (_ & -> & ->). exists []. rewrite <- (removelast_firstn l) at 1. perm.
  - destruct S as [[(_ & _ & ->)|(_ & _ & ->)] ->]. { exists []. perm. }
    destruct (kind_of t); [exists (firstn 1 (rev l)); now rewrite removelast_firstn|exists []; perm..].
  - destruct S as (_ & ys & -> & [[-> ->]|[x ->]]); [exists []; perm|]. exists [x]. rewrite (cons_one x). perm.
Qed.
Lemma vpanic_flow t c l r l' ds : vpanic t c l r l' ds ->
  exists own lost, (vcloses c \/ own = []) /\ Permutation (vincoming c l ++ own ++ l) (ds ++ l' ++ lost).
Proof.
  intros S. assert (V : vcloses c \/ ~ vcloses c) by (destruct c; cbn [vcloses]; tauto). destruct V as [V|V].
  - destruct (vclosure_flow _ _ _ _ _ _ V S) as (own & lost & P). eauto.
  - destruct (vpanic_flow0 _ _ _ _ _ _ V S) as (lost & P). exists [], lost. auto.
Qed.
Lemma spec_flow c s o s' ds : spec c s o s' ds -> Permutation (incoming c s ++ contents s) (ds ++ contents s' ++ outgoing c s).
Proof.
  intros S. destruct c; cbn [spec incoming outgoing] in *; rewrite ?app_nil_r; cbn [app];
    try (destruct S as (_ & -> & ->); rewrite contents_app; perm).
  - destruct (there s k) as [l|]; destruct S as (_ & -> & ->); rewrite ?contents_app; perm.
  - destruct (there s k) as [l|] eqn:E; [|destruct S as (_ & -> & ->); perm]. destruct S as (l' & S & ->).
    destruct (contents_split s k l E) as (rest & H & U). rewrite H, U. cbn [held]. rewrite app_assoc, (vspec_flow _ _ _ _ _ S). perm.
  - destruct (there s dst) as [ld|] eqn:E; [|destruct S as (_ & -> & ->); perm].
    destruct (there s src) as [lk|] eqn:E'; [|destruct S as (_ & -> & ->); perm].
    destruct (Nat.eqb_spec dst src) as [|N]; [destruct S as (_ & -> & ->); perm|]. destruct S as (_ & -> & ->).
    destruct (contents_split s src lk E') as (rest & H & U). set (s1 := upd s src (Some (removelast lk))) in *.
    assert (E1 : there s1 dst = Some ld) by (unfold s1; now rewrite there_other).
    destruct (contents_split s1 dst ld E1) as (rest' & H' & U'). specialize (U (Some (removelast lk))). fold s1 in U. rewrite H' in U.
    cbn [held] in U. rewrite H, U'. cbn [held]. rewrite <- (removelast_firstn lk) at 1.
    transitivity (firstn 1 (rev lk) ++ removelast lk ++ rest); [perm|]. rewrite <- U. perm.
  - destruct (there s dst) as [ld|] eqn:E; [|destruct S as (_ & -> & ->); perm].
    destruct (there s src) as [lk|] eqn:E'; [|destruct S as (_ & -> & ->); perm].
    destruct (Nat.eqb_spec dst src) as [|N]; [destruct S as (_ & -> & ->); perm|]. destruct S as (_ & -> & x & Ex & ->).
    destruct (contents_split s src lk E') as (rest & H & U). set (s1 := upd s src (Some (remove_at j lk))) in *.
    assert (E1 : there s1 dst = Some ld) by (unfold s1; now rewrite there_other).
    destruct (contents_split s1 dst ld E1) as (rest' & H' & U'). specialize (U (Some (remove_at j lk))). fold s1 in U. rewrite H' in U.
    cbn [held] in U. rewrite H, U'. cbn [held]. rewrite perm_insert, (perm_remove _ _ _ Ex) at 1.
    transitivity ([x] ++ remove_at j lk ++ rest); [perm|]. rewrite <- U. perm.
  - destruct (there s k), (there s k'); try (destruct S as (_ & -> & ->); reflexivity). destruct S as (b & _ & _ & -> & ->). reflexivity.
  - destruct (there s k), (there s k'); destruct S as (_ & -> & ->); reflexivity.
  - destruct (there s k) as [l|] eqn:E; destruct S as (_ & -> & ->); [|reflexivity].
    destruct (contents_split s k l E) as (rest & H & U). rewrite H, U. reflexivity.
Qed.
Lemma panic_flow t c s r s' ds : spec_panic t c s r s' ds ->
  exists own lost, (closes c \/ own = []) /\ Permutation (incoming c s ++ own ++ contents s) (ds ++ contents s' ++ lost).
Proof.
  intros S. enough (H : (exists k c', c = On k c') \/ (exists h ps, c = CollectFrom h ps) \/ exists lost, Permutation (incoming c s ++ contents s) (ds ++ contents s' ++ lost)).
  { destruct H as [(k & c' & ->)|[(h & ps & ->)|(lost & P)]]; [| |exists [], lost; auto].
    2: { cbn [spec_panic incoming closes] in *. destruct S as [-> _]. exists ds, (map d_value (map snd ps) ++ all_extra (map snd ps)). split; auto. perm. }
    cbn [spec_panic incoming closes] in *.
    destruct S as (l & l' & E & P & ->). rewrite E. destruct (vpanic_flow _ _ _ _ _ _ P) as (own & lost & V & F). exists own, lost. split; auto.
    destruct (contents_split s k l E) as (rest & H & U). rewrite H, U. cbn [held].
    transitivity ((vincoming c' l ++ own ++ l) ++ rest); [perm|]. rewrite F. perm. }
  destruct c; try (left; eauto; fail); right; try (left; eauto; fail); right; cbn [spec_panic incoming] in *; try contradiction;
    try (destruct S as (_ & -> & ->); exists []; perm).
  - destruct S as (_ & -> & ys & x & zs & -> & ->). exists zs. rewrite (cons_one x zs), (cons_one x ys). perm.
  - destruct S as (_ & -> & [->|(ys & x & zs & -> & ->)]). { exists []. perm. } exists [x]. rewrite (cons_one x zs). perm.
  - destruct S as (l & E & -> & [[_ ->]|(l1 & l2 & -> & H)]); rewrite E. { exists (map f l). perm. }
    rewrite map_app. destruct H as [[_ ->]|(y & l3 & -> & -> & _)].
    + exists (map f l2). perm.
    + exists (map f l3). cbn [map]. rewrite (cons_one (f y) (map f l3)), (cons_one (f y) (map f l1)). perm.
  - destruct S as (lk & E & _ & -> & ->). exists (firstn 1 (rev lk)). destruct (contents_split s src lk E) as (rest & H & U). rewrite H, U.
    cbn [held]. rewrite <- (removelast_firstn lk) at 1. perm.
  - destruct S as (ld & lk & E & E' & H). destruct (contents_split s src lk E') as (rest & H1 & U).
    destruct H as [(_ & _ & -> & ->)|[(_ & _ & -> & x & Ex & ->)|(_ & -> & ->)]]. { exists []. perm. }
    + exists []. rewrite H1, U. cbn [held]. rewrite (perm_remove _ _ _ Ex) at 1. perm.
    + destruct (kind_of t); [|exists []; perm..]. exists (firstn 1 (rev lk)). rewrite H1, U. cbn [held]. rewrite <- (removelast_firstn lk) at 1. perm.
  - destruct S as (_ & -> & l & E & H). destruct (contents_split s k l E) as (rest & H1 & U).
    assert (X : exists m, l = ds ++ m). { destruct (kind_of t); auto. exists []. now rewrite app_nil_r. }
    destruct X as (m & ->). exists m. rewrite H1, U. cbn [held]. perm.
Qed.

(** ** Whole histories *)
(** [spec_run] with the values that went in and came out; a call that panics gives nothing to its caller. *)
Inductive flow (t : ty) : list op -> lists -> list (obs + panic_reason) -> lists -> list (list value) -> list value -> list value -> Prop :=
| flow_nil s : flow t [] s [] s [] [] []
| flow_ok c cs s o s1 ds rs s2 dl ins outs : spec c s o s1 ds -> flow t cs s1 rs s2 dl ins outs ->
    flow t (c :: cs) s (inl o :: rs) s2 (ds :: dl) (incoming c s ++ ins) (outgoing c s ++ outs)
| flow_caught c cs s r s1 ds rs s2 dl own ins outs : spec_panic t c s r s1 ds -> closes c \/ own = [] -> flow t cs s1 rs s2 dl ins outs ->
    flow t (c :: cs) s (inr r :: rs) s2 (ds :: dl) (incoming c s ++ own ++ ins) outs.
Definition returned (r : obs + panic_reason) : Prop := match r with inl _ => True | inr _ => False end.
(** Every value that was there or went in has been destroyed, or is in exactly one live vector, or came out; none in two ways, and
    none twice. Some may be lost, but only when a call panics. *)
Definition conserves (t : ty) (env : list (option nat)) (cs : list op) (s : lists) (w : world) : Prop :=
  run (exec t env cs) w
    (fun p w' => exists s' dl ins outs lost, flow t cs s (fst p) s' dl ins outs /\ tracks t (snd p) s' w' /\ w_drops w' = w_drops w ++ concat dl /\
       Permutation (ins ++ contents s) (concat dl ++ contents s' ++ outs ++ lost) /\ (Forall returned (fst p) -> lost = []))
    (fun _ _ => False) (fun _ => out_of_luck).
Lemma spec_run_flow t cs s rs s' dl : spec_run t cs s rs s' dl -> exists ins outs lost, flow t cs s rs s' dl ins outs /\
  Permutation (ins ++ contents s) (concat dl ++ contents s' ++ outs ++ lost) /\ (Forall returned rs -> lost = []).
Proof.
  induction 1 as [s|c cs s o s1 ds rs s2 dl S R (ins & outs & lost & F & P & N)|c cs s r s1 ds rs s2 dl S R (ins & outs & lost & F & P & N)].
  - exists [], [], []. split; [constructor|]. split; auto. cbn. now rewrite app_nil_r.
  - exists (incoming c s ++ ins), (outgoing c s ++ outs), lost. split; [econstructor; eauto|]. split.
    + cbn [concat]. pose proof (spec_flow _ _ _ _ _ S) as X.
      transitivity (ins ++ incoming c s ++ contents s); [perm|]. rewrite X.
      transitivity (ds ++ outgoing c s ++ ins ++ contents s1); [perm|]. rewrite P. perm.
    + intros Fr. inversion_clear Fr. auto.
  - destruct (panic_flow _ _ _ _ _ _ S) as (own & lost1 & V & X). exists (incoming c s ++ own ++ ins), outs, (lost1 ++ lost). split; [econstructor; eauto|]. split.
    + cbn [concat]. transitivity (ins ++ incoming c s ++ own ++ contents s); [perm|]. rewrite X.
      transitivity (ds ++ lost1 ++ ins ++ contents s1); [perm|]. rewrite P. perm.
    + intros Fr. inversion_clear Fr. contradiction.
Qed.
Lemma behaves_conserves t env cs s w : behaves t env cs s w -> conserves t env cs s w.
Proof.
  intros H. eapply run_conseq; [exact H|..]; cbv beta; auto. intros p w' (s' & dl & S & T & D & _).
  destruct (spec_run_flow _ _ _ _ _ _ S) as (ins & outs & lost & F & P & N). exists s', dl, ins, outs, lost. auto.
Qed.
Theorem C66_guarded_partial t env cs s w : wf_ty t -> tracks t env s w -> admissible t env cs s w -> conserves t env cs s w.
Proof. intros. now apply behaves_conserves, C49_guarded_partial. Qed.
Theorem C66_history_partial t cs w : wf_ty t -> safe_run t cs [] -> conserves t [] cs [] w.
Proof. intros. now apply behaves_conserves, C49_start_partial. Qed.
Theorem C66_sized_partial s a cs w : wf_ty (TSized s a) -> Forall (typed (TSized s a)) cs -> Forall calm cs ->
  conserves (TSized s a) [] cs [] w.
Proof. intros. now apply behaves_conserves, C49_sized_partial. Qed.
Theorem C66_easy_partial t cs w : wf_ty t -> Forall (typed t) cs -> Forall (easy t) cs -> conserves t [] cs [] w.
Proof. intros. now apply behaves_conserves, C49_easy_partial. Qed.
Theorem C66_uniform_partial t A cs w : wf_ty t -> kind_of t = KUnaligned -> pow2 A -> 1 <= A -> Forall (typed t) cs -> Forall (uniform t A) cs ->
  w_vecs w = [] -> conserves t [] cs [] w.
Proof. intros. eapply behaves_conserves, C49_uniform_start_partial; eauto. Qed.

(** ** Without looking at the lists *)
(** Histories that neither clone nor write through a [&mut] nor take values from the caller's closures: what goes in stands in the calls, what comes out in the results. *)
Definition plain (c : op) : Prop := match c with CloneOf _ _ _ | CollectFrom _ _ | On _ (VSet _ _) | On _ (VUpdate _ _) | On _ (VPushFrom _ _) | On _ (VInsertFrom _ _ _) | On _ (VExtendFrom _ _) => False | _ => True end.
Definition supplies (c : op) : list value :=
  match c with
  | OfValues xs | Collect _ xs | On _ (VExtend _ xs) => xs
  | On _ (VPush x) | On _ (VPushWith x) | On _ (VInsert _ x) | On _ (VInsertWith _ x) => [x]
  | On _ (VPushUnsize _ _ m x) | On _ (VInsertUnsize _ _ m _ x) => [coerce m x]
  | _ => []
  end.
Definition supplied (cs : list op) : list value := flat_map supplies cs.
Fixpoint taken (cs : list op) (rs : list (obs + panic_reason)) : list value :=
  match cs, rs with
  | On _ VPop :: cs, inl (BOpt (Some x)) :: rs => x :: taken cs rs
  | On _ (VRemove _) :: cs, inl (BVal x) :: rs => x :: taken cs rs
  | _ :: cs, _ :: rs => taken cs rs
  | _, _ => []
  end.
(** Nothing is lost if every call was made and returned, and none was to forget an element. *)
Definition completed (r : obs + panic_reason) : Prop := match r with inl BSkip | inr _ => False | inl _ => True end.
Definition forgets (c : op) : Prop := match c with On _ VPopForget | On _ (VRemoveForget _) => True | _ => False end.
Definition once (t : ty) (cs : list op) (w : world) : Prop :=
  run (exec t [] cs) w
    (fun p w' => exists s' ds lost, tracks t (snd p) s' w' /\ w_drops w' = w_drops w ++ ds /\
       Permutation (supplied cs) (ds ++ contents s' ++ taken cs (fst p) ++ lost) /\
       (Forall completed (fst p) -> Forall (fun c => ~ forgets c) cs -> lost = []))
    (fun _ _ => False) (fun _ => out_of_luck).
Lemma NoDup_app_l {A} (l r : list A) : NoDup (l ++ r) -> NoDup l.
Proof. induction l as [|x l IH]; intros N; [constructor|]. inversion_clear N as [|? ? X N']. constructor; auto. intros I. apply X, in_or_app. auto. Qed.
Lemma firstn_hd {A} (l : list A) : firstn 1 l = match hd_error l with Some x => [x] | None => [] end.
Proof. now destruct l. Qed.
Definition take1 (c : op) (r : obs + panic_reason) : list value :=
  match c, r with On _ VPop, inl (BOpt (Some x)) => [x] | On _ (VRemove _), inl (BVal x) => [x] | _, _ => [] end.
Lemma taken_cons c cs r rs : taken (c :: cs) (r :: rs) = take1 c r ++ taken cs rs.
Proof. destruct c; try reflexivity. destruct c; try reflexivity; destruct r as [[| | | |[]| | | |]|]; reflexivity. Qed.
(** A call brings in what it supplies, or nothing if it is skipped. *)
Lemma plain_incoming c s : plain c -> exists unused, Permutation (supplies c) (incoming c s ++ unused) /\ (forall k c', c = On k c' -> there s k <> None -> unused = []) /\
  ((forall k c', c <> On k c') -> unused = []).
Proof.
  intros P. destruct c as [| | | | | | |? ? ?|k c'| | | | |]; try destruct P; try (exists []; cbn [supplies incoming]; rewrite ?app_nil_r; now auto).
  cbn [incoming]. destruct (there s k) as [l|] eqn:E.
  - exists []. rewrite app_nil_r. split; [|auto]. destruct c'; try destruct P; reflexivity.
  - exists (supplies (On k c')). split; [reflexivity|]. split; [|intros N; now destruct (N k c')].
    intros k2 c2 [= <- <-]. congruence.
Qed.
Lemma skipped_on k c s o s' ds : spec (On k c) s o s' ds -> there s k = None -> o = BSkip.
Proof. cbn [spec]. intros S E. rewrite E in S. apply S. Qed.
Lemma plain_outgoing c s o s' ds : plain c -> spec c s o s' ds -> exists fg, Permutation (outgoing c s) (take1 c (inl o) ++ fg) /\ (~ forgets c -> fg = []).
Proof.
  intros P S. destruct c as [| | | | | | | |k c'| | | | |]; try (exists []; cbn [outgoing take1]; rewrite ?app_nil_r; now auto).
  cbn [outgoing]. destruct (there s k) as [l|] eqn:E.
  - cbn [spec] in S. rewrite E in S. destruct S as (l' & S & _).
    destruct c'; try destruct P; try (exists []; cbn [voutgoing take1]; rewrite ?app_nil_r; now auto); cbn [vspec voutgoing take1] in *.
    + destruct S as (-> & _). exists []. rewrite firstn_hd, app_nil_r. destruct (hd_error (rev l)); auto.
    + exists (firstn 1 (rev l)). split; [reflexivity|]. intros N. destruct N. exact I.
    + destruct S as ((x & Ex & ->) & _). exists []. rewrite Ex. auto.
    + exists (match nth_error l i with Some x => [x] | None => [] end). split; [reflexivity|]. intros N. destruct N. exact I.
  - apply skipped_on in S as ->; auto. exists []. split; auto. destruct c'; reflexivity.
Qed.
Lemma flow_plain t cs s rs s' dl ins outs : flow t cs s rs s' dl ins outs -> Forall plain cs ->
  exists unused fg, Permutation (supplied cs) (ins ++ unused) /\ Permutation outs (taken cs rs ++ fg) /\
    (Forall completed rs -> unused = []) /\ (Forall (fun c => ~ forgets c) cs -> fg = []).
Proof.
  induction 1 as [s|c cs s o s1 ds rs s2 dl ins outs S F IH|c cs s r s1 ds rs s2 dl own ins outs S V F IH]; intros P.
  - exists [], []. cbn. auto.
  - inversion_clear P as [|? ? Pc P']. destruct (IH P') as (un & fg & I & O & U & G).
    destruct (plain_incoming c s Pc) as (un1 & I1 & U1 & U2). destruct (plain_outgoing c s o s1 ds Pc S) as (fg1 & O1 & G1).
    exists (un1 ++ un), (fg1 ++ fg). rewrite taken_cons. cbn [supplied flat_map]. fold (supplied cs). split; [rewrite I1, I; perm|].
    split; [rewrite O1, O; perm|]. split.
    + intros Fc. inversion_clear Fc as [|? ? Co Fc']. rewrite (U Fc'), app_nil_r.
      destruct c as [| | | | | | | |k c'| | | | |]; try (apply U2; discriminate). apply (U1 k c'); auto. intros E. apply (skipped_on k c') in S as ->; auto.
    + intros Fc. inversion_clear Fc as [|? ? Co Fc']. now rewrite (G Fc'), (G1 Co).
  - inversion_clear P as [|? ? Pc P']. destruct (IH P') as (un & fg & I & O & U & G).
    assert (own = []) as ->. { destruct V as [V|]; auto. destruct c as [| | | | | | | |k c'| | | | |]; try destruct V; try (now destruct Pc). destruct c'; destruct V; destruct Pc. }
    destruct (plain_incoming c s Pc) as (un1 & I1 & _). exists (un1 ++ un), fg. rewrite taken_cons.
    assert (T1 : take1 c (inr r) = []) by (destruct c as [| | | | | | | |k []| | | | |]; reflexivity). rewrite T1. cbn [supplied flat_map app]. fold (supplied cs).
    split; [rewrite I1, I; perm|]. split; [exact O|]. split.
    + intros Fc. inversion_clear Fc as [|? ? Co]. destruct Co.
    + intros Fc. inversion_clear Fc. auto.
Qed.
Lemma conserves_once t cs w : conserves t [] cs [] w -> Forall plain cs -> once t cs w.
Proof.
  intros H P. eapply run_conseq; [exact H|..]; cbv beta; auto. intros p w' (s' & dl & ins & outs & lost & F & T & D & Pm & N).
  destruct (flow_plain _ _ _ _ _ _ _ _ F P) as (un & fg & I & O & U & G). exists s', (concat dl), (fg ++ lost ++ un). ands; auto.
  - rewrite I. cbn in Pm. rewrite app_nil_r in Pm. rewrite Pm, O. perm.
  - intros Fc Fg. rewrite (U Fc), (G Fg), N; auto. eapply Forall_impl; [|exact Fc]. intros [[]|]; cbn; auto.
Qed.
Theorem C66_once_partial t cs w : wf_ty t -> safe_run t cs [] -> Forall plain cs -> once t cs w.
Proof. intros. apply conserves_once; auto. now apply C66_history_partial. Qed.
Theorem C66_once_sized_partial s a cs w : wf_ty (TSized s a) -> Forall (typed (TSized s a)) cs -> Forall calm cs -> Forall plain cs ->
  once (TSized s a) cs w.
Proof. intros. apply conserves_once; auto. now apply C66_sized_partial. Qed.
Theorem C66_once_easy_partial t cs w : wf_ty t -> Forall (typed t) cs -> Forall (easy t) cs -> Forall plain cs -> once t cs w.
Proof. intros. apply conserves_once; auto. now apply C66_easy_partial. Qed.
(** If no value is supplied twice, then none is destroyed twice, none that has been destroyed is in a live vector or has been given to
    the caller, and no value is in two places. *)
Theorem C66_no_double_drop_partial t cs w : wf_ty t -> safe_run t cs [] -> Forall plain cs -> NoDup (supplied cs) ->
  run (exec t [] cs) w
    (fun p w' => exists s' ds, tracks t (snd p) s' w' /\ w_drops w' = w_drops w ++ ds /\ NoDup (ds ++ contents s' ++ taken cs (fst p)))
    (fun _ _ => False) (fun _ => out_of_luck).
Proof.
  intros Wt S P N. eapply run_conseq; [exact (C66_once_partial t cs w Wt S P)|..]; cbv beta; auto.
  intros p w' (s' & ds & lost & T & D & Pm & _). exists s', ds. ands; auto.
  eapply Permutation_NoDup in N; [|exact Pm]. rewrite !app_assoc in N. apply NoDup_app_l in N. now rewrite <- !app_assoc in N.
Qed.
End WithConfig.

(** C66 with a destructor that panics while a removed element is dropped: it stays in the vector and is destroyed again. *)
Theorem C66_double_drop_refuted : exists cs rs env w',
  Forall (typed (C := cfg_drop0) TStr) cs /\ Forall plain cs /\ NoDup (supplied cs) /\ exec (C := cfg_drop0) TStr [] cs empty_world = (Ok (rs, env), w') /\
  ~ NoDup (w_drops w') /\ forall rest, ~ Permutation (supplied cs) (w_drops w' ++ rest).
Proof.
  exists [OfValues [ab; cd]; On 0 (VRemoveDrop 0); DropVec 0]. do 3 eexists. split.
  { repeat (apply Forall_cons || apply Forall_nil); cbn [typed vtyped]; auto; apply goodb_ok; reflexivity. }
  split. { repeat constructor. }
  split. { cbn. repeat constructor; cbn; intuition discriminate. }
  split; [run|]. cbn [w_drops]. split.
  - intros N. inversion_clear N as [|? ? X _]. apply X. left. reflexivity.
  - intros rest P. apply Permutation_length in P. rewrite app_length in P. cbn in P. lia.
Qed.

Print Assumptions C66_guarded_partial.
Print Assumptions C66_history_partial.
Print Assumptions C66_sized_partial.
Print Assumptions C66_easy_partial.
Print Assumptions C66_uniform_partial.
Print Assumptions C66_once_partial.
Print Assumptions C66_once_sized_partial.
Print Assumptions C66_once_easy_partial.
Print Assumptions C66_no_double_drop_partial.
Print Assumptions C66_double_drop_refuted.

(** ** Concrete cases *)
Section Cases.
Local Existing Instance cfg_release.
Lemma perm_add {A} (a : A) l x r : Add a x r -> Permutation l x -> Permutation (a :: l) r.
Proof. intros H ->. now apply Permutation_Add. Qed.
Ltac add := first [apply Add_head|apply Add_cons; add].
Ltac perms := repeat (eapply perm_add; [add|]); reflexivity.
Ltac nodup := repeat (constructor; [cbn; intuition discriminate|]); constructor.
(** Trait objects in two vectors, pushed, inserted, moved, popped, dropped: where each of them is in the end. *)
Example C66_dyn_case : Forall plain dyn_history /\ NoDup (supplied dyn_history) /\
  supplied dyn_history = [one 1; word 2; half 3; five 4; nil1; half 5; one 6; nil2; word 7; one 8] /\
  exists rs env w', exec TDyn [] dyn_history empty_world = (Ok (rs, env), w') /\ alive env 0 = None /\ alive env 1 = Some 1%nat /\
    shows TDyn 1 [one 6; half 3; word 7; one 8] w' /\ taken dyn_history rs = [nil1; nil2; word 2] /\ w_drops w' = [half 5; five 4; one 1] /\
    Permutation (supplied dyn_history) (w_drops w' ++ [one 6; half 3; word 7; one 8] ++ taken dyn_history rs).
Proof.
  split; [repeat constructor|]. split; [cbn; nodup|]. split; [reflexivity|]. do 3 eexists. split; [run|]. split; [run|]. split; [run|].
  split; [run|]. split; [run|]. split; [run|]. cbn. perms.
Qed.
(** A push for which there is no memory destroys its argument; an emplacable for which there is none is lost. *)
Definition refused_history : list op :=
  [New false; On 0 (VPush (word 1)); On 0 (VPush (word 2)); On 0 (VPushWith (word 4)); On 0 (VPush (word 3)); On 0 (VIndex 8); DropVec 0].
Definition cfg_odd : Config := Build_Config false (fun n => if Nat.even n then Some 1 else None) (fun _ => false) true.
Example C66_refused_case : Forall (typed (C := cfg_odd) TDyn) refused_history /\ Forall (easy (C := cfg_odd) TDyn) refused_history /\ Forall plain refused_history /\
  exists rs env w', exec (C := cfg_odd) TDyn [] refused_history empty_world = (Ok (rs, env), w') /\
    rs = [inl BUnit; inr POom; inl BUnit; inr POom; inl BUnit; inr PBounds; inl BUnit] /\ w_drops w' = [word 1; word 2; word 3] /\
    Permutation (supplied refused_history) (w_drops w' ++ [word 4]).
Proof.
  split. { repeat (apply Forall_cons || apply Forall_nil); cbn [typed vtyped]; auto; apply goodb_ok; reflexivity. }
  split. { repeat (apply Forall_cons || apply Forall_nil); cbn [easy veasy]; auto; try (apply posb; reflexivity). split; [discriminate|apply posb; reflexivity]. }
  split; [repeat constructor|]. do 3 eexists. split; [run|]. split; [run|]. split; [run|]. cbn. perms.
Qed.
(** Sized elements with a clone of the whole vector, that is [1; 3; 2], besides what was supplied (the history of [C49_sized_case]). *)
Example C66_sized_case : exists rs env w', exec (TSized 4 4) [] u32_history empty_world = (Ok (rs, env), w') /\
  supplied u32_history = [u32 1; u32 2; u32 3] /\ taken u32_history rs = [u32 1] /\ alive env 1 = None /\ shows (TSized 4 4) 0 [u32 3] w' /\
  Permutation (supplied u32_history ++ [u32 1; u32 3; u32 2]) (w_drops w' ++ [u32 3] ++ taken u32_history rs).
Proof. do 3 eexists. split; [run|]. split; [reflexivity|]. split; [run|]. split; [run|]. split; [run|]. cbn. perms. Qed.
End Cases.
