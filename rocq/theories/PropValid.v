(** C73: what holds of every value that goes into a history holds of every value that it shows, keeps or destroys: the invariant
    of a type, such as that the bytes of a [str] are UTF-8, that a [bool] is 0 or 1, or that a reference inside is valid. *)
From Coq Require Import ZArith List Bool Lia Permutation.
From Verif Require Import Types World ValidSize Emplace SizedVec AlignedVec UnalignedVec Api Spec Bytes Arith Wp Mem Repr
  Access Reserve Realign Orep Push Deal PushWith Shell Insert Take Pop Box Iter Calls GetMut DropVec Family Build PushAll Wrote Sources
  Obs Room Shrink PropPush PropReserve PropAccess PropEdit PropEmplace PropShrink PropCompare PropWhole Convert PropUnsize PropConvert Zst History PropHistory Aligns PropUniform Findings PropMemory PropAdapt PropUnsize PropValues PropBorrow PropKinds.
Import ListNotations.
Open Scope Z_scope.
Open Scope m_scope.

(** The values that the caller gets to see in a result. *)
Definition shown (o : obs) : list value :=
  match o with
  | BVal x => [x]
  | BOpt (Some x) => [x]
  | BItems rs => somes rs
  | _ => []
  end.
Definition reveals (P : value -> Prop) (r : obs + panic_reason) : Prop := match r with inl o => Forall P (shown o) | inr _ => True end.

Section WithConfig.
Context {C : Config}.

Lemma last_P {A} (P : A -> Prop) l x : Forall P l -> hd_error (rev l) = Some x -> P x.
Proof.
  intros F E. destruct l as [|y l _] using rev_ind; [discriminate|]. rewrite rev_app_distr in E. cbn in E. injection E as ->.
  apply Forall_app in F as [_ F]. now inversion F.
Qed.
Lemma nth_P {A} (P : A -> Prop) l i x : Forall P l -> nth_error l i = Some x -> P x.
Proof. intros F E. eapply Forall_forall in F; [exact F|eapply nth_error_In; eauto]. Qed.
Lemma left_P {A} (P : A -> Prop) cs : forall l : list A, Forall P l -> Forall P (snd (dq_run cs l)).
Proof.
  induction cs as [|c cs IH]; intros l F; cbn [dq_run]; auto. pose proof (proj2 (dq_step_in c l)) as H. destruct (dq_step c l) as [y m]. cbn [snd] in H.
  assert (Fm : Forall P m) by (rewrite Forall_forall in *; auto). specialize (IH m Fm). destruct (dq_run cs m). exact IH.
Qed.
Lemma vshown P c l o l' ds : vspec c l o l' ds -> Forall P l -> Forall P (shown o).
Proof.
  intros S F. destruct c; cbn [vspec] in S; try (destruct S as (-> & _); now constructor);
    try (destruct S as ((? & -> & _) & _); now constructor); try (destruct S as ((? & ->) & _); now constructor).
  - destruct S as (-> & _). cbn [shown]. destruct (nth_error l i) eqn:E; [|constructor]. constructor; [eapply nth_P; eauto|constructor].
  - destruct S as ((x & E & ->) & _). constructor; [eapply nth_P; eauto|constructor].
  - destruct (nth_error l i); destruct S as (-> & _); constructor.
  - destruct S as (-> & _). cbn [shown]. apply Forall_forall. intros x I. apply dq_run_in in I. rewrite Forall_forall in F. auto.
  - destruct S as (-> & _). cbn [shown]. destruct (hd_error _) eqn:E; [|constructor]. constructor; [|constructor]. eapply last_P; [|exact E]. now apply left_P.
  - destruct S as (-> & _). cbn [shown]. destruct (hd_error _) eqn:E; [|constructor]. constructor; [|constructor]. eapply last_P; eauto.
  - destruct S as ((x & E & ->) & _). constructor; [eapply nth_P; eauto|constructor].
Qed.
Lemma spec_shown P c s o s' ds : spec c s o s' ds -> all_of P s -> Forall P (shown o).
Proof.
  intros S F. destruct c; cbn [spec] in S; unfold skipped in S; try (destruct S as (-> & _); now constructor);
    repeat match type of S with context [match there s ?k with _ => _ end] => destruct (there s k) eqn:?E end;
    try (destruct S as (-> & _); now constructor).
  - destruct S as (l' & S & _). eapply vshown; eauto.
  - destruct (dst =? src)%nat; destruct S as (-> & _); constructor.
  - destruct (dst =? src)%nat; destruct S as (-> & _); constructor.
  - destruct S as (b & -> & _). constructor.
Qed.

Lemma all_contents P s : all_of P s <-> Forall P (contents s).
Proof.
  unfold contents. split.
  - intros A. apply Forall_concat, Forall_forall. intros l I. apply in_map_iff in I as (o & <- & I). apply In_nth_error in I as (k & E).
    destruct o as [l|]; [|constructor]. apply (A k). unfold there. now rewrite E.
  - intros F k l E. unfold there in E. destruct (nth_error s k) as [o|] eqn:N; [|discriminate]. subst o. apply nth_error_In in N.
    apply Forall_forall. intros x I. eapply Forall_forall in F; [exact F|]. apply in_concat. exists l. split; auto. apply in_map_iff. exists (Some l). auto.
Qed.
Lemma written_P (P : value -> Prop) f js : (forall x, P x -> P (f x)) -> forall l, Forall P l -> Forall P (fst (written f js l)).
Proof.
  intros Hf. induction js as [|j js IH]; intros l F; cbn [written]; [constructor|]. destruct (nth_error l j) as [x|] eqn:E; auto.
  assert (Px : P (f x)) by (apply Hf; eapply nth_P; eauto). specialize (IH (replace_at j (f x) l) (Forall_replace_at P j (f x) l Px F)).
  destruct (written f js (replace_at j (f x) l)). constructor; auto.
Qed.
Lemma incoming_P (P : value -> Prop) c s : ~ closes c -> brings P c -> all_of P s -> Forall P (incoming c s).
Proof.
  intros V B F. destruct c; cbn [closes incoming brings] in *; try (now constructor); try tauto.
  - destruct (there s k) as [l|] eqn:E; [|constructor]. apply Forall_map. eapply Forall_impl; [|exact (F k l E)]. exact B.
  - destruct (there s k) as [l|] eqn:E; [|constructor]. pose proof (F k l E) as Fl.
    destruct c; cbn [vcloses vincoming vbrings] in *; try (now constructor); try tauto.
    + destruct (nth_error l i) as [x|] eqn:N; constructor; [|constructor]. apply B. eapply nth_P; eauto.
    + now apply written_P.
Qed.
(** What the calls destroy; of what a closure of the caller's destroys on its own account nothing is known. *)
Lemma spec_destroys (P : value -> Prop) c s o s' ds : ~ closes c -> brings P c -> all_of P s -> spec c s o s' ds -> Forall P ds.
Proof.
  intros V B F S. pose proof (spec_flow _ _ _ _ _ S) as Fl. assert (A : Forall P (incoming c s ++ contents s)).
  { apply Forall_app. split; [now apply incoming_P|now apply all_contents]. }
  rewrite Fl in A. now apply Forall_app in A as [A _].
Qed.
Lemma panic_destroys (P : value -> Prop) t c s r s' ds : ~ closes c -> brings P c -> all_of P s -> spec_panic t c s r s' ds -> Forall P ds.
Proof.
  intros V B F S. destruct (panic_flow _ _ _ _ _ _ S) as (own & lost & O & Fl). destruct O as [V2| -> ]; [contradiction|]. assert (A : Forall P (incoming c s ++ contents s)).
  { apply Forall_app. split; [now apply incoming_P|now apply all_contents]. }
  cbn [app] in Fl. rewrite Fl in A. now apply Forall_app in A as [A _].
Qed.
Lemma spec_run_upholds (P : value -> Prop) t cs s rs s' dl : spec_run t cs s rs s' dl -> Forall (brings P) cs -> all_of P s ->
  all_of P s' /\ Forall (reveals P) rs /\ (Forall (fun c => ~ closes c) cs -> Forall P (concat dl)).
Proof.
  induction 1 as [s|c cs s o s1 ds rs s2 dl S R IH|c cs s r s1 ds rs s2 dl S R IH]; intros B F.
  - split; auto. split; constructor.
  - inversion_clear B as [|? ? Bc B']. destruct (IH B' (brings_spec P _ _ _ _ _ Bc F S)) as (A & Rv & D). split; auto. split.
    + constructor; auto. exact (spec_shown P _ _ _ _ _ S F).
    + intros V. inversion_clear V as [|? ? Vc V']. cbn [concat]. apply Forall_app. split; auto. exact (spec_destroys P _ _ _ _ _ Vc Bc F S).
  - inversion_clear B as [|? ? Bc B']. destruct (IH B' (brings_panic P _ _ _ _ _ _ Bc F S)) as (A & Rv & D). split; auto. split.
    + constructor; auto. exact I.
    + intros V. inversion_clear V as [|? ? Vc V']. cbn [concat]. apply Forall_app. split; auto. exact (panic_destroys P _ _ _ _ _ _ Vc Bc F S).
Qed.

(** Every result, every element of a vector that is still there, and every value whose destructor ran has the property [P]. *)
Definition upholds (t : ty) (P : value -> Prop) (cs : list op) (w : world) : Prop :=
  run (exec t [] cs) w
    (fun p w' => Forall (reveals P) (fst p) /\
       (forall k j, alive (snd p) k = Some j -> exists l, holds_list t j l w' /\ Forall P l) /\
       exists ds, w_drops w' = w_drops w ++ ds /\ (Forall (fun c => ~ closes c) cs -> Forall P ds))
    (fun _ _ => False) (fun _ => out_of_luck).
Lemma behaves_upholds t P cs w : behaves t [] cs [] w -> Forall (brings P) cs -> upholds t P cs w.
Proof.
  intros B Br. eapply run_conseq; [exact B|..]; cbv beta; auto. intros p w' (s' & dl & S & T & D & _).
  destruct (spec_run_upholds P _ _ _ _ _ _ S Br (all_of_nil P)) as (A & Rv & De). split; auto. split; [|eauto].
  intros k j Al. destruct (tracks_live _ _ _ _ _ _ T Al) as (l & E & R). exists l. split; [now apply repr_holds|eauto].
Qed.
Theorem C73_sized s a P cs w : wf_ty (TSized s a) -> Forall (typed (TSized s a)) cs -> Forall calm cs -> Forall (brings P) cs -> upholds (TSized s a) P cs w.
Proof. intros. apply behaves_upholds; auto. now apply C49_sized_partial. Qed.
Theorem C73_aligned t P cs w : wf_ty t -> kind_of t = KAligned -> Forall (typed t) cs -> Forall front cs -> Forall (brings (not_huge t)) cs ->
  Forall (brings P) cs -> upholds t P cs w.
Proof. intros. apply behaves_upholds; auto. apply C49_easy_partial; auto using fronts_easy. Qed.
Theorem C73_ends t P cs w : wf_ty t -> kind_of t = KUnaligned -> Forall (typed t) cs -> Forall ends_only cs -> Forall (brings (lands t)) cs ->
  Forall (brings P) cs -> upholds t P cs w.
Proof. intros. apply behaves_upholds; auto. apply C49_easy_partial; auto using all_ends_easy. Qed.
Theorem C73_uniform t A P cs w : wf_ty t -> kind_of t = KUnaligned -> pow2 A -> 1 <= A -> Forall (typed t) cs -> Forall (uniform t A) cs -> w_vecs w = [] ->
  Forall (brings P) cs -> upholds t P cs w.
Proof. intros. apply behaves_upholds; auto. eapply C49_uniform_start_partial; eauto. Qed.
(** Strings stay UTF-8. *)
Definition valid_str (x : value) : Prop := utf8 (length (v_bytes x)) (nums (v_bytes x)) = true.
Theorem C73_str cs w : Forall (typed TStr) cs -> Forall front cs -> Forall (brings valid_str) cs -> upholds TStr valid_str cs w.
Proof.
  intros Ty F B. assert (W : wf_ty TStr) by exact I.
  apply C73_aligned; auto. apply Forall_forall. intros c _. assert (N : forall x, not_huge TStr x) by discriminate.
  destruct c; cbn [brings]; auto; try (apply Forall_forall; auto). destruct c; cbn [vbrings]; auto; apply Forall_forall; auto.
Qed.
End WithConfig.

Print Assumptions C73_sized.
Print Assumptions C73_aligned.
Print Assumptions C73_ends.
Print Assumptions C73_uniform.
Print Assumptions C73_str.

(** ** Concrete histories *)
Section Cases.
Local Existing Instance cfg_release.
Ltac run := vm_compute; reflexivity.
Ltac each := repeat (apply Forall_cons || apply Forall_nil).
(** "a", "é" and "aé" go in at the front and the back, the middle one and an absent one are taken out, one is dropped. *)
Definition utf8_history : list op := [New false; On 0 (VPush (str_val [97])); On 0 (VPushWith (str_val [195; 169])); On 0 (VInsert 0 (str_val [97; 195; 169]));
  On 0 (VVisit [NextBack; NextBack]); On 0 (VRemove 1); On 0 (VRemove 5); On 0 VPopDrop; On 0 (VGet 0)].
Example C73_str_case : Forall (typed TStr) utf8_history /\ Forall front utf8_history /\ Forall (brings valid_str) utf8_history /\ Forall (fun c => ~ closes c) utf8_history /\
  ~ valid_str (str_val [97; 195]) /\
  exists env w', exec TStr [] utf8_history empty_world =
    (Ok ([inl BUnit; inl BUnit; inl BUnit; inl BUnit; inl (BItems [(Some (str_val [195; 169]), 2%nat); (Some (str_val [97]), 1%nat)]); inl (BVal (str_val [97]));
          inr PBounds; inl BUnit; inl (BOpt (Some (str_val [97; 195; 169])))], env), w') /\ w_drops w' = [str_val [195; 169]].
Proof.
  split. { each; cbn [typed vtyped]; auto; try (apply goodb_ok; reflexivity). }
  split. { each; cbn [front vfront]; auto; first [left; reflexivity|right; reflexivity]. }
  split. { each; cbn [brings vbrings]; auto; reflexivity. }
  split. { each; cbn [closes vcloses]; auto. }
  split; [discriminate|]. do 2 eexists. split; [run|]. run.
Qed.
(** [bool]s: bytes 0 and 1, under a closure that negates. *)
Definition boolean (x : value) : Prop := x = sized_val [0] \/ x = sized_val [1].
Definition negate (x : value) : value := Value (v_meta x) (map (fun b => match b with Byte n => Byte (1 - n) | b => b end) (v_bytes x)).
Lemma negate_boolean x : boolean x -> boolean (negate x).
Proof. intros [->| ->]; [right|left]; reflexivity. Qed.
Lemma negate_alike x : alike x (negate x).
Proof. split; [reflexivity|]. cbn. now rewrite map_length. Qed.
Definition bool_history : list op := [New true; On 0 (VPush (sized_val [1])); On 0 (VExtend 9 [sized_val [0]; sized_val [1]]); On 0 (VInsert 1 (sized_val [1])); On 0 (VRemoveDrop 0);
  On 0 (VUpdate [Next; NextBack] negate); On 0 (VSet 1 negate); On 0 (VVisit [Next; NextBack; Next; Next]); DropVec 0].
Example C73_sized_case : wf_ty (TSized 1 1) /\ Forall (typed (TSized 1 1)) bool_history /\ Forall calm bool_history /\ Forall (brings boolean) bool_history /\
  Forall (fun c => ~ closes c) bool_history /\
  exists env w', exec (TSized 1 1) [] bool_history empty_world =
    (Ok ([inl BUnit; inl BUnit; inl BUnit; inl BUnit; inl BUnit; inl BUnit; inl (BBool true);
          inl (BItems [(Some (sized_val [0]), 2%nat); (Some (sized_val [0]), 1%nat); (Some (sized_val [1]), 0%nat); (None, 0%nat)]); inl BUnit], env), w') /\
    w_drops w' = [sized_val [1]; sized_val [0]; sized_val [1]; sized_val [0]].
Proof.
  split; [split; [split; [lia|split; [exists 0; lia|lia]]|reflexivity]|].
  split. { each; cbn [typed vtyped]; auto using negate_alike; try (apply goodb_ok; reflexivity); split; [lia|]; each; apply goodb_ok; reflexivity. }
  split. { each; cbn [calm]; auto. intros n. reflexivity. }
  split. { each; cbn [brings vbrings]; auto using negate_boolean; try (left; reflexivity); try (right; reflexivity); each; (left; reflexivity) || (right; reflexivity). }
  split. { each; cbn [closes vcloses]; auto. }
  do 2 eexists. split; [run|]. run.
Qed.
(** Trait objects: the metadata is that of a type whose vtable exists. *)
Definition known (x : value) : Prop := In (v_meta x) (map v_meta [one 0; word 0; half 0; five 0; nil1; nil2; pair8 0]).
Example C73_ends_case : kind_of TDyn = KUnaligned /\ Forall (typed TDyn) dyn_history /\ Forall ends_only dyn_history /\ Forall (brings (lands TDyn)) dyn_history /\
  Forall (brings known) dyn_history /\ ~ known (dyn_val 99 8 8 [1; 2; 3; 4; 5; 6; 7; 8]).
Proof.
  destruct C71_case as (A & B & D & E). split; auto. split; auto. split; auto. split; auto. split.
  { each; cbn [brings vbrings]; auto; each; vm_compute; tauto. }
  vm_compute. intros H. repeat destruct H as [H|H]; discriminate || auto.
Qed.
Example C73_uniform_case : pow2 8 /\ Forall (typed TDyn) word_history /\ Forall (uniform TDyn 8) word_history /\ w_vecs empty_world = [] /\ Forall (brings known) word_history.
Proof.
  destruct C72_case as (A & B & D & E). split; auto. split; auto. split; auto. split; auto. each; cbn [brings vbrings]; auto; each; vm_compute; tauto.
Qed.
End Cases.
