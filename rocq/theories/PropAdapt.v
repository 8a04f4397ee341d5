(** Properties of the iterator methods that search or fold, and of iterators under calls in any order. *)
From Coq Require Import ZArith List Bool Lia.
From Verif Require Import Types World ValidSize Emplace SizedVec AlignedVec UnalignedVec Api Spec Adaptors Bytes Arith Wp Mem Repr
  Access Reserve Realign Orep Push Deal PushWith Shell Insert Take Pop Box Iter Calls GetMut DropVec Wrote AnyCalls Family Build Obs Room Findings PropPush.
Import ListNotations.
Open Scope Z_scope.
Open Scope m_scope.

(** ** Searching a plain sequence *)
(** The closure sees the items in order until it returns something or panics ([None]); the items after that are left. *)
Fixpoint scan {A S B} (f : S -> A -> option (S * option B)) (st : S) (m : list A) : option (option B * S * list A) :=
  match m with
  | [] => Some (None, st, [])
  | x :: r =>
      match f st x with
      | None => None
      | Some (st', Some b) => Some (Some b, st', r)
      | Some (st', None) => scan f st' r
      end
  end.
Definition then_ {S B D} (f : closure S B) (g : B -> option D) : S -> value -> option (S * option D) :=
  fun st x => match f st x with Some (st', b) => Some (st', g b) | None => None end.

Lemma scan_map {A A' S B} (h : A -> A') (f : S -> A' -> option (S * option B)) m : forall st,
  scan f st (map h m) = match scan (fun st x => f st (h x)) st m with Some (b, st', r) => Some (b, st', map h r) | None => None end.
Proof.
  induction m as [|x m IH]; intros st; cbn [map scan]; [reflexivity|]. destruct (f st (h x)) as [[st' [b|]]|]; auto.
Qed.

Section WithConfig.
Context {C : Config}.

(** ** The loop *)
Definition lift {A} (o : option A) (w : world) : res A * world := match o with Some x => (Ok x, w) | None => (Panic (PUser 0), w) end.
Lemma try_each_eq {S B} t self l o d w (F : S -> wide -> M (S * option B)) g : orep t self l o d w ->
  (forall st i, (i < length l)%nat -> F st (eref_at t o l i) w = lift (g st i) w) ->
  forall m a b it st, l = a ++ m ++ b -> covers t o a m it ->
  match scan g st (seq (length a) (length m)) with
  | None => v_try_each t F (length m) it st w = (Panic (PUser 0), w)
  | Some (r, st', rest) => exists it' a' m' b', v_try_each t F (length m) it st w = (Ok (r, st', it'), w) /\
      l = a' ++ m' ++ b' /\ covers t o a' m' it' /\ rest = seq (length a') (length m')
  end.
Proof.
  intros R H. induction m as [|x m IH]; intros a b it st E K; cbn [length seq scan v_try_each].
  - exists it, a, [], b. ands; auto.
  - destruct (v_next_cons _ _ _ _ _ _ a x m b it R K E) as (it' & N & K').
    assert (L : (length a < length l)%nat) by (rewrite E, app_length; cbn; lia).
    assert (N' : v_next t it w = (Ok (Some (eref_at t o l (length a)), it'), w)).
    { rewrite N. rewrite (iref_at t o a x (m ++ b)). cbn [app] in E. now rewrite <- E. }
    specialize (H st _ L) as Hi. unfold lift in Hi. destruct (g st (length a)) as [[st' [r|]]|].
    + exists it', (a ++ [x]), m, b. erewrite bind_eq by exact N'. cbv beta iota. erewrite bind_eq by exact Hi. ands; auto.
      * rewrite E, <- app_assoc. reflexivity.
      * rewrite app_length. cbn [length]. f_equal. lia.
    + specialize (IH (a ++ [x]) b it' st'). rewrite app_length, Nat.add_1_r in IH. erewrite bind_eq by exact N'. cbv beta iota.
      erewrite bind_eq by exact Hi. cbv beta iota. apply IH; auto. rewrite E, <- app_assoc. reflexivity.
    + erewrite bind_eq by exact N'. cbv beta iota. unfold bind. now rewrite Hi.
Qed.

(** Reading what is left with [next]. *)
Lemma collect_eq t self l o d w : orep t self l o d w -> forall m a b it, l = a ++ m ++ b -> covers t o a m it ->
  v_collect t (length m) it w = (Ok m, w).
Proof.
  intros R. induction m as [|x m IH]; intros a b it E K; cbn [length v_collect]; [reflexivity|].
  destruct (v_next_cons _ _ _ _ _ _ a x m b it R K E) as (it' & N & K').
  erewrite bind_eq by exact N. cbv beta iota. erewrite bind_eq by (eapply behind_read, iref_behind; eauto).
  erewrite bind_eq. 2:{ eapply (IH (a ++ [x]) b); [|exact K']. rewrite E, <- app_assoc. reflexivity. } reflexivity.
Qed.

(** ** What a user sees *)
(** [v.iter()], the calls [cs] on it, and then [k]. *)
Definition after {A} (t : ty) (self : nat) (cs : list icall) (k : viter -> M A) : M A :=
  it <- v_iter t self ;; '(_, it) <- v_calls t cs it ;; k it.
(** A search, the item it found, and the items then left. *)
Definition finish {S B D} (t : ty) (see : B -> M D) (r : M (B * S * viter)) : M (D * S * list value) :=
  '(b, st, it) <- r ;; x <- see b ;; rest <- v_collect t (v_iter_len it) it ;; ret (x, st, rest).

(** After any calls at all the iterator stands where the plain sequence does. *)
Lemma after_any {A} t self l w cs (k : viter -> M A) (Q : res A * world -> Prop) : repr t self l w ->
  (forall o d a m b it, orep t self l o d w -> l = a ++ m ++ b -> covers t o a m it -> m = snd (dq_run cs l) -> Q (k it w)) ->
  Q (after t self cs k w).
Proof.
  intros R H. apply repr_orep in R as (o & d & R). destruct (v_iter_eq _ _ _ _ _ _ R) as (it & I & K & _).
  destruct (v_calls_any _ _ _ _ _ _ cs R [] l [] it false) as (it' & a' & m' & b' & V & E & K' & S); auto.
  { cbn. now rewrite app_nil_r. }
  unfold after. erewrite bind_eq by exact I. erewrite bind_eq by exact V. cbv beta iota. eapply H; eauto.
  rewrite <- (seq_nth_map l dummy) at 1. rewrite dq_run_map. cbn [snd length] in *. rewrite S. symmetry. rewrite E. apply seq_nth_mid.
Qed.

(** A search whose closure works on values. *)
Lemma search_eq {S B D} t self l o d w a m b it st (F : S -> wide -> M (S * option B)) (f : S -> value -> option (S * option D))
  (see : option B -> M (option D)) (back : D -> nat -> B) :
  orep t self l o d w -> l = a ++ m ++ b -> covers t o a m it ->
  (forall st i, (i < length l)%nat -> F st (eref_at t o l i) w =
     lift (match f st (nth i l dummy) with Some (st', Some x) => Some (st', Some (back x i)) | Some (st', None) => Some (st', None) | None => None end) w) ->
  see None w = (Ok None, w) ->
  (forall st st' x i, (i < length l)%nat -> f st (nth i l dummy) = Some (st', Some x) -> see (Some (back x i)) w = (Ok (Some x), w)) ->
  finish t see (v_try_each t F (v_iter_len it) it st) w = lift (scan f st m) w.
Proof.
  intros R E K H S0 S1. rewrite (covers_len _ _ _ _ _ _ _ _ _ R K).
  pose proof (try_each_eq t self l o d w F _ R H m a b it st E K) as T.
  set (g := fun st i => _) in T.
  assert (M : m = map (fun i => nth i l dummy) (seq (length a) (length m))).
  { rewrite E. symmetry. apply seq_nth_mid. }
  rewrite M at 2. rewrite scan_map.
  assert (G : forall n k st, (k + n <= length l)%nat ->
    match scan g st (seq k n) with
    | None => scan (fun st i => f st (nth i l dummy)) st (seq k n) = None
    | Some (None, st', rest) => scan (fun st i => f st (nth i l dummy)) st (seq k n) = Some (None, st', rest)
    | Some (Some y, st', rest) => exists x, scan (fun st i => f st (nth i l dummy)) st (seq k n) = Some (Some x, st', rest) /\ see (Some y) w = (Ok (Some x), w)
    end).
  { clear T. induction n as [|n IH]; intros k st0 Lk; cbn [seq scan]; [reflexivity|]. unfold g at 1.
    destruct (f st0 (nth k l dummy)) as [[st' [x|]]|] eqn:Fe; auto.
    - exists x. split; auto. eapply S1; eauto. lia.
    - apply IH. lia. }
  assert (Ll : (length a + length m <= length l)%nat) by (rewrite E, !app_length; lia).
  specialize (G (length m) (length a) st Ll).
  destruct (scan g st (seq (length a) (length m))) as [[[y st'] rest]|] eqn:Sc.
  - destruct T as (it' & a' & m' & b' & V & E' & K' & Er). unfold finish. erewrite bind_eq by exact V. cbv beta iota.
    assert (Rm : map (fun i => nth i l dummy) rest = m'). { rewrite Er, E'. apply seq_nth_mid. }
    destruct y as [y|].
    + destruct G as (x & G & Sx). rewrite G. cbn [lift]. erewrite bind_eq by exact Sx. rewrite (covers_len _ _ _ _ _ _ _ _ _ R K').
      erewrite bind_eq by (eapply collect_eq; eauto). rewrite Rm. reflexivity.
    + rewrite G. cbn [lift]. erewrite bind_eq by exact S0. rewrite (covers_len _ _ _ _ _ _ _ _ _ R K').
      erewrite bind_eq by (eapply collect_eq; eauto). rewrite Rm. reflexivity.
  - rewrite G. unfold finish, bind. now rewrite T.
Qed.

Lemma call_closure_eq {S B} t self l o d w (f : closure S B) st i : orep t self l o d w -> (i < length l)%nat ->
  call_closure t f st (eref_at t o l i) w = lift (f st (nth i l dummy)) w.
Proof.
  intros R L. unfold call_closure. erewrite bind_eq by (eapply map_eref; eauto). destruct (f st (nth i l dummy)); reflexivity.
Qed.

(** ** C53 *)
(** The most general method, with any closure: it is called on the remaining elements in order, each once, until it returns
    something; the iterator is then behind that element. If the closure panics, the vector is untouched. *)
Theorem C53_find_map {S B} t self l w cs (f : closure S (option B)) st : repr t self l w ->
  after t self cs (fun it => finish t ret (v_find_map t f it st)) w = lift (scan f st (snd (dq_run cs l))) w.
Proof.
  intros R. apply after_any with (l := l); auto. intros o d a m b it Ro E K <-.
  eapply search_eq with (back := fun x _ => x); eauto.
  intros st0 i L. unfold bind. rewrite (call_closure_eq t self l o d w) by auto. unfold lift.
  now destruct (f st0 (nth i l dummy)) as [[? [?|]]|].
Qed.
Theorem C53_find {S} t self l w cs (f : closure S bool) st : repr t self l w ->
  after t self cs (fun it => finish t (read_opt t) (v_find t f it st)) w =
  lift (scan (fun st x => match f st x with Some (st', b) => Some (st', if b then Some x else None) | None => None end)
          st (snd (dq_run cs l))) w.
Proof.
  intros R. apply after_any with (l := l); auto. intros o d a m b it Ro E K <-.
  eapply search_eq with (back := fun _ i => eref_at t o l i); eauto.
  - intros st0 i L. unfold bind. rewrite (call_closure_eq t self l o d w) by auto. unfold lift.
    now destruct (f st0 (nth i l dummy)) as [[? [|]]|].
  - intros st0 st' x i L Fe. cbn [read_opt]. erewrite bind_eq by (eapply map_eref; eauto).
    destruct (f st0 (nth i l dummy)) as [[? [|]]|]; try discriminate. injection Fe as _ <-. reflexivity.
Qed.

(** A search that only reports whether it found something. *)
Lemma flag_eq {S} t self l w cs (f : closure S bool) st (stop : bool -> option unit) (yes no : bool) : repr t self l w ->
  after t self cs (fun it => finish t ret ('(b, st, it) <- v_try_each t (fun st r => '(st, b) <- call_closure t f st r ;; ret (st, stop b))
                                             (v_iter_len it) it st ;;
                              ret (match b with None => no | Some _ => yes end, st, it))) w =
  lift (match scan (then_ f stop) st (snd (dq_run cs l)) with
        | Some (b, st', rest) => Some (match b with None => no | Some _ => yes end, st', rest) | None => None end) w.
Proof.
  intros R. apply after_any with (l := l); auto. intros o d a m b it Ro E K <-.
  assert (X : finish t ret (v_try_each t (fun st r => '(st, b) <- call_closure t f st r ;; ret (st, stop b)) (v_iter_len it) it st) w
              = lift (scan (then_ f stop) st m) w).
  { eapply search_eq with (back := fun x _ => x); eauto. intros st0 i L. unfold bind, then_.
    rewrite (call_closure_eq t self l o d w) by auto. unfold lift, ret.
    destruct (f st0 (nth i l dummy)) as [[? y]|]; auto. now destruct (stop y). }
  unfold finish, bind, ret in *. destruct (v_try_each _ _ _ _ _ w) as [[[[y st'] it']| | |] w'].
  - destruct (v_collect t (v_iter_len it') it' w') as [[?| | |] ?]; destruct (scan (then_ f stop) st m) as [[[? ?] ?]|]; cbn [lift] in *; try congruence.
    injection X; intros; subst; reflexivity.
  - destruct (scan (then_ f stop) st m) as [[[? ?] ?]|]; cbn [lift] in *; congruence.
  - destruct (scan (then_ f stop) st m) as [[[? ?] ?]|]; cbn [lift] in *; congruence.
  - destruct (scan (then_ f stop) st m) as [[[? ?] ?]|]; cbn [lift] in *; congruence.
Qed.

(** ** Predicates without state, against the functions of the list library *)
(** A closure that writes down what it was given. *)
Definition log {B} (p : value -> B) : closure (list value) B := fun seen x => Some (seen ++ [x], p x).
(** The elements up to the first hit, and those behind it. *)
Fixpoint upto {A} (p : A -> bool) (m : list A) : list A :=
  match m with [] => [] | x :: r => if p x then [x] else x :: upto p r end.
Fixpoint beyond {A} (p : A -> bool) (m : list A) : list A :=
  match m with [] => [] | x :: r => if p x then r else beyond p r end.
Lemma upto_beyond {A} (p : A -> bool) m : upto p m ++ beyond p m = m.
Proof. induction m as [|x m IH]; cbn; auto. destruct (p x); cbn; congruence. Qed.
Fixpoint first_some {A B} (h : A -> option B) (m : list A) : option B :=
  match m with [] => None | x :: r => match h x with Some b => Some b | None => first_some h r end end.
Definition is_some {B} (o : option B) : bool := match o with Some _ => true | None => false end.
Lemma scan_log {B} (h : value -> option B) m : forall seen,
  scan (fun s x => Some (s ++ [x], h x)) seen m = Some (first_some h m, seen ++ upto (fun x => is_some (h x)) m, beyond (fun x => is_some (h x)) m).
Proof.
  induction m as [|x m IH]; intros seen; cbn [scan first_some upto beyond]. { now rewrite app_nil_r. }
  destruct (h x); cbn [is_some]; auto. rewrite IH, <- app_assoc. reflexivity.
Qed.
Lemma upto_ext {A} (p q : A -> bool) m : (forall x, p x = q x) -> upto p m = upto q m /\ beyond p m = beyond q m.
Proof. intros H. induction m as [|x m [I J]]; cbn; auto. rewrite H, I, J. now destruct (q x). Qed.

Theorem C53_find_list t self l w cs p : repr t self l w -> let m := snd (dq_run cs l) in
  after t self cs (fun it => finish t (read_opt t) (v_find t (log p) it [])) w = (Ok (find p m, upto p m, beyond p m), w).
Proof.
  intros R m. rewrite (C53_find t self l w cs (log p) [] R). fold m. unfold log.
  rewrite (scan_log (fun x => if p x then Some x else None)). cbn [lift app].
  destruct (upto_ext (fun x => is_some (if p x then Some x else None)) p m) as [U V]. { intros x. now destruct (p x). }
  rewrite U, V. do 2 f_equal. f_equal. f_equal. clear. induction m as [|x m IH]; cbn; auto. now destruct (p x).
Qed.
Theorem C53_find_map_list {B} t self l w cs (h : value -> option B) : repr t self l w -> let m := snd (dq_run cs l) in
  after t self cs (fun it => finish t ret (v_find_map t (log h) it [])) w =
  (Ok (first_some h m, upto (fun x => is_some (h x)) m, beyond (fun x => is_some (h x)) m), w).
Proof. intros R m. rewrite (C53_find_map t self l w cs (log h) [] R). fold m. unfold log. now rewrite (scan_log h). Qed.
Theorem C53_any t self l w cs p : repr t self l w -> let m := snd (dq_run cs l) in
  after t self cs (fun it => finish t ret (v_any t (log p) it [])) w = (Ok (existsb p m, upto p m, beyond p m), w).
Proof.
  intros R m. unfold v_any. rewrite (flag_eq t self l w cs (log p) [] (fun b => if b then Some tt else None) true false R). fold m.
  unfold then_, log. rewrite (scan_log (fun x => if p x then Some tt else None)). cbn [lift app].
  destruct (upto_ext (fun x => is_some (if p x then Some tt else None)) p m) as [U V]. { intros x. now destruct (p x). }
  rewrite U, V. do 2 f_equal. f_equal. f_equal. clear. induction m as [|x m IH]; cbn; auto. now destruct (p x).
Qed.
Theorem C53_all t self l w cs p : repr t self l w -> let m := snd (dq_run cs l) in let np x := negb (p x) in
  after t self cs (fun it => finish t ret (v_all t (log p) it [])) w = (Ok (forallb p m, upto np m, beyond np m), w).
Proof.
  intros R m np. unfold v_all. rewrite (flag_eq t self l w cs (log p) [] (fun b => if b then None else Some tt) false true R). fold m.
  unfold then_, log. rewrite (scan_log (fun x => if p x then None else Some tt)). cbn [lift app].
  destruct (upto_ext (fun x => is_some (if p x then None else Some tt)) np m) as [U V]. { intros x. unfold np. now destruct (p x). }
  rewrite U, V. do 2 f_equal. f_equal. f_equal. clear. induction m as [|x m IH]; cbn; auto. now destruct (p x).
Qed.
(** [for_each] hands every remaining element to the closure, in order. *)
Theorem C53_for_each t self l w cs : repr t self l w ->
  after t self cs (fun it => v_for_each t (log (fun _ => tt)) it []) w = (Ok (snd (dq_run cs l)), w).
Proof.
  intros R. apply after_any with (l := l); auto. intros o d a m b it Ro E K Em. rewrite <- Em. unfold v_for_each.
  rewrite (covers_len _ _ _ _ _ _ _ _ _ Ro K).
  pose (g := fun (st : list value) i => Some (st ++ [nth i l dummy], @None unit)).
  pose proof (try_each_eq t self l o d w (fun st r => '(st, _) <- call_closure t (log (fun _ => tt)) st r ;; ret (st, @None unit)) g Ro) as T.
  specialize (T ltac:(intros st0 i L; unfold bind; now rewrite (call_closure_eq t self l o d w) by auto) m a b it [] E K).
  assert (Y : forall n k s, scan g s (seq k n) = Some (None, s ++ map (fun i => nth i l dummy) (seq k n), [])).
  { clear. induction n as [|n IH]; intros k s; cbn [seq scan map]. { now rewrite app_nil_r. } unfold g at 1. rewrite IH, <- app_assoc. reflexivity. }
  rewrite Y in T. destruct T as (it' & a' & m' & b' & V & _). erewrite bind_eq by exact V. cbv beta iota. cbn [app].
  rewrite E, seq_nth_mid. reflexivity.
Qed.
(** [position] counts from the iterator's position. *)
Theorem C53_position t self l w cs p : repr t self l w -> let m := snd (dq_run cs l) in
  after t self cs (fun it => finish t ret (v_position t (log p) it [])) w =
  (Ok (if existsb p m then Some (length (upto p m) - 1)%nat else None, upto p m, beyond p m), w).
Proof.
  intros R m. apply after_any with (l := l); auto. intros o d a m' b it Ro E K Em. fold m in Em. subst m'. unfold v_position.
  pose (f := fun (st : list value * nat) x => Some ((fst st ++ [x], Datatypes.S (snd st)), if p x then Some (snd st) else None)).
  assert (X : finish t ret (v_try_each t (fun '(st, n) r => '(st, b) <- call_closure t (log p) st r ;; ret ((st, Datatypes.S n), if b then Some n else None)) (v_iter_len it) it ([], O)) w
              = lift (scan f ([], O) m) w).
  { eapply search_eq with (back := fun x _ => x); eauto. intros [s0 n0] i L. unfold bind, f. cbn [fst snd].
    rewrite (call_closure_eq t self l o d w) by auto. unfold lift, log, ret. now destruct (p (nth i l dummy)). }
  assert (Y : forall m s n, scan f (s, n) m = Some (if existsb p m then Some (n + (length (upto p m) - 1))%nat else None,
                 (s ++ upto p m, (n + length (upto p m))%nat), beyond p m)).
  { clear. induction m as [|x m IH]; intros s n; cbn [scan existsb upto beyond length]. { rewrite app_nil_r, Nat.add_0_r. reflexivity. }
    unfold f at 1. cbn [fst snd]. destruct (p x); cbn [orb length]. { do 3 f_equal. f_equal. lia. f_equal. lia. }
    rewrite IH. rewrite <- app_assoc. cbn [app]. do 3 f_equal.
    - destruct (existsb p m) eqn:Ex; auto. f_equal. destruct m; [discriminate|]. cbn [upto]. destruct (p v); cbn [length]; lia.
    - f_equal. lia. }
  rewrite Y in X. cbn [lift app Nat.add] in X.
  unfold finish, bind, ret in *. destruct (v_try_each _ _ _ _ _ w) as [[[[y [st' n']] it']| | |] w']; try congruence.
  destruct (v_collect t (v_iter_len it') it' w') as [[?| | |] ?]; congruence.
Qed.

(** ** C54 *)
Lemma fair_back_S adv n k : fair adv n (repeat NextBack (S k)) = true -> fair adv n [NextBack] = true /\ fair adv (n - 1) (repeat NextBack k) = true.
Proof. cbn [repeat fair]. rewrite andb_true_r, andb_true_iff. auto. Qed.
Lemma fair_back_pre k : forall adv n, fair adv n (repeat NextBack (S k)) = true -> fair adv n (repeat NextBack k) = true.
Proof.
  induction k; intros adv n F; [reflexivity|]. apply fair_back_S in F as [F1 F2]. apply IHk in F2. cbn [repeat fair] in *.
  rewrite andb_true_r in F1. now rewrite F1.
Qed.
Lemma advance_back_eq t self l o d w adv n : orep t self l o d w -> forall m a b it, l = a ++ m ++ b -> covers t o a m it ->
  kind_of t = KSized \/ fair adv (length m) (repeat NextBack n) = true -> (adv = false -> a = []) ->
  exists it' q, v_advance_back t n it w = (Ok ((n <=? length m)%nat, it'), w) /\ m = firstn (length m - n) m ++ q /\
    covers t o a (firstn (length m - n) m) it'.
Proof.
  intros R. induction n as [|n IH]; intros m a b it E K G A; cbn [v_advance_back].
  - exists it, []. rewrite Nat.sub_0_r, firstn_all, app_nil_r. ands; auto.
  - assert (G1 : kind_of t = KSized \/ fair adv (length m) [NextBack] = true).
    { destruct G as [G|G]; auto. right. now apply fair_back_S in G. }
    assert (G2 : kind_of t = KSized \/ fair adv (length m - 1) (repeat NextBack n) = true).
    { destruct G as [G|G]; auto. right. now apply fair_back_S in G. }
    destruct m as [|x m _] using rev_ind.
    + exists it, []. erewrite bind_eq by (eapply v_next_back_nil; eauto). ands; auto.
    + assert (E' : l = (a ++ m) ++ x :: b) by (rewrite E, <- !app_assoc; reflexivity).
      assert (Gd : m <> [] \/ starts_at_0 t o a).
      { destruct G1 as [G1|G1]; [now right; left|]. destruct m as [|y m]; [right|left; discriminate].
        right. destruct adv; [discriminate G1|]. now rewrite A. }
      destruct (v_next_back_snoc _ _ _ _ _ _ a m x b it R K E' Gd) as (it1 & V & K1).
      rewrite app_length in *. cbn [length] in *. replace (length m + 1 - 1)%nat with (length m) in G2 by lia.
      destruct (IH m a (x :: b) it1) as (it2 & q & V2 & Em & K2); auto. { rewrite E', <- app_assoc. reflexivity. }
      exists it2, (q ++ [x]). erewrite bind_eq by exact V. cbv beta iota. rewrite V2.
      replace (length m + 1 - S n)%nat with (length m - n)%nat by lia. rewrite firstn_app.
      replace (length m - n - length m)%nat with O by lia. rewrite firstn_O, app_nil_r. ands; auto.
      * do 3 f_equal. destruct (Nat.leb_spec n (length m)), (Nat.leb_spec (S n) (length m + 1)); auto; lia.
      * rewrite app_assoc, <- Em. reflexivity.
Qed.

Lemma nth_back_eq t self l o d w adv n m a b it : orep t self l o d w -> l = a ++ m ++ b -> covers t o a m it ->
  kind_of t = KSized \/ fair adv (length m) (repeat NextBack (S n)) = true -> (adv = false -> a = []) ->
  exists r it', v_nth_back t n it w = (Ok (r, it'), w) /\ read_opt t r w = (Ok (nth_error (rev m) n), w) /\
    covers t o a (firstn (length m - S n) m) it'.
Proof.
  intros R E K G A. destruct (Nat.le_gt_cases (S n) (length m)) as [L|L].
  - (* the item at n from the back *)
    destruct (nth_error (rev m) n) as [x|] eqn:N. 2:{ apply nth_error_None in N. rewrite rev_length in N. lia. }
    destruct (nth_error_split _ _ N) as (p & q & Em & Lp). apply (f_equal (@rev value)) in Em. rewrite rev_involutive, rev_app_distr in Em.
    cbn [rev] in Em. rewrite <- app_assoc in Em. cbn [app] in Em. set (m0 := rev q) in *. set (tl0 := rev p) in *.
    assert (L0 : length tl0 = n) by (unfold tl0; now rewrite rev_length).
    assert (Lm : length m = (length m0 + S n)%nat) by (rewrite Em, app_length; cbn [length]; lia).
    assert (E' : l = (a ++ m0) ++ x :: tl0 ++ b) by (rewrite E, Em, <- !app_assoc; reflexivity).
    assert (Fm : firstn (length m - S n) m = m0).
    { rewrite Lm. replace (length m0 + S n - S n)%nat with (length m0) by lia. rewrite Em.
      rewrite firstn_app, firstn_all, Nat.sub_diag, firstn_O. apply app_nil_r. }
    rewrite Fm.
    assert (Fm' : firstn (length m - n) m = m0 ++ [x]).
    { rewrite Lm. replace (length m0 + S n - n)%nat with (S (length m0)) by lia. rewrite Em.
      rewrite (firstn_S_nth _ _ _ (nth_mid _ _ _)), firstn_mid. reflexivity. }
    assert (Gd : m0 <> [] \/ starts_at_0 t o a).
    { destruct G as [G|G]; [now right; left|]. destruct m0 as [|y m0']; [right|left; discriminate].
      right. destruct adv; [|now rewrite A]. exfalso. clear -G Lm. cbn [length] in Lm. rewrite Lm in G. clear Lm.
      assert (X : forall k, fair true (S k) (repeat NextBack (S k)) = false).
      { induction k; [reflexivity|]. change (repeat NextBack (S (S k))) with (NextBack :: repeat NextBack (S k)). cbn [fair].
        replace (S (S k) - 1)%nat with (S k) by lia. rewrite IHk. apply andb_false_r. }
      cbn [Nat.add] in G. rewrite X in G. discriminate. }
    assert (Fin : forall it1, covers t o a (m0 ++ [x]) it1 -> exists r it', v_next_back t it1 w = (Ok (r, it'), w) /\
              read_opt t r w = (Ok (Some x), w) /\ covers t o a m0 it').
    { intros it1 K1. destruct (v_next_back_snoc _ _ _ _ _ _ a m0 x (tl0 ++ b) it1 R K1 E' Gd) as (it2 & V & K2).
      do 2 eexists. ands; eauto. cbn [read_opt]. erewrite bind_eq by (eapply behind_read, iref_behind; eauto). reflexivity. }
    unfold v_nth_back. destruct it as [si|ai|ui].
    + destruct o as [v|v|v|]; cbn [covers] in K; try tauto. subst si. cbn [si_hi si_lo si_ptr].
      assert (Zl : zlen m = zlen m0 + (Z.of_nat n + 1)) by (unfold zlen; lia).
      pose proof (zlen_nonneg m0). destruct (Z.ltb_spec (Z.of_nat n) (zlen a + zlen m - zlen a)); [|lia].
      apply Fin. cbn [covers]. rewrite zlen_snoc. f_equal. lia.
    + destruct (advance_back_eq t self l o d w adv n R m a b _ E K) as (it1 & q1 & V & _ & K1); auto.
      { destruct G as [G|G]; [now left|right]. now apply fair_back_pre. }
      erewrite bind_eq by exact V. cbv beta iota. rewrite (proj2 (Nat.leb_le _ _)) by lia. apply Fin. now rewrite Fm' in K1.
    + destruct (advance_back_eq t self l o d w adv n R m a b _ E K) as (it1 & q1 & V & _ & K1); auto.
      { destruct G as [G|G]; [now left|right]. now apply fair_back_pre. }
      erewrite bind_eq by exact V. cbv beta iota. rewrite (proj2 (Nat.leb_le _ _)) by lia. apply Fin. now rewrite Fm' in K1.
  - (* past the end *)
    rewrite (proj2 (nth_error_None _ _)) by (rewrite rev_length; lia).
    replace (length m - S n)%nat with O by lia. rewrite firstn_O.
    pose proof (fair_back_pre n adv (length m)) as Fp.
    unfold v_nth_back. destruct it as [si|ai|ui].
    + destruct o as [v|v|v|]; cbn [covers] in K; try tauto. subst si. cbn [si_hi si_lo si_ptr].
      destruct (Z.ltb_spec (Z.of_nat n) (zlen a + zlen m - zlen a)); [unfold zlen in *; lia|].
      do 2 eexists. split; [reflexivity|]. split; [reflexivity|]. cbn [covers]. unfold zlen at 2. cbn [length Z.of_nat]. now rewrite Z.add_0_r.
    + destruct (advance_back_eq t self l o d w adv n R m a b _ E K) as (it1 & q1 & V & _ & K1); auto. { tauto. }
      erewrite bind_eq by exact V. cbv beta iota. replace (length m - n)%nat with O in K1 by lia. rewrite firstn_O in K1.
      exists None, it1. destruct (n <=? length m)%nat; ands; auto. eapply v_next_back_nil; eauto.
    + destruct (advance_back_eq t self l o d w adv n R m a b _ E K) as (it1 & q1 & V & _ & K1); auto. { tauto. }
      erewrite bind_eq by exact V. cbv beta iota. replace (length m - n)%nat with O in K1 by lia. rewrite firstn_O in K1.
      exists None, it1. destruct (n <=? length m)%nat; ands; auto. eapply v_next_back_nil; eauto.
Qed.

(** [nth_back(n)] after the calls [cs]: the [n]-th of the remaining elements from the back, leaving those before it; for
    vectors of Sized elements always, otherwise when the [n] + 1 calls of [next_back] would be fair. *)
Theorem C54_nth_back_partial t self l w cs n : repr t self l w ->
  kind_of t = KSized \/ fair false (length l) (cs ++ repeat NextBack (S n)) = true ->
  let m := snd (dq_run cs l) in
  after t self cs (fun it => '(r, it) <- v_nth_back t n it ;; x <- read_opt t r ;; rest <- v_collect t (v_iter_len it) it ;; ret (x, rest)) w
  = (Ok (nth_error (rev m) n, firstn (length m - S n) m), w).
Proof.
  intros R G m. apply repr_orep in R as (o & d & R). destruct (v_iter_eq _ _ _ _ _ _ R) as (it & I & K & _).
  assert (Fp : forall cs cs' adv n, fair adv n (cs ++ cs') = true -> fair adv n cs = true).
  { clear. induction cs as [|c cs IH]; intros cs' adv n; auto. cbn [app].
    destruct c; cbn [fair]; rewrite ?andb_true_iff; intros F; try apply IH in F; auto; destruct F as [F1 F2]; split; auto; eapply IH; eauto. }
  destruct (v_calls_eq _ _ _ _ _ _ cs R [] l [] it false) as (it' & a' & m' & b' & V & E & K' & S & adv' & A' & F'); auto.
  { cbn. now rewrite app_nil_r. }
  { destruct G as [G|G]; [now left|]. right. eapply Fp; eauto. }
  assert (Sl : m = m').
  { subst m. rewrite <- (seq_nth_map l dummy). rewrite dq_run_map. cbn [snd length] in *. rewrite S, E. apply seq_nth_mid. }
  clearbody m. subst m'.
  destruct (nth_back_eq t self l o d w adv' n m a' b' it' R E K') as (r & it2 & Vn & Rd & K2); auto.
  { destruct G as [G|G]; auto. }
  unfold after. erewrite bind_eq by exact I. erewrite bind_eq by exact V. cbv beta iota. erewrite bind_eq by exact Vn. cbv beta iota.
  erewrite bind_eq by exact Rd. rewrite (covers_len _ _ _ _ _ _ _ _ _ R K2).
  erewrite bind_eq. 2:{ eapply (collect_eq t self l o d w R) with (b := skipn (length m - Datatypes.S n) m ++ b'); eauto.
    rewrite (app_assoc (firstn _ _)), firstn_skipn. exact E. }
  reflexivity.
Qed.

(** ** C11: calls in any order *)
(** The elements' bytes one after the other. *)
Definition run_on (l : list value) : list byte := flat_map v_bytes l.
Lemma contents_run t d : forall xs k, Forall (good t) xs -> 0 <= k -> contents t 1 k xs d -> k + plen t 1 xs <= zlen d ->
  sub k (plen t 1 xs) d = run_on xs.
Proof.
  induction xs as [|x xs IH]; intros k G Hk Ct L; cbn [plen run_on flat_map]. { apply sub_zero. }
  cbn [contents plen] in *. destruct Ct as [C1 C2]. inversion G; subst. unfold psz in *. rewrite pad_1 in *.
  pose proof (good_size t x ltac:(auto)) as S. pose proof (plen_nonneg t 1 ltac:(lia) xs ltac:(auto)) as P.
  fold (run_on xs). rewrite <- C1, <- (IH (k + vsize t x)) by (auto; lia).
  unfold sub. replace (Z.to_nat (vsize t x + plen t 1 xs)) with (Z.to_nat (vsize t x) + Z.to_nat (plen t 1 xs))%nat by lia.
  replace (Z.to_nat (k + vsize t x)) with (Z.to_nat k + Z.to_nat (vsize t x))%nat by lia.
  rewrite <- skip_skip. set (e := skipn (Z.to_nat k) d). generalize (Z.to_nat (plen t 1 xs)). intros m.
  assert (Le : (Z.to_nat (vsize t x) <= length e)%nat). { unfold e. rewrite skipn_length. unfold zlen in *. lia. }
  rewrite <- (firstn_skipn (Z.to_nat (vsize t x)) e) at 1. rewrite firstn_app, firstn_length_le by auto.
  rewrite firstn_firstn. rewrite Nat.min_r by lia. f_equal. f_equal. lia.
Qed.

(** What the item for element [i] is when the start of the buffer is taken for the start of the element: a slice of
    everything up to the end of the element; for other types something of the element's own size. *)
Definition misread (t : ty) (l : list value) (i : nat) (y : value) : Prop :=
  zlen (v_bytes y) = vsize t y /\
  match t with
  | TSlice _ _ => v_bytes y = run_on (firstn (S i) l)
  | TStr | TCStr => exists x, nth_error l i = Some x /\ v_meta y = v_meta x /\ v_bytes y = sub 0 (vsize t x) (run_on l)
  | _ => exists x x0, nth_error l i = Some x /\ v_meta y = v_meta x /\ nth_error l 0 = Some x0 /\
           firstn (length (v_bytes x0)) (v_bytes y) = firstn (length (v_bytes y)) (v_bytes x0)
  end.
(** One result: the number of items left is always that of the sequence; the item is element [i] if the call is fair. *)
Definition shown (t : ty) (l : list value) (r : option value * nat) (e : (option nat * nat) * bool) : Prop :=
  snd r = snd (fst e) /\
  match fst (fst e) with
  | None => fst r = None
  | Some i => exists y, fst r = Some y /\ if sizedb t || snd e then nth_error l i = Some y else misread t l i y
  end.

Lemma slice_len es ea a x : wf_ty (TSlice es ea) -> Forall (good (TSlice es ea)) (a ++ [x]) ->
  size_of_val (TSlice es ea) (smeta (TSlice es ea) (plen (TSlice es ea) 1 (a ++ [x])) x) = plen (TSlice es ea) 1 (a ++ [x]).
Proof.
  intros W G. unfold smeta. cbn [from_metadata as_metadata from_size].
  assert (D : forall l, Forall (good (TSlice es ea)) l -> exists k, plen (TSlice es ea) 1 l = k * es).
  { clear. induction 1 as [|y l G _ (k & IH)]; cbn [plen]. now exists 0. destruct G as [[(_ & _ & M) _] _].
    unfold psz, vsize. rewrite pad_1. destruct (v_meta y); try tauto. cbn [size_of_val]. exists (n + k). rewrite IH. lia. }
  destruct (D _ G) as (k & ->). destruct (Z.eqb_spec es 0). { subst. cbn. lia. }
  rewrite Z.div_mul by auto. reflexivity.
Qed.
Lemma firstn_sub d p q : firstn (length (sub 0 p d)) (sub 0 q d) = firstn (length (sub 0 q d)) (sub 0 p d).
Proof.
  unfold sub. cbn [Z.to_nat skipn]. generalize (Z.to_nat p), (Z.to_nat q). intros m n. rewrite !firstn_firstn, !firstn_length.
  f_equal. lia.
Qed.
Lemma misread_eq t self l o d w a x b : kind_of t <> KSized -> orep t self l o d w -> l = a ++ x :: b ->
  misread t l (length a) (Value (wm (sref t o a x)) (sub 0 (size_of_val t (wm (sref t o a x))) d)).
Proof.
  intros K R E. destruct (sref_ok t self l o d w R _ _ _ K E) as [_ S].
  pose proof (orep_good _ _ _ _ _ _ R) as G. pose proof (orep_data _ _ _ _ _ _ R) as Ct. pose proof (orep_wf _ _ _ _ _ _ R) as W.
  pose proof (buf_len _ _ _ _ _ (orep_buf _ _ _ _ _ _ R)) as L. pose proof (orep_fit _ _ _ _ _ _ R) as Ft. unfold o_blen in Ft.
  split. { cbn [v_bytes]. unfold vsize. cbn [v_meta]. apply sub_len; lia. }
  assert (N : nth_error l (length a) = Some x) by (rewrite E; apply nth_mid).
  cbn [v_bytes v_meta]. destruct t; cbn [kind_of] in *; try congruence.
  - assert (P1 : o_pal o = 1). { destruct o; ocbn in *; try tauto. pose proof (ur_kind _ _ _ _ _ _ R). discriminate. }
    rewrite P1 in *. cbn [sref wm]. rewrite P1.
    assert (Ea : firstn (Datatypes.S (length a)) l = a ++ [x]). { rewrite (firstn_S_nth _ _ _ N), E. now rewrite firstn_mid. }
    assert (Ex : plen (TSlice esize ealign) 1 a + vsize (TSlice esize ealign) x = plen (TSlice esize ealign) 1 (a ++ [x])).
    { rewrite plen_app. cbn [plen]. unfold psz. rewrite pad_1. lia. }
    rewrite Ea, Ex.
    assert (E' : l = (a ++ [x]) ++ b) by (rewrite E, <- app_assoc; reflexivity).
    rewrite E' in G, Ct, Ft. apply Forall_app in G as [G1 G2]. apply contents_app in Ct as [C1 _].
    rewrite slice_len by auto. apply contents_run; auto; [lia|]. rewrite plen_app in Ft.
    pose proof (plen_nonneg (TSlice esize ealign) 1 ltac:(lia) b G2). lia.
  - assert (P1 : o_pal o = 1). { destruct o; ocbn in *; try tauto. pose proof (ur_kind _ _ _ _ _ _ R). discriminate. }
    rewrite P1 in *. exists x. ands; auto. cbn [sref wm]. unfold smeta. cbn [from_metadata as_metadata].
    pose proof (plen_nonneg TStr 1 ltac:(lia) l G) as Pn. rewrite <- (contents_run TStr d l 0 G ltac:(lia) Ct ltac:(lia)).
    destruct (split_fit TStr self l o d w R _ _ _ E) as (A & Sx & F & _). rewrite P1 in *.
    pose proof (split_good TStr self l o d w R _ _ _ E) as (_ & _ & Gb). pose proof (plen_nonneg TStr 1 ltac:(lia) b Gb).
    rewrite E at 1. rewrite plen_app. cbn [plen]. rewrite sub_sub; try lia. reflexivity. rewrite E, plen_app in Ft. cbn [plen] in Ft. lia.
  - assert (P1 : o_pal o = 1). { destruct o; ocbn in *; try tauto. pose proof (ur_kind _ _ _ _ _ _ R). discriminate. }
    rewrite P1 in *. exists x. ands; auto. cbn [sref wm]. unfold smeta. cbn [from_metadata as_metadata].
    pose proof (plen_nonneg TCStr 1 ltac:(lia) l G) as Pn. rewrite <- (contents_run TCStr d l 0 G ltac:(lia) Ct ltac:(lia)).
    destruct (split_fit TCStr self l o d w R _ _ _ E) as (A & Sx & F & _). rewrite P1 in *.
    pose proof (split_good TCStr self l o d w R _ _ _ E) as (_ & _ & Gb). pose proof (plen_nonneg TCStr 1 ltac:(lia) b Gb).
    rewrite E at 1. rewrite plen_app. cbn [plen]. rewrite sub_sub; try lia. reflexivity. rewrite E, plen_app in Ft. cbn [plen] in Ft. lia.
  - destruct l as [|x0 r]; [now destruct a|]. exists x, x0. ands; auto. cbn [contents] in Ct. destruct Ct as [<- _]. apply firstn_sub.
  - destruct l as [|x0 r]; [now destruct a|]. exists x, x0. ands; auto. cbn [contents] in Ct. destruct Ct as [<- _]. apply firstn_sub.
Qed.

(** Every sequence of calls is memory-safe in the model: no item reaches outside the buffer or is misaligned, the iterator
    never loses count, and after a wrong item the next ones are right again. *)
Theorem C11_any_order t self l w cs : repr t self l w ->
  exists rs, v_visit t self cs w = (Ok rs, w) /\
    Forall2 (shown t l) rs (combine (fst (dq_run cs (seq 0 (length l)))) (verdicts false (length l) cs)).
Proof.
  intros R. apply repr_orep in R as (o & d & R). destruct (v_iter_eq _ _ _ _ _ _ R) as (it & I & K & _).
  destruct (v_calls_any _ _ _ _ _ _ cs R [] l [] it false) as (it' & a' & m' & b' & V & _); auto.
  { cbn. now rewrite app_nil_r. }
  unfold v_visit. cbn [length] in V.
  pose proof (dq_run_nodup cs (seq 0 (length l)) (seq_NoDup _ _)) as [_ Inc].
  assert (X : forall xs oks, incl (somes xs) (seq 0 (length l)) -> exists rs, mapM (read_item t) (as_picks t o l xs oks) w = (Ok rs, w) /\
              Forall2 (shown t l) rs (combine xs oks)).
  { clear V Inc. induction xs as [|[x n] xs IH]; intros oks Inc. { exists []. split; [reflexivity|constructor]. }
    destruct oks as [|ok oks]. { exists []. split; [reflexivity|constructor]. }
    assert (Inc' : incl (somes xs) (seq 0 (length l))). { intros i Hi. apply Inc. unfold somes. cbn [flat_map]. apply in_or_app. auto. }
    destruct (IH oks Inc') as (rs & M & F). cbn [as_picks combine map mapM fst snd].
    assert (Y : exists r, read_item t (option_map (pick t o l (sizedb t || ok)) x, n) w = (Ok r, w) /\ shown t l r ((x, n), ok)).
    { unfold read_item, shown. cbn [fst snd]. destruct x as [i|]. 2:{ exists (None, n). now split. }
      assert (L : (i < length l)%nat). { specialize (Inc i ltac:(cbn; auto)). apply in_seq in Inc. lia. }
      cbn [option_map read_opt]. pose proof (nth_error_nth' l dummy L) as N. unfold pick. destruct (sizedb t || ok) eqn:Z.
      - exists (Some (nth i l dummy), n). split. { erewrite bind_eq. 2:{ erewrite bind_eq by (eapply map_eref; eauto). reflexivity. } reflexivity. }
        cbn [fst snd]. split; auto. eexists. split; eauto.
      - apply orb_false_iff in Z as [Zk _]. assert (Kn : kind_of t <> KSized) by (intros Q; unfold sizedb in Zk; now rewrite Q in Zk).
        destruct (nth_error_split _ _ N) as (p & q & E & Lp). assert (Fp : firstn i l = p). { rewrite E, <- Lp. apply firstn_mid. }
        rewrite Fp. eexists. split. { erewrite bind_eq. 2:{ erewrite bind_eq by (eapply read_sref; eauto). reflexivity. } reflexivity. }
        cbn [fst snd]. split; auto. eexists. split; [reflexivity|]. pose proof (misread_eq t self l o d w p (nth i l dummy) q Kn R E) as Mi. rewrite Lp in Mi. exact Mi. }
    destruct Y as (r & Y & Sh). exists (r :: rs). split; [|now constructor].
    erewrite bind_eq by exact Y. erewrite bind_eq by exact M. reflexivity. }
  destruct (X _ (verdicts false (length l) cs) Inc) as (rs & M & F). exists rs. split; auto.
  erewrite bind_eq by exact I. erewrite bind_eq by exact V. cbv beta iota. exact M.
Qed.

(** ** C61: [Debug] *)
(** What is to be written: the text of the brackets and commas, and the elements between. *)
Inductive piece := Text (bs : list Z) | Item (x : value).
Fixpoint items (l : list value) : list piece :=
  match l with
  | [] => []
  | [x] => [Item x]
  | x :: r => Item x :: Text [44; 32] :: items r
  end.
Definition written (l : list value) : list piece := [Text [91]] ++ items l ++ [Text [93]].
(** Writing piece by piece, until something is refused. *)
Fixpoint write_all {F E} (put : F -> list Z -> F + E) (elem : F -> value -> F + E) (ps : list piece) (f : F) : F + E :=
  match ps with
  | [] => inl f
  | p :: r => match (match p with Text bs => put f bs | Item x => elem f x end) with inl f => write_all put elem r f | inr e => inr e end
  end.
Lemma write_app {F E} (put : F -> list Z -> F + E) elem a b : forall f,
  write_all put elem (a ++ b) f = match write_all put elem a f with inl f => write_all put elem b f | inr e => inr e end.
Proof. induction a as [|p a IH]; intros f; cbn [app write_all]; [reflexivity|]. now destruct (match p with Text bs => put f bs | Item x => elem f x end). Qed.
Lemma items_cons x l : items (x :: l) = Item x :: match l with [] => [] | _ => Text [44; 32] :: items l end.
Proof. now destruct l. Qed.
Lemma debug_loop_eq {F E} t (put : F -> list Z -> F + E) elem self l o d w : orep t self l o d w ->
  forall m a it hf r, l = a ++ m -> covers t o a m it ->
  v_debug_loop t put elem (length m) it hf r w =
    (Ok (match r with inr e => inr e | inl f => write_all put elem (match m with [] => [] | _ => (if hf then [Text [44; 32]] else []) ++ items m end) f end), w).
Proof.
  intros R. induction m as [|x m IH]; intros a it hf r El Cv; cbn [length v_debug_loop]; [now destruct r|].
  destruct (v_next_cons t self l o d w a x m [] it R Cv) as (it1 & N & Cv1). { now rewrite app_nil_r. }
  erewrite bind_eq by exact N. cbv beta iota. erewrite bind_eq by (eapply behind_read; eapply iref_behind; eauto). cbv beta zeta.
  rewrite (IH (a ++ [x]) it1 true _) by (auto; now rewrite <- app_assoc). f_equal. f_equal.
  destruct r as [f|e]; [|reflexivity]. rewrite items_cons.
  destruct hf; cbn [app write_all].
  - destruct (put f [44; 32]) as [f1|e]; [|reflexivity]. destruct (elem f1 x) as [f2|e]; [|reflexivity]. destruct m; reflexivity.
  - destruct (elem f x) as [f2|e]; [|reflexivity]. destruct m; reflexivity.
Qed.
(** Any formatter: the brackets, the elements in order with commas between, until the formatter refuses; nothing changes. *)
Theorem C61_debug {F E} t (put : F -> list Z -> F + E) elem self l f w : repr t self l w ->
  v_debug t put elem self f w = (Ok (write_all put elem (written l) f), w).
Proof.
  intros R. apply repr_orep in R as (o & d & R). unfold v_debug. destruct (v_iter_eq _ _ _ _ _ _ R) as (it & I & Cv & L).
  erewrite bind_eq by exact I. rewrite L. erewrite bind_eq by (now eapply (debug_loop_eq t put elem self l o d w R l [])).
  unfold ret, written. cbn [app write_all]. f_equal. f_equal. destruct (put f [91]) as [f1|e]; [|reflexivity].
  replace (match l with [] => [] | _ :: _ => items l end) with (items l) by (now destruct l).
  rewrite write_app. destruct (write_all put elem (items l) f1) as [f2|e]; [|reflexivity]. cbn [write_all]. now destruct (put f2 [93]).
Qed.
(** Every element is printed once, in order. *)
Theorem C61_elements l : flat_map (fun p => match p with Item x => [x] | Text _ => [] end) (written l) = l.
Proof.
  unfold written. rewrite !flat_map_app. cbn [flat_map app]. rewrite app_nil_r. induction l as [|x l IH]; [reflexivity|]. rewrite items_cons.
  cbn [flat_map app]. f_equal. destruct l; [reflexivity|]. exact IH.
Qed.

(** The alternate format. Four spaces before the first character of every line: *)
Fixpoint indent (starts : bool) (s : list Z) : list Z :=
  match s with [] => [] | c :: r => (if starts then [32; 32; 32; 32] else []) ++ c :: indent (c =? 10) r end.
(** A bracket, then every element on lines of its own, indented, with a comma; then the closing bracket. *)
Definition pretty (text : value -> list Z) (l : list value) : list Z :=
  [91] ++ (if l then [] else [10]) ++ flat_map (fun x => indent true (text x ++ [44; 10])) l ++ [93].
(** A formatter that does not care how the text is cut into pieces. *)
Definition streaming {F E} (put : F -> list Z -> F + E) : Prop :=
  (forall f, put f [] = inl f) /\ forall f a b, put f (a ++ b) = match put f a with inl f => put f b | inr e => inr e end.
Fixpoint ends_line (nl : bool) (s : list Z) : bool := match s with [] => nl | c :: r => ends_line (c =? 10) r end.
Lemma indent_app s r : forall nl, indent nl (s ++ r) = indent nl s ++ indent (ends_line nl s) r.
Proof. induction s as [|c s IH]; intros nl; cbn [app indent ends_line]; [reflexivity|]. rewrite IH, <- app_assoc. reflexivity. Qed.
Lemma ends_line_app s r : forall nl, ends_line nl (s ++ r) = ends_line (ends_line nl s) r.
Proof. induction s as [|c s IH]; intros nl; cbn [app ends_line]; auto. Qed.
(** Writing the pieces of a text is writing the indented text. *)
Lemma pad_lines_eq {F E} (put : F -> list Z -> F + E) : streaming put -> forall s nl f,
  pad_write put s nl f = match put f (indent nl s) with inl f => inl (f, ends_line nl s) | inr e => inr e end.
Proof.
  intros St. pose proof St as [Z A]. unfold pad_write. induction s as [|c s IH]; intros nl f; cbn [split_lines indent ends_line pad_lines].
  { now rewrite Z. }
  destruct (c =? 10) eqn:Cn.
  - cbn [pad_lines last]. rewrite Cn. destruct nl; cbn [app].
    + change (32 :: 32 :: 32 :: 32 :: c :: indent true s) with ([32; 32; 32; 32] ++ [c] ++ indent true s). rewrite A.
      destruct (put f [32; 32; 32; 32]) as [f1|e]; [|reflexivity]. rewrite A. destruct (put f1 [c]) as [f2|e]; [|reflexivity]. now rewrite IH.
    + change (c :: indent true s) with ([c] ++ indent true s). rewrite A. destruct (put f [c]) as [f2|e]; [|reflexivity]. now rewrite IH.
  - assert (H : forall g, match split_lines s with [] => match put g [c] with inl f => inl (f, false) | inr e => inr e end
        | p :: ps => match put g (c :: p) with inl f => pad_lines put ps (last p 0 =? 10) f | inr e => inr e end end =
        match put g (c :: indent false s) with inl f => inl (f, ends_line false s) | inr e => inr e end).
    { intros g. change (c :: indent false s) with ([c] ++ indent false s). rewrite A. destruct (split_lines s) as [|p ps] eqn:Sp.
      - assert (s = []) as ->. { destruct s as [|b s]; auto. cbn [split_lines] in Sp. destruct (b =? 10); [discriminate|]. destruct (split_lines s); discriminate. }
        cbn [indent ends_line]. destruct (put g [c]); [|reflexivity]. now rewrite Z.
      - change (c :: p) with ([c] ++ p). rewrite A. destruct (put g [c]) as [g1|e]; [|reflexivity]. rewrite <- (IH false g1). reflexivity. }
    destruct (split_lines s) as [|p ps] eqn:Sp; cbn [pad_lines last]; rewrite ?Cn.
    + destruct nl; cbn [app]; [|apply H].
      change (32 :: 32 :: 32 :: 32 :: c :: indent false s) with ([32; 32; 32; 32] ++ (c :: indent false s)). rewrite A.
      destruct (put f [32; 32; 32; 32]) as [f1|e]; [|reflexivity]. apply H.
    + assert (p <> []) as Np. { intros ->. clear H IH. destruct s as [|b s]; [discriminate|]. cbn [split_lines] in Sp. destruct (b =? 10); [discriminate|]. destruct (split_lines s); discriminate. }
      replace (match p with [] => c | _ :: _ => last p 0 end) with (last p 0) by (now destruct p).
      destruct nl; cbn [app]; [|apply H].
      change (32 :: 32 :: 32 :: 32 :: c :: indent false s) with ([32; 32; 32; 32] ++ (c :: indent false s)). rewrite A.
      destruct (put f [32; 32; 32; 32]) as [f1|e]; [|reflexivity]. apply H.
Qed.
Lemma pad_texts_eq {F E} (put : F -> list Z -> F + E) : streaming put -> forall ss nl f,
  pad_texts put ss nl f = match put f (indent nl (concat ss)) with inl f => inl (f, ends_line nl (concat ss)) | inr e => inr e end.
Proof.
  intros St. pose proof St as [Z A]. induction ss as [|s ss IH]; intros nl f; cbn [pad_texts concat]; [cbn [indent ends_line]; now rewrite Z|].
  rewrite (pad_lines_eq put St), indent_app, ends_line_app, A. destruct (put f (indent nl s)) as [f1|e]; [|reflexivity]. apply IH.
Qed.
Lemma pretty_loop_eq {F E} t (put : F -> list Z -> F + E) text self l o d w : orep t self l o d w -> streaming put ->
  forall m a it hf r, l = a ++ m -> covers t o a m it ->
  v_pretty_loop t put text (length m) it hf r w =
    (Ok (match r with inr e => inr e | inl f =>
       put f ((if hf then [] else if m then [] else [10]) ++ flat_map (fun x => indent true (concat (text x) ++ [44; 10])) m) end), w).
Proof.
  intros R St. pose proof St as [Z A]. induction m as [|x m IH]; intros a it hf r El Cv; cbn [length v_pretty_loop flat_map].
  { destruct r; [|reflexivity]. unfold ret. destruct hf; cbn [app]; now rewrite Z. }
  destruct (v_next_cons t self l o d w a x m [] it R Cv) as (it1 & N & Cv1). { now rewrite app_nil_r. }
  erewrite bind_eq by exact N. cbv beta iota. erewrite bind_eq by (eapply behind_read; eapply iref_behind; eauto). cbv beta zeta.
  rewrite (IH (a ++ [x]) it1 true _) by (auto; now rewrite <- app_assoc). f_equal. f_equal.
  destruct r as [f|e]; [|reflexivity]. cbn [pretty_entry].
  assert (G : forall g, match (match pad_texts put (text x ++ [[44; 10]]) true g with inr e => inr e | inl (f0, _) => inl f0 end) with
      | inl f0 => put f0 ([] ++ flat_map (fun x => indent true (concat (text x) ++ [44; 10])) m) | inr e => inr e end =
      put g (indent true (concat (text x) ++ [44; 10]) ++ flat_map (fun x => indent true (concat (text x) ++ [44; 10])) m)).
  { intros g. rewrite (pad_texts_eq put St), concat_app. cbn [concat app]. rewrite A.
    destruct (put g (indent true (concat (text x) ++ [44; 10]))); reflexivity. }
  destruct hf; [exact (G f)|]. change (([10]) ++ ?z) with ([10] ++ z). rewrite A. destruct (put f [10]) as [g|e]; [exact (G g)|reflexivity].
Qed.
(** Any formatter and any way of printing the elements: the indented listing, until the formatter refuses. *)
Theorem C61_alternate {F E} t (put : F -> list Z -> F + E) text self l f w : streaming put -> repr t self l w ->
  v_debug_pretty t put text self f w = (Ok (put f (pretty (fun x => concat (text x)) l)), w).
Proof.
  intros St R. apply repr_orep in R as (o & d & R). unfold v_debug_pretty. destruct (v_iter_eq _ _ _ _ _ _ R) as (it & I & Cv & L).
  erewrite bind_eq by exact I. rewrite L. erewrite bind_eq by (now eapply (pretty_loop_eq t put text self l o d w R St l [])).
  pose proof St as [_ A]. unfold ret. f_equal. f_equal. unfold pretty. rewrite (A f [91]). destruct (put f [91]) as [f1|e]; [|reflexivity].
  rewrite app_assoc. symmetry. rewrite A. symmetry. reflexivity.
Qed.
End WithConfig.

(** ** Refutations *)
(** C54: after one [next], [nth_back] on the only remaining element is the first one again (F3). *)
Theorem C54_nth_back_refuted : let C := cfg_release in exists v w,
  v_of_values TDyn [word 1; word 2; word 3] empty_world = (Ok v, w) /\ shows TDyn v [word 1; word 2; word 3] w /\
  snd (dq_run [Next] [word 1; word 2; word 3]) = [word 2; word 3] /\
  after TDyn v [Next] (fun it => '(r, it) <- v_nth_back TDyn 1 it ;; read_opt TDyn r) w = (Ok (Some (Value (v_meta (word 2)) (v_bytes (word 1)))), w).
Proof. do 2 eexists. do 3 (split; [run|]). run. Qed.

(** C11: of the two valid strings "a" and "é" the second comes out of [next_back] as the bytes 61 C3, which are not UTF-8. *)
Fixpoint utf8 (fuel : nat) (bs : list Z) : bool :=
  let cont b := (128 <=? b) && (b <? 192) in
  match fuel, bs with
  | _, [] => true
  | O, _ => false
  | S k, a :: r =>
      if a <? 128 then utf8 k r
      else match r with
           | b :: r2 =>
               if (194 <=? a) && (a <? 224) then cont b && utf8 k r2
               else match r2 with
                    | c :: r3 =>
                        if (224 <=? a) && (a <? 240)
                        then (if a =? 224 then 160 <=? b else true) && (if a =? 237 then b <? 160 else true) && cont b && cont c && utf8 k r3
                        else match r3 with
                             | d :: r4 => (240 <=? a) && (a <? 245) && (if a =? 240 then 144 <=? b else true)
                                          && (if a =? 244 then b <? 144 else true) && cont b && cont c && cont d && utf8 k r4
                             | [] => false
                             end
                    | [] => false
                    end
           | [] => false
           end
  end.
Definition nums (bs : list byte) : list Z := map (fun b => match b with Byte n => n | _ => 255 end) bs.
Theorem C11_not_utf8_refuted : let C := cfg_release in exists v w y z,
  v_of_values TStr [str_val [97]; str_val [195; 169]] empty_world = (Ok v, w) /\
  forallb (fun x => utf8 9 (nums (v_bytes x))) [str_val [97]; str_val [195; 169]] = true /\
  v_visit TStr v [Next; NextBack] w = (Ok [(Some y, 1%nat); (Some z, 0%nat)], w) /\
  nums (v_bytes y) = [97] /\ nums (v_bytes z) = [97; 195] /\ utf8 9 (nums (v_bytes z)) = false.
Proof. do 4 eexists. do 5 (split; [run|]). run. Qed.

(** ** C52 *)
(** The declared alignment is the real one for every type with a compile-time alignment except CStr
    (C52_cstr_box_refuted); for a [dyn] type it is the vector's alignment that counts, see C15. *)
Theorem C52_declared_partial t m : kind_of t <> KUnaligned -> t <> TCStr -> wf_meta t m -> static_align t = align_of_val t m.
Proof. intros K N (_ & _ & M). destruct t, m; cbn in *; try congruence; tauto. Qed.

Print Assumptions C52_declared_partial.
Print Assumptions C53_find_map.
Print Assumptions C53_find.
Print Assumptions C53_find_list.
Print Assumptions C53_find_map_list.
Print Assumptions C53_any.
Print Assumptions C53_all.
Print Assumptions C53_for_each.
Print Assumptions C53_position.
Print Assumptions C54_nth_back_partial.
Print Assumptions C11_any_order.

(** * Cases meeting the hypotheses *)
Section Cases.
Local Existing Instance cfg_release.
Ltac built := eapply (built_repr _ _ empty_world); [exact I|intros K; discriminate K|apply takesb_ok; reflexivity|run].
Example C52_case : wf_meta (TSlice 4 4) (MLen 3) /\ static_align (TSlice 4 4) = 4.
Proof. split; [|reflexivity]. unfold wf_meta, valid_layout. cbn. repeat split; try lia; try (vm_compute; discriminate). exists 2. split; [lia|reflexivity]. Qed.
Definition four : list value := [five 1; half 2; word 3; half 4].
Definition is_half (x : value) : bool := zlen (v_bytes x) =? 4.
Example C53_case : exists v w, repr TDyn v four w /\ snd (dq_run [Next; Nth 0] four) = [word 3; half 4] /\
  after TDyn v [] (fun it => finish TDyn (read_opt TDyn) (v_find TDyn (log is_half) it [])) w =
    (Ok (Some (half 2), [five 1; half 2], [word 3; half 4]), w) /\
  after TDyn v [Next; Nth 0] (fun it => finish TDyn ret (v_position TDyn (log is_half) it [])) w =
    (Ok (Some 1%nat, [word 3; half 4], []), w) /\
  after TDyn v [Next] (fun it => finish TDyn ret (v_all TDyn (log is_half) it [])) w =
    (Ok (false, [half 2; word 3], [half 4]), w) /\
  after TDyn v [NextBack] (fun it => finish TDyn ret (v_any TDyn (log (fun x => zlen (v_bytes x) =? 7)) it [])) w =
    (Ok (false, [five 1; half 2; word 3], []), w).
Proof. do 2 eexists. split; [built|]. do 4 (split; [run|]). run. Qed.
(** A closure that panics at the second element. *)
Example C53_panic_case : exists v w, repr TDyn v four w /\
  after TDyn v [] (fun it => finish TDyn ret (v_find_map (B := unit) TDyn
    (fun n x => if (n =? 1)%nat then None else Some (S n, None)) it O)) w = (Panic (PUser 0), w).
Proof. do 2 eexists. split; [built|]. run. Qed.
Example C54_case : exists v w, repr TDyn v four w /\ fair false 4 ([Next] ++ repeat NextBack 2) = true /\
  after TDyn v [Next] (fun it => '(r, it) <- v_nth_back TDyn 1 it ;; x <- read_opt TDyn r ;;
                                 rest <- v_collect TDyn (v_iter_len it) it ;; ret (x, rest)) w = (Ok (Some (word 3), [half 2]), w).
Proof. do 2 eexists. split; [built|]. split; [run|]. run. Qed.
(** An unfair call in the middle of a sequence, with the right elements after it. *)
Example C11_any_order_case : exists v w y, repr TStr v [str_val [97; 98]; str_val [99]; str_val [100; 101; 102]] w /\
  verdicts false 3 [Next; Nth 0; Next; NextBack] = [true; false; true; true] /\
  v_visit TStr v [Next; Nth 0; Next; NextBack] w =
    (Ok [(Some (str_val [97; 98]), 2%nat); (Some y, 1%nat); (Some (str_val [100; 101; 102]), 0%nat); (None, 0%nat)], w) /\
  v_bytes y = [Byte 97].
Proof. do 3 eexists. split; [built|]. do 2 (split; [run|]). run. Qed.
(** [ab, cd], into a buffer that holds everything, and into one of six characters. *)
Definition push_text (n : nat) (f : list Z) (bs : list Z) : list Z + unit := if (length (f ++ bs) <=? n)%nat then inl (f ++ bs) else inr tt.
Definition push_str (n : nat) (f : list Z) (x : value) : list Z + unit :=
  push_text n f (map (fun b => match b with Byte z => z | _ => 0 end) (v_bytes x)).
Example C61_case : exists v w, repr TStr v [ab; cd] w /\
  v_debug TStr (push_text 100) (push_str 100) v [] w = (Ok (inl [91; 97; 98; 44; 32; 99; 100; 93]), w) /\
  v_debug TStr (push_text 6) (push_str 6) v [] w = (Ok (inr tt), w).
Proof. do 2 eexists. split; [built|]. split; run. Qed.
(** The alternate format; an element is printed in three pieces, with a line break. *)
Definition keep_text (n : nat) (f s : list Z) : list Z + unit := match s with [] => inl f | _ => push_text n f s end.
Lemma keep_streaming n : streaming (keep_text n).
Proof.
  unfold keep_text, push_text. split; [reflexivity|]. intros f [|a0 a] b; [reflexivity|]. cbn [app]. rewrite !app_length. cbn [length].
  rewrite app_length. destruct b as [|b0 b]; cbn [length].
  - rewrite Nat.add_0_r, app_nil_r. now destruct (_ <=? _)%nat.
  - destruct (Nat.leb_spec (length f + S (length a)) n); [|destruct (Nat.leb_spec (length f + S (length a + S (length b))) n); [lia|reflexivity]].
    rewrite !app_length. cbn [length]. rewrite <- app_assoc. cbn [app]. rewrite <- Nat.add_assoc. reflexivity.
Qed.
Definition text_of (x : value) : list Z := map (fun b => match b with Byte z => z | _ => 0 end) (v_bytes x).
Example C61_alternate_case : exists v w, repr TStr v [ab; cd] w /\ streaming (keep_text 100) /\
  v_debug_pretty TStr (keep_text 100) (fun x => [text_of x; [10]; [33]]) v [] w =
    (Ok (inl ([91; 10] ++ [32; 32; 32; 32; 97; 98; 10] ++ [32; 32; 32; 32; 33; 44; 10] ++
              [32; 32; 32; 32; 99; 100; 10] ++ [32; 32; 32; 32; 33; 44; 10] ++ [93])), w) /\
  v_debug_pretty TStr (keep_text 20) (fun x => [text_of x; [10]; [33]]) v [] w = (Ok (inr tt), w).
Proof. do 2 eexists. split; [built|]. split; [apply keep_streaming|]. split; run. Qed.
End Cases.

Print Assumptions C54_nth_back_refuted.
Print Assumptions C11_not_utf8_refuted.
Print Assumptions C61_debug.
Print Assumptions C61_elements.
Print Assumptions C61_alternate.
