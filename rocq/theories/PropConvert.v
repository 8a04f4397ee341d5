(** C56-C60: emplacables turned into std's [Vec], strings, [Rc] and [Arc]; coercing on the stack; [UnsizedVec] from [Vec]. *)
From Coq Require Import ZArith List Bool Lia.
From Verif Require Import Types World ValidSize Emplace SizedVec AlignedVec UnalignedVec Api Convert Spec Bytes Arith Wp Mem Repr
  Access Reserve Realign Orep Push Deal PushWith Shell Insert Take Pop Box Iter Calls DropVec Family Build PushAll Wrote Sources
  Copies Obs Findings PropPush PropEdit PropEmplace PropWhole PropUnsize StdVec.
Import ListNotations.
Open Scope Z_scope.
Open Scope m_scope.

Section WithConfig.
Context {C : Config}.

(** ** C56: [Vec::extend] and [collect] over emplacables *)
(** Any emplacables, any hint, any element size. Either everything is appended in order; or some prefix is, the next value
    is delivered and dropped (or is the one that panicked), and the emplacables after it are dropped. *)
Theorem C56_extend t self hint es Ss l w : kind_of t = KSized -> 0 <= hint -> repr t self l w -> family es Ss w ->
  apart self (fvs Ss) (fbs Ss) w -> Forall (fun S => good t (d_value S)) Ss ->
  run (std_extend t self hint es) w
    (fun _ w' => holds_list t self (l ++ map d_value Ss) w' /\ w_drops w' = w_drops w ++ all_extra Ss /\ all_after Delivered Ss w' /\
       spared self (fvs Ss) (fbs Ss) w w')
    (fun r w' => spared self (fvs Ss) (fbs Ss) w w' /\ exists Ss1 Ss2, Ss = Ss1 ++ Ss2 /\
       holds_list t self (l ++ map d_value Ss1) w' /\ all_after Delivered Ss1 w' /\ all_after Dropped (tl Ss2) w' /\
       (std_reason t self l hint true w r w' /\ Ss1 = [] /\ all_after Dropped Ss2 w' /\ w_drops w' = w_drops w ++ all_nulls Ss \/
        exists S, hd_error Ss2 = Some S /\
          (std_reason t self (l ++ map d_value Ss1) 1 false w r w' /\ d_after S Delivered w' /\
             w_drops w' = w_drops w ++ all_extra (Ss1 ++ [S]) ++ [d_value S] ++ all_nulls (tl Ss2) \/
           d_panic S r \/ r = PDrop /\ one_panicked (d_extra S) w w')))
    (fun w' => alloc_failed w w' \/ drop_panicked w w').
Proof.
  intros K Hh R Fa Ap J. apply repr_orep in R as (o & d & R). destruct o as [v|v|v|]; cbn [orep] in R; try tauto.
  2:{ pose proof (ar_kind _ _ _ _ _ _ R). congruence. } 2:{ pose proof (ur_kind _ _ _ _ _ _ R). congruence. }
  eapply run_conseq; [eapply std_extend_wp; eauto|..]; cbv beta.
  - intros _ w' (R' & T & D & A). ands; auto using repr_holds, spared_touch.
  - intros r w' [(Ss1 & S & Ss2 & -> & R' & T & A1 & A2 & H)|(Rr & R' & T & A1 & D)]; split; auto using spared_touch.
    + exists Ss1, (S :: Ss2). cbn [tl hd_error]. ands; auto using repr_holds. right. exists S. auto.
    + exists [], Ss. cbn [map app]. rewrite app_nil_r. ands; auto using repr_holds.
      * constructor.
      * destruct Ss; [constructor|]. cbn [tl]. now inversion A1.
  - auto.
Qed.
Theorem C56_collect t hint es Ss w : kind_of t = KSized -> wf_ty t -> 0 <= hint -> family es Ss w ->
  (forall j, In j (fvs Ss) -> (j < length (w_vecs w))%nat) -> Forall (fun S => good t (d_value S)) Ss ->
  run (std_from_iter t hint es) w
    (fun v w' => holds_list t v (map d_value Ss) w' /\ newvec v (fvs Ss) (fbs Ss) w w' /\
       w_drops w' = w_drops w ++ all_extra Ss /\ all_after Delivered Ss w')
    (fun r w' => vanished (length (w_vecs w)) w w' /\ newvec (length (w_vecs w)) (fvs Ss) (fbs Ss) w w' /\
       (reserve_reason r /\ all_after Dropped Ss w' /\ w_drops w' = w_drops w ++ all_nulls Ss \/
        exists Ss1 S Ss2, Ss = Ss1 ++ S :: Ss2 /\ all_after Delivered Ss1 w' /\ all_after Dropped Ss2 w' /\
          (reserve_reason r /\ d_after S Delivered w' /\
             w_drops w' = w_drops w ++ all_extra (Ss1 ++ [S]) ++ [d_value S] ++ all_nulls Ss2 ++ map d_value Ss1 \/
           d_panic S r \/ r = PDrop /\ one_panicked (d_extra S) w w')))
    (fun w' => alloc_failed w w' \/ drop_panicked w w').
Proof.
  intros K W Hh Fa Fv J. eapply run_conseq; [eapply std_from_iter_wp; eauto|..]; cbv beta; auto.
  - intros v w' (R & N & D & A). auto using repr_holds.
  - intros r w' (N & V & [H|H]); auto.
Qed.

(** Values moved in. With room for them in the address space and an allocator that does not fail, [extend] returns; and
    when the hint was right the allocator was asked at most once. *)
Lemma get_value_eq t x w : wf_value t x -> v_meta x = MUnit ->
  emplacable_get t (emplacable_of_value t x) w = (Ok x, set_heap (w_heap w ++ [None]) w).
Proof.
  intros G M. destruct x as [m bs]. cbn [v_meta] in M. subst m. pose proof (wf_bytes _ _ G) as B. pose proof (wf_size _ _ G) as Sz.
  pose proof (wf_align _ _ G) as Pa. apply pow2_pos in Pa.
  unfold vsize, valign in *. cbn [v_meta v_bytes] in *. unfold emplacable_get.
  set (s := size_of_val t MUnit) in *. set (a := align_of_val t MUnit) in *. cbn [l_size].
  set (w1 := set_heap (w_heap w ++ [Some (Block (Layout s a) a (uninit s))]) w). set (k := length (w_heap w)).
  erewrite bind_eq by (instantiate (1 := w1); instantiate (1 := Blk k 0); reflexivity).
  assert (G1 : heap_get (w_heap w1) k = Some (Block (Layout s a) a (uninit s))) by apply heap_get_app_new.
  destruct (slot_write _ _ _ _ _ bs G1) as [Hw Hg]. { rewrite zlen_uninit; unfold zlen in *; lia. }
  set (w2 := set_heap (hput (w_heap w1) (Blk k 0) bs) w1) in *.
  erewrite bind_eq.
  2:{ apply on_unwind_eq. unfold emplacable_of_value. cbn [is_null v_bytes v_meta layout_of]. unfold mem_write. rewrite Hw. reflexivity. }
  fold w2. assert (G2 : heap_get (w_heap w2) k = Some (Block (Layout s a) a bs)) by exact Hg.
  erewrite bind_eq. 2:{ unfold mem_read. rewrite <- B. change (Z.of_nat (length bs)) with (zlen bs). rewrite (slot_read _ _ _ _ _ G2). reflexivity. }
  assert (Eh : upd (w_heap w2) k None = w_heap w ++ [None]).
  { change (w_heap w2) with (hput (w_heap w1) (Blk k 0) bs). unfold hput. rewrite G1, upd_upd.
    change (w_heap w1) with (w_heap w ++ [Some (Block (Layout s a) a (uninit s))]). unfold k.
    generalize (w_heap w). induction l as [|y l IH]; cbn [length app upd]; auto. now rewrite IH. }
  erewrite bind_eq by reflexivity. unfold ret. now rewrite Eh.
Qed.

(** At most [n] requests to the allocator. *)
Definition asks {A} (n : nat) (m : M A) : Prop := forall w, (w_nalloc (snd (m w)) <= w_nalloc w + n)%nat.
Lemma asks_bind {A B} n k (m : M A) (f : A -> M B) : asks n m -> (forall a, asks k (f a)) -> asks (n + k) (bind m f).
Proof.
  intros H K w. specialize (H w). unfold bind. destruct (m w) as [[a|r| |u] w1]; cbn [snd] in *; try lia. specialize (K a w1). lia.
Qed.
Lemma asks_quiet {A} (m : M A) n : (forall w, w_nalloc (snd (m w)) = w_nalloc w) -> asks n m.
Proof. intros H w. rewrite H. lia. Qed.
Lemma raw_alloc_asks l d : asks 1 (raw_alloc l d).
Proof. intros w. unfold raw_alloc. destruct (cfg_alloc (w_nalloc w)); cbn; lia. Qed.
Lemma s_reserve_asks t self n exact : asks 1 (s_reserve t self n exact).
Proof.
  unfold s_reserve. apply (asks_bind 0 1). { apply asks_quiet. intros w. unfold get_s. destruct (nth_error _ _) as [[]|]; reflexivity. }
  intros v. destruct (needs_to_grow _ _ _); [|apply asks_quiet; reflexivity].
  destruct (grow_cap _ _ _ _ _ _) as [c|]; [|apply asks_quiet; reflexivity].
  apply (asks_bind 1 0); [|intros [p|]; apply asks_quiet; reflexivity].
  assert (Ga : forall l, asks 1 (galloc l)).
  { intros l. unfold galloc. destruct (l_size _ =? 0); [apply asks_quiet; reflexivity|apply raw_alloc_asks]. }
  destruct (sv_cap v =? 0); [apply Ga|]. unfold ggrow. destruct (_ <? _); [apply asks_quiet; reflexivity|]. destruct (_ =? 0); [apply Ga|].
  intros w. destruct (find_block _ _ _) as [[b k]|]; [|cbn; lia].
  match goal with |- context [raw_alloc ?l ?d w] => pose proof (raw_alloc_asks l d w) as H; destruct (raw_alloc l d w) as [[[q|]|r| |u] w'] end;
    cbn in *; lia.
Qed.

Definition std_room (t : ty) (v : svec) (l : list value) (n : Z) : Prop := zlen l + n <= s_capacity t v.
Lemma std_push_eq t self l v d w x : srep t self l v d w -> good t x -> std_room t v l 1 ->
  exists v' d' w', std_push t self x w = (Ok tt, w') /\ srep t self (l ++ [x]) v' d' w' /\ quiet self w w' /\
    s_capacity t v' = s_capacity t v /\ w_nalloc w' = w_nalloc w.
Proof.
  intros R G L. pose proof (sr_kind _ _ _ _ _ _ R) as K. unfold std_room in L.
  assert (E1 : s_reserve t self 1 false w = (Ok ROk, w)).
  { unfold s_reserve. erewrite bind_eq by (eapply get_s_eq, R). unfold needs_to_grow. rewrite (sr_slen _ _ _ _ _ _ R).
    destruct (Z.ltb_spec (s_capacity t v - zlen l) 1); [lia|reflexivity]. }
  destruct (p_push_unchecked_eq t self l (OS v) d w x R G) as (d2 & w2 & E & R2 & Q2 & Na & _); ocbn; auto.
  - lia.
  - unfold o_blen; ocbn. rewrite plen_sized by (auto; apply R). rewrite (vsize_sized t x K G). unfold s_capacity in L.
    pose proof (s_size_nonneg t K (sr_wf _ _ _ _ _ _ R)). destruct (Z.eqb_spec (s_size t) 0) as [->|]; nia.
  - intros X. congruence.
  - exists (SVec (sv_ptr v) (sv_cap v) (sv_len v + 1)), d2, w2. ands; auto.
    unfold std_push. erewrite bind_eq. 2:{ apply owned_eq. erewrite bind_eq by exact E1. reflexivity. }
    unfold p_push_unchecked in E. rewrite K in E. exact E.
Qed.
Lemma sized_unit t x : kind_of t = KSized -> good t x -> v_meta x = MUnit.
Proof. intros K [[(_ & _ & H) _] _]. destruct t; try discriminate K. destruct (v_meta x); tauto. Qed.
Lemma heap_none h b : heap_get (h ++ [None]) b = heap_get h b.
Proof.
  unfold heap_get. destruct (Nat.lt_ge_cases b (length h)) as [L|L].
  - now rewrite nth_error_app1.
  - rewrite nth_error_app2 by auto. rewrite (proj2 (nth_error_None h b)) by auto.
    destruct (b - length h)%nat as [|n]; [reflexivity|]. destruct n; reflexivity.
Qed.
Lemma heap_none_quiet self w : quiet self w (set_heap (w_heap w ++ [None]) w).
Proof.
  split; [|reflexivity]. constructor; unfold set_heap; proj; auto; try (rewrite app_length; lia).
  - intros b L _. apply heap_none.
  - intros b L Lv. rewrite heap_none in Lv. unfold heap_get in Lv. rewrite (proj2 (nth_error_None (w_heap w) b)) in Lv by auto. congruence.
  - exists []. now rewrite app_nil_r.
Qed.
Lemma std_values_eq t self xs : forall l v d w, srep t self l v d w -> Forall (good t) xs -> std_room t v l (zlen xs) ->
  exists v' d' w', std_push_all t self (map (emplacable_of_value t) xs) w = (Ok tt, w') /\ srep t self (l ++ xs) v' d' w' /\
    quiet self w w' /\ w_nalloc w' = w_nalloc w.
Proof.
  induction xs as [|x xs IH]; intros l v d w R G L.
  - exists v, d, w. rewrite app_nil_r. ands; auto. apply quiet_refl.
  - inversion_clear G as [|? ? Gx Gs]. pose proof (sr_kind _ _ _ _ _ _ R) as K. unfold std_room in *.
    assert (Zc : zlen (x :: xs) = 1 + zlen xs) by (unfold zlen; cbn [length]; lia). pose proof (zlen_nonneg xs).
    set (w0 := set_heap (w_heap w ++ [None]) w). pose proof (heap_none_quiet self w) as Q0. fold w0 in Q0.
    assert (R0 : srep t self l v d w0).
    { apply (orep_agree t self l (OS v) d w w0); auto. intros b _. apply heap_none. }
    destruct (std_push_eq t self l v d w0 x R0 Gx) as (v1 & d1 & w1 & E1 & R1 & Q1 & C1 & N1). { unfold std_room. lia. }
    destruct (IH (l ++ [x]) v1 d1 w1 R1 Gs) as (v2 & d2 & w2 & E2 & R2 & Q2 & N2). { unfold std_room. rewrite C1, zlen_app. change (zlen [x]) with 1. lia. }
    exists v2, d2, w2. rewrite <- app_assoc in R2. ands; auto.
    + cbn [map std_push_all]. erewrite bind_eq; [exact E2|]. apply on_unwind_eq.
      erewrite bind_eq by (apply get_value_eq; [apply Gx|now apply (sized_unit t)]). exact E1.
    + eapply quiet_trans; [exact Q0|]. eapply quiet_trans; eauto.
    + rewrite N2, N1. reflexivity.
Qed.
Theorem C56_total t self hint xs l w : kind_of t = KSized -> repr t self l w -> Forall (good t) xs -> alloc_total -> zlen xs <= hint ->
  (if s_size t =? 0 then zlen l + hint <= usize_max else (zlen l + hint) * s_size t <= isize_max - (s_align t - 1)) ->
  exists w', std_extend t self hint (map (emplacable_of_value t) xs) w = (Ok tt, w') /\ holds_list t self (l ++ xs) w' /\
    w_drops w' = w_drops w /\ others self w w' /\ (w_nalloc w' <= S (w_nalloc w))%nat.
Proof.
  intros K R G At Hh Fit. apply repr_orep in R as (o & d & R). destruct o as [v|v|v|]; cbn [orep] in R; try tauto.
  2:{ pose proof (ar_kind _ _ _ _ _ _ R). congruence. } 2:{ pose proof (ur_kind _ _ _ _ _ _ R). congruence. }
  pose proof (zlen_nonneg xs). pose proof (s_reserve_wp t self l v d w hint true R ltac:(lia)) as H1. pose proof (s_reserve_asks t self hint true w) as Na.
  unfold run in H1. destruct (s_reserve t self hint true w) as [[r|r| |u] w1] eqn:E1; try contradiction.
  destruct H1 as (v1 & d1 & R1 & Q1 & _ & _ & _ & H1). cbn [snd] in Na. destruct r as [|[]].
  - destruct (std_values_eq t self xs l v1 d1 w1 R1 G) as (v2 & d2 & w2 & E2 & R2 & Q2 & N2). { unfold std_room. lia. }
    exists w2. ands.
    + unfold std_extend. erewrite bind_eq; [exact E2|]. apply on_unwind_eq. erewrite bind_eq by exact E1. reflexivity.
    + apply repr_holds. exact (orep_repr t self (l ++ xs) (OS v2) d2 w2 R2).
    + rewrite (proj2 Q2). apply Q1.
    + apply others_frame. eapply frame_trans; [apply Q1|apply Q2].
    + lia.
  - exfalso. destruct H1 as [_ H1]. unfold want_cap in H1. destruct (s_size t =? 0); lia.
  - exfalso. destruct H1 as (_ & F & _). now apply (no_alloc_failed w w1 At).
Qed.

(** ** C57: [into_vec], [into_string] and the other byte strings *)
(** The elements of a slice value, each with its own bytes. *)
Definition elems (esize : Z) (x : value) : list value :=
  map (fun i => Value MUnit (elem esize i (v_bytes x))) (seq 0 (Z.to_nat (meta_len (v_meta x)))).
(** [t] is a slice of elements of this size and alignment; strings are slices of bytes. *)
Definition slice_like (t : ty) (esize ealign : Z) : Prop :=
  t = TSlice esize ealign /\ wf_ty t \/ (t = TStr \/ t = TCStr) /\ esize = 1 /\ ealign = 1.

Lemma slice_like_layout t es ea x : slice_like t es ea -> wf_value t x ->
  wf_ty (TSized es ea) /\ exists n, v_meta x = MLen n /\ 0 <= n <= usize_max /\ vsize t x = n * es /\ valign t x = ea /\
    zlen (v_bytes x) = n * es /\ n * es <= isize_max - (ea - 1).
Proof.
  intros H [(V & _ & M) B]. unfold vsize, valign in *. destruct V as (V1 & V2 & V3). destruct H as [(-> & W)|(T & -> & ->)].
  - split; [exact W|]. destruct (v_meta x) as [|n|]; try tauto. cbn [size_of_val align_of_val] in *. exists n. unfold zlen. ands; auto; lia.
  - split. { split; [|reflexivity]. split; [lia|]. split; [apply pow2_1|]. vm_compute. discriminate. }
    destruct T as [-> | ->]; destruct (v_meta x) as [|n|]; try tauto; cbn [size_of_val align_of_val] in *;
      exists n; unfold zlen; ands; auto; lia.
Qed.
Lemma contents_elems es ea d n : 0 <= es -> forall i, contents (TSized es ea) 1 (Z.of_nat i * es) (map (fun j => Value MUnit (elem es j d)) (seq i n)) d.
Proof.
  intros P. induction n as [|n IH]; intros i; cbn [seq map contents]; auto. unfold psz, vsize. cbn [v_meta v_bytes size_of_val]. rewrite pad_1.
  split; [reflexivity|]. replace (Z.of_nat i * es + es) with (Z.of_nat (S i) * es) by lia. apply IH.
Qed.
Lemma good_elem es ea bs n i : wf_ty (TSized es ea) -> zlen bs = Z.of_nat n * es -> (i < n)%nat -> good (TSized es ea) (Value MUnit (elem es i bs)).
Proof.
  intros [V M] Z L. pose proof V as (V1 & V2 & V3). apply good_of_wf; [|intros a E; discriminate E]. split.
  - split; [exact V|]. split; [exact M|]. exact I.
  - cbn [v_bytes]. unfold vsize. cbn [v_meta size_of_val]. apply (sub_len (Z.of_nat i * es) es bs); nia.
Qed.

Lemma elems_map es x n : v_meta x = MLen n -> elems es x = map (fun j => Value MUnit (elem es j (v_bytes x))) (seq 0 (Z.to_nat n)).
Proof. intros E. unfold elems. now rewrite E. Qed.
Lemma box_vec_srep t es ea b x w : slice_like t es ea -> wf_value t x -> boxed t b x (w_heap w) ->
  let w' := set_vecs (w_vecs w ++ [OS (box_into_vec es b)]) w in
  srep (TSized es ea) (length (w_vecs w)) (elems es x) (box_into_vec es b) (v_bytes x) w' /\ zlen (elems es x) = meta_len (v_meta x).
Proof.
  intros Sl G [Em B]. destruct (slice_like_layout t es ea x Sl G) as (W & n & Mx & Rn & Vs & Va & Lb & Le).
  pose proof W as [(E0 & Pa & _) _]. rewrite Vs, Va in B.
  assert (Ln : zlen (elems es x) = n). { rewrite (elems_map es x n Mx). unfold zlen. rewrite map_length, seq_length. lia. }
  split; [|now rewrite Mx].
  unfold box_into_vec. rewrite Em, Mx. cbn [meta_len].
  constructor; cbn [sv_len sv_cap sv_ptr]; auto.
  - unfold set_vecs. proj. rewrite nth_error_app2 by auto. now rewrite Nat.sub_diag.
  - rewrite (elems_map es x n Mx), Forall_map. apply Forall_forall. intros i Hi. apply in_seq in Hi. apply (good_elem es ea _ (Z.to_nat n)); auto; lia.
  - unfold set_vecs. proj. change (s_align (TSized es ea)) with ea. change (s_size (TSized es ea)) with es.
    destruct (Z.eqb_spec es 0) as [->|]; auto. now rewrite Z.mul_0_r in B.
  - rewrite (elems_map es x n Mx). apply (contents_elems es ea (v_bytes x) (Z.to_nat n) E0 0).
  - destruct (es =? 0); lia.
  - change (s_size (TSized es ea)) with es. intros ->. reflexivity.
  - unfold s_capacity. change (s_size (TSized es ea)) with es. cbn [sv_cap]. destruct (es =? 0); lia.
  - change (s_align (TSized es ea)) with ea. change (s_size (TSized es ea)) with es. destruct (Z.eqb_spec es 0) as [->|]; lia.
Qed.
(** The emplacable's value becomes the vector's elements, in the one allocation the box had; the vector is full. *)
Theorem C57_into_vec t es ea e S w : slice_like t es ea -> emits e S w -> wf_value t (d_value S) -> d_lay S = layout_of t (d_value S) ->
  stable S -> (forall j, In j (d_fv S) -> (j < length (w_vecs w))%nat) ->
  run (emplacable_into_vec es e) w
    (fun v w' => v = length (w_vecs w) /\ holds_list (TSized es ea) v (elems es (d_value S)) w' /\
       v_capacity (TSized es ea) v w' = (Ok (if es =? 0 then usize_max else zlen (elems es (d_value S))), w') /\
       w_drops w' = w_drops w ++ d_extra S /\ d_after S Delivered w' /\
       (forall u j l, repr u j l w -> ~ In j (d_fv S) -> (forall b, owned_block w j = Some b -> ~ In b (d_fb S)) -> repr u j l w' /\ sep w' v j) /\
       (forall k, heap_get (w_heap w') k <> None -> (length (w_heap w) <= k)%nat -> owned_block w' v = Some k))
    (no_box e S w)
    (fun w' => alloc_failed w w' \/ aborted S w w').
Proof.
  intros Sl Em G L St Fv. unfold emplacable_into_vec. apply run_bind. eapply run_conseq; [eapply box_new_with_wp; eauto|..]; cbv beta; auto.
  2:{ intros r w'. apply box_panic_none. }
  intros b w1 (B & F & D & A). unfold new_obj, run.
  destruct (box_vec_srep t es ea b (d_value S) w1 Sl G B) as [R Lz]. set (v := length (w_vecs w1)) in *.
  set (w2 := set_vecs _ w1) in *. pose proof (fs_nvecs _ _ _ _ _ F) as Nv.
  assert (Hx : forall j, (j < length (w_vecs w1))%nat -> nth_error (w_vecs w2) j = nth_error (w_vecs w1) j).
  { intros j Lj. unfold w2, set_vecs. proj. now apply nth_error_app1. }
  assert (Ow : owned_block w2 v = ptr_block (wp b)).
  { change (owned_block w2 v) with (owned_block w2 v). rewrite (orep_owned _ _ _ (OS (box_into_vec es b)) _ _ R). reflexivity. }
  ands; auto.
  - apply repr_holds. exact (orep_repr _ _ _ (OS _) _ _ R).
  - rewrite (v_capacity_eq _ _ _ (OS (box_into_vec es b)) _ _ R). unfold o_cap, s_capacity. change (s_size (TSized es ea)) with es. rewrite Lz.
    destruct (slice_like_layout t es ea (d_value S) Sl G) as (_ & n & Mx & _). destruct B as [Em' _].
    destruct (Z.eqb_spec es 0); auto. unfold box_into_vec. cbn [sv_cap]. rewrite Em'. now destruct (Z.eqb_spec es 0).
  - eapply St; [|exact A]. unfold agree. ands; auto. intros j Ij. apply Hx. rewrite Nv. auto.
  - intros u j l Rj Nj Bj. pose proof Rj as Rj0. apply repr_orep in Rj as (o & d & Rj).
    assert (Lj : (j < length (w_vecs w))%nat) by (eapply nth_error_lt, orep_obj; eauto).
    assert (Fb : forall b, In b (d_fb S) -> (b < length (w_heap w))%nat) by apply Em.
    assert (Rj1 : orep u j l o d w1) by (eapply orep_fresh; eauto; split; auto).
    split.
    + eapply orep_repr. eapply orep_agree; [exact Rj1|apply Hx; lia|auto].
    + split; [lia|]. rewrite Ow. intros k Ek. assert (Eo : owned_block w2 j = owned_block w j).
      { unfold owned_block. rewrite Hx by lia. now rewrite (fs_vecs _ _ _ _ _ F). }
      rewrite Eo. intros Ek2. pose proof (repr_owned_lt _ _ _ _ _ Rj0 Ek2). pose proof (fs_ob _ _ _ _ _ F k Ek). lia.
  - intros k Lv Lk. rewrite Ow. now apply (fs_new _ _ _ _ _ F).
Qed.

Lemma map_seq_nth {A} (xs : list A) : forall f, (forall i x, nth_error xs i = Some x -> f i = x) -> map f (seq 0 (length xs)) = xs.
Proof.
  induction xs as [|x xs IH]; intros f H; auto. cbn [length seq map]. rewrite (H 0%nat x eq_refl). f_equal.
  rewrite <- seq_shift, map_map. apply IH. intros i y E. now apply (H (S i)).
Qed.
Lemma elems_vec_bytes es ea xs : Forall (good (TSized es ea)) xs -> vec_elem_ok es ea xs (vec_bytes xs) ->
  elems es (Value (MLen (zlen xs)) (vec_bytes xs)) = xs.
Proof.
  intros G El. rewrite (elems_map es (Value (MLen (zlen xs)) (vec_bytes xs)) (zlen xs) eq_refl). cbn [v_bytes]. unfold zlen. rewrite Nat2Z.id.
  apply map_seq_nth. intros i x E. rewrite (El i x E). destruct x as [m bs]. cbn [v_bytes]. f_equal.
  rewrite Forall_forall in G. specialize (G _ (nth_error_In _ _ E)). destruct G as [[(_ & _ & M) _] _]. cbn [v_meta] in M. now destruct m.
Qed.
(** A full [Vec] made into an emplacable and back holds the same values; the first buffer is freed, nothing is dropped. *)
Theorem C57_vec_partial es ea v xs w : stdvec (TSized es ea) v xs (w_heap w) -> es = 0 \/ sv_cap v = zlen xs ->
  run (emplacable_into_vec es (emplacable_of_vec es ea v)) w
    (fun u w' => holds_list (TSized es ea) u xs w' /\ w_drops w' = w_drops w /\
       (forall k, ptr_block (sv_ptr v) = Some k -> heap_get (w_heap w') k = None))
    (fun r w' => r = POom /\ alloc_failed w w' /\ stdvec (TSized es ea) v xs (w_heap w') /\ w_drops w' = w_drops w)
    (fun w' => alloc_failed w w').
Proof.
  intros Sv Cp. destruct (vec_box_wf _ _ _ _ _ Sv Cp) as (G & El & _).
  assert (Gx : Forall (good (TSized es ea)) xs) by (destruct Sv as (d & R); apply R).
  assert (Wt : slice_like (TSlice es ea) es ea) by (left; split; auto; destruct Sv as (d & R); apply R).
  eapply run_conseq; [eapply (C57_into_vec (TSlice es ea) es ea); [exact Wt|exact (vec_emits es ea v xs w Sv)|exact G|..]|..]; cbv beta.
  - unfold vec_deal, d_value, layout_of, vec_layout, vsize, valign. cbn [d_lay d_meta d_bytes v_meta size_of_val align_of_val]. unfold s_size, s_align.
    cbn [size_of_val align_of_val]. f_equal. destruct Cp as [->| ->]; lia.
  - apply vec_stable.
  - intros j [].
  - intros u w' (_ & H & _ & D & A & _). unfold d_value, vec_deal in H. cbn [d_meta d_bytes] in H.
    rewrite (elems_vec_bytes es ea) in H by auto. ands; auto. rewrite D. apply app_nil_r.
  - intros r w' (_ & _ & _ & [(-> & A & D & R)|[P|(_ & N & _)]]); [ands; auto|destruct P|now destruct N].
  - intros w' [A|A]; auto. destruct A as [[N|(r & P)] _]; [now elim N|destruct P].
Qed.

(** ** C58: [Rc] and [Arc] *)
Definition one : list byte := map Byte [1; 0; 0; 0; 0; 0; 0; 0].
(** [r] is the only owner of [x]: a C struct of two counts, both one, and the value, in an allocation of its size. *)
Definition sole_owner (t : ty) (r : wide) (x : value) (w : world) : Prop :=
  wm r = v_meta x /\ exists k base size align off d,
    wp r = Blk k 0 /\ heap_get (w_heap w) k = Some (Block (Layout size align) base d) /\ 0 < base /\ base mod align = 0 /\ zlen d = size /\
    align = Z.max 8 (valign t x) /\ size mod align = 0 /\ size <= isize_max /\
    16 <= off < 16 + valign t x /\ off mod valign t x = 0 /\ off + vsize t x <= size < off + vsize t x + align /\
    sub 0 8 d = one /\ sub 8 8 d = one /\ sub off (vsize t x) d = v_bytes x.
(** The struct fits an allocation. *)
Definition rc_fits (t : ty) (x : value) : Prop :=
  forall off, 16 <= off < 16 + valign t x -> off mod valign t x = 0 -> off + vsize t x <= isize_max - (Z.max 8 (valign t x) - 1).

Lemma rc_align_pow t x : wf_value t x -> pow2 (Z.max 8 (valign t x)).
Proof. intros G. apply pow2_maxi; auto using pow2_8, wf_align. Qed.
Lemma rc_offset_eq t x off : wf_value t x -> 16 <= off < 16 + valign t x -> off mod valign t x = 0 -> off = rc_offset (valign t x).
Proof. intros G B M. pose proof (pow2_pos _ (wf_align t x G)). symmetry. unfold rc_offset. apply pad_unique; lia. Qed.
Lemma rc_offset_ok t x : wf_value t x -> 16 <= rc_offset (valign t x) < 16 + valign t x /\ rc_offset (valign t x) mod valign t x = 0.
Proof.
  intros G. pose proof (pow2_pos _ (wf_align t x G)) as P. unfold rc_offset. pose proof (pad_ge 16 _ P). pose proof (pad_lt 16 _ P). pose proof (pad_mult 16 _ P). lia.
Qed.
Lemma rc_layout_fits t x : wf_value t x -> rc_fits t x ->
  rc_layout (layout_of t x) = Some (Layout (pad (rc_offset (valign t x) + vsize t x) (Z.max 8 (valign t x))) (Z.max 8 (valign t x))).
Proof.
  intros G F. destruct (rc_offset_ok t x G) as [B M]. specialize (F _ B M). unfold rc_layout, layout_of. cbn [l_size l_align].
  destruct (Z.leb_spec (rc_offset (valign t x) + vsize t x) (isize_max - (Z.max 8 (valign t x) - 1))); auto. lia.
Qed.
Lemma rc_layout_none t x : wf_value t x -> ~ rc_fits t x -> rc_layout (layout_of t x) = None.
Proof.
  intros G F. unfold rc_layout, layout_of. cbn [l_size l_align].
  destruct (Z.leb_spec (rc_offset (valign t x) + vsize t x) (isize_max - (Z.max 8 (valign t x) - 1))); auto. elim F.
  intros off B M. rewrite (rc_offset_eq t x off G B M). auto.
Qed.
Lemma rc_fits_dec t x : wf_value t x -> rc_fits t x \/ ~ rc_fits t x.
Proof.
  intros G. destruct (Z_le_gt_dec (rc_offset (valign t x) + vsize t x) (isize_max - (Z.max 8 (valign t x) - 1))) as [L|L].
  - left. intros off B M. rewrite (rc_offset_eq t x off G B M). auto.
  - right. intros F. destruct (rc_offset_ok t x G) as [B M]. specialize (F _ B M). lia.
Qed.
Lemma rc_pad t x : wf_value t x -> rc_fits t x -> let n := pad (rc_offset (valign t x) + vsize t x) (Z.max 8 (valign t x)) in
  n mod Z.max 8 (valign t x) = 0 /\ n <= isize_max /\ rc_offset (valign t x) + vsize t x <= n < rc_offset (valign t x) + vsize t x + Z.max 8 (valign t x).
Proof.
  intros G F n. pose proof (pow2_pos _ (rc_align_pow t x G)) as P. destruct (rc_offset_ok t x G) as [B M]. specialize (F _ B M).
  pose proof (pad_ge (rc_offset (valign t x) + vsize t x) _ P). pose proof (pad_lt (rc_offset (valign t x) + vsize t x) _ P).
  pose proof (pad_mult (rc_offset (valign t x) + vsize t x) _ P). subst n. lia.
Qed.

(** The reference into the struct. *)
Lemma rc_behind t r x w : wf_value t x -> sole_owner t r x w ->
  exists p, rc_deref t r w = (Ok (Wide p (v_meta x)), w) /\ behind t (Wide p (v_meta x)) x (w_heap w) /\ ptr_block p = ptr_block (wp r).
Proof.
  intros G (Em & k & base & size & al & off & d & Ep & Hk & Pb & Mb & Ld & Al & Ms & Sm & Bo & Mo & Bs & _ & _ & Eb).
  pose proof (pow2_pos _ (wf_align t x G)) as Pa. pose proof (wf_size t x G) as Sx.
  assert (B : buf (w_heap w) (wp r) al size d). { rewrite Ep. unfold buf. destruct (Z.eqb_spec size 0); [lia|]. exists k, base. ands; auto; lia. }
  assert (Dv : (valign t x | al)). { rewrite Al. apply pow2_divide; auto using wf_align, rc_align_pow. lia. }
  exists (padd (wp r) off).
  assert (Bh : behind t (Wide (padd (wp r) off) (v_meta x)) x (w_heap w)).
  { unfold behind. cbn [wp wm]. ands; auto.
    - eapply ref_ok_buf; eauto; unfold vsize, valign in *; try lia.
    - rewrite (heap_read_buf _ _ _ _ _ _ _ B) by lia. now rewrite Eb. }
  ands; auto.
  - unfold rc_deref. rewrite Em. change (align_of_val t (v_meta x)) with (valign t x). rewrite <- (rc_offset_eq t x off G Bo Mo).
    erewrite bind_eq by (eapply ptr_add_buf; [exact B|lia]). eapply behind_ref; eauto.
  - apply padd_block.
Qed.
Lemma rc_free_eq t r x w : wf_value t x -> sole_owner t r x w ->
  rc_free t r w = (Ok tt, set_heap (hfree (w_heap w) (wp r)) w).
Proof.
  intros G (Em & k & base & size & al & off & d & Ep & Hk & Pb & Mb & Ld & Al & Ms & Sm & Bo & Mo & Bs & _ & _ & Eb).
  pose proof (rc_align_pow t x G) as Pa. pose proof (wf_size t x G) as Sx. rewrite <- Al in Pa. pose proof (pow2_pos _ Pa) as P0.
  assert (B : buf (w_heap w) (wp r) al size d). { rewrite Ep. unfold buf. destruct (Z.eqb_spec size 0); [lia|]. exists k, base. ands; auto; lia. }
  assert (F : rc_fits t x).
  { intros o Bo' Mo'. rewrite (rc_offset_eq t x o G Bo' Mo'), <- (rc_offset_eq t x off G Bo Mo). rewrite <- Al.
    pose proof (mult_le_max size al Pa Ms Sm). lia. }
  unfold rc_free. rewrite Em. change (Layout (size_of_val t (v_meta x)) (align_of_val t (v_meta x))) with (layout_of t x).
  rewrite (rc_layout_fits t x G F), <- (rc_offset_eq t x off G Bo Mo), <- Al.
  rewrite (pad_unique (off + vsize t x) al size) by lia. eapply dealloc_eq; eauto.
Qed.
(** Dropping it: the value's destructor runs once, the allocation goes back. *)
Theorem C58_drop t r x w : wf_value t x -> sole_owner t r x w ->
  run (rc_drop t r) w
    (fun _ w' => within [] (blocks (wp r)) w w' /\ freed r (w_heap w') /\ w_drops w' = w_drops w ++ [x])
    (fun p w' => p = PDrop /\ drop_panicked w w' /\ within [] (blocks (wp r)) w w' /\ freed r (w_heap w') /\ w_drops w' = w_drops w ++ [x])
    (fun _ => False).
Proof.
  intros G O. destruct (rc_behind t r x w G O) as (p & Ed & Bh & _). unfold rc_drop. eapply run_eq; [exact Ed|].
  apply run_bind, run_on_unwind. unfold run at 1. rewrite (drop_in_place_eq t _ x) by auto. apply run_sound.
  set (w1 := set_drops (w_drops w ++ [x]) w). assert (E : rc_free t r w1 = (Ok tt, set_heap (hfree (w_heap w1) (wp r)) w1)) by (apply (rc_free_eq t r x); auto).
  assert (W : within [] (blocks (wp r)) w (set_heap (hfree (w_heap w1) (wp r)) w1)).
  { unfold within. proj. ands; auto. now rewrite hfree_length. intros c N. apply hfree_other. now rewrite <- in_blocks. }
  assert (Fr : freed r (hfree (w_heap w1) (wp r))) by (intros k Ek; eapply hfree_none; eauto).
  apply run_drop_value; intros D; (eapply run_eq1; [exact E|]); ands; auto.
  exists (length (w_drops w)). unfold w1. cbn. rewrite app_length. cbn. ands; auto; lia.
Qed.

(** What a box becomes. *)
Lemma rc_from_box_wp t b x w : boxed t b x (w_heap w) -> wf_value t x ->
  run (rc_from_box t b) w
    (fun r w' => sole_owner t r x w' /\ fresh [] (blocks (wp b)) (ptr_block (wp r)) w w' /\ freed b (w_heap w') /\ w_drops w' = w_drops w)
    (fun r w' => fresh [] (blocks (wp b)) None w w' /\ freed b (w_heap w') /\ w_drops w' = w_drops w ++ [x] /\
       (r = PAssert /\ ~ rc_fits t x \/ r = POom /\ alloc_failed w w'))
    (fun w' => alloc_failed w w' \/ drop_panicked w w').
Proof.
  intros B G. pose proof (boxed_behind t b x _ B G) as Bh. pose proof B as [Em Bb].
  pose proof (wf_size t x G) as Sx. pose proof (wf_bytes t x G) as Bx. pose proof (pow2_pos _ (wf_align t x G)) as Px.
  assert (Bl : forall k, ptr_block (wp b) = Some k -> (k < length (w_heap w))%nat) by (intros k Ek; eapply buf_block in Bb; eauto; tauto).
  unfold rc_from_box. eapply run_eq; [eapply behind_ref; eauto|]. rewrite Em.
  change (Layout (size_of_val t (v_meta x)) (align_of_val t (v_meta x))) with (layout_of t x). cbv zeta.
  assert (Fail : forall r w1, r = PAssert /\ ~ rc_fits t x /\ w1 = w \/ r = POom /\ cfg_alloc (w_nalloc w) = None /\ w1 = bump_alloc w ->
    run (box_drop t b) w1
      (fun _ w' => fresh [] (blocks (wp b)) None w w' /\ freed b (w_heap w') /\ w_drops w' = w_drops w ++ [x] /\
         (r = PAssert /\ ~ rc_fits t x \/ r = POom /\ alloc_failed w w'))
      (fun _ w' => alloc_failed w w' \/ drop_panicked w w') (fun w' => alloc_failed w w' \/ drop_panicked w w')).
  { intros r w1 H.
    assert (Q : w_heap w1 = w_heap w /\ w_vecs w1 = w_vecs w /\ w_cells w1 = w_cells w /\ w_drops w1 = w_drops w /\ (w_nalloc w <= w_nalloc w1)%nat).
    { destruct H as [(_ & _ & ->)|(_ & _ & ->)]; ands; auto. proj. lia. }
    destruct Q as (Qh & Qv & Qc & Qd & Qn). rewrite <- Qh in B. eapply run_conseq; [eapply box_drop_wp; eauto|..]; cbv beta.
    - intros _ w' ((W1 & W2 & W3 & W4 & W5 & W6) & Fr & D). rewrite Qv, Qc, Qh in *. ands; auto.
      + constructor; auto; try lia; try (intros; now rewrite ?W1, ?W3 by auto).
        * intros c Lc Lv. elim Lv. rewrite W5; [now apply heap_get_ge|]. rewrite in_blocks. intros E. specialize (Bl _ E). lia.
      + congruence.
      + destruct H as [(-> & N & _)|(-> & N & ->)]; [left; auto|right; split; auto]. exists (w_nalloc w). cbn in W6. split; auto; lia.
    - intros r' w' (_ & P & _). right. destruct P as (n & Hn & Pn). exists n. rewrite Qd in Hn. auto.
    - intros w' []. }
  apply run_bind, run_on_unwind.
  destruct (rc_fits_dec t x G) as [F|F]; [|rewrite (rc_layout_none t x G F); apply run_panic, Fail; auto].
  rewrite (rc_layout_fits t x G F). destruct (rc_pad t x G F) as (Ms & Sm & Bs). destruct (rc_offset_ok t x G) as [Bo Mo].
  set (off := rc_offset (valign t x)) in *. set (n := pad _ _) in *. set (al := Z.max 8 (valign t x)) in *.
  assert (E : galloc (Layout n al) = if l_size (Layout n al) =? 0 then ret (Some (Raw (l_align (Layout n al)))) else galloc (Layout n al)).
  { cbn [l_size]. destruct (Z.eqb_spec n 0); auto. lia. }
  apply run_bind. rewrite E. apply box_alloc_wp; cbn [l_size l_align]; try lia.
  2:{ intros Ea. unfold handle_alloc_error. destruct cfg_oom_panics; [apply run_panic, Fail; auto|]. unfold run. cbn. left.
      exists (w_nalloc w). proj. split; auto; lia. }
  intros p w1 [RB RV RC RD RL RO RN RFr RNa].
  set (hdr := le_bytes 8 1 ++ le_bytes 8 1). set (d1 := splice 0 hdr (uninit n)).
  assert (Lu : zlen (uninit n) = n) by (apply zlen_uninit; lia).
  assert (L1 : zlen d1 = n) by (unfold d1; rewrite splice_len; auto; change (zlen hdr) with 16; lia).
  apply run_bind. rewrite <- (padd_0 p) at 1. eapply run_eq1; [eapply (mem_write_buf w1 p al n _ 0 hdr RB); change (zlen hdr) with 16; lia|].
  fold d1. apply run_ret. set (w2 := set_heap _ w1).
  assert (B2 : buf (w_heap w2) p al n d1) by (unfold w2; proj; eapply buf_hput; eauto; lia).
  change (l_align (layout_of t x)) with (valign t x). change (l_size (layout_of t x)) with (vsize t x). fold off.
  eapply run_eq; [eapply ptr_add_buf; [exact B2|lia]|].
  assert (Np : forall k, ptr_block (wp b) = Some k -> ptr_block p <> Some k) by (intros k Ek Ek'; specialize (Bl k Ek); specialize (RFr k Ek'); lia).
  assert (B2b : boxed t b x (w_heap w2)).
  { eapply boxed_agree; [|exact B]. intros k Ek. unfold w2. proj. rewrite hput_other by auto. apply RO. auto. }
  assert (Hr : heap_read (w_heap w2) (wp b) (vsize t x) = Some (v_bytes x)) by (destruct (boxed_behind t b x _ B2b G) as (_ & _ & H); exact H).
  pose proof (heap_write_buf _ _ _ _ _ off (v_bytes x) B2 ltac:(lia) ltac:(lia)) as Hw.
  eapply run_eq.
  { eapply copy_bytes_eq; [exact Hr| |exact Hw]. intros k Ek Ek'. rewrite padd_block in Ek. now apply (Np k). }
  set (d2 := splice off (v_bytes x) d1) in *. set (w3 := set_heap _ w2).
  assert (L2 : zlen d2 = n) by (unfold d2; rewrite splice_len; lia).
  assert (B3 : buf (w_heap w3) p al n d2) by (unfold w3; proj; eapply buf_hput; eauto; lia).
  assert (B3b : boxed t b x (w_heap w3)).
  { eapply boxed_agree; [|exact B2b]. intros k Ek. unfold w3. proj. apply hput_other. auto. }
  destruct (box_dealloc_eq t b x w3 B3b) as (Ef & W & Fr). unfold box_dealloc. rewrite Em.
  change (Layout (size_of_val t (v_meta x)) (align_of_val t (v_meta x))) with (layout_of t x).
  eapply run_eq; [exact Ef|]. apply run_ret. cbn [wp]. set (w4 := set_heap _ w3).
  assert (Lp : exists k base, p = Blk k 0 /\ heap_get (w_heap w3) k = Some (Block (Layout n al) base d2) /\ 0 < base /\ base mod al = 0).
  { unfold buf in B3. destruct (Z.eqb_spec n 0); [lia|]. destruct B3 as (k & base & H1 & H2 & H3 & H4 & _). exists k, base. auto. }
  destruct Lp as (k & base & -> & Hk & Pb & Mb).
  ands.
  - split; auto. exists k, base, n, al, off, d2. cbn [wp]. ands; auto; try lia.
    + unfold w4. proj. rewrite hfree_other; auto. intros Ek. now apply (Np k).
    + unfold d2. rewrite sub_splice_before by lia. unfold d1. rewrite sub_splice_in by (change (zlen hdr) with 16; lia). reflexivity.
    + unfold d2. rewrite sub_splice_before by lia. unfold d1. rewrite sub_splice_in by (change (zlen hdr) with 16; lia). reflexivity.
    + unfold d2. apply sub_splice_same; lia.
  - constructor; unfold w4, w3, w2; proj; auto.
    + intros j _. now rewrite RV.
    + now rewrite RV.
    + intros c Lc. now rewrite RC.
    + rewrite hfree_length, !hput_length. auto.
    + intros c Lc Nc. rewrite hfree_other by (now rewrite <- in_blocks). rewrite !hput_other; auto; intros Ek; specialize (RFr c Ek); lia.
    + intros c Lc Lv. apply RN; auto. destruct (opt_dec (ptr_block (wp b)) (Some c)) as [Q|Q]; [now rewrite hfree_none in Lv|].
      rewrite hfree_other in Lv by auto. now rewrite !hput_live in Lv.
  - exact Fr.
  - exact RD.
Qed.
Lemma fresh_replace fv fb b ob w w1 w2 : fresh fv fb (ptr_block (wp b)) w w1 -> fresh [] (blocks (wp b)) ob w1 w2 -> freed b (w_heap w2) ->
  (forall k, In k fb -> (k < length (w_heap w))%nat) -> fresh fv fb ob w w2 /\ agree fv fb w1 w2.
Proof.
  intros [A1 A2 A3 A4 A5 A6 A7 A8] [B1 B2 B3 B4 B5 B6 B7 B8] Fr Fb.
  assert (Nb : forall k, (k < length (w_heap w))%nat -> ~ In k (blocks (wp b))) by (intros k Lk Ik; rewrite in_blocks in Ik; specialize (A7 k Ik); lia).
  split.
  - constructor; try lia.
    + intros j Nj. rewrite B1 by auto. auto.
    + intros c Lc. assert (nth_error (w_cells w1) c <> None) by (rewrite A3 by auto; now apply nth_error_Some).
      rewrite B3 by (now apply nth_error_Some). auto.
    + intros k Lk Nk. rewrite B5 by (auto; lia). auto.
    + intros k Lk Lv. destruct (Nat.ltb_spec k (length (w_heap w1))) as [L|L]; [|auto].
      destruct (opt_dec (ptr_block (wp b)) (Some k)) as [Q|Q]; [now rewrite (Fr k Q) in Lv|].
      rewrite B5 in Lv by (rewrite ?in_blocks; auto). now specialize (A6 k Lk Lv).
    + intros k Ek. specialize (B7 k Ek). lia.
  - unfold agree. ands; auto. intros k Ik. pose proof (Fb k Ik). apply B5; [lia|auto].
Qed.
(** Any emplacable. The value ends up in the [Rc]'s own allocation, which is the only new one; the intermediate box is
    gone. When the second allocation fails or cannot be made the value is dropped once, and so is the box. *)
Theorem C58_new_with t e S w : emits e S w -> wf_value t (d_value S) -> d_lay S = layout_of t (d_value S) -> stable S ->
  run (rc_new_with t e) w
    (fun r w' => sole_owner t r (d_value S) w' /\ (v <- rc_deref t r ;; read_value t v) w' = (Ok (d_value S), w') /\
       w_drops w' = w_drops w ++ d_extra S /\ d_after S Delivered w' /\
       (forall k, (length (w_heap w) <= k)%nat -> heap_get (w_heap w') k <> None -> ptr_block (wp r) = Some k) /\
       (forall k, (k < length (w_heap w))%nat -> ~ In k (d_fb S) -> heap_get (w_heap w') k = heap_get (w_heap w) k) /\
       (forall j, ~ In j (d_fv S) -> nth_error (w_vecs w') j = nth_error (w_vecs w) j))
    (fun r w' => no_box e S w r w' \/
       (r = PAssert /\ ~ rc_fits t (d_value S) \/ r = POom /\ alloc_failed w w') /\
       w_drops w' = w_drops w ++ d_extra S ++ [d_value S] /\ d_after S Delivered w' /\
       (forall k, heap_get (w_heap w') k <> None -> (k < length (w_heap w))%nat) /\
       (forall k, (k < length (w_heap w))%nat -> ~ In k (d_fb S) -> heap_get (w_heap w') k = heap_get (w_heap w) k) /\
       (forall j, ~ In j (d_fv S) -> nth_error (w_vecs w') j = nth_error (w_vecs w) j))
    (fun w' => alloc_failed w w' \/ drop_panicked w w').
Proof.
  intros Em G L St. assert (Fb : forall k, In k (d_fb S) -> (k < length (w_heap w))%nat) by apply Em.
  unfold rc_new_with. apply run_bind. eapply run_conseq; [eapply box_new_with_wp; eauto|..]; cbv beta.
  - intros b w1 (B & F & D & A). pose proof (fs_nalloc _ _ _ _ _ F) as Na.
    assert (Ld : (length (w_drops w) <= length (w_drops w1))%nat) by (rewrite D, app_length; lia).
    eapply run_conseq; [eapply rc_from_box_wp; eauto|..]; cbv beta.
    + intros r w2 (O & F2 & Fr & D2). destruct (fresh_replace _ _ _ _ _ _ _ F F2 Fr Fb) as [F3 Ag]. ands; auto.
      * destruct (rc_behind t r _ w2 G O) as (p & Ed & Bh & _). erewrite bind_eq by exact Ed. now apply behind_read.
      * congruence.
      * eapply St; eauto.
      * apply F3.
      * apply F3.
      * apply F3.
    + intros r w2 (F2 & Fr & D2 & H). destruct (fresh_replace _ _ _ _ _ _ _ F F2 Fr Fb) as [F3 Ag]. right. ands.
      * destruct H as [H|[-> H]]; auto. right. split; auto. eapply alloc_failed_l; eauto.
      * rewrite D2, D, app_assoc. reflexivity.
      * eapply St; eauto.
      * intros k Lv. destruct (Nat.ltb_spec k (length (w_heap w))) as [Lk|Lk]; auto. now specialize (fs_new _ _ _ _ _ F3 k Lk Lv).
      * apply F3.
      * apply F3.
    + intros w2 [H|H]; [left; eapply alloc_failed_l; eauto|right; eapply drop_panicked_from; eauto].
  - intros r w1 H. left. now apply box_panic_none.
  - intros w1 [H|[_ H]]; auto.
Qed.
(** A value moved in. *)
Theorem C58_new t x w : wf_value t x ->
  run (rc_new t x) w
    (fun r w' => sole_owner t r x w' /\ (v <- rc_deref t r ;; read_value t v) w' = (Ok x, w') /\ w_drops w' = w_drops w /\ (forall j, nth_error (w_vecs w') j = nth_error (w_vecs w) j) /\
       (forall k, ptr_block (wp r) <> Some k -> heap_get (w_heap w') k = heap_get (w_heap w) k))
    (fun r w' => (r = PAssert /\ ~ rc_fits t x \/ r = POom /\ alloc_failed w w') /\ w_drops w' = w_drops w ++ [x] /\ (forall j, nth_error (w_vecs w') j = nth_error (w_vecs w) j) /\
       (forall k, heap_get (w_heap w') k = heap_get (w_heap w) k))
    (fun w' => alloc_failed w w' \/ drop_panicked w w').
Proof.
  intros G. unfold rc_new. apply run_bind. 
  assert (Hp : forall w' ob, fresh [] [] ob w w' -> forall k, ob <> Some k -> heap_get (w_heap w') k = heap_get (w_heap w) k).
  { intros w' ob F k N. destruct (Nat.ltb_spec k (length (w_heap w))) as [L|L]; [now apply F|]. rewrite (heap_get_ge (w_heap w)) by auto.
    destruct (heap_get (w_heap w') k) eqn:E; auto. elim N. eapply fs_new; eauto. congruence. }
  eapply run_conseq; [eapply box_new_wp; eauto|..]; cbv beta.
  - intros b w1 (B & F & D). pose proof (fs_nalloc _ _ _ _ _ F) as Na.
    eapply run_conseq; [eapply rc_from_box_wp; eauto|..]; cbv beta.
    + intros r w2 (O & F2 & Fr & D2). destruct (fresh_replace _ _ _ _ _ _ _ F F2 Fr ltac:(intros k [])) as [F3 Ag]. ands; auto.
      * destruct (rc_behind t r _ w2 G O) as (p & Ed & Bh & _). erewrite bind_eq by exact Ed. now apply behind_read.
      * congruence.
      * intros j. now apply F3.
      * intros k N. eapply Hp; eauto.
    + intros r w2 (F2 & Fr & D2 & H). destruct (fresh_replace _ _ _ _ _ _ _ F F2 Fr ltac:(intros k [])) as [F3 Ag]. ands.
      * destruct H as [H|[-> H]]; auto. right. split; auto. eapply alloc_failed_l; eauto.
      * now rewrite D2, D.
      * intros j. now apply F3.
      * intros k. eapply Hp; eauto. discriminate.
    + intros w2 [H|H]; [left; eapply alloc_failed_l; eauto|right; eapply drop_panicked_from; [|exact H]; rewrite D; auto].
  - intros r w1 (-> & A & F & D). ands; auto. intros j. now apply F. intros k. eapply Hp; eauto. discriminate.
  - auto.
Qed.

(** ** C59: [unsize!], [by_value_str!], [push_unsize], [insert_unsize] *)
(** The world has only gained a dead stack slot. *)
Definition past_slot (w : world) : world := set_heap (w_heap w ++ [None]) w.
Lemma past_slot_get w k : heap_get (w_heap (past_slot w)) k = heap_get (w_heap w) k.
Proof.
  unfold past_slot, heap_get. proj. destruct (Nat.ltb_spec k (length (w_heap w))) as [L|L]; [now rewrite nth_error_app1|].
  rewrite (proj2 (nth_error_None (w_heap w) k)) by auto. rewrite nth_error_app2 by auto. destruct (k - length (w_heap w))%nat as [|[|n]]; reflexivity.
Qed.
Lemma slot_pass l (bs : list byte) n u m w : zlen bs = n -> l_size l = n -> size_of_val u m = n -> 0 < l_align l -> align_of_val u m = l_align l ->
  (slot <- stack_slot l (uninit n) ;; mem_write slot bs ;; b <- make_ref u (Wide slot m) ;; y <- read_value u b ;; stack_free slot ;; ret y) w =
  (Ok (Value m bs), past_slot w).
Proof.
  intros Lb Ll Sz Al Ea. set (w1 := set_heap (w_heap w ++ [Some (Block l (l_align l) (uninit n))]) w).
  pose proof (zlen_nonneg bs) as P.
  assert (H1 : heap_get (w_heap w1) (length (w_heap w)) = Some (Block l (l_align l) (uninit n))).
  { unfold w1, heap_get. proj. rewrite nth_error_app2 by auto. now rewrite Nat.sub_diag. }
  erewrite bind_eq by reflexivity. fold w1.
  destruct (slot_write (w_heap w1) (length (w_heap w)) l (l_align l) (uninit n) bs H1) as [W G]. { rewrite zlen_uninit; lia. }
  set (h2 := hput _ _ _) in *.
  erewrite bind_eq by (unfold mem_write; rewrite W; reflexivity).
  erewrite bind_eq.
  2:{ unfold make_ref, ref_ok. cbn [wp wm ptr_addr]. change (w_heap (set_heap h2 w1)) with h2. rewrite G, Sz, Ea. cbn [b_base].
      rewrite <- Lb at 1. rewrite (slot_read h2 _ _ _ _ G). unfold is_aligned. rewrite Z.add_0_r, Z.mod_same by lia. rewrite (proj2 (Z.ltb_lt 0 _)) by lia. reflexivity. }
  unfold read_value. cbn [wp wm]. rewrite Sz, bind_assoc. erewrite bind_eq by (unfold mem_read; rewrite <- Lb; change (w_heap (set_heap h2 w1)) with h2; rewrite (slot_read h2 _ _ _ _ G); reflexivity).
  unfold stack_free, bind, ret. f_equal. unfold past_slot, w1, h2, set_heap. cbn [w_heap w_vecs w_cells w_drops w_nalloc w_moved].
  f_equal. unfold hput. rewrite H1. unfold w1. proj. clear. induction (w_heap w) as [|b h IH]; [reflexivity|]. cbn [app length upd]. now rewrite IH.
Qed.
(** Nothing but the program's counters of dead memory differs. *)
Definition untouched (w w' : world) : Prop :=
  (forall k, heap_get (w_heap w') k = heap_get (w_heap w) k) /\ w_vecs w' = w_vecs w /\ w_cells w' = w_cells w /\
  w_drops w' = w_drops w /\ w_nalloc w' = w_nalloc w /\ w_moved w' = w_moved w.
Lemma past_slot_untouched w : untouched w (past_slot w).
Proof. unfold untouched. ands; auto using past_slot_get. Qed.
Lemma unsize_eq s a u m x w : unsizes s a u m -> wf_value (TSized s a) x -> unsize_macro s a u m x w = (Ok (coerce m x), past_slot w).
Proof.
  intros U G. destruct (unsizes_size s a u m x U) as [E Ea]. unfold vsize, valign in *. cbn [coerce v_meta] in *.
  unfold unsize_macro, coerce. destruct G as [(V & _ & M) L]. assert (Hx : v_meta x = MUnit) by (now destruct (v_meta x)).
  apply slot_pass; auto; cbn [l_align].
  - unfold vsize, zlen in *. now rewrite Hx in L.
  - rewrite Hx in V. destruct V as (_ & P & _). now apply pow2_pos.
Qed.
(** The coerced value: the same bytes with the new metadata. No allocation, nothing dropped, nothing else changed. *)
Theorem C59_unsize s a u m x w : unsizes s a u m -> wf_ty (TSized s a) -> wf_value (TSized s a) x ->
  exists w', unsize_macro s a u m x w = (Ok (Value m (v_bytes x)), w') /\ wf_value u (Value m (v_bytes x)) /\ untouched w w'.
Proof.
  intros U W G. exists (past_slot w). ands; auto using past_slot_untouched; [now apply unsize_eq|]. now apply (coerce_wf s a u m x).
Qed.
Theorem C59_by_value_str bs w : exists w', by_value_str bs w = (Ok (Value (MLen (zlen bs)) bs), w') /\ untouched w w'.
Proof.
  exists (past_slot w). split; [|apply past_slot_untouched]. unfold by_value_str. apply slot_pass; reflexivity.
Qed.

Lemma repr_untouched t j l w w' : untouched w w' -> repr t j l w -> repr t j l w'.
Proof.
  intros (H & V & _) R. apply repr_orep in R as (o & d & R). eapply orep_repr. eapply orep_agree; eauto. now rewrite V.
Qed.
Lemma others_untouched self w w1 w' : untouched w w1 -> others self w1 w' -> others self w w'.
Proof.
  intros U (O & L & K). pose proof U as (H & V & _). assert (Eo : forall j, owned_block w1 j = owned_block w j) by (intros i; unfold owned_block; now rewrite V).
  split; [|split].
  - intros t j l R [N S].
    destruct (O t j l (repr_untouched _ _ _ _ _ U R)) as (A & B & D). { split; auto. now rewrite !Eo. } ands; auto. now rewrite <- Eo.
  - intros b Lb. specialize (L b Lb). now rewrite H, Eo in L.
  - intros b Lb N. rewrite <- !H, <- Eo in *. auto.
Qed.
Lemma failed_untouched w w1 w' : untouched w w1 -> alloc_failed w1 w' \/ drop_panicked w1 w' -> alloc_failed w w' \/ drop_panicked w w'.
Proof. intros (_ & _ & _ & D & N & _) [(n & H)|(n & H)]; [left|right]; exists n; [now rewrite <- N|now rewrite <- D]. Qed.
Lemma align_untouched t j l w w1 al : repr t j l w -> untouched w w1 -> v_align t j w = (Ok al, w) -> v_align t j w1 = (Ok al, w1).
Proof.
  intros R (H & V & _) A. apply repr_orep in R as (o & d & R). assert (R1 : orep t j l o d w1) by (eapply orep_agree; eauto; now rewrite V).
  rewrite (v_align_eq _ _ _ _ _ _ R) in A. rewrite (v_align_eq _ _ _ _ _ _ R1). congruence.
Qed.
Lemma bytecap_untouched t j l w w1 n : repr t j l w -> untouched w w1 -> v_byte_capacity t j w = (Ok n, w) -> v_byte_capacity t j w1 = (Ok n, w1).
Proof.
  intros R (H & V & _) A. apply repr_orep in R as (o & d & R). assert (R1 : orep t j l o d w1) by (eapply orep_agree; eauto; now rewrite V).
  rewrite (v_byte_capacity_eq _ _ _ _ _ _ R) in A. rewrite (v_byte_capacity_eq _ _ _ _ _ _ R1). congruence.
Qed.
Lemma placeable_untouched t j l x w w1 : repr t j l w -> untouched w w1 -> placeable t j x w -> placeable t j x w1.
Proof.
  intros R U P K. destruct (P K) as (al & bc & A & B & H). exists al, bc. ands; eauto using align_untouched, bytecap_untouched.
Qed.
Lemma unsized_target s a u m : unsizes s a u m -> kind_of u <> KSized.
Proof. destruct u, m; cbn; intros H; try tauto; discriminate. Qed.

(** [push_unsize] appends the coerced value under the conditions of [push] (C01, C02). *)
Theorem C59_push_unsize_partial s a u m self l x w : unsizes s a u m -> wf_ty (TSized s a) -> countable u m -> good (TSized s a) x ->
  repr u self l w -> placeable u self (coerce m x) w ->
  run (v_push_unsize s a u m self x) w
    (fun _ w' => holds_list u self (l ++ [Value m (v_bytes x)]) w' /\ w_drops w' = w_drops w /\ others self w w')
    (fun r w' => holds_list u self l w' /\ w_drops w' = w_drops w ++ [Value m (v_bytes x)] /\ others self w w' /\
       (r = PCapacity \/ r = PDebugAssert /\ cfg_debug = true \/ r = POom /\ cfg_oom_panics = true))
    (fun w' => alloc_failed w w' \/ drop_panicked w w').
Proof.
  intros U W K G R P. pose proof (past_slot_untouched w) as Un. unfold v_push_unsize. eapply run_eq; [apply unsize_eq; auto using good_wf|].
  pose proof (repr_untouched _ _ _ _ _ Un R) as R1. pose proof (placeable_untouched _ _ _ _ _ _ R Un P) as P1.
  pose proof (coerce_good _ _ _ _ _ U W K G) as Gc. apply repr_orep in R1 as (o & d & R1).
  eapply run_conseq; [eapply pushes_of; eauto; [intros Ks; now apply unsized_target in U|eapply placeable_can; eauto]|..]; cbv beta.
  - intros _ w' (R' & _ & D & O). ands; auto using repr_holds. eapply others_untouched; eauto.
  - intros r w' (R' & _ & D & O & _ & H). ands; auto using repr_holds. eapply others_untouched; eauto.
  - intros w'. now apply failed_untouched.
Qed.
(** [insert_unsize] under the conditions of [insert] (C06). *)
Theorem C59_insert_unsize_partial s a u m self i l x w : unsizes s a u m -> wf_ty (TSized s a) -> countable u m -> good (TSized s a) x ->
  repr u self l w -> placeable u self (coerce m x) w -> (i <= length l)%nat -> movable u self l i a w -> offset_of u self i a l w (Z.of_nat i) ->
  run (v_insert_unsize s a u m self i x) w
    (fun _ w' => holds_list u self (insert_at i (Value m (v_bytes x)) l) w' /\ w_drops w' = w_drops w /\ others self w w')
    (fun r w' => holds_list u self l w' /\ w_drops w' = w_drops w ++ [Value m (v_bytes x)] /\ others self w w' /\
       (r = PCapacity \/ r = PDebugAssert /\ cfg_debug = true \/ r = POom /\ cfg_oom_panics = true))
    (fun w' => alloc_failed w w' \/ drop_panicked w w').
Proof.
  intros U W K G R P Li Mv Of. pose proof (past_slot_untouched w) as Un. unfold v_insert_unsize. eapply run_eq; [apply unsize_eq; auto using good_wf|].
  pose proof (repr_untouched _ _ _ _ _ Un R) as R1. pose proof (placeable_untouched _ _ _ _ _ _ R Un P) as P1.
  pose proof (coerce_good _ _ _ _ _ U W K G) as Gc. destruct (unsizes_size s a u m x U) as [_ Ea].
  eapply run_conseq; [eapply (C06_insert_partial u self i l (coerce m x)); eauto|..]; cbv beta; rewrite ?Ea.
  - intros Ks. now apply unsized_target in U.
  - intros Ku. destruct (Mv Ku) as [L|(al & A & E)]; auto. right. exists al. eauto using align_untouched.
  - unfold offset_of in *. destruct (kind_of u); auto. destruct Of as (al & A & E). exists al. eauto using align_untouched.
  - intros _ w' (R' & D & O). ands; auto. eapply others_untouched; eauto.
  - intros r w' (R' & D & O & _ & H). ands; auto. eapply others_untouched; eauto.
  - intros w'. now apply failed_untouched.
Qed.

(** ** C60: [UnsizedVec] from [Vec] and back *)
Lemma stdvec_obj t v xs w j : nth_error (w_vecs w) j = Some (OS v) -> (exists d, srep t j xs v d w) <-> stdvec t v xs (w_heap w).
Proof.
  intros E. split; intros (d & []); exists d; constructor; auto.
Qed.
(** The same elements, capacity and allocation. *)
Theorem C60_from_vec t v xs w : kind_of t = KSized -> stdvec t v xs (w_heap w) ->
  exists u w', v_from_vec v w = (Ok u, w') /\ holds_list t u xs w' /\ v_capacity t u w' = (Ok (s_capacity t v), w') /\
    owned_block w' u = ptr_block (sv_ptr v) /\ w_heap w' = w_heap w /\ w_drops w' = w_drops w /\ w_nalloc w' = w_nalloc w /\
    firstn (length (w_vecs w)) (w_vecs w') = w_vecs w.
Proof.
  intros K Sv. set (w' := set_vecs (w_vecs w ++ [OS v]) w). exists (length (w_vecs w)), w'.
  assert (E : nth_error (w_vecs w') (length (w_vecs w)) = Some (OS v)) by (unfold w'; proj; rewrite nth_error_app2 by auto; now rewrite Nat.sub_diag).
  destruct (proj2 (stdvec_obj t v xs w' _ E) Sv) as (d & R). pose proof (R : orep t _ xs (OS v) d w') as Ro.
  ands; auto.
  - apply repr_holds. eapply orep_repr; eauto.
  - exact (v_capacity_eq _ _ _ _ _ _ Ro).
  - exact (orep_owned _ _ _ _ _ _ Ro).
  - unfold w'. proj. rewrite firstn_app, Nat.sub_diag, firstn_all. apply app_nil_r.
Qed.
Theorem C60_into_vec t self l w : kind_of t = KSized -> repr t self l w ->
  exists v w', v_into_vec self w = (Ok v, w') /\ stdvec t v l (w_heap w') /\ v_capacity t self w = (Ok (s_capacity t v), w) /\
    ptr_block (sv_ptr v) = owned_block w self /\ w_heap w' = w_heap w /\ w_drops w' = w_drops w /\ w_nalloc w' = w_nalloc w /\
    (forall j, j <> self -> nth_error (w_vecs w') j = nth_error (w_vecs w) j) /\ nth_error (w_vecs w') self = Some ODead.
Proof.
  intros K R. apply repr_orep in R as (o & d & R). pose proof (orep_obj _ _ _ _ _ _ R) as E. destruct o as [v|v|v|]; cbn [orep] in R; try (destruct R; congruence).
  pose proof (R : orep t self l (OS v) d w) as Ro.
  exists v, (set_vecs (upd (w_vecs w) self ODead) w). ands; auto.
  - unfold v_into_vec, get_s, bind. rewrite E. reflexivity.
  - unfold set_vecs. proj. apply (stdvec_obj t v l w self E). eauto.
  - exact (v_capacity_eq _ _ _ _ _ _ Ro).
  - symmetry. exact (orep_owned _ _ _ _ _ _ Ro).
  - intros j N. unfold set_vecs. proj. apply upd_other. congruence.
  - unfold set_vecs. proj. apply upd_same. eapply nth_error_lt; eauto.
Qed.
End WithConfig.

Section Cases.
Local Existing Instance cfg_release.
Ltac built := eapply (built_repr _ _ empty_world); [exact I|intros K; discriminate K|apply takesb_ok; reflexivity|run].
Ltac built32 := eapply (built_repr _ _ empty_world); [apply wf_u32|intros K; reflexivity|apply takesb_ok; reflexivity|run].
(** Two are announced, three come. *)
Example C56_case : exists v w w', repr (TSized 4 4) v [u32 1] w /\ Forall (wf_value (TSized 4 4)) [u32 2; u32 3; u32 4] /\
  std_extend (TSized 4 4) v 2 (map (emplacable_of_value (TSized 4 4)) [u32 2; u32 3; u32 4]) w = (Ok tt, w') /\
  shows (TSized 4 4) v [u32 1; u32 2; u32 3; u32 4] w'.
Proof. do 3 eexists. split; [built32|]. split; [|split; run]. repeat (constructor; [apply good_wf, goodb_ok; reflexivity|]). constructor. Qed.
(** The second of three panics: the first stays, the third is dropped. *)
Example C56_panic_case : exists v w w', repr (TSized 4 4) v [u32 1] w /\
  std_extend (TSized 4 4) v 0 [emplacable_of_value (TSized 4 4) (u32 2); breaks_off (TSized 4 4) (u32 3) [] (PUser 6);
     emplacable_of_value (TSized 4 4) (u32 4)] w = (Panic (PUser 6), w') /\
  shows (TSized 4 4) v [u32 1; u32 2] w' /\ w_drops w' = [u32 4].
Proof. do 3 eexists. split; [built32|]. split; [run|]. split; [run|]. run. Qed.
Example C56_collect_case : exists v w', std_from_iter (TSized 4 4) 3 (map (emplacable_of_value (TSized 4 4)) [u32 2; u32 3; u32 4]) empty_world = (Ok v, w') /\
  shows (TSized 4 4) v [u32 2; u32 3; u32 4] w' /\ w_nalloc w' = 1%nat.
Proof. do 2 eexists. split; [run|]. split; [run|]. run. Qed.
(** A string and a slice of two u16. *)
Example C57_case : exists v w' u w2, emplacable_into_vec 1 (emplacable_of_value TStr ab) empty_world = (Ok v, w') /\
  shows (TSized 1 1) v [sized_val [97]; sized_val [98]] w' /\
  emplacable_into_vec 2 (emplacable_of_value (TSlice 2 2) (Value (MLen 2) (map Byte [1;2;3;4]))) w' = (Ok u, w2) /\
  shows (TSized 2 2) u [sized_val [1;2]; sized_val [3;4]] w2 /\ shows (TSized 1 1) v [sized_val [97]; sized_val [98]] w2.
Proof. do 4 eexists. do 4 (split; [run|]). run. Qed.
(** [Vec] to emplacable to [Vec] with a spare place: the new vector frees its buffer with the wrong layout. *)
Theorem C57_vec_refuted : exists v o w u w1 w2,
  (v <- v_with_capacity (TSized 1 1) 10 ;; v_push (TSized 1 1) v (sized_val [7]) ;; ret v) empty_world = (Ok v, w) /\
  get_s v w = (Ok o, w) /\
  emplacable_into_vec 1 (emplacable_of_vec 1 1 o) w = (Ok u, w1) /\
  s_drop (TSized 1 1) u w1 = (UB UbDealloc, w2).
Proof. do 6 eexists. do 3 (split; [run|]). run. Qed.
Example C57_vec_case : exists v o w u w1 w2, v_of_values (TSized 4 4) [u32 1; u32 2; u32 3; u32 4] empty_world = (Ok v, w) /\
  get_s v w = (Ok o, w) /\ sv_cap o = 4 /\ emplacable_into_vec 4 (emplacable_of_vec 4 4 o) w = (Ok u, w1) /\
  shows (TSized 4 4) u [u32 1; u32 2; u32 3; u32 4] w1 /\ s_drop (TSized 4 4) u w1 = (Ok tt, w2) /\
  w_drops w2 = [u32 1; u32 2; u32 3; u32 4].
Proof. do 6 eexists. do 6 (split; [run|]). run. Qed.
(** An over-aligned trait object: the value is 32 bytes in. *)
Definition wide32 : value := Value (MVt 7 32 32) (repeat (Byte 5) 32).
Example C58_case : exists r w w' w2, wf_value TDyn wide32 /\ rc_new_with TDyn (emplacable_of_value TDyn wide32) empty_world = (Ok r, w) /\
  (v <- rc_deref TDyn r ;; read_value TDyn v) w = (Ok wide32, w') /\
  heap_get (w_heap w) 0 = None /\ ptr_block (wp r) = Some 1%nat /\
  rc_drop TDyn r w = (Ok tt, w2) /\ w_drops w2 = [wide32] /\ heap_get (w_heap w2) 1 = None.
Proof. do 4 eexists. split; [apply good_wf, goodb_ok; reflexivity|]. do 6 (split; [run|]). run. Qed.
Definition cfg_one_alloc : Config := Build_Config false (fun n => if Nat.eqb n 1 then None else Some 1) (fun _ => false) true.
(** The second allocation fails: the value is dropped, both blocks are gone. *)
Example C58_oom_case : exists w, rc_new_with (C := cfg_one_alloc) TStr (emplacable_of_value TStr ab) empty_world = (Panic POom, w) /\
  w_drops w = [ab] /\ heap_get (w_heap w) 0 = None /\ length (w_heap w) = 1%nat.
Proof. eexists. split; [run|]. split; [run|]. split; run. Qed.
(** A string too long for an [Rc] but not for a [Box]. *)
Example C58_long_case : exists x, wf_value TStr x /\ ~ rc_fits TStr x.
Proof.
  exists (Value (MLen isize_max) (repeat (Byte 0) (Z.to_nat isize_max))). split.
  - split; [split; [|split]|]; cbn [v_meta v_bytes].
    + split; [vm_compute; discriminate|]. split; [apply pow2_1|vm_compute; discriminate].
    + reflexivity.
    + lia.
    + rewrite repeat_length, Z2Nat.id by lia. reflexivity.
  - intros H. specialize (H 16). unfold vsize, valign in H. cbn [v_meta size_of_val align_of_val] in H. specialize (H ltac:(lia) eq_refl). lia.
Qed.
(** An array of two bytes as a slice, and a number as a trait object in a vector that holds a smaller one. *)
Ltac ok_unsize := cbn; repeat split; try reflexivity; try lia.
Example C59_case : exists w w1, unsizes 2 1 (TSlice 1 1) (MLen 2) /\ wf_value (TSized 2 1) (sized_val [7; 8]) /\
  unsize_macro 2 1 (TSlice 1 1) (MLen 2) (sized_val [7; 8]) empty_world = (Ok (Value (MLen 2) [Byte 7; Byte 8]), w) /\
  by_value_str (v_bytes ab) w = (Ok ab, w1).
Proof. do 2 eexists. split; [ok_unsize|]. split; [apply good_wf, goodb_ok; reflexivity|]. split; run. Qed.
Definition u64 (n : Z) : value := sized_val [n; 0; 0; 0; 0; 0; 0; 0].
Example C59_push_case : exists v w w', repr TDyn v [half 2] w /\ unsizes 8 8 TDyn (v_meta (word 0)) /\ good (TSized 8 8) (u64 3) /\
  placeable TDyn v (coerce (v_meta (word 0)) (u64 3)) w /\
  v_push_unsize 8 8 TDyn (v_meta (word 0)) v (u64 3) w = (Ok tt, w') /\ shows TDyn v [half 2; Value (v_meta (word 0)) (v_bytes (u64 3))] w'.
Proof.
  do 3 eexists. split; [built|]. split; [ok_unsize|]. split; [apply goodb_ok; reflexivity|].
  split; [intros _; do 2 eexists; split; [run|]; split; [run|]; left; reflexivity|]. split; [run|]. run.
Qed.
Example C59_insert_case : exists v w w', repr (TSlice 1 1) v [ab; cd] w /\ movable (TSlice 1 1) v [ab; cd] 0 1 w /\
  unsizes 2 1 (TSlice 1 1) (MLen 2) /\
  v_insert_unsize 2 1 (TSlice 1 1) (MLen 2) v 0 (sized_val [7; 8]) w = (Ok tt, w') /\ shows (TSlice 1 1) v [Value (MLen 2) [Byte 7; Byte 8]; ab; cd] w'.
Proof.
  do 3 eexists. split; [eapply (built_repr _ _ empty_world); [split; [split; [lia|split; [apply pow2_1|vm_compute; discriminate]]|reflexivity]|intros K; discriminate K|apply takesb_ok; reflexivity|run]|].
  split; [intros K; discriminate K|]. split; [ok_unsize|]. split; [run|]. run.
Qed.
(** As with [push] and [insert]. *)
Theorem C59_push_unsize_refuted : exists v w w', v_new TDyn empty_world = (Ok v, w) /\ good (TSized 0 16) (Value MUnit []) /\
  unsizes 0 16 TDyn (v_meta zst16) /\
  v_push_unsize (C := cfg_dbg) 0 16 TDyn (v_meta zst16) v (Value MUnit []) w = (Panic PDebugAssert, w').
Proof. do 3 eexists. split; [run|]. split; [apply goodb_ok; reflexivity|]. split; [ok_unsize|]. run. Qed.
Theorem C59_insert_unsize_refuted : exists v w w', repr TDyn v [word 1; word 2] w /\ good (TSized 8 8) (u64 3) /\
  unsizes 8 8 TDyn (v_meta (word 0)) /\
  v_insert_unsize 8 8 TDyn (v_meta (word 0)) v 1 (u64 3) w = (Ok tt, w') /\
  ~ shows TDyn v (insert_at 1 (coerce (v_meta (word 0)) (u64 3)) [word 1; word 2]) w'.
Proof.
  do 3 eexists. split; [built|]. split; [apply goodb_ok; reflexivity|]. split; [ok_unsize|]. split; [run|].
  intro H; vm_compute in H; discriminate H.
Qed.
(** There and back: the same buffer. *)
Example C60_case : exists u w v w1 u' w2, repr (TSized 4 4) u [u32 1; u32 2; u32 3] w /\ v_into_vec u w = (Ok v, w1) /\
  v_from_vec v w1 = (Ok u', w2) /\ shows (TSized 4 4) u' [u32 1; u32 2; u32 3] w2 /\ owned_block w2 u' = owned_block w u.
Proof. do 6 eexists. split; [built32|]. do 3 (split; [run|]). run. Qed.
End Cases.

Print Assumptions C56_extend.
Print Assumptions C56_collect.
Print Assumptions C56_total.
Print Assumptions C57_into_vec.
Print Assumptions C57_vec_partial.
Print Assumptions C57_vec_refuted.
Print Assumptions C58_new_with.
Print Assumptions C58_new.
Print Assumptions C58_drop.
Print Assumptions C59_unsize.
Print Assumptions C59_by_value_str.
Print Assumptions C59_push_unsize_partial.
Print Assumptions C59_push_unsize_refuted.
Print Assumptions C59_insert_unsize_partial.
Print Assumptions C59_insert_unsize_refuted.
Print Assumptions C60_from_vec.
Print Assumptions C60_into_vec.
