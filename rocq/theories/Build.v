(** Making new vectors; reserving exactly; pushing many values. *)
From Coq Require Import ZArith List Bool Lia.
From Verif Require Import Types World ValidSize Emplace SizedVec AlignedVec UnalignedVec Api Spec Bytes Arith Wp Mem Repr
  Access Reserve Realign Orep Push Deal PushWith Shell Insert Take Pop Box Iter DropVec Family.
Import ListNotations.
Open Scope Z_scope.
Open Scope m_scope.

(** [w'] has one more vector object, [v]; nothing else changed, except inside the footprint. All new memory belongs to [v]. *)
Record newvec (v : nat) (fv fb : list nat) (w w' : world) : Prop := NewVec {
  nv_self : v = length (w_vecs w);
  nv_vecs : forall j, (j < v)%nat -> ~ In j fv -> nth_error (w_vecs w') j = nth_error (w_vecs w) j;
  nv_nvecs : length (w_vecs w') = S v;
  nv_cells : w_cells w' = w_cells w;
  nv_len : (length (w_heap w) <= length (w_heap w'))%nat;
  nv_other : forall b, (b < length (w_heap w))%nat -> ~ In b fb -> heap_get (w_heap w') b = heap_get (w_heap w) b;
  nv_new : forall b, (length (w_heap w) <= b)%nat -> heap_get (w_heap w') b <> None -> owned_block w' v = Some b;
  nv_owned : forall b, owned_block w' v = Some b -> (length (w_heap w) <= b)%nat;
  nv_nalloc : (w_nalloc w <= w_nalloc w')%nat;
  nv_drops : exists ds, w_drops w' = w_drops w ++ ds }.

Section WithConfig.
Context {C : Config}.

Lemma newvec_touch v fv fb w w1 w2 : newvec v fv fb w w1 -> touch v fv fb w1 w2 ->
  (forall b, In b fb -> (b < length (w_heap w))%nat) -> newvec v fv fb w w2.
Proof.
  intros N T Old. destruct N, T. constructor; auto; try congruence; try lia.
  - intros. rewrite to_vecs; auto. lia.
  - intros b Hb H. rewrite to_other; auto; try lia. intro O. apply nv_owned0 in O. lia.
  - intros b Hb L. assert (NI : ~ In b fb) by (intro I; specialize (Old b I); lia).
    destruct (Nat.ltb_spec b (length (w_heap w1))); [|auto].
    destruct (opt_dec (owned_block w1 v) (Some b)) as [O|O]; [auto|]. rewrite to_other in L; auto.
  - intros b O. destruct (to_owned _ O); [auto|lia].
  - destruct nv_drops0 as [ds E], to_drops as [ds' E']. exists (ds ++ ds'). rewrite E', E. now rewrite app_assoc.
Qed.
Lemma newvec_frame v fv fb w w1 w2 : newvec v fv fb w w1 -> frame v w1 w2 ->
  (forall b, In b fb -> (b < length (w_heap w))%nat) -> newvec v fv fb w w2.
Proof. intros N F O. eapply newvec_touch; eauto. now apply touch_frame. Qed.
Lemma newvec_repr v fv fb w w' t j l : newvec v fv fb w w' -> repr t j l w -> ~ In j fv -> (forall b, owned_block w j = Some b -> ~ In b fb) ->
  repr t j l w'.
Proof.
  intros N R NI NB. assert (L : (j < length (w_vecs w))%nat).
  { apply repr_orep in R as (o & d & R). eapply nth_error_lt, orep_obj; eauto. }
  pose proof (repr_owned_lt t j l w) as OL. destruct N. eapply repr_agree; eauto. apply nv_vecs0; auto. lia.
Qed.
Lemma newvec_sep v fv fb w w' t j l : newvec v fv fb w w' -> repr t j l w -> ~ In j fv -> sep w' v j.
Proof.
  intros N R NI. assert (L : (j < length (w_vecs w))%nat).
  { pose proof R as R'. apply repr_orep in R' as (o & d & R'). eapply nth_error_lt, orep_obj; eauto. }
  pose proof (repr_owned_lt t j l w) as OL. destruct N. split; [lia|].
  intros b O1 O2. apply nv_owned0 in O1. unfold owned_block in O2. rewrite nv_vecs0 in O2 by (auto; lia).
  specialize (OL b R O2). lia.
Qed.
Lemma newvec_apart v fv fb w w' gv gb : newvec v fv fb w w' -> (forall j, In j gv -> (j < length (w_vecs w))%nat) ->
  (forall b, In b gb -> (b < length (w_heap w))%nat) -> apart v gv gb w'.
Proof.
  intros [] A B. unfold apart. ands.
  - intros I. apply A in I. lia.
  - intros b I. apply B in I. lia.
  - intros b O I. apply nv_owned0 in O. apply B in I. lia.
Qed.

(** [new], [Default::default], [new_align_1]. *)
Definition new_o (t : ty) (one : bool) : obj :=
  match kind_of t with
  | KSized => OS (s_new t)
  | KAligned => OA (a_new t)
  | KUnaligned => OU (if one then u_new_align_1 else u_new_align_ptr)
  end.
Lemma new_orep t one w : wf_ty t -> orep t (length (w_vecs w)) [] (new_o t one) [] (set_vecs (w_vecs w ++ [new_o t one]) w).
Proof.
  intros W. assert (Nth : forall o, nth_error (w_vecs w ++ [o]) (length (w_vecs w)) = Some o).
  { intros o. now rewrite nth_error_app2, Nat.sub_diag by lia. }
  unfold new_o. destruct (kind_of t) eqn:K; cbn [orep].
  - pose proof (s_align_pow2 t K W) as P. pose proof (pow2_pos _ P). pose proof (pow2_max _ P).
    constructor; auto; proj; try apply Nth; cbn [s_new sv_ptr sv_cap sv_len]; try lia.
    + unfold buf. cbn. exists (s_align t). ands; auto. apply Z_mod_same_full.
    + constructor.
    + unfold s_capacity. cbn. destruct (s_size t =? 0); lia.
  - pose proof (static_align_pow2 t W) as P. pose proof (pow2_pos _ P). pose proof (pow2_max _ P).
    constructor; auto; proj; try apply Nth; cbn [a_new av_ptr av_bcap av_infos av_icap plen]; unfold icap_ok; try lia.
    + unfold buf. cbn. exists (static_align t). ands; auto. apply Z_mod_same_full.
    + constructor.
    + reflexivity.
  - assert (P1 : pow2 1) by apply pow2_1. pose proof pow2_8 as P8.
    destruct one; constructor; auto; proj; try apply Nth; cbn [u_new_align_1 u_new_align_ptr uv_ptr uv_bcap uv_infos uv_icap uv_align plen]; unfold icap_ok; try lia;
      try constructor; auto.
    + unfold buf. cbn. exists 1. ands; auto; lia.
    + reflexivity.
    + unfold buf. cbn. exists 8. ands; auto; lia.
    + reflexivity.
Qed.
Lemma new_newvec o fv fb w : obj_ptr o = None \/ (exists a, obj_ptr o = Some (Raw a)) ->
  newvec (length (w_vecs w)) fv fb w (set_vecs (w_vecs w ++ [o]) w).
Proof.
  intros Ho. assert (O : owned_block (set_vecs (w_vecs w ++ [o]) w) (length (w_vecs w)) = None).
  { unfold owned_block. proj. rewrite nth_error_app2, Nat.sub_diag by lia. cbn. destruct Ho as [->|[a ->]]; auto. }
  constructor; proj; auto.
  - intros j L _. now rewrite nth_error_app1.
  - rewrite app_length. cbn. lia.
  - intros b L H. rewrite heap_get_ge in H by auto. congruence.
  - intros b H. congruence.
  - exists []. now rewrite app_nil_r.
Qed.
Lemma new_o_raw t one : exists a, obj_ptr (new_o t one) = Some (Raw a).
Proof. unfold new_o. destruct (kind_of t); cbn; eauto. destruct one; cbn; eauto. Qed.
Lemma v_new_eq t w : v_new t w = (Ok (length (w_vecs w)), set_vecs (w_vecs w ++ [new_o t false]) w).
Proof. unfold v_new, new_o, new_obj. now destruct (kind_of t). Qed.
Lemma v_new_align_1_eq t w : v_new_align_1 t w = (Ok (length (w_vecs w)), set_vecs (w_vecs w ++ [new_o t true]) w).
Proof. unfold v_new_align_1, new_o, new_obj. now destruct (kind_of t). Qed.

Lemma orep_kind_al t self l o d w o' d' w' : orep t self l o d w -> orep t self l o' d' w' -> kind_of t = KSized -> o_al t o' = o_al t o.
Proof.
  intros R R' K. destruct o; cbn [orep] in R; try tauto; try (destruct R; congruence).
  destruct o'; cbn [orep] in R'; try tauto; try (destruct R'; congruence).
Qed.

(** ** [reserve_exact] and [try_reserve_exact] *)
Definition exact_post (t : ty) (self : nat) (l : list value) (o : obj) (n b a : Z) (w : world) (r : rres) (w' : world) : Prop :=
  exists o' d', orep t self l o' d' w' /\ quiet self w w' /\ o_cap t o <= o_cap t o' /\ o_al t o <= o_al t o' /\
    match r with
    | ROk => zlen l + n <= o_cap t o' /\
             (kind_of t <> KSized \/ b = 0 -> o_bcap t o - o_blen t o l + b <= o_bcap t o' - o_blen t o' l) /\
             (kind_of t = KAligned -> o_bcap t o' = o_bcap t o + b) /\
             (o_al t o' = req_al t o a \/ kind_of t = KUnaligned /\ o_al t o' = o_al t o /\ o_bcap t o' = 0 /\ b = 0) /\
             o_bcap t o <= o_bcap t o' /\
             (kind_of t = KUnaligned ->
                o_bcap t o' <= plen t (req_al t o a) l + (o_bcap t o - o_blen t o l) + b + 2 * (req_al t o a - 1))
    | RErr CapacityOverflow => count_overflow t o (zlen l) n false \/
           match kind_of t with
           | KAligned => isize_max - (o_al t o - 1) < o_bcap t o + b
           | KUnaligned => isize_max < plen t (req_al t o a) l + (o_bcap t o - o_blen t o l) + b + 2 * (req_al t o a - 1)
           | KSized => True
           end
    | RErr AllocError => alloc_failed w w'
    end.
Lemma v_try_reserve_exact_cba_wp t self l o d w n b a :
  orep t self l o d w -> 0 <= n -> 0 <= b -> nzst t -> (kind_of t = KUnaligned -> pow2 a) ->
  run (v_try_reserve_exact_capacity_bytes_align t self n b a) w (exact_post t self l o n b a w) (fun _ _ => False) (fun _ => False).
Proof.
  intros R N B Nz A. unfold v_try_reserve_exact_capacity_bytes_align. apply run_bind.
  eapply run_conseq; [eapply p_try_reserve_wp; eauto|..]; cbv beta; try (intros; contradiction). cbv beta.
  intros r w1 (o1 & d1 & R1 & Q1 & G1 & Gb1 & Al1 & Pal1 & Same1 & Noop & Sz & Res).
  destruct r as [|[]].
  2:{ apply run_ret. exists o1, d1. destruct Res as [-> Ov]. ands; auto; lia. }
  2:{ apply run_ret. exists o1, d1. ands; auto; lia. }
  destruct (to_align_eq t a w1 A) as (a' & Ta & Ea).
  unfold run. erewrite bind_eq by exact Ta.
  match goal with |- match ?x with _ => _ end => change (run (p_try_reserve_bytes_align t self b a') w1 (exact_post t self l o n b a w) (fun _ _ => False) (fun _ => False)) end.
  eapply run_conseq; [eapply p_try_reserve_bytes_wp; eauto; intros K; rewrite Ea; auto|..]; cbv beta; try (intros; contradiction). cbv beta zeta.
  intros r w2 (o2 & d2 & R2 & Q2 & G2 & Gs2 & Noop2 & Res2).
  assert (EM : match kind_of t with KUnaligned => Z.max (o_al t o1) a' | _ => o_al t o1 end = req_al t o a).
  { unfold req_al. rewrite Al1. destruct (kind_of t); auto. now rewrite Ea. }
  rewrite EM in Res2. clear EM.
  assert (Geq : o_al t o <= req_al t o a). { unfold req_al. destruct (kind_of t); lia. }
  assert (Bl1 : o_blen t o1 l = o_blen t o l) by (unfold o_blen; now rewrite Pal1).
  exists o2, d2. split; auto. split; [eapply quiet_trans; eauto|]. split; [lia|].
  destruct r as [|[]].
  - destruct Res2 as (E1 & E2 & E3 & E4 & E5 & E6). rewrite Al1 in E1. split.
    { destruct E1 as [->|(_ & -> & _)]; lia. }
    ands; auto; try lia.
    + intros H. rewrite Bl1 in E2. specialize (E2 H). lia.
    + intros K. destruct (Same1 ltac:(left; congruence)) as (Eb & _). rewrite E3, Eb by auto. reflexivity.
    + intros K. destruct (Same1 ltac:(left; congruence)) as (Eb & _). specialize (E4 K). rewrite Eb, Bl1 in E4. exact E4.
  - destruct Res2 as (-> & Eo & Ov). split. { destruct (kind_of t) eqn:K; [|rewrite Eo by congruence; lia..].
      pose proof (orep_kind_al _ _ _ _ _ _ _ _ _ R R2 K). lia. }
    right. destruct (kind_of t) eqn:K; auto; destruct (Same1 ltac:(left; congruence)) as (Eb & _); rewrite ?Eb, ?Al1, ?Bl1 in *; auto.
  - destruct Res2 as (-> & F & _). split; [lia|]. destruct Q1 as [Q1 _]. eapply alloc_failed_l; [|exact F]. apply Q1.
Qed.

Definition reserve_reason (r : panic_reason) : Prop := r = PCapacity \/ r = POom /\ cfg_oom_panics = true.
Lemma unwrap_wp r w (Qo : unit -> world -> Prop) (Qp : panic_reason -> world -> Prop) (Qa : world -> Prop) :
  match r with
  | ROk => Qo tt w
  | RErr CapacityOverflow => Qp PCapacity w
  | RErr AllocError => if cfg_oom_panics then Qp POom w else Qa w
  end -> run (unwrap_try_reserve_result r) w Qo Qp Qa.
Proof.
  destruct r as [|[]]; unfold unwrap_try_reserve_result, run, ret, panic, handle_alloc_error; auto. destruct cfg_oom_panics; auto.
Qed.
Lemma v_reserve_exact_cba_wp t self l o d w n b a :
  orep t self l o d w -> 0 <= n -> 0 <= b -> nzst t -> (kind_of t = KUnaligned -> pow2 a) ->
  run (v_reserve_exact_capacity_bytes_align t self n b a) w
    (fun _ w' => exact_post t self l o n b a w ROk w')
    (fun r w' => reserve_reason r /\ exists e, exact_post t self l o n b a w (RErr e) w')
    (fun w' => alloc_failed w w').
Proof.
  intros R N B Nz A. unfold v_reserve_exact_capacity_bytes_align. apply run_bind.
  eapply run_conseq; [eapply v_try_reserve_exact_cba_wp; eauto|..]; cbv beta; try tauto.
  intros r w' P. apply unwrap_wp. destruct r as [|[]]; auto.
  - split; [now left|eauto].
  - destruct cfg_oom_panics eqn:O. { split; [right; auto|eauto]. }
    destruct P as (o' & d' & _ & _ & _ & _ & F). exact F.
Qed.

(** A new vector is dropped again when its first reservation fails: nothing remains of it. *)
Lemma drop_empty_eq t self o d w : orep t self [] o d w -> v_drop t self w = (Ok tt, dropped_world self (o_ptr o) [] w).
Proof.
  intros R. pose proof (v_drop_wp t self [] o d w R) as K. unfold run in *.
  assert (X : exists w', v_drop t self w = (Ok tt, w')).
  { clear K. pose proof (orep_buf _ _ _ _ _ _ R) as Bu. unfold v_drop.
    destruct o as [v|v|v|]; cbn [orep] in R; try tauto.
    - rewrite (sr_kind _ _ _ _ _ _ R). unfold s_drop. erewrite bind_eq by (eapply get_s_eq, R).
      unfold set_obj at 1. erewrite bind_eq by reflexivity. cbv zeta. rewrite (sr_slen _ _ _ _ _ _ R).
      change (Z.to_nat (zlen [])) with 0%nat. cbn [s_drop_elems]. unfold on_unwind, bind, ret. ocbn in *.
      rewrite (dealloc_eq _ _ _ _ d) by exact Bu. eauto.
    - rewrite (ar_kind _ _ _ _ _ _ R). unfold a_drop. erewrite bind_eq by (eapply get_a_eq, R).
      unfold set_obj at 1. erewrite bind_eq by reflexivity. rewrite (ar_infos _ _ _ _ _ _ R). cbn [infos_of a_drop_elems].
      unfold on_unwind, bind, ret. ocbn in *. unfold vs_layout. rewrite (dealloc_eq _ _ _ _ d) by exact Bu. eauto.
    - rewrite (ur_kind _ _ _ _ _ _ R). unfold u_drop. erewrite bind_eq by (eapply get_u_eq, R).
      unfold set_obj at 1. erewrite bind_eq by reflexivity. rewrite (ur_infos _ _ _ _ _ _ R). cbn [infos_of u_drop_elems].
      pose proof (orep_bcap _ _ _ _ _ _ (R : orep t self [] (OU v) d w)) as Bc.
      unfold bind, ret. ocbn in *. unfold vu_layout. rewrite layout_unchecked_eq by lia. rewrite (dealloc_eq _ _ _ _ d) by exact Bu. eauto. }
  destruct X as [w' E]. rewrite E in *. now subst w'.
Qed.

(** Vector [v] is gone and nothing it allocated remains. *)
Definition vanished (v : nat) (w w' : world) : Prop :=
  nth_error (w_vecs w') v = Some ODead /\ (forall b, (length (w_heap w) <= b)%nat -> heap_get (w_heap w') b = None).
Lemma vanished_dropped t v fv fb l o d w w1 : newvec v fv fb w w1 -> orep t v l o d w1 ->
  vanished v w (dropped_world v (o_ptr o) l w1).
Proof.
  intros N R. split.
  - unfold dropped_world. proj. rewrite upd_same; auto. eapply nth_error_lt, orep_obj; eauto.
  - intros b Hb. pose proof (dropped_freed _ _ _ _ _ _ l b R) as F. destruct (opt_dec (owned_block w1 v) (Some b)) as [O|O]; [auto|].
    unfold dropped_world. proj. rewrite (orep_owned _ _ _ _ _ _ R) in O.
    destruct (heap_get (w_heap w1) b) eqn:G.
    + exfalso. apply O. rewrite <- (orep_owned _ _ _ _ _ _ R). apply (nv_new _ _ _ _ _ N); auto. congruence.
    + rewrite hfree_other; auto.
Qed.

Definition made (t : ty) (one : bool) (n b a : Z) (w : world) (v : nat) (w' : world) : Prop :=
  exists o d w1, orep t v [] o d w' /\ newvec v [] [] w w' /\ w_drops w' = w_drops w /\
    orep t v [] (new_o t one) [] w1 /\ exact_post t v [] (new_o t one) n b a w1 ROk w'.
Definition not_made (w : world) (r : panic_reason) (w' : world) : Prop :=
  reserve_reason r /\ newvec (length (w_vecs w)) [] [] w w' /\ w_drops w' = w_drops w /\ vanished (length (w_vecs w)) w w'.
Lemma make_wp t one n b a w : wf_ty t -> 0 <= n -> 0 <= b -> nzst t -> (kind_of t = KUnaligned -> pow2 a) ->
  let w1 := set_vecs (w_vecs w ++ [new_o t one]) w in
  run (on_unwind (v_reserve_exact_capacity_bytes_align t (length (w_vecs w)) n b a) (v_drop t (length (w_vecs w)))) w1
    (fun _ w' => made t one n b a w (length (w_vecs w)) w') (not_made w) (fun w' => alloc_failed w w').
Proof.
  intros W Hn Hb Nz A w1. pose proof (new_orep t one w W) as R. fold w1 in R.
  assert (N : newvec (length (w_vecs w)) [] [] w w1). { apply new_newvec. right. apply new_o_raw. }
  apply run_on_unwind. eapply run_conseq; [eapply v_reserve_exact_cba_wp; eauto|..]; cbv beta; auto.
  - intros [] w' P. pose proof P as (o' & d' & R' & Q & _). exists o', d', w1. ands; auto.
    + eapply newvec_frame; [exact N|apply Q|intros b' []].
    + destruct Q as [_ ->]. reflexivity.
  - intros r w' (Rr & e & o' & d' & R' & Q & _). unfold run. rewrite (drop_empty_eq _ _ _ _ _ R').
    assert (N' : newvec (length (w_vecs w)) [] [] w w'). { eapply newvec_frame; [exact N|apply Q|intros b' []]. }
    unfold not_made. ands; auto.
    + eapply newvec_frame; [exact N'|eapply dropped_frame; eauto|intros b' []].
    + unfold dropped_world. proj. destruct Q as [_ ->]. apply app_nil_r.
    + eapply vanished_dropped; eauto.
Qed.
Theorem v_with_capacity_bytes_align_wp t n b a w : wf_ty t -> 0 <= n -> 0 <= b -> nzst t -> (kind_of t = KUnaligned -> pow2 a) ->
  run (v_with_capacity_bytes_align t n b a) w (made t true n b a w) (not_made w) (fun w' => alloc_failed w w').
Proof.
  intros W Hn Hb Nz A. unfold v_with_capacity_bytes_align. unfold run at 1. erewrite bind_eq by apply v_new_align_1_eq.
  change (run (on_unwind (v_reserve_exact_capacity_bytes_align t (length (w_vecs w)) n b a) (v_drop t (length (w_vecs w))) ;; ret (length (w_vecs w)))
    (set_vecs (w_vecs w ++ [new_o t true]) w) (made t true n b a w) (not_made w) (fun w' => alloc_failed w w')).
  apply run_bind. eapply run_conseq; [eapply (make_wp t true n b a w); eauto|..]; cbv beta; auto.
Qed.
Theorem v_with_capacity_bytes_wp t n b w : wf_ty t -> 0 <= n -> 0 <= b -> nzst t ->
  run (v_with_capacity_bytes t n b) w (made t false n b 1 w) (not_made w) (fun w' => alloc_failed w w').
Proof.
  intros W Hn Hb Nz. unfold v_with_capacity_bytes. unfold run at 1. erewrite bind_eq by apply v_new_eq.
  change (run (on_unwind (v_reserve_exact_capacity_bytes_align t (length (w_vecs w)) n b 1) (v_drop t (length (w_vecs w))) ;; ret (length (w_vecs w)))
    (set_vecs (w_vecs w ++ [new_o t false]) w) (made t false n b 1 w) (not_made w) (fun w' => alloc_failed w w')).
  apply run_bind. eapply run_conseq; [eapply (make_wp t false n b 1 w); eauto|..]; cbv beta; auto. intros; apply pow2_1.
Qed.
Theorem v_with_capacity_wp t n w : wf_ty t -> 0 <= n -> nzst t ->
  run (v_with_capacity t n) w (made t false n 0 1 w) (not_made w) (fun w' => alloc_failed w w').
Proof.
  intros W Hn Nz. change (v_with_capacity t n) with (v_with_capacity_bytes t n 0). apply v_with_capacity_bytes_wp; auto; lia.
Qed.

(** ** Pushing many values *)
(** Values the vector can take: their alignment is met by a reservation with at least one byte, or already. *)
Definition takes (t : ty) (al : Z) (xs : list value) : Prop :=
  Forall (fun x => good t x /\ (kind_of t = KUnaligned -> 0 < vsize t x \/ valign t x <= al)) xs.
Lemma takes_mono t al al' xs : takes t al xs -> al <= al' -> takes t al' xs.
Proof. intros H L. eapply Forall_impl; [|exact H]. cbv beta. intros x [G T]. split; auto. intros K. destruct (T K); auto. right. lia. Qed.
Lemma req_al_ge t o a : o_al t o <= req_al t o a.
Proof. unfold req_al. destruct (kind_of t); lia. Qed.

Theorem v_push_values_wp t self xs : nzst t -> forall l o d w, orep t self l o d w -> takes t (o_al t o) xs ->
  run (v_push_values t self xs) w
    (fun _ w' => exists o' d', orep t self (l ++ xs) o' d' w' /\ quiet self w w' /\ o_al t o <= o_al t o')
    (fun r w' => exists xs1 x xs2 o' d', xs = xs1 ++ x :: xs2 /\ orep t self (l ++ xs1) o' d' w' /\ frame self w w' /\ w_drops w' = w_drops w ++ [x] /\
       (r = PCapacity \/ r = PDebugAssert /\ cfg_debug = true \/ r = POom /\ cfg_oom_panics = true))
    (fun w' => abort_ok w w').
Proof.
  intros Nz. induction xs as [|x xs IH]; intros l o d w R T; cbn [v_push_values].
  { apply run_ret. exists o, d. rewrite app_nil_r. ands; auto; try lia. apply quiet_refl. }
  inversion T as [|x' xs' [Gx Tx] T']; subst. apply run_bind.
  eapply run_conseq; [eapply v_push_wp; eauto|..]; cbv beta; auto.
  - intros K. destruct (Tx K); auto.
  - intros [] w1 (o1 & o2 & d1 & w2 & R1 & Q1 & _ & _ & Al & _ & Al2 & _).
    assert (Le : o_al t o <= o_al t o1). { rewrite Al, Al2. apply req_al_ge. }
    eapply run_conseq; [eapply (IH _ _ _ _ R1); eapply takes_mono; eauto|..]; cbv beta.
    + intros [] w' (o' & d' & R' & Q' & L'). exists o', d'. rewrite <- app_assoc in R'. ands; auto; try lia. eapply quiet_trans; eauto.
    + intros r w' (xs1 & y & xs2 & o' & d' & -> & R' & F' & D' & Rr). exists (x :: xs1), y, xs2, o', d'. rewrite <- app_assoc in R'.
      ands; auto. eapply frame_trans; [apply Q1|eauto]. rewrite D', (proj2 Q1). reflexivity.
    + intros w' A. destruct Q1 as [F D]. destruct A as [A|A].
      * left. eapply alloc_failed_l; [apply F|exact A].
      * right. eapply drop_panicked_from; [|exact A]. rewrite D. lia.
  - intros r w' (R' & F & D & _ & Rr). apply repr_orep in R' as (o' & d' & R').
    exists [], x, xs, o', d'. rewrite app_nil_r. ands; auto.
Qed.

(** [unsized_vec!] / [unsize_vec!]: all the values in order; when a push fails the values pushed so far are dropped with the
    vector, after the value that could not be pushed. *)
Definition built (t : ty) (xs : list value) (w : world) (v : nat) (w' : world) : Prop :=
  repr t v xs w' /\ newvec v [] [] w w' /\ w_drops w' = w_drops w.
Theorem v_of_values_wp t xs w : wf_ty t -> nzst t -> takes t 8 xs ->
  run (v_of_values t xs) w (built t xs w)
    (fun r w' => newvec (length (w_vecs w)) [] [] w w' /\ (r = PCapacity \/ r = PDebugAssert /\ cfg_debug = true \/ r = POom /\ cfg_oom_panics = true) /\
       exists xs1 x xs2, xs = xs1 ++ x :: xs2 /\ w_drops w' = w_drops w ++ x :: xs1 /\ vanished (length (w_vecs w)) w w')
    (fun w' => abort_ok w w').
Proof.
  intros W Nz T. unfold v_of_values. unfold run at 1. erewrite bind_eq by apply v_new_eq.
  set (w1 := set_vecs (w_vecs w ++ [new_o t false]) w). set (v := length (w_vecs w)).
  pose proof (new_orep t false w W) as R. fold w1 v in R.
  assert (N : newvec v [] [] w w1). { apply new_newvec. right. apply new_o_raw. }
  apply (run_bind (on_unwind (v_push_values t v xs) (v_drop t v)) (fun _ => ret v)). apply run_on_unwind.
  eapply run_conseq; [eapply v_push_values_wp; eauto|..]; cbv beta.
  - unfold new_o, o_al. destruct (kind_of t) eqn:K; eapply Forall_impl; try exact T; cbv beta; intros x [G H]; split; auto; congruence.
  - intros [] w' (o' & d' & R' & Q & _). apply run_ret. unfold built. ands.
    + apply (orep_repr _ _ _ _ _ _ R').
    + eapply newvec_frame; [exact N|apply Q|intros b []].
    + destruct Q as [_ ->]. reflexivity.
  - intros r w' (xs1 & x & xs2 & o' & d' & -> & R' & F & D & Rr).
    assert (N' : newvec v [] [] w w'). { eapply newvec_frame; [exact N|exact F|intros b []]. }
    eapply run_conseq; [eapply v_drop_wp; eauto|..]; cbv beta.
    + intros [] w2 ->. ands; auto.
      * eapply newvec_frame; [exact N'|eapply dropped_frame; eauto|intros b []].
      * exists xs1, x, xs2. ands; auto. unfold dropped_world. proj. rewrite D. unfold w1. proj. now rewrite <- app_assoc.
        eapply vanished_dropped; eauto.
    + intros _ w2 (_ & Dp & _). right. eapply drop_panicked_from; [|exact Dp]. rewrite D, app_length. unfold w1. proj. lia.
    + intros w2 (_ & Dp). right. eapply drop_panicked_from; [|exact Dp]. rewrite D, app_length. unfold w1. proj. lia.
  - intros w' A. exact A.
Qed.
End WithConfig.
