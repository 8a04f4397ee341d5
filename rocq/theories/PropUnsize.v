(** C31: converting a whole vector of Sized elements with [unsize]. Reading guide: see PropPush.v. *)
From Coq Require Import ZArith List Bool Lia.
From Verif Require Import Types World ValidSize Emplace SizedVec AlignedVec UnalignedVec Api Spec Bytes Arith Wp Mem Repr
  Access Reserve Realign Orep Push Deal PushWith Shell Insert Take Pop Box Iter Calls DropVec Family Build Obs Room Shrink Findings
  PropPush PropReserve.
Import ListNotations.
Open Scope Z_scope.
Open Scope m_scope.

(** [S: Unsize<U>] for an [S] of this size and alignment, where the coerced pointer gets the metadata [m]: arrays to slices,
    types to trait objects, structs with an array tail to structs with a slice tail. *)
Definition unsizes (s a : Z) (u : ty) (m : meta) : Prop :=
  match u, m with
  | TSlice es ea, MLen n => 0 <= n <= usize_max /\ s = n * es /\ a = ea
  | TDyn, MVt _ sz al => sz = s /\ al = a
  | TTail h es al, MLen n => 0 <= n /\ s = pad (h + n * es) al /\ a = al
  | _, _ => False
  end.
Definition coerce (m : meta) (x : value) : value := Value m (v_bytes x).

Section WithConfig.
Context {C : Config}.

Lemma unsizes_size s a u m x : unsizes s a u m -> vsize u (coerce m x) = s /\ valign u (coerce m x) = a.
Proof. unfold vsize, valign. destruct u, m; cbn; intuition. Qed.
Lemma unsizes_static s a u m : unsizes s a u m -> kind_of u = KAligned -> static_align u = a.
Proof. destruct u, m; cbn; intuition congruence. Qed.
Lemma coerce_wf s a u m x : unsizes s a u m -> wf_ty (TSized s a) -> wf_value (TSized s a) x -> wf_value u (coerce m x).
Proof.
  intros U [W Md] [(V & _ & T) L]. destruct (unsizes_size s a u m x U) as [E1 E2]. unfold vsize, valign in *. cbn [v_meta coerce] in *.
  assert (Em : v_meta x = MUnit) by (destruct (v_meta x); tauto). rewrite Em in *. cbn in L.
  split; [|unfold vsize; cbn [v_meta coerce v_bytes]; rewrite E1; exact L].
  cbn [coerce v_meta]. unfold wf_meta. rewrite E1, E2. split; auto. split; auto. destruct u, m; cbn in U; try tauto.
Qed.
(** A slice of zero-sized elements keeps no length (F11), unless it is empty. *)
Definition countable (u : ty) (m : meta) : Prop := forall ea, u = TSlice 0 ea -> m = MLen 0.
Lemma coerce_good s a u m x : unsizes s a u m -> wf_ty (TSized s a) -> countable u m -> good (TSized s a) x -> good u (coerce m x).
Proof.
  intros U W K [V _]. pose proof (coerce_wf _ _ _ _ _ U W V) as V'. split; auto.
  destruct u as [| es ea | | | | ]; try (apply good_of_wf; auto; intros; discriminate).
  destruct (Z.eq_dec es 0) as [->|N].
  - unfold storable. cbn. specialize (K ea eq_refl). now rewrite K.
  - apply good_of_wf; auto. congruence.
Qed.

Lemma from_sized_ends u m s len w : 0 <= s -> Z.of_nat len * s <= isize_max - (static_align u - 1) -> 0 < static_align u ->
  from_sized_infos u m s len w = (Ok (map (fun i => Info (from_metadata u m) (Z.of_nat i * s)) (seq 0 len)), w).
Proof.
  intros S L P. unfold from_sized_infos. apply mapM_map. intros i I. apply in_seq in I.
  assert (Z.of_nat i * s <= Z.of_nat len * s) by nia.
  erewrite bind_eq by (apply umul_eq; lia). erewrite bind_eq by (apply vs_new_unchecked_eq; lia). reflexivity.
Qed.
Lemma u_from_sized_ends u m s len w : 0 <= s -> Z.of_nat len * s <= isize_max ->
  u_from_sized_infos u m s len w = (Ok (map (fun i => Info (from_metadata u m) (Z.of_nat i * s)) (seq 0 len)), w).
Proof.
  intros S L. unfold u_from_sized_infos. apply mapM_map. intros i I. apply in_seq in I.
  assert (Z.of_nat i * s <= Z.of_nat len * s) by nia.
  erewrite bind_eq by (apply umul_eq; lia). erewrite bind_eq by (apply vs_new_unchecked_eq; lia). reflexivity.
Qed.

(** The object [unsize] makes of a Sized vector. *)
Definition unsized_obj (a : Z) (s : Z) (u : ty) (m : meta) (v : svec) (n : nat) : obj :=
  let infos := map (fun i => Info (from_metadata u m) (Z.of_nat i * s)) (seq 0 n) in
  match kind_of u with
  | KAligned => OA (AVec (sv_ptr v) (sv_cap v * s) infos (Z.of_nat n))
  | _ => OU (UVec (sv_ptr v) (sv_cap v * s) infos (Z.of_nat n) a)
  end.
(** How collecting the element infos fails: more of them than an allocation can hold, or no memory. The old vector has
    been taken apart by then; its block stays allocated and its elements are never dropped. *)
Definition unsize_lost (u : ty) (self : nat) (l : list value) (w : world) (r : panic_reason) (w' : world) : Prop :=
  (r = POom /\ alloc_failed w w' \/ r = PCapacity /\ isize_max - 7 < zlen l * info_size u) /\
  w_vecs w' = upd (w_vecs w) self ODead /\ w_heap w' = w_heap w /\ w_drops w' = w_drops w.
Lemma v_unsize_wp s a u m self l v d w : srep (TSized s a) self l v d w -> unsizes s a u m ->
  run (v_unsize s a u m self) w
    (fun _ w' => zlen l * info_size u <= isize_max - 7 /\ exists w1, (w1 = w \/ w1 = bump_alloc w) /\
       w' = set_vecs (upd (w_vecs w) self (unsized_obj a s u m v (length l))) w1)
    (unsize_lost u self l w) (fun w' => alloc_failed w w').
Proof.
  intros R U. pose proof (sr_wf _ _ _ _ _ _ R) as W. destruct W as [(S0 & P & _) _]. pose proof (pow2_pos _ P) as Pa.
  pose proof (sr_bcap _ _ _ _ _ _ R) as Bc. change (s_size (TSized s a)) with s in *. change (s_align (TSized s a)) with a in *.
  pose proof (sr_fit _ _ _ _ _ _ R) as Fit. unfold s_capacity in Fit. change (s_size (TSized s a)) with s in *.
  pose proof (sr_zst _ _ _ _ _ _ R) as Zc. change (s_size (TSized s a)) with s in *.
  pose proof (sr_slen _ _ _ _ _ _ R) as SL. pose proof (sr_cap0 _ _ _ _ _ _ R) as C0.
  assert (Ls : Z.of_nat (length l) * s <= isize_max - (a - 1)).
  { unfold zlen in Fit. destruct (Z.eqb_spec s 0) as [->|]; [|nia]. pose proof (pow2_max _ P). rewrite Z.mul_0_r. lia. }
  assert (Cp : (if s =? 0 then usize_max else sv_cap v) * s = sv_cap v * s) by (destruct (Z.eqb_spec s 0) as [->|]; lia).
  set (wd := set_vecs (upd (w_vecs w) self ODead) w).
  assert (Go : forall (f : M (list info)) (g : list info -> obj) is, (forall w1, f w1 = (Ok is, w1)) ->
     run (infos_collect u (zlen l) ;; infos <- f ;; set_obj self (g infos)) wd
       (fun _ w' => zlen l * info_size u <= isize_max - 7 /\ exists w1, (w1 = w \/ w1 = bump_alloc w) /\
          w' = set_vecs (upd (w_vecs w) self (g is)) w1) (unsize_lost u self l w) (fun w' => alloc_failed w w')).
  { intros f g is F. unfold infos_collect. destruct (zlen l =? 0) eqn:Z0.
    - eapply run_eq. reflexivity. eapply run_eq. { apply F. } eapply run_eq1. reflexivity.
      apply Z.eqb_eq in Z0. rewrite Z0. split; [lia|]. exists w. split; auto. unfold wd, set_vecs. proj. now rewrite upd_upd.
    - destruct (Z.leb_spec (zlen l * info_size u) (isize_max - 7)) as [Le|Gt].
      + apply run_bind, run_bind. destruct (cfg_alloc (w_nalloc w)) eqn:K.
        * eapply run_eq1. { unfold ask_alloc, wd. cbn [w_nalloc set_vecs]. rewrite K. reflexivity. }
          eapply run_eq1. reflexivity. eapply run_eq. { apply F. } eapply run_eq1. reflexivity.
          split; auto. exists (bump_alloc w). split; auto. unfold wd, set_vecs, bump_alloc. proj. now rewrite upd_upd.
        * eapply run_eq1. { unfold ask_alloc, wd. cbn [w_nalloc set_vecs]. rewrite K. reflexivity. }
          assert (A : alloc_failed w (bump_alloc wd)) by (exists (w_nalloc w); unfold wd; proj; split; [lia|exact K]).
          unfold handle_alloc_error. destruct cfg_oom_panics; [|exact A].
          apply run_panic. split; [auto|]. repeat split.
      + apply run_bind. apply run_panic. split; [right; split; auto|]. repeat split. }
  unfold v_unsize, unsized_obj. destruct (kind_of u) eqn:K.
  - destruct u; try discriminate K. cbn in U. tauto.
  - assert (Ea : static_align u = a) by (eapply unsizes_static; eauto).
    unfold a_from_sized. eapply run_eq. { eapply get_s_eq, R. } eapply run_eq. reflexivity. fold wd.
    eapply run_eq. { apply umul_eq. rewrite Cp. lia. } rewrite Cp.
    eapply run_eq. { apply vs_new_unchecked_eq. rewrite Ea. lia. }
    rewrite SL. replace (Z.to_nat (zlen l)) with (length l) by (unfold zlen; now rewrite Nat2Z.id).
    apply (Go _ (fun infos => OA (AVec (sv_ptr v) (sv_cap v * s) infos (zlen l)))).
    intros w1. apply from_sized_ends; rewrite ?Ea; auto.
  - unfold u_from_sized. eapply run_eq. { eapply get_s_eq, R. } eapply run_eq. reflexivity. fold wd.
    eapply run_eq. { apply umul_eq. rewrite Cp. lia. } rewrite Cp.
    eapply run_eq. { apply vs_new_unchecked_eq. lia. }
    rewrite SL. replace (Z.to_nat (zlen l)) with (length l) by (unfold zlen; now rewrite Nat2Z.id).
    apply (Go _ (fun infos => OU (UVec (sv_ptr v) (sv_cap v * s) infos (zlen l) a))).
    intros w1. apply u_from_sized_ends; auto. lia.
Qed.

Lemma zero_infos u al m l s : 0 < al -> (forall x, vsize u (coerce m x) = s) -> s = 0 -> forall k,
  map (fun i => Info (from_metadata u m) (Z.of_nat i * s)) (seq k (length l)) = infos_of u al 0 (map (coerce m) l).
Proof.
  intros P V ->. induction l as [|x l IH]; intros k; [reflexivity|]. cbn [length seq map infos_of]. rewrite IH.
  assert (E : psz u al (coerce m x) = 0) by (unfold psz; rewrite V; apply pad_0; auto). rewrite E. f_equal.
  unfold info_of. rewrite V. cbn [v_meta coerce]. f_equal. lia.
Qed.
Lemma zero_contents u al m d s a l : 0 < al -> (forall x, vsize u (coerce m x) = s) -> s = 0 -> Forall (good (TSized s a)) l ->
  contents u al 0 (map (coerce m) l) d.
Proof.
  intros P V ->. induction 1 as [|x l G F IH]; cbn [map contents]; auto.
  assert (E : psz u al (coerce m x) = 0) by (unfold psz; rewrite V; apply pad_0; auto). rewrite E. split; auto.
  rewrite V, sub_zero. cbn [coerce v_bytes]. destruct G as [[(_ & _ & T) L] _]. unfold vsize in L.
  destruct (v_meta x); try tauto. cbn in L. destruct (v_bytes x); auto. cbn [length] in L. lia.
Qed.
Lemma zero_plen u al m s l : 0 < al -> (forall x, vsize u (coerce m x) = s) -> s = 0 -> plen u al (map (coerce m) l) = 0.
Proof.
  intros P V ->. induction l; cbn [map plen]; auto. rewrite IHl. unfold psz. rewrite V, pad_0; auto.
Qed.

(** ** C31 *)
(** Full statement: as below for every [l] and [s]. It holds when the vector is empty or the elements are zero-sized; it is
    false whenever there is an element with a byte in it (C31_never_right). *)
Theorem C31_unsize_partial s a u m self l w : repr (TSized s a) self l w -> unsizes s a u m -> wf_ty u -> countable u m ->
  l = [] \/ s = 0 ->
  run (v_unsize s a u m self) w
    (fun _ w' => holds_list u self (map (coerce m) l) w' /\ w_drops w' = w_drops w /\ others self w w')
    (unsize_lost u self l w) (fun w' => alloc_failed w w').
Proof.
  intros R U W K Z. unfold repr in R. cbn [kind_of] in R. destruct R as (v & d & R).
  eapply run_conseq; [eapply v_unsize_wp; eauto|..]; cbv beta; auto.
  intros _ w' (I & w1 & Ew & ->).
  pose proof (sr_wf _ _ _ _ _ _ R) as Ws. destruct (proj1 Ws) as (S0 & P & _). pose proof (pow2_pos _ P) as Pa.
  pose proof (sr_bcap _ _ _ _ _ _ R) as Bc. pose proof (sr_buf _ _ _ _ _ _ R) as Bf.
  change (s_size (TSized s a)) with s in *. change (s_align (TSized s a)) with a in *.
  pose proof (nth_error_lt _ _ _ (sr_obj _ _ _ _ _ _ R)) as LT.
  assert (V : forall x, vsize u (coerce m x) = s) by (intros x; now apply (unsizes_size s a u m x)).
  assert (Gd : Forall (good u) (map (coerce m) l)).
  { pose proof (sr_good _ _ _ _ _ _ R) as G. apply Forall_forall. intros y Hy. apply in_map_iff in Hy as (x & <- & Hx).
    rewrite Forall_forall in G. apply (coerce_good s a); auto. }
  assert (Inf : forall al, 0 < al -> map (fun i => Info (from_metadata u m) (Z.of_nat i * s)) (seq 0 (length l)) = infos_of u al 0 (map (coerce m) l)).
  { intros al A. destruct Z as [->|Z]; [reflexivity|]. now apply zero_infos. }
  assert (Ct : forall al, 0 < al -> contents u al 0 (map (coerce m) l) d).
  { intros al A. destruct Z as [->|Z]; [exact Logic.I|]. eapply (zero_contents u al m d s a); eauto. apply R. }
  assert (Pl : forall al, 0 < al -> plen u al (map (coerce m) l) = 0).
  { intros al A. destruct Z as [->|Z]; [reflexivity|]. eapply zero_plen; eauto. }
  pose proof (sr_cap0 _ _ _ _ _ _ R) as C0.
  assert (ML : zlen (map (coerce m) l) = zlen l) by (unfold zlen; now rewrite map_length).
  pose proof (zlen_nonneg l) as Zn.
  assert (Rp : forall w1, w1 = w \/ w1 = bump_alloc w ->
            repr u self (map (coerce m) l) (set_vecs (upd (w_vecs w) self (unsized_obj a s u m v (length l))) w1)).
  { clear w1 Ew. intros w1 Ew.
    assert (Hh : w_heap w1 = w_heap w) by (destruct Ew as [->| ->]; reflexivity).
    unfold repr, unsized_obj. destruct (kind_of u) eqn:Ku.
    - destruct u; try discriminate Ku. destruct U.
    - assert (Ea : static_align u = a) by (eapply unsizes_static; eauto).
      eexists _, d. constructor; cbn [av_ptr av_bcap av_infos av_icap w_vecs w_heap set_vecs]; rewrite ?Ea, ?Hh, ?ML;
        try (now apply upd_same); try (now apply Inf); try (now apply Ct); try (rewrite Pl by lia); unfold icap_ok, zlen in *;
        rewrite ?map_length; auto; proj; try lia; try nia.
    - eexists _, d. constructor; cbn [uv_ptr uv_bcap uv_infos uv_icap uv_align w_vecs w_heap set_vecs]; rewrite ?Hh, ?ML;
        try (now apply upd_same); try (now apply Inf); try (now apply Ct); try (rewrite Pl by lia); unfold icap_ok, zlen in *;
        rewrite ?map_length; auto; proj; try lia; try nia.
      + apply Forall_forall. intros y Hy. apply in_map_iff in Hy as (x & <- & Hx). destruct (unsizes_size s a u m x U). lia.
      + rewrite Pl by lia. nia.
      + apply mod_mul_0; auto. apply Ws. }
  split; [apply repr_holds; auto|]. split; [destruct Ew as [->| ->]; reflexivity|].
  apply others_frame. apply (frame_trans self w w1).
  - destruct Ew as [->| ->]; [apply frame_refl|apply frame_bump].
  - replace (w_vecs w) with (w_vecs w1) by (destruct Ew as [->| ->]; reflexivity).
    apply (frame_set_obj self w1 _ (sv_ptr v)).
    + destruct Ew as [->| ->]; exact LT.
    + unfold unsized_obj. destruct (kind_of u); reflexivity.
    + unfold owned_block. destruct Ew as [->| ->]; proj; rewrite (sr_obj _ _ _ _ _ _ R); reflexivity.
Qed.

(** The general form of the defect: every vector with a non-empty element comes out with the wrong contents. One element's
    bytes are missing from [byte_len()]. *)
Lemma last_end_ends u m s n : (0 < n)%nat ->
  last_end (map (fun i => Info (from_metadata u m) (Z.of_nat i * s)) (seq 0 n)) = (Z.of_nat n - 1) * s.
Proof.
  destruct n as [|n]; [lia|]. intros _. rewrite seq_S, map_app. cbn [map]. rewrite last_end_snoc. cbn [i_end]. f_equal. lia.
Qed.
Theorem C31_byte_len_short s a u m self l w w' : repr (TSized s a) self l w -> unsizes s a u m -> l <> [] ->
  v_unsize s a u m self w = (Ok tt, w') -> v_byte_len u self w' = (Ok ((zlen l - 1) * s), w').
Proof.
  intros R U N E. unfold repr in R. cbn [kind_of] in R. destruct R as (v & d & R).
  pose proof (run_of_eq _ _ _ _ _ _ _ (v_unsize_wp s a u m self l v d w R U) E) as (_ & w1 & Ew & ->).
  pose proof (nth_error_lt _ _ _ (sr_obj _ _ _ _ _ _ R)) as LT.
  pose proof (sr_wf _ _ _ _ _ _ R) as [(S0 & P & _) Md]. pose proof (pow2_pos _ P) as Pa. pose proof (pow2_max _ P).
  pose proof (sr_bcap _ _ _ _ _ _ R) as Bc. pose proof (sr_fit _ _ _ _ _ _ R) as Fit. unfold s_capacity in Fit.
  change (s_size (TSized s a)) with s in *. change (s_align (TSized s a)) with a in *.
  assert (Ln : (0 < length l)%nat) by (destruct l; cbn; [congruence|lia]).
  assert (Ls : Z.of_nat (length l) * s <= isize_max - (a - 1)).
  { unfold zlen in Fit. destruct (Z.eqb_spec s 0) as [->|]; [|nia]. rewrite Z.mul_0_r. lia. }
  unfold v_byte_len, unsized_obj, zlen. destruct (kind_of u) eqn:Ku.
  - destruct u; try discriminate Ku. destruct U.
  - erewrite bind_eq by (apply get_a_eq; proj; now apply upd_same). unfold ret, a_byte_len. proj. now rewrite last_end_ends.
  - erewrite bind_eq by (apply get_u_eq; proj; now apply upd_same). unfold u_aligned_byte_len, u_unaligned_byte_len. proj.
    rewrite last_end_ends by auto.
    assert (Mm : ((Z.of_nat (length l) - 1) * s) mod a = 0) by (apply mod_mul_0; auto).
    rewrite unchecked_pad_to_spec; auto; rewrite ?pad_id by auto; auto; try nia.
Qed.
Theorem C31_never_right s a u m self l w w' : repr (TSized s a) self l w -> unsizes s a u m -> l <> [] -> 0 < s ->
  v_unsize s a u m self w = (Ok tt, w') -> ~ repr u self (map (coerce m) l) w'.
Proof.
  intros R U N S E R'. pose proof (C31_byte_len_short s a u m self l w w' R U N E) as B.
  apply repr_orep in R' as (o & d & R'). rewrite (v_byte_len_eq _ _ _ _ _ _ R') in B. injection B as B.
  assert (X : zlen l * s <= o_blen u o (map (coerce m) l)); [|lia].
  unfold o_blen. pose proof (pow2_pos _ (orep_pal _ _ _ _ _ _ R')) as P. clear -U P.
  induction l as [|x l IH]; [reflexivity|]. cbn [map plen]. rewrite zlen_cons.
  pose proof (psz_ge u (o_pal o) P (coerce m x)). destruct (unsizes_size s a u m x U). lia.
Qed.

(** What becomes of the vector when [unsize] panics: its buffer stays allocated and belongs to nobody, and no element is
    ever dropped. This is so for every vector, also one that C31_unsize_partial does not cover. *)
Theorem C31_failure_leaks s a u m self l w b r w' : repr (TSized s a) self l w -> unsizes s a u m ->
  owned_block w self = Some b -> v_unsize s a u m self w = (Panic r, w') ->
  (r = POom /\ alloc_failed w w' \/ r = PCapacity /\ isize_max - 7 < zlen l * info_size u) /\
  heap_get (w_heap w') b = heap_get (w_heap w) b /\ w_drops w' = w_drops w /\
  owned_block w' self = None /\ forall j, sep w self j -> owned_block w' j <> Some b.
Proof.
  intros R U O E. unfold repr in R. cbn [kind_of] in R. destruct R as (v & d & R).
  pose proof (v_unsize_wp s a u m self l v d w R U) as X. unfold run in X. rewrite E in X. destruct X as (Y & Ev & Eh & Ed).
  split; auto. rewrite Eh. split; auto. split; auto.
  split. { unfold owned_block. now rewrite Ev, upd_same by (eapply nth_error_lt, R). }
  intros j [Nj S]. unfold owned_block in *. rewrite Ev, upd_other by auto.
  destruct (nth_error (w_vecs w) self); try discriminate O. intros K. rewrite O, K in S. exact (S _ eq_refl eq_refl).
Qed.
End WithConfig.

Print Assumptions C31_unsize_partial.
Print Assumptions C31_failure_leaks.
Print Assumptions C31_byte_len_short.
Print Assumptions C31_never_right.

(** ** Cases meeting the hypotheses *)
Section Cases.
Local Existing Instance cfg_release.
(** An empty vector of u32 with a buffer for four becomes a vector of trait objects, and then takes one. *)
Example C31_case : exists v w w' w'', v_with_capacity (TSized 4 4) 4 empty_world = (Ok v, w) /\
  unsizes 4 4 TDyn (MVt 2 4 4) /\ countable TDyn (MVt 2 4 4) /\ v_unsize 4 4 TDyn (MVt 2 4 4) v w = (Ok tt, w') /\
  v_byte_capacity TDyn v w' = (Ok 16, w') /\ v_push TDyn v (half 3) w' = (Ok tt, w'') /\ shows TDyn v [half 3] w''.
Proof.
  do 4 eexists. split; [run|]. split; [split; reflexivity|]. split; [intros ea E; discriminate E|]. split; [run|].
  split; [run|]. split; [run|]. run.
Qed.
(** Three zero-sized elements, from a [Vec<()>], become three trait objects. *)
Definition units : world := World [] [OS (SVec (Raw 1) 0 3)] [] [] 0 0.
Lemma units_repr : repr (TSized 0 1) 0 (repeat (Value MUnit []) 3) units.
Proof.
  eexists _, []. assert (P : pow2 1) by apply pow2_1.
  assert (W : wf_ty (TSized 0 1)) by (split; [split; [lia|split; [exact P|lia]]|reflexivity]).
  constructor; try reflexivity; try exact W; try discriminate; try lia.
  - repeat constructor; cbn; auto; try lia; exact P.
  - exists 1. repeat split.
  - repeat split.
Qed.
Example C31_zst_case : exists w', repr (TSized 0 1) 0 (repeat (Value MUnit []) 3) units /\ unsizes 0 1 TDyn (MVt 7 0 1) /\
  v_unsize 0 1 TDyn (MVt 7 0 1) 0 units = (Ok tt, w') /\ shows TDyn 0 (repeat (Value (MVt 7 0 1) []) 3) w'.
Proof.
  eexists. split; [exact units_repr|]. split; [split; reflexivity|]. split; [run|]. run.
Qed.
(** Two u32s: C31_never_right applies, and here is what comes out. *)
Example C31_wrong_case : exists v w w', repr (TSized 4 4) v [u32 1; u32 2] w /\ unsizes 4 4 TDyn (MVt 2 4 4) /\
  v_unsize 4 4 TDyn (MVt 2 4 4) v w = (Ok tt, w') /\ v_byte_len TDyn v w' = (Ok 4, w').
Proof.
  do 3 eexists. split; [eapply (built_repr _ _ empty_world); [apply wf_u32|intros K; reflexivity|apply takesb_ok; reflexivity|run]|].
  split; [split; reflexivity|]. split; [run|]. run.
Qed.
End Cases.
(** Two u32s, and no memory for their infos where running out of memory unwinds: the eight bytes' buffer is lost. *)
Section Leak.
Definition cfg_first : Config := Build_Config false (fun n => if Nat.eqb n 0 then Some 1 else None) (fun _ => false) true.
Local Existing Instance cfg_first.
Example C31_leak_case : exists v w w' b, repr (TSized 4 4) v [u32 1; u32 2] w /\ unsizes 4 4 TDyn (MVt 2 4 4) /\
  owned_block w v = Some b /\ v_unsize 4 4 TDyn (MVt 2 4 4) v w = (Panic POom, w') /\
  nth_error (w_vecs w') v = Some ODead /\ heap_get (w_heap w') b <> None /\ w_drops w' = [].
Proof.
  do 4 eexists. split; [eapply (built_repr _ _ empty_world); [apply wf_u32|intros K; reflexivity|apply takesb_ok; reflexivity|run]|].
  split; [split; reflexivity|]. split; [run|]. split; [run|]. split; [run|]. split; [vm_compute; discriminate|]. run.
Qed.
End Leak.
