(** The guards of the partial theorems cannot be dropped: for EVERY input outside a guard the code goes wrong in the way
    described here. Where a property is refuted by one run elsewhere ([..._refuted]), these theorems say what happens in
    all such cases: removing the last element behind an unpadded one (C08), inserting at the end behind an unpadded one
    (C06, C07), pushing a zero-sized over-aligned value (C02, C15), and so on.

    [ends m w Qo Qp Qa Qu]: like [run], but undefined behaviour is an outcome of its own. *)
From Coq Require Import ZArith List Bool Lia.
From Verif Require Import Types World ValidSize Emplace SizedVec AlignedVec UnalignedVec Api Spec Bytes Arith Wp Mem Repr
  Access Reserve Realign Orep Push Deal PushWith Shell Insert Take Pop Box Iter Calls DropVec Family Build Obs Room Findings
  PropPush PropEdit PropWhole Sources Copies PropEmplace Convert StdVec PropConvert.
Import ListNotations.
Open Scope Z_scope.
Open Scope m_scope.

Definition ends {A} (m : M A) (w : world) (Qo : A -> world -> Prop) (Qp : panic_reason -> world -> Prop) (Qa : world -> Prop)
    (Qu : ub_reason -> Prop) : Prop :=
  match m w with
  | (Ok a, w') => Qo a w'
  | (Panic r, w') => Qp r w'
  | (Abort, w') => Qa w'
  | (UB r, _) => Qu r
  end.
Lemma ends_bind {A B} (m : M A) (k : A -> M B) w Qo Qp Qa Qu :
  ends m w (fun a w' => ends (k a) w' Qo Qp Qa Qu) Qp Qa Qu -> ends (bind m k) w Qo Qp Qa Qu.
Proof. unfold ends, bind. destruct (m w) as [[a|r| |r] w']; auto. Qed.
Lemma ends_run {A} (m : M A) w Qo Qp Qa Qu : run m w Qo Qp Qa -> ends m w Qo Qp Qa Qu.
Proof. unfold run, ends. destruct (m w) as [[a|r| |r] w']; auto. contradiction. Qed.
Lemma ends_eq {A B} (m : M A) (k : A -> M B) a w w1 Qo Qp Qa Qu : m w = (Ok a, w1) -> ends (k a) w1 Qo Qp Qa Qu ->
  ends (bind m k) w Qo Qp Qa Qu.
Proof. intros E H. unfold ends. erewrite bind_eq by exact E. exact H. Qed.
Lemma ends_conseq {A} (m : M A) w (Qo Qo' : A -> world -> Prop) (Qp Qp' : panic_reason -> world -> Prop) (Qa Qa' : world -> Prop)
    (Qu Qu' : ub_reason -> Prop) :
  ends m w Qo Qp Qa Qu -> (forall a w', Qo a w' -> Qo' a w') -> (forall r w', Qp r w' -> Qp' r w') ->
  (forall w', Qa w' -> Qa' w') -> (forall r, Qu r -> Qu' r) -> ends m w Qo' Qp' Qa' Qu'.
Proof. unfold ends. destruct (m w) as [[a|r| |r] w']; auto. Qed.
Lemma usub_under a b w : a < b -> usub a b w = (UB UbArith, w).
Proof. intros H. unfold usub. rewrite (proj2 (Z.leb_gt _ _)) by lia. reflexivity. Qed.
Lemma vs_sub_under al a b w : a < b -> vs_unchecked_sub al a b w = (UB UbArith, w).
Proof. intros H. unfold vs_unchecked_sub, bind. now rewrite usub_under. Qed.
Lemma bind_ub {A B} (m : M A) (k : A -> M B) r w w' : m w = (UB r, w') -> bind m k w = (UB r, w').
Proof. intros E. unfold bind. now rewrite E. Qed.

(** The last element of [l ++ [y]] does not fill its slot. *)
Lemma unpadded t a l y : 0 < a -> good t y -> vsize t y mod a <> 0 -> ulen t a (l ++ [y]) < plen t a (l ++ [y]).
Proof.
  intros P G N. rewrite ulen_snoc, plen_app. cbn [plen]. unfold psz. pose proof (pad_ge (vsize t y) a P) as L.
  assert (pad (vsize t y) a <> vsize t y). { intros E. apply N. rewrite <- E. apply pad_mult; auto. } lia.
Qed.

Section WithConfig.
Context {C : Config}.

(** ** C08, C27: removing the last element behind an unpadded one *)
(** Whatever the consumer [E] does with the element: if it returns and leaves the vector alone, what follows is undefined
    behaviour. *)
Lemma remove_last_underflows t self l y x al w E Qp Qa : kind_of t = KUnaligned -> repr t self (l ++ [y; x]) w ->
  v_align t self w = (Ok al, w) -> vsize t y mod al <> 0 ->
  (forall r, behind t r x (w_heap w) -> ptr_block (wp r) = owned_block w self -> run (E (elem_layout t x) (v_meta x) (take t r (vsize t x))) w
     (fun _ w2 => nth_error (w_vecs w2) self = nth_error (w_vecs w) self) Qp Qa) ->
  ends (p_remove_into_unchecked t self (S (length l)) E) w (fun _ _ => False) Qp Qa (eq UbArith).
Proof.
  intros K R Al Un He. apply repr_orep in R as (o & d & R). rewrite (v_align_eq _ _ _ _ _ _ R) in Al. injection Al as <-.
  replace (l ++ [y; x]) with ((l ++ [y]) ++ x :: []) in R by now rewrite <- app_assoc.
  replace (S (length l)) with (length (l ++ [y])) by (rewrite app_length; cbn; lia).
  pose proof R as R'. unfold ends. rewrite (rem_form _ _ _ _ _ _ _ _ R).
  match goal with |- match ?b _ with _ => _ end => change (ends b (set_vecs (upd (w_vecs w) self (rem_obj t o (l ++ [y]) [] x)) w) (fun _ _ => False) Qp Qa (eq UbArith)) end.
  pose proof (orep_behind _ _ _ _ _ _ _ _ R (nth_mid (l ++ [y]) [] x)) as B.
  pose proof (orep_obj _ _ _ _ _ _ R) as Ob. pose proof (orep_owned _ _ _ _ _ _ R) as Ow.
  destruct o as [v|v|v|]; ocbn in *; try tauto; try (destruct R; congruence). cbn [rem_obj].
  rewrite set_vecs_same by auto. apply ends_bind. eapply ends_conseq; [apply (ends_run _ _ _ _ _ (eq UbArith)), (He _ B)|..]; auto.
  { rewrite Ow. cbn [wp eref]. apply padd_block. }
  cbv beta. intros _ w2 Hv. rewrite Ob in Hv.
  unfold rem_post. rewrite K. destruct R.
  eapply ends_eq; [apply get_u_eq; exact Hv|]. rewrite ur_infos.
  pose proof (pow2_pos _ ur_al) as P.
  eapply ends_eq; [apply infos_sub_eq; auto; lia|].
  eapply ends_eq; [reflexivity|]. rewrite last_end_infos, app_nil_r.
  unfold ends. erewrite bind_ub; [reflexivity|]. apply vs_sub_under.
  apply unpadded; auto. apply Forall_app in ur_good as [G _]. apply Forall_app in G as [_ G]. now inversion G.
Qed.
Lemma v_remove_into_last t self l y x w : repr t self (l ++ [y; x]) w ->
  v_remove_into t self (S (length l)) w = (Ok (fun E => p_remove_into_unchecked t self (S (length l)) E), w).
Proof.
  intros R. unfold v_remove_into. erewrite bind_eq by (eapply v_len_eq; eauto). rewrite (proj2 (Z.ltb_lt _ _)). reflexivity.
  unfold zlen. rewrite app_length. cbn. lia.
Qed.
(** Forgetting the removed element, dropping it, or boxing it: never a regular return. *)
Theorem C27_forget_last_never t self l y x al w : kind_of t = KUnaligned -> repr t self (l ++ [y; x]) w ->
  v_align t self w = (Ok al, w) -> vsize t y mod al <> 0 ->
  ends (e <- v_remove_into t self (S (length l)) ;; emplacable_forget e) w (fun _ _ => False) (fun _ _ => False) (fun _ => False) (eq UbArith).
Proof.
  intros K R Al Un. eapply ends_eq; [eapply v_remove_into_last; eauto|]. eapply remove_last_underflows; eauto.
  intros r B _. apply run_ret. reflexivity.
Qed.
Theorem C27_drop_last_never t self l y x al w : kind_of t = KUnaligned -> repr t self (l ++ [y; x]) w ->
  v_align t self w = (Ok al, w) -> vsize t y mod al <> 0 ->
  ends (e <- v_remove_into t self (S (length l)) ;; emplacable_drop e) w (fun _ _ => False)
    (fun r w' => r = PDrop /\ drop_panicked w w') (fun _ => False) (eq UbArith).
Proof.
  intros K R Al Un. eapply ends_eq; [eapply v_remove_into_last; eauto|]. eapply remove_last_underflows; eauto.
  intros r B _. unfold dropping_emplacer, take. cbn [is_null null Z.eqb]. unfold run. rewrite (drop_in_place_eq t r x) by auto.
  apply run_sound. apply run_drop_value; intros D; auto. split; auto. now apply drop_panicked_1.
Qed.
Theorem C08_remove_last_never t self l y x al w : kind_of t = KUnaligned -> repr t self (l ++ [y; x]) w ->
  v_align t self w = (Ok al, w) -> vsize t y mod al <> 0 ->
  ends (remove_box t self (S (length l))) w (fun _ _ => False)
    (fun r w' => r = POom /\ alloc_failed w w') (fun w' => alloc_failed w w') (eq UbArith).
Proof.
  intros K R Al Un. eapply ends_eq; [eapply v_remove_into_last; eauto|]. unfold box_new_with.
  eapply ends_eq; [reflexivity|]. set (wc := set_cells _ _). apply ends_bind.
  assert (Rc : repr t self (l ++ [y; x]) wc).
  { apply repr_orep in R as (o & d & R). eapply orep_repr, orep_foot; [|exact R]. unfold agree; auto. }
  assert (Gx : good t x). { apply repr_orep in R as (o & d & R). eapply orep_elem; eauto. apply in_or_app; right; right; now left. }
  eapply ends_conseq.
  { eapply (remove_last_underflows t self l y x al wc _ (fun r w' => r = POom /\ alloc_failed w w') (fun w' => alloc_failed w w')); eauto.
    - apply repr_orep in Rc as (o & d & Rc). apply repr_orep in R as (o' & d' & R). rewrite (v_align_eq _ _ _ _ _ _ Rc).
      rewrite (v_align_eq _ _ _ _ _ _ R) in Al. injection Al as <-. pose proof (orep_obj _ _ _ _ _ _ Rc). pose proof (orep_obj _ _ _ _ _ _ R).
      cbn in *. congruence.
    - intros r B _. unfold box_new_with_emplacer. apply run_bind. apply box_alloc_wp.
      + apply good_size; auto.
      + now apply elem_box_align.
      + intros p w2 RM. destruct RM as [RB RV RC RD RL RO RN RFr RNa].
        assert (B2 : behind t r x (w_heap w2)).
        { eapply behind_agree; [|exact B]. intros b E. apply RO. eapply behind_lt; eauto. }
        apply run_bind, run_on_unwind. unfold take.
        assert (Nn : is_null p = false). { rewrite <- (padd_0 p). eapply buf_nonnull; eauto. } rewrite Nn.
        pose proof (elem_box_size t x Gx) as Sz.
        pose proof (heap_write_buf _ _ _ _ _ 0 (v_bytes x) RB ltac:(lia) ltac:(lia)) as HW. rewrite padd_0 in HW.
        eapply run_eq1.
        { eapply copy_out_eq; [exact B2| |exact HW].
          intros b E E'. specialize (RFr b E). pose proof (behind_lt _ _ _ _ _ B E'). lia. }
        eapply run_eq1; [reflexivity|]. cbn. now rewrite RV.
      + intros F. unfold handle_alloc_error. destruct cfg_oom_panics.
        * apply run_panic. split; auto. exists (w_nalloc wc). split; [cbn; lia|auto].
        * unfold run. cbn. exists (w_nalloc wc). split; [cbn; lia|auto]. }
  all: auto.
  intros; contradiction.
Qed.

(** ** C06, C07: inserting at the end behind an unpadded element *)
Lemma ends_prefix {A B} (m1 : M A) (m2 : A -> M B) (m3 : B -> M unit) (k : M unit) w Qo Qp Qa Qu :
  run (r <- m1 ;; r <- m2 r ;; m3 r ;; ret tt) w (fun _ w' => ends k w' Qo Qp Qa Qu) Qp Qa ->
  ends (r <- m1 ;; r <- m2 r ;; m3 r ;; k) w Qo Qp Qa Qu.
Proof.
  unfold run, ends, bind, ret. destruct (m1 w) as [[a|r| |r] w1]; auto; [|contradiction].
  destruct (m2 a w1) as [[b|r| |r] w2]; auto; [|contradiction]. destruct (m3 b w2) as [[[]|r| |r] w3]; auto. contradiction.
Qed.
Lemma plen_last_fits t self l o d w : orep t self l o d w -> kind_of t = KUnaligned ->
  0 <= plen t (o_pal o) l <= o_bcap t o.
Proof.
  intros R K. pose proof (orep_fit _ _ _ _ _ _ R) as F. pose proof (pow2_pos _ (orep_pal _ _ _ _ _ _ R)) as P.
  pose proof (plen_nonneg t _ P l (orep_good _ _ _ _ _ _ R)). unfold o_blen in F. lia.
Qed.
Lemma ins_place_end t self l y v d w x : urep t self (l ++ [y]) v d w -> good t x -> room t (OU v) (l ++ [y]) x ->
  vsize t y mod uv_align v <> 0 -> exists w', ins_place t self (length (l ++ [y])) (vsize t x) w = (UB UbArith, w').
Proof.
  intros R G Rm Un. assert (R0 : orep t self (l ++ [y]) (OU v) d w) by exact R.
  destruct (plen_last_fits _ _ _ _ _ _ R0 (ur_kind _ _ _ _ _ _ R)) as [P0 Pf].
  pose proof (orep_holds _ _ _ _ _ _ R0) as Hh. pose proof (orep_shell _ _ _ _ _ _ R0) as (_ & Co & _).
  destruct (holds_insert t (OU v) (l ++ [y]) (length (l ++ [y])) x Co Hh G Rm ltac:(lia)) as (_ & Bp). unfold psz, o_blen in Bp.
  pose proof (good_size t x G) as Sx. pose proof (orep_buf _ _ _ _ _ _ R0) as Bu. clear R0 Co Hh. ocbn in *.
  unfold ins_place. rewrite (ur_kind _ _ _ _ _ _ R). destruct R. pose proof (pow2_pos _ ur_al) as P.
  erewrite bind_eq by (eapply get_u_eq; eauto).
  erewrite bind_eq by (apply unchecked_pad_to_spec; auto; lia).
  erewrite bind_eq by (eapply u_start_offset_eq; eauto; lia). rewrite firstn_all.
  erewrite bind_eq by (eapply ptr_add_buf; eauto; lia).
  unfold u_unaligned_byte_len. rewrite ur_infos, last_end_infos.
  eexists. apply bind_ub, vs_sub_under, unpadded; auto. apply Forall_app in ur_good as [_ Gy]. now inversion Gy.
Qed.
(** Any emplacable; the vector's alignment will be [Z.max al (valign ...)] by the time of the insertion. *)
Theorem C07_insert_with_end_never t self l y al w e S : kind_of t = KUnaligned -> repr t self (l ++ [y]) w -> emits e S w ->
  good t (d_value S) -> fits t (d_lay S) (d_value S) -> apart self (d_fv S) (d_fb S) w -> placeable t self (d_value S) w ->
  v_align t self w = (Ok al, w) -> vsize t y mod Z.max al (valign t (d_value S)) <> 0 ->
  ends (v_insert_with t self (length (l ++ [y])) e) w (fun _ _ => False)
    (fun r w' => holds_list t self (l ++ [y]) w' /\ (r = PCapacity \/ r = POom /\ cfg_oom_panics = true))
    (fun w' => alloc_failed w w') (eq UbArith).
Proof.
  intros K R [_ EM] G F AP Pl Al Un. apply repr_orep in R as (o & d & R). rewrite (v_align_eq _ _ _ _ _ _ R) in Al. injection Al as <-.
  pose proof (placeable_can _ _ _ _ _ _ _ R Pl) as Ca.
  destruct (EM w (agree_refl _ _ _)) as (inner & post & w1 & Ee & Wi & D1 & RF & Wr & _ & _).
  pose proof (orep_within _ _ _ _ _ _ _ _ _ Wi R AP) as R1. assert (NA : (w_nalloc w <= w_nalloc w1)%nat) by apply Wi.
  unfold v_insert_with. eapply ends_eq. { eapply v_len_eq. eapply orep_repr; eauto. }
  rewrite (proj2 (Z.leb_le _ _)) by (unfold zlen; lia).
  destruct (p_insert_with_form t self (length (l ++ [y])) e) as (E & E1 & Ef). unfold ends. erewrite E1 by eauto. rewrite Ee.
  assert (X : bind (E (d_lay S) (d_meta S) inner) (fun _ => post) w1
            = bind (ins_emplacer t self (length (l ++ [y])) (d_lay S) (d_meta S) inner) (fun _ => post) w1).
  { unfold bind. erewrite Ef by eauto. reflexivity. }
  rewrite X. match goal with |- match ?b _ with _ => _ end => change (ends b w1 (fun _ _ => False)
    (fun r w' => holds_list t self (l ++ [y]) w' /\ (r = PCapacity \/ r = POom /\ cfg_oom_panics = true))
    (fun w' => alloc_failed w w') (eq UbArith)) end.
  apply ends_bind. unfold ins_emplacer. apply ends_prefix. eapply with_reserve_wp; eauto.
  - left. intros Z; congruence.
  - intros o2 d2 w2 R2 Q2 Rm A2 _. apply run_ret.
    destruct o2 as [v|v|v|]; ocbn in *; try tauto; try (destruct R2; congruence).
    unfold req_al in A2. rewrite K in A2. rewrite (proj1 F). unfold ends.
    destruct (ins_place_end t self l y v d2 w2 (d_value S) R2 G Rm) as (w' & Ei). { rewrite A2. exact Un. }
    erewrite bind_ub by exact Ei. reflexivity.
  - intros r w' R' Q' _ Re. split; auto. now apply repr_holds.
  - intros w' A. eapply alloc_failed_l; eauto.
Qed.

Lemma on_unwind_ub {A} (m : M A) k r w w' : m w = (UB r, w') -> on_unwind m k w = (UB r, w').
Proof. intros E. unfold on_unwind. now rewrite E. Qed.
Theorem C06_insert_end_never t self l y al w x : kind_of t = KUnaligned -> repr t self (l ++ [y]) w -> good t x ->
  placeable t self x w -> v_align t self w = (Ok al, w) -> vsize t y mod Z.max al (valign t x) <> 0 ->
  ends (v_insert t self (length (l ++ [y])) x) w (fun _ _ => False)
    (fun r w' => holds_list t self (l ++ [y]) w' /\ w_drops w' = w_drops w ++ [x])
    (fun w' => abort_ok w w') (eq UbArith).
Proof.
  intros K R G Pl Al Un. apply repr_orep in R as (o & d & R). rewrite (v_align_eq _ _ _ _ _ _ R) in Al. injection Al as <-.
  pose proof (placeable_can _ _ _ _ _ _ _ R Pl) as Ca. unfold v_insert. apply ends_bind.
  assert (Eq : owned x (len <- v_len t self ;;
                 (if Z.of_nat (length (l ++ [y])) <=? len then v_reserve_capacity_bytes_align t self 1 (vsize t x) (valign t x)
                  else panic PBounds)) w
             = owned x (v_reserve_capacity_bytes_align t self 1 (vsize t x) (valign t x)) w).
  { unfold owned, on_unwind. erewrite bind_eq by (eapply v_len_eq, orep_repr; eauto).
    rewrite (proj2 (Z.leb_le _ _)) by (unfold zlen; lia). reflexivity. }
  unfold ends at 1. rewrite Eq. apply (ends_run _ _ _ _ _ (eq UbArith)).
  eapply run_conseq; [eapply add_reserve_wp; eauto|..]; cbv beta; auto.
  - intros Z; congruence.
  - intros [] w1 (o1 & d1 & R1 & Q1 & L1 & B1 & A1 & Al1 & _). unfold ends, p_insert_unchecked. rewrite K.
    assert (Rm : room t o1 (l ++ [y]) x) by (unfold room; auto).
    pose proof (plen_last_fits _ _ _ _ _ _ R1 K) as [P0 Pf].
    pose proof (orep_holds _ _ _ _ _ _ R1) as Hh. pose proof (orep_shell _ _ _ _ _ _ R1) as (_ & Co & _).
    destruct (holds_insert t o1 (l ++ [y]) (length (l ++ [y])) x Co Hh G Rm ltac:(lia)) as (_ & Bp). unfold psz, o_blen in Bp.
    pose proof (good_size t x G) as Sx. clear Co Hh. destruct o1 as [v|v|v|]; ocbn in *; try tauto; try (destruct R1; congruence).
    unfold req_al in Al1. rewrite K in Al1. unfold u_insert_unchecked, owned.
    pose proof (u_byte_len_eq _ _ _ _ _ _ R1) as UB. pose proof R1 as []. pose proof (pow2_pos _ ur_al) as P.
    erewrite on_unwind_ub. { reflexivity. }
    erewrite bind_eq by (eapply get_u_eq; eauto).
    erewrite bind_eq by (apply dassert_eq, Nat.leb_le; rewrite ur_infos, infos_of_length; auto).
    erewrite bind_eq by (apply dassert_eq, Z.ltb_lt; rewrite ur_infos, infos_of_zlen; auto).
    erewrite bind_eq by (apply unchecked_pad_to_spec; auto; lia).
    erewrite bind_eq.
    2: { destruct cfg_debug; [|reflexivity]. erewrite bind_eq by exact UB. apply dassert_eq, Z.leb_le. lia. }
    erewrite bind_eq by (apply dassert_eq, Z.leb_le; auto).
    cbv zeta. erewrite bind_eq by (eapply u_start_offset_eq; eauto; lia). rewrite firstn_all.
    unfold u_unaligned_byte_len. rewrite ur_infos, last_end_infos. apply bind_ub, vs_sub_under, unpadded; auto.
    + apply Forall_app in ur_good as [_ Gy]. now inversion Gy.
    + rewrite Al1. exact Un.
  - intros r w' (R' & _ & D & _). auto using repr_holds.
Qed.

(** ** C02, C15: an over-aligned value without bytes, in a vector without bytes *)
Lemma plen_zero t a b : 0 < a -> 0 < b -> forall l, Forall (good t) l -> plen t a l <= 0 -> plen t b l = 0.
Proof.
  intros Pa Pb. induction 1 as [|x l G Gl IH]; intros H; [reflexivity|]. cbn [plen] in *.
  pose proof (psz_ge t a Pa x) as P1. pose proof (good_size t x G) as P2. pose proof (plen_nonneg t a Pa l Gl).
  rewrite IH by lia. unfold psz. replace (vsize t x) with 0 by lia. rewrite pad_0 by auto. reflexivity.
Qed.
Lemma u_reserve_unraised t self l v d w al : urep t self l v d w -> uv_bcap v = 0 -> uv_align v < al -> pow2 al ->
  u_try_reserve_bytes_align t self 0 al w =
  (Ok ROk, set_vecs (upd (w_vecs w) self (OU (UVec (dangling_thin al) 0 (uv_infos v) (uv_icap v) (uv_align v)))) w).
Proof.
  intros R B L P. unfold u_try_reserve_bytes_align. erewrite bind_eq by (eapply get_u_eq, R).
  erewrite bind_eq by (eapply u_byte_len_eq, R). destruct R. rewrite B in *. rewrite (Z.max_r _ al) by lia.
  pose proof (pow2_pos _ ur_al) as Pa. pose proof (pow2_pos _ P) as Pb. pose proof (plen_nonneg t _ Pa l ur_good) as Pn.
  assert (Z0 : plen t (uv_align v) l = 0) by lia. pose proof (plen_zero t _ al Pa Pb l ur_good ltac:(lia)) as Z1.
  rewrite (proj2 (Z.ltb_lt _ _)) by lia. cbn [negb andb orb].
  erewrite bind_eq.
  2: { unfold u_len_after_realign_up. erewrite bind_eq by (apply dassert_eq; apply Z.leb_le; lia). rewrite ur_infos.
       pose proof (u_len_after_loop_eq t (uv_align v) al ur_al P ltac:(lia) l ur_good 0 0 w ltac:(lia) ltac:(apply Z.mod_0_l; lia) ltac:(lia) ltac:(lia)) as E.
       rewrite !Z.add_0_l, Z.sub_diag in E. exact E. }
  rewrite Z1, Z0. rewrite (proj2 (Z.leb_le 0 isize_max)) by lia.
  erewrite bind_eq by (apply vs_unchecked_sub_eq; lia). cbn [Z.sub Z.add Z.opp].
  assert (Pz : pad 0 al = 0) by (now apply pad_0).
  rewrite !checked_add_pad_spec by (auto; lia). cbn [Z.add]. rewrite !Pz. rewrite (proj2 (Z.leb_le 0 isize_max)) by lia.
  rewrite checked_add_pad_spec by (auto; lia). cbn [Z.add]. rewrite !Pz. rewrite (proj2 (Z.leb_le 0 isize_max)) by lia.
  reflexivity.
Qed.
Theorem C02_push_unraised t self l x al w : kind_of t = KUnaligned -> repr t self l w -> good t x ->
  v_align t self w = (Ok al, w) -> v_byte_capacity t self w = (Ok 0, w) -> vsize t x = 0 -> al < valign t x ->
  run (v_push t self x) w
    (fun _ w' => cfg_debug = false /\ v_align t self w' = (Ok al, w') /\ v_len t self w' = (Ok (zlen l + 1), w'))
    (fun r w' => holds_list t self l w' /\ w_drops w' = w_drops w ++ [x] /\
       (r = PDebugAssert /\ cfg_debug = true \/ r = PCapacity \/ r = POom /\ cfg_oom_panics = true))
    (fun w' => abort_ok w w').
Proof.
  intros K R G Al Bc Sz Lt. apply repr_orep in R as (o & d & R). rewrite (v_align_eq _ _ _ _ _ _ R) in Al. injection Al as <-.
  rewrite (v_byte_capacity_eq _ _ _ _ _ _ R) in Bc. injection Bc as Bc. pose proof (good_align t x G) as Ax.
  unfold v_push. apply run_bind. unfold owned at 1. apply run_on_unwind.
  unfold v_reserve_capacity_bytes_align. apply run_bind. unfold v_try_reserve_capacity_bytes_align, v_try_reserve. apply run_bind.
  eapply run_conseq. { eapply p_try_reserve_wp; eauto. lia. } all: cbv beta; try (intros; tauto).
  intros r w1 (o1 & d1 & R1 & Q1 & Ge1 & Gb1 & Ea1 & Ep1 & Un1 & Noop1 & Gr1 & Res1).
  assert (Fail : forall w2 (p : panic_reason), repr t self l w2 -> quiet self w w2 ->
    (p = PDebugAssert /\ cfg_debug = true \/ p = PCapacity \/ p = POom /\ cfg_oom_panics = true) ->
    run (drop_value x) w2 (fun _ w' => holds_list t self l w' /\ w_drops w' = w_drops w ++ [x] /\
       (p = PDebugAssert /\ cfg_debug = true \/ p = PCapacity \/ p = POom /\ cfg_oom_panics = true))
      (fun _ w' => abort_ok w w') (fun w' => abort_ok w w')).
  { intros w2 p R2 Q2 Hp. pose proof (proj2 Q2) as Dr. apply run_drop_value; intros E.
    - ands; auto. { apply repr_holds, repr_drops; auto. } proj. now rewrite Dr.
    - right. exists (length (w_drops w2)). split; auto. proj. rewrite Dr, app_length. cbn. lia. }
  destruct r as [|e].
  2: { apply run_ret. apply unwrap_wp. apply orep_repr in R1. destruct e; [apply Fail; auto|].
       destruct cfg_oom_panics eqn:Oo; [apply Fail; auto|]. left; auto. }
  destruct (Un1 ltac:(left; congruence)) as (Ub & _). rewrite Bc in Ub.
  pose proof (orep_fit _ _ _ _ _ _ R1) as Fit. pose proof (orep_blen_nonneg _ _ _ _ _ _ R1) as Bl0.
  eapply run_eq. { eapply v_capacity_eq; eauto. }
  eapply run_eq. { eapply v_len_eq, orep_repr; eauto. }
  eapply run_eq. { apply dassert_eq. apply Z.leb_le. lia. }
  destruct (to_align_eq t (valign t x) w1 (fun _ => Ax)) as (a' & TA & EA). rewrite (EA K) in TA.
  eapply run_eq. { exact TA. }
  eapply run_eq. { eapply v_byte_capacity_eq; eauto. }
  eapply run_eq. { eapply unused_eq; eauto. }
  cbv zeta. rewrite Sz. unfold sat_sub. rewrite (Z.max_l 0) by lia. rewrite !Z.ltb_irrefl.
  destruct o1 as [v|v|v|]; cbn [orep] in R1; try tauto; try (destruct R1; congruence). ocbn in *.
  unfold p_try_reserve_bytes_align. rewrite K.
  pose proof (u_reserve_unraised t self l v d1 w1 (valign t x) R1 ltac:(lia) ltac:(lia) Ax) as Er.
  pose proof (u_try_reserve_bytes_align_wp t self l v d1 w1 0 (valign t x) R1 ltac:(lia) Ax) as W. cbv zeta in W.
  set (v2 := UVec _ _ _ _ _) in *. set (w2 := set_vecs _ _) in *. unfold run in W. rewrite Er in W.
  destruct W as (v' & d2 & R2 & Q2 & _).
  assert (v' = v2) as ->.
  { pose proof (ur_obj _ _ _ _ _ _ R2) as Ob. unfold w2 in Ob. cbn [w_vecs set_vecs] in Ob. rewrite upd_same in Ob by (eapply nth_error_lt, R1). congruence. }
  eapply run_eq. { exact Er. }
  assert (R2o : orep t self l (OU v2) d2 w2) by exact R2.
  assert (Q : quiet self w w2) by (eapply quiet_trans; eauto).
  eapply run_eq.
  { instantiate (1 := w2). instantiate (1 := tt). destruct cfg_debug eqn:Db; [|reflexivity].
    erewrite bind_eq by (eapply (v_byte_capacity_eq _ _ _ (OU v2)); eauto).
    erewrite bind_eq by (eapply (v_byte_len_eq _ _ _ (OU v2)); eauto). apply dassert_eq, Z.leb_le.
    pose proof (orep_fit _ _ _ _ _ _ R2o). lia. }
  apply run_ret. unfold unwrap_try_reserve_result. apply run_ret.
  unfold p_push_unchecked. rewrite K. unfold u_push_unchecked, owned. apply run_on_unwind.
  pose proof (u_byte_len_eq _ _ _ _ _ _ R2) as BL.
  pose proof (orep_fit _ _ _ _ _ _ R2o) as F2. pose proof (orep_blen_nonneg _ _ _ _ _ _ R2o) as B2. unfold o_blen in F2, B2. ocbn in *. assert (Bv : uv_bcap v2 = 0) by reflexivity.
  eapply run_eq. { eapply get_u_eq, R2. }
  eapply run_eq. { apply dassert_eq, Z.ltb_lt. rewrite (ur_infos _ _ _ _ _ _ R2), infos_of_zlen. cbn [uv_icap v2]. lia. }
  eapply run_eq.
  { instantiate (1 := w2). instantiate (1 := tt). destruct cfg_debug eqn:Db; [|reflexivity]. erewrite bind_eq by exact BL. apply dassert_eq, Z.leb_le. lia. }
  unfold dassert at 1. rewrite (proj2 (Z.leb_gt (valign t x) (uv_align v2))) by (cbn [uv_align v2]; lia). cbn [negb].
  destruct cfg_debug eqn:Db; cbn [andb].
  { apply run_bind. apply (Fail w2 PDebugAssert); auto.
    apply (orep_repr _ _ _ (OU v2) d2). exact R2. }
  eapply run_eq. { reflexivity. } cbv zeta.
  eapply run_eq. { exact BL. }
  eapply run_eq. { eapply ptr_add_buf; [apply R2|lia]. }
  eapply run_eq. { unfold mem_write, heap_write. rewrite (good_bytes t x G), Sz. reflexivity. }
  eapply run_eq. { apply vs_unchecked_add_eq; lia. }
  eapply run_eq. { apply infos_push_eq. rewrite (ur_infos _ _ _ _ _ _ R2), infos_of_zlen. cbn [uv_icap v2]. lia. }
  eapply run_eq1. { reflexivity. }
  pose proof (nth_error_lt _ _ _ (ur_obj _ _ _ _ _ _ R2)) as LT.
  ands; auto.
  - unfold v_align. rewrite K. erewrite bind_eq. 2: { eapply get_u_eq. proj. apply upd_same; auto. } cbn [uv_align v2]. now rewrite Ea1.
  - unfold v_len. rewrite K. erewrite bind_eq. 2: { eapply get_u_eq. proj. apply upd_same; auto. }
    cbn [uv_infos]. rewrite (ur_infos _ _ _ _ _ _ R2). unfold zlen. rewrite app_length, infos_of_length. cbn [length].
    unfold ret. do 2 f_equal. lia.
Qed.

(** ** C29: the destructor of a removed element panics *)
(** In every case (any kind, any position) the element that was dropped is still counted as being in the vector: whatever
    drops the vector runs its destructor again. (For Sized types all but the last element are still counted, so there the
    exception is the last position.) *)
Theorem C29_destructor_panics t self i l x w : repr t self l w -> nth_error l i = Some x ->
  cfg_drop_panics (length (w_drops w)) = true ->
  exists w', remove_then t self i emplacable_drop w = (Panic PDrop, w') /\ w_drops w' = w_drops w ++ [x] /\ others self w w' /\
    holds_list t self (match kind_of t with KSized => removelast l | _ => l end) w'.
Proof.
  intros R Ex Dp. pose proof R as R0. apply repr_orep in R as (o & d & R).
  destruct (remove_split _ _ _ Ex) as (a & b & -> & -> & _).
  rewrite (remove_then_eq _ _ _ _ _ _ _ R0 Ex). unfold emplacable_drop. rewrite (rem_form _ _ _ _ _ _ _ _ R).
  pose proof (orep_behind _ _ _ _ _ _ _ _ R (nth_mid a b x)) as B.
  set (w1 := set_vecs _ _) in *.
  assert (E' : dropping_emplacer (elem_layout t x) (v_meta x) (take t (eref t o (a ++ x :: b) (length a) x) (vsize t x)) w1
               = (Panic PDrop, set_drops (w_drops w ++ [x]) w1)).
  { unfold dropping_emplacer, take. cbn [is_null null Z.eqb]. rewrite (drop_in_place_eq t _ x) by exact B.
    unfold drop_value. unfold w1 at 1. proj. now rewrite Dp. }
  exists (set_drops (w_drops w ++ [x]) w1). unfold bind. rewrite E'. split; [reflexivity|].
  assert (R1 : exists o1, orep t self (match kind_of t with KSized => removelast (a ++ x :: b) | _ => a ++ x :: b end) o1 d w1 /\ o_ptr o1 = o_ptr o).
  { pose proof (orep_with _ _ _ _ _ _ R) as Ew. pose proof (orep_obj _ _ _ _ _ _ R) as Ob. pose proof (orep_shell _ _ _ _ _ _ R) as Sh.
    destruct o as [v|v|v|].
    - assert (K : kind_of t = KSized) by (apply (sr_kind _ _ _ _ _ _ R)). rewrite K.
      destruct (exists_last (l := a ++ x :: b) ltac:(now destruct a)) as (l0 & z & El).
      assert (Ln : zlen (a ++ b) = zlen l0).
      { pose proof (f_equal (@length value) El) as F. rewrite !app_length in F. cbn in F. unfold zlen. rewrite app_length. lia. }
      unfold w1. cbn [rem_obj]. rewrite El in *. rewrite removelast_last.
      exists (o_with t (OS v) l0). split; [|reflexivity]. rewrite Ln.
      change (OS (SVec (sv_ptr v) (sv_cap v) (zlen l0))) with (o_with t (OS v) l0).
      apply shell_make; auto.
      + eapply holds_app. eapply orep_holds; eauto. apply Sh.
      + pose proof (orep_data _ _ _ _ _ _ R) as X. now apply contents_app in X.
    - rewrite (ar_kind _ _ _ _ _ _ R). exists (OA v). unfold w1. cbn [rem_obj]. rewrite set_vecs_same by auto. auto.
    - rewrite (ur_kind _ _ _ _ _ _ R). exists (OU v). unfold w1. cbn [rem_obj]. rewrite set_vecs_same by auto. auto.
    - destruct R. }
  destruct R1 as (o1 & R1 & Ep).
  assert (R' : orep t self (match kind_of t with KSized => removelast (a ++ x :: b) | _ => a ++ x :: b end) o1 d (set_drops (w_drops w ++ [x]) w1)).
  { eapply orep_foot; [|exact R1]. unfold agree; auto. }
  ands; auto.
  - eapply others_within; [exact R|exact R'|exact Ep|]. eapply within_trans; [apply within_set_vec|]. apply within_drops.
  - eapply repr_holds, orep_repr; eauto.
Qed.
(** ... and dropping the vector then runs it again. *)
Corollary C29_dropped_again t self i l x w w' w2 : kind_of t <> KSized -> repr t self l w -> nth_error l i = Some x ->
  cfg_drop_panics (length (w_drops w)) = true -> remove_then t self i emplacable_drop w = (Panic PDrop, w') ->
  v_drop t self w' = (Ok tt, w2) -> w_drops w2 = w_drops w ++ [x] ++ l.
Proof.
  intros K R Ex Dp E1 E2. destruct (C29_destructor_panics _ _ _ _ _ _ R Ex Dp) as (w1 & E & D & _ & H).
  rewrite E in E1. injection E1 as <-. assert (R1 : repr t self l w1) by (destruct (kind_of t); [congruence|apply H..]).
  apply C26_drop_panics_partial in R1. unfold run in R1. rewrite E2 in R1. destruct R1 as (-> & _). now rewrite D, app_assoc.
Qed.

(** ** C43: a closure that drops the emplacable and then panics *)
(** The destructor always runs twice. *)
Theorem C43_dropped_twice {R} t x w r : wf_value t x ->
  run (with_emplacable_for t x (fun e => emplacable_drop e ;; panic (A := R) r)) w (fun _ _ => False)
    (fun _ w' => w_drops w' = w_drops w ++ [x; x]) (fun w' => w_drops w' = w_drops w ++ [x; x] /\ drop_panicked w w').
Proof.
  intros G. apply with_emplacable_for_wp; auto.
  assert (E : emplacable_drop (with_emplacable_closure t (slot_of x w)) (slot_world t x w) = drop_value x (slot_world t x w)).
  { apply drop_in_place_eq. apply slot_behind; auto. apply heap_get_app_new. }
  assert (H : forall r', behind t (slot_of x w) x (w_heap (set_drops (w_drops w ++ [x]) (slot_world t x w))) /\
     (forall w'', w'' = set_drops (w_drops (set_drops (w_drops w ++ [x]) (slot_world t x w)) ++ [x]) (set_drops (w_drops w ++ [x]) (slot_world t x w)) ->
         (cfg_drop_panics (length (w_drops (set_drops (w_drops w ++ [x]) (slot_world t x w)))) = false ->
            (fun (_ : panic_reason) w' => w_drops w' = w_drops w ++ [x; x]) r' (set_heap (hfree (w_heap w'') (wp (slot_of x w))) w'')) /\
         (cfg_drop_panics (length (w_drops (set_drops (w_drops w ++ [x]) (slot_world t x w)))) = true ->
            w_drops w'' = w_drops w ++ [x; x] /\ drop_panicked w w''))).
  { intros r'. split. { apply slot_behind; auto. apply heap_get_app_new. }
    intros w2 ->. split; intros D; cbn [set_heap set_drops w_drops slot_world] in *; rewrite <- app_assoc; cbn [app]; auto.
    split; auto. exists (length (w_drops w ++ [x])). cbn [set_heap set_drops w_drops slot_world]. split; auto. rewrite !app_length. cbn. lia. }
  apply run_bind. unfold run at 1. rewrite E. apply run_sound. apply run_drop_value; intros D; cbn [slot_world set_heap w_drops] in *.
  - apply run_panic. apply (H r).
  - apply (H PDrop).
Qed.

(** ** C52, C41, C57: boxes allocated with another layout than the one they are freed with *)
Lemma gdealloc_wrong p al n d lay w : buf (w_heap w) p al n d -> 0 < l_size lay -> lay <> Layout n al ->
  gdealloc p lay w = (UB UbDealloc, w).
Proof.
  intros B P N. unfold gdealloc. destruct (Z.eqb_spec (l_size lay) 0); [lia|]. unfold find_block, buf in *. destruct (n =? 0).
  - destruct B as (a & -> & _). reflexivity.
  - destruct B as (b & base & -> & -> & _). cbn [b_layout]. unfold layout_eqb. destruct lay as [n' al']. cbn [l_size l_align] in *.
    destruct (Z.eqb_spec n n'), (Z.eqb_spec al al'); auto. subst. now elim N.
Qed.
Lemma drop_in_place_keeps t r w : match drop_in_place t r w with
  | (Ok _, w') | (Panic _, w') => w_heap w' = w_heap w | (Abort, _) => False | (UB _, _) => True end.
Proof.
  unfold drop_in_place, make_ref, read_value, mem_read, drop_value, bind, ret. destruct (ref_ok t (w_heap w) r); auto.
  destruct (heap_read _ _ _); auto. destruct (cfg_drop_panics _); reflexivity.
Qed.
Lemma box_drop_wrong t b al n d w : buf (w_heap w) (wp b) al n d -> 0 < size_of_val t (wm b) ->
  Layout (size_of_val t (wm b)) (align_of_val t (wm b)) <> Layout n al -> exists r w', box_drop t b w = (UB r, w').
Proof.
  intros B P N. unfold box_drop, bind, on_unwind, box_dealloc. pose proof (drop_in_place_keeps t b w) as H.
  destruct (drop_in_place t b w) as [[[]|r| |r] w1]; try (now destruct H); eauto.
  - rewrite (gdealloc_wrong _ al n d); eauto. now rewrite H.
  - rewrite (gdealloc_wrong _ al n d); eauto. now rewrite H.
Qed.
(** Every CStr taken out into a box. *)
Theorem C52_cstr_never_freed self l x w : repr TCStr self (l ++ [x]) w -> 0 < vsize TCStr x ->
  run (pop_box TCStr self) w
    (fun r w' => exists b, r = Some b /\ read_value TCStr b w' = (Ok x, w') /\ exists u w2, box_drop TCStr b w' = (UB u, w2))
    (fun r w' => r = POom /\ alloc_failed w w') (fun w' => alloc_failed w w').
Proof.
  intros R P. apply repr_orep in R as (o & d & R). destruct (v_pop_into_some _ _ _ _ _ _ _ R) as (e & E & Em).
  assert (G : good TCStr x) by (eapply orep_elem; eauto using in_or_app, in_eq).
  unfold pop_box. eapply run_eq; [exact E|]. cbv beta iota. apply run_bind.
  assert (Ev : d_value (pop_deal TCStr self l x o) = x) by now destruct x.
  eapply run_conseq; [eapply box_new_with_at; [exact Em|rewrite Ev; apply (elem_box_size _ x G)|apply (elem_box_align _ x G)]|..]; cbv beta; rewrite ?Ev.
  - intros b w' (B & _). apply run_ret. exists b. split; [reflexivity|]. cbn [d_lay pop_deal] in B.
    split; [now apply elem_box_read|]. destruct B as [Bm Bb]. eapply box_drop_wrong; [exact Bb|now rewrite Bm|].
    rewrite Bm. intros X. assert (Y : align_of_val TCStr (v_meta x) = static_align TCStr) by now injection X. discriminate Y.
  - intros r w' (F & [(Hr & Af & _)|[[[]|(_ & Nn & _)] _]]); [auto|now destruct Nn].
  - intros w' [H|H]; auto. apply not_aborted in H; [destruct H|reflexivity|intros ? []].
Qed.

(** A box whose source announces more bytes than it writes. *)
Lemma box_oversized e S w : emits e S w -> zlen (d_bytes S) <= l_size (d_lay S) -> 0 < l_align (d_lay S) ->
  run (box_new_with e) w
    (fun b w' => wm b = d_meta S /\ exists d, firstn (length (d_bytes S)) d = d_bytes S /\
                 buf (w_heap w') (wp b) (l_align (d_lay S)) (l_size (d_lay S)) d)
    (fun r w' => r = POom /\ alloc_failed w w' \/ d_panic S r \/ r = PDrop /\ d_extra S <> [])
    (fun w' => alloc_failed w w' \/ aborted S w w').
Proof.
  intros [FB EM] Bx Px. pose proof (zlen_nonneg (d_bytes S)) as Bz.
  unfold box_new_with. eapply run_eq; [reflexivity|]. set (cell := length (w_cells w)).
  set (wc := set_cells (w_cells w ++ [None]) w).
  destruct (EM wc ltac:(unfold agree; auto)) as (inner & post & w1 & Ee & Wi & D1 & RF & Wr & _ & _).
  apply run_bind. unfold run at 1. rewrite Ee. apply run_sound. apply run_bind. unfold box_new_with_emplacer. apply run_bind.
  destruct Wi as (W1 & W2 & W3 & W4 & W5 & W6).
  apply box_alloc_wp; try lia.
  2: { intros K. assert (A : alloc_failed w (bump_alloc w1)).
       { exists (w_nalloc w1). unfold wc in W6. cbn in W6. proj. split; auto. }
       unfold handle_alloc_error. destruct cfg_oom_panics; [apply run_panic|unfold run; cbn]; auto. }
  intros p w2 RM. destruct RM as [RB RV RC RD RL RO RN RFr RNa].
  assert (Pn : forall b, ptr_block p = Some b -> ~ In b (d_fb S)).
  { intros b E I. specialize (FB b I). specialize (RFr b E). cbn in *; lia. }
  assert (Nn : is_null p = false). { rewrite <- (padd_0 p). eapply buf_nonnull; eauto. }
  assert (Ag : agree (d_fv S) (d_fb S) w1 w2).
  { unfold agree. ands; auto. intros; now rewrite RV. intros b I. apply RO. specialize (FB b I). cbn in *; lia. }
  assert (HWf : forall bs, zlen bs = zlen (d_bytes S) -> heap_write (w_heap w2) p bs = Some (hput (w_heap w2) p (splice 0 bs (uninit (l_size (d_lay S)))))).
  { intros bs L. pose proof (heap_write_buf _ _ _ _ _ 0 bs RB ltac:(lia) ltac:(lia)) as X. now rewrite padd_0 in X. }
  pose proof (Wr p w2 _ Ag Nn Pn (HWf _ eq_refl)) as Run.
  assert (Spl : forall bs, zlen bs = zlen (d_bytes S) -> zlen (splice 0 bs (uninit (l_size (d_lay S)))) = zlen (uninit (l_size (d_lay S)))).
  { intros bs L. pose proof (zlen_uninit (l_size (d_lay S)) ltac:(lia)). unfold splice. cbn [Z.to_nat firstn app Nat.add].
    unfold zlen in *. rewrite app_length, skipn_length. lia. }
  apply run_bind. apply run_on_unwind. eapply run_conseq; [exact Run|..]; cbv beta.
  - intros _ w3 (Wi3 & D3 & P3). eapply run_eq1; [reflexivity|].
    set (w4 := set_cells _ _).
    destruct (P3 w4 ltac:(unfold agree; auto)) as (w5 & E5 & W5' & D5 & A5).
    eapply run_eq1; [exact E5|].
    destruct Wi3 as (X1 & X2 & X3 & X4 & X5 & X6). destruct W5' as (Y1 & Y2 & Y3 & Y4 & Y5 & Y6).
    assert (C3 : w_cells w3 = w_cells w ++ [None]). { rewrite X3. cbn. rewrite RC, W3. reflexivity. }
    unfold run, read_cell. rewrite Y3. unfold w4 at 1. cbn [set_cells w_cells]. rewrite C3.
    rewrite upd_same by (rewrite app_length; cbn; lia). cbn [wp wm]. split; auto.
    exists (splice 0 (d_bytes S) (uninit (l_size (d_lay S)))). split.
    + unfold splice. cbn [Z.to_nat firstn app Nat.add]. now rewrite firstn_app, firstn_all, Nat.sub_diag, app_nil_r.
    + eapply buf_agree; [eapply buf_hput; [exact RB|now apply Spl]|].
      intros b E. rewrite Y5 by auto. cbn. rewrite X5 by auto. reflexivity.
  - intros r w3 (Pr & (bs & h'' & Lb & HW' & Wi3) & ds & D3).
    rewrite (HWf bs Lb) in HW'. injection HW' as <-.
    destruct Wi3 as (X1 & X2 & X3 & X4 & X5 & X6). cbn [set_heap w_heap] in *.
    assert (B3 : exists d3, buf (w_heap w3) p (l_align (d_lay S)) (l_size (d_lay S)) d3).
    { eexists. eapply buf_agree; [eapply buf_hput; [exact RB|apply (Spl bs Lb)]|]. intros b E. rewrite X5 by auto. reflexivity. }
    destruct B3 as (d3 & B3). destruct (d_lay S) as [sz al]; cbn [l_size l_align] in *.
    eapply run_eq1. { eapply room_free; eauto. lia. }
    right. destruct Pr as [?|(-> & X & _)]; auto.
  - intros w3 (X & n & Hn & Pn'). right. split; auto. exists n. split; auto. rewrite RD, D1 in Hn. cbn in Hn. auto.
Qed.
(** A [Vec] with spare capacity: whatever is in it, dropping the box made of it is undefined behaviour. *)
Lemma vec_bytes_len esize ealign xs : Forall (good (TSized esize ealign)) xs -> zlen (vec_bytes xs) = zlen xs * esize.
Proof.
  induction 1 as [|x xs G H IH]; [reflexivity|]. unfold vec_bytes in *. cbn [map concat]. pose proof (good_bytes _ _ G) as B.
  rewrite (vsize_sized (TSized esize ealign) x eq_refl G) in B. change (s_size (TSized esize ealign)) with esize in B.
  unfold zlen in *. rewrite app_length. cbn [length]. lia.
Qed.
Lemma spare_box esize ealign v xs w : stdvec (TSized esize ealign) v xs (w_heap w) -> 0 < esize -> 0 < zlen xs < sv_cap v ->
  run (box_new_with (emplacable_of_vec esize ealign v)) w
    (fun b w' => wm b = MLen (zlen xs) /\ exists d, buf (w_heap w') (wp b) ealign (sv_cap v * esize) d)
    (fun r w' => r = POom /\ alloc_failed w w') (fun w' => alloc_failed w w').
Proof.
  intros Sv P L. pose proof (vec_emits _ _ _ _ _ Sv) as Em. cbv zeta in Em.
  assert (Lb : zlen (vec_bytes xs) = zlen xs * esize) by (apply (vec_bytes_len _ ealign); destruct Sv as (d & R); apply R).
  assert (Pa : 0 < ealign) by (destruct Sv as (d & R); apply (pow2_pos _ (s_align_pow2 _ (sr_kind _ _ _ _ _ _ R) (sr_wf _ _ _ _ _ _ R)))).
  eapply run_conseq; [eapply box_oversized; [exact Em|..]|..]; cbv beta; unfold vec_deal, vec_layout; cbn [d_bytes d_lay l_size l_align d_meta d_panic d_extra];
    change (s_size (TSized esize ealign)) with esize; change (s_align (TSized esize ealign)) with ealign; auto.
  - nia.
  - intros b w' (M & d & _ & B). eauto.
  - intros r w' [?|[[]|[_ N]]]; auto. now elim N.
  - intros w' [H|H]; auto. apply not_aborted in H; [destruct H|reflexivity|intros ? []].
Qed.
Theorem C41_spare_never esize ealign v xs w : stdvec (TSized esize ealign) v xs (w_heap w) -> 0 < esize -> 0 < zlen xs < sv_cap v ->
  run (box_new_with (emplacable_of_vec esize ealign v)) w
    (fun b w' => exists u w2, box_drop (TSlice esize ealign) b w' = (UB u, w2))
    (fun r w' => r = POom /\ alloc_failed w w') (fun w' => alloc_failed w w').
Proof.
  intros Sv P L. eapply run_conseq; [eapply spare_box; eauto|..]; cbv beta; auto.
  intros b w' (M & d & B). eapply box_drop_wrong; [exact B|..]; rewrite M; cbn [size_of_val align_of_val]; [nia|].
  intros X. injection X as X. nia.
Qed.
(** The same through [into_vec]: the new vector can never be dropped. *)
Lemma on_unwind_keeps {A} (m : M A) g w : (forall w', match g w' with (Ok _, w2) | (Panic _, w2) => w_heap w2 = w_heap w' | _ => True end) ->
  match m w with (Ok _, w2) | (Panic _, w2) => w_heap w2 = w_heap w | _ => True end ->
  match on_unwind m g w with (Ok _, w2) | (Panic _, w2) => w_heap w2 = w_heap w | _ => True end.
Proof.
  intros G H. unfold on_unwind. destruct (m w) as [[a|r| |r] w1]; auto. specialize (G w1).
  destruct (g w1) as [[a|r'| |r'] w2]; auto. congruence.
Qed.
Lemma s_drop_elems_keeps t p : forall n i w,
  match s_drop_elems t p i n w with (Ok _, w') | (Panic _, w') => w_heap w' = w_heap w | _ => True end.
Proof.
  induction n as [|n IH]; intros i w; [reflexivity|]. cbn [s_drop_elems]. unfold bind at 1.
  pose proof (on_unwind_keeps (q <- elem_add t p i ;; drop_in_place t (Wide q MUnit)) (s_drop_elems t p (i + 1) n) w (IH (i + 1))) as H.
  assert (H1 : match (q <- elem_add t p i ;; drop_in_place t (Wide q MUnit)) w with (Ok _, w2) | (Panic _, w2) => w_heap w2 = w_heap w | _ => True end).
  { unfold bind. assert (E : (exists q, elem_add t p i w = (Ok q, w)) \/ elem_add t p i w = (UB UbPtr, w)).
    { unfold elem_add, ptr_add. destruct (_ =? 0); eauto. destruct p; eauto. destruct (heap_get _ _); eauto. destruct (_ && _); eauto. }
    destruct E as [(q & ->)| ->]; auto. pose proof (drop_in_place_keeps t (Wide q MUnit) w) as K.
    destruct (drop_in_place t (Wide q MUnit) w) as [[[]|r| |r] w1]; auto. }
  specialize (H H1). destruct (on_unwind _ _ w) as [[[]|r| |r] w1]; auto. rewrite <- H. apply IH.
Qed.
Theorem C57_spare_never esize ealign v xs w : stdvec (TSized esize ealign) v xs (w_heap w) -> 0 < esize -> 0 < zlen xs < sv_cap v ->
  run (emplacable_into_vec esize (emplacable_of_vec esize ealign v)) w
    (fun u w' => ends (s_drop (TSized esize ealign) u) w' (fun _ _ => False) (fun _ _ => False) (fun _ => True) (fun _ => True))
    (fun r w' => r = POom /\ alloc_failed w w') (fun w' => alloc_failed w w').
Proof.
  intros Sv P L. unfold emplacable_into_vec. apply run_bind. eapply run_conseq; [eapply spare_box; eauto|..]; cbv beta; auto.
  intros b w' (M & d & B). eapply run_eq1; [reflexivity|].
  unfold s_drop. eapply ends_eq. { eapply get_s_eq. proj. rewrite nth_error_app2, Nat.sub_diag by lia. reflexivity. }
  eapply ends_eq; [reflexivity|]. cbv zeta. unfold box_into_vec. rewrite M. destruct (Z.eqb_spec esize 0); [lia|]. cbn [sv_ptr sv_cap sv_len meta_len].
  set (w1 := set_vecs _ _). change (s_size (TSized esize ealign)) with esize. change (s_align (TSized esize ealign)) with ealign.
  assert (Wr : forall w2, w_heap w2 = w_heap w1 -> gdealloc (wp b) (Layout (zlen xs * esize) ealign) w2 = (UB UbDealloc, w2)).
  { intros w2 E. eapply gdealloc_wrong; [rewrite E; exact B|cbn; nia|]. intros X. injection X as X. nia. }
  unfold ends, bind, on_unwind. pose proof (s_drop_elems_keeps (TSized esize ealign) (wp b) (Z.to_nat (zlen xs)) 0 w1) as H.
  destruct (s_drop_elems _ _ _ _ w1) as [[[]|r| |r] w2]; auto; now rewrite Wr.
Qed.

(** ** C20: [push_with] and [insert_with] of unsized elements use none of the room that is there: they always add the size
    of the new element to the byte capacity. *)
Definition grows (t : ty) (self : nat) (x : value) (w w' : world) : Prop := forall bc, v_byte_capacity t self w = (Ok bc, w) ->
  exists bc', v_byte_capacity t self w' = (Ok bc', w') /\ bc + vsize t x <= bc'.
Theorem C20_push_with_always_grows t self l w e S : kind_of t <> KSized -> nzst t -> repr t self l w -> emits e S w -> good t (d_value S) ->
  fits t (d_lay S) (d_value S) -> apart self (d_fv S) (d_fb S) w -> placeable t self (d_value S) w ->
  run (v_push_with t self e) w (fun _ w' => grows t self (d_value S) w w') (fun _ _ => True) (fun _ => True).
Proof.
  intros K Nz R Em G F Ap Pl. apply repr_orep in R as (o & d & R).
  eapply run_conseq; [eapply (v_push_with_wp t self l o d w e S); eauto using placeable_can|..]; cbv beta; auto.
  intros _ w' (o' & d' & R' & _ & _ & _ & _ & St) bc Vb. rewrite (v_byte_capacity_eq _ _ _ _ _ _ R) in Vb. injection Vb as <-.
  exists (o_bcap t o'). split; [eapply v_byte_capacity_eq; eauto|]. exact (proj1 (proj2 St) K).
Qed.
Theorem C20_insert_with_always_grows t self l w e S i : kind_of t <> KSized -> nzst t -> repr t self l w -> emits e S w -> good t (d_value S) ->
  fits t (d_lay S) (d_value S) -> apart self (d_fv S) (d_fb S) w -> placeable t self (d_value S) w -> (i <= length l)%nat ->
  movable t self l i (valign t (d_value S)) w ->
  run (v_insert_with t self i e) w (fun _ w' => grows t self (d_value S) w w') (fun _ _ => True) (fun _ => True).
Proof.
  intros K Nz R Em G F Ap Pl Li Mv. apply repr_orep in R as (o & d & R).
  eapply run_conseq; [eapply (v_insert_with_wp t self l o d w e S i); eauto using placeable_can|..]; cbv beta; auto.
  - intros K'. eapply movable_tail; eauto. apply pow2_pos, good_align; auto.
  - intros _ w' (o' & d' & R' & _ & _ & _ & _ & St) bc Vb. rewrite (v_byte_capacity_eq _ _ _ _ _ _ R) in Vb. injection Vb as <-.
    exists (o_bcap t o'). split; [eapply v_byte_capacity_eq; eauto|]. exact (proj1 (proj2 St) K).
Qed.

(** ** C32, C36: for zero-sized element types the exact reservations always panic, hence [extend] and [clone] never return *)
Lemma exact_zst t self v w n b a : kind_of t = KSized -> s_size t = 0 -> nth_error (w_vecs w) self = Some (OS v) -> sv_len v <= usize_max ->
  v_reserve_exact_capacity_bytes_align t self n b a w = (Panic (if usize_max - sv_len v <? n then PCapacity else PDivZero), w).
Proof.
  intros K Z0 Gs Sl. apply get_s_eq in Gs.
  unfold v_reserve_exact_capacity_bytes_align, v_try_reserve_exact_capacity_bytes_align, p_try_reserve. rewrite K.
  rewrite bind_assoc. unfold s_reserve. rewrite bind_assoc. erewrite bind_eq by exact Gs.
  unfold s_capacity, needs_to_grow, grow_cap. rewrite Z0. change (0 =? 0) with true. cbv iota.
  destruct (usize_max - sv_len v <? n); [reflexivity|]. erewrite bind_eq by reflexivity. cbv iota.
  unfold to_align. rewrite K. unfold p_try_reserve_bytes_align. rewrite K. rewrite bind_assoc. erewrite bind_eq by reflexivity.
  unfold s_try_reserve_bytes. rewrite bind_assoc. erewrite bind_eq by exact Gs. unfold s_capacity. rewrite Z0. change (0 =? 0) with true. cbv iota.
  rewrite bind_assoc. erewrite bind_eq by (apply usub_eq; lia). reflexivity.
Qed.
Lemma repr_sized t self l w : kind_of t = KSized -> repr t self l w -> exists v, nth_error (w_vecs w) self = Some (OS v) /\ sv_len v = zlen l /\ zlen l <= s_capacity t v.
Proof.
  intros K R. apply repr_orep in R as (o & d & R). destruct o as [v|v|v|]; cbn [orep] in R; try tauto; try (destruct R; congruence).
  exists v. ands; apply R.
Qed.
(** Before the first element: nothing is taken from the iterator, what it still holds is dropped. *)
Theorem C36_extend_zst_never t self l w hint es : kind_of t = KSized -> s_size t = 0 -> repr t self l w ->
  ends (v_extend t self hint es) w (fun _ _ => False) (fun r w' => (r = PDivZero \/ r = PCapacity) /\ emplacables_drop es w = (Ok tt, w'))
    (fun w' => emplacables_drop es w = (Abort, w') \/ exists r, emplacables_drop es w = (Panic r, w'))
    (fun u => exists w', emplacables_drop es w = (UB u, w')).
Proof.
  intros K Z0 R. destruct (repr_sized _ _ _ _ K R) as (v & Ob & Sl & Cp). unfold s_capacity in Cp. rewrite Z0 in Cp. cbn [Z.eqb] in Cp.
  unfold ends, v_extend, bind, on_unwind.
  change (v_reserve_exact t self hint) with (v_reserve_exact_capacity_bytes_align t self hint 0 1).
  rewrite (exact_zst t self v) by (auto; lia).
  destruct (emplacables_drop es w) as [[[]|r| |r] w'] eqn:E; eauto. split; auto. destruct (_ <? _); auto.
Qed.
Theorem C32_clone_zst_never t clone self l w : wf_ty t -> kind_of t = KSized -> s_size t = 0 -> repr t self l w ->
  exists w', v_clone t clone self w = (Panic PDivZero, w') /\ w_drops w' = w_drops w /\ w_heap w' = w_heap w /\
    nth_error (w_vecs w') self = nth_error (w_vecs w) self.
Proof.
  intros W K Z0 R. destruct (repr_sized _ _ _ _ K R) as (v & Ob & Sl & Cp). pose proof (nth_error_lt _ _ _ Ob) as LT.
  apply repr_orep in R as (o & d & R). unfold v_clone.
  erewrite bind_eq by (eapply v_capacity_eq; eauto). erewrite bind_eq by (eapply v_byte_capacity_eq; eauto).
  erewrite bind_eq by (eapply v_align_eq; eauto). unfold v_with_capacity_bytes_align. rewrite bind_assoc.
  erewrite bind_eq by apply v_new_align_1_eq. set (w1 := set_vecs _ _). pose proof (new_orep t true w W) as R1. fold w1 in R1.
  assert (Cap : o_cap t o = usize_max).
  { destruct o; cbn [orep] in R; try tauto; try (destruct R; congruence). ocbn. unfold s_capacity. now rewrite Z0. }
  assert (Ob1 : nth_error (w_vecs w1) (length (w_vecs w)) = Some (OS (s_new t))).
  { unfold w1. proj. rewrite nth_error_app2, Nat.sub_diag by lia. cbn. unfold new_o. now rewrite K. }
  assert (E : v_reserve_exact_capacity_bytes_align t (length (w_vecs w)) (o_cap t o) (o_bcap t o) (o_al t o) w1 = (Panic PDivZero, w1)).
  { rewrite (exact_zst t _ (s_new t)) by (auto; cbn; lia). rewrite Cap. reflexivity. }
  rewrite bind_assoc. unfold bind at 1, on_unwind at 1. rewrite E. rewrite (drop_empty_eq _ _ _ _ _ R1).
  eexists. split; [reflexivity|]. unfold new_o. rewrite K. cbn [o_ptr obj_ptr]. unfold dropped_world. ands; proj.
  - now rewrite app_nil_r.
  - reflexivity.
  - rewrite upd_other by lia. unfold w1. proj. now rewrite nth_error_app1.
Qed.

(** ** C40: for [T: Copy] it is the reference that is copied, never the slice *)
Lemma le_bytes_len n : forall x, length (le_bytes n x) = n.
Proof. induction n; intros x; cbn; auto. Qed.
Lemma fat_repr_len src : zlen (fat_repr src) = 16.
Proof.
  unfold fat_repr, zlen. rewrite app_length, le_bytes_len. unfold thin_repr.
  destruct (wp src); [rewrite map_length, seq_length|rewrite le_bytes_len]; reflexivity.
Qed.
Lemma splice_all bs d : zlen bs = zlen d -> splice 0 bs d = bs.
Proof. unfold splice, zlen. intros L. cbn [Z.to_nat firstn app Nat.add]. rewrite skipn_all2 by lia. apply app_nil_r. Qed.
(** The copy made in a new block [k] (uninitialised, [l_size] bytes): the bytes of the reference, or undefined behaviour. *)
Lemma copy_ref_eq esize src w k bl : (0 < meta_len (wm src) * esize) -> heap_get (w_heap w) k = Some bl -> zlen (b_data bl) = meta_len (wm src) * esize ->
  copy_to_buf_copy esize src (Blk k 0) w =
  if meta_len (wm src) * esize <=? 16
  then (Ok tt, set_heap (upd (upd (w_heap w ++ [Some (Block (Layout 16 8) 8 (fat_repr src))]) k
                 (Some (Block (b_layout bl) (b_base bl) (sub 0 (meta_len (wm src) * esize) (fat_repr src))))) (length (w_heap w)) None) w)
  else (UB UbMem, set_heap (w_heap w ++ [Some (Block (Layout 16 8) 8 (fat_repr src))]) w).
Proof.
  intros P H L. pose proof (heap_get_lt _ _ _ H) as Lt. unfold copy_to_buf_copy, stack_slot. erewrite bind_eq by reflexivity.
  set (n := meta_len (wm src) * esize) in *. set (w1 := set_heap _ w). cbn [l_align] in w1.
  unfold mem_copy_no, overlaps. destruct (Nat.eqb_spec (length (w_heap w)) k) as [E|_]; [lia|]. cbn [andb].
  unfold mem_copy. rewrite bind_assoc. unfold bind at 1, mem_read, heap_read. destruct (Z.eqb_spec n 0) as [?|_]; [lia|].
  replace (heap_get (w_heap w1) (length (w_heap w))) with (Some (Block (Layout 16 8) 8 (fat_repr src)))
    by (unfold w1; proj; now rewrite heap_get_app_new).
  cbn [b_data Z.leb Z.compare]. rewrite fat_repr_len. rewrite (proj2 (Z.leb_le 0 n)) by lia. cbn [andb Z.add].
  destruct (Z.leb_spec n 16) as [Le|Gt]; cbn [andb]; [|reflexivity].
  assert (Ls : zlen (sub 0 n (fat_repr src)) = n) by (apply sub_len; rewrite ?fat_repr_len; lia).
  unfold bind, mem_write, heap_write. rewrite Ls. destruct (Z.eqb_spec n 0) as [?|_]; [lia|].
  replace (heap_get (w_heap w1) k) with (Some bl) by (unfold w1; proj; now rewrite heap_get_app_old).
  cbn [Z.leb Z.compare andb Z.add]. rewrite L, Z.leb_refl. unfold stack_free. unfold w1. proj. rewrite splice_all by congruence. reflexivity.
Qed.
(** More than 16 bytes: undefined behaviour. Fewer: the box holds the leading bytes of the reference. *)
Theorem C40_copy_never esize ealign clone src w : 0 < meta_len (wm src) * esize ->
  ends (box_new_with (emplacable_of_slice_ref esize ealign true clone src)) w
    (fun b w' => meta_len (wm src) * esize <= 16 /\ wm b = wm src /\
       heap_read (w_heap w') (wp b) (meta_len (wm src) * esize) = Some (sub 0 (meta_len (wm src) * esize) (fat_repr src)))
    (fun r w' => r = POom /\ alloc_failed w w') (fun w' => alloc_failed w w')
    (fun u => 16 < meta_len (wm src) * esize /\ u = UbMem).
Proof.
  intros L. unfold box_new_with. eapply ends_eq; [reflexivity|]. set (w1 := set_cells _ w).
  unfold emplacable_of_slice_ref, box_new_with_emplacer. set (n := meta_len (wm src) * esize) in *. cbn [l_size].
  destruct (Z.eqb_spec n 0) as [Z0|_]; [lia|].
  unfold galloc. cbn [l_size]. destruct (Z.eqb_spec n 0) as [Z0|_]; [lia|]. unfold ends. rewrite bind_assoc.
  assert (AF : forall w', (w_nalloc w < w_nalloc w')%nat -> cfg_alloc (w_nalloc w) = None -> alloc_failed w w').
  { intros w' Lt Ea. exists (w_nalloc w). split; auto. }
  unfold raw_alloc, bind at 1. unfold w1 at 1. cbn [w_nalloc set_cells]. destruct (cfg_alloc (w_nalloc w)) eqn:Ea.
  2:{ unfold handle_alloc_error. destruct cfg_oom_panics; unfold bind, panic, fail; [split; auto|]; apply AF; auto; unfold w1; cbn; lia. }
  set (w2 := set_heap _ _). cbn [is_null].
  assert (G2 : heap_get (w_heap w2) (length (w_heap w1)) = Some (Block (Layout n ealign) (ealign * Z.max 1 z) (uninit n))).
  { unfold w2. proj. apply heap_get_app_new. }
  pose proof (copy_ref_eq esize src w2 _ _ L G2) as E. fold n in E. cbn [b_data] in E. unfold bind, on_unwind. cbn [is_null]. rewrite E; clear E.
  2:{ unfold uninit, zlen. rewrite repeat_length. lia. }
  destruct (Z.leb_spec n 16) as [Le|Gt]; [|split; auto].
  unfold set_cell, read_cell. proj. rewrite upd_same by (unfold w1; cbn; rewrite app_length; cbn; lia).
  ands; auto. unfold heap_read. cbn [wp].
  destruct (Z.eqb_spec n 0) as [Z0|_]; [lia|]. pose proof (heap_get_lt _ _ _ G2) as Lt.
  proj. rewrite heap_get_upd_other by lia. rewrite heap_get_upd_same by (rewrite app_length; lia). cbn [b_data].
  assert (Ls : zlen (sub 0 n (fat_repr src)) = n) by (apply sub_len; rewrite ?fat_repr_len; lia).
  rewrite Ls. cbn [Z.add Z.leb Z.compare andb]. rewrite (proj2 (Z.leb_le 0 n)), Z.leb_refl by lia. cbn [andb]. f_equal. now apply sub_all.
Qed.
(** In particular never the slice itself, if that consists of plain bytes. *)
Corollary C40_copy_never_slice esize ealign clone b off m bs w : 0 < meta_len m * esize -> bs <> [] -> (forall x, In x bs -> exists z, x = Byte z) ->
  ends (box_new_with (emplacable_of_slice_ref esize ealign true clone (Wide (Blk b off) m))) w
    (fun r w' => heap_read (w_heap w') (wp r) (meta_len m * esize) <> Some bs)
    (fun r w' => r = POom /\ alloc_failed w w') (fun w' => alloc_failed w w') (eq UbMem).
Proof.
  intros L N Bs. eapply ends_conseq; [apply C40_copy_never; exact L|..]; cbv beta; auto; cbn [wm].
  - intros r w' (_ & _ & ->) E. injection E as E. destruct bs as [|x bs]; [congruence|].
    destruct (Bs x ltac:(now left)) as [z ->]. unfold sub in E. cbn [Z.to_nat skipn] in E.
    destruct (Z.to_nat (meta_len m * esize)) eqn:T; [lia|]. cbn in E. discriminate.
  - intros r [_ ->]. reflexivity.
Qed.

(** ** C21: in a debug build a failed byte reservation is never reported as an error: an [Err] that does not come from the
    reservation of the count is only returned if the bytes were there already *)
Lemma bind_ok {A B} (m : M A) (k : A -> M B) b w w' : bind m k w = (Ok b, w') -> exists a w1, m w = (Ok a, w1) /\ k a w1 = (Ok b, w').
Proof. unfold bind. destruct (m w) as [[a|r| |r] w1]; intros E; try discriminate. eauto. Qed.
Definition reads {A} (m : M A) : Prop := forall w a w', m w = (Ok a, w') -> w' = w.
Lemma reads_bind {A B} (m : M A) (k : A -> M B) : reads m -> (forall a, reads (k a)) -> reads (bind m k).
Proof. intros H K w b w' E. apply bind_ok in E as (a & w1 & E1 & E2). apply H in E1 as ->. eapply K; eauto. Qed.
Lemma reads_ret {A} (a : A) : reads (ret a). Proof. intros w b w' E. now injection E. Qed.
Lemma reads_gets self : reads (get_s self) /\ reads (get_a self) /\ reads (get_u self).
Proof. unfold reads, get_s, get_a, get_u. ands; intros w v w'; destruct (nth_error (w_vecs w) self) as [[| | |]|]; intros E; now inversion E. Qed.
Lemma reads_umul a b : reads (umul a b). Proof. unfold umul. intros w c w'. destruct (_ <=? _); intros E; now inversion E. Qed.
Lemma reads_bcap t self : reads (v_byte_capacity t self).
Proof.
  unfold v_byte_capacity, s_byte_capacity. destruct (kind_of t); apply reads_bind; intros; try apply reads_gets; auto using reads_ret, reads_umul.
Qed.
Lemma reads_pad n a : reads (unchecked_pad_to n a).
Proof. unfold unchecked_pad_to. apply reads_bind; intros; unfold uadd, vs_new_unchecked. all: intros w c w'; repeat match goal with |- context[if ?b then _ else _] => destruct b end; intros E; now inversion E. Qed.
Lemma reads_blen t self : reads (v_byte_len t self).
Proof.
  unfold v_byte_len, s_byte_len. destruct (kind_of t); apply reads_bind; intros; try apply reads_gets; auto using reads_ret, reads_umul. apply reads_pad.
Qed.
Theorem C21_debug_never t self n b a w w1 w' e : cfg_debug = true -> v_try_reserve t self n w = (Ok ROk, w1) ->
  v_try_reserve_capacity_bytes_align t self n b a w = (Ok (RErr e), w') ->
  exists bc bl, v_byte_capacity t self w' = (Ok bc, w') /\ v_byte_len t self w' = (Ok bl, w') /\ bl + b <= bc.
Proof.
  intros D E1. unfold v_try_reserve_capacity_bytes_align. erewrite bind_eq by exact E1. cbv iota. rewrite D. intros E.
  apply bind_ok in E as (cap & w2 & _ & E). apply bind_ok in E as (len & w3 & _ & E). apply bind_ok in E as (u & w4 & _ & E).
  apply bind_ok in E as (al & w5 & _ & E). apply bind_ok in E as (bc & w6 & _ & E). apply bind_ok in E as (un & w7 & _ & E).
  cbv zeta in E.
  assert (Fin : forall w8, (r <- p_try_reserve_bytes_align t self (sat_sub b un) al ;;
      (bc <- v_byte_capacity t self ;; bl <- v_byte_len t self ;; dassert (bl + b <=? bc)) ;; ret r) w8 = (Ok (RErr e), w') ->
      exists bc bl, v_byte_capacity t self w' = (Ok bc, w') /\ v_byte_len t self w' = (Ok bl, w') /\ bl + b <= bc).
  { intros w8 F. apply bind_ok in F as (r & w9 & _ & F). apply bind_ok in F as ([] & w10 & F & F2). injection F2 as _ <-.
    apply bind_ok in F as (bc' & w11 & Eb & F). apply bind_ok in F as (bl' & w12 & El & F).
    pose proof (reads_bcap _ _ _ _ _ Eb). subst w11. pose proof (reads_blen _ _ _ _ _ El). subst w12.
    unfold dassert in F. rewrite D in F. destruct (Z.leb_spec (bl' + b) bc'); cbn [negb andb] in F; [|discriminate].
    injection F as <-. eauto. }
  destruct (_ <? _); [|eauto]. apply bind_ok in E as (r & w8 & _ & E). destruct r; [discriminate|eauto].
Qed.
End WithConfig.

(** ** Cases *)
Section Cases.
Local Existing Instance cfg_release.
Ltac built := eapply (built_repr _ _ empty_world); [exact I|intros K; discriminate K|apply takesb_ok; reflexivity|run].
Ltac built32 := eapply (built_repr _ _ empty_world); [apply wf_u32|intros K; reflexivity|apply takesb_ok; reflexivity|run].
(** A five-byte value does not fill its slot of eight bytes. *)
Example C08_C27_case : exists v w w1 w2 w3, repr TDyn v ([half 1] ++ [five 2; word 3]) w /\ v_align TDyn v w = (Ok 8, w) /\
  vsize TDyn (five 2) mod 8 <> 0 /\
  remove_box TDyn v 2 w = (UB UbArith, w1) /\ (e <- v_remove_into TDyn v 2 ;; emplacable_forget e) w = (UB UbArith, w2) /\
  (e <- v_remove_into TDyn v 2 ;; emplacable_drop e) w = (UB UbArith, w3).
Proof.
  do 5 eexists. split; [built|]. split; [run|]. split; [vm_compute; discriminate|]. split; [run|]. split; [run|]. run.
Qed.
Example C06_C07_case : exists v w w1 w2, repr TDyn v ([half 1] ++ [five 2]) w /\ v_align TDyn v w = (Ok 8, w) /\
  vsize TDyn (five 2) mod Z.max 8 (valign TDyn (half 3)) <> 0 /\ good TDyn (half 3) /\
  emits (emplacable_of_value TDyn (half 3)) (value_deal TDyn (half 3)) w /\ apart v [] [] w /\ placeable TDyn v (half 3) w /\
  v_insert TDyn v 2 (half 3) w = (UB UbArith, w1) /\ v_insert_with TDyn v 2 (emplacable_of_value TDyn (half 3)) w = (UB UbArith, w2).
Proof.
  do 4 eexists. split; [built|]. split; [run|]. split; [vm_compute; discriminate|]. split; [apply goodb_ok; reflexivity|].
  split; [apply value_emits|]. split; [split; [auto|split; [intros ? []|intros ? _ []]]|].
  split. { intros _. do 2 eexists. split; [run|]. split; [run|]. left. reflexivity. } split; [run|]. run.
Qed.
Example C02_unraised_case : exists v w w', repr TDyn v [] w /\ good TDyn zst16 /\ v_align TDyn v w = (Ok 8, w) /\ v_byte_capacity TDyn v w = (Ok 0, w) /\
  vsize TDyn zst16 = 0 /\ 8 < valign TDyn zst16 /\
  v_push TDyn v zst16 w = (Ok tt, w') /\ v_align TDyn v w' = (Ok 8, w') /\ v_len TDyn v w' = (Ok 1, w').
Proof.
  do 3 eexists. split; [eapply (built_repr _ [] empty_world); [exact I|intros K; discriminate K|apply takesb_ok; reflexivity|run]|].
  split; [apply goodb_ok; reflexivity|]. do 4 (split; [run|]). split; [run|]. split; run.
Qed.
Example C43_case : exists w', wf_value TStr ab /\
  with_emplacable_for TStr ab (fun e => emplacable_drop e ;; panic (A := unit) (PUser 7)) empty_world = (Panic (PUser 7), w') /\ w_drops w' = [ab; ab].
Proof. eexists. split; [apply good_wf, goodb_ok; reflexivity|]. split; run. Qed.
Example C52_case : exists v w b w1 w2, repr TCStr v ([] ++ [str_val [104; 105; 0]]) w /\ 0 < vsize TCStr (str_val [104; 105; 0]) /\
  pop_box TCStr v w = (Ok (Some b), w1) /\ box_drop TCStr b w1 = (UB UbDealloc, w2).
Proof. do 5 eexists. split; [built|]. split; [run|]. split; [run|]. run. Qed.
(** A vector of one element with a capacity of four. *)
Lemma repr_stdvec t self l w v : repr t self l w -> get_s self w = (Ok v, w) -> stdvec t v l (w_heap w).
Proof.
  intros R E. unfold get_s in E. destruct (nth_error (w_vecs w) self) as [[v'| | |]|] eqn:Ob; try discriminate. injection E as ->.
  apply (stdvec_obj t v l w self Ob). apply repr_orep in R as (o & d & R). pose proof (orep_obj _ _ _ _ _ _ R) as Ob'.
  rewrite Ob in Ob'. injection Ob' as <-. exists d. exact R.
Qed.
Example C41_C57_case : exists j v w r w1 w2 k w3 w4, repr (TSized 4 4) j [u32 7] w /\ get_s j w = (Ok v, w) /\
  stdvec (TSized 4 4) v [u32 7] (w_heap w) /\ sv_cap v = 4 /\
  box_new_with (emplacable_of_vec 4 4 v) w = (Ok r, w1) /\ box_drop (TSlice 4 4) r w1 = (UB UbDealloc, w2) /\
  emplacable_into_vec 4 (emplacable_of_vec 4 4 v) w = (Ok k, w3) /\ s_drop (TSized 4 4) k w3 = (UB UbDealloc, w4).
Proof.
  do 9 eexists. assert (R : repr (TSized 4 4) _ [u32 7] _) by built32. split; [exact R|]. split; [run|].
  split; [eapply repr_stdvec; [exact R|run]|]. split; [run|]. split; [run|]. split; [run|]. split; [run|]. run.
Qed.
(** Ninety-eight bytes are free, the new element has two: the byte capacity still grows. *)
Example C20_grows_case : exists v w w1 w2, repr TStr v [ab] w /\ v_byte_capacity TStr v w = (Ok 2, w) /\
  v_reserve_capacity_bytes TStr v 10 98 w = (Ok tt, w1) /\ v_byte_capacity TStr v w1 = (Ok 100, w1) /\
  v_push_with TStr v (emplacable_of_value TStr cd) w1 = (Ok tt, w2) /\ v_byte_capacity TStr v w2 = (Ok 102, w2).
Proof. do 4 eexists. split; [built|]. split; [run|]. split; [run|]. split; [run|]. split; [run|]. run. Qed.
Example C32_C36_case : exists v w w1 w2, repr (TSized 0 1) v [] w /\ v_extend (TSized 0 1) v 0 [] w = (Panic PDivZero, w1) /\
  v_clone (TSized 0 1) ret v w = (Panic PDivZero, w2).
Proof.
  do 4 eexists. split; [eapply orep_repr, (new_orep (TSized 0 1) false empty_world); split; [split; [lia|split; [apply pow2_1|vm_compute; discriminate]]|reflexivity]|].
  split; run.
Qed.
(** Three bytes: the box holds three bytes of the reference (fragments of a pointer). *)
Example C40_case : exists b w r w', boxed_bytes [1;2;3] empty_world = (Ok b, w) /\ wp b = Blk 0 0 /\ meta_len (wm b) = 3 /\
  box_new_with (emplacable_of_slice_ref 1 1 true ret b) w = (Ok r, w') /\ heap_read (w_heap w') (wp r) 3 = Some [Frag 0 0; Frag 0 1; Frag 0 2].
Proof. do 4 eexists. split; [run|]. split; [run|]. split; [run|]. split; [run|]. run. Qed.
End Cases.
(** A destructor that panics: the element is dropped again with the vector. *)
Section Panicking.
Local Existing Instance cfg_drop0.
Example C29_case : exists v w w1 w2, repr TStr v [ab; cd] w /\ cfg_drop_panics (length (w_drops w)) = true /\
  remove_then TStr v 0 emplacable_drop w = (Panic PDrop, w1) /\ v_drop TStr v w1 = (Ok tt, w2) /\ w_drops w2 = [ab; ab; cd].
Proof.
  do 4 eexists. split; [eapply (built_repr _ _ empty_world); [exact I|intros K; discriminate K|apply takesb_ok; reflexivity|run]|].
  split; [run|]. split; [run|]. split; run.
Qed.
End Panicking.
(** A debug build whose allocator serves only the first request: raising the alignment fails, the bytes are there. *)
Section Debugging.
Definition cfg_dbg1 : Config := Build_Config true (fun n => if Nat.leb n 1 then Some 1 else None) (fun _ => false) false.
Local Existing Instance cfg_dbg1.
Example C21_case : exists v w w1 w2, v_of_values TDyn [word 1] empty_world = (Ok v, w) /\ v_try_reserve TDyn v 0 w = (Ok ROk, w1) /\
  v_try_reserve_capacity_bytes_align TDyn v 0 0 64 w = (Ok (RErr AllocError), w2) /\
  exists w3, v_try_reserve_capacity_bytes_align TDyn v 0 1 1 w = (Panic PDebugAssert, w3).
Proof. do 4 eexists. split; [run|]. split; [run|]. split; [run|]. eexists. run. Qed.
End Debugging.

Print Assumptions C27_forget_last_never.
Print Assumptions C27_drop_last_never.
Print Assumptions C08_remove_last_never.
Print Assumptions C07_insert_with_end_never.
Print Assumptions C06_insert_end_never.
Print Assumptions C02_push_unraised.
Print Assumptions C29_destructor_panics.
Print Assumptions C29_dropped_again.
Print Assumptions C43_dropped_twice.
Print Assumptions C52_cstr_never_freed.
Print Assumptions C41_spare_never.
Print Assumptions C57_spare_never.
Print Assumptions C20_push_with_always_grows.
Print Assumptions C20_insert_with_always_grows.
Print Assumptions C36_extend_zst_never.
Print Assumptions C32_clone_zst_never.
Print Assumptions C40_copy_never.
Print Assumptions C40_copy_never_slice.
Print Assumptions C21_debug_never.
