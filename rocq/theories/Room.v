(** Adding elements when the reserved capacities already suffice. *)
From Coq Require Import ZArith List Bool Lia.
From Verif Require Import Types World ValidSize Emplace SizedVec AlignedVec UnalignedVec Api Spec Bytes Arith Wp Mem Repr
  Access Reserve Realign Orep Push Deal PushWith Shell Insert Take Pop Box Iter Calls DropVec Family Build Obs.
Import ListNotations.
Open Scope Z_scope.
Open Scope m_scope.
Section WithConfig.
Context {C : Config}.

Lemma run_unit_eq {A} (m : M A) w (Q : A -> world -> Prop) a w0 :
  run m w Q (fun _ _ => False) (fun _ => False) -> (forall a' w', Q a' w' -> a' = a /\ w' = w0) -> m w = (Ok a, w0).
Proof. unfold run. destruct (m w) as [[] w'] eqn:E; intros H K; try tauto. destruct (K _ _ H). now subst. Qed.

Lemma reserve_noop_eq t self l o d w n b a : orep t self l o d w -> 0 <= n -> 0 <= b -> nzst t -> (kind_of t = KUnaligned -> pow2 a) ->
  zlen l + n <= o_cap t o -> o_blen t o l + b <= o_bcap t o -> req_al t o a = o_al t o ->
  v_try_reserve_capacity_bytes_align t self n b a w = (Ok ROk, w).
Proof.
  intros R N B Nz A Hn Hb Ha. unfold v_try_reserve_capacity_bytes_align, v_try_reserve.
  assert (E1 : p_try_reserve t self n false w = (Ok ROk, w)).
  { eapply run_unit_eq; [eapply p_try_reserve_wp with (exact := false); eauto|]. cbv beta.
    intros r w' (o' & d' & _ & _ & _ & _ & _ & _ & _ & No & _). auto. }
  erewrite bind_eq by exact E1. cbv beta iota. erewrite bind_eq by (eapply v_capacity_eq; eauto). erewrite bind_eq by (eapply v_len_eq, orep_repr; eauto).
  erewrite bind_eq by (apply dassert_eq, Z.leb_le; lia). destruct (to_align_eq t a w A) as (a' & Ta & Ea).
  erewrite bind_eq by exact Ta. erewrite bind_eq by (eapply v_byte_capacity_eq; eauto). erewrite bind_eq by (eapply unused_eq; eauto).
  cbv zeta. assert (Z0 : sat_sub b (o_bcap t o - o_blen t o l) = 0) by (unfold sat_sub; lia).
  rewrite Z0. cbn [Z.ltb Z.compare].
  assert (E2 : p_try_reserve_bytes_align t self 0 a' w = (Ok ROk, w)).
  { eapply run_unit_eq; [eapply p_try_reserve_bytes_wp; eauto; [lia|intros K; rewrite Ea; auto]|]. cbv beta zeta.
    intros r w' (o' & d' & _ & _ & _ & _ & No & _). apply No; auto. intros K. rewrite Ea by auto. unfold req_al in Ha. rewrite K in Ha. lia. }
  erewrite bind_eq by exact E2. destruct cfg_debug eqn:Dbg; [|reflexivity].
  erewrite bind_eq; [reflexivity|]. erewrite bind_eq by (eapply v_byte_capacity_eq; eauto).
  erewrite bind_eq by (eapply v_byte_len_eq; eauto). apply dassert_eq, Z.leb_le; lia.
Qed.

Lemma push_room_eq t self l o d w x : orep t self l o d w -> good t x -> nzst t -> room t o l x ->
  exists d' w', v_push t self x w = (Ok tt, w') /\ orep t self (l ++ [x]) (o_push t o l x) d' w' /\ quiet self w w' /\
    w_nalloc w' = w_nalloc w /\ w_moved w' = w_moved w.
Proof.
  intros R G Nz (Rn & Rb & Ra). pose proof (good_size t x G) as Sx. pose proof (good_align t x G) as Ax.
  destruct (p_push_unchecked_eq t self l o d w x R G Rn Rb Ra) as (d' & w' & E & R' & Q & Na & Mv).
  exists d', w'. ands; auto. unfold v_push. erewrite bind_eq; [exact E|]. apply owned_eq. unfold v_reserve_capacity_bytes_align.
  erewrite bind_eq with (a := ROk) (w' := w); [unfold unwrap_try_reserve_result, ret; reflexivity|]. eapply reserve_noop_eq; eauto; try lia.
  unfold req_al. destruct (kind_of t) eqn:K; auto. specialize (Ra eq_refl). lia.
Qed.
End WithConfig.
