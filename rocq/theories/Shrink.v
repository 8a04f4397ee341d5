(** The shrink operations of the three implementations (src/inner/sized.rs:67-80, aligned.rs:175-219,
    unaligned.rs:231-290, 478-582). *)
From Coq Require Import ZArith List Bool Lia.
From Verif Require Import Types World ValidSize Emplace SizedVec AlignedVec UnalignedVec Api Spec Bytes Arith Wp Mem Repr
  Access Reserve Realign Orep Push Deal PushWith Shell Insert Take Pop Iter.
Import ListNotations.
Open Scope Z_scope.
Open Scope m_scope.

(** Shrinking a capacity [cap] of which [used] is in use down to [n]. *)
Definition shr (cap used n : Z) : Z := if n <? cap then Z.max used n else cap.

(** The largest alignment of an element. *)
Fixpoint maxal (t : ty) (l : list value) (acc : Z) : Z :=
  match l with [] => acc | x :: r => maxal t r (Z.max acc (valign t x)) end.
Lemma maxal_ge t l acc : acc <= maxal t l acc.
Proof. revert acc; induction l; intros; cbn [maxal]; [lia|]. specialize (IHl (Z.max acc (valign t a))). lia. Qed.
Lemma maxal_all t l acc : Forall (fun x => valign t x <= maxal t l acc) l.
Proof.
  revert acc; induction l; intros; cbn [maxal]; constructor; auto.
  pose proof (maxal_ge t l (Z.max acc (valign t a))). lia.
Qed.
Lemma maxal_le t l acc m : acc <= m -> Forall (fun x => valign t x <= m) l -> maxal t l acc <= m.
Proof. intros A F; revert acc A; induction F; intros; cbn [maxal]; auto. apply IHF. lia. Qed.
Lemma maxal_pow2 t l acc : pow2 acc -> Forall (good t) l -> pow2 (maxal t l acc).
Proof. intros A F; revert acc A; induction F; intros; cbn [maxal]; auto. apply IHF. apply pow2_maxi; auto. now apply good_align. Qed.

(** Every element but the last takes as much room at alignment [b] as at alignment [a]. *)
Definition same_steps (t : ty) (a b : Z) (l : list value) : Prop :=
  Forall (fun x => psz t a x = psz t b x) (removelast l).
Lemma same_steps_cons t a b x y l : same_steps t a b (x :: y :: l) <-> psz t a x = psz t b x /\ same_steps t a b (y :: l).
Proof.
  unfold same_steps. change (removelast (x :: y :: l)) with (x :: removelast (y :: l)). split.
  - intros F. inversion F; auto.
  - intros [A B]. constructor; auto.
Qed.
Lemma same_steps_infos t a b l : same_steps t a b l -> forall s, infos_of t a s l = infos_of t b s l.
Proof.
  induction l as [|x [|y l] IH]; intros S s; [reflexivity|reflexivity|].
  apply same_steps_cons in S as [E S]. specialize (IH S).
  change (info_of t s x :: infos_of t a (s + psz t a x) (y :: l) = info_of t s x :: infos_of t b (s + psz t b x) (y :: l)).
  now rewrite E, IH.
Qed.
Lemma same_steps_contents t a b l d : same_steps t a b l -> forall s, contents t a s l d -> contents t b s l d.
Proof.
  induction l as [|x [|y l] IH]; intros S s; [auto|cbn; auto|].
  apply same_steps_cons in S as [E S]. specialize (IH S).
  change (contents t a s (x :: y :: l) d) with (sub s (vsize t x) d = v_bytes x /\ contents t a (s + psz t a x) (y :: l) d).
  change (contents t b s (x :: y :: l) d) with (sub s (vsize t x) d = v_bytes x /\ contents t b (s + psz t b x) (y :: l) d).
  intros [A B]. split; auto. rewrite <- E. now apply IH.
Qed.
Lemma same_steps_ulen t a b l : same_steps t a b l -> ulen t a l = ulen t b l.
Proof.
  induction l as [|x [|y l] IH]; intros S; [reflexivity|reflexivity|].
  apply same_steps_cons in S as [E S]. rewrite !ulen_cons by discriminate. rewrite E, IH; auto.
Qed.
Lemma same_steps_refl t a l : same_steps t a a l.
Proof. unfold same_steps. apply Forall_forall. auto. Qed.
Lemma same_steps_short t a b l : (length l <= 1)%nat -> same_steps t a b l.
Proof. destruct l as [|x [|]]; cbn; try lia; intros; constructor. Qed.

Lemma splice_sub o n d : 0 <= o -> 0 <= n -> o + n <= zlen d -> splice o (sub o n d) d = d.
Proof.
  intros A B L. pose proof (sub_len o n d A B L) as SL.
  apply bytes_ext. { rewrite splice_len; lia. }
  intros i Hi. rewrite splice_len in Hi by lia. rewrite byte_at_splice by lia. split_ifs; auto.
  rewrite byte_at_sub by lia. f_equal; lia.
Qed.

Section WithConfig.
Context {C : Config}.

(** An out-of-memory outcome changes nothing but the count of allocator calls. *)
Definition oom_panic (w : world) (r : panic_reason) (w' : world) : Prop :=
  r = POom /\ cfg_oom_panics = true /\ w' = bump_alloc w /\ alloc_failed w w'.
Definition oom_abort (w w' : world) : Prop := w' = bump_alloc w /\ alloc_failed w w'.
Lemma failed_bump w : cfg_alloc (w_nalloc w) = None -> alloc_failed w (bump_alloc w).
Proof. intros A. exists (w_nalloc w). proj. split; auto. Qed.
Lemma quiet_bump self w : quiet self w (bump_alloc w).
Proof. split; auto. apply frame_bump. Qed.
Lemma run_oom {A} w (Q : A -> world -> Prop) : cfg_alloc (w_nalloc w) = None ->
  run handle_alloc_error (bump_alloc w) Q (oom_panic w) (oom_abort w).
Proof.
  intros K. pose proof (failed_bump w K). unfold handle_alloc_error, oom_panic, oom_abort.
  destruct cfg_oom_panics eqn:O; unfold run, panic, fail; auto.
Qed.

Lemma infos_shrink_wp t icap len n w : icap_ok t icap -> 0 <= len <= icap -> 0 <= n ->
  run (infos_shrink icap len n) w
    (fun c w' => c = shr icap len n /\ icap_ok t c /\ len <= c <= icap /\ (w' = w \/ w' = bump_alloc w))
    (oom_panic w) (oom_abort w).
Proof.
  intros I L N. pose proof (info_size_range t) as IS. unfold infos_shrink, shr.
  destruct (Z.ltb_spec n icap) as [G|G].
  2:{ apply run_ret. ands; auto; lia. }
  assert (IO : icap_ok t (Z.max len n)) by (unfold icap_ok in *; nia).
  destruct (Z.eqb_spec icap 0); [lia|].
  destruct (Z.eqb_spec (Z.max len n) 0) as [E|E].
  - apply run_ret. rewrite E in *. ands; auto; lia.
  - unfold ask_alloc. destruct (cfg_alloc (w_nalloc w)) eqn:K.
    + unfold run, bind. rewrite K. cbv beta iota. unfold ret. ands; auto; lia.
    + eapply run_eq. { cbv beta. now rewrite K. } now apply run_oom.
Qed.

(** ** Sized *)
Lemma s_shrink_wp t self l v d w n b : srep t self l v d w -> 0 < s_size t -> 0 <= n -> 0 <= b ->
  run (s_shrink t self n b) w
    (fun _ w' => exists v' d', srep t self l v' d' w' /\ quiet self w w' /\
       sv_cap v' = shr (sv_cap v) (zlen l) (Z.max n ((b + s_size t - 1) / s_size t)))
    (oom_panic w) (oom_abort w).
Proof.
  intros R SP N B. unfold s_shrink. eapply run_eq. { eapply get_s_eq, R. }
  eapply run_eq. { unfold div_ceil. destruct (Z.eqb_spec (s_size t) 0); [lia|reflexivity]. }
  assert (SC : s_capacity t v = sv_cap v).
  { unfold s_capacity. destruct (Z.eqb_spec (s_size t) 0); lia. }
  rewrite SC, (sr_slen _ _ _ _ _ _ R). set (m := Z.max n _).
  assert (M0 : 0 <= m) by (unfold m; lia). clearbody m. unfold shr.
  pose proof (zlen_nonneg l) as Z0. pose proof (sr_cap0 _ _ _ _ _ _ R) as C0.
  pose proof (sr_fit _ _ _ _ _ _ R) as Fit. rewrite SC in Fit.
  destruct (Z.ltb_spec m (sv_cap v)) as [G|G].
  2:{ apply run_ret. exists v, d. ands; auto. apply quiet_refl. }
  destruct (Z.eqb_spec (s_size t) 0); [lia|]. destruct (Z.eqb_spec (sv_cap v) 0); [lia|]. cbn [orb].
  set (c := Z.max (zlen l) m). assert (Hc : 0 <= c <= sv_cap v) by lia.
  assert (Hl : zlen l <= c) by lia. clearbody c.
  pose proof (pow2_pos _ (s_align_pow2 t (sr_kind _ _ _ _ _ _ R) (sr_wf _ _ _ _ _ _ R))) as Pa.
  pose proof (sr_buf _ _ _ _ _ _ R) as Bf. pose proof (buf_len _ _ _ _ _ Bf) as Dl.
  assert (Ow : owned_block w self = ptr_block (sv_ptr v)) by (unfold owned_block; now rewrite (sr_obj _ _ _ _ _ _ R)).
  pose proof (nth_error_lt _ _ _ (sr_obj _ _ _ _ _ _ R)) as LT.
  pose proof (ulen_le t 1 ltac:(lia) l) as U. rewrite plen_sized in U by apply R.
  destruct (Z.eq_dec c 0) as [E0|E0].
  - (* everything is freed *)
    subst c. assert (L0 : l = []) by (destruct l; auto; rewrite zlen_cons in *; pose proof (zlen_nonneg l); lia). subst l.
    apply run_bind. unfold gshrink. cbn [l_size l_align]. change (0 * s_size t) with 0.
    destruct (Z.ltb_spec (sv_cap v * s_size t) 0); [nia|]. rewrite Z.eqb_refl.
    eapply run_eq. { eapply dealloc_eq; eauto. }
    apply run_ret. eapply run_eq1; [reflexivity|].
    exists (SVec (Raw (s_align t)) 0 (zlen (@nil value))), []. destruct R.
    ands; auto.
    + constructor; proj; auto; try lia; try constructor.
      * now apply upd_same.
      * unfold buf. cbn. exists (s_align t). ands; auto. apply Z.mod_same. lia.
      * unfold s_capacity. destruct (Z.eqb_spec (s_size t) 0); proj; lia.
    + split; [|reflexivity]. apply (frame_free self w (sv_ptr v)); auto.
  - apply run_bind. eapply shrink_wp; eauto; try nia.
    + intros q h k m0 Bf' Lh Bq HO HN ->. eapply run_eq1; [reflexivity|].
      exists (SVec q c (zlen l)), (firstn (Z.to_nat (c * s_size t)) d). destruct R.
      ands; auto.
      * constructor; proj; auto; try lia; try nia.
        -- now apply upd_same.
        -- apply contents_firstn; auto; nia.
        -- unfold s_capacity. destruct (Z.eqb_spec (s_size t) 0); proj; lia.
      * split; [|reflexivity]. unfold set_vecs. proj. eapply frame_realloc; eauto. reflexivity.
    + intros K. now apply run_oom.
Qed.

(** Zero-sized elements: a division by zero, before anything has happened (F8). *)
Lemma s_shrink_zst t self l v d w n b : srep t self l v d w -> s_size t = 0 ->
  s_shrink t self n b w = (Panic PDivZero, w).
Proof.
  intros R Z. unfold s_shrink. erewrite bind_eq by (eapply get_s_eq, R). unfold div_ceil. rewrite Z. reflexivity.
Qed.

(** ** Aligned *)
Lemma a_shrink_wp t self l v d w n b : arep t self l v d w -> 0 <= n -> 0 <= b ->
  run (a_shrink t self n b) w
    (fun _ w' => exists v' d', arep t self l v' d' w' /\ quiet self w w' /\
       av_icap v' = shr (av_icap v) (zlen l) n /\
       (av_bcap v' = shr (av_bcap v) (plen t 1 l) b \/ av_bcap v' = av_bcap v /\ alloc_failed w w'))
    (oom_panic w) (oom_abort w).
Proof.
  intros R N B. unfold a_shrink. eapply run_eq. { eapply get_a_eq, R. }
  apply run_bind. pose proof (zlen_nonneg l).
  eapply run_conseq. { apply infos_shrink_wp with (t := t) (len := zlen (av_infos v)); auto. apply R.
    rewrite (ar_infos _ _ _ _ _ _ R), infos_of_zlen. split; auto. apply R. } all: auto.
  rewrite (ar_infos _ _ _ _ _ _ R), infos_of_zlen. rewrite <- (ar_infos _ _ _ _ _ _ R).
  intros c w1 (Ec & I & Lc & Ew).
  assert (R1 : arep t self l v d w1) by (destruct Ew as [->| ->]; auto; now apply arep_bump).
  assert (Q1 : quiet self w w1) by (destruct Ew as [->| ->]; [apply quiet_refl|apply quiet_bump]).
  set (v1 := AVec (av_ptr v) (av_bcap v) (av_infos v) c).
  destruct (arep_set t self l v v1 d w1 R1) as [R2 Q2]; auto. { unfold v1. proj. lia. }
  eapply run_eq. reflexivity. 
  change (fst (tt, set_vecs (upd (w_vecs w1) self (OA v1)) w1)) with tt.
  set (w2 := set_vecs (upd (w_vecs w1) self (OA v1)) w1) in *. clearbody w2.
  assert (Q : quiet self w w2) by (eapply quiet_trans; eauto).
  assert (Ln : forall w3, alloc_failed w2 w3 -> alloc_failed w w3).
  { intros w3 (k & K1 & K2). exists k. split; auto. pose proof (quiet_nalloc _ _ _ Q). lia. }
  change (av_bcap v) with (av_bcap v1). change (av_infos v) with (av_infos v1).
  assert (Ei : av_icap v1 = shr (av_icap v) (zlen l) n) by exact Ec. rewrite <- Ei.
  clearbody v1. clear v R R1 Ei Q1 Q2 Ew I Lc Ec w1 c. rename v1 into v. rename R2 into R.
  assert (BL : a_byte_len v = plen t 1 l).
  { unfold a_byte_len. rewrite (ar_infos _ _ _ _ _ _ R), last_end_infos by lia. apply ulen_1. }
  rewrite BL. unfold shr.
  assert (P0 : 0 <= plen t 1 l) by (apply plen_nonneg; [lia|apply R]).
  pose proof (ar_fit _ _ _ _ _ _ R) as Fit. pose proof (ar_bcap _ _ _ _ _ _ R) as Bc.
  destruct (Z.ltb_spec (Z.max (plen t 1 l) b) (av_bcap v)) as [G|G].
  2:{ apply run_ret. exists v, d. ands; auto. left. destruct (Z.ltb_spec b (av_bcap v)); lia. }
  destruct (Z.ltb_spec b (av_bcap v)); [|lia].
  set (c := Z.max (plen t 1 l) b) in *. assert (Hc : 0 <= c) by lia. assert (Hl : plen t 1 l <= c) by lia. clearbody c.
  pose proof (pow2_pos _ (static_align_pow2 t (ar_wf _ _ _ _ _ _ R))) as Pa.
  pose proof (ar_buf _ _ _ _ _ _ R) as Bf. pose proof (buf_len _ _ _ _ _ Bf) as Dl.
  assert (Ow : owned_block w2 self = ptr_block (av_ptr v)) by (unfold owned_block; now rewrite (ar_obj _ _ _ _ _ _ R)).
  pose proof (nth_error_lt _ _ _ (ar_obj _ _ _ _ _ _ R)) as LT.
  pose proof (ulen_le t 1 ltac:(lia) l) as U.
  eapply run_eq. { apply vs_new_unchecked_eq. lia. }
  unfold vs_layout.
  destruct (Z.eqb_spec c 0) as [E0|E0].
  - subst c. eapply run_eq. { eapply dealloc_eq; eauto. }
    eapply run_eq1; [reflexivity|]. exists (AVec (Raw (static_align t)) 0 (av_infos v) (av_icap v)), [].
    assert (Z0 : plen t 1 l = 0) by lia. destruct R. ands; auto.
    + constructor; proj; auto; try lia.
      * now apply upd_same.
      * unfold buf. cbn. exists (static_align t). ands; auto. apply Z.mod_same. lia.
      * apply (contents_move t 1 ltac:(lia) 0 0 l d []); auto; try lia.
        -- change (zlen []) with 0. lia.
        -- replace (ulen t 1 l) with 0; auto. pose proof (ulen_nonneg t 1 ltac:(lia) l ar_good). lia.
    + eapply quiet_trans; eauto. split; [|reflexivity]. apply (frame_free self w2 (av_ptr v)); auto.
  - apply run_bind. eapply shrink_wp; eauto; try lia.
    + intros q h k m0 Bf' Lh Bq HO HN ->. eapply run_eq1; [reflexivity|].
      replace (vs_new_squished (static_align t) c) with c.
      2:{ unfold vs_new_squished, vs_max. rewrite (proj2 (Z.leb_le _ _)); auto. lia. }
      exists (AVec q c (av_infos v) (av_icap v)), (firstn (Z.to_nat c) d). destruct R. ands; auto.
      * constructor; proj; auto; try lia.
        -- now apply upd_same.
        -- apply contents_firstn; auto; lia.
      * eapply quiet_trans; eauto. split; [|reflexivity]. unfold set_vecs. proj. eapply frame_realloc; eauto. reflexivity.
    + intros K. apply run_ret. exists v, d. ands; auto. now apply arep_bump.
      eapply quiet_trans; eauto. apply quiet_bump. right. split; auto. apply Ln. now apply failed_bump.
Qed.

(** ** Unaligned *)
Lemma u_max_align_loop_eq t self l v d w : urep t self l v d w -> forall m a acc, l = a ++ m ->
  u_max_align_loop t (uv_ptr v) (uv_align v) (plen t (uv_align v) a) (infos_of t (uv_align v) (plen t (uv_align v) a) m) acc w
  = (Ok (maxal t m acc), w).
Proof.
  intros R. induction m as [|x m IH]; intros a acc E; [reflexivity|].
  cbn [infos_of u_max_align_loop maxal].
  destruct (v_next_cons t self l (OU v) d w a x m [] (VU (UIter (infos_of t (uv_align v) (plen t (uv_align v) a) (x :: m)) (uv_ptr v) (plen t (uv_align v) a) (uv_align v)))) as (it' & E1 & K).
  { exact R. } { cbn [covers ui_infos ui_ptr ui_start ui_align]. ands; auto. } { now rewrite app_nil_r. }
  cbn [v_next infos_of] in E1.
  destruct (u_next t (UIter (info_of t (plen t (uv_align v) a) x :: infos_of t (uv_align v) (plen t (uv_align v) a + psz t (uv_align v) x) m)
                       (uv_ptr v) (plen t (uv_align v) a) (uv_align v)) w) as [[[y it]|r| |r] w'] eqn:E2; unfold bind in *;
    rewrite E2 in E1; try discriminate. rewrite E2.
  injection E1 as -> <- ->. cbn [covers] in K. destruct K as (K1 & K2 & K3 & K4). cbn [iref wm].
  assert (Q : plen t (uv_align v) (a ++ [x]) = plen t (uv_align v) a + psz t (uv_align v) x) by (rewrite plen_app; cbn [plen]; lia).
  specialize (IH (a ++ [x]) (Z.max acc (valign t x))). rewrite Q in IH.
  destruct m as [|y m]; [reflexivity|].
  rewrite K3, Q by discriminate. apply IH. now rewrite <- app_assoc.
Qed.
Lemma u_max_align_of_elems_eq t self l v d w : urep t self l v d w -> u_max_align_of_elems t v w = (Ok (maxal t l 1), w).
Proof.
  intros R. unfold u_max_align_of_elems. rewrite (ur_infos _ _ _ _ _ _ R).
  exact (u_max_align_loop_eq t self l v d w R l [] 1 eq_refl).
Qed.

Lemma u_realign_down_loop_eq t p a b al cap d w : pow2 a -> pow2 b -> b <= a -> buf (w_heap w) p al cap d -> cap <= isize_max ->
  forall l s, Forall (good t) l -> 0 <= s -> s mod a = 0 -> s + plen t a l <= cap -> same_steps t a b l ->
  u_realign_down_loop p a b 0 (map i_end (infos_of t a s l)) w = (Ok tt, w).
Proof.
  intros Pa Pb Le Bf Cm. pose proof (pow2_pos _ Pa) as a0. pose proof (pow2_pos _ Pb) as b0.
  induction l as [|x [|y r] IH]; intros s G S0 Sm Fit SS; [reflexivity|reflexivity|].
  inversion G as [|? ? Gx G']; subst. inversion G' as [|? ? Gy G'']; subst.
  apply same_steps_cons in SS as [Ex SS]. specialize (IH (s + psz t a x) G').
  cbn [plen] in *. pose proof (good_size t x Gx). pose proof (good_size t y Gy).
  pose proof (psz_ge t a a0 x). pose proof (psz_ge t a a0 y). pose proof (plen_nonneg t a a0 r G'').
  pose proof (psz_ge t b b0 y). pose proof (psz_le t b a Pb Pa Le y).
  assert (Sy : (s + psz t a x) mod a = 0) by (apply mod_add_0; auto; apply psz_mod; auto).
  assert (Syb : (s + psz t a x) mod b = 0) by (apply (mod_trans _ b a); auto; now apply pow2_divide).
  change (map i_end (infos_of t a s (x :: y :: r))) with
    ((s + vsize t x) :: map i_end (infos_of t a (s + psz t a x) (y :: r))).
  change (map i_end (infos_of t a (s + psz t a x) (y :: r))) with
    ((s + psz t a x + vsize t y) :: map i_end (infos_of t a (s + psz t a x + psz t a y) r)) in *.
  set (rest := map i_end (infos_of t a (s + psz t a x + psz t a y) r)) in *.
  assert (Sb : s mod b = 0) by (apply (mod_trans _ b a); auto; now apply pow2_divide).
  assert (PB : pad (s + vsize t x) b = s + psz t a x) by (rewrite pad_add by auto; rewrite Ex; reflexivity).
  assert (PA' : pad (s + psz t a x + vsize t y) a = s + psz t a x + psz t a y) by (rewrite pad_add by auto; reflexivity).
  assert (PB' : pad (s + psz t a x + vsize t y) b = s + psz t a x + psz t b y) by (rewrite pad_add by auto; reflexivity).
  cbn [u_realign_down_loop].
  erewrite bind_eq by (apply vs_unchecked_sub_eq; lia).
  erewrite bind_eq by (apply unchecked_pad_to_spec; auto; lia). rewrite PB.
  erewrite bind_eq by (apply vs_unchecked_sub_eq; lia).
  erewrite bind_eq by (apply vs_unchecked_sub_eq; lia). rewrite !Z.sub_0_r.
  erewrite bind_eq by (eapply ptr_add_buf; eauto; lia).
  erewrite bind_eq by (eapply ptr_add_buf; eauto; lia).
  replace (s + psz t a x + vsize t y - (s + psz t a x)) with (vsize t y) by lia.
  erewrite bind_eq by (eapply mem_copy_buf; eauto; lia).
  rewrite splice_sub by (try (rewrite (buf_len _ _ _ _ _ Bf)); lia).
  rewrite (hput_same _ _ _ _ _ Bf), set_heap_same.
  erewrite bind_eq by (apply unchecked_pad_to_spec; auto; lia). rewrite PA'.
  erewrite bind_eq by (apply unchecked_pad_to_spec; auto; lia). rewrite PB'.
  erewrite bind_eq by (apply vs_unchecked_sub_eq; lia).
  erewrite bind_eq by (apply vs_unchecked_add_eq; lia).
  destruct r as [|z r]; [reflexivity|].
  pose proof (proj1 (same_steps_cons _ _ _ _ _ _) SS) as [Ey _].
  replace (0 + (s + psz t a x + psz t a y - (s + psz t a x + psz t b y))) with 0 by lia.
  apply IH; auto; lia.
Qed.

(** When shrinking works: the alignment it settles on keeps every element in its place, and the new byte capacity is a
    multiple of it. *)
Definition new_align (t : ty) (l : list value) (al a : Z) : Z := Z.max (Z.min a al) (maxal t l 1).
Definition shrinkable (t : ty) (l : list value) (v : uvec) (b a : Z) : Prop :=
  let na := new_align t l (uv_align v) a in
  same_steps t (uv_align v) na l /\ (uv_bcap v <= b \/ b <= plen t na l \/ b mod na = 0).

Lemma u_shrink_wp t self l v d w n b a : urep t self l v d w -> 0 <= n -> 0 <= b -> pow2 a -> shrinkable t l v b a ->
  let na := new_align t l (uv_align v) a in
  run (u_shrink t self n b a) w
    (fun _ w' => exists v' d', urep t self l v' d' w' /\ quiet self w w' /\
       uv_icap v' = shr (uv_icap v) (zlen l) n /\
       (uv_align v' = na /\ uv_bcap v' = Z.max (plen t na l) (Z.min b (uv_bcap v)) \/
        uv_align v' = uv_align v /\ uv_bcap v' = uv_bcap v /\ alloc_failed w w'))
    (oom_panic w) (oom_abort w).
Proof.
  intros R N B Pw [SS Md] na. fold na in SS, Md.
  unfold u_shrink. eapply run_eq. { eapply get_u_eq, R. }
  apply run_bind. pose proof (zlen_nonneg l).
  eapply run_conseq. { apply infos_shrink_wp with (t := t) (len := zlen (uv_infos v)); auto. apply R.
    rewrite (ur_infos _ _ _ _ _ _ R), infos_of_zlen. split; auto. apply R. } all: auto.
  rewrite (ur_infos _ _ _ _ _ _ R), infos_of_zlen. rewrite <- (ur_infos _ _ _ _ _ _ R).
  intros c w1 (Ec & I & Lc & Ew).
  assert (R1 : urep t self l v d w1) by (destruct Ew as [->| ->]; auto; now apply urep_bump).
  assert (Q1 : quiet self w w1) by (destruct Ew as [->| ->]; [apply quiet_refl|apply quiet_bump]).
  set (v1 := UVec (uv_ptr v) (uv_bcap v) (uv_infos v) c (uv_align v)).
  destruct (urep_set t self l v v1 d w1 R1) as [R2 Q2]; auto. { unfold v1. proj. lia. }
  eapply run_eq. reflexivity.
  set (w2 := set_vecs (upd (w_vecs w1) self (OU v1)) w1) in *. clearbody w2.
  assert (Q : quiet self w w2) by (eapply quiet_trans; eauto).
  assert (Ln : forall w3, alloc_failed w2 w3 -> alloc_failed w w3).
  { intros w3 (k & K1 & K2). exists k. split; auto. pose proof (quiet_nalloc _ _ _ Q). lia. }
  change (uv_bcap v) with (uv_bcap v1) in Md |- *. change (uv_infos v) with (uv_infos v1).
  change (uv_align v) with (uv_align v1) in SS |- *. change (uv_ptr v) with (uv_ptr v1).
  assert (Ei : uv_icap v1 = shr (uv_icap v) (zlen l) n) by exact Ec. rewrite <- Ei.
  assert (Ena : na = new_align t l (uv_align v1) a) by reflexivity. clearbody na.
  clearbody v1. clear v R R1 Q1 Q2 Ew I Lc Ec Ei w1 c. rename v1 into v. rename R2 into R.
  eapply run_eq. { eapply u_max_align_of_elems_eq; eauto. }
  fold (new_align t l (uv_align v) a). rewrite <- Ena.
  pose proof (ur_al _ _ _ _ _ _ R) as Pal. pose proof (pow2_pos _ Pal) as al0.
  assert (Pna : pow2 na).
  { rewrite Ena. apply pow2_maxi. now apply pow2_mini. apply maxal_pow2. apply pow2_1. apply R. }
  pose proof (pow2_pos _ Pna) as na0.
  assert (Le : na <= uv_align v).
  { rewrite Ena. unfold new_align. pose proof (maxal_le t l 1 (uv_align v) ltac:(lia) (ur_aligned _ _ _ _ _ _ R)). lia. }
  assert (Al : Forall (fun x => valign t x <= na) l).
  { eapply Forall_impl; [|apply (maxal_all t l 1)]. cbv beta. intros. rewrite Ena. unfold new_align. lia. }
  eapply run_eq. { apply dassert_eq. now apply Z.leb_le. }
  pose proof (ur_good _ _ _ _ _ _ R) as Gd.
  pose proof (ur_fit _ _ _ _ _ _ R) as Fit. pose proof (ur_bcap _ _ _ _ _ _ R) as Bc.
  pose proof (ur_buf _ _ _ _ _ _ R) as Bf. pose proof (buf_len _ _ _ _ _ Bf) as Dl.
  pose proof (plen_nonneg t _ al0 l Gd) as P0. pose proof (plen_nonneg t _ na0 l Gd) as P0'.
  pose proof (plen_le t na (uv_align v) Pna Pal Le l) as PL.
  pose proof (nth_error_lt _ _ _ (ur_obj _ _ _ _ _ _ R)) as LT.
  set (need := (na <? uv_align v) && Nat.ltb 1 (length (uv_infos v))).
  assert (Rd : (if need then u_realign_down self na else ret tt) w2 = (Ok tt, w2)).
  { destruct need eqn:En; [|reflexivity]. unfold need in En. apply andb_true_iff in En as [E1 E2].
    unfold u_realign_down. erewrite bind_eq by (eapply get_u_eq, R).
    erewrite bind_eq by (apply dassert_eq; now rewrite E1, E2).
    rewrite (ur_infos _ _ _ _ _ _ R). eapply u_realign_down_loop_eq; eauto; try lia. }
  eapply run_eq. { exact Rd. }
  eapply run_eq. { eapply get_u_eq, R. }
  assert (Ul : u_unaligned_byte_len v = ulen t na l).
  { unfold u_unaligned_byte_len. rewrite (ur_infos _ _ _ _ _ _ R), last_end_infos by lia. now apply same_steps_ulen. }
  eapply run_eq.
  { apply unchecked_pad_to_spec; auto.
    - rewrite Ul. apply ulen_nonneg; auto.
    - rewrite Ul, pad_ulen by auto. lia. }
  rewrite Ul, pad_ulen by auto.
  eapply run_eq. { apply vs_new_unchecked_eq. lia. }
  set (c := Z.max (Z.min b (uv_bcap v)) (plen t na l)).
  assert (Hc : plen t na l <= c <= uv_bcap v) by lia.
  assert (Hc0 : 0 <= c) by lia.
  assert (Ec : c = Z.max (plen t na l) (Z.min b (uv_bcap v))) by (unfold c; lia).
  assert (Mc : c mod na = 0).
  { assert (uv_bcap v mod na = 0) by (apply (mod_trans _ na (uv_align v)); auto; [now apply pow2_divide|apply R]).
    pose proof (plen_mod t na na0 l). unfold c.
    destruct (Z.max_spec (Z.min b (uv_bcap v)) (plen t na l)) as [[? ->]|[? ->]]; auto.
    destruct (Z.min_spec b (uv_bcap v)) as [[? E]|[? E]]; rewrite E in *; auto.
    destruct Md as [Md|[Md|Md]]; auto; try lia. replace b with (plen t na l) by lia. auto. }
  eapply run_eq. { apply dassert_eq. apply Z.leb_le. lia. }
  assert (Cm : c <= isize_max - (na - 1)) by (apply mult_le_max; auto; lia).
  assert (Ct : contents t na 0 l d) by (eapply same_steps_contents; eauto; apply R).
  pose proof (same_steps_infos t (uv_align v) na l SS 0) as Inf.
  pose proof (ulen_le t na na0 l) as U.
  assert (Ow : owned_block w2 self = ptr_block (uv_ptr v)) by (unfold owned_block; now rewrite (ur_obj _ _ _ _ _ _ R)).
  destruct ((c <? uv_bcap v) || (na <? uv_align v)) eqn:Sh.
  2:{ apply orb_false_iff in Sh as [S1 S2]. apply Z.ltb_ge in S1, S2. apply run_ret. exists v, d. ands; auto.
      left. split; lia. }
  clearbody c.
  eapply run_eq. { unfold vu_layout. now apply layout_unchecked_eq. }
  destruct (Z.ltb_spec 0 c) as [Cp|Cz].
  - eapply run_eq. { unfold vu_layout. now apply layout_unchecked_eq. }
    apply run_bind. eapply shrink_wp; eauto; try lia.
    + intros q h k m0 Bf' Lh Bq HO HN ->. eapply run_eq1; [reflexivity|].
      replace (new_squished_to c na) with c.
      2:{ unfold new_squished_to, max_for_align. rewrite (proj2 (Z.leb_le _ _)); auto. }
      exists (UVec q c (uv_infos v) (uv_icap v) na), (firstn (Z.to_nat c) d). destruct R. ands; auto.
      * constructor; proj; auto; try lia.
        -- now apply upd_same.
        -- now rewrite ur_infos.
        -- apply contents_firstn; auto; lia.
      * eapply quiet_trans; eauto. split; [|reflexivity]. unfold set_vecs. proj. eapply frame_realloc; eauto. reflexivity.
    + intros K. pose proof (failed_bump w2 K) as AF.
      destruct need eqn:En.
      2:{ apply run_ret. exists v, d. ands; auto. now apply urep_bump. eapply quiet_trans; eauto. apply quiet_bump. }
      unfold need in En. apply andb_true_iff in En as [E1 E2]. apply Z.ltb_lt in E1. apply Nat.ltb_lt in E2.
      eapply run_eq. reflexivity.
      set (v1 := UVec (uv_ptr v) (uv_bcap v) (uv_infos v) (uv_icap v) na).
      set (w3 := set_vecs (upd (w_vecs (bump_alloc w2)) self (OU v1)) (bump_alloc w2)).
      destruct (u_realign_up_eq t self l v1 (uv_align v) (uv_bcap v) d w3) as (d' & Er & Ld & Cd); unfold v1, w3; proj; auto; try lia.
      { now apply upd_same. } { rewrite (ur_infos _ _ _ _ _ _ R), infos_of_length in E2. lia. }
      { rewrite (ur_infos _ _ _ _ _ _ R). auto. }
      eapply run_eq. { exact Er. }
      eapply run_eq. { apply get_u_eq. unfold v1. proj. apply upd_same. unfold w3. proj. now rewrite upd_length. }
      eapply run_eq1; [reflexivity|].
      exists (UVec (uv_ptr v) (uv_bcap v) (infos_of t (uv_align v) 0 l) (uv_icap v) (uv_align v)), d'.
      unfold w3. unfold v1. proj. rewrite !upd_upd. ands; auto.
      * destruct R. constructor; proj; auto.
        -- now apply upd_same.
        -- eapply buf_hput; eauto. 
      * eapply quiet_trans; eauto. split; [|reflexivity].
        apply (frame_trans self _ (bump_alloc w2)); [apply frame_bump|].
        apply (frame_trans self _ (set_heap (hput (w_heap w2) (uv_ptr v) d') (bump_alloc w2))).
        { apply (frame_hput self (bump_alloc w2)). exact Ow. }
        apply (frame_set_obj self (set_heap (hput (w_heap w2) (uv_ptr v) d') (bump_alloc w2)) _ (uv_ptr v)); auto.
  - replace c with 0 in * by lia.
    assert (Z0 : plen t na l = 0) by lia.
    assert (Rdl : exists w3, (if 0 <? uv_bcap v then gdealloc (uv_ptr v) (Layout (uv_bcap v) (uv_align v)) else ret tt) w2 = (Ok tt, w3)
                  /\ w3 = set_heap (hfree (w_heap w2) (uv_ptr v)) w2).
    { destruct (Z.ltb_spec 0 (uv_bcap v)).
      - eexists. split; [eapply dealloc_eq; eauto|reflexivity].
      - unfold buf in Bf. pose proof (buf_nonneg _ _ _ _ _ (ur_buf _ _ _ _ _ _ R)). replace (uv_bcap v) with 0 in Bf by lia. cbn in Bf.
        destruct Bf as (p0 & Ep & _). exists w2. split; [reflexivity|]. rewrite Ep. cbn [hfree]. now rewrite set_heap_same. }
    destruct Rdl as (w3 & Er & ->).
    eapply run_eq. { exact Er. }
    eapply run_eq1; [reflexivity|]. exists (UVec (dangling_thin na) 0 (uv_infos v) (uv_icap v) na), [].
    destruct R. ands; auto.
    + constructor; proj; auto; try lia.
      * now apply upd_same.
      * now rewrite ur_infos.
      * unfold buf. cbn. exists na. ands; auto. apply Z.mod_same. lia.
      * apply (contents_move t na na0 0 0 l d []); auto; try lia.
        -- change (zlen []) with 0. lia.
        -- replace (ulen t na l) with 0; auto. pose proof (ulen_nonneg t na na0 l ur_good). lia.
    + eapply quiet_trans; eauto. split; [|reflexivity]. apply (frame_free self w2 (uv_ptr v)); auto.
Qed.
End WithConfig.
