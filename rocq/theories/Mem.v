(** Reasoning about the element buffer of a vector. *)
From Coq Require Import ZArith List Bool Lia.
From Verif Require Import Types World ValidSize Bytes Arith Wp.
Import ListNotations.
Open Scope Z_scope.
Open Scope m_scope.

(** The buffer at [p]: allocated with layout [(cap, al)] and holding [data], or dangling and aligned when [cap = 0]. *)
Definition buf (h : list (option block)) (p : ptr) (al cap : Z) (data : list byte) : Prop :=
  if cap =? 0 then exists a, p = Raw a /\ 0 < a /\ a mod al = 0 /\ data = []
  else exists b base, p = Blk b 0 /\ heap_get h b = Some (Block (Layout cap al) base data) /\
       0 < base /\ base mod al = 0 /\ zlen data = cap /\ 0 < cap.

Definition padd (p : ptr) (n : Z) : ptr :=
  match p with Blk b o => Blk b (o + n) | Raw a => Raw a end.

Lemma buf_len h p al cap data : buf h p al cap data -> zlen data = cap.
Proof.
  unfold buf. destruct (Z.eqb_spec cap 0).
  - intros (a & _ & _ & _ & ->). now subst.
  - intros (b & base & _ & _ & _ & _ & H & _). auto.
Qed.
Lemma buf_nonneg h p al cap data : buf h p al cap data -> 0 <= cap.
Proof. intros H. rewrite <- (buf_len _ _ _ _ _ H). apply zlen_nonneg. Qed.
Lemma buf_block h p al cap data b : buf h p al cap data -> ptr_block p = Some b ->
  p = Blk b 0 /\ (b < length h)%nat /\ 0 < cap.
Proof.
  unfold buf. destruct (Z.eqb_spec cap 0).
  - intros (a & -> & _). discriminate.
  - intros (b' & base & -> & H & _ & _ & _ & L). simpl. intros E; injection E as <-.
    repeat split; auto. eapply heap_get_lt; eauto.
Qed.

(** The buffer only depends on its own block. *)
Lemma buf_agree h h' p al cap data :
  buf h p al cap data ->
  (forall b, ptr_block p = Some b -> heap_get h' b = heap_get h b) ->
  buf h' p al cap data.
Proof.
  unfold buf. destruct (Z.eqb_spec cap 0); auto.
  intros (b & base & -> & H & R) A. exists b, base. rewrite (A b eq_refl). auto.
Qed.

(** The heap with the contents of the buffer at [p] replaced. *)
Definition hput (h : list (option block)) (p : ptr) (data : list byte) : list (option block) :=
  match p with
  | Blk b _ => match heap_get h b with
               | Some k => upd h b (Some (Block (b_layout k) (b_base k) data))
               | None => h
               end
  | Raw _ => h
  end.

Lemma hput_length h p d : length (hput h p d) = length h.
Proof.
  unfold hput. destruct p; auto. destruct (heap_get h b); auto. apply upd_length.
Qed.
Lemma hput_other h p d b : ptr_block p <> Some b -> heap_get (hput h p d) b = heap_get h b.
Proof.
  unfold hput. destruct p; auto. simpl. intros. destruct (heap_get h b0); auto.
  apply heap_get_upd_other. congruence.
Qed.
Lemma hput_live h p d b : heap_get (hput h p d) b <> None <-> heap_get h b <> None.
Proof.
  destruct (ptr_block p) eqn:P.
  - destruct (Nat.eq_dec n b) as [->|N].
    + destruct p; simpl in P; [|discriminate]. injection P as ->. simpl.
      destruct (heap_get h b) eqn:E; [|now rewrite E].
      rewrite heap_get_upd_same by (eapply heap_get_lt; eauto). split; congruence.
    + rewrite hput_other; [tauto|congruence].
  - rewrite hput_other; [tauto|congruence].
Qed.
Lemma buf_hput h p al cap d d' : buf h p al cap d -> zlen d' = zlen d -> buf (hput h p d') p al cap d'.
Proof.
  unfold buf. destruct (Z.eqb_spec cap 0).
  - intros (a & -> & ? & ? & ->) L. exists a. repeat split; auto.
    destruct d'; auto. rewrite zlen_cons in L. pose proof (zlen_nonneg d'). rewrite zlen_nil in L. lia.
  - intros (b & base & -> & H & ? & ? & ? & ?) L. exists b, base. simpl. rewrite H. simpl.
    rewrite heap_get_upd_same by (eapply heap_get_lt; eauto). repeat split; auto. lia.
Qed.
Lemma hput_hput h p d d' : hput (hput h p d) p d' = hput h p d'.
Proof.
  unfold hput. destruct p; auto. destruct (heap_get h b) eqn:E; [|now rewrite E].
  rewrite heap_get_upd_same by (eapply heap_get_lt; eauto). simpl. apply upd_upd.
Qed.
Lemma hput_same h p al cap d : buf h p al cap d -> hput h p d = h.
Proof.
  unfold buf. destruct (Z.eqb_spec cap 0).
  - intros (a & -> & _). reflexivity.
  - intros (b & base & -> & H & _). simpl. rewrite H. simpl. apply upd_nth.
    unfold heap_get in H. destruct (nth_error h b) as [[k|]|]; congruence.
Qed.

Lemma ptr_add_buf w p al cap d n : buf (w_heap w) p al cap d -> 0 <= n <= cap ->
  ptr_add p n w = (Ok (padd p n), w).
Proof.
  intros B Hn. unfold ptr_add. unfold buf in B. destruct (Z.eqb_spec cap 0).
  - destruct B as (a & -> & _). replace n with 0 by lia. reflexivity.
  - destruct B as (b & base & -> & H & ? & ? & L & ?). destruct (Z.eqb_spec n 0).
    + subst. now simpl.
    + rewrite H. cbn -[Z.add]. rewrite !(proj2 (Z.leb_le _ _)) by lia. reflexivity.
Qed.
Lemma padd_0 p : padd p 0 = p.
Proof. destruct p; simpl; auto. now rewrite Z.add_0_r. Qed.
Lemma padd_padd p n m : padd (padd p n) m = padd p (n + m).
Proof. destruct p; simpl; auto. f_equal; lia. Qed.
Lemma padd_block p n : ptr_block (padd p n) = ptr_block p.
Proof. now destruct p. Qed.

Lemma ptr_add_buf2 w p al cap d k n : buf (w_heap w) p al cap d -> 0 <= k -> 0 <= n -> k + n <= cap ->
  ptr_add (padd p k) n w = (Ok (padd p (k + n)), w).
Proof.
  intros B Hk Hn H. unfold ptr_add. unfold buf in B. destruct (Z.eqb_spec cap 0).
  - destruct B as (a & -> & _). replace n with 0 by lia. reflexivity.
  - destruct B as (b & base & -> & G & ? & ? & L & ?). destruct (Z.eqb_spec n 0).
    + subst. now rewrite Z.add_0_r.
    + cbn -[Z.add]. rewrite G. cbn -[Z.add]. rewrite !(proj2 (Z.leb_le _ _)) by lia. cbn -[Z.add].
      do 3 f_equal.
Qed.

Lemma heap_read_buf h p al cap d off n : buf h p al cap d -> 0 <= off -> 0 <= n -> off + n <= cap ->
  heap_read h (padd p off) n = Some (sub off n d).
Proof.
  intros B Ho Hn H. unfold heap_read, buf in *. destruct (Z.eqb_spec n 0); [subst; auto|].
  destruct (Z.eqb_spec cap 0); [lia|].
  destruct B as (b & base & -> & G & ? & ? & L & ?). change (padd (Blk b 0) off) with (Blk b off); cbv beta iota. rewrite G. cbn -[Z.add sub].
  rewrite !(proj2 (Z.leb_le _ _)) by lia. reflexivity.
Qed.
Lemma mem_read_buf w p al cap d off n : buf (w_heap w) p al cap d -> 0 <= off -> 0 <= n -> off + n <= cap ->
  mem_read (padd p off) n w = (Ok (sub off n d), w).
Proof. intros. unfold mem_read. now rewrite (heap_read_buf _ _ al cap d). Qed.

Lemma heap_write_buf h p al cap d off bs : buf h p al cap d -> 0 <= off -> off + zlen bs <= cap ->
  heap_write h (padd p off) bs = Some (hput h p (splice off bs d)).
Proof.
  intros B Ho H. pose proof (zlen_nonneg bs). unfold heap_write. destruct (Z.eqb_spec (zlen bs) 0).
  - f_equal. symmetry. apply zlen_zero in e as ->. replace (splice off [] d) with d.
    + eapply hput_same; eauto.
    + unfold splice. simpl. rewrite Nat.add_0_r. symmetry; apply firstn_skipn.
  - unfold buf in B. destruct (Z.eqb_spec cap 0); [lia|].
    destruct B as (b & base & -> & G & ? & ? & L & ?). change (padd (Blk b 0) off) with (Blk b off); cbv beta iota. unfold hput. rewrite G. cbn -[Z.add splice].
    rewrite !(proj2 (Z.leb_le _ _)) by lia. reflexivity.
Qed.
Lemma mem_write_buf w p al cap d off bs : buf (w_heap w) p al cap d -> 0 <= off -> off + zlen bs <= cap ->
  mem_write (padd p off) bs w = (Ok tt, set_heap (hput (w_heap w) p (splice off bs d)) w).
Proof. intros. unfold mem_write. now rewrite (heap_write_buf _ _ al cap d). Qed.

Lemma mem_copy_buf w p al cap d src dst n : buf (w_heap w) p al cap d ->
  0 <= src -> 0 <= dst -> 0 <= n -> src + n <= cap -> dst + n <= cap ->
  mem_copy (padd p src) (padd p dst) n w =
  (Ok tt, set_heap (hput (w_heap w) p (splice dst (sub src n d) d)) w).
Proof.
  intros B ? ? ? ? ?. unfold mem_copy. erewrite bind_eq; [|eapply mem_read_buf; eauto].
  eapply mem_write_buf; eauto. rewrite sub_len; auto. rewrite (buf_len _ _ _ _ _ B). lia.
Qed.

(** References into the buffer are valid when aligned. *)
Lemma ref_ok_buf h p al cap d off t m :
  buf h p al cap d -> 0 <= off -> off + size_of_val t m <= cap -> 0 <= size_of_val t m ->
  0 < align_of_val t m -> 0 < al -> (align_of_val t m | al) -> off mod align_of_val t m = 0 ->
  ref_ok t h (Wide (padd p off) m) = true.
Proof.
  intros B Ho Hs Hn Ha Hal Hd Hm. unfold ref_ok. cbn [wp wm].
  rewrite (heap_read_buf _ _ al cap d) by auto.
  unfold buf in B. destruct (Z.eqb_spec cap 0).
  - destruct B as (a & -> & Hp & Hal' & _). cbn. rewrite (proj2 (Z.ltb_lt _ _)) by lia.
    unfold is_aligned. rewrite (mod_trans a (align_of_val t m) al); auto.
  - destruct B as (b & base & -> & G & Hb & Hbm & L & ?). cbn [padd ptr_addr]. rewrite G. cbn [b_base].
    rewrite Z.add_0_l. rewrite (proj2 (Z.ltb_lt _ _)) by lia.
    unfold is_aligned. rewrite mod_add_0; auto. apply mod_trans with al; auto.
Qed.

(** World bookkeeping. *)
Lemma set_heap_heap h w : w_heap (set_heap h w) = h. Proof. reflexivity. Qed.
Lemma owned_set_heap h w self : owned_block (set_heap h w) self = owned_block w self.
Proof. reflexivity. Qed.
Lemma owned_set_obj w self o p :
  (self < length (w_vecs w))%nat -> obj_ptr o = Some p ->
  owned_block (set_vecs (upd (w_vecs w) self o) w) self = ptr_block p.
Proof. intros. unfold owned_block. cbn. rewrite upd_same by auto. now rewrite H0. Qed.

Lemma frame_hput self w p d :
  owned_block w self = ptr_block p -> frame self w (set_heap (hput (w_heap w) p d) w).
Proof.
  intros O. constructor; cbn; auto; try lia.
  - rewrite hput_length; auto.
  - intros. apply hput_other. congruence.
  - intros b Hb L. rewrite hput_live in L. rewrite heap_get_ge in L; auto. congruence.
  - exists []. now rewrite app_nil_r.
Qed.

Lemma frame_set_obj self w o p :
  (self < length (w_vecs w))%nat -> obj_ptr o = Some p -> owned_block w self = ptr_block p ->
  frame self w (set_vecs (upd (w_vecs w) self o) w).
Proof.
  intros L E O. pose proof (owned_set_obj w self o p L E) as O'.
  constructor; cbn; auto; try lia.
  - intros. apply upd_other; auto.
  - apply upd_length.
  - congruence.
  - intros b Hb Lv. rewrite heap_get_ge in Lv; auto. congruence.
  - intros b. rewrite O', O. auto.
  - exists []. now rewrite app_nil_r.
Qed.

Lemma frame_bump self w : frame self w (bump_alloc w).
Proof.
  destruct (frame_refl self w). constructor; cbn; auto.
Qed.

Section WithConfig.
Context {C : Config}.

Lemma frame_set_drops self w d : frame self w (set_drops (w_drops w ++ d) w).
Proof. destruct (frame_refl self w). constructor; cbn; eauto. Qed.

(** Growing (or first allocating) the buffer. [reb] is the world after installing the new pointer through [o]. *)
Lemma grow_wp (w : world) p al old new al' d (Q : option ptr -> world -> Prop) Qp Qa :
  buf (w_heap w) p al old d -> old <= new -> 0 < new -> 0 < al' ->
  (forall q h n m, buf h q al' new (d ++ uninit (new - old)) ->
     length h = S (length (w_heap w)) ->
     ptr_block q = Some (length (w_heap w)) ->
     (forall b, (b < length (w_heap w))%nat -> ptr_block p <> Some b -> heap_get h b = heap_get (w_heap w) b) ->
     (forall b, ptr_block p = Some b -> heap_get h b = None) ->
     n = S (w_nalloc w) -> m = w_moved w + old ->
     Q (Some q) (World h (w_vecs w) (w_cells w) (w_drops w) n m)) ->
  (cfg_alloc (w_nalloc w) = None -> Q None (bump_alloc w)) ->
  run (if old =? 0 then galloc (Layout new al') else ggrow p (Layout old al) (Layout new al')) w Q Qp Qa.
Proof.
  intros B L N A HS HF.
  assert (Dlen := buf_len _ _ _ _ _ B).
  destruct (Z.eqb_spec old 0) as [E|E].
  - clear Dlen. subst old. unfold buf in B. simpl in B. destruct B as (a & -> & _ & _ & ->).
    unfold run, galloc. cbn [l_size]. destruct (Z.eqb_spec new 0); [lia|].
    unfold raw_alloc. destruct (cfg_alloc (w_nalloc w)) as [k|] eqn:K; [|auto].
    cbn. eapply HS; eauto.
    + unfold buf. destruct (Z.eqb_spec new 0); [lia|]. cbn.
      exists (length (w_heap w)), (al' * Z.max 1 k). rewrite heap_get_app_new. cbn. rewrite Z.sub_0_r.
      repeat split; auto; try lia. rewrite Z.mul_comm. apply Z.mod_mul; lia.
      apply zlen_uninit; lia.
    + cbn. rewrite app_length. simpl. lia.
    + cbn. intros. apply heap_get_app_old; auto.
    + simpl. discriminate.
    + cbn. lia.
  - unfold buf in B. destruct (Z.eqb_spec old 0); [lia|].
    destruct B as (b & base & -> & G & Hb & Hm & Dl & Hp).
    unfold run, ggrow. cbn [l_size].
    destruct (Z.ltb_spec new old); [lia|]. destruct (Z.eqb_spec old 0); [lia|].
    unfold find_block. rewrite G. cbn [b_layout]. unfold layout_eqb. cbn. rewrite !Z.eqb_refl. cbn.
    unfold raw_alloc. destruct (cfg_alloc (w_nalloc w)) as [k|] eqn:K; [|auto].
    pose proof (heap_get_lt _ _ _ G).
    cbn. eapply HS; eauto.
    + unfold buf. destruct (Z.eqb_spec new 0); [lia|].
      exists (length (w_heap w)), (al' * Z.max 1 k). cbn [w_heap set_heap add_moved bump_alloc]. rewrite heap_get_upd_other by lia.
      rewrite heap_get_app_new. cbn. repeat split; auto; try lia. rewrite Z.mul_comm. apply Z.mod_mul; lia.
      rewrite zlen_app, zlen_uninit; lia.
    + cbn. rewrite upd_length, app_length. simpl. lia.
    + cbn. intros. rewrite heap_get_upd_other by congruence. apply heap_get_app_old; auto.
    + cbn. intros b' Eb. injection Eb as <-. apply heap_get_upd_same. rewrite app_length; lia.
Qed.

(** The frame of replacing the buffer. *)
Lemma frame_realloc self w h n m p q o :
  (self < length (w_vecs w))%nat -> owned_block w self = ptr_block p ->
  obj_ptr o = Some q ->
  (length h = S (length (w_heap w)) /\ ptr_block q = Some (length (w_heap w))) ->
  (forall b, (b < length (w_heap w))%nat -> ptr_block p <> Some b -> heap_get h b = heap_get (w_heap w) b) ->
  (forall b, ptr_block p = Some b -> heap_get h b = None) ->
  (w_nalloc w <= n)%nat ->
  frame self w (World h (upd (w_vecs w) self o) (w_cells w) (w_drops w) n m).
Proof.
  intros L O E [Lh Q] HO HN Hn.
  assert (O' : owned_block (World h (upd (w_vecs w) self o) (w_cells w) (w_drops w) n m) self = Some (length (w_heap w))).
  { unfold owned_block. cbn. rewrite upd_same by auto. now rewrite E. }
  constructor; cbn; auto; try lia.
  - intros. apply upd_other; auto.
  - apply upd_length.
  - intros. apply HO; auto. congruence.
  - intros b Ob Lv. rewrite HN in Lv; congruence.
  - intros b Hb Lv. rewrite O'. f_equal. destruct (Nat.eq_dec (length (w_heap w)) b); auto.
    rewrite heap_get_ge in Lv by lia. congruence.
  - intros b Ob. rewrite O' in Ob. injection Ob as <-. auto.
  - exists []. now rewrite app_nil_r.
Qed.

(** Shrinking to a nonzero size. *)
Lemma shrink_wp (w : world) p al old new al' d (Q : option ptr -> world -> Prop) Qp Qa :
  buf (w_heap w) p al old d -> new <= old -> 0 < new -> 0 < al' ->
  (forall q h n m, buf h q al' new (firstn (Z.to_nat new) d) ->
     length h = S (length (w_heap w)) ->
     ptr_block q = Some (length (w_heap w)) ->
     (forall b, (b < length (w_heap w))%nat -> ptr_block p <> Some b -> heap_get h b = heap_get (w_heap w) b) ->
     (forall b, ptr_block p = Some b -> heap_get h b = None) ->
     n = S (w_nalloc w) ->
     Q (Some q) (World h (w_vecs w) (w_cells w) (w_drops w) n m)) ->
  (cfg_alloc (w_nalloc w) = None -> Q None (bump_alloc w)) ->
  run (gshrink p (Layout old al) (Layout new al')) w Q Qp Qa.
Proof.
  intros B L N A HS HF.
  assert (Dlen := buf_len _ _ _ _ _ B).
  unfold buf in B. destruct (Z.eqb_spec old 0); [lia|].
  destruct B as (b & base & -> & G & Hb & Hm & Dl & Hp).
  unfold run, gshrink. cbn [l_size].
  destruct (Z.ltb_spec old new); [lia|]. destruct (Z.eqb_spec new 0); [lia|].
  unfold find_block. rewrite G. cbn [b_layout]. unfold layout_eqb. cbn. rewrite !Z.eqb_refl. cbn.
  unfold raw_alloc. destruct (cfg_alloc (w_nalloc w)) as [k|] eqn:K; [|auto].
  pose proof (heap_get_lt _ _ _ G).
  cbn. eapply HS; eauto.
  + unfold buf. destruct (Z.eqb_spec new 0); [lia|].
    exists (length (w_heap w)), (al' * Z.max 1 k). cbn [w_heap set_heap add_moved bump_alloc]. rewrite heap_get_upd_other by lia.
    rewrite heap_get_app_new. cbn. repeat split; auto; try lia. rewrite Z.mul_comm. apply Z.mod_mul; lia.
    unfold zlen in *. rewrite firstn_length. lia.
  + cbn. rewrite upd_length, app_length. simpl. lia.
  + cbn. intros. rewrite heap_get_upd_other by congruence. apply heap_get_app_old; auto.
  + cbn. intros b' Eb. injection Eb as <-. apply heap_get_upd_same. rewrite app_length; lia.
Qed.

(** Freeing the buffer. *)
Definition hfree (h : list (option block)) (p : ptr) : list (option block) :=
  match p with Blk b _ => upd h b None | Raw _ => h end.
Lemma dealloc_eq w p al cap d : buf (w_heap w) p al cap d ->
  gdealloc p (Layout cap al) w = (Ok tt, set_heap (hfree (w_heap w) p) w).
Proof.
  intros B. unfold gdealloc. cbn [l_size]. unfold buf in B. destruct (Z.eqb_spec cap 0).
  - destruct B as (a & -> & _). cbn. now destruct w.
  - destruct B as (b & base & -> & G & _).
    unfold find_block. rewrite G. unfold layout_eqb. cbn. rewrite !Z.eqb_refl. reflexivity.
Qed.
Lemma hfree_length h p : length (hfree h p) = length h.
Proof. destruct p; simpl; auto. apply upd_length. Qed.
Lemma hfree_other h p b : ptr_block p <> Some b -> heap_get (hfree h p) b = heap_get h b.
Proof. destruct p; simpl; auto. intros. apply heap_get_upd_other. congruence. Qed.
Lemma hfree_none h p b : ptr_block p = Some b -> heap_get (hfree h p) b = None.
Proof.
  destruct p; simpl; try discriminate. intros E; injection E as <-.
  destruct (Nat.ltb_spec b0 (length h)). now apply heap_get_upd_same.
  apply heap_get_ge. now rewrite upd_length.
Qed.

(** The frame of freeing the buffer and installing an object without a block. *)
Lemma frame_free self w p o :
  (self < length (w_vecs w))%nat -> owned_block w self = ptr_block p ->
  (match obj_ptr o with Some q => ptr_block q | None => None end) = None ->
  frame self w (set_vecs (upd (w_vecs w) self o) (set_heap (hfree (w_heap w) p) w)).
Proof.
  intros L O E.
  assert (O' : owned_block (set_vecs (upd (w_vecs w) self o) (set_heap (hfree (w_heap w) p) w)) self = None).
  { unfold owned_block. cbn. rewrite upd_same by auto. exact E. }
  constructor; cbn; auto; try lia.
  - intros. apply upd_other; auto.
  - apply upd_length.
  - rewrite hfree_length; auto.
  - intros. apply hfree_other. congruence.
  - intros b Ob Lv. rewrite hfree_none in Lv; congruence.
  - intros b Hb Lv. rewrite heap_get_ge in Lv. congruence. now rewrite hfree_length.
  - intros b Ob. congruence.
  - exists []. now rewrite app_nil_r.
Qed.

End WithConfig.
