(** Bounding the alignment recorded by vectors of trait objects: if every value and every request has an alignment of at most [A],
    no vector ever records more than [A], whatever is called and however the calls end. *)
From Coq Require Import ZArith List Bool Lia.
From Verif Require Import Types World ValidSize Emplace SizedVec AlignedVec UnalignedVec Api Spec Bytes Arith Reserve PropEdit Convert PropUnsize PropConvert History.
Import ListNotations.
Open Scope Z_scope.
Open Scope m_scope.

Section WithConfig.
Context {C : Config}.
Context (t : ty) (A : Z).

Definition small_meta (m : meta) : Prop := forall n, align_of_val t (as_metadata t (from_metadata t m) n) <= A.
Definition small_info (i : info) : Prop := forall n, align_of_val t (as_metadata t (i_rem i) n) <= A.
Definition small_vec (v : uvec) : Prop := uv_align v <= A /\ Forall small_info (uv_infos v).
Definition small_obj (o : obj) : Prop := match o with OU v => small_vec v | _ => True end.
Definition small (w : world) : Prop := Forall small_obj (w_vecs w).

(** [keeps m Q]: [m] preserves the bound, and a result satisfies [Q]. *)
Definition keeps {X} (m : M X) (Q : X -> Prop) : Prop := forall w, small w -> small (snd (m w)) /\ forall x, fst (m w) = Ok x -> Q x.
(** [quiet m]: [m] touches no vector object. *)
Definition quiet {X} (m : M X) : Prop := forall w, w_vecs (snd (m w)) = w_vecs w.

Lemma quiet_keeps {X} (m : M X) : quiet m -> keeps m (fun _ => True).
Proof. intros Q w S. split; auto. unfold small. now rewrite Q. Qed.
Lemma keeps_imp {X} (m : M X) (P Q : X -> Prop) : keeps m P -> (forall x, P x -> Q x) -> keeps m Q.
Proof. intros K I w S. destruct (K w S). split; auto. Qed.
Lemma keeps_bind {X Y} (m : M X) (f : X -> M Y) P Q : keeps m P -> (forall x, P x -> keeps (f x) Q) -> keeps (bind m f) Q.
Proof.
  intros K H w S. destruct (K w S) as [S' R]. unfold bind. destruct (m w) as [[x|r| |u] w']; cbn [fst snd] in *;
    try (split; [exact S'|discriminate]). apply (H x); auto.
Qed.
Lemma keeps_unwind {X} (m : M X) (g : M unit) P : keeps m P -> keeps g (fun _ => True) -> keeps (on_unwind m g) P.
Proof.
  intros K G w S. destruct (K w S) as [S' R]. unfold on_unwind. destruct (m w) as [[x|r| |u] w'] eqn:E; cbn [fst snd] in *; auto.
  destruct (G w' S') as [S'' _]. destruct (g w') as [[[]|r'| |u] w'']; cbn [fst snd] in *; split; auto; discriminate.
Qed.
Lemma keeps_ret {X} (x : X) (Q : X -> Prop) : Q x -> keeps (ret x) Q.
Proof. intros H w S. split; auto. intros y [= <-]. exact H. Qed.
Lemma keeps_stop {X} (r : res X) (Q : X -> Prop) : (forall x, r <> Ok x) -> keeps (fail r) Q.
Proof. intros N w S. split; auto. intros x E. now apply N in E. Qed.
Lemma keeps_panic {X} r (Q : X -> Prop) : keeps (panic r) Q.
Proof. intros w S. split; auto. discriminate. Qed.
Lemma keeps_ub {X} r (Q : X -> Prop) : keeps (ub r) Q.
Proof. intros w S. split; auto. discriminate. Qed.
Lemma keeps_if {X} (b : bool) (m n : M X) Q : keeps m Q -> keeps n Q -> keeps (if b then m else n) Q.
Proof. now destruct b. Qed.
Lemma get_u_keeps self : keeps (get_u self) small_vec.
Proof.
  intros w S. unfold get_u. destruct (nth_error (w_vecs w) self) as [[]|] eqn:E; cbn [fst snd]; split; auto; try discriminate.
  intros v0 [= <-]. apply nth_error_In in E. eapply Forall_forall in S; eauto. exact S.
Qed.
Lemma Forall_upd {X} (P : X -> Prop) l i x : Forall P l -> P x -> Forall P (upd l i x).
Proof. intros F Px. revert i. induction F; intros [|i]; cbn [upd]; auto. Qed.
Lemma set_obj_keeps self o : small_obj o -> keeps (set_obj self o) (fun _ => True).
Proof. intros H w S. split; auto. now apply Forall_upd. Qed.
Lemma new_obj_keeps o : small_obj o -> keeps (new_obj o) (fun _ => True).
Proof. intros H w S. split; auto. cbn [new_obj snd w_vecs set_vecs]. unfold small. cbn [w_vecs set_vecs]. apply Forall_app. auto. Qed.

(** ** Calls that touch no vector object *)
Lemma quiet_ret {X} (x : X) : quiet (ret x). Proof. intros w. reflexivity. Qed.
Lemma quiet_panic {X} r : quiet (@panic X r). Proof. intros w. reflexivity. Qed.
Lemma quiet_ub {X} r : quiet (@ub X r). Proof. intros w. reflexivity. Qed.
Lemma quiet_fail {X} (r : res X) : quiet (fail r). Proof. intros w. reflexivity. Qed.
Lemma quiet_bind {X Y} (m : M X) (f : X -> M Y) : quiet m -> (forall x, quiet (f x)) -> quiet (bind m f).
Proof. intros Q H w. unfold bind. specialize (Q w). destruct (m w) as [[x|r| |u] w']; cbn [snd] in *; auto. now rewrite H. Qed.
Lemma quiet_unwind {X} (m : M X) (g : M unit) : quiet m -> quiet g -> quiet (on_unwind m g).
Proof.
  intros Q G w. unfold on_unwind. specialize (Q w). destruct (m w) as [[x|r| |u] w']; cbn [snd] in *; auto.
  specialize (G w'). destruct (g w') as [[[]|r'| |u] w'']; cbn [snd] in *; congruence.
Qed.
Ltac qprim := intros; intro w; repeat (match goal with |- context [match ?x with _ => _ end] => destruct x end; cbn [snd w_vecs set_heap set_drops set_cells bump_alloc add_moved]); reflexivity.
Lemma q_mem_read p n : quiet (mem_read p n). Proof. unfold mem_read; qprim. Qed.
Lemma q_mem_write p n : quiet (mem_write p n). Proof. unfold mem_write; qprim. Qed.
Lemma q_ptr_add p n : quiet (ptr_add p n). Proof. unfold ptr_add; qprim. Qed.
Lemma q_make_ref u r : quiet (make_ref u r). Proof. unfold make_ref; qprim. Qed.
Lemma q_drop_value x : quiet (drop_value x). Proof. unfold drop_value; qprim. Qed.
Lemma q_dassert b : quiet (dassert b). Proof. unfold dassert. destruct (cfg_debug && negb b); [apply quiet_panic|apply quiet_ret]. Qed.
Lemma q_raw_alloc l d : quiet (raw_alloc l d). Proof. unfold raw_alloc; qprim. Qed.
Lemma q_gdealloc p l : quiet (gdealloc p l). Proof. unfold gdealloc; qprim. Qed.
Lemma q_new_cell : quiet new_cell. Proof. unfold new_cell; qprim. Qed.
Lemma q_set_cell c x : quiet (set_cell c x). Proof. unfold set_cell; qprim. Qed.
Lemma q_read_cell c : quiet (read_cell c). Proof. unfold read_cell; qprim. Qed.
Lemma q_ask_alloc : quiet ask_alloc. Proof. unfold ask_alloc; qprim. Qed.
Lemma q_get_u self : quiet (get_u self). Proof. unfold get_u; qprim. Qed.
Lemma q_get_a self : quiet (get_a self). Proof. unfold get_a; qprim. Qed.
Lemma q_get_s self : quiet (get_s self). Proof. unfold get_s; qprim. Qed.
Ltac q1 := first [apply quiet_ret|apply quiet_panic|apply quiet_ub|apply quiet_fail|apply q_mem_read|apply q_mem_write|apply q_ptr_add
  |apply q_make_ref|apply q_drop_value|apply q_dassert|apply q_raw_alloc|apply q_gdealloc|apply q_new_cell|apply q_set_cell|apply q_read_cell
  |apply q_ask_alloc|apply q_get_u|apply q_get_a|apply q_get_s].
Ltac q := intros; cbv zeta;
  first [ q1 | match goal with
    | H : _ |- _ => solve [apply H]
    | |- quiet (bind _ _) => apply quiet_bind; [q|q]
    | |- quiet (on_unwind _ _) => apply quiet_unwind; [q|q]
    | |- quiet (match ?x with _ => _ end) => destruct x; q
    end ].
Lemma q_handle {X} : quiet (@handle_alloc_error C X). Proof. unfold handle_alloc_error. q. Qed.
Lemma q_galloc l : quiet (galloc l). Proof. unfold galloc. q. Qed.
Lemma q_ggrow p l l' : quiet (ggrow p l l').
Proof.
  unfold ggrow. destruct (l_size l' <? l_size l); [q|]. destruct (l_size l =? 0); [apply q_galloc|]. intros w.
  destruct (find_block (w_heap w) p l) as [[b k]|]; auto.
  pose proof (q_raw_alloc l' (b_data k ++ uninit (l_size l' - l_size l)) w) as H.
  destruct (raw_alloc l' (b_data k ++ uninit (l_size l' - l_size l)) w) as [[[q'|]|r| |u] w']; cbn [snd w_vecs set_heap add_moved] in *; auto.
Qed.
Lemma q_gshrink p l l' : quiet (gshrink p l l').
Proof.
  unfold gshrink. destruct (l_size l <? l_size l'); [q|]. destruct (l_size l' =? 0); [q|]. intros w.
  destruct (find_block (w_heap w) p l) as [[b k]|]; auto.
  pose proof (q_raw_alloc l' (firstn (Z.to_nat (l_size l')) (b_data k)) w) as H.
  destruct (raw_alloc l' (firstn (Z.to_nat (l_size l')) (b_data k)) w) as [[[q'|]|r| |u] w']; cbn [snd w_vecs set_heap add_moved] in *; auto.
Qed.
Lemma q_mem_copy p p' n : quiet (mem_copy p p' n). Proof. unfold mem_copy. q. Qed.
Lemma q_mem_copy_no p p' n : quiet (mem_copy_no p p' n). Proof. unfold mem_copy_no. destruct (overlaps p p' n); [q|apply q_mem_copy]. Qed.
Lemma q_read_value u r : quiet (read_value u r). Proof. unfold read_value. q. Qed.
Lemma q_drop_in_place u r : quiet (drop_in_place u r).
Proof. unfold drop_in_place. apply quiet_bind; [q|]. intros. apply quiet_bind; [apply q_read_value|q]. Qed.
Lemma q_usub a b : quiet (usub a b). Proof. unfold usub. q. Qed.
Lemma q_uadd a b : quiet (uadd a b). Proof. unfold uadd. q. Qed.
Lemma q_umul a b : quiet (umul a b). Proof. unfold umul. q. Qed.
Lemma q_layout s a : quiet (layout_unchecked s a). Proof. unfold layout_unchecked. q. Qed.
Lemma q_vu_layout s a : quiet (vu_layout s a). Proof. apply q_layout. Qed.
Lemma q_vs_new a s : quiet (vs_new_unchecked a s). Proof. unfold vs_new_unchecked. q. Qed.
Lemma q_vs_add a x y : quiet (vs_unchecked_add a x y). Proof. apply quiet_bind; [apply q_uadd|intros; apply q_vs_new]. Qed.
Lemma q_vs_sub a x y : quiet (vs_unchecked_sub a x y). Proof. apply quiet_bind; [apply q_usub|intros; apply q_vs_new]. Qed.
Lemma q_pad x a : quiet (unchecked_pad_to x a). Proof. apply quiet_bind; [apply q_uadd|intros; apply q_vs_new]. Qed.
Lemma q_unwrap r : quiet (unwrap_try_reserve_result r).
Proof. unfold unwrap_try_reserve_result. destruct r as [|[]]; try q. apply q_handle. Qed.
Lemma q_mapM {X Y} (f : X -> M Y) l : (forall x, quiet (f x)) -> quiet (mapM f l).
Proof. intros H. induction l; cbn [mapM]; q. Qed.
Ltac q2 := first [apply q_handle|apply q_galloc|apply q_ggrow|apply q_gshrink|apply q_mem_copy|apply q_mem_copy_no|apply q_read_value|apply q_drop_in_place
  |apply q_usub|apply q_uadd|apply q_umul|apply q_layout|apply q_vu_layout|apply q_vs_new|apply q_vs_add|apply q_vs_sub|apply q_pad|apply q_unwrap].
Ltac qq := intros; cbv zeta;
  first [ q1 | q2 | match goal with
    | H : _ |- _ => solve [apply H]
    | |- quiet (mapM _ _) => apply q_mapM; qq
    | |- quiet (bind _ _) => apply quiet_bind; [qq|qq]
    | |- quiet (on_unwind _ _) => apply quiet_unwind; [qq|qq]
    | |- quiet (match ?x with _ => _ end) => destruct x; qq
    end ].
Lemma q_to_align u a : quiet (to_align u a). Proof. unfold to_align. qq. Qed.
Lemma q_aligned_len v : quiet (u_aligned_byte_len v). Proof. unfold u_aligned_byte_len. qq. Qed.
Lemma q_start v i : quiet (u_start_offset v i). Proof. unfold u_start_offset. qq. Qed.
Lemma q_item u p s i : quiet (u_item u p s i). Proof. unfold u_item. qq. Qed.
Lemma q_u_next u it : quiet (u_next u it).
Proof. unfold u_next. destruct (ui_infos it); [qq|]. apply quiet_bind; [apply q_item|qq]. Qed.
Lemma q_u_nth u it n : quiet (u_nth u it n).
Proof. unfold u_nth. apply quiet_bind; [qq|]. intros s. destruct (skipn n (ui_infos it)); [qq|]. apply quiet_bind; [apply q_item|qq]. Qed.
Lemma q_u_back u it : quiet (u_next_back u it).
Proof. unfold u_next_back. destruct (rev (ui_infos it)); [qq|]. cbv zeta. apply quiet_bind; [qq|]. intros s. apply quiet_bind; [apply q_item|qq]. Qed.
Lemma q_u_last u it : quiet (u_last u it).
Proof. unfold u_last. destruct (length (ui_infos it)); [qq|]. apply quiet_bind; [apply q_u_nth|qq]. Qed.
Lemma q_len_after v a : quiet (u_len_after_realign_up v a).
Proof.
  unfold u_len_after_realign_up. apply quiet_bind; [qq|]. intros _. generalize 0 at 1. intros s. generalize 0. revert s.
  induction (uv_infos v) as [|i r IH]; intros s p; cbn [u_len_after_loop]; qq.
Qed.
Lemma q_copy_up p a b s ends : quiet (u_realign_up_copy p a b s ends).
Proof. revert s. induction ends as [|e [|e' r] IH]; intros s; cbn [u_realign_up_copy]; qq. Qed.
Lemma q_down p a b s ends : quiet (u_realign_down_loop p a b s ends).
Proof. revert s. induction ends as [|e [|e' r] IH]; intros s; cbn [u_realign_down_loop]; qq. Qed.
Lemma q_realign_down self a : quiet (u_realign_down self a).
Proof. unfold u_realign_down. apply quiet_bind; [qq|]. intros v. apply quiet_bind; [qq|]. intros _. apply q_down. Qed.
Lemma q_infos_reserve u c l n e : quiet (infos_reserve u c l n e). Proof. unfold infos_reserve. qq. Qed.
Lemma q_infos_shrink c l n : quiet (infos_shrink c l n). Proof. unfold infos_shrink. qq. Qed.
Lemma q_take p m s out : quiet (a_take t p m s out). Proof. unfold a_take. qq. Qed.
Lemma q_drop_elems p a s l : quiet (u_drop_elems t p a s l).
Proof. revert s. induction l; intros s; cbn [u_drop_elems]; qq. Qed.

(** ** The loops that build element infos *)
Lemma small_app l l' : Forall small_info l -> Forall small_info l' -> Forall small_info (l ++ l').
Proof. intros. apply Forall_app. auto. Qed.
Lemma small_firstn n l : Forall small_info l -> Forall small_info (firstn n l).
Proof. intros F. rewrite <- (firstn_skipn n l) in F. now apply Forall_app in F. Qed.
Lemma small_skipn n l : Forall small_info l -> Forall small_info (skipn n l).
Proof. intros F. rewrite <- (firstn_skipn n l) in F. now apply Forall_app in F. Qed.
Lemma k_mapM (f : info -> M info) l : (forall i, small_info i -> keeps (f i) small_info) -> Forall small_info l -> keeps (mapM f l) (Forall small_info).
Proof.
  intros H F. induction F as [|i l Hi _ IH]; cbn [mapM]. { apply keeps_ret. constructor. }
  eapply keeps_bind; [apply H; auto|]. intros y Hy. eapply keeps_bind; [exact IH|]. intros ys Hys. apply keeps_ret. auto.
Qed.
Lemma k_add a l i d : Forall small_info l -> keeps (infos_add_from a l i d) (Forall small_info).
Proof.
  intros F. unfold infos_add_from. destruct (i <=? length l)%nat; [|apply keeps_ub].
  eapply keeps_bind; [apply k_mapM; [|now apply small_skipn]|].
  - intros j Hj. eapply keeps_bind; [apply quiet_keeps; qq|]. intros e _. apply keeps_ret. exact Hj.
  - intros tl Ht. apply keeps_ret. apply small_app; auto using small_firstn.
Qed.
Lemma k_sub a l i d : Forall small_info l -> keeps (infos_sub_from a l i d) (Forall small_info).
Proof.
  intros F. unfold infos_sub_from. destruct (i <=? length l)%nat; [|apply keeps_ub].
  eapply keeps_bind; [apply k_mapM; [|now apply small_skipn]|].
  - intros j Hj. eapply keeps_bind; [apply quiet_keeps; qq|]. intros e _. apply keeps_ret. exact Hj.
  - intros tl Ht. apply keeps_ret. apply small_app; auto using small_firstn.
Qed.
Lemma k_insert l c i x : Forall small_info l -> small_info x -> keeps (infos_insert l c i x) (Forall small_info).
Proof.
  intros F Hx. unfold infos_insert. eapply keeps_bind; [apply quiet_keeps; qq|]. intros _ _.
  destruct (_ && _); [|apply keeps_ub]. apply keeps_ret. apply small_app; auto using small_firstn, small_skipn.
Qed.
Lemma k_push l c x : Forall small_info l -> small_info x -> keeps (infos_push l c x) (Forall small_info).
Proof.
  intros F Hx. unfold infos_push. eapply keeps_bind; [apply quiet_keeps; qq|]. intros _ _.
  destruct (_ <? _); [|apply keeps_ub]. apply keeps_ret. apply small_app; auto.
Qed.
Lemma k_up_infos a b l : Forall small_info l -> forall s, keeps (u_realign_up_infos a b s l) (fun p => Forall small_info (fst p)).
Proof.
  intros F. induction F as [|i l Hi _ IH]; intros s; cbn [u_realign_up_infos]. { apply keeps_ret. constructor. }
  do 5 (eapply keeps_bind; [apply quiet_keeps; qq|]; intros ? _). eapply keeps_bind; [apply IH|]. intros [r' f] Hr. apply keeps_ret.
  cbn [fst] in *. auto.
Qed.
Lemma k_max_align p a l : 1 <= A -> Forall small_info l -> forall s acc, acc <= A -> keeps (u_max_align_loop t p a s l acc) (fun m => m <= A).
Proof.
  intros A1 F. induction F as [|i l Hi _ IH]; intros s acc Ha; cbn [u_max_align_loop]. { now apply keeps_ret. }
  apply (keeps_bind _ _ (fun p => forall x, fst p = Some x -> align_of_val t (wm x) <= A)).
  - unfold u_next. cbn [ui_infos]. apply (keeps_bind _ _ (fun x => align_of_val t (wm x) <= A)).
    + unfold u_item. cbn [ui_ptr ui_start]. eapply keeps_bind; [apply quiet_keeps; qq|]. intros n _. eapply keeps_bind; [apply quiet_keeps; qq|].
      intros q _ w S. unfold make_ref. destruct (ref_ok t (w_heap w) _); cbn [fst snd]; split; auto; try discriminate. intros x [= <-]. apply Hi.
    + intros x Hx. eapply keeps_bind; [apply quiet_keeps; qq|]. intros s' _. apply keeps_ret. cbn [fst]. intros y [= <-]. exact Hx.
  - intros [[x|] it] Hx; [|now apply keeps_ret]. apply IH. cbn [fst] in Hx. specialize (Hx x eq_refl). lia.
Qed.

(** ** The vector of trait objects *)
Ltac kq := eapply keeps_bind; [apply quiet_keeps; first [apply q_aligned_len|apply q_start|apply q_infos_reserve|apply q_infos_shrink|apply q_len_after
  |apply q_copy_up|apply q_realign_down|apply q_to_align|qq]|intros ? _].
Ltac kget v H := eapply keeps_bind; [apply get_u_keeps|intros v H].
Ltac kset := eapply keeps_bind; [apply set_obj_keeps|intros ? _].
Lemma k_realign_up self a : keeps (u_realign_up self a) (fun _ => True).
Proof.
  unfold u_realign_up. kget v Hv. destruct Hv as [Ha Hi]. kq. eapply keeps_bind; [now apply k_up_infos|]. intros [infos f] Hf. cbn [fst] in Hf.
  kset; [split; auto|]. apply quiet_keeps, q_copy_up.
Qed.
Lemma k_reserve self n e : keeps (u_reserve t self n e) (fun _ => True).
Proof.
  unfold u_reserve. kget v Hv. destruct Hv as [Ha Hi]. kq. destruct x as [r c]. kset; [split; auto|]. apply keeps_ret. exact I.
Qed.
Lemma k_bytes self b a : a <= A -> keeps (u_try_reserve_bytes_align t self b a) (fun _ => True).
Proof.
  intros HA. unfold u_try_reserve_bytes_align. kget v Hv. destruct Hv as [Ha Hi]. cbv zeta. kq. apply keeps_if; [now apply keeps_ret|].
  eapply keeps_bind. { apply keeps_if; [apply quiet_keeps, q_len_after|now apply keeps_ret]. } intros [bl|] _; [|now apply keeps_ret].
  kq. destruct (match checked_add_pad _ _ _ with None => None | Some s => _ end); [|now apply keeps_ret].
  apply keeps_if; [|now apply keeps_ret]. apply keeps_if.
  - kq. kq. destruct x2 as [p|]; [|now apply keeps_ret]. kset; [split; auto|]. apply (keeps_bind _ _ (fun _ => True)); [|intros _ _; now apply keeps_ret].
    apply keeps_if; [|now apply keeps_ret]. eapply keeps_bind.
    { apply keeps_if; [apply k_realign_up|now apply keeps_ret]. } intros _ _. kget v' Hv'. destruct Hv' as [Ha' Hi'].
    apply set_obj_keeps. split; auto. cbn [uv_align]. lia.
  - kset; [split; auto|]. now apply keeps_ret.
Qed.
Lemma k_shrink self n b a : 1 <= A -> keeps (u_shrink t self n b a) (fun _ => True).
Proof.
  intros A1. unfold u_shrink. kget v Hv. destruct Hv as [Ha Hi]. kq. cbv zeta. kset; [split; auto|]. cbn [uv_align uv_infos uv_icap].
  eapply keeps_bind. { unfold u_max_align_of_elems. apply k_max_align; auto. } cbv beta. intros m Hm. kq.
  eapply keeps_bind. { apply keeps_if; [apply quiet_keeps, q_realign_down|now apply keeps_ret]. } intros _ _.
  kget v' Hv'. destruct Hv' as [Ha' Hi']. kq. kq. kq.
  apply keeps_if; [|now apply keeps_ret]. kq. apply keeps_if.
  - kq. kq. match goal with |- keeps (match ?p with _ => _ end) _ => destruct p end.
    + apply set_obj_keeps. split; auto. cbn [uv_align]. lia.
    + apply keeps_if; [|now apply keeps_ret]. kset; [split; auto; cbn [uv_align]; lia|]. eapply keeps_bind; [apply k_realign_up|]. intros _ _.
      kget v2 Hv2. destruct Hv2. apply set_obj_keeps. split; auto.
  - kq. apply set_obj_keeps. split; auto. cbn [uv_align]. lia.
Qed.
Lemma k_owned {X} x (m : M X) Q : keeps m Q -> keeps (owned x m) Q.
Proof. intros H. apply keeps_unwind; auto. apply quiet_keeps, q_drop_value. Qed.
Lemma k_debug (m : M unit) : keeps m (fun _ => True) -> keeps (if cfg_debug then m else ret tt) (fun _ => True).
Proof. intros H. apply keeps_if; auto. now apply keeps_ret. Qed.
Lemma small_info_of m e : small_meta m -> small_info (Info (from_metadata t m) e).
Proof. intros H n. apply H. Qed.
Lemma k_insert_unchecked self i x s : small_meta (v_meta x) -> keeps (u_insert_unchecked t self i x s) (fun _ => True).
Proof.
  intros Hx. unfold u_insert_unchecked. apply k_owned. kget v Hv. destruct Hv as [Ha Hi]. do 3 kq.
  eapply keeps_bind. { apply k_debug. kq. apply quiet_keeps. qq. } intros _ _. kq. cbv zeta. do 6 kq.
  eapply keeps_bind; [now apply k_add|]. intros l Hl. kq. eapply keeps_bind; [apply k_insert; auto using small_info_of|]. intros l' Hl'.
  apply set_obj_keeps. split; auto.
Qed.
Lemma k_push_unchecked self x s : small_meta (v_meta x) -> keeps (u_push_unchecked t self x s) (fun _ => True).
Proof.
  intros Hx. unfold u_push_unchecked. apply k_owned. kget v Hv. destruct Hv as [Ha Hi]. kq.
  eapply keeps_bind. { apply k_debug. kq. apply quiet_keeps. qq. } intros _ _. kq. cbv zeta. do 4 kq.
  eapply keeps_bind; [apply k_push; auto using small_info_of|]. intros l' Hl'. apply set_obj_keeps. split; auto.
Qed.

(** ** Reading the vectors: these calls touch no vector object, whatever the type *)
Lemma q_len self : quiet (v_len t self). Proof. unfold v_len. qq. Qed.
Lemma q_is_empty self : quiet (v_is_empty t self). Proof. unfold v_is_empty. apply quiet_bind; [apply q_len|qq]. Qed.
Lemma q_capacity self : quiet (v_capacity t self). Proof. unfold v_capacity. qq. Qed.
Lemma q_byte_capacity self : quiet (v_byte_capacity t self). Proof. unfold v_byte_capacity, s_byte_capacity. qq. Qed.
Lemma q_byte_len self : quiet (v_byte_len t self).
Proof. unfold v_byte_len, s_byte_len. destruct (kind_of t); (apply quiet_bind; [qq|]); intros v; [qq|qq|apply q_aligned_len]. Qed.
Lemma q_align self : quiet (v_align t self). Proof. unfold v_align. qq. Qed.
Lemma q_unused self : quiet (unused_byte_cap t self).
Proof. unfold unused_byte_cap. apply quiet_bind; [apply q_byte_capacity|]. intros c. apply quiet_bind; [apply q_byte_len|qq]. Qed.
Lemma q_get self i : quiet (v_get t self i).
Proof.
  unfold v_get. apply quiet_bind; [apply q_len|]. intros n. destruct (Z.of_nat i <? n); [|qq]. apply quiet_bind; [|qq].
  unfold v_get_unchecked, p_get_unchecked_raw. apply quiet_bind; [|qq]. destruct (kind_of t).
  - unfold s_get_unchecked_raw, elem_add. qq.
  - unfold a_get_unchecked_raw, a_start_offset. qq.
  - unfold u_get_unchecked_raw. apply quiet_bind; [qq|]. intros v. apply quiet_bind; [qq|]. intros _. apply quiet_bind; [apply q_start|qq].
Qed.
Lemma q_index self i : quiet (v_index t self i). Proof. unfold v_index. apply quiet_bind; [apply q_get|qq]. Qed.
Lemma q_iter self : quiet (v_iter t self). Proof. unfold v_iter, s_iter, a_iter, u_iter. qq. Qed.
Lemma q_s_item it i : quiet (s_item t it i). Proof. unfold s_item, elem_add. qq. Qed.
Lemma q_s_next it : quiet (s_next t it). Proof. unfold s_next. destruct (_ <? _); [|qq]. apply quiet_bind; [apply q_s_item|qq]. Qed.
Lemma q_s_back it : quiet (s_next_back t it). Proof. unfold s_next_back. destruct (_ <? _); [|qq]. apply quiet_bind; [apply q_s_item|qq]. Qed.
Lemma q_s_nth it n : quiet (s_nth t it n). Proof. unfold s_nth. destruct (_ <? _); [apply q_s_next|qq]. Qed.
Lemma q_a_item p s i : quiet (a_item t p s i). Proof. unfold a_item. qq. Qed.
Lemma q_a_next it : quiet (a_next t it). Proof. unfold a_next. destruct (ai_infos it); [qq|]. apply quiet_bind; [apply q_a_item|qq]. Qed.
Lemma q_a_nth it n : quiet (a_nth t it n).
Proof. unfold a_nth. cbv zeta. destruct (skipn n (ai_infos it)); [qq|]. apply quiet_bind; [apply q_a_item|qq]. Qed.
Lemma q_a_back it : quiet (a_next_back t it).
Proof. unfold a_next_back. cbv zeta. destruct (rev (ai_infos it)); [qq|]. apply quiet_bind; [apply q_a_item|qq]. Qed.
Lemma q_a_last it : quiet (a_last t it).
Proof. unfold a_last. destruct (length (ai_infos it)); [qq|]. apply quiet_bind; [apply q_a_nth|qq]. Qed.
Ltac q3 := first [apply q_s_next|apply q_s_back|apply q_s_nth|apply q_a_next|apply q_a_back|apply q_a_nth|apply q_a_last|apply q_u_next|apply q_u_back|apply q_u_nth|apply q_u_last].
Lemma q_next it : quiet (v_next t it). Proof. unfold v_next. destruct it; (apply quiet_bind; [q3|qq]). Qed.
Lemma q_next_back it : quiet (v_next_back t it). Proof. unfold v_next_back. destruct it; (apply quiet_bind; [q3|qq]). Qed.
Lemma q_nth it n : quiet (v_nth t it n). Proof. unfold v_nth. destruct it; (apply quiet_bind; [q3|qq]). Qed.
Lemma q_last it : quiet (v_last t it). Proof. unfold v_last. destruct it; try q3. destruct (_ <? _); [|qq]. apply quiet_bind; [q3|qq]. Qed.
Lemma q_calls cs it : quiet (v_calls t cs it).
Proof.
  revert it. induction cs as [|c cs IH]; intros it; cbn [v_calls]; [qq|]. apply quiet_bind.
  - destruct c; cbn [v_call]; [apply q_next|apply q_next_back|apply q_nth].
  - intros [x it']. apply quiet_bind; [apply IH|qq].
Qed.
Lemma q_read_opt o : quiet (read_opt t o). Proof. unfold read_opt. qq. Qed.
Lemma q_visit self cs : quiet (v_visit t self cs).
Proof.
  unfold v_visit. apply quiet_bind; [apply q_iter|]. intros it. apply quiet_bind; [apply q_calls|]. intros [rs it']. apply q_mapM. intros r.
  unfold read_item. apply quiet_bind; [apply q_read_opt|qq].
Qed.
Lemma q_visit_last self cs : quiet (v_visit_last t self cs).
Proof.
  unfold v_visit_last. apply quiet_bind; [apply q_iter|]. intros it. apply quiet_bind; [apply q_calls|]. intros [rs it'].
  apply quiet_bind; [apply q_last|]. intros x. apply q_read_opt.
Qed.
Lemma q_zip_all f n a b : quiet (v_zip_all t t f n a b).
Proof.
  revert a b. induction n as [|n IH]; intros a b; cbn [v_zip_all]; [qq|]. apply quiet_bind; [apply q_next|]. intros [[x|] a']; [|qq].
  apply quiet_bind; [apply q_next|]. intros [[y|] b']; qq.
Qed.
Lemma q_eq f self other : quiet (v_eq t t f self other).
Proof.
  unfold v_eq. do 2 (apply quiet_bind; [apply q_len|intros]). destruct (_ =? _); [|qq]. do 2 (apply quiet_bind; [apply q_iter|intros]). apply q_zip_all.
Qed.
Lemma q_zip_ord f n a b : quiet (v_zip_ord t f n a b).
Proof.
  revert a b. induction n as [|n IH]; intros a b; cbn [v_zip_ord]; [qq|]. apply quiet_bind; [apply q_next|]. intros [[x|] a']; [|qq].
  apply quiet_bind; [apply q_next|]. intros [[y|] b']; qq.
Qed.
Lemma q_cmp f self other : quiet (v_cmp t f self other).
Proof.
  unfold v_cmp. do 2 (apply quiet_bind; [apply q_iter|intros]). apply quiet_bind; [apply q_zip_ord|]. intros []; try qq.
  do 2 (apply quiet_bind; [apply q_len|intros]). qq.
Qed.

Lemma q_rewrite_all f rs : quiet (rewrite_all t f rs).
Proof. induction rs as [|r rs IH]; cbn [rewrite_all]; [q|]. apply quiet_bind; [apply q_read_value|]. intros x. apply quiet_bind; [q|auto]. Qed.
Lemma q_update self cs f : quiet (v_update t self cs f).
Proof.
  unfold v_update. apply quiet_bind; [apply q_iter|]. intros it. apply quiet_bind; [apply q_calls|]. intros r. apply q_rewrite_all.
Qed.
Lemma q_stack_slot l d : quiet (stack_slot l d). Proof. intros w. reflexivity. Qed.
Lemma q_stack_free p : quiet (stack_free p). Proof. intros w. destruct p; reflexivity. Qed.

(** Emplacers and emplacables. *)
Definition ekeeps (E : emplacer) : Prop := forall l m inner, l_align l <= A -> small_meta m -> (forall p, keeps (inner p) (fun _ => True)) ->
  keeps (E l m inner) (fun _ => True).
Definition fkeeps (e : emplacable) : Prop := forall E, ekeeps E -> keeps (e E) (fun _ => True).
Lemma k_value x : valign t x <= A -> small_meta (v_meta x) -> fkeeps (emplacable_of_value t x).
Proof. intros H Hm E HE. apply HE; auto. intros p. apply quiet_keeps. qq. Qed.
Lemma k_drop e : fkeeps e -> keeps (emplacable_drop e) (fun _ => True).
Proof. intros H. apply H. intros l m inner _ _ Hi. apply Hi. Qed.
Lemma k_forget e : fkeeps e -> keeps (emplacable_forget e) (fun _ => True).
Proof. intros H. apply H. intros l m inner _ _ Hi. now apply keeps_ret. Qed.
Lemma k_drops es : Forall fkeeps es -> keeps (emplacables_drop es) (fun _ => True).
Proof.
  intros F. induction F as [|e es H _ IH]; cbn [emplacables_drop]; [now apply keeps_ret|].
  eapply keeps_bind; [|intros _ _; exact IH]. apply keeps_unwind; auto using k_drop.
Qed.
Lemma k_box e : fkeeps e -> keeps (box_new_with e) (fun _ => True).
Proof.
  intros H. unfold box_new_with. kq. eapply keeps_bind; [apply H|intros _ _; apply quiet_keeps; qq].
  intros l m inner _ _ Hi. unfold box_new_with_emplacer. kq. match goal with |- keeps (match ?p with _ => _ end) _ => destruct p end.
  - eapply keeps_bind; [apply keeps_unwind; [apply Hi|apply quiet_keeps; qq]|]. intros _ _. apply quiet_keeps; qq.
  - apply quiet_keeps. qq.
Qed.
Lemma k_reserve_both self s a : a <= A ->
  keeps (r <- u_reserve t self 1 false ;; match r with ROk => u_try_reserve_bytes_align t self s a | RErr _ => ret r end) (fun _ => True).
Proof. intros H. eapply keeps_bind; [apply k_reserve|]. intros [|e] _; [now apply k_bytes|now apply keeps_ret]. Qed.
Lemma k_insert_with self i e : fkeeps e -> keeps (u_insert_with_unchecked t self i e) (fun _ => True).
Proof.
  intros H. unfold u_insert_with_unchecked. kget v0 H0. eapply keeps_bind; [apply keeps_unwind; [apply quiet_keeps; qq|now apply k_drop]|]. intros _ _.
  apply H. intros l m inner Hl Hm Hi. cbv zeta. eapply keeps_bind; [apply k_reserve|]. intros r _.
  eapply keeps_bind. { destruct r; [now apply k_bytes|now apply keeps_ret]. } intros r' _. kq. kget v Hv. do 6 kq.
  eapply keeps_bind; [apply keeps_unwind; [apply Hi|apply quiet_keeps; qq]|]. intros _ _. kget v' Hv'. destruct Hv' as [Ha Hf].
  eapply keeps_bind; [now apply k_add|]. intros il Hil. kq. eapply keeps_bind; [apply k_insert; auto using small_info_of|]. intros l' Hl'.
  apply set_obj_keeps. split; auto.
Qed.
Lemma k_push_with self e : fkeeps e -> keeps (u_push_with t self e) (fun _ => True).
Proof.
  intros H. unfold u_push_with. apply H. intros l m inner Hl Hm Hi. cbv zeta. eapply keeps_bind; [apply k_reserve|]. intros r _.
  eapply keeps_bind. { destruct r; [now apply k_bytes|now apply keeps_ret]. } intros r' _. kq. kget v Hv. do 2 kq.
  eapply keeps_bind; [apply Hi|]. intros _ _. kq. kget v' Hv'. destruct Hv' as [Ha Hf].
  eapply keeps_bind; [apply k_push; auto using small_info_of|]. intros l' Hl'. apply set_obj_keeps. split; auto.
Qed.
Lemma keeps_make_ref r : keeps (make_ref t r) (fun x => x = r).
Proof. intros w S. unfold make_ref. destruct (ref_ok t (w_heap w) r); cbn [fst snd]; split; auto; try discriminate. now intros x [= <-]. Qed.
Lemma keeps_layout s a : keeps (vu_layout s a) (fun l => l_align l = a).
Proof. intros w S. unfold vu_layout, layout_unchecked. destruct (s <=? _); cbn; split; auto; try discriminate. now intros x [= <-]. Qed.
Context (Kt : kind_of t = KUnaligned).
Lemma small_meta_as i n : small_info i -> small_meta (as_metadata t (i_rem i) n).
Proof.
  intros H k. pose proof (H n) as Hn. destruct (i_rem i) as [|m]; destruct t; try discriminate Kt; cbn [as_metadata from_metadata from_size] in *; exact Hn.
Qed.
Lemma k_pop_into self : fkeeps (u_pop_into_unchecked t self).
Proof.
  intros E HE. unfold u_pop_into_unchecked. kget v Hv. destruct Hv as [Ha Hi]. kq. apply Forall_rev in Hi.
  destruct (rev (uv_infos v)) as [|i r]; [apply keeps_ub|]. inversion_clear Hi as [|? ? Hx Hr]. cbv zeta.
  kset. { split; auto. cbn [uv_infos]. now apply Forall_rev. } do 3 kq. eapply keeps_bind; [apply keeps_make_ref|]. intros rr ->.
  eapply keeps_bind; [apply keeps_layout|]. intros l Hl. apply HE; auto using small_meta_as.
  - rewrite Hl. cbn [wm]. apply Hx.
  - intros out. apply quiet_keeps, q_take.
Qed.
Lemma k_remove_into self i : fkeeps (u_remove_into_unchecked t self i).
Proof.
  intros E HE. unfold u_remove_into_unchecked. kget v Hv. destruct Hv as [Ha Hi]. kq. destruct (nth_error (uv_infos v) i) as [f|] eqn:Ef; [|apply keeps_ub].
  apply nth_error_In in Ef. eapply Forall_forall in Hi; eauto. do 3 kq. cbv zeta. kq. eapply keeps_bind; [apply keeps_make_ref|]. intros rr ->.
  eapply keeps_bind; [apply keeps_layout|]. intros l Hl. eapply keeps_bind.
  { apply HE; auto using small_meta_as. { rewrite Hl. cbn [wm]. apply Hi. } intros out. apply quiet_keeps, q_take. }
  intros _ _. kget v' Hv'. destruct Hv' as [Ha' Hi']. eapply keeps_bind. { apply k_sub. apply small_app; auto using small_firstn, small_skipn. }
  intros l' Hl'. kset; [split; auto|]. kq. kq. apply quiet_keeps; qq.
Qed.
Lemma k_drop_vec self : keeps (u_drop t self) (fun _ => True).
Proof. unfold u_drop. kget v Hv. kset; [exact I|]. eapply keeps_bind; [apply quiet_keeps, q_drop_elems|]. intros _ _. apply quiet_keeps. qq. Qed.

(** ** The public calls *)
Lemma small_of x : valign t x <= A -> small_meta (v_meta x).
Proof. unfold valign. intros H n. destruct t; try discriminate Kt; exact H. Qed.
Ltac uu := rewrite ?Kt.
Ltac kqv := eapply keeps_bind; [apply quiet_keeps; first [apply q_len|apply q_is_empty|apply q_capacity|apply q_byte_capacity|apply q_byte_len|apply q_unused
  |apply q_to_align|apply q_get|apply q_index|apply q_read_opt|qq]|intros ? _].
Lemma k_p_try_reserve self n e : keeps (p_try_reserve t self n e) (fun _ => True).
Proof. unfold p_try_reserve. uu. apply k_reserve. Qed.
Lemma k_p_bytes self b a : a <= A -> keeps (p_try_reserve_bytes_align t self b a) (fun _ => True).
Proof. unfold p_try_reserve_bytes_align. uu. apply k_bytes. Qed.
Lemma k_to_align a : a <= A -> keeps (to_align t a) (fun a' => a' <= A).
Proof.
  intros H. unfold to_align, valid_align_new. uu. destruct (is_power_of_two a); [now apply keeps_ret|apply keeps_panic].
Qed.
Lemma k_try_reserve_cba self n b a : a <= A -> keeps (v_try_reserve_capacity_bytes_align t self n b a) (fun _ => True).
Proof.
  intros H. unfold v_try_reserve_capacity_bytes_align, v_try_reserve. eapply keeps_bind; [apply k_p_try_reserve|]. intros [|e] _; [|now apply keeps_ret].
  do 3 kqv. eapply keeps_bind; [apply k_to_align, H|]. cbv beta. intros a' Ha. do 2 kqv. cbv zeta.
  assert (Fin : forall k, keeps (r <- p_try_reserve_bytes_align t self k a' ;;
    (if cfg_debug then bc <- v_byte_capacity t self ;; bl <- v_byte_len t self ;; dassert (bl + b <=? bc) else ret tt) ;; ret r) (fun _ => True)).
  { intros k. eapply keeps_bind; [now apply k_p_bytes|]. intros r _. eapply keeps_bind; [|intros _ _; now apply keeps_ret].
    apply k_debug. do 2 kqv. apply quiet_keeps. qq. }
  apply keeps_if; [|apply Fin]. eapply keeps_bind; [now apply k_p_bytes|]. intros [|e] _; [now apply keeps_ret|apply Fin].
Qed.
Lemma k_try_exact_cba self n b a : a <= A -> keeps (v_try_reserve_exact_capacity_bytes_align t self n b a) (fun _ => True).
Proof.
  intros H. unfold v_try_reserve_exact_capacity_bytes_align. eapply keeps_bind; [apply k_p_try_reserve|]. intros [|e] _; [|now apply keeps_ret].
  eapply keeps_bind; [apply k_to_align, H|]. cbv beta. intros a' Ha. now apply k_p_bytes.
Qed.
Lemma k_unwrap (m : M rres) : keeps m (fun _ => True) -> keeps (r <- m ;; unwrap_try_reserve_result r) (fun _ => True).
Proof. intros H. eapply keeps_bind; [exact H|]. intros r _. apply quiet_keeps, q_unwrap. Qed.
Context (A1 : 1 <= A).
Lemma k_reserve_exact self n : keeps (v_reserve_exact t self n) (fun _ => True).
Proof. apply k_unwrap, k_try_exact_cba. lia. Qed.
Lemma k_new : 8 <= A -> keeps (v_new t) (fun _ => True).
Proof. intros A8. unfold v_new. uu. apply new_obj_keeps. split; [exact A8|constructor]. Qed.
Lemma k_new1 : keeps (v_new_align_1 t) (fun _ => True).
Proof. unfold v_new_align_1. uu. apply new_obj_keeps. split; [cbn; lia|constructor]. Qed.
Lemma k_v_drop self : keeps (v_drop t self) (fun _ => True).
Proof. unfold v_drop. uu. apply k_drop_vec. Qed.
Lemma k_new_then (n : M nat) (m : nat -> M unit) : keeps n (fun _ => True) -> (forall v, keeps (m v) (fun _ => True)) ->
  keeps (v <- n ;; on_unwind (m v) (v_drop t v) ;; ret v) (fun _ => True).
Proof.
  intros Hn Hm. eapply keeps_bind; [exact Hn|]. intros v _. eapply keeps_bind; [apply keeps_unwind; [apply Hm|apply k_v_drop]|].
  intros _ _. now apply keeps_ret.
Qed.
Lemma k_v_push self x : valign t x <= A -> keeps (v_push t self x) (fun _ => True).
Proof.
  intros H. unfold v_push. eapply keeps_bind; [apply k_owned, k_unwrap, k_try_reserve_cba, H|]. intros _ _. unfold p_push_unchecked. uu.
  apply k_push_unchecked, small_of, H.
Qed.
Lemma k_v_insert self i x : valign t x <= A -> keeps (v_insert t self i x) (fun _ => True).
Proof.
  intros H. unfold v_insert. eapply keeps_bind.
  { apply k_owned. kqv. apply keeps_if; [apply k_unwrap, k_try_reserve_cba, H|apply keeps_panic]. }
  intros _ _. unfold p_insert_unchecked. uu. apply k_insert_unchecked, small_of, H.
Qed.
Lemma k_v_push_with self e : fkeeps e -> keeps (v_push_with t self e) (fun _ => True).
Proof. intros H. unfold v_push_with, p_push_with. uu. now apply k_push_with. Qed.
Lemma k_v_insert_with self i e : fkeeps e -> keeps (v_insert_with t self i e) (fun _ => True).
Proof.
  intros H. unfold v_insert_with, p_insert_with_unchecked. uu. kqv. apply keeps_if; [now apply k_insert_with|].
  apply keeps_unwind; [apply keeps_panic|now apply k_drop].
Qed.
Lemma k_v_remove_into self i : keeps (v_remove_into t self i) fkeeps.
Proof.
  unfold v_remove_into. kqv. apply keeps_if; [|apply keeps_panic]. apply keeps_ret. unfold p_remove_into_unchecked. uu. intros E HE. now apply k_remove_into.
Qed.
Lemma k_v_pop_into self : keeps (v_pop_into t self) (fun o => forall e, o = Some e -> fkeeps e).
Proof.
  unfold v_pop_into. kqv. apply keeps_if; apply keeps_ret; [discriminate|]. intros e [= <-]. unfold p_pop_into_unchecked. uu. intros E HE. now apply k_pop_into.
Qed.
Lemma k_pop_then self f : (forall e, fkeeps e -> keeps (f e) (fun _ => True)) -> keeps (pop_then t self f) (fun _ => True).
Proof.
  intros H. unfold pop_then. eapply keeps_bind; [apply k_v_pop_into|]. cbv beta. intros [e|] He; [|now apply keeps_ret]. apply H. auto.
Qed.
Lemma k_remove_then self i f : (forall e, fkeeps e -> keeps (f e) (fun _ => True)) -> keeps (remove_then t self i f) (fun _ => True).
Proof. intros H. unfold remove_then. eapply keeps_bind; [apply k_v_remove_into|]. intros e He. auto. Qed.
Lemma k_push_all self es : Forall fkeeps es -> keeps (v_push_all t self es) (fun _ => True).
Proof.
  intros F. induction F as [|e es He F IH]; cbn [v_push_all]; [now apply keeps_ret|]. eapply keeps_bind; [|intros _ _; exact IH].
  apply keeps_unwind; [now apply k_v_push_with|now apply k_drops].
Qed.
Lemma k_v_extend self h es : Forall fkeeps es -> keeps (v_extend t self h es) (fun _ => True).
Proof.
  intros F. unfold v_extend. eapply keeps_bind; [apply keeps_unwind; [apply k_reserve_exact|now apply k_drops]|]. intros _ _. now apply k_push_all.
Qed.
Lemma k_push_values self xs : Forall (fun x => valign t x <= A) xs -> keeps (v_push_values t self xs) (fun _ => True).
Proof.
  intros F. induction F as [|x xs H F IH]; cbn [v_push_values]; [now apply keeps_ret|]. eapply keeps_bind; [now apply k_v_push|]. intros _ _. exact IH.
Qed.
Lemma k_values xs : Forall (fun x => valign t x <= A) xs -> Forall fkeeps (map (emplacable_of_value t) xs).
Proof. intros F. induction F; cbn [map]; constructor; auto using k_value, small_of. Qed.
Lemma k_v_shrink self n b a : keeps (v_shrink_capacity_bytes_align_to t self n b a) (fun _ => True).
Proof. unfold v_shrink_capacity_bytes_align_to, p_shrink. uu. kqv. apply k_shrink. lia. Qed.

(** ** Histories *)
Definition vmild (c : vop) : Prop :=
  match c with
  | VPush x | VPushWith x | VInsert _ x | VInsertWith _ x => valign t x <= A
  | VTryReserve _ _ _ a | VReserve _ _ _ a => a <= A
  | VExtend _ xs => Forall (fun x => valign t x <= A) xs
  | VPushFrom e _ | VInsertFrom _ e _ => fkeeps e
  | VExtendFrom _ ps => Forall fkeeps (map fst ps)
  | VPushUnsize _ _ m x | VInsertUnsize _ _ m _ x => valign t (coerce m x) <= A
  | _ => True
  end.
Definition mild (c : op) : Prop :=
  match c with
  | New false | WithCapacity _ | WithCapacityBytes _ _ => 8 <= A
  | WithCapacityBytesAlign _ _ a => a <= A
  | OfValues xs | Collect _ xs => 8 <= A /\ Forall (fun x => valign t x <= A) xs
  | CollectFrom _ ps => 8 <= A /\ Forall fkeeps (map fst ps)
  | On _ c => vmild c
  | CloneOf _ _ _ => False
  | _ => True
  end.
Lemma then_keeps {X Y} (m : M X) (g : X -> Y) : keeps m (fun _ => True) -> keeps (x <- m ;; ret (g x)) (fun _ => True).
Proof. intros H. eapply keeps_bind; [exact H|]. intros x _. now apply keeps_ret. Qed.
Lemma k_unsize s a m x : keeps (unsize_macro s a t m x) (fun y => valign t y = valign t (coerce m x)).
Proof.
  unfold unsize_macro. eapply keeps_bind; [apply quiet_keeps, q_stack_slot|]. intros slot _. eapply keeps_bind; [apply quiet_keeps, q_mem_write|]. intros _ _.
  eapply keeps_bind; [apply keeps_make_ref|]. intros b ->. apply (keeps_bind _ _ (fun y => valign t y = valign t (coerce m x))).
  - unfold read_value. eapply keeps_bind; [apply quiet_keeps, q_mem_read|]. intros bs _. now apply keeps_ret.
  - intros y Hy. eapply keeps_bind; [apply quiet_keeps, q_stack_free|]. intros _ _. now apply keeps_ret.
Qed.
Lemma k_vstep self c : vmild c -> keeps (vstep t self c) (fun _ => True).
Proof.
  intros H. destruct c; cbn [vstep vmild] in *;
    try (apply (then_keeps _ BNum), quiet_keeps; first [apply q_len|apply q_capacity|apply q_byte_capacity|apply q_byte_len|apply q_align]).
  - apply (then_keeps _ BBool), quiet_keeps, q_is_empty.
  - kqv. apply (then_keeps _ BOpt), quiet_keeps, q_read_opt.
  - kqv. apply quiet_keeps. qq.
  - kqv. apply quiet_keeps. qq.
  - apply (then_keeps _ BItems), quiet_keeps, q_visit.
  - apply (then_keeps _ BOpt), quiet_keeps, q_visit_last.
  - apply (then_keeps _ (fun _ => BUnit)), k_v_push, H.
  - apply (then_keeps _ (fun _ => BUnit)), k_v_push_with, k_value; auto using small_of.
  - apply (then_keeps _ (fun _ => BUnit)), k_v_insert, H.
  - apply (then_keeps _ (fun _ => BUnit)), k_v_insert_with, k_value; auto using small_of.
  - apply (keeps_bind _ _ (fun _ => True)); [|intros b _; apply (then_keeps _ BOpt), quiet_keeps, q_read_opt]. unfold pop_box.
    eapply keeps_bind; [apply k_v_pop_into|]. cbv beta. intros [e|] He; [|now apply keeps_ret]. apply (then_keeps _ Some), k_box; auto.
  - apply (then_keeps _ (fun _ => BUnit)), k_pop_then, k_drop.
  - apply (then_keeps _ (fun _ => BUnit)), k_pop_then, k_forget.
  - eapply keeps_bind; [|intros b _; apply (then_keeps _ BVal), quiet_keeps; qq]. unfold remove_box.
    eapply keeps_bind; [apply k_v_remove_into|]. intros e He. now apply k_box.
  - apply (then_keeps _ (fun _ => BUnit)), k_remove_then, k_drop.
  - apply (then_keeps _ (fun _ => BUnit)), k_remove_then, k_forget.
  - destruct exact; apply (then_keeps _ BRes); [apply k_try_exact_cba|apply k_try_reserve_cba]; exact H.
  - destruct exact; apply (then_keeps _ (fun _ => BUnit)), k_unwrap; [apply k_try_exact_cba|apply k_try_reserve_cba]; exact H.
  - destruct exact; apply (then_keeps _ BRes), k_p_try_reserve.
  - apply (then_keeps _ (fun _ => BUnit)), k_unwrap, k_p_try_reserve.
  - apply (then_keeps _ (fun _ => BUnit)), k_v_shrink.
  - apply (then_keeps _ (fun _ => BUnit)), k_v_shrink.
  - apply (then_keeps _ (fun _ => BUnit)), k_v_extend, k_values, H.
  - apply (then_keeps _ (fun _ => BUnit)), k_v_push_with, H.
  - apply (then_keeps _ (fun _ => BUnit)), k_v_insert_with, H.
  - apply (then_keeps _ (fun _ => BUnit)), k_v_extend, H.
  - apply (then_keeps _ (fun _ => BUnit)), quiet_keeps, q_update.
  - apply (then_keeps _ (fun _ => BUnit)). eapply keeps_bind; [apply k_unsize|]. intros y Hy. apply k_v_push. now rewrite Hy.
  - apply (then_keeps _ (fun _ => BUnit)). eapply keeps_bind; [apply k_unsize|]. intros y Hy. apply k_v_insert. now rewrite Hy.
Qed.
Lemma k_keep env m : keeps m (fun _ => True) -> keeps (keep env m) (fun _ => True).
Proof. apply (then_keeps _ (fun o => (o, env))). Qed.
Lemma k_born env m : keeps m (fun _ => True) -> keeps (born env m) (fun _ => True).
Proof. apply (then_keeps _ (fun v => (BUnit, env ++ [Some v]))). Qed.
Lemma k_skip : keeps skip (fun _ => True).
Proof. now apply keeps_ret. Qed.
Lemma k_step env c : mild c -> keeps (step t env c) (fun _ => True).
Proof.
  intros H. destruct c; cbn [step mild] in *; try contradiction.
  - apply k_born. destruct one; [apply k_new1|now apply k_new].
  - apply k_born, k_new_then; [now apply k_new|]. intros v. apply k_reserve_exact.
  - apply k_born, k_new_then; [now apply k_new|]. intros v. apply k_unwrap, k_try_exact_cba. lia.
  - apply k_born, k_new_then; [apply k_new1|]. intros v. apply k_unwrap, k_try_exact_cba, H.
  - destruct H. apply k_born, k_new_then; [now apply k_new|]. intros v. now apply k_push_values.
  - destruct H. apply k_born, k_new_then; [now apply k_new|]. intros v. now apply k_v_extend, k_values.
  - destruct H. apply k_born, k_new_then; [now apply k_new|]. intros v. now apply k_v_extend.
  - apply k_keep. unfold on1. destruct (alive env k); [now apply k_vstep|apply k_skip].
  - destruct (dst =? src)%nat; apply k_keep; [apply k_skip|]. unfold on2. destruct (alive env dst); [|apply k_skip].
    destruct (alive env src); [|apply k_skip]. apply (then_keeps _ (fun _ => BUnit)), k_pop_then. intros e. apply k_v_push_with.
  - destruct (dst =? src)%nat; apply k_keep; [apply k_skip|]. unfold on2. destruct (alive env dst); [|apply k_skip].
    destruct (alive env src); [|apply k_skip]. apply (then_keeps _ (fun _ => BUnit)), k_remove_then. intros e. apply k_v_insert_with.
  - apply k_keep. unfold on2. destruct (alive env k); [|apply k_skip]. destruct (alive env k'); [|apply k_skip].
    apply (then_keeps _ BBool), quiet_keeps, q_eq.
  - apply k_keep. unfold on2. destruct (alive env k); [|apply k_skip]. destruct (alive env k'); [|apply k_skip].
    apply (then_keeps _ BCmp), quiet_keeps, q_cmp.
  - destruct (alive env k); [|apply k_keep, k_skip]. apply (then_keeps _ (fun _ => (BUnit, upd env k None))), k_v_drop.
Qed.
(** A history of mild calls keeps the bound, however it ends. *)
Lemma k_exec1 env c w : mild c -> small w -> small (snd (exec1 t env c w)).
Proof.
  intros H S. destruct (k_step env c H w S) as [S' _]. unfold exec1. destruct (step t env c w) as [[[]|r| |u] w']; exact S'.
Qed.
End WithConfig.
