(** C18: the reservations that name bytes but no alignment. Without an alignment the guard of [C18_try_reserve_partial] is met by
    every vector of unsized elements. *)
From Coq Require Import ZArith List Bool Lia.
From Verif Require Import Types World ValidSize Emplace SizedVec AlignedVec UnalignedVec Api Spec Bytes Arith Wp Mem Repr
  Access Reserve Realign Orep Push Family Build Obs Convert Adaptors PropReserve Findings.
Import ListNotations.
Open Scope Z_scope.
Open Scope m_scope.

Section WithConfig.
Context {C : Config}.

(** Of Sized elements no more bytes than the [n] elements need. *)
Definition modest (t : ty) (n b : Z) : Prop := match t with TSized s _ => 0 < s /\ b <= n * s | _ => True end.

Lemma modest_promised t self l w n b al bc : repr t self l w -> v_align t self w = (Ok al, w) -> modest t n b -> promised t l n b 1 al bc.
Proof.
  intros R Va M. apply repr_orep in R as (o & d & R). rewrite (v_align_eq _ _ _ _ _ _ R) in Va. injection Va as <-.
  pose proof (pow2_pos _ (orep_al _ _ _ _ _ _ R)) as P. unfold promised. destruct (kind_of t) eqn:K; auto.
  - destruct t; try discriminate K. exact M.
  - split; [apply pow2_1|]. right; right. lia.
Qed.

Theorem C18_try_reserve_bytes t self l w n b : repr t self l w -> 0 <= n -> 0 <= b -> modest t n b ->
  run (v_try_reserve_capacity_bytes t self n b) w
    (fun r w' => match r with ROk => provides t self l n b 1 w w' | RErr _ => keeps t self l w w' end)
    (fun r w' => r = PDebugAssert /\ cfg_debug = true /\ keeps t self l w w') (fun _ => False).
Proof.
  intros R Hn Hb M. destruct (caps_of t self l w R) as (c & bc & bl & al & _ & Vb & _ & Va).
  eapply C18_try_reserve_partial; eauto. eapply modest_promised; eauto.
Qed.
Theorem C18_reserve_bytes t self l w n b : repr t self l w -> 0 <= n -> 0 <= b -> modest t n b ->
  run (v_reserve_capacity_bytes t self n b) w
    (fun _ w' => provides t self l n b 1 w w')
    (fun r w' => keeps t self l w w' /\ (r = PCapacity \/ r = PDebugAssert /\ cfg_debug = true \/ r = POom /\ cfg_oom_panics = true))
    (fun w' => alloc_failed w w').
Proof.
  intros R Hn Hb M. destruct (caps_of t self l w R) as (c & bc & bl & al & _ & Vb & _ & Va).
  change (v_reserve_capacity_bytes t self n b) with (v_reserve_capacity_bytes_align t self n b 1).
  eapply C18_reserve_partial; eauto. eapply modest_promised; eauto.
Qed.
(** The exact form, which never panics; of Sized elements it takes no bytes. *)
Theorem C18_try_reserve_exact_bytes t self l w n b : repr t self l w -> 0 <= n -> 0 <= b -> modest t n b -> (kind_of t = KSized -> b = 0) ->
  run (v_try_reserve_exact_capacity_bytes t self n b) w
    (fun r w' => match r with ROk => provides t self l n b 1 w w' | RErr _ => keeps t self l w w' end)
    (fun _ _ => False) (fun _ => False).
Proof.
  intros R Hn Hb M Sb. destruct (caps_of t self l w R) as (c & bc & bl & al & _ & Vb & _ & Va).
  eapply C18_try_reserve_exact_partial; eauto. eapply modest_promised; eauto.
Qed.
(** Every panicking form fails where the other one returns an error: it never returns without having done its work. *)
Theorem C18_failing t self n b a w w' e :
  (v_try_reserve_capacity_bytes t self n b w = (Ok (RErr e), w') -> forall u, fst (v_reserve_capacity_bytes t self n b w) <> Ok u) /\
  (v_try_reserve_capacity_bytes_align t self n b a w = (Ok (RErr e), w') -> forall u, fst (v_reserve_capacity_bytes_align t self n b a w) <> Ok u) /\
  (v_try_reserve_exact_capacity_bytes t self n b w = (Ok (RErr e), w') -> forall u, fst (v_reserve_exact_capacity_bytes t self n b w) <> Ok u) /\
  (v_try_reserve_exact_capacity_bytes_align t self n b a w = (Ok (RErr e), w') -> forall u, fst (v_reserve_exact_capacity_bytes_align t self n b a w) <> Ok u) /\
  (v_try_reserve t self n w = (Ok (RErr e), w') -> forall u, fst (v_reserve t self n w) <> Ok u).
Proof.
  assert (U : forall u v, fst (unwrap_try_reserve_result (RErr e) v) <> Ok u).
  { intros u v. unfold unwrap_try_reserve_result, handle_alloc_error. destruct e; cbn; try discriminate. destruct cfg_oom_panics; cbn; discriminate. }
  unfold v_reserve_capacity_bytes, v_reserve_capacity_bytes_align, v_reserve_exact_capacity_bytes, v_reserve_exact_capacity_bytes_align, v_reserve.
  repeat split; intros H u; erewrite bind_eq by exact H; apply U.
Qed.
End WithConfig.

(** ** Little endian *)
(** The number that bytes stand for, the first byte counting least. *)
Fixpoint le_value (l : list byte) : option Z :=
  match l with
  | [] => Some 0
  | Byte x :: r => match le_value r with Some y => Some (x + 256 * y) | None => None end
  | _ => None
  end.
(** What the model writes for the counters of an [Rc] and for lengths in fat pointers reads back as the number. *)
Theorem C58_le_bytes n x : 0 <= x < 256 ^ Z.of_nat n -> le_value (le_bytes n x) = Some x /\ length (le_bytes n x) = n.
Proof.
  revert x. induction n as [|n IH]; intros x H; cbn [le_bytes le_value].
  { change (256 ^ Z.of_nat 0) with 1 in H. replace x with 0 by lia. auto. }
  rewrite Nat2Z.inj_succ, Z.pow_succ_r in H by lia.
  destruct (IH (x / 256)) as [-> E]. { split; [apply Z.div_pos; lia|apply Z.div_lt_upper_bound; lia]. }
  cbn [length]. rewrite E. split; [|reflexivity]. f_equal. pose proof (Z.div_mod x 256). lia.
Qed.

Print Assumptions C18_try_reserve_bytes.
Print Assumptions C18_reserve_bytes.
Print Assumptions C18_try_reserve_exact_bytes.
Print Assumptions C18_failing.
Print Assumptions C58_le_bytes.

(** ** Cases *)
Section Cases.
Local Existing Instance cfg_release.
Ltac run := vm_compute; reflexivity.
Ltac built := eapply (built_repr _ _ empty_world); [exact I|intros K; discriminate K|apply takesb_ok; reflexivity|run].
(** Trait objects: three elements and forty bytes more; the exact form takes the bytes on top of the capacity. *)
Example C18_bytes_case : exists v w w1 w2 w3, repr TDyn v [half 1; one 2] w /\ modest TDyn 3 40 /\
  v_byte_capacity TDyn v w = (Ok 16, w) /\
  v_try_reserve_capacity_bytes TDyn v 3 40 w = (Ok ROk, w1) /\ v_byte_capacity TDyn v w1 = (Ok 56, w1) /\
  v_reserve_capacity_bytes TDyn v 3 40 w = (Ok tt, w2) /\ v_byte_capacity TDyn v w2 = (Ok 56, w2) /\ v_align TDyn v w2 = (Ok 8, w2) /\
  v_try_reserve_exact_capacity_bytes TDyn v 3 40 w = (Ok ROk, w3) /\ v_byte_capacity TDyn v w3 = (Ok 56, w3).
Proof. do 5 eexists. split; [built|]. split; [exact I|]. do 7 (split; [run|]). run. Qed.
(** More bytes than there are addresses: an error, or a panic. *)
Example C18_failing_case : exists v w w1, repr TDyn v [half 1; one 2] w /\
  v_try_reserve_capacity_bytes TDyn v 1 isize_max w = (Ok (RErr CapacityOverflow), w1) /\
  fst (v_reserve_capacity_bytes TDyn v 1 isize_max w) = Panic PCapacity /\
  fst (v_reserve_capacity_bytes_align TDyn v 1 isize_max 16 w) = Panic PCapacity /\
  fst (v_reserve_exact_capacity_bytes TDyn v 1 isize_max w) = Panic PCapacity /\
  fst (v_reserve_exact_capacity_bytes_align TDyn v 1 isize_max 16 w) = Panic PCapacity /\
  fst (v_reserve TDyn v isize_max w) = Panic PCapacity.
Proof. do 3 eexists. split; [built|]. do 5 (split; [run|]). run. Qed.
(** What [shrink_to_fit] makes of three elements of four bytes (F6): exactly these. *)
Example C23_shrunk_case : exists v w w', v_of_values TDyn [half 1; half 2; half 3] empty_world = (Ok v, w) /\
  v_shrink_to_fit TDyn v w = (Ok tt, w') /\
  shows TDyn v [half 1; Value (MVt 2 4 4) [Uninit; Uninit; Uninit; Uninit]; half 2] w'.
Proof. do 3 eexists. split; [run|]. split; [run|]. run. Qed.
Example C58_le_case : le_value (le_bytes 8 4660) = Some 4660 /\ le_bytes 3 4660 = [Byte 52; Byte 18; Byte 0].
Proof. split; run. Qed.

(** ** Runs at the edges, for theorems of other files *)
(** C33: a proper prefix is not equal, on either side. *)
Example C33_prefix_case : fst ((v <- v_of_values TDyn [one 1] ;; u <- v_of_values TDyn [one 1; one 2] ;;
  a <- v_eq TDyn TDyn (fun _ _ => true) v u ;; b <- v_eq TDyn TDyn (fun _ _ => true) u v ;; ret (a, b)) empty_world) = Ok (false, false).
Proof. run. Qed.
(** C12, C54: [last] of Sized elements, and [nth_back] past the front, after which the iterator is exhausted. *)
Example C12_last_case : fst ((v <- v_of_values (TSized 4 4) [u32 1; u32 2; u32 3] ;; it <- v_iter (TSized 4 4) v ;; x <- v_last (TSized 4 4) it ;;
  match x with Some r => y <- read_value (TSized 4 4) r ;; ret (Some y) | None => ret None end) empty_world) = Ok (Some (u32 3)).
Proof. run. Qed.
Example C54_past_case : fst ((v <- v_of_values (TSized 4 4) [u32 1; u32 2; u32 3] ;; it <- v_iter (TSized 4 4) v ;; '(x, it) <- v_nth_back (TSized 4 4) 3 it ;;
  ret (x, v_iter_len it)) empty_world) = Ok (None, 0%nat).
Proof. run. Qed.
(** C23, C24: [shrink_to_fit] gives up the bytes that are not used, [shrink_capacity_bytes_to] keeps the alignment. *)
Example C23_bytes_case : fst ((v <- v_of_values TStr [str_val [97; 98]] ;; v_reserve_capacity_bytes TStr v 10 98 ;; a <- v_byte_capacity TStr v ;;
  v_shrink_to_fit TStr v ;; b <- v_byte_capacity TStr v ;; c <- v_capacity TStr v ;; ret (a, b, c)) empty_world) = Ok (100, 2, 1).
Proof. run. Qed.
Example C24_align_case : fst ((v <- v_of_values TDyn [one 1] ;; v_shrink_capacity_bytes_to TDyn v 0 0 ;; v_align TDyn v) empty_world) = Ok 8 /\
  fst ((v <- v_of_values TDyn [one 1] ;; v_shrink_to_fit TDyn v ;; v_align TDyn v) empty_world) = Ok 1.
Proof. split; run. Qed.
(** C17: zero is no alignment. *)
Example C17_zero_case : fst ((v <- v_of_values TDyn [one 1] ;; v_reserve_capacity_bytes_align TDyn v 0 0 0) empty_world) = Panic PBadAlign.
Proof. run. Qed.
(** C60: a vector made of a [Vec] keeps its capacity. *)
Example C60_capacity_case : fst ((v <- v_of_values (TSized 4 4) [u32 1] ;; x <- v_into_vec v ;; u <- v_from_vec x ;; v_capacity (TSized 4 4) u) empty_world) = Ok 4.
Proof. run. Qed.
End Cases.
