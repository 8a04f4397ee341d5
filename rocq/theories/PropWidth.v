(** C63: the size and alignment arithmetic, for 16-, 32- and 64-bit targets. *)
From Coq Require Import ZArith List Bool Lia.
From Verif Require Import Types World ValidSize Arith Width.
Import ListNotations.
Open Scope Z_scope.

(** ** Specification *)
(** An alignment: a power of two that a [usize] can hold. *)
Definition an_align (p : width) (a : Z) : Prop := exists k, 0 <= k < bits p /\ a = 2 ^ k.
Definition a_usize (p : width) (x : Z) : Prop := 0 <= x < 2 ^ bits p.
(** [n] is [x] rounded up to the next multiple of [a]. *)
Definition rounds_up (x a n : Z) : Prop := (a | n) /\ x <= n /\ forall m, (a | m) -> x <= m -> n <= m.
(** [x] is a size that fits with alignment [a]: rounded up it is at most [isize::MAX]. *)
Definition fits (p : width) (a x : Z) : Prop := exists n, rounds_up x a n /\ n < 2 ^ (bits p - 1).

Lemma bits_cases p : bits p = 16 \/ bits p = 32 \/ bits p = 64.
Proof. destruct p; auto. Qed.
Lemma bits_1 p : 16 <= bits p.
Proof. pose proof (bits_cases p). lia. Qed.
Lemma half p : 2 ^ bits p = 2 * 2 ^ (bits p - 1).
Proof. pose proof (bits_1 p). replace (bits p) with (Z.succ (bits p - 1)) at 1 by lia. apply Z.pow_succ_r. lia. Qed.
Lemma half_pos p : 0 < 2 ^ (bits p - 1).
Proof. pose proof (bits_1 p). apply Z.pow_pos_nonneg; lia. Qed.

(** ** [count_ones] and [trailing_zeros] *)
Lemma ones_pos q : 1 <= ones_of q.
Proof. induction q; cbn; lia. Qed.
Lemma ones_one q : ones_of q = 1 -> exists k, 0 <= k /\ Zpos q = 2 ^ k /\ zeros_of q = k.
Proof.
  induction q as [q IH|q IH|]; cbn [ones_of zeros_of]; intros H.
  - pose proof (ones_pos q). lia.
  - destruct (IH H) as (k & K & E & Z). exists (k + 1). repeat split; [lia| |lia]. rewrite Z.pow_add_r, <- E by lia. lia.
  - exists 0. auto with zarith.
Qed.
Lemma ones_pow k : 0 <= k -> count_ones (2 ^ k) = 1 /\ trailing_zeros (2 ^ k) = k.
Proof.
  revert k. apply natlike_ind; [split; reflexivity|]. intros k K [O T]. rewrite Z.pow_succ_r by auto.
  pose proof (Z.pow_pos_nonneg 2 k eq_refl K). destruct (2 ^ k) as [|q|q]; try lia. cbn in *. lia.
Qed.
Lemma power_of_two_iff a : 0 <= a -> power_of_two a = true <-> exists k, 0 <= k /\ a = 2 ^ k.
Proof.
  intros P. unfold power_of_two. split.
  - intros H%Z.eqb_eq. destruct a as [|q|q]; try discriminate; try lia. destruct (ones_one q H) as (k & K & E & _). eauto.
  - intros (k & K & ->). apply Z.eqb_eq. now apply ones_pow.
Qed.
Lemma discriminants_iff p a : existsb (Z.eqb a) (discriminants p) = true <-> an_align p a.
Proof.
  rewrite existsb_exists. assert (E : discriminants p = map (fun n => 2 ^ Z.of_nat n) (seq 0 (Z.to_nat (bits p)))) by (destruct p; reflexivity).
  rewrite E. unfold an_align. split.
  - intros (x & I & ->%Z.eqb_eq). apply in_map_iff in I as (n & <- & I%in_seq). exists (Z.of_nat n). split; [lia|reflexivity].
  - intros (k & K & ->). exists (2 ^ k). split; [|apply Z.eqb_refl]. apply in_map_iff. exists (Z.to_nat k).
    split; [f_equal; lia|apply in_seq; lia].
Qed.
Lemma align_pos p a : an_align p a -> 0 < a <= 2 ^ (bits p - 1).
Proof.
  intros (k & K & ->). split; [apply Z.pow_pos_nonneg; lia|]. apply Z.pow_le_mono_r; lia.
Qed.
Lemma align_dvd p a : an_align p a -> (a | 2 ^ (bits p - 1)).
Proof.
  intros (k & K & ->). exists (2 ^ (bits p - 1 - k)). rewrite <- Z.pow_add_r by lia. f_equal. lia.
Qed.

(** ** Rounding *)
Lemma dvd_mod a n : 0 < a -> (a | n) <-> n mod a = 0.
Proof. intros. symmetry. apply Z.mod_divide. lia. Qed.
Lemma rounds_pad x a : 0 < a -> rounds_up x a (pad x a).
Proof.
  intros P. split; [apply dvd_mod, pad_mult; auto|]. split; [now apply pad_ge|]. intros m D L. apply pad_le; auto. now apply dvd_mod.
Qed.
Lemma rounds_same x a m n : rounds_up x a m -> rounds_up x a n -> m = n.
Proof. intros (D & L & M) (D' & L' & M'). pose proof (M n D' L'). pose proof (M' m D L). lia. Qed.
Lemma rounds_1 x n : rounds_up x 1 n <-> n = x.
Proof.
  split; [|intros ->]. - intros H. rewrite <- (pad_1 x). eapply rounds_same; eauto. apply rounds_pad. lia.
  - rewrite <- (pad_1 x) at 2. apply rounds_pad. lia.
Qed.
Lemma below p a n : an_align p a -> (a | n) -> n < 2 ^ (bits p - 1) -> n <= 2 ^ (bits p - 1) - a.
Proof. intros A (u & ->) L. destruct (align_dvd _ _ A) as (v & E). pose proof (align_pos _ _ A). rewrite E in *. assert (u < v) by nia. nia. Qed.
Lemma fits_iff p a x : an_align p a -> fits p a x <-> x <= imax p - (a - 1).
Proof.
  intros A. pose proof (align_pos _ _ A). unfold imax. split.
  - intros (n & (D & L & _) & B). pose proof (below _ _ _ A D B). lia.
  - intros L. exists (pad x a). split; [apply rounds_pad; lia|].
    assert (pad x a <= 2 ^ (bits p - 1) - a); [|lia]. apply pad_le; try lia. apply dvd_mod; [lia|].
    apply Z.divide_sub_r; [now apply align_dvd|apply Z.divide_refl].
Qed.
Lemma one_align p : an_align p 1.
Proof. exists 0. pose proof (bits_1 p). split; [lia|reflexivity]. Qed.
Lemma fits_1 p x : fits p 1 x <-> x <= imax p.
Proof. rewrite (fits_iff _ _ _ (one_align p)). lia. Qed.

Lemma clear_low b k s : 0 <= k <= b -> 0 <= s < 2 ^ b -> Z.land s (Z.lxor (2 ^ k - 1) (2 ^ b - 1)) = 2 ^ k * (s / 2 ^ k).
Proof.
  intros K S. rewrite (Z.mul_comm (2 ^ k)), <- Z.shiftr_div_pow2, <- Z.shiftl_mul_pow2 by lia.
  replace (2 ^ k - 1) with (Z.ones k) by (rewrite Z.ones_equiv; lia). replace (2 ^ b - 1) with (Z.ones b) by (rewrite Z.ones_equiv; lia).
  apply Z.bits_inj'. intros n N. rewrite Z.land_spec, Z.lxor_spec, Z.shiftl_spec by lia.
  destruct (Z.ltb_spec n k).
  - rewrite !Z.ones_spec_low by lia. rewrite (Z.testbit_neg_r _ (n - k)) by lia. apply andb_false_r.
  - rewrite (Z.ones_spec_high k) by lia. rewrite Z.shiftr_spec by lia. replace (n - k + k) with n by lia.
    destruct (Z.ltb_spec n b).
    + rewrite Z.ones_spec_low by lia. apply andb_true_r.
    + rewrite Z.ones_spec_high by lia. rewrite <- (Z.mod_small s (2 ^ b)) by auto. rewrite Z.mod_pow2_bits_high by lia. reflexivity.
Qed.
Lemma masked p x a : an_align p a -> 0 <= x -> x + (a - 1) <= umax p -> Z.land (x + (a - 1)) (u_not p (a - 1)) = pad x a.
Proof.
  intros A X L. pose proof (align_pos _ _ A). destruct A as (k & K & ->). unfold u_not, umax in *. rewrite clear_low by lia.
  unfold pad. rewrite Z.mul_comm. f_equal. f_equal. lia.
Qed.

(** ** Theorems *)
(** [ValidAlign::new] accepts exactly the powers of two, and never makes an invalid value of the enum. *)
Theorem C63_align_new p a : a_usize p a ->
  (va_new p a = Val (Some a) /\ an_align p a) \/ (va_new p a = Val None /\ ~ an_align p a).
Proof.
  intros [P L]. unfold va_new, va_new_unchecked. destruct (power_of_two a) eqn:E.
  - left. apply power_of_two_iff in E as (k & K & ->); auto.
    assert (A : an_align p (2 ^ k)). { exists k. split; auto. split; auto. pose proof (bits_1 p). apply (Z.pow_lt_mono_r_iff 2); lia. }
    rewrite (proj2 (discriminants_iff _ _) A). auto.
  - right. split; auto. intros (k & K & ->). rewrite (proj2 (power_of_two_iff _ P)) in E; [discriminate|]. exists k. split; [lia|auto].
Qed.
(** [new_unckecked] is defined on exactly the same values. *)
Theorem C63_align_new_unchecked p a : (an_align p a -> va_new_unchecked p a = Val a) /\ (~ an_align p a -> va_new_unchecked p a = Undef).
Proof.
  unfold va_new_unchecked. rewrite <- discriminants_iff. destruct (existsb _ _); split; auto; try easy.
Qed.
(** What an alignment tells about itself. *)
Theorem C63_align_ops p k : 0 <= k < bits p ->
  va_log2 (2 ^ k) = Val k /\ va_minus_1 (2 ^ k) = Val (2 ^ k - 1) /\ va_nonzero (2 ^ k) = Val (2 ^ k) /\
  va_dangling (2 ^ k) = Val (2 ^ k) /\ va_hashed (2 ^ k) = Val (2 ^ k).
Proof.
  intros K. pose proof (Z.pow_pos_nonneg 2 k eq_refl (proj1 K)) as P.
  assert (E : 2 ^ k =? 0 = false) by (apply Z.eqb_neq; lia).
  unfold va_log2, va_minus_1, va_nonzero, va_dangling, va_hashed, va_nonzero, u_sub. rewrite E. cbn [also].
  rewrite (proj2 (ones_pow k (proj1 K))). destruct (Z.leb_spec 1 (2 ^ k)); [auto|lia].
Qed.
(** Equality and order of alignments are those of their logarithms. *)
Theorem C63_align_order p j k : 0 <= j < bits p -> 0 <= k < bits p ->
  va_cmp (2 ^ j) (2 ^ k) = Z.compare j k /\ va_eq (2 ^ j) (2 ^ k) = (j =? k).
Proof.
  intros J K. unfold va_cmp, va_eq. destruct (Z.compare_spec j k) as [->|L|L].
  - rewrite Z.compare_refl, !Z.eqb_refl. auto.
  - pose proof (proj1 (Z.pow_lt_mono_r_iff 2 j k eq_refl (proj1 K)) L). split; [now apply Z.compare_lt_iff|].
    transitivity false; [apply Z.eqb_neq; lia|symmetry; apply Z.eqb_neq; lia].
  - pose proof (proj1 (Z.pow_lt_mono_r_iff 2 k j eq_refl (proj1 J)) L). split; [now apply Z.compare_gt_iff|].
    transitivity false; [apply Z.eqb_neq; lia|symmetry; apply Z.eqb_neq; lia].
Qed.

Lemma sz_max_eq p a : an_align p a -> sz_max p a = Val (imax p - (a - 1)).
Proof.
  intros A. pose proof (align_pos _ _ A). unfold sz_max, u_sub, imax. destruct (Z.leb_spec 1 a); [|lia]. cbn [also].
  destruct (Z.leb_spec (a - 1) (2 ^ (bits p - 1) - 1)); [auto|lia].
Qed.
(** [ValidSize::new] accepts exactly the sizes that fit. *)
Theorem C63_size_new p a x : an_align p a ->
  (fits p a x -> sz_new p a x = Val (Some x) /\ sz_new_unchecked p a x = Val x /\ sz_squished p a x = Val x /\
                 sz_layout p a x = Val (x, a)) /\
  (~ fits p a x -> sz_new p a x = Val None /\ sz_new_unchecked p a x = Undef /\ sz_layout p a x = Undef /\
                   exists m, sz_squished p a x = Val m /\ fits p a m /\ forall n, fits p a n -> n <= m).
Proof.
  intros A. rewrite (fits_iff _ _ _ A). unfold sz_new, sz_new_unchecked, sz_squished, sz_layout, layout_of, sz_new_unchecked.
  rewrite !(sz_max_eq _ _ A). cbn [also]. pose proof (align_pos _ _ A) as [A0 _].
  rewrite (proj2 (power_of_two_iff a ltac:(lia))) by (destruct A as (k & K & ->); exists k; split; [lia|auto]). cbn [andb].
  destruct (Z.leb_spec x (imax p - (a - 1))); split; intros; try lia; auto.
  repeat split; auto. exists (imax p - (a - 1)). split; auto. split; [apply fits_iff; auto; lia|]. intros n. rewrite fits_iff by auto. auto.
Qed.
Lemma sz_new_cases p a x : an_align p a -> sz_new p a x = Val (if x <=? imax p - (a - 1) then Some x else None).
Proof. intros A. unfold sz_new. now rewrite (sz_max_eq _ _ A). Qed.
Lemma imax_umax p : 2 * imax p + 1 = umax p.
Proof. unfold imax, umax. rewrite half. lia. Qed.

(** Adding sizes: exact if the sum fits, otherwise refused. *)
Theorem C63_size_add p a x y : an_align p a -> 0 <= x -> 0 <= y ->
  (fits p a (x + y) -> sz_checked_add p a x y = Val (Some (x + y)) /\ sz_unchecked_add p a x y = Val (x + y)) /\
  (~ fits p a (x + y) -> sz_checked_add p a x y = Val None /\ sz_unchecked_add p a x y = Undef).
Proof.
  intros A X Y. destruct (C63_size_new p a (x + y) A) as [F N]. unfold sz_checked_add, sz_unchecked_add, c_add, u_add.
  pose proof (imax_umax p). pose proof (align_pos _ _ A) as [A0 _]. pose proof (half_pos p).
  assert (0 <= imax p) by (unfold imax; lia).
  split; intros Hf.
  - assert (Hl : x + y <= imax p - (a - 1)) by (now apply fits_iff). destruct (Z.leb_spec (x + y) (umax p)); [|lia].
    destruct (F Hf) as (E1 & E2 & _). auto.
  - destruct (N Hf) as (E1 & E2 & _). destruct (x + y <=? umax p); auto.
Qed.
Theorem C63_size_sub p a x y : an_align p a -> fits p a x -> 0 <= y ->
  (y <= x -> sz_unchecked_sub p a x y = Val (x - y)) /\ (x < y -> sz_unchecked_sub p a x y = Undef).
Proof.
  intros A F Y. unfold sz_unchecked_sub, u_sub. destruct (Z.leb_spec y x); split; intros; try lia; auto. cbn [also].
  apply (C63_size_new p a (x - y) A). apply fits_iff; auto. apply fits_iff in F; auto. lia.
Qed.
(** A size that fits an alignment fits every smaller one; [as_unaligned]. *)
Theorem C63_size_unaligned p a x : an_align p a -> fits p a x -> sz_unaligned p x = Val x.
Proof.
  intros A F. apply (C63_size_new p 1 x (one_align p)). rewrite fits_1. apply fits_iff in F; auto. pose proof (align_pos _ _ A). lia.
Qed.

(** Rounding up: exact whenever the rounded size is at most [isize::MAX], otherwise refused; [unchecked_pad_to] is undefined
    in exactly that case. *)
Theorem C63_pad p a x n : an_align p a -> 0 <= x <= imax p -> rounds_up x a n ->
  (n <= imax p -> un_checked_pad p x a = Val (Some n) /\ un_unchecked_pad p x a = Val n) /\
  (imax p < n -> un_checked_pad p x a = Val None /\ un_unchecked_pad p x a = Undef).
Proof.
  intros A X R. pose proof (align_pos _ _ A) as [A0 A1]. pose proof (imax_umax p).
  assert (A2 : a - 1 <= imax p) by (unfold imax; lia).
  pose proof (rounds_same _ _ _ _ R (rounds_pad x a A0)) as ->.
  unfold un_checked_pad, un_unchecked_pad, va_minus_1, u_sub, u_add. destruct (Z.leb_spec 1 a); [|lia]. cbn [also].
  destruct (Z.leb_spec (x + (a - 1)) (umax p)); [|lia]. cbn [also]. rewrite (masked p x a A) by lia.
  destruct (C63_size_new p 1 (pad x a) (one_align p)) as [F N]. rewrite fits_1 in F, N.
  split; intros L; [destruct (F L) as (E1 & E2 & _)|destruct (N ltac:(lia)) as (E1 & E2 & _)]; auto.
Qed.
(** The same from any [usize], also one whose rounding would wrap around. *)
Theorem C63_new_padded p a x n : an_align p a -> a_usize p x -> rounds_up x a n ->
  (n <= imax p -> un_new_padded p x a = Val (Some n)) /\ (imax p < n -> un_new_padded p x a = Val None).
Proof.
  intros A [X0 X1] R. pose proof (align_pos _ _ A) as [A0 A1]. pose proof (imax_umax p).
  assert (A2 : a - 1 <= imax p) by (unfold imax; lia).
  pose proof (rounds_same _ _ _ _ R (rounds_pad x a A0)) as ->. pose proof (pad_ge x a A0).
  unfold un_new_padded, va_minus_1, u_sub, c_add. destruct (Z.leb_spec 1 a); [|lia]. cbn [also].
  destruct (Z.leb_spec (x + (a - 1)) (umax p)).
  - rewrite (masked p x a A) by lia. destruct (C63_size_new p 1 (pad x a) (one_align p)) as [F N]. rewrite fits_1 in F, N.
    split; intros L; [destruct (F L) as (E1 & _)|destruct (N ltac:(lia)) as (E1 & _)]; auto.
  - split; auto. intros L. lia.
Qed.
Theorem C63_add_pad p a x y n : an_align p a -> 0 <= x -> a_usize p y -> rounds_up (x + y) a n ->
  (n <= imax p -> un_checked_add_pad p x y a = Val (Some n)) /\ (imax p < n -> un_checked_add_pad p x y a = Val None).
Proof.
  intros A X [Y0 Y1] R. unfold un_checked_add_pad, c_add. pose proof (imax_umax p).
  destruct (Z.leb_spec (x + y) (umax p)).
  - apply C63_new_padded; auto. unfold a_usize. unfold umax in *. lia.
  - split; auto. intros L. destruct R as (_ & R & _). pose proof (half_pos p). unfold imax in *. lia.
Qed.
(** The largest size for an alignment is the largest that fits; squishing keeps what fits and otherwise takes that one. *)
Theorem C63_squished p a x : an_align p a -> 0 <= x -> exists m, un_max_for p a = Val m /\ fits p a m /\ (forall n, fits p a n -> n <= m) /\
  un_layout p m a = Val (m, a) /\ un_squished p x a = Val (Z.min x m).
Proof.
  intros A X. pose proof (align_pos _ _ A) as [A0 A1]. assert (A2 : a - 1 <= imax p) by (unfold imax; lia).
  assert (E : un_max_for p a = Val (imax p - (a - 1))).
  { unfold un_max_for, va_minus_1, u_sub. destruct (Z.leb_spec 1 a); [|lia]. cbn [also]. destruct (Z.leb_spec (a - 1) (imax p)); [|lia]. cbn [also].
    apply (C63_size_new p 1 _ (one_align p)). rewrite fits_1. lia. }
  exists (imax p - (a - 1)). assert (F : fits p a (imax p - (a - 1))) by (apply fits_iff; auto; lia).
  repeat split; auto. - intros n Fn. now apply fits_iff in Fn.
  - now apply (C63_size_new p a _ A).
  - unfold un_squished. rewrite E. cbn [also]. destruct (Z.leb_spec x (imax p - (a - 1))).
    + rewrite Z.min_l by auto. apply (C63_size_new p 1 _ (one_align p)). rewrite fits_1. lia.
    + now rewrite Z.min_r by lia.
Qed.

(** ** The 64-bit instance is the one the rest of the model uses *)
Lemma pow2_align a : pow2 a <-> an_align W64 a.
Proof. unfold pow2, an_align. cbn [bits]. split; intros (k & K & E); exists k; (split; [lia|auto]). Qed.
Lemma is_power_same a : 0 <= a <= usize_max -> is_power_of_two a = power_of_two a.
Proof.
  intros B. destruct (power_of_two a) eqn:E.
  - apply power_of_two_iff in E as (k & K & ->); [|lia]. apply is_power_of_two_pow2. exists k. split; auto. split; auto.
    enough (k < 64) by lia. apply (Z.pow_lt_mono_r_iff 2); [lia|lia|]. change (2 ^ 64) with (usize_max + 1). lia.
  - destruct (is_power_of_two a) eqn:F; auto. apply pow2_of_is_power in F as (k & K & ->); auto.
    rewrite (proj2 (power_of_two_iff (2 ^ k) (proj1 B))) in E; [discriminate|]. exists k. split; [lia|auto].
Qed.
(** What a checked function of the model returns, in the terms of the other model; [M] computations stay in their world. *)
Definition same_opt (m : calc (option Z)) (o : option Z) : Prop := m = Val o.
Definition same_m (m : calc Z) (c : M Z) : Prop :=
  forall w, match m with Val x => c w = (Ok x, w) | Undef => exists r, c w = (UB r, w) end.
Theorem C63_model a x y : 0 <= a <= usize_max -> 0 <= x <= usize_max -> 0 <= y <= usize_max ->
  same_opt (va_new W64 a) (valid_align_new a) /\
  (pow2 a ->
     same_opt (sz_new W64 a x) (vs_new a x) /\ same_m (sz_new_unchecked W64 a x) (vs_new_unchecked a x) /\
     sz_squished W64 a x = Val (vs_new_squished a x) /\
     same_opt (sz_checked_add W64 a x y) (vs_checked_add a x y) /\
     same_m (sz_unchecked_add W64 a x y) (vs_unchecked_add a x y) /\
     same_m (sz_unchecked_sub W64 a x y) (vs_unchecked_sub a x y) /\
     va_minus_1 a = Val (minus_1 a) /\ un_max_for W64 a = Val (max_for_align a) /\
     same_opt (un_new_padded W64 x a) (new_padded_to x a) /\
     un_squished W64 x a = Val (new_squished_to x a) /\
     (x <= isize_max -> same_opt (un_checked_pad W64 x a) (checked_pad_to x a)) /\
     same_m (un_unchecked_pad W64 x a) (unchecked_pad_to x a) /\
     same_opt (un_checked_add_pad W64 x y a) (checked_add_pad x y a)).
Proof.
  intros Ba Bx By. change usize_max with (umax W64) in *. split.
  { unfold same_opt, valid_align_new. destruct (C63_align_new W64 a) as [[E A]|[E A]]; [split; unfold umax in *; cbn [bits] in *; lia|..]; rewrite E.
    - now rewrite (is_power_of_two_pow2 a (proj2 (pow2_align a) A)).
    - destruct (is_power_of_two a) eqn:F; auto. elim A. apply pow2_align, pow2_of_is_power; auto. }
  intros P. pose proof (proj1 (pow2_align a) P) as A. pose proof (one_align W64) as O. pose proof (align_pos _ _ A) as [A0 A1].
  assert (I : imax W64 = isize_max) by reflexivity. assert (U : umax W64 = usize_max) by reflexivity.
  assert (A2 : a - 1 <= isize_max) by (rewrite <- I; unfold imax; lia).
  assert (M1 : va_minus_1 a = Val (a - 1)). { unfold va_minus_1, u_sub. destruct (Z.leb_spec 1 a); [auto|lia]. }
  assert (Mx : un_max_for W64 a = Val (max_for_align a)).
  { unfold un_max_for, max_for_align, minus_1. rewrite M1. cbn [also]. unfold u_sub, sz_new_unchecked. rewrite (sz_max_eq _ _ O), I.
    destruct (Z.leb_spec (a - 1) isize_max); [|lia]. cbn [also]. destruct (Z.leb_spec (isize_max - (a - 1)) (isize_max - (1 - 1))); [auto|lia]. }
  assert (N : forall b z, an_align W64 b -> sz_new W64 b z = Val (vs_new b z)).
  { intros b z Ab. rewrite sz_new_cases, I by auto. reflexivity. }
  assert (Nu : forall b z w, an_align W64 b -> match sz_new_unchecked W64 b z with Val x => vs_new_unchecked b z w = (Ok x, w) | Undef => exists r, vs_new_unchecked b z w = (UB r, w) end).
  { intros b z w Ab. unfold sz_new_unchecked, vs_new_unchecked, vs_max. rewrite (sz_max_eq _ _ Ab), I. cbn [also]. destruct (_ <=? _); [reflexivity|eexists; reflexivity]. }
  unfold same_opt, same_m. repeat split; auto.
  - intros w. now apply Nu.
  - unfold sz_squished, sz_new_unchecked, vs_new_squished, vs_max. rewrite !(sz_max_eq _ _ A), I. cbn [also]. destruct (x <=? _); reflexivity.
  - unfold sz_checked_add, vs_checked_add, c_add. rewrite U. destruct (_ <=? _); auto.
  - intros w. unfold sz_unchecked_add, vs_unchecked_add, u_add, uadd, bind. rewrite U. destruct (_ <=? _); cbn [also]; [apply (Nu a); auto|eexists; reflexivity].
  - intros w. unfold sz_unchecked_sub, vs_unchecked_sub, u_sub, usub, bind. destruct (_ <=? _); cbn [also]; [apply (Nu a); auto|eexists; reflexivity].
  - unfold un_new_padded, new_padded_to, c_add. rewrite M1, U. cbn [also]. unfold minus_1. destruct (_ <=? _); auto.
  - unfold un_squished, new_squished_to. rewrite Mx. cbn [also]. destruct (Z.leb_spec x (max_for_align a)) as [L|L]; auto.
    unfold sz_new_unchecked. rewrite (sz_max_eq _ _ O), I. cbn [also]. unfold max_for_align, minus_1 in L. destruct (Z.leb_spec x (isize_max - (1 - 1))); [auto|lia].
  - intros L. unfold un_checked_pad, checked_pad_to, u_add. rewrite M1, U. cbn [also]. destruct (Z.leb_spec (x + (a - 1)) usize_max); [|lia]. cbn [also].
    unfold minus_1. auto.
  - intros w. unfold un_unchecked_pad, unchecked_pad_to, u_add, uadd, bind, minus_1. rewrite M1, U. cbn [also]. destruct (_ <=? _); cbn [also]; [|eexists; reflexivity].
    apply (Nu 1 _ w O).
  - unfold un_checked_add_pad, checked_add_pad, c_add. rewrite U. destruct (_ <=? _); auto.
    unfold un_new_padded, new_padded_to, c_add. rewrite M1, U. cbn [also]. unfold minus_1. destruct (_ <=? _); auto.
Qed.

(** ** Cases *)
Ltac run := vm_compute; reflexivity.
Example C63_align_case : map (va_new W16) [0; 1; 2; 3; 32768; 65535] = [Val None; Val (Some 1); Val (Some 2); Val None; Val (Some 32768); Val None] /\
  va_new_unchecked W16 65536 = Undef /\ va_new W32 65536 = Val (Some 65536) /\ va_log2 32768 = Val 15.
Proof. repeat split; run. Qed.
(** 100 bytes at alignment 32 take 128; 32760 of them do not round up on a 16-bit target, 65530 would wrap around. *)
Example C63_pad_case : un_checked_pad W16 100 32 = Val (Some 128) /\ rounds_up 100 32 128 /\ un_checked_pad W16 32760 32 = Val None /\
  un_new_padded W16 65530 32 = Val None /\ un_checked_add_pad W16 90 10 32 = Val (Some 128) /\ un_checked_add_pad W16 32000 65530 32 = Val None /\
  un_squished W16 32760 32 = Val 32736 /\ un_max_for W16 32768 = Val 0.
Proof.
  split; [run|]. split. { change 128 with (pad 100 32). apply rounds_pad. lia. } repeat split; run.
Qed.
Example C63_size_case : sz_new W32 4096 2147479552 = Val (Some 2147479552) /\ sz_new W32 4096 2147479553 = Val None /\
  sz_checked_add W32 8 2147483640 1 = Val None /\ sz_checked_add W32 8 2147483600 40 = Val (Some 2147483640) /\
  sz_unchecked_sub W32 8 4 5 = Undef /\ sz_squished W32 8 4294967295 = Val 2147483640.
Proof. repeat split; run. Qed.
Print Assumptions C63_align_new.
Print Assumptions C63_align_new_unchecked.
Print Assumptions C63_align_ops.
Print Assumptions C63_align_order.
Print Assumptions C63_size_new.
Print Assumptions C63_size_add.
Print Assumptions C63_size_sub.
Print Assumptions C63_size_unaligned.
Print Assumptions C63_pad.
Print Assumptions C63_new_padded.
Print Assumptions C63_add_pad.
Print Assumptions C63_squished.
Print Assumptions C63_model.
