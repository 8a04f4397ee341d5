(** Arithmetic of sizes and alignments: the bit-level code of src/helper computes [pad]. *)
From Coq Require Import ZArith List Bool Lia.
From Verif Require Import Types World ValidSize.
Import ListNotations.
Open Scope Z_scope.

Lemma usize_max_eq : usize_max = 2 ^ 64 - 1. Proof. reflexivity. Qed.
Lemma isize_max_eq : isize_max = 2 ^ 63 - 1. Proof. reflexivity. Qed.

Lemma pow2_pos a : pow2 a -> 0 < a.
Proof. intros (k & Hk & ->). apply Z.pow_pos_nonneg; lia. Qed.
Lemma pow2_max a : pow2 a -> a <= max_align.
Proof.
  intros (k & Hk & ->). change max_align with (2 ^ 63). apply Z.pow_le_mono_r; lia.
Qed.
Lemma pow2_1 : pow2 1. Proof. exists 0; split; [lia|reflexivity]. Qed.
Lemma pow2_8 : pow2 8. Proof. exists 3; split; [lia|reflexivity]. Qed.
Lemma pow2_divide a b : pow2 a -> pow2 b -> a <= b -> (a | b).
Proof.
  intros (k & Hk & ->) (j & Hj & ->) L.
  assert (k <= j). { apply Z.pow_le_mono_r_iff in L; lia. }
  exists (2 ^ (j - k)). rewrite <- Z.pow_add_r by lia. f_equal; lia.
Qed.
Lemma pow2_maxi a b : pow2 a -> pow2 b -> pow2 (Z.max a b).
Proof. intros; destruct (Z.max_spec a b) as [[_ ->]|[_ ->]]; auto. Qed.
Lemma pow2_mini a b : pow2 a -> pow2 b -> pow2 (Z.min a b).
Proof. intros; destruct (Z.min_spec a b) as [[_ ->]|[_ ->]]; auto. Qed.

Lemma div_mod_ x a : 0 < a -> x = a * (x / a) + x mod a /\ 0 <= x mod a < a.
Proof. intros; split. apply Z.div_mod; lia. apply Z.mod_pos_bound; lia. Qed.

(** [pad]. *)
Lemma pad_mult x a : 0 < a -> pad x a mod a = 0.
Proof. intros. unfold pad. apply Z.mod_mul; lia. Qed.
Lemma pad_ge x a : 0 < a -> x <= pad x a.
Proof. intros. unfold pad. destruct (div_mod_ (x + a - 1) a); auto. nia. Qed.
Lemma pad_lt x a : 0 < a -> pad x a < x + a.
Proof. intros. unfold pad. destruct (div_mod_ (x + a - 1) a); auto. nia. Qed.
Lemma mod_unique_ a x y : 0 < a -> x mod a = 0 -> y mod a = 0 -> x - a < y -> y < x + a -> x = y.
Proof.
  intros. destruct (div_mod_ x a); auto. destruct (div_mod_ y a); auto.
  assert (x / a = y / a) by nia. nia.
Qed.
Lemma pad_unique x a y : 0 < a -> y mod a = 0 -> x <= y -> y < x + a -> pad x a = y.
Proof.
  intros. pose proof (pad_ge x a). pose proof (pad_lt x a). pose proof (pad_mult x a).
  apply (mod_unique_ a); auto; lia.
Qed.
Lemma pad_id x a : 0 < a -> x mod a = 0 -> pad x a = x.
Proof. intros; apply pad_unique; auto; lia. Qed.
Lemma pad_0 a : 0 < a -> pad 0 a = 0.
Proof. intros; apply pad_id; auto. Qed.
Lemma pad_1 x : pad x 1 = x.
Proof. apply pad_id; [lia|apply Z.mod_1_r]. Qed.
Lemma pad_nonneg x a : 0 < a -> 0 <= x -> 0 <= pad x a.
Proof. intros; pose proof (pad_ge x a); lia. Qed.
Lemma pad_le x y a : 0 < a -> y mod a = 0 -> x <= y -> pad x a <= y.
Proof.
  intros. pose proof (pad_lt x a ltac:(auto)). pose proof (pad_mult x a ltac:(auto)).
  destruct (div_mod_ (pad x a) a); auto. destruct (div_mod_ y a); auto.
  assert (pad x a / a <= y / a) by nia. nia.
Qed.
Lemma pad_mono x y a : 0 < a -> x <= y -> pad x a <= pad y a.
Proof. intros; apply pad_le; auto. now apply pad_mult. pose proof (pad_ge y a); lia. Qed.
Lemma mod_add_0 x y a : 0 < a -> x mod a = 0 -> y mod a = 0 -> (x + y) mod a = 0.
Proof. intros. rewrite Z.add_mod by lia. rewrite H0, H1. reflexivity. Qed.
Lemma mod_sub_0 x y a : 0 < a -> x mod a = 0 -> y mod a = 0 -> (x - y) mod a = 0.
Proof. intros. rewrite Zminus_mod. rewrite H0, H1. reflexivity. Qed.
Lemma mod_mul_0 x y a : 0 < a -> y mod a = 0 -> (x * y) mod a = 0.
Proof. intros. rewrite Z.mul_mod, H0, Z.mul_0_r by lia. reflexivity. Qed.
Lemma pad_add k x a : 0 < a -> k mod a = 0 -> pad (k + x) a = k + pad x a.
Proof.
  intros. pose proof (pad_ge x a H). pose proof (pad_lt x a H).
  apply pad_unique; try lia. apply mod_add_0; auto. now apply pad_mult.
Qed.
Lemma mod_trans x a b : 0 < a -> (a | b) -> 0 < b -> x mod b = 0 -> x mod a = 0.
Proof.
  intros Ha [k ->] Hb H. apply Z.mod_divide; [lia|].
  apply Z.mod_divide in H; [|lia]. apply Z.divide_trans with (k * a); auto. now exists k.
Qed.
Lemma pad_mult_dvd x a b : 0 < a -> 0 < b -> (a | b) -> pad x b mod a = 0.
Proof. intros. apply mod_trans with b; auto. now apply pad_mult. Qed.
Lemma pad_pad x a b : 0 < a -> 0 < b -> (a | b) -> pad (pad x a) b = pad x b.
Proof.
  intros. apply pad_unique; auto.
  - now apply pad_mult.
  - apply pad_le; auto. now apply pad_mult_dvd. now apply pad_ge.
  - pose proof (pad_lt x b). pose proof (pad_ge x a). lia.
Qed.
Lemma pad_le_dvd x a b : 0 < a -> 0 < b -> (a | b) -> pad x a <= pad x b.
Proof. intros. apply pad_le; auto. now apply pad_mult_dvd. now apply pad_ge. Qed.

(** The bit-level padding of src/helper/valid_size.rs. *)
Lemma usize_not_pow2 k : 0 <= k <= 63 -> usize_not (2 ^ k - 1) = 2 ^ 64 - 2 ^ k.
Proof.
  intros. unfold usize_not. rewrite usize_max_eq, Z.lxor_comm.
  replace (2 ^ 64 - 1) with (Z.ones 64) by reflexivity.
  replace (2 ^ k - 1) with (Z.ones k) by (rewrite Z.ones_equiv; lia).
  apply Z.bits_inj'; intros n Hn.
  rewrite Z.lxor_spec.
  replace (2 ^ 64 - 2 ^ k) with (Z.shiftl (Z.ones (64 - k)) k).
  2:{ rewrite Z.shiftl_mul_pow2, Z.ones_equiv by lia.
      rewrite <- Z.sub_1_r, Z.mul_sub_distr_r, <- Z.pow_add_r by lia.
      replace (64 - k + k) with 64 by lia. lia. }
  rewrite Z.shiftl_spec by lia.
  destruct (Z.ltb_spec n k).
  - rewrite (Z.ones_spec_low k) by lia. rewrite (Z.ones_spec_low 64) by lia.
    rewrite Z.testbit_neg_r by lia. reflexivity.
  - rewrite (Z.ones_spec_high k) by lia.
    destruct (Z.ltb_spec n 64).
    + rewrite !Z.ones_spec_low by lia. reflexivity.
    + rewrite !Z.ones_spec_high by lia. reflexivity.
Qed.

Lemma land_not_low s k : 0 <= k <= 63 -> 0 <= s < 2 ^ 64 ->
  Z.land s (2 ^ 64 - 2 ^ k) = (s / 2 ^ k) * 2 ^ k.
Proof.
  intros. rewrite <- Z.shiftr_div_pow2, <- Z.shiftl_mul_pow2 by lia.
  replace (2 ^ 64 - 2 ^ k) with (Z.shiftl (Z.ones (64 - k)) k).
  2:{ rewrite Z.shiftl_mul_pow2, Z.ones_equiv by lia.
      rewrite <- Z.sub_1_r, Z.mul_sub_distr_r, <- Z.pow_add_r by lia.
      replace (64 - k + k) with 64 by lia. lia. }
  apply Z.bits_inj'; intros n Hn.
  rewrite Z.land_spec, !Z.shiftl_spec by lia.
  destruct (Z.ltb_spec n k).
  - rewrite !(Z.testbit_neg_r _ (n - k)) by lia. apply andb_false_r.
  - rewrite Z.shiftr_spec by lia. replace (n - k + k) with n by lia.
    destruct (Z.ltb_spec n 64).
    + rewrite Z.ones_spec_low by lia. apply andb_true_r.
    + rewrite Z.ones_spec_high by lia. rewrite andb_false_r.
      destruct (Z.eq_dec s 0) as [->|]; [now rewrite Z.bits_0|].
      symmetry; apply Z.bits_above_log2; [lia|].
      apply Z.log2_lt_pow2; [lia|]. apply Z.lt_le_trans with (2 ^ 64); [lia|].
      apply Z.pow_le_mono_r; lia.
Qed.

Lemma land_pad x a : pow2 a -> 0 <= x -> x + (a - 1) <= usize_max ->
  Z.land (x + (a - 1)) (usize_not (a - 1)) = pad x a.
Proof.
  intros (k & Hk & ->) Hx Hs.
  rewrite usize_not_pow2 by auto. rewrite land_not_low; auto.
  - unfold pad. f_equal. f_equal. lia.
  - pose proof (Z.pow_pos_nonneg 2 k). change (2^64) with (usize_max + 1). lia.
Qed.

Lemma checked_pad_to_spec x a : pow2 a -> 0 <= x <= isize_max ->
  checked_pad_to x a = if pad x a <=? isize_max then Some (pad x a) else None.
Proof.
  intros Ha Hx. unfold checked_pad_to, minus_1, vs_new, vs_max.
  pose proof (pow2_max a Ha). rewrite land_pad by (auto; lia). now replace (isize_max - (1 - 1)) with isize_max.
Qed.

Lemma unchecked_pad_to_spec x a w : pow2 a -> 0 <= x -> pad x a <= isize_max ->
  unchecked_pad_to x a w = (Ok (pad x a), w).
Proof.
  intros Ha Hx Hp. pose proof (pow2_max a Ha). pose proof (pow2_pos a Ha).
  pose proof (pad_ge x a ltac:(lia)).
  unfold unchecked_pad_to, minus_1, bind, uadd.
  destruct (Z.leb_spec (x + (a - 1)) usize_max); [|lia]. unfold ret at 1.
  rewrite land_pad by (auto; lia). unfold vs_new_unchecked, vs_max.
  destruct (Z.leb_spec (pad x a) (isize_max - (1 - 1))); [reflexivity|lia].
Qed.

Lemma new_padded_to_spec x a : pow2 a -> 0 <= x ->
  new_padded_to x a = if pad x a <=? isize_max then Some (pad x a) else None.
Proof.
  intros Ha Hx. pose proof (pow2_max a Ha). pose proof (pow2_pos a Ha). pose proof (pad_ge x a ltac:(lia)).
  pose proof (pad_lt x a ltac:(lia)).
  unfold new_padded_to, minus_1, vs_new, vs_max.
  destruct (Z.leb_spec (x + (a - 1)) usize_max).
  - rewrite land_pad by (auto; lia). now replace (isize_max - (1 - 1)) with isize_max.
  - destruct (Z.leb_spec (pad x a) isize_max); auto; lia.
Qed.

Lemma checked_add_pad_spec x y a : pow2 a -> 0 <= x -> 0 <= y ->
  checked_add_pad x y a = if pad (x + y) a <=? isize_max then Some (pad (x + y) a) else None.
Proof.
  intros Ha Hx Hy. unfold checked_add_pad. pose proof (pad_ge (x + y) a (pow2_pos a Ha)).
  destruct (Z.leb_spec (x + y) usize_max).
  - apply new_padded_to_spec; auto; lia.
  - destruct (Z.leb_spec (pad (x + y) a) isize_max); auto; lia.
Qed.

(** A multiple of the alignment that is at most [isize::MAX] respects the stricter bound of layouts. *)
Lemma mult_le_max x a : pow2 a -> x mod a = 0 -> x <= isize_max -> x <= isize_max - (a - 1).
Proof.
  intros (k & Hk & ->) Hm Hx.
  assert (P : 0 < 2 ^ k) by (apply Z.pow_pos_nonneg; lia).
  assert (E : 2 ^ 63 = 2 ^ (63 - k) * 2 ^ k) by (rewrite <- Z.pow_add_r by lia; f_equal; lia).
  destruct (div_mod_ x (2 ^ k) P) as [D _]. rewrite Hm in D. rewrite isize_max_eq in *.
  assert (x / 2 ^ k < 2 ^ (63 - k)) by nia. nia.
Qed.

(** [is_power_of_two] is exact. *)
Lemma is_power_of_two_pow2 a : pow2 a -> is_power_of_two a = true.
Proof.
  intros (k & Hk & ->). unfold is_power_of_two.
  assert (P : 0 < 2 ^ k) by (apply Z.pow_pos_nonneg; lia).
  apply andb_true_intro; split; [apply Z.ltb_lt; auto|]. apply Z.eqb_eq.
  replace (2 ^ k - 1) with (Z.ones k) by (rewrite Z.ones_equiv; lia).
  rewrite Z.land_ones by lia. apply Z.mod_same; lia.
Qed.
Lemma pow2_of_is_power a : 0 <= a <= usize_max -> is_power_of_two a = true -> pow2 a.
Proof.
  intros Ha H. unfold is_power_of_two in H. apply andb_prop in H as [H1 H2].
  apply Z.ltb_lt in H1. apply Z.eqb_eq in H2.
  exists (Z.log2 a).
  assert (L : 0 <= Z.log2 a <= 63).
  { split; [apply Z.log2_nonneg|]. assert (Z.log2 a < 64); [|lia].
    apply Z.log2_lt_pow2; auto. change (2^64) with (usize_max + 1). lia. }
  split; auto.
  destruct (Z.log2_spec a H1) as [Hlo Hhi].
  destruct (Z.eq_dec a (2 ^ Z.log2 a)) as [|N]; auto. exfalso.
  assert (B : Z.testbit a (Z.log2 a) = true) by (apply Z.bit_log2; auto).
  assert (B' : Z.testbit (a - 1) (Z.log2 a) = true).
  { replace (Z.log2 a) with (Z.log2 (a - 1)). apply Z.bit_log2; pose proof (Z.pow_pos_nonneg 2 (Z.log2 a)); lia.
    apply Z.log2_unique; [lia|]. rewrite <- Z.add_1_r in Hhi. rewrite Z.add_1_r in *. lia. }
  assert (Z.testbit (Z.land a (a - 1)) (Z.log2 a) = true) by (rewrite Z.land_spec, B, B'; auto).
  rewrite H2, Z.bits_0 in H. discriminate.
Qed.
