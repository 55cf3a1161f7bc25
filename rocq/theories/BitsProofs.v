(** Lemmas about the bits.h model. *)
From Verif Require Import Lib BitsModel BitsSpec.
Local Open Scope Z_scope.

(* ------------------------------------------------------------------ *)
(** generic bit facts *)

Lemma wrap_small W x : word W x -> wrap W x = x.
Proof. intros H. apply Z.mod_small. exact H. Qed.

Lemma wrap_word W x : 0 <= W -> word W (wrap W x).
Proof. intros H. apply Z.mod_pos_bound. now apply Z.pow_pos_nonneg. Qed.

Lemma width_pos k : 0 < width k.
Proof. apply Z.pow_pos_nonneg; lia. Qed.

Lemma wrap_testbit W x i : 0 <= W -> 0 <= i -> Z.testbit (wrap W x) i = (i <? W) && Z.testbit x i.
Proof.
  intros HW Hi. unfold wrap. destruct (Z.ltb_spec i W).
  - now rewrite Z.mod_pow2_bits_low by lia.
  - now rewrite Z.mod_pow2_bits_high by lia.
Qed.

Lemma word_testbit W x i : word W x -> 0 <= W -> W <= i -> Z.testbit x i = false.
Proof.
  intros H HW Hi. rewrite <- (wrap_small W x H). rewrite wrap_testbit by lia.
  destruct (Z.ltb_spec i W); [lia|reflexivity].
Qed.

Lemma word_of_bits W x : 0 <= W -> (forall i, W <= i -> Z.testbit x i = false) -> word W x.
Proof.
  intros HW H. replace x with (wrap W x); [now apply wrap_word|].
  apply Z.bits_inj'. intros i Hi. rewrite wrap_testbit by lia.
  destruct (Z.ltb_spec i W); [reflexivity|]. now rewrite H.
Qed.

Lemma split_pow2 x : 0 < x -> exists a m, 0 <= a /\ 0 <= m /\ x = 2 ^ a * (2 * m + 1).
Proof.
  intros H. destruct x as [|p|p]; [lia| |lia]. clear H. induction p as [p IH|p IH|].
  - exists 0, (Zpos p). rewrite Z.pow_0_r. lia.
  - destruct IH as (a & m & Ha & Hm & E). exists (a + 1), m. rewrite Z.pow_add_r by lia.
    change (2 ^ 1) with 2. lia.
  - exists 0, 0. cbn. lia.
Qed.

Lemma odd_land_opp m : Z.land (2 * m + 1) (- (2 * m + 1)) = 1.
Proof.
  replace (- (2 * m + 1)) with (2 * (- m - 1) + 1) by lia.
  apply Z.bits_inj'. intros i Hi. rewrite Z.land_spec.
  destruct (Z.eq_dec i 0) as [->|N]; [now rewrite !Z.testbit_odd_0|].
  replace i with (Z.succ (i - 1)) by lia. rewrite !Z.testbit_odd_succ by lia.
  replace (- m - 1) with (Z.lnot m) by (unfold Z.lnot; lia). rewrite Z.lnot_spec by lia.
  change 1 with (2 * 0 + 1) at 3. rewrite Z.testbit_odd_succ by lia. rewrite Z.testbit_0_l.
  now destruct (Z.testbit m (i - 1)).
Qed.

Lemma land_opp a m : 0 <= a -> Z.land (2 ^ a * (2 * m + 1)) (- (2 ^ a * (2 * m + 1))) = 2 ^ a.
Proof.
  intros Ha. replace (- (2 ^ a * (2 * m + 1))) with ((- (2 * m + 1)) * 2 ^ a) by ring.
  rewrite (Z.mul_comm (2 ^ a)). rewrite <- !Z.shiftl_mul_pow2 by lia.
  rewrite <- Z.shiftl_land, odd_land_opp. rewrite Z.shiftl_mul_pow2 by lia. lia.
Qed.

Lemma neg_opp W x : 0 <= W -> neg W x = wrap W (- x).
Proof.
  intros HW. unfold neg, wrap. rewrite Z.add_mod_idemp_l.
  - f_equal. unfold Z.lnot. lia.
  - apply Z.pow_nonzero; lia.
Qed.

Lemma land_wrap_r W x y : 0 <= W -> word W x -> Z.land x (wrap W y) = Z.land x y.
Proof.
  intros HW Hx. apply Z.bits_inj'. intros i Hi. rewrite !Z.land_spec, wrap_testbit by lia.
  destruct (Z.ltb_spec i W); [reflexivity|]. now rewrite (word_testbit W x i).
Qed.

Lemma lo_bit_spec W a m : 0 <= W -> word W (2 ^ a * (2 * m + 1)) -> 0 <= a -> 
  lo_bit W (2 ^ a * (2 * m + 1)) = 2 ^ a.
Proof.
  intros HW Hx Ha. unfold lo_bit. rewrite neg_opp, land_wrap_r by assumption. now apply land_opp.
Qed.

Lemma lo_bit_0 W : 0 <= W -> lo_bit W 0 = 0.
Proof. intros. unfold lo_bit. apply Z.land_0_l. Qed.

Lemma testbit_high x i n : 0 <= x < 2 ^ n -> 0 <= n -> n <= i -> Z.testbit x i = false.
Proof. intros H Hn Hi. now apply (word_testbit n). Qed.

Lemma lowest_spec a m : 0 <= a -> 0 <= m -> lowest (2 ^ a * (2 * m + 1)) a.
Proof.
  intros Ha Hm. rewrite Z.mul_comm. split; [exact Ha|]. split.
  - rewrite Z.mul_pow2_bits by lia. rewrite Z.sub_diag. apply Z.testbit_odd_0.
  - intros j Hj. apply Z.mul_pow2_bits_low. lia.
Qed.

Lemma lowest_unique x i j : lowest x i -> lowest x j -> i = j.
Proof.
  intros (I0 & I1 & I2) (J0 & J1 & J2). destruct (Z.lt_trichotomy i j) as [H|[H|H]]; [|exact H|].
  - rewrite J2 in I1 by lia. discriminate.
  - rewrite I2 in J1 by lia. discriminate.
Qed.

Lemma highest_unique x i j : highest x i -> highest x j -> i = j.
Proof.
  intros (I0 & I1 & I2) (J0 & J1 & J2). destruct (Z.lt_trichotomy i j) as [H|[H|H]]; [|exact H|].
  - rewrite I2 in J1 by lia. discriminate.
  - rewrite J2 in I1 by lia. discriminate.
Qed.

Lemma highest_log2 x : 0 < x -> highest x (Z.log2 x).
Proof.
  intros H. split; [apply Z.log2_nonneg|]. split; [now apply Z.bit_log2|].
  intros j Hj. apply Z.bits_above_log2; lia.
Qed.

(* ------------------------------------------------------------------ *)
(** or_down *)

Lemma or_down_bits k x i : 0 <= i ->
  (Z.testbit (or_down k x) i = true <-> exists j, i <= j < i + width k /\ Z.testbit x j = true).
Proof.
  revert x i. induction k as [|k IH]; intros x i Hi; cbn [or_down].
  - unfold width. cbn. split.
    + intros H. exists i. split; [lia|exact H].
    + intros (j & Hj & H). now replace i with j by lia.
  - rewrite IH by lia. unfold width. rewrite Nat2Z.inj_succ, Z.pow_succ_r by lia.
    assert (0 < 2 ^ Z.of_nat k) by (apply Z.pow_pos_nonneg; lia).
    split.
    + intros (j & Hj & H0). rewrite Z.lor_spec in H0. apply orb_true_iff in H0 as [H0|H0].
      * exists j. split; [lia|exact H0].
      * rewrite Z.shiftr_spec in H0 by lia. exists (j + 2 ^ Z.of_nat k). split; [lia|exact H0].
    + intros (j & Hj & H0). destruct (Z.lt_ge_cases j (i + 2 ^ Z.of_nat k)).
      * exists j. split; [lia|]. rewrite Z.lor_spec, H0. reflexivity.
      * exists (j - 2 ^ Z.of_nat k). split; [lia|]. rewrite Z.lor_spec, Z.shiftr_spec by lia.
        replace (j - 2 ^ Z.of_nat k + 2 ^ Z.of_nat k) with j by lia. rewrite H0. apply orb_true_r.
Qed.

Lemma or_down_0 k : or_down k 0 = 0.
Proof. induction k as [|k IH]; cbn [or_down]; [reflexivity|]. now rewrite Z.shiftr_0_l. Qed.

(** or_down sets every bit from the highest one bit down *)
Lemma or_down_highest k x h : word (width k) x -> highest x h -> or_down k x = 2 ^ (h + 1) - 1.
Proof.
  intros Hx (H0 & H1 & H2). pose proof (width_pos k).
  assert (Hh : h < width k).
  { destruct (Z.lt_ge_cases h (width k)) as [L|L]; [exact L|].
    rewrite (word_testbit (width k) x h) in H1; [discriminate|exact Hx|lia|exact L]. }
  rewrite Z.sub_1_r, <- (Z.ones_equiv (h + 1)). apply Z.bits_inj'. intros i Hi.
  destruct (Z.testbit (or_down k x) i) eqn:E.
  - apply or_down_bits in E as (j & Hj & E); [|exact Hi].
    destruct (Z.le_gt_cases i h); [now rewrite Z.ones_spec_low by lia|].
    rewrite H2 in E by lia. discriminate.
  - destruct (Z.le_gt_cases i h) as [L|L]; [|now rewrite Z.ones_spec_high by lia].
    exfalso. assert (Z.testbit (or_down k x) i = true); [|congruence].
    apply or_down_bits; [exact Hi|]. exists h. split; [lia|exact H1].
Qed.

Lemma or_down_log2 k x : word (width k) x -> 0 < x -> or_down k x = 2 ^ (Z.log2 x + 1) - 1.
Proof. intros Hx H. apply or_down_highest; [exact Hx|now apply highest_log2]. Qed.

Lemma lxor_ones_half h : 0 <= h -> Z.lxor (2 ^ (h + 1) - 1) (Z.shiftr (2 ^ (h + 1) - 1) 1) = 2 ^ h.
Proof.
  intros Hh. apply Z.bits_inj'. intros i Hi.
  rewrite Z.lxor_spec, Z.shiftr_spec by lia. rewrite Z.sub_1_r, <- (Z.ones_equiv (h + 1)), Z.pow2_bits_eqb by lia.
  destruct (Z.lt_trichotomy i h) as [L|[->|L]].
  - rewrite !Z.ones_spec_low by lia. destruct (Z.eqb_spec h i); [lia|reflexivity].
  - rewrite Z.ones_spec_low, Z.ones_spec_high by lia. now rewrite Z.eqb_refl.
  - rewrite !Z.ones_spec_high by lia. destruct (Z.eqb_spec h i); [lia|reflexivity].
Qed.

Lemma hi_bit_highest k x h : word (width k) x -> highest x h -> hi_bit k x = 2 ^ h.
Proof.
  intros Hx Hh. unfold hi_bit. cbv zeta. rewrite (or_down_highest k x h Hx Hh).
  apply lxor_ones_half. apply Hh.
Qed.

Lemma hi_bit_0 k : hi_bit k 0 = 0.
Proof. unfold hi_bit. rewrite or_down_0. reflexivity. Qed.

(** is_pow2 *)
Lemma is_pow2_land x : 0 < x -> (Z.land x (x - 1) = 0 <-> exists i, 0 <= i /\ x = 2 ^ i).
Proof.
  intros H. split.
  - intros E. exists (Z.log2 x). split; [apply Z.log2_nonneg|].
    pose proof (highest_log2 x H) as (H0 & H1 & H2). pose proof (Z.log2_spec x H) as [L U].
    destruct (Z.eq_dec x (2 ^ Z.log2 x)) as [E1|N]; [exact E1|]. exfalso.
    assert (B : Z.testbit (Z.land x (x - 1)) (Z.log2 x) = true); [|now rewrite E, Z.testbit_0_l in B].
    rewrite Z.land_spec, H1. cbn [andb].
    assert (Z.log2 (x - 1) = Z.log2 x) as <- by (apply Z.log2_unique; lia).
    apply Z.bit_log2. assert (0 < 2 ^ Z.log2 x) by (apply Z.pow_pos_nonneg; lia). lia.
  - intros (i & Hi & ->). rewrite Z.sub_1_r, <- Z.ones_equiv.
    rewrite Z.land_ones by lia. apply Z.mod_same. apply Z.pow_nonzero; lia.
Qed.

(* ------------------------------------------------------------------ *)
(** Gray code *)

Lemma shiftr_shiftr' x a b : 0 <= a -> 0 <= b -> Z.shiftr (Z.shiftr x a) b = Z.shiftr x (a + b).
Proof. intros. now apply Z.shiftr_shiftr. Qed.

Lemma xor_down_lxor k x y : xor_down k (Z.lxor x y) = Z.lxor (xor_down k x) (xor_down k y).
Proof.
  revert x y. induction k as [|k IH]; intros x y; cbn [xor_down]; [reflexivity|].
  rewrite Z.shiftr_lxor. rewrite <- IH. f_equal.
  rewrite !Z.lxor_assoc. f_equal. rewrite <- !Z.lxor_assoc. f_equal. apply Z.lxor_comm.
Qed.

Lemma xor_down_shiftr k x n : 0 <= n -> xor_down k (Z.shiftr x n) = Z.shiftr (xor_down k x) n.
Proof.
  intros Hn. revert x. induction k as [|k IH]; intros x; cbn [xor_down]; [reflexivity|].
  rewrite <- IH. rewrite Z.shiftr_lxor. do 2 f_equal.
  assert (0 <= 2 ^ Z.of_nat k) by (apply Z.pow_nonneg; lia).
  rewrite !shiftr_shiftr' by lia. f_equal. lia.
Qed.

Lemma xor_down_gray k x : xor_down k (Z.lxor x (Z.shiftr x 1)) = Z.lxor x (Z.shiftr x (width k)).
Proof.
  revert x. induction k as [|k IH]; intros x; cbn [xor_down]; [reflexivity|].
  rewrite xor_down_lxor, xor_down_shiftr by (apply Z.pow_nonneg; lia). rewrite IH.
  unfold width. rewrite Nat2Z.inj_succ, Z.pow_succ_r by lia.
  assert (0 <= 2 ^ Z.of_nat k) by (apply Z.pow_nonneg; lia).
  rewrite Z.shiftr_lxor, shiftr_shiftr' by lia. rewrite Z.lxor_assoc. f_equal.
  rewrite <- Z.lxor_assoc, Z.lxor_nilpotent, Z.lxor_0_l. f_equal. lia.
Qed.

Lemma shiftr_word W x : 0 <= W -> word W x -> Z.shiftr x W = 0.
Proof. intros HW H. rewrite Z.shiftr_div_pow2 by lia. apply Z.div_small. exact H. Qed.

Lemma gray_bin k x : word (width k) x -> gray_to_bin k (bin_to_gray x) = x.
Proof.
  intros H. unfold gray_to_bin, bin_to_gray. rewrite xor_down_gray. rewrite shiftr_word.
  - apply Z.lxor_0_r.
  - pose proof (width_pos k). lia.
  - exact H.
Qed.

Lemma bin_gray k x : word (width k) x -> bin_to_gray (gray_to_bin k x) = x.
Proof.
  intros H. rewrite <- (gray_bin k x H) at 2. unfold gray_to_bin, bin_to_gray.
  rewrite xor_down_lxor, xor_down_shiftr by lia. reflexivity.
Qed.

Lemma lxor_word W x y : 0 <= W -> word W x -> word W y -> word W (Z.lxor x y).
Proof.
  intros HW Hx Hy. apply word_of_bits; [exact HW|]. intros i Hi.
  rewrite Z.lxor_spec, (word_testbit W x), (word_testbit W y) by assumption. reflexivity.
Qed.

Lemma shiftr_word_word W x n : 0 <= W -> 0 <= n -> word W x -> word W (Z.shiftr x n).
Proof.
  intros HW Hn Hx. apply word_of_bits; [exact HW|]. intros i Hi.
  rewrite Z.shiftr_spec by lia. apply (word_testbit W); [exact Hx|exact HW|lia].
Qed.

Lemma bin_to_gray_word W x : 0 <= W -> word W x -> word W (bin_to_gray x).
Proof. intros. unfold bin_to_gray. apply lxor_word; auto. apply shiftr_word_word; auto; lia. Qed.

Lemma xor_down_word W k x : 0 <= W -> word W x -> word W (xor_down k x).
Proof.
  intros HW. revert x. induction k as [|k IH]; intros x Hx; cbn [xor_down]; [exact Hx|].
  apply IH, lxor_word; auto. apply shiftr_word_word; auto. apply Z.pow_nonneg; lia.
Qed.

(** x xor (x+1) is a run of ones *)
Lemma lxor_succ x : 0 <= x -> exists a, 0 <= a /\ 2 ^ a <= x + 1 /\ Z.lxor x (x + 1) = 2 ^ (a + 1) - 1.
Proof.
  intros H. destruct (split_pow2 (x + 1)) as (a & m & Ha & Hm & E); [lia|].
  exists a. split; [exact Ha|].
  assert (P : 0 < 2 ^ a) by (apply Z.pow_pos_nonneg; lia).
  split; [nia|].
  assert (Ex : x = m * 2 ^ (a + 1) + Z.ones a).
  { rewrite Z.ones_equiv, <- Z.sub_1_r, Z.pow_add_r by lia. change (2 ^ 1) with 2. lia. }
  assert (Ey : x + 1 = m * 2 ^ (a + 1) + 2 ^ a).
  { rewrite Z.pow_add_r by lia. change (2 ^ 1) with 2. lia. }
  rewrite Ey. rewrite Ex at 1. clear E Ex Ey.
  rewrite Z.sub_1_r, <- Z.ones_equiv.
  assert (L : forall r, 0 <= r < 2 ^ (a + 1) -> m * 2 ^ (a + 1) + r = Z.lor (Z.shiftl m (a + 1)) r).
  { intros r Hr. rewrite <- Z.shiftl_mul_pow2 by lia.
    rewrite <- Z.lxor_lor; [apply Z.add_nocarry_lxor|]; apply Z.bits_inj'; intros i Hi;
      rewrite Z.land_spec, Z.testbit_0_l; destruct (Z.lt_ge_cases i (a + 1)).
    - now rewrite Z.shiftl_spec_low by lia.
    - rewrite (testbit_high r i (a + 1)) by lia. apply andb_false_r.
    - now rewrite Z.shiftl_spec_low by lia.
    - rewrite (testbit_high r i (a + 1)) by lia. apply andb_false_r. }
  assert (2 ^ (a + 1) = 2 * 2 ^ a) by (rewrite Z.pow_add_r by lia; change (2 ^ 1) with 2; lia).
  assert (Eo : Z.ones a = 2 ^ a - 1) by (rewrite Z.ones_equiv; lia).
  rewrite !L by lia.
  apply Z.bits_inj'. intros i Hi. rewrite Z.lxor_spec, !Z.lor_spec, Z.pow2_bits_eqb by lia.
  destruct (Z.lt_trichotomy i a) as [C|[->|C]].
  - rewrite Z.shiftl_spec_low, !Z.ones_spec_low by lia. destruct (Z.eqb_spec a i); [lia|reflexivity].
  - rewrite Z.shiftl_spec_low, Z.ones_spec_high, Z.ones_spec_low by lia. now rewrite Z.eqb_refl.
  - rewrite (Z.ones_spec_high a), (Z.ones_spec_high (a + 1)) by lia. destruct (Z.eqb_spec a i); [lia|].
    now destruct (Z.testbit (Z.shiftl m (a + 1)) i).
Qed.

Lemma gray_adjacent x : 0 <= x -> exists i, 0 <= i /\ 2 ^ i <= x + 1 /\
  Z.lxor (bin_to_gray x) (bin_to_gray (x + 1)) = 2 ^ i.
Proof.
  intros H. destruct (lxor_succ x H) as (a & Ha & L & E). exists a. split; [exact Ha|]. split; [exact L|].
  unfold bin_to_gray.
  transitivity (Z.lxor (Z.lxor x (x + 1)) (Z.shiftr (Z.lxor x (x + 1)) 1)).
  - rewrite Z.shiftr_lxor. rewrite !Z.lxor_assoc. f_equal. rewrite <- !Z.lxor_assoc. f_equal. apply Z.lxor_comm.
  - rewrite E. now apply lxor_ones_half.
Qed.
