(** C09-C12, C71: bits.h. [word_type k] says that the word has 8, 16, 32 or 64 bits,
    [width k] = 2^k is its number of bits. *)
From Verif Require Import Lib BitsModel BitsSpec BitsProofs BitsProofs2 BitsProofs3.
Local Open Scope Z_scope.

(* ---------------- C09 ---------------- *)
Theorem C09_gray_code :
  forall k x, word (width k) x ->
    word (width k) (bin_to_gray x) /\ word (width k) (gray_to_bin k x) /\
    gray_to_bin k (bin_to_gray x) = x /\ bin_to_gray (gray_to_bin k x) = x /\
    (x + 1 < 2 ^ width k -> exists i, 0 <= i < width k /\ Z.lxor (bin_to_gray x) (bin_to_gray (x + 1)) = 2 ^ i).
Proof.
  intros k x Hx. pose proof (width_pos k).
  split; [apply bin_to_gray_word; [lia|exact Hx]|]. split; [apply xor_down_word; [lia|exact Hx]|].
  split; [now apply gray_bin|]. split; [now apply bin_gray|].
  intros H1. destruct (gray_adjacent x) as (i & Hi & Hl & E); [apply Hx|]. exists i. split; [|exact E].
  split; [exact Hi|]. apply (Z.pow_lt_mono_r_iff 2); lia.
Qed.
Example C09_case : word (width 3) 177 /\ bin_to_gray 177 = 233 /\ gray_to_bin 3 233 = 177 /\
  Z.lxor (bin_to_gray 177) (bin_to_gray 178) = 2 ^ 1.
Proof. unfold word, width. cbn. lia. Qed.
Print Assumptions C09_gray_code.

(* ---------------- C10 ---------------- *)
Theorem C10_highest_bit :
  forall k x h, word_type k -> word (width k) x -> highest x h ->
    hi_bit k x = 2 ^ h /\
    (forall i, 0 <= i -> Z.testbit (or_down k x) i = (i <=? h)) /\
    lzc k x = Some (width k - 1 - h) /\
    ilog2 k x = Some h /\
    next_pow2 k x = if h =? width k - 1 then 0 else 2 ^ (h + 1).
Proof.
  intros k x h Hk Hx Hh. pose proof (width_pos k).
  assert (Hlt : h < width k) by (apply (highest_lt_width _ x); [lia|exact Hx|exact Hh]).
  pose proof (proj1 Hh) as H0.
  split; [now apply hi_bit_highest|]. split.
  { intros i Hi. rewrite (or_down_highest k x h Hx Hh), Z.sub_1_r, <- Z.ones_equiv.
    destruct (Z.leb_spec i h); [now rewrite Z.ones_spec_low by lia|now rewrite Z.ones_spec_high by lia]. }
  split; [now apply lzc_highest|]. split.
  { rewrite ilog2_spec by assumption. f_equal. eapply highest_unique; [|exact Hh]. apply highest_log2.
    destruct (Z.eq_dec x 0) as [->|N]; [|unfold word in Hx; lia].
    destruct Hh as (_ & Hh & _). now rewrite Z.testbit_0_l in Hh. }
  unfold next_pow2. rewrite (or_down_highest k x h Hx Hh). replace (2 ^ (h + 1) - 1 + 1) with (2 ^ (h + 1)) by lia.
  destruct (Z.eqb_spec h (width k - 1)) as [E|E].
  - unfold wrap. replace (h + 1) with (width k) by lia. apply Z.mod_same. apply Z.pow_nonzero; lia.
  - apply wrap_small, pow2_word. lia.
Qed.
Print Assumptions C10_highest_bit.

Theorem C10_lowest_bit :
  forall k x l, word_type k -> word (width k) x -> lowest x l ->
    lo_bit (width k) x = 2 ^ l /\ tzc k x = Some l.
Proof.
  intros k x l Hk Hx Hl. pose proof (width_pos k). split; [apply lo_bit_lowest; [lia|exact Hx|exact Hl]|now apply tzc_lowest].
Qed.
Print Assumptions C10_lowest_bit.

(** every non-zero word has a highest and a lowest bit; zero is the special value of each function *)
Theorem C10_zero_and_total :
  forall k, word_type k ->
    hi_bit k 0 = 0 /\ lo_bit (width k) 0 = 0 /\ or_down k 0 = 0 /\ next_pow2 k 0 = 1 /\
    lzc k 0 = Some (width k) /\ tzc k 0 = Some (width k) /\ ilog2 k 0 = Some 0 /\
    (forall x, word (width k) x -> x <> 0 -> (exists h, highest x h) /\ (exists l, lowest x l)).
Proof.
  intros k Hk. pose proof (width_pos k).
  assert (W0 : word (width k) 0) by (split; [lia|apply Z.pow_pos_nonneg; lia]).
  split; [apply hi_bit_0|]. split; [apply lo_bit_0; lia|]. split; [apply or_down_0|]. split.
  { unfold next_pow2. rewrite or_down_0. apply wrap_small. apply (pow2_word (width k) 0). lia. }
  split; [now apply lzc_0|]. split; [now apply tzc_0|]. split; [now rewrite ilog2_spec|].
  intros x Hx N. assert (0 < x) by (unfold word in Hx; lia). split.
  - exists (Z.log2 x). now apply highest_log2.
  - destruct (split_pow2 x) as (a & m & Ha & Hm & ->); [assumption|]. exists a. now apply lowest_spec.
Qed.
Print Assumptions C10_zero_and_total.

Theorem C10_popcount_and_pow2 :
  forall k x, word_type k -> word (width k) x ->
    bit_cnt1 k x = Some (popcount (width k) x) /\
    (is_pow2 (width k) x = true <-> x = 0 \/ exists i, 0 <= i /\ x = 2 ^ i) /\
    is_not_pow2 (width k) x = negb (is_pow2 (width k) x) /\
    (* next_pow2: the least power of two above x (0 when that does not fit) *)
    (forall i, 0 <= i < width k -> x < 2 ^ i ->
       x < next_pow2 k x <= 2 ^ i /\ exists j, 0 <= j /\ next_pow2 k x = 2 ^ j).
Proof.
  intros k x Hk Hx. pose proof (width_pos k). split; [now apply bit_cnt1_spec|]. split; [|split].
  - unfold is_pow2. rewrite Z.eqb_eq, land_wrap_r by (lia || exact Hx).
    destruct (Z.eq_dec x 0) as [->|N]; [rewrite Z.land_0_l; intuition|].
    rewrite is_pow2_land by (unfold word in Hx; lia). intuition.
  - reflexivity.
  - intros i Hi L. destruct (Z.eq_dec x 0) as [->|N].
    + assert (E : next_pow2 k 0 = 1) by (apply C10_zero_and_total; exact Hk). rewrite E. split; [lia|].
      exists 0. split; [lia|reflexivity].
    + assert (P : 0 < x) by (unfold word in Hx; lia).
      pose proof (Z.log2_spec x P) as [L1 L2]. rewrite <- Z.add_1_r in L2.
      destruct (C10_highest_bit k x (Z.log2 x) Hk Hx (highest_log2 x P)) as (_ & _ & _ & _ & E).
      assert (B : Z.log2 x < i) by (now apply Z.log2_lt_pow2). pose proof (Z.log2_nonneg x).
      destruct (Z.eqb_spec (Z.log2 x) (width k - 1)); [lia|]. rewrite E. split.
      * split; [exact L2|]. apply Z.pow_le_mono_r; lia.
      * exists (Z.log2 x + 1). split; [lia|reflexivity].
Qed.
Example C10_case : word_type 4 /\ word (width 4) 0x5A40 /\ highest 0x5A40 14 /\ lowest 0x5A40 6 /\ popcount 16 0x5A40 = 5.
Proof.
  split; [unfold word_type; lia|]. split; [unfold word, width; cbn; lia|].
  split; [apply (highest_log2 0x5A40); lia|]. split; [|reflexivity].
  apply (lowest_spec 6 180); lia.
Qed.
Print Assumptions C10_popcount_and_pow2.

(* ---------------- C11 ---------------- *)
Theorem C11_bit_reverse :
  forall k x, word_type k -> word (width k) x ->
    exists r, bit_reverse k x = Some r /\ word (width k) r /\
      (forall i, 0 <= i < width k -> Z.testbit r i = Z.testbit x (width k - 1 - i)) /\
      bit_reverse k r = Some x.
Proof.
  intros k x Hk Hx. pose proof (width_pos k). destruct (bit_reverse_spec k x Hk Hx) as (r & E & W & R). exists r.
  split; [exact E|]. split; [exact W|]. split; [exact R|].
  destruct (bit_reverse_spec k r Hk W) as (s & E2 & S). rewrite E2. f_equal.
  apply (is_rev_unique (width k) r); [lia|exact S|]. split; [exact Hx|].
  intros i Hi. rewrite R by lia. f_equal. lia.
Qed.
Example C11_case : word_type 3 /\ word (width 3) 0x35 /\ bit_reverse 3 0x35 = Some 0xAC.
Proof. split; [unfold word_type; lia|]. split; [unfold word, width; cbn; lia|vm_compute; reflexivity]. Qed.
Print Assumptions C11_bit_reverse.

(* ---------------- C12 ---------------- *)
Theorem C12_next_combination :
  forall k x size, word_type k -> 0 <= size < width k -> 0 < x < 2 ^ size ->
    exists y more, next_combination k x size = Some (y, more) /\
      0 <= y < 2 ^ size /\ popcount (width k) y = popcount (width k) x /\
      (* a successor was found: it is the least greater value with as many ones *)
      (more = true -> x < y /\
         forall z, x < z < 2 ^ size -> popcount (width k) z = popcount (width k) x -> y <= z) /\
      (* no successor exists: restart at the least value with as many ones *)
      (more = false ->
         (forall z, x < z < 2 ^ size -> popcount (width k) z <> popcount (width k) x) /\
         (forall z, 0 <= z < 2 ^ size -> popcount (width k) z = popcount (width k) x -> y <= z)).
Proof.
  intros k x size Hk Hs Hx. pose proof (width_pos k) as HW.
  destruct (run_decomp x) as (t & c & H & HH & Hc & Ex); [lia|].
  assert (P2k : 2 ^ size < 2 ^ width k) by (apply Z.pow_lt_mono_r; lia).
  assert (PT : 0 < 2 ^ Z.of_nat t) by (apply Z.pow_pos_nonneg; lia).
  assert (PC : 2 <= 2 ^ Z.of_nat c) by (apply (Z.pow_le_mono_r 2 1); lia).
  assert (PC' : 0 < 2 ^ Z.of_nat (c - 1)) by (apply Z.pow_pos_nonneg; lia).
  assert (PCC : 2 ^ Z.of_nat c = 2 * 2 ^ Z.of_nat (c - 1)) by (rewrite <- Z.pow_succ_r by lia; f_equal; lia).
  assert (HP : 0 < 2 ^ Z.of_nat (t + c + 1)) by (apply Z.pow_pos_nonneg; lia).
  assert (Etc : 2 ^ Z.of_nat (t + c) = 2 ^ Z.of_nat t * 2 ^ Z.of_nat c) by (rewrite Nat2Z.inj_add, Z.pow_add_r by lia; reflexivity).
  assert (Hsize : Z.of_nat (t + c) <= size).
  { rewrite Ex in Hx. apply (nc_size t c H); lia. }
  assert (HM : (t + c + 1 <= Z.to_nat (width k))%nat) by lia.
  pose proof (ones_x (Z.to_nat (width k)) t c H Hc HM) as Ox.
  pose proof (ones_y (Z.to_nat (width k)) t c H Hc HM) as Oy.
  pose proof (nc_min (Z.to_nat (width k)) t c H HH Hc HM) as Min.
  rewrite <- Ex in Ox, Min. rewrite width_nat in Min.
  destruct (next_combination_run k t c H size Hk HH Hc Hs) as [[LV E]|(H0 & Es & E)].
  { rewrite <- Ex. lia. }
  - rewrite <- Ex in E. do 2 eexists. split; [exact E|]. unfold popcount. split; [|split; [|split]].
    + now apply nc_y_bound.
    + rewrite Oy, Ox. reflexivity.
    + intros _. split; [|intros z Hz Ez; apply Min; [lia|exact Ez|lia]].
      rewrite Ex. apply (x_lt_y (Z.to_nat (width k)) t c H); assumption.
    + discriminate.
  - rewrite <- Ex in E. do 2 eexists. split; [exact E|]. unfold popcount.
    assert (Oc : ones (Z.to_nat (width k)) (2 ^ Z.of_nat c - 1) = Z.of_nat c) by (apply ones_ones; lia).
    assert (Oxc : ones (Z.to_nat (width k)) x = Z.of_nat c) by (rewrite Ox, H0, ones_0; lia).
    split; [|split; [|split]].
    + split; [lia|]. rewrite <- Es, Etc. clear - PT PC. nia.
    + now rewrite Oc, Oxc.
    + discriminate.
    + intros _. split.
      * intros z Hz Ez. assert (Hy := Min z (proj1 Hz) Ez). rewrite H0, <- Etc, Es in Hy. lia.
      * intros z Hz Ez. destruct (Z.le_gt_cases (2 ^ Z.of_nat c - 1) z) as [L|L]; [exact L|exfalso].
        rewrite Oxc in Ez. rewrite (ones_more c) in Ez by lia. apply ones_full in Ez; lia.
Qed.
(** 0 is outside the domain: the shift by tzc(0) = width is undefined *)
Theorem C12_zero_is_undefined : forall k size, word_type k -> next_combination k 0 size = None.
Proof.
  intros k size Hk. pose proof (width_pos k) as HW. unfold next_combination. cbv zeta.
  destruct (make_ones _ _) as [o|]; [|reflexivity]. cbn [obind]. rewrite tzc_0 by exact Hk. cbn [obind].
  unfold shr at 1. replace ((0 <=? width k) && (width k <? width k)) with false by lia. reflexivity.
Qed.
Example C12_case : popcount (width 3) 0x16 = 3 /\ popcount (width 3) 0x19 = 3 /\
  0 < 0x16 < 2 ^ 5 /\ 0 <= 5 < width 3.
Proof. unfold width. cbn. repeat split; lia. Qed.
Print Assumptions C12_next_combination.
Print Assumptions C12_zero_is_undefined.

(* ---------------- C71 ---------------- *)
Theorem C71_bit_editing :
  forall W x p, 0 < W -> word W x -> 0 <= p < W ->
    make_bit W p = Some (2 ^ p) /\
    make_ones W p = Some (2 ^ p - 1) /\
    get_bit W x p = Some (if Z.testbit x p then 1 else 0) /\
    (exists y, set_bit W x p = Some y /\ word W y /\
       forall i, 0 <= i -> Z.testbit y i = if i =? p then true else Z.testbit x i) /\
    (exists y, flip_bit W x p = Some y /\ word W y /\
       forall i, 0 <= i -> Z.testbit y i = if i =? p then negb (Z.testbit x i) else Z.testbit x i) /\
    (exists y, clear_bit W x p = Some y /\ word W y /\
       forall i, 0 <= i -> Z.testbit y i = if i =? p then false else Z.testbit x i) /\
    (1 < W -> exists y, erase_bit W x p = Some y /\ word W y /\
       forall i, 0 <= i -> Z.testbit y i = if i <? p then Z.testbit x i else Z.testbit x (i + 1)) /\
    (forall y m, word W y -> word W m ->
       word W (mix_bits W x y m) /\
       forall i, 0 <= i -> Z.testbit (mix_bits W x y m) i = if Z.testbit m i then Z.testbit y i else Z.testbit x i).
Proof.
  intros W x p HW Hx Hp.
  assert (Esh : shl W 1 p = Some (2 ^ p)).
  { unfold shl. replace ((0 <=? p) && (p <? W)) with true by lia. rewrite Z.shiftl_1_l.
    now rewrite wrap_small by (apply pow2_word; lia). }
  assert (Hi : forall i, W <= i -> Z.testbit x i = false) by (intros i Hi; apply (word_testbit W); [exact Hx|lia|exact Hi]).
  split; [exact Esh|]. split.
  { unfold make_ones, make_bit. rewrite Esh. cbn [obind]. now rewrite wrap_small by (apply ones_word; lia). }
  split.
  { unfold get_bit, shr. replace ((0 <=? p) && (p <? W)) with true by lia. cbn [obind].
    change 1 with (Z.ones 1) at 1. rewrite Z.land_ones by lia. change (2 ^ 1) with 2. f_equal.
    rewrite Zmod_odd, <- Z.bit0_odd, Z.shiftr_spec by lia. reflexivity. }
  split.
  { unfold set_bit. rewrite Esh. cbn [obind]. eexists. split; [reflexivity|].
    assert (B : forall i, 0 <= i -> Z.testbit (Z.lor x (2 ^ p)) i = if i =? p then true else Z.testbit x i).
    { intros i Hi0. rewrite Z.lor_spec, Z.pow2_bits_eqb, Z.eqb_sym by lia.
      destruct (i =? p); [apply orb_true_r|apply orb_false_r]. }
    split; [|exact B]. apply word_of_bits; [lia|]. intros i Hi0. rewrite B by lia.
    destruct (Z.eqb_spec i p); [lia|]. now apply Hi. }
  split.
  { unfold flip_bit. rewrite Esh. cbn [obind]. eexists. split; [reflexivity|].
    assert (B : forall i, 0 <= i -> Z.testbit (Z.lxor x (2 ^ p)) i = if i =? p then negb (Z.testbit x i) else Z.testbit x i).
    { intros i Hi0. rewrite Z.lxor_spec, Z.pow2_bits_eqb, Z.eqb_sym by lia.
      destruct (i =? p); [apply xorb_true_r|apply xorb_false_r]. }
    split; [|exact B]. apply word_of_bits; [lia|]. intros i Hi0. rewrite B by lia.
    destruct (Z.eqb_spec i p); [lia|]. now apply Hi. }
  split.
  { unfold clear_bit. rewrite Esh. cbn [obind]. eexists. split; [reflexivity|].
    assert (B : forall i, 0 <= i -> Z.testbit (Z.land x (bnot W (2 ^ p))) i = if i =? p then false else Z.testbit x i).
    { intros i Hi0. unfold bnot. rewrite Z.land_spec, wrap_testbit, Z.lnot_spec, Z.pow2_bits_eqb, (Z.eqb_sym p) by lia.
      destruct (Z.ltb_spec i W).
      - cbn [andb]. destruct (i =? p); [apply andb_false_r|apply andb_true_r].
      - rewrite Hi by lia. now destruct (i =? p). }
    split; [|exact B]. apply word_of_bits; [lia|]. intros i Hi0. rewrite B by lia.
    destruct (Z.eqb_spec i p); [reflexivity|]. now apply Hi. }
  split.
  { intros HW1. unfold erase_bit. rewrite Esh. cbn [obind]. unfold shr. replace ((0 <=? 1) && (1 <? W)) with true by lia.
    cbn [obind]. eexists. split; [reflexivity|]. rewrite (wrap_small W (2 ^ p - 1)) by (apply ones_word; lia).
    match goal with |- word W ?e /\ _ => assert (B : forall i, 0 <= i -> Z.testbit e i = if i <? p then Z.testbit x i else Z.testbit x (i + 1)) end.
    { intros i Hi0. unfold bnot. rewrite Z.lor_spec, !Z.land_spec, Z.shiftr_spec, wrap_testbit, Z.lnot_spec by lia.
      rewrite Z.sub_1_r, <- Z.ones_equiv. destruct (Z.ltb_spec i p).
      - rewrite Z.ones_spec_low by lia. cbn [negb]. rewrite !andb_false_r, andb_true_r. reflexivity.
      - rewrite Z.ones_spec_high by lia. cbn [negb]. rewrite andb_false_r, orb_false_r, andb_true_r.
        destruct (Z.ltb_spec i W); [apply andb_true_r|]. rewrite Hi by lia. reflexivity. }
    split; [|exact B]. apply word_of_bits; [lia|]. intros i Hi0. rewrite B by lia.
    destruct (Z.ltb_spec i p); apply Hi; lia. }
  intros y m Hy Hm.
  assert (B : forall i, 0 <= i -> Z.testbit (mix_bits W x y m) i = if Z.testbit m i then Z.testbit y i else Z.testbit x i).
  { intros i Hi0. unfold mix_bits, bnot. rewrite Z.lor_spec, !Z.land_spec, wrap_testbit, Z.lnot_spec by lia.
    destruct (Z.ltb_spec i W).
    - cbn [andb]. destruct (Z.testbit m i), (Z.testbit x i), (Z.testbit y i); reflexivity.
    - rewrite (word_testbit W m) by (assumption || lia). rewrite Hi by lia. now destruct (Z.testbit y i). }
  split; [|exact B]. apply word_of_bits; [lia|]. intros i Hi0. rewrite B by lia.
  rewrite (word_testbit W y) by (assumption || lia). rewrite Hi by lia. now destruct (Z.testbit m i).
Qed.
Print Assumptions C71_bit_editing.

(** sign_mag converts the two's complement word of v to sign and magnitude and back *)
Theorem C71_sign_mag :
  forall W v, 0 < W -> - 2 ^ (W - 1) < v < 2 ^ (W - 1) ->
    let x := v mod 2 ^ W in
    let y := Z.abs v + (if v <? 0 then 2 ^ (W - 1) else 0) in
    sign_mag W x = y /\ sign_mag W y = x.
Proof.
  intros W v HW Hv x y.
  assert (P : 0 < 2 ^ (W - 1)) by (apply Z.pow_pos_nonneg; lia).
  assert (E : 2 ^ W = 2 * 2 ^ (W - 1)) by (rewrite <- Z.pow_succ_r by lia; f_equal; lia).
  set (B := 2 ^ (W - 1)) in *.
  assert (G : forall z, 0 <= z < 2 * B -> Z.land z B = if z <? B then 0 else B).
  { intros z Hz. apply Z.bits_inj'. intros i Hi. unfold B at 1. rewrite Z.land_spec, Z.pow2_bits_eqb by lia.
    destruct (Z.ltb_spec z B) as [L|L].
    - rewrite Z.testbit_0_l. destruct (Z.eqb_spec (W - 1) i) as [<-|N]; [|apply andb_false_r].
      rewrite (testbit_high z (W - 1) (W - 1)) by (fold B; lia). reflexivity.
    - unfold B at 1. rewrite Z.pow2_bits_eqb by lia. destruct (Z.eqb_spec (W - 1) i) as [<-|N]; [|apply andb_false_r].
      rewrite andb_true_r. rewrite Z.testbit_true by lia. fold B. 
      replace (z / B) with 1; [reflexivity|]. apply Z.div_unique with (r := z - B); lia. }
  assert (X : forall r, 0 <= r < B -> Z.lxor (B + r) B = r /\ Z.lxor r B = B + r).
  { intros r Hr. assert (D : Z.land r B = 0) by (rewrite G by lia; destruct (Z.ltb_spec r B); [reflexivity|lia]).
    assert (S : r + B = Z.lxor r B) by (now apply Z.add_nocarry_lxor). split; [|lia].
    rewrite Z.add_comm, S, Z.lxor_assoc, Z.lxor_nilpotent. apply Z.lxor_0_r. }
  unfold sign_mag. fold B. unfold x, y. destruct (Z.ltb_spec v 0) as [Ln|Ln].
  - assert (Em : v mod 2 ^ W = v + 2 * B) by (rewrite E; symmetry; apply Z.mod_unique with (q := -1); lia).
    rewrite Em. rewrite (G (v + 2 * B)), (G (Z.abs v + B)) by lia.
    destruct (Z.ltb_spec (v + 2 * B) B); [lia|]. destruct (Z.ltb_spec (Z.abs v + B) B); [lia|].
    destruct (Z.eqb_spec B 0); [lia|]. cbn [negb]. rewrite !neg_opp by lia. unfold wrap. rewrite E.
    replace ((- (v + 2 * B)) mod (2 * B)) with (Z.abs v) by (apply Z.mod_unique with (q := -1); lia).
    replace ((- (Z.abs v + B)) mod (2 * B)) with (v + B) by (apply Z.mod_unique with (q := -1); lia).
    split; [rewrite (proj2 (X (Z.abs v) ltac:(lia))); lia|]. rewrite (proj2 (X (v + B) ltac:(lia))). lia.
  - assert (Em : v mod 2 ^ W = v) by (apply Z.mod_small; lia). rewrite Em. rewrite Z.add_0_r, Z.abs_eq by lia.
    rewrite (G v) by lia. destruct (Z.ltb_spec v B); [|lia]. cbn. auto.
Qed.
Example C71_case : word 8 0xB5 /\ erase_bit 8 0xB5 2 = Some 0x59 /\ sign_mag 8 ((-5) mod 2 ^ 8) = 133.
Proof. split; [unfold word; lia|]. split; reflexivity. Qed.
Print Assumptions C71_sign_mag.
