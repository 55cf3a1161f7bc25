(** next_combination on bitmasks. *)
From Verif Require Import Lib BitsModel BitsSpec BitsProofs BitsProofs2.
Local Open Scope Z_scope.

Lemma lor_add m r n : 0 <= n -> 0 <= r < 2 ^ n -> Z.lor (m * 2 ^ n) r = m * 2 ^ n + r.
Proof.
  intros Hn Hr. rewrite <- Z.shiftl_mul_pow2 by lia. symmetry.
  assert (D : Z.land (Z.shiftl m n) r = 0).
  { apply Z.bits_inj'. intros i Hi. rewrite Z.land_spec, Z.testbit_0_l. destruct (Z.lt_ge_cases i n).
    - now rewrite Z.shiftl_spec_low by lia.
    - rewrite (testbit_high r i n) by lia. apply andb_false_r. }
  rewrite <- Z.lxor_lor by exact D. now apply Z.add_nocarry_lxor.
Qed.

Lemma lxor_pred a m : 0 <= a -> 0 <= m ->
  Z.lxor (2 ^ a * (2 * m + 1)) (2 ^ a * (2 * m + 1) - 1) = 2 ^ (a + 1) - 1.
Proof.
  intros Ha Hm.
  assert (P : 0 < 2 ^ a) by (apply Z.pow_pos_nonneg; lia).
  assert (P1 : 2 ^ (a + 1) = 2 * 2 ^ a) by (rewrite Z.pow_add_r by lia; change (2 ^ 1) with 2; lia).
  assert (Eo : Z.ones a = 2 ^ a - 1) by (rewrite Z.ones_equiv; lia).
  replace (2 ^ a * (2 * m + 1)) with (m * 2 ^ (a + 1) + 2 ^ a) by lia.
  replace (m * 2 ^ (a + 1) + 2 ^ a - 1) with (m * 2 ^ (a + 1) + Z.ones a) by lia.
  rewrite <- !lor_add by lia. rewrite Z.sub_1_r, <- Z.ones_equiv. rewrite <- Z.shiftl_mul_pow2 by lia.
  apply Z.bits_inj'. intros i Hi. rewrite Z.lxor_spec, !Z.lor_spec, Z.pow2_bits_eqb by lia.
  destruct (Z.lt_trichotomy i a) as [C|[->|C]].
  - rewrite Z.shiftl_spec_low, !Z.ones_spec_low by lia. destruct (Z.eqb_spec a i); [lia|reflexivity].
  - rewrite Z.shiftl_spec_low, Z.ones_spec_high, Z.ones_spec_low by lia. now rewrite Z.eqb_refl.
  - rewrite (Z.ones_spec_high a), (Z.ones_spec_high (a + 1)) by lia. destruct (Z.eqb_spec a i); [lia|].
    now destruct (Z.testbit (Z.shiftl m (a + 1)) i).
Qed.

(** low run of ones: x = H 2^(t+c+1) + (2^c - 1) 2^t with c >= 1 *)
Lemma run_decomp x : 0 < x -> exists t c H, 0 <= H /\ (1 <= c)%nat /\
  x = H * 2 ^ Z.of_nat (t + c + 1) + (2 ^ Z.of_nat c - 1) * 2 ^ Z.of_nat t.
Proof.
  intros Hx. destruct (split_pow2 x Hx) as (t & m & Ht & Hm & E).
  destruct (split_pow2 (2 * m + 1 + 1)) as (c & H & Hc & HH & E2); [lia|].
  destruct (Z.eq_dec c 0) as [->|Nc]; [rewrite Z.pow_0_r in E2; lia|].
  exists (Z.to_nat t), (Z.to_nat c), H. split; [exact HH|]. split; [lia|].
  replace (Z.of_nat (Z.to_nat t + Z.to_nat c + 1)) with (t + (c + 1)) by lia.
  rewrite !Z2Nat.id by lia. rewrite E. replace (2 * m + 1) with (2 ^ c * (2 * H + 1) - 1) by lia.
  rewrite !Z.pow_add_r by lia. change (2 ^ 1) with 2. ring.
Qed.

Section NC.
  Variables (M t c : nat) (H : Z).
  Hypothesis HH : 0 <= H.
  Hypothesis Hc : (1 <= c)%nat.
  Hypothesis HM : (t + c + 1 <= M)%nat.
  Let T := 2 ^ Z.of_nat t.
  Let C := 2 ^ Z.of_nat c.
  Let C' := 2 ^ Z.of_nat (c - 1).
  Let x := H * 2 ^ Z.of_nat (t + c + 1) + (C - 1) * T.
  Let y := H * 2 ^ Z.of_nat (t + c + 1) + T * C + C' - 1.

  Local Lemma P_facts : 0 < T /\ 0 < C' /\ C = 2 * C' /\ 2 ^ Z.of_nat (t + c + 1) = 2 * (T * C) /\
    2 ^ Z.of_nat (t + c) = T * C.
  Proof using Hc.
    clear - Hc. unfold T, C, C'. repeat split; try (apply Z.pow_pos_nonneg; lia).
    - rewrite <- Z.pow_succ_r by lia. f_equal. lia.
    - rewrite !Nat2Z.inj_add, !Z.pow_add_r by lia. change (2 ^ Z.of_nat 1) with 2. ring.
    - rewrite !Nat2Z.inj_add, !Z.pow_add_r by lia. reflexivity.
  Qed.

  Lemma low_lt : 0 <= (C - 1) * T < 2 ^ Z.of_nat (t + c + 1).
  Proof. destruct P_facts as (A & B & D & E & F). rewrite E. split; [apply Z.mul_nonneg_nonneg; lia|]. nia. Qed.

  Lemma ones_low : ones (t + c + 1) ((C - 1) * T) = Z.of_nat c.
  Proof.
    destruct P_facts as (A & B & D & E & F).
    replace (t + c + 1)%nat with (t + (c + 1))%nat by lia.
    replace ((C - 1) * T) with ((C - 1) * 2 ^ Z.of_nat t + 0) by (unfold T; lia).
    rewrite ones_concat by (unfold T in A; lia). rewrite ones_0. unfold C. rewrite ones_ones by lia. lia.
  Qed.

  Lemma ones_x : ones M x = Z.of_nat c + ones (M - (t + c + 1)) H.
  Proof.
    unfold x. replace M with ((t + c + 1) + (M - (t + c + 1)))%nat at 1 by lia.
    rewrite ones_concat by apply low_lt. now rewrite ones_low.
  Qed.

  Lemma ones_y : ones M y = Z.of_nat c + ones (M - (t + c + 1)) H.
  Proof.
    destruct P_facts as (A & B & D & E & F).
    unfold y. replace M with ((t + c + 1) + (M - (t + c + 1)))%nat at 1 by lia.
    replace (H * 2 ^ Z.of_nat (t + c + 1) + T * C + C' - 1) with (H * 2 ^ Z.of_nat (t + c + 1) + (T * C + (C' - 1))) by lia.
    assert (C' - 1 < T * C) by nia.
    rewrite ones_concat by lia. f_equal.
    replace (t + c + 1)%nat with ((t + c) + 1)%nat by lia.
    replace (T * C) with (1 * 2 ^ Z.of_nat (t + c)) by lia. rewrite ones_concat by lia.
    unfold C'. rewrite ones_ones by lia. cbn [ones]. rewrite Z.bit0_odd. cbn. lia.
  Qed.

  Lemma x_lt_y : x < y.
  Proof. destruct P_facts as (A & B & D & E & F). unfold x, y. nia. Qed.

  Lemma nc_min z : x < z -> ones M z = ones M x -> z < 2 ^ Z.of_nat M -> y <= z.
  Proof.
    intros Hz E Hzu. destruct P_facts as (P1 & P2 & P3 & P4 & P5). rewrite ones_x in E.
    set (N := (t + c + 1)%nat) in *. set (P := 2 ^ Z.of_nat N) in *.
    assert (HP : 0 < P) by (unfold P; apply Z.pow_pos_nonneg; lia).
    assert (Hy : y < (H + 1) * P) by (unfold y; nia).
    assert (Hx : H * P <= x) by (unfold x; fold P; nia).
    destruct (Z.lt_ge_cases z ((H + 1) * P)) as [L|L]; [|lia].
    set (r := z - H * P). assert (Er : z = H * P + r) by (unfold r; lia).
    assert (Hr : 0 <= r < P) by nia.
    assert (Eo : ones N r = Z.of_nat c).
    { rewrite Er in E. replace M with (N + (M - N))%nat in E at 1 by lia. unfold P in E. rewrite ones_concat in E by exact Hr. lia. }
    assert (Hr2 : (C - 1) * T < r) by (unfold x in Hz; fold P in Hz; lia).
    enough (T * C + C' - 1 <= r) by (unfold y; fold P; lia).
    destruct (Z.lt_ge_cases r (T * C)) as [L2|L2].
    - exfalso. set (q := r - (C - 1) * T). assert (Hq : 0 < q < T) by (unfold q; nia).
      replace r with ((C - 1) * 2 ^ Z.of_nat t + q) in Eo by (unfold q, T; lia).
      unfold N in Eo. replace (t + c + 1)%nat with (t + (c + 1))%nat in Eo by lia.
      rewrite ones_concat in Eo by (unfold T in Hq; lia). unfold C in Eo. rewrite ones_ones in Eo by lia.
      pose proof (ones_pos t q Hq). lia.
    - set (q := r - T * C). assert (Hq : 0 <= q < T * C) by (unfold q; nia).
      replace r with (1 * 2 ^ Z.of_nat (t + c) + q) in Eo by (unfold q; lia).
      unfold N in Eo. rewrite ones_concat in Eo by lia.
      assert (E1 : ones 1 1 = 1) by reflexivity. rewrite E1 in Eo.
      destruct (Z.lt_ge_cases q (C' - 1)) as [L3|L3]; [|unfold q in L3; lia]. exfalso.
      rewrite (ones_more (c - 1) (t + c)) in Eo by (unfold C' in L3; lia).
      assert (E2 : ones (c - 1) q = Z.of_nat (c - 1)) by lia. apply ones_full in E2; unfold C' in L3; lia.
  Qed.
End NC.

Lemma next_combination_run k t c H size : word_type k -> 0 <= H -> (1 <= c)%nat ->
  let x := H * 2 ^ Z.of_nat (t + c + 1) + (2 ^ Z.of_nat c - 1) * 2 ^ Z.of_nat t in
  0 <= size < width k -> x < 2 ^ size ->
  (H * 2 ^ Z.of_nat (t + c + 1) + 2 ^ Z.of_nat (t + c) < 2 ^ size /\
   next_combination k x size =
     Some (H * 2 ^ Z.of_nat (t + c + 1) + 2 ^ Z.of_nat t * 2 ^ Z.of_nat c + 2 ^ Z.of_nat (c - 1) - 1, true)) \/
  (H = 0 /\ Z.of_nat (t + c) = size /\ next_combination k x size = Some (2 ^ Z.of_nat c - 1, false)).
Proof.
  intros Hk HH Hc x Hs Hx. pose proof (width_pos k) as HW.
  set (m := 2 ^ Z.of_nat c * H + 2 ^ Z.of_nat (c - 1) - 1).
  destruct (P_facts t c Hc) as (P1 & P2 & P3 & P4 & P5).
  assert (Hm : 0 <= m) by (unfold m; nia).
  set (T := 2 ^ Z.of_nat t) in *. set (C := 2 ^ Z.of_nat c) in *. set (C' := 2 ^ Z.of_nat (c - 1)) in *.
  assert (Ex : x = T * (2 * m + 1)) by (unfold x, m; nia).
  assert (Hx0 : 0 < x) by nia.
  assert (P2k : 2 ^ size < 2 ^ width k) by (apply Z.pow_lt_mono_r; lia).
  assert (Hw : word (width k) x) by (split; lia).
  assert (Hlow : lowest x (Z.of_nat t)) by (rewrite Ex; apply lowest_spec; lia).
  assert (Elo : lo_bit (width k) x = T) by (apply (lo_bit_lowest _ x); [lia|exact Hw|exact Hlow]).
  assert (Etz : tzc k x = Some (Z.of_nat t)) by (apply tzc_lowest; assumption).
  set (V := H * 2 ^ Z.of_nat (t + c + 1) + T * C).
  assert (EV : x + T = V) by (unfold x, V; nia).
  assert (HV : V = T * C * (2 * H + 1)) by (unfold V; nia).
  assert (HVs : V <= 2 ^ size).
  { destruct (Z.lt_ge_cases (Z.of_nat t) size) as [Lt|Lt].
    - assert (D : (T | 2 ^ size)).
      { exists (2 ^ (size - Z.of_nat t)). unfold T. rewrite <- Z.pow_add_r by lia. f_equal. lia. }
      destruct D as [q D]. rewrite D in *. assert (2 * m + 1 < q) by nia. nia.
    - assert (2 ^ size <= T) by (apply Z.pow_le_mono_r; lia). nia. }
  assert (Eones : make_ones (width k) size = Some (Z.ones size)).
  { unfold make_ones, make_bit, shl. replace ((0 <=? size) && (size <? width k)) with true by lia. cbn [obind].
    rewrite Z.shiftl_1_l, (wrap_small _ (2 ^ size)) by (apply pow2_word; lia).
    rewrite wrap_small by (apply ones_word; lia). f_equal. rewrite Z.ones_equiv. lia. }
  assert (Ht : 0 <= Z.of_nat t < width k).
  { split; [lia|]. eapply lowest_lt_width; [|exact Hw|exact Hlow]. lia. }
  assert (W2 : 2 < width k).
  { unfold width. apply Z.lt_le_trans with (2 ^ 3); [lia|]. apply Z.pow_le_mono_r; unfold word_type in Hk; lia. }
  unfold next_combination. cbv zeta. rewrite Eones, Etz, Elo. cbn [obind].
  rewrite EV. rewrite (wrap_small _ V) by (unfold word; nia). rewrite Z.land_ones by lia.
  destruct (Z.eq_dec V (2 ^ size)) as [E2|N2].
  - right.
    assert (Hz : H = 0).
    { destruct (Z.eq_dec H 0) as [Z0|NZ]; [exact Z0|]. exfalso.
      assert (B1 : Z.of_nat (t + c) < size).
      { apply (Z.pow_lt_mono_r_iff 2); [lia|lia|]. rewrite P5, <- E2, HV. nia. }
      assert (E3 : 2 ^ size = 2 ^ Z.of_nat (t + c) * (2 * 2 ^ (size - Z.of_nat (t + c) - 1))).
      { rewrite <- Z.pow_succ_r by lia. rewrite <- Z.pow_add_r by lia. f_equal. lia. }
      rewrite P5, <- E2, HV in E3. apply Z.mul_reg_l in E3; [lia|]. nia. }
    split; [exact Hz|]. split.
    { apply (Z.pow_inj_r 2); [lia|lia|lia|]. rewrite P5, <- E2, HV, Hz. lia. }
    rewrite E2, Z.mod_same by lia. cbn [Z.eqb negb].
    rewrite Z.lxor_0_l. unfold shr at 1. replace ((0 <=? Z.of_nat t) && (Z.of_nat t <? width k)) with true by lia.
    cbn [obind]. unfold shr. replace ((0 <=? 2) && (2 <? width k)) with true by lia. cbn [obind].
    rewrite Z.shiftr_div_pow2 by lia. unfold x. rewrite Hz. fold T. rewrite Z.mul_0_l, Z.add_0_l.
    rewrite Z.div_mul by lia. reflexivity.
  - left. split; [rewrite P5; fold V; lia|].
    assert (HV0 : 0 < V) by nia.
    rewrite (Z.mod_small V) by lia. destruct (Z.eqb_spec V 0); [lia|]. cbn [negb].
    unfold shr at 1. replace ((0 <=? Z.of_nat t) && (Z.of_nat t <? width k)) with true by lia. cbn [obind].
    assert (Exor : Z.shiftr (Z.lxor V x) (Z.of_nat t) = 2 * C - 1).
    { rewrite Z.shiftr_lxor, !Z.shiftr_div_pow2 by lia. fold T.
      replace x with ((C * (2 * H + 1) - 1) * T) by nia. replace V with (C * (2 * H + 1) * T) by nia.
      rewrite !Z.div_mul by lia. unfold C. rewrite lxor_pred by lia.
      rewrite Z.pow_add_r by lia. change (2 ^ 1) with 2. lia. }
    rewrite Exor. unfold shr. replace ((0 <=? 2) && (2 <? width k)) with true by lia. cbn [obind].
    assert (E4 : Z.shiftr (2 * C - 1) 2 = C' - 1).
    { rewrite Z.shiftr_div_pow2 by lia. change (2 ^ 2) with 4. symmetry. apply Z.div_unique with (r := 3); lia. }
    rewrite E4. do 2 f_equal.
    replace V with ((2 * H + 1) * 2 ^ Z.of_nat (t + c)) by lia.
    rewrite lor_add; [unfold V in HV; nia|lia|]. rewrite P5. nia.
Qed.

Lemma nc_y_bound t c H size : 0 <= H -> (1 <= c)%nat -> 0 <= size ->
  H * 2 ^ Z.of_nat (t + c + 1) + 2 ^ Z.of_nat (t + c) < 2 ^ size ->
  0 <= H * 2 ^ Z.of_nat (t + c + 1) + 2 ^ Z.of_nat t * 2 ^ Z.of_nat c + 2 ^ Z.of_nat (c - 1) - 1 < 2 ^ size.
Proof.
  intros HH Hc Hs LV. destruct (P_facts t c Hc) as (P1 & P2 & P3 & P4 & P5). rewrite P4, P5 in *.
  assert (A1 : 0 < 2 ^ Z.of_nat t * 2 ^ Z.of_nat c) by (apply Z.mul_pos_pos; lia).
  assert (A2 : 0 <= H * (2 * (2 ^ Z.of_nat t * 2 ^ Z.of_nat c))) by (apply Z.mul_nonneg_nonneg; lia).
  split; [lia|].
  assert (B1 : Z.of_nat (t + c) < size) by (apply (Z.pow_lt_mono_r_iff 2); lia).
  assert (D2 : exists q2, 2 ^ size = q2 * (2 ^ Z.of_nat t * 2 ^ Z.of_nat c)).
  { exists (2 ^ (size - Z.of_nat (t + c))). rewrite <- P5, <- Z.pow_add_r by lia. f_equal. lia. }
  destruct D2 as [q2 D2]. rewrite D2 in *.
  assert (A3 : 2 ^ Z.of_nat c <= 2 ^ Z.of_nat t * 2 ^ Z.of_nat c) by nia.
  set (Q := 2 ^ Z.of_nat t * 2 ^ Z.of_nat c) in *. clearbody Q. clear P4 P5 D2 B1.
  assert (L : (2 * H + 1) * Q < q2 * Q) by lia. apply Z.mul_lt_mono_pos_r in L; [|exact A1].
  assert ((2 * H + 2) * Q <= q2 * Q) by (apply Z.mul_le_mono_nonneg_r; lia). lia.
Qed.

Lemma nc_size t c H size : 0 <= H -> (1 <= c)%nat -> 0 <= size ->
  H * 2 ^ Z.of_nat (t + c + 1) + (2 ^ Z.of_nat c - 1) * 2 ^ Z.of_nat t < 2 ^ size -> Z.of_nat (t + c) <= size.
Proof.
  intros HH Hc Hs L. destruct (P_facts t c Hc) as (P1 & P2 & P3 & P4 & P5).
  destruct (Z.le_gt_cases (Z.of_nat (t + c)) size) as [L1|L1]; [exact L1|exfalso].
  assert (2 ^ size <= 2 ^ (Z.of_nat (t + c) - 1)) by (apply Z.pow_le_mono_r; lia).
  assert (E : 2 ^ Z.of_nat (t + c) = 2 * 2 ^ (Z.of_nat (t + c) - 1)) by (rewrite <- Z.pow_succ_r by lia; f_equal; lia).
  rewrite P5 in E. rewrite P4 in L.
  assert (0 <= H * (2 * (2 ^ Z.of_nat t * 2 ^ Z.of_nat c))) by (apply Z.mul_nonneg_nonneg; nia).
  clear P4 P5. nia.
Qed.
