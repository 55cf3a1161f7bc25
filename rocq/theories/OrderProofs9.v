(** Discrete logarithms modulo 2^s. *)
From Coq Require Import Znumtheory.
From Verif Require Import Lib BaseModel BaseProofs PrimesSpec PrimesProofs NumTheory NumTheory2 ModuloModel ModuloProofs ModPowModel ModPowProofs RootsModel RootsProofs RootsProofs2 OrderSpec OrderModel OrderProofs OrderProofs2 OrderProofs3 OrderProofs4 OrderProofs5 OrderProofs6 OrderProofs7 OrderProofs8.
Open Scope Z_scope.

Lemma modulo_mul_ok x y M : 0 <= x -> 0 <= y -> 0 < M -> modulo_mul x y M = Some ((x * y) mod M).
Proof. intros. unfold modulo_mul. apply cmod_ok; nia. Qed.
Lemma two_pow_unit a s : 0 <= s -> Z.odd a = true -> Z.gcd a (2 ^ s) = 1.
Proof.
  intros S0 O. rewrite <- (Z2Nat.id s) by exact S0. apply (coprime_pow 2 a (Z.to_nat s) is_prime_2). change (Z.of_nat 2) with 2. intros D. apply Zodd_bool_iff in O. apply Zodd_equiv in O as [c C]. destruct D as [e E]. lia.
Qed.
Section P2.
Variables a b s X : Z.
Hypothesis S1 : 1 <= s.
Hypothesis A : 1 <= a < 2 ^ s.
Hypothesis AO : Z.odd a = true.
Hypothesis B : 0 <= b.
Hypothesis HX : 0 <= X.
Hypothesis XE : (2 ^ s | a ^ X - b).
Let m := 2 ^ s.
Lemma m_ge : 2 <= m. Proof. unfold m. change 2 with (2 ^ 1) at 1. apply Z.pow_le_mono_r; lia. Qed.
Lemma p2_unit : Z.gcd a m = 1. Proof. apply two_pow_unit; [lia|exact AO]. Qed.
Lemma p2_univ : (m | a ^ (2 ^ (s - 1)) - 1).
Proof.
  pose proof m_ge. pose proof (euler_Z a m ltac:(lia) p2_unit) as E. replace (Z.to_nat m) with (2 ^ S (Z.to_nat (s - 1)))%nat in E; [|apply Nat2Z.inj; rewrite pow_nat, Z2Nat.id by lia; unfold m; change (Z.of_nat 2) with 2; f_equal; lia].
  rewrite totient_prime_power in E by exact is_prime_2. change (2 - 1)%nat with 1%nat in E. rewrite Nat.mul_1_r, pow_nat, Z2Nat.id in E by lia. exact E.
Qed.
Lemma p2_order : exists t, 0 <= t < s /\ order_mod a m (2 ^ t) /\ loopZ (Z.abs s + 2) (p2_order_step m) (a, 1, 0) = Some (2 ^ t, t).
Proof.
  pose proof m_ge as M2. destruct (om_exists m ltac:(lia) a (2 ^ (s - 1)) ltac:(apply Z.pow_pos_nonneg; lia) p2_univ) as (o & O & OD). pose proof O as (O0 & OE & ON).
  destruct (pow_divisor 2 (Z.to_nat (s - 1)) is_prime_2 o O0) as (j & J & OJ); [change (Z.of_nat 2) with 2; rewrite Z2Nat.id by lia; exact OD|]. change (Z.of_nat 2) with 2 in OJ. exists (Z.of_nat j). split; [lia|]. rewrite <- OJ. split; [exact O|].
  destruct (loopZ_spec (p2_order_step m) (fun '(ao, o', t) => 0 <= t <= Z.of_nat j /\ ao = a ^ (2 ^ t) mod m /\ o' = 2 ^ t) (fun '(o', t) => o' = o /\ t = Z.of_nat j) (fun '(_, _, t) => Z.of_nat j - t)) with (fuel := Z.abs s + 2) (s := (a, 1, 0)) as ((o' & t) & E & R1 & R2).
  - intros [[ao o'] t] (T & AE & OE'). cbn [p2_order_step]. assert (TP : 0 < 2 ^ t) by (apply Z.pow_pos_nonneg; lia). destruct (Z.eqb_spec ao 1) as [A1|A1].
    + eexists. split; [reflexivity|]. cbv beta iota. assert (D : (m | a ^ (2 ^ t) - 1)) by (apply mod_eq; [lia|]; rewrite (Z.mod_small 1) by lia; congruence). destruct (Z.eq_dec t (Z.of_nat j)) as [->|]; [split; [congruence|reflexivity]|exfalso]. apply (ON (2 ^ t)); [|exact D]. split; [exact TP|]. rewrite OJ. apply Z.pow_lt_mono_r; lia.
    + pose proof (Z.mod_pos_bound (a ^ (2 ^ t)) m ltac:(lia)). rewrite modulo_mul_ok by lia. cbn [obind]. eexists. split; [reflexivity|]. cbv beta iota. assert (t <> Z.of_nat j). { intros ->. apply A1. rewrite AE. rewrite <- OJ. rewrite <- (Z.mod_small 1 m) by lia. apply mod_eq; [lia|exact OE]. }
      split; [|lia]. split; [lia|]. rewrite OE', Z.pow_add_r by lia. change (2 ^ 1) with 2. split; [|reflexivity]. rewrite AE, <- Z.mul_mod by lia. rewrite Z.pow_mul_r by lia. now rewrite Z.pow_2_r.
  - intros [[? ?] ?] (T & _). lia.
  - change (2 ^ 0) with 1. rewrite Z.pow_1_r, Z.mod_small by (fold m in A; lia). split; [lia|]. auto.
  - lia.
  - rewrite E. now rewrite R1, R2.
Qed.
Theorem p2_ok : exists x o, discrete_log_p2 a b s = Some x /\ order_mod a m o /\ 0 <= x < o /\ (m | a ^ x - b).
Proof.
  pose proof m_ge as M2. destruct p2_order as (t & T & O & E). unfold discrete_log_p2. rewrite powZ_run by lia. cbn [obind]. fold m. rewrite E. cbn [obind].
  destruct (modulo_inv_spec a m ltac:(lia) ltac:(lia)) as (ai & -> & _ & AI). specialize (AI p2_unit) as (AI & AI0 & _). cbn [obind]. apply mod_eq in AI; [|lia].
  destruct (shift_log m a (2 ^ t) X b (2 ^ t) ltac:(lia) O HX XE) as (Y & Y1 & Y0 & YE).
  destruct (for_range_spec (fun i x => 0 <= x < 2 ^ Z.of_nat i /\ (2 ^ Z.of_nat i | Y - x)) (fun i x => let e := Z.shiftr (2 ^ t) (Z.of_nat i + 1) in
    let* ax := modulo_power ai x m in let* bx := modulo_mul b ax m in let* y := modulo_power bx e m in Some (if y =? 1 then x else x + Z.shiftl 1 (Z.of_nat i))) 0 (Z.to_nat t) 0) as (x & EX & XB & XD).
  - lia.
  - change (2 ^ Z.of_nat 0) with 1. split; [lia|apply Z.divide_1_l].
  - intros i x I (XB & [c C]). cbv zeta. rewrite Z.shiftr_div_pow2 by lia. assert (TI : 2 ^ t = 2 ^ (t - (Z.of_nat i + 1)) * 2 ^ (Z.of_nat i + 1)) by (rewrite <- Z.pow_add_r by lia; f_equal; lia). assert (IP : 0 < 2 ^ (Z.of_nat i + 1)) by (apply Z.pow_pos_nonneg; lia). replace (2 ^ t / 2 ^ (Z.of_nat i + 1)) with (2 ^ (t - (Z.of_nat i + 1))) by (rewrite TI; symmetry; apply Z.div_mul; lia). set (e := 2 ^ (t - (Z.of_nat i + 1))) in *. assert (EP : 0 < e) by (apply Z.pow_pos_nonneg; lia).
    rewrite modulo_power_spec by lia. cbn [obind]. pose proof (Z.mod_pos_bound (ai ^ x) m ltac:(lia)). rewrite modulo_mul_ok by lia. cbn [obind]. rewrite modulo_power_spec by lia. cbn [obind]. eexists. split; [reflexivity|].
    assert (XT : 2 ^ Z.of_nat i < 2 ^ t) by (apply Z.pow_lt_mono_r; lia).
    assert (BX : (m | (b * (ai ^ x mod m)) mod m - a ^ (Y - x))).
    { assert (P1 : (m | (a * ai) ^ x - 1)). { replace 1 with (1 ^ x) at 1 by (apply Z.pow_1_l; lia). apply cong_powZ; [lia|exact AI]. }
      apply mod_eq; [lia|]. rewrite Z.mod_mod by lia. rewrite Z.mul_mod_idemp_r by lia. apply mod_eq; [lia|]. replace (b * ai ^ x - a ^ (Y - x)) with (- ((a ^ Y - b) * ai ^ x) + a ^ (Y - x) * ((a * ai) ^ x - 1)).
      - apply Z.divide_add_r; [apply Z.divide_opp_r; now apply Z.divide_mul_l|now apply Z.divide_mul_r].
      - rewrite Z.pow_mul_l. replace (a ^ Y) with (a ^ (Y - x) * a ^ x) by (rewrite <- Z.pow_add_r by lia; f_equal; lia). ring. }
    assert (BE : (((b * (ai ^ x mod m)) mod m) ^ e mod m =? 1) = true <-> (2 | c)).
    { rewrite Z.eqb_eq. rewrite <- (Z.mod_small 1 m) at 1 by lia. rewrite mod_eq by lia. assert (Q : (m | ((b * (ai ^ x mod m)) mod m) ^ e - a ^ ((Y - x) * e))) by (rewrite Z.pow_mul_r by lia; apply cong_powZ; [lia|exact BX]).
      assert (Q2 : (m | ((b * (ai ^ x mod m)) mod m) ^ e - 1) <-> (m | a ^ ((Y - x) * e) - 1)). { split; intros D; [replace (a ^ ((Y - x) * e) - 1) with ((((b * (ai ^ x mod m)) mod m) ^ e - 1) - (((b * (ai ^ x mod m)) mod m) ^ e - a ^ ((Y - x) * e))) by ring; now apply Z.divide_sub_r|replace (((b * (ai ^ x mod m)) mod m) ^ e - 1) with ((((b * (ai ^ x mod m)) mod m) ^ e - a ^ ((Y - x) * e)) + (a ^ ((Y - x) * e) - 1)) by ring; now apply Z.divide_add_r]. }
      rewrite Q2, (om_divide m ltac:(lia) a (2 ^ t)) by (exact O || (apply Z.mul_nonneg_nonneg; lia)). rewrite C, TI. rewrite Z.pow_add_r by lia. change (2 ^ 1) with 2. replace (c * 2 ^ Z.of_nat i * e) with (c * (2 ^ Z.of_nat i * e)) by ring. replace (e * (2 ^ Z.of_nat i * 2)) with (2 * (2 ^ Z.of_nat i * e)) by ring. apply Z.mul_divide_cancel_r. assert (0 < 2 ^ Z.of_nat i) by (apply Z.pow_pos_nonneg; lia). nia. }
    rewrite Nat2Z.inj_succ, Z.pow_succ_r, Z.shiftl_1_l by lia. destruct (_ =? 1).
    + destruct BE as (BE & _). destruct (BE eq_refl) as [u U]. split; [lia|]. exists u. rewrite C, U. ring.
    + destruct BE as (_ & BE). assert (NC : ~ (2 | c)) by (intros D; apply BE in D; discriminate). assert (exists u, c = 2 * u + 1) as (u & U) by (destruct (Z.Even_or_Odd c) as [[u U]|[u U]]; [elim NC; exists u; lia|now exists u]). split; [lia|]. exists u. replace (Y - (x + 2 ^ Z.of_nat i)) with ((Y - x) - 2 ^ Z.of_nat i) by ring. rewrite C, U. ring.
  - exists x, (2 ^ t). rewrite Z2Nat.id in XB, XD by lia. split; [exact EX|]. split; [exact O|]. split; [exact XB|]. replace (a ^ x - b) with ((a ^ Y - b) - (a ^ Y - a ^ x)) by ring. apply Z.divide_sub_r; [exact YE|]. apply (om_cong m ltac:(lia) a (2 ^ t)); [exact O|lia|lia|exact XD].
Qed.
End P2.
