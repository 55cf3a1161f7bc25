(** Orders of residues and primitive roots. *)
From Coq Require Import Znumtheory.
From Verif Require Import Lib BaseModel BaseProofs PrimesSpec PrimesProofs NumTheory NumTheory2 ModuloModel ModuloProofs ModPowModel ModPowProofs RootsModel RootsProofs OrderSpec OrderModel OrderProofs OrderProofs2 OrderProofs3.
Open Scope Z_scope.

Section Mod.
Variable m : Z.
Hypothesis HM : 0 < m.
Definition res (x : Z) : Prop := 0 <= x < m.
Lemma resm x : res (x mod m). Proof. apply Z.mod_pos_bound. exact HM. Qed.
Lemma resM : monoid_on res (mm m) (1 mod m).
Proof.
  split; [apply resm|]. split; [intros x y X Y; unfold res in *; rewrite mm_mod by lia; apply resm|]. split.
  - intros x y z X Y Z0. unfold res in *. rewrite (mm_mod m y z), (mm_mod m x y) by lia. pose proof (resm (y * z)). pose proof (resm (x * y)). unfold res in *. rewrite !mm_mod by lia. rewrite Z.mul_mod_idemp_r, Z.mul_mod_idemp_l by lia. f_equal. ring.
  - intros x X. unfold res in *. pose proof (resm 1). unfold res in *. rewrite !mm_mod by lia. rewrite Z.mul_mod_idemp_r, Z.mul_mod_idemp_l by lia. rewrite Z.mul_1_l, Z.mul_1_r, Z.mod_small by lia. auto.
Qed.
Lemma resE : forall x y, res x -> res y -> (x =? y) = true <-> x = y.
Proof. intros. apply Z.eqb_eq. Qed.
Notation gp := (gpow (mm m) (1 mod m)).
Lemma mod_eq x y : x mod m = y mod m <-> (m | x - y).
Proof.
  split; intros H.
  - apply Z.mod_divide; [lia|]. rewrite Zminus_mod, H, Z.sub_diag. apply Z.mod_0_l. lia.
  - destruct H as [c C]. replace x with (y + c * m) by lia. apply Z.mod_add. lia.
Qed.
Lemma gp_mod a n : gp (a mod m) n = a ^ Z.of_nat n mod m.
Proof.
  induction n as [|n IH]; [reflexivity|]. cbn [gpow]. rewrite IH. pose proof (resm a). pose proof (resm (a ^ Z.of_nat n)). unfold res in *. rewrite mm_mod by lia. rewrite Nat2Z.inj_succ, Z.pow_succ_r by lia. rewrite Z.mul_mod_idemp_r, Z.mul_mod_idemp_l by lia. reflexivity.
Qed.
Lemma gp_modZ a n : 0 <= n -> gp (a mod m) (Z.to_nat n) = a ^ n mod m.
Proof. intros H. rewrite gp_mod. now rewrite Z2Nat.id. Qed.
Lemma gp_dvd a n b : 0 <= n -> gp (a mod m) (Z.to_nat n) = b mod m <-> (m | a ^ n - b).
Proof. intros H. rewrite gp_modZ by exact H. apply mod_eq. Qed.
Lemma order_bridge a k : is_order (mm m) (1 mod m) (a mod m) k <-> order_mod a m k.
Proof.
  split; intros (K & KE & KN); (split; [exact K|]; split; [apply gp_dvd; [lia|exact KE]|]); intros j J; specialize (KN j J); rewrite gp_dvd in * by lia; exact KN.
Qed.
Lemma om_divide a k n : order_mod a m k -> 0 <= n -> (m | a ^ n - 1) <-> (k | n).
Proof. intros O N. rewrite <- gp_dvd by exact N. rewrite <- (Z2Nat.id n) at 2 by exact N. apply (order_divide _ _ res resM); [apply resm|now apply order_bridge]. Qed.
Lemma om_cong a k i j : order_mod a m k -> 0 <= i -> 0 <= j -> (m | a ^ i - a ^ j) <-> (k | i - j).
Proof.
  intros O I J. rewrite <- mod_eq, <- !gp_modZ by assumption. rewrite <- (Z2Nat.id i), <- (Z2Nat.id j) at 2 by assumption. apply (gp_cong _ _ res resM); [apply resm|now apply order_bridge].
Qed.
Lemma om_unique a k k' : order_mod a m k -> order_mod a m k' -> k = k'.
Proof. intros O O'. apply order_bridge in O, O'. eapply (order_unique (mm m) (1 mod m) res); [|exact O|exact O']. apply resm. Qed.
Lemma om_exists a n : 0 < n -> (m | a ^ n - 1) -> exists k, order_mod a m k /\ (k | n).
Proof.
  intros N D. destruct (order_exists (mm m) (1 mod m) Z.eqb res resM resE (a mod m) (Z.to_nat n) (resm a)) as (k & O); [lia|apply gp_dvd; [lia|exact D]|]. apply order_bridge in O. exists k. split; [exact O|]. apply (om_divide a k n O); [lia|exact D].
Qed.
Lemma om_pow a c d : 0 < c -> 0 < d -> order_mod a m (c * d) -> order_mod (a ^ c) m d.
Proof.
  intros C D O. split; [exact D|]. split; [rewrite <- Z.pow_mul_r by lia; apply O|]. intros j J. rewrite <- Z.pow_mul_r by lia. apply O. nia.
Qed.
Lemma unit_inv a n : 0 < n -> (m | a ^ n - 1) -> Z.gcd a m = 1.
Proof.
  intros N [c C]. apply Zgcd_1_rel_prime, bezout_rel_prime. apply Bezout_intro with (u := a ^ (n - 1)) (v := - c). replace n with (Z.succ (n - 1)) in C by lia. rewrite Z.pow_succ_r in C by lia. lia.
Qed.
Lemma unit_pow a n : 0 <= n -> Z.gcd a m = 1 -> Z.gcd (a ^ n) m = 1.
Proof. intros N H. apply Zgcd_1_rel_prime. apply Zgcd_1_rel_prime in H. revert n N. apply natlike_ind; [apply rel_prime_1|]. intros n N IH. rewrite Z.pow_succ_r by exact N. apply rel_prime_sym, rel_prime_mult; now apply rel_prime_sym. Qed.
Lemma om_unit a k : order_mod a m k -> Z.gcd a m = 1.
Proof. intros (K & D & _). now apply unit_inv with k. Qed.
Lemma cong_pow a n e : 0 <= n -> 0 <= e -> (m | a ^ n - 1) -> (m | a ^ (n * e) - 1).
Proof. intros N E D. rewrite Z.pow_mul_r by lia. rewrite <- (Z2Nat.id e) by exact E. replace 1 with (1 ^ Z.of_nat (Z.to_nat e)) at 1 by (apply Z.pow_1_l; lia). now apply pow_cong. Qed.
Lemma om_mul a b u v : order_mod a m u -> order_mod b m v -> Z.gcd u v = 1 -> order_mod (a * b) m (u * v).
Proof.
  intros Oa Ob G. pose proof Oa as (U & UE & _). pose proof Ob as (V & VE & _).
  assert (LEM : forall x y u v, 0 < u -> 0 < v -> order_mod x m u -> order_mod y m v -> Z.gcd u v = 1 -> forall j, 0 < j -> (m | (x * y) ^ j - 1) -> (v | j)).
  { clear - HM. intros x y u v U V Ox Oy G j J D. pose proof Ox as (_ & UE & _). pose proof (cong_pow x u j ltac:(lia) ltac:(lia) UE) as A. apply (cong_pow _ j u) in D; [|lia|lia]. rewrite Z.pow_mul_l in D. rewrite (Z.mul_comm j u) in D.
    assert (B : (m | y ^ (u * j) - 1)). { replace (y ^ (u * j) - 1) with ((x ^ (u * j) * y ^ (u * j) - 1) - (x ^ (u * j) - 1) * y ^ (u * j)) by ring. apply Z.divide_sub_r; [exact D|]. now apply Z.divide_mul_l. }
    apply (om_divide y v) in B; [|exact Oy|nia]. apply Z.gauss in B; [exact B|]. now rewrite Z.gcd_comm. }
  split; [nia|]. split.
  - rewrite Z.pow_mul_l. pose proof (cong_pow a u v ltac:(lia) ltac:(lia) UE) as A. pose proof (cong_pow b v u ltac:(lia) ltac:(lia) VE) as B. rewrite (Z.mul_comm v u) in B. replace (a ^ (u * v) * b ^ (u * v) - 1) with ((a ^ (u * v) - 1) * b ^ (u * v) + (b ^ (u * v) - 1)) by ring. apply Z.divide_add_r; [now apply Z.divide_mul_l|exact B].
  - intros j J D. assert (D1 : (v | j)) by (apply (LEM a b u v); try assumption; lia). assert (D2 : (u | j)) by (apply (LEM b a v u); try assumption; [now rewrite Z.gcd_comm|lia|now rewrite Z.mul_comm]).
    destruct D2 as [c C]. rewrite C, Z.mul_comm in D1. apply Z.gauss in D1; [|now rewrite Z.gcd_comm]. destruct D1 as [e E]. assert (UV : 0 < u * v) by (apply Z.mul_pos_pos; assumption). assert (JE : j = e * (u * v)) by (rewrite C, E; ring). clear - J JE UV. generalize dependent (u * v). intros w J JE W. destruct (Z.lt_ge_cases 0 e); nia.
Qed.
Lemma om_one : order_mod 1 m 1.
Proof. split; [lia|]. split; [exists 0; reflexivity|]. intros; lia. Qed.
(** ** an element whose order is the exponent of the group *)
Lemma split_Z (p : nat) e : is_prime p -> 0 < e -> exists i c, 0 <= i /\ e = Z.of_nat p ^ i * c /\ 0 < c /\ ~ (Z.of_nat p | c).
Proof.
  intros P E. destruct (split_power p (Z.to_nat e) P ltac:(lia)) as (k & c & H & N). exists (Z.of_nat k), (Z.of_nat c). assert (e = Z.of_nat p ^ Z.of_nat k * Z.of_nat c) by (rewrite <- pow_nat, <- Nat2Z.inj_mul, <- H; lia). split; [lia|]. split; [assumption|]. split; [|now rewrite <- divide_nat]. pose proof (Z.pow_nonneg (Z.of_nat p) (Z.of_nat k)). nia.
Qed.
Lemma prime_gap d e : 0 < d -> 0 < e -> ~ (e | d) -> exists (p : nat) i j d' e', is_prime p /\ 0 <= j < i /\ d = Z.of_nat p ^ j * d' /\ e = Z.of_nat p ^ i * e' /\ 0 < d' /\ 0 < e' /\ ~ (Z.of_nat p | d').
Proof.
  intros D E N. pose proof (Z.gcd_nonneg e d). assert (G0 : Z.gcd e d <> 0) by (intros X; apply Z.gcd_eq_0_l in X; lia). destruct (Z.gcd_divide_l e d) as [c C]. set (g := Z.gcd e d) in *.
  assert (2 <= c). { destruct (Z.eq_dec c 1) as [->|]; [|nia]. elim N. replace e with g by lia. apply Z.gcd_divide_r. }
  destruct (least_factor (Z.to_nat c) ltac:(lia)) as (p & P & PC & _). assert (PC' : (Z.of_nat p | c)) by (rewrite <- (Z2Nat.id c) by lia; now apply divide_nat). pose proof (prime_ge p P).
  destruct (split_Z p d P D) as (j & d' & J & DE & D0 & DN). destruct (split_Z p e P E) as (i & e' & I0 & EE & E0 & EN). exists p, i, j, d', e'. split; [exact P|]. split; [split; [exact J|]|auto]. 
  destruct (Z.lt_ge_cases j i) as [|L]; [assumption|exfalso]. apply EN. assert (DG : (Z.of_nat p ^ i | g)). { apply Z.gcd_greatest; [exists e'; lia|]. rewrite DE. replace j with (i + (j - i)) by lia. rewrite Z.pow_add_r by lia. exists (Z.of_nat p ^ (j - i) * d'). ring. }
  destruct DG as [w W]. destruct PC' as [z Z0]. assert (QP : 0 < Z.of_nat p ^ i) by (apply Z.pow_pos_nonneg; lia). exists (z * w). apply (Z.mul_cancel_l _ _ (Z.of_nat p ^ i)); [lia|]. rewrite <- EE, C, Z0, W. ring.
Qed.
Lemma om_grow g d b e : order_mod g m d -> order_mod b m e -> ~ (e | d) -> exists g' d', order_mod g' m d' /\ d < d'.
Proof.
  intros Og Ob N. pose proof Og as (D & _). pose proof Ob as (E & _). destruct (prime_gap d e D E N) as (p & i & j & d' & e' & P & (J & JI) & DE & EE & D0 & E0 & DN). pose proof (prime_ge p P) as P2. set (q := Z.of_nat p) in *.
  assert (QJ : 0 < q ^ j) by (apply Z.pow_pos_nonneg; lia). assert (QI : 0 < q ^ i) by (apply Z.pow_pos_nonneg; lia). rewrite DE in Og. apply om_pow in Og; [|exact QJ|exact D0]. rewrite EE, Z.mul_comm in Ob. apply om_pow in Ob; [|exact E0|exact QI].
  exists (g ^ (q ^ j) * b ^ e'), (d' * q ^ i). split; [apply om_mul; [exact Og|exact Ob|]|].
  - rewrite <- (Z2Nat.id i) by lia. apply (coprime_pow p); [exact P|exact DN].
  - rewrite DE, Z.mul_comm. apply Z.mul_lt_mono_pos_l; [exact D0|]. apply Z.pow_lt_mono_r; lia.
Qed.
Lemma exponent_element L : carmichael m L -> exists g, order_mod g m L.
Proof.
  intros (L0 & LU & LM). assert (K : forall n d g, order_mod g m d -> L - d <= Z.of_nat n -> exists g, order_mod g m L).
  { induction n as [|n IH]; intros d g O H; pose proof (om_unit g d O) as U; pose proof O as (D & _); pose proof (Z.divide_pos_le d L L0 (proj1 (om_divide g d L O ltac:(lia)) (LU g U))) as DL.
    - exists g. now replace L with d by lia.
    - destruct (Z.eq_dec d L) as [<-|NE]; [now exists g|]. destruct (LM d ltac:(lia)) as (b & UB & NB). destruct (om_exists b L L0 (LU b UB)) as (e & OB & _). destruct (om_grow g d b e O OB) as (g' & d' & O' & LT); [intros X; apply NB; apply (om_divide b e d OB); [lia|exact X]|]. apply (IH d' g' O'). lia. }
  apply (K (Z.to_nat L) 1 1 om_one). lia.
Qed.
End Mod.
