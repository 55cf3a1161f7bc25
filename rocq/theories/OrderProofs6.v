(** The moduli that have a primitive root. *)
From Coq Require Import Znumtheory.
From Verif Require Import Lib BaseModel BaseProofs PrimesSpec PrimesProofs NumTheory NumTheory2 RootsProofs OrderSpec OrderModel OrderProofs OrderProofs2 OrderProofs3 OrderProofs4 OrderProofs5.
Open Scope Z_scope.

Lemma lam_odd p e : is_prime p -> p <> 2%nat -> (1 <= e)%nat -> lam p e = totient (p ^ e).
Proof. intros P N He. unfold lam. destruct (Nat.eqb_spec p 2); [lia|]. cbn [andb]. destruct e as [|e]; [lia|]. rewrite totient_prime_power by exact P. f_equal. f_equal. lia. Qed.
Lemma is_prime_2 : is_prime 2.
Proof. split; [lia|]. intros d D. pose proof (Nat.divide_pos_le d 2 ltac:(lia) D). destruct D as [c C]. lia. Qed.
Lemma odd_pow p k : is_prime p -> p <> 2%nat -> ~ Nat.divide 2 (p ^ k).
Proof. intros P N D. apply N. symmetry. now apply (prime_divides_pow 2 p k is_prime_2). Qed.
Lemma coprime_pow_nat p e n : is_prime p -> ~ Nat.divide p n -> Nat.gcd (p ^ e) n = 1%nat.
Proof. intros P N. destruct e as [|e]; [apply Nat.gcd_1_l|]. rewrite Nat.gcd_comm. apply gcd_pow; [lia|exact P|exact N]. Qed.
Lemma carm_form n : cyclic_modulus n -> carmichael (Z.of_nat n) (Z.of_nat (totient n)).
Proof.
  intros [->|[->|(p & k & P & N & K & E)]].
  - apply carm_exact; [lia|]. exact (exact_pp 2 1 is_prime_2 (le_n 1)).
  - apply carm_exact; [lia|]. exact (exact_pp 2 2 is_prime_2 ltac:(lia)).
  - pose proof (prime_ge p P). assert (PK : (0 < p ^ k)%nat) by (pose proof (Nat.pow_nonzero p k); lia). destruct E as [->| ->].
    + apply carm_exact; [exact PK|]. rewrite <- lam_odd by assumption. now apply exact_pp.
    + apply carm_exact; [lia|]. pose proof (exact_product 2 (p ^ k) 1 (Z.of_nat (totient (p ^ k))) ltac:(lia) PK) as X. rewrite Z.lcm_1_l_nonneg in X by lia.
      pose proof (totient_step 2 0 (p ^ k) is_prime_2 PK (odd_pow p k P N)) as T. change (2 ^ 1)%nat with 2%nat in T. rewrite T. change (2 ^ 0 * (2 - 1))%nat with 1%nat. rewrite Nat.mul_1_l. apply X.
      * apply (coprime_pow_nat 2 1); [exact is_prime_2|now apply odd_pow].
      * exact (exact_pp 2 1 is_prime_2 (le_n 1)).
      * rewrite <- lam_odd by assumption. now apply exact_pp.
Qed.
Lemma totient_even n : (2 < n)%nat -> (2 | Z.of_nat (totient n)).
Proof.
  intros H. apply (om_divide (Z.of_nat n) ltac:(lia) (-1)); [|lia|].
  - split; [lia|]. split; [exists 0; reflexivity|]. intros j J. assert (j = 1) as -> by lia. change ((-1) ^ 1 - 1) with (-2). rewrite <- Z.divide_opp_r. intros D. apply Z.divide_pos_le in D; lia.
  - pose proof (euler_Z (-1) (Z.of_nat n) ltac:(lia)) as E. rewrite Nat2Z.id in E. apply E. change (-1) with (- (1)). rewrite Z.gcd_opp_l. apply Z.gcd_1_l.
Qed.
Lemma no_root_product n1 n2 a : (2 < n1)%nat -> (2 < n2)%nat -> Nat.gcd n1 n2 = 1%nat -> ~ order_mod a (Z.of_nat (n1 * n2)) (Z.of_nat (totient n1 * totient n2)).
Proof.
  intros H1 H2 G O. pose proof (totient_even n1 H1) as [c1 C1]. pose proof (totient_even n2 H2) as [c2 C2]. pose proof (totient_pos n1 ltac:(lia)). pose proof (totient_pos n2 ltac:(lia)).
  pose proof (om_unit _ _ _ O) as U. apply Zgcd_1_rel_prime in U. rewrite Nat2Z.inj_mul in U.
  assert (U1 : Z.gcd a (Z.of_nat n1) = 1) by (apply Zgcd_1_rel_prime; apply rel_prime_sym, rel_prime_div with (p := Z.of_nat n1 * Z.of_nat n2); [now apply rel_prime_sym|apply Z.divide_factor_l]).
  assert (U2 : Z.gcd a (Z.of_nat n2) = 1) by (apply Zgcd_1_rel_prime; apply rel_prime_sym, rel_prime_div with (p := Z.of_nat n1 * Z.of_nat n2); [now apply rel_prime_sym|apply Z.divide_factor_r]).
  assert (D : (Z.of_nat (n1 * n2) | a ^ (2 * c1 * c2) - 1)).
  { apply coprime_product_divide; [exact G| |].
    - replace (2 * c1 * c2) with (Z.of_nat (totient n1) * c2) by lia. apply cong_pow; [lia|lia|]. pose proof (euler_Z a (Z.of_nat n1) ltac:(lia) U1) as E. now rewrite Nat2Z.id in E.
    - replace (2 * c1 * c2) with (Z.of_nat (totient n2) * c1) by lia. apply cong_pow; [lia|lia|]. pose proof (euler_Z a (Z.of_nat n2) ltac:(lia) U2) as E. now rewrite Nat2Z.id in E. }
  destruct O as (_ & _ & O). apply (O (2 * c1 * c2)); [|exact D]. rewrite Nat2Z.inj_mul, C1, C2. nia.
Qed.
Lemma modulus_cases n : (2 <= n)%nat -> cyclic_modulus n \/ (exists k, (3 <= k)%nat /\ n = (2 ^ k)%nat) \/
  (exists n1 n2, n = (n1 * n2)%nat /\ (2 < n1)%nat /\ (2 < n2)%nat /\ Nat.gcd n1 n2 = 1%nat /\ totient n = (totient n1 * totient n2)%nat).
Proof.
  intros H. destruct (split_power 2 n is_prime_2 ltac:(lia)) as (j & m & E & N). destruct (Nat.eq_dec m 1) as [->|M1].
  - rewrite Nat.mul_1_r in E. destruct j as [|[|[|j]]]; [cbn in E; lia|left; left; exact E|left; right; left; exact E|right; left]. exists (S (S (S j))). split; [lia|exact E].
  - assert (m <> 0%nat) by (intros ->; lia). destruct (least_factor m ltac:(lia)) as (p & P & PD & _). destruct (split_power p m P ltac:(lia)) as (e & c & E2 & Nc). destruct e as [|e]; [exfalso; apply Nc; rewrite E2 in PD; cbn in PD; now rewrite Nat.add_0_r in PD|].
    assert (P2 : p <> 2%nat) by (intros ->; contradiction). pose proof (prime_ge p P). assert (c <> 0%nat) by (intros ->; lia). pose proof (Nat.pow_nonzero 2 j ltac:(lia)). assert (E3 : n = (p ^ S e * (2 ^ j * c))%nat) by (rewrite E, E2; lia).
    set (n2 := (2 ^ j * c)%nat) in *. assert (N2 : ~ Nat.divide p n2). { unfold n2. intros D. apply divide_nat in D. rewrite Nat2Z.inj_mul in D. apply prime_Zeuclid in D as [D|D]; [| |exact P]; apply divide_nat in D; [|contradiction]. apply P2. now apply (prime_divides_pow p 2 j P is_prime_2). }
    assert (0 < n2)%nat by (unfold n2; nia). destruct (Nat.eq_dec n2 1) as [X|X]; [left; right; right; exists p, (S e); split; [exact P|]; split; [exact P2|]; split; [lia|left; rewrite E3, X; lia]|]. destruct (Nat.eq_dec n2 2) as [Y|Y]; [left; right; right; exists p, (S e); split; [exact P|]; split; [exact P2|]; split; [lia|right; rewrite E3, Y; lia]|].
    right; right. exists (p ^ S e)%nat, n2. split; [exact E3|]. split.
    + cbn [Nat.pow]. pose proof (Nat.pow_nonzero p e ltac:(lia)). nia.
    + split; [lia|]. split; [now apply coprime_pow_nat|]. rewrite E3, totient_step, totient_prime_power by (assumption || lia). reflexivity.
Qed.
(** a primitive root exists exactly for the cyclic moduli *)
Theorem root_exists n : (2 <= n)%nat -> (exists g, order_mod g (Z.of_nat n) (Z.of_nat (totient n))) <-> cyclic_modulus n.
Proof.
  intros H. split.
  - intros (g & O). destruct (modulus_cases n H) as [C|[(k & K & E)|(n1 & n2 & E & H1 & H2 & G & T)]]; [exact C| |].
    + exfalso. pose proof (exact_pp 2 k is_prime_2 ltac:(lia)) as X. rewrite <- E in X. apply carm_exact in X; [|lia]. destruct X as (L0 & LU & _). pose proof (om_unit _ _ _ O) as U. apply LU in U. destruct O as (_ & _ & O). apply (O (Z.of_nat (lam 2 k))); [|exact U]. split; [exact L0|]. apply Nat2Z.inj_lt.
      destruct k as [|[|k]]; [lia|lia|]. rewrite E, totient_prime_power by exact is_prime_2. unfold lam. destruct (Nat.ltb_spec 2 (S (S k))); [|lia]. cbn [Nat.eqb andb]. rewrite !Nat.mul_1_r. apply Nat.pow_lt_mono_r; lia.
    + exfalso. rewrite T, E in O. now apply no_root_product in O.
  - intros C. apply exponent_element; [lia|]. now apply carm_form.
Qed.
