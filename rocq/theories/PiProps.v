(** C58: prime counting and sums of powers of primes. *)
From Coq Require Import Ring Ring_theory.
From Verif Require Import Lib BaseModel LohiModel LohiSpec RingSpec RingProofs PrimesSpec PrimesProofs SumsSpec SumsModel SumsProofs PiSpec PiModel PiProofs PiProofs2 PiProofs3.
Open Scope nat_scope.

(** prime_power_sum_sqrt over any commutative ring with decidable equality: every entry n/k holds the sum of p^z over the primes p <= n/k.
    [root n] is the floor of the square root, [spow i] the sum of the z-th powers of 1..i, at the arguments used. *)
Theorem C58_power_sums : forall (T : Type) (zero one : T) (add mul sub : T -> T -> T) (opp : T -> T) (eqb : T -> T -> bool),
  ring_theory zero one add mul sub opp eq -> (forall a b, eqb a b = true <-> a = b) ->
  forall (root : nat -> option nat) (mk0 z : nat) (spow : nat -> option T) (n : nat), 1 <= n -> root n = Some (Nat.sqrt n) ->
  (forall i, 1 <= i <= n -> spow i = Some (total zero add (fun k => rpow one mul (rnat zero one add k) z) i)) ->
  exists s, prime_power_sum_sqrt zero one add mul sub eqb root mk0 z spow n = Some s /\
    forall k, 1 <= k <= n -> sqm_el s (n / k) = Some (prime_total zero add (fun p => rpow one mul (rnat zero one add p) z) (n / k)).
Proof.
  intros T zero one add mul sub opp eqb Rth Eqb root mk0 z spow n N R S. destruct (pps_run zero one add mul sub opp eqb Rth Eqb root mk0 z n spow N R S) as (s & E & P). exists s. split; [exact E|]. intros k K. apply (rep_el _ _ _ _ _ P). split; [apply Nat.div_le_lower_bound; lia|]. right. exists k. split; [lia|reflexivity].
Qed.

(** sum_pow(0, i, 1) and sum_pow(1, i, 1) as modelled for C72 *)
Definition zpow (z : nat) (i : nat) : option Z := sum_pow_small (Z.of_nat z) (Z.of_nat i).
Lemma zpow_total z i : z <= 3 -> zpow z i = Some (total 0%Z Z.add (fun k => rpow 1%Z Z.mul (rnat 0%Z 1%Z Z.add k) z) i).
Proof.
  intros H. unfold zpow. rewrite sum_pow_small_spec by lia. f_equal. rewrite Nat2Z.id. unfold total. induction i as [|i IH]; [reflexivity|]. cbn [sum1 rsum]. rewrite IH. f_equal. rewrite rnat_Z. clear. induction z as [|z IH]; [reflexivity|]. cbn [rpow]. rewrite <- IH. rewrite (Nat2Z.inj_succ z), Z.pow_succ_r by lia. lia.
Qed.

Section Exact.
Variables (root : nat -> option nat) (mk0 : nat).
Lemma zps_run z n : 1 <= n -> z <= 3 -> root n = Some (Nat.sqrt n) -> exists s, z_power_sum_sqrt root mk0 z (zpow z) n = Some s /\ rep (Nat.sqrt n + 1 - 1) n s (prime_total 0%Z Z.add (fun k => rpow 1%Z Z.mul (rnat 0%Z 1%Z Z.add k) z)).
Proof.
  intros N Zz R. apply (pps_run 0%Z 1%Z Z.add Z.mul Z.sub Z.opp Z.eqb Zth); [apply Z.eqb_eq|exact N|exact R|]. intros i _. now apply zpow_total.
Qed.
Lemma quot_key ml n k : 1 <= k <= n -> skey ml n (n / k).
Proof. intros K. split; [apply Nat.div_le_lower_bound; lia|]. right. exists k. split; [lia|reflexivity]. Qed.
Lemma self_key ml n : 1 <= n -> skey ml n n.
Proof. intros K. rewrite <- (Nat.div_1_r n) at 2. apply quot_key. lia. Qed.

(** prime_pi_sqrt and prime_sum_sqrt at every quotient; prime_pi and prime_sum at every integer *)
Theorem C58_prime_pi_sqrt : forall n, 1 <= n -> root n = Some (Nat.sqrt n) ->
  exists s, prime_pi_sqrt root mk0 (zpow 0) n = Some s /\ forall k, 1 <= k <= n -> sqm_el s (n / k) = Some (Z.of_nat (count_primes (n / k))).
Proof.
  intros n N R. destruct (zps_run 0 n N ltac:(lia) R) as (s & E & P). exists s. split; [exact E|]. intros k K. rewrite <- total_pi. apply (rep_el _ _ _ _ _ P), quot_key, K.
Qed.
Theorem C58_prime_sum_sqrt : forall n, 1 <= n -> root n = Some (Nat.sqrt n) ->
  exists s, prime_sum_sqrt root mk0 (zpow 1) n = Some s /\ forall k, 1 <= k <= n -> sqm_el s (n / k) = Some (Z.of_nat (sum_primes (n / k))).
Proof.
  intros n N R. destruct (zps_run 1 n N ltac:(lia) R) as (s & E & P). exists s. split; [exact E|]. intros k K. rewrite <- total_sum. apply (rep_el _ _ _ _ _ P), quot_key, K.
Qed.
Theorem C58_prime_pi : forall n : Z, root (Z.to_nat n) = Some (Nat.sqrt (Z.to_nat n)) -> prime_pi root mk0 (zpow 0) n = Some (Z.of_nat (count_primes (Z.to_nat n))).
Proof.
  intros n R. unfold prime_pi. destruct (Z.ltb_spec n 1) as [L|L]; [replace (Z.to_nat n) with 0 by lia; reflexivity|]. destruct (zps_run 0 (Z.to_nat n) ltac:(lia) ltac:(lia) R) as (s & E & P). unfold prime_pi_sqrt. rewrite E. cbn [obind].
  destruct (rep_index _ _ _ _ _ P (self_key _ (Z.to_nat n) ltac:(lia))) as (s' & -> & _). cbn [obind]. now rewrite total_pi.
Qed.
Theorem C58_prime_sum : forall n : Z, root (Z.to_nat n) = Some (Nat.sqrt (Z.to_nat n)) -> prime_sum root mk0 (zpow 1) n = Some (Z.of_nat (sum_primes (Z.to_nat n))).
Proof.
  intros n R. unfold prime_sum. destruct (Z.ltb_spec n 1) as [L|L]; [replace (Z.to_nat n) with 0 by lia; reflexivity|]. destruct (zps_run 1 (Z.to_nat n) ltac:(lia) ltac:(lia) R) as (s & E & P). unfold prime_sum_sqrt. rewrite E. cbn [obind].
  destruct (rep_index _ _ _ _ _ P (self_key _ (Z.to_nat n) ltac:(lia))) as (s' & -> & _). cbn [obind]. now rewrite total_sum.
Qed.

(** the two residue classes modulo 4 *)
Lemma pi13_all n : 1 <= n -> root n = Some (Nat.sqrt n) -> exists s, prime_pi13_sqrt root mk0 n = Some s /\ rep2 n s (fun v => Z.of_nat (count_primes4 1 v)) (fun v => Z.of_nat (count_primes4 3 v)).
Proof.
  intros N R. destruct (Nat.eq_dec n 1) as [->|N1].
  - unfold prime_pi13_sqrt. rewrite R. cbn [obind]. destruct (rep_new 0%Z (Nat.sqrt 1 + 1) 1 mk0) as (a & -> & Ra); [cbn; lia|]. cbn [obind Nat.leb]. exists (a, a). split; [reflexivity|]. split; (exists (fun _ => 0%Z); split; [exact Ra|]); intros v (i & I & ->); replace i with 1 by lia; reflexivity.
  - destruct (pi13_run root mk0 n ltac:(lia) R) as (s & E & P). exists s. split; [exact E|]. eapply rep2_ext; [exact P| |]; intros v _; apply total4_count.
Qed.
Theorem C58_prime_pi13_sqrt : forall n, 1 <= n -> root n = Some (Nat.sqrt n) ->
  exists a b, prime_pi13_sqrt root mk0 n = Some (a, b) /\
    forall k, 1 <= k <= n -> sqm_el a (n / k) = Some (Z.of_nat (count_primes4 1 (n / k))) /\ sqm_el b (n / k) = Some (Z.of_nat (count_primes4 3 (n / k))).
Proof.
  intros n N R. destruct (pi13_all n N R) as ((a & b) & E & (f & Pa & Ea) & (g & Pb & Eb)). exists a, b. split; [exact E|]. intros k K. cbn [fst snd] in Pa, Pb.
  rewrite (rep_el _ _ _ _ _ Pa) by now apply quot_key. rewrite (rep_el _ _ _ _ _ Pb) by now apply quot_key. rewrite Ea, Eb by (exists k; auto). auto.
Qed.
Theorem C58_prime_pi1 : forall n : Z, root (Z.to_nat n) = Some (Nat.sqrt (Z.to_nat n)) -> prime_pi1 root mk0 n = Some (Z.of_nat (count_primes4 1 (Z.to_nat n))).
Proof.
  intros n R. unfold prime_pi1. destruct (Z.ltb_spec n 1) as [L|L]; [replace (Z.to_nat n) with 0 by lia; reflexivity|]. destruct (pi13_all (Z.to_nat n) ltac:(lia) R) as (s & -> & P). cbn [obind].
  destruct (read2_run _ s _ _ false (Z.to_nat n) P) as (s' & -> & _); [exists 1; rewrite Nat.div_1_r; split; [lia|reflexivity]|reflexivity].
Qed.
Theorem C58_prime_pi3 : forall n : Z, root (Z.to_nat n) = Some (Nat.sqrt (Z.to_nat n)) -> prime_pi3 root mk0 n = Some (Z.of_nat (count_primes4 3 (Z.to_nat n))).
Proof.
  intros n R. unfold prime_pi3. destruct (Z.ltb_spec n 1) as [L|L]; [replace (Z.to_nat n) with 0 by lia; reflexivity|]. destruct (pi13_all (Z.to_nat n) ltac:(lia) R) as (s & -> & P). cbn [obind].
  destruct (read2_run _ s _ _ true (Z.to_nat n) P) as (s' & -> & _); [exists 1; rewrite Nat.div_1_r; split; [lia|reflexivity]|reflexivity].
Qed.
(** prime_power_sum_sqrt(z, 0, id) divides by zero: the two-argument entry points guard against it, the map itself does not *)
Theorem C58_zero_refuted : forall z spow, root 0 = Some 0 -> z_power_sum_sqrt root mk0 z spow 0 = None.
Proof. intros z spow R. unfold z_power_sum_sqrt, prime_power_sum_sqrt. rewrite R. reflexivity. Qed.
End Exact.

(** the counts in the specification are the usual ones; the hypothesis on [root] holds of sqrtT *)
Example C58_case : let root := fun n => let* r := sqrtT (Z.of_nat n) 1 0 in Some (Z.to_nat r) in
  root 100 = Some (Nat.sqrt 100) /\ prime_pi root 0 (zpow 0) 100 = Some 25%Z /\ prime_sum root 0 (zpow 1) 30 = Some 129%Z /\ prime_pi1 root 0 50 = Some 6%Z /\ prime_pi3 root 0 50 = Some 8%Z /\
  primes_upto 30 = [2; 3; 5; 7; 11; 13; 17; 19; 23; 29] /\ prime_pi root 0 (zpow 0) (-5) = Some 0%Z.
Proof. repeat split; vm_compute; reflexivity. Qed.
Print Assumptions C58_power_sums.
Print Assumptions C58_prime_pi_sqrt.
Print Assumptions C58_prime_sum_sqrt.
Print Assumptions C58_prime_pi.
Print Assumptions C58_prime_sum.
Print Assumptions C58_prime_pi13_sqrt.
Print Assumptions C58_prime_pi1.
Print Assumptions C58_prime_pi3.
Print Assumptions C58_zero_refuted.
