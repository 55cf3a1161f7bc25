(** Binomial theorem, the p-th power of a sum, Fermat over Z, Euler's criterion. *)
From Coq Require Import Ring Ring_theory Permutation.
From Verif Require Import Lib RingSpec RingProofs PrimesSpec PrimesProofs PrimesProofs2 PrimesProofs3 NumTheory NumTheory2.
Open Scope nat_scope.

Fixpoint binom (n k : nat) : nat :=
  match n, k with
  | _, O => 1
  | O, S _ => 0
  | S n, S k => binom n k + binom n (S k)
  end.
Lemma binom_0 n : binom n 0 = 1. Proof. destruct n; reflexivity. Qed.
Lemma binom_big n : forall k, n < k -> binom n k = 0.
Proof. induction n as [|n IH]; intros [|k] H; cbn [binom]; try lia. rewrite !IH by lia. reflexivity. Qed.
Lemma binom_diag n : binom n n = 1.
Proof. induction n as [|n IH]; [reflexivity|]. cbn [binom]. rewrite IH, binom_big by lia. reflexivity. Qed.
Lemma binom_SS n k : binom (S n) (S k) = binom n k + binom n (S k). Proof. reflexivity. Qed.
Lemma absorption n : forall k, S k * binom (S n) (S k) = S n * binom n k.
Proof.
  induction n as [|n IH]; intros k.
  - destruct k as [|k]; [reflexivity|]. rewrite !binom_SS. cbn [binom]. lia.
  - rewrite (binom_SS (S n) k). destruct k as [|k].
    + pose proof (IH 0) as A. rewrite binom_0 in A |- *. lia.
    + pose proof (IH k) as A. pose proof (IH (S k)) as B. rewrite (binom_SS n k) in *. nia.
Qed.
Lemma binom_prime p k : is_prime p -> 0 < k < p -> Nat.divide p (binom p k).
Proof.
  intros P K. destruct k as [|k]; [lia|]. destruct p as [|p]; [lia|]. pose proof (absorption p k) as A. assert (D : Nat.divide (S p) (S k * binom (S p) (S k))) by (rewrite A; apply Nat.divide_factor_l).
  apply prime_euclid in D as [D|D]; [|exact D|exact P]. apply Nat.divide_pos_le in D; lia.
Qed.

Section Ring.
Context {T : Type} (zero one : T) (add mul sub : T -> T -> T) (opp : T -> T).
Hypothesis Rth : ring_theory zero one add mul sub opp (@eq T).
Add Ring Tring : Rth.
Notation "0" := zero. Notation "1" := one. Infix "+" := add. Infix "*" := mul.
Notation rsum := (rsum zero add). Notation rpow := (rpow one mul). Notation rnat := (rnat zero one add).
Lemma rnat_mulT a b : rnat (Nat.mul a b) = rnat a * rnat b.
Proof. induction a as [|a IH]; cbn [Nat.mul RingSpec.rnat]; [ring|]. rewrite (rnat_add zero one add mul sub opp Rth), IH. ring. Qed.
Theorem binomial x y n : rpow (x + y) n = rsum (S n) (fun k => rnat (binom n k) * (rpow x k * rpow y (n - k))).
Proof.
  induction n as [|n IH]; [cbn; ring|]. cbn [RingSpec.rpow]. rewrite IH.
  rewrite (rsum_S_l zero one add mul sub opp Rth (S n) (fun k => rnat (binom (S n) k) * (rpow x k * rpow y (S n - k)))).
  transitivity (rsum (S n) (fun k => rnat (binom n k) * (rpow x (S k) * rpow y (n - k))) + (rpow y (S n) + rsum (S n) (fun k => rnat (binom n (S k)) * (rpow x (S k) * rpow y (n - k))))).
  - transitivity (rsum (S n) (fun k => rnat (binom n k) * (rpow x k * rpow y (n - k))) * x + rsum (S n) (fun k => rnat (binom n k) * (rpow x k * rpow y (n - k))) * y); [ring|]. f_equal.
    + rewrite <- (rsum_mul_r zero one add mul sub opp Rth). apply rsum_ext. intros i _. cbn [RingSpec.rpow]. ring.
    + rewrite <- (rsum_mul_r zero one add mul sub opp Rth). rewrite (rsum_S_l zero one add mul sub opp Rth n). rewrite (rsum_S zero add n (fun k => rnat (binom n (S k)) * (rpow x (S k) * rpow y (n - k)))). rewrite (binom_big n (S n)) by lia. rewrite binom_0, Nat.sub_0_r. cbn [RingSpec.rnat RingSpec.rpow].
      rewrite (rsum_ext zero add n _ (fun k => rnat (binom n (S k)) * (rpow x k * x * rpow y (n - k)))); [ring|]. intros i I. replace (n - i) with (S (n - S i)) by lia. cbn [RingSpec.rpow]. ring.
  - rewrite binom_0, Nat.sub_0_r. transitivity (rpow y (S n) + rsum (S n) (fun k => rnat (binom n k) * (rpow x (S k) * rpow y (n - k)) + rnat (binom n (S k)) * (rpow x (S k) * rpow y (n - k)))).
    + rewrite (rsum_add zero one add mul sub opp Rth). ring.
    + f_equal; [cbn [RingSpec.rnat RingSpec.rpow]; ring|]. apply rsum_ext. intros i _. cbn [binom]. rewrite (rnat_add zero one add mul sub opp Rth). replace (S n - S i)%nat with (n - i)%nat by lia. ring.
Qed.
Theorem frobenius p x y : is_prime p -> exists w, rpow (x + y) p = rpow x p + rpow y p + rnat p * w.
Proof.
  intros P. pose proof (prime_ge p P) as P2. rewrite binomial. destruct p as [|p]; [lia|].
  assert (D : exists c : nat -> nat, forall k, k < p -> binom (S p) (S k) = (S p * c k)%nat).
  { exists (fun k => binom (S p) (S k) / S p). intros k K. apply Nat.div_exact; [lia|]. apply Nat.mod_divide; [lia|]. apply binom_prime; [exact P|lia]. }
  destruct D as (c & C). rewrite rsum_S, (rsum_S_l zero one add mul sub opp Rth p), binom_0, binom_diag, Nat.sub_diag, Nat.sub_0_r.
  exists (rsum p (fun k => rnat (c k) * (rpow x (S k) * rpow y (p - k)))). rewrite <- (rsum_mul_l zero one add mul sub opp Rth).
  rewrite (rsum_ext zero add p _ (fun k => rnat (S p) * (rnat (c k) * (rpow x (S k) * rpow y (p - k))))); [cbn [RingSpec.rpow]; change (rnat 1) with (zero + one); ring|].
  intros i I. rewrite C by exact I. rewrite rnat_mulT. replace (S p - S i) with (p - i) by lia. ring.
Qed.
End Ring.

Open Scope Z_scope.
Section Prime.
Variable p : nat.
Hypothesis P : is_prime p.
Notation pz := (Z.of_nat p).
Lemma pz_ge : 2 <= pz. Proof. pose proof (prime_ge p P). lia. Qed.
Lemma pz_mod x : (pz | x - x mod pz). Proof. pose proof pz_ge. exists (x / pz). pose proof (Z.div_mod x pz ltac:(lia)). lia. Qed.
Lemma fermatZ a : ~ (pz | a) -> (pz | a ^ Z.of_nat (p - 1) - 1).
Proof.
  intros A. pose proof pz_ge. pose proof (Z.mod_pos_bound a pz ltac:(lia)) as B. assert (A0 : a mod pz <> 0) by (intros E; apply A, Z.mod_divide; lia).
  assert (F : ((Z.to_nat (a mod pz)) ^ (p - 1) mod p = 1 mod p)%nat).
  { rewrite (Nat.mod_small 1 p) by lia. apply fermat; [exact P|]. intros D. apply Nat.divide_pos_le in D; lia. }
  apply mod_one_divide in F; [|lia|pose proof (Nat.pow_nonzero (Z.to_nat (a mod pz)) (p - 1)); lia]. rewrite pow_nat, Z2Nat.id in F by lia.
  replace (a ^ Z.of_nat (p - 1) - 1) with ((a ^ Z.of_nat (p - 1) - (a mod pz) ^ Z.of_nat (p - 1)) + ((a mod pz) ^ Z.of_nat (p - 1) - 1)) by lia. apply Z.divide_add_r; [|exact F]. apply pow_cong, pz_mod.
Qed.
Lemma fermat_p a : (pz | a ^ pz - a).
Proof.
  pose proof pz_ge. replace pz with (Z.succ (Z.of_nat (p - 1))) at 2 by lia. rewrite Z.pow_succ_r by lia. destruct (Znumtheory.Zdivide_dec pz a) as [D|D]; [apply Z.divide_sub_r; [now apply Z.divide_mul_l|exact D]|].
  replace (a * a ^ Z.of_nat (p - 1) - a) with (a * (a ^ Z.of_nat (p - 1) - 1)) by lia. now apply Z.divide_mul_r, fermatZ.
Qed.
Hypothesis Odd : p <> 2%nat.
Definition half : nat := ((p - 1) / 2)%nat.
Lemma half_eq : p = (2 * half + 1)%nat /\ (1 <= half)%nat.
Proof.
  pose proof (prime_ge p P). unfold half. assert (E : ((p - 1) mod 2 = 0)%nat).
  { destruct (Nat.eq_dec (p mod 2) 0) as [E|E]; [exfalso; apply Nat.mod_divide in E; [|lia]; destruct P as (_ & Q); apply Q in E; lia|]. pose proof (Nat.mod_upper_bound p 2 ltac:(lia)). pose proof (Nat.div_mod p 2 ltac:(lia)). replace (p - 1)%nat with (p / 2 * 2)%nat by lia. apply Nat.mod_mul. lia. }
  pose proof (Nat.div_mod (p - 1) 2 ltac:(lia)). lia.
Qed.
Lemma half_cases a : ~ (pz | a) -> (pz | a ^ Z.of_nat half - 1) \/ (pz | a ^ Z.of_nat half + 1).
Proof.
  intros A. destruct half_eq as (E & _). apply prime_Zeuclid; [exact P|]. replace ((a ^ Z.of_nat half - 1) * (a ^ Z.of_nat half + 1)) with (a ^ Z.of_nat half * a ^ Z.of_nat half - 1) by ring. rewrite <- Z.pow_add_r by lia. replace (Z.of_nat half + Z.of_nat half) with (Z.of_nat (p - 1)) by lia. now apply fermatZ.
Qed.
Lemma half_not_both a : (pz | a ^ Z.of_nat half - 1) -> (pz | a ^ Z.of_nat half + 1) -> False.
Proof. intros A B. pose proof pz_ge. assert (D : (pz | 2)) by (replace 2 with ((a ^ Z.of_nat half + 1) - (a ^ Z.of_nat half - 1)) by ring; now apply Z.divide_sub_r). apply Z.divide_pos_le in D; lia. Qed.
Lemma half_square a x : ~ (pz | a) -> (pz | x * x - a) -> (pz | a ^ Z.of_nat half - 1).
Proof.
  intros A X. destruct half_eq as (E & _). assert (Xn : ~ (pz | x)) by (intros D; apply A; replace a with (x * x - (x * x - a)) by ring; apply Z.divide_sub_r; [now apply Z.divide_mul_l|exact X]).
  replace (a ^ Z.of_nat half - 1) with (((x * x) ^ Z.of_nat half - 1) - ((x * x) ^ Z.of_nat half - a ^ Z.of_nat half)) by ring. apply Z.divide_sub_r; [|now apply pow_cong]. replace (x * x) with (x ^ 2) by ring. rewrite <- Z.pow_mul_r by lia. replace (2 * Z.of_nat half) with (Z.of_nat (p - 1)) by lia. now apply fermatZ.
Qed.
(** Euler's criterion, the other direction *)
Lemma euler_root a : (pz | a ^ Z.of_nat half - 1) -> exists x, (pz | x * x - a).
Proof.
  intros A. pose proof pz_ge. destruct half_eq as (E & H1). set (sq := map (fun i => Z.of_nat (i * i) mod pz) (seq 1 half)).
  destruct (in_dec Z.eq_dec (a mod pz) sq) as [I|N].
  - apply in_map_iff in I as (i & I & _). exists (Z.of_nat i). rewrite Nat2Z.inj_mul in I. apply Z.mod_divide; [lia|]. rewrite Zminus_mod, I, Z.sub_diag. apply Z.mod_0_l. lia.
  - exfalso. assert (B : (length ((a mod pz)%Z :: sq) <= half)%nat).
    { apply (roots_bound p P half (-1 :: repeat 0 (half - 1) ++ [1])).
      - cbn [length]. rewrite app_length, repeat_length. cbn [length]. lia.
      - replace (last (-1 :: repeat 0 (half - 1) ++ [1]) 0) with 1; [|rewrite app_comm_cons, last_last; reflexivity]. intros D. apply Z.divide_pos_le in D; lia.
      - constructor; [exact N|]. unfold sq. assert (INJ : forall i j, (1 <= i <= half)%nat -> (1 <= j <= half)%nat -> Z.of_nat (i * i) mod pz = Z.of_nat (j * j) mod pz -> i = j).
        { intros i j Hi Hj Eq. assert (D : (pz | (Z.of_nat i - Z.of_nat j) * (Z.of_nat i + Z.of_nat j))).
          { replace ((Z.of_nat i - Z.of_nat j) * (Z.of_nat i + Z.of_nat j)) with (Z.of_nat (i * i) - Z.of_nat (j * j)) by lia. apply Z.mod_divide; [lia|]. rewrite Zminus_mod, Eq, Z.sub_diag. apply Z.mod_0_l. lia. }
          apply prime_Zeuclid in D as [D|D]; [| |exact P].
          - destruct D as (c & D). assert (c = 0) by nia. subst c. lia.
          - apply Z.divide_pos_le in D; lia. }
        clear - INJ. assert (G : forall l, NoDup l -> (forall i, In i l -> (1 <= i <= half)%nat) -> NoDup (map (fun i => Z.of_nat (i * i) mod pz) l)).
        { induction l as [|i l IH]; intros ND H; cbn [map]; [constructor|]. apply NoDup_cons_iff in ND as (NI & ND). constructor; [|apply IH; [exact ND|intros j J; apply H; now right]].
          intros C. apply in_map_iff in C as (j & Ej & J). apply NI. replace i with j; [exact J|]. apply INJ; [apply H; now right|apply H; now left|exact Ej]. }
        apply G; [apply seq_NoDup|]. intros i Hi. apply in_seq in Hi. lia.
      - intros x [<-|X].
        + split; [apply Z.mod_pos_bound; lia|]. rewrite eval_pow by lia. replace ((a mod pz) ^ Z.of_nat half - 1) with ((a ^ Z.of_nat half - 1) - (a ^ Z.of_nat half - (a mod pz) ^ Z.of_nat half)) by ring. apply Z.divide_sub_r; [exact A|]. apply pow_cong, pz_mod.
        + apply in_map_iff in X as (i & <- & X). apply in_seq in X. split; [apply Z.mod_pos_bound; lia|]. rewrite eval_pow by lia. apply (half_square _ (Z.of_nat i)).
          * intros D. assert (D2 : (pz | Z.of_nat i * Z.of_nat i)). { replace (Z.of_nat i * Z.of_nat i) with ((Z.of_nat (i * i) - Z.of_nat (i * i) mod pz) + Z.of_nat (i * i) mod pz) by lia. apply Z.divide_add_r; [apply pz_mod|exact D]. }
            apply prime_Zeuclid in D2; [|exact P]. assert (D3 : (pz | Z.of_nat i)) by tauto. apply Z.divide_pos_le in D3; lia.
          * rewrite <- Nat2Z.inj_mul. apply pz_mod. }
    cbn [length] in B. unfold sq in B. rewrite map_length, seq_length in B. lia.
Qed.
End Prime.
