(** C122-C124: factorials and binomial coefficients modulo prime powers (algorithm/math/comb_mod_pp.h). *)
From Coq Require Import Znumtheory.
From Verif Require Import Lib CombSpec CmppModel CmppProofs CmppProofs2 CmppProofs3 CmppProofs6 CmppProofs7.
Open Scope Z_scope.

(** C122: the part of n! made of the factors that p does not divide, by the definition *)
Theorem C122_skipped_slow n p e : 2 <= p -> 0 <= e -> 0 <= n ->
  exists mm, factorial_mod_pp_skipped_slow n p e = Some (mm mod p ^ e, n / p) /\ zfact n = zfact (n / p) * p ^ (n / p) * mm.
Proof. intros P E N0. exists (sk p (Z.to_nat n)). split; [now apply slow_run|]. pose proof (sk_fact p P (Z.to_nat n)) as H. now rewrite Z2Nat.id in H. Qed.
(** the table of these for all i up to n *)
Theorem C122_skipped_table n p e : 2 <= p -> 0 <= e ->
  exists tbl, factorials_mod_pp_skipped n p e = Some tbl /\ length tbl = S n /\
    forall i, (i <= n)%nat -> exists mm, nth_error tbl i = Some (mm mod p ^ e) /\ zfact (Z.of_nat i) = zfact (Z.of_nat i / p) * p ^ (Z.of_nat i / p) * mm.
Proof. intros P E. destruct (table_run p P n e E) as (tbl & H1 & H2 & H3). exists tbl. split; [exact H1|]. split; [exact H2|]. intros i I. exists (sk p i). split; [now apply H3|now apply sk_fact]. Qed.
(** the fast version: from a table of only p * e + 1 entries, made for this or a higher power of p *)
Theorem C122_skipped_fast n p e E N tbl : prime p -> 1 <= e <= E -> p * e <= Z.of_nat N -> factorials_mod_pp_skipped N p E = Some tbl -> 0 <= n ->
  exists mm, factorial_mod_pp_skipped n p e tbl = Some (mm mod p ^ e, n / p) /\ zfact n = zfact (n / p) * p ^ (n / p) * mm.
Proof.
  intros PP E1 HN HT N0. pose proof (prime_ge_2 p PP) as P2. exists (sk p (Z.to_nat n)). split; [apply (skipped_run p PP e ltac:(lia) tbl N); auto; apply (made_table p e E); auto; lia|]. pose proof (sk_fact p P2 (Z.to_nat n)) as H. now rewrite Z2Nat.id in H.
Qed.
Example C122_case : exists tbl, prime 3 /\ factorials_mod_pp_skipped 12 3 4 = Some tbl /\ factorial_mod_pp_skipped 100 3 4 tbl = factorial_mod_pp_skipped_slow 100 3 4 /\ factorial_mod_pp_skipped_slow 7 3 4 = Some ((1 * 2 * 4 * 5 * 7) mod 3 ^ 4, 2).
Proof. eexists. split; [exact prime_3|]. split; [vm_compute; reflexivity|]. split; vm_compute; reflexivity. Qed.

(** C123: n! = p ^ a * mm with mm not divisible by p; the functions return mm modulo p ^ e and a *)
Theorem C123_reduced_slow n p e : prime p -> 0 <= e -> 0 <= n ->
  exists a mm, factorial_mod_pp_reduced_slow n p e = Some (mm mod p ^ e, a) /\ 0 <= a /\ zfact n = p ^ a * mm /\ ~ (p | mm).
Proof. intros PP E N0. apply reduced_slow_run; auto. now apply prime_ge_2. Qed.
Theorem C123_reduced_2 n p e E N tbl : prime p -> 1 <= e <= E -> p ^ e - 1 <= Z.of_nat N -> factorials_mod_pp_skipped N p E = Some tbl -> 0 <= n ->
  exists a mm, factorial_mod_pp_reduced_2 n p e tbl = Some (mm mod p ^ e, a) /\ 0 <= a /\ zfact n = p ^ a * mm /\ ~ (p | mm).
Proof. intros PP E1 HN HT N0. apply (reduced_2_run p PP e ltac:(lia) tbl N); auto. apply (made_table p e E); auto; [now apply prime_ge_2|lia]. Qed.
Theorem C123_reduced_fast n p e E N tbl : prime p -> 1 <= e <= E -> p * e <= Z.of_nat N -> factorials_mod_pp_skipped N p E = Some tbl -> 0 <= n ->
  exists a mm, factorial_mod_pp_reduced n p e tbl = Some (mm mod p ^ e, a) /\ 0 <= a /\ zfact n = p ^ a * mm /\ ~ (p | mm).
Proof. intros PP E1 HN HT N0. apply (reduced_run p PP e ltac:(lia) tbl N); auto. apply (made_table p e E); auto; [now apply prime_ge_2|lia]. Qed.
Example C123_case : exists tbl tbl2, prime 3 /\ factorials_mod_pp_skipped 12 3 5 = Some tbl /\ factorials_mod_pp_skipped 80 3 5 = Some tbl2 /\
  factorial_mod_pp_reduced 200 3 4 tbl = Some (17, 97) /\ factorial_mod_pp_reduced_2 200 3 4 tbl2 = Some (17, 97) /\ factorial_mod_pp_reduced_slow 200 3 4 = Some (17, 97).
Proof. do 2 eexists. split; [exact prime_3|]. split; [vm_compute; reflexivity|]. split; [vm_compute; reflexivity|]. split; [|split]; vm_compute; reflexivity. Qed.

(** C124: the same for the binomial coefficient b = n! / (k! (n - k)!) *)
Theorem C124_binomial_slow n k p e b : prime p -> 0 <= e -> 0 <= k <= n -> b * (zfact k * zfact (n - k)) = zfact n ->
  exists a mm, binomial_mod_pp_reduced_slow n k p e = Some (mm mod p ^ e, a) /\ 0 <= a /\ b = p ^ a * mm /\ ~ (p | mm).
Proof. intros PP E K B. apply binomial_slow_run; auto. now apply prime_ge_2. Qed.
Theorem C124_binomial_2 n k p e E N tbl b : prime p -> 1 <= e <= E -> p ^ e - 1 <= Z.of_nat N -> factorials_mod_pp_skipped N p E = Some tbl -> 0 <= k <= n -> b * (zfact k * zfact (n - k)) = zfact n ->
  exists a mm, binomial_mod_pp_reduced_2 n k p e tbl = Some (mm mod p ^ e, a) /\ 0 <= a /\ b = p ^ a * mm /\ ~ (p | mm).
Proof. intros PP E1 HN HT K B. apply (binomial_2_run p PP e ltac:(lia) tbl N); auto. apply (made_table p e E); auto; [now apply prime_ge_2|lia]. Qed.
Theorem C124_binomial_fast n k p e E N tbl b : prime p -> 1 <= e <= E -> p * e <= Z.of_nat N -> factorials_mod_pp_skipped N p E = Some tbl -> 0 <= k <= n -> b * (zfact k * zfact (n - k)) = zfact n ->
  exists a mm, binomial_mod_pp_reduced n k p e tbl = Some (mm mod p ^ e, a) /\ 0 <= a /\ b = p ^ a * mm /\ ~ (p | mm).
Proof. intros PP E1 HN HT K B. apply (binomial_run p PP e ltac:(lia) tbl N); auto. apply (made_table p e E); auto; [now apply prime_ge_2|lia]. Qed.
Example C124_case : exists tbl tbl2, prime 2 /\ factorials_mod_pp_skipped 10 2 5 = Some tbl /\ factorials_mod_pp_skipped 31 2 5 = Some tbl2 /\
  binomial_mod_pp_reduced 100 37 2 5 tbl = Some (19, 6) /\ binomial_mod_pp_reduced_2 100 37 2 5 tbl2 = Some (19, 6) /\ binomial_mod_pp_reduced_slow 100 37 2 5 = Some (19, 6) /\ 3 * (zfact 2 * zfact (3 - 2)) = zfact 3.
Proof. do 2 eexists. split; [exact prime_2|]. split; [vm_compute; reflexivity|]. split; [vm_compute; reflexivity|]. repeat split; vm_compute; reflexivity. Qed.
Print Assumptions C122_skipped_slow.
Print Assumptions C122_skipped_table.
Print Assumptions C122_skipped_fast.
Print Assumptions C123_reduced_slow.
Print Assumptions C123_reduced_2.
Print Assumptions C123_reduced_fast.
Print Assumptions C124_binomial_slow.
Print Assumptions C124_binomial_2.
Print Assumptions C124_binomial_fast.
