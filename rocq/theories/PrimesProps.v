(** Properties C19-C21: the prime sieve, sieved arithmetic functions, factorisation tables. *)
From Verif Require Import Lib PrimesModel PrimesSpec PrimesProofs PrimesProofs2 PrimesProofs3 PrimesProofs4 PrimesProofs5.
Open Scope nat_scope.

(** C19: with q of at least n entries and room in p for the primes and one more entry, the call returns the number of primes below
    n, q holds exactly the primality flags and p starts with all primes below n in increasing order followed by 0; everything else is as before *)
Theorem C19_primes : forall (p0 : list nat) (q0 : list bool) n, n <= length q0 -> length (primes_below n) < length p0 ->
  exists p q, primes (Some p0) q0 n = Some (Some p, q, length (primes_below n)) /\ p = primes_below n ++ 0 :: skipn (length (primes_below n) + 1) p0 /\ table n primeb q0 q.
Proof.
  intros p0 q0 n Hq Hp. destruct (primes_run (Some p0) q0 n Hq Hp) as (p & q & E & Hh & T). unfold p_holds in Hh. destruct p as [p|]; [|contradiction]. destruct Hh as (rest & El & Er & L). rewrite app_length in Er. cbn [length] in Er. exists p, q. split; [exact E|]. split; [|exact T]. rewrite El, Er, <- app_assoc. reflexivity.
Qed.
(** without p *)
Theorem C19_flags_only : forall (q0 : list bool) n, n <= length q0 -> exists q, primes None q0 n = Some (None, q, length (primes_below n)) /\ table n primeb q0 q.
Proof. intros q0 n Hq. destruct (primes_run None q0 n Hq I) as (p & q & E & Hh & T). destruct p; [contradiction|]. exists q. auto. Qed.
(** the flags and the list mean primality *)
Theorem C19_primeb : forall p, primeb p = true <-> is_prime p.
Proof. exact primeb_spec. Qed.
Theorem C19_primes_below : forall n p, In p (primes_below n) <-> p < n /\ is_prime p.
Proof. exact primes_below_in. Qed.
(** q null: the flags live in the last n bytes of p, which the primes overwrite; no flag is overwritten before it is read *)
Theorem C19_in_place : forall (mem0 : list nat) n, 1 <= n -> (Z.of_nat n <= 2 ^ 31)%Z -> length mem0 = 4 * n ->
  exists mem, primes_in_place mem0 n = Some (mem, length (primes_below n)) /\ length mem = 4 * n /\
    (forall k p, nth_error (primes_below n) k = Some p -> read_int mem k = Some p) /\ read_int mem (length (primes_below n)) = Some 0.
Proof. exact in_place_run. Qed.
(** the documented size pi(n) of p is too small: the final p[m] = 0 is written past the end *)
Theorem C19_size_refuted : exists p0 q0 n, n <= length q0 /\ length p0 = length (primes_below n) /\ primes (Some p0) q0 n = None.
Proof. exists [0; 0; 0; 0], (repeat false 10), 10. split; [cbn; lia|]. split; reflexivity. Qed.
(** and with n = 0 a p of no entries is written too *)
Theorem C19_empty_refuted : primes_in_place [] 0 = None.
Proof. reflexivity. Qed.
(** number of primes up to each index; the terminating 0 written by primes is needed *)
Theorem C19_prime_pi : forall pi0 n rest, 3 <= n -> n <= length pi0 ->
  exists pi, prime_pi pi0 n (primes_below n ++ 0 :: rest) = Some pi /\ table n (fun i => length (primes_below (i + 1))) pi0 pi.
Proof. exact prime_pi_run. Qed.
(** for n <= 2 the terminating 0 is taken for a prime *)
Theorem C19_prime_pi_small_refuted : exists pi, prime_pi [7; 7] 2 (primes_below 2 ++ [0; 0; 0]) = Some pi /\ nth_error pi 0 <> Some (length (primes_below 1)).
Proof. eexists. split; [reflexivity|]. cbn. discriminate. Qed.
(** with exactly the m primes that the parameters promise, the entry after the last one is read *)
Theorem C19_prime_pi_size_refuted : prime_pi (repeat 0 10) 10 (primes_below 10) = None.
Proof. reflexivity. Qed.
Example C19_case : exists p q, primes (Some (repeat 9 12)) (repeat true 30) 30 = Some (Some p, q, 10) /\ p = [2; 3; 5; 7; 11; 13; 17; 19; 23; 29; 0; 9] /\ nth_error q 29 = Some true /\ nth_error q 27 = Some false.
Proof. eexists _, _. split; [vm_compute; reflexivity|]. split; [reflexivity|]. split; reflexivity. Qed.
Example C19_in_place_case : exists mem, primes_in_place (repeat 255 48) 12 = Some (mem, 5) /\ map (read_int mem) [0; 1; 2; 3; 4; 5] = map Some [2; 3; 5; 7; 11; 0].
Proof. eexists. split; [vm_compute; reflexivity|vm_compute; reflexivity]. Qed.
Example C19_pi_case : exists pi, prime_pi (repeat 0 12) 12 (primes_below 12 ++ [0]) = Some pi /\ pi = [0; 0; 1; 2; 2; 3; 3; 4; 4; 4; 4; 5].
Proof. eexists. split; [vm_compute; reflexivity|vm_compute; reflexivity]. Qed.

(** C20 *)
Theorem C20_euler_phi : forall phi0 n rest, n <= length phi0 -> exists phi, euler_phi phi0 n (primes_below n ++ rest) (length (primes_below n)) = Some phi /\ table n totient phi0 phi.
Proof. exact euler_phi_run. Qed.
Theorem C20_moebius_mu : forall mu0 n, 1 <= n -> n <= length mu0 -> exists mu, moebius_mu mu0 n = Some mu /\ table n mobius mu0 mu.
Proof. exact moebius_run. Qed.
Theorem C20_prime_nu : forall nu0 n rest, n <= length nu0 -> exists nu, prime_nu nu0 n (primes_below n ++ rest) (length (primes_below n)) = Some nu /\ table n (fun i => length (prime_divisors i)) nu0 nu.
Proof. exact prime_nu_run. Qed.
(** index 0 is not written *)
Theorem C20_divisor_sigma0 : forall ds0 n, n <= length ds0 -> exists ds, divisor_sigma0 ds0 n = Some ds /\ length ds = length ds0 /\
  (forall i, 0 < i < n -> nth_error ds i = Some (length (divisors_of i))) /\ (forall i, i = 0 \/ n <= i -> nth_error ds i = nth_error ds0 i).
Proof.
  intros ds0 n Hn. destruct (sigma_run (fun _ => 1) ds0 n Hn) as (ds & E & L & V & O). exists ds. split; [exact E|]. split; [exact L|]. split; [|exact O]. intros i Hi. rewrite (V i Hi). f_equal. generalize (divisors_of i). induction l as [|x l IH]; [reflexivity|]. cbn. unfold list_sum in IH. now rewrite IH.
Qed.
Theorem C20_divisor_sigma1 : forall ds0 n, n <= length ds0 -> exists ds, divisor_sigma1 ds0 n = Some ds /\ length ds = length ds0 /\
  (forall i, 0 < i < n -> nth_error ds i = Some (list_sum (divisors_of i))) /\ (forall i, i = 0 \/ n <= i -> nth_error ds i = nth_error ds0 i).
Proof. intros ds0 n Hn. destruct (sigma_run (fun i => i) ds0 n Hn) as (ds & E & L & V & O). exists ds. split; [exact E|]. split; [exact L|]. split; [|exact O]. intros i Hi. rewrite (V i Hi). now rewrite map_id. Qed.
(** moebius_mu writes mu[0] even for an empty range *)
Theorem C20_moebius_empty_refuted : moebius_mu [] 0 = None.
Proof. reflexivity. Qed.
Example C20_phi_case : exists t, euler_phi (repeat 99 13) 13 (primes_below 13) (length (primes_below 13)) = Some t /\ t = [0; 1; 1; 2; 2; 4; 2; 6; 4; 6; 4; 10; 4].
Proof. eexists. split; [vm_compute; reflexivity|vm_compute; reflexivity]. Qed.
Example C20_mu_case : exists t, moebius_mu (repeat 99%Z 13) 13 = Some t /\ t = [0; 1; -1; -1; 0; -1; 1; -1; 0; 0; 1; -1; 0]%Z.
Proof. eexists. split; [vm_compute; reflexivity|vm_compute; reflexivity]. Qed.
Example C20_nu_case : exists t, prime_nu (repeat 99 13) 13 (primes_below 13) 5 = Some t /\ t = [0; 0; 1; 1; 1; 1; 2; 1; 1; 1; 2; 1; 2].
Proof. eexists. split; [vm_compute; reflexivity|vm_compute; reflexivity]. Qed.
Example C20_sigma_case : divisor_sigma0 (repeat 99 13) 13 = Some [99; 1; 2; 2; 3; 2; 4; 2; 4; 3; 4; 2; 6] /\ divisor_sigma1 (repeat 99 7) 7 = Some [99; 1; 3; 4; 7; 6; 12].
Proof. split; vm_compute; reflexivity. Qed.

(** C21: 0 for 0, 1 and the primes, the least prime factor for composites *)
Theorem C21_smallest_factor : forall s0 n, 1 <= n -> n <= length s0 -> exists s, smallest_factor s0 n = Some s /\ length s = length s0 /\
  (forall x, x < n -> exists v, nth_error s x = Some v /\ ((2 <= x /\ ~ is_prime x -> least_prime_factor x v) /\ (x < 2 \/ is_prime x -> v = 0))) /\ (forall x, n <= x -> nth_error s x = nth_error s0 x).
Proof. exact smallest_run. Qed.
(** n = 0: the index n - 1 wraps around *)
Theorem C21_smallest_empty_refuted : smallest_factor [] 0 = None.
Proof. reflexivity. Qed.
Theorem C21_factor : forall b0 n rest, 2 <= n -> n <= length b0 -> exists b, factor b0 n (primes_below n ++ rest) (length (primes_below n)) = Some b /\ length b = length b0 /\
  nth_error b 0 = Some 0 /\ nth_error b 1 = Some 1 /\ (forall x, 2 <= x < n -> exists v, nth_error b x = Some v /\ greatest_prime_factor x v) /\ (forall x, n <= x -> nth_error b x = nth_error b0 x).
Proof. exact factor_run. Qed.
(** the entry 1 is written for every n *)
Theorem C21_factor_one_refuted : factor [5] 1 (primes_below 1) 0 = None.
Proof. reflexivity. Qed.
(** any table of prime factors for 2..n serves *)
Theorem C21_factor_integer : forall vf n pf, 0 < n -> pf_table n pf -> exists fs, factor_integer vf n pf = Some (vf ++ fs) /\ factorisation n fs.
Proof. exact factor_integer_run. Qed.
Theorem C21_factor_integer_to_map : forall mf n pf, 0 < n -> pf_table n pf -> exists mf' fs, factor_integer_to_map mf n pf = Some mf' /\ factorisation n fs /\ forall q, mf' q = mf q + exponent fs q.
Proof. exact factor_map_run. Qed.
Theorem C21_factor_product : forall vf vn pf, (forall x, In x vn -> 0 < x) -> (forall x, In x vn -> pf_table x pf) -> exists fs, factor_integer_of_product vf vn pf = Some (vf ++ fs) /\ factorisation (fold_right Nat.mul 1 vn) fs.
Proof. exact factor_integers_run. Qed.
(** in particular the table that [factor] makes *)
Theorem C21_factor_then_integer : forall b0 N rest n vf, 2 <= N -> N <= length b0 -> 0 < n < N ->
  exists b fs, factor b0 N (primes_below N ++ rest) (length (primes_below N)) = Some b /\ factor_integer vf n b = Some (vf ++ fs) /\ factorisation n fs.
Proof.
  intros b0 N rest n vf H2 HN Hn. destruct (factor_run b0 N rest H2 HN) as (b & E & _ & _ & _ & V & _). destruct (factor_integer_run vf n b) as (fs & F & G); [lia| |exists b, fs; auto].
  intros k Hk. destruct (V k) as (v & Ev & Pv & Dv & _); [lia|]. exists v. auto.
Qed.
(** the table of smallest_factor does not serve: a prime entry is 0 and the remainder by it is taken *)
Theorem C21_smallest_then_integer_refuted : exists s, smallest_factor (repeat 1 8) 8 = Some s /\ factor_integer [] 7 s = None.
Proof. eexists. split; [vm_compute; reflexivity|vm_compute; reflexivity]. Qed.
(** a zero among the integers: the division of 0 does not end, whatever number of turns it is given *)
Theorem C21_zero_refuted : forall p e fuel, 2 <= p -> loopZ fuel (divide_step p) (0, e) = None.
Proof.
  intros p e fuel Hp. assert (G : forall k e, exists e', iterP k (divide_step p) (0, e) = Some (inl (0, e'))).
  { assert (S1 : forall e, divide_step p (0, e) = Some (inl (0, e + 1))) by (intros c; unfold divide_step; destruct (Nat.eqb_spec p 0); [lia|]; rewrite Nat.mod_0_l, Nat.div_0_l by lia; reflexivity).
    induction k as [k IH|k IH|]; intros c; cbn [iterP]; [rewrite S1| |rewrite S1; eauto]; [destruct (IH (c + 1)) as (c1 & ->)|destruct (IH c) as (c1 & ->)]; destruct (IH c1) as (c2 & ->); eauto. }
  destruct fuel as [|k|k]; [reflexivity| |reflexivity]. cbn [loopZ]. destruct (G k e) as (e' & ->). reflexivity.
Qed.
Theorem C21_product_zero_refuted : exists b, factor (repeat 99 8) 8 (primes_below 8) 4 = Some b /\ factor_integer_of_product [] [6; 0] b = None.
Proof. eexists. split; [vm_compute; reflexivity|vm_compute; reflexivity]. Qed.
Example C21_spf_case : exists t, smallest_factor (repeat 99 17) 16 = Some t /\ t = [0; 0; 0; 0; 2; 0; 2; 0; 2; 3; 2; 0; 2; 0; 2; 3; 99].
Proof. eexists. split; [vm_compute; reflexivity|vm_compute; reflexivity]. Qed.
Example C21_case : exists b, factor (repeat 99 101) 101 (primes_below 101) 25 = Some b /\ factor_integer [] 84 b = Some [(7, 1); (3, 1); (2, 2)] /\ factor_integer_of_product [] [84; 90; 7] b = Some [(7, 2); (3, 3); (2, 3); (5, 1)].
Proof. eexists. split; [vm_compute; reflexivity|]. split; vm_compute; reflexivity. Qed.

Print Assumptions C19_primes.
Print Assumptions C19_flags_only.
Print Assumptions C19_primeb.
Print Assumptions C19_primes_below.
Print Assumptions C19_in_place.
Print Assumptions C19_size_refuted.
Print Assumptions C19_empty_refuted.
Print Assumptions C19_prime_pi.
Print Assumptions C19_prime_pi_small_refuted.
Print Assumptions C19_prime_pi_size_refuted.
Print Assumptions C20_euler_phi.
Print Assumptions C20_moebius_mu.
Print Assumptions C20_prime_nu.
Print Assumptions C20_divisor_sigma0.
Print Assumptions C20_divisor_sigma1.
Print Assumptions C20_moebius_empty_refuted.
Print Assumptions C21_smallest_factor.
Print Assumptions C21_smallest_empty_refuted.
Print Assumptions C21_factor.
Print Assumptions C21_factor_one_refuted.
Print Assumptions C21_factor_integer.
Print Assumptions C21_factor_integer_to_map.
Print Assumptions C21_factor_product.
Print Assumptions C21_factor_then_integer.
Print Assumptions C21_smallest_then_integer_refuted.
Print Assumptions C21_zero_refuted.
Print Assumptions C21_product_zero_refuted.
