(** C88: Dirichlet convolution, division, inverse and the Moebius transform. C89: the same through the values at prime powers. C90: the completely multiplicative case. C91: sieving M from t(n) = sum p(k) M(n/k). C92: counts of squarefree numbers. *)
From Coq Require Import Ring_theory ZArithRing.
From Verif Require Import Lib BaseModel RingSpec RingProofs PrimesSpec PrimesProofs FftProofs3 DirModel DirSpec DirProofs DirProofs2 DirProofs3 DirProofs4 DirProofs5 DirProofs6.
From Coq Require Import Arith Lia.
Open Scope nat_scope.

Section Dir.
  Context {T : Type} (zero one : T) (add mul sub : T -> T -> T) (opp : T -> T) (tdiv : T -> T -> option T).
  Hypothesis Rth : ring_theory zero one add mul sub opp (@eq T).
  Notation dirichlet := (dirichlet zero add mul).
  Notation multiplicative := (multiplicative one mul).
  Notation completely_multiplicative := (completely_multiplicative one mul).
  Notation dunit := (dunit zero one).
  Notation summatory := (summatory zero add).
  Notation weighted_quotients := (weighted_quotients zero add mul).
  Notation entry := (entry zero).
  Notation zr := (zring zero one add opp).

  (** h[i] = sum of f(d) g(i/d) over the divisors of i; h[0] = 0; entries from n on stay *)
  Theorem C88_convolution h f g n : n <= length h ->
    exists h', dirichlet_convolution zero add mul h f g n = Some h' /\ length h' = length h /\
      forall i, i < length h -> nth_error h' i = if i <? n then Some (if i =? 0 then zero else dirichlet f g i) else nth_error h i.
  Proof using Rth.
    intros L. destruct (convolution_ok zero one add mul sub opp Rth (length h) _ h f g n (arr_self zero h) L) as (h' & E & A & B). exists h'. split; [exact E|]. split; [exact A|]. intros i I0. rewrite B by exact I0. destruct (i <? n); [reflexivity|]. symmetry. now apply arr_self.
  Qed.
  (** the quotient table h satisfies h * g = f below n *)
  Theorem C88_division h f g n u : n <= length h -> tdiv one (g 1) = Some u -> mul u (g 1) = one ->
    exists h', dirichlet_division one mul sub tdiv h f g n = Some h' /\ same_outside n h h' /\ forall i, 1 <= i < n -> dirichlet (entry h') g i = f i.
  Proof using Rth.
    intros L D U. destruct (division_ok zero one add mul sub opp tdiv Rth (length h) n f g _ u L U h (arr_self zero h) D) as (h' & F & E & A & B & C). exists h'. split; [exact E|]. split; [now apply (arr_outside zero n F)|]. intros i I0. rewrite <- B by exact I0. apply (dirichlet_ext zero one add mul sub opp Rth); [lia| |reflexivity]. intros j J. apply (arr_entry zero (length h)); [exact A|lia].
  Qed.
  (** at most one function satisfies that *)
  Theorem C88_division_unique g u H H' n : mul u (g 1) = one -> (forall i, 1 <= i < n -> dirichlet H g i = dirichlet H' g i) -> forall i, 1 <= i < n -> H i = H' i.
  Proof using Rth. intros U HH. now apply (dirichlet_cancel zero one add mul sub opp Rth g u). Qed.
  Theorem C88_inverse h f n u : n <= length h -> tdiv one (f 1) = Some u -> mul u (f 1) = one ->
    exists h', dirichlet_inverse zero one mul sub tdiv h f n = Some h' /\ same_outside n h h' /\ forall i, 1 <= i < n -> dirichlet f (entry h') i = dunit i.
  Proof using Rth.
    intros L D U. destruct (C88_division h dunit f n u L D U) as (h' & E & S0 & B). exists h'. split; [exact E|]. split; [exact S0|]. intros i I0. rewrite (dirichlet_comm zero one add mul sub opp Rth) by lia. now apply B.
  Qed.
  (** the Moebius transform of f is sum of f(d) mu(n/d) *)
  Theorem C88_moebius_transform h f n : n <= length h -> tdiv one one = Some one ->
    exists h', moebius_transform one mul sub tdiv h f n = Some h' /\ holds n (dirichlet f (fun d => zr (mobius d))) h h'.
  Proof using Rth.
    intros L D. assert (U : mul one one = one) by apply (Rmul_1_l Rth). destruct (division_ok zero one add mul sub opp tdiv Rth (length h) n f (fun _ => one) _ one L U h (arr_self zero h) D) as (h' & F & E & A & B & C). exists h'. split; [exact E|]. apply (arr_holds zero). apply (arr_ext (length h) F); [exact A|]. intros i I0.
    destruct (Nat.leb_spec 1 i), (Nat.ltb_spec i n); cbn [andb]; try (apply C; lia). apply (moebius_inversion zero one add mul sub opp Rth); [|lia]. intros j J. apply B. lia.
  Qed.
  (** convolution is commutative, associative, has the unit e, and quotients exist *)
  Theorem C88_algebra f g h n : 1 <= n -> dirichlet f g n = dirichlet g f n /\ dirichlet (dirichlet f g) h n = dirichlet f (dirichlet g h) n /\ dirichlet f dunit n = f n.
  Proof using Rth. intros N. split; [now apply (dirichlet_comm zero one add mul sub opp Rth)|]. split; [now apply (dirichlet_assoc zero one add mul sub opp Rth)|now apply (dirichlet_unit_r zero one add mul sub opp Rth)]. Qed.

  (** ** C89 *)
  (** V is the convolution, and multiplicative; pa lists all primes below some bound >= n *)
  Theorem C89_convolution h f g V n N : n <= length h -> n <= N -> (Z.of_nat n <= 2 ^ 32)%Z -> multiplicative V -> (forall i, 1 <= i < n -> dirichlet f g i = V i) ->
    exists h', dirichlet_convolution_multiplicative zero one add mul h f g n (primes_below N) = Some h' /\ holds n V h h'.
  Proof using Rth. intros L LN B M D. destruct (conv_mult_ok zero one add mul sub opp Rth (length h) n N _ h f g V (arr_self zero h) L LN B M D) as (h' & E & A). exists h'. split; [exact E|]. now apply (arr_holds zero). Qed.
  (** which is so whenever both functions are multiplicative *)
  Theorem C89_multiplicative f g : multiplicative f -> multiplicative g -> multiplicative (dirichlet f g).
  Proof using Rth. apply (dirichlet_mult zero one add mul sub opp Rth). Qed.
  Theorem C89_division h f g H n N : n <= length h -> n <= N -> (Z.of_nat n <= 2 ^ 32)%Z -> multiplicative H -> g 1 = one -> (forall i, 1 <= i < n -> dirichlet H g i = f i) ->
    exists h', dirichlet_division_multiplicative one mul sub h f g n (primes_below N) = Some h' /\ holds n H h h'.
  Proof using Rth. intros L LN B M G D. destruct (div_mult_ok zero one add mul sub opp Rth (length h) n N _ h f g H (arr_self zero h) L LN B M G D) as (h' & E & A). exists h'. split; [exact E|]. now apply (arr_holds zero). Qed.
  (** a multiplicative function has a multiplicative quotient by another *)
  Theorem C89_quotient f g : multiplicative f -> multiplicative g -> exists H, multiplicative H /\ forall i, 1 <= i -> dirichlet H g i = f i.
  Proof using Rth. apply (quotient_mult zero one add mul sub opp Rth). Qed.
  Theorem C89_inverse h f n N : n <= length h -> n <= N -> (Z.of_nat n <= 2 ^ 32)%Z -> multiplicative f ->
    exists h' H, dirichlet_inverse_multiplicative zero one mul sub h f n (primes_below N) = Some h' /\ holds n H h h' /\ multiplicative H /\ forall i, 1 <= i -> dirichlet f H i = dunit i.
  Proof using Rth.
    intros L LN B M. destruct (C89_quotient dunit f (mult_unit zero one add mul sub opp Rth) M) as (H & HM & HD). destruct (C89_division h dunit f H n N L LN B HM) as (h' & E & A); [apply M|intros; apply HD; lia|]. exists h', H. split; [exact E|]. split; [exact A|]. split; [exact HM|]. intros i I0. rewrite (dirichlet_comm zero one add mul sub opp Rth) by exact I0. now apply HD.
  Qed.
  Theorem C89_moebius_transform h f n N : n <= length h -> n <= N -> (Z.of_nat n <= 2 ^ 32)%Z -> multiplicative f ->
    exists h', moebius_transform_multiplicative one mul sub h f n (primes_below N) = Some h' /\ holds n (dirichlet f (fun d => zr (mobius d))) h h'.
  Proof using Rth.
    intros L LN B M. apply (C89_division h f (fun _ => one) _ n N L LN B); [apply C89_multiplicative; [exact M|apply (mu_mult zero one add mul sub opp Rth)]|reflexivity|]. intros i I0. rewrite (dirichlet_assoc zero one add mul sub opp Rth) by lia. rewrite (dirichlet_ext zero one add mul sub opp Rth f _ f dunit i); [apply (dirichlet_unit_r zero one add mul sub opp Rth); lia|lia|reflexivity|].
    intros j J. rewrite (dirichlet_comm zero one add mul sub opp Rth) by lia. apply (mu_sum zero one add mul sub opp Rth). lia.
  Qed.
  (** divisor_sigma(ds, k, n): sums of k-th powers of divisors *)
  Theorem C89_divisor_sigma cast ds k n N : n <= length ds -> n <= N -> (Z.of_nat n <= 2 ^ 32)%Z -> (0 <= k)%Z -> (forall m, cast m = rnat zero one add m) ->
    exists ds', divisor_sigma zero one add mul cast ds k n (primes_below N) = Some ds' /\ holds n (fun i => rnat zero one add (sigma_k (Z.to_nat k) i)) ds ds'.
  Proof using Rth.
    intros L LN B K C. destruct (C89_convolution ds (id_pow zero one mul cast k) (fun _ => one) (dirichlet (id_pow zero one mul cast k) (fun _ => one)) n N L LN B) as (d & E & A1 & A2); [|reflexivity|].
    - apply C89_multiplicative; [now apply (id_pow_mult zero one add mul sub opp Rth)|apply (mult_ones zero one add mul sub opp Rth)].
    - exists d. split; [exact E|]. split; [exact A1|]. intros i I0. rewrite A2 by exact I0. destruct ((1 <=? i) && (i <? n)); [|reflexivity]. f_equal. now apply (id_pow_sum zero one add mul sub opp Rth).
  Qed.

  (** ** C90; pf[k] is some prime factor of k, for 2 <= k < n *)
  Theorem C90_convolution h f g n pf : n <= length h -> pf_table (n - 1) pf -> completely_multiplicative (dirichlet f g) ->
    exists h', dirichlet_convolution_completely_multiplicative one add mul h f g n pf = Some h' /\ holds n (dirichlet f g) h h'.
  Proof using Rth. intros L P M. destruct (conv_cmult_ok zero one add mul sub opp Rth (length h) n pf _ h f g (arr_self zero h) L) as (h' & E & A); [intros k K; apply P; lia|exact M|]. exists h'. split; [exact E|]. now apply (arr_holds zero). Qed.
  Theorem C90_division h f g H n pf : n <= length h -> pf_table (n - 1) pf -> completely_multiplicative H -> g 1 = one -> (forall i, 1 <= i < n -> dirichlet H g i = f i) ->
    exists h', dirichlet_division_completely_multiplicative one mul sub h f g n pf = Some h' /\ holds n H h h'.
  Proof using Rth. intros L P M G D. destruct (div_cmult_ok zero one add mul sub opp Rth (length h) n pf _ h f g H (arr_self zero h) L) as (h' & E & A); [intros k K; apply P; lia|exact M|exact G|exact D|]. exists h'. split; [exact E|]. now apply (arr_holds zero). Qed.
  Theorem C90_inverse h f H n pf : n <= length h -> pf_table (n - 1) pf -> completely_multiplicative H -> f 1 = one -> (forall i, 1 <= i < n -> dirichlet H f i = dunit i) ->
    exists h', dirichlet_inverse_completely_multiplicative zero one mul sub h f n pf = Some h' /\ holds n H h h'.
  Proof using Rth. apply C90_division. Qed.
  Theorem C90_moebius_transform h f H n pf : n <= length h -> pf_table (n - 1) pf -> completely_multiplicative H -> (forall i, 1 <= i < n -> dirichlet H (fun _ => one) i = f i) ->
    exists h', moebius_transform_completely_multiplicative one mul sub h f n pf = Some h' /\ holds n H h h'.
  Proof using Rth. intros L P M D. now apply (C90_division h f (fun _ => one) H n pf). Qed.
  (** a table with the right values at 1 and at the primes is completed *)
  Theorem C90_calc h E n pf : n <= length h -> pf_table (n - 1) pf -> completely_multiplicative E -> (forall p, p = 1 \/ is_prime p -> p < n -> nth_error h p = Some (E p)) ->
    exists h', calc_completely_multiplicative mul h n pf = Some h' /\ holds n E h h'.
  Proof using Rth.
    intros L P M H. destruct (ccm_ok one mul (length h) n pf E (entry h) h L (arr_self zero h)) as (h' & X & A); [intros k K; apply P; lia|exact M| | |].
    - intros p Pp Lp. apply nth_error_nth, H; auto.
    - intros L1. rewrite <- (proj1 M). apply nth_error_nth, H; auto.
    - exists h'. split; [exact X|]. now apply (arr_holds zero).
  Qed.
  (** and calc_multiplicative completes one with the right values at prime powers and ones elsewhere *)
  Theorem C89_calc h E n N : n <= length h -> n <= N -> multiplicative E -> (forall q, 1 <= q < n -> nth_error h q = Some (E q) /\ prime_power q \/ nth_error h q = Some one /\ ~ prime_power q) ->
    exists h', calc_multiplicative mul h n (primes_below N) = Some h' /\ holds n E h h'.
  Proof using Rth.
    intros L LN M H. destruct (calc_ok zero one add mul sub opp Rth (length h) n N E (entry h) h L LN (arr_self zero h) M) as (h' & X & A).
    - intros p k P K Q. assert (PP : prime_power (p ^ k)) by (exists p, k; auto). pose proof (PrimesProofs4.pow_pos p k ltac:(pose proof (prime_ge p P); lia)). apply nth_error_nth. destruct (H (p ^ k) ltac:(lia)) as [[? _]|[_ ?]]; [assumption|contradiction].
    - intros m Hm NP. apply nth_error_nth. destruct (H m Hm) as [[_ ?]|[? _]]; [contradiction|assumption].
    - exists h'. split; [exact X|]. now apply (arr_holds zero).
  Qed.

  (** ** C91 *)
  Theorem C91_sieve_m M t p n u : 2 <= n <= length M -> tdiv one (p 1) = Some u -> mul u (p 1) = one ->
    exists M', sieve_m one add mul sub tdiv M t p n = Some M' /\ same_outside n M M' /\ forall i, 1 <= i < n -> weighted_quotients p (entry M') i = t i.
  Proof using Rth.
    intros [N2 L] D U. destruct (sieve_m_ok zero one add mul sub opp tdiv Rth (length M) n t p u _ M (arr_self zero M) L N2 D U) as (M' & F & E & A & B). exists M'. split; [exact E|]. split.
    - apply (arr_outside zero n _ _ _ A). intros i I0. destruct (Nat.leb_spec 1 i), (Nat.ltb_spec i n); cbn [andb]; (reflexivity || lia).
    - intros i I0. rewrite <- (quotients_of_sums zero one add mul sub opp Rth p F t n B i I0). apply (weighted_ext zero add mul). intros j J. rewrite (arr_entry zero (length M) _ M' j A) by lia. destruct (Nat.leb_spec 1 j), (Nat.ltb_spec j n); try lia. reflexivity.
  Qed.
  Theorem C91_sieve_m1 M t n : 2 <= n <= length M ->
    exists M', sieve_m1 add sub M t n = Some M' /\ same_outside n M M' /\ forall i, 1 <= i < n -> weighted_quotients (fun _ => one) (entry M') i = t i.
  Proof using Rth.
    intros [N2 L]. destruct (sieve_m1_ok zero one add mul sub opp Rth (length M) n t _ M (arr_self zero M) L N2) as (M' & F & E & A & B). exists M'. split; [exact E|]. split.
    - apply (arr_outside zero n _ _ _ A). intros i I0. destruct (Nat.leb_spec 1 i), (Nat.ltb_spec i n); cbn [andb]; (reflexivity || lia).
    - intros i I0. rewrite <- (quotients_of_sums zero one add mul sub opp Rth (fun _ => one) F t n B i I0). apply (weighted_ext zero add mul). intros j J. rewrite (arr_entry zero (length M) _ M' j A) by lia. destruct (Nat.leb_spec 1 j), (Nat.ltb_spec j n); try lia. reflexivity.
  Qed.
  (** the equation has one solution *)
  Theorem C91_unique p u M M' n : mul u (p 1) = one -> (forall i, 1 <= i < n -> weighted_quotients p M i = weighted_quotients p M' i) -> forall i, 1 <= i < n -> M i = M' i.
  Proof using Rth. intros U H. now apply (weighted_unique zero one add mul sub opp Rth p u). Qed.
  (** W is the difference of the wanted function; the entry at 0 must be zero beforehand *)
  Theorem C91_sieve_m_multiplicative M t p W n N : 1 <= n <= length M -> n <= N -> (Z.of_nat n <= 2 ^ 32)%Z -> nth_error M 0 = Some zero -> multiplicative p -> multiplicative W -> (forall i, 1 <= i < n -> t i = weighted_quotients p (summatory W) i) ->
    exists M', sieve_m_multiplicative zero one add mul sub M t p n (primes_below N) = Some M' /\ holds n (summatory W) M M'.
  Proof using Rth.
    intros [N1 L] LN B M0 HP HW H. destruct (sieve_mult_ok zero one add mul sub opp Rth (length M) n N _ M t p W (arr_self zero M) L LN N1 B HP HW) as (M' & E & A); [now apply (terms_of_quotients zero one add mul sub opp Rth)|]. exists M'. split; [exact E|]. apply (arr_holds zero). apply (arr_ext _ _ _ _ A). intros i I0. cbv beta. assert (E0 : entry M 0 = zero) by (now apply nth_error_nth). rewrite E0.
    destruct (Nat.leb_spec 1 i), (Nat.ltb_spec i n); cbn [andb]; try reflexivity; [apply (Radd_0_l Rth)|]. assert (i = 0) by lia. subst i. rewrite E0. apply (Radd_0_l Rth).
  Qed.
  Theorem C91_sieve_m_multiplicative_inv M t p q W n N : 1 <= n <= length M -> n <= N -> (Z.of_nat n <= 2 ^ 32)%Z -> nth_error M 0 = Some zero -> (forall i, 1 <= i < n -> dirichlet q p i = dunit i) -> multiplicative W -> (forall i, 1 <= i < n -> t i = weighted_quotients p (summatory W) i) ->
    exists M', sieve_m_multiplicative_inv zero one add mul sub M t q n (primes_below N) = Some M' /\ holds n (summatory W) M M'.
  Proof using Rth.
    intros [N1 L] LN B M0 HQ HW H. pose proof (terms_of_quotients zero one add mul sub opp Rth p W t n H) as HD. destruct (sieve_inv_ok zero one add mul sub opp Rth (length M) n N _ M t q W (arr_self zero M) L LN N1 B HW) as (M' & E & A).
    - intros i I0. rewrite (dirichlet_ext zero one add mul sub opp Rth q (diff sub t) q (dirichlet p W) i ltac:(lia)).
      + rewrite <- (dirichlet_assoc zero one add mul sub opp Rth) by lia. rewrite (dirichlet_ext zero one add mul sub opp Rth _ W dunit W i ltac:(lia)).
        * rewrite (dirichlet_comm zero one add mul sub opp Rth) by lia. apply (dirichlet_unit_r zero one add mul sub opp Rth). lia.
        * intros j J. apply HQ. lia.
        * reflexivity.
      + reflexivity.
      + intros j J. rewrite <- HD by lia. apply (dirichlet_comm zero one add mul sub opp Rth). lia.
    - exists M'. split; [exact E|]. apply (arr_holds zero). apply (arr_ext _ _ _ _ A). intros i I0. cbv beta. assert (E0 : entry M 0 = zero) by (now apply nth_error_nth). rewrite E0.
      destruct (Nat.leb_spec 1 i), (Nat.ltb_spec i n); cbn [andb]; try reflexivity; [apply (Radd_0_l Rth)|]. assert (i = 0) by lia. subst i. rewrite E0. apply (Radd_0_l Rth).
  Qed.
  (** the sum of a convolution, which the sieves rest on *)
  Theorem C91_summatory p m n : summatory (dirichlet p m) n = weighted_quotients p (summatory m) n.
  Proof using Rth. apply (summatory_dirichlet zero one add mul sub opp Rth). Qed.

  (** ** C92; the primes below N suffice when n <= N*N *)
  Theorem C92_sieve_sqfree_count h n N : 1 <= n <= length h -> n <= N * N ->
    exists h', sieve_sqfree_count zero one add h n (primes_below N) = Some h' /\ length h' = length h /\
      forall i, i < length h -> nth_error h' i = if i <? n then Some (rnat zero one add (count_squarefree i)) else nth_error h i.
  Proof using Rth.
    intros [N1 L] LN. destruct (sqfree_ok zero one add mul sub opp Rth (length h) n N _ h (arr_self zero h) L N1 LN) as (h' & E & A & B). exists h'. split; [exact E|]. split; [exact A|]. intros i I0. rewrite B by exact I0. destruct (i <? n); [reflexivity|]. symmetry. now apply arr_self.
  Qed.
End Dir.
(** squarefreeb decides squarefreeness *)
Theorem C92_squarefree n : 1 <= n -> (squarefreeb n = true <-> squarefree n).
Proof. apply squarefreeb_spec. Qed.

(** The headers ask only that g(1) is invertible. With g(1) = -1 the multiplicative divisions are wrong: g = -1, f = -d(n), quotient 1. *)
Theorem C89_g1_refuted : exists (f g H : nat -> Z) h', DirSpec.multiplicative 1%Z Z.mul H /\ (g 1%nat * g 1%nat = 1)%Z /\ (forall i, 1 <= i < 3 -> DirSpec.dirichlet 0%Z Z.add Z.mul H g i = f i) /\
  dirichlet_division_multiplicative 1%Z Z.mul Z.sub [0; 0; 0]%Z f g 3 (primes_below 3) = Some h' /\ nth_error h' 2 = Some (-1)%Z /\ H 2 = 1%Z.
Proof.
  exists (fun n => if (n =? 1)%nat then -1 else -2)%Z, (fun _ => -1)%Z, (fun _ => 1)%Z, [0; 1; -1]%Z. split; [split; reflexivity|]. split; [reflexivity|]. split; [|split; [vm_compute; reflexivity|split; reflexivity]]. intros i I0. assert (i = 1 \/ i = 2) as [-> | ->] by lia; reflexivity.
Qed.
Theorem C90_g1_refuted : exists (f g H : nat -> Z) h', DirSpec.completely_multiplicative 1%Z Z.mul H /\ (g 1%nat * g 1%nat = 1)%Z /\ (forall i, 1 <= i < 3 -> DirSpec.dirichlet 0%Z Z.add Z.mul H g i = f i) /\
  dirichlet_division_completely_multiplicative 1%Z Z.mul Z.sub [0; 0; 0]%Z f g 3 [0; 0; 2] = Some h' /\ nth_error h' 2 = Some (-1)%Z /\ H 2 = 1%Z.
Proof.
  exists (fun n => if (n =? 1)%nat then -1 else -2)%Z, (fun _ => -1)%Z, (fun _ => 1)%Z, [0; 1; -1]%Z. split; [split; reflexivity|]. split; [reflexivity|]. split; [|split; [vm_compute; reflexivity|split; reflexivity]]. intros i I0. assert (i = 1 \/ i = 2) as [-> | ->] by lia; reflexivity.
Qed.
(** n = 1 with a table of one entry is out of bounds in sieve_m *)
Theorem C91_one_entry_refuted (t : nat -> Z) : sieve_m1 Z.add Z.sub [0%Z] t 1 = None /\ sieve_m 1%Z Z.add Z.mul Z.sub zdivx [0%Z] t (fun _ => 1%Z) 1 = None.
Proof. split; reflexivity. Qed.
(** an initial M[0] other than zero is added to every entry by sieve_m_multiplicative (t(n) = n, p = e, M(n) = n) *)
Theorem C91_stale_zero_refuted : sieve_m_multiplicative 0%Z 1%Z Z.add Z.mul Z.sub [5; 0; 0; 0]%Z Z.of_nat (DirSpec.dunit 0%Z 1%Z) 4 (primes_below 4) = Some [5; 6; 7; 8]%Z.
Proof. vm_compute. reflexivity. Qed.

Notation zconv := (DirSpec.dirichlet 0%Z Z.add Z.mul).
(** the hypotheses are met: phi = mu * id, id completely multiplicative, ... *)
Example C88_case :
  dirichlet_convolution 0%Z Z.add Z.mul (repeat 7%Z 14) mobius Z.of_nat 13 = Some [0; 1; 1; 2; 2; 4; 2; 6; 4; 6; 4; 10; 4; 7]%Z /\
  dirichlet_division 1%Z Z.mul Z.sub zdivx (repeat 7%Z 13) (fun n => Z.of_nat (totient n)) mobius 13 = Some (7 :: map Z.of_nat (seq 1 12))%Z /\
  moebius_transform 1%Z Z.mul Z.sub zdivx (repeat 0%Z 13) Z.of_nat 13 = Some (map (fun n => Z.of_nat (totient n)) (seq 0 13)).
Proof. vm_compute. repeat split. Qed.
Example C89_case :
  DirSpec.multiplicative 1%Z Z.mul Z.of_nat /\ DirSpec.multiplicative 1%Z Z.mul (fun _ => 1%Z) /\
  dirichlet_convolution_multiplicative 0%Z 1%Z Z.add Z.mul (repeat 7%Z 14) Z.of_nat (fun _ => 1%Z) 13 (primes_below 20) = Some [7; 1; 3; 4; 7; 6; 12; 8; 15; 13; 18; 12; 28; 7]%Z /\
  dirichlet_inverse_multiplicative 0%Z 1%Z Z.mul Z.sub (repeat 0%Z 13) (fun _ => 1%Z) 13 (primes_below 13) = Some (map mobius (seq 0 13)) /\
  divisor_sigma 0%Z 1%Z Z.add Z.mul Z.of_nat (repeat 0%Z 9) 3 9 (primes_below 9) = Some (map (fun i => Z.of_nat (sigma_k 3 i)) (seq 0 9)).
Proof. split; [split; [reflexivity|intros; apply Nat2Z.inj_mul]|]. split; [split; reflexivity|]. vm_compute. repeat split. Qed.
Example C90_case :
  DirSpec.completely_multiplicative 1%Z Z.mul Z.of_nat /\ pf_table 12 [0; 1; 2; 3; 2; 5; 3; 7; 2; 3; 5; 11; 3] /\
  dirichlet_convolution_completely_multiplicative 1%Z Z.add Z.mul (repeat 0%Z 13) (fun n => Z.of_nat (totient n)) (fun _ => 1%Z) 13 [0; 1; 2; 3; 2; 5; 3; 7; 2; 3; 5; 11; 3] = Some (map Z.of_nat (seq 0 13)) /\
  dirichlet_division_completely_multiplicative 1%Z Z.mul Z.sub (repeat 0%Z 13) (fun n => Z.of_nat (totient n)) mobius 13 [0; 1; 2; 3; 2; 5; 3; 7; 2; 3; 5; 11; 3] = Some (map Z.of_nat (seq 0 13)).
Proof.
  split; [split; [reflexivity|intros; apply Nat2Z.inj_mul]|]. split; [|vm_compute; repeat split]. intros k K. assert (k < 13) by lia.
  do 13 (destruct k as [|k]; [first [exfalso; lia|eexists; split; [reflexivity|]; split; [apply primeb_spec; reflexivity|]; (exists 1 + exists 2 + exists 3 + exists 4); reflexivity]|]). lia.
Qed.
Example C91_case :
  sieve_m1 Z.add Z.sub (repeat 0%Z 11) (fun _ => 1%Z) 11 = Some [0; 1; 0; -1; -1; -2; -1; -2; -2; -2; -1]%Z /\
  sieve_m 1%Z Z.add Z.mul Z.sub zdivx (repeat 0%Z 6) (fun n => Z.of_nat n) (fun n => if (n =? 1)%nat then -1 else 0)%Z 6 = Some [0; -1; -2; -3; -4; -5]%Z /\
  sieve_m_multiplicative 0%Z 1%Z Z.add Z.mul Z.sub (repeat 0%Z 11) (fun _ => 1%Z) (fun _ => 1%Z) 11 (primes_below 11) = Some [0; 1; 0; -1; -1; -2; -1; -2; -2; -2; -1]%Z.
Proof. vm_compute. repeat split. Qed.
Example C92_case : sieve_sqfree_count 0%Z 1%Z Z.add (repeat 9%Z 14) 13 (primes_below 4) = Some [0; 1; 2; 3; 3; 4; 5; 6; 6; 6; 7; 8; 8; 9]%Z /\ count_squarefree 12 = 8.
Proof. vm_compute. split; reflexivity. Qed.
Print Assumptions C88_convolution.
Print Assumptions C88_division.
Print Assumptions C88_division_unique.
Print Assumptions C88_inverse.
Print Assumptions C88_moebius_transform.
Print Assumptions C88_algebra.
Print Assumptions C89_convolution.
Print Assumptions C89_multiplicative.
Print Assumptions C89_division.
Print Assumptions C89_quotient.
Print Assumptions C89_inverse.
Print Assumptions C89_moebius_transform.
Print Assumptions C89_divisor_sigma.
Print Assumptions C90_convolution.
Print Assumptions C90_division.
Print Assumptions C90_inverse.
Print Assumptions C90_moebius_transform.
Print Assumptions C90_calc.
Print Assumptions C89_calc.
Print Assumptions C91_sieve_m.
Print Assumptions C91_sieve_m1.
Print Assumptions C91_unique.
Print Assumptions C91_sieve_m_multiplicative.
Print Assumptions C91_sieve_m_multiplicative_inv.
Print Assumptions C91_summatory.
Print Assumptions C92_sieve_sqfree_count.
Print Assumptions C92_squarefree.
Print Assumptions C89_g1_refuted.
Print Assumptions C90_g1_refuted.
Print Assumptions C91_one_entry_refuted.
Print Assumptions C91_stale_zero_refuted.
