From Verif Require Import Lib BaseModel BaseProofs PrimesSpec PrimesProofs FactorModel FactorSpec FactorProofs FactorProofs2 FactorProofs3.
From Coq Require Import Sorted Lia.
Open Scope Z_scope.

(** miller_rabin(n, bases) is the strong probable prime test for the bases before the terminator that are below n *)
Theorem C83_miller_rabin_with n bases : 0 <= n -> In 0 bases -> exists t, miller_rabin_with n bases = Some t /\
  (t = true <-> n = 2 \/ n = 3 \/ 5 <= n /\ Z.odd n = true /\ Forall (strong_probable_prime n) (tested n bases)).
Proof. exact (miller_rabin_with_ok n bases). Qed.
(** no prime is ever rejected, whatever the bases; an answer false is a proof of compositeness *)
Theorem C83_prime_accepted n bases : primeZ n -> In 0 bases -> Forall (fun b => 0 <= b) bases -> miller_rabin_with n bases = Some true.
Proof. exact (prime_accepted n bases). Qed.
Theorem C83_miller_rabin n : 0 <= n -> exists t, miller_rabin n = Some t /\ (primeZ n -> t = true) /\
  (t = true -> n = 2 \/ n = 3 \/ 5 <= n /\ Z.odd n = true /\ Forall (strong_probable_prime n) (tested n (mr_choose n))).
Proof. intros H. destruct (miller_rabin_ok n H) as (t & E & T). exists t. split; [exact E|]. split; [|apply T]. intros P. rewrite (primes_pass n P) in E. congruence. Qed.
(** below 2047 the test is exact *)
Theorem C83_miller_rabin_exact n : 0 <= n < 2047 -> exists t, miller_rabin n = Some t /\ (t = true <-> primeZ n).
Proof. intros H. exists (primeb (Z.to_nat n)). split; [now apply miller_rabin_small|]. apply primeb_spec. Qed.
Example C83_case : primeZ 1009 /\ miller_rabin 1009 = Some true /\ miller_rabin 1111 = Some false /\ miller_rabin_with 2047 [2; 0] = Some true /\ miller_rabin 2047 = Some false.
Proof. split; [apply primeb_spec; vm_compute; reflexivity|]. repeat split. Qed.

(** pollard_rho and pollard_rho_repeated return a divisor greater than 1 *)
Theorem C84_pollard_rho n k a it : 2 <= n -> exists d, pollard_rho n k a it = Some d /\ (d | n) /\ 2 <= d.
Proof. exact (pollard_rho_ok n k a it). Qed.
Theorem C84_pollard_rho_repeated n max_iter it : 2 <= n -> exists d, pollard_rho_repeated n max_iter it = Some d /\ (d | n) /\ 2 <= d.
Proof. intros H. apply rho_repeat_ok, H. Qed.
(** factor_integer: the product is right, every factor either passes the primality test, with its multiplicity and only once, or is a composite number that could not be split *)
Theorem C84_factor_integer n max_iter : 1 <= n -> exists vf, factor_integer n max_iter = Some vf /\ productZ vf = n /\
  (forall p e, In (p, e) vf -> 2 <= p /\ 1 <= e /\ (miller_rabin p = Some true \/ ~ primeZ p /\ e = 1)) /\
  NoDup (map fst (filter (fun x => match miller_rabin (fst x) with Some t => t | None => false end) vf)).
Proof.
  intros H. destruct (factor_integer_ok n max_iter H) as (vf & E & P & F & ND). exists vf. split; [exact E|]. split; [exact P|]. split; [|exact ND].
  intros p e I0. rewrite Forall_forall in F. destruct (F _ I0) as (P2 & E1 & [M|[M E2]]); cbn [fst snd] in *; (split; [exact P2|]; split; [exact E1|]); [now left|right]. split; [|exact E2]. intros Q. apply primes_pass in Q. congruence.
Qed.
Theorem C84_factor_integer_primes n max_iter vf : 1 <= n -> factor_integer n max_iter = Some vf -> (forall p e, In (p, e) vf -> primeZ p) -> factorisationZ n vf.
Proof. exact (factor_integer_primes n max_iter vf). Qed.
Theorem C84_factor_integer_exact n : 1 <= n < 2047 -> exists vf, factor_integer n 20 = Some vf /\ factorisationZ n vf.
Proof. exact (factor_integer_small n). Qed.
Theorem C84_zero max_iter : factor_integer 0 max_iter = Some []. Proof. reflexivity. Qed.
Example C84_case : factor_integer 360360 20 = Some [(13, 1); (7, 1); (11, 1); (5, 1); (3, 2); (2, 3)] /\ factor_integer 1111 1 = Some [(1111, 1)].
Proof. split; vm_compute; reflexivity. Qed.

(** factor_integer_slow: the prime factorisation, by increasing primes *)
Theorem C85_factor_integer_slow n : 1 <= n -> exists vf, factor_integer_slow n = Some vf /\ factorisationZ n vf /\ StronglySorted Z.lt (map fst vf).
Proof. exact (factor_integer_slow_ok n). Qed.
Theorem C85_factor_out n p e : n <> 0 -> 2 <= p -> exists m k, factor_out n p e = Some (m, e + k) /\ 0 <= k /\ n = p ^ k * m /\ ~ (p | m).
Proof. exact (strip_ok n p e). Qed.
(** factor_out(0, p) never returns: any number of rounds leaves the loop running *)
Theorem C85_factor_out_zero_refuted p e : p <> 0 -> factor_out 0 p e = None /\ forall rounds, loopZ rounds (strip_step p) (0, e) = None.
Proof. intros P. split; [now apply factor_out_zero|]. intros r. now apply strip_zero_runs. Qed.
Theorem C85_from_factorization vf : Forall (fun '(_, e) => 0 <= e) vf -> from_factorization vf = Some (productZ vf).
Proof. exact (from_factorization_ok vf). Qed.
(** factoring and multiplying back *)
Theorem C85_round_trip n : 1 <= n -> exists vf, factor_integer_slow n = Some vf /\ from_factorization vf = Some n.
Proof.
  intros H. destruct (factor_integer_slow_ok n H) as (vf & E & (P & _ & F) & _). exists vf. split; [exact E|]. rewrite from_factorization_ok, P; [reflexivity|]. apply Forall_forall. intros (p & e) I0. destruct (F p e I0). lia.
Qed.
Example C85_case : factor_integer_slow 360360 = Some [(2, 3); (3, 2); (5, 1); (7, 1); (11, 1); (13, 1)] /\ factor_out (-48) 2 1 = Some (-3, 5) /\ from_factorization [(2, 3); (3, 2); (5, 0)] = Some 72.
Proof. repeat split; vm_compute; reflexivity. Qed.

(** from_primes calls the visitor exactly once for every choice of exponents whose product does not exceed n_max *)
Theorem C86_from_primes vp n_max : Forall (fun p => 2 <= p) vp -> 1 <= n_max -> exists ess, NoDup ess /\
  (forall es, In es ess <-> length es = length vp /\ Forall (fun e => 0 <= e) es /\ prod_powers vp es <= n_max) /\
  from_primes vp n_max = Some (map (fun es => (rev (used_powers vp es), prod_powers vp es)) ess).
Proof. exact (from_primes_ok vp n_max). Qed.
(** for distinct primes no number is visited twice *)
Theorem C86_from_primes_once vp n_max o : Forall primeZ vp -> NoDup vp -> 1 <= n_max -> from_primes vp n_max = Some o -> NoDup (map snd o).
Proof. exact (from_primes_nodup vp n_max o). Qed.
Example C86_case : option_map (map snd) (from_primes [2; 3; 5] 12) = Some [1; 2; 4; 8; 3; 6; 12; 9; 5; 10] /\
  option_map (fun o => nth 6 o ([], 0)) (from_primes [2; 3; 5] 12) = Some ([(3, 1); (2, 2)], 12) /\ Forall primeZ [2; 3; 5] /\ NoDup [2; 3; 5].
Proof.
  split; [vm_compute; reflexivity|]. split; [vm_compute; reflexivity|]. split; [repeat (apply Forall_cons; [apply primeb_spec; vm_compute; reflexivity|]); apply Forall_nil|].
  repeat (apply NoDup_cons; [cbn; lia|]). apply NoDup_nil.
Qed.

(** fraction_reduce keeps the value of the fraction and leaves every denominator coprime to every numerator *)
Theorem C87_fraction_reduce (g : Z -> Z -> option Z) nu de : (forall x d, 0 <= x -> 0 < d -> g x d = Some (Z.gcd x d)) ->
  Forall (fun x => 0 <= x) nu -> Forall (fun d => 1 <= d) de -> exists nu' de', fraction_reduce g nu de = Some (nu', de') /\
  Forall2 (fun x' x => 0 <= x' /\ (x' | x)) nu' nu /\ Forall2 (fun d' d => 1 <= d' /\ (d' | d)) de' de /\
  prodl nu' * prodl de = prodl nu * prodl de' /\ Forall (fun d => Forall (fun x => Z.gcd x d = 1) nu') de'.
Proof. intros Hg. exact (fraction_reduce_ok g Hg nu de). Qed.
(** when the fraction is an integer the denominators all become 1 *)
Theorem C87_integer (g : Z -> Z -> option Z) nu de nu' de' : (forall x d, 0 <= x -> 0 < d -> g x d = Some (Z.gcd x d)) ->
  Forall (fun x => 1 <= x) nu -> Forall (fun d => 1 <= d) de -> (prodl de | prodl nu) -> fraction_reduce g nu de = Some (nu', de') -> Forall (fun d => d = 1) de' /\ prodl nu' * prodl de = prodl nu.
Proof. intros Hg. exact (fraction_reduce_int g Hg nu de nu' de'). Qed.
Example C87_case : (forall x d, 0 <= x -> 0 < d -> gcd x d = Some (Z.gcd x d)) /\ fraction_reduce gcd [10; 9; 8] [6; 5; 7] = Some ([1; 3; 8], [1; 1; 7]).
Proof. split; [intros; apply gcd_nonneg; lia|]. vm_compute. reflexivity. Qed.

Print Assumptions C83_miller_rabin_with. Print Assumptions C83_prime_accepted. Print Assumptions C83_miller_rabin. Print Assumptions C83_miller_rabin_exact.
Print Assumptions C84_pollard_rho. Print Assumptions C84_pollard_rho_repeated. Print Assumptions C84_factor_integer. Print Assumptions C84_factor_integer_primes. Print Assumptions C84_factor_integer_exact. Print Assumptions C84_zero.
Print Assumptions C85_factor_integer_slow. Print Assumptions C85_factor_out. Print Assumptions C85_factor_out_zero_refuted. Print Assumptions C85_from_factorization. Print Assumptions C85_round_trip.
Print Assumptions C86_from_primes. Print Assumptions C86_from_primes_once. Print Assumptions C87_fraction_reduce. Print Assumptions C87_integer.
