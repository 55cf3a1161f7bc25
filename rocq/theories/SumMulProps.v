(** C98 sums of multiplicative functions from their sums over primes, C99 traversal of rough numbers, C100 the O(n^(2/3)) summation. *)
From Coq Require Import Ring Ring_theory Permutation Arith Lia.
From Verif Require Import Lib RingSpec PrimesSpec PrimesProofs PiSpec DirSpec LohiModel LohiSpec SumMSpec SumMModel SumMProofs3 SumMulModel SumMulSpec SumMulProofs2 SumMulProofs3 SumMulProofs6.
Open Scope nat_scope.

Section Props.
  Context {T : Type} (zero one : T) (add mul sub : T -> T -> T) (opp : T -> T).
  Hypothesis Rth : ring_theory zero one add mul sub opp (@eq T).
  (** a multiplicative function g whose values at prime powers are given by f *)
  Variables (f : T -> nat -> nat -> T) (g : nat -> T).
  Hypothesis Mult : multiplicative one mul g.
  Hypothesis Step : power_step f g.

  (** ** C98 *)
  Theorem C98_sum_multiplicative_34_map s1 n L : 1 <= n -> n < L * L ->
    (forall k, 1 <= k -> k <= Nat.sqrt n \/ (exists j, 1 <= j /\ k = n / j) -> sqm_el s1 k = Some (prime_total zero add g k)) ->
    sum_multiplicative_34_map one add mul sub f s1 n (primes_below L) = Some (summatory zero add g n).
  Proof using Rth Mult Step. intros N1 NL H. now apply (sum34_map zero one add mul sub opp Rth). Qed.
  Theorem C98_sum_multiplicative_34 root mk0 s1 n L : 1 <= n -> n < L * L -> root n = Some (Nat.sqrt n) -> (forall k, 1 <= k <= n -> s1 k = prime_total zero add g k) ->
    sum_multiplicative_34 zero one add mul sub f root mk0 s1 n (primes_below L) = Some (summatory zero add g n).
  Proof using Rth Mult Step.
    intros N1 NL R H. unfold sum_multiplicative_34. destruct (make_sqrt_map_ok zero root mk0 s1 n N1 R) as (s & -> & (_ & _ & _ & Hs)). cbn [obind]. apply C98_sum_multiplicative_34_map; try assumption. intros k K1 K. destruct (Hs k K) as (_ & _ & V). apply V. destruct (Nat.eqb_spec k 0); [lia|]. f_equal. apply H. split; [exact K1|]. destruct K as [K|(j & J & ->)]; [pose proof (Nat.sqrt_le_lin n); lia|]. apply Nat.div_le_upper_bound; nia.
  Qed.

  (** ** C99 *)
  (** every number with least prime factor p is visited once, times m, in some order *)
  Theorem C99_traverse_rough_numbers {St} (visit : St -> nat -> T -> option St) n k L p m fm : 1 <= k -> nth_error (primes_below L) (k - 1) = Some p -> n / p < L ->
    exists vs, Permutation vs (map (fun x => (m * x, mul fm (g x))) (with_least_factor p n)) /\ forall st, traverse_rough_numbers one mul f visit n k (primes_below L) m fm st = visit_all visit vs st.
  Proof using Rth Mult Step. intros K1 HK HL. apply (trn_ok zero one add mul sub opp Rth f g L Mult Step visit (S (length (primes_below L))) n k m fm p K1); [lia|exact HK|exact HL]. Qed.
  (** the sum over p-rough numbers from the sums over the numbers without prime factors up to p *)
  Theorem C99_calc_F_k {St} (F : St -> nat -> option (T * St)) (Inv : St -> Prop) (K : nat -> Prop) p m st : is_prime p ->
    (forall m, K m -> 1 <= m / p -> K (m / p)) ->
    (forall st m, Inv st -> K m -> 1 <= m -> exists st', F st m = Some (rough_total zero add g (S p) m, st') /\ Inv st') ->
    1 <= m -> K m -> Inv st -> exists st', calc_F_k one add mul f F p m st = Some (rough_total zero add g p m, st') /\ Inv st'.
  Proof using Rth Mult Step. intros P KD HF M1 Km Hst. now apply (calc_F_ok zero one add mul sub opp Rth f g Mult Step F Inv p K). Qed.

  (** ** C100 *)
  Theorem C100_sum_multiplicative root cbrt mk0 s1 n L c p0 pl : root n = Some (Nat.sqrt n) -> cbrt n = Some c -> c * c * c <= n < (c + 1) * (c + 1) * (c + 1) -> 8 <= n -> n < L * L ->
    (forall k, 1 <= k <= n -> s1 k = prime_total zero add g k) ->
    is_prime p0 -> c < p0 <= Nat.sqrt n + 1 -> p0 < L ->
    is_prime pl -> pl < L -> (forall r, is_prime r -> r < L -> r <= pl) -> pl <= n / c ->
    exists s, sum_multiplicative zero one add mul sub opp f root cbrt mk0 s1 n (primes_below L) = Some s /\
      forall k, 1 <= k -> k <= Nat.sqrt n \/ (exists j, 1 <= j /\ k = n / j) -> sqm_el s k = Some (summatory zero add g k).
  Proof using Rth Mult Step. intros R C (C3 & C4) N8 NL S1 P0 PC PL Q0 QL QM QN. now apply (sum_mul_ok zero one add mul sub opp Rth f g root cbrt mk0 Mult Step s1 n L c p0 pl). Qed.
  (** at n = 1 the function returns the sum only if the table has a prime *)
  Theorem C100_one root cbrt mk0 s1 L : root 1 = Some 1 -> cbrt 1 = Some 1 -> 3 <= L ->
    exists s, sum_multiplicative zero one add mul sub opp f root cbrt mk0 s1 1 (primes_below L) = Some s /\ sqm_el s 1 = Some one.
  Proof using.
    intros R C HL. unfold sum_multiplicative. rewrite R, C. cbn [obind Nat.eqb negb guard]. assert (P : exists pl, pa1 (primes_below L) (length (primes_below L)) = Some pl /\ 2 <= pl).
    { pose proof (count_mono 3 L HL) as M. cbn in M. destruct (length (primes_below L)) as [|l] eqn:E; [lia|]. cbn [pa1]. destruct (nth_error (primes_below L) l) as [pl|] eqn:E2; [|apply nth_error_None in E2; lia]. exists pl. split; [reflexivity|]. destruct (nth_prime _ _ _ E2) as (P & _). now apply prime_ge. }
    destruct P as (pl & -> & P2). cbn [obind]. destruct pl as [|pl]; [lia|]. cbn. eexists. split; reflexivity.
  Qed.
End Props.

Notation zroot := (fun n => Some (Nat.sqrt n)).
Definition zcbrt (n : nat) : option nat := find (fun c => c * c * c <=? n) (rev (seq 0 (S n))).
(** f(p^e) = p f(p^(e-1)): the identity function *)
Definition idstep (v : Z) (p e : nat) : Z := (v * Z.of_nat p)%Z.
Definition zprimes (n : nat) : Z := prime_total 0%Z Z.add Z.of_nat n.
Notation zsum_mul := (sum_multiplicative 0%Z 1%Z Z.add Z.mul Z.sub Z.opp idstep zroot zcbrt 0 zprimes).
(** without primes it reads the table before its beginning, already at n = 1 *)
Theorem C100_no_primes_refuted : forall n, zsum_mul n [] = None.
Proof. intros n. unfold sum_multiplicative. destruct (zcbrt n) as [c|]; [|reflexivity]. cbn [obind]. destruct (negb (c =? 0)); reflexivity. Qed.
(** from n = 2 to 7 it always runs before the table; so it does at n = 8 with the primes up to the square root, and with primes beyond n / n^(1/3) *)
Theorem C100_small_refuted : map (fun n => zsum_mul n (primes_below (Nat.sqrt n + 1))) [2; 3; 4; 5; 6; 7; 8] = repeat None 7 /\ map (fun n => zsum_mul n [2; 3; 5]) [2; 3; 4; 5; 6; 7] = repeat None 6 /\ zsum_mul 30 (primes_below 12) = None.
Proof. vm_compute. repeat split. Qed.

Lemma id_multiplicative : multiplicative 1%Z Z.mul Z.of_nat.
Proof. split; [reflexivity|]. intros; apply Nat2Z.inj_mul. Qed.
Lemma id_step : power_step idstep Z.of_nat.
Proof. intros p e P E. unfold idstep. rewrite <- Nat2Z.inj_mul. f_equal. replace e with (S (e - 1)) at 2 by lia. cbn [Nat.pow]. lia. Qed.
Example C98_case : multiplicative 1%Z Z.mul Z.of_nat /\ power_step idstep Z.of_nat /\ 30 < 6 * 6 /\ primes_below 6 = [2; 3; 5] /\ sum_multiplicative_34 0%Z 1%Z Z.add Z.mul Z.sub idstep zroot 9 zprimes 30 (primes_below 6) = Some 465%Z.
Proof. split; [apply id_multiplicative|]. split; [apply id_step|]. split; [lia|]. split; [reflexivity|]. vm_compute. reflexivity. Qed.
Example C99_case : with_least_factor 3 30 = [3; 9; 15; 21; 27] /\ traverse_rough_numbers 1%Z Z.mul idstep (fun l m v => Some (l ++ [(m, v)])) 30 2 (primes_below 12) 1 1%Z [] = Some [(3, 3%Z); (15, 15%Z); (21, 21%Z); (9, 9%Z); (27, 27%Z)] /\
  calc_F_k 1%Z Z.add Z.mul idstep (fun (_ : unit) m => Some (rough_total 0%Z Z.add Z.of_nat 4 m, tt)) 3 30 tt = Some (rough_total 0%Z Z.add Z.of_nat 3 30, tt).
Proof. vm_compute. repeat split. Qed.
Example C100_case : is_prime 5 /\ 3 * 3 * 3 <= 30 < 4 * 4 * 4 /\ 30 < 6 * 6 /\ (forall r, is_prime r -> r < 6 -> r <= 5) /\ 5 <= 30 / 3 /\ exists s, zsum_mul 30 (primes_below 6) = Some s /\ map (sqm_el s) [1; 4; 5; 7; 15; 30] = map (fun k => Some (summatory 0%Z Z.add Z.of_nat k)) [1; 4; 5; 7; 15; 30].
Proof.
  split; [now apply primeb_spec|]. repeat split; try lia. eexists. split; vm_compute; reflexivity.
Qed.
Print Assumptions C98_sum_multiplicative_34_map.
Print Assumptions C98_sum_multiplicative_34.
Print Assumptions C99_traverse_rough_numbers.
Print Assumptions C99_calc_F_k.
Print Assumptions C100_sum_multiplicative.
Print Assumptions C100_one.
Print Assumptions C100_no_primes_refuted.
Print Assumptions C100_small_refuted.
