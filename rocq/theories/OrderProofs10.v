(** Discrete logarithms modulo an odd prime power (Bach's theta). *)
From Coq Require Import Znumtheory.
From Verif Require Import Lib BaseModel BaseProofs PrimesSpec PrimesProofs NumTheory NumTheory2 ModuloModel ModuloProofs ModPowModel ModPowProofs RootsModel RootsProofs RootsProofs2 OrderSpec OrderModel OrderProofs OrderProofs2 OrderProofs3 OrderProofs4 OrderProofs5 OrderProofs6 OrderProofs7 OrderProofs8 OrderProofs9.
Open Scope Z_scope.

(** lifting the exponent: 1 + p^i u *)
Lemma lift_pow (p : nat) i u k : is_prime p -> p <> 2%nat -> (1 <= i)%nat -> ~ (Z.of_nat p | u) ->
  exists u', (1 + Z.of_nat p ^ Z.of_nat i * u) ^ Z.of_nat (p ^ k) = 1 + Z.of_nat p ^ Z.of_nat (k + i) * u' /\ ~ (Z.of_nat p | u').
Proof.
  intros P N2 I1 NU. pose proof (prime_ge p P) as Hp. set (q := Z.of_nat p) in *. induction k as [|k (v & IH & Nv)].
  - exists u. cbn [Nat.pow Nat.add]. change (Z.of_nat 1) with 1. rewrite Z.pow_1_r. auto.
  - cbn [Nat.pow]. rewrite Nat.mul_comm, Nat2Z.inj_mul, Z.pow_mul_r, IH by lia. set (y := q ^ Z.of_nat (k + i) * v). destruct (binom3 p y) as (T & w & HT & ->). fold q in HT |- *.
    assert (DT : exists t, T = q * t). { assert (Odd : exists h, q - 1 = 2 * h). { assert (p mod 2 <> 0)%nat by (intros M; apply Nat.mod_divide in M; [|lia]; destruct P as (_ & P); destruct (P 2%nat M); lia). exists (Z.of_nat (p / 2)). pose proof (Nat.div_mod p 2 ltac:(lia)). pose proof (Nat.mod_upper_bound p 2 ltac:(lia)). unfold q. lia. } destruct Odd as (h & Hh). exists h. rewrite Hh in HT. lia. }
    destruct DT as (t & ->). set (Q := q ^ Z.of_nat (k + i - 1)). assert (Ey : y = Q * q * v) by (unfold y, Q; replace (Z.of_nat (k + i)) with (Z.of_nat (k + i - 1) + 1) by lia; rewrite Z.pow_add_r, Z.pow_1_r by lia; ring).
    exists (v + q * (Q * t * v * v + Q * Q * w * v * v * v)). replace (Z.of_nat (S k + i)) with (Z.of_nat (k + i - 1) + 2) by lia. rewrite Z.pow_add_r by lia. fold Q. change (q ^ 2) with (q * (q * 1)). rewrite Ey. split; [ring|]. intros D. apply Nv. replace v with (v + q * (Q * t * v * v + Q * Q * w * v * v * v) - q * (Q * t * v * v + Q * Q * w * v * v * v)) by ring. apply Z.divide_sub_r; [exact D|]. apply Z.divide_factor_l.
Qed.
Section PP.
Variable p : nat.
Hypothesis P : is_prime p.
Hypothesis P2 : p <> 2%nat.
Variable s : Z.
Hypothesis S1 : 1 <= s.
Let q := Z.of_nat p.
Let ps1 := q ^ (s - 1).
Let ps := ps1 * q.
Let phi := (q - 1) * ps1.
Lemma q_ge : 3 <= q. Proof. pose proof (prime_ge p P). unfold q. lia. Qed.
Lemma qpow_pos i : 0 <= i -> 0 < q ^ i. Proof. intros. pose proof q_ge. apply Z.pow_pos_nonneg; lia. Qed.
Lemma ps_eq : ps = q ^ s. Proof. unfold ps, ps1. replace s with (s - 1 + 1) at 2 by lia. rewrite Z.pow_add_r, Z.pow_1_r by lia. reflexivity. Qed.
Lemma ps1_pos : 0 < ps1. Proof. apply qpow_pos. lia. Qed.
Lemma ps_pos : 0 < ps. Proof. rewrite ps_eq. apply qpow_pos. lia. Qed.
Lemma phi_pos : 0 < phi. Proof. pose proof q_ge. pose proof ps1_pos. unfold phi. nia. Qed.
Lemma euler_ps c : ~ (q | c) -> (ps | c ^ phi - 1).
Proof.
  intros N. pose proof ps_pos as PP. assert (U : Z.gcd c ps = 1) by (rewrite ps_eq; rewrite <- (Z2Nat.id s) by lia; now apply coprime_pow). pose proof (euler_Z c ps PP U) as E.
  replace (Z.to_nat ps) with (p ^ S (Z.to_nat (s - 1)))%nat in E; [|apply Nat2Z.inj; rewrite pow_nat, Z2Nat.id by lia; fold q; rewrite ps_eq; f_equal; lia].
  rewrite totient_prime_power in E by exact P. rewrite Nat2Z.inj_mul, pow_nat, Z2Nat.id in E by lia. fold q in E. pose proof (prime_ge p P). replace (Z.of_nat (p - 1)) with (q - 1) in E by (unfold q; lia). fold ps1 in E. unfold phi. now rewrite Z.mul_comm.
Qed.
(** theta(c) is determined modulo ps1 by c^phi = 1 + ps theta modulo ps ps1 *)
Lemma theta_run c : ~ (q | c) -> exists t, theta phi ps ps1 c = Some t /\ 0 <= t /\ (ps * ps1 | c ^ phi - (1 + ps * t)).
Proof.
  intros N. pose proof ps_pos. pose proof ps1_pos. pose proof phi_pos. unfold theta. rewrite modulo_power_spec by nia. cbn [obind]. assert (M : 0 < ps * ps1) by nia. pose proof (Z.mod_pos_bound (c ^ phi) (ps * ps1) M) as B. pose proof (mod_self' (ps * ps1) (c ^ phi) M) as D. set (y := c ^ phi mod (ps * ps1)) in *.
  assert (Y1 : (ps | y - 1)). { replace (y - 1) with ((y - c ^ phi) + (c ^ phi - 1)) by ring. apply Z.divide_add_r; [apply Z.divide_trans with (ps * ps1); [apply Z.divide_factor_l|exact D]|now apply euler_ps]. }
  destruct Y1 as [t T]. assert (PS3 : 3 <= ps) by (unfold ps; pose proof q_ge; nia). assert (0 <= t). { destruct (Z.lt_ge_cases t 0); [exfalso; nia|assumption]. } exists t. split; [|split; [assumption|]].
  - unfold cdiv. destruct (Z.eqb_spec ps 0); [lia|]. rewrite T. now rewrite Z.quot_mul by lia.
  - replace (1 + ps * t) with y by lia. rewrite <- Z.divide_opp_r. replace (- (c ^ phi - y)) with (y - c ^ phi) by ring. exact D.
Qed.
(** c^phi modulo ps ps1 depends on c modulo ps only *)
Lemma phi_cong c c' : (ps | c - c') -> (ps * ps1 | c ^ phi - c' ^ phi).
Proof.
  intros [k K]. assert (LEM : forall n z w, 0 <= n -> exists v, (z + w) ^ n = z ^ n + n * z ^ (n - 1) * w + w * w * v).
  { intros n z w. revert n. apply natlike_ind; [exists 0; rewrite !Z.pow_0_r; ring|]. intros n N (v & IH). rewrite Z.pow_succ_r by exact N. rewrite IH. replace (Z.succ n - 1) with n by lia. rewrite Z.pow_succ_r by exact N. destruct (Z.eq_dec n 0) as [->|].
    - rewrite Z.pow_0_r. exists ((z + w) * v). unfold Z.succ. ring.
    - replace (z ^ n) with (z * z ^ (n - 1)) by (rewrite <- Z.pow_succ_r by lia; f_equal; lia). exists (n * z ^ (n - 1) + (z + w) * v). unfold Z.succ. ring. }
  destruct (LEM phi c' (k * ps) ltac:(pose proof phi_pos; lia)) as (v & E). replace c with (c' + k * ps) by lia. rewrite E. exists ((q - 1) * c' ^ (phi - 1) * k + q * (k * k * v)). unfold phi at 2. unfold ps. ring.
Qed.
Lemma theta_pow t n : 0 <= n -> (ps * ps1 | (1 + ps * t) ^ n - (1 + ps * (n * t))).
Proof.
  intros N. rewrite <- (Z2Nat.id n) by exact N. destruct (binom2 (Z.to_nat n) (ps * t)) as (w & ->). exists (q * (t * t * w)). unfold ps. ring.
Qed.
(** ** the kernel of theta *)
Lemma kernel c : (q | c - 1) -> (ps * ps1 | c ^ phi - 1) -> (ps | c - 1).
Proof.
  intros D1 D2. pose proof q_ge. destruct (Z.eq_dec c 1) as [->|NE]; [exists 0; reflexivity|].
  destruct (split_power p (Z.to_nat (Z.abs (c - 1))) P ltac:(lia)) as (i & w & E & NW). assert (EZ : Z.abs (c - 1) = q ^ Z.of_nat i * Z.of_nat w) by (rewrite <- (Z2Nat.id (Z.abs (c - 1))) by lia; rewrite E, Nat2Z.inj_mul, pow_nat; reflexivity).
  assert (EU : exists u, c - 1 = q ^ Z.of_nat i * u /\ ~ (q | u)). { rewrite divide_nat in NW. fold q in NW. destruct (Z.abs_spec (c - 1)) as [(_ & A)|(_ & A)]; rewrite A in EZ; [exists (Z.of_nat w); auto|exists (- Z.of_nat w)]. split; [lia|]. rewrite Z.divide_opp_r. exact NW. }
  destruct EU as (u & EU & NU). assert (I1 : (1 <= i)%nat). { destruct i as [|i]; [|lia]. elim NU. change (Z.of_nat 0) with 0 in EU. rewrite Z.pow_0_r, Z.mul_1_l in EU. now rewrite <- EU. }
  assert (PB : Nat.divide (p ^ (Z.to_nat (2 * s - 1) - i)) (Z.to_nat phi)).
  { apply (order_bound p c i (Z.to_nat phi) (Z.to_nat (2 * s - 1)) P); [pose proof phi_pos; lia|exact I1| |].
    - intros k. destruct (lift_pow p i u k P P2 I1 NU) as (u' & A & B). exists u'. fold q in A. rewrite <- EU in A. replace (1 + (c - 1)) with c in A by ring. split; [exact A|exact B].
    - rewrite pow_nat, !Z2Nat.id by (pose proof phi_pos; lia). fold q. replace (q ^ (2 * s - 1)) with (ps * ps1); [exact D2|]. unfold ps, ps1. replace (2 * s - 1) with ((s - 1) + 1 + (s - 1)) by lia. rewrite !Z.pow_add_r, Z.pow_1_r by lia. ring. }
  apply divide_nat in PB. rewrite pow_nat, Z2Nat.id in PB by (pose proof phi_pos; lia). fold q in PB. destruct (Z.lt_ge_cases (Z.of_nat i) s) as [L|L].
  - exfalso. replace (Z.of_nat (Z.to_nat (2 * s - 1) - i)) with ((s - 1) + 1 + (s - 1 - Z.of_nat i)) in PB by lia. rewrite !Z.pow_add_r, Z.pow_1_r in PB by lia. fold ps1 in PB. unfold phi in PB. assert (PB' : (ps1 * q | ps1 * (q - 1))) by (rewrite (Z.mul_comm ps1 (q - 1)); apply Z.divide_trans with (ps1 * q * q ^ (s - 1 - Z.of_nat i)); [apply Z.divide_factor_l|exact PB]). apply Z.mul_divide_cancel_l in PB'; [|pose proof ps1_pos; lia]. apply Z.divide_pos_le in PB'; lia.
  - rewrite EU, ps_eq. replace (Z.of_nat i) with (s + (Z.of_nat i - s)) by lia. rewrite Z.pow_add_r by lia. exists (q ^ (Z.of_nat i - s) * u). ring.
Qed.
(** ** dividing out the common powers of p *)
Fixpoint vq (n : nat) (x : Z) : Z := match n with O => 0 | S n => if x mod q =? 0 then 1 + vq n (x / q) else 0 end.
Lemma vq_pow n : forall j, 0 <= j <= Z.of_nat n -> vq n (q ^ j) = j.
Proof.
  pose proof q_ge. induction n as [|n IH]; intros j J; [cbn [vq]; lia|]. cbn [vq]. destruct (Z.eq_dec j 0) as [->|NJ].
  - rewrite Z.pow_0_r, Z.mod_small by lia. reflexivity.
  - replace (q ^ j) with (q ^ (j - 1) * q) by (rewrite Z.mul_comm, <- Z.pow_succ_r by lia; f_equal; lia). rewrite Z.mod_mul, Z.div_mul by lia. cbn [Z.eqb]. rewrite IH by lia. lia.
Qed.
Lemma reduce_run ta tb X : 0 <= ta -> 0 <= tb -> (ps1 | X * ta - tb) -> exists ta' tb' r j, loopZ (Z.abs s + 1) (reduce_step q) (ta, tb, ps1) = Some (ta', tb', q ^ j) /\ 0 <= j /\ 0 <= r /\ ps1 = q ^ r * q ^ j /\ ta = q ^ r * ta' /\ tb = q ^ r * tb' /\ 0 <= ta' /\ 0 <= tb' /\ (q ^ j | X * ta' - tb') /\ Z.gcd ta' (q ^ j) = 1.
Proof.
  intros TA TB D. pose proof q_ge as Q3. destruct (loopZ_spec (reduce_step q) (fun '(ta', tb', m') => exists r j, 0 <= j <= s - 1 /\ 0 <= r /\ m' = q ^ j /\ ps1 = q ^ r * q ^ j /\ ta = q ^ r * ta' /\ tb = q ^ r * tb' /\ 0 <= ta' /\ 0 <= tb' /\ (q ^ j | X * ta' - tb'))
    (fun '(ta', tb', m') => exists r j, 0 <= j /\ 0 <= r /\ m' = q ^ j /\ ps1 = q ^ r * q ^ j /\ ta = q ^ r * ta' /\ tb = q ^ r * tb' /\ 0 <= ta' /\ 0 <= tb' /\ (q ^ j | X * ta' - tb') /\ Z.gcd ta' (q ^ j) = 1) (fun '(_, _, m') => vq (Z.to_nat s) m')) with (fuel := Z.abs s + 1) (s := (ta, tb, ps1)) as (((ta' & tb') & m') & E & R).
  - intros [[ta' tb'] m'] (r & j & J & R & EM & EP & EA & EB & A0 & B0 & D'). cbn [reduce_step]. pose proof (qpow_pos j ltac:(lia)) as QJ. rewrite !cmod_ok by lia. cbn [obind].
    destruct (Z.eqb_spec (ta' mod q) 0) as [A|A]; destruct (Z.eqb_spec (tb' mod q) 0) as [B|B]; destruct (Z.eqb_spec (m' mod q) 0) as [C|C]; cbn [andb];
      try (eexists; split; [reflexivity|]; cbv beta iota; exists r, j; split; [lia|]; do 8 (split; [assumption|]); idtac).
    + rewrite !cdiv_ok by lia. cbn [obind]. eexists. split; [reflexivity|]. cbv beta iota. assert (J1 : j <> 0) by (intros ->; rewrite EM, Z.pow_0_r, Z.mod_small in C by lia; lia).
      assert (EJ : q ^ j = q ^ (j - 1) * q) by (rewrite Z.mul_comm, <- Z.pow_succ_r by lia; f_equal; lia). apply Z.mod_divide in A as [u U]; [|lia]. apply Z.mod_divide in B as [v V]; [|lia]. rewrite EM, EJ, U, V, !Z.div_mul by lia. split.
      * exists (r + 1), (j - 1). split; [lia|]. split; [lia|]. split; [reflexivity|]. rewrite Z.pow_add_r, Z.pow_1_r by lia. split; [rewrite EP, EJ; ring|]. split; [rewrite EA, U; ring|]. split; [rewrite EB, V; ring|]. split; [nia|]. split; [nia|]. rewrite U, V, EJ in D'. replace (X * (u * q) - v * q) with ((X * u - v) * q) in D' by ring. now apply Z.mul_divide_cancel_r in D'; [|lia].
      * rewrite <- EJ, !vq_pow by lia. lia.
    + (* m' is 1 *) destruct (Z.eq_dec j 0) as [->|NJ]; [rewrite Z.pow_0_r; apply Z.gcd_1_r|]. exfalso. apply C. rewrite EM. apply Z.mod_divide; [lia|]. exists (q ^ (j - 1)). rewrite Z.mul_comm, <- Z.pow_succ_r by lia. f_equal. lia.
    + destruct (Z.eq_dec j 0) as [->|NJ]; [rewrite Z.pow_0_r; apply Z.gcd_1_r|]. exfalso. apply B. apply Z.mod_divide; [lia|]. apply Z.mod_divide in A; [|lia]. replace tb' with (X * ta' - (X * ta' - tb')) by ring. apply Z.divide_sub_r; [now apply Z.divide_mul_r|]. apply Z.divide_trans with (q ^ j); [exists (q ^ (j - 1)); rewrite Z.mul_comm, <- Z.pow_succ_r by lia; f_equal; lia|exact D'].
    + destruct (Z.eq_dec j 0) as [->|NJ]; [rewrite Z.pow_0_r; apply Z.gcd_1_r|]. exfalso. apply C. rewrite EM. apply Z.mod_divide; [lia|]. exists (q ^ (j - 1)). rewrite Z.mul_comm, <- Z.pow_succ_r by lia. f_equal. lia.
    + rewrite <- (Z2Nat.id j) by lia. apply coprime_pow; [exact P|]. intros Y. apply A. now apply Z.mod_divide; [lia|].
    + rewrite <- (Z2Nat.id j) by lia. apply coprime_pow; [exact P|]. intros Y. apply A. now apply Z.mod_divide; [lia|].
    + rewrite <- (Z2Nat.id j) by lia. apply coprime_pow; [exact P|]. intros Y. apply A. now apply Z.mod_divide; [lia|].
    + rewrite <- (Z2Nat.id j) by lia. apply coprime_pow; [exact P|]. intros Y. apply A. now apply Z.mod_divide; [lia|].
  - intros [[ta' tb'] m'] (r & j & J & R & EM & _). rewrite EM, vq_pow by lia. lia.
  - exists 0, (s - 1). split; [lia|]. split; [lia|]. rewrite Z.pow_0_r, !Z.mul_1_l. auto 10.
  - unfold ps1. rewrite vq_pow by lia. lia.
  - destruct R as (r & j & J & R & EM & EP & EA & EB & A0 & B0 & D' & G). exists ta', tb', r, j. rewrite E, EM. auto 12.
Qed.
End PP.
(** ** discrete_log_pp *)
Theorem pp_ok root (p : nat) a b s X : is_isqrt root -> is_prime p -> 0 <= s -> 0 <= a < Z.of_nat p ^ s -> 0 <= b < Z.of_nat p ^ s -> ~ (Z.of_nat p | a) -> 0 <= X -> (Z.of_nat p ^ s | a ^ X - b) ->
  exists x, discrete_log_pp root a b (Z.of_nat p) s = Some x /\ 0 <= x /\ (Z.of_nat p ^ s | a ^ x - b).
Proof.
  intros RT P S0 A B NA HX XE. pose proof (prime_ge p P) as P2. unfold discrete_log_pp. destruct (Z.eqb_spec s 0) as [->|NS]; [exists 0; split; [reflexivity|]; split; [lia|apply Z.divide_1_l]|].
  destruct (Z.eqb_spec a 1) as [->|A1]; [exists 0; split; [reflexivity|]; split; [lia|]; rewrite Z.pow_1_l in XE by exact HX; exact XE|].
  destruct (Z.eqb_spec b 1) as [->|B1]; [exists 0; split; [reflexivity|]; split; [lia|]; exists 0; reflexivity|].
  destruct (Z.eqb_spec a b) as [->|AB]; [exists 1; split; [reflexivity|]; split; [lia|]; rewrite Z.pow_1_r, Z.sub_diag; exists 0; reflexivity|].
  destruct (Z.eqb_spec (Z.of_nat p) 2) as [E2|N2].
  - rewrite E2 in *. assert (AO : Z.odd a = true). { destruct (Z.odd a) eqn:O; [reflexivity|exfalso]. apply NA. rewrite Zodd_even_bool in O. apply negb_false_iff, Z.even_spec in O as [c C]. exists c. lia. }
    destruct (p2_ok a b s X ltac:(lia)) as (x & o & E & _ & XB & D); [|exact AO|lia|exact HX|exact XE|exists x; split; [exact E|]; split; [lia|exact D]]. assert (a <> 0) by (intros ->; discriminate). lia.
  - assert (S1 : 1 <= s) by lia. set (q := Z.of_nat p) in *. assert (Q3 : 3 <= q) by (unfold q in *; lia). assert (PN : p <> 2%nat) by (unfold q in N2; lia).
    assert (DPS : (q | q ^ s)) by (exists (q ^ (s - 1)); rewrite Z.mul_comm, <- Z.pow_succ_r by lia; f_equal; lia). rewrite (cmod_ok a q), (cmod_ok b q) by lia. cbn [obind].
    assert (NA' : ~ (q | a mod q)). { intros D. apply NA. replace a with (a mod q - (a mod q - a)) by ring. apply Z.divide_sub_r; [exact D|]. apply mod_self'. lia. }
    destruct (oddp_ok root p (a mod q) (b mod q) RT P NA') as (x1 & E1 & L1 & _). fold q in E1, L1. rewrite E1. cbn [obind].
    assert (MOD : forall x, 0 <= x -> (q | (a mod q) ^ x - b mod q) <-> (q | a ^ x - b)). { intros x HX'. rewrite <- !mod_eq by lia. rewrite Z.mod_mod by lia. rewrite (proj2 (mod_eq q ltac:(lia) ((a mod q) ^ x) (a ^ x))); [reflexivity|]. apply cong_powZ; [exact HX'|]. apply mod_self'. lia. }
    assert (XQ : (q | a ^ X - b)) by (apply Z.divide_trans with (q ^ s); assumption).
    assert (X1 : 0 <= x1 /\ (q | a ^ x1 - b)). { destruct L1 as [(X0 & D & _)|(_ & N)]; [split; [exact X0|now apply MOD]|]. exfalso. apply (N X HX). now apply MOD. } destruct X1 as (X10 & X1).
    destruct (Z.eqb_spec s 1) as [->|NS1]; [exists x1; split; [reflexivity|]; split; [exact X10|]; now rewrite Z.pow_1_r|].
    rewrite powZ_run by lia. cbn [obind]. cbv zeta. set (ps1 := q ^ (s - 1)). set (phi := (q - 1) * ps1). set (ps := ps1 * q). pose proof (ps_eq p PN s S1) as PE. fold q ps1 ps in PE. pose proof (ps1_pos p P PN s S1) as PP1. fold q ps1 in PP1. pose proof (ps_pos p P PN s S1) as PP. fold q ps1 ps in PP. pose proof (phi_pos p P PN s S1) as PHP. fold q ps1 phi in PHP.
    assert (NB : ~ (q | b)). { intros D. assert (Y : (q | a ^ X)) by (replace (a ^ X) with ((a ^ X - b) + b) by ring; now apply Z.divide_add_r). pose proof (unit_pow q a X HX (prime_unit p a P NA)) as U. assert (Z : (q | 1)) by (rewrite <- U; apply Z.gcd_greatest; [exact Y|apply Z.divide_refl]). apply Z.divide_1_r in Z. lia. }
    destruct (theta_run p P PN s S1 a NA) as (ta & ETA & TA0 & TA). destruct (theta_run p P PN s S1 b NB) as (tb & ETB & TB0 & TB). fold q ps1 ps phi in ETA, TA, ETB, TB. rewrite ETA. cbn [obind]. rewrite ETB. cbn [obind]. rewrite <- PE in XE.
    assert (HOM : forall n, 0 <= n -> (ps * ps1 | (a ^ n) ^ phi - (1 + ps * (n * ta)))).
    { intros n N. replace ((a ^ n) ^ phi) with ((a ^ phi) ^ n) by (rewrite <- !Z.pow_mul_r by lia; f_equal; ring). pose proof (theta_pow p s ta n N) as Y. fold q ps1 ps in Y. replace ((a ^ phi) ^ n - (1 + ps * (n * ta))) with (((a ^ phi) ^ n - (1 + ps * ta) ^ n) + ((1 + ps * ta) ^ n - (1 + ps * (n * ta)))) by ring. apply Z.divide_add_r; [now apply cong_powZ|exact Y]. }
    assert (LIN : (ps1 | X * ta - tb)). { pose proof (HOM X HX) as Y. pose proof (phi_cong p P PN s S1 (a ^ X) b XE) as W. fold q ps1 ps phi in W. apply (Z.mul_divide_cancel_l _ _ ps); [lia|].
      replace (ps * (X * ta - tb)) with (((a ^ X) ^ phi - b ^ phi) + (b ^ phi - (1 + ps * tb)) - ((a ^ X) ^ phi - (1 + ps * (X * ta)))) by ring. apply Z.divide_sub_r; [now apply Z.divide_add_r|exact Y]. }
    destruct (reduce_run p P PN s S1 ta tb X TA0 TB0 LIN) as (ta' & tb' & r & j & ER & J0 & R0 & EP & EA & EB & TA' & TB' & LIN' & GT). fold q ps1 in ER, EP, EA, EB, LIN', GT. rewrite ER. cbn [obind]. assert (QJ : 0 < q ^ j) by (apply Z.pow_pos_nonneg; lia).
    destruct (modulo_inv_spec ta' (q ^ j) ltac:(lia) TA') as (ti & ETI & _ & TI). specialize (TI GT) as (TI & TI0 & _). rewrite ETI. cbn [obind]. rewrite modulo_mul_ok by lia. cbn [obind].
    set (xs1 := (tb' * ti) mod q ^ j). assert (XS : 0 <= xs1) by (apply Z.mod_pos_bound; exact QJ). assert (XS1 : (q ^ j | xs1 - X)). { unfold xs1. apply mod_eq in TI; [|exact QJ]. replace ((tb' * ti) mod q ^ j - X) with (((tb' * ti) mod q ^ j - tb' * ti) + (X * (ta' * ti - 1) - (X * ta' - tb') * ti)) by ring. apply Z.divide_add_r; [now apply mod_self'|]. apply Z.divide_sub_r; [now apply Z.divide_mul_r|now apply Z.divide_mul_l]. }
    assert (GC : Z.gcd (q - 1) (q ^ j) = 1). { rewrite <- (Z2Nat.id j) by lia. apply coprime_pow; [exact P|]. fold q. intros D. apply Z.divide_pos_le in D; lia. }
    destruct (chinese_remainder_spec x1 (q - 1) xs1 (q ^ j) ltac:(lia) QJ X10 XS) as (_ & CR). destruct CR as (x & EX & XB & C1 & C2); [rewrite GC; apply Z.divide_1_l|]. rewrite EX. cbn [obind]. exists x. split; [reflexivity|]. split; [lia|].
    apply mod_eq in C1; [|lia]. apply mod_eq in C2; [|exact QJ]. rewrite <- PE.
    assert (XQ' : (q | a ^ x - a ^ X)). { destruct (om_exists q ltac:(lia) a (q - 1) ltac:(lia) (fermat_Z p a P NA)) as (o & O & OD). replace (a ^ x - a ^ X) with ((a ^ x - a ^ x1) + ((a ^ x1 - b) - (a ^ X - b))) by ring. apply Z.divide_add_r; [|now apply Z.divide_sub_r]. apply (om_cong q ltac:(lia) a o); [exact O|lia|lia|]. now apply Z.divide_trans with (q - 1). }
    assert (XJ : (q ^ j | x - X)) by (replace (x - X) with ((x - xs1) + (xs1 - X)) by ring; now apply Z.divide_add_r).
    assert (KER : forall u v, 0 <= u -> 0 <= v -> (q | a ^ (u + v) - a ^ u) -> (q ^ j | v) -> (ps | a ^ (u + v) - a ^ u)).
    { intros u v HU HV D1 [w W]. replace (a ^ (u + v) - a ^ u) with (a ^ u * (a ^ v - 1)) in * by (rewrite Z.pow_add_r by lia; ring). apply Z.divide_mul_r. apply (kernel p P PN s S1).
      - apply Z.gauss with (m := a ^ u); [exact D1|]. rewrite Z.gcd_comm. apply unit_pow; [exact HU|]. now apply prime_unit.
      - change (ps * ps1 | (a ^ v) ^ phi - 1). pose proof (HOM v HV) as Y. replace ((a ^ v) ^ phi - 1) with (((a ^ v) ^ phi - (1 + ps * (v * ta))) + ps * (v * ta)) by ring. apply Z.divide_add_r; [exact Y|]. apply Z.mul_divide_mono_l. rewrite EP, EA, W. exists (w * ta'). ring. }
    replace (a ^ x - b) with ((a ^ x - a ^ X) + (a ^ X - b)) by ring. apply Z.divide_add_r; [|exact XE]. destruct (Z.le_ge_cases X x) as [L|L].
    + replace x with (X + (x - X)) by lia. apply KER; [exact HX|lia| |exact XJ]. now replace (X + (x - X)) with x by lia.
    + rewrite <- Z.divide_opp_r. replace (- (a ^ x - a ^ X)) with (a ^ X - a ^ x) by ring. replace X with (x + (X - x)) by lia. apply KER; [lia|lia| |].
      * replace (x + (X - x)) with X by lia. rewrite <- Z.divide_opp_r. now replace (- (a ^ X - a ^ x)) with (a ^ x - a ^ X) by ring.
      * rewrite <- Z.divide_opp_r. now replace (- (X - x)) with (x - X) by ring.
Qed.
