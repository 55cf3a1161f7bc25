(** Orders and discrete logarithms in a monoid. *)
From Verif Require Import Lib BaseModel BaseProofs PrimesSpec PrimesProofs NumTheory2 ModuloModel ModuloProofs OrderSpec OrderModel.
Open Scope Z_scope.

Section Group.
Context {G : Type} (mul : G -> G -> G) (one : G) (eqb : G -> G -> bool) (ok : G -> Prop).
Hypothesis M : monoid_on ok mul one.
Hypothesis E : forall x y, ok x -> ok y -> eqb x y = true <-> x = y.
Notation gp := (gpow mul one).
Notation is_order := (is_order mul one).
Lemma ok1 : ok one. Proof. apply M. Qed.
Lemma okm x y : ok x -> ok y -> ok (mul x y). Proof. apply M. Qed.
Lemma mA x y z : ok x -> ok y -> ok z -> mul x (mul y z) = mul (mul x y) z. Proof. apply M. Qed.
Lemma m1l x : ok x -> mul one x = x. Proof. apply M. Qed.
Lemma m1r x : ok x -> mul x one = x. Proof. apply M. Qed.
Lemma gp_ok x n : ok x -> ok (gp x n).
Proof. intros X. induction n as [|n IH]; [exact ok1|cbn [gpow]; now apply okm]. Qed.
Lemma gp_add x n k : ok x -> gp x (n + k) = mul (gp x n) (gp x k).
Proof. intros X. induction n as [|n IH]; cbn [gpow Nat.add]; [rewrite m1l; [reflexivity|now apply gp_ok]|]. rewrite IH. apply mA; [exact X|now apply gp_ok|now apply gp_ok]. Qed.
Lemma gp_mul x n k : ok x -> gp x (n * k) = gp (gp x n) k.
Proof. intros X. induction k as [|k IH]; [now rewrite Nat.mul_0_r|]. rewrite Nat.mul_succ_r, Nat.add_comm, gp_add by exact X. cbn [gpow]. now rewrite IH. Qed.
Lemma gp_one n : gp one n = one.
Proof. induction n as [|n IH]; [reflexivity|]. cbn [gpow]. rewrite IH. apply m1l, ok1. Qed.
Lemma gp_1 x : ok x -> gp x 1 = x. Proof. intros X. cbn [gpow]. now apply m1r. Qed.
Lemma gp_comm x n k : ok x -> mul (gp x n) (gp x k) = mul (gp x k) (gp x n).
Proof. intros X. rewrite <- !gp_add by exact X. f_equal. lia. Qed.
Lemma powT_gp x y : ok x -> 0 <= y -> powT mul one x y = Some (gp x (Z.to_nat y)).
Proof.
  intros X Hy. destruct (loopZ_spec (powT_step mul) (fun '(r, z, k) => 0 <= k /\ ok r /\ ok z /\ mul r (gp z (Z.to_nat k)) = gp x (Z.to_nat y)) (fun r => r = gp x (Z.to_nat y)) (fun '(_, _, k) => k)) with (fuel := Z.abs y + 1) (s := (one, x, y)) as (r & EQ & Hr).
  - intros [[r z] k] (Hk & R & Z0 & HI). cbn [powT_step]. destruct (Z.ltb_spec 0 k) as [Hp|Hp].
    + eexists. split; [reflexivity|]. cbv beta iota. pose proof (Z.quot_pos k 2 ltac:(lia) ltac:(lia)). pose proof (Z.quot_rem' k 2) as QR. pose proof (Z.rem_bound_pos k 2 ltac:(lia) ltac:(lia)) as RB. split; [|lia]. split; [lia|].
      split; [destruct (Z.rem k 2 =? 0); [exact R|now apply okm]|]. split; [now apply okm|]. assert (SQ : gp (mul z z) (Z.to_nat (k ÷ 2)) = gp z (2 * Z.to_nat (k ÷ 2))). { rewrite gp_mul by exact Z0. f_equal. cbn [gpow]. now rewrite m1r. }
      rewrite SQ, <- HI. destruct (Z.eqb_spec (Z.rem k 2) 0) as [R0|R0]; [do 2 f_equal; lia|]. rewrite <- mA by (try assumption; now apply gp_ok). f_equal. replace (Z.to_nat k) with (S (2 * Z.to_nat (k ÷ 2)))%nat by lia. reflexivity.
    + eexists. split; [reflexivity|]. cbv beta iota. replace k with 0 in HI by lia. cbn [Z.to_nat gpow] in HI. now rewrite m1r in HI.
  - intros [[r z] k] (Hk & _). exact Hk.
  - split; [exact Hy|]. split; [exact ok1|]. split; [exact X|]. apply m1l. now apply gp_ok.
  - lia.
  - unfold powT. rewrite EQ, Hr. reflexivity.
Qed.
Lemma powT_neg x y : y <= 0 -> powT mul one x y = Some one.
Proof. intros H. unfold powT. destruct (loopZ_spec (powT_step mul) (fun '(r, _, k) => r = one /\ k <= 0) (fun r => r = one) (fun _ => 0)) with (fuel := Z.abs y + 1) (s := (one, x, y)) as (r & -> & ->); [| |auto|lia|reflexivity]. - intros [[r z] k] (-> & K). cbn [powT_step]. destruct (Z.ltb_spec 0 k); [lia|]. eexists. split; reflexivity. - intros [[? ?] ?] _. lia. Qed.
Lemma eq1 x : ok x -> eqb x one = true <-> x = one. Proof. intros X. apply E; [exact X|exact ok1]. Qed.

(** ** orders *)
Lemma order_exists a n : ok a -> (0 < n)%nat -> gp a n = one -> exists k, is_order a k.
Proof.
  intros A. induction n as [n IH] using (well_founded_induction lt_wf). intros N G1.
  destruct (existsb (fun j => eqb (gp a j) one) (seq 1 (n - 1))) eqn:X.
  - apply existsb_exists in X as (j & J & EJ). apply in_seq in J. apply eq1 in EJ; [|now apply gp_ok]. apply (IH j); [lia|lia|exact EJ].
  - exists (Z.of_nat n). split; [lia|]. rewrite Nat2Z.id. split; [exact G1|]. intros j J EJ. assert (T : existsb (fun j => eqb (gp a j) one) (seq 1 (n - 1)) = true); [|congruence]. apply existsb_exists. exists (Z.to_nat j). split; [apply in_seq; lia|]. apply eq1; [now apply gp_ok|exact EJ].
Qed.
Lemma order_mult a k c : ok a -> is_order a k -> gp a (Z.to_nat k * c) = one.
Proof. intros A (K & KE & _). rewrite gp_mul, KE by exact A. apply gp_one. Qed.
Lemma order_divide a k n : ok a -> is_order a k -> gp a n = one <-> (k | Z.of_nat n).
Proof.
  intros A O. pose proof O as (K & KE & KM). split.
  - intros N. set (q := (n / Z.to_nat k)%nat). set (r := (n mod Z.to_nat k)%nat). pose proof (Nat.div_mod n (Z.to_nat k) ltac:(lia)) as D. fold q r in D. pose proof (Nat.mod_upper_bound n (Z.to_nat k) ltac:(lia)) as R. fold r in R. rewrite D, gp_add, order_mult, m1l in N by (try exact A; try exact O; now apply gp_ok).
    destruct (Nat.eq_dec r 0) as [R0|R0]; [exists (Z.of_nat q); nia|]. exfalso. apply (KM (Z.of_nat r)); [lia|]. now rewrite Nat2Z.id.
  - intros [c C]. assert (0 <= c) by nia. replace n with (Z.to_nat k * Z.to_nat c)%nat by nia. now apply order_mult.
Qed.
Lemma order_unique a k k' : ok a -> is_order a k -> is_order a k' -> k = k'.
Proof.
  intros A (K & KE & KM) (K' & KE' & KM'). destruct (Z.lt_trichotomy k k') as [L|[EQ|L]]; [exfalso; exact (KM' k ltac:(lia) KE)|exact EQ|exfalso; exact (KM k' ltac:(lia) KE')].
Qed.
(** powers cancel *)
Lemma inverse_right a k x : ok a -> is_order a k -> exists y, mul (gp a x) (gp a y) = one.
Proof. intros A O. exists (Z.to_nat k * x - x)%nat. rewrite <- gp_add by exact A. replace (x + (Z.to_nat k * x - x))%nat with (Z.to_nat k * x)%nat by (destruct O; nia). now apply order_mult. Qed.
Lemma gp_cong a k i j : ok a -> is_order a k -> gp a i = gp a j <-> (k | Z.of_nat i - Z.of_nat j).
Proof.
  intros A O. assert (W : forall i j, (i <= j)%nat -> gp a i = gp a j <-> (k | Z.of_nat i - Z.of_nat j)).
  { clear i j. intros i j L. split.
    - intros EQ. destruct (inverse_right a k i A O) as (y & Y). assert (X : gp a (j - i) = one). { transitivity (mul (gp a (j - i)) (mul (gp a i) (gp a y))); [rewrite Y; symmetry; apply m1r; now apply gp_ok|]. rewrite mA by (now apply gp_ok). rewrite <- gp_add by exact A. replace (j - i + i)%nat with j by lia. now rewrite <- EQ. }
      apply (order_divide a k) in X; [|exact A|exact O]. apply Z.divide_opp_r. now replace (- (Z.of_nat i - Z.of_nat j)) with (Z.of_nat (j - i)) by lia.
    - intros D. apply Z.divide_opp_r in D. replace (- (Z.of_nat i - Z.of_nat j)) with (Z.of_nat (j - i)) in D by lia. apply (order_divide a k) in D; [|exact A|exact O]. replace j with (i + (j - i))%nat by lia. rewrite gp_add, D by exact A. symmetry. apply m1r. now apply gp_ok. }
  destruct (Nat.le_ge_cases i j) as [L|L]; [now apply W|]. split; intros H; [apply Z.divide_opp_r; replace (- (Z.of_nat i - Z.of_nat j)) with (Z.of_nat j - Z.of_nat i) by lia; now apply W|symmetry; apply W; [exact L|]; apply Z.divide_opp_r in H; now replace (- (Z.of_nat i - Z.of_nat j)) with (Z.of_nat j - Z.of_nat i) in H by lia].
Qed.
Lemma cdiv_ok k p : 0 <= k -> 0 < p -> cdiv k p = Some (k / p).
Proof. intros K P. unfold cdiv. destruct (Z.eqb_spec p 0); [lia|]. now rewrite Z.quot_div_nonneg. Qed.
Lemma cmod_ok k p : 0 <= k -> 0 < p -> cmod k p = Some (k mod p).
Proof. intros K P. unfold cmod. destruct (Z.eqb_spec p 0); [lia|]. now rewrite Z.rem_mod_nonneg. Qed.
(** one prime of multiplicative_order_g *)
Lemma order_pass a p k : ok a -> 2 <= p -> 0 < k -> gp a (Z.to_nat k) = one ->
  exists k', loopZ (Z.abs k + 1) (order_step mul one eqb a p) k = Some k' /\ 0 < k' /\ (k' | k) /\ gp a (Z.to_nat k') = one /\ ((p | k') -> gp a (Z.to_nat (k' / p)) <> one).
Proof.
  intros A P K KE. destruct (loopZ_spec (order_step mul one eqb a p) (fun k' => 0 < k' /\ (k' | k) /\ gp a (Z.to_nat k') = one) (fun k' => 0 < k' /\ (k' | k) /\ gp a (Z.to_nat k') = one /\ ((p | k') -> gp a (Z.to_nat (k' / p)) <> one)) (fun k' => k')) with (fuel := Z.abs k + 1) (s := k) as (k' & EQ & H).
  - intros v (V & D & VE). unfold order_step. rewrite cmod_ok by lia. cbn [obind]. destruct (Z.eqb_spec (v mod p) 0) as [R|R].
    + rewrite cdiv_ok by lia. cbn [obind]. pose proof (Z.div_exact v p ltac:(lia)) as DE. apply DE in R as R'. assert (Q : 0 < v / p) by nia. rewrite powT_gp by (try exact A; lia). cbn [obind]. destruct (eqb (gp a (Z.to_nat (v / p))) one) eqn:B.
      * apply eq1 in B; [|now apply gp_ok]. eexists. split; [reflexivity|]. cbv beta iota. split; [|nia]. split; [exact Q|]. split; [|exact B]. apply Z.divide_trans with v; [|exact D]. exists p. lia.
      * eexists. split; [reflexivity|]. cbv beta iota. split; [exact V|]. split; [exact D|]. split; [exact VE|]. intros _ X. apply eq1 in X; [congruence|now apply gp_ok].
    + eexists. split; [reflexivity|]. cbv beta iota. split; [exact V|]. split; [exact D|]. split; [exact VE|]. intros X. apply Z.mod_divide in X; lia.
  - intros v (V & _). lia.
  - split; [exact K|]. split; [apply Z.divide_refl|exact KE].
  - lia.
  - now exists k'.
Qed.
Lemma order_run a fs : ok a -> (forall p, In p fs -> 2 <= p) -> forall k, 0 < k -> gp a (Z.to_nat k) = one ->
  exists k', multiplicative_order_g mul one eqb a k fs = Some k' /\ 0 < k' /\ (k' | k) /\ gp a (Z.to_nat k') = one /\ forall p, In p fs -> (p | k') -> gp a (Z.to_nat (k' / p)) <> one.
Proof.
  intros A. induction fs as [|p fs IH]; intros F k K KE; cbn [multiplicative_order_g].
  - exists k. split; [reflexivity|]. split; [exact K|]. split; [apply Z.divide_refl|]. split; [exact KE|intros p []].
  - destruct (order_pass a p k A (F p (or_introl eq_refl)) K KE) as (k1 & -> & K1 & D1 & E1 & N1). cbn [obind]. destruct (IH (fun q Q => F q (or_intror Q)) k1 K1 E1) as (k2 & EQ & K2 & D2 & E2 & N2). exists k2. split; [exact EQ|]. split; [exact K2|]. split; [now apply Z.divide_trans with k1|]. split; [exact E2|].
    intros q [-> |Q] D X; [|exact (N2 q Q D X)]. pose proof (F q (or_introl eq_refl)) as Q2. apply N1; [now apply Z.divide_trans with k2|]. destruct D2 as [c C], D as [d D]. subst k1 k2. rewrite Z.mul_assoc, Z.div_mul by lia. rewrite Z.div_mul in X by lia. assert (0 < d) by nia. assert (0 < c) by nia. replace (Z.to_nat (c * d)) with (Z.to_nat d * Z.to_nat c)%nat by (rewrite Z2Nat.inj_mul by lia; lia). rewrite gp_mul, X by exact A. apply gp_one.
Qed.
Lemma prime_of_quotient (k d : Z) : 0 < d < k -> (d | k) -> exists p, is_prime p /\ (Z.of_nat p | k) /\ (d | k / Z.of_nat p).
Proof.
  intros (D & L) [c C]. assert (2 <= c) by nia. destruct (least_factor (Z.to_nat c) ltac:(lia)) as (p & P & (u & U) & _). exists p. pose proof (prime_ge p P) as P2. assert (C' : c = Z.of_nat u * Z.of_nat p) by lia. split; [exact P|]. rewrite C, C'. split; [exists (Z.of_nat u * d); ring|]. replace (Z.of_nat u * Z.of_nat p * d) with (Z.of_nat u * d * Z.of_nat p) by ring. rewrite Z.div_mul by lia. apply Z.divide_factor_r.
Qed.
Lemma order_char a k : ok a -> 0 < k -> gp a (Z.to_nat k) = one -> (forall p, is_prime p -> (Z.of_nat p | k) -> gp a (Z.to_nat (k / Z.of_nat p)) <> one) -> is_order a k.
Proof.
  intros A K KE N. destruct (order_exists a (Z.to_nat k) A ltac:(lia) KE) as (d & O). assert (D : (d | k)) by (rewrite <- (Z2Nat.id k) by lia; now apply (order_divide a d)). pose proof (Z.divide_pos_le d k K D) as L. destruct (Z.eq_dec d k) as [<-|NE]; [exact O|exfalso]. pose proof O as (D0 & _). destruct (prime_of_quotient k d ltac:(lia) D) as (p & P & PD & DD). apply (N p P PD). apply (order_divide a d); [exact A|exact O|]. rewrite Z2Nat.id; [exact DD|]. apply Z.div_pos; [lia|]. pose proof (prime_ge p P). lia.
Qed.
Theorem multiplicative_order_ok a n fs : ok a -> 0 < n -> gp a (Z.to_nat n) = one -> prime_factors_of n fs -> exists k, multiplicative_order_g mul one eqb a n fs = Some k /\ is_order a k /\ (k | n).
Proof.
  intros A N NE (ND & PF). destruct (order_run a fs A) with (k := n) as (k & EQ & K & D & KE & KN); [|exact N|exact NE|].
  - intros p Hp. apply PF in Hp as (q & -> & Q & _). pose proof (prime_ge q Q). lia.
  - exists k. split; [exact EQ|]. split; [|exact D]. apply order_char; [exact A|exact K|exact KE|]. intros p P PD. apply KN; [|exact PD]. apply PF. exists p. split; [reflexivity|]. split; [exact P|]. now apply Z.divide_trans with k.
Qed.

(** ** brute force *)
Theorem brute_ok a b n : ok a -> ok b -> exists r, discrete_log_brute_force_g mul one eqb a b n = Some r /\
  ((0 <= r < n /\ gp a (Z.to_nat r) = b /\ forall j, 0 <= j < r -> gp a (Z.to_nat j) <> b) \/ (r = -1 /\ forall j, 0 <= j < n -> gp a (Z.to_nat j) <> b)).
Proof.
  intros A B. unfold discrete_log_brute_force_g. destruct (loopZ_spec (brute_step mul eqb a b n) (fun '(x, ax) => 0 <= x /\ (x <= n \/ x = 0) /\ ax = gp a (Z.to_nat x) /\ forall j, 0 <= j < x -> gp a (Z.to_nat j) <> b)
    (fun r => (0 <= r < n /\ gp a (Z.to_nat r) = b /\ forall j, 0 <= j < r -> gp a (Z.to_nat j) <> b) \/ (r = -1 /\ forall j, 0 <= j < n -> gp a (Z.to_nat j) <> b)) (fun '(x, _) => Z.max 0 (n - x))) with (fuel := Z.abs n + 1) (s := (0, one)) as (r & EQ & H).
  - intros [x ax] (X & XN & AX & NO). cbn [brute_step]. destruct (Z.ltb_spec x n) as [L|L].
    + destruct (eqb ax b) eqn:T.
      * apply E in T; [|subst ax; now apply gp_ok|exact B]. eexists. split; [reflexivity|]. cbv beta iota. left. split; [lia|]. split; [congruence|exact NO].
      * eexists. split; [reflexivity|]. cbv beta iota. split; [|lia]. split; [lia|]. split; [lia|]. split.
        -- rewrite AX. replace (Z.to_nat (x + 1)) with (Z.to_nat x + 1)%nat by lia. rewrite gp_add by exact A. now rewrite gp_1.
        -- intros j J X2. destruct (Z.eq_dec j x) as [-> |NE]; [|apply (NO j); [lia|exact X2]]. assert (eqb ax b = true); [|congruence]. apply E; [subst ax; now apply gp_ok|exact B|congruence].
    + eexists. split; [reflexivity|]. cbv beta iota. right. split; [reflexivity|]. intros j J. apply NO. lia.
  - intros [x ax] _. lia.
  - split; [lia|]. split; [lia|]. split; [reflexivity|]. intros; lia.
  - lia.
  - exists r. split; [exact EQ|exact H].
Qed.
End Group.
