(** Universal exponents: the exponent of the group of units modulo n. *)
From Coq Require Import Permutation.
From Verif Require Import Lib PrimesSpec PrimesProofs PrimesProofs2 PrimesProofs3 NumTheory.
Open Scope Z_scope.

Lemma divide_nat a b : Nat.divide a b <-> (Z.of_nat a | Z.of_nat b).
Proof.
  split; [intros [c ->]; exists (Z.of_nat c); lia|]. intros [c H]. destruct (Nat.eq_dec a 0) as [->|N]; [exists 0%nat; lia|]. exists (Z.to_nat c). nia.
Qed.
Lemma prime_Zeuclid p a b : is_prime p -> (Z.of_nat p | a * b) -> (Z.of_nat p | a) \/ (Z.of_nat p | b).
Proof.
  intros P D. assert (A : forall x, (Z.of_nat p | x) <-> Nat.divide p (Z.to_nat (Z.abs x))). { intros x. rewrite divide_nat, Z2Nat.id by lia. symmetry. apply Z.divide_abs_r. }
  rewrite A in D. rewrite !A. rewrite Z.abs_mul, Z2Nat.inj_mul in D by lia. now apply prime_euclid.
Qed.
Lemma pow_nat a e : Z.of_nat (a ^ e) = Z.of_nat a ^ Z.of_nat e.
Proof. induction e as [|e IH]; [reflexivity|]. cbn [Nat.pow]. rewrite Nat2Z.inj_succ, Z.pow_succ_r, <- IH by lia. lia. Qed.
Lemma mod_one_divide n a : (0 < n)%nat -> (0 < a)%nat -> (a mod n = 1 mod n)%nat <-> (Z.of_nat n | Z.of_nat a - 1).
Proof.
  intros Hn Ha. split.
  - intros E. symmetry in E. apply mod_eq_divide in E; [|lia|lia]. apply divide_nat in E. now replace (Z.of_nat a - 1) with (Z.of_nat (a - 1)) by lia.
  - intros E. symmetry. apply mod_eq_divide; [lia|lia|]. apply divide_nat. now replace (Z.of_nat (a - 1)) with (Z.of_nat a - 1) by lia.
Qed.

(** ** roots of a polynomial modulo a prime *)
Definition eval (c : list Z) (x : Z) : Z := fold_right (fun a r => a + x * r) 0 c.
Lemma synth c r : c <> [] -> exists q, length q = (length c - 1)%nat /\ ((2 <= length c)%nat -> last q 0 = last c 0) /\ forall x, eval c x = (x - r) * eval q x + eval c r.
Proof.
  induction c as [|a c IH]; intros H; [congruence|]. destruct c as [|b c].
  - exists []. cbn. split; [reflexivity|]. split; [lia|]. intros x. ring.
  - destruct IH as (q & Lq & La & E); [discriminate|]. exists (eval (b :: c) r :: q). cbn [length] in *. split; [lia|]. split.
    + intros _. destruct q as [|y q]; [destruct c as [|z c]; [cbn; ring|cbn in Lq; lia]|]. destruct c as [|z c]; [cbn in Lq; lia|]. cbn [last] in *. apply La. cbn. lia.
    + intros x. cbn [eval fold_right]. fold (eval (b :: c) x) (eval (b :: c) r) (eval q x). change (b + x * fold_right (fun a r => a + x * r) 0 c) with (eval (b :: c) x). change (b + r * fold_right (fun a r0 => a + r * r0) 0 c) with (eval (b :: c) r). rewrite (E x). ring.
Qed.
Lemma roots_bound p : is_prime p -> forall d c, length c = S d -> ~ (Z.of_nat p | last c 0) -> forall l, NoDup l -> (forall x, In x l -> 0 <= x < Z.of_nat p /\ (Z.of_nat p | eval c x)) -> (length l <= d)%nat.
Proof.
  intros P. induction d as [|d IH]; intros c Lc Nl l ND H.
  - destruct c as [|a [|b c]]; try discriminate. destruct l as [|x l]; [apply le_n|exfalso]. destruct (H x (or_introl eq_refl)) as (_ & D). cbn in D, Nl. apply Nl. now replace a with (a + x * 0) by ring.
  - destruct l as [|r l]; [cbn; lia|]. inversion ND; subst. destruct (synth c r) as (q & Lq & La & E); [intros ->; discriminate|]. cbn [length]. apply le_n_S. apply (IH q); [lia|rewrite La by lia; exact Nl|assumption|].
    intros x Hx. destruct (H x (or_intror Hx)) as (B & D). split; [exact B|]. destruct (H r (or_introl eq_refl)) as (Br & Dr). rewrite E in D. assert (D' : (Z.of_nat p | (x - r) * eval q x)) by (replace ((x - r) * eval q x) with ((x - r) * eval q x + eval c r - eval c r) by ring; now apply Z.divide_sub_r). apply prime_Zeuclid in D' as [D'|D']; [|exact D'|exact P]. exfalso.
    assert (x = r); [|subst; contradiction]. destruct D' as [k Hk]. assert (k = 0) by nia. lia.
Qed.
Lemma eval_pow g x : (1 <= g)%nat -> eval (-1 :: repeat 0 (g - 1) ++ [1]) x = x ^ Z.of_nat g - 1.
Proof.
  intros Hg. assert (G : forall k, eval (repeat 0 k ++ [1]) x = x ^ Z.of_nat k). { induction k as [|k IH]; [cbn [repeat app eval fold_right]; change (Z.of_nat 0) with 0; rewrite Z.pow_0_r; ring|]. cbn [repeat app eval fold_right]. fold (eval (repeat 0 k ++ [1]) x). rewrite IH, Nat2Z.inj_succ, Z.pow_succ_r by lia. ring. }
  cbn [eval fold_right]. fold (eval (repeat 0 (g - 1) ++ [1]) x). rewrite G. destruct g as [|g]; [lia|]. rewrite Nat2Z.inj_succ, Z.pow_succ_r by lia. replace (S g - 1)%nat with g by lia. ring.
Qed.
(** ** universal exponents *)
Definition univ (n M : nat) : Prop := forall a, Nat.gcd a n = 1%nat -> (Z.of_nat n | Z.of_nat a ^ Z.of_nat M - 1).
Lemma pow_one_mul (n x : Z) k : (n | x - 1) -> (n | x ^ Z.of_nat k - 1).
Proof. intros H. induction k as [|k IH]; [exists 0; change (Z.of_nat 0) with 0; rewrite Z.pow_0_r; ring|]. rewrite Nat2Z.inj_succ, Z.pow_succ_r by lia. replace (x * x ^ Z.of_nat k - 1) with (x * (x ^ Z.of_nat k - 1) + (x - 1)) by ring. apply Z.divide_add_r; [now apply Z.divide_mul_r|exact H]. Qed.
Lemma univ_mult n L M : univ n L -> Nat.divide L M -> univ n M.
Proof. intros U [c ->] a G. specialize (U a G). rewrite Nat2Z.inj_mul, Z.mul_comm, Z.pow_mul_r by lia. now apply pow_one_mul. Qed.
Lemma euler_univ n : (0 < n)%nat -> univ n (totient n).
Proof.
  intros Hn a G. destruct (Nat.eq_dec a 0) as [->|Na]; [rewrite Nat.gcd_0_l in G; subst; apply Z.divide_1_l|]. pose proof (Nat.pow_nonzero a (totient n)). rewrite <- pow_nat. apply mod_one_divide; [exact Hn|lia|]. now apply euler_theorem.
Qed.
Lemma gcd_pow p e a : (1 <= e)%nat -> is_prime p -> (Nat.gcd a (p ^ e) = 1%nat <-> ~ Nat.divide p a).
Proof.
  intros He P. pose proof (prime_ge p P). split.
  - intros G D. assert (X : Nat.divide p (Nat.gcd a (p ^ e))) by (apply Nat.gcd_greatest; [exact D|]; destruct e; [lia|]; apply Nat.divide_factor_l). rewrite G in X. apply Nat.divide_1_r in X. lia.
  - intros N. clear He. induction e as [|e IH]; [cbn; apply Nat.gcd_1_r|]. cbn [Nat.pow]. rewrite Nat.gcd_comm. apply coprime_mul; [now apply prime_bezout|now rewrite Nat.gcd_comm].
Qed.
(** p - 1 divides a universal exponent modulo p *)
Lemma univ_prime p M : is_prime p -> (0 < M)%nat -> (forall a, ~ Nat.divide p a -> (Z.of_nat p | Z.of_nat a ^ Z.of_nat M - 1)) -> Nat.divide (p - 1) M.
Proof.
  intros P HM U. pose proof (prime_ge p P) as Hp. remember (Nat.gcd M (p - 1)) as g eqn:Eg. assert (Hg : (0 < g)%nat) by (destruct g; [symmetry in Eg; apply Nat.gcd_eq_0 in Eg; lia|lia]).
  assert (Ug : forall a, ~ Nat.divide p a -> (Z.of_nat p | Z.of_nat a ^ Z.of_nat g - 1)).
  { intros a Na. assert (Na0 : (a <> 0)%nat) by (intros ->; apply Na; exists 0%nat; lia). destruct (Nat.gcd_bezout_pos M (p - 1) HM) as (u & v & B). rewrite <- Eg in B. pose proof (U a Na) as U1. assert (F : (a ^ (p - 1) mod p = 1 mod p)%nat) by (rewrite Nat.mod_1_l by lia; exact (fermat a p P Na)). pose proof (Nat.pow_nonzero a (p - 1) Na0). apply mod_one_divide in F; [|lia|lia]. rewrite pow_nat in F.
    apply (pow_one_mul _ _ u) in U1. apply (pow_one_mul _ _ v) in F. rewrite <- Z.pow_mul_r in U1, F by apply Nat2Z.is_nonneg. rewrite <- !Nat2Z.inj_mul in U1, F. replace (M * u)%nat with (g + (p - 1) * v)%nat in U1 by (rewrite (Nat.mul_comm M u), B, (Nat.mul_comm v); reflexivity). rewrite Nat2Z.inj_add, Z.pow_add_r in U1 by apply Nat2Z.is_nonneg.
    set (X := Z.of_nat a ^ Z.of_nat g) in *. set (Y := Z.of_nat a ^ Z.of_nat ((p - 1) * v)) in *. replace (X - 1) with ((X * Y - 1) - X * (Y - 1)) by ring. apply Z.divide_sub_r; [exact U1|now apply Z.divide_mul_r]. }
  assert (B : (length (map Z.of_nat (seq 1 (p - 1))) <= g)%nat). { apply (roots_bound p P g (-1 :: repeat 0 (g - 1) ++ [1])).
    - cbn [length]. rewrite app_length, repeat_length. cbn. lia.
    - replace (last (-1 :: repeat 0 (g - 1) ++ [1]) 0) with 1 by (rewrite app_comm_cons, last_last; reflexivity). intros D. apply Z.divide_1_r_nonneg in D; lia.
    - apply FinFun.Injective_map_NoDup; [intros x y; lia|apply seq_NoDup].
    - intros x Hx. apply in_map_iff in Hx as (a & <- & Ha). apply in_seq in Ha. split; [lia|]. rewrite eval_pow by lia. apply Ug. intros D. apply div_le in D; lia. }
  rewrite map_length, seq_length in B. assert (D1 : Nat.divide g (p - 1)) by (rewrite Eg; apply Nat.gcd_divide_r). apply div_le in D1; [|lia]. replace (p - 1)%nat with g by lia. rewrite Eg. apply Nat.gcd_divide_l.
Qed.
(** ** p-adic orders *)
Lemma binom2 n y : exists w, (1 + y) ^ Z.of_nat n = 1 + Z.of_nat n * y + y * y * w.
Proof. induction n as [|n (w & IH)]; [exists 0; change (Z.of_nat 0) with 0; rewrite Z.pow_0_r; ring|]. rewrite Nat2Z.inj_succ, Z.pow_succ_r, IH by lia. exists (w + Z.of_nat n + y * w). unfold Z.succ. ring. Qed.
Lemma binom3 n y : exists T w, 2 * T = Z.of_nat n * (Z.of_nat n - 1) /\ (1 + y) ^ Z.of_nat n = 1 + Z.of_nat n * y + T * (y * y) + y * y * y * w.
Proof. induction n as [|n (T & w & HT & IH)]; [exists 0, 0; split; [reflexivity|change (Z.of_nat 0) with 0; rewrite Z.pow_0_r; ring]|]. rewrite Nat2Z.inj_succ, Z.pow_succ_r, IH by lia. exists (T + Z.of_nat n), (w + T + y * w). unfold Z.succ. split; [lia|ring]. Qed.
(** 1 + p has order p^(e-1) modulo p^e for odd p *)
Lemma one_plus_pow p k : is_prime p -> (p <> 2)%nat -> exists u, (1 + Z.of_nat p) ^ (Z.of_nat (p ^ k)) = 1 + Z.of_nat p ^ (Z.of_nat k + 1) * u /\ ~ (Z.of_nat p | u).
Proof.
  intros P N2. pose proof (prime_ge p P) as Hp. set (q := Z.of_nat p). induction k as [|k (u & IH & Nu)].
  - exists 1. cbn [Nat.pow]. change (Z.of_nat 1) with 1. change (Z.of_nat 0 + 1) with 1. rewrite !Z.pow_1_r. split; [ring|]. intros D. apply Z.divide_1_r_nonneg in D; unfold q in *; lia.
  - cbn [Nat.pow]. rewrite Nat.mul_comm, Nat2Z.inj_mul, Z.pow_mul_r, IH by lia. set (y := q ^ (Z.of_nat k + 1) * u). destruct (binom3 p y) as (T & w & HT & ->). fold q in HT |- *.
    assert (DT : exists t, T = q * t). { assert (Odd : exists h, q - 1 = 2 * h). { assert (p mod 2 <> 0)%nat by (intros M; apply Nat.mod_divide in M; [|lia]; destruct P as (_ & P); destruct (P 2%nat M); lia). exists (Z.of_nat (p / 2)). pose proof (Nat.div_mod p 2 ltac:(lia)). pose proof (Nat.mod_upper_bound p 2 ltac:(lia)). unfold q. lia. } destruct Odd as (h & Hh). exists h. rewrite Hh in HT. lia. }
    destruct DT as (t & ->). set (Q := q ^ (Z.of_nat k)). assert (Ey : y = Q * q * u) by (unfold y, Q; rewrite Z.pow_add_r, Z.pow_1_r by lia; ring).
    exists (u + q * (Q * t * u * u + Q * Q * w * u * u * u)). replace (Z.of_nat (S k) + 1) with (Z.of_nat k + 2) by lia. rewrite Z.pow_add_r by lia. fold Q. change (q ^ 2) with (q * (q * 1)). rewrite Ey. split; [ring|]. intros D. apply Nu. replace u with (u + q * (Q * t * u * u + Q * Q * w * u * u * u) - q * (Q * t * u * u + Q * Q * w * u * u * u)) by ring. apply Z.divide_sub_r; [exact D|]. apply Z.divide_factor_l.
Qed.
Lemma five_pow k : exists u, 5 ^ (Z.of_nat (2 ^ k)) = 1 + 2 ^ (Z.of_nat k + 2) * u /\ ~ (2 | u).
Proof.
  induction k as [|k (u & IH & Nu)].
  - exists 1. split; [reflexivity|]. intros [c Hc]. lia.
  - change (2 ^ S k)%nat with (2 * 2 ^ k)%nat. rewrite Nat.mul_comm, Nat2Z.inj_mul, Z.pow_mul_r by lia. rewrite IH. change (Z.of_nat 2) with 2. set (Q := 2 ^ Z.of_nat k). replace (Z.of_nat (S k) + 2) with (Z.of_nat k + 3) by lia. rewrite !Z.pow_add_r by lia. fold Q. change (2 ^ 2) with 4. change (2 ^ 3) with 8. exists (u + 2 * (Q * u * u)). split; [rewrite Z.pow_2_r; ring|]. intros D. apply Nu. replace u with (u + 2 * (Q * u * u) - 2 * (Q * u * u)) by ring. apply Z.divide_sub_r; [exact D|apply Z.divide_factor_l].
Qed.
Lemma split_power p M : is_prime p -> (0 < M)%nat -> exists k m, M = (p ^ k * m)%nat /\ ~ Nat.divide p m.
Proof.
  intros P. pose proof (prime_ge p P). induction M as [M IH] using lt_wf_ind. intros HM. destruct (M mod p =? 0)%nat eqn:E.
  - apply mod_div in E as [c ->]; [|lia]. destruct (IH c) as (k & m & -> & N); [nia|nia|]. exists (S k), m. split; [cbn; lia|exact N].
  - apply mod_div_false in E; [|lia]. exists 0%nat, M. split; [cbn; lia|exact E].
Qed.
Lemma order_bound p (x : Z) (j : nat) M e : is_prime p -> (0 < M)%nat -> (1 <= j)%nat -> (forall k, exists u, x ^ (Z.of_nat (p ^ k)) = 1 + Z.of_nat p ^ (Z.of_nat (k + j)) * u /\ ~ (Z.of_nat p | u)) ->
  (Z.of_nat (p ^ e) | x ^ Z.of_nat M - 1) -> Nat.divide (p ^ (e - j)) M.
Proof.
  intros P HM Hj H D. pose proof (prime_ge p P) as Hp. destruct (split_power p M P HM) as (k & m & -> & Nm). destruct (H k) as (u & E & Nu). rewrite Nat2Z.inj_mul, Z.pow_mul_r, E in D by lia. set (q := Z.of_nat p) in *. destruct (binom2 m (q ^ Z.of_nat (k + j) * u)) as (w & Ew). rewrite Ew in D. clear Ew.
  assert (He : (e <= k + j)%nat). { destruct (le_lt_dec e (k + j)) as [|G]; [assumption|exfalso]. set (Q := q ^ Z.of_nat (k + j)) in *.
    assert (D' : (Q * q | Q * (Z.of_nat m * u + Q * (u * u * w)))). { replace (Q * (Z.of_nat m * u + Q * (u * u * w))) with (1 + Z.of_nat m * (Q * u) + Q * u * (Q * u) * w - 1) by ring. eapply Z.divide_trans; [|exact D]. unfold Q, q. exists (Z.of_nat p ^ Z.of_nat (e - S (k + j))). rewrite pow_nat. replace (Z.of_nat e) with (Z.of_nat (e - S (k + j)) + (Z.of_nat (k + j) + 1)) by lia. rewrite Z.pow_add_r, (Z.pow_add_r _ _ 1), Z.pow_1_r by lia. ring. }
    apply Z.mul_divide_cancel_l in D'; [|unfold Q; apply Z.pow_nonzero; unfold q; lia]. assert (D2 : (q | Z.of_nat m * u)). { replace (Z.of_nat m * u) with (Z.of_nat m * u + Q * (u * u * w) - Q * (u * u * w)) by ring. apply Z.divide_sub_r; [exact D'|]. apply Z.divide_mul_l. unfold Q. replace (Z.of_nat (k + j)) with (1 + Z.of_nat (k + j - 1)) by lia. rewrite Z.pow_add_r, Z.pow_1_r by lia. apply Z.divide_factor_l. }
    apply prime_Zeuclid in D2 as [D2|D2]; [|contradiction|exact P]. apply divide_nat in D2. contradiction. }
  exists (p ^ (k - (e - j)) * m)%nat. replace k with ((k - (e - j)) + (e - j))%nat at 1 by lia. rewrite Nat.pow_add_r. lia.
Qed.

(** exact n L: the universal exponents modulo n are the multiples of L *)
Definition exact (n : nat) (L : Z) : Prop := 0 < L /\ forall M, univ n M <-> (L | Z.of_nat M).
Definition lam (p e : nat) : nat := let e' := if ((p =? 2) && (2 <? e))%nat then (e - 1)%nat else e in (p ^ (e' - 1) * (p - 1))%nat.
Lemma odd_square_pow (x : Z) k : (8 | x * x - 1) -> (2 ^ Z.of_nat (k + 3) | x ^ Z.of_nat (2 ^ S k) - 1).
Proof.
  intros H. induction k as [|k IH]; [change (2 ^ Z.of_nat (0 + 3)) with 8; change (Z.of_nat (2 ^ 1)) with 2; now rewrite Z.pow_2_r|].
  change (2 ^ S (S k))%nat with (2 * 2 ^ S k)%nat. rewrite Nat.mul_comm, Nat2Z.inj_mul, Z.pow_mul_r by lia. set (X := x ^ Z.of_nat (2 ^ S k)) in *. change (Z.of_nat 2) with 2. rewrite Z.pow_2_r. destruct IH as [c Hc]. replace (Z.of_nat (S k + 3)) with (1 + Z.of_nat (k + 3)) by lia. rewrite Z.pow_add_r, Z.pow_1_r by lia. replace (X * X - 1) with ((X - 1) * ((X - 1) + 2)) by ring. rewrite Hc.
  replace (Z.of_nat (k + 3)) with (1 + Z.of_nat (k + 2)) by lia. rewrite Z.pow_add_r, Z.pow_1_r by lia. set (P := 2 ^ Z.of_nat (k + 2)). exists (c * (c * P + 1)). ring.
Qed.
Lemma exact_pp p e : is_prime p -> (1 <= e)%nat -> exact (p ^ e) (Z.of_nat (lam p e)).
Proof.
  intros P He. pose proof (prime_ge p P) as Hp. assert (Hpos : (0 < p ^ e)%nat) by (pose proof (Nat.pow_nonzero p e); lia).
  assert (Lpos : (0 < lam p e)%nat) by (unfold lam; cbv zeta; match goal with |- context [(p ^ ?k)%nat] => pose proof (Nat.pow_nonzero p k) end; nia).
  split; [lia|]. intros M. rewrite <- divide_nat. destruct (Nat.eq_dec p 2) as [->|N2].
  - destruct (le_lt_dec e 2) as [H2|H2].
    + assert (E : lam 2 e = totient (2 ^ e)). { unfold lam. destruct (Nat.ltb_spec 2 e); [lia|]. rewrite andb_false_r. destruct e as [|e]; [lia|]. rewrite totient_prime_power by exact P. f_equal. f_equal. lia. }
      rewrite E. split; [|apply univ_mult; apply euler_univ; exact Hpos]. intros U. destruct (Nat.eq_dec e 1) as [->|]; [exists M; change (totient (2 ^ 1)) with 1%nat; lia|]. assert (e = 2%nat) as -> by lia. change (totient (2 ^ 2)) with 2%nat. specialize (U 3%nat eq_refl). destruct (Nat.Even_or_Odd M) as [[k Hk]|[k Hk]]; [exists k; lia|exfalso]. subst M. destruct U as [c Hc]. rewrite Nat2Z.inj_add, Nat2Z.inj_mul in Hc. change (Z.of_nat 1) with 1 in Hc. change (Z.of_nat 2) with 2 in Hc. change (Z.of_nat 3) with 3 in Hc. change (Z.of_nat (2 ^ 2)) with 4 in Hc. rewrite Z.pow_add_r, Z.pow_mul_r, Z.pow_1_r in Hc by lia. change (3 ^ 2) with (1 + 8) in Hc. destruct (binom2 k 8) as (w & Ew). rewrite Ew in Hc. lia.
    + assert (E : lam 2 e = (2 ^ (e - 2))%nat). { unfold lam. destruct (Nat.ltb_spec 2 e); [|lia]. cbn [Nat.eqb andb]. rewrite Nat.mul_1_r. f_equal. lia. }
      rewrite E. split.
      * intros U. destruct (Nat.eq_dec M 0) as [->|NM]; [exists 0%nat; lia|]. apply (order_bound 2 5 2 M e P); [lia|lia| |].
        { intros k. destruct (five_pow k) as (u & A & B). exists u. rewrite Nat2Z.inj_add. auto. }
        { apply (U 5%nat). apply gcd_pow; [exact He|exact P|]. intros [c Hc]. lia. }
      * apply univ_mult. intros a G. apply gcd_pow in G; [|exact He|exact P]. replace (e - 2)%nat with (S (e - 3)) by lia. rewrite pow_nat. change (Z.of_nat 2) with 2. replace (Z.of_nat e) with (Z.of_nat (e - 3 + 3)) by lia. apply odd_square_pow.
        assert (Od : exists k, Z.of_nat a = 2 * k + 1). { destruct (Nat.Even_or_Odd a) as [[k Hk]|[k Hk]]; [elim G; exists k; lia|]. exists (Z.of_nat k). lia. } destruct Od as (k & Hk). rewrite Hk. assert (Ev : exists c, k * (k + 1) = 2 * c). { destruct (Z.Even_or_Odd k) as [[c Hc]|[c Hc]]; rewrite Hc; [exists (c * (2 * c + 1))|exists ((2 * c + 1) * (c + 1))]; ring. } destruct Ev as (c & Hc). exists c. replace ((2 * k + 1) * (2 * k + 1) - 1) with (4 * (k * (k + 1))) by ring. rewrite Hc. ring.
  - assert (E : lam p e = totient (p ^ e)). { unfold lam. destruct (Nat.eqb_spec p 2); [lia|]. cbn [andb]. destruct e as [|e]; [lia|]. rewrite totient_prime_power by exact P. f_equal. f_equal. lia. }
    split; [|rewrite E; apply univ_mult; apply euler_univ; exact Hpos]. intros U. destruct (Nat.eq_dec M 0) as [->|NM]; [exists 0%nat; lia|].
    assert (D1 : Nat.divide (p ^ (e - 1)) M). { apply (order_bound p (1 + Z.of_nat p) 1 M e P); [lia|lia| |].
      - intros k. destruct (one_plus_pow p k P N2) as (u & A & B). exists u. rewrite Nat2Z.inj_add. auto.
      - replace (1 + Z.of_nat p) with (Z.of_nat (1 + p)) by lia. apply U. apply gcd_pow; [exact He|exact P|]. intros D. assert (D' : Nat.divide p 1) by (apply (Nat.divide_add_cancel_r p p 1); [apply Nat.divide_refl|now rewrite Nat.add_comm]). apply Nat.divide_1_r in D'. lia. }
    assert (D2 : Nat.divide (p - 1) M). { apply univ_prime; [exact P|lia|]. intros a Na. eapply Z.divide_trans; [|apply U; apply gcd_pow; assumption]. apply divide_nat. destruct e; [lia|]. apply Nat.divide_factor_l. }
    assert (G : Nat.gcd (p ^ (e - 1)) (p - 1) = 1%nat). { rewrite Nat.gcd_comm. destruct (Nat.eq_dec (e - 1) 0) as [->|]; [apply Nat.gcd_1_r|]. apply gcd_pow; [lia|exact P|]. intros D. apply div_le in D; lia. }
    unfold lam. destruct (Nat.eqb_spec p 2); [lia|]. cbn [andb]. destruct D2 as [c Hc]. rewrite Hc in D1. rewrite Nat.mul_comm in D1. apply Nat.gauss in D1; [|exact G]. destruct D1 as [d Hd]. exists d. rewrite Hc, Hd. lia.
Qed.
Lemma gcd_nat a b : Z.gcd (Z.of_nat a) (Z.of_nat b) = Z.of_nat (Nat.gcd a b).
Proof.
  apply Z.gcd_unique; [lia|apply divide_nat, Nat.gcd_divide_l|apply divide_nat, Nat.gcd_divide_r|]. intros q A B. apply Z.divide_abs_l in A, B. rewrite <- Z.divide_abs_l.
  rewrite <- (Z2Nat.id (Z.abs q)) in * by lia. apply divide_nat. apply Nat.gcd_greatest; apply divide_nat; assumption.
Qed.
Lemma coprime_product_divide (a b : nat) x : Nat.gcd a b = 1%nat -> (Z.of_nat a | x) -> (Z.of_nat b | x) -> (Z.of_nat (a * b) | x).
Proof.
  intros G [c Hc] D. rewrite Hc, Z.mul_comm in D. apply Z.gauss in D; [|rewrite Z.gcd_comm, gcd_nat, G; reflexivity]. destruct D as [d Hd]. exists d. rewrite Hc, Hd, Nat2Z.inj_mul. ring.
Qed.
(** a unit modulo n1 lifts to a number that is also 1 modulo n2 *)
Lemma crt_lift n1 n2 a : (0 < n1)%nat -> (0 < n2)%nat -> Nat.gcd n1 n2 = 1%nat -> exists x, (Z.of_nat n1 | Z.of_nat x - Z.of_nat a) /\ (Z.of_nat n2 | Z.of_nat x - 1).
Proof.
  intros P1 P2 G. destruct (Z.gcd_bezout (Z.of_nat n1) (Z.of_nat n2) 1) as (u & v & E); [rewrite gcd_nat, G; reflexivity|].
  set (y := Z.of_nat a * (v * Z.of_nat n2) + u * Z.of_nat n1). set (N := Z.of_nat n1 * Z.of_nat n2). assert (HN : 0 < N) by (unfold N; nia).
  exists (Z.to_nat (y mod N)). pose proof (Z.mod_pos_bound y N HN). rewrite Z2Nat.id by lia. pose proof (Z.div_mod y N ltac:(lia)) as D. replace (y mod N) with (y - N * (y / N)) by lia. clear D H. generalize (y / N). intros q. unfold y, N. split.
  - exists (u - Z.of_nat a * u - Z.of_nat n2 * q). replace (v * Z.of_nat n2) with (1 - u * Z.of_nat n1) by lia. ring.
  - exists ((Z.of_nat a - 1) * v - Z.of_nat n1 * q). replace (u * Z.of_nat n1) with (1 - v * Z.of_nat n2) by lia. ring.
Qed.
Lemma pow_cong n x y k : (n | x - y) -> (n | x ^ Z.of_nat k - y ^ Z.of_nat k).
Proof.
  intros H. induction k as [|k IH]; [exists 0; reflexivity|]. rewrite Nat2Z.inj_succ, !Z.pow_succ_r by lia. replace (x * x ^ Z.of_nat k - y * y ^ Z.of_nat k) with (x * (x ^ Z.of_nat k - y ^ Z.of_nat k) + (x - y) * y ^ Z.of_nat k) by ring. apply Z.divide_add_r; [now apply Z.divide_mul_r|now apply Z.divide_mul_l].
Qed.
Lemma gcd_cong n x a : (Z.of_nat n | Z.of_nat x - Z.of_nat a) -> Nat.gcd a n = 1%nat -> Nat.gcd x n = 1%nat.
Proof.
  intros [c Hc] G. apply Nat2Z.inj. rewrite <- gcd_nat. rewrite Z.gcd_comm. replace (Z.of_nat x) with (Z.of_nat a + c * Z.of_nat n) by lia. rewrite Z.gcd_add_mult_diag_r, Z.gcd_comm, gcd_nat, G. reflexivity.
Qed.
Lemma gcd_mul a n1 n2 : Nat.gcd a (n1 * n2) = 1%nat <-> Nat.gcd a n1 = 1%nat /\ Nat.gcd a n2 = 1%nat.
Proof.
  split.
  - intros H. split; apply Nat.divide_1_r; rewrite <- H; apply Nat.gcd_greatest; try apply Nat.gcd_divide_l; (eapply Nat.divide_trans; [apply Nat.gcd_divide_r|]); [apply Nat.divide_factor_l|apply Nat.divide_factor_r].
  - intros [A B]. rewrite Nat.gcd_comm. apply coprime_mul; rewrite Nat.gcd_comm; assumption.
Qed.
Lemma univ_product n1 n2 M : (0 < n1)%nat -> (0 < n2)%nat -> Nat.gcd n1 n2 = 1%nat -> univ (n1 * n2) M <-> univ n1 M /\ univ n2 M.
Proof.
  intros P1 P2 G. split.
  - assert (HH : forall m1 m2, (0 < m1)%nat -> (0 < m2)%nat -> Nat.gcd m1 m2 = 1%nat -> univ (m1 * m2) M -> univ m1 M).
    { intros m1 m2 Q1 Q2 GG U a Ga. destruct (crt_lift m1 m2 a Q1 Q2 GG) as (x & D1 & D2).
      assert (X : Nat.gcd x (m1 * m2) = 1%nat). { apply gcd_mul. split; [apply (gcd_cong _ _ a); assumption|]. apply (gcd_cong m2 x 1); [exact D2|apply Nat.gcd_1_l]. }
      specialize (U x X). apply (Z.divide_trans (Z.of_nat m1)) in U; [|apply divide_nat, Nat.divide_factor_l]. replace (Z.of_nat a ^ Z.of_nat M - 1) with (Z.of_nat x ^ Z.of_nat M - 1 - (Z.of_nat x ^ Z.of_nat M - Z.of_nat a ^ Z.of_nat M)) by ring. apply Z.divide_sub_r; [exact U|]. apply pow_cong. exact D1. }
    intros U. split; [apply (HH n1 n2); assumption|]. apply (HH n2 n1); [assumption|assumption|now rewrite Nat.gcd_comm|now rewrite Nat.mul_comm].
  - intros [U1 U2] a Ga. apply gcd_mul in Ga. apply coprime_product_divide; [exact G|apply U1|apply U2]; apply Ga.
Qed.
Lemma exact_product n1 n2 L1 L2 : (0 < n1)%nat -> (0 < n2)%nat -> Nat.gcd n1 n2 = 1%nat -> exact n1 L1 -> exact n2 L2 -> exact (n1 * n2) (Z.lcm L1 L2).
Proof.
  intros P1 P2 G [Q1 E1] [Q2 E2]. split; [pose proof (Z.lcm_nonneg L1 L2); assert (Z.lcm L1 L2 <> 0) by (rewrite Z.lcm_eq_0; lia); lia|]. intros M. rewrite univ_product, E1, E2 by assumption. split.
  - intros [A B]. now apply Z.lcm_least.
  - intros H. split; eapply Z.divide_trans; try exact H; [apply Z.divide_lcm_l|apply Z.divide_lcm_r].
Qed.
Lemma exact_one : exact 1 1.
Proof.
  split; [lia|]. intros M. split; [intros _; apply Z.divide_1_l|]. intros _ a _. apply Z.divide_1_l.
Qed.
