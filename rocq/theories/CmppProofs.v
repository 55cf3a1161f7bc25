(** Products that skip the multiples of p, and the loops that compute them modulo p^e. *)
From Coq Require Import Znumtheory Zpow_facts.
From Verif Require Import Lib BaseModel BaseProofs ModuloModel ModuloProofs FactorModel FactorProofs2 FactorProps OrderProofs8 CombSpec CmppModel.
Open Scope Z_scope.

Lemma mul_run x y m : 1 <= m -> 0 <= x -> 0 <= y -> modulo_mul x y m = Some ((x * y) mod m).
Proof. intros. unfold modulo_mul. rewrite cmod_some by lia. rewrite Z.rem_mod_nonneg by nia. reflexivity. Qed.
Lemma cdiv_run x y : 1 <= y -> 0 <= x -> cdiv x y = Some (x / y).
Proof. intros. rewrite cdiv_some, Z.quot_div_nonneg by lia. reflexivity. Qed.
Lemma cmod_run x y : 1 <= y -> 0 <= x -> cmod x y = Some (x mod y).
Proof. intros. rewrite cmod_some, Z.rem_mod_nonneg by lia. reflexivity. Qed.
Lemma pow_run p e : 0 <= e -> pow_pe p e = Some (p ^ e).
Proof. intros. now apply powZ_run. Qed.
Lemma zfact_S n : zfact (Z.of_nat (S n)) = Z.of_nat (S n) * zfact (Z.of_nat n).
Proof. unfold zfact. rewrite !Nat2Z.id. change (fact (S n)) with (S n * fact n)%nat. now rewrite Nat2Z.inj_mul. Qed.
Lemma zfact_pos n : 0 < zfact n.
Proof. unfold zfact. pose proof (lt_O_fact (Z.to_nat n)). lia. Qed.

Section Skip.
Variable p : Z.
Hypothesis P2 : 2 <= p.
(** product of the i <= n that p does not divide *)
Fixpoint sk (n : nat) : Z := match n with O => 1 | S n' => if Z.of_nat n mod p =? 0 then sk n' else sk n' * Z.of_nat n end.
Lemma sk_pos n : 1 <= sk n.
Proof. induction n as [|n IH]; [cbn; lia|]. cbn [sk]. destruct (Z.eqb_spec (Z.of_nat (S n) mod p) 0); [exact IH|nia]. Qed.
Lemma sk_fact n : zfact (Z.of_nat n) = zfact (Z.of_nat n / p) * p ^ (Z.of_nat n / p) * sk n.
Proof.
  induction n as [|n IH]; [cbn [sk Z.of_nat]; rewrite Z.div_0_l by lia; rewrite Z.pow_0_r; unfold zfact; cbn; lia|].
  rewrite zfact_S, IH. cbn [sk]. assert (U : 0 <= Z.of_nat n / p) by (apply Z.div_pos; lia).
  pose proof (Z.div_mod (Z.of_nat n) p ltac:(lia)) as D. pose proof (Z.mod_pos_bound (Z.of_nat n) p ltac:(lia)) as B. pose proof (Z.div_mod (Z.of_nat (S n)) p ltac:(lia)) as D'. pose proof (Z.mod_pos_bound (Z.of_nat (S n)) p ltac:(lia)) as B'.
  set (a := Z.of_nat n / p) in *. set (b := Z.of_nat (S n) / p) in *.
  destruct (Z.eqb_spec (Z.of_nat (S n) mod p) 0) as [E|E].
  - assert (EB : b = a + 1) by nia. rewrite EB in *. replace (zfact (a + 1)) with ((a + 1) * zfact a). 2:{ rewrite <- (Z2Nat.id a) by exact U. replace (Z.of_nat (Z.to_nat a) + 1) with (Z.of_nat (S (Z.to_nat a))) by lia. now rewrite zfact_S. }
    rewrite Z.pow_add_r, Z.pow_1_r by lia. replace (Z.of_nat (S n)) with (p * (a + 1)) by lia. ring.
  - assert (EB : b = a) by nia. rewrite EB. ring.
Qed.
Lemma skip_run m i r : 1 <= m -> 0 <= r -> skip_step p m (S i) r = Some (if Z.of_nat (S i) mod p =? 0 then r else (r * Z.of_nat (S i)) mod m).
Proof.
  intros HM HR. unfold skip_step. rewrite cmod_run by lia. cbn [obind]. destruct (Z.eqb_spec (Z.of_nat (S i) mod p) 0); cbn [negb]; [reflexivity|]. now apply mul_run; lia.
Qed.
Lemma skip_sk m i r : 1 <= m -> r = sk i mod m -> skip_step p m (S i) r = Some (sk (S i) mod m).
Proof.
  intros HM ->. pose proof (Z.mod_pos_bound (sk i) m ltac:(lia)). rewrite skip_run by lia. cbn [sk]. destruct (Z.eqb_spec (Z.of_nat (S i) mod p) 0); [reflexivity|]. now rewrite Z.mul_mod_idemp_l by lia.
Qed.
Lemma pe_pos e : 0 <= e -> 1 <= p ^ e.
Proof. intros. pose proof (Z.pow_pos_nonneg p e ltac:(lia) ltac:(lia)). lia. Qed.
Lemma table_run n e : 0 <= e -> exists tbl, factorials_mod_pp_skipped n p e = Some tbl /\ length tbl = S n /\ forall i, (i <= n)%nat -> nth_error tbl i = Some (sk i mod p ^ e).
Proof.
  intros E. pose proof (pe_pos e E) as M. unfold factorials_mod_pp_skipped. rewrite pow_run by exact E. cbn [obind]. rewrite mod_normalize_u_spec by lia. cbn [obind].
  match goal with |- context [for_range 0 (S n) ?body ?s] => destruct (for_range_spec (fun i '(r, tbl) => r = sk (i - 1) mod p ^ e /\ tbl = map (fun j => sk j mod p ^ e) (seq 0 i)) body 0%nat (S n) s) as ((r & tbl) & Er & R1 & R2) end; [lia|split; reflexivity| |].
  - intros i (r & tbl) I (-> & ->). destruct i as [|i].
    + unfold skip_step. rewrite cmod_run by lia. cbn [obind]. change (Z.of_nat 0) with 0. rewrite Z.mod_0_l by lia. cbn [Z.eqb negb obind]. eexists. split; [reflexivity|]. split; reflexivity.
    + replace (S i - 1)%nat with i by lia. rewrite (skip_sk _ i _ M eq_refl). cbn [obind]. eexists. split; [reflexivity|]. cbv beta iota. split; [reflexivity|]. rewrite (seq_S (S i)), map_app. reflexivity.
  - rewrite Er. cbn [obind]. exists tbl. split; [reflexivity|]. rewrite R2. split; [now rewrite map_length, seq_length|]. intros i I. rewrite nth_error_map. replace (nth_error (seq 0 (S n)) i) with (Some i); [reflexivity|]. symmetry. rewrite (nth_error_nth' _ 0%nat) by (rewrite seq_length; lia). rewrite seq_nth by lia. reflexivity.
Qed.
Lemma slow_run n e : 0 <= e -> 0 <= n -> factorial_mod_pp_skipped_slow n p e = Some (sk (Z.to_nat n) mod p ^ e, n / p).
Proof.
  intros E N. pose proof (pe_pos e E) as M. unfold factorial_mod_pp_skipped_slow. rewrite pow_run by exact E. cbn [obind]. rewrite mod_normalize_u_spec by lia. cbn [obind].
  match goal with |- context [for_range 1 ?b ?body ?s] => destruct (for_range_spec (fun i r => r = sk (i - 1) mod p ^ e) body 1%nat b s) as (r & Er & R1) end; [lia|reflexivity| |].
  - intros i r I ->. destruct i as [|i]; [lia|]. replace (S i - 1)%nat with i by lia. rewrite (skip_sk _ i _ M eq_refl). eexists. split; [reflexivity|]. reflexivity.
  - rewrite Er. cbn [obind]. rewrite cdiv_run by lia. cbn [obind]. rewrite R1. replace (S (Z.to_nat n) - 1)%nat with (Z.to_nat n) by lia. reflexivity.
Qed.
Hypothesis PP : prime p.
Lemma not_div_mul a b : ~ (p | a) -> ~ (p | b) -> ~ (p | a * b).
Proof. intros A B C. apply prime_mult in C as [C|C]; auto. Qed.
Lemma sk_free n : ~ (p | sk n).
Proof.
  induction n as [|n IH]; [cbn [sk]; intros C; apply Z.divide_1_r_nonneg in C; lia|]. cbn [sk]. destruct (Z.eqb_spec (Z.of_nat (S n) mod p) 0); [exact IH|]. apply not_div_mul; [exact IH|]. intros C. apply Z.mod_divide in C; lia.
Qed.
Lemma free_pow a e : 0 <= e -> ~ (p | a) -> Z.gcd a (p ^ e) = 1.
Proof.
  intros E A. apply Zgcd_1_rel_prime. apply Zpow_facts.rel_prime_Zpower_r; [exact E|]. apply rel_prime_sym. apply prime_rel_prime; assumption.
Qed.
(** what is left of a number once its factors p are out is determined *)
Lemma split_unique a b x y : 0 <= a -> 0 <= b -> ~ (p | x) -> ~ (p | y) -> p ^ a * x = p ^ b * y -> a = b /\ x = y.
Proof.
  intros A B X Y E. assert (HH : forall a b x y, 0 <= a -> 0 <= b -> ~ (p | x) -> a < b -> p ^ a * x <> p ^ b * y).
  { clear - P2. intros a b x y A B X L E. apply X. replace b with (a + (b - a - 1) + 1) in E by lia. rewrite !Z.pow_add_r, Z.pow_1_r in E by lia. pose proof (Z.pow_pos_nonneg p a ltac:(lia) A). exists (p ^ (b - a - 1) * y). apply (Z.mul_cancel_l _ _ (p ^ a)); [lia|]. rewrite E. ring. }
  assert (a = b). { destruct (Z.lt_trichotomy a b) as [L|[L|L]]; [exfalso; now apply (HH a b x y)|exact L|exfalso; symmetry in E; now apply (HH b a y x)]. } subst b. split; [reflexivity|]. pose proof (Z.pow_pos_nonneg p a ltac:(lia) A). apply (Z.mul_cancel_l _ _ (p ^ a)); [lia|exact E].
Qed.
Lemma reduced_slow_run n e : 0 <= e -> 0 <= n -> exists a m, factorial_mod_pp_reduced_slow n p e = Some (m mod p ^ e, a) /\ 0 <= a /\ zfact n = p ^ a * m /\ ~ (p | m).
Proof.
  intros E N. pose proof (pe_pos e E) as M. unfold factorial_mod_pp_reduced_slow. rewrite pow_run by exact E. cbn [obind]. rewrite mod_normalize_u_spec by lia. cbn [obind].
  match goal with |- context [for_range 1 ?b ?body ?s] => destruct (for_range_spec (fun i '(r, a) => 0 <= a /\ exists m, 0 <= m /\ r = m mod p ^ e /\ zfact (Z.of_nat (i - 1)) = p ^ a * m /\ ~ (p | m)) body 1%nat b s) as ((r & a) & Er & A & m & M0 & -> & FM & DM) end; [lia| | |].
  - split; [lia|]. exists 1. split; [lia|]. split; [reflexivity|]. split; [reflexivity|]. intros C. apply Z.divide_1_r_nonneg in C; lia.
  - intros i (r & a) I (A & m & M0 & -> & FM & DM). destruct i as [|i]; [lia|]. replace (S i - 1)%nat with i in * by lia.
    destruct (C85_factor_out (Z.of_nat (S i)) p a ltac:(lia) P2) as (i' & k & -> & K & EI & DI). cbn [obind]. pose proof (Z.pow_pos_nonneg p k ltac:(lia) K) as PK. assert (I0 : 0 < i') by (assert (0 < Z.of_nat (S i)) by lia; nia).
    pose proof (Z.mod_pos_bound m (p ^ e) ltac:(lia)). rewrite mul_run by lia. cbn [obind]. eexists. split; [reflexivity|]. cbv beta iota. split; [lia|]. exists (m * i'). split; [nia|]. split; [now rewrite Z.mul_mod_idemp_l by lia|]. split; [|now apply not_div_mul].
    replace (S (S i) - 1)%nat with (S i) by lia. rewrite zfact_S, FM, EI, Z.pow_add_r by lia. ring.
  - exists a, m. split; [exact Er|]. split; [exact A|]. split; [|exact DM]. rewrite <- FM. f_equal. lia.
Qed.
(** n (n-1) ... (n-k+1) *)
Fixpoint falling (n : Z) (k : nat) : Z := match k with O => 1 | S k => falling n k * (n - Z.of_nat k) end.
Lemma falling_fact n k : (Z.of_nat k <= n) -> falling n k * zfact (n - Z.of_nat k) = zfact n.
Proof.
  induction k as [|k IH]; intros L; [cbn [falling]; rewrite Z.sub_0_r; ring|]. cbn [falling]. rewrite <- IH by lia.
  replace (n - Z.of_nat k) with (Z.of_nat (S (Z.to_nat (n - Z.of_nat (S k))))) at 2 by lia. rewrite zfact_S. replace (Z.of_nat (S (Z.to_nat (n - Z.of_nat (S k))))) with (n - Z.of_nat k) by lia. replace (Z.of_nat (Z.to_nat (n - Z.of_nat (S k)))) with (n - Z.of_nat (S k)) by lia. ring.
Qed.
Lemma div_unit x y e : 0 <= e -> 0 <= x -> 0 <= y -> ~ (p | y) -> exists z, modulo_div (x mod p ^ e) (y mod p ^ e) (p ^ e) = Some z /\ 0 <= z < p ^ e /\ (z * y) mod p ^ e = x mod p ^ e.
Proof.
  intros E X Y D. pose proof (pe_pos e E) as M. pose proof (Z.mod_pos_bound x (p ^ e) ltac:(lia)) as BX. pose proof (Z.mod_pos_bound y (p ^ e) ltac:(lia)) as BY.
  destruct (modulo_div_spec modulo_mul (p ^ e + 1) (x mod p ^ e) (y mod p ^ e) (p ^ e) (mul_exact_Z _)) as (z & Ez & Bz & Cz); [lia|exact BX|lia| |left; lia|].
  - rewrite Z.gcd_mod, Z.gcd_comm by lia. rewrite free_pow by assumption. apply Z.divide_1_l.
  - exists z. split; [exact Ez|]. split; [exact Bz|]. rewrite Z.mul_mod_idemp_r in Cz by lia. rewrite Cz. apply Z.mod_mod. lia.
Qed.
(** the quotient z of m1 by m2 modulo p^e, when m1 = b m2 *)
Lemma quotient_unique e z b m1 m2 : 0 <= e -> 0 <= z < p ^ e -> ~ (p | m2) -> m1 = b * m2 -> (z * m2) mod p ^ e = m1 mod p ^ e -> z = b mod p ^ e.
Proof.
  intros E Z0 D EQ C. pose proof (pe_pos e E) as M. assert (DV : (p ^ e | (z - b) * m2)). { apply Z.mod_divide; [lia|]. replace ((z - b) * m2) with (z * m2 - m1) by (rewrite EQ; ring). rewrite Zminus_mod, C, Z.sub_diag. apply Z.mod_0_l. lia. }
  rewrite Z.mul_comm in DV. apply Z.gauss in DV; [|rewrite Z.gcd_comm; now apply free_pow]. destruct DV as [t T]. replace b with (z + (- t) * p ^ e) by lia. rewrite Z_mod_plus_full. symmetry. now apply Z.mod_small.
Qed.
Lemma fact_split n : 0 <= n -> exists a m, 0 <= a /\ zfact n = p ^ a * m /\ ~ (p | m) /\ 0 < m.
Proof.
  intros N. destruct (C85_factor_out (zfact n) p 0) as (m & k & _ & K & E & D); [pose proof (zfact_pos n); lia|exact P2|]. exists k, m. repeat split; auto. pose proof (zfact_pos n). pose proof (Z.pow_pos_nonneg p k ltac:(lia) K). nia.
Qed.
(** the exponent and the cofactor of the binomial from those of a numerator and a denominator *)
Lemma quotient_split b x y ax mx ay my : 0 < b -> b * y = x -> 0 <= ax -> 0 <= ay -> x = p ^ ax * mx -> y = p ^ ay * my -> ~ (p | mx) -> ~ (p | my) -> 0 <= ax - ay /\ exists m, b = p ^ (ax - ay) * m /\ ~ (p | m) /\ mx = m * my.
Proof.
  intros B EB AX AY EX EY DX DY. destruct (C85_factor_out b p 0) as (m & k & _ & K & E & D); [lia|exact P2|].
  destruct (split_unique ax (k + ay) mx (m * my) AX ltac:(lia) DX) as (E1 & E2); [now apply not_div_mul|rewrite <- EX, <- EB, E, EY, Z.pow_add_r by lia; ring|]. split; [lia|]. exists m. replace (ax - ay) with k by lia. repeat split; auto.
Qed.
Lemma binomial_slow_run n k e b : 0 <= e -> 0 <= k <= n -> b * (zfact k * zfact (n - k)) = zfact n ->
  exists a m, binomial_mod_pp_reduced_slow n k p e = Some (m mod p ^ e, a) /\ 0 <= a /\ b = p ^ a * m /\ ~ (p | m).
Proof.
  intros E KN HB. pose proof (pe_pos e E) as M. unfold binomial_mod_pp_reduced_slow. rewrite pow_run by exact E. cbn [obind]. rewrite mod_normalize_u_spec by lia. cbn [obind]. set (k' := Z.min k (n - k)).
  assert (K0 : 0 <= k' <= n) by lia. assert (HB' : b * (zfact k' * zfact (n - k')) = zfact n). { rewrite <- HB. unfold k'. destruct (Z.min_spec k (n - k)) as [[_ ->]|[_ ->]]; [reflexivity|]. replace (n - (n - k)) with k by lia. ring. } clearbody k'.
  match goal with |- context [for_range 1 ?hi ?body ?st] => destruct (for_range_spec (fun i '(r, s, ar, as_, n') => n' = n - Z.of_nat (i - 1) /\ 0 <= ar /\ 0 <= as_ /\ exists mr ms, 0 < mr /\ 0 < ms /\ r = mr mod p ^ e /\ s = ms mod p ^ e /\ falling n (i - 1) = p ^ ar * mr /\ ~ (p | mr) /\ zfact (Z.of_nat (i - 1)) = p ^ as_ * ms /\ ~ (p | ms)) body 1%nat hi st) as (((((r & s) & ar) & as_) & n') & Er & N' & AR & AS & mr & ms & MR & MS & -> & -> & FR & DR & FS & DS) end; [lia| | |].
  - split; [cbn; lia|]. split; [lia|]. split; [lia|]. assert (D1 : ~ (p | 1)) by (intros C; apply Z.divide_1_r_nonneg in C; lia). exists 1, 1. repeat split; auto; lia.
  - intros i ((((r & s) & ar) & as_) & n') I (-> & AR & AS & mr & ms & MR & MS & -> & -> & FR & DR & FS & DS). destruct i as [|i]; [lia|]. replace (S i - 1)%nat with i in * by lia. assert (NI : 0 < n - Z.of_nat i) by lia.
    destruct (C85_factor_out (n - Z.of_nat i) p ar ltac:(lia) P2) as (j & c & -> & C & EJ & DJ). cbn [obind]. pose proof (Z.pow_pos_nonneg p c ltac:(lia) C) as PC. assert (J0 : 0 < j) by nia. pose proof (Z.mod_pos_bound mr (p ^ e) ltac:(lia)). pose proof (Z.mod_pos_bound ms (p ^ e) ltac:(lia)).
    rewrite mul_run by lia. cbn [obind]. destruct (C85_factor_out (Z.of_nat (S i)) p as_ ltac:(lia) P2) as (j' & c' & -> & C' & EJ' & DJ'). cbn [obind]. pose proof (Z.pow_pos_nonneg p c' ltac:(lia) C') as PC'. assert (J0' : 0 < j') by (assert (0 < Z.of_nat (S i)) by lia; nia). rewrite mul_run by lia. cbn [obind].
    eexists. split; [reflexivity|]. cbv beta iota. replace (S (S i) - 1)%nat with (S i) by lia. split; [lia|]. split; [lia|]. split; [lia|]. exists (mr * j), (ms * j'). split; [nia|]. split; [nia|]. split; [now rewrite Z.mul_mod_idemp_l by lia|]. split; [now rewrite Z.mul_mod_idemp_l by lia|].
    split; [cbn [falling]; rewrite FR, EJ, Z.pow_add_r by lia; ring|]. split; [now apply not_div_mul|]. split; [|now apply not_div_mul]. rewrite zfact_S, FS, EJ', Z.pow_add_r by lia. ring.
  - rewrite Er. cbn [obind]. replace (S (Z.to_nat k') - 1)%nat with (Z.to_nat k') in * by lia. rewrite Z2Nat.id in FS by lia.
    destruct (div_unit mr ms e E) as (z & Ez & Bz & Cz); [lia|lia|exact DS|]. rewrite Ez. cbn [obind].
    assert (FB : b * zfact k' = falling n (Z.to_nat k')). { pose proof (falling_fact n (Z.to_nat k') ltac:(lia)) as FF. rewrite Z2Nat.id in FF by lia. pose proof (zfact_pos (n - k')). apply (Z.mul_cancel_r _ _ (zfact (n - k'))); [lia|]. rewrite FF, <- HB'. ring. }
    assert (B0 : 0 < b). { pose proof (zfact_pos n). pose proof (zfact_pos k'). pose proof (zfact_pos (n - k')). nia. }
    destruct (quotient_split b _ _ ar mr as_ ms B0 FB AR AS FR FS DR DS) as (A0 & m & EB & DM & EM). exists (ar - as_), m. split; [|auto]. do 2 f_equal. apply (quotient_unique e z m mr ms); auto.
Qed.
End Skip.
