(** Rough and smooth sums; sum_multiplicative_34 and calc_F_k. *)
From Coq Require Import Ring Ring_theory.
From Verif Require Import Lib RingSpec RingProofs PrimesSpec PrimesProofs PrimesProofs4 PiSpec PiProofs DirSpec SumMulModel SumMulSpec.
From Coq Require Import Arith Lia.
Open Scope nat_scope.

Lemma rough_spec b t : rough b t = true <-> forall p, is_prime p -> p < b -> ~ Nat.divide p t.
Proof.
  unfold rough. rewrite forallb_forall. split.
  - intros H p P L D. assert (I : In p (seq 0 b)) by (apply in_seq; lia). specialize (H p I). apply negb_true_iff, andb_false_iff in H. destruct H as [H|H]; [apply primeb_spec in P; congruence|]. pose proof (prime_ge _ P). apply Nat.eqb_neq in H. apply H. apply Nat.mod_divide; [lia|exact D].
  - intros H d D. apply in_seq in D. destruct (primeb d) eqn:P; [|reflexivity]. apply primeb_spec in P. pose proof (prime_ge _ P). cbn [andb]. apply negb_true_iff, Nat.eqb_neq. intros Q. apply Nat.mod_divide in Q; [|lia]. apply (H d P); [lia|exact Q].
Qed.
Lemma smooth_spec b t : 1 <= t -> (smooth b t = true <-> forall p, is_prime p -> b <= p -> ~ Nat.divide p t).
Proof.
  intros T1. unfold smooth. rewrite forallb_forall. split.
  - intros H p P L D. pose proof (Nat.divide_pos_le p t ltac:(lia) D). assert (I : In p (seq b (S t - b))) by (apply in_seq; lia). specialize (H p I). apply negb_true_iff, andb_false_iff in H. destruct H as [H|H]; [apply primeb_spec in P; congruence|]. pose proof (prime_ge _ P). apply Nat.eqb_neq in H. apply H. apply Nat.mod_divide; [lia|exact D].
  - intros H d D. apply in_seq in D. destruct (primeb d) eqn:P; [|reflexivity]. apply primeb_spec in P. pose proof (prime_ge _ P). cbn [andb]. apply negb_true_iff, Nat.eqb_neq. intros Q. apply Nat.mod_divide in Q; [|lia]. apply (H d P); [lia|exact Q].
Qed.
Lemma divide_mod p t : 1 <= p -> (t mod p =? 0) = true <-> Nat.divide p t.
Proof. intros H. rewrite Nat.eqb_eq. apply Nat.mod_divide. lia. Qed.
Lemma rough_S p t : is_prime p -> rough (S p) t = rough p t && negb (t mod p =? 0).
Proof.
  intros P. pose proof (prime_ge _ P) as P2. apply eq_true_iff_eq. rewrite andb_true_iff, !rough_spec, negb_true_iff, <- not_true_iff_false, (divide_mod p t) by lia. split.
  - intros H. split; [intros r R L; apply H; [exact R|lia]|]. apply H; [exact P|lia].
  - intros (H & N) r R L. destruct (Nat.eq_dec r p) as [->|E]; [exact N|]. apply H; [exact R|lia].
Qed.
Lemma rough_skip p t : ~ is_prime p -> rough (S p) t = rough p t.
Proof.
  intros P. apply eq_true_iff_eq. rewrite !rough_spec. split; intros H r R L; apply H; try assumption; try lia. assert (r <> p) by congruence. lia.
Qed.
Lemma rough_mul p t : is_prime p -> rough p (p * t) = rough p t.
Proof.
  intros P. apply eq_true_iff_eq. rewrite !rough_spec. split; intros H r R L D.
  - apply (H r R L). now apply Nat.divide_mul_r.
  - destruct (prime_euclid r p t R D) as [E|E]; [|now apply (H r R L)]. apply (prime_divides_prime r p R P) in E. lia.
Qed.
Lemma smooth_S p t : 1 <= t -> is_prime p -> smooth p t = smooth (S p) t && negb (t mod p =? 0).
Proof.
  intros T1 P. pose proof (prime_ge _ P) as P2. apply eq_true_iff_eq. rewrite andb_true_iff, !smooth_spec, negb_true_iff, <- not_true_iff_false, (divide_mod p t) by lia. split.
  - intros H. split; [intros r R L; apply H; [exact R|lia]|]. apply H; [exact P|lia].
  - intros (H & N) r R L. destruct (Nat.eq_dec r p) as [->|E]; [exact N|]. apply H; [exact R|lia].
Qed.
Lemma smooth_skip p t : 1 <= t -> ~ is_prime p -> smooth p t = smooth (S p) t.
Proof.
  intros T1 P. apply eq_true_iff_eq. rewrite !smooth_spec by exact T1. split; intros H r R L; apply H; try assumption; try lia. assert (r <> p) by congruence. lia.
Qed.
Lemma smooth_gap a b t : 1 <= t -> a <= b -> (forall r, is_prime r -> a <= r -> b <= r) -> smooth a t = smooth b t.
Proof.
  intros T1 L G. apply eq_true_iff_eq. rewrite !smooth_spec by exact T1. split; intros H r R Q; apply H; try assumption; try lia. now apply G.
Qed.
Lemma smooth_mul p t : 1 <= t -> is_prime p -> smooth (S p) (p * t) = smooth (S p) t.
Proof.
  intros T1 P. pose proof (prime_ge _ P). apply eq_true_iff_eq. rewrite !smooth_spec by nia. split; intros H0 r R L D.
  - apply (H0 r R L). now apply Nat.divide_mul_r.
  - destruct (prime_euclid r p t R D) as [E|E]; [|now apply (H0 r R L)]. apply (prime_divides_prime r p R P) in E. lia.
Qed.
Lemma smooth_one b : smooth b 1 = true.
Proof. apply smooth_spec; [lia|]. intros p P _ D. pose proof (prime_ge _ P). apply Nat.divide_1_r in D. lia. Qed.
Lemma smooth_all b t : 1 <= t < b -> smooth b t = true.
Proof. intros H. apply smooth_spec; [lia|]. intros p P L D. apply Nat.divide_pos_le in D; lia. Qed.
Lemma smooth_low t : 2 <= t -> smooth 0 t = false.
Proof. intros H. apply not_true_iff_false. rewrite smooth_spec by lia. intros Q. destruct (least_factor t H) as (p & P & D & _). apply (Q p P); [lia|exact D]. Qed.
Lemma smooth_pow p e u q : is_prime p -> is_prime q -> 1 <= e -> 1 <= u -> smooth p u = true -> smooth (S q) (p ^ e * u) = (p <=? q).
Proof.
  intros P Q E U S0. assert (PU := proj1 (smooth_spec p u U) S0). pose proof (prime_ge _ P). pose proof (PrimesProofs4.pow_pos p e ltac:(lia)). apply eq_true_iff_eq. rewrite smooth_spec by nia. rewrite Nat.leb_le. split.
  - intros X. destruct (le_lt_dec p q) as [L|L]; [exact L|]. exfalso. apply (X p P); [lia|]. apply Nat.divide_mul_l. replace e with (S (e - 1)) by lia. exists (p ^ (e - 1)). cbn. lia.
  - intros L r R LR D. destruct (prime_euclid r _ _ R D) as [D1|D1].
    + apply (prime_divides_pow r p e R P) in D1. lia.
    + apply (PU r R); [lia|exact D1].
Qed.
Lemma coprime_pow p e u : is_prime p -> ~ Nat.divide p u -> Nat.gcd (p ^ e) u = 1.
Proof.
  intros P N. pose proof (prime_ge _ P). destruct (Nat.eq_dec (Nat.gcd (p ^ e) u) 1) as [|G]; [assumption|exfalso].
  assert (G0 : Nat.gcd (p ^ e) u <> 0). { intros Q. apply Nat.gcd_eq_0 in Q. pose proof (PrimesProofs4.pow_pos p e ltac:(lia)). lia. }
  destruct (least_factor (Nat.gcd (p ^ e) u) ltac:(lia)) as (r & R & D & _). assert (Nat.divide r (p ^ e)) by (eapply Nat.divide_trans; [exact D|apply Nat.gcd_divide_l]). apply (prime_divides_pow r p e R P) in H0. subst r. apply N. eapply Nat.divide_trans; [exact D|apply Nat.gcd_divide_r].
Qed.
Lemma smooth_coprime p e u : is_prime p -> 1 <= u -> smooth p u = true -> Nat.gcd (p ^ e) u = 1.
Proof. intros P U S0. apply coprime_pow; [exact P|]. apply (proj1 (smooth_spec p u U) S0 p P). lia. Qed.

Section Sums.
  Context {T : Type} (zero one : T) (add mul sub : T -> T -> T) (opp : T -> T).
  Hypothesis Rth : ring_theory zero one add mul sub opp (@eq T).
  Add Ring Tr : Rth.
  Notation rsum := (rsum zero add).
  Notation sumQ := (sum_where zero add).
  Notation rough_total := (rough_total zero add).
  Notation multiplicative := (multiplicative one mul).
  Notation summatory := (summatory zero add).
  Notation prime_total := (prime_total zero add).

  Lemma sumQ_ext Q Q' c c' M : (forall t, 1 <= t <= M -> Q t = Q' t) -> (forall t, 1 <= t <= M -> Q t = true -> c t = c' t) -> sumQ Q c M = sumQ Q' c' M.
  Proof. intros A B. apply (rsum_ext zero add). intros i I0. rewrite <- A by lia. destruct (Q (S i)) eqn:E; [|reflexivity]. apply B; [lia|exact E]. Qed.
  Lemma sumQ_zero Q c M : (forall t, 1 <= t <= M -> Q t = true -> c t = zero) -> sumQ Q c M = zero.
  Proof. intros A. apply (rsum_zero zero one add mul sub opp Rth). intros i I0. destruct (Q (S i)) eqn:E; [|reflexivity]. apply A; [lia|exact E]. Qed.
  Lemma sumQ_mul_l Q c k M : sumQ Q (fun t => mul k (c t)) M = mul k (sumQ Q c M).
  Proof. unfold SumMulSpec.sum_where. rewrite <- (rsum_mul_l zero one add mul sub opp Rth). apply (rsum_ext zero add). intros i _. destruct (Q (S i)); [reflexivity|ring]. Qed.
  Lemma sumQ_trunc Q c m n : m <= n -> (forall t, m < t <= n -> Q t = true -> c t = zero) -> sumQ Q c n = sumQ Q c m.
  Proof. intros L H. apply (rsum_trunc zero one add mul sub opp Rth); [exact L|]. intros i I0. destruct (Q (S i)) eqn:E; [|reflexivity]. apply H; [lia|exact E]. Qed.
  (** splitting off the multiples of p *)
  Lemma sumQ_peel p Q Q' c M : 1 <= p -> (forall t, 1 <= t -> Q (p * t) = Q t) -> (forall t, 1 <= t -> Q' t = Q t && negb (t mod p =? 0)) ->
    sumQ Q c M = add (sumQ Q' c M) (sumQ Q (fun t => c (p * t)) (M / p)).
  Proof.
    intros P HQ HQ'.
    set (h := fun t => if t =? 0 then zero else if Q t then c (p * t) else zero).
    assert (E1 : sumQ Q (fun t => c (p * t)) (M / p) = rsum (S (M / p)) h).
    { rewrite (rsum_S_l zero one add mul sub opp Rth). unfold h at 1. cbn [Nat.eqb]. unfold SumMulSpec.sum_where. rewrite <- (rsum_ext zero add (M / p) (fun k => h (S k))); [ring|]. intros i _. unfold h. reflexivity. }
    rewrite E1. rewrite <- (rsum_multiples zero one add mul sub opp Rth p h M ltac:(lia)). rewrite (rsum_S_l zero one add mul sub opp Rth). rewrite Nat.mod_0_l, Nat.div_0_l by lia. unfold h at 1. cbn [Nat.eqb].
    replace (add (sumQ Q' c M) (add zero (rsum M (fun i => if S i mod p =? 0 then h (S i / p) else zero)))) with (add (sumQ Q' c M) (rsum M (fun i => if S i mod p =? 0 then h (S i / p) else zero))) by ring.
    unfold SumMulSpec.sum_where. rewrite <- (rsum_add zero one add mul sub opp Rth). apply (rsum_ext zero add). intros i _. rewrite (HQ' (S i)) by lia. destruct (S i mod p =? 0) eqn:E.
    - cbn [negb]. rewrite andb_false_r. apply Nat.eqb_eq in E. assert (X : S i = p * (S i / p)) by (apply Nat.div_exact; lia). assert (1 <= S i / p) by nia. unfold h. replace (S i / p =? 0) with false by (symmetry; apply Nat.eqb_neq; lia). replace (Q (S i)) with (Q (S i / p)) by (rewrite X at 2; now rewrite HQ by lia). rewrite <- X. cbv iota. destruct (Q (S i / p)); ring.
    - cbn [negb]. rewrite andb_true_r. destruct (Q (S i)); ring.
  Qed.
  Lemma rough_peel p c M : is_prime p -> sumQ (rough p) c M = add (sumQ (rough (S p)) c M) (sumQ (rough p) (fun t => c (p * t)) (M / p)).
  Proof. intros P. pose proof (prime_ge _ P). apply sumQ_peel; [lia|intros; now apply rough_mul|intros; now apply rough_S]. Qed.
  Lemma smooth_peel p c M : is_prime p -> sumQ (smooth (S p)) c M = add (sumQ (smooth p) c M) (sumQ (smooth (S p)) (fun t => c (p * t)) (M / p)).
  Proof. intros P. pose proof (prime_ge _ P). apply sumQ_peel; [lia|intros; now apply smooth_mul|intros; now apply smooth_S]. Qed.

  (** the sum by the greatest prime factor *)
  Lemma sum_by_greatest g N : 1 <= N -> summatory g N = add (g 1) (rsum (S N) (fun q => if primeb q then sumQ (smooth (S q)) (fun t => g (q * t)) (N / q) else zero)).
  Proof.
    intros N1. assert (X : forall b, add (sumQ (smooth 0) g N) (rsum b (fun q => if primeb q then sumQ (smooth (S q)) (fun t => g (q * t)) (N / q) else zero)) = sumQ (smooth b) g N).
    { induction b as [|b IH]; cbn [RingSpec.rsum]; [ring|]. destruct (primeb b) eqn:P.
      - rewrite (smooth_peel b g N) by now apply primeb_spec. rewrite <- IH. ring.
      - transitivity (sumQ (smooth b) g N); [rewrite <- IH; ring|]. apply sumQ_ext; [|reflexivity]. intros t Ht. apply smooth_skip; [lia|]. intros Q. apply primeb_spec in Q. congruence. }
    assert (E0 : sumQ (smooth 0) g N = g 1).
    { rewrite (sumQ_trunc _ _ 1 N N1); [|intros t Ht Q; rewrite smooth_low in Q by lia; discriminate]. unfold SumMulSpec.sum_where. cbn [RingSpec.rsum]. rewrite smooth_one. ring. }
    rewrite <- E0, X. unfold DirSpec.summatory, SumMulSpec.sum_where. apply (rsum_ext zero add). intros i I0. rewrite smooth_all by lia. reflexivity.
  Qed.
  (** the contribution of a class: the products of t with primes not below its greatest prime factor *)
  Definition class (g : nat -> T) (N t : nat) : T := rsum (S (N / t)) (fun q => if primeb q && smooth (S q) t then g (q * t) else zero).
  Lemma sum_by_class g N : 1 <= N -> summatory g N = add (g 1) (sumQ (fun _ => true) (class g N) N).
  Proof.
    intros N1. rewrite sum_by_greatest by exact N1. f_equal.
    assert (A : forall t, 1 <= t <= N -> class g N t = rsum (S N) (fun q => if primeb q && smooth (S q) t && (q * t <=? N) then g (q * t) else zero)).
    { intros t Ht. symmetry. pose proof (Nat.div_le_upper_bound N t N ltac:(lia) ltac:(nia)). rewrite (rsum_trunc zero one add mul sub opp Rth (S N) (S (N / t))); [|lia|].
      - apply (rsum_ext zero add). intros q Q. replace (q * t <=? N) with true; [now rewrite andb_true_r|]. symmetry. apply Nat.leb_le. pose proof (Nat.mul_div_le N t ltac:(lia)). nia.
      - intros q Q. replace (q * t <=? N) with false; [now rewrite andb_false_r|]. symmetry. apply Nat.leb_gt. pose proof (Nat.mul_succ_div_gt N t ltac:(lia)). nia. }
    transitivity (rsum N (fun k => rsum (S N) (fun q => if primeb q && smooth (S q) (S k) && (q * S k <=? N) then g (q * S k) else zero))).
    2: { unfold SumMulSpec.sum_where. apply (rsum_ext zero add). intros k K. symmetry. apply A. lia. }
    rewrite (rsum_swap zero one add mul sub opp Rth). apply (rsum_ext zero add). intros q Q. destruct (primeb q) eqn:P; cbn [andb].
    2: { symmetry. now apply (rsum_zero zero one add mul sub opp Rth). }
    apply primeb_spec in P. pose proof (prime_ge _ P). assert (N / q <= N) by (apply Nat.div_le_upper_bound; nia). unfold SumMulSpec.sum_where. symmetry. rewrite (rsum_trunc zero one add mul sub opp Rth N (N / q)); [|lia|].
    - apply (rsum_ext zero add). intros k K. replace (q * S k <=? N) with true; [now rewrite andb_true_r|]. symmetry. apply Nat.leb_le. pose proof (Nat.mul_div_le N q ltac:(lia)). nia.
    - intros k K. replace (q * S k <=? N) with false; [now rewrite andb_false_r|]. symmetry. apply Nat.leb_gt. pose proof (Nat.mul_succ_div_gt N q ltac:(lia)). nia.
  Qed.
  Lemma class_one g N : class g N 1 = prime_total g N.
  Proof. unfold class. rewrite Nat.div_1_r. apply (rsum_ext zero add). intros q _. rewrite smooth_one, andb_true_r, Nat.mul_1_r. reflexivity. Qed.
  Lemma prime_total_split g a b : a <= b -> rsum (S b) (fun q => if primeb q && (a <? q) then g q else zero) = sub (prime_total g b) (prime_total g a).
  Proof.
    intros L. unfold PiSpec.prime_total. replace (S b) with (S a + (b - a)) by lia. rewrite !(rsum_split zero one add mul sub opp Rth). rewrite (rsum_zero zero one add mul sub opp Rth (S a)).
    - transitivity (rsum (b - a) (fun i => if primeb (S a + i) then g (S a + i) else zero)); [|ring]. transitivity (rsum (b - a) (fun i => if primeb (S a + i) && (a <? S a + i) then g (S a + i) else zero)); [ring|]. apply (rsum_ext zero add). intros i _. replace (a <? S a + i) with true by (symmetry; apply Nat.ltb_lt; lia). now rewrite andb_true_r.
    - intros i I0. replace (a <? i) with false by (symmetry; apply Nat.ltb_ge; lia). now rewrite andb_false_r.
  Qed.
  Lemma mult_of g a b : multiplicative g -> 1 <= a -> 1 <= b -> Nat.gcd a b = 1 -> g (a * b) = mul (g a) (g b).
  Proof. intros (_ & M). apply M. Qed.
  Lemma class_pow g N p e u : multiplicative g -> is_prime p -> 1 <= e -> 1 <= u -> smooth p u = true ->
    class g N (p ^ e * u) = if p <=? N / (p ^ e * u) then mul (g u) (add (g (p ^ (e + 1))) (mul (g (p ^ e)) (sub (prime_total g (N / (p ^ e * u))) (prime_total g p)))) else zero.
  Proof.
    intros M P E U S0. pose proof (prime_ge _ P). pose proof (PrimesProofs4.pow_pos p e ltac:(lia)). unfold class. set (X := N / (p ^ e * u)).
    assert (PU := proj1 (smooth_spec p u U) S0).
    transitivity (rsum (S X) (fun q => if primeb q && (p <=? q) then g (q * (p ^ e * u)) else zero)).
    { apply (rsum_ext zero add). intros q _. destruct (primeb q) eqn:PQ; [|reflexivity]. cbn [andb]. rewrite smooth_pow; try assumption; [reflexivity|]. now apply primeb_spec. }
    destruct (Nat.leb_spec p X) as [L|L].
    - transitivity (rsum (S X) (fun q => add (if q =? p then mul (g u) (g (p ^ (e + 1))) else zero) (mul (mul (g u) (g (p ^ e))) (if primeb q && (p <? q) then g q else zero)))).
      + apply (rsum_ext zero add). intros q _. destruct (primeb q) eqn:PQ; cbn [andb].
        2: { destruct (Nat.eqb_spec q p) as [->|]; [apply primeb_spec in P; congruence|]. ring. }
        apply primeb_spec in PQ. destruct (Nat.eqb_spec q p) as [->|Nq].
        * rewrite Nat.leb_refl, Nat.ltb_irrefl. replace (p * (p ^ e * u)) with (p ^ (e + 1) * u) by (rewrite Nat.pow_add_r, Nat.pow_1_r; lia). rewrite (mult_of g _ _ M); [ring| | |]; [apply PrimesProofs4.pow_pos; lia|lia|]. now apply smooth_coprime.
        * destruct (Nat.leb_spec p q) as [Lq|Lq].
          -- replace (p <? q) with true by (symmetry; apply Nat.ltb_lt; lia). pose proof (prime_ge _ PQ). rewrite (mult_of g q _ M); [|lia|nia|].
             2: { rewrite <- (Nat.pow_1_r q) at 1. apply coprime_pow; [exact PQ|]. intros D. destruct (prime_euclid _ _ _ PQ D) as [D1|D1]; [apply (prime_divides_pow q p e PQ P) in D1; lia|]. apply (PU q PQ); [lia|exact D1]. }
             rewrite (mult_of g _ _ M); [ring|lia|lia|]. now apply smooth_coprime.
          -- replace (p <? q) with false by (symmetry; apply Nat.ltb_ge; lia). ring.
      + rewrite (rsum_add zero one add mul sub opp Rth), (rsum_mul_l zero one add mul sub opp Rth), prime_total_split by exact L. rewrite (rsum_single zero one add mul sub opp Rth (S X) _ p); [|lia|].
        * rewrite Nat.eqb_refl. ring.
        * intros i _ Ni. apply Nat.eqb_neq in Ni. now rewrite Ni.
    - apply (rsum_zero zero one add mul sub opp Rth). intros q Q. replace (p <=? q) with false by (symmetry; apply Nat.leb_gt; lia). now rewrite andb_false_r.
  Qed.
End Sums.
