From Verif Require Import Lib BaseModel BaseProofs PrimesSpec PrimesProofs NumTheory2 ModuloModel ModuloProofs ModPowModel ModPowProofs OrderProofs8 FactorModel FactorSpec.
From Coq Require Import Znumtheory Lia.
Open Scope Z_scope.

Lemma rem_dvd n p : p <> 0 -> (Z.rem n p = 0 <-> (p | n)). Proof. apply Z.rem_divide. Qed.
Lemma strip_ok n p e : n <> 0 -> 2 <= p -> exists n' k, strip n p e = Some (n', e + k) /\ 0 <= k /\ n = p ^ k * n' /\ ~ (p | n').
Proof.
  intros Hn Hp. unfold strip.
  destruct (loopZ_spec (strip_step p) (fun '(m, f) => m <> 0 /\ exists k, 0 <= k /\ f = e + k /\ n = p ^ k * m)
    (fun '(m, f) => ~ (p | m) /\ exists k, 0 <= k /\ f = e + k /\ n = p ^ k * m) (fun '(m, _) => Z.abs m)) with (fuel := Z.abs n + 1) (s := (n, e)) as ((m & f) & E & D & k & K & -> & EN).
  - intros (m & f) (M & k & K & -> & EN). cbn [strip_step]. unfold cmod, cdiv. destruct (Z.eqb_spec p 0); [lia|]. cbn [obind].
    destruct (Z.eqb_spec (Z.rem m p) 0) as [R|R]; (eexists; split; [reflexivity|]); cbv beta iota.
    + pose proof (Z.quot_rem' m p) as QR. rewrite R in QR. set (t := Z.quot m p) in *. assert (t <> 0) by (intros ->; lia).
      split; [|assert (Z.abs m = p * Z.abs t) by (rewrite <- (Z.abs_eq p) by lia; rewrite <- Z.abs_mul; f_equal; lia); nia].
      split; [assumption|]. exists (k + 1). split; [lia|]. split; [lia|]. rewrite Z.pow_add_r, Z.pow_1_r by lia. rewrite EN, QR. ring.
    + split; [intros D; apply R; apply rem_dvd; [lia|exact D]|]. exists k. auto.
  - intros (m & f) (M & _). lia.
  - split; [exact Hn|]. exists 0. split; [lia|]. split; [lia|]. rewrite Z.pow_0_r. ring.
  - lia.
  - exists m, k. rewrite E. auto.
Qed.

(** ** Miller-Rabin *)
Lemma mod_is x n v : 0 < n -> 0 <= v < n -> (x mod n =? v) = true <-> (n | x - v).
Proof.
  intros H V. rewrite Z.eqb_eq. rewrite <- (Z.mod_small v n V) at 1. apply mod_eq_divide. exact H.
Qed.
Lemma mod_is1 x n : 1 < n -> (x mod n =? 1) = true <-> (n | x - 1). Proof. intros. apply mod_is; lia. Qed.
Lemma mod_ism x n : 1 < n -> (x mod n =? n - 1) = true <-> (n | x + 1).
Proof.
  intros H. rewrite mod_is by lia. replace (x - (n - 1)) with (x + 1 - 1 * n) by ring. split; intros D.
  - replace (x + 1) with (x + 1 - 1 * n + n) by ring. apply Z.divide_add_r; [exact D|apply Z.divide_refl].
  - apply Z.divide_sub_r; [exact D|apply Z.divide_mul_r, Z.divide_refl].
Qed.
Lemma not_both x n : 2 < n -> (n | x - 1) -> (n | x + 1) -> False.
Proof. intros H A B. assert (D : (n | 2)). { replace 2 with (x + 1 - (x - 1)) by ring. now apply Z.divide_sub_r. } apply Z.divide_pos_le in D; lia. Qed.
Lemma dvd_pow1 n x k : 0 <= k -> (n | x - 1) -> (n | x ^ k - 1).
Proof.
  intros K D. revert k K. apply (natlike_ind (fun k => (n | x ^ k - 1))); [rewrite Z.pow_0_r; apply Z.divide_0_r|].
  intros k K IH. rewrite Z.pow_succ_r by lia. replace (x * x ^ k - 1) with (x * (x ^ k - 1) + (x - 1)) by ring. apply Z.divide_add_r; [apply Z.divide_mul_r, IH|exact D].
Qed.
Lemma mr_square_ok n : 2 < n -> forall k y, exists z, mr_square k n (y mod n) = Some z /\
  ((k > 0)%nat -> ((z =? n - 1) = true <-> exists i, 1 <= i <= Z.of_nat k /\ (n | y ^ (2 ^ i) + 1))) /\ (k = O -> z = y mod n).
Proof.
  intros H. induction k as [|k IH]; intros y; cbn [mr_square].
  - exists (y mod n). split; [reflexivity|]. split; [lia|reflexivity].
  - pose proof (Z.mod_pos_bound y n ltac:(lia)). rewrite modulo_mul_ok by lia. cbn [obind]. rewrite <- Zmult_mod.
    destruct ((y * y) mod n =? 1) eqn:E1; cbn [orb].
    { eexists. split; [reflexivity|]. split; [|lia]. intros _. apply mod_is1 in E1 as D; [|lia]. apply Z.eqb_eq in E1. split; [intros C; apply Z.eqb_eq in C; lia|].
      intros (i & I & C). exfalso. apply (not_both (y ^ 2 ^ i) n H); [|exact C]. replace (2 ^ i) with (2 * 2 ^ (i - 1)) by (rewrite <- Z.pow_succ_r by lia; f_equal; lia).
      rewrite Z.pow_mul_r by (try apply Z.pow_nonneg; lia). apply dvd_pow1; [apply Z.pow_nonneg; lia|]. rewrite Z.pow_2_r. exact D. }
    destruct ((y * y) mod n =? n - 1) eqn:E2.
    { eexists. split; [reflexivity|]. split; [|lia]. intros _. split; [|intros _; exact E2]. intros _. exists 1. split; [lia|]. apply mod_ism in E2; [|lia]. rewrite Z.pow_1_r, Z.pow_2_r. exact E2. }
    destruct (IH (y * y)) as (z & -> & Z1 & Z0). exists z. split; [reflexivity|]. split; [|lia]. intros _.
    destruct k as [|k].
    + specialize (Z0 eq_refl). subst z. rewrite E2. split; [discriminate|]. intros (i & I & C). assert (i = 1) by lia. subst i. rewrite Z.pow_1_r, Z.pow_2_r in C. apply mod_ism in C; [|lia]. congruence.
    + rewrite (Z1 ltac:(lia)). split; intros (i & I & C).
      * exists (i + 1). split; [lia|]. rewrite Z.pow_add_r, Z.pow_1_r, (Z.mul_comm (2 ^ i) 2), Z.pow_mul_r, Z.pow_2_r by (try apply Z.pow_nonneg; lia). exact C.
      * destruct (Z.eq_dec i 1) as [->|N]. { rewrite Z.pow_1_r, Z.pow_2_r in C. apply mod_ism in C; [|lia]. congruence. }
        exists (i - 1). split; [lia|]. rewrite <- (Z.pow_2_r y), <- Z.pow_mul_r by (try apply Z.pow_nonneg; lia). rewrite <- Z.pow_succ_r by lia. replace (Z.succ (i - 1)) with i by lia. exact C.
Qed.
Lemma mr_base_ok n d r b : 2 < n -> 0 <= d -> 1 <= r -> exists t, mr_base n d r b = Some t /\
  (t = true <-> (n | b ^ d - 1) \/ exists i, 0 <= i < r /\ (n | b ^ (2 ^ i * d) + 1)).
Proof.
  intros H D R. unfold mr_base. rewrite modulo_power_spec by lia. cbn [obind].
  destruct (b ^ d mod n =? 1) eqn:E1; cbn [orb].
  { exists true. split; [reflexivity|]. split; [|reflexivity]. intros _. left. apply mod_is1 in E1; [exact E1|lia]. }
  destruct (b ^ d mod n =? n - 1) eqn:E2.
  { exists true. split; [reflexivity|]. split; [|reflexivity]. intros _. right. exists 0. split; [lia|]. rewrite Z.pow_0_r, Z.mul_1_l. apply mod_ism in E2; [exact E2|lia]. }
  destruct (mr_square_ok n H (Z.to_nat (r - 1)) (b ^ d)) as (z & -> & Z1 & Z0). cbn [obind]. eexists. split; [reflexivity|].
  assert (PW : forall i, 0 <= i -> (b ^ d) ^ (2 ^ i) = b ^ (2 ^ i * d)). { intros i I. rewrite <- Z.pow_mul_r by (try apply Z.pow_nonneg; lia). f_equal. ring. }
  split.
  - intros C. right. destruct (Z.to_nat (r - 1)) as [|k] eqn:EK.
    + rewrite (Z0 eq_refl) in C. congruence.
    + apply (Z1 ltac:(lia)) in C as (i & I & C). exists i. split; [lia|]. now rewrite <- PW by lia.
  - intros [C|(i & I & C)]; [apply mod_is1 in C; [congruence|lia]|].
    destruct (Z.eq_dec i 0) as [->|N]. { rewrite Z.pow_0_r, Z.mul_1_l in C. apply mod_ism in C; [congruence|lia]. }
    apply Z1; [lia|]. exists i. split; [lia|]. now rewrite PW by lia.
Qed.
Lemma odd_part_unique d r d' r' : 0 <= r -> 0 <= r' -> 2 ^ r * d = 2 ^ r' * d' -> Z.odd d = true -> Z.odd d' = true -> r = r' /\ d = d'.
Proof.
  assert (W : forall r r' d d', 0 <= r -> r < r' -> 2 ^ r * d = 2 ^ r' * d' -> Z.odd d = true -> False).
  { clear. intros r r' d d' R L E O. replace r' with (r + (1 + (r' - r - 1))) in E by lia. rewrite Z.pow_add_r, <- Z.mul_assoc in E by lia. apply Z.mul_reg_l in E; [|apply Z.pow_nonzero; lia].
    rewrite Z.pow_add_r, Z.pow_1_r in E by lia. rewrite E, <- Z.mul_assoc, Z.odd_mul in O. discriminate. }
  intros R R' E O O'. destruct (Z.lt_trichotomy r r') as [L|[->|L]].
  - exfalso. eapply (W r r'); eauto.
  - split; [reflexivity|]. apply Z.mul_reg_l in E; [exact E|apply Z.pow_nonzero; lia].
  - exfalso. eapply (W r' r); eauto.
Qed.
Lemma even_dvd d : ~ (2 | d) -> Z.odd d = true.
Proof. intros H. rewrite <- Z.negb_even. apply negb_true_iff. destruct (Z.even d) eqn:E; [|reflexivity]. exfalso. apply H. apply Z.even_spec in E as [k ->]. exists k. ring. Qed.
Lemma mr_bases_ok n d r : 2 < n -> 0 <= d -> 1 <= r -> n - 1 = 2 ^ r * d -> Z.odd d = true -> forall bases, In 0 bases ->
  exists t, mr_bases n d r bases = Some t /\ (t = true <-> Forall (strong_probable_prime n) (tested n bases)).
Proof.
  intros H D R E O. induction bases as [|b bases IH]; intros I0; [destruct I0|]. cbn [mr_bases tested].
  destruct ((b =? 0) || (n <=? b)) eqn:T. { exists true. split; [reflexivity|]. split; [constructor|reflexivity]. }
  destruct (mr_base_ok n d r b H D R) as (t & -> & TT). cbn [obind].
  assert (SP : strong_probable_prime n b <-> t = true).
  { rewrite TT. split.
    - intros (d' & r' & R' & E' & O' & C). rewrite E in E'. destruct (odd_part_unique d r d' r' ltac:(lia) R' E' O O') as [-> ->]. exact C.
    - intros C. exists d, r. repeat split; auto. lia. }
  assert (N0 : In 0 bases). { destruct I0 as [->|I0]; [|exact I0]. cbn in T. discriminate. }
  destruct t.
  - destruct (IH N0) as (t & E1 & T1). exists t. split; [exact E1|]. rewrite T1, Forall_cons_iff. split; [intros F; split; [now apply SP|exact F]|now intros [_ F]].
  - exists false. split; [reflexivity|]. split; [discriminate|]. intros F. apply Forall_cons_iff in F as [F _]. now apply SP in F.
Qed.
Theorem miller_rabin_with_ok n bases : 0 <= n -> In 0 bases -> exists t, miller_rabin_with n bases = Some t /\
  (t = true <-> n = 2 \/ n = 3 \/ 5 <= n /\ Z.odd n = true /\ Forall (strong_probable_prime n) (tested n bases)).
Proof.
  intros H I0. unfold miller_rabin_with. destruct ((n =? 0) || (n =? 1)) eqn:E1. { exists false. split; [reflexivity|]. split; [discriminate|]. lia. }
  destruct ((n =? 2) || (n =? 3)) eqn:E2. { exists true. split; [reflexivity|]. split; [|reflexivity]. lia. }
  unfold cmod. cbn [obind Z.eqb]. destruct (Z.eqb_spec (Z.rem n 2) 0) as [R|R].
  { exists false. split; [reflexivity|]. split; [discriminate|]. intros [->|[->|(_ & O & _)]]; [lia|lia|]. apply rem_dvd in R as [k ->]; [|lia]. rewrite Z.odd_mul, andb_false_r in O. discriminate. }
  assert (ND : ~ (2 | n)) by (intros D; apply R, rem_dvd; [lia|exact D]).
  assert (H4 : 5 <= n). { assert (n <> 4) by (intros ->; apply ND; exists 2; reflexivity). lia. }
  destruct (strip_ok (n - 1) 2 0 ltac:(lia) ltac:(lia)) as (d & r & -> & R0 & ER & OD). cbn [obind]. rewrite Z.add_0_l.
  assert (R1 : 1 <= r). { destruct (Z.eq_dec r 0) as [->|]; [|lia]. exfalso. apply OD. rewrite Z.pow_0_r, Z.mul_1_l in ER. rewrite <- ER. pose proof (even_dvd n ND) as O. apply Z.odd_spec in O as [k ->]. exists k. ring. }
  assert (D0 : 0 <= d). { pose proof (Z.pow_pos_nonneg 2 r ltac:(lia) ltac:(lia)). nia. }
  destruct (mr_bases_ok n d r ltac:(lia) D0 R1 ER (even_dvd d OD) bases I0) as (t & -> & T). exists t. split; [reflexivity|]. rewrite T. pose proof (even_dvd n ND). split; [intros F; right; right; auto|]. intros [->|[->|(_ & _ & F)]]; [lia|lia|exact F].
Qed.

(** primes pass *)
Lemma primeZ_nat p : primeZ p -> exists q, p = Z.of_nat q /\ is_prime q.
Proof. intros H. unfold primeZ in H. pose proof (prime_ge _ H). exists (Z.to_nat p). split; [lia|exact H]. Qed.
Lemma prime_passes n b : primeZ n -> 2 < n -> ~ (n | b) -> strong_probable_prime n b.
Proof.
  intros P N B. destruct (strip_ok (n - 1) 2 0 ltac:(lia) ltac:(lia)) as (d & r & _ & R0 & ER & OD).
  assert (D0 : 0 <= d). { pose proof (Z.pow_pos_nonneg 2 r ltac:(lia) ltac:(lia)). nia. }
  exists d, r. split; [exact R0|]. split; [exact ER|]. split; [now apply even_dvd|]. destruct (primeZ_nat n P) as (q & -> & Q).
  pose proof (fermat_Z q b Q B) as F. rewrite ER in F. clear ER. revert r R0 F. apply (natlike_ind (fun r => (Z.of_nat q | b ^ (2 ^ r * d) - 1) -> (Z.of_nat q | b ^ d - 1) \/ exists i, 0 <= i < r /\ (Z.of_nat q | b ^ (2 ^ i * d) + 1))).
  - rewrite Z.pow_0_r, Z.mul_1_l. auto.
  - intros r R IH F. rewrite Z.pow_succ_r in F by lia. replace (2 * 2 ^ r * d) with (2 ^ r * d + 2 ^ r * d) in F by ring.
    assert (0 <= 2 ^ r * d) by (apply Z.mul_nonneg_nonneg; [apply Z.pow_nonneg; lia|exact D0]). rewrite Z.pow_add_r in F by lia.
    replace (b ^ (2 ^ r * d) * b ^ (2 ^ r * d) - 1) with ((b ^ (2 ^ r * d) - 1) * (b ^ (2 ^ r * d) + 1)) in F by ring. apply prime_Zeuclid in F as [F|F]; [|right; exists r; split; [lia|exact F]|exact Q].
    destruct (IH F) as [G|(i & I & G)]; [now left|]. right. exists i. split; [lia|exact G].
Qed.
Theorem prime_accepted n bases : primeZ n -> In 0 bases -> Forall (fun b => 0 <= b) bases -> miller_rabin_with n bases = Some true.
Proof.
  intros P I0 F. destruct (primeZ_nat n P) as (q & E & Q). pose proof (prime_ge q Q). destruct (miller_rabin_with_ok n bases ltac:(lia) I0) as (t & -> & T). f_equal. apply T.
  destruct (Z.eq_dec n 2); [auto|]. right. destruct (Z.eq_dec n 3); [auto|]. right.
  assert (O : Z.odd n = true). { apply even_dvd. intros [k K]. destruct Q as [_ Q]. destruct (Q 2%nat); [|lia|lia]. exists (Z.to_nat k). lia. }
  assert (n <> 4) by (intros ->; discriminate). split; [lia|]. split; [exact O|].
  clear I0 T. induction F as [|b bases B F IH]; cbn [tested]; [constructor|]. destruct (Z.eqb_spec b 0); cbn [orb]; [constructor|]. destruct (Z.leb_spec n b); [constructor|].
  constructor; [|exact IH]. apply prime_passes; [exact P|lia|]. intros D. apply Z.divide_pos_le in D; lia.
Qed.
Lemma miller_rabin_ok n : 0 <= n -> exists t, miller_rabin n = Some t /\ (t = true <-> n = 2 \/ n = 3 \/ 5 <= n /\ Z.odd n = true /\ Forall (strong_probable_prime n) (tested n (mr_choose n))).
Proof.
  intros H. apply miller_rabin_with_ok; [exact H|]. unfold mr_choose. repeat match goal with |- context[if ?c then _ else _] => destruct c end; repeat (try (left; reflexivity); right).
Qed.

(** ** the range below 2047, by running the test *)
Definition fac_small (n : Z) : bool := existsb (fun d => (n mod d =? 0) && (d * d <=? n)) (map Z.of_nat (seq 2 46)).
Definition mr_sweep (n : nat) : bool := match miller_rabin (Z.of_nat n) with Some t => Bool.eqb t ((2 <=? Z.of_nat n) && negb (fac_small (Z.of_nat n))) | None => false end.
Lemma mr_swept : forallb mr_sweep (seq 0 2047) = true. Proof. vm_compute. reflexivity. Qed.
Lemma fac_small_ok n : (n < 2209)%nat -> (2 <= n)%nat -> (fac_small (Z.of_nat n) = true <-> ~ is_prime n).
Proof.
  intros L H. unfold fac_small. rewrite existsb_exists. split.
  - intros (d & I & C) P. apply in_map_iff in I as (k & <- & I). apply in_seq in I. apply andb_prop in C as [C1 C2]. apply Z.eqb_eq in C1. apply Z.leb_le in C2.
    apply Z.mod_divide in C1 as [t T]; [|lia]. destruct P as [_ P]. destruct (P k); [exists (Z.to_nat t); nia|lia|]. subst k. nia.
  - intros P. destruct (composite_factor n H P) as (p & Q & [t T] & S). pose proof (prime_ge p Q). exists (Z.of_nat p). split.
    + apply in_map, in_seq. nia.
    + apply andb_true_intro. split; [apply Z.eqb_eq, Z.mod_divide; [lia|]; exists (Z.of_nat t); lia|apply Z.leb_le; lia].
Qed.
Theorem miller_rabin_small n : 0 <= n < 2047 -> miller_rabin n = Some (primeb (Z.to_nat n)).
Proof.
  intros H. pose proof mr_swept as S. rewrite forallb_forall in S. specialize (S (Z.to_nat n)). rewrite in_seq in S. specialize (S ltac:(lia)). unfold mr_sweep in S. rewrite Z2Nat.id in S by lia.
  destruct (miller_rabin n) as [t|]; [|discriminate]. f_equal. apply Bool.eqb_prop in S. rewrite S. apply eq_true_iff_eq. rewrite primeb_spec, andb_true_iff, negb_true_iff, Z.leb_le.
  destruct (Z.le_gt_cases 2 n) as [C|C].
  - pose proof (fac_small_ok (Z.to_nat n) ltac:(lia) ltac:(lia)) as F. rewrite Z2Nat.id in F by lia. destruct (prime_dec' (Z.to_nat n)) as [P|P].
    + split; [auto|]. intros _. split; [lia|]. destruct (fac_small n); [|reflexivity]. exfalso. now apply F.
    + split; [|easy]. intros [_ C2]. rewrite (proj2 F P) in C2. discriminate.
  - split; [lia|]. intros P. apply prime_ge in P. lia.
Qed.
