(** The sieve identity behind prime counting on quotients. *)
From Coq Require Import Ring Ring_theory.
From Verif Require Import Lib RingSpec RingProofs PrimesSpec PrimesProofs PiSpec.
Open Scope nat_scope.

Section Sieve.
Context {T : Type} (zero one : T) (add mul sub : T -> T -> T) (opp : T -> T).
Hypothesis Rth : ring_theory zero one add mul sub opp (@eq T).
Add Ring Tr : Rth.
Notation rsum := (rsum zero add).

(** k is prime or has no divisor in [2, p) *)
Definition smooth_free (p k : nat) : bool := forallb (fun d => negb (k mod d =? 0)) (seq 2 (p - 2)).
Definition left_at (p k : nat) : bool := (2 <=? k) && (primeb k || smooth_free p k).
Definition sieved (g : nat -> T) (v p : nat) : T := rsum (S v) (fun k => if left_at p k then g k else zero).

Lemma smooth_free_spec p k : smooth_free p k = true <-> forall d, 2 <= d < p -> ~ Nat.divide d k.
Proof.
  unfold smooth_free. rewrite forallb_forall. split; intros H d D.
  - intros Q. assert (I : In d (seq 2 (p - 2))) by (apply in_seq; lia). specialize (H d I). apply negb_true_iff, Nat.eqb_neq in H. apply H. now apply Nat.mod_divide; [lia|].
  - apply in_seq in D. apply negb_true_iff, Nat.eqb_neq. intros Q. apply (H d ltac:(lia)). apply Nat.mod_divide; [lia|exact Q].
Qed.
Lemma primeb_iff k : primeb k = true <-> is_prime k. Proof. apply primeb_spec. Qed.
Lemma rsum_ext' n f g : (forall i, i < n -> f i = g i) -> rsum n f = rsum n g.
Proof. apply (rsum_ext zero add). Qed.

(** sums over multiples *)
Lemma succ_div v p : 0 < p -> S v / p = if S v mod p =? 0 then S (v / p) else v / p.
Proof.
  intros H. pose proof (Nat.div_mod v p ltac:(lia)) as E. pose proof (Nat.mod_upper_bound v p ltac:(lia)) as B. destruct (Nat.eq_dec (S (v mod p)) p) as [Q|Q].
  - assert (X : S v = p * S (v / p) + 0) by nia. assert (M : S v mod p = 0) by (symmetry; apply (Nat.mod_unique (S v) p (S (v / p)) 0); [lia|exact X]). assert (D : S v / p = S (v / p)) by (symmetry; apply (Nat.div_unique (S v) p _ 0); [lia|exact X]). rewrite M, D. reflexivity.
  - assert (X : S v = p * (v / p) + S (v mod p)) by lia. assert (M : S v mod p = S (v mod p)) by (symmetry; apply (Nat.mod_unique (S v) p (v / p)); [lia|exact X]). assert (D : S v / p = v / p) by (symmetry; apply (Nat.div_unique (S v) p _ (S (v mod p))); [lia|exact X]). rewrite M, D. reflexivity.
Qed.
Lemma rsum_multiples p h v : 0 < p -> rsum (S v) (fun k => if k mod p =? 0 then h (k / p) else zero) = rsum (S (v / p)) h.
Proof.
  intros H. induction v as [|v IH].
  - cbn [RingSpec.rsum]. rewrite Nat.mod_0_l, Nat.div_0_l by lia. reflexivity.
  - cbn [RingSpec.rsum] in *. rewrite IH. rewrite (succ_div v p H). destruct (S v mod p =? 0) eqn:E; cbn [RingSpec.rsum]; [reflexivity|]. ring.
Qed.
Lemma rsum_minus n f g : sub (rsum n f) (rsum n g) = rsum n (fun i => sub (f i) (g i)).
Proof. symmetry. apply (rsum_sub zero one add mul sub opp Rth). Qed.

(** passing a number that is not prime changes nothing *)
Lemma sieved_skip g v p : 2 <= p -> ~ is_prime p -> sieved g v (S p) = sieved g v p.
Proof.
  intros H NP. apply rsum_ext'. intros k K. replace (left_at (S p) k) with (left_at p k); [reflexivity|]. unfold left_at. f_equal. f_equal. apply eq_true_iff_eq. rewrite !smooth_free_spec. split; intros Q d D; [|apply Q; lia].
  destruct (Nat.eq_dec d p) as [->|N]; [|apply Q; lia]. intros DV. destruct (composite_factor p H NP) as (r & R & RD & RR). pose proof (prime_ge _ R). apply (Q r); [|eapply Nat.divide_trans; eassumption]. split; [lia|]. nia.
Qed.
(** numbers below p^2 are not affected *)
Lemma left_small p k : 2 <= p -> k < p * p -> left_at (S p) k = left_at p k.
Proof.
  intros H K. unfold left_at. destruct (Nat.leb_spec 2 k) as [K2|K2]; [|reflexivity]. cbn [andb]. destruct (primeb k) eqn:P; [reflexivity|]. cbn [orb]. apply eq_true_iff_eq. rewrite !smooth_free_spec. split; intros Q d D; [apply Q; lia|].
  destruct (Nat.eq_dec d p) as [->|N]; [|apply Q; lia]. intros DV. assert (NP : ~ is_prime k) by (intros X; apply primeb_spec in X; congruence). destruct (composite_factor k K2 NP) as (r & R & RD & RR). pose proof (prime_ge _ R). apply (Q r); [|exact RD]. split; [lia|]. nia.
Qed.
Lemma sieved_small g v p : 2 <= p -> v < p * p -> sieved g v (S p) = sieved g v p.
Proof. intros H K. apply rsum_ext'. intros k L. rewrite left_small by lia. reflexivity. Qed.
(** removing the multiples of a prime *)
Lemma sieved_step g h v p : is_prime p -> p * p <= v -> (forall m, g (p * m) = h m) ->
  sieved g v (S p) = sub (sieved g v p) (sub (sieved h (v / p) p) (sieved h (p - 1) p)).
Proof.
  intros P V GH. pose proof (prime_ge _ P) as P2.
  assert (L : p - 1 <= v / p) by (apply Nat.div_le_lower_bound; nia).
  (* the difference of the two sums over m is the sum over m >= p *)
  assert (A : sub (sieved h (v / p) p) (sieved h (p - 1) p) = rsum (S (v / p)) (fun m => if (p <=? m) && smooth_free p m then h m else zero)).
  { unfold sieved. replace (S (v / p)) with (S (p - 1) + (v / p - (p - 1))) by lia. rewrite !(rsum_split zero one add mul sub opp Rth).
    rewrite (rsum_zero zero one add mul sub opp Rth (S (p - 1)) (fun m => if (p <=? m) && smooth_free p m then h m else zero)).
    2:{ intros i I. destruct (Nat.leb_spec p i); [lia|reflexivity]. }
    match goal with |- _ = add zero ?y => transitivity y; [|ring] end. match goal with |- sub (add ?x ?y) ?x = _ => transitivity y; [ring|] end.
    apply rsum_ext'. intros i I. replace (left_at p (S (p - 1) + i)) with ((p <=? S (p - 1) + i) && smooth_free p (S (p - 1) + i)); [reflexivity|]. set (m := S (p - 1) + i). unfold left_at. replace (p <=? m) with true by (symmetry; apply Nat.leb_le; lia). replace (2 <=? m) with true by (symmetry; apply Nat.leb_le; lia). cbn [andb].
    destruct (primeb m) eqn:Q; [|reflexivity]. cbn [orb]. apply smooth_free_spec. intros d D DV. apply primeb_spec in Q. apply Q in DV. lia. }
  rewrite A, <- (rsum_multiples p _ v) by lia. unfold sieved. rewrite rsum_minus. apply rsum_ext'. intros k K.
  destruct (k mod p =? 0) eqn:E.
  - apply Nat.eqb_eq in E. apply Nat.mod_divide in E as [m E]; [|lia]. assert (KM : k = p * m) by lia. assert (KD : k / p = m) by (rewrite E; apply Nat.div_mul; lia). rewrite KD.
    assert (LS : left_at (S p) k = (k =? p)).
    { unfold left_at. destruct (Nat.eqb_spec k p) as [->|N].
      - replace (2 <=? p) with true by (symmetry; now apply Nat.leb_le). apply primeb_spec in P. rewrite P. reflexivity.
      - apply andb_false_intro2. apply orb_false_intro.
        + destruct (primeb k) eqn:Q; [|reflexivity]. apply primeb_spec in Q. destruct (proj2 Q p) as [X|X]; [exists m; lia|lia|lia].
        + destruct (smooth_free (S p) k) eqn:Q; [|reflexivity]. rewrite smooth_free_spec in Q. exfalso. apply (Q p); [lia|exists m; lia]. }
    assert (LP : left_at p k = (k =? p) || ((p <=? m) && smooth_free p m)).
    { unfold left_at. destruct (Nat.eqb_spec k p) as [->|N].
      - replace (2 <=? p) with true by (symmetry; now apply Nat.leb_le). apply primeb_spec in P. rewrite P. reflexivity.
      - cbn [orb]. assert (NPk : primeb k = false) by (destruct (primeb k) eqn:Q; [|reflexivity]; apply primeb_spec in Q; destruct (proj2 Q p) as [X|X]; [exists m; lia|lia|lia]). rewrite NPk. cbn [orb]. apply eq_true_iff_eq. rewrite !andb_true_iff, !smooth_free_spec, !Nat.leb_le. split.
        + intros (K2 & Q). assert (M2 : 2 <= m) by (destruct (Nat.eq_dec m 0) as [X|X]; [rewrite X in KM; lia|]; destruct (Nat.eq_dec m 1) as [Y|Y]; [rewrite Y in KM; lia|]; lia). split.
          * destruct (Nat.lt_ge_cases m p) as [C|C]; [|exact C]. exfalso. apply (Q m); [lia|exists p; lia].
          * intros d D DV. apply (Q d D). rewrite KM. now apply Nat.divide_mul_r.
        + intros (M & Q). split; [nia|]. intros d D DV. rewrite KM in DV. destruct (least_factor d ltac:(lia)) as (r & R & RD & _). assert (RK : Nat.divide r (p * m)) by (eapply Nat.divide_trans; eassumption). pose proof (prime_ge _ R). assert (RL : r <= d) by (apply Nat.divide_pos_le; [lia|exact RD]). apply prime_euclid in RK as [X|X]; [|exact (Q r ltac:(lia) X)|exact R]. apply (prime_divides_prime r p R P) in X. lia. }
    rewrite LS, LP. destruct (Nat.eqb_spec k p) as [KP|KP]; cbn [orb].
    + assert (M1 : m = 1) by nia. rewrite M1. replace (p <=? 1) with false by (symmetry; apply Nat.leb_gt; lia). cbn [andb]. ring.
    + destruct ((p <=? m) && smooth_free p m); [rewrite <- GH, <- KM|]; ring.
  - replace (left_at (S p) k) with (left_at p k); [destruct (left_at p k); ring|]. unfold left_at. f_equal. f_equal. apply eq_true_iff_eq. rewrite !smooth_free_spec. split; intros Q d D; [|apply Q; lia]. destruct (Nat.eq_dec d p) as [->|N]; [|apply Q; lia]. intros DV. apply Nat.eqb_neq in E. apply E. now apply Nat.mod_divide; [lia|].
Qed.
(** the first and the last stage *)
Lemma sieved_first g v : 1 <= v -> add (g 1) (sieved g v 2) = total zero add g v.
Proof.
  intros V. unfold total, sieved. destruct v as [|v]; [lia|]. rewrite !(rsum_S_l zero one add mul sub opp Rth).
  assert (X : rsum v (fun i => if left_at 2 (S (S i)) then g (S (S i)) else zero) = rsum v (fun i => g (S (S i)))).
  { apply rsum_ext'. intros i I. replace (left_at 2 (S (S i))) with true; [reflexivity|]. unfold left_at, smooth_free. replace (2 <=? S (S i)) with true by (symmetry; apply Nat.leb_le; lia). cbn [Nat.sub seq forallb]. now rewrite orb_true_r. }
  rewrite X. replace (left_at 2 0) with false by reflexivity. replace (left_at 2 1) with false by reflexivity. ring.
Qed.
Lemma sieved_last g v q : 2 <= q -> v < q * q -> sieved g v q = prime_total zero add g v.
Proof.
  intros Q V. apply rsum_ext'. intros k K. replace (left_at q k) with (primeb k); [reflexivity|]. unfold left_at. destruct (primeb k) eqn:P.
  - pose proof P as P'. apply primeb_spec, prime_ge in P'. replace (2 <=? k) with true by (symmetry; now apply Nat.leb_le). reflexivity.
  - cbn [orb]. destruct (Nat.leb_spec 2 k) as [K2|K2]; [|reflexivity]. cbn [andb]. symmetry. destruct (smooth_free q k) eqn:S; [|reflexivity]. exfalso. rewrite smooth_free_spec in S. assert (NP : ~ is_prime k) by (intros X; apply primeb_spec in X; congruence). destruct (composite_factor k K2 NP) as (r & R & RD & RR). pose proof (prime_ge _ R). apply (S r); [nia|exact RD].
Qed.
Lemma sieved_diff g p : 2 <= p -> sieved g p p = add (sieved g (p - 1) p) (if primeb p then g p else zero).
Proof.
  intros H. unfold sieved at 1. cbn [RingSpec.rsum]. unfold sieved. replace (S (p - 1)) with p by lia. f_equal. replace (left_at p p) with (primeb p); [reflexivity|]. unfold left_at. replace (2 <=? p) with true by (symmetry; now apply Nat.leb_le). cbn [andb]. destruct (primeb p) eqn:P; [reflexivity|]. cbn [orb]. symmetry. destruct (smooth_free p p) eqn:S; [|reflexivity]. exfalso. rewrite smooth_free_spec in S. assert (NP : ~ is_prime p) by (intros X; apply primeb_spec in X; congruence). destruct (composite_factor p H NP) as (r & R & RD & RR). pose proof (prime_ge _ R). apply (S r); [nia|exact RD].
Qed.
End Sieve.
