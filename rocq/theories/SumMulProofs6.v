(** sum_multiplicative: the steps together. *)
From Coq Require Import Ring Ring_theory Permutation.
From Verif Require Import Lib RingSpec RingProofs PrimesSpec PrimesProofs PrimesProofs4 PiSpec PiProofs PiProofs2 DirSpec LohiModel LohiSpec LohiProofs FenwickModel FenwickSpec FenwickProofs SumMulModel SumMulSpec SumMulProofs SumMulProofs2 SumMulProofs3 SumMulProofs4 SumMulProofs5.
From Coq Require Import Arith Lia.
Open Scope nat_scope.

Lemma find_ok L c p0 : is_prime p0 -> c < p0 -> p0 < L -> forall fuel k, 1 <= k -> k <= S (length (primes_below p0)) -> S (length (primes_below p0)) - k < fuel ->
  (forall j p, 1 <= j < k -> nth_error (primes_below L) (j - 1) = Some p -> p <= c) ->
  exists k' pk, sml_find fuel (primes_below L) c k = Some k' /\ 1 <= k' /\ nth_error (primes_below L) (k' - 1) = Some pk /\ c < pk /\ pk <= p0 /\ (2 <= c -> 2 <= k').
Proof.
  intros P0 C0 L0. assert (N0 : nth_error (primes_below L) (length (primes_below p0)) = Some p0) by now apply prime_nth. assert (LP : length (primes_below p0) < length (primes_below L)) by (apply nth_error_Some; rewrite N0; discriminate).
  assert (Fin : forall k pk, 1 <= k -> nth_error (primes_below L) (k - 1) = Some pk -> c < pk -> 2 <= c -> 2 <= k).
  { intros k pk K1 E Hc C2. destruct (Nat.eq_dec k 1) as [->|]; [|lia]. exfalso. destruct (nth_prime _ _ _ E) as (P & PL & PJ). assert (pk = 2) by (apply first_two; [exact PJ|exact P]). lia. }
  induction fuel as [|fuel IH]; intros k K1 K2 Hf Hall; [lia|]. cbn [sml_find].
  assert (PM : forall p, nth_error (primes_below L) (k - 1) = Some p -> p <= p0). { intros p E. destruct (nth_prime _ _ _ E) as (P & PL & PJ). apply (count_lt p p0); [lia|exact P0]. }
  destruct (Nat.ltb_spec k (length (primes_below L))) as [X|X].
  - rewrite (pa1_nth L k) by lia. destruct (nth_error (primes_below L) (k - 1)) as [p|] eqn:E; [|apply nth_error_None in E; lia]. cbn [obind]. destruct (Nat.leb_spec p c) as [Y|Y].
    + assert (NE : k <> S (length (primes_below p0))). { intros ->. replace (S (length (primes_below p0)) - 1) with (length (primes_below p0)) in E by lia. rewrite N0 in E. injection E as <-. lia. }
      apply IH; try lia.
      intros j r Hj Ej. destruct (Nat.eq_dec j k) as [->|]; [|apply (Hall j); [lia|exact Ej]]. rewrite E in Ej. injection Ej as <-. exact Y.
    + exists k, p. repeat split; try assumption; [now apply PM|]. intros C2. now apply (Fin k p).
  - assert (E : nth_error (primes_below L) (k - 1) = Some p0) by (replace (k - 1) with (length (primes_below p0)) by lia; exact N0). exists k, p0. repeat split; try assumption; [lia|]. intros C2. now apply (Fin k p0).
Qed.

Section All.
  Context {T : Type} (zero one : T) (add mul sub : T -> T -> T) (opp : T -> T).
  Hypothesis Rth : ring_theory zero one add mul sub opp (@eq T).
  Variables (f : T -> nat -> nat -> T) (g : nat -> T) (root cbrt : nat -> option nat) (mk0 : nat).
  Hypothesis Mult : multiplicative one mul g.
  Hypothesis Step : power_step f g.
  Theorem sum_mul_ok s1 n L c p0 pl : root n = Some (Nat.sqrt n) -> cbrt n = Some c -> c * c * c <= n -> n < (c + 1) * (c + 1) * (c + 1) -> 8 <= n -> n < L * L ->
    (forall k, 1 <= k <= n -> s1 k = prime_total zero add g k) ->
    is_prime p0 -> c < p0 <= Nat.sqrt n + 1 -> p0 < L -> is_prime pl -> pl < L -> (forall r, is_prime r -> r < L -> r <= pl) -> pl <= n / c ->
    exists s, sum_multiplicative zero one add mul sub opp f root cbrt mk0 s1 n (primes_below L) = Some s /\ forall k, 1 <= k -> sqrt_key (Nat.sqrt n) n k -> sqm_el s k = Some (summatory zero add g k).
  Proof.
    intros Hq Hc C3 C4 N8 NL S1 P0 C0 L0 Pl LL LM PN.
    assert (C2 : 2 <= c). { destruct (le_lt_dec 2 c); [assumption|]. exfalso. assert (c + 1 <= 2) by lia. assert ((c + 1) * (c + 1) * (c + 1) <= 2 * 2 * 2) by (repeat apply Nat.mul_le_mono; assumption). lia. }
    destruct (facts zero add g L n c s1 NL C2 C3 C4 S1) as (F1 & F2 & F3 & F4 & F5 & F6 & F7 & F8).
    assert (HL : nth_error (primes_below L) (length (primes_below L) - 1) = Some pl).
    { assert (E : length (primes_below L) = S (length (primes_below pl))). { rewrite <- (count_S pl Pl). assert (X : length (primes_below (S pl)) <= length (primes_below L)) by now apply count_mono. destruct (le_lt_dec (length (primes_below L)) (length (primes_below (S pl)))) as [|Y]; [lia|]. exfalso. destruct (nth_error (primes_below L) (length (primes_below (S pl)))) as [r|] eqn:E; [|apply nth_error_None in E; lia]. destruct (nth_prime _ _ _ E) as (R & RL & RJ). pose proof (LM r R RL) as RM. pose proof (count_mono (S r) (S pl) ltac:(lia)) as Q. rewrite (count_S r R) in Q. lia. }
      rewrite E. cbn [Nat.sub]. rewrite Nat.sub_0_r. now apply prime_nth. }
    destruct (find_ok L c p0 P0 (proj1 C0) L0 (S (length (primes_below L))) 1) as (k & pk & Ef & K1 & HK & PC & PP & K2).
    { lia. } { lia. } { pose proof (count_mono p0 L ltac:(lia)). lia. } { intros j p Hj. lia. }
    specialize (K2 C2). unfold sum_multiplicative. rewrite Hq, Hc. cbn [obind]. replace (c =? 0) with false by (symmetry; apply Nat.eqb_neq; lia). cbn [negb guard obind]. pose proof (prime_ge _ Pl) as Pl2.
    rewrite (pa1_nth L (length (primes_below L))), HL by (destruct (primes_below L); [destruct k as [|[|k]]; discriminate|cbn; lia]). cbn [obind]. replace (pl =? 0) with false by (symmetry; apply Nat.eqb_neq; lia). cbn [negb guard obind].
    destruct (cov_new zero (Nat.sqrt n) n (prime_total zero add g) mk0 ltac:(lia)) as (sp & Ep & Hp). destruct (cov_new zero (Nat.sqrt n) n (rough_total zero add g pk) mk0 ltac:(lia)) as (sk & Ek & Hk). assert (sk = sp) by congruence. subst sk. rewrite Ep. cbn [obind]. replace (n =? 1) with false by (symmetry; apply Nat.eqb_neq; lia).
    destruct (step1_ok zero add g L n c s1 NL C2 C3 C4 S1 sp) as (sp1 & -> & Hp1); [apply Hp; tauto|]. cbn [obind].
    destruct (step2_ok zero one add mul sub opp Rth f g L n c s1 Mult Step NL C2 C3 C4 S1 k pk K1 HK PC ltac:(lia) sp1 sp Hp1) as (sp2 & sk2 & -> & Hk2); [apply Hk; tauto|exact Ef|]. cbn [obind].
    destruct (nth_prime _ _ _ HK) as (Ppk & PLk & PJ). assert (KL : k - 1 < length (primes_below L)) by (apply nth_error_Some; rewrite HK; discriminate).
    destruct (step3_ok zero one add mul sub opp Rth f g L n c s1 Mult Step NL C2 C3 C4 S1 pl (n / c / pl + 1) HL eq_refl PN k pk (fw_new (Nat.sqrt n + 1 + n / (Nat.sqrt n + 1) - c + 1) zero) sp sk2) as (k' & b' & s1' & sk3 & -> & K' & HB' & HC' & HC1'); [exact K2|exact PJ|lia|first [apply (fen_new zero add)|apply (fen_new zero one add mul sub opp Rth)]|exact Hk2|apply Hk; tauto|]. cbn [obind].
    destruct (step4_ok zero one add mul sub opp Rth f g L n c s1 Mult Step NL C2 C3 C4 S1 (k' + 1) b' s1' sk3) as (s1f & skf & -> & Hf); [lia|rewrite HB'; lia|lia|exact HC'|exact HC1'|]. cbn [obind]. exists skf. split; [reflexivity|].
    intros j J1 J2. destruct Hf as (F & Hr & HF). rewrite (rep_el _ _ _ _ _ Hr (conj J1 J2)). f_equal. apply HF; [now split|exact I].
  Qed.
End All.
