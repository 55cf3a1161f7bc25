(** Bernoulli numbers by the Akiyama-Tanigawa table; Faulhaber's formula. *)
From Coq Require Import Ring Ring_theory Factorial.
From Verif Require Import Lib RingSpec RingProofs HolderSpec HolderProofs BernSpec.

Lemma choose_0 n : choose n 0 = 1%nat. Proof. now destruct n. Qed.
Lemma choose_diag n : choose n n = 1%nat.
Proof. induction n as [|n IH]; [reflexivity|]. cbn [choose]. rewrite IH, (choose_over n (S n)) by lia. reflexivity. Qed.
Lemma choose_tri n k i : choose n k * choose (n - k) i = choose n i * choose (n - i) k.
Proof.
  destruct (le_lt_dec (k + i) n) as [L|G].
  - assert (A := choose_fact n k ltac:(lia)). assert (B := choose_fact (n - k) i ltac:(lia)). assert (C := choose_fact n i ltac:(lia)). assert (D := choose_fact (n - i) k ltac:(lia)).
    replace (n - k - i) with (n - i - k) in B by lia.
    pose proof (lt_O_fact i). pose proof (lt_O_fact k). pose proof (lt_O_fact (n - i - k)).
    set (X := choose n k) in *. set (Y := choose (n - k) i) in *. set (X' := choose n i) in *. set (Y' := choose (n - i) k) in *.
    assert (E : (X * Y) * (fact k * fact i * fact (n - i - k)) = (X' * Y') * (fact k * fact i * fact (n - i - k))).
    { transitivity (fact n); [rewrite <- A, <- B; ring|rewrite <- C, <- D; ring]. }
    apply Nat.mul_cancel_r in E; [exact E|]. assert (0 < fact k * fact i * fact (n - i - k)) by (apply Nat.mul_pos_pos; [apply Nat.mul_pos_pos; assumption|assumption]). lia.
  - assert (L : choose n k * choose (n - k) i = 0). { destruct (le_lt_dec k n); [rewrite (choose_over (n - k) i) by lia; lia|rewrite (choose_over n k) by lia; lia]. }
    assert (R : choose n i * choose (n - i) k = 0). { destruct (le_lt_dec i n); [rewrite (choose_over (n - i) k) by lia; lia|rewrite (choose_over n i) by lia; lia]. }
    lia.
Qed.
Lemma choose_sym n k : k <= n -> choose n k = choose n (n - k).
Proof.
  intros H. assert (A := choose_fact n k H). assert (B := choose_fact n (n - k) ltac:(lia)). replace (n - (n - k)) with k in B by lia.
  pose proof (lt_O_fact k). pose proof (lt_O_fact (n - k)). rewrite (Nat.mul_comm (fact (n - k))) in B. rewrite <- B in A. apply Nat.mul_cancel_r in A; [exact A|]. assert (0 < fact k * fact (n - k)) by (apply Nat.mul_pos_pos; assumption). lia.
Qed.
Lemma choose_absorb n k : k <= n -> choose (S n) k * (S n - k) = S n * choose n k.
Proof.
  intros H. assert (A := choose_fact (S n) k ltac:(lia)). assert (B := choose_fact n k H). replace (S n - k) with (S (n - k)) in * by lia.
  change (fact (S n)) with (S n * fact n) in A. change (fact (S (n - k))) with (S (n - k) * fact (n - k)) in A. pose proof (lt_O_fact k). pose proof (lt_O_fact (n - k)).
  assert (E : (choose (S n) k * S (n - k)) * (fact k * fact (n - k)) = (S n * choose n k) * (fact k * fact (n - k))).
  { transitivity (S n * fact n); [rewrite <- A; ring|rewrite <- B; ring]. }
  apply Nat.mul_cancel_r in E; [exact E|]. assert (0 < fact k * fact (n - k)) by (apply Nat.mul_pos_pos; assumption). lia.
Qed.

Section Bern.
  Context {R : Type} (zero one : R) (add mul sub : R -> R -> R) (opp : R -> R).
  Hypothesis Rth : ring_theory zero one add mul sub opp (@eq R).
  Add Ring Rr : Rth.
  Local Notation "0" := zero. Local Notation "1" := one.
  Local Infix "+" := add. Local Infix "*" := mul. Local Infix "-" := sub.
  Local Notation "- x" := (opp x).
  Local Notation rsum := (rsum zero add). Local Notation rpow := (rpow one mul). Local Notation rnat := (rnat zero one add).
  Local Notation rsum_ext := (RingProofs.rsum_ext zero add). 
  Local Notation L lem := (lem R zero one add mul sub opp Rth).

  Lemma pascal_sum n f : rsum (S (S n)) (fun i => rnat (choose (S n) i) * f i) = rsum (S n) (fun i => rnat (choose n i) * f i) + rsum (S n) (fun i => rnat (choose n i) * f (S i)).
  Proof using Rth.
    rewrite (rsum_S_l zero one add mul sub opp Rth (S n)).
    rewrite (rsum_ext (S n) _ (fun i => rnat (choose n i) * f (S i) + rnat (choose n (S i)) * f (S i))) by (intros i _; cbn [choose]; rewrite (rnat_add zero one add mul sub opp Rth); ring).
    rewrite (rsum_add zero one add mul sub opp Rth). 
    rewrite (RingProofs.rsum_S zero add n (fun i => rnat (choose n (S i)) * f (S i))). rewrite (choose_over n (S n)) by lia.
    rewrite (rsum_S_l zero one add mul sub opp Rth n (fun i => rnat (choose n i) * f i)). rewrite !choose_0. cbn [RingSpec.rnat]. ring.
  Qed.
  Lemma binomial_theorem y n : rpow (y + 1) n = rsum (S n) (fun i => rnat (choose n i) * rpow y i).
  Proof using Rth.
    induction n as [|n IH]; [cbn; ring|]. rewrite pascal_sum. cbn [RingSpec.rpow]. rewrite IH.
    rewrite (rsum_ext (S n) (fun i => rnat (choose n i) * (rpow y i * y)) (fun i => rnat (choose n i) * rpow y i * y)) by (intros; ring).
    rewrite (rsum_mul_r zero one add mul sub opp Rth). ring.
  Qed.

  (** ** the table *)
  Fixpoint tab (m : nat) (s : nat -> R) : nat -> R := match m with O => s | S m => tab m (fun j => rnat (S j) * (s j - s (S j))) end.
  Lemma tab_S m : forall s j, tab (S m) s j = rnat (S j) * (tab m s j - tab m s (S j)).
  Proof using. induction m as [|m IH]; intros s j; [reflexivity|]. exact (IH (fun j => rnat (S j) * (s j - s (S j))) j). Qed.
  Fixpoint cf (n k : nat) : R :=
    match n with
    | O => match k with O => 1 | S _ => 0 end
    | S n => rnat (S k) * cf n k - match k with O => 0 | S k' => rnat k * cf n k' end
    end.
  Lemma cf_over n : forall k, (n < k)%nat -> cf n k = 0.
  Proof using Rth. induction n as [|n IH]; intros [|k] H; try lia; [reflexivity|]. cbn [cf]. rewrite !IH by lia. ring. Qed.
  Lemma cf_0 n : cf n 0 = 1.
  Proof using Rth. induction n as [|n IH]; [reflexivity|]. cbn [cf]. rewrite IH. cbn. ring. Qed.
  Lemma tab_cf m : forall s, tab m s O = rsum (S m) (fun k => cf m k * s k).
  Proof using Rth.
    induction m as [|m IH]; intros s; [cbn; ring|]. cbn [tab]. rewrite IH.
    rewrite (rsum_ext (S m) _ (fun k => rnat (S k) * cf m k * s k - rnat (S k) * cf m k * s (S k))) by (intros; ring).
    rewrite (rsum_sub zero one add mul sub opp Rth).
    rewrite (rsum_ext (S (S m)) (fun k => cf (S m) k * s k) (fun k => rnat (S k) * cf m k * s k - match k with O => 0 | S k' => rnat k * cf m k' end * s k)) by (intros k _; cbn [cf]; ring).
    rewrite (rsum_sub zero one add mul sub opp Rth). rewrite (rsum_S_l zero one add mul sub opp Rth (S m) (fun k => match k with O => 0 | S k' => rnat k * cf m k' end * s k)).
    rewrite (RingProofs.rsum_S zero add (S m) (fun k => rnat (S k) * cf m k * s k)). rewrite (cf_over m (S m)) by lia. ring.
  Qed.
  Lemma cf_binom n : forall k, rsum (S n) (fun i => rnat (choose n i) * cf i k) = cf n k - cf n (S k).
  Proof using Rth.
    induction n as [|n IH]; intros k; [cbn; destruct k; ring|]. rewrite pascal_sum, IH.
    rewrite (rsum_ext (S n) _ (fun i => rnat (S k) * (rnat (choose n i) * cf i k) - match k with O => 0 | S k' => rnat k * (rnat (choose n i) * cf i k') end)) by (intros i _; cbn [cf]; destruct k; ring).
    rewrite (rsum_sub zero one add mul sub opp Rth), (rsum_mul_l zero one add mul sub opp Rth), IH. destruct k as [|k].
    - rewrite (rsum_zero zero one add mul sub opp Rth) by reflexivity. cbn [cf RingSpec.rnat]. ring.
    - rewrite (rsum_mul_l zero one add mul sub opp Rth), IH. cbn [cf RingSpec.rnat]. ring.
  Qed.
  Lemma telescope n f : rsum n (fun k => f (S k) - f k) = f n - f O.
  Proof using Rth. induction n as [|n IH]; [cbn; ring|]. cbn [RingSpec.rsum]. rewrite IH. ring. Qed.
  Section Inv.
    Variable u : nat -> R.
    Lemma cf_inv n : (forall k, (k < n)%nat -> rnat (S k) * u (S k) = 1) -> rsum n (fun k => cf n (S k) * u (S k)) = - rnat n.
    Proof using Rth.
      induction n as [|n IH]; intros Hu; [cbn; ring|].
      rewrite (rsum_ext (S n) _ (fun k => cf n (S k) * u (S k) + (cf n (S k) - cf n k))).
      - rewrite (rsum_add zero one add mul sub opp Rth), (telescope (S n) (cf n)), cf_0, (cf_over n (S n)) by lia. cbn [RingSpec.rsum]. rewrite IH by (intros k Hk; apply Hu; lia). rewrite (cf_over n (S n)) by lia. cbn [RingSpec.rnat]. ring.
      - intros k Hk. cbn [cf]. transitivity (cf n (S k) * u (S k) + (rnat (S k) * u (S k)) * (cf n (S k) - cf n k)); [cbn [RingSpec.rnat]; ring|]. rewrite Hu by exact Hk. ring.
    Qed.
    Lemma bern_ok n : (forall k, (k <= n)%nat -> rnat (S k) * u (S k) = 1) -> bernoulli_upto zero one add mul n (fun m => tab m (fun j => u (S j)) O).
    Proof using Rth.
      intros Hu m Hm. set (N := S m).
      assert (Full : rsum (S N) (fun i => rnat (choose N i) * tab i (fun j => u (S j)) O) = rsum (S N) (fun k => cf N k * u (S k)) + rnat N).
      { rewrite (rsum_ext (S N) _ (fun i => rsum (S N) (fun k => rnat (choose N i) * cf i k * u (S k)))).
        - rewrite (rsum_swap zero one add mul sub opp Rth).
          rewrite (rsum_ext (S N) _ (fun k => cf N k * u (S k) - cf N (S k) * u (S k))) by (intros k _; rewrite (rsum_mul_r zero one add mul sub opp Rth), cf_binom; ring).
          rewrite (rsum_sub zero one add mul sub opp Rth). rewrite (RingProofs.rsum_S zero add N (fun k => cf N (S k) * u (S k))). rewrite cf_inv by (intros k Hk; apply Hu; lia). rewrite (cf_over N (S N)) by lia. ring.
        - intros i Hi. rewrite tab_cf. rewrite <- (rsum_trunc zero one add mul sub opp Rth (S N) (S i)) by (lia || (intros k Hk; rewrite cf_over by lia; ring)).
          rewrite <- (rsum_mul_l zero one add mul sub opp Rth). apply rsum_ext. intros k _. ring. }
      rewrite (RingProofs.rsum_S zero add N (fun i => rnat (choose N i) * tab i (fun j => u (S j)) O)), choose_diag, (tab_cf N) in Full.
      transitivity (rsum N (fun i => rnat (choose N i) * tab i (fun j => u (S j)) O) + rnat 1 * rsum (S N) (fun k => cf N k * u (S k)) - rsum (S N) (fun k => cf N k * u (S k))).
      - cbn [RingSpec.rnat]. subst N. ring.
      - rewrite Full. ring.
    Qed.
  End Inv.

  (** ** Faulhaber *)
  Variable b : nat -> R.
  Definition faul (n : nat) (x : R) : R := rsum n (fun k => rnat (choose n k) * b k * rpow x (n - k)%nat).
  Lemma faul_step n y : bernoulli_upto zero one add mul n b -> faul (S n) (y + 1) - faul (S n) y = rnat (S n) * rpow (y + 1) n.
  Proof using Rth.
    intros HB. set (N := S n).
    assert (H : forall j, (j <= N)%nat -> rsum j (fun k => rnat (choose j k) * b k) = rnat j). { intros [|j] Hj; [reflexivity|]. apply HB. lia. }
    assert (E1 : faul N (y + 1) = rsum (S N) (fun i => rpow y i * rnat (choose N i) * rsum N (fun k => rnat (choose (N - i) k) * b k))).
    { unfold faul. rewrite (rsum_ext N _ (fun k => rsum (S N) (fun i => rpow y i * rnat (choose N i) * (rnat (choose (N - i) k) * b k)))).
      - rewrite (rsum_swap zero one add mul sub opp Rth). apply rsum_ext. intros i _. now rewrite (rsum_mul_l zero one add mul sub opp Rth).
      - intros k Hk. rewrite binomial_theorem. rewrite <- (rsum_trunc zero one add mul sub opp Rth (S N) (S (N - k))) by (lia || (intros i Hi; rewrite choose_over by lia; cbn; ring)).
        rewrite <- (rsum_mul_l zero one add mul sub opp Rth). apply rsum_ext. intros i _.
        transitivity (rnat (choose N k * choose (N - k) i) * (b k * rpow y i)); [rewrite (rnat_mul zero one add mul sub opp Rth); ring|].
        rewrite choose_tri, (rnat_mul zero one add mul sub opp Rth). ring. }
    rewrite E1, (rsum_S_l zero one add mul sub opp Rth N).
    rewrite (rsum_ext N (fun i => rpow y (S i) * _ * _) (fun i => rpow y (S i) * rnat (choose N (S i)) * b (N - S i)%nat + rnat N * (rnat (choose n (S i)) * rpow y (S i)))).
    2:{ intros i Hi. assert (Es : rsum N (fun k => rnat (choose (N - S i) k) * b k) = rnat (N - S i) + b (N - S i)%nat).
        { rewrite (rsum_trunc zero one add mul sub opp Rth N (S (N - S i))) by (lia || (intros k Hk; rewrite choose_over by lia; cbn; ring)). rewrite (RingProofs.rsum_S zero add (N - S i) (fun k => rnat (choose (N - S i) k) * b k)), H by lia. rewrite choose_diag. cbn [RingSpec.rnat]. ring. }
        rewrite Es. assert (Ea : rnat (choose N (S i)) * rnat (N - S i) = rnat N * rnat (choose n (S i))).
        { rewrite <- !(rnat_mul zero one add mul sub opp Rth). f_equal. unfold N. destruct (le_lt_dec (S i) n) as [L|G]; [apply choose_absorb; exact L|]. rewrite (choose_over n (S i)) by lia. assert (S i = S n) as -> by lia. rewrite Nat.sub_diag. lia. }
        transitivity (rpow y (S i) * rnat (choose N (S i)) * b (N - S i)%nat + rpow y (S i) * (rnat (choose N (S i)) * rnat (N - S i))); [ring|]. rewrite Ea. ring. }
    rewrite (rsum_add zero one add mul sub opp Rth), (rsum_mul_l zero one add mul sub opp Rth).
    assert (E2 : rsum N (fun i => rpow y (S i) * rnat (choose N (S i)) * b (N - S i)%nat) = faul N y).
    { unfold faul. rewrite (rsum_rev zero one add mul sub opp Rth N). apply rsum_ext. intros k Hk. replace (S (N - 1 - k)) with (N - k)%nat by lia. replace (N - (N - k))%nat with k by lia. rewrite <- choose_sym by lia. ring. }
    assert (E3 : rpow (y + 1) n = rnat (choose n 0) * rpow y 0 + rsum N (fun i => rnat (choose n (S i)) * rpow y (S i))).
    { rewrite <- (rsum_S_l zero one add mul sub opp Rth N (fun i => rnat (choose n i) * rpow y i)), binomial_theorem. symmetry. apply (rsum_trunc zero one add mul sub opp Rth); [lia|]. intros i Hi. rewrite choose_over by lia. cbn. ring. }
    rewrite E2, E3, !choose_0, Nat.sub_0_r, H by lia. cbn [RingSpec.rpow RingSpec.rnat]. ring.
  Qed.
  Lemma faul_0 n : faul n 0 = 0.
  Proof using Rth. apply (rsum_zero zero one add mul sub opp Rth). intros k Hk. rewrite (rpow_0 zero one add mul sub opp Rth) by lia. ring. Qed.
  Lemma faulhaber p N : bernoulli_upto zero one add mul p b -> faul (S p) (rnat N) = rnat (S p) * power_sum zero one add mul p N.
  Proof using Rth.
    intros HB. induction N as [|N IH]; [cbn [RingSpec.rnat]; rewrite faul_0; cbn; ring|]. unfold power_sum in *. cbn [RingSpec.rsum].
    transitivity (faul (S p) (rnat N) + (faul (S p) (rnat N + 1) - faul (S p) (rnat N))); [cbn [RingSpec.rnat]; ring|]. rewrite faul_step by exact HB. rewrite IH. cbn [RingSpec.rnat]. ring.
  Qed.
End Bern.
