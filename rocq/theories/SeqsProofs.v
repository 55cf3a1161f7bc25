From Coq Require Import Ring Ring_theory.
From Verif Require Import Lib RingSpec RingProofs PrimesSpec PiProofs SumsSpec SumsModel SumsProps SeqsSpec SeqsModel HolderSpec HolderProofs BernSpec BernProofs2.
Open Scope nat_scope.

Section Seqs.
  Context {R : Type} (zero one : R) (add mul sub : R -> R -> R) (opp : R -> R).
  Hypothesis Rth : ring_theory zero one add mul sub opp (@eq R).
  Add Ring Rsq : Rth.
  Variables (cast : Z -> R) (idiv : R -> nat -> R) (root : Z -> option Z).
  Local Notation rsum := (rsum zero add). Local Notation rpow := (rpow one mul). Local Notation rnat := (rnat zero one add).
  Hypothesis cast_ok : forall n, cast (Z.of_nat n) = rnat n.
  Local Notation exact := (exact_div zero one add mul idiv).
  Local Notation power_sum := (power_sum zero one add mul).

  Lemma cast_lit k z : z = Z.of_nat k -> cast z = rnat k. Proof using cast_ok. intros ->. apply cast_ok. Qed.
  Lemma div_by k a c : exact k -> a = mul c (rnat k) -> idiv a k = c. Proof using. intros H ->. apply H. Qed.
  Ltac lits := rewrite ?(cast_lit 1 1 eq_refl), ?(cast_lit 2 2 eq_refl), ?(cast_lit 3 3 eq_refl), ?(cast_lit 5 5 eq_refl).
  Lemma triangular_ok n : exact 2 -> sq_triangular add mul cast idiv (Z.of_nat n) = power_sum 1 n.
  Proof using Rth cast_ok. intros H. unfold sq_triangular. rewrite cast_ok. lits. apply div_by; [exact H|]. rewrite (sum1 zero one add mul sub opp Rth). cbn [RingSpec.rnat]. ring. Qed.
  Lemma pyramidal_ok n : exact 6 -> sq_pyramidal add mul cast idiv (Z.of_nat n) = power_sum 2 n.
  Proof using Rth cast_ok. intros H. unfold sq_pyramidal. rewrite cast_ok. lits. apply div_by; [exact H|]. rewrite (sum2 zero one add mul sub opp Rth). cbn [RingSpec.rnat]. ring. Qed.
  Lemma tetra_sum n : mul (rsum n (fun i => power_sum 1 (S i))) (rnat 6) = mul (mul (rnat n) (add (rnat n) one)) (add (rnat n) (rnat 2)).
  Proof using Rth.
    induction n as [|n IH]; [cbn; ring|]. cbn [RingSpec.rsum]. transitivity (add (mul (rsum n (fun i => power_sum 1 (S i))) (rnat 6)) (mul (mul (power_sum 1 (S n)) (rnat 2)) (rnat 3))); [cbn [RingSpec.rnat]; ring|].
    rewrite IH, (sum1 zero one add mul sub opp Rth). cbn [RingSpec.rnat]. ring.
  Qed.
  Lemma tetrahedral_ok n : exact 6 -> sq_tetrahedral add mul cast idiv (Z.of_nat n) = rsum n (fun i => power_sum 1 (S i)).
  Proof using Rth cast_ok. intros H. unfold sq_tetrahedral. rewrite cast_ok. lits. apply div_by; [exact H|]. rewrite tetra_sum. cbn [RingSpec.rnat]. ring. Qed.
  Lemma octahedral_ok n : exact 3 -> exact 2 -> sq_octahedral add mul cast idiv (Z.of_nat (S n)) = add (power_sum 2 (S n)) (power_sum 2 n).
  Proof using Rth cast_ok.
    intros H H2. unfold sq_octahedral. rewrite cast_ok. lits. apply div_by; [exact H|].
    assert (E : mul (mul (rnat (S n)) (add (mul (mul (rnat (S n)) (rnat (S n))) (rnat 2)) (rnat 1))) (rnat 2) = mul (mul (add (power_sum 2 (S n)) (power_sum 2 n)) (rnat 3)) (rnat 2)).
    { transitivity (add (mul (power_sum 2 (S n)) (rnat 6)) (mul (power_sum 2 n) (rnat 6))); [|cbn [RingSpec.rnat]; ring]. rewrite !(sum2 zero one add mul sub opp Rth). cbn [RingSpec.rnat]. ring. }
    apply (f_equal (fun a => idiv a 2)) in E. rewrite !H2 in E. exact E.
  Qed.
  Lemma choose3 n : mul (rnat (choose n 3)) (rnat 6) = mul (mul (rnat n) (sub (rnat n) one)) (sub (rnat n) (rnat 2)).
  Proof using Rth.
    assert (C1 : forall n, choose n 1 = n). { clear. induction n as [|n IH]; [reflexivity|]. cbn [choose]. destruct n; [reflexivity|]. cbn [choose] in *. lia. }
    assert (C2 : forall n, mul (rnat (choose n 2)) (rnat 2) = mul (rnat n) (sub (rnat n) one)).
    { clear n. induction n as [|n IH]; [cbn; ring|]. change (choose (S n) 2) with (choose n 1 + choose n 2). rewrite C1, (rnat_add zero one add mul sub opp Rth). transitivity (add (mul (rnat n) (rnat 2)) (mul (rnat (choose n 2)) (rnat 2))); [ring|]. rewrite IH. cbn [RingSpec.rnat]. ring. }
    induction n as [|n IH]; [cbn; ring|]. change (choose (S n) 3) with (choose n 2 + choose n 3). rewrite (rnat_add zero one add mul sub opp Rth).
    transitivity (add (mul (mul (rnat (choose n 2)) (rnat 2)) (rnat 3)) (mul (rnat (choose n 3)) (rnat 6))); [cbn [RingSpec.rnat]; ring|]. rewrite IH, C2. cbn [RingSpec.rnat]. ring.
  Qed.
  Lemma dodecahedral_ok n : exact 2 -> exact 3 -> sq_dodecahedral mul sub cast idiv (Z.of_nat n) = rnat (choose (3 * n) 3).
  Proof using Rth cast_ok.
    intros H H3. unfold sq_dodecahedral. rewrite cast_ok. lits. apply div_by; [exact H|]. pose proof (choose3 (3 * n)) as E. rewrite (rnat_mul zero one add mul sub opp Rth) in E.
    assert (E' : mul (mul (mul (rnat n) (sub (mul (rnat n) (rnat 3)) (rnat 1))) (sub (mul (rnat n) (rnat 3)) (rnat 2))) (rnat 3) = mul (mul (rnat (choose (3 * n) 3)) (rnat 2)) (rnat 3)).
    { transitivity (mul (rnat (choose (3 * n) 3)) (rnat 6)); [rewrite E|]; cbn [RingSpec.rnat]; ring. }
    apply (f_equal (fun a => idiv a 3)) in E'. rewrite !H3 in E'. exact E'.
  Qed.
  Lemma icosahedral_ok n : exact 2 -> mul (sq_icosahedral add mul sub cast idiv (Z.of_nat n)) (rnat 2) = add (sub (mul (rnat 5) (rpow (rnat n) 3)) (mul (rnat 5) (rpow (rnat n) 2))) (mul (rnat 2) (rnat n)).
  Proof using Rth cast_ok.
    intros H. assert (Ev : exists c, mul (rnat n) (add (mul (mul (rnat n) (sub (rnat n) one)) (rnat 5)) (rnat 2)) = mul c (rnat 2)).
    { destruct n as [|m]; [exists zero; cbn; ring|]. exists (mul (rnat (S m)) (add (mul (power_sum 1 m) (rnat 5)) one)).
      transitivity (mul (rnat (S m)) (add (mul (mul (power_sum 1 m) (rnat 2)) (rnat 5)) (rnat 2))); [rewrite (sum1 zero one add mul sub opp Rth); cbn [RingSpec.rnat]; ring|cbn [RingSpec.rnat]; ring]. }
    destruct Ev as (c & Ec). unfold sq_icosahedral. rewrite cast_ok. lits. replace (sub (rnat n) (rnat 1)) with (sub (rnat n) one) by (cbn [RingSpec.rnat]; ring). rewrite (div_by 2 _ c H Ec), <- Ec. cbn [RingSpec.rnat RingSpec.rpow]. ring.
  Qed.

  (** sums of the divisor functions *)
  Lemma div_sum_filter (h : nat -> R) m : div_sum zero add h m = rsum m (fun i => if m mod S i =? 0 then h (S i) else zero).
  Proof using Rth.
    unfold div_sum, divisors_of. assert (G : forall k a, fold_right (fun d s => add (h d) s) zero (filter (fun d => m mod d =? 0) (seq a k)) = rsum k (fun i => if m mod (a + i) =? 0 then h (a + i) else zero)).
    { induction k as [|k IH]; intros a; [reflexivity|]. rewrite (rsum_S_l zero one add mul sub opp Rth), Nat.add_0_r. cbn [seq filter]. rewrite (RingProofs.rsum_ext zero add k _ (fun i => if m mod (S a + i) =? 0 then h (S a + i) else zero)) by (intros i _; replace (a + S i) with (S a + i) by lia; reflexivity). rewrite <- IH.
      destruct (m mod a =? 0); cbn [fold_right]; [reflexivity|ring]. }
    exact (G m 1).
  Qed.
  Lemma sigma_sum (h : nat -> R) n : rsum n (fun i => div_sum zero add h (S i)) = rsum n (fun i => mul (h (S i)) (rnat (n / S i))).
  Proof using Rth.
    induction n as [|n IH]; [reflexivity|]. change (rsum (S n) (fun i => div_sum zero add h (S i))) with (add (rsum n (fun i => div_sum zero add h (S i))) (div_sum zero add h (S n))). rewrite IH, div_sum_filter.
    rewrite (RingProofs.rsum_ext zero add (S n) (fun i => mul (h (S i)) (rnat (S n / S i))) (fun i => add (mul (h (S i)) (rnat (n / S i))) (if S n mod S i =? 0 then h (S i) else zero))).
    - rewrite (rsum_add zero one add mul sub opp Rth). f_equal. rewrite RingProofs.rsum_S, Nat.div_small by lia. cbn [RingSpec.rnat]. ring.
    - intros i _. rewrite succ_div by lia. destruct (S n mod S i =? 0); cbn [RingSpec.rnat]; ring.
  Qed.
  Lemma sum1_rsum n (f : Z -> R) : SumsSpec.sum1 zero add n f = rsum n (fun i => f (Z.of_nat (S i))).
  Proof using. induction n as [|n IH]; [reflexivity|]. cbn [SumsSpec.sum1 RingSpec.rsum]. now rewrite IH. Qed.
  Hypothesis root_ok : forall n, (1 <= n)%Z -> exists q, root n = Some q /\ (1 <= q)%Z.
  Lemma sigma_ok (f sf : Z -> R) (h : nat -> R) n : (forall i, f (Z.of_nat i) = h i) -> (forall i, sf (Z.of_nat i) = rsum i (fun j => h (S j))) ->
    sum_sqrt2m_f zero add mul sub root f sf (sq_identity cast) (Z.of_nat n) = Some (rsum n (fun i => div_sum zero add h (S i))).
  Proof using Rth cast_ok root_ok.
    intros Hf Hs. destruct (C57_sum_sqrt2m zero one add mul sub opp Rth root (Z.of_nat n) (root_ok _) f sf (sq_identity cast)) as (_ & E).
    - intros i. rewrite Hs, sum1_rsum. apply RingProofs.rsum_ext. intros j _. now rewrite Hf.
    - rewrite E, Nat2Z.id, sum1_rsum, sigma_sum. f_equal. apply RingProofs.rsum_ext. intros i _. rewrite Hf. unfold sq_identity. rewrite <- Nat2Z.inj_div, cast_ok. reflexivity.
  Qed.
End Seqs.
