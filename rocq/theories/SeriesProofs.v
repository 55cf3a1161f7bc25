From Coq Require Import Ring Ring_theory.
From Verif Require Import Lib RingSpec RingProofs SeriesSpec.

Section SeriesProofs.
  Context {R : Type} (zero one : R) (add mul sub : R -> R -> R) (opp : R -> R).
  Hypothesis Rth : ring_theory zero one add mul sub opp (@eq R).
  Add Ring Rs : Rth.
  Local Notation "0" := zero. Local Notation "1" := one.
  Local Infix "+" := add. Local Infix "*" := mul. Local Infix "-" := sub.
  Local Notation "- x" := (opp x).
  Local Notation rsum := (rsum zero add).
  Local Notation pconv := (pconv zero add mul). Local Notation pshift := (pshift zero).
  Local Notation ptrunc := (ptrunc zero). Local Notation pconst := (pconst zero).

  Lemma pconv_ext a a' b b' i : (forall j, (j <= i)%nat -> a j = a' j) -> (forall j, (j <= i)%nat -> b j = b' j) -> pconv a b i = pconv a' b' i.
  Proof. intros Ha Hb. apply rsum_ext. intros j Hj. rewrite Ha, Hb by lia. reflexivity. Qed.
  Lemma pconv_comm a b i : pconv a b i = pconv b a i.
  Proof using Rth.
    unfold SeriesSpec.pconv. rewrite (rsum_rev _ _ _ _ _ _ Rth). apply rsum_ext. intros j Hj.
    replace (S i - 1 - j)%nat with (i - j)%nat by lia. replace (i - (i - j))%nat with j by lia. ring.
  Qed.
  Lemma pconv_add_l a b c i : pconv (fun j => a j + b j) c i = pconv a c i + pconv b c i.
  Proof using Rth.
    unfold SeriesSpec.pconv. rewrite <- (rsum_add _ _ _ _ _ _ Rth). apply rsum_ext. intros. ring.
  Qed.
  Lemma pconv_sub_l a b c i : pconv (fun j => a j - b j) c i = pconv a c i - pconv b c i.
  Proof using Rth.
    unfold SeriesSpec.pconv. rewrite <- (rsum_sub _ _ _ _ _ _ Rth). apply rsum_ext. intros. ring.
  Qed.
  Lemma pconv_opp_l a c i : pconv (fun j => - a j) c i = - pconv a c i.
  Proof using Rth.
    unfold SeriesSpec.pconv. rewrite <- (rsum_opp _ _ _ _ _ _ Rth). apply rsum_ext. intros. ring.
  Qed.
  Lemma pconv_scal_l s a c i : pconv (fun j => s * a j) c i = s * pconv a c i.
  Proof using Rth.
    unfold SeriesSpec.pconv. rewrite <- (rsum_mul_l _ _ _ _ _ _ Rth). apply rsum_ext. intros. ring.
  Qed.
  Lemma pconv_add_r a b c i : pconv c (fun j => a j + b j) i = pconv c a i + pconv c b i.
  Proof using Rth. rewrite pconv_comm, pconv_add_l, (pconv_comm a), (pconv_comm b). reflexivity. Qed.
  Lemma pconv_sub_r a b c i : pconv c (fun j => a j - b j) i = pconv c a i - pconv c b i.
  Proof using Rth. rewrite pconv_comm, pconv_sub_l, (pconv_comm a), (pconv_comm b). reflexivity. Qed.
  Lemma pconv_opp_r a c i : pconv c (fun j => - a j) i = - pconv c a i.
  Proof using Rth. rewrite pconv_comm, pconv_opp_l, (pconv_comm a). reflexivity. Qed.
  Lemma pconv_scal_r s a c i : pconv c (fun j => s * a j) i = s * pconv c a i.
  Proof using Rth. rewrite pconv_comm, pconv_scal_l, (pconv_comm a). reflexivity. Qed.
  Lemma pconv_assoc a b c i : pconv a (pconv b c) i = pconv (pconv a b) c i.
  Proof using Rth.
    unfold SeriesSpec.pconv.
    rewrite (rsum_ext _ _ (S i) (fun j => a j * _) (fun j => rsum (S i - j) (fun k => a j * (b k * c (i - j - k)%nat)))).
    2:{ intros j Hj. rewrite (rsum_mul_l _ _ _ _ _ _ Rth). do 2 f_equal. lia. }
    rewrite <- (rsum_triangle _ _ _ _ _ _ Rth (S i) (fun j k => a j * (b k * c (i - j - k)%nat))).
    apply rsum_ext. intros k Hk. rewrite <- (rsum_mul_r _ _ _ _ _ _ Rth). apply rsum_ext. intros j Hj.
    replace (i - j - (k - j))%nat with (i - k)%nat by lia. ring.
  Qed.
  Lemma pshift_lt k a i : (i < k)%nat -> pshift k a i = 0.
  Proof. intros H. unfold SeriesSpec.pshift. destruct (Nat.leb_spec k i); [lia|reflexivity]. Qed.
  Lemma pshift_ge k a i : (k <= i)%nat -> pshift k a i = a (i - k)%nat.
  Proof. intros H. unfold SeriesSpec.pshift. destruct (Nat.leb_spec k i); [reflexivity|lia]. Qed.
  Lemma pshift_add k a i : pshift k a (k + i)%nat = a i.
  Proof. rewrite pshift_ge by lia. f_equal. lia. Qed.
  Lemma pconv_shift_l k a b i : pconv (pshift k a) b i = pshift k (pconv a b) i.
  Proof using Rth.
    unfold SeriesSpec.pconv at 1. destruct (Nat.le_gt_cases k i) as [L|L].
    - rewrite pshift_ge by exact L. replace (S i) with (k + S (i - k))%nat by lia. rewrite (rsum_split _ _ _ _ _ _ Rth).
      rewrite (rsum_zero _ _ _ _ _ _ Rth k); [|intros j Hj; rewrite pshift_lt by lia; ring].
      unfold SeriesSpec.pconv. rewrite (Radd_0_l Rth). apply rsum_ext. intros j Hj. rewrite pshift_add. do 2 f_equal. lia.
    - rewrite pshift_lt by exact L. apply (rsum_zero _ _ _ _ _ _ Rth). intros j Hj. rewrite pshift_lt by lia. ring.
  Qed.
  Lemma pshift_ext k a b i : (forall j, (j <= i - k)%nat -> a j = b j) -> pshift k a i = pshift k b i.
  Proof. intros H. unfold SeriesSpec.pshift. destruct (Nat.leb_spec k i); [apply H; lia|reflexivity]. Qed.
  Lemma pconv_shift_r k a b i : pconv a (pshift k b) i = pshift k (pconv a b) i.
  Proof using Rth. rewrite pconv_comm, pconv_shift_l. apply pshift_ext. intros. apply pconv_comm. Qed.
  Lemma pshift_shift k l a i : pshift k (pshift l a) i = pshift (k + l) a i.
  Proof. unfold SeriesSpec.pshift. destruct (Nat.leb_spec k i), (Nat.leb_spec l (i - k)), (Nat.leb_spec (k + l) i); try lia; auto. f_equal. lia. Qed.
  Lemma pconv_const_l c a i : pconv (pconst c) a i = c * a i.
  Proof using Rth.
    unfold SeriesSpec.pconv. rewrite (rsum_single _ _ _ _ _ _ Rth _ _ 0%nat); [|lia|].
    - cbn [SeriesSpec.pconst]. now rewrite Nat.sub_0_r.
    - intros j Hj Nj. destruct j; [lia|]. cbn [SeriesSpec.pconst]. ring.
  Qed.
  Lemma ptrunc_le l a i : (i <= l)%nat -> ptrunc l a i = a i.
  Proof. intros H. unfold SeriesSpec.ptrunc. destruct (Nat.leb_spec i l); [reflexivity|lia]. Qed.
  Lemma ptrunc_gt l a i : (l < i)%nat -> ptrunc l a i = 0.
  Proof. intros H. unfold SeriesSpec.ptrunc. destruct (Nat.leb_spec i l); [lia|reflexivity]. Qed.
  (** the product of truncated series vanishes above the sum of the degrees *)
  Lemma pconv_above a b l1 l2 i : (forall j, (l1 < j)%nat -> a j = 0) -> (forall j, (l2 < j)%nat -> b j = 0) -> (l1 + l2 < i)%nat -> pconv a b i = 0.
  Proof using Rth.
    intros Ha Hb Hi. apply (rsum_zero _ _ _ _ _ _ Rth). intros j Hj. destruct (Nat.le_gt_cases j l1) as [L|L].
    - rewrite (Hb (i - j)%nat) by lia. ring.
    - rewrite Ha by exact L. ring.
  Qed.
  (** the leading coefficient of a product *)
  Lemma pconv_top a b l1 l2 : (forall j, (l1 < j)%nat -> a j = 0) -> (forall j, (l2 < j)%nat -> b j = 0) -> pconv a b (l1 + l2) = a l1 * b l2.
  Proof using Rth.
    intros Ha Hb. unfold SeriesSpec.pconv. rewrite (rsum_single _ _ _ _ _ _ Rth _ _ l1); [|lia|].
    - do 2 f_equal. lia.
    - intros j Hj N. destruct (Nat.le_gt_cases j l1) as [L|L]; [rewrite (Hb (l1 + l2 - j)%nat) by lia|rewrite Ha by exact L]; ring.
  Qed.
  (** splitting at degree k *)
  Lemma psplit k a i : a i = (if Nat.ltb i k then a i else 0) + pshift k (fun j => a (k + j)%nat) i.
  Proof using Rth.
    destruct (Nat.ltb_spec i k) as [L|L]; [rewrite pshift_lt by exact L; ring|]. rewrite pshift_ge by exact L. replace (k + (i - k))%nat with i by lia. ring.
  Qed.
  (** what is known of a product up to degree n only depends on the factors up to degree n; a unit factor can be cancelled *)
  Lemma pconv_cancel a b c n : (forall i, (i <= n)%nat -> pconv a b i = pconv a c i) -> (exists u, u * a O = 1) -> forall i, (i <= n)%nat -> b i = c i.
  Proof using Rth.
    intros H (u & Hu) i. induction i as [i IH] using lt_wf_ind. intros Hi. specialize (H i Hi). unfold SeriesSpec.pconv in H.
    rewrite !(rsum_S_l _ _ _ _ _ _ Rth i) in H. rewrite !Nat.sub_0_r in H.
    rewrite (rsum_ext _ _ i (fun j => a (S j) * b (i - S j)%nat) (fun j => a (S j) * c (i - S j)%nat)) in H.
    2:{ intros j Hj. now rewrite IH by lia. }
    set (s := rsum i (fun j => a (S j) * c (i - S j)%nat)) in *. clearbody s.
    assert (E : a O * b i = a O * c i). { replace (a O * b i) with ((a O * b i + s) - s) by ring. rewrite H. ring. }
    replace (b i) with (u * a O * b i) by (rewrite Hu; ring). replace (c i) with (u * a O * c i) by (rewrite Hu; ring).
    transitivity (u * (a O * b i)); [ring|]. rewrite E. ring.
  Qed.
End SeriesProofs.
