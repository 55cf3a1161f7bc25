From Verif Require Import Lib BaseModel RingSpec RingProofs FftModel FftSpec FftProofs FftProofs2 FftProofs3 FftProofs4.
From Coq Require Import Ring Ring_theory Lia Arith.
Open Scope nat_scope.

Section Fft.
  Context {T : Type}.
  Variables (zero one : T) (add mul sub : T -> T -> T) (opp : T -> T).
  Hypothesis Rth : ring_theory zero one add mul sub opp (@eq T).
  Add Ring TR : Rth.
  Notation rsum := (rsum zero add). Notation rpow := (rpow one mul). Notation rnat := (rnat zero one add).
  Notation dft := (dft zero one add mul).
  Notation half_root := (half_root one mul opp).
  Local Infix "+!" := add (at level 50). Local Infix "*!" := mul (at level 40). Local Infix "-!" := sub (at level 50).
  Notation P_add := (P_add zero one add mul sub opp Rth). Notation P_mul := (P_mul zero one add mul sub opp Rth). Notation P_mul_l := (P_mul_l zero one add mul sub opp Rth).

  Lemma inv_pow L w wi : half_root (2 ^ S L) w -> w *! wi = one -> wi = rpow w (2 ^ S L - 1).
  Proof using Rth.
    intros H E. pose proof (full_pow zero one add mul sub opp Rth L w H) as F. pose proof (pow2_pos (S L)).
    replace (2 ^ S L) with (2 ^ S L - 1 + 1) in F by lia. rewrite P_add in F. cbn [RingSpec.rpow] in F.
    transitivity (rpow w (2 ^ S L - 1) *! (one *! w) *! wi); [rewrite F; ring|]. transitivity (rpow w (2 ^ S L - 1) *! (w *! wi)); [ring|]. rewrite E. ring.
  Qed.
  Lemma half_inverse L w wi : half_root (2 ^ L) w -> w *! wi = one -> half_root (2 ^ L) wi.
  Proof using Rth.
    intros H E. destruct L as [|L]; [intros X; cbn in X; lia|]. rewrite (inv_pow L w wi H E). now apply (half_inv zero one add mul sub opp Rth).
  Qed.
  Lemma dft_inverse L w wi a k : half_root (2 ^ L) w -> w *! wi = one -> k < 2 ^ L -> dft (2 ^ L) wi (dft (2 ^ L) w a) k = rnat (2 ^ L) *! a k.
  Proof using Rth.
    intros H E Hk. destruct L as [|L]; [cbn in Hk; assert (k = 0) by lia; subst k; unfold FftSpec.dft; cbn; ring|].
    rewrite (inv_pow L w wi H E). set (n := 2 ^ S L) in *. pose proof (pow2_pos (S L)) as HP. fold n in HP. unfold FftSpec.dft.
    transitivity (rsum n (fun x => rsum n (fun j => a j *! rpow w ((0 + j + (n - 1) * k) * x)))).
    { apply rsum_ext. intros x _. rewrite <- (rsum_mul_r zero one add mul sub opp Rth). apply rsum_ext. intros j _.
      rewrite <- P_mul. replace ((0 + j + (n - 1) * k) * x) with (j * x + (n - 1) * (x * k)) by lia. rewrite P_add. ring. }
    rewrite (rsum_swap zero one add mul sub opp Rth).
    rewrite (rsum_ext zero add n _ (fun j => a j *! (if (0 + j + (n - 1) * k) mod n =? 0 then rnat n else zero))).
    2:{ intros j Hj. rewrite (rsum_mul_l zero one add mul sub opp Rth). f_equal. unfold n. apply (orth_all zero one add mul sub opp Rth). exact H. }
    assert (CK : k = cyc n k 0) by (rewrite cyc_le by lia; lia).
    rewrite (rsum_single zero one add mul sub opp Rth n _ k).
    - rewrite (proj2 (Nat.eqb_eq _ _)); [ring|]. now apply cyc_iff.
    - exact Hk.
    - intros j Hj N. destruct (Nat.eqb_spec ((0 + j + (n - 1) * k) mod n) 0) as [G|]; [|ring]. exfalso. apply N. rewrite CK. now apply cyc_iff.
  Qed.
End Fft.
