(** C60: linear recurrences. *)
From Coq Require Import Ring Ring_theory.
From Verif Require Import Lib RingSpec RingProofs SeriesSpec PolyModel PolyProofs3 RecurrenceModel RecurrenceSpec RecurrenceProofs.
Open Scope Z_scope.

Section C60.
  (** coefficients in a commutative ring R, sequence in a commutative R-algebra A *)
  Context {R A : Type} (zero one : R) (add mul sub : R -> R -> R) (opp : R -> R).
  Hypothesis Rth : ring_theory zero one add mul sub opp (@eq R).
  Add Ring Rr3 : Rth.
  Variable tdiv : R -> R -> option R.
  Variable eqb : R -> R -> bool.
  Hypothesis eqb_spec : forall x y, eqb x y = true <-> x = y.
  Hypothesis H10 : one <> zero.
  Hypothesis div1 : forall x, tdiv x one = Some x.
  Variables (thr : Z) (slow isfloat : bool).

  Theorem C60_linear_recurrence (zeroA oneA : A) (addA mulA subA : A -> A -> A) (oppA : A -> A)
    (Ath : ring_theory zeroA oneA addA mulA subA oppA (@eq A)) (cast : R -> A)
    (cast0 : cast zero = zeroA) (cast1 : cast one = oneA) (castadd : forall x y, cast (add x y) = addA (cast x) (cast y))
    (castmul : forall x y, cast (mul x y) = mulA (cast x) (cast y)) (castopp : forall x, cast (opp x) = oppA (cast x))
    (c : list R) (f : nat -> A) (f_init : list A) (n : Z) :
    c <> [] -> recurrent zeroA addA mulA cast zero c f -> (forall i, (i < length c)%nat -> nth_error f_init i = Some (f i)) -> 0 <= n ->
    linear_recurrence zero one add sub mul opp tdiv eqb zeroA addA mulA cast thr slow isfloat c f_init n = Some (f (Z.to_nat n)).
  Proof using Rth eqb_spec H10 div1.
    intros Hc Hf Hi Hn. apply (linear_recurrence_spec zero one add mul sub opp Rth tdiv eqb eqb_spec H10 div1 zeroA oneA addA mulA subA oppA Ath); auto.
    assert (HL : (1 <= length c)%nat) by (destruct c; [contradiction|cbn; lia]).
    assert (nth_error f_init (length c - 1) <> None) by (rewrite Hi by lia; discriminate). apply nth_error_Some in H. lia.
  Qed.

  Theorem C60_next (zeroA oneA : A) (addA mulA subA : A -> A -> A) (oppA : A -> A)
    (Ath : ring_theory zeroA oneA addA mulA subA oppA (@eq A)) (cast : R -> A) (c : list R) (f : nat -> A) (v : list A) :
    c <> [] -> recurrent zeroA addA mulA cast zero c f -> (length c <= length v)%nat -> (forall i, (i < length v)%nat -> nth_error v i = Some (f i)) ->
    linear_recurrence_next zeroA addA mulA cast c v = Some (f (length v)).
  Proof using. intros. eapply next_spec; eauto. Qed.

  (** converting coefficients to the characteristic polynomial and back gives the coefficients *)
  Theorem C60_roundtrip (c : list R) : c <> [] -> exists p, coeff_to_poly zero one opp c = Some p /\ length p = (length c + 1)%nat /\
    coef zero p (length c) = one /\ (forall i, (i < length c)%nat -> coef zero p i = opp (coef zero c (length c - 1 - i))) /\
    poly_to_coeff zero opp eqb p = c.
  Proof using Rth eqb_spec H10.
    intros Hc. destruct (coeff_to_poly_spec zero one opp c Hc) as (p & E & L & PL & Pi). exists p. split; [exact E|]. split; [exact L|]. split; [exact PL|]. split; [exact Pi|].
    unfold poly_to_coeff. rewrite (p_degree zero one eqb eqb_spec H10 c p L PL).
    apply list_ext.
    intros i. destruct (Nat.ltb_spec i (length c)) as [Li|Li].
    - rewrite (map_nth_error _ _ _ (d := i)); [|rewrite (nth_error_nth' _ O) by (rewrite seq_length; lia); rewrite seq_nth by lia; reflexivity].
      rewrite (nth_error_nth' c zero) by lia. f_equal.
      replace (Z.of_nat (length c) - 1 - Z.of_nat i) with (Z.of_nat (length c - 1 - i)) by lia. rewrite p_at_coef, Pi by lia.
      replace (length c - 1 - (length c - 1 - i))%nat with i by lia. unfold coef. ring.
    - transitivity (@None R); [|symmetry]; apply nth_error_None; [rewrite map_length, seq_length|]; lia.
  Qed.

  Lemma seq2_rec a b p q : recurrent zero add mul (fun c => c) zero [p; q] (seq2 add mul a b p q).
  Proof using Rth.
    intros n. cbn [length]. rewrite !rsum_S. replace (n + 2)%nat with (S (S n)) by lia. replace (S (S n) - 1 - 0)%nat with (S n) by lia. replace (S (S n) - 1 - 1)%nat with n by lia.
    unfold seq2. cbn [seq2p nth fst]. destruct (seq2p add mul a b p q n) as [x y]. cbn. ring.
  Qed.
  Lemma lr2 a b p q n : 0 <= n -> linear_recurrence zero one add sub mul opp tdiv eqb zero add mul (fun c => c) thr slow isfloat [p; q] [a; b] n = Some (seq2 add mul a b p q (Z.to_nat n)).
  Proof using Rth eqb_spec H10 div1.
    intros Hn. apply (linear_recurrence_spec zero one add mul sub opp Rth tdiv eqb eqb_spec H10 div1 zero one add mul sub opp Rth); auto; try discriminate; try apply seq2_rec.
    intros i Hi. cbn in Hi. destruct i as [|[|i]]; [reflexivity|reflexivity|lia].
  Qed.
  Theorem C60_fibonacci n : 0 <= n -> fibonacci zero one add sub mul opp tdiv eqb thr slow isfloat n = Some (seq2 add mul zero one one one (Z.to_nat n)).
  Proof using Rth eqb_spec H10 div1. intros Hn. unfold fibonacci. rewrite lr2 by exact Hn. replace (sub one one) with zero by ring. reflexivity. Qed.
  Theorem C60_lucas_l n : 0 <= n -> lucas_l zero one add sub mul opp tdiv eqb thr slow isfloat n = Some (seq2 add mul (add one one) one one one (Z.to_nat n)).
  Proof using Rth eqb_spec H10 div1. intros Hn. unfold lucas_l. rewrite lr2 by exact Hn. reflexivity. Qed.
  Theorem C60_lucas_u p q n : 0 <= n -> lucas_u zero one add sub mul opp tdiv eqb thr slow isfloat p q n = Some (seq2 add mul zero one p (opp q) (Z.to_nat n)).
  Proof using Rth eqb_spec H10 div1. intros Hn. unfold lucas_u. rewrite lr2 by exact Hn. replace (sub one one) with zero by ring. reflexivity. Qed.
  Theorem C60_lucas_v p q n : 0 <= n -> lucas_v zero one add sub mul opp tdiv eqb thr slow isfloat p q n = Some (seq2 add mul (add one one) p p (opp q) (Z.to_nat n)).
  Proof using Rth eqb_spec H10 div1. intros Hn. unfold lucas_v. rewrite lr2 by exact Hn. reflexivity. Qed.
End C60.

Example C60_case :
  fibonacci 0 1 Z.add Z.sub Z.mul Z.opp (fun x y => if y =? 0 then None else Some (Z.quot x y)) Z.eqb 64 true false 30 = Some 832040 /\
  linear_recurrence 0 1 Z.add Z.sub Z.mul Z.opp (fun x y => if y =? 0 then None else Some (Z.quot x y)) Z.eqb 0 Z.add Z.mul (fun c => c) 64 true false [1; -2; 3] [1; 5; 7] 6 = Some 20 /\
  seq2 Z.add Z.mul 0 1 1 1 30 = 832040.
Proof. vm_compute. auto. Qed.

Print Assumptions C60_linear_recurrence.
Print Assumptions C60_next.
Print Assumptions C60_roundtrip.
Print Assumptions C60_fibonacci.
Print Assumptions C60_lucas_l.
Print Assumptions C60_lucas_u.
Print Assumptions C60_lucas_v.
