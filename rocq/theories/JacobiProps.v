(** C17: the Jacobi symbol. *)
From Verif Require Import Lib BaseModel ModuloModel PrimesSpec PrimesProofs NumTheory NumTheory2 NumTheory3 NumTheory4 JacobiSpec JacobiModel JacobiProofs.
Open Scope Z_scope.

(** for every product of odd primes the result is the product of the Legendre symbols *)
Theorem C17_jacobi : forall n ps, 0 <= n -> odd_primes ps -> jacobi n (value_of ps) = Some (jacobi_symbol n ps).
Proof. exact jacobi_run. Qed.
(** and every odd positive number is such a product *)
Theorem C17_every_odd : forall m, 0 < m -> Z.odd m = true -> exists ps, odd_primes ps /\ value_of ps = m.
Proof. exact odd_factored. Qed.
(** modulo an odd prime: 0 for a multiple, 1 for the other squares, -1 for the rest *)
Theorem C17_prime : forall n p, 0 <= n -> is_prime p -> p <> 2%nat ->
  exists v, jacobi n (Z.of_nat p) = Some v /\
    ((Z.of_nat p | n) -> v = 0) /\
    (~ (Z.of_nat p | n) -> (exists x, (Z.of_nat p | x * x - n)) -> v = 1) /\
    (~ (exists x, (Z.of_nat p | x * x - n)) -> v = -1).
Proof.
  intros n p N P O. exists (legendre n p). split.
  - replace (Z.of_nat p) with (value_of [p]) by (unfold value_of; cbn [map zprod fold_right]; lia). rewrite jacobi_run; [|exact N|intros q [<-|[]]; auto]. f_equal. unfold jacobi_symbol. cbn [map zprod fold_right]. lia.
  - destruct (legendre_values p P O n) as [(-> & D)|(D & [(-> & X)|(-> & X)])].
    + split; [reflexivity|]. split; [tauto|]. intros X. exfalso. apply X. exists 0. replace (0 * 0 - n) with (- n) by ring. now apply Z.divide_opp_r.
    + tauto.
    + tauto.
Qed.
(** 0 exactly when n and m have a common factor *)
Theorem C17_zero : forall n m, 0 <= n -> 0 < m -> Z.odd m = true ->
  exists v, jacobi n m = Some v /\ (v = 0 \/ v = 1 \/ v = -1) /\ (v = 0 <-> Z.gcd n m <> 1).
Proof.
  intros n m N M O. destruct (odd_factored m M O) as (ps & OP & <-). exists (jacobi_symbol n ps). split; [now apply jacobi_run|]. clear N M O. induction ps as [|p ps IH].
  - cbn [jacobi_symbol map zprod fold_right value_of]. rewrite Z.gcd_1_r. split; [auto|]. lia.
  - apply odd_cons in OP as ((P & O2) & OP). destruct (IH OP) as (R & Z0). rewrite jac_cons, value_cons. pose proof (pz3 p P O2) as P3. split; [destruct R as [-> |[-> | ->]], (legendre_range p P O2 n) as [-> |[-> | ->]]; cbn; auto|].
    rewrite Z.mul_eq_0, Z0. assert (L0 : legendre n p = 0 <-> (Z.of_nat p | n)). { destruct (legendre_values p P O2 n) as [(-> & D)|(D & [(-> & _)|(-> & _)])]; [tauto| |]; (split; [lia|tauto]). }
    rewrite L0. split.
    + intros [D|D] G; [assert (D1 : (Z.of_nat p | 1)) by (rewrite <- G; apply Z.gcd_greatest; [exact D|apply Z.divide_factor_l]); apply Z.divide_pos_le in D1; lia|]. apply D. apply Z.gcd_unique; [lia|apply Z.divide_1_l|apply Z.divide_1_l|]. intros q A B. rewrite <- G. apply Z.gcd_greatest; [exact A|now apply Z.divide_mul_r].
    + intros G. destruct (Znumtheory.Zdivide_dec (Z.of_nat p) n) as [D|D]; [now left|right]. intros G1. apply G. apply Z.gcd_unique; [lia|apply Z.divide_1_l|apply Z.divide_1_l|]. intros q A B.
      assert (GQ : Z.gcd q (Z.of_nat p) = 1). { assert (D2 : (Z.gcd q (Z.of_nat p) | Z.of_nat p)) by apply Z.gcd_divide_r. pose proof (Z.gcd_nonneg q (Z.of_nat p)) as GN. rewrite <- (Z2Nat.id _ GN) in D2. apply divide_nat in D2. destruct P as (_ & PP). apply PP in D2 as [D2|D2]; [lia|]. exfalso. apply D. assert (E : Z.of_nat p = Z.gcd q (Z.of_nat p)) by lia. rewrite E. eapply Z.divide_trans; [apply Z.gcd_divide_l|exact A]. }
      rewrite <- G1. apply Z.gcd_greatest; [exact A|]. apply (Z.gauss q (Z.of_nat p)); [exact B|exact GQ].
Qed.
(** a negative n leaves the loop with a wrong answer *)
Theorem C17_negative_refuted : ~ (forall n p, is_prime p -> p <> 2%nat -> ~ (exists x, (Z.of_nat p | x * x - n)) -> jacobi n (Z.of_nat p) = Some (-1)).
Proof.
  intros H. assert (P3 : is_prime 3) by (split; [lia|]; intros d (q & Q); assert (d <= 3)%nat by (destruct q; nia); destruct d as [|[|[|[|d]]]]; lia). specialize (H (-1) 3%nat P3 ltac:(lia)). change (Z.of_nat 3) with 3 in H. assert (N : ~ (exists x, (3 | x * x - -1))).
  { intros (x & c & D). pose proof (Z.div_mod x 3 ltac:(lia)) as E. pose proof (Z.mod_pos_bound x 3 ltac:(lia)) as B. set (q := x / 3) in *. assert (C : x mod 3 = 0 \/ x mod 3 = 1 \/ x mod 3 = 2) by lia. clearbody q. destruct C as [C|[C|C]]; rewrite C in E; clear C B; subst x; lia. }
  specialize (H N). vm_compute in H. discriminate.
Qed.
Example C17_case : odd_primes [3; 5; 5; 7; 11]%nat /\ value_of [3; 5; 5; 7; 11]%nat = 5775 /\ jacobi 17 5775 = Some (-1) /\ jacobi 1001 9907 = Some (-1) /\ jacobi 19 45 = Some 1 /\ jacobi 21 5775 = Some 0.
Proof. split; [intros p I; split; [apply primeb_spec; cbn in I; repeat (destruct I as [<-|I]; [reflexivity|]); destruct I|intros ->; cbn in I; intuition discriminate]|]. repeat split; vm_compute; reflexivity. Qed.
Print Assumptions C17_jacobi.
Print Assumptions C17_every_odd.
Print Assumptions C17_prime.
Print Assumptions C17_zero.
Print Assumptions C17_negative_refuted.
Print Assumptions C17_case.
