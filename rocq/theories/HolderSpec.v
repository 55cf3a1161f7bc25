(** The questions a prime_holder and a factorial_holder answer, and the right answers. *)
From Coq Require Import Sorted Permutation.
From Verif Require Import Lib PrimesSpec.
Open Scope nat_scope.

Inductive query :=
| QCount | QPrime (i : nat) | QIsPrime (i : nat) | QFactor (i : nat) | QPi (i : nat) | QPhi (i : nat) | QMu (i : nat) | QNu (i : nat) | QMertens (i : nat)
| QFactorise (n : nat) | QFactoriseProduct (vn : list nat) | QDivisors (n maxd : nat) | QDivisorsOfProduct (vn : list nat) (maxd : nat).
Inductive reply := RInt (z : Z) | RFactors (vf : list (nat * nat)) | RList (l : list nat).
(** the questions a holder for numbers below sz may be asked *)
Definition allowed (sz : nat) (q : query) : Prop :=
  match q with
  | QCount => True | QPrime i => i < length (primes_below sz)
  | QIsPrime i | QFactor i | QPi i | QPhi i | QMu i | QNu i | QMertens i => i < sz
  | QFactorise n | QDivisors n _ => 0 < n < sz
  | QFactoriseProduct vn | QDivisorsOfProduct vn _ => forall n, In n vn -> 0 < n < sz
  end.
(** the sum of the Moebius function up to i *)
Definition mertens_of (i : nat) : Z := fold_right Z.add 0%Z (map mobius (seq 0 (i + 1))).
Definition product_of (vn : list nat) : nat := fold_right Nat.mul 1 vn.
(** the divisors of n in increasing order, only those up to maxd unless maxd is 0 *)
Definition divisors_upto (n maxd : nat) : list nat := filter (fun d => (maxd =? 0) || (d <=? maxd)) (divisors_of n).
Definition sorted_factorisation (n : nat) (vf : list (nat * nat)) : Prop := factorisation n vf /\ StronglySorted lt (map fst vf).
Definition correct (sz : nat) (q : query) (r : reply) : Prop :=
  match q with
  | QCount => r = RInt (Z.of_nat (length (primes_below sz)))
  | QPrime i => exists p, nth_error (primes_below sz) i = Some p /\ r = RInt (Z.of_nat p)
  | QIsPrime i => r = RInt (if primeb i then 1 else 0)%Z
  | QFactor i => exists v, r = RInt (Z.of_nat v) /\ (if i <? 2 then v = i else greatest_prime_factor i v)
  | QPi i => r = RInt (Z.of_nat (length (primes_below (i + 1))))
  | QPhi i => r = RInt (Z.of_nat (totient i))
  | QMu i => r = RInt (mobius i)
  | QNu i => r = RInt (Z.of_nat (length (prime_divisors i)))
  | QMertens i => r = RInt (mertens_of i)
  | QFactorise n => exists vf, r = RFactors vf /\ sorted_factorisation n vf
  | QFactoriseProduct vn => exists vf, r = RFactors vf /\ sorted_factorisation (product_of vn) vf
  | QDivisors n maxd => r = RList (divisors_upto n maxd)
  | QDivisorsOfProduct vn maxd => r = RList (divisors_upto (product_of vn) maxd)
  end.
(** std::sort on integers and on pairs *)
Definition sorts (sort : list nat -> list nat) : Prop := forall l, Permutation l (sort l) /\ LocallySorted le (sort l).
Definition pair_le (a b : nat * nat) : Prop := fst a < fst b \/ (fst a = fst b /\ snd a <= snd b).
Definition sorts_pairs (sort : list (nat * nat) -> list (nat * nat)) : Prop := forall l, Permutation l (sort l) /\ LocallySorted pair_le (sort l).
(** binomial coefficients by Pascal's rule *)
Fixpoint choose (n k : nat) : nat :=
  match n, k with _, O => 1 | O, S _ => 0 | S n', S k' => choose n' k' + choose n' k end.
