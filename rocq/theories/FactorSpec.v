(** Vocabulary for factorisations of integers. *)
From Verif Require Import Lib PrimesSpec.
Open Scope Z_scope.

(** n passes the strong test for the base b: n - 1 = 2^r d with d odd, and b^d = 1 or b^(2^i d) = -1 modulo n for some i < r *)
Definition strong_probable_prime (n b : Z) : Prop :=
  exists d r, 0 <= r /\ n - 1 = 2 ^ r * d /\ Z.odd d = true /\ ((n | b ^ d - 1) \/ exists i, 0 <= i < r /\ (n | b ^ (2 ^ i * d) + 1)).
(** the bases that are looked at: those before the first one that is 0 or not below n *)
Fixpoint tested (n : Z) (bases : list Z) : list Z :=
  match bases with [] => [] | b :: bases => if (b =? 0) || (n <=? b) then [] else b :: tested n bases end.
(** product of p^e *)
Fixpoint productZ (vf : list (Z * Z)) : Z := match vf with [] => 1 | (p, e) :: vf => p ^ e * productZ vf end.
Definition primeZ (p : Z) : Prop := is_prime (Z.to_nat p).
(** vf is the prime factorisation of n *)
Definition factorisationZ (n : Z) (vf : list (Z * Z)) : Prop :=
  productZ vf = n /\ NoDup (map fst vf) /\ forall p e, In (p, e) vf -> primeZ p /\ 1 <= e.
(** product of the numbers of a list, and of powers of corresponding entries *)
Fixpoint prodl (l : list Z) : Z := match l with [] => 1 | x :: l => x * prodl l end.
Fixpoint prod_powers (ps es : list Z) : Z := match ps, es with p :: ps, e :: es => p ^ e * prod_powers ps es | _, _ => 1 end.
(** the pairs (p, e) with e > 0 *)
Definition used_powers (ps es : list Z) : list (Z * Z) := filter (fun '(_, e) => 0 <? e) (combine ps es).
