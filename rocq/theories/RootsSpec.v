(** Square roots modulo m: the specification. *)
From Verif Require Import Lib PrimesSpec.
Open Scope Z_scope.
(** x is a square root of y modulo m *)
Definition root_of (y m x : Z) : Prop := (m | x * x - y).
(** the number written as a list of (prime, exponent) pairs *)
Definition factored_value (vf : list (Z * Z)) : Z := fold_right (fun '(p, e) a => p ^ e * a) 1 vf.
(** a factorization: distinct primes, positive exponents *)
Definition factorization_list (vf : list (Z * Z)) : Prop :=
  NoDup (map fst vf) /\ forall p e, In (p, e) vf -> 0 <= p /\ is_prime (Z.to_nat p) /\ 1 <= e.
