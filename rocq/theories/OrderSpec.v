(** Powers, orders and prime factor lists. *)
From Verif Require Import Lib PrimesSpec.
Open Scope Z_scope.

(** the elements [ok] form a monoid *)
Definition monoid_on {G} (ok : G -> Prop) (mul : G -> G -> G) (one : G) : Prop :=
  ok one /\ (forall x y, ok x -> ok y -> ok (mul x y)) /\
  (forall x y z, ok x -> ok y -> ok z -> mul x (mul y z) = mul (mul x y) z) /\ (forall x, ok x -> mul one x = x /\ mul x one = x).
(** x to the power n, and the least positive exponent that gives 1 *)
Fixpoint gpow {G} (mul : G -> G -> G) (one : G) (x : G) (n : nat) : G := match n with O => one | S n => mul x (gpow mul one x n) end.
Definition is_order {G} (mul : G -> G -> G) (one : G) (a : G) (k : Z) : Prop :=
  0 < k /\ gpow mul one a (Z.to_nat k) = one /\ forall j, 0 < j < k -> gpow mul one a (Z.to_nat j) <> one.
Definition order_mod (a m k : Z) : Prop := 0 < k /\ (m | a ^ k - 1) /\ forall j, 0 < j < k -> ~ (m | a ^ j - 1).
(** the list of the distinct prime factors of n *)
Definition prime_factors_of (n : Z) (ps : list Z) : Prop := NoDup ps /\ forall p, In p ps <-> exists q, p = Z.of_nat q /\ is_prime q /\ (p | n).
(** every unit modulo m is a power of g *)
Definition generates (g m : Z) : Prop := forall x, Z.gcd x m = 1 -> exists k, 0 <= k /\ (m | g ^ k - x).
(** the least positive L with a^L = 1 for every unit a modulo m *)
Definition carmichael (m L : Z) : Prop :=
  0 < L /\ (forall a, Z.gcd a m = 1 -> (m | a ^ L - 1)) /\ forall j, 0 < j < L -> exists a, Z.gcd a m = 1 /\ ~ (m | a ^ j - 1).
(** 2, 4, p^k, 2 p^k for an odd prime p *)
Definition cyclic_modulus (n : nat) : Prop := n = 2%nat \/ n = 4%nat \/ exists p k, is_prime p /\ p <> 2%nat /\ (1 <= k)%nat /\ (n = p ^ k \/ n = 2 * p ^ k)%nat.
(** r is the least x >= 0 with a^x = b (mod m), or -1 when there is none *)
Definition least_log (a b m r : Z) : Prop := (0 <= r /\ (m | a ^ r - b) /\ forall x, 0 <= x < r -> ~ (m | a ^ x - b)) \/ (r = -1 /\ forall x, 0 <= x -> ~ (m | a ^ x - b)).
(** the integer square root *)
Definition is_isqrt (root : Z -> Z) : Prop := forall n, 0 <= n -> 0 <= root n /\ root n * root n <= n < (root n + 1) * (root n + 1).
