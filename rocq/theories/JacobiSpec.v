(** The Legendre and the Jacobi symbol. *)
From Verif Require Import Lib PrimesSpec.
Open Scope Z_scope.
(** 0 if p divides a, 1 if a is a square modulo p, -1 otherwise *)
Definition legendre (a : Z) (p : nat) : Z :=
  if a mod Z.of_nat p =? 0 then 0
  else if existsb (fun x => (Z.of_nat x * Z.of_nat x - a) mod Z.of_nat p =? 0) (seq 0 p) then 1 else -1.
Definition zprod (l : list Z) : Z := fold_right Z.mul 1 l.
(** the number with these prime factors, and its Jacobi symbol *)
Definition value_of (ps : list nat) : Z := zprod (map Z.of_nat ps).
Definition jacobi_symbol (a : Z) (ps : list nat) : Z := zprod (map (legendre a) ps).
Definition odd_primes (ps : list nat) : Prop := forall p, In p ps -> is_prime p /\ p <> 2%nat.
