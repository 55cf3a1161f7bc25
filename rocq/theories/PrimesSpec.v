(** Primes and arithmetic functions by definition. *)
From Verif Require Import Lib.
Open Scope nat_scope.

Definition is_prime (p : nat) : Prop := 2 <= p /\ forall d, Nat.divide d p -> d = 1 \/ d = p.
Definition primeb (p : nat) : bool := (2 <=? p) && forallb (fun d => negb (p mod d =? 0)) (seq 2 (p - 2)).
(** the primes below n, in increasing order *)
Definition primes_below (n : nat) : list nat := filter primeb (seq 0 n).
(** number of k in [1, n] coprime to n *)
Definition totient (n : nat) : nat := length (filter (fun k => Nat.gcd k n =? 1) (seq 1 n)).
(** divisors of n, and the prime ones *)
Definition divisors_of (n : nat) : list nat := filter (fun d => n mod d =? 0) (seq 1 n).
Definition prime_divisors (n : nat) : list nat := filter primeb (divisors_of n).
(** Moebius function; a square greater than 1 dividing n makes it 0 *)
Definition mobius (n : nat) : Z :=
  if n =? 0 then 0%Z else if existsb (fun d => n mod (d * d) =? 0) (seq 2 n) then 0%Z else ((-1) ^ Z.of_nat (length (prime_divisors n)))%Z.
(** prime factorisation *)
Definition product (vf : list (nat * nat)) : nat := fold_right (fun '(p, e) a => p ^ e * a) 1 vf.
Definition factorisation (n : nat) (vf : list (nat * nat)) : Prop :=
  product vf = n /\ NoDup (map fst vf) /\ forall p e, In (p, e) vf -> is_prime p /\ 1 <= e.
(** a table with the given values below n; entries from n on as before *)
Definition table {A} (n : nat) (f : nat -> A) (old l : list A) : Prop :=
  length l = length old /\ (forall i, i < n -> nth_error l i = Some (f i)) /\ (forall i, n <= i -> nth_error l i = nth_error old i).
(** extremal prime factors *)
Definition greatest_prime_factor (x v : nat) : Prop := is_prime v /\ Nat.divide v x /\ forall r, is_prime r -> Nat.divide r x -> r <= v.
Definition least_prime_factor (x v : nat) : Prop := is_prime v /\ Nat.divide v x /\ forall r, is_prime r -> Nat.divide r x -> v <= r.
(** a table of prime factors for 2..n; the exponent of q in a list of factors *)
Definition pf_table (n : nat) (pf : list nat) : Prop := forall k, 2 <= k <= n -> exists p, nth_error pf k = Some p /\ is_prime p /\ Nat.divide p k.
Definition exponent (fs : list (nat * nat)) (q : nat) : nat := fold_right (fun '(p, e) a => if p =? q then e + a else a) 0 fs.
