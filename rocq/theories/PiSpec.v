(** Sums over primes. *)
From Verif Require Import Lib RingSpec PrimesSpec.
Open Scope nat_scope.

(** the sum of g over the primes up to v *)
Definition prime_total {T} (zero : T) (add : T -> T -> T) (g : nat -> T) (v : nat) : T :=
  rsum zero add (S v) (fun k => if primeb k then g k else zero).
(** the number of primes up to v, of those of the form 4 k + r, and their sum *)
Definition primes_upto (v : nat) : list nat := primes_below (S v).
Definition count_primes (v : nat) : nat := length (primes_upto v).
Definition count_primes4 (r v : nat) : nat := length (filter (fun p => p mod 4 =? r) (primes_upto v)).
Definition sum_primes (v : nat) : nat := list_sum (primes_upto v).
(** the sum of f 1 ... f n *)
Definition total {T} (zero : T) (add : T -> T -> T) (f : nat -> T) (n : nat) : T := rsum zero add n (fun k => f (S k)).
