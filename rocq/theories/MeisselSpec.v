(** Counting primes: tables of prime counts and lists of primes. *)
From Verif Require Import Lib PrimesSpec.
Open Scope nat_scope.

(** the number of primes up to x *)
Definition pi_of (x : nat) : nat := length (primes_below (x + 1)).
(** pi[0..b] are the prime counts; p starts with the primes below b *)
Definition pi_table (b : nat) (pi : list Z) : Prop := forall x, x <= b -> nth_error pi x = Some (Z.of_nat (pi_of x)).
Definition prime_list (b : nat) (p : list nat) : Prop := exists rest, p = primes_below b ++ rest.
(** the number of x in [1, m] divisible by none of the numbers ps *)
Definition rough_count (ps : list nat) (m : nat) : nat := length (filter (fun x => forallb (fun p => negb (x mod p =? 0)) ps) (seq 1 m)).
(** what a call is given: cb is the integer cube root of m < 2^48; pi holds the prime counts up to cb+1 and m/(cb+1), and up to m when m is
    below the stated size; p starts with the primes below some B, one of which exceeds cb+1 and sqrt(m) *)
Definition meissel_inputs (cb m : nat) (pi : list Z) (p : list nat) (size : nat) : Prop :=
  cb ^ 3 <= m < (cb + 1) ^ 3 /\ (Z.of_nat m < 2 ^ 48)%Z /\
  exists b B q, pi_table b pi /\ cb + 1 <= b /\ m / (cb + 1) <= b /\ (m < size -> m <= b) /\
    prime_list B p /\ is_prime q /\ q < B /\ cb + 1 < q /\ m < q * q.
