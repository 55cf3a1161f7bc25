(** Vocabulary for the segmented sieves. *)
From Verif Require Import Lib PrimesSpec.
Open Scope nat_scope.

(** the array l holds f x at x - b for the integers x in [b, e), and is otherwise what it was *)
Definition segment {A} (b e : nat) (f : nat -> A) (old l : list A) : Prop :=
  length l = length old /\ (forall x, b <= x < e -> nth_error l (x - b) = Some (f x)) /\ (forall i, e - b <= i -> nth_error l i = nth_error old i).
(** the first m entries of p are the primes below some L, and L * L is at least e *)
Definition sieving_primes (p : list nat) (m e : nat) : Prop := exists L, m <= length p /\ firstn m p = primes_below L /\ e <= L * L.
