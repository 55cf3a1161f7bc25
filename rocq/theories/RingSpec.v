(** Finite sums, products, powers and natural multiples over any type with + and *. *)
From Coq Require Import Ring_theory.

Section RingSpec.
  Context {R : Type} (zero one : R) (add mul : R -> R -> R).
  (** f 0 + ... + f (n-1) *)
  Fixpoint rsum (n : nat) (f : nat -> R) : R := match n with O => zero | S n => add (rsum n f) (f n) end.
  (** f 0 * ... * f (n-1) *)
  Fixpoint rprod (n : nat) (f : nat -> R) : R := match n with O => one | S n => mul (rprod n f) (f n) end.
  (** x^n *)
  Fixpoint rpow (x : R) (n : nat) : R := match n with O => one | S n => mul (rpow x n) x end.
  (** 1 + ... + 1, n times *)
  Fixpoint rnat (n : nat) : R := match n with O => zero | S n => add (rnat n) one end.
  (** 1 * 2 * ... * n *)
  Definition rfact (n : nat) : R := rprod n (fun i => rnat (S i)).
End RingSpec.
