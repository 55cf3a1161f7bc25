(** Power series as coefficient functions: powers, derivative, substitution, exponential. *)
From Coq Require Import List.
From Verif Require Import RingSpec SeriesSpec.

Section SerSpec.
  Context {R : Type} (zero one : R) (add mul : R -> R -> R).
  (** a^k *)
  Fixpoint ppow (a : nat -> R) (k : nat) : nat -> R := match k with O => pconst zero one | S k => pconv zero add mul (ppow a k) a end.
  (** the derivative of a *)
  Definition pderiv (a : nat -> R) (i : nat) : R := mul (rnat zero one add (S i)) (a (S i)).
  (** a_0 + a_1 b + ... + a_(n-1) b^(n-1) *)
  Definition psubst (n : nat) (a b : nat -> R) (i : nat) : R := rsum zero add n (fun k => mul (a k) (ppow b k i)).
  (** a without its constant term *)
  Definition no_const (a : nat -> R) (i : nat) : R := match i with O => zero | _ => a i end.
  (** the series x *)
  Definition px (i : nat) : R := match i with S O => one | _ => zero end.
  (** 1/k!, when [inv i] is 1/i *)
  Definition ifact (inv : nat -> R) (k : nat) : R := rprod one mul k (fun i => inv (S i)).
  (** 1 + s + s^2/2! + s^3/3! + ... for a series with constant term 0: no power above the i-th contributes to x^i *)
  Definition pexp (inv : nat -> R) (s : nat -> R) (i : nat) : R := rsum zero add (S i) (fun k => mul (ifact inv k) (ppow s k i)).
End SerSpec.
