(** Polynomials and power series as coefficient functions. *)
From Coq Require Import List.
From Verif Require Import RingSpec.

Section SeriesSpec.
  Context {R : Type} (zero one : R) (add mul : R -> R -> R).
  (** coefficient of x^i in the product of a and b *)
  Definition pconv (a b : nat -> R) (i : nat) : R := rsum zero add (S i) (fun j => mul (a j) (b (i - j))).
  (** x^k * a *)
  Definition pshift (k : nat) (a : nat -> R) (i : nat) : R := if Nat.leb k i then a (i - k) else zero.
  (** a up to and including degree l *)
  Definition ptrunc (l : nat) (a : nat -> R) (i : nat) : R := if Nat.leb i l then a i else zero.
  (** the constant c *)
  Definition pconst (c : R) (i : nat) : R := match i with O => c | _ => zero end.
  (** coefficients of a vector *)
  Definition coef (p : list R) (i : nat) : R := nth i p zero.
End SeriesSpec.
