(** Specification vocabulary for fractions: rationals of the standard library, Farey neighbours, positional expansions and continued fractions. *)
From Coq Require Import ZArith QArith List.
Import ListNotations.
Local Open Scope Z_scope.

(** the rational number denoted by a pair with positive denominator *)
Definition frac_value (f : Z * Z) : Q := Qmake (fst f) (Z.to_pos (snd f)).
Definition lowest_terms (f : Z * Z) : Prop := 0 < snd f /\ Z.gcd (fst f) (snd f) = 1.

(** fractions in lowest terms with denominator at most n (the Farey sequence of order n, periodically extended) *)
Definition in_farey (n : Z) (f : Z * Z) : Prop := lowest_terms f /\ snd f <= n.
Definition frac_lt (x y : Z * Z) : Prop := fst x * snd y < fst y * snd x.
(** y is the successor of x in that sequence *)
Definition farey_next (n : Z) (x y : Z * Z) : Prop :=
  in_farey n x /\ in_farey n y /\ frac_lt x y /\ forall z, in_farey n z -> ~ (frac_lt x z /\ frac_lt z y).

(** i-th digit (from 0) after the point of p/q in base b *)
Definition digit_at (b p q : Z) (i : nat) : Z := (p * b ^ (Z.of_nat i + 1) / q) mod b.

(** a0 + 1 / (a1 + 1 / (a2 + ...)) *)
Fixpoint cf_value (va : list Z) : Q :=
  match va with
  | [] => 0%Q
  | [a] => inject_Z a
  | a :: va => (inject_Z a + / cf_value va)%Q
  end.
(** sign (-1)^i *)
Definition alt (i : nat) : Z := if Nat.even i then 1 else -1.
