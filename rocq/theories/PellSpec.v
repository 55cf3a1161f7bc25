(** Pell equations x^2 - D y^2 = N: solutions, products and powers. *)
From Verif Require Import Lib.
Open Scope Z_scope.

Definition nonsquare (D : Z) : Prop := 0 < D /\ forall r, D <> r * r.
(** (x, y) is a solution of x^2 - D y^2 = N *)
Definition solution (D N : Z) (s : Z * Z) : Prop := fst s * fst s - D * (snd s * snd s) = N.
Definition positive (s : Z * Z) : Prop := 0 < fst s /\ 0 < snd s.
(** the product of x + y sqrt(D) and u + v sqrt(D) *)
Definition qmul (D : Z) (s t : Z * Z) : Z * Z := (fst s * fst t + D * (snd s * snd t), fst s * snd t + snd s * fst t).
Fixpoint qpow (D : Z) (s : Z * Z) (n : nat) : Z * Z := match n with O => (1, 0) | S n => qmul D s (qpow D s n) end.
Definition smaller (s t : Z * Z) : Prop := fst s < fst t /\ snd s < snd t.
(** s is the smallest positive solution, in both coordinates *)
Definition least_solution (D N : Z) (s : Z * Z) : Prop :=
  positive s /\ solution D N s /\ forall t, positive t -> solution D N t -> fst s <= fst t /\ snd s <= snd t.

(** x < sqrt(D) *)
Definition under_root (D x : Z) : Prop := x < 0 \/ x * x < D.
(** a is the integer part of (P + sqrt(D)) / Q *)
Definition integer_part (D P Q a : Z) : Prop :=
  (0 < Q /\ under_root D (a * Q - P) /\ ~ under_root D ((a + 1) * Q - P)) \/
  (Q < 0 /\ ~ under_root D (a * Q - P) /\ under_root D ((a + 1) * Q - P)).
(** the continued fraction of (P 0 + sqrt(D)) / Q 0: a i is the integer part of the i-th complete quotient (P i + sqrt(D)) / Q i,
    whose fractional part's inverse is the next one, that is (P i + sqrt(D)) / Q i - a i = 1 / ((P (i + 1) + sqrt(D)) / Q (i + 1)) *)
Definition expansion (D : Z) (P Q a : nat -> Z) : Prop :=
  forall i, Q i <> 0 /\ integer_part D (P i) (Q i) (a i) /\ P (S i) = a i * Q i - P i /\ Q i * Q (S i) = D - P (S i) * P (S i).
(** x i, x (i - 1) and x (i - 2) are consecutive convergents' terms, starting from x2 and x1 *)
Definition recurrence (a : nat -> Z) (x2 x1 : Z) (x : nat -> Z) : Prop :=
  x 0%nat = a 0%nat * x1 + x2 /\ x 1%nat = a 1%nat * x 0%nat + x1 /\ forall i, x (S (S i)) = a (S (S i)) * x (S i) + x i.
