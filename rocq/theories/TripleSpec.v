(** Vocabulary for triples of integers. *)
From Verif Require Import Lib.
Open Scope Z_scope.

(** the integer square root, and nothing positive for negative arguments *)
Definition square_root (root : Z -> Z) : Prop :=
  (forall x, 0 <= x -> 0 <= root x /\ root x * root x <= x < (root x + 1) * (root x + 1)) /\ (forall x, x < 0 -> root x <= 0).
(** no common factor *)
Definition primitive (t : Z * Z * Z) : Prop := let '(a, b, c) := t in forall d, (d | a) -> (d | b) -> (d | c) -> (d | 1).
(** exactly the triples with the property, each once *)
Definition lists_exactly (P : Z * Z * Z -> Prop) (l : list (Z * Z * Z)) : Prop := NoDup l /\ forall t, In t l <-> P t.
(** triangles with an angle of 90, 60 and 120 degrees *)
Definition right_triangle (t : Z * Z * Z) : Prop := let '(a, b, c) := t in 0 < a < b /\ b < c /\ a * a + b * b = c * c.
Definition triangle60 (t : Z * Z * Z) : Prop := let '(a, b, c) := t in 0 < a <= b /\ b <= c /\ a * a - a * c + c * c = b * b.
Definition triangle120 (t : Z * Z * Z) : Prop := let '(a, b, c) := t in 0 < a < b /\ b < c /\ a * a + a * b + b * b = c * c.
(** sides up to a limit, and without a common factor when only primitive triples are wanted *)
Definition wanted (Q : Z * Z * Z -> Prop) (c_max : Z) (only_primitive : bool) (t : Z * Z * Z) : Prop :=
  Q t /\ snd t <= c_max /\ (only_primitive = true -> primitive t).
(** one more than a sum of two squares *)
Definition almost_right (c_max : Z) (t : Z * Z * Z) : Prop := let '(a, b, c) := t in 0 < a /\ 0 < b /\ 0 < c <= c_max /\ a * a + b * b = c * c + 1.
(** primitive solutions of a^2 + b^2 + k = c^2; for k = 0 and k = 1 those with a = 0 are left out *)
Definition shifted_right (k : Z) (t : Z * Z * Z) : Prop :=
  let '(a, b, c) := t in 0 <= a <= b /\ 0 < c /\ a * a + b * b + k = c * c /\ primitive t /\ (k <= 1 -> 0 < a).
