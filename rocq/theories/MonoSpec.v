(** Monotonic functions on an interval and distances. *)
From Coq Require Import QArith Qabs.
Open Scope Q_scope.

Definition nondecreasing (p : Q -> Q) (b e : Q) : Prop := forall x x', b <= x -> x <= x' -> x' <= e -> p x <= p x'.
Definition nonincreasing (p : Q -> Q) (b e : Q) : Prop := forall x x', b <= x -> x <= x' -> x' <= e -> p x' <= p x.
Definition monotonic p b e : Prop := nondecreasing p b e \/ nonincreasing p b e.
Definition within (d x z : Q) : Prop := Qabs (x - z) <= d.
(** two to the n-th *)
Fixpoint two_pow (n : nat) : Q := match n with O => 1 | S n => 2 * two_pow n end.
