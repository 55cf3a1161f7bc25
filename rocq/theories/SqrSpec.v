(** Sums of two squares. *)
From Verif Require Import Lib PrimesSpec.
Open Scope Z_scope.
(** the representations of n counted up to sign and order, those with the larger part at most B (none for B = 0) *)
Definition unique_rep (n B a b : Z) : Prop := 0 <= a <= b /\ a * a + b * b = n /\ (B = 0 \/ b <= B).
(** all representations *)
Definition signed_rep (n B a b : Z) : Prop := a * a + b * b = n /\ (B = 0 \/ (Z.abs a <= B /\ Z.abs b <= B)).
(** increasing in the order of pairs *)
Definition lex_lt (x y : Z * Z) : Prop := fst x < fst y \/ (fst x = fst y /\ snd x < snd y).
Fixpoint increasing (l : list (Z * Z)) : Prop :=
  match l with [] => True | x :: r => (forall y, In y r -> lex_lt x y) /\ increasing r end.
(** a representation of a prime *)
Definition prime_rep (p c d : Z) : Prop := 0 <= c /\ 0 <= d /\ c * c + d * d = p.
(** there are exactly k pairs with the property P *)
Definition counted (P : Z -> Z -> Prop) (k : Z) : Prop :=
  exists l, NoDup l /\ (forall a b, In (a, b) l <-> P a b) /\ Z.of_nat (length l) = k.
