(** Satisfaction of clauses of two literals. *)
From Verif Require Import Lib.
Open Scope nat_scope.

(** 2 i + 1 stands for variable i, 2 i for its negation; a negative literal is false *)
Definition lit_holds (a : nat -> bool) (l : Z) : Prop := (0 <= l)%Z /\ a (Z.to_nat (l / 2)) = Z.odd l.
Definition clause_holds (a : nat -> bool) (c : Z * Z) : Prop := lit_holds a (fst c) \/ lit_holds a (snd c).
Definition all_hold (a : nat -> bool) (cl : list (Z * Z)) : Prop := forall c, In c cl -> clause_holds a c.
(** the assignment agrees with the entries 0 (false) and 1 (true) of sol *)
Definition respects (sol : list Z) (a : nat -> bool) : Prop :=
  forall i, (nth_error sol i = Some 0%Z -> a i = false) /\ (nth_error sol i = Some 1%Z -> a i = true).
Definition valid_clauses (cl : list (Z * Z)) : Prop := forall c, In c cl -> (-1 <= fst c)%Z /\ (-1 <= snd c)%Z.
Definition valid_sol (sol : list Z) : Prop := forall x, In x sol -> (-1 <= x <= 1)%Z.
