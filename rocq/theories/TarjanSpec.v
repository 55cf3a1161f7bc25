(** Strong components. *)
From Coq Require Import Permutation.
From Verif Require Import Lib GraphSpec WalkSpec.
Open Scope nat_scope.

Section Spec.
  Context {W : Type}.
  Notation graph := (list (list (nat * W))).
  (** y can be reached from x along any number of edges *)
  Definition reach (g : graph) (x y : nat) : Prop := x = y \/ walk g x y.
  (** the classes of mutual reachability, every class once, each before the classes it has edges to *)
  Definition strong_components (g : graph) (r : list (list nat)) : Prop :=
    Permutation (concat r) (seq 0 (length g)) /\
    (forall c, In c r -> c <> [] /\ forall x, In x c -> forall y, In y c <-> reach g x y /\ reach g y x) /\
    (forall i j c d x y, nth_error r i = Some c -> nth_error r j = Some d -> In x c -> In y d -> arc g x y -> i <= j).
End Spec.
