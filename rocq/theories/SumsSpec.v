(** Plain finite sums. *)
From Coq Require Import ZArith.
Local Open Scope Z_scope.

Section SumsSpec.
  Context {T : Type} (zero : T) (add : T -> T -> T).
  (** f 1 + ... + f n *)
  Fixpoint sum1 (n : nat) (f : Z -> T) : T :=
    match n with O => zero | S k => add (sum1 k f) (f (Z.of_nat n)) end.
  (** f 0 + ... + f (n-1) *)
  Fixpoint sum0 (n : nat) (f : Z -> T) : T :=
    match n with O => zero | S k => add (sum0 k f) (f (Z.of_nat k)) end.
End SumsSpec.
