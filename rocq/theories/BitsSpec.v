(** Specification vocabulary for bits.h: only [Z.testbit], powers of two and counting. *)
From Verif Require Import Lib.
Local Open Scope Z_scope.

(** an unsigned word of width W *)
Definition word (W x : Z) : Prop := 0 <= x < 2 ^ W.

(** number of one bits among bits 0 .. n-1 *)
Fixpoint ones (n : nat) (x : Z) : Z :=
  match n with
  | O => 0
  | S n' => ones n' x + (if Z.testbit x (Z.of_nat n') then 1 else 0)
  end.
Definition popcount (W x : Z) : Z := ones (Z.to_nat W) x.

(** i is the position of the highest / lowest one bit of x *)
Definition highest (x i : Z) : Prop := 0 <= i /\ Z.testbit x i = true /\ forall j, i < j -> Z.testbit x j = false.
Definition lowest (x i : Z) : Prop := 0 <= i /\ Z.testbit x i = true /\ forall j, 0 <= j < i -> Z.testbit x j = false.
