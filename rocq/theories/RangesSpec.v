(** Falling factorials of integers. *)
From Coq Require Import ZArith.
Local Open Scope Z_scope.
(** x (x-1) .. (x-n+1) *)
Fixpoint zff (x : Z) (n : nat) : Z := match n with O => 1 | S n => zff x n * (x - Z.of_nat n) end.
