(** The lexicographic order, and parallel vectors. *)
From Coq Require Import ZArith List.
From Verif Require Import VecModel.
Import ListNotations.
Open Scope Z_scope.

(** at the first index where they differ, a is less *)
Definition lex_lt (a b : list Z) : Prop :=
  exists k x y, firstn k a = firstn k b /\ nth_error a k = Some x /\ nth_error b k = Some y /\ x < y.
(** some multiple of the one, not both times zero, is a multiple of the other *)
Definition parallel (a b : list Z) : Prop := exists s t, (s <> 0 \/ t <> 0) /\ map (Z.mul s) a = map (Z.mul t) b.

(** what an operation gives; / and % truncate *)
Definition value (o : op) (x y : Z) : Z :=
  match o with Add => x + y | Sub => x - y | Mul => x * y | Div => Z.quot x y | Mod => Z.rem x y end.
