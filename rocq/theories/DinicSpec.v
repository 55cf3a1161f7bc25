(** Specification of flows and matchings. *)
From Coq Require Import List PeanoNat ZArith.
From Verif Require Import DinicModel.
Import ListNotations.
Open Scope Z_scope.

Definition sum (f : nat -> Z) (l : list nat) : Z := fold_right Z.add 0 (map f l).
(** what leaves u minus what enters u *)
Definition net (n : nat) (g : matrix) (u : nat) : Z := sum (g u) (seq 0 n) - sum (fun v => g v u) (seq 0 n).
Record is_flow (n : nat) (cap : matrix) (s t : nat) (g : matrix) : Prop := {
  flow_bounds : forall u v, (u < n)%nat -> (v < n)%nat -> 0 <= g u v <= cap u v;
  flow_kept : forall u, (u < n)%nat -> u <> s -> u <> t -> net n g u = 0 }.

(** a set of edges no two of which meet at an end *)
Definition is_matching (edges m : list (nat * nat)) : Prop :=
  incl m edges /\ NoDup (map fst m) /\ NoDup (map snd m).
