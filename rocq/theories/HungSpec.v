(** Specification of the assignment problem. *)
From Coq Require Import List PeanoNat ZArith Permutation.
Import ListNotations.

(** a job for every worker: the x-th entry is the job of worker x *)
Definition assignment (n : nat) (m : list nat) : Prop := Permutation m (seq 0 n).
Definition value (c : nat -> nat -> Z) (m : list nat) : Z :=
  fold_right Z.add 0%Z (map (fun x => c x (nth x m 0)) (seq 0 (length m))).
Definition inverse (m m' : list nat) : Prop :=
  length m = length m' /\ forall x, x < length m -> nth (nth x m 0) m' 0 = x /\ nth (nth x m' 0) m 0 = x.
