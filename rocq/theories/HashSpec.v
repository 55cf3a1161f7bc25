(** Specification of polynomial hashes. *)
From Verif Require Import Lib.
Local Open Scope Z_scope.

(** s_0 + s_1 B + s_2 B^2 + ... *)
Fixpoint hval (B : Z) (s : list Z) : Z := match s with [] => 0 | x :: s => x + B * hval B s end.
(** admissible parameters: int32 moduli up to 2^30, BI the inverse of B *)
Definition params (M B BI : Z) : Prop := 2 <= M <= 2 ^ 30 /\ 0 <= B < 2 ^ 31 /\ 0 <= BI < 2 ^ 31 /\ (B * BI) mod M = 1.
(** w is a table of the first powers of b modulo m *)
Definition powers (m b : Z) (w : list Z) : Prop := forall i, (i < length w)%nat -> nth_error w i = Some (b ^ Z.of_nat i mod m).
Definition tables (M B BI : Z) (t : list Z * list Z) : Prop := powers M B (fst t) /\ powers M BI (snd t) /\ length (snd t) = length (fst t).
(** the characters are nonnegative int32 values *)
Definition chars (s : list Z) : Prop := forall x, In x s -> 0 <= x < 2 ^ 31.
(** the elements b .. e-1 of s *)
Definition slice (s : list Z) (b e : nat) : list Z := firstn (e - b) (skipn b s).
