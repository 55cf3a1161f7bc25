(** Vocabulary for divisor, universal exponent and digit properties. *)
From Verif Require Import Lib.
Open Scope Z_scope.

(** a^M is 1 modulo n for every a coprime to n *)
Definition universal_exponent (n M : nat) : Prop := forall a, Nat.gcd a n = 1%nat -> (a ^ M mod n = 1 mod n)%nat.
(** the number whose base-b digits are given, least significant first *)
Definition value (b : Z) (vd : list Z) : Z := fold_right (fun x a => x + b * a) 0 vd.
(** ASCII code of a digit: 0-9, then a-z *)
Definition digit_char (x : Z) : Z := if x <? 10 then 48 + x else 97 + (x - 10).
