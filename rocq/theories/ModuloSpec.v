(** Vocabulary for the statements about modular arithmetic. *)
From Coq Require Import ZArith List.
Import ListNotations.
Local Open Scope Z_scope.

(** x solves every congruence (a, n) of the list *)
Definition solves (x : Z) (cs : list (Z * Z)) : Prop := forall a n, In (a, n) cs -> x mod n = a mod n.

(** the mixed radix number with digits xs in the radices ps: x0 + p0 (x1 + p1 (x2 + ...)) *)
Fixpoint mixed_radix (ps xs : list Z) : Z :=
  match ps, xs with p :: ps, x :: xs => x + p * mixed_radix ps xs | _, _ => 0 end.

(** the integer widths of C++ *)
Definition int_width (W : Z) : Prop := W = 8 \/ W = 16 \/ W = 32 \/ W = 64.
