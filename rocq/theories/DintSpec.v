(** The numbers that nested double words stand for. *)
From Coq Require Import ZArith.
From Verif Require Import DintModel.
Open Scope Z_scope.

Section Spec.
  Variable w : Z.
  (** two to the number of bits *)
  Fixpoint modulus (d : nat) : Z := match d with O => 2 ^ w | S d => modulus d * modulus d end.
  (** every word is in range *)
  Fixpoint valid (d : nat) : dint d -> Prop :=
    match d with O => fun v => 0 <= v < 2 ^ w | S d => fun x => valid d (fst x) /\ valid d (snd x) end.
  (** the unsigned number *)
  Fixpoint uval (d : nat) : dint d -> Z :=
    match d with O => fun v => v | S d => fun x => uval d (fst x) * modulus d + uval d (snd x) end.
  (** the number in two's complement *)
  Definition sval (d : nat) (x : dint d) : Z := if modulus d <=? 2 * uval d x then uval d x - modulus d else uval d x.
End Spec.
