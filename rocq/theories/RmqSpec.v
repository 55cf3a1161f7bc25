(** Specification of range minimum queries. *)
From Coq Require Import List PeanoNat.
Import ListNotations.

Section RmqSpec.
  Context {A : Type}.
  (** a strict weak order, given as a test *)
  Definition strict_weak (comp : A -> A -> bool) : Prop :=
    (forall x, comp x x = false) /\
    (forall x y, comp x y = true -> comp y x = false) /\
    (forall x y z, comp x y = false -> comp y z = false -> comp x z = false).
  (** i is the first position of a least element of l[b], ..., l[e-1] *)
  Definition first_min (comp : A -> A -> bool) (l : list A) (b e i : nat) : Prop :=
    b <= i < e /\
    exists x, nth_error l i = Some x /\
      (forall k y, b <= k < e -> nth_error l k = Some y -> comp y x = false) /\
      (forall k y, b <= k < i -> nth_error l k = Some y -> comp x y = true).
End RmqSpec.
