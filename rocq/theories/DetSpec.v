(** The determinant, by expansion along the first row, over any type with ring operations. *)
From Coq Require Import Arith.
From Verif Require Import RingSpec.

(** the x-th natural number different from i *)
Definition skip (i x : nat) : nat := if x <? i then x else S x.

Section DetSpec.
  Context {R : Type} (zero one : R) (add mul : R -> R -> R) (opp : R -> R).
  (** the matrix without row i and column j *)
  Definition minor (i j : nat) (f : nat -> nat -> R) : nat -> nat -> R := fun x y => f (skip i x) (skip j y).
  (** (-1)^j x *)
  Definition alt (j : nat) (x : R) : R := if Nat.even j then x else opp x.
  (** det f = sum over j of (-1)^j f_{0j} det (f without row 0 and column j), for an n x n matrix f *)
  Fixpoint fdet (n : nat) (f : nat -> nat -> R) : R :=
    match n with O => one | S n' => rsum zero add n (fun j => alt j (mul (f O j) (fdet n' (minor O j f)))) end.
  (** the columns of the n x n matrix f are linearly independent *)
  Definition columns_independent (n : nat) (f : nat -> nat -> R) : Prop :=
    forall v, (forall i, i < n -> rsum zero add n (fun k => mul (f i k) (v k)) = zero) -> forall k, k < n -> v k = zero.
  (** f and g are n x n matrices with f g = 1 *)
  Definition product_one (n : nat) (f g : nat -> nat -> R) : Prop :=
    forall i j, i < n -> j < n -> rsum zero add n (fun k => mul (f i k) (g k j)) = if i =? j then one else zero.
End DetSpec.
