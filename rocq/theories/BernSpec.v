(** Bernoulli numbers and sums of powers. *)
From Verif Require Import Lib RingSpec HolderSpec.

Section BernSpec.
  Context {R : Type} (zero one : R) (add mul : R -> R -> R).
  (** b 0, ..., b n are the Bernoulli numbers with b 1 = +1/2: Sum[C(m+1,k) b_k, {k,0,m}] = m+1 for every m <= n *)
  Definition bernoulli_upto (n : nat) (b : nat -> R) : Prop :=
    forall m, (m <= n)%nat -> rsum zero add (S m) (fun k => mul (rnat zero one add (choose (S m) k)) (b k)) = rnat zero one add (S m).
  (** 1^p + ... + n^p *)
  Definition power_sum (p n : nat) : R := rsum zero add n (fun i => rpow one mul (rnat zero one add (S i)) p).
  (** the value of a polynomial given by its coefficients *)
  Definition poly_value (p : list R) (x : R) : R := rsum zero add (length p) (fun i => mul (nth i p zero) (rpow one mul x i)).
  (** [x] has an inverse *)
  Definition unit (x : R) : Prop := exists u, mul u x = one.
  (** division by an integer succeeds, and undoes the multiplication, whenever the integer has an inverse *)
  Definition divides_by_units (idiv : R -> nat -> option R) : Prop :=
    forall a k, unit (rnat zero one add k) -> exists c, idiv a k = Some c /\ mul c (rnat zero one add k) = a.
End BernSpec.
