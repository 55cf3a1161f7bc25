(** Sums over divisors, powers weighted by powers. *)
From Verif Require Import Lib RingSpec PrimesSpec.
Section SeqsSpec.
  Context {R : Type} (zero one : R) (add mul : R -> R -> R).
  (** the sum of h(d) over the divisors d of m *)
  Definition div_sum (h : nat -> R) (m : nat) : R := fold_right (fun d s => add (h d) s) zero (divisors_of m).
  (** Sum[k^m x^k, {k,1,n}] *)
  Definition powx_sum (m : nat) (x : R) (n : nat) : R :=
    rsum zero add n (fun i => mul (rpow one mul (rnat zero one add (S i)) m) (rpow one mul x (S i))).
  (** division by k undoes the multiplication by k *)
  Definition exact_div (idiv : R -> nat -> R) (k : nat) : Prop := forall c, idiv (mul c (rnat zero one add k)) k = c.
End SeqsSpec.
