(** Discrete Fourier transforms and convolutions, written as sums. *)
From Verif Require Import Lib RingSpec.

Section FftSpec.
  Context {T R : Type} (zero one : T) (add mul : T -> T -> T) (opp : T -> T).
  (** sum of a_j w^(j k), j < n *)
  Definition dft (n : nat) (w : T) (a : nat -> T) (k : nat) : T := rsum zero add n (fun j => mul (a j) (rpow one mul w (j * k))).
  (** w^(n/2) = -1: for n a power of two this makes w a principal n-th root of unity (nothing is asked when n = 1) *)
  Definition half_root (n : nat) (w : T) : Prop := (2 <= n)%nat -> rpow one mul w (n / 2) = opp one.
  (** (k - i) mod n *)
  Definition cyc (n k i : nat) : nat := Z.to_nat ((Z.of_nat k - Z.of_nat i) mod Z.of_nat n).
  (** sum of a_i b_((k - i) mod n) over i < m *)
  Definition cyclic_sum (m n : nat) (a b : nat -> T) (k : nat) : T := rsum zero add m (fun i => mul (a i) (b (cyc n k i))).
  (** sum of a_i b_(k - i) over i <= k *)
  Definition conv_sum (a b : nat -> T) (k : nat) : T := rsum zero add (S k) (fun i => mul (a i) (b (k - i)%nat)).
  (** the elements of a sequence, continued by zeros *)
  Definition elem (l : list T) (i : nat) : T := nth i l zero.
  (** the values of R satisfying [ok] are closed under the multiplication and are sent by [inj] to T multiplicatively *)
  Definition root_type (ok : R -> Prop) (rmul : R -> R -> R) (rone : R) (inj : R -> T) : Prop :=
    ok rone /\ inj rone = one /\ (forall a b, ok a -> ok b -> ok (rmul a b) /\ inj (rmul a b) = mul (inj a) (inj b)).
  (** the value of T standing for T(1) / T(n) *)
  Definition inverse_of (n : nat) (c : T) : Prop := mul c (rnat zero one add n) = one.
  (** division by the powers of two up to 2^K works *)
  Definition halves (tdiv : T -> T -> option T) (tnat : nat -> T) (K : nat) : Prop := forall L, (L <= K)%nat -> exists c, tdiv one (tnat (2 ^ L)%nat) = Some c /\ inverse_of (2 ^ L)%nat c.
End FftSpec.
