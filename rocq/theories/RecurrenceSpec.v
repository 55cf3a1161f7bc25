(** Linear recurrences, stated on sequences. *)
From Verif Require Import Lib RingSpec.

Section RecSpec.
  Context {T A : Type} (zeroA : A) (addA mulA : A -> A -> A) (cast : T -> A) (zero : T).
  (** f[n+L] = Sum[c[i] * f[n+L-1-i], {i, 0, L-1}] for every n *)
  Definition recurrent (c : list T) (f : nat -> A) : Prop :=
    forall n, f (n + length c) = rsum zeroA addA (length c) (fun i => mulA (cast (nth i c zero)) (f (n + length c - 1 - i))).
End RecSpec.
Section Seq2.
  Context {T : Type} (add mul : T -> T -> T).
  (** s(0) = a, s(1) = b, s(n+2) = p * s(n+1) + q * s(n); the pair (s(n), s(n+1)) *)
  Fixpoint seq2p (a b p q : T) (n : nat) : T * T :=
    match n with O => (a, b) | S n' => let '(x, y) := seq2p a b p q n' in (y, add (mul p y) (mul q x)) end.
  Definition seq2 (a b p q : T) (n : nat) : T := fst (seq2p a b p q n).
End Seq2.
