(** Matrices as vectors of rows: shape and entries. *)
From Verif Require Import Lib RingSpec.

Section MatrixSpec.
  Context {T : Type}.
  (** n rows of m elements each *)
  Definition shape (n m : nat) (a : list (list T)) : Prop := length a = n /\ forall r, In r a -> length r = m.
  Definition ent (zero : T) (a : list (list T)) (i j : nat) : T := nth j (nth i a []) zero.
  (** the n-fold product x * ... * x *)
  Fixpoint iter_mul (mul : list (list T) -> list (list T) -> option (list (list T))) (e x : list (list T)) (n : nat) : option (list (list T)) :=
    match n with O => Some e | S n' => let* y := iter_mul mul e x n' in mul y x end.
End MatrixSpec.
