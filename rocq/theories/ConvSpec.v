(** Sums over pairs or submasks of indices below n. *)
From Verif Require Import Lib RingSpec.
Open Scope nat_scope.

Section ConvSpec.
  Context {T : Type} (zero : T) (add mul : T -> T -> T).
  (** l has n elements, the k-th being F k *)
  Definition arr (n : nat) (l : list T) (F : nat -> T) : Prop := length l = n /\ forall k, k < n -> nth_error l k = Some (F k).
  (** Sum[f[i] * g[j], op(i, j) = k], 0 <= i, j < n *)
  Definition kconv (n : nat) (op : nat -> nat -> nat) (f g : nat -> T) (k : nat) : T :=
    rsum zero add n (fun i => rsum zero add n (fun j => if op i j =? k then mul (f i) (g j) else zero)).
  (** i is a bit-subset of k *)
  Definition submask (i k : nat) : bool := Nat.land i k =? i.
  (** Sum[f[i], i bit-subset of k] *)
  Definition subset_sum (n : nat) (f : nat -> T) (k : nat) : T := rsum zero add n (fun i => if submask i k then f i else zero).
  (** Sum[f[i] * g[k^i], i bit-subset of k] *)
  Definition subset_conv (n : nat) (f g : nat -> T) (k : nat) : T := rsum zero add n (fun i => if submask i k then mul (f i) (g (Nat.lxor k i)) else zero).
End ConvSpec.
