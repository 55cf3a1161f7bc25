(** Words, iteration, and the Mersenne Twister sequence (Matsumoto and Nishimura, 1998). *)
From Verif Require Import Lib.
Open Scope Z_scope.

Definition word (w x : Z) : Prop := 0 <= x < 2 ^ w.
Fixpoint times {A} (n : nat) (f : A -> A) (x : A) : A := match n with O => x | S n => times n f (f x) end.

(** the linear recurrence with word size 32, r = 31: the upper bit of x_k and the lower 31 bits of x_(k+1), times the matrix A, are added to x_(k+m) *)
Definition mt_step (xm x0 x1 : Z) : Z :=
  let y := x0 / 2 ^ 31 * 2 ^ 31 + x1 mod 2 ^ 31 in
  Z.lxor (Z.lxor xm (y / 2)) (if Z.odd y then 0x9908b0df else 0).
Definition mt_sequence (n m : nat) (x : nat -> Z) : Prop := forall k, x (k + n)%nat = mt_step (x (k + m)%nat) (x k) (x (k + 1)%nat).
(** the tempering of the output *)
Definition mt_output (y : Z) : Z :=
  let y := Z.lxor y (y / 2 ^ 11) in
  let y := Z.lxor y (Z.land (y * 2 ^ 7 mod 2 ^ 32) 0x9d2c5680) in
  let y := Z.lxor y (Z.land (y * 2 ^ 15 mod 2 ^ 32) 0xefc60000) in
  Z.lxor y (y / 2 ^ 18).
(** seeding by one number *)
Definition mt_seeded (n : nat) (seed : Z) (x : nat -> Z) : Prop :=
  x O = seed mod 2 ^ 32 /\ forall i, (1 <= i < n)%nat -> x i = (1812433253 * Z.lxor (x (i - 1)%nat) (x (i - 1)%nat / 2 ^ 30) + Z.of_nat i) mod 2 ^ 32.
(** seeding by an array of numbers: the n - 1 words after the first are updated cyclically; v t is the word written by round t, z the words before *)
Definition mt_array_seeded (n : nat) (key : list Z) (x : nat -> Z) : Prop :=
  exists (z v : nat -> Z) (rounds : nat), rounds = Nat.max n (length key) /\ mt_seeded n 19650218 z /\ v O = z O /\
    (forall t, (t < rounds + (n - 1))%nat ->
      let old := if (t <? n - 1)%nat then z (t + 1)%nat else v (t + 2 - n)%nat in
      let mix c := Z.lxor (v t) (v t / 2 ^ 30) * c mod 2 ^ 32 in
      let j := (t mod length key)%nat in
      v (t + 1)%nat = if (t <? rounds)%nat then (Z.lxor old (mix 1664525) + nth j key 0 + Z.of_nat j) mod 2 ^ 32
        else (Z.lxor old (mix 1566083941) - Z.of_nat (1 + t mod (n - 1))) mod 2 ^ 32) /\
    x O = 2 ^ 31 /\ forall t, (rounds <= t < rounds + (n - 1))%nat -> x (1 + t mod (n - 1))%nat = v (t + 1)%nat.
(** the number of binary digits of n *)
Definition bits (n : Z) : Z := if n =? 0 then 0 else Z.log2 n + 1.
(** the state of the recurrence at k: the upper bit of x_k and the words after it *)
Definition zero_window (n : nat) (x : nat -> Z) (k : nat) : Prop := x k / 2 ^ 31 = 0 /\ forall i, (1 <= i < n)%nat -> x (k + i)%nat = 0.
(** a state of xorshift1024*: sixteen 64-bit words and a position *)
Definition valid (g : list Z * nat) : Prop := let '(s, p) := g in length s = 16%nat /\ Forall (word 64) s /\ (p < 16)%nat.
