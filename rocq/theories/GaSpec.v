(** Specification of geometric (Clifford) algebras with an orthogonal basis e_0, ..., e_(n-1)
    over a commutative ring T: e_i e_i = q_i and e_i e_j = - e_j e_i for i <> j.
    A basis blade is a set of generators, written as the number whose bit i says whether e_i
    belongs to it; it stands for the product of its generators in increasing order.
    An element of the algebra is the function giving the coefficient of each basis blade. *)
From Coq Require Import ZArith List PeanoNat.
From Verif Require Import RingSpec.
Import ListNotations.

(** ** Basis blades and signs *)
(** the number of generators in a blade *)
Definition grade (n A : nat) : nat := length (filter (Nat.testbit A) (seq 0 n)).
(** how many neighbours must be exchanged to sort the generators of A followed by those of B *)
Definition exchanges (n A B : nat) : nat :=
  length (filter (fun ij => Nat.testbit A (fst ij) && Nat.testbit B (snd ij) && (snd ij <? fst ij))%bool
            (list_prod (seq 0 n) (seq 0 n))).
Definition parity_sign (k : nat) : Z := if Nat.even k then 1%Z else (-1)%Z.
(** the square of the generators that A and B have in common *)
Definition common (q : nat -> Z) (n A B : nat) : Z :=
  fold_right Z.mul 1%Z (map q (filter (fun i => Nat.testbit A i && Nat.testbit B i)%bool (seq 0 n))).
(** A B = blade_sign A B * (A xor B) *)
Definition blade_sign (q : nat -> Z) (n A B : nat) : Z := (parity_sign (exchanges n A B) * common q n A B)%Z.

(** a product of generators in the order in which they are written: its sign and its blade *)
Definition word (q : nat -> Z) (n : nat) (w : list nat) : Z * nat :=
  fold_left (fun sA i => (fst sA * blade_sign q n (snd sA) (2 ^ i), Nat.lxor (snd sA) (2 ^ i))%Z) w (1%Z, 0).

Section Algebra.
  Context {T : Type} (zero one : T) (add mul sub : T -> T -> T) (opp : T -> T).
  Variable q : nat -> Z.
  Variable n : nat.
  Notation ga := (nat -> T).

  (** s x for a sign s *)
  Definition signed (s : Z) (x : T) : T :=
    match s with Z0 => zero | Zpos _ => x | Zneg _ => opp x end.

  (** equality of all coefficients *)
  Definition ga_eq (f g : ga) : Prop := forall m, m < 2 ^ n -> f m = g m.

  Definition ga_zero : ga := fun _ => zero.
  Definition ga_scalar (t : T) : ga := fun m => match m with O => t | _ => zero end.
  Definition ga_add (f g : ga) : ga := fun m => add (f m) (g m).
  Definition ga_sub (f g : ga) : ga := fun m => sub (f m) (g m).
  Definition ga_opp (f : ga) : ga := fun m => opp (f m).
  Definition ga_scale (f : ga) (t : T) : ga := fun m => mul (f m) t.

  (** bilinear products of basis blades: A B = s(A,B) (A xor B) *)
  Definition ga_product (s : nat -> nat -> Z) (f g : ga) : ga := fun m =>
    rsum zero add (2 ^ n) (fun A => signed (s A (Nat.lxor A m)) (mul (f A) (g (Nat.lxor A m)))).

  (** the geometric product *)
  Definition geometric : ga -> ga -> ga := ga_product (blade_sign q n).
  (** the outer product: the product of blades of grades r and s, restricted to grade r + s *)
  Definition outer : ga -> ga -> ga := ga_product (fun A B =>
    if grade n (Nat.lxor A B) =? grade n A + grade n B then blade_sign q n A B else 0%Z).
  (** the inner product: the product of blades of grades r and s, restricted to grade |r - s| *)
  Definition inner : ga -> ga -> ga := ga_product (fun A B =>
    if grade n (Nat.lxor A B) =? (grade n A - grade n B) + (grade n B - grade n A)
    then blade_sign q n A B else 0%Z).
  (** reversion: the factors of every blade in the opposite order *)
  Definition ga_rev (f : ga) : ga := fun m => signed (parity_sign (grade n m * (grade n m - 1) / 2)) (f m).
  (** the grade involution: the sign of every generator changed *)
  Definition ga_inv (f : ga) : ga := fun m => signed (parity_sign (grade n m)) (f m).

  (** the generator e_i *)
  Definition gen (i : nat) : ga := fun m => if m =? 2 ^ i then one else zero.

  (** c_1 w_1 + c_2 w_2 + ... for words w_i *)
  Definition lin (l : list (T * list nat)) : ga := fun m =>
    fold_right (fun cw acc => add (if snd (word q n (snd cw)) =? m
                                   then signed (fst (word q n (snd cw))) (fst cw) else zero) acc) zero l.
  (** the coefficient of the word w, for a word without repeated generators *)
  Definition coord (f : ga) (w : list nat) : T := signed (fst (word q n w)) (f (snd (word q n w))).
  (** the linear map that takes every word to the word beside it *)
  Definition relabel (table : list (list nat * list nat)) (f : ga) : ga :=
    lin (map (fun ww => (coord f (fst ww), snd ww)) table).
End Algebra.
