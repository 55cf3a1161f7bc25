(** Specification vocabulary: exponents of primes, factorials, partitions in lexicographic order, the list of all permutations. *)
From Coq Require Import ZArith List Permutation Sorted.
Import ListNotations.
Local Open Scope Z_scope.

(** n! *)
Definition zfact (n : Z) : Z := Z.of_nat (fact (Z.to_nat n)).
(** e is the exponent of p in x *)
Definition exponent_of (p x e : Z) : Prop := 0 <= e /\ (p ^ e | x) /\ ~ (p ^ (e + 1) | x).
Fixpoint zsuml (l : list Z) : Z := match l with [] => 0 | x :: l => x + zsuml l end.
Fixpoint zprodl (l : list Z) : Z := match l with [] => 1 | x :: l => x * zprodl l end.
(** value of a little-endian digit list *)
Fixpoint digits_value (b : Z) (ds : list Z) : Z := match ds with [] => 0 | d :: ds => d + b * digits_value b ds end.

(** strict lexicographic order on lists of the same length *)
Fixpoint lex_lt (x y : list Z) : Prop :=
  match x, y with
  | a :: x, b :: y => a < b \/ (a = b /\ lex_lt x y)
  | _, _ => False
  end.
(** partitions of s into at most d parts: nonincreasing, padded with zeros *)
Definition is_partition (d : nat) (s : Z) (v : list Z) : Prop :=
  length v = d /\ zsuml v = s /\ Forall (fun x => 0 <= x) v /\ StronglySorted Z.ge v.

(** all permutations, in the lexicographic order of the positions *)
Section Perms.
  Context {A : Type}.
  (** every way to take one element out, in order *)
  Fixpoint picks (l : list A) : list (A * list A) :=
    match l with [] => [] | x :: l => (x, l) :: map (fun '(y, r) => (y, x :: r)) (picks l) end.
  Fixpoint perms_n (n : nat) (l : list A) : list (list A) :=
    match n with
    | O => [[]]
    | S n => flat_map (fun '(x, r) => map (cons x) (perms_n n r)) (picks l)
    end.
  Definition perms (l : list A) : list (list A) := perms_n (length l) l.
End Perms.

(** a word B read as a bound, with 0 standing for 2^L *)
Definition or_full (L B : Z) : Z := if B =? 0 then 2 ^ L else B.
(** k-th number drawn from a generator and the state after it *)
Fixpoint draw {S} (next : S -> Z * S) (st : S) (k : nat) : Z * S :=
  match k with O => next st | Datatypes.S k => draw next (snd (next st)) k end.
