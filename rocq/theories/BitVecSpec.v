(** Specification vocabulary for bit vectors: the sequence of bits that a size and a list of words stand for. *)
From Verif Require Import Lib BitsSpec.
Open Scope nat_scope.

(** bit p of words of 2^k bits, least significant bit of the first word first; false beyond the last word *)
Definition bit_of (k : nat) (ws : list Z) (p : nat) : bool := Z.testbit (nth (p / 2 ^ k) ws 0%Z) (Z.of_nat (p mod 2 ^ k)).
(** the vector (sz, words) stands for the sequence l: enough words for the size and one more, all of them in range, the bits of l in
    order and zero from the size on *)
Definition represents (k : nat) (v : nat * list Z) (l : list bool) : Prop :=
  fst v = length l /\ length (snd v) = (length l + 2 ^ k - 1) / 2 ^ k + 1 /\ Forall (fun w => word (2 ^ Z.of_nat k) w) (snd v) /\
  (forall p, bit_of k (snd v) p = nth p l false).
(** l with positions [b, e) replaced by m *)
Definition slice {A} (b e : nat) (l : list A) : list A := firstn (e - b) (skipn b l).
Definition replace_range {A} (b e : nat) (m l : list A) : list A := firstn b l ++ m ++ skipn e l.
(** l cut or filled with false to n entries *)
Definition fit (n : nat) (l : list bool) : list bool := firstn n l ++ repeat false (n - length l).
(** pointwise operation on sequences of equal length *)
Fixpoint zip (f : bool -> bool -> bool) (a b : list bool) : list bool :=
  match a, b with x :: a, y :: b => f x y :: zip f a b | _, _ => [] end.
(** number of positions that differ *)
Definition differences (a b : list bool) : nat := length (filter (fun x => x) (zip xorb a b)).
(** lexicographic comparison, false before true, a proper prefix before the longer sequence *)
Fixpoint lex (a b : list bool) : Z :=
  match a, b with
  | [], [] => 0 | [], _ => -1 | _, [] => 1
  | x :: a, y :: b => if Bool.eqb x y then lex a b else if y then -1 else 1
  end%Z.
