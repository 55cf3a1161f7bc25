(** Lexicographical order, common prefixes and suffix arrays. *)
From Coq Require Import ZArith List Permutation.
Import ListNotations.

Fixpoint lex_lt (a b : list Z) : Prop :=
  match a, b with
  | [], [] => False
  | [], _ :: _ => True
  | _ :: _, [] => False
  | x :: a, y :: b => (x < y)%Z \/ (x = y /\ lex_lt a b)
  end.
(** -1, 1 or 0 *)
Definition orders (r : Z) (a b : list Z) : Prop := (r = (-1)%Z /\ lex_lt a b) \/ (r = 1%Z /\ lex_lt b a) \/ (r = 0%Z /\ a = b).
(** the length of the longest common prefix *)
Definition is_lcp (l : nat) (a b : list Z) : Prop :=
  l <= length a /\ l <= length b /\ firstn l a = firstn l b /\ forall m, m <= length a -> m <= length b -> firstn m a = firstn m b -> m <= l.
(** all suffixes, the empty one included, in increasing order *)
Definition suffix_sorted (s : list Z) (sa : list nat) : Prop :=
  Permutation sa (seq 0 (S (length s))) /\
  forall x y i j, x < y -> nth_error sa x = Some i -> nth_error sa y = Some j -> lex_lt (skipn i s) (skipn j s).
(** the letters from position b to e - 1 *)
Definition substring (s : list Z) (b e : nat) : list Z := firstn (e - b) (skipn b s).
