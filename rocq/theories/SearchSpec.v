(** Specification vocabulary for searching and the collection helpers. *)
From Coq Require Import List ZArith Bool.
Import ListNotations.
Local Open Scope nat_scope.

(** the pattern p occurs in t at position i *)
Definition occurs_at {A} (t p : list A) (i : nat) : Prop := exists pre post, t = pre ++ p ++ post /\ length pre = i.

(** what a callback is told when the positions of [occs] are offered in order until it refuses *)
Fixpoint offered (cb : list nat -> nat -> bool) (seen occs : list nat) : list nat :=
  match occs with
  | [] => seen
  | o :: occs => if cb seen o then offered cb (seen ++ [o]) occs else seen ++ [o]
  end.

(** decoding of a run-length encoding *)
Fixpoint decode {A} (r : list (A * Z)) : list A :=
  match r with [] => [] | (x, k) :: r => repeat x (Z.to_nat k) ++ decode r end.
(** neighbouring runs have different values *)
Fixpoint maximal_runs {A} (r : list (A * Z)) : Prop :=
  match r with (x, _) :: (((y, _) :: _) as r') => x <> y /\ maximal_runs r' | _ => True end.

(** three-way lexicographic order given by a strict order *)
Inductive lex {A} (lt : A -> A -> Prop) : list A -> list A -> Prop :=
| lex_nil y l : lex lt [] (y :: l)
| lex_head x y l l' : lt x y -> lex lt (x :: l) (y :: l')
| lex_tail x l l' : lex lt l l' -> lex lt (x :: l) (x :: l').
