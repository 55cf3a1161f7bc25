(** Specification of a numbered set of words: the words in the order of their numbers 1, 2, ... *)
From Coq Require Import List PeanoNat Sorted.
From Verif Require Import TrieModel.
Import ListNotations.

Notation word := (list nat) (only parsing).
Definition word_eq : forall v w : word, {v = w} + {v <> w} := list_eq_dec Nat.eq_dec.

(** the number of w, 0 if it is not there *)
Fixpoint number (ws : list word) (w : word) : nat :=
  match ws with
  | [] => 0
  | v :: ws => if word_eq v w then 1 else match number ws w with 0 => 0 | n => S n end
  end.
(** the word with a number; the empty word has number 0 *)
Definition numbered (ws : list word) (id : nat) : word := nth id ([] :: ws) [].
(** a new word gets the next number; the empty word is never entered *)
Definition enter (ws : list word) (w : word) : list word :=
  if word_eq w [] then ws else if in_dec word_eq w ws then ws else ws ++ [w].
(** the last word takes the number of the removed one *)
Definition take_out (ws : list word) (id : nat) : list word :=
  match id with
  | O => ws
  | S i => removelast (firstn i ws ++ last ws [] :: skipn (S i) ws)
  end.
Definition prefix (p w : word) : Prop := exists v, w = p ++ v.
(** alphabetical order *)
Fixpoint alphabetic (v w : word) : Prop :=
  match v, w with
  | _, [] => False
  | [], _ :: _ => True
  | x :: v, y :: w => x < y \/ x = y /\ alphabetic v w
  end.

(** what each call does to the words *)
Definition after (ws : list word) (c : call) : list word :=
  match c with
  | Add w => enter ws w
  | Append id w => enter ws (numbered ws id ++ w)
  | Erase id => take_out ws id
  | EraseWord w => take_out ws (number ws w)
  | Clear => []
  | _ => ws
  end.
(** what each call returns *)
Definition returns (ws : list word) (c : call) (r : result) : Prop :=
  match c with
  | Add w => r = Number (number (enter ws w) w)
  | Append id w => let v := numbered ws id ++ w in r = Number (number (enter ws v) v)
  | Find w => r = Number (number ws w)
  | Get id => r = Word (numbered ws id)
  | ForEach id => exists l, r = Visits l /\ StronglySorted (fun a b => alphabetic (fst a) (fst b)) l /\
      forall w n, In (w, n) l <-> In w ws /\ prefix (numbered ws id) w /\ n = number ws w
  | Erase id => r = Number id
  | EraseWord w => r = Number (number ws w)
  | NumWords => r = Number (length ws)
  | NumLetters => exists ps, r = Number (length ps) /\ NoDup ps /\
      forall p, In p ps <-> p <> [] /\ exists w, In w ws /\ prefix p w
  | Clear => r = Done
  end.
(** arguments a caller may pass: letters of the alphabet and numbers in use (or 0) *)
Definition allowed (K : nat) (ws : list word) (c : call) : Prop :=
  match c with
  | Add w | Find w | EraseWord w => Forall (fun o => o < K) w
  | Append id w => id <= length ws /\ Forall (fun o => o < K) w
  | Get id | ForEach id | Erase id => id <= length ws
  | NumWords | NumLetters | Clear => True
  end.
Fixpoint words_after (ws : list word) (cs : list call) : list word :=
  match cs with [] => ws | c :: cs => words_after (after ws c) cs end.
Fixpoint all_allowed (K : nat) (ws : list word) (cs : list call) : Prop :=
  match cs with [] => True | c :: cs => allowed K ws c /\ all_allowed K (after ws c) cs end.
Fixpoint all_return (ws : list word) (cs : list call) (rs : list result) : Prop :=
  match cs, rs with
  | [], [] => True
  | c :: cs, r :: rs => returns ws c r /\ all_return (after ws c) cs rs
  | _, _ => False
  end.

(** the number of cells in use *)
Definition alive (h : list (option node)) (a : nat) : bool := match load h a with Some _ => true | None => false end.
Definition live (h : list (option node)) : nat := length (filter (alive h) (seq 0 (length h))).
