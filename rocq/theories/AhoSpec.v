(** Specification of dictionary matching. *)
From Coq Require Import List PeanoNat.
From Verif Require Import AhoModel.
Import ListNotations.

(** does t begin with w? *)
Fixpoint begins (w t : list nat) : bool :=
  match w, t with
  | [], _ => true
  | x :: w, y :: t => (x =? y) && begins w t
  | _ :: _, [] => false
  end.
(** the number of places in the text where the nonempty word w begins *)
Fixpoint occurrences (w text : list nat) : nat :=
  match text with
  | [] => 0
  | x :: rest => (if begins w text then 1 else 0) + occurrences w rest
  end.
(** all words of a dictionary, a word that was entered several times as often *)
Definition matches (ws : list (list nat)) (text : list nat) : nat :=
  list_sum (map (fun w => occurrences w text) ws).

(** the word on the way from the root to a node *)
Inductive spells (t : list node) : nat -> list nat -> Prop :=
  | spells_root : spells t ROOT []
  | spells_letter i nd w : nth_error t i = Some nd -> i <> ROOT -> spells t (parent nd) w -> spells t i (w ++ [let_ nd]).
Definition is_prefix (p w : list nat) : Prop := exists v, w = p ++ v.
Definition is_suffix (q w : list nat) : Prop := exists v, w = v ++ q.
(** w is the longest suffix of the text that begins some word of the dictionary (or is empty) *)
Definition longest_match (ws : list (list nat)) (text w : list nat) : Prop :=
  is_suffix w text /\ (w = [] \/ exists v, In v ws /\ is_prefix w v) /\
  forall w', is_suffix w' text -> (exists v, In v ws /\ is_prefix w' v) -> length w' <= length w.
