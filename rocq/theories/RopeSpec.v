(** Vocabulary for ropes: operations on lists by position. *)
From Verif Require Import Lib BstModel BstSpec TreapSpec RopeModel.
Open Scope nat_scope.

Section Lists.
Context {A : Type}.
(** x before position pos, at the end for positions outside *)
Definition ins (pos : Z) (x : A) (l : list A) : list A :=
  if (0 <=? pos)%Z && (pos <=? Z.of_nat (length l))%Z then firstn (Z.to_nat pos) l ++ x :: skipn (Z.to_nat pos) l else l ++ [x].
(** without the positions from b to before e *)
Definition cut (b e : Z) (l : list A) : list A := firstn (Z.to_nat b) l ++ skipn (Z.to_nat e) l.
(** without position pos, if there is one *)
Definition del (pos : Z) (l : list A) : list A := if (0 <=? pos)%Z && (pos <? Z.of_nat (length l))%Z then cut pos (pos + 1) l else l.
(** x at position pos *)
Definition put (pos : Z) (x : A) (l : list A) : list A := firstn (Z.to_nat pos) l ++ x :: skipn (Z.to_nat pos + 1) l.
End Lists.

Section Spec.
Context {V : Type}.
Notation entry := (nat * V * Z)%type.
Notation heap := (heap (V := V)).
(** the heap holds at nil a rope with these entries (all with multiplicity 1), in heap order of the priorities *)
Definition rope_rep (h : heap) (nil : nat) (es : list entry) : Prop := bst_rep h nil es /\ unit_counts STORE es /\ heap_ordered h es.
Definition items (es : list entry) : list V := map evl es.
(** the rope at nil becomes es'; other trees and the memory as for trees *)
Definition rope_becomes (h h' : heap) (nil : nat) (es es' : list entry) : Prop := rope_rep h' nil es' /\ becomes h h' nil es es'.

(** a client's history; the last number of the insertions is random *)
Inductive rope_op := RInsert (pos : Z) (v : V) (z : Z) | RPush (v : V) (z : Z) | RErase (pos : Z) | REraseRange (b e : Z) | RSet (pos : Z) (v : V).
Definition rope_effect (o : rope_op) (l : list V) : list V :=
  match o with RInsert pos v _ => ins pos v l | RPush v _ => l ++ [v] | RErase pos => del pos l | REraseRange b e => cut b e l | RSet pos v => put pos v l end.
Definition rope_allowed (o : rope_op) (l : list V) : Prop :=
  match o with RInsert _ _ z | RPush _ z => (0 <= z)%Z | RErase _ => True | REraseRange b e => (0 <= b <= e)%Z | RSet pos _ => (0 <= pos < Z.of_nat (length l))%Z end.
Definition rope_run (nil : nat) (o : rope_op) (h : heap) : option heap :=
  match o with
  | RInsert pos v z => rope_insert h nil pos v z
  | RPush v z => rope_push_back h nil v z
  | RErase pos => rope_erase h nil pos
  | REraseRange b e => rope_erase_range h nil b e
  | RSet pos v => rope_set h nil pos v
  end.
Fixpoint rope_runs (nil : nat) (ops : list rope_op) (h : heap) : option heap :=
  match ops with [] => Some h | o :: ops => let* h := rope_run nil o h in rope_runs nil ops h end.
Fixpoint all_allowed (ops : list rope_op) (l : list V) : Prop :=
  match ops with [] => True | o :: ops => rope_allowed o l /\ all_allowed ops (rope_effect o l) end.
End Spec.
Arguments rope_op : clear implicits.
