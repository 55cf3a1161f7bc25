(** Directed multigraphs with weighted edges: a list of out-edges (target, weight) per node. *)
From Coq Require Import Permutation Sorted.
From Verif Require Import Lib.
Open Scope nat_scope.

Section Spec.
Context {W : Type}.
Notation edge := (nat * W)%type.
Notation graph := (list (list edge)).

(** the out-edges of a node *)
Definition out (g : graph) (i : nat) : list edge := nth i g [].
(** every edge points to a node *)
Definition wf (g : graph) : Prop := forall i e, In e (out g i) -> fst e < length g.
(** a sorting function: any arrangement by target of the same edges *)
Definition sorts (srt : list edge -> list edge) : Prop :=
  forall l, Permutation (srt l) l /\ Sorted (fun a b => fst a <= fst b) (srt l).
(** edges not to v *)
Definition not_to (v : nat) (l : list edge) : list edge := filter (fun e => negb (fst e =? v)) l.
(** edges with renamed targets *)
Definition rename (f : nat -> nat) (l : list edge) : list edge := map (fun e => (f (fst e), snd e)) l.
(** the weights of the edges from i to j *)
Definition between (g : graph) (i j : nat) : list W := map snd (filter (fun e => fst e =? j) (out g i)).
(** as many edges of each weight from i to j as from j to i *)
Definition undirected (g : graph) : Prop := forall i j, Permutation (between g i j) (between g j i).
(** an edge between two nodes other than u to v and v to u *)
Definition kept (u v x y : nat) : Prop := ~ (x = u /\ y = v) /\ ~ (x = v /\ y = u).
(** l keeps one edge to every target of l0, in increasing order of targets *)
Definition one_each (l0 l : list edge) : Prop :=
  StronglySorted lt (map fst l) /\ (forall e, In e l -> In e l0) /\ (forall e, In e l0 -> In (fst e) (map fst l)).
(** the new name of node x after u and v are contracted to u, and the last node takes the number of v *)
Definition contracted (u v last x : nat) : nat := let y := if x =? v then u else x in if y =? last then v else y.
End Spec.
