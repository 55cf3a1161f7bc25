(** Walks, distances and trees in a directed graph given by its lists of out-edges (GraphSpec). *)
From Verif Require Import Lib GraphSpec.
Open Scope nat_scope.

Section Walks.
  Context {W : Type}.
  Notation graph := (list (list (nat * W))).
  (** there is an edge from u to v *)
  Definition arc (g : graph) (u v : nat) : Prop := exists w, In (v, w) (out g u).
  (** v can be reached from u along at least one edge *)
  Inductive walk (g : graph) : nat -> nat -> Prop :=
  | walk_arc u v : arc g u v -> walk g u v
  | walk_cons u x v : arc g u x -> walk g x v -> walk g u v.
  (** ... along at least two edges *)
  Definition walk2 (g : graph) (u v : nat) : Prop := exists x, arc g u x /\ walk g x v.
  Definition acyclic (g : graph) : Prop := forall u, ~ walk g u u.
End Walks.

(** an unweighted graph by the lists of the targets *)
Definition plain (rows : list (list nat)) : list (list (nat * unit)) := map (map (fun v => (v, tt))) rows.

(** edges weighted by integers *)
Notation wgraph := (list (list (nat * Z))).
(** a walk of total weight w; the empty walk has weight 0 *)
Inductive wwalk (g : wgraph) : nat -> nat -> Z -> Prop :=
| ww_nil u : u < length g -> wwalk g u u 0
| ww_cons u x v a w : In (x, a) (out g u) -> wwalk g x v w -> wwalk g u v (a + w).
Definition shortest (g : wgraph) (u v : nat) (d : Z) : Prop := wwalk g u v d /\ forall w, wwalk g u v w -> (d <= w)%Z.
Definition no_negative_cycle (g : wgraph) : Prop := forall u w, wwalk g u u w -> (0 <= w)%Z.
Definition non_negative (g : wgraph) : Prop := forall u v w, In (v, w) (out g u) -> (0 <= w)%Z.
(** a path from u over the nodes l to v *)
Inductive wpath (g : wgraph) : nat -> list nat -> nat -> Z -> Prop :=
| wp_arc u v a : In (v, a) (out g u) -> wpath g u [] v a
| wp_cons u x l v a w : In (x, a) (out g u) -> wpath g x l v w -> wpath g u (x :: l) v (a + w).
(** every path without repeated nodes weighs less than inf *)
Definition below (g : wgraph) (inf : Z) : Prop := forall u l v w, wpath g u l v w -> NoDup (u :: l ++ [v]) -> (w < inf)%Z.
(** the node reached from v after k steps to the parent, in a list of (parent, weight) *)
Fixpoint nth_parent (t : list (option nat * Z)) (k v : nat) : option nat :=
  match k with O => Some v | S k => match nth_error t v with Some (Some p, _) => nth_parent t k p | _ => None end end.
