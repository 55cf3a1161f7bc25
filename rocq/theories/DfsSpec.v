(** Orders and forests on the nodes of a directed graph. *)
From Coq Require Import Permutation.
From Verif Require Import Lib GraphSpec WalkSpec.
Open Scope nat_scope.

Section Spec.
  Context {W : Type}.
  Notation graph := (list (list (nat * W))).
  (** u stands somewhere before v in l *)
  Definition before (l : list nat) (u v : nat) : Prop := exists a b c, l = a ++ u :: b ++ v :: c.
  (** l lists every node once, the source of each edge before its target *)
  Definition topological (g : graph) (l : list nat) : Prop := Permutation l (seq 0 (length g)) /\ forall u v, arc g u v -> before l u v.
  (** a node without incoming edges *)
  Definition source (g : graph) (r : nat) : Prop := r < length g /\ forall u, ~ arc g u r.
  (** the number of edges into v *)
  Definition indegree (g : graph) (v : nat) : nat := length (filter (fun e => fst e =? v) (concat g)).
End Spec.
(** the node reached from v after k steps to the parent *)
Fixpoint up (vp : list (option nat)) (k v : nat) : option nat :=
  match k with O => Some v | S k => match nth_error vp v with Some (Some p) => up vp k p | _ => None end end.
