(** Ancestors in a forest given by the parents of its nodes. *)
From Verif Require Import Lib GraphSpec WalkSpec DfsSpec.
Open Scope nat_scope.

(** a is u or an ancestor of u *)
Definition anc (vp : list (option nat)) (a u : nat) : Prop := exists k, up vp k u = Some a.
(** u is k steps below its root *)
Definition at_depth (vp : list (option nat)) (u k : nat) : Prop := exists r, up vp k u = Some r /\ nth_error vp r = Some None.
(** a is the lowest of the common ancestors of u and v *)
Definition is_lca (vp : list (option nat)) (u v a : nat) : Prop := anc vp a u /\ anc vp a v /\ forall b, anc vp b u -> anc vp b v -> anc vp b a.
(** u and v are in different trees *)
Definition apart (vp : list (option nat)) (u v : nat) : Prop := forall b, ~ (anc vp b u /\ anc vp b v).

Section Routes.
  Context {W : Type}.
  Notation graph := (list (list (nat * W))).
  (** from u to v along the nodes l, of which v is the last *)
  Inductive route (g : graph) : nat -> list nat -> nat -> Prop :=
  | route_nil u : route g u [] u
  | route_cons u x l v : arc g u x -> route g x l v -> route g u (x :: l) v.
  (** an undirected graph without cycles *)
  Definition undirected_forest (g : graph) : Prop :=
    (forall u v, arc g u v -> arc g v u) /\ (forall u, ~ arc g u u) /\ (forall u l v, route g u l v -> NoDup (u :: l) -> 2 <= length l -> ~ arc g v u).
End Routes.
(** the node reached from u after m steps of f *)
Fixpoint steps (f : nat -> option (option nat)) (m u : nat) : option nat :=
  match m with O => Some u | S m => match f u with Some (Some p) => steps f m p | _ => None end end.
