(** Proper colourings of graphs. *)
From Coq Require Import List Arith.
Import ListNotations.

(** colours 0 .. k-1 for the nodes 0 .. n-1, different at the ends of every edge *)
Definition proper (edges : list (nat * nat)) (n k : nat) (c : list nat) : Prop :=
  length c = n /\ (forall x, In x c -> x < k) /\ forall u v, In (u, v) edges -> nth u c 0 <> nth v c 0.
(** m is the number of the proper colourings with k colours *)
Definition count_colourings (edges : list (nat * nat)) (n k m : nat) : Prop :=
  exists L, NoDup L /\ (forall c, In c L <-> proper edges n k c) /\ length L = m.

(** the tree on 0 .. n-1 where node i > 0 hangs on [par i], a smaller node: every tree is of this form when its
    nodes are numbered from a root on *)
Definition tree_edges (par : nat -> nat) (n : nat) : list (nat * nat) := map (fun i => (par i, i)) (seq 1 (n - 1)).
(** the cycle 0, 1, .., n-1, 0 *)
Definition cycle_edges (n : nat) : list (nat * nat) := (n - 1, 0) :: tree_edges pred n.
(** all pairs of nodes *)
Definition complete_edges (n : nat) : list (nat * nat) := flat_map (fun v => map (fun u => (u, v)) (seq 0 v)) (seq 0 n).
