(** Ear decompositions and bridges. *)
From Coq Require Import List Relations.
From Verif Require Import BicSpec.
Import ListNotations.

Definition same_edge (p q a b : nat) : Prop := p = a /\ q = b \/ p = b /\ q = a.
Definition along (chain : list nat) (a b : nat) : Prop := next_to a b chain \/ next_to b a chain.
(** no edge is used twice, in whichever direction *)
Definition simple_edges (chain : list nat) : Prop :=
  forall l1 a b l2, chain = l1 ++ a :: b :: l2 -> ~ along (l1 ++ [a]) a b /\ ~ along (b :: l2) a b.
(** a block: a closed chain, and chains that begin and end on vertices of earlier ones and use none of their edges *)
Inductive ears : list (list nat) -> Prop :=
| ear_first h r : last (h :: r) h = h -> simple_edges (h :: r) -> ears [h :: r]
| ear_next cs h r : ears cs -> simple_edges (h :: r) -> In h (concat cs) -> In (last (h :: r) h) (concat cs) ->
    (forall c a b, In c cs -> along (h :: r) a b -> ~ along c a b) -> ears (cs ++ [h :: r]).
Definition edge_of (g : list (list nat)) (u v : nat) : Prop := exists adj, nth_error g u = Some adj /\ In v adj.
(** without the edge, its ends are not connected *)
Definition bridge (g : list (list nat)) (u v : nat) : Prop :=
  edge_of g u v /\ ~ clos_refl_sym_trans nat (fun p q => edge_of g p q /\ ~ same_edge p q u v) u v.
