(** Edges on chains. *)
From Coq Require Import List.
Import ListNotations.

(** v comes right after u *)
Definition next_to (u v : nat) (chain : list nat) : Prop := exists l1 l2, chain = l1 ++ u :: v :: l2.
(** some chain of some block of some component goes along the edge, in one of the directions *)
Definition on_chain (d : list (list (list (list nat)))) (u v : nat) : Prop :=
  exists component block chain, In component d /\ In block component /\ In chain block /\ (next_to u v chain \/ next_to v u chain).
(** u is the first vertex of the first chain of a block that is not the first of its component *)
Definition later_head (d : list (list (list (list nat)))) (u : nat) : Prop :=
  exists b0 blocks block chain r rest, In (b0 :: blocks) d /\ In block blocks /\ block = chain :: rest /\ chain = u :: r.
