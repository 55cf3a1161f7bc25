(** Maximum flow and bipartite matching. *)
From Coq Require Import List PeanoNat ZArith Lia.
From Verif Require Import Lib DinicModel DinicSpec DinicProofs DinicProofs2 DinicMatch.
Import ListNotations.
Open Scope Z_scope.

(** Between two different nodes the result is a flow that respects the capacities, its value is what is returned, and no flow carries more. *)
Theorem C157_max_flow : forall n infinity cap source sink, (source < n)%nat -> (sink < n)%nat -> source <> sink ->
  (forall u v, (u < n)%nat -> (v < n)%nat -> 0 <= cap u v <= infinity) ->
  exists g r, calc_max_flow n infinity cap source sink = Some (g, r) /\ is_flow n cap source sink g /\ net n g source = r /\
    forall h, is_flow n cap source sink h -> net n h source <= r.
Proof. intros n infinity cap source sink. exact (max_flow_ok n infinity cap source sink). Qed.
Theorem C157_same_node : forall n infinity cap source, exists g, calc_max_flow n infinity cap source source = Some (g, 0).
Proof. intros. unfold calc_max_flow. rewrite Nat.eqb_refl. eauto. Qed.
(** A round is not a blocking flow: it stops after one path although another shortest path is still free. *)
Theorem C157_blocking_refuted :
  let cap := fun u v => if existsb (fun e => Nat.eqb (fst e) u && Nat.eqb (snd e) v) [(0, 1); (1, 3); (0, 2); (2, 3)]%nat then 1 else 0 in
  match build_level_graph 4 cap (fun _ _ => 0) 0 with
  | Some level =>
    match construct_blocking_flow 4 100 cap level 0 3 (fun _ _ => 0) with
    | Some (flow, r) => r = 1 /\ level 2%nat = (level 0%nat + 1)%nat /\ level 3%nat = (level 2%nat + 1)%nat /\ flow 0%nat 2%nat < cap 0%nat 2%nat /\ flow 2%nat 3%nat < cap 2%nat 3%nat
    | None => False
    end
  | None => False
  end.
Proof. vm_compute. repeat split. Qed.
Example C157_case :
  let cap := fun u v => nth v (nth u [[0; 3; 2; 0]; [0; 0; 5; 2]; [0; 0; 0; 3]; [0; 0; 0; 0]] []) 0 in
  option_map (fun '(g, r) => (r, map (fun u => map (g u) (seq 0 4)) (seq 0 4))) (calc_max_flow 4 1000 cap 0 3) =
  Some (5, [[0; 3; 2; 0]; [0; 0; 1; 2]; [0; 0; 0; 3]; [0; 0; 0; 0]]).
Proof. reflexivity. Qed.

(** The selected edges are a matching and no matching has more edges. *)
Theorem C158_bipartite_matching : forall nodes edges, (forall u v, In (u, v) edges -> (u < nodes)%nat /\ (v < nodes)%nat) ->
  (forall e e', In e edges -> In e' edges -> fst e <> snd e') -> NoDup edges ->
  exists m, bipartite_matching nodes edges = Some m /\ is_matching edges m /\ forall m', is_matching edges m' -> (length m' <= length m)%nat.
Proof. exact matching_ok. Qed.
(** An edge that is given twice is selected twice. *)
Theorem C158_repeated_edge_refuted : exists m, bipartite_matching 2 [(0, 1); (0, 1)]%nat = Some m /\ ~ is_matching [(0, 1); (0, 1)]%nat m.
Proof. exists [(0, 1); (0, 1)]%nat. split; [reflexivity|]. intros (_ & N & _). inversion N as [|? ? H _]. apply H. left. reflexivity. Qed.
Example C158_case : bipartite_matching 6 [(0, 3); (0, 4); (1, 3); (2, 4); (2, 5)]%nat = Some [(0, 4); (1, 3); (2, 5)]%nat.
Proof. reflexivity. Qed.
Print Assumptions C157_max_flow.
Print Assumptions C157_same_node.
Print Assumptions C157_blocking_refuted.
Print Assumptions C158_bipartite_matching.
Print Assumptions C158_repeated_edge_refuted.
