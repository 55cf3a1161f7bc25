(** C142, C143: shortest paths from a source; Prim's spanning trees. *)
From Coq Require Import Permutation.
From Verif Require Import Lib GraphSpec WalkSpec ClosModel FloydModel FloydProps DijkModel DijkProofs PrimProofs.
Open Scope nat_scope.

(** dijkstra(g, src, inf) for weights that are not negative, if simple paths are lighter than inf: the entry v is the least weight of a walk
    from src to v and the node before v on such a walk, or { -1, inf } if there is none *)
Theorem C142_dijkstra : forall g src inf, wf g -> non_negative g -> src < length g -> below g inf ->
  exists t, dijkstra g src inf = Some t /\ length t = length g /\
    forall v p d, nth_error t v = Some (p, d) ->
      match p with
      | None => d = inf /\ forall w, ~ wwalk g src v w
      | Some p => shortest g src v d /\ (v = src -> p = src) /\ (v <> src -> exists c, In (v, c) (out g p) /\ shortest g src p (d - c))
      end.
Proof.
  intros g src inf Wf Pos Hs Bl. destruct (dijkstra_run g Wf Pos src inf Hs) as (t & E & H). exists t. split; [exact E|]. exact (dj_final g Wf Pos src inf Hs Bl t H).
Qed.
Definition dj5 : wgraph := [[(1, 7%Z); (2, 9%Z); (2, 10%Z)]; [(2, 1%Z); (3, 15%Z)]; [(3, 2%Z); (0, 0%Z)]; [(3, 1%Z)]; [(0, 1%Z)]].
Example C142_case : dijkstra dj5 0 1000 = Some [(Some 0, 0%Z); (Some 0, 7%Z); (Some 1, 8%Z); (Some 2, 10%Z); (None, 1000%Z)] /\ wf dj5 /\ non_negative dj5 /\ below dj5 1000.
Proof.
  assert (Wf : wf dj5). { intros [|[|[|[|[|u]]]]] e H; cbn in H; repeat (destruct H as [<-|H]; [cbn; lia|]); try destruct H. destruct u; destruct H. }
  assert (B : forall u v a, In (v, a) (out dj5 u) -> (0 <= a <= 15)%Z). { intros u v a Ha. destruct u as [|[|[|[|[|u]]]]]; cbn in Ha; repeat (destruct Ha as [Ha|Ha]; [injection Ha as <- <-; lia|]); try destruct Ha. destruct u; destruct Ha. }
  split; [now vm_compute|]. split; [exact Wf|]. split; [intros u v w H; apply B in H; lia|]. apply (C141_bound dj5 1000 15 Wf); [lia|intros u v a H; apply B in H; lia|now vm_compute].
Qed.

(** prim_spanning_tree(g, root, inf) for weights from 0 to inf - 1: it ends, the root is { root, 0 }, every other node that can be reached from
    the root has as its entry an edge of g into the node, the others have { -1, inf } *)
Theorem C143_edges : forall g root inf, wf g -> non_negative g -> root < length g -> (forall u v c, In (v, c) (out g u) -> (c < inf)%Z) ->
  exists fuel, forall f, (fuel <= f)%Z -> exists t, prim_spanning_tree f g root inf = Some t /\ length t = length g /\
    nth_error t root = Some (Some root, 0%Z) /\
    forall v p d, nth_error t v = Some (p, d) -> v <> root ->
      match p with None => d = inf /\ ~ walk g root v | Some p => In (v, d) (out g p) /\ walk g root v end.
Proof.
  intros g root inf Wf Pos Hr Sm. destruct (prim_run g Wf Pos root inf Hr Sm) as (fuel & H). exists fuel. intros f Hf. destruct (H f Hf) as (t & E & L & Hn & Ht & Hs). exists t. split; [exact E|]. split; [exact L|]. split; [exact Ht|].
  intros v [p|] d Ev N; [now apply Hs|]. destruct (Hn v d Ev) as (X & _ & Y). auto.
Qed.
(** The result need not be a tree. On the undirected graph 0 -5- 1, 1 -1- 2, 2 -2- 3, 3 -3- 1 the parents of 1, 2 and 3 are 3, 1 and 2: the
    edge to the root is lost, no node but the root leads to it. *)
Definition pr4 : wgraph := [[(1, 5%Z)]; [(0, 5%Z); (2, 1%Z); (3, 3%Z)]; [(1, 1%Z); (3, 2%Z)]; [(2, 2%Z); (1, 3%Z)]].
Theorem C143_tree_refuted : wf pr4 /\ non_negative pr4 /\ undirected pr4 /\ (forall v, v <> 0 -> v < 4 -> walk pr4 0 v) /\
  exists t, prim_spanning_tree 100 pr4 0 1000 = Some t /\ forall v k, v <> 0 -> nth_parent t k v <> Some 0.
Proof.
  assert (W1 : walk pr4 0 1) by (apply walk_arc; exists 5%Z; cbn; auto). split; [|split; [|split; [|split]]].
  - intros [|[|[|[|u]]]] e H; cbn in H; repeat (destruct H as [<-|H]; [cbn; lia|]); try destruct H. destruct u; destruct H.
  - intros [|[|[|[|u]]]] v w H; cbn in H; repeat (destruct H as [H|H]; [injection H as <- <-; lia|]); try destruct H. destruct u; destruct H.
  - intros i j. assert (E : forall a b, between pr4 a b = between pr4 b a); [|rewrite E; apply Permutation_refl].
    intros [|[|[|[|a]]]] [|[|[|[|b]]]]; try reflexivity; unfold between; cbn; try (destruct a; reflexivity); try (destruct b; reflexivity). destruct a, b; reflexivity.
  - intros [|[|[|[|v]]]] N L; try lia; [exact W1|eapply ClosProofs.walk_snoc; [exact W1|exists 1%Z; cbn; auto]|eapply ClosProofs.walk_snoc; [exact W1|exists 3%Z; cbn; auto]].
  - eexists. split; [vm_compute; reflexivity|]. intros v k. revert v. induction k as [|k IH]; intros v N; cbn [nth_parent]; [congruence|]. destruct v as [|[|[|[|v]]]]; cbn; [lia|apply IH; lia|apply IH; lia|apply IH; lia|destruct v; discriminate].
Qed.
Example C143_case : prim_spanning_tree 100 [[(1, 4%Z); (2, 1%Z)]; [(0, 4%Z); (2, 2%Z)]; [(0, 1%Z); (1, 2%Z)]] 0 1000 = Some [(Some 0, 0%Z); (Some 2, 2%Z); (Some 0, 1%Z)].
Proof. now vm_compute. Qed.
Print Assumptions C142_dijkstra.
Print Assumptions C143_edges.
Print Assumptions C143_tree_refuted.
