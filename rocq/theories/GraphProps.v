(** C70: the editing operations of graph. *)
From Coq Require Import Permutation Sorted.
From Verif Require Import Lib GraphModel GraphSpec GraphProofs.
Open Scope nat_scope.

Section C70.
Context {W : Type}.
Notation edge := (nat * W)%type.
Notation graph := (list (list edge)).
Implicit Types (g : graph) (e : edge).

(** construction, add_node, add_edge, add_edge2, num_edges *)
Theorem C70_add_node g : let '(g', u) := g_add_node g in u = length g /\ length g' = S (length g) /\ out g' u = [] /\ forall i, i <> u -> out g' i = out g i.
Proof.
  unfold g_add_node. cbn zeta. rewrite app_length. cbn [length]. split; [lia|]. split; [lia|]. replace (length g + 1 - 1) with (length g) by lia. unfold out. split; [now rewrite app_nth2, Nat.sub_diag by lia|].
  intros i N. destruct (Nat.lt_ge_cases i (length g)); [now rewrite app_nth1|]. rewrite !nth_overflow by (rewrite ?app_length; cbn; lia). reflexivity.
Qed.
Theorem C70_add_edge g u e : u < length g -> exists g', g_add_edge g u e = Some g' /\ length g' = length g /\ out g' u = out g u ++ [e] /\ forall i, i <> u -> out g' i = out g i.
Proof.
  intros H. destruct (add_edge_run g u e H) as (g' & E & L & O). exists g'. split; [exact E|]. split; [exact L|]. split; [now rewrite O, Nat.eqb_refl|]. intros i N. rewrite O. destruct (Nat.eqb_spec i u); [contradiction|reflexivity].
Qed.
Theorem C70_add_edge2 g u v (w : W) : u < length g -> v < length g -> exists g', g_add_edge2 g u (v, w) = Some g' /\ length g' = length g /\
  (forall i j, between g' i j = between g i j ++ (if (i =? u) && (v =? j) then [w] else []) ++ (if (i =? v) && (u =? j) then [w] else [])) /\
  (undirected g -> undirected g').
Proof.
  intros U V. destruct (add_edge2_run g u v w U V) as (g' & E & L & B). exists g'. split; [exact E|]. split; [exact L|]. split; [exact B|]. intros D. destruct (add_edge2_undirected g u v w U V D) as (g2 & E2 & D2). rewrite E in E2. injection E2 as <-. exact D2.
Qed.
Theorem C70_num_edges g : g_num_edges g = length (concat g).
Proof. exact (num_edges_run g). Qed.
(** delete_edge(u, v) removes every edge from u to v and no other *)
Theorem C70_delete_edge g u v : u < length g -> exists g', g_delete_edge g u v = Some g' /\ length g' = length g /\
  Permutation (out g' u) (not_to v (out g u)) /\ (forall i, i <> u -> out g' i = out g i).
Proof. exact (delete_edge_run g u v). Qed.
(** delete_node(u): what is left is the graph on the other nodes; the last node takes the number u *)
Theorem C70_delete_node g u : u < length g -> let last := length g - 1 in let old := fun i => if i =? u then last else i in
  exists g', g_delete_node g u = Some g' /\ length g' = last /\
  (forall i j, i < last -> j < last -> Permutation (between g' i j) (between g (old i) (old j))) /\ (wf g -> wf g') /\ (wf g -> undirected g -> undirected g').
Proof.
  intros H last old. destruct (delete_node_between g u H) as (g' & E & L & B & WF). exists g'. split; [exact E|]. split; [exact L|]. split; [exact B|]. split; [exact WF|]. intros F D. destruct (delete_node_undirected g u H D F) as (g2 & E2 & D2). rewrite E in E2. injection E2 as <-. exact D2.
Qed.
(** deduplicate_edges(u) keeps one edge to every target, in increasing order *)
Theorem C70_deduplicate srt g u : sorts srt -> u < length g -> exists g', g_deduplicate_edges srt g u = Some g' /\ length g' = length g /\
  one_each (out g u) (out g' u) /\ (forall i, i <> u -> out g' i = out g i).
Proof. intros S. exact (dedup_run srt S g u). Qed.
(** contract(u, v): the nodes are merged, the edges between them go, every other edge survives once per pair of nodes, with the weight of one of the originals *)
Theorem C70_contract srt g u v : sorts srt -> u < length g -> v < length g -> u <> v -> let name := contracted u v (length g - 1) in
  exists g', g_contract srt g u v = Some g' /\ length g' = length g - 1 /\
    (forall i, i < length g' -> StronglySorted lt (map fst (out g' i))) /\
    (forall i j w, In (j, w) (out g' i) -> exists x y, In (y, w) (out g x) /\ kept u v x y /\ name x = i /\ name y = j) /\
    (forall x y w, x < length g -> In (y, w) (out g x) -> kept u v x y -> In (name y) (map fst (out g' (name x)))).
Proof. intros S. exact (contract_run srt S g u v). Qed.
(** names are given once: two nodes get the same name only if both are among u and v *)
Theorem C70_names u v last x y : u <= last -> v <= last -> x <= last -> y <= last -> u <> v ->
  contracted u v last x < last /\ (contracted u v last x = contracted u v last y <-> x = y \/ ((x = u \/ x = v) /\ (y = u \/ y = v))).
Proof. intros. unfold contracted. cbv zeta. destruct (Nat.eqb_spec x v), (Nat.eqb_spec y v); repeat match goal with |- context [?p =? ?q] => destruct (Nat.eqb_spec p q) end; lia. Qed.
End C70.

(** insertion sort, a sorting function *)
Fixpoint ins_edge {W} (e : nat * W) (l : list (nat * W)) : list (nat * W) := match l with [] => [e] | x :: t => if fst e <=? fst x then e :: l else x :: ins_edge e t end.
Definition ins_sort {W} (l : list (nat * W)) : list (nat * W) := fold_right ins_edge [] l.
Example C70_sort W : sorts (@ins_sort W).
Proof.
  assert (A : forall e l, Permutation (ins_edge (W := W) e l) (e :: l)).
  { intros e l. induction l as [|x l IH]; cbn; [auto|]. destruct (fst e <=? fst x); [auto|]. rewrite IH. apply perm_swap. }
  assert (B : forall e l, Sorted (fun a b => fst a <= fst b) l -> Sorted (fun a b => fst a <= fst b) (ins_edge (W := W) e l)).
  { intros e l S. induction S as [|x l S IH H]; cbn; [repeat constructor|]. destruct (Nat.leb_spec (fst e) (fst x)); [repeat constructor; auto|]. constructor; [exact IH|]. destruct l as [|y l]; cbn; [constructor; lia|]. destruct (fst e <=? fst y); constructor; [lia|]. now apply HdRel_inv in H. }
  intros l. induction l as [|e l (IH1 & IH2)]; cbn; [split; constructor|]. split; [rewrite A; now constructor|now apply B].
Qed.
Definition triangle : list (list (nat * nat)) := [[(2, 5); (1, 1)]; [(2, 7); (0, 1)]; [(1, 7); (0, 5)]].
Example C70_case : undirected triangle /\ wf triangle /\ g_delete_node triangle 0 = Some [[(1, 7)]; [(0, 7)]] /\ g_contract ins_sort triangle 0 1 = Some [[(1, 5)]; [(0, 7)]].
Proof.
  split.
  - intros i j. do 3 (destruct i as [|i]; [do 3 (destruct j as [|j]; [apply Permutation_refl|]); destruct j; apply Permutation_refl|]). do 3 (destruct j as [|j]; [destruct i; apply Permutation_refl|]). destruct i, j; apply Permutation_refl.
  - split; [|now split]. intros i e I. do 3 (destruct i as [|i]; [cbn in I; repeat destruct I as [<-|I]; try (cbn; lia); destruct I|]). destruct i; destruct I.
Qed.
(** contracting a weighted undirected graph can leave different weights on the two directions of an edge *)
Theorem C70_contract_undirected_refuted : exists (g : list (list (nat * nat))) g', undirected g /\ wf g /\ sorts (@ins_sort nat) /\ g_contract ins_sort g 0 1 = Some g' /\ ~ undirected g'.
Proof.
  exists triangle, [[(1, 5)]; [(0, 7)]]. destruct C70_case as (A & B & _ & C). split; [exact A|]. split; [exact B|]. split; [apply C70_sort|]. split; [exact C|]. intros H. specialize (H 0 1). cbn in H. apply Permutation_length_1 in H. discriminate.
Qed.
(** contracting a node with itself inserts a vector into itself *)
Theorem C70_contract_self_refuted : forall (W : Type) srt (g : list (list (nat * W))) u, g_contract srt g u u = None.
Proof. intros. unfold g_contract. destruct (g_delete_edge g u u) as [g1|]; [|reflexivity]. cbn [obind]. destruct (g_delete_edge g1 u u); [|reflexivity]. cbn [obind]. now rewrite Nat.eqb_refl. Qed.

Print Assumptions C70_add_node.
Print Assumptions C70_add_edge.
Print Assumptions C70_add_edge2.
Print Assumptions C70_num_edges.
Print Assumptions C70_delete_edge.
Print Assumptions C70_delete_node.
Print Assumptions C70_deduplicate.
Print Assumptions C70_contract.
Print Assumptions C70_names.
Print Assumptions C70_contract_undirected_refuted.
Print Assumptions C70_contract_self_refuted.
