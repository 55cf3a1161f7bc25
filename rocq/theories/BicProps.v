(** C167: cut edges and cut vertices from a chain decomposition. *)
From Coq Require Import List Lia Sorted.
From Verif Require Import Lib BicModel BicSpec BicProofs.
Import ListNotations.

(** The whole property: for a chain decomposition of the graph, the result is the set of
    its bridges.  Proved: for any decomposition, the edges on no chain, each once. *)
Theorem C167_cut_edges_partial : forall g d, NoDup (cut_edges g d) /\
  forall u v, In (u, v) (cut_edges g d) <-> u < v /\ (exists adj, nth_error g u = Some adj /\ In v adj) /\ ~ on_chain d u v.
Proof.
  intros g d. destruct (cut_edges_ok g d) as (N & I). split; [exact N|]. intros u v. split; [intros H; pose proof (cut_edges_lt g d u v H) as L; split; [exact L|]; now apply I|]. intros (L & H). now apply I.
Qed.
(** The whole property: the result is the set of the cut vertices.  Proved: the nodes of degree
    at least two that are an end of a given cut edge, or the first vertex of a block that is
    not the first of its component, in increasing order. *)
Theorem C167_cut_vertices_partial : forall g d ve,
  (forall e, In e ve -> fst e < length g /\ snd e < length g) ->
  (forall b0 blocks block, In (b0 :: blocks) d -> In block blocks -> exists u r rest, block = (u :: r) :: rest /\ u < length g) ->
  exists r, cut_vertices g d ve = Some r /\ NoDup r /\ StronglySorted lt r /\
    forall u, In u r <-> (exists adj, nth_error g u = Some adj /\ 2 <= length adj) /\ ((exists e, In e ve /\ (u = fst e \/ u = snd e)) \/ later_head d u).
Proof.
  intros g d ve Hve Hd. destruct (cut_vertices_ok g d ve Hve Hd) as (m & E & I). eexists. split; [exact E|]. split; [apply NoDup_filter, seq_NoDup|]. split.
  - clear. generalize (fun u => if length (nth u g []) <? 2 then false else nth u m false) as p. intros p. generalize 0 as a. generalize (length g) as n. induction n as [|n IH]; intros a; cbn; [constructor|]. destruct (p a); [|apply IH]. constructor; [apply IH|]. apply Forall_forall. intros x Hx. apply filter_In in Hx. destruct Hx as (Hx & _). apply in_seq in Hx. lia.
  - intros u. rewrite filter_In, in_seq, <- I. split.
    + intros (Hu & P). destruct (Nat.ltb_spec (length (nth u g [])) 2) as [L|L]; [discriminate|]. split; [|exact P]. exists (nth u g []). split; [apply nth_error_nth'; lia|exact L].
    + intros ((adj & Ea & La) & P). assert (u < length g) by (apply nth_error_Some; congruence). split; [lia|]. rewrite (nth_error_nth _ _ [] Ea). destruct (Nat.ltb_spec (length adj) 2); [lia|exact P].
Qed.

(** The whole property: the result is the list of the biconnected components.  Proved: there is
    one list for each block, with each of its vertices once, without those of earlier blocks
    other than its first vertex. *)
Theorem C167_components_partial : forall g d,
  (forall block, In block (concat d) -> (exists u r rest, block = (u :: r) :: rest) /\ forall chain u, In chain block -> In u chain -> u < length g) ->
  exists res, biconnected_components g d = Some res /\ length res = length (concat d) /\
    forall k block, nth_error (concat d) k = Some block -> exists vs, nth_error res k = Some vs /\ NoDup vs /\
      forall u, In u vs <-> (exists chain, In chain block /\ In u chain) /\
        ((exists r rest, block = (u :: r) :: rest) \/ ~ exists j earlier chain, j < k /\ nth_error (concat d) j = Some earlier /\ In chain earlier /\ In u chain).
Proof.
  intros g d H. assert (IC : forall (l : list (list nat)) u, In u (concat l) <-> exists c, In c l /\ In u c) by (intros l u; apply in_concat).
  destruct (collect_ok (length g) (concat d) [] (repeat false (length g))) as (res & E & L & R).
  - apply repeat_length.
  - intros u. split; [|intros (b & [] & _)]. intros Q. exfalso. destruct (Nat.lt_ge_cases u (length (repeat false (length g)))) as [Hu|Hu]; [|rewrite nth_overflow in Q by lia; discriminate]. apply (nth_In _ false) in Hu. rewrite Q in Hu. now apply repeat_spec in Hu.
  - intros b Hb. destruct (H b Hb) as (Hh & Hv). split; [destruct Hh as (u & r & rest & ->); exists u, r, rest; reflexivity|]. intros u Hu. apply IC in Hu. destruct Hu as (c & Hc & Hu). eauto.
  - exists res. split; [exact E|]. split; [exact L|]. intros k block Ek. destruct (R k block Ek) as (vs & Ev & Nv & Iv). exists vs. split; [exact Ev|]. split; [exact Nv|]. intros u. rewrite Iv, IC. unfold has_head. cbn [app].
    assert (Q : (exists b, In b (firstn k (concat d)) /\ In u (concat b)) <-> exists j earlier chain, j < k /\ nth_error (concat d) j = Some earlier /\ In chain earlier /\ In u chain).
    { assert (Hk : k < length (concat d)) by (apply nth_error_Some; congruence). split.
      - intros (b & Hb & Hu). apply In_nth_error in Hb. destruct Hb as (j & Ej). assert (j < k) by (assert (j < length (firstn k (concat d))) by (apply nth_error_Some; congruence); rewrite firstn_length in *; lia). apply IC in Hu. destruct Hu as (c & Hc & Hu). exists j, b, c. split; [assumption|]. split; [|auto]. rewrite <- (firstn_skipn k (concat d)), nth_error_app1; [exact Ej|]. rewrite firstn_length. lia.
      - intros (j & b & c & Hj & Ej & Hc & Hu). exists b. split; [|apply IC; eauto]. rewrite <- (firstn_skipn k (concat d)), nth_error_app1 in Ej by (rewrite firstn_length; lia). now apply nth_error_In in Ej. }
    rewrite Q. reflexivity.
Qed.

(** two triangles 0 1 2 and 3 4 5 with the bridge 2 - 3 *)
Example C167_case :
  let g := [[1; 2]; [0; 2]; [0; 1; 3]; [2; 4; 5]; [3; 5]; [3; 4]] in let d := [[[[0; 2; 1; 0]]; [[3; 5; 4; 3]]]] in
  cut_edges g d = [(2, 3)] /\ cut_vertices g d [(2, 3)] = Some [2; 3] /\ biconnected_components g d = Some [[0; 2; 1]; [3; 5; 4]] /\ on_chain d 1 2 /\ later_head d 3.
Proof.
  cbv zeta. split; [reflexivity|]. split; [reflexivity|]. split; [reflexivity|]. split.
  - exists [[[0; 2; 1; 0]]; [[3; 5; 4; 3]]], [[0; 2; 1; 0]], [0; 2; 1; 0]. cbn. repeat split; auto. right. exists [0], [0]. reflexivity.
  - exists [[0; 2; 1; 0]], [[[3; 5; 4; 3]]], [[3; 5; 4; 3]], [3; 5; 4; 3], [5; 4; 3], []. cbn. auto.
Qed.
Print Assumptions C167_cut_edges_partial.
Print Assumptions C167_cut_vertices_partial.
Print Assumptions C167_components_partial.
