(** C167: no bridge is missed. *)
From Coq Require Import List Lia Relations.
From Verif Require Import Lib BicModel BicSpec BicProofs EarSpec EarProofs.
Import ListNotations.

(** If every block is a closed chain followed by ears, and the chains go along edges of the graph,
    every bridge is among the cut edges, and no edge of a chain is a bridge.  Missing: that
    chain_decomposition gives such blocks, and that they cover every edge that is not a bridge. *)
Theorem C167_bridges_partial : forall g d,
  (forall component block, In component d -> In block component -> ears block) ->
  (forall component block chain u v, In component d -> In block component -> In chain block -> next_to u v chain -> edge_of g u v) ->
  (forall u v, u < v -> bridge g u v -> In (u, v) (cut_edges g d)) /\ (forall u v, on_chain d u v -> ~ bridge g u v).
Proof.
  intros g d He Hg. assert (K : forall u v, on_chain d u v -> ~ bridge g u v).
  { intros u v (component & block & chain & H1 & H2 & H3 & H4) (_ & B). apply B. destruct H4 as [N|N].
    - eapply crst_mono; [|apply (ears_edge block (He _ _ H1 H2) chain u v H3 N)]. intros p q ((c & Hc & N') & S). split; [eapply Hg; eauto|exact S].
    - apply rst_sym. eapply crst_mono; [|apply (ears_edge block (He _ _ H1 H2) chain v u H3 N)]. intros p q ((c & Hc & N') & S). split; [eapply Hg; eauto|]. intros [Q|Q]; apply S; [right|left]; exact Q. }
  split; [|exact K]. intros u v L B. destruct (cut_edges_ok g d) as (_ & I). apply (I u v L). split; [exact (proj1 B)|]. intros Q. exact (K u v Q B).
Qed.

(** a square with a diagonal is a closed chain and an ear *)
Example C167_ears_case : ears [[0; 1; 2; 3; 0]; [0; 2]].
Proof.
  assert (NS : forall u v x, ~ next_to u v [x]) by (intros u v x; apply next_short; cbn; lia).
  apply (ear_next [[0; 1; 2; 3; 0]] 0 [2]); [apply (ear_first 0 [1; 2; 3; 0]); [reflexivity|]| | | |].
  - intros l1 a b l2 E. unfold along. destruct l1 as [|x1 [|x2 [|x3 [|x4 l1]]]]; [| | | |exfalso; apply (f_equal (@length nat)) in E; cbn in E; rewrite app_length in E; cbn in E; lia]; cbn in E; injection E; intros; subst; cbn [app]; rewrite ?next_cons; split; intros [Hz|Hz]; repeat (destruct Hz as [Hz|Hz]); try (eapply NS; exact Hz); lia.
  - intros l1 a b l2 E. unfold along. destruct l1 as [|x1 l1]; cbn in E; injection E; intros; subst; cbn [app]; [|destruct l1 as [|y [|z l1]]; discriminate]. split; intros [Hz|Hz]; eapply NS; exact Hz.
  - cbn. auto.
  - cbn. auto.
  - intros c a b [<-|[]] [H|H]; apply next_cons in H; destruct H as [(-> & ->)|H]; try (apply NS in H; destruct H); unfold along; rewrite !next_cons; intros [Q|Q]; repeat (destruct Q as [Q|Q]); try (eapply NS; exact Q); lia.
Qed.
Print Assumptions C167_bridges_partial.
