(** C139, C140: transitive closure and transitive reduction. *)
From Verif Require Import Lib GraphSpec WalkSpec ClosModel ClosProofs.
Open Scope nat_scope.

Section Props.
  Context {W : Type}.
  Variable g : list (list (nat * W)).
  Hypothesis Wf : wf g.

  Lemma plain_arc rows u v : arc (plain rows) u v <-> In v (nth u rows []).
  Proof.
    unfold arc, out, plain. change [] with (map (fun v : nat => (v, tt)) []) at 1. rewrite map_nth. split.
    - intros (w & H). apply in_map_iff in H as (x & X & H). injection X as <- _. exact H.
    - intros H. exists tt. apply in_map_iff. now exists v.
  Qed.
  Lemma nth_row {A} (rows : list (list A)) u v : In v (nth u rows []) -> exists r, nth_error rows u = Some r /\ In v r /\ u < length rows.
  Proof.
    intros H. destruct (nth_error rows u) as [r|] eqn:E.
    - exists r. rewrite (nth_error_nth rows u [] E) in H. repeat split; [exact H|]. apply nth_error_Some. congruence.
    - apply nth_error_None in E. rewrite nth_overflow in H by exact E. destruct H.
  Qed.

  (** transitive_closure(g): an edge from u to v, once, for every v other than u that can be reached from u *)
  Theorem C139_closure : exists res, transitive_closure g = Some res /\ length res = length g /\
    (forall u v, arc (plain res) u v <-> u <> v /\ walk g u v) /\ (forall u, NoDup (nth u res [])).
  Proof using Wf.
    unfold transitive_closure. destruct (rows_spec (tc_row g) (fun i row => NoDup row /\ forall v, In v row <-> v <> i /\ walk g i v) (length g)) as (res & E & L & H).
    - intros i Hi. now apply tc_row_run.
    - exists res. split; [exact E|]. split; [exact L|]. split.
      + intros u v. rewrite plain_arc. split.
        * intros X. apply nth_row in X as (r & Er & X & _). apply (H u r Er) in X. intuition.
        * intros (N & X). destruct (walk_lt g Wf u v X) as (Lu & _). destruct (nth_error_some res u ltac:(lia)) as (r & Er). rewrite (nth_error_nth res u [] Er). apply (H u r Er). auto.
      + intros u. destruct (nth_error res u) as [r|] eqn:Er; [rewrite (nth_error_nth res u [] Er); apply (H u r Er)|]. apply nth_error_None in Er. rewrite nth_overflow by exact Er. constructor.
  Qed.
  (** of an acyclic graph it is the closure *)
  Theorem C139_acyclic : acyclic g -> exists res, transitive_closure g = Some res /\ forall u v, arc (plain res) u v <-> walk g u v.
  Proof using Wf.
    intros A. destruct C139_closure as (res & E & _ & H & _). exists res. split; [exact E|]. intros u v. rewrite H. split; [tauto|]. intros X. split; [intros ->; now apply (A v)|exact X].
  Qed.

  (** transitive_reduction(g) of an acyclic graph: the edges of g that no longer walk replaces *)
  Lemma reduction_run : acyclic g -> exists res, transitive_reduction g = Some res /\ length res = length g /\
    (forall u v, arc (plain res) u v <-> arc g u v /\ ~ walk2 g u v) /\ (forall u, NoDup (nth u res [])).
  Proof using Wf.
    intros Ac. unfold transitive_reduction. destruct (rows_spec (tr_row g) (fun i row => NoDup row /\ forall v, In v row <-> arc g i v /\ ~ walk2 g i v) (length g)) as (res & E & L & H).
    - intros i Hi. apply tr_row_run; auto.
    - exists res. split; [exact E|]. split; [exact L|]. split.
      + intros u v. rewrite plain_arc. split.
        * intros X. apply nth_row in X as (r & Er & X & _). now apply (H u r Er) in X.
        * intros (N & X). destruct (arc_lt g Wf u v N) as (Lu & _). destruct (nth_error_some res u ltac:(lia)) as (r & Er). rewrite (nth_error_nth res u [] Er). apply (H u r Er). auto.
      + intros u. destruct (nth_error res u) as [r|] eqn:Er; [rewrite (nth_error_nth res u [] Er); apply (H u r Er)|]. apply nth_error_None in Er. rewrite nth_overflow by exact Er. constructor.
  Qed.
  Lemma filter_lt {A} (p q : A -> bool) l x : (forall y, p y = true -> q y = true) -> In x l -> p x = false -> q x = true -> length (filter p l) < length (filter q l).
  Proof.
    intros Hpq. assert (Le : forall l, length (filter p l) <= length (filter q l)).
    { induction l0 as [|a l0 IH]; [reflexivity|]. cbn. destruct (p a) eqn:E; [rewrite (Hpq a E); cbn; lia|]. destruct (q a); cbn; lia. }
    intros Hx Px Qx. induction l as [|a l IH]; [destruct Hx|]. cbn. destruct Hx as [->|Hx].
    - rewrite Px, Qx. cbn. pose proof (Le l). lia.
    - specialize (IH Hx). destruct (p a) eqn:E; [rewrite (Hpq a E); cbn; lia|]. destruct (q a); cbn; lia.
  Qed.
  (** it has the same reachability, and every graph with the same reachability has its edges *)
  Theorem C140_reduction : acyclic g -> exists res, transitive_reduction g = Some res /\ length res = length g /\
    (forall u v, walk (plain res) u v <-> walk g u v) /\
    (forall u v, arc (plain res) u v -> arc g u v) /\ (forall u, NoDup (nth u res [])) /\
    (forall W' (h : list (list (nat * W'))), (forall u v, walk h u v <-> walk g u v) -> forall u v, arc (plain res) u v -> arc h u v).
  Proof using Wf.
    intros Ac. destruct (reduction_run Ac) as (res & E & L & H & ND). exists res. split; [exact E|]. split; [exact L|]. split; [|split; [intros u v X; now apply H in X|split; [exact ND|]]].
    - destruct (C139_acyclic Ac) as (cl & _ & Hc). set (f := fun u v => existsb (Nat.eqb v) (nth u cl [])).
      assert (Hf : forall u v, f u v = true <-> walk g u v). { intros u v. unfold f. rewrite <- Hc, plain_arc, existsb_exists. split; [intros (x & X & Y); apply Nat.eqb_eq in Y; now subst|intros X; exists v; now rewrite Nat.eqb_refl]. }
      set (bt := fun u v => filter (fun x => f u x && f x v) (seq 0 (length g))).
      intros u v. split.
      + induction 1 as [u v X|u x v X _ IH]; [apply walk_arc|eapply walk_cons; [|exact IH]]; now apply H in X.
      + assert (G : forall k u v, length (bt u v) < k -> walk g u v -> walk (plain res) u v).
        { induction k as [|k IH]; intros a b Hk Hab; [lia|]. destruct (bt a b) as [|x t] eqn:Eb.
          - apply walk_arc. apply H. assert (N2 : ~ walk2 g a b). { intros (x & X & Y). assert (In x (bt a b)); [|rewrite Eb in *; contradiction]. unfold bt. apply filter_In. split; [apply in_seq; destruct (arc_lt g Wf _ _ X); lia|]. apply andb_true_iff. split; apply Hf; [now apply walk_arc|exact Y]. }
            split; [|exact N2]. inversion Hab; subst; [assumption|]. exfalso. apply N2. eexists. eauto.
          - assert (X : In x (bt a b)) by (rewrite Eb; now left). unfold bt in X. apply filter_In in X as (X1 & X2). apply andb_true_iff in X2 as (Xa & Xb). apply (walk_app (plain res) a x b); apply IH; try now apply Hf.
            + eapply Nat.lt_le_trans; [|apply Nat.lt_succ_r; exact Hk]. rewrite <- Eb. unfold bt. apply (filter_lt _ _ _ x); auto.
              * intros y Y. apply andb_true_iff in Y as (Y1 & Y2). apply andb_true_iff. split; [exact Y1|]. apply Hf. apply Hf in Y2, Xb. eapply walk_app; eauto.
              * apply andb_false_iff. right. destruct (f x x) eqn:Q; [|reflexivity]. apply Hf in Q. now apply Ac in Q.
              * now rewrite Xa, Xb.
            + eapply Nat.lt_le_trans; [|apply Nat.lt_succ_r; exact Hk]. rewrite <- Eb. unfold bt. apply (filter_lt _ _ _ x); auto.
              * intros y Y. apply andb_true_iff in Y as (Y1 & Y2). apply andb_true_iff. split; [|exact Y2]. apply Hf. apply Hf in Y1, Xa. eapply walk_app; eauto.
              * apply andb_false_iff. left. destruct (f x x) eqn:Q; [|reflexivity]. apply Hf in Q. now apply Ac in Q.
              * now rewrite Xa, Xb. }
        apply (G (S (length (bt u v)))). lia.
    - intros W' h Hh u v X. apply H in X as (A & N2). assert (Y : walk h u v) by (apply Hh; now apply walk_arc). inversion Y as [a b Z|a x b Z1 Z2]; subst; [exact Z|]. exfalso. apply N2.
      assert (Gx : walk g u x) by (apply Hh; now apply walk_arc). assert (Gv : walk g x v) by now apply Hh. inversion Gx as [a b Q|a y b Q1 Q2]; subst; [exists x; auto|exists y; split; [exact Q1|eapply walk_app; eauto]].
  Qed.
End Props.
(** A node on a cycle reaches itself, but the result has no edge from it to itself. *)
Theorem C139_self_refuted : exists g : list (list (nat * unit)), wf g /\ walk g 0 0 /\ exists res, transitive_closure g = Some res /\ ~ arc (plain res) 0 0.
Proof.
  exists (plain [[1]; [0]]). split; [|split].
  - intros [|[|[|i]]] e He; cbn in He; try contradiction; destruct He as [<-|[]]; cbn; lia.
  - apply (walk_cons _ 0 1 0); [exists tt; cbn; auto|apply walk_arc; exists tt; cbn; auto].
  - exists [[1]; [0]]. split; [now vm_compute|]. rewrite plain_arc. cbn. lia.
Qed.
(** On a graph with cycles transitive_reduction may lose all edges. *)
Theorem C140_cyclic_refuted : exists g : list (list (nat * unit)), wf g /\ walk g 0 1 /\ transitive_reduction g = Some [[]; []; []].
Proof.
  exists (plain [[1; 2]; [0; 2]; [0; 1]]). split; [|split; [|now vm_compute]].
  - intros [|[|[|[|i]]]] e He; cbn in He; try contradiction; destruct He as [<-|[<-|[]]]; cbn; lia.
  - apply walk_arc; exists tt; cbn; auto.
Qed.
Definition dag4 : list (list (nat * unit)) := plain [[2; 1; 3]; [2; 3]; [3; 3]; []].
Example C139_case : wf dag4 /\ acyclic dag4 /\ transitive_closure dag4 = Some [[2; 1; 3]; [2; 3]; [3]; []] /\ transitive_closure (plain [[1]; [2]; [0; 3]; []]) = Some [[1; 2; 3]; [2; 0; 3]; [0; 3; 1]; []].
Proof.
  assert (Inc : forall u v, arc dag4 u v -> u < v) by (intros [|[|[|[|u]]]] v (w & H); cbn in H; repeat (destruct H as [H|H]; [injection H as <- _; lia|]); try destruct H; destruct u; destruct H).
  split; [|split; [|split; now vm_compute]].
  - intros [|[|[|[|i]]]] e He; cbn in He; repeat (destruct He as [<-|He]; [cbn; lia|]); try destruct He. destruct i; destruct He.
  - assert (G : forall u v, walk dag4 u v -> u < v) by (induction 1; [auto|apply Inc in H; lia]). intros u H. apply G in H. lia.
Qed.
Example C140_case : transitive_reduction dag4 = Some [[1]; [2]; [3]; []].
Proof. now vm_compute. Qed.
Print Assumptions C139_closure.
Print Assumptions C139_acyclic.
Print Assumptions C140_reduction.
Print Assumptions C139_self_refuted.
Print Assumptions C140_cyclic_refuted.
