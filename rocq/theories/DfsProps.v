(** C144: topological sorting; C145: the forest of a depth first search. *)
From Coq Require Import Permutation.
From Verif Require Import Lib GraphSpec WalkSpec ClosProofs DfsModel DfsSpec DfsProofs DfsProofs2.
Open Scope nat_scope.

Lemma split_unique (v : nat) : forall a b l z, NoDup (a ++ v :: b) -> a ++ v :: b = l ++ v :: z -> a = l.
Proof.
  induction a as [|t a IH]; intros b [|t' l] z ND B; cbn in *; [reflexivity| | |].
  - injection B as <- ->. inversion ND. destruct H1. apply in_or_app. right. now left.
  - injection B as -> B. inversion ND. destruct H1. apply in_or_app. right. now left.
  - injection B as <- B. f_equal. apply (IH b l z); [now inversion ND|exact B].
Qed.

Section Props.
  Context {W : Type}.
  Variable g : list (list (nat * W)).
  Hypothesis Wf : wf g.

  Theorem C144_in_degrees : exists deg, in_degrees g = Some deg /\ length deg = length g /\ forall v, v < length g -> nth_error deg v = Some (indegree g v).
  Proof using Wf. apply in_degrees_run, Wf. Qed.

  Theorem C144_topological_sort : acyclic g -> exists l, topological_sort g = Some l /\ topological g l.
  Proof using Wf.
    intros Ac. destruct (topo_run g Wf) as (l & E & ND & Hin & Ho). exists l. split; [exact E|].
    assert (All : forall v, v < length g -> In v l) by (intros v L; apply Hin; now apply dag_from_source).
    assert (Lt : forall v, In v l -> v < length g). { intros v X. apply Hin in X as (r & (Lr & _) & [<-|H]); [exact Lr|now apply (walk_lt g Wf) in H]. }
    split.
    - apply NoDup_Permutation; [exact ND|apply seq_NoDup|]. intros v. rewrite in_seq. split; [intros X; specialize (Lt v X); lia|intros X; apply All; lia].
    - intros u v A. destruct (in_split u l) as (a & b & ->); [apply All; now apply (arc_lt g Wf) in A|]. pose proof (Ho Ac a u b eq_refl v A) as X. destruct (in_split v b X) as (c & d & ->). now exists a, c, d.
  Qed.

  Theorem C144_any_graph : exists l, topological_sort g = Some l /\ NoDup l /\ forall v, In v l <-> exists r, source g r /\ (r = v \/ walk g r v).
  Proof using Wf. destruct (topo_run g Wf) as (l & E & ND & Hin & _). exists l. auto. Qed.

  Theorem C145_parents : exists vp, parents g = Some vp /\ length vp = length g /\
    (forall v p, nth_error vp v = Some (Some p) -> arc g p v) /\
    (forall v, v < length g -> (nth_error vp v = Some None <-> forall u, u < v -> ~ walk g u v)) /\
    (forall v, v < length g -> exists k r, up vp k v = Some r /\ nth_error vp r = Some None).
  Proof using Wf.
    destruct (parents_run g Wf) as (vp & E & fin & ND & All & Lp & _ & _ & H). cbn [rev app] in H. exists vp. split; [exact E|]. split; [exact Lp|]. split; [|split].
    - intros v p Ep. assert (Lv : v < length g) by (rewrite <- Lp; apply nth_error_Some; congruence). destruct (H v (All v Lv)) as [(Y & _)|(q & Y & A & _)]; congruence.
    - intros v Lv. destruct (H v (All v Lv)) as [(Y & N)|(q & Y & A & _ & r & Lr & Wr)]; [tauto|]. split; [congruence|]. intros N. destruct (N r Lr Wr).
    - intros v Lv. destruct (in_split v fin (All v Lv)) as (a & b & Ef). assert (G : forall k a b v, length a <= k -> fin = a ++ v :: b -> exists k r, up vp k v = Some r /\ nth_error vp r = Some None).
      { clear a b v Lv Ef. induction k as [|k IH]; intros a b v La Ef; (destruct (H v) as [(Y & N)|(q & Y & A & (x & y & z & B) & _)]; [rewrite Ef; apply in_or_app; right; now left|now exists 0, v|]).
        all: assert (Ea : a = x ++ q :: y) by (apply (split_unique v a b _ z); [now rewrite <- Ef|]; rewrite <- Ef, B, <- app_assoc; reflexivity).
        - subst a. rewrite app_length in La. cbn in La. lia.
        - destruct (IH x (y ++ v :: z) q) as (m & r & Em & Er); [subst a; rewrite app_length in La; cbn in La; lia|exact B|]. exists (S m), r. cbn [up]. rewrite Y. auto. }
      exact (G (length a) a b v (le_n _) Ef).
  Qed.
End Props.

(** a full result does not mean that the graph is acyclic *)
Theorem C144_detects_cycles_refuted : ~ forall (g : list (list (nat * unit))) l, wf g -> topological_sort g = Some l -> length l = length g -> acyclic g.
Proof.
  intros H. specialize (H (plain [[1]; [2]; [1]]) [0; 1; 2]). apply (H ltac:(intros [|[|[|i]]] e X; cbn in X; [| | |destruct i; destruct X]; intuition (subst; cbn; lia)) eq_refl eq_refl 1).
  apply (walk_cons _ 1 2 1); [exists tt; cbn; auto|]. constructor. exists tt. cbn. auto.
Qed.

Definition dag : list (list (nat * unit)) := plain [[2]; [0; 3]; [3]; []; [2; 1]].
Lemma dag_wf : wf dag.
Proof. intros [|[|[|[|[|i]]]]] e X; cbn in X; [| | | | |destruct i; destruct X]; intuition (subst; cbn; lia). Qed.
Lemma dag_acyclic : acyclic dag.
Proof.
  set (rk := fun v => match v with 0 => 2 | 1 => 1 | 2 => 3 | 3 => 4 | _ => 0 end).
  assert (A : forall u v, arc dag u v -> rk u < rk v). { intros [|[|[|[|[|u]]]]] v (w & X); cbn in X; intuition (try congruence; repeat match goal with E : (_, _) = (_, _) |- _ => injection E as <- <- end; cbn; try lia). destruct u; destruct X. }
  assert (B : forall u v, walk dag u v -> rk u < rk v). { induction 1 as [u v X|u x v X _ IH]; [now apply A|]. apply A in X. lia. }
  intros u X. apply B in X. lia.
Qed.
Example C144_case : wf dag /\ acyclic dag /\ topological_sort dag = Some [4; 1; 0; 2; 3] /\ in_degrees dag = Some [1; 1; 2; 2; 0].
Proof. split; [apply dag_wf|]. split; [apply dag_acyclic|]. vm_compute. auto. Qed.
Example C145_case : wf dag /\ parents dag = Some [None; None; Some 0; Some 2; None].
Proof. split; [apply dag_wf|]. vm_compute. reflexivity. Qed.
Print Assumptions C144_in_degrees.
Print Assumptions C144_topological_sort.
Print Assumptions C144_any_graph.
Print Assumptions C145_parents.
Print Assumptions C144_detects_cycles_refuted.
