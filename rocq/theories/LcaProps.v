(** C159: lowest common ancestors. *)
From Coq Require Import Lia.
From Verif Require Import Lib GraphSpec WalkSpec DfsModel DfsSpec DfsProps LcaModel LcaSpec LcaProofs LcaProofs2 LcaProofs3.
Open Scope nat_scope.

Section Props.
  Context {W : Type}.
  Variable g : list (list (nat * W)).
  Hypothesis Wf : wf g.

  (** the answers for the forest of a depth first search (C145) *)
  Theorem C159_lca : exists vp t, parents g = Some vp /\ lca_build g = Some t /\
    (forall u, u < length g -> exists d, lca_depth t (Z.of_nat u) = Some (Z.of_nat d) /\ at_depth vp u d) /\
    (forall u v, u < length g -> v < length g ->
      (exists a i j, lca_ancestor t (Z.of_nat u) (Z.of_nat v) = Some (Z.of_nat a) /\ is_lca vp u v a /\
        lca_distance t (Z.of_nat u) (Z.of_nat v) = Some (Z.of_nat (i + j)) /\ up vp i u = Some a /\ up vp j v = Some a) \/
      (lca_ancestor t (Z.of_nat u) (Z.of_nat v) = Some (-1)%Z /\ lca_distance t (Z.of_nat u) (Z.of_nat v) = Some (-1)%Z /\ apart vp u v)).
  Proof using Wf.
    destruct (queries g Wf) as (vp & t & E1 & E2 & Hd & Ha). exists vp, t. split; [exact E1|]. split; [exact E2|]. split; [exact Hd|]. intros u v Hu Hv. unfold lca_distance.
    destruct (Ha u v Hu Hv) as [(a & HL & Ea & La)|(HL & Ea)]; [left|right; rewrite Ea; auto]. pose proof HL as ((i & Ei) & (j & Ej) & _). exists a, i, j. split; [exact Ea|]. split; [exact HL|]. split; [|auto].
    rewrite Ea. cbn [obind]. destruct (Z.ltb_spec (Z.of_nat a) 0); [lia|]. destruct (Hd u Hu) as (du & -> & Du). destruct (Hd v Hv) as (dv & -> & Dv). destruct (Hd a La) as (da & -> & Da). cbn [obind]. f_equal.
    pose proof (at_depth_fun _ _ _ _ Du (at_depth_up _ _ _ _ _ Ei Da)). pose proof (at_depth_fun _ _ _ _ Dv (at_depth_up _ _ _ _ _ Ej Da)). lia.
  Qed.
  (** the shortest routes in an undirected forest *)
  Theorem C159_distance : undirected_forest g -> exists t, lca_build g = Some t /\ forall u v, u < length g -> v < length g ->
    ((exists l, route g u l v /\ NoDup (u :: l) /\ lca_distance t (Z.of_nat u) (Z.of_nat v) = Some (Z.of_nat (length l)) /\ forall l', route g u l' v -> length l <= length l') \/
     (lca_ancestor t (Z.of_nat u) (Z.of_nat v) = Some (-1)%Z /\ lca_distance t (Z.of_nat u) (Z.of_nat v) = Some (-1)%Z /\ forall l, ~ route g u l v)).
  Proof using Wf.
    intros (Sym & Loop & Cyc). destruct C159_lca as (vp & t & E1 & E2 & Hd & Ha). destruct (C145_parents g Wf) as (vp' & E1' & Lp & Par & Rt & _). rewrite E1 in E1'. injection E1' as <-. exists t. split; [exact E2|].
    assert (Dep : forall v, v < length g -> exists d, at_depth vp v d) by (intros v Lv; destruct (Hd v Lv) as (d & _ & D); eauto).
    assert (Con : forall u l v, u < length g -> v < length g -> route g u l v -> ~ apart vp u v).
    { intros u l v Lu Lv R Ap. destruct (Dep u Lu) as (du & ru & U1 & U2). destruct (Dep v Lv) as (dv & rv & V1 & V2). assert (ru = rv).
      { pose proof (climb_route g Sym vp Par _ _ _ U1) as R1. destruct (route_rev g Sym _ _ _ R1) as (l1 & R1' & _). pose proof (climb_route g Sym vp Par _ _ _ V1) as R2.
        pose proof (route_app g _ _ _ _ _ (route_app g _ _ _ _ _ R1' R) R2) as R3. destruct (route_rev g Sym _ _ _ R3) as (l4 & R4 & _).
        assert (Lr : forall r, nth_error vp r = Some None -> r < length g) by (intros r X; rewrite <- Lp; apply nth_error_Some; congruence).
        destruct (Nat.lt_trichotomy ru rv) as [L|[L|L]]; [|exact L|].
        - destruct (route_walk g _ _ _ R3) as [X|X]; [exact X|]. destruct (proj1 (Rt rv (Lr rv V2)) V2 ru L X).
        - destruct (route_walk g _ _ _ R4) as [X|X]; [now symmetry|]. destruct (proj1 (Rt ru (Lr ru U2)) U2 rv L X). }
      subst rv. apply (Ap ru). split; eexists; eassumption. }
    assert (Tree : forall u v, arc g u v -> nth_error vp v = Some (Some u) \/ nth_error vp u = Some (Some v)).
    { intros u v A. assert (L : forall x y, arc g x y -> y < length g) by (intros x y (w & X); exact (Wf x (y, w) X)). pose proof (L _ _ A) as Lv. pose proof (L _ _ (Sym _ _ A)) as Lu.
      destruct (Ha u v Lu Lv) as [(a & i & j & _ & HL & _ & Ei & Ej)|(_ & _ & Ap)]; [|destruct (Con u [v] v Lu Lv); [econstructor; [exact A|constructor]|exact Ap]].
      destruct (tree_route g Sym vp Par Dep u v a i j Lu Lv HL Ei Ej) as (l & R & ND & Ll). destruct (Nat.le_gt_cases 2 (length l)) as [X|X]; [destruct (Cyc u l v R ND X (Sym _ _ A))|].
      destruct i as [|[|i]], j as [|[|j]]; try lia; cbn [up] in Ei, Ej.
      - injection Ei as ->. injection Ej as ->. destruct (Loop _ A).
      - injection Ei as ->. left. destruct (nth_error vp v) as [[p|]|]; congruence.
      - injection Ej as ->. right. destruct (nth_error vp u) as [[p|]|]; congruence. }
    intros u v Lu Lv. destruct (Ha u v Lu Lv) as [(a & i & j & _ & HL & Ed & Ei & Ej)|(Ea & Ed & Ap)]; [left|right; split; [exact Ea|]; split; [exact Ed|]; intros l R; exact (Con u l v Lu Lv R Ap)].
    destruct (tree_route g Sym vp Par Dep u v a i j Lu Lv HL Ei Ej) as (l & R & ND & Ll). exists l. rewrite Ll. repeat split; auto. intros l' R'. destruct (route_common g Sym vp Par Dep Tree _ _ _ R') as (b & i' & j' & Ei' & Ej' & L').
    pose proof (lca_least g Sym vp Par Dep Tree u v a i j b i' j' Lu Lv HL Ei Ej Ei' Ej'). lia.
  Qed.
End Props.
Theorem C159_no_node t u v : (u < 0 \/ v < 0)%Z -> lca_ancestor t u v = Some (-1)%Z /\ lca_distance t u v = Some (-1)%Z.
Proof. intros H. assert (E : lca_ancestor t u v = Some (-1)%Z) by (unfold lca_ancestor; destruct (Z.ltb_spec u 0), (Z.ltb_spec v 0); try lia; reflexivity). split; [exact E|]. unfold lca_distance. rewrite E. reflexivity. Qed.

Definition two_trees : list (list (nat * unit)) := plain [[1; 3]; [0; 2; 4]; [1]; [0; 5]; [1]; [3]; [7]; [6]].
Definition answers : option (list (option Z)) :=
  let* t := lca_build two_trees in
  Some (map (fun u => lca_depth t (Z.of_nat u)) (seq 0 8) ++ [lca_ancestor t 2 4; lca_distance t 2 4; lca_ancestor t 5 2; lca_distance t 5 2; lca_ancestor t 3 7; lca_distance t 3 7])%Z.
Lemma two_trees_wf : wf two_trees.
Proof. intros u e X. unfold out in X. do 8 (destruct u as [|u]; [cbn in X; intuition (subst; cbn; lia)|]). destruct u; destruct X. Qed.
Lemma two_trees_forest : undirected_forest two_trees.
Proof. apply forestb_ok; [apply two_trees_wf|]. vm_compute. reflexivity. Qed.
Example C159_case : wf two_trees /\ undirected_forest two_trees /\ answers = Some (map Some [0; 1; 2; 1; 2; 2; 0; 1; 1; 2; 0; 4; -1; -1])%Z.
Proof. split; [apply two_trees_wf|]. split; [apply two_trees_forest|]. vm_compute. reflexivity. Qed.
Print Assumptions C159_lca.
Print Assumptions C159_distance.
Print Assumptions C159_no_node.
