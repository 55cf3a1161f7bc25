(** C141: all shortest paths. *)
From Verif Require Import Lib GraphSpec WalkSpec ClosModel FloydModel FloydProofs.
Open Scope nat_scope.

(** floyd_warshall(g, inf) for a graph without negative cycles whose simple paths are lighter than inf: the entry (u, v) is the least
    weight of a walk and the next node on such a walk, or { -1, inf } if there is none *)
Theorem C141_floyd_warshall : forall g inf, wf g -> no_negative_cycle g -> below g inf ->
  exists t, floyd_warshall g inf = Some t /\ length t = length g /\ (forall i r, nth_error t i = Some r -> length r = length g) /\
    forall u v, u < length g -> v < length g -> exists e, t_get t u v = Some e /\
      match e with
      | (None, d) => d = inf /\ forall w, ~ wwalk g u v w
      | (Some a, d) => shortest g u v d /\ (u = v -> a = u) /\ (u <> v -> exists c, In (a, c) (out g u) /\ shortest g a v (d - c))
      end.
Proof.
  intros g inf Wf Nn Bl. destruct (floyd_run g Wf Nn inf Bl) as (t & E & Sq & O & B). exists t. split; [exact E|]. split; [apply Sq|]. split; [apply Sq|].
  intros u v Hu Hv. destruct (t_get_some _ t u v Sq Hu Hv) as (e & Ee). exists e. split; [exact Ee|]. apply (final g Wf Nn inf); auto.
Qed.
(** a sufficient bound: n times the heaviest edge *)
Lemma wpath_bound g M u l v w : (forall u v a, In (v, a) (out g u) -> (a <= M)%Z) -> wpath g u l v w -> (w <= Z.of_nat (S (length l)) * M)%Z.
Proof. intros H. induction 1 as [u v a Ha|u x l v a w Ha _ IH]; [apply H in Ha; cbn [length]; lia|]. apply H in Ha. cbn [length] in *. rewrite Nat2Z.inj_succ, Z.mul_succ_l. lia. Qed.
Lemma below_bound g inf M : wf g -> (0 <= M)%Z -> (forall u v a, In (v, a) (out g u) -> (a <= M)%Z) -> (Z.of_nat (length g) * M < inf)%Z -> below g inf.
Proof.
  intros Wf HM H Hi u l v w P ND. pose proof (wpath_bound g M u l v w H P) as Q.
  assert (L : length (u :: l ++ [v]) <= length (seq 0 (length g))).
  { apply NoDup_incl_length; [exact ND|]. intros x Hx. apply in_seq. split; [lia|]. clear -P Wf Hx. revert Hx. induction P as [u v a Ha|u y l v a w Ha _ IH]; cbn.
    - destruct (edge_lt g Wf _ _ _ Ha). intros [<-|[<-|[]]]; lia.
    - destruct (edge_lt g Wf _ _ _ Ha). intros [<-|Hx]; [lia|]. apply IH. exact Hx. }
  cbn [length] in L. rewrite app_length, seq_length in L. cbn [length] in L. nia.
Qed.
Theorem C141_bound : forall g inf M, wf g -> (0 <= M)%Z -> (forall u v a, In (v, a) (out g u) -> (a <= M)%Z) -> (Z.of_nat (length g) * M < inf)%Z -> below g inf.
Proof. exact below_bound. Qed.
(** Entries heavier than inf are lost: with inf = 5 the walk 0 -> 1 -> 2 -> 3 of weight 3 is not found although 3 < 5. *)
Theorem C141_inf_refuted : exists g t, wf g /\ no_negative_cycle g /\ floyd_warshall g 5 = Some t /\ shortest g 0 3 3 /\ t_get t 0 3 = Some (None, 5%Z).
Proof.
  set (g := [[(1, 4%Z)]; [(2, 4%Z)]; [(3, (-5)%Z)]; []] : wgraph).
  assert (Ed : forall u x a, In (x, a) (out g u) -> u = 0 /\ x = 1 /\ a = 4%Z \/ u = 1 /\ x = 2 /\ a = 4%Z \/ u = 2 /\ x = 3 /\ a = (-5)%Z).
  { intros [|[|[|[|u]]]] x a H; cbn in H; repeat (destruct H as [H|H]; [injection H as <- <-; lia|]); try destruct H. destruct u; destruct H. }
  assert (Val : forall u v w, wwalk g u v w -> u <= v /\ w = (nth v [0; 4; 8; 3]%Z 0%Z - nth u [0; 4; 8; 3]%Z 0%Z)%Z).
  { induction 1 as [u H|u x v a w Ha _ (IH1 & IH2)]; [split; [lia|lia]|]. apply Ed in Ha as [(-> & -> & ->)|[(-> & -> & ->)|(-> & -> & ->)]]; cbn [nth] in *; split; lia. }
  exists g. eexists. split; [|split; [|split; [vm_compute; reflexivity|split; [|vm_compute; reflexivity]]]].
  - intros u (x, a) H. apply Ed in H. cbn [fst length]. change (length g) with 4. lia.
  - intros u w H. apply Val in H. lia.
  - split; [|intros w H; apply Val in H; cbn in H; lia]. change 3%Z with (4 + (4 + (-5 + 0)))%Z. eapply ww_cons; [cbn; auto|]. eapply ww_cons; [cbn; auto|]. eapply ww_cons; [cbn; auto|]. constructor. cbn. lia.
Qed.
Definition fw4 : wgraph := [[(1, 3%Z); (1, 7%Z); (2, 8%Z)]; [(2, (-2)%Z); (0, 4%Z)]; [(3, 2%Z); (2, 1%Z)]; []; [(0, 1%Z)]].
Example C141_case : floyd_warshall fw4 100 = Some [
  [(Some 0, (0)%Z); (Some 1, (3)%Z); (Some 1, (1)%Z); (Some 1, (3)%Z); (None, (100)%Z)]; [(Some 0, (4)%Z); (Some 1, (0)%Z); (Some 2, (-2)%Z); (Some 2, (0)%Z); (None, (100)%Z)];
  [(None, (100)%Z); (None, (100)%Z); (Some 2, (0)%Z); (Some 3, (2)%Z); (None, (100)%Z)]; [(None, (100)%Z); (None, (100)%Z); (None, (100)%Z); (Some 3, (0)%Z); (None, (100)%Z)];
  [(Some 0, (1)%Z); (Some 0, (4)%Z); (Some 0, (2)%Z); (Some 0, (4)%Z); (Some 4, (0)%Z)]] /\ wf fw4 /\ no_negative_cycle fw4 /\ below fw4 100.
Proof.
  assert (Wf : wf fw4). { intros [|[|[|[|[|u]]]]] e H; cbn in H; repeat (destruct H as [<-|H]; [cbn; lia|]); try destruct H. destruct u; destruct H. }
  split; [now vm_compute|]. split; [exact Wf|]. split.
  - assert (Val : forall u v w, wwalk fw4 u v w -> (nth u [0; -3; -5; -7; 0] 0 <= w + nth v [0; -3; -5; -7; 0] 0 + 0)%Z \/ True) by auto.
    assert (V : forall u v w, wwalk fw4 u v w -> (nth v [0; 3; 1; 3; -1]%Z 0%Z - nth u [0; 3; 1; 3; -1]%Z 0%Z <= w)%Z).
    { induction 1 as [u H|u x v a w Ha _ IH]; [lia|]. destruct u as [|[|[|[|[|u]]]]]; cbn in Ha; repeat (destruct Ha as [Ha|Ha]; [injection Ha as <- <-; cbn [nth] in *; lia|]); try destruct Ha. destruct u; destruct Ha. }
    intros u w H. apply V in H. lia.
  - apply (below_bound fw4 100 8 Wf); [lia| |now vm_compute]. intros u v a Ha. destruct u as [|[|[|[|[|u]]]]]; cbn in Ha; repeat (destruct Ha as [Ha|Ha]; [injection Ha as <- <-; lia|]); try destruct Ha. destruct u; destruct Ha.
Qed.
Print Assumptions C141_floyd_warshall.
Print Assumptions C141_bound.
Print Assumptions C141_inf_refuted.
