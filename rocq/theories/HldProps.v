(** C160: heavy-light decomposition. *)
From Coq Require Import Lia Permutation.
From Verif Require Import Lib GraphSpec WalkSpec DfsModel DfsSpec LcaModel LcaSpec LcaProofs LcaProofs3 LcaProps HldModel HldSpec HldProofs HldProofs2 HldProofs3.
Open Scope nat_scope.

Section Props.
  Context {W : Type}.
  Variable g : list (list (nat * W)).
  Hypothesis Wf : wf g.
  Hypothesis Forest : undirected_forest g.
  Hypothesis Simple : forall u, NoDup (map fst (out g u)).
  Notation n := (length g).

  (** positions number the nodes; a subtree is an interval of positions; a chain is an interval of positions from its top down *)
  Theorem C160_layout : exists vp g' h, parents g = Some vp /\ hld_build g = Some (g', h) /\
    (forall u, u < n -> exists i m, hld_position h u = Some (Some i) /\ hld_node h i = Some (Some u) /\ hld_size h u = Some m /\ i + m <= n /\
      forall x, anc vp u x <-> exists j, i <= j < i + m /\ hld_node h j = Some (Some x)) /\
    (forall i, i < n -> exists u, u < n /\ hld_node h i = Some (Some u) /\ hld_position h u = Some (Some i)) /\
    (forall u, u < n -> exists c i k top, hld_parent h u = Some c /\ hld_position h u = Some (Some i) /\ up vp k u = Some top /\ nth_error vp top = Some c /\ k <= i /\
      forall m y, m <= k -> up vp m u = Some y -> hld_node h (i - m) = Some (Some y)).
  Proof using Wf Forest Simple.
    destruct (forest_facts g Wf Forest) as (vp & t & E1 & E2 & Lvp & Par & Rt & Hd & Tree). assert (Dep : forall v, v < n -> exists d, at_depth vp v d) by (intros v Lv; destruct (Hd v Lv) as (d & _ & D); eauto).
    destruct (hld_run g Wf Simple vp Lvp Par Rt Dep Tree) as (g' & h & L & E3 & LP & LL & ND & IN & Hnode & Hpos & Hch & Hsz & Hli). exists vp, g', h. split; [exact E1|]. split; [exact E3|].
    assert (NL : forall i x, nth_error L i = Some x -> i < n) by (intros i x E; rewrite <- LL; apply nth_error_Some; congruence). split; [|split].
    - intros u Lu. destruct (In_nth_error L u) as (i & Ei); [now apply IN|]. destruct (Hsz i u Ei) as (m & Em & Lm & Hx). exists i, m. split; [now apply Hpos|]. split; [rewrite Hnode by eauto; now rewrite Ei|]. split; [exact Em|]. split; [exact Lm|]. intros x. rewrite Hx. split; intros (j & Hj & Ej); exists j; (split; [exact Hj|]).
      + rewrite Hnode by lia. congruence.
      + rewrite Hnode in Ej by lia. congruence.
    - intros i Li. destruct (nth_error_some L i) as (u & Eu); [lia|]. exists u. split; [apply IN; eapply nth_error_In; eauto|]. split; [rewrite Hnode by exact Li; congruence|now apply Hpos].
    - intros u Lu. destruct (In_nth_error L u) as (i & Ei); [now apply IN|]. destruct (Hch i u Ei) as (c & Ec & k & r & Lk & H & A & B & _). exists c, i, k, r. split; [exact Ec|]. split; [now apply Hpos|]. split; [exact A|]. split; [exact B|]. split; [exact Lk|]. intros m y Hm Hy. pose proof (H m y Hm Hy) as X. rewrite Hnode by eauto. now rewrite X.
  Qed.

  (** the k-th ancestor, or none *)
  Theorem C160_kth_parent : exists vp t g' h, parents g = Some vp /\ hldx_build g = Some (t, (g', h)) /\
    forall u k, u < n -> kth_parent t h u k = Some (if (k <? 0)%Z then None else up vp (Z.to_nat k) u).
  Proof using Wf Forest Simple.
    destruct (forest_facts g Wf Forest) as (vp & t & E1 & E2 & Lvp & Par & Rt & Hd & Tree). assert (Dep : forall v, v < n -> exists d, at_depth vp v d) by (intros v Lv; destruct (Hd v Lv) as (d & _ & D); eauto).
    destruct (hld_run g Wf Simple vp Lvp Par Rt Dep Tree) as (g' & h & L & E3 & LP & LL & ND & IN & Hnode & Hpos & Hch & Hsz & Hli). exists vp, t, g', h. split; [exact E1|]. unfold hldx_build. rewrite E2. cbn [obind]. rewrite E3. cbn [obind]. split; [reflexivity|].
    assert (NL : forall i x, nth_error L i = Some x -> i < n) by (intros i x E; rewrite <- LL; apply nth_error_Some; congruence).
    assert (PL : forall v p, nth_error vp v = Some (Some p) -> p < n). { intros v p X. pose proof (Par v p X) as A. destruct Forest as (Sym & _). destruct (Sym _ _ A) as (w & Y). exact (Wf v (p, w) Y). }
    assert (DL : forall u d, u < n -> at_depth vp u d -> d < n).
    { intros u d Lu D. pose proof D as (r & D1 & D2). pose proof (climb_nodup _ _ _ _ _ D D1) as N. pose proof (climb_length _ _ _ _ D1) as Q. assert (X : length (u :: climb vp d u) <= n); [|cbn [length] in X; lia]. rewrite <- (seq_length n 0). apply NoDup_incl_length; [exact N|].
      intros x X. apply in_seq. destruct (in_climb _ _ _ _ _ D1 X) as ((m & M) & _). split; [lia|]. cbn. clear - M Lu PL. revert u Lu M. induction m as [|m IH]; intros u Lu M; cbn [up] in M; [congruence|]. destruct (nth_error vp u) as [[p|]|] eqn:Ep; try discriminate. eauto. }
    assert (LO : forall fuel u d e, u < n -> at_depth vp u d -> d < fuel -> e <= d -> kth_loop fuel t h (Z.of_nat e) u = Some (up vp (d - e) u)).
    { induction fuel as [|fuel IH]; intros u d e Lu D Lf Le; [lia|]. cbn [kth_loop]. destruct (In_nth_error L u) as (i & Ei); [now apply IN|]. destruct (Hch i u Ei) as (c & Ec & k & r & Lk & H & A & B & _). rewrite Ec. cbn [obind].
      assert (FIN : forall dp, lca_depth t (zn c) = Some dp -> (dp < Z.of_nat e)%Z -> d - e <= k -> (let* dp := lca_depth t (zn c) in if (dp <? Z.of_nat e)%Z then let* q := hld_position h u in let* du := lca_depth t (Z.of_nat u) in let i := (zn q - (du - Z.of_nat e))%Z in if (i <? 0)%Z then None else hld_node h (Z.to_nat i) else let* p := c in kth_loop fuel t h (Z.of_nat e) p) = Some (up vp (d - e) u)).
      { intros dp -> Lt Lm. cbn [obind]. destruct (Z.ltb_spec dp (Z.of_nat e)); [|lia]. rewrite (Hpos i u Ei). cbn [obind zn]. destruct (Hd u Lu) as (d' & -> & D'). rewrite (at_depth_fun _ _ _ _ D' D). cbn [obind]. destruct (Z.ltb_spec (Z.of_nat i - (Z.of_nat d - Z.of_nat e)) 0); [lia|].
        replace (Z.to_nat (Z.of_nat i - (Z.of_nat d - Z.of_nat e))) with (i - (d - e)) by lia. rewrite Hnode by (pose proof (NL i u Ei); lia). f_equal.
        assert (X : exists y, up vp (d - e) u = Some y). { destruct (up vp (d - e) u) as [y|] eqn:Y; [eauto|]. exfalso. clear - Y A Lm. revert Y A Lm. generalize (d - e) as m. intros m. revert u k. induction m as [|m IH]; intros u k Y A Lm; [discriminate|]. destruct k as [|k]; [lia|]. cbn [up] in *. destruct (nth_error vp u) as [[p|]|]; try discriminate. apply (IH p k); auto. lia. }
        destruct X as (y & Y). rewrite Y. now apply H. }
      destruct c as [p|].
      - assert (Lp : p < n) by eauto. destruct (Hd p Lp) as (dp & Edp & Dp). assert (d = k + (1 + dp)). { apply (at_depth_fun vp u); [exact D|]. eapply at_depth_up; [exact A|]. eapply (at_depth_up vp 1); [cbn; now rewrite B|exact Dp]. }
        destruct (Nat.lt_ge_cases dp e) as [Lt|Ge]; [apply (FIN (Z.of_nat dp)); [exact Edp|lia|lia]|]. cbn [zn]. rewrite Edp. cbn [obind]. destruct (Z.ltb_spec (Z.of_nat dp) (Z.of_nat e)); [lia|]. rewrite (IH p dp e Lp Dp) by lia. f_equal.
        replace (d - e) with (k + (1 + (dp - e))) by lia. rewrite (up_add _ _ _ _ _ A). cbn [Nat.add up]. now rewrite B.
      - assert (d = k + 0). { apply (at_depth_fun vp u); [exact D|]. eapply at_depth_up; [exact A|]. exists r. auto. } apply (FIN (-1)%Z); [reflexivity|lia|lia]. }
    intros u k Lu. unfold kth_parent. destruct (Hd u Lu) as (d & -> & D). cbn [obind]. destruct (Z.ltb_spec k 0); cbn [orb]; [reflexivity|]. destruct (Z.ltb_spec (Z.of_nat d) k).
    - f_equal. destruct (up vp (Z.to_nat k) u) as [y|] eqn:Y; [|reflexivity]. exfalso. destruct D as (r & D1 & D2). replace (Z.to_nat k) with (d + (Z.to_nat k - d)) in Y by lia. rewrite (up_add _ _ _ _ _ D1) in Y. pose proof (root_up _ _ _ _ D2 Y). lia.
    - replace (Z.of_nat d - k)%Z with (Z.of_nat (d - Z.to_nat k)) by lia. rewrite (LO (S (length (h_parents h))) u d) by (auto; try lia; rewrite LP; pose proof (DL u d Lu D); lia). repeat f_equal. lia.
  Qed.

  (** at most log2(n) steps from chain to chain *)
  Theorem C160_few_chains : exists g' h, hld_build g = Some (g', h) /\ forall m u y, u < n -> steps (hld_parent h) m u = Some y -> 2 ^ m <= n.
  Proof using Wf Forest Simple.
    destruct (forest_facts g Wf Forest) as (vp & t & E1 & E2 & Lvp & Par & Rt & Hd & Tree). assert (Dep : forall v, v < n -> exists d, at_depth vp v d) by (intros v Lv; destruct (Hd v Lv) as (d & _ & D); eauto).
    destruct (hld_run g Wf Simple vp Lvp Par Rt Dep Tree) as (g' & h & L & E3 & LP & LL & ND & IN & Hnode & Hpos & Hch & Hsz & Hli). exists g', h. split; [exact E3|].
    assert (PL : forall v p, nth_error vp v = Some (Some p) -> p < n). { intros v p X. pose proof (Par v p X) as A. destruct Forest as (Sym & _). destruct (Sym _ _ A) as (w & Y). exact (Wf v (p, w) Y). }
    assert (UL : forall k u r, u < n -> up vp k u = Some r -> r < n). { induction k as [|k IH]; intros u r Lu M; cbn [up] in M; [congruence|]. destruct (nth_error vp u) as [[p|]|] eqn:Ep; try discriminate. eauto. }
    assert (BL : forall m u y su, u < n -> hld_size h u = Some su -> steps (hld_parent h) m u = Some y -> exists sy, y < n /\ hld_size h y = Some sy /\ 2 ^ m * su <= sy).
    { induction m as [|m IH]; intros u y su Lu Es H; cbn [steps] in H; [injection H as <-; exists su; cbn; repeat split; auto; lia|]. destruct (In_nth_error L u) as (i & Ei); [now apply IN|]. destruct (Hch i u Ei) as (c & Ec & k & r & Lk & Hc & A & B & C). rewrite Ec in H. destruct c as [p|]; [|discriminate].
      assert (Lr : r < n) by eauto. assert (Lp : p < n) by eauto. assert (Er : nth_error L (i - k) = Some r) by (apply Hc; auto). destruct (Hsz _ _ Er) as (sr & Esr & Lsr & Hxr). destruct (Hsz _ _ Ei) as (su' & Esu & Lsu & Hxu). rewrite Es in Esu. injection Esu as <-.
      assert (Le : su <= sr).
      { destruct su as [|su]; [lia|]. destruct (nth_error_some L (i + su)) as (z & Ez); [lia|]. assert (Az : anc vp u z) by (apply Hxu; exists (i + su); split; [lia|exact Ez]). assert (Ar : anc vp r z) by (eapply anc_trans; [exists k; exact A|exact Az]). apply Hxr in Ar as (j & Hj & Ej). pose proof (nth_uniq L _ _ _ ND Ej Ez). lia. }
      destruct (In_nth_error L p) as (ip & Eip); [now apply IN|]. destruct (Hli r p sr ip B Esr Eip) as (sp & Esp & Lsp).
      { intros X. pose proof (nth_uniq L _ _ _ ND Er X) as Q. exact (C p ip eq_refl Q Eip). }
      destruct (IH p y sp Lp Esp H) as (sy & Ly & Ey & Lsy). exists sy. split; [exact Ly|]. split; [exact Ey|]. cbn [Nat.pow]. nia. }
    intros m u y Lu H. destruct (In_nth_error L u) as (i & Ei); [now apply IN|]. destruct (Hsz _ _ Ei) as (su & Esu & Lsu & Hxu). destruct (BL m u y su Lu Esu H) as (sy & Ly & Ey & Le).
    assert (1 <= su). { destruct (proj1 (Hxu u) (anc_refl vp u)) as (j & Hj & _). lia. } destruct (In_nth_error L y) as (iy & Eiy); [now apply IN|]. destruct (Hsz _ _ Eiy) as (sy' & Esy & Lsy & _). rewrite Ey in Esy. injection Esy as <-. nia.
  Qed.

  (** the calls of the visitor cover every node of the path from u over a to v once, at its index *)
  Theorem C160_walk : exists vp t g' h, parents g = Some vp /\ hldx_build g = Some (t, (g', h)) /\
    (forall u v a i j (include : bool), u < n -> v < n -> is_lca vp u v a -> up vp i u = Some a -> up vp j v = Some a ->
      let total := Z.of_nat (i + j + if include then 1 else 0) in
      exists calls, hld_walk t h u v include = Some (total, calls) /\ Forall (call_ok total) calls /\
        Permutation (flat_map (covers (hld_node h)) calls)
          (map (fun m => (Z.of_nat m, up vp m u)) (seq 0 i) ++ map (fun m => (total - 1 - Z.of_nat m, up vp m v)%Z) (seq 0 j) ++ (if include then [(Z.of_nat i, Some a)] else []))) /\
    (forall u v, u < n -> v < n -> apart vp u v -> walk_nodes t h u v = None).
  Proof using Wf Forest Simple.
    destruct (forest_facts g Wf Forest) as (vp & t & E1 & E2 & Lvp & Par & Rt & Hd & Tree). assert (Dep : forall v, v < n -> exists d, at_depth vp v d) by (intros v Lv; destruct (Hd v Lv) as (d & _ & D); eauto).
    destruct (C159_lca g Wf) as (vp2 & t2 & E1' & E2' & _ & Ha). rewrite E1 in E1'. injection E1' as <-. rewrite E2 in E2'. injection E2' as <-.
    destruct (hld_run g Wf Simple vp Lvp Par Rt Dep Tree) as (g' & h & L & E3 & LP & LL & ND & IN & Hnode & Hpos & Hch & Hsz & Hli). exists vp, t, g', h. split; [exact E1|]. unfold hldx_build. rewrite E2. cbn [obind]. rewrite E3. cbn [obind]. split; [reflexivity|].
    assert (PL : forall v p, nth_error vp v = Some (Some p) -> p < n). { intros v p X. pose proof (Par v p X) as A. destruct Forest as (Sym & _). destruct (Sym _ _ A) as (w & Y). exact (Wf v (p, w) Y). }
    assert (IL : forall u k r, u < n -> up vp k u = Some r -> k < n).
    { intros u k r Lu D1. destruct (Dep u Lu) as (d & D). pose proof (climb_nodup _ _ _ _ _ D D1) as N. pose proof (climb_length _ _ _ _ D1) as Q. assert (X : length (u :: climb vp k u) <= n); [|cbn [length] in X; lia]. rewrite <- (seq_length n 0). apply NoDup_incl_length; [exact N|].
      intros x X. apply in_seq. destruct (in_climb _ _ _ _ _ D1 X) as ((m & M) & _). split; [lia|]. cbn. clear - M Lu PL. revert u Lu M. induction m as [|m IH]; intros u Lu M; cbn [up] in M; [congruence|]. destruct (nth_error vp u) as [[p|]|] eqn:Ep; try discriminate. eauto. }
    split.
    - intros u v a i j include Lu Lv HL Ei Ej. set (total := Z.of_nat (i + j + if include then 1 else 0)). assert (La : a < n). { clear - Ei Lu PL. revert u Lu Ei. induction i as [|i IH]; intros u Lu M; cbn [up] in M; [congruence|]. destruct (nth_error vp u) as [[p|]|] eqn:Ep; try discriminate. eauto. }
      destruct (Hd a La) as (da & Eda & Da). destruct (Hd u Lu) as (du & Edu & Du). destruct (Hd v Lv) as (dv & Edv & Dv). pose proof (at_depth_fun _ _ _ _ Du (at_depth_up _ _ _ _ _ Ei Da)) as Hu. pose proof (at_depth_fun _ _ _ _ Dv (at_depth_up _ _ _ _ _ Ej Da)) as Hv.
      destruct (Ha u v Lu Lv) as [(a' & i' & j' & Ean & HL' & Edi & Ei' & Ej')|(_ & _ & Ap)]; [|exfalso; apply (Ap a); split; apply HL].
      assert (a = a') by (apply (anc_antisym vp a a' da Da); [apply HL'|]; apply HL; try apply HL'; apply HL'). 
      subst a'. pose proof (at_depth_fun _ _ _ _ Du (at_depth_up _ _ _ _ _ Ei' Da)) as Hu'. pose proof (at_depth_fun _ _ _ _ Dv (at_depth_up _ _ _ _ _ Ej' Da)) as Hv'. assert (i' = i) by lia. assert (j' = j) by lia. subst i' j'.
      unfold hld_walk. rewrite Ean. cbn [obind]. rewrite Edi. cbn [obind]. unfold to_node. destruct (Z.ltb_spec (Z.of_nat a) 0); [lia|]. rewrite Nat2Z.id, Edu. cbn [obind]. rewrite Edv. cbn [obind].
      replace (Z.of_nat (i + j) + (if include then 1 else 0))%Z with total by (unfold total; destruct include; lia). pose proof (IL u i a Lu Ei). pose proof (IL v j a Lv Ej).
      assert (Q0 := loop_ok n vp t h L LL IN Hnode Hpos Hch Hd PL u du a i (fun dw len => (Z.of_nat du - dw + len - 1, Z.of_nat du - dw)%Z) true total (fun m => Z.of_nat m) Lu Du Ei). edestruct Q0 with (fuel := S (length (h_parents h))) (s := 0) (w := u) as (c1 & X1 & F1 & P1).
      { intros. cbn. lia. } { intros. cbn. lia. } { rewrite LP. lia. } { lia. } { reflexivity. }
      cbv zeta in X1 |- *. rewrite X1. cbn [obind]. clear Q0.
      assert (Q0 := loop_ok n vp t h L LL IN Hnode Hpos Hch Hd PL v dv a j (fun dw len => (total - (Z.of_nat dv - dw) - len, total - (Z.of_nat dv - dw) - 1)%Z) false total (fun m => (total - 1 - Z.of_nat m)%Z) Lv Dv Ej). edestruct Q0 with (fuel := S (length (h_parents h))) (s := 0) (w := v) as (c2 & X2 & F2 & P2).
      { intros. cbn. lia. } { intros. cbn. lia. } { rewrite LP. lia. } { lia. } { reflexivity. }
      cbv zeta in X2. rewrite X2. cbn [obind]. rewrite Nat.sub_0_r in P1, P2. destruct include.
      + destruct (In_nth_error L a) as (q & Eq); [now apply IN|]. assert (Lq : q < n) by (rewrite <- LL; apply nth_error_Some; congruence). rewrite (Hpos q a Eq). cbn [obind]. rewrite Eda. cbn [obind zn]. eexists. split; [reflexivity|]. split.
        * rewrite !Forall_app. split; [exact F1|]. split; [exact F2|]. constructor; [|constructor]. cbn. lia.
        * rewrite !flat_map_app. apply Permutation_app; [exact P1|]. apply Permutation_app; [exact P2|]. cbn [flat_map covers]. replace (Z.to_nat (Z.of_nat q + 1 - Z.of_nat q)) with 1 by lia. cbn [seq map app]. rewrite Nat2Z.id, Nat.add_0_r, Hnode, Eq by lia. replace (Z.of_nat du - Z.of_nat da + Z.of_nat 0)%Z with (Z.of_nat i) by lia. reflexivity.
      + eexists. split; [reflexivity|]. split; [rewrite Forall_app; auto|]. rewrite flat_map_app, app_nil_r. apply Permutation_app; [exact P1|exact P2].
    - intros u v Lu Lv Ap. destruct (Ha u v Lu Lv) as [(a' & i' & j' & _ & HL' & _)|(Ean & Edi & _)]; [exfalso; apply (Ap a'); split; apply HL'|]. unfold walk_nodes, hld_walk. rewrite Ean. cbn [obind]. rewrite Edi. cbn [obind to_node Z.ltb Z.compare].
      destruct (lca_depth t (Z.of_nat u)); [|reflexivity]. cbn [obind]. destruct (lca_depth t (Z.of_nat v)); [|reflexivity]. cbn [obind]. destruct (walk_loop _ _ _ _ _ true _ _); [|reflexivity]. cbn [obind]. destruct (walk_loop _ _ _ _ _ false _ _); reflexivity.
  Qed.
End Props.

(** the construction exchanges the targets of edges but not their weights *)
Definition weighted : list (list (nat * Z)) := [[(1, 5%Z); (2, 7%Z)]; [(0, 5%Z)]; [(0, 7%Z); (3, 1%Z)]; [(2, 1%Z)]].
Theorem C160_keeps_edges_refuted : ~ forall (g g' : wgraph) h, wf g -> undirected_forest g -> hld_build g = Some (g', h) -> forall u e, In e (out g' u) -> In e (out g u).
Proof.
  intros H. assert (X : In (2, 5%Z) (out weighted 0)); [|cbn in X; intuition congruence].
  eapply (H weighted); [| |vm_compute; reflexivity|left; reflexivity].
  - intros [|[|[|[|u]]]] e X; cbn in X; [| | | |destruct u; destruct X]; intuition (subst; cbn; lia).
  - apply forestb_ok; [|vm_compute; reflexivity]. intros [|[|[|[|u]]]] e X; cbn in X; [| | | |destruct u; destruct X]; intuition (subst; cbn; lia).
Qed.

Definition hld_answers : option (list (option (option nat)) * list (option nat) * list (option (option nat)) * option (Z * list call)) :=
  let* '(t, (_, h)) := hldx_build two_trees in
  Some (map (hld_parent h) (seq 0 8) ++ map (hld_position h) (seq 0 8), map (hld_size h) (seq 0 8), map (fun k => kth_parent t h 5 k) [-1; 0; 1; 2; 3]%Z, walk_nodes t h 4 5).
Example C160_case : wf two_trees /\ undirected_forest two_trees /\ (forall u, NoDup (map fst (out two_trees u))) /\
  hld_answers = Some (map Some [None; None; None; Some 0; Some 1; Some 0; None; None; Some 0; Some 1; Some 2; Some 4; Some 3; Some 5; Some 6; Some 7],
    map Some [6; 3; 1; 2; 1; 1; 2; 1], map Some [None; Some 5; Some 3; Some 0; None],
    Some (5, [(3, 4, 0, 0, 5, true); (1, 2, 1, 1, 5, true); (4, 6, 3, 4, 5, false); (0, 1, 2, 2, 5, false)])%Z).
Proof.
  split; [apply two_trees_wf|]. split; [apply two_trees_forest|]. split; [|vm_compute; reflexivity].
  intros u. unfold out. do 8 (destruct u as [|u]; [cbn; repeat constructor; cbn; intuition lia|]). destruct u; constructor.
Qed.
Print Assumptions C160_layout.
Print Assumptions C160_kth_parent.
Print Assumptions C160_few_chains.
Print Assumptions C160_walk.
Print Assumptions C160_keeps_edges_refuted.
