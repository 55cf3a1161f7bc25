(** The walk between two nodes. *)
From Coq Require Import Lia Permutation.
From Verif Require Import Lib GraphSpec WalkSpec DfsModel DfsSpec LcaModel LcaSpec LcaProofs LcaProofs3 HldModel HldSpec HldProofs HldProofs2.
Open Scope nat_scope.

  Lemma seq_perm {T} (F : nat -> T) s len k : Permutation (map F (map (fun x => s + len - 1 - x) (seq 0 len)) ++ map F (seq (s + len) k)) (map F (seq s (len + k))).
  Proof.
    rewrite seq_app, map_app. apply Permutation_app_tail. apply Permutation_map. apply NoDup_Permutation.
    - rewrite <- (rev_involutive (map _ _)). apply NoDup_rev. assert (X : NoDup (map (fun x => s + len - 1 - x) (seq 0 len))); [|now apply NoDup_rev].
      assert (G : forall l, NoDup l -> (forall x, In x l -> x < len) -> NoDup (map (fun x => s + len - 1 - x) l)); [|apply G; [apply seq_NoDup|intros x X; apply in_seq in X; lia]].
      induction l as [|x l IH]; intros N B; [constructor|]. inversion N as [|? ? N1 N2]. cbn. constructor; [|apply IH; [exact N2|intros; apply B; now right]]. intros X. apply in_map_iff in X as (y & E & Y). pose proof (B x (or_introl eq_refl)). pose proof (B y (or_intror Y)). assert (x = y) by lia. subst y. contradiction.
    - apply seq_NoDup.
    - intros x. rewrite in_map_iff. split.
      + intros (y & <- & Y). apply in_seq in Y. apply in_seq. lia.
      + intros X. apply in_seq in X. exists (s + len - 1 - x). split; [lia|]. apply in_seq. lia.
  Qed.

Section Walk.
  Variable n : nat.
  Variable vp : list (option nat).
  Variable t : lca_t.
  Variable h : hld_t.
  Variable L : list nat.
  Hypothesis LL : length L = n.
  Hypothesis IN : forall x, In x L <-> x < n.
  Hypothesis Hnode : forall i, i < n -> hld_node h i = Some (nth_error L i).
  Hypothesis Hpos : forall i x, nth_error L i = Some x -> hld_position h x = Some (Some i).
  Hypothesis Hch : forall i x, nth_error L i = Some x -> exists c, hld_parent h x = Some c /\ chained vp L x i c.
  Hypothesis Hd : forall u, u < n -> exists d, lca_depth t (Z.of_nat u) = Some (Z.of_nat d) /\ at_depth vp u d.
  Hypothesis PL : forall v p, nth_error vp v = Some (Some p) -> p < n.
  Lemma up_lt : forall k u r, u < n -> up vp k u = Some r -> r < n.
  Proof using All. induction k as [|k IH]; intros u r Lu M; cbn [up] in M; [congruence|]. destruct (nth_error vp u) as [[p|]|] eqn:Ep; try discriminate. eauto. Qed.
  Lemma up_some : forall k u r m, up vp k u = Some r -> m <= k -> exists y, up vp m u = Some y.
  Proof using All.
    induction k as [|k IH]; intros u r [|m] M Lm; try lia; try (cbn; eauto). cbn [up] in *. destruct (nth_error vp u) as [[p|]|]; try discriminate. apply (IH p r); [exact M|lia].
  Qed.
  Variables (u du a i : nat) (mk : Z -> Z -> Z * Z) (rv : bool) (uv : Z) (ix : nat -> Z).
  Hypothesis Lu : u < n.
  Hypothesis Du : at_depth vp u du.
  Hypothesis Ei : up vp i u = Some a.
  Hypothesis Hmk : forall s len x, s + len <= i -> x < len -> (if rv then fst (mk (Z.of_nat (du - s)) (Z.of_nat len)) - Z.of_nat x else fst (mk (Z.of_nat (du - s)) (Z.of_nat len)) + Z.of_nat x)%Z = ix (s + len - 1 - x).
  Hypothesis Hmk2 : forall s len, s + len <= i -> 1 <= len -> snd (mk (Z.of_nat (du - s)) (Z.of_nat len)) = ix s.
  Lemma loop_ok : forall fuel s w, i - s < fuel -> s <= i -> up vp s u = Some w ->
    exists cs, walk_loop fuel t h (Some a) mk rv uv (Some w) = Some cs /\ Forall (call_ok uv) cs /\ Permutation (flat_map (covers (hld_node h)) cs) (map (fun m => (ix m, up vp m u)) (seq s (i - s))).
  Proof using All.
    assert (La : a < n) by exact (up_lt i u a Lu Ei). destruct (Hd a La) as (da & Eda & Da). assert (Edu : du = i + da) by (apply (at_depth_fun vp u); [exact Du|eapply at_depth_up; eauto]).
    induction fuel as [|fuel IH]; intros s w Lf Ls Es; [lia|]. assert (Lw : w < n) by exact (up_lt s u w Lu Es).
    assert (Ewa : up vp (i - s) w = Some a) by (rewrite <- (up_add vp s (i - s) u w Es); replace (s + (i - s)) with i by lia; exact Ei).
    destruct (Hd w Lw) as (dw & Edw & Dw). assert (Hdw : dw = i - s + da) by (apply (at_depth_fun vp w); [exact Dw|eapply at_depth_up; eauto]).
    cbn [walk_loop same]. destruct (Nat.eqb_spec w a) as [->|Nwa].
    { rewrite (at_depth_fun _ _ _ _ Dw Da) in Hdw. replace (i - s) with 0 by lia. exists []. split; [reflexivity|]. split; [constructor|]. reflexivity. }
    assert (Lis : s < i). { destruct (Nat.eq_dec s i) as [->|]; [|lia]. congruence. }
    cbn [obind]. destruct (In_nth_error L w) as (q & Eq); [now apply IN|]. assert (Lq : q < n) by (rewrite <- LL; apply nth_error_Some; congruence). destruct (Hch q w Eq) as (c & Ec & k & r & Lk & Hc & A & B & _). rewrite Ec. cbn [obind].
    (* the target of this step *)
    assert (ST : exists p len, 1 <= len <= i - s /\ len <= S k /\ up vp len w = Some p /\ exists dp, lca_depth t (zn c) = Some dp /\ (if (dp <? Z.of_nat da)%Z then Some a else c) = Some p).
    { assert (Dr : forall d, at_depth vp r d -> dw = k + d) by (intros d D; apply (at_depth_fun vp w); [exact Dw|eapply at_depth_up; eauto]). destruct c as [p|].
      - assert (Lp : p < n) by eauto. destruct (Hd p Lp) as (dp & Edp & Dp). assert (X : dw = k + (1 + dp)) by (apply Dr; eapply (at_depth_up vp 1); [cbn; now rewrite B|exact Dp]). cbn [zn].
        destruct (Nat.lt_ge_cases dp da) as [Lt|Ge].
        + exists a, (i - s). split; [lia|]. split; [lia|]. split; [exact Ewa|]. exists (Z.of_nat dp). split; [exact Edp|]. destruct (Z.ltb_spec (Z.of_nat dp) (Z.of_nat da)); [reflexivity|lia].
        + exists p, (S k). split; [lia|]. split; [lia|]. split; [rewrite <- Nat.add_1_r, (up_add _ _ _ _ _ A); cbn; now rewrite B|]. exists (Z.of_nat dp). split; [exact Edp|]. destruct (Z.ltb_spec (Z.of_nat dp) (Z.of_nat da)); [lia|reflexivity].
      - assert (X : dw = k + 0) by (apply Dr; exists r; auto). exists a, (i - s). split; [lia|]. split; [lia|]. split; [exact Ewa|]. exists (-1)%Z. split; [reflexivity|]. destruct (Z.ltb_spec (-1) (Z.of_nat da)); [reflexivity|lia]. }
    destruct ST as (p & len & Hlen & Hlk & Ep & dp & Edp & Esel). rewrite Edp. cbn [obind zn]. rewrite Eda. cbn [obind]. rewrite Esel. rewrite Edw. cbn [obind zn].
    assert (Lp : p < n) by exact (up_lt len w p Lw Ep). destruct (Hd p Lp) as (d' & Ed' & D'). rewrite Ed'. cbn [obind]. assert (Hdp : dw = len + d') by (apply (at_depth_fun vp w); [exact Dw|eapply at_depth_up; eauto]). rewrite (Hpos q w Eq). cbn [obind zn].
    assert (Eup : up vp (s + len) u = Some p) by (rewrite (up_add _ _ _ _ _ Es); exact Ep). destruct (IH (s + len) p) as (cs & Ecs & Fcs & Pcs); [lia|lia|exact Eup|].
    replace (Z.of_nat dw - Z.of_nat d')%Z with (Z.of_nat len) by lia. replace dw with (du - s) by lia. destruct (mk (Z.of_nat (du - s)) (Z.of_nat len)) as [f l] eqn:Emk. rewrite Ecs. cbn [obind]. eexists. split; [reflexivity|].
    assert (Hf : forall x, x < len -> (if rv then f - Z.of_nat x else f + Z.of_nat x)%Z = ix (s + len - 1 - x)). { intros x Hx. specialize (Hmk s len x). rewrite Emk in Hmk. cbn [fst] in Hmk. apply Hmk; lia. }
    assert (Hl : l = ix s). { specialize (Hmk2 s len). rewrite Emk in Hmk2. cbn [snd] in Hmk2. apply Hmk2; lia. }
    split.
    - constructor; [|exact Fcs]. cbn. split; [lia|]. split; [reflexivity|]. rewrite Hl. specialize (Hf (len - 1)). replace (s + len - 1 - (len - 1)) with s in Hf by lia. rewrite <- Hf by lia. destruct rv; lia.
    - cbn [flat_map covers]. replace (Z.to_nat (Z.of_nat q + 1 - (Z.of_nat q + 1 - Z.of_nat len))) with len by lia. replace (i - s) with (len + (i - (s + len))) by lia. rewrite <- seq_perm. apply Permutation_app; [|exact Pcs].
      rewrite map_map. erewrite map_ext_in; [reflexivity|]. intros x Hx. apply in_seq in Hx. rewrite (Hf x) by lia. apply f_equal. replace (Z.to_nat (Z.of_nat q + 1 - Z.of_nat len) + x) with (q - (len - 1 - x)) by lia. rewrite Hnode by lia.
      destruct (up_some len w p (len - 1 - x) Ep) as (y & Ey); [lia|]. rewrite (Hc (len - 1 - x) y); [|lia|exact Ey]. replace (s + len - 1 - x) with (s + (len - 1 - x)) by lia. rewrite (up_add _ _ _ _ _ Es). now symmetry.
  Qed.
End Walk.
