From Verif Require Import Lib GraphSpec WalkSpec ClosModel ClosProofs ClosProps FloydModel FloydProofs DijkModel DijkProofs.
Open Scope nat_scope.

  Lemma erase_len x q : length (q_erase x q) <= length q.
  Proof using. unfold q_erase. induction q as [|y q IH]; [reflexivity|]. cbn. destruct (negb (key_eqb x y)); cbn; lia. Qed.
  Lemma erase_len_in x q : In x q -> length (q_erase x q) < length q.
  Proof using.
    induction q as [|y q IH]; intros H; [destruct H|]. unfold q_erase in *. cbn. destruct H as [->|H].
    - rewrite (proj2 (key_eqb_spec x x) eq_refl). cbn. pose proof (erase_len x q). unfold q_erase in *. lia.
    - specialize (IH H). destruct (negb (key_eqb x y)); cbn; lia.
  Qed.

Section G.
  Variable g : wgraph.
  Hypothesis Wf : wf g.
  Hypothesis Pos : non_negative g.
  Notation n := (length g).
  Variables (root : nat) (inf : Z).
  Hypothesis Hroot : root < n.
  Hypothesis Small : forall u v c, In (v, c) (out g u) -> (c < inf)%Z.
  Notation at_ t v := (nth_error t v).
  Definition lab (t : list entry) (v : nat) : Prop := exists p d, at_ t v = Some (Some p, d).
  Definition PInv (act : option nat) (pre : list (nat * Z)) (s : list entry * queue) : Prop :=
    let '(t, q) := s in
    length t = n /\ (forall v d, at_ t v = Some (None, d) -> d = inf) /\ at_ t root = Some (Some root, 0%Z) /\
    (forall v p d, at_ t v = Some (Some p, d) -> v <> root -> In (v, d) (out g p) /\ lab t p /\ walk g root v) /\
    (forall x v, In (x, v) q -> exists p, at_ t v = Some (Some p, x)) /\
    (forall u v c, lab t u -> (forall x, ~ In (x, u) q) -> In (v, c) (out g u) -> (act <> Some u \/ In (v, c) pre) -> lab t v).
  Definition lbl (t : list entry) (v : nat) : Z := match at_ t v with Some (_, d) => d | None => 0%Z end.
  Definition cnt (t : list entry) : nat := length (filter (fun e => (snd e <? lbl t (fst e))%Z) (concat g)).
  Definition mp (s : list entry * queue) : Z := let '(t, q) := s in (2 * Z.of_nat (cnt t) + Z.of_nat (length q))%Z.
  Lemma in_concat_out u e : In e (out g u) -> In e (concat g).
  Proof using Hroot. intros H. apply in_concat. exists (out g u). split; [|exact H]. unfold out in *. destruct (Nat.lt_ge_cases u n); [now apply nth_In|rewrite nth_overflow in H by lia; destruct H]. Qed.
  Lemma pr_edges_run u l t q : nth_error g u = Some l -> lab t u -> (forall x, ~ In (x, u) q) -> PInv (Some u) [] (t, q) ->
    exists s', for_each (pr_edge u) l (t, q) = Some s' /\ PInv None [] s' /\ (mp s' <= mp (t, q))%Z.
  Proof using Wf Pos Hroot Small.
    intros El Lu0 Nq0 H0. pose proof (out_nth g u l El) as Ol.
    destruct (for_each_spec (fun pre s => PInv (Some u) pre s /\ lab (fst s) u /\ (mp s <= mp (t, q))%Z) (pr_edge u) l (t, q)) as (s' & E & H & _ & Hm).
    - split; [exact H0|]. split; [exact Lu0|lia].
    - intros pre (v, w) post (t1, q1) Ep (H & Lu & Hm). pose proof H as (Lt & Hn & Hr & Hl & Hq & Hcl). cbn [fst] in Lu. unfold pr_edge.
      assert (A : In (v, w) (out g u)) by (rewrite Ol, Ep; apply in_elt). destruct (edge_lt g Wf _ _ _ A) as (Lu' & Lv). pose proof (Pos _ _ _ A) as W0. pose proof (Small _ _ _ A) as Wi.
      pose proof Lu as (pu & du & Eu). rewrite Eu. cbn [obind]. destruct (nth_error_some t1 v ltac:(lia)) as ((pv, dv) & Ev). rewrite Ev. cbn [obind].
      destruct (Z.ltb_spec w dv) as [Lt'|Ge]; [destruct (Nat.eqb_spec pu v) as [->|Np]|]; cbn [andb negb].
      + (* v is the parent of u *) exists (t1, q1). split; [reflexivity|]. split; [|split; [exact Lu|exact Hm]]. cbn [PInv]. repeat (split; [assumption|]). intros a b c La Na Hab Hor.
        assert (Lb : lab t1 v). { destruct (Nat.eq_dec u root) as [->|Nr]; [rewrite Hr in Eu; injection Eu as <- <-; exists root, 0%Z; exact Hr|]. now destruct (Hl u v du Eu Nr) as (_ & X & _). }
        destruct Hor as [X|X]; [apply (Hcl a b c La Na Hab); now left|]. rewrite in_app_iff in X. destruct X as [X|[X|[]]]; [apply (Hcl a b c La Na Hab); now right|]. injection X as <- <-. exact Lb.
      + assert (Ns : v <> root). { intros ->. rewrite Hr in Ev. injection Ev as <- <-. lia. }
        destruct (set_nth_some t1 v (Some u, w) ltac:(lia)) as (t2 & E2). rewrite E2. cbn [obind]. eexists. split; [reflexivity|]. pose proof (set_nth_length _ _ _ _ E2) as L2.
        assert (G : forall y, at_ t2 y = if v =? y then Some (Some u, w) else at_ t1 y) by (intros y; apply (set_nth_get _ _ _ _ y E2)).
        assert (Gl : forall y, lab t1 y -> lab t2 y). { intros y (p & d & Y). unfold lab. rewrite G. destruct (v =? y); eauto. }
        assert (Gv : lab t2 v) by (exists u, w; rewrite G, Nat.eqb_refl; reflexivity).
        assert (Wu : u = root \/ walk g root u). { destruct (Nat.eq_dec u root) as [|Nr]; [now left|right]. now apply (Hl u pu du Eu Nr). }
        split; [|split; [cbn [fst]; now apply Gl|]].
        * cbn [PInv]. split; [lia|]. split; [intros y d; rewrite G; destruct (v =? y); [congruence|apply Hn]|]. split; [rewrite G; destruct (Nat.eqb_spec v root); [congruence|exact Hr]|]. split; [|split].
          -- intros y p d. rewrite G. destruct (Nat.eqb_spec v y) as [<-|N]; intros Q Ny.
             ++ injection Q as <- <-. split; [exact A|]. split; [now apply Gl|]. destruct Wu as [->|Wu]; [apply walk_arc; now exists w|eapply walk_snoc; [exact Wu|now exists w]].
             ++ destruct (Hl y p d Q Ny) as (X1 & X2 & X3). auto.
          -- intros x y Hxy. apply in_insert in Hxy as [Q|Hxy]; [injection Q as -> ->; exists u; rewrite G, Nat.eqb_refl; reflexivity|]. apply in_erase in Hxy as (N & Hxy). destruct (Hq x y Hxy) as (p & Ey). rewrite G. destruct (Nat.eqb_spec v y) as [<-|_]; [|eauto]. rewrite Ev in Ey. injection Ey as -> ->. congruence.
          -- intros a b c La Na Hab Hor. destruct (Nat.eq_dec b v) as [->|Nb]; [exact Gv|]. apply Gl. assert (Nav : a <> v) by (intros ->; apply (Na w); apply in_insert; now left).
             apply (Hcl a b c); [destruct La as (p & d & X); rewrite G in X; destruct (Nat.eqb_spec v a); [congruence|]; exists p, d; exact X| |exact Hab|].
             ++ intros x Hx. apply (Na x). apply in_insert. right. apply in_erase. split; [congruence|exact Hx].
             ++ destruct Hor as [X|X]; [now left|]. rewrite in_app_iff in X. destruct X as [X|[X|[]]]; [now right|congruence].
        * assert (Lbl : forall y, lbl t2 y = if v =? y then w else lbl t1 y) by (intros y; unfold lbl; rewrite G; now destruct (v =? y)).
          assert (Lv1 : lbl t1 v = dv) by (unfold lbl; now rewrite Ev).
          assert (C : cnt t2 < cnt t1). { apply (filter_lt _ _ _ (v, w)); [|now apply (in_concat_out u)| |]; cbn [fst snd].
            - intros (y, c). cbn [fst snd]. rewrite Lbl. destruct (Nat.eqb_spec v y) as [<-|_]; [rewrite Lv1; destruct (Z.ltb_spec c w), (Z.ltb_spec c dv); lia|auto].
            - rewrite Lbl, Nat.eqb_refl. apply Z.ltb_irrefl.
            - rewrite Lv1. now apply Z.ltb_lt. }
          pose proof (erase_len (w, v) (q_erase (dv, v) q1)). pose proof (erase_len (dv, v) q1). cbn [mp q_insert length] in *. lia.
      + exists (t1, q1). split; [reflexivity|]. split; [|split; [exact Lu|exact Hm]]. cbn [PInv]. repeat (split; [assumption|]). intros a b c La Na Hab Hor.
        destruct Hor as [X|X]; [apply (Hcl a b c La Na Hab); now left|]. rewrite in_app_iff in X. destruct X as [X|[X|[]]]; [apply (Hcl a b c La Na Hab); now right|]. injection X as <- <-. destruct pv as [pv|]; [exists pv, dv; exact Ev|]. apply Hn in Ev. lia.
    - exists s'. split; [exact E|]. split; [|exact Hm]. destruct s' as (t1, q1). destruct H as (Lt & Hn & Hr & Hl & Hq & Hcl). cbn [PInv]. repeat (split; [assumption|]).
      intros a b c La Na Hab _. apply (Hcl a b c La Na Hab). destruct (Nat.eq_dec a u) as [->|N]; [right; now rewrite <- Ol|left; congruence].
  Qed.
  Lemma prim_run : exists fuel, forall f, (fuel <= f)%Z -> exists t, prim_spanning_tree f g root inf = Some t /\ length t = n /\
    (forall v d, at_ t v = Some (None, d) -> d = inf /\ v <> root /\ ~ walk g root v) /\ at_ t root = Some (Some root, 0%Z) /\ (forall v p d, at_ t v = Some (Some p, d) -> v <> root -> In (v, d) (out g p) /\ walk g root v).
  Proof using Wf Pos Hroot Small.
    unfold prim_spanning_tree. destruct (set_nth_some (repeat (@None nat, inf) n) root (Some root, 0%Z) ltac:(rewrite repeat_length; lia)) as (t0 & E0). rewrite E0. cbn [obind]. pose proof (set_nth_length _ _ _ _ E0) as L0. rewrite repeat_length in L0.
    assert (G : forall y, at_ t0 y = if root =? y then Some (Some root, 0%Z) else at_ (repeat (@None nat, inf) n) y) by (intros y; apply (set_nth_get _ _ _ _ y E0)).
    assert (Rp : forall y e, at_ (repeat (@None nat, inf) n) y = Some e -> e = (None, inf)) by (intros y e X; apply nth_error_In in X; now apply repeat_spec in X).
    exists (mp (t0, [(0%Z, root)]) + 1)%Z. intros f Hf.
    destruct (loopZ_spec (pr_step g) (PInv None []) (fun t => PInv None [] (t, [])) mp) with (fuel := f) (s := (t0, [(0%Z, root)])) as (t & E & H).
    - intros (t, q) H. unfold pr_step. destruct (q_begin q) as [(x, u)|] eqn:Eq.
      2:{ apply q_begin_none in Eq. subst q. exists (inr t). split; [reflexivity|exact H]. }
      cbn [snd]. destruct (q_begin_some q _ Eq) as (Hin & _). destruct H as (Lt & Hn & Hr & Hl & Hq & Hcl). destruct (Hq x u Hin) as (p & Eu).
      assert (Lu : u < n) by (rewrite <- Lt; apply nth_error_Some; congruence). destruct (nth_error_some g u Lu) as (l & El). rewrite El. cbn [obind].
      destruct (pr_edges_run u l t (q_erase (x, u) q) El) as (s' & Es & Hs' & Hm).
      + exists p, x. exact Eu.
      + intros y Hy. apply in_erase in Hy as (N & Hy). destruct (Hq y u Hy) as (p' & E'). rewrite Eu in E'. injection E' as -> ->. congruence.
      + cbn [PInv]. repeat (split; [assumption|]). split; [intros y v Hy; apply in_erase in Hy as (_ & Hy); now apply Hq|]. intros a b c La Na Hab [X|[]]. apply (Hcl a b c La); [|exact Hab|left; discriminate]. intros y Hy. destruct (Nat.eq_dec a u) as [->|N]; [congruence|]. apply (Na y). apply in_erase. split; [congruence|exact Hy].
      + rewrite Es. cbn [obind]. exists (inl s'). split; [reflexivity|]. split; [exact Hs'|]. pose proof (erase_len_in _ _ Hin). cbn [mp] in *. destruct s' as (t', q'). lia.
    - intros (t, q) _. cbn [mp]. lia.
    - cbn [PInv]. split; [exact L0|]. split; [|split; [|split; [|split]]].
      + intros v d. rewrite G. destruct (root =? v); [congruence|]. intros X. apply Rp in X. congruence.
      + rewrite G, Nat.eqb_refl. reflexivity.
      + intros v p d. rewrite G. destruct (Nat.eqb_spec root v) as [<-|N]; [congruence|]. intros X. apply Rp in X. congruence.
      + intros x v [X|[]]. injection X as <- <-. exists root. rewrite G, Nat.eqb_refl. reflexivity.
      + intros u v c (p & d & X) Nu. exfalso. rewrite G in X. destruct (Nat.eqb_spec root u) as [<-|N]; [apply (Nu 0%Z); now left|]. apply Rp in X. congruence.
    - lia.
    - exists t. split; [exact E|]. destruct H as (Lt & Hn & Hr & Hl & Hq & Hcl). split; [exact Lt|].
      assert (Cl : forall u v, walk g u v -> lab t u -> lab t v). { induction 1 as [u v (c & A)|u x v (c & A) _ IH]; intros Hu; [|apply IH]; apply (Hcl u _ c Hu); auto; left; discriminate. }
      split; [|split; [exact Hr|intros v p d Ev N; destruct (Hl v p d Ev N) as (X1 & _ & X2); auto]]. intros v d Ev. split; [now apply Hn in Ev|]. split; [intros ->; congruence|]. intros Wv. apply Cl in Wv as (p & d' & X); [congruence|]. exists root, 0%Z. exact Hr.
  Qed.
End G.
