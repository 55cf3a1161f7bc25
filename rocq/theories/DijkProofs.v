From Verif Require Import Lib GraphSpec WalkSpec ClosModel ClosProofs FloydModel FloydProofs DijkModel.
Open Scope nat_scope.

Lemma key_eqb_spec a b : key_eqb a b = true <-> a = b.
Proof. unfold key_eqb. rewrite andb_true_iff, Z.eqb_eq, Nat.eqb_eq. destruct a, b; cbn. split; [intros (-> & ->)|intros X; injection X]; auto. Qed.
Lemma in_erase x y q : In y (q_erase x q) <-> y <> x /\ In y q.
Proof. unfold q_erase. rewrite filter_In, negb_true_iff. destruct (key_eqb x y) eqn:E; [apply key_eqb_spec in E; subst; intuition congruence|]. split; [intros (A & _); split; [intros ->; rewrite (proj2 (key_eqb_spec x x) eq_refl) in E; discriminate|exact A]|tauto]. Qed.
Lemma in_insert x y q : In y (q_insert x q) <-> y = x \/ In y q.
Proof.
  unfold q_insert. cbn [In]. rewrite in_erase. split; [intros [->|(_ & H)]; auto|]. intros [->|H]; [auto|]. destruct (key_eqb x y) eqn:E; [apply key_eqb_spec in E; auto|]. right. split; [|exact H]. intros ->. rewrite (proj2 (key_eqb_spec x x) eq_refl) in E. discriminate.
Qed.
Lemma q_begin_some q x : q_begin q = Some x -> In x q /\ forall y, In y q -> (fst x <= fst y)%Z.
Proof.
  destruct q as [|a q]; [discriminate|]. cbn [q_begin]. intros H. injection H as H. revert a x H. induction q as [|b q IH]; intros a x H; cbn in H.
  - subst. split; [now left|]. intros y [->|[]]. lia.
  - destruct (IH _ _ H) as (I1 & I2). split.
    + destruct (key_leb a b); destruct I1 as [<-|I1]; [now left|now (right; right)|now (right; left)|now (right; right)].
    + assert (Q : (fst x <= fst (if key_leb a b then a else b))%Z) by (apply I2; now left). assert (Q2 : (fst x <= fst a /\ fst x <= fst b)%Z). { unfold key_leb in Q. destruct (Z.ltb_spec (fst a) (fst b)); [cbn in Q; lia|]. destruct (Z.eqb_spec (fst a) (fst b)); cbn in Q; [destruct (snd a <=? snd b); lia|lia]. }
      intros y [<-|[<-|Y]]; [apply Q2|apply Q2|apply I2; now right].
Qed.
Lemma q_begin_none q : q_begin q = None -> q = []. Proof. destruct q; [reflexivity|discriminate]. Qed.

(** loops with a ghost bound *)
Section Ghost.
  Context {S R : Type} (f : S -> option (S + R)) (Inv : Z -> S -> Prop) (Post : R -> Prop).
  Hypothesis step : forall k s, Inv k s -> exists r, f s = Some r /\ match r with inl s' => exists k', Inv k' s' /\ (k' < k)%Z | inr r => Post r end.
  Hypothesis pos : forall k s, Inv k s -> (0 <= k)%Z.
  Lemma iterP_ghost p k s : Inv k s -> exists r, iterP p f s = Some r /\ match r with inl s' => exists k', Inv k' s' /\ (k' + Zpos p <= k)%Z | inr r => Post r end.
  Proof using step.
    revert k s; induction p as [p IH|p IH|]; intros k s Hs; cbn [iterP].
    - destruct (step k s Hs) as (r & E & Hr); rewrite E. destruct r as [s1|r]; [|eauto]. destruct Hr as (k1 & H1 & M1). destruct (IH k1 s1 H1) as (r2 & E2 & Hr2); rewrite E2.
      destruct r2 as [s2|r2]; [|eauto]. destruct Hr2 as (k2 & H2 & M2). destruct (IH k2 s2 H2) as (r3 & E3 & Hr3); rewrite E3. destruct r3 as [s3|r3]; [|eauto].
      exists (inl s3). split; [reflexivity|]. destruct Hr3 as (k3 & H3 & M3). exists k3. split; [assumption|lia].
    - destruct (IH k s Hs) as (r2 & E2 & Hr2); rewrite E2. destruct r2 as [s2|r2]; [|eauto]. destruct Hr2 as (k2 & H2 & M2). destruct (IH k2 s2 H2) as (r3 & E3 & Hr3); rewrite E3. destruct r3 as [s3|r3]; [|eauto].
      exists (inl s3). split; [reflexivity|]. destruct Hr3 as (k3 & H3 & M3). exists k3. split; [assumption|lia].
    - destruct (step k s Hs) as (r & E & Hr); rewrite E. exists r. split; [reflexivity|]. destruct r as [s1|r]; [|exact Hr]. destruct Hr as (k1 & H1 & M1). exists k1. split; [assumption|lia].
  Qed.
  Lemma loopZ_ghost fuel k s : Inv k s -> (k < fuel)%Z -> exists r, loopZ fuel f s = Some r /\ Post r.
  Proof using step pos.
    intros Hs Hf. pose proof (pos k s Hs) as Hp. destruct fuel as [|p|p]; [lia| |lia]. cbn [loopZ]. destruct (iterP_ghost p k s Hs) as (r & E & Hr). rewrite E. destruct r as [s'|r]; [|eauto]. destruct Hr as (k' & Hi & Hm). pose proof (pos k' s' Hi). lia.
  Qed.
End Ghost.

Section G.
  Variable g : wgraph.
  Hypothesis Wf : wf g.
  Hypothesis Pos : non_negative g.
  Notation n := (length g).
  Variables (src : nat) (inf : Z).
  Hypothesis Hsrc : src < n.
  Hypothesis Bl : below g inf.
  Notation at_ t v := (nth_error t v).

  (** [dn] are the finished nodes, [pre] the edges of the current node seen so far; [act] marks a current node whose edges are not all seen *)
  Definition DInv (act : option nat) (pre : list (nat * Z)) (dn : list nat) (s : list entry * queue) : Prop :=
    let '(t, q) := s in
    length t = n /\ NoDup dn /\ (forall x, In x dn -> x < n /\ exists p d, at_ t x = Some (Some p, d) /\ forall y v, In (y, v) q -> (d <= y)%Z) /\
    (forall v d, at_ t v = Some (None, d) -> d = inf) /\
    (forall v p d, at_ t v = Some (Some p, d) -> (0 <= d)%Z /\ wwalk g src v d /\ (v = src /\ p = src /\ d = 0%Z \/ v <> src /\ exists c dp pp, In (v, c) (out g p) /\ In p dn /\ at_ t p = Some (pp, dp) /\ d = (dp + c)%Z)) /\
    (exists d, at_ t src = Some (Some src, d)) /\
    (forall x v, In (x, v) q <-> ~ In v dn /\ exists p, at_ t v = Some (Some p, x)) /\
    (forall u v c d e, In u dn -> In (v, c) (out g u) -> (act <> Some u \/ In (v, c) pre) -> at_ t u = Some d -> at_ t v = Some e -> (snd e <= snd d + c)%Z) /\
    (forall u x y d, act = Some u -> In x dn -> at_ t x = Some y -> at_ t u = Some d -> (snd y <= snd d)%Z).
  Lemma dj_edges_run u l t q dn : nth_error g u = Some l -> In u dn -> DInv (Some u) [] dn (t, q) ->
    exists s', for_each (dj_edge u) l (t, q) = Some s' /\ DInv None [] dn s'.
  Proof using Wf Pos Hsrc.
    intros El Hu H0. pose proof (out_nth g u l El) as Ol. destruct (for_each_spec (fun pre s => DInv (Some u) pre dn s) (dj_edge u) l (t, q)) as (s' & E & H).
    - exact H0.
    - intros pre (v, w) post (t1, q1) Ep H. pose proof H as (Lt & ND & Hdn & Hn & Hl & Hs & Hq & Hcl & Hmax). unfold dj_edge.
      assert (A : In (v, w) (out g u)) by (rewrite Ol, Ep; apply in_elt). destruct (edge_lt g Wf _ _ _ A) as (Lu & Lv). pose proof (Pos _ _ _ A) as W0.
      destruct (Hdn u Hu) as (_ & pu & du & Eu & Mu). rewrite Eu. cbn [obind]. destruct (nth_error_some t1 v ltac:(lia)) as ((pv, dv) & Ev). rewrite Ev. cbn [obind].
      destruct (Hl u pu du Eu) as (Du0 & Wu & _).
      destruct (Z.ltb_spec (du + w) dv) as [Lt'|Ge].
      + assert (Nv : ~ In v dn) by (intros X; pose proof (Hmax u v _ _ eq_refl X Ev Eu) as Q; cbn in Q; lia).
        assert (Nu : v <> u) by congruence. assert (Ns : v <> src). { intros ->. destruct Hs as (ds & Es). rewrite Es in Ev. injection Ev as <- <-. destruct (Hl src src ds Es) as (_ & _ & [(_ & _ & X)|(X & _)]); [lia|congruence]. }
        destruct (set_nth_some t1 v (Some u, (du + w)%Z) ltac:(lia)) as (t2 & E2). rewrite E2. cbn [obind]. eexists. split; [reflexivity|]. pose proof (set_nth_length _ _ _ _ E2) as L2.
        assert (G : forall y, at_ t2 y = if v =? y then Some (Some u, (du + w)%Z) else at_ t1 y) by (intros y; apply (set_nth_get _ _ _ _ y E2)).
        assert (Gn : forall y, y <> v -> at_ t2 y = at_ t1 y) by (intros y Y; rewrite G; destruct (Nat.eqb_spec v y); congruence).
        assert (Gd : forall y, In y dn -> at_ t2 y = at_ t1 y) by (intros y Y; apply Gn; congruence).
        assert (Gv : at_ t2 v = Some (Some u, (du + w)%Z)) by (rewrite G, Nat.eqb_refl; reflexivity).
        cbn [DInv]. split; [lia|]. split; [exact ND|]. split; [|split; [|split; [|split; [|split; [|split]]]]].
        * intros x Hx. destruct (Hdn x Hx) as (Lx & p & d & Ex & Mx). split; [exact Lx|]. exists p, d. rewrite Gd by exact Hx. split; [exact Ex|]. intros y z Hyz. apply in_insert in Hyz as [Q|Hyz]; [injection Q as -> ->; pose proof (Hmax u x _ _ eq_refl Hx Ex Eu) as Q; cbn in Q; lia|]. apply in_erase in Hyz. now apply (Mx y z).
        * intros y d. rewrite G. destruct (v =? y); [congruence|apply Hn].
        * intros y p d. rewrite G. destruct (Nat.eqb_spec v y) as [<-|N].
          -- intros Q. injection Q as <- <-. split; [lia|]. split; [apply (ww_app g src u v du w Wu (ww_arc g Wf _ _ _ A))|]. right. split; [exact Ns|]. exists w, du, (Some pu). rewrite Gd by exact Hu. auto.
          -- intros Q. destruct (Hl y p d Q) as (D0 & Wy & [X|(Ny & c & dp & pp & X1 & X2 & X3 & X4)]); split; [exact D0|split; [exact Wy|now left]|exact D0|split; [exact Wy|]]. right. split; [exact Ny|]. exists c, dp, pp. rewrite Gd by exact X2. auto.
        * destruct Hs as (ds & Es). exists ds. rewrite Gn by congruence. exact Es.
        * intros x y. rewrite in_insert, in_erase, Hq. destruct (Nat.eq_dec y v) as [->|N].
          -- rewrite Gv. split; [intros [Q|(Q1 & _ & p & Q2)]; [injection Q as ->; split; [exact Nv|eauto]|rewrite Ev in Q2; injection Q2 as -> ->; congruence]|]. intros (_ & p & Q). left. congruence.
          -- rewrite Gn by exact N. split; [intros [Q|(_ & Q)]; [congruence|exact Q]|]. intros Q. right. split; [congruence|exact Q].
        * intros a b c d e Ha Hab Hor. rewrite Gd by exact Ha. rewrite G. intros Ea Eb. destruct (Nat.eqb_spec v b) as [<-|N].
          -- injection Eb as <-. cbn [snd]. destruct (Nat.eq_dec a u) as [->|Na].
             ++ rewrite Eu in Ea. injection Ea as <-. cbn [snd]. destruct Hor as [X|X]; [congruence|]. rewrite in_app_iff in X. destruct X as [X|[X|[]]]; [|injection X as ->; lia]. pose proof (Hcl u v c _ _ Hu Hab (or_intror X) Eu Ev) as Q. cbn in Q. lia.
             ++ pose proof (Hcl a v c _ _ Ha Hab ltac:(left; congruence) Ea Ev) as Q. cbn in Q. lia.
          -- apply (Hcl a b c d e Ha Hab); auto. destruct Hor as [X|X]; [now left|]. rewrite in_app_iff in X. destruct X as [X|[X|[]]]; [now right|congruence].
        * intros a x y d Q Hx. injection Q as <-. rewrite !Gd by assumption. now apply Hmax.
      + eexists. split; [reflexivity|]. cbn [DInv]. repeat (split; [assumption|]). split; [|exact Hmax]. intros a b c d e Ha Hab Hor Ea Eb. destruct Hor as [X|X]; [apply (Hcl a b c d e Ha Hab); auto|]. rewrite in_app_iff in X. destruct X as [X|[X|[]]]; [apply (Hcl a b c d e Ha Hab); auto|]. injection X as <- <-.
        destruct (Nat.eq_dec a u) as [->|Na]; [rewrite Eu in Ea; rewrite Ev in Eb; injection Ea as <-; injection Eb as <-; cbn; lia|]. apply (Hcl a v w d e Ha Hab); auto. left. congruence.
    - exists s'. split; [exact E|]. destruct s' as (t1, q1). destruct H as (Lt & ND & Hdn & Hn & Hl & Hs & Hq & Hcl & Hmax). cbn [DInv]. repeat (split; [assumption|]). split; [|discriminate].
      intros a b c d e Ha Hab _ Ea Eb. apply (Hcl a b c d e Ha Hab); auto. destruct (Nat.eq_dec a u) as [->|Na]; [right; now rewrite <- Ol|left; congruence].
  Qed.
  Lemma dj_final t : (exists dn, DInv None [] dn (t, [])) -> length t = n /\ forall v p d, at_ t v = Some (p, d) ->
    match p with
    | None => d = inf /\ forall w, ~ wwalk g src v w
    | Some p => shortest g src v d /\ (v = src -> p = src) /\ (v <> src -> exists c, In (v, c) (out g p) /\ shortest g src p (d - c))
    end.
  Proof using Wf Pos Hsrc Bl.
    intros (dn & Lt & ND & Hdn & Hn & Hl & Hs & Hq & Hcl & _). split; [exact Lt|].
    assert (Nn : no_negative_cycle g). { intros u w. assert (G : forall u v w, wwalk g u v w -> (0 <= w)%Z) by (induction 1 as [|? ? ? ? ? A _ IH]; [lia|apply Pos in A; lia]). apply G. }
    assert (Fin : forall v p d, at_ t v = Some (Some p, d) -> In v dn). { intros v p d E. destruct (in_dec Nat.eq_dec v dn); [assumption|]. exfalso. apply (proj2 (Hq d v)). eauto. }
    assert (Opt : forall l v w, wpath g src l v w -> NoDup (src :: l ++ [v]) -> exists p d, at_ t v = Some (Some p, d) /\ (d <= w)%Z).
    { assert (Last : forall x v a dx px w, at_ t x = Some (Some px, dx) -> In (v, a) (out g x) -> (dx + a <= w)%Z -> (w < inf)%Z -> exists p d, at_ t v = Some (Some p, d) /\ (d <= w)%Z).
      { intros x v a dx px w Ex A Le Li. destruct (edge_lt g Wf _ _ _ A) as (_ & Lv). destruct (nth_error_some t v ltac:(lia)) as ((p, d) & Ev). pose proof (Hcl x v a _ _ (Fin _ _ _ Ex) A ltac:(left; congruence) Ex Ev) as Q. cbn in Q. destruct p as [p|]; [exists p, d; split; [exact Ev|lia]|]. apply Hn in Ev. lia. }
      intros l. induction l as [|x l IH] using rev_ind; intros v w P ND'.
      - inversion P; subst. destruct Hs as (ds & Es). destruct (Hl src src ds Es) as (_ & _ & [(_ & _ & ->)|(X & _)]); [|congruence]. eapply Last; [exact Es|eassumption|lia|exact (Bl _ _ _ _ P ND')].
      - pose proof (Bl _ _ _ _ P ND') as Li. destruct (wp_split g src l x [] v w P) as (w1 & w2 & P1 & P2 & ->). destruct (IH x w1 P1) as (p & d & Ex & Le).
        + change (src :: l ++ [x]) with ((src :: l) ++ [x]). change (src :: (l ++ [x]) ++ [v]) with ((src :: l ++ [x]) ++ [v]) in ND'. apply NoDup_remove_1 in ND'. rewrite app_nil_r in ND'. exact ND'.
        + inversion P2; subst. eapply Last; [exact Ex|eassumption|lia|exact Li]. }
    assert (Sh : forall v p d, at_ t v = Some (Some p, d) -> shortest g src v d).
    { intros v p d Ev. destruct (Hl v p d Ev) as (D0 & Wv & C). split; [exact Wv|]. intros w Hw. destruct (Nat.eq_dec src v) as [<-|N].
      - destruct C as [(_ & _ & ->)|(X & _)]; [now apply Nn in Hw|congruence].
      - destruct (simple g Wf Nn src v w Hw N) as (l & w' & P & ND' & Le). destruct (Opt l v w' P ND') as (p' & d' & E' & Le'). rewrite Ev in E'. injection E' as <- <-. lia. }
    intros v [p|] d Ev.
    - split; [now apply (Sh v p)|]. destruct (Hl v p d Ev) as (_ & _ & [(-> & -> & _)|(N & c & dp & pp & A & Hp & Ep & ->)]); [split; [reflexivity|congruence]|]. split; [congruence|]. intros _. exists c. split; [exact A|]. replace (dp + c - c)%Z with dp by lia. destruct (Hdn p Hp) as (_ & p' & d' & Ep' & _). rewrite Ep in Ep'. injection Ep' as -> ->. eapply Sh; eauto.
    - split; [now apply Hn in Ev|]. intros w Hw. destruct (Nat.eq_dec src v) as [<-|N]; [destruct Hs; congruence|]. destruct (simple g Wf Nn src v w Hw N) as (l & w' & P & ND' & Le). destruct (Opt l v w' P ND') as (p' & d' & E' & _). congruence.
  Qed.
  Lemma dijkstra_run : exists t, dijkstra g src inf = Some t /\ exists dn, DInv None [] dn (t, []).
  Proof using Wf Pos Hsrc.
    unfold dijkstra. destruct (set_nth_some (repeat (@None nat, inf) n) src (Some src, 0%Z) ltac:(rewrite repeat_length; lia)) as (t0 & E0). rewrite E0. cbn [obind]. pose proof (set_nth_length _ _ _ _ E0) as L0. rewrite repeat_length in L0.
    assert (G : forall y, at_ t0 y = if src =? y then Some (Some src, 0%Z) else at_ (repeat (@None nat, inf) n) y) by (intros y; apply (set_nth_get _ _ _ _ y E0)).
    assert (Rp : forall y e, at_ (repeat (@None nat, inf) n) y = Some e -> e = (None, inf)) by (intros y e X; apply nth_error_In in X; now apply repeat_spec in X).
    apply (loopZ_ghost (dj_step g) (fun k s => exists dn, DInv None [] dn s /\ k = (Z.of_nat n - Z.of_nat (length dn))%Z) (fun t => exists dn, DInv None [] dn (t, []))) with (k := Z.of_nat n).
    - intros k (t, q) (dn & H & ->). unfold dj_step. destruct (q_begin q) as [x|] eqn:Eq.
      2:{ apply q_begin_none in Eq. subst q. exists (inr t). split; [reflexivity|]. exists dn. exact H. }
      destruct x as (x, u). cbn [snd]. destruct (q_begin_some q _ Eq) as (Hin & Hmin). destruct H as (Lt & ND & Hdn & Hn & Hl & Hs & Hq & Hcl & _). pose proof (proj1 (Hq x u) Hin) as (Nu & p & Eu).
      assert (Lu : u < n) by (rewrite <- Lt; apply nth_error_Some; congruence). destruct (nth_error_some g u Lu) as (l & El). rewrite El. cbn [obind].
      destruct (dj_edges_run u l t (q_erase (x, u) q) (u :: dn) El) as (s' & Es & Hs').
      + now left.
      + cbn [DInv]. split; [exact Lt|]. split; [now constructor|]. split; [|split; [exact Hn|split; [|split; [exact Hs|split; [|split]]]]].
        * intros y [<-|Hy]; [split; [exact Lu|]; exists p, x; split; [exact Eu|]; intros z v Hz; apply in_erase in Hz as (_ & Hz); exact (Hmin (z, v) Hz)|].
          destruct (Hdn y Hy) as (Ly & p' & d' & Ey & My). split; [exact Ly|]. exists p', d'. split; [exact Ey|]. intros z v Hz. apply in_erase in Hz as (_ & Hz). now apply (My z v).
        * intros v pv d Ev. destruct (Hl v pv d Ev) as (D0 & Wv & [X|(N & c & dp & pp & X1 & X2 & X3 & X4)]); split; [exact D0|split; [exact Wv|now left]|exact D0|split; [exact Wv|]]. right. split; [exact N|]. exists c, dp, pp. repeat split; auto. now right.
        * intros z v. rewrite in_erase, Hq. cbn [In]. split.
          -- intros (N & Nv & pv & Ev). split; [|eauto]. intros [<-|X]; [|contradiction]. rewrite Eu in Ev. injection Ev as -> ->. congruence.
          -- intros (N & pv & Ev). split; [intros X; injection X as -> ->; tauto|]. split; [tauto|eauto].
        * intros a b c d e [<-|Ha] Hab [Y|[]] Ea Eb; [congruence|]. apply (Hcl a b c d e Ha Hab); auto. left. congruence.
        * intros a y z d Q Hy Ey. injection Q as <-. rewrite Eu. intros Q. injection Q as <-. destruct Hy as [<-|Hy]; [rewrite Eu in Ey; injection Ey as <-; cbn; lia|]. destruct (Hdn y Hy) as (_ & p' & d' & Ey' & My). rewrite Ey in Ey'. injection Ey' as ->. cbn. exact (My x u Hin).
      + rewrite Es. cbn [obind]. eexists. split; [reflexivity|]. cbv beta iota. eexists. split; [exists (u :: dn); split; [exact Hs'|reflexivity]|]. cbn [length]. lia.
    - intros k (t, q) (dn & (Lt & ND & Hdn & _) & ->). assert (L : length dn <= length (seq 0 n)) by (apply NoDup_incl_length; [exact ND|]; intros x Hx; apply in_seq; destruct (Hdn x Hx); lia). rewrite seq_length in L. lia.
    - exists []. split; [|cbn; lia]. cbn [DInv]. split; [exact L0|]. split; [constructor|]. split; [intros x []|]. split; [|split; [|split; [|split; [|split; [intros a b c d e []|discriminate]]]]].
      + intros v d. rewrite G. destruct (src =? v); [congruence|]. intros X. apply Rp in X. congruence.
      + intros v p d. rewrite G. destruct (Nat.eqb_spec src v) as [<-|N]; [|intros X; apply Rp in X; congruence]. intros X. injection X as <- <-. split; [lia|]. split; [now constructor|]. now left.
      + exists 0%Z. rewrite G, Nat.eqb_refl. reflexivity.
      + intros x v. cbn [In]. split; [intros [X|[]]; injection X as <- <-; split; [tauto|]; exists src; rewrite G, Nat.eqb_refl; reflexivity|]. intros (_ & p & X). rewrite G in X. destruct (Nat.eqb_spec src v) as [<-|N]; [left; congruence|apply Rp in X; congruence].
    - lia.
  Qed.
End G.
