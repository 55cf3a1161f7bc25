(** The sizes, the order of the edges and the queries of the heavy-light decomposition. *)
From Coq Require Import Lia Permutation.
From Verif Require Import Lib GraphSpec WalkSpec ClosModel ClosProofs DfsModel DfsSpec DfsProofs DfsProps LcaModel LcaSpec LcaProofs LcaProofs2 LcaProofs3 LcaProps HldModel HldProofs.
Open Scope nat_scope.

Section Forest.
  Context {W : Type}.
  Variable g : list (list (nat * W)).
  Hypothesis Wf : wf g.
  Hypothesis Fo : undirected_forest g.
  Notation n := (length g).
  Lemma forest_facts : exists vp t, parents g = Some vp /\ lca_build g = Some t /\ length vp = n /\
    (forall v p, hpar vp v p -> arc g p v) /\ (forall v, v < n -> (forall u, u < v -> ~ walk g u v) -> nth_error vp v = Some None) /\
    (forall u, u < n -> exists d, lca_depth t (Z.of_nat u) = Some (Z.of_nat d) /\ at_depth vp u d) /\
    (forall u v, arc g u v -> hpar vp v u \/ hpar vp u v).
  Proof using Wf Fo.
    destruct Fo as (Sym & Loop & Cyc). destruct (C159_lca g Wf) as (vp & t & E1 & E2 & Hd & Ha). destruct (C145_parents g Wf) as (vp' & E1' & Lp & Par & Rt & _). rewrite E1 in E1'. injection E1' as <-. exists vp, t. split; [exact E1|]. split; [exact E2|]. split; [exact Lp|].
    split; [exact Par|]. split; [intros v Lv; apply Rt, Lv|]. split; [exact Hd|].
    assert (Dep : forall v, v < n -> exists d, at_depth vp v d) by (intros v Lv; destruct (Hd v Lv) as (d & _ & D); eauto).
    intros u v A. assert (L : forall x y, arc g x y -> y < n) by (intros x y (w & X); exact (Wf x (y, w) X)). pose proof (L _ _ A) as Lv. pose proof (L _ _ (Sym _ _ A)) as Lu.
    assert (Con : ~ apart vp u v).
    { intros Ap. destruct (Dep u Lu) as (du & ru & U1 & U2). destruct (Dep v Lv) as (dv & rv & V1 & V2). assert (R : route g u [v] v) by (econstructor; [exact A|constructor]). assert (ru = rv).
      { pose proof (climb_route g Sym vp Par _ _ _ U1) as R1. destruct (route_rev g Sym _ _ _ R1) as (l1 & R1' & _). pose proof (climb_route g Sym vp Par _ _ _ V1) as R2.
        pose proof (route_app g _ _ _ _ _ (route_app g _ _ _ _ _ R1' R) R2) as R3. destruct (route_rev g Sym _ _ _ R3) as (l4 & R4 & _).
        assert (Lr : forall r, nth_error vp r = Some None -> r < n) by (intros r X; rewrite <- Lp; apply nth_error_Some; congruence).
        destruct (Nat.lt_trichotomy ru rv) as [Q|[Q|Q]]; [|exact Q|].
        - destruct (route_walk g _ _ _ R3) as [X|X]; [exact X|]. destruct (proj1 (Rt rv (Lr rv V2)) V2 ru Q X).
        - destruct (route_walk g _ _ _ R4) as [X|X]; [now symmetry|]. destruct (proj1 (Rt ru (Lr ru U2)) U2 rv Q X). }
      subst rv. apply (Ap ru). split; eexists; eassumption. }
    destruct (Ha u v Lu Lv) as [(a & i & j & _ & HL & _ & Ei & Ej)|(_ & _ & Ap)]; [|now destruct Con].
    destruct (tree_route g Sym vp Par Dep u v a i j Lu Lv HL Ei Ej) as (l & R & ND & Ll). destruct (Nat.le_gt_cases 2 (length l)) as [X|X]; [destruct (Cyc u l v R ND X (Sym _ _ A))|].
    unfold hpar. destruct i as [|[|i]], j as [|[|j]]; try lia; cbn [up] in Ei, Ej.
    - injection Ei as ->. injection Ej as ->. destruct (Loop _ A).
    - injection Ei as ->. left. destruct (nth_error vp v) as [[p|]|]; congruence.
    - injection Ej as ->. right. destruct (nth_error vp u) as [[p|]|]; congruence.
  Qed.
End Forest.

(** ** sizes *)
Section Sizes.
  Context {W : Type}.
  Variable g : list (list (nat * W)).
  Hypothesis Wf : wf g.
  Hypothesis Simple : forall u, NoDup (map fst (out g u)).
  Notation n := (length g).
  Variable vp : list (option nat).
  Hypothesis Lvp : length vp = n.
  Hypothesis Par : forall v p, hpar vp v p -> arc g p v.
  Hypothesis Rt : forall v, v < n -> (forall u, u < v -> ~ walk g u v) -> nth_error vp v = Some None.
  Hypothesis Dep : forall v, v < n -> exists d, at_depth vp v d.
  Hypothesis Tree : forall u v, arc g u v -> hpar vp v u \/ hpar vp u v.
  Definition is_size (v m : nat) : Prop := exists l, NoDup l /\ (forall x, In x l <-> anc vp v x) /\ m = length l.
  Definition sinv (path fin : list nat) (s : list (option nat) * list nat) : Prop :=
    length (fst s) = n /\ length (snd s) = n /\ (forall x, In x (path ++ fin) -> nth_error (fst s) x = nth_error vp x) /\
    (forall v, v < n -> ~ In v fin -> nth_error (snd s) v = Some 1) /\ (forall v, In v fin -> exists m, nth_error (snd s) v = Some m /\ is_size v m).
  Lemma siblings c1 c2 u x : u < n -> hpar vp c1 u -> hpar vp c2 u -> anc vp c1 x -> anc vp c2 x -> c1 = c2.
  Proof using All.
    intros Lu H1 H2 (k1 & K1) (k2 & K2). destruct (Dep u Lu) as (d & D). assert (D1 : at_depth vp c1 (S d)) by (apply (at_depth_up vp 1 c1 u d); [cbn; now rewrite H1|exact D]). assert (D2 : at_depth vp c2 (S d)) by (apply (at_depth_up vp 1 c2 u d); [cbn; now rewrite H2|exact D]).
    pose proof (at_depth_fun _ _ _ _ (at_depth_up _ _ _ _ _ K1 D1) (at_depth_up _ _ _ _ _ K2 D2)). assert (k1 = k2) by lia. subst k2. congruence.
  Qed.
  Lemma nodup_cat {T} (a b : list T) : NoDup a -> NoDup b -> (forall x, In x a -> ~ In x b) -> NoDup (a ++ b).
  Proof using All. induction 1 as [|x a N _ IH]; intros Hb H; [exact Hb|]. cbn. constructor; [|apply IH; [exact Hb|intros y Y; apply H; now right]]. rewrite in_app_iff. intros [X|X]; [contradiction|]. exact (H x (or_introl eq_refl) X). Qed.
  Lemma child_test u v : u < n -> arc g u v -> (same_node v (match nth_error vp u with Some p => p | None => None end) = true /\ ~ hpar vp v u) \/ (same_node v (match nth_error vp u with Some p => p | None => None end) = false /\ hpar vp v u).
  Proof using All.
    intros Lu A. destruct (Dep u Lu) as (d & D). destruct (Tree u v A) as [T|T].
    - right. split; [|exact T]. destruct (nth_error vp u) as [[p|]|] eqn:Ep; cbn; auto. destruct (Nat.eqb_spec v p) as [<-|]; [|reflexivity]. destruct (no_up _ _ _ _ D Ep). exists 1. cbn. now rewrite T.
    - left. pose proof T as T'. unfold hpar in T'. rewrite T'. cbn. rewrite Nat.eqb_refl. split; [reflexivity|]. intros X. destruct (no_up _ _ _ _ D T). exists 1. cbn. now rewrite X.
  Qed.
  Lemma sum_sizes u fin : u < n -> ~ In u fin -> forall (es : list (nat * W)) (sizes : list nat) a, NoDup (map fst es) -> (forall e, In e es -> arc g u (fst e)) -> (forall c, hpar vp c u -> In c fin) ->
    length sizes = n -> nth_error sizes u = Some a -> (forall v, In v fin -> exists m, nth_error sizes v = Some m /\ is_size v m) ->
    exists sizes' l, for_each (fun e sizes => if negb (same_node (fst e) (match nth_error vp u with Some p => p | None => None end)) then let* a := nth_error sizes u in let* b := nth_error sizes (fst e) in set_nth sizes u (a + b) else Some sizes) es sizes = Some sizes' /\
      length sizes' = n /\ nth_error sizes' u = Some (a + length l) /\ (forall v, v <> u -> nth_error sizes' v = nth_error sizes v) /\ NoDup l /\ forall x, In x l <-> exists e, In e es /\ hpar vp (fst e) u /\ anc vp (fst e) x.
  Proof using All.
    intros Lu Nu. induction es as [|e es IH]; intros sizes a ND Ha Hc Ls Ea Hf.
    - exists sizes, []. cbn. rewrite Nat.add_0_r. repeat split; auto; try constructor; try easy; intros (e & [] & _).
    - cbn [for_each map] in *. inversion ND as [|? ? N1 N2]. subst. pose proof (child_test u (fst e) Lu (Ha e (or_introl eq_refl))) as P.
      destruct P as [(-> & P)|(-> & P)]; cbn [negb obind].
      + destruct (IH sizes a N2) as (s' & l & E & A1 & A2 & A3 & A4 & A5); auto; [intros; apply Ha; now right|]. exists s', l. rewrite E. repeat split; auto.
        * intros X. apply A5 in X as (e' & I1 & I2). exists e'. split; [now right|exact I2].
        * intros (e' & [<-|I1] & I2 & I3); [contradiction|]. apply A5. eauto.
      + destruct (Hf (fst e) (Hc _ P)) as (m & Em & l0 & L1 & L2 & ->). rewrite Ea. cbn [obind]. rewrite Em. cbn [obind].
        destruct (set_nth_some sizes u (a + length l0)) as (s1 & E1); [lia|]. rewrite E1. cbn [obind]. pose proof (set_nth_length _ _ _ _ E1) as Ls1.
        destruct (IH s1 (a + length l0) N2) as (s' & l & E & A1 & A2 & A3 & A4 & A5); auto; [intros; apply Ha; now right|lia|rewrite (set_nth_get _ _ _ _ u E1), Nat.eqb_refl; reflexivity| |].
        { intros v Hv. rewrite (set_nth_get _ _ _ _ v E1). destruct (Nat.eqb_spec u v) as [<-|]; [contradiction|]. now apply Hf. }
        exists s', (l0 ++ l). rewrite E, app_length, Nat.add_assoc. repeat split; auto.
        * intros v Hv. rewrite A3 by exact Hv. rewrite (set_nth_get _ _ _ _ v E1). destruct (Nat.eqb_spec u v) as [<-|]; [contradiction|reflexivity].
        * apply nodup_cat; auto. intros x X1 X2. apply L2 in X1. apply A5 in X2 as (e' & I1 & I2 & I3). apply N1. rewrite (siblings _ _ u x Lu P I2 X1 I3). now apply in_map.
        * intros X. apply in_app_or in X as [X|X]; [apply L2 in X; exists e; split; [now left|auto]|]. apply A5 in X as (e' & I1 & I2). exists e'. split; [now right|exact I2].
        * intros (e' & [<-|I1] & I2 & I3); apply in_or_app; [left; now apply L2|right; apply A5; eauto].
  Qed.
  Lemma sizes_run : exists par sizes, iterative_dfs (size_visitor g) g None (repeat None n, repeat 1 n) = Some (par, sizes) /\ length par = n /\ length sizes = n /\ (forall v, v < n -> nth_error par v = nth_error vp v) /\ forall v, v < n -> exists m, nth_error sizes v = Some m /\ is_size v m.
  Proof using All.
    destruct (tree_all g Wf vp Par Rt Dep Tree (size_visitor g) sinv) with (s := (repeat (@None nat) n, repeat 1 n)) as ([par sizes] & fin & E & (L1 & L2 & HP & _ & H) & All).
    - intros o u v d rest fin [par sizes] ND Hn F _ (L1 & L2 & H1 & H2 & H3). cbn [fst snd size_visitor] in *. destruct (set_nth_some par v (Some u)) as (p' & Ep); [rewrite L1; apply Hn; now left|]. rewrite Ep. cbn [obind]. eexists. split; [reflexivity|].
      split; [cbn [fst]; now rewrite (set_nth_length _ _ _ _ Ep)|]. split; [exact L2|]. cbn [fst snd]. split; [|auto]. intros x X. rewrite (set_nth_get _ _ _ _ x Ep). destruct (Nat.eqb_spec v x) as [<-|N]; [symmetry; apply F|]. apply H1. destruct X as [->|X]; [easy|exact X].
    - intros o u d rest fin [par sizes] ND Hn F Hc (L1 & L2 & H1 & H2 & H3). cbn [fst snd size_visitor obind] in *. assert (Lu : u < n) by (apply Hn; now left). assert (Nu : ~ In u fin) by (inversion ND; intros X; apply H4; apply in_or_app; now right).
      destruct (nth_error_some g u Lu) as (l & El). rewrite El. cbn [obind]. rewrite (H1 u (or_introl eq_refl)). assert (Eo : out g u = l) by (unfold out; now apply nth_error_nth).
      destruct (nth_error_some vp u) as (pu & Epu); [lia|]. destruct (sum_sizes u fin Lu Nu l sizes 1) as (s' & l' & Es & A1 & A2 & A3 & A4 & A5); auto; [rewrite <- Eo; apply Simple|intros e He; exists (snd e); rewrite Eo, <- surjective_pairing; exact He|].
      rewrite Epu in *. cbn [obind]. rewrite Es. cbn [obind]. do 2 eexists. split; [reflexivity|]. split; [exact L1|]. split; [exact A1|]. cbn [fst snd]. split; [|split].
      + intros x X. apply H1. rewrite in_app_iff in X. cbn in X. cbn. rewrite in_app_iff. tauto.
      + intros v Lv Nv. rewrite A3 by (intros ->; apply Nv; now left). apply H2; [exact Lv|]. intros X. apply Nv. now right.
      + intros v [<-|Hv].
        * rewrite A2. eexists. split; [reflexivity|]. exists (u :: l'). split; [|split; [|cbn; lia]].
          -- constructor; [|exact A4]. intros X. apply A5 in X as (e & _ & P & A). destruct (Dep (fst e)) as (dd & D); [apply Hn, in_or_app; right; now apply Hc|]. exact (no_up _ _ _ _ D P A).
          -- intros x. split.
             ++ intros [<-|X]; [apply anc_refl|]. apply A5 in X as (e & _ & P & A). eapply anc_trans; [|exact A]. exists 1. cbn. now rewrite P.
             ++ intros A. apply anc_child in A as [->|(c & P & A)]; [now left|right]. apply A5. destruct (Par _ _ P) as (w & X). exists (c, w). rewrite <- Eo. auto.
        * rewrite A3 by (intros ->; contradiction). now apply H3.
    - intros o d fin [par sizes] ND Hn F (L1 & L2 & H1 & H2 & H3). cbn [fst snd size_visitor] in *. destruct (set_nth_some par o None) as (p' & Ep); [rewrite L1; apply Hn; now left|]. rewrite Ep. cbn [obind]. eexists. split; [reflexivity|].
      split; [cbn [fst]; now rewrite (set_nth_length _ _ _ _ Ep)|]. split; [exact L2|]. cbn [fst snd]. split; [|auto]. intros x X. rewrite (set_nth_get _ _ _ _ x Ep). destruct (Nat.eqb_spec o x) as [<-|N]; [symmetry; apply F|]. apply H1. destruct X as [->|X]; [easy|exact X].
    - split; [cbn; apply repeat_length|]. split; [cbn; apply repeat_length|]. cbn. split; [easy|]. split; [|easy]. intros v Lv _. now apply nth_error_repeat.
    - exists par, sizes. cbn [fst snd] in *. split; [exact E|]. split; [exact L1|]. split; [exact L2|]. split; [intros v Lv; apply HP, All, Lv|]. intros v Lv. apply H, All, Lv.
  Qed.

  (** ** the order of the edges *)
  Lemma swap_ok (l : list (nat * W)) i : i < length l -> exists l', swap_targets l i = Some l' /\ nth_error (map fst l') 0 = nth_error (map fst l) i /\ forall x, In x (map fst l') <-> In x (map fst l).
  Proof using All.
    intros Hi. unfold swap_targets. destruct (nth_error_some l 0) as (a & Ea); [lia|]. destruct (nth_error_some l i Hi) as (b & Eb). rewrite Ea, Eb. cbn [obind].
    destruct (set_nth_some l 0 (fst b, snd a)) as (l1 & E1); [lia|]. rewrite E1. cbn [obind]. pose proof (set_nth_length _ _ _ _ E1) as Q1. destruct (nth_error_some l1 i) as (b' & Eb'); [lia|]. rewrite Eb'. cbn [obind].
    destruct (set_nth_some l1 i (fst a, snd b')) as (l2 & E2); [lia|]. exists l2. split; [exact E2|].
    assert (N : forall j, nth_error (map fst l2) j = if i =? j then Some (fst a) else if 0 =? j then Some (fst b) else nth_error (map fst l) j).
    { intros j. rewrite !nth_error_map, (set_nth_get _ _ _ _ j E2). destruct (Nat.eqb_spec i j) as [<-|]; [reflexivity|]. rewrite (set_nth_get _ _ _ _ j E1). destruct (Nat.eqb_spec 0 j) as [<-|]; reflexivity. }
    assert (Na : nth_error (map fst l) 0 = Some (fst a)) by (rewrite nth_error_map, Ea; reflexivity). assert (Nb : nth_error (map fst l) i = Some (fst b)) by (rewrite nth_error_map, Eb; reflexivity).
    split; [rewrite N, Nb; destruct (Nat.eqb_spec i 0) as [->|]; [congruence|reflexivity]|]. intros x. split; intros X; apply In_nth_error in X as (j & Ej).
    - rewrite N in Ej. destruct (Nat.eqb_spec i j) as [?|?]; [injection Ej as <-; eapply nth_error_In; eauto|]. destruct (Nat.eqb_spec 0 j) as [?|?]; [injection Ej as <-; eapply nth_error_In; eauto|]. eapply nth_error_In; eauto.
    - destruct (Nat.eqb_spec i j) as [<-|Nj].
      + rewrite Nb in Ej. injection Ej as <-. destruct (Nat.eqb_spec i 0) as [->|].
        * assert (a = b) by congruence. subst b. apply (nth_error_In _ 0). rewrite N. reflexivity.
        * apply (nth_error_In _ 0). rewrite N. destruct (Nat.eqb_spec i 0); [contradiction|reflexivity].
      + destruct (Nat.eqb_spec 0 j) as [<-|N0].
        * rewrite Na in Ej. injection Ej as <-. apply (nth_error_In _ i). rewrite N, Nat.eqb_refl. reflexivity.
        * apply (nth_error_In _ j). rewrite N. destruct (Nat.eqb_spec i j), (Nat.eqb_spec 0 j); try contradiction. exact Ej.
  Qed.
  Definition heavy (h : list (list (nat * W))) (sizes : list nat) (u : nat) : Prop :=
    forall c, hpar vp c u -> exists f mc mf, nth_error (map fst (out h u)) 0 = Some f /\ hpar vp f u /\ nth_error sizes c = Some mc /\ nth_error sizes f = Some mf /\ mc <= mf.
  Lemma size_pos sizes v : v < n -> (forall v, v < n -> exists m, nth_error sizes v = Some m /\ is_size v m) -> exists m, nth_error sizes v = Some (S m).
  Proof using All.
    intros Lv H. destruct (H v Lv) as (m & Em & l & _ & Hx & ->). destruct l as [|x l]; [exfalso; apply (proj2 (Hx v)), anc_refl|]. exists (length l). exact Em.
  Qed.
  Lemma heavy_ok par sizes u l : u < n -> out g u = l -> 1 <= length l -> length par = n -> length sizes = n -> (forall v, v < n -> nth_error par v = nth_error vp v) -> (forall v, v < n -> exists m, nth_error sizes v = Some m /\ is_size v m) ->
    exists hi, heavy_edge par sizes u l = Some hi /\ hi < length l /\ forall c, hpar vp c u -> exists f mc mf, nth_error (map fst l) hi = Some f /\ hpar vp f u /\ nth_error sizes c = Some mc /\ nth_error sizes f = Some mf /\ mc <= mf.
  Proof using All.
    intros Lu Eo Ll Lp Ls HP HS. unfold heavy_edge. rewrite (HP u Lu). destruct (nth_error_some vp u) as (pu & Epu); [lia|]. rewrite Epu. cbn [obind].
    assert (Ar : forall j e, nth_error l j = Some e -> arc g u (fst e) /\ fst e < n). { intros j e Ej. apply nth_error_In in Ej. rewrite <- Eo in Ej. split; [exists (snd e); now rewrite <- surjective_pairing|exact (Wf u e Ej)]. }
    edestruct (for_range_spec (fun i (s : nat * nat) => fst s < length l /\ (snd s = 0 \/ exists e, nth_error l (fst s) = Some e /\ hpar vp (fst e) u /\ nth_error sizes (fst e) = Some (snd s)) /\
      forall j e z, j < i -> nth_error l j = Some e -> hpar vp (fst e) u -> nth_error sizes (fst e) = Some z -> z <= snd s)) as ([hi hs] & E & Hi & Hb & Hm); [| | |rewrite E].
    - lia.
    - cbn. split; [lia|]. split; [now left|]. intros; lia.
    - intros j [hi hs] Hj (H1 & H2 & H3). cbn [fst snd] in *. destruct (nth_error_some l j) as (e & Ee); [lia|]. rewrite Ee. cbn [obind]. destruct (Ar j e Ee) as (A & Le). destruct (nth_error_some sizes (fst e)) as (z & Ez); [lia|]. rewrite Ez. cbn [obind]. eexists. split; [reflexivity|].
      pose proof (child_test u (fst e) Lu A) as P. rewrite Epu in P. destruct P as [(-> & P)|(-> & P)]; cbn [negb andb].
      + cbn [fst snd]. split; [exact H1|]. split; [exact H2|]. intros j' e' z' Hj' Ee' P' Ez'. destruct (Nat.eq_dec j' j) as [->|]; [|apply (H3 j' e'); auto; lia]. rewrite Ee in Ee'. injection Ee' as <-. contradiction.
      + destruct (Nat.ltb_spec hs z); cbn [fst snd].
        * split; [lia|]. split; [right; eauto|]. intros j' e' z' Hj' Ee' P' Ez'. destruct (Nat.eq_dec j' j) as [->|]; [|specialize (H3 j' e' z'); assert (z' <= hs) by (apply H3; auto; lia); lia]. rewrite Ee in Ee'. injection Ee' as <-. rewrite Ez in Ez'. injection Ez' as <-. lia.
        * split; [exact H1|]. split; [exact H2|]. intros j' e' z' Hj' Ee' P' Ez'. destruct (Nat.eq_dec j' j) as [->|]; [|apply (H3 j' e'); auto; lia]. rewrite Ee in Ee'. injection Ee' as <-. rewrite Ez in Ez'. injection Ez' as <-. lia.
    - cbn [obind fst snd] in *. exists hi. split; [reflexivity|]. split; [exact Hi|]. intros c Hc. destruct (Par _ _ Hc) as (w & X). rewrite Eo in X. destruct (In_nth_error _ _ X) as (j & Ej). destruct (Ar j _ Ej) as (_ & Lc). cbn [fst] in Lc. destruct (size_pos sizes c Lc HS) as (m & Em).
      assert (Lj : j < length l) by (apply nth_error_Some; congruence). pose proof (Hm j (c, w) (S m) Lj Ej Hc Em) as Le. destruct Hb as [->|(e & Ee & Pe & Ze)]; [lia|]. exists (fst e), (S m), hs. rewrite nth_error_map, Ee. auto.
  Qed.
  Lemma reorder_ok par sizes : length par = n -> length sizes = n -> (forall v, v < n -> nth_error par v = nth_error vp v) -> (forall v, v < n -> exists m, nth_error sizes v = Some m /\ is_size v m) ->
    exists h, reorder par sizes g = Some h /\ length h = n /\ (forall u x, In x (map fst (out h u)) <-> In x (map fst (out g u))) /\ forall u, u < n -> heavy h sizes u.
  Proof using All.
    intros Lp Ls HP HS. unfold reorder. destruct (for_range_spec (fun k h => length h = n /\ (forall u x, In x (map fst (out h u)) <-> In x (map fst (out g u))) /\ (forall u, k <= u -> out h u = out g u) /\ forall u, u < k -> heavy h sizes u)
      (fun u g => let* l := nth_error g u in if length l <? 2 then Some g else let* i := heavy_edge par sizes u l in let* l := swap_targets l i in set_nth g u l) 0 n g) as (h & E & H1 & H2 & _ & H4); [lia| | |exists h; auto].
    { split; [reflexivity|]. split; [tauto|]. split; [reflexivity|intros; lia]. }
    intros u h Hu (Lh & Hh & Hs & Hv). destruct (nth_error_some h u) as (l & El); [lia|]. rewrite El. cbn [obind].
    assert (Eo : out h u = l) by (unfold out; now apply nth_error_nth). assert (Eg : out g u = l) by (rewrite <- (Hs u); auto).
    destruct (Nat.ltb_spec (length l) 2) as [L1|L2].
    - eexists. split; [reflexivity|]. split; [exact Lh|]. split; [exact Hh|]. split; [intros; apply Hs; lia|]. intros v Hvu. destruct (Nat.eq_dec v u) as [->|]; [|apply Hv; lia]. intros c Hc. destruct (Par _ _ Hc) as (w & X). rewrite Eg in X. destruct (HS c) as (m & Em & _); [exact (Wf u (c, w) ltac:(now rewrite Eg))|].
      exists c, m, m. rewrite Eo. split; [|auto]. destruct l as [|e [|]]; cbn in *; [easy| |lia]. destruct X as [->|[]]. reflexivity.
    - destruct (heavy_ok par sizes u l) as (hi & -> & Hi & HH); auto; [lia|lia|]. cbn [obind]. destruct (swap_ok l hi Hi) as (l' & -> & H0 & Hl). cbn [obind]. destruct (set_nth_some h u l') as (h' & E'); [lia|]. exists h'. split; [exact E'|]. split; [now rewrite (set_nth_length _ _ _ _ E')|].
      assert (O1 : out h' u = l') by (unfold out; apply nth_error_nth; rewrite (set_nth_get _ _ _ _ u E'), Nat.eqb_refl; reflexivity).
      assert (O2 : forall v, u <> v -> out h' v = out h v).
      { intros v N. unfold out. destruct (nth_error h v) as [q|] eqn:Q.
        - rewrite (nth_error_nth h v [] Q). apply nth_error_nth. rewrite (set_nth_get _ _ _ _ v E'). destruct (Nat.eqb_spec u v); [contradiction|exact Q].
        - assert (length h <= v) by now apply nth_error_None. rewrite !nth_overflow; [reflexivity|assumption|]. rewrite (set_nth_length _ _ _ _ E'). assumption. }
      split; [|split].
      + intros v x. rewrite <- Hh. destruct (Nat.eq_dec u v) as [<-|N]; [rewrite O1, Eo; apply Hl|rewrite (O2 v N); tauto].
      + intros v Lv. rewrite O2 by lia. apply Hs. lia.
      + intros v Lv. unfold heavy. destruct (Nat.eq_dec u v) as [<-|N]; [rewrite O1, H0; exact HH|rewrite (O2 v N); apply Hv; lia].
  Qed.
  Lemma nth_error_firstn {A} (v : list A) m i : nth_error (firstn m v) i = if i <? m then nth_error v i else None.
  Proof using Type. revert m i; induction v as [|a v IH]; intros [|m] [|i]; cbn [firstn nth_error]; try reflexivity; try (rewrite IH; reflexivity); destruct (_ <? _); reflexivity. Qed.
  Lemma nth_error_skipn {A} (v : list A) m i : nth_error (skipn m v) i = nth_error v (m + i).
  Proof using Type. revert v; induction m as [|m IH]; intros [|a v]; cbn; try reflexivity; [now destruct i|apply IH]. Qed.
  Lemma nd_r {A} (a b : list A) : NoDup (a ++ b) -> NoDup b.
  Proof using Type. induction a as [|x a IH]; [auto|]. cbn. intros H. apply IH. now inversion H. Qed.
  Lemma nd_l {A} (a b : list A) : NoDup (a ++ b) -> NoDup a.
  Proof using Type. induction a as [|x a IH]; [constructor|]. cbn. intros H. inversion H as [|y l N1 N2]. constructor; [intros X; apply N1, in_or_app; now left|auto]. Qed.
  (** ** the whole construction *)
  Lemma arc_fst (h : list (list (nat * W))) u v : arc h u v <-> In v (map fst (out h u)).
  Proof using Type. rewrite in_map_iff. split; [intros (w & X); exists (v, w); auto|intros ([a w] & <- & X); now exists w]. Qed.
  Lemma light h sizes c p mc : (forall v, v < n -> exists m, nth_error sizes v = Some m /\ is_size v m) -> (forall u, u < n -> heavy h sizes u) -> p < n -> hpar vp c p -> nth_error sizes c = Some mc ->
    (forall f, nth_error (map fst (out h p)) 0 = Some f -> hpar vp f p -> f <> c) -> exists mp, nth_error sizes p = Some mp /\ 2 * mc < mp.
  Proof using All.
    intros HS HV Lp Hc Emc Nf. destruct (HV p Lp c Hc) as (f & mc' & mf & Ef & Pf & E1 & E2 & Le). rewrite Emc in E1. injection E1 as <-. specialize (Nf f Ef Pf). destruct (HS p Lp) as (mp & Ep & lp & P1 & P2 & ->). exists (length lp). split; [exact Ep|].
    assert (Lc : forall x, hpar vp x p -> x < n) by (intros x X; rewrite <- Lvp; apply nth_error_Some; unfold hpar in X; congruence).
    destruct (HS c (Lc c Hc)) as (m1 & X1 & lc & C1 & C2 & ->). rewrite Emc in X1. injection X1 as ->. destruct (HS f (Lc f Pf)) as (m2 & X2 & lf & F1 & F2 & ->). rewrite E2 in X2. injection X2 as ->.
    assert (X : length (p :: lc ++ lf) <= length lp); [|cbn [length] in X; rewrite app_length in X; lia]. assert (S1 : forall x y, hpar vp y p -> anc vp y x -> anc vp p x) by (intros x y Y A; eapply anc_trans; [|exact A]; exists 1; cbn; now rewrite Y).
    apply NoDup_incl_length.
    - constructor; [|apply nodup_cat; auto; intros x A B; apply C2 in A; apply F2 in B; apply Nf; exact (siblings _ _ p x Lp Pf Hc B A)]. rewrite in_app_iff, C2, F2. intros [A|A]; [destruct (Dep c (Lc c Hc)) as (d & D); exact (no_up _ _ _ _ D Hc A)|destruct (Dep f (Lc f Pf)) as (d & D); exact (no_up _ _ _ _ D Pf A)].
    - intros x [<-|A]; [apply P2, anc_refl|]. apply P2. apply in_app_or in A as [A|A]; [apply C2 in A; eauto|apply F2 in A; eauto].
  Qed.
  Lemma hld_run : exists h t L, hld_build g = Some (h, t) /\ length (h_parents t) = n /\ length L = n /\ NoDup L /\
    (forall x, In x L <-> x < n) /\ (forall i, i < n -> hld_node t i = Some (nth_error L i)) /\ (forall i x, nth_error L i = Some x -> hld_position t x = Some (Some i)) /\
    (forall i x, nth_error L i = Some x -> exists c, hld_parent t x = Some c /\ chained vp L x i c) /\
    (forall i w, nth_error L i = Some w -> exists m, hld_size t w = Some m /\ i + m <= n /\ forall x, anc vp w x <-> exists j, i <= j < i + m /\ nth_error L j = Some x) /\
    (forall c p mc i, hpar vp c p -> hld_size t c = Some mc -> nth_error L i = Some p -> nth_error L (S i) <> Some c -> exists mp, hld_size t p = Some mp /\ 2 * mc < mp).
  Proof using All.
    destruct sizes_run as (par & sizes & E1 & L1 & L2 & HP & HS). destruct (reorder_ok par sizes L1 L2 HP HS) as (h & E2 & Lh & Hh & HV). set (first := fun u => nth_error (map fst (out h u)) 0).
    assert (Ar : forall u v, arc h u v <-> arc g u v) by (intros; now rewrite !arc_fst). assert (Wk : forall u v, walk g u v -> walk h u v) by (induction 1; [constructor; now apply Ar|eapply walk_cons; [apply Ar; eassumption|assumption]]).
    assert (Wfh : wf h). { intros i e X. rewrite Lh. assert (Y : In (fst e) (map fst (out g i))) by (apply Hh; now apply in_map). apply in_map_iff in Y as (e' & <- & Y). exact (Wf i e' Y). }
    destruct (tree_all (St := lay) h Wfh vp) with (visitor := layout_visitor) (U := fun path fin (s : lay) => (forall x, In x (path ++ fin) -> x < n) /\ exists L, linv n vp first path fin s L) (s := Lay 0 None par (repeat None n) (repeat None n)) as (s & fin & E3 & (Hb & L & I) & AllF).
    - intros v p X. now apply Ar, Par.
    - intros v Lv X. apply Rt; [lia|]. intros u Lu Y. exact (X u Lu (Wk _ _ Y)).
    - intros v Lv. apply Dep. lia.
    - intros u v X. now apply Tree, Ar.
    - intros o u v d rest fin s ND Hn F HF (Hb & L & I). rewrite Lh in Hn. destruct (linv_enter n vp first (u :: rest) fin s L o d v I ND Hn F HF) as (s' & E & I'). exists s'. split; [exact E|]. split; [exact Hn|eauto].
    - intros o u d rest fin s ND Hn F Hc (Hb & L & I). rewrite Lh in Hn. destruct (linv_exit n vp first u rest fin s L o (Some u) d I F Hc) as (s' & E & I'). exists true, s'. split; [exact E|]. split; [|eauto]. intros x X. apply Hb. rewrite in_app_iff in *. cbn in *. tauto.
    - intros o d fin s ND Hn F (Hb & L & I). rewrite Lh in Hn. destruct (linv_enter n vp first [] fin s L o d o I ND Hn F Logic.I) as (s' & E & I'). exists s'. split; [exact E|]. split; [exact Hn|eauto].
    - split; [easy|]. exists []. now apply linv_0.
    - cbn [app] in *. rewrite Lh in AllF. assert (IN : forall x, In x L <-> x < n). { intros x. rewrite (v_in _ _ _ _ _ _ _ I). cbn [app]. split; auto. }
      assert (LL : length L = n). { assert (P : Permutation L (seq 0 n)) by (apply NoDup_Permutation; [apply (v_nodup _ _ _ _ _ _ _ I)|apply seq_NoDup|intros x; rewrite IN, in_seq; lia]). rewrite (Permutation_length P). apply seq_length. }
      exists h, (Hld (l_parents s) (l_positions s) (l_nodes s) sizes), L. unfold hld_build. rewrite E1. cbn [obind]. rewrite E2. cbn [obind]. rewrite E3. cbn [obind]. split; [reflexivity|]. unfold hld_node, hld_position, hld_parent, hld_size. cbn [h_parents h_nodes h_positions h_sizes].
      split; [apply (v_par _ _ _ _ _ _ _ I)|]. split; [exact LL|]. split; [apply (v_nodup _ _ _ _ _ _ _ I)|]. split; [exact IN|]. split; [intros i Hi; apply (v_node _ _ _ _ _ _ _ I); lia|]. split; [apply (v_position _ _ _ _ _ _ _ I)|]. split; [apply (v_chain _ _ _ _ _ _ _ I)|].
      split; [|intros c p mc i Hc Emc Ei Nc; apply (light h sizes c p mc HS HV (proj1 (IN p) (nth_error_In _ _ Ei)) Hc Emc); intros f Ef Pf; destruct (In_nth_error L f) as (k & Ek); [apply IN; rewrite <- Lvp; apply nth_error_Some; unfold hpar in Pf; congruence|]; destruct (v_next _ _ _ _ _ _ _ I p f k Ef Pf Ek) as (j & -> & Ej); rewrite (nth_uniq L _ _ _ (v_nodup _ _ _ _ _ _ _ I) Ej Ei) in Ek; congruence].
      intros i w Ei. assert (Lw : w < n) by (apply IN; eapply nth_error_In; eauto). destruct (v_fin _ _ _ _ _ _ _ I w i (AllF w Lw) Ei) as (m & Hm & Hx). destruct (HS w Lw) as (m' & Em & l & N1 & N2 & ->). exists (length l). split; [exact Em|]. assert (m = length l) as <-; [|split; [lia|exact Hx]].
      assert (P : Permutation (firstn m (skipn i L)) l).
      { apply NoDup_Permutation; [|exact N1|].
        - pose proof (v_nodup _ _ _ _ _ _ _ I) as ND. rewrite <- (firstn_skipn i L) in ND. apply nd_r in ND. rewrite <- (firstn_skipn m (skipn i L)) in ND. now apply nd_l in ND.
        - intros x. rewrite N2, Hx. split.
          + intros X. apply In_nth_error in X as (j & Ej). assert (j < m) by (assert (Q : j < length (firstn m (skipn i L))) by (apply nth_error_Some; congruence); rewrite firstn_length in Q; lia). exists (i + j). split; [lia|].
            rewrite nth_error_firstn, nth_error_skipn in Ej. destruct (Nat.ltb_spec j m); [exact Ej|discriminate].
          + intros (j & Hj & Ej). apply (nth_error_In _ (j - i)). rewrite nth_error_firstn, nth_error_skipn. destruct (Nat.ltb_spec (j - i) m); [|lia]. now replace (i + (j - i)) with j by lia. }
      rewrite <- (Permutation_length P), firstn_length, skipn_length. lia.
  Qed.
End Sizes.
