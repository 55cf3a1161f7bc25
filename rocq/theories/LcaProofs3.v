(** Routes in a forest. *)
From Coq Require Import Lia.
From Verif Require Import Lib GraphSpec WalkSpec DfsModel DfsSpec DfsProps LcaModel LcaSpec LcaProofs LcaProofs2.
Open Scope nat_scope.

Fixpoint climb (vp : list (option nat)) (k v : nat) : list nat :=
  match k with O => [] | S k => match nth_error vp v with Some (Some p) => p :: climb vp k p | _ => [] end end.
Lemma climb_length vp : forall k v a, up vp k v = Some a -> length (climb vp k v) = k.
Proof. induction k as [|k IH]; intros v a E; [reflexivity|]. cbn [up climb] in *. destruct (nth_error vp v) as [[p|]|]; try discriminate. cbn [length]. f_equal. eauto. Qed.
Lemma in_climb vp : forall k v a x, up vp k v = Some a -> In x (v :: climb vp k v) -> anc vp x v /\ anc vp a x.
Proof.
  induction k as [|k IH]; intros v a x E H.
  - cbn in *. injection E as ->. destruct H as [<-|[]]. split; apply anc_refl.
  - destruct H as [<-|H]; [split; [apply anc_refl|now exists (S k)]|]. cbn [up climb] in *. destruct (nth_error vp v) as [[p|]|] eqn:Ep; try discriminate. destruct (IH p a x E H) as (A & B). split; [|exact B].
    apply (anc_up _ _ _ x Ep). now right.
Qed.
Lemma no_up vp v d p : at_depth vp v d -> nth_error vp v = Some (Some p) -> ~ anc vp v p.
Proof.
  intros D E (k & K). assert (X : up vp (S k) v = Some v) by (cbn [up]; now rewrite E). pose proof (at_depth_up _ _ _ _ _ X D) as Y. pose proof (at_depth_fun _ _ _ _ D Y). lia.
Qed.
Lemma climb_nodup vp : forall k v d a, at_depth vp v d -> up vp k v = Some a -> NoDup (v :: climb vp k v).
Proof.
  induction k as [|k IH]; intros v d a D E; [constructor; [easy|constructor]|]. cbn [climb]. pose proof E as E'. cbn [up] in E. destruct (nth_error vp v) as [[p|]|] eqn:Ep; try discriminate.
  destruct d as [|d].
  - destruct D as (r & D1 & D2). cbn in D1. injection D1 as ->. congruence.
  - assert (Dp : at_depth vp p d). { destruct D as (r & D1 & D2). cbn [up] in D1. rewrite Ep in D1. now exists r. }
    constructor; [|eapply IH; eauto]. intros X. destruct (in_climb _ _ _ _ _ E X) as (X1 & _). now apply (no_up _ _ _ _ D Ep).
Qed.
Lemma anc_antisym vp a b d : at_depth vp a d -> anc vp a b -> anc vp b a -> a = b.
Proof.
  intros D (j & J) (k & K). assert (X : up vp (k + j) a = Some a) by now rewrite (up_add _ _ _ _ _ K). pose proof (at_depth_up _ _ _ _ _ X D) as Y. pose proof (at_depth_fun _ _ _ _ D Y). assert (k = 0) by lia. subst k. cbn in K. congruence.
Qed.

Section R.
  Context {W : Type}.
  Variable g : list (list (nat * W)).
  Lemma route_app u l v m w : route g u l v -> route g v m w -> route g u (l ++ m) w.
  Proof using Type. induction 1 as [u|u x l v A _ IH]; intros R; cbn; [exact R|]. econstructor; [exact A|auto]. Qed.
  Hypothesis Sym : forall u v, arc g u v -> arc g v u.
  Lemma route_rev u l v : route g u l v -> exists l', route g v l' u /\ v :: l' = rev (u :: l).
  Proof using Sym.
    induction 1 as [u|u x l v A R (l' & R' & E)]; [exists []; split; [constructor|reflexivity]|]. exists (l' ++ [u]). split.
    - eapply route_app; [exact R'|]. econstructor; [apply Sym, A|constructor].
    - cbn [rev] in *. rewrite <- E. reflexivity.
  Qed.
  Lemma route_walk u l v : route g u l v -> u = v \/ walk g u v.
  Proof using Type. induction 1 as [u|u x l v A _ [->|IH]]; [now left| |]; right; [now constructor|eapply walk_cons; eauto]. Qed.
  Variable vp : list (option nat).
  Hypothesis Par : forall v p, nth_error vp v = Some (Some p) -> arc g p v.
  Hypothesis Dep : forall v, v < length g -> exists d, at_depth vp v d.
  Lemma climb_route : forall k v a, up vp k v = Some a -> route g v (climb vp k v) a.
  Proof using Sym Par.
    induction k as [|k IH]; intros v a E; cbn [up climb] in *; [injection E as ->; constructor|]. destruct (nth_error vp v) as [[p|]|] eqn:Ep; try discriminate. econstructor; [apply Sym, Par, Ep|auto].
  Qed.
  Lemma tree_route u v a i j : u < length g -> v < length g -> is_lca vp u v a -> up vp i u = Some a -> up vp j v = Some a -> exists l, route g u l v /\ NoDup (u :: l) /\ length l = i + j.
  Proof using Sym Par Dep.
    intros Lu Lv (_ & _ & HL) Ei Ej. destruct (Dep u Lu) as (du & Du). destruct (Dep v Lv) as (dv & Dv).
    pose proof (climb_route _ _ _ Ei) as R1. destruct (route_rev _ _ _ (climb_route _ _ _ Ej)) as (l' & R2 & E). exists (climb vp i u ++ l'). split; [eapply route_app; eauto|].
    pose proof (climb_nodup _ _ _ _ _ Du Ei) as N1. pose proof (climb_nodup _ _ _ _ _ Dv Ej) as N2. apply NoDup_rev in N2. rewrite <- E in N2. split.
    - change (NoDup ((u :: climb vp i u) ++ l')). remember (u :: climb vp i u) as l1 eqn:E1. assert (X : forall x, In x l1 -> ~ In x l').
      { intros x H1 H2. subst l1. destruct (in_climb _ _ _ _ _ Ei H1) as (A1 & _). assert (H3 : In x (v :: climb vp j v)) by (apply in_rev; rewrite <- E; now right). destruct (in_climb _ _ _ _ _ Ej H3) as (A2 & A3).
        inversion N2 as [|y m Ny Nm]. apply Ny. assert (Da : exists d, at_depth vp x d).
        { destruct A2 as (m1 & M1). destruct Dv as (r & D1 & D2). destruct (Nat.le_gt_cases m1 dv) as [L|L].
          - exists (dv - m1), r. split; [|exact D2]. rewrite <- (up_add vp m1 (dv - m1) v x M1). now replace (m1 + (dv - m1)) with dv by lia.
          - replace m1 with (dv + (m1 - dv)) in M1 by lia. rewrite (up_add _ _ _ _ _ D1) in M1. pose proof (root_up _ _ _ _ D2 M1). lia. }
        destruct Da as (d & Dx). rewrite (anc_antisym vp x a d Dx (HL x A1 A2) A3) in H2. exact H2. }
      inversion N2 as [|y m Ny Nm]. clear - N1 Nm X. induction l1 as [|y l1 IH]; [exact Nm|]. cbn. inversion N1. constructor; [|apply IH; [assumption|intros z Hz; apply X; now right]].
      rewrite in_app_iff. intros [Y|Y]; [contradiction|]. exact (X y (or_introl eq_refl) Y).
    - rewrite app_length, (climb_length _ _ _ _ Ei). f_equal. apply (f_equal (@length nat)) in E. rewrite rev_length in E. cbn [length] in E. rewrite (climb_length _ _ _ _ Ej) in E. lia.
  Qed.
  Hypothesis Tree : forall u v, arc g u v -> nth_error vp v = Some (Some u) \/ nth_error vp u = Some (Some v).
  Lemma route_common u l v : route g u l v -> exists b i j, up vp i u = Some b /\ up vp j v = Some b /\ i + j <= length l.
  Proof using Sym Par Dep Tree.
    induction 1 as [u|u x l v A _ (b & i & j & Ei & Ej & L)]; [exists u, 0, 0; cbn; auto|]. cbn [length]. destruct (Tree _ _ A) as [T|T].
    - destruct i as [|i]; cbn [up] in Ei.
      + injection Ei as <-. exists u, 0, (j + 1). cbn [up]. split; [reflexivity|]. rewrite (up_add _ _ _ _ _ Ej). cbn. rewrite T. split; [reflexivity|lia].
      + rewrite T in Ei. exists b, i, j. repeat split; auto. lia.
    - exists b, (S i), j. cbn [up]. rewrite T. repeat split; auto. lia.
  Qed.
  Lemma lca_least u v a i j b i' j' : u < length g -> v < length g -> is_lca vp u v a -> up vp i u = Some a -> up vp j v = Some a -> up vp i' u = Some b -> up vp j' v = Some b -> i + j <= i' + j'.
  Proof using Sym Par Dep Tree.
    intros Lu Lv (_ & _ & HL) Ei Ej Ei' Ej'. destruct (HL b) as (k & K); [now exists i'|now exists j'|].
    assert (U : forall x m, x < length g -> up vp m x = Some b -> forall m', up vp m' x = Some b -> m = m').
    { intros x m Lx Em m' Em'. destruct (Dep x Lx) as (d & r & D1 & D2). assert (Dm : forall m, up vp m x = Some b -> m <= d).
      { intros m1 M1. destruct (Nat.le_gt_cases m1 d) as [L|L]; [exact L|]. replace m1 with (d + (m1 - d)) in M1 by lia. rewrite (up_add _ _ _ _ _ D1) in M1. pose proof (root_up _ _ _ _ D2 M1). lia. }
      assert (Db : forall m, up vp m x = Some b -> at_depth vp b (d - m)).
      { intros m1 M1. exists r. split; [|exact D2]. rewrite <- (up_add vp m1 (d - m1) x b M1). pose proof (Dm m1 M1). now replace (m1 + (d - m1)) with d by lia. }
      pose proof (at_depth_fun _ _ _ _ (Db m Em) (Db m' Em')). pose proof (Dm m Em). pose proof (Dm m' Em'). lia. }
    assert (i + k = i') by (apply (U u); [exact Lu|now rewrite (up_add _ _ _ _ _ Ei)|exact Ei']). assert (j + k = j') by (apply (U v); [exact Lv|now rewrite (up_add _ _ _ _ _ Ej)|exact Ej']). lia.
  Qed.
End R.

(** ** a test for cycles in a given graph *)
Section Check.
  Context {W : Type}.
  Variable g : list (list (nat * W)).
  Fixpoint routes (k u : nat) : list (list nat * nat) :=
    ([], u) :: match k with O => [] | S k => flat_map (fun e => map (fun r => (fst e :: fst r, snd r)) (routes k (fst e))) (out g u) end.
  Lemma routes_all u l v : route g u l v -> forall k, length l <= k -> In (l, v) (routes k u).
  Proof using Type.
    induction 1 as [u|u x l v (w & A) _ IH]; intros [|k] L; cbn [length] in L; try (now left). right. apply in_flat_map. exists (x, w). split; [exact A|]. apply in_map_iff. exists (l, v). split; [reflexivity|]. apply IH. lia.
  Qed.
  Definition arcb u v := existsb (fun e => fst e =? v) (out g u).
  Lemma arcb_iff u v : arcb u v = true <-> arc g u v.
  Proof using Type.
    unfold arcb. rewrite existsb_exists. split; [intros ([x w] & X & E); apply Nat.eqb_eq in E; cbn in E; subst x; now exists w|]. intros (w & X). exists (v, w). split; [exact X|apply Nat.eqb_refl].
  Qed.
  Fixpoint distinct (l : list nat) : bool := match l with [] => true | x :: l => negb (existsb (Nat.eqb x) l) && distinct l end.
  Lemma distinct_iff l : NoDup l -> distinct l = true.
  Proof using Type.
    induction 1 as [|x l N _ IH]; [reflexivity|]. cbn. rewrite IH, andb_true_r. destruct (existsb (Nat.eqb x) l) eqn:E; [|reflexivity]. apply existsb_exists in E as (y & Y & E). apply Nat.eqb_eq in E. subst y. contradiction.
  Qed.
  Definition forestb : bool :=
    forallb (fun u => negb (arcb u u) && forallb (fun v => implb (arcb u v) (arcb v u)) (seq 0 (length g)) &&
      forallb (fun r => negb (distinct (u :: fst r)) || (length (fst r) <? 2) || negb (arcb (snd r) u)) (routes (length g) u)) (seq 0 (length g)).
  Lemma forestb_ok : wf g -> forestb = true -> undirected_forest g.
  Proof using Type.
    intros Wf F. unfold forestb in F. rewrite forallb_forall in F. assert (L2 : forall x y, arc g x y -> y < length g) by (intros x y (w & X); exact (Wf x (y, w) X)).
    assert (L1 : forall x y, arc g x y -> x < length g). { intros x y (w & X). destruct (Nat.lt_ge_cases x (length g)) as [|L]; [assumption|]. unfold out in X. rewrite nth_overflow in X by exact L. destruct X. }
    assert (G : forall u, u < length g -> arcb u u = false /\ (forall v, v < length g -> arc g u v -> arc g v u) /\ (forall l v, route g u l v -> length l <= length g -> NoDup (u :: l) -> 2 <= length l -> ~ arc g v u)).
    { intros u Lu. specialize (F u). rewrite in_seq in F. specialize (F ltac:(lia)). apply andb_prop in F as (F & F3). apply andb_prop in F as (F1 & F2). rewrite forallb_forall in F2, F3. split; [now apply negb_true_iff|]. split.
      - intros v Lv A. specialize (F2 v). rewrite in_seq in F2. specialize (F2 ltac:(lia)). apply arcb_iff in A. rewrite A in F2. now apply arcb_iff.
      - intros l v R Ll ND L A. specialize (F3 (l, v) (routes_all u l v R _ Ll)). cbn [fst snd] in F3. rewrite (distinct_iff _ ND) in F3. apply arcb_iff in A. rewrite A in F3. destruct (Nat.ltb_spec (length l) 2); [lia|]. discriminate. }
    split; [|split].
    - intros u v A. apply (G u); eauto.
    - intros u A. destruct (G u (L1 _ _ A)) as (X & _). apply arcb_iff in A. congruence.
    - intros u l v R ND L A. apply (G u (L2 _ _ A)) with (l := l) (v := v); auto. assert (X : length (u :: l) <= length g); [|cbn [length] in X; lia]. rewrite <- (seq_length (length g) 0). apply NoDup_incl_length; [exact ND|].
      intros x [<-|X]; apply in_seq; [specialize (L2 _ _ A); lia|]. clear ND L A. induction R as [u|u y l v A R IH]; [destruct X|]. destruct X as [<-|X]; [specialize (L2 _ _ A); lia|]. apply IH, X.
  Qed.
End Check.
