From Coq Require Import Permutation.
From Verif Require Import Lib GraphSpec WalkSpec ClosModel ClosProofs DfsModel.
Open Scope nat_scope.

Fixpoint msum {W} (g : list (list (nat * W))) (vis : list bool) : nat :=
  match g, vis with l :: g, b :: vis => (if b then 0 else S (length l)) + msum g vis | _, _ => 0 end.
Lemma msum_le {W} (g : list (list (nat * W))) : forall vis, msum g vis <= length (concat g) + length g.
Proof. induction g as [|l g IH]; intros [|b vis]; cbn; try lia. rewrite app_length. specialize (IH vis). destruct b; lia. Qed.
Lemma msum_set {W} (g : list (list (nat * W))) : forall vis v vis', v < length g -> nth_error vis v = Some false -> set_nth vis v true = Some vis' ->
  msum g vis = msum g vis' + S (length (out g v)).
Proof.
  induction g as [|l g IH]; intros [|b vis] v vis' L E E'; cbn in L; try lia; destruct v; cbn in E, E'; try discriminate.
  - injection E as ->. injection E' as <-. unfold out. cbn. lia.
  - destruct (set_nth vis v true) as [w|] eqn:Ew; cbn in E'; [|discriminate]. injection E' as <-. cbn. unfold out in *. cbn. rewrite (IH vis v w (proj2 (Nat.succ_lt_mono _ _) L) E Ew). destruct b; lia.
Qed.

Section Gen.
  Context {W St : Type}.
  Variable g : list (list (nat * W)).
  Hypothesis Wf : wf g.
  Notation n := (length g).
  Notation stack := (list (nat * nat)).
  (** consecutive nodes of the stack are joined by edges *)
  Fixpoint chain (l : list nat) : Prop :=
    match l with v :: (u :: _) as r => arc g u v /\ chain r | _ => True end.
  Definition base (vis : list bool) (stk : stack) (fin : list nat) : Prop :=
    length vis = n /\ NoDup (map fst stk ++ fin) /\ (forall v, v < n -> (nth_error vis v = Some true <-> In v (map fst stk ++ fin))) /\
    (forall v, In v (map fst stk ++ fin) -> v < n) /\ chain (map fst stk) /\
    (forall u i, In (u, i) stk -> i <= length (out g u) /\ forall j e, j < i -> nth_error (out g u) j = Some e -> In (fst e) (map fst stk ++ fin)) /\
    (forall u, In u fin -> forall v, arc g u v -> In v (map fst stk ++ fin)).
  Lemma chain_walk l : chain l -> forall v, In v (tl l) -> forall u, nth_error l 0 = Some u -> walk g v u.
  Proof using Type.
    induction l as [|a l IH]; intros C v Hv u E; [easy|]. cbn in E. injection E as ->. cbn [tl] in Hv. destruct l as [|b l]; [easy|]. destruct C as (A & C).
    destruct Hv as [<-|Hv]; [now constructor|]. apply (walk_snoc g _ b); [|exact A]. apply (IH C v); [exact Hv|reflexivity].
  Qed.
  Definition wsum (stk : stack) : nat := fold_right (fun x a => S (length (out g (fst x)) - snd x) + a) 0 stk.

  Variable visitor : nat -> option nat -> option nat -> nat -> St -> option (bool * St).
  Variable o : nat.
  Variable U : list nat -> list nat -> St -> Prop.
  Hypothesis enter : forall vis u i e rest fin s, base vis ((u, i) :: rest) fin -> nth_error (out g u) i = Some e -> nth_error vis (fst e) = Some false ->
    U (u :: map fst rest) fin s -> exists s', visitor o (Some u) (Some (fst e)) (S (length rest)) s = Some (true, s') /\ U (fst e :: u :: map fst rest) fin s'.
  Hypothesis exit : forall vis u rest fin s, base vis ((u, length (out g u)) :: rest) fin -> U (u :: map fst rest) fin s ->
    exists c s', visitor o (Some u) None (S (length rest)) s = Some (c, s') /\ U (map fst rest) (u :: fin) s'.

  Lemma dfs_loop vis stk fin s : base vis stk fin -> U (map fst stk) fin s -> (Z.of_nat (msum g vis + wsum stk) < dfs_fuel g)%Z ->
    exists vis' s', loopZ (dfs_fuel g) (dfs_step visitor g o) (vis, stk, s) = Some (vis', s') /\
      exists fin', base vis' [] fin' /\ U [] fin' s' /\ (forall v, In v (map fst stk ++ fin) -> In v fin').
  Proof using Wf enter exit.
    intros H0 HU0 Hf.
    destruct (loopZ_spec (dfs_step visitor g o)
      (fun x => let '(vis', stk', s') := x in exists fin', base vis' stk' fin' /\ U (map fst stk') fin' s' /\ (forall v, In v (map fst stk ++ fin) -> In v (map fst stk' ++ fin')))
      (fun x => exists fin', base (fst x) [] fin' /\ U [] fin' (snd x) /\ (forall v, In v (map fst stk ++ fin) -> In v fin'))
      (fun x => let '(vis', stk', s') := x in Z.of_nat (msum g vis' + wsum stk'))) with (fuel := dfs_fuel g) (s := (vis, stk, s)) as ((vis', s') & E & fin' & H).
    - clear vis s H0 HU0 Hf. intros ((vis, st), s) (fn & B & HU & Sub). destruct st as [|(u, i) rest].
      { exists (inr (vis, s)). split; [reflexivity|]. exists fn. split; [exact B|]. split; [exact HU|]. exact Sub. }
      pose proof B as (Lv & ND & Hv & Hn & Ch & Hs & Hc). cbn [map fst] in *.
      assert (Lu : u < n) by (apply Hn; now left). destruct (nth_error_some g u Lu) as (l & El). pose proof (out_nth g u l El) as Ou.
      unfold dfs_step. rewrite El. cbn [obind]. destruct (Hs u i (or_introl eq_refl)) as (Hi & Hj). rewrite Ou in *.
      destruct (nth_error l i) as [e|] eqn:Ee.
      + assert (Li : i < length l) by (apply nth_error_Some; congruence).
        assert (Ie : In e (out g u)) by (rewrite Ou; eapply nth_error_In; eauto).
        assert (Lve : fst e < n) by (now apply (Wf u)). destruct (nth_error_some vis (fst e)) as (b & Eb); [lia|]. rewrite Eb. cbn [obind].
        destruct b.
        * exists (inl (vis, (u, S i) :: rest, s)). split; [reflexivity|]. split.
          -- exists fn. split; [|split; [exact HU|exact Sub]]. repeat split; auto; cbn [map fst] in *.
             ++ now apply Hv.
             ++ now apply Hv.
             ++ intros; destruct H as [H|H]; [|now apply (Hs u0 i0 (or_intror H))]. injection H as <- <-. rewrite Ou. lia.
             ++ intros j e' Hj' Ej. destruct H as [H|H]; [|now apply (proj2 (Hs u0 i0 (or_intror H)) j)]. injection H as <- <-. rewrite Ou in Ej.
                assert (j < i \/ j = i) as [Hlt| ->] by lia; [now apply (Hj j)|]. rewrite Ee in Ej. injection Ej as <-. now apply Hv.
          -- cbn [wsum fold_right fst snd]. rewrite Ou. lia.
        * assert (NI : ~ In (fst e) (u :: map fst rest ++ fn)) by (intros X; apply (Hv _ Lve) in X; congruence).
          destruct (enter vis u i e rest fn s) as (s' & Es & HU'); auto.
          { rewrite Ou. exact Ee. }
          cbn [length]. rewrite Es. cbn [obind]. destruct (set_nth_some vis (fst e) true) as (vis' & Ev); [lia|]. rewrite Ev. cbn [obind].
          exists (inl (vis', (fst e, 0) :: (u, S i) :: rest, s')). split; [reflexivity|]. split.
          -- exists fn. split; [|split; [exact HU'|intros v Hv0; right; now apply Sub]]. unfold base. cbn [map fst].
             split; [rewrite (set_nth_length _ _ _ _ Ev); exact Lv|]. split; [now constructor|]. split; [|split; [|split; [|split]]].
             ++ intros v Lvv. rewrite (set_nth_get _ _ _ _ v Ev). destruct (Nat.eqb_spec (fst e) v) as [->|N]; [split; [now left|reflexivity]|]. rewrite (Hv v Lvv). cbn. intuition congruence.
             ++ intros v [<-|X]; [exact Lve|now apply Hn].
             ++ split; [|exact Ch]. destruct e as (v, w). now exists w.
             ++ intros x j [X|[X|X]].
                ** injection X as <- <-. split; [lia|]. intros; lia.
                ** injection X as <- <-. rewrite Ou. split; [lia|]. intros k e' Hk Ek. assert (k < i \/ k = i) as [Hlt| ->] by lia; [right; now apply (Hj k)|]. rewrite Ee in Ek. injection Ek as <-. now left.
                ** destruct (Hs x j (or_intror X)) as (Y1 & Y2). split; [exact Y1|]. intros k e' Hk Ek. right. now apply (Y2 k).
             ++ intros x Hx v A. right. now apply (Hc x Hx).
          -- pose proof (msum_set g vis (fst e) vis' Lve Eb Ev). cbn [wsum fold_right fst snd]. fold (wsum rest). rewrite Ou. lia.
      + assert (i = length l) as -> by (apply nth_error_None in Ee; lia).
        destruct (exit vis u rest fn s) as (c & s' & Es & HU'); auto.
        { rewrite Ou. exact B. }
        cbn [length]. rewrite Es. cbn [obind]. exists (inl (vis, rest, s')). split; [reflexivity|]. split.
        * exists (u :: fn). assert (P : Permutation (u :: map fst rest ++ fn) (map fst rest ++ u :: fn)) by apply Permutation_middle.
          assert (PI : forall v, In v (u :: map fst rest ++ fn) <-> In v (map fst rest ++ u :: fn)) by (intros; split; apply Permutation_in; [exact P|now symmetry]).
          split; [|split; [exact HU'|intros v X; apply PI; now apply Sub]]. unfold base. split; [exact Lv|]. split; [now apply (Permutation_NoDup P)|]. split; [|split; [|split; [|split]]].
          -- intros v Lvv. rewrite (Hv v Lvv). apply PI.
          -- intros v X. apply Hn. now apply PI.
          -- destruct rest as [|(x, j) r]; [exact I|]. exact (proj2 Ch).
          -- intros x j X. destruct (Hs x j (or_intror X)) as (Y1 & Y2). split; [exact Y1|]. intros k e' Hk Ek. apply PI. now apply (Y2 k).
          -- intros x [<-|X] v A; apply PI.
             ++ destruct A as (w & A). rewrite Ou in A. apply In_nth_error in A as (k & A). apply (Hj k (v, w)); [|exact A]. apply nth_error_Some. congruence.
             ++ now apply (Hc x X).
        * cbn [wsum fold_right fst snd]. fold (wsum rest). lia.
    - intros ((?, ?), ?) _. lia.
    - exists fin. split; [exact H0|]. split; [exact HU0|auto].
    - exact Hf.
    - exists vis', s'. split; [exact E|]. exists fin'. exact H.
  Qed.
End Gen.

Section Root.
  Context {W St : Type}.
  Variable g : list (list (nat * W)).
  Hypothesis Wf : wf g.
  Notation n := (length g).
  Variable visitor : nat -> option nat -> option nat -> nat -> St -> option (bool * St).
  Variable U : list nat -> list nat -> St -> Prop.
  Variable R : nat -> Prop.
  Hypothesis enter : forall o vis u i e rest fin s, base g vis ((u, i) :: rest) fin -> nth_error (out g u) i = Some e -> nth_error vis (fst e) = Some false ->
    U (u :: map fst rest) fin s -> exists s', visitor o (Some u) (Some (fst e)) (S (length rest)) s = Some (true, s') /\ U (fst e :: u :: map fst rest) fin s'.
  Hypothesis exit : forall o vis u rest fin s, base g vis ((u, length (out g u)) :: rest) fin -> U (u :: map fst rest) fin s ->
    exists c s', visitor o (Some u) None (S (length rest)) s = Some (c, s') /\ U (map fst rest) (u :: fin) s'.
  Hypothesis root : forall vis o fin s, o < n -> base g vis [] fin -> nth_error vis o = Some false -> (forall v, v < o -> In v fin \/ R v) -> U [] fin s ->
    exists c s', visitor o None (Some o) 0 s = Some (c, s') /\ (if c then U [o] fin s' else U [] fin s' /\ R o).
  Lemma dfs_all s : U [] [] s -> exists s', iterative_dfs visitor g None s = Some s' /\
    exists vis fin, base g vis [] fin /\ U [] fin s' /\ forall v, v < n -> In v fin \/ R v.
  Proof using Wf enter exit root.
    intros H0. unfold iterative_dfs.
    destruct (for_range_spec (fun o x => exists fin, base g (fst x) [] fin /\ U [] fin (snd x) /\ forall v, v < o -> In v fin \/ R v)
      (dfs_root visitor g) 0 n (repeat false n, s)) as ((vis', s') & E & fin & B & HU & Hr).
    - lia.
    - exists []. split; [|split; [exact H0|intros; lia]]. unfold base. cbn. rewrite repeat_length. repeat split; auto; try easy; try constructor.
      + intros X. exfalso. assert (Some true = Some false) by (rewrite <- X; apply nth_error_repeat; exact H). discriminate.
    - intros o (vis, s1) Ho (fin & B & HU & Hr). cbn [fst snd] in *. unfold dfs_root. pose proof B as (Lv & ND & Hv & Hn & _ & _ & Hc). cbn [map app] in *.
      destruct (nth_error_some vis o) as (b & Eb); [lia|]. rewrite Eb. cbn [obind]. destruct b.
      { exists (vis, s1). split; [reflexivity|]. exists fin. split; [exact B|]. split; [exact HU|]. intros v Hvo. assert (v < o \/ v = o) as [X| ->] by lia; [now apply Hr|]. left. apply Hv; [lia|exact Eb]. }
      destruct (root vis o fin s1) as (c & s2 & Es & Hs2); [lia|exact B|exact Eb|exact Hr|exact HU|]. rewrite Es. cbn [obind]. destruct c.
      + destruct (set_nth_some vis o true) as (vis' & Ev); [lia|]. rewrite Ev. cbn [obind].
        assert (NI : ~ In o fin) by (intros X; apply (Hv o ltac:(lia)) in X; congruence).
        destruct (dfs_loop g Wf visitor o U (enter o) (exit o) vis' [(o, 0)] fin s2) as (vis2 & s3 & E3 & fin2 & B2 & HU2 & Sub).
        * unfold base. cbn [map fst app]. split; [rewrite (set_nth_length _ _ _ _ Ev); exact Lv|]. split; [now constructor|]. split; [|split; [|split; [|split]]].
          -- intros v Lvv. rewrite (set_nth_get _ _ _ _ v Ev). destruct (Nat.eqb_spec o v) as [->|N]; [split; [now left|reflexivity]|]. rewrite (Hv v Lvv). cbn. intuition congruence.
          -- intros v [<-|X]; [lia|now apply Hn].
          -- exact I.
          -- intros u i [X|[]]. injection X as <- <-. split; [lia|intros; lia].
          -- intros x Hx v A. right. now apply (Hc x Hx).
        * exact Hs2.
        * unfold dfs_fuel, wsum. cbn [fold_right fst snd]. pose proof (msum_set g vis o vis' ltac:(lia) Eb Ev). pose proof (msum_le g vis). lia.
        * exists (vis2, s3). split; [exact E3|]. exists fin2. split; [exact B2|]. split; [exact HU2|]. intros v Hvo. assert (v < o \/ v = o) as [X| ->] by lia.
          -- destruct (Hr v X) as [Y|Y]; [left; apply Sub; right; exact Y|now right].
          -- left. apply Sub. now left.
      + destruct Hs2 as (Hs2 & HR).
        destruct (dfs_loop g Wf visitor o U (enter o) (exit o) vis [] fin s2) as (vis2 & s3 & E3 & fin2 & B2 & HU2 & Sub).
        * exact B.
        * exact Hs2.
        * unfold dfs_fuel, wsum. cbn [fold_right]. pose proof (msum_le g vis). lia.
        * exists (vis2, s3). split; [exact E3|]. exists fin2. split; [exact B2|]. split; [exact HU2|]. intros v Hvo. assert (v < o \/ v = o) as [X| ->] by lia; [|now right].
          destruct (Hr v X) as [Y|Y]; [left; now apply Sub|now right].
    - rewrite E. cbn [obind]. exists s'. split; [reflexivity|]. exists vis', fin. split; [exact B|]. split; [exact HU|exact Hr].
  Qed.
End Root.
