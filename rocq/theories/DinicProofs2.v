(** Correctness of the maximum flow: paths and rounds. *)
From Coq Require Import List PeanoNat ZArith Lia Bool.
From Verif Require Import Lib DinicModel DinicSpec DinicProofs.
Import ListNotations.
Open Scope Z_scope.

Section Flow.
  Variables (n : nat) (infinity : Z) (cap : matrix) (source sink : nat).
  Notation V := (seq 0 n).
  Notation adj := (adjl n cap).
  Notation free := (free cap).
  Definition res (flow : matrix) (u v : nat) : Z := let df := cap u v - flow u v in if 0 <? df then df else flow v u.
  Definition bounded (flow : matrix) : Prop := forall u v, (u < n)%nat -> (v < n)%nat -> 0 <= flow u v <= cap u v.

  (** ** paths, from their last node to the source *)
  Fixpoint pathp (P : nat -> nat -> Prop) (prev : nat -> nat) (v : nat) (rest : list nat) : Prop :=
    match rest with
    | [] => v = source
    | u :: rest => v <> source /\ prev v = u /\ P u v /\ pathp P prev u rest
    end.
  Lemma pathp_impl (P Q : nat -> nat -> Prop) prev prev' rest : forall v, (forall a b, In a (v :: rest) -> In b (v :: rest) -> P a b -> Q a b) ->
    (forall a, In a (v :: rest) -> prev' a = prev a) -> pathp P prev v rest -> pathp Q prev' v rest.
  Proof using.
    induction rest as [|u rest IH]; intros v H E; cbn [pathp]; [auto|]. intros (A & B & C & D). split; [exact A|]. split; [rewrite E by (left; reflexivity); exact B|].
    split; [apply H; [right; left; reflexivity|left; reflexivity|exact C]|]. apply IH; [|intros a Ha; apply E; right; exact Ha|exact D]. intros a b Ha Hb. apply H; right; assumption.
  Qed.
  Definition someP (Q : nat -> nat -> Prop) (v : nat) (rest : list nat) : Prop := exists l u w r, v :: rest = l ++ w :: u :: r /\ Q u w.
  Lemma someP_cons (Q : nat -> nat -> Prop) v u rest : someP Q v (u :: rest) <-> Q u v \/ someP Q u rest.
  Proof using.
    split.
    - intros (l & a & w & r & E & H). destruct l as [|x l]; cbn [app] in E.
      + injection E as -> -> ->. left. exact H.
      + injection E as _ E. right. exists l, a, w, r. auto.
    - intros [H|(l & a & w & r & E & H)]; [exists [], u, v, rest; auto|]. exists (v :: l), a, w, r. cbn [app]. rewrite E. auto.
  Qed.
  Lemma get_path_ok flow prev : forall rest v fuel f, (length rest < fuel)%nat -> pathp (fun u v => 0 < res flow u v) prev v rest -> 0 < f ->
    exists f', get_path_flow cap fuel flow prev source v f = Some f' /\ 0 < f' <= f /\ pathp (fun u v => f' <= res flow u v) prev v rest /\ (f' = f \/ someP (fun u v => f' = res flow u v) v rest).
  Proof using.
    induction rest as [|u rest IH]; intros v fuel f L P Hf; (destruct fuel as [|fuel]; [cbn [length] in L; lia|]); cbn [get_path_flow pathp length] in *.
    - rewrite P, Nat.eqb_refl. exists f. split; [reflexivity|]. split; [lia|]. split; [reflexivity|left; reflexivity].
    - destruct P as (N & E & R & P). rewrite (proj2 (Nat.eqb_neq v source) N), E. fold (res flow u v).
      destruct (IH u fuel (Z.min f (res flow u v)) ltac:(lia) P ltac:(lia)) as (f' & G1 & G2 & G3 & G4).
      exists f'. split; [exact G1|]. split; [lia|]. split; [split; [exact N|]; split; [reflexivity|]; split; [lia|exact G3]|].
      rewrite someP_cons. destruct G4 as [G4|G4]; [|right; right; exact G4].
      destruct (Z.le_gt_cases f (res flow u v)); [left; lia|right; left; lia].
  Qed.
  Lemma update_ok f : 0 < f -> forall rest v fuel flow prev b, (length rest < fuel)%nat -> NoDup (v :: rest) -> Forall (fun x => (x < n)%nat) (v :: rest) -> bounded flow ->
    pathp (fun u v => f <= res flow u v) prev v rest ->
    exists flow' b', update_path_flow cap fuel flow prev source v f b = Some (flow', b') /\ bounded flow' /\
      (forall w, net n flow' w = net n flow w + (if Nat.eqb source w then f else 0) - (if Nat.eqb v w then f else 0)) /\
      (b' = b \/ In b' rest) /\ (someP (fun u v => f = res flow u v) v rest -> In b' rest).
  Proof using.
    intro Hf. induction rest as [|u rest IH]; intros v fuel flow prev b L ND FA B P; (destruct fuel as [|fuel]; [cbn [length] in L; lia|]); cbn [update_path_flow pathp length] in *.
    - subst v. rewrite Nat.eqb_refl. exists flow, b. split; [reflexivity|]. split; [exact B|]. split; [intro w; lia|]. split; [left; reflexivity|].
      intros (l & a & w & r & E & _). apply (f_equal (@length nat)) in E. rewrite app_length in E. cbn [length] in E. lia.
    - destruct P as (N & E & R & P). rewrite (proj2 (Nat.eqb_neq v source) N), E.
      inversion ND as [|? ? N1 ND']; subst. inversion FA as [|? ? F1 FA']; subst. inversion FA' as [|? ? F2 _]; subst.
      set (p := prev v) in *. assert (NPV : p <> v) by (intro X; apply N1; left; exact X).
      assert (STEP : forall flow1 b1, bounded flow1 -> (forall a c, a <> v -> c <> v -> flow1 a c = flow a c) ->
        (forall w, net n flow1 w = net n flow w + (if Nat.eqb p w then f else 0) - (if Nat.eqb v w then f else 0)) -> (b1 = b \/ b1 = p) -> (f = res flow p v -> b1 = p) ->
        exists flow' b', update_path_flow cap fuel flow1 prev source p f b1 = Some (flow', b') /\ bounded flow' /\
          (forall w, net n flow' w = net n flow w + (if Nat.eqb source w then f else 0) - (if Nat.eqb v w then f else 0)) /\
          (b' = b \/ In b' (p :: rest)) /\ (someP (fun u v => f = res flow u v) v (p :: rest) -> In b' (p :: rest))).
      { intros flow1 b1 B1 SAME NET1 X1 X2.
        assert (RES : forall a c, In a (p :: rest) -> In c (p :: rest) -> res flow1 a c = res flow a c).
        { intros a c Ha Hc. unfold res. rewrite !SAME by congruence. reflexivity. }
        destruct (IH p fuel flow1 prev b1 ltac:(lia) ND' FA' B1) as (flow' & b' & G1 & G2 & G3 & G4 & G5).
        { eapply pathp_impl; [| |exact P]; [|reflexivity]. intros a c Ha Hc. cbv beta. rewrite (RES a c Ha Hc). auto. }
        exists flow', b'. split; [exact G1|]. split; [exact G2|]. split; [intro w; rewrite G3, NET1; lia|]. split.
        - destruct G4 as [->|G4]; [destruct X1 as [->| ->]; [left; reflexivity|right; left; reflexivity]|right; right; exact G4].
        - rewrite someP_cons. intros [S1|S1].
          + destruct G4 as [->|G4]; [left; symmetry; apply X2; exact S1|right; exact G4].
          + right. apply G5. destruct S1 as (l & a & w & r & E1 & H). exists l, a, w, r. split; [exact E1|]. rewrite RES; [exact H| |]; rewrite E1; apply in_app_iff; right; [right; left|left]; reflexivity. }
      unfold res in R. pose proof (B p v F2 F1) as B1. pose proof (B v p F1 F2) as B2.
      destruct (0 <? cap p v - flow p v) eqn:D.
      + apply Z.ltb_lt in D. apply STEP.
        * intros a c Ha Hc. unfold upd2. destruct (Nat.eqb p a && Nat.eqb v c) eqn:X; [|apply B; assumption]. apply andb_true_iff in X as [X1 X2]. apply Nat.eqb_eq in X1, X2. subst a c. lia.
        * intros a c Ha Hc. unfold upd2. rewrite (proj2 (Nat.eqb_neq v c) ltac:(congruence)), andb_false_r. reflexivity.
        * intro w. rewrite (net_upd2 n flow p v _ w F2 F1 NPV). replace (flow p v + f - flow p v) with f by lia. lia.
        * match goal with |- context [if ?c then p else b] => destruct c end; auto.
        * unfold res. rewrite (proj2 (Z.ltb_lt 0 _) D). intro X. unfold upd2 at 1. rewrite !Nat.eqb_refl. cbn [andb]. rewrite (proj2 (Z.eqb_eq _ _)); [reflexivity|lia].
      + apply STEP.
        * intros a c Ha Hc. unfold upd2. destruct (Nat.eqb v a && Nat.eqb p c) eqn:X; [|apply B; assumption]. apply andb_true_iff in X as [X1 X2]. apply Nat.eqb_eq in X1, X2. subst a c. lia.
        * intros a c Ha Hc. unfold upd2. rewrite (proj2 (Nat.eqb_neq v a) ltac:(congruence)). reflexivity.
        * intro w. rewrite (net_upd2 n flow v p _ w F1 F2 (not_eq_sym NPV)). replace (flow v p - f - flow v p) with (- f) by lia.
          destruct (Nat.eqb v w), (Nat.eqb p w); lia.
        * match goal with |- context [if ?c then p else b] => destruct c end; auto.
        * unfold res. rewrite D. intro X. unfold upd2 at 1. rewrite !Nat.eqb_refl. cbn [andb]. rewrite (proj2 (Z.eqb_eq _ _)); [reflexivity|lia].
  Qed.

  (** ** the search *)
  Lemma nth_lt {A} (l : list A) i x : nth_error l i = Some x -> (i < length l)%nat.
  Proof using. intro E. apply nth_error_Some. congruence. Qed.
  Definition weight (stk : list (nat * nat)) : nat := fold_right (fun '(u, i) acc => (1 + (length (adj u) - i) + acc)%nat) 0%nat stk.
  Definition unv (visited : nat -> bool) : nat := length (filter (fun v => negb (visited v)) V).
  Definition mu (visited : nat -> bool) (stk : list (nat * nat)) : nat := (weight stk + (n + 1) * unv visited)%nat.
  Lemma filter_len {A} (p : A -> bool) l : (length (filter p l) <= length l)%nat.
  Proof using. induction l as [|x l IH]; [reflexivity|]. cbn [filter]. destruct (p x); cbn [length]; lia. Qed.
  Lemma adj_len u : (length (adj u) <= n)%nat.
  Proof using. unfold adjl. etransitivity; [apply filter_len|]. rewrite seq_length. reflexivity. Qed.
  Lemma unv_upd visited v : (v < n)%nat -> visited v = false -> unv visited = S (unv (upd visited v true)).
  Proof using.
    intros L E. unfold unv. rewrite (filter_upd_false (fun x => negb (visited x)) v V); [|rewrite E; reflexivity|apply seq_NoDup|apply in_V; exact L].
    do 2 f_equal. apply filter_ext. intro x. unfold upd. destruct (Nat.eqb v x); reflexivity.
  Qed.
  Lemma mu_skip visited u i stk v : nth_error (adj u) i = Some v -> (mu visited ((u, S i) :: stk) < mu visited ((u, i) :: stk))%nat.
  Proof using. intro E. apply nth_lt in E. unfold mu. cbn [weight fold_right]. fold (weight stk). lia. Qed.
  Lemma mu_push visited u i stk v : nth_error (adj u) i = Some v -> visited v = false -> (mu (upd visited v true) ((v, 0%nat) :: (u, S i) :: stk) < mu visited ((u, i) :: stk))%nat.
  Proof using.
    intros E Hv. pose proof (adj_lt n cap u v (nth_error_In _ _ E)) as Lv. apply nth_lt in E. pose proof (adj_len v). unfold mu. rewrite (unv_upd visited v Lv Hv).
    cbn [weight fold_right]. fold (weight stk). lia.
  Qed.

  (** ** after the sink was visited nothing happens *)
  Lemma phase2 level flow : forall fuel prev visited stk ret, visited sink = true -> ~ In sink (map fst stk) -> (mu visited stk < fuel)%nat ->
    blocking_loop n infinity cap fuel level source sink flow prev visited stk ret = Some (flow, ret).
  Proof using.
    induction fuel as [|fuel IH]; intros prev visited stk ret VS NI L; [lia|]. cbn [blocking_loop]. destruct stk as [|[u i] rest]; [reflexivity|].
    cbn [map fst In] in NI. assert (N : u <> sink) by tauto. rewrite (proj2 (Nat.eqb_neq _ _) N). destruct (nth_error (adj u) i) as [v|] eqn:E.
    - pose proof (mu_skip visited u i rest v E) as M. destruct (visited v || negb (Nat.eqb (level v) (level u + 1))) eqn:C; [apply IH; [exact VS|exact NI|lia]|].
      apply orb_false_iff in C as [C _]. destruct (free flow u v).
      + apply IH.
        * unfold upd. destruct (Nat.eqb v sink); [reflexivity|exact VS].
        * cbn [map fst In]. intros [X|X]; [congruence|exact (NI X)].
        * pose proof (mu_push visited u i rest v E C). lia.
      + apply IH; [exact VS|exact NI|lia].
    - apply IH; [exact VS|tauto|]. unfold mu in *. cbn [weight fold_right] in L. fold (weight rest) in L. lia.
  Qed.

  (** ** until the sink is visited *)
  Section Phase1.
    Variables (level : nat -> nat) (flow : matrix).
    Hypothesis (Hs : (source < n)%nat) (Ht : (sink < n)%nat).
    Hypothesis LV : lev n cap flow source level.
    Hypothesis LT : level sink <> 0%nat.
    Definition nexts (u v : nat) : Prop := level v = (level u + 1)%nat /\ free flow u v = true.
    Record inv (prev : nat -> nat) (visited : nat -> bool) (stk : list (nat * nat)) : Prop := {
      i_path : match map fst stk with [] => True | v :: rest => pathp (fun u v => free flow u v = true) prev v rest end;
      i_nodup : NoDup (map fst stk);
      i_vis : Forall (fun x => (x < n)%nat /\ visited x = true) (map fst stk);
      i_source : visited source = true;
      i_on : forall x i, In (x, i) stk -> forall j w, (j < i)%nat -> nth_error (adj x) j = Some w -> nexts x w -> visited w = true;
      i_off : forall x, (x < n)%nat -> visited x = true -> ~ In x (map fst stk) -> forall w, In w (adj x) -> nexts x w -> visited w = true }.
    Lemma inv_skip prev visited u i rest v : inv prev visited ((u, i) :: rest) -> nth_error (adj u) i = Some v -> (nexts u v -> visited v = true) -> inv prev visited ((u, S i) :: rest).
    Proof using Hs Ht LT.
      intros I E H. constructor; cbn [map fst]; try apply I. intros x k [X|X] j w Hj Hw Nx.
      - injection X as -> <-. destruct (Nat.eq_dec j i) as [->|N]; [rewrite E in Hw; injection Hw as <-; apply H; exact Nx|].
        apply (i_on _ _ _ I x i (or_introl eq_refl) j w); [lia|exact Hw|exact Nx].
      - exact (i_on _ _ _ I x k (or_intror X) j w Hj Hw Nx).
    Qed.
    Lemma vis_mono visited v x : visited x = true -> upd visited v true x = true.
    Proof using. intro H. unfold upd. destruct (Nat.eqb v x); [reflexivity|exact H]. Qed.
    Lemma inv_push prev visited u i rest v : inv prev visited ((u, i) :: rest) -> nth_error (adj u) i = Some v -> visited v = false -> free flow u v = true ->
      inv (upd prev v u) (upd visited v true) ((v, 0%nat) :: (u, S i) :: rest).
    Proof using Hs Ht LT.
      intros I E Hv Fr. pose proof (adj_lt n cap u v (nth_error_In _ _ E)) as Lv.
      assert (NV : ~ In v (map fst ((u, i) :: rest))).
      { intro X. pose proof (proj1 (Forall_forall _ _) (i_vis _ _ _ I) v X) as [_ Y]. congruence. }
      constructor.
      - cbn [map fst pathp]. split; [intro X; subst v; rewrite (i_source _ _ _ I) in Hv; discriminate|]. split; [apply upd_eq|]. split; [exact Fr|].
        eapply pathp_impl; [| |exact (i_path _ _ _ I)]; [auto|]. intros a Ha. apply upd_neq. intro X. subst a. apply NV. exact Ha.
      - cbn [map fst]. constructor; [exact NV|exact (i_nodup _ _ _ I)].
      - cbn [map fst]. constructor; [split; [exact Lv|apply upd_eq]|]. eapply Forall_impl; [|exact (i_vis _ _ _ I)]. intros a [A1 A2]. split; [exact A1|apply vis_mono; exact A2].
      - apply vis_mono. apply I.
      - intros x k [X|[X|X]] j w Hj Hw Nx.
        + injection X as <- <-. lia.
        + injection X as <- <-. destruct (Nat.eq_dec j i) as [->|N]; [rewrite E in Hw; injection Hw as <-; apply upd_eq|].
          apply vis_mono. apply (i_on _ _ _ I u i (or_introl eq_refl) j w); [lia|exact Hw|exact Nx].
        + apply vis_mono. exact (i_on _ _ _ I x k (or_intror X) j w Hj Hw Nx).
      - intros x Hx Vx NI w Hw Nx. cbn [map fst In] in NI. apply vis_mono. apply (i_off _ _ _ I x Hx); [|cbn [map fst In]; tauto|exact Hw|exact Nx].
        rewrite upd_neq in Vx; [exact Vx|]. intro X. apply NI. left. congruence.
    Qed.
    Lemma inv_pop prev visited u i rest : inv prev visited ((u, i) :: rest) -> nth_error (adj u) i = None -> inv prev visited rest.
    Proof using Hs Ht LT.
      intros I E. pose proof (i_path _ _ _ I) as P. pose proof (i_nodup _ _ _ I) as ND. pose proof (i_vis _ _ _ I) as VI. cbn [map fst] in *. inversion ND; subst. inversion VI; subst.
      constructor.
      - destruct (map fst rest) as [|p r]; [exact Logic.I|]. cbn [pathp] in P. tauto.
      - assumption.
      - assumption.
      - apply I.
      - intros x k Hx. exact (i_on _ _ _ I x k (or_intror Hx)).
      - intros x Hx Vx NI w Hw Nx. destruct (Nat.eq_dec x u) as [->|N].
        + destruct (In_nth_error _ _ Hw) as (j & Hj). apply (i_on _ _ _ I u i (or_introl eq_refl) j w); [|exact Hj|exact Nx].
          apply nth_error_None in E. apply nth_lt in Hj. lia.
        + apply (i_off _ _ _ I x Hx Vx); [cbn [map fst In]; intros [X|X]; [congruence|exact (NI X)]|exact Hw|exact Nx].
    Qed.
    Lemma empty_all prev visited : inv prev visited [] -> forall k v, (v < n)%nat -> level v = k -> level v <> 0%nat -> visited v = true.
    Proof using Hs Ht LT LV.
      intros I k. induction k as [k IH] using lt_wf_ind. intros v Hv E N. destruct (l_parent _ _ _ _ _ LV v Hv N) as [->|(u & A & B & C & D & F)]; [apply I|].
      apply (i_off _ _ _ I u A); [|intros []|exact B|split; [exact F|exact C]]. apply (IH (level u)); [lia|exact A|reflexivity|exact D].
    Qed.
    Lemma phase1 : forall fuel prev visited stk ret, inv prev visited stk -> (visited sink = true -> exists i rest, stk = (sink, i) :: rest) -> (mu visited stk < fuel)%nat ->
      exists fuel' prev' visited' i rest, blocking_loop n infinity cap fuel level source sink flow prev visited stk ret =
        blocking_loop n infinity cap fuel' level source sink flow prev' visited' ((sink, i) :: rest) ret /\ inv prev' visited' ((sink, i) :: rest) /\ (mu visited' ((sink, i) :: rest) < fuel')%nat.
    Proof using Hs Ht LV LT.
      induction fuel as [|fuel IH]; intros prev visited stk ret I VS L; [lia|]. destruct stk as [|[u i] rest].
      - exfalso. destruct (VS (empty_all prev visited I (level sink) sink Ht eq_refl LT)) as (? & ? & X). discriminate X.
      - destruct (Nat.eq_dec u sink) as [->|N]; [exists (S fuel), prev, visited, i, rest; auto|].
        assert (NV : visited sink = false) by (destruct (visited sink); [destruct (VS eq_refl) as (? & ? & X); congruence|reflexivity]).
        cbn [blocking_loop]. rewrite (proj2 (Nat.eqb_neq _ _) N). destruct (nth_error (adj u) i) as [v|] eqn:E.
        + pose proof (mu_skip visited u i rest v E) as M.
          destruct (visited v || negb (Nat.eqb (level v) (level u + 1))) eqn:C.
          * apply IH; [|congruence|lia]. apply (inv_skip _ _ _ _ _ v I E). intros [X1 X2]. rewrite X1, Nat.eqb_refl, orb_false_r in C. exact C.
          * apply orb_false_iff in C as [C _]. destruct (free flow u v) eqn:Fr.
            -- apply IH; [apply inv_push; assumption| |].
               ++ intro X. destruct (Nat.eq_dec v sink) as [->|Nv]; [eauto|]. rewrite upd_neq in X by congruence. congruence.
               ++ pose proof (mu_push visited u i rest v E C). lia.
            -- apply IH; [|congruence|lia]. apply (inv_skip _ _ _ _ _ v I E). intros [X1 X2]. congruence.
        + apply IH; [exact (inv_pop _ _ _ _ _ I E)|congruence|]. unfold mu in *. cbn [weight fold_right] in L. fold (weight rest) in L. lia.
    Qed.

    Lemma pop_until_in b : forall stk, incl (pop_until b stk) stk.
    Proof using. induction stk as [|[u i] stk IH]; cbn [pop_until]; [apply incl_refl|]. destruct (Nat.eqb u b); [apply incl_refl|]. apply incl_tl, IH. Qed.
    Lemma pop_until_weight b : forall stk, (weight (pop_until b stk) <= weight stk)%nat.
    Proof using Hs Ht LT. induction stk as [|[u i] stk IH]; cbn [pop_until]; [lia|]. destruct (Nat.eqb u b); [lia|]. cbn [weight fold_right]. fold (weight stk). lia. Qed.

    (** ** one round *)
    Hypothesis NST : source <> sink.
    Hypothesis INF : forall u v, (u < n)%nat -> (v < n)%nat -> cap u v <= infinity.
    Hypothesis FL : is_flow n cap source sink flow.
    Lemma round : exists flow' f, construct_blocking_flow n infinity cap level source sink flow = Some (flow', f) /\ 0 < f /\ is_flow n cap source sink flow' /\ net n flow' source = net n flow source + f.
    Proof using Hs Ht LV LT NST INF FL.
      unfold construct_blocking_flow.
      destruct (phase1 ((n + 2) * (n + 2)) (fun _ => 0%nat) (upd (fun _ => false) source true) [(source, 0%nat)] 0) as (fuel & prev & visited & i & rest & -> & I & L).
      - constructor.
        + reflexivity.
        + constructor; [intros []|constructor].
        + constructor; [|constructor]. split; [exact Hs|apply upd_eq].
        + apply upd_eq.
        + intros x k [X|[]] j w Hj. injection X as <- <-. lia.
        + intros x Hx Vx NI. exfalso. apply NI. left. cbn. destruct (Nat.eq_dec x source) as [->|N]; [reflexivity|]. rewrite (upd_neq _ _ _ _ N) in Vx. discriminate.
      - rewrite upd_neq by congruence. discriminate.
      - unfold mu. cbn [weight fold_right]. pose proof (adj_len source) as A. assert (U : (unv (upd (fun _ => false) source true) < n)%nat).
        { pose proof (unv_upd (fun _ => false) source Hs eq_refl) as U. assert (U2 : (unv (fun _ => false) <= n)%nat) by (unfold unv; etransitivity; [apply filter_len|]; rewrite seq_length; reflexivity). lia. }
        nia.
      - destruct fuel as [|fuel]; [lia|]. cbn [blocking_loop]. rewrite Nat.eqb_refl.
        pose proof (i_path _ _ _ I) as P. pose proof (i_nodup _ _ _ I) as ND. pose proof (i_vis _ _ _ I) as VI. cbn [map fst] in P, ND, VI.
        assert (FA : Forall (fun x => (x < n)%nat) (sink :: map fst rest)) by (eapply Forall_impl; [|exact VI]; intros a [X _]; exact X).
        assert (LEN : (length (map fst rest) < S n)%nat).
        { assert (X : (length (sink :: map fst rest) <= length V)%nat); [|rewrite seq_length in X; cbn [length] in X; lia].
          apply NoDup_incl_length; [exact ND|]. intros x Hx. apply in_V. exact (proj1 (Forall_forall _ _) FA x Hx). }
        assert (B : bounded flow) by (intros u v Hu Hv; apply FL; assumption).
        assert (RP : forall a b, (a < n)%nat -> (b < n)%nat -> free flow a b = true -> 0 < res flow a b <= infinity).
        { intros a b Ha Hb Fr. unfold DinicModel.free in Fr. pose proof (B a b Ha Hb). pose proof (B b a Hb Ha). pose proof (INF a b Ha Hb). pose proof (INF b a Hb Ha). unfold res.
          destruct (0 <? cap a b - flow a b) eqn:D; [apply Z.ltb_lt in D; lia|]. apply Z.ltb_ge in D. apply orb_true_iff in Fr as [Fr|Fr]; apply Z.ltb_lt in Fr; lia. }
        assert (P1 : pathp (fun u v => 0 < res flow u v <= infinity) prev sink (map fst rest)).
        { eapply pathp_impl; [| |exact P]; [|reflexivity]. intros a b Ha Hb. cbv beta. exact (RP a b (proj1 (Forall_forall _ _) FA a Ha) (proj1 (Forall_forall _ _) FA b Hb)). }
        assert (NE : exists u r, map fst rest = u :: r).
        { destruct (map fst rest) as [|u r]; [exfalso; cbn [pathp] in P; congruence|eauto]. }
        assert (INFP : 0 < infinity).
        { destruct NE as (u & r & E). rewrite E in P1. cbn [pathp] in P1. lia. }
        destruct (get_path_ok flow prev (map fst rest) sink (S n) infinity LEN) as (f & -> & G1 & G2 & G3); [|exact INFP|].
        { eapply pathp_impl; [| |exact P1]; [|reflexivity]. intros a b _ _ [X _]. exact X. }
        cbn [obind].
        destruct (update_ok f ltac:(lia) (map fst rest) sink (S n) flow prev 0%nat LEN ND FA B G2) as (flow' & b & -> & U1 & U2 & U3 & U4). cbn [obind].
        assert (BI : In b (map fst rest)).
        { apply U4. destruct G3 as [G3|G3]; [|exact G3]. destruct NE as (u & r & E). rewrite E in *. cbn [pathp] in G2, P1. exists [], u, sink, r. split; [reflexivity|]. lia. }
        inversion ND as [|? ? ND1 ND2]; subst.
        assert (NB : sink <> b) by congruence. cbn [pop_until]. rewrite (proj2 (Nat.eqb_neq _ _) NB).
        exists flow', f. split; [|split; [lia|split]].
        + rewrite Z.add_0_l. apply phase2.
          * inversion VI; tauto.
          * intro X. apply ND1. apply in_map_iff in X as (y & Y1 & Y2). apply in_map_iff. exists y. split; [exact Y1|]. exact (pop_until_in b rest y Y2).
          * pose proof (pop_until_weight b rest). unfold mu in *. cbn [weight fold_right] in L. fold (weight rest) in L. lia.
        + constructor; [exact U1|]. intros u Hu N1 N2. rewrite U2, (flow_kept _ _ _ _ _ FL u Hu N1 N2), (proj2 (Nat.eqb_neq source u)), (proj2 (Nat.eqb_neq sink u)) by congruence. reflexivity.
        + rewrite U2, Nat.eqb_refl, (proj2 (Nat.eqb_neq sink source)) by congruence. lia.
    Qed.
  End Phase1.

  (** ** all rounds *)
  Hypothesis (Hs : (source < n)%nat) (Ht : (sink < n)%nat) (NST : source <> sink).
  Hypothesis INF : forall u v, (u < n)%nat -> (v < n)%nat -> 0 <= cap u v <= infinity.
  Lemma net_bound g : is_flow n cap source sink g -> net n g source <= sum (cap source) V.
  Proof using Hs Ht NST.
    intro F. unfold net. assert (A : sum (g source) V <= sum (cap source) V) by (apply sum_le; intros x Hx; apply in_V in Hx; apply (flow_bounds _ _ _ _ _ F source x Hs Hx)).
    assert (B : sum (fun _ => 0) V <= sum (fun v => g v source) V) by (apply sum_le; intros x Hx; apply in_V in Hx; apply (flow_bounds _ _ _ _ _ F x source Hx Hs)). rewrite sum_zero in B. lia.
  Qed.
  Lemma flow_loop_ok : forall fuel flow, is_flow n cap source sink flow -> sum (cap source) V - net n flow source < Z.of_nat fuel ->
    exists g r, flow_loop n infinity cap fuel source sink flow (net n flow source) = Some (g, r) /\ is_flow n cap source sink g /\ net n g source = r /\
      forall h, is_flow n cap source sink h -> net n h source <= r.
  Proof using Hs Ht NST INF.
    induction fuel as [|fuel IH]; intros flow F L; [pose proof (net_bound flow F); lia|]. cbn [flow_loop].
    destruct (build_ok n cap flow source Hs) as (level & -> & LV & CL). cbn [obind]. destruct (Nat.eqb (level sink) 0) eqn:E.
    - apply Nat.eqb_eq in E. exists flow, (net n flow source). split; [reflexivity|]. split; [exact F|]. split; [reflexivity|]. exact (maximal n cap flow source sink level F Hs Ht LV CL E).
    - apply Nat.eqb_neq in E. destruct (round level flow Hs Ht LV E NST (fun u v Hu Hv => proj2 (INF u v Hu Hv)) F) as (flow' & f & -> & F1 & F2 & F3). cbn [obind].
      rewrite <- F3. apply IH; [exact F2|lia].
  Qed.
  Lemma zero_net w : net n (fun _ _ => 0) w = 0.
  Proof using. unfold net. rewrite !sum_zero. reflexivity. Qed.
  Lemma max_flow_ok : exists g r, calc_max_flow n infinity cap source sink = Some (g, r) /\ is_flow n cap source sink g /\ net n g source = r /\
      forall h, is_flow n cap source sink h -> net n h source <= r.
  Proof using Hs Ht NST INF.
    unfold calc_max_flow. rewrite (proj2 (Nat.eqb_neq _ _) NST).
    assert (F0 : is_flow n cap source sink (fun _ _ => 0)) by (constructor; [intros u v Hu Hv; pose proof (INF u v Hu Hv); lia|intros; apply zero_net]).
    match goal with |- context [flow_loop _ _ _ ?k _ _ _ _] => pose proof (flow_loop_ok k _ F0) as G end. rewrite zero_net in G. apply G.
    change (fold_right Z.add 0 (map (cap source) V)) with (sum (cap source) V). pose proof (net_bound _ F0) as N. rewrite zero_net in N. lia.
  Qed.
End Flow.
