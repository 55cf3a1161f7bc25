From Verif Require Import Lib GraphSpec WalkSpec ClosModel.
Open Scope nat_scope.

Lemma for_each_spec {A St} (Inv : list A -> St -> Prop) body l s : Inv [] s ->
  (forall pre e post t, l = pre ++ e :: post -> Inv pre t -> exists t', body e t = Some t' /\ Inv (pre ++ [e]) t') ->
  exists s', for_each body l s = Some s' /\ Inv l s'.
Proof.
  intros H0 Hb. assert (G : forall post pre s, l = pre ++ post -> Inv pre s -> exists s', for_each body post s = Some s' /\ Inv l s').
  - induction post as [|e post IH]; intros pre t El Hi; cbn [for_each].
    + rewrite app_nil_r in El. subst. eauto.
    + destruct (Hb pre e post t El Hi) as (t' & Et & Ht). rewrite Et. cbn [obind]. apply (IH (pre ++ [e])); [now rewrite <- app_assoc|exact Ht].
  - exact (G l [] s eq_refl H0).
Qed.
(** loops that append one computed row per index *)
Lemma rows_spec {A} (f : nat -> option A) (P : nat -> A -> Prop) n : (forall i, i < n -> exists r, f i = Some r /\ P i r) ->
  exists res, for_range 0 n (fun i res => let* row := f i in Some (res ++ [row])) [] = Some res /\ length res = n /\ forall i r, nth_error res i = Some r -> P i r.
Proof.
  intros H. destruct (for_range_spec (fun j (res : list A) => length res = j /\ forall i r, nth_error res i = Some r -> P i r) (fun i res => let* row := f i in Some (res ++ [row])) 0 n []) as (s & E & L & Hs).
  - lia.
  - split; [reflexivity|]. intros [|i] r X; discriminate.
  - intros j t Hj (L & Ht). destruct (H j ltac:(lia)) as (r & Er & Hr). rewrite Er. cbn [obind]. eexists. split; [reflexivity|]. split; [rewrite app_length; cbn; lia|].
    intros i x Hx. destruct (Nat.lt_ge_cases i (length t)) as [Hi|Hi]; [rewrite nth_error_app1 in Hx by lia; now apply Ht|].
    rewrite nth_error_app2 in Hx by lia. destruct (i - length t) as [|k] eqn:Ek; cbn in Hx; [|destruct k; discriminate]. injection Hx as <-. replace i with j by lia. exact Hr.
  - exists s. auto.
Qed.

(** number of zero entries *)
Definition zeros (d : list Z) : nat := length (filter (fun x => (x =? 0)%Z) d).
Lemma zeros_set d v x y d' : nth_error d v = Some x -> set_nth d v y = Some d' -> y <> 0%Z -> zeros d' + (if (x =? 0)%Z then 1 else 0) = zeros d.
Proof.
  revert v d'. induction d as [|a d IH]; intros [|v] d' Hx Hs Hy; try discriminate.
  - cbn in Hx, Hs. injection Hx as ->. injection Hs as <-. unfold zeros. cbn. destruct (Z.eqb_spec y 0); [contradiction|]. destruct (x =? 0)%Z; cbn; lia.
  - cbn in Hx, Hs. destruct (set_nth d v y) as [t|] eqn:E; [|discriminate]. injection Hs as <-. specialize (IH v t Hx E Hy). unfold zeros in *. cbn. destruct (a =? 0)%Z; cbn; lia.
Qed.
Lemma zeros_repeat n : zeros (repeat 0%Z n) = n.
Proof. unfold zeros. induction n as [|n IH]; [reflexivity|]. cbn. now rewrite IH. Qed.

Section Proofs.
  Context {W : Type}.
  Notation edge := (nat * W)%type. Notation graph := (list (list edge)).
  Variable g : graph.
  Hypothesis Wf : wf g.
  Lemma out_nth u l : nth_error g u = Some l -> out g u = l. Proof. intros H. unfold out. now apply nth_error_nth. Qed.
  Lemma arc_lt u v : arc g u v -> u < length g /\ v < length g.
  Proof using Wf.
    intros (w & H). split; [|exact (Wf u (v, w) H)]. destruct (Nat.lt_ge_cases u (length g)); [assumption|]. unfold out in H. rewrite nth_overflow in H by lia. destruct H.
  Qed.
  Lemma walk_snoc u x v : walk g u x -> arc g x v -> walk g u v.
  Proof. intros H Hv. induction H; [eapply walk_cons; [eassumption|now apply walk_arc]|eapply walk_cons; eauto]. Qed.
  Lemma walk_lt u v : walk g u v -> u < length g /\ v < length g.
  Proof using Wf. induction 1 as [u v H|u x v H _ IH]; [now apply arc_lt|]. split; [exact (proj1 (arc_lt _ _ H))|apply IH]. Qed.
  Lemma walk_app u x v : walk g u x -> walk g x v -> walk g u v.
  Proof. induction 1; intros H'; eapply walk_cons; eauto. Qed.
  Lemma walk_last u v : walk g u v -> arc g u v \/ exists x, walk g u x /\ arc g x v.
  Proof. induction 1 as [u v H|u x v H _ [IH|(y & Hy & IH)]]; [now left| |]; right; [exists x; split; [now apply walk_arc|exact IH]|exists y; split; [eapply walk_cons; eauto|exact IH]]. Qed.
  Lemma walk2_last u v : walk2 g u v <-> exists x, walk g u x /\ arc g x v.
  Proof.
    split.
    - intros (x & Hx & H). apply walk_last in H as [H|(y & Hy & H)]; [exists x; split; [now apply walk_arc|exact H]|exists y; split; [eapply walk_cons; eauto|exact H]].
    - intros (x & Hx & H). revert v H. induction Hx as [u x Hx|u y x Hu Hx _]; intros v H; [exists x; split; [exact Hx|now apply walk_arc]|exists y; split; [exact Hu|eapply walk_snoc; eauto]].
  Qed.

  (** ** transitive_closure *)
  Variable i : nat.
  Notation n := (length g).
  Definition TI (cur : list nat) (pre : list edge) (s : list Z * list nat * list nat) : Prop :=
    let '(d, stk, row) := s in
    length d = n /\ (forall v, v < n -> nth v d 0%Z <> 0%Z <-> v = i \/ In v row) /\ NoDup row /\ ~ In i row /\
    (forall v, In v row -> walk g i v) /\ (forall v, In v stk -> v = i \/ In v row) /\ (forall v, In v cur -> v = i \/ In v row) /\
    (forall e, In e pre -> fst e = i \/ In (fst e) row) /\
    (forall u v, u = i \/ In u row -> ~ In u stk -> ~ In u cur -> arc g u v -> v = i \/ In v row).
  Definition mt (s : list Z * list nat * list nat) : Z := let '(d, stk, row) := s in (2 * Z.of_nat (zeros d) + Z.of_nat (length stk))%Z.
  Lemma tc_edges_run u l d stk row : nth_error g u = Some l -> TI [u] [] (d, stk, row) ->
    exists s', for_each tc_edge l (d, stk, row) = Some s' /\ TI [] [] s' /\ (mt s' <= mt (d, stk, row))%Z.
  Proof using Wf.
    intros Hl H0. destruct (for_each_spec (fun pre s => TI [u] pre s /\ (mt s <= mt (d, stk, row))%Z) tc_edge l (d, stk, row)) as (s' & E & H & Hm).
    - split; [exact H0|lia].
    - intros pre (v, w) post ((d1, st1), r1) El (H & Hm). cbn [tc_edge fst]. pose proof H as (Ld & Hd & ND & Ni & Hw & Hs & Hc & Hp & Hcl).
      assert (A : arc g u v) by (exists w; rewrite (out_nth u l Hl), El; apply in_elt). destruct (arc_lt u v A) as (Lu & Lv).
      destruct (nth_error_some d1 v ltac:(lia)) as (x & Ex). rewrite Ex. cbn [obind]. pose proof (nth_error_nth d1 v 0%Z Ex) as Nx. pose proof (Hd v Lv) as Dv. rewrite Nx in Dv.
      destruct (Z.eqb_spec x 0) as [->|Nz]; cbn [negb].
      + destruct (set_nth_some d1 v 1%Z ltac:(lia)) as (d2 & E2). rewrite E2. cbn [obind]. eexists. split; [reflexivity|]. pose proof (set_nth_length _ _ _ _ E2) as L2.
        assert (Nv : ~ (v = i \/ In v r1)) by tauto. split.
        * cbn [TI]. split; [lia|]. split; [|split; [|split; [|split; [|split; [|split; [|split]]]]]].
          -- intros y Hy. destruct (nth_error_some d2 y ltac:(lia)) as (z & Ez). rewrite (nth_error_nth d2 y 0%Z Ez). rewrite (set_nth_get _ _ _ _ y E2) in Ez. rewrite in_app_iff. destruct (Nat.eqb_spec v y) as [<-|Ny].
             ++ injection Ez as <-. split; [intros _; right; right; now left|lia].
             ++ rewrite <- (nth_error_nth d1 y 0%Z Ez) in *. rewrite (Hd y Hy). cbn. intuition congruence.
          -- apply NoDup_rev in ND. rewrite <- (rev_involutive r1) in *. rewrite <- (rev_involutive [v]). rewrite <- rev_app_distr. apply NoDup_rev. cbn. constructor; [|rewrite rev_involutive in *; exact ND]. rewrite <- in_rev. rewrite rev_involutive in *. tauto.
          -- rewrite in_app_iff. cbn. intuition congruence.
          -- intros y. rewrite in_app_iff. intros [Y|[<-|[]]]; [now apply Hw|]. destruct (Hc u (or_introl eq_refl)) as [->|Hu]; [now apply walk_arc|eapply walk_snoc; eauto].
          -- intros y [<-|Y]; rewrite in_app_iff; [right; right; now left|]. destruct (Hs y Y); tauto.
          -- intros y Y. rewrite in_app_iff. destruct (Hc y Y); tauto.
          -- intros e He. rewrite in_app_iff in *. destruct He as [He|[<-|[]]]; [destruct (Hp e He); tauto|]. right; right; now left.
          -- intros a b Ha Na Nc Hab. rewrite in_app_iff in *. destruct Ha as [->|[Ha|[<-|[]]]].
             ++ destruct (Hcl i b (or_introl eq_refl)) as [|]; auto; cbn in Na; tauto.
             ++ destruct (Hcl a b (or_intror Ha)) as [|]; auto; cbn in Na; tauto.
             ++ exfalso. apply Na. now left.
        * pose proof (zeros_set _ _ _ _ _ Ex E2 ltac:(lia)) as Z2. cbn [Z.eqb] in Z2. cbn [mt length] in *. lia.
      + eexists. split; [reflexivity|]. split; [|exact Hm]. cbn [TI]. split; [exact Ld|]. repeat (split; [assumption|]). split; [|exact Hcl]. intros e He. rewrite in_app_iff in He. destruct He as [He|[<-|[]]]; [now apply Hp|]. cbn [fst]. tauto.
    - exists s'. split; [exact E|]. split; [|exact Hm]. destruct s' as ((d1, st1), r1). destruct H as (Ld & Hd & ND & Ni & Hw & Hs & Hc & Hp & Hcl).
      cbn [TI]. repeat (split; [assumption|]). split; [intros v []|]. split; [intros e []|]. intros a b Ha Na _ Hab. destruct (Nat.eq_dec a u) as [->|N].
      + destruct Hab as (w & Hab). rewrite (out_nth u l Hl) in Hab. exact (Hp (b, w) Hab).
      + apply (Hcl a b Ha Na); [|exact Hab]. intros [X|[]]. congruence.
  Qed.
  Lemma nth_repeat_0 k m : nth k (repeat 0%Z m) 0%Z = 0%Z.
  Proof. revert k. induction m as [|m IH]; intros [|k]; cbn; auto. Qed.
  Lemma tc_row_run : i < n -> exists row, tc_row g i = Some row /\ NoDup row /\ forall v, In v row <-> v <> i /\ walk g i v.
  Proof using Wf.
    intros Hi. unfold tc_row. destruct (set_nth_some (repeat 0%Z n) i (-1)%Z ltac:(rewrite repeat_length; lia)) as (d & Ed). rewrite Ed. cbn [obind].
    pose proof (set_nth_length _ _ _ _ Ed) as Ld. rewrite repeat_length in Ld.
    assert (Z0 : zeros d + 1 = n). { destruct (nth_error_some (repeat 0%Z n) i ltac:(rewrite repeat_length; lia)) as (x & Ex). pose proof (nth_error_nth _ _ 0%Z Ex) as X. rewrite nth_repeat_0 in X. subst x. pose proof (zeros_set _ _ _ _ _ Ex Ed ltac:(lia)) as Z2. rewrite zeros_repeat in Z2. exact Z2. }
    apply (loopZ_spec (tc_step g) (TI [] []) _ mt).
    - intros ((d1, st1), r1) H. pose proof H as (L1 & Hd & ND & Ni & Hw & Hs & _ & _ & Hcl). unfold tc_step. destruct st1 as [|u st1].
      + eexists. split; [reflexivity|]. cbv beta iota. split; [exact ND|]. intros v. split; [intros Hv; split; [intros ->; contradiction|now apply Hw]|]. intros (Nv & Hv).
        assert (G : forall x y, walk g x y -> x = i \/ In x r1 -> y = i \/ In y r1).
        { intros x y Hxy. induction Hxy as [x y A|x y z A _ IH]; intros Hx; [exact (Hcl x y Hx ltac:(intros []) ltac:(intros []) A)|]. apply IH. exact (Hcl x y Hx ltac:(intros []) ltac:(intros []) A). }
        destruct (G i v Hv (or_introl eq_refl)); [contradiction|assumption].
      + assert (Hu : u < n) by (destruct (Hs u (or_introl eq_refl)) as [->|Hu]; [exact Hi|apply Hw in Hu; exact (proj2 (walk_lt _ _ Hu))]).
        destruct (nth_error_some g u Hu) as (l & El). rewrite El. cbn [obind].
        destruct (tc_edges_run u l d1 st1 r1 El) as (s' & Es & Hs' & Hm).
        { cbn [TI]. repeat (split; [assumption|]). split; [intros v Hv; apply Hs; now right|]. split; [intros v [<-|[]]; apply Hs; now left|]. split; [intros e []|]. intros a b Ha Na Nc Hab. apply (Hcl a b Ha); [intros [->|X]; [apply Nc; now left|contradiction]|intros []|exact Hab]. }
        rewrite Es. cbn [obind]. eexists. split; [reflexivity|]. cbv beta iota. split; [exact Hs'|]. cbn [mt length] in *. lia.
    - intros ((d1, st1), r1) _. cbn [mt]. lia.
    - cbn [TI]. split; [lia|]. split; [|split; [constructor|split; [intros []|split; [intros v []|split; [intros v [<-|[]]; now left|split; [intros v []|split; [intros e []|]]]]]]].
      + intros v Hv. destruct (nth_error_some d v ltac:(lia)) as (x & Ex). rewrite (nth_error_nth d v 0%Z Ex). rewrite (set_nth_get _ _ _ _ v Ed) in Ex. destruct (Nat.eqb_spec i v) as [<-|N]; [injection Ex as <-; split; [now left|lia]|].
        apply (nth_error_nth _ _ 0%Z) in Ex. rewrite nth_repeat_0 in Ex. subst x. split; [congruence|intros [->|[]]; congruence].
      + intros u v [->|[]] Nu _ _. exfalso. apply Nu. now left.
    - cbn [mt length]. lia.
  Qed.

  (** ** transitive_reduction *)
  Notation dv d v := (nth v d 0%Z).
  Lemma dv_set d v x d' y : set_nth d v x = Some d' -> y < length d -> dv d' y = if v =? y then x else dv d y.
  Proof using.
    intros E Hy. pose proof (set_nth_length _ _ _ _ E) as L. destruct (nth_error_some d' y ltac:(lia)) as (z & Ez). rewrite (nth_error_nth d' y 0%Z Ez). rewrite (set_nth_get _ _ _ _ y E) in Ez. destruct (v =? y); [congruence|]. symmetry. now apply nth_error_nth.
  Qed.
  (** while the successors of i are entered *)
  Lemma tr_succ_run l d : i < n -> nth_error g i = Some l -> length d = n -> dv d i = (-1)%Z -> (forall v, v < n -> v <> i -> dv d v = 0%Z) ->
    exists d' stk, for_each tr_succ l (d, []) = Some (d', stk) /\ length d' = n /\ (forall v, v < n -> v <> i -> dv d' v = 1%Z /\ arc g i v \/ dv d' v = 0%Z /\ ~ arc g i v) /\
      dv d' i <> 0%Z /\ (forall v, In v stk <-> v <> i /\ arc g i v) /\ zeros d' + length stk = zeros d.
  Proof using Wf.
    intros Hi Hl Ld Di Dv. destruct (for_each_spec (fun pre '(d1, st1) => length d1 = n /\ (forall v, v < n -> v <> i -> dv d1 v = 1%Z /\ In v (map fst pre) \/ dv d1 v = 0%Z /\ ~ In v (map fst pre)) /\ dv d1 i <> 0%Z /\ (forall v, In v st1 <-> v <> i /\ In v (map fst pre)) /\ zeros d1 + length st1 = zeros d) tr_succ l (d, [])) as ((d', stk) & E & L1 & H1 & H2 & H3 & H4).
    - split; [exact Ld|]. split; [intros v Hv N; right; split; [now apply Dv|intros []]|]. split; [lia|]. split; [intros v; cbn; tauto|cbn; lia].
    - intros pre (v, w) post (d1, st1) El (L1 & H1 & H2 & H3 & H4). cbn [tr_succ fst]. assert (A : arc g i v) by (exists w; rewrite (out_nth i l Hl), El; apply in_elt). destruct (arc_lt i v A) as (_ & Lv).
      destruct (nth_error_some d1 v ltac:(lia)) as (x & Ex). rewrite Ex. cbn [obind]. destruct (set_nth_some d1 v 1%Z ltac:(lia)) as (d2 & E2). rewrite E2. cbn [obind]. eexists. split; [reflexivity|].
      pose proof (set_nth_length _ _ _ _ E2) as L2. pose proof (nth_error_nth d1 v 0%Z Ex) as Nx. pose proof (zeros_set _ _ _ _ _ Ex E2 ltac:(lia)) as Z2.
      split; [lia|]. split; [|split; [|split]].
      + intros y Hy Ny. rewrite (dv_set _ _ _ _ y E2) by lia. rewrite map_app, in_app_iff. cbn. destruct (Nat.eqb_spec v y) as [<-|N]; [left; split; [reflexivity|right; now left]|]. destruct (H1 y Hy Ny) as [(Y1 & Y2)|(Y1 & Y2)]; [left; tauto|right; split; [exact Y1|]]. intros [Y|[Y|[]]]; congruence.
      + rewrite (dv_set _ _ _ _ i E2) by lia. destruct (v =? i); [lia|exact H2].
      + intros y. rewrite map_app, in_app_iff. cbn. destruct (Z.eqb_spec x 0) as [->|Nz].
        * assert (Nv : v <> i) by congruence. destruct (H1 v Lv Nv) as [(Y1 & Y2)|(Y1 & Y2)]; [lia|]. cbn. rewrite H3. intuition congruence.
        * rewrite H3. split; [tauto|]. intros (Ny & [Y|[<-|[]]]); [tauto|]. split; [exact Ny|]. destruct (H1 v Lv Ny) as [(Y1 & Y2)|(Y1 & Y2)]; [exact Y2|congruence].
      + destruct (x =? 0)%Z; cbn [length]; lia.
    - exists d', stk. split; [exact E|]. split; [exact L1|].
      assert (Q : forall v, In v (map fst l) <-> arc g i v). { intros v. unfold arc. rewrite (out_nth i l Hl), in_map_iff. split; [intros ((a, b) & <- & Y); eauto|intros (b & Y); now exists (v, b)]. }
      split; [intros v Hv Nv; destruct (H1 v Hv Nv) as [(Y1 & Y2)|(Y1 & Y2)]; rewrite Q in Y2; tauto|]. split; [exact H2|]. split; [intros v; rewrite H3, Q; tauto|exact H4].
  Qed.
  Definition RI (cur : list nat) (pre : list edge) (s : list Z * list nat) : Prop :=
    let '(d, stk) := s in
    length d = n /\ (forall v, v < n -> dv d v = 0%Z \/ dv d v = 1%Z \/ dv d v = (-1)%Z) /\ dv d i = (-1)%Z /\
    (forall v, v < n -> v <> i -> dv d v <> 0%Z -> walk g i v) /\ (forall v, v < n -> v <> i -> dv d v = (-1)%Z -> walk2 g i v) /\
    (forall v, v < n -> dv d v = 1%Z -> arc g i v) /\ (forall v, arc g i v -> dv d v <> 0%Z) /\
    (forall v, In v stk \/ In v cur -> v < n /\ v <> i /\ dv d v <> 0%Z) /\
    (forall e, In e pre -> dv d (fst e) = (-1)%Z) /\
    (forall u v, u < n -> u <> i -> dv d u <> 0%Z -> ~ In u stk -> ~ In u cur -> arc g u v -> dv d v = (-1)%Z).
  Definition mr (s : list Z * list nat) : Z := let '(d, stk) := s in (2 * Z.of_nat (zeros d) + Z.of_nat (length stk))%Z.
  Lemma tr_edges_run u l d stk : nth_error g u = Some l -> RI [u] [] (d, stk) ->
    exists s', for_each tr_edge l (d, stk) = Some s' /\ RI [] [] s' /\ (mr s' <= mr (d, stk))%Z.
  Proof using Wf.
    intros Hl H0. destruct (for_each_spec (fun pre s => RI [u] pre s /\ (mr s <= mr (d, stk))%Z) tr_edge l (d, stk)) as (s' & E & H & Hm).
    - split; [exact H0|lia].
    - intros pre (v, w) post (d1, st1) El (H & Hm). cbn [tr_edge fst]. pose proof H as (Ld & Hv & Di & Hw & H2 & H1 & Ha & Hs & Hp & Hcl).
      assert (A : arc g u v) by (exists w; rewrite (out_nth u l Hl), El; apply in_elt). destruct (arc_lt u v A) as (Lu & Lv).
      destruct (Hs u (or_intror (or_introl eq_refl))) as (_ & Nu & Du).
      assert (W2 : walk2 g i v) by (apply walk2_last; exists u; split; [now apply Hw|exact A]).
      assert (W1 : walk g i v) by (apply walk2_last in W2 as (x & X & Y); eapply walk_snoc; eauto).
      destruct (nth_error_some d1 v ltac:(lia)) as (x & Ex). rewrite Ex. cbn [obind]. destruct (set_nth_some d1 v (-1)%Z ltac:(lia)) as (d2 & E2). rewrite E2. cbn [obind]. eexists. split; [reflexivity|].
      pose proof (set_nth_length _ _ _ _ E2) as L2. pose proof (nth_error_nth d1 v 0%Z Ex) as Nx. pose proof (zeros_set _ _ _ _ _ Ex E2 ltac:(lia)) as Z2.
      assert (G : forall y, y < n -> dv d2 y = if v =? y then (-1)%Z else dv d1 y) by (intros y Hy; apply (dv_set _ _ _ _ y E2); lia).
      assert (Nz : forall y, y < n -> dv d1 y <> 0%Z -> dv d2 y <> 0%Z) by (intros y Hy Y; rewrite G by assumption; destruct (v =? y); [lia|exact Y]).
      split.
      + cbn [RI]. split; [lia|]. split; [intros y Hy; rewrite G by assumption; destruct (v =? y); [lia|now apply Hv]|]. split; [rewrite G by (destruct (arc_lt _ _ A); apply walk_lt in W1; tauto); now rewrite Di; destruct (v =? i)|].
        split; [intros y Hy Ny; rewrite G by assumption; destruct (Nat.eqb_spec v y) as [<-|_]; [intros _; exact W1|now apply Hw]|].
        split; [intros y Hy Ny; rewrite G by assumption; destruct (Nat.eqb_spec v y) as [<-|_]; [intros _; exact W2|now apply H2]|].
        split; [intros y Hy; rewrite G by assumption; destruct (v =? y); [lia|now apply H1]|].
        split; [intros y Hy; apply Nz; [exact (proj2 (arc_lt _ _ Hy))|now apply Ha]|].
        split.
        { intros y Hy. assert (C : y = v /\ x = 0%Z \/ In y st1 \/ In y [u]) by (destruct Hy as [Hy|Hy]; [|tauto]; destruct (Z.eqb_spec x 0); [destruct Hy as [<-|Hy]; auto|auto]). destruct C as [(-> & ->)|C].
          - split; [exact Lv|]. split; [congruence|]. rewrite G, Nat.eqb_refl by assumption. lia.
          - destruct (Hs y C) as (Y1 & Y2 & Y3). split; [exact Y1|]. split; [exact Y2|]. now apply Nz. }
        split.
        { intros e He. rewrite in_app_iff in He. destruct He as [He|[<-|[]]]; cbn [fst].
          - assert (L : fst e < n). { destruct e as (a, b). apply (Wf u (a, b)). rewrite (out_nth u l Hl), El, in_app_iff. now left. } rewrite G by exact L. destruct (v =? fst e); [reflexivity|now apply Hp].
          - rewrite G, Nat.eqb_refl by assumption. reflexivity. }
        intros a b La Na Da Sa Ca Hab. destruct (arc_lt _ _ Hab) as (_ & Lb). rewrite G by exact Lb. destruct (v =? b); [reflexivity|]. apply (Hcl a b La Na); try assumption.
        * rewrite G in Da by exact La. destruct (Nat.eqb_spec v a) as [<-|_]; [|exact Da]. intros Q. apply Sa. assert (X0 : x = 0%Z) by congruence. rewrite X0. now left.
        * intros Q. apply Sa. destruct (x =? 0)%Z; [now right|exact Q].
      + cbn [mr length] in *. destruct (x =? 0)%Z; cbn [length]; lia.
    - exists s'. split; [exact E|]. split; [|exact Hm]. destruct s' as (d1, st1). destruct H as (Ld & Hv & Di & Hw & H2 & H1 & Ha & Hs & Hp & Hcl).
      cbn [RI]. repeat (split; [assumption|]). split; [intros v [Y|[]]; apply Hs; now left|]. split; [intros e []|]. intros a b La Na Da Sa _ Hab. destruct (Nat.eq_dec a u) as [->|N].
      + destruct Hab as (w & Hab). rewrite (out_nth u l Hl) in Hab. exact (Hp (b, w) Hab).
      + apply (Hcl a b La Na Da Sa); [|exact Hab]. intros [X|[]]. congruence.
  Qed.
  Lemma tr_row_run : ~ walk g i i -> i < n -> exists row, tr_row g i = Some row /\ NoDup row /\ forall v, In v row <-> arc g i v /\ ~ walk2 g i v.
  Proof using Wf.
    intros Ac Hi. unfold tr_row. destruct (set_nth_some (repeat 0%Z n) i (-1)%Z ltac:(rewrite repeat_length; lia)) as (d & Ed). rewrite Ed. cbn [obind].
    pose proof (set_nth_length _ _ _ _ Ed) as Ld. rewrite repeat_length in Ld.
    destruct (nth_error_some g i Hi) as (l & El). rewrite El. cbn [obind].
    assert (G : forall y, y < n -> dv d y = if i =? y then (-1)%Z else 0%Z) by (intros y Hy; rewrite (dv_set _ _ _ _ y Ed) by (rewrite repeat_length; lia); now rewrite nth_repeat_0).
    assert (Z0 : zeros d + 1 = n). { destruct (nth_error_some (repeat 0%Z n) i ltac:(rewrite repeat_length; lia)) as (x & Ex). pose proof (nth_error_nth _ _ 0%Z Ex) as X. rewrite nth_repeat_0 in X. subst x. pose proof (zeros_set _ _ _ _ _ Ex Ed ltac:(lia)) as Z2. rewrite zeros_repeat in Z2. exact Z2. }
    destruct (tr_succ_run l d Hi El Ld) as (d1 & st1 & E1 & L1 & H1 & Di & Hst & Z1).
    { rewrite G, Nat.eqb_refl by exact Hi. reflexivity. } { intros v Hv Nv. rewrite G by exact Hv. destruct (Nat.eqb_spec i v); congruence. }
    rewrite E1. cbn [obind]. destruct (set_nth_some d1 i (-1)%Z ltac:(lia)) as (d2 & E2). rewrite E2. cbn [obind]. pose proof (set_nth_length _ _ _ _ E2) as L2.
    assert (G2 : forall y, y < n -> dv d2 y = if i =? y then (-1)%Z else dv d1 y) by (intros y Hy; apply (dv_set _ _ _ _ y E2); lia).
    assert (Z2 : zeros d2 <= zeros d1). { destruct (nth_error_some d1 i ltac:(lia)) as (x & Ex). pose proof (zeros_set _ _ _ _ _ Ex E2 ltac:(lia)). lia. }
    destruct (loopZ_spec (tr_step g) (RI [] []) (fun d => RI [] [] (d, [])) mr) with (fuel := (2 * Z.of_nat n + 2)%Z) (s := (d2, st1)) as (d3 & E3 & H3).
    - intros (da, sa) H. unfold tr_step. destruct sa as [|u sa].
      + eexists. split; [reflexivity|]. exact H.
      + pose proof H as (La & Hv & Dai & Hw & H2 & H1' & Ha & Hs & Hp & Hcl). destruct (Hs u (or_introl (or_introl eq_refl))) as (Lu & Nu & Du).
        destruct (nth_error_some g u Lu) as (lu & Elu). rewrite Elu. cbn [obind]. destruct (tr_edges_run u lu da sa Elu) as (s' & Es & Hs' & Hm).
        { cbn [RI]. repeat (split; [assumption|]). split; [intros v [Y|[<-|[]]]; [apply Hs; left; now right|auto]|]. split; [intros e []|]. intros a b L N D S C Hab. apply (Hcl a b L N D); [intros [->|X]; [apply C; now left|contradiction]|intros []|exact Hab]. }
        rewrite Es. cbn [obind]. eexists. split; [reflexivity|]. cbv beta iota. split; [exact Hs'|]. cbn [mr length] in *. lia.
    - intros (da, sa) _. cbn [mr]. lia.
    - cbn [RI]. split; [lia|]. split.
      { intros v Hv. rewrite G2 by exact Hv. destruct (Nat.eqb_spec i v) as [<-|N]; [lia|]. destruct (H1 v Hv ltac:(congruence)) as [(Y & _)|(Y & _)]; lia. }
      split; [rewrite G2, Nat.eqb_refl by exact Hi; reflexivity|].
      split; [intros v Hv Nv; rewrite G2 by exact Hv; destruct (Nat.eqb_spec i v) as [<-|_]; [contradiction|]; intros D; destruct (H1 v Hv Nv) as [(_ & Y)|(Y & _)]; [now apply walk_arc|contradiction]|].
      split; [intros v Hv Nv; rewrite G2 by exact Hv; destruct (Nat.eqb_spec i v) as [<-|_]; [contradiction|]; intros D; destruct (H1 v Hv Nv) as [(Y & _)|(Y & _)]; lia|].
      split; [intros v Hv; rewrite G2 by exact Hv; destruct (Nat.eqb_spec i v) as [<-|N]; [lia|]; intros D; destruct (H1 v Hv ltac:(congruence)) as [(_ & Y)|(Y & _)]; [exact Y|lia]|].
      split; [intros v Hv; rewrite G2 by exact (proj2 (arc_lt _ _ Hv)); destruct (Nat.eqb_spec i v) as [<-|N]; [lia|]; destruct (H1 v (proj2 (arc_lt _ _ Hv)) ltac:(congruence)) as [(Y & _)|(_ & Y)]; [lia|contradiction]|].
      split.
      { intros v [Hv|[]]. apply Hst in Hv as (Nv & A). destruct (arc_lt _ _ A) as (_ & Lv). split; [exact Lv|]. split; [exact Nv|]. rewrite G2 by exact Lv. destruct (Nat.eqb_spec i v); [lia|]. destruct (H1 v Lv Nv) as [(Y & _)|(_ & Y)]; [lia|contradiction]. }
      split; [intros e []|]. intros u v Lu Nu Du Su _ Huv. exfalso. apply Su. apply Hst. split; [exact Nu|]. rewrite G2 in Du by exact Lu. destruct (Nat.eqb_spec i u); [congruence|]. destruct (H1 u Lu Nu) as [(_ & Y)|(Y & _)]; [exact Y|contradiction].
    - cbn [mr]. lia.
    - rewrite E3. cbn [obind]. destruct H3 as (L3 & Hv & D3i & Hw & H2 & H1' & Ha & _ & _ & Hcl).
      destruct (for_range_spec (fun j (row : list nat) => NoDup row /\ forall v, In v row <-> v < j /\ dv d3 v = 1%Z) (fun v row => let* x := nth_error d3 v in Some (if (x =? 1)%Z then row ++ [v] else row)) 0 n []) as (row & Er & ND & Hr).
      + lia.
      + split; [constructor|]. intros v. split; [intros []|lia].
      + intros j row Hj (ND & Hr). destruct (nth_error_some d3 j ltac:(lia)) as (x & Ex). rewrite Ex. cbn [obind]. eexists. split; [reflexivity|]. apply (nth_error_nth _ _ 0%Z) in Ex. destruct (Z.eqb_spec x 1) as [->|N].
        * split; [rewrite <- (rev_involutive (row ++ [j])), rev_app_distr; apply NoDup_rev; cbn; constructor; [rewrite <- in_rev, Hr; lia|now apply NoDup_rev]|]. intros v. rewrite in_app_iff, Hr. cbn. split; [intros [Y|[<-|[]]]; [lia|auto]|]. intros (Y & Dv). destruct (Nat.eq_dec v j); [auto|left; split; [lia|exact Dv]].
        * split; [exact ND|]. intros v. rewrite Hr. split; [intros (Y & Dv); split; [lia|exact Dv]|]. intros (Y & Dv). split; [|exact Dv]. destruct (Nat.eq_dec v j) as [->|]; [congruence|lia].
      + exists row. split; [exact Er|]. split; [exact ND|]. intros v. rewrite Hr.
        assert (Seen : forall x y, walk g x y -> x <> i -> x < n -> dv d3 x <> 0%Z -> walk g i x -> y <> i -> dv d3 y <> 0%Z).
        { intros x y Hxy. induction Hxy as [x y A|x y z A Hyz IH]; intros Nx Lx Dx Wx Ny.
          - rewrite (Hcl x y Lx Nx Dx ltac:(intros []) ltac:(intros []) A). lia.
          - destruct (arc_lt _ _ A) as (_ & Ly). assert (Wy : walk g i y) by (eapply walk_snoc; eauto). assert (Nyi : y <> i) by (intros ->; contradiction). apply IH; auto. rewrite (Hcl x y Lx Nx Dx ltac:(intros []) ltac:(intros []) A). lia. }
        split.
        * intros (Lv & Dv). split; [now apply H1'|]. intros W2. apply walk2_last in W2 as (x & Wx & A). destruct (walk_lt _ _ Wx) as (_ & Lx). assert (Nx : x <> i) by (intros ->; contradiction).
          assert (Dx : dv d3 x <> 0%Z). { inversion Wx as [a b A'|a y b A' Wy]; subst; [now apply Ha|]. destruct (arc_lt _ _ A') as (_ & Ly). apply (Seen y x Wy); auto; [intros ->; apply Ac; now apply walk_arc|now apply walk_arc]. }
          pose proof (Hcl x v Lx Nx Dx ltac:(intros []) ltac:(intros []) A). lia.
        * intros (A & N2). destruct (arc_lt _ _ A) as (_ & Lv). split; [exact Lv|]. pose proof (Ha v A). destruct (Hv v Lv) as [|[|D]]; [contradiction|assumption|]. exfalso. apply N2. apply H2; auto. intros ->. apply Ac. now apply walk_arc.
  Qed.
End Proofs.
