From Verif Require Import Lib BaseModel PermModel PermSpec.
Open Scope nat_scope.

Definition vis (u : list bool) (x : nat) : Prop := nth_error u x = Some true.
Lemma vis_set u u' x y : set_nth u x true = Some u' -> (vis u' y <-> vis u y \/ y = x).
Proof.
  intros E. unfold vis. rewrite (set_nth_get _ _ _ _ y E). destruct (Nat.eqb_spec x y) as [->|Hn]; [tauto|]. split; [auto|]. intros [H|H]; [exact H|congruence].
Qed.
Lemma fresh_vis n x : ~ vis (fresh n) x.
Proof. unfold vis, fresh. intros H. apply nth_error_In, repeat_spec in H. discriminate. Qed.

Lemma NoDup_app_intro_disj {A} (a b : list A) : NoDup a -> NoDup b -> (forall x, In x a -> In x b -> False) -> NoDup (a ++ b).
Proof.
  induction a as [|x a IH]; intros Ha Hb Hd; cbn; [exact Hb|]. inversion Ha as [|? ? H1 H2]; subst. constructor.
  - intros H. apply in_app_or in H as [H|H]; [contradiction|]. apply (Hd x); [now left|exact H].
  - apply IH; [exact H2|exact Hb|]. intros y Hy. apply Hd. now right.
Qed.

Section Orbit.
  Variable s : nat -> nat.
  Hypothesis inj : forall x y, s x = s y -> x = y.
  Lemma iter_inj k x y : Nat.iter k s x = Nat.iter k s y -> x = y.
  Proof. induction k as [|k IH]; cbn; [auto|]. intros H. apply IH, inj, H. Qed.
  Lemma iter_add a b x : Nat.iter (a + b) s x = Nat.iter a s (Nat.iter b s x).
  Proof. induction a as [|a IH]; [reflexivity|]. change (s (Nat.iter (a + b) s x) = s (Nat.iter a s (Nat.iter b s x))). now rewrite IH. Qed.
  Definition closed (u : list bool) : Prop := forall x, vis u x <-> vis u (s x).
  Lemma closed_iter u x k : closed u -> (vis u x <-> vis u (Nat.iter k s x)).
  Proof. intros C. induction k as [|k IH]; [reflexivity|]. rewrite IH. apply C. Qed.
  Definition chain (x : nat) (k : nat) : list nat := map (fun i => Nat.iter i s x) (seq 0 k).
  Lemma chain_length x k : length (chain x k) = k.
  Proof. unfold chain. now rewrite map_length, seq_length. Qed.
  Lemma chain_nth x k i : i < k -> nth i (chain x k) 0 = Nat.iter i s x.
  Proof. intros H. unfold chain. rewrite (nth_indep _ 0 (Nat.iter 0 s x)) by (rewrite map_length, seq_length; lia). rewrite (map_nth (fun i => Nat.iter i s x)). now rewrite seq_nth by lia. Qed.
  Lemma chain_in x k y : In y (chain x k) <-> exists i, i < k /\ y = Nat.iter i s x.
  Proof. unfold chain. rewrite in_map_iff. split; intros (i & H1 & H2); exists i; [apply in_seq in H2|]; split; try lia; auto. apply in_seq. lia. Qed.
  Lemma chain_S x k : chain x (S k) = chain x k ++ [Nat.iter k s x].
  Proof. unfold chain. now rewrite seq_S, map_app. Qed.
  Lemma chain_closes x k : NoDup (chain x k) -> 0 < k -> In (Nat.iter k s x) (chain x k) -> Nat.iter k s x = x.
  Proof.
    intros ND Hk Hin. apply chain_in in Hin as (m & Hm & E). destruct m as [|m]; [exact E|exfalso]. destruct k as [|k]; [lia|]. change (s (Nat.iter k s x) = s (Nat.iter m s x)) in E. apply inj in E.
    assert (Ek : k = m); [|lia]. apply (proj1 (NoDup_nth (chain x (S k)) 0) ND); rewrite ?chain_length; try lia. rewrite !chain_nth by lia. exact E.
  Qed.
  Lemma chain_cyc x k : 0 < k -> Nat.iter k s x = x -> cyc_ok s (chain x k).
  Proof.
    intros Hk E i Hi. rewrite chain_length in *. rewrite chain_nth by lia. destruct (Nat.eq_dec (i + 1) k) as [Hl|Hl].
    - rewrite Hl, Nat.mod_same by lia. rewrite chain_nth by lia. replace (s (Nat.iter i s x)) with (Nat.iter (i + 1) s x) by (rewrite Nat.add_1_r; reflexivity). now rewrite Hl.
    - rewrite Nat.mod_small by lia. rewrite chain_nth by lia. now rewrite Nat.add_1_r.
  Qed.
  Lemma nodup_bound l n : NoDup l -> (forall x, In x l -> x < n) -> length l <= n.
  Proof. intros ND H. rewrite <- (seq_length n 0). apply NoDup_incl_length; [exact ND|]. intros x Hx. apply in_seq. specialize (H x Hx). lia. Qed.

  (** one orbit *)
  Lemma orbit_spec (el nxt : nat -> option nat) (D : nat -> Prop) (e nx : nat -> nat) u j0 :
    (forall j, D j -> el j = Some (e j) /\ e j < length u /\ nxt j = Some (nx j) /\ D (nx j) /\ e (nx j) = s (e j)) -> closed u -> D j0 ->
    exists c u', orbit_loop el nxt u j0 = Some (c, u') /\ length u' = length u /\
      ((vis u (e j0) /\ c = [] /\ u' = u) \/
       (~ vis u (e j0) /\ c <> [] /\ NoDup c /\ In (e j0) c /\ (forall x, In x c -> x < length u /\ ~ vis u x) /\ cyc_ok s c /\ (forall x, vis u' x <-> vis u x \/ In x c))).
  Proof.
    intros HD Hcl H0. unfold orbit_loop. set (x0 := e j0).
    match goal with |- context [loopZ _ ?g _] => destruct (loopZ_spec g
      (fun '(c, u1, j) => D j /\ length u1 = length u /\ c = chain x0 (length c) /\ e j = Nat.iter (length c) s x0 /\ NoDup c /\ (forall x, In x c -> x < length u /\ ~ vis u x) /\ (forall x, vis u1 x <-> vis u x \/ In x c) /\ (c = [] -> u1 = u))
      (fun '(c, u') => length u' = length u /\ ((vis u x0 /\ c = [] /\ u' = u) \/
       (~ vis u x0 /\ c <> [] /\ NoDup c /\ In x0 c /\ (forall x, In x c -> x < length u /\ ~ vis u x) /\ cyc_ok s c /\ (forall x, vis u' x <-> vis u x \/ In x c))))
      (fun '(c, u1, j) => Z.of_nat (length u) - Z.of_nat (length c))%Z) with (fuel := (Z.of_nat (length u) + 2)%Z) (s := (@nil nat, u, j0)) as ([c u'] & E & H) end.
    - intros [[c u1] j] (I1 & I2 & I3 & I4 & I5 & I6 & I7 & I8). destruct (HD j I1) as (E1 & E2 & E3 & E4 & E5). rewrite E1. cbn [obind].
      destruct (nth_error u1 (e j)) as [b|] eqn:Eb; [|apply nth_error_None in Eb; lia]. cbn [obind]. destruct b.
      + eexists. split; [reflexivity|]. split; [exact I2|]. assert (Vj : vis u1 (e j)) by exact Eb. destruct c as [|a c].
        * left. cbn in I4. rewrite I8 in Vj by reflexivity. rewrite I4 in Vj. repeat split; auto.
        * right. set (k := length (a :: c)) in *. assert (Hk : 0 < k) by (unfold k; cbn; lia).
          assert (Hx0 : In x0 (a :: c)) by (rewrite I3; apply chain_in; exists 0; split; [exact Hk|reflexivity]).
          assert (Nx : ~ vis u x0) by now apply I6.
          apply I7 in Vj as [Vj|Vj]; [elim Nx; rewrite I4 in Vj; apply (closed_iter u x0 k Hcl); exact Vj|].
          assert (Cl : Nat.iter k s x0 = x0) by (apply chain_closes; [now rewrite <- I3|exact Hk|rewrite <- I3, <- I4; exact Vj]).
          split; [exact Nx|]. split; [discriminate|]. split; [exact I5|]. split; [exact Hx0|]. split; [exact I6|]. split; [rewrite I3; now apply chain_cyc|exact I7].
      + destruct (set_nth_some u1 (e j) true) as [u2 Eu]; [lia|]. rewrite Eu. cbn [obind]. rewrite E3. cbn [obind]. eexists. split; [reflexivity|].
        assert (Nj : ~ vis u1 (e j)) by (unfold vis; rewrite Eb; discriminate).
        assert (Nv : ~ vis u (e j) /\ ~ In (e j) c) by (split; intros X; apply Nj, I7; auto).
        assert (ND : NoDup (c ++ [e j])). { rewrite <- (rev_involutive (c ++ [e j])), rev_app_distr. apply NoDup_rev. cbn. constructor; [rewrite <- in_rev; apply Nv|now apply NoDup_rev]. }
        assert (BD : forall x, In x (c ++ [e j]) -> x < length u /\ ~ vis u x). { intros x Hx. apply in_app_or in Hx as [Hx|[<-|[]]]; [now apply I6|]. split; [exact E2|apply Nv]. }
        split.
        * split; [exact E4|]. split; [now rewrite (set_nth_length _ _ _ _ Eu)|]. rewrite app_length. cbn [length]. rewrite Nat.add_1_r.
          split; [rewrite chain_S, <- I4, <- I3; reflexivity|]. split; [rewrite E5, I4; reflexivity|]. split; [exact ND|]. split; [exact BD|]. split.
          -- intros x. rewrite (vis_set _ _ _ x Eu), I7, in_app_iff. cbn [In]. intuition.
          -- intros X. apply app_eq_nil in X as [_ X]. discriminate.
        * rewrite app_length. cbn [length]. lia.
    - intros [[c u1] j] (I1 & I2 & I3 & I4 & I5 & I6 & I7 & I8). pose proof (nodup_bound c (length u) I5 (fun x Hx => proj1 (I6 x Hx))). lia.
    - cbn [length]. split; [exact H0|]. split; [reflexivity|]. split; [reflexivity|]. split; [reflexivity|]. split; [constructor|]. split; [intros x []|]. split; [intros x; cbn; tauto|reflexivity].
    - cbn [length]. lia.
    - exists c, u'. split; [exact E|exact H].
  Qed.

  (** the cycles found so far and the elements seen *)
  Record found (n : nat) (vc : list cycle) (u : list bool) : Prop := {
    f_len : length u = n;
    f_closed : closed u;
    f_nd : NoDup (concat vc);
    f_in : forall x, In x (concat vc) -> vis u x;
    f_cyc : forall c, In c vc -> 2 <= length c /\ cyc_ok s c;
    f_fix : forall x, vis u x -> ~ In x (concat vc) -> s x = x }.
  Lemma vis_lt u x : vis u x -> x < length u.
  Proof. intros H. apply nth_error_Some. unfold vis in H. congruence. Qed.
  Lemma found_orbit n vc u (el nxt : nat -> option nat) (D : nat -> Prop) (e nx : nat -> nat) j0 : found n vc u ->
    (forall j, D j -> el j = Some (e j) /\ e j < n /\ nxt j = Some (nx j) /\ D (nx j) /\ e (nx j) = s (e j)) -> D j0 ->
    exists c u', orbit_loop el nxt u j0 = Some (c, u') /\ found n (keep vc c) u' /\ vis u' (e j0) /\ (forall x, vis u x -> vis u' x).
  Proof.
    intros [F1 F2 F3 F4 F5 F6] HD H0. subst n. destruct (orbit_spec el nxt D e nx u j0 HD F2 H0) as (c & u' & E & L & [(V & -> & ->)|(V & Cn & ND & Hin & B & C & Vu)]).
    - exists [], u. split; [exact E|]. unfold keep. cbn [length Nat.ltb Nat.leb]. split; [split; auto|]. split; [exact V|auto].
    - exists c, u'. split; [exact E|]. split; [|split; [apply Vu; now right|intros x Hx; apply Vu; now left]].
      assert (Cs : forall x, In x c <-> In (s x) c).
      { assert (N : forall y, In y c -> exists i, i < length c /\ y = nth i c 0) by (intros y Hy; destruct (In_nth c y 0 Hy) as (i & Hi & Ei); exists i; split; [exact Hi|now symmetry]).
        assert (Hl : 0 < length c) by (destruct c; [easy|cbn; lia]).
        intros x. split; intros Hx; apply N in Hx as (i & Hi & Ei).
        - rewrite Ei, (C i Hi). apply nth_In. apply Nat.mod_upper_bound. lia.
        - destruct i as [|i].
          + assert (Ex : s (nth (length c - 1) c 0) = s x). { rewrite (C (length c - 1)) by lia. replace (length c - 1 + 1) with (length c) by lia. rewrite Nat.mod_same by lia. now symmetry. }
            apply inj in Ex. rewrite <- Ex. apply nth_In. lia.
          + assert (Ex : s (nth i c 0) = s x). { rewrite (C i) by lia. rewrite Nat.mod_small by lia. rewrite Nat.add_1_r. now symmetry. }
            apply inj in Ex. rewrite <- Ex. apply nth_In. lia. }
      assert (Hcl' : closed u') by (intros x; rewrite !Vu, (F2 x), (Cs x); tauto).
      unfold keep. destruct (1 <? length c) eqn:Q.
      + apply Nat.ltb_lt in Q. split; try assumption.
        * rewrite concat_app. cbn [concat]. rewrite app_nil_r. apply NoDup_app_intro_disj; [exact F3|exact ND|]. intros x Hx Hc. apply F4 in Hx. now apply (proj2 (B x Hc)).
        * intros x Hx. rewrite concat_app in Hx. cbn [concat] in Hx. rewrite app_nil_r in Hx. apply Vu. apply in_app_or in Hx as [Hx|Hx]; [left; now apply F4|now right].
        * intros c' Hc'. apply in_app_or in Hc' as [Hc'|[<-|[]]]; [now apply F5|]. split; [lia|exact C].
        * intros x Hx Hn. rewrite concat_app in Hn. cbn [concat] in Hn. rewrite app_nil_r, in_app_iff in Hn. apply Vu in Hx as [Hx|Hx]; [apply F6; tauto|tauto].
      + apply Nat.ltb_ge in Q. split; try assumption.
        * intros x Hx. apply Vu. left. now apply F4.
        * intros x Hx Hn. apply Vu in Hx as [Hx|Hx]; [now apply F6|]. destruct c as [|a [|b c]]; [easy| |cbn in Q; lia]. destruct Hx as [<-|[]].
          specialize (C 0 ltac:(cbn; lia)). cbn in C. exact C.
  Qed.
  Lemma found_init n : found n [] (fresh n).
  Proof. split; try (intros; exfalso; eauto using fresh_vis; fail); cbn; try (intros; contradiction); [apply repeat_length|intros x; split; intros H; elim (fresh_vis _ _ H)|constructor|intros x H; elim (fresh_vis _ _ H)]. Qed.
  Lemma found_denotes n vc u : found n vc u -> (forall x, ~ vis u x -> s x = x) -> wf vc n /\ denotes vc s /\ (forall c, In c vc -> 2 <= length c).
  Proof.
    intros [F1 F2 F3 F4 F5 F6] H. split; [split; [exact F3|split]|split; [split|]].
    - intros x Hx. apply F4, vis_lt in Hx. lia.
    - intros Hn. apply F5 in Hn as [Hn _]. cbn in Hn. lia.
    - intros c Hc. now apply F5.
    - intros x Hx. destruct (nth_error u x) as [[|]|] eqn:E; [apply F6; assumption| |]; apply H; unfold vis; rewrite E; discriminate.
    - intros c Hc. now apply F5.
  Qed.
End Orbit.

(** line notation to cycles *)
Lemma line_to_cycles_run n s l : permutes n s -> line_of n s l ->
  exists cs, line_to_cycles l = Some cs /\ wf cs n /\ denotes cs s /\ (forall c, In c cs -> 2 <= length c).
Proof.
  intros (P1 & P2 & P3) (L1 & L2). unfold line_to_cycles. rewrite L1.
  destruct (for_range_spec (fun i '(vc, u) => found s n vc u /\ (forall x, x < i -> vis u x))
    (fun i '(vc, u) => let* b := nth_error u i in
      if (b : bool) then Some (vc, u) else
      let* '(c, u) := orbit_loop Some (fun j => nth_error l j) u i in Some (keep vc c, u)) 0 n ([], fresh n)) as ([vc u] & E & F & Hv); [lia| | |].
  - split; [apply found_init|lia].
  - intros i [vc u] Hi (F & Hv). pose proof (f_len _ _ _ _ F) as Lu. destruct (nth_error u i) as [b|] eqn:Eb; [|apply nth_error_None in Eb; lia]. cbn [obind]. destruct b.
    + eexists. split; [reflexivity|]. split; [exact F|]. intros x Hx. destruct (Nat.eq_dec x i) as [->|]; [exact Eb|apply Hv; lia].
    + destruct (found_orbit s P3 n vc u Some (fun j => nth_error l j) (fun j => j < n) (fun j => j) s i F) as (c & u' & E & F' & V & Vm); [|lia|].
      * intros j Hj. repeat split; auto.
      * rewrite E. cbn [obind]. eexists. split; [reflexivity|]. split; [exact F'|]. intros x Hx. destruct (Nat.eq_dec x i) as [->|]; [exact V|apply Vm, Hv; lia].
  - rewrite E. cbn [obind]. exists vc. split; [reflexivity|]. apply (found_denotes s n vc u F). intros x Hx. apply P2. destruct (le_lt_dec n x); [assumption|]. elim Hx. now apply Hv.
Qed.

(** cycles to line notation *)
Lemma swap_at_run line a b : a < length line -> b < length line -> exists line', swap_at line a b = Some line' /\ length line' = length line /\
  forall x, nth_error line' x = nth_error line (transp a b x).
Proof.
  intros Ha Hb. unfold swap_at. destruct (nth_error_some line a Ha) as [va Ea]. destruct (nth_error_some line b Hb) as [vb Eb]. rewrite Ea, Eb. cbn [obind].
  destruct (set_nth_some line a vb Ha) as [l1 E1]. rewrite E1. cbn [obind]. pose proof (set_nth_length _ _ _ _ E1) as N1.
  destruct (set_nth_some l1 b va) as [l2 E2]; [lia|]. rewrite E2. exists l2. split; [reflexivity|]. split; [rewrite (set_nth_length _ _ _ _ E2); exact N1|].
  intros x. rewrite (set_nth_get _ _ _ _ x E2), (set_nth_get _ _ _ _ x E1). unfold transp. rewrite (Nat.eqb_sym x a), (Nat.eqb_sym x b).
  destruct (Nat.eqb_spec b x) as [->|]; destruct (Nat.eqb_spec a x) as [->|]; congruence.
Qed.
Lemma nth_inj (c : list nat) i j : NoDup c -> i < length c -> j < length c -> nth i c 0 = nth j c 0 -> i = j.
Proof. intros ND Hi Hj E. exact (proj1 (NoDup_nth c 0) ND i j Hi Hj E). Qed.
Lemma apply_cycle_run line c : NoDup c -> (forall x, In x c -> x < length line) -> exists line', apply_cycle line c = Some line' /\ length line' = length line /\
  (forall i, i < length c -> nth_error line' (nth i c 0) = nth_error line (nth ((i + 1) mod length c) c 0)) /\ (forall x, ~ In x c -> nth_error line' x = nth_error line x).
Proof.
  intros ND B. unfold apply_cycle. destruct c as [|a0 c0] eqn:Ec.
  - cbn [length Nat.max]. exists line. split; [reflexivity|]. split; [reflexivity|]. split; [intros i Hi; cbn in Hi; lia|reflexivity].
  - rewrite <- Ec in *. assert (Hl : 1 <= length c) by (rewrite Ec; cbn; lia). clear a0 c0 Ec. rewrite Nat.max_r by exact Hl.
    destruct (for_range_spec (fun i ln => length ln = length line /\
      (forall x, ~ In x c -> nth_error ln x = nth_error line x) /\ (forall j, j < length c -> nth_error ln (nth j c 0) = nth_error line (nth (if j <? i - 1 then j + 1 else if j =? i - 1 then 0 else j) c 0)))
      (fun i line => let* a := nth_error c (i - 1) in let* b := nth_error c i in swap_at line a b) 1 (length c) line) as (ln & E & I1 & I2 & I3); [lia| | |].
    + split; [reflexivity|]. split; [reflexivity|]. intros j Hj. destruct (Nat.ltb_spec j (1 - 1)); [lia|]. destruct (Nat.eqb_spec j (1 - 1)); [subst; reflexivity|reflexivity].
    + intros i ln Hi (I1 & I2 & I3). rewrite (nth_error_nth' c 0) by lia. cbn [obind]. rewrite (nth_error_nth' c 0) by lia. cbn [obind].
      destruct (swap_at_run ln (nth (i - 1) c 0) (nth i c 0)) as (ln' & E' & N' & S'); try (rewrite I1; apply B, nth_In; lia).
      exists ln'. split; [exact E'|]. split; [lia|]. split.
      * intros x Hx. rewrite S'. unfold transp. destruct (Nat.eqb_spec x (nth (i - 1) c 0)) as [->|_]; [elim Hx; apply nth_In; lia|]. destruct (Nat.eqb_spec x (nth i c 0)) as [->|_]; [elim Hx; apply nth_In; lia|]. now apply I2.
      * intros j Hj. rewrite S'. unfold transp. replace (S i - 1) with i by lia.
        destruct (Nat.eqb_spec (nth j c 0) (nth (i - 1) c 0)) as [Q|Q].
        { apply nth_inj in Q; [|exact ND|lia|lia]. subst j. rewrite I3 by lia. destruct (Nat.ltb_spec i (i - 1)); [lia|]. destruct (Nat.eqb_spec i (i - 1)); [lia|]. destruct (Nat.ltb_spec (i - 1) i); [|lia]. now replace (i - 1 + 1) with i by lia. }
        destruct (Nat.eqb_spec (nth j c 0) (nth i c 0)) as [R|R].
        { apply nth_inj in R; [|exact ND|lia|lia]. subst j. rewrite I3 by lia. destruct (Nat.ltb_spec (i - 1) (i - 1)); [lia|]. rewrite Nat.eqb_refl. destruct (Nat.ltb_spec i i); [lia|]. now rewrite Nat.eqb_refl. }
        rewrite I3 by lia. assert (j <> i - 1) by (intros ->; now apply Q). assert (j <> i) by (intros ->; now apply R).
        destruct (Nat.ltb_spec j (i - 1)); destruct (Nat.ltb_spec j i); try lia; [reflexivity|]. destruct (Nat.eqb_spec j (i - 1)); [lia|]. destruct (Nat.eqb_spec j i); [lia|]. reflexivity.
    + exists ln. split; [exact E|]. split; [exact I1|]. split; [|exact I2]. intros i Hi. rewrite I3 by exact Hi. destruct (Nat.ltb_spec i (length c - 1)).
      * now rewrite Nat.mod_small by lia.
      * replace i with (length c - 1) by lia. rewrite Nat.eqb_refl. replace (length c - 1 + 1) with (length c) by lia. now rewrite Nat.mod_same by lia.
Qed.
Lemma nodup_app_l {A} (a b : list A) : NoDup (a ++ b) -> NoDup a /\ NoDup b /\ (forall x, In x a -> In x b -> False).
Proof.
  induction a as [|x a IH]; cbn; intros H; [split; [constructor|]; split; [exact H|intros x []]|]. inversion H as [|? ? H1 H2]; subst. destruct (IH H2) as (A1 & A2 & A3). split; [constructor; [|exact A1]|split; [exact A2|]].
  - intros X. apply H1, in_or_app. now left.
  - intros y [<-|Hy] Hb; [apply H1, in_or_app; now right|exact (A3 y Hy Hb)].
Qed.
Lemma mod_lt_in (c : list nat) i : i < length c -> (i + 1) mod length c < length c.
Proof. intros H. apply Nat.mod_upper_bound. lia. Qed.
Lemma apply_cycles_run cs : forall line, NoDup (concat cs) -> (forall x, In x (concat cs) -> x < length line) -> exists line', apply_cycles line cs = Some line' /\ length line' = length line /\
  (forall c i, In c cs -> i < length c -> nth_error line' (nth i c 0) = nth_error line (nth ((i + 1) mod length c) c 0)) /\ (forall x, ~ In x (concat cs) -> nth_error line' x = nth_error line x).
Proof.
  induction cs as [|c cs IH]; intros line ND B; cbn [apply_cycles].
  - exists line. repeat split; auto. intros c i [].
  - cbn [concat] in *. destruct (nodup_app_l _ _ ND) as (N1 & N2 & N3). destruct (apply_cycle_run line c N1) as (l1 & E1 & L1 & C1 & O1); [intros x Hx; apply B, in_or_app; now left|].
    rewrite E1. cbn [obind]. destruct (IH l1 N2) as (l2 & E2 & L2 & C2 & O2); [intros x Hx; rewrite L1; apply B, in_or_app; now right|].
    exists l2. split; [exact E2|]. split; [lia|]. split.
    + intros c' i [<-|Hc] Hi.
      * rewrite O2; [now apply C1|]. intros X. apply (N3 (nth i c 0)); [now apply nth_In|exact X].
      * rewrite (C2 c' i Hc Hi). apply O1. intros X. eapply N3; [exact X|]. apply in_concat. exists c'. split; [exact Hc|]. apply nth_In. now apply mod_lt_in.
    + intros x Hx. rewrite O2, O1; [reflexivity| |]; intros X; apply Hx, in_or_app; auto.
Qed.
Lemma in_cycle cs x : In x (concat cs) -> exists c i, In c cs /\ i < length c /\ x = nth i c 0.
Proof. intros H. apply in_concat in H as (c & Hc & Hx). destruct (In_nth c x 0 Hx) as (i & Hi & E). exists c, i. now repeat split. Qed.
Lemma nth_concat cs c i : In c cs -> i < length c -> In (nth i c 0) (concat cs).
Proof. intros Hc Hi. apply in_concat. exists c. split; [exact Hc|now apply nth_In]. Qed.
Lemma apply_denotes cs s line : NoDup (concat cs) -> (forall x, In x (concat cs) -> x < length line) -> denotes cs s -> exists line', apply_cycles line cs = Some line' /\ length line' = length line /\ forall x, nth_error line' x = nth_error line (s x).
Proof.
  intros ND B (D1 & D2). destruct (apply_cycles_run cs line ND B) as (l' & E & L & C & O). exists l'. split; [exact E|]. split; [exact L|]. intros x.
  destruct (in_dec Nat.eq_dec x (concat cs)) as [H|H].
  - apply in_cycle in H as (c & i & Hc & Hi & ->). rewrite (C c i Hc Hi), (D1 c Hc i Hi). reflexivity.
  - rewrite (O x H), (D2 x H). reflexivity.
Qed.
Lemma denotation_exists cs n : wf cs n -> exists s, denotes cs s.
Proof.
  intros (W1 & W2 & W3). destruct (apply_cycles_run cs (seq 0 n) W1) as (l & E & L & C & O); [now rewrite seq_length|]. rewrite seq_length in L.
  exists (fun x => nth x l x). split.
  - intros c Hc i Hi. specialize (C c i Hc Hi). rewrite (nth_indep l _ 0) by (rewrite L; apply W2; now apply nth_concat).
    apply nth_error_nth. rewrite C. pose proof (W2 _ (nth_concat cs c _ Hc (mod_lt_in c i Hi))) as Hb. rewrite (nth_error_nth' _ 0) by (rewrite seq_length; exact Hb). now rewrite seq_nth by exact Hb.
  - intros x Hx. destruct (lt_dec x n) as [H|H]; [|apply nth_overflow; lia]. specialize (O x Hx). rewrite (nth_error_nth' _ 0) in O by lia. rewrite (nth_error_nth' _ 0) in O by (rewrite seq_length; exact H). rewrite seq_nth in O by exact H. rewrite (nth_indep l _ 0) by lia. now injection O as ->.
Qed.
Lemma denotation_unique cs s s' : denotes cs s -> denotes cs s' -> forall x, s x = s' x.
Proof.
  intros (D1 & D2) (D1' & D2') x. destruct (in_dec Nat.eq_dec x (concat cs)) as [H|H]; [|rewrite D2, D2'; auto].
  apply in_cycle in H as (c & i & Hc & Hi & ->). now rewrite (D1 c Hc i Hi), (D1' c Hc i Hi).
Qed.
Lemma denotes_ext cs s s' : denotes cs s -> (forall x, s x = s' x) -> denotes cs s'.
Proof. intros (D1 & D2) H. split; [intros c Hc i Hi; rewrite <- H; now apply D1|intros x Hx; rewrite <- H; now apply D2]. Qed.
Lemma same_cycle (cs : list (list nat)) c c' x : NoDup (concat cs) -> In c cs -> In c' cs -> In x c -> In x c' -> c = c'.
Proof.
  induction cs as [|a cs IH]; [intros _ []|]. cbn [concat]. intros ND Hc Hc' Hx Hx'. destruct (nodup_app_l _ _ ND) as (N1 & N2 & N3).
  destruct Hc as [->|Hc], Hc' as [->|Hc']; auto.
  - exfalso. apply (N3 x Hx), in_concat. now exists c'.
  - exfalso. apply (N3 x Hx'), in_concat. now exists c.
Qed.
Lemma nodup_cycle (cs : list (list nat)) c : NoDup (concat cs) -> In c cs -> NoDup c.
Proof. induction cs as [|a cs IH]; [intros _ []|]. cbn [concat]. intros ND [->|H]; destruct (nodup_app_l _ _ ND) as (N1 & N2 & N3); auto. Qed.
Lemma succ_mod_inj L i j : i < L -> j < L -> (i + 1) mod L = (j + 1) mod L -> i = j.
Proof.
  intros Hi Hj. destruct (Nat.eq_dec (i + 1) L) as [E|E], (Nat.eq_dec (j + 1) L) as [F|F]; try lia.
  - rewrite E, Nat.mod_same, Nat.mod_small by lia. lia.
  - rewrite F, Nat.mod_same, Nat.mod_small by lia. lia.
  - rewrite !Nat.mod_small by lia. lia.
Qed.
Lemma denotes_in cs s x : denotes cs s -> In x (concat cs) -> In (s x) (concat cs).
Proof. intros (D1 & D2) H. apply in_cycle in H as (c & i & Hc & Hi & ->). rewrite (D1 c Hc i Hi). apply nth_concat; [exact Hc|now apply mod_lt_in]. Qed.
Lemma denotes_permutes cs n s : wf cs n -> denotes cs s -> permutes n s.
Proof.
  intros (W1 & W2 & W3) D. pose proof D as (D1 & D2). split; [|split].
  - intros x Hx. destruct (in_dec Nat.eq_dec x (concat cs)) as [H|H]; [|now rewrite D2]. apply W2. now apply denotes_in.
  - intros x Hx. apply D2. intros H. apply W2 in H. lia.
  - intros x y E. destruct (in_dec Nat.eq_dec x (concat cs)) as [H|H], (in_dec Nat.eq_dec y (concat cs)) as [K|K].
    + apply in_cycle in H as (c & i & Hc & Hi & ->). apply in_cycle in K as (c' & j & Hc' & Hj & ->). rewrite (D1 c Hc i Hi), (D1 c' Hc' j Hj) in E.
      assert (c = c') as <-. { apply (same_cycle cs c c' _ W1 Hc Hc' (nth_In c 0 (mod_lt_in c i Hi))). rewrite E. apply nth_In. now apply mod_lt_in. }
      apply nth_inj in E; [|now apply (nodup_cycle cs)|now apply mod_lt_in|now apply mod_lt_in]. apply succ_mod_inj in E; [now subst|exact Hi|exact Hj].
    + exfalso. apply K. rewrite <- (D2 y K), <- E. now apply denotes_in.
    + exfalso. apply H. rewrite <- (D2 x H), E. now apply denotes_in.
    + now rewrite (D2 x H), (D2 y K) in E.
Qed.
Lemma expand_line_spec n m s l : line_of n s l -> (forall x, n <= x -> s x = x) -> line_of (Nat.max n m) s (expand_line l m).
Proof.
  intros (L1 & L2) F. unfold expand_line. split; [rewrite app_length, seq_length; lia|]. intros x Hx. destruct (lt_dec x n) as [H|H].
  - rewrite nth_error_app1 by lia. now apply L2.
  - rewrite nth_error_app2 by lia. rewrite (nth_error_nth' _ 0) by (rewrite seq_length; lia). rewrite seq_nth by lia. f_equal. rewrite F by lia. lia.
Qed.
Lemma identity_line_spec n : line_of n (fun x => x) (identity_line n).
Proof. unfold identity_line. split; [apply seq_length|]. intros x Hx. rewrite (nth_error_nth' _ 0) by (rewrite seq_length; lia). now rewrite seq_nth by lia. Qed.
Lemma apply_to_run l cs n m s s' : line_of m s' l -> permutes m s' -> wf cs n -> denotes cs s -> exists l', apply_cycles_to_line l cs n = Some l' /\ line_of (Nat.max m n) (fun x => s' (s x)) l'.
Proof.
  intros Hl (_ & P' & _) W D. unfold apply_cycles_to_line. pose proof (expand_line_spec m n s' l Hl P') as (E1 & E2). pose proof W as (W1 & W2 & W3). pose proof (denotes_permutes _ _ _ W D) as (P1 & P2 & P3).
  destruct (apply_denotes cs s (expand_line l n) W1) as (l' & E & L & N); [intros x Hx; rewrite E1; specialize (W2 x Hx); lia|exact D|]. exists l'. split; [exact E|]. split; [lia|]. intros x Hx. rewrite N. apply E2.
  destruct (lt_dec x n) as [H|H]; [specialize (P1 x H); lia|rewrite P2; lia].
Qed.
Lemma cycles_to_line_run cs n s : wf cs n -> denotes cs s -> exists l, cycles_to_line cs n = Some l /\ line_of n s l.
Proof.
  intros W D. unfold cycles_to_line. destruct (apply_to_run (identity_line n) cs n n s (fun x => x) (identity_line_spec n)) as (l & E & H); [split; [|split]; auto|exact W|exact D|]. exists l. split; [exact E|]. now rewrite Nat.max_id in H.
Qed.
Lemma line_unique n s l l' : line_of n s l -> line_of n s l' -> l = l'.
Proof.
  intros (A1 & A2) (B1 & B2). apply list_ext. intros i. destruct (lt_dec i n) as [H|H]; [now rewrite A2, B2|]. rewrite !(proj2 (nth_error_None _ _)); [reflexivity|lia|lia].
Qed.
Lemma permutes_comp n m s s' : permutes n s -> permutes m s' -> permutes (Nat.max m n) (fun x => s' (s x)).
Proof.
  intros (A1 & A2 & A3) (B1 & B2 & B3). split; [|split].
  - intros x Hx. assert (s x < Nat.max m n). { destruct (lt_dec x n) as [H|H]; [specialize (A1 x H); lia|rewrite A2; lia]. } destruct (lt_dec (s x) m) as [H'|H']; [specialize (B1 _ H'); lia|rewrite B2; lia].
  - intros x Hx. rewrite A2 by lia. apply B2. lia.
  - intros x y E. now apply A3, B3.
Qed.
Lemma mul_run c1 n1 c2 n2 s1 s2 : wf c1 n1 -> wf c2 n2 -> denotes c1 s1 -> denotes c2 s2 -> exists cs,
  perm_mul (c1, n1) (c2, n2) = Some (cs, Nat.max n2 n1) /\ wf cs (Nat.max n2 n1) /\ denotes cs (fun x => s2 (s1 x)) /\ (forall c, In c cs -> 2 <= length c).
Proof.
  intros W1 W2 D1 D2. unfold perm_mul. cbn [fst snd]. destruct (cycles_to_line_run c2 n2 s2 W2 D2) as (l2 & E2 & L2). rewrite E2. cbn [obind].
  pose proof (denotes_permutes _ _ _ W1 D1) as P1. pose proof (denotes_permutes _ _ _ W2 D2) as P2.
  destruct (apply_to_run l2 c1 n1 n2 s1 s2 L2 P2 W1 D1) as (l & E & L). rewrite E. cbn [obind]. unfold perm_of_line.
  destruct (line_to_cycles_run _ _ l (permutes_comp _ _ _ _ P1 P2) L) as (cs & E' & R). rewrite E'. cbn [obind]. exists cs. destruct L as [L _]. rewrite L. split; [reflexivity|exact R].
Qed.
