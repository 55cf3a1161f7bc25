(** C147: satisfiability of clauses of two literals. *)
From Coq Require Import Permutation.
From Verif Require Import Lib GraphSpec WalkSpec TarjanSpec ClosModel ClosProofs TarjanModel TarjanProofs TarjanProps SatModel SatSpec SatProofs.
Open Scope nat_scope.

Lemma nth_resize sol n i b : nth_error (s_resize sol n) i = Some b -> nth_error sol i = Some b \/ (nth_error sol i = None /\ b = (-1)%Z).
Proof.
  unfold s_resize. destruct (Nat.lt_ge_cases i (length sol)) as [L|L]; [rewrite nth_error_app1 by exact L; now left|].
  rewrite nth_error_app2 by exact L. intros E. right. split; [now apply nth_error_None|]. apply nth_error_In in E. now apply repeat_spec in E.
Qed.
Lemma nth_resize1 sol n i b : nth_error sol i = Some b -> nth_error (s_resize sol n) i = Some b.
Proof. intros E. unfold s_resize. rewrite nth_error_app1; [exact E|]. apply nth_error_Some. congruence. Qed.

Theorem C147_sat2 sol cl : valid_sol sol -> valid_clauses cl -> exists b sol', sat2 sol cl = Some (b, sol') /\ valid_sol sol' /\
  (b = true <-> exists a, respects sol a /\ all_hold a cl) /\
  (b = true -> forall a, respects sol' a -> respects sol a /\ all_hold a cl) /\
  (b = true -> forall c l, In c cl -> l = fst c \/ l = snd c -> (0 <= l)%Z -> exists x, nth_error sol' (Z.to_nat (l / 2)) = Some x /\ x <> (-1)%Z).
Proof.
  intros Vs Vc. unfold sat2. set (n := Z.to_nat (s_vars cl)). set (sol1 := s_resize sol n).
  assert (V1 : valid_sol sol1). { intros x X. unfold sol1, s_resize in X. apply in_app_or in X as [X|X]; [now apply Vs|]. apply repeat_spec in X. lia. }
  assert (L1 : n <= length sol1) by (unfold sol1, s_resize; rewrite app_length, repeat_length; lia).
  assert (F : forall c, In c cl -> fits n c).
  { intros c C. destruct (Vc c C) as (A1 & A2). destruct (vars_bound cl c C) as (B1 & B2). split; [exact A1|]. split; [exact A2|].
    assert (G : forall u, (-1 <= u)%Z -> (Z.quot u 2 + 1 <= s_vars cl)%Z -> Z.to_nat u < n * 2); [|split; now apply G].
    intros u U1 U2. destruct (Z.eq_dec u (-1)) as [->|]; [|apply lit_lt; [lia|exact U2]]. change (Z.quot (-1) 2) with 0%Z in U2. unfold n. lia. }
  assert (R1 : forall a, respects sol a <-> respects sol1 a).
  { intros a. split; intros H i; destruct (H i) as (H0 & H1); split; intros E.
    - destruct (nth_resize _ _ _ _ E) as [E'|(_ & E')]; [auto|discriminate].
    - destruct (nth_resize _ _ _ _ E) as [E'|(_ & E')]; [auto|discriminate].
    - apply H0. now apply nth_resize1.
    - apply H1. now apply nth_resize1. }
  destruct (units_run sol1 n V1 L1) as (g0 & E0 & G0). rewrite E0. cbn [obind].
  destruct (clauses_run n cl g0 _ F G0) as [(B & Ec)|(NB & g & Ec & Hg)]; rewrite Ec; cbn [obind].
  { exists false, sol1. split; [reflexivity|]. split; [exact V1|]. split; [|split; discriminate]. split; [discriminate|]. intros (a & _ & H). destruct (H _ B) as [(X & _)|(X & _)]; cbn in X; lia. }
  destruct Hg as (Lg & Ag & Wg). destruct (C146_tarjan_scc g Wg) as (r & Et & Pr & Sc & To). rewrite Et. cbn [obind]. rewrite for_each_concat.
  assert (PR : Permutation (concat (rev r)) (concat r)).
  { clear. induction r as [|c r IH]; [constructor|]. cbn. rewrite concat_app. cbn. rewrite app_nil_r. rewrite IH. apply Permutation_app_comm. }
  assert (ND : NoDup (concat (rev r))) by (apply (Permutation_NoDup (l := seq 0 (length g))); [rewrite PR, Pr; reflexivity|apply seq_NoDup]).
  assert (IN : forall u, In u (concat (rev r)) <-> u < n * 2).
  { intros u. rewrite <- Lg. split; intros X; [|assert (Y : In u (seq 0 (length g))) by (apply in_seq; lia)].
    - apply (Permutation_in u PR) in X. apply (Permutation_in u Pr) in X. apply in_seq in X. lia.
    - apply (Permutation_in u (Permutation_sym Pr)) in Y. now apply (Permutation_in u (Permutation_sym PR)). }
  destruct (assign_run n sol1 (concat (rev r)) L1) as (sol' & Ea & La & Hp & Hn); [intros u X; now apply IN|]. rewrite Ea. cbn [obind].
  destruct (check_run n sol' ltac:(lia) cl F) as (b & Eb & Hb). rewrite Eb. cbn [obind]. exists b, sol'. split; [reflexivity|].
  assert (V' : valid_sol sol').
  { intros x X. apply In_nth_error in X as (i & Ei). destruct (nth_error sol1 i) as [y|] eqn:E1.
    - destruct (Z.eq_dec y (-1)) as [->|N]; [|rewrite (Hp i y E1 N) in Ei; injection Ei as <-; apply V1; eapply nth_error_In; eauto].
      destruct (Hn i E1) as [(Y & _)|(p1 & u & p2 & _ & _ & Y & _)]; rewrite Y in Ei; [injection Ei as <-; lia|]. assert (x = Z.of_nat (u mod 2)) as -> by congruence. pose proof (Nat.mod_upper_bound u 2 ltac:(lia)) as M. revert M. generalize (u mod 2). intros k M. lia.
    - apply nth_error_None in E1. assert (i < length sol') by (apply nth_error_Some; congruence). lia. }
  assert (R' : forall a, respects sol' a -> respects sol1 a).
  { intros a H i. destruct (H i) as (H0 & H1). split; intros E; [apply H0|apply H1]; apply (Hp _ _ E); lia. }
  assert (SAT : b = true -> forall a, respects sol' a -> all_hold a cl).
  { intros B a H c C. destruct (proj1 Hb B c C) as (N & X). destruct (Vc c C). apply clause_nrm; auto. destruct X as [X|X]; [left|right]; now apply (val_tr sol'). }
  assert (VV : forall x, x < n * 2 -> val sol' x \/ val sol' (neg x)).
  { intros x Lx. unfold val. rewrite neg_div. pose proof (half_lt x n Lx). destruct (nth_error_some sol' (x / 2)) as (y & Ey); [lia|]. rewrite Ey. pose proof (V' y (nth_error_In _ _ Ey)) as Hy. assert (Y : y <> (-1)%Z).
    { intros ->. destruct (nth_error_some sol1 (x / 2)) as (z & Ez); [lia|]. destruct (Z.eq_dec z (-1)) as [->|Nz]; [|rewrite (Hp _ _ Ez Nz) in Ey; congruence].
      destruct (Hn _ Ez) as [(_ & Q)|(p1 & u & p2 & _ & _ & Q & _)]; [apply (Q x); [now apply IN|reflexivity]|]. rewrite Q in Ey. injection Ey as Ey. lia. }
    destruct (neg_cases x) as (q & [(E1 & E2)|(E1 & E2)]); rewrite E2, E1, mod_0, mod_1; assert (y = 0 \/ y = 1)%Z as [-> | ->] by lia; auto. }
  split; [exact V'|]. split; [split|split].
  - intros B. exists (fun i => match nth_error sol' i with Some 1%Z => true | _ => false end). assert (X : respects sol' (fun i => match nth_error sol' i with Some 1%Z => true | _ => false end)) by (intros i; split; intros ->; reflexivity).
    split; [apply R1, R', X|now apply SAT].
  - intros (a & Ha & H). apply Hb. intros c C. assert (N : c <> (-1, -1)%Z) by (intros ->; contradiction). split; [exact N|]. apply R1 in Ha.
    (* edges preserve truth *)
    assert (AT : forall x y, arc g x y -> tr a x = true -> tr a y = true).
    { intros x y A T. apply Ag in A as [(i & v & I1 & I2 & I3 & I4 & I5)|(d & D1 & D2)].
      - apply (val_tr sol1); [exact Ha|]. unfold val. subst y. destruct I3 as [-> | ->]; cbn [Z.to_nat]; [rewrite Nat.add_0_r, div_0, mod_0; exact I2|]. change (Pos.to_nat 1) with 1. rewrite div_1, mod_1. exact I2.
      - destruct (Vc d D1). assert (Nd : d <> (-1, -1)%Z) by (intros ->; contradiction). destruct (proj1 (clause_nrm a d ltac:(assumption) ltac:(assumption) Nd) (H d D1)) as [X|X]; destruct D2 as [(-> & ->)|(-> & ->)]; auto; rewrite tr_neg, X in T; discriminate. }
    assert (RT : forall x y, reach g x y -> tr a x = true -> tr a y = true).
    { intros x y [->|X]; [auto|]. induction X as [x y A|x z y A _ IH]; intros T; [now apply (AT x)|]. apply IH. now apply (AT x). }
    assert (NS : forall x, ~ (reach g x (neg x) /\ reach g (neg x) x)).
    { intros x (X & Y). pose proof (RT _ _ X) as X'. pose proof (RT _ _ Y) as Y'. rewrite tr_neg in X', Y'. destruct (tr a x); cbn in *; [discriminate (X' eq_refl)|discriminate (Y' eq_refl)]. }
    assert (CX : forall x, x < n * 2 -> exists i k, nth_error r i = Some k /\ In x k).
    { intros x Lx. apply IN in Lx. apply (Permutation_in x PR) in Lx. apply in_concat in Lx as (k & K1 & K2). apply In_nth_error in K1 as (i & K1). eauto. }
    assert (NE : forall x i j k l, nth_error r i = Some k -> In x k -> nth_error r j = Some l -> In (neg x) l -> i <> j).
    { intros x i j k l Ei Hi Ej Hj ->. rewrite Ei in Ej. injection Ej as <-. destruct (Sc k (nth_error_In _ _ Ei)) as (_ & S2). now apply (NS x), (S2 x Hi). }
    assert (VO : forall x i j k l, x < n * 2 -> val sol' x -> nth_error r i = Some k -> In x k -> nth_error r j = Some l -> In (neg x) l -> j < i).
    { intros x i j k l Lx V Ei Hi Ej Hj. pose proof (NE x i j k l Ei Hi Ej Hj) as Nij. cut (j <= i); [lia|]. unfold val in V. destruct (nth_error_some sol1 (x / 2)) as (y & Ey); [pose proof (half_lt x n Lx); lia|].
      destruct (Z.eq_dec y (-1)) as [->|Ny].
      - destruct (Hn _ Ey) as [(Y & _)|(p1 & u & p2 & Y1 & Y2 & Y3 & Y4)]; [rewrite Y in V; injection V as V; lia|]. rewrite Y3 in V. injection V as V. apply Nat2Z.inj in V. assert (u = x) as -> by now apply same_lit.
        assert (I2 : In (neg x) p2). { assert (X : In (neg x) (concat (rev r))) by (apply IN; now apply neg_lt). rewrite Y1 in X. apply in_app_or in X as [X|[X|X]]; [|symmetry in X; now apply neg_ne in X|exact X]. destruct (Y4 _ X). apply neg_div. }
        assert (Li : i < length r) by (apply nth_error_Some; congruence). assert (Lj : j < length r) by (apply nth_error_Some; congruence).
        assert (RN : forall m, m < length r -> nth_error (rev r) (length r - S m) = nth_error r m).
        { intros m Lm. rewrite (nth_error_nth' r [] Lm), (nth_error_nth' (rev r) []) by (rewrite rev_length; lia). f_equal. rewrite rev_nth by lia. f_equal. lia. }
        pose proof (concat_before (rev r) p1 x p2 (neg x) (length r - S i) (length r - S j) k l ND Y1 I2) as Q. rewrite !RN in Q by assumption. specialize (Q Ei Hi Ej Hj). lia.
      - assert (A : arc g (neg x) x).
        { apply Ag. left. rewrite (Hp _ _ Ey Ny) in V. injection V as ->. exists (x / 2), (Z.of_nat (x mod 2)). split; [now apply half_lt|]. split; [exact Ey|]. pose proof (Nat.mod_upper_bound x 2 ltac:(lia)). split; [lia|]. rewrite Nat2Z.id. split; [apply Nat.div_mod; lia|reflexivity]. }
        exact (To j i l k (neg x) x Ej Ei Hj Hi A). }
    destruct (F c C) as (F1 & F2 & F3 & F4). destruct c as (u, v). cbn [fst snd] in *. pose proof (nrm_cases u v F1 F2 N) as Q. cbn zeta in Q.
    assert (AC : arc g (neg (fst (nrm (u, v)))) (snd (nrm (u, v))) /\ arc g (neg (snd (nrm (u, v)))) (fst (nrm (u, v)))) by (split; apply Ag; right; exists (u, v); auto).
    unfold nrm in *. cbn [fst snd] in *. set (u' := if (u =? -1)%Z then v else u) in *. set (v' := if (v =? -1)%Z then u' else v) in *. destruct Q as (Q1 & Q2 & Q3 & Q4 & _).
    assert (Lu : Z.to_nat u' < n * 2) by (destruct Q3 as [->| ->]; assumption). assert (Lv : Z.to_nat v' < n * 2) by (destruct Q4 as [->| ->]; assumption). clearbody u' v'. set (x := Z.to_nat u') in *. set (y := Z.to_nat v') in *.
    destruct (VV x Lu) as [X|X]; [now left|]. destruct (VV y Lv) as [Y|Y]; [now right|]. exfalso.
    destruct (CX x Lu) as (i1 & k1 & A1 & B1). destruct (CX (neg x) (neg_lt _ _ Lu)) as (i2 & k2 & A2 & B2). destruct (CX y Lv) as (i3 & k3 & A3 & B3). destruct (CX (neg y) (neg_lt _ _ Lv)) as (i4 & k4 & A4 & B4).
    pose proof (VO (neg x) i2 i1 k2 k1 (neg_lt _ _ Lu) X A2 B2 A1 ltac:(now rewrite neg_neg)) as O1. pose proof (VO (neg y) i4 i3 k4 k3 (neg_lt _ _ Lv) Y A4 B4 A3 ltac:(now rewrite neg_neg)) as O2.
    pose proof (To i2 i3 k2 k3 _ _ A2 A3 B2 B3 (proj1 AC)). pose proof (To i4 i1 k4 k1 _ _ A4 A1 B4 B1 (proj2 AC)). lia.
  - intros B a H. split; [apply R1, R', H|now apply SAT].
  - intros B c l C Hl L0. destruct (F c C) as (_ & _ & F3 & F4). assert (Ll : Z.to_nat l < n * 2) by (destruct Hl as [->| ->]; assumption). rewrite Z2Nat.inj_div by lia. change (Z.to_nat 2) with 2.
    destruct (VV _ Ll) as [X|X]; unfold val in X; [|rewrite neg_div in X]; eexists; (split; [exact X|lia]).
Qed.

(** the form without an initial assignment: an empty result also stands for the empty list of clauses *)
Theorem C147_vector cl : valid_clauses cl -> exists sol, sat2_vec cl = Some sol /\ valid_sol sol /\
  (cl <> [] -> (sol <> [] <-> exists a, all_hold a cl)) /\ (sol <> [] -> forall a, respects sol a -> all_hold a cl).
Proof.
  intros Vc. unfold sat2_vec. destruct (C147_sat2 [] cl) as (b & sol & E & Vs & H1 & H2 & H3); [intros x []|exact Vc|]. rewrite E. cbn [obind]. exists (if b then sol else []). split; [reflexivity|].
  assert (RE : forall a, respects [] a) by (intros a [|i]; split; discriminate). split; [destruct b; [exact Vs|intros x []]|]. split.
  - intros N. split; [intros X; destruct b; [|easy]; destruct (proj1 H1 eq_refl) as (a & _ & Ha); now exists a|]. intros (a & Ha). rewrite (proj2 H1) by (exists a; auto). intros ->.
    destruct cl as [|c cl]; [easy|]. assert (B : b = true) by (apply H1; exists a; auto). destruct (Ha c (or_introl eq_refl)) as [(X & _)|(X & _)].
    + destruct (H3 B c _ (or_introl eq_refl) (or_introl eq_refl) X) as (x & Ex & _). now destruct (Z.to_nat (fst c / 2)).
    + destruct (H3 B c _ (or_introl eq_refl) (or_intror eq_refl) X) as (x & Ex & _). now destruct (Z.to_nat (snd c / 2)).
  - intros X a Ha. destruct b; [|easy]. now apply H2.
Qed.

Example C147_case : sat2 [1%Z] [(0, 5); (4, 3); (2, -1)]%Z = Some (false, [1; 0; 0]%Z) /\ sat2 [(-1)%Z] [(0, 5); (4, 3); (2, -1)]%Z = Some (true, [0; 0; 0]%Z) /\ sat2_vec [(3, -1); (2, 1)]%Z = Some [1; 1]%Z /\ valid_clauses [(0, 5); (4, 3); (2, -1)]%Z.
Proof. split; [vm_compute; reflexivity|]. split; [vm_compute; reflexivity|]. split; [vm_compute; reflexivity|]. intros c C. cbn in C. intuition (subst; cbn; lia). Qed.
Print Assumptions C147_sat2.
Print Assumptions C147_vector.
