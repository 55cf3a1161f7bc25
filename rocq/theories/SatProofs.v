From Coq Require Import Permutation.
From Verif Require Import Lib GraphSpec WalkSpec TarjanSpec ClosModel ClosProofs DfsProofs TarjanModel TarjanProofs TarjanProps DfsProps SatModel SatSpec.
Open Scope nat_scope.

Definition neg (x : nat) : nat := if Nat.even x then S x else pred x.
Lemma neg_cases x : exists q, (x = 2 * q /\ neg x = 2 * q + 1) \/ (x = 2 * q + 1 /\ neg x = 2 * q).
Proof.
  unfold neg. destruct (Nat.Even_or_Odd x) as [(q & E)|(q & E)]; exists q; [left|right]; (split; [exact E|]).
  - rewrite (proj2 (Nat.even_spec x)) by now exists q. lia.
  - destruct (Nat.even x) eqn:V; [apply Nat.even_spec in V as (k & V); lia|lia].
Qed.
Lemma div_0 q : 2 * q / 2 = q. Proof. now rewrite Nat.mul_comm, Nat.div_mul. Qed.
Lemma div_1 q : (2 * q + 1) / 2 = q. Proof. rewrite Nat.add_comm, Nat.mul_comm, Nat.div_add by lia. reflexivity. Qed.
Lemma mod_0 q : (2 * q) mod 2 = 0. Proof. now rewrite Nat.mul_comm, Nat.mod_mul. Qed.
Lemma mod_1 q : (2 * q + 1) mod 2 = 1. Proof. rewrite Nat.add_comm, Nat.mul_comm, Nat.mod_add by lia. reflexivity. Qed.
Lemma neg_neg x : neg (neg x) = x.
Proof. destruct (neg_cases x) as (q & [(E1 & E2)|(E1 & E2)]); destruct (neg_cases (neg x)) as (p & [(E3 & E4)|(E3 & E4)]); lia. Qed.
Lemma neg_ne x : neg x <> x. Proof. destruct (neg_cases x) as (q & [(E1 & E2)|(E1 & E2)]); lia. Qed.
Lemma neg_div x : neg x / 2 = x / 2.
Proof. destruct (neg_cases x) as (q & [(-> & ->)|(-> & ->)]); now rewrite div_0, div_1. Qed.
Lemma neg_lt x n : x < n * 2 -> neg x < n * 2. Proof. destruct (neg_cases x) as (q & [(E1 & E2)|(E1 & E2)]); lia. Qed.
Lemma half_lt x n : x < n * 2 -> x / 2 < n. Proof. intros. apply Nat.div_lt_upper_bound; lia. Qed.
Lemma same_lit x y : x / 2 = y / 2 -> x mod 2 = y mod 2 -> x = y.
Proof. intros A B. rewrite (Nat.div_mod x 2), (Nat.div_mod y 2) by lia. congruence. Qed.
Lemma same_var x y : x / 2 = y / 2 -> x = y \/ x = neg y.
Proof. intros A. destruct (neg_cases y) as (q & [(-> & ->)|(-> & ->)]); rewrite ?div_0, ?div_1 in A; pose proof (Nat.div_mod x 2 ltac:(lia)); pose proof (Nat.mod_upper_bound x 2 ltac:(lia)); lia. Qed.
(** the literal x is true *)
Definition tr (a : nat -> bool) (x : nat) : bool := Bool.eqb (a (x / 2)) (x mod 2 =? 1).
Lemma tr_neg a x : tr a (neg x) = negb (tr a x).
Proof. unfold tr. rewrite neg_div. destruct (neg_cases x) as (q & [(-> & ->)|(-> & ->)]); rewrite ?mod_0, ?mod_1; cbn; now destruct (a _). Qed.

Lemma lxor_neg u : (0 <= u)%Z -> (0 <= Z.lxor u 1)%Z /\ Z.to_nat (Z.lxor u 1) = neg (Z.to_nat u).
Proof.
  intros H. assert (E : Z.lxor u 1 = Z.of_nat (neg (Z.to_nat u))); [|rewrite E; split; [lia|apply Nat2Z.id]].
  destruct (neg_cases (Z.to_nat u)) as (q & [(E1 & ->)|(E1 & ->)]).
  - replace u with (2 * Z.of_nat q)%Z by lia. rewrite Nat2Z.inj_add, Nat2Z.inj_mul. destruct (Z.of_nat q) as [|p|p] eqn:Eq; [reflexivity|reflexivity|lia].
  - replace u with (2 * Z.of_nat q + 1)%Z by lia. rewrite Nat2Z.inj_mul. destruct (Z.of_nat q) as [|p|p] eqn:Eq; [reflexivity|reflexivity|lia].
Qed.
Lemma lit_tr a l : (0 <= l)%Z -> (lit_holds a l <-> tr a (Z.to_nat l) = true).
Proof.
  intros H. unfold lit_holds, tr. rewrite Z2Nat.inj_div by lia. change (Z.to_nat 2) with 2. rewrite Bool.eqb_true_iff.
  assert (E : Z.odd l = (Z.to_nat l mod 2 =? 1)).
  { rewrite <- (Z2Nat.id l) at 1 by exact H. set (x := Z.to_nat l). destruct (neg_cases x) as (q & [(-> & _)|(-> & _)]); rewrite ?mod_0, ?mod_1; cbn [Nat.eqb].
    - rewrite Nat2Z.inj_mul. now rewrite Z.odd_mul.
    - rewrite Nat2Z.inj_add, Nat2Z.inj_mul, Z.add_comm. change (Z.of_nat 2) with 2%Z. now rewrite Z.odd_add_mul_2. }
  rewrite E. tauto.
Qed.

Lemma vars_mono cl : forall n, (n <= fold_left (fun n (t : Z * Z) => Z.max (Z.max n (Z.quot (fst t) 2 + 1)) (Z.quot (snd t) 2 + 1)) cl n)%Z.
Proof. induction cl as [|c cl IH]; intros n; cbn [fold_left]; [lia|]. eapply Z.le_trans; [|apply IH]. lia. Qed.
Lemma vars_bound cl c : In c cl -> (Z.quot (fst c) 2 + 1 <= s_vars cl)%Z /\ (Z.quot (snd c) 2 + 1 <= s_vars cl)%Z.
Proof.
  unfold s_vars. generalize 0%Z. induction cl as [|d cl IH]; [intros n []|]. intros n [->|H]; cbn [fold_left].
  - pose proof (vars_mono cl (Z.max (Z.max n (Z.quot (fst c) 2 + 1)) (Z.quot (snd c) 2 + 1))). lia.
  - now apply IH.
Qed.
Lemma lit_lt u m : (0 <= u)%Z -> (Z.quot u 2 + 1 <= m)%Z -> Z.to_nat u < Z.to_nat m * 2.
Proof. intros H L. rewrite Z.quot_div_nonneg in L by lia. pose proof (Z.div_mod u 2 ltac:(lia)). pose proof (Z.mod_pos_bound u 2 ltac:(lia)). lia. Qed.

(** graphs by their arcs *)
Definition isg (m : nat) (g : sgraph) (E : nat -> nat -> Prop) : Prop := length g = m /\ (forall x y, arc g x y <-> E x y) /\ wf g.
Lemma edge_run m g E u v : isg m g E -> (0 <= u)%Z -> (0 <= v)%Z -> Z.to_nat u < m -> Z.to_nat v < m ->
  exists g', s_edge g u v = Some g' /\ isg m g' (fun x y => E x y \/ (x = Z.to_nat u /\ y = Z.to_nat v)).
Proof.
  intros (L & A & Wf) Hu Hv Lu Lv. unfold s_edge, z_ix. rewrite (proj2 (Z.leb_le 0 u) Hu), (proj2 (Z.leb_le 0 v) Hv). cbn [obind]. set (p := Z.to_nat u) in *. set (q := Z.to_nat v) in *.
  destruct (nth_error_some g p) as (l & El); [lia|]. rewrite El. cbn [obind]. destruct (set_nth_some g p (l ++ [(q, tt)])) as (g' & E'); [lia|]. exists g'. split; [exact E'|].
  assert (L' : length g' = m) by (rewrite (set_nth_length _ _ _ _ E'); exact L).
  assert (O : forall x, out g' x = if p =? x then l ++ [(q, tt)] else out g x).
  { intros x. unfold out. destruct (Nat.lt_ge_cases x m) as [Lx|Lx].
    - destruct (nth_error_some g' x) as (l' & El'); [lia|]. rewrite (nth_error_nth _ _ _ El'). rewrite (set_nth_get _ _ _ _ x E') in El'. destruct (p =? x); [congruence|]. symmetry. now apply nth_error_nth.
    - rewrite !nth_overflow by lia. destruct (Nat.eqb_spec p x); [lia|reflexivity]. }
  split; [exact L'|]. split.
  - intros x y. unfold arc. rewrite O, <- A. unfold arc. destruct (Nat.eqb_spec p x) as [<-|N].
    + rewrite (out_nth g p l El). split.
      * intros (w & X). apply in_app_or in X as [X|[X|[]]]; [left; now exists w|right; split; congruence].
      * intros [(w & X)|(_ & ->)]; [exists w; apply in_or_app; now left|exists tt; apply in_or_app; right; now left].
    + split; [intros X; now left|]. intros [X|(X & _)]; [exact X|congruence].
  - intros x e X. rewrite L'. rewrite O in X. destruct (p =? x); [|rewrite <- L; now apply (Wf x)]. apply in_app_or in X as [X|[<-|[]]]; [|exact Lv]. rewrite <- L. apply (Wf p). now rewrite (out_nth g p l El).
Qed.
Lemma isg_ext m g E E' : (forall x y, E x y <-> E' x y) -> isg m g E -> isg m g E'.
Proof. intros H (L & A & Wf). split; [exact L|]. split; [|exact Wf]. intros x y. rewrite A. apply H. Qed.

(** the edges of the assigned variables *)
Definition UE (sol : list Z) (k : nat) (x y : nat) : Prop := exists i b, i < k /\ nth_error sol i = Some b /\ (b = 0 \/ b = 1)%Z /\ y = 2 * i + Z.to_nat b /\ x = neg y.
Lemma units_run sol n : valid_sol sol -> n <= length sol -> exists g, s_units sol n (repeat [] (n * 2)) = Some g /\ isg (n * 2) g (UE sol n).
Proof.
  intros Vs Ln. unfold s_units. apply for_range_spec with (Inv := fun k g => isg (n * 2) g (UE sol k)).
  - lia.
  - split; [apply repeat_length|]. assert (O : forall x, out (repeat (@nil (nat * unit)) (n * 2)) x = []).
    { intros x. unfold out. generalize (n * 2). intros m. revert m. induction x as [|x IH]; intros [|m]; cbn; try reflexivity. apply IH. }
    split; [|intros x e X; rewrite O in X; easy]. intros x y. split; [intros (w & X); rewrite O in X; easy|]. intros (i & b & H & _). lia.
  - intros i g Hi H. destruct (nth_error_some sol i) as (b & Eb); [lia|]. rewrite Eb. cbn [obind]. pose proof (Vs b (nth_error_In _ _ Eb)) as Hb. destruct (Z.eqb_spec b (-1)) as [->|Nb]; cbn [negb].
    + exists g. split; [reflexivity|]. revert H. apply isg_ext. intros x y. split; intros (k & c & K1 & K2 & K3); exists k, c; (split; [|auto]); [lia|]. assert (k < i \/ k = i) as [X| ->] by lia; [exact X|]. rewrite Eb in K2. injection K2 as <-. lia.
    + set (u := (Z.of_nat i * 2 + b)%Z). assert (Hu : (0 <= u)%Z) by (unfold u; lia). destruct (lxor_neg u Hu) as (X0 & X1). assert (Eu : Z.to_nat u = 2 * i + Z.to_nat b) by (unfold u; lia).
      assert (Lu : Z.to_nat u < n * 2) by (rewrite Eu; lia). destruct (edge_run _ _ _ (Z.lxor u 1) u H X0 Hu) as (g' & E' & H'); [rewrite X1; now apply neg_lt|exact Lu|]. exists g'. split; [exact E'|].
      revert H'. apply isg_ext. intros x y. rewrite X1, Eu. split.
      * intros [(k & c & K1 & K2)|(-> & ->)]; [exists k, c; split; [lia|exact K2]|]. exists i, b. split; [lia|]. split; [exact Eb|]. split; [lia|auto].
      * intros (k & c & K1 & K2 & K3 & K4 & K5). assert (k < i \/ k = i) as [X| ->] by lia; [left; exists k, c; auto|]. right. rewrite Eb in K2. injection K2 as <-. subst. auto.
Qed.

(** the literals of a clause as nodes *)
Definition nrm (c : Z * Z) : nat * nat :=
  let u := if (fst c =? -1)%Z then snd c else fst c in let v := if (snd c =? -1)%Z then u else snd c in (Z.to_nat u, Z.to_nat v).
Definition CE (cl : list (Z * Z)) (x y : nat) : Prop := exists c, In c cl /\ ((x = neg (fst (nrm c)) /\ y = snd (nrm c)) \/ (x = neg (snd (nrm c)) /\ y = fst (nrm c))).
Definition fits (n : nat) (c : Z * Z) : Prop := (-1 <= fst c)%Z /\ (-1 <= snd c)%Z /\ Z.to_nat (fst c) < n * 2 /\ Z.to_nat (snd c) < n * 2.
Lemma nrm_cases (u v : Z) : (-1 <= u)%Z -> (-1 <= v)%Z -> (u, v) <> (-1, -1)%Z ->
  let u' := if (u =? -1)%Z then v else u in let v' := if (v =? -1)%Z then u' else v in (0 <= u')%Z /\ (0 <= v')%Z /\ (u' = u \/ u' = v) /\ (v' = u \/ v' = v) /\ (u' = u \/ u = -1)%Z /\ (v' = v \/ v = -1)%Z.
Proof. cbn. intros Hu Hv N. destruct (Z.eqb_spec u (-1)) as [->|Nu]; destruct (Z.eqb_spec v (-1)) as [->|Nv]; [congruence| | |]; lia. Qed.
Lemma both_neg u v : ((u =? -1) && (v =? -1))%Z = true <-> (u, v) = (-1, -1)%Z.
Proof. rewrite andb_true_iff, !Z.eqb_eq. split; [intros (-> & ->); reflexivity|]. intros X. injection X as -> ->. auto. Qed.
Lemma clauses_run n : forall cl g E, (forall c, In c cl -> fits n c) -> isg (n * 2) g E ->
  (In (-1, -1)%Z cl /\ s_clauses cl g = Some None) \/
  (~ In (-1, -1)%Z cl /\ exists g', s_clauses cl g = Some (Some g') /\ isg (n * 2) g' (fun x y => E x y \/ CE cl x y)).
Proof.
  induction cl as [|(u, v) cl IH]; intros g E F H; cbn [s_clauses].
  - right. split; [easy|]. exists g. split; [reflexivity|]. revert H. apply isg_ext. intros x y. split; [now left|]. intros [X|(c & [] & _)]. exact X.
  - destruct (F _ (or_introl eq_refl)) as (F1 & F2 & F3 & F4). cbn [fst snd] in *. destruct ((u =? -1) && (v =? -1))%Z eqn:B; [left; apply both_neg in B; split; [left; exact B|reflexivity]|].
    assert (N : (u, v) <> (-1, -1)%Z) by (rewrite <- both_neg; congruence). pose proof (nrm_cases u v F1 F2 N) as Q. cbn zeta in Q.
    set (u' := if (u =? -1)%Z then v else u) in *. set (v' := if (v =? -1)%Z then u' else v) in *. destruct Q as (Q1 & Q2 & Q3 & Q4 & _).
    assert (Lu : Z.to_nat u' < n * 2) by (destruct Q3 as [->| ->]; assumption). assert (Lv : Z.to_nat v' < n * 2) by (destruct Q4 as [->| ->]; assumption).
    destruct (lxor_neg u' Q1) as (X0 & X1). destruct (lxor_neg v' Q2) as (Y0 & Y1).
    destruct (edge_run _ _ _ (Z.lxor u' 1) v' H X0 Q2) as (g1 & E1 & H1); [rewrite X1; now apply neg_lt|exact Lv|]. rewrite E1. cbn [obind].
    destruct (edge_run _ _ _ (Z.lxor v' 1) u' H1 Y0 Q1) as (g2 & E2 & H2); [rewrite Y1; now apply neg_lt|exact Lu|]. rewrite E2. cbn [obind].
    destruct (IH g2 _ (fun c Hc => F c (or_intror Hc)) H2) as [(I1 & I2)|(I1 & g' & I2 & I3)]; [left; split; [now right|exact I2]|].
    right. split; [intros [X|X]; contradiction|]. exists g'. split; [exact I2|]. revert I3. apply isg_ext. intros x y. rewrite X1, Y1.
    assert (EN : nrm (u, v) = (Z.to_nat u', Z.to_nat v')) by reflexivity. split.
    + intros [[[X|X]|X]|(c & C1 & C2)]; [now left| | |right; exists c; split; [now right|exact C2]]; right; exists (u, v); (split; [now left|]); rewrite EN; cbn [fst snd]; tauto.
    + intros [X|(c & [<-|C1] & C2)]; [left; now left; left| |right; now exists c]. rewrite EN in C2. cbn [fst snd] in C2. tauto.
Qed.

Lemma for_each_app {A St} (f : A -> St -> option St) : forall l m s, for_each f (l ++ m) s = let* s := for_each f l s in for_each f m s.
Proof. induction l as [|a l IH]; intros m s; cbn [app for_each]; [reflexivity|]. destruct (f a s) as [t|]; cbn [obind]; [apply IH|reflexivity]. Qed.
Lemma for_each_concat {A St} (f : A -> St -> option St) : forall q s, for_each (fun c s => for_each f c s) q s = for_each f (concat q) s.
Proof. induction q as [|c q IH]; intros s; cbn [for_each concat]; [reflexivity|]. rewrite for_each_app. destruct (for_each f c s); cbn [obind]; [apply IH|reflexivity]. Qed.

Definition val (sol : list Z) (x : nat) : Prop := nth_error sol (x / 2) = Some (Z.of_nat (x mod 2)).
Lemma assign_run n sol P : n <= length sol -> (forall u, In u P -> u < n * 2) -> exists sol', for_each s_assign P sol = Some sol' /\ length sol' = length sol /\
  (forall i b, nth_error sol i = Some b -> b <> (-1)%Z -> nth_error sol' i = Some b) /\
  (forall i, nth_error sol i = Some (-1)%Z -> (nth_error sol' i = Some (-1)%Z /\ forall u, In u P -> u / 2 <> i) \/
     exists p1 u p2, P = p1 ++ u :: p2 /\ u / 2 = i /\ nth_error sol' i = Some (Z.of_nat (u mod 2)) /\ forall w, In w p1 -> w / 2 <> i).
Proof.
  intros L F. apply for_each_spec with (Inv := fun p sol' => length sol' = length sol /\ (forall i b, nth_error sol i = Some b -> b <> (-1)%Z -> nth_error sol' i = Some b) /\
    (forall i, nth_error sol i = Some (-1)%Z -> (nth_error sol' i = Some (-1)%Z /\ forall u, In u p -> u / 2 <> i) \/
     exists p1 u p2, p = p1 ++ u :: p2 /\ u / 2 = i /\ nth_error sol' i = Some (Z.of_nat (u mod 2)) /\ forall w, In w p1 -> w / 2 <> i)).
  - split; [reflexivity|]. split; [auto|]. intros i E. left. split; [exact E|easy].
  - intros p u post t EP (L1 & H1 & H2). assert (Lu : u < n * 2) by (apply F; rewrite EP; apply in_or_app; right; now left). pose proof (half_lt u n Lu) as Lh.
    unfold s_assign. destruct (nth_error_some t (u / 2)) as (x & Ex); [lia|]. rewrite Ex. cbn [obind]. destruct (Z.eqb_spec x (-1)) as [->|Nx].
    + destruct (set_nth_some t (u / 2) (Z.of_nat (u mod 2))) as (t' & Et); [lia|]. exists t'. split; [exact Et|]. split; [rewrite (set_nth_length _ _ _ _ Et); exact L1|]. split.
      * intros i b E N. rewrite (set_nth_get _ _ _ _ i Et). pose proof (H1 i b E N) as Y. destruct (Nat.eqb_spec (u / 2) i) as [<-|Ni]; [congruence|exact Y].
      * intros i E. rewrite (set_nth_get _ _ _ _ i Et). destruct (Nat.eqb_spec (u / 2) i) as [<-|Ni].
        -- right. destruct (H2 _ E) as [(Y1 & Y2)|(p1 & w & p2 & Y1 & Y2 & Y3 & Y4)]; [|rewrite Y3 in Ex; injection Ex as Ex; lia]. exists p, u, []. auto.
        -- destruct (H2 _ E) as [(Y1 & Y2)|(p1 & w & p2 & Y1 & Y2 & Y3 & Y4)].
           ++ left. split; [exact Y1|]. intros w X. apply in_app_or in X as [X|[<-|[]]]; [now apply Y2|exact Ni].
           ++ right. exists p1, w, (p2 ++ [u]). rewrite Y1, <- app_assoc. auto.
    + exists t. split; [reflexivity|]. split; [exact L1|]. split; [exact H1|]. intros i E. destruct (H2 _ E) as [(Y1 & Y2)|(p1 & w & p2 & Y1 & Y2 & Y3 & Y4)].
      * left. split; [exact Y1|]. intros w X. apply in_app_or in X as [X|[<-|[]]]; [now apply Y2|]. intros <-. congruence.
      * right. exists p1, w, (p2 ++ [u]). rewrite Y1, <- app_assoc. auto.
Qed.

Lemma false_run n sol u : n <= length sol -> (0 <= u)%Z -> Z.to_nat u < n * 2 -> exists b, s_false sol u = Some b /\ (b = false <-> val sol (Z.to_nat u)).
Proof.
  intros L Hu Lu. unfold s_false, z_ix. rewrite Z.quot_div_nonneg, Z.rem_mod_nonneg by lia. rewrite (proj2 (Z.leb_le 0 (u / 2))) by (apply Z.div_pos; lia). cbn [obind].
  rewrite Z2Nat.inj_div by lia. change (Z.to_nat 2) with 2. pose proof (half_lt _ _ Lu) as Lh. destruct (nth_error_some sol (Z.to_nat u / 2)) as (x & Ex); [lia|]. rewrite Ex. cbn [obind]. eexists. split; [reflexivity|].
  unfold val. rewrite Ex, negb_false_iff, Z.eqb_eq. assert (E : (u mod 2)%Z = Z.of_nat (Z.to_nat u mod 2)) by (rewrite Nat2Z.inj_mod, Z2Nat.id by lia; reflexivity). rewrite E. split; [now intros ->|]. intros X. now injection X.
Qed.
Lemma check_run n sol : n <= length sol -> forall cl, (forall c, In c cl -> fits n c) -> exists b, s_check cl sol = Some b /\
  (b = true <-> forall c, In c cl -> c <> (-1, -1)%Z /\ (val sol (fst (nrm c)) \/ val sol (snd (nrm c)))).
Proof.
  intros L. induction cl as [|(u, v) cl IH]; intros F; cbn [s_check]; [exists true; split; [reflexivity|]; split; [intros _ c []|auto]|].
  destruct (F _ (or_introl eq_refl)) as (F1 & F2 & F3 & F4). cbn [fst snd] in *. destruct ((u =? -1) && (v =? -1))%Z eqn:B.
  { exists false. split; [reflexivity|]. split; [discriminate|]. intros X. apply both_neg in B. destruct (X _ (or_introl eq_refl)) as (X1 & _). contradiction. }
  assert (N : (u, v) <> (-1, -1)%Z) by (rewrite <- both_neg; congruence). pose proof (nrm_cases u v F1 F2 N) as Q. cbn zeta in Q.
  assert (EN : nrm (u, v) = (Z.to_nat (if (u =? -1)%Z then v else u), Z.to_nat (if (v =? -1)%Z then if (u =? -1)%Z then v else u else v))) by reflexivity.
  set (u' := if (u =? -1)%Z then v else u) in *. set (v' := if (v =? -1)%Z then u' else v) in *. destruct Q as (Q1 & Q2 & Q3 & Q4 & _).
  assert (Lu : Z.to_nat u' < n * 2) by (destruct Q3 as [->| ->]; assumption). assert (Lv : Z.to_nat v' < n * 2) by (destruct Q4 as [->| ->]; assumption).
  destruct (false_run n sol u' L Q1 Lu) as (a & Ea & Ha). destruct (false_run n sol v' L Q2 Lv) as (b & Eb & Hb). rewrite Ea. cbn [obind].
  destruct (IH (fun c Hc => F c (or_intror Hc))) as (r & Er & Hr).
  assert (G : (if a then s_false sol v' else Some false) = Some (if a then b else false)) by (destruct a; [exact Eb|reflexivity]). rewrite G. cbn [obind].
  destruct (if a then b else false) eqn:D.
  - exists false. split; [reflexivity|]. split; [discriminate|]. intros X. destruct (X _ (or_introl eq_refl)) as (_ & X1). rewrite EN in X1. cbn [fst snd] in X1. rewrite <- Ha, <- Hb in X1. destruct a, b; destruct X1; discriminate.
  - exists r. split; [exact Er|]. rewrite Hr. split.
    + intros X c [<-|C]; [|now apply X]. split; [exact N|]. rewrite EN. cbn [fst snd]. rewrite <- Ha, <- Hb. destruct a; [right; exact D|now left].
    + intros X c C. apply X. now right.
Qed.
Lemma clause_nrm a c : (-1 <= fst c)%Z -> (-1 <= snd c)%Z -> c <> (-1, -1)%Z -> (clause_holds a c <-> tr a (fst (nrm c)) = true \/ tr a (snd (nrm c)) = true).
Proof.
  destruct c as (u, v). cbn [fst snd]. intros F1 F2 N. pose proof (nrm_cases u v F1 F2 N) as Q. cbn zeta in Q. unfold nrm, clause_holds. cbn [fst snd].
  set (u' := if (u =? -1)%Z then v else u) in *. set (v' := if (v =? -1)%Z then u' else v) in *. destruct Q as (Q1 & Q2 & Q3 & Q4 & Q5 & Q6). rewrite <- !lit_tr by assumption.
  assert (NL : ~ lit_holds a (-1)%Z) by (intros (X & _); lia). split.
  - intros [X|X]; [left|right]; [destruct Q5 as [->| ->]|destruct Q6 as [->| ->]]; auto; contradiction.
  - destruct Q3 as [->| ->], Q4 as [->| ->]; tauto.
Qed.
Lemma val_tr sol a x : respects sol a -> val sol x -> tr a x = true.
Proof.
  intros R V. unfold val in V. destruct (R (x / 2)) as (R0 & R1). unfold tr. pose proof (Nat.mod_upper_bound x 2 ltac:(lia)) as M. assert (x mod 2 = 0 \/ x mod 2 = 1) as [E|E] by lia; rewrite E in V |- *; [rewrite (R0 V)|rewrite (R1 V)]; reflexivity.
Qed.

(** places in a concatenation *)
Lemma concat_before : forall (q : list (list nat)) p1 w p2 w' i j c d, NoDup (concat q) -> concat q = p1 ++ w :: p2 -> In w' p2 -> nth_error q i = Some c -> In w c -> nth_error q j = Some d -> In w' d -> i <= j.
Proof.
  induction q as [|e q IH]; intros p1 w p2 w' i j c d ND E H2 Ei Hc Ej Hd; [destruct i; discriminate|]. destruct j as [|j]; [|destruct i as [|i]; [lia|]].
  - cbn in Ej. injection Ej as ->. destruct i as [|i]; [lia|]. exfalso. cbn in Ei. cbn [concat] in E, ND. assert (W1 : In w (concat q)) by (apply in_concat; exists c; split; [eapply nth_error_In; eauto|exact Hc]).
    pose proof (nodup_apart _ _ w' ND Hd) as NW. destruct (in_split w' d Hd) as (d1 & d2 & ->). rewrite <- app_assoc in E. cbn in E.
    (* w is after w' and before it *)
    assert (ND' : NoDup ((p1 ++ [w]) ++ p2)) by (rewrite <- app_assoc; cbn; rewrite <- E, <- app_assoc in *; cbn in ND; exact ND).
    destruct (in_split w' p2 H2) as (a & b & ->). assert (U : d1 = p1 ++ w :: a).
    { apply (split_unique w' d1 (d2 ++ concat q) _ b); [rewrite <- app_assoc in ND; exact ND|]. rewrite E, <- app_assoc. reflexivity. }
    rewrite <- app_assoc in ND. subst d1. apply (nodup_apart _ _ w ND); [apply in_or_app; right; now left|right; apply in_or_app; now right].
  - cbn in Ei, Ej. cbn [concat] in E, ND. apply le_n_S.
    assert (X : forall l r, l ++ concat q = r -> r = p1 ++ w :: p2 -> ~ In w l -> exists p1', concat q = p1' ++ w :: p2).
    { clear. induction p1 as [|t p1 IH]; intros l r E1 E2 N.
      - subst r. destruct l as [|y l]; [exists []; exact E2|]. cbn in E2. injection E2 as -> _. destruct N. now left.
      - subst r. destruct l as [|y l]; [exists (t :: p1); exact E2|]. cbn in E2. injection E2 as -> E2. apply (IH l (l ++ concat q) eq_refl E2). intros X. apply N. now right. }
    assert (W1 : In w (concat q)) by (apply in_concat; exists c; split; [eapply nth_error_In; eauto|exact Hc]).
    destruct (X e _ eq_refl E) as (p1' & E'); [intros Y; now apply (nodup_apart _ _ w ND Y)|]. apply (IH p1' w p2 w' i j c d); auto. clear - ND. induction e as [|y e IHe]; [exact ND|]. apply IHe. now inversion ND.
Qed.
