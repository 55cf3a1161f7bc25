(** Baby-step giant-step and Pohlig-Hellman. *)
From Coq Require Import Znumtheory.
From Verif Require Import Lib BaseModel BaseProofs PrimesSpec PrimesProofs NumTheory2 ModuloModel ModuloProofs OrderSpec OrderModel OrderProofs.
Open Scope Z_scope.

Section Group.
Context {G : Type} (mul : G -> G -> G) (one : G) (eqb : G -> G -> bool) (ok : G -> Prop).
Variable root : Z -> Z.
Hypothesis M : monoid_on ok mul one.
Hypothesis E : forall x y, ok x -> ok y -> eqb x y = true <-> x = y.
Hypothesis RT : forall n, 0 <= n -> 0 <= root n /\ root n * root n <= n < (root n + 1) * (root n + 1).
Notation gp := (gpow mul one).
Notation is_order := (is_order mul one).
Local Notation gp_ok := (gp_ok mul one ok M).
Local Notation gp_add := (gp_add mul one ok M).
Local Notation gp_mul := (gp_mul mul one ok M).
Local Notation gp_one := (gp_one mul one ok M).
Local Notation gp_1 := (gp_1 mul one ok M).
Local Notation okm := (okm mul one ok M).
Local Notation ok1 := (ok1 mul one ok M).
Local Notation mA := (mA mul one ok M).
Local Notation m1l := (m1l mul one ok M).
Local Notation m1r := (m1r mul one ok M).
Local Notation eq1 := (eq1 mul one eqb ok M E).
Local Notation powT_gp := (powT_gp mul one ok M).
Local Notation gp_cong := (gp_cong mul one ok M).
Local Notation order_divide := (order_divide mul one ok M).

Lemma lookup_cons (c : G) (j : Z) mp x : lookup eqb x ((c, j) :: mp) = if eqb c x then Some j else lookup eqb x mp.
Proof. unfold lookup. cbn [find fst]. now destruct (eqb c x). Qed.
(** the table of baby steps: the least exponent below j of every power *)
Definition small_table (a : G) (j : Z) (mp : list (G * Z)) : Prop :=
  forall x, ok x -> (forall i, lookup eqb x mp = Some i -> 0 <= i < j /\ gp a (Z.to_nat i) = x /\ forall i', 0 <= i' < i -> gp a (Z.to_nat i') <> x) /\ (lookup eqb x mp = None -> forall i, 0 <= i < j -> gp a (Z.to_nat i) <> x).
Lemma fold_back a i j : ok a -> 0 <= i < j -> gp a (Z.to_nat i) = gp a (Z.to_nat j) -> forall k, 0 <= k -> exists k', 0 <= k' < j /\ gp a (Z.to_nat k') = gp a (Z.to_nat k).
Proof.
  intros A I EQ k. induction k as [k IH] using (well_founded_induction (Z.lt_wf 0)). intros K. destruct (Z.lt_ge_cases k j) as [L|L]; [exists k; split; [lia|reflexivity]|]. destruct (IH (k - (j - i)) ltac:(lia) ltac:(lia)) as (k' & B & EK). exists k'. split; [exact B|]. rewrite EK.
  replace (Z.to_nat (k - (j - i))) with (Z.to_nat i + Z.to_nat (k - j))%nat by lia. replace (Z.to_nat k) with (Z.to_nat j + Z.to_nat (k - j))%nat by lia. rewrite !gp_add by exact A. now rewrite EQ.
Qed.
Lemma baby_run a q : ok a -> 0 <= q -> exists mp, loopZ (Z.abs q + 1) (baby_step mul eqb a q) (0, one, []) = Some mp /\ small_table a q mp.
Proof.
  intros A Q. destruct (loopZ_spec (baby_step mul eqb a q) (fun '(j, cur, mp) => 0 <= j <= q /\ cur = gp a (Z.to_nat j) /\ small_table a j mp) (small_table a q) (fun '(j, _, _) => q - j)) with (fuel := Z.abs q + 1) (s := (0, one, @nil (G * Z))) as (mp & EQ & H).
  - intros [[j cur] mp] (J & C & T). cbn [baby_step]. assert (OC : ok cur) by (subst cur; now apply gp_ok). destruct (Z.ltb_spec j q) as [L|L].
    + destruct (lookup eqb cur mp) as [i|] eqn:LK.
      * eexists. split; [reflexivity|]. cbv beta iota. intros x X. destruct (T x X) as (T1 & T2). split.
        -- intros i' LI. destruct (T1 i' LI) as (B & EB & MB). split; [lia|]. split; assumption.
        -- intros LN k K X2. destruct (proj1 (T cur OC) i LK) as (B & EB & _). subst cur. destruct (fold_back a i j A B EB k ltac:(lia)) as (k' & B' & EK). apply (T2 LN k'); [lia|congruence].
      * eexists. split; [reflexivity|]. cbv beta iota. split; [|lia]. split; [lia|]. split; [rewrite C; replace (Z.to_nat (j + 1)) with (Z.to_nat j + 1)%nat by lia; rewrite gp_add by exact A; now rewrite gp_1|].
        intros x X. destruct (T x X) as (T1 & T2). rewrite lookup_cons. destruct (eqb cur x) eqn:B.
        -- apply E in B; [|exact OC|exact X]. subst x. split; [|discriminate]. intros i' EI. injection EI as <-. split; [lia|]. split; [congruence|]. intros i' I'. exact (T2 LK i' I').
        -- split; [intros i' LI; destruct (T1 i' LI) as (B1 & EB & MB); split; [lia|]; split; assumption|]. intros LN i I. destruct (Z.eq_dec i j) as [-> |NE]; [|apply (T2 LN); lia]. intros X2. assert (eqb cur x = true); [|congruence]. apply E; [exact OC|exact X|congruence].
    + eexists. split; [reflexivity|]. cbv beta iota. now replace q with j by lia.
  - intros [[j cur] mp] (J & _). lia.
  - split; [lia|]. split; [reflexivity|]. intros x X. split; [discriminate|]. intros; lia.
  - lia.
  - now exists mp.
Qed.
Lemma giant_run mp alpha q b : 0 <= q -> ok alpha -> ok b -> exists r, loopZ (Z.abs q + 1) (giant_step mul eqb mp alpha q) (0, b) = Some r /\
  ((exists i j, r = i * q + j /\ 0 <= i < q /\ lookup eqb (mul b (gp alpha (Z.to_nat i))) mp = Some j /\ forall i', 0 <= i' < i -> lookup eqb (mul b (gp alpha (Z.to_nat i'))) mp = None) \/ (r = -1 /\ forall i, 0 <= i < q -> lookup eqb (mul b (gp alpha (Z.to_nat i))) mp = None)).
Proof.
  intros Q AL B. destruct (loopZ_spec (giant_step mul eqb mp alpha q) (fun '(i, gamma) => 0 <= i <= q /\ gamma = mul b (gp alpha (Z.to_nat i)) /\ forall i', 0 <= i' < i -> lookup eqb (mul b (gp alpha (Z.to_nat i'))) mp = None)
    (fun r => (exists i j, r = i * q + j /\ 0 <= i < q /\ lookup eqb (mul b (gp alpha (Z.to_nat i))) mp = Some j /\ forall i', 0 <= i' < i -> lookup eqb (mul b (gp alpha (Z.to_nat i'))) mp = None) \/ (r = -1 /\ forall i, 0 <= i < q -> lookup eqb (mul b (gp alpha (Z.to_nat i))) mp = None)) (fun '(i, _) => q - i)) with (fuel := Z.abs q + 1) (s := (0, b)) as (r & EQ & H).
  - intros [i gamma] (I & GM & NO). cbn [giant_step]. destruct (Z.ltb_spec i q) as [L|L].
    + destruct (lookup eqb gamma mp) as [j|] eqn:LK.
      * eexists. split; [reflexivity|]. cbv beta iota. left. exists i, j. split; [reflexivity|]. split; [lia|]. split; [now rewrite <- GM|exact NO].
      * eexists. split; [reflexivity|]. cbv beta iota. split; [|lia]. split; [lia|]. split.
        -- rewrite GM. replace (Z.to_nat (i + 1)) with (Z.to_nat i + 1)%nat by lia. rewrite gp_add, gp_1 by exact AL. symmetry. apply mA; [exact B|now apply gp_ok|exact AL].
        -- intros i' I'. destruct (Z.eq_dec i' i) as [-> |NE]; [now rewrite <- GM|apply NO; lia].
    + eexists. split; [reflexivity|]. cbv beta iota. right. split; [reflexivity|]. intros i' I'. apply NO. lia.
  - intros [i gamma] (I & _). lia.
  - split; [lia|]. split; [cbn [Z.to_nat gpow]; symmetry; now apply m1r|]. intros; lia.
  - lia.
  - exists r. split; [exact EQ|exact H].
Qed.
Lemma least_exponent a b k : ok a -> ok b -> 0 <= k -> gp a (Z.to_nat k) = b -> exists x, 0 <= x <= k /\ gp a (Z.to_nat x) = b /\ forall j, 0 <= j < x -> gp a (Z.to_nat j) <> b.
Proof.
  intros A B K EK. destruct (brute_ok mul one eqb ok M E a b (k + 1) A B) as (r & _ & [(R & ER & MR)|(_ & NO)]); [exists r; split; [lia|]; now split|]. exfalso. exact (NO k ltac:(lia) EK).
Qed.
Theorem baby_giant_ok a b n : ok a -> ok b -> 0 < n -> gp a (Z.to_nat n) = one ->
  exists r, discrete_log_baby_giant_g mul one eqb root a b n = Some r /\
    ((0 <= r < n /\ gp a (Z.to_nat r) = b /\ forall j, 0 <= j < r -> gp a (Z.to_nat j) <> b) \/ (r = -1 /\ forall j, 0 <= j -> gp a (Z.to_nat j) <> b)).
Proof.
  intros A B N NE. unfold discrete_log_baby_giant_g. destruct (RT n ltac:(lia)) as (R0 & R1). set (q := root n + 1) in *. assert (Q : 0 < q) by lia. assert (QQ : n < q * q) by (unfold q; lia).
  destruct (baby_run a q A ltac:(lia)) as (mp & -> & T). cbn [obind].
  assert (AL : exists y, powT mul one a (n - q) = Some (gp a y) /\ gp a (Z.to_nat q + y) = one).
  { destruct (Z.le_gt_cases q n) as [L|L].
    - exists (Z.to_nat (n - q)). split; [apply powT_gp; [exact A|lia]|]. now replace (Z.to_nat q + Z.to_nat (n - q))%nat with (Z.to_nat n) by lia.
    - exists 0%nat. split; [apply powT_neg; lia|]. assert (n = 1) by (unfold q in *; nia). subst n. assert (A1 : a = one) by (rewrite <- (gp_1 a A); exact NE). rewrite A1. apply gp_one. }
  destruct AL as (y & -> & YE). cbn [obind]. set (alpha := gp a y) in *. assert (AO : ok alpha) by (now apply gp_ok). destruct (giant_run mp alpha q b ltac:(lia) AO B) as (r & -> & H).
  (* a^(i q) undoes alpha^i *)
  assert (UND : forall i, mul (gp a (Z.to_nat (i * q))) (gp alpha (Z.to_nat i)) = one /\ mul (gp alpha (Z.to_nat i)) (gp a (Z.to_nat (i * q))) = one).
  { intros i. destruct (Z.le_gt_cases 0 i) as [I|I].
    - unfold alpha. rewrite <- gp_mul, <- !gp_add by exact A. replace (Z.to_nat (i * q)) with (Z.to_nat i * Z.to_nat q)%nat by (rewrite Z2Nat.inj_mul; lia). replace (Z.to_nat i * Z.to_nat q + y * Z.to_nat i)%nat with ((Z.to_nat q + y) * Z.to_nat i)%nat by lia. replace (y * Z.to_nat i + Z.to_nat i * Z.to_nat q)%nat with ((Z.to_nat q + y) * Z.to_nat i)%nat by lia. rewrite gp_mul, YE by exact A. split; apply gp_one.
    - replace (Z.to_nat (i * q)) with 0%nat by nia. replace (Z.to_nat i) with 0%nat by lia. cbn [gpow]. split; apply m1l, ok1. }
  assert (SND : forall i j, 0 <= i < q -> lookup eqb (mul b (gp alpha (Z.to_nat i))) mp = Some j -> 0 <= j < q /\ gp a (Z.to_nat (i * q + j)) = b).
  { intros i j I LK. destruct (T (mul b (gp alpha (Z.to_nat i)))) as (T1 & _); [apply okm; [exact B|now apply gp_ok]|]. destruct (T1 j LK) as (J & EJ & _). split; [exact J|]. replace (Z.to_nat (i * q + j)) with (Z.to_nat j + Z.to_nat (i * q))%nat by nia. rewrite gp_add, EJ by exact A. rewrite <- mA by (try exact B; now apply gp_ok). rewrite (proj2 (UND i)). now apply m1r. }
  exists r. split; [reflexivity|].
  assert (CMP : forall k, 0 <= k -> gp a (Z.to_nat k) = b -> exists x, 0 <= x < n /\ gp a (Z.to_nat x) = b /\ (forall j, 0 <= j < x -> gp a (Z.to_nat j) <> b) /\ 0 <= x / q < q /\ mul b (gp alpha (Z.to_nat (x / q))) = gp a (Z.to_nat (x mod q))).
  { intros k K EK. destruct (least_exponent a b k A B K EK) as (x & X & EX & MX). exists x. assert (XN : x < n). { destruct (Z.lt_ge_cases x n) as [|GE]; [assumption|exfalso]. apply (MX (x - n)); [lia|]. rewrite <- EX. replace (Z.to_nat x) with (Z.to_nat (x - n) + Z.to_nat n)%nat by lia. rewrite gp_add, NE by exact A. symmetry. apply m1r. now apply gp_ok. }
    split; [lia|]. split; [exact EX|]. split; [exact MX|]. pose proof (Z.div_mod x q ltac:(lia)) as D. pose proof (Z.mod_pos_bound x q Q) as MB. split; [split; [apply Z.div_pos; lia|apply Z.div_lt_upper_bound; nia]|]. assert (DP : 0 <= x / q) by (apply Z.div_pos; lia).
    rewrite <- EX. replace (Z.to_nat x) with (Z.to_nat (x mod q) + Z.to_nat (x / q * q))%nat by nia. rewrite gp_add by exact A. rewrite <- mA by (now apply gp_ok). rewrite (proj1 (UND (x / q))). apply m1r. now apply gp_ok. }
  destruct H as [(i & j & -> & I & LK & FST)|(-> & NO)].
  - left. destruct (SND i j I LK) as (J & EB). destruct (CMP (i * q + j) ltac:(nia) EB) as (x & X & EX & MX & XQ & XA). pose proof (Z.div_mod x q ltac:(lia)) as D. pose proof (Z.mod_pos_bound x q Q) as MB. destruct (T (gp a (Z.to_nat (x mod q)))) as (T1 & T2); [now apply gp_ok|].
    assert (XE : x = i * q + j). { destruct (lookup eqb (gp a (Z.to_nat (x mod q))) mp) as [j0|] eqn:L0; [|exfalso; apply (T2 eq_refl (x mod q)); [lia|reflexivity]]. destruct (Z.lt_trichotomy i (x / q)) as [L|[L|L]].
      - exfalso. apply (MX (i * q + j)); [nia|exact EB].
      - subst i. rewrite XA in LK. rewrite LK in L0. injection L0 as <-. destruct (T1 j eq_refl) as (_ & _ & MJ). destruct (Z.lt_trichotomy j (x mod q)) as [L'|[L'|L']]; [exfalso; apply (MX (x / q * q + j)); [nia|exact EB]|lia|exfalso; apply (MJ (x mod q)); [lia|reflexivity]].
      - exfalso. rewrite <- XA in L0. rewrite (FST (x / q)) in L0 by lia. discriminate. }
    rewrite <- XE. split; [lia|]. split; assumption.
  - right. split; [reflexivity|]. intros k K EK. destruct (CMP k K EK) as (x & X & EX & MX & XQ & XA). specialize (NO (x / q) XQ). rewrite XA in NO. destruct (T (gp a (Z.to_nat (x mod q)))) as (_ & T2); [now apply gp_ok|]. apply (T2 NO (x mod q)); [apply Z.mod_pos_bound; lia|reflexivity].
Qed.
End Group.
