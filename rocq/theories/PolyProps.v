(** C35-C38: polynomial arithmetic (structure/math/polynom.h). *)
From Coq Require Import Ring Ring_theory.
From Verif Require Import Lib RingSpec RingProofs SeriesSpec SeriesProofs PolyModel PolyProofs PolyProofs2 PolyProofs3 PolyProofs4 PolyProofs5.
Open Scope Z_scope.

Section PolyProps.
  (** any commutative ring with decidable equality *)
  Context {R : Type} (zero one : R) (add mul sub : R -> R -> R) (opp : R -> R).
  Hypothesis Rth : ring_theory zero one add mul sub opp (@eq R).
  Add Ring Rpp : Rth.
  Variable tdiv : R -> R -> option R.
  Variable eqb : R -> R -> bool.
  Hypothesis eqb_spec : forall x y, eqb x y = true <-> x = y.
  Local Notation coef := (coef zero).
  Local Notation pconv := (pconv zero add mul).

  (** the degree reported is that of the highest nonzero coefficient *)
  Theorem C35_deg p : (forall i, (p_deg zero eqb p < i)%nat -> coef p i = zero) /\ (p_deg zero eqb p = O \/ coef p (p_deg zero eqb p) <> zero).
  Proof. apply (deg_spec zero eqb eqb_spec p). Qed.

  (** [add(pr, p1, p2)] for any instances, equal or not: [pr] gets the sum, every other instance is untouched *)
  Theorem C35_add (e : nat -> list R) (pr p1 p2 : nat) : exists e', p_add zero add eqb e pr p1 p2 = Some e' /\
    (forall i, coef (e' pr) i = add (coef (e p1) i) (coef (e p2) i)) /\ forall x, x <> pr -> e' x = e x.
  Proof. destruct (p_add_spec _ _ _ _ _ _ Rth eqb eqb_spec e pr p1 p2) as (e' & E & _ & V & F). exists e'. auto. Qed.
  Theorem C35_sub (e : nat -> list R) (pr p1 p2 : nat) : exists e', p_sub zero sub eqb e pr p1 p2 = Some e' /\
    (forall i, coef (e' pr) i = sub (coef (e p1) i) (coef (e p2) i)) /\ forall x, x <> pr -> e' x = e x.
  Proof. destruct (p_sub_spec _ _ _ _ _ _ Rth eqb eqb_spec e pr p1 p2) as (e' & E & _ & V & F). exists e'. auto. Qed.
  Theorem C35_neg (e : nat -> list R) (pr p1 : nat) : exists e', p_neg zero opp eqb e pr p1 = Some e' /\
    (forall i, coef (e' pr) i = opp (coef (e p1) i)) /\ forall x, x <> pr -> e' x = e x.
  Proof. destruct (p_neg_spec _ _ _ _ _ _ Rth eqb eqb_spec e pr p1) as (e' & E & _ & V & F). exists e'. auto. Qed.
  Theorem C35_scalar (e : nat -> list R) (pr p1 : nat) (s : R) : exists e', p_smul zero mul eqb e pr p1 s = Some e' /\
    (forall i, coef (e' pr) i = mul (coef (e p1) i) s) /\ forall x, x <> pr -> e' x = e x.
  Proof. destruct (p_smul_spec _ _ _ _ _ _ Rth eqb eqb_spec e pr p1 s) as (e' & E & _ & V & F). exists e'. auto. Qed.
  Theorem C35_scalar_div (e : nat -> list R) (pr p1 : nat) (s u : R) : (forall x, tdiv x s = Some (mul x u)) ->
    exists e', p_sdiv zero tdiv eqb e pr p1 s = Some e' /\
    (forall i, coef (e' pr) i = mul (coef (e p1) i) u) /\ forall x, x <> pr -> e' x = e x.
  Proof. intros Hu. destruct (p_sdiv_spec _ _ _ _ _ _ Rth tdiv eqb eqb_spec e pr p1 s u Hu) as (e' & E & _ & V & F). exists e'. auto. Qed.

  (** [mul(pr, p1, p2, lr)] for any instances, any truncation degree [lr] (negative: the full product) and any
      Karatsuba threshold *)
  Theorem C35_mul (thr : Z) (e : nat -> list R) (pr p1 p2 : nat) (lr : Z) : exists e', p_mul zero add sub mul eqb thr e pr p1 p2 lr = Some e' /\
    (forall i, (lr < 0 \/ Z.of_nat i <= lr) -> coef (e' pr) i = pconv (coef (e p1)) (coef (e p2)) i) /\
    (forall i, 0 <= lr < Z.of_nat i -> coef (e' pr) i = zero) /\
    (0 <= lr -> Z.of_nat (length (e' pr)) = lr + 1) /\ forall x, x <> pr -> e' x = e x.
  Proof.
    destruct (p_mul_spec _ _ _ _ _ _ Rth eqb eqb_spec thr e pr p1 p2 lr) as (e' & E & L & V & F). exists e'. split; [exact E|].
    destruct (Z.ltb_spec lr 0) as [Ln|Ln].
    - split; [|split; [|split; [lia|exact F]]]; [|intros; lia]. intros i _. apply (coef_total _ _ (p_deg zero eqb (e p1) + p_deg zero eqb (e p2))); [lia|intros; apply V; lia|].
      intros j Hj. apply (pconv_above _ _ _ _ _ _ Rth _ _ (p_deg zero eqb (e p1)) (p_deg zero eqb (e p2))); [..|lia]; apply (deg_spec zero eqb eqb_spec).
    - split; [intros i Hi; apply V; lia|]. split; [|split; [lia|exact F]]. intros i Hi. apply coef_above. lia.
  Qed.

  (** [eval] at a point of any commutative ring A is the value of the polynomial *)
  Theorem C35_eval {A} (zeroA oneA : A) addA mulA subA oppA (cast : R -> A) : ring_theory zeroA oneA addA mulA subA oppA (@eq A) -> cast zero = zeroA ->
    forall p x, p_eval zero eqb zeroA addA mulA cast p x = Some (rsum zeroA addA (length p) (fun i => mulA (cast (coef p i)) (rpow oneA mulA x i))).
  Proof. intros Ath H0 p x. apply (eval_spec zero eqb eqb_spec _ _ _ _ _ _ Ath cast H0). Qed.

  Theorem C35_derivative ofint p : (forall n, ofint n = rnat zero one add n) -> exists r, p_derivative zero mul eqb ofint p = Some r /\
    forall i, coef r i = mul (coef p (S i)) (rnat zero one add (S i)).
  Proof.
    intros H. destruct (derivative_spec _ _ _ _ _ _ Rth eqb eqb_spec ofint p (H O)) as (r & E & V). exists r. split; [exact E|]. intros i. rewrite V, H. reflexivity.
  Qed.
  (** the integral is the antiderivative with constant term [c0], wherever dividing by 1, 2, ... is possible *)
  Theorem C35_integral ofint p c0 : (forall n, ofint n = rnat zero one add n) ->
    (forall i, exists w, mul (ofint (S i)) w = one /\ forall x, tdiv x (ofint (S i)) = Some (mul x w)) ->
    exists r d, p_integral zero tdiv eqb ofint p c0 = Some r /\ coef r O = c0 /\ p_derivative zero mul eqb ofint r = Some d /\ forall i, coef d i = coef p i.
  Proof.
    intros Ho Hw.
    (* pick the inverse returned by the division itself *)
    pose (inv := fun k => match tdiv one (ofint k) with Some w => w | None => zero end).
    assert (Hi : forall i, mul (ofint (S i)) (inv (S i)) = one /\ forall x, tdiv x (ofint (S i)) = Some (mul x (inv (S i)))).
    { intros i. destruct (Hw i) as (w & W1 & W2). assert (E : inv (S i) = w). { unfold inv. rewrite W2. ring. } rewrite E. auto. }
    destruct (integral_spec _ _ _ _ _ _ Rth tdiv eqb eqb_spec ofint inv p c0 (fun i x => proj2 (Hi i) x)) as (r & E & V0 & V).
    destruct (derivative_spec _ _ _ _ _ _ Rth eqb eqb_spec ofint r (Ho O)) as (d & Ed & Vd). exists r, d.
    split; [exact E|]. split; [exact V0|]. split; [exact Ed|]. intros i. rewrite Vd, V.
    transitivity (mul (coef p i) (mul (ofint (S i)) (inv (S i)))); [ring|]. rewrite (proj1 (Hi i)). ring.
  Qed.

  (** comparison: [cmp] is 0 exactly when all coefficients agree, and swaps sign with its arguments *)
  Theorem C35_cmp (tlt : R -> R -> bool) p q : (forall x, tlt x x = false) -> (forall x y, tlt x y = false -> tlt y x = false -> x = y) ->
    (forall x y, tlt x y = true -> tlt y x = false) ->
    (p_cmp zero eqb tlt p q = 0 <-> forall i, coef p i = coef q i) /\ p_cmp zero eqb tlt q p = - p_cmp zero eqb tlt p q.
  Proof.
    intros Hirr Htri Has. unfold p_cmp. rewrite (Nat.max_comm (p_deg zero eqb q)). set (n := Nat.max (p_deg zero eqb p) (p_deg zero eqb q)).
    assert (Hn : forall i, (n < i)%nat -> coef p i = coef q i).
    { intros i Hi. rewrite !(proj1 (proj2 (deg_spec zero eqb eqb_spec _))) by lia. reflexivity. }
    clearbody n.
    assert (G : forall m, (cmp_n zero tlt p q m = 0 <-> forall i, (i <= m)%nat -> coef p i = coef q i) /\ cmp_n zero tlt q p m = - cmp_n zero tlt p q m).
    { induction m as [|m (IH1 & IH2)]; cbn [cmp_n]; rewrite !p_at_coef.
      - destruct (tlt (coef p 0) (coef q 0)) eqn:E1; [rewrite (Has _ _ E1)|destruct (tlt (coef q 0) (coef p 0)) eqn:E2].
        + split; [|reflexivity]. split; [discriminate|]. intros H. rewrite (H O) in E1 by lia. rewrite Hirr in E1. discriminate.
        + split; [|reflexivity]. split; [discriminate|]. intros H. rewrite (H O) in E2 by lia. rewrite Hirr in E2. discriminate.
        + split; [|reflexivity]. split; [|reflexivity]. intros _ i Hi. replace i with O by lia. apply Htri; assumption.
      - destruct (tlt (coef p (S m)) (coef q (S m))) eqn:E1; [rewrite (Has _ _ E1)|destruct (tlt (coef q (S m)) (coef p (S m))) eqn:E2].
        + split; [|reflexivity]. split; [discriminate|]. intros H. rewrite (H (S m)) in E1 by lia. rewrite Hirr in E1. discriminate.
        + split; [|reflexivity]. split; [discriminate|]. intros H. rewrite (H (S m)) in E2 by lia. rewrite Hirr in E2. discriminate.
        + split; [|exact IH2]. rewrite IH1. split; intros H i Hi; [|apply H; lia]. destruct (Nat.eq_dec i (S m)) as [->|]; [apply Htri; assumption|apply H; lia]. }
    destruct (G n) as (G1 & G2). split; [|exact G2]. rewrite G1. split; intros H i; [|intros _; apply H]. destruct (Nat.le_gt_cases i n); [apply H; assumption|apply Hn; assumption].
  Qed.

  (** C36: in-memory multiplication.  [h] is the coefficient memory; result block [pr .. pr+lr], operand blocks
      [p1 .. p1+l1] and [p2 .. p2+l2], each operand block being the result block's start or disjoint from it. *)
  Theorem C36_mul_any_threshold (thr : Z) (h : list R) (pr lr p1 l1 p2 l2 : nat) :
    (pr + lr < length h)%nat -> (p1 + l1 < length h)%nat -> (p2 + l2 < length h)%nat ->
    (p1 = pr \/ p1 + l1 < pr \/ pr + lr < p1)%nat -> (p2 = pr \/ p2 + l2 < pr \/ pr + lr < p2)%nat ->
    exists h', mul_raw zero add sub mul thr (S (l1 + l2)) h (Z.of_nat pr) (Z.of_nat lr) (Z.of_nat p1) (Z.of_nat l1) (Z.of_nat p2) (Z.of_nat l2) = Some h' /\
      length h' = length h /\
      (forall i, (i <= lr)%nat -> coef h' (pr + i) =
         pconv (fun j => if Nat.leb j l1 then coef h (p1 + j) else zero) (fun j => if Nat.leb j l2 then coef h (p2 + j) else zero) i) /\
      forall i, (i < pr \/ pr + lr < i)%nat -> coef h' i = coef h i.
  Proof.
    intros B0 B1 B2 D1 D2.
    destruct (mul_raw_spec _ _ _ _ _ _ Rth thr (S (l1 + l2)) h (Z.of_nat pr) (Z.of_nat lr) (Z.of_nat p1) (Z.of_nat l1) (Z.of_nat p2) (Z.of_nat l2)) as (h' & E & L & V & F);
      unfold sep, hlen; try lia.
    exists h'. split; [exact E|]. split; [unfold hlen in L; lia|]. split.
    - intros i Hi. specialize (V i ltac:(lia)). unfold val in V. replace (Z.to_nat (Z.of_nat pr + Z.of_nat i)) with (pr + i)%nat in V by lia.
      unfold SeriesSpec.coef at 1. rewrite V. apply pconv_ext; intros j _; unfold opd, ptrunc, val, SeriesSpec.coef; rewrite Nat2Z.id; destruct (Nat.leb j _); try reflexivity; f_equal; lia.
    - intros i Hi. specialize (F (Z.of_nat i) ltac:(lia) ltac:(lia)). unfold val in F. rewrite Nat2Z.id in F. exact F.
  Qed.
  (** one Karatsuba step leaves the memory in exactly the state schoolbook multiplication leaves it in *)
  Theorem C36_karatsuba_is_schoolbook (thr : Z) (h : list R) (pr lr p1 l1 p2 l2 : nat) :
    (l2 <= l1 <= lr)%nat -> (lr <= l1 + l2)%nat ->
    (pr + lr < length h)%nat -> (p1 + l1 < length h)%nat -> (p2 + l2 < length h)%nat ->
    (p1 = pr \/ p1 + l1 < pr \/ pr + lr < p1)%nat -> (p2 = pr \/ p2 + l2 < pr \/ pr + lr < p2)%nat ->
    exists h', mul_karatsuba zero add sub mul (mul_raw zero add sub mul thr (l1 + l2)) h (Z.of_nat pr) (Z.of_nat lr) (Z.of_nat p1) (Z.of_nat l1) (Z.of_nat p2) (Z.of_nat l2) = Some h' /\
      mul_long zero add mul h (Z.of_nat pr) (Z.of_nat lr) (Z.of_nat p1) (Z.of_nat l1) (Z.of_nat p2) (Z.of_nat l2) = Some h'.
  Proof.
    intros H1 H2 B0 B1 B2 D1 D2.
    destruct (kara_spec _ _ _ _ _ _ Rth (mul_raw zero add sub mul thr (l1 + l2)) (Z.of_nat (l1 + l2)) h (Z.of_nat pr) (Z.of_nat lr) (Z.of_nat p1) (Z.of_nat l1) (Z.of_nat p2) (Z.of_nat l2)) as (h' & E & L & V & F);
      [apply (mul_raw_spec _ _ _ _ _ _ Rth)|unfold sep, hlen; lia ..|].
    destruct (mul_long_spec _ _ _ _ _ _ Rth h (Z.of_nat pr) (Z.of_nat lr) (Z.of_nat p1) (Z.of_nat l1) (Z.of_nat p2) (Z.of_nat l2)) as (h2 & E2 & L2 & V2 & F2);
      unfold sep, hlen; try lia.
    exists h'. split; [exact E|]. rewrite E2. f_equal. unfold hlen in L, L2. apply (nth_ext _ _ zero zero); [lia|]. intros n Hn.
    destruct (Nat.lt_ge_cases n pr) as [Ln|Ln]; [|destruct (Nat.le_gt_cases n (pr + lr)) as [Lm|Lm]].
    - specialize (F (Z.of_nat n) ltac:(lia) ltac:(lia)). specialize (F2 (Z.of_nat n) ltac:(lia) ltac:(lia)). unfold val in F, F2. rewrite Nat2Z.id in F, F2. congruence.
    - specialize (V (n - pr)%nat ltac:(lia)). specialize (V2 (n - pr)%nat ltac:(lia)). unfold val in V, V2.
      replace (Z.to_nat (Z.of_nat pr + Z.of_nat (n - pr))) with n in V, V2 by lia. congruence.
    - specialize (F (Z.of_nat n) ltac:(lia) ltac:(lia)). specialize (F2 (Z.of_nat n) ltac:(lia) ltac:(lia)). unfold val in F, F2. rewrite Nat2Z.id in F, F2. congruence.
  Qed.

  (** C37: division with remainder by a polynomial whose leading coefficient has an inverse [u] (every nonzero
      polynomial over a field; monic ones over a ring), for either algorithm ([slow] decides) *)
  Theorem C37_division (thr : Z) (slow isfloat : bool) (p1 p2 : list R) (u : R) : one <> zero ->
    mul (coef p2 (p_deg zero eqb p2)) u = one -> (forall x, tdiv x (coef p2 (p_deg zero eqb p2)) = Some (mul x u)) ->
    exists q r, p_div zero one add sub mul opp tdiv eqb thr slow isfloat p1 p2 = Some q /\ p_mod zero one add sub mul opp tdiv eqb thr slow isfloat p1 p2 = Some r /\
      (forall n, coef p1 n = add (pconv (coef q) (coef p2) n) (coef r n)) /\ (forall n, (p_deg zero eqb p2 <= n)%nat -> coef r n = zero).
  Proof. intros H10 Hu Hd. apply (div_mod_spec _ _ _ _ _ _ Rth tdiv eqb eqb_spec H10 thr slow isfloat p1 p2 u Hu Hd). Qed.
  (** and that quotient and remainder are the only ones *)
  Theorem C37_unique (p2 q q' r r' : list R) (u : R) : mul (coef p2 (p_deg zero eqb p2)) u = one ->
    (forall n, (p_deg zero eqb p2 <= n)%nat -> coef r n = zero) -> (forall n, (p_deg zero eqb p2 <= n)%nat -> coef r' n = zero) ->
    (forall n, add (pconv (coef q) (coef p2) n) (coef r n) = add (pconv (coef q') (coef p2) n) (coef r' n)) ->
    (forall n, coef q n = coef q' n) /\ forall n, coef r n = coef r' n.
  Proof.
    intros Hu Hr Hr' H. apply (div_unique _ _ _ _ _ _ Rth eqb eqb_spec p2 u (coef q) (coef q') (coef r) (coef r') Hu); try assumption.
    exists (Nat.max (length q) (length q')). intros n Hn. split; apply coef_above; lia.
  Qed.
  (** long division and Newton division agree *)
  Theorem C37_long_hensel_agree (thr : Z) (p1 p2 : list R) (u : R) : one <> zero ->
    mul (coef p2 (p_deg zero eqb p2)) u = one -> (forall x, tdiv x (coef p2 (p_deg zero eqb p2)) = Some (mul x u)) ->
    exists a b, quot_rem_long zero one sub mul tdiv eqb p1 p2 = Some a /\ quot_rem_hensel zero one add sub mul opp tdiv eqb thr p1 p2 = Some b /\ forall n, coef a n = coef b n.
  Proof.
    intros H10 Hu Hd. destruct (quot_rem_long_spec _ _ _ _ _ _ Rth tdiv eqb eqb_spec p1 p2 u Hu Hd) as (a & Ea & A1 & A2).
    destruct (quot_rem_hensel_spec _ _ _ _ _ _ Rth tdiv eqb eqb_spec H10 thr p1 p2 u Hu Hd) as (b & Eb & B1 & B2).
    exists a, b. split; [exact Ea|]. split; [exact Eb|]. set (l2 := p_deg zero eqb p2) in *.
    destruct (div_unique _ _ _ _ _ _ Rth eqb eqb_spec p2 u (fun j => coef a (j + l2)%nat) (fun j => coef b (j + l2)%nat)
      (fun n => if Nat.ltb n l2 then coef a n else zero) (fun n => if Nat.ltb n l2 then coef b n else zero) Hu) as (Q & W).
    - exists (S (p_deg zero eqb p1)). intros n Hn. split; [apply A2|apply B2]; lia.
    - intros n Hn. fold l2 in Hn. destruct (Nat.ltb_spec n l2); [lia|reflexivity].
    - intros n Hn. fold l2 in Hn. destruct (Nat.ltb_spec n l2); [lia|reflexivity].
    - intros n. rewrite <- A1, <- B1. reflexivity.
    - intros n. destruct (Nat.lt_ge_cases n l2) as [L|L].
      + specialize (W n). cbv beta in W. destruct (Nat.ltb_spec n l2); [exact W|lia].
      + specialize (Q (n - l2)%nat). cbv beta in Q. replace (n - l2 + l2)%nat with n in Q by lia. exact Q.
  Qed.

  (** C38: the inverse modulo x^L, for an invertible constant term (inverse [u]) *)
  Theorem C38_inverse (thr : Z) (p : list R) (L : nat) (u : R) : one <> zero -> (1 <= L)%nat ->
    mul (coef p 0) u = one -> (forall x, tdiv x (coef p 0) = Some (mul x u)) ->
    exists r, p_inverse zero one add sub mul opp tdiv eqb thr p (Z.of_nat L) = Some r /\
      (forall i, (i < L)%nat -> pconv (coef p) (coef r) i = pconst zero one i) /\ (forall i, (L <= i)%nat -> coef r i = zero).
  Proof.
    intros H10 HL Hu Hd. destruct (p_inverse_spec _ _ _ _ _ _ Rth tdiv eqb eqb_spec thr p (Z.of_nat L) u H10 Hu Hd) as (r & E & V & F).
    rewrite Nat2Z.id in V, F. replace (Nat.max 1 L) with L in V, F by lia. exists r. auto.
  Qed.
  (** the value of a product is the product of the values *)
  Theorem C35_eval_mul thr p q x : exists r vp vq, op_mul zero add sub mul eqb thr p q = Some r /\
    p_eval zero eqb zero add mul (fun c => c) p x = Some vp /\ p_eval zero eqb zero add mul (fun c => c) q x = Some vq /\
    p_eval zero eqb zero add mul (fun c => c) r x = Some (mul vp vq).
  Proof.
    destruct (op_mul_spec _ _ _ _ _ _ Rth eqb eqb_spec thr p q) as (r & E & L & V).
    pose proof (eval_spec zero eqb eqb_spec _ _ _ _ _ _ Rth (fun c => c) eq_refl) as Ev.
    exists r. eexists _, _. split; [exact E|]. rewrite !Ev. split; [reflexivity|]. split; [reflexivity|]. f_equal.
    assert (T : forall c n, (length c <= n)%nat -> rsum zero add (length c) (fun i => mul (nth i c zero) (rpow one mul x i)) = rsum zero add n (fun i => mul (nth i c zero) (rpow one mul x i))).
    { intros c n Hn. replace n with (length c + (n - length c))%nat by lia. rewrite (rsum_split _ _ _ _ _ _ Rth). rewrite (rsum_zero _ _ _ _ _ _ Rth (n - length c)); [ring|].
      intros j _. rewrite nth_overflow by lia. ring. }
    set (N := (length p + length q + length r)%nat).
    rewrite (T p N) by (unfold N; lia). rewrite (T q N) by (unfold N; lia). rewrite (T r (N + N)%nat) by (unfold N; lia).
    set (a := fun i => nth i p zero). set (b := fun i => nth i q zero). set (w := rpow one mul x).
    rewrite <- (rsum_mul_r _ _ _ _ _ _ Rth).
    rewrite (rsum_ext _ _ (N + N) _ (fun i => rsum zero add (S i) (fun j => mul (mul (a j) (b (i - j)%nat)) (w (j + (i - j))%nat)))).
    2:{ intros i _. change (nth i r zero) with (coef r i). rewrite V. unfold SeriesSpec.pconv. rewrite <- (rsum_mul_r _ _ _ _ _ _ Rth). apply rsum_ext. intros j Hj.
        replace (j + (i - j))%nat with i by lia. reflexivity. }
    rewrite (rsum_triangle _ _ _ _ _ _ Rth (N + N) (fun j k => mul (mul (a j) (b k)) (w (j + k)%nat))).
    rewrite (rsum_split _ _ _ _ _ _ Rth). rewrite (rsum_zero _ _ _ _ _ _ Rth N (fun i => rsum zero add (N + N - (N + i)) _)).
    - rewrite (Radd_comm Rth), (Radd_0_l Rth). apply rsum_ext. intros j Hj. rewrite <- (rsum_mul_l _ _ _ _ _ _ Rth).
      replace (N + N - j)%nat with (N + (N - j))%nat by lia. rewrite (rsum_split _ _ _ _ _ _ Rth). rewrite (rsum_zero _ _ _ _ _ _ Rth (N - j)).
      + rewrite (Radd_comm Rth), (Radd_0_l Rth). apply rsum_ext. intros k _. unfold w. rewrite (rpow_add _ _ _ _ _ _ Rth). unfold a, b. ring.
      + intros k _. unfold b at 1. rewrite (nth_overflow q) by (unfold N; lia). ring.
    - intros i _. apply (rsum_zero _ _ _ _ _ _ Rth). intros k _. unfold a at 1. rewrite (nth_overflow p) by (unfold N; lia). ring.
  Qed.
End PolyProps.

(** over a non-commutative ring the product is wrong: the operands are swapped when the right one is longer
    (upper triangular 2x2 integer matrices; (e11) * (e12 x) should be e12 x) *)
Definition tri := (Z * Z * Z)%type.
Definition tri_add (x y : tri) : tri := let '(a, b, c) := x in let '(d, e, f) := y in (a + d, b + e, c + f).
Definition tri_sub (x y : tri) : tri := let '(a, b, c) := x in let '(d, e, f) := y in (a - d, b - e, c - f).
Definition tri_mul (x y : tri) : tri := let '(a, b, c) := x in let '(d, e, f) := y in (a * d, a * e + b * f, c * f).
Definition tri_eqb (x y : tri) : bool := let '(a, b, c) := x in let '(d, e, f) := y in (a =? d) && (b =? e) && (c =? f).
Theorem C35_noncommutative_refuted : exists p q r, op_mul (0, 0, 0) tri_add tri_sub tri_mul tri_eqb 48 p q = Some r /\
  coef (0, 0, 0) r 1 <> pconv (0, 0, 0) tri_add tri_mul (coef (0, 0, 0) p) (coef (0, 0, 0) q) 1.
Proof. exists [(1, 0, 0)], [(0, 0, 0); (0, 1, 0)]. eexists. split; [vm_compute; reflexivity|]. vm_compute. discriminate. Qed.

(** concrete cases: the integers; 3x3 products in place, Karatsuba down to degree 0 (threshold 0), squaring in place *)
Example C35_case : exists e, p_mul 0 Z.add Z.sub Z.mul Z.eqb 48 (fun x => match x with O => [1; 2; 3] | _ => [4; 5] end) 0 0 1 (-1) = Some e /\ e O = [4; 13; 22; 15] /\ e 1%nat = [4; 5].
Proof. eexists. split; [reflexivity|]. split; reflexivity. Qed.
Example C35_alias_case : exists e, p_mul 0 Z.add Z.sub Z.mul Z.eqb 0 (fun x => [1; 2; 3; 4; 5]) 0 0 0 6 = Some e /\ e O = [1; 4; 10; 20; 35; 44; 46].
Proof. eexists. split; [reflexivity|]. reflexivity. Qed.
Example C36_case : option_map (firstn 11) (mul_raw 0 Z.add Z.sub Z.mul 0 20 ([1; 2; 3; 4; 5; 6] ++ repeat 9 5 ++ [7; 8; 9]) 0 7 0 5 11 2) = Some [7; 22; 46; 70; 94; 118; 93; 54; 9; 9; 9].
Proof. reflexivity. Qed.
Definition zdiv1 (x y : Z) : option Z := if y =? 1 then Some x else if y =? -1 then Some (- x) else None.
Example C37_case : p_div 0 1 Z.add Z.sub Z.mul Z.opp zdiv1 Z.eqb 48 false false [5; 0; 3; 2] [1; 1] = Some [-1; 1; 2] /\
  p_mod 0 1 Z.add Z.sub Z.mul Z.opp zdiv1 Z.eqb 48 false false [5; 0; 3; 2] [1; 1] = Some [6] /\
  quot_rem_hensel 0 1 Z.add Z.sub Z.mul Z.opp zdiv1 Z.eqb 48 [5; 0; 3; 2] [1; -1] = Some [10; -5; -5; -2].
Proof. repeat split; reflexivity. Qed.
Example C37_hyps : coef 0 [1; 1] (p_deg 0 Z.eqb [1; 1]) * 1 = 1 /\ (forall x, zdiv1 x (coef 0 [1; 1] (p_deg 0 Z.eqb [1; 1])) = Some (x * 1)).
Proof. split; [reflexivity|]. intros x. cbn. now rewrite Z.mul_1_r. Qed.
Example C38_case : p_inverse 0 1 Z.add Z.sub Z.mul Z.opp zdiv1 Z.eqb 48 [-1; 1; 1] 6 = Some [-1; -1; -2; -3; -5; -8].
Proof. reflexivity. Qed.

Print Assumptions C35_deg. Print Assumptions C35_add. Print Assumptions C35_sub. Print Assumptions C35_neg. Print Assumptions C35_scalar. Print Assumptions C35_scalar_div.
Print Assumptions C35_mul. Print Assumptions C35_eval. Print Assumptions C35_eval_mul. Print Assumptions C35_derivative. Print Assumptions C35_integral. Print Assumptions C35_cmp.
Print Assumptions C35_noncommutative_refuted. Print Assumptions C36_mul_any_threshold. Print Assumptions C36_karatsuba_is_schoolbook. Print Assumptions C37_division. Print Assumptions C37_unique.
Print Assumptions C37_long_hensel_agree. Print Assumptions C38_inverse.
