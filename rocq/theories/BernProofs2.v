(** The functions compute Bernoulli numbers, sums of powers and discrete integrals. *)
From Coq Require Import Ring Ring_theory.
From Verif Require Import Lib RingSpec RingProofs SeriesSpec HolderSpec HolderProofs PolyModel PolyProofs3 BernSpec BernProofs BernModel.
Open Scope nat_scope.

Lemma choose_next n k : k <= n -> choose n (S k) * S k = choose n k * (n - k).
Proof.
  intros H. destruct (Nat.eq_dec k n) as [->|N]; [rewrite choose_over by lia; lia|].
  assert (A := Factorial.lt_O_fact k). assert (B := Factorial.lt_O_fact (n - S k)). assert (C := choose_fact n k H). assert (D := choose_fact n (S k) ltac:(lia)).
  replace (n - k) with (S (n - S k)) in * by lia. change (Factorial.fact (S (n - S k))) with (S (n - S k) * Factorial.fact (n - S k)) in C. change (Factorial.fact (S k)) with (S k * Factorial.fact k) in D.
  assert (E : choose n (S k) * S k * (Factorial.fact k * Factorial.fact (n - S k)) = choose n k * S (n - S k) * (Factorial.fact k * Factorial.fact (n - S k))).
  { transitivity (Factorial.fact n); [rewrite <- D; ring|rewrite <- C; ring]. }
  apply Nat.mul_cancel_r in E; [exact E|]. assert (0 < Factorial.fact k * Factorial.fact (n - S k)) by (apply Nat.mul_pos_pos; assumption). lia.
Qed.

Section Bern2.
  Context {R : Type} (zero one : R) (add mul sub : R -> R -> R) (opp : R -> R).
  Hypothesis Rth : ring_theory zero one add mul sub opp (@eq R).
  Add Ring Rb2 : Rth.
  Variables (idiv : R -> nat -> option R) (ofint : nat -> R) (teqb : R -> R -> bool) (dflt : R).
  Hypothesis teqb_spec : forall x y, teqb x y = true <-> x = y.
  Local Notation rsum := (rsum zero add). Local Notation rpow := (rpow one mul). Local Notation rnat := (rnat zero one add).
  Hypothesis ofint_ok : forall k, ofint k = rnat k.
  Hypothesis idiv_ok : divides_by_units zero one add mul idiv.
  Local Notation bernoulli_b := (bernoulli_b mul sub idiv ofint dflt).
  Local Notation unit := (unit one mul).

  Lemma unit_cancel x a b : unit x -> mul a x = mul b x -> a = b.
  Proof using Rth.
    intros (u & Hu) H. transitivity (mul (mul u x) a); [rewrite Hu; ring|]. transitivity (mul u (mul a x)); [ring|]. rewrite H. transitivity (mul (mul u x) b); [ring|]. rewrite Hu. ring.
  Qed.
  Lemma idiv_eq a k x : unit (rnat k) -> mul x (rnat k) = a -> idiv a k = Some x.
  Proof using Rth idiv_ok. intros U H. destruct (idiv_ok a k U) as (c & E & Hc). rewrite E. f_equal. apply (unit_cancel (rnat k)); [exact U|]. now rewrite Hc. Qed.

  (** ** Bernoulli numbers *)
  Lemma bernoulli_run n : (forall k, 1 <= k <= n + 1 -> unit (rnat k)) ->
    exists b, bernoulli_b n one = Some b /\ length b = n + 1 /\ bernoulli_upto zero one add mul n (fun i => nth i b zero).
  Proof using Rth idiv_ok ofint_ok.
    intros HU.
    assert (Hu : exists u : nat -> R, forall k, k <= n -> idiv one (k + 1) = Some (u (S k)) /\ mul (rnat (S k)) (u (S k)) = one).
    { exists (fun k => match idiv one k with Some v => v | None => zero end). intros k Hk. destruct (idiv_ok one (k + 1) (HU (k + 1) ltac:(lia))) as (c & E & Hc). replace (S k) with (k + 1) by lia. rewrite E. split; [reflexivity|]. etransitivity; [|exact Hc]. ring. }
    destruct Hu as (u & Hu). set (A := fun i j => tab zero one add mul sub i (fun j => u (S j)) j).
    assert (AS : forall i j, A (S i) j = mul (sub (A i j) (A i (S j))) (rnat (S j))) by (intros i j; unfold A; rewrite (tab_S zero one add mul sub); ring).
    unfold BernModel.bernoulli_b.
    match goal with |- context [for_range 0 (n + 1) ?f ?s] => set (body := f); set (s0 := s) end.
    destruct (for_range_spec (fun m '(a, b) => length a = n + 1 /\ length b = n + 1 /\ (forall j, j < m -> nth_error a j = Some (A (m - 1 - j) j)) /\ (forall j, j < m -> nth_error b j = Some (A j 0))) body 0 (n + 1) s0) as ((a & b) & E & La & Lb & _ & Vb).
    - lia.
    - unfold s0. rewrite !repeat_length. split; [reflexivity|]. split; [reflexivity|]. split; intros; lia.
    - intros m (a, b) Hm (La & Lb & Va & Vb). unfold body. destruct (Hu m ltac:(lia)) as (Em & _). rewrite Em. cbn [obind].
      destruct (set_nth_some a m (u (S m)) ltac:(lia)) as (a1 & Ea1). rewrite Ea1. cbn [obind].
      match goal with |- context [for_down 1 (m + 1) ?f a1] => set (inner := f) end.
      destruct (for_down_spec (fun j a' => length a' = n + 1 /\ (forall i, j <= S i -> i <= m -> nth_error a' i = Some (A (m - i) i)) /\ (forall i, S i < j -> nth_error a' i = Some (A (m - 1 - i) i))) inner 1 (m + 1) a1) as (a2 & Ea2 & L2 & V2 & _).
      + lia.
      + split; [now rewrite (set_nth_length _ _ _ _ Ea1)|]. split; intros i H1; rewrite (set_nth_get _ _ _ _ i Ea1).
        * intros H2. assert (i = m) as -> by lia. rewrite Nat.eqb_refl, Nat.sub_diag. reflexivity.
        * destruct (Nat.eqb_spec m i) as [<-|N]; [lia|]. apply Va. lia.
      + intros j a' Hj (L' & V1 & V2). unfold inner.
        rewrite (V2 (j - 1)) by lia. cbn [obind]. rewrite (V1 j) by lia. cbn [obind].
        destruct (set_nth_some a' (j - 1) (mul (sub (A (m - 1 - (j - 1)) (j - 1)) (A (m - j) j)) (ofint j)) ltac:(lia)) as (a3 & E3). exists a3. split; [exact E3|].
        split; [now rewrite (set_nth_length _ _ _ _ E3)|]. split; intros i H1; rewrite (set_nth_get _ _ _ _ i E3).
        * intros H2. destruct (Nat.eqb_spec (j - 1) i) as [<-|N]; [|apply V1; lia]. f_equal. rewrite ofint_ok. replace (m - (j - 1)) with (S (m - j)) by lia. rewrite AS. replace (m - 1 - (j - 1)) with (m - j) by lia. replace (S (j - 1)) with j by lia. reflexivity.
        * destruct (Nat.eqb_spec (j - 1) i) as [<-|N]; [lia|]. apply V2. lia.
      + rewrite Ea2. cbn [obind]. rewrite (V2 0) by lia. cbn [obind]. destruct (set_nth_some b m (A (m - 0) 0) ltac:(lia)) as (b1 & Eb1). rewrite Eb1. cbn [obind]. eexists. split; [reflexivity|].
        split; [exact L2|]. split; [now rewrite (set_nth_length _ _ _ _ Eb1)|]. split; intros j Hj.
        * rewrite (V2 j) by lia. do 3 f_equal. lia.
        * rewrite (set_nth_get _ _ _ _ j Eb1). destruct (Nat.eqb_spec m j) as [<-|N]; [rewrite Nat.sub_0_r; reflexivity|]. apply Vb. lia.
    - rewrite E. cbn [obind]. exists b. split; [reflexivity|]. split; [exact Lb|].
      assert (G := bern_ok zero one add mul sub opp Rth u n ltac:(intros k Hk; apply Hu; exact Hk)). intros m Hm. rewrite <- (G m Hm). apply RingProofs.rsum_ext. intros k Hk. f_equal. apply nth_error_nth. rewrite (Vb k) by lia. reflexivity.
  Qed.
  Lemma bernoulli_less n m b : bernoulli_upto zero one add mul n b -> m <= n -> bernoulli_upto zero one add mul m b.
  Proof using. intros H L k Hk. apply H. lia. Qed.

  (** ** sums of powers *)
  Local Notation power_sum := (power_sum zero one add mul).
  Lemma ps_S p N : power_sum p (S N) = add (power_sum p N) (rpow (rnat (S N)) p). Proof using. reflexivity. Qed.
  Lemma sum1 N : mul (power_sum 1 N) (rnat 2) = mul (rnat N) (add (rnat N) one).
  Proof using Rth. induction N as [|N IH]; [cbn; ring|]. rewrite ps_S. transitivity (add (mul (power_sum 1 N) (rnat 2)) (mul (rpow (rnat (S N)) 1) (rnat 2))); [ring|]. rewrite IH. cbn [RingSpec.rnat RingSpec.rpow]. ring. Qed.
  Lemma sum2 N : mul (power_sum 2 N) (rnat 6) = mul (mul (rnat N) (add (rnat N) one)) (add (mul (rnat N) (rnat 2)) one).
  Proof using Rth. induction N as [|N IH]; [cbn; ring|]. rewrite ps_S. transitivity (add (mul (power_sum 2 N) (rnat 6)) (mul (rpow (rnat (S N)) 2) (rnat 6))); [ring|]. rewrite IH. cbn [RingSpec.rnat RingSpec.rpow]. ring. Qed.
  Lemma sum3 N : mul (power_sum 3 N) (mul (rnat 2) (rnat 2)) = mul (mul (rnat N) (add (rnat N) one)) (mul (rnat N) (add (rnat N) one)).
  Proof using Rth. induction N as [|N IH]; [cbn; ring|]. rewrite ps_S. transitivity (add (mul (power_sum 3 N) (mul (rnat 2) (rnat 2))) (mul (rpow (rnat (S N)) 3) (mul (rnat 2) (rnat 2)))); [ring|]. rewrite IH. cbn [RingSpec.rnat RingSpec.rpow]. ring. Qed.
  Lemma sum0 N : power_sum 0 N = rnat N.
  Proof using Rth. unfold BernSpec.power_sum. induction N as [|N IH]; [reflexivity|]. cbn [RingSpec.rsum RingSpec.rpow RingSpec.rnat] in *. now rewrite IH. Qed.
  Lemma sum_pow_run p N B : (forall k, 1 <= k <= p + 1 -> unit (rnat k)) -> p < length B -> bernoulli_upto zero one add mul p (fun i => nth i B zero) ->
    sum_pow zero one add mul idiv ofint p N B = Some (power_sum p N).
  Proof using Rth idiv_ok ofint_ok.
    intros HU HL HB. unfold sum_pow. rewrite (nth_error_nth' B zero (n := 0)) by lia. cbn [obind]. rewrite !ofint_ok.
    destruct (Nat.eqb_spec p 0) as [->|N0]; [now rewrite sum0|].
    destruct (Nat.eqb_spec p 1) as [->|N1]; [apply idiv_eq; [apply HU; lia|apply sum1]|].
    destruct (Nat.eqb_spec p 2) as [->|N2].
    { apply idiv_eq; [|apply sum2]. destruct (HU 2 ltac:(lia)) as (u & Hu). destruct (HU 3 ltac:(lia)) as (v & Hv). exists (mul u v). change 6 with (2 * 3). rewrite (rnat_mul zero one add mul sub opp Rth). transitivity (mul (mul u (rnat 2)) (mul v (rnat 3))); [ring|]. rewrite Hu, Hv. ring. }
    destruct (Nat.eqb_spec p 3) as [->|N3].
    { destruct (idiv_ok (mul (rnat N) (add (rnat N) one)) 2 (HU 2 ltac:(lia))) as (h & E & Hh). rewrite E. cbn [obind]. f_equal. apply (unit_cancel (rnat 2)); [apply HU; lia|]. apply (unit_cancel (rnat 2)); [apply HU; lia|].
      transitivity (mul (mul h (rnat 2)) (mul h (rnat 2))); [ring|]. rewrite Hh, <- sum3. ring. }
    match goal with |- context [for_range 0 (p + 1) ?f ?s] => set (body := f); set (s0 := s) end. set (x := rnat N) in *.
    destruct (for_range_spec (fun k '(r, nk, bin) => nk = rpow x k /\ bin = rnat (choose (S p) k) /\ r = rsum k (fun i => mul (mul (rnat (choose (S p) (S i))) (nth (p - i) B zero)) (rpow x (S i)))) body 0 (p + 1) s0) as (((r & nk) & bin) & E & _ & _ & Er).
    - lia.
    - unfold s0. rewrite choose_0. cbn. repeat split; ring.
    - intros k ((r, nk), bin) Hk (-> & -> & ->). unfold body. rewrite ofint_ok. rewrite (idiv_eq _ (k + 1) (rnat (choose (S p) (S k)))); [|apply HU; lia|].
      2:{ rewrite <- !(rnat_mul zero one add mul sub opp Rth). f_equal. replace (k + 1) with (S k) by lia. rewrite choose_next by lia. f_equal. lia. }
      cbn [obind]. rewrite (nth_error_nth' B zero) by lia. cbn [obind]. eexists. split; [reflexivity|]. cbv beta iota. repeat split.
    - rewrite E. cbn [obind]. apply idiv_eq; [apply HU; lia|]. rewrite Er. transitivity (mul (rnat (S p)) (power_sum p N)); [replace (p + 1) with (S p) by lia; ring|]. rewrite <- (faulhaber zero one add mul sub opp Rth _ p N HB). fold x.
      unfold faul. replace (p + 1) with (S p) by lia. rewrite (rsum_rev zero one add mul sub opp Rth (S p)). apply RingProofs.rsum_ext. intros i Hi. replace (S p - 1 - i) with (p - i) by lia. replace (S p - (p - i)) with (S i) by lia.
      rewrite (choose_sym (S p) (p - i)) by lia. replace (S p - (p - i)) with (S i) by lia. reflexivity.
  Qed.
  Lemma cached_run p N B M : (forall k, 1 <= k <= M -> unit (rnat k)) -> p + p / 2 + 1 <= M -> bernoulli_upto zero one add mul (length B - 1) (fun i => nth i B zero) ->
    exists B', sum_pow_cached zero one add mul sub idiv ofint dflt p N B = Some (power_sum p N, B') /\ bernoulli_upto zero one add mul (length B' - 1) (fun i => nth i B' zero).
  Proof using Rth idiv_ok ofint_ok.
    intros HU HM HB. unfold sum_pow_cached. destruct (Nat.ltb_spec (length B) (p + 1)) as [L|G].
    - set (q := Nat.max p (length B + length B / 2)).
      assert (Hq : q <= p + p / 2) by (unfold q; assert (length B / 2 <= p / 2) by (apply Nat.div_le_mono; lia); lia).
      destruct (bernoulli_run q) as (b & E & Lb & Hb); [intros k Hk; apply HU; lia|]. rewrite E. cbn [obind].
      rewrite sum_pow_run; [|intros k Hk; apply HU; unfold q in *; lia|unfold q in *; lia|eapply bernoulli_less; [exact Hb|unfold q; lia]]. cbn [obind]. eexists. split; [reflexivity|]. rewrite Lb. replace (q + 1 - 1) with q by lia. exact Hb.
    - cbn [obind]. rewrite sum_pow_run; [|intros k Hk; apply HU; lia|lia|eapply bernoulli_less; [exact HB|lia]]. cbn [obind]. eexists. split; [reflexivity|exact HB].
  Qed.
  Lemma sum_pow_history M cs : (forall k, 1 <= k <= M -> unit (rnat k)) -> Forall (fun '(p, n) => p + p / 2 + 1 <= M) cs ->
    forall B, (B = [] \/ bernoulli_upto zero one add mul (length B - 1) (fun i => nth i B zero)) ->
    sum_pow_calls zero one add mul sub idiv ofint dflt cs B = Some (map (fun '(p, n) => power_sum p n) cs).
  Proof using Rth idiv_ok ofint_ok.
    intros HU. induction cs as [|(p, n) cs IH]; intros F B HB; [reflexivity|]. inversion F as [|? ? F1 F2]; subst. cbn [sum_pow_calls map].
    assert (X : exists B', sum_pow_cached zero one add mul sub idiv ofint dflt p n B = Some (power_sum p n, B') /\ bernoulli_upto zero one add mul (length B' - 1) (fun i => nth i B' zero)).
    { destruct HB as [->|HB]; [|now apply (cached_run p n B M)]. unfold sum_pow_cached. cbn [length]. change (0 / 2) with 0. destruct (Nat.ltb_spec 0 (p + 1)); [|lia]. replace (Nat.max p (0 + 0)) with p by lia.
      destruct (bernoulli_run p) as (b & E & Lb & Hb); [intros k Hk; apply HU; lia|]. rewrite E. cbn [obind]. rewrite sum_pow_run; [|intros k Hk; apply HU; lia|lia|exact Hb]. cbn [obind]. eexists. split; [reflexivity|]. rewrite Lb. replace (p + 1 - 1) with p by lia. exact Hb. }
    destruct X as (B' & E & HB'). rewrite E. cbn [obind]. rewrite IH by auto. reflexivity.
  Qed.

  (** ** discrete integral of a polynomial *)
  Local Notation value := (poly_value zero one add mul). Local Notation coef := (coef zero).
  Lemma value_long p x L : length p <= L -> value p x = rsum L (fun i => mul (coef p i) (rpow x i)).
  Proof using Rth. intros H. unfold BernSpec.poly_value. symmetry. apply (rsum_trunc zero one add mul sub opp Rth); [exact H|]. intros i Hi. unfold SeriesSpec.coef. rewrite nth_overflow by lia. ring. Qed.
  Lemma value_put s i v : exists s', p_put zero s (Z.of_nat i) (add (p_at zero s (Z.of_nat i)) v) = Some s' /\ forall x, value s' x = add (value s x) (mul v (rpow x i)).
  Proof using Rth.
    destruct (put_spec zero s (Z.of_nat i) (add (p_at zero s (Z.of_nat i)) v) ltac:(lia)) as (s' & E & Ls & V). exists s'. split; [exact E|]. intros x. rewrite (p_at_coef zero s i) in V. rewrite Nat2Z.id in V.
    rewrite (value_long s' x (length s')) by lia. rewrite (value_long s x (length s')) by lia. transitivity (add (rsum (length s') (fun j => mul (coef s j) (rpow x j))) (rsum (length s') (fun j => if j =? i then mul v (rpow x i) else zero))).
    - rewrite <- (rsum_add zero one add mul sub opp Rth). apply RingProofs.rsum_ext. intros j _. rewrite V. destruct (Nat.eqb_spec j i) as [->|N]; ring.
    - f_equal. rewrite (rsum_single zero one add mul sub opp Rth _ _ i); [now rewrite Nat.eqb_refl|lia|]. intros j _ N. destruct (Nat.eqb_spec j i); [contradiction|reflexivity].
  Qed.
  Lemma polynom_sum_run p : (forall k, 1 <= k <= p_deg zero teqb p + 1 -> unit (rnat k)) ->
    exists s, polynom_sum zero one add mul sub idiv ofint teqb dflt p = Some s /\ value s zero = zero /\ forall y, sub (value s (add y one)) (value s y) = value p (add y one).
  Proof using Rth idiv_ok ofint_ok teqb_spec.
    intros HU. unfold polynom_sum. destruct (deg_spec zero teqb teqb_spec p) as (Dl & Da & _). set (d := p_deg zero teqb p) in *.
    destruct (bernoulli_run d HU) as (b & E & Lb & HB). rewrite E. cbn [obind]. set (bf := fun i => nth i b zero) in *.
    match goal with |- context [for_down 0 (d + 1) ?f ?s] => set (body := f) end.
    destruct (for_down_spec (fun m s => exists q : nat -> R, (forall j, m <= j <= d -> mul (q j) (rnat (S j)) = coef p j) /\ forall x, value s x = rsum (d + 1 - m) (fun i => mul (q (m + i)) (faul zero one add mul bf (S (m + i)) x))) body 0 (d + 1) [zero]) as (s & Es & q & Hq & Vs).
    - lia.
    - exists (fun _ => zero). split; [intros j Hj; lia|]. intros x. rewrite Nat.sub_diag. cbn. ring.
    - intros m s Hm (q & Hq & Vs). unfold body. rewrite p_at_coef. destruct (idiv_ok (coef p m) (m + 1) (HU (m + 1) ltac:(lia))) as (c & Ec & Hc). rewrite Ec. cbn [obind].
      set (q' := fun j => if j =? m then c else q j). assert (Q1 : q' m = c) by (unfold q'; now rewrite Nat.eqb_refl). assert (Q2 : forall j, j <> m -> q' j = q j) by (intros j N; unfold q'; destruct (Nat.eqb_spec j m); [contradiction|reflexivity]). clearbody q'.
      assert (Step : forall s', (forall x, value s' x = add (value s x) (mul c (faul zero one add mul bf (S m) x))) -> exists q, (forall j, m <= j <= d -> mul (q j) (rnat (S j)) = coef p j) /\ forall x, value s' x = rsum (d + 1 - m) (fun i => mul (q (m + i)) (faul zero one add mul bf (S (m + i)) x))).
      { intros s' Hs'. exists q'. split.
        - intros j Hj. destruct (Nat.eq_dec j m) as [->|N]; [rewrite Q1; replace (S m) with (m + 1) by lia; exact Hc|]. rewrite Q2 by exact N. apply Hq. lia.
        - intros x. rewrite Hs', Vs. replace (d + 1 - m) with (S (d + 1 - S m)) by lia. rewrite (rsum_S_l zero one add mul sub opp Rth). rewrite Nat.add_0_r, Q1.
          rewrite (RingProofs.rsum_ext zero add (d + 1 - S m) (fun i => mul (q' (m + S i)) (faul zero one add mul bf (S (m + S i)) x)) (fun i => mul (q (S m + i)) (faul zero one add mul bf (S (S m + i)) x))) by (intros i _; replace (m + S i) with (S m + i) by lia; rewrite Q2 by lia; reflexivity). ring. }
      destruct (teqb c zero) eqn:Et.
      + apply teqb_spec in Et. exists s. split; [reflexivity|]. apply Step. intros x. rewrite Et. ring.
      + match goal with |- context [for_range 0 (m + 1) ?f ?s] => set (inner := f) end.
        destruct (for_range_spec (fun k '(s', c') => c' = mul c (rnat (choose (S m) k)) /\ forall x, value s' x = add (value s x) (mul c (rsum k (fun i => mul (mul (rnat (choose (S m) i)) (bf i)) (rpow x (S m - i)))))) inner 0 (m + 1) (s, c)) as ((s' & c') & Ei & _ & Vi).
        * lia.
        * rewrite choose_0. cbn. split; [ring|]. intros x. ring.
        * intros k (s1, c1) Hk (-> & V1). unfold inner. rewrite (nth_error_nth' b zero) by lia. cbn [obind]. fold (bf k).
          destruct (value_put s1 (m + 1 - k) (mul (mul c (rnat (choose (S m) k))) (bf k))) as (s2 & E2 & V2). rewrite E2. cbn [obind]. rewrite ofint_ok.
          rewrite (idiv_eq _ (k + 1) (mul c (rnat (choose (S m) (S k))))); [|apply HU; lia|].
          2:{ transitivity (mul c (mul (rnat (choose (S m) (S k))) (rnat (S k)))); [replace (k + 1) with (S k) by lia; ring|]. rewrite <- (rnat_mul zero one add mul sub opp Rth), choose_next, (rnat_mul zero one add mul sub opp Rth) by lia. replace (m + 1 - k) with (S m - k) by lia. ring. }
          cbn [obind]. eexists. split; [reflexivity|]. cbv beta iota. split; [reflexivity|]. intros x. rewrite V2, V1. cbn [RingSpec.rsum]. replace (m + 1 - k) with (S m - k) by lia. ring.
        * rewrite Ei. cbn [obind]. exists s'. split; [reflexivity|]. apply Step. intros x. rewrite Vi. unfold faul. replace (m + 1) with (S m) by lia. reflexivity.
    - exists s. split; [exact Es|]. split.
      + rewrite Vs. apply (rsum_zero zero one add mul sub opp Rth). intros i _. rewrite (faul_0 zero one add mul sub opp Rth). ring.
      + intros y. rewrite !Vs, <- (rsum_sub zero one add mul sub opp Rth). rewrite Nat.sub_0_r.
        rewrite (RingProofs.rsum_ext zero add (d + 1) _ (fun i => mul (coef p i) (rpow (add y one) i))).
        * rewrite (value_long p (add y one) (Nat.max (length p) (d + 1))) by lia. symmetry. apply (rsum_trunc zero one add mul sub opp Rth); [lia|]. intros i Hi. rewrite Da by lia. ring.
        * intros i Hi. cbn [Nat.add]. rewrite <- (Hq i) by lia. transitivity (mul (q i) (sub (faul zero one add mul bf (S i) (add y one)) (faul zero one add mul bf (S i) y))); [ring|]. rewrite (faul_step zero one add mul sub opp Rth) by (eapply bernoulli_less; [exact HB|lia]). ring.
  Qed.
  Lemma polynom_sum_at p s : value s zero = zero -> (forall y, sub (value s (add y one)) (value s y) = value p (add y one)) ->
    forall N, value s (rnat N) = rsum N (fun i => value p (rnat (S i))).
  Proof using Rth.
    intros H0 Hs. induction N as [|N IH]; [exact H0|]. cbn [RingSpec.rsum]. rewrite <- IH. cbn [RingSpec.rnat]. rewrite <- Hs. ring.
  Qed.
End Bern2.
