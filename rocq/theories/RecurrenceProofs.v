From Coq Require Import Ring Ring_theory.
From Verif Require Import Lib RingSpec RingProofs SeriesSpec SeriesProofs PolyModel PolyProofs PolyProofs2 PolyProofs3 PolyProofs4 PolyProofs5 RecurrenceModel RecurrenceSpec.
Open Scope Z_scope.

Section RecProofs.
  Context {R A : Type} (zero one : R) (add mul sub : R -> R -> R) (opp : R -> R).
  Hypothesis Rth : ring_theory zero one add mul sub opp (@eq R).
  Add Ring Rr1 : Rth.
  Variable tdiv : R -> R -> option R.
  Variable eqb : R -> R -> bool.
  Hypothesis eqb_spec : forall x y, eqb x y = true <-> x = y.
  Hypothesis H10 : one <> zero.
  Hypothesis div1 : forall x, tdiv x one = Some x.
  Context (zeroA oneA : A) (addA mulA subA : A -> A -> A) (oppA : A -> A).
  Hypothesis Ath : ring_theory zeroA oneA addA mulA subA oppA (@eq A).
  Add Ring Rr2 : Ath.
  Variable cast : R -> A.
  Hypothesis cast0 : cast zero = zeroA.
  Hypothesis cast1 : cast one = oneA.
  Hypothesis castadd : forall x y, cast (add x y) = addA (cast x) (cast y).
  Hypothesis castmul : forall x y, cast (mul x y) = mulA (cast x) (cast y).
  Hypothesis castopp : forall x, cast (opp x) = oppA (cast x).
  Variables (thr : Z) (slow isfloat : bool).
  Local Notation coef := (coef zero). Local Notation pconv := (pconv zero add mul). Local Notation rsumA := (rsum zeroA addA).
  Local Notation deg := (p_deg zero eqb).
  Local Notation pmod := (p_mod zero one add sub mul opp tdiv eqb thr slow isfloat).

  Lemma cast_rsum n f : cast (rsum zero add n f) = rsumA n (fun i => cast (f i)).
  Proof using cast0 castadd. induction n as [|n IH]; [exact cast0|]. rewrite !rsum_S, castadd, IH. reflexivity. Qed.

  (** pairing of a finitely supported coefficient function with a sequence *)
  Definition pair (N : nat) (a : nat -> R) (g : nat -> A) : A := rsumA N (fun i => mulA (cast (a i)) (g i)).
  Lemma pair_more N M a g : (forall i, (N <= i)%nat -> a i = zero) -> (N <= M)%nat -> pair M a g = pair N a g.
  Proof using Ath cast0.
    intros H L. unfold pair. replace M with (N + (M - N))%nat by lia. rewrite (rsum_split _ _ _ _ _ _ Ath). rewrite (rsum_zero _ _ _ _ _ _ Ath (M - N)); [ring|].
    intros i _. rewrite H by lia. rewrite cast0. ring.
  Qed.
  Lemma pair_conv N a b g : (forall i, (N <= i)%nat -> a i = zero) -> (forall i, (N <= i)%nat -> b i = zero) ->
    pair (N + N) (pconv a b) g = pair N a (fun i => pair N b (fun j => g (i + j)%nat)).
  Proof using Ath cast0 castadd castmul.
    intros Ha Hb. unfold pair at 1.
    rewrite (rsum_ext _ _ (N + N) _ (fun i => rsumA (S i) (fun j => mulA (mulA (cast (a j)) (cast (b (i - j)%nat))) (g (j + (i - j))%nat)))).
    2:{ intros i _. unfold SeriesSpec.pconv. rewrite cast_rsum. rewrite <- (rsum_mul_r _ _ _ _ _ _ Ath). apply rsum_ext. intros j Hj. rewrite castmul.
        replace (j + (i - j))%nat with i by lia. reflexivity. }
    rewrite (rsum_triangle _ _ _ _ _ _ Ath (N + N) (fun j k => mulA (mulA (cast (a j)) (cast (b k))) (g (j + k)%nat))).
    rewrite (rsum_split _ _ _ _ _ _ Ath). rewrite (rsum_zero _ _ _ _ _ _ Ath N (fun i => rsumA (N + N - (N + i)) _)).
    - unfold pair. rewrite (Radd_comm Ath), (Radd_0_l Ath). apply rsum_ext. intros j Hj. rewrite <- (rsum_mul_l _ _ _ _ _ _ Ath).
      replace (N + N - j)%nat with (N + (N - j))%nat by lia. rewrite (rsum_split _ _ _ _ _ _ Ath). rewrite (rsum_zero _ _ _ _ _ _ Ath (N - j)).
      + rewrite (Radd_comm Ath), (Radd_0_l Ath). apply rsum_ext. intros k _. ring.
      + intros k _. rewrite (Hb (N + k)%nat) by lia. rewrite cast0. ring.
    - intros i _. apply (rsum_zero _ _ _ _ _ _ Ath). intros k _. rewrite (Ha (N + i)%nat) by lia. rewrite cast0. ring.
  Qed.
  Lemma pair_add N a b g : pair N (fun i => add (a i) (b i)) g = addA (pair N a g) (pair N b g).
  Proof using Ath castadd. unfold pair. rewrite <- (rsum_add _ _ _ _ _ _ Ath). apply rsum_ext. intros. rewrite castadd. ring. Qed.
  Lemma pair_ext N a b g h : (forall i, (i < N)%nat -> a i = b i) -> (forall i, (i < N)%nat -> g i = h i) -> pair N a g = pair N b h.
  Proof using. intros H1 H2. apply rsum_ext. intros i Hi. rewrite H1, H2 by exact Hi. reflexivity. Qed.

  Section Coeffs.
    Variable c : list R.
    Hypothesis Hc : c <> [].
    Local Notation L := (length c).
    Local Notation recurrent := (recurrent zeroA addA mulA cast zero c).

    Lemma coeff_to_poly_spec : exists p, coeff_to_poly zero one opp c = Some p /\ length p = (L + 1)%nat /\
      coef p L = one /\ (forall i, (i < L)%nat -> coef p i = opp (coef c (L - 1 - i))).
    Proof using Hc.
      unfold coeff_to_poly. assert (HL : (1 <= L)%nat) by (destruct c; [contradiction|cbn; lia]).
      destruct (nth_error_some c 0) as (c0 & E0); [lia|]. rewrite E0. cbn [obind].
      destruct (put_spec zero (repeat zero (L + 1)) (Z.of_nat L) one) as (p0 & Ep & Lp & Vp); [lia|]. rewrite Ep. cbn [obind].
      rewrite repeat_length in Lp. rewrite Nat2Z.id in Vp.
      destruct (for_range_spec (fun i p => length p = (L + 1)%nat /\ coef p L = one /\ forall j, (L - i <= j < L)%nat -> coef p j = opp (coef c (L - 1 - j)))
        (fun i p => let* c0 := nth_error c i in p_put zero p (Z.of_nat L - 1 - Z.of_nat i) (opp c0)) 0 L p0) as (p & E & I1 & I2 & I3).
      - lia.
      - split; [lia|]. split; [rewrite Vp, Nat.eqb_refl; reflexivity|]. intros; lia.
      - intros i p Hi (J1 & J2 & J3). assert (N : nth_error c i = Some (coef c i)) by (apply nth_error_nth'; lia). rewrite N. cbn [obind].
        destruct (put_spec zero p (Z.of_nat L - 1 - Z.of_nat i) (opp (coef c i))) as (p' & E' & L' & V'); [lia|]. exists p'. split; [exact E'|].
        split; [lia|]. split.
        + rewrite V'. destruct (Nat.eqb_spec L (Z.to_nat (Z.of_nat L - 1 - Z.of_nat i))); [lia|exact J2].
        + intros j Hj. rewrite V'. destruct (Nat.eqb_spec j (Z.to_nat (Z.of_nat L - 1 - Z.of_nat i))) as [->|Nj]; [do 2 f_equal; lia|]. apply J3. lia.
      - exists p. split; [exact E|]. split; [exact I1|]. split; [exact I2|]. intros i Hi. apply I3. lia.
    Qed.

    Variable p : list R.
    Hypothesis Lp : length p = (L + 1)%nat.
    Hypothesis PL : coef p L = one.
    Hypothesis Pi : forall i, (i < L)%nat -> coef p i = opp (coef c (L - 1 - i)).

    Lemma p_degree : deg p = L.
    Proof using Lp PL eqb_spec H10.
      apply (deg_char zero eqb eqb_spec); [right; rewrite PL; exact H10|]. intros i Hi. apply coef_above. lia.
    Qed.
    (** the characteristic polynomial annihilates every recurrent sequence *)
    Lemma p_kills g : recurrent g -> forall n, pair (L + 1) (coef p) (fun i => g (n + i)%nat) = zeroA.
    Proof using Ath Hc Lp PL Pi cast1 castopp.
      intros Hg n. unfold pair. replace (L + 1)%nat with (S L) by lia. rewrite rsum_S. rewrite PL, cast1, (Hg n).
      rewrite (rsum_rev _ _ _ _ _ _ Ath L (fun i => mulA (cast (nth i c zero)) _)).
      rewrite <- (rsum_mul_l _ _ _ _ _ _ Ath), <- (rsum_add _ _ _ _ _ _ Ath). apply (rsum_zero _ _ _ _ _ _ Ath). intros i Hi.
      rewrite Pi by exact Hi. rewrite castopp. unfold SeriesSpec.coef. replace (n + L - 1 - (L - 1 - i))%nat with (n + i)%nat by lia. ring.
    Qed.
    Lemma recurrent_shift g k : recurrent g -> recurrent (fun i => g (k + i)%nat).
    Proof using Hc Lp.
      intros H n. specialize (H (k + n)%nat). replace (k + (n + L))%nat with (k + n + L)%nat by lia. rewrite H. apply rsum_ext. intros i Hi.
      do 2 f_equal. clear - Hi. lia.
    Qed.

    (** reduction modulo p preserves the pairing with recurrent sequences *)
    Lemma pmod_spec m : exists r, pmod m p = Some r /\ (forall i, (L <= i)%nat -> coef r i = zero) /\
      forall g, recurrent g -> pair L (coef r) g = pair (length m) (coef m) g.
    Proof using Rth Ath Hc Lp PL Pi H10 div1 eqb_spec cast0 cast1 castadd castmul castopp.
      assert (D : deg p = L) by exact p_degree.
      destruct (div_mod_spec _ _ _ _ _ _ Rth tdiv eqb eqb_spec H10 thr slow isfloat m p one) as (q & r & _ & E & V & Z0).
      { rewrite D, PL. ring. } { intros x. rewrite D, PL, div1. f_equal. ring. }
      rewrite D in Z0. exists r. split; [exact E|]. split; [exact Z0|]. intros g Hg.
      set (N := (length q + length m + length p)%nat).
      rewrite <- (pair_more L (N + N) (coef r) g Z0) by (unfold N; lia).
      rewrite <- (pair_more (length m) (N + N) (coef m) g) by (try (intros; apply coef_above); unfold N; lia).
      rewrite (pair_ext (N + N) (coef m) (fun n => add (pconv (coef q) (coef p) n) (coef r n)) g g) by auto.
      rewrite pair_add, pair_conv by (intros; apply coef_above; unfold N in *; lia).
      rewrite (pair_ext N (coef q) (coef q) _ (fun _ => zeroA)); [|auto|].
      - unfold pair at 2. rewrite (rsum_zero _ _ _ _ _ _ Ath N); [ring|]. intros; ring.
      - intros i _. rewrite (pair_more (L + 1) N) by (try (intros; apply coef_above); unfold N in *; lia). apply p_kills. exact Hg.
    Qed.

    (** [r] represents x^e *)
    Definition good (e : nat) (r : list R) : Prop := (forall i, (L <= i)%nat -> coef r i = zero) /\ forall g, recurrent g -> pair L (coef r) g = g e.

    Lemma polymod_mul_spec e1 e2 r1 r2 : good e1 r1 -> good e2 r2 -> exists r, polymod_mul zero one add sub mul opp tdiv eqb thr slow isfloat p r1 r2 = Some r /\ good (e1 + e2) r.
    Proof using Rth Ath Hc Lp PL Pi H10 div1 eqb_spec cast0 cast1 castadd castmul castopp.
      intros (Z1 & G1) (Z2 & G2). unfold polymod_mul. destruct (op_mul_spec _ _ _ _ _ _ Rth eqb eqb_spec thr r1 r2) as (m & Em & _ & Vm). rewrite Em. cbn [obind].
      destruct (pmod_spec m) as (r & E & Zr & Gr). exists r. split; [exact E|]. split; [exact Zr|]. intros g Hg. rewrite Gr by exact Hg.
      set (N := (L + length m)%nat).
      rewrite <- (pair_more (length m) (N + N) (coef m) g) by (try (intros; apply coef_above); unfold N; lia).
      rewrite (pair_ext (N + N) (coef m) (pconv (coef r1) (coef r2)) g g) by auto. rewrite pair_conv; [|intros; apply Z1; unfold N in *; lia|intros; apply Z2; unfold N in *; lia].
      rewrite (pair_ext N (coef r1) (coef r1) _ (fun i => g (e2 + i)%nat)); [|auto|].
      - rewrite (pair_more L N) by (auto; unfold N; lia). rewrite (G1 (fun i => g (e2 + i)%nat)) by (apply recurrent_shift; exact Hg). f_equal. lia.
      - intros i _. rewrite (pair_more L N) by (auto; unfold N; lia). rewrite (G2 (fun j => g (i + j)%nat)) by (apply recurrent_shift; exact Hg). f_equal. lia.
    Qed.

    Lemma polymod_pow_spec x0 n : good 1 x0 -> 0 <= n -> exists r, polymod_pow zero one add sub mul opp tdiv eqb thr slow isfloat p x0 n = Some r /\ good (Z.to_nat n) r.
    Proof using Rth Ath Hc Lp PL Pi H10 div1 eqb_spec cast0 cast1 castadd castmul castopp.
      intros G1 Hn. unfold polymod_pow. destruct (pmod_spec [one]) as (e & Ee & Ze & Ge). rewrite Ee. cbn [obind].
      assert (G0 : good 0 e). { split; [exact Ze|]. intros g Hg. rewrite Ge by exact Hg. unfold pair. cbn [length]. rewrite rsum_S. cbn. rewrite cast1. ring. }
      destruct (loopZ_spec (fun '(r, x, y) =>
          if 0 <? y then
            let* r' := (if Z.rem y 2 =? 0 then Some r else polymod_mul zero one add sub mul opp tdiv eqb thr slow isfloat p r x) in
            let* x' := polymod_mul zero one add sub mul opp tdiv eqb thr slow isfloat p x x in
            Some (inl (r', x', Z.quot y 2))
          else Some (inr r))
        (fun '(r, x, y) => 0 <= y /\ exists a b, good a r /\ good b x /\ (a + b * Z.to_nat y)%nat = Z.to_nat n)
        (fun r => good (Z.to_nat n) r) (fun '(_, _, y) => y)) with (fuel := Z.abs n + 1) (s := (e, x0, n)) as (r & E & P).
      - intros [[r x] y] (Hy & a & b & Ga & Gb & S). destruct (Z.ltb_spec 0 y) as [Ly|Ly].
        + destruct (polymod_mul_spec b b x x Gb Gb) as (x' & Ex & Gx).
          assert (Q : exists r' a', (if Z.rem y 2 =? 0 then Some r else polymod_mul zero one add sub mul opp tdiv eqb thr slow isfloat p r x) = Some r' /\ good a' r' /\ (a' = a + b * Z.to_nat (Z.rem y 2))%nat).
          { rewrite Z.rem_mod_nonneg by lia. pose proof (Z.mod_pos_bound y 2). destruct (Z.eqb_spec (y mod 2) 0) as [E0|E0].
            - exists r, a. split; [reflexivity|]. split; [exact Ga|]. rewrite E0. lia.
            - destruct (polymod_mul_spec a b r x Ga Gb) as (r' & Er & Gr). exists r', (a + b)%nat. split; [exact Er|]. split; [exact Gr|]. replace (y mod 2) with 1 by lia. lia. }
          destruct Q as (r' & a' & Er & Ga' & Ea). rewrite Er. cbn [obind]. rewrite Ex. cbn [obind]. eexists. split; [reflexivity|]. cbv beta iota.
          rewrite Z.rem_mod_nonneg in Ea by lia. rewrite Z.quot_div_nonneg by lia. pose proof (Z.div_mod y 2). pose proof (Z.mod_pos_bound y 2). pose proof (Z.div_lt y 2).
          split; [|lia]. split; [lia|]. exists a', (b + b)%nat. split; [exact Ga'|]. split; [exact Gx|]. rewrite <- S, Ea.
          replace (Z.to_nat y) with (Z.to_nat (y mod 2) + 2 * Z.to_nat (y / 2))%nat by lia. lia.
        + eexists. split; [reflexivity|]. cbv beta iota. replace (Z.to_nat n) with a; [exact Ga|]. rewrite <- S. replace (Z.to_nat y) with O by lia. lia.
      - intros [[r x] y] (Hy & _). exact Hy.
      - split; [exact Hn|]. exists O, 1%nat. split; [exact G0|]. split; [exact G1|]. lia.
      - lia.
      - exists r. auto.
    Qed.
  End Coeffs.

  Lemma linear_recurrence_spec c f f_init n : c <> [] -> recurrent zeroA addA mulA cast zero c f -> (length c <= length f_init)%nat ->
    (forall i, (i < length c)%nat -> nth_error f_init i = Some (f i)) -> 0 <= n ->
    linear_recurrence zero one add sub mul opp tdiv eqb zeroA addA mulA cast thr slow isfloat c f_init n = Some (f (Z.to_nat n)).
  Proof using Rth Ath H10 div1 eqb_spec cast0 cast1 castadd castmul castopp.
    intros Hc Hf Hlen Hi Hn. unfold linear_recurrence. assert (HL : (1 <= length c)%nat) by (destruct c; [contradiction|cbn; lia]).
    destruct (nth_error_some c 0) as (c0 & E0); [lia|]. rewrite E0. cbn [obind].
    destruct (coeff_to_poly_spec c Hc) as (p & Ep & Lp & PL & Pi). rewrite Ep. cbn [obind].
    destruct (pmod_spec c Hc p Lp PL Pi [zero; one]) as (x & Ex & Zx & Gx). rewrite Ex. cbn [obind].
    assert (G1 : good c 1 x).
    { split; [exact Zx|]. intros g Hg. rewrite Gx by exact Hg. unfold pair. cbn [length]. rewrite !rsum_S. cbn. rewrite cast0, cast1. ring. }
    destruct (polymod_pow_spec c Hc p Lp PL Pi x n G1 Hn) as (xn & En & Zn & Gn). rewrite En. cbn [obind].
    rewrite (Hi O) by lia. cbn [obind].
    destruct (for_range_spec (fun i r => r = pair i (coef xn) f) (fun i r => let* f := nth_error f_init i in Some (addA r (mulA (cast (p_at zero xn (Z.of_nat i))) f))) 0 (length c) zeroA) as (r & E & V).
    - lia.
    - reflexivity.
    - intros i r Hi' ->. rewrite Hi by lia. cbn [obind]. eexists. split; [reflexivity|]. unfold pair. rewrite rsum_S, p_at_coef. reflexivity.
    - rewrite E, V. f_equal. apply Gn. exact Hf.
  Qed.

  Lemma next_spec c (v : list A) f : c <> [] -> recurrent zeroA addA mulA cast zero c f -> (length c <= length v)%nat -> (forall i, (i < length v)%nat -> nth_error v i = Some (f i)) ->
    linear_recurrence_next zeroA addA mulA cast c v = Some (f (length v)).
  Proof using Ath.
    intros Hc Hf Hl Hv. unfold linear_recurrence_next. assert (HL : (1 <= length c)%nat) by (destruct c; [contradiction|cbn; lia]).
    rewrite (Hv O) by lia. cbn [obind].
    destruct (for_range_spec (fun i r => r = rsumA i (fun j => mulA (cast (nth j c zero)) (f (length v - 1 - j)%nat)))
      (fun i r => let* c0 := nth_error c i in let* _ := guard (i + 1 <=? length v)%nat in let* f0 := nth_error v (length v - 1 - i) in Some (addA r (mulA (cast c0) f0))) 0 (length c) zeroA) as (r & E & V).
    - lia.
    - reflexivity.
    - intros i r Hi ->. rewrite (nth_error_nth' c zero) by lia. cbn [obind]. destruct (Nat.leb_spec (i + 1) (length v)); [|lia]. cbn [guard obind].
      rewrite Hv by lia. cbn [obind]. eexists. split; [reflexivity|]. rewrite rsum_S. reflexivity.
    - rewrite E, V. f_equal. pose proof (Hf (length v - length c)%nat) as H. replace (length v - length c + length c)%nat with (length v) in H by lia. rewrite H. reflexivity.
  Qed.
End RecProofs.
