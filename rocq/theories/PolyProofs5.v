From Coq Require Import Ring Ring_theory.
From Verif Require Import Lib RingSpec RingProofs SeriesSpec SeriesProofs PolyModel PolyProofs PolyProofs2 PolyProofs3 PolyProofs4.
Open Scope Z_scope.

Section PolyProofs5.
  Context {R : Type} (zero one : R) (add mul sub : R -> R -> R) (opp : R -> R).
  Hypothesis Rth : ring_theory zero one add mul sub opp (@eq R).
  Add Ring Rp5 : Rth.
  Variable tdiv : R -> R -> option R.
  Variable eqb : R -> R -> bool.
  Hypothesis eqb_spec : forall x y, eqb x y = true <-> x = y.
  Hypothesis H10 : one <> zero.
  Local Notation pconv := (pconv zero add mul). Local Notation pshift := (pshift zero).
  Local Notation ptrunc := (ptrunc zero). Local Notation pconst := (pconst zero). Local Notation rsum := (rsum zero add).
  Local Notation coef := (coef zero). Local Notation deg := (p_deg zero eqb).

  Lemma deg_above c i : (deg c < i)%nat -> coef c i = zero.
  Proof using eqb_spec. apply (proj1 (proj2 (deg_spec zero eqb eqb_spec c))). Qed.

  (** [pr] packs quotient (from degree [deg p2] on) and remainder (below) *)
  Definition packed (p1 p2 pr : list R) : Prop :=
    (forall n, coef p1 n = add (pconv (fun j => coef pr (j + deg p2)%nat) (coef p2) n) (if Nat.ltb n (deg p2) then coef pr n else zero)) /\
    forall n, (deg p1 < n)%nat -> coef pr n = zero.

  Lemma lowest_spec c i0 : (forall i, (i0 + i < lowest_n zero eqb c i0)%nat -> coef c i = zero).
  Proof using eqb_spec.
    revert i0; induction c as [|x c IH]; intros i0 i Hi; cbn [lowest_n] in Hi; [lia|].
    destruct (eqb x zero) eqn:E; cbn [negb] in Hi; [|lia]. apply eqb_spec in E. destruct i as [|i]; [exact E|]. apply (IH (S i0)). lia.
  Qed.
  Lemma is_power_spec c : p_is_power zero one eqb c = true -> forall i, coef c i = pshift (deg c) (pconst one) i.
  Proof using eqb_spec.
    unfold p_is_power. intros H i. apply andb_true_iff in H. destruct H as (H1 & H2). apply Nat.eqb_eq in H1. apply eqb_spec in H2. rewrite p_at_coef in H2.
    destruct (Nat.lt_trichotomy i (deg c)) as [L|[L|L]].
    - rewrite pshift_lt by exact L. apply (lowest_spec c 0). unfold p_lowest in H1. lia.
    - rewrite L, pshift_ge by lia. rewrite Nat.sub_diag. exact H2.
    - rewrite pshift_ge by lia. rewrite deg_above by exact L. replace (i - deg c)%nat with (S (i - deg c - 1)) by lia. reflexivity.
  Qed.

  Lemma packed_low p1 p2 : (deg p1 < deg p2)%nat -> packed p1 p2 p1.
  Proof using Rth eqb_spec.
    intros H. split; [|apply deg_above]. intros n.
    assert (Z0 : pconv (fun j => coef p1 (j + deg p2)%nat) (coef p2) n = zero).
    { apply (rsum_zero _ _ _ _ _ _ Rth). intros j _. rewrite deg_above by lia. ring. }
    rewrite Z0. destruct (Nat.ltb_spec n (deg p2)) as [L|L]; [ring|]. rewrite deg_above by lia. ring.
  Qed.
  Lemma packed_power p1 p2 : p_is_power zero one eqb p2 = true -> packed p1 p2 p1.
  Proof using Rth eqb_spec.
    intros H. split; [|apply deg_above]. intros n. pose proof (is_power_spec p2 H) as V.
    rewrite (pconv_ext _ _ _ _ (fun j => coef p1 (j + deg p2)%nat) (coef p2) (pshift (deg p2) (pconst one)) n) by auto.
    rewrite (pconv_comm _ _ _ _ _ _ Rth), (pconv_shift_l _ _ _ _ _ _ Rth). destruct (Nat.ltb_spec n (deg p2)) as [L|L].
    - rewrite pshift_lt by exact L. ring.
    - rewrite pshift_ge by exact L. rewrite (pconv_const_l _ _ _ _ _ _ Rth). replace (n - deg p2 + deg p2)%nat with n by lia. ring.
  Qed.

  Section Lead.
    Variables (p1 p2 : list R) (u : R).
    Hypothesis Hu : mul (coef p2 (deg p2)) u = one.
    Hypothesis Hd : forall x, tdiv x (coef p2 (deg p2)) = Some (mul x u).
    Let l1 := deg p1. Let l2 := deg p2.

    (** remainder still to be reduced below [i], quotient above *)
    Definition midpack (pr : list R) (i : Z) : Prop :=
      (forall n, coef p1 n = add (pconv (fun j => if i <? Z.of_nat (j + l2) then coef pr (j + l2)%nat else zero) (coef p2) n)
                              (if Z.of_nat n <=? i then coef pr n else zero)) /\
      forall n, (l1 < n)%nat -> coef pr n = zero.

    Lemma long_step pr i s pr' : Z.of_nat l2 <= i <= Z.of_nat l1 -> midpack pr i -> s = mul (coef pr (Z.to_nat i)) u ->
      (forall n, coef pr' n = if Nat.eqb n (Z.to_nat i) then s
        else if (i - Z.of_nat l2 <=? Z.of_nat n) && (Z.of_nat n <? i) then sub (coef pr n) (mul s (coef p2 (Z.to_nat (Z.of_nat l2 - (i - Z.of_nat n))))) else coef pr n) ->
      midpack pr' (i - 1).
    Proof using Rth Hu eqb_spec.
      intros Hi (H1 & H2) Hs V. set (m := Z.to_nat i) in *. assert (Em : i = Z.of_nat m) by lia. clearbody m. subst i.
      assert (V' : forall n, coef pr' n = if Nat.eqb n m then s else if Nat.ltb n m && Nat.leb (m - l2) n then sub (coef pr n) (mul s (coef p2 (l2 - (m - n))%nat)) else coef pr n).
      { intros n. rewrite V. destruct (Nat.eqb_spec n m); [reflexivity|].
        destruct (Z.leb_spec (Z.of_nat m - Z.of_nat l2) (Z.of_nat n)), (Z.ltb_spec (Z.of_nat n) (Z.of_nat m)), (Nat.ltb_spec n m), (Nat.leb_spec (m - l2) n); cbn [andb]; try lia; try reflexivity.
        do 4 f_equal. lia. }
      clear V. split.
      - intros n. rewrite H1. set (Q := fun j : nat => if Z.of_nat m <? Z.of_nat (j + l2) then coef pr (j + l2)%nat else zero).
        rewrite (pconv_ext _ _ _ (fun j => if Z.of_nat m - 1 <? Z.of_nat (j + l2) then coef pr' (j + l2)%nat else zero)
          (fun j => add (Q j) (pshift (m - l2) (pconst s) j)) (coef p2) (coef p2) n); [|intros j _|auto].
        + rewrite (pconv_add_l _ _ _ _ _ _ Rth), (pconv_shift_l _ _ _ _ _ _ Rth).
          assert (A : (if Z.of_nat n <=? Z.of_nat m then coef pr n else zero) =
            add (pshift (m - l2) (pconv (pconst s) (coef p2)) n) (if Z.of_nat n <=? Z.of_nat m - 1 then coef pr' n else zero)).
          { unfold SeriesSpec.pshift. rewrite (pconv_const_l _ _ _ _ _ _ Rth).
            destruct (Z.leb_spec (Z.of_nat n) (Z.of_nat m)), (Nat.leb_spec (m - l2) n), (Z.leb_spec (Z.of_nat n) (Z.of_nat m - 1)); try lia; rewrite ?V'.
            - destruct (Nat.eqb_spec n m), (Nat.ltb_spec n m), (Nat.leb_spec (m - l2) n); try lia. cbn [andb]. replace (l2 - (m - n))%nat with (n - (m - l2))%nat by lia. ring.
            - replace n with m by lia. replace (m - (m - l2))%nat with l2 by lia. rewrite Hs.
              transitivity (mul (coef pr m) (mul (coef p2 l2) u)); [fold l2 in Hu; rewrite Hu; ring|ring].
            - destruct (Nat.eqb_spec n m), (Nat.ltb_spec n m), (Nat.leb_spec (m - l2) n); try lia. cbn [andb]. ring.
            - rewrite deg_above by (fold l2; lia). ring. }
          rewrite A. ring.
        + unfold Q, SeriesSpec.pshift. destruct (Nat.lt_trichotomy (j + l2) m) as [L|[L|L]].
          * destruct (Z.ltb_spec (Z.of_nat m - 1) (Z.of_nat (j + l2))), (Z.ltb_spec (Z.of_nat m) (Z.of_nat (j + l2))), (Nat.leb_spec (m - l2) j); try lia. ring.
          * destruct (Z.ltb_spec (Z.of_nat m - 1) (Z.of_nat (j + l2))), (Z.ltb_spec (Z.of_nat m) (Z.of_nat (j + l2))), (Nat.leb_spec (m - l2) j); try lia.
            rewrite V'. destruct (Nat.eqb_spec (j + l2) m); [|lia]. replace (j - (m - l2))%nat with O by lia. cbn. ring.
          * destruct (Z.ltb_spec (Z.of_nat m - 1) (Z.of_nat (j + l2))), (Z.ltb_spec (Z.of_nat m) (Z.of_nat (j + l2))), (Nat.leb_spec (m - l2) j); try lia.
            rewrite V'. destruct (Nat.eqb_spec (j + l2) m), (Nat.ltb_spec (j + l2) m); try lia. cbn [andb].
            replace (j - (m - l2))%nat with (S (j - (m - l2) - 1)) by lia. cbn [SeriesSpec.pconst]. ring.
      - intros n Hn. rewrite V'. destruct (Nat.eqb_spec n m), (Nat.ltb_spec n m); try lia. cbn [andb]. apply H2. exact Hn.
    Qed.

    Lemma quot_rem_long_spec : exists pr, quot_rem_long zero one sub mul tdiv eqb p1 p2 = Some pr /\ packed p1 p2 pr.
    Proof using Rth Hu Hd eqb_spec.
      unfold quot_rem_long. fold l1 l2. destruct (Z.ltb_spec (Z.of_nat l1 - Z.of_nat l2) 0) as [L|L]; cbn [orb].
      { exists p1. split; [reflexivity|]. apply packed_low. fold l1 l2. lia. }
      destruct (p_is_power zero one eqb p2) eqn:Ep. { exists p1. split; [reflexivity|]. apply packed_power. exact Ep. }
      destruct (zdn_spec (fun i pr => midpack pr i)
        (fun i pr => let* s := tdiv (p_at zero pr i) (p_at zero p2 (Z.of_nat l2)) in
          let* pr0 := p_put zero pr i s in
          if eqb s zero then Some pr0
          else zup 1 (Z.of_nat l2) (fun j pr1 => p_put zero pr1 (i - j) (sub (p_at zero pr1 (i - j)) (mul s (p_at zero p2 (Z.of_nat l2 - j))))) pr0)
        (Z.of_nat l1) (Z.of_nat l2) p1) as (pr & E & I1 & I2).
      - lia.
      - split; [|apply deg_above]. intros n.
        rewrite (pconv_ext _ _ _ _ (fun _ => zero) (coef p2) (coef p2) n); [|intros j _|auto].
        2:{ destruct (Z.ltb_spec (Z.of_nat l1) (Z.of_nat (j + l2))); [|reflexivity]. apply deg_above. fold l1. lia. }
        replace (pconv (fun _ => zero) (coef p2) n) with zero by (symmetry; apply (rsum_zero _ _ _ _ _ _ Rth); intros; ring).
        destruct (Z.leb_spec (Z.of_nat n) (Z.of_nat l1)); [ring|]. rewrite deg_above by (fold l1; lia). ring.
      - intros i pr Hi HI. rewrite p_at_coef. rewrite p_at_coefZ by lia. unfold l2 at 1. rewrite Hd. cbn [obind].
        set (s := mul (coef pr (Z.to_nat i)) u).
        destruct (put_spec zero pr i s) as (pr0 & E0 & L0 & V0); [lia|]. rewrite E0. cbn [obind].
        destruct (eqb s zero) eqn:Es.
        + exists pr0. split; [reflexivity|]. apply (long_step pr i s); [lia|exact HI|reflexivity|]. apply eqb_spec in Es. intros n. rewrite V0.
          destruct (Nat.eqb n (Z.to_nat i)); [reflexivity|]. destruct (_ && _); [|reflexivity]. rewrite Es. ring.
        + destruct (zup_spec (fun j t => forall n, coef t n = if Nat.eqb n (Z.to_nat i) then s
             else if (i - j <? Z.of_nat n) && (Z.of_nat n <? i) then sub (coef pr n) (mul s (coef p2 (Z.to_nat (Z.of_nat l2 - (i - Z.of_nat n))))) else coef pr n)
            (fun j pr1 => p_put zero pr1 (i - j) (sub (p_at zero pr1 (i - j)) (mul s (p_at zero p2 (Z.of_nat l2 - j))))) 1 (Z.of_nat l2) pr0) as (pr' & E' & V').
          * lia.
          * intros n. rewrite V0. destruct (Nat.eqb_spec n (Z.to_nat i)); [reflexivity|].
            destruct (Z.ltb_spec (i - 1) (Z.of_nat n)), (Z.ltb_spec (Z.of_nat n) i); try lia; reflexivity.
          * intros j t Hj HV. destruct (put_spec zero t (i - j) (sub (p_at zero t (i - j)) (mul s (p_at zero p2 (Z.of_nat l2 - j))))) as (t' & Et & _ & Vt); [lia|].
            exists t'. split; [exact Et|]. intros n. rewrite Vt. rewrite !p_at_coefZ by lia. destruct (Nat.eqb_spec n (Z.to_nat (i - j))) as [->|N].
            -- rewrite HV. destruct (Nat.eqb_spec (Z.to_nat (i - j)) (Z.to_nat i)); [lia|].
               destruct (Z.ltb_spec (i - j) (Z.of_nat (Z.to_nat (i - j)))), (Z.ltb_spec (Z.of_nat (Z.to_nat (i - j))) i), (Z.ltb_spec (i - (j + 1)) (Z.of_nat (Z.to_nat (i - j)))); try lia. cbn [andb].
               do 4 f_equal. lia.
            -- rewrite HV. destruct (Nat.eqb_spec n (Z.to_nat i)); [reflexivity|].
               destruct (Z.ltb_spec (i - j) (Z.of_nat n)), (Z.ltb_spec (Z.of_nat n) i), (Z.ltb_spec (i - (j + 1)) (Z.of_nat n)); try lia; reflexivity.
          * rewrite E'. exists pr'. split; [reflexivity|]. apply (long_step pr i s); [lia|exact HI|reflexivity|]. intros n. rewrite V'.
            destruct (Nat.eqb n (Z.to_nat i)); [reflexivity|].
            destruct (Z.ltb_spec (i - (Z.of_nat l2 + 1)) (Z.of_nat n)), (Z.leb_spec (i - Z.of_nat l2) (Z.of_nat n)); try lia; reflexivity.
      - exists pr. split; [exact E|]. split; [|exact I2]. intros n. rewrite I1. fold l2. f_equal.
        + apply pconv_ext; [|auto]. intros j _. destruct (Z.ltb_spec (Z.of_nat l2 - 1) (Z.of_nat (j + l2))); [reflexivity|lia].
        + destruct (Z.leb_spec (Z.of_nat n) (Z.of_nat l2 - 1)), (Nat.ltb_spec n l2); try lia; reflexivity.
    Qed.
  End Lead.

  (** *** reversal *)
  Definition prev (l : nat) (a : nat -> R) (i : nat) : R := if Nat.leb i l then a (l - i)%nat else zero.
  Lemma pconv_cut a b l n : (forall j, (l < j)%nat -> a j = zero) -> pconv a b n = rsum (S l) (fun j => if Nat.leb j n then mul (a j) (b (n - j)%nat) else zero).
  Proof using Rth.
    intros Ha. unfold SeriesSpec.pconv. set (f := fun j : nat => if Nat.leb j n then mul (a j) (b (n - j)%nat) else zero).
    rewrite (rsum_ext _ _ (S n) _ f) by (intros j Hj; unfold f; destruct (Nat.leb_spec j n); [reflexivity|lia]).
    destruct (Nat.le_gt_cases n l) as [L|L].
    - replace (S l) with (S n + (l - n))%nat by lia. rewrite (rsum_split _ _ _ _ _ _ Rth). rewrite (rsum_zero _ _ _ _ _ _ Rth (l - n)); [ring|].
      intros j _. unfold f. destruct (Nat.leb_spec (S n + j) n); [lia|reflexivity].
    - replace (S n) with (S l + (n - l))%nat by lia. rewrite (rsum_split _ _ _ _ _ _ Rth). rewrite (rsum_zero _ _ _ _ _ _ Rth (n - l)); [ring|].
      intros j _. unfold f. destruct (Nat.leb_spec (S l + j) n); [|reflexivity]. rewrite Ha by lia. ring.
  Qed.
  Lemma pconv_rev a b la lb i : (forall j, (la < j)%nat -> a j = zero) -> (forall j, (lb < j)%nat -> b j = zero) -> (i <= la + lb)%nat ->
    pconv a b (la + lb - i) = pconv (prev la a) (prev lb b) i.
  Proof using Rth.
    intros Ha Hb Hi. rewrite (pconv_cut a b la) by exact Ha. rewrite (pconv_cut (prev la a) _ la).
    2:{ intros j Hj. unfold prev. destruct (Nat.leb_spec j la); [lia|reflexivity]. }
    rewrite (rsum_rev _ _ _ _ _ _ Rth). apply rsum_ext. intros j Hj. unfold prev.
    replace (S la - 1 - j)%nat with (la - j)%nat by lia. destruct (Nat.leb_spec j la); [|lia].
    destruct (Nat.leb_spec (la - j) (la + lb - i)), (Nat.leb_spec j i), (Nat.leb_spec (i - j) lb); try lia; try ring.
    - do 2 f_equal. lia.
    - rewrite Hb by lia. ring.
  Qed.
  Lemma coef_reverse c i : coef (p_reverse zero eqb c) i = prev (deg c) (coef c) i.
  Proof using eqb_spec.
    unfold p_reverse, prev. destruct c as [|x c']. { cbn. destruct (Nat.leb i 0); destruct i; cbn; rewrite ?skipn_nil; reflexivity. }
    set (c := x :: c') in *. pose proof (proj1 (deg_spec zero eqb eqb_spec c)) as Dl. assert (Lc : (1 <= length c)%nat) by (cbn; lia). clearbody c.
    assert (Lf : length (firstn (deg c + 1) c) = (deg c + 1)%nat) by (rewrite firstn_length; lia).
    unfold SeriesSpec.coef. destruct (Nat.leb_spec i (deg c)) as [L|L].
    - rewrite app_nth1 by (rewrite rev_length; lia). rewrite rev_nth by lia. rewrite Lf. replace (deg c + 1 - S i)%nat with (deg c - i)%nat by lia.
      apply (coef_firstn zero). lia.
    - rewrite app_nth2 by (rewrite rev_length; lia). rewrite rev_length, Lf. pose proof (coef_skipn zero c (deg c + 1) (i - (deg c + 1))) as S. unfold SeriesSpec.coef in S. rewrite S.
      apply deg_above. lia.
  Qed.

  Lemma quot_rem_hensel_spec thr p1 p2 u : mul (coef p2 (deg p2)) u = one -> (forall x, tdiv x (coef p2 (deg p2)) = Some (mul x u)) ->
    exists pr, quot_rem_hensel zero one add sub mul opp tdiv eqb thr p1 p2 = Some pr /\ packed p1 p2 pr.
  Proof using Rth eqb_spec H10.
    intros Hu Hd. unfold quot_rem_hensel. set (l1 := deg p1). set (l2 := deg p2).
    destruct (Z.ltb_spec (Z.of_nat l1 - Z.of_nat l2) 0) as [L|L]; cbn [orb].
    { exists p1. split; [reflexivity|]. apply packed_low. fold l1 l2. lia. }
    destruct (p_is_power zero one eqb p2) eqn:Ep. { exists p1. split; [reflexivity|]. apply packed_power. exact Ep. }
    assert (Hle : (l2 <= l1)%nat) by lia. set (lq := Z.of_nat l1 - Z.of_nat l2) in *. set (nq := (l1 - l2)%nat). assert (Eq : lq = Z.of_nat nq) by lia. clearbody lq. subst lq.
    assert (R0 : coef (p_reverse zero eqb p2) 0 = coef p2 (deg p2)) by (rewrite coef_reverse; unfold prev; cbn [Nat.leb]; now rewrite Nat.sub_0_r).
    destruct (p_inverse_spec _ _ _ _ _ _ Rth tdiv eqb eqb_spec thr (p_reverse zero eqb p2) (Z.of_nat nq + 1) u H10) as (inv & Ei & Vi & _).
    { rewrite R0. exact Hu. } { rewrite R0. exact Hd. }
    rewrite Ei. cbn [obind].
    destruct (p_mul_spec _ _ _ _ _ _ Rth eqb eqb_spec thr (fun x => match x with O => [zero] | S O => inv | _ => p_reverse zero eqb p1 end) 0 1 2 (Z.of_nat nq)) as (e & Ee & Le & Ve & _).
    rewrite Ee. cbn [obind]. clear Ee. cbv zeta in *. destruct (Z.ltb_spec (Z.of_nat nq) 0); [lia|]. set (qr := e O) in *. clearbody qr.
    destruct (Z.leb_spec (Z.of_nat nq + 1) (Z.of_nat (length qr))); [|lia]. cbn [guard obind].
    set (q := rev (firstn (Z.to_nat (Z.of_nat nq + 1)) qr) ++ skipn (Z.to_nat (Z.of_nat nq + 1)) qr).
    assert (Vq : forall i, coef q i = prev nq (coef qr) i).
    { intros i. unfold q, prev. rewrite (firstn_all2 qr) by lia. rewrite (skipn_all2 qr) by lia. rewrite app_nil_r.
      unfold SeriesSpec.coef. destruct (Nat.leb_spec i nq); [|apply nth_overflow; rewrite rev_length; lia].
      rewrite rev_nth by lia. f_equal. lia. }
    clearbody q.
    destruct (op_mul_spec _ _ _ _ _ _ Rth eqb eqb_spec thr q p2) as (qp & Eqp & _ & Vqp). rewrite Eqp. cbn [obind].
    destruct (op_sub_spec _ _ _ _ _ _ Rth eqb eqb_spec p1 qp) as (d & Ed & _ & Vd). rewrite Ed. cbn [obind].
    destruct (op_add_spec _ _ _ _ _ _ Rth eqb eqb_spec d (repeat zero (Z.to_nat (Z.of_nat l2)) ++ q)) as (pr & Epr & _ & Vpr). rewrite Epr.
    exists pr. split; [reflexivity|].
    assert (Vs : forall i, coef (repeat zero (Z.to_nat (Z.of_nat l2)) ++ q) i = pshift l2 (coef q) i).
    { intros i. rewrite Nat2Z.id. unfold SeriesSpec.coef, SeriesSpec.pshift. destruct (Nat.leb_spec l2 i).
      - rewrite app_nth2 by (rewrite repeat_length; lia). now rewrite repeat_length.
      - rewrite app_nth1 by (rewrite repeat_length; lia). apply nth_repeat. }
    assert (Q0 : forall j, (nq < j)%nat -> coef q j = zero) by (intros j Hj; rewrite Vq; unfold prev; destruct (Nat.leb_spec j nq); [lia|reflexivity]).
    (* the quotient is right: p1 and q * p2 agree from degree l2 on *)
    assert (Key : forall n, (l2 <= n)%nat -> coef p1 n = pconv (coef q) (coef p2) n).
    { intros n Hn. destruct (Nat.le_gt_cases n l1) as [Ln|Ln].
      - replace n with (nq + l2 - (l1 - n))%nat at 2 by lia. rewrite pconv_rev; [|exact Q0|intros; apply deg_above; assumption|lia].
        rewrite (pconv_ext _ _ _ (prev nq (coef q)) (coef qr) (prev l2 (coef p2)) (prev l2 (coef p2)) (l1 - n)); [| |auto].
        + rewrite (pconv_ext _ _ _ (coef qr) (pconv (prev l1 (coef p1)) (coef inv)) (prev l2 (coef p2)) (prev l2 (coef p2)) (l1 - n)); [| |auto].
          * rewrite <- (pconv_assoc _ _ _ _ _ _ Rth).
            rewrite (pconv_ext _ _ _ (prev l1 (coef p1)) (prev l1 (coef p1)) (pconv (coef inv) (prev l2 (coef p2))) (pconst one) (l1 - n)); [|auto|].
            -- rewrite (pconv_comm _ _ _ _ _ _ Rth), (pconv_const_l _ _ _ _ _ _ Rth). unfold prev. destruct (Nat.leb_spec (l1 - n) l1); [|lia].
               replace (l1 - (l1 - n))%nat with n by lia. ring.
            -- intros j Hj. rewrite (pconv_comm _ _ _ _ _ _ Rth). rewrite <- Vi by lia. apply pconv_ext; [|auto]. intros t _. symmetry. apply coef_reverse.
          * intros j Hj. rewrite Ve by lia. rewrite (pconv_comm _ _ _ _ _ _ Rth). apply pconv_ext; [|auto]. intros t _. apply coef_reverse.
        + intros j Hj. unfold prev at 1. destruct (Nat.leb_spec j nq) as [Lj|Lj]; [|lia]. rewrite Vq. unfold prev. destruct (Nat.leb_spec (nq - j) nq); [|lia].
          replace (nq - (nq - j))%nat with j by lia. reflexivity.
      - rewrite deg_above by (fold l1; lia). symmetry. apply (pconv_above _ _ _ _ _ _ Rth _ _ nq l2); [exact Q0|intros; apply deg_above; assumption|lia]. }
    assert (Vfin : forall n, coef pr n = if Nat.ltb n l2 then sub (coef p1 n) (pconv (coef q) (coef p2) n) else coef q (n - l2)%nat).
    { intros n. rewrite Vpr, Vd, Vs, Vqp. destruct (Nat.ltb_spec n l2).
      - rewrite pshift_lt by assumption. ring.
      - rewrite pshift_ge by assumption. rewrite Key by assumption. ring. }
    split.
    - intros n. fold l2. rewrite (pconv_ext _ _ _ _ (coef q) (coef p2) (coef p2) n); [|intros j _|auto].
      + destruct (Nat.ltb_spec n l2) as [Ln|Ln].
        * rewrite Vfin. destruct (Nat.ltb_spec n l2); [|lia]. ring.
        * rewrite Key by exact Ln. ring.
      + rewrite Vfin. destruct (Nat.ltb_spec (j + l2) l2); [lia|]. f_equal. lia.
    - intros n Hn. rewrite Vfin. fold l1 in Hn. destruct (Nat.ltb_spec n l2); [lia|]. apply Q0. lia.
  Qed.

  Lemma quot_rem_spec thr slow isfloat p1 p2 u : mul (coef p2 (deg p2)) u = one -> (forall x, tdiv x (coef p2 (deg p2)) = Some (mul x u)) ->
    exists pr, quot_rem zero one add sub mul opp tdiv eqb thr slow isfloat p1 p2 = Some pr /\ packed p1 p2 pr.
  Proof using Rth eqb_spec H10.
    intros Hu Hd. unfold quot_rem. rewrite p_at_coef, Hd. cbn [obind].
    destruct (_ || _ || _ || _); [apply (quot_rem_long_spec p1 p2 u Hu Hd)|apply (quot_rem_hensel_spec thr p1 p2 u Hu Hd)].
  Qed.

  Lemma div_mod_spec thr slow isfloat p1 p2 u : mul (coef p2 (deg p2)) u = one -> (forall x, tdiv x (coef p2 (deg p2)) = Some (mul x u)) ->
    exists q r, p_div zero one add sub mul opp tdiv eqb thr slow isfloat p1 p2 = Some q /\ p_mod zero one add sub mul opp tdiv eqb thr slow isfloat p1 p2 = Some r /\
      (forall n, coef p1 n = add (pconv (coef q) (coef p2) n) (coef r n)) /\ (forall n, (deg p2 <= n)%nat -> coef r n = zero).
  Proof using Rth eqb_spec H10.
    intros Hu Hd. destruct (quot_rem_spec thr slow isfloat p1 p2 u Hu Hd) as (pr & E & P1 & P2).
    set (l1 := deg p1) in *. set (l2 := deg p2) in *.
    assert (Q : exists q, p_div zero one add sub mul opp tdiv eqb thr slow isfloat p1 p2 = Some q /\ forall n, coef q n = coef pr (n + l2)%nat).
    { unfold p_div. fold l1 l2. destruct (Z.ltb_spec (Z.of_nat l1 - Z.of_nat l2) 0) as [L|L].
      - exists []. split; [reflexivity|]. intros n. rewrite (P2 (n + l2)%nat) by lia. apply coef_above. cbn. lia.
      - rewrite E. cbn [obind].
        destruct (zup_spec (fun i t => forall n, coef t n = if Z.of_nat n <? i then coef pr (n + l2)%nat else coef pr n)
          (fun i pr0 => let pr1 := p_reserve zero pr0 (Z.to_nat (i + Z.of_nat l2 + 1)) in p_put zero pr1 i (p_at zero pr1 (i + Z.of_nat l2)))
          0 (Z.of_nat l1 - Z.of_nat l2) pr) as (t & Et & Vt).
        + lia.
        + intros n. destruct (Z.ltb_spec (Z.of_nat n) 0); [lia|reflexivity].
        + intros i t Hi HV. cbv zeta. set (t1 := p_reserve zero t _). assert (V1 : forall n, coef t1 n = coef t n) by (intros; apply coef_reserve). clearbody t1.
          destruct (put_spec zero t1 i (p_at zero t1 (i + Z.of_nat l2))) as (t' & E' & _ & V'); [lia|]. exists t'. split; [exact E'|]. intros n. rewrite V', V1, HV.
          rewrite p_at_coefZ by lia. rewrite V1, HV.
          destruct (Nat.eqb_spec n (Z.to_nat i)) as [->|N].
          * destruct (Z.ltb_spec (Z.of_nat (Z.to_nat i)) (i + 1)), (Z.ltb_spec (Z.of_nat (Z.to_nat (i + Z.of_nat l2))) i); try lia. f_equal. lia.
          * destruct (Z.ltb_spec (Z.of_nat n) (i + 1)), (Z.ltb_spec (Z.of_nat n) i); try lia; reflexivity.
        + cbv zeta in Et |- *. rewrite Et. cbn [obind]. eexists. split; [reflexivity|]. set (w := Z.to_nat (Z.of_nat l1 - Z.of_nat l2 + 1)).
          intros n. destruct (Nat.lt_ge_cases n w) as [Ln|Ln].
          * rewrite coef_resize by exact Ln. rewrite Vt. destruct (Z.ltb_spec (Z.of_nat n) (Z.of_nat l1 - Z.of_nat l2 + 1)); [reflexivity|lia].
          * rewrite coef_above by (rewrite p_resize_length; exact Ln). symmetry. apply P2. lia. }
    destruct Q as (q & Eq & Vq). unfold p_mod. fold l1 l2. rewrite E. cbn [obind]. exists q. eexists. split; [exact Eq|]. split; [reflexivity|].
    assert (Vr : forall n, coef (if Z.of_nat l2 - 1 <? Z.of_nat l1 then p_resize zero pr (Z.to_nat (Z.of_nat l2 - 1 + 1)) else pr) n = if Nat.ltb n l2 then coef pr n else zero).
    { intros n. replace (Z.to_nat (Z.of_nat l2 - 1 + 1)) with l2 by lia. destruct (Z.ltb_spec (Z.of_nat l2 - 1) (Z.of_nat l1)); destruct (Nat.ltb_spec n l2).
      - apply coef_resize. assumption.
      - apply coef_above. rewrite p_resize_length. assumption.
      - reflexivity.
      - apply P2. lia. }
    split.
    - intros n. rewrite P1, Vr. f_equal. apply pconv_ext; [|auto]. intros j _. symmetry. apply Vq.
    - intros n Hn. rewrite Vr. destruct (Nat.ltb_spec n l2); [lia|reflexivity].
  Qed.

  (** quotient and remainder are unique *)
  Lemma div_unique p2 u q q' r r' : mul (coef p2 (deg p2)) u = one ->
    (exists N, forall n, (N <= n)%nat -> q n = zero /\ q' n = zero) ->
    (forall n, (deg p2 <= n)%nat -> r n = zero) -> (forall n, (deg p2 <= n)%nat -> r' n = zero) ->
    (forall n, add (pconv q (coef p2) n) (r n) = add (pconv q' (coef p2) n) (r' n)) -> (forall n, q n = q' n) /\ forall n, r n = r' n.
  Proof using Rth eqb_spec.
    intros Hu (N & HN) Hr Hr' H. set (d := fun n => sub (q n) (q' n)).
    assert (Hd : forall n, (deg p2 <= n)%nat -> pconv d (coef p2) n = zero).
    { intros n Hn. unfold d. rewrite (pconv_sub_l _ _ _ _ _ _ Rth). specialize (H n). rewrite Hr, Hr' in H by exact Hn.
      replace (pconv q (coef p2) n) with (add (pconv q (coef p2) n) zero) by ring. rewrite H. ring. }
    assert (Z0 : forall k n, (N - k <= n)%nat -> d n = zero).
    { induction k as [|k IH]; intros n Hn; [unfold d; destruct (HN n) as (-> & ->); [lia|]; ring|].
      destruct (Nat.le_gt_cases (N - k) n) as [Ln|Ln]; [apply IH; exact Ln|].
      pose proof (pconv_top _ _ _ _ _ _ Rth d (coef p2) n (deg p2)) as T. rewrite Hd in T by lia.
      transitivity (mul (mul (d n) (coef p2 (deg p2))) u); [transitivity (mul (d n) (mul (coef p2 (deg p2)) u)); [rewrite Hu; ring|ring]|].
      rewrite <- T; [ring| |]; [intros j Hj; apply IH; lia|intros j Hj; apply deg_above; exact Hj]. }
    assert (E : forall n, q n = q' n).
    { intros n. specialize (Z0 N n ltac:(lia)). unfold d in Z0. transitivity (add (sub (q n) (q' n)) (q' n)); [ring|]. rewrite Z0. ring. }
    split; [exact E|]. intros n. specialize (H n). rewrite (pconv_ext _ _ _ q q' (coef p2) (coef p2) n) in H by auto.
    transitivity (sub (add (pconv q' (coef p2) n) (r n)) (pconv q' (coef p2) n)); [ring|]. rewrite H. ring.
  Qed.

  (** *** derivative, integral *)
  Lemma derivative_spec ofint p : ofint O = zero -> exists r, p_derivative zero mul eqb ofint p = Some r /\ forall i, coef r i = mul (coef p (S i)) (ofint (S i)).
  Proof using Rth eqb_spec.
    intros _. unfold p_derivative. destruct (Nat.eqb_spec (length p) 0) as [E0|E0].
    { eexists. split; [reflexivity|]. intros i. rewrite (coef_above _ p) by lia. destruct i as [|[|i]]; cbn; ring. }
    pose proof (proj1 (deg_spec zero eqb eqb_spec p)) as Dl.
    destruct (zdn_spec (fun i t => forall n, coef t n = if i <=? Z.of_nat n then mul (coef p (S n)) (ofint (S n)) else zero)
      (fun i r => let* ci := nth_error p (Z.to_nat i) in p_put zero r (i - 1) (mul ci (ofint (Z.to_nat i)))) (Z.of_nat (deg p)) 1 [zero]) as (r & E & V).
    - lia.
    - intros n. replace (coef [zero] n) with zero by (destruct n as [|[|n]]; reflexivity). destruct (Z.leb_spec (Z.of_nat (deg p)) (Z.of_nat n)); [|reflexivity]. rewrite deg_above by lia. ring.
    - intros i t Hi HV. assert (N : nth_error p (Z.to_nat i) = Some (coef p (Z.to_nat i))) by (apply nth_error_nth'; lia). rewrite N. cbn [obind].
      destruct (put_spec zero t (i - 1) (mul (coef p (Z.to_nat i)) (ofint (Z.to_nat i)))) as (t' & E' & _ & V'); [lia|]. exists t'. split; [exact E'|].
      intros n. rewrite V', HV. destruct (Nat.eqb_spec n (Z.to_nat (i - 1))) as [->|Nn].
      + destruct (Z.leb_spec (i - 1) (Z.of_nat (Z.to_nat (i - 1)))); [|lia]. replace (S (Z.to_nat (i - 1))) with (Z.to_nat i) by lia. reflexivity.
      + destruct (Z.leb_spec i (Z.of_nat n)), (Z.leb_spec (i - 1) (Z.of_nat n)); try lia; reflexivity.
    - exists r. split; [exact E|]. intros n. rewrite V. destruct (Z.leb_spec (1 - 1) (Z.of_nat n)); [reflexivity|lia].
  Qed.
  Lemma integral_spec ofint (inv : nat -> R) p c0 : (forall i x, tdiv x (ofint (S i)) = Some (mul x (inv (S i)))) ->
    exists r, p_integral zero tdiv eqb ofint p c0 = Some r /\ coef r O = c0 /\ forall i, coef r (S i) = mul (coef p i) (inv (S i)).
  Proof using Rth eqb_spec.
    intros Hinv. unfold p_integral. destruct (Nat.eqb_spec (length p) 0) as [E0|E0].
    { eexists. split; [reflexivity|]. split; [reflexivity|]. intros i. rewrite (coef_above _ p) by lia. destruct i as [|i]; cbn; ring. }
    pose proof (proj1 (deg_spec zero eqb eqb_spec p)) as Dl.
    destruct (zdn_spec (fun i t => coef t O = c0 /\ forall n, coef t (S n) = if i <? Z.of_nat n then mul (coef p n) (inv (S n)) else zero)
      (fun i r => let* ci := nth_error p (Z.to_nat i) in let* q := tdiv ci (ofint (Z.to_nat (i + 1))) in p_put zero r (i + 1) q) (Z.of_nat (deg p)) 0 [c0]) as (r & E & V0 & V).
    - lia.
    - split; [reflexivity|]. intros n. replace (coef [c0] (S n)) with zero by (destruct n; reflexivity). destruct (Z.ltb_spec (Z.of_nat (deg p)) (Z.of_nat n)); [|reflexivity]. rewrite deg_above by lia. ring.
    - intros i t Hi (HV0 & HV). assert (N : nth_error p (Z.to_nat i) = Some (coef p (Z.to_nat i))) by (apply nth_error_nth'; lia). rewrite N. cbn [obind].
      replace (Z.to_nat (i + 1)) with (S (Z.to_nat i)) by lia. rewrite Hinv. cbn [obind].
      destruct (put_spec zero t (i + 1) (mul (coef p (Z.to_nat i)) (inv (S (Z.to_nat i))))) as (t' & E' & _ & V'); [lia|]. exists t'. split; [exact E'|].
      split.
      + rewrite V'. destruct (Nat.eqb_spec 0 (Z.to_nat (i + 1))); [lia|exact HV0].
      + intros n. rewrite V', HV. destruct (Nat.eqb_spec (S n) (Z.to_nat (i + 1))) as [En|Nn].
        * destruct (Z.ltb_spec (i - 1) (Z.of_nat n)); [|lia]. replace n with (Z.to_nat i) by lia. reflexivity.
        * destruct (Z.ltb_spec i (Z.of_nat n)), (Z.ltb_spec (i - 1) (Z.of_nat n)); try lia; reflexivity.
    - exists r. split; [exact E|]. split; [exact V0|]. intros n. rewrite V. destruct (Z.ltb_spec (0 - 1) (Z.of_nat n)); [reflexivity|lia].
  Qed.
End PolyProofs5.

Section PolyEval.
  Context {R A : Type} (zero : R) (eqb : R -> R -> bool).
  Hypothesis eqb_spec : forall x y, eqb x y = true <-> x = y.
  Context (zeroA oneA : A) (addA mulA subA : A -> A -> A) (oppA : A -> A).
  Hypothesis Ath : ring_theory zeroA oneA addA mulA subA oppA (@eq A).
  Add Ring Ra : Ath.
  Variable cast : R -> A.
  Hypothesis cast0 : cast zero = zeroA.
  Lemma eval_spec p x : p_eval zero eqb zeroA addA mulA cast p x = Some (rsum zeroA addA (length p) (fun i => mulA (cast (nth i p zero)) (rpow oneA mulA x i))).
  Proof using Ath cast0 eqb_spec.
    unfold p_eval. destruct (Nat.eqb_spec (length p) 0) as [E0|E0]; [rewrite E0; reflexivity|].
    destruct (deg_spec zero eqb eqb_spec p) as (Dl & Da & _). set (d := p_deg zero eqb p) in *.
    set (f := fun i => cast (nth i p zero)).
    destruct (zdn_spec (fun i r => r = rsum zeroA addA (Z.to_nat (Z.of_nat d - i)) (fun j => mulA (f (Z.to_nat (i + 1) + j)%nat) (rpow oneA mulA x j)))
      (fun i r => let* ci := nth_error p (Z.to_nat i) in Some (addA (mulA r x) (cast ci))) (Z.of_nat d) 0 zeroA) as (r & E & V).
    - lia.
    - replace (Z.to_nat (Z.of_nat d - Z.of_nat d)) with O by lia. reflexivity.
    - intros i r Hi ->. assert (N : nth_error p (Z.to_nat i) = Some (nth (Z.to_nat i) p zero)) by (apply nth_error_nth'; lia). rewrite N. cbn [obind]. eexists. split; [reflexivity|].
      replace (Z.to_nat (Z.of_nat d - (i - 1))) with (S (Z.to_nat (Z.of_nat d - i))) by lia. rewrite (rsum_S_l _ _ _ _ _ _ Ath).
      rewrite (rsum_ext _ _ _ (fun j => mulA (f (Z.to_nat (i - 1 + 1) + S j)%nat) (rpow oneA mulA x (S j))) (fun j => mulA (mulA (f (Z.to_nat (i + 1) + j)%nat) (rpow oneA mulA x j)) x)).
      2:{ intros j _. rewrite rpow_S. replace (Z.to_nat (i - 1 + 1) + S j)%nat with (Z.to_nat (i + 1) + j)%nat by lia. ring. }
      rewrite (rsum_mul_r _ _ _ _ _ _ Ath). replace (Z.to_nat (i - 1 + 1) + 0)%nat with (Z.to_nat i) by lia. unfold f at 2. cbn [rpow]. ring.
    - rewrite E, V. f_equal. replace (Z.to_nat (Z.of_nat d - (0 - 1))) with (S d) by lia. replace (Z.to_nat (0 - 1 + 1)) with O by reflexivity. cbn [Nat.add].
      replace (length p) with (S d + (length p - S d))%nat by lia. rewrite (rsum_split _ _ _ _ _ _ Ath).
      rewrite (rsum_zero _ _ _ _ _ _ Ath (length p - S d)); [unfold f; ring|]. intros j Hj.
      replace (nth (S d + j) p zero) with zero; [rewrite cast0; ring|]. symmetry. apply Da. lia.
  Qed.
End PolyEval.
