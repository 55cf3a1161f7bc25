From Coq Require Import Ring Ring_theory.
From Verif Require Import Lib RingSpec RingProofs SeriesSpec SeriesProofs PolyModel PolyProofs PolyProofs2 PolyProofs3.
Open Scope Z_scope.

Section PolyProofs4.
  Context {R : Type} (zero one : R) (add mul sub : R -> R -> R) (opp : R -> R).
  Hypothesis Rth : ring_theory zero one add mul sub opp (@eq R).
  Add Ring Rp4 : Rth.
  Variable tdiv : R -> R -> option R.
  Variable eqb : R -> R -> bool.
  Hypothesis eqb_spec : forall x y, eqb x y = true <-> x = y.
  Local Notation pconv := (pconv zero add mul). Local Notation pshift := (pshift zero).
  Local Notation ptrunc := (ptrunc zero). Local Notation pconst := (pconst zero). Local Notation rsum := (rsum zero add).
  Local Notation coef := (coef zero). Local Notation deg := (p_deg zero eqb).
  Local Notation op_add := (op_add zero add eqb). Local Notation op_sub := (op_sub zero sub eqb). Local Notation op_neg := (op_neg zero opp eqb).
  Local Notation op_mul := (op_mul zero add sub mul eqb). Local Notation op_smul := (op_smul zero mul eqb). Local Notation op_sdiv := (op_sdiv zero tdiv eqb).

  Lemma op_add_spec p q : exists r, op_add p q = Some r /\ length r = (Nat.max (deg p) (deg q) + 1)%nat /\ forall i, coef r i = add (coef p i) (coef q i).
  Proof using Rth eqb_spec.
    unfold PolyModel.op_add. destruct (p_add_spec _ _ _ _ _ _ Rth eqb eqb_spec (env2 p q) 0 0 1) as (e & E & L & V & _). rewrite E. cbn [obind]. eexists. split; [reflexivity|]. split; assumption.
  Qed.
  Lemma op_sub_spec p q : exists r, op_sub p q = Some r /\ length r = (Nat.max (deg p) (deg q) + 1)%nat /\ forall i, coef r i = sub (coef p i) (coef q i).
  Proof using Rth eqb_spec.
    unfold PolyModel.op_sub. destruct (p_sub_spec _ _ _ _ _ _ Rth eqb eqb_spec (env2 p q) 0 0 1) as (e & E & L & V & _). rewrite E. cbn [obind]. eexists. split; [reflexivity|]. split; assumption.
  Qed.
  Lemma op_neg_spec p : exists r, op_neg p = Some r /\ length r = (deg p + 1)%nat /\ forall i, coef r i = opp (coef p i).
  Proof using Rth eqb_spec.
    unfold PolyModel.op_neg. destruct (p_neg_spec _ _ _ _ _ _ Rth eqb eqb_spec (env2 p []) 0 0) as (e & E & L & V & _). rewrite E. cbn [obind]. eexists. split; [reflexivity|]. split; assumption.
  Qed.
  Lemma op_mul_spec thr p q : exists r, op_mul thr p q = Some r /\ length r = (deg p + deg q + 1)%nat /\ forall i, coef r i = pconv (coef p) (coef q) i.
  Proof using Rth eqb_spec.
    unfold PolyModel.op_mul. destruct (p_mul_spec _ _ _ _ _ _ Rth eqb eqb_spec thr (env2 p q) 0 0 1 (-1)) as (e & E & L & V & _). rewrite E. cbn [obind]. cbv zeta in *.
    change (-1 <? 0) with true in *. cbv iota in *. cbn [env2] in *. eexists. split; [reflexivity|]. split; [lia|].
    apply (coef_total _ _ (deg p + deg q)); [lia|intros i Hi; apply V; lia|].
    intros i Hi. apply (pconv_above _ _ _ _ _ _ Rth _ _ (deg p) (deg q)); [..|exact Hi]; apply (deg_spec zero eqb eqb_spec).
  Qed.
  Lemma op_smul_spec p s : exists r, op_smul p s = Some r /\ length r = (deg p + 1)%nat /\ forall i, coef r i = mul (coef p i) s.
  Proof using Rth eqb_spec.
    unfold PolyModel.op_smul. destruct (p_smul_spec _ _ _ _ _ _ Rth eqb eqb_spec (env2 p []) 0 0 s) as (e & E & L & V & _). rewrite E. cbn [obind]. eexists. split; [reflexivity|]. split; assumption.
  Qed.
  Lemma op_sdiv_spec p s u : (forall x, tdiv x s = Some (mul x u)) -> exists r, op_sdiv p s = Some r /\ length r = (deg p + 1)%nat /\ forall i, coef r i = mul (coef p i) u.
  Proof using Rth eqb_spec.
    intros Hu. unfold PolyModel.op_sdiv. destruct (p_sdiv_spec _ _ _ _ _ _ Rth tdiv eqb eqb_spec (env2 p []) 0 0 s u Hu) as (e & E & L & V & _). rewrite E. cbn [obind]. eexists. split; [reflexivity|]. split; assumption.
  Qed.

  (** *** inverse *)
  Lemma newton_alg c r E k i : (forall j, (j < k)%nat -> pconv c r j = pconst one j) -> (forall j, pconv c r (k + j)%nat = E j) -> (i < k + k)%nat ->
    pconv c (fun j => sub (r j) (pshift k (pconv E r) j)) i = pconst one i.
  Proof using Rth.
    intros H1 H2 Hi. rewrite (pconv_sub_r _ _ _ _ _ _ Rth), (pconv_shift_r _ _ _ _ _ _ Rth).
    destruct (Nat.lt_ge_cases i k) as [L|L].
    - rewrite pshift_lt by exact L. rewrite H1 by exact L. ring.
    - rewrite pshift_ge by exact L. replace i with (k + (i - k))%nat at 1 by lia. rewrite H2.
      rewrite (pconv_ext _ _ _ c c (pconv E r) (pconv r E) (i - k)) by (auto; intros; apply (pconv_comm _ _ _ _ _ _ Rth)).
      rewrite (pconv_assoc _ _ _ _ _ _ Rth). rewrite (pconv_ext _ _ _ (pconv c r) (pconst one) E E (i - k)) by (auto; intros; apply H1; lia).
      rewrite (pconv_const_l _ _ _ _ _ _ Rth). destruct i; [|cbn [SeriesSpec.pconst]]; [|ring].
      (* k = 0 *) replace k with O by lia. cbn [SeriesSpec.pconst]. specialize (H1 0%nat). assert (k = O) by lia. lia.
  Qed.

  Lemma inverse_step_spec thr c L l r : c <> [] -> 1 <= l -> l < L * 2 -> (l = 1 \/ exists h, 1 <= h /\ l = 2 * h) ->
    let n := Z.to_nat (Z.min L (l / 2 + 1)) in let n' := Z.to_nat (Z.min L (l + 1)) in
    length r = n -> (forall i, (i < n)%nat -> pconv (coef c) (coef r) i = pconst one i) ->
    exists r', inverse_step zero add sub mul opp eqb thr c L l r = Some r' /\ length r' = n' /\ forall i, (i < n')%nat -> pconv (coef c) (coef r') i = pconst one i.
  Proof using Rth eqb_spec.
    intros Hc Hl HL Hpar n n' Lr Hr. unfold inverse_step. rewrite Z.quot_div_nonneg by lia.
    assert (Hk : 2 * (l / 2) <= l <= 2 * (l / 2) + 1) by (pose proof (Z.div_mod l 2); pose proof (Z.mod_pos_bound l 2); lia).
    assert (Hk2 : l / 2 + 1 <= l) by (destruct Hpar as [->|(h & Hh & ->)]; [cbn; lia|]; lia).
    set (k := l / 2 + 1) in *. assert (Hk3 : 1 <= k /\ l < 2 * k) by lia. clearbody k.
    set (m := Z.min (L - 1) l) in *. assert (Hm : 0 <= m <= l /\ m < L /\ n' = Z.to_nat (m + 1) /\ (m = L - 1 \/ m = l)) by (unfold m, n'; lia).
    clearbody m. destruct (Z.leb_spec 0 (m + 1)); [|lia]. cbn [guard obind].
    set (t0 := firstn (Z.to_nat (Z.min (m + 1) (Z.of_nat (length c)))) c).
    assert (Ct0 : forall i, Z.of_nat i <= m -> coef t0 i = coef c i).
    { intros i Hi. unfold t0. destruct (Nat.lt_ge_cases i (length c)) as [Li|Li]; [apply coef_firstn; lia|].
      rewrite !coef_above; [reflexivity|exact Li|]. rewrite firstn_length. lia. }
    clearbody t0.
    destruct (p_mul_spec _ _ _ _ _ _ Rth eqb eqb_spec thr (env2 t0 r) 0 0 1 (l + 1)) as (e1 & E1 & L1 & V1 & _). rewrite E1. cbn [obind]. clear E1.
    cbv zeta in *. destruct (Z.ltb_spec (l + 1) 0); [lia|]. cbn [env2] in *.
    destruct (Z.leb_spec k (Z.of_nat (length (e1 O)))); [|lia]. cbn [guard obind].
    set (t1 := skipn (Z.to_nat k) (e1 O)). assert (Ct1 : forall j, coef t1 j = coef (e1 O) (Z.to_nat k + j)%nat) by (intros; apply coef_skipn). clearbody t1.
    destruct (p_mul_spec _ _ _ _ _ _ Rth eqb eqb_spec thr (env2 t1 r) 0 0 1 (l - k)) as (e2 & E2 & L2 & V2 & _). rewrite E2. cbn [obind]. clear E2.
    cbv zeta in *. destruct (Z.ltb_spec (l - k) 0); [lia|]. cbn [env2] in *. set (t2 := e2 O) in *. clearbody t2.
    destruct (Z.le_gt_cases k m) as [Lkm|Lkm].
    2:{ rewrite zdn_empty by lia. exists r. split; [reflexivity|]. assert (Enn : n = n') by (unfold n; lia). rewrite <- Enn. split; assumption. }
    assert (Hn : n = Z.to_nat k) by (unfold n; lia).
    destruct (zdn_spec (fun i s => (Nat.max (length r) (if i <? m then Z.to_nat (m + 1) else 0) = length s) /\
       forall j, coef s j = if (i <? Z.of_nat j) && (Z.of_nat j <=? m) then opp (coef t2 (j - Z.to_nat k)) else coef r j)
      (fun i r0 => p_put zero r0 i (opp (p_at zero t2 (i - k)))) m k r) as (r' & E & Il & Iv).
    - lia.
    - destruct (Z.ltb_spec m m); [lia|]. split; [lia|]. intros j. destruct (Z.ltb_spec m (Z.of_nat j)), (Z.leb_spec (Z.of_nat j) m); try lia; reflexivity.
    - intros i s Hi (Jl & Jv). destruct (put_spec zero s i (opp (p_at zero t2 (i - k)))) as (s' & Es & Ls & Vs); [lia|]. exists s'. split; [exact Es|]. split.
      + destruct (Z.ltb_spec i m), (Z.ltb_spec (i - 1) m); lia.
      + intros j. rewrite Vs. destruct (Nat.eqb_spec j (Z.to_nat i)) as [->|N].
        * destruct (Z.ltb_spec (i - 1) (Z.of_nat (Z.to_nat i))), (Z.leb_spec (Z.of_nat (Z.to_nat i)) m); try lia. cbn [andb].
          rewrite p_at_coefZ by lia. do 2 f_equal. lia.
        * rewrite Jv. destruct (Z.ltb_spec (i - 1) (Z.of_nat j)), (Z.ltb_spec i (Z.of_nat j)); try lia; reflexivity.
    - exists r'. split; [exact E|]. split; [destruct (Z.ltb_spec (k - 1) m); lia|]. intros i Hi.
      set (Er := fun j => pconv (coef c) (coef r) (Z.to_nat k + j)%nat).
      rewrite <- (newton_alg (coef c) (coef r) Er (Z.to_nat k) i); [|intros j Hj; apply Hr; lia|reflexivity|lia].
      apply pconv_ext; [auto|]. intros j Hj. rewrite Iv.
      destruct (Z.ltb_spec (k - 1) (Z.of_nat j)), (Z.leb_spec (Z.of_nat j) m); cbn [andb]; try lia.
      + rewrite pshift_ge by lia. rewrite (coef_above _ r) by lia. rewrite V2 by lia.
        rewrite (pconv_ext _ _ _ (coef t1) Er (coef r) (coef r) (j - Z.to_nat k)); [ring| |auto].
        intros t Ht. rewrite Ct1. rewrite V1 by lia. unfold Er. apply pconv_ext; [|auto]. intros u Hu. apply Ct0. lia.
      + rewrite pshift_lt by lia. ring.
  Qed.

  Lemma inverse_monic_spec thr c L : c <> [] -> coef c 0 = one ->
    exists r, inverse_monic zero one add sub mul opp eqb thr c L = Some r /\ length r = Nat.max 1 (Z.to_nat L) /\
      forall i, (i < Nat.max 1 (Z.to_nat L))%nat -> pconv (coef c) (coef r) i = pconst one i.
  Proof using Rth eqb_spec.
    intros Hc H0. unfold inverse_monic.
    destruct (loopZ_spec (fun '(l, r) => if l <? L * 2 then let* r := inverse_step zero add sub mul opp eqb thr c L l r in Some (inl (l * 2, r)) else Some (inr r))
      (fun '(l, r) => 1 <= l /\ (l = 1 \/ exists h, 1 <= h /\ l = 2 * h) /\ length r = Z.to_nat (Z.min (Z.max 1 L) (l / 2 + 1)) /\
         forall i, (i < Z.to_nat (Z.min (Z.max 1 L) (l / 2 + 1)))%nat -> pconv (coef c) (coef r) i = pconst one i)
      (fun r => length r = Nat.max 1 (Z.to_nat L) /\ forall i, (i < Nat.max 1 (Z.to_nat L))%nat -> pconv (coef c) (coef r) i = pconst one i)
      (fun '(l, _) => Z.max 0 (L * 2 - l))) with (fuel := Z.max 2 (L * 2 + 1)) (s := (1, [one])) as (r & E & P); [| | | |].
    - intros [l r] (Hl & Hp & Lr & Hr). destruct (Z.ltb_spec l (L * 2)) as [HL|HL].
      + replace (Z.max 1 L) with L in * by lia. destruct (inverse_step_spec thr c L l r Hc Hl HL Hp Lr Hr) as (r' & E & Lr' & Hr'). rewrite E. cbn [obind].
        eexists. split; [reflexivity|]. cbv iota beta. replace (l * 2 / 2) with l by (rewrite Z.div_mul by lia; reflexivity).
        split; [split; [lia|split; [right; exists l; lia|split; assumption]]|]. lia.
      + eexists. split; [reflexivity|]. cbv iota beta.
        assert (HL2 : Z.max 1 L <= l / 2 + 1).
        { destruct (Z.le_gt_cases L 1); [pose proof (Z.div_pos l 2); lia|]. pose proof (Z.div_le_mono (L * 2) l 2 ltac:(lia) HL). rewrite Z.div_mul in H1 by lia. lia. }
        replace (Z.to_nat (Z.min (Z.max 1 L) (l / 2 + 1))) with (Nat.max 1 (Z.to_nat L)) in * by lia. split; assumption.
    - intros [l r] _. lia.
    - split; [lia|]. split; [left; reflexivity|]. change (1 / 2 + 1) with 1. replace (Z.to_nat (Z.min (Z.max 1 L) 1)) with 1%nat by lia. split; [reflexivity|].
      intros i Hi. replace i with O by lia. unfold SeriesSpec.pconv. rewrite rsum_S. cbn [RingSpec.rsum Nat.sub]. rewrite H0. cbn. ring.
    - lia.
    - exists r. split; [exact E|exact P].
  Qed.

  Lemma p_inverse_spec thr c L u : one <> zero -> mul (coef c 0) u = one -> (forall x, tdiv x (coef c 0) = Some (mul x u)) ->
    exists r, p_inverse zero one add sub mul opp tdiv eqb thr c L = Some r /\
      (forall i, (i < Nat.max 1 (Z.to_nat L))%nat -> pconv (coef c) (coef r) i = pconst one i) /\
      (forall i, (Nat.max 1 (Z.to_nat L) <= i)%nat -> coef r i = zero).
  Proof using Rth eqb_spec.
    intros H10 Hu Hd. unfold p_inverse. cbn [p_inverse_f].
    assert (Hc : c <> []). { intros ->. apply H10. rewrite <- Hu. cbn. ring. }
    assert (N0 : nth_error c 0 = Some (coef c 0)) by (destruct c; [contradiction|reflexivity]). rewrite N0. cbn [obind].
    destruct (eqb (coef c 0) zero) eqn:E0. { apply eqb_spec in E0. rewrite E0 in Hu. destruct H10. rewrite <- Hu. ring. }
    destruct (eqb (coef c 0) one) eqn:E1; cbn [negb].
    - apply eqb_spec in E1. destruct (inverse_monic_spec thr c L Hc E1) as (r & E & Lr & V). exists r. split; [exact E|]. split; [exact V|].
      intros i Hi. apply coef_above. lia.
    - destruct (op_sdiv_spec c (coef c 0) u Hd) as (d & Ed & Ld & Vd). rewrite Ed. cbn [obind].
      assert (D0 : coef d 0 = one) by (rewrite Vd; exact Hu). assert (Hdn : d <> []) by (intros ->; cbn in Ld; lia).
      assert (N1 : nth_error d 0 = Some one) by (rewrite <- D0; destruct d; [contradiction|reflexivity]). rewrite N1. cbn [obind].
      assert (F0 : eqb one zero = false) by (apply (eqb_false _ eqb_spec); exact H10). rewrite F0.
      assert (F1 : eqb one one = true) by (apply eqb_spec; reflexivity). rewrite F1. cbn [negb].
      destruct (inverse_monic_spec thr d L Hdn D0) as (i & Ei & Li & Vi). rewrite Ei. cbn [obind].
      destruct (op_sdiv_spec i (coef c 0) u Hd) as (r & Er & Lr & Vr). rewrite Er. eexists. split; [reflexivity|]. split.
      + intros j Hj. rewrite <- (Vi j Hj). rewrite (pconv_ext _ _ _ (coef d) (fun t => mul u (coef c t)) (coef i) (coef i) j) by (auto; intros; rewrite Vd; ring).
        rewrite (pconv_ext _ _ _ (coef c) (coef c) (coef r) (fun t => mul u (coef i t)) j) by (auto; intros; rewrite Vr; ring).
        rewrite (pconv_scal_l _ _ _ _ _ _ Rth), (pconv_scal_r _ _ _ _ _ _ Rth). reflexivity.
      + intros j Hj. rewrite Vr. rewrite coef_above by lia. ring.
  Qed.
End PolyProofs4.
