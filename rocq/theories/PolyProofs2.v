From Coq Require Import Ring Ring_theory.
From Verif Require Import Lib RingSpec RingProofs SeriesSpec SeriesProofs PolyModel PolyProofs.
Open Scope Z_scope.

Ltac fr H := rewrite (proj2 (proj2 H)) by lia.
Ltac mid H := rewrite (proj1 (proj2 H)) by lia.

Section PolyProofs2.
  Context {R : Type} (zero one : R) (add mul sub : R -> R -> R) (opp : R -> R).
  Hypothesis Rth : ring_theory zero one add mul sub opp (@eq R).
  Add Ring Rp2 : Rth.
  Local Notation pconv := (pconv zero add mul). Local Notation pshift := (pshift zero).
  Local Notation ptrunc := (ptrunc zero). Local Notation val := (val zero). Local Notation upd := (upd zero).
  Local Notation opd := (opd zero).

  Lemma opd_ext h h' p l : (forall i, (i <= Z.to_nat l)%nat -> val h (p + Z.of_nat i) = val h' (p + Z.of_nat i)) -> forall i, opd h p l i = opd h' p l i.
  Proof using. intros H i. unfold PolyProofs.opd, SeriesSpec.ptrunc. destruct (Nat.leb_spec i (Z.to_nat l)); [apply H; lia|reflexivity]. Qed.
  Lemma opd_above h p l i : (Z.to_nat l < i)%nat -> opd h p l i = zero.
  Proof using. intros H. unfold PolyProofs.opd. rewrite ptrunc_gt by exact H. reflexivity. Qed.
  Lemma opd_le h p l i : (i <= Z.to_nat l)%nat -> opd h p l i = val h (p + Z.of_nat i).
  Proof using. intros H. unfold PolyProofs.opd. rewrite ptrunc_le by exact H. reflexivity. Qed.

  (** the product with a constant *)
  Lemma kara0 h pr lr p1 l1 p2 : 0 <= l1 -> lr = l1 -> 0 <= pr -> 0 <= p1 -> 0 <= p2 -> pr + lr < hlen h -> p1 + l1 < hlen h -> p2 < hlen h ->
    sep pr lr p1 l1 -> sep pr lr p2 0 ->
    exists h', zdn lr 0 (fun i h => let* x := hget h (p1 + i) in let* y := hget h (p2 + 0) in hset h (pr + i) (mul x y)) h = Some h' /\
      upd h h' pr lr (pconv (opd h p1 l1) (opd h p2 0)).
  Proof using Rth.
    intros Hl1 -> Hpr Hp1 Hp2 B0 B1 B2 D1 D2. unfold sep in *.
    destruct (zdn_spec (fun i t => hlen t = hlen h /\ (forall j, i < Z.of_nat j <= l1 -> val t (pr + Z.of_nat j) = mul (val h (p1 + Z.of_nat j)) (val h (p2 + 0))) /\
       forall j, 0 <= j -> (j <= pr + i \/ pr + l1 < j) -> val t j = val h j)
      (fun i h => let* x := hget h (p1 + i) in let* y := hget h (p2 + 0) in hset h (pr + i) (mul x y)) l1 0 h) as (h' & E & I1 & I2 & I3).
    - lia.
    - split; [reflexivity|]. split; [intros; lia|reflexivity].
    - intros i t Hi (J1 & J2 & J3). rewrite !(hget_val zero) by lia. cbn [obind].
      destruct (hset_val zero t (pr + i) (mul (val t (p1 + i)) (val t (p2 + 0)))) as (t' & E & K1 & K2 & K3); [lia|]. exists t'. split; [exact E|].
      split; [lia|]. split.
      + intros j Hj. destruct (Z.eq_dec (Z.of_nat j) i) as [->|N]; [rewrite K2; rewrite !J3 by lia; reflexivity|]. rewrite K3 by lia. apply J2. lia.
      + intros j Hj Hd. rewrite K3 by lia. apply J3; lia.
    - exists h'. split; [exact E|]. split; [exact I1|]. split; [|intros j Hj Hd; apply I3; lia].
      intros j Hj. rewrite I2 by lia. rewrite (pconv_comm _ _ _ _ _ _ Rth).
      rewrite (pconv_ext _ _ _ (opd h p2 0) (pconst zero (val h (p2 + 0))) (opd h p1 l1) (opd h p1 l1) j); [|intros t Ht|auto].
      + rewrite (pconv_const_l _ _ _ _ _ _ Rth). rewrite opd_le by lia. ring.
      + destruct t; [rewrite opd_le by lia; reflexivity|]. rewrite opd_above by lia. reflexivity.
  Qed.

  Lemma kara_spec m fuel h pr lr p1 l1 p2 l2 : mul_ok_at zero add mul m fuel -> l1 + l2 <= fuel ->
    0 <= l2 -> l2 <= l1 -> l1 <= lr -> lr <= l1 + l2 ->
    0 <= pr -> 0 <= p1 -> 0 <= p2 -> pr + lr < hlen h -> p1 + l1 < hlen h -> p2 + l2 < hlen h ->
    sep pr lr p1 l1 -> sep pr lr p2 l2 ->
    exists h', mul_karatsuba zero add sub mul m h pr lr p1 l1 p2 l2 = Some h' /\ upd h h' pr lr (pconv (opd h p1 l1) (opd h p2 l2)).
  Proof using Rth.
    intros Hm Hf Hl2 H21 H1r Hr Hpr Hp1 Hp2 B0 B1 B2 D1 D2. unfold mul_karatsuba.
    rewrite Z.quot_div_nonneg by lia. set (k := l1 / 2 + 1) in *.
    assert (Hk : 2 * (k - 1) <= l1 <= 2 * (k - 1) + 1) by (unfold k; pose proof (Z.div_mod l1 2); pose proof (Z.mod_pos_bound l1 2); lia).
    clearbody k.
    destruct (Z.eqb_spec l2 0) as [->|N0]; [apply kara0; try assumption; lia|].
    assert (Hk1 : 1 <= k <= l1) by lia.
    destruct (Z.ltb_spec l2 k) as [L2|L2].
    - (* only p1 is split *)
      destruct (Z.leb_spec 0 (lr - k + 1)); [|lia]. cbn [guard obind].
      set (h0 := halloc zero h (lr - k + 1)). assert (Lh0 : hlen h0 = hlen h + (lr - k + 1)) by (apply halloc_len; lia).
      assert (Vh0 : forall j, val h0 j = val h j) by (intros; apply halloc_val). change (Z.of_nat (length h)) with (hlen h).
      set (M := hlen h) in *. unfold sep in D1, D2.
      destruct (Hm h0 M (lr - k) (p1 + k) (l1 - k) p2 l2) as (h1 & E1 & U1); unfold sep; try lia.
      rewrite E1. cbn [obind]. pose proof (proj1 U1) as L1.
      destruct (Hm h1 pr (l2 + k - 1) p1 (k - 1) p2 l2) as (h2 & E2 & U2); unfold sep; try lia.
      rewrite E2. cbn [obind]. pose proof (proj1 U2) as Lh2.
      destruct (zero_fill_spec zero h2 pr (l2 + k - 1) lr) as (h3 & E3 & L3 & Z3 & F3); [lia|lia|].
      rewrite E3. cbn [obind].
      destruct (add_to_spec zero add h3 (pr + k) M (lr - k)) as (h4 & E4 & U4); try lia.
      rewrite E4. cbn [obind]. pose proof (proj1 U4) as L4. eexists. split; [reflexivity|].
      (* the operands seen by the two recursive calls *)
      set (A0 := ptrunc (Z.to_nat (k - 1)) (fun i => val h (p1 + Z.of_nat i))).
      set (A1 := ptrunc (Z.to_nat (l1 - k)) (fun i => val h (p1 + k + Z.of_nat i))).
      set (B := opd h p2 l2).
      assert (V1 : forall i, Z.of_nat i <= lr - k -> val h1 (M + Z.of_nat i) = pconv A1 B i).
      { intros i Hi. mid U1. apply pconv_ext; intros j _; apply opd_ext; intros; apply Vh0. }
      assert (F1 : forall j, 0 <= j < M -> val h1 j = val h j) by (intros; fr U1; apply Vh0).
      assert (V2 : forall i, Z.of_nat i <= l2 + k - 1 -> val h2 (pr + Z.of_nat i) = pconv A0 B i).
      { intros i Hi. mid U2. apply pconv_ext; intros j _; apply opd_ext; intros; apply F1; lia. }
      assert (V3 : forall i, Z.of_nat i <= lr -> val h3 (pr + Z.of_nat i) = pconv A0 B i).
      { intros i Hi. destruct (Z.le_gt_cases (Z.of_nat i) (l2 + k - 1)) as [Li|Li].
        - rewrite F3 by lia. apply V2. exact Li.
        - rewrite Z3 by lia. symmetry. apply (pconv_above _ _ _ _ _ _ Rth A0 B (Z.to_nat (k - 1)) (Z.to_nat l2)); [..|lia].
          + intros j Hj. apply ptrunc_gt. exact Hj.
          + intros j Hj. apply opd_above. exact Hj. }
      assert (V3M : forall i, Z.of_nat i <= lr - k -> val h3 (M + Z.of_nat i) = pconv A1 B i).
      { intros i Hi. rewrite F3 by lia. fr U2. apply V1. exact Hi. }
      split; [|split].
      + rewrite hfree_len; [reflexivity|]. change (M <= hlen h4). lia.
      + intros i Hi. rewrite hfree_val by (change (Z.of_nat (length h)) with M; lia).
        unfold B, PolyProofs.opd. rewrite (pconv_split_l _ _ _ _ _ _ Rth _ _ (Z.to_nat k)) by lia. fold (opd h p2 l2). fold B.
        replace (Z.to_nat k - 1)%nat with (Z.to_nat (k - 1)) by lia. fold A0.
        replace (Z.to_nat l1 - Z.to_nat k)%nat with (Z.to_nat (l1 - k)) by lia.
        rewrite (pshift_ext _ (Z.to_nat k) _ (pconv A1 B)).
        2:{ intros j _. apply pconv_ext; [|auto]. intros t _. unfold A1, SeriesSpec.ptrunc. destruct (Nat.leb t _); [|reflexivity]. f_equal. lia. }
        destruct (Z.le_gt_cases k (Z.of_nat i)) as [Li|Li].
        * rewrite pshift_ge by lia. pose proof (proj1 (proj2 U4) (i - Z.to_nat k)%nat ltac:(lia)) as W. cbn beta in W.
          replace (pr + k + Z.of_nat (i - Z.to_nat k)) with (pr + Z.of_nat i) in W by lia. rewrite W. rewrite V3 by exact Hi. rewrite V3M by lia. reflexivity.
        * rewrite pshift_lt by lia. fr U4. rewrite V3 by exact Hi. ring.
      + intros j Hj Hd. destruct (Z.le_gt_cases M j) as [Lj|Lj].
        * unfold PolyProofs.val, hfree. rewrite !nth_overflow; [reflexivity| |]; [unfold M, hlen in *; lia|]. rewrite firstn_length. unfold M, hlen in *; lia.
        * rewrite hfree_val by (change (Z.of_nat (length h)) with M; lia). fr U4. rewrite F3 by lia. fr U2. apply F1. lia.
    - (* both operands are split *)
      unfold sep in D1, D2. change (Z.of_nat (length h)) with (hlen h). set (P1 := hlen h) in *.
      set (h0 := halloc zero h k). assert (L0 : hlen h0 = P1 + k) by (apply halloc_len; lia).
      assert (V0 : forall j, val h0 j = val h j) by (intros; apply halloc_val).
      destruct (copy_to_spec zero h0 P1 p1 k) as (h1 & E1 & U1); try lia. rewrite E1. cbn [obind]. pose proof (proj1 U1) as L1.
      destruct (add_to_spec zero add h1 P1 (p1 + k) (l1 - k)) as (h2 & E2 & U2); try lia. rewrite E2. cbn [obind]. pose proof (proj1 U2) as L2'.
      change (Z.of_nat (length h2)) with (hlen h2). set (P2 := hlen h2) in *.
      set (h3 := halloc zero h2 k). assert (L3 : hlen h3 = P2 + k) by (apply halloc_len; lia).
      assert (V3 : forall j, val h3 j = val h2 j) by (intros; apply halloc_val).
      destruct (copy_to_spec zero h3 P2 p2 k) as (h4 & E4 & U4); try lia. rewrite E4. cbn [obind]. pose proof (proj1 U4) as L4.
      destruct (add_to_spec zero add h4 P2 (p2 + k) (l2 - k)) as (h5 & E5 & U5); try lia. rewrite E5. cbn [obind]. pose proof (proj1 U5) as L5.
      set (mm_l := Z.min (lr - k) (k - 1 + k - 1)) in *. assert (Hmm : 0 <= mm_l <= lr - k /\ mm_l <= 2 * k - 2 /\ (mm_l = lr - k \/ mm_l = 2 * k - 2)) by (unfold mm_l; lia). clearbody mm_l.
      destruct (Z.leb_spec 0 (mm_l + 1)); [|lia]. cbn [guard obind].
      change (Z.of_nat (length h5)) with (hlen h5). set (PM := hlen h5) in *.
      set (h6 := halloc zero h5 (mm_l + 1)). assert (L6 : hlen h6 = PM + (mm_l + 1)) by (apply halloc_len; lia).
      assert (V6 : forall j, val h6 j = val h5 j) by (intros; apply halloc_val).
      destruct (Hm h6 PM mm_l P1 (k - 1) P2 (k - 1)) as (h7 & E7 & U7); unfold sep; try lia. rewrite E7. cbn [obind]. pose proof (proj1 U7) as L7.
      set (hh_l := Z.min (lr - k) (l1 - k + l2 - k)) in *. assert (Hhh : 0 <= hh_l <= lr - k /\ hh_l <= mm_l /\ lr - k - k <= hh_l /\ (hh_l = lr - k \/ hh_l = l1 - k + l2 - k)) by (unfold hh_l; lia). clearbody hh_l.
      destruct (Z.leb_spec 0 (hh_l + 1)); [|lia]. cbn [guard obind].
      change (Z.of_nat (length h7)) with (hlen h7). set (PH := hlen h7) in *.
      set (h8 := halloc zero h7 (hh_l + 1)). assert (L8 : hlen h8 = PH + (hh_l + 1)) by (apply halloc_len; lia).
      assert (V8 : forall j, val h8 j = val h7 j) by (intros; apply halloc_val).
      destruct (Hm h8 PH hh_l (p1 + k) (l1 - k) (p2 + k) (l2 - k)) as (h9 & E9 & U9); unfold sep; try lia. rewrite E9. cbn [obind]. pose proof (proj1 U9) as L9.
      destruct (Hm h9 pr (k - 1 + k - 1) p1 (k - 1) p2 (k - 1)) as (ha & Ea & Ua); unfold sep; try lia. rewrite Ea. cbn [obind]. pose proof (proj1 Ua) as La.
      destruct (zero_fill_spec zero ha pr (k - 1 + k - 1) lr) as (hb & Eb & Lb & Zb & Fb); [lia|lia|]. rewrite Eb. cbn [obind].
      destruct (sub_from_spec zero sub hb PM pr mm_l) as (hc & Ec & Uc); try lia. rewrite Ec. cbn [obind]. pose proof (proj1 Uc) as Lc.
      destruct (sub_from_spec zero sub hc PM PH hh_l) as (hd & Ed & Ud); try lia. rewrite Ed. cbn [obind]. pose proof (proj1 Ud) as Ld.
      destruct (add_to_spec zero add hd (pr + k) PM mm_l) as (he & Ee & Ue); try lia. rewrite Ee. cbn [obind]. pose proof (proj1 Ue) as Le.
      assert (G : exists hf, add_to add he (pr + k + k) PH (lr - k - k) = Some hf /\ upd he hf (pr + k + k) (lr - k - k)
         (fun i => add (val he (pr + k + k + Z.of_nat i)) (val he (PH + Z.of_nat i)))).
      { destruct (Z.le_gt_cases (-1) (lr - k - k)) as [Lg|Lg]; [apply add_to_spec; lia|].
        exists he. unfold add_to. rewrite zup_empty by lia. split; [reflexivity|]. split; [reflexivity|]. split; [intros; lia|reflexivity]. }
      destruct G as (hf & Ef & Uf). rewrite Ef. cbn [obind]. pose proof (proj1 Uf) as Lf. eexists. split; [reflexivity|].
      set (a := fun i : nat => val h (p1 + Z.of_nat i)). set (b := fun i : nat => val h (p2 + Z.of_nat i)).
      set (kn := Z.to_nat k). set (n1 := Z.to_nat l1). set (n2 := Z.to_nat l2).
      set (A0 := ptrunc (kn - 1) a). set (A1 := ptrunc (n1 - kn) (fun j => a (kn + j)%nat)).
      set (B0' := ptrunc (kn - 1) b). set (B1' := ptrunc (n2 - kn) (fun j => b (kn + j)%nat)).
      (* frames *)
      assert (F2 : forall j, 0 <= j < P1 -> val h2 j = val h j) by (intros; fr U2; fr U1; apply V0).
      assert (F5 : forall j, 0 <= j < P2 -> val h5 j = val h2 j) by (intros; fr U5; fr U4; apply V3).
      assert (F7 : forall j, 0 <= j < PM -> val h7 j = val h5 j) by (intros; fr U7; apply V6).
      assert (F9 : forall j, 0 <= j < PH -> val h9 j = val h7 j) by (intros; fr U9; apply V8).
      (* S1, S2 *)
      assert (VS1 : forall i, (i <= kn - 1)%nat -> val h5 (P1 + Z.of_nat i) = add (A0 i) (A1 i)).
      { intros i Hi. rewrite F5 by lia. unfold A0, A1. rewrite ptrunc_le by exact Hi.
        destruct (Nat.le_gt_cases i (n1 - kn)) as [Li|Li].
        - mid U2. mid U1. rewrite !V0. fr U1. rewrite V0. rewrite ptrunc_le by exact Li. unfold a. do 2 f_equal. lia.
        - fr U2. mid U1. rewrite V0. rewrite ptrunc_gt by exact Li. unfold a. ring. }
      assert (VS2 : forall i, (i <= kn - 1)%nat -> val h5 (P2 + Z.of_nat i) = add (B0' i) (B1' i)).
      { intros i Hi. unfold B0', B1'. rewrite ptrunc_le by exact Hi.
        destruct (Nat.le_gt_cases i (n2 - kn)) as [Li|Li].
        - mid U5. mid U4. rewrite !V3. fr U4. rewrite V3. rewrite ptrunc_le by exact Li. rewrite !F2 by lia. unfold b. do 2 f_equal. lia.
        - fr U5. mid U4. rewrite V3. rewrite ptrunc_gt by exact Li. rewrite F2 by lia. unfold b. ring. }
      assert (T0 : forall (q : Z) (u : nat -> R) i, (kn - 1 < i)%nat -> ptrunc (kn - 1) u i = zero) by (intros; apply ptrunc_gt; assumption).
      (* the three products *)
      set (MM := pconv (fun t => add (A0 t) (A1 t)) (fun t => add (B0' t) (B1' t))).
      set (LL := pconv A0 B0'). set (HH := pconv A1 B1').
      assert (VM : forall i, Z.of_nat i <= mm_l -> val h7 (PM + Z.of_nat i) = MM i).
      { intros i Hi. mid U7. unfold MM. apply pconv_ext; intros j _.
        - destruct (Nat.le_gt_cases j (kn - 1)) as [Lj|Lj].
          + rewrite opd_le by lia. rewrite V6. apply VS1. exact Lj.
          + rewrite opd_above by lia. unfold A0, A1. rewrite !ptrunc_gt by lia. ring.
        - destruct (Nat.le_gt_cases j (kn - 1)) as [Lj|Lj].
          + rewrite opd_le by lia. rewrite V6. apply VS2. exact Lj.
          + rewrite opd_above by lia. unfold B0', B1'. rewrite !ptrunc_gt by lia. ring. }
      assert (VH : forall i, Z.of_nat i <= hh_l -> val h9 (PH + Z.of_nat i) = HH i).
      { intros i Hi. mid U9. unfold HH. apply pconv_ext; intros j _; unfold A1, B1', PolyProofs.opd, SeriesSpec.ptrunc.
        - replace (Z.to_nat (l1 - k)) with (n1 - kn)%nat by lia. destruct (Nat.leb_spec j (n1 - kn)); [|reflexivity].
          rewrite V8, F7, F5, F2 by lia. unfold a. f_equal. lia.
        - replace (Z.to_nat (l2 - k)) with (n2 - kn)%nat by lia. destruct (Nat.leb_spec j (n2 - kn)); [|reflexivity].
          rewrite V8, F7, F5, F2 by lia. unfold b. f_equal. lia. }
      assert (F9' : forall j, 0 <= j < P1 -> val h9 j = val h j) by (intros; rewrite F9, F7, F5, F2 by lia; reflexivity).
      assert (VL : forall i, Z.of_nat i <= k - 1 + k - 1 -> val ha (pr + Z.of_nat i) = LL i).
      { intros i Hi. mid Ua. unfold LL. apply pconv_ext; intros j _; unfold A0, B0', PolyProofs.opd, SeriesSpec.ptrunc;
        replace (Z.to_nat (k - 1)) with (kn - 1)%nat by lia; destruct (Nat.leb_spec j (kn - 1)); try reflexivity; apply F9'; lia. }
      assert (LL0 : forall i, k - 1 + k - 1 < Z.of_nat i -> LL i = zero).
      { intros i Hi. apply (pconv_above _ _ _ _ _ _ Rth A0 B0' (kn - 1) (kn - 1)); [..|lia]; intros j Hj; apply ptrunc_gt; exact Hj. }
      assert (MM0 : forall i, k - 1 + k - 1 < Z.of_nat i -> MM i = zero).
      { intros i Hi. apply (pconv_above _ _ _ _ _ _ Rth _ _ (kn - 1) (kn - 1)); [..|lia]; intros j Hj; unfold A0, A1, B0', B1'; rewrite !ptrunc_gt by lia; ring. }
      assert (HH0 : forall i, l1 - k + l2 - k < Z.of_nat i -> HH i = zero).
      { intros i Hi. apply (pconv_above _ _ _ _ _ _ Rth A1 B1' (n1 - kn) (n2 - kn)); [..|lia]; intros j Hj; apply ptrunc_gt; exact Hj. }
      assert (VLb : forall i, Z.of_nat i <= lr -> val hb (pr + Z.of_nat i) = LL i).
      { intros i Hi. destruct (Z.le_gt_cases (Z.of_nat i) (k - 1 + k - 1)) as [Li|Li].
        - rewrite Fb by lia. apply VL. exact Li.
        - rewrite Zb by lia. symmetry. apply LL0. exact Li. }
      assert (VMb : forall i, Z.of_nat i <= mm_l -> val hb (PM + Z.of_nat i) = MM i).
      { intros i Hi. rewrite Fb by lia. fr Ua. rewrite F9 by lia. apply VM. exact Hi. }
      assert (VHb : forall i, Z.of_nat i <= hh_l -> val hb (PH + Z.of_nat i) = HH i).
      { intros i Hi. rewrite Fb by lia. fr Ua. apply VH. exact Hi. }
      assert (VMd : forall i, Z.of_nat i <= mm_l -> val hd (PM + Z.of_nat i) = sub (sub (MM i) (LL i)) (HH i)).
      { intros i Hi. destruct (Z.le_gt_cases (Z.of_nat i) hh_l) as [Li|Li].
        - mid Ud. mid Uc. fr Uc. rewrite VMb by exact Hi. rewrite VLb by lia. rewrite VHb by exact Li. reflexivity.
        - fr Ud. mid Uc. rewrite VMb by exact Hi. rewrite VLb by lia. rewrite (HH0 i) by lia. ring. }
      assert (VLd : forall i, Z.of_nat i <= lr -> val hd (pr + Z.of_nat i) = LL i).
      { intros i Hi. fr Ud. fr Uc. apply VLb. exact Hi. }
      assert (VHd : forall i, Z.of_nat i <= hh_l -> val hd (PH + Z.of_nat i) = HH i).
      { intros i Hi. fr Ud. fr Uc. apply VHb. exact Hi. }
      assert (VLe : forall i, Z.of_nat i <= lr -> val he (pr + Z.of_nat i) = add (LL i) (pshift kn (fun j => sub (sub (MM j) (LL j)) (HH j)) i)).
      { intros i Hi. destruct (Z.le_gt_cases k (Z.of_nat i)) as [Li|Li].
        - rewrite pshift_ge by lia. destruct (Z.le_gt_cases (Z.of_nat i - k) mm_l) as [Lm|Lm].
          + pose proof (proj1 (proj2 Ue) (i - kn)%nat ltac:(lia)) as W. cbn beta in W. replace (pr + k + Z.of_nat (i - kn)) with (pr + Z.of_nat i) in W by lia.
            rewrite W, VLd, VMd by lia. reflexivity.
          + fr Ue. rewrite VLd by exact Hi. rewrite MM0, (LL0 (i - kn)%nat), HH0 by lia. ring.
        - rewrite pshift_lt by lia. fr Ue. rewrite VLd by exact Hi. ring. }
      split; [|split].
      + rewrite hfree_len; [reflexivity|]. change (P1 <= hlen hf). lia.
      + intros i Hi. rewrite hfree_val by (change (Z.of_nat (length h)) with P1; lia).
        unfold PolyProofs.opd. fold a b n1 n2. rewrite (karatsuba_alg _ _ _ _ _ _ Rth a b kn n1 n2) by lia.
        cbv zeta. fold A0 A1 B0' B1'. fold MM LL HH.
        destruct (Z.le_gt_cases (k + k) (Z.of_nat i)) as [Li|Li].
        * rewrite (pshift_ge _ (kn + kn)) by lia. pose proof (proj1 (proj2 Uf) (i - (kn + kn))%nat ltac:(lia)) as W. cbn beta in W.
          replace (pr + k + k + Z.of_nat (i - (kn + kn))) with (pr + Z.of_nat i) in W by lia. rewrite W, VLe by exact Hi. fr Ue. rewrite VHd by lia. reflexivity.
        * rewrite (pshift_lt _ (kn + kn)) by lia. fr Uf. rewrite VLe by exact Hi. change (pconv A0 B0' i) with (LL i). ring.
      + intros j Hj Hd. destruct (Z.le_gt_cases P1 j) as [Lj|Lj].
        * unfold PolyProofs.val, hfree. rewrite !nth_overflow; [reflexivity| |]; [unfold P1, hlen in *; lia|]. rewrite firstn_length. unfold P1, hlen in *; lia.
        * rewrite hfree_val by (change (Z.of_nat (length h)) with P1; lia). fr Uf. fr Ue. fr Ud. fr Uc. rewrite Fb by lia. fr Ua. apply F9'. lia.
  Qed.
End PolyProofs2.
