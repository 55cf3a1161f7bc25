From Coq Require Import Ring Ring_theory.
From Verif Require Import Lib RingSpec RingProofs SeriesSpec SeriesProofs PolyModel PolyProofs PolyProofs2.
Open Scope Z_scope.

Section PolyProofs3.
  Context {R : Type} (zero one : R) (add mul sub : R -> R -> R) (opp : R -> R).
  Hypothesis Rth : ring_theory zero one add mul sub opp (@eq R).
  Add Ring Rp3 : Rth.
  Variable tdiv : R -> R -> option R.
  Variable eqb : R -> R -> bool.
  Hypothesis eqb_spec : forall x y, eqb x y = true <-> x = y.
  Local Notation pconv := (pconv zero add mul). Local Notation pshift := (pshift zero).
  Local Notation ptrunc := (ptrunc zero). Local Notation val := (val zero). Local Notation upd := (upd zero).
  Local Notation opd := (opd zero). Local Notation coef := (coef zero). Local Notation deg := (p_deg zero eqb).

  Lemma mul_raw_spec thr fuel : mul_ok_at zero add mul (mul_raw zero add sub mul thr fuel) (Z.of_nat fuel).
  Proof using Rth.
    induction fuel as [|fuel IH]; intros h pr lr p1 l1 p2 l2 Hf Hr H1 H2 Hpr Hp1 Hp2 B0 B1 B2 D1 D2; [lia|].
    cbn [mul_raw].
    assert (Main : forall p1 l1 p2 l2, l2 <= l1 -> l1 + l2 < Z.of_nat (S fuel) -> 0 <= l1 -> 0 <= l2 -> 0 <= p1 -> 0 <= p2 ->
      p1 + Z.min l1 lr < hlen h -> p2 + Z.min l2 lr < hlen h -> sep pr lr p1 (Z.min l1 lr) -> sep pr lr p2 (Z.min l2 lr) ->
      exists h', (let* h1 := zero_fill zero h pr (Z.min l1 lr + Z.min l2 lr) lr in
        mul_impl zero add sub mul thr (mul_raw zero add sub mul thr fuel) h1 pr (Z.min lr (Z.min l1 lr + Z.min l2 lr)) p1 (Z.min l1 lr) p2 (Z.min l2 lr)) = Some h' /\
        upd h h' pr lr (pconv (opd h p1 l1) (opd h p2 l2))).
    { clear p1 l1 p2 l2 Hf H1 H2 Hp1 Hp2 B1 B2 D1 D2. intros p1 l1 p2 l2 H21 Hf H1 H2 Hp1 Hp2 B1 B2 D1 D2.
      set (m1 := Z.min l1 lr) in *. set (m2 := Z.min l2 lr) in *.
      assert (Hm : 0 <= m2 <= m1 /\ m1 <= lr /\ m1 <= l1 /\ m2 <= l2 /\ (m1 = l1 \/ m1 = lr) /\ (m2 = l2 \/ m2 = lr)) by (unfold m1, m2; lia). clearbody m1 m2.
      destruct (zero_fill_spec zero h pr (m1 + m2) lr) as (h1 & E1 & L1 & Z1 & F1); [lia|lia|]. rewrite E1. cbn [obind].
      set (s := Z.min lr (m1 + m2)). assert (Hs : m1 <= s <= m1 + m2 /\ s <= lr /\ (s = lr \/ s = m1 + m2)) by (unfold s; lia). clearbody s.
      unfold sep in D1, D2.
      assert (G : exists h', mul_impl zero add sub mul thr (mul_raw zero add sub mul thr fuel) h1 pr s p1 m1 p2 m2 = Some h' /\
         upd h1 h' pr s (pconv (opd h1 p1 m1) (opd h1 p2 m2))).
      { unfold mul_impl. destruct (m2 <? thr).
        - apply (mul_long_spec _ _ _ _ _ _ Rth); unfold sep; try lia.
        - apply (kara_spec _ _ _ _ _ _ Rth) with (fuel := Z.of_nat fuel); unfold sep; try lia. exact IH. }
      destruct G as (h' & E & (L & V & F)). exists h'. split; [exact E|].
      assert (Q : forall i, Z.of_nat i <= lr -> pconv (opd h1 p1 m1) (opd h1 p2 m2) i = pconv (opd h p1 l1) (opd h p2 l2) i).
      { intros i Hi. apply pconv_ext; intros j Hj.
        - destruct (Nat.le_gt_cases j (Z.to_nat m1)) as [Lj|Lj].
          + rewrite !opd_le by lia. apply F1; lia.
          + rewrite opd_above by lia. symmetry. apply opd_above. lia.
        - destruct (Nat.le_gt_cases j (Z.to_nat m2)) as [Lj|Lj].
          + rewrite !opd_le by lia. apply F1; lia.
          + rewrite opd_above by lia. symmetry. apply opd_above. lia. }
      split; [lia|]. split.
      - intros i Hi. rewrite <- Q by exact Hi. destruct (Z.le_gt_cases (Z.of_nat i) s) as [Li|Li]; [apply V; exact Li|].
        rewrite F by lia. rewrite Z1 by lia. symmetry.
        apply (pconv_above _ _ _ _ _ _ Rth _ _ (Z.to_nat m1) (Z.to_nat m2)); [..|lia]; intros j Hj; apply opd_above; exact Hj.
      - intros j Hj Hd. rewrite F by lia. apply F1; lia. }
    destruct (Z.ltb_spec l1 l2) as [Ls|Ls].
    - destruct (Main p2 l2 p1 l1) as (h' & E & U); try assumption; [lia|lia|]. exists h'. split; [exact E|].
      apply (upd_ext _ _ _ _ _ _ _ U). intros i _. apply (pconv_comm _ _ _ _ _ _ Rth).
    - apply Main; try assumption.
  Qed.

  (** *** vectors *)
  Lemma coef_above c i : (length c <= i)%nat -> coef c i = zero.
  Proof using. intros H. apply nth_overflow. exact H. Qed.
  Lemma p_at_coef c i : p_at zero c (Z.of_nat i) = coef c i.
  Proof using.
    unfold p_at, SeriesSpec.coef. destruct (Z.leb_spec 0 (Z.of_nat i)); [|lia].
    destruct (Z.ltb_spec (Z.of_nat i) (Z.of_nat (length c))); cbn [andb]; [now rewrite Nat2Z.id|]. rewrite nth_overflow by lia. reflexivity.
  Qed.
  Lemma p_at_coefZ c i : 0 <= i -> p_at zero c i = coef c (Z.to_nat i).
  Proof using. intros H. rewrite <- p_at_coef. f_equal. lia. Qed.
  Lemma p_resize_length c n : length (p_resize zero c n) = n.
  Proof using. unfold p_resize. rewrite app_length, firstn_length, repeat_length. lia. Qed.
  Lemma coef_firstn c n i : (i < n)%nat -> coef (firstn n c) i = coef c i.
  Proof using.
    intros H. unfold SeriesSpec.coef. destruct (Nat.lt_ge_cases i (length c)) as [L|L].
    - rewrite <- (firstn_skipn n c) at 2. rewrite app_nth1; [reflexivity|]. rewrite firstn_length. lia.
    - rewrite !nth_overflow; [reflexivity|exact L|]. rewrite firstn_length. lia.
  Qed.
  Lemma coef_app_zeros c n i : coef (c ++ repeat zero n) i = coef c i.
  Proof using.
    unfold SeriesSpec.coef. destruct (Nat.lt_ge_cases i (length c)) as [L|L].
    - now rewrite app_nth1.
    - rewrite app_nth2 by exact L. rewrite (nth_overflow c) by exact L. apply nth_repeat.
  Qed.
  Lemma coef_resize c n i : (i < n)%nat -> coef (p_resize zero c n) i = coef c i.
  Proof using. intros H. unfold p_resize. rewrite coef_app_zeros. apply coef_firstn. exact H. Qed.
  Lemma coef_reserve c n i : coef (p_reserve zero c n) i = coef c i.
  Proof using. apply coef_app_zeros. Qed.
  Lemma coef_skipn c n i : coef (skipn n c) i = coef c (n + i)%nat.
  Proof using.
    unfold SeriesSpec.coef. revert c; induction n as [|n IH]; intros c; [reflexivity|]. destruct c; [cbn; destruct i; reflexivity|]. apply IH.
  Qed.
  Lemma put_spec c i x : 0 <= i -> exists c', p_put zero c i x = Some c' /\ length c' = Nat.max (length c) (Z.to_nat (i + 1)) /\
    forall j, coef c' j = if Nat.eqb j (Z.to_nat i) then x else coef c j.
  Proof using.
    intros H. unfold p_put. destruct (Z.ltb_spec i 0); [lia|].
    assert (L : length (p_reserve zero c (Z.to_nat (i + 1))) = Nat.max (length c) (Z.to_nat (i + 1))).
    { unfold p_reserve. rewrite app_length, repeat_length. lia. }
    destruct (hset_val zero (p_reserve zero c (Z.to_nat (i + 1))) i x) as (c' & E & Lc & V & F); [unfold hlen; lia|].
    exists c'. split; [exact E|]. unfold hlen in Lc. split; [lia|]. intros j. destruct (Nat.eqb_spec j (Z.to_nat i)) as [->|N].
    - exact V.
    - specialize (F (Z.of_nat j)). unfold PolyProofs.val in F. rewrite Nat2Z.id in F. rewrite <- (coef_reserve c (Z.to_nat (i + 1)) j). apply F; lia.
  Qed.

  Lemma eqb_false x y : eqb x y = false <-> x <> y.
  Proof using eqb_spec. rewrite <- eqb_spec. destruct (eqb x y); split; congruence. Qed.
  Lemma deg_n_spec c n : (deg_n zero eqb c n <= n)%nat /\ (forall i, (deg_n zero eqb c n < i <= n)%nat -> coef c i = zero) /\
    (deg_n zero eqb c n = O \/ coef c (deg_n zero eqb c n) <> zero).
  Proof using eqb_spec.
    induction n as [|n (IH1 & IH2 & IH3)]; cbn [deg_n]; [repeat split; auto; lia|].
    destruct (eqb (nth (S n) c zero) zero) eqn:E; cbn [negb].
    - apply eqb_spec in E. split; [lia|]. split; [|exact IH3]. intros i Hi. destruct (Nat.eq_dec i (S n)) as [->|N]; [exact E|]. apply IH2. lia.
    - apply eqb_false in E. split; [lia|]. split; [intros; lia|]. right. exact E.
  Qed.
  Lemma deg_spec c : (deg c <= length c - 1)%nat /\ (forall i, (deg c < i)%nat -> coef c i = zero) /\ (deg c = O \/ coef c (deg c) <> zero).
  Proof using eqb_spec.
    unfold p_deg. destruct (deg_n_spec c (length c - 1)) as (A & B & C). split; [exact A|]. split; [|exact C].
    intros i Hi. destruct (Nat.le_gt_cases i (length c - 1)) as [L|L]; [apply B; lia|]. apply coef_above. lia.
  Qed.
  Lemma deg_char c n : (n = O \/ coef c n <> zero) -> (forall i, (n < i)%nat -> coef c i = zero) -> deg c = n.
  Proof using eqb_spec.
    intros H1 H2. destruct (deg_spec c) as (_ & B & C). destruct (Nat.lt_trichotomy (deg c) n) as [L|[L|L]]; [|exact L|].
    - destruct H1 as [->|H1]; [lia|]. now rewrite B in H1.
    - destruct C as [C|C]; [lia|]. now rewrite H2 in C.
  Qed.

  (** the pointwise operations *)
  Lemma pointwise (F : R -> R -> option R) (g : nat -> R) (e : penv) r a b lr :
    (forall i, (i <= lr)%nat -> F (coef (e a) i) (coef (e b) i) = Some (g i)) ->
    exists e', for_range 0 (lr + 1) (fun i (e : penv) => let* q := F (p_at zero (e a) (Z.of_nat i)) (p_at zero (e b) (Z.of_nat i)) in
      let* c := p_put zero (e r) (Z.of_nat i) q in Some (pset e r c)) (pset e r (p_resize zero (e r) (lr + 1))) = Some e' /\
      length (e' r) = (lr + 1)%nat /\ (forall i, (i <= lr)%nat -> coef (e' r) i = g i) /\ forall x, x <> r -> e' x = e x.
  Proof using.
    intros HF.
    destruct (for_range_spec (fun i (t : penv) => length (t r) = (lr + 1)%nat /\ (forall j, (j < i)%nat -> coef (t r) j = g j) /\
       (forall j, (i <= j <= lr)%nat -> coef (t r) j = coef (e r) j) /\ forall x, x <> r -> t x = e x)
      (fun i (e : penv) => let* q := F (p_at zero (e a) (Z.of_nat i)) (p_at zero (e b) (Z.of_nat i)) in
      let* c := p_put zero (e r) (Z.of_nat i) q in Some (pset e r c)) 0 (lr + 1) (pset e r (p_resize zero (e r) (lr + 1)))) as (e' & E & I1 & I2 & I3 & I4).
    - lia.
    - unfold pset at 1 2 3. rewrite Nat.eqb_refl. split; [apply p_resize_length|]. split; [intros; lia|]. split.
      + intros j Hj. apply coef_resize. lia.
      + intros x Hx. unfold pset. destruct (Nat.eqb_spec x r); [contradiction|reflexivity].
    - intros i t Hi (J1 & J2 & J3 & J4). rewrite !p_at_coef.
      assert (Ct : forall x, coef (t x) i = coef (e x) i).
      { intros x. destruct (Nat.eq_dec x r) as [->|N]; [apply J3; lia|]. now rewrite J4. }
      rewrite !Ct, HF by lia. cbn [obind]. destruct (put_spec (t r) (Z.of_nat i) (g i)) as (c & Ec & Lc & Vc); [lia|]. rewrite Ec. cbn [obind].
      eexists. split; [reflexivity|]. unfold pset at 1 2 3. rewrite Nat.eqb_refl. split; [lia|]. rewrite Nat2Z.id in Vc. split; [|split].
      + intros j Hj. rewrite Vc. destruct (Nat.eqb_spec j i) as [->|N]; [reflexivity|]. apply J2. lia.
      + intros j Hj. rewrite Vc. destruct (Nat.eqb_spec j i); [lia|]. apply J3. lia.
      + intros x Hx. unfold pset. destruct (Nat.eqb_spec x r); [contradiction|]. apply J4. exact Hx.
    - exists e'. split; [exact E|]. split; [exact I1|]. split; [|exact I4]. intros i Hi. apply I2. lia.
  Qed.
  (** coefficients above the written degree are zero *)
  Lemma coef_total c lr (g : nat -> R) : length c = (lr + 1)%nat -> (forall i, (i <= lr)%nat -> coef c i = g i) ->
    (forall i, (lr < i)%nat -> g i = zero) -> forall i, coef c i = g i.
  Proof using.
    intros L H G i. destruct (Nat.le_gt_cases i lr) as [Li|Li]; [apply H; exact Li|]. rewrite G by exact Li. apply coef_above. lia.
  Qed.

  Lemma p_neg_spec (e : penv) r a : exists e', p_neg zero opp eqb e r a = Some e' /\ length (e' r) = (deg (e a) + 1)%nat /\
    (forall i, coef (e' r) i = opp (coef (e a) i)) /\ forall x, x <> r -> e' x = e x.
  Proof using Rth eqb_spec.
    destruct (pointwise (fun x _ => Some (opp x)) (fun i => opp (coef (e a) i)) e r a a (deg (e a))) as (e' & E & L & V & F); [reflexivity|].
    exists e'. split; [exact E|]. split; [exact L|]. split; [|exact F]. apply (coef_total _ _ _ L V).
    intros i Hi. rewrite (proj1 (proj2 (deg_spec (e a)))) by exact Hi. ring.
  Qed.
  Lemma p_add_spec (e : penv) r a b : exists e', p_add zero add eqb e r a b = Some e' /\ length (e' r) = (Nat.max (deg (e a)) (deg (e b)) + 1)%nat /\
    (forall i, coef (e' r) i = add (coef (e a) i) (coef (e b) i)) /\ forall x, x <> r -> e' x = e x.
  Proof using Rth eqb_spec.
    destruct (pointwise (fun x y => Some (add x y)) (fun i => add (coef (e a) i) (coef (e b) i)) e r a b (Nat.max (deg (e a)) (deg (e b)))) as (e' & E & L & V & F); [reflexivity|].
    exists e'. split; [exact E|]. split; [exact L|]. split; [|exact F]. apply (coef_total _ _ _ L V).
    intros i Hi. rewrite (proj1 (proj2 (deg_spec (e a)))), (proj1 (proj2 (deg_spec (e b)))) by lia. ring.
  Qed.
  Lemma p_sub_spec (e : penv) r a b : exists e', p_sub zero sub eqb e r a b = Some e' /\ length (e' r) = (Nat.max (deg (e a)) (deg (e b)) + 1)%nat /\
    (forall i, coef (e' r) i = sub (coef (e a) i) (coef (e b) i)) /\ forall x, x <> r -> e' x = e x.
  Proof using Rth eqb_spec.
    destruct (pointwise (fun x y => Some (sub x y)) (fun i => sub (coef (e a) i) (coef (e b) i)) e r a b (Nat.max (deg (e a)) (deg (e b)))) as (e' & E & L & V & F); [reflexivity|].
    exists e'. split; [exact E|]. split; [exact L|]. split; [|exact F]. apply (coef_total _ _ _ L V).
    intros i Hi. rewrite (proj1 (proj2 (deg_spec (e a)))), (proj1 (proj2 (deg_spec (e b)))) by lia. ring.
  Qed.
  Lemma p_smul_spec (e : penv) r a s : exists e', p_smul zero mul eqb e r a s = Some e' /\ length (e' r) = (deg (e a) + 1)%nat /\
    (forall i, coef (e' r) i = mul (coef (e a) i) s) /\ forall x, x <> r -> e' x = e x.
  Proof using Rth eqb_spec.
    destruct (pointwise (fun x _ => Some (mul x s)) (fun i => mul (coef (e a) i) s) e r a a (deg (e a))) as (e' & E & L & V & F); [reflexivity|].
    exists e'. split; [exact E|]. split; [exact L|]. split; [|exact F]. apply (coef_total _ _ _ L V).
    intros i Hi. rewrite (proj1 (proj2 (deg_spec (e a)))) by exact Hi. ring.
  Qed.
  (** division by a unit [s] with inverse [u] *)
  Lemma p_sdiv_spec (e : penv) r a s u : (forall x, tdiv x s = Some (mul x u)) ->
    exists e', p_sdiv zero tdiv eqb e r a s = Some e' /\ length (e' r) = (deg (e a) + 1)%nat /\
    (forall i, coef (e' r) i = mul (coef (e a) i) u) /\ forall x, x <> r -> e' x = e x.
  Proof using Rth eqb_spec.
    intros Hu.
    destruct (pointwise (fun x _ => tdiv x s) (fun i => mul (coef (e a) i) u) e r a a (deg (e a))) as (e' & E & L & V & F); [intros; apply Hu|].
    exists e'. split; [exact E|]. split; [exact L|]. split; [|exact F]. apply (coef_total _ _ _ L V).
    intros i Hi. rewrite (proj1 (proj2 (deg_spec (e a)))) by exact Hi. ring.
  Qed.

  Lemma p_mul_spec thr (e : penv) r a b lr0 :
    let lr := if lr0 <? 0 then Z.of_nat (deg (e a) + deg (e b)) else lr0 in
    exists e', p_mul zero add sub mul eqb thr e r a b lr0 = Some e' /\ length (e' r) = Z.to_nat (lr + 1) /\
    (forall i, Z.of_nat i <= lr -> coef (e' r) i = pconv (coef (e a)) (coef (e b)) i) /\ forall x, x <> r -> e' x = e x.
  Proof using Rth eqb_spec.
    intros lr. unfold p_mul. fold lr. assert (Hlr : 0 <= lr) by (unfold lr; destruct (Z.ltb_spec lr0 0); lia). clearbody lr.
    set (l1 := deg (e a)). set (l2 := deg (e b)).
    set (e1 := pset e r (p_resize zero (e r) (Z.to_nat (lr + 1)))).
    assert (Lr : length (e1 r) = Z.to_nat (lr + 1)) by (unfold e1, pset; rewrite Nat.eqb_refl; apply p_resize_length).
    assert (Ox : forall x, x <> r -> e1 x = e x) by (intros x Hx; unfold e1, pset; destruct (Nat.eqb_spec x r); [contradiction|reflexivity]).
    assert (Cx : forall x i, Z.of_nat i <= lr -> coef (e1 x) i = coef (e x) i).
    { intros x i Hi. destruct (Nat.eq_dec x r) as [->|N]; [|now rewrite Ox]. unfold e1, pset. rewrite Nat.eqb_refl. apply coef_resize. lia. }
    set (pa := if Nat.eqb a r then 0 else Z.of_nat (length (e1 r))).
    set (pb := if Nat.eqb b r then 0 else if Nat.eqb b a then pa else Z.of_nat (length (e1 r) + length (e1 a))).
    set (h := e1 r ++ e1 a ++ e1 b).
    assert (Lh : hlen h = lr + 1 + Z.of_nat (length (e1 a)) + Z.of_nat (length (e1 b))) by (unfold hlen, h; rewrite !app_length; lia).
    assert (Fin : forall h', upd h h' 0 lr (pconv (coef (e a)) (coef (e b))) ->
      exists e', Some (pset e1 r (firstn (length (e1 r)) h')) = Some e' /\ length (e' r) = Z.to_nat (lr + 1) /\
      (forall i, Z.of_nat i <= lr -> coef (e' r) i = pconv (coef (e a)) (coef (e b)) i) /\ forall x, x <> r -> e' x = e x).
    { intros h' (L & V & _). eexists. split; [reflexivity|]. unfold pset at 1 2. rewrite Nat.eqb_refl. split; [|split].
      - rewrite firstn_length. unfold hlen in *. lia.
      - intros i Hi. rewrite coef_firstn by lia. specialize (V i Hi). unfold PolyProofs.val in V.
        replace (Z.to_nat (0 + Z.of_nat i)) with i in V by lia. exact V.
      - intros x Hx. unfold pset. destruct (Nat.eqb_spec x r); [contradiction|]. apply Ox. exact Hx. }
    assert (Va : forall i, Z.of_nat i <= lr -> (i <= l1)%nat -> (0 < length (e1 a))%nat -> val h (pa + Z.of_nat i) = coef (e a) i).
    { intros i Hi Hil Ha. rewrite <- Cx by exact Hi. unfold h, pa, PolyProofs.val, SeriesSpec.coef. destruct (Nat.eqb_spec a r) as [->|N].
      - replace (Z.to_nat (0 + Z.of_nat i)) with i by lia. rewrite app_nth1 by lia. reflexivity.
      - replace (Z.to_nat (Z.of_nat (length (e1 r)) + Z.of_nat i)) with (length (e1 r) + i)%nat by lia.
        rewrite app_nth2_plus. rewrite app_nth1; [reflexivity|]. pose proof (proj1 (deg_spec (e a))) as HD. rewrite Ox in * by exact N. fold l1 in HD. lia. }
    assert (Vb : forall i, Z.of_nat i <= lr -> (i <= l2)%nat -> (0 < length (e1 b))%nat -> val h (pb + Z.of_nat i) = coef (e b) i).
    { intros i Hi Hil Hb. unfold pb. destruct (Nat.eqb_spec b r) as [->|N]; [|destruct (Nat.eqb_spec b a) as [->|N']].
      - rewrite <- Cx by exact Hi. unfold h, PolyProofs.val, SeriesSpec.coef. replace (Z.to_nat (0 + Z.of_nat i)) with i by lia. rewrite app_nth1 by lia. reflexivity.
      - apply Va; assumption.
      - rewrite <- Cx by exact Hi. unfold h, PolyProofs.val, SeriesSpec.coef.
        replace (Z.to_nat (Z.of_nat (length (e1 r) + length (e1 a)) + Z.of_nat i)) with (length (e1 r) + (length (e1 a) + i))%nat by lia.
        rewrite !app_nth2_plus. reflexivity. }
    destruct (Nat.eqb_spec (length (e1 a)) 0) as [Ea|Ea]; [|destruct (Nat.eqb_spec (length (e1 b)) 0) as [Eb|Eb]]; cbn [orb].
    1,2: destruct (zero_fill_spec zero h 0 (-1) lr) as (h' & E & L & Z0 & F0); [lia|lia|]; rewrite E; cbn [obind]; apply Fin;
      split; [exact L|]; split; [|intros j Hj Hd; apply F0; lia]; intros i Hi; rewrite Z0 by lia; symmetry;
      apply (rsum_zero _ _ _ _ _ _ Rth); intros j Hj.
    - rewrite (coef_above (e a) j); [ring|]. destruct (Nat.eq_dec a r) as [->|N]; [lia|]. rewrite <- Ox by exact N. lia.
    - rewrite (coef_above (e b)); [ring|]. destruct (Nat.eq_dec b r) as [->|N]; [lia|]. rewrite <- Ox by exact N. lia.
    - assert (Ha : pa + Z.min (Z.of_nat l1) lr < hlen h).
      { unfold pa. destruct (Nat.eqb_spec a r) as [->|N]; [lia|]. pose proof (proj1 (deg_spec (e a))) as HD. rewrite Ox in * by exact N. fold l1 in HD. lia. }
      assert (Hb : pb + Z.min (Z.of_nat l2) lr < hlen h).
      { unfold pb. destruct (Nat.eqb_spec b r) as [->|N]; [lia|]. destruct (Nat.eqb_spec b a) as [->|N']; [exact Ha|].
        pose proof (proj1 (deg_spec (e b))) as HD. rewrite (Ox b) in * by exact N. fold l2 in HD. lia. }
      assert (Sa : pa = 0 \/ lr < pa) by (unfold pa; destruct (Nat.eqb a r); lia).
      assert (Sb : pb = 0 \/ lr < pb) by (unfold pb; destruct (Nat.eqb b r); [lia|]; destruct (Nat.eqb b a); lia).
      destruct (mul_raw_spec thr (S (l1 + l2)) h 0 lr pa (Z.of_nat l1) pb (Z.of_nat l2)) as (h' & E & U); unfold sep; try lia.
      rewrite E. cbn [obind]. apply Fin. apply (upd_ext _ _ _ _ _ _ _ U). intros i Hi. apply pconv_ext; intros j Hj.
      + destruct (Nat.le_gt_cases j l1) as [Lj|Lj].
        * rewrite opd_le by lia. apply Va; lia.
        * rewrite opd_above by lia. symmetry. apply (proj1 (proj2 (deg_spec (e a)))). exact Lj.
      + destruct (Nat.le_gt_cases j l2) as [Lj|Lj].
        * rewrite opd_le by lia. apply Vb; lia.
        * rewrite opd_above by lia. symmetry. apply (proj1 (proj2 (deg_spec (e b)))). exact Lj.
  Qed.
End PolyProofs3.
