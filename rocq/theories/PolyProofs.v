From Coq Require Import Ring Ring_theory.
From Verif Require Import Lib RingSpec RingProofs SeriesSpec SeriesProofs PolyModel.
Open Scope Z_scope.

(** loops *)
Lemma zup_empty {S} a b body (s : S) : b < a -> zup a b body s = Some s.
Proof. intros H. unfold zup. now replace (Z.to_nat (b - a + 1)) with O by lia. Qed.
Lemma zup_spec {S} (Inv : Z -> S -> Prop) body a b s : a <= b + 1 -> Inv a s ->
  (forall i t, a <= i <= b -> Inv i t -> exists t', body i t = Some t' /\ Inv (i + 1) t') ->
  exists s', zup a b body s = Some s' /\ Inv (b + 1) s'.
Proof.
  intros Hab H0 Hb. unfold zup. remember (Z.to_nat (b - a + 1)) as n eqn:En. revert a s Hab H0 Hb En.
  induction n as [|n IH]; intros a s Hab H0 Hb En; cbn [zup_n].
  - exists s. split; [reflexivity|]. now replace (b + 1) with a by lia.
  - destruct (Hb a s) as (t & Et & Ht); [lia|exact H0|]. rewrite Et. cbn [obind].
    apply (IH (a + 1) t); [lia|exact Ht| |lia]. intros i t' Hi. apply Hb. lia.
Qed.
Lemma zdn_empty {S} a b body (s : S) : a < b -> zdn a b body s = Some s.
Proof. intros H. unfold zdn. now replace (Z.to_nat (a - b + 1)) with O by lia. Qed.
Lemma zdn_spec {S} (Inv : Z -> S -> Prop) body a b s : b <= a + 1 -> Inv a s ->
  (forall i t, b <= i <= a -> Inv i t -> exists t', body i t = Some t' /\ Inv (i - 1) t') ->
  exists s', zdn a b body s = Some s' /\ Inv (b - 1) s'.
Proof.
  intros Hab H0 Hb. unfold zdn. remember (Z.to_nat (a - b + 1)) as n eqn:En. revert a s Hab H0 Hb En.
  induction n as [|n IH]; intros a s Hab H0 Hb En; cbn [zdn_n].
  - exists s. split; [reflexivity|]. now replace (b - 1) with a by lia.
  - destruct (Hb a s) as (t & Et & Ht); [lia|exact H0|]. rewrite Et. cbn [obind].
    apply (IH (a - 1) t); [lia|exact Ht| |lia]. intros i t' Hi. apply Hb. lia.
Qed.

Section PolyProofs.
  Context {R : Type} (zero one : R) (add mul sub : R -> R -> R) (opp : R -> R).
  Hypothesis Rth : ring_theory zero one add mul sub opp (@eq R).
  Add Ring Rp : Rth.
  Local Notation rsum := (rsum zero add).
  Local Notation pconv := (pconv zero add mul). Local Notation pshift := (pshift zero).
  Local Notation ptrunc := (ptrunc zero).

  Definition val (h : list R) (j : Z) : R := nth (Z.to_nat j) h zero.
  Definition hlen (h : list R) : Z := Z.of_nat (length h).
  Lemma hget_val h j : 0 <= j < hlen h -> hget h j = Some (val h j).
  Proof using.
    unfold hlen. intros H. unfold hget. destruct (Z.ltb_spec j 0); [lia|]. unfold val. apply nth_error_nth'. lia.
  Qed.
  Lemma hset_val h j x : 0 <= j < hlen h -> exists h', hset h j x = Some h' /\ hlen h' = hlen h /\
    val h' j = x /\ forall i, 0 <= i -> i <> j -> val h' i = val h i.
  Proof using.
    unfold hlen. intros H. unfold hset. destruct (Z.ltb_spec j 0); [lia|].
    destruct (set_nth_some h (Z.to_nat j) x) as (h' & E); [lia|]. exists h'. split; [exact E|].
    pose proof (set_nth_length _ _ _ _ E) as L. split; [lia|]. split.
    - unfold val. apply nth_error_nth. rewrite (set_nth_get _ _ _ _ _ E). now rewrite Nat.eqb_refl.
    - intros i Hi Ni. unfold val. pose proof (set_nth_get _ _ _ _ (Z.to_nat i) E) as G.
      destruct (Nat.eqb_spec (Z.to_nat j) (Z.to_nat i)); [lia|].
      destruct (nth_error h (Z.to_nat i)) as [y|] eqn:F.
      + rewrite (nth_error_nth _ _ zero G). symmetry. now apply nth_error_nth.
      + apply nth_error_None in F. apply nth_error_None in G. rewrite !nth_overflow by assumption. reflexivity.
  Qed.

  (** [h'] is [h] with the block [pr .. pr + lr] replaced by [f] *)
  Definition upd (h h' : list R) (pr lr : Z) (f : nat -> R) : Prop :=
    hlen h' = hlen h /\ (forall i, Z.of_nat i <= lr -> val h' (pr + Z.of_nat i) = f i) /\
    forall j, 0 <= j -> (j < pr \/ pr + lr < j) -> val h' j = val h j.
  Lemma upd_ext h h' pr lr f g : upd h h' pr lr f -> (forall i, Z.of_nat i <= lr -> f i = g i) -> upd h h' pr lr g.
  Proof using. intros (L & A & B) H. split; [exact L|]. split; [|exact B]. intros i Hi. rewrite A by exact Hi. auto. Qed.

  Lemma halloc_val h n j : val (halloc zero h n) j = val h j.
  Proof using.
    unfold val, halloc. destruct (Nat.lt_ge_cases (Z.to_nat j) (length h)) as [L|L].
    - now rewrite app_nth1.
    - rewrite app_nth2 by exact L. rewrite (nth_overflow h) by exact L. apply nth_repeat.
  Qed.
  Lemma halloc_len h n : 0 <= n -> hlen (halloc zero h n) = hlen h + n.
  Proof using. intros H. unfold hlen, halloc. rewrite app_length, repeat_length. lia. Qed.
  Lemma hfree_val h len j : 0 <= j < Z.of_nat len -> val (hfree h len) j = val h j.
  Proof using.
    intros H. unfold val, hfree. destruct (Nat.lt_ge_cases (Z.to_nat j) (length h)) as [L|L].
    - rewrite <- (firstn_skipn len h) at 2. rewrite app_nth1; [reflexivity|]. rewrite firstn_length. lia.
    - rewrite !nth_overflow; [reflexivity|exact L|]. rewrite firstn_length. lia.
  Qed.
  Lemma hfree_len h len : Z.of_nat len <= hlen h -> hlen (hfree h len) = Z.of_nat len.
  Proof using. unfold hlen, hfree. intros H. rewrite firstn_length. lia. Qed.

  Lemma zero_fill_spec h pr lm lr : 0 <= pr + lm + 1 -> pr + lr < hlen h ->
    exists h', zero_fill zero h pr lm lr = Some h' /\ hlen h' = hlen h /\
    (forall j, lm < j <= lr -> val h' (pr + j) = zero) /\ forall j, 0 <= j -> (j <= pr + lm \/ pr + lr < j) -> val h' j = val h j.
  Proof using.
    intros H1 H2. unfold zero_fill. destruct (Z.le_gt_cases (lm + 1) (lr + 1)) as [L|L].
    2:{ rewrite zup_empty by lia. exists h. split; [reflexivity|]. split; [reflexivity|]. split; [intros; lia|reflexivity]. }
    destruct (zup_spec (fun i t => hlen t = hlen h /\ (forall j, lm < j < i -> val t (pr + j) = zero) /\
       forall j, 0 <= j -> (j <= pr + lm \/ pr + i <= j) -> val t j = val h j) (fun i h => hset h (pr + i) zero) (lm + 1) lr h) as (h' & E & I1 & I2 & I3).
    - lia.
    - split; [reflexivity|]. split; [intros; lia|reflexivity].
    - intros i t Hi (J1 & J2 & J3). destruct (hset_val t (pr + i) zero) as (t' & E & K1 & K2 & K3); [lia|]. exists t'. split; [exact E|].
      split; [lia|]. split.
      + intros j Hj. destruct (Z.eq_dec j i) as [->|N]; [exact K2|]. rewrite K3 by lia. apply J2. lia.
      + intros j Hj Hd. rewrite K3 by lia. apply J3; lia.
    - exists h'. split; [exact E|]. split; [exact I1|]. split; [intros j Hj; apply I2; lia|intros j Hj Hd; apply I3; lia].
  Qed.

  Lemma addsub_spec (op : R -> R -> R) h pr p2 l2 : 0 <= pr -> 0 <= p2 -> pr + l2 < hlen h -> p2 + l2 < hlen h ->
    (pr + l2 < p2 \/ p2 + l2 < pr) -> -1 <= l2 ->
    exists h', zup 0 l2 (fun i h => let* x := hget h (pr + i) in let* y := hget h (p2 + i) in hset h (pr + i) (op x y)) h = Some h' /\
    upd h h' pr l2 (fun i => op (val h (pr + Z.of_nat i)) (val h (p2 + Z.of_nat i))).
  Proof using.
    intros H1 H2 H3 H4 H5 H6.
    destruct (zup_spec (fun i t => hlen t = hlen h /\ (forall j, Z.of_nat j < i -> val t (pr + Z.of_nat j) = op (val h (pr + Z.of_nat j)) (val h (p2 + Z.of_nat j))) /\
       forall j, 0 <= j -> (j < pr \/ pr + i <= j) -> val t j = val h j)
      (fun i h => let* x := hget h (pr + i) in let* y := hget h (p2 + i) in hset h (pr + i) (op x y)) 0 l2 h) as (h' & E & I1 & I2 & I3).
    - lia.
    - split; [reflexivity|]. split; [intros; lia|reflexivity].
    - intros i t Hi (J1 & J2 & J3). rewrite !hget_val by lia. cbn [obind].
      destruct (hset_val t (pr + i) (op (val t (pr + i)) (val t (p2 + i)))) as (t' & E & K1 & K2 & K3); [lia|]. exists t'. split; [exact E|].
      split; [lia|]. split.
      + intros j Hj. destruct (Z.eq_dec (Z.of_nat j) i) as [->|N]; [rewrite K2; rewrite !J3 by lia; reflexivity|]. rewrite K3 by lia. apply J2. lia.
      + intros j Hj Hd. rewrite K3 by lia. apply J3; lia.
    - exists h'. split; [exact E|]. split; [exact I1|]. split; [intros j Hj; apply I2; lia|intros j Hj Hd; apply I3; lia].
  Qed.
  Lemma add_to_spec h pr p2 l2 : 0 <= pr -> 0 <= p2 -> pr + l2 < hlen h -> p2 + l2 < hlen h ->
    (pr + l2 < p2 \/ p2 + l2 < pr) -> -1 <= l2 ->
    exists h', add_to add h pr p2 l2 = Some h' /\ upd h h' pr l2 (fun i => add (val h (pr + Z.of_nat i)) (val h (p2 + Z.of_nat i))).
  Proof using. apply addsub_spec. Qed.
  Lemma sub_from_spec h pr p2 l2 : 0 <= pr -> 0 <= p2 -> pr + l2 < hlen h -> p2 + l2 < hlen h ->
    (pr + l2 < p2 \/ p2 + l2 < pr) -> -1 <= l2 ->
    exists h', sub_from sub h pr p2 l2 = Some h' /\ upd h h' pr l2 (fun i => sub (val h (pr + Z.of_nat i)) (val h (p2 + Z.of_nat i))).
  Proof using. apply addsub_spec. Qed.
  Lemma copy_to_spec h pr p2 n : 0 <= pr -> 0 <= p2 -> pr + n <= hlen h -> p2 + n <= hlen h ->
    (pr + n <= p2 \/ p2 + n <= pr) -> 0 <= n ->
    exists h', copy_to h pr p2 n = Some h' /\ upd h h' pr (n - 1) (fun i => val h (p2 + Z.of_nat i)).
  Proof using.
    intros H1 H2 H3 H4 H5 H6. destruct (addsub_spec (fun _ y => y) h pr p2 (n - 1)) as (h' & E & U); try lia.
    exists h'. split; [|exact U]. rewrite <- E. unfold copy_to.
    (* the reads agree as long as the destination is in bounds *)
    clear E U. unfold zup. remember (Z.to_nat (n - 1 - 0 + 1)) as c eqn:Ec.
    assert (Hc : forall c i h, 0 <= i -> i + Z.of_nat c <= n -> pr + n <= hlen h ->
      zup_n c i (fun (i0 : Z) (h0 : list R) => let* x := hget h0 (p2 + i0) in hset h0 (pr + i0) x) h =
      zup_n c i (fun (i0 : Z) (h0 : list R) => let* x := hget h0 (pr + i0) in let* y := hget h0 (p2 + i0) in hset h0 (pr + i0) y) h).
    { clear h H3 H4 c Ec. induction c as [|c IH]; intros i h Hi Hc Hl; cbn [zup_n]; [reflexivity|].
      rewrite (hget_val h (pr + i)) by lia. cbn [obind]. destruct (hget h (p2 + i)) as [y|]; cbn [obind]; [|reflexivity].
      destruct (hset_val h (pr + i) y) as (h'' & E & L & _ & _); [lia|]. rewrite E. cbn [obind]. apply IH; lia. }
    apply Hc; lia.
  Qed.

  (** the two operands as series *)
  Definition opd (h : list R) (p l : Z) : nat -> R := ptrunc (Z.to_nat l) (fun i => val h (p + Z.of_nat i)).
  (** how an operand block may lie with respect to the result block *)
  Definition sep (pr lr p l : Z) : Prop := p = pr \/ p + l < pr \/ pr + lr < p.

  Lemma mul_long_spec h pr lr p1 l1 p2 l2 : 0 <= l1 -> 0 <= l2 -> l1 <= lr -> l2 <= lr -> lr <= l1 + l2 ->
    0 <= pr -> 0 <= p1 -> 0 <= p2 -> pr + lr < hlen h -> p1 + l1 < hlen h -> p2 + l2 < hlen h ->
    sep pr lr p1 l1 -> sep pr lr p2 l2 ->
    exists h', mul_long zero add mul h pr lr p1 l1 p2 l2 = Some h' /\ upd h h' pr lr (pconv (opd h p1 l1) (opd h p2 l2)).
  Proof using Rth.
    intros Hl1 Hl2 H1 H2 H12 Hpr Hp1 Hp2 B0 B1 B2 D1 D2. unfold mul_long, sep in *.
    destruct (zdn_spec (fun i t => hlen t = hlen h /\ (forall j, i < Z.of_nat j <= lr -> val t (pr + Z.of_nat j) = pconv (opd h p1 l1) (opd h p2 l2) j) /\
       forall j, 0 <= j -> (j <= pr + i \/ pr + lr < j) -> val t j = val h j)
      (fun i h => let* r := zdn (Z.min i l1) (Z.max 0 (i - l2)) (fun j r => let* x := hget h (p1 + j) in let* y := hget h (p2 + (i - j)) in Some (add r (mul x y))) zero in
         hset h (pr + i) r) lr 0 h) as (h' & E & I1 & I2 & I3).
    - lia.
    - split; [reflexivity|]. split; [intros; lia|reflexivity].
    - intros i t Hi (J1 & J2 & J3). set (a := opd h p1 l1) in *. set (b := opd h p2 l2) in *.
      set (term := fun j : nat => mul (a j) (b (Z.to_nat i - j)%nat)).
      assert (Ez : forall j, Z.min i l1 < Z.of_nat j <= i \/ Z.of_nat j < Z.max 0 (i - l2) -> term j = zero).
      { intros j Hj. unfold term, a, b, opd. destruct Hj as [Hj|Hj].
        - rewrite (ptrunc_gt _ (Z.to_nat l1)) by lia. ring.
        - rewrite (ptrunc_gt _ (Z.to_nat l2)) by lia. ring. }
      destruct (zdn_spec (fun j r => add r (rsum (Z.to_nat (j + 1)) term) = rsum (S (Z.to_nat i)) term)
        (fun j r => let* x := hget t (p1 + j) in let* y := hget t (p2 + (i - j)) in Some (add r (mul x y)))
        (Z.min i l1) (Z.max 0 (i - l2)) zero) as (r & Er & Ir).
      + lia.
      + replace (S (Z.to_nat i)) with (Z.to_nat (Z.min i l1 + 1) + (Z.to_nat i - Z.to_nat (Z.min i l1)))%nat by lia.
        rewrite (rsum_split _ _ _ _ _ _ Rth). rewrite (rsum_zero _ _ _ _ _ _ Rth (_ - _)%nat); [ring|].
        intros j Hj. apply Ez. lia.
      + intros j r Hj Ir. rewrite !hget_val by lia. cbn [obind]. eexists. split; [reflexivity|].
        replace (j - 1 + 1) with j by lia. rewrite <- Ir. replace (Z.to_nat (j + 1)) with (S (Z.to_nat j)) by lia. rewrite rsum_S.
        replace (mul (val t (p1 + j)) (val t (p2 + (i - j)))) with (term (Z.to_nat j)); [ring|].
        unfold term, a, b, opd. rewrite !ptrunc_le by lia. replace (p1 + Z.of_nat (Z.to_nat j)) with (p1 + j) by lia.
        replace (p2 + Z.of_nat (Z.to_nat i - Z.to_nat j)) with (p2 + (i - j)) by lia.
        rewrite !J3 by lia. reflexivity.
      + rewrite Er. cbn [obind]. destruct (hset_val t (pr + i) r) as (t' & E & K1 & K2 & K3); [lia|]. exists t'. split; [exact E|].
        assert (Vr : r = pconv a b (Z.to_nat i)).
        { unfold SeriesSpec.pconv. fold term. rewrite <- Ir. rewrite (rsum_zero _ _ _ _ _ _ Rth (Z.to_nat _)); [ring|]. intros j Hj. apply Ez. lia. }
        split; [lia|]. split.
        * intros j Hj. destruct (Z.eq_dec (Z.of_nat j) i) as [Ej|N].
          -- rewrite Ej, K2, Vr. f_equal. lia.
          -- rewrite K3 by lia. apply J2. lia.
        * intros j Hj Hd. rewrite K3 by lia. apply J3; lia.
    - exists h'. split; [exact E|]. split; [exact I1|]. split; [intros j Hj; apply I2; lia|intros j Hj Hd; apply I3; lia].
  Qed.

  (** what the recursive [_mul] must do *)
  Definition mul_ok_at (m : list R -> Z -> Z -> Z -> Z -> Z -> Z -> option (list R)) (fuel : Z) : Prop :=
    forall h pr lr p1 l1 p2 l2, l1 + l2 < fuel -> 0 <= lr -> 0 <= l1 -> 0 <= l2 -> 0 <= pr -> 0 <= p1 -> 0 <= p2 ->
      pr + lr < hlen h -> p1 + Z.min l1 lr < hlen h -> p2 + Z.min l2 lr < hlen h ->
      sep pr lr p1 (Z.min l1 lr) -> sep pr lr p2 (Z.min l2 lr) ->
      exists h', m h pr lr p1 l1 p2 l2 = Some h' /\ upd h h' pr lr (pconv (opd h p1 l1) (opd h p2 l2)).

  (** *** the algebra of Karatsuba's step *)
  Lemma split_trunc a k l : (1 <= k <= l)%nat -> forall i, ptrunc l a i =
    add (ptrunc (k - 1) a i) (pshift k (ptrunc (l - k) (fun j => a (k + j)%nat)) i).
  Proof using Rth.
    intros Hk i. unfold SeriesSpec.ptrunc, SeriesSpec.pshift.
    destruct (Nat.leb_spec i l), (Nat.leb_spec i (k - 1)), (Nat.leb_spec k i), (Nat.leb_spec (i - k) (l - k)); try lia; try ring.
    replace (k + (i - k))%nat with i by lia. ring.
  Qed.
  Lemma pconv_split_l a b k l i : (1 <= k <= l)%nat -> pconv (ptrunc l a) b i =
    add (pconv (ptrunc (k - 1) a) b i) (pshift k (pconv (ptrunc (l - k) (fun j => a (k + j)%nat)) b) i).
  Proof using Rth.
    intros Hk. rewrite <- (pconv_shift_l _ _ _ _ _ _ Rth), <- (pconv_add_l _ _ _ _ _ _ Rth). apply pconv_ext; [|auto].
    intros j _. apply split_trunc. exact Hk.
  Qed.
  Lemma pshift_op (op : R -> R -> R) k a b i : op zero zero = zero -> pshift k (fun j => op (a j) (b j)) i = op (pshift k a i) (pshift k b i).
  Proof using. intros H. unfold SeriesSpec.pshift. destruct (Nat.leb k i); auto. Qed.
  Lemma karatsuba_alg a b k l1 l2 i : (1 <= k <= l1)%nat -> (k <= l2)%nat ->
    let A0 := ptrunc (k - 1) a in let A1 := ptrunc (l1 - k) (fun j => a (k + j)%nat) in
    let B0 := ptrunc (k - 1) b in let B1 := ptrunc (l2 - k) (fun j => b (k + j)%nat) in
    pconv (ptrunc l1 a) (ptrunc l2 b) i =
    add (add (pconv A0 B0 i)
      (pshift k (fun j => sub (sub (pconv (fun t => add (A0 t) (A1 t)) (fun t => add (B0 t) (B1 t)) j) (pconv A0 B0 j)) (pconv A1 B1 j)) i))
      (pshift (k + k) (pconv A1 B1) i).
  Proof using Rth.
    intros H1 H2 A0 A1 B0 B1. rewrite (pconv_split_l a _ k l1) by exact H1. fold A0 A1.
    rewrite (pconv_comm _ _ _ _ _ _ Rth A0). rewrite (pconv_split_l b A0 k l2) by lia. fold B0 B1.
    rewrite (pshift_ext _ k (pconv A1 (ptrunc l2 b)) (fun j => add (pconv B0 A1 j) (pshift k (pconv B1 A1) j)) i).
    2:{ intros j _. rewrite (pconv_comm _ _ _ _ _ _ Rth A1). rewrite (pconv_split_l b A1 k l2) by lia. reflexivity. }
    rewrite (pshift_op add k _ _ i) by ring. rewrite pshift_shift.
    rewrite (pshift_ext _ k (fun j => sub _ _) (fun j => add (pconv B1 A0 j) (pconv B0 A1 j)) i).
    2:{ intros j _. rewrite (pconv_add_l _ _ _ _ _ _ Rth), !(pconv_add_r _ _ _ _ _ _ Rth).
        rewrite (pconv_comm _ _ _ _ _ _ Rth B1 A0), (pconv_comm _ _ _ _ _ _ Rth B0 A1). ring. }
    rewrite (pshift_op add k _ _ i) by ring.
    rewrite (pconv_comm _ _ _ _ _ _ Rth B0 A0). rewrite (pshift_ext _ (k + k) (pconv B1 A1) (pconv A1 B1)) by (intros; apply (pconv_comm _ _ _ _ _ _ Rth)). ring.
  Qed.
End PolyProofs.
