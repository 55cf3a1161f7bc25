From Verif Require Import Lib BaseModel BaseProofs PellModel PellProofs PellProofs2.
Open Scope Z_scope.

Fixpoint sg (n : nat) : Z := match n with O => 1 | S n => - sg n end.
Lemma sg_sq n : sg n * sg n = 1.
Proof. induction n as [|n IH]; cbn [sg]; lia. Qed.
Lemma sg_odd n : sg n = if (n mod 2 =? 1)%nat then -1 else 1.
Proof.
  induction n as [|n IH]; [reflexivity|]. cbn [sg]. rewrite IH. pose proof (Nat.mod_upper_bound n 2 ltac:(lia)). pose proof (Nat.div_mod_eq n 2). pose proof (Nat.mod_upper_bound (S n) 2 ltac:(lia)). pose proof (Nat.div_mod_eq (S n) 2). destruct (Nat.eqb_spec (n mod 2) 1), (Nat.eqb_spec (S n mod 2) 1); lia.
Qed.
Section Id.
  Variables D s : Z.
  Hypothesis Hs : 1 <= s.
  Hypothesis HD : s * s < D < (s + 1) * (s + 1).
  Variables P0 Q0 : Z.
  Hypothesis start_good : good D (P0, Q0).
  Notation pq := (pq D s P0 Q0).
  Notation Pn := (Pn D s P0 Q0).
  Notation Qn := (Qn D s P0 Q0).
  Notation an := (an D s P0 Q0).
  Notation cv := (cv D s P0 Q0).
  Notation cG := (cv (- P0, Q0)).
  Notation cB := (cv (1, 0)).
  Notation cA := (cv (0, 1)).
  Lemma Qn_nz n : Qn n <> 0.
  Proof. pose proof (pq_good D s Hs HD P0 Q0 n start_good) as G. unfold PellProofs.Qn. destruct (pq n) as [P Q]. apply G. Qed.
  Lemma step n : Pn (S n) = an n * Qn n - Pn n /\ Qn n * Qn (S n) = D - Pn (S n) * Pn (S n).
  Proof. pose proof (pq_good D s Hs HD P0 Q0 n start_good) as G. unfold PellProofs.Pn, PellProofs.Qn, PellProofs.an. cbn [PellProofs.pq]. destruct (pq n) as [P Q] eqn:E. destruct (next D s (P, Q)) as [P' Q'] eqn:E'. cbn [fst snd]. apply (next_exact D s P Q P' Q' G E'). Qed.
  Lemma cv_eq x n : cv x (S n) = (snd (cv x n), an n * snd (cv x n) + fst (cv x n)).
  Proof. rewrite (surjective_pairing (cv x (S n))). now rewrite cv_fst, cv_snd. Qed.
  Lemma idents n : let '(G2, G1) := cG n in let '(B2, B1) := cB n in
    G1 * G1 - D * (B1 * B1) = sg n * Qn n * Q0 /\ G1 * G2 - D * (B1 * B2) = - (sg n * Pn n * Q0) /\
    (G2 * G2 - D * (B2 * B2)) * Qn n = - (sg n * (D - Pn n * Pn n) * Q0) /\ G1 * B2 - G2 * B1 = sg n * Q0.
  Proof.
    induction n as [|n IH].
    - change (cG 0) with (- P0, Q0). change (cB 0) with (1, 0). change (Qn 0) with Q0. change (Pn 0) with P0. change (sg 0) with 1. repeat split; ring.
    - rewrite !cv_eq. destruct (cG n) as [G2 G1], (cB n) as [B2 B1]. cbn [fst snd]. destruct IH as (I1 & I2 & I3 & I4). destruct (step n) as (E1 & E2). pose proof (Qn_nz n) as NZ. cbn [sg]. set (a := an n) in *. set (P := Pn n) in *. set (Q := Qn n) in *. set (P' := Pn (S n)) in *. set (Q' := Qn (S n)) in *. clearbody a P Q P' Q'. generalize dependent (sg n). intros e I1 I2 I3 I4. repeat split.
      + apply (Z.mul_reg_r _ _ Q NZ). replace (((a * G1 + G2) * (a * G1 + G2) - D * ((a * B1 + B2) * (a * B1 + B2))) * Q) with (a * a * Q * (G1 * G1 - D * (B1 * B1)) + 2 * a * Q * (G1 * G2 - D * (B1 * B2)) + (G2 * G2 - D * (B2 * B2)) * Q) by ring. rewrite I1, I2, I3. replace (- e * Q' * Q0 * Q) with (- e * Q0 * (Q * Q')) by ring. rewrite E2, E1. ring.
      + replace ((a * G1 + G2) * G1 - D * ((a * B1 + B2) * B1)) with (a * (G1 * G1 - D * (B1 * B1)) + (G1 * G2 - D * (B1 * B2))) by ring. rewrite I1, I2, E1. ring.
      + rewrite I1. replace (e * Q * Q0 * Q') with (e * Q0 * (Q * Q')) by ring. rewrite E2. ring.
      + replace ((a * G1 + G2) * B1 - G1 * (a * B1 + B2)) with (- (G1 * B2 - G2 * B1)) by ring. rewrite I4. ring.
  Qed.
  Lemma G_lin n : fst (cG n) = Q0 * fst (cA n) - P0 * fst (cB n) /\ snd (cG n) = Q0 * snd (cA n) - P0 * snd (cB n).
  Proof. induction n as [|n IH]; [cbn; lia|]. rewrite !cv_eq. cbn [fst snd]. destruct IH as (E1 & E2). split; [exact E2|]. rewrite E1, E2. ring. Qed.
  Lemma A_det n : snd (cA n) * fst (cB n) - fst (cA n) * snd (cB n) = sg n.
  Proof. induction n as [|n IH]; [reflexivity|]. rewrite !cv_eq. cbn [fst snd sg]. rewrite <- IH. ring. Qed.

  (** the expansion becomes reduced *)
  Lemma aof_neg P Q : Q < 0 -> aof s (P, Q) * Q + Q < P + s + 1 <= aof s (P, Q) * Q.
  Proof. intros H. unfold aof. destruct (Z.ltb_spec Q 0); [|lia]. pose proof (Z.div_mod (P + (s + 1)) Q ltac:(lia)). pose proof (Z.mod_neg_bound (P + (s + 1)) Q H). lia. Qed.
  Lemma after_pos n : 0 < Qn n -> s - Qn n < Pn (S n) <= s.
  Proof. intros H. destruct (step n) as (E & _). rewrite E. pose proof (aof_pos s (Pn n) (Qn n) H) as B. unfold PellProofs.an, PellProofs.Pn, PellProofs.Qn in *. destruct (pq n). cbn [fst snd] in *. lia. Qed.
  Lemma after_neg n : Qn n < 0 -> s + 1 <= Pn (S n) <= s - Qn n /\ 0 < Qn (S n) < Pn (S n) + s.
  Proof.
    intros H. assert (B : s + 1 <= Pn (S n) <= s - Qn n). { destruct (step n) as (E & _). rewrite E. pose proof (aof_neg (Pn n) (Qn n) H) as B. unfold PellProofs.an, PellProofs.Pn, PellProofs.Qn in *. destruct (pq n). cbn [fst snd] in *. lia. }
    split; [exact B|]. destruct (step n) as (_ & E). set (P' := Pn (S n)) in *. set (Q' := Qn (S n)) in *. set (Q := Qn n) in *.
    assert (X1 : (s + 1) * (s + 1) <= P' * P') by (apply Z.mul_le_mono_nonneg; lia). assert (X2 : (P' - s) * (P' + s) <= - Q * (P' + s)) by (apply Z.mul_le_mono_nonneg_r; lia). split.
    - destruct (Z_lt_le_dec 0 Q'); [assumption|]. assert (0 <= Q * Q') by (apply Z.mul_nonpos_nonpos; lia). lia.
    - apply (Zmult_lt_reg_r _ _ (- Q)); lia.
  Qed.
  Lemma two_pos n : 0 < Qn n -> 0 < Qn (S n) -> red s (pq (S (S n))).
  Proof.
    intros H H'. pose proof (after_pos n H) as B. destruct (step n) as (_ & E). pose proof (pq_good D s Hs HD P0 Q0 (S n) start_good) as G. cbn [PellProofs.pq] in *. unfold PellProofs.Qn, PellProofs.Pn in *. cbn [PellProofs.pq] in *. destruct (next D s (pq n)) as [P' Q']. cbn [fst snd] in *. set (Q := snd (pq n)) in *.
    assert (PP : P' * P' < D) by (assert (0 < Q * Q') by (apply Z.mul_pos_pos; lia); lia). apply (below D s Hs HD) in PP.
    assert (Q' <= P' + s). { assert (Q' < P' + (s + 1)); [|lia]. apply (Zmult_lt_reg_r _ _ Q H). assert ((s + 1 - P') * (s + 1 + P') <= Q * (s + 1 + P')) by (apply Z.mul_le_mono_nonneg_r; lia). lia. }
    apply next_red_gen; [exact HD|exact G|lia..].
  Qed.
  Lemma pos_neg n : 0 < Qn n -> Qn (S n) < 0 -> 0 < Qn (S (S n)) < Qn n.
  Proof.
    intros H H'. pose proof (after_pos n H) as B. destruct (after_neg (S n) H') as (B2 & B3). split; [lia|]. destruct (step n) as (_ & E). set (P' := Pn (S n)) in *. set (Q' := Qn (S n)) in *. set (Q := Qn n) in *.
    assert (~ (- s <= P' <= s)). { intros W. apply (below D s Hs HD) in W. assert (Q * Q' < 0) by (apply Z.mul_pos_neg; lia). lia. }
    assert (- Q' < - P' - s); [|lia]. apply (Zmult_lt_reg_r _ _ Q H). assert ((- P' - s) * (- P' + s) <= (- P' - s) * Q) by (apply Z.mul_le_mono_nonneg_l; lia). lia.
  Qed.
  Lemma to_reduced m : forall n, 0 < Qn n -> Qn n <= Z.of_nat m -> exists r, (n + 2 <= r <= n + 2 * m)%nat /\ red s (pq r).
  Proof.
    induction m as [|m IH]; intros n H H'; [lia|]. pose proof (Qn_nz (S n)). destruct (Z_lt_le_dec 0 (Qn (S n))) as [L|L].
    - exists (S (S n)). split; [lia|now apply two_pos].
    - pose proof (pos_neg n H ltac:(lia)) as B. destruct (IH (S (S n)) ltac:(lia) ltac:(lia)) as (r & R1 & R2). exists r. split; [lia|exact R2].
  Qed.
  Lemma red_eventually : exists r, (1 <= r)%nat /\ Z.of_nat r <= 2 * Z.abs Q0 + 4 * s + 1 /\ red s (pq r).
  Proof.
    assert (Q0 <> 0) by apply start_good. destruct (Z_lt_le_dec 0 Q0) as [L|L].
    - destruct (to_reduced (Z.to_nat Q0) 0) as (r & R1 & R2); [exact L|unfold PellProofs.Qn; cbn; lia|]. exists r. split; [lia|]. split; [lia|exact R2].
    - destruct (after_neg 0) as (B1 & B2); [unfold PellProofs.Qn; cbn; lia|]. change (Qn 0) with Q0 in B1. destruct (to_reduced (Z.to_nat (Qn 1)) 1) as (r & R1 & R2); [lia|lia|]. exists r. split; [lia|]. split; [lia|exact R2].
  Qed.
  Lemma first_red : exists r l, (1 <= r)%nat /\ reducedb D (Pn r) (Qn r) = true /\ (forall n, (1 <= n < r)%nat -> reducedb D (Pn n) (Qn n) = false) /\
    (1 <= l)%nat /\ pq (r + l) = pq r /\ (forall n, (1 <= n < l)%nat -> pq (r + n) <> pq r) /\ Z.of_nat r <= 2 * Z.abs Q0 + 4 * s + 1 /\ Z.of_nat l <= 2 * (s * s).
  Proof.
    destruct red_eventually as (r0 & R1 & R2 & R3). assert (EQ : forall n, reducedb D (Pn n) (Qn n) = true <-> red s (pq n)). { intros n. rewrite (reducedb_ok D s Hs HD). unfold PellProofs.Pn, PellProofs.Qn. now rewrite <- surjective_pairing. }
    destruct (least (fun k => reducedb D (Pn (S k)) (Qn (S k))) (r0 - 1)) as (m & M1 & M2 & M3); [replace (S (r0 - 1)) with r0 by lia; now apply EQ|].
    destruct (period_exists D s Hs HD P0 Q0 start_good (S m)) as (l & L1 & L2 & L3 & L4); [now apply EQ|]. exists (S m), l. repeat split; try assumption; try lia. intros n Hn. specialize (M3 (n - 1)%nat ltac:(lia)). cbn beta in M3. replace (S (n - 1)) with n in M3 by lia. exact M3.
  Qed.
  Lemma fuel_ok r l : Z.of_nat r <= 2 * Z.abs Q0 + 4 * s + 1 -> Z.of_nat l <= 2 * (s * s) -> Z.of_nat (r + l) < 4 * (D + Z.abs P0 + Z.abs Q0) + 16 /\ Z.of_nat l < 4 * D + 16.
  Proof. intros. assert (0 <= (s - 1) * (s - 1)) by apply Z.square_nonneg. lia. Qed.
End Id.
