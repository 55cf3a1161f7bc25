From Verif Require Import Lib BaseModel BaseProofs PellModel PellSpec PellProofs PellProofs2 PellProofs3.
Open Scope Z_scope.

Lemma pmul_qmul D s t : pmul D s t = qmul D s t.
Proof. destruct s, t. unfold pmul, qmul. cbn [fst snd]. f_equal. ring. Qed.
Lemma qmul_assoc D a b c : qmul D a (qmul D b c) = qmul D (qmul D a b) c.
Proof. destruct a, b, c. unfold qmul. cbn [fst snd]. apply pair_equal_spec. split; ring. Qed.
Lemma qmul_comm D a b : qmul D a b = qmul D b a.
Proof. destruct a, b. unfold qmul. cbn [fst snd]. apply pair_equal_spec. split; ring. Qed.
Lemma qmul_1 D a : qmul D a (1, 0) = a.
Proof. destruct a. unfold qmul. cbn [fst snd]. apply pair_equal_spec. split; ring. Qed.
Lemma qpow_add D s n m : qpow D s (n + m) = qmul D (qpow D s n) (qpow D s m).
Proof. induction n as [|n IH]; [cbn [Nat.add qpow]; now rewrite qmul_comm, qmul_1|]. cbn [Nat.add qpow]. now rewrite IH, qmul_assoc. Qed.
Lemma qpow_1 D s : qpow D s 1 = s.
Proof. cbn [qpow]. apply qmul_1. Qed.
Lemma qpow_mul D s n m : qpow D s (n * m) = qpow D (qpow D s m) n.
Proof. induction n as [|n IH]; [reflexivity|]. cbn [Nat.mul qpow]. now rewrite qpow_add, IH. Qed.
Lemma solution_mul D N M s t : solution D N s -> solution D M t -> solution D (N * M) (qmul D s t).
Proof. destruct s as [a b], t as [c d]. unfold solution, qmul. cbn [fst snd]. intros <- <-. ring. Qed.
Lemma positive_mul D s t : 0 < D -> positive s -> positive t -> positive (qmul D s t) /\ smaller s (qmul D s t).
Proof.
  destruct s as [a b], t as [c d]. unfold positive, smaller, qmul. cbn [fst snd]. intros HD (Ha & Hb) (Hc & Hd). assert (0 < b * d) by (apply Z.mul_pos_pos; lia). assert (0 < D * (b * d)) by (apply Z.mul_pos_pos; lia). assert (a * 1 <= a * c) by (apply Z.mul_le_mono_nonneg_l; lia). assert (b * 1 <= b * c) by (apply Z.mul_le_mono_nonneg_l; lia). assert (0 < a * d) by (apply Z.mul_pos_pos; lia). lia.
Qed.

Section Unit.
  Variables D s : Z.
  Hypothesis Hs : 1 <= s.
  Hypothesis HD : s * s < D < (s + 1) * (s + 1).
  Notation pq := (pq D s 0 1).
  Notation Pn := (Pn D s 0 1).
  Notation Qn := (Qn D s 0 1).
  Notation an := (an D s 0 1).
  Notation cG := (cv D s 0 1 (- 0, 1)).
  Notation cB := (cv D s 0 1 (1, 0)).
  Notation Gn := (Gn D s 0 1).
  Notation Bn := (Bn D s 0 1).
  Let G01 := good01 D.
  (** the n-th solution pair and the one before *)
  Definition pp (n : nat) : Z * Z := (snd (cG n), snd (cB n)).
  Definition pv (n : nat) : Z * Z := (fst (cG n), fst (cB n)).
  Lemma pp0 : pp 0 = (1, 0).
  Proof. reflexivity. Qed.
  Lemma pv0 : pv 0 = (0, 1).
  Proof. reflexivity. Qed.
  Lemma pp_S n : pp (S n) = (an n * fst (pp n) + fst (pv n), an n * snd (pp n) + snd (pv n)).
  Proof. unfold pp, pv. rewrite !cv_eq. reflexivity. Qed.
  Lemma pv_S n : pv (S n) = pp n.
  Proof. unfold pp, pv. rewrite !cv_eq. reflexivity. Qed.
  Lemma ids n : let '(G1, B1) := pp n in let '(G2, B2) := pv n in
    G1 * G1 - D * (B1 * B1) = sg n * Qn n /\ G1 * G2 - D * (B1 * B2) = - (sg n * Pn n) /\ (G2 * G2 - D * (B2 * B2)) * Qn n = - (sg n * (D - Pn n * Pn n)) /\ G1 * B2 - G2 * B1 = sg n.
  Proof. pose proof (idents D s Hs HD 0 1 G01 n) as I. unfold pp, pv. destruct (cG n), (cB n). cbn [fst snd] in *. rewrite !Z.mul_1_r in I. exact I. Qed.
  Lemma pp_solution n : solution D (sg n * Qn n) (pp n).
  Proof. pose proof (ids n) as I. unfold solution. destruct (pp n), (pv n). cbn [fst snd]. apply I. Qed.
  Lemma st n : n = 0%nat \/ red s (pq n).
  Proof. destruct n; [now left|right]. apply red_pos; [exact Hs|exact HD|lia]. Qed.
  Lemma an_pos n : 1 <= an n /\ 1 <= Qn n <= 2 * s /\ Pn n <= s /\ an n * Qn n <= Pn n + s /\ 0 <= Pn n.
  Proof.
    destruct (st n) as [->|R].
    - unfold PellProofs.an, PellProofs.Qn, PellProofs.Pn. cbn [PellProofs.pq fst snd aof]. destruct (Z.ltb_spec 1 0); [lia|]. rewrite Z.div_1_r. lia.
    - unfold PellProofs.an, PellProofs.Qn, PellProofs.Pn. destruct (pq n) as [P Q]. pose proof (red_a s P Q R). destruct R as (R1 & R2 & R3 & R4). cbn [fst snd]. pose proof (aof_pos s P Q ltac:(lia)). lia.
  Qed.
  Lemma pp_pos n : 1 <= fst (pp n) /\ 0 <= snd (pp n) /\ 0 <= fst (pv n) /\ 0 <= snd (pv n).
  Proof.
    induction n as [|n (I1 & I2 & I3 & I4)]; [cbn; lia|]. rewrite pp_S, pv_S. cbn [fst snd]. pose proof (an_pos n) as (A & _). assert (1 * fst (pp n) <= an n * fst (pp n)) by (apply Z.mul_le_mono_nonneg_r; lia). assert (0 <= an n * snd (pp n)) by (apply Z.mul_nonneg_nonneg; lia). lia.
  Qed.
  Lemma pp_inc n : fst (pp n) <= fst (pp (S n)) /\ snd (pp n) <= snd (pp (S n)) /\ ((1 <= n)%nat -> fst (pp n) < fst (pp (S n))).
  Proof.
    rewrite pp_S. cbn [fst snd]. pose proof (an_pos n) as (A & _). pose proof (pp_pos n) as (I1 & I2 & I3 & I4). assert (1 * fst (pp n) <= an n * fst (pp n)) by (apply Z.mul_le_mono_nonneg_r; lia). assert (1 * snd (pp n) <= an n * snd (pp n)) by (apply Z.mul_le_mono_nonneg_r; lia). split; [lia|]. split; [lia|]. intros Hn. destruct n; [lia|]. rewrite pv_S in *. pose proof (pp_pos n). lia.
  Qed.
  Lemma pp_positive n : (1 <= n)%nat -> positive (pp n).
  Proof.
    intros H. pose proof (pp_pos n) as (I & _). split; [lia|]. induction n as [|n IH]; [lia|]. destruct (Nat.eq_dec n 0) as [->|NZ].
    - rewrite pp_S, pp0, pv0. cbn [fst snd]. lia.
    - pose proof (pp_inc n). pose proof (pp_pos n). specialize (IH ltac:(lia) ltac:(lia)). lia.
  Qed.
  Lemma pp_mono n m : (n <= m)%nat -> fst (pp n) <= fst (pp m) /\ snd (pp n) <= snd (pp m).
  Proof. intros H. induction H as [|m H IH]; [lia|]. pose proof (pp_inc m). lia. Qed.
  Lemma pp_strict n m : (1 <= n < m)%nat -> fst (pp n) < fst (pp m).
  Proof. intros H. pose proof (pp_mono (S n) m ltac:(lia)). pose proof (pp_inc n). lia. Qed.

  (** every small value of the form is taken at a multiple of a pair *)
  Lemma key u v a P Q N e : 1 <= u -> 1 <= v -> u < a * v -> 1 <= Q <= 2 * s -> P <= s -> a * Q <= P + s -> 0 <= P -> e * e = 1 -> N * Q * e = (Q * u - P * v) * (Q * u - P * v) - D * (v * v) -> s < Z.abs N.
  Proof.
    intros Hu Hv Hlt HQ HP Ha HP0 He E. set (X := Q * u - P * v) in *.
    assert (X1 : Q <= s * v - X). { assert (Q * u <= Q * (a * v - 1)) by (apply Z.mul_le_mono_nonneg_l; lia). assert (a * Q * v <= (P + s) * v) by (apply Z.mul_le_mono_nonneg_r; lia). unfold X. lia. }
    assert (X2 : Q <= s * v + X). { assert (Q * 1 <= Q * u) by (apply Z.mul_le_mono_nonneg_l; lia). assert (P * v <= s * v) by (apply Z.mul_le_mono_nonneg_r; lia). unfold X. lia. }
    assert (X3 : 0 <= (s * v - X - Q) * (s * v + X - Q)) by (apply Z.mul_nonneg_nonneg; lia).
    assert (X4 : 1 * (v * v) <= (D - s * s) * (v * v)) by (apply Z.mul_le_mono_nonneg_r; [apply Z.square_nonneg|lia]). assert (X5 : 0 < v * v) by (apply Z.mul_pos_pos; lia).
    assert (X6 : s <= 2 * s * v - Q). { destruct (Z.eq_dec v 1) as [->|NE]. - assert (2 <= a) by lia. assert (2 * Q <= a * Q) by (apply Z.mul_le_mono_nonneg_r; lia). lia. - assert (2 * s * 2 <= 2 * s * v) by (apply Z.mul_le_mono_nonneg_l; lia). lia. }
    assert (X7 : Q * s <= Q * (2 * s * v - Q)) by (apply Z.mul_le_mono_nonneg_l; lia).
    assert (Y : Q * s < - (N * Q * e)) by (rewrite E; lia). assert (e = 1 \/ e = -1) as [->| ->] by (assert ((e - 1) * (e + 1) = 0) by lia; apply Z.mul_eq_0 in H as [|]; lia).
    - assert (s < - N); [|lia]. apply (Zmult_lt_reg_r _ _ Q); lia.
    - assert (s < N); [|lia]. apply (Zmult_lt_reg_r _ _ Q); lia.
  Qed.
  Lemma descent N : Z.abs N <= s -> forall m n u v, (u + v <= Z.of_nat m) -> 1 <= u -> 0 <= v ->
    solution D N (u * fst (pp n) + v * fst (pv n), u * snd (pp n) + v * snd (pv n)) ->
    exists k w, (n <= k)%nat /\ 1 <= w /\ (u * fst (pp n) + v * fst (pv n), u * snd (pp n) + v * snd (pv n)) = (w * fst (pp k), w * snd (pp k)).
  Proof.
    intros HN. induction m as [|m IH]; intros n u v Hm Hu Hv S; [lia|]. destruct (Z.eq_dec v 0) as [->|NZ]; [exists n, u; split; [lia|]; split; [lia|]; apply pair_equal_spec; split; ring|].
    destruct (an_pos n) as (A1 & A2 & A3 & A4 & A5). assert (LE : an n * v <= u).
    { destruct (Z_le_gt_dec (an n * v) u) as [|GT]; [assumption|exfalso]. pose proof (ids n) as I. unfold solution in S. cbn [fst snd] in S. destruct (pp n) as [G1 B1], (pv n) as [G2 B2]. cbn [fst snd] in S. destruct I as (I1 & I2 & I3 & I4).
      pose proof (key u v (an n) (Pn n) (Qn n) N (sg n) Hu ltac:(lia) ltac:(lia) A2 A3 A4 A5 (sg_sq n)) as K. enough (s < Z.abs N) by lia. apply K. rewrite <- S. pose proof (sg_sq n) as SQ.
      replace ((u * G1 + v * G2) * (u * G1 + v * G2) - D * ((u * B1 + v * B2) * (u * B1 + v * B2))) with (u * u * (G1 * G1 - D * (B1 * B1)) + 2 * u * v * (G1 * G2 - D * (B1 * B2)) + v * v * (G2 * G2 - D * (B2 * B2))) by ring.
      rewrite I1, I2. replace ((u * u * (sg n * Qn n) + 2 * u * v * - (sg n * Pn n) + v * v * (G2 * G2 - D * (B2 * B2))) * Qn n * sg n) with ((u * u * Qn n * Qn n - 2 * u * v * Pn n * Qn n) * (sg n * sg n) + v * v * sg n * ((G2 * G2 - D * (B2 * B2)) * Qn n)) by ring. rewrite I3. replace (v * v * sg n * - (sg n * (D - Pn n * Pn n))) with (- (v * v * (D - Pn n * Pn n)) * (sg n * sg n)) by ring. rewrite SQ. ring. }
    assert (1 * v <= an n * v) by (apply Z.mul_le_mono_nonneg_r; lia).
    assert (EQ : (u * fst (pp n) + v * fst (pv n), u * snd (pp n) + v * snd (pv n)) = (v * fst (pp (Datatypes.S n)) + (u - an n * v) * fst (pv (Datatypes.S n)), v * snd (pp (Datatypes.S n)) + (u - an n * v) * snd (pv (Datatypes.S n)))) by (rewrite pp_S, pv_S; cbn [fst snd]; apply pair_equal_spec; split; ring).
    rewrite EQ in S |- *. destruct (IH (Datatypes.S n) v (u - an n * v)) as (k & w & K1 & K2 & K3); [lia|lia|lia|exact S|]. exists k, w. split; [lia|]. split; [lia|exact K3].
  Qed.
  Lemma taken N t : Z.abs N <= s -> positive t -> solution D N t -> exists n u, (1 <= n)%nat /\ 1 <= u /\ t = (u * fst (pp n), u * snd (pp n)) /\ N = u * u * (sg n * Qn n).
  Proof.
    intros HN HP S. destruct t as [x y]. destruct HP as (Hx & Hy). cbn [fst snd] in *. assert (E : (x, y) = (x * fst (pp 0) + y * fst (pv 0), x * snd (pp 0) + y * snd (pv 0))) by (rewrite pp0, pv0; cbn [fst snd]; apply pair_equal_spec; split; ring).
    assert (S2 := S). rewrite E in S2. destruct (descent N HN (Z.to_nat (x + y)) 0 x y ltac:(lia) ltac:(lia) ltac:(lia) S2) as (n & u & _ & Hu & E2). rewrite <- E in E2. assert (n <> 0%nat). { intros ->. rewrite pp0 in E2. cbn [fst snd] in E2. apply pair_equal_spec in E2 as (_ & E2). lia. }
    exists n, u. split; [lia|]. split; [exact Hu|]. split; [exact E2|]. pose proof (pp_solution n) as T. rewrite E2 in S. unfold solution in *. cbn [fst snd] in *. rewrite <- T, <- S. ring.
  Qed.
  Lemma unique n n' u u' : (1 <= n)%nat -> (1 <= n')%nat -> 1 <= u -> 1 <= u' -> (u * fst (pp n), u * snd (pp n)) = (u' * fst (pp n'), u' * snd (pp n')) -> n = n' /\ u = u'.
  Proof.
    intros Hn Hn' Hu Hu' E. apply pair_equal_spec in E as (E1 & E2). assert (DV : forall k (w x y : Z), x = w * fst (pp k) -> y = w * snd (pp k) -> forall d, (d | x) -> (d | y) -> (d | w)).
    { intros k w x y -> -> d [p Hp] [q Hq]. pose proof (ids k) as I. destruct (pp k) as [G1 B1], (pv k) as [G2 B2]. cbn [fst snd] in *. destruct I as (_ & _ & _ & I4). exists (sg k * (p * B2 - q * G2)). replace w with (w * (sg k * sg k)) by (rewrite sg_sq; ring). rewrite <- I4 at 2. replace (w * (sg k * (G1 * B2 - G2 * B1))) with (sg k * ((w * G1) * B2 - (w * B1) * G2)) by ring. rewrite Hp, Hq. ring. }
    assert (EU : u = u'). { apply Z.divide_antisym_nonneg; [lia|lia| |]. - apply (DV n' u' _ _ E1 E2); apply Z.divide_factor_l. - apply (DV n u _ _ (eq_sym E1) (eq_sym E2)); apply Z.divide_factor_l. } subst u'. split; [|reflexivity]. apply Z.mul_reg_l in E1; [|lia]. destruct (Nat.lt_trichotomy n n') as [L|[L|L]]; [|exact L|]; [pose proof (pp_strict n n' ltac:(lia))|pose proof (pp_strict n' n ltac:(lia))]; lia.
  Qed.

  (** products *)
  Lemma shift m : (1 <= m)%nat -> pq m = (s, 1) -> forall n, pp (m + n) = qmul D (pp m) (pp n) /\ ((1 <= n)%nat -> pv (m + n) = qmul D (pp m) (pv n) /\ pq (m + n) = pq n).
  Proof.
    intros Hm E. assert (PV : pv m = qmul D (pp m) (- s, 1)).
    { pose proof (ids m) as I. unfold PellProofs.Pn, PellProofs.Qn in I. rewrite E in I. cbn [fst snd] in I. destruct (pp m) as [G1 B1], (pv m) as [G2 B2]. destruct I as (I1 & I2 & I3 & I4). pose proof (sg_sq m) as SQ. unfold qmul. cbn [fst snd]. apply pair_equal_spec. rewrite Z.mul_1_r in I1. split.
      - transitivity (sg m * sg m * G2); [rewrite SQ; ring|]. rewrite <- I1 at 1. transitivity (sg m * ((G1 * G2 - D * (B1 * B2)) * G1 + D * B1 * (G1 * B2 - G2 * B1))); [ring|]. rewrite I2, I4. replace (sg m * (- (sg m * s) * G1 + D * B1 * sg m)) with (sg m * sg m * (- s * G1 + D * B1)) by ring. rewrite SQ. ring.
      - transitivity (sg m * sg m * B2); [rewrite SQ; ring|]. rewrite <- I1 at 1. transitivity (sg m * ((G1 * B2 - G2 * B1) * G1 + B1 * (G1 * G2 - D * (B1 * B2)))); [ring|]. rewrite I2, I4. replace (sg m * (sg m * G1 + B1 * - (sg m * s))) with (sg m * sg m * (- s * B1 + G1)) by ring. rewrite SQ. ring. }
    induction n as [|n (IH1 & IH2)]; [rewrite Nat.add_0_r, pp0, qmul_1; split; [reflexivity|lia]|]. rewrite Nat.add_succ_r. destruct (Nat.eq_dec n 0) as [->|NZ].
    - rewrite Nat.add_0_r in *. rewrite !pp_S, !pv_S, PV, pp0, pv0. assert (A0 : an 0 = s) by (unfold PellProofs.an; cbn [PellProofs.pq aof]; destruct (Z.ltb_spec 1 0); [lia|]; rewrite Z.div_1_r; lia). assert (Am : an m = 2 * s) by (unfold PellProofs.an; rewrite E; cbn [aof]; destruct (Z.ltb_spec 1 0); [lia|]; rewrite Z.div_1_r; lia). rewrite A0, Am. split; [unfold qmul; cbn [fst snd]; apply pair_equal_spec; split; ring|]. intros _. split; [now rewrite qmul_1|]. change (pq (Datatypes.S m)) with (next D s (pq m)). rewrite E. apply next_unit.
    - destruct (IH2 ltac:(lia)) as (IH3 & IH4). assert (AE : an (m + n) = an n) by (unfold PellProofs.an; now rewrite IH4). rewrite !pp_S, !pv_S, AE, IH3, IH1. split; [unfold qmul; cbn [fst snd]; apply pair_equal_spec; split; ring|]. intros _. split; [reflexivity|]. change (pq (Datatypes.S (m + n))) with (next D s (pq (m + n))). now rewrite IH4.
  Qed.
  Lemma pp_pow l : (1 <= l)%nat -> pq l = (s, 1) -> forall k, pp (k * l) = qpow D (pp l) k.
  Proof. intros Hl E. induction k as [|k IH]; [reflexivity|]. cbn [Nat.mul qpow]. rewrite <- IH. apply (shift l Hl E). Qed.
End Unit.
