From Verif Require Import Lib BaseModel BaseProofs TripleSpec PellModel PellSpec PellProofs PellProofs2 PellProofs3 PellProofs4.
Open Scope Z_scope.

Lemma root_facts root D : square_root root -> nonsquare D -> 1 <= root D /\ root D * root D < D < (root D + 1) * (root D + 1).
Proof. intros (R & _) (HD & HN). destruct (R D ltac:(lia)) as (R1 & R2). pose proof (HN (root D)). assert (root D <> 0) by (intros E; rewrite E in *; cbn in *; assert (D = 0 \/ 1 <= D) as [|] by lia; lia). lia. Qed.
Section Run.
  Variable root : Z -> Z.
  Hypothesis RT : square_root root.
  Variable D : Z.
  Hypothesis ND : nonsquare D.
  Let s := root D.
  Let Hs : 1 <= s := proj1 (root_facts root D RT ND).
  Let HD : s * s < D < (s + 1) * (s + 1) := proj2 (root_facts root D RT ND).
  Notation pq := (pq D s 0 1).
  Notation Qn := (Qn D s 0 1).
  Notation pp := (pp D s).
  Notation trace := (trace D s 0 1).
  Lemma gb i n : (i < n)%nat -> nth_error (vG (trace n)) i = Some (fst (pp (S i))) /\ nth_error (vB (trace n)) i = Some (snd (pp (S i))).
  Proof. intros H. unfold PellProofs.trace. cbn [vG vB]. rewrite !nth_map_seq by exact H. now split. Qed.
  Lemma qi i n : (i <= n)%nat -> nth_error (vQ (trace n)) i = Some (Qn i).
  Proof. intros H. unfold PellProofs.trace. cbn [vQ]. now rewrite nth_map_seq by lia. Qed.
  Lemma setup : exists l, (1 <= l)%nat /\ pq l = (s, 1) /\ (forall n, (1 <= n)%nat -> Qn n = 1 <-> (n mod l = 0)%nat) /\
    pell_PQa root D (start 0 1) = Some (l, trace (1 + l)) /\ pell_PQa root D (trace (1 + l)) = Some (l, trace (1 + 2 * l)).
  Proof.
    pose proof (good01 D) as G01. pose proof (red1 D s Hs HD) as R1. destruct (period_exists D s Hs HD 0 1 G01 1 R1) as (l & L1 & L2 & L3 & L4). exists l. split; [exact L1|]. split; [now apply pq_l|]. split; [intros n Hn; now apply unit_iff|].
    assert (RB : reducedb D (Pn D s 0 1 1) (PellProofs.Qn D s 0 1 1) = true) by (apply (reducedb_ok D s Hs HD); unfold Pn, PellProofs.Qn; rewrite <- surjective_pairing; exact R1). assert (NZ : forall n, PellProofs.Qn D s 0 1 n <> 0) by (intros n; now apply Qn_nz).
    assert (F : Z.of_nat (1 + l) < 4 * (D + Z.abs 0 + Z.abs 1) + 16) by (clear - HD L2; lia). assert (F2 : Z.of_nat l < 4 * D + 16) by (clear - HD L2; lia). split.
    - apply first_call; auto; try lia.
    - replace (1 + 2 * l)%nat with (1 + (1 + 1) * l)%nat by lia. replace (1 + l)%nat with (1 + 1 * l)%nat by lia. apply second_call; auto; try lia.
  Qed.
  Lemma sgl l : sg l = if (l mod 2 =? 1)%nat then -1 else 1.
  Proof. apply sg_odd. Qed.
  Lemma pell1_run N : exists l, (1 <= l)%nat /\ pq l = (s, 1) /\ (forall n, (1 <= n)%nat -> Qn n = 1 <-> (n mod l = 0)%nat) /\
    pell1 root D N = if (N =? -1) && (l mod 2 =? 1)%nat then Some (Some (l, fst (pp l), snd (pp l))) else
      if N =? 1 then (if (l mod 2 =? 1)%nat then Some (Some (l, fst (pp (2 * l)), snd (pp (2 * l)))) else Some (Some (l, fst (pp l), snd (pp l)))) else Some None.
  Proof.
    destruct setup as (l & L1 & L2 & L3 & C1 & C2). exists l. split; [exact L1|]. split; [exact L2|]. split; [exact L3|]. unfold pell1. rewrite C1. cbn [obind]. destruct (gb (l - 1) (1 + l) ltac:(lia)) as (E1 & E2). replace (S (l - 1)) with l in E1, E2 by lia. destruct (Nat.eqb_spec (l mod 2) 1).
    - destruct (Z.eqb_spec N (-1)); [cbn [andb]; rewrite E1, E2; reflexivity|]. cbn [andb]. destruct (Z.eqb_spec N 1); [|reflexivity]. rewrite C2. cbn [obind]. destruct (gb (2 * l - 1) (1 + 2 * l) ltac:(lia)) as (F1 & F2). rewrite F1, F2. cbn [obind]. replace (S (2 * l - 1)) with (2 * l)%nat by lia. reflexivity.
    - rewrite andb_false_r. destruct (Z.eqb_spec N 1); [|reflexivity]. rewrite E1, E2. reflexivity.
  Qed.
  (** solutions for N = 1 and N = -1 *)
  Section L.
    Variable l : nat.
    Hypothesis L1 : (1 <= l)%nat.
    Hypothesis L2 : pq l = (s, 1).
    Hypothesis L3 : forall n, (1 <= n)%nat -> Qn n = 1 <-> (n mod l = 0)%nat.
    Lemma units t N : N = 1 \/ N = -1 -> positive t -> solution D N t -> exists k, (1 <= k)%nat /\ t = qpow D (pp l) k /\ N = sg (k * l).
    Proof.
      intros HN HP HS. destruct (taken D s Hs HD N t ltac:(lia) HP HS) as (n & u & Hn & Hu & E & EN). pose proof (an_pos D s Hs HD n) as (_ & A & _). pose proof (sg_sq n) as SQ. assert (Hsg : sg n = 1 \/ sg n = -1) by (rewrite sg_odd; destruct (_ =? _)%nat; lia).
      assert (UU : u * u * Qn n = 1). { assert (0 < u * u) by (apply Z.mul_pos_pos; lia). assert (0 < u * u * Qn n) by (apply Z.mul_pos_pos; lia). destruct Hsg as [X|X]; rewrite X in EN; lia. }
      assert (Hq : Qn n = 1) by (apply Z.mul_eq_1 in UU as UU'; assert (u * u = 1 \/ u * u = -1) as [X|X] by (apply UU'); rewrite X in UU; lia). assert (Hu1 : u = 1). { rewrite Hq, Z.mul_1_r in UU. assert (u = 1 \/ 2 <= u) as [|] by lia; [assumption|]. assert (2 * 2 <= u * u) by (apply Z.mul_le_mono_nonneg; lia). lia. } subst u.
      assert (Hq1 := Hq). apply L3 in Hq; [|exact Hn]. apply Nat.mod_divides in Hq as [k Hk]; [|lia]. exists k. rewrite <- (pp_pow D s Hs HD l L1 L2). replace (k * l)%nat with n by (rewrite Hk; apply Nat.mul_comm). split; [destruct k; lia|]. split; [rewrite E, !Z.mul_1_l; symmetry; apply surjective_pairing|]. rewrite EN, Hq1. ring.
    Qed.
    Lemma units_conv k : (1 <= k)%nat -> positive (qpow D (pp l) k) /\ solution D (sg (k * l)) (qpow D (pp l) k).
    Proof.
      intros H. rewrite <- (pp_pow D s Hs HD l L1 L2). assert (1 <= k * l)%nat by nia. split; [now apply pp_positive|]. pose proof (pp_solution D s Hs HD (k * l)) as T. rewrite (proj2 (L3 (k * l) ltac:(lia))) in T by (apply Nat.mod_mul; lia). now rewrite Z.mul_1_r in T.
    Qed.
    Lemma pow_mono j k : (1 <= j < k)%nat -> smaller (qpow D (pp l) j) (qpow D (pp l) k).
    Proof.
      intros H. replace k with (j + (k - j))%nat by lia. rewrite qpow_add. apply positive_mul; [apply ND|apply units_conv; lia|apply units_conv; lia].
    Qed.
  End L.
  Lemma sg_mul k l : sg (k * l) = if (l mod 2 =? 1)%nat then sg k else 1.
  Proof.
    induction k as [|k IH]; [cbn; now destruct (_ =? _)%nat|]. assert (A : forall a b, sg (a + b) = sg a * sg b) by (induction a as [|a IHa]; intros b; cbn [Nat.add sg]; [lia|rewrite IHa; ring]). cbn [Nat.mul]. rewrite A, IH, (sg_odd l). destruct (_ =? _)%nat; cbn [sg]; lia.
  Qed.
  (** the solutions are the powers of the smallest one *)
  Definition admissible (N : Z) (k : nat) : Prop := (1 <= k)%nat /\ (N = -1 -> (k mod 2 = 1)%nat).
  Lemma pell1_sound N : N = 1 \/ N = -1 -> (exists l x y, pell1 root D N = Some (Some (l, x, y)) /\ (1 <= l)%nat /\ least_solution D N (x, y) /\
        forall t, (positive t /\ solution D N t) <-> exists k, admissible N k /\ t = qpow D (x, y) k) \/
      (pell1 root D N = Some None /\ N = -1 /\ forall x y, ~ solution D N (x, y)).
  Proof.
    intros HN. destruct (pell1_run N) as (l & L1 & L2 & L3 & E). rewrite E. clear E. set (c := (l mod 2 =? 1)%nat). destruct HN as [-> | ->]; cbn [Z.eqb andb].
    - left. change (1 =? -1) with false. change (1 =? 1) with true. cbn [andb]. set (m := if c then 2%nat else 1%nat). assert (M1 : (1 <= m)%nat) by (unfold m; destruct c; lia). set (x := fst (pp (m * l))). set (y := snd (pp (m * l))).
      assert (XY : (x, y) = qpow D (pp l) m) by (unfold x, y; rewrite <- surjective_pairing; now apply pp_pow).
      assert (ALL : forall t, positive t /\ solution D 1 t <-> exists k, admissible 1 k /\ t = qpow D (x, y) k).
      { intros t. split.
        - intros (P & S). destruct (units l L1 L2 L3 t 1 ltac:(lia) P S) as (k & K1 & K2 & K3). rewrite sg_mul in K3. fold c in K3. rewrite XY. destruct c eqn:Ec.
          + assert (KM : (k mod 2 = 0)%nat) by (rewrite sg_odd in K3; pose proof (Nat.mod_upper_bound k 2 ltac:(lia)); destruct (Nat.eqb_spec (k mod 2) 1); lia). exists (k / 2)%nat. pose proof (Nat.div_mod_eq k 2). split; [split; [lia|lia]|]. rewrite <- qpow_mul. rewrite K2. f_equal. unfold m. lia.
          + exists k. split; [split; [lia|lia]|]. rewrite <- qpow_mul, K2. f_equal. unfold m. lia.
        - intros (k & (K1 & _) & ->). rewrite XY, <- qpow_mul. destruct (units_conv l L1 L2 L3 (k * m) ltac:(nia)) as (P & S). split; [exact P|]. rewrite sg_mul in S. fold c in S. destruct c; [|exact S]. unfold m in S. replace (k * 2)%nat with (2 * k)%nat in S by lia. rewrite sg_odd, Nat.mul_comm, Nat.mod_mul in S by lia. exact S. }
      exists l, x, y. split; [unfold x, y, m; destruct c; [reflexivity|rewrite Nat.mul_1_l; reflexivity]|]. split; [exact L1|]. split; [|exact ALL]. assert (T1 : positive (x, y) /\ solution D 1 (x, y)) by (apply ALL; exists 1%nat; split; [split; lia|now rewrite qpow_1]). split; [apply T1|]. split; [apply T1|]. intros t P S. destruct (proj1 (ALL t) (conj P S)) as (k & (K1 & _) & ->). destruct (Nat.eq_dec k 1) as [->|NE]; [rewrite qpow_1; lia|].
      rewrite XY at 2 4. rewrite <- qpow_mul. pose proof (pow_mono l L1 L2 L3 m (k * m) ltac:(nia)) as (W1 & W2). rewrite XY at 1 2. lia.
    - change (-1 =? -1) with true. cbn [andb]. destruct c eqn:Ec.
      + left. exists l, (fst (pp l)), (snd (pp l)). split; [reflexivity|]. split; [exact L1|]. rewrite <- surjective_pairing.
        assert (ALL : forall t, positive t /\ solution D (-1) t <-> exists k, admissible (-1) k /\ t = qpow D (pp l) k).
        { intros t. split.
          - intros (P & S). destruct (units l L1 L2 L3 t (-1) ltac:(lia) P S) as (k & K1 & K2 & K3). exists k. split; [|exact K2]. split; [exact K1|]. intros _. rewrite sg_mul in K3. fold c in K3. rewrite Ec, sg_odd in K3. destruct (Nat.eqb_spec (k mod 2) 1); [assumption|lia].
          - intros (k & (K1 & K2) & ->). destruct (units_conv l L1 L2 L3 k K1) as (P & S). split; [exact P|]. rewrite sg_mul in S. fold c in S. rewrite Ec, sg_odd, (K2 eq_refl) in S. exact S. }
        split; [|exact ALL]. assert (T1 : positive (pp l) /\ solution D (-1) (pp l)) by (apply ALL; exists 1%nat; split; [split; [lia|reflexivity]|now rewrite qpow_1]). split; [apply T1|]. split; [apply T1|]. intros t P S. destruct (proj1 (ALL t) (conj P S)) as (k & (K1 & _) & ->). destruct (Nat.eq_dec k 1) as [->|NE]; [rewrite qpow_1; lia|]. pose proof (pow_mono l L1 L2 L3 1 k ltac:(lia)) as (W1 & W2). rewrite qpow_1 in W1, W2. lia.
      + right. change (-1 =? 1) with false. split; [reflexivity|]. split; [reflexivity|]. intros x y S. assert (S' : solution D (-1) (Z.abs x, Z.abs y)) by (unfold solution in *; cbn [fst snd] in *; rewrite !Z.abs_square; exact S). assert (y <> 0) by (intros ->; unfold solution in S; cbn [fst snd] in S; pose proof (Z.square_nonneg x); lia). assert (x <> 0). { intros ->. unfold solution in S. cbn [fst snd] in S. assert (1 * 1 <= Z.abs y * Z.abs y) by (apply Z.mul_le_mono_nonneg; lia). rewrite Z.abs_square in *. assert (2 <= D) by (clear - Hs HD; nia). assert (2 * (y * y) <= D * (y * y)) by (apply Z.mul_le_mono_nonneg_r; lia). lia. }
        destruct (units l L1 L2 L3 (Z.abs x, Z.abs y) (-1) ltac:(lia) ltac:(split; cbn [fst snd]; lia) S') as (k & _ & _ & K3). rewrite sg_mul in K3. fold c in K3. rewrite Ec in K3. lia.
  Qed.
End Run.
