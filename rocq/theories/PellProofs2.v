From Verif Require Import Lib BaseModel BaseProofs PellModel PellProofs.
Open Scope Z_scope.

Lemma sq_le x y : 0 <= x -> 0 <= y -> x * x <= y * y -> x <= y.
Proof. intros. destruct (Z_le_gt_dec x y); [assumption|]. assert (y * y < x * x) by (apply Z.mul_lt_mono_nonneg; lia). lia. Qed.
Definition prod_eq_dec (x y : Z * Z) : {x = y} + {x <> y}.
Proof. decide equality; apply Z.eq_dec. Defined.
Section Red.
  Variables D s : Z.
  Hypothesis Hs : 1 <= s.
  Hypothesis HD : s * s < D < (s + 1) * (s + 1).
  Notation next := (next D s).
  Lemma no_square x : D <> x * x.
  Proof. intros E. assert (Z.abs x * Z.abs x = x * x) by apply Z.abs_square. assert (s < Z.abs x) by (destruct (Z_lt_le_dec s (Z.abs x)); [assumption|]; assert (Z.abs x * Z.abs x <= s * s) by (apply Z.mul_le_mono_nonneg; lia); lia). assert (Z.abs x < s + 1) by (destruct (Z_lt_le_dec (Z.abs x) (s + 1)); [assumption|]; assert ((s + 1) * (s + 1) <= Z.abs x * Z.abs x) by (apply Z.mul_le_mono_nonneg; lia); lia). lia. Qed.
  Lemma below x : x * x < D <-> - s <= x <= s.
  Proof.
    split; intros H.
    - assert (Z.abs x * Z.abs x = x * x) by apply Z.abs_square. assert (Z.abs x < s + 1) by (destruct (Z_lt_le_dec (Z.abs x) (s + 1)); [assumption|]; assert ((s + 1) * (s + 1) <= Z.abs x * Z.abs x) by (apply Z.mul_le_mono_nonneg; lia); lia). lia.
    - assert (Z.abs x * Z.abs x = x * x) by apply Z.abs_square. assert (Z.abs x * Z.abs x <= s * s) by (apply Z.mul_le_mono_nonneg; lia). lia.
  Qed.
  (** what holds of all states *)
  Definition good (x : Z * Z) : Prop := let '(P, Q) := x in Q <> 0 /\ (Q | D - P * P).
  Lemma next_exact P Q P' Q' : good (P, Q) -> next (P, Q) = (P', Q') -> P' = aof s (P, Q) * Q - P /\ Q * Q' = D - P' * P'.
  Proof.
    intros (Hq & Hd) E. unfold PellProofs.next in E. apply pair_equal_spec in E as (E1 & E2). split; [congruence|]. rewrite E1 in E2. rewrite <- E2. assert (Dv : (Q | D - P' * P')). { replace (D - P' * P') with (D - P * P - Q * (aof s (P, Q) * (P' - P))) by (rewrite <- E1; ring). apply Z.divide_sub_r; [exact Hd|]. apply Z.divide_factor_l. }
    destruct Dv as [c Hc]. rewrite Hc, Z.quot_mul by exact Hq. ring.
  Qed.
  Lemma next_good x : good x -> good (next x).
  Proof.
    destruct x as [P Q]. intros H. destruct (next (P, Q)) as [P' Q'] eqn:E. destruct (next_exact P Q P' Q' H E) as (E1 & E2). split; [|exists Q; lia]. intros ->. apply (no_square P'). lia.
  Qed.
  Lemma pq_good P0 Q0 n : good (P0, Q0) -> good (pq D s P0 Q0 n).
  Proof. intros H. induction n as [|n IH]; [exact H|]. cbn [pq]. now apply next_good. Qed.
  (** reduced states *)
  Definition red (x : Z * Z) : Prop := let '(P, Q) := x in 1 <= P <= s /\ 1 <= Q /\ s + 1 <= P + Q /\ Q <= s + P.
  Lemma reducedb_ok P Q : reducedb D P Q = true <-> red (P, Q).
  Proof.
    unfold reducedb, red. rewrite !andb_true_iff, !Z.ltb_lt. change (sqT P) with (P * P). change (sqT (P - Q)) with ((P - Q) * (P - Q)). change (sqT (P + Q)) with ((P + Q) * (P + Q)). rewrite !below. pose proof (no_square (P + Q)). pose proof (below (P + Q)). split.
    - intros ((((H1 & H2) & H3) & H4) & H5). assert (~ (- s <= P + Q <= s)) by lia. lia.
    - intros (H1 & H2 & H3 & H4). assert (~ (P + Q) * (P + Q) < D) by lia. lia.
  Qed.
  Lemma aof_pos P Q : 0 < Q -> aof s (P, Q) * Q <= P + s < aof s (P, Q) * Q + Q.
  Proof. intros H. unfold aof. destruct (Z.ltb_spec Q 0); [lia|]. pose proof (Z.div_mod (P + s) Q ltac:(lia)). pose proof (Z.mod_pos_bound (P + s) Q H). lia. Qed.
  Lemma red_a P Q : red (P, Q) -> 1 <= aof s (P, Q).
  Proof. intros (H1 & H2 & H3 & H4). pose proof (aof_pos P Q ltac:(lia)). destruct (Z_le_gt_dec 1 (aof s (P, Q))); [assumption|]. assert (aof s (P, Q) * Q <= 0) by (apply Z.mul_nonpos_nonneg; lia). lia. Qed.
  (** from P <= s, Q > 0, a >= 1 the next state is reduced *)
  Lemma next_red_gen P Q : good (P, Q) -> 0 < Q -> P <= s -> Q <= P + s -> (Q <= s \/ 0 <= P) -> red (next (P, Q)).
  Proof.
    intros Hg HQ HP HA HX. pose proof (aof_pos P Q HQ) as B. destruct (next (P, Q)) as [P' Q'] eqn:E. destruct (next_exact P Q P' Q' Hg E) as (E1 & E2). set (a := aof s (P, Q)) in *.
    assert (A1 : 1 <= a) by (destruct (Z_le_gt_dec 1 a); [assumption|]; assert (a * Q <= 0) by (apply Z.mul_nonpos_nonneg; lia); lia). assert (AQ : Q <= a * Q) by (assert (1 * Q <= a * Q) by (apply Z.mul_le_mono_nonneg_r; lia); lia).
    assert (P1 : 1 <= P') by (destruct (Z_lt_le_dec P Q); lia). assert (P2 : P' <= s) by lia.
    assert (DP : 0 < D - P' * P') by (assert (P' * P' <= s * s) by (apply Z.mul_le_mono_nonneg; lia); lia). assert (Q1 : 0 < Q') by (destruct (Z_lt_le_dec 0 Q'); [assumption|]; assert (Q * Q' <= 0) by (apply Z.mul_nonneg_nonpos; lia); lia).
    split; [lia|]. split; [lia|]. split.
    - assert (s - P' < Q'); [|lia]. apply (Zmult_lt_reg_r _ _ Q HQ). assert ((s - P') * Q <= (s - P') * (s + P')) by (apply Z.mul_le_mono_nonneg_l; lia). lia.
    - assert (Q' < s + 1 + P'); [|lia]. apply (Zmult_lt_reg_r _ _ Q HQ). assert ((s + 1 - P') * (s + 1 + P') <= Q * (s + 1 + P')) by (apply Z.mul_le_mono_nonneg_r; lia). lia.
  Qed.
  Lemma next_red x : good x -> red x -> red (next x).
  Proof. destruct x as [P Q]. intros Hg (H1 & H2 & H3 & H4). apply next_red_gen; [exact Hg|lia..]. Qed.
  Lemma next_inj x y : good x -> good y -> red x -> red y -> next x = next y -> x = y.
  Proof.
    destruct x as [P Q], y as [P1 Q1]. intros G1 G2 R1 R2 E. destruct (next (P, Q)) as [P' Q'] eqn:E'. symmetry in E. destruct (next_exact _ _ _ _ G1 E') as (A1 & A2). destruct (next_exact _ _ _ _ G2 E) as (B1 & B2). pose proof (next_red _ G1 R1) as R'. rewrite E' in R'. destruct R' as (_ & Q'1 & _).
    assert (EQ : Q = Q1). { assert (W : Q' * (Q - Q1) = 0) by lia. apply Z.mul_eq_0 in W as [|]; lia. } subst Q1. destruct R1 as (X1 & X2 & X3 & X4), R2 as (Y1 & _ & Y3 & Y4). set (a := aof s (P, Q)) in *. set (b := aof s (P1, Q)) in *.
    assert (a = b). { destruct (Z.lt_trichotomy a b) as [L|[L|L]]; [|exact L|]. - assert (a * Q + Q <= b * Q) by (replace (a * Q + Q) with ((a + 1) * Q) by ring; apply Z.mul_le_mono_nonneg_r; lia). lia. - assert (b * Q + Q <= a * Q) by (replace (b * Q + Q) with ((b + 1) * Q) by ring; apply Z.mul_le_mono_nonneg_r; lia). lia. }
    f_equal. lia.
  Qed.

  Section Seq.
    Variables P0 Q0 : Z.
    Hypothesis start_good : good (P0, Q0).
    Notation pq := (pq D s P0 Q0).
    Lemma red_from r n : red (pq r) -> red (pq (r + n)).
    Proof. intros H. induction n as [|n IH]; [now rewrite Nat.add_0_r|]. rewrite Nat.add_succ_r. cbn [PellProofs.pq]. apply next_red; [now apply pq_good|exact IH]. Qed.
    Lemma back r i j : red (pq r) -> pq (r + i + j) = pq (r + j) -> pq (r + i) = pq r.
    Proof.
      intros H. induction j as [|j IH]; intros E; [now rewrite !Nat.add_0_r in E|]. apply IH. rewrite !Nat.add_succ_r in E. cbn [PellProofs.pq] in E. apply next_inj in E; [exact E|now apply pq_good|now apply pq_good| |].
      - replace (r + i + j)%nat with (r + (i + j))%nat by lia. now apply red_from.
      - now apply red_from.
    Qed.
    Lemma seq_dup (f : nat -> Z * Z) n : ~ NoDup (map f (seq 0 n)) -> exists i j, (i < j < n)%nat /\ f i = f j.
    Proof.
      induction n as [|n IH]; intros H; [exfalso; apply H; constructor|]. destruct (in_dec prod_eq_dec (f n) (map f (seq 0 n))) as [I|I].
      - apply in_map_iff in I as (i & E & I). apply in_seq in I. exists i, n. split; [lia|exact E].
      - destruct IH as (i & j & L & E); [|exists i, j; split; [lia|exact E]]. intros ND. apply H. rewrite seq_S, map_app. cbn [map Nat.add]. apply NoDup_rev in ND. rewrite <- (rev_involutive (map f (seq 0 n) ++ [f n])). apply NoDup_rev. rewrite rev_unit. constructor; [rewrite <- in_rev; exact I|exact ND].
    Qed.
    Lemma period_exists r : red (pq r) -> exists l, (1 <= l)%nat /\ Z.of_nat l <= 2 * (s * s) /\ pq (r + l) = pq r /\ forall n, (1 <= n < l)%nat -> pq (r + n) <> pq r.
    Proof.
      intros H. set (L := list_prod (map Z.of_nat (seq 1 (Z.to_nat s))) (map Z.of_nat (seq 1 (2 * Z.to_nat s)))).
      assert (LL : length L = (Z.to_nat s * (2 * Z.to_nat s))%nat) by (unfold L; rewrite prod_length, !map_length, !seq_length; reflexivity).
      assert (IN : forall n, In (pq (r + n)) L). { intros n. pose proof (red_from r n H) as R. destruct (pq (r + n)) as [P Q]. destruct R as (R1 & R2 & R3 & R4). apply in_prod; apply in_map_iff; [exists (Z.to_nat P)|exists (Z.to_nat Q)]; (split; [lia|apply in_seq; lia]). }
      destruct (seq_dup (fun n => pq (r + n)) (S (length L))) as (i & j & Hij & E).
      { intros ND. assert (length (map (fun n => pq (r + n)) (seq 0 (S (length L)))) <= length L)%nat; [|rewrite map_length, seq_length in *; lia]. apply NoDup_incl_length; [exact ND|]. intros x I. apply in_map_iff in I as (n & <- & _). apply IN. }
      assert (T : pq (r + (j - i)) = pq r). { apply (back r (j - i) i H). replace (r + (j - i) + i)%nat with (r + j)%nat by lia. symmetry. exact E. }
      set (t := fun k => if prod_eq_dec (pq (r + S k)) (pq r) then true else false).
      destruct (least t (j - i - 1)) as (m & M1 & M2 & M3); [unfold t; replace (S (j - i - 1)) with (j - i)%nat by lia; destruct (prod_eq_dec _ _); [reflexivity|contradiction]|].
      exists (S m). split; [lia|]. split; [nia|]. split; [unfold t in M2; destruct (prod_eq_dec _ _); [assumption|discriminate]|].
      intros n Hn E'. specialize (M3 (n - 1)%nat ltac:(lia)). unfold t in M3. replace (S (n - 1)) with n in M3 by lia. destruct (prod_eq_dec _ _); [discriminate|contradiction].
    Qed.
  End Seq.

  (** the expansion of sqrt(D): P0 = 0, Q0 = 1 *)
  Notation pq := (pq D s 0 1).
  Lemma good01 : good (0, 1).
  Proof. split; [lia|]. exists D. lia. Qed.
  Lemma pq1 : pq 1 = (s, D - s * s).
  Proof. cbn [PellProofs.pq PellProofs.next aof]. destruct (Z.ltb_spec 1 0); [lia|]. rewrite Z.div_1_r, Z.quot_1_r. replace ((0 + s) * 1 - 0) with s by ring. reflexivity. Qed.
  Lemma red1 : red (pq 1).
  Proof. rewrite pq1. unfold red. lia. Qed.
  Lemma red_pos n : (1 <= n)%nat -> red (pq n).
  Proof. intros H. replace n with (1 + (n - 1))%nat by lia. apply red_from; [exact good01|exact red1]. Qed.
  Lemma good_unit : good (s, 1).
  Proof. split; [lia|]. exists (D - s * s). lia. Qed.
  Lemma red_unit : red (s, 1).
  Proof. unfold red. lia. Qed.
  Lemma next_unit : next (s, 1) = pq 1.
  Proof. rewrite pq1. cbn [PellProofs.next aof]. destruct (Z.ltb_spec 1 0); [lia|]. rewrite Z.div_1_r, Z.quot_1_r. replace ((s + s) * 1 - s) with s by ring. reflexivity. Qed.
  Lemma red_Q1 P : red (P, 1) -> P = s.
  Proof. unfold red. lia. Qed.
  Section Period.
    Variable l : nat.
    Hypothesis l_pos : (1 <= l)%nat.
    Hypothesis l_per : pq (1 + l) = pq 1.
    Hypothesis l_least : forall n, (1 <= n < l)%nat -> pq (1 + n) <> pq 1.
    Lemma pq_l : pq l = (s, 1).
    Proof. apply next_inj; [apply pq_good, good01|apply good_unit|now apply red_pos|apply red_unit|]. rewrite next_unit. exact l_per. Qed.
    Lemma per1 k n : (1 <= n)%nat -> pq (k * l + n) = pq n.
    Proof. intros H. replace (k * l + n)%nat with (1 + k * l + (n - 1))%nat by lia. rewrite (per_mul D s 0 1 1 l l_per k (n - 1)). f_equal. lia. Qed.
    Lemma unit_iff n : (1 <= n)%nat -> Qn D s 0 1 n = 1 <-> (n mod l = 0)%nat.
    Proof.
      intros H. unfold Qn. split.
      - intros E. assert (E' : pq n = (s, 1)). { pose proof (red_pos n H) as R. destruct (pq n) as [P Q]. cbn in E. subst Q. now rewrite (red_Q1 P R). }
        destruct (Nat.eq_dec (n mod l) 0) as [|NZ]; [assumption|exfalso]. pose proof (Nat.mod_upper_bound n l ltac:(lia)). apply (l_least (n mod l) ltac:(lia)). replace (1 + n mod l)%nat with (S (n mod l)) by lia. cbn [PellProofs.pq]. rewrite <- (per1 (n / l) (n mod l)) by lia. replace (n / l * l + n mod l)%nat with n by (pose proof (Nat.div_mod_eq n l); nia). rewrite E'. apply next_unit.
      - intros E. apply Nat.mod_divides in E as [k E]; [|lia]. assert (k <> 0)%nat by (intros ->; lia). replace n with ((k - 1) * l + l)%nat by nia. rewrite per1 by lia. now rewrite pq_l.
    Qed.
  End Period.
End Red.
