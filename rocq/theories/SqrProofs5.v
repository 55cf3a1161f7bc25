From Coq Require Import Znumtheory.
From Verif Require Import Lib BaseModel PrimesSpec PrimesProofs NumTheory2 NumTheory3 RootsModel RootsSpec TripleSpec TripleProofs TripleProps SqrModel SqrSpec SqrProofs SqrProofs2 SqrProofs3 SqrProofs4.
Open Scope Z_scope.

Definition cnt1 (vf : list (Z * Z)) : Z := fold_right (fun '(p, e) a => if Z.rem p 4 =? 1 then (e + 1) * a else a) 1 vf.
Lemma part1_divides vf : (part1 vf | factored_value vf).
Proof. rewrite parts. apply Z.divide_factor_l. Qed.
Lemma part1_pos vf : factorization_list vf -> 0 < part1 vf.
Proof. induction vf as [|(p, e) vf IH]; intros F; [cbn; lia|]. apply fact_tail in F as (F & (P0 & (P1 & _) & E1) & _). unfold part1. cbn [fold_right]. fold (part1 vf). destruct (Z.rem p 4 =? 1); [|now apply IH]. apply Z.mul_pos_pos; [apply Z.pow_pos_nonneg; lia|now apply IH]. Qed.
Lemma part3_pos vf : factorization_list vf -> 0 < part3 vf.
Proof. intros F. pose proof (part1_pos vf F). pose proof (value_pos vf F) as V. rewrite parts in V. nia. Qed.
Lemma reps_part1 vf m k : factorization_list vf -> 0 < m -> (forall p e, In (p, e) vf -> Z.rem p 4 = 1 -> ~ (p | m)) -> reps m k -> reps (part1 vf * m) (cnt1 vf * k).
Proof.
  induction vf as [|(p, e) vf IH]; intros F M ND R; [unfold part1, cnt1; cbn [fold_right]; rewrite !Z.mul_1_l; exact R|]. pose proof F as F0. apply fact_tail in F as (F & (P0 & PP & E1) & NI). unfold part1, cnt1. cbn [fold_right]. fold (part1 vf) (cnt1 vf). assert (R' : reps (part1 vf * m) (cnt1 vf * k)) by (apply IH; [exact F|exact M|intros p' e' I; apply (ND p' e'); now right|exact R]). destruct (Z.eqb_spec (Z.rem p 4) 1) as [E|E]; [|exact R'].
  pose proof (prime_conv _ PP) as ZP. rewrite Z2Nat.id in ZP by exact P0. pose proof (rem4 p P0) as RM. rewrite RM in E. destruct (two_squares (Z.to_nat p) PP) as (c & d & CD); [right; rewrite Z2Nat.id by lia; exact E|]. rewrite Z2Nat.id in CD by lia. rewrite <- !Z.mul_assoc. rewrite <- (Z2Nat.id e) by lia. apply (reps_pow p c d); try assumption.
  - intros ->. discriminate.
  - apply Z.mul_pos_pos; [now apply part1_pos|exact M].
  - intros D. destruct (prime_mult p ZP _ _ D) as [X|X]; [|apply (ND p e); [now left|lia|exact X]]. apply (not_divides p vf PP P0 F NI). eapply Z.divide_trans; [exact X|apply part1_divides].
Qed.
Lemma part3_prime vf p : factorization_list vf -> 0 <= p -> is_prime (Z.to_nat p) -> Z.rem p 4 = 1 -> ~ (p | part3 vf).
Proof.
  intros F P0 PP R. pose proof (prime_conv _ PP) as ZP. rewrite Z2Nat.id in ZP by exact P0. induction vf as [|(q, e) vf IH]; [intros D; apply Z.divide_pos_le in D; [cbn in D; destruct PP; lia|cbn; lia]|]. apply fact_tail in F as (F & (Q0 & PQ & E1) & _). unfold part3. cbn [fold_right]. fold (part3 vf). destruct (Z.eqb_spec (Z.rem q 4) 1) as [E|E]; [now apply IH|]. intros D. destruct (prime_mult p ZP _ _ D) as [X|X]; [|now apply IH]. pose proof (prime_conv _ PQ) as ZQ. rewrite Z2Nat.id in ZQ by exact Q0. apply (prime_power_prime e p q ltac:(lia) ZP ZQ) in X. subst q. contradiction.
Qed.
Lemma reps_base z q : z = 0 \/ z = 1 -> nice q -> reps ((1 + z) * (q * q)) 4.
Proof.
  intros HZ (Q & N). assert (W : forall a b, a * a + b * b = (1 + z) * (q * q) -> exists a' b', a = a' * q /\ b = b' * q /\ a' * a' + b' * b' = 1 + z). { intros a b E. destruct (N a b (1 + z)) as ((a' & A) & (b' & B)); [lia|]. exists a', b'. split; [exact A|]. split; [exact B|]. apply (Z.mul_reg_l _ _ (q * q)); [nia|]. rewrite A, B in E. lia. }
  destruct HZ as [-> | ->].
  - exists [(0, q); (0, - q); (q, 0); (- q, 0)]. split; [|split; [|reflexivity]].
    + repeat constructor; cbn [In]; intros H; repeat (destruct H as [H|H]); try (apply pair_equal_spec in H; lia); contradiction.
    + intros a b. split.
      * cbn [In]. intros [H|[H|[H|[H|[]]]]]; apply pair_equal_spec in H as (<- & <-); ring.
      * intros E. destruct (W a b E) as (a' & b' & -> & -> & X). assert (-1 <= a' <= 1) by nia. assert (-1 <= b' <= 1) by nia. assert (C : (a' = 0 /\ b' = 1) \/ (a' = 0 /\ b' = -1) \/ (a' = 1 /\ b' = 0) \/ (a' = -1 /\ b' = 0)) by nia. cbn [In]. destruct C as [(-> & ->)|[(-> & ->)|[(-> & ->)|(-> & ->)]]]; [left|right; left|right; right; left|right; right; right; left]; apply pair_equal_spec; lia.
  - exists [(q, q); (q, - q); (- q, q); (- q, - q)]. split; [|split; [|reflexivity]].
    + repeat constructor; cbn [In]; intros H; repeat (destruct H as [H|H]); try (apply pair_equal_spec in H; lia); contradiction.
    + intros a b. split.
      * cbn [In]. intros [H|[H|[H|[H|[]]]]]; apply pair_equal_spec in H as (<- & <-); ring.
      * intros E. destruct (W a b E) as (a' & b' & -> & -> & X). assert (-1 <= a' <= 1) by nia. assert (-1 <= b' <= 1) by nia. assert (C : (a' = 1 /\ b' = 1) \/ (a' = 1 /\ b' = -1) \/ (a' = -1 /\ b' = 1) \/ (a' = -1 /\ b' = -1)) by nia. cbn [In]. destruct C as [(-> & ->)|[(-> & ->)|[(-> & ->)|(-> & ->)]]]; [left|right; left|right; right; left|right; right; right; left]; apply pair_equal_spec; lia.
Qed.
Definition quarter (vf : list (Z * Z)) : Z := match square_part vf 0 1 with Some _ => cnt1 vf | None => 0 end.
Lemma reps_total vf : factorization_list vf -> reps (factored_value vf) (4 * quarter vf).
Proof.
  intros F. unfold quarter. pose proof (square_part_ok vf F 0 1 (or_introl eq_refl) nice_1) as SP. destruct (square_part vf 0 1) as [[z q]|].
  - destruct SP as (Z01 & NQ & E). rewrite Z.mul_comm, parts. apply reps_part1; [exact F|now apply part3_pos| |].
    + intros p e I R. destruct F as (FN & F'). apply part3_prime; [split; assumption|apply (F' p e I)|apply (F' p e I)|exact R].
    + replace (part3 vf) with ((1 + z) * (q * q)) by (rewrite E; ring). now apply reps_base.
  - destruct SP as (r & e & w & R1 & R2 & R3 & R4 & R5 & R6 & R7). exists []. split; [constructor|]. split; [|reflexivity]. intros a b. split; [intros []|]. intros H. exfalso. apply (odd_none r e w a b R1 R2 R3 R4 R5 R7). now rewrite <- R6.
Qed.

(** the counts of the two kinds *)
Definition sumf {A} (f : A -> Z) (l : list A) : Z := fold_right (fun x s => f x + s) 0 l.
Lemma sumf_app {A} (f : A -> Z) l l' : sumf f (l ++ l') = sumf f l + sumf f l'.
Proof. induction l as [|x l IH]; [reflexivity|]. unfold sumf in *. cbn [app fold_right]. rewrite IH. ring. Qed.
Lemma sumf_rev {A} (f : A -> Z) l : sumf f (rev l) = sumf f l.
Proof. induction l as [|x l IH]; [reflexivity|]. cbn [rev]. rewrite sumf_app, IH. unfold sumf. cbn [fold_right]. ring. Qed.
Lemma sumf_map {A} (f : A -> Z) (g : A -> A) (h : A -> bool) l : sumf f (map g (filter h l)) = sumf (fun y => if h y then f (g y) else 0) l.
Proof. induction l as [|x l IH]; [reflexivity|]. unfold sumf in *. cbn [filter fold_right]. destruct (h x); cbn [map fold_right]; rewrite IH; ring. Qed.
Lemma sumf_stage {A} (f : A -> Z) (g : A -> A) (h : A -> bool) l : sumf f (l ++ map g (filter h (rev l))) = sumf (fun y => f y + if h y then f (g y) else 0) l.
Proof. rewrite sumf_app, sumf_map, sumf_rev. unfold sumf. induction l as [|x l IH]; [reflexivity|]. cbn [fold_right]. rewrite <- IH. ring. Qed.
Lemma sumf_length {A} (l : list A) : Z.of_nat (length l) = sumf (fun _ => 1) l.
Proof. induction l as [|x l IH]; [reflexivity|]. cbn [length]. rewrite Nat2Z.inj_succ, IH. unfold sumf. cbn [fold_right]. ring. Qed.
Lemma sumf_ext {A} (f g : A -> Z) l : (forall x, In x l -> f x = g x) -> sumf f l = sumf g l.
Proof. induction l as [|x l IH]; intros H; [reflexivity|]. unfold sumf in *. cbn [fold_right]. rewrite (H x (or_introl eq_refl)), IH; [reflexivity|]. intros y I. apply H. now right. Qed.
Definition special (x : Z * Z) : bool := let '(a, b) := x in (a =? 0) || (a =? b).
Lemma signs_length v : (forall a b, In (a, b) v -> 0 <= a <= b /\ 0 < b) -> Z.of_nat (length (all_signs v)) = 8 * Z.of_nat (length v) - 4 * Z.of_nat (length (filter special v)).
Proof.
  intros H. unfold all_signs. rewrite sumf_length, !sumf_stage. transitivity (sumf (fun x => if special x then 4 else 8) v).
  - apply sumf_ext. intros (a, b) I. destruct (H a b I) as (AB & B0). unfold special. destruct (Z.eqb_spec b 0); [lia|]. destruct (Z.eqb_spec a b); [destruct (Z.eqb_spec a 0); [lia|reflexivity]|]. cbn [negb orb]. destruct (Z.eqb_spec a 0); reflexivity.
  - clear H. induction v as [|x v IH]; [reflexivity|]. unfold sumf in *. cbn [fold_right filter length]. rewrite IH. destruct (special x); cbn [length]; lia.
Qed.
Lemma no_root2 : forall k j, 0 < j -> k * k = 2 * (j * j) -> False.
Proof.
  assert (W : forall n : nat, forall k j, 0 < j -> j <= Z.of_nat n -> k * k = 2 * (j * j) -> False); [|intros k j J; apply (W (Z.to_nat j)); lia].
  assert (EV : forall x y, x * x = 2 * y -> exists x', x = 2 * x'). { intros x y E. pose proof (Z.div_mod x 2 ltac:(lia)) as D. rewrite Zmod_odd in D. destruct (Z.odd x); [|exists (x / 2); lia]. exfalso. set (h := x / 2) in *. rewrite D in E. assert (2 * (2 * (h * h) + 2 * h) + 1 = 2 * y) by lia. lia. }
  induction n as [|n IH]; intros k j J L E; [lia|]. destruct (EV k (j * j) E) as (k' & ->). destruct (EV j (k' * k')) as (j' & ->); [lia|]. apply (IH k' j'); lia.
Qed.
Lemma special_le m B v : 0 < m -> describes v m B -> (length (filter special v) <= 1)%nat.
Proof.
  intros M (VI & V). apply increasing_nodup in VI. pose proof (NoDup_filter special VI) as N. assert (EQ : forall x y, In x (filter special v) -> In y (filter special v) -> x = y).
  { intros (a, b) (c, d) I1 I2. apply filter_In in I1 as (I1 & S1), I2 as (I2 & S2). apply V in I1 as (A1 & A2 & _), I2 as (B1 & B2 & _). unfold special in S1, S2. apply Bool.orb_true_iff in S1, S2. rewrite !Z.eqb_eq in S1, S2. destruct S1 as [-> | ->], S2 as [-> | ->].
    - f_equal. apply sq_eq; lia.
    - exfalso. apply (no_root2 b d); nia.
    - exfalso. apply (no_root2 d b); nia.
    - assert (b = d) by (apply sq_eq; lia). now subst. }
  destruct (filter special v) as [|x [|y r]]; cbn; [lia|lia|]. exfalso. inversion N as [|? ? NI _]; subst. apply NI. rewrite (EQ x y); [now left|now left|right; now left].
Qed.
Lemma unique_count m k v : 0 < m -> describes v m 0 -> reps m (4 * k) -> Z.of_nat (length v) = (k + k mod 2) / 2 /\ 0 <= k.
Proof.
  intros M V R. destruct (all_signs_ok v m 0 M V) as (N & S). assert (R' : reps m (Z.of_nat (length (all_signs v)))). { exists (all_signs v). split; [exact N|]. split; [|reflexivity]. intros a b. rewrite S. unfold signed_rep. lia. }
  pose proof (reps_unique _ _ _ R R') as E. rewrite signs_length in E by (intros a b I; apply V in I as (A & E' & _); nia). pose proof (special_le m 0 v M V) as L. set (s := Z.of_nat (length (filter special v))) in *. assert (0 <= s <= 1) by (unfold s; lia). assert (K : k = 2 * Z.of_nat (length v) - s) by lia. assert (s = k mod 2). { rewrite K. destruct (Z.eq_dec s 0) as [->|]; [rewrite Z.sub_0_r, Z.mul_comm, Z_mod_mult; reflexivity|]. assert (s = 1) by lia. replace (2 * Z.of_nat (length v) - s) with (1 + (Z.of_nat (length v) - 1) * 2) by lia. rewrite Z_mod_plus_full. assumption. }
  split; [|destruct R as (l & _ & _ & X); lia]. replace (k + k mod 2) with (Z.of_nat (length v) * 2) by lia. now rewrite Z.div_mul.
Qed.

(** the code *)
Definition fstep : Z * Z * Z -> Z * Z -> Z * Z * Z := fun '(B, s, q) '(p, e) =>
    let '(B, s) :=
      if Z.rem p 4 =? 1 then (B * (e + 1), s)
      else if Z.rem p 4 =? 3 then (if Z.rem e 2 =? 1 then 0 else B, s)
      else if p =? 2 then (B, if Z.rem e 2 =? 1 then -1 else s) else (B, s) in
    (B, s, if Z.rem e 2 =? 1 then 0 else q).
Lemma square_part_none vf : forall z q z' q', square_part vf z q = None <-> square_part vf z' q' = None.
Proof. induction vf as [|(p, e) vf IH]; intros; cbn [square_part]; [split; discriminate|]. destruct (p =? 2); [apply IH|]. destruct (Z.rem p 4 =? 3); [|apply IH]. destruct (Z.rem e 2 =? 1); [tauto|apply IH]. Qed.
Lemma fold_ok vf : factorization_list vf -> forall B s q, (q = 1 /\ s = 1 /\ B mod 2 = 1) \/ (q = 0 /\ (B mod 2 = 1 -> s = -1)) ->
  exists s' q', fold_left fstep vf (B, s, q) = (B * quarter vf, s', q') /\ ((q' = 1 /\ s' = 1 /\ (B * quarter vf) mod 2 = 1) \/ (q' = 0 /\ ((B * quarter vf) mod 2 = 1 -> s' = -1))).
Proof.
  induction vf as [|(p, e) vf IH]; intros F B s q I.
  - exists s, q. unfold quarter. cbn [square_part cnt1 fold_right]. rewrite Z.mul_1_r. split; [reflexivity|exact I].
  - apply fact_tail in F as (F & (P0 & PP & E1) & NI). cbn [fold_left]. unfold fstep at 2. rewrite !(Z.rem_mod_nonneg e 2), rem4 by lia. pose proof (Z.mod_pos_bound e 2 ltac:(lia)) as EB.
    assert (QE : forall z q, quarter vf = match square_part vf z q with Some _ => cnt1 vf | None => 0 end). { intros z0 q0. unfold quarter. pose proof (square_part_none vf 0 1 z0 q0). destruct (square_part vf 0 1), (square_part vf z0 q0); intuition congruence. }
    destruct (prime_mod4 p P0 PP) as [->|[M|M]].
    + change (2 mod 4) with 2. cbn [Z.eqb Pos.eqb]. cbv iota. assert (Q : quarter ((2, e) :: vf) = quarter vf). { unfold quarter at 1. cbn [square_part Z.eqb Pos.eqb]. rewrite (QE (if Z.rem e 2 =? 1 then 1 else 0) (1 * 2 ^ (e ÷ 2))). unfold cnt1. cbn [fold_right]. change (Z.rem 2 4 =? 1) with false. cbv iota. reflexivity. } rewrite Q. apply IH; [exact F|]. destruct (Z.eqb_spec (e mod 2) 1); [right; split; [reflexivity|reflexivity]|exact I].
    + rewrite M. cbn [Z.eqb Pos.eqb]. cbv iota. assert (Q : quarter ((p, e) :: vf) = (e + 1) * quarter vf). { unfold quarter. cbn [square_part]. rewrite rem4 by exact P0. rewrite M. cbn [Z.eqb Pos.eqb]. cbv iota. destruct (Z.eqb_spec p 2) as [->|]; [discriminate|]. destruct (square_part vf 0 1); [|ring]. unfold cnt1. cbn [fold_right]. rewrite rem4 by exact P0. rewrite M. reflexivity. } rewrite Q, Z.mul_assoc. apply IH; [exact F|]. destruct (Z.eqb_spec (e mod 2) 1) as [O|O].
      * right. split; [reflexivity|]. intros X. exfalso. rewrite Z.mul_mod, (Z.add_mod e 1), O in X by lia. change ((1 + 1 mod 2) mod 2) with 0 in X. rewrite Z.mul_0_r in X. discriminate.
      * assert (O' : e mod 2 = 0) by lia. rewrite Z.mul_mod, (Z.add_mod e 1), O' by lia. change ((0 + 1 mod 2) mod 2) with 1. rewrite Z.mul_1_r, Z.mod_mod by lia. exact I.
    + rewrite M. cbn [Z.eqb Pos.eqb]. cbv iota. assert (N2 : p <> 2) by (intros ->; discriminate). destruct (Z.eqb_spec (e mod 2) 1) as [O|O].
      * assert (Q : quarter ((p, e) :: vf) = 0). { unfold quarter. cbn [square_part]. rewrite rem4 by exact P0. rewrite Z.rem_mod_nonneg by lia. rewrite M, O. destruct (Z.eqb_spec p 2); [contradiction|reflexivity]. } rewrite Q, Z.mul_0_r. destruct (IH F 0 s 0) as (s' & q' & E & X); [right; split; [reflexivity|discriminate]|]. rewrite Z.mul_0_l in E, X. exists s', q'. split; [exact E|exact X].
      * assert (Q : quarter ((p, e) :: vf) = quarter vf). { unfold quarter at 1. cbn [square_part]. rewrite rem4 by exact P0. rewrite Z.rem_mod_nonneg by lia. rewrite M. destruct (Z.eqb_spec p 2); [contradiction|]. cbn [Z.eqb Pos.eqb]. cbv iota. destruct (Z.eqb_spec (e mod 2) 1); [contradiction|]. rewrite (QE 0 (1 * p ^ (e ÷ 2))). unfold cnt1. cbn [fold_right]. rewrite rem4 by exact P0. rewrite M. reflexivity. } rewrite Q. now apply IH.
Qed.
Lemma count_ok vf : factorization_list vf -> counted (signed_rep (factored_value vf) 0) (squares_r vf false) /\ counted (unique_rep (factored_value vf) 0) (squares_r vf true).
Proof.
  intros F. destruct (fold_ok vf F 1 1 1) as (s & q & E & I); [left; auto|]. rewrite Z.mul_1_l in E, I. pose proof (reps_total vf F) as R. pose proof (value_pos vf F) as VP. split.
  - unfold squares_r. change (fold_left _ vf (1, 1, 1)) with (fold_left fstep vf (1, 1, 1)). rewrite E. cbn [negb]. rewrite Z.mul_comm. destruct R as (l & N & H & L). exists l. split; [exact N|]. split; [|exact L]. intros a b. rewrite H. unfold signed_rep. lia.
  - destruct (list_ok Z.sqrt vf true [] 0 square_root_sqrt F) as (l & t & _ & _ & LI & LH); [intros ? ? ? H; discriminate|]. destruct (unique_count _ _ l VP (conj LI LH) R) as (U & K0). exists l. split; [now apply increasing_nodup|]. split; [exact LH|]. rewrite U. unfold squares_r. change (fold_left _ vf (1, 1, 1)) with (fold_left fstep vf (1, 1, 1)). rewrite E. cbn [negb]. rewrite Z.rem_mod_nonneg by lia. pose proof (Z.mod_pos_bound (quarter vf) 2 ltac:(lia)) as KB. pose proof (Z.div_mod (quarter vf) 2 ltac:(lia)) as KD. set (k := quarter vf) in *. destruct (Z.eqb_spec (k mod 2) 1) as [O|O].
    + rewrite O. destruct I as [(-> & -> & _)|(-> & ->)]; [|replace (k - -1) with (k + 1) by ring; rewrite Z.quot_div_nonneg by lia; ring|exact O]. rewrite Z.quot_div_nonneg by lia. replace (k + 1) with (k - 1 + 1 * 2) by ring. rewrite Z.div_add by lia. reflexivity.
    + destruct I as [(_ & _ & X)|(-> & _)]; [contradiction|]. rewrite Z.quot_div_nonneg by lia. assert (k mod 2 = 0) by lia. replace (k mod 2) with 0. rewrite !Z.add_0_r. reflexivity.
Qed.
