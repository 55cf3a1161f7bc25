From Coq Require Import Znumtheory.
From Verif Require Import Lib BaseModel PrimesSpec PrimesProofs NumTheory2 NumTheory3 RootsModel RootsSpec TripleSpec TripleProofs SqrModel SqrSpec SqrProofs SqrProofs2.
Open Scope Z_scope.

(** divisors of sums of two squares *)
Definition nice (q : Z) : Prop := 0 < q /\ forall a b k, a * a + b * b = q * q * k -> (q | a) /\ (q | b).
Lemma nice_1 : nice 1.
Proof. split; [lia|]. intros. split; apply Z.divide_1_l. Qed.
Lemma nice_mul q r : nice q -> nice r -> nice (q * r).
Proof.
  intros (Q & HQ) (R & HR). split; [nia|]. intros a b k E. destruct (HQ a b (r * r * k)) as ((a' & A) & (b' & B)); [lia|]. destruct (HR a' b' k) as ((a2 & A2) & (b2 & B2)); [|split; [exists a2|exists b2]; subst; ring]. apply (Z.mul_reg_l _ _ (q * q)); [nia|]. rewrite A, B in E. lia.
Qed.
Lemma nice_pow r n : nice r -> nice (r ^ Z.of_nat n).
Proof. intros H. induction n as [|n IH]; [exact nice_1|]. rewrite Nat2Z.inj_succ, Z.pow_succ_r by lia. now apply nice_mul. Qed.
Lemma nice_2 : nice 2.
Proof.
  split; [lia|]. intros a b k E. pose proof (Z.div_mod a 2 ltac:(lia)) as DA. pose proof (Z.div_mod b 2 ltac:(lia)) as DB. rewrite Zmod_odd in DA, DB. set (a' := a / 2) in *. set (b' := b / 2) in *. destruct (Z.odd a), (Z.odd b).
  - exfalso. rewrite DA, DB in E. assert (2 * (2 * (a' * a' + a' + b' * b' + b') + 1) = 2 * (2 * k)) by lia. lia.
  - exfalso. rewrite DA, DB in E. assert (2 * (2 * (a' * a' + a' + b' * b')) + 1 = 2 * (2 * k)) by lia. lia.
  - exfalso. rewrite DA, DB in E. assert (2 * (2 * (a' * a' + b' + b' * b')) + 1 = 2 * (2 * k)) by lia. lia.
  - split; [exists a'|exists b']; lia.
Qed.
Lemma three_div p a b k : is_prime p -> Z.of_nat p mod 4 = 3 -> a * a + b * b = Z.of_nat p * k -> (Z.of_nat p | a) /\ (Z.of_nat p | b).
Proof.
  intros P M E. pose proof (prime_conv p P) as PP. assert (N2 : p <> 2%nat) by (intros ->; discriminate). assert (P2 : 2 <= Z.of_nat p) by (destruct P; lia).
  assert (W : (Z.of_nat p | b)). { destruct (Zdivide_dec (Z.of_nat p) b) as [H|ND]; [exact H|exfalso]. apply prime_rel_prime in ND; [|exact PP]. destruct (rel_prime_bezout _ _ ND) as [u v UV]. assert (X : (Z.of_nat p | (a * v) * (a * v) - -1)). { replace (a * v * (a * v) - -1) with (v * v * (a * a + b * b) + (1 - v * b) * (1 + v * b)) by ring. rewrite E. apply Z.divide_add_r; [exists (v * v * k); ring|]. apply Z.divide_mul_l. exists u. lia. }
    assert (NM : ~ (Z.of_nat p | -1)) by (intros C; apply Z.divide_opp_r in C; apply Z.divide_pos_le in C; [change (- -1) with 1 in C; lia|lia]). pose proof (half_square p P N2 (-1) (a * v) NM X) as H1. destruct (half_eq p P N2) as (HE & _). assert (EV : exists k, 0 <= k /\ Z.of_nat (half p) = 2 * k + 1) by (exists (Z.of_nat p / 4); pose proof (Z.div_mod (Z.of_nat p) 4 ltac:(lia)); pose proof (Z.div_pos (Z.of_nat p) 4); lia). destruct EV as (j & J & EV). rewrite EV, Z.pow_add_r, Z.pow_mul_r in H1 by lia. change ((-1) ^ 2) with 1 in H1. rewrite Z.pow_1_l in H1 by lia. change (1 * (-1) ^ 1 - 1) with (-2) in H1. apply Z.divide_opp_r in H1. change (- -2) with 2 in H1. apply Z.divide_pos_le in H1; [|lia]. lia. }
  split; [|exact W]. destruct W as (b' & ->). destruct (prime_mult _ PP a a) as [H|H]; [|exact H|exact H]. exists (k - b' * b' * Z.of_nat p). lia.
Qed.
Lemma nice_3 p : is_prime p -> Z.of_nat p mod 4 = 3 -> nice (Z.of_nat p).
Proof. intros P M. split; [destruct P; lia|]. intros a b k E. apply (three_div p a b (Z.of_nat p * k) P M). lia. Qed.

(** the factors *)
Definition part1 (vf : list (Z * Z)) : Z := fold_right (fun '(p, e) a => if Z.rem p 4 =? 1 then p ^ e * a else a) 1 vf.
Definition part3 (vf : list (Z * Z)) : Z := fold_right (fun '(p, e) a => if Z.rem p 4 =? 1 then a else p ^ e * a) 1 vf.
Lemma parts vf : factored_value vf = part1 vf * part3 vf.
Proof. induction vf as [|(p, e) vf IH]; [reflexivity|]. unfold factored_value, part1, part3 in *. cbn [fold_right]. rewrite IH. destruct (Z.rem p 4 =? 1); ring. Qed.
Lemma fact_tail p e vf : factorization_list ((p, e) :: vf) -> factorization_list vf /\ (0 <= p /\ is_prime (Z.to_nat p) /\ 1 <= e) /\ ~ In p (map fst vf).
Proof. intros (N & H). cbn [map fst] in N. inversion N; subst. split; [split; [assumption|intros q f I; apply H; now right]|]. split; [apply H; now left|assumption]. Qed.
Lemma rem4 p : 0 <= p -> Z.rem p 4 = p mod 4.
Proof. intros. apply Z.rem_mod_nonneg; lia. Qed.
Lemma prime_mod4 p : 0 <= p -> is_prime (Z.to_nat p) -> p = 2 \/ p mod 4 = 1 \/ p mod 4 = 3.
Proof.
  intros H0 (P1 & P2). assert (HP : 2 <= p) by lia. destruct (Z.eq_dec p 2) as [|N]; [now left|right]. pose proof (Z.div_mod p 4 ltac:(lia)) as D. pose proof (Z.mod_pos_bound p 4 ltac:(lia)) as B. assert (EV : ~ (2 | p)). { intros (k & K). assert (0 < k) by lia. destruct (P2 2%nat) as [|]; [exists (Z.to_nat k); lia|discriminate|lia]. } assert (p mod 4 <> 0) by (intros E; apply EV; exists (2 * (p / 4)); lia). assert (p mod 4 <> 2) by (intros E; apply EV; exists (2 * (p / 4) + 1); lia). lia.
Qed.
Lemma pow_half p e : 0 <= e -> e mod 2 = 0 -> p ^ e = p ^ (e / 2) * p ^ (e / 2).
Proof. intros H E. rewrite <- Z.pow_add_r by (apply Z.div_pos; lia). f_equal. pose proof (Z.div_mod e 2 ltac:(lia)). lia. Qed.
Lemma pow_half1 p e : 0 <= e -> e mod 2 = 1 -> p ^ e = p * (p ^ (e / 2) * p ^ (e / 2)).
Proof. intros H E. assert (0 <= e / 2) by (apply Z.div_pos; lia). rewrite <- Z.pow_add_r, <- Z.pow_succ_r by lia. f_equal. pose proof (Z.div_mod e 2 ltac:(lia)). lia. Qed.
Lemma prime_power_prime n p q : 0 <= n -> prime p -> prime q -> (p | q ^ n) -> p = q.
Proof.
  intros N P Q D. apply (natlike_ind (fun n => (p | q ^ n) -> p = q)) with n; [| |exact N|exact D].
  - intros H. apply Z.divide_1_r_nonneg in H; [|destruct P; lia]. subst. destruct P; lia.
  - intros m M IH H. rewrite Z.pow_succ_r in H by exact M. destruct (prime_mult p P _ _ H) as [X|X]; [|exact (IH X)]. now apply prime_div_prime.
Qed.
Lemma not_divides r vf : is_prime (Z.to_nat r) -> 0 <= r -> factorization_list vf -> ~ In r (map fst vf) -> ~ (r | factored_value vf).
Proof.
  intros PR R0. induction vf as [|(p, e) vf IH]; intros F NI D; [apply Z.divide_pos_le in D; [cbn in D; destruct PR; lia|cbn; lia]|]. apply fact_tail in F as (F & (P0 & PP & E1) & _). unfold factored_value in D. cbn [fold_right] in D. fold (factored_value vf) in D. pose proof (prime_conv _ PR) as ZR. rewrite Z2Nat.id in ZR by exact R0. pose proof (prime_conv _ PP) as ZP. rewrite Z2Nat.id in ZP by exact P0. destruct (prime_mult r ZR _ _ D) as [H|H]; [|apply IH; [exact F|intros I; apply NI; now right|exact H]].
  apply (prime_power_prime e r p ltac:(lia) ZR ZP) in H. apply NI. now left.
Qed.
Lemma square_part_ok vf : factorization_list vf -> forall z q, (z = 0 \/ (z = 1 /\ ~ In 2 (map fst vf))) -> nice q ->
  match square_part vf z q with
  | Some (z', q') => (z' = 0 \/ z' = 1) /\ nice q' /\ (1 + z') * (q' * q') = (1 + z) * (q * q) * part3 vf
  | None => exists r e w, is_prime (Z.to_nat r) /\ 0 <= r /\ r mod 4 = 3 /\ 1 <= e /\ e mod 2 = 1 /\ factored_value vf = r ^ e * w /\ ~ (r | w)
  end.
Proof.
  induction vf as [|(p, e) vf IH]; intros F z q HZ NQ; cbn [square_part]; [split; [lia|]; split; [exact NQ|]; cbn; ring|]. pose proof F as F0. apply fact_tail in F as (F & (P0 & PP & E1) & NI). rewrite Z.rem_mod_nonneg, Z.quot_div_nonneg by lia. unfold part3. cbn [fold_right]. fold (part3 vf). pose proof (Z.mod_pos_bound e 2 ltac:(lia)) as EB. assert (EH : 0 <= e / 2) by (apply Z.div_pos; lia).
  assert (EXT : forall w r f, factored_value vf = r ^ f * w -> ~ (r | w) -> is_prime (Z.to_nat r) -> 0 <= r -> 1 <= f -> exists w', factored_value ((p, e) :: vf) = r ^ f * w' /\ ~ (r | w')).
  { intros w r f FV ND PR R0 F1. exists (p ^ e * w). split; [unfold factored_value; cbn [fold_right]; fold (factored_value vf); rewrite FV; ring|]. intros D. pose proof (prime_conv _ PR) as ZR. rewrite Z2Nat.id in ZR by exact R0. pose proof (prime_conv _ PP) as ZP. rewrite Z2Nat.id in ZP by exact P0. destruct (prime_mult r ZR _ _ D) as [H|H]; [|exact (ND H)]. apply (prime_power_prime e r p ltac:(lia) ZR ZP) in H. subst r. apply (not_divides p vf PP P0 F NI). rewrite FV. apply Z.divide_mul_l. replace f with (1 + (f - 1)) by ring. rewrite Z.pow_add_r, Z.pow_1_r by lia. apply Z.divide_mul_l, Z.divide_refl. }
  destruct (Z.eqb_spec p 2) as [->|N2].
  - rewrite (rem4 2) by lia. change (2 mod 4 =? 1) with false. cbv iota. specialize (IH F (if e mod 2 =? 1 then 1 else z) (q * 2 ^ (e / 2))). destruct (square_part vf _ _) as [[z' q']|].
    + destruct IH as (I1 & I2 & I3); [destruct (e mod 2 =? 1); [right; split; [reflexivity|exact NI]|destruct HZ as [|(_ & X)]; [now left|exfalso; apply X; now left]]|apply nice_mul; [exact NQ|]; rewrite <- (Z2Nat.id (e / 2)) by lia; apply nice_pow, nice_2|]. split; [exact I1|]. split; [exact I2|]. rewrite I3. assert (z = 0) by (destruct HZ as [|(_ & X)]; [assumption|exfalso; apply X; now left]). subst z. destruct (Z.eqb_spec (e mod 2) 1) as [O|O]; [rewrite (pow_half1 2 e) by lia; ring|rewrite (pow_half 2 e) by lia; ring].
    + destruct IH as (r & f & w & I1 & I2 & I3 & I4 & I5 & I6 & I7); [destruct (e mod 2 =? 1); [right; split; [reflexivity|exact NI]|destruct HZ as [|(_ & X)]; [now left|exfalso; apply X; now left]]|apply nice_mul; [exact NQ|]; rewrite <- (Z2Nat.id (e / 2)) by lia; apply nice_pow, nice_2|]. destruct (EXT w r f I6 I7 I1 I2 I4) as (w' & W1 & W2). exists r, f, w'. auto 10.
  - assert (HZ' : z = 0 \/ (z = 1 /\ ~ In 2 (map fst vf))) by (destruct HZ as [|(A & B)]; [now left|right; split; [exact A|intros I; apply B; now right]]). rewrite (rem4 p) by lia. destruct (prime_mod4 p P0 PP) as [|[M|M]]; [contradiction| |].
    + rewrite M. cbn [Z.eqb Pos.eqb]. cbv iota. specialize (IH F z q HZ' NQ). destruct (square_part vf z q) as [[z' q']|]; [exact IH|]. destruct IH as (r & f & w & I1 & I2 & I3 & I4 & I5 & I6 & I7). destruct (EXT w r f I6 I7 I1 I2 I4) as (w' & W1 & W2). exists r, f, w'. auto 10.
    + rewrite M. cbn [Z.eqb Pos.eqb]. cbv iota. destruct (Z.eqb_spec (e mod 2) 1) as [O|O].
      * exists p, e, (factored_value vf). split; [exact PP|]. split; [exact P0|]. split; [exact M|]. split; [exact E1|]. split; [exact O|]. split; [reflexivity|now apply not_divides].
      * assert (NP : nice (p ^ (e / 2))) by (rewrite <- (Z2Nat.id (e / 2)), <- (Z2Nat.id p) by lia; apply nice_pow, nice_3; [exact PP|rewrite Z2Nat.id by lia; exact M]). specialize (IH F z (q * p ^ (e / 2)) HZ' (nice_mul _ _ NQ NP)). destruct (square_part vf z _) as [[z' q']|].
        -- destruct IH as (I1 & I2 & I3). split; [exact I1|]. split; [exact I2|]. rewrite I3, (pow_half p e) by lia. ring.
        -- destruct IH as (r & f & w & I1 & I2 & I3 & I4 & I5 & I6 & I7). destruct (EXT w r f I6 I7 I1 I2 I4) as (w' & W1 & W2). exists r, f, w'. auto 10.
Qed.
Lemma odd_none r e w a b : is_prime (Z.to_nat r) -> 0 <= r -> r mod 4 = 3 -> 1 <= e -> e mod 2 = 1 -> ~ (r | w) -> a * a + b * b = r ^ e * w -> False.
Proof.
  intros P R0 M E1 O ND E. rewrite (pow_half1 r e) in E by lia. assert (R2 : 2 <= r) by (destruct P; lia). assert (EH : 0 <= e / 2) by (apply Z.div_pos; lia). assert (NP : nice (r ^ (e / 2))) by (rewrite <- (Z2Nat.id (e / 2)), <- (Z2Nat.id r) by lia; apply nice_pow, nice_3; [exact P|rewrite Z2Nat.id by lia; exact M]). set (h := r ^ (e / 2)) in *. destruct NP as (H0 & HN). destruct (HN a b (r * w)) as ((a' & A) & (b' & B)); [lia|]. assert (E2 : a' * a' + b' * b' = r * w) by (apply (Z.mul_reg_l _ _ (h * h)); [nia|]; rewrite A, B in E; lia).
  destruct (three_div (Z.to_nat r) a' b' w P) as ((a2 & A2) & (b2 & B2)); [rewrite Z2Nat.id by lia; exact M|rewrite Z2Nat.id by lia; exact E2|]. rewrite Z2Nat.id in A2, B2 by lia. apply ND. exists (a2 * a2 + b2 * b2). apply (Z.mul_reg_l _ _ r); [lia|]. rewrite <- E2, A2, B2. ring.
Qed.
Lemma base_ok z q B : z = 0 \/ z = 1 -> nice q -> describes (if (B =? 0) || (q <=? B) then [(z * q, q)] else []) ((1 + z) * (q * q)) B.
Proof.
  intros HZ (Q & N). fold (fits B q). assert (U : forall a b, unique_rep ((1 + z) * (q * q)) B a b <-> (a, b) = (z * q, q) /\ (B = 0 \/ q <= B)).
  { intros a b. split.
    - intros (O & E & F). destruct (N a b (1 + z)) as ((a' & A) & (b' & Bb)); [lia|]. assert (E2 : a' * a' + b' * b' = 1 + z) by (apply (Z.mul_reg_l _ _ (q * q)); [nia|]; rewrite A, Bb in E; lia). assert (0 <= a' <= b') by nia. assert (b' = 1) by nia. assert (a' = z) by nia. subst a' b'. split; [subst; f_equal; ring|lia].
    - intros (E & F). apply pair_equal_spec in E as (-> & ->). split; [destruct HZ as [-> | ->]; lia|]. split; [destruct HZ as [-> | ->]; ring|exact F]. }
  split; [destruct (fits B q); cbn; intuition|]. intros a b. rewrite U. rewrite <- fits_iff. destruct (fits B q); cbn [In]; intuition congruence.
Qed.

Section WithRoot.
  Variable root : Z -> Z.
  Hypothesis Hroot : square_root root.
  Definition good_table (t : table) : Prop := forall p c d, find t p = Some (c, d) -> is_prime (Z.to_nat p) -> p mod 4 = 1 -> prime_rep p c d.
  Lemma compose_all_ok B vf : forall v t m, factorization_list vf -> good_table t -> describes v m B -> exists v' t', compose_all root B vf v t = Some (v', t') /\ good_table t' /\ describes v' (part1 vf * m) B.
  Proof using Hroot.
    induction vf as [|(p, e) vf IH]; intros v t m F G V; cbn [compose_all]; [exists v, t; split; [reflexivity|]; split; [exact G|]; unfold part1; cbn [fold_right]; rewrite Z.mul_1_l; exact V|]. apply fact_tail in F as (F & (P0 & PP & E1) & NI). unfold part1. cbn [fold_right]. fold (part1 vf). destruct (Z.eqb_spec (Z.rem p 4) 1) as [M|M]; [|now apply IH]. rewrite rem4 in M by exact P0.
    assert (L : exists c d t', match find t p with Some cd => Some (cd, t) | None => let* cd := squares_r_prime root p in Some (cd, (p, cd) :: t) end = Some ((c, d), t') /\ good_table t' /\ prime_rep p c d).
    { destruct (find t p) as [(c, d)|] eqn:Ef; [exists c, d, t; split; [reflexivity|]; split; [exact G|now apply G]|]. destruct (prime_ok root Hroot (Z.to_nat p) PP) as (c & d & E & _ & R); [right; rewrite Z2Nat.id by exact P0; exact M|]. rewrite Z2Nat.id in E, R by exact P0. rewrite E. cbn [obind]. exists c, d, ((p, (c, d)) :: t). split; [reflexivity|]. split; [|exact R]. intros p' c' d' Ef' PP' M'. cbn [find] in Ef'. destruct (Z.eqb_spec p p') as [<-|]; [injection Ef' as <- <-; exact R|now apply G]. }
    destruct L as (c & d & t' & E & G' & (C & D & CD)). rewrite E. cbn [obind fst snd]. pose proof (prime_conv _ PP) as ZP. rewrite Z2Nat.id in ZP by exact P0. pose proof (compose_iter p c d B (Z.to_nat e) m v ZP C D CD V) as V'. rewrite Z2Nat.id in V' by lia. destruct (IH _ t' _ F G' V') as (v2 & t2 & E2 & G2 & V2). exists v2, t2. split; [exact E2|]. split; [exact G2|]. replace (p ^ e * part1 vf * m) with (part1 vf * (p ^ e * m)) by ring. exact V2.
  Qed.
End WithRoot.

(** signs and order *)
Lemma stage_in {A} (f : A -> A) (g : A -> bool) v x : In x (v ++ map f (filter g (rev v))) <-> In x v \/ exists y, In y v /\ g y = true /\ x = f y.
Proof. rewrite in_app_iff, in_map_iff. split; (intros [H|H]; [now left|right]). - destruct H as (y & <- & H). apply filter_In in H as (H & G). apply in_rev in H. exists y. auto. - destruct H as (y & H & G & ->). exists y. split; [reflexivity|]. apply filter_In. split; [now apply -> in_rev|exact G]. Qed.
Lemma stage_nodup {A} (f : A -> A) (g : A -> bool) v : NoDup v -> (forall x y, f x = f y -> x = y) -> (forall y, In y v -> g y = true -> ~ In (f y) v) -> NoDup (v ++ map f (filter g (rev v))).
Proof.
  intros N IJ H. apply NoDup_app'; [exact N| |].
  - apply FinFun.Injective_map_NoDup; [exact IJ|]. apply NoDup_filter, NoDup_rev, N.
  - intros x I1 I2. apply in_map_iff in I2 as (y & <- & I2). apply filter_In in I2 as (I2 & G). apply in_rev in I2. exact (H y I2 G I1).
Qed.
Lemma all_signs_ok v m B : 0 < m -> describes v m B -> NoDup (all_signs v) /\ forall a b, In (a, b) (all_signs v) <-> signed_rep m B a b.
Proof.
  intros M (VI & V). apply increasing_nodup in VI. unfold all_signs. set (v1 := v ++ _). set (v2 := v1 ++ _).
  assert (S1 : forall a b, In (a, b) v1 <-> 0 <= a /\ 0 <= b /\ a * a + b * b = m /\ (B = 0 \/ a <= B /\ b <= B)).
  { intros a b. unfold v1. rewrite stage_in. split.
    - intros [I|((c, d) & I & G & E)]; [apply V in I as (H1 & H2 & H3); lia|]. injection E as -> ->. apply V in I as (H1 & H2 & H3). lia.
    - intros (A & Bb & E & F). destruct (Z_lt_le_dec b a) as [L|L]; [right; exists (b, a); split; [apply V; split; [lia|]; split; lia|]; split; [destruct (Z.eqb_spec b a); [lia|reflexivity]|reflexivity]|left; apply V; split; [lia|]; split; lia]. }
  assert (N1 : NoDup v1). { apply stage_nodup; [exact VI|intros (a, b) (c, d) E; injection E as <- <-; reflexivity|]. intros (a, b) I G I'. apply V in I as (H1 & _), I' as (H2 & _). destruct (Z.eqb_spec a b); [discriminate|lia]. }
  assert (S2 : forall a b, In (a, b) v2 <-> 0 <= b /\ a * a + b * b = m /\ (B = 0 \/ Z.abs a <= B /\ b <= B)).
  { intros a b. unfold v2. rewrite stage_in. split.
    - intros [I|((c, d) & I & G & E)]; [apply S1 in I; lia|]. injection E as -> ->. apply S1 in I. lia.
    - intros (Bb & E & F). destruct (Z_lt_le_dec a 0) as [L|L]; [right; exists (- a, b); split; [apply S1; lia|]; split; [destruct (Z.eqb_spec (- a) 0); [lia|reflexivity]|f_equal; ring]|left; apply S1; lia]. }
  assert (N2 : NoDup v2). { apply stage_nodup; [exact N1|intros (a, b) (c, d) E; apply pair_equal_spec in E as (E1 & E2); f_equal; lia|]. intros (a, b) I G I'. apply S1 in I, I'. destruct (Z.eqb_spec a 0); [discriminate|lia]. }
  split.
  - apply stage_nodup; [exact N2|intros (a, b) (c, d) E; apply pair_equal_spec in E as (E1 & E2); f_equal; lia|]. intros (a, b) I G I'. apply S2 in I, I'. destruct (Z.eqb_spec b 0); [discriminate|lia].
  - intros a b. rewrite stage_in. unfold signed_rep. split.
    + intros [I|((c, d) & I & G & E)]; [apply S2 in I; lia|]. injection E as -> ->. apply S2 in I. lia.
    + intros (E & F). destruct (Z_lt_le_dec b 0) as [L|L]; [right; exists (a, - b); split; [apply S2; lia|]; split; [destruct (Z.eqb_spec (- b) 0); [lia|reflexivity]|f_equal; ring]|left; apply S2; lia].
Qed.
Lemma value_pos vf : factorization_list vf -> 0 < factored_value vf.
Proof. induction vf as [|(p, e) vf IH]; intros F; [cbn; lia|]. apply fact_tail in F as (F & (P0 & (P1 & _) & E1) & _). unfold factored_value. cbn [fold_right]. fold (factored_value vf). apply Z.mul_pos_pos; [apply Z.pow_pos_nonneg; lia|now apply IH]. Qed.
Lemma list_ok root vf (u : bool) t B : square_root root -> factorization_list vf -> good_table t -> exists l t', squares_r_list root vf u t B = Some (l, t') /\ good_table t' /\ increasing l /\ forall a b, In (a, b) l <-> if u then unique_rep (factored_value vf) B a b else signed_rep (factored_value vf) B a b.
Proof.
  intros HR F G. unfold squares_r_list. pose proof (square_part_ok vf F 0 1 (or_introl eq_refl) nice_1) as SP. pose proof (value_pos vf F) as VP. destruct (square_part vf 0 1) as [[z q]|].
  - destruct SP as (Z01 & NQ & E). pose proof (base_ok z q B Z01 NQ) as V. destruct (compose_all_ok root HR B vf _ t _ F G V) as (v & t' & EC & G' & V'). rewrite EC. cbn [obind]. assert (EN : part1 vf * ((1 + z) * (q * q)) = factored_value vf) by (rewrite parts, E; ring). rewrite EN in V'. eexists _, t'. split; [reflexivity|]. split; [exact G'|]. destruct u.
    + destruct V' as (I & V'). split; [apply sort_increasing, increasing_nodup, I|]. intros a b. rewrite sort_in. apply V'.
    + destruct (all_signs_ok v _ B VP V') as (N & S). split; [now apply sort_increasing|]. intros a b. rewrite sort_in. apply S.
  - destruct SP as (r & e & w & R1 & R2 & R3 & R4 & R5 & R6 & R7). exists [], t. split; [reflexivity|]. split; [exact G|]. split; [exact Logic.I|]. intros a b. split; [intros []|]. intros H. exfalso. apply (odd_none r e w a b R1 R2 R3 R4 R5 R7). rewrite <- R6. destruct u; [apply H|apply H].
Qed.
