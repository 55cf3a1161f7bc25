(** sum_multiplicative_34 and calc_F_k. *)
From Coq Require Import Ring Ring_theory.
From Verif Require Import Lib RingSpec RingProofs PrimesSpec PrimesProofs PrimesProofs4 PiSpec PiProofs DirSpec LohiModel LohiSpec SumMModel SumMSpec SumMProofs3 SumMulModel SumMulSpec SumMulProofs.
From Coq Require Import Arith Lia.
Open Scope nat_scope.

(** ** the list of primes *)
Lemma nth_prime L i p : nth_error (primes_below L) i = Some p -> is_prime p /\ p < L /\ length (primes_below p) = i.
Proof.
  intros H. assert (I0 := nth_error_In _ _ H). apply primes_below_in in I0. destruct I0 as (B & P). split; [exact P|]. split; [exact B|].
  induction L as [|L IH]; [lia|]. rewrite primes_below_S in H. destruct (Nat.lt_ge_cases i (length (primes_below L))) as [C|C].
  - rewrite nth_error_app1 in H by exact C. apply IH; [exact H|]. apply nth_error_In, primes_below_in in H. tauto.
  - rewrite nth_error_app2 in H by exact C. destruct (primeb L); [|destruct (i - _) in H; discriminate]. destruct (i - length (primes_below L)) eqn:E; [|destruct n; discriminate]. cbn in H. injection H as <-. lia.
Qed.
Lemma prime_nth L p : is_prime p -> p < L -> nth_error (primes_below L) (length (primes_below p)) = Some p.
Proof.
  intros P B. destruct (primes_below_mono (S p) L ltac:(lia)) as (l & E). rewrite E, primes_below_S. apply primeb_spec in P. rewrite P, <- app_assoc. cbn [app]. apply nth_app_mid.
Qed.
Lemma count_S p : is_prime p -> length (primes_below (S p)) = S (length (primes_below p)).
Proof. intros P. rewrite primes_below_S. apply primeb_spec in P. rewrite P, app_length. cbn. lia. Qed.
Lemma count_mono a b : a <= b -> length (primes_below a) <= length (primes_below b).
Proof. intros H. destruct (primes_below_mono a b H) as (l & ->). rewrite app_length. lia. Qed.
Lemma count_lt a p : length (primes_below a) <= length (primes_below p) -> is_prime p -> a <= p.
Proof. intros H P. destruct (le_lt_dec a p); [assumption|]. pose proof (count_mono (S p) a ltac:(lia)). rewrite (count_S p P) in H0. lia. Qed.
Lemma smooth_count a b t : 1 <= t -> length (primes_below a) = length (primes_below b) -> smooth a t = smooth b t.
Proof.
  assert (X : forall a b, a <= b -> 1 <= t -> length (primes_below a) = length (primes_below b) -> smooth a t = smooth b t).
  { intros x y L T1 E. apply smooth_gap; [exact T1|exact L|]. intros r R Hr. apply (count_lt y r); [|exact R]. rewrite <- E. now apply count_mono. }
  intros T1 E. destruct (le_lt_dec a b); [now apply X|]. symmetry. apply X; [lia|exact T1|now symmetry].
Qed.
Lemma div_pow_S n p e : 1 <= p -> n / p ^ e / p = n / p ^ (S e).
Proof. intros H. rewrite Nat.div_div; [|apply Nat.pow_nonzero; lia|lia]. f_equal. cbn [Nat.pow]. lia. Qed.
Lemma div_swap n a b : 1 <= a -> 1 <= b -> n / a / b = n / b / a.
Proof. intros A B. rewrite !Nat.div_div by lia. f_equal. lia. Qed.

Section Dfs.
  Context {T : Type} (zero one : T) (add mul sub : T -> T -> T) (opp : T -> T).
  Hypothesis Rth : ring_theory zero one add mul sub opp (@eq T).
  Add Ring Tr2 : Rth.
  Notation sumQ := (sum_where zero add).
  Notation prime_total := (prime_total zero add).
  Variables (f : T -> nat -> nat -> T) (g : nat -> T) (L : nat).
  Hypothesis Mult : multiplicative one mul g.
  Hypothesis Step : power_step f g.
  Notation pa := (primes_below L).

  Lemma step_at p e : is_prime p -> f (g (p ^ e)) p (e + 1) = g (p ^ (e + 1)).
  Proof. intros P. rewrite <- (Step p (e + 1) P) by lia. f_equal. f_equal. f_equal. lia. Qed.

  Section Loop.
    Variables (n M Bm : nat) (bvn : nat -> nat) (C : nat -> T) (f_tb : T) (be bv : nat) (rec : nat -> nat -> T -> nat -> nat -> option T).
    Hypothesis Rec : forall i p e, nth_error pa i = Some p -> p < Bm -> 1 <= e -> bvn p <= n / p ^ e ->
      exists r, rec i (n / p ^ e) (if be =? 0 then g (p ^ e) else f_tb) (bvn p) (if be =? 0 then e else be) = Some r /\ (if be =? 0 then r else mul (g (p ^ e)) r) = sumQ (smooth p) (fun t => C (p ^ e * t)) (M / p ^ e).
    Hypothesis Stop : forall p e, is_prime p -> 1 <= e -> n / p ^ e < bvn p -> sumQ (smooth (S p)) (fun t => C (p ^ e * t)) (M / p ^ e) = zero.
    Hypothesis Brk : forall p t r, is_prime p -> n / p < bvn p -> 1 <= t <= M -> is_prime r -> p <= r -> Nat.divide r t -> C t = zero.
    Hypothesis Bv : forall p, is_prime p -> bvn p = (if be =? 0 then p else bv) /\ 1 <= bvn p.

    Lemma while_ok i p : nth_error pa i = Some p -> p < Bm -> forall fuel e ret, n / p ^ (S e) < fuel ->
      sm34_while add mul f fuel (rec i) p f_tb be (bvn p) e (g (p ^ e)) (n / p ^ (S e)) ret = Some (add ret (sumQ (smooth (S p)) (fun t => C (p ^ (S e) * t)) (M / p ^ (S e)))).
    Proof.
      intros Hi HBm. destruct (nth_prime _ _ _ Hi) as (P & _ & _). pose proof (prime_ge _ P) as P2. destruct (Bv p P) as (_ & B1).
      induction fuel as [|fuel IH]; intros e ret F; [lia|]. cbn [sm34_while]. destruct (Nat.ltb_spec (n / p ^ S e) (bvn p)) as [C1|C1].
      - rewrite (Stop p (S e) P) by lia. f_equal. ring.
      - replace (e + 1) with (S e) by lia. replace (f (g (p ^ e)) p (S e)) with (g (p ^ S e)) by (pose proof (step_at p e P) as X; replace (e + 1) with (S e) in X by lia; now rewrite X).
        destruct (Rec i p (S e) Hi HBm ltac:(lia) C1) as (r & -> & E). cbn [obind]. rewrite div_pow_S by lia. rewrite IH.
        + f_equal. rewrite E. rewrite (smooth_peel zero one add mul sub opp Rth p _ (M / p ^ S e) P). rewrite div_pow_S by lia.
          rewrite (sumQ_ext zero add (smooth (S p)) (smooth (S p)) (fun t => C (p ^ S (S e) * t)) (fun t => C (p ^ S e * (p * t)))); [ring|reflexivity|]. intros t _ _. f_equal. cbn [Nat.pow]. lia.
        + rewrite <- div_pow_S by lia. assert (n / p ^ S e / p < n / p ^ S e) by (apply Nat.div_lt; lia). lia.
    Qed.
    Lemma for_ok : Bm <= L -> forall k i B ret, B <= Bm -> length (primes_below B) = i -> i + k = length (primes_below Bm) ->
      sm34_for one add mul f rec pa n f_tb bv be k i ret = Some (add ret (sub (sumQ (smooth Bm) C M) (sumQ (smooth B) C M))).
    Proof.
      intros HL. induction k as [|k IH]; intros i B ret HB Hi Hk; cbn [sm34_for].
      - f_equal. rewrite (sumQ_ext zero add (smooth Bm) (smooth B) C C); [ring| |reflexivity]. intros t Ht. apply smooth_count; lia.
      - pose proof (count_mono Bm L HL). destruct (nth_error pa i) as [p|] eqn:E; [|apply nth_error_None in E; lia]. cbn [obind]. destruct (nth_prime _ _ _ E) as (P & PL & PC). pose proof (prime_ge _ P) as P2. replace (p =? 0) with false by (symmetry; apply Nat.eqb_neq; lia). cbn [negb guard obind].
        destruct (Bv p P) as (<- & B1). assert (PB : p < Bm). { destruct (le_lt_dec Bm p); [|assumption]. pose proof (count_mono Bm p l). lia. }
        assert (SB : sumQ (smooth B) C M = sumQ (smooth p) C M) by (apply sumQ_ext; [|reflexivity]; intros t Ht; apply smooth_count; lia).
        destruct (Nat.ltb_spec (n / p) (bvn p)) as [C1|C1].
        + f_equal. enough (X : sumQ (smooth Bm) C M = sumQ (smooth B) C M) by (rewrite X; ring). rewrite SB. apply (rsum_ext zero add). intros j J. destruct (smooth Bm (S j)) eqn:S1, (smooth p (S j)) eqn:S2; try reflexivity.
          * assert (S2' : ~ smooth p (S j) = true) by congruence. rewrite smooth_spec in S2' by lia. destruct (smooth_spec p (S j) ltac:(lia)) as (_ & K0).
            destruct (existsb (fun r => primeb r && (S j mod r =? 0)) (seq p (S (S j) - p))) eqn:EX.
            -- apply existsb_exists in EX. destruct EX as (r & IR & ER). apply andb_true_iff in ER. destruct ER as (R & D). apply primeb_spec in R. apply in_seq in IR. apply (Brk p (S j) r P); try assumption; try lia. apply divide_mod; [pose proof (prime_ge _ R); lia|exact D].
            -- exfalso. apply S2'. intros r R LR D. pose proof (Nat.divide_pos_le r (S j) ltac:(lia) D). assert (existsb (fun r => primeb r && (S j mod r =? 0)) (seq p (S (S j) - p)) = true); [|congruence]. apply existsb_exists. exists r. split; [apply in_seq; lia|]. apply andb_true_iff. split; [now apply primeb_spec|]. apply divide_mod; [pose proof (prime_ge _ R); lia|exact D].
          * exfalso. assert (~ smooth Bm (S j) = true) by congruence. apply H0. apply smooth_spec; [lia|]. intros r R LR. apply (proj1 (smooth_spec p (S j) ltac:(lia)) S2 r R). lia.
        + pose proof (while_ok i p E PB (S n) 0 ret) as W. replace (p ^ 1) with p in W by (cbn; lia). replace (g (p ^ 0)) with one in W by (symmetry; apply Mult). rewrite W by (apply Nat.lt_succ_r, Nat.div_le_upper_bound; nia). cbn [obind]. rewrite (IH (S i) (S p)); [| |rewrite (count_S p P); lia|lia].
          * f_equal. rewrite SB. rewrite (smooth_peel zero one add mul sub opp Rth p C M P). ring.
          * lia.
    Qed.
  End Loop.

  (** ** the recursion below a class *)
  Variables (N : nat) (s1 : @sqm T).
  Hypothesis N1 : 1 <= N.
  Hypothesis S1 : forall k, 1 <= k -> sqrt_key (Nat.sqrt N) N k -> sqm_el s1 k = Some (prime_total g k).
  Definition tail (b a x : nat) : T := add (g (b ^ (a + 1))) (mul (g (b ^ a)) (sub (prime_total g x) (prime_total g b))).

  Lemma key_div d : 1 <= d <= N -> sqrt_key (Nat.sqrt N) N (N / d).
  Proof. intros H. right. exists d. split; [lia|reflexivity]. Qed.
  Lemma rec_ok fuel : forall i B d b a, i < fuel -> B <= L -> length (primes_below B) = i -> 1 <= d <= N -> is_prime b -> 1 <= a -> b <= N / d -> b <= Nat.sqrt N -> 
    sm34 one add mul sub f fuel s1 pa i (N / d) (g (b ^ a)) b a = Some (sumQ (smooth B) (fun u => mul (g u) (tail b a (N / d / u))) (N / d / b)).
  Proof.
    induction fuel as [|fuel IH]; intros i B d b a F HB Hi Hd Pb Ha Hb Hq; [lia|]. cbn [sm34]. pose proof (prime_ge _ Pb) as B2.
    rewrite (S1 (N / d)); [|lia|now apply key_div]. cbn [obind]. replace (a =? 0) with false by (symmetry; apply Nat.eqb_neq; lia). rewrite (S1 b) by (try (now left); lia). cbn [obind].
    set (n := N / d) in *. set (C := fun u => mul (g u) (tail b a (n / u))). set (M := n / b).
    assert (M1 : 1 <= M) by (apply Nat.div_le_lower_bound; lia).
    rewrite (for_ok n M B (fun _ => b) C (g (b ^ a)) a b _) with (B := 0); try assumption; try lia; try reflexivity.
    - f_equal. change (fun u => mul (g u) (tail b a (n / u))) with C. fold M.
      assert (E0 : sumQ (smooth 0) C M = tail b a n).
      { rewrite (sumQ_trunc zero one add mul sub opp Rth _ _ 1 M M1); [|intros t Ht Q; rewrite smooth_low in Q by lia; discriminate]. unfold SumMulSpec.sum_where. cbn [RingSpec.rsum]. rewrite smooth_one. unfold C. replace (g 1) with one by (symmetry; apply Mult). rewrite Nat.div_1_r. ring. }
      rewrite E0. unfold tail. rewrite step_at by exact Pb. ring.
    - intros j p e Hj HpB He Hn. destruct (nth_prime _ _ _ Hj) as (P & PL & PC). pose proof (prime_ge _ P) as P2. pose proof (PrimesProofs4.pow_pos p e P2) as PE.
      replace (a =? 0) with false by (symmetry; apply Nat.eqb_neq; lia). exists (sumQ (smooth p) (fun u => mul (g u) (tail b a (n / p ^ e / u))) (n / p ^ e / b)). split.
      + unfold n in *. rewrite Nat.div_div in * by lia. assert (d * p ^ e <= N). { destruct (le_lt_dec (d * p ^ e) N); [assumption|]. rewrite Nat.div_small in Hn by assumption. lia. }
        rewrite (IH j p (d * p ^ e) b a); try assumption; try lia; try reflexivity. pose proof (count_mono (S p) B ltac:(lia)) as CM. rewrite (count_S p P) in CM. lia.
      + rewrite <- (sumQ_mul_l zero one add mul sub opp Rth). rewrite (div_swap n (p ^ e) b) by lia. apply sumQ_ext; [reflexivity|]. intros t Ht St. unfold C. rewrite (mult_of one mul g (p ^ e) t Mult); [|lia|lia|now apply smooth_coprime]. rewrite Nat.div_div by lia. ring.
    - intros p e P He Hn. pose proof (prime_ge _ P) as P2. pose proof (PrimesProofs4.pow_pos p e P2) as PE. unfold M. rewrite div_swap by lia. rewrite Nat.div_small by exact Hn. reflexivity.
    - intros p t r P Hn Ht R LR D. exfalso. apply Nat.divide_pos_le in D; [|lia]. pose proof (prime_ge _ P). assert (M < p); [|lia]. unfold M. apply Nat.div_lt_upper_bound; [lia|]. pose proof (Nat.mul_succ_div_gt n p ltac:(lia)). nia.
    - intros p P. replace (a =? 0) with false by (symmetry; apply Nat.eqb_neq; lia). split; [reflexivity|lia].
  Qed.

  Theorem sum34_map : N < L * L -> sum_multiplicative_34_map one add mul sub f s1 N pa = Some (summatory zero add g N).
  Proof.
    intros HL. unfold sum_multiplicative_34_map. cbn [sm34]. rewrite (S1 N); [|lia|right; exists 1; rewrite Nat.div_1_r; split; [lia|reflexivity]]. cbn [obind Nat.eqb].
    set (C := class zero add g N). rewrite (for_ok N N L (fun p => p) C one 0 1 _) with (B := 0); try lia; try reflexivity.
    - f_equal. rewrite (sum_by_class zero one add mul sub opp Rth g N N1). fold C.
      assert (E0 : sumQ (smooth 0) C N = prime_total g N).
      { rewrite (sumQ_trunc zero one add mul sub opp Rth _ _ 1 N N1); [|intros t Ht Q; rewrite smooth_low in Q by lia; discriminate]. unfold SumMulSpec.sum_where. cbn [RingSpec.rsum]. rewrite smooth_one. unfold C. rewrite class_one. ring. }
      rewrite E0. replace (g 1) with one by (symmetry; apply Mult).
      assert (E1 : sumQ (smooth L) C N = sumQ (fun _ => true) C N).
      { apply (rsum_ext zero add). intros j J. destruct (smooth L (S j)) eqn:E; [reflexivity|]. symmetry. unfold C, class. apply (rsum_zero zero one add mul sub opp Rth). intros q Q. destruct (primeb q) eqn:PQ; [|reflexivity]. cbn [andb]. destruct (smooth (S q) (S j)) eqn:SQ; [|reflexivity]. exfalso.
        assert (X : ~ smooth L (S j) = true) by congruence. apply X. apply smooth_spec; [lia|]. intros r R LR D. pose proof (proj1 (smooth_spec (S q) (S j) ltac:(lia)) SQ r R) as Y. destruct (le_lt_dec (S q) r); [now apply Y|]. apply Nat.divide_pos_le in D; [|lia]. pose proof (Nat.mul_div_le N (S j) ltac:(lia)). nia. }
      rewrite E1. ring.
    - intros i p e Hi HpL He Hn. destruct (nth_prime _ _ _ Hi) as (P & PL & PC). pose proof (prime_ge _ P) as P2. pose proof (PrimesProofs4.pow_pos p e P2) as PE. cbn [Nat.eqb].
      assert (Hd : p ^ e <= N). { destruct (le_lt_dec (p ^ e) N); [assumption|]. rewrite Nat.div_small in Hn by assumption. lia. }
      assert (HQ : p <= Nat.sqrt N). { apply Nat.sqrt_le_square. pose proof (Nat.mul_div_le N (p ^ e) ltac:(lia)). assert (p <= p ^ e) by (rewrite <- (Nat.pow_1_r p) at 1; apply Nat.pow_le_mono_r; lia). nia. }
      eexists. split.
      + apply (rec_ok (length pa) i p (p ^ e) p e); try assumption; try lia. apply nth_error_Some. congruence.
      + symmetry. rewrite (sumQ_trunc zero one add mul sub opp Rth _ _ (N / p ^ e / p)).
        * apply sumQ_ext; [reflexivity|]. intros t Ht St. unfold C. rewrite (class_pow zero one add mul sub opp Rth); try assumption; try lia. rewrite <- Nat.div_div by lia. destruct (Nat.leb_spec p (N / p ^ e / t)) as [|X]; [reflexivity|]. exfalso.
          assert (p <= N / p ^ e / t); [|lia]. apply Nat.div_le_lower_bound; [lia|]. pose proof (Nat.mul_div_le (N / p ^ e) p ltac:(lia)). nia.
        * apply Nat.div_le_upper_bound; nia.
        * intros t Ht St. unfold C. rewrite (class_pow zero one add mul sub opp Rth); try assumption; try lia. rewrite <- Nat.div_div by lia. destruct (Nat.leb_spec p (N / p ^ e / t)) as [X|]; [|reflexivity]. exfalso. pose proof (Nat.mul_div_le (N / p ^ e) t ltac:(lia)). pose proof (Nat.mul_succ_div_gt (N / p ^ e) p ltac:(lia)). nia.
    - intros p e P He Hn. pose proof (prime_ge _ P) as P2. pose proof (PrimesProofs4.pow_pos p e P2) as PE. apply (sumQ_zero zero one add mul sub opp Rth). intros t Ht _. unfold C, class. apply (rsum_zero zero one add mul sub opp Rth). intros q Q. destruct (primeb q) eqn:PQ; [|reflexivity]. cbn [andb]. destruct (smooth (S q) (p ^ e * t)) eqn:SQ; [|reflexivity]. exfalso.
      pose proof (proj1 (smooth_spec (S q) (p ^ e * t) ltac:(nia)) SQ p P) as Y. destruct (le_lt_dec (S q) p) as [Z0|Z0].
      + apply Y; [exact Z0|]. apply Nat.divide_mul_l. replace e with (S (e - 1)) by lia. exists (p ^ (e - 1)). cbn. lia.
      + rewrite <- Nat.div_div in Q by lia. assert (N / p ^ e / t <= N / p ^ e) by (apply Nat.div_le_upper_bound; nia). lia.
    - intros p t r P Hn Ht R LR D. unfold C, class. apply (rsum_zero zero one add mul sub opp Rth). intros q Q. destruct (primeb q) eqn:PQ; [|reflexivity]. cbn [andb]. destruct (smooth (S q) t) eqn:SQ; [|reflexivity]. exfalso.
      pose proof (proj1 (smooth_spec (S q) t ltac:(lia)) SQ r R) as Y. destruct (le_lt_dec (S q) r) as [Z0|Z0]; [now apply Y|]. apply Nat.divide_pos_le in D; [|lia]. pose proof (Nat.mul_div_le N t ltac:(lia)). pose proof (prime_ge _ P). pose proof (Nat.mul_succ_div_gt N p ltac:(lia)). nia.
    - intros p P. split; [reflexivity|]. pose proof (prime_ge _ P). lia.
  Qed.
End Dfs.

Section CalcF.
  Context {T : Type} (zero one : T) (add mul sub : T -> T -> T) (opp : T -> T).
  Hypothesis Rth : ring_theory zero one add mul sub opp (@eq T).
  Add Ring Tr3 : Rth.
  Variables (f : T -> nat -> nat -> T) (g : nat -> T).
  Hypothesis Mult : multiplicative one mul g.
  Hypothesis Step : power_step f g.
  Notation sumQ := (sum_where zero add).
  Notation rough_total := (rough_total zero add).
  Context {St : Type} (F : St -> nat -> option (T * St)) (Inv : St -> Prop) (p : nat) (K : nat -> Prop).
  Hypothesis P : is_prime p.
  Hypothesis KD : forall m, K m -> 1 <= m / p -> K (m / p).
  Hypothesis FK : forall st m, Inv st -> K m -> 1 <= m -> exists st', F st m = Some (rough_total g (S p) m, st') /\ Inv st'.

  Lemma rough_scale e M : sumQ (rough (S p)) (fun t => g (p ^ e * t)) M = mul (g (p ^ e)) (rough_total g (S p) M).
  Proof.
    unfold SumMulSpec.rough_total. rewrite <- (sumQ_mul_l zero one add mul sub opp Rth). apply sumQ_ext; [reflexivity|]. intros t Ht R. pose proof (prime_ge _ P) as P2. pose proof (PrimesProofs4.pow_pos p e P2). apply (mult_of one mul g); [exact Mult|lia|lia|]. apply coprime_pow; [exact P|]. apply (proj1 (rough_spec _ _) R p P). lia.
  Qed.
  Lemma calc_loop_ok fuel : forall e m s st, m < fuel -> K m -> Inv st -> exists st',
    calc_loop add mul f F fuel p (S e) (g (p ^ e)) m s st = Some (add s (sumQ (rough p) (fun t => g (p ^ (S e) * t)) (m / p)), st') /\ Inv st'.
  Proof.
    pose proof (prime_ge _ P) as P2. induction fuel as [|fuel IH]; intros e m s st Hf Hk Hi; [lia|]. cbn [calc_loop]. replace (p =? 0) with false by (symmetry; apply Nat.eqb_neq; lia). cbn [negb guard obind]. destruct (Nat.eqb_spec (m / p) 0) as [E|E].
    - rewrite E. exists st. split; [|exact Hi]. f_equal. f_equal. unfold SumMulSpec.sum_where. cbn [RingSpec.rsum]. ring.
    - replace (f (g (p ^ e)) p (S e)) with (g (p ^ S e)). 2: { pose proof (step_at f g Step p e P) as X. replace (e + 1) with (S e) in X by lia. now rewrite X. }
      destruct (FK st (m / p) Hi (KD m Hk ltac:(lia)) ltac:(lia)) as (st1 & -> & I1). cbn [obind].
      destruct (IH (S e) (m / p) (add s (mul (g (p ^ S e)) (rough_total g (S p) (m / p)))) st1) as (st2 & -> & I2); [|apply KD; [exact Hk|lia]|exact I1|].
      + assert (m / p < m); [|lia]. apply Nat.div_lt; [|lia]. destruct m; [rewrite Nat.div_0_l in E; lia|lia].
      + exists st2. split; [|exact I2]. f_equal. f_equal. rewrite (rough_peel zero one add mul sub opp Rth p _ (m / p) P). rewrite rough_scale.
        rewrite (sumQ_ext zero add (rough p) (rough p) (fun t => g (p ^ S (S e) * t)) (fun t => g (p ^ S e * (p * t)))); [ring|reflexivity|]. intros t _ _. f_equal. cbn [Nat.pow]. lia.
  Qed.
  Lemma calc_F_ok m st : 1 <= m -> K m -> Inv st -> exists st', calc_F_k one add mul f F p m st = Some (rough_total g p m, st') /\ Inv st'.
  Proof.
    intros M1 Hk Hi. unfold calc_F_k. destruct (FK st m Hi Hk M1) as (st1 & -> & I1). cbn [obind]. pose proof (calc_loop_ok (S m) 0 m (rough_total g (S p) m) st1 ltac:(lia) Hk I1) as (st2 & E & I2). replace (g (p ^ 0)) with one in E by (symmetry; apply Mult). rewrite E. exists st2. split; [|exact I2]. f_equal. f_equal.
    unfold SumMulSpec.rough_total. rewrite (rough_peel zero one add mul sub opp Rth p g m P). f_equal. apply sumQ_ext; [reflexivity|]. intros t _ _. f_equal. cbn. lia.
  Qed.
End CalcF.
