(** Multiplicative variants. *)
From Coq Require Import Ring Ring_theory Permutation.
From Verif Require Import Lib RingSpec RingProofs PrimesSpec PrimesProofs PrimesProofs2 PrimesProofs4 DivisorsProofs FftProofs3 DirModel DirSpec DirProofs DirProofs2.
From Coq Require Import Arith Lia.
Open Scope nat_scope.

(** exact power of p in m *)
Fixpoint xpart_ (fuel p m : nat) : nat := match fuel with O => 1 | S fuel => if m mod p =? 0 then p * xpart_ fuel p (m / p) else 1 end.
Definition xpart (p m : nat) : nat := xpart_ m p m.
Lemma xpart_pow p k l : 2 <= p -> 1 <= l -> ~ Nat.divide p l -> xpart p (p ^ k * l) = p ^ k.
Proof.
  intros P L N. unfold xpart. pose proof (pow_gt_lin p k P) as G. assert (FU : k < p ^ k * l) by nia. revert FU. generalize (p ^ k * l) at 1 2 as fu. clear G. intros fu. revert fu. induction k as [|k IH]; intros [|fu] FU; try lia; cbn [xpart_].
  - rewrite Nat.pow_0_r, Nat.mul_1_l. destruct (Nat.eqb_spec (l mod p) 0) as [E|E]; [|reflexivity]. elim N. apply Nat.mod_divides in E as [c E]; [exists c; lia|lia].
  - replace (p ^ S k * l) with (p ^ k * l * p) by (cbn [Nat.pow]; lia). rewrite Nat.mod_mul, Nat.div_mul by lia. cbn [Nat.eqb]. rewrite IH by lia. reflexivity.
Qed.
Lemma pow_dvd p j k l : is_prime p -> ~ Nat.divide p l -> ((p ^ j * l) mod p ^ k =? 0) = (k <=? j).
Proof.
  intros P N. pose proof (prime_ge p P). pose proof (PrimesProofs4.pow_pos p k ltac:(lia)) as Q. destruct (Nat.leb_spec k j) as [K|K]; destruct (Nat.eqb_spec ((p ^ j * l) mod p ^ k) 0) as [E|E]; try reflexivity; exfalso.
  - apply E. replace j with (j - k + k) by lia. rewrite Nat.pow_add_r. replace (p ^ (j - k) * p ^ k * l) with (p ^ (j - k) * l * p ^ k) by lia. apply Nat.mod_mul. lia.
  - apply Nat.mod_divides in E as [c E]; [|lia]. replace k with (j + S (k - j - 1)) in E by lia. rewrite Nat.pow_add_r, <- Nat.mul_assoc in E. apply Nat.mul_cancel_l in E; [|pose proof (PrimesProofs4.pow_pos p j ltac:(lia)); lia]. apply N. exists (p ^ (k - j - 1) * c). rewrite E. cbn [Nat.pow]. lia.
Qed.
Lemma pow_quot p j k l : 2 <= p -> k <= j -> p ^ j * l / p ^ k = p ^ (j - k) * l.
Proof. intros P K. pose proof (PrimesProofs4.pow_pos p k ltac:(lia)). replace j with (j - k + k) at 1 by lia. rewrite Nat.pow_add_r. replace (p ^ (j - k) * p ^ k * l) with (p ^ (j - k) * l * p ^ k) by lia. apply Nat.div_mul. lia. Qed.
Lemma primes_below_split N n : n <= N -> exists R, primes_below N = primes_below n ++ R /\ Forall (fun p => n <= p) R.
Proof.
  intros H. destruct (primes_below_mono n N H) as (R & E). exists R. split; [exact E|]. apply Forall_forall. intros p I0. destruct (Nat.le_gt_cases n p) as [|G]; [assumption|exfalso].
  pose proof (primes_below_nodup N) as ND. rewrite E in ND. assert (J : In p (primes_below N)) by (rewrite E; apply in_or_app; now right). apply primes_below_in in J as [_ P]. assert (K : In p (primes_below n)) by (now apply primes_below_in).
  apply in_split in I0 as (r1 & r2 & ->). rewrite app_assoc in ND. apply NoDup_remove_2 in ND. apply ND. apply in_or_app. left. apply in_or_app. now left.
Qed.

Section Dir.
  Context {T : Type} (zero one : T) (add mul sub : T -> T -> T) (opp : T -> T) (tdiv : T -> T -> option T).
  Hypothesis Rth : ring_theory zero one add mul sub opp (@eq T).
  Add Ring Tr : Rth.
  Notation rsum := (rsum zero add).
  Notation dirichlet := (dirichlet zero add mul).
  Notation multiplicative := (multiplicative one mul).

  Definition prodl (u : nat -> T) (l : list nat) : T := fold_right (fun p a => mul (u p) a) one l.
  Lemma prodl_nil u : prodl u [] = one. Proof. reflexivity. Qed.
  Lemma prodl_cons u p l : prodl u (p :: l) = mul (u p) (prodl u l). Proof. reflexivity. Qed.
  Lemma prodl_ext u v l : (forall p, In p l -> u p = v p) -> prodl u l = prodl v l.
  Proof. induction l as [|p l IH]; intros H; [reflexivity|]. rewrite !prodl_cons, H by now left. f_equal. apply IH. intros; apply H; now right. Qed.
  Lemma prodl_one u l : (forall p, In p l -> u p = one) -> prodl u l = one.
  Proof. induction l as [|p l IH]; intros H; [reflexivity|]. rewrite prodl_cons, H by now left. rewrite IH; [ring|]. intros; apply H; now right. Qed.
  Lemma prodl_app u a b : prodl u (a ++ b) = mul (prodl u a) (prodl u b).
  Proof. induction a as [|p a IH]; cbn [app]; [rewrite prodl_nil; ring|]. rewrite !prodl_cons, IH. ring. Qed.
  Lemma prodl_mul u v l : prodl (fun p => mul (u p) (v p)) l = mul (prodl u l) (prodl v l).
  Proof. induction l as [|p l IH]; [rewrite !prodl_nil; ring|]. rewrite !prodl_cons, IH. ring. Qed.
  Lemma prodl_diff c p u v l : NoDup l -> In p l -> u p = mul c (v p) -> (forall q, In q l -> q <> p -> u q = v q) -> prodl u l = mul c (prodl v l).
  Proof.
    intros ND I0 E H. apply in_split in I0 as (a & b & ->). apply NoDup_remove_2 in ND. rewrite !prodl_app, !prodl_cons, E. rewrite (prodl_ext u v a), (prodl_ext u v b); [ring| |].
    - intros q J. apply H; [apply in_or_app; right; now right|]. intros ->. apply ND, in_or_app. now right.
    - intros q J. apply H; [apply in_or_app; now left|]. intros ->. apply ND, in_or_app. now left.
  Qed.

  (** ** one prime of calc_multiplicative *)
  Section OnePrime.
    Variables (L n p : nat).
    Hypothesis HL : n <= L.
    Hypothesis P : is_prime p.
    Definition touched (qq : nat) (m : nat) : bool := (m mod qq =? 0) && negb (xpart p m =? m) && (1 <=? m) && (m <? n).
    Lemma cm_powers_run fuel : forall k F h, is_arr L F h -> 1 <= k -> n + 1 < fuel + p ^ k + 1 -> 0 < fuel ->
      exists h', cm_powers mul fuel n p (p ^ k) h = Some h' /\ is_arr L (fun m => if touched (p ^ k) m then mul (F m) (F (xpart p m)) else F m) h'.
    Proof.
      pose proof (prime_ge p P) as P2. induction fuel as [|fuel IH]; intros k F h HA K FU F0; [lia|]. cbn [cm_powers]. pose proof (PrimesProofs4.pow_pos p k P2) as Q. destruct (Nat.ltb_spec (p ^ k) n) as [LT|GE].
      - unfold cm_inner. destruct (mult_loop L n (p ^ k) 2 (fun l v => if negb (l mod p =? 0) then mul v (F (p ^ k)) else v) (fun l h => if negb (l mod p =? 0) then let* fq := nth_error h (p ^ k) in upd h (l * p ^ k) (fun v => mul v fq) else Some h) F h HA HL ltac:(lia) ltac:(lia)) as (h1 & -> & H1).
        { intros e F' h' E DE HA' FF. destruct (negb (e mod p =? 0)) eqn:B.
          - assert (HQ : nth_error h' (p ^ k) = Some (F (p ^ k))) by (destruct HA' as [_ ->]; [now rewrite FF by lia|lia]). rewrite HQ. cbn [obind]. rewrite (Nat.mul_comm e). destruct (upd_arr L F' h' (p ^ k * e) (fun v => mul v (F (p ^ k))) HA' ltac:(lia)) as (h2 & E2 & R2). exists h2. split; [exact E2|]. apply (arr_ext L _ _ _ R2). intros i _. cbv beta. destruct (Nat.eqb_spec i (p ^ k * e)) as [->|]; reflexivity.
          - exists h'. split; [reflexivity|]. apply (arr_ext L _ _ _ HA'). intros i _. now destruct (i =? p ^ k * e). }
        cbn [obind]. replace (p ^ k * p) with (p ^ S k) by (cbn [Nat.pow]; lia). destruct (IH (S k) _ h1 H1 ltac:(lia)) as (h2 & E2 & R2); [cbn [Nat.pow]; nia|cbn [Nat.pow] in *; nia|].
        exists h2. split; [exact E2|]. apply (arr_ext L _ _ _ R2). intros m ML. cbv beta. unfold touched. destruct (Nat.ltb_spec m n) as [MN|MN]; [|now rewrite !andb_false_r]. destruct (Nat.leb_spec 1 m) as [M1|M1].
        + destruct (prime_pow_out p m M1 P2) as (j & l & E & ND & L1). subst m. rewrite (xpart_pow p j l P2 L1 ND). rewrite !(pow_dvd p j _ l P ND). replace (p ^ j) with (p ^ j * 1) by lia. rewrite !(pow_dvd p j k 1) by (try assumption; intros D; apply Nat.divide_1_r in D; lia). rewrite Nat.mul_1_r. rewrite !andb_true_r.
          destruct (Nat.leb_spec k j) as [KJ|KJ]; destruct (Nat.leb_spec (S k) j) as [KS|KS]; cbn [andb]; try lia.
          * assert (D0 : (p ^ j * l / p ^ k) mod p =? 0 = true). { rewrite pow_quot by lia. replace (j - k) with (S (j - k - 1)) by lia. replace (p ^ S (j - k - 1) * l) with (p ^ (j - k - 1) * l * p) by (cbn [Nat.pow]; lia). rewrite Nat.mod_mul by lia. reflexivity. }
            assert (D1 : (p ^ j / p ^ k) mod p =? 0 = true). { replace (p ^ j) with (p ^ j * 1) by lia. rewrite pow_quot by lia. replace (j - k) with (S (j - k - 1)) by lia. replace (p ^ S (j - k - 1) * 1) with (p ^ (j - k - 1) * p) by (cbn [Nat.pow]; lia). rewrite Nat.mod_mul by lia. reflexivity. }
            rewrite D0, D1. cbn [negb]. destruct (negb (p ^ j =? p ^ j * l)); destruct (2 * p ^ k <=? p ^ j * l), (2 * p ^ k <=? p ^ j), (p ^ j <? n); reflexivity.
          * assert (j = k) by lia. subst j. rewrite (Nat.mul_comm (p ^ k) l) at 2. rewrite Nat.div_mul by lia.
            assert (LM : (l mod p =? 0) = false). { apply Nat.eqb_neq. intros E. apply ND. apply Nat.mod_divides in E as [c E]; [exists c; lia|lia]. } rewrite LM. cbn [negb].
            destruct (Nat.leb_spec (2 * p ^ k) (p ^ k * l)) as [G|G]; destruct (Nat.eqb_spec (p ^ k) (p ^ k * l)) as [G1|G1]; cbn [negb andb]; try reflexivity; exfalso; [nia|]. destruct l as [|[|l]]; nia.
          * reflexivity.
        + assert (m = 0) by lia. subst m. rewrite !andb_false_r. cbn [andb]. destruct (Nat.leb_spec (2 * p ^ k) 0); [lia|]. rewrite andb_false_r. reflexivity.
      - exists h. split; [reflexivity|]. apply (arr_ext L _ _ _ HA). intros m _. unfold touched. destruct (Nat.ltb_spec m n) as [MN|MN]; [|now rewrite !andb_false_r]. destruct (Nat.leb_spec 1 m) as [M1|M1]; [|now rewrite !andb_false_r]. rewrite Nat.mod_small by lia. destruct (Nat.eqb_spec m 0); [lia|reflexivity].
    Qed.
  End OnePrime.

  Definition cf (F : nat -> T) (p m : nat) : T := if (m mod p =? 0) && negb (xpart p m =? m) then F (xpart p m) else one.
  Lemma calc_run L n (HL : n <= L) R : Forall (fun p => n <= p) R -> forall P F h, is_arr L F h -> Forall is_prime P -> Forall (fun p => p < n) P ->
    exists h', calc_multiplicative mul h n (P ++ R) = Some h' /\ is_arr L (fun m => if (1 <=? m) && (m <? n) then mul (F m) (prodl (fun p => cf F p m) P) else F m) h'.
  Proof.
    intros HR. induction P as [|p P IH]; intros F h HA HP HN; cbn [app].
    - exists h. split. { destruct R as [|r R]; [reflexivity|]. apply Forall_cons_iff in HR as [HR _]. cbn [calc_multiplicative]. destruct (Nat.ltb_spec r n); [lia|reflexivity]. }
      apply (arr_ext L _ _ _ HA). intros m _. destruct ((1 <=? m) && (m <? n)); [|reflexivity]. cbn. ring.
    - apply Forall_cons_iff in HP as [Pp HP], HN as [Np HN]. pose proof (prime_ge p Pp) as P2. cbn [calc_multiplicative]. destruct (Nat.ltb_spec p n); [|lia]. destruct (Nat.eqb_spec p 0); [lia|]. cbn [negb guard obind].
      destruct (cm_powers_run L n p HL Pp (S n) 1 F h HA ltac:(lia)) as (h1 & E1 & H1); [rewrite Nat.pow_1_r; lia|lia|]. rewrite Nat.pow_1_r in *. rewrite E1. cbn [obind].
      destruct (IH _ h1 H1 HP HN) as (h2 & E2 & H2). exists h2. split; [exact E2|]. apply (arr_ext L _ _ _ H2). intros m ML. cbv beta. unfold touched. destruct (Nat.leb_spec 1 m) as [M1|M1]; [|now rewrite !andb_false_r]. destruct (Nat.ltb_spec m n) as [MN|MN]; [|now rewrite !andb_false_r]. rewrite !andb_true_r. cbn [andb]. rewrite prodl_cons.
      match goal with |- mul _ (prodl ?v P) = _ => rewrite (prodl_ext v (fun q => cf F q m) P) end.
      + unfold cf at 2. destruct ((m mod p =? 0) && negb (xpart p m =? m)); ring.
      + intros q Q. assert (Pq : is_prime q) by (rewrite Forall_forall in HP; now apply HP). pose proof (prime_ge q Pq). unfold cf. destruct ((m mod q =? 0) && negb (xpart q m =? m)) eqn:B; [|reflexivity].
        destruct (prime_pow_out q m M1 ltac:(lia)) as (j & l & E & ND & L1). subst m. rewrite (xpart_pow q j l) by (assumption || lia).
        destruct (Nat.eqb_spec (q ^ j mod p) 0) as [Z0|Z0]; [|reflexivity]. cbn [andb]. destruct (Nat.eq_dec j 0) as [->|J0]. { rewrite Nat.pow_0_r in *. rewrite Nat.mod_small in Z0 by lia. lia. }
        assert (p = q). { apply (prime_divides_pow p q j); [assumption..|]. apply Nat.mod_divides in Z0 as [c Z0]; [exists c; lia|lia]. } subst q.
        replace (p ^ j) with (p ^ j * 1) at 1 2 by lia. rewrite xpart_pow; [|lia|lia|intros D; apply Nat.divide_1_r in D; lia]. rewrite Nat.mul_1_r, Nat.eqb_refl. reflexivity.
  Qed.

  (** ** the multiplicative extension *)
  Definition loc (w : nat -> T) (p m : nat) : T := if m mod p =? 0 then w (xpart p m) else one.
  Lemma loc_beyond w p m : 1 <= m < p -> loc w p m = one.
  Proof. intros H. unfold loc. rewrite Nat.mod_small by lia. destruct (Nat.eqb_spec m 0); [lia|reflexivity]. Qed.
  Lemma loc_pow w p k l : is_prime p -> 1 <= k -> 1 <= l -> ~ Nat.divide p l -> loc w p (p ^ k * l) = w (p ^ k).
  Proof. intros P K L N. pose proof (prime_ge p P). unfold loc. rewrite xpart_pow by (assumption || lia). pose proof (pow_dvd p k 1 l P N) as D. rewrite Nat.pow_1_r in D. rewrite D. destruct (Nat.leb_spec 1 k); [reflexivity|lia]. Qed.
  Lemma loc_not w p m : is_prime p -> ~ Nat.divide p m -> loc w p m = one.
  Proof. intros P N. pose proof (prime_ge p P). unfold loc. destruct (Nat.eqb_spec (m mod p) 0) as [E|E]; [|reflexivity]. elim N. apply Nat.mod_divides in E as [c E]; [exists c; lia|lia]. Qed.
  Lemma loc_mul w p a b : is_prime p -> 1 <= a -> 1 <= b -> Nat.gcd a b = 1 -> loc w p (a * b) = mul (loc w p a) (loc w p b).
  Proof.
    intros P A B G. pose proof (prime_ge p P) as P2.
    assert (H : forall x y, 1 <= x -> 1 <= y -> ~ Nat.divide p y -> loc w p (x * y) = loc w p x).
    { intros x y X Y N. destruct (prime_pow_out p x X P2) as (k & l & -> & ND & L1). rewrite <- Nat.mul_assoc. destruct (Nat.eq_dec k 0) as [->|K0].
      - rewrite Nat.pow_0_r, !Nat.mul_1_l. rewrite !loc_not; auto. intros D. apply prime_euclid in D as [|]; auto.
      - rewrite !loc_pow; auto; [lia|nia|lia|]. intros D. apply prime_euclid in D as [|]; auto. }
    destruct (Nat.eq_dec (b mod p) 0) as [E|E].
    - assert (~ Nat.divide p a). { intros D. assert (X : Nat.divide p 1); [|apply Nat.divide_1_r in X; lia]. rewrite <- G. apply Nat.gcd_greatest; [exact D|]. apply Nat.mod_divides in E as [c E]; [exists c; lia|lia]. }
      rewrite (Nat.mul_comm a b), H, (loc_not w p a) by assumption. ring.
    - assert (N : ~ Nat.divide p b). { intros [c ->]. rewrite Nat.mod_mul in E by lia. lia. } rewrite H, (loc_not w p b) by assumption. ring.
  Qed.
  Definition mext (w : nat -> T) (m : nat) : T := prodl (fun p => loc w p m) (primes_below (S m)).
  Lemma mext_wide w m N : 1 <= m < N -> mext w m = prodl (fun p => loc w p m) (primes_below N).
  Proof. intros H. unfold mext. destruct (primes_below_split N (S m) ltac:(lia)) as (R & -> & HR). rewrite prodl_app, (prodl_one _ R); [ring|]. intros p I0. rewrite Forall_forall in HR. apply loc_beyond. specialize (HR p I0). lia. Qed.
  Lemma mext_mult w : multiplicative (mext w).
  Proof.
    split; [reflexivity|]. intros a b A B G. rewrite (mext_wide w (a * b) (S (a * b))), (mext_wide w a (S (a * b))), (mext_wide w b (S (a * b))) by nia. rewrite <- prodl_mul. apply prodl_ext. intros p I0. apply primes_below_in in I0 as [_ P]. now apply loc_mul.
  Qed.
  Lemma mext_pow w p k : is_prime p -> 1 <= k -> mext w (p ^ k) = w (p ^ k).
  Proof.
    intros P K. pose proof (prime_ge p P). pose proof (pow_gt_lin p k ltac:(lia)). unfold mext. rewrite (prodl_diff (w (p ^ k)) p _ (fun _ => one)).
    - rewrite prodl_one by reflexivity. ring.
    - apply primes_below_nodup.
    - apply primes_below_in. split; [|exact P]. assert (p ^ 1 <= p ^ k) by (apply Nat.pow_le_mono_r; lia). rewrite Nat.pow_1_r in *. lia.
    - replace (p ^ k) with (p ^ k * 1) at 1 by lia. rewrite loc_pow; [ring|assumption|assumption|lia|]. intros D. apply Nat.divide_1_r in D. lia.
    - intros q I0 N. apply primes_below_in in I0 as [_ Q]. apply loc_not; [exact Q|]. intros D. apply N. now apply (prime_divides_pow q p k).
  Qed.
  Lemma mext_self E m : multiplicative E -> 1 <= m -> mext E m = E m.
  Proof. intros HE M. apply (mult_ext one mul (mext E) E (S m)); [apply mext_mult|exact HE| |lia]. intros p k P K _. now apply mext_pow. Qed.

  (** a table with the prime power values of a multiplicative function and ones elsewhere is completed *)
  Lemma calc_ok L n N E F h : n <= L -> n <= N -> is_arr L F h -> multiplicative E ->
    (forall p k, is_prime p -> 1 <= k -> p ^ k < n -> F (p ^ k) = E (p ^ k)) -> (forall m, 1 <= m < n -> ~ prime_power m -> F m = one) ->
    exists h', calc_multiplicative mul h n (primes_below N) = Some h' /\ is_arr L (fun m => if (1 <=? m) && (m <? n) then E m else F m) h'.
  Proof.
    intros HL HN HA HE HP H1. destruct (primes_below_split N n HN) as (R & -> & HR). destruct (calc_run L n HL R HR (primes_below n) F h HA) as (h' & E1 & R1).
    { apply Forall_forall. intros p I0. now apply primes_below_in in I0. } { apply Forall_forall. intros p I0. now apply primes_below_in in I0. }
    exists h'. split; [exact E1|]. apply (arr_ext L _ _ _ R1). intros m _. cbv beta. destruct (Nat.leb_spec 1 m) as [M1|M1]; [|reflexivity]. destruct (Nat.ltb_spec m n) as [MN|MN]; [|reflexivity]. cbn [andb].
    destruct (Nat.eq_dec m 1) as [->|M2].
    { rewrite H1; [|lia|]. - rewrite prodl_one; [destruct HE as [-> _]; ring|]. intros p I0. apply primes_below_in in I0 as [_ P]. pose proof (prime_ge p P). unfold cf. rewrite Nat.mod_small by lia. reflexivity.
      - intros (p & k & P & K & Q). pose proof (prime_ge p P). pose proof (pow_gt_lin p k ltac:(lia)). lia. }
    destruct (peel m ltac:(lia)) as (p & k & l & P & K & L1 & Q & ND & G & LT & PK). pose proof (prime_ge p P) as P2. destruct (Nat.eq_dec l 1) as [->|L2].
    - rewrite Nat.mul_1_r in Q. subst m. rewrite HP by assumption. rewrite prodl_one; [ring|]. intros q I0. apply primes_below_in in I0 as [_ Pq]. unfold cf. destruct (Nat.eqb_spec (p ^ k mod q) 0) as [Z0|Z0]; [|reflexivity]. cbn [andb]. pose proof (prime_ge q Pq).
      assert (q = p). { apply (prime_divides_pow q p k); [assumption..|]. apply Nat.mod_divides in Z0 as [c Z0]; [exists c; lia|lia]. } subst q. replace (p ^ k) with (p ^ k * 1) at 1 2 by lia. rewrite xpart_pow; [|lia|lia|assumption]. rewrite Nat.mul_1_r, Nat.eqb_refl. reflexivity.
    - assert (NP : forall q j, is_prime q -> m <> q ^ j). { intros q j Pq Eq. assert (p = q). { apply (prime_divides_pow p q j); [assumption..|]. rewrite <- Eq, Q. exists (p ^ (k - 1) * l). replace k with (S (k - 1)) at 1 by lia. cbn [Nat.pow]. lia. } subst q.
        assert (XX : p ^ k * l = p ^ j * 1) by lia. apply pow_unique in XX; [lia|assumption|assumption|]. intros D. apply Nat.divide_1_r in D. lia. }
      rewrite H1; [|lia|intros (q & j & Pq & _ & Eq); now apply (NP q j)]. rewrite <- (mext_self E m HE M1), (mext_wide E m n) by lia. rewrite (prodl_ext _ (fun q => loc E q m)); [ring|]. intros q I0. apply primes_below_in in I0 as [LTq Pq]. pose proof (prime_ge q Pq). unfold cf, loc. destruct (Nat.eqb_spec (m mod q) 0) as [Z0|Z0]; [|reflexivity]. cbn [andb].
      destruct (prime_pow_out q m M1 ltac:(lia)) as (j & r & Em & NDr & R0). rewrite Em at 1 2. rewrite !xpart_pow by (assumption || lia). assert (J1 : 1 <= j). { destruct j; [|lia]. elim NDr. rewrite Nat.pow_0_r, Nat.mul_1_l in Em. rewrite <- Em. apply Nat.mod_divides in Z0 as [c Z0]; [exists c; lia|lia]. }
      destruct (Nat.eqb_spec (q ^ j) (q ^ j * r)) as [E0|E0]; cbn [negb].
      + exfalso. apply (NP q j Pq). lia.
      + replace (xpart q m) with (q ^ j) by (rewrite Em, xpart_pow; (assumption || lia || reflexivity)). apply HP; [assumption..|nia].
  Qed.
End Dir.
