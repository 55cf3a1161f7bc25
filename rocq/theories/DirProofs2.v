(** Algebra of Dirichlet convolution: associativity, multiplicativity, prime powers, Moebius inversion. *)
From Coq Require Import Ring Ring_theory Permutation.
From Verif Require Import Lib RingSpec RingProofs PrimesSpec PrimesModel PrimesProofs PrimesProofs2 PrimesProofs3 PrimesProofs4 DivisorsProofs DivisorsProofs2 PiProofs OrderProofs6 DirSpec DirProofs.
From Coq Require Import Arith Lia.
Open Scope nat_scope.

Lemma prime_pow_out p n : 1 <= n -> 2 <= p -> exists k l, n = p ^ k * l /\ ~ Nat.divide p l /\ 1 <= l.
Proof. intros H P. destruct (divide_out_run n p 0 H P) as (l & k & _ & E & N). exists k, l. split; [exact E|]. split; [exact N|]. destruct l; [elim N; exists 0; lia|lia]. Qed.
Lemma peel n : 2 <= n -> exists p k l, is_prime p /\ 1 <= k /\ 1 <= l /\ n = p ^ k * l /\ ~ Nat.divide p l /\ Nat.gcd (p ^ k) l = 1 /\ l < n /\ 1 <= p ^ k.
Proof.
  intros H. destruct (least_factor n H) as (p & P & D & _). pose proof (prime_ge p P). destruct (prime_pow_out p n ltac:(lia) ltac:(lia)) as (k & l & E & N & L). exists p, k, l.
  assert (K : 1 <= k). { destruct k; [|lia]. elim N. rewrite Nat.pow_0_r, Nat.mul_1_l in E. now rewrite <- E. }
  repeat (split; [assumption|]). split; [now apply coprime_pow_nat|]. pose proof (pow_gt_lin p k ltac:(lia)). split; [nia|lia].
Qed.
Lemma divisor_bounds n d : 1 <= n -> Nat.divide d n -> 1 <= d <= n /\ 1 <= n / d /\ n = d * (n / d).
Proof. intros H [c ->]. destruct d; [lia|]. rewrite Nat.div_mul by lia. destruct c; nia. Qed.

Lemma nodup_app {A} (a b : list A) : NoDup a -> NoDup b -> (forall x, In x a -> ~ In x b) -> NoDup (a ++ b).
Proof.
  induction a as [|x a IH]; cbn [app]; intros Na Nb D; [exact Nb|]. apply NoDup_cons_iff in Na as [N Na]. constructor; [|apply IH; auto; intros y Y; apply D; now right]. rewrite in_app_iff. intros [I0|I0]; [auto|]. exact (D x (or_introl eq_refl) I0).
Qed.
Section Dir.
  Context {T : Type} (zero one : T) (add mul sub : T -> T -> T) (opp : T -> T).
  Hypothesis Rth : ring_theory zero one add mul sub opp (@eq T).
  Add Ring Tr : Rth.
  Notation rsum := (rsum zero add).
  Notation dirichlet := (dirichlet zero add mul).
  Notation suml := (sum_list zero add).
  Notation term := (term zero mul).
  Notation multiplicative := (multiplicative one mul).
  Notation dunit := (dunit zero one).

  Lemma suml_perm a b : Permutation a b -> suml a = suml b.
  Proof. unfold sum_list. induction 1; cbn [fold_right]; try congruence; ring. Qed.
  Lemma suml_app a b : suml (a ++ b) = add (suml a) (suml b).
  Proof. unfold sum_list. induction a as [|x a IH]; cbn [app fold_right]; [ring|]. rewrite IH. ring. Qed.
  Lemma suml_mul c l : suml (map (mul c) l) = mul c (suml l).
  Proof. unfold sum_list. induction l as [|x l IH]; cbn [map fold_right]; [ring|]. rewrite IH. ring. Qed.
  Lemma suml_map_mul {A} c (w : A -> T) l : suml (map (fun x => mul c (w x)) l) = mul c (suml (map w l)).
  Proof. rewrite <- suml_mul, map_map. reflexivity. Qed.
  Lemma suml_prod {A B} (u : A -> T) (v : B -> T) la lb : suml (map (fun '(x, y) => mul (u x) (v y)) (list_prod la lb)) = mul (suml (map u la)) (suml (map v lb)).
  Proof.
    induction la as [|x la IH]; cbn [list_prod map]; [unfold sum_list; cbn; ring|]. rewrite map_app, suml_app, IH, map_map. rewrite suml_map_mul. unfold sum_list at 4. cbn [fold_right]. fold (suml (map u la)). ring.
  Qed.
  Lemma suml_seq w n : suml (map w (seq 0 n)) = rsum n w.
  Proof. induction n as [|n IH]; [reflexivity|]. rewrite seq_S, map_app, suml_app, IH. cbn [RingSpec.rsum map Nat.add]. unfold sum_list. cbn [fold_right]. ring. Qed.

  (** ** the convolution is commutative, associative, and has a unit *)
  Lemma dirichlet_comm f g n : 1 <= n -> dirichlet f g n = dirichlet g f n.
  Proof.
    intros H. unfold DirSpec.dirichlet. symmetry. rewrite <- (suml_perm (map (fun d => mul (g d) (f (n / d))) (map (fun d => n / d) (divisors_of n)))).
    - rewrite map_map. f_equal. apply map_ext_in. intros d D. apply divisors_of_in in D; [|lia]. destruct (divisor_bounds n d H D) as (A & B & C). replace (n / (n / d)) with d; [ring|]. apply Nat.div_unique with 0; nia.
    - apply Permutation_map, NoDup_Permutation.
      + assert (G : forall l, NoDup l -> (forall d, In d l -> Nat.divide d n) -> NoDup (map (fun d => n / d) l)). { induction l as [|d l IH]; cbn; intros ND A; [constructor|]. apply NoDup_cons_iff in ND as [N ND]. constructor; [|apply IH; auto]. rewrite in_map_iff. intros (e & E & I0). apply N. destruct (divisor_bounds n d H (A d (or_introl eq_refl))) as (_ & B & C). destruct (divisor_bounds n e H (A e (or_intror I0))) as (_ & B' & C'). rewrite E in C'. assert (d = e) by nia. now subst. }
        apply G; [apply NoDup_filter, seq_NoDup|]. intros d D. now apply divisors_of_in in D; [|lia].
      + apply NoDup_filter, seq_NoDup.
      + intros x. rewrite in_map_iff. split.
        * intros (d & <- & D). apply divisors_of_in in D; [|lia]. destruct (divisor_bounds n d H D) as (_ & _ & C). apply divisors_of_in; [lia|]. exists d. lia.
        * intros X. apply divisors_of_in in X; [|lia]. destruct (divisor_bounds n x H X) as (A & B & C). exists (n / x). split; [symmetry; apply Nat.div_unique with 0; nia|]. apply divisors_of_in; [lia|]. exists x. lia.
  Qed.
  Lemma dirichlet_unit_r f n : 1 <= n -> dirichlet f dunit n = f n.
  Proof.
    intros H. rewrite (dirichlet_rsum zero one add mul sub opp Rth). rewrite (rsum_single zero one add mul sub opp Rth n _ (n - 1)); [|lia|].
    - unfold DirProofs.term, DirSpec.dunit. replace (S (n - 1)) with n by lia. rewrite Nat.mod_same, Nat.div_same by lia. cbn [Nat.eqb]. ring.
    - intros i I0 N. unfold DirProofs.term, DirSpec.dunit. destruct (Nat.eqb_spec (n mod S i) 0) as [E|E]; [|reflexivity]. apply Nat.mod_divides in E as [c E]; [|lia]. destruct (Nat.eqb_spec (n / S i) 1) as [Q|Q]; [|ring]. rewrite E, Nat.mul_comm, Nat.div_mul in Q by lia. subst c. lia.
  Qed.
  Lemma dirichlet_assoc f g h n : 1 <= n -> dirichlet (dirichlet f g) h n = dirichlet f (dirichlet g h) n.
  Proof.
    intros H. rewrite !(dirichlet_rsum zero one add mul sub opp Rth).
    transitivity (rsum n (fun k => rsum n (fun j => if n mod S k =? 0 then mul (term f g (S k) j) (h (n / S k)) else zero))).
    { apply (rsum_ext zero add). intros k K. unfold DirProofs.term at 1. destruct (n mod S k =? 0) eqn:E.
      - rewrite (dirichlet_wide zero one add mul sub opp Rth f g (S k) n) by lia. symmetry. apply (rsum_mul_r zero one add mul sub opp Rth).
      - symmetry. apply (rsum_zero zero one add mul sub opp Rth). reflexivity. }
    rewrite (rsum_swap zero one add mul sub opp Rth). apply (rsum_ext zero add). intros j J. unfold DirProofs.term at 2. destruct (Nat.eqb_spec (n mod S j) 0) as [E|E].
    - apply Nat.mod_divides in E as [c E]; [|lia]. assert (QE : n / S j = c) by (rewrite E, Nat.mul_comm, Nat.div_mul; lia). rewrite QE. assert (C1 : 1 <= c) by (destruct c; lia).
      rewrite (dirichlet_rsum zero one add mul sub opp Rth). rewrite <- (rsum_mul_l zero one add mul sub opp Rth).
      set (Hf := fun i => if i =? 0 then zero else mul (f (S j)) (term g h c (i - 1))).
      transitivity (RingSpec.rsum zero add (S n) (fun k => if k mod S j =? 0 then Hf (k / S j) else zero)).
      + rewrite (rsum_S_l zero one add mul sub opp Rth). rewrite Nat.mod_0_l, Nat.div_0_l by lia. cbn [Nat.eqb]. unfold Hf at 1. cbn [Nat.eqb].
        match goal with |- ?a = add zero ?b => transitivity b; [|ring] end. apply (rsum_ext zero add). intros k K. unfold DirProofs.term at 1. destruct (Nat.eqb_spec (S k mod S j) 0) as [M|M].
        * apply Nat.mod_divides in M as [b M]; [|lia]. assert (B1 : 1 <= b) by (destruct b; lia). assert (SKJ : S k / S j = b) by (rewrite M, (Nat.mul_comm (S j) b), Nat.div_mul; lia).
          assert (NQ : n / S k = c / b) by (rewrite M, E; apply Nat.div_mul_cancel_l; lia). assert (NM : (n mod S k =? 0) = (c mod b =? 0)). { rewrite M, E, Nat.mul_mod_distr_l by lia. destruct (Nat.eqb_spec (c mod b) 0) as [Z0|Z0]; destruct (Nat.eqb_spec (S j * (c mod b)) 0) as [Z1|Z1]; nia. }
          rewrite NQ, NM, SKJ. unfold Hf. destruct (Nat.eqb_spec b 0); [lia|]. unfold DirProofs.term. replace (S (b - 1)) with b by lia. destruct (c mod b =? 0); ring.
        * destruct (n mod S k =? 0); ring.
      + rewrite (rsum_multiples zero one add mul sub opp Rth) by lia. rewrite QE. rewrite (rsum_S_l zero one add mul sub opp Rth). unfold Hf at 1. cbn [Nat.eqb]. match goal with |- add zero ?b = _ => transitivity b; [ring|] end. apply (rsum_ext zero add). intros i I0. unfold Hf. cbn [Nat.eqb]. replace (S i - 1) with i by lia. reflexivity.
    - apply (rsum_zero zero one add mul sub opp Rth). intros k K. destruct (Nat.eqb_spec (n mod S k) 0) as [M|M]; [|reflexivity]. unfold DirProofs.term. destruct (Nat.eqb_spec (S k mod S j) 0) as [M1|M1]; [|ring]. exfalso. apply E.
      apply Nat.mod_divides in M as [a M]; [|lia]. apply Nat.mod_divides in M1 as [b M1]; [|lia]. rewrite M, M1. rewrite <- Nat.mul_assoc, Nat.mul_comm. apply Nat.mod_mul. lia.
  Qed.

  (** ** multiplicative functions *)
  Lemma divisors_coprime a b : 1 <= a -> 1 <= b -> Nat.gcd a b = 1 -> Permutation (map (fun '(x, y) => x * y) (list_prod (divisors_of a) (divisors_of b))) (divisors_of (a * b)).
  Proof.
    intros A B G. assert (CC : forall x y, Nat.divide x a -> Nat.divide y b -> Nat.gcd x y = 1). { intros x y X Y. apply Nat.divide_1_r. rewrite <- G. apply Nat.gcd_greatest; (etransitivity; [|eassumption]); [apply Nat.gcd_divide_l|apply Nat.gcd_divide_r]. }
    apply NoDup_Permutation.
    - assert (INJ : forall x y x' y', In x (divisors_of a) -> In y (divisors_of b) -> In x' (divisors_of a) -> In y' (divisors_of b) -> x * y = x' * y' -> x = x' /\ y = y').
      { intros x y x' y' X Y X' Y' E. apply divisors_of_in in X, X'; [|lia..]. apply divisors_of_in in Y, Y'; [|lia..].
        assert (Nat.divide x x'). { apply (Nat.gauss x y' x'); [rewrite Nat.mul_comm, <- E; exists y; lia|now apply CC]. }
        assert (Nat.divide x' x). { apply (Nat.gauss x' y x); [rewrite Nat.mul_comm, E; exists y'; lia|now apply CC]. }
        assert (x = x') by (now apply Nat.divide_antisym). subst x'. destruct (divisor_bounds a x A X) as (X1 & _). nia. }
      assert (Gn : forall la lb, NoDup la -> NoDup lb -> (forall x, In x la -> In x (divisors_of a)) -> (forall y, In y lb -> In y (divisors_of b)) -> NoDup (map (fun '(x, y) => x * y) (list_prod la lb))).
      { induction la as [|x la IH]; intros lb ND1 ND2 I1 I2; cbn [list_prod map]; [constructor|]. apply NoDup_cons_iff in ND1 as [N ND1]. rewrite map_app, map_map.
        assert (ND3 : NoDup (map (fun y => x * y) lb)). { clear IH. induction lb as [|y lb IHb]; cbn; [constructor|]. apply NoDup_cons_iff in ND2 as [M ND2]. constructor; [|apply IHb; auto; intros; apply I2; now right]. rewrite in_map_iff. intros (y' & E & J). apply M. destruct (INJ x y' x y) as [_ ->]; auto; [apply I1; now left|apply I2; now right|apply I1; now left|apply I2; now left]. }
        apply nodup_app; [exact ND3|apply IH; auto; intros; apply I1; now right|].
        intros z. rewrite !in_map_iff. intros (y & <- & J) ([x' y'] & E & K). apply in_prod_iff in K as [K1 K2]. apply N. destruct (INJ x' y' x y) as [<- _]; auto; [apply I1; now right|apply I1; now left]. }
      apply Gn; auto; apply NoDup_filter, seq_NoDup.
    - apply NoDup_filter, seq_NoDup.
    - intros z. rewrite in_map_iff. rewrite divisors_of_in by nia. split.
      + intros ([x y] & <- & K). apply in_prod_iff in K as [K1 K2]. apply divisors_of_in in K1, K2; [|lia..]. destruct K1 as [c1 ->], K2 as [c2 ->]. exists (c1 * c2). lia.
      + intros Z0. set (x := Nat.gcd z a). assert (X0 : x <> 0) by (unfold x; intros E; apply Nat.gcd_eq_0_r in E; lia). exists (x, z / x). destruct (Nat.gcd_divide_l z a) as [c C]. fold x in C. assert (ZX : z / x = c) by (rewrite C, Nat.div_mul; lia). rewrite ZX. split; [lia|]. apply in_prod_iff. split; [apply divisors_of_in; [lia|apply Nat.gcd_divide_r]|]. apply divisors_of_in; [lia|].
        destruct (Nat.gcd_divide_r z a) as [e E]. fold x in E. apply (Nat.gauss c e b).
        * destruct Z0 as [w W]. exists w. rewrite E, C in W. apply (Nat.mul_cancel_r _ _ x X0). lia.
        * assert (GG : Nat.gcd (z / x) (a / x) = 1) by (apply Nat.gcd_div_gcd; [exact X0|reflexivity]). rewrite ZX in GG. rewrite E, Nat.div_mul in GG by exact X0. exact GG.
  Qed.
  Lemma dirichlet_mult f g : multiplicative f -> multiplicative g -> multiplicative (dirichlet f g).
  Proof.
    intros [F1 Fm] [G1 Gm]. split.
    - unfold DirSpec.dirichlet, divisors_of, sum_list. cbn. rewrite F1, G1. ring.
    - intros a b A B G. unfold DirSpec.dirichlet at 1. rewrite <- (suml_perm _ _ (Permutation_map _ (divisors_coprime a b A B G))). unfold DirSpec.dirichlet. rewrite <- suml_prod, map_map. f_equal. apply map_ext_in. intros [x y] K. apply in_prod_iff in K as [K1 K2]. apply divisors_of_in in K1, K2; [|lia..].
      destruct (divisor_bounds a x A K1) as (X1 & X2 & X3), (divisor_bounds b y B K2) as (Y1 & Y2 & Y3).
      assert (CC : forall u v, Nat.divide u a -> Nat.divide v b -> Nat.gcd u v = 1). { intros u v U V. apply Nat.divide_1_r. rewrite <- G. apply Nat.gcd_greatest; (etransitivity; [|eassumption]); [apply Nat.gcd_divide_l|apply Nat.gcd_divide_r]. }
      rewrite Fm by (try lia; now apply CC). replace (a * b / (x * y)) with (a / x * (b / y)) by (apply Nat.div_unique with 0; nia).
      rewrite Gm; [ring|lia|lia|]. apply CC; [exists x|exists y]; lia.
  Qed.
  Lemma mult_ext f g n : multiplicative f -> multiplicative g -> (forall p k, is_prime p -> 1 <= k -> p ^ k < n -> f (p ^ k) = g (p ^ k)) -> forall i, 1 <= i < n -> f i = g i.
  Proof.
    intros [F1 Fm] [G1 Gm] H. induction i as [i IH] using lt_wf_ind. intros I0. destruct (Nat.eq_dec i 1) as [->|N]; [congruence|]. destruct (peel i ltac:(lia)) as (p & k & l & P & K & L & E & ND & G & LT & Q).
    rewrite E, Fm, Gm by assumption. rewrite (IH l) by lia. rewrite H; [reflexivity|assumption..|nia].
  Qed.
  Lemma divisors_pow p k : is_prime p -> Permutation (map (fun j => p ^ j) (seq 0 (S k))) (divisors_of (p ^ k)).
  Proof.
    intros P. pose proof (prime_ge p P). pose proof (PrimesProofs4.pow_pos p k ltac:(lia)). apply NoDup_Permutation.
    - apply FinFun.Injective_map_NoDup; [|apply seq_NoDup]. intros x y E. apply (Nat.pow_inj_r p); lia.
    - apply NoDup_filter, seq_NoDup.
    - intros d. rewrite in_map_iff, divisors_of_in by lia. split.
      + intros (j & <- & J). apply in_seq in J. exists (p ^ (k - j)). rewrite <- Nat.pow_add_r. f_equal. lia.
      + intros D. destruct (pow_split p k 1 d P ltac:(lia)) as [S0 _]. { intros D1. apply Nat.divide_1_r in D1. lia. } destruct S0 as (a & x & A & X & ->); [now rewrite Nat.mul_1_r|]. apply Nat.divide_1_r in X. subst x. exists a. split; [lia|]. apply in_seq. lia.
  Qed.
  Lemma dirichlet_pow f g p k : is_prime p -> dirichlet f g (p ^ k) = rsum (S k) (fun j => mul (f (p ^ j)) (g (p ^ (k - j)))).
  Proof.
    intros P. pose proof (prime_ge p P). unfold DirSpec.dirichlet. rewrite <- (suml_perm _ _ (Permutation_map _ (divisors_pow p k P))). rewrite map_map, suml_seq. apply (rsum_ext zero add). intros j J. f_equal. f_equal. pose proof (PrimesProofs4.pow_pos p j ltac:(lia)). symmetry. apply Nat.div_unique with 0; [lia|]. rewrite Nat.add_0_r, <- Nat.pow_add_r. f_equal. lia.
  Qed.
  Lemma mult_unit : multiplicative dunit.
  Proof.
    split; [reflexivity|]. intros a b A B G. unfold DirSpec.dunit. destruct (Nat.eqb_spec a 1) as [->|NA].
    - rewrite Nat.mul_1_l. ring.
    - destruct (Nat.eqb_spec (a * b) 1); [nia|]. ring.
  Qed.
  Lemma mult_ones : multiplicative (fun _ => one).
  Proof. split; [reflexivity|]. intros. ring. Qed.

  (** ** Moebius *)
  Notation zr := (zring zero one add opp).
  Definition mu (n : nat) : T := zr (mobius n).
  Lemma zr_opp z : zr (- z) = opp (zr z).
  Proof. destruct z; cbn [zring Z.opp]; [ring|reflexivity|ring]. Qed.
  Lemma mu_1 : mu 1 = one.
  Proof. unfold mu. change (mobius 1) with 1%Z. unfold zring. change (Pos.to_nat 1) with 1. cbn [rnat]. ring. Qed.
  Lemma mu_mult : multiplicative mu.
  Proof.
    split; [exact mu_1|]. induction a as [a IH] using lt_wf_ind. intros b A B G. destruct (Nat.eq_dec a 1) as [->|N]. { rewrite mu_1, Nat.mul_1_l. ring. }
    destruct (least_factor a ltac:(lia)) as (p & P & [c C] & _). pose proof (prime_ge p P). assert (C1 : 1 <= c) by (destruct c; lia). rewrite (Nat.mul_comm c p) in C. subst a.
    assert (PB : ~ Nat.divide p b). { intros D. assert (Nat.divide p 1); [|apply Nat.divide_1_r in H0; lia]. rewrite <- G. apply Nat.gcd_greatest; [exists c; lia|exact D]. }
    assert (CB : Nat.gcd c b = 1). { apply Nat.divide_1_r. rewrite <- G. apply Nat.gcd_greatest; [|apply Nat.gcd_divide_r]. etransitivity; [apply Nat.gcd_divide_l|]. exists p. lia. }
    rewrite <- Nat.mul_assoc. destruct (Nat.eq_dec (c mod p) 0) as [D|D].
    - assert (DC : Nat.divide p c) by (apply Nat.mod_divides in D as [e D]; [exists e; lia|lia]). unfold mu. rewrite (mobius_sq p c), (mobius_sq p (c * b)); [cbn; ring|exact P|nia| |exact P|lia|exact DC]. destruct DC as [e ->]. exists (e * b). lia.
    - assert (DC : ~ Nat.divide p c) by (intros [e ->]; rewrite Nat.mod_mul in D by lia; lia). specialize (IH c ltac:(nia) b C1 B CB). unfold mu in *. rewrite (mobius_mul p c), (mobius_mul p (c * b)), !zr_opp, IH; [ring|exact P|nia| |exact P|lia|exact DC]. intros D1. apply prime_euclid in D1 as [|]; auto.
  Qed.
  Lemma mu_sum n : 1 <= n -> dirichlet (fun _ => one) mu n = dunit n.
  Proof.
    intros H. rewrite dirichlet_comm by exact H. apply (mult_ext (dirichlet mu (fun _ => one)) dunit (S n)); [apply dirichlet_mult; [exact mu_mult|exact mult_ones]|exact mult_unit| |lia].
    intros p k P K _. pose proof (prime_ge p P). rewrite dirichlet_pow by exact P. replace (S k) with (S (S (k - 1))) by lia. rewrite !(rsum_S_l zero one add mul sub opp Rth). rewrite (rsum_zero zero one add mul sub opp Rth).
    - rewrite Nat.pow_0_r, Nat.pow_1_r, mu_1. assert (MP : mu p = opp one). { unfold mu. replace p with (p * 1) by lia. rewrite mobius_mul; [rewrite zr_opp; change (zr (mobius 1)) with (mu 1); now rewrite mu_1|exact P|lia|]. intros D. apply Nat.divide_1_r in D. lia. }
      rewrite MP. unfold DirSpec.dunit. destruct (Nat.eqb_spec (p ^ k) 1) as [E|_]; [pose proof (pow_gt_lin p k ltac:(lia)); lia|]. ring.
    - intros j J. replace (mu (p ^ S (S j))) with zero; [ring|]. unfold mu. cbn [Nat.pow]. rewrite mobius_sq; [reflexivity|exact P|pose proof (PrimesProofs4.pow_pos p j ltac:(lia)); nia|]. exists (p ^ j). lia.
  Qed.
  Lemma moebius_inversion f F n : (forall i, 1 <= i <= n -> dirichlet F (fun _ => one) i = f i) -> 1 <= n -> F n = dirichlet f mu n.
  Proof.
    intros H N. rewrite (dirichlet_ext zero one add mul sub opp Rth f mu (dirichlet F (fun _ => one)) mu n N); [|intros i I0; symmetry; now apply H|reflexivity]. rewrite dirichlet_assoc by exact N.
    rewrite (dirichlet_ext zero one add mul sub opp Rth F _ F dunit n N); [symmetry; now apply dirichlet_unit_r|reflexivity|]. intros i I0. apply mu_sum. lia.
  Qed.
End Dir.
