(** Elementary number theory: Euler's theorem, roots of polynomials modulo a prime, orders modulo prime powers. *)
From Coq Require Import Permutation.
From Verif Require Import Lib PrimesSpec PrimesProofs PrimesProofs2 PrimesProofs3.
Open Scope nat_scope.

Lemma nprod_perm a b : Permutation a b -> nprod a = nprod b.
Proof. unfold nprod. induction 1; cbn; lia. Qed.
Lemma nprod_map_mul a n l : 0 < n -> nprod (map (fun i => a * i mod n) l) mod n = a ^ length l * nprod l mod n.
Proof.
  intros Hn. unfold nprod. induction l as [|x l IH]; [reflexivity|]. cbn [map fold_right length Nat.pow]. rewrite Nat.mul_mod_idemp_l by lia. rewrite <- Nat.mul_mod_idemp_r, IH, Nat.mul_mod_idemp_r by lia. f_equal. lia.
Qed.
Lemma gcd_mod_coprime a n : 0 < n -> Nat.gcd (a mod n) n = Nat.gcd a n.
Proof. intros H. rewrite Nat.gcd_mod by lia. apply Nat.gcd_comm. Qed.
Lemma coprime_mul a b n : Nat.gcd a n = 1 -> Nat.gcd b n = 1 -> Nat.gcd (a * b) n = 1.
Proof.
  intros Ha Hb. assert (D : Nat.divide (Nat.gcd (a * b) n) b). { apply (Nat.gauss (Nat.gcd (a * b) n) a b); [apply Nat.gcd_divide_l|]. apply Nat.divide_1_r. rewrite <- Ha. apply Nat.gcd_greatest; [apply Nat.gcd_divide_r|]. etransitivity; [apply Nat.gcd_divide_l|apply Nat.gcd_divide_r]. }
  apply Nat.divide_1_r. rewrite <- Hb. apply Nat.gcd_greatest; [exact D|apply Nat.gcd_divide_r].
Qed.
Lemma coprime_nprod l n : (forall x, In x l -> Nat.gcd x n = 1) -> Nat.gcd (nprod l) n = 1.
Proof. unfold nprod. induction l as [|x l IH]; intros H; [destruct n; reflexivity|]. cbn [fold_right]. apply coprime_mul; [apply H; now left|apply IH; intros y Hy; apply H; now right]. Qed.
Lemma mod_eq_divide n x y : 0 < n -> x <= y -> (x mod n = y mod n <-> Nat.divide n (y - x)).
Proof.
  intros Hn Hxy. split.
  - intros E. exists (y / n - x / n). pose proof (Nat.div_mod x n ltac:(lia)). pose proof (Nat.div_mod y n ltac:(lia)). assert (x / n <= y / n) by (apply Nat.div_le_mono; lia). nia.
  - intros [k E]. replace y with (x + k * n) by lia. now rewrite Nat.mod_add by lia.
Qed.
Lemma cancel_mod n c x y : 0 < n -> Nat.gcd c n = 1 -> c * x mod n = c * y mod n -> x mod n = y mod n.
Proof.
  intros Hn G E. destruct (le_lt_dec x y) as [H|H].
  - apply mod_eq_divide; [exact Hn|exact H|]. apply mod_eq_divide in E; [|exact Hn|nia]. rewrite <- Nat.mul_sub_distr_l in E. apply Nat.gauss in E; [exact E|now rewrite Nat.gcd_comm].
  - symmetry. apply mod_eq_divide; [exact Hn|lia|]. symmetry in E. apply mod_eq_divide in E; [|exact Hn|nia]. rewrite <- Nat.mul_sub_distr_l in E. apply Nat.gauss in E; [exact E|now rewrite Nat.gcd_comm].
Qed.
Definition residues (n : nat) : list nat := filter (fun k => Nat.gcd k n =? 1) (seq 1 n).
Lemma residues_in n x : In x (residues n) <-> 1 <= x <= n /\ Nat.gcd x n = 1.
Proof. unfold residues. rewrite filter_In, in_seq, Nat.eqb_eq. split; intros (A & B); (split; [lia|exact B]). Qed.
(** Euler *)
Lemma euler_theorem a n : 0 < n -> Nat.gcd a n = 1 -> a ^ totient n mod n = 1 mod n.
Proof.
  intros Hn G. destruct (Nat.eq_dec n 1) as [->|N1]; [now rewrite !Nat.mod_1_r|].
  assert (Hlt : forall x, In x (residues n) -> 1 <= x < n). { intros x Hx. apply residues_in in Hx as (A & B). destruct (Nat.eq_dec x n) as [->|]; [rewrite Nat.gcd_diag in B; lia|lia]. }
  assert (P : Permutation (map (fun i => a * i mod n) (residues n)) (residues n)).
  { apply NoDup_Permutation_bis; [| |].
    - assert (Inj : forall x y, In x (residues n) -> In y (residues n) -> a * x mod n = a * y mod n -> x = y). { intros x y Hx Hy E. apply cancel_mod in E; [|exact Hn|exact G]. apply Hlt in Hx. apply Hlt in Hy. rewrite !Nat.mod_small in E by lia. exact E. }
      assert (ND : NoDup (residues n)) by (apply NoDup_filter, seq_NoDup). revert Inj ND. generalize (residues n). induction l as [|x l IH]; intros Inj ND; [constructor|]. cbn [map]. inversion ND; subst. constructor; [|apply IH; [intros u v Hu Hv; apply Inj; now right|assumption]]. intros I. apply in_map_iff in I as (y & E & Hy). apply Inj in E; [subst; contradiction|now right|now left].
    - rewrite map_length. apply le_n.
    - intros y Hy. apply in_map_iff in Hy as (x & <- & Hx). pose proof (Hlt x Hx). apply residues_in in Hx as (A & B). apply residues_in. assert (C : Nat.gcd (a * x mod n) n = 1) by (rewrite gcd_mod_coprime by exact Hn; now apply coprime_mul). split; [|exact C]. assert (a * x mod n <> 0) by (intros E; rewrite E, Nat.gcd_0_l in C; lia). pose proof (Nat.mod_upper_bound (a * x) n ltac:(lia)). lia. }
  apply nprod_perm in P. pose proof (nprod_map_mul a n (residues n) Hn) as E. rewrite P in E. change (length (residues n)) with (totient n) in E. apply (cancel_mod n (nprod (residues n))); [exact Hn|apply coprime_nprod; intros x Hx; now apply residues_in in Hx|]. rewrite Nat.mul_1_r, E. f_equal. lia.
Qed.

(** totient of a product with a new prime power *)
Lemma gcd_one_free n ps k : 0 < n -> (forall p, is_prime p -> (Nat.divide p n <-> In p ps)) -> (forall p, In p ps -> is_prime p) -> (Nat.gcd k n =? 1) = free ps k.
Proof.
  intros Hn H HP. apply eq_true_iff_eq. rewrite Nat.eqb_eq. unfold free. rewrite forallb_forall. split.
  - intros G q Hq. pose proof (HP q Hq) as P. pose proof (prime_ge q P). apply negb_true_iff. apply mod_div_false; [lia|]. intros D'. assert (X : Nat.divide q (Nat.gcd k n)) by (apply Nat.gcd_greatest; [assumption|now apply H]). rewrite G in X. apply Nat.divide_1_r in X. lia.
  - intros F. destruct (Nat.eq_dec (Nat.gcd k n) 1) as [|N]; [assumption|exfalso]. assert (Nat.gcd k n <> 0) by (intros E; apply Nat.gcd_eq_0 in E; lia). destruct (least_factor (Nat.gcd k n)) as (p & P & D & _); [lia|]. pose proof (prime_ge p P).
    assert (D1 : Nat.divide p k) by (etransitivity; [exact D|apply Nat.gcd_divide_l]). assert (D2 : Nat.divide p n) by (etransitivity; [exact D|apply Nat.gcd_divide_r]).
    specialize (F p (proj1 (H p P) D2)). apply negb_true_iff in F. apply mod_div_false in F; [contradiction|lia].
Qed.
Lemma totient_step p e m : is_prime p -> 0 < m -> ~ Nat.divide p m -> totient (p ^ S e * m) = p ^ e * (p - 1) * totient m.
Proof.
  intros P Hm N. pose proof (prime_ge p P) as Hp. set (ps := prime_divisors m). assert (Hps : forall r, In r ps <-> is_prime r /\ Nat.divide r m) by (intros r; unfold ps; rewrite prime_divisors_in; tauto).
  assert (Hpow : 0 < p ^ e) by (pose proof (Nat.pow_nonzero p e); lia).
  assert (Em : totient m = cnt (free ps) (seq 1 m)). { unfold totient, cnt. f_equal. apply filter_ext_in. intros k _. apply gcd_one_free; [exact Hm| |]; [intros r Pr; rewrite Hps; tauto|intros r Hr; now apply Hps]. }
  assert (En : totient (p ^ S e * m) = cnt (free (ps ++ [p])) (seq 1 (p * (p ^ e * m)))). { unfold totient, cnt. replace (p ^ S e * m) with (p * (p ^ e * m)) by (cbn; lia). f_equal. apply filter_ext_in. intros k _. apply gcd_one_free; [nia| |].
    - intros r Pr. rewrite in_app_iff, Hps. cbn [In]. split.
      + intros D. apply prime_euclid in D as [D|D]; [right; left; symmetry; now apply prime_divides_prime| |exact Pr]. apply prime_euclid in D as [D|D]; [right; left; symmetry; now apply (prime_divides_pow r p e)|left; auto|exact Pr].
      + intros [(_ & D)|[<-|[]]]; [apply Nat.divide_mul_r, Nat.divide_mul_r; exact D|apply Nat.divide_factor_l].
    - intros r Hr. apply in_app_or in Hr as [Hr|[<-|[]]]; [now apply Hps|exact P]. }
  rewrite En, Em, <- (free_step ps p (p ^ e * m) P).
  - replace (p * (p ^ e * m)) with (p ^ S e * m) by (cbn; lia). rewrite cnt_periodic.
    + cbn [Nat.pow]. replace (p * p ^ e * cnt (free ps) (seq 1 m)) with (p ^ e * cnt (free ps) (seq 1 m) * p) by lia. rewrite Nat.div_mul by lia. lia.
    + intros x. unfold free. assert (Hd : forall r, In r ps -> 0 < r /\ Nat.divide r m) by (intros r Hr; apply Hps in Hr as (A & B); pose proof (prime_ge r A); split; [lia|exact B]). clear - Hd. induction ps as [|r l IH]; [reflexivity|]. cbn [forallb]. destruct (Hd r (or_introl eq_refl)). rewrite mod_add_div by assumption. rewrite IH; [reflexivity|]. intros s Hs. apply Hd. now right.
  - intros r Hr. apply Hps in Hr as (A & B). split; [exact A|]. split; [intros ->; contradiction|]. apply Nat.divide_mul_r, Nat.divide_mul_r. exact B.
Qed.
Lemma totient_1 : totient 1 = 1. Proof. reflexivity. Qed.
Lemma totient_prime p : is_prime p -> totient p = p - 1.
Proof. intros P. pose proof (totient_step p 0 1 P ltac:(lia)) as H. rewrite Nat.pow_1_r, Nat.mul_1_r, totient_1 in H. rewrite H; [cbn; lia|]. intros D. apply Nat.divide_1_r in D. pose proof (prime_ge p P). lia. Qed.
Lemma totient_prime_power p e : is_prime p -> totient (p ^ S e) = p ^ e * (p - 1).
Proof. intros P. pose proof (totient_step p e 1 P ltac:(lia)) as H. rewrite Nat.mul_1_r, totient_1 in H. rewrite H; [lia|]. intros D. apply Nat.divide_1_r in D. pose proof (prime_ge p P). lia. Qed.
Lemma fermat a p : is_prime p -> ~ Nat.divide p a -> a ^ (p - 1) mod p = 1.
Proof. intros P N. pose proof (prime_ge p P). rewrite <- (totient_prime p P), euler_theorem; [apply Nat.mod_1_l; lia|lia|]. rewrite Nat.gcd_comm. now apply prime_bezout. Qed.
