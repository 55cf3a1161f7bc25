(** Property C22: divisors, totient, Carmichael function and signed divisors from a factorisation; digits of a number. *)
From Coq Require Import Permutation Sorted.
From Verif Require Import Lib BaseModel PrimesSpec DivisorsModel DivisorsSpec PrimesProofs DivisorsProofs DivisorsProofs2 DivisorsProofs3.
Open Scope nat_scope.

(** every divisor of n not above maxd (any divisor when maxd is 0) is appended exactly once; earlier entries stay *)
Theorem C22_divisors : forall n vf maxd vd, factorisation n vf -> exists l, divisors vd vf maxd 1 = Some (vd ++ l) /\ NoDup l /\ (forall d, In d l <-> Nat.divide d n /\ (maxd = 0 \/ d <= maxd)).
Proof.
  intros n vf maxd vd F. destruct (divisors_perm n vf maxd vd F) as (l & E & P). exists l. split; [exact E|]. split.
  - eapply Permutation_NoDup; [apply Permutation_sym; exact P|]. apply NoDup_filter, NoDup_filter, seq_NoDup.
  - intros d. split.
    + intros H. apply (Permutation_in _ P) in H. apply filter_In in H as (H & B). split; [apply divisors_of_in; [now apply (fact_pos n vf)|exact H]|]. apply orb_prop in B as [B|B]; [left; now apply Nat.eqb_eq|right; now apply Nat.leb_le].
    + intros (D & B). apply (Permutation_in _ (Permutation_sym P)). apply filter_In. split; [apply divisors_of_in; [now apply (fact_pos n vf)|exact D]|]. apply orb_true_iff. destruct B as [B|B]; [left; now apply Nat.eqb_eq|right; now apply Nat.leb_le].
Qed.
(** the vector version, for any sort that returns a sorted permutation: the divisors in increasing order *)
Theorem C22_divisors_sorted : forall sort, (forall l, Permutation l (sort l) /\ LocallySorted le (sort l)) -> forall n vf maxd, factorisation n vf ->
  divisors_sorted sort vf maxd = Some (filter (fun d => (maxd =? 0) || (d <=? maxd)) (divisors_of n)).
Proof.
  intros sort HS n vf maxd F. destruct (divisors_perm n vf maxd [] F) as (l & E & P). unfold divisors_sorted. rewrite E. cbn [obind app]. f_equal. symmetry. destruct (HS l) as (P' & S). apply sorted_perm_unique; [eapply Permutation_trans; [apply Permutation_sym; exact P|exact P']| |exact S]. apply filter_sorted, filter_sorted, seq_sorted.
Qed.
Theorem C22_divisors_of : forall n d, 0 < n -> (In d (divisors_of n) <-> Nat.divide d n).
Proof. exact divisors_of_in. Qed.
Theorem C22_sigma0 : forall n vf, factorisation n vf -> sigma0_of vf = Z.of_nat (length (divisors_of n)).
Proof. intros n vf. apply sigma0_run. Qed.
(** the number of k in [1, n] coprime to n *)
Theorem C22_euler_phi : forall n vf, factorisation n vf -> phi_of vf = Some (Z.of_nat (totient n)).
Proof. intros n vf. apply phi_run. Qed.
(** the least positive exponent with a^L = 1 modulo n for all a coprime to n; the other such exponents are its multiples *)
Theorem C22_carmichael : forall n vf, factorisation n vf -> exists L, lambda_of vf = Some (Z.of_nat L) /\ 0 < L /\ forall M, universal_exponent n M <-> Nat.divide L M.
Proof.
  intros n vf F. destruct (lambda_run vf n F) as (L & E & (HL & X)). exists (Z.to_nat L). rewrite E, Z2Nat.id by lia. split; [reflexivity|]. split; [lia|]. intros M. rewrite (univ_iff n M (fact_pos n vf F)), X, NumTheory2.divide_nat, Z2Nat.id by lia. reflexivity.
Qed.
Theorem C22_carmichael_least : forall n vf, factorisation n vf -> exists L, lambda_of vf = Some (Z.of_nat L) /\ 0 < L /\ universal_exponent n L /\ forall M, 0 < M -> universal_exponent n M -> L <= M.
Proof.
  intros n vf F. destruct (C22_carmichael n vf F) as (L & E & HL & X). exists L. split; [exact E|]. split; [exact HL|]. split; [apply X, Nat.divide_refl|]. intros M HM U. apply X in U. now apply Nat.divide_pos_le.
Qed.
(** mu(d) d for every divisor d of n without a square factor, each once *)
Theorem C22_signed_divisors : forall n vf vd, factorisation n vf -> exists l, squarefree_signed_divisors vd vf 1 = vd ++ l /\
  Permutation l (map (fun d => mobius d * Z.of_nat d)%Z (filter (fun d => negb (mobius d =? 0)%Z) (divisors_of n))).
Proof. exact signed_perm. Qed.
(** prime factors and exponents *)
Theorem C22_prime_factors : forall n vf, factorisation n vf -> NoDup (prime_factors vf) /\ (forall p, In p (prime_factors vf) <-> is_prime p /\ Nat.divide p n) /\
  product (combine (prime_factors vf) (prime_exponents vf)) = n.
Proof.
  intros n vf F. unfold prime_factors, prime_exponents. split; [apply F|]. split.
  - intros p. split.
    + intros H. apply in_map_iff in H as ([q e] & <- & H). cbn [fst]. split; [apply F in H; apply H|]. revert n F. induction vf as [|[r f] vf IH]; intros n F; [destruct H|]. apply fact_cons in F as (P & He & N & F & -> & Pos). destruct H as [E|H]; [injection E as <- <-; apply Nat.divide_mul_l; destruct f; [lia|]; apply Nat.divide_factor_l|]. apply Nat.divide_mul_r. now apply IH.
    + intros (P & D). revert n F D. induction vf as [|[r f] vf IH]; intros n F D; [destruct F as (E & _); cbn in E; subst; apply Nat.divide_1_r in D; destruct P; lia|]. apply fact_cons in F as (P' & He & N & F & -> & Pos). cbn [map fst]. apply prime_euclid in D as [D|D]; [left; apply prime_divides_pow in D; [now symmetry in D|exact P|exact P']|right; now apply (IH _ F)|exact P].
  - destruct F as (E & _). rewrite <- E. f_equal. clear. induction vf as [|[p e] vf IH]; [reflexivity|]. cbn. now rewrite IH.
Qed.
(** digits in base b >= 2: they are digits, their value is n, at least len of them, and no leading zero beyond len *)
Theorem C22_digits : forall n b len, (0 <= n)%Z -> (2 <= b)%Z -> exists vd, integer_digits n b len = Some vd /\ value b vd = n /\ Forall (fun x => 0 <= x < b)%Z vd /\ (len <= Z.of_nat (length vd))%Z /\
  ((len < Z.of_nat (length vd))%Z -> vd <> [] -> last vd 0%Z <> 0%Z).
Proof.
  intros n b len Hn Hb. destruct (integer_digits_run n b len Hb) as (vd & E & V & D & L & Z). exists vd. rewrite from_digits_value, Z.max_l in V by lia. repeat split; auto. intros H H'. apply Z; [destruct vd; [congruence|cbn; lia]|exact H].
Qed.
(** from_digits is the value, for any digits and base; digit sequences of one length are determined by their value *)
Theorem C22_from_digits : forall vd b, from_digits vd b = value b vd.
Proof. exact from_digits_value. Qed.
Theorem C22_digits_unique : forall b u v, (2 <= b)%Z -> length u = length v -> Forall (fun x => 0 <= x < b)%Z u -> Forall (fun x => 0 <= x < b)%Z v -> value b u = value b v -> u = v.
Proof. intros b u v Hb. now apply value_unique. Qed.
(** the string: most significant digit first, digits 0-9a-z *)
Theorem C22_string : forall n b len, (2 <= b <= 36)%Z -> exists vd, integer_digits n b len = Some vd /\ integer_string n b len = Some (map digit_char (rev vd)).
Proof.
  intros n b len Hb. destruct (integer_digits_run n b len ltac:(lia)) as (vd & E & _ & D & _). exists vd. split; [exact E|]. unfold integer_string. rewrite E. cbn [obind]. rewrite string_run by (eapply Forall_impl; [|exact D]; cbv beta; lia). f_equal. apply map_ext_in. intros x Hx. apply digit_char_table. apply in_rev in Hx. rewrite Forall_forall in D. specialize (D x Hx). lia.
Qed.
(** the string of 0 without padding is empty, not "0" *)
Theorem C22_string_zero_refuted : forall b, (2 <= b)%Z -> integer_string 0 b 0 = Some [].
Proof. reflexivity. Qed.
(** base 37 and above: digit 36 becomes the terminating NUL, larger ones read past the table *)
Theorem C22_string_base_refuted : integer_string 36 37 0 = Some [0%Z] /\ integer_string 37 38 0 = None.
Proof. split; reflexivity. Qed.
(** base 1: the first division leaves n unchanged, so no number of turns ends the loop *)
Theorem C22_digits_base_one_refuted : forall n fuel, (0 < n)%Z -> forall vd,
  loopZ fuel (fun '(t, vd) => if (0 <? t)%Z then (let* q := cdiv t 1 in let* r := cmod t 1 in Some (inl (q, vd ++ [r]))) else Some (inr vd)) (n, vd) = @None (list Z).
Proof. exact base_one_runs. Qed.

Example C22_fact_360 : factorisation 360 [(2, 3); (3, 2); (5, 1)].
Proof.
  split; [reflexivity|]. split; [repeat constructor; cbn; lia|]. intros p e H. assert (X : forallb (fun '(p, e) => primeb p && (1 <=? e)) [(2, 3); (3, 2); (5, 1)] = true) by reflexivity. rewrite forallb_forall in X. specialize (X _ H). cbn in X. apply andb_prop in X as (A & B). split; [now apply primeb_spec|now apply Nat.leb_le].
Qed.
Example C22_case : lambda_of [(2, 3); (3, 2); (5, 1)] = Some 12%Z /\ phi_of [(2, 3); (3, 2); (5, 1)] = Some 96%Z /\ sigma0_of [(2, 3); (3, 2); (5, 1)] = 24%Z /\
  option_map (@length nat) (divisors [] [(2, 3); (3, 2); (5, 1)] 20 1) = Some 13 /\ squarefree_signed_divisors [] [(2, 3); (3, 2); (5, 1)] 1 = [1; -5; -3; 15; -2; 10; 6; -30]%Z.
Proof. repeat split. Qed.
Example C22_string_case : integer_string 48879 16 6 = Some [48; 48; 98; 101; 101; 102]%Z /\ integer_digits 48879 16 0 = Some [15; 14; 14; 11]%Z.
Proof. split; vm_compute; reflexivity. Qed.

Print Assumptions C22_divisors.
Print Assumptions C22_divisors_sorted.
Print Assumptions C22_divisors_of.
Print Assumptions C22_sigma0.
Print Assumptions C22_euler_phi.
Print Assumptions C22_carmichael.
Print Assumptions C22_carmichael_least.
Print Assumptions C22_signed_divisors.
Print Assumptions C22_prime_factors.
Print Assumptions C22_digits.
Print Assumptions C22_from_digits.
Print Assumptions C22_digits_unique.
Print Assumptions C22_string.
Print Assumptions C22_string_zero_refuted.
Print Assumptions C22_string_base_refuted.
Print Assumptions C22_digits_base_one_refuted.
