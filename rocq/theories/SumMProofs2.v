(** Counting squarefree numbers; the Moebius function on odd and even numbers; sums of totients. *)
From Coq Require Import Ring Ring_theory Arith Lia.
From Verif Require Import Lib BaseModel RingSpec RingProofs PrimesSpec PrimesProofs PrimesProofs2 PrimesProofs3 PrimesProofs4 DivisorsProofs NumTheory DirSpec DirModel DirProofs DirProofs2 DirProofs5 DirProofs6 PiProofs PiProofs2 LohiModel LohiSpec LohiProofs SumMSpec SumMModel SumMProofs.
Open Scope nat_scope.

(** every number is a square times a squarefree number, in one way *)
Lemma square_part N : 1 <= N -> exists r x, 1 <= r /\ 1 <= x /\ N = r * r * x /\ squarefree x.
Proof.
  induction N as [N IH] using lt_wf_ind. intros H. destruct (squarefreeb N) eqn:E.
  - exists 1, N. split; [lia|]. split; [lia|]. split; [lia|]. now apply squarefreeb_spec.
  - assert (X : exists r, 2 <= r /\ Nat.divide (r * r) N).
    { assert (NF : ~ (forall r, In r (seq 2 N) -> negb (N mod (r * r) =? 0) = true)) by (intros F; unfold squarefreeb in E; apply forallb_forall in F; congruence).
      destruct (existsb (fun r => N mod (r * r) =? 0) (seq 2 N)) eqn:B.
      - apply existsb_exists in B as (r & R & B). apply in_seq in R. exists r. split; [lia|]. apply Nat.eqb_eq in B. apply Nat.mod_divides in B as [c B]; [exists c; lia|nia].
      - elim NF. intros r R. destruct (N mod (r * r) =? 0) eqn:C; [|reflexivity]. assert (existsb (fun r => N mod (r * r) =? 0) (seq 2 N) = true); [|congruence]. apply existsb_exists. now exists r. }
    destruct X as (r & R & [c C]). assert (1 <= c) by (destruct c; nia). assert (4 <= r * r) by nia. assert (LC : c < N) by (rewrite C; nia). destruct (IH c LC ltac:(lia)) as (r' & x & R' & X1 & E' & F). exists (r * r'), x. split; [nia|]. split; [exact X1|]. split; [rewrite C, E'; ring|exact F].
Qed.
Lemma coprime_square a b : Nat.gcd a b = 1 -> Nat.gcd (a * a) (b * b) = 1.
Proof.
  intros G. assert (A : Nat.gcd (b * b) a = 1) by (apply coprime_mul; now rewrite Nat.gcd_comm). apply coprime_mul; now rewrite Nat.gcd_comm.
Qed.
Lemma square_part_unique a b x y : 1 <= a -> 1 <= b -> squarefree x -> squarefree y -> a * a * x = b * b * y -> a = b.
Proof.
  intros A B X Y E. set (g := Nat.gcd a b). assert (G : g <> 0) by (unfold g; intros Q; apply Nat.gcd_eq_0_l in Q; lia).
  destruct (Nat.gcd_divide_l a b) as [a' Ea]. destruct (Nat.gcd_divide_r a b) as [b' Eb]. fold g in Ea, Eb.
  assert (C : Nat.gcd a' b' = 1). { apply (Nat.mul_cancel_r _ _ g G). rewrite <- Nat.gcd_mul_mono_r. rewrite <- Ea, <- Eb. unfold g. lia. }
  assert (E' : a' * a' * x = b' * b' * y). { apply (Nat.mul_cancel_l _ _ (g * g)); [nia|]. rewrite Ea, Eb in E. nia. }
  pose proof (coprime_square a' b' C) as C2.
  assert (D1 : Nat.divide (a' * a') y) by (apply (Nat.gauss _ (b' * b')); [exists x; lia|exact C2]).
  assert (D2 : Nat.divide (b' * b') x) by (apply (Nat.gauss _ (a' * a')); [exists y; lia|rewrite Nat.gcd_comm; exact C2]).
  assert (a' < 2) by (destruct (Nat.lt_ge_cases a' 2); [assumption|now elim (Y a')]). assert (b' < 2) by (destruct (Nat.lt_ge_cases b' 2); [assumption|now elim (X b')]).
  assert (a' = 1) by (destruct a'; lia). assert (b' = 1) by (destruct b'; lia). subst a' b'. lia.
Qed.
Lemma count_sqf_S n : count_squarefree (S n) = count_squarefree n + (if squarefreeb (S n) then 1 else 0).
Proof. unfold count_squarefree. rewrite seq_S, filter_app, app_length. cbn [filter Nat.add]. destruct (squarefreeb (S n)); reflexivity. Qed.

Section Sqf.
  Context {T : Type} (zero one : T) (add mul sub : T -> T -> T) (opp : T -> T).
  Hypothesis Rth : ring_theory zero one add mul sub opp (@eq T).
  Add Ring TrS : Rth.
  Notation rsum := (rsum zero add).
  Notation nat_ := (rnat zero one add).
  Notation Q := (fun n => nat_ (count_squarefree n)).
  Lemma sqf_total n K : n <= K -> rsum K (fun k => Q (n / (S k * S k))) = nat_ n.
  Proof.
    revert K. induction n as [|n IH]; intros K HK.
    - rewrite (rsum_zero zero one add mul sub opp Rth); [reflexivity|]. intros i _. rewrite Nat.div_0_l by nia. reflexivity.
    - rewrite (rsum_ext zero add K _ (fun k => add (Q (n / (S k * S k))) (if S n mod (S k * S k) =? 0 then (if squarefreeb (S n / (S k * S k)) then one else zero) else zero))).
      + rewrite (rsum_add zero one add mul sub opp Rth), IH by lia. cbn [rnat]. f_equal. destruct (square_part (S n) ltac:(lia)) as (r & x & R & X & E & F).
        assert (RK : r - 1 < K) by nia. rewrite (rsum_single zero one add mul sub opp Rth K _ (r - 1) RK).
        * replace (S (r - 1)) with r by lia. rewrite E. rewrite (Nat.mul_comm (r * r) x), Nat.mod_mul, Nat.div_mul by nia. cbn [Nat.eqb]. rewrite (proj2 (squarefreeb_spec x X) F). reflexivity.
        * intros i _ NI. destruct (Nat.eqb_spec (S n mod (S i * S i)) 0) as [D|]; [|reflexivity]. destruct (squarefreeb (S n / (S i * S i))) eqn:B; [|reflexivity]. elim NI.
          apply Nat.mod_divides in D as [c D]; [|nia]. rewrite D in B. rewrite (Nat.mul_comm (S i * S i) c), Nat.div_mul in B by nia. assert (C1 : 1 <= c) by (destruct c; lia). apply (squarefreeb_spec c C1) in B. pose proof (square_part_unique r (S i) x c R ltac:(lia) F B ltac:(congruence)). lia.
      + intros i _. cbv beta. rewrite (succ_div n (S i * S i)) by nia. destruct (S n mod (S i * S i) =? 0); [|ring]. rewrite count_sqf_S. destruct (squarefreeb _); rewrite ?Nat.add_0_r, ?Nat.add_1_r; cbn [rnat]; ring.
  Qed.
  Lemma sqf_sqrt n : 1 <= n -> rsum (Nat.sqrt n) (fun k => Q (n / (S k * S k))) = nat_ n.
  Proof.
    intros H. rewrite <- (sqf_total n n (le_n n)). symmetry. apply (rsum_trunc zero one add mul sub opp Rth); [apply Nat.sqrt_le_lin|]. intros i I0. rewrite Nat.div_small; [reflexivity|]. pose proof (Nat.sqrt_spec n ltac:(lia)). nia.
  Qed.
  Lemma sqf_between n m k : 1 <= m -> Nat.sqrt (n / S m) < k <= Nat.sqrt (n / m) -> n / (k * k) = m.
  Proof.
    intros Hm [A B]. assert (B2 : k * k <= n / m) by (apply (Nat.sqrt_le_square (n / m)) ; exact B). assert (A2 : n / S m < k * k). { destruct (Nat.lt_ge_cases (n / S m) (k * k)) as [|C]; [assumption|]. apply Nat.sqrt_le_square in C. lia. }
    pose proof (Nat.mul_div_le n m ltac:(lia)). pose proof (Nat.mul_succ_div_gt n (S m) ltac:(lia)). symmetry. apply (Nat.div_unique n (k * k) m (n - (k * k) * m)); nia.
  Qed.
  Lemma sqf_group n q : 1 <= q <= n ->
    nat_ n = add (Q n) (add (rsum (q - 1) (fun i => mul (nat_ (Nat.sqrt (n / (i + 1)) - Nat.sqrt (n / (i + 1 + 1)))) (Q (i + 1)))) (rsum (Nat.sqrt (n / q) - 1) (fun i => Q (n / ((i + 2) * (i + 2)))))).
  Proof.
    intros HQ. assert (A : 1 <= n / q) by (apply Nat.div_le_lower_bound; lia). assert (A1 : 1 <= Nat.sqrt (n / q)) by (apply Nat.sqrt_le_square; lia).
    assert (MON : forall a b, 1 <= a -> a <= b -> Nat.sqrt (n / b) <= Nat.sqrt (n / a)) by (intros; apply Nat.sqrt_le_mono, Nat.div_le_compat_l; lia).
    assert (TG := tail_group zero one add mul sub opp Rth nat_ Q (fun k => n / (k * k)) (fun m => Nat.sqrt (n / m)) (Nat.sqrt n)). cbv beta in TG. specialize (TG ltac:(intros; apply MON; lia) ltac:(now rewrite Nat.div_1_r) (sqf_between n) q ltac:(lia)).
    rewrite <- (sqf_sqrt n) by lia. pose proof (MON 1 q ltac:(lia) ltac:(lia)) as B. rewrite Nat.div_1_r in B. set (c := Nat.sqrt (n / q)) in *.
    replace (Nat.sqrt n) with (c + (Nat.sqrt n - c)) at 1 by lia. rewrite (rsum_split zero one add mul sub opp Rth). replace c with (S (c - 1)) at 1 by lia. rewrite (rsum_S_l zero one add mul sub opp Rth). change (1 * 1) with 1. rewrite Nat.div_1_r.
    rewrite (rsum_ext zero add (Nat.sqrt n - c) (fun i => Q (n / (S (c + i) * S (c + i)))) (fun i => mul (sub (nat_ (S (c + i))) (nat_ (S (c + i) - 1))) (Q (n / (S (c + i) * S (c + i)))))).
    2:{ intros i _. rewrite (nat_pred zero one add mul sub opp Rth) by lia. ring. }
    rewrite TG. rewrite (rsum_ext zero add (c - 1) (fun k => Q (n / (S (S k) * S (S k)))) (fun i => Q (n / ((i + 2) * (i + 2))))). 2:{ intros i _. replace (S (S i)) with (i + 2) by lia. reflexivity. }
    rewrite (rsum_ext zero add (q - 1) (fun i => mul (sub (nat_ (Nat.sqrt (n / S i))) (nat_ (Nat.sqrt (n / S (S i))))) (Q (S i))) (fun i => mul (nat_ (Nat.sqrt (n / (i + 1)) - Nat.sqrt (n / (i + 1 + 1)))) (Q (i + 1)))).
    2:{ intros i _. rewrite (nat_sub zero one add mul sub opp Rth) by (apply MON; lia). replace (S (S i)) with (i + 1 + 1) by lia. replace (S i) with (i + 1) by lia. reflexivity. }
    ring.
  Qed.

  (** ** Mertens *)
  Notation mu := (mu zero one add opp).
  Notation summatory := (summatory zero add).
  Notation wq := (weighted_quotients zero add mul).
  Notation dunit := (dunit zero one).
  Lemma summatory_unit n : 1 <= n -> summatory dunit n = one.
  Proof.
    intros H. unfold DirSpec.summatory. rewrite (rsum_single zero one add mul sub opp Rth n _ 0); [reflexivity|lia|]. intros i _ NI. unfold DirSpec.dunit. destruct (Nat.eqb_spec (S i) 1); [lia|reflexivity].
  Qed.
  Lemma mertens_eq n : 1 <= n -> wq (fun _ => one) (Mertens zero one add opp) n = one.
  Proof.
    intros H. unfold Mertens. fold mu. change (fun k => zring zero one add opp (mobius k)) with mu. rewrite <- (summatory_dirichlet zero one add mul sub opp Rth). transitivity (summatory dunit n); [|now apply summatory_unit]. apply (summatory_ext zero add). intros i I0. apply (mu_sum zero one add mul sub opp Rth). lia.
  Qed.
  Definition oddf (k : nat) : T := if Nat.odd k then one else zero.
  Definition omu (k : nat) : T := if Nat.odd k then mu k else zero.
  Definition emu (k : nat) : T := if Nat.even k then mu k else zero.
  Lemma odd_dvd d n : 1 <= n -> n mod d = 0 -> d <> 0 -> Nat.odd n = Nat.odd d && Nat.odd (n / d).
  Proof. intros H D ND. apply Nat.mod_divides in D as [c ->]; [|exact ND]. rewrite (Nat.mul_comm d c), Nat.div_mul by exact ND. rewrite Nat.odd_mul. apply andb_comm. Qed.
  Lemma odd_sum n : 1 <= n -> dirichlet zero add mul oddf omu n = dunit n.
  Proof.
    intros H. rewrite (dirichlet_rsum zero one add mul sub opp Rth). transitivity (if Nat.odd n then dunit n else zero).
    - destruct (Nat.odd n) eqn:E.
      + rewrite <- (mu_sum zero one add mul sub opp Rth n H). rewrite (dirichlet_rsum zero one add mul sub opp Rth). apply (rsum_ext zero add). intros k K. unfold term. destruct (Nat.eqb_spec (n mod S k) 0) as [D|]; [|reflexivity]. rewrite (odd_dvd (S k) n H D ltac:(lia)) in E. apply andb_prop in E as [E1 E2]. unfold oddf, omu. now rewrite E1, E2.
      + apply (rsum_zero zero one add mul sub opp Rth). intros k K. unfold term. destruct (Nat.eqb_spec (n mod S k) 0) as [D|]; [|reflexivity]. rewrite (odd_dvd (S k) n H D ltac:(lia)) in E. unfold oddf, omu. destruct (Nat.odd (S k)), (Nat.odd (n / S k)); cbn [andb] in E; try discriminate; ring.
    - unfold DirSpec.dunit. destruct (Nat.eqb_spec n 1) as [->|]; [reflexivity|]. now destruct (Nat.odd n).
  Qed.
  Lemma mertens_odd_eq n : 1 <= n -> wq oddf (MertensOdd zero one add opp) n = one.
  Proof.
    intros H. change (MertensOdd zero one add opp) with (summatory omu). rewrite <- (summatory_dirichlet zero one add mul sub opp Rth). transitivity (summatory dunit n); [|now apply summatory_unit]. apply (summatory_ext zero add). intros i I0. apply odd_sum. lia.
  Qed.
  Lemma mu_2 : mu 2 = opp one.
  Proof. unfold DirProofs2.mu. change (mobius 2) with (-1)%Z. unfold zring. change (Pos.to_nat 1) with 1. cbn [rnat]. ring. Qed.
  Lemma mu_4 m : mu (4 * m) = zero.
  Proof.
    unfold DirProofs2.mu, mobius. destruct (Nat.eqb_spec (4 * m) 0); [reflexivity|]. assert (E : existsb (fun d => (4 * m) mod (d * d) =? 0) (seq 2 (4 * m)) = true); [|now rewrite E]. apply existsb_exists. exists 2. split; [apply in_seq; lia|]. change (2 * 2) with 4. rewrite (Nat.mul_comm 4 m), Nat.mod_mul by lia. reflexivity.
  Qed.
  Lemma mu_double m : 1 <= m -> mu (2 * m) = opp (omu m).
  Proof.
    intros H. unfold omu. destruct (Nat.odd m) eqn:E.
    - destruct (mu_mult zero one add mul sub opp Rth) as [_ MM]. rewrite MM; [rewrite mu_2; ring|lia|lia|]. apply Nat.odd_spec in E as [c ->]. rewrite Nat.gcd_comm. assert (E : Nat.gcd (2 * c + 1) 2 = 1); [|exact E]. rewrite Nat.gcd_comm. rewrite (Nat.add_comm (2 * c) 1), (Nat.mul_comm 2 c). rewrite Nat.gcd_add_mult_diag_r. reflexivity.
    - assert (X : Nat.even m = true) by (rewrite <- Nat.negb_odd, E; reflexivity). apply Nat.even_spec in X as [c ->]. replace (2 * (2 * c)) with (4 * c) by lia. rewrite mu_4. ring.
  Qed.
  Lemma even_half n : MertensEven zero one add opp n = opp (MertensOdd zero one add opp (n / 2)).
  Proof.
    change (MertensOdd zero one add opp) with (summatory omu). change (MertensEven zero one add opp) with (summatory emu). induction n as [|n IH]; [change (0 / 2) with 0; unfold DirSpec.summatory; cbn [RingSpec.rsum]; ring|].
    rewrite (summatory_S zero add), IH. rewrite (succ_div n 2) by lia. unfold emu. destruct (Nat.even (S n)) eqn:E.
    - apply Nat.even_spec in E as [c E]. assert (E2 : S n mod 2 = 0) by (rewrite E, (Nat.mul_comm 2 c); apply Nat.mod_mul; lia). assert (X : S n / 2 = c) by (rewrite E, (Nat.mul_comm 2 c); apply Nat.div_mul; lia). rewrite (succ_div n 2), E2 in X by lia. rewrite E2. cbn [Nat.eqb] in X |- *. rewrite (summatory_S zero add), X, E, (mu_double c) by lia. ring.
    - assert (O : S n mod 2 <> 0). { intros X. apply Nat.mod_divides in X as [c X]; [|lia]. rewrite X in E. rewrite Nat.even_mul in E. discriminate. } destruct (Nat.eqb_spec (S n mod 2) 0); [contradiction|]. ring.
  Qed.
  Lemma mertens_even_eq n : 1 <= n -> wq oddf (MertensEven zero one add opp) n = if 1 <? n then opp one else zero.
  Proof.
    intros H. unfold weighted_quotients. rewrite (rsum_ext zero add n _ (fun k => opp (mul (oddf (S k)) (MertensOdd zero one add opp (n / 2 / S k))))). 2:{ intros k K. rewrite even_half. rewrite !Nat.div_div by lia. rewrite (Nat.mul_comm (S k) 2). ring. }
    rewrite (rsum_opp zero one add mul sub opp Rth). rewrite (rsum_trunc zero one add mul sub opp Rth n (n / 2)). 2:{ apply Nat.div_le_upper_bound; lia. } 2:{ intros i I0. rewrite (Nat.div_small (n / 2)) by lia. change (MertensOdd zero one add opp 0) with zero. ring. }
    destruct (Nat.ltb_spec 1 n) as [C|C].
    - f_equal. apply (mertens_odd_eq (n / 2)). apply Nat.div_le_lower_bound; lia.
    - assert (n = 1) by lia. subst n. change (1 / 2) with 0. cbn [RingSpec.rsum]. ring.
  Qed.
  Lemma mertens_split n : Mertens zero one add opp n = add (MertensOdd zero one add opp n) (MertensEven zero one add opp n).
  Proof.
    unfold Mertens, MertensOdd, MertensEven, DirSpec.summatory. rewrite <- (rsum_add zero one add mul sub opp Rth). apply (rsum_ext zero add). intros k _. rewrite <- Nat.negb_odd. destruct (Nat.odd (S k)); cbn [negb]; ring.
  Qed.
  Lemma odd_mult : multiplicative one mul oddf.
  Proof. split; [reflexivity|]. intros a b _ _ _. unfold oddf. rewrite Nat.odd_mul. destruct (Nat.odd a), (Nat.odd b); cbn [andb]; ring. Qed.
  Lemma omu_mult : multiplicative one mul omu.
  Proof.
    destruct (mu_mult zero one add mul sub opp Rth) as [M1 MM]. split; [unfold omu; cbn [Nat.odd]; exact M1|]. intros a b A B G. unfold omu. rewrite Nat.odd_mul. destruct (Nat.odd a), (Nat.odd b); cbn [andb]; try ring. now apply MM.
  Qed.
  Lemma odd_count_step k : 1 <= k -> sub (odd_count zero one add k) (odd_count zero one add (k - 1)) = oddf k.
  Proof.
    intros H. unfold odd_count, oddf. replace (k - 1 + 1) with k by lia. rewrite Nat.add_1_r, (succ_div k 2) by lia. destruct (Nat.odd k) eqn:E.
    - apply Nat.odd_spec in E as [c ->]. replace (S (2 * c + 1)) with ((c + 1) * 2) by lia. rewrite Nat.mod_mul by lia. cbn [Nat.eqb rnat]. ring.
    - assert (X : Nat.even k = true) by (rewrite <- Nat.negb_odd, E; reflexivity). apply Nat.even_spec in X as [c ->]. replace (S (2 * c)) with (1 + c * 2) by lia. rewrite Nat.mod_add by lia. cbn [Nat.modulo Nat.divmod fst snd Nat.sub Nat.eqb]. ring.
  Qed.

  (** ** totients *)
  Lemma totient_mult a b : 1 <= a -> 1 <= b -> Nat.gcd a b = 1 -> totient (a * b) = totient a * totient b.
  Proof.
    revert b. induction a as [a IH] using lt_wf_ind. intros b A B G. destruct (Nat.eq_dec a 1) as [->|N]; [rewrite Nat.mul_1_l; change (totient 1) with 1; lia|].
    destruct (peel a ltac:(lia)) as (p & k & l & P & K & L & E & ND & G2 & LT & PK). pose proof (prime_ge p P) as P2. replace k with (S (k - 1)) in E by lia.
    assert (NB : ~ Nat.divide p b). { intros D. assert (X : Nat.divide p (Nat.gcd a b)). { apply Nat.gcd_greatest; [|exact D]. rewrite E. exists (p ^ (k - 1) * l). cbn [Nat.pow]. ring. } rewrite G in X. apply Nat.divide_1_r in X. lia. }
    assert (GL : Nat.gcd l b = 1). { apply Nat.divide_1_r. rewrite <- G. apply Nat.gcd_greatest; [|apply Nat.gcd_divide_r]. apply (Nat.divide_trans _ l); [apply Nat.gcd_divide_l|]. exists (p ^ S (k - 1)). exact E. }
    rewrite E, <- Nat.mul_assoc. rewrite !totient_step; [rewrite (IH l LT b L B GL); ring|exact P|lia|exact ND|exact P|nia|].
    intros D. apply prime_euclid in D as [D|D]; auto.
  Qed.
  Lemma phi_sum n : 1 <= n -> dirichlet zero add mul (fun _ => one) (fun k => nat_ (totient k)) n = nat_ n.
  Proof.
    intros H. rewrite (dirichlet_comm zero one add mul sub opp Rth) by exact H.
    apply (mult_ext one mul (dirichlet zero add mul (fun k => nat_ (totient k)) (fun _ => one)) nat_ (S n)); [| | |lia].
    - apply (dirichlet_mult zero one add mul sub opp Rth); [|apply (mult_ones zero one add mul sub opp Rth)]. split; [change (totient 1) with 1; cbn [rnat]; ring|]. intros a b A B G. rewrite totient_mult by assumption. apply (rnat_mul zero one add mul sub opp Rth).
    - split; [cbn [rnat]; ring|]. intros a b _ _ _. apply (rnat_mul zero one add mul sub opp Rth).
    - intros p k P K _. pose proof (prime_ge p P). rewrite (dirichlet_pow zero one add mul sub opp Rth) by exact P. clear K. induction k as [|k IH].
      + cbn [RingSpec.rsum]. change (p ^ 0) with 1. change (totient 1) with 1. cbn [rnat]. ring.
      + cbn [RingSpec.rsum] in *. rewrite totient_prime_power by exact P. rewrite IH.
        transitivity (add (nat_ (p ^ k)) (nat_ (p ^ k * (p - 1)))); [ring|]. rewrite <- (rnat_add zero one add mul sub opp Rth). f_equal. cbn [Nat.pow]. nia.
  Qed.
  Lemma sum_totient_eq n : wq (fun k => sub (nat_ k) (nat_ (k - 1))) (sum_totient zero one add) n = summatory nat_ n.
  Proof.
    transitivity (wq (fun _ => one) (sum_totient zero one add) n).
    - apply (rsum_ext zero add). intros k _. rewrite (nat_pred zero one add mul sub opp Rth) by lia. reflexivity.
    - unfold sum_totient. rewrite <- (summatory_dirichlet zero one add mul sub opp Rth). apply (summatory_ext zero add). intros i I0. apply phi_sum. lia.
  Qed.
End Sqf.
