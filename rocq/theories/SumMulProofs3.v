(** traverse_rough_numbers. *)
From Coq Require Import Ring Ring_theory Permutation.
From Verif Require Import Lib RingSpec RingProofs PrimesSpec PrimesProofs PrimesProofs4 PiSpec DirSpec SumMulModel SumMulSpec SumMulProofs SumMulProofs2.
From Coq Require Import Arith Lia.
Open Scope nat_scope.

Definition RL (b M : nat) : list nat := filter (rough b) (seq 2 (M - 1)).
Notation WL := with_least_factor.
Lemma filter_part {A} (P Q : A -> bool) l : Permutation (filter P l) (filter (fun x => P x && Q x) l ++ filter (fun x => P x && negb (Q x)) l).
Proof.
  induction l as [|x l IH]; [constructor|]. cbn [filter]. destruct (P x), (Q x); cbn [andb negb app]; try (now constructor); try exact IH. rewrite <- Permutation_middle. now constructor.
Qed.
Lemma filter_same {A} (P Q : A -> bool) l : (forall x, In x l -> P x = Q x) -> filter P l = filter Q l.
Proof. induction l as [|x l IH]; intros H; [reflexivity|]. cbn [filter]. rewrite (H x) by now left. rewrite IH by (intros y Y; apply H; now right). reflexivity. Qed.
Lemma RL_split q M : is_prime q -> Permutation (RL q M) (WL q M ++ RL (S q) M).
Proof.
  intros Q. unfold RL, WL. rewrite (filter_part (rough q) (fun t => t mod q =? 0)). apply Permutation_app_head. rewrite (filter_same _ (rough (S q))); [reflexivity|]. intros x _. symmetry. now apply rough_S.
Qed.
Lemma rough_count a b t : length (primes_below a) = length (primes_below b) -> rough a t = rough b t.
Proof.
  intros E. apply eq_true_iff_eq. rewrite !rough_spec. split; intros H r R LR; apply H; try exact R.
  - destruct (le_lt_dec a r) as [X|X]; [|exact X]. pose proof (count_mono a r X). pose proof (count_mono (S r) b ltac:(lia)). rewrite (count_S r R) in H1. lia.
  - destruct (le_lt_dec b r) as [X|X]; [|exact X]. pose proof (count_mono b r X). pose proof (count_mono (S r) a ltac:(lia)). rewrite (count_S r R) in H1. lia.
Qed.
Lemma RL_count a b M : length (primes_below a) = length (primes_below b) -> RL a M = RL b M.
Proof. intros E. apply filter_same. intros x _. now apply rough_count. Qed.
Lemma RL_empty b M : M < b -> RL b M = [].
Proof.
  intros H. unfold RL. rewrite (filter_same _ (fun _ => false)); [induction (seq 2 (M - 1)); [reflexivity|assumption]|]. intros x X. apply in_seq in X. apply not_true_iff_false. rewrite rough_spec. intros Y. destruct (least_factor x ltac:(lia)) as (p & P & D & _). apply (Y p P); [|exact D]. apply Nat.divide_pos_le in D; lia.
Qed.
Lemma WL_in p M x : is_prime p -> In x (WL p M) <-> 2 <= x <= M /\ rough p x = true /\ Nat.divide p x.
Proof. intros P. pose proof (prime_ge _ P). unfold WL. rewrite filter_In, in_seq, andb_true_iff, (divide_mod p x) by lia. split; intros; intuition lia. Qed.
Lemma WL_mult p M : is_prime p -> p <= M -> Permutation (WL p M) (map (Nat.mul p) (1 :: RL p (M / p))).
Proof.
  intros P L. pose proof (prime_ge _ P) as P2. assert (R1 : 1 <= M / p) by (apply Nat.div_le_lower_bound; lia). pose proof (Nat.mul_div_le M p ltac:(lia)) as MD. pose proof (Nat.mul_succ_div_gt M p ltac:(lia)) as MS. apply NoDup_Permutation.
  - apply NoDup_filter, seq_NoDup.
  - apply FinFun.Injective_map_NoDup; [intros a b E; nia|]. constructor.
    + unfold RL. rewrite filter_In, in_seq. lia.
    + apply NoDup_filter, seq_NoDup.
  - intros x. rewrite (WL_in p M x P), in_map_iff. split.
    + intros (A & R & (y & ->)). exists y. split; [lia|]. assert (1 <= y) by (destruct y; lia). assert (y <= M / p) by nia. destruct (Nat.eq_dec y 1) as [->|]; [now left|right]. unfold RL. rewrite filter_In, in_seq. split; [lia|]. rewrite Nat.mul_comm, rough_mul in R by exact P. exact R.
    + intros (y & <- & [<-|I0]).
      * split; [nia|]. split; [|apply Nat.divide_factor_l]. rewrite rough_mul by exact P. apply rough_spec. intros r R _ D. apply Nat.divide_1_r in D. pose proof (prime_ge _ R). lia.
      * unfold RL in I0. rewrite filter_In, in_seq in I0. destruct I0 as (A & R). split; [nia|]. split; [now rewrite rough_mul|apply Nat.divide_factor_l].
Qed.
Lemma visit_all_app {S V} (visit : S -> nat -> V -> option S) a b st : visit_all visit (a ++ b) st = let* st := visit_all visit a st in visit_all visit b st.
Proof. revert st. induction a as [|(m, v) a IH]; intros st; [reflexivity|]. cbn [app visit_all]. destruct (visit st m v); [apply IH|reflexivity]. Qed.

Section Rough.
  Context {T : Type} (zero one : T) (add mul sub : T -> T -> T) (opp : T -> T).
  Hypothesis Rth : ring_theory zero one add mul sub opp (@eq T).
  Add Ring TrR : Rth.
  Variables (f : T -> nat -> nat -> T) (g : nat -> T) (L : nat).
  Hypothesis Mult : multiplicative one mul g.
  Hypothesis Step : power_step f g.
  Notation pa := (primes_below L).
  Context {St : Type} (visit : St -> nat -> T -> option St).
  Definition vis (mm : nat) (fm : T) (x : nat) : nat * T := (mm * x, mul fm (g x)).
  Definition does (run : St -> option St) (l : list (nat * T)) : Prop := exists vs, Permutation vs l /\ forall st, run st = visit_all visit vs st.
  Lemma pa1_nth j : 1 <= j -> pa1 pa j = nth_error pa (j - 1).
  Proof. intros H. destruct j; [lia|]. cbn [pa1]. f_equal. lia. Qed.

  Section Level.
    Variables (rec : nat -> nat -> nat -> T -> St -> option St) (k p : nat).
    Hypothesis K1 : 1 <= k.
    Hypothesis HK : nth_error pa (k - 1) = Some p.
    Hypothesis Rec : forall npe j mm fm q, k < j -> nth_error pa (j - 1) = Some q -> npe / q < L -> does (rec npe j mm fm) (map (vis mm fm) (WL q npe)).
    Lemma trn_for_ok npe mm fm : npe < L -> forall c j B, k < j -> length (primes_below B) = j - 1 -> c + (j - 1) = length pa -> does (trn_for rec pa npe mm fm c j) (map (vis mm fm) (RL B npe)).
    Proof.
      intros HN. induction c as [|c IH]; intros j B Hj HB Hc.
      - exists []. split; [|reflexivity]. rewrite (RL_count B L) by lia. rewrite RL_empty by lia. constructor.
      - destruct (nth_error pa (j - 1)) as [q|] eqn:E; [|apply nth_error_None in E; lia]. destruct (nth_prime _ _ _ E) as (Q & QL & QC). destruct (Nat.ltb_spec npe q) as [C|C].
        + exists []. split.
          * rewrite (RL_count B q) by lia. rewrite RL_empty by lia. constructor.
          * intros st. cbn [trn_for]. rewrite pa1_nth, E by lia. cbn [obind]. apply Nat.ltb_lt in C. rewrite C. reflexivity.
        + pose proof (prime_ge _ Q). destruct (Rec npe j mm fm q Hj E) as (v1 & P1 & R1); [assert (npe / q <= npe) by (apply Nat.div_le_upper_bound; nia); lia|]. destruct (IH (S j) (S q)) as (v2 & P2 & R2); [lia|rewrite (count_S q Q); lia|lia|].
          exists (v1 ++ v2). split.
          * rewrite (RL_count B q) by lia. rewrite (Permutation_map (vis mm fm) (RL_split q npe Q)), map_app. now apply Permutation_app.
          * intros st. cbn [trn_for]. rewrite pa1_nth, E by lia. cbn [obind]. apply Nat.ltb_ge in C. rewrite C. rewrite visit_all_app, R1. destruct (visit_all visit v1 st); [apply R2|reflexivity].
    Qed.
    Lemma trn_while_ok n m fm : forall fuel e, n / p ^ e < fuel -> n / p < L ->
      does (trn_while mul f visit fuel rec pa k p e (g (p ^ e)) (n / p ^ e) (m * p ^ e) fm) (map (fun x => (m * p ^ e * x, mul fm (g (p ^ e * x)))) (WL p (n / p ^ e))).
    Proof.
      destruct (nth_prime _ _ _ HK) as (P & PL & PC). pose proof (prime_ge _ P) as P2. induction fuel as [|fuel IH]; intros e HF HL; [lia|]. destruct (Nat.ltb_spec (n / p ^ e) p) as [C|C].
      - exists []. split.
        + replace (WL p (n / p ^ e)) with (@nil nat); [constructor|]. symmetry. destruct (WL p (n / p ^ e)) as [|x l] eqn:E; [reflexivity|exfalso]. assert (I0 : In x (WL p (n / p ^ e))) by (rewrite E; now left). apply (WL_in p _ x P) in I0. destruct I0 as (A & _ & D). apply Nat.divide_pos_le in D; lia.
        + intros st. cbn [trn_while]. apply Nat.ltb_lt in C. rewrite C. reflexivity.
      - pose proof (PrimesProofs4.pow_pos p e P2) as PE. set (M := n / p ^ e) in *. assert (MM : M / p = n / p ^ S e) by (apply div_pow_S; lia).
        assert (MP : M / p <= n / p) by (apply Nat.div_le_mono; [lia|]; apply Nat.div_le_upper_bound; nia).
        assert (KL : k - 1 < length pa) by (apply nth_error_Some; congruence).
        destruct (trn_for_ok (M / p) (m * p ^ S e) (mul fm (g (p ^ S e))) ltac:(lia) (length pa - k) (k + 1) (S p)) as (v1 & Q1 & R1); [lia|rewrite (count_S p P); lia|lia|].
        destruct (IH (S e)) as (v2 & Q2 & R2); [rewrite <- MM; assert (M / p < M) by (apply Nat.div_lt; lia); lia|exact HL|].
        exists ((m * p ^ S e, mul fm (g (p ^ S e))) :: v1 ++ v2). split.
        + rewrite (Permutation_map _ (WL_mult p M P C)). cbn [map]. replace (m * p ^ e * (p * 1)) with (m * p ^ S e) by (cbn [Nat.pow]; lia). replace (p ^ e * (p * 1)) with (p ^ S e) by (cbn [Nat.pow]; lia). constructor.
          rewrite (Permutation_map _ (Permutation_map _ (RL_split p (M / p) P))). rewrite !map_app. rewrite Permutation_app_comm. apply Permutation_app.
          * rewrite Q2, map_map, MM. apply Permutation_refl'. apply map_ext. intros x. f_equal; [cbn [Nat.pow]; lia|]. f_equal. f_equal. cbn [Nat.pow]. lia.
          * rewrite Q1, map_map. apply Permutation_refl'. apply map_ext_in. intros x X. unfold RL in X. rewrite filter_In, in_seq in X. destruct X as (A & R). unfold vis. f_equal; [cbn [Nat.pow]; lia|]. replace (p ^ e * (p * x)) with (p ^ S e * x) by (cbn [Nat.pow]; lia). rewrite (mult_of one mul g (p ^ S e) x Mult); [ring|apply PrimesProofs4.pow_pos; lia|lia|]. apply coprime_pow; [exact P|]. apply (proj1 (rough_spec _ _) R p P). lia.
        + intros st. cbn [trn_while visit_all]. fold M. apply Nat.ltb_ge in C. rewrite C. replace (p =? 0) with false by (symmetry; apply Nat.eqb_neq; lia). cbn [negb guard obind].
          replace (e + 1) with (S e) by lia. replace (f (g (p ^ e)) p (S e)) with (g (p ^ S e)). 2: { pose proof (step_at f g Step p e P) as X. replace (e + 1) with (S e) in X by lia. now rewrite X. }
          replace (m * p ^ e * p) with (m * p ^ S e) by (cbn [Nat.pow]; lia). destruct (visit st _ _) as [st1|]; [|reflexivity]. cbn [obind]. rewrite visit_all_app, R1. destruct (visit_all visit v1 st1); [|reflexivity]. cbn [obind]. rewrite MM. apply R2.
    Qed.
  End Level.

  Lemma trn_ok fuel : forall n k m fm p, 1 <= k -> length pa - k < fuel -> nth_error pa (k - 1) = Some p -> n / p < L -> does (trn one mul f visit fuel pa n k m fm) (map (vis m fm) (WL p n)).
  Proof.
    induction fuel as [|fuel IH]; intros n k m fm p K1 HF HK HL; [lia|].
    destruct (trn_while_ok (fun npe j mpe f_mpe st => trn one mul f visit fuel pa npe j mpe f_mpe st) k p K1 HK) with (n := n) (m := m) (fm := fm) (fuel := S n) (e := 0) as (vs & Q & R).
    - intros npe j mm fm' q Hj Hq Hl. apply IH; try assumption; try lia. assert (j - 1 < length pa) by (apply nth_error_Some; congruence). lia.
    - cbn [Nat.pow]. rewrite Nat.div_1_r. lia.
    - exact HL.
    - exists vs. split.
      + rewrite Q. cbn [Nat.pow]. rewrite Nat.div_1_r, Nat.mul_1_r. apply Permutation_refl'. apply map_ext. intros x. now rewrite Nat.mul_1_l.
      + intros st. cbn [trn]. rewrite pa1_nth, HK by lia. cbn [obind]. rewrite <- R. cbn [Nat.pow]. rewrite Nat.div_1_r, Nat.mul_1_r. f_equal. symmetry. apply Mult.
  Qed.
End Rough.
