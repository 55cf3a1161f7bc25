(** Convolution and division through the values at prime powers. *)
From Coq Require Import Ring Ring_theory Permutation.
From Verif Require Import Lib RingSpec RingProofs PrimesSpec PrimesProofs PrimesProofs2 PrimesProofs4 DivisorsProofs FftProofs3 DirModel DirSpec DirProofs DirProofs2 DirProofs3.
From Coq Require Import Arith Lia.
Open Scope nat_scope.

Lemma powers_run n p fuel : 2 <= p -> forall k, n + 1 < fuel + p ^ k + 1 -> 0 < fuel -> (forall j, j < k -> p ^ j < n) ->
  exists s, powers_below fuel n p (p ^ k) (map (fun j => p ^ j) (seq 0 k)) = Some (map (fun j => p ^ j) (seq 0 s)) /\ forall j, j < s <-> p ^ j < n.
Proof.
  intros P. induction fuel as [|fuel IH]; intros k FU F0 H; [lia|]. cbn [powers_below]. pose proof (PrimesProofs4.pow_pos p k P). destruct (Nat.ltb_spec (p ^ k) n) as [LT|GE].
  - replace (p ^ k * p) with (p ^ S k) by (cbn [Nat.pow]; lia). replace (map (fun j => p ^ j) (seq 0 k) ++ [p ^ k]) with (map (fun j => p ^ j) (seq 0 (S k))) by (rewrite seq_S, map_app; reflexivity). apply IH; [cbn [Nat.pow] in *; nia|cbn [Nat.pow] in *; nia|]. intros j J. destruct (Nat.eq_dec j k) as [->|]; [assumption|apply H; lia].
  - exists k. split; [reflexivity|]. intros j. split; [apply H|]. intros J. destruct (Nat.le_gt_cases k j) as [G|G]; [|assumption]. assert (p ^ k <= p ^ j) by (apply Nat.pow_le_mono_r; lia). lia.
Qed.
Lemma powers_ok n p : 2 <= p -> exists s, powers_below (S n) n p 1 [] = Some (map (fun j => p ^ j) (seq 0 s)) /\ forall j, j < s <-> p ^ j < n.
Proof. intros P. apply (powers_run n p (S n) P 0); cbn; lia. Qed.
Lemma buffer_ok n p s : 2 <= p -> (Z.of_nat n <= 2 ^ 32)%Z -> (forall j, j < s <-> p ^ j < n) -> s <= 32.
Proof.
  intros P B H. destruct (Nat.le_gt_cases s 32) as [|G]; [assumption|exfalso]. specialize (proj1 (H 32) G) as Q. assert (Z.of_nat (p ^ 32) < Z.of_nat n)%Z by lia. rewrite Nat2Z.inj_pow in H0. assert (2 ^ 32 <= Z.of_nat p ^ 32)%Z by (apply Z.pow_le_mono_l; lia). change (Z.of_nat 32) with 32%Z in H0. lia.
Qed.
Lemma nth_pows {A} (u : nat -> A) p s j : j < s -> nth_error (map u (map (fun j => p ^ j) (seq 0 s))) j = Some (u (p ^ j)).
Proof. intros J. rewrite map_map, nth_error_map. rewrite (nth_error_nth' _ 0) by (rewrite seq_length; lia). rewrite seq_nth by lia. reflexivity. Qed.

Section Dir.
  Context {T : Type} (zero one : T) (add mul sub : T -> T -> T) (opp : T -> T) (tdiv : T -> T -> option T).
  Hypothesis Rth : ring_theory zero one add mul sub opp (@eq T).
  Add Ring Tr : Rth.
  Notation rsum := (rsum zero add).
  Notation dirichlet := (dirichlet zero add mul).
  Notation multiplicative := (multiplicative one mul).
  Notation completely_multiplicative := (completely_multiplicative one mul).
  Notation dunit := (dunit zero one).

  (** one pass over the primes, each setting its own powers *)
  Fixpoint ploop (step : list T -> nat -> option (list T)) (n : nat) (h : list T) (pa : list nat) : option (list T) :=
    match pa with [] => Some h | p :: pa => if p <? n then let* h := step h p in ploop step n h pa else Some h end.
  Lemma ploop_run step L n V R : Forall (fun p => n <= p) R ->
    (forall p F h, is_prime p -> p < n -> is_arr L F h -> exists h' F', step h p = Some h' /\ is_arr L F' h' /\ (forall m, F' m = V m \/ F' m = F m) /\ (forall k, 1 <= k -> p ^ k < n -> F' (p ^ k) = V (p ^ k)) /\ (forall m, (forall k, p ^ k < n -> m <> p ^ k) -> F' m = F m)) ->
    forall P F h, is_arr L F h -> Forall is_prime P -> Forall (fun p => p < n) P ->
    exists h' F', ploop step n h (P ++ R) = Some h' /\ is_arr L F' h' /\ (forall m, F' m = V m \/ F' m = F m) /\
      (forall p k, In p P -> 1 <= k -> p ^ k < n -> F' (p ^ k) = V (p ^ k)) /\ (forall m, (forall p k, In p P -> p ^ k < n -> m <> p ^ k) -> F' m = F m).
  Proof.
    intros HR HS. induction P as [|p P IH]; intros F h HA HP HN; cbn [app].
    - exists h, F. split. { destruct R as [|r R]; [reflexivity|]. apply Forall_cons_iff in HR as [HR _]. cbn [ploop]. destruct (Nat.ltb_spec r n); [lia|reflexivity]. } repeat split; auto; try apply HA. intros p k [].
    - apply Forall_cons_iff in HP as [Pp HP], HN as [Np HN]. cbn [ploop]. destruct (Nat.ltb_spec p n); [|lia]. destruct (HS p F h Pp Np HA) as (h1 & F1 & -> & H1 & A1 & B1 & C1). cbn [obind]. destruct (IH F1 h1 H1 HP HN) as (h2 & F2 & E2 & H2 & A2 & B2 & C2).
      exists h2, F2. split; [exact E2|]. split; [exact H2|]. split; [|split].
      + intros m. destruct (A2 m) as [|A]; [now left|]. rewrite A. apply A1.
      + intros q k [<-|I0] K Q; [|now apply B2]. destruct (A2 (p ^ k)) as [|A]; [assumption|]. rewrite A. now apply B1.
      + intros m M. rewrite C2; [|intros q k I0; apply M; now right]. apply C1. intros k. apply M. now left.
  Qed.
  Lemma dcm_ploop f g n pa : forall h, dcm_primes zero add mul h f g n pa = ploop (fun h p => dcm_prime zero add mul h f g n p) n h pa.
  Proof. induction pa as [|p pa IH]; intros h; [reflexivity|]. cbn [dcm_primes ploop]. destruct (p <? n); [|reflexivity]. destruct (dcm_prime zero add mul h f g n p); [apply IH|reflexivity]. Qed.
  Lemma ddm_ploop f g n pa : forall h, ddm_primes one mul sub h f g n pa = ploop (fun h p => ddm_prime one mul sub h f g n p) n h pa.
  Proof. induction pa as [|p pa IH]; intros h; [reflexivity|]. cbn [ddm_primes ploop]. destruct (p <? n); [|reflexivity]. destruct (ddm_prime one mul sub h f g n p); [apply IH|reflexivity]. Qed.
  Lemma sum_run (u : nat -> T) body k s0 : (forall j s, j < k -> body j s = Some (add s (u j))) -> for_range 0 k body s0 = Some (add s0 (rsum k u)).
  Proof.
    intros H. destruct (for_range_spec (fun j s => s = add s0 (rsum j u)) body 0 k s0) as (s & E & ->); [lia|cbn; ring| |exact E]. intros j t J ->. rewrite H by lia. eexists. split; [reflexivity|]. cbn [RingSpec.rsum]. ring.
  Qed.

  Lemma dcm_step L n f g W p F h : n <= L -> (forall i, 1 <= i < n -> dirichlet f g i = W i) -> (Z.of_nat n <= 2 ^ 32)%Z -> is_prime p -> is_arr L F h ->
    exists h' F', dcm_prime zero add mul h f g n p = Some h' /\ is_arr L F' h' /\ (forall m, F' m = W m \/ F' m = F m) /\ (forall k, 1 <= k -> p ^ k < n -> F' (p ^ k) = W (p ^ k)) /\ (forall m, (forall k, p ^ k < n -> m <> p ^ k) -> F' m = F m).
  Proof.
    intros HL HW B P HA. pose proof (prime_ge p P) as P2. unfold dcm_prime. destruct (powers_ok n p P2) as (s & -> & HS). cbn [obind]. rewrite map_length, seq_length. pose proof (buffer_ok n p s P2 B HS). destruct (Nat.leb_spec s 32); [|lia]. cbn [guard obind].
    match goal with |- context[for_range 0 s ?body h] => destruct (for_range_spec (fun k h' => exists F', is_arr L F' h' /\ (forall m, F' m = W m \/ F' m = F m) /\ (forall j, j < k -> F' (p ^ j) = W (p ^ j)) /\ (forall m, (forall j, j < s -> m <> p ^ j) -> F' m = F m)) body 0 s h) as (h1 & E & F1 & H1 & A1 & B1 & C1); [lia| | |] end.
    - exists F. repeat split; auto; try apply HA. intros; lia.
    - intros k t K (F' & HT & A & Bk & C). cbv beta. rewrite (sum_run (fun j => mul (f (p ^ (k - j))) (g (p ^ j)))).
      + cbn [obind]. rewrite <- (map_id (map (fun j => p ^ j) (seq 0 s))). rewrite nth_pows by lia. cbn [obind].
        assert (V : add zero (rsum (S k) (fun j => mul (f (p ^ (k - j))) (g (p ^ j)))) = W (p ^ k)). { pose proof (PrimesProofs4.pow_pos p k P2). pose proof (proj1 (HS k) ltac:(lia)). rewrite <- HW by lia. rewrite (dirichlet_comm zero one add mul sub opp Rth) by lia. rewrite (dirichlet_pow zero one add mul sub opp Rth) by exact P. match goal with |- add zero ?x = _ => transitivity x; [ring|] end. apply (rsum_ext zero add). intros. ring. }
        rewrite V. clear V. destruct (set_arr L F' t (p ^ k) (W (p ^ k)) HT) as (t' & E & R); [pose proof (proj1 (HS k)); lia|]. exists t'. split; [exact E|]. eexists. split; [exact R|]. cbv beta. split; [|split].
        * intros m. destruct (Nat.eqb_spec m (p ^ k)) as [->|]; [now left|apply A].
        * intros j J. destruct (Nat.eqb_spec (p ^ j) (p ^ k)) as [->|N]; [reflexivity|]. apply Bk. destruct (Nat.eq_dec j k) as [->|]; [lia|lia].
        * intros m M. destruct (Nat.eqb_spec m (p ^ k)) as [->|N]; [exfalso; apply (M k); [lia|reflexivity]|]. now apply C.
      + intros j x J. rewrite !nth_pows by lia. reflexivity.
    - exists h1, F1. split; [exact E|]. split; [exact H1|]. split; [exact A1|]. split.
      + intros k K Q. apply B1. now apply HS.
      + intros m M. apply C1. intros j J. apply M. now apply HS.
  Qed.
  Lemma ddm_step L n f g H p F h : n <= L -> (Z.of_nat n <= 2 ^ 32)%Z -> H 1 = one -> g 1 = one -> (forall i, 1 <= i < n -> dirichlet H g i = f i) -> is_prime p -> is_arr L F h ->
    exists h' F', ddm_prime one mul sub h f g n p = Some h' /\ is_arr L F' h' /\ (forall m, F' m = H m \/ F' m = F m) /\ (forall k, 1 <= k -> p ^ k < n -> F' (p ^ k) = H (p ^ k)) /\ (forall m, (forall k, p ^ k < n -> m <> p ^ k) -> F' m = F m).
  Proof.
    intros HL B H1 G1 HD P HA. pose proof (prime_ge p P) as P2. unfold ddm_prime. destruct (powers_ok n p P2) as (s & -> & HS). cbn [obind]. rewrite map_length, seq_length. pose proof (buffer_ok n p s P2 B HS). destruct (Nat.leb_spec s 32); [|lia]. cbn [guard obind].
    destruct (Nat.eq_dec s 0) as [->|S0]. { exists h, F. split; [reflexivity|]. split; [exact HA|]. split; [auto|]. split; [|auto]. intros k K Q. apply HS in Q. lia. }
    match goal with |- context[for_range 1 s ?body ?st] => destruct (for_range_spec (fun k '(h', hq) => hq = map (fun j => H (p ^ j)) (seq 0 k) /\ exists F', is_arr L F' h' /\ (forall m, F' m = H m \/ F' m = F m) /\ (forall j, 1 <= j < k -> F' (p ^ j) = H (p ^ j)) /\ (forall m, (forall j, j < s -> m <> p ^ j) -> F' m = F m)) body 1 s st) as ([h1 hq] & E & _ & F1 & R1 & A1 & B1 & C1); [lia| | |] end.
    - split; [cbn; now rewrite H1|]. exists F. repeat split; auto; try apply HA. intros; lia.
    - intros k [t hq] K (-> & F' & HT & A & Bk & C). cbv beta iota. assert (QK : nth_error (map (fun j => p ^ j) (seq 0 s)) k = Some (p ^ k)) by (pose proof (nth_pows (fun x => x) p s k ltac:(lia)) as QK; now rewrite map_id in QK). rewrite QK. cbn [obind].
      assert (V : for_range 0 k (fun j x => let* a := nth_error (map g (map (fun j0 => p ^ j0) (seq 0 s))) (k - j) in let* b := nth_error (map (fun j0 => H (p ^ j0)) (seq 0 k)) j in Some (sub x (mul a b))) (f (p ^ k)) = Some (H (p ^ k))).
      { pose proof (proj1 (HS k) ltac:(lia)) as Q. pose proof (PrimesProofs4.pow_pos p k P2). rewrite (sum_run (fun j => opp (mul (H (p ^ j)) (g (p ^ (k - j)))))).
        - f_equal. rewrite <- HD by lia. rewrite (dirichlet_pow zero one add mul sub opp Rth) by exact P. cbn [RingSpec.rsum]. rewrite Nat.sub_diag, Nat.pow_0_r, G1. rewrite (rsum_opp zero one add mul sub opp Rth). ring.
        - intros j x J. rewrite nth_pows by lia. cbn [obind]. rewrite nth_error_map, (nth_error_nth' _ 0) by (rewrite seq_length; lia). rewrite seq_nth by lia. cbn [option_map obind Nat.add]. f_equal. ring. }
      rewrite V. cbn [obind]. destruct (set_arr L F' t (p ^ k) (H (p ^ k)) HT) as (t' & E & R); [pose proof (proj1 (HS k)); lia|]. rewrite E. cbn [obind]. eexists. split; [reflexivity|]. cbv iota. split; [rewrite seq_S, map_app; reflexivity|]. eexists. split; [exact R|]. cbv beta. split; [|split].
      + intros m. destruct (Nat.eqb_spec m (p ^ k)) as [->|]; [now left|apply A].
      + intros j J. destruct (Nat.eqb_spec (p ^ j) (p ^ k)) as [->|N]; [reflexivity|]. apply Bk. destruct (Nat.eq_dec j k) as [->|]; [lia|lia].
      + intros m M. destruct (Nat.eqb_spec m (p ^ k)) as [->|N]; [exfalso; apply (M k); [lia|reflexivity]|]. now apply C.
    - rewrite E. cbn [obind]. exists h1, F1. split; [reflexivity|]. split; [exact R1|]. split; [exact A1|]. split.
      + intros k K Q. apply B1. split; [exact K|]. now apply HS.
      + intros m M. apply C1. intros j J. apply M. now apply HS.
  Qed.

  Lemma pass_ok step L n N V F0 h : n <= L -> n <= N -> multiplicative V ->
    (forall p F h, is_prime p -> p < n -> is_arr L F h -> exists h' F', step h p = Some h' /\ is_arr L F' h' /\ (forall m, F' m = V m \/ F' m = F m) /\ (forall k, 1 <= k -> p ^ k < n -> F' (p ^ k) = V (p ^ k)) /\ (forall m, (forall k, p ^ k < n -> m <> p ^ k) -> F' m = F m)) ->
    is_arr L (fun i => if (1 <=? i) && (i <? n) then one else F0 i) h ->
    exists h1 h2, ploop step n h (primes_below N) = Some h1 /\ calc_multiplicative mul h1 n (primes_below N) = Some h2 /\ is_arr L (fun i => if (1 <=? i) && (i <? n) then V i else F0 i) h2.
  Proof.
    intros HL HN HV HS HA. destruct (primes_below_split N n HN) as (R & EN & HR). destruct (ploop_run step L n V R HR HS (primes_below n) _ h HA) as (h1 & F1 & E1 & R1 & A1 & B1 & C1).
    { apply Forall_forall. intros p I0. now apply primes_below_in in I0. } { apply Forall_forall. intros p I0. now apply primes_below_in in I0. }
    destruct (calc_ok zero one add mul sub opp Rth L n N V F1 h1 HL HN R1 HV) as (h2 & E2 & R2).
    - intros p k P K Q. apply B1; [|assumption..]. apply primes_below_in. split; [|exact P]. pose proof (prime_ge p P). assert (p ^ 1 <= p ^ k) by (apply Nat.pow_le_mono_r; lia). rewrite Nat.pow_1_r in *. lia.
    - intros m M NP. destruct (Nat.eq_dec m 1) as [->|M1].
      + destruct (A1 1) as [->| ->]; [apply HV|]. destruct (Nat.leb_spec 1 1), (Nat.ltb_spec 1 n); try lia. reflexivity.
      + rewrite C1. { destruct (Nat.leb_spec 1 m), (Nat.ltb_spec m n); try lia. reflexivity. }
        intros p k I0 Q ->. apply NP. apply primes_below_in in I0 as [_ P]. exists p, k. split; [exact P|]. split; [|reflexivity]. destruct k; [rewrite Nat.pow_0_r in M1; lia|lia].
    - exists h1, h2. rewrite EN at 1. split; [exact E1|]. split; [exact E2|]. apply (arr_ext L _ _ _ R2). intros m ML. cbv beta. destruct ((1 <=? m) && (m <? n)) eqn:Bm; [reflexivity|]. rewrite C1; [now rewrite Bm|].
      intros p k I0 Q ->. apply primes_below_in in I0 as [_ P]. pose proof (PrimesProofs4.pow_pos p k ltac:(pose proof (prime_ge p P); lia)). destruct (Nat.leb_spec 1 (p ^ k)), (Nat.ltb_spec (p ^ k) n); cbn in Bm; (lia || discriminate).
  Qed.

  Lemma conv_mult_ok L n N F0 h f g W : is_arr L F0 h -> n <= L -> n <= N -> (Z.of_nat n <= 2 ^ 32)%Z -> multiplicative W -> (forall i, 1 <= i < n -> dirichlet f g i = W i) ->
    exists h', dirichlet_convolution_multiplicative zero one add mul h f g n (primes_below N) = Some h' /\ is_arr L (fun i => if (1 <=? i) && (i <? n) then W i else F0 i) h'.
  Proof.
    intros HA HL HN B HM HW. unfold dirichlet_convolution_multiplicative. destruct (fill_arr L n 1 (fun _ => one) F0 h HA HL) as (h1 & -> & H1). cbn [obind]. rewrite dcm_ploop.
    destruct (pass_ok (fun h p => dcm_prime zero add mul h f g n p) L n N W F0 h1 HL HN HM) as (h2 & h3 & -> & E3 & R3); [|exact H1|cbn [obind]; eauto]. intros p F t P _ HT. now apply dcm_step.
  Qed.
  Lemma div_mult_ok L n N F0 h f g H : is_arr L F0 h -> n <= L -> n <= N -> (Z.of_nat n <= 2 ^ 32)%Z -> multiplicative H -> g 1 = one -> (forall i, 1 <= i < n -> dirichlet H g i = f i) ->
    exists h', dirichlet_division_multiplicative one mul sub h f g n (primes_below N) = Some h' /\ is_arr L (fun i => if (1 <=? i) && (i <? n) then H i else F0 i) h'.
  Proof.
    intros HA HL HN B HM G1 HD. unfold dirichlet_division_multiplicative. destruct (fill_arr L n 1 (fun _ => one) F0 h HA HL) as (h1 & -> & H1). cbn [obind]. rewrite ddm_ploop.
    destruct (pass_ok (fun h p => ddm_prime one mul sub h f g n p) L n N H F0 h1 HL HN HM) as (h2 & h3 & -> & E3 & R3); [|exact H1|cbn [obind]; eauto]. intros p F t P _ HT. apply ddm_step; auto. apply HM.
  Qed.

  (** quotients exist, and are multiplicative when both functions are *)
  Fixpoint qlist (u : T) (f g : nat -> T) (n : nat) : list T :=
    match n with O => [zero] | S n => let l := qlist u f g n in l ++ [mul u (sub (f (S n)) (rsum n (fun k => if S n mod S k =? 0 then mul (nth (S k) l zero) (g (S n / S k)) else zero)))] end.
  Lemma qlist_length u f g n : length (qlist u f g n) = S n.
  Proof. induction n as [|n IH]; [reflexivity|]. cbn [qlist]. rewrite app_length, IH. cbn. lia. Qed.
  Lemma qlist_nth u f g n i : i <= n -> nth i (qlist u f g n) zero = nth i (qlist u f g i) zero.
  Proof. induction 1 as [|n H IH]; [reflexivity|]. cbn [qlist]. rewrite app_nth1 by (rewrite qlist_length; lia). exact IH. Qed.
  Lemma quotient_exists u f g : mul u (g 1) = one -> exists H, forall i, 1 <= i -> dirichlet H g i = f i.
  Proof.
    intros U. exists (fun i => nth i (qlist u f g i) zero). intros [|n] I0; [lia|]. rewrite (dirichlet_last zero one add mul sub opp Rth) by lia. replace (S n - 1) with n by lia. cbn [qlist]. rewrite app_nth2 by (rewrite qlist_length; lia). rewrite qlist_length, Nat.sub_diag. cbn [nth].
    set (r := rsum n (fun k => if S n mod S k =? 0 then mul (nth (S k) (qlist u f g n) zero) (g (S n / S k)) else zero)). assert (R : rsum n (term zero mul (fun i => nth i (qlist u f g i) zero) g (S n)) = r). { apply (rsum_ext zero add). intros k K. unfold term. destruct (S n mod S k =? 0); [|reflexivity]. rewrite (qlist_nth u f g n (S k)) by lia. reflexivity. }
    rewrite R. transitivity (add r (mul (mul u (g 1)) (sub (f (S n)) r))); [ring|]. rewrite U. ring.
  Qed.
  Lemma quotient_mult f g : multiplicative f -> multiplicative g -> exists H, multiplicative H /\ forall i, 1 <= i -> dirichlet H g i = f i.
  Proof.
    intros HF HG. destruct (quotient_exists one f g) as (Q & HQ); [destruct HG as [-> _]; ring|]. assert (Q1 : Q 1 = one). { specialize (HQ 1 ltac:(lia)). rewrite (dirichlet_last zero one add mul sub opp Rth) in HQ by lia. cbn in HQ. destruct HF as [F1 _], HG as [G1 _]. rewrite F1, G1 in HQ. rewrite <- HQ. ring. }
    exists (mext one mul Q). split; [now apply (mext_mult zero one add mul sub opp)|]. intros i I0. apply (mult_ext one mul (dirichlet (mext one mul Q) g) f (S i)); [apply (dirichlet_mult zero one add mul sub opp Rth); [now apply (mext_mult zero one add mul sub opp)|assumption]|assumption| |lia].
    intros p k P K _. pose proof (PrimesProofs4.pow_pos p k ltac:(pose proof (prime_ge p P); lia)). rewrite <- HQ by lia. rewrite !(dirichlet_pow zero one add mul sub opp Rth) by exact P. apply (rsum_ext zero add). intros j J. f_equal. destruct j; [rewrite Nat.pow_0_r, Q1; apply (mext_mult zero one add mul sub opp Rth)|]. apply (mext_pow zero one add mul sub opp Rth); [exact P|lia].
  Qed.

  (** ** completely multiplicative *)
  Definition pf_ok (n : nat) (pf : list nat) : Prop := forall k, 2 <= k < n -> exists p, nth_error pf k = Some p /\ is_prime p /\ Nat.divide p k.
  Lemma pf_prime n pf k p : pf_ok n pf -> 2 <= k < n -> nth_error pf k = Some p -> (p = k <-> is_prime k).
  Proof. intros H K E. destruct (H k K) as (q & E1 & Q & D). assert (p = q) by congruence. subst q. split; [intros <-; exact Q|]. intros Pk. now apply prime_divides_prime. Qed.
  Lemma ccm_ok L n pf E F h : n <= L -> is_arr L F h -> pf_ok n pf -> completely_multiplicative E -> (forall p, is_prime p -> p < n -> F p = E p) -> (1 < n -> F 1 = one) ->
    exists h', calc_completely_multiplicative mul h n pf = Some h' /\ is_arr L (fun i => if (1 <=? i) && (i <? n) then E i else F i) h'.
  Proof.
    intros HL HA HPF [E1 EM] HP F1. unfold calc_completely_multiplicative. destruct (Nat.le_gt_cases n 2) as [G|G].
    { exists h. split; [unfold for_range; replace (n - 2) with 0 by lia; reflexivity|]. apply (arr_ext L _ _ _ HA). intros i _. destruct (Nat.leb_spec 1 i), (Nat.ltb_spec i n); try reflexivity. assert (i = 1) by lia. subst i. cbn [andb]. rewrite E1. apply F1. lia. }
    match goal with |- context[for_range 2 n ?body h] => destruct (for_range_spec (fun i h' => is_arr L (fun m => if (1 <=? m) && (m <? i) then E m else F m) h') body 2 n h) as (h1 & X & R); [lia| | |eauto] end.
    - apply (arr_ext L _ _ _ HA). intros i _. destruct (Nat.leb_spec 1 i), (Nat.ltb_spec i 2); try reflexivity. assert (i = 1) by lia. subst i. cbn [andb]. rewrite E1. apply F1. lia.
    - intros i t I0 HT. cbv beta. destruct (HPF i I0) as (p & EP & P & D). rewrite EP. cbn [obind]. pose proof (prime_ge p P) as P2. destruct (Nat.eqb_spec p i) as [->|N]; cbn [negb].
      + exists t. split; [reflexivity|]. apply (arr_ext L _ _ _ HT). intros m _. destruct (Nat.eq_dec m i) as [->|]; [|destruct (Nat.leb_spec 1 m), (Nat.ltb_spec m i), (Nat.ltb_spec m (S i)); cbn [andb]; (reflexivity || lia)]. destruct (Nat.leb_spec 1 i), (Nat.ltb_spec i i), (Nat.ltb_spec i (S i)); try lia. cbn [andb]. apply HP; [exact P|lia].
      + destruct (Nat.eqb_spec p 0); [lia|]. cbn [negb guard obind]. destruct D as [c C]. assert (CQ : i / p = c) by (rewrite C, Nat.div_mul; lia). rewrite CQ. assert (1 <= c /\ c < i /\ p < i) as (C1 & C2 & C3) by (destruct c as [|[|c]]; nia).
        destruct HT as [HT1 HT2] eqn:EHT. rewrite !HT2 by lia. cbn [obind]. destruct (Nat.leb_spec 1 c), (Nat.ltb_spec c i), (Nat.leb_spec 1 p), (Nat.ltb_spec p i); try lia. cbn [andb]. rewrite <- EM by lia. rewrite <- C. destruct (set_arr L _ t i (E i) (conj HT1 HT2) ltac:(lia)) as (t' & Y & R). exists t'. split; [exact Y|]. apply (arr_ext L _ _ _ R). intros m _. cbv beta. destruct (Nat.eqb_spec m i) as [->|].
        * destruct (Nat.leb_spec 1 i), (Nat.ltb_spec i (S i)); try lia. reflexivity.
        * destruct (Nat.leb_spec 1 m), (Nat.ltb_spec m i), (Nat.ltb_spec m (S i)); cbn [andb]; (reflexivity || lia).
  Qed.
  Lemma prime_fill L n pf F (v : nat -> T) h : n <= L -> is_arr L F h -> pf_ok n pf ->
    exists h' F', for_range 2 n (fun p h => let* x := nth_error pf p in if x =? p then set_nth h p (v p) else Some h) h = Some h' /\ is_arr L F' h' /\ (forall p, is_prime p -> p < n -> F' p = v p) /\ (forall m, m < 2 \/ n <= m -> F' m = F m).
  Proof.
    intros HL HA HPF. destruct (Nat.le_gt_cases n 2) as [G|G].
    { exists h, F. split; [unfold for_range; replace (n - 2) with 0 by lia; reflexivity|]. split; [exact HA|]. split; [|reflexivity]. intros p P. pose proof (prime_ge p P). lia. }
    match goal with |- context[for_range 2 n ?body h] => destruct (for_range_spec (fun i h' => exists F', is_arr L F' h' /\ (forall p, is_prime p -> p < i -> F' p = v p) /\ (forall m, m < 2 \/ n <= m -> F' m = F m)) body 2 n h) as (h1 & X & F1 & R & A & C); [lia| | |] end.
    - exists F. split; [exact HA|]. split; [|reflexivity]. intros p P. pose proof (prime_ge p P). lia.
    - intros i t I0 (F' & HT & A & C). cbv beta. destruct (HPF i I0) as (q & EQ & Q & D). rewrite EQ. cbn [obind]. destruct (Nat.eqb_spec q i) as [->|N].
      + destruct (set_arr L F' t i (v i) HT ltac:(lia)) as (t' & Y & R). exists t'. split; [exact Y|]. eexists. split; [exact R|]. cbv beta. split.
        * intros p P LT. destruct (Nat.eqb_spec p i) as [->|]; [reflexivity|]. apply A; [exact P|lia].
        * intros m M. destruct (Nat.eqb_spec m i); [lia|]. now apply C.
      + exists t. split; [reflexivity|]. exists F'. split; [exact HT|]. split; [|exact C]. intros p P LT. destruct (Nat.eq_dec p i) as [->|]; [|apply A; [exact P|lia]]. elim N. now apply prime_divides_prime.
    - eauto 8.
  Qed.
  Lemma conv_cmult_ok L n pf F0 h f g : is_arr L F0 h -> n <= L -> pf_ok n pf -> completely_multiplicative (dirichlet f g) ->
    exists h', dirichlet_convolution_completely_multiplicative one add mul h f g n pf = Some h' /\ is_arr L (fun i => if (1 <=? i) && (i <? n) then dirichlet f g i else F0 i) h'.
  Proof.
    intros HA HL HPF HM. unfold dirichlet_convolution_completely_multiplicative. destruct (fill_arr L n 1 (fun _ => one) F0 h HA HL) as (h1 & -> & H1). cbn [obind].
    destruct (prime_fill L n pf _ (fun p => add (mul (f p) (g 1)) (mul (g p) (f 1))) h1 HL H1 HPF) as (h2 & F2 & -> & R2 & A2 & C2). cbn [obind].
    destruct (ccm_ok L n pf (dirichlet f g) F2 h2 HL R2 HPF HM) as (h3 & E3 & R3).
    - intros p P LT. rewrite A2 by assumption. replace p with (p ^ 1) at 3 by (apply Nat.pow_1_r). rewrite (dirichlet_pow zero one add mul sub opp Rth) by exact P. cbn [RingSpec.rsum Nat.sub]. rewrite Nat.pow_0_r, Nat.pow_1_r. ring.
    - intros N1. rewrite C2 by lia. destruct (Nat.leb_spec 1 1), (Nat.ltb_spec 1 n); try lia. reflexivity.
    - exists h3. split; [exact E3|]. apply (arr_ext L _ _ _ R3). intros i IL. cbv beta. destruct ((1 <=? i) && (i <? n)) eqn:Bi; [reflexivity|]. rewrite C2; [now rewrite Bi|]. destruct (Nat.leb_spec 1 i), (Nat.ltb_spec i n); cbn in Bi; (lia || discriminate).
  Qed.
  Lemma div_cmult_ok L n pf F0 h f g H : is_arr L F0 h -> n <= L -> pf_ok n pf -> completely_multiplicative H -> g 1 = one -> (forall i, 1 <= i < n -> dirichlet H g i = f i) ->
    exists h', dirichlet_division_completely_multiplicative one mul sub h f g n pf = Some h' /\ is_arr L (fun i => if (1 <=? i) && (i <? n) then H i else F0 i) h'.
  Proof.
    intros HA HL HPF HM G1 HD. unfold dirichlet_division_completely_multiplicative. destruct (fill_arr L n 1 (fun _ => one) F0 h HA HL) as (h1 & -> & H1). cbn [obind].
    destruct (prime_fill L n pf _ (fun p => sub (f p) (g p)) h1 HL H1 HPF) as (h2 & F2 & -> & R2 & A2 & C2). cbn [obind].
    destruct (ccm_ok L n pf H F2 h2 HL R2 HPF HM) as (h3 & E3 & R3).
    - intros p P LT. pose proof (prime_ge p P). rewrite A2 by assumption. rewrite <- HD by lia. replace p with (p ^ 1) at 1 by (apply Nat.pow_1_r). rewrite (dirichlet_pow zero one add mul sub opp Rth) by exact P. cbn [RingSpec.rsum Nat.sub]. rewrite Nat.pow_0_r, Nat.pow_1_r. destruct HM as [-> _]. rewrite G1. ring.
    - intros N1. rewrite C2 by lia. destruct (Nat.leb_spec 1 1), (Nat.ltb_spec 1 n); try lia. reflexivity.
    - exists h3. split; [exact E3|]. apply (arr_ext L _ _ _ R3). intros i IL. cbv beta. destruct ((1 <=? i) && (i <? n)) eqn:Bi; [reflexivity|]. rewrite C2; [now rewrite Bi|]. destruct (Nat.leb_spec 1 i), (Nat.ltb_spec i n); cbn in Bi; (lia || discriminate).
  Qed.
End Dir.
