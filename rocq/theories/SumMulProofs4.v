(** sum_multiplicative: identities of rough sums, the maps and the Fenwick tree. *)
From Coq Require Import Ring Ring_theory Permutation.
From Verif Require Import Lib RingSpec RingProofs PrimesSpec PrimesProofs PrimesProofs4 PiSpec PiProofs PiProofs2 DirSpec LohiModel LohiSpec LohiProofs FenwickModel FenwickSpec FenwickProofs SumMulModel SumMulSpec SumMulProofs SumMulProofs2 SumMulProofs3.
From Coq Require Import Arith Lia.
Open Scope nat_scope.

Section Math.
  Context {T : Type} (zero one : T) (add mul sub : T -> T -> T) (opp : T -> T).
  Hypothesis Rth : ring_theory zero one add mul sub opp (@eq T).
  Add Ring TrM : Rth.
  Variables (g : nat -> T).
  Hypothesis Mult : multiplicative one mul g.
  Notation rsum := (rsum zero add).
  Notation sumQ := (sum_where zero add).
  Notation R := (rough_total zero add g).
  Notation pt := (prime_total zero add g).

  Lemma R_count a b m : length (primes_below a) = length (primes_below b) -> R a m = R b m.
  Proof. intros E. apply sumQ_ext; [|reflexivity]. intros t _. now apply rough_count. Qed.
  Lemma R_one b m : 1 <= m -> m < b -> R b m = one.
  Proof.
    intros M1 H. unfold rough_total. rewrite (sumQ_trunc zero one add mul sub opp Rth _ _ 1 m M1).
    - unfold SumMulSpec.sum_where. cbn [RingSpec.rsum]. replace (rough b 1) with true. + replace (g 1) with one by (symmetry; apply Mult). ring. + symmetry. apply rough_spec. intros r P _ D. apply Nat.divide_1_r in D. pose proof (prime_ge _ P). lia.
    - intros t Ht Q. exfalso. destruct (least_factor t ltac:(lia)) as (p & P & D & _). apply (proj1 (rough_spec _ _) Q p P); [|exact D]. apply Nat.divide_pos_le in D; lia.
  Qed.
  Lemma R_small b m : 1 <= b -> b - 1 <= m -> 1 <= m -> m < b * b -> R b m = add one (sub (pt m) (pt (b - 1))).
  Proof.
    intros B1 B2 M1 H. rewrite <- (prime_total_split zero one add mul sub opp Rth g (b - 1) m B2). unfold rough_total, SumMulSpec.sum_where.
    replace m with (S (m - 1)) at 1 by lia. rewrite (rsum_S_l zero one add mul sub opp Rth). replace (rough b 1) with true.
    2: { symmetry. apply rough_spec. intros r P _ D. apply Nat.divide_1_r in D. pose proof (prime_ge _ P). lia. }
    replace (g 1) with one by (symmetry; apply Mult). f_equal. rewrite (rsum_S_l zero one add mul sub opp Rth). change (primeb 0) with false. cbn [andb]. replace m with (S (m - 1)) at 2 by lia. rewrite (rsum_S_l zero one add mul sub opp Rth). change (primeb 1) with false. cbn [andb].
    transitivity (rsum (m - 1) (fun i => if primeb (S (S i)) && (b - 1 <? S (S i)) then g (S (S i)) else zero)); [|ring].
    apply (rsum_ext zero add). intros i I0. replace (rough b (S (S i))) with (primeb (S (S i)) && (b - 1 <? S (S i))); [reflexivity|]. apply eq_true_iff_eq. rewrite andb_true_iff, Nat.ltb_lt, rough_spec, primeb_spec. split.
    - intros (P & L) r Q LR D. apply (prime_divides_prime r _ Q P) in D. lia.
    - intros X. destruct (prime_dec' (S (S i))) as [P|P].
      + split; [exact P|]. destruct (le_lt_dec b (S (S i))) as [|C]; [lia|]. exfalso. apply (X _ P C). apply Nat.divide_refl.
      + exfalso. destruct (composite_factor (S (S i)) ltac:(lia) P) as (r & Q & D & LR). apply (X r Q); [nia|exact D].
  Qed.
  Definition semi (m r : nat) : T := add (g (r * r)) (mul (g r) (sub (pt (m / r)) (pt r))).
  Definition semis (b m : nat) : T := rsum (S m) (fun r => if primeb r && (b <=? r) && (r * r <=? m) then semi m r else zero).
  Lemma pt_S b : 1 <= b -> pt b = add (pt (b - 1)) (if primeb b then g b else zero).
  Proof. intros H. unfold PiSpec.prime_total. replace (S b) with (S (S (b - 1))) by lia. cbn [RingSpec.rsum]. replace (S (b - 1)) with b by lia. reflexivity. Qed.
  Lemma semis_S b m : b <= m -> semis b m = add (semis (S b) m) (if primeb b && (b * b <=? m) then semi m b else zero).
  Proof.
    intros H. unfold semis. transitivity (add (rsum (S m) (fun r => if primeb r && (S b <=? r) && (r * r <=? m) then semi m r else zero)) (rsum (S m) (fun r => if r =? b then (if primeb b && (b * b <=? m) then semi m b else zero) else zero))).
    - rewrite <- (rsum_add zero one add mul sub opp Rth). apply (rsum_ext zero add). intros r L. destruct (Nat.eqb_spec r b) as [->|N].
      + rewrite Nat.leb_refl. replace (S b <=? b) with false by (symmetry; apply Nat.leb_gt; lia). rewrite andb_true_r, andb_false_r. cbn [andb]. ring.
      + replace (b <=? r) with (S b <=? r); [ring|]. destruct (Nat.leb_spec (S b) r), (Nat.leb_spec b r); lia || reflexivity.
    - f_equal. rewrite (rsum_single zero one add mul sub opp Rth (S m) _ b); [now rewrite Nat.eqb_refl|lia|]. intros i _ N. apply Nat.eqb_neq in N. now rewrite N.
  Qed.
  Lemma semis_zero b m : m < b * b -> semis b m = zero.
  Proof. intros H. apply (rsum_zero zero one add mul sub opp Rth). intros r L. destruct (Nat.leb_spec b r), (Nat.leb_spec (r * r) m); rewrite ?andb_false_r; try reflexivity. nia. Qed.
  Lemma semis_count a b m : length (primes_below a) = length (primes_below b) -> semis a m = semis b m.
  Proof.
    intros E. apply (rsum_ext zero add). intros r _. destruct (primeb r) eqn:P; [|reflexivity]. cbn [andb]. apply primeb_spec in P. replace (a <=? r) with (b <=? r); [reflexivity|].
    destruct (Nat.leb_spec a r) as [A|A], (Nat.leb_spec b r) as [B|B]; try reflexivity; exfalso.
    - pose proof (count_mono a r A). pose proof (count_mono (S r) b ltac:(lia)). rewrite (count_S r P) in *. lia.
    - pose proof (count_mono b r B). pose proof (count_mono (S r) a ltac:(lia)). rewrite (count_S r P) in *. lia.
  Qed.
  Lemma R_prime2 p m : is_prime p -> p * p <= m -> m < p * p * p -> R p m = add (R (S p) m) (add (mul (g p) (R (S p) (m / p))) (g (p * p))).
  Proof.
    intros P L1 L2. pose proof (prime_ge _ P) as P2. unfold rough_total. rewrite (rough_peel zero one add mul sub opp Rth p g m P). f_equal. rewrite (rough_peel zero one add mul sub opp Rth p _ (m / p) P).
    assert (E : forall e M, sumQ (rough (S p)) (fun t => g (p ^ e * t)) M = mul (g (p ^ e)) (sumQ (rough (S p)) g M)) by (intros e M; apply (rough_scale zero one add mul sub opp Rth g Mult p P)).
    pose proof (E 1 (m / p)) as E1. rewrite Nat.pow_1_r in E1. rewrite E1. f_equal. rewrite Nat.div_div by lia.
    assert (D : 1 <= m / (p * p) < p) by (split; [apply Nat.div_le_lower_bound; nia|apply Nat.div_lt_upper_bound; nia]).
    rewrite (rough_peel zero one add mul sub opp Rth p _ (m / (p * p)) P). rewrite (Nat.div_small (m / (p * p)) p) by lia.
    pose proof (E 2 (m / (p * p))) as E2. replace (p ^ 2) with (p * p) in E2 by (cbn; lia).
    rewrite (sumQ_ext zero add (rough (S p)) (rough (S p)) (fun t => g (p * (p * t))) (fun t => g (p * p * t))); [|reflexivity|intros t _ _; f_equal; lia]. rewrite E2. pose proof (R_one (S p) (m / (p * p)) ltac:(lia) ltac:(lia)) as O1. unfold rough_total in O1. rewrite O1. unfold SumMulSpec.sum_where. cbn [RingSpec.rsum]. ring.
  Qed.
  Lemma R_semi m : 1 <= m -> forall x b, x = S (Nat.sqrt m) - b -> 1 <= b -> b - 1 <= m -> m < b * b * b -> R b m = add (add (sub one (pt (b - 1))) (pt m)) (semis b m).
  Proof.
    intros M1. pose proof (Nat.sqrt_spec m ltac:(lia)) as SQ. set (s := Nat.sqrt m) in *. induction x as [|x IH]; intros b Hx B1 BM M3.
    - rewrite R_small by nia. rewrite semis_zero by nia. ring.
    - destruct (le_lt_dec (b * b) m) as [C|C].
      2: { rewrite R_small by lia. rewrite semis_zero by lia. ring. }
      assert (BS : b <= s) by nia. assert (b <= m) by nia. pose proof (IH (S b) ltac:(lia) ltac:(lia) ltac:(lia) ltac:(nia)) as E. replace (S b - 1) with b in E by lia. rewrite semis_S by lia. replace (b * b <=? m) with true by (symmetry; apply Nat.leb_le; lia). rewrite andb_true_r. rewrite (pt_S b B1) in E. destruct (primeb b) eqn:P.
      + apply primeb_spec in P. pose proof (prime_ge _ P). rewrite (R_prime2 b m P C M3), E. assert (D : b <= m / b) by (apply Nat.div_le_lower_bound; lia). rewrite (R_small (S b) (m / b)); [|lia|lia|lia|].
        * replace (S b - 1) with b by lia. unfold semi. rewrite (pt_S b B1). apply primeb_spec in P. rewrite P. ring.
        * apply Nat.div_lt_upper_bound; nia.
      + transitivity (R (S b) m); [|rewrite E; ring]. apply sumQ_ext; [|reflexivity]. intros t _. symmetry. apply rough_skip. intros Q. apply primeb_spec in Q. congruence.
  Qed.
  (** adding the numbers with least prime factor p *)
  Lemma sum_filter Q m : sum_list zero add (map g (filter Q (seq 1 m))) = sumQ Q g m.
  Proof.
    induction m as [|m IH]; [reflexivity|]. rewrite seq_S, filter_app, map_app. unfold SumMulSpec.sum_where in *. cbn [RingSpec.rsum]. rewrite <- IH.
    assert (A : forall a b, sum_list zero add (a ++ b) = add (sum_list zero add a) (sum_list zero add b)) by (unfold sum_list; induction a; intros; cbn [app fold_right] in *; [ring|rewrite IHa; ring]). rewrite A. f_equal. cbn [filter]. change (1 + m) with (S m). destruct (Q (S m)); unfold sum_list; cbn [map fold_right]; ring.
  Qed.
  Lemma R_least p m : is_prime p -> R p m = add (R (S p) m) (sum_list zero add (map g (WL p m))).
  Proof.
    intros P. pose proof (prime_ge _ P) as P2. assert (E : WL p m = filter (fun t => rough p t && (t mod p =? 0)) (seq 1 m)).
    { unfold WL. destruct m as [|m]; [reflexivity|]. cbn [seq filter]. rewrite (Nat.mod_small 1 p) by lia. cbn [Nat.eqb]. rewrite andb_false_r. f_equal. f_equal. lia. }
    rewrite E, sum_filter. unfold rough_total, SumMulSpec.sum_where. rewrite <- (rsum_add zero one add mul sub opp Rth). apply (rsum_ext zero add). intros i _. rewrite rough_S by exact P. destruct (rough p (S i)), (S i mod p =? 0); cbn [andb negb]; ring.
  Qed.
  Lemma sum_list_perm l l' : Permutation l l' -> sum_list zero add l = sum_list zero add l'.
  Proof. unfold sum_list. induction 1; cbn [fold_right] in *; [reflexivity|now f_equal|ring|congruence]. Qed.
End Math.

(** ** maps known on a set of keys *)
Section Cov.
  Context {T : Type} (dflt : T) (q N : nat) (V : nat -> T).
  Definition cov (P : nat -> Prop) (s : @sqm T) : Prop := exists F, rep q N s F /\ forall k, skey q N k -> P k -> F k = V k.
  Lemma cov_weak (P P' : nat -> Prop) s : (forall k, skey q N k -> P' k -> P k) -> cov P s -> cov P' s.
  Proof. intros H (F & R0 & E). exists F. split; [exact R0|]. intros k K Pk. apply E; [exact K|]. now apply H. Qed.
  Lemma cov_index P s k : cov P s -> skey q N k -> P k -> exists s', sqm_index s k = Some (V k, s') /\ cov P s'.
  Proof. intros (F & R0 & E) K Pk. destruct (rep_index q N s F k R0 K) as (s' & A & B). exists s'. split; [rewrite A, (E k K Pk); reflexivity|]. now exists F. Qed.
  Lemma cov_put P s k : cov P s -> skey q N k -> exists s', sqm_put s k (V k) = Some s' /\ cov (fun j => P j \/ j = k) s'.
  Proof.
    intros (F & R0 & E) K. destruct (rep_put q N s F k (V k) R0 K) as (s' & A & B). exists s'. split; [exact A|]. eexists. split; [exact B|]. intros j J [H| ->]; unfold fput; [|now rewrite Nat.eqb_refl]. destruct (Nat.eqb_spec j k) as [->|]; [reflexivity|now apply E].
  Qed.
  Lemma cov_put0 P s v : cov P s -> exists s', sqm_put s 0 v = Some s' /\ cov P s'.
  Proof.
    intros (F & (S0 & R0) & E). pose proof S0 as (A0 & A1 & A2 & A3 & A4 & A5 & A6). unfold sqm_put, sqm_index. rewrite A1. cbn [Nat.leb]. destruct (set_nth_some (scl s) 0 1) as (c & Ec); [lia|]. rewrite Ec. cbn [obind]. destruct (nth_error (stl s) 0) as [w|] eqn:W; [|apply nth_error_None in W; lia]. cbn [obind]. unfold sqm_el_set. cbn [put_cl sml Nat.leb stl]. destruct (set_nth_some (stl s) 0 v) as (t & Et); [lia|]. rewrite Et. cbn [obind]. eexists. split; [reflexivity|]. exists F. split; [|exact E]. split.
    - repeat split; auto; cbn [put_cl put_tl scl stl]; [rewrite (set_nth_length _ _ _ _ Ec)|rewrite (set_nth_length _ _ _ _ Et)]; assumption.
    - intros j J. specialize (R0 j J). unfold sqm_el, hidx in *. cbn [put_tl put_cl sml smk stl sth]. destruct (j <=? sml s); [|exact R0]. rewrite (set_nth_get _ _ _ _ j Et). destruct (Nat.eqb_spec 0 j) as [<-|]; [destruct J; lia|exact R0].
  Qed.
  Lemma cov_new mk0 : 0 < q -> exists s, sqm_new dflt q N mk0 = Some s /\ forall P, (forall k, skey q N k -> ~ P k) -> cov P s.
  Proof. intros H. destruct (rep_new dflt q N mk0 H) as (s & A & B). exists s. split; [exact A|]. intros P HP. exists (fun _ => dflt). split; [exact B|]. intros k K Pk. elim (HP k K Pk). Qed.
End Cov.
Lemma cov_drop {T} q N (V V' : nat -> T) (P P' : nat -> Prop) s : cov q N V P s -> (forall k, skey q N k -> P' k -> P k /\ V k = V' k) -> cov q N V' P' s.
Proof. intros (F & R0 & E) H. exists F. split; [exact R0|]. intros k K Pk. destruct (H k K Pk) as (A & <-). now apply E. Qed.

(** ** Fenwick trees as prefix functions *)
Section Fen.
  Context {T : Type} (zero one : T) (add mul sub : T -> T -> T) (opp : T -> T).
  Hypothesis Rth : ring_theory zero one add mul sub opp (@eq T).
  Add Ring TrF : Rth.
  Lemma cm : comm_monoid add zero.
  Proof. split; intros; ring. Qed.
  Definition fen (sz : nat) (Ft : list T) (A : nat -> T) : Prop := length Ft = sz + 1 /\ exists l, fw_inv add zero Ft l /\ forall j, j < sz -> prefix_fold add zero l j = A j.
  Lemma fen_new sz : fen sz (fw_new sz zero) (fun _ => zero).
  Proof. split; [apply repeat_length|]. exists []. split; [apply fw_inv_fresh|]. reflexivity. Qed.
  Lemma fen_get sz Ft A j : fen sz Ft A -> j < sz -> fw_get_sum add Ft j zero = Some (A j).
  Proof. intros (L & l & I0 & E) H. rewrite (fw_get_spec add zero cm Ft l j zero I0) by lia. rewrite E by exact H. f_equal. ring. Qed.
  Lemma fen_add sz Ft A i v : fen sz Ft A -> exists Ft', fw_add add Ft i v = Some Ft' /\ fen sz Ft' (fun j => if i <=? j then add (A j) v else A j).
  Proof.
    intros (L & l & I0 & E). destruct (fw_add_spec add Ft i v) as (Ft' & A0 & L' & _). exists Ft'. split; [exact A0|]. destruct (fw_inv_add add zero cm Ft l i v Ft' I0 A0) as (I1 & L1). split; [lia|]. exists (l ++ [(i, v)]). split; [exact I1|]. intros j J. unfold prefix_fold in *. rewrite filter_app, map_app, fold_right_app. cbn [filter fst]. rewrite <- (E j J). destruct (i <=? j); cbn [map fold_right snd]; [|reflexivity].
    generalize (map snd (filter (fun p => fst p <=? j) l)). intros ll. induction ll as [|y ll IH]; cbn [fold_right]; [ring|]. rewrite IH. ring.
  Qed.
  Lemma fen_ext sz Ft A B : fen sz Ft A -> (forall j, j < sz -> A j = B j) -> fen sz Ft B.
  Proof. intros (L & l & I0 & E) H. split; [exact L|]. exists l. split; [exact I0|]. intros j J. rewrite E by exact J. now apply H. Qed.
  Lemma fen_visit sz idx vs : forall Ft A, fen sz Ft A -> exists Ft', visit_all (fun Ft m v => fw_add add Ft (idx m) v) vs Ft = Some Ft' /\
    fen sz Ft' (fun j => add (A j) (sum_list zero add (map snd (filter (fun p => idx (fst p) <=? j) vs)))).
  Proof.
    induction vs as [|(m, v) vs IH]; intros Ft A H; cbn [visit_all].
    - exists Ft. split; [reflexivity|]. apply (fen_ext sz Ft A _ H). intros j _. unfold sum_list. cbn [filter map fold_right]. ring.
    - destruct (fen_add sz Ft A (idx m) v H) as (F1 & -> & H1). cbn [obind]. destruct (IH F1 _ H1) as (F2 & -> & H2). exists F2. split; [reflexivity|]. apply (fen_ext sz F2 _ _ H2). intros j _. cbn [filter fst]. destruct (idx m <=? j); cbn [map snd]; unfold sum_list; cbn [fold_right]; ring.
  Qed.
End Fen.
