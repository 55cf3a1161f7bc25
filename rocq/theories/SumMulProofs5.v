(** sum_multiplicative. *)
From Coq Require Import Ring Ring_theory Permutation.
From Verif Require Import Lib RingSpec RingProofs PrimesSpec PrimesProofs PrimesProofs4 PiSpec PiProofs PiProofs2 DirSpec LohiModel LohiSpec LohiProofs FenwickModel FenwickSpec FenwickProofs SumMulModel SumMulSpec SumMulProofs SumMulProofs2 SumMulProofs3 SumMulProofs4.
From Coq Require Import Arith Lia.
Open Scope nat_scope.

Lemma filter_none {A} (P : A -> bool) l : (forall x, In x l -> P x = false) -> filter P l = [].
Proof. induction l as [|x l IH]; intros H; [reflexivity|]. cbn [filter]. rewrite (H x (or_introl eq_refl)). apply IH. intros y Hy. apply H. now right. Qed.
  Lemma first_two b : length (primes_below b) = 0 -> is_prime b -> b = 2.
  Proof.
    intros H P. pose proof (prime_ge _ P). destruct (Nat.eq_dec b 2); [assumption|]. exfalso. pose proof (count_mono 3 b ltac:(lia)) as M. rewrite H in M. cbn in M. lia.
  Qed.
Section Algo.
  Context {T : Type} (zero one : T) (add mul sub : T -> T -> T) (opp : T -> T).
  Hypothesis Rth : ring_theory zero one add mul sub opp (@eq T).
  Add Ring TrA : Rth.
  Variables (f : T -> nat -> nat -> T) (g : nat -> T) (L N c : nat) (s1 : nat -> T).
  Hypothesis Mult : multiplicative one mul g.
  Hypothesis Step : power_step f g.
  Notation R := (rough_total zero add g).
  Notation pt := (prime_total zero add g).
  Notation pa := (primes_below L).
  Notation q := (Nat.sqrt N).
  Notation nd := (N / c).
  Notation nq := (N / (q + 1)).
  Notation tsz := (q + 1 + nq).
  Notation key := (skey q N).
  Hypothesis NL : N < L * L.
  Hypothesis C2 : 2 <= c.
  Hypothesis C3 : c * c * c <= N.
  Hypothesis C4 : N < (c + 1) * (c + 1) * (c + 1).
  Hypothesis S1 : forall k, 1 <= k <= N -> s1 k = pt k.
  Notation Cov := (cov q N).

  Lemma facts : q * q <= N /\ N < (q + 1) * (q + 1) /\ 2 <= q /\ c <= q /\ c * (q + 1) <= N /\ nq <= q /\ c <= nq /\ q <= N.
  Proof.
    pose proof (Nat.sqrt_spec N ltac:(lia)) as (A & B). assert (2 <= q) by (apply Nat.sqrt_le_square; nia). assert (c <= q) by (apply Nat.sqrt_le_square; nia).
    assert (c * (q + 1) <= N). { destruct (Nat.eq_dec c q) as [E|E]; [|nia]. rewrite <- E in *. assert (c * c * c < (c + 1) * (c + 1)) by (replace (S c) with (c + 1) in B by lia; lia). assert (c = 2) by nia. nia. }
    repeat split; try assumption; try (replace (S q) with (q + 1) in B by lia; assumption).
    - apply Nat.lt_succ_r. apply Nat.div_lt_upper_bound; nia.
    - apply Nat.div_le_lower_bound; lia.
    - apply Nat.sqrt_le_lin.
  Qed.
  Lemma key_low k : 1 <= k <= q -> key k. Proof. intros H. split; [lia|]. left. lia. Qed.
  Lemma key_quot i : 1 <= i <= N -> key (N / i). Proof. intros H. split; [apply Nat.div_le_lower_bound; lia|]. right. exists i. split; [lia|reflexivity]. Qed.
  Lemma key_inv k : key k -> N / (N / k) = k /\ 1 <= k <= N /\ 1 <= N / k <= N.
  Proof.
    destruct facts as (A & _). intros (K1 & K).
    assert (X : N / (N / k) = k /\ k <= N).
    { destruct K as [K|(j & J & ->)]; [split; [apply div_div_id; nia|nia]|]. assert (j <= N) by (destruct (le_lt_dec j N); [assumption|rewrite Nat.div_small in K1 by assumption; lia]). split; [apply div_div_id2; lia|]. apply Nat.div_le_upper_bound; nia. }
    destruct X as (X & Y). repeat split; try assumption; [apply Nat.div_le_lower_bound; lia|apply Nat.div_le_upper_bound; nia].
  Qed.
  Lemma key_high k : key k -> q < k -> 1 <= N / k <= nq.
  Proof. intros K H. destruct (key_inv k K) as (_ & _ & A). split; [lia|]. apply Nat.div_le_compat_l. lia. Qed.
  Lemma high_lt i : 1 <= i <= nq -> i <= q /\ q < N / i /\ N / (N / i) = i.
  Proof.
    destruct facts as (A & B & C & D & E & F & G & _). intros H. split; [lia|]. assert (i * (q + 1) <= N) by (pose proof (Nat.mul_div_le N (q + 1) ltac:(lia)) as MD; apply (Nat.le_trans _ ((q + 1) * nq)); [rewrite Nat.mul_comm; apply Nat.mul_le_mono_l; lia|exact MD]). split.
    - apply (Nat.lt_le_trans _ (q + 1)); [lia|]. apply Nat.div_le_lower_bound; nia.
    - apply div_div_id; nia.
  Qed.
  Lemma key_quot2 k i : key k -> 1 <= i -> 1 <= k / i -> key (k / i).
  Proof.
    intros K H1 H2. split; [exact H2|]. destruct K as (K1 & [K|(j & J & ->)]).
    - left. apply (Nat.le_trans _ k); [apply Nat.div_le_upper_bound; nia|exact K].
    - right. exists (j * i). split; [nia|]. rewrite Nat.div_div by lia. reflexivity.
  Qed.
  Lemma nd_cases k : key k -> (nd <= k <-> N / k <= c).
  Proof.
    intros K. destruct (key_inv k K) as (A & B & D). destruct facts as (F1 & _ & _ & F4 & _). split; intros H.
    - rewrite <- (div_div_id N c) by nia. apply Nat.div_le_compat_l. assert (1 <= nd) by (apply Nat.div_le_lower_bound; nia). lia.
    - rewrite <- A. apply Nat.div_le_compat_l. lia.
  Qed.

  Lemma step1_ok s : Cov pt (fun _ => False) s -> exists s', sml_step1 s1 N q s = Some s' /\ Cov pt (fun _ => True) s'.
  Proof.
    destruct facts as (F1 & F2 & F3 & F4 & F5 & F6 & F7 & F8). intros H. unfold sml_step1.
    match goal with |- context[for_range 1 (q + 1) ?body s] => destruct (for_range_spec (fun i s => Cov pt (fun k => k < i \/ N / k < i) s) body 1 (q + 1) s) as (s' & -> & H'); [lia| | |] end.
    - apply (cov_weak q N pt (fun _ => False)); [|exact H]. intros k K Hk. destruct (key_inv k K) as (_ & ? & ?). lia.
    - intros i s0 Hi H0. rewrite !S1; [|split; [apply Nat.div_le_lower_bound; nia|apply Nat.div_le_upper_bound; nia]|nia]. destruct (cov_put q N pt _ s0 i H0) as (s2 & -> & H2); [apply key_low; lia|]. cbn [obind]. destruct (cov_put q N pt _ s2 (N / i) H2) as (s3 & -> & H3); [apply key_quot; nia|]. exists s3. split; [reflexivity|]. apply (cov_weak q N pt _ _ _) with (2 := H3). intros k K Hk. destruct (key_inv k K) as (E & _). destruct (Nat.eq_dec k i); [tauto|]. destruct (Nat.eq_dec (N / k) i) as [X|X]; [right; congruence|]. left. left. lia.
    - exists s'. split; [reflexivity|]. apply (cov_weak q N pt _ _ _) with (2 := H'). intros k K _. destruct (le_lt_dec k q); [left; lia|right]. pose proof (key_high k K ltac:(lia)). lia.
  Qed.

  (** ** step 2 *)
  Section Step2.
  Variables (k pk : nat).
  Hypothesis K1 : 1 <= k.
  Hypothesis HK : nth_error pa (k - 1) = Some pk.
  Hypothesis PC : c < pk.
  Hypothesis PQ : pk <= q + 1.
  Lemma pkf : is_prime pk /\ pk < L /\ length (primes_below pk) = k - 1 /\ N < pk * pk * pk /\ q < pk * pk.
  Proof. destruct (nth_prime _ _ _ HK) as (A & B & D). assert (X : N < pk * pk * pk) by (apply (Nat.lt_le_trans _ _ _ C4); repeat apply Nat.mul_le_mono; lia). repeat split; try assumption; try apply A. pose proof (prime_ge _ A). destruct facts as (F1 & _). destruct (le_lt_dec (pk * pk) q); [|assumption]. exfalso. clear - F1 X l H. nia. Qed.
  Lemma semi_ok m : key m -> forall cnt j B s2 s, 1 <= j -> pk <= B -> length (primes_below B) = j - 1 -> cnt + (j - 1) = length pa -> Cov pt (fun _ => True) s ->
    exists s', sml_semi one add mul sub f pa m cnt j s2 s = Some (add s2 (semis zero add mul sub g B m), s') /\ Cov pt (fun _ => True) s'.
  Proof.
    destruct facts as (F1 & F2 & F3 & F4 & F5 & F6 & F7 & F8). intros Km. destruct (key_inv m Km) as (_ & Mr & _). induction cnt as [|cnt IH]; intros j B s2 s J PB HB Hc H; cbn [sml_semi].
    - exists s. split; [|exact H]. do 2 f_equal. rewrite (semis_count zero add mul sub g B L) by lia. rewrite (semis_zero zero one add mul sub opp Rth g) by lia. ring.
    - rewrite (pa1_nth L j) by lia. destruct (nth_error pa (j - 1)) as [p|] eqn:E; [|apply nth_error_None in E; lia]. cbn [obind]. destruct (nth_prime _ _ _ E) as (P & PL & PJ). pose proof (prime_ge _ P) as P2. rewrite (semis_count zero add mul sub g B p) by lia.
      destruct (Nat.ltb_spec m (p * p)) as [X|X].
      + exists s. split; [|exact H]. do 2 f_equal. rewrite (semis_zero zero one add mul sub opp Rth g) by lia. ring.
      + replace (p =? 0) with false by (symmetry; apply Nat.eqb_neq; lia). cbn [negb guard obind].
        assert (p <= q) by (apply Nat.sqrt_le_square; lia).
        destruct (cov_index q N pt _ s (m / p) H) as (sa & -> & Ha); [apply key_quot2; [exact Km|lia|apply Nat.div_le_lower_bound; clear - X P2; nia]|exact I|]. cbn [obind].
        destruct (cov_index q N pt _ sa p Ha) as (sb & -> & Hb); [apply key_low; lia|exact I|]. cbn [obind].
        assert (PB' : pk <= S p). { destruct (le_lt_dec pk (S p)); [assumption|]. exfalso. pose proof (count_mono (S p) B ltac:(lia)) as Q. rewrite (count_S p P) in Q. lia. }
        destruct (IH (S j) (S p) (add s2 (add (f (f one p 1) p 2) (mul (f one p 1) (sub (pt (m / p)) (pt p))))) sb) as (s' & -> & H'); [lia|exact PB'|rewrite (count_S p P); lia|lia|exact Hb|]. exists s'. split; [|exact H']. do 2 f_equal.
        rewrite (semis_S zero one add mul sub opp Rth g p m) by (clear - X P2; nia). assert (Pb : primeb p = true) by now apply primeb_spec. rewrite Pb. replace (p * p <=? m) with true by (symmetry; apply Nat.leb_le; lia). cbn [andb]. unfold semi.
        assert (E1 : f one p 1 = g p). { pose proof (Step p 1 P ltac:(lia)) as Q. cbn [Nat.sub Nat.pow] in Q. replace (g 1) with one in Q by (symmetry; apply Mult). rewrite Q. f_equal. lia. }
        assert (E2 : f (g p) p 2 = g (p * p)). { pose proof (Step p 2 P ltac:(lia)) as Q. cbn [Nat.sub Nat.pow] in Q. rewrite !Nat.mul_1_r in Q. exact Q. }
        rewrite E1, E2. ring.
  Qed.
  Lemma step2_ok sp sk : Cov pt (fun _ => True) sp -> Cov (R pk) (fun _ => False) sk -> sml_find (S (length pa)) pa c 1 = Some k ->
    exists sp' sk', sml_step2 zero one add mul sub f N q c nq pa sp sk = Some (k, sp', sk') /\ Cov (R pk) (fun _ => True) sk'.
  Proof.
    destruct facts as (F1 & F2 & F3 & F4 & F5 & F6 & F7 & F8). destruct pkf as (P & PL & PJ & P3 & PQ2). pose proof (prime_ge _ P) as P2. intros Hp Hk Ef. unfold sml_step2. rewrite Ef. cbn [obind]. rewrite (pa1_nth L k), HK by lia. cbn [obind].
    destruct (cov_put0 q N (R pk) _ sk zero Hk) as (k0 & -> & H0). cbn [obind].
    match goal with |- context[for_range 1 pk ?body k0] => destruct (for_range_spec (fun i s => Cov (R pk) (fun k => k < i) s) body 1 pk k0) as (k1 & -> & H1); [lia| | |] end.
    { apply (cov_weak q N (R pk) _ _ _) with (2 := H0). intros j J Hj. destruct J. lia. }
    { intros m s Hm Hs. destruct (cov_put q N (R pk) _ s m Hs) as (s' & E & H'); [apply key_low; lia|]. rewrite (R_one zero one add mul sub opp Rth g Mult) in E by lia. exists s'. split; [exact E|]. apply (cov_weak q N (R pk) _ _ _) with (2 := H'). intros j J Hj. lia. }
    cbn [obind]. destruct (cov_index q N pt _ sp (pk - 1) Hp) as (p1 & -> & Hp1); [apply key_low; lia|exact I|]. cbn [obind].
    assert (VS : forall m, pk - 1 <= m -> 1 <= m -> m < pk * pk -> add (sub one (pt (pk - 1))) (pt m) = R pk m) by (intros m A B C; rewrite (R_small zero one add mul sub opp Rth g Mult pk m) by lia; ring).
    match goal with |- context[for_range pk (q + 1) ?body (p1, k1)] => destruct (for_range_spec (fun i '(sp, s) => Cov pt (fun _ => True) sp /\ Cov (R pk) (fun k => k < i) s) body pk (q + 1) (p1, k1)) as ((p2 & k2) & -> & Hp2 & H2); [lia|now split| |] end.
    { intros m (a & b) Hm (Ha & Hb). destruct (cov_index q N pt _ a m Ha) as (a' & -> & Ha'); [apply key_low; lia|exact I|]. cbn [obind]. rewrite VS by lia. destruct (cov_put q N (R pk) _ b m Hb) as (b' & -> & Hb'); [apply key_low; lia|]. cbn [obind]. eexists. split; [reflexivity|]. split; [exact Ha'|]. apply (cov_weak q N (R pk) _ _ _) with (2 := Hb'). intros j J Hj. lia. }
    cbn [obind].
    match goal with |- context[for_down 1 (nq + 1) ?body (false, p2, k2)] => destruct (for_down_spec (fun i '(stop, sp, s) => Cov pt (fun _ => True) sp /\ Cov (R pk) (fun k => k <= q \/ (i <= N / k /\ k < pk * pk)) s /\ (stop = true -> forall i', 1 <= i' < i -> pk * pk <= N / i')) body 1 (nq + 1) (false, p2, k2)) as (((st3 & p3) & k3) & -> & Hp3 & H3 & _); [lia| | |] end.
    { split; [exact Hp2|]. split; [|discriminate]. apply (cov_weak q N (R pk) _ _ _) with (2 := H2). intros j J [Hj|(Hj & _)]; [lia|]. destruct (le_lt_dec j q); [lia|]. pose proof (key_high j J ltac:(lia)). lia. }
    { intros i ((stop & a) & b) Hi (Ha & Hb & Hs). destruct (high_lt i ltac:(lia)) as (I1 & I2 & I3). destruct stop.
      - eexists. split; [reflexivity|]. split; [exact Ha|]. split; [|intros _ i' Hi'; apply Hs; [reflexivity|lia]]. apply (cov_weak q N (R pk) _ _ _) with (2 := Hb). intros j J [Hj|(Hj & Hj')]; [now left|right]. split; [|exact Hj']. destruct (Nat.eq_dec (N / j) i) as [E|]; [|lia]. exfalso. destruct (key_inv j J) as (E' & _). specialize (Hs eq_refl i ltac:(lia)). rewrite <- E, E' in Hs. lia.
      - destruct (Nat.leb_spec (pk * pk) (N / i)) as [X|X].
        + eexists. split; [reflexivity|]. split; [exact Ha|]. split.
          * apply (cov_weak q N (R pk) _ _ _) with (2 := Hb). intros j J [Hj|(Hj & Hj')]; [now left|right]. split; [|exact Hj']. destruct (Nat.eq_dec (N / j) i) as [E|]; [|lia]. exfalso. destruct (key_inv j J) as (E' & _). rewrite <- E, E' in X. lia.
          * intros _ i' Hi'. apply (Nat.le_trans _ (N / i)); [exact X|]. apply Nat.div_le_compat_l. lia.
        + assert (key (N / i)) by (apply key_quot; lia). destruct (cov_index q N pt _ a (N / i) Ha) as (a' & -> & Ha'); [assumption|exact I|]. cbn [obind]. rewrite VS by lia. destruct (cov_put q N (R pk) _ b (N / i) Hb) as (b' & -> & Hb'); [assumption|]. cbn [obind]. eexists. split; [reflexivity|]. split; [exact Ha'|]. split; [|discriminate]. apply (cov_weak q N (R pk) _ _ _) with (2 := Hb'). intros j J [Hj|(Hj & Hj')]; [left; now left|]. destruct (Nat.eq_dec (N / j) i) as [E|]; [|left; right; lia]. right. destruct (key_inv j J) as (E' & _). congruence. }
    cbn [obind].
    match goal with |- context[for_down 1 (c + 1) ?body (p3, k3)] => destruct (for_down_spec (fun i '(sp, s) => Cov pt (fun _ => True) sp /\ Cov (R pk) (fun k => k <= q \/ k < pk * pk \/ i <= N / k) s) body 1 (c + 1) (p3, k3)) as ((p4 & k4) & -> & Hp4 & H4); [lia| | |] end.
    { split; [exact Hp3|]. apply (cov_weak q N (R pk) _ _ _) with (2 := H3). intros j J Hj. destruct (le_lt_dec j q) as [|Jq]; [now left|right]. destruct (key_inv j J) as (E' & Jr & Jr'). destruct Hj as [|[|Hj]]; [lia|split; lia|]. split; [lia|]. pose proof (Nat.mul_div_le N j ltac:(lia)) as MD. destruct (le_lt_dec (pk * pk) j) as [C0|C0]; [|exact C0]. exfalso. assert ((c + 1) * (c + 1) * (c + 1) <= j * (N / j)) by (apply Nat.mul_le_mono; [apply (Nat.le_trans _ (pk * pk)); [apply Nat.mul_le_mono; lia|exact C0]|exact Hj]). clear - C4 MD H. lia. }
    { intros i (a & b) Hi (Ha & Hb). assert (Ki : key (N / i)) by (apply key_quot; lia). destruct (Nat.ltb_spec (N / i) (pk * pk)) as [X|X].
      - eexists. split; [reflexivity|]. split; [exact Ha|]. apply (cov_weak q N (R pk) _ _ _) with (2 := Hb). intros j J [Hj|[Hj|Hj]]; [tauto|tauto|]. destruct (Nat.eq_dec (N / j) i) as [E|]; [|right; right; lia]. destruct (key_inv j J) as (E' & _). right. left. rewrite <- E' , E. exact X.
      - assert (KL : k - 1 < length pa) by (apply nth_error_Some; rewrite HK; discriminate).
        destruct (semi_ok (N / i) Ki (length pa + 1 - k) k pk zero a K1 ltac:(lia) PJ ltac:(lia) Ha) as (a1 & -> & Ha1). cbn [obind]. destruct (cov_index q N pt _ a1 (N / i) Ha1) as (a' & -> & Ha'); [assumption|exact I|]. cbn [obind].
        assert (V : add (add (sub one (pt (pk - 1))) (pt (N / i))) (add zero (semis zero add mul sub g pk (N / i))) = R pk (N / i)).
        { destruct (key_inv _ Ki) as (_ & Q1 & Q2). rewrite (R_semi zero one add mul sub opp Rth g Mult (N / i) ltac:(lia) _ pk eq_refl); [ring|lia|clear - Q1 X; nia|lia]. }
        rewrite V. destruct (cov_put q N (R pk) _ b (N / i) Hb) as (b' & -> & Hb'); [assumption|]. cbn [obind]. eexists. split; [reflexivity|]. split; [exact Ha'|]. apply (cov_weak q N (R pk) _ _ _) with (2 := Hb'). intros j J [Hj|[Hj|Hj]]; [tauto|tauto|]. destruct (Nat.eq_dec (N / j) i) as [E|]; [|left; right; right; lia]. right. destruct (key_inv j J) as (E' & _). congruence. }
    cbn [obind]. exists p4, k4. split; [reflexivity|]. apply (cov_weak q N (R pk) _ _ _) with (2 := H4). intros j J _. destruct (key_inv j J) as (_ & _ & Q). right. right. lia.
  Qed.
  End Step2.

  (** ** step 3 *)
  Notation idx := (sml_idx N q tsz).
  Notation sz := (tsz - c + 1).
  Lemma idx_key m : key m -> (m <= q /\ idx m = m) \/ (q < m /\ q + 1 <= idx m /\ idx m = tsz - N / m /\ 1 <= N / m <= nq).
  Proof.
    intros K. unfold sml_idx. destruct (Nat.leb_spec m q) as [H|H]; [left; split; [exact H|reflexivity]|right]. pose proof (key_high m K H). repeat split; lia.
  Qed.
  Lemma idx_lt m : key m -> m < nd -> 1 <= idx m < tsz - c.
  Proof.
    destruct facts as (F1 & F2 & F3 & F4 & F5 & F6 & F7 & F8). intros K H. pose proof (nd_cases m K) as D. pose proof (proj1 K) as Kp. destruct (idx_key m K) as [(A & E)|(A & B & E & D')]; rewrite E; lia.
  Qed.
  Lemma idx_le x m : key m -> 1 <= x <= N -> (idx x <= idx m <-> x <= m).
  Proof.
    intros K X. destruct (key_inv m K) as (Em & _ & Dm). destruct (idx_key m K) as [(A & E)|(A & B & E & D')]; rewrite E; unfold sml_idx; destruct (Nat.leb_spec x q) as [H|H].
    - reflexivity.
    - assert (N / x <= nq) by (apply Nat.div_le_compat_l; lia). lia.
    - lia.
    - assert (N / x <= nq) by (apply Nat.div_le_compat_l; lia). assert (1 <= N / x) by (apply Nat.div_le_lower_bound; lia). split; intros L0.
      + assert (N / m <= N / x) by lia. apply (Nat.le_trans _ (N / (N / x))); [apply Nat.div_le_lower_bound; [lia|]; rewrite Nat.mul_comm; apply Nat.mul_div_le; lia|]. rewrite <- Em. apply Nat.div_le_compat_l. lia.
      + assert (N / m <= N / x) by (apply Nat.div_le_compat_l; lia). lia.
  Qed.
  Definition val (b j : nat) : T := R b (if j <=? q then j else N / (tsz - j)).
  Notation Fen := (fen zero add sz).
  Definition good (b : nat) (A : nat -> T) : Prop := A 0 = zero /\ forall m, key m -> m < nd -> A (idx m) = R b m.
  Lemma fen_fill Ft b lim j0 v : Fen Ft (fun j => if (1 <=? j) && (j <? lim) then val b j else zero) -> 1 <= lim -> j0 = lim -> v = val b lim ->
    exists F1 F2, fw_add add Ft j0 v = Some F1 /\ fw_add add F1 (j0 + 1) (opp v) = Some F2 /\ Fen F2 (fun j => if (1 <=? j) && (j <? S lim) then val b j else zero).
  Proof.
    intros H L1 -> ->. destruct (fen_add zero one add mul sub opp Rth sz Ft _ lim (val b lim) H) as (F1 & E1 & H1). exists F1. destruct (fen_add zero one add mul sub opp Rth sz F1 _ (lim + 1) (opp (val b lim)) H1) as (F2 & E2 & H2). exists F2. split; [exact E1|]. split; [exact E2|].
    apply (fen_ext zero add sz F2 _ _ H2). intros j _. destruct (Nat.leb_spec (lim + 1) j), (Nat.leb_spec lim j), (Nat.leb_spec 1 j), (Nat.ltb_spec j lim), (Nat.ltb_spec j (S lim)); try (exfalso; lia); cbn [andb]; try ring. replace j with lim by lia. ring.
  Qed.
  Lemma mid_lt i : c + 1 <= i <= nq -> key (N / i) /\ q < N / i /\ N / i < nd /\ N / (N / i) = i.
  Proof.
    intros Hi. destruct facts as (F1 & F2 & F3 & F4 & F5 & F6 & F7 & F8). destruct (high_lt i ltac:(lia)) as (A & B & D). assert (K : key (N / i)) by (apply key_quot; lia). pose proof (nd_cases _ K) as X. rewrite D in X. repeat split; try assumption; try apply K; lia.
  Qed.
  Lemma q_lt_nd : q < nd.
  Proof. destruct facts as (F1 & F2 & F3 & F4 & F5 & F6 & F7 & F8). apply (Nat.lt_le_trans _ (q + 1)); [lia|]. apply Nat.div_le_lower_bound; [lia|exact F5]. Qed.

  Lemma get_ok b Ft A s m : Fen Ft A -> good b A -> Cov (R b) (fun m => nd <= m) s -> key m ->
    exists s', sml_get zero add N q nd tsz Ft s m = Some (R b m, s') /\ Cov (R b) (fun m => nd <= m) s'.
  Proof.
    intros HF (_ & HG) HC K. unfold sml_get. destruct (Nat.leb_spec nd m) as [H|H]; [now apply cov_index|]. pose proof (idx_lt m K H). rewrite (fen_get zero one add mul sub opp Rth sz Ft A) by (try assumption; lia). cbn [obind]. rewrite HG by assumption. exists s. now split.
  Qed.

  Lemma visit_good p A Ft vs : is_prime p -> Fen Ft A -> good (S p) A -> Permutation vs (map (vis mul g 1 one) (WL p (nd - 1))) ->
    exists Ft' A', visit_all (fun Ft m v => fw_add add Ft (idx m) v) vs Ft = Some Ft' /\ Fen Ft' A' /\ good p A'.
  Proof.
    intros P HF (G0 & HG) HP. destruct (fen_visit zero one add mul sub opp Rth sz idx vs Ft A HF) as (Ft' & E & HF'). eexists Ft', _. split; [exact E|]. split; [exact HF'|].
    assert (X : forall j, sum_list zero add (map snd (filter (fun t => idx (fst t) <=? j) vs)) = sum_list zero add (map g (filter (fun x => idx x <=? j) (WL p (nd - 1))))).
    { intros j. transitivity (sum_list zero add (map snd (filter (fun t => idx (fst t) <=? j) (map (vis mul g 1 one) (WL p (nd - 1)))))).
      - apply (sum_list_perm zero one add mul sub opp Rth). apply Permutation_map. clear - HP. induction HP; cbn [filter]; repeat match goal with |- context[if ?t then _ else _] => destruct t end; try constructor; try assumption; try apply Permutation_refl. now apply (Permutation_trans IHHP1).
      - f_equal. clear - Rth. induction (WL p (nd - 1)) as [|x l IH]; [reflexivity|]. cbn [map filter vis fst]. rewrite Nat.mul_1_l. destruct (idx x <=? j); [|exact IH]. cbn [map snd vis]. rewrite IH. f_equal. ring. }
    destruct facts as (F1 & F2 & F3 & F4 & F5 & F6 & F7 & F8). assert (DN : nd <= N) by (apply Nat.div_le_upper_bound; [lia|]; clear - C2; nia).
    assert (Y : forall x, In x (WL p (nd - 1)) -> 1 <= x <= N /\ x < nd) by (intros x I0; apply (WL_in p (nd - 1) x P) in I0; lia). split.
    - rewrite X, G0. replace (filter (fun x => idx x <=? 0) (WL p (nd - 1))) with (@nil nat); [cbn; ring|]. symmetry. apply filter_none. intros x Ix. apply Nat.leb_gt. destruct (Y x Ix) as (Xr & _). unfold sml_idx. destruct (x <=? q) eqn:Eq; [lia|]. apply Nat.leb_gt in Eq. assert (N / x <= nq) by (apply Nat.div_le_compat_l; lia). lia.
    - intros m K Hm. rewrite X, HG by assumption. rewrite (R_least zero one add mul sub opp Rth g p m P). do 3 f_equal.
      transitivity (filter (fun x => x <=? m) (WL p (nd - 1))); [apply filter_same|].
      + intros x I0. apply Y in I0. pose proof (idx_le x m K ltac:(lia)) as Q. destruct (Nat.leb_spec (idx x) (idx m)), (Nat.leb_spec x m); try reflexivity; lia.
      + unfold with_least_factor. destruct K as (K & _). clear - Hm K. replace (nd - 1 - 1) with ((m - 1) + (nd - 1 - m)) by lia. rewrite seq_app, !filter_app.
        match goal with |- ?a ++ ?b = _ => replace b with (@nil nat) end; [rewrite app_nil_r|].
        * replace (2 + (m - 1)) with (S m) by lia. rewrite filter_same with (Q := fun _ => true); [|intros x I0; apply filter_In in I0; destruct I0 as (I0 & _); apply in_seq in I0; apply Nat.leb_le; lia]. match goal with |- filter _ ?l = _ => generalize l end. clear. intros l. induction l as [|x l IH]; [reflexivity|]. cbn [filter]. now rewrite IH.
        * symmetry. apply filter_none. intros x I0. apply filter_In in I0. destruct I0 as (I0 & _). apply in_seq in I0. apply Nat.leb_gt. lia.
  Qed.


  Section Main.
  Variables (pl h : nat).
  Hypothesis HL : nth_error pa (length pa - 1) = Some pl.
  Hypothesis Hh : h = nd / pl + 1.
  Hypothesis Plnd : pl <= nd.
  Lemma h2 : 2 <= h /\ nd < pl * h /\ pl < L.
  Proof.
    destruct (nth_prime _ _ _ HL) as (P & PL & _). pose proof (prime_ge _ P). rewrite Hh. repeat split; try assumption.
    - assert (1 <= nd / pl) by (apply Nat.div_le_lower_bound; lia). lia.
    - replace (nd / pl + 1) with (S (nd / pl)) by lia. apply Nat.mul_succ_div_gt. lia.
  Qed.
  Lemma main_ok k : forall b Ft Fk1 Fk A, 1 <= k -> length (primes_below b) = k -> k <= length pa -> Fen Ft A -> good b A -> Cov (R b) (fun m => nd <= m) Fk -> Cov (R b) (fun _ => False) Fk1 ->
    exists k' b' Ft' Fk1' Fk' A', sml_main zero one add mul f N q c nd tsz h pa k (k + 1) Ft Fk1 Fk = Some (k' + 1, Ft', Fk1', Fk') /\
      1 <= k' <= k /\ length (primes_below b') = k' /\ Fen Ft' A' /\ good b' A' /\ Cov (R b') (fun m => nd <= m) Fk' /\ Cov (R b') (fun _ => False) Fk1'.
  Proof.
    destruct facts as (F1 & F2 & F3 & F4 & F5 & F6 & F7 & F8). destruct h2 as (H2 & H3 & H4).
    induction k as [|k IH]; intros b Ft Fk1 Fk A K1 HB KL HF HG HC HC1; [lia|]. cbn [sml_main]. rewrite (pa1_nth L (S k)) by lia. destruct (nth_error pa (S k - 1)) as [p|] eqn:E; [|apply nth_error_None in E; lia]. cbn [obind]. destruct (nth_prime _ _ _ E) as (P & PL & PJ). pose proof (prime_ge _ P) as P2.
    destruct (Nat.leb_spec p h) as [X|X].
    - exists (S k), b, Ft, Fk1, Fk, A. split; [reflexivity|]. split; [lia|]. split; [exact HB|]. split; [exact HF|]. split; [exact HG|]. split; [exact HC|exact HC1].
    - assert (HS : forall m, R b m = R (S p) m) by (intros m; apply R_count; rewrite (count_S p P); lia).
      match goal with |- context[for_down 1 (c + 1) ?body (Fk, Fk1)] => destruct (for_down_spec (fun i '(s1, s) => Cov (R b) (fun m => nd <= m) s1 /\ Cov (R p) (fun m => i <= N / m <= c) s) body 1 (c + 1) (Fk, Fk1)) as ((s1' & s') & -> & Hs1 & Hs); [lia| | |] end.
      { split; [exact HC|]. apply (cov_drop q N (R b) (R p) (fun _ => False)) with (1 := HC1). intros m _ Hm. lia. }
      { intros i (a & s0) Hi (Ha & Hs0). assert (Ki : key (N / i)) by (apply key_quot; lia).
        destruct (calc_F_ok zero one add mul sub opp Rth f g Mult Step (sml_get zero add N q nd tsz Ft) (Cov (R b) (fun m => nd <= m)) p key P) with (m := N / i) (st := a) as (a' & -> & Ha').
        - intros m K M1. apply key_quot2; [exact K|lia|exact M1].
        - intros st m Hst K _. destruct (get_ok b Ft A st m HF HG Hst K) as (st' & -> & Hst'). exists st'. split; [|exact Hst']. now rewrite HS.
        - apply Ki.
        - exact Ki.
        - exact Ha.
        - cbn [obind]. destruct (cov_put q N (R p) _ s0 (N / i) Hs0 Ki) as (s2 & -> & Hs2). cbn [obind]. eexists. split; [reflexivity|]. split; [exact Ha'|]. apply (cov_weak q N (R p) _ _ _) with (2 := Hs2). intros m K Hm. destruct (Nat.eq_dec (N / m) i) as [E0|]; [right|left; lia]. destruct (key_inv m K) as (E1 & _). congruence. }
      cbn [obind]. assert (QL : (nd - 1) / p < L). { apply (Nat.le_lt_trans _ pl); [|exact H4]. apply Nat.lt_succ_r. apply Nat.div_lt_upper_bound; [lia|]. assert (pl * h <= pl * p) by (apply Nat.mul_le_mono_l; lia). rewrite Nat.mul_succ_r. rewrite (Nat.mul_comm p pl). lia. }
      unfold traverse_rough_numbers. destruct (trn_ok zero one add mul sub opp Rth f g L Mult Step (fun Ft m v => fw_add add Ft (idx m) v) (S (length pa)) (nd - 1) (S k) 1 one p ltac:(clear; lia) ltac:(clear; lia) E QL) as (vs & Pv & ->).
      assert (HG' : good (S p) A) by (destruct HG as (G0 & HG); split; [exact G0|]; intros m K Hm; rewrite <- HS; now apply HG).
      destruct (visit_good p A Ft vs P HF HG' Pv) as (Ft' & A' & -> & HF' & HGp). cbn [obind]. replace (S k) with (k + 1) by lia.
      assert (K0 : 1 <= k). { destruct k; [|lia]. exfalso. assert (p = 2) by (apply first_two; [cbn in PJ; exact PJ|exact P]). lia. }
      destruct (IH p Ft' s1' s' A' K0) as (k' & b' & Ft2 & Fk12 & Fk2 & A2 & E2 & Kr & Rest); [cbn in PJ; lia|lia|exact HF'|exact HGp| | |].
      + apply (cov_weak q N (R p) _ _ _) with (2 := Hs). intros m K Hm. destruct (key_inv m K) as (_ & _ & Q). apply (nd_cases m K) in Hm. lia.
      + apply (cov_drop q N (R b) (R p) (fun m => nd <= m)) with (1 := Hs1). intros m _ [].
      + exists k', b', Ft2, Fk12, Fk2, A2. split; [exact E2|]. split; [lia|exact Rest].
  Qed.
  Lemma step3_ok last b Ft Fk1 Fk : 2 <= last -> length (primes_below b) = last - 1 -> last - 1 <= length pa -> Fen Ft (fun _ => zero) -> Cov (R b) (fun _ => True) Fk -> Cov (R b) (fun _ => False) Fk1 ->
    exists k' b' Fk1' Fk', sml_step3 zero one add mul opp f N q c nd nq tsz h pa last Ft Fk1 Fk = Some (k' + 1, Fk1', Fk') /\
      1 <= k' <= length pa /\ length (primes_below b') = k' /\ Cov (R b') (fun _ => True) Fk' /\ Cov (R b') (fun _ => False) Fk1'.
  Proof.
    destruct facts as (F1 & F2 & F3 & F4 & F5 & F6 & F7 & F8). pose proof q_lt_nd as QD. intros HL2 HB HLa HF HC HC1. unfold sml_step3.
    match goal with |- context[for_range 1 (q + 1) ?body (Ft, Fk)] => destruct (for_range_spec (fun i '(Ft, s) => Fen Ft (fun j => if (1 <=? j) && (j <? i) then val b j else zero) /\ Cov (R b) (fun _ => True) s) body 1 (q + 1) (Ft, Fk)) as ((Ft1 & Fka) & -> & HF1 & HC2); [lia| | |] end.
    { split; [|exact HC]. apply (fen_ext zero add sz Ft _ _ HF). intros j _. destruct (Nat.leb_spec 1 j), (Nat.ltb_spec j 1); try reflexivity; lia. }
    { intros m (F0 & s0) Hm (HF0 & HC0). assert (Km : key m) by (apply key_low; lia). destruct (cov_index q N (R b) _ s0 m HC0 Km I) as (sa & -> & Ha). cbn [obind].
      destruct (fen_fill F0 b m m (R b m) HF0 ltac:(lia) eq_refl) as (Fa & Fb & -> & E2 & Hb); [unfold val; destruct (Nat.leb_spec m q); [reflexivity|lia]|]. cbn [obind]. destruct (cov_index q N (R b) _ sa m Ha Km I) as (sb & -> & Hsb). cbn [obind]. rewrite E2. cbn [obind]. eexists. split; [reflexivity|]. now split. }
    cbn [obind].
    match goal with |- context[for_down (c + 1) (nq + 1) ?body (Ft1, Fka)] => destruct (for_down_spec (fun i '(Ft, s) => Fen Ft (fun j => if (1 <=? j) && (j <? tsz + 1 - i) then val b j else zero) /\ Cov (R b) (fun _ => True) s) body (c + 1) (nq + 1) (Ft1, Fka)) as ((Ft2 & Fkb) & -> & HF2 & HC3); [lia| | |] end.
    { split; [|exact HC2]. replace (tsz + 1 - (nq + 1)) with (q + 1) by lia. exact HF1. }
    { intros i (F0 & s0) Hi (HF0 & HC0). destruct (mid_lt i ltac:(lia)) as (Km & M1 & M2 & M3). destruct (cov_index q N (R b) _ s0 (N / i) HC0 Km I) as (sa & -> & Ha). cbn [obind].
      assert (X1 : 1 <= tsz + 1 - S i /\ tsz - i = tsz + 1 - S i /\ q < tsz + 1 - S i /\ tsz - (tsz + 1 - S i) = i /\ tsz + 1 - i = S (tsz + 1 - S i)) by (clear - Hi; revert Hi; generalize nq; generalize q; intros; lia). destruct X1 as (X1 & X2 & X3 & X4 & X5).
      destruct (fen_fill F0 b (tsz + 1 - S i) (tsz - i) (R b (N / i)) HF0 X1 X2) as (Fa & Fb & -> & E2 & Hb).
      { unfold val. rewrite (proj2 (Nat.leb_gt _ _) X3), X4. reflexivity. }
      cbn [obind]. destruct (cov_index q N (R b) _ sa (N / i) Ha Km I) as (sb & -> & Hsb). cbn [obind]. rewrite E2. cbn [obind]. eexists. split; [reflexivity|]. split; [|exact Hsb]. rewrite X5. exact Hb. }
    cbn [obind].
    assert (HG : good b (fun j => if (1 <=? j) && (j <? tsz + 1 - (c + 1)) then val b j else zero)).
    { split; [reflexivity|]. intros m K Hm. pose proof (idx_lt m K Hm) as IL. destruct (Nat.leb_spec 1 (idx m)); [|lia]. destruct (Nat.ltb_spec (idx m) (tsz + 1 - (c + 1))); [|lia]. cbn [andb]. unfold val. destruct (key_inv m K) as (Em & _). destruct (idx_key m K) as [(A & E)|(A & B & E & D)]; rewrite E in *.
      - destruct (Nat.leb_spec m q); [reflexivity|lia].
      - destruct (Nat.leb_spec (tsz - N / m) q) as [Z0|Z0]; [lia|]. replace (tsz - (tsz - N / m)) with (N / m) by (clear - D; revert D; generalize (N / m); generalize nq; generalize q; intros; lia). now rewrite Em. }
    destruct (main_ok (last - 1) b Ft2 Fk1 Fkb _ ltac:(lia) HB HLa HF2 HG) as (k' & b' & Ft3 & Fk1a & Fkc & A' & E & Kr & HB' & HF3 & HG3 & HC4 & HC5); [apply (cov_weak q N (R b) (fun _ => True)); [intros; exact I|exact HC3]|exact HC1|].
    replace (last - 1 + 1) with last in E by lia. rewrite E. cbn [obind].
    assert (GL : forall m s, m < nd -> key m -> sml_get zero add N q nd tsz Ft3 s m = Some (R b' m, s)).
    { intros m s Hm K. unfold sml_get. destruct (Nat.leb_spec nd m); [lia|]. pose proof (idx_lt m K Hm). rewrite (fen_get zero one add mul sub opp Rth sz Ft3 A') by (try assumption; lia). cbn [obind]. destruct HG3 as (_ & HG3). now rewrite HG3. }
    match goal with |- context[for_range 0 (q + 1) ?body (Fk1a, Fkc)] => destruct (for_range_spec (fun i '(s1, s) => s1 = Fk1a /\ Cov (R b') (fun m => nd <= m \/ m < i) s) body 0 (q + 1) (Fk1a, Fkc)) as ((s1a & Fkd) & -> & -> & HC6); [lia| | |] end.
    { split; [reflexivity|]. apply (cov_weak q N (R b') _ _ _) with (2 := HC4). intros m K Hm. destruct K. lia. }
    { intros m (s1x & s0) Hm (-> & H0). destruct (Nat.eq_dec m 0) as [->|M0].
      - unfold sml_get. destruct (Nat.leb_spec nd 0); [lia|]. replace (sml_idx N q tsz 0) with 0 by reflexivity. rewrite (fen_get zero one add mul sub opp Rth sz Ft3 A') by (try assumption; lia). cbn [obind]. destruct (cov_put0 q N (R b') _ s0 (A' 0) H0) as (s2 & -> & H2'). cbn [obind]. eexists. split; [reflexivity|]. split; [reflexivity|]. apply (cov_weak q N (R b') _ _ _) with (2 := H2'). intros m K Hk. destruct K. lia.
      - assert (Km : key m) by (apply key_low; lia). rewrite GL by (try assumption; lia). cbn [obind]. destruct (cov_put q N (R b') _ s0 m H0 Km) as (s2 & -> & H2'). cbn [obind]. eexists. split; [reflexivity|]. split; [reflexivity|]. apply (cov_weak q N (R b') _ _ _) with (2 := H2'). intros j K Hk. lia. }
    cbn [obind].
    match goal with |- context[for_down (c + 1) (nq + 1) ?body (Fk1a, Fkd)] => destruct (for_down_spec (fun i '(s1, s) => s1 = Fk1a /\ Cov (R b') (fun m => nd <= m \/ m <= q \/ i <= N / m) s) body (c + 1) (nq + 1) (Fk1a, Fkd)) as ((s1b & Fke) & -> & -> & HC7); [lia| | |] end.
    { split; [reflexivity|]. apply (cov_weak q N (R b') _ _ _) with (2 := HC6). intros m K Hm. destruct (le_lt_dec m q); [lia|]. pose proof (key_high m K ltac:(lia)). lia. }
    { intros i (s1x & s0) Hi (-> & H0). destruct (mid_lt i ltac:(lia)) as (Km & M1 & M2 & M3). rewrite GL by assumption. cbn [obind]. destruct (cov_put q N (R b') _ s0 (N / i) H0 Km) as (s2 & -> & H2'). cbn [obind]. eexists. split; [reflexivity|]. split; [reflexivity|]. apply (cov_weak q N (R b') _ _ _) with (2 := H2'). intros m K Hk. destruct (Nat.eq_dec (N / m) i) as [E0|]; [right|left; lia]. destruct (key_inv m K) as (E1 & _). congruence. }
    cbn [obind]. exists k', b', Fk1a, Fke. split; [reflexivity|]. split; [lia|]. split; [exact HB'|]. split; [|exact HC5]. apply (cov_weak q N (R b') _ _ _) with (2 := HC7). intros m K _. pose proof (nd_cases m K). lia.
  Qed.
  End Main.

  (** ** step 4 *)
  Lemma step4_ok last b Fk1 Fk : 1 <= last -> length (primes_below b) = last - 1 -> last - 1 <= length pa -> Cov (R b) (fun _ => True) Fk -> Cov (R b) (fun _ => False) Fk1 ->
    exists Fk1' Fk', sml_step4 one add mul f N q nq pa last Fk1 Fk = Some (Fk1', Fk') /\ Cov (summatory zero add g) (fun _ => True) Fk'.
  Proof.
    destruct facts as (F1 & F2 & F3 & F4 & F5 & F6 & F7 & F8). intros L1 HB HLa HC HC1. unfold sml_step4.
    match goal with |- context[for_down 1 last ?body (Fk1, Fk)] => destruct (for_down_spec (fun k '(s1, s) => exists b, length (primes_below b) = k - 1 /\ k - 1 <= length pa /\ Cov (R b) (fun _ => True) s /\ Cov (R b) (fun _ => False) s1) body 1 last (Fk1, Fk)) as ((s1' & s') & -> & b' & HB' & _ & HC' & _); [lia|exists b; now repeat split| |] end.
    - intros k (a & s) Hk (b0 & HB0 & HLb & HC0 & HC10). rewrite (pa1_nth L k) by lia. destruct (nth_error pa (k - 1)) as [p|] eqn:E; [|apply nth_error_None in E; lia]. cbn [obind]. destruct (nth_prime _ _ _ E) as (P & PL & PJ). pose proof (prime_ge _ P) as P2.
      assert (HS : forall m, R b0 m = R (S p) m) by (intros m; apply R_count; rewrite (count_S p P); lia).
      assert (CF : forall m st, key m -> Cov (R b0) (fun _ => True) st -> exists st', calc_F_k one add mul f sqm_index p m st = Some (R p m, st') /\ Cov (R b0) (fun _ => True) st').
      { intros m st Km Hst. apply (calc_F_ok zero one add mul sub opp Rth f g Mult Step sqm_index (Cov (R b0) (fun _ => True)) p key P).
        - intros j K M1. apply key_quot2; [exact K|lia|exact M1].
        - intros st0 j Hst0 K _. destruct (cov_index q N (R b0) _ st0 j Hst0 K I) as (st' & -> & Hst'). exists st'. split; [|exact Hst']. now rewrite HS.
        - apply Km.
        - exact Km.
        - exact Hst. }
      match goal with |- context[for_range 1 (q + 1) ?body (s, a)] => destruct (for_range_spec (fun i '(s1, s) => Cov (R b0) (fun _ => True) s1 /\ Cov (R p) (fun m => m < i) s) body 1 (q + 1) (s, a)) as ((s1a & sa) & -> & H1 & H2); [lia| | |] end.
      { split; [exact HC0|]. apply (cov_drop q N (R b0) (R p) (fun _ => False)) with (1 := HC10). intros m K Hm. destruct K. lia. }
      { intros m (x1 & x) Hm (Hx1 & Hx). assert (Km : key m) by (apply key_low; lia). destruct (CF m x1 Km Hx1) as (x1' & -> & Hx1'). cbn [obind]. destruct (cov_put q N (R p) _ x m Hx Km) as (x' & -> & Hx'). cbn [obind]. eexists. split; [reflexivity|]. split; [exact Hx1'|]. apply (cov_weak q N (R p) _ _ _) with (2 := Hx'). intros j K Hj. lia. }
      cbn [obind].
      match goal with |- context[for_down 1 (nq + 1) ?body (s1a, sa)] => destruct (for_down_spec (fun i '(s1, s) => Cov (R b0) (fun _ => True) s1 /\ Cov (R p) (fun m => m <= q \/ i <= N / m) s) body 1 (nq + 1) (s1a, sa)) as ((s1b & sb) & -> & H3 & H4); [lia| | |] end.
      { split; [exact H1|]. apply (cov_weak q N (R p) _ _ _) with (2 := H2). intros m K Hm. destruct (le_lt_dec m q); [lia|]. pose proof (key_high m K ltac:(lia)). lia. }
      { intros i (x1 & x) Hi (Hx1 & Hx). assert (Km : key (N / i)) by (apply key_quot; lia). destruct (CF (N / i) x1 Km Hx1) as (x1' & -> & Hx1'). cbn [obind]. destruct (cov_put q N (R p) _ x (N / i) Hx Km) as (x' & -> & Hx'). cbn [obind]. eexists. split; [reflexivity|]. split; [exact Hx1'|]. apply (cov_weak q N (R p) _ _ _) with (2 := Hx'). intros m K Hk0. destruct (Nat.eq_dec (N / m) i) as [E0|]; [right|left; lia]. destruct (key_inv m K) as (E1 & _). congruence. }
      exists (s1b, sb). split; [reflexivity|]. exists p. split; [exact PJ|]. split; [lia|]. split.
      + apply (cov_weak q N (R p) _ _ _) with (2 := H4). intros m K _. destruct (key_inv m K) as (_ & _ & Q). right. lia.
      + apply (cov_drop q N (R b0) (R p) (fun _ => True)) with (1 := H3). intros m _ [].
    - exists s1', s'. split; [reflexivity|]. apply (cov_drop q N (R b') (summatory zero add g) (fun _ => True)) with (1 := HC'). intros m K _. split; [exact I|]. rewrite (R_count zero add g b' 0 m) by (rewrite HB'; reflexivity). reflexivity.
  Qed.
End Algo.
