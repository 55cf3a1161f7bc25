(** prime_pi13_sqrt, and the sums over exact integers. *)
From Coq Require Import Ring Ring_theory Sorted.
From Verif Require Import Lib BaseModel LohiModel LohiSpec RingSpec RingProofs PrimesSpec PrimesProofs PiSpec PiModel PiProofs PiProofs2.
Open Scope nat_scope.

Notation zsum := (rsum 0%Z Z.add).
Definition g4 (c k : nat) : Z := if k mod 4 =? c then 1%Z else 0%Z.
Notation F4 c := (sieved 0%Z Z.add (g4 c)).

Section Pi13.
Variables (root : nat -> option nat) (mk0 n : nat).
Hypothesis N2 : 2 <= n.
Hypothesis Root : root n = Some (Nat.sqrt n).
Notation q := (Nat.sqrt n + 1).
Definition isq (v : nat) : Prop := exists i, 1 <= i <= n /\ v = n / i.
Lemma q_facts13 : 2 <= q /\ (q - 1) * (q - 1) <= n /\ n < q * q /\ q <= n.
Proof.
  pose proof (Nat.sqrt_spec n ltac:(lia)) as S. assert (1 <= Nat.sqrt n) by (apply Nat.sqrt_le_square; lia). cbn in S. assert (Nat.sqrt n < n) by (apply Nat.sqrt_lt_lin; lia). cbn. lia.
Qed.
Lemma isq_key v : isq v -> skey q n v.
Proof. clear N2. intros (i & I & ->). split; [apply Nat.div_le_lower_bound; lia|]. right. exists i. split; [lia|reflexivity]. Qed.
Lemma isq_small v : 1 <= v < q -> isq v.
Proof. pose proof q_facts13 as (_ & Q & _ & _). intros V. exists (n / v). rewrite div_div_id by nia. split; [|reflexivity]. split; [apply Nat.div_le_lower_bound; nia|apply Nat.div_le_upper_bound; nia]. Qed.
Lemma isq_div v p : isq v -> 1 <= p <= v -> isq (v / p).
Proof.
  intros (i & I & ->) P. exists (i * p). rewrite Nat.div_div by lia. split; [|reflexivity]. pose proof (Nat.mul_div_le n i ltac:(lia)). split; nia.
Qed.
Lemma isq_le v : isq v -> 1 <= v <= n.
Proof. intros (i & I & ->). split; [apply Nat.div_le_lower_bound; lia|apply Nat.div_le_upper_bound; nia]. Qed.

(** the list of keys: all quotients, in decreasing order *)
Lemma keys_in v : In v (keys13 n q) <-> isq v.
Proof.
  pose proof q_facts13 as (Q1 & Q2 & Q3 & Q4). unfold keys13. rewrite in_app_iff, in_map_iff, <- in_rev. split.
  - intros [(i & <- & I)|I]; apply in_seq in I; [exists i; split; [lia|reflexivity]|]. apply isq_small. assert (n / q < q) by (apply Nat.div_lt_upper_bound; lia). lia.
  - intros (i & I & ->). destruct (Nat.le_gt_cases i q) as [C|C]; [left; exists i; split; [reflexivity|apply in_seq; lia]|]. destruct (Nat.eq_dec (n / i) (n / q)) as [E|E]; [left; exists q; split; [congruence|apply in_seq; lia]|].
    right. apply in_seq. assert (n / i <= n / q) by (apply Nat.div_le_compat_l; lia). assert (1 <= n / i) by (apply Nat.div_le_lower_bound; lia). lia.
Qed.
Lemma div_step i : 1 <= i -> i * (i + 1) <= n -> n / (i + 1) < n / i.
Proof. intros I H. apply Nat.div_lt_upper_bound; [lia|]. pose proof (Nat.mul_succ_div_gt n i ltac:(lia)). assert (i + 1 <= n / i) by (apply Nat.div_le_lower_bound; lia). nia. Qed.
Lemma div_dec i : 1 <= i < q -> n / (i + 1) < n / i.
Proof.
  pose proof q_facts13 as (Q1 & Q2 & Q3 & Q4). intros I. destruct (Nat.le_gt_cases (i * (i + 1)) n) as [C|C]; [now apply div_step; [lia|]|].
  assert (E : i = q - 1) by nia. subst i. replace (q - 1 + 1) with q in * by lia. assert (q - 1 <= n / (q - 1)) by (apply Nat.div_le_lower_bound; lia). assert (n / q < q - 1) by (apply Nat.div_lt_upper_bound; nia). lia.
Qed.
Lemma desc_map k : forall a, 1 <= a -> a + k <= q + 1 -> StronglySorted gt (map (fun i => n / i) (seq a k)).
Proof.
  induction k as [|k IH]; intros a A H; cbn [seq map]; [constructor|]. constructor; [apply IH; lia|]. apply Forall_forall. intros x X. apply in_map_iff in X as (i & <- & I). apply in_seq in I.
  assert (D : n / (a + 1) < n / a) by (apply div_dec; lia). assert (n / i <= n / (a + 1)) by (apply Nat.div_le_compat_l; lia). lia.
Qed.
Lemma sorted_app (a b : list nat) : StronglySorted gt a -> StronglySorted gt b -> (forall x y, In x a -> In y b -> x > y) -> StronglySorted gt (a ++ b).
Proof.
  intros A B H. induction A as [|x a A IH F]; cbn [app]; [exact B|]. constructor; [apply IH; intros; apply H; auto; now right|]. apply Forall_app. split; [exact F|]. apply Forall_forall. intros y Y. apply H; auto. now left.
Qed.
Lemma desc_rev k : forall a, StronglySorted gt (rev (seq a k)).
Proof.
  induction k as [|k IH]; intros a; cbn [seq rev]; [constructor|]. apply sorted_app; [apply IH|repeat constructor|]. intros x y X [<-|[]]. apply in_rev, in_seq in X. lia.
Qed.
Lemma keys_desc : StronglySorted gt (keys13 n q).
Proof.
  unfold keys13. apply sorted_app; [apply desc_map; lia|apply desc_rev|]. intros x y X Y. apply in_map_iff in X as (i & <- & I). apply in_seq in I. apply in_rev, in_seq in Y. assert (n / q <= n / i) by (apply Nat.div_le_compat_l; lia). lia.
Qed.

(** both maps on the quotients *)
Definition repq (s : @sqm Z) (f : nat -> Z) : Prop := exists f', rep q n s f' /\ forall v, isq v -> f' v = f v.
Definition rep2 (s : two) (f0 f1 : nat -> Z) : Prop := repq (fst s) f0 /\ repq (snd s) f1.
Lemma repq_ext s f g : repq s f -> (forall v, isq v -> f v = g v) -> repq s g.
Proof. intros (f' & R & E) H. exists f'. split; [exact R|]. intros v V. rewrite <- H by exact V. auto. Qed.
Lemma repq_index s f v : repq s f -> isq v -> exists s', sqm_index s v = Some (f v, s') /\ repq s' f.
Proof. intros (f' & R & E) V. destruct (rep_index q n s f' v R (isq_key v V)) as (s' & E1 & R1). exists s'. rewrite E1, E by exact V. split; [reflexivity|]. now exists f'. Qed.
Lemma repq_put s f v x : repq s f -> isq v -> exists s', sqm_put s v x = Some s' /\ repq s' (fput f v x).
Proof.
  intros (f' & R & E) V. destruct (rep_put q n s f' v x R (isq_key v V)) as (s' & E1 & R1). exists s'. split; [exact E1|]. exists (fput f' v x). split; [exact R1|]. intros u U. unfold fput. destruct (u =? v); auto.
Qed.
Definition pick (i : bool) (f0 f1 : nat -> Z) := if i then f1 else f0.
Lemma read2_run s f0 f1 i v : rep2 s f0 f1 -> isq v -> exists s', read2 s i v = Some (pick i f0 f1 v, s') /\ rep2 s' f0 f1.
Proof.
  intros (A & B) V. unfold read2, at2, with2. destruct i; cbn [pick].
  - destruct (repq_index _ _ v B V) as (m & -> & R). cbn [obind]. eexists. split; [reflexivity|]. now split.
  - destruct (repq_index _ _ v A V) as (m & -> & R). cbn [obind]. eexists. split; [reflexivity|]. now split.
Qed.
Lemma put2_run s f0 f1 i v x : rep2 s f0 f1 -> isq v -> exists s', put2 s i v x = Some s' /\ rep2 s' (if i then f0 else fput f0 v x) (if i then fput f1 v x else f1).
Proof.
  intros (A & B) V. unfold put2, at2, with2. destruct i.
  - destruct (repq_put _ _ v x B V) as (m & -> & R). cbn [obind]. eexists. split; [reflexivity|]. now split.
  - destruct (repq_put _ _ v x A V) as (m & -> & R). cbn [obind]. eexists. split; [reflexivity|]. now split.
Qed.
Lemma rep2_ext s f0 f1 g0 g1 : rep2 s f0 f1 -> (forall v, isq v -> f0 v = g0 v) -> (forall v, isq v -> f1 v = g1 v) -> rep2 s g0 g1.
Proof. intros (A & B) H0 H1. split; eapply repq_ext; eauto. Qed.

(** the initial values *)
Lemma total4 v : total 0%Z Z.add (g4 1) v = Z.of_nat ((v + 3) / 4) /\ total 0%Z Z.add (g4 3) v = Z.of_nat ((v + 1) / 4).
Proof.
  unfold total. induction v as [|v (IH1 & IH2)]; [split; reflexivity|]. cbn [rsum]. rewrite IH1, IH2. unfold g4.
  pose proof (Nat.div_mod (v + 3) 4 ltac:(lia)). pose proof (Nat.mod_upper_bound (v + 3) 4 ltac:(lia)). pose proof (Nat.div_mod (S v + 3) 4 ltac:(lia)). pose proof (Nat.mod_upper_bound (S v + 3) 4 ltac:(lia)).
  pose proof (Nat.div_mod (v + 1) 4 ltac:(lia)). pose proof (Nat.mod_upper_bound (v + 1) 4 ltac:(lia)). pose proof (Nat.div_mod (S v + 1) 4 ltac:(lia)). pose proof (Nat.mod_upper_bound (S v + 1) 4 ltac:(lia)). pose proof (Nat.div_mod (S v) 4 ltac:(lia)). pose proof (Nat.mod_upper_bound (S v) 4 ltac:(lia)).
  destruct (Nat.eqb_spec (S v mod 4) 1), (Nat.eqb_spec (S v mod 4) 3); lia.
Qed.
Lemma start13 v : 1 <= v -> Z.quot (Z.of_nat v - 1) 4 = F4 1 v 2 /\ Z.quot (Z.of_nat v + 1) 4 = F4 3 v 2.
Proof.
  intros V. destruct (total4 v) as (A & B). pose proof (sieved_first 0%Z 1%Z Z.add Z.mul Z.sub Z.opp Zth (g4 1) v V) as C. pose proof (sieved_first 0%Z 1%Z Z.add Z.mul Z.sub Z.opp Zth (g4 3) v V) as D. rewrite A in C. rewrite B in D. cbn [g4 Nat.modulo] in C, D. change (g4 1 1) with 1%Z in C. change (g4 3 1) with 0%Z in D.
  rewrite !Z.quot_div_nonneg by lia. rewrite Nat2Z.inj_div in C, D. split.
  - replace (F4 1 v 2) with (Z.of_nat (v + 3) / Z.of_nat 4 - 1)%Z by lia. replace (Z.of_nat (v + 3)) with (Z.of_nat v - 1 + 1 * 4)%Z by lia. change (Z.of_nat 4) with 4%Z. rewrite Z.div_add by lia. lia.
  - replace (F4 3 v 2) with (Z.of_nat (v + 1) / Z.of_nat 4)%Z by lia. f_equal. lia.
Qed.
Lemma init13_run ks : forall s f0 f1, rep2 s f0 f1 -> (forall v, In v ks -> isq v) ->
  exists s', init13 ks s = Some s' /\ rep2 s' (fun v => if existsb (Nat.eqb v) ks then F4 1 v 2 else f0 v) (fun v => if existsb (Nat.eqb v) ks then F4 3 v 2 else f1 v).
Proof.
  induction ks as [|k ks IH]; intros s f0 f1 R H; cbn [init13]; [exists s; split; [reflexivity|exact R]|]. assert (K : isq k) by (apply H; now left). pose proof (isq_le k K) as K1. destruct (start13 k ltac:(lia)) as (E0 & E1).
  destruct (put2_run s f0 f1 false k (Z.quot (Z.of_nat k - 1) 4) R K) as (s1 & -> & R1). cbn [obind]. destruct (put2_run s1 _ _ true k (Z.quot (Z.of_nat k + 1) 4) R1 K) as (s2 & -> & R2). cbn [obind].
  destruct (IH s2 _ _ R2) as (s3 & E3 & R3); [intros v V; apply H; now right|]. exists s3. split; [exact E3|]. eapply rep2_ext; [exact R3| |]; intros v V; cbn [existsb]; cbn beta; unfold fput; destruct (existsb (Nat.eqb v) ks); rewrite ?orb_true_r, ?orb_false_r; try reflexivity; destruct (Nat.eqb_spec v k) as [->|]; auto.
Qed.

(** one round *)
Lemma g4_mul p c c' m : p mod 4 = 1 \/ p mod 4 = 3 -> c = 1 \/ c = 3 -> c' = (if p mod 4 =? 1 then c else 4 - c) -> g4 c (p * m) = g4 c' m.
Proof.
  intros P C ->. unfold g4. rewrite (Nat.mul_mod p m 4) by lia. pose proof (Nat.mod_upper_bound m 4 ltac:(lia)) as B. destruct P as [->| ->], C as [->| ->]; cbn [Nat.eqb Nat.sub]; destruct (m mod 4) as [|[|[|[|x]]]]; try lia; reflexivity.
Qed.
Lemma F4_step p c c' v : is_prime p -> p mod 4 = 1 \/ p mod 4 = 3 -> c = 1 \/ c = 3 -> c' = (if p mod 4 =? 1 then c else 4 - c) -> p * p <= v ->
  F4 c v (S p) = (F4 c v p - (F4 c' (v / p)%nat p - F4 c' (p - 1)%nat p))%Z.
Proof. intros P M C E V. apply (sieved_step 0%Z 1%Z Z.add Z.mul Z.sub Z.opp Zth); [exact P|exact V|]. intros m. now apply g4_mul. Qed.
Lemma F4_even c p v : c = 1 \/ c = 3 -> is_prime p -> ~ (p mod 4 = 1 \/ p mod 4 = 3) -> F4 c v (S p) = F4 c v p.
Proof.
  intros C P M. destruct (Nat.lt_ge_cases v (p * p)) as [V|V]; [apply sieved_small; [now apply prime_ge|exact V]|].
  rewrite (sieved_step 0%Z 1%Z Z.add Z.mul Z.sub Z.opp Zth (g4 c) (fun _ => 0%Z) v p P V).
  - assert (Z0 : forall w, sieved 0%Z Z.add (fun _ => 0%Z) w p = 0%Z) by (intros w; unfold sieved; apply (rsum_zero 0%Z 1%Z Z.add Z.mul Z.sub Z.opp Zth); intros i _; destruct (left_at p i); reflexivity). rewrite !Z0. lia.
  - intros m. unfold g4. rewrite (Nat.mul_mod p m 4) by lia. pose proof (Nat.mod_upper_bound p 4 ltac:(lia)) as B. pose proof (Nat.mod_upper_bound m 4 ltac:(lia)) as B2. assert (X : p mod 4 = 0 \/ p mod 4 = 2) by lia. destruct X as [->| ->], C as [->| ->]; destruct (m mod 4) as [|[|[|[|x]]]]; try lia; reflexivity.
Qed.
Lemma sweep13_run p : is_prime p -> p mod 4 = 1 \/ p mod 4 = 3 -> forall ks b s f0 f1, rep2 s f0 f1 -> StronglySorted gt ks -> (forall v, In v ks <-> isq v /\ v < b) ->
  (forall v, isq v -> f0 v = if v <? b then F4 1 v p else F4 1 v (S p)) -> (forall v, isq v -> f1 v = if v <? b then F4 3 v p else F4 3 v (S p)) ->
  exists s', sweep13 p (p * p) (F4 1 (p - 1) p) (F4 3 (p - 1) p) ks s = Some s' /\ rep2 s' (fun v => F4 1 v (S p)) (fun v => F4 3 v (S p)).
Proof.
  intros P M. pose proof (prime_ge _ P) as P2. induction ks as [|k ks IH]; intros b s f0 f1 R SS KS H0 H1; cbn [sweep13].
  - exists s. split; [reflexivity|]. assert (NB : forall v, isq v -> (v <? b) = false) by (intros v V; apply Nat.ltb_ge; destruct (Nat.lt_ge_cases v b); [exfalso; apply (KS v); auto|lia]). eapply rep2_ext; [exact R| |]; intros v V; rewrite ?H0, ?H1, NB by exact V; reflexivity.
  - apply StronglySorted_inv in SS as (SS & Hd). rewrite Forall_forall in Hd. destruct (proj1 (KS k) (or_introl eq_refl)) as (K & KB). pose proof (isq_le k K) as K1.
    destruct (Nat.ltb_spec k (p * p)) as [C|C].
    + exists s. split; [reflexivity|]. assert (X : forall v, isq v -> v < b -> v < p * p) by (intros v V VB; destruct (proj2 (KS v) (conj V VB)) as [<-|I]; [exact C|]; specialize (Hd v I); lia).
      eapply rep2_ext; [exact R| |]; intros v V; rewrite ?H0, ?H1 by exact V; (destruct (Nat.ltb_spec v b) as [L|L]; [symmetry; apply sieved_small; [exact P2|now apply X]|reflexivity]).
    + assert (KP : isq (k / p)) by (apply isq_div; [exact K|nia]). assert (KPL : k / p < k) by (apply Nat.div_lt; lia).
      destruct (read2_run s f0 f1 false (k / p) R KP) as (s1 & -> & R1). cbn [obind pick]. destruct (read2_run s1 f0 f1 (p mod 4 =? 3) k R1 K) as (s2 & -> & R2). cbn [obind].
      set (x0 := (pick (p mod 4 =? 3)%nat f0 f1 k - (f0 (k / p)%nat - F4 1 (p - 1)%nat p))%Z). destruct (put2_run s2 f0 f1 (p mod 4 =? 3) k x0 R2 K) as (s3 & -> & R3). cbn [obind].
      destruct (read2_run s3 _ _ true (k / p) R3 KP) as (s4 & -> & R4). cbn [obind]. destruct (read2_run s4 _ _ (p mod 4 =? 1) k R4 K) as (s5 & -> & R5). cbn [obind].
      match goal with |- context [put2 s5 (p mod 4 =? 1) k ?x] => set (x1 := x) end. destruct (put2_run s5 _ _ (p mod 4 =? 1) k x1 R5 K) as (s6 & -> & R6). cbn [obind].
      apply (IH k s6 _ _ R6); [exact SS| | |].
      * intros v. split; [intros I; split; [apply KS; now right|apply Hd, I]|]. intros (V & VK). destruct (proj2 (KS v)) as [<-|I]; [split; [exact V|lia]|lia|exact I].
      * intros v V. assert (E0 : f0 (k / p) = F4 1 (k / p) p) by (rewrite H0 by exact KP; destruct (Nat.ltb_spec (k / p) b); [reflexivity|lia]). assert (E1 : f1 (k / p) = F4 3 (k / p) p) by (rewrite H1 by exact KP; destruct (Nat.ltb_spec (k / p) b); [reflexivity|lia]). assert (D0 : f0 k = F4 1 k p) by (rewrite H0 by exact K; destruct (Nat.ltb_spec k b); [reflexivity|lia]).
        assert (REST : v <> k -> f0 v = (if v <? k then F4 1 v p else F4 1 v (S p))).
        { intros NE. rewrite H0 by exact V. destruct (Nat.ltb_spec v b), (Nat.ltb_spec v k); try lia; try reflexivity. exfalso. destruct (proj2 (KS v)) as [I|I]; [split; assumption|congruence|]. specialize (Hd v I). lia. }
        destruct M as [M|M]; rewrite M; cbn [Nat.eqb].
        -- unfold fput. destruct (Nat.eqb_spec v k) as [->|NE]; [|now apply REST]. rewrite Nat.ltb_irrefl. rewrite (F4_step p 1 1 k P) by (auto; rewrite M; reflexivity). unfold x0. rewrite M. cbn [Nat.eqb pick]. rewrite E0, D0. reflexivity.
        -- unfold fput. destruct (Nat.eqb_spec v k) as [->|NE]; [|now apply REST]. rewrite Nat.ltb_irrefl. rewrite (F4_step p 1 3 k P) by (auto; rewrite M; reflexivity). unfold x1. rewrite M. cbn [Nat.eqb pick]. unfold fput. destruct (Nat.eqb_spec (k / p) k); [lia|]. rewrite E1, D0. reflexivity.
      * intros v V. assert (E0 : f0 (k / p) = F4 1 (k / p) p) by (rewrite H0 by exact KP; destruct (Nat.ltb_spec (k / p) b); [reflexivity|lia]). assert (E1 : f1 (k / p) = F4 3 (k / p) p) by (rewrite H1 by exact KP; destruct (Nat.ltb_spec (k / p) b); [reflexivity|lia]). assert (D1 : f1 k = F4 3 k p) by (rewrite H1 by exact K; destruct (Nat.ltb_spec k b); [reflexivity|lia]).
        assert (REST : v <> k -> f1 v = (if v <? k then F4 3 v p else F4 3 v (S p))).
        { intros NE. rewrite H1 by exact V. destruct (Nat.ltb_spec v b), (Nat.ltb_spec v k); try lia; try reflexivity. exfalso. destruct (proj2 (KS v)) as [I|I]; [split; assumption|congruence|]. specialize (Hd v I). lia. }
        destruct M as [M|M]; rewrite M; cbn [Nat.eqb].
        -- unfold fput. destruct (Nat.eqb_spec v k) as [->|NE]; [|now apply REST]. rewrite Nat.ltb_irrefl. rewrite (F4_step p 3 3 k P) by (auto; rewrite M; reflexivity). unfold x1. rewrite M. cbn [Nat.eqb pick]. rewrite E1, D1. reflexivity.
        -- unfold fput. destruct (Nat.eqb_spec v k) as [->|NE]; [|now apply REST]. rewrite Nat.ltb_irrefl. rewrite (F4_step p 3 1 k P) by (auto; rewrite M; reflexivity). unfold x0. rewrite M. cbn [Nat.eqb pick]. rewrite E0, D1. reflexivity.
Qed.
Lemma round13_run p s : 2 <= p < q -> rep2 s (fun v => F4 1 v p) (fun v => F4 3 v p) ->
  exists s', round13 n q (keys13 n q) p s = Some s' /\ rep2 s' (fun v => F4 1 v (S p)) (fun v => F4 3 v (S p)).
Proof.
  intros P R. unfold round13. assert (I1 : isq (p - 1)) by (apply isq_small; lia). assert (I2 : isq p) by (apply isq_small; lia).
  destruct (read2_run s _ _ false (p - 1) R I1) as (s1 & -> & R1). cbn [obind pick]. destruct (read2_run s1 _ _ true (p - 1) R1 I1) as (s2 & -> & R2). cbn [obind pick]. destruct (read2_run s2 _ _ false p R2 I2) as (s3 & -> & R3). cbn [obind pick].
  pose proof (sieved_diff 0%Z Z.add (g4 1) p ltac:(lia)) as D1. pose proof (sieved_diff 0%Z Z.add (g4 3) p ltac:(lia)) as D3.
  assert (SW : forall t, rep2 t (fun v => F4 1 v p) (fun v => F4 3 v p) -> is_prime p -> p mod 4 = 1 \/ p mod 4 = 3 -> exists s', sweep13 p (p * p) (F4 1 (p - 1) p) (F4 3 (p - 1) p) (keys13 n q) t = Some s' /\ rep2 s' (fun v => F4 1 v (S p)) (fun v => F4 3 v (S p))).
  { intros t Rt PP M. apply (sweep13_run p PP M (keys13 n q) (S n) t _ _ Rt keys_desc).
    - intros v. rewrite keys_in. split; [intros V; split; [exact V|apply isq_le in V; lia]|tauto].
    - intros v V. apply isq_le in V. destruct (Nat.ltb_spec v (S n)); [reflexivity|lia].
    - intros v V. apply isq_le in V. destruct (Nat.ltb_spec v (S n)); [reflexivity|lia]. }
  destruct (Z.eqb_spec (F4 1 (p - 1) p) (F4 1 p p)) as [E1|E1].
  - destruct (read2_run s3 _ _ true p R3 I2) as (s4 & -> & R4). cbn [obind pick]. destruct (Z.eqb_spec (F4 3 (p - 1) p) (F4 3 p p)) as [E3|E3].
    + exists s4. split; [reflexivity|]. assert (X : forall c v, c = 1 \/ c = 3 -> F4 c v p = F4 c v (S p)).
      { intros c v C. symmetry. destruct (prime_dec' p) as [PP|NP]; [|apply sieved_skip; [lia|exact NP]]. apply F4_even; [exact C|exact PP|]. intros M. pose proof PP as PB. apply primeb_spec in PB. rewrite PB in D1, D3. destruct M as [M|M]; [assert (X : g4 1 p = 1%Z) by (unfold g4; now rewrite M)|assert (X : g4 3 p = 1%Z) by (unfold g4; now rewrite M)]; lia. }
      eapply rep2_ext; [exact R4| |]; intros v V; apply X; auto.
    + destruct (primeb p) eqn:PB; [|lia]. apply SW; [exact R4|now apply primeb_spec|]. destruct (Nat.eqb_spec (p mod 4) 3) as [M|M]; [now right|]. assert (X : g4 3 p = 0%Z) by (unfold g4; apply Nat.eqb_neq in M; now rewrite M). lia.
  - destruct (primeb p) eqn:PB; [|lia]. apply SW; [exact R3|now apply primeb_spec|]. destruct (Nat.eqb_spec (p mod 4) 1) as [M|M]; [now left|]. assert (X : g4 1 p = 0%Z) by (unfold g4; apply Nat.eqb_neq in M; now rewrite M). lia.
Qed.
Lemma pi13_run : exists s, prime_pi13_sqrt root mk0 n = Some s /\ rep2 s (prime_total 0%Z Z.add (g4 1)) (prime_total 0%Z Z.add (g4 3)).
Proof.
  pose proof q_facts13 as (Q1 & Q2 & Q3 & Q4). unfold prime_pi13_sqrt. rewrite Root. cbn [obind]. destruct (rep_new 0%Z q n mk0) as (a & Ea & Ra); [lia|]. rewrite Ea. cbn [obind]. destruct (Nat.leb_spec n 1); [lia|].
  assert (R0 : rep2 (a, a) (fun _ => 0%Z) (fun _ => 0%Z)) by (split; (exists (fun _ => 0%Z); split; [exact Ra|reflexivity])).
  destruct (init13_run (keys13 n q) (a, a) _ _ R0) as (s1 & E1 & R1); [intros v; apply keys_in|]. rewrite E1. cbn [obind].
  assert (R1' : rep2 s1 (fun v => F4 1 v 2) (fun v => F4 3 v 2)).
  { assert (X : forall v, isq v -> existsb (Nat.eqb v) (keys13 n q) = true) by (intros v V; apply existsb_exists; exists v; split; [now apply keys_in|apply Nat.eqb_refl]). eapply rep2_ext; [exact R1| |]; intros v V; cbn beta; now rewrite X. }
  destruct (for_range_spec (fun p s => rep2 s (fun v => F4 1 v p) (fun v => F4 3 v p)) (fun p s => round13 n q (keys13 n q) p s) 2 q s1 ltac:(lia) R1') as (s2 & E2 & R2); [intros p t P R; now apply round13_run|].
  exists s2. split; [exact E2|]. eapply rep2_ext; [exact R2| |]; intros v V; apply isq_le in V; cbn beta; apply sieved_last; lia.
Qed.
End Pi13.

(** sums as counts *)
Lemma prime_total_list (g : nat -> nat) v : prime_total 0%Z Z.add (fun k => Z.of_nat (g k)) v = Z.of_nat (list_sum (map g (primes_upto v))).
Proof.
  unfold prime_total, primes_upto, primes_below. generalize (S v) as m. intros m. induction m as [|m IH]; [reflexivity|]. cbn [rsum]. rewrite IH, seq_S, filter_app, map_app, list_sum_app. cbn [filter Nat.add]. destruct (primeb m); cbn [map list_sum fold_right]; lia.
Qed.
Lemma total4_count c v : prime_total 0%Z Z.add (g4 c) v = Z.of_nat (count_primes4 c v).
Proof.
  transitivity (prime_total 0%Z Z.add (fun k => Z.of_nat (if k mod 4 =? c then 1 else 0)) v).
  - unfold prime_total. apply rsum_ext. intros i _. unfold g4. destruct (primeb i), (i mod 4 =? c); reflexivity.
  - rewrite prime_total_list. f_equal. unfold count_primes4. induction (primes_upto v) as [|p l IH]; [reflexivity|]. cbn [map list_sum fold_right filter]. fold (list_sum (map (fun k => if k mod 4 =? c then 1 else 0) l)). rewrite IH. destruct (p mod 4 =? c); cbn [length]; lia.
Qed.
Lemma rnat_Z k : rnat 0%Z 1%Z Z.add k = Z.of_nat k.
Proof. induction k as [|k IH]; cbn [rnat]; [reflexivity|]. rewrite IH. lia. Qed.
Lemma total_pi v : prime_total 0%Z Z.add (fun k => rpow 1%Z Z.mul (rnat 0%Z 1%Z Z.add k) 0) v = Z.of_nat (count_primes v).
Proof.
  transitivity (prime_total 0%Z Z.add (fun k => Z.of_nat 1) v); [reflexivity|]. rewrite (prime_total_list (fun _ => 1)). f_equal. unfold count_primes, list_sum. induction (primes_upto v) as [|p l IH]; cbn [map fold_right length]; lia.
Qed.
Lemma total_sum v : prime_total 0%Z Z.add (fun k => rpow 1%Z Z.mul (rnat 0%Z 1%Z Z.add k) 1) v = Z.of_nat (sum_primes v).
Proof.
  transitivity (prime_total 0%Z Z.add (fun k => Z.of_nat k) v).
  - unfold prime_total. apply rsum_ext. intros i _. destruct (primeb i); [|reflexivity]. cbn [rpow]. rewrite rnat_Z. lia.
  - rewrite (prime_total_list (fun k => k)), map_id. reflexivity.
Qed.
