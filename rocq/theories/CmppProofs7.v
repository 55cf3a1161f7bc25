(** factorial_mod_pp_reduced and binomial_mod_pp_reduced. *)
From Coq Require Import Znumtheory Zpow_facts Setoid Morphisms.
From Verif Require Import Lib BaseModel BaseProofs ModuloModel ModuloProofs FactorModel CombSpec CmppModel CmppProofs CmppProofs2 CmppProofs3 CmppProofs6.
Open Scope Z_scope.

Fixpoint zsum (f : nat -> Z) (n : nat) : Z := match n with O => 0 | S n => zsum f n + f n end.
Lemma zsum_nonneg f n : (forall i, (i < n)%nat -> 0 <= f i) -> 0 <= zsum f n.
Proof. induction n as [|n IH]; intros H; cbn [zsum]; [lia|]. pose proof (H n ltac:(lia)). assert (0 <= zsum f n) by (apply IH; intros; apply H; lia). lia. Qed.
Lemma zsum_zero f n : (forall i, (i < n)%nat -> f i = 0) -> zsum f n = 0.
Proof. induction n as [|n IH]; intros H; cbn [zsum]; [reflexivity|]. rewrite H by lia. rewrite IH; [reflexivity|]. intros; apply H; lia. Qed.
Lemma zsum_tail f n k : (forall i, (n <= i)%nat -> f i = 0) -> zsum f (n + k) = zsum f n.
Proof. intros H. induction k as [|k IH]; [now rewrite Nat.add_0_r|]. rewrite Nat.add_succ_r. cbn [zsum]. rewrite IH, H by lia. lia. Qed.
(** a window of a sequence that ends before the window does *)
Lemma zsum_shift c w n : (forall i, (n <= i)%nat -> c i = 0) -> zsum (fun t => c (t + w)%nat) n = zsum (fun t => if (w <=? t)%nat then c t else 0) n.
Proof.
  intros H. rewrite <- (zsum_tail (fun t => if (w <=? t)%nat then c t else 0) n w) by (intros i I; rewrite H by exact I; now destruct (w <=? i)%nat). clear H. induction n as [|n IH].
  - symmetry. apply zsum_zero. intros i I. destruct (Nat.leb_spec w i); [lia|reflexivity].
  - cbn [zsum Nat.add]. rewrite IH. destruct (Nat.leb_spec w (n + w)); [reflexivity|lia].
Qed.
Lemma zsum_sub3 f g h n : zsum f n - zsum g n - zsum h n = zsum (fun t => f t - g t - h t) n.
Proof. induction n as [|n IH]; cbn [zsum]; lia. Qed.
Lemma zsum_ext f g n : (forall i, f i = g i) -> zsum f n = zsum g n.
Proof. intros H. induction n as [|n IH]; cbn [zsum]; [reflexivity|]. now rewrite IH, H. Qed.
Lemma floor_sum k l q : 0 < q -> 0 <= (k + l) / q - k / q - l / q <= 1.
Proof. intros Q. pose proof (Z.div_mod k q ltac:(lia)). pose proof (Z.div_mod l q ltac:(lia)). pose proof (Z.div_mod (k + l) q ltac:(lia)). pose proof (Z.mod_pos_bound k q Q). pose proof (Z.mod_pos_bound l q Q). pose proof (Z.mod_pos_bound (k + l) q Q). nia. Qed.

Section Fast2.
Variable p : Z.
Hypothesis PP : prime p.
Variable e : Z.
Hypothesis E1 : 1 <= e.
Let m := p ^ e.
Let P2 : 2 <= p := prime_ge_2 p PP.
Notation "a == b" := (cong m a b) (at level 70).
Variable tbl : list Z.
Variable N : nat.
Hypothesis HN : p * e <= Z.of_nat N.
Hypothesis T : good_table p e N tbl.
Lemma reduced_run n : 0 <= n -> exists a mm, factorial_mod_pp_reduced n p e tbl = Some (mm mod m, a) /\ 0 <= a /\ zfact n = p ^ a * mm /\ ~ (p | mm).
Proof.
  intros N0. pose proof (m_pos p PP e E1) as M. fold m in M. unfold factorial_mod_pp_reduced. rewrite pow_run by lia. cbn [obind]. fold m. rewrite mod_normalize_u_spec by lia. cbn [obind].
  destruct (loopZ_spec (reduced_step p e m tbl) (fun '(n', f, a) => 0 <= n' /\ 0 <= a /\ 0 <= f < m /\ exists mm, cong m f mm /\ ~ (p | mm) /\ zfact n = zfact n' * p ^ a * mm)
    (fun '(f, a) => 0 <= a /\ exists mm, f = mm mod m /\ zfact n = p ^ a * mm /\ ~ (p | mm)) (fun '(n', _, _) => n')) with (fuel := Z.abs n + 1) (s := (n, 1 mod m, 0)) as ((f & a) & EL & A & mm & -> & Z1 & Z2).
  - intros ((n' & f) & a) (N' & A & F & mm & CF & DM & ZF). cbn [reduced_step]. destruct (Z.ltb_spec 1 n') as [L|L].
    + rewrite (skipped_run p PP e E1 tbl N n' HN T N'). cbn [obind]. fold m. pose proof (Z.mod_pos_bound (sk p (Z.to_nat n')) m ltac:(lia)) as SB. rewrite mul_run by lia. cbn [obind]. rewrite cdiv_run by lia. cbn [obind]. eexists. split; [reflexivity|]. cbv beta iota. assert (D0 : 0 <= n' / p) by (apply Z.div_pos; lia). assert (DL : n' / p < n') by (apply Z.div_lt; lia). split; [|lia]. split; [exact D0|]. split; [lia|]. split; [apply Z.mod_pos_bound; lia|].
      exists (sk p (Z.to_nat n') * mm). split; [|split].
      * rewrite !cong_mod by lia. rewrite CF, Z.mul_comm. reflexivity.
      * apply not_div_mul; [exact PP|now apply sk_free|exact DM].
      * pose proof (sk_fact p P2 (Z.to_nat n')) as SF. rewrite Z2Nat.id in SF by lia. rewrite ZF, SF. rewrite (Z.add_comm a), Z.pow_add_r by lia. ring.
    + eexists. split; [reflexivity|]. split; [exact A|]. exists mm. split; [now apply cong_eq|]. split; [|exact DM]. rewrite ZF. assert (n' = 0 \/ n' = 1) as [->| ->] by lia; [change (zfact 0) with 1|change (zfact 1) with 1]; ring.
  - intros ((n' & f) & a) (N' & _). exact N'.
  - cbv beta iota. split; [lia|]. split; [lia|]. split; [apply Z.mod_pos_bound; lia|]. exists 1. split; [apply cong_mod; lia|]. split; [now apply (unit_1 p PP)|]. rewrite Z.pow_0_r. ring.
  - lia.
  - exists a, mm. auto.
Qed.
Lemma take_run x acc : 0 <= x -> 0 <= acc < m -> exists acc', take_factorial p e m tbl x acc = Some (x / p, acc') /\ 0 <= acc' < m /\ acc' == acc * sk p (Z.to_nat (x mod m)).
Proof.
  intros X A. pose proof (m_pos p PP e E1) as M. fold m in M. unfold take_factorial. destruct (Z.ltb_spec 0 x) as [L|L].
  - rewrite cmod_run by lia. cbn [obind]. pose proof (Z.mod_pos_bound x m ltac:(lia)). rewrite (skipped_run p PP e E1 tbl N (x mod m) HN T) by lia. cbn [obind]. fold m. pose proof (Z.mod_pos_bound (sk p (Z.to_nat (x mod m))) m ltac:(lia)) as SB. rewrite mul_run by lia. cbn [obind]. rewrite cdiv_run by lia. cbn [obind]. eexists. split; [reflexivity|]. split; [apply Z.mod_pos_bound; lia|]. rewrite !cong_mod by lia. reflexivity.
  - assert (x = 0) as -> by lia. exists acc. split; [reflexivity|]. split; [exact A|]. rewrite Z.mod_0_l by lia. change (sk p (Z.to_nat 0)) with 1. rewrite Z.mul_1_r. reflexivity.
Qed.
(** x! written with what is left of it after i rounds: M is the exact part that is not divisible by p, R the product of the residues *)
Definition expo (x : Z) (i : nat) : Z := zsum (fun t => x / p ^ (Z.of_nat t + e)) i.
Definition chain (x : Z) (i : nat) (a M R : Z) : Prop := 0 <= a /\ zfact x = zfact (x / p ^ Z.of_nat i) * p ^ a * M /\ ~ (p | M) /\ M == wil p e ^ expo x i * R.
Lemma expo_nonneg x i : 0 <= x -> 0 <= expo x i.
Proof. intros X. apply zsum_nonneg. intros t _. apply Z.div_pos; [exact X|]. apply Z.pow_pos_nonneg; lia. Qed.
Lemma pow_succ_div x i : x / p ^ Z.of_nat (S i) = x / p ^ Z.of_nat i / p.
Proof. rewrite Nat2Z.inj_succ, Z.pow_succ_r by lia. rewrite Z.mul_comm, Z.div_div; [reflexivity|apply Z.pow_nonzero; lia|lia]. Qed.
Lemma chain_0 x : 0 <= x -> chain x 0 0 1 1.
Proof. intros X. split; [lia|]. split; [change (Z.of_nat 0) with 0; rewrite !Z.pow_0_r, Z.div_1_r; ring|]. split; [now apply (unit_1 p PP)|]. reflexivity. Qed.
Lemma chain_S x i a M R : 0 <= x -> chain x i a M R -> chain x (S i) (a + x / p ^ Z.of_nat i / p) (M * sk p (Z.to_nat (x / p ^ Z.of_nat i))) (R * sk p (Z.to_nat ((x / p ^ Z.of_nat i) mod m))).
Proof.
  intros X (A & ZF & DM & CM). assert (PI : 0 < p ^ Z.of_nat i) by (apply Z.pow_pos_nonneg; lia). set (x' := x / p ^ Z.of_nat i) in *. assert (X' : 0 <= x') by (apply Z.div_pos; lia). assert (D0 : 0 <= x' / p) by (apply Z.div_pos; lia). split; [lia|]. split; [|split].
  - rewrite pow_succ_div. fold x'. pose proof (sk_fact p P2 (Z.to_nat x')) as SF. rewrite Z2Nat.id in SF by lia. rewrite ZF, SF. rewrite (Z.add_comm a), Z.pow_add_r by lia. ring.
  - apply not_div_mul; [exact PP|exact DM|now apply sk_free].
  - pose proof (sk_modulo p PP e E1 x' X') as SM. fold m in SM. rewrite CM, SM. unfold expo. cbn [zsum]. fold (expo x i). assert (PE : 0 < p ^ e) by (apply Z.pow_pos_nonneg; lia). assert (EX : x / p ^ (Z.of_nat i + e) = x' / m). { unfold x', m. rewrite Z.pow_add_r by lia. rewrite Z.div_div by lia. reflexivity. } rewrite EX. rewrite Z.pow_add_r; [|now apply expo_nonneg|apply Z.div_pos; unfold m; lia].
    replace (wil p e ^ expo x i * R * (wil p e ^ (x' / m) * sk p (Z.to_nat (x' mod m)))) with (wil p e ^ expo x i * wil p e ^ (x' / m) * (R * sk p (Z.to_nat (x' mod m)))) by ring. reflexivity.
Qed.
Definition carry (k l : Z) (t : nat) : Z := (k + l) / p ^ Z.of_nat (S t) - k / p ^ Z.of_nat (S t) - l / p ^ Z.of_nat (S t).
Lemma carry_bound k l t : 0 <= carry k l t <= 1.
Proof. apply floor_sum, Z.pow_pos_nonneg; lia. Qed.
Lemma carry_test k l i : 0 <= k -> 0 <= l -> ((((k + l) / p ^ Z.of_nat i) mod p <? (k / p ^ Z.of_nat i) mod p + (l / p ^ Z.of_nat i) mod p) = (carry k l i =? 1)).
Proof.
  intros K L. pose proof (carry_bound k l i) as CB. unfold carry in *. rewrite !pow_succ_div in *. pose proof (floor_sum k l (p ^ Z.of_nat i) ltac:(apply Z.pow_pos_nonneg; lia)) as FS. set (x := (k + l) / p ^ Z.of_nat i) in *. set (y := k / p ^ Z.of_nat i) in *. set (w := l / p ^ Z.of_nat i) in *.
  pose proof (Z.div_mod x p ltac:(lia)) as DX. pose proof (Z.div_mod y p ltac:(lia)) as DY. pose proof (Z.div_mod w p ltac:(lia)) as DW. set (c := x / p - y / p - w / p) in *. assert (PC : p * c = y mod p + w mod p + (x - y - w) - x mod p) by (unfold c; lia). clearbody c. assert (c = 0 \/ c = 1) as [->| ->] by lia; destruct (Z.ltb_spec (x mod p) (y mod p + w mod p)); try reflexivity; exfalso; lia.
Qed.
Definition signs (k l : Z) (i : nat) : Z := zsum (fun t => if (Z.to_nat (e - 1) <=? t)%nat then carry k l t else 0) i.
Lemma signs_nonneg k l i : 0 <= signs k l i.
Proof. apply zsum_nonneg. intros t _. pose proof (carry_bound k l t). destruct (Z.to_nat (e - 1) <=? t)%nat; lia. Qed.
Lemma signs_all k l i : 0 <= k -> 0 <= l -> (k + l) / p ^ Z.of_nat i <= 1 -> signs k l i + expo k i + expo l i = expo (k + l) i.
Proof.
  intros K L H. assert (Q : expo (k + l) i - expo k i - expo l i = signs k l i); [|lia]. unfold expo, signs. rewrite zsum_sub3. rewrite <- (zsum_shift (carry k l) (Z.to_nat (e - 1)) i).
  - apply zsum_ext. intros t. unfold carry. replace (Z.of_nat (S (t + Z.to_nat (e - 1)))) with (Z.of_nat t + e) by lia. reflexivity.
  - intros t I. unfold carry. assert (ZZ : (k + l) / p ^ Z.of_nat (S t) = 0). { apply Z.div_small. split; [lia|]. assert (PI : 0 < p ^ Z.of_nat i) by (apply Z.pow_pos_nonneg; lia). assert (B : k + l < 2 * p ^ Z.of_nat i). { pose proof (Z.div_mod (k + l) (p ^ Z.of_nat i) ltac:(lia)). pose proof (Z.mod_pos_bound (k + l) (p ^ Z.of_nat i) ltac:(lia)). nia. } assert (G : p ^ Z.of_nat i * p <= p ^ Z.of_nat (S t)). { rewrite Nat2Z.inj_succ, Z.pow_succ_r by lia. pose proof (Z.pow_le_mono_r p (Z.of_nat i) (Z.of_nat t) ltac:(lia) ltac:(lia)). nia. } nia. }
    pose proof (carry_bound k l t) as CB. unfold carry in CB. rewrite ZZ in CB |- *. assert (0 < p ^ Z.of_nat (S t)) by (apply Z.pow_pos_nonneg; lia). pose proof (Z.div_pos k (p ^ Z.of_nat (S t)) K ltac:(lia)). pose proof (Z.div_pos l (p ^ Z.of_nat (S t)) L ltac:(lia)). lia.
Qed.
Lemma if_add (x a : Z) : (if 0 <? x then a + x / p else a) = a + x / p \/ x < 0.
Proof. destruct (Z.ltb_spec 0 x); [now left|]. destruct (Z.eq_dec x 0) as [->|]; [left; rewrite Z.div_0_l by lia; lia|right; lia]. Qed.
Lemma binomial_run n k b : 0 <= k <= n -> b * (zfact k * zfact (n - k)) = zfact n ->
  exists a mm, binomial_mod_pp_reduced n k p e tbl = Some (mm mod m, a) /\ 0 <= a /\ b = p ^ a * mm /\ ~ (p | mm).
Proof.
  intros K HB. pose proof (m_pos p PP e E1) as M. fold m in M. unfold binomial_mod_pp_reduced. rewrite pow_run by lia. cbn [obind]. fold m. rewrite mod_normalize_u_spec by lia. cbn [obind]. set (l := n - k) in *. assert (L0 : 0 <= l) by (unfold l; lia). assert (EN : k + l = n) by (unfold l; lia).
  destruct (loopZ_spec (binomial_step p e m (negb ((p =? 2) && negb (e =? 2))) tbl) (fun '(i, n', k', l', r, s, a) => exists t an ak al Mn Mk Ml Rn Rk Rl, i = Z.of_nat t /\ n' = n / p ^ i /\ k' = k / p ^ i /\ l' = l / p ^ i /\ a = an - ak - al /\ chain n t an Mn Rn /\ chain k t ak Mk Rk /\ chain l t al Ml Rl /\ 0 <= r < m /\ r == wil p e ^ signs k l t * Rn /\ 0 <= s < m /\ s == Rk * Rl)
    (fun '(r, s, a) => exists an am mn md, a = an - am /\ 0 <= an /\ 0 <= am /\ zfact n = p ^ an * mn /\ zfact k * zfact l = p ^ am * md /\ ~ (p | mn) /\ ~ (p | md) /\ 0 <= r < m /\ 0 <= s < m /\ r * md == s * mn /\ ~ (p | s)) (fun '(_, n', _, _, _, _, _) => n')) with (fuel := Z.abs n + 1) (s := (0, n, k, l, 1 mod m, 1 mod m, 0)) as (((r & s) & a) & EL & an & am & mn & md & -> & AN & AM & ZN & ZD & DN & DD & RB & SB & RS & DS).
  - intros ((((((i & n') & k') & l') & r) & s) & a) (t & an & ak & al & Mn & Mk & Ml & Rn & Rk & Rl & -> & -> & -> & -> & -> & CN & CK & CL & RB & RC & SB & SC). assert (PT : 0 < p ^ Z.of_nat t) by (apply Z.pow_pos_nonneg; lia).
    assert (N' : 0 <= n / p ^ Z.of_nat t) by (apply Z.div_pos; lia). assert (K' : 0 <= k / p ^ Z.of_nat t) by (apply Z.div_pos; lia). assert (L' : 0 <= l / p ^ Z.of_nat t) by (apply Z.div_pos; lia). cbn [binomial_step]. destruct (Z.ltb_spec 1 (n / p ^ Z.of_nat t)) as [G|G].
    + rewrite !cmod_run by lia. cbn [obind]. pose proof (carry_test k l t ltac:(lia) L0) as CT. rewrite EN in CT. rewrite CT. set (sg := negb ((p =? 2) && negb (e =? 2))). set (r' := if sg && (e - 1 <=? Z.of_nat t) && (carry k l t =? 1) then mneg r m else r).
      assert (R' : 0 <= r' < m /\ r' == wil p e ^ signs k l (S t) * Rn).
      { destruct (mneg_ok r m M RB) as (NB & NC). unfold signs. cbn [zsum]. fold (signs k l t). pose proof (signs_nonneg k l t) as SG0. pose proof (carry_bound k l t) as CB. pose proof (wil_pow p PP e E1 1 ltac:(lia)) as W1. rewrite Z.pow_1_r in W1. change (negb (1 mod 2 =? 0)) with true in W1. rewrite andb_true_r in W1. fold sg in W1. unfold r'. replace (Z.to_nat (e - 1) <=? t)%nat with (e - 1 <=? Z.of_nat t) by (destruct (Z.leb_spec (e - 1) (Z.of_nat t)), (Nat.leb_spec (Z.to_nat (e - 1)) t); auto; lia).
        destruct (Z.leb_spec (e - 1) (Z.of_nat t)) as [LE|LE]; [|rewrite andb_false_r; cbn [andb]; rewrite Z.add_0_r; auto]. rewrite andb_true_r. rewrite Z.pow_add_r by lia. destruct (Z.eqb_spec (carry k l t) 1) as [C1|C1].
        - rewrite C1, Z.pow_1_r. rewrite andb_true_r. destruct sg; rewrite W1; [split; [exact NB|]; rewrite NC, RC; replace (- (wil p e ^ signs k l t * Rn)) with (wil p e ^ signs k l t * -1 * Rn) by ring; rewrite W1; reflexivity|split; [exact RB|]; rewrite RC, Z.mul_1_r; rewrite W1; reflexivity].
        - assert (carry k l t = 0) as -> by lia. rewrite andb_false_r, Z.pow_0_r, Z.mul_1_r. auto. }
      destruct R' as (RB' & RC'). clearbody r'. destruct (take_run _ r' N' RB') as (r2 & -> & RB2 & RC2). cbn [obind]. destruct (take_run _ s K' SB) as (s2 & -> & SB2 & SC2). cbn [obind]. destruct (take_run _ s2 L' SB2) as (s3 & -> & SB3 & SC3). cbn [obind]. eexists. split; [reflexivity|]. cbv beta iota. split.
      * exists (S t). do 9 eexists. split; [lia|]. replace (Z.of_nat t + 1) with (Z.of_nat (S t)) by lia. rewrite !pow_succ_div. split; [reflexivity|]. split; [reflexivity|]. split; [reflexivity|]. split; [|split; [exact (chain_S n t _ _ _ ltac:(lia) CN)|split; [exact (chain_S k t _ _ _ ltac:(lia) CK)|split; [exact (chain_S l t _ _ _ ltac:(lia) CL)|]]]].
        -- assert (Q : forall x, 0 <= x -> 0 < x \/ (x = 0 /\ x / p = 0)) by (intros x X; destruct (Z.eq_dec x 0) as [->|]; [right; split; [reflexivity|apply Z.div_0_l; lia]|left; lia]). destruct (Z.ltb_spec 0 (n / p ^ Z.of_nat t)); [|lia]. destruct (Q _ K') as [QK|(QK & QK2)], (Q _ L') as [QL|(QL & QL2)]; destruct (Z.ltb_spec 0 (k / p ^ Z.of_nat t)), (Z.ltb_spec 0 (l / p ^ Z.of_nat t)); lia.
        -- split; [exact RB2|]. split; [rewrite RC2, RC', Z.mul_assoc; reflexivity|]. split; [exact SB3|]. rewrite SC3, SC2, SC.
           match goal with |- cong m ?a ?b => replace a with b by ring end. reflexivity.
      * apply Z.div_lt; lia.
    + eexists. split; [reflexivity|]. cbv beta iota. destruct CN as (AN & ZN & DN & MN). destruct CK as (AK & ZK & DK & MK). destruct CL as (AL & ZL & DL & ML). pose proof (floor_sum k l (p ^ Z.of_nat t) PT) as FS. rewrite EN in FS.
      assert (F1 : forall x, 0 <= x <= 1 -> zfact x = 1) by (intros x X; assert (x = 0 \/ x = 1) as [->| ->] by lia; reflexivity). rewrite (F1 (n / p ^ Z.of_nat t)) in ZN by lia. rewrite (F1 (k / p ^ Z.of_nat t)) in ZK by lia. rewrite (F1 (l / p ^ Z.of_nat t)) in ZL by lia. exists an, (ak + al), Mn, (Mk * Ml). split; [lia|]. split; [lia|]. split; [lia|]. split; [rewrite ZN; ring|]. split; [rewrite ZK, ZL, Z.pow_add_r by lia; ring|]. split; [exact DN|]. split; [now apply not_div_mul|]. split; [exact RB|]. split; [exact SB|]. split.
      * rewrite RC, SC, MN, MK, ML. rewrite <- EN. rewrite <- (signs_all k l t) by (try lia; now rewrite EN). pose proof (signs_nonneg k l t). pose proof (expo_nonneg k t ltac:(lia)). pose proof (expo_nonneg l t ltac:(lia)). rewrite !Z.pow_add_r by lia. match goal with |- cong m ?a ?b => replace a with b by ring end. reflexivity.
      * intros C. apply (not_div_mul p PP Mk Ml DK DL). assert (DV : (p | Rk * Rl)). { assert (U : ~ unit p s) by (intros U; now apply U). destruct (Znumtheory.Zdivide_dec p (Rk * Rl)) as [Y|Y]; [exact Y|]. exfalso. apply U. apply (unit_cong p PP e E1 (Rk * Rl)); [fold m; now symmetry|exact Y]. }
        destruct (Znumtheory.Zdivide_dec p (Mk * Ml)) as [Y|Y]; [exact Y|]. exfalso. assert (U2 : unit p (wil p e ^ expo k t * Rk * (wil p e ^ expo l t * Rl))). { apply (unit_cong p PP e E1 (Mk * Ml)); [fold m; now rewrite MK, ML|exact Y]. } apply U2. replace (wil p e ^ expo k t * Rk * (wil p e ^ expo l t * Rl)) with (wil p e ^ expo k t * wil p e ^ expo l t * (Rk * Rl)) by ring. now apply Z.divide_mul_r.
  - intros ((((((i & n') & k') & l') & r) & s) & a) (t & an & ak & al & Mn & Mk & Ml & Rn & Rk & Rl & -> & -> & _). apply Z.div_pos; [lia|]. apply Z.pow_pos_nonneg; lia.
  - cbv beta iota. exists 0%nat, 0, 0, 0, 1, 1, 1, 1, 1, 1. rewrite Z.pow_0_r, !Z.div_1_r. split; [reflexivity|]. do 3 (split; [reflexivity|]). split; [reflexivity|]. split; [apply chain_0; lia|]. split; [apply chain_0; lia|]. split; [apply chain_0; lia|]. split; [apply Z.mod_pos_bound; lia|]. split; [rewrite cong_mod by lia; reflexivity|]. split; [apply Z.mod_pos_bound; lia|rewrite cong_mod by lia; reflexivity].
  - lia.
  - rewrite EL. cbn [obind]. destruct (div_unit p P2 PP r s e ltac:(lia) ltac:(lia) ltac:(lia) DS) as (z & Ez & Bz & Cz). fold m in Ez, Bz, Cz. rewrite (Z.mod_small r), (Z.mod_small s) in Ez by lia. rewrite Ez. cbn [obind].
    assert (B0 : 0 < b). { pose proof (zfact_pos n). pose proof (zfact_pos k). pose proof (zfact_pos l). nia. }
    destruct (quotient_split p P2 PP b _ _ an mn am md B0 HB AN AM ZN ZD DN DD) as (A0 & mm & EB & DM & EM). exists (an - am), mm. split; [|auto]. do 2 f_equal. apply (quotient_unique p P2 PP e z mm mn md); [lia|exact Bz|exact DD|exact EM|]. apply (unit_cancel p PP e E1 _ _ s DS). fold m. change ((z * s) == r) in Cz. replace (z * md * s) with (z * s * md) by ring. rewrite Cz, RS, Z.mul_comm. reflexivity.
Qed.
End Fast2.
