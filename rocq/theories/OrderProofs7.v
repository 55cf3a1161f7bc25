(** k-th roots and modular discrete logarithms. *)
From Coq Require Import Znumtheory.
From Verif Require Import Lib BaseModel BaseProofs PrimesSpec PrimesProofs NumTheory NumTheory2 ModuloModel ModuloProofs ModPowModel ModPowProofs RootsModel RootsProofs RootsProofs2 OrderSpec OrderModel OrderProofs OrderProofs2 OrderProofs3 OrderProofs4 OrderProofs5.
Open Scope Z_scope.

Lemma set_insert_new x l : ~ In x l -> length (set_insert x l) = S (length l).
Proof. intros N. unfold set_insert. destruct (existsb (Z.eqb x) l) eqn:E; [|reflexivity]. apply existsb_exists in E as (y & Y & E). apply Z.eqb_eq in E. subst y. contradiction. Qed.
Lemma spread_run m w d r : 0 < m -> 0 <= w -> 0 <= r < m -> 0 <= d -> exists sr, spread m w d r = Some sr /\ NoDup sr /\ (forall x, In x sr <-> exists i, 0 <= i < d /\ x = (r * w ^ i) mod m) /\
  ((forall i j, 0 <= i < d -> 0 <= j < d -> (r * w ^ i) mod m = (r * w ^ j) mod m -> i = j) -> Z.of_nat (length sr) = d).
Proof.
  intros H W R D. unfold spread. destruct (for_range_spec (fun n '(sr, c) => c = (r * w ^ Z.of_nat n) mod m /\ NoDup sr /\ (forall x, In x sr <-> exists i, 0 <= i < Z.of_nat n /\ x = (r * w ^ i) mod m) /\
    ((forall i j, 0 <= i < d -> 0 <= j < d -> (r * w ^ i) mod m = (r * w ^ j) mod m -> i = j) -> length sr = n)) (fun (_ : nat) '(sr, r) => Some (set_insert r sr, mm m r w)) 0 (Z.to_nat d) ([], r)) as ((sr & c) & -> & C & N & S & L).
  - lia.
  - change (Z.of_nat 0) with 0. rewrite Z.pow_0_r, Z.mul_1_r, Z.mod_small by lia. split; [reflexivity|]. split; [constructor|]. split; [|reflexivity]. intros x. split; [easy|]. intros (i & I & _). lia.
  - intros n (sr & c) HN (C & N & S & L). eexists. split; [reflexivity|]. pose proof (Z.mod_pos_bound (r * w ^ Z.of_nat n) m H). split; [|split; [now apply set_insert_nodup|split]].
    + rewrite mm_mod by lia. rewrite C, Z.mul_mod_idemp_l by lia. rewrite Nat2Z.inj_succ, Z.pow_succ_r by lia. f_equal. ring.
    + intros x. rewrite set_insert_in, S. split.
      * intros [X|(i & I & X)]; [exists (Z.of_nat n); split; [lia|congruence]|exists i; split; [lia|exact X]].
      * intros (i & I & X). destruct (Z.eq_dec i (Z.of_nat n)) as [->|]; [left; congruence|right; exists i; split; [lia|exact X]].
    + intros J. rewrite set_insert_new, L; [reflexivity|exact J|]. rewrite S. intros (i & I & X). rewrite C in X. apply J in X; lia.
  - cbn [obind]. exists sr. split; [reflexivity|]. split; [exact N|]. split; [|intros J; rewrite L by exact J; lia]. intros x. rewrite S, Z2Nat.id by exact D. reflexivity.
Qed.
Section Roots.
Variables m g q d : Z.
Hypothesis HM : 0 < m.
Hypothesis Q : 0 < q.
Hypothesis D : 0 < d.
Hypothesis O : order_mod g m (q * d).
Lemma pow_mod h i : 0 <= h -> 0 <= i -> ((g ^ h mod m) * (g ^ q mod m) ^ i) mod m = g ^ (h + q * i) mod m.
Proof.
  intros H I. apply mod_eq; [exact HM|]. rewrite Z.pow_add_r, Z.pow_mul_r by nia. set (A := g ^ h). set (B := g ^ q).
  replace (A mod m * (B mod m) ^ i - A * B ^ i) with ((A mod m - A) * (B mod m) ^ i + A * ((B mod m) ^ i - B ^ i)) by ring. apply Z.divide_add_r; [apply Z.divide_mul_l; now apply mod_self'|]. apply Z.divide_mul_r. rewrite <- (Z2Nat.id i) by exact I. apply pow_cong. now apply mod_self'.
Qed.
Lemma spread_powers h : 0 <= h -> exists sr, spread m (g ^ q mod m) d (g ^ h mod m) = Some sr /\ NoDup sr /\ Z.of_nat (length sr) = d /\ forall x, In x sr <-> exists j, 0 <= j /\ (q | j - h) /\ x = g ^ j mod m.
Proof.
  intros H. destruct (spread_run m (g ^ q mod m) d (g ^ h mod m) HM) as (sr & E & N & S & L); [apply Z.mod_pos_bound; exact HM|apply Z.mod_pos_bound; exact HM|lia|].
  exists sr. split; [exact E|]. split; [exact N|]. split.
  - apply L. intros i j I J X. rewrite !pow_mod in X by lia. apply mod_eq in X; [|exact HM]. apply (om_cong m HM g (q * d)) in X; [|exact O|nia|nia]. replace (h + q * i - (h + q * j)) with (q * (i - j)) in X by ring. apply Z.mul_divide_cancel_l in X; [|lia]. destruct X as [c C]. clear - C I J. destruct (Z.lt_trichotomy c 0) as [?|[->|?]]; nia.
  - intros x. rewrite S. split.
    + intros (i & I & ->). rewrite pow_mod by lia. exists (h + q * i). split; [nia|]. split; [exists i; ring|reflexivity].
    + intros (j & J & [c C] & ->). exists (c mod d). pose proof (Z.mod_pos_bound c d D). split; [lia|]. rewrite pow_mod by lia. symmetry. apply mod_eq; [exact HM|]. apply (om_cong m HM g (q * d)); [exact O|nia|exact J|].
      replace (h + q * (c mod d) - j) with (q * (c mod d - c)) by (replace j with (h + c * q) by lia; ring). apply Z.mul_divide_mono_l. now apply mod_self'.
Qed.
End Roots.
Lemma cong_powZ m x y k : 0 <= k -> (m | x - y) -> (m | x ^ k - y ^ k).
Proof. intros K H. rewrite <- (Z2Nat.id k) by exact K. now apply pow_cong. Qed.
Lemma mm_exact B : mul_exact modulo_mul B.
Proof. unfold mul_exact. intros. unfold modulo_mul. apply cmod_ok; nia. Qed.
Theorem kth_roots_ok m k phi g l : 0 < m -> 1 <= k -> 0 <= l -> order_mod g m phi -> exists sr, kth_roots m k phi g l = Some sr /\ NoDup sr /\
  (forall x, In x sr -> 0 <= x < m /\ (m | x ^ k - g ^ l)) /\ (generates g m -> forall x, In x sr <-> 0 <= x < m /\ (m | x ^ k - g ^ l)) /\ (sr = [] \/ Z.of_nat (length sr) = Z.gcd k phi).
Proof.
  intros H K L O. pose proof O as (P & _). unfold kth_roots. rewrite gcd_nonneg by lia. cbn [obind]. pose proof (Z.gcd_nonneg k phi) as G0. assert (G1 : Z.gcd k phi <> 0) by (intros X; apply Z.gcd_eq_0_l in X; lia).
  destruct (Z.gcd_divide_l k phi) as [k' K']. destruct (Z.gcd_divide_r k phi) as [q Q']. assert (GQ : Z.gcd k' q = 1). { apply (Z.mul_cancel_l _ _ (Z.gcd k phi) G1). rewrite <- Z.gcd_mul_mono_l_nonneg by exact G0. rewrite (Z.mul_comm _ k'), (Z.mul_comm _ q), <- K', <- Q'. ring. }
  set (d := Z.gcd k phi) in *. assert (D : 0 < d) by lia. assert (Q : 0 < q) by nia. assert (KP : 0 < k') by nia. destruct (Z.eqb_spec d 0); [lia|]. rewrite (cmod_ok l d) by lia. cbn [obind].
  assert (SOL : forall x, Z.gcd x m = 1 -> generates g m -> exists j, 0 <= j /\ (m | g ^ j - x)) by (intros x X GN; now apply GN).
  assert (EXPO : forall x j, 0 <= j -> (m | g ^ j - x) -> (m | x ^ k - g ^ l) <-> (phi | j * k - l)).
  { intros x j J X. rewrite <- (om_cong m H g phi (j * k) l O ltac:(nia) L). rewrite Z.pow_mul_r by lia. pose proof (cong_powZ m (g ^ j) x k ltac:(lia) X) as Y. split; intros A.
    - replace ((g ^ j) ^ k - g ^ l) with (((g ^ j) ^ k - x ^ k) + (x ^ k - g ^ l)) by ring. now apply Z.divide_add_r.
    - replace (x ^ k - g ^ l) with (((g ^ j) ^ k - g ^ l) - ((g ^ j) ^ k - x ^ k)) by ring. now apply Z.divide_sub_r. }
  assert (UNIT : forall x, (m | x ^ k - g ^ l) -> Z.gcd x m = 1).
  { intros x X. pose proof (unit_pow m g l L (om_unit m g phi O)) as U. assert (UX : Z.gcd (x ^ k) m = 1). { destruct X as [c C]. replace (x ^ k) with (g ^ l + c * m) by lia. rewrite Z.gcd_comm, Z.gcd_add_mult_diag_r, Z.gcd_comm. exact U. }
    apply Zgcd_1_rel_prime. apply Zgcd_1_rel_prime in UX. apply rel_prime_sym. apply rel_prime_sym in UX. replace k with (Z.succ (k - 1)) in UX by lia. rewrite Z.pow_succ_r in UX by lia. apply rel_prime_sym, rel_prime_div with (p := x * x ^ (k - 1)); [now apply rel_prime_sym|apply Z.divide_factor_l]. }
  destruct (Z.eqb_spec (l mod d) 0) as [LD|LD]; cbn [negb].
  - assert (LD' : (d | l)) by (apply Z.mod_divide; [lia|exact LD]). destruct LD' as [l' L']. rewrite (cdiv_ok phi d) by lia. cbn [obind]. rewrite (cdiv_ok l d) by lia. cbn [obind]. rewrite (cdiv_ok k d) by lia. cbn [obind].
    replace (phi / d) with q by (rewrite Q'; now rewrite Z.div_mul by lia). replace (l / d) with l' by (rewrite L'; now rewrite Z.div_mul by lia). replace (k / d) with k' by (rewrite K'; now rewrite Z.div_mul by lia).
    rewrite modT_spec by exact Q. cbn [obind]. destruct (modulo_div_spec modulo_mul (q + 1) (l' mod q) k' q (mm_exact _)) as (h & E & HB & HE); [lia|apply Z.mod_pos_bound; exact Q|lia|rewrite GQ; apply Z.divide_1_l|now right|].
    unfold modulo_div. rewrite E. cbn [obind]. rewrite !modT_spec by exact H. cbn [obind]. rewrite !(powT_gp (mm m) (1 mod m) (res m) (resM m H)) by (apply resm; exact H) || (apply resm; exact H) || lia. cbn [obind]. rewrite !gp_modZ by lia.
    assert (O' : order_mod g m (q * d)) by (rewrite <- Q'; exact O). destruct (spread_powers m g q d H Q D O' h ltac:(lia)) as (sr & SE & SN & SL & SI). exists sr. split; [exact SE|]. split; [exact SN|].
    assert (HK : (q | h * k' - l')). { apply mod_eq; [exact Q|]. rewrite HE. apply Z.mod_mod. lia. }
    assert (LIN : forall j, (phi | j * k - l) <-> (q | j - h)). { intros j. rewrite Q', K', L'. replace (j * (k' * d) - l' * d) with ((j * k' - l') * d) by ring. rewrite Z.mul_divide_cancel_r by lia. split; intros X.
      - assert (Y : (q | k' * (j - h))) by (replace (k' * (j - h)) with ((j * k' - l') - (h * k' - l')) by ring; now apply Z.divide_sub_r). apply Z.gauss in Y; [exact Y|now rewrite Z.gcd_comm].
      - replace (j * k' - l') with ((j - h) * k' + (h * k' - l')) by ring. apply Z.divide_add_r; [now apply Z.divide_mul_l|exact HK]. }
    assert (SND : forall x, In x sr -> 0 <= x < m /\ (m | x ^ k - g ^ l)). { intros x X. apply SI in X as (j & J & X & ->). split; [apply Z.mod_pos_bound; exact H|]. apply (EXPO (g ^ j mod m) j J); [apply mod_eq; [exact H|]; symmetry; apply Z.mod_mod; lia|]. now apply LIN. }
    split; [exact SND|]. split; [|right; exact SL]. intros GN x. split; [apply SND|]. intros (XB & X). destruct (SOL x (UNIT x X) GN) as (j & J & XJ). apply SI. exists j. split; [exact J|]. split; [apply LIN; now apply (EXPO x j J XJ)|]. apply mod_eq in XJ; [|exact H]. rewrite XJ. now rewrite Z.mod_small by lia.
  - exists []. split; [reflexivity|]. split; [constructor|]. split; [easy|]. split; [|now left]. intros GN x. split; [easy|]. intros (XB & X). exfalso. destruct (SOL x (UNIT x X) GN) as (j & J & XJ). apply (EXPO x j J XJ) in X. apply LD. apply Z.mod_divide; [lia|]. replace l with (j * k - (j * k - l)) by ring. apply Z.divide_sub_r; [exists (j * k'); rewrite K'; ring|]. apply Z.divide_trans with phi; [exists q; exact Q'|exact X].
Qed.
Theorem kth_unity_ok m k lam g : 0 < m -> 1 <= k -> order_mod g m lam -> exists sr, kth_roots_of_unity m k lam g = Some sr /\ NoDup sr /\ Z.of_nat (length sr) = Z.gcd k lam /\
  (forall x, In x sr -> 0 <= x < m /\ (m | x ^ k - 1)) /\ (generates g m -> forall x, In x sr <-> 0 <= x < m /\ (m | x ^ k - 1)).
Proof.
  intros H K O. pose proof O as (P & _). unfold kth_roots_of_unity. rewrite gcd_nonneg by lia. cbn [obind]. pose proof (Z.gcd_nonneg k lam) as G0. assert (G1 : Z.gcd k lam <> 0) by (intros X; apply Z.gcd_eq_0_l in X; lia).
  destruct (Z.gcd_divide_l k lam) as [k' K']. destruct (Z.gcd_divide_r k lam) as [q Q']. assert (GQ : Z.gcd k' q = 1). { apply (Z.mul_cancel_l _ _ (Z.gcd k lam) G1). rewrite <- Z.gcd_mul_mono_l_nonneg by exact G0. rewrite (Z.mul_comm _ k'), (Z.mul_comm _ q), <- K', <- Q'. ring. }
  set (d := Z.gcd k lam) in *. assert (D : 0 < d) by lia. assert (Q : 0 < q) by nia. rewrite (cdiv_ok lam d) by lia. cbn [obind]. replace (lam / d) with q by (rewrite Q'; now rewrite Z.div_mul by lia). rewrite !modT_spec by exact H. cbn [obind].
  rewrite (powT_gp (mm m) (1 mod m) (res m) (resM m H)) by (apply resm; exact H) || (apply resm; exact H) || lia. cbn [obind]. rewrite gp_modZ by lia.
  assert (O' : order_mod g m (q * d)) by (rewrite <- Q'; exact O). destruct (spread_powers m g q d H Q D O' 0 ltac:(lia)) as (sr & SE & SN & SL & SI). rewrite Z.pow_0_r in SE. exists sr. split; [exact SE|]. split; [exact SN|]. split; [exact SL|].
  assert (LIN : forall j, (lam | j * k) <-> (q | j - 0)). { intros j. rewrite Z.sub_0_r. rewrite Q', K'. rewrite Z.mul_assoc, Z.mul_divide_cancel_r by lia. split; [intros X; rewrite Z.mul_comm in X; apply Z.gauss in X; [exact X|now rewrite Z.gcd_comm]|intros X; now apply Z.divide_mul_l]. }
  assert (EXPO : forall x j, 0 <= j -> (m | g ^ j - x) -> (m | x ^ k - 1) <-> (lam | j * k)).
  { intros x j J X. rewrite <- (om_divide m H g lam (j * k) O ltac:(nia)). rewrite Z.pow_mul_r by lia. pose proof (cong_powZ m (g ^ j) x k ltac:(lia) X) as Y. split; intros A.
    - replace ((g ^ j) ^ k - 1) with (((g ^ j) ^ k - x ^ k) + (x ^ k - 1)) by ring. now apply Z.divide_add_r.
    - replace (x ^ k - 1) with (((g ^ j) ^ k - 1) - ((g ^ j) ^ k - x ^ k)) by ring. now apply Z.divide_sub_r. }
  assert (SND : forall x, In x sr -> 0 <= x < m /\ (m | x ^ k - 1)). { intros x X. apply SI in X as (j & J & X & ->). split; [apply Z.mod_pos_bound; exact H|]. apply (EXPO (g ^ j mod m) j J); [apply mod_eq; [exact H|]; symmetry; apply Z.mod_mod; lia|]. now apply LIN. }
  split; [exact SND|]. intros GN x. split; [apply SND|]. intros (XB & X). destruct (GN x (unit_inv m x k ltac:(lia) X)) as (j & J & XJ). apply SI. exists j. split; [exact J|]. split; [apply LIN; now apply (EXPO x j J XJ)|]. apply mod_eq in XJ; [|exact H]. rewrite XJ. now rewrite Z.mod_small by lia.
Qed.
