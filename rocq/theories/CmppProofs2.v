(** Euler's theorem modulo p^e, powers of units with integer exponents, Wilson's theorem for prime powers. *)
From Coq Require Import Znumtheory Zpow_facts Permutation Setoid Morphisms.
From Verif Require Import Lib BaseModel BaseProofs PrimesSpec PrimesProofs NumTheory NumTheory2 OrderProofs5 CombSpec CmppModel CmppProofs.
Open Scope Z_scope.

Lemma prime_nat p : prime p -> is_prime (Z.to_nat p).
Proof.
  intros PP. pose proof (prime_ge_2 p PP). split; [lia|]. intros d (k & K). assert (D : (Z.of_nat d | p)) by (exists (Z.of_nat k); rewrite <- Nat2Z.inj_mul, <- K; lia). destruct (Znumtheory.prime_divisors p PP _ D) as [|[|[|]]]; lia.
Qed.
(** congruence modulo m *)
Definition cong (m a b : Z) : Prop := a mod m = b mod m.
Lemma cong_divide m a b : 1 <= m -> cong m a b <-> (m | a - b).
Proof.
  intros M. unfold cong. split; intros H.
  - apply Z.mod_divide; [lia|]. rewrite Zminus_mod, H, Z.sub_diag. apply Z.mod_0_l. lia.
  - destruct H as [t T]. replace a with (b + t * m) by lia. apply Z_mod_plus_full.
Qed.
#[global] Instance cong_equiv m : Equivalence (cong m).
Proof. split; unfold cong; [intros x; reflexivity|intros x y H; now symmetry|intros x y z A B; now rewrite A]. Qed.
#[global] Instance cong_add m : Proper (cong m ==> cong m ==> cong m) Z.add.
Proof. intros a a' A b b' B. unfold cong in *. now rewrite Zplus_mod, A, B, <- Zplus_mod. Qed.
#[global] Instance cong_sub m : Proper (cong m ==> cong m ==> cong m) Z.sub.
Proof. intros a a' A b b' B. unfold cong in *. now rewrite Zminus_mod, A, B, <- Zminus_mod. Qed.
#[global] Instance cong_mul m : Proper (cong m ==> cong m ==> cong m) Z.mul.
Proof. intros a a' A b b' B. unfold cong in *. now rewrite Zmult_mod, A, B, <- Zmult_mod. Qed.
#[global] Instance cong_opp m : Proper (cong m ==> cong m) Z.opp.
Proof. intros a a' A. assert (X : cong m (0 - a) (0 - a')) by (now rewrite A). exact X. Qed.
Lemma cong_pow m a b k : 0 <= k -> cong m a b -> cong m (a ^ k) (b ^ k).
Proof. intros K H. revert k K. apply natlike_ind; [reflexivity|]. intros k K IH. rewrite !Z.pow_succ_r by exact K. now rewrite IH, H. Qed.
Lemma cong_mod m a : 1 <= m -> cong m (a mod m) a.
Proof. intros. unfold cong. apply Z.mod_mod. lia. Qed.
Lemma cong_eq m a b : cong m a b -> 0 <= a < m -> a = b mod m.
Proof. intros H A. rewrite <- H. symmetry. now apply Z.mod_small. Qed.

Section Units.
Variable p : Z.
Hypothesis PP : prime p.
Variable e : Z.
Hypothesis E1 : 1 <= e.
Let m := p ^ e.
Definition phi_pe : Z := p ^ (e - 1) * (p - 1).
Notation phi := phi_pe.
Notation "a == b" := (cong m a b) (at level 70).
Lemma p2 : 2 <= p. Proof. now apply prime_ge_2. Qed.
Lemma m_pos : 1 <= m. Proof. apply pe_pos; [exact p2|lia]. Qed.
Lemma p_m : (p | m). Proof. unfold m. replace e with (1 + (e - 1)) by lia. rewrite Z.pow_add_r, Z.pow_1_r by lia. apply Z.divide_factor_l. Qed.
Lemma m_ge_p : p <= m. Proof. apply Z.divide_pos_le; [pose proof m_pos; lia|exact p_m]. Qed.
Lemma phi_pos : 1 <= phi. Proof. pose proof p2. pose proof (Z.pow_pos_nonneg p (e - 1) ltac:(lia) ltac:(lia)). unfold phi_pe. nia. Qed.
Definition unit (x : Z) : Prop := ~ (p | x).
Lemma euler c : unit c -> c ^ phi == 1.
Proof.
  intros N. pose proof m_pos as M. apply cong_divide; [exact M|]. assert (U : Z.gcd c m = 1) by (apply free_pow; [exact PP|lia|exact N]). pose proof (euler_Z c m ltac:(lia) U) as X. pose proof p2.
  assert (EQ : Z.of_nat (totient (Z.to_nat m)) = phi); [|now rewrite EQ in X]. replace (Z.to_nat m) with (Z.to_nat p ^ S (Z.to_nat (e - 1)))%nat. 2:{ apply Nat2Z.inj. rewrite pow_nat, !Z2Nat.id by lia. unfold m. f_equal. lia. }
  rewrite totient_prime_power by (now apply prime_nat). rewrite Nat2Z.inj_mul, pow_nat, !Z2Nat.id by lia. unfold phi_pe. f_equal. lia.
Qed.
Lemma unit_cong a b : a == b -> unit a -> unit b.
Proof. intros H A D. apply A. apply cong_divide in H; [|exact m_pos]. destruct H as [t T]. destruct p_m as [s S0]. destruct D as [d D]. exists (t * s + d). rewrite S0 in T. lia. Qed.
Lemma unit_mul a b : unit a -> unit b -> unit (a * b).
Proof. apply not_div_mul. exact PP. Qed.
Lemma unit_1 : unit 1.
Proof. intros C. apply Z.divide_1_r_nonneg in C; pose proof p2; lia. Qed.
Lemma unit_opp a : unit a -> unit (- a).
Proof. intros A D. apply A. destruct D as [k K]. exists (- k). lia. Qed.
Lemma unit_pow a k : 0 <= k -> unit a -> unit (a ^ k).
Proof. intros K A. revert k K. apply natlike_ind; [rewrite Z.pow_0_r; exact unit_1|]. intros k K IH. rewrite Z.pow_succ_r by exact K. now apply unit_mul. Qed.
Lemma unit_cancel a b c : unit c -> a * c == b * c -> a == b.
Proof.
  intros C H. pose proof m_pos as M. apply cong_divide in H; [|exact M]. apply cong_divide; [exact M|]. replace (a * c - b * c) with (c * (a - b)) in H by ring. apply Z.gauss in H; [exact H|]. rewrite Z.gcd_comm. apply free_pow; [exact PP|lia|exact C].
Qed.
(** powers of units with integer exponents *)
Definition zp (x k : Z) : Z := x ^ (k mod phi).
Lemma zp_nonneg x k : 0 <= k -> unit x -> zp x k == x ^ k.
Proof.
  intros K U. unfold zp. pose proof phi_pos. pose proof (Z.div_mod k phi ltac:(lia)) as D. pose proof (Z.mod_pos_bound k phi ltac:(lia)). assert (0 <= k / phi) by (apply Z.div_pos; lia).
  rewrite D at 2. rewrite Z.pow_add_r, Z.pow_mul_r by nia. rewrite (cong_pow m (x ^ phi) 1) by (try assumption; now apply euler). rewrite Z.pow_1_l by assumption. rewrite Z.mul_1_l. reflexivity.
Qed.
Lemma zp_unit x k : unit x -> unit (zp x k).
Proof. intros U. apply unit_pow; [|exact U]. apply Z.mod_pos_bound. pose proof phi_pos. lia. Qed.
Lemma zp_0 x : zp x 0 == 1.
Proof. unfold zp. rewrite Z.mod_0_l by (pose proof phi_pos; lia). reflexivity. Qed.
Lemma zp_1 x : unit x -> zp x 1 == x.
Proof. intros U. rewrite zp_nonneg by (auto; lia). now rewrite Z.pow_1_r. Qed.
Lemma zp_add x a b : unit x -> zp x (a + b) == zp x a * zp x b.
Proof.
  intros U. pose proof phi_pos. pose proof (Z.mod_pos_bound a phi ltac:(lia)). pose proof (Z.mod_pos_bound b phi ltac:(lia)). unfold zp at 2 3. rewrite <- Z.pow_add_r by lia. rewrite <- zp_nonneg by (auto; lia). unfold zp. rewrite <- Zplus_mod. reflexivity.
Qed.
Lemma zp_cong x y k : x == y -> zp x k == zp y k.
Proof. intros H. apply cong_pow; [|exact H]. apply Z.mod_pos_bound. pose proof phi_pos. lia. Qed.
Lemma zp_mul x y k : zp (x * y) k = zp x k * zp y k.
Proof. apply Z.pow_mul_l. Qed.
Lemma zp_neg x k : unit x -> zp x k * zp x (- k) == 1.
Proof. intros U. rewrite <- zp_add by exact U. rewrite Z.add_opp_diag_r. apply zp_0. Qed.
Lemma zp_one k : zp 1 k = 1.
Proof. apply Z.pow_1_l. apply Z.mod_pos_bound. pose proof phi_pos. lia. Qed.
Definition inv (x : Z) : Z := zp x (-1).
Lemma inv_r x : unit x -> x * inv x == 1.
Proof. intros U. rewrite <- (zp_1 x U) at 1. now apply zp_neg. Qed.
Lemma inv_unit x : unit x -> unit (inv x). Proof. apply zp_unit. Qed.
Lemma inv_cong x y : x == y -> inv x == inv y. Proof. apply zp_cong. Qed.

(** ** Wilson *)
Lemma zprodl_perm l l' : Permutation l l' -> zprodl l = zprodl l'.
Proof. induction 1; cbn [zprodl]; lia. Qed.
Lemma zprodl_app l l' : zprodl (l ++ l') = zprodl l * zprodl l'.
Proof. induction l as [|x l IH]; cbn [zprodl app]; [ring|rewrite IH; ring]. Qed.
Lemma pairing (f : Z -> Z) : forall n l, (length l <= n)%nat -> NoDup l -> (forall x, In x l -> In (f x) l /\ f (f x) = x /\ x * f x == 1) -> zprodl l == zprodl (filter (fun x => f x =? x) l).
Proof.
  induction n as [|n IH]; intros l L ND H; [destruct l; [reflexivity|cbn in L; lia]|]. destruct l as [|x l]; [reflexivity|]. cbn [length] in L. apply NoDup_cons_iff in ND as (NX & ND). destruct (H x (or_introl eq_refl)) as (IX & IV & M1). cbn [filter]. destruct (Z.eqb_spec (f x) x) as [EX|EX].
  - cbn [zprodl]. rewrite (IH l); [reflexivity|lia|exact ND|]. intros y Y. destruct (H y (or_intror Y)) as (IY & IVY & MY). split; [|auto]. destruct IY as [C|IY]; [|exact IY]. exfalso. apply NX. assert (y = x) by congruence. now subst y.
  - destruct IX as [C|IX]; [congruence|]. destruct (in_split _ _ IX) as (l1 & l2 & ->). assert (ND' : NoDup (l1 ++ l2)) by (now apply NoDup_remove_1 in ND). assert (NF : ~ In (f x) (l1 ++ l2)) by (now apply NoDup_remove_2 in ND).
    assert (K : zprodl (l1 ++ l2) == zprodl (filter (fun x => f x =? x) (l1 ++ l2))).
    { apply IH; [rewrite app_length in *; cbn in L; lia|exact ND'|]. intros y Y. assert (Y' : In y (x :: l1 ++ f x :: l2)). { right. apply in_app_or in Y. apply in_or_app. destruct Y; [now left|right; now right]. } destruct (H y Y') as (IY & IVY & MY). split; [|auto]. destruct IY as [C|IY]; [exfalso; assert (f x = y) by congruence; subst y; now apply NF|]. apply in_app_or in IY. apply in_or_app. destruct IY as [|[C|]]; [now left| |now right]. exfalso. apply NX. assert (x = y) by congruence. subst y. apply in_app_or in Y. apply in_or_app. destruct Y; [now left|right; now right]. }
    rewrite filter_app in *. cbn [filter]. rewrite IV. destruct (Z.eqb_spec x (f x)); [congruence|]. cbn [zprodl]. rewrite zprodl_app in *. cbn [zprodl]. replace (x * (zprodl l1 * (f x * zprodl l2))) with ((x * f x) * (zprodl l1 * zprodl l2)) by ring. rewrite M1, Z.mul_1_l. exact K.
Qed.
Definition units : list Z := filter (fun x => negb (x mod p =? 0)) (map Z.of_nat (seq 1 (Z.to_nat m))).
Lemma in_units x : In x units <-> 1 <= x < m /\ unit x.
Proof.
  pose proof p2. pose proof m_pos. unfold units. rewrite filter_In, in_map_iff, negb_true_iff, Z.eqb_neq. unfold unit. rewrite <- (Z.mod_divide x p) by lia. split.
  - intros ((k & <- & K) & D). apply in_seq in K. split; [|exact D]. assert (Z.of_nat k <> m); [|lia]. intros C. apply D. apply Z.mod_divide; [lia|]. rewrite C. exact p_m.
  - intros (B & D). split; [|exact D]. exists (Z.to_nat x). split; [lia|]. apply in_seq. lia.
Qed.
Lemma sk_prod n : sk p n = zprodl (filter (fun x => negb (x mod p =? 0)) (map Z.of_nat (seq 1 n))).
Proof.
  induction n as [|n IH]; [reflexivity|]. rewrite seq_S, map_app, filter_app, zprodl_app, <- IH. cbn [sk map filter]. change (1 + n)%nat with (S n). destruct (Z.of_nat (S n) mod p =? 0); cbn [negb zprodl]; ring.
Qed.
Lemma units_nodup : NoDup units.
Proof. apply NoDup_filter. apply FinFun.Injective_map_NoDup; [intros a b; lia|apply seq_NoDup]. Qed.
Definition iv (x : Z) : Z := inv x mod m.
Lemma iv_cong x : iv x == inv x. Proof. apply cong_mod, m_pos. Qed.
Lemma iv_ok x : In x units -> In (iv x) units /\ iv (iv x) = x /\ x * iv x == 1.
Proof.
  intros I. apply in_units in I as (B & U). pose proof m_pos as M. pose proof (Z.mod_pos_bound (inv x) m ltac:(lia)) as BI. fold (iv x) in BI. assert (UI : unit (iv x)) by (apply (unit_cong (inv x)); [symmetry; apply iv_cong|now apply inv_unit]).
  assert (X1 : x * iv x == 1) by (rewrite iv_cong; now apply inv_r). split; [|split; [|exact X1]].
  - apply in_units. split; [|exact UI]. assert (iv x <> 0); [|lia]. intros C. apply UI. rewrite C. apply Z.divide_0_r.
  - unfold iv at 1. symmetry. apply cong_eq; [|lia]. apply (unit_cancel _ _ (iv x) UI). rewrite X1. symmetry. rewrite Z.mul_comm. now apply inv_r.
Qed.
Lemma sq_fixed x : In x units -> iv x = x <-> (m | (x - 1) * (x + 1)).
Proof.
  intros I. destruct (iv_ok x I) as (_ & _ & X1). pose proof m_pos as M. apply in_units in I as (B & U). replace ((x - 1) * (x + 1)) with (x * x - 1) by ring. rewrite <- cong_divide by exact M. split; intros H.
  - rewrite H in X1. exact X1.
  - unfold iv. symmetry. apply cong_eq; [|lia]. apply (unit_cancel _ _ x U). rewrite H. symmetry. rewrite Z.mul_comm. now apply inv_r.
Qed.
Lemma wilson_fixed l : NoDup l -> (forall x, In x l <-> In x units /\ (m | (x - 1) * (x + 1))) -> sk p (Z.to_nat m) == zprodl l.
Proof.
  intros ND H. rewrite sk_prod. fold units. rewrite (pairing iv (length units) units (le_n _) units_nodup iv_ok). rewrite (zprodl_perm (filter (fun x => iv x =? x) units) l); [reflexivity|]. apply NoDup_Permutation; [apply NoDup_filter, units_nodup|exact ND|]. intros x. rewrite filter_In, H, Z.eqb_eq. split; intros (A & B); split; auto; now apply (sq_fixed x A).
Qed.
Lemma pe_split a b c : 0 <= c -> (p ^ c | a * b) -> ~ (p | b) -> (p ^ c | a).
Proof. intros C D N. rewrite Z.mul_comm in D. apply Z.gauss in D; [exact D|]. rewrite Z.gcd_comm. apply free_pow; assumption. Qed.
Lemma near x t : 0 < m -> -1 <= t < m -> 1 <= x < m -> (m | x - t) -> x = t \/ (t <= 0 /\ x = m + t).
Proof. intros M T X (k & K). assert (k = 0 \/ k = 1) as [->| ->] by nia; lia. Qed.
Lemma wilson_odd : p <> 2 -> sk p (Z.to_nat m) == -1.
Proof.
  intros P3. pose proof p2. pose proof m_ge_p. pose proof m_pos. rewrite (wilson_fixed [1; m - 1]).
  - cbn [zprodl]. apply cong_divide; [assumption|]. exists 1. ring.
  - repeat constructor; cbn; lia.
  - assert (U1 : unit 1) by exact unit_1. assert (UM : unit (m - 1)). { apply (unit_cong (-1)); [|apply (unit_opp 1); exact U1]. apply cong_divide; [assumption|]. exists (-1). ring. }
    intros x. split.
    + intros [<-|[<-|[]]]; (split; [apply in_units; split; [lia|assumption]|]); [exists 0; ring|exists (m - 2); ring].
    + intros (I & D). apply in_units in I as (B & U). destruct (Zdivide_dec p (x - 1)) as [D1|D1].
      * assert (N : ~ (p | x + 1)). { intros D2. assert (D3 : (p | 2)) by (replace 2 with (x + 1 - (x - 1)) by ring; now apply Z.divide_sub_r). apply Z.divide_pos_le in D3; lia. }
        apply pe_split in D; [|lia|exact N]. destruct (near x 1) as [|]; [lia|lia|lia|exact D| |]; cbn; lia.
      * rewrite Z.mul_comm in D. apply pe_split in D; [|lia|exact D1]. destruct (near x (-1)) as [|]; [lia|lia|lia|replace (x - -1) with (x + 1) by ring; exact D| |]; cbn; lia.
Qed.
Lemma wilson_two : p = 2 -> 3 <= e -> sk p (Z.to_nat m) == 1.
Proof.
  intros P3 E3. pose proof m_pos as M. set (h := 2 ^ (e - 1)). assert (Em : m = 2 * h). { unfold m, h. rewrite P3. replace e with (1 + (e - 1)) at 1 by lia. rewrite Z.pow_add_r, Z.pow_1_r by lia. reflexivity. }
  assert (H4 : 4 <= h) by (change 4 with (2 ^ 2); apply Z.pow_le_mono_r; lia). assert (HE : exists h2, h = 2 * h2 /\ 2 <= h2). { exists (2 ^ (e - 2)). split; [|change 2 with (2 ^ 1) at 1; apply Z.pow_le_mono_r; lia]. unfold h. replace (e - 1) with (1 + (e - 2)) by lia. rewrite Z.pow_add_r, Z.pow_1_r by lia. reflexivity. } destruct HE as (h2 & HE & H2).
  assert (OD : forall x, unit x <-> exists k, x = 2 * k + 1). { intros x. unfold unit. rewrite P3. split; [intros N; exists (x / 2); pose proof (Z.div_mod x 2 ltac:(lia)); pose proof (Z.mod_pos_bound x 2 ltac:(lia)); assert (x mod 2 <> 0) by (intros C; apply N; apply Z.mod_divide; lia); lia|intros (k & K) (d & D); lia]. }
  rewrite (wilson_fixed [1; h - 1; h + 1; m - 1]).
  - cbn [zprodl]. apply cong_divide; [exact M|]. rewrite Em, HE. exists (4 * h2 * h2 - h2 - 1). ring.
  - repeat constructor; cbn; lia.
  - intros x. rewrite in_units, OD. split.
    + intros [<-|[<-|[<-|[<-|[]]]]]; (split; [split; [lia|]|]); [exists 0; lia|exists 0; ring|exists (h2 - 1); lia|exists (h2 - 1); rewrite Em, HE; ring|exists h2; lia|exists (h2 + 1); rewrite Em, HE; ring|exists (2 * h2 - 1); lia|exists (m - 2); ring].
    + intros ((B & (k & K)) & D). rewrite K in D. replace ((2 * k + 1 - 1) * (2 * k + 1 + 1)) with (2 * (2 * (k * (k + 1)))) in D by ring. destruct D as (q & D). assert (D' : (2 ^ (e - 2) | k * (k + 1))). { exists q. assert (2 * 2 ^ (e - 2) = h) by (unfold h; replace (e - 1) with (1 + (e - 2)) by lia; rewrite Z.pow_add_r, Z.pow_1_r by lia; reflexivity). nia. }
      assert (H2' : 2 * 2 ^ (e - 2) = h) by (unfold h; replace (e - 1) with (1 + (e - 2)) by lia; rewrite Z.pow_add_r, Z.pow_1_r by lia; reflexivity). rewrite <- P3 in D'.
      destruct (Zdivide_dec p k) as [DK|DK].
      * apply pe_split in D'; [|lia|]. 2:{ rewrite P3 in *. intros (b & Bb). destruct DK as (a & A). lia. } destruct D' as (w & W). rewrite P3 in W. assert (x = w * h + 1) by lia. assert (-1 < w < 2) by (split; apply (Z.mul_lt_mono_pos_r h); lia). assert (w = 0 \/ w = 1) as [->| ->] by lia; cbn; lia.
      * rewrite Z.mul_comm in D'. apply pe_split in D'; [|lia|exact DK]. destruct D' as (w & W). rewrite P3 in W. assert (x = w * h - 1) by lia. assert (0 < w < 3) by (split; apply (Z.mul_lt_mono_pos_r h); lia). assert (w = 1 \/ w = 2) as [->| ->] by lia; cbn; lia.
Qed.
(** the product of a full period *)
Definition wil : Z := if (p =? 2) && negb (e =? 2) then 1 else -1.
Lemma wilson : sk p (Z.to_nat m) == wil.
Proof.
  unfold wil. destruct (Z.eqb_spec p 2) as [P3|P3]; cbn [andb]; [|now apply wilson_odd]. destruct (Z.eqb_spec e 2) as [E2|E2]; cbn [negb].
  - unfold m. rewrite P3, E2. reflexivity.
  - destruct (Z.eq_dec e 1) as [E3|E3]; [unfold m; rewrite P3, E3; reflexivity|]. apply wilson_two; [exact P3|lia].
Qed.
(** full periods and a rest *)
Lemma sk_shift k r : sk p (Z.to_nat m * k + r) == sk p (Z.to_nat m * k) * sk p r.
Proof.
  pose proof p2. pose proof m_pos. induction r as [|r IH]; [rewrite Nat.add_0_r; cbn [sk]; rewrite Z.mul_1_r; reflexivity|]. replace (Z.to_nat m * k + S r)%nat with (S (Z.to_nat m * k + r)) by lia. cbn [sk].
  assert (EQ : Z.of_nat (S (Z.to_nat m * k + r)) = Z.of_nat (S r) + Z.of_nat k * m) by lia. destruct p_m as (t & T). assert (EM : (Z.of_nat (S r) + Z.of_nat k * m) mod p = Z.of_nat (S r) mod p) by (rewrite T, Z.mul_assoc; apply Z_mod_plus_full). rewrite EQ, EM. destruct (Z.of_nat (S r) mod p =? 0); [exact IH|].
  assert (C : Z.of_nat (S r) + Z.of_nat k * m == Z.of_nat (S r)) by apply Z_mod_plus_full. rewrite C, IH. rewrite Z.mul_assoc. reflexivity.
Qed.
Lemma sk_period k r : sk p (Z.to_nat m * k + r) == wil ^ Z.of_nat k * sk p r.
Proof.
  rewrite sk_shift. assert (K : sk p (Z.to_nat m * k) == wil ^ Z.of_nat k); [|now rewrite K]. induction k as [|k IH]; [rewrite Nat.mul_0_r; reflexivity|]. replace (Z.to_nat m * S k)%nat with (Z.to_nat m * k + Z.to_nat m)%nat by lia. rewrite sk_shift, IH, wilson. rewrite Nat2Z.inj_succ, Z.pow_succ_r by lia. rewrite Z.mul_comm. reflexivity.
Qed.
End Units.
