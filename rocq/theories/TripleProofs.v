From Coq Require Import Znumtheory FinFun.
From Verif Require Import Lib BaseModel BaseProofs TripleModel TripleSpec.
Open Scope Z_scope.

(** ** ranges *)
Definition zrange (lo hi step : Z) : list Z := map (fun k => lo + step * Z.of_nat k) (seq 0 (Z.to_nat ((hi - lo) / step + 1))).
Lemma zrange_in lo hi step x : 0 < step -> (In x (zrange lo hi step) <-> lo <= x <= hi /\ (step | x - lo)).
Proof.
  intros H. unfold zrange. rewrite in_map_iff. pose proof (Z.div_mod (hi - lo) step ltac:(lia)) as D. pose proof (Z.mod_pos_bound (hi - lo) step H) as B. split.
  - intros (k & <- & I). apply in_seq in I. split; [nia|]. exists (Z.of_nat k). lia.
  - intros (L & [k E]). exists (Z.to_nat k). assert (0 <= k) by nia. split; [nia|]. apply in_seq. assert (k < (hi - lo) / step + 1) by nia. lia.
Qed.
Lemma zrange_nodup lo hi step : 0 < step -> NoDup (zrange lo hi step).
Proof. intros H. apply FinFun.Injective_map_NoDup; [|apply seq_NoDup]. intros x y E. nia. Qed.
Lemma zfor_app {A} lo hi step (body : Z -> list A -> option (list A)) (g : Z -> list A) acc : 0 < step ->
  (forall x acc, lo <= x <= hi -> (step | x - lo) -> body x acc = Some (acc ++ g x)) -> zfor lo hi step body acc = Some (acc ++ flat_map g (zrange lo hi step)).
Proof.
  intros Hs HB. unfold zfor, zrange. set (N := Z.to_nat ((hi - lo) / step + 1)).
  assert (HB' : forall k acc, (k < N)%nat -> body (lo + step * Z.of_nat k) acc = Some (acc ++ g (lo + step * Z.of_nat k))). { intros k a Hk. assert (I : In (lo + step * Z.of_nat k) (zrange lo hi step)) by (apply in_map_iff; exists k; split; [reflexivity|apply in_seq; unfold N in Hk; lia]). apply zrange_in in I as (I1 & I2); [|exact Hs]. now apply HB. }
  clearbody N. destruct (for_range_spec (fun k s => s = acc ++ flat_map g (map (fun k => lo + step * Z.of_nat k) (seq 0 k))) (fun k => body (lo + step * Z.of_nat k)) 0%nat N acc) as (s & E & ->); [lia|cbn; now rewrite app_nil_r| |exact E].
  intros k s Hk ->. rewrite HB' by lia. eexists. split; [reflexivity|]. rewrite seq_S, map_app, flat_map_app. cbn [map flat_map Nat.add]. now rewrite app_nil_r, app_assoc.
Qed.
Lemma NoDup_app' {A} (l1 l2 : list A) : NoDup l1 -> NoDup l2 -> (forall x, In x l1 -> In x l2 -> False) -> NoDup (l1 ++ l2).
Proof. induction l1 as [|x l1 IH]; intros N1 N2 D; [exact N2|]. inversion N1; subst. cbn. constructor; [intros I; apply in_app_iff in I as [I|I]; [contradiction|apply (D x); [now left|exact I]]|apply IH; auto; intros y I J; apply (D y); [now right|exact J]]. Qed.
Lemma NoDup_flat_map {A B} (g : A -> list B) l : NoDup l -> (forall x, In x l -> NoDup (g x)) -> (forall x y t, In x l -> In y l -> In t (g x) -> In t (g y) -> x = y) -> NoDup (flat_map g l).
Proof.
  induction l as [|x l IH]; intros ND HG HI; [constructor|]. inversion ND as [|? ? Hx Hl]; subst. cbn [flat_map]. apply NoDup_app'; [apply HG; now left|apply IH; [exact Hl|intros; apply HG; now right|intros; eapply HI; try (right; eassumption); eassumption]|].
  intros t I1 I2. apply in_flat_map in I2 as (y & Iy & It). apply Hx. rewrite (HI x y t); auto; [now left|now right].
Qed.
Lemma flat_map_flat_map {A B C} (f : B -> list C) (g : A -> list B) l : flat_map f (flat_map g l) = flat_map (fun x => flat_map f (g x)) l.
Proof. induction l as [|x l IH]; [reflexivity|]. cbn [flat_map]. rewrite flat_map_app. now rewrite IH. Qed.

(** ** multiples of primitive triples *)
Definition scale (k : Z) (t : Z * Z * Z) : Z * Z * Z := let '(a, b, c) := t in (k * a, k * b, k * c).
Lemma visit_multiples_run a b c k_max vt : visit_multiples a b c k_max vt = Some (vt ++ map (fun k => scale k (a, b, c)) (zrange 1 k_max 1)).
Proof.
  unfold visit_multiples, zfor, zrange. rewrite Z.div_1_r. replace (k_max - 1 + 1) with k_max by lia.
  match goal with |- context [for_range 0 ?N ?bd ?s] => destruct (for_range_spec (fun k '(x, y, z, v) => x = Z.of_nat k * a /\ y = Z.of_nat k * b /\ z = Z.of_nat k * c /\ v = vt ++ map (fun k => scale k (a, b, c)) (map (fun k => 1 + 1 * Z.of_nat k) (seq 0 k))) bd 0%nat N s) as ([[[x y] z] v] & E & _ & _ & _ & ->) end; [lia|cbn; rewrite app_nil_r; auto| |now rewrite E].
  intros k [[[x y] z] v] _ (-> & -> & -> & ->). eexists. split; [reflexivity|]. cbv beta iota. rewrite seq_S, !map_app, app_assoc. cbn [map Nat.add scale]. repeat split; try lia. replace (1 + 1 * Z.of_nat k) with (Z.of_nat (S k)) by lia. do 2 f_equal. f_equal; [f_equal|]; lia.
Qed.
Lemma primitive_scale k t : 1 <= k -> primitive (scale k t) -> k = 1.
Proof. destruct t as [[a b] c]. cbn. intros H P. assert (D : (k | 1)) by (apply P; apply Z.divide_factor_l). apply Z.divide_pos_le in D; lia. Qed.
Lemma primitive_gcd a b c : primitive (a, b, c) <-> Z.gcd (Z.gcd a b) c = 1.
Proof.
  cbn. split.
  - intros P. pose proof (Z.gcd_nonneg (Z.gcd a b) c). assert (D : (Z.gcd (Z.gcd a b) c | 1)). { apply P; [etransitivity; [apply Z.gcd_divide_l|apply Z.gcd_divide_l]|etransitivity; [apply Z.gcd_divide_l|apply Z.gcd_divide_r]|apply Z.gcd_divide_r]. } apply Z.divide_1_r in D. lia.
  - intros E d Da Db Dc. rewrite <- E. apply Z.gcd_greatest; [apply Z.gcd_greatest|]; assumption.
Qed.
Lemma primitive_part a b c : 0 < c -> exists g t, 1 <= g /\ (a, b, c) = scale g t /\ primitive t.
Proof.
  intros Hc. set (g := Z.gcd (Z.gcd a b) c). assert (G0 : 0 <= g) by apply Z.gcd_nonneg. assert (Dc : (g | c)) by apply Z.gcd_divide_r. assert (Da : (g | a)) by (etransitivity; [apply Z.gcd_divide_l|apply Z.gcd_divide_l]). assert (Db : (g | b)) by (etransitivity; [apply Z.gcd_divide_l|apply Z.gcd_divide_r]).
  assert (G1 : 1 <= g). { destruct (Z.eq_dec g 0) as [E|]; [|lia]. rewrite E in Dc. apply Z.divide_0_l in Dc. lia. }
  destruct Da as [a' Ea], Db as [b' Eb], Dc as [c' Ec]. exists g, (a', b', c'). split; [exact G1|]. split; [cbn; rewrite Ea, Eb, Ec; f_equal; [f_equal|]; lia|].
  intros d Xa Xb Xc. assert (D : (d * g | g)). { unfold g at 2. rewrite Ea, Eb, Ec. apply Z.gcd_greatest; [apply Z.gcd_greatest|]; now apply Z.mul_divide_mono_r. } destruct D as [w Hw]. exists w. assert (g * (w * d - 1) = 0) by lia. nia.
Qed.
Lemma primitive_scales_inj k1 t1 k2 t2 : 1 <= k1 -> 1 <= k2 -> primitive t1 -> primitive t2 -> scale k1 t1 = scale k2 t2 -> k1 = k2 /\ t1 = t2.
Proof.
  destruct t1 as [[a1 b1] c1], t2 as [[a2 b2] c2]. intros H1 H2 P1 P2 E. cbn in E. injection E as Ea Eb Ec. apply primitive_gcd in P1, P2.
  assert (X : forall k a b c, 1 <= k -> Z.gcd (Z.gcd (k * a) (k * b)) (k * c) = k * Z.gcd (Z.gcd a b) c). { intros k a b c H. rewrite Z.gcd_mul_mono_l_nonneg by lia. now rewrite Z.gcd_mul_mono_l_nonneg by lia. }
  assert (k1 = k2). { pose proof (X k1 a1 b1 c1 H1) as X1. rewrite Ea, Eb, Ec, X, P1, P2 in X1 by assumption. lia. }
  subst k2. split; [reflexivity|]. f_equal; [f_equal|]; nia.
Qed.
(** a list of the primitive triples of a shape, with the multiples up to the limit *)
Definition with_multiples (c_max : Z) (only : bool) (base : list (Z * Z * Z)) : list (Z * Z * Z) :=
  flat_map (fun t => map (fun k => scale k t) (zrange 1 (if only then 1 else Z.quot c_max (snd t)) 1)) base.
Lemma multiples_exact (Q : Z * Z * Z -> Prop) c_max only base : (forall k t, 1 <= k -> (Q (scale k t) <-> Q t)) -> (forall t, Q t -> 0 < snd t) ->
  NoDup base -> (forall t, In t base <-> Q t /\ primitive t /\ snd t <= c_max) -> lists_exactly (wanted Q c_max only) (with_multiples c_max only base).
Proof.
  intros HQ H0 ND HB. split.
  - apply NoDup_flat_map; [exact ND| |].
    + intros t I. apply HB in I as (I1 & I2 & _). apply H0 in I1. clear ND HB. pose proof (zrange_nodup 1 (if only then 1 else Z.quot c_max (snd t)) 1 ltac:(lia)) as N. set (l := zrange _ _ _) in *. clearbody l. induction l as [|x l IH]; [constructor|]. inversion N; subst. cbn. constructor; [|now apply IH]. intros J. apply in_map_iff in J as (y & E & J). destruct t as [[a b] c]. cbn in E, I1. injection E as _ _ E. assert (x = y) by nia. now subst.
    + intros t1 t2 u I1 I2 J1 J2. apply in_map_iff in J1 as (k1 & <- & J1), J2 as (k2 & E & J2). apply zrange_in in J1, J2; try lia. apply HB in I1, I2. destruct I1 as (_ & P1 & _), I2 as (_ & P2 & _). symmetry in E. destruct (primitive_scales_inj _ _ _ _ (proj1 (proj1 J1)) (proj1 (proj1 J2)) P1 P2 E) as (_ & X). exact X.
  - intros t. unfold with_multiples, wanted. rewrite in_flat_map. split.
    + intros (u & Iu & J). apply in_map_iff in J as (k & <- & J). apply zrange_in in J as ((K1 & K2) & _); [|lia]. apply HB in Iu as (Iu & Pu & Bu). pose proof (H0 _ Iu) as Cu. split; [now apply HQ|]. destruct only.
      * assert (k = 1) as -> by lia. destruct u as [[a b] c]. cbn [scale snd] in *. rewrite !Z.mul_1_l. auto.
      * destruct u as [[a b] c]. cbn [scale snd] in *. split; [|discriminate]. rewrite Z.quot_div_nonneg in K2 by lia. pose proof (Z.mul_div_le c_max c Cu). nia.
    + intros (Qt & Bt & Pt). destruct t as [[a b] c]. pose proof (H0 _ Qt) as Ct. cbn [snd] in *. destruct (primitive_part a b c Ct) as (g & u & G & E & Pu). rewrite E in Qt. apply HQ in Qt; [|exact G]. pose proof (H0 _ Qt) as Cu. exists u. assert (Ec : c = g * snd u) by (destruct u as [[x y] z]; cbn in E |- *; now injection E). split; [apply HB; split; [exact Qt|split; [exact Pu|nia]]|].
      apply in_map_iff. exists g. split; [now symmetry|]. apply zrange_in; [lia|]. split; [|apply Z.divide_1_l]. split; [exact G|]. destruct only.
      * rewrite E in Pt. specialize (Pt eq_refl). apply primitive_scale in Pt; lia.
      * rewrite Z.quot_div_nonneg by nia. apply Z.div_le_lower_bound; lia.
Qed.

(** ** coprime factors of a square *)
Lemma coprime_square u v w : 0 <= u -> Z.gcd u v = 1 -> u * v = w * w -> exists s, 0 <= s /\ u = s * s.
Proof.
  intros Hu G E. set (g := Z.gcd u w). assert (G0 : 0 <= g) by apply Z.gcd_nonneg. destruct (Z.eq_dec g 0) as [Eg|Ng].
  - apply Z.gcd_eq_0_l in Eg. exists 0. lia.
  - exists g. split; [exact G0|]. destruct (Z.gcd_divide_l u w) as [u' Eu]. destruct (Z.gcd_divide_r u w) as [w' Ew]. fold g in Eu, Ew.
    assert (C : Z.gcd u' w' = 1). { assert (X : Z.gcd (g * u') (g * w') = g * Z.gcd u' w') by (apply Z.gcd_mul_mono_l_nonneg; exact G0). replace (g * u') with u in X by lia. replace (g * w') with w in X by lia. fold g in X. nia. }
    assert (E2 : u' * v = g * (w' * w')) by nia. assert (U0 : 0 <= u') by nia.
    assert (D1 : (u' | g)). { apply Z.gauss with (m := w'); [apply Z.gauss with (m := w'); [|exact C]|exact C]. exists v. nia. }
    assert (D2 : (g | u')). { apply Z.gauss with (m := v); [exists (w' * w'); nia|]. assert (X : (Z.gcd g v | 1)). { rewrite <- G. apply Z.gcd_greatest; [etransitivity; [apply Z.gcd_divide_l|apply Z.gcd_divide_l]|apply Z.gcd_divide_r]. } apply Z.divide_1_r in X. pose proof (Z.gcd_nonneg g v). lia. }
    assert (g = u') by (apply Z.divide_antisym_nonneg; assumption). nia.
Qed.
Lemma gcd_one a b : (forall d, 0 < d -> (d | a) -> (d | b) -> d = 1) -> a <> 0 \/ b <> 0 -> Z.gcd a b = 1.
Proof. intros H N. apply H; [|apply Z.gcd_divide_l|apply Z.gcd_divide_r]. pose proof (Z.gcd_nonneg a b). destruct (Z.eq_dec (Z.gcd a b) 0) as [E|]; [|lia]. pose proof (Z.gcd_eq_0_l _ _ E). pose proof (Z.gcd_eq_0_r _ _ E). lia. Qed.
Lemma prime_sq_divide p x : prime p -> (p | x * x) -> (p | x).
Proof. intros P D. destruct (prime_mult p P x x D); assumption. Qed.
(** coprime by way of primes *)
Lemma prime_divisor n : 1 < n -> exists p, prime p /\ (p | n).
Proof.
  intros Hn. assert (Hn0 : 0 <= n) by lia. revert Hn. pattern n. apply Z_lt_induction; [|exact Hn0].
  clear n Hn0. intros n IH Hn. destruct (prime_dec n) as [P|NP]; [exists n; split; [exact P|apply Z.divide_refl]|].
  destruct (not_prime_divide n Hn NP) as (m & Hm & Dm). destruct (IH m ltac:(lia) ltac:(lia)) as (p & Pp & Dp). exists p. split; [exact Pp|]. eapply Z.divide_trans; eassumption.
Qed.
Lemma gcd_one_prime a b : (forall p, prime p -> (p | a) -> (p | b) -> False) -> Z.gcd a b = 1.
Proof.
  intros H. pose proof (Z.gcd_nonneg a b) as G0. destruct (Z.eq_dec (Z.gcd a b) 1) as [|N]; [assumption|exfalso].
  assert (X : exists p, prime p /\ (p | Z.gcd a b)).
  { destruct (Z.eq_dec (Z.gcd a b) 0) as [E|N0]; [exists 2; split; [apply prime_2|rewrite E; apply Z.divide_0_r]|]. apply prime_divisor. lia. }
  destruct X as (p & P & D). apply (H p P); etransitivity; [exact D|apply Z.gcd_divide_l|exact D|apply Z.gcd_divide_r].
Qed.
