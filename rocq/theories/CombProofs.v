From Coq Require Import Znumtheory Zpow_facts Permutation Sorted.
From Verif Require Import Lib BaseModel BaseProofs CombModel CombSpec.
Local Open Scope Z_scope.

(* ------------------------------------------------------------------ random *)
Section Random.
  Variable L : Z.
  Hypothesis HL : 0 <= L.
  Let P : 0 < 2 ^ L. Proof. apply Z.pow_pos_nonneg; lia. Qed.

  Lemma width_spec min max : 0 <= min <= max -> max < 2 ^ L ->
    ((max - min + 1) mod 2 ^ L = 0 /\ min = 0 /\ max = 2 ^ L - 1) \/
    ((max - min + 1) mod 2 ^ L = max - min + 1 /\ 0 < max - min + 1 < 2 ^ L).
  Proof using HL P.
    intros H1 H2. destruct (Z.eq_dec (max - min + 1) (2 ^ L)) as [E|N].
    - left. rewrite E, Z.mod_same by lia. lia.
    - right. rewrite Z.mod_small by lia. lia.
  Qed.
  Lemma integer_to_range_in val min max : 0 <= min <= max -> max < 2 ^ L -> 0 <= val < 2 ^ L ->
    min <= integer_to_range L val min max <= max.
  Proof using HL P.
    intros H1 H2 Hv. unfold integer_to_range. destruct (width_spec min max H1 H2) as [(E & -> & ->)|(E & W)]; rewrite E.
    - cbn. lia.
    - destruct (Z.eqb_spec (max - min + 1) 0); [lia|]. pose proof (Z.mod_pos_bound val (max - min + 1) ltac:(lia)).
      rewrite Z.mod_small by lia. lia.
  Qed.
  Local Notation full := (or_full L).
  Lemma biggest_multiple_spec w : 0 < w < 2 ^ L -> 0 <= biggest_multiple L w < 2 ^ L /\
    (w | full (biggest_multiple L w)) /\ full (biggest_multiple L w) <= 2 ^ L < full (biggest_multiple L w) + w.
  Proof using HL P.
    intros Hw. unfold biggest_multiple. destruct (Z.eqb_spec w 0); [lia|]. unfold neg. split; [apply Z.mod_pos_bound; lia|].
    rewrite (Z.mod_small (0 - w + 2 ^ L)) || rewrite <- (Z_mod_plus_full (0 - w) 1 (2 ^ L)), Z.mul_1_l, (Z.mod_small (0 - w + 2 ^ L)) by lia.
    replace (0 - w + 2 ^ L) with (2 ^ L + (-1) * w) by ring. rewrite Z_mod_plus_full.
    pose proof (Z.mod_pos_bound (2 ^ L) w ltac:(lia)) as B. set (r := 2 ^ L mod w) in *.
    assert (D : (w | 2 ^ L - r)) by (exists (2 ^ L / w); unfold r; rewrite Z.mod_eq by lia; ring).
    destruct (Z.eq_dec r 0) as [E|E].
    - rewrite E in *. change ((0 - 0) mod 2 ^ L) with (0 mod 2 ^ L). rewrite Z.mod_0_l by lia. unfold or_full. cbn.
      rewrite Z.sub_0_r in D. split; [exact D|]. lia.
    - assert (RL : r < 2 ^ L) by lia. rewrite <- (Z_mod_plus_full (0 - r) 1 (2 ^ L)), Z.mul_1_l, (Z.mod_small (0 - r + 2 ^ L)) by lia.
      unfold or_full. destruct (Z.eqb_spec (0 - r + 2 ^ L) 0); [lia|].
      replace (0 - r + 2 ^ L) with (2 ^ L - r) by ring. split; [exact D|]. lia.
  Qed.
  Lemma unbiased min max t v : 0 <= min <= max -> max < 2 ^ L -> min <= t <= max ->
    let w := max - min + 1 in let B := full (biggest_multiple L (w mod 2 ^ L)) in
    0 <= v < B -> (integer_to_range L v min max = t <-> exists j, 0 <= j < B / w /\ v = (t - min) + w * j).
  Proof using HL P.
    intros H1 H2 Ht. cbv zeta. unfold integer_to_range. destruct (width_spec min max H1 H2) as [(E & -> & ->)|(E & W)]; rewrite E.
    - cbn [Z.eqb]. replace (2 ^ L - 1 - 0 + 1) with (2 ^ L) by lia. change (biggest_multiple L 0) with 0. unfold or_full. cbn [Z.eqb].
      intros Hv. rewrite Z.div_same by lia. split; [intros ->; exists 0; lia|]. intros (j & Hj & ->). replace j with 0 by lia. lia.
    - destruct (biggest_multiple_spec (max - min + 1) W) as (_ & D & B).
      set (w := max - min + 1) in *. set (F := full (biggest_multiple L w)) in *. intros Hv.
      destruct (Z.eqb_spec w 0); [lia|]. pose proof (Z.mod_pos_bound v w ltac:(lia)) as Bv.
      rewrite Z.mod_small by lia. destruct D as [k Ek]. rewrite Ek, Z.div_mul by lia. split.
      + intros Em. exists (v / w). pose proof (Z.div_mod v w ltac:(lia)). split; [|lia]. split; [apply Z.div_pos; lia|].
        apply Z.div_lt_upper_bound; lia.
      + intros (j & Hj & ->). rewrite Z.mul_comm, Z_mod_plus_full, Z.mod_small; lia.
  Qed.

  Lemma uniform_next_loop_spec {S} (next : S -> Z * S) m n : forall st, exists k, (k <= n)%nat /\
    uniform_next_loop next n m st = draw next st k /\
    (forall j, (j < k)%nat -> m <> 0 /\ m <= fst (draw next st j)) /\
    ((k < n)%nat -> m = 0 \/ fst (draw next st k) < m).
  Proof.
    induction n as [|n IH]; intros st; cbn [uniform_next_loop]; destruct (next st) as [val st'] eqn:E.
    - exists O. split; [lia|]. cbn [draw]. rewrite E. split; [reflexivity|]. split; intros; lia.
    - destruct (Z.eqb_spec m 0) as [Em|Em]; cbn [negb andb].
      + exists O. split; [lia|]. cbn [draw]. rewrite E. split; [reflexivity|]. split; [intros; lia|]. auto.
      + destruct (Z.leb_spec m val) as [Lv|Lv].
        * destruct (IH st') as (k & Hk & E' & R & A). exists (Datatypes.S k). split; [lia|]. cbn [draw]. rewrite E. cbn [snd].
          split; [exact E'|]. split.
          -- intros [|j] Hj; cbn [draw]; rewrite E; cbn [fst snd]; [auto|]. apply R. lia.
          -- intros Hk'. apply A. lia.
        * exists O. split; [lia|]. cbn [draw]. rewrite E. split; [reflexivity|]. split; [intros; lia|]. auto.
  Qed.
End Random.

(* ------------------------------------------------------------------ prime exponents *)
Lemma zfact_pos n : 0 < zfact n. Proof. unfold zfact. pose proof (lt_O_fact (Z.to_nat n)). lia. Qed.
Lemma zfact_S n : 0 <= n -> zfact (n + 1) = (n + 1) * zfact n.
Proof. intros H. unfold zfact. replace (Z.to_nat (n + 1)) with (S (Z.to_nat n)) by lia. cbn [fact]. lia. Qed.

Lemma prime_pos p : prime p -> 1 < p. Proof. intros []. lia. Qed.
Lemma not_div_mul p a b : prime p -> ~ (p | a) -> ~ (p | b) -> ~ (p | a * b).
Proof. intros Hp Na Nb D. apply prime_mult in D; auto. destruct D; auto. Qed.

(** n! = p^(n/p) * (n/p)! * u *)
Lemma fact_split p (n : nat) : prime p -> exists u, ~ (p | u) /\ zfact (Z.of_nat n) = p ^ (Z.of_nat n / p) * zfact (Z.of_nat n / p) * u.
Proof.
  intros Hp. pose proof (prime_pos p Hp) as P1. induction n as [|n IH].
  - exists 1. split; [intros D; apply Z.divide_1_r_nonneg in D; lia|]. rewrite Z.div_0_l by lia. reflexivity.
  - destruct IH as (u & Nu & E). rewrite Nat2Z.inj_succ, <- Z.add_1_r, zfact_S by lia.
    set (m := Z.of_nat n) in *. assert (Hm : 0 <= m) by (unfold m; lia). clearbody m.
    destruct (Zdivide_dec p (m + 1)) as [[q Eq]|ND].
    + assert (Q1 : (m + 1) / p = m / p + 1).
      { rewrite Eq, Z.div_mul by lia. assert (m / p = q - 1); [|lia]. symmetry. apply Z.div_unique with (p - 1); lia. }
      assert (Q2 : q = m / p + 1) by (rewrite <- Q1, Eq, Z.div_mul; lia).
      exists u. split; [exact Nu|]. rewrite Q1. pose proof (Z.div_pos m p Hm ltac:(lia)).
      rewrite Z.pow_add_r, Z.pow_1_r, zfact_S, <- Q2 by lia. rewrite E, Eq. rewrite Q2 at 1. rewrite Q2. ring.
    + assert (Q1 : (m + 1) / p = m / p).
      { symmetry. apply Z.div_unique with (m mod p + 1).
        - pose proof (Z.mod_pos_bound m p ltac:(lia)). left. split; [lia|].
          assert (m mod p + 1 <> p); [|lia]. intros X. apply ND. exists (m / p + 1).
          rewrite (Z.div_mod m p) at 1 by lia. lia.
        - rewrite (Z.div_mod m p) at 1 by lia. lia. }
      exists ((m + 1) * u). split; [now apply not_div_mul|]. rewrite Q1, E. ring.
Qed.

Lemma fpe_run n p : 0 <= n -> prime p -> exists e u, factorial_prime_exponent n p = Some e /\ 0 <= e /\ ~ (p | u) /\ zfact n = p ^ e * u.
Proof.
  intros Hn Hp. pose proof (prime_pos p Hp) as P1. unfold factorial_prime_exponent.
  destruct (loopZ_spec (factorial_prime_exponent_step p)
    (fun '(m, e) => 0 <= m /\ 0 <= e /\ exists u, ~ (p | u) /\ zfact n = p ^ e * zfact m * u)
    (fun e => 0 <= e /\ exists u, ~ (p | u) /\ zfact n = p ^ e * u)
    (fun '(m, e) => m)) with (fuel := Z.abs n + 2) (s := (n, 0)) as (e & E & He & u & Nu & Eu).
  - intros [m e] (Hm & He & u & Nu & Eu). cbn [factorial_prime_exponent_step]. rewrite cdiv_some by lia. cbn [obind].
    rewrite Z.quot_div_nonneg by lia. destruct (fact_split p (Z.to_nat m) Hp) as (u' & Nu' & Eu'). rewrite Z2Nat.id in Eu' by lia.
    pose proof (Z.div_pos m p Hm ltac:(lia)) as DP.
    destruct (Z.ltb_spec 0 (m / p)) as [LT|GE].
    + eexists. split; [reflexivity|]. cbn beta iota. split; [split; [lia|split; [lia|]]|].
      * exists (u * u'). split; [now apply not_div_mul|]. rewrite Eu, Eu', Z.pow_add_r by lia. ring.
      * assert (m <> 0) by (intros ->; rewrite Z.div_0_l in LT; lia). apply Z.div_lt; lia.
    + eexists. split; [reflexivity|]. cbn beta iota. split; [lia|]. exists (u * u'). split; [now apply not_div_mul|].
      replace (m / p) with 0 in Eu' by lia. rewrite Eu, Eu'. change (zfact 0) with 1. ring.
  - intros [m e] (Hm & _). exact Hm.
  - split; [lia|]. split; [lia|]. exists 1. split; [intros D; apply Z.divide_1_r_nonneg in D; lia|]. rewrite Z.pow_0_r. ring.
  - lia.
  - exists e, u. auto.
Qed.
Lemma exponent_intro p e u x : prime p -> 0 <= e -> ~ (p | u) -> x = p ^ e * u -> exponent_of p x e.
Proof.
  intros Hp He Nu ->. pose proof (prime_pos p Hp). split; [exact He|]. split; [now exists u; ring|].
  intros [k Ek]. apply Nu. exists k. rewrite Z.pow_add_r, Z.pow_1_r in Ek by lia.
  assert (0 < p ^ e) by (apply Z.pow_pos_nonneg; lia). nia.
Qed.
(** dividing out *)
Lemma exponent_div p a u c v x : prime p -> 0 <= a -> 0 <= c -> ~ (p | u) -> ~ (p | v) -> x * (p ^ c * v) = p ^ a * u ->
  c <= a /\ exists w, ~ (p | w) /\ x = p ^ (a - c) * w.
Proof.
  intros Hp Ha Hc Nu Nv E. pose proof (prime_pos p Hp) as P1.
  assert (Le : c <= a).
  { destruct (Z.le_gt_cases c a) as [L|G]; [exact L|]. exfalso. apply Nu.
    replace c with (a + (c - a)) in E by ring. rewrite Z.pow_add_r in E by lia.
    assert (0 < p ^ a) by (apply Z.pow_pos_nonneg; lia).
    assert (E2 : u = x * p ^ (c - a) * v) by nia. rewrite E2. replace (c - a) with (1 + (c - a - 1)) by ring. rewrite Z.pow_add_r, Z.pow_1_r by lia.
    exists (x * p ^ (c - a - 1) * v). ring. }
  split; [exact Le|]. replace a with (c + (a - c)) in E by ring. rewrite Z.pow_add_r in E by lia.
  assert (Pc : 0 < p ^ c) by (apply Z.pow_pos_nonneg; lia).
  assert (E2 : x * v = p ^ (a - c) * u) by nia.
  assert (D : (p ^ (a - c) | x)).
  { apply Z.gauss with v; [exists u; lia|].
    apply Zgcd_1_rel_prime. apply rel_prime_sym. apply rel_prime_Zpower_r; [lia|]. apply rel_prime_sym. now apply prime_rel_prime. }
  destruct D as [w Ew]. exists w. split; [|lia]. intros [k Ek]. apply Nu.
  assert (0 < p ^ (a - c)) by (apply Z.pow_pos_nonneg; lia).
  assert (u = w * v) by nia. exists (k * v). subst. ring.
Qed.

Lemma mpe_run p ks : prime p -> Forall (fun k => 0 <= k) ks -> forall e n v, 0 <= n -> 0 <= e -> ~ (p | v) ->
  exists r e' n' v', multinomial_prime_exponent_loop ks p e n = Some (r - e') /\
    n' = n + zsuml ks /\ 0 <= e' /\ ~ (p | v') /\ p ^ e * v * zprodl (map zfact ks) = p ^ e' * v' /\
    factorial_prime_exponent n' p = Some r.
Proof.
  intros Hp F. induction F as [|k ks Hk F IH]; intros e n v Hn He Nv; cbn [multinomial_prime_exponent_loop].
  - destruct (fpe_run n p Hn Hp) as (f & u & E & _). rewrite E. cbn [obind]. exists f, e, n, v. split; [reflexivity|]. cbn [zsuml map zprodl].
    repeat split; auto; lia.
  - destruct (fpe_run k p Hk Hp) as (f & u & E & Hf & Nu & Eu). rewrite E. cbn [obind].
    destruct (IH (e + f) (n + k) (v * u)) as (r & e' & n' & v' & E1 & -> & He' & Nv' & EQ & E2); [lia|lia|now apply not_div_mul|].
    exists r, e', (n + k + zsuml ks), v'. split; [exact E1|]. cbn [zsuml map zprodl]. split; [ring|]. split; [exact He'|]. split; [exact Nv'|].
    split; [|exact E2]. rewrite <- EQ, Eu, Z.pow_add_r by lia. ring.
Qed.

Lemma multinomial_inner_spec k : forall num n den d, 0 <= n -> 0 <= d -> 
  exists num' den', multinomial_inner k num n den d = (num', n + Z.of_nat k, den') /\
   num' * zfact n = num * zfact (n + Z.of_nat k) /\ den' * zfact d = den * zfact (d + Z.of_nat k).
Proof.
  induction k as [|k IH]; intros num n den d Hn Hd; cbn [multinomial_inner].
  - exists num, den. rewrite !Z.add_0_r. auto.
  - destruct (IH (num * (n + 1)) (n + 1) (den * (d + 1)) (d + 1)) as (num' & den' & E & E1 & E2); [lia|lia|].
    exists num', den'. split; [rewrite E; do 2 f_equal; lia|].
    rewrite zfact_S in E1, E2 by lia.
    replace (n + Z.of_nat (S k)) with (n + 1 + Z.of_nat k) by lia. replace (d + Z.of_nat (S k)) with (d + 1 + Z.of_nat k) by lia.
    split; [apply Z.mul_reg_l with (n + 1); [lia|]|apply Z.mul_reg_l with (d + 1); [lia|]]; lia.
Qed.
Lemma multinomial_loop_spec ks : Forall (fun k => 0 <= k) ks -> forall num n den, 0 <= n -> num = zfact n -> 
  multinomial_loop ks num n den = cdiv (zfact (n + zsuml ks)) (den * zprodl (map zfact ks)).
Proof.
  induction 1 as [|k ks Hk F IH]; intros num n den Hn ->; cbn [multinomial_loop zsuml map zprodl].
  - now rewrite Z.add_0_r, Z.mul_1_r.
  - destruct (multinomial_inner_spec (Z.to_nat k) (zfact n) n den 0 Hn (Z.le_refl 0)) as (num' & den' & E & E1 & E2). rewrite E.
    rewrite Z2Nat.id in * by lia. change (zfact 0) with 1 in E2. rewrite IH by (pose proof (zfact_pos n); nia).
    f_equal; [f_equal; ring|]. rewrite Z.add_0_l in E2. nia.
Qed.
(** products of consecutive factorials divide *)
Lemma fact_mul_divides (a b : nat) : (zfact (Z.of_nat a) * zfact (Z.of_nat b) | zfact (Z.of_nat a + Z.of_nat b)).
Proof.
  assert (G : forall n a b, (a + b = n)%nat -> (Z.of_nat (fact a) * Z.of_nat (fact b) | Z.of_nat (fact (a + b)))).
  { clear. induction n as [|n IH]; intros a b E.
    - assert (a = 0%nat) by lia. assert (b = 0%nat) by lia. subst. exists 1. reflexivity.
    - destruct a as [|a]; [exists 1; cbn [fact Nat.add]; lia|]. destruct b as [|b]; [exists 1; rewrite Nat.add_0_r; cbn [fact]; lia|].
      destruct (IH a (S b)) as [k1 E1]; [lia|]. destruct (IH (S a) b) as [k2 E2]; [lia|].
      exists (k1 + k2). replace (S a + S b)%nat with (S (S a + b))%nat by lia.
      replace (a + S b)%nat with (S a + b)%nat in E1 by lia.
      assert (FS : forall m, Z.of_nat (fact (S m)) = (Z.of_nat m + 1) * Z.of_nat (fact m)) by (intros; cbn [fact]; lia).
      rewrite (FS (S a + b)%nat). set (N := Z.of_nat (fact (S a + b))) in *. rewrite (FS a), (FS b) in *.
      replace (Z.of_nat (S a + b)) with (Z.of_nat a + Z.of_nat b + 1) by lia.
      transitivity ((Z.of_nat a + 1) * N + (Z.of_nat b + 1) * N); [ring|]. rewrite E1 at 1. rewrite E2. ring. }
  unfold zfact. replace (Z.to_nat (Z.of_nat a + Z.of_nat b)) with (a + b)%nat by lia. rewrite !Nat2Z.id. now apply (G (a + b)%nat).
Qed.
Lemma multinomial_divides ks : Forall (fun k => 0 <= k) ks -> (zprodl (map zfact ks) | zfact (zsuml ks)) /\ 0 <= zsuml ks.
Proof.
  induction 1 as [|k ks Hk F [IH S0]]; cbn [zsuml map zprodl]; [split; [now exists 1|lia]|]. split; [|lia].
  pose proof (fact_mul_divides (Z.to_nat k) (Z.to_nat (zsuml ks))) as D. rewrite !Z2Nat.id in D by lia.
  eapply Z.divide_trans; [|exact D]. now apply Z.mul_divide_mono_l.
Qed.

(* ------------------------------------------------------------------ digits *)
Lemma digits_value_app b x y : digits_value b (x ++ y) = digits_value b x + b ^ Z.of_nat (length x) * digits_value b y.
Proof.
  induction x as [|d x IH]; cbn [app digits_value length]; [change (b ^ Z.of_nat 0) with 1; ring|].
  rewrite IH, Nat2Z.inj_succ, Z.pow_succ_r by lia. ring.
Qed.
Lemma digits_value_zeros b k : digits_value b (repeat 0 k) = 0.
Proof. induction k as [|k IH]; cbn [repeat digits_value]; [reflexivity|]. rewrite IH. ring. Qed.
Lemma from_digits_spec vd b : from_digits vd b = digits_value b vd.
Proof.
  unfold from_digits. rewrite fold_left_rev_right || rewrite <- fold_left_rev_right. rewrite rev_involutive.
  induction vd as [|d vd IH]; [reflexivity|]. cbn [fold_right digits_value]. rewrite IH. ring.
Qed.
Lemma integer_digits_run n b : 0 <= n -> 2 <= b -> exists vd, (forall len, integer_digits n b len = Some (vd ++ repeat 0 (len - length vd))) /\
  digits_value b vd = n /\ Forall (fun d => 0 <= d < b) vd /\ (vd <> [] -> last vd 0 <> 0) /\ (n = 0 -> vd = []).
Proof.
  intros Hn Hb. unfold integer_digits.
  destruct (loopZ_spec (integer_digits_step b)
    (fun '(t, vd) => 0 <= t /\ digits_value b vd + b ^ Z.of_nat (length vd) * t = n /\ Forall (fun d => 0 <= d < b) vd /\
                     (t = 0 -> vd <> [] -> last vd 0 <> 0) /\ (n = 0 -> vd = []))
    (fun vd => digits_value b vd = n /\ Forall (fun d => 0 <= d < b) vd /\ (vd <> [] -> last vd 0 <> 0) /\ (n = 0 -> vd = []))
    (fun '(t, vd) => t)) with (fuel := Z.abs n + 1) (s := (n, [] : list Z)) as (vd & E & HP).
  - intros [t vd] (Ht & EV & F & Hl & H0). cbn [integer_digits_step]. destruct (Z.ltb_spec 0 t) as [Pt|Pt].
    + rewrite cmod_some, cdiv_some by lia. cbn [obind]. rewrite Z.rem_mod_nonneg, Z.quot_div_nonneg by lia.
      eexists. split; [reflexivity|]. cbn beta iota. pose proof (Z.mod_pos_bound t b ltac:(lia)) as B.
      pose proof (Z.div_mod t b ltac:(lia)) as D. split; [|apply Z.div_lt; lia]. split; [apply Z.div_pos; lia|].
      assert (PP : 0 < b ^ Z.of_nat (length vd)) by (apply Z.pow_pos_nonneg; lia).
      split; [|split; [|split]].
      * rewrite digits_value_app. cbn [digits_value]. rewrite app_length, Nat.add_1_r, Nat2Z.inj_succ, Z.pow_succ_r by lia.
        rewrite <- EV. rewrite D at 3. ring.
      * apply Forall_app. split; [exact F|]. now constructor.
      * intros T0 _. rewrite last_last. intros M0. rewrite T0, M0 in D. lia.
      * intros N0. exfalso. specialize (H0 N0). subst vd. change (b ^ Z.of_nat (length [])) with 1 in EV. cbn [digits_value] in EV. lia.
    + eexists. split; [reflexivity|]. cbn beta iota. assert (t = 0) by lia. subst t. split; [lia|]. auto.
  - intros [t vd] (Ht & _). exact Ht.
  - split; [lia|]. split; [change (b ^ Z.of_nat (length [])) with 1; cbn [digits_value]; lia|]. split; [constructor|]. split; [easy|reflexivity].
  - lia.
  - exists vd. rewrite E. cbn [obind]. auto.
Qed.
Lemma integer_string_loop_spec ds : forall s, Forall (fun d => 0 <= d < 36) ds ->
  integer_string_loop ds s = Some (s ++ map (fun d => nth (Z.to_nat d) digit_chars 0) ds).
Proof.
  induction ds as [|d ds IH]; intros s F; cbn [integer_string_loop map]; [now rewrite app_nil_r|].
  inversion F; subst. destruct (Z.leb_spec 0 d); [|lia]. cbn [guard obind].
  rewrite (nth_error_nth' _ 0) by (change (length digit_chars) with 37%nat; lia). cbn [obind]. rewrite IH by auto. now rewrite <- app_assoc.
Qed.
