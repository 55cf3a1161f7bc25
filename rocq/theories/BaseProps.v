(** Properties C01-C07 (integer base functions).  Only statements; proofs are in BaseProofs. *)
From Verif Require Import Lib BaseModel BaseProofs.
From Coq Require Import Znumtheory.
Local Open Scope Z_scope.

(** C01: gcd terminates on every pair of integers, and equals the greatest common
    divisor (up to sign in general; exactly for non-negative operands). *)
Theorem C01_gcd : forall a b : Z, exists g,
  gcd a b = Some g /\ (g | a) /\ (g | b) /\
  (forall d, (d | a) -> (d | b) -> (d | g)) /\
  (0 <= a -> 0 <= b -> 0 <= g).
Proof.
  intros a b. destruct (gcd_run a b) as (g & E & Hg & Hs). exists g.
  assert (D : forall d, (Z.abs g | d) <-> (g | d)) by (intros; apply Z.divide_abs_l).
  assert (D' : forall d, (d | Z.abs g) <-> (d | g)) by (intros; apply Z.divide_abs_r).
  repeat split; auto.
  - apply D. rewrite Hg. apply Z.gcd_divide_l.
  - apply D. rewrite Hg. apply Z.gcd_divide_r.
  - intros d H1 H2. apply D'. rewrite Hg. now apply Z.gcd_greatest.
Qed.
Example C01_case : gcd 84 (-36) = Some 12 /\ gcd 0 0 = Some 0 /\ gcd 30 12 = Some 6.
Proof. vm_compute. auto. Qed.
Print Assumptions C01_gcd.

(** C02: gcd_ex returns a gcd with Bezout cofactors, for every pair of integers. *)
Theorem C02_gcd_ex : forall a b : Z, exists g x y s,
  gcd_ex a b = Some (g, x, y, s) /\
  a * x + b * y = g /\ (g | a) /\ (g | b) /\ (forall d, (d | a) -> (d | b) -> (d | g)).
Proof.
  intros a b. destruct (gcd_ex_run a b) as (g & x & y & s & E & Hg & Hb & _).
  exists g, x, y, s.
  assert (D : forall d, (Z.abs g | d) <-> (g | d)) by (intros; apply Z.divide_abs_l).
  repeat split; auto.
  - apply D. rewrite Hg. apply Z.gcd_divide_l.
  - apply D. rewrite Hg. apply Z.gcd_divide_r.
  - intros d H1 H2. rewrite <- Hb. apply Z.divide_add_r; now apply Z.divide_mul_l.
Qed.
Print Assumptions C02_gcd_ex.

(** C02: for non-negative operands the gcd is non-negative and the cofactors stay small:
    |x| <= b/g and |y| <= a/g, so none of the intermediate values leaves the operand type;
    the parity of the step counter gives their signs. *)
Theorem C02_gcd_ex_bounds : forall a b : Z, 0 <= a -> 0 <= b -> exists x y s,
  gcd_ex a b = Some (Z.gcd a b, x, y, s) /\ 0 <= s /\
  a * x + b * y = Z.gcd a b /\
  (if Z.even s then 0 <= x /\ y <= 0 else x <= 0 /\ 0 <= y) /\
  (0 < b -> Z.abs x * Z.gcd a b <= b) /\ (0 < a -> Z.abs y * Z.gcd a b <= a).
Proof.
  intros a b Ha Hb. destruct (gcd_ex_nonneg a b Ha Hb) as (x & y & s & E & Hs & B & S1 & S2 & B1 & B2).
  exists x, y, s. repeat split; auto.
  unfold psign in *. destruct (Z.even s); lia.
Qed.
Example C02_case : gcd_ex 240 46 = Some (2, -9, 47, 5) /\ 240 * -9 + 46 * 47 = 2.
Proof. vm_compute. auto. Qed.
Print Assumptions C02_gcd_ex_bounds.

(** C03: lcm is the least common multiple; gcd_max(a,b) is the largest divisor of b
    all of whose prime factors divide a. *)
Theorem C03_lcm : forall a b : Z, 0 <= a -> 0 <= b -> a <> 0 \/ b <> 0 -> exists m,
  lcm a b = Some m /\ 0 <= m /\ (a | m) /\ (b | m) /\ (forall k, (a | k) -> (b | k) -> (m | k)).
Proof.
  intros a b Ha Hb H. exists (Z.lcm a b). rewrite lcm_run by assumption.
  repeat split; auto.
  - apply Z.lcm_nonneg.
  - apply Z.divide_lcm_l.
  - apply Z.divide_lcm_r.
  - intros k. apply Z.lcm_least.
Qed.
Theorem C03_lcm_zero_zero : lcm 0 0 = None.
Proof. reflexivity. Qed.
Theorem C03_gcd_max : forall a b : Z, 0 <= a -> 0 < b -> exists g,
  gcd_max a b = Some g /\ 0 < g /\ (g | b) /\
  (forall p, prime p -> (p | g) -> (p | a)) /\
  Z.gcd a (b / g) = 1 /\
  (forall d, 0 < d -> (d | b) -> (forall p, prime p -> (p | d) -> (p | a)) -> (d | g)).
Proof.
  intros a b Ha Hb. destruct (gcd_max_run a b Ha Hb) as (g & E & Pg & Dg & K & C).
  exists g. repeat split; auto. intros d Hd Dd Kd. exact (gcd_max_greatest a b g d Hb Pg Dg C Hd Dd Kd).
Qed.
Example C03_case : lcm 12 18 = Some 36 /\ gcd_max 6 720 = Some 144 /\ gcd_max 0 5 = Some 5.
Proof. vm_compute. auto. Qed.
Print Assumptions C03_lcm.
Print Assumptions C03_gcd_max.

(** C04: powT is y-fold multiplication in every monoid, for every exponent. *)
Theorem C04_powT : forall (T : Type) (mul : T -> T -> T) (e1 : T),
  (forall x y z, mul x (mul y z) = mul (mul x y) z) ->
  (forall x, mul e1 x = x) -> (forall x, mul x e1 = x) ->
  forall (x : T) (y : Z), 0 <= y ->
  powT mul e1 x y = Some (Nat.iter (Z.to_nat y) (mul x) e1).
Proof.
  intros T mul e1 A L R x y Hy. rewrite (powT_npow mul e1 A L R x y Hy). f_equal.
  induction (Z.to_nat y) as [|n IH]; [reflexivity|]. cbn [npow]. rewrite IH. reflexivity.
Qed.
Theorem C04_powT_negative : forall (T : Type) (mul : T -> T -> T) (e1 x : T) (y : Z),
  y <= 0 -> powT mul e1 x y = Some e1.
Proof. exact @powT_neg. Qed.
Example C04_case : powT Z.mul 1 3 13 = Some 1594323 /\ (forall x y z, x * (y * z) = x * y * z).
Proof. split; [reflexivity|]. apply Z.mul_assoc. Qed.
Print Assumptions C04_powT.

(** C05: the generic Newton square root is the exact integer square root, rounded
    towards zero.  (The hypothesis only says that log2|x| + 6 fits a 64-bit counter.) *)
Theorem C05_sqrtT : forall x : Z, Z.log2 (Z.abs x) + 6 <= 2 ^ 64 -> exists r,
  sqrtT x 1 0 = Some (if x <? 0 then - r else r) /\ 0 <= r /\ r * r <= Z.abs x < (r + 1) * (r + 1).
Proof.
  intros x H. exists (Z.sqrt (Z.abs x)). rewrite sqrtT_run by exact H.
  pose proof (Z.sqrt_spec (Z.abs x) ltac:(lia)). pose proof (Z.sqrt_nonneg (Z.abs x)).
  replace (Z.sqrt (Z.abs x) + 1) with (Z.succ (Z.sqrt (Z.abs x))) by lia.
  split; [|auto]. f_equal. destruct (Z.ltb_spec x 0).
  - rewrite Z.sgn_neg by lia. lia.
  - destruct (Z.eq_dec x 0) as [->|]; [reflexivity|]. rewrite Z.sgn_pos by lia. lia.
Qed.
Theorem C05_is_square : forall x : Z, 0 <= x -> Z.log2 x + 6 <= 2 ^ 64 -> exists b,
  is_square x = Some b /\ (b = true <-> exists r, x = r * r).
Proof.
  intros x Hx H. unfold is_square.
  rewrite sqrtT_run by (rewrite Z.abs_eq by lia; exact H).
  rewrite Z.abs_eq by lia. cbn [obind]. eexists. split; [reflexivity|].
  assert (E : Z.sgn x * Z.sqrt x = Z.sqrt x).
  { destruct (Z.eq_dec x 0) as [->|]; [reflexivity|]. rewrite Z.sgn_pos by lia. lia. }
  rewrite E. unfold sqT. split.
  - intros T. apply Z.eqb_eq in T. exists (Z.sqrt x). lia.
  - intros [r ->]. apply Z.eqb_eq.
    replace (r * r) with (Z.abs r * Z.abs r) by lia.
    now rewrite Z.sqrt_square by lia.
Qed.
(** C05: isqrt / isqrtc are exact whatever the floating point unit returned as its first
    estimate ([est], any int32 that is not negative), for every |x| < (2^31-1)^2. *)
Theorem C05_isqrt : forall (est : Z -> Z) (x : Z),
  (forall n, 0 <= est n < 2 ^ 31) -> Z.abs x < (2 ^ 31 - 1) * (2 ^ 31 - 1) -> exists r,
  isqrt est x = Some (if x <? 0 then - r else r) /\ 0 <= r /\ r * r <= Z.abs x < (r + 1) * (r + 1).
Proof.
  intros est x He Hx. exists (Z.sqrt (Z.abs x)).
  pose proof (Z.sqrt_spec (Z.abs x) ltac:(lia)) as HS. pose proof (Z.sqrt_nonneg (Z.abs x)) as HN.
  cbv zeta in HS. replace (Z.succ (Z.sqrt (Z.abs x))) with (Z.sqrt (Z.abs x) + 1) in HS by lia.
  rewrite (isqrt_run est x (Z.sqrt (Z.abs x))).
  - split; [|auto]. f_equal. destruct (Z.ltb_spec x 0).
    + rewrite Z.sgn_neg by lia. lia.
    + destruct (Z.eq_dec x 0) as [->|]; [reflexivity|]. rewrite Z.sgn_pos by lia. lia.
  - intros n. unfold Bsq. specialize (He n). lia.
  - unfold Bsq. split; [exact HN|].
    destruct (Z.lt_ge_cases (Z.sqrt (Z.abs x)) (2 ^ 31 - 1)) as [|G]; [assumption|exfalso].
    pose proof (Z.mul_le_mono_nonneg (2 ^ 31 - 1) (Z.sqrt (Z.abs x)) (2 ^ 31 - 1) (Z.sqrt (Z.abs x)) ltac:(lia) G ltac:(lia) G). lia.
  - exact HS.
Qed.
Theorem C05_isqrtc : forall (est : Z -> Z) (x : Z),
  (forall n, 0 <= est n < 2 ^ 31) -> Z.abs x <= (2 ^ 31 - 1) * (2 ^ 31 - 1) -> exists r,
  isqrtc est x = Some (if x <? 0 then - r else r) /\ 0 <= r /\
  Z.abs x <= r * r /\ (forall q, 0 <= q -> Z.abs x <= q * q -> r <= q).
Proof.
  intros est x He Hx. exists (Z.sqrt_up (Z.abs x)).
  pose proof (Z.sqrt_up_nonneg (Z.abs x)) as HN.
  assert (HU : Z.abs x <= Z.sqrt_up (Z.abs x) * Z.sqrt_up (Z.abs x)).
  { apply Z.sqrt_sqrt_up_spec. lia. }
  assert (HM : forall q, 0 <= q -> Z.abs x <= q * q -> Z.sqrt_up (Z.abs x) <= q).
  { intros q Hq Hle. replace q with (Z.sqrt_up (q * q)) by (apply Z.sqrt_up_square; lia).
    now apply Z.sqrt_up_le_mono. }
  rewrite (isqrtc_run est x (Z.sqrt_up (Z.abs x))).
  - split; [|auto]. f_equal. destruct (Z.ltb_spec x 0).
    + rewrite Z.sgn_neg by lia. lia.
    + destruct (Z.eq_dec x 0) as [->|]; [reflexivity|]. rewrite Z.sgn_pos by lia. lia.
  - intros n. unfold Bsq. specialize (He n). lia.
  - unfold Bsq. split; [exact HN|]. apply HM; lia.
  - exact HU.
  - intros q Hq. destruct (Z.lt_ge_cases (q * q) (Z.abs x)) as [|G]; [assumption|].
    specialize (HM q ltac:(lia) G). lia.
Qed.
(** The int32_t loop variable overflows on the last representable root: undefined behaviour. *)
Theorem C05_isqrt_int32_overflow_refuted : forall est : Z -> Z,
  est ((2 ^ 31 - 1) * (2 ^ 31 - 1)) = 2 ^ 31 - 1 ->
  isqrt est ((2 ^ 31 - 1) * (2 ^ 31 - 1)) = None.
Proof. intros est E. unfold isqrt. rewrite E. vm_compute. reflexivity. Qed.
Example C05_case : sqrtT 1000003 1 0 = Some 1000 /\ isqrt (fun _ => 5) 99 = Some 9
  /\ isqrtc (fun _ => 12) 82 = Some 10 /\ isqrt (fun _ => 7) (-50) = Some (-7).
Proof. vm_compute. auto. Qed.
Print Assumptions C05_sqrtT.
Print Assumptions C05_isqrt.

(** C06: cube roots *)
Theorem C06_cbrtT : forall x : Z, Z.log2 (Z.abs x) + 6 <= 2 ^ 64 -> exists c,
  cbrtT x 1 0 = Some (if x <? 0 then - c else c) /\ 0 <= c /\
  c * c * c <= Z.abs x < (c + 1) * (c + 1) * (c + 1).
Proof.
  intros x H. destruct (cbrtT_run x H) as (c & Hc & B & E). exists c.
  split; [|auto]. rewrite E. f_equal. destruct (Z.ltb_spec x 0).
  - rewrite Z.sgn_neg by lia. lia.
  - destruct (Z.eq_dec x 0) as [->|]; [nia|]. rewrite Z.sgn_pos by lia. lia.
Qed.
Theorem C06_icbrt : forall (est : Z -> Z) (x : Z),
  (forall n, 0 <= est n < 2 ^ 21) -> Z.abs x < 2097151 * 2097151 * 2097151 -> exists c,
  icbrt est x = Some (if x <? 0 then - c else c) /\ 0 <= c /\
  c * c * c <= Z.abs x < (c + 1) * (c + 1) * (c + 1).
Proof.
  intros est x He Hx. destruct (cbrt_exists (Z.abs x) ltac:(lia)) as (c & Hc & B).
  exists c. rewrite (icbrt_run est x c).
  - split; [|auto]. f_equal. destruct (Z.ltb_spec x 0).
    + rewrite Z.sgn_neg by lia. lia.
    + destruct (Z.eq_dec x 0) as [->|]; [nia|]. rewrite Z.sgn_pos by lia. lia.
  - intros n. unfold Bcb. specialize (He n). lia.
  - unfold Bcb. split; [exact Hc|]. apply cube_lt; lia.
  - exact B.
Qed.
Theorem C06_icbrtc : forall (est : Z -> Z) (x : Z),
  (forall n, 0 <= est n < 2 ^ 21) -> Z.abs x <= 2097151 * 2097151 * 2097151 -> exists c,
  icbrtc est x = Some (if x <? 0 then - c else c) /\ 0 <= c /\
  Z.abs x <= c * c * c /\ (forall q, 0 <= q -> Z.abs x <= q * q * q -> c <= q).
Proof.
  intros est x He Hx.
  assert (X : exists c, 0 <= c /\ Z.abs x <= c * c * c /\ (forall q, 0 <= q < c -> q * q * q < Z.abs x)).
  { destruct (cbrt_exists (Z.abs x) ltac:(lia)) as (c & Hc & B).
    destruct (Z.eq_dec (c * c * c) (Z.abs x)) as [E|E].
    - exists c. repeat split; [lia|lia|]. intros q Hq. pose proof (cb_mono q c Hq). lia.
    - exists (c + 1). repeat split; [lia|lia|]. intros q Hq. pose proof (cube_le q c ltac:(lia)). lia. }
  destruct X as (c & Hc & U & L).
  assert (HM : forall q, 0 <= q -> Z.abs x <= q * q * q -> c <= q).
  { intros q Hq Hle. destruct (Z.le_gt_cases c q) as [|G]; [assumption|]. specialize (L q ltac:(lia)). lia. }
  exists c. rewrite (icbrtc_run est x c).
  - split; [|auto]. f_equal. destruct (Z.ltb_spec x 0).
    + rewrite Z.sgn_neg by lia. lia.
    + destruct (Z.eq_dec x 0) as [->|].
      * specialize (HM 0 ltac:(lia) ltac:(lia)). lia.
      * rewrite Z.sgn_pos by lia. lia.
  - intros n. unfold Bcb. specialize (He n). lia.
  - unfold Bcb. split; [exact Hc|]. apply HM; lia.
  - exact U.
  - exact L.
Qed.
Example C06_case : cbrtT 999999 1 0 = Some 99 /\ icbrt (fun _ => 3) 1000 = Some 10
  /\ icbrtc (fun _ => 4) 1001 = Some 11 /\ icbrtc (fun _ => 4) 0 = Some 0.
Proof. vm_compute. auto. Qed.
Print Assumptions C06_cbrtT.
Print Assumptions C06_icbrt.

(** C07: rounded divisions, for every dividend and every non-zero divisor of either sign *)
Theorem C07_div_floor : forall a b : Z, b <> 0 -> exists q,
  div_floor a b = Some q /\ (0 < b -> q * b <= a < (q + 1) * b) /\ (b < 0 -> (q + 1) * b < a <= q * b).
Proof.
  intros a b Hb. exists (a / b). rewrite div_floor_run by exact Hb. split; [reflexivity|].
  pose proof (Z.div_mod a b Hb).
  split; intros S; [pose proof (Z.mod_pos_bound a b S)|pose proof (Z.mod_neg_bound a b S)]; nia.
Qed.
Theorem C07_div_ceil : forall a b : Z, b <> 0 -> exists q,
  div_ceil a b = Some q /\ (0 < b -> (q - 1) * b < a <= q * b) /\ (b < 0 -> q * b <= a < (q - 1) * b).
Proof.
  intros a b Hb. exists (- (- a / b)). rewrite div_ceil_run by exact Hb. split; [reflexivity|].
  pose proof (Z.div_mod (- a) b Hb).
  split; intros S; [pose proof (Z.mod_pos_bound (- a) b S)|pose proof (Z.mod_neg_bound (- a) b S)]; nia.
Qed.
(** nearest integer; a tie goes away from zero *)
Theorem C07_div_round : forall a b : Z, b <> 0 -> exists q,
  div_round a b = Some q /\ 2 * Z.abs (a - q * b) <= Z.abs b /\
  (2 * Z.abs (a - q * b) = Z.abs b -> Z.abs a < Z.abs (q * b)).
Proof. exact div_round_run. Qed.
Theorem C07_div_by_zero : forall a, div_floor a 0 = None /\ div_ceil a 0 = None /\ div_round a 0 = None.
Proof.
  intros a. unfold div_floor, div_ceil, div_round, cdiv. cbn.
  repeat split; [destruct (a <? 0)|destruct (0 <? a)|destruct (0 <? a)]; reflexivity.
Qed.
Theorem C07_multiple : forall a b : Z, 0 < a -> exists m,
  multiple a b = Some m /\ (a | m) /\ b <= m < b + a.
Proof. exact multiple_run. Qed.
(** The documented "greater than or equal to b" fails for a negative [a]. *)
Theorem C07_multiple_negative_refuted : exists a b m, multiple a b = Some m /\ m < b.
Proof. exists (-3), 7, 6. split; [reflexivity|lia]. Qed.
Example C07_case : div_floor (-7) 2 = Some (-4) /\ div_ceil 7 (-2) = Some (-3) /\
  div_round (-5) 2 = Some (-3) /\ multiple 5 11 = Some 15.
Proof. vm_compute. auto. Qed.
Print Assumptions C07_div_floor.
Print Assumptions C07_div_ceil.
Print Assumptions C07_div_round.
Print Assumptions C07_multiple.
