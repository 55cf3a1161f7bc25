From Verif Require Import Lib BaseModel BaseProofs ModuloModel ModuloSpec.
From Coq Require Import Znumtheory.
Local Open Scope Z_scope.

(* ------------------------------------------------------------------ *)
(** machine part *)

Lemma pow_half W : 1 <= W -> 2 ^ W = 2 * 2 ^ (W - 1) /\ 0 < 2 ^ (W - 1).
Proof.
  intros H. split; [rewrite <- Z.pow_succ_r by lia; f_equal; lia|apply Z.pow_pos_nonneg; lia].
Qed.

Lemma mod_once s M : 0 < M -> 0 <= s < 2 * M -> s mod M = if s <? M then s else s - M.
Proof.
  intros HM Hs. destruct (Z.ltb_spec s M); [now apply Z.mod_small|].
  symmetry. apply Z.mod_unique with (q := 1); lia.
Qed.

Lemma mod_neg_once s M : 0 < M -> - M <= s < M -> s mod M = if s <? 0 then s + M else s.
Proof.
  intros HM Hs. destruct (Z.ltb_spec s 0); [|now apply Z.mod_small].
  symmetry. apply Z.mod_unique with (q := -1); lia.
Qed.

Lemma mod_add_u_spec W x y M : 1 <= M < 2 ^ W -> 0 <= x < M -> 0 <= y <= M -> mod_add_u W x y M = (x + y) mod M.
Proof.
  intros HM Hx Hy. unfold mod_add_u. cbv zeta. rewrite (mod_once (x + y) M) by lia.
  destruct (Z.leb_spec (2 ^ W) (x + y)).
  - cbn [negb andb]. destruct (Z.ltb_spec (x + y) M); [lia|].
    replace ((x + y) mod 2 ^ W) with (x + y - 2 ^ W) by (apply Z.mod_unique with (q := 1); lia).
    symmetry. apply Z.mod_unique with (q := -1); lia.
  - rewrite (Z.mod_small (x + y)) by lia. cbn [negb andb]. destruct (Z.ltb_spec (x + y) M); [reflexivity|].
    apply Z.mod_small. lia.
Qed.

Lemma mod_sub_u_spec W x y M : 1 <= M < 2 ^ W -> 0 <= x < M -> 0 <= y <= M -> mod_sub_u W x y M = (x - y) mod M.
Proof.
  intros HM Hx Hy. unfold mod_sub_u. rewrite (Z.mod_small (M - y)) by lia. rewrite mod_add_u_spec by lia.
  replace (x + (M - y)) with (x - y + 1 * M) by lia. apply Z.mod_add. lia.
Qed.

Lemma mod_neg_u_spec W v M : 1 <= M < 2 ^ W -> 0 <= v < M -> mod_neg_u W v M = (- v) mod M.
Proof.
  intros HM Hv. unfold mod_neg_u. rewrite (mod_neg_once (- v) M) by lia. destruct (Z.eqb_spec v 0) as [->|N]; [reflexivity|].
  destruct (Z.ltb_spec (- v) 0); [|lia]. rewrite Z.mod_small by lia. lia.
Qed.

Lemma to_s_id W x : 1 <= W -> - 2 ^ (W - 1) <= x < 2 ^ (W - 1) -> to_s W x = x.
Proof.
  intros HW Hx. destruct (pow_half W HW) as [E P]. unfold to_s. cbv zeta. rewrite (mod_neg_once x (2 ^ W)) by lia.
  destruct (Z.ltb_spec x 0), (Z.ltb_spec (x + 2 ^ W) (2 ^ (W - 1))), (Z.ltb_spec x (2 ^ (W - 1))); lia.
Qed.

Lemma to_s_over W x : 1 <= W -> 2 ^ (W - 1) <= x < 2 ^ W -> to_s W x = x - 2 ^ W.
Proof.
  intros HW Hx. destruct (pow_half W HW) as [E P]. unfold to_s. cbv zeta. rewrite (Z.mod_small x) by lia.
  destruct (Z.ltb_spec x (2 ^ (W - 1))); lia.
Qed.
Lemma to_s_under W x : 1 <= W -> - 2 ^ W <= x < - 2 ^ (W - 1) -> to_s W x = x + 2 ^ W.
Proof.
  intros HW Hx. destruct (pow_half W HW) as [E P]. unfold to_s. cbv zeta. rewrite (mod_neg_once x (2 ^ W)) by lia.
  destruct (Z.ltb_spec x 0), (Z.ltb_spec (x + 2 ^ W) (2 ^ (W - 1))); lia.
Qed.

Lemma sarith_ok W x : 1 <= W -> - 2 ^ (W - 1) <= x < 2 ^ (W - 1) -> sarith W x = Some x.
Proof.
  intros HW Hx. unfold sarith. rewrite to_s_id by assumption. destruct (W <? 32); [reflexivity|].
  destruct (Z.leb_spec (- 2 ^ (W - 1)) x), (Z.ltb_spec x (2 ^ (W - 1))); cbn [andb]; (reflexivity || lia).
Qed.

Lemma mod_add_s_spec W x y M : 1 <= W -> 1 <= M < 2 ^ (W - 1) -> 0 <= x < M -> 0 <= y <= M ->
  mod_add_s W x y M = if (32 <=? W) && (2 ^ (W - 1) <=? x + y) then None else Some ((x + y) mod M).
Proof.
  intros HW HM Hx Hy. destruct (pow_half W HW) as [E P]. unfold mod_add_s. cbv zeta.
  rewrite (mod_once (x + y) M) by lia.
  destruct (Z.leb_spec (2 ^ (W - 1)) (x + y)) as [O|O].
  - unfold sarith at 1. replace (32 <=? W) with (negb (W <? 32)) by (symmetry; apply Z.leb_antisym). destruct (Z.ltb_spec W 32) as [S|S]; cbn [negb andb].
    + rewrite to_s_over by lia. cbn [obind]. destruct (Z.ltb_spec (x + y - 2 ^ W) 0); [|lia]. cbn [negb andb].
      unfold sarith. destruct (Z.ltb_spec W 32); [|lia].
      rewrite to_s_under by lia. destruct (Z.ltb_spec (x + y) M); [lia|]. apply f_equal. lia.
    + destruct (Z.ltb_spec (x + y) (2 ^ (W - 1))); [lia|]. rewrite andb_false_r. reflexivity.
  - rewrite sarith_ok by lia. cbn [obind]. rewrite andb_false_r.
    destruct (Z.ltb_spec (x + y) 0); [lia|]. cbn [negb andb]. destruct (Z.ltb_spec (x + y) M); [reflexivity|].
    apply sarith_ok; lia.
Qed.

Lemma mod_sub_s_spec W x y M : 1 <= W -> 1 <= M < 2 ^ (W - 1) -> 0 <= x < M -> 0 <= y <= M ->
  mod_sub_s W x y M = if (32 <=? W) && (2 ^ (W - 1) <=? x + (M - y)) then None else Some ((x - y) mod M).
Proof.
  intros HW HM Hx Hy. destruct (pow_half W HW) as [E P]. unfold mod_sub_s. rewrite sarith_ok by lia. cbn [obind].
  rewrite mod_add_s_spec by lia. replace ((x + (M - y)) mod M) with ((x - y) mod M); [reflexivity|].
  replace (x + (M - y)) with (x - y + 1 * M) by lia. symmetry. apply Z.mod_add. lia.
Qed.

Lemma mod_neg_s_spec W v M : 1 <= W -> 1 <= M < 2 ^ (W - 1) -> 0 <= v < M -> mod_neg_s W v M = Some ((- v) mod M).
Proof.
  intros HW HM Hv. unfold mod_neg_s. rewrite (mod_neg_once (- v) M) by lia. destruct (Z.eqb_spec v 0) as [->|N]; [reflexivity|].
  destruct (Z.ltb_spec (- v) 0); [|lia]. rewrite sarith_ok by lia. f_equal. lia.
Qed.

Lemma mod_mul_long_spec W M : 1 <= M < 2 ^ W -> forall fuel r x y, 0 <= r < M -> 0 <= x < M -> 0 <= y < 2 ^ Z.of_nat fuel ->
  mod_mul_long (S fuel) W r x y M = Some ((r + x * y) mod M).
Proof.
  intros HM. induction fuel as [|fuel IH]; intros r x y Hr Hx Hy.
  - cbn in Hy. assert (y = 0) by lia. subst y. cbn [mod_mul_long]. cbn [Z.ltb Z.compare].
    rewrite Z.mul_0_r, Z.add_0_r, Z.mod_small by lia. reflexivity.
  - remember (S fuel) as f eqn:Ef. cbn [mod_mul_long]. subst f. destruct (Z.ltb_spec 0 y) as [P|P].
    + rewrite Nat2Z.inj_succ, Z.pow_succ_r in Hy by lia.
      assert (Ey : y = 2 * Z.shiftr y 1 + (if Z.odd y then 1 else 0)).
      { rewrite Z.shiftr_div_pow2 by lia. change (2 ^ 1) with 2. rewrite <- Zmod_odd. apply Z.div_mod. lia. }
      assert (B : forall u, 0 <= u mod M < M) by (intros; apply Z.mod_pos_bound; lia).
      cbv zeta. rewrite (mod_add_u_spec W x x M) by lia.
      rewrite IH.
      * f_equal. rewrite Ey at 3. destruct (Z.odd y).
        -- rewrite mod_add_u_spec by lia. rewrite Z.add_mod_idemp_l by lia.
           rewrite <- Z.add_mod_idemp_r by lia. rewrite Z.mul_mod_idemp_l by lia.
           rewrite Z.add_mod_idemp_r by lia. f_equal. ring.
        -- rewrite <- Z.add_mod_idemp_r by lia. rewrite Z.mul_mod_idemp_l by lia.
           rewrite Z.add_mod_idemp_r by lia. f_equal. ring.
      * destruct (Z.odd y); [rewrite mod_add_u_spec by lia; apply B|lia].
      * apply B.
      * destruct (Z.odd y); lia.
    + assert (y = 0) by lia. subst y. rewrite Z.mul_0_r, Z.add_0_r, Z.mod_small by lia. reflexivity.
Qed.

Lemma mod_mul_u_spec W x y M : W = 8 \/ W = 16 \/ W = 32 \/ W = 64 -> 1 <= M < 2 ^ W -> 0 <= x < M -> 0 <= y < M ->
  mod_mul_u W x y M = Some ((x * y) mod M).
Proof.
  intros HW HM Hx Hy. unfold mod_mul_u. assert (HM0 : (M =? 0) = false) by lia. rewrite HM0.
  destruct HW as [->|[->|[->| ->]]]; cbn [Z.leb Z.eqb Z.compare Pos.compare Pos.compare_cont].
  - change (8 <=? 16) with true. cbn iota. rewrite (Z.mod_small (x * y)) by nia. reflexivity.
  - change (16 <=? 16) with true. cbn iota. rewrite (Z.mod_small (x * y)) by nia. reflexivity.
  - change (32 <=? 16) with false. change (32 =? 32) with true. cbn iota. rewrite (Z.mod_small (x * y)) by nia. reflexivity.
  - change (64 <=? 16) with false. change (64 =? 32) with false. cbn iota.
    rewrite !Z.shiftr_div_pow2 by lia.
    destruct (Z.eqb_spec (x / 2 ^ 32) 0) as [Ex|Ex]; cbn [andb].
    + destruct (Z.eqb_spec (y / 2 ^ 32) 0) as [Ey|Ey].
      * assert (x < 2 ^ 32) by (apply Z.div_small_iff in Ex; lia).
        assert (y < 2 ^ 32) by (apply Z.div_small_iff in Ey; lia).
        rewrite (Z.mod_small y) by lia. rewrite (Z.mod_small (x * y)) by nia. reflexivity.
      * rewrite (mod_mul_long_spec 64 M HM 64) by (change (Z.of_nat 64) with 64; lia). reflexivity.
    + rewrite (mod_mul_long_spec 64 M HM 64) by (change (Z.of_nat 64) with 64; lia). reflexivity.
Qed.

Lemma mod_mul_s_spec W x y M : W = 8 \/ W = 16 \/ W = 32 \/ W = 64 -> 1 <= M < 2 ^ (W - 1) -> 0 <= x < M -> 0 <= y < M ->
  mod_mul_s W x y M = Some ((x * y) mod M).
Proof.
  intros HW HM Hx Hy. assert (1 <= W) by lia. destruct (pow_half W H) as [E P]. unfold mod_mul_s.
  rewrite !Z.mod_small by lia. rewrite mod_mul_u_spec by (assumption || lia). cbn [obind].
  rewrite to_s_id; [reflexivity|lia|]. assert (0 <= (x * y) mod M < M) by (apply Z.mod_pos_bound; lia). lia.
Qed.

Lemma mod_normalize_u_spec v M : 1 <= M -> 0 <= v -> mod_normalize_u v M = Some (v mod M).
Proof.
  intros HM Hv. unfold mod_normalize_u. destruct (Z.ltb_spec v M); [now rewrite Z.mod_small by lia|].
  destruct (Z.eqb_spec M 0); [lia|reflexivity].
Qed.

Lemma mod_normalize_s_spec W v M : 1 <= W -> 1 <= M -> - 2 ^ (W - 1) <= v < 2 ^ (W - 1) ->
  mod_normalize_s W v M = if (32 <=? W) && (v =? - 2 ^ (W - 1)) then None else Some (v mod M).
Proof.
  intros HW HM Hv. destruct (pow_half W HW) as [E P]. unfold mod_normalize_s. destruct (Z.ltb_spec v 0) as [N|N].
  - assert (G : (let* r := mod_normalize_u (- v) M in Some (if r =? 0 then r else M - r)) = Some (v mod M)).
    { rewrite mod_normalize_u_spec by lia. cbn [obind]. f_equal. destruct (Z.eqb_spec ((- v) mod M) 0) as [Z0|NZ].
      - rewrite Z0. symmetry. rewrite <- (Z.opp_involutive v). now apply Z.mod_opp_l_z; [lia|].
      - replace (v mod M) with ((- (- v)) mod M) by (f_equal; lia). rewrite (Z.mod_opp_l_nz (- v) M) by (assumption || lia). reflexivity. }
    replace (32 <=? W) with (negb (W <? 32)) by (symmetry; apply Z.leb_antisym). unfold sarith. destruct (Z.ltb_spec W 32); cbn [negb andb].
    + exact G.
    + destruct (Z.eqb_spec v (- 2 ^ (W - 1))) as [->|Nv].
      * destruct (Z.ltb_spec (- - 2 ^ (W - 1)) (2 ^ (W - 1))); [lia|]. rewrite andb_false_r. reflexivity.
      * destruct (Z.leb_spec (- 2 ^ (W - 1)) (- v)), (Z.ltb_spec (- v) (2 ^ (W - 1))); try lia. exact G.
  - rewrite mod_normalize_u_spec by lia. destruct (Z.eqb_spec v (- 2 ^ (W - 1))); [lia|]. now rewrite andb_false_r.
Qed.

(* ------------------------------------------------------------------ *)
(** inverse, division *)

Lemma psign_cases s : 0 <= s -> (Z.rem s 2 = 0 /\ psign s = 1) \/ (Z.rem s 2 = 1 /\ psign s = -1).
Proof.
  intros H. unfold psign. rewrite Z.rem_mod_nonneg by lia. rewrite Zmod_even. destruct (Z.even s); auto.
Qed.

Lemma modulo_gcd_ex_spec n1 n2 : 0 < n1 -> 0 < n2 -> exists ni1 ni2 x y,
  modulo_gcd_ex n1 n2 = Some (Z.gcd n1 n2, ni1, ni2) /\ n1 * x + n2 * y = Z.gcd n1 n2 /\
  (ni1 = x \/ ni1 = x + n2) /\ (ni2 = y \/ ni2 = y + n1) /\ 0 <= ni1 <= n2 /\ 0 <= ni2 <= n1.
Proof.
  intros H1 H2. unfold modulo_gcd_ex.
  destruct (gcd_ex_nonneg n1 n2) as (x & y & s & E & Hs & B & S1 & S2 & B1 & B2); [lia|lia|]. rewrite E. cbn [obind].
  assert (G : 0 < Z.gcd n1 n2) by (pose proof (Z.gcd_nonneg n1 n2); destruct (Z.eq_dec (Z.gcd n1 n2) 0) as [Z0|]; [apply Z.gcd_eq_0 in Z0|]; lia).
  specialize (B1 H2). specialize (B2 H1).
  assert (X : Z.abs x <= n2) by nia. assert (Y : Z.abs y <= n1) by nia.
  do 2 eexists. exists x, y. split; [reflexivity|]. split; [exact B|].
  destruct (psign_cases s Hs) as [[-> P]|[-> P]]; rewrite P in *; cbn [Z.eqb andb].
  - change (0 =? 1) with false. change (0 =? 0) with true. cbn [andb].
    destruct (Z.eqb_spec y 0); cbn [negb]; (split; [auto|]); split; auto; lia.
  - change (Pos.eqb 1 1) with true. change (1 =? 0) with false. cbn [andb].
    destruct (Z.eqb_spec x 0); cbn [negb]; (split; [auto|]); split; auto; lia.
Qed.

Lemma modulo_inv_spec v M : 1 <= M -> 0 <= v -> exists w, modulo_inv v M = Some w /\
  (Z.gcd v M <> 1 -> w = 0) /\
  (Z.gcd v M = 1 -> (v * w) mod M = 1 mod M /\ 0 <= w /\ (w < M \/ M = 1 /\ w <= 1 /\ (v < M -> w < M))).
Proof.
  intros HM Hv. unfold modulo_inv.
  destruct (gcd_ex_nonneg M v) as (x & y & s & E & Hs & B & S1 & S2 & B1 & B2); [lia|lia|]. rewrite E. cbn [obind].
  rewrite Z.gcd_comm in *. eexists. split; [reflexivity|]. specialize (B2 ltac:(lia)).
  split.
  - intros N. destruct (Z.eqb_spec (Z.gcd v M) 1); [contradiction|reflexivity].
  - intros G. rewrite G in *. cbn [Z.eqb]. change (Pos.eqb 1 1) with true. cbn iota.
    destruct (psign_cases s Hs) as [[-> P]|[-> P]]; rewrite P in *; cbn [Z.eqb andb].
    + change (0 =? 0) with true. cbn [andb]. destruct (Z.eqb_spec y 0) as [->|Ny]; cbn [negb].
      * split; [|lia]. rewrite Z.mul_0_r in *.
        assert (M = 1) by (apply (Z.divide_1_r_nonneg M); [lia|exists x; lia]).
        subst M. reflexivity.
      * split; [|lia]. replace (v * (y + M)) with (1 + (v - x) * M) by lia. apply Z.mod_add. lia.
    + change (1 =? 0) with false. cbn [andb]. split.
      * replace (v * y) with (1 + (- x) * M) by lia. apply Z.mod_add. lia.
      * split; [lia|]. destruct (Z.eq_dec y M) as [Ey|Ny]; [|left; lia].
        assert (M = 1) by (apply (Z.divide_1_r_nonneg M); [lia|exists (x + v); subst y; lia]).
        right. split; [assumption|]. split; [lia|]. intros L. assert (v = 0) by lia. subst v M.
        unfold gcd_ex in E. cbn in E. injection E as <- <- <-. lia.
Qed.

Lemma modulo_mul_ok x y M : 0 < M -> 0 <= x -> 0 <= y -> modulo_mul x y M = Some ((x * y) mod M).
Proof. intros. unfold modulo_mul. rewrite cmod_some by lia. rewrite Z.rem_mod_nonneg by nia. reflexivity. Qed.

(** an overload of modulo_mul that is exact on normalised operands below the bound B *)
Definition mul_exact (mul : Z -> Z -> Z -> option Z) (B : Z) : Prop :=
  forall x y M, 1 <= M < B -> 0 <= x < M -> 0 <= y < M -> mul x y M = Some ((x * y) mod M).

Lemma gcd_pos a b : 0 < a \/ 0 < b -> 0 < Z.gcd a b.
Proof. intros H. pose proof (Z.gcd_nonneg a b). destruct (Z.eq_dec (Z.gcd a b) 0) as [Z0|]; [apply Z.gcd_eq_0 in Z0|]; lia. Qed.

Lemma div_quot_nonneg a b : 0 <= a -> 0 < b -> cdiv a b = Some (a / b).
Proof. intros. rewrite cdiv_some by lia. now rewrite Z.quot_div_nonneg by lia. Qed.

(** division with a possibly unnormalised divisor (garner needs that) *)
Lemma modulo_div_spec mul B x y M : mul_exact mul B -> 1 <= M < B -> 0 <= x < M -> 0 <= y -> (Z.gcd y M | x) ->
  y < M \/ Z.gcd y M = 1 ->
  exists z, modulo_div_with mul x y M = Some z /\ 0 <= z < M /\ (z * y) mod M = x mod M.
Proof.
  intros Hmul HM Hx Hy D HyM. unfold modulo_div_with.
  assert (Hfast : exists f, (if y =? 0 then Some false else let* r := cmod x y in Some (r =? 0)) = Some f /\
     (f = true -> 0 < y /\ x = y * (x / y)) /\ (f = false -> y <> 0 -> x <> 0)).
  { destruct (Z.eqb_spec y 0) as [->|N]; [exists false; repeat split; (discriminate || lia)|].
    rewrite cmod_some by lia. cbn [obind]. eexists. split; [reflexivity|]. rewrite Z.rem_mod_nonneg by lia. split; intros F.
    - apply Z.eqb_eq in F. split; [lia|]. apply Z.div_exact; lia.
    - intros _ ->. now rewrite Z.mod_0_l in F by lia. }
  destruct Hfast as (f & -> & Hf & Hf'). cbn [obind]. destruct f.
  - destruct (Hf eq_refl) as [Py Ex]. rewrite div_quot_nonneg by lia. eexists. split; [reflexivity|].
    assert (0 <= x / y) by (apply Z.div_pos; lia). split; [nia|]. f_equal. rewrite Ex at 2. ring.
  - clear Hf. specialize (Hf' eq_refl). destruct (modulo_inv_spec y M) as (yi & -> & I0 & I1); [lia|lia|]. cbn [obind].
    destruct (Z.eqb_spec yi 0) as [->|N]; cbn [negb].
    + assert (L : y < M).
      { destruct HyM as [L|G]; [exact L|]. destruct (I1 G) as (Im & _). rewrite Z.mul_0_r, Z.mod_0_l in Im by lia.
        destruct (Z.eq_dec M 1) as [->|NM]; [|rewrite Z.mod_small in Im by lia; lia].
        destruct (Z.eq_dec y 0); [lia|]. specialize (Hf' ltac:(assumption)). lia. }
      clear HyM Hf' I0 I1.
      rewrite gcd_nonneg by lia. cbn [obind]. rewrite gcd_nonneg by (apply Z.gcd_nonneg || lia). cbn [obind].
      assert (Hg : Z.gcd (Z.gcd x y) M = Z.gcd y M).
      { rewrite <- Z.gcd_assoc. apply Z.gcd_unique_alt; [apply Z.gcd_nonneg|]. intros q. split.
        - intros Q. split; [now apply Z.divide_trans with (Z.gcd y M)|exact Q].
        - intros [_ Q]. exact Q. }
      rewrite Hg. set (g := Z.gcd y M) in *. assert (Pg : 0 < g) by (apply gcd_pos; lia).
      rewrite !div_quot_nonneg by lia. cbn [obind].
      assert (Dy : (g | y)) by apply Z.gcd_divide_l. assert (DM : (g | M)) by apply Z.gcd_divide_r.
      assert (Cop : Z.gcd (y / g) (M / g) = 1) by (apply Z.gcd_div_gcd; [lia|reflexivity]).
      clearbody g. destruct Dy as (yg & ->). destruct DM as (Mg & ->). destruct D as (xg & ->).
      rewrite !Z.div_mul in * by lia. assert (HMg : 1 <= Mg) by nia. assert (Hyg : 0 <= yg < Mg) by nia.
      assert (Hxg : 0 <= xg < Mg) by nia.
      destruct (modulo_inv_spec yg Mg) as (w & -> & _ & W1); [lia|lia|]. cbn [obind].
      destruct (W1 Cop) as (Wm & W0 & Wlt). assert (Hw : w < Mg) by lia. clear W1 Wlt Cop Hg.
      assert (Hw2 : w < Mg * g) by nia. assert (Hx2 : xg < Mg * g) by nia.
      rewrite Hmul by lia. eexists. split; [reflexivity|]. split; [apply Z.mod_pos_bound; lia|].
      rewrite Z.mul_mod_idemp_l by lia. replace (xg * w * (yg * g)) with (xg * (yg * w) * g) by ring.
      rewrite !Z.mul_mod_distr_r by lia. f_equal. rewrite <- Z.mul_mod_idemp_r by lia. rewrite Wm.
      rewrite Z.mul_mod_idemp_r by lia. f_equal. lia.
    + destruct (Z.eq_dec (Z.gcd y M) 1) as [G|G]; [|specialize (I0 G); lia].
      destruct (I1 G) as (Im & I2 & I3).
      destruct (Z.eq_dec M 1) as [->|NM].
      { exfalso. destruct (Z.eq_dec y 0) as [->|Ny]; [|specialize (Hf' Ny); lia].
        unfold mul_exact in Hmul. destruct I3 as [|(_ & _ & I3)]; lia. }
      rewrite Hmul by (destruct I3; lia).
      eexists. split; [reflexivity|]. split; [apply Z.mod_pos_bound; lia|].
      rewrite Z.mul_mod_idemp_l by lia. replace (x * yi * y) with (x * (y * yi)) by ring.
      rewrite <- Z.mul_mod_idemp_r by lia. rewrite Im. rewrite Z.mul_mod_idemp_r by lia. f_equal. lia.
Qed.

(* ------------------------------------------------------------------ *)
(** Chinese remainders *)

Lemma mod_eq_divide x y n : 0 < n -> (x mod n = y mod n <-> (n | x - y)).
Proof.
  intros Hn. split.
  - intros E. apply Z.mod_divide; [lia|]. rewrite Zminus_mod, E, Z.sub_diag. now apply Z.mod_0_l; lia.
  - intros (k & E). replace x with (y + k * n) by lia. apply Z.mod_add. lia.
Qed.

Lemma rem_zero_divide x g : 0 < g -> (Z.rem x g = 0 <-> (g | x)).
Proof. intros H. apply Z.rem_divide. lia. Qed.

Lemma modulo_add_mod x y M : 0 < M -> 0 <= x < M -> 0 <= y < M -> modulo_add x y M = (x + y) mod M.
Proof.
  intros. unfold modulo_add. cbv zeta. rewrite (mod_once (x + y) M) by lia. destruct (Z.ltb_spec (x + y) 0); [lia|].
  cbn [negb andb]. reflexivity.
Qed.
Lemma modulo_sub_mod x y M : 0 < M -> 0 <= x < M -> 0 <= y <= M -> modulo_sub x y M = (x - y) mod M.
Proof.
  intros. unfold modulo_sub, modulo_add. cbv zeta. replace ((x - y) mod M) with ((x + (M - y)) mod M)
    by (replace (x + (M - y)) with (x - y + 1 * M) by lia; apply Z.mod_add; lia).
  rewrite (mod_once (x + (M - y)) M) by lia. destruct (Z.ltb_spec (x + (M - y)) 0); [lia|].
  cbn [negb andb]. reflexivity.
Qed.

Lemma chinese_remainder_spec a1 n1 a2 n2 : 0 < n1 -> 0 < n2 -> 0 <= a1 -> 0 <= a2 ->
  (~ (Z.gcd n1 n2 | a1 - a2) -> chinese_remainder a1 n1 a2 n2 = Some (0, 0)) /\
  ((Z.gcd n1 n2 | a1 - a2) -> exists a, chinese_remainder a1 n1 a2 n2 = Some (a, Z.lcm n1 n2) /\
     0 <= a < Z.lcm n1 n2 /\ a mod n1 = a1 mod n1 /\ a mod n2 = a2 mod n2).
Proof.
  intros H1 H2 A1 A2. unfold chinese_remainder.
  destruct (modulo_gcd_ex_spec n1 n2 H1 H2) as (ni1 & ni2 & x & y & -> & B & C1 & C2 & R1 & R2). cbn [obind].
  set (g := Z.gcd n1 n2) in *. assert (Pg : 0 < g) by (apply gcd_pos; lia).
  rewrite cmod_some by lia. cbn [obind]. split.
  - intros N. destruct (Z.eqb_spec (Z.rem (a2 - a1) g) 0) as [E|E]; [|reflexivity].
    exfalso. apply N. apply rem_zero_divide in E; [|lia]. replace (a1 - a2) with (- (a2 - a1)) by lia. now apply Z.divide_opp_r.
  - intros D. destruct (Z.eqb_spec (Z.rem (a2 - a1) g) 0) as [E|E].
    2:{ exfalso. apply E. apply rem_zero_divide; [lia|]. replace (a2 - a1) with (- (a1 - a2)) by lia. now apply Z.divide_opp_r. }
    cbn [negb]. rewrite modulo_mul_ok by lia. cbn [obind]. rewrite modulo_mul_ok by lia. cbn [obind].
    rewrite !div_quot_nonneg by lia. cbn [obind].
    assert (D1 : (g | n1)) by apply Z.gcd_divide_l. assert (D2 : (g | n2)) by apply Z.gcd_divide_r.
    assert (L : Z.lcm n1 n2 = (n1 / g) * (n2 / g) * g).
    { unfold Z.lcm. fold g. assert (En2 : n2 = n2 / g * g) by (rewrite Z.mul_comm; apply Z.div_exact; [lia|now apply Z.mod_divide; [lia|]]).
      assert (En1 : n1 = n1 / g * g) by (rewrite Z.mul_comm; apply Z.div_exact; [lia|now apply Z.mod_divide; [lia|]]).
      rewrite Z.abs_eq; [rewrite En1 at 1; ring|]. apply Z.mul_nonneg_nonneg; [lia|apply Z.div_pos; lia]. }
    rewrite L. clearbody g. destruct D1 as (m1 & ->). destruct D2 as (m2 & ->). rewrite !Z.div_mul by lia.
    assert (M1 : 0 < m1) by nia. assert (M2 : 0 < m2) by nia.
    set (n := m1 * m2 * g). assert (Pn : 0 < n) by (unfold n; nia).
    assert (B0 : forall u v, 0 < v -> 0 <= u mod v < v) by (intros; apply Z.mod_pos_bound; lia).
    pose proof (B0 (a1 * ni2) (m1 * g) H1) as Bt1. pose proof (B0 (a2 * ni1) (m2 * g) H2) as Bt2.
    rewrite modulo_mul_ok by lia. cbn [obind]. rewrite modulo_mul_ok by lia. cbn [obind].
    eexists. split; [reflexivity|]. rewrite modulo_add_mod by (auto; apply B0; exact Pn).
    split; [apply B0; exact Pn|].
    assert (K : m1 * x + m2 * y = 1) by nia.
    assert (Dv1 : (m1 * g | n)) by (exists m2; unfold n; ring). assert (Dv2 : (m2 * g | n)) by (exists m1; unfold n; ring).
    rewrite <- Z.add_mod by lia. rewrite !Z.mod_eq with (b := n) by lia.
    set (t1 := (a1 * ni2) mod (m1 * g)). set (t2 := (a2 * ni1) mod (m2 * g)).
    assert (T1 : exists k, t1 = a1 * y + k * (m1 * g)).
    { destruct C2 as [-> | ->]; [exists (- (a1 * y / (m1 * g)))|exists (a1 - a1 * (y + m1 * g) / (m1 * g))]; unfold t1; rewrite Z.mod_eq by lia; ring. }
    assert (T2 : exists k, t2 = a2 * x + k * (m2 * g)).
    { destruct C1 as [-> | ->]; [exists (- (a2 * x / (m2 * g)))|exists (a2 - a2 * (x + m2 * g) / (m2 * g))]; unfold t2; rewrite Z.mod_eq by lia; ring. }
    destruct T1 as (k1 & T1). destruct T2 as (k2 & T2). destruct D as (d & D).
    set (q := (t1 * m2 + t2 * m1) / n). clearbody q. clearbody t1 t2. subst t1 t2.
    split; apply mod_eq_divide; auto.
    + (* a1 y m2 + a2 x m1 - a1 = (a2 - a1) x m1 *)
      exists (- d * x + (k1 * m2 + k2 * m2 - m2 * q)). unfold n. 
      replace a2 with (a1 - d * g) by lia. match goal with |- ?A - a1 = ?R => transitivity (A - a1 * (m1 * x + m2 * y)); [rewrite K; ring|ring] end.
    + exists (d * y + (k1 * m1 + k2 * m1 - m1 * q)). unfold n.
      replace a1 with (a2 + d * g) by lia. match goal with |- ?A - a2 = ?R => transitivity (A - a2 * (m1 * x + m2 * y)); [rewrite K; ring|ring] end.
Qed.

Lemma lcm_pos a b : 0 < a -> 0 < b -> 0 < Z.lcm a b.
Proof. intros. pose proof (Z.lcm_nonneg a b). destruct (Z.eq_dec (Z.lcm a b) 0) as [E|]; [apply Z.lcm_eq_0 in E|]; lia. Qed.

Lemma chinese_remainder_unique a1 n1 a2 n2 x : 0 < n1 -> 0 < n2 -> 0 <= a1 -> 0 <= a2 ->
  x mod n1 = a1 mod n1 -> x mod n2 = a2 mod n2 ->
  chinese_remainder a1 n1 a2 n2 = Some (x mod Z.lcm n1 n2, Z.lcm n1 n2).
Proof.
  intros H1 H2 A1 A2 X1 X2. destruct (chinese_remainder_spec a1 n1 a2 n2 H1 H2 A1 A2) as [_ S].
  apply mod_eq_divide in X1; [|lia]. apply mod_eq_divide in X2; [|lia].
  destruct S as (a & -> & Ba & E1 & E2).
  { replace (a1 - a2) with ((x - a2) - (x - a1)) by lia. apply Z.divide_sub_r.
    - eapply Z.divide_trans; [apply Z.gcd_divide_r|exact X2].
    - eapply Z.divide_trans; [apply Z.gcd_divide_l|exact X1]. }
  do 2 f_equal. rewrite <- (Z.mod_small a (Z.lcm n1 n2)) by exact Ba. apply mod_eq_divide; [apply lcm_pos; lia|].
  apply mod_eq_divide in E1; [|lia]. apply mod_eq_divide in E2; [|lia].
  apply Z.lcm_least.
  - replace (a - x) with ((a - a1) - (x - a1)) by lia. now apply Z.divide_sub_r.
  - replace (a - x) with ((a - a2) - (x - a2)) by lia. now apply Z.divide_sub_r.
Qed.

Lemma chinese_remainder_list_spec cs : forall ar nr x, 0 < nr -> 0 <= ar < nr -> x mod nr = ar ->
  Forall (fun c => 0 <= fst c /\ 0 < snd c) cs -> solves x cs ->
  let L := fold_left Z.lcm (map snd cs) nr in
  chinese_remainder_list (ar, nr) cs = Some (x mod L, L).
Proof.
  induction cs as [|[a n] cs IH]; intros ar nr x Hn Ha X F S; cbn [map fold_left snd chinese_remainder_list].
  - now rewrite X.
  - apply Forall_cons_iff in F. destruct F as [[F1 F2] F]. cbn [fst snd] in *. unfold chinese_remainder_acc.
    rewrite (chinese_remainder_unique ar nr a n x); [|lia|lia|lia|lia|rewrite X; symmetry; apply Z.mod_small; lia|apply S; now left].
    cbn [obind]. pose proof (lcm_pos nr n Hn F2). apply IH; auto; [apply Z.mod_pos_bound; lia|].
    intros a' n' I. apply S. now right.
Qed.

(* ------------------------------------------------------------------ *)
(** Garner *)

Definition prodZ (l : list Z) : Z := fold_right Z.mul 1 l.

Lemma prodZ_app l l' : prodZ (l ++ l') = prodZ l * prodZ l'.
Proof. unfold prodZ. induction l as [|a l IH]; cbn [app fold_right]; [lia|]. rewrite IH. ring. Qed.

Lemma mixed_radix_snoc ps : forall xs p x, length ps = length xs ->
  mixed_radix (ps ++ [p]) (xs ++ [x]) = mixed_radix ps xs + prodZ ps * x.
Proof.
  induction ps as [|q ps IH]; intros [|y xs] p x L; try discriminate.
  - cbn [app mixed_radix prodZ fold_right]. lia.
  - cbn [app mixed_radix prodZ fold_right]. rewrite IH by (cbn in L; lia). unfold prodZ. ring.
Qed.

Lemma mixed_radix_prefix ps : forall qs xs, length ps = length xs -> mixed_radix (ps ++ qs) xs = mixed_radix ps xs.
Proof.
  induction ps as [|q ps IH]; intros qs [|y xs] L; try discriminate.
  - now destruct qs.
  - cbn [app mixed_radix]. rewrite IH by (cbn in L; lia). reflexivity.
Qed.

Lemma firstn_S_nth {A} (l : list A) j x : nth_error l j = Some x -> firstn (S j) l = firstn j l ++ [x].
Proof.
  revert j. induction l as [|a l IH]; intros [|j] E; try discriminate.
  - now injection E as ->.
  - cbn [firstn app]. cbn in E. change (match l with [] => [] | a0 :: l0 => a0 :: firstn j l0 end) with (firstn (S j) l).
    now rewrite (IH j E).
Qed.

Lemma garner_inner_spec mul B vx ps Mi a : mul_exact mul B -> 1 <= Mi < B -> 0 <= a < Mi ->
  (length vx <= length ps)%nat ->
  (forall j x p, nth_error vx j = Some x -> nth_error ps j = Some p -> 0 <= x < p) ->
  (forall j p, (j < length vx)%nat -> nth_error ps j = Some p -> 1 <= p <= Mi /\ Z.gcd p Mi = 1) ->
  exists y, garner_inner mul vx ps Mi (length vx) a = Some y /\ 0 <= y < Mi /\
    (mixed_radix (firstn (length vx) ps) vx + prodZ (firstn (length vx) ps) * y) mod Mi = a mod Mi.
Proof.
  intros Hmul HM Ha L Hx Hp. unfold garner_inner.
  destruct (for_range_spec
    (fun j y => 0 <= y < Mi /\
      (mixed_radix (firstn j ps) (firstn j vx) + prodZ (firstn j ps) * y) mod Mi = a mod Mi)
    (fun j y => let* xj := nth_error vx j in let* pj := nth_error ps j in modulo_div_with mul (modulo_sub y xj Mi) pj Mi)
    0 (length vx) a) as (y & E & Y & I).
  - lia.
  - cbn [firstn mixed_radix prodZ fold_right]. split; [lia|]. f_equal. lia.
  - intros j y (_ & Lj) (By & Iy).
    destruct (nth_error vx j) as [xj|] eqn:Ex; [|apply nth_error_None in Ex; lia].
    destruct (nth_error ps j) as [pj|] eqn:Ep; [|apply nth_error_None in Ep; lia]. cbn [obind].
    pose proof (Hx j xj pj Ex Ep) as Bx. destruct (Hp j pj Lj Ep) as (Bp & G).
    rewrite modulo_sub_mod by lia.
    assert (Bm : 0 <= (y - xj) mod Mi < Mi) by (apply Z.mod_pos_bound; lia).
    destruct (modulo_div_spec mul B ((y - xj) mod Mi) pj Mi Hmul HM Bm) as (z & E & Bz & Ez).
    + lia.
    + rewrite G. apply Z.divide_1_l.
    + now right.
    + exists z. split; [exact E|]. split; [exact Bz|].
      rewrite (firstn_S_nth ps j pj Ep), (firstn_S_nth vx j xj Ex).
      rewrite mixed_radix_snoc by (rewrite !firstn_length; lia). rewrite prodZ_app. cbn [prodZ fold_right].
      rewrite <- Iy. rewrite Z.mod_mod in Ez by lia. apply mod_eq_divide in Ez; [|lia]. apply mod_eq_divide; [lia|].
      destruct Ez as (k & Ez). set (P := prodZ (firstn j ps)). exists (P * k). clearbody P.
      replace (P * k * Mi) with (P * (k * Mi)) by ring. rewrite <- Ez. ring.
  - exists y. split; [exact E|]. split; [exact Y|]. rewrite firstn_all in I. exact I.
Qed.

Lemma nth_error_in_divide ps k p n : nth_error ps k = Some p -> (k < n)%nat -> (p | prodZ (firstn n ps)).
Proof.
  revert k n. induction ps as [|q ps IH]; intros [|k] [|n] E L; try discriminate; try lia; cbn [firstn prodZ fold_right].
  - injection E as ->. apply Z.divide_factor_l.
  - apply Z.divide_mul_r. apply (IH k n); [exact E|lia].
Qed.

Lemma garner_loop_spec mul B : mul_exact mul B -> forall rest done vx,
  let vap := done ++ rest in let ps := map snd vap in
  Forall (fun c => 0 <= fst c < snd c /\ snd c < B) vap ->
  (forall i j p q, (i < j)%nat -> nth_error ps i = Some p -> nth_error ps j = Some q -> p <= q /\ Z.gcd p q = 1) ->
  length vx = length done ->
  (forall j x p, nth_error vx j = Some x -> nth_error ps j = Some p -> 0 <= x < p) ->
  (forall j a p, nth_error done j = Some (a, p) -> (mixed_radix ps vx) mod p = a) ->
  exists vx', garner_loop mul ps vx rest = Some vx' /\ length vx' = length vap /\
    (forall j x p, nth_error vx' j = Some x -> nth_error ps j = Some p -> 0 <= x < p) /\
    (forall j a p, nth_error vap j = Some (a, p) -> (mixed_radix ps vx') mod p = a).
Proof.
  intros Hmul. induction rest as [|[a Mi] rest IH]; intros done vx vap ps F C L D R.
  - exists vx. unfold vap in *. rewrite app_nil_r in *. cbn [garner_loop]. auto.
  - cbn [garner_loop].
    assert (Hi : nth_error vap (length done) = Some (a, Mi)) by (unfold vap; rewrite nth_error_app2, Nat.sub_diag by lia; reflexivity).
    assert (Hpi : nth_error ps (length done) = Some Mi) by (unfold ps; rewrite nth_error_map, Hi; reflexivity).
    assert (FM : 0 <= a < Mi /\ Mi < B) by (exact (proj1 (Forall_forall _ _) F (a, Mi) (nth_error_In _ _ Hi))).
    assert (Lp : (length vx < length ps)%nat) by (rewrite L; apply nth_error_Some; congruence).
    destruct (garner_inner_spec mul B vx ps Mi a Hmul) as (y & E & By & Iy).
    + lia.
    + lia.
    + lia.
    + exact D.
    + intros j p Lj Ep. destruct (C j (length done) p Mi) as (C1 & C2); [lia|exact Ep|exact Hpi|].
      split; [|exact C2]. assert (exists c, nth_error vap j = Some c /\ snd c = p) as (c & Ec & <-).
      { unfold ps in Ep. rewrite nth_error_map in Ep. destruct (nth_error vap j) as [c|]; [|discriminate].
        injection Ep as <-. eauto. }
      pose proof (proj1 (Forall_forall _ _) F c (nth_error_In _ _ Ec)). cbn beta in *. lia.
    + rewrite E. cbn [obind].
      set (n := length vx) in *.
      assert (Sp : ps = firstn n ps ++ skipn n ps) by (symmetry; apply firstn_skipn).
      assert (Lf : length (firstn n ps) = n) by (rewrite firstn_length; lia).
      assert (Val : mixed_radix ps (vx ++ [y]) = mixed_radix ps vx + prodZ (firstn n ps) * y).
      { assert (Sk : exists t, skipn n ps = Mi :: t).
        { rewrite L in *. clear - Hpi. revert Hpi. generalize (length done). intros m. revert m.
          induction ps as [|q qs IH]; intros [|m] E; try discriminate; cbn [skipn].
          - injection E as ->. eauto.
          - now apply IH. }
        destruct Sk as (t & Sk). rewrite Sp, Sk. rewrite firstn_app, firstn_firstn, Nat.min_id, Lf, Nat.sub_diag. cbn [firstn]. rewrite app_nil_r.
        rewrite (mixed_radix_prefix (firstn n ps) (Mi :: t) vx) by exact Lf.
        change (Mi :: t) with ([Mi] ++ t). rewrite app_assoc. rewrite mixed_radix_prefix by (rewrite !app_length; cbn; lia).
        now apply mixed_radix_snoc. }
      specialize (IH (done ++ [(a, Mi)]) (vx ++ [y])). cbv zeta in IH. rewrite <- app_assoc in IH. cbn [app] in IH.
      fold vap in IH. fold ps in IH. apply IH; auto.
      * rewrite !app_length. cbn. lia.
      * intros j x p Ex Ep. destruct (Nat.lt_ge_cases j n) as [J|J].
        -- rewrite nth_error_app1 in Ex by exact J. eauto.
        -- rewrite nth_error_app2 in Ex by exact J. fold n in Ex. destruct (j - n)%nat as [|k] eqn:Ej; [|destruct k; discriminate].
           injection Ex as <-. assert (j = length done) by lia. subst j. rewrite Hpi in Ep. injection Ep as <-. exact By.
      * intros j a' p Ej. rewrite Val. destruct (Nat.lt_ge_cases j n) as [J|J].
        -- rewrite nth_error_app1 in Ej by lia.
           assert (Ep : nth_error ps j = Some p).
           { unfold ps, vap. rewrite nth_error_map, nth_error_app1 by lia. now rewrite Ej. }
           destruct (nth_error_in_divide ps j p n Ep J) as (k & ->). replace (k * p * y) with (k * y * p) by ring.
           rewrite Z_mod_plus_full. now apply (R j).
        -- rewrite nth_error_app2 in Ej by lia. destruct (j - length done)%nat as [|k] eqn:Ek; [|destruct k; discriminate].
           injection Ej as <- <-.
           rewrite Sp at 1. rewrite (mixed_radix_prefix _ _ vx) by exact Lf.
           rewrite Iy. apply Z.mod_small. lia.
Qed.

Lemma mul_exact_Z B : mul_exact modulo_mul B.
Proof. intros x y M HM Hx Hy. apply modulo_mul_ok; lia. Qed.
Lemma mul_exact_s W : int_width W -> mul_exact (mod_mul_s W) (2 ^ (W - 1)).
Proof. intros HW x y M HM Hx Hy. apply mod_mul_s_spec; auto. Qed.
Lemma mul_exact_u W : int_width W -> mul_exact (mod_mul_u W) (2 ^ W).
Proof. intros HW x y M HM Hx Hy. apply mod_mul_u_spec; auto. Qed.
