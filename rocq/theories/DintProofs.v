From Coq Require Import Lia ZArithRing Zpow_facts.
From Verif Require Import Lib DintModel DintSpec.
Open Scope Z_scope.

Section Dint.
  Variable w : Z.
  Hypothesis Hw : 3 <= w.
  Local Notation B := (modulus w).
  Local Notation valid := (valid w).
  Local Notation uval := (uval w).

  Lemma word_big : 8 <= 2 ^ w.
  Proof using Hw. change 8 with (2 ^ 3). apply Z.pow_le_mono_r; lia. Qed.
  Lemma B_word d : 2 ^ w <= B d.
  Proof using Hw. pose proof word_big. induction d as [|d IH]; cbn [modulus]; nia. Qed.
  Lemma uval_bound d : forall x, valid d x -> 0 <= uval d x < B d.
  Proof using Hw. induction d as [|d IH]; cbn [DintSpec.valid DintSpec.uval modulus]; intros x V; [exact V|]. destruct V as (V1 & V2). pose proof (IH (fst x) V1) as I1. pose proof (IH (snd x) V2) as I2. revert I1 I2. generalize (B d) (uval d (fst x)) (uval d (snd x)). intros h a b I1 I2. clear - I1 I2. nia. Qed.
  Lemma of_int_ok d : forall k, - 2 ^ w <= k < 2 ^ w -> valid d (of_int w d k) /\ uval d (of_int w d k) = k mod B d.
  Proof using Hw.
    pose proof word_big. induction d as [|d IH]; intros k Hk; cbn [of_int DintSpec.valid DintSpec.uval modulus]; [split; [apply Z.mod_pos_bound; lia|reflexivity]|]. cbn [fst snd]. pose proof (B_word d) as Q.
    destruct (IH k Hk) as (V1 & E1). destruct (IH (if k <? 0 then -1 else 0)) as (V2 & E2); [destruct (k <? 0); lia|]. split; [auto|]. rewrite E1, E2. destruct (Z.ltb_spec k 0) as [N|N].
    - apply (Z.mod_unique_pos k _ (-1)).
      + destruct (Z.eq_dec k (- B d)) as [->|D].
        * rewrite (Z.mod_opp_l_z (B d) (B d)) by (first [apply Z.mod_same; lia|lia]). rewrite <- (Z.mod_unique_pos (-1) (B d) (-1) (B d - 1)) by lia. nia.
        * rewrite <- (Z.mod_unique_pos k (B d) (-1) (B d + k)) by lia. rewrite <- (Z.mod_unique_pos (-1) (B d) (-1) (B d - 1)) by lia. nia.
      + destruct (Z.eq_dec k (- B d)) as [->|D].
        * rewrite (Z.mod_opp_l_z (B d) (B d)) by (first [apply Z.mod_same; lia|lia]). rewrite <- (Z.mod_unique_pos (-1) (B d) (-1) (B d - 1)) by lia. lia.
        * rewrite <- (Z.mod_unique_pos k (B d) (-1) (B d + k)) by lia. rewrite <- (Z.mod_unique_pos (-1) (B d) (-1) (B d - 1)) by lia. lia.
    - rewrite Z.mod_0_l by lia. rewrite (Z.mod_small k (B d)) by lia. rewrite (Z.mod_small k (B d * B d)) by nia. lia.
  Qed.
  Lemma adc_ok d : forall x y c, valid d x -> valid d y -> 0 <= c <= 1 -> exists r c', adc w d x y c = (r, c') /\ valid d r /\ 0 <= c' <= 1 /\ uval d r + c' * B d = uval d x + uval d y + c.
  Proof using Hw.
    pose proof word_big. induction d as [|d IH]; cbn [adc DintSpec.valid DintSpec.uval modulus]; intros x y c Vx Vy Hc.
    - eexists _, _. split; [reflexivity|]. pose proof (Z.mod_pos_bound (x + y + c) (2 ^ w) ltac:(lia)) as M. pose proof (Z.div_mod (x + y + c) (2 ^ w) ltac:(lia)) as D. split; [exact M|]. split; [nia|lia].
    - destruct Vx as (X1 & X2), Vy as (Y1 & Y2). destruct (IH _ _ _ X2 Y2 Hc) as (lo & c1 & -> & V1 & C1 & E1). destruct (IH _ _ _ X1 Y1 C1) as (hi & c2 & -> & V2 & C2 & E2). eexists _, _. split; [reflexivity|]. cbn [fst snd]. split; [auto|]. split; [exact C2|]. nia.
  Qed.
  Lemma sbb_ok d : forall x y c, valid d x -> valid d y -> 0 <= c <= 1 -> exists r c', sbb w d x y c = (r, c') /\ valid d r /\ 0 <= c' <= 1 /\ uval d r - c' * B d = uval d x - uval d y - c.
  Proof using Hw.
    pose proof word_big. induction d as [|d IH]; cbn [sbb DintSpec.valid DintSpec.uval modulus]; intros x y c Vx Vy Hc.
    - eexists _, _. split; [reflexivity|]. pose proof (Z.mod_pos_bound (x - y - c) (2 ^ w) ltac:(lia)) as M. pose proof (Z.div_mod (x - y - c) (2 ^ w) ltac:(lia)) as D. split; [exact M|]. split; [nia|lia].
    - destruct Vx as (X1 & X2), Vy as (Y1 & Y2). destruct (IH _ _ _ X2 Y2 Hc) as (lo & c1 & -> & V1 & C1 & E1). destruct (IH _ _ _ X1 Y1 C1) as (hi & c2 & -> & V2 & C2 & E2). eexists _, _. split; [reflexivity|]. cbn [fst snd]. split; [auto|]. split; [exact C2|]. nia.
  Qed.
  Lemma to_mod a b q m : 0 <= a < m -> a + q * m = b -> a = b mod m.
  Proof using. intros H E. apply (Z.mod_unique_pos b m q); lia. Qed.
  Lemma add_ok d x y : valid d x -> valid d y -> valid d (add w d x y) /\ uval d (add w d x y) = (uval d x + uval d y) mod B d.
  Proof using Hw. intros X Y. unfold add. destruct (adc_ok d x y 0 X Y ltac:(lia)) as (r & c & -> & V & C & E). cbn [fst]. split; [exact V|]. apply (to_mod _ _ c); [now apply uval_bound|lia]. Qed.
  Lemma sub_ok d x y : valid d x -> valid d y -> valid d (sub w d x y) /\ uval d (sub w d x y) = (uval d x - uval d y) mod B d.
  Proof using Hw. intros X Y. unfold sub. destruct (sbb_ok d x y 0 X Y ltac:(lia)) as (r & c & -> & V & C & E). cbn [fst]. split; [exact V|]. apply (to_mod _ _ (- c)); [now apply uval_bound|lia]. Qed.
  Lemma eqb_ok d : forall x y, valid d x -> valid d y -> (eqb d x y = true <-> uval d x = uval d y).
  Proof using Hw.
    induction d as [|d IH]; cbn [eqb DintSpec.valid DintSpec.uval]; intros x y X Y; [apply Z.eqb_eq|]. destruct X as (X1 & X2), Y as (Y1 & Y2). rewrite andb_true_iff, (IH _ _ X1 Y1), (IH _ _ X2 Y2).
    pose proof (uval_bound d _ X1). pose proof (uval_bound d _ X2). pose proof (uval_bound d _ Y1). pose proof (uval_bound d _ Y2). split; [intros (-> & ->); reflexivity|]. intros E. assert (uval d (fst x) = uval d (fst y)) by nia. split; [auto|nia].
  Qed.
  Lemma ult_ok d : forall x y, valid d x -> valid d y -> (ult d x y = true <-> uval d x < uval d y).
  Proof using Hw.
    induction d as [|d IH]; cbn [ult DintSpec.valid DintSpec.uval]; intros x y X Y; [apply Z.ltb_lt|]. destruct X as (X1 & X2), Y as (Y1 & Y2). rewrite orb_true_iff, andb_true_iff, (IH _ _ X1 Y1), (IH _ _ X2 Y2), (eqb_ok d _ _ X1 Y1).
    pose proof (uval_bound d _ X1). pose proof (uval_bound d _ X2). pose proof (uval_bound d _ Y1). pose proof (uval_bound d _ Y2). split; [intros [Q|(Q & R)]; nia|]. intros E. destruct (Z.lt_trichotomy (uval d (fst x)) (uval d (fst y))) as [Q|[Q|Q]]; [now left|right; nia|nia].
  Qed.
  Lemma ule_ok d : forall x y, valid d x -> valid d y -> (ule d x y = true <-> uval d x <= uval d y).
  Proof using Hw.
    induction d as [|d IH]; cbn [ule DintSpec.valid DintSpec.uval]; intros x y X Y; [apply Z.leb_le|]. destruct X as (X1 & X2), Y as (Y1 & Y2). rewrite orb_true_iff, andb_true_iff, (ult_ok d _ _ X1 Y1), (IH _ _ X2 Y2), (eqb_ok d _ _ X1 Y1).
    pose proof (uval_bound d _ X1). pose proof (uval_bound d _ X2). pose proof (uval_bound d _ Y1). pose proof (uval_bound d _ Y2). split; [intros [Q|(Q & R)]; nia|]. intros E. destruct (Z.lt_trichotomy (uval d (fst x)) (uval d (fst y))) as [Q|[Q|Q]]; [now left|right; nia|nia].
  Qed.
  Lemma word_half : 2 ^ w = 2 * 2 ^ (w - 1).
  Proof using Hw. rewrite <- Z.pow_succ_r by lia. f_equal. lia. Qed.
  (** half of the modulus *)
  Lemma B_even d : exists H, B d = 2 * H.
  Proof using Hw. induction d as [|d (H & E)]; cbn [modulus]; [exists (2 ^ (w - 1)); apply word_half|]. exists (H * B d). rewrite E at 1. ring. Qed.
  Lemma half_digit h a b : 0 <= a < 2 * h -> 0 <= b < 2 * h -> (2 * h * (2 * h) <= 2 * (a * (2 * h) + b) <-> 2 * h <= 2 * a).
  Proof using. intros A1 B1. split; intros Q; [|nia]. destruct (Z.lt_ge_cases a h) as [L|L]; [|lia]. exfalso. assert (a * (2 * h) <= (h - 1) * (2 * h)) by (apply Z.mul_le_mono_nonneg_r; lia). lia. Qed.
  Lemma neg_ok d : forall x, valid d x -> (is_negative w d x = true <-> B d <= 2 * uval d x).
  Proof using Hw.
    pose proof word_half. induction d as [|d IH]; cbn [is_negative DintSpec.valid DintSpec.uval modulus]; intros x X; [rewrite Z.leb_le; lia|]. destruct X as (X1 & X2). rewrite (IH _ X1). pose proof (uval_bound d _ X1). pose proof (uval_bound d _ X2). destruct (B_even d) as (h & E). rewrite E in *. symmetry. apply half_digit; assumption.
  Qed.
  Lemma sval_S d (x : dint (S d)) : valid (S d) x -> sval w (S d) x = sval w d (fst x) * B d + uval d (snd x).
  Proof using Hw.
    intros (X1 & X2). unfold sval. cbn [DintSpec.uval modulus]. pose proof (uval_bound d _ X1). pose proof (uval_bound d _ X2). destruct (B_even d) as (h & E).
    rewrite E in *. pose proof (half_digit h (uval d (fst x)) (uval d (snd x)) ltac:(assumption) ltac:(assumption)) as HD.
    destruct (Z.leb_spec (2 * h * (2 * h)) (2 * (uval d (fst x) * (2 * h) + uval d (snd x)))), (Z.leb_spec (2 * h) (2 * uval d (fst x))); try (exfalso; lia); lia.
  Qed.
  Lemma sval_inj d x y : valid d x -> valid d y -> (sval w d x = sval w d y <-> uval d x = uval d y).
  Proof using Hw. intros X Y. unfold sval. pose proof (uval_bound d _ X). pose proof (uval_bound d _ Y). destruct (Z.leb_spec (B d) (2 * uval d x)), (Z.leb_spec (B d) (2 * uval d y)); lia. Qed.
  Lemma slt_ok d : forall x y, valid d x -> valid d y -> (slt w d x y = true <-> sval w d x < sval w d y).
  Proof using Hw.
    induction d as [|d IH]; intros x y X Y.
    - cbn [slt]. rewrite Z.ltb_lt. unfold signed, sval. cbn [DintSpec.uval modulus]. rewrite word_half. destruct (Z.leb_spec (2 ^ (w - 1)) x), (Z.leb_spec (2 ^ (w - 1)) y), (Z.leb_spec (2 * 2 ^ (w - 1)) (2 * x)), (Z.leb_spec (2 * 2 ^ (w - 1)) (2 * y)); lia.
    - rewrite (sval_S d x X), (sval_S d y Y). cbn [slt]. destruct X as (X1 & X2), Y as (Y1 & Y2). rewrite orb_true_iff, andb_true_iff, (IH _ _ X1 Y1), (ult_ok d _ _ X2 Y2), (eqb_ok d _ _ X1 Y1), <- (sval_inj d _ _ X1 Y1).
      pose proof (uval_bound d _ X2). pose proof (uval_bound d _ Y2). set (a := sval w d (fst x)) in *. set (b := sval w d (fst y)) in *. split; [intros [Q|(Q & R)]; nia|]. intros E. destruct (Z.lt_trichotomy a b) as [Q|[Q|Q]]; [now left|right; nia|nia].
  Qed.
  Lemma sle_ok d x y : valid d x -> valid d y -> (sle w d x y = true <-> sval w d x <= sval w d y).
  Proof using Hw.
    destruct d as [|d]; intros X Y.
    - cbn [sle]. rewrite Z.leb_le. unfold signed, sval. cbn [DintSpec.uval modulus]. rewrite word_half. destruct (Z.leb_spec (2 ^ (w - 1)) x), (Z.leb_spec (2 ^ (w - 1)) y), (Z.leb_spec (2 * 2 ^ (w - 1)) (2 * x)), (Z.leb_spec (2 * 2 ^ (w - 1)) (2 * y)); lia.
    - rewrite (sval_S d x X), (sval_S d y Y). cbn [sle]. destruct X as (X1 & X2), Y as (Y1 & Y2). rewrite orb_true_iff, andb_true_iff, (slt_ok d _ _ X1 Y1), (ule_ok d _ _ X2 Y2), (eqb_ok d _ _ X1 Y1), <- (sval_inj d _ _ X1 Y1).
      pose proof (uval_bound d _ X2). pose proof (uval_bound d _ Y2). set (a := sval w d (fst x)) in *. set (b := sval w d (fst y)) in *. split; [intros [Q|(Q & R)]; nia|]. intros E. destruct (Z.lt_trichotomy a b) as [Q|[Q|Q]]; [now left|right; nia|nia].
  Qed.
  Lemma bit c : 0 <= c <= 1 -> c = 0 \/ c = 1. Proof using. lia. Qed.
  (** the product of two numbers of two digits in base h, from three products *)
  Lemma karatsuba_eq h x1 x0 y1 y0 lsu lcy rsu rcy m0 m2 m1a b0 m1h m1l b2 m0h m0l m2h m2l lohi c hl1 cc hl2 c1 hl3 c2 :
    lsu + lcy * h = x0 + x1 -> rsu + rcy * h = y0 + y1 -> m0 = x0 * y0 -> m2 = x1 * y1 ->
    m1a - b0 * (h * h) = lsu * rsu - m0 -> (m1h * h + m1l) - b2 * (h * h) = m1a - m2 ->
    m0 = m0h * h + m0l -> m2 = m2h * h + m2l -> lohi + c * h = m0h + m1l -> hl1 + cc * h = m2l + m1h + c ->
    hl2 + c1 * h = hl1 + rcy * lsu -> hl3 + c2 * h = hl2 + lcy * rsu ->
    (m2h + (lcy * rcy - b0 - b2 + cc + c1 + c2)) * (h * h * h) + hl3 * (h * h) + lohi * h + m0l = (x1 * h + x0) * (y1 * h + y0).
  Proof using.
    intros E1 E2 E3 E4 E5 E6 E7 E8 E9 E10 E11 E12.
    assert (A1 : x1 = lsu + lcy * h - x0) by lia. assert (A2 : y1 = rsu + rcy * h - y0) by lia.
    assert (A9 : lohi = m0h + m1l - c * h) by lia. assert (A12 : hl3 = hl2 + lcy * rsu - c2 * h) by lia. assert (A11 : hl2 = hl1 + rcy * lsu - c1 * h) by lia. assert (A10 : hl1 = m2l + m1h + c - cc * h) by lia.
    assert (A7 : m0l = m0 - m0h * h) by lia. assert (A8 : m2l = m2 - m2h * h) by lia. assert (A6 : m1l = m1a - m2 + b2 * (h * h) - m1h * h) by lia. assert (A5 : m1a = lsu * rsu - m0 + b0 * (h * h)) by lia.
    subst lohi hl3. subst hl2. subst hl1. subst m1l. subst m0l m2l. subst m1a. 
    replace ((x1 * h + x0) * (y1 * h + y0)) with (x1 * y1 * (h * h) + (x1 + x0) * (y1 + y0) * h - x0 * y0 * h - x1 * y1 * h + x0 * y0) by ring.
    rewrite <- E3, <- E4. replace (x1 + x0) with (lsu + lcy * h) by lia. replace (y1 + y0) with (rsu + rcy * h) by lia. ring.
  Qed.
  Lemma two_digits h a b : 0 <= a < h -> 0 <= b < h -> 0 <= a * h + b < h * h.
  Proof using. intros A1 B1. nia. Qed.
  Lemma top_digit t h c b a X Y : t * (h * h * h) + c * (h * h) + b * h + a = X * Y -> 0 <= X < h * h -> 0 <= Y < h * h -> 0 <= c < h -> 0 <= b < h -> 0 <= a < h -> 0 <= t < h.
  Proof using.
    intros K HX HY Hc Hb Ha. assert (P : 0 <= X * Y < h * h * (h * h)) by (split; [apply Z.mul_nonneg_nonneg; lia|apply Z.mul_lt_mono_nonneg; lia]).
    pose proof (two_digits h b a Hb Ha) as Q. assert (L : 0 <= c * (h * h) /\ c * (h * h) <= (h - 1) * (h * h)) by (split; [apply Z.mul_nonneg_nonneg; lia|apply Z.mul_le_mono_nonneg_r; lia]).
    assert (Hp : 0 < h * h * h) by (apply Z.mul_pos_pos; [apply Z.mul_pos_pos|]; lia). replace ((h - 1) * (h * h)) with (h * h * h - h * h) in L by ring. replace (h * h * (h * h)) with (h * (h * h * h)) in P by ring. rewrite <- K in P.
    split.
    - destruct (Z.lt_ge_cases t 0) as [N|N]; [|lia]. exfalso. assert (t * (h * h * h) <= -1 * (h * h * h)) by (apply Z.mul_le_mono_nonneg_r; lia). lia.
    - destruct (Z.lt_ge_cases t h) as [N|N]; [lia|]. exfalso. assert (h * (h * h * h) <= t * (h * h * h)) by (apply Z.mul_le_mono_nonneg_r; lia). lia.
  Qed.
  Lemma mul_full_ok d : forall x y, valid d x -> valid d y -> valid (S d) (mul_full w d x y) /\ uval (S d) (mul_full w d x y) = uval d x * uval d y.
  Proof using Hw.
    pose proof word_big as W8. induction d as [|d IH]; intros x y X Y.
    - cbn in X, Y. cbn [mul_full DintSpec.valid DintSpec.uval modulus fst snd]. pose proof (Z.mod_pos_bound (x * y) (2 ^ w) ltac:(lia)) as M. pose proof (Z.div_mod (x * y) (2 ^ w) ltac:(lia)) as D. split; [split; [|exact M]|lia]. split; [apply Z.div_pos; nia|]. apply Z.div_lt_upper_bound; nia.
    - pose proof X as (X1 & X2). pose proof Y as (Y1 & Y2). cbn [mul_full].
      destruct (adc_ok d _ _ 0 X2 X1 ltac:(lia)) as (lsu & lcy & -> & Vl & Cl & El). destruct (adc_ok d _ _ 0 Y2 Y1 ltac:(lia)) as (rsu & rcy & -> & Vr & Cr & Er).
      destruct (IH _ _ X2 Y2) as (V0 & E0). destruct (IH _ _ X1 Y1) as (V2 & E2). destruct (IH _ _ Vl Vr) as (V1 & E1). set (m0 := mul_full w d (snd x) (snd y)) in *. set (m2 := mul_full w d (fst x) (fst y)) in *. set (m1 := mul_full w d lsu rsu) in *.
      destruct (sbb_ok (S d) m1 m0 0 V1 V0 ltac:(lia)) as (m1a & b0 & -> & Va & Cb0 & Ea). destruct (sbb_ok (S d) m1a m2 0 Va V2 ltac:(lia)) as (m1b & b2 & -> & Vb & Cb2 & Eb).
      pose proof V0 as (V0h & V0l). pose proof V2 as (V2h & V2l). pose proof Vb as (Vbh & Vbl).
      destruct (adc_ok d (fst m0) (snd m1b) 0 V0h Vbl ltac:(lia)) as (lohi & c & -> & Vlohi & Cc & Elohi). destruct (adc_ok d (snd m2) (fst m1b) c V2l Vbh Cc) as (hl1 & cc & -> & Vhl1 & Ccc & Ehl1).
      assert (S1 : exists hl2 c1, (if rcy =? 0 then (hl1, 0) else adc w d hl1 lsu 0) = (hl2, c1) /\ valid d hl2 /\ 0 <= c1 <= 1 /\ uval d hl2 + c1 * B d = uval d hl1 + rcy * uval d lsu).
      { destruct (bit _ Cr) as [-> | ->]; cbn [Z.eqb]; [exists hl1, 0; repeat split; auto; lia|]. change (1 =? 0) with false. destruct (adc_ok d hl1 lsu 0 Vhl1 Vl ltac:(lia)) as (r & c1 & -> & V & C & E). exists r, c1. repeat split; auto; lia. }
      destruct S1 as (hl2 & c1 & -> & Vhl2 & Cc1 & Ehl2).
      assert (S2 : exists hl3 c2, (if lcy =? 0 then (hl2, 0) else adc w d hl2 rsu 0) = (hl3, c2) /\ valid d hl3 /\ 0 <= c2 <= 1 /\ uval d hl3 + c2 * B d = uval d hl2 + lcy * uval d rsu).
      { destruct (bit _ Cl) as [-> | ->]; [exists hl2, 0; repeat split; auto; lia|]. change (1 =? 0) with false. destruct (adc_ok d hl2 rsu 0 Vhl2 Vr ltac:(lia)) as (r & c2 & -> & V & C & E). exists r, c2. repeat split; auto; lia. }
      destruct S2 as (hl3 & c2 & -> & Vhl3 & Cc2 & Ehl3).
      assert (Ln : Z.land lcy rcy = lcy * rcy) by (destruct (bit _ Cl) as [-> | ->], (bit _ Cr) as [-> | ->]; reflexivity). rewrite Ln. set (k := lcy * rcy - b0 - b2 + cc + c1 + c2).
      assert (Lk : 0 <= lcy * rcy <= 1) by (destruct (bit _ Cl) as [-> | ->], (bit _ Cr) as [-> | ->]; cbn; split; discriminate). destruct (of_int_ok d k ltac:(unfold k; lia)) as (Vk & Ek). destruct (add_ok d (fst m2) (of_int w d k) V2h Vk) as (Vhh & Ehh).
      set (hh := add w d (fst m2) (of_int w d k)) in *.
      assert (Vr' : valid (S (S d)) ((hh, hl3), (lohi, snd m0))) by (cbn; auto). split; [exact Vr'|].
      cbn [DintSpec.uval modulus fst snd] in E0, E1, E2, Ea, Eb |- *. rewrite E1 in Ea.
      pose proof (karatsuba_eq (B d) (uval d (fst x)) (uval d (snd x)) (uval d (fst y)) (uval d (snd y)) (uval d lsu) lcy (uval d rsu) rcy
        (uval d (fst m0) * B d + uval d (snd m0)) (uval d (fst m2) * B d + uval d (snd m2)) (uval d (fst m1a) * B d + uval d (snd m1a)) b0 (uval d (fst m1b)) (uval d (snd m1b)) b2
        (uval d (fst m0)) (uval d (snd m0)) (uval d (fst m2)) (uval d (snd m2)) (uval d lohi) c (uval d hl1) cc (uval d hl2) c1 (uval d hl3) c2) as K.
      specialize (K ltac:(lia) ltac:(lia) E0 E2 ltac:(lia) ltac:(lia) eq_refl eq_refl ltac:(lia) ltac:(lia) ltac:(lia) ltac:(lia)). fold k in K.
      rewrite <- K. rewrite Ek, Zplus_mod_idemp_r in Ehh. pose proof (uval_bound d _ Vhh) as Bhh.
      (* the top digit does not overflow *)
      assert (T : 0 <= uval d (fst m2) + k < B d).
      { pose proof (two_digits _ _ _ (uval_bound d _ X1) (uval_bound d _ X2)) as Px. pose proof (two_digits _ _ _ (uval_bound d _ Y1) (uval_bound d _ Y2)) as Py.
        exact (top_digit _ _ _ _ _ _ _ K Px Py (uval_bound d _ Vhl3) (uval_bound d _ Vlohi) (uval_bound d _ V0l)). }
      rewrite Z.mod_small in Ehh by exact T. rewrite Ehh. ring.
  Qed.
  Lemma mul_ok d : forall x y, valid d x -> valid d y -> valid d (mul w d x y) /\ uval d (mul w d x y) = (uval d x * uval d y) mod B d.
  Proof using Hw.
    pose proof word_big as W8. induction d as [|d IH]; intros x y X Y; [cbn; split; [apply Z.mod_pos_bound; lia|reflexivity]|]. cbn [mul]. destruct X as (X1 & X2), Y as (Y1 & Y2).
    destruct (mul_full_ok d _ _ X2 Y2) as (V & E). destruct (IH _ _ X2 Y1) as (Va & Ea). destruct (IH _ _ X1 Y2) as (Vb & Eb). set (r := mul_full w d (snd x) (snd y)) in *. destruct V as (Vh & Vl).
    destruct (add_ok d _ _ Vh Va) as (V1 & E1). destruct (add_ok d _ _ V1 Vb) as (V2 & E2). split; [split; assumption|]. cbn [DintSpec.uval modulus fst snd] in *. rewrite E2, E1, Ea, Eb.
    pose proof (B_word d) as Q. pose proof (uval_bound d _ Vl) as Bl. rewrite Zplus_mod_idemp_r, Zplus_mod_idemp_l. rewrite <- Z.add_assoc, (Z.add_comm (_ mod _)), Z.add_assoc, Zplus_mod_idemp_r.
    set (t := uval d (fst r) + uval d (fst x) * uval d (snd y) + uval d (snd x) * uval d (fst y)). pose proof (Z.mod_pos_bound t (B d) ltac:(lia)) as Mt. pose proof (Z.div_mod t (B d) ltac:(lia)) as Dt.
    apply (Z.mod_unique_pos _ (B d * B d) (t / B d + uval d (fst x) * uval d (fst y))); [apply two_digits; assumption|].
    replace (t mod B d) with (t - B d * (t / B d)) by lia. replace (uval d (snd r)) with (uval d (snd x) * uval d (snd y) - uval d (fst r) * B d) by lia. unfold t at 2. ring.
  Qed.
End Dint.
