From Coq Require Import Znumtheory.
From Verif Require Import Lib BaseModel BaseProofs BaseProps ModuloModel TripleModel TripleSpec TripleProofs TripleProofs2 TripleProofs3.
Open Scope Z_scope.

(** ** solutions of a^2 + b^2 = c^2 + 1 *)
Definition al_coef (n m : Z) : Z * Z :=
  match modulo_gcd_ex n m with
  | Some (_, ni, mi) => ((if m =? 1 then 1 else ni), (if mi =? 0 then mi else n - mi))
  | None => (0, 0)
  end.
Lemma gcd_ex_gcd n m : 0 < n -> 0 < m -> exists ni mi, modulo_gcd_ex n m = Some (Z.gcd n m, ni, mi).
Proof.
  intros Hn Hm. unfold modulo_gcd_ex. destruct (C02_gcd_ex_bounds n m) as (x & y & s & E & _); [lia|lia|]. rewrite E. cbn [obind]. eauto.
Qed.
Lemma al_coef_ok n m : 0 < n -> 0 < m -> Z.gcd n m = 1 -> let '(ni, mi) := al_coef n m in n * ni - m * mi = 1 /\ 0 <= mi < n.
Proof.
  intros Hn Hm G. unfold al_coef, modulo_gcd_ex. destruct (C02_gcd_ex_bounds n m) as (x & y & s & E & Hs & Bz & Sg & B1 & B2); [lia|lia|]. rewrite E, G in *. cbn [obind]. specialize (B1 Hm). specialize (B2 Hn). rewrite Z.mul_1_r in B1, B2.
  assert (Es : Z.rem s 2 = s mod 2) by (apply Z.rem_mod_nonneg; lia). rewrite Es, Zmod_even. destruct (Z.even s) eqn:Ev; cbn [Z.eqb Pos.eqb andb].
  - destruct Sg as (Sx & Sy). assert (Ny : y <> - n). { intros ->. assert (n * (x - m) = 1) by lia. apply Z.mul_eq_1 in H as H'. destruct H'; [|lia]. subst n. lia. }
    assert (M1 : m = 1 -> x = 1). { intros ->. destruct (Z.eq_dec x 0) as [->|]; lia. }
    destruct (Z.eqb_spec y 0) as [->|]; cbn [negb].
    + destruct (Z.eqb_spec m 1) as [|]; cbn [Z.eqb]; [rewrite M1 in Bz by assumption; lia|lia].
    + destruct (Z.eqb_spec (y + n) 0); [lia|]. destruct (Z.eqb_spec m 1) as [Em|]; [rewrite M1 in Bz by assumption; rewrite Em in *; lia|lia].
  - destruct Sg as (Sx & Sy). assert (Y1 : 1 <= y). { destruct (Z.eq_dec y 0) as [->|]; [|lia]. assert (n * x <= 0) by (apply Z.mul_nonneg_nonpos; lia). lia. }
    destruct (Z.eqb_spec y 0); [lia|]. destruct (Z.eqb_spec x 0) as [->|]; cbn [negb].
    + rewrite Z.mul_0_r in Bz. assert (M : m * y = 1) by lia. apply Z.mul_eq_1 in M as M'. destruct M' as [->|]; [|lia]. rewrite Z.eqb_refl. lia.
    + destruct (Z.eqb_spec m 1) as [->|]; [exfalso; assert (x = -1) by lia; subst x; lia|lia].
Qed.
Lemma al_coef_unique n m ni mi : 0 < n -> 0 < m -> n * ni - m * mi = 1 -> 0 <= mi < n -> al_coef n m = (ni, mi) /\ Z.gcd n m = 1.
Proof.
  intros Hn Hm E B. assert (G : Z.gcd n m = 1). { assert (Z.divide (Z.gcd n m) 1). { rewrite <- E. apply Z.divide_sub_r; apply Z.divide_mul_l; [apply Z.gcd_divide_l|apply Z.gcd_divide_r]. } apply Z.divide_1_r in H. pose proof (Z.gcd_nonneg n m). lia. }
  split; [|exact G]. pose proof (al_coef_ok n m Hn Hm G) as X. destruct (al_coef n m) as [ni' mi']. destruct X as (E' & B').
  assert (D : Z.divide n (mi - mi')). { apply Z.gauss with (m := m); [|exact G]. exists (ni - ni'). lia. } destruct D as [q Hq]. assert (q = 0) by (destruct (Z.lt_trichotomy q 0) as [|[|]]; [nia|assumption|nia]). subst q. assert (mi' = mi) by lia. subst mi'. f_equal. assert (n * (ni - ni') = 0) by lia. apply Z.mul_eq_0 in H as [|]; lia.
Qed.
(** the triple given by n and m *)
Definition al (n m : Z) : Z * Z * Z := let '(ni, mi) := al_coef n m in (n * m - ni * mi, n * ni + m * mi, n * m + ni * mi).
Lemma al_sound n m : 0 < n -> 0 < m -> Z.gcd n m = 1 -> let '(a, b, c) := al n m in 0 < a /\ 0 < b /\ 0 < c /\ a * a + b * b = c * c + 1 /\ Z.odd b = true /\ Z.odd a = Z.odd c /\ n * m <= c.
Proof.
  intros Hn Hm G. pose proof (al_coef_ok n m Hn Hm G) as X. unfold al. destruct (al_coef n m) as [ni mi]. destruct X as (E & B).
  assert (0 <= m * mi) by (apply Z.mul_nonneg_nonneg; lia). assert (Pn : 1 <= ni) by (destruct (Z_le_gt_dec ni 0); [assert (n * ni <= 0) by (apply Z.mul_nonneg_nonpos; lia); lia|lia]). assert (Lm : ni <= m). { destruct (Z_le_gt_dec ni m); [assumption|]. assert (n * (m + 1) <= n * ni) by (apply Z.mul_le_mono_nonneg_l; lia). assert (m * mi <= m * (n - 1)) by (apply Z.mul_le_mono_nonneg_l; lia). lia. }
  assert (ni * mi <= m * (n - 1)) by (apply Z.mul_le_mono_nonneg; lia). assert (0 <= ni * mi) by (apply Z.mul_nonneg_nonneg; lia). assert (0 < n * m) by (apply Z.mul_pos_pos; lia).
  split; [lia|]. split; [lia|]. split; [lia|]. split; [|split; [|split; [|lia]]].
  - assert (Q : (n * ni - m * mi) * (n * ni - m * mi) = 1) by (rewrite E; reflexivity). clear - Q. lia.
  - replace (n * ni + m * mi) with (1 + 2 * (m * mi)) by lia. rewrite Z.odd_add, Z.odd_mul. reflexivity.
  - rewrite Z.odd_sub, Z.odd_add. reflexivity.
Qed.
Lemma al_inj n m n' m' : 0 < n -> 0 < m -> Z.gcd n m = 1 -> 0 < n' -> 0 < m' -> Z.gcd n' m' = 1 -> al n m = al n' m' -> n = n' /\ m = m'.
Proof.
  intros Hn Hm G Hn' Hm' G' E. unfold al in E. pose proof (al_coef_ok n m Hn Hm G) as X. pose proof (al_coef_ok n' m' Hn' Hm' G') as X'. destruct (al_coef n m) as [ni mi], (al_coef n' m') as [ni' mi']. destruct X as (B & _), X' as (B' & _). injection E as E1 E2 E3.
  assert (K : forall n m ni mi, 0 < n -> 0 < m -> n * ni - m * mi = 1 -> n = Z.gcd (n * m) (n * ni) /\ m = Z.gcd (n * m) (m * mi)).
  { clear. intros n m ni mi Hn Hm E. assert (O : forall u v x y, u * x - v * y = 1 -> Z.gcd u v = 1). { intros u v x y H. assert (D : Z.divide (Z.gcd u v) 1). { rewrite <- H. apply Z.divide_sub_r; apply Z.divide_mul_l; [apply Z.gcd_divide_l|apply Z.gcd_divide_r]. } apply Z.divide_1_r in D. pose proof (Z.gcd_nonneg u v). lia. } split.
    - rewrite Z.gcd_mul_mono_l, Z.abs_eq by lia. rewrite (Z.gcd_comm m ni), (O ni m n mi) by lia. lia.
    - rewrite (Z.mul_comm n m), Z.gcd_mul_mono_l, Z.abs_eq by lia. rewrite (O n mi ni m) by lia. lia. }
  destruct (K n m ni mi Hn Hm B) as (K1 & K2), (K n' m' ni' mi' Hn' Hm' B') as (K1' & K2').
  assert (P1 : n * m = n' * m') by lia. assert (P2 : n * ni = n' * ni') by lia. assert (P3 : m * mi = m' * mi') by lia. split; [rewrite K1, K1', P1, P2|rewrite K2, K2', P1, P3]; reflexivity.
Qed.
Lemma al_complete a b c : 0 < a -> 0 < b -> 0 < c -> a * a + b * b = c * c + 1 -> Z.odd b = true -> Z.odd a = Z.odd c -> exists n m, 0 < n /\ 0 < m /\ Z.gcd n m = 1 /\ al n m = (a, b, c).
Proof.
  intros Ha Hb Hc E Ob Oac.
  assert (X0 : exists x, c - a = 2 * x). { exists (Z.div2 (c - a)). pose proof (Z.div2_odd (c - a)) as D. rewrite Z.odd_sub, Oac, xorb_nilpotent in D. cbn [Z.b2z] in D. lia. } destruct X0 as [x Hx].
  assert (U0 : b = 2 * Z.div2 b + 1) by (pose proof (Z.div2_odd b) as D; rewrite Ob in D; exact D). set (u := Z.div2 b) in *. clearbody u.
  set (y := a + x). assert (Ec : c = y + x) by (unfold y; lia). assert (Ea : a = y - x) by (unfold y; lia). clearbody y. assert (P : x * y = u * (u + 1)) by (subst a b c; clear - E; lia).
  assert (Hxle : 0 <= x). { destruct (Z_le_gt_dec 0 x); [assumption|]. assert (0 < y) by lia. assert (0 <= u) by lia. assert (0 <= u * (u + 1)) by (apply Z.mul_nonneg_nonneg; lia). assert (x * y < 0) by (apply Z.mul_neg_pos; lia). lia. }
  assert (Hu : 0 <= u) by lia. set (n := Z.gcd y (u + 1)). assert (Hn : 0 < n) by (pose proof (Z.gcd_nonneg y (u + 1)); destruct (Z.eq_dec (Z.gcd y (u + 1)) 0) as [Z0|]; [apply Z.gcd_eq_0_l in Z0; lia|unfold n; lia]).
  destruct (Z.gcd_divide_l y (u + 1)) as [m Hm], (Z.gcd_divide_r y (u + 1)) as [ni Hni]. fold n in Hm, Hni.
  assert (Gc : Z.gcd m ni = 1). { assert (Q : Z.gcd y (u + 1) = n * Z.gcd m ni) by (rewrite Hm, Hni, (Z.mul_comm m), (Z.mul_comm ni), Z.gcd_mul_mono_l, Z.abs_eq by lia; reflexivity). fold n in Q. assert (n * (Z.gcd m ni - 1) = 0) by lia. apply Z.mul_eq_0 in H as [|]; lia. }
  assert (Pm : 0 < m) by (destruct (Z_le_gt_dec m 0); [assert (m * n <= 0) by (apply Z.mul_nonpos_nonneg; lia); lia|lia]).
  assert (R : x * m = u * ni). { assert (W : n * (x * m - u * ni) = 0) by (rewrite Hm, Hni in P; clear - P; lia). apply Z.mul_eq_0 in W as [|]; lia. }
  assert (D : Z.divide m u). { apply Z.gauss with (m := ni); [|exact Gc]. exists x. lia. } destruct D as [mi Hmi].
  assert (Xe : x = ni * mi). { assert (W : m * (x - ni * mi) = 0) by (rewrite Hmi in R; clear - R; lia). apply Z.mul_eq_0 in W as [|]; lia. }
  assert (Bz : n * ni - m * mi = 1) by lia. assert (Mi0 : 0 <= mi) by (destruct (Z_le_gt_dec 0 mi); [assumption|]; assert (mi * m < 0) by (apply Z.mul_neg_pos; lia); lia).
  assert (Mi1 : mi < n). { destruct (Z_lt_ge_dec mi n); [assumption|]. exfalso. assert (m * n <= m * mi) by (apply Z.mul_le_mono_nonneg_l; lia). assert (m < ni) by (destruct (Z_lt_ge_dec m ni); [assumption|]; assert (n * ni <= n * m) by (apply Z.mul_le_mono_nonneg_l; lia); lia). assert (m * n <= ni * mi) by (apply Z.mul_le_mono_nonneg; lia). lia. }
  destruct (al_coef_unique n m ni mi Hn Pm Bz (conj Mi0 Mi1)) as (K & G). exists n, m. split; [exact Hn|]. split; [exact Pm|]. split; [exact G|]. unfold al. rewrite K. f_equal; [f_equal|]; lia.
Qed.

(** ** the program *)
Definition al_cell (c_max n m : Z) : list (Z * Z * Z) :=
  if negb (Z.gcd n m =? 1) then [] else let '(a, b, c) := al n m in
  if c_max <? c then [] else if (Z.rem c 2 =? 1) && (b <? a) then [] else if negb (b =? a) then [(a, b, c); (b, a, c)] else [(a, b, c)].
Lemma al_cell_in c_max n m t : 0 < n -> 0 < m -> In t (al_cell c_max n m) <-> Z.gcd n m = 1 /\ exists a b c, al n m = (a, b, c) /\ c <= c_max /\ ~ (Z.odd c = true /\ b < a) /\ (t = (a, b, c) \/ t = (b, a, c)).
Proof.
  intros Hn Hm. unfold al_cell. destruct (Z.eqb_spec (Z.gcd n m) 1) as [G|G]; cbn [negb]; [|cbn; tauto]. pose proof (al_sound n m Hn Hm G) as S0. destruct (al n m) as [[a b] c]. destruct S0 as (Pa & Pb & Pc & _).
  assert (Oc : Z.odd c = true <-> Z.rem c 2 = 1) by (rewrite Z.rem_mod_nonneg, Zmod_odd by lia; destruct (Z.odd c); intuition lia).
  split.
  - intros J. split; [exact G|]. exists a, b, c. split; [reflexivity|]. destruct (Z.ltb_spec c_max c); [contradiction|]. split; [lia|]. destruct (Z.eqb_spec (Z.rem c 2) 1), (Z.ltb_spec b a); cbn [andb] in J; try contradiction; (split; [intuition lia|]); (destruct (b =? a); cbn [negb] in J; cbn in J; intuition congruence).
  - intros (_ & a' & b' & c' & E & L & NO & T). injection E as <- <- <-. destruct (Z.ltb_spec c_max c); [lia|]. destruct (Z.eqb_spec (Z.rem c 2) 1), (Z.ltb_spec b a); cbn [andb]; try (exfalso; apply NO; intuition lia); (destruct (Z.eqb_spec b a) as [->|]; cbn; intuition congruence).
Qed.
Lemma al_cell_nodup c_max n m : NoDup (al_cell c_max n m).
Proof.
  unfold al_cell. destruct (negb _); [constructor|]. destruct (al n m) as [[a b] c]. destruct (c_max <? c); [constructor|]. destruct (_ && _); [constructor|]. destruct (Z.eqb_spec b a); cbn [negb]; repeat constructor; cbn; try tauto. intros [E|[]]. injection E as -> _. congruence.
Qed.
Lemma al_cell_disjoint c_max n m n' m' t : 0 < n -> 0 < m -> 0 < n' -> 0 < m' -> In t (al_cell c_max n m) -> In t (al_cell c_max n' m') -> n = n' /\ m = m'.
Proof.
  intros Hn Hm Hn' Hm' J J'. apply al_cell_in in J as (G & a & b & c & E & _ & NO & T); [|assumption..]. apply al_cell_in in J' as (G' & a' & b' & c' & E' & _ & NO' & T'); [|assumption..]. apply al_inj; try assumption. rewrite E, E'.
  pose proof (al_sound n m Hn Hm G) as S1. rewrite E in S1. destruct S1 as (_ & _ & _ & _ & O1 & O2 & _). pose proof (al_sound n' m' Hn' Hm' G') as S2. rewrite E' in S2. destruct S2 as (_ & _ & _ & _ & O3 & O4 & _).
  assert (Sw : (a', b', c') = (a, b, c) \/ (a', b', c') = (b, a, c)) by (destruct T as [->| ->], T' as [T'|T']; injection T' as -> -> ->; auto). destruct Sw as [->|Sw]; [reflexivity|]. injection Sw as -> -> ->. assert (Oc : Z.odd c = true) by congruence. assert (a = b) by (assert (~ b < a) by tauto; assert (~ a < b) by tauto; lia). subst. reflexivity.
Qed.
Theorem almost_run c_max : exists l, almost_pythagorean_triples c_max = Some l /\ lists_exactly (almost_right c_max) l.
Proof.
  set (l := flat_map (fun n => flat_map (al_cell c_max n) (zrange 1 (Z.quot c_max n) 1)) (zrange 1 c_max 1)). exists l. split.
  - unfold almost_pythagorean_triples, l. change (flat_map ?f ?l) with ([] ++ flat_map f l). apply zfor_app; [lia|]. intros n acc Hn _. unfold cdiv. destruct (Z.eqb_spec n 0); [lia|]. cbn [obind]. apply zfor_app; [lia|].
    intros m acc' Hm _. unfold al_cell, al, al_coef. destruct (gcd_ex_gcd n m) as (ni & mi & E); [lia|lia|]. rewrite E. cbn [obind]. destruct (negb (Z.gcd n m =? 1)); [now rewrite app_nil_r|].
    destruct (c_max <? _); [now rewrite app_nil_r|]. destruct (_ && _); [now rewrite app_nil_r|]. destruct (negb _); [now rewrite <- app_assoc|reflexivity].
  - assert (Rng : forall n m, 1 <= n <= c_max -> 1 <= m <= Z.quot c_max n <-> 1 <= m /\ n * m <= c_max). { intros n m Hn. rewrite Z.quot_div_nonneg by lia. pose proof (Z.div_le_lower_bound c_max n m ltac:(lia)) as L1. split; [|intros (L & L2); split; [exact L|exact (L1 L2)]]. intros (L & L2). split; [exact L|]. pose proof (Z.mul_div_le c_max n ltac:(lia)). assert (n * m <= n * (c_max / n)) by (apply Z.mul_le_mono_nonneg_l; lia). lia. }
    split.
    + unfold l. apply NoDup_flat_map; [apply zrange_nodup; lia| |].
      * intros n I. rewrite zrange_in in I by lia. apply NoDup_flat_map; [apply zrange_nodup; lia|intros; apply al_cell_nodup|]. intros m m' t I1 I2 J1 J2. rewrite zrange_in in I1, I2 by lia. apply (al_cell_disjoint c_max n m n m' t) in J1; [tauto|lia..|exact J2].
      * intros n n' t I1 I2 J1 J2. rewrite zrange_in in I1, I2 by lia. apply in_flat_map in J1 as (m & Im & J1), J2 as (m' & Im' & J2). rewrite zrange_in in Im, Im' by lia. apply (al_cell_disjoint c_max n m n' m' t) in J1; [tauto|lia..|exact J2].
    + intros t. unfold l. rewrite in_flat_map. split.
      * intros (n & I & J). rewrite zrange_in in I by lia. apply in_flat_map in J as (m & Im & J). rewrite zrange_in in Im by lia. apply al_cell_in in J as (G & a & b & c & E & L & _ & T); [|lia|lia]. pose proof (al_sound n m) as S0. rewrite E in S0. destruct S0 as (A & B & C & D & _); [lia|lia|exact G|]. unfold almost_right. destruct T as [->| ->]; repeat split; lia.
      * assert (Put : forall n m a b c, 0 < n -> 0 < m -> Z.gcd n m = 1 -> al n m = (a, b, c) -> c <= c_max -> ~ (Z.odd c = true /\ b < a) -> forall t, t = (a, b, c) \/ t = (b, a, c) -> exists x, In x (zrange 1 c_max 1) /\ In t (flat_map (al_cell c_max x) (zrange 1 (Z.quot c_max x) 1))).
        { intros n m a b c Hn Hm G E L NO t' T. pose proof (al_sound n m Hn Hm G) as S0. rewrite E in S0. destruct S0 as (_ & _ & _ & _ & _ & _ & B). assert (n * 1 <= n * m) by (apply Z.mul_le_mono_nonneg_l; lia). exists n. split; [rewrite zrange_in by lia; split; [lia|apply Z.divide_1_l]|]. apply in_flat_map. exists m. split; [rewrite zrange_in by lia; split; [apply Rng; lia|apply Z.divide_1_l]|]. apply al_cell_in; [lia|lia|]. split; [exact G|]. exists a, b, c. auto. }
        destruct t as [[a b] c]. intros (Ha & Hb & (Hc & L) & E).
        assert (Par : (Z.odd c = true /\ Z.odd a = true /\ Z.odd b = true) \/ (Z.odd c = false /\ Z.odd a = negb (Z.odd b))).
        { pose proof (Z.div2_odd a) as Da. pose proof (Z.div2_odd b) as Db. pose proof (Z.div2_odd c) as Dc. revert Da Db Dc. generalize (Z.div2 a) (Z.div2 b) (Z.div2 c). intros a' b' c' Da Db Dc. destruct (Z.odd a), (Z.odd b), (Z.odd c); cbn [Z.b2z negb] in *; auto; exfalso; rewrite Da, Db, Dc in E; clear - E; lia. }
        destruct Par as [(Oc & Oa & Ob)|(Oc & Oab)].
        -- destruct (Z_lt_ge_dec b a).
           ++ destruct (al_complete b a c) as (n & m & Hn & Hm & G & K); try lia; try congruence. apply (Put n m b a c); auto; lia.
           ++ destruct (al_complete a b c) as (n & m & Hn & Hm & G & K); try lia; try congruence. apply (Put n m a b c); auto; lia.
        -- destruct (Z.odd b) eqn:Ob; cbn [negb] in Oab.
           ++ destruct (al_complete a b c) as (n & m & Hn & Hm & G & K); try lia; try congruence. apply (Put n m a b c); auto. intros (X & _). congruence.
           ++ destruct (al_complete b a c) as (n & m & Hn & Hm & G & K); try lia; try congruence. apply (Put n m b a c); auto. intros (X & _). congruence.
Qed.
