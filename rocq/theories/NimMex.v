(** The product of the tower is Conway's nim product. *)
From Coq Require Import NArith Ring Ring_theory.
From Verif Require Import Lib NimTower NimSpec NimNat NimModel NimProofs.
Open Scope N_scope.
Add Ring nim3 : nim_ring (morphism bool_morph, constants [nim_const]).

(** x is one of the numbers with a + x < a *)
Definition V (a x : N) : Prop := x <> 0 /\ N.testbit a (N.log2 x) = true.
Lemma bit_small n x i : small n x -> n <= i -> N.testbit x i = false.
Proof. intros S L. rewrite <- (land_ones_small n x S), N.land_spec, N.ones_spec_high by exact L. apply Bool.andb_false_r. Qed.
Lemma V_lt a x : V a x -> N.lxor a x < a.
Proof.
  intros (NZ & B). set (i := N.log2 x) in *. pose proof (N.bit_log2 x NZ) as BX. fold i in BX. pose proof (N.log2_spec x ltac:(lia)) as (_ & XL). fold i in XL. assert (XS : small (i + 1) x) by (apply small_lt; now rewrite N.add_1_r).
  assert (SH : N.shiftr (N.lxor a x) (i + 1) = N.shiftr a (i + 1)) by (now rewrite N.shiftr_lxor, XS, N.lxor_0_r).
  assert (H1 : N.shiftr a i = 2 * N.shiftr a (i + 1) + 1). { rewrite <- N.shiftr_shiftr. rewrite (N.shiftr_div_pow2 (N.shiftr a i) 1). change (2 ^ 1) with 2. pose proof (N.div_mod (N.shiftr a i) 2 ltac:(lia)) as D. rewrite <- N.bit0_mod, N.shiftr_spec', N.add_0_l, B in D. cbn [N.b2n] in D. exact D. }
  assert (H2 : N.shiftr (N.lxor a x) i = 2 * N.shiftr a (i + 1)). { rewrite <- SH, <- N.shiftr_shiftr. rewrite (N.shiftr_div_pow2 (N.shiftr (N.lxor a x) i) 1). change (2 ^ 1) with 2. pose proof (N.div_mod (N.shiftr (N.lxor a x) i) 2 ltac:(lia)) as D. rewrite <- N.bit0_mod, N.shiftr_spec', N.add_0_l, N.lxor_spec, B, BX in D. cbn [xorb N.b2n] in D. lia. }
  rewrite N.shiftr_div_pow2 in H1, H2. pose proof (N.pow_nonzero 2 i ltac:(lia)) as P0. pose proof (N.div_mod a (2 ^ i) P0) as D1. pose proof (N.div_mod (N.lxor a x) (2 ^ i) P0) as D2. pose proof (N.mod_lt (N.lxor a x) (2 ^ i) P0). rewrite H1 in D1. rewrite H2 in D2. remember (2 ^ i) as q. remember (N.shiftr a (i + 1)) as h. remember (N.lxor a x) as v. remember (v mod q) as r. remember (a mod q) as r'. clear - D1 D2 H P0. rewrite D1, D2. nia.
Qed.
Lemma lt_V c m : c < m -> V m (N.lxor c m).
Proof.
  intros L. set (d := N.lxor c m). assert (D0 : d <> 0) by (intros E; apply N.lxor_eq in E; lia). split; [exact D0|]. destruct (N.testbit m (N.log2 d)) eqn:B; [reflexivity|exfalso].
  assert (VC : V c d). { split; [exact D0|]. pose proof (N.bit_log2 d D0) as BD. unfold d at 1 in BD. rewrite N.lxor_spec, B in BD. now rewrite Bool.xorb_false_r in BD. }
  apply V_lt in VC. replace (N.lxor c d) with m in VC by (unfold d; ring). lia.
Qed.
Lemma V_xor p q z : V (N.lxor p q) z -> V p z \/ V q z.
Proof. intros (NZ & B). rewrite N.lxor_spec in B. destruct (N.testbit p (N.log2 z)) eqn:E; [left; now split|right; split; [exact NZ|]]. now destruct (N.testbit q (N.log2 z)). Qed.
(** high and low parts *)
Lemma jn_bit_high h l k i : small (wd k) l -> N.testbit (jn h l k) (i + wd k) = N.testbit h i.
Proof. intros S. unfold jn. rewrite N.lxor_spec, (bit_small (wd k) l) by (try exact S; lia). rewrite N.shiftl_spec_high' by lia. rewrite N.add_sub, Bool.xorb_false_r. reflexivity. Qed.
Lemma jn_bit_low h l k i : i < wd k -> N.testbit (jn h l k) i = N.testbit l i.
Proof. intros L. unfold jn. rewrite N.lxor_spec, N.shiftl_spec_low by exact L. now destruct (N.testbit l i). Qed.
Lemma log2_small n x : small n x -> x <> 0 -> N.log2 x < n.
Proof. intros S NZ. apply small_lt in S. apply N.log2_lt_pow2; lia. Qed.
Lemma jn_log2 h l k : small (wd k) l -> h <> 0 -> N.log2 (jn h l k) = N.log2 h + wd k.
Proof.
  intros S NZ. apply N.log2_unique; [lia|]. assert (E : jn h l k = 2 ^ wd k * h + l). { unfold jn. rewrite N.shiftl_mul_pow2, N.mul_comm. symmetry. rewrite (N.mul_comm _ h), <- N.shiftl_mul_pow2. apply N.add_nocarry_lxor. apply N.bits_inj. intros i. rewrite N.land_spec, N.bits_0. destruct (N.ltb_spec i (wd k)); [now rewrite N.shiftl_spec_low|]. rewrite (bit_small (wd k) l) by assumption. apply Bool.andb_false_r. }
  rewrite E. apply small_lt in S. pose proof (N.log2_spec h ltac:(lia)) as (A & B). replace (N.succ (N.log2 h + wd k)) with (N.succ (N.log2 h) + wd k) by lia. rewrite !N.pow_add_r. split; nia.
Qed.
Lemma V_high ah al xh xl k : small (wd k) al -> small (wd k) xl -> V ah xh -> V (jn ah al k) (jn xh xl k).
Proof.
  intros A X (NZ & B). split.
  - intros E. apply NZ. unfold jn in E. apply (f_equal (fun v => N.shiftr v (wd k))) in E. rewrite high_join, N.shiftr_0_l in E by exact X. exact E.
  - rewrite jn_log2 by assumption. now rewrite jn_bit_high.
Qed.
Lemma V_high_inv h l dh dl k : small (wd k) l -> small (wd k) dl -> dh <> 0 -> V (jn h l k) (jn dh dl k) -> V h dh.
Proof. intros L D NZ (_ & B). rewrite jn_log2, jn_bit_high in B by assumption. now split. Qed.
Lemma jn_0 l k : jn 0 l k = l. Proof. unfold jn. rewrite N.shiftl_0_l. apply N.lxor_0_l. Qed.
Lemma V_low ah al xl k : small (wd k) xl -> V al xl -> V (jn ah al k) (jn 0 xl k).
Proof. intros X (NZ & B). rewrite jn_0. split; [exact NZ|]. rewrite jn_bit_low; [exact B|]. now apply log2_small. Qed.
Lemma V_low_inv h l dl k : small (wd k) dl -> V (jn h l k) (jn 0 dl k) -> V l dl.
Proof. intros D H. rewrite jn_0 in H. destruct H as (NZ & B). rewrite jn_bit_low in B by (now apply log2_small). now split. Qed.
Lemma jn_split v k : small (wd (S k)) v -> exists h l, v = jn h l k /\ small (wd k) h /\ small (wd k) l.
Proof. intros S. exists (N.shiftr v (wd k)), (N.land v (N.ones (wd k))). split; [symmetry; apply split_bits|]. split; [now apply small_high|apply small_low]. Qed.
Lemma jn_mul ah al bh bl k : small (wd k) ah -> small (wd k) al -> small (wd k) bh -> small (wd k) bl ->
  nm (jn ah al k) (jn bh bl k) = jn (N.lxor (nm ah bh) (N.lxor (nm ah bl) (nm al bh))) (N.lxor (nm (ee k) (nm ah bh)) (nm al bl)) k.
Proof.
  intros AH AL BH BL. rewrite !jn_nm; try assumption; [|repeat apply small_xor; now apply nm_small]. transitivity (N.lxor (nm (nm ah bh) (nm (fm k) (fm k))) (N.lxor (nm (N.lxor (nm ah bl) (nm al bh)) (fm k)) (nm al bl))); [ring|]. rewrite fm_square. ring.
Qed.
(** square roots and p^2 + p = w *)
Lemma root_exists k v : small (wd k) v -> exists r, small (wd k) r /\ nm r r = v.
Proof. intros SV. destruct (sqrt_run k (S k) v SV) with (j := k) as (r & _ & R & E); [|lia|exact SV|now exists r]. intros l EL. destruct (level_run k v SV) as (l' & E & L & _). rewrite EL in E. injection E as ->. lia. Qed.
Lemma artin k : forall w, small (wd k) w -> N.testbit w (wd k - 1) = false -> exists p, small (wd k) p /\ N.lxor (nm p p) p = w.
Proof.
  induction k as [|k IH]; intros w W B.
  - apply small_lt in W. assert (C : w = 0 \/ w = 1) by (cbn in W; lia). destruct C as [-> | ->]; [|discriminate]. exists 0. split; [apply N.shiftr_0_l|ring].
  - destruct (jn_split w k W) as (wh & wl & -> & WH & WL). pose proof (wd_pos k) as WP. pose proof (ee_small k) as ES. assert (BH : N.testbit wh (wd k - 1) = false) by (rewrite wd_S in B; replace (wd k + wd k - 1) with (wd k - 1 + wd k) in B by lia; now rewrite jn_bit_high in B).
    destruct (IH wh WH BH) as (ph & PS & PE).
    assert (CH : exists ph, small (wd k) ph /\ N.lxor (nm ph ph) ph = wh /\ N.testbit (N.lxor wl (nm (ee k) (nm ph ph))) (wd k - 1) = false).
    { destruct (N.testbit (N.lxor wl (nm (ee k) (nm ph ph))) (wd k - 1)) eqn:T; [|exists ph; auto]. exists (N.lxor ph 1). pose proof (one_small k) as O1. split; [now apply small_xor|]. split; [rewrite <- PE; ring|].
      replace (N.lxor wl (nm (ee k) (nm (N.lxor ph 1) (N.lxor ph 1)))) with (N.lxor (N.lxor wl (nm (ee k) (nm ph ph))) (ee k)) by ring. rewrite N.lxor_spec, T. unfold ee. now rewrite N.pow2_bits_true. }
    clear ph PS PE. destruct CH as (ph & PS & PE & PT). assert (QS : small (wd k) (N.lxor wl (nm (ee k) (nm ph ph)))) by (apply small_xor; [exact WL|]; apply nm_small; [exact ES|now apply nm_small]). destruct (IH _ QS PT) as (pl & LS & LE).
    exists (jn ph pl k). split; [now apply jn_small|]. rewrite jn_mul by assumption. rewrite !jn_nm; [|assumption|assumption|repeat apply small_xor; now apply nm_small].
    rewrite <- PE. replace wl with (N.lxor (N.lxor wl (nm (ee k) (nm ph ph))) (nm (ee k) (nm ph ph))) by ring. rewrite <- LE. ring.
Qed.
Lemma div_exists k a b : small (wd k) a -> small (wd k) b -> b <> 0 -> exists c, small (wd k) c /\ nm c b = a.
Proof. intros A B NZ. destruct (nm_inv_k k b B NZ) as (i & I & E). exists (nm a i). split; [now apply nm_small|]. transitivity (nm a (nm b i)); [ring|]. rewrite E. ring. Qed.
(** the main step: every smaller value is reached *)
Lemma reach k : forall a b d, small (wd k) a -> small (wd k) b -> small (wd k) d -> V (nm a b) d -> exists x y, small (wd k) x /\ small (wd k) y /\ V a x /\ V b y /\ nm x y = d.
Proof.
  induction k as [|k IH]; intros a b d A B D VD.
  - apply small_lt in A, B, D. assert (CD : d = 1) by (destruct VD as (NZ & _); cbn in D; lia). subst d. assert (CA : a = 0 \/ a = 1) by (cbn in A; lia). assert (CB : b = 0 \/ b = 1) by (cbn in B; lia).
    destruct CA as [-> | ->]; [exfalso; destruct VD as (_ & VD); rewrite nm_0_l in VD; discriminate|]. destruct CB as [-> | ->]; [exfalso; destruct VD as (_ & VD); replace (nm 1 0) with 0 in VD by ring; discriminate|].
    exists 1, 1. pose proof (one_small 0). repeat split; try assumption; try discriminate.
  - destruct (jn_split a k A) as (ah & al & -> & AH & AL), (jn_split b k B) as (bh & bl & -> & BH & BL), (jn_split d k D) as (dh & dl & -> & DH & DL). pose proof (ee_small k) as ES. rewrite jn_mul in VD by assumption. clear A B D.
    assert (PL : small (wd k) (N.lxor (nm (ee k) (nm ah bh)) (nm al bl))) by (apply small_xor; apply nm_small; try assumption; now apply nm_small). destruct (N.eq_dec dh 0) as [->|NH].
    + apply V_low_inv in VD; [|exact DL]. apply V_xor in VD as [VD|VD].
      * (* e (ah bh) *)
        destruct (IH (ee k) (nm ah bh) dl ES ltac:(now apply nm_small) DL VD) as (u & v & US & VS & VU & VV & UV). destruct (IH ah bh v AH BH VS VV) as (xh & yh & XS & YS & VX & VY & XY).
        assert (UB : N.testbit (N.lxor (ee k) u) (wd k - 1) = false). { destruct VU as (U0 & VU). unfold ee in VU. destruct (N.eq_dec (N.log2 u) (wd k - 1)) as [E|NE]; [|rewrite N.pow2_bits_false in VU by congruence; discriminate]. rewrite N.lxor_spec. unfold ee. rewrite N.pow2_bits_true, <- E, N.bit_log2 by exact U0. reflexivity. }
        destruct (artin k (N.lxor (ee k) u) ltac:(now apply small_xor) UB) as (p & PS & PE). pose proof (one_small k) as O1. assert (P1 : small (wd k) (N.lxor p 1)) by (now apply small_xor).
        exists (jn xh (nm p xh) k), (jn yh (nm (N.lxor p 1) yh) k). assert (XL : small (wd k) (nm p xh)) by (now apply nm_small). assert (YL : small (wd k) (nm (N.lxor p 1) yh)) by (now apply nm_small).
        split; [now apply jn_small|]. split; [now apply jn_small|]. split; [now apply V_high|]. split; [now apply V_high|]. rewrite jn_mul by assumption. f_equal; [ring|]. rewrite <- UV, <- XY. replace u with (N.lxor (ee k) (N.lxor (nm p p) p)) by (rewrite PE; ring). ring.
      * destruct (IH al bl dl AL BL DL VD) as (x & y & XS & YS & VX & VY & XY). exists (jn 0 x k), (jn 0 y k). assert (Z0 : small (wd k) 0) by apply N.shiftr_0_l. split; [now apply jn_small|]. split; [now apply jn_small|]. split; [now apply V_low|]. split; [now apply V_low|]. rewrite jn_mul by assumption. f_equal; [ring|]. rewrite <- XY. ring.
    + apply V_high_inv in VD; [|exact PL|exact DL|exact NH]. assert (Z0 : small (wd k) 0) by apply N.shiftr_0_l. apply V_xor in VD as [VD|VD]; [|apply V_xor in VD as [VD|VD]].
      * destruct (IH ah bh dh AH BH DH VD) as (xh & yh & XS & YS & VX & VY & XY). assert (X0 : xh <> 0) by apply VX. assert (Y0 : yh <> 0) by apply VY. destruct (div_exists k xh yh XS YS Y0) as (q & QS & QE). destruct (div_exists k yh xh YS XS X0) as (q' & QS' & QE').
        assert (QQ : nm q q' = 1). { assert (E : nm (N.lxor (nm q q') 1) xh = 0) by (transitivity (N.lxor (nm q (nm q' xh)) xh); [ring|]; rewrite QE', QE; ring). apply nm_nonzero in E as [E|E]; [|tauto]. transitivity (N.lxor (N.lxor (nm q q') 1) 1); [ring|]. rewrite E. ring. }
        assert (RS : small (wd k) (nm (N.lxor dl (nm (ee k) dh)) q)) by (apply nm_small; [apply small_xor; [exact DL|now apply nm_small]|exact QS]). destruct (root_exists k _ RS) as (xl & XL & XE).
        exists (jn xh xl k), (jn yh (nm xl q') k). assert (YL : small (wd k) (nm xl q')) by (now apply nm_small). split; [now apply jn_small|]. split; [now apply jn_small|]. split; [now apply V_high|]. split; [now apply V_high|]. rewrite jn_mul by assumption. rewrite XY. f_equal.
        -- transitivity (N.lxor dh (N.lxor (nm xl (nm q' xh)) (nm xl yh))); [ring|]. rewrite QE'. ring.
        -- transitivity (N.lxor (nm (ee k) dh) (nm (nm xl xl) q')); [ring|]. rewrite XE. transitivity (N.lxor (nm (ee k) dh) (nm (N.lxor dl (nm (ee k) dh)) (nm q q'))); [ring|]. rewrite QQ. ring.
      * destruct (IH ah bl dh AH BL DH VD) as (xh & yl & XS & YS & VX & VY & XY). destruct (div_exists k dl yl DL YS (proj1 VY)) as (xl & XL & XE). exists (jn xh xl k), (jn 0 yl k). split; [now apply jn_small|]. split; [now apply jn_small|]. split; [now apply V_high|]. split; [now apply V_low|]. rewrite jn_mul by assumption. rewrite <- XY, <- XE. f_equal; ring.
      * destruct (IH al bh dh AL BH DH VD) as (xl & yh & XS & YS & VX & VY & XY). destruct (div_exists k dl xl DL XS (proj1 VX)) as (yl & YL & YE). exists (jn 0 xl k), (jn yh yl k). split; [now apply jn_small|]. split; [now apply jn_small|]. split; [now apply V_low|]. split; [now apply V_high|]. rewrite jn_mul by assumption. rewrite <- XY, <- YE. f_equal; ring.
Qed.
Theorem nm_is_nim : nim_product nm.
Proof.
  intros a b. split.
  - intros (a' & b' & A & B & E). assert (Z0 : nm (N.lxor a a') (N.lxor b b') = 0). { transitivity (N.lxor (nm a b) (N.lxor (N.lxor (nm a' b) (nm a b')) (nm a' b'))); [ring|]. rewrite <- E. ring. }
    apply nm_nonzero in Z0 as [Z0|Z0]; apply N.lxor_eq in Z0; lia.
  - intros c C. apply lt_V in C as VC. destruct (common_level a b c) as (k & A & B & CS). assert (D : small (wd k) (N.lxor c (nm a b))) by (apply small_xor; [exact CS|now apply nm_small]). destruct (reach k a b _ A B D VC) as (x & y & _ & _ & VX & VY & XY).
    exists (N.lxor a x), (N.lxor b y). split; [now apply V_lt|]. split; [now apply V_lt|]. transitivity (N.lxor (nm x y) (nm a b)); [rewrite XY; ring|ring].
Qed.
Theorem nim_unique op op' : nim_product op -> nim_product op' -> forall a b, op a b = op' a b.
Proof.
  intros H H'. intros a. induction a as [a IHa] using (well_founded_induction N.lt_wf_0). intros b. induction b as [b IHb] using (well_founded_induction N.lt_wf_0).
  assert (EQ : forall c, (exists a' b', a' < a /\ b' < b /\ c = N.lxor (N.lxor (op a' b) (op a b')) (op a' b')) <-> (exists a' b', a' < a /\ b' < b /\ c = N.lxor (N.lxor (op' a' b) (op' a b')) (op' a' b'))).
  { intros c. split; intros (a' & b' & A & B & ->); exists a', b'; (split; [exact A|split; [exact B|]]); rewrite (IHa a' A), (IHa a' A), (IHb b' B); reflexivity. }
  destruct (H a b) as (N1 & L1), (H' a b) as (N2 & L2). destruct (N.lt_trichotomy (op a b) (op' a b)) as [L|[E|L]]; [exfalso; apply N1, EQ, L2, L|exact E|exfalso; apply N2, EQ, L1, L].
Qed.
