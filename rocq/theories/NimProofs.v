(** The algorithms of nimber.h compute in the field of nimbers. *)
From Coq Require Import NArith Ring Ring_theory.
From Verif Require Import Lib BitsProofs NimTower NimSpec NimNat NimModel.
Open Scope N_scope.

Lemma bool_morph : ring_morph 0 1 N.lxor nm N.lxor (fun x => x) eq false true xorb andb xorb (fun x => x) Bool.eqb N.b2n.
Proof.
  constructor; try reflexivity.
  - now intros [] [].
  - now intros [] [].
  - intros [] []; cbn [andb N.b2n]; symmetry; [apply (Rmul_1_l nim_ring)|apply (Rmul_1_l nim_ring)|apply nm_0_l|apply nm_0_l].
  - intros x y E. apply Bool.eqb_prop in E. now subst.
Qed.
Ltac nim_const t := match t with 0 => constr:(false) | 1 => constr:(true) | _ => constr:(InitialRing.NotConstant) end.
Add Ring nim : nim_ring (morphism bool_morph, constants [nim_const]).
Lemma char2_test a b : nm (N.lxor a b) (N.lxor a b) = N.lxor (nm a a) (nm b b). Proof. ring. Qed.

Definition P (i : N) : N := 2 ^ i.
Lemma P_small n i : i < n -> small n (P i).
Proof. intros H. apply small_lt. unfold P. apply N.pow_lt_mono_r; lia. Qed.
Lemma fm_P k : fm k = P (wd k). Proof. reflexivity. Qed.
Lemma testbit_split k i : i < 2 ^ N.succ (N.of_nat k) -> i < 2 ^ N.of_nat k \/ exists i', i = i' + 2 ^ N.of_nat k /\ i' < 2 ^ N.of_nat k.
Proof. intros H. rewrite N.pow_succ_r' in H. destruct (N.lt_ge_cases i (2 ^ N.of_nat k)) as [L|L]; [now left|right]. exists (i - 2 ^ N.of_nat k). lia. Qed.
Lemma add_high k i : i < 2 ^ N.of_nat k -> i + 2 ^ N.of_nat k = N.lxor i (2 ^ N.of_nat k).
Proof.
  intros L. apply N.add_nocarry_lxor. apply N.bits_inj. intros j. rewrite N.land_spec, N.bits_0. destruct (N.eq_dec j (N.of_nat k)) as [->|N].
  - replace (N.testbit i (N.of_nat k)) with false; [reflexivity|]. symmetry. rewrite <- (land_ones_small (N.of_nat k) i) by (now apply small_lt). rewrite N.land_spec, N.ones_spec_high by lia. apply Bool.andb_false_r.
  - rewrite N.pow2_bits_false by congruence. apply Bool.andb_false_r.
Qed.
(** powers of two with disjoint exponents multiply as integers *)
Lemma disjoint_mul k : forall i j, i < 2 ^ N.of_nat k -> j < 2 ^ N.of_nat k -> N.land i j = 0 -> nm (P i) (P j) = P (N.lxor i j).
Proof.
  induction k as [|k IH]; intros i j I J D.
  - cbn in I, J. assert (i = 0) as -> by lia. assert (j = 0) as -> by lia. cbn [N.lxor]. change (P 0) with 1. ring.
  - rewrite Nat2N.inj_succ in I, J. set (w := 2 ^ N.of_nat k) in *.
    assert (UP : forall i' j', i' < w -> j' < w -> N.land i' j' = 0 -> nm (P (i' + w)) (P j') = P (N.lxor (i' + w) j')).
    { intros i' j' I' J' D'. assert (E : P (i' + w) = nm (P i') (fm k)). { rewrite fm_mul by (apply P_small; exact I'). rewrite N.shiftl_mul_pow2. unfold P. now rewrite N.pow_add_r. }
      rewrite E. transitivity (nm (nm (P i') (P j')) (fm k)); [ring|]. rewrite IH by assumption. assert (X : N.lxor i' j' < w) by (apply small_lt; apply small_xor; now apply small_lt). rewrite fm_mul by (apply P_small; exact X). rewrite N.shiftl_mul_pow2. unfold P at 1. change (wd k) with w. rewrite <- N.pow_add_r. unfold P. f_equal. unfold w in *. rewrite !add_high by assumption. rewrite !N.lxor_assoc. f_equal. apply N.lxor_comm. }
    assert (SP : forall i' j', i' < w -> j' < w -> N.land (i' + w) j' = 0 -> N.land i' j' = 0). { intros i' j' I' J' Dij. unfold w in *. rewrite add_high in Dij by assumption. apply N.bits_inj. intros b. apply (f_equal (fun x => N.testbit x b)) in Dij. rewrite N.land_spec, N.lxor_spec, N.bits_0 in *. destruct (N.eq_dec b (N.of_nat k)) as [->|NB].
      - replace (N.testbit i' (N.of_nat k)) with false; [reflexivity|]. symmetry. rewrite <- (land_ones_small (N.of_nat k) i') by (now apply small_lt). rewrite N.land_spec, N.ones_spec_high by lia. apply Bool.andb_false_r.
      - rewrite N.pow2_bits_false in Dij by congruence. now rewrite Bool.xorb_false_r in Dij. }
    destruct (testbit_split k i I) as [I'|(i' & -> & I')], (testbit_split k j J) as [J'|(j' & -> & J')]; fold w.
    + now apply IH.
    + transitivity (nm (P (j' + w)) (P i)); [ring|]. rewrite N.lxor_comm. rewrite N.land_comm in D. apply UP; [assumption..|now apply SP].
    + apply UP; [assumption..|now apply SP].
    + exfalso. apply (f_equal (fun x => N.testbit x (N.of_nat k))) in D. unfold w in *. rewrite !add_high, N.land_spec, !N.lxor_spec, N.pow2_bits_true, N.bits_0 in D by assumption.
      assert (F : forall x, x < 2 ^ N.of_nat k -> N.testbit x (N.of_nat k) = false). { intros x X. rewrite <- (land_ones_small (N.of_nat k) x) by (now apply small_lt). rewrite N.land_spec, N.ones_spec_high by lia. apply Bool.andb_false_r. }
      now rewrite !F in D by assumption.
Qed.
Lemma land_lt m n k : m < 2 ^ k -> N.land m n < 2 ^ k.
Proof. intros H. apply small_lt. unfold small. rewrite N.shiftr_land. apply small_lt in H. now rewrite H. Qed.
Lemma xor_lt m n k : m < 2 ^ k -> n < 2 ^ k -> N.lxor m n < 2 ^ k.
Proof. intros M N. apply small_lt. apply small_xor; now apply small_lt. Qed.
Lemma P_mul k m n : m < 2 ^ N.of_nat k -> n < 2 ^ N.of_nat k -> nm (P m) (P n) = nm (P (N.lxor m n)) (nm (P (N.land m n)) (P (N.land m n))).
Proof.
  intros M N. set (c := N.land m n). assert (C : c < 2 ^ N.of_nat k) by (now apply land_lt).
  assert (SPL : forall x y, x < 2 ^ N.of_nat k -> y < 2 ^ N.of_nat k -> P x = nm (P (N.ldiff x y)) (P (N.land x y))). { intros x y X Y. rewrite (disjoint_mul k).
    - f_equal. apply N.bits_inj. intros b. rewrite N.lxor_spec, N.ldiff_spec, N.land_spec. now destruct (N.testbit x b), (N.testbit y b).
    - apply small_lt. unfold small. rewrite N.shiftr_ldiff. apply small_lt in X. now rewrite X.
    - now apply land_lt.
    - apply N.bits_inj. intros b. rewrite N.land_spec, N.ldiff_spec, N.land_spec, N.bits_0. now destruct (N.testbit x b), (N.testbit y b). }
  rewrite (SPL m n M N), (SPL n m N M). rewrite (N.land_comm n m). fold c. transitivity (nm (nm (P (N.ldiff m n)) (P (N.ldiff n m))) (nm (P c) (P c))); [ring|]. f_equal. rewrite (disjoint_mul k).
  - f_equal. apply N.bits_inj. intros b. rewrite !N.lxor_spec, !N.ldiff_spec. now destruct (N.testbit m b), (N.testbit n b).
  - apply small_lt. unfold small. rewrite N.shiftr_ldiff. apply small_lt in M. now rewrite M.
  - apply small_lt. unfold small. rewrite N.shiftr_ldiff. apply small_lt in N. now rewrite N.
  - apply N.bits_inj. intros b. rewrite N.land_spec, !N.ldiff_spec, N.bits_0. now destruct (N.testbit m b), (N.testbit n b).
Qed.

Section Word.
Variable K : nat.
Notation BITS := (wd K).
Lemma bits_wd : bits K = BITS. Proof. reflexivity. Qed.
Lemma wrap_small x : small BITS x -> wrapU K x = x.
Proof. intros H. apply small_lt in H. unfold wrapU. now apply N.mod_small. Qed.
Lemma pow2_val n : n < BITS -> pow2 K n = P n.
Proof. intros H. unfold pow2. rewrite bits_wd. destruct (N.ltb_spec n BITS); [|lia]. rewrite N.shiftl_1_l. apply wrap_small. now apply P_small. Qed.
Lemma wd_lt k : (k < K)%nat -> wd k < BITS.
Proof. intros H. unfold wd. apply N.pow_lt_mono_r; lia. Qed.
Lemma pow2_k k : (k < K)%nat -> pow2 K (N.of_nat k) = wd k.
Proof. intros H. rewrite pow2_val; [reflexivity|]. unfold wd. eapply N.lt_trans; [|apply N.pow_gt_lin_r; lia]. lia. Qed.
Lemma high_run v k : (k < K)%nat -> high K v k = Some (N.shiftr v (wd k)).
Proof. intros H. unfold high, shr. rewrite pow2_k by exact H. rewrite bits_wd. pose proof (wd_lt k H). destruct (N.ltb_spec (wd k) BITS); [reflexivity|lia]. Qed.
Lemma low_run v k : (k < K)%nat -> low K v k = N.land v (N.ones (wd k)).
Proof.
  intros H. unfold low. rewrite pow2_k, pow2_val by (try apply wd_lt; exact H). rewrite bits_wd. f_equal. unfold wrapU. rewrite bits_wd. pose proof (N.pow_lt_mono_r 2 (wd k) BITS ltac:(lia) (wd_lt k H)) as L. pose proof (N.pow_nonzero 2 (wd k)). unfold P. replace (2 ^ wd k + (2 ^ BITS - 1)) with ((2 ^ wd k - 1) + 1 * 2 ^ BITS) by lia. rewrite N.mod_add by (apply N.pow_nonzero; lia). rewrite N.mod_small by lia. rewrite N.ones_equiv. lia.
Qed.
Definition jn (h l : N) (k : nat) : N := N.lxor (N.shiftl h (wd k)) l.
Lemma join_run h l k : (k < K)%nat -> small (wd k) h -> join K h l k = Some (jn h l k).
Proof.
  intros H S. unfold join, shl. rewrite pow2_k by exact H. rewrite bits_wd. pose proof (wd_lt k H). destruct (N.ltb_spec (wd k) BITS); [|lia]. cbn [guard obind]. rewrite wrap_small; [reflexivity|]. eapply small_mono; [apply small_shiftl; exact S|]. rewrite <- wd_S. apply wd_mono. lia.
Qed.
Lemma jn_nm h l k : small (wd k) h -> jn h l k = N.lxor (nm h (fm k)) l.
Proof. intros H. unfold jn. now rewrite fm_mul. Qed.
Lemma jn_small h l k : small (wd k) h -> small (wd k) l -> small (wd (S k)) (jn h l k).
Proof. intros H L. unfold jn. apply small_xor; [rewrite wd_S; now apply small_shiftl|]. eapply small_mono; [exact L|apply wd_mono; lia]. Qed.
Lemma split_nm v k : small (wd (S k)) v -> v = N.lxor (nm (N.shiftr v (wd k)) (fm k)) (N.land v (N.ones (wd k))).
Proof. intros S. rewrite fm_mul by (now apply small_high). symmetry. apply split_bits. Qed.
(** level *)
Lemma level_run v : small BITS v -> exists l, level K v = Some l /\ (l <= K)%nat /\ small (wd l) v /\ forall j, (j < l)%nat -> ~ small (wd j) v.
Proof.
  intros V. unfold level. assert (G : forall fuel k, (k <= K)%nat -> (K <= fuel + k)%nat -> (forall j, (j < k)%nat -> ~ small (wd j) v) -> exists l, level_loop K fuel (wrapU K (2 ^ wd k)) v k = Some l /\ (l <= K)%nat /\ small (wd l) v /\ forall j, (j < l)%nat -> ~ small (wd j) v).
  { induction fuel as [|fuel IH]; intros k L F N.
    - assert (k = K) as -> by lia. cbn [level_loop]. assert (E : wrapU K (2 ^ BITS) = 0) by (unfold wrapU; rewrite bits_wd; apply N.mod_same; apply N.pow_nonzero; lia). rewrite E. exists K. auto.
    - cbn [level_loop]. destruct (Nat.eq_dec k K) as [->|NK].
      + assert (E : wrapU K (2 ^ BITS) = 0) by (unfold wrapU; rewrite bits_wd; apply N.mod_same; apply N.pow_nonzero; lia). rewrite E. exists K. auto.
      + assert (E : wrapU K (2 ^ wd k) = 2 ^ wd k) by (apply wrap_small; apply P_small; apply wd_lt; lia). rewrite E. destruct (N.eqb_spec (2 ^ wd k) 0) as [Z0|_]; [exfalso; revert Z0; apply N.pow_nonzero; lia|]. cbn [orb]. destruct (N.ltb_spec v (2 ^ wd k)) as [LT|GE].
        * exists k. split; [reflexivity|]. split; [lia|]. split; [now apply small_lt|exact N].
        * replace (2 ^ wd k * 2 ^ wd k) with (2 ^ wd (S k)) by (rewrite wd_S; apply N.pow_add_r). apply IH; [lia|lia|]. intros j J. destruct (Nat.eq_dec j k) as [->|]; [intros S; apply small_lt in S; lia|apply N; lia]. }
  apply (G (S K) 0%nat); [lia|lia|]. intros j J. lia.
Qed.
(** lift multiplies by 2^(2^k - 1) *)
Lemma ee_S k : ee (S k) = nm (ee k) (fm k).
Proof. rewrite fm_mul by apply ee_small. rewrite N.shiftl_mul_pow2. unfold ee. rewrite <- N.pow_add_r. f_equal. rewrite wd_S. pose proof (wd_pos k). lia. Qed.
Lemma lift_run k : (k <= K)%nat -> forall a, small (wd k) a -> lift K k a = Some (nm (ee k) a).
Proof.
  induction k as [|k IH]; intros L a A; cbn [lift]; [f_equal; change (ee 0) with 1; ring|]. rewrite high_run by lia. cbn [obind]. rewrite low_run by lia. set (ah := N.shiftr a (wd k)). set (al := N.land a (N.ones (wd k))). assert (AH : small (wd k) ah) by (now apply small_high). assert (AL : small (wd k) al) by apply small_low.
  assert (EA : a = N.lxor (nm ah (fm k)) al) by (now apply split_nm). pose proof (ee_small k) as ES.
  assert (E : nm (ee (S k)) a = jn (nm (ee k) (N.lxor ah al)) (nm (ee k) (nm (ee k) ah)) k).
  { rewrite jn_nm by (apply nm_small; [exact ES|now apply small_xor]). rewrite ee_S. rewrite EA. clearbody ah al. transitivity (N.lxor (nm (nm (ee k) ah) (nm (fm k) (fm k))) (nm (nm (ee k) al) (fm k))); [ring|]. rewrite fm_square. ring. }
  destruct (N.eqb_spec ah 0) as [Z0|NZ].
  - rewrite IH by (try exact AL; lia). cbn [obind]. rewrite join_run; [|lia|now apply nm_small]. f_equal. rewrite E. rewrite Z0. f_equal; ring.
  - rewrite !IH by (try lia; try assumption; now apply small_xor). cbn [obind]. rewrite IH; [|lia|now apply nm_small]. cbn [obind]. rewrite join_run; [|lia|apply nm_small; [exact ES|now apply small_xor]]. now rewrite E.
Qed.
(** square roots *)
Lemma sqrt_run fuel : forall v, small BITS v -> (forall l, level K v = Some l -> (l < fuel)%nat) -> forall j, (j <= K)%nat -> small (wd j) v -> exists r, nsqrt_f K fuel v = Some r /\ small (wd j) r /\ nm r r = v.
Proof.
  induction fuel as [|fuel IH]; intros v V F j J VJ; destruct (level_run v V) as (l & EL & LK & LS & LM); [specialize (F l EL); lia|]. cbn [nsqrt_f]. rewrite EL. cbn [obind]. destruct l as [|k].
  - exists v. split; [reflexivity|]. split; [exact VJ|]. apply small_lt in LS. assert (C : v = 0 \/ v = 1) by (cbn in LS; lia). destruct C as [-> | ->]; ring.
  - specialize (F _ EL). rewrite high_run by lia. cbn [obind]. rewrite low_run by lia. set (ah := N.shiftr v (wd k)). set (al := N.land v (N.ones (wd k))). assert (AH : small (wd k) ah) by (now apply small_high). assert (AL : small (wd k) al) by apply small_low. pose proof (ee_small k) as ES.
    rewrite lift_run by (try exact AH; lia). cbn [obind]. assert (AS : small (wd k) (N.lxor (nm (ee k) ah) al)) by (apply small_xor; [now apply nm_small|exact AL]).
    assert (SUB : forall w, small (wd k) w -> exists r, nsqrt_f K fuel w = Some r /\ small (wd k) r /\ nm r r = w).
    { intros w W. assert (WB : small BITS w) by (eapply small_mono; [exact W|apply wd_mono; lia]). apply IH; [exact WB| |lia|exact W]. intros l' EL'. destruct (level_run w WB) as (l2 & E2 & _ & _ & LM2). rewrite E2 in EL'. injection EL' as ->. destruct (Nat.le_gt_cases l' k) as [|GT]; [lia|]. exfalso. exact (LM2 k GT W). }
    destruct (SUB ah AH) as (x & -> & XS & XE). cbn [obind]. destruct (SUB _ AS) as (y & -> & YS & YE). cbn [obind]. rewrite join_run by (try exact XS; lia). exists (jn x y k). split; [reflexivity|]. assert (KJ : (k < j)%nat) by (destruct (Nat.le_gt_cases j k) as [LE|]; [exfalso; exact (LM j ltac:(lia) VJ)|lia]).
    split; [eapply small_mono; [apply jn_small; assumption|apply wd_mono; lia]|]. rewrite jn_nm by exact XS. transitivity (N.lxor (nm (nm x x) (nm (fm k) (fm k))) (nm y y)); [ring|]. rewrite XE, YE, fm_square. transitivity (N.lxor (nm ah (fm k)) al); [ring|]. symmetry. now apply split_nm.
Qed.
(** Karatsuba *)
Lemma mul2_run fuel : forall x y lx ly, small BITS x -> small BITS y -> (lx <= K)%nat -> (ly <= K)%nat -> small (wd lx) x -> small (wd ly) y -> (lx + ly < fuel)%nat -> mul2_f K fuel x y = Some (nm x y).
Proof.
  induction fuel as [|fuel IH]; intros x y lx ly X Y LX LY SX SY F; [lia|]. cbn [mul2_f].
  assert (G : forall x y lx ly, small BITS x -> small BITS y -> (lx <= K)%nat -> (ly <= K)%nat -> small (wd lx) x -> small (wd ly) y -> (lx + ly < S fuel)%nat -> y <= x -> (if y =? 0 then Some 0 else if y =? 1 then Some x else let* lx := level K x in let* ly := level K y in let k := (lx - 1)%nat in if (ly - 1 <? k)%nat then let* xh := high K x k in let xl := low K x k in let* a := mul2_f K fuel xh y in let* b := mul2_f K fuel xl y in join K a b k else let* xh := high K x k in let xl := low K x k in let* yh := high K y k in let yl := low K y k in let* ll := mul2_f K fuel xl yl in let* hh := mul2_f K fuel xh yh in let* ss := mul2_f K fuel (N.lxor xh xl) (N.lxor yh yl) in let* t := lift K k hh in join K (N.lxor ss ll) (N.lxor t ll) k) = Some (nm x y)).
  { clear x y lx ly X Y LX LY SX SY F. intros x y lx ly X Y LX LY SX SY F YX. destruct (N.eqb_spec y 0) as [->|Y0]; [f_equal; ring|]. destruct (N.eqb_spec y 1) as [->|Y1]; [f_equal; ring|].
    destruct (level_run x X) as (l1 & -> & L1 & S1 & M1). destruct (level_run y Y) as (l2 & -> & L2 & S2 & M2). cbn [obind].
    assert (P2 : (1 <= l2)%nat) by (destruct l2 as [|l2]; [apply small_lt in S2; cbn in S2; lia|lia]). assert (P12 : (l2 <= l1)%nat) by (destruct (Nat.le_gt_cases l2 l1) as [|GT]; [assumption|]; exfalso; apply (M2 l1 GT); apply small_lt; apply small_lt in S1; lia).
    assert (B1 : (l1 <= lx)%nat) by (destruct (Nat.le_gt_cases l1 lx) as [|GT]; [assumption|exfalso; exact (M1 lx GT SX)]). assert (B2 : (l2 <= ly)%nat) by (destruct (Nat.le_gt_cases l2 ly) as [|GT]; [assumption|exfalso; exact (M2 ly GT SY)]).
    destruct l1 as [|k]; [lia|]. replace (S k - 1)%nat with k by lia. cbv zeta. assert (BK : forall w, small (wd k) w -> small BITS w) by (intros w W; eapply small_mono; [exact W|apply wd_mono; lia]).
    set (xh := N.shiftr x (wd k)). set (xl := N.land x (N.ones (wd k))). assert (XH : small (wd k) xh) by (now apply small_high). assert (XL : small (wd k) xl) by apply small_low.
    destruct (Nat.ltb_spec (l2 - 1) k) as [LT|GE].
    - rewrite high_run by lia. cbn [obind]. rewrite low_run by lia. fold xh xl. rewrite (IH xh y k l2) by (auto; lia). cbn [obind]. rewrite (IH xl y k l2) by (auto; lia). cbn [obind]. assert (YK : small (wd k) y) by (eapply small_mono; [exact S2|apply wd_mono; lia]). rewrite join_run; [|lia|now apply nm_small]. f_equal. rewrite jn_nm by (now apply nm_small). rewrite (split_nm x k S1). fold xh xl. ring.
    - assert (l2 = S k) as -> by lia. set (yh := N.shiftr y (wd k)). set (yl := N.land y (N.ones (wd k))). assert (YH : small (wd k) yh) by (now apply small_high). assert (YL : small (wd k) yl) by apply small_low. rewrite !high_run by lia. cbn [obind]. rewrite !low_run by lia. fold xh xl yh yl.
      rewrite (IH xl yl k k) by (auto; lia). cbn [obind]. rewrite (IH xh yh k k) by (auto; lia). cbn [obind]. rewrite (IH (N.lxor xh xl) (N.lxor yh yl) k k); [|apply BK; now apply small_xor|apply BK; now apply small_xor|lia|lia|now apply small_xor|now apply small_xor|lia]. cbn [obind]. rewrite lift_run; [|lia|now apply nm_small]. cbn [obind].
      assert (SS : small (wd k) (N.lxor (nm (N.lxor xh xl) (N.lxor yh yl)) (nm xl yl))) by (apply small_xor; [apply nm_small; now apply small_xor|now apply nm_small]). rewrite join_run; [|lia|exact SS]. f_equal. rewrite jn_nm by exact SS. rewrite (split_nm x k S1), (split_nm y k S2). fold xh xl yh yl. clearbody xh xl yh yl.
      transitivity (N.lxor (nm (nm xh yh) (nm (fm k) (fm k))) (N.lxor (nm (N.lxor (nm xh yl) (nm xl yh)) (fm k)) (nm xl yl))); [rewrite fm_square; ring|ring]. }
  destruct (N.ltb_spec x y) as [LT|GE].
  - etransitivity; [apply (G y x ly lx); try assumption; lia|]. f_equal. ring.
  - apply (G x y lx ly); assumption.
Qed.
End Word.
