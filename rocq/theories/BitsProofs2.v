(** Lemmas about the bits.h model: population count, log2 tables, reversal, next_combination. *)
From Verif Require Import Lib SegTreeProofs BitsModel BitsSpec BitsProofs.
Local Open Scope Z_scope.

(* ------------------------------------------------------------------ *)
(** population count *)

Lemma ones_0 n : ones n 0 = 0.
Proof. induction n as [|n IH]; cbn [ones]; [reflexivity|]. rewrite IH, Z.testbit_0_l. reflexivity. Qed.

Lemma ones_bound n x : 0 <= ones n x <= Z.of_nat n.
Proof. induction n as [|n IH]; cbn [ones]; [lia|]. destruct (Z.testbit x (Z.of_nat n)); lia. Qed.

Lemma ones_ext n x y : (forall i, 0 <= i < Z.of_nat n -> Z.testbit x i = Z.testbit y i) -> ones n x = ones n y.
Proof.
  induction n as [|n IH]; intros H; cbn [ones]; [reflexivity|].
  rewrite IH by (intros; apply H; lia). now rewrite H by lia.
Qed.

(** splitting into low and high part *)
Lemma ones_app n m x : ones (n + m) x = ones n x + ones m (Z.shiftr x (Z.of_nat n)).
Proof.
  induction m as [|m IH]; [rewrite Nat.add_0_r; cbn [ones]; lia|].
  rewrite Nat.add_succ_r. cbn [ones]. rewrite IH, Z.shiftr_spec by lia.
  rewrite Nat2Z.inj_add, (Z.add_comm (Z.of_nat m)). lia.
Qed.

Lemma ones_succ n x : ones (S n) x = (if Z.odd x then 1 else 0) + ones n (Z.shiftr x 1).
Proof.
  change (S n) with (1 + n)%nat. rewrite ones_app. cbn [ones]. change (Z.of_nat 0) with 0.
  rewrite Z.bit0_odd. change (Z.of_nat 1) with 1. lia.
Qed.

Lemma ones_more n m x : 0 <= x < 2 ^ Z.of_nat n -> (n <= m)%nat -> ones m x = ones n x.
Proof.
  intros H L. replace m with (n + (m - n))%nat by lia. rewrite ones_app.
  rewrite Z.shiftr_div_pow2, Z.div_small, ones_0 by lia. lia.
Qed.

Lemma ones_wrap n x : ones n (wrap (Z.of_nat n) x) = ones n x.
Proof.
  apply ones_ext. intros i Hi. rewrite wrap_testbit by lia. destruct (Z.ltb_spec i (Z.of_nat n)); [reflexivity|lia].
Qed.

(** low part and high part of a sum *)
Lemma ones_concat n m h l : 0 <= l < 2 ^ Z.of_nat n ->
  ones (n + m) (h * 2 ^ Z.of_nat n + l) = ones n l + ones m h.
Proof.
  intros Hl. rewrite ones_app. f_equal.
  - rewrite <- ones_wrap. unfold wrap. rewrite Z.add_comm, Z.mod_add by lia. now rewrite Z.mod_small by lia.
  - f_equal. rewrite Z.shiftr_div_pow2 by lia. rewrite Z.div_add_l by lia. rewrite Z.div_small by lia. lia.
Qed.

Lemma ones_ones n m : (n <= m)%nat -> ones m (2 ^ Z.of_nat n - 1) = Z.of_nat n.
Proof.
  intros L. assert (0 < 2 ^ Z.of_nat n) by (apply Z.pow_pos_nonneg; lia). rewrite (ones_more n m) by lia.
  assert (G : forall i, (i <= n)%nat -> ones i (2 ^ Z.of_nat n - 1) = Z.of_nat i).
  { induction i as [|i IH]; intros Hi; cbn [ones]; [reflexivity|].
    rewrite IH by lia. rewrite Z.sub_1_r, <- Z.ones_equiv, Z.ones_spec_low by lia. lia. }
  now apply G.
Qed.

(** a number whose low n bits are all ones is at least 2^n - 1 *)
Lemma ones_full n x : 0 <= x < 2 ^ Z.of_nat n -> ones n x = Z.of_nat n -> x = 2 ^ Z.of_nat n - 1.
Proof.
  intros H E.
  assert (G : forall i, (i < n)%nat -> Z.testbit x (Z.of_nat i) = true).
  { clear H. revert E. induction n as [|n IH]; intros E i Hi; [lia|]. cbn [ones] in E.
    pose proof (ones_bound n x). destruct (Z.testbit x (Z.of_nat n)) eqn:T; [|lia].
    destruct (Nat.eq_dec i n) as [->|N]; [exact T|]. apply IH; lia. }
  rewrite Z.sub_1_r, <- Z.ones_equiv. apply Z.bits_inj'. intros i Hi.
  destruct (Z.lt_ge_cases i (Z.of_nat n)).
  - rewrite Z.ones_spec_low by lia. replace i with (Z.of_nat (Z.to_nat i)) by lia. apply G. lia.
  - rewrite Z.ones_spec_high by lia. apply (testbit_high x i (Z.of_nat n)); lia.
Qed.

Lemma ones_pos n x : 0 < x < 2 ^ Z.of_nat n -> 0 < ones n x.
Proof.
  intros H. pose proof (ones_bound n x). destruct (Z.eq_dec (ones n x) 0) as [E|E]; [exfalso|lia].
  assert (G : forall i, 0 <= i < Z.of_nat n -> Z.testbit x i = false).
  { clear - E. revert E. induction n as [|n IH]; intros E i Hi; [lia|]. cbn [ones] in E.
    pose proof (ones_bound n x). destruct (Z.testbit x (Z.of_nat n)) eqn:T; [lia|].
    destruct (Z.eq_dec i (Z.of_nat n)) as [->|N]; [exact T|]. apply IH; lia. }
  assert (x = 0); [|lia]. apply Z.bits_inj'. intros i Hi. rewrite Z.testbit_0_l.
  destruct (Z.lt_ge_cases i (Z.of_nat n)); [apply G; lia|]. apply (testbit_high x i (Z.of_nat n)); lia.
Qed.

(* ------------------------------------------------------------------ *)
(** tables filled by the initialiser *)

Lemma nth_error_repeat' {A} (a : A) n i : (i < n)%nat -> nth_error (repeat a n) i = Some a.
Proof. revert i; induction n as [|n IH]; intros [|i] H; cbn; try lia; [reflexivity|]. apply IH. lia. Qed.

Lemma table_spec (lo n : nat) (body : nat -> list Z -> option Z) (f : nat -> Z) :
  (forall i, (i < lo)%nat -> f i = 0) ->
  (forall x t, (lo <= x < n)%nat -> length t = n ->
     (forall i, (i < x)%nat -> nth_error t i = Some (f i)) -> body x t = Some (f x)) ->
  (lo <= n)%nat ->
  exists t, for_range lo n (fun x t => let* r := body x t in set_nth t x r) (repeat 0 n) = Some t /\
    length t = n /\ forall i, (i < n)%nat -> nth_error t i = Some (f i).
Proof.
  intros H0 Hb Hn.
  destruct (for_range_spec (fun x t => length t = n /\ forall i, (i < x)%nat -> nth_error t i = Some (f i))
    (fun x t => let* r := body x t in set_nth t x r) lo n (repeat 0 n)) as (t & E & L & H).
  - exact Hn.
  - split; [apply repeat_length|]. intros i Hi. rewrite H0 by exact Hi. apply nth_error_repeat'. lia.
  - intros x t Hx [L H]. rewrite (Hb x t Hx L H). cbn [obind].
    destruct (set_nth_some t x (f x)) as [t' E]; [lia|]. exists t'. split; [exact E|].
    split; [rewrite (set_nth_length _ _ _ _ E); exact L|]. intros i Hi. rewrite (set_nth_get _ _ _ _ _ E).
    destruct (Nat.eqb_spec x i) as [->|N]; [reflexivity|]. apply H. lia.
  - exists t. auto.
Qed.

Lemma for_n_ext {S} n i (f g : nat -> S -> option S) s : (forall j t, f j t = g j t) -> for_n n i f s = for_n n i g s.
Proof.
  intros H. revert i s. induction n as [|n IH]; intros i s; cbn [for_n]; [reflexivity|].
  rewrite H. destruct (g i s); cbn [obind]; [apply IH|reflexivity].
Qed.

Lemma of_nat_half x : Z.of_nat (x / 2) = Z.shiftr (Z.of_nat x) 1.
Proof. rewrite Z.shiftr_div_pow2 by lia. now rewrite Nat2Z.inj_div. Qed.

Lemma cnt1_table_spec n m : (1 <= n)%nat -> Z.of_nat n <= 2 ^ Z.of_nat m ->
  exists t, cnt1_table n = Some t /\ forall i, (i < n)%nat -> nth_error t i = Some (ones m (Z.of_nat i)).
Proof.
  intros Hn Hm.
  destruct (table_spec 1 n (fun x t => let* a := nth_error t (x / 2) in Some (a + Z.land (Z.of_nat x) 1))
              (fun i => ones m (Z.of_nat i))) as (t & E & L & H).
  - intros i Hi. replace i with 0%nat by lia. apply ones_0.
  - intros x t Hx L H. rewrite H by (apply Nat.div_lt; lia). cbn [obind]. f_equal.
    destruct m as [|m]; [cbn in Hm; lia|].
    assert (Hx2 : 0 <= Z.shiftr (Z.of_nat x) 1 < 2 ^ Z.of_nat m).
    { rewrite Z.shiftr_div_pow2 by lia. change (2 ^ 1) with 2. split; [apply Z.div_pos; lia|].
      apply Z.div_lt_upper_bound; [lia|]. rewrite Nat2Z.inj_succ, Z.pow_succ_r in Hm by lia. lia. }
    rewrite (ones_succ m (Z.of_nat x)). rewrite of_nat_half.
    rewrite (ones_more m (S m) (Z.shiftr (Z.of_nat x) 1) Hx2) by lia.
    change 1 with (Z.ones 1) at 2. rewrite Z.land_ones by lia. change (2 ^ 1) with 2.
    rewrite Zmod_odd. destruct (Z.odd (Z.of_nat x)); lia.
  - exact Hn.
  - exists t. split; [|exact H]. rewrite <- E. unfold cnt1_table, for_range. apply for_n_ext.
    intros j s. destruct (nth_error s (j / 2)); reflexivity.
Qed.

Lemma tbl16_pos : (2 <= tbl16)%nat /\ Z.of_nat tbl16 = 2 ^ 16.
Proof. unfold tbl16. split; lia. Qed.

Lemma cnt1_16 x : word 16 x -> bit_cnt1_16 x = Some (ones 16 x).
Proof.
  intros H. unfold bit_cnt1_16. destruct tbl16_pos as [T1 T2].
  destruct (cnt1_table_spec tbl16 16) as (t & E & G); [lia|lia|]. rewrite E. cbn [obind].
  unfold word in H. rewrite G by lia. now rewrite Z2Nat.id by lia.
Qed.

Global Opaque tbl16 bit_cnt1_16.
Lemma cnt1_32 x : word 32 x -> bit_cnt1_32 x = Some (ones 32 x).
Proof.
  intros H. unfold bit_cnt1_32. rewrite (cnt1_16 (wrap 16 x)), (cnt1_16 (wrap 16 (Z.shiftr x 16))) by (apply wrap_word; lia). cbn [obind].
  f_equal. change 32%nat with (16 + 16)%nat. rewrite ones_app. now rewrite !(ones_wrap 16).
Qed.

Lemma cnt1_64 x : word 64 x -> bit_cnt1_64 x = Some (ones 64 x).
Proof.
  intros H. unfold bit_cnt1_64. rewrite (cnt1_32 (wrap 32 x)), (cnt1_32 (wrap 32 (Z.shiftr x 32))) by (apply wrap_word; lia). cbn [obind].
  f_equal. change 64%nat with (32 + 32)%nat. rewrite ones_app. now rewrite !(ones_wrap 32).
Qed.

(** the four word types: 8, 16, 32, 64 bits *)
Definition word_type (k : nat) : Prop := (3 <= k <= 6)%nat.

Lemma bit_cnt1_spec k x : word_type k -> word (width k) x -> bit_cnt1 k x = Some (popcount (width k) x).
Proof.
  intros Hk H. unfold popcount. assert (k = 3 \/ k = 4 \/ k = 5 \/ k = 6)%nat as [-> | [-> | [-> | ->]]]
    by (unfold word_type in Hk; lia); cbn [bit_cnt1].
  - unfold width in *. change (2 ^ Z.of_nat 3) with 8 in *. rewrite cnt1_16.
    + f_equal. apply (ones_more 8 16); [exact H|lia].
    + unfold word in *. lia.
  - unfold width in *. change (2 ^ Z.of_nat 4) with 16 in *. now apply cnt1_16.
  - unfold width in *. change (2 ^ Z.of_nat 5) with 32 in *. now apply cnt1_32.
  - unfold width in *. change (2 ^ Z.of_nat 6) with 64 in *. now apply cnt1_64.
Qed.

Lemma width_nat k : Z.of_nat (Z.to_nat (width k)) = width k.
Proof. pose proof (width_pos k). lia. Qed.

Lemma popcount_ones k c : 0 <= c <= width k -> popcount (width k) (2 ^ c - 1) = c.
Proof.
  intros H. unfold popcount. pose proof (width_pos k). rewrite <- (Z2Nat.id c) at 1 by lia.
  rewrite ones_ones by lia. lia.
Qed.

Lemma pow2_word W c : 0 <= c < W -> word W (2 ^ c).
Proof. intros H. split; [apply Z.pow_nonneg; lia|]. apply Z.pow_lt_mono_r; lia. Qed.

Lemma ones_word W c : 0 <= c <= W -> word W (2 ^ c - 1).
Proof.
  intros H. assert (0 < 2 ^ c) by (apply Z.pow_pos_nonneg; lia).
  assert (2 ^ c <= 2 ^ W) by (apply Z.pow_le_mono_r; lia). unfold word. lia.
Qed.

Lemma highest_lt_width W x h : 0 <= W -> word W x -> highest x h -> h < W.
Proof.
  intros HW Hx (H0 & H1 & _). destruct (Z.lt_ge_cases h W) as [L|L]; [exact L|].
  rewrite (word_testbit W x h) in H1; [discriminate|exact Hx|exact HW|exact L].
Qed.
Lemma lowest_lt_width W x h : 0 <= W -> word W x -> lowest x h -> h < W.
Proof.
  intros HW Hx (H0 & H1 & _). destruct (Z.lt_ge_cases h W) as [L|L]; [exact L|].
  rewrite (word_testbit W x h) in H1; [discriminate|exact Hx|exact HW|exact L].
Qed.

Lemma lzc_highest k x h : word_type k -> word (width k) x -> highest x h -> lzc k x = Some (width k - 1 - h).
Proof.
  intros Hk Hx Hh. unfold lzc. pose proof (width_pos k). rewrite (or_down_highest k x h Hx Hh).
  assert (h < width k) by (apply (highest_lt_width _ x); [lia|exact Hx|exact Hh]). destruct Hh as [Hh0 _].
  rewrite bit_cnt1_spec by (exact Hk || apply ones_word; lia). cbn [obind]. rewrite popcount_ones by lia. f_equal. lia.
Qed.
Lemma lzc_0 k : word_type k -> lzc k 0 = Some (width k).
Proof.
  intros Hk. unfold lzc. rewrite or_down_0. pose proof (width_pos k). rewrite bit_cnt1_spec.
  - cbn [obind]. unfold popcount. rewrite ones_0. f_equal. lia.
  - exact Hk.
  - split; [lia|]. apply Z.pow_pos_nonneg; lia.
Qed.

Lemma lowest_pow2 x i : 0 < x -> lowest x i -> exists m, 0 <= m /\ x = 2 ^ i * (2 * m + 1).
Proof.
  intros H Hi. destruct (split_pow2 x H) as (a & m & Ha & Hm & ->).
  rewrite (lowest_unique _ _ _ Hi (lowest_spec a m Ha Hm)). eauto.
Qed.

Lemma lowest_pos x i : lowest x i -> word (i + 1) x \/ x <> 0.
Proof. intros (H0 & H1 & _). right. intros ->. now rewrite Z.testbit_0_l in H1. Qed.

Lemma lo_bit_lowest W x i : 0 <= W -> word W x -> lowest x i -> lo_bit W x = 2 ^ i.
Proof.
  intros HW Hx Hi. assert (0 < x).
  { destruct Hi as (H0 & H1 & _). destruct (Z.eq_dec x 0) as [->|N]; [now rewrite Z.testbit_0_l in H1|].
    unfold word in Hx. lia. }
  destruct (lowest_pow2 x i) as (m & Hm & ->); [assumption|exact Hi|]. apply lo_bit_spec; [exact HW|exact Hx|apply Hi].
Qed.

Lemma tzc_lowest k x i : word_type k -> word (width k) x -> lowest x i -> tzc k x = Some i.
Proof.
  intros Hk Hx Hi. pose proof (width_pos k). unfold tzc. rewrite (lo_bit_lowest _ x i) by (exact Hx || exact Hi || lia).
  assert (i < width k) by (apply (lowest_lt_width _ x); [lia|exact Hx|exact Hi]). destruct Hi as [Hi0 _].
  rewrite wrap_small by (apply ones_word; lia). rewrite bit_cnt1_spec by (exact Hk || apply ones_word; lia).
  now rewrite popcount_ones by lia.
Qed.
Lemma tzc_0 k : word_type k -> tzc k 0 = Some (width k).
Proof.
  intros Hk. pose proof (width_pos k). unfold tzc. rewrite lo_bit_0 by lia.
  replace (wrap (width k) (0 - 1)) with (2 ^ width k - 1).
  - rewrite bit_cnt1_spec by (exact Hk || apply ones_word; lia). now rewrite popcount_ones by lia.
  - unfold wrap. assert (0 < 2 ^ width k) by (apply Z.pow_pos_nonneg; lia).
    apply Z.mod_unique with (q := -1); lia.
Qed.

(* ------------------------------------------------------------------ *)
(** ilog2 *)

Lemma ilog2_table_spec n : (2 <= n)%nat ->
  exists t, ilog2_table n = Some t /\ forall i, (i < n)%nat -> nth_error t i = Some (Z.log2 (Z.of_nat i)).
Proof.
  intros Hn.
  destruct (table_spec 2 n (fun x t => let* a := nth_error t (x / 2) in Some (a + 1))
              (fun i => Z.log2 (Z.of_nat i))) as (t & E & L & H).
  - intros i Hi. assert (i = 0 \/ i = 1)%nat as [->| ->] by lia; reflexivity.
  - intros x t Hx L H. rewrite H by (apply Nat.div_lt; lia). cbn [obind]. f_equal.
    rewrite of_nat_half. rewrite Z.log2_shiftr by lia.
    assert (1 <= Z.log2 (Z.of_nat x)) by (apply (Z.log2_le_mono 2); lia). lia.
  - exact Hn.
  - exists t. split; [|exact H]. rewrite <- E. unfold ilog2_table, for_range. apply for_n_ext.
    intros j s. destruct (nth_error s (j / 2)); reflexivity.
Qed.

Lemma ilog2_16_spec x : word 16 x -> ilog2_16 x = Some (Z.log2 x).
Proof.
  intros H. unfold ilog2_16. destruct tbl16_pos as [T1 T2].
  destruct (ilog2_table_spec tbl16) as (t & E & G); [lia|]. rewrite E. cbn [obind].
  unfold word in H. rewrite G by lia. now rewrite Z2Nat.id by lia.
Qed.

Lemma sweep (n : nat) (P : Z -> bool) :
  forallb P (map Z.of_nat (seq 0 n)) = true -> forall z, 0 <= z < Z.of_nat n -> P z = true.
Proof.
  intros H z Hz. rewrite forallb_forall in H. apply H. apply in_map_iff. exists (Z.to_nat z).
  split; [lia|]. apply in_seq. lia.
Qed.

Lemma ilog2_32_spec x : word 32 x -> ilog2_32 x = Some (Z.log2 x).
Proof.
  intros H. unfold ilog2_32. destruct (Z.eq_dec x 0) as [->|N].
  - rewrite or_down_0. reflexivity.
  - rewrite (or_down_log2 5 x) by (exact H || unfold word in H; lia).
    assert (B : 0 <= Z.log2 x < 32).
    { split; [apply Z.log2_nonneg|]. apply Z.log2_lt_pow2; [unfold word in H; lia|apply H]. }
    pose proof (sweep 32 (fun l => match nth_error tbl_ilog2_32 (Z.to_nat (Z.shiftr (wrap 32 ((2 ^ (l + 1) - 1) * 0x07C4ACDD)) 27))
      with Some r => r =? l | None => false end)) as S.
    specialize (S ltac:(vm_compute; reflexivity) (Z.log2 x) B). cbv beta in S.
    destruct (nth_error _ _) as [r|]; [|discriminate]. apply Z.eqb_eq in S. now subst.
Qed.

Lemma ilog2_64_spec x : word 64 x -> ilog2_64 x = Some (Z.log2 x).
Proof.
  intros H. unfold ilog2_64. destruct (Z.eq_dec x 0) as [->|N].
  - rewrite or_down_0. reflexivity.
  - rewrite (or_down_log2 6 x) by (exact H || unfold word in H; lia).
    assert (B : 0 <= Z.log2 x < 64).
    { split; [apply Z.log2_nonneg|]. apply Z.log2_lt_pow2; [unfold word in H; lia|apply H]. }
    pose proof (sweep 64 (fun l => match nth_error tbl_ilog2_64 (Z.to_nat (Z.shiftr (wrap 64 ((2 ^ (l + 1) - 1) * 0x03f6eaf2cd271461)) 58))
      with Some r => r =? l | None => false end)) as S.
    specialize (S ltac:(vm_compute; reflexivity) (Z.log2 x) B). cbv beta in S.
    destruct (nth_error _ _) as [r|]; [|discriminate]. apply Z.eqb_eq in S. now subst.
Qed.

Lemma ilog2_spec k x : word_type k -> word (width k) x -> ilog2 k x = Some (Z.log2 x).
Proof.
  intros Hk H. assert (k = 3 \/ k = 4 \/ k = 5 \/ k = 6)%nat as [-> | [-> | [-> | ->]]]
    by (unfold word_type in Hk; lia); cbn [ilog2]; unfold width in *.
  - change (2 ^ Z.of_nat 3) with 8 in *. apply ilog2_16_spec. unfold word in *. lia.
  - now apply ilog2_16_spec.
  - now apply ilog2_32_spec.
  - now apply ilog2_64_spec.
Qed.

(* ------------------------------------------------------------------ *)
(** bit_reverse *)

Definition is_rev (W x r : Z) : Prop :=
  word W r /\ forall i, 0 <= i < W -> Z.testbit r i = Z.testbit x (W - 1 - i).

Lemma rev_8_ x : word 8 x -> exists r, bit_reverse_8_ x = Some r /\ is_rev 8 x r.
Proof.
  intros H.
  assert (S := sweep 256 (fun x => match bit_reverse_8_ x with
    | Some r => (0 <=? r) && (r <? 256) && forallb (fun i => Bool.eqb (Z.testbit r i) (Z.testbit x (7 - i))) (map Z.of_nat (seq 0 8))
    | None => false end) ltac:(vm_compute; reflexivity) x H).
  cbv beta in S. destruct (bit_reverse_8_ x) as [r|]; [|discriminate]. exists r. split; [reflexivity|].
  apply andb_true_iff in S as [S1 S]. apply andb_true_iff in S1 as [S1 S2].
  split; [unfold word; change (2 ^ 8) with 256; lia|].
  intros i Hi. apply eqb_prop. change (8 - 1 - i) with (7 - i). exact (sweep 8 _ S i Hi).
Qed.

Lemma is_rev_unique W x r s : 0 <= W -> is_rev W x r -> is_rev W x s -> r = s.
Proof.
  intros HW [R1 R2] [S1 S2]. apply Z.bits_inj'. intros i Hi. destruct (Z.lt_ge_cases i W).
  - now rewrite R2, S2 by lia.
  - now rewrite (word_testbit W r), (word_testbit W s) by assumption.
Qed.

Lemma is_rev_0 W : 0 <= W -> is_rev W 0 0.
Proof.
  intros HW. split; [split; [lia|apply Z.pow_pos_nonneg; lia]|]. intros. now rewrite !Z.testbit_0_l.
Qed.

(** a table filled with reversals *)
Lemma rev_table (n : nat) W (f : Z -> option Z) : 0 <= W -> (1 <= n)%nat ->
  (forall x, 0 <= x < Z.of_nat n -> exists r, f x = Some r /\ is_rev W x r) ->
  exists t, for_range 1 n (fun x t => let* r := f (Z.of_nat x) in set_nth t x r) (repeat 0 n) = Some t /\
    forall x, 0 <= x < Z.of_nat n -> exists r, nth_error t (Z.to_nat x) = Some r /\ is_rev W x r.
Proof.
  intros HW Hn Hf.
  destruct (table_spec 1 n (fun x _ => f (Z.of_nat x)) (fun i => match f (Z.of_nat i) with Some r => r | None => 0 end))
    as (t & E & L & H).
  - intros i Hi. replace i with 0%nat by lia. change (Z.of_nat 0) with 0. destruct (Hf 0) as (r & -> & R); [lia|].
    apply (is_rev_unique W 0); [exact HW|exact R|now apply is_rev_0].
  - intros x t Hx _ _. destruct (Hf (Z.of_nat x)) as (r & -> & R); [lia|reflexivity].
  - exact Hn.
  - exists t. split; [exact E|]. intros x Hx. destruct (Hf x Hx) as (r & Er & R). exists r. split; [|exact R].
    rewrite H by lia. rewrite Z2Nat.id, Er by lia. reflexivity.
Qed.

Lemma rev_8 x : word 8 x -> exists r, bit_reverse_8 x = Some r /\ is_rev 8 x r.
Proof.
  intros H. unfold bit_reverse_8, tbl_rev_8.
  destruct (rev_table 256 8 bit_reverse_8_) as (t & E & G); [lia|lia|intros; now apply rev_8_|].
  rewrite E. cbn [obind]. now apply G.
Qed.

(** reversal of a double word out of the reversals of its halves *)
Lemma rev_double W x a b : 0 <= W -> is_rev W (wrap W x) a -> is_rev W (wrap W (Z.shiftr x W)) b ->
  is_rev (2 * W) x (Z.lor (Z.shiftl a W) b).
Proof.
  intros HW [A1 A2] [B1 B2]. split.
  - apply word_of_bits; [lia|]. intros i Hi. rewrite Z.lor_spec, Z.shiftl_spec by lia.
    rewrite (word_testbit W a), (word_testbit W b) by (assumption || lia). reflexivity.
  - intros i Hi. rewrite Z.lor_spec, Z.shiftl_spec by lia. destruct (Z.lt_ge_cases i W) as [L|L].
    + rewrite B2, Z.testbit_neg_r by lia. cbn [orb]. rewrite wrap_testbit by lia.
      destruct (Z.ltb_spec (W - 1 - i) W); [|lia]. cbn [andb]. rewrite Z.shiftr_spec by lia. f_equal. lia.
    + rewrite (word_testbit W b) by (assumption || lia). rewrite orb_false_r. rewrite A2 by lia.
      rewrite wrap_testbit by lia. destruct (Z.ltb_spec (W - 1 - (i - W)) W); [|lia]. cbn [andb]. f_equal. lia.
Qed.

Lemma rev_16_ x : exists r, bit_reverse_16_ x = Some r /\ is_rev 16 x r.
Proof.
  unfold bit_reverse_16_. destruct (rev_8 (wrap 8 x)) as (a & Ea & Ra); [apply wrap_word; lia|].
  destruct (rev_8 (wrap 8 (Z.shiftr x 8))) as (b & Eb & Rb); [apply wrap_word; lia|].
  rewrite Ea, Eb. cbn [obind]. eexists. split; [reflexivity|]. apply (rev_double 8 x a b); [lia|exact Ra|exact Rb].
Qed.

Lemma rev_16 x : word 16 x -> exists r, bit_reverse_16 x = Some r /\ is_rev 16 x r.
Proof.
  intros H. unfold bit_reverse_16, rev_16_table. destruct tbl16_pos as [T1 T2].
  destruct (rev_table tbl16 16 bit_reverse_16_) as (t & E & G); [lia|lia|intros; apply rev_16_|].
  rewrite E. cbn [obind]. apply G. rewrite T2. exact H.
Qed.

Lemma rev_32 x : exists r, bit_reverse_32 x = Some r /\ is_rev 32 x r.
Proof.
  unfold bit_reverse_32. destruct (rev_16 (wrap 16 x)) as (a & Ea & Ra); [apply wrap_word; lia|].
  destruct (rev_16 (wrap 16 (Z.shiftr x 16))) as (b & Eb & Rb); [apply wrap_word; lia|].
  rewrite Ea, Eb. cbn [obind]. eexists. split; [reflexivity|]. apply (rev_double 16 x a b); [lia|exact Ra|exact Rb].
Qed.

Lemma rev_64 x : exists r, bit_reverse_64 x = Some r /\ is_rev 64 x r.
Proof.
  unfold bit_reverse_64. destruct (rev_32 (wrap 32 x)) as (a & Ea & Ra).
  destruct (rev_32 (wrap 32 (Z.shiftr x 32))) as (b & Eb & Rb).
  rewrite Ea, Eb. cbn [obind]. eexists. split; [reflexivity|]. apply (rev_double 32 x a b); [lia|exact Ra|exact Rb].
Qed.

Lemma bit_reverse_spec k x : word_type k -> word (width k) x -> exists r, bit_reverse k x = Some r /\ is_rev (width k) x r.
Proof.
  intros Hk H. assert (k = 3 \/ k = 4 \/ k = 5 \/ k = 6)%nat as [-> | [-> | [-> | ->]]]
    by (unfold word_type in Hk; lia); cbn [bit_reverse]; unfold width in *.
  - now apply rev_8.
  - now apply rev_16.
  - apply rev_32.
  - apply rev_64.
Qed.
