(** Bit vectors: hamming distance, comparison, conversion to a string. *)
From Verif Require Import Lib BitsModel BitsSpec BitsProofs BitsProofs2 BitVecModel BitVecSpec BitVecProofs BitVecProofs2 BitVecProofs3.
Open Scope nat_scope.

Lemma zip_app f a b c d : length a = length b -> zip f (a ++ c) (b ++ d) = zip f a b ++ zip f c d.
Proof. revert b. induction a as [|x a IH]; intros [|y b] H; cbn in H |- *; try lia; [reflexivity|]. f_equal. apply IH. lia. Qed.
Lemma firstn_S {A} n (l : list A) d : n < length l -> firstn (S n) l = firstn n l ++ [nth n l d].
Proof. revert l. induction n as [|n IH]; intros [|x l] H; cbn [length] in H; try lia; [reflexivity|]. cbn [firstn nth app]. f_equal. apply IH. lia. Qed.
Lemma differences_S n a b : n < length a -> n < length b -> differences (firstn (S n) a) (firstn (S n) b) = differences (firstn n a) (firstn n b) + (if xorb (nth n a false) (nth n b false) then 1 else 0).
Proof.
  intros Ha Hb. rewrite !(firstn_S n _ false) by assumption. unfold differences. rewrite zip_app by (rewrite !firstn_length; lia). rewrite filter_app, app_length. cbn [zip filter]. destruct (xorb (nth n a false) (nth n b false)); reflexivity.
Qed.
Lemma ones_S n x : ones (S n) x = (ones n x + if tb x n then 1 else 0)%Z.
Proof. reflexivity. Qed.
Lemma ones_low (l d : nat) x : (forall j, l <= j -> tb x j = false) -> ones (l + d) x = ones l x.
Proof. intros H. induction d as [|d IH]; [now rewrite Nat.add_0_r|]. rewrite Nat.add_succ_r, ones_S, IH, H by lia. lia. Qed.
Lemma lex_diff n : forall a b, n < length a -> n < length b -> firstn n a = firstn n b -> nth n a false <> nth n b false -> lex a b = (if nth n b false then -1 else 1)%Z.
Proof.
  induction n as [|n IH]; intros [|x a] [|y b] Ha Hb E N; cbn [length] in *; try lia.
  - cbn [nth] in *. cbn [lex]. destruct x, y; cbn; try reflexivity; congruence.
  - cbn [firstn] in E. injection E as <- E. cbn [nth] in *. cbn [lex]. rewrite Bool.eqb_reflx. apply IH; auto; lia.
Qed.
Lemma lex_same a b : firstn (Nat.min (length a) (length b)) a = firstn (Nat.min (length a) (length b)) b -> lex a b = (if length a =? length b then 0%Z else if length a <? length b then (-1)%Z else 1%Z).
Proof.
  revert b. induction a as [|x a IH]; intros [|y b] E; try reflexivity. cbn [length Nat.min firstn] in E. injection E as <- E. cbn [lex length]. rewrite Bool.eqb_reflx. change (S (length a) =? S (length b)) with (length a =? length b). change (S (length a) <? S (length b)) with (length a <? length b). now apply IH.
Qed.
Lemma firstn_eq_nth (a b : list bool) n l : n + l <= length a -> n + l <= length b -> firstn n a = firstn n b -> (forall j, j < l -> nth (n + j) a false = nth (n + j) b false) -> firstn (n + l) a = firstn (n + l) b.
Proof.
  intros Ha Hb E. induction l as [|l IH]; intros H; [now rewrite Nat.add_0_r|]. rewrite Nat.add_succ_r, !(firstn_S (n + l) _ false) by lia. rewrite IH by (try lia; intros j Hj; apply H; lia). f_equal. f_equal. apply H. lia.
Qed.
Lemma lt_by_bits a b h : (0 <= a)%Z -> (0 <= b)%Z -> tb a h = false -> tb b h = true -> (forall j, h < j -> tb a j = tb b j) -> (a < b)%Z.
Proof.
  intros Ha Hb A B H. assert (X : (Z.shiftr a (Z.of_nat h) < Z.shiftr b (Z.of_nat h))%Z).
  { assert (E : Z.shiftr a (Z.of_nat (S h)) = Z.shiftr b (Z.of_nat (S h))). { apply Z.bits_inj'. intros n Hn. rewrite !Z.shiftr_spec by lia. specialize (H (Z.to_nat n + S h) ltac:(lia)). unfold tb in H. replace (Z.of_nat (Z.to_nat n + S h)) with (n + Z.of_nat (S h))%Z in H by lia. exact H. }
    assert (D : forall x, Z.shiftr x (Z.of_nat h) = (2 * Z.shiftr x (Z.of_nat (S h)) + if tb x h then 1 else 0)%Z). { intros x. replace (Z.of_nat (S h)) with (Z.of_nat h + 1)%Z by lia. rewrite <- Z.shiftr_shiftr by lia. set (y := Z.shiftr x (Z.of_nat h)). assert (T : tb x h = Z.odd y) by (unfold tb, y; rewrite <- Z.bit0_odd, Z.shiftr_spec by lia; f_equal; lia). rewrite T. rewrite (Z.div2_odd y) at 1. rewrite Z.div2_spec. destruct (Z.odd y); reflexivity. }
    rewrite (D a), (D b), A, B, E. lia. }
  destruct (Z_lt_le_dec a b); [assumption|]. exfalso. assert (Z.shiftr b (Z.of_nat h) <= Z.shiftr a (Z.of_nat h))%Z; [|lia]. rewrite !Z.shiftr_div_pow2 by lia. apply Z.div_le_mono; [|lia]. apply Z.pow_pos_nonneg; lia.
Qed.
Lemma first_diff (P : nat -> bool) n : P n = true -> exists m, m <= n /\ P m = true /\ forall j, j < m -> P j = false.
Proof.
  induction n as [n IH] using lt_wf_ind. intros H. destruct (existsb P (seq 0 n)) eqn:E.
  - apply existsb_exists in E as (m & Hm & Em). apply in_seq in Hm. destruct (IH m ltac:(lia) Em) as (r & A & B). exists r. split; [lia|exact B].
  - exists n. split; [lia|]. split; [exact H|]. intros j Hj. destruct (P j) eqn:Ej; [|reflexivity]. assert (X : existsb P (seq 0 n) = true); [|congruence]. apply existsb_exists. exists j. split; [apply in_seq; lia|exact Ej].
Qed.

Section R.
Variable k : nat.
Notation L := (L k). Notation W := (W k). Notation bt := (bt k). Notation wf := (wf k). Notation wd := (wd k).
Notation nw := (num_words k).
Hypothesis HK : word_type k.

(** masking to l bits *)
Lemma mask_run w l : wd w -> l <= L -> exists r, (if l <? L then let* m := first_bits k l in Some (Z.land w m) else Some w) = Some r /\ wd r /\ forall j, tb r j = (j <? l) && tb w j.
Proof.
  intros Hw Hl. destruct (Nat.ltb_spec l L).
  - destruct (first_bits_run k l H) as (m & -> & Wm & Tm). cbn [obind]. eexists. split; [reflexivity|]. split; [now apply land_wd|]. intros j. rewrite land_tb, Tm. apply andb_comm.
  - eexists. split; [reflexivity|]. split; [exact Hw|]. intros j. destruct (Nat.ltb_spec j l); [reflexivity|]. cbn [andb]. apply (wd_high k); [exact Hw|lia].
Qed.
Lemma cnt_run w : wd w -> bit_cnt1 k w = Some (ones L w).
Proof. intros Hw. rewrite bit_cnt1_spec by assumption. unfold popcount. do 2 f_equal. pose proof (W_L k) as E. unfold BitVecModel.W in E. rewrite E. apply Nat2Z.id. Qed.
Lemma hamming_run v1 l1 b1 v2 l2 b2 len : represents k v1 l1 -> represents k v2 l2 -> b1 + len <= length l1 -> b2 + len <= length l2 ->
  bv_hamming k v1 b1 v2 b2 len = Some (Z.of_nat (differences (slice b1 (b1 + len) l1) (slice b2 (b2 + len) l2))).
Proof.
  intros R1 R2 H1 H2. unfold bv_hamming. set (A := slice b1 (b1 + len) l1). set (B := slice b2 (b2 + len) l2). assert (LA : length A = len) by (unfold A; rewrite slice_length by lia; lia). assert (LB : length B = len) by (unfold B; rewrite slice_length by lia; lia).
  match goal with |- context [bv_scan2 k _ _ _ _ _ ?g _] => destruct (scan2_run k v1 l1 b1 v2 l2 b2 len g 0%Z (fun n d => d = Z.of_nat (differences (firstn n A) (firstn n B))) (fun _ => False) R1 R2 H1 H2) as (r & d & E & H) end; [reflexivity| |].
  - intros d w x pos l Ww Wx Hl Hp T ->. destruct (mask_run (Z.lxor w x) l) as (y & -> & Wy & Ty); [now apply lxor_wd|exact Hl|]. cbn [obind]. rewrite cnt_run by exact Wy. cbn [obind]. eexists _, _. split; [reflexivity|]. cbv beta iota.
    assert (O : ones L y = ones l y) by (replace L with (l + (L - l)) by lia; apply ones_low; intros j Hj; rewrite Ty; destruct (Nat.ltb_spec j l); [lia|reflexivity]). rewrite O.
    assert (G : forall m, m <= l -> Z.of_nat (differences (firstn (pos + m) A) (firstn (pos + m) B)) = (Z.of_nat (differences (firstn pos A) (firstn pos B)) + ones m y)%Z).
    { induction m as [|m IH]; intros Hm; [rewrite Nat.add_0_r; cbn [ones]; lia|]. rewrite Nat.add_succ_r, differences_S by lia. rewrite ones_S, Ty. destruct (Nat.ltb_spec m l); [|lia]. cbn [andb]. rewrite lxor_tb. destruct (T m ltac:(lia)) as (-> & ->). rewrite Nat2Z.inj_add, IH by lia. unfold A, B. rewrite !slice_nth by lia. destruct (xorb _ _); lia. }
    rewrite G by lia. reflexivity.
  - rewrite E. cbn [obind]. destruct r; [|contradiction]. rewrite H. rewrite (firstn_all2 A), (firstn_all2 B) by lia. reflexivity.
Qed.
Lemma rev_compare x y rx ry m : wd x -> wd y -> is_rev W x rx -> is_rev W y ry -> m < L -> tb x m <> tb y m -> (forall j, j < m -> tb x j = tb y j) -> (rx <? ry)%Z = tb y m.
Proof.
  intros Wx Wy (Rx & Tx) (Ry & Ty) Hm N Eq. assert (T : forall z rz, (forall i, (0 <= i < W)%Z -> Z.testbit rz i = Z.testbit z (W - 1 - i)) -> forall j, j < L -> tb rz j = tb z (L - 1 - j)). { intros z rz H j Hj. unfold tb. rewrite H by (rewrite W_L; lia). f_equal. rewrite W_L. lia. }
  pose proof (T x rx Tx) as T1. pose proof (T y ry Ty) as T2. clear T Tx Ty. assert (G : forall a b ra rb, wd ra -> wd rb -> (forall j, j < L -> tb ra j = tb a (L - 1 - j)) -> (forall j, j < L -> tb rb j = tb b (L - 1 - j)) -> tb a m = false -> tb b m = true -> (forall j, j < m -> tb a j = tb b j) -> (ra < rb)%Z).
  { intros a b ra rb Wa Wb Ta Tb A B E. apply (lt_by_bits ra rb (L - 1 - m)); [apply Wa|apply Wb|rewrite Ta by lia; replace (L - 1 - (L - 1 - m)) with m by lia; exact A|rewrite Tb by lia; replace (L - 1 - (L - 1 - m)) with m by lia; exact B|]. intros j Hj. destruct (Nat.lt_ge_cases j L); [rewrite Ta, Tb by lia; apply E; lia|]. now rewrite !(wd_high k). }
  destruct (tb x m) eqn:Ex, (tb y m) eqn:Ey; try congruence.
  - apply Z.ltb_ge. apply Z.lt_le_incl. apply (G y x); auto. intros j Hj. symmetry. auto.
  - apply Z.ltb_lt. apply (G x y); auto.
Qed.
Lemma compare_run v1 l1 b1 e1 v2 l2 b2 e2 : represents k v1 l1 -> represents k v2 l2 -> b1 <= e1 -> e1 <= length l1 -> b2 <= e2 -> e2 <= length l2 ->
  bv_compare k v1 b1 e1 v2 b2 e2 = Some (lex (slice b1 e1 l1) (slice b2 e2 l2)).
Proof.
  intros R1 R2 G1 H1 G2 H2. unfold bv_compare. set (A := slice b1 e1 l1). set (B := slice b2 e2 l2). assert (LA : length A = e1 - b1) by (unfold A; rewrite slice_length by lia; lia). assert (LB : length B = e2 - b2) by (unfold B; rewrite slice_length by lia; lia). set (len := Nat.min (e1 - b1) (e2 - b2)).
  match goal with |- context [bv_scan2 k _ _ _ _ _ ?g _] => destruct (scan2_run k v1 l1 b1 v2 l2 b2 len g 0%Z (fun n d => d = 0%Z /\ firstn n A = firstn n B) (fun d => exists n, n < len /\ firstn n A = firstn n B /\ nth n A false <> nth n B false /\ d = (if nth n B false then -1 else 1)%Z) R1 R2) as (r & d & E & H) end; [lia|lia|split; reflexivity| |].
  - intros d w x pos l Ww Wx Hl Hp T (-> & Eq). destruct (mask_run w l Ww Hl) as (w' & -> & Ww' & Tw'). cbn [obind]. destruct (mask_run x l Wx Hl) as (x' & -> & Wx' & Tx'). cbn [obind].
    assert (TA : forall j, j < l -> tb w' j = nth (pos + j) A false) by (intros j Hj; rewrite Tw'; destruct (Nat.ltb_spec j l); [|lia]; cbn [andb]; rewrite (proj1 (T j Hj)); unfold A; rewrite slice_nth by lia; reflexivity).
    assert (TB : forall j, j < l -> tb x' j = nth (pos + j) B false) by (intros j Hj; rewrite Tx'; destruct (Nat.ltb_spec j l); [|lia]; cbn [andb]; rewrite (proj2 (T j Hj)); unfold B; rewrite slice_nth by lia; reflexivity).
    destruct (Z.eqb_spec w' x') as [Ewx|Nwx].
    + eexists _, _. split; [reflexivity|]. cbv beta iota. split; [reflexivity|]. apply firstn_eq_nth; [lia|lia|exact Eq|]. intros j Hj. rewrite <- TA, <- TB, Ewx by exact Hj. reflexivity.
    + destruct (bit_reverse_spec k w' HK Ww') as (r1 & -> & Q1). cbn [obind]. destruct (bit_reverse_spec k x' HK Wx') as (r2 & -> & Q2). cbn [obind]. eexists _, _. split; [reflexivity|]. cbv beta iota.
      assert (X : exists n, n < l /\ xorb (tb w' n) (tb x' n) = true). { destruct (existsb (fun n => xorb (tb w' n) (tb x' n)) (seq 0 l)) eqn:Ex; [apply existsb_exists in Ex as (n & Hn & En); apply in_seq in Hn; exists n; split; [lia|exact En]|]. exfalso. apply Nwx. apply (wd_ext k); [exact Ww'|exact Wx'|]. intros j Hj. rewrite Tw', Tx'. destruct (Nat.ltb_spec j l); [|reflexivity]. cbn [andb]. assert (Y : xorb (tb w' j) (tb x' j) = false). { destruct (xorb (tb w' j) (tb x' j)) eqn:EE; [|reflexivity]. assert (Z : existsb (fun n => xorb (tb w' n) (tb x' n)) (seq 0 l) = true); [|congruence]. apply existsb_exists. exists j. split; [apply in_seq; lia|exact EE]. } apply xorb_eq in Y. rewrite Tw', Tx' in Y. destruct (Nat.ltb_spec j l); [exact Y|lia]. }
      destruct X as (n & Hn & En). destruct (first_diff (fun n => xorb (tb w' n) (tb x' n)) n En) as (m & Hm & Em & Mm). assert (Nm : tb w' m <> tb x' m) by (intros E'; rewrite E', xorb_nilpotent in Em; discriminate). assert (Mm' : forall j, j < m -> tb w' j = tb x' j) by (intros j Hj; apply xorb_eq; now apply Mm).
      exists (pos + m). split; [lia|]. split; [apply firstn_eq_nth; [lia|lia|exact Eq|]; intros j Hj; rewrite <- TA, <- TB by lia; now apply Mm'|]. rewrite <- TA, <- TB by lia. split; [exact Nm|]. rewrite (rev_compare w' x' r1 r2 m); auto. lia.
  - rewrite E. cbn [obind]. destruct r.
    + destruct H as (-> & H). cbn [Z.eqb negb]. rewrite (lex_same A B); rewrite LA, LB; [|exact H]. destruct (Nat.eqb_spec (e1 - b1) (e2 - b2)); [reflexivity|]. cbn [negb]. reflexivity.
    + destruct H as (n & Hn & Eq & Nn & ->). rewrite (lex_diff n A B) by (try assumption; lia). destruct (nth n B false); reflexivity.
Qed.

Definition char_of (x : bool) : Z := if x then 49%Z else 48%Z.
Lemma to_string_run v l b e : represents k v l -> b <= e -> e <= length l -> bv_to_string k v b e = Some (map char_of (slice b e l)).
Proof.
  intros R Hb He. apply rep_elim in R as (R1 & R2 & R3 & R4). pose proof (L_pos k) as LP. unfold bv_to_string. set (T := (e - b + L - 1) / L). destruct (nw_bounds k (e - b)) as (N1 & N2 & _). change (nw (e - b)) with T in N1, N2.
  match goal with |- context [for_range 0 T ?g ?s0] => destruct (for_range_spec (fun t s => s = map (fun q => char_of (bt (snd v) (b + q))) (seq 0 (t * L))) g 0 T s0) as (s & -> & Hs) end.
  - lia.
  - reflexivity.
  - intros t s Ht ->. destruct (word_at_run k (snd v) (b + t * L) R3) as (w & -> & Ww & Tw); [apply (read_ok k (length l)); [exact R2|]; assert (t * L <= (T - 1) * L) by nia; lia|]. cbn [obind].
    match goal with |- context [for_range 0 L ?g ?s0] => destruct (for_range_spec (fun j '(s, x) => s = map (fun q => char_of (bt (snd v) (b + q))) (seq 0 (t * L + j)) /\ x = Z.shiftr w (Z.of_nat j)) g 0 L s0) as ([s x] & -> & Hs & _) end.
    + lia.
    + rewrite Nat.add_0_r. split; [reflexivity|]. symmetry. apply Z.shiftr_0_r.
    + intros j [s x] Hj (-> & ->). eexists. split; [reflexivity|]. cbv beta iota. split; [|rewrite Z.shiftr_shiftr by lia; f_equal; lia]. rewrite Nat.add_succ_r, seq_S, map_app. cbn [map Nat.add]. do 2 f_equal. rewrite land1. rewrite <- Z.bit0_odd, Z.shiftr_spec by lia. cbn [Z.add]. fold (tb w j). rewrite (Tw j) by lia. rewrite Nat.add_assoc. unfold char_of. destruct (bt (snd v) (b + t * L + j)); reflexivity.
    + cbn [obind]. eexists. split; [reflexivity|]. rewrite Hs. do 2 f_equal. lia.
  - cbn [obind]. f_equal. rewrite Hs. rewrite firstn_map. assert (FS : firstn (e - b) (seq 0 (T * L)) = seq 0 (e - b)) by (replace (T * L) with ((e - b) + (T * L - (e - b))) by lia; rewrite seq_app, firstn_app, seq_length, Nat.sub_diag, firstn_O, app_nil_r; rewrite <- (seq_length (e - b) 0) at 1; apply firstn_all).
    rewrite FS. clear Hs. apply (nth_ext _ _ 48%Z 48%Z); [rewrite !map_length, seq_length, slice_length by lia; reflexivity|]. rewrite map_length, seq_length. intros q Hq. change 48%Z with (char_of false). rewrite map_nth. rewrite (nth_indep _ _ (char_of (bt (snd v) (b + 0)))) by (rewrite map_length, seq_length; exact Hq). rewrite (map_nth (fun q => char_of (bt (snd v) (b + q)))). rewrite seq_nth by exact Hq. cbn [Nat.add]. rewrite R4, slice_nth by exact Hq. reflexivity.
Qed.
End R.
