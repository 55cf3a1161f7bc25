From Verif Require Import Lib BaseModel RingSpec RingProofs FftModel FftSpec FftProofs FftProofs2 FftProofs3.
From Coq Require Import Ring Ring_theory Lia Arith.
Open Scope nat_scope.

Lemma pow2_above_ok n : forall fuel p, 0 < fuel -> n < 2 ^ p + fuel -> (forall K, n <= 2 ^ K -> p <= K) ->
  exists L, pow2_above fuel n (2 ^ p) = Some (2 ^ L) /\ n <= 2 ^ L /\ forall K, n <= 2 ^ K -> L <= K.
Proof.
  induction fuel as [|fuel IH]; intros p H0 H HK; [lia|]. cbn [pow2_above]. destruct (Nat.ltb_spec (2 ^ p) n) as [C|C].
  - pose proof (pow2_pos p). rewrite (Nat.mul_comm (2 ^ p) 2), <- pow2_S. apply IH.
    + lia.
    + rewrite pow2_S. lia.
    + intros K G. specialize (HK K G). assert (p <> K) by (intros ->; lia). lia.
  - exists p. auto.
Qed.
Lemma pow2_above_top n : exists L, pow2_above (S n) n 1 = Some (2 ^ L) /\ n <= 2 ^ L /\ forall K, n <= 2 ^ K -> L <= K.
Proof. apply (pow2_above_ok n (S n) 0); [lia|cbn; lia|lia]. Qed.

Lemma resize_arr {T} (l : list T) n x : is_arr n (fun i => nth i l x) (resize l n x).
Proof.
  unfold resize. split.
  - rewrite app_length, firstn_length, repeat_length. lia.
  - intros i Hi. destruct (Nat.lt_ge_cases i (length l)) as [C|C].
    + rewrite nth_error_app1 by (rewrite firstn_length; lia). assert (E : nth_error (firstn n l) i = nth_error l i).
      { clear C. revert n i Hi. induction l as [|y l IH]; intros [|n] [|i] Hi; try lia; cbn; auto. apply IH. lia. }
      rewrite E. apply nth_error_nth'. exact C.
    + rewrite nth_error_app2 by (rewrite firstn_length; lia). rewrite nth_overflow by lia. apply nth_error_repeat. rewrite firstn_length. lia.
Qed.
Lemma arr_load {T} n (f : nat -> T) e b : is_arr n f (e b) -> forall j, j < n -> load e b j = Some (f j).
Proof. intros [_ H] j Hj. unfold load. now apply H. Qed.
Lemma load_arr {T} n (f g : nat -> T) e e' b : is_arr n g (e b) -> (forall x, load e' b x = if x <? n then Some (f x) else load e b x) -> is_arr n f (e' b).
Proof.
  intros [HL _] H. unfold load in H. assert (P : forall x, x < n -> nth_error (e' b) x = Some (f x)). { intros x Hx. rewrite H. now destruct (Nat.ltb_spec x n); [|lia]. }
  split; [|exact P]. apply Nat.le_antisymm.
  - destruct (Nat.lt_ge_cases n (length (e' b))) as [C|C]; [|lia]. exfalso. apply nth_error_Some in C. apply C. rewrite H. destruct (Nat.ltb_spec n n); [lia|]. apply nth_error_None. lia.
  - destruct (Nat.lt_ge_cases (length (e' b)) n) as [C|C]; [|lia]. exfalso. specialize (P _ C). rewrite (proj2 (nth_error_None _ _)) in P by lia. discriminate.
Qed.
Lemma cyc_le n k i : i <= k -> k < n -> cyc n k i = k - i.
Proof. intros. unfold cyc. rewrite Z.mod_small by lia. lia. Qed.
Lemma cyc_gt n k i : k < i -> i < n -> cyc n k i = n + k - i.
Proof. intros. unfold cyc. rewrite <- (Z_mod_plus_full _ 1). rewrite Z.mod_small by lia. lia. Qed.
Lemma cyc_mod n k i : 0 < n -> i <= k -> (k - i) mod n = cyc n k i.
Proof. intros. unfold cyc. rewrite <- Nat2Z.inj_sub, <- Nat2Z.inj_mod, Nat2Z.id by lia. reflexivity. Qed.
Lemma cyc_shift n k i : n <= k -> cyc n (k - n) i = cyc n k i.
Proof. intros. unfold cyc. f_equal. rewrite Nat2Z.inj_sub by lia. replace (Z.of_nat k - Z.of_nat i)%Z with (Z.of_nat k - Z.of_nat n - Z.of_nat i + 1 * Z.of_nat n)%Z by lia. now rewrite Z_mod_plus_full. Qed.
Lemma cyc_neg n k i : k <= i -> cyc n 0 (i - k) = cyc n k i.
Proof. intros. unfold cyc. do 2 f_equal. lia. Qed.
Lemma cyc_mult n t i : 0 < n -> i <= t * n -> (t * n - i) mod n = cyc n 0 i.
Proof.
  intros. rewrite cyc_mod by lia. unfold cyc. f_equal. rewrite Nat2Z.inj_mul. replace (Z.of_nat t * Z.of_nat n - Z.of_nat i)%Z with (Z.of_nat 0 - Z.of_nat i + Z.of_nat t * Z.of_nat n)%Z by lia. apply Z_mod_plus_full.
Qed.
Lemma multiple_ok us vs : 0 < us -> 0 < vs -> let t := (us + vs - 1) / vs in
  multiple (Z.of_nat vs) (Z.of_nat us) = Some (Z.of_nat (t * vs)) /\ us <= t * vs /\ vs <= t * vs.
Proof.
  intros Hu Hv t. unfold multiple, div_ceil. destruct (Z.ltb_spec (Z.of_nat vs) 0); [lia|]. destruct (Z.ltb_spec 0 (Z.of_nat us)); [|lia].
  unfold cdiv. destruct (Z.eqb_spec (Z.of_nat vs) 0); [lia|]. cbn [obind]. rewrite Z.quot_div_nonneg by lia.
  assert (E : ((Z.of_nat us - 1) / Z.of_nat vs + 1 = Z.of_nat t)%Z).
  { unfold t. rewrite Nat2Z.inj_div. replace (Z.of_nat (us + vs - 1)) with (Z.of_nat us - 1 + 1 * Z.of_nat vs)%Z by lia. rewrite Z.div_add by lia. reflexivity. }
  rewrite E, Nat2Z.inj_mul. split; [reflexivity|]. pose proof (Nat.div_mod (us + vs - 1) vs ltac:(lia)) as DM. pose proof (Nat.mod_upper_bound (us + vs - 1) vs ltac:(lia)). fold t in DM.
  assert (1 <= t) by (unfold t; apply Nat.div_le_lower_bound; lia). nia.
Qed.

Section Fft.
  Context {T R : Type}.
  Variables (zero one : T) (add mul sub : T -> T -> T) (opp : T -> T).
  Hypothesis Rth : ring_theory zero one add mul sub opp (@eq T).
  Add Ring TR : Rth.
  Notation rsum := (rsum zero add).
  Notation half_root := (half_root one mul opp).
  Local Infix "+!" := add (at level 50). Local Infix "*!" := mul (at level 40). Local Infix "-!" := sub (at level 50).
  Variables (ok : R -> Prop) (rmul : R -> R -> R) (rone : R) (inj : R -> T).
  Hypothesis RT : root_type one mul ok rmul rone inj.
  Variables (tdiv : T -> T -> option T) (tnat : nat -> T).
  Variables (K : nat) (base : R).
  Hypothesis Ob : ok base.
  Hypothesis Hb : half_root (2 ^ K) (inj base).
  Hypothesis HD : forall L, L <= K -> exists c, tdiv one (tnat (2 ^ L)) = Some c /\ inverse_of zero one add mul (2 ^ L) c.
  Notation fcc := (fft_cyclic_convolution add sub mul tdiv tnat rmul rone inj).
  Notation elem := (elem zero).

  Lemma fcc_lists L r u v f a b : L <= K -> is_arr (2 ^ L) f r -> is_arr (2 ^ L) a u -> is_arr (2 ^ L) b v ->
    exists e', fcc (arrays r u v) 0 1 2 (2 ^ L) base (2 ^ K) = Some e' /\ is_arr (2 ^ L) (cyclic_sum zero add mul (2 ^ L) (2 ^ L) a b) (e' 0).
  Proof using Rth RT Ob Hb HD.
    intros HL Hr Hu Hv. destruct (HD L HL) as (c & E & I).
    destruct (fft_cyclic_ok zero one add mul sub opp Rth ok rmul rone inj RT tdiv tnat L K base (arrays r u v) 0 1 2 a b c) as (e' & E' & H & _); auto.
    - intros j Hj. rewrite (arr_load _ _ (arrays r u v) 0 Hr) by auto. discriminate.
    - apply (arr_load _ _ (arrays r u v) 1 Hu).
    - apply (arr_load _ _ (arrays r u v) 2 Hv).
    - exists e'. split; [exact E'|]. apply (load_arr _ _ f (arrays r u v)); auto.
  Qed.

  Lemma convolution_ok u v : u <> [] -> v <> [] -> length u + length v - 1 <= 2 ^ K ->
    exists r, convolution zero add sub mul tdiv tnat rmul rone inj u v base (2 ^ K) = Some r /\ is_arr (length u + length v - 1) (conv_sum zero add mul (elem u) (elem v)) r.
  Proof using Rth RT Ob Hb HD.
    intros Hu Hv HK. assert (0 < length u) by (destruct u; [easy|cbn; lia]). assert (0 < length v) by (destruct v; [easy|cbn; lia]).
    unfold convolution. destruct (Nat.leb_spec 1 (length u + length v)); [|lia]. cbn [guard obind]. set (n := length u + length v - 1) in *.
    destruct (pow2_above_top n) as (L & -> & Hn & HL). cbn [obind].
    destruct (fcc_lists L _ _ _ _ _ _ (HL K HK) (resize_arr [] (2 ^ L) zero) (resize_arr u (2 ^ L) zero) (resize_arr v (2 ^ L) zero)) as (e & -> & He). cbn [obind].
    eexists. split; [reflexivity|]. destruct (resize_arr (e 0) n zero) as [RL RE]. split; [exact RL|]. intros k Hk. rewrite RE by auto.
    rewrite (nth_error_nth _ _ _ (proj2 He k ltac:(lia))). f_equal. unfold cyclic_sum, conv_sum, FftSpec.elem.
    set (l := 2 ^ L) in *. rewrite (rsum_trunc zero one add mul sub opp Rth l (S k)).
    - apply rsum_ext. intros i Hi. rewrite cyc_le by lia. reflexivity.
    - lia.
    - intros i Hi. destruct (Nat.lt_ge_cases i (length u)) as [C|C].
      + rewrite cyc_gt by lia. rewrite (nth_overflow v) by lia. ring.
      + rewrite (nth_overflow u) by lia. ring.
  Qed.

  Lemma cyclic_convolution_ok u v : u <> [] -> v <> [] -> (length u + length v - 1) / length v * length v + length u - 1 <= 2 ^ K ->
    exists r, cyclic_convolution zero add sub mul tdiv tnat rmul rone inj u v base (2 ^ K) = Some r /\
      is_arr (length v + length u - 1) (cyclic_sum zero add mul (length u) (length v) (elem u) (elem v)) r.
  Proof using Rth RT Ob Hb HD.
    intros Hu Hv HK. assert (HU : 0 < length u) by (destruct u; [easy|cbn; lia]). assert (HV : 0 < length v) by (destruct v; [easy|cbn; lia]).
    unfold cyclic_convolution. set (us := length u) in *. set (vs := length v) in *. destruct (Nat.leb_spec 1 us); [|lia]. cbn [guard obind].
    destruct (multiple_ok us vs HU HV) as (-> & M1 & M2). cbn [obind]. rewrite Nat2Z.id. set (t := (us + vs - 1) / vs) in *. set (vv := t * vs) in *.
    set (n := vs + us - 1) in *. set (nn := vv + us - 1) in *.
    destruct (pow2_above_top nn) as (L & -> & Hn & HL). cbn [obind]. specialize (HL K HK). set (l := 2 ^ L) in *.
    assert (VO : forall x, vs <= x -> nth x v zero = zero) by (intros; apply nth_overflow; fold vs; lia).
    match goal with |- context[for_range vs vv ?body (resize v l zero)] =>
      destruct (for_range_spec (fun i d => is_arr l (fun x => if x <? i then elem v (x mod vs) else zero) d) body vs vv (resize v l zero)) as (v1 & E1 & H1) end.
    { lia. }
    { apply (arr_ext _ _ _ _ (resize_arr v l zero)). intros x Hx. destruct (Nat.ltb_spec x vs); [|now apply VO]. rewrite Nat.mod_small by lia. reflexivity. }
    { intros i d Hi Hd. rewrite (proj2 Hd (i - vs)) by lia. destruct (Nat.ltb_spec (i - vs) i); [|lia]. cbn [obind].
      destruct (set_arr _ _ d i (elem v ((i - vs) mod vs)) Hd ltac:(lia)) as (d1 & -> & H1). exists d1. split; [reflexivity|].
      apply (arr_ext _ _ _ _ H1). intros x Hx. cbv beta. destruct (Nat.eqb_spec x i) as [->|].
      - destruct (Nat.ltb_spec i (S i)); [|lia]. f_equal. replace i with (i - vs + 1 * vs) at 2 by lia. now rewrite Nat.mod_add by lia.
      - destruct (Nat.ltb_spec x i), (Nat.ltb_spec x (S i)); try lia; reflexivity. }
    rewrite E1. cbn [obind].
    match goal with |- context[for_range 1 us ?body v1] =>
      destruct (for_range_spec (fun i d => is_arr l (fun x => if x <? vv then elem v (x mod vs) else if l <? x + i then elem v (cyc vs 0 (l - x)) else zero) d) body 1 us v1) as (v2 & E2 & H2) end.
    { lia. }
    { apply (arr_ext _ _ _ _ H1). intros x Hx. cbv beta. destruct (Nat.ltb_spec l (x + 1)); [lia|]. reflexivity. }
    { intros i d Hi Hd. rewrite (proj2 Hd (vv - i)) by lia. destruct (Nat.ltb_spec (vv - i) vv); [|lia]. cbn [obind].
      destruct (set_arr _ _ d (l - i) (elem v ((vv - i) mod vs)) Hd ltac:(lia)) as (d1 & -> & K1). exists d1. split; [reflexivity|].
      apply (arr_ext _ _ _ _ K1). intros x Hx. cbv beta. destruct (Nat.eqb_spec x (l - i)) as [->|].
      - destruct (Nat.ltb_spec (l - i) vv); [lia|]. destruct (Nat.ltb_spec l (l - i + S i)); [|lia]. f_equal. replace (l - (l - i)) with i by lia. apply cyc_mult; fold vv; lia.
      - destruct (Nat.ltb_spec x vv); [reflexivity|]. destruct (Nat.ltb_spec l (x + i)), (Nat.ltb_spec l (x + S i)); try lia; reflexivity. }
    rewrite E2. cbn [obind].
    destruct (fcc_lists L _ _ _ _ _ _ HL (resize_arr [] l zero) (resize_arr u l zero) H2) as (e & E3 & He). fold l in E3, He. rewrite E3. cbn [obind].
    set (C := cyclic_sum zero add mul l l (fun i => nth i u zero) _) in He.
    assert (HC : forall k, k < vv -> C k = cyclic_sum zero add mul us vs (elem u) (elem v) k).
    { intros k Hk. unfold C, cyclic_sum. rewrite (rsum_trunc zero one add mul sub opp Rth l us).
      - apply rsum_ext. intros i Hi. unfold FftSpec.elem at 3. f_equal. destruct (Nat.le_gt_cases i k) as [D|D].
        + rewrite cyc_le by lia. destruct (Nat.ltb_spec (k - i) vv); [|lia]. rewrite cyc_mod by lia. reflexivity.
        + rewrite cyc_gt by lia. destruct (Nat.ltb_spec (l + k - i) vv); [lia|]. destruct (Nat.ltb_spec l (l + k - i + us)); [|lia].
          replace (l - (l + k - i)) with (i - k) by lia. rewrite cyc_neg by lia. reflexivity.
      - lia.
      - intros i Hi. rewrite (nth_overflow u) by (fold us; lia). ring. }
    match goal with |- context[for_range 1 us ?body (e 0)] =>
      destruct (for_range_spec (fun i d => is_arr l (fun x => if (n <? x + i) && (x <? n) then C (x - vs) else C x) d) body 1 us (e 0)) as (r & E4 & H4) end.
    { lia. }
    { apply (arr_ext _ _ _ _ He). intros x Hx. destruct (Nat.ltb_spec n (x + 1)), (Nat.ltb_spec x n); try lia; reflexivity. }
    { intros i d Hi Hd. rewrite (proj2 Hd (us - 1 - i)) by lia. destruct (Nat.ltb_spec n (us - 1 - i + i)); [lia|]. cbn [andb obind].
      destruct (set_arr _ _ d (n - i) (C (us - 1 - i)) Hd ltac:(lia)) as (d1 & -> & K1). exists d1. split; [reflexivity|].
      apply (arr_ext _ _ _ _ K1). intros x Hx. cbv beta. destruct (Nat.eqb_spec x (n - i)) as [->|].
      - destruct (Nat.ltb_spec n (n - i + S i)), (Nat.ltb_spec (n - i) n); try lia. cbn [andb]. f_equal. lia.
      - destruct (Nat.ltb_spec x n); [|now rewrite !andb_false_r]. destruct (Nat.ltb_spec n (x + i)), (Nat.ltb_spec n (x + S i)); try lia; reflexivity. }
    rewrite E4. cbn [obind]. eexists. split; [reflexivity|]. destruct (resize_arr r n zero) as [RL RE]. split; [exact RL|]. intros k Hk. rewrite RE by auto.
    rewrite (nth_error_nth _ _ _ (proj2 H4 k ltac:(lia))). f_equal.
    destruct (Nat.ltb_spec n (k + us)), (Nat.ltb_spec k n); try lia; cbn [andb].
    - rewrite HC by lia. apply rsum_ext. intros i Hi. now rewrite cyc_shift by lia.
    - apply HC. lia.
  Qed.

  (** roots given by a table *)
  Lemma root_wrapper_ok s w roots : RingSpec.rpow one mul w (2 ^ s) = one -> is_arr (2 ^ s) (fun i => RingSpec.rpow one mul w i) roots ->
    root_type one mul (fun r => exists i, (0 <= i < 2 ^ Z.of_nat s)%Z /\ r = (roots, (2 ^ Z.of_nat s)%Z, i)) rw_mul (roots, (2 ^ Z.of_nat s)%Z, 0%Z) (rw_value zero).
  Proof using Rth.
    intros HW [HL HR]. set (n := (2 ^ Z.of_nat s)%Z). assert (HN : n = Z.of_nat (2 ^ s)) by (unfold n; now rewrite Nat2Z.inj_pow). pose proof (pow2_pos s).
    assert (V : forall i, (0 <= i < n)%Z -> rw_value zero (roots, n, i) = RingSpec.rpow one mul w (Z.to_nat i)).
    { intros i Hi. cbn [rw_value]. apply nth_error_nth. apply HR. lia. }
    split; [exists 0%Z; split; [lia|reflexivity]|]. split; [rewrite V by lia; reflexivity|].
    intros a b (i & Hi & ->) (j & Hj & ->). cbn [rw_mul]. assert (E : Z.land (i + j) (n - 1) = ((i + j) mod n)%Z).
    { replace (n - 1)%Z with (Z.ones (Z.of_nat s)) by (rewrite Z.ones_equiv; unfold n; lia). apply Z.land_ones. lia. }
    rewrite E. pose proof (Z.mod_pos_bound (i + j) n ltac:(lia)). split; [exists ((i + j) mod n)%Z; auto|].
    rewrite !V by lia. rewrite <- (rpow_add zero one add mul sub opp Rth). rewrite <- Z2Nat.inj_add by lia.
    pose proof (Z.div_mod (i + j) n ltac:(lia)) as DM. pose proof (Z.div_pos (i + j) n ltac:(lia) ltac:(lia)).
    rewrite DM at 2. rewrite HN at 2. rewrite Z2Nat.inj_add by lia. rewrite Z2Nat.inj_mul by lia. rewrite Nat2Z.id.
    rewrite (rpow_add zero one add mul sub opp Rth _ (_ * _)), (rpow_mul zero one add mul sub opp Rth _ (2 ^ s)), HW, (rpow_1 zero one add mul sub opp Rth). ring.
  Qed.
End Fft.
