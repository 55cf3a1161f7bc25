From Coq Require Import Ring.
From Verif Require Import Lib BaseModel BaseProofs SumsModel SumsSpec.
Local Open Scope Z_scope.

Definition zsum := @sum0 Z 0 Z.add.
Arguments zsum n f : simpl never.
Lemma zsum_S n f : zsum (S n) f = zsum n f + f (Z.of_nat n).
Proof. reflexivity. Qed.
Lemma zsum_ext n f g : (forall k, 0 <= k < Z.of_nat n -> f k = g k) -> zsum n f = zsum n g.
Proof.
  induction n as [|n IH]; intros H; [reflexivity|]. rewrite !zsum_S, IH by (intros; apply H; lia).
  f_equal. apply H. lia.
Qed.
Lemma zsum_zero n : zsum n (fun _ => 0) = 0.
Proof. induction n as [|n IH]; [reflexivity|]. rewrite zsum_S, IH. reflexivity. Qed.
Lemma zsum_lin n f c d t : 2 * t = Z.of_nat n * (Z.of_nat n - 1) ->
  zsum n (fun k => f k + c * k + d) = zsum n f + c * t + d * Z.of_nat n.
Proof.
  revert t. induction n as [|n IH]; intros t Ht.
  - change (Z.of_nat 0) with 0 in Ht. assert (t = 0) by lia. subst t. unfold zsum. cbn [sum0]. change (Z.of_nat 0) with 0. lia.
  - rewrite !zsum_S. rewrite (IH (t - Z.of_nat n)) by lia. lia.
Qed.
Lemma zsum_opp n f : zsum n (fun k => - f k) = - zsum n f.
Proof. induction n as [|n IH]; [reflexivity|]. rewrite !zsum_S, IH. lia. Qed.
Lemma zsum_split n m f : zsum (n + m) f = zsum n f + zsum m (fun k => f (Z.of_nat n + k)).
Proof.
  induction m as [|m IH]; [rewrite Nat.add_0_r; unfold zsum at 3; cbn [sum0]; lia|].
  rewrite Nat.add_succ_r, !zsum_S, IH. rewrite Nat2Z.inj_add. lia.
Qed.
Lemma zsum_const n f c : (forall k, 0 <= k < Z.of_nat n -> f k = c) -> zsum n f = Z.of_nat n * c.
Proof.
  induction n as [|n IH]; intros H; [reflexivity|]. rewrite zsum_S, IH by (intros; apply H; lia).
  rewrite H by lia. lia.
Qed.

(** counting lattice points below a line, by columns and by rows *)
Lemma lattice_swap a b q : 0 < a -> 0 <= b < q -> forall n, 
  let N := (a * Z.of_nat n + b) / q in
  zsum (S n) (fun k => (a * k + b) / q) =
  N * Z.of_nat n - zsum (Z.to_nat N) (fun j => (q * j + (q - 1 - b)) / a).
Proof.
  intros Ha Hb. cbv zeta. induction n as [|n IH].
  - rewrite zsum_S. change (Z.of_nat 0) with 0. rewrite Z.mul_0_r, Z.add_0_l, Z.div_small by lia. reflexivity.
  - rewrite zsum_S, IH. clear IH.
    set (N0 := (a * Z.of_nat n + b) / q). set (N1 := (a * Z.of_nat (S n) + b) / q).
    assert (P0 : 0 <= N0) by (apply Z.div_pos; nia).
    assert (L : N0 <= N1) by (apply Z.div_le_mono; nia).
    replace (Z.to_nat N1) with (Z.to_nat N0 + Z.to_nat (N1 - N0))%nat by lia. rewrite zsum_split.
    rewrite (zsum_const (Z.to_nat (N1 - N0)) _ (Z.of_nat n)).
    + rewrite Nat2Z.inj_succ. rewrite !Z2Nat.id by lia. lia.
    + intros k Hk. rewrite Z2Nat.id in Hk by lia. rewrite Z2Nat.id by lia. symmetry.
      pose proof (Z.mul_div_le (a * Z.of_nat (S n) + b) q ltac:(lia)) as D1. fold N1 in D1.
      pose proof (Z.mul_succ_div_gt (a * Z.of_nat n + b) q ltac:(lia)) as D0. fold N0 in D0.
      apply Z.div_unique_pos with (r := q * (N0 + k) + (q - 1 - b) - a * Z.of_nat n).
      * clearbody N0 N1. rewrite Nat2Z.inj_succ in D1. nia.
      * ring.
Qed.

Definition ratio (a b q n : Z) : Z := zsum (Z.to_nat n) (fun k => (a * k + b) / q).

Lemma ratio_reduce a b q n t : 0 < q -> 0 <= n -> 2 * t = n * (n - 1) ->
  ratio a b q n = b / q * n + a / q * t + ratio (a mod q) (b mod q) q n.
Proof.
  intros Hq Hn Ht. unfold ratio.
  rewrite (zsum_ext _ (fun k => (a * k + b) / q) (fun k => ((a mod q) * k + b mod q) / q + a / q * k + b / q)).
  - rewrite (zsum_lin _ _ _ _ t) by (rewrite Z2Nat.id by lia; exact Ht). rewrite Z2Nat.id by lia. lia.
  - intros k _. rewrite (Z.div_mod a q) at 1 by lia. rewrite (Z.div_mod b q) at 1 by lia.
    replace ((q * (a / q) + a mod q) * k + (q * (b / q) + b mod q)) with (a mod q * k + b mod q + (a / q * k + b / q) * q) by ring.
    rewrite Z.div_add by lia. lia.
Qed.
Lemma ratio_swap a b q n : 0 < a -> 0 <= b < q -> 0 < n ->
  ratio a b q n = (a * (n - 1) + b) / q * (n - 1) - ratio q (q - 1 - b) a ((a * (n - 1) + b) / q).
Proof.
  intros Ha Hb Hn. unfold ratio. pose proof (lattice_swap a b q Ha Hb (Z.to_nat (n - 1))) as H. cbv zeta in H.
  replace (S (Z.to_nat (n - 1))) with (Z.to_nat n) in H by lia. rewrite Z2Nat.id in H by lia. exact H.
Qed.

Lemma half_t n : 0 < n -> let t := if Z.rem n 2 =? 1 then n * Z.quot (n - 1) 2 else Z.quot n 2 * (n - 1) in 2 * t = n * (n - 1).
Proof.
  intros Hn. cbv zeta. rewrite Z.rem_mod_nonneg, !Z.quot_div_nonneg by lia.
  pose proof (Z.div_mod n 2 ltac:(lia)). pose proof (Z.mod_pos_bound n 2 ltac:(lia)).
  destruct (Z.eqb_spec (n mod 2) 1) as [E|E].
  - assert ((n - 1) / 2 = n / 2) by (symmetry; apply Z.div_unique with 0; lia). rewrite H1. nia.
  - nia.
Qed.

Definition psgn (i : Z) : Z := if Z.rem i 2 =? 1 then -1 else 1.
Lemma psgn_S i : 0 <= i -> psgn (i + 1) = - psgn i.
Proof.
  intros H. unfold psgn. rewrite !Z.rem_mod_nonneg by lia.
  rewrite (Zmod_odd (i + 1)), (Zmod_odd i), Z.add_1_r, Z.odd_succ, <- Z.negb_odd. now destruct (Z.odd i).
Qed.

Lemma sum_ratio_loop_spec a b q n : 0 < q -> 0 <= a -> 0 <= b ->
  loopZ (q + 1) sum_ratio_step (a, b, q, n, 0, 0) = Some (ratio a b q n).
Proof.
  intros Hq Ha Hb.
  destruct (loopZ_spec sum_ratio_step
    (fun '(a', b', q', n', s, i) => 0 < q' /\ 0 <= a' /\ 0 <= b' /\ 0 <= i /\
       psgn i * (s + ratio a' b' q' n') = ratio a b q n)
    (fun r => r = ratio a b q n) (fun '(a', b', q', n', s, i) => q')) with (fuel := q + 1) (s := (a, b, q, n, 0, 0)) as (r & E & ->).
  - intros [[[[[a' b'] q'] n'] s] i] (Q & A & B & I & E). cbn [sum_ratio_step].
    destruct (Z.ltb_spec 0 n') as [N|N].
    + pose proof (half_t n' N) as Ht. cbv zeta in Ht.
      set (t := if Z.rem n' 2 =? 1 then n' * Z.quot (n' - 1) 2 else Z.quot n' 2 * (n' - 1)) in *.
      rewrite !cdiv_some, !cmod_some by lia. cbn [obind].
      rewrite !Z.quot_div_nonneg, !Z.rem_mod_nonneg by lia.
      rewrite (ratio_reduce a' b' q' n' t) in E by lia.
      pose proof (Z.mod_pos_bound a' q' Q) as Ba. pose proof (Z.mod_pos_bound b' q' Q) as Bb.
      destruct (Z.eqb_spec (a' mod q') 0) as [Ea|Ea].
      * eexists. split; [reflexivity|]. cbn beta iota. rewrite <- E, Ea.
        assert (R0 : ratio 0 (b' mod q') q' n' = 0).
        { unfold ratio. rewrite (zsum_ext _ _ (fun _ => 0)); [apply zsum_zero|]. intros k _. apply Z.div_small. lia. }
        rewrite R0. unfold psgn. rewrite Z.rem_mod_nonneg by lia. destruct (i mod 2 =? 1); lia.
      * rewrite Z.quot_div_nonneg by nia. eexists. split; [reflexivity|]. cbn beta iota.
        split; [|lia]. split; [lia|]. split; [lia|]. split; [lia|]. split; [lia|].
        rewrite psgn_S by lia. rewrite <- E. rewrite (ratio_swap (a' mod q') (b' mod q') q' n') by lia. ring.
    + eexists. split; [reflexivity|]. cbn beta iota. rewrite <- E.
      assert (R0 : ratio a' b' q' n' = 0) by (unfold ratio; now replace (Z.to_nat n') with O by lia).
      rewrite R0. unfold psgn. destruct (Z.rem i 2 =? 1); lia.
  - intros [[[[[a' b'] q'] n'] s] i]. lia.
  - split; [lia|]. split; [lia|]. split; [lia|]. split; [lia|]. change (psgn 0) with 1. lia.
  - lia.
  - exact E.
Qed.

Lemma sum_ratio_spec a b q n : q <> 0 -> sum_ratio a b q n = Some (ratio a b q n).
Proof.
  intros Hq.
  assert (N0 : forall a b q, n < 1 -> ratio a b q n = 0) by (intros; unfold ratio; now replace (Z.to_nat n) with O by lia).
  assert (R1 : forall f a b q, 0 < q -> 0 <= a -> 0 <= b -> sum_ratio_rec (S f) a b q n = Some (ratio a b q n)).
  { intros f a' b' q' Q A B. cbn [sum_ratio_rec]. destruct (Z.ltb_spec n 1); [now rewrite N0|].
    destruct (Z.ltb_spec q' 0); [lia|]. destruct (Z.ltb_spec a' 0); [lia|]. destruct (Z.ltb_spec b' 0); [lia|].
    now apply sum_ratio_loop_spec. }
  assert (R2 : forall f a b q, 0 < q -> 0 <= a -> sum_ratio_rec (S (S f)) a b q n = Some (ratio a b q n)).
  { intros f a' b' q' Q A. remember (S f) as f1. cbn [sum_ratio_rec]. subst f1. destruct (Z.ltb_spec n 1); [now rewrite N0|].
    destruct (Z.ltb_spec q' 0); [lia|]. destruct (Z.ltb_spec a' 0); [lia|]. destruct (Z.ltb_spec b' 0) as [B|B].
    - rewrite cdiv_some by lia. cbn [obind]. rewrite Z.quot_div_nonneg by lia.
      pose proof (Z.mul_succ_div_gt (- b') q' Q). rewrite R1 by lia. cbn [obind]. f_equal. unfold ratio.
      rewrite (zsum_ext _ (fun k => (a' * k + (b' + q' * (- b' / q' + 1))) / q') (fun k => (a' * k + b') / q' + 0 * k + (- b' / q' + 1))).
      + rewrite (zsum_lin _ _ _ _ (n * (n - 1) / 2)); rewrite !Z2Nat.id by lia; [lia|].
        pose proof (half_t n ltac:(lia)) as Ht. cbv zeta in Ht. match type of Ht with 2 * ?u = _ => generalize dependent u end. intros t Ht. rewrite <- Ht. rewrite (Z.mul_comm 2 t), Z.div_mul by lia. lia.
      + intros k _. replace (a' * k + (b' + q' * (- b' / q' + 1))) with (a' * k + b' + (- b' / q' + 1) * q') by ring.
        rewrite Z.div_add by lia. lia.
    - now apply sum_ratio_loop_spec. }
  assert (R3 : forall f a b q, 0 < q -> sum_ratio_rec (S (S (S f))) a b q n = Some (ratio a b q n)).
  { intros f a' b' q' Q. destruct (Z.ltb_spec a' 0) as [A|A]; [|now apply R2].
    remember (S (S f)) as f1. cbn [sum_ratio_rec]. subst f1. destruct (Z.ltb_spec n 1); [now rewrite N0|].
    destruct (Z.ltb_spec q' 0); [lia|]. destruct (Z.ltb_spec a' 0); [|lia].
    rewrite R2 by lia. cbn [obind]. f_equal. unfold ratio. rewrite <- zsum_opp. apply zsum_ext. intros k _.
    set (u := a' * k + b'). replace (- a' * k + (q' - 1 - b')) with (q' - 1 - u) by (unfold u; ring).
    assert ((q' - 1 - u) / q' = - (u / q')); [|lia]. symmetry. apply Z.div_unique_pos with (r := q' - 1 - u mod q').
    - pose proof (Z.mod_pos_bound u q' Q). lia.
    - rewrite (Z.mod_eq u q') by lia. ring. }
  unfold sum_ratio. destruct (Z.ltb_spec q 0) as [Q|Q]; [|now apply R3; lia].
  remember 3%nat as f1. cbn [sum_ratio_rec]. subst f1. destruct (Z.ltb_spec n 1); [now rewrite N0|].
  destruct (Z.ltb_spec q 0); [|lia]. rewrite R3 by lia. f_equal. unfold ratio. apply zsum_ext. intros k _.
  replace (- a * k + - b) with (- (a * k + b)) by ring. apply Z.div_opp_opp. lia.
Qed.

(* ------------------------------------------------------------------ *)
Section Sqrt.
  Context {T : Type} (rO rI : T) (add mul sub : T -> T -> T) (opp : T -> T).
  Hypothesis Rth : ring_theory rO rI add mul sub opp (@eq T).
  Add Ring Tring : Rth.
  Variable cast : Z -> T.
  Hypothesis cast_0 : cast 0 = rO.
  Hypothesis cast_succ : forall z, 0 <= z -> cast (z + 1) = add (cast z) rI.


  (** f (a+1) + ... + f (a+k) *)
  Fixpoint seg (a : nat) (k : nat) (f : Z -> T) : T :=
    match k with O => rO | S j => add (seg a j f) (f (Z.of_nat (a + k))) end.
  Lemma sum1_split a k f : sum1 rO add (a + k) f = add (sum1 rO add a f) (seg a k f).
  Proof using Rth.
    induction k as [|k IH]; [rewrite Nat.add_0_r; cbn [seg]; ring|].
    rewrite Nat.add_succ_r. cbn [sum1 seg]. rewrite IH, Nat.add_succ_r. ring.
  Qed.
  Lemma seg_ext a k f g : (forall i, (a < i <= a + k)%nat -> f (Z.of_nat i) = g (Z.of_nat i)) -> seg a k f = seg a k g.
  Proof. induction k as [|k IH]; intros H; cbn [seg]; [reflexivity|]. rewrite IH by (intros; apply H; lia). f_equal. apply H. lia. Qed.

  Lemma for1_sum e h r : for1 (T:=T) e (fun k r => add r (h k)) r = add r (sum1 rO add (Z.to_nat e) h).
  Proof using Rth.
    unfold for1. generalize (Z.to_nat e). intros n. 
    induction n as [|n IH]; [cbn; ring|].
    rewrite seq_S, fold_left_app, IH. cbn [fold_left sum1]. rewrite Nat.add_1_l. ring.
  Qed.

  (** the second half of every sum_sqrt function: w m is the sum of h over the k with n/k = m *)
  Lemma tail_sum (h w : Z -> T) (n : nat) q : (1 <= q)%nat -> (1 <= n)%nat ->
    (forall m a k, (1 <= m < q)%nat -> a = (n / S m)%nat -> (a + k = n / m)%nat -> w (Z.of_nat m) = seg a k h) ->
    add (sum1 rO add (n / q) h) (sum1 rO add (q - 1) w) = sum1 rO add n h.
  Proof using Rth.
    intros Hq Hn Hw. induction q as [|q IH]; [lia|].
    destruct (Nat.eq_dec q 0) as [->|N].
    - rewrite Nat.div_1_r. cbn [Nat.sub sum1]. ring.
    - rewrite <- IH; [|lia|intros; apply Hw; lia || auto].
      replace (S q - 1)%nat with (S (q - 1)) by lia. cbn [sum1]. replace (S (q - 1)) with q by lia.
        assert (L : (n / S q <= n / q)%nat) by (apply Nat.div_le_compat_l; lia).
        rewrite (Hw q (n / S q)%nat (n / q - n / S q)%nat) by lia.
        replace (n / q)%nat with (n / S q + (n / q - n / S q))%nat at 2 by lia. rewrite sum1_split. ring.
  Qed.
  (** n / k = m exactly for n/(m+1) < k <= n/m *)
  Lemma quot_const (n m k : nat) : (1 <= m)%nat -> (n / S m < k <= n / m)%nat -> (n / k = m)%nat.
  Proof.
    intros Hm [H1 H2]. assert (k <> 0)%nat by lia. symmetry. 
    assert (m * k <= n)%nat by (pose proof (Nat.mul_div_le n m ltac:(lia)); nia).
    assert (n < S m * k)%nat by (pose proof (Nat.mul_succ_div_gt n (S m) ltac:(lia)); nia).
    apply Nat.div_unique with (n - m * k)%nat; nia.
  Qed.
  Lemma quot_of_nat a b : (b <> 0)%nat -> Z.quot (Z.of_nat a) (Z.of_nat b) = Z.of_nat (a / b).
  Proof. intros H. rewrite Z.quot_div_nonneg by lia. now rewrite Nat2Z.inj_div. Qed.

  Lemma seg_const a k f c : (forall i, (a < i <= a + k)%nat -> f (Z.of_nat i) = c) -> seg a k f = mul c (cast (Z.of_nat k)).
  Proof using Rth cast_0 cast_succ.
    induction k as [|k IH]; intros H; cbn [seg].
    - change (Z.of_nat 0) with 0. rewrite cast_0. ring.
    - rewrite IH by (intros; apply H; lia). rewrite H by lia. rewrite Nat2Z.inj_succ, <- Z.add_1_r, cast_succ by lia. ring.
  Qed.

  Variable root : Z -> option Z.

  Lemma prep n q : 1 <= n -> root n = Some q -> 1 <= q -> exists n' q', n = Z.of_nat n' /\ q = Z.of_nat q' /\ (1 <= n')%nat /\ (1 <= q')%nat
     /\ cdiv n q = Some (Z.of_nat (n' / q')).
  Proof.
    intros Hn _ Hq. exists (Z.to_nat n), (Z.to_nat q). repeat split; try lia.
    rewrite cdiv_some by lia. f_equal. rewrite <- quot_of_nat by lia. now rewrite !Z2Nat.id by lia.
  Qed.

  Lemma sum1_ext n f g : (forall i, (1 <= i <= n)%nat -> f (Z.of_nat i) = g (Z.of_nat i)) -> sum1 rO add n f = sum1 rO add n g.
  Proof. induction n as [|n IH]; intros H; cbn [sum1]; [reflexivity|]. rewrite IH by (intros; apply H; lia). f_equal. apply H. lia. Qed.

  Lemma sum_sqrt_spec f n q : 1 <= n -> root n = Some q -> 1 <= q ->
    sum_sqrt rO add mul cast root f n = Some (sum1 rO add (Z.to_nat n) (fun k => f (n / k))).
  Proof using Rth cast_0 cast_succ.
    intros Hn Er Hq. unfold sum_sqrt. destruct (Z.ltb_spec n 1); [lia|]. rewrite Er. cbn [obind].
    destruct (prep n q Hn Er Hq) as (n' & q' & -> & -> & Hn' & Hq' & ->). cbn [obind]. f_equal.
    rewrite !for1_sum. rewrite !Nat2Z.id. replace (Z.to_nat (Z.of_nat q' - 1)) with (q' - 1)%nat by lia.
    rewrite <- (tail_sum (fun k => f (Z.of_nat n' / k)) (fun m => mul (f m) (cast (Z.quot (Z.of_nat n') m - Z.quot (Z.of_nat n') (m + 1)))) n' q' Hq' Hn').
    - match goal with |- add (add rO ?a) ?b = add ?c ?d => assert (Ea : a = c) end.
      { apply sum1_ext. intros i Hi. now rewrite Z.quot_div_nonneg by lia. }
      rewrite Ea. ring.
    - intros m a k Hm -> E. rewrite (seg_const _ _ _ (f (Z.of_nat m))).
      + do 2 f_equal. replace (Z.of_nat m + 1) with (Z.of_nat (S m)) by lia. rewrite !quot_of_nat by lia. lia.
      + intros i Hi. f_equal. rewrite <- Nat2Z.inj_div. f_equal. apply quot_const; lia.
  Qed.

  Lemma seg_diff a k (f sf : Z -> T) : (forall i, sf (Z.of_nat i) = sum1 rO add i f) ->
    seg a k f = sub (sf (Z.of_nat (a + k))) (sf (Z.of_nat a)).
  Proof using Rth. intros H. rewrite !H, sum1_split. ring. Qed.
  Lemma seg_scale a k f c : seg a k (fun i => mul (f i) c) = mul (seg a k f) c.
  Proof using Rth. induction k as [|k IH]; cbn [seg]; [ring|]. rewrite IH. ring. Qed.

  Lemma tail2m sf g n q r : sum_sqrt2m_tail add mul sub sf g n q r =
    add r (sum1 rO add (Z.to_nat (q - 1)) (fun m => mul (sub (sf (Z.quot n m)) (sf (Z.quot n (m + 1)))) (g m))).
  Proof using Rth.
    unfold sum_sqrt2m_tail. generalize (Z.to_nat (q - 1)). intros k.
    match goal with |- fst (fold_left ?F _ _) = _ => set (G := F) end.
    enough (E : fold_left G (seq 1 k) (r, sf n) = (add r (sum1 rO add k (fun m => mul (sub (sf (Z.quot n m)) (sf (Z.quot n (m + 1)))) (g m))), sf (Z.quot n (Z.of_nat (S k))))) by now rewrite E.
    induction k as [|k IH].
    - cbn [seq fold_left sum1]. change (Z.of_nat 1) with 1. rewrite Z.quot_1_r. f_equal. ring.
    - rewrite seq_S, fold_left_app, IH. cbn [fold_left sum1]. unfold G at 1. cbv zeta.
      replace (Z.of_nat (1 + k)) with (Z.of_nat (S k)) by lia.
      replace (Z.of_nat (S k) + 1) with (Z.of_nat (S (S k))) by lia. f_equal. ring.
  Qed.

  Lemma sum_sqrt2m_f_spec f sf g n q : 1 <= n -> root n = Some q -> 1 <= q -> (forall i, sf (Z.of_nat i) = sum1 rO add i f) ->
    sum_sqrt2m_f rO add mul sub root f sf g n = Some (sum1 rO add (Z.to_nat n) (fun k => mul (f k) (g (n / k)))).
  Proof using Rth.
    intros Hn Er Hq Hs. unfold sum_sqrt2m_f. destruct (Z.ltb_spec n 1); [lia|]. rewrite Er. cbn [obind].
    destruct (prep n q Hn Er Hq) as (n' & q' & -> & -> & Hn' & Hq' & ->). cbn [obind]. f_equal.
    rewrite tail2m, for1_sum. rewrite !Nat2Z.id. replace (Z.to_nat (Z.of_nat q' - 1)) with (q' - 1)%nat by lia.
    rewrite <- (tail_sum (fun k => mul (f k) (g (Z.of_nat n' / k))) (fun m => mul (sub (sf (Z.quot (Z.of_nat n') m)) (sf (Z.quot (Z.of_nat n') (m + 1)))) (g m)) n' q' Hq' Hn').
    - match goal with |- add (add rO ?a) ?b = add ?c ?d => assert (Ea : a = c) end.
      { apply sum1_ext. intros i Hi. now rewrite Z.quot_div_nonneg by lia. }
      rewrite Ea. ring.
    - intros m a k Hm -> E. rewrite (seg_ext _ _ _ (fun i => mul (f i) (g (Z.of_nat m)))).
      + rewrite seg_scale. f_equal. rewrite (seg_diff _ _ f sf Hs). rewrite E.
        replace (Z.of_nat m + 1) with (Z.of_nat (S m)) by lia. rewrite !quot_of_nat by lia. reflexivity.
      + intros i Hi. do 2 f_equal. rewrite <- Nat2Z.inj_div. f_equal. apply quot_const; lia.
  Qed.

  Lemma sum_sqrt2m_spec f sf g n q : 1 <= n -> root n = Some q -> 1 <= q -> (forall i, sf (Z.of_nat i) = sum1 rO add i f) ->
    sum_sqrt2m rO add mul sub root sf g n = Some (sum1 rO add (Z.to_nat n) (fun k => mul (f k) (g (n / k)))).
  Proof using Rth.
    intros Hn Er Hq Hs. rewrite <- (sum_sqrt2m_f_spec f sf g n q Hn Er Hq Hs).
    unfold sum_sqrt2m, sum_sqrt2m_f. destruct (Z.ltb_spec n 1); [lia|]. rewrite Er. cbn [obind].
    rewrite cdiv_some by lia. cbn [obind]. do 2 f_equal. rewrite !for1_sum. f_equal. apply sum1_ext. intros i Hi. f_equal.
    replace (Z.of_nat i - 1) with (Z.of_nat (i - 1)) by lia. rewrite !Hs.
    destruct i as [|i]; [lia|]. cbn [sum1]. replace (S i - 1)%nat with i by lia. ring.
  Qed.

  Lemma sum_sqrt2_spec f sf n q : 1 <= n -> root n = Some q -> 1 <= q ->
    (forall i m, sf (Z.of_nat i) m = sum1 rO add i (fun k => f k m)) ->
    sum_sqrt2 rO add sub root sf n = Some (sum1 rO add (Z.to_nat n) (fun k => f k (n / k))).
  Proof using Rth.
    intros Hn Er Hq Hs. unfold sum_sqrt2. destruct (Z.ltb_spec n 1); [lia|]. rewrite Er. cbn [obind].
    destruct (prep n q Hn Er Hq) as (n' & q' & -> & -> & Hn' & Hq' & ->). cbn [obind]. f_equal.
    rewrite !for1_sum. rewrite !Nat2Z.id. replace (Z.to_nat (Z.of_nat q' - 1)) with (q' - 1)%nat by lia.
    rewrite <- (tail_sum (fun k => f k (Z.of_nat n' / k)) (fun m => sub (sf (Z.quot (Z.of_nat n') m) m) (sf (Z.quot (Z.of_nat n') (m + 1)) m)) n' q' Hq' Hn').
    - match goal with |- add (add rO ?a) ?b = add ?c ?d => assert (Ea : a = c) end.
      { apply sum1_ext. intros i Hi. rewrite Z.quot_div_nonneg by lia.
        replace (Z.of_nat i - 1) with (Z.of_nat (i - 1)) by lia. rewrite !Hs.
        destruct i as [|i]; [lia|]. cbn [sum1]. replace (S i - 1)%nat with i by lia. ring. }
      rewrite Ea. ring.
    - intros m a k Hm -> E. rewrite (seg_ext _ _ _ (fun i => f i (Z.of_nat m))).
      + rewrite (seg_diff _ _ (fun i => f i (Z.of_nat m)) (fun i => sf i (Z.of_nat m))) by (intros; apply Hs). rewrite E.
        replace (Z.of_nat m + 1) with (Z.of_nat (S m)) by lia. rewrite !quot_of_nat by lia. reflexivity.
      + intros i Hi. f_equal. rewrite <- Nat2Z.inj_div. f_equal. apply quot_const; lia.
  Qed.

  Lemma sum0_ext n (f g : Z -> T) : (forall i, f i = g i) -> sum0 rO add n f = sum0 rO add n g.
  Proof. intros H. induction n as [|n IH]; cbn [sum0]; [reflexivity|]. now rewrite IH, H. Qed.
  Lemma sum_loop_spec f : forall k b r, sum_loop add k f b r = add r (sum0 rO add k (fun i => f (b - Z.of_nat k + 1 + i))).
  Proof using Rth.
    induction k as [|k IH]; intros b r; cbn [sum_loop sum0]; [ring|].
    rewrite IH.
    rewrite (sum0_ext k (fun i => f (b - 1 - Z.of_nat k + 1 + i)) (fun i => f (b - Z.of_nat (S k) + 1 + i))) by (intros; f_equal; lia).
    replace (b - Z.of_nat (S k) + 1 + Z.of_nat k) with b by lia. ring.
  Qed.
  Lemma sum_spec f a b : a <= b + 1 -> sum rO add f a b = sum0 rO add (Z.to_nat (b - a + 1)) (fun i => f (a + i)).
  Proof using Rth.
    intros H. unfold sum. rewrite sum_loop_spec. rewrite (sum0_ext _ (fun i => f (b - Z.of_nat (Z.to_nat (b - a + 1)) + 1 + i)) (fun i => f (a + i))); [ring|].
    intros i. f_equal. lia.
  Qed.
End Sqrt.

Lemma sum_pow_small_spec p n : 0 <= p <= 3 -> 0 <= n -> sum_pow_small p n = Some (sum1 0 Z.add (Z.to_nat n) (fun k => k ^ p)).
Proof.
  intros Hp Hn. 
  assert (E0 : forall m, sum1 0 Z.add m (fun k => k ^ 0) = Z.of_nat m).
  { induction m as [|m IH]; [reflexivity|]. cbn [sum1]. rewrite IH, Z.pow_0_r. lia. }
  assert (E1 : forall m, 2 * sum1 0 Z.add m (fun k => k ^ 1) = Z.of_nat m * (Z.of_nat m + 1)).
  { induction m as [|m IH]; [reflexivity|]. cbn [sum1]. rewrite Z.pow_1_r, Nat2Z.inj_succ. lia. }
  assert (E2 : forall m, 6 * sum1 0 Z.add m (fun k => k ^ 2) = Z.of_nat m * (Z.of_nat m + 1) * (Z.of_nat m * 2 + 1)).
  { induction m as [|m IH]; [reflexivity|]. cbn [sum1]. rewrite Z.pow_2_r, Nat2Z.inj_succ. lia. }
  assert (E3 : forall m, 4 * sum1 0 Z.add m (fun k => k ^ 3) = (Z.of_nat m * (Z.of_nat m + 1)) * (Z.of_nat m * (Z.of_nat m + 1))).
  { induction m as [|m IH]; [reflexivity|]. cbn [sum1]. replace (Z.of_nat (S m) ^ 3) with (Z.of_nat (S m) * Z.of_nat (S m) * Z.of_nat (S m)) by ring.
    rewrite Nat2Z.inj_succ. lia. }
  specialize (E0 (Z.to_nat n)). specialize (E1 (Z.to_nat n)). specialize (E2 (Z.to_nat n)). specialize (E3 (Z.to_nat n)).
  rewrite Z2Nat.id in * by lia.
  assert (Hp' : p = 0 \/ p = 1 \/ p = 2 \/ p = 3) by lia. unfold sum_pow_small.
  destruct Hp' as [-> | [-> | [-> | -> ]]]; cbn [Z.eqb Pos.eqb].
  - now rewrite E0.
  - rewrite <- E1, cdiv_some by lia. now rewrite Z.mul_comm, Z.quot_mul by lia.
  - rewrite <- E2, cdiv_some by lia. now rewrite Z.mul_comm, Z.quot_mul by lia.
  - rewrite <- E1, cdiv_some by lia. rewrite Z.mul_comm, Z.quot_mul by lia. cbn [obind]. unfold sqT. f_equal.
    rewrite <- E1 in E3. lia.
Qed.
