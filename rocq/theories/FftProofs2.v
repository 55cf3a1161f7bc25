From Verif Require Import Lib BaseModel BaseProofs ModPowProofs RingSpec RingProofs FftModel FftSpec FftProofs.
From Coq Require Import Ring Ring_theory Lia Arith.
Open Scope nat_scope.

Lemma cyc_lt n k i : 0 < n -> cyc n k i < n.
Proof. intros H. unfold cyc. pose proof (Z.mod_pos_bound (Z.of_nat k - Z.of_nat i) (Z.of_nat n)). lia. Qed.
Lemma cyc_iff n k i j : 0 < n -> j < n -> ((i + j + (n - 1) * k) mod n = 0 <-> j = cyc n k i).
Proof.
  intros H Hj. unfold cyc.
  assert (E : Z.of_nat ((i + j + (n - 1) * k) mod n) = ((Z.of_nat i + Z.of_nat j - Z.of_nat k) mod Z.of_nat n)%Z).
  { rewrite Nat2Z.inj_mod, !Nat2Z.inj_add, Nat2Z.inj_mul, Nat2Z.inj_sub by lia.
    replace (Z.of_nat i + Z.of_nat j + (Z.of_nat n - Z.of_nat 1) * Z.of_nat k)%Z with (Z.of_nat i + Z.of_nat j - Z.of_nat k + Z.of_nat k * Z.of_nat n)%Z by lia.
    apply Z_mod_plus_full. }
  split; intros G.
  - rewrite G in E. symmetry in E. apply Z.mod_divide in E as [q Hq]; [|lia].
    replace (Z.of_nat k - Z.of_nat i)%Z with (Z.of_nat j + (- q) * Z.of_nat n)%Z by lia. rewrite Z_mod_plus_full, Z.mod_small by lia. lia.
  - apply Nat2Z.inj. rewrite E. subst j. pose proof (Z.mod_pos_bound (Z.of_nat k - Z.of_nat i) (Z.of_nat n) ltac:(lia)). rewrite Z2Nat.id by lia.
    pose proof (Z.div_mod (Z.of_nat k - Z.of_nat i) (Z.of_nat n) ltac:(lia)) as DM.
    set (q := ((Z.of_nat k - Z.of_nat i) / Z.of_nat n)%Z) in *. set (r := ((Z.of_nat k - Z.of_nat i) mod Z.of_nat n)%Z) in *.
    replace (Z.of_nat i + r - Z.of_nat k)%Z with (0 + (- q) * Z.of_nat n)%Z by lia. rewrite Z_mod_plus_full. apply Zmod_0_l.
Qed.

Section Fft.
  Context {T R : Type}.
  Variables (zero one : T) (add mul sub : T -> T -> T) (opp : T -> T).
  Hypothesis Rth : ring_theory zero one add mul sub opp (@eq T).
  Add Ring TR : Rth.
  Notation rsum := (rsum zero add). Notation rpow := (rpow one mul). Notation rnat := (rnat zero one add).
  Notation dft := (dft zero one add mul).
  Notation half_root := (half_root one mul opp).
  Local Infix "+!" := add (at level 50). Local Infix "*!" := mul (at level 40). Local Infix "-!" := sub (at level 50).
  Notation P_add := (P_add zero one add mul sub opp Rth). Notation P_mul := (P_mul zero one add mul sub opp Rth).

  Lemma half_inv L w : half_root (2 ^ L) w -> half_root (2 ^ L) (rpow w (2 ^ L - 1)).
  Proof using Rth.
    intros H H2. destruct L as [|L]; [cbn in H2; lia|]. rewrite <- P_mul, Nat.mul_comm, P_mul. rewrite (H H2).
    rewrite pow2_S. pose proof (pow2_pos L). replace (2 * 2 ^ L - 1) with (2 * (2 ^ L - 1) + 1) by lia. exact (opp_odd zero one add mul sub opp Rth (2 ^ L - 1)).
  Qed.

  Lemma dft_conv L w a b k : half_root (2 ^ L) w ->
    dft (2 ^ L) (rpow w (2 ^ L - 1)) (fun x => dft (2 ^ L) w a x *! dft (2 ^ L) w b x) k = rnat (2 ^ L) *! cyclic_sum zero add mul (2 ^ L) (2 ^ L) a b k.
  Proof using Rth.
    intros H. pose proof (pow2_pos L) as HP. set (n := 2 ^ L) in *. unfold FftSpec.dft, cyclic_sum.
    transitivity (rsum n (fun x => rsum n (fun i => rsum n (fun j => a i *! b j *! rpow w ((i + j + (n - 1) * k) * x))))).
    { apply rsum_ext. intros x _. rewrite <- (rsum_mul_r zero one add mul sub opp Rth).
      rewrite <- (rsum_mul_r zero one add mul sub opp Rth). apply rsum_ext. intros i _.
      rewrite <- (rsum_mul_l zero one add mul sub opp Rth). rewrite <- (rsum_mul_r zero one add mul sub opp Rth). apply rsum_ext. intros j _.
      rewrite <- P_mul. replace ((i + j + (n - 1) * k) * x) with (i * x + j * x + (n - 1) * (x * k)) by lia. rewrite !P_add. ring. }
    rewrite (rsum_swap zero one add mul sub opp Rth). rewrite <- (rsum_mul_l zero one add mul sub opp Rth). apply rsum_ext. intros i Hi.
    rewrite (rsum_swap zero one add mul sub opp Rth).
    rewrite (rsum_ext zero add n _ (fun j => a i *! b j *! (if (i + j + (n - 1) * k) mod n =? 0 then rnat n else zero))).
    2:{ intros j Hj. rewrite (rsum_mul_l zero one add mul sub opp Rth). f_equal. unfold n. apply (orth_all zero one add mul sub opp Rth). exact H. }
    rewrite (rsum_single zero one add mul sub opp Rth n _ (cyc n k i)).
    - rewrite (proj2 (Nat.eqb_eq _ _)); [ring|]. apply cyc_iff; auto using cyc_lt.
    - now apply cyc_lt.
    - intros j Hj N. destruct (Nat.eqb_spec ((i + j + (n - 1) * k) mod n) 0) as [E|]; [|ring]. exfalso. apply N. now apply cyc_iff.
  Qed.

  Variables (ok : R -> Prop) (rmul : R -> R -> R) (rone : R) (inj : R -> T).
  Hypothesis RT : root_type one mul ok rmul rone inj.

  Lemma root_pow x y : ok x -> exists r, powT rmul rone x (Z.of_nat y) = Some r /\ ok r /\ inj r = rpow (inj x) y.
  Proof using Rth RT.
    intros Hx. destruct (powT_rel rmul rone mul one) with (R := fun r t => ok r /\ inj r = t) (x := x) (x' := inj x) (y := Z.of_nat y) as (r & E & O & V).
    - intros; ring. - intros; ring. - intros; ring.
    - split; apply RT.
    - intros a a' b b' [Oa <-] [Ob <-]. now apply (proj2 (proj2 RT)).
    - now split. - lia.
    - exists r. split; [exact E|]. split; [exact O|]. rewrite V, Nat2Z.id.
      clear - Rth. induction y as [|y IH]; cbn [npow RingSpec.rpow]; [reflexivity|]. rewrite IH. ring.
  Qed.

  Variables (tdiv : T -> T -> option T) (tnat : nat -> T).
  Notation load := (@load T). Notation store := (@store T).

  (** a loop storing f i into cell i *)
  Lemma fill_loop n b (f : nat -> T) e (body : nat -> mem -> option mem) :
    (forall j, j < n -> load e b j <> None) ->
    (forall i e', i < n -> upd e b 0 i f e' -> exists v, body i e' = store e' b i v /\ v = f i) ->
    exists e', for_range 0 n body e = Some e' /\ upd e b 0 n f e'.
  Proof using Type.
    intros Hv Hb. destruct (for_range_spec (fun i e' => upd e b 0 i f e') body 0 n e) as (e' & E & U).
    - lia.
    - intros c x. destruct (Nat.ltb_spec x (0 + 0)); [lia|]. now rewrite !andb_false_r.
    - intros i e' Hi U. destruct (Hb i e' ltac:(lia) U) as (v & -> & ->).
      destruct (store_spec e' b i (f i)) as (e2 & -> & U2). { apply (upd_valid _ _ _ _ _ _ _ _ U). apply Hv. lia. }
      exists e2. split; [reflexivity|]. intros c x. rewrite U2, U. cbn [Nat.add Nat.leb andb]. rewrite Nat.sub_0_r.
      destruct (Nat.eqb_spec c b) as [->|]; cbn [andb]; [|reflexivity].
      destruct (Nat.eqb_spec x i) as [->|]; [destruct (Nat.ltb_spec i (S i)); [reflexivity|lia]|].
      destruct (Nat.ltb_spec x i), (Nat.ltb_spec x (S i)); try lia; reflexivity.
    - now exists e'.
  Qed.

  Lemma fft_cyclic_ok L K base e r p q a b c : r <> p -> r <> q -> p <> q -> L <= K -> ok base -> half_root (2 ^ K) (inj base) ->
    tdiv one (tnat (2 ^ L)) = Some c -> inverse_of zero one add mul (2 ^ L) c ->
    (forall j, j < 2 ^ L -> load e r j <> None) -> (forall j, j < 2 ^ L -> load e p j = Some (a j)) -> (forall j, j < 2 ^ L -> load e q j = Some (b j)) ->
    exists e', fft_cyclic_convolution add sub mul tdiv tnat rmul rone inj e r p q (2 ^ L) base (2 ^ K) = Some e' /\
      (forall x, load e' r x = if x <? 2 ^ L then Some (cyclic_sum zero add mul (2 ^ L) (2 ^ L) a b x) else load e r x) /\
      (forall y, y <> r -> y <> p -> y <> q -> forall x, load e' y x = load e y x).
  Proof using Rth RT.
    intros Nrp Nrq Npq HLK Ob Hb HD HI Vr Vp Vq. pose proof (pow2_pos L) as HP. unfold fft_cyclic_convolution.
    set (n := 2 ^ L) in *. destruct (Nat.eqb_spec n 0); [lia|]. cbn [negb guard obind].
    assert (EK : 2 ^ K / n = 2 ^ (K - L)). { unfold n. replace K with (K - L + L) at 1 by lia. rewrite Nat.pow_add_r. apply Nat.div_mul. lia. }
    rewrite EK. destruct (root_pow base (2 ^ (K - L)) Ob) as (root & -> & Or & Wr). cbn [obind].
    replace (Z.of_nat n - 1)%Z with (Z.of_nat (n - 1)) by lia. destruct (root_pow root (n - 1) Or) as (iroot & -> & Oi & Wi). cbn [obind].
    assert (Hr : half_root n (inj root)).
    { intros H2. unfold n in *. destruct L as [|L]; [cbn in H2; lia|]. destruct K as [|K]; [lia|]. rewrite pow2_half, Wr. rewrite <- P_mul.
      rewrite <- (half_pow one mul opp K (inj base) Hb). f_equal. rewrite <- Nat.pow_add_r. f_equal. lia. }
    assert (Hir : half_root n (inj iroot)) by (rewrite Wi; apply half_inv, Hr).
    pose proof (pow2_gt L) as HG. fold n in HG.
    destruct (fft_rec_ok zero one add mul sub opp Rth ok rmul rone inj RT L (S n) e r 0 p 0 root 1 a) as (e1 & E1 & U1); auto; try lia.
    { intros j Hj. rewrite Nat.mul_1_r. apply Vp, Hj. }
    fold n in E1, U1. rewrite E1. cbn [obind].
    destruct (fft_rec_ok zero one add mul sub opp Rth ok rmul rone inj RT L (S n) e1 p 0 q 0 root 1 b) as (e2 & E2 & U2); auto; try lia.
    { intros j Hj. rewrite (upd_other _ _ _ _ _ _ _ _ U1) by auto. rewrite Nat.mul_1_r. apply Vq, Hj. }
    { intros j Hj. apply (upd_valid _ _ _ _ _ _ _ _ U1). cbn [Nat.add]. fold n in Hj. rewrite Vp by auto. discriminate. }
    fold n in E2, U2. rewrite E2. cbn [obind].
    destruct (fill_loop n q (fun i => dft n (inj root) a i *! dft n (inj root) b i) e2 (fun i e => let* x := load e r i in let* y := load e p i in store e q i (x *! y))) as (e3 & E3 & U3).
    { intros j Hj. apply (upd_valid _ _ _ _ _ _ _ _ U2), (upd_valid _ _ _ _ _ _ _ _ U1). rewrite Vq by auto. discriminate. }
    { intros i e' Hi U. rewrite (upd_other _ _ _ _ _ _ r _ U) by auto. rewrite (upd_other _ _ _ _ _ _ p _ U) by auto.
      rewrite (upd_other _ _ _ _ _ _ r _ U2) by auto. pose proof (upd_in _ _ _ _ _ _ i U1 Hi) as X1. pose proof (upd_in _ _ _ _ _ _ i U2 Hi) as X2. cbn [Nat.add] in X1, X2.
      rewrite X1, X2. cbn [obind]. eexists. split; reflexivity. }
    rewrite E3. cbn [obind].
    destruct (fft_rec_ok zero one add mul sub opp Rth ok rmul rone inj RT L (S n) e3 r 0 q 0 iroot 1 (fun i => dft n (inj root) a i *! dft n (inj root) b i)) as (e4 & E4 & U4); auto; try lia.
    { intros j Hj. rewrite Nat.mul_1_r. apply (upd_in _ _ _ _ _ _ j U3 Hj). }
    { intros j Hj. apply (upd_valid _ _ _ _ _ _ _ _ U3), (upd_valid _ _ _ _ _ _ _ _ U2), (upd_valid _ _ _ _ _ _ _ _ U1), Vr, Hj. }
    fold n in E4, U4. rewrite E4. cbn [obind]. rewrite (proj1 (proj2 RT)), HD. cbn [obind].
    destruct (fill_loop n r (fun i => cyclic_sum zero add mul n n a b i) e4 (fun i e => let* x := load e r i in store e r i (x *! c))) as (e5 & E5 & U5).
    { intros j Hj. pose proof (upd_in _ _ _ _ _ _ j U4 Hj) as X. cbn [Nat.add] in X. rewrite X. discriminate. }
    { intros i e' Hi U. rewrite (upd_out _ _ _ _ _ _ i U) by lia. pose proof (upd_in _ _ _ _ _ _ i U4 Hi) as X. cbn [Nat.add] in X. rewrite X. cbn [obind].
      eexists. split; [reflexivity|]. rewrite Wi. unfold n at 1 2 3 4. rewrite dft_conv by auto. fold n. unfold inverse_of in HI.
      replace (rnat n *! cyclic_sum zero add mul n n a b i *! c) with (c *! rnat n *! cyclic_sum zero add mul n n a b i) by ring. rewrite HI. ring. }
    exists e5. split; [exact E5|]. split.
    - intros x. rewrite U5, Nat.eqb_refl. cbn [Nat.leb Nat.add andb]. rewrite Nat.sub_0_r. destruct (Nat.ltb_spec x n); [reflexivity|].
      rewrite (upd_out _ _ _ _ _ _ x U4) by lia. rewrite (upd_other _ _ _ _ _ _ r x U3) by auto. rewrite (upd_other _ _ _ _ _ _ r x U2) by auto. apply (upd_out _ _ _ _ _ _ x U1). lia.
    - intros y Y1 Y2 Y3 x. rewrite (upd_other _ _ _ _ _ _ y x U5), (upd_other _ _ _ _ _ _ y x U4), (upd_other _ _ _ _ _ _ y x U3), (upd_other _ _ _ _ _ _ y x U2), (upd_other _ _ _ _ _ _ y x U1) by auto. reflexivity.
  Qed.
End Fft.
