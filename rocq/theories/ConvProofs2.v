From Coq Require Import Ring Ring_theory.
From Verif Require Import Lib RingSpec RingProofs ConvModel ConvSpec ConvProofs.
Open Scope nat_scope.

(** * submasks *)
Lemma submask_bits i k : submask i k = true <-> forall b, tb i b = true -> tb k b = true.
Proof.
  unfold submask. rewrite Nat.eqb_eq. split.
  - intros H b Hb. rewrite <- H, Nat.land_spec in Hb. apply andb_prop in Hb. tauto.
  - intros H. apply Nat.bits_inj. intros b. rewrite Nat.land_spec. destruct (tb i b) eqn:E; [rewrite (H b E)|]; reflexivity.
Qed.
Lemma submask_le i k : submask i k = true -> i <= k.
Proof. intros H. apply Nat.ldiff_le. apply Nat.bits_inj. intros b. rewrite Nat.ldiff_spec, Nat.bits_0. destruct (tb i b) eqn:E; [rewrite (proj1 (submask_bits i k) H b E)|]; reflexivity. Qed.
Lemma land_2 a b : Nat.land a b = 2 * Nat.land (Nat.div2 a) (Nat.div2 b) + Nat.b2n (Nat.odd a && Nat.odd b).
Proof.
  rewrite (Nat.div2_odd (Nat.land a b)). f_equal.
  - f_equal. rewrite !Nat.div2_spec. rewrite Nat.shiftr_land. reflexivity.
  - f_equal. rewrite <- !Nat.bit0_odd. apply Nat.land_spec.
Qed.
Lemma pred_submask : forall s w i, submask s w = true -> submask i w = true -> i < s -> i <= Nat.land (s - 1) w.
Proof.
  induction s as [s IH] using (well_founded_induction lt_wf). intros w i Hs Hi Lt.
  assert (Bs : Nat.odd s = true -> Nat.odd w = true) by (rewrite <- !Nat.bit0_odd; apply submask_bits; exact Hs).
  assert (Bi : Nat.odd i = true -> Nat.odd w = true) by (rewrite <- !Nat.bit0_odd; apply submask_bits; exact Hi).
  assert (Ds : submask (Nat.div2 s) (Nat.div2 w) = true). { apply submask_bits. intros b. rewrite !Nat.div2_spec, !Nat.shiftr_spec by lia. apply submask_bits. exact Hs. }
  assert (Di : submask (Nat.div2 i) (Nat.div2 w) = true). { apply submask_bits. intros b. rewrite !Nat.div2_spec, !Nat.shiftr_spec by lia. apply submask_bits. exact Hi. }
  pose proof (Nat.div2_odd s) as Es. pose proof (Nat.div2_odd i) as Ei. rewrite (land_2 (s - 1) w). destruct (Nat.odd s) eqn:Os; cbn [Nat.b2n] in Es.
  - assert (E1 : s - 1 = 2 * Nat.div2 s) by lia. assert (E2 : Nat.div2 (s - 1) = Nat.div2 s) by (rewrite E1; apply Nat.div2_double).
    rewrite E2. apply Nat.eqb_eq in Ds. rewrite Ds. lia.
  - assert (P : 0 < Nat.div2 s) by lia. assert (E1 : s - 1 = S (2 * (Nat.div2 s - 1))) by lia.
    assert (E2 : Nat.div2 (s - 1) = Nat.div2 s - 1) by (rewrite E1; apply Nat.div2_succ_double).
    assert (O1 : Nat.odd (s - 1) = true) by (rewrite E1, Nat.odd_succ, Nat.even_mul; reflexivity).
    rewrite E2, O1. cbn [andb]. assert (Q : Nat.div2 i < Nat.div2 s) by (destruct (Nat.odd i); cbn [Nat.b2n] in Ei; lia).
    pose proof (IH (Nat.div2 s) ltac:(lia) (Nat.div2 w) (Nat.div2 i) Ds Di Q). destruct (Nat.odd i); cbn [Nat.b2n] in Ei; [rewrite Bi by reflexivity; cbn [Nat.b2n]; lia|]. lia.
Qed.
Lemma land_submask a w : submask (Nat.land a w) w = true.
Proof. apply submask_bits. intros b. rewrite Nat.land_spec. intros H. apply andb_prop in H. tauto. Qed.

Section Ops.
  Context {R : Type} (zero one : R) (add mul sub : R -> R -> R) (opp : R -> R).
  Hypothesis Rth : ring_theory zero one add mul sub opp (@eq R).
  Add Ring Rk2 : Rth.
  Local Notation rsum := (rsum zero add). Local Notation rprod := (rprod one mul).
  Local Notation kconv := (kconv zero add mul).
  Local Notation full A := (full zero one add mul A).
  Local Notation Ap := (Aplus zero one). Local Notation Am := (Aminus zero one opp). Local Notation Aw := (Awht one opp).
  Local Notation ind := (ind zero one).

  (** slow convolution adds onto r *)
  Lemma slow_k_spec n op r f g F G Rr : (forall i j, i < n -> j < n -> op i j < n) -> arr n r Rr -> arr n f F -> arr n g G ->
    exists r', slow_k_convolution add mul r f g n op = Some r' /\ arr n r' (fun k => add (Rr k) (kconv n op F G k)).
  Proof using Rth.
    intros Hop Hr Hf Hg. unfold slow_k_convolution.
    set (t := fun k i j => if op i j =? k then mul (F i) (G j) else zero).
    match goal with |- context [for_range 0 n ?body r] => destruct (for_range_spec (fun i r => arr n r (fun k => add (Rr k) (rsum i (fun i => rsum n (t k i))))) body 0 n r) as (r' & E & H) end.
    - lia.
    - apply arr_ext with (1 := Hr). intros k _. cbn. ring.
    - intros i u Hi Hu. match goal with |- context [for_range 0 n ?body u] => destruct (for_range_spec (fun j r => arr n r (fun k => add (add (Rr k) (rsum i (fun i => rsum n (t k i)))) (rsum j (t k i)))) body 0 n u) as (u' & E & H) end.
      + lia.
      + apply arr_ext with (1 := Hu). intros k _. cbn. ring.
      + intros j v Hj Hv. rewrite (proj2 Hf), (proj2 Hg) by lia. cbn [obind]. assert (Lt : op i j < n) by (apply Hop; lia). rewrite (proj2 Hv) by exact Lt. cbn [obind].
        destruct (arr_set n v _ (op i j) (add (add (add (Rr (op i j)) (rsum i (fun i0 => rsum n (t (op i j) i0)))) (rsum j (t (op i j) i))) (mul (F i) (G j))) Hv Lt) as (v' & Ev & Hv').
        exists v'. split; [exact Ev|]. apply arr_ext with (1 := Hv'). intros k _. rewrite rsum_S. destruct (Nat.eqb_spec k (op i j)) as [->|N].
        * replace (t (op i j) i j) with (mul (F i) (G j)) by (unfold t; rewrite Nat.eqb_refl; reflexivity). ring.
        * replace (t k i j) with zero; [ring|]. unfold t. destruct (Nat.eqb_spec (op i j) k); [congruence|reflexivity].
      + exists u'. split; [exact E|]. apply arr_ext with (1 := H). intros k _. rewrite rsum_S. ring.
    - exists r'. split; [exact E|]. exact H.
  Qed.

  (** pointwise product with possible aliasing *)
  Lemma times_spec (e : @aenv R) r f g n F G : length (e r) = n -> arr n (e f) F -> arr n (e g) G ->
    exists e', times_loop mul e r f g n = Some e' /\ arr n (e' r) (fun k => mul (F k) (G k)) /\ forall x, x <> r -> e' x = e x.
  Proof using.
    intros Hr Hf Hg. unfold times_loop.
    match goal with |- context [for_range 0 n ?body e] => destruct (for_range_spec (fun k e' => length (e' r) = n /\ (forall j, j < k -> nth_error (e' r) j = Some (mul (F j) (G j))) /\
      (forall x j, k <= j -> nth_error (e' x) j = nth_error (e x) j) /\ forall x, x <> r -> e' x = e x) body 0 n e) as (e' & E & H1 & H2 & H3 & H4) end.
    - lia.
    - repeat split; auto. intros j Hj. lia.
    - intros k e' Hk (H1 & H2 & H3 & H4). rewrite !H3, (proj2 Hf), (proj2 Hg) by lia. cbn [obind].
      destruct (set_nth_some (e' r) k (mul (F k) (G k))) as (l & El); [lia|]. rewrite El. cbn [obind]. eexists. split; [reflexivity|]. unfold aset. rewrite Nat.eqb_refl. repeat split.
      + rewrite (set_nth_length _ _ _ _ El). exact H1.
      + intros j Hj. rewrite (set_nth_get _ _ _ _ j El). destruct (Nat.eqb_spec k j) as [->|]; [reflexivity|]. apply H2. lia.
      + intros x j Hj. destruct (Nat.eqb_spec x r) as [->|]; [|apply H3; lia]. rewrite (set_nth_get _ _ _ _ j El). destruct (Nat.eqb_spec k j); [lia|]. apply H3. lia.
      + intros x Hx. destruct (Nat.eqb_spec x r); [contradiction|]. apply H4. exact Hx.
    - exists e'. split; [exact E|]. split; [|exact H4]. split; [exact H1|]. intros k Hk. apply H2. exact Hk.
  Qed.

  Lemma on_spec (e : @aenv R) n f tr F F' : arr n (e f) F -> (forall l, arr n l F -> exists l', tr l = Some l' /\ arr n l' F') ->
    exists e', on e f tr = Some e' /\ arr n (e' f) F' /\ forall x, x <> f -> e' x = e x.
  Proof using.
    intros Hf Ht. unfold on. destruct (Ht _ Hf) as (l' & E & H). rewrite E. cbn [obind]. eexists. split; [reflexivity|]. unfold aset. rewrite Nat.eqb_refl. split; [exact H|].
    intros x Hx. destruct (Nat.eqb_spec x f); [contradiction|reflexivity].
  Qed.
  (** transform f, and g too unless it is the same array *)
  Lemma on_both (e : @aenv R) n f g (step : @aenv R -> nat -> option (@aenv R)) F G (TF : (nat -> R) -> nat -> R) : arr n (e f) F -> arr n (e g) G ->
    (forall e x F, arr n (e x) F -> exists e', step e x = Some e' /\ arr n (e' x) (TF F) /\ forall y, y <> x -> e' y = e y) ->
    exists e1 e', step e f = Some e1 /\ (if g =? f then Some e1 else step e1 g) = Some e' /\ arr n (e' f) (TF F) /\ arr n (e' g) (TF G) /\ forall x, x <> f -> x <> g -> e' x = e x.
  Proof using.
    intros Hf Hg Ht. destruct (Ht e f F Hf) as (e1 & E1 & H1 & O1). exists e1. destruct (Nat.eqb_spec g f) as [->|N].
    - exists e1. split; [exact E1|]. split; [reflexivity|]. split; [exact H1|]. split; [|intros x Hx _; apply O1; exact Hx].
      destruct (Ht e f G Hg) as (e1' & E1' & H1' & _). rewrite E1 in E1'. injection E1' as <-. exact H1'.
    - destruct (Ht e1 g G) as (e2 & E2 & H2 & O2); [rewrite O1 by exact N; exact Hg|]. exists e2. split; [exact E1|]. split; [exact E2|]. split; [rewrite O2 by congruence; exact H1|]. split; [exact H2|].
      intros x Hx Hxg. rewrite O2, O1 by assumption. reflexivity.
  Qed.
  Lemma lift_step n tr (TF : (nat -> R) -> nat -> R) : (forall l F, arr n l F -> exists l', tr l = Some l' /\ arr n l' (TF F)) ->
    forall (e : @aenv R) x F, arr n (e x) F -> exists e', on e x tr = Some e' /\ arr n (e' x) (TF F) /\ forall y, y <> x -> e' y = e y.
  Proof using. intros H e x F Hx. apply (on_spec e n x tr F (TF F) Hx). intros l. apply H. Qed.
  Lemma post_len (e e1 : @aenv R) r f g n F1 G1 : length (e r) = n -> arr n (e1 f) F1 -> arr n (e1 g) G1 -> (forall x, x <> f -> x <> g -> e1 x = e x) -> length (e1 r) = n.
  Proof using. intros Hr HF HG O. destruct (Nat.eq_dec r f) as [->|N1]; [apply HF|]. destruct (Nat.eq_dec r g) as [->|N2]; [apply HG|]. rewrite O by assumption. exact Hr. Qed.

  Lemma plus_spec L l F : arr (2 ^ L) l F -> exists l', arith_plus add l L = Some l' /\ arr (2 ^ L) l' (full Ap L F).
  Proof using Rth. apply (dif_spec _ _ _ _ _ _ Rth). intros u v. unfold trA, Aplus, ConvProofs.ind. f_equal; ring. Qed.
  Lemma minus_spec L l F : arr (2 ^ L) l F -> exists l', arith_minus sub l L = Some l' /\ arr (2 ^ L) l' (full Am L F).
  Proof using Rth. apply (dif_spec _ _ _ _ _ _ Rth). intros u v. unfold trA, Aminus. f_equal; ring. Qed.
  Lemma wht_spec L l F : arr (2 ^ L) l F -> exists l', walsh_hadamard add sub l L = Some l' /\ arr (2 ^ L) l' (full Aw L F).
  Proof using Rth. apply (dif_spec _ _ _ _ _ _ Rth). intros u v. unfold trA, Awht. cbn [andb]. f_equal; ring. Qed.
  Lemma rpow_one n : rpow one mul one n = one. Proof using Rth. apply (rpow_1 _ _ _ _ _ _ Rth). Qed.
  Lemma minus_plus L f k : k < 2 ^ L -> full Am L (full Ap L f) k = f k.
  Proof using Rth. intros Hk. rewrite (full_full _ _ _ _ _ _ Rth Ap Am L one f k Hk); [rewrite rpow_one; ring|]. intros [] []; cbn; ring. Qed.
  Lemma plus_minus L f k : k < 2 ^ L -> full Ap L (full Am L f) k = f k.
  Proof using Rth. intros Hk. rewrite (full_full _ _ _ _ _ _ Rth Am Ap L one f k Hk); [rewrite rpow_one; ring|]. intros [] []; cbn; ring. Qed.
  Lemma two_pow L : rpow one mul (add one one) L = rnat zero one add (2 ^ L).
  Proof using Rth. induction L as [|L IH]; [cbn; ring|]. rewrite rpow_S, IH. replace (2 ^ S L) with (2 ^ L + 2 ^ L) by (cbn [Nat.pow]; lia). rewrite (rnat_add _ _ _ _ _ _ Rth). ring. Qed.
  Lemma wht_wht L f k : k < 2 ^ L -> full Aw L (full Aw L f) k = mul (rnat zero one add (2 ^ L)) (f k).
  Proof using Rth. intros Hk. rewrite (full_full _ _ _ _ _ _ Rth Aw Aw L (add one one) f k Hk); [rewrite two_pow; reflexivity|]. intros [] []; cbn; ring. Qed.
  Lemma lor_lt L i j : i < 2 ^ L -> j < 2 ^ L -> Nat.lor i j < 2 ^ L.
  Proof using. intros Hi Hj. apply tb_bound. intros b Hb. rewrite Nat.lor_spec, !(tb_high _ L) by assumption. reflexivity. Qed.
  Lemma lxor_lt L i j : i < 2 ^ L -> j < 2 ^ L -> Nat.lxor i j < 2 ^ L.
  Proof using. intros Hi Hj. apply tb_bound. intros b Hb. rewrite Nat.lxor_spec, !(tb_high _ L) by assumption. reflexivity. Qed.
  Lemma land_lt L i j : i < 2 ^ L -> Nat.land i j < 2 ^ L.
  Proof using. intros Hi. apply tb_bound. intros b Hb. rewrite Nat.land_spec, (tb_high i L) by assumption. reflexivity. Qed.
  Lemma plus_or L f g k : full Ap L (kconv (2 ^ L) Nat.lor f g) k = mul (full Ap L f k) (full Ap L g k).
  Proof using Rth. apply (full_conv _ _ _ _ _ _ Rth) with (bop := orb); [intros; apply Nat.lor_spec|intros; apply lor_lt; assumption|]. intros [] [] []; cbn; ring. Qed.
  Lemma wht_xor L f g k : full Aw L (kconv (2 ^ L) Nat.lxor f g) k = mul (full Aw L f k) (full Aw L g k).
  Proof using Rth. apply (full_conv _ _ _ _ _ _ Rth) with (bop := xorb); [intros; apply Nat.lxor_spec|intros; apply lxor_lt; assumption|]. intros [] [] []; cbn; ring. Qed.

  Lemma or_spec (e : @aenv R) r f g L F G : length (e r) = 2 ^ L -> arr (2 ^ L) (e f) F -> arr (2 ^ L) (e g) G ->
    exists e', or_convolution add sub mul e r f g L = Some e' /\ arr (2 ^ L) (e' r) (kconv (2 ^ L) Nat.lor F G) /\ forall x, x <> r -> x <> f -> x <> g -> e' x = e x.
  Proof using Rth.
    intros Hr Hf Hg. unfold or_convolution.
    destruct (on_both e (2 ^ L) f g (fun e x => on e x (fun l => arith_plus add l L)) F G (full Ap L) Hf Hg (lift_step _ _ _ (plus_spec L))) as (e0 & e1 & E0 & E1 & F1 & G1 & O1).
    rewrite E0. cbn [obind]. rewrite E1. cbn [obind]. pose proof (post_len e e1 r f g _ _ _ Hr F1 G1 O1) as L1.
    destruct (times_spec e1 r f g (2 ^ L) _ _ L1 F1 G1) as (e2 & E2 & R2 & O2). rewrite E2. cbn [obind].
    destruct (on_spec e2 (2 ^ L) r (fun l => arith_minus sub l L) _ _ R2 (fun l => minus_spec L l _)) as (e3 & E3 & R3 & O3). exists e3. split; [exact E3|]. split.
    - apply arr_ext with (1 := R3). intros k Hk. rewrite <- (minus_plus L (kconv (2 ^ L) Nat.lor F G) k Hk). apply full_ext. intros i _. symmetry. apply plus_or.
    - intros x X1 X2 X3. rewrite O3, O2, O1 by assumption. reflexivity.
  Qed.

  Lemma compl_bits L k b : k < 2 ^ L -> tb (2 ^ L - 1 - k) b = (b <? L) && negb (tb k b).
  Proof using.
    intros Hk. set (c := Nat.lxor k (2 ^ L - 1)).
    assert (On : forall b, tb (2 ^ L - 1) b = (b <? L)).
    { intros b'. replace (2 ^ L - 1) with (Nat.ones L) by (rewrite Nat.ones_equiv; lia). destruct (Nat.ltb_spec b' L); [apply Nat.ones_spec_low; lia|apply Nat.ones_spec_high; lia]. }
    assert (Cb : forall b, tb c b = (b <? L) && negb (tb k b)).
    { intros b'. unfold c. rewrite Nat.lxor_spec, On. destruct (Nat.ltb_spec b' L); [destruct (tb k b'); reflexivity|]. rewrite (tb_high k L) by assumption. reflexivity. }
    replace (2 ^ L - 1 - k) with c; [apply Cb|].
    assert (S : k + c = 2 ^ L - 1).
    { rewrite Nat.add_nocarry_lxor.
      - apply Nat.bits_inj. intros b'. rewrite Nat.lxor_spec, Cb, On. destruct (Nat.ltb_spec b' L); [destruct (tb k b'); reflexivity|]. rewrite (tb_high k L) by assumption. reflexivity.
      - apply Nat.bits_inj. intros b'. rewrite Nat.land_spec, Cb, Nat.bits_0. destruct (tb k b'), (b' <? L); reflexivity. }
    lia.
  Qed.
  Lemma or_and L F G k : k < 2 ^ L -> kconv (2 ^ L) Nat.lor (fun i => F (2 ^ L - 1 - i)) (fun i => G (2 ^ L - 1 - i)) (2 ^ L - 1 - k) = kconv (2 ^ L) Nat.land F G k.
  Proof using Rth.
    intros Hk. unfold ConvSpec.kconv. set (n := 2 ^ L). rewrite (rsum_rev _ _ _ _ _ _ Rth). apply rsum_ext. intros i Hi. rewrite (rsum_rev _ _ _ _ _ _ Rth). apply rsum_ext. intros j Hj.
    replace (n - 1 - (n - 1 - i)) with i by lia. replace (n - 1 - (n - 1 - j)) with j by lia.
    replace (Nat.lor (n - 1 - i) (n - 1 - j) =? n - 1 - k) with (Nat.land i j =? k); [reflexivity|].
    assert (E : Nat.lor (n - 1 - i) (n - 1 - j) = n - 1 - Nat.land i j).
    { unfold n in *. apply Nat.bits_inj. intros b. rewrite Nat.lor_spec, !compl_bits, Nat.land_spec by (try apply land_lt; assumption). destruct (b <? L), (tb i b), (tb j b); reflexivity. }
    rewrite E. pose proof (land_lt L i j Hi). fold n in H, Hk. destruct (Nat.eqb_spec (Nat.land i j) k), (Nat.eqb_spec (n - 1 - Nat.land i j) (n - 1 - k)); try reflexivity; lia.
  Qed.
  Lemma and_spec (e : @aenv R) r f g L F G : length (e r) = 2 ^ L -> arr (2 ^ L) (e f) F -> arr (2 ^ L) (e g) G ->
    exists e', and_convolution add sub mul e r f g L = Some e' /\ arr (2 ^ L) (e' r) (kconv (2 ^ L) Nat.land F G) /\ forall x, x <> r -> x <> f -> x <> g -> e' x = e x.
  Proof using Rth.
    intros Hr Hf Hg. unfold and_convolution. cbv zeta. set (n := 2 ^ L) in *.
    assert (St : forall (e : @aenv R) x F, arr n (e x) F -> exists e', (let* e := on e x (areverse n) in on e x (fun l => arith_plus add l L)) = Some e' /\ arr n (e' x) (full Ap L (fun k => F (n - 1 - k))) /\ forall y, y <> x -> e' y = e y).
    { intros e' x F' Hx. destruct (lift_step n (areverse n) (fun F k => F (n - 1 - k)) (fun l F => arr_rev n l F) e' x F' Hx) as (e1 & E1 & R1 & O1). rewrite E1. cbn [obind].
      destruct (lift_step n (fun l => arith_plus add l L) (full Ap L) (plus_spec L) e1 x _ R1) as (e2 & E2 & R2 & O2). exists e2. split; [exact E2|]. split; [exact R2|]. intros y Hy. rewrite O2, O1 by exact Hy. reflexivity. }
    destruct (on_both e n f g _ F G _ Hf Hg St) as (e0 & e1 & E0 & E1 & F1 & G1 & O1).
    destruct (on e f (areverse n)) as [ea|]; [|discriminate]. cbn [obind] in *. rewrite E0. cbn [obind]. rewrite E1. cbn [obind]. pose proof (post_len e e1 r f g _ _ _ Hr F1 G1 O1) as L1.
    destruct (times_spec e1 r f g n _ _ L1 F1 G1) as (e2 & E2 & R2 & O2). rewrite E2. cbn [obind].
    destruct (lift_step n _ (full Am L) (minus_spec L) e2 r _ R2) as (e3 & E3 & R3 & O3). rewrite E3. cbn [obind].
    destruct (lift_step n (areverse n) (fun F k => F (n - 1 - k)) (fun l F => arr_rev n l F) e3 r _ R3) as (e4 & E4 & R4 & O4). exists e4. split; [exact E4|]. split.
    - apply arr_ext with (1 := R4). intros k Hk. unfold n in *. rewrite <- (or_and L F G k Hk). rewrite <- (minus_plus L (kconv (2 ^ L) Nat.lor _ _)) by lia. apply full_ext. intros i _. symmetry. apply plus_or.
    - intros x X1 X2 X3. rewrite O4, O3, O2, O1 by assumption. reflexivity.
  Qed.
  Lemma xor_spec (tdivn : R -> nat -> option R) (e : @aenv R) r f g L F G : (forall x, tdivn (mul (rnat zero one add (2 ^ L)) x) (2 ^ L) = Some x) ->
    length (e r) = 2 ^ L -> arr (2 ^ L) (e f) F -> arr (2 ^ L) (e g) G ->
    exists e', xor_convolution add sub mul tdivn e r f g L = Some e' /\ arr (2 ^ L) (e' r) (kconv (2 ^ L) Nat.lxor F G) /\ forall x, x <> r -> x <> f -> x <> g -> e' x = e x.
  Proof using Rth.
    intros Hdiv Hr Hf Hg. unfold xor_convolution. cbv zeta. set (n := 2 ^ L) in *.
    destruct (on_both e n f g (fun e x => on e x (fun l => walsh_hadamard add sub l L)) F G (full Aw L) Hf Hg (lift_step _ _ _ (wht_spec L))) as (e0 & e1 & E0 & E1 & F1 & G1 & O1).
    rewrite E0. cbn [obind]. rewrite E1. cbn [obind]. pose proof (post_len e e1 r f g _ _ _ Hr F1 G1 O1) as L1.
    destruct (times_spec e1 r f g n _ _ L1 F1 G1) as (e2 & E2 & R2 & O2). rewrite E2. cbn [obind].
    destruct (lift_step n _ (full Aw L) (wht_spec L) e2 r _ R2) as (e3 & E3 & R3 & O3). rewrite E3. cbn [obind].
    set (Q := kconv n Nat.lxor F G).
    assert (R3' : arr n (e3 r) (fun k => mul (rnat zero one add n) (Q k))).
    { apply arr_ext with (1 := R3). intros k Hk. unfold n, Q in *. rewrite <- wht_wht by exact Hk. apply full_ext. intros i _. symmetry. apply wht_xor. }
    destruct (on_spec e3 n r (fun l => for_range 0 n (fun k l => let* x := nth_error l k in let* y := tdivn x n in set_nth l k y) l) _ Q R3') as (e4 & E4 & R4 & O4).
    { intros l Hl. destruct (for_range_spec (fun k l => arr n l (fun j => if j <? k then Q j else mul (rnat zero one add n) (Q j))) (fun k l => let* x := nth_error l k in let* y := tdivn x n in set_nth l k y) 0 n l) as (l' & E & H).
      - lia.
      - apply arr_ext with (1 := Hl). intros k _. reflexivity.
      - intros k u Hk Hu. rewrite (proj2 Hu) by lia. rewrite Nat.ltb_irrefl. cbn [obind]. rewrite Hdiv. cbn [obind]. destruct (arr_set n u _ k (Q k) Hu) as (u' & Eu & Hu'); [lia|]. exists u'. split; [exact Eu|].
        apply arr_ext with (1 := Hu'). intros j _. destruct (Nat.eqb_spec j k) as [->|]; [destruct (Nat.ltb_spec k (S k)); [reflexivity|lia]|]. destruct (Nat.ltb_spec j k), (Nat.ltb_spec j (S k)); try reflexivity; lia.
      - exists l'. split; [exact E|]. apply arr_ext with (1 := H). intros k Hk. destruct (Nat.ltb_spec k n); [reflexivity|lia]. }
    exists e4. split; [exact E4|]. split; [exact R4|]. intros x X1 X2 X3. rewrite O4, O3, O2, O1 by assumption. reflexivity.
  Qed.

  Lemma kconv_max n F G k : k < n -> kconv n Nat.max F G k = add (add (mul (F k) (G k)) (mul (rsum k F) (G k))) (mul (rsum k G) (F k)).
  Proof using Rth.
    intros Hk. unfold ConvSpec.kconv. rewrite (rsum_trunc _ _ _ _ _ _ Rth n (S k)); [|lia|].
    2:{ intros i Hi. apply (rsum_zero _ _ _ _ _ _ Rth). intros j _. destruct (Nat.eqb_spec (Nat.max i j) k); [lia|reflexivity]. }
    rewrite rsum_S. rewrite (rsum_ext _ _ k _ (fun i => mul (F i) (G k))).
    2:{ intros i Hi. rewrite (rsum_single _ _ _ _ _ _ Rth n _ k Hk); [destruct (Nat.eqb_spec (Nat.max i k) k); [reflexivity|lia]|]. intros j _ Hj. destruct (Nat.eqb_spec (Nat.max i j) k); [lia|reflexivity]. }
    rewrite (rsum_mul_r _ _ _ _ _ _ Rth). rewrite (rsum_trunc _ _ _ _ _ _ Rth n (S k)); [|lia|].
    2:{ intros j Hj. destruct (Nat.eqb_spec (Nat.max k j) k); [lia|reflexivity]. }
    rewrite (rsum_ext _ _ (S k) _ (fun j => mul (F k) (G j))) by (intros j Hj; destruct (Nat.eqb_spec (Nat.max k j) k); [reflexivity|lia]).
    rewrite rsum_S, (rsum_mul_l _ _ _ _ _ _ Rth). ring.
  Qed.
  Lemma max_spec (e : @aenv R) r f g n F G : length (e r) = n -> arr n (e f) F -> arr n (e g) G ->
    exists e', max_convolution zero add mul e r f g n = Some e' /\ arr n (e' r) (kconv n Nat.max F G) /\ forall x, x <> r -> e' x = e x.
  Proof using Rth.
    intros Hr Hf Hg. unfold max_convolution. set (Q := kconv n Nat.max F G).
    match goal with |- context [for_range 0 n ?body (e, zero, zero)] => destruct (for_range_spec (fun k '(e', sf, sg) => (length (e' r) = n /\ (forall j, j < k -> nth_error (e' r) j = Some (Q j)) /\
      (forall x j, k <= j -> nth_error (e' x) j = nth_error (e x) j) /\ (forall x, x <> r -> e' x = e x)) /\ sf = rsum k F /\ sg = rsum k G) body 0 n (e, zero, zero)) as ([[e' sf] sg] & E & (H1 & H2 & H3 & H4) & _) end.
    - lia.
    - repeat split; auto. intros j Hj. lia.
    - intros k [[e' sf] sg] Hk ((H1 & H2 & H3 & H4) & -> & ->). rewrite !H3, (proj2 Hf), (proj2 Hg) by lia. cbn [obind].
      match goal with |- context [set_nth (e' r) k ?v] => replace v with (Q k) by (unfold Q; rewrite kconv_max by lia; reflexivity) end.
      destruct (set_nth_some (e' r) k (Q k)) as (l & El); [lia|]. rewrite El. cbn [obind]. eexists. split; [reflexivity|]. split; [|split; reflexivity]. unfold aset. rewrite Nat.eqb_refl. repeat split.
      + rewrite (set_nth_length _ _ _ _ El). exact H1.
      + intros j Hj. rewrite (set_nth_get _ _ _ _ j El). destruct (Nat.eqb_spec k j) as [->|]; [reflexivity|]. apply H2. lia.
      + intros x j Hj. destruct (Nat.eqb_spec x r) as [->|]; [|apply H3; lia]. rewrite (set_nth_get _ _ _ _ j El). destruct (Nat.eqb_spec k j); [lia|]. apply H3. lia.
      + intros x Hx. destruct (Nat.eqb_spec x r); [contradiction|]. apply H4. exact Hx.
    - rewrite E. cbn [obind]. exists e'. split; [reflexivity|]. split; [|exact H4]. split; [exact H1|]. intros k Hk. apply H2. exact Hk.
  Qed.
End Ops.
