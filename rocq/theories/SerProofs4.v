(** Powers of series. *)
From Coq Require Import Ring Ring_theory Setoid Morphisms.
From Verif Require Import Lib BaseModel BaseProofs RingSpec RingProofs SeriesSpec SeriesProofs PolyModel PolyProofs PolyProofs3 PolyProofs4 PolyProofs5 ModPowProofs SerSpec SerModel SerProofs SerProofs2 SerProofs3.
Open Scope Z_scope.

Section SerProofs4.
  Context {R : Type} (zero one : R) (add mul sub : R -> R -> R) (opp : R -> R).
  Hypothesis Rth : ring_theory zero one add mul sub opp (@eq R).
  Add Ring RsX : Rth.
  Variable tdiv : R -> R -> option R.
  Variable eqb : R -> R -> bool.
  Hypothesis eqb_spec : forall x y, eqb x y = true <-> x = y.
  Hypothesis H10 : one <> zero.
  Hypothesis Hd : forall x y u, mul y u = one -> tdiv x y = Some (mul x u).
  Variable ofint : Z -> R.
  Hypothesis Hof : forall n, ofint (Z.of_nat n) = rnat zero one add n.
  Variable thr : Z.
  Local Notation rsum := (rsum zero add). Local Notation rnat := (rnat zero one add). Local Notation rpow := (rpow one mul).
  Local Notation pconv := (pconv zero add mul). Local Notation pconst := (pconst zero).
  Local Notation ppow := (ppow zero one add mul). Local Notation D := (pderiv zero one add mul). Local Notation psubst := (psubst zero one add mul). Local Notation px := (px zero one).
  Local Notation coef := (coef zero). Local Notation at_ := (p_at zero).
  Local Notation resize := (p_resize zero).
  Local Notation s_add := (s_add zero add eqb). Local Notation s_sub := (s_sub zero sub eqb).
  Local Notation s_mul := (s_mul zero add sub mul eqb thr). Local Notation s_smul := (s_smul zero mul eqb). Local Notation s_sdiv := (s_sdiv zero tdiv eqb).
  Local Notation s_inverse := (s_inverse zero one add sub mul opp tdiv eqb thr). Local Notation s_div := (s_div zero one add sub mul opp tdiv eqb thr).
  Local Notation s_derivative := (s_derivative zero mul eqb ofint). Local Notation s_integral := (s_integral zero tdiv eqb ofint).
  Local Notation s_ln := (s_ln zero one add sub mul opp tdiv eqb ofint thr). Local Notation s_exp := (s_exp zero one add sub mul opp tdiv eqb ofint thr).
  Local Notation f0 := (f0 zero). Local Notation f1 := (f1 zero one). Local Notation fc := (fc zero).
  Local Notation fadd := (fadd add). Local Notation fsub := (fsub sub). Local Notation fmul := (fmul zero add mul). Local Notation fopp := (fopp opp). Local Notation val := (val zero).
  Local Infix "==" := feq (at level 70). Local Infix "+!" := fadd (at level 50, left associativity). Local Infix "-!" := fsub (at level 50, left associativity). Local Infix "*!" := fmul (at level 40, left associativity).
  Instance feq_equivX : Equivalence (@feq R) := feq_equiv.
  Instance fadd_extX : Proper (feq ==> feq ==> feq) fadd := fadd_ext add. Instance fsub_extX : Proper (feq ==> feq ==> feq) fsub := fsub_ext sub. Instance fopp_extX : Proper (feq ==> feq) fopp := fopp_ext opp. Instance fmul_extX : Proper (feq ==> feq ==> feq) fmul := fmul_ext zero add mul.
  Instance eqn_equivX n : Equivalence (@eqn R n) := eqn_equiv n. Instance eqn_properX n : Proper (feq ==> feq ==> iff) (@eqn R n) := eqn_proper n.
  Instance fadd_eqnX n : Proper (eqn n ==> eqn n ==> eqn n) fadd := fadd_eqn add n. Instance fsub_eqnX n : Proper (eqn n ==> eqn n ==> eqn n) fsub := fsub_eqn sub n. Instance fopp_eqnX n : Proper (eqn n ==> eqn n) fopp := fopp_eqn opp n. Instance fmul_eqnX n : Proper (eqn n ==> eqn n ==> eqn n) fmul := fmul_eqn zero add mul n.
  Instance val_properX n : Proper (feq ==> iff) (val n) := val_proper zero n. Instance D_extX : Proper (feq ==> feq) D := D_ext zero one add mul. Instance ppow_extX : Proper (feq ==> eq ==> feq) ppow := ppow_ext zero one add mul.
  Add Ring FsX : (fring zero one add mul sub opp Rth) (setoid (@fset R) (fext zero add mul opp)).
  Local Notation s_pow_f := (s_pow_f zero one add sub mul opp tdiv eqb ofint thr).
  Local Notation smulo := (smulo zero add sub mul eqb thr).
  Local Notation pshift := (pshift zero).

  Lemma npow_nat n k : npow Nat.add 0%nat n k = (n * k)%nat.
  Proof. induction k as [|k IH]; cbn [npow]; [lia|]. rewrite IH. lia. Qed.
  Lemma powT_series a y : (1 <= length a)%nat -> 0 <= y ->
    exists r, (let* r := powT smulo (Some (resize [one] (length a))) (Some a) y in r) = Some r /\ length r = length a /\ eqn (length a) (coef r) (ppow (coef a) (Z.to_nat y)).
  Proof using Rth eqb_spec.
    intros L Y. destruct (powT_rel smulo (Some (resize [one] (length a))) Nat.add 0%nat) with (R := fun x n => exists r, x = Some r /\ length r = length a /\ eqn (length a) (coef r) (ppow (coef a) n)) (x := Some a) (x' := 1%nat) (y := y) as (o & E & r & Eo & Lr & V).
    - intros; lia.
    - intros; lia.
    - intros; lia.
    - eexists. split; [reflexivity|]. split; [apply len_resize|]. intros i I. now apply coef_one.
    - intros x n x2 n2 (r & -> & Lr & Vr) (r2 & -> & L2 & V2). unfold SerModel.smulo. cbn [obind]. destruct (s_mul_spec _ _ _ _ _ _ Rth eqb eqb_spec thr r r2) as (z & Ez & Lz & Vz); [lia|]. exists z. split; [exact Ez|]. split; [lia|].
      rewrite (ppow_add zero one add mul sub opp Rth). rewrite <- Vr, <- V2. intros i I. apply Vz. lia.
    - eexists. split; [reflexivity|]. split; [reflexivity|]. apply eqn_feq. cbn [SerSpec.ppow]. change (coef a == f1 *! coef a). ring.
    - exact Y.
    - rewrite E. cbn [obind]. exists r. rewrite npow_nat, Nat.mul_1_l in V. auto.
  Qed.
  Lemma rpow_add x n m : rpow x (n + m) = mul (rpow x n) (rpow x m).
  Proof using Rth. induction n as [|n IH]; cbn [Nat.add RingSpec.rpow]; [ring|]. rewrite IH. ring. Qed.
  Lemma powT_scalar c y : 0 <= y -> powT mul one c y = Some (rpow c (Z.to_nat y)).
  Proof using Rth.
    intros Y. destruct (powT_rel mul one Nat.add 0%nat) with (R := fun x n => x = rpow c n) (x := c) (x' := 1%nat) (y := y) as (o & E & V); try (intros; lia); [reflexivity| |cbn; ring|].
    - intros a n b m -> ->. now rewrite rpow_add.
    - rewrite E, V, npow_nat, Nat.mul_1_l. reflexivity.
  Qed.
  Variable inv : nat -> R.
  Local Notation pexp := (pexp zero one add mul inv).
  Lemma pow_one_core a c : (forall i, (1 <= i <= length a)%nat -> mul (rnat i) (inv i) = one) -> coef a 0 = one ->
    exists r, (let* g := s_ln a zero in let* g := s_smul g c in s_exp g) = Some r /\ length r = length a /\ coef r 0 = one /\
      exists g, eqn (length a - 1) (D g *! coef a) (D (coef a)) /\ eqn (length a - 1) (D (coef r)) (fc c *! D g *! coef r).
  Proof using Rth eqb_spec H10 Hd Hof.
    intros Hi A0. assert (U : mul (coef a 0) one = one) by (rewrite A0; ring). pose proof (unit_len _ _ _ _ _ _ Rth H10 a one U) as L1.
    destruct (s_ln_spec _ _ _ _ _ _ Rth tdiv eqb eqb_spec H10 Hd ofint Hof thr inv a one zero Hi U) as (g & Eg & Lg & G0 & Vg). rewrite Eg. cbn [obind].
    destruct (s_smul_spec _ _ _ _ _ _ Rth eqb eqb_spec g c) as (g2 & E2 & L2 & V2). rewrite E2. cbn [obind]. rewrite Lg in *.
    destruct (s_exp_spec _ _ _ _ _ _ Rth tdiv eqb eqb_spec H10 Hd ofint Hof thr inv g2) as (r & Er & Lr & Vr); [rewrite L2; exact Hi|rewrite V2 by lia; rewrite G0; ring|].
    exists r. split; [exact Er|]. split; [lia|]. rewrite L2 in *. split; [rewrite Vr by lia; apply (pexp_0 zero one add mul sub opp Rth)|]. exists (coef g). split; [exact Vg|].
    assert (E : eqn (length a - 1) (D (coef r)) (D (pexp (coef g2)))). { apply D_eqn. intros i I. apply Vr. lia. } rewrite E.
    rewrite (pexp_ode zero one add mul sub opp Rth inv (length a)); [|intros i I; apply Hi; lia|intros i I; replace i with O by lia; rewrite V2 by lia; rewrite G0; ring].
    apply fmul_eqnX; [|intros i I; symmetry; apply Vr; lia]. intros i I. rewrite (fc_mul zero one add mul sub opp Rth). unfold SerSpec.pderiv. rewrite V2 by lia. ring.
  Qed.
  Lemma ppow_0 (a : nat -> R) k : a O = one -> ppow a k O = one.
  Proof using Rth. intros A0. induction k as [|k IH]; [reflexivity|]. cbn [SerSpec.ppow]. unfold SeriesSpec.pconv. cbn. rewrite IH, A0. ring. Qed.
  Lemma D_ppow_log n a g k : eqn n (D g *! a) (D a) -> eqn n (D (ppow a k)) (fc (rnat k) *! D g *! ppow a k).
  Proof using Rth.
    intros G. destruct k as [|k].
    - change (ppow a 0) with f1. rewrite (D_1 zero one add mul sub opp Rth). cbn [RingSpec.rnat]. rewrite (fc_0 zero). apply eqn_feq. ring.
    - rewrite (D_pow zero one add mul sub opp Rth). rewrite <- G. rewrite (ppow_S zero one add mul). apply eqn_feq. ring.
  Qed.
  Lemma pow_one a y : (forall i, (1 <= i <= length a)%nat -> mul (rnat i) (inv i) = one) -> coef a 0 = one -> 0 <= y ->
    exists r, (let* g := s_ln a zero in let* g := s_smul g (ofint y) in s_exp g) = Some r /\ length r = length a /\ eqn (length a) (coef r) (ppow (coef a) (Z.to_nat y)).
  Proof using Rth eqb_spec H10 Hd Hof.
    intros Hi A0 Y. destruct (pow_one_core a (ofint y) Hi A0) as (r & E & L & R0 & g & G & V). exists r. split; [exact E|]. split; [exact L|].
    apply (ode_unique zero one add mul sub opp Rth (length a) (fc (ofint y) *! D g)).
    - intros i I. exists (inv (S i)). apply Hi. lia.
    - now rewrite R0, ppow_0.
    - exact V.
    - rewrite <- (Z2Nat.id y) at 2 by lia. rewrite Hof. now apply D_ppow_log.
  Qed.
  Lemma pow_one_neg a n : (forall i, (1 <= i <= length a)%nat -> mul (rnat i) (inv i) = one) -> coef a 0 = one -> ofint (- Z.of_nat n) = opp (rnat n) ->
    exists r, (let* g := s_ln a zero in let* g := s_smul g (ofint (- Z.of_nat n)) in s_exp g) = Some r /\ length r = length a /\ eqn (length a) (coef r *! ppow (coef a) n) f1.
  Proof using Rth eqb_spec H10 Hd Hof.
    intros Hi A0 Y. destruct (pow_one_core a (ofint (- Z.of_nat n)) Hi A0) as (r & E & L & R0 & g & G & V). exists r. split; [exact E|]. split; [exact L|].
    apply (D_eqn_inv zero one add mul sub opp Rth (length a)).
    - intros i I. exists (inv (S i)). apply Hi. lia.
    - unfold SerProofs.fmul, SeriesSpec.pconv. cbn. rewrite R0, (ppow_0 _ _ A0). ring.
    - rewrite (D_mul zero one add mul sub opp Rth), V, (D_ppow_log _ _ _ n G), (D_1 zero one add mul sub opp Rth), Y.
      assert (Q : fc (opp (rnat n)) == fopp (fc (rnat n))) by (intros [|i]; unfold SerProofs.fc, SerProofs.fopp; cbn; ring). rewrite Q. apply eqn_feq. ring.
  Qed.

  (** constant term 1 *)
  Lemma pow_1 fuel a y th : (forall i, (1 <= i <= length a)%nat -> mul (rnat i) (inv i) = one) -> coef a 0 = one -> 0 <= y ->
    exists r, s_pow_f (S fuel) a y th = Some r /\ length r = length a /\ eqn (length a) (coef r) (ppow (coef a) (Z.to_nat y)).
  Proof using Rth eqb_spec H10 Hd Hof.
    intros Hi A0 Y. assert (L1 : (1 <= length a)%nat) by (apply (unit_len _ _ _ _ _ _ Rth H10 a one); rewrite A0; ring).
    cbn [SerModel.s_pow_f]. destruct (y <? th); [now apply powT_series|]. change 0 with (Z.of_nat 0) at 1 2. rewrite p_at_coef, A0. destruct (eqb one zero) eqn:E; [apply eqb_spec in E; contradiction|]. assert (E1 : eqb one one = true) by now apply eqb_spec. rewrite E1. now apply pow_one.
  Qed.
  (** invertible constant term *)
  Lemma pow_unit fuel a y th u : (forall i, (1 <= i <= length a)%nat -> mul (rnat i) (inv i) = one) -> mul (coef a 0) u = one -> 0 <= y ->
    exists r, s_pow_f (S (S fuel)) a y th = Some r /\ length r = length a /\ eqn (length a) (coef r) (ppow (coef a) (Z.to_nat y)).
  Proof using Rth eqb_spec H10 Hd Hof.
    intros Hi U Y. assert (L1 : (1 <= length a)%nat) by (apply (unit_len _ _ _ _ _ _ Rth H10 a u U)).
    destruct (eqb (coef a 0) one) eqn:E1; [apply eqb_spec in E1; now apply pow_1|].
    remember (S fuel) as f eqn:Ef. cbn [SerModel.s_pow_f]. destruct (y <? th); [now apply powT_series|]. change 0 with (Z.of_nat 0) at 1 2 3 4. rewrite p_at_coef, E1.
    destruct (eqb (coef a 0) zero) eqn:E; [apply eqb_spec in E; rewrite E in U; destruct H10; rewrite <- U; ring|].
    destruct (s_sdiv_spec _ _ _ _ _ _ Rth tdiv eqb eqb_spec Hd a (coef a 0) u U) as (b & Eb & Lb & Vb). rewrite Eb. cbn [obind]. subst f.
    destruct (pow_1 fuel b y 200) as (r & Er & Lr & Vr); [rewrite Lb; exact Hi|rewrite Vb by lia; exact U|exact Y|]. rewrite Er. cbn [obind]. rewrite powT_scalar by exact Y. cbn [obind].
    destruct (s_smul_spec _ _ _ _ _ _ Rth eqb eqb_spec r (rpow (coef a 0) (Z.to_nat y))) as (z & Ez & Lz & Vz). exists z. split; [exact Ez|]. split; [lia|].
    rewrite Lr, Lb in *. intros i I. rewrite Vz by lia. rewrite Vr by lia. symmetry.
    transitivity ((ppow (fc (coef a 0) *! coef b) (Z.to_nat y)) i).
    - apply (ppow_eqn zero one add mul (length a)); [|exact I]. intros j J. rewrite (fc_mul zero one add mul sub opp Rth), Vb by exact J. transitivity (mul (mul (coef a 0) u) (coef a j)); [rewrite U; ring|ring].
    - rewrite (ppow_mult zero one add mul sub opp Rth (fc (coef a 0)) (coef b) (Z.to_nat y) i). transitivity ((fc (rpow (coef a 0) (Z.to_nat y)) *! ppow (coef b) (Z.to_nat y)) i); [|rewrite (fc_mul zero one add mul sub opp Rth); ring].
      apply fmul_extX; [apply (ppow_const zero one add mul sub opp Rth)|reflexivity].
  Qed.
  (** lowest *)
  Lemma lowest_char c l i0 : (forall i, (i < l)%nat -> coef c i = zero) -> coef c l <> zero -> lowest_n zero eqb c i0 = (i0 + l)%nat.
  Proof using eqb_spec.
    revert l i0; induction c as [|x c IH]; intros l i0 H N; [destruct N; now destruct l|]. cbn [lowest_n]. destruct (eqb x zero) eqn:E; cbn [negb].
    - apply eqb_spec in E. destruct l as [|l]; [destruct N; exact E|]. rewrite (IH l (S i0)); [lia|intros i I; apply (H (S i)); lia|exact N].
    - destruct l as [|l]; [lia|]. specialize (H O ltac:(lia)). cbn in H. assert (eqb x zero = true) by now apply eqb_spec. congruence.
  Qed.
  Lemma pshift_pow l b k : ppow (pshift l b) k == pshift (l * k) (ppow b k).
  Proof using Rth.
    induction k as [|k IH].
    - intros i. rewrite Nat.mul_0_r. unfold SeriesSpec.pshift. cbn [Nat.leb]. now rewrite Nat.sub_0_r.
    - intros i. cbn [SerSpec.ppow]. rewrite (pconv_ext _ _ _ _ (pshift (l * k) (ppow b k)) _ (pshift l b)) by (intros; first [reflexivity|apply IH]).
      rewrite (pconv_shift_l _ _ _ _ _ _ Rth). unfold SeriesSpec.pshift at 1 3. destruct (Nat.leb_spec (l * k) i).
      + rewrite (pconv_comm _ _ _ _ _ _ Rth), (pconv_shift_l _ _ _ _ _ _ Rth). unfold SeriesSpec.pshift. destruct (Nat.leb_spec l (i - l * k)), (Nat.leb_spec (l * S k) i); try lia; [|reflexivity]. rewrite (pconv_comm _ _ _ _ _ _ Rth). f_equal. lia.
      + destruct (Nat.leb_spec (l * S k) i); [lia|reflexivity].
  Qed.
  (** zero constant term *)
  Lemma pow_low a l y th u : (forall i, (1 <= i <= length a)%nat -> mul (rnat i) (inv i) = one) -> Z.of_nat (length a) < 2 ^ 31 ->
    (1 <= l)%nat -> (forall i, (i < l)%nat -> coef a i = zero) -> mul (coef a l) u = one -> 0 <= y -> y < 2 ^ 31 -> Z.of_nat l * y <= Z.of_nat (length a) ->
    exists r, s_pow_f 3 a y th = Some r /\ length r = length a /\ eqn (length a) (coef r) (ppow (coef a) (Z.to_nat y)).
  Proof using Rth eqb_spec H10 Hd Hof.
    intros Hi NB L1 HL U Y YB LY. assert (Ll : (l < length a)%nat). { destruct (Nat.lt_ge_cases l (length a)) as [|G]; [assumption|]. rewrite (coef_above zero a) in U by exact G. destruct H10. rewrite <- U. ring. }
    remember 2%nat as f eqn:Ef. cbn [SerModel.s_pow_f]. destruct (y <? th); [now apply powT_series; [lia|]|]. change 0 with (Z.of_nat 0) at 1 2. rewrite p_at_coef, (HL O) by lia. assert (E0 : eqb zero zero = true) by now apply eqb_spec. rewrite E0.
    unfold p_lowest. rewrite (lowest_char a l 0 HL) by (intros X; rewrite X in U; destruct H10; rewrite <- U; ring). cbn [Nat.add].
    destruct (shift_spec zero a (- Z.of_nat l)) as (b & Eb & Lb & Vb); [lia|]. rewrite Eb. cbn [obind]. subst f.
    assert (VB : forall i, coef b i = coef a (i + l)%nat). { intros i. destruct (Nat.lt_ge_cases i (length a)) as [I|I]; [rewrite Vb by exact I; destruct (Z.ltb_spec (Z.of_nat i - - Z.of_nat l) 0); [lia|]; f_equal; lia|]. rewrite !coef_above by lia. reflexivity. }
    destruct (pow_unit 0 b y 200 u) as (r & Er & Lr & Vr); [rewrite Lb; exact Hi|rewrite VB; exact U|exact Y|]. rewrite Er. cbn [obind].
    assert (TI : to_int y = y) by (unfold to_int; rewrite Z.mod_small; lia). rewrite TI. unfold int32. assert (P0 : 0 <= Z.of_nat l * y) by nia. destruct (Z.leb_spec (- 2 ^ 31) (Z.of_nat l * y)), (Z.ltb_spec (Z.of_nat l * y) (2 ^ 31)); try (exfalso; lia). cbn [andb obind].
    assert (KY : Z.of_nat l * y = Z.of_nat (l * Z.to_nat y)) by (rewrite Nat2Z.inj_mul, Z2Nat.id by lia; reflexivity). rewrite KY in *.
    destruct (shift_spec zero r (Z.of_nat (l * Z.to_nat y))) as (z & Ez & Lz & Vz); [lia|]. exists z. split; [exact Ez|]. split; [lia|]. rewrite Lr, Lb in *. intros i I. rewrite Vz by lia.
    assert (AB : coef a == pshift l (coef b)). { intros j. unfold SeriesSpec.pshift. destruct (Nat.leb_spec l j); [rewrite VB; f_equal; lia|now apply HL]. }
    rewrite (ppow_extX _ _ AB _ _ eq_refl i), (pshift_pow l (coef b) (Z.to_nat y) i). unfold SeriesSpec.pshift. destruct (Z.ltb_spec (Z.of_nat i - Z.of_nat (l * Z.to_nat y)) 0), (Nat.leb_spec (l * Z.to_nat y) i); try (exfalso; lia); [reflexivity|].
    rewrite Vr by lia. f_equal. lia.
  Qed.
  (** *** what goes wrong *)
  Lemma loopZ_now {S0 R0} fuel (f : S0 -> option (S0 + R0)) s r : 0 < fuel -> f s = Some (inr r) -> loopZ fuel f s = Some r.
  Proof.
    intros F E. destruct (loopZ_spec f (fun s' => s' = s) (fun r' => r' = r) (fun _ => 0)) with (fuel := fuel) (s := s) as (r' & E' & ->); [intros s' ->; exists (inr r); auto|intros; lia|reflexivity|exact F|exact E'].
  Qed.
  Lemma pow_neg fuel a y th : y < 0 -> y < th -> s_pow_f (S fuel) a y th = Some (resize [one] (length a)).
  Proof.
    intros Y T. cbn [SerModel.s_pow_f]. destruct (Z.ltb_spec y th); [|lia]. unfold powT. rewrite (loopZ_now _ _ _ (Some (resize [one] (length a)))); [reflexivity|lia|]. cbn [powT_step]. destruct (Z.ltb_spec 0 y); [lia|reflexivity].
  Qed.
  Lemma lowest_zeros n i0 : lowest_n zero eqb (repeat zero n) i0 = O.
  Proof using eqb_spec. revert i0; induction n as [|n IH]; intros i0; cbn [repeat lowest_n]; [reflexivity|]. assert (E0 : eqb zero zero = true) by now apply eqb_spec. rewrite E0. cbn [negb]. apply IH. Qed.
  Lemma pow_zero_loops fuel n y : 200 <= y -> s_pow_f fuel (repeat zero n) y 200 = None.
  Proof using eqb_spec.
    intros Y. induction fuel as [|fuel IH]; cbn [SerModel.s_pow_f]; [reflexivity|]. destruct (Z.ltb_spec y 200); [lia|].
    assert (E0 : eqb zero zero = true) by now apply eqb_spec. change 0 with (Z.of_nat 0) at 1. rewrite p_at_coef. assert (C : coef (repeat zero n) 0 = zero) by (destruct n; reflexivity). rewrite C, E0. unfold p_lowest. rewrite lowest_zeros. cbn [Z.of_nat Z.opp].
    assert (SH : s_shift zero (repeat zero n) 0 = Some (repeat zero n)).
    { unfold s_shift. rewrite repeat_length. destruct (Z.leb_spec (Z.abs 0) (Z.of_nat n)); [|lia]. cbn [guard obind]. change (0 <? 0) with false. cbv iota. change (Z.to_nat (Z.abs 0)) with O. cbn [repeat app]. rewrite Nat.sub_0_r. f_equal.
      unfold p_resize. rewrite firstn_firstn, Nat.min_id. rewrite (firstn_all2 (repeat zero n)) by now rewrite repeat_length. rewrite repeat_length, Nat.sub_diag. apply app_nil_r. }
    rewrite SH. cbn [obind]. rewrite IH. reflexivity.
  Qed.
  Lemma pow_overshift a l y u : (forall i, (1 <= i <= length a)%nat -> mul (rnat i) (inv i) = one) ->
    (1 <= l)%nat -> (forall i, (i < l)%nat -> coef a i = zero) -> mul (coef a l) u = one -> 200 <= y -> y < 2 ^ 31 -> Z.of_nat (length a) < Z.of_nat l * y ->
    s_pow_f 3 a y 200 = None.
  Proof using Rth eqb_spec H10 Hd Hof.
    intros Hi L1 HL U Y YB LY. assert (Ll : (l < length a)%nat). { destruct (Nat.lt_ge_cases l (length a)) as [|G]; [assumption|]. rewrite (coef_above zero a) in U by exact G. destruct H10. rewrite <- U. ring. }
    remember 2%nat as f eqn:Ef. cbn [SerModel.s_pow_f]. destruct (Z.ltb_spec y 200); [lia|]. change 0 with (Z.of_nat 0) at 1. rewrite p_at_coef, (HL O) by lia. assert (E0 : eqb zero zero = true) by now apply eqb_spec. rewrite E0.
    unfold p_lowest. rewrite (lowest_char a l 0 HL) by (intros X; rewrite X in U; destruct H10; rewrite <- U; ring). cbn [Nat.add].
    destruct (shift_spec zero a (- Z.of_nat l)) as (b & Eb & Lb & Vb); [lia|]. rewrite Eb. cbn [obind]. subst f.
    assert (VB : forall i, coef b i = coef a (i + l)%nat). { intros i. destruct (Nat.lt_ge_cases i (length a)) as [I|I]; [rewrite Vb by exact I; destruct (Z.ltb_spec (Z.of_nat i - - Z.of_nat l) 0); [lia|]; f_equal; lia|]. rewrite !coef_above by lia. reflexivity. }
    destruct (pow_unit 0 b y 200 u) as (r & Er & Lr & Vr); [rewrite Lb; exact Hi|rewrite VB; exact U|lia|]. rewrite Er. cbn [obind].
    assert (TI : to_int y = y) by (unfold to_int; rewrite Z.mod_small; lia). rewrite TI. unfold int32. destruct ((- 2 ^ 31 <=? Z.of_nat l * y) && (Z.of_nat l * y <? 2 ^ 31)); [|reflexivity]. cbn [obind]. unfold s_shift. rewrite Lr, Lb. destruct (Z.leb_spec (Z.abs (Z.of_nat l * y)) (Z.of_nat (length a))); [nia|reflexivity].
  Qed.
End SerProofs4.
