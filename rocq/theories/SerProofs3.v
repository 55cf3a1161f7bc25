(** Logarithm and exponential of series. *)
From Coq Require Import Ring Ring_theory Setoid Morphisms.
From Verif Require Import Lib BaseModel RingSpec RingProofs SeriesSpec SeriesProofs PolyModel PolyProofs PolyProofs3 PolyProofs4 PolyProofs5 SerSpec SerModel SerProofs SerProofs2.
Open Scope Z_scope.

Section SerProofs3.
  Context {R : Type} (zero one : R) (add mul sub : R -> R -> R) (opp : R -> R).
  Hypothesis Rth : ring_theory zero one add mul sub opp (@eq R).
  Add Ring RsX : Rth.
  Variable tdiv : R -> R -> option R.
  Variable eqb : R -> R -> bool.
  Hypothesis eqb_spec : forall x y, eqb x y = true <-> x = y.
  Hypothesis H10 : one <> zero.
  Hypothesis Hd : forall x y u, mul y u = one -> tdiv x y = Some (mul x u).
  Variable ofint : Z -> R.
  Hypothesis Hof : forall n, ofint (Z.of_nat n) = rnat zero one add n.
  Variable thr : Z.
  Local Notation rsum := (rsum zero add). Local Notation rnat := (rnat zero one add). Local Notation rpow := (rpow one mul).
  Local Notation pconv := (pconv zero add mul). Local Notation pconst := (pconst zero).
  Local Notation ppow := (ppow zero one add mul). Local Notation D := (pderiv zero one add mul). Local Notation psubst := (psubst zero one add mul). Local Notation px := (px zero one).
  Local Notation coef := (coef zero). Local Notation at_ := (p_at zero).
  Local Notation resize := (p_resize zero).
  Local Notation s_add := (s_add zero add eqb). Local Notation s_sub := (s_sub zero sub eqb).
  Local Notation s_mul := (s_mul zero add sub mul eqb thr). Local Notation s_smul := (s_smul zero mul eqb). Local Notation s_sdiv := (s_sdiv zero tdiv eqb).
  Local Notation s_inverse := (s_inverse zero one add sub mul opp tdiv eqb thr). Local Notation s_div := (s_div zero one add sub mul opp tdiv eqb thr).
  Local Notation s_derivative := (s_derivative zero mul eqb ofint). Local Notation s_integral := (s_integral zero tdiv eqb ofint).
  Local Notation s_ln := (s_ln zero one add sub mul opp tdiv eqb ofint thr). Local Notation s_exp := (s_exp zero one add sub mul opp tdiv eqb ofint thr).
  Local Notation f0 := (f0 zero). Local Notation f1 := (f1 zero one). Local Notation fc := (fc zero).
  Local Notation fadd := (fadd add). Local Notation fsub := (fsub sub). Local Notation fmul := (fmul zero add mul). Local Notation fopp := (fopp opp). Local Notation val := (val zero).
  Local Infix "==" := feq (at level 70). Local Infix "+!" := fadd (at level 50, left associativity). Local Infix "-!" := fsub (at level 50, left associativity). Local Infix "*!" := fmul (at level 40, left associativity).
  Instance feq_equivX : Equivalence (@feq R) := feq_equiv.
  Instance fadd_extX : Proper (feq ==> feq ==> feq) fadd := fadd_ext add. Instance fsub_extX : Proper (feq ==> feq ==> feq) fsub := fsub_ext sub. Instance fopp_extX : Proper (feq ==> feq) fopp := fopp_ext opp. Instance fmul_extX : Proper (feq ==> feq ==> feq) fmul := fmul_ext zero add mul.
  Instance eqn_equivX n : Equivalence (@eqn R n) := eqn_equiv n. Instance eqn_properX n : Proper (feq ==> feq ==> iff) (@eqn R n) := eqn_proper n.
  Instance fadd_eqnX n : Proper (eqn n ==> eqn n ==> eqn n) fadd := fadd_eqn add n. Instance fsub_eqnX n : Proper (eqn n ==> eqn n ==> eqn n) fsub := fsub_eqn sub n. Instance fopp_eqnX n : Proper (eqn n ==> eqn n) fopp := fopp_eqn opp n. Instance fmul_eqnX n : Proper (eqn n ==> eqn n ==> eqn n) fmul := fmul_eqn zero add mul n.
  Instance val_properX n : Proper (feq ==> iff) (val n) := val_proper zero n. Instance D_extX : Proper (feq ==> feq) D := D_ext zero one add mul. Instance ppow_extX : Proper (feq ==> eq ==> feq) ppow := ppow_ext zero one add mul.
  Add Ring FsX : (fring zero one add mul sub opp Rth) (setoid (@fset R) (fext zero add mul opp)).
  Variable inv : nat -> R.
  Local Notation pexp := (pexp zero one add mul inv).

  (** ln: (ln a)' a = a' *)
  Lemma s_ln_spec a u c0 : (forall i, (1 <= i <= length a)%nat -> mul (rnat i) (inv i) = one) -> mul (coef a 0) u = one ->
    exists r, s_ln a c0 = Some r /\ length r = length a /\ coef r 0 = c0 /\ eqn (length a - 1) (D (coef r) *! coef a) (D (coef a)).
  Proof using Rth eqb_spec H10 Hd Hof.
    intros Hi U. pose proof (unit_len _ _ _ _ _ _ Rth H10 a u U) as L1. unfold SerModel.s_ln.
    destruct (s_derivative_spec _ _ _ _ _ _ Rth eqb eqb_spec ofint Hof a) as (d & Ed & Ld & Vd). rewrite Ed. cbn [obind].
    destruct (s_div_spec _ _ _ _ _ _ Rth tdiv eqb eqb_spec H10 Hd thr d a u U) as (q & Eq & Lq & Vq); [lia|]. rewrite Eq. cbn [obind].
    destruct (s_integral_spec _ _ _ _ _ _ Rth tdiv eqb eqb_spec Hd ofint Hof inv q c0) as (r & Er & Lr & V0 & Vr); [intros i I; apply Hi; lia|].
    exists r. split; [exact Er|]. split; [lia|]. split; [apply V0; lia|]. intros i I. rewrite <- Vd, <- Vq by lia. apply pconv_ext; [|reflexivity]. intros j J. unfold SerSpec.pderiv. rewrite Vr by lia.
    transitivity (mul (coef q j) (mul (rnat (S j)) (inv (S j)))); [ring|]. rewrite Hi by lia. ring.
  Qed.
  (** cancelling the constant of integration *)
  Local Notation no_const := (no_const zero).
  Lemma ln_exp a u c0 : (forall i, (1 <= i <= length a)%nat -> mul (rnat i) (inv i) = one) -> mul (coef a 0) u = one -> coef a 0 = one ->
    exists r, s_ln a c0 = Some r /\ length r = length a /\ coef r 0 = c0 /\ forall i, (i < length a)%nat -> pexp (no_const (coef r)) i = coef a i.
  Proof using Rth eqb_spec H10 Hd Hof.
    intros Hi U A0. destruct (s_ln_spec a u c0 Hi U) as (r & E & L & R0 & V). exists r. split; [exact E|]. split; [exact L|]. split; [exact R0|]. intros i I. symmetry.
    refine (pexp_unique zero one add mul sub opp Rth inv (length a) _ (no_const (coef r)) (coef a) _ A0 _ i I).
    - intros j J. apply Hi. lia.
    - intros j J. now replace j with O by lia.
    - assert (Q : D (no_const (coef r)) == D (coef r)) by (intros j; reflexivity). rewrite Q. symmetry. exact V.
  Qed.

  (** one Newton step of exp *)
  Lemma exp_step_spec a l r : (forall i, (1 <= i <= length a)%nat -> mul (rnat i) (inv i) = one) -> coef a 0 = zero -> (1 <= l)%nat -> (l < length a)%nat -> length r = l -> coef r 0 = one ->
    eqn l (coef r) (pexp (coef a)) -> exists r', exp_step zero one add sub mul opp tdiv eqb ofint thr a (Z.of_nat l) r = Some r' /\ length r' = Nat.min (length a) (l * 2) /\ coef r' 0 = one /\ eqn (Nat.min (length a) (l * 2)) (coef r') (pexp (coef a)).
  Proof using Rth eqb_spec H10 Hd Hof.
    intros Hi A0 L1 LN Lr R0 HE. set (m := Nat.min (length a) (l * 2)). assert (Hm : (l < m <= length a)%nat /\ (m <= l + l)%nat) by (unfold m; lia). unfold exp_step. replace (Z.min (Z.of_nat (length a)) (Z.of_nat l * 2)) with (Z.of_nat m) by (unfold m; lia). rewrite Nat2Z.id. clearbody m.
    assert (Rm : forall i, coef (resize r m) i = coef r i). { intros i. destruct (Nat.lt_ge_cases i m) as [Lt|Ge]; [now apply coef_resize|]. rewrite !coef_above; [reflexivity|lia|rewrite len_resize; lia]. }
    assert (Hi' : forall i, (S i < m)%nat -> mul (rnat (S i)) (inv (S i)) = one) by (intros i I; apply Hi; lia).
    destruct (s_ln_spec (resize r m) one zero) as (g & Eg & Lg & G0 & Vg); [rewrite len_resize; intros i I; apply Hi; lia|rewrite Rm, R0; ring|]. rewrite Eg. cbn [obind]. rewrite len_resize in *.
    destruct (op_sub_spec _ _ _ _ _ _ Rth eqb eqb_spec (firstn m a) g) as (t & Et & _ & Vt). rewrite Et. cbn [obind].
    destruct (put_spec zero t 0 (add (at_ t 0) one)) as (t' & Et' & _ & Vt'); [lia|]. rewrite Et'. cbn [obind].
    pose proof (p_mul_spec _ _ _ _ _ _ Rth eqb eqb_spec thr (env2 r t') 0 0 1 (Z.of_nat m - 1)) as P. cbv zeta in P. destruct (Z.ltb_spec (Z.of_nat m - 1) 0) as [B|_] in P; [lia|]. destruct P as (e & Ee & Le & Ve & _). rewrite Ee. cbn [obind env2] in *.
    exists (e O). split; [reflexivity|]. split; [lia|].
    set (s := coef a) in *. set (rr := coef r) in *. set (gg := coef g) in *. set (h := s -! gg).
    assert (T1 : eqn m (coef t') (f1 +! h)).
    { intros i I. rewrite Vt'. unfold SerProofs.fadd, h, SerProofs.fsub, SerProofs.f1. change (Z.to_nat 0) with O. destruct (Nat.eqb_spec i 0) as [->|Ni].
      - change 0 with (Z.of_nat 0). rewrite p_at_coef, Vt, coef_firstn by lia. cbn [SeriesSpec.pconst]. fold s gg. ring.
      - rewrite Vt, coef_firstn by lia. destruct i; [lia|]. cbn [SeriesSpec.pconst]. fold s gg. ring. }
    assert (RE : eqn m (coef (e O)) (rr *! (f1 +! h))). { intros i I. rewrite Ve by lia. refine (fmul_eqn zero add mul m rr rr _ (coef t') (f1 +! h) T1 i I). reflexivity. }
    assert (VG : eqn (m - 1) (D gg *! rr) (D rr)). { intros i I. specialize (Vg i I). transitivity ((D gg *! coef (resize r m)) i); [apply pconv_ext; intros; [reflexivity|symmetry; apply Rm]|]. rewrite Vg. unfold SerSpec.pderiv. now rewrite Rm. }
    assert (VS : val 1 s) by (intros i I; now replace i with O by lia).
    assert (OD : eqn (l - 1) (D rr) (D s *! rr)).
    { destruct l as [|l]; [lia|]. cbn [Nat.sub]. rewrite Nat.sub_0_r. transitivity (D (pexp s)); [now apply D_eqn|]. transitivity (D s *! pexp s).
      - pose proof (pexp_ode zero one add mul sub opp Rth inv (S l) ltac:(intros i I; apply Hi; lia) s VS) as P. cbn [Nat.sub] in P. rewrite Nat.sub_0_r in P. exact P.
      - symmetry. apply fmul_eqnX; [reflexivity|]. apply (eqn_le (S l)); [lia|exact HE]. }
    assert (HV : val l h).
    { apply (proj1 (val_eqn zero one add mul sub opp Rth l s gg)). apply (D_eqn_inv zero one add mul sub opp Rth).
      - intros i I. exists (inv (S i)). apply Hi'. lia.
      - now rewrite A0, G0.
      - apply (unit_cancel zero one add mul sub opp Rth (l - 1) (D s) (D gg) rr one); [rewrite R0; ring|]. transitivity (D rr); [symmetry; exact OD|]. symmetry. apply (eqn_le (m - 1)); [lia|exact VG]. }
    assert (M : eqn m (rr *! (f1 +! h)) (pexp s)).
    { apply (pexp_unique zero one add mul sub opp Rth inv m Hi' s).
      - exact VS.
      - unfold SerProofs.fmul, SeriesSpec.pconv, SerProofs.fadd, SerProofs.f1. cbn. rewrite (HV O) by lia. rewrite R0. ring.
      - assert (Dh : D h == D s -! D gg) by apply (D_sub zero one add mul sub opp Rth).
        assert (Q1 : D (rr *! (f1 +! h)) == D rr +! D rr *! h +! rr *! D h). { rewrite (D_mul zero one add mul sub opp Rth), (D_add zero one add mul sub opp Rth), (D_1 zero one add mul sub opp Rth). ring. }
        rewrite Q1. transitivity (D gg *! rr +! D gg *! rr *! h +! rr *! D h). { rewrite VG. reflexivity. }
        rewrite Dh. apply (proj2 (val_eqn zero one add mul sub opp Rth _ _ _)). apply (val_le zero (l + (l - 1))); [lia|].
        assert (Q2 : D gg *! rr +! D gg *! rr *! h +! rr *! (D s -! D gg) -! D s *! (rr *! (f1 +! h)) == fopp (h *! ((D s -! D gg)) *! rr)) by ring. rewrite Q2.
        apply (val_opp zero one add mul sub opp Rth). apply (val_mul_l zero one add mul sub opp Rth). apply (val_mul zero one add mul sub opp Rth); [exact HV|]. rewrite <- Dh. apply (D_val zero one add mul sub opp Rth). now replace (S (l - 1)) with l by lia. }
    assert (F : eqn m (coef (e O)) (pexp s)) by (etransitivity; [exact RE|exact M]).
    split; [|exact F]. rewrite (F O) by lia. apply (pexp_0 zero one add mul sub opp Rth).
  Qed.
  Lemma s_exp_spec a : (forall i, (1 <= i <= length a)%nat -> mul (rnat i) (inv i) = one) -> coef a 0 = zero ->
    exists r, s_exp a = Some r /\ length r = length a /\ forall i, (i < length a)%nat -> coef r i = pexp (coef a) i.
  Proof using Rth eqb_spec H10 Hd Hof.
    intros Hi A0. unfold SerModel.s_exp.
    destruct (loopZ_spec (fun '(l, r) => if l <? Z.of_nat (length a) then let* r := exp_step zero one add sub mul opp tdiv eqb ofint thr a l r in Some (inl (l * 2, r)) else Some (inr r))
      (fun '(l, r) => 1 <= l /\ length r = Z.to_nat (Z.min l (Z.max 1 (Z.of_nat (length a)))) /\ coef r 0 = one /\ eqn (length r) (coef r) (pexp (coef a)))
      (fun r => (length a <= length r)%nat /\ eqn (length r) (coef r) (pexp (coef a)))
      (fun '(l, r) => Z.max 0 (Z.of_nat (length a) - l))) with (fuel := Z.of_nat (length a) + 1) (s := (1, [one])) as (r & E & L & V).
    - intros (l & r) (L1 & Lr & R0 & V). destruct (Z.ltb_spec l (Z.of_nat (length a))) as [B|B].
      + destruct (exp_step_spec a (Z.to_nat l) r) as (r' & E & L' & R0' & V'); auto; [lia|lia|lia|replace (Z.to_nat l) with (length r) by lia; exact V|]. rewrite Z2Nat.id in E by lia. rewrite E. cbn [obind]. eexists. split; [reflexivity|]. cbv beta iota. split; [|lia]. split; [lia|]. split; [lia|]. split; [exact R0'|]. rewrite L'. exact V'.
      + eexists. split; [reflexivity|]. cbv beta iota. split; [lia|exact V].
    - intros (l & r) _. lia.
    - split; [lia|]. split; [cbn [length]; lia|]. split; [reflexivity|]. intros i I. cbn [length] in I. replace i with O by lia. rewrite (pexp_0 zero one add mul sub opp Rth). reflexivity.
    - lia.
    - rewrite E. cbn [obind]. eexists. split; [reflexivity|]. split; [apply len_resize|]. intros i I. rewrite coef_resize by exact I. apply V. lia.
  Qed.
End SerProofs3.
