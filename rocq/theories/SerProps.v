(** Formal power series (structure/math/series.h): C125 - C129.

    T is any commutative ring in which x / y is x * y^-1 whenever y is invertible; a series s(x) + O(x^N) is its list of
    N coefficients; [coef s] is the coefficient function (zero from N on). *)
From Coq Require Import Ring Ring_theory QArith Qcanon.
From Verif Require Import Lib BaseModel RingSpec SeriesSpec PolyModel SerSpec SerModel SerProofs SerProofs2 SerProofs3 SerProofs4 SerProofs5 BaseProps.
Open Scope Z_scope.

Section SerProps.
  Context {R : Type} (zero one : R) (add mul sub : R -> R -> R) (opp : R -> R) (tdiv : R -> R -> option R) (eqb : R -> R -> bool) (ofint : Z -> R) (thr : Z) (est : Z -> Z).
  Local Notation rnat := (rnat zero one add). Local Notation rpow := (rpow one mul). Local Notation rfact := (rfact zero one add mul).
  Local Notation pconv := (pconv zero add mul). Local Notation pconst := (pconst zero).
  Local Notation ppow := (ppow zero one add mul). Local Notation pderiv := (pderiv zero one add mul). Local Notation psubst := (psubst zero one add mul).
  Local Notation coef := (coef zero).
  Local Notation is_ring := (ring_theory zero one add mul sub opp (@eq R)).
  Local Notation eqb_ok := (forall x y, eqb x y = true <-> x = y).
  Local Notation div_ok := (forall x y u, mul y u = one -> tdiv x y = Some (mul x u)).
  Local Notation int_ok := (forall n, ofint (Z.of_nat n) = rnat n).

  (** C125: sum, difference, negation, product and scalar multiples are those of power series modulo x^N. *)
  Theorem C125_series_ring : is_ring -> eqb_ok -> forall a b : list R,
    (exists r, s_add zero add eqb a b = Some r /\ length r = length a /\ forall i, (i < length a)%nat -> coef r i = add (coef a i) (coef b i)) /\
    (exists r, s_sub zero sub eqb a b = Some r /\ length r = length a /\ forall i, (i < length a)%nat -> coef r i = sub (coef a i) (coef b i)) /\
    (exists r, s_neg zero opp eqb a = Some r /\ length r = length a /\ forall i, (i < length a)%nat -> coef r i = opp (coef a i)) /\
    (forall v, exists r, s_smul zero mul eqb a v = Some r /\ length r = length a /\ forall i, (i < length a)%nat -> coef r i = mul (coef a i) v) /\
    ((1 <= length a)%nat -> exists r, s_mul zero add sub mul eqb thr a b = Some r /\ length r = length a /\ forall i, (i < length a)%nat -> coef r i = pconv (coef a) (coef b) i).
  Proof.
    intros Rth E a b. split; [exact (s_add_spec _ _ _ _ _ _ Rth eqb E a b)|]. split; [exact (s_sub_spec _ _ _ _ _ _ Rth eqb E a b)|]. split; [exact (s_neg_spec _ _ _ _ _ _ Rth eqb E a)|]. split; [exact (s_smul_spec _ _ _ _ _ _ Rth eqb E a)|]. exact (s_mul_spec _ _ _ _ _ _ Rth eqb E thr a b).
  Qed.
  (** C125: when the constant term is invertible, s * s.inverse() == 1 and (a / s) * s == a modulo x^N. *)
  Theorem C125_series_division : is_ring -> eqb_ok -> one <> zero -> div_ok -> forall (s : list R) u, mul (coef s 0) u = one ->
    (exists r, s_inverse zero one add sub mul opp tdiv eqb thr s = Some r /\ length r = length s /\ forall i, (i < length s)%nat -> pconv (coef s) (coef r) i = pconst one i) /\
    (forall a, length a = length s -> exists r, s_div zero one add sub mul opp tdiv eqb thr a s = Some r /\ length r = length s /\ forall i, (i < length s)%nat -> pconv (coef r) (coef s) i = coef a i) /\
    (forall a v w, mul v w = one -> exists r, s_sdiv zero tdiv eqb a v = Some r /\ length r = length a /\ forall i, (i < length a)%nat -> mul (coef r i) v = coef a i).
  Proof.
    intros Rth E N Hd s u U. pose proof (unit_len _ _ _ _ _ _ Rth N s u U) as L. split; [exact (s_inverse_spec _ _ _ _ _ _ Rth tdiv eqb E N Hd thr s u U)|]. split.
    - intros a La. rewrite <- La. apply (s_div_spec _ _ _ _ _ _ Rth tdiv eqb E N Hd thr a s u U). lia.
    - intros a v w W. destruct (s_sdiv_spec _ _ _ _ _ _ Rth tdiv eqb E Hd a v w W) as (r & Er & Lr & Vr). exists r. split; [exact Er|]. split; [exact Lr|]. intros i I. rewrite Vr by exact I.
      rewrite <- (Rmul_assoc Rth), (Rmul_comm Rth w v), W, (Rmul_comm Rth), (Rmul_1_l Rth). reflexivity.
  Qed.
  (** C125: the derivative; the integral is the series with the given constant term whose derivative is s. *)
  Theorem C125_series_calculus : is_ring -> eqb_ok -> div_ok -> int_ok -> forall s : list R,
    (exists r, s_derivative zero mul eqb ofint s = Some r /\ length r = length s /\ forall i, coef r i = pderiv (coef s) i) /\
    forall c0, (1 <= length s)%nat -> (forall i, (1 <= i <= length s)%nat -> exists u, mul (rnat i) u = one) ->
      exists r, s_integral zero tdiv eqb ofint s c0 = Some r /\ length r = length s /\ coef r 0 = c0 /\ forall i, (S i < length s)%nat -> pderiv (coef r) i = coef s i.
  Proof.
    intros Rth E Hd Hof s. split; [exact (s_derivative_spec _ _ _ _ _ _ Rth eqb E ofint Hof s)|]. intros c0 L H.
    assert (C : exists inv, forall i, (1 <= i <= length s)%nat -> mul (rnat i) (inv i) = one).
    { clear L. revert H. generalize (length s). intros n. induction n as [|n IH]; intros H; [exists (fun _ => zero); intros; lia|]. destruct IH as (inv & HI); [intros i I; apply H; lia|]. destruct (H (S n)) as (u & U); [lia|]. exists (fun i => if Nat.eqb i (S n) then u else inv i). intros i I. destruct (Nat.eqb_spec i (S n)) as [->|Ni]; [exact U|apply HI; lia]. }
    destruct C as (inv & HI). destruct (s_integral_spec _ _ _ _ _ _ Rth tdiv eqb E Hd ofint Hof inv s c0) as (r & Er & Lr & R0 & V); [intros i I; apply HI; lia|]. exists r. split; [exact Er|]. split; [exact Lr|]. split; [now apply R0|]. intros i I. unfold SerSpec.pderiv. rewrite V by exact I.
    rewrite (Rmul_comm Rth), <- (Rmul_assoc Rth), (Rmul_comm Rth (inv (S i))), HI by lia. rewrite (Rmul_comm Rth), (Rmul_1_l Rth). reflexivity.
  Qed.
  (** C125: s(x) x^l for -N <= l <= N (a negative l drops the low coefficients); s(a x); s(x^a); the coefficientwise product. *)
  Theorem C125_series_substitutions : is_ring -> forall s : list R,
    (forall l, Z.abs l <= Z.of_nat (length s) -> exists r, s_shift zero s l = Some r /\ length r = length s /\
      forall i, (i < length s)%nat -> coef r i = if Z.of_nat i - l <? 0 then zero else coef s (Z.to_nat (Z.of_nat i - l))) /\
    (forall v, exists r, s_sub_mul one mul s v = Some r /\ length r = length s /\ forall i, (i < length s)%nat -> coef r i = mul (coef s i) (rpow v i)) /\
    (forall v, exists r, s_sub_pow zero s v = Some r /\ length r = length s /\
      (0 < v -> forall i, (i < length s)%nat -> coef r i = if Z.of_nat i mod v =? 0 then coef s (Z.to_nat (Z.of_nat i / v)) else zero) /\
      (v <= 0 -> forall i, (i < length s)%nat -> coef r i = zero)) /\
    (forall b, exists r, s_pointwise_mul zero mul s b = Some r /\ length r = length s /\ forall i, (i < length s)%nat -> coef r i = mul (coef s i) (coef b i)).
  Proof.
    intros Rth s. split; [exact (shift_spec zero s)|]. split; [exact (sub_mul_spec _ _ _ _ _ _ Rth s)|]. split; [exact (sub_pow_spec zero s)|]. exact (pointwise_mul_spec zero mul s).
  Qed.
  (** C125: shifting by more than N places is undefined; an empty series does not stay empty when multiplied. *)
  Theorem C125_shift_refuted : forall s l, Z.of_nat (length s) < Z.abs l -> s_shift zero s l = None.
  Proof. intros s l H. unfold s_shift. destruct (Z.leb_spec (Z.abs l) (Z.of_nat (length s))); [lia|reflexivity]. Qed.
  Theorem C125_empty_mul_refuted : s_mul zero add sub mul eqb thr [] [] = Some [zero].
  Proof. reflexivity. Qed.

  (** C126: exp(s) is 1 + s + s^2/2! + s^3/3! + ... modulo x^N when s(0) = 0 and 1, ..., N are invertible. *)
  Theorem C126_exp : is_ring -> eqb_ok -> one <> zero -> div_ok -> int_ok -> forall (inv : nat -> R) (s : list R),
    (forall i, (1 <= i <= length s)%nat -> mul (rnat i) (inv i) = one) -> coef s 0 = zero ->
    exists r, s_exp zero one add sub mul opp tdiv eqb ofint thr s = Some r /\ length r = length s /\
      forall i, (i < length s)%nat -> coef r i = pexp zero one add mul inv (coef s) i.
  Proof. intros Rth E N Hd Hof inv s HI S0. exact (s_exp_spec _ _ _ _ _ _ Rth tdiv eqb E N Hd ofint Hof thr inv s HI S0). Qed.
  (** C126: ln(s, c0) is c0 plus the series whose exponential is s, when s(0) = 1. *)
  Theorem C126_ln : is_ring -> eqb_ok -> one <> zero -> div_ok -> int_ok -> forall (inv : nat -> R) (s : list R) c0,
    (forall i, (1 <= i <= length s)%nat -> mul (rnat i) (inv i) = one) -> coef s 0 = one ->
    exists r, s_ln zero one add sub mul opp tdiv eqb ofint thr s c0 = Some r /\ length r = length s /\ coef r 0 = c0 /\
      forall i, (i < length s)%nat -> pexp zero one add mul inv (no_const zero (coef r)) i = coef s i.
  Proof. intros Rth E N Hd Hof inv s c0 HI S0. apply (ln_exp _ _ _ _ _ _ Rth tdiv eqb E N Hd ofint Hof thr inv s one c0 HI); [|exact S0]. rewrite S0. apply (Rmul_1_l Rth). Qed.

  (** C127: s^y by pow(y, threshold), for every y >= 0: below the threshold in any ring, from the threshold on if the
      lowest coefficient (of x^l) and 1, ..., N are invertible, y is an [int] and l y <= N. *)
  Theorem C127_pow : is_ring -> eqb_ok -> one <> zero -> div_ok -> int_ok -> forall (inv : nat -> R) (s : list R) y threshold,
    (1 <= length s)%nat -> Z.of_nat (length s) < 2 ^ 31 -> 0 <= y ->
    (y < threshold \/
     (forall i, (1 <= i <= length s)%nat -> mul (rnat i) (inv i) = one) /\
     exists l u, (forall i, (i < l)%nat -> coef s i = zero) /\ mul (coef s l) u = one /\ (l = 0%nat \/ y < 2 ^ 31 /\ Z.of_nat l * y <= Z.of_nat (length s))) ->
    exists r, s_pow zero one add sub mul opp tdiv eqb ofint thr s y threshold = Some r /\ length r = length s /\
      forall i, (i < length s)%nat -> coef r i = ppow (coef s) (Z.to_nat y) i.
  Proof.
    intros Rth E N Hd Hof inv s y th L NB Y H. unfold s_pow. destruct (Z.ltb_spec y th) as [B|B].
    - destruct (powT_series _ _ _ _ _ _ Rth eqb E thr s y L Y) as (r & Er & Lr & V). exists r. split; [|auto]. cbn [s_pow_f]. destruct (Z.ltb_spec y th); [exact Er|lia].
    - destruct H as [H|(HI & l & u & HL & U & [->|(YB & LY)])]; [lia| |].
      + exact (pow_unit _ _ _ _ _ _ Rth tdiv eqb E N Hd ofint Hof thr inv 1 s y th u HI U Y).
      + destruct l as [|l]; [exact (pow_unit _ _ _ _ _ _ Rth tdiv eqb E N Hd ofint Hof thr inv 1 s y th u HI U Y)|]. apply (pow_low _ _ _ _ _ _ Rth tdiv eqb E N Hd ofint Hof thr inv s (S l) y th u); auto. lia.
  Qed.
  (** C127: a negative exponent at or above the threshold gives the inverse power of a series with constant term 1. *)
  Theorem C127_pow_negative : is_ring -> eqb_ok -> one <> zero -> div_ok -> int_ok -> forall (inv : nat -> R) (s : list R) n threshold,
    (forall i, (1 <= i <= length s)%nat -> mul (rnat i) (inv i) = one) -> coef s 0 = one -> ofint (- Z.of_nat n) = opp (rnat n) -> threshold <= - Z.of_nat n ->
    exists r, s_pow zero one add sub mul opp tdiv eqb ofint thr s (- Z.of_nat n) threshold = Some r /\ length r = length s /\
      forall i, (i < length s)%nat -> pconv (coef r) (ppow (coef s) n) i = pconst one i.
  Proof.
    intros Rth E N Hd Hof inv s n th HI S0 O T. destruct (pow_one_neg _ _ _ _ _ _ Rth tdiv eqb E N Hd ofint Hof thr inv s n HI S0 O) as (r & Er & Lr & V). exists r. split; [|auto].
    unfold s_pow. cbn [s_pow_f]. destruct (Z.ltb_spec (- Z.of_nat n) th); [lia|]. change (p_at zero s 0) with (p_at zero s (Z.of_nat 0)). rewrite PolyProofs3.p_at_coef, S0. destruct (eqb one zero) eqn:E0; [apply E in E0; contradiction|]. assert (E1 : eqb one one = true) by now apply E. rewrite E1. exact Er.
  Qed.
  (** C127: below the threshold a negative exponent gives 1, whatever the series. *)
  Theorem C127_pow_negative_refuted : forall s y threshold, y < 0 -> y < threshold ->
    s_pow zero one add sub mul opp tdiv eqb ofint thr s y threshold = Some (p_resize zero [one] (length s)).
  Proof. intros s y th Y T. unfold s_pow. now apply pow_neg. Qed.
  (** C127: from the threshold on, the power of the zero series never returns (no depth of recursion suffices). *)
  Theorem C127_pow_zero_refuted : eqb_ok -> forall depth n y, 200 <= y ->
    s_pow_f zero one add sub mul opp tdiv eqb ofint thr depth (repeat zero n) y 200 = None.
  Proof. intros E d n y Y. now apply pow_zero_loops. Qed.
  (** C127: x^l (...) raised to y >= 200 with l y > N, which is 0 modulo x^N, is undefined behaviour. *)
  Theorem C127_pow_vanishing_refuted : is_ring -> eqb_ok -> one <> zero -> div_ok -> int_ok -> forall (inv : nat -> R) (s : list R) y l u,
    (forall i, (1 <= i <= length s)%nat -> mul (rnat i) (inv i) = one) -> (1 <= l)%nat -> (forall i, (i < l)%nat -> coef s i = zero) -> mul (coef s l) u = one ->
    200 <= y -> y < 2 ^ 31 -> Z.of_nat (length s) < Z.of_nat l * y -> s_pow zero one add sub mul opp tdiv eqb ofint thr s y 200 = None.
  Proof. intros Rth E N Hd Hof inv s y l u HI L1 HL U Y YB LY. exact (pow_overshift _ _ _ _ _ _ Rth tdiv eqb E N Hd ofint Hof thr inv s l y u HI L1 HL U Y YB LY). Qed.

  (** C128: a(b(x)) modulo x^N is the sum of a_k b^k over k < N, for any b (also with b(0) <> 0). *)
  Theorem C128_composition : is_ring -> eqb_ok -> (forall n, 0 <= est n < 2 ^ 31) -> forall a b : list R,
    (1 <= length a)%nat -> Z.of_nat (length a) < 2 ^ 31 -> length b = length a ->
    exists r, s_composition zero one add sub mul eqb thr est a b = Some r /\ length r = length a /\
      forall i, (i < length a)%nat -> coef r i = psubst (length a) (coef a) (coef b) i.
  Proof. intros Rth E He a b L NB Lb. exact (composition_spec _ _ _ _ _ _ Rth eqb E thr est He a b L NB Lb). Qed.
  (** C128: reversion gives r with r(0) = 0 and s(r(x)) == x modulo x^N, when s(0) = 0 and s'(0) is invertible. *)
  Theorem C128_reversion : is_ring -> eqb_ok -> one <> zero -> div_ok -> int_ok -> (forall n, 0 <= est n < 2 ^ 31) -> forall (s : list R) u,
    (2 <= length s)%nat -> Z.of_nat (length s) < 2 ^ 31 -> coef s 0 = zero -> mul (coef s 1) u = one ->
    exists r, s_reversion zero one add sub mul opp tdiv eqb ofint thr est s = Some r /\ length r = length s /\ coef r 0 = zero /\
      forall i, (i < length s)%nat -> psubst (length s) (coef s) (coef r) i = px zero one i.
  Proof. intros Rth E N Hd Hof He s u L NB S0 U. exact (reversion_spec _ _ _ _ _ _ Rth tdiv eqb E N Hd ofint Hof thr est He s u L NB S0 U). Qed.
  (** C128: without a compositional inverse the zero series is returned. *)
  Theorem C128_no_reversion : eqb_ok -> forall s : list R, coef s 0 <> zero \/ coef s 1 = zero ->
    s_reversion zero one add sub mul opp tdiv eqb ofint thr est s = Some (p_resize zero [zero] (length s)).
  Proof. intros E s H. now apply reversion_none. Qed.

  (** C128: composing empty series (N = 0) writes outside a vector. *)
  Theorem C128_empty_composition_refuted : (forall n, 0 <= est n < 2 ^ 31) -> s_composition zero one add sub mul eqb thr est [] [] = None.
  Proof.
    intros He. unfold s_composition. destruct (BaseProps.C05_isqrtc est 1 He) as (r & E & R0 & R1 & R2); [lia|]. cbn [length Z.of_nat Z.add]. rewrite E. cbn [obind]. specialize (R2 1 ltac:(lia) ltac:(lia)). assert (r = 1) as -> by lia. reflexivity.
  Qed.

  (** C129: make_exponential divides the i-th coefficient by i! (when (N-1)! is invertible), make_ordinary multiplies by it. *)
  Theorem C129_generating_functions : is_ring -> div_ok -> int_ok -> forall s : list R,
    (exists r, s_make_ordinary one mul ofint s = Some r /\ length r = length s /\ forall i, (i < length s)%nat -> coef r i = mul (coef s i) (rfact i)) /\
    forall u, mul (rfact (length s - 1)) u = one ->
      exists r, s_make_exponential one mul tdiv ofint s = Some r /\ length r = length s /\ forall i, (i < length s)%nat -> mul (coef r i) (rfact i) = coef s i.
  Proof. intros Rth Hd Hof s. split; [exact (make_ordinary_spec _ _ _ _ _ _ Rth ofint Hof s)|]. intros u U. exact (make_exponential_spec _ _ _ _ _ _ Rth tdiv Hd ofint Hof s u U). Qed.
  (** C129: exp(a, N) has coefficients a^i / i!; of(f, N) has coefficients f(i). *)
  Theorem C129_named_series : is_ring -> div_ok -> int_ok -> forall (N : nat),
    (forall v u, mul (rfact (N - 1)) u = one -> exists r, s_exp_of zero one mul tdiv ofint v N = Some r /\ length r = N /\ forall i, (i < N)%nat -> mul (coef r i) (rfact i) = rpow v i) /\
    (forall f, exists r, s_of zero f N = Some r /\ length r = N /\ forall i, (i < N)%nat -> coef r i = f (Z.of_nat i)).
  Proof. intros Rth Hd Hof N. split; [intros v u U; exact (exp_of_spec _ _ _ _ _ _ Rth tdiv Hd ofint Hof v N u U)|]. intros f. exact (of_spec zero f N). Qed.
End SerProps.

(** the rationals as coefficients *)
Definition qdiv (x y : Qc) : option Qc := if Qc_eq_bool y 0 then None else Some (x / y)%Qc.
Definition qint (z : Z) : Qc := Q2Qc (inject_Z z).
Definition q0 := Q2Qc 0. Definition q1 := Q2Qc 1.
Definition qest (z : Z) : Z := 3.
Local Notation qcoef := (coef q0).
Lemma qc_eqb x y : Qc_eq_bool x y = true <-> x = y.
Proof. split; [apply Qc_eq_bool_correct|]. intros ->. unfold Qc_eq_bool. destruct (Qc_eq_dec y y); [reflexivity|contradiction]. Qed.
Lemma qc_div x y u : (y * u)%Qc = q1 -> qdiv x y = Some (x * u)%Qc.
Proof.
  intros U. unfold qdiv. destruct (Qc_eq_bool y 0) eqn:E.
  - apply qc_eqb in E. rewrite E, Qcmult_0_l in U. discriminate (f_equal this U).
  - f_equal. assert (N : y <> Q2Qc 0) by (intros X; apply qc_eqb in X; congruence). unfold Qcdiv. f_equal. rewrite <- (Qcmult_1_r (/ y)). change 1%Qc with q1. rewrite <- U, Qcmult_assoc, Qcmult_inv_l by exact N. now rewrite Qcmult_1_l.
Qed.
Lemma qc_int n : qint (Z.of_nat n) = rnat q0 q1 Qcplus n.
Proof.
  induction n as [|n IH]; [reflexivity|]. cbn [RingSpec.rnat]. rewrite <- IH. apply Qc_is_canon. unfold qint, Qcplus, q1, Q2Qc. cbn [this]. rewrite !Qred_correct. rewrite Nat2Z.inj_succ. unfold Z.succ. now rewrite inject_Z_plus.
Qed.
Definition qinv (n : nat) : Qc := (/ rnat q0 q1 Qcplus n)%Qc.
Lemma qc_inv i : (1 <= i)%nat -> (rnat q0 q1 Qcplus i * qinv i)%Qc = q1.
Proof.
  intros I. unfold qinv. apply Qcmult_inv_r. rewrite <- qc_int. intros X. apply (f_equal this) in X. unfold qint, Q2Qc in X. cbn [this] in X. pose proof (Qred_correct (inject_Z (Z.of_nat i))) as Q. rewrite X in Q. unfold Qeq in Q. cbn in Q. lia.
Qed.
(** exp(x) and ln(1 + x) modulo x^5; the reversion of x - x^2 has the Catalan numbers as coefficients *)
Example C126_case : (exists r, s_exp q0 q1 Qcplus Qcminus Qcmult Qcopp qdiv Qc_eq_bool qint 48 [q0; q1; q0; q0; q0] = Some r /\ map this r = [1; 1; 1 # 2; 1 # 6; 1 # 24]%Q) /\
  (exists r, s_ln q0 q1 Qcplus Qcminus Qcmult Qcopp qdiv Qc_eq_bool qint 48 [q1; q1; q0; q0; q0] q0 = Some r /\ map this r = [0; 1; -1 # 2; 1 # 3; -1 # 4]%Q) /\
  (forall i, (1 <= i <= 5)%nat -> (rnat q0 q1 Qcplus i * qinv i)%Qc = q1) /\
  exists r, s_exp q0 q1 Qcplus Qcminus Qcmult Qcopp qdiv Qc_eq_bool qint 48 [q0; q1; q0; q0; q0] = Some r /\ forall i, (i < 5)%nat -> qcoef r i = pexp q0 q1 Qcplus Qcmult qinv (qcoef [q0; q1; q0; q0; q0]) i.
Proof.
  split; [eexists; split; vm_compute; reflexivity|]. split; [eexists; split; vm_compute; reflexivity|]. split; [intros i I; apply qc_inv; lia|].
  destruct (C126_exp q0 q1 Qcplus Qcmult Qcminus Qcopp qdiv Qc_eq_bool qint 48 Qcrt qc_eqb ltac:(discriminate) qc_div qc_int qinv [q0; q1; q0; q0; q0]) as (r & E & _ & V); [intros i I; apply qc_inv; lia|reflexivity|]. exists r. split; [exact E|exact V].
Qed.
Example C125_case : exists r, s_inverse q0 q1 Qcplus Qcminus Qcmult Qcopp qdiv Qc_eq_bool 48 [qint 2; q1; q0] = Some r /\ map this r = [1 # 2; -1 # 4; 1 # 8]%Q.
Proof. eexists. split; vm_compute; reflexivity. Qed.
Example C127_case : exists r, s_pow q0 q1 Qcplus Qcminus Qcmult Qcopp qdiv Qc_eq_bool qint 48 [q0; qint 2; q1; q0; q0; q0] 3 0 = Some r /\ map this r = [0; 0; 0; 8; 12; 6]%Q.
Proof. eexists. split; vm_compute; reflexivity. Qed.
(** C127: 2^32 is cut to the [int] 0, so x^(2^32) comes out as 1 modulo x^2. *)
Theorem C127_pow_int_refuted : exists r, s_pow q0 q1 Qcplus Qcminus Qcmult Qcopp qdiv Qc_eq_bool qint 48 [q0; q1] (2 ^ 32) 200 = Some r /\ map this r = [1; 0]%Q /\ ppow q0 q1 Qcplus Qcmult (qcoef [q0; q1]) (Z.to_nat (2 ^ 32)) 0 = q0.
Proof.
  eexists. split; [vm_compute; reflexivity|]. split; [vm_compute; reflexivity|]. set (n := Z.to_nat (2 ^ 32)). assert (N : (0 < n)%nat) by (unfold n; lia). clearbody n. destruct n as [|n]; [lia|]. cbn [SerSpec.ppow]. unfold SeriesSpec.pconv. cbn. rewrite Qcmult_0_r. reflexivity.
Qed.
Example C128_case : exists r, s_reversion q0 q1 Qcplus Qcminus Qcmult Qcopp qdiv Qc_eq_bool qint 48 qest [q0; q1; qint (-1); q0; q0; q0] = Some r /\ map this r = [0; 1; 1; 2; 5; 14]%Q.
Proof. eexists. split; vm_compute; reflexivity. Qed.
Example C129_case : exists r, s_exp_of q0 q1 Qcmult qdiv qint (qint 2) 4 = Some r /\ map this r = [1; 2; 2; 4 # 3]%Q.
Proof. eexists. split; vm_compute; reflexivity. Qed.
Print Assumptions C125_series_ring.
Print Assumptions C125_series_division.
Print Assumptions C125_series_calculus.
Print Assumptions C125_series_substitutions.
Print Assumptions C125_shift_refuted.
Print Assumptions C125_empty_mul_refuted.
Print Assumptions C126_exp.
Print Assumptions C126_ln.
Print Assumptions C127_pow.
Print Assumptions C127_pow_negative.
Print Assumptions C127_pow_negative_refuted.
Print Assumptions C127_pow_zero_refuted.
Print Assumptions C127_pow_vanishing_refuted.
Print Assumptions C128_composition.
Print Assumptions C128_reversion.
Print Assumptions C128_no_reversion.
Print Assumptions C128_empty_composition_refuted.
Print Assumptions C129_generating_functions.
Print Assumptions C129_named_series.
Print Assumptions C127_pow_int_refuted.
