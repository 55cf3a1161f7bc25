(** Composition and reversion of series. *)
From Coq Require Import Ring Ring_theory Setoid Morphisms.
From Verif Require Import Lib BaseModel RingSpec RingProofs SeriesSpec SeriesProofs PolyModel PolyProofs PolyProofs3 PolyProofs4 PolyProofs5 BaseProps SerSpec SerModel SerProofs SerProofs2.
Open Scope Z_scope.

Section SerProofs5.
  Context {R : Type} (zero one : R) (add mul sub : R -> R -> R) (opp : R -> R).
  Hypothesis Rth : ring_theory zero one add mul sub opp (@eq R).
  Add Ring RsX : Rth.
  Variable tdiv : R -> R -> option R.
  Variable eqb : R -> R -> bool.
  Hypothesis eqb_spec : forall x y, eqb x y = true <-> x = y.
  Hypothesis H10 : one <> zero.
  Hypothesis Hd : forall x y u, mul y u = one -> tdiv x y = Some (mul x u).
  Variable ofint : Z -> R.
  Hypothesis Hof : forall n, ofint (Z.of_nat n) = rnat zero one add n.
  Variable thr : Z.
  Local Notation rsum := (rsum zero add). Local Notation rnat := (rnat zero one add). Local Notation rpow := (rpow one mul).
  Local Notation pconv := (pconv zero add mul). Local Notation pconst := (pconst zero).
  Local Notation ppow := (ppow zero one add mul). Local Notation D := (pderiv zero one add mul). Local Notation psubst := (psubst zero one add mul). Local Notation px := (px zero one).
  Local Notation coef := (coef zero). Local Notation at_ := (p_at zero).
  Local Notation resize := (p_resize zero).
  Local Notation s_add := (s_add zero add eqb). Local Notation s_sub := (s_sub zero sub eqb).
  Local Notation s_mul := (s_mul zero add sub mul eqb thr). Local Notation s_smul := (s_smul zero mul eqb). Local Notation s_sdiv := (s_sdiv zero tdiv eqb).
  Local Notation s_inverse := (s_inverse zero one add sub mul opp tdiv eqb thr). Local Notation s_div := (s_div zero one add sub mul opp tdiv eqb thr).
  Local Notation s_derivative := (s_derivative zero mul eqb ofint). Local Notation s_integral := (s_integral zero tdiv eqb ofint).
  Local Notation s_ln := (s_ln zero one add sub mul opp tdiv eqb ofint thr). Local Notation s_exp := (s_exp zero one add sub mul opp tdiv eqb ofint thr).
  Local Notation f0 := (f0 zero). Local Notation f1 := (f1 zero one). Local Notation fc := (fc zero).
  Local Notation fadd := (fadd add). Local Notation fsub := (fsub sub). Local Notation fmul := (fmul zero add mul). Local Notation fopp := (fopp opp). Local Notation val := (val zero).
  Local Infix "==" := feq (at level 70). Local Infix "+!" := fadd (at level 50, left associativity). Local Infix "-!" := fsub (at level 50, left associativity). Local Infix "*!" := fmul (at level 40, left associativity).
  Instance feq_equivX : Equivalence (@feq R) := feq_equiv.
  Instance fadd_extX : Proper (feq ==> feq ==> feq) fadd := fadd_ext add. Instance fsub_extX : Proper (feq ==> feq ==> feq) fsub := fsub_ext sub. Instance fopp_extX : Proper (feq ==> feq) fopp := fopp_ext opp. Instance fmul_extX : Proper (feq ==> feq ==> feq) fmul := fmul_ext zero add mul.
  Instance eqn_equivX n : Equivalence (@eqn R n) := eqn_equiv n. Instance eqn_properX n : Proper (feq ==> feq ==> iff) (@eqn R n) := eqn_proper n.
  Instance fadd_eqnX n : Proper (eqn n ==> eqn n ==> eqn n) fadd := fadd_eqn add n. Instance fsub_eqnX n : Proper (eqn n ==> eqn n ==> eqn n) fsub := fsub_eqn sub n. Instance fopp_eqnX n : Proper (eqn n ==> eqn n) fopp := fopp_eqn opp n. Instance fmul_eqnX n : Proper (eqn n ==> eqn n ==> eqn n) fmul := fmul_eqn zero add mul n.
  Instance val_properX n : Proper (feq ==> iff) (val n) := val_proper zero n. Instance D_extX : Proper (feq ==> feq) D := D_ext zero one add mul. Instance ppow_extX : Proper (feq ==> eq ==> feq) ppow := ppow_ext zero one add mul.
  Add Ring FsX : (fring zero one add mul sub opp Rth) (setoid (@fset R) (fext zero add mul opp)).
  Variable est : Z -> Z.
  Hypothesis Hest : forall n, 0 <= est n < 2 ^ 31.
  Local Notation s_composition := (s_composition zero one add sub mul eqb thr est).
  Local Notation s_reversion := (s_reversion zero one add sub mul opp tdiv eqb ofint thr est).

  Lemma axpy_spec N q p c : length q = N -> exists r, axpy zero add mul N q p c = Some r /\ length r = N /\ forall k, (k < N)%nat -> coef r k = add (coef q k) (mul (coef p k) c).
  Proof.
    intros L. unfold axpy. destruct (for_range_spec (fun i s => length s = N /\ forall k, coef s k = if Nat.ltb k i then add (coef q k) (mul (coef p k) c) else coef q k)
      (fun k q => let* x := nth_error q k in set_nth q k (add x (mul (at_ p (Z.of_nat k)) c))) 0 N q) as (r & E & Lr & V).
    - lia.
    - split; [exact L|]. intros k. destruct (Nat.ltb_spec k 0); [lia|reflexivity].
    - intros i s I (Ls & V). rewrite (nth_coef zero) by lia. cbn [obind]. destruct (set_nth_some s i (add (coef s i) (mul (at_ p (Z.of_nat i)) c))) as (s' & E); [lia|]. exists s'. split; [exact E|]. split; [now rewrite (set_nth_length _ _ _ _ E)|].
      intros k. rewrite (upd_get zero _ _ _ _ k E), p_at_coef, !V. destruct (Nat.eqb_spec i k) as [->|Nk].
      + destruct (Nat.ltb_spec k k), (Nat.ltb_spec k (S k)); try lia. reflexivity.
      + destruct (Nat.ltb_spec k i), (Nat.ltb_spec k (S i)); try lia; reflexivity.
    - exists r. split; [exact E|]. split; [exact Lr|]. intros k K. rewrite V. now destruct (Nat.ltb_spec k N); [|lia].
  Qed.
  (** a table of powers, entry i being a power of [f] *)
  Definition table_ok (N : nat) (f : nat -> nat -> R) (i : nat) (t : list (list R)) := forall j, (j < i)%nat -> exists l, nth_error t j = Some l /\ length l = N /\ eqn N (coef l) (f j).
  Lemma table_fill N (g : nat -> R) K t : (1 <= N)%nat -> length t = K -> table_ok N (fun j => ppow g j) (Nat.min 2 K) t ->
    exists t', for_range 2 K (fun i pm => let* x := nth_error pm (i - 1) in let* y := nth_error pm 1 in let* z := s_mul x y in set_nth pm i z) t = Some t' /\ length t' = K /\ table_ok N (fun j => ppow g j) K t'.
  Proof using Rth eqb_spec.
    intros N1 L T. destruct (Nat.le_gt_cases 2 K) as [K2|K2].
    2:{ exists t. split; [|split; [exact L|now replace (Nat.min 2 K) with K in T by lia]]. unfold for_range. replace (K - 2)%nat with O by lia. reflexivity. }
    destruct (for_range_spec (fun i t => length t = K /\ table_ok N (fun j => ppow g j) i t) (fun i pm => let* x := nth_error pm (i - 1) in let* y := nth_error pm 1 in let* z := s_mul x y in set_nth pm i z) 2 K t) as (t' & E & L' & T').
    - exact K2.
    - split; [exact L|now replace (Nat.min 2 K) with 2%nat in T by lia].
    - intros i s I (Ls & Ts). destruct (Ts (i - 1)%nat) as (x & Ex & Lx & Vx); [lia|]. destruct (Ts 1%nat) as (y & Ey & Ly & Vy); [lia|]. rewrite Ex. cbn [obind]. rewrite Ey. cbn [obind].
      destruct (s_mul_spec _ _ _ _ _ _ Rth eqb eqb_spec thr x y) as (z & Ez & Lz & Vz); [lia|]. rewrite Ez. cbn [obind]. destruct (set_nth_some s i z) as (s' & E); [lia|]. exists s'. split; [exact E|]. split; [now rewrite (set_nth_length _ _ _ _ E)|].
      intros j J. rewrite (set_nth_get _ _ _ _ j E). destruct (Nat.eqb_spec i j) as [<-|Nj]; [|apply Ts; lia]. exists z. split; [reflexivity|]. split; [lia|]. cbv beta. transitivity (ppow g (i - 1) *! ppow g 1); [rewrite <- Vx, <- Vy; intros k Hk; apply Vz; lia|]. rewrite <- (ppow_add zero one add mul sub opp Rth). replace (i - 1 + 1)%nat with i by lia. reflexivity.
    - exists t'. auto.
  Qed.
  Lemma ppow_1 g : ppow g 1 == g. Proof using Rth. cbn [SerSpec.ppow]. change (f1 *! g == g). ring. Qed.
  Lemma one_ok N g : eqn N (coef (resize [one] N)) (ppow g 0). Proof. intros i I. now apply coef_one. Qed.
  Lemma table_init N g K b : (2 <= K)%nat -> length b = N -> exists t0 t1, set_nth (repeat [] K) 0 (resize [one] N) = Some t0 /\ set_nth t0 1 b = Some t1 /\ length t1 = K /\ (eqn N (coef b) g -> table_ok N (fun j => ppow g j) (Nat.min 2 K) t1).
  Proof using Rth.
    intros K2 Lb. destruct (set_nth_some (repeat [] K) 0 (resize [one] N)) as (t0 & E0); [rewrite repeat_length; lia|]. pose proof (set_nth_length _ _ _ _ E0) as L0. rewrite repeat_length in L0. destruct (set_nth_some t0 1 b) as (t1 & E1); [lia|].
    exists t0, t1. split; [exact E0|]. split; [exact E1|]. split; [rewrite (set_nth_length _ _ _ _ E1); exact L0|]. intros G j J. rewrite (set_nth_get _ _ _ _ j E1). destruct (Nat.eqb_spec 1 j) as [<-|Nj].
    - exists b. split; [reflexivity|]. split; [exact Lb|]. rewrite ppow_1. exact G.
    - assert (j = O) as -> by lia. rewrite (set_nth_get _ _ _ _ 0%nat E0). cbn [Nat.eqb]. eexists. split; [reflexivity|]. split; [apply len_resize|]. apply one_ok.
  Qed.
  Lemma rsum_pconv n (f : nat -> nat -> R) g i : pconv (fun k => rsum n (fun j => f j k)) g i = rsum n (fun j => pconv (f j) g i).
  Proof using Rth.
    unfold SeriesSpec.pconv. rewrite (rsum_swap _ _ _ _ _ _ Rth). apply rsum_ext. intros k K. symmetry. apply (rsum_mul_r _ _ _ _ _ _ Rth).
  Qed.
  Lemma composition_spec a b : (1 <= length a)%nat -> Z.of_nat (length a) < 2 ^ 31 -> length b = length a ->
    exists r, s_composition a b = Some r /\ length r = length a /\ forall i, (i < length a)%nat -> coef r i = psubst (length a) (coef a) (coef b) i.
  Proof using Rth eqb_spec Hest.
    intros N1 NB Lb. set (N := length a) in *. set (B := coef b) in *. unfold SerModel.s_composition. fold N.
    destruct (C05_isqrtc est (Z.of_nat N + 1) Hest) as (K0 & EK & K0p & K0s & K0m); [lia|]. destruct (Z.ltb_spec (Z.of_nat N + 1) 0); [lia|]. rewrite EK. cbn [obind]. rewrite Z.abs_eq in * by lia.
    assert (HK2 : 2 <= K0) by nia. set (K := Z.to_nat K0). assert (KK : (N < K * K)%nat) by (unfold K; nia). assert (K2 : (2 <= K)%nat) by (unfold K; lia). clearbody K. clear EK K0s K0m HK2 K0p K0 H.
    destruct (table_init N B (K + 1) b) as (p0 & p1 & Ep0 & Ep1 & Lp1 & Tp1); [lia|exact Lb|]. rewrite Ep0. cbn [obind]. rewrite Ep1. cbn [obind].
    destruct (table_fill N B (K + 1) p1 N1 Lp1) as (pm & Epm & Lpm & Tpm); [apply Tp1; intros i _; reflexivity|]. rewrite Epm. cbn [obind].
    destruct (Tpm K) as (pK & EpK & LpK & VpK); [lia|].
    destruct (table_init N (ppow B K) K pK) as (t0 & t1 & Et0 & Et1 & Lt1 & Tt1); [lia|exact LpK|]. rewrite Et0. cbn [obind]. rewrite EpK. cbn [obind]. rewrite Et1. cbn [obind].
    destruct (table_fill N (ppow B K) K t1 N1 Lt1) as (tm & Etm & Ltm & Ttm); [now apply Tt1|]. rewrite Etm. cbn [obind].
    set (Q := fun i k => rsum K (fun j => mul (ppow B j k) (coef a (i * K + j)))).
    destruct (for_range_spec (fun i qm => length qm = K /\ table_ok N Q i qm) (fun i qm =>
      let* qi := for_range 0 K (fun j qi => let* pj := nth_error pm j in axpy zero add mul N qi pj (at_ a (Z.of_nat (i * K + j)))) (resize [zero] N) in set_nth qm i qi) 0 K (repeat [] K)) as (qm & Eqm & Lqm & Tqm).
    { lia. } { split; [apply repeat_length|]. intros j J. lia. }
    { intros i qm I (Lq & Tq).
      destruct (for_range_spec (fun j q => length q = N /\ eqn N (coef q) (fun k => rsum j (fun j => mul (ppow B j k) (coef a (i * K + j)%nat)))) (fun j qi => let* pj := nth_error pm j in axpy zero add mul N qi pj (at_ a (Z.of_nat (i * K + j)))) 0 K (resize [zero] N)) as (q & Eq & LQ & VQ).
      { lia. } { split; [apply len_resize|]. intros k Kk. rewrite coef_zeros. reflexivity. }
      { intros j q J (LQ & VQ). destruct (Tpm j) as (pj & Epj & Lpj & Vpj); [lia|]. rewrite Epj. cbn [obind]. destruct (axpy_spec N q pj (at_ a (Z.of_nat (i * K + j))) LQ) as (r & Er & Lr & Vr). exists r. split; [exact Er|]. split; [exact Lr|]. intros k Kk. rewrite Vr, VQ, Vpj, p_at_coef by exact Kk. reflexivity. }
      rewrite Eq. cbn [obind]. destruct (set_nth_some qm i q) as (qm' & E'); [lia|]. exists qm'. split; [exact E'|]. split; [now rewrite (set_nth_length _ _ _ _ E')|]. intros j J. rewrite (set_nth_get _ _ _ _ j E'). destruct (Nat.eqb_spec i j) as [<-|Nj]; [|apply Tq; lia]. exists q. auto. }
    rewrite Eqm. cbn [obind]. destruct (Tqm 0%nat) as (q0 & Eq0 & Lq0 & Vq0); [lia|]. rewrite Eq0. cbn [obind].
    destruct (for_range_spec (fun i s => length s = N /\ eqn N (coef s) (fun k => rsum i (fun i => pconv (Q i) (ppow (ppow B K) i) k))) (fun i s => let* q := nth_error qm i in let* t := nth_error tm i in let* z := s_mul q t in s_add s z) 1 K q0) as (r & Er & Lr & Vr).
    { lia. } { split; [exact Lq0|]. intros k Kk. rewrite Vq0 by exact Kk. cbn [RingSpec.rsum SerSpec.ppow]. rewrite (pconv_comm _ _ _ _ _ _ Rth), (pconv_const_l _ _ _ _ _ _ Rth). ring. }
    { intros i s I (Ls & Vs). destruct (Tqm i) as (q & Eq & LQ & VQ); [lia|]. destruct (Ttm i) as (t & Et & Lt & Vt); [lia|]. rewrite Eq. cbn [obind]. rewrite Et. cbn [obind].
      destruct (s_mul_spec _ _ _ _ _ _ Rth eqb eqb_spec thr q t) as (z & Ez & Lz & Vz); [lia|]. rewrite Ez. cbn [obind]. destruct (s_add_spec _ _ _ _ _ _ Rth eqb eqb_spec s z) as (s' & Es & Ls' & Vs'). exists s'. split; [exact Es|]. split; [lia|].
      intros k Kk. rewrite Vs', Vs, Vz by lia. rewrite rsum_S. f_equal. apply pconv_ext; intros j J; [apply VQ|apply Vt]; lia. }
    exists r. split; [exact Er|]. split; [exact Lr|]. intros k Kk. rewrite Vr by exact Kk. unfold SerSpec.psubst. symmetry. rewrite <- (rsum_trunc _ _ _ _ _ _ Rth (K * K)); [|lia|intros j J; rewrite (coef_above zero a) by (fold N; lia); ring].
    rewrite (rsum_blocks _ _ _ _ _ _ Rth). apply rsum_ext. intros i I. unfold Q. rewrite rsum_pconv. apply rsum_ext. intros j J.
    transitivity (mul (coef a (i * K + j)%nat) (pconv (ppow B j) (ppow (ppow B K) i) k)).
    - f_equal. rewrite (ppow_add zero one add mul sub opp Rth B (i * K) j k). change (pconv (ppow B j) (ppow (ppow B K) i) k) with ((ppow B j *! ppow (ppow B K) i) k). rewrite (Nat.mul_comm i K). assert (E : ppow B (K * i) *! ppow B j == ppow B j *! ppow (ppow B K) i) by (rewrite (ppow_mul zero one add mul sub opp Rth B K i); ring). apply E.
    - unfold SeriesSpec.pconv. rewrite <- (rsum_mul_l _ _ _ _ _ _ Rth). apply rsum_ext. intros w W. ring.
  Qed.

  (** Newton's step for the reversion *)
  Lemma reversion_alg a m k r q q1 h F p1 : (2 <= k)%nat -> (k <= m)%nat -> (m <= k + k)%nat -> mul (a 1%nat) p1 = one -> r 1%nat = p1 ->
    val 1 r -> eqn k (psubst m a r) px -> eqn m q (psubst m a r) -> eqn m F (q -! px) -> eqn m q1 (D q) -> eqn m (h *! q1) (F *! D r) -> eqn m (psubst m a (r -! h)) px.
  Proof using Rth.
    intros K2 KM MK U R1 R0 HK HQ HF HQ1 HH. destruct m as [|m]; [lia|].
    assert (VF : val k F). { intros i I. rewrite HF by lia. unfold SerProofs.fsub. rewrite HQ, HK by lia. ring. }
    assert (Q10 : q1 O = one). { rewrite HQ1 by lia. unfold SerSpec.pderiv. rewrite HQ, HK by lia. cbn. ring. }
    assert (Vh : val k h). { apply (val_eqn0 zero). apply (unit_cancel zero one add mul sub opp Rth k h f0 q1 one); [rewrite Q10; ring|]. rewrite (eqn_le (S m) k _ _ KM HH). assert (Z0 : f0 *! q1 == f0) by ring. rewrite Z0. apply (val_eqn0 zero). now apply (val_mul_l zero one add mul sub opp Rth). }
    assert (T : eqn (S m) (psubst (S m) a (r -! h)) (psubst (S m) a r -! psubst m (D a) r *! h)).
    { apply (eqn_le (k + k)); [lia|]. assert (E : psubst (S m) a (r -! h) == psubst (S m) a (r +! fopp h)). { intros i. apply rsum_ext. intros j J. f_equal. apply ppow_extX; [|reflexivity]. intros w. unfold SerProofs.fsub, SerProofs.fadd, SerProofs.fopp. ring. } rewrite E.
      rewrite (psubst_taylor zero one add mul sub opp Rth m a r (fopp h) k) by now apply (val_opp zero one add mul sub opp Rth). apply eqn_feq. ring. }
    rewrite T. assert (HG : eqn (S m) (psubst m (D a) r *! h) F).
    { apply (unit_cancel zero one add mul sub opp Rth (S m) _ _ (D r) (a 1%nat)).
      - unfold SerSpec.pderiv. cbn [RingSpec.rnat]. rewrite R1. transitivity (mul (a 1%nat) p1); [ring|exact U].
      - rewrite <- HH. assert (E : psubst m (D a) r *! h *! D r == (psubst m (D a) r *! D r) *! h) by ring. rewrite E. rewrite <- (D_subst zero one add mul sub opp Rth m a r). assert (E2 : h *! q1 == q1 *! h) by ring. rewrite E2.
        apply (eqn_le (m + k)); [lia|]. apply (eqn_mul_val zero one add mul sub opp Rth); [|exact Vh]. symmetry. transitivity (D q); [apply (eqn_le (S m)); [lia|exact HQ1]|]. now apply D_eqn. }
    rewrite HG, HF, HQ. apply eqn_feq. ring.
  Qed.
  Lemma reversion_step_spec a k r p1 : Z.of_nat (length a) < 2 ^ 31 -> mul (coef a 1) p1 = one -> (2 <= k)%nat -> (k < length a)%nat -> length r = k -> coef r 0 = zero -> coef r 1 = p1 -> eqn k (psubst k (coef a) (coef r)) px ->
    exists r', reversion_step zero one add sub mul opp tdiv eqb ofint thr est a (Z.of_nat k) r = Some r' /\ let m := Nat.min (length a) (k * 2) in length r' = m /\ coef r' 0 = zero /\ coef r' 1 = p1 /\ eqn m (psubst m (coef a) (coef r')) px.
  Proof using Rth eqb_spec Hest H10 Hd Hof.
    intros NB U K2 KN Lr R0 R1 HE. set (m := Nat.min (length a) (k * 2)). assert (Hm : (k < m <= length a)%nat /\ (m <= k + k)%nat) by (unfold m; lia). unfold reversion_step. replace (Z.to_nat (Z.min (Z.of_nat (length a)) (Z.of_nat k * 2))) with m by (unfold m; lia). clearbody m. cbv zeta.
    set (rk := resize r m). set (pk := resize (firstn m a) m).
    assert (Rm : forall i, coef rk i = coef r i). { intros i. unfold rk. destruct (Nat.lt_ge_cases i m) as [Lt|Ge]; [now apply coef_resize|]. rewrite !coef_above; [reflexivity|lia|rewrite len_resize; lia]. }
    assert (Lrk : length rk = m) by apply len_resize. assert (Lpk : length pk = m) by apply len_resize. assert (Pm : forall i, (i < m)%nat -> coef pk i = coef a i) by (intros i I; unfold pk; rewrite coef_resize by exact I; now apply coef_firstn). clearbody rk pk.
    destruct (composition_spec pk rk) as (q & Eq & Lq & Vq); [lia|lia|lia|]. rewrite Eq. cbn [obind]. rewrite Lpk in *.
    rewrite (nth_coef zero) by lia. cbn [obind]. destruct (set_nth_some q 1 (sub (coef q 1) one)) as (q' & Eq'); [lia|]. rewrite Eq'. cbn [obind]. pose proof (set_nth_length _ _ _ _ Eq') as Lq'.
    destruct (s_derivative_spec _ _ _ _ _ _ Rth eqb eqb_spec ofint Hof rk) as (dr & Edr & Ldr & Vdr). rewrite Edr. cbn [obind].
    destruct (s_derivative_spec _ _ _ _ _ _ Rth eqb eqb_spec ofint Hof q) as (dq & Edq & Ldq & Vdq). rewrite Edq. cbn [obind].
    destruct (s_mul_spec _ _ _ _ _ _ Rth eqb eqb_spec thr q' dr) as (w & Ew & Lw & Vw); [lia|]. rewrite Ew. cbn [obind].
    assert (VR : val 1 (coef rk)) by (intros i I; replace i with O by lia; now rewrite Rm).
    assert (HE2 : eqn k (psubst m (coef a) (coef rk)) px). { rewrite <- HE. transitivity (psubst k (coef a) (coef rk)); [apply (psubst_more zero one add mul sub opp Rth); [exact VR|lia]|]. apply (psubst_eqn zero one add mul sub opp Rth). intros i _. apply Rm. }
    assert (VQ : eqn m (coef q) (psubst m (coef a) (coef rk))). { intros i I. rewrite Vq by exact I. apply rsum_ext. intros j J. now rewrite Pm. }
    assert (DQ0 : coef dq 0 = one). { rewrite Vdq. unfold SerSpec.pderiv. rewrite VQ, HE2 by lia. cbn. ring. }
    destruct (s_div_spec _ _ _ _ _ _ Rth tdiv eqb eqb_spec H10 Hd thr w dq one) as (h & Eh & Lh & Vh); [rewrite DQ0; ring|lia|]. rewrite Eh. cbn [obind].
    destruct (s_sub_spec _ _ _ _ _ _ Rth eqb eqb_spec rk h) as (r' & Er & Lr' & Vr'). exists r'. split; [exact Er|]. split; [lia|].
    assert (HF : eqn m (coef q') (coef q -! px)). { intros i I. rewrite (upd_get zero _ _ _ _ i Eq'). unfold SerProofs.fsub, SerSpec.px. destruct i as [|[|i]]; cbn [Nat.eqb]; [ring|reflexivity|ring]. }
    assert (HH : eqn m (coef h *! coef dq) (coef q' *! D (coef rk))). { intros i I. transitivity (coef w i); [apply Vh; lia|]. rewrite Vw by lia. apply pconv_ext; intros j J; [reflexivity|apply Vdr]. }
    assert (HD : eqn m (coef dq) (D (coef q))) by (intros i I; apply Vdq).
    assert (VF : val k (coef q')). { intros i I. rewrite HF by lia. unfold SerProofs.fsub. rewrite VQ, HE2 by lia. ring. }
    assert (VH : val k (coef h)). { apply (val_eqn0 zero). apply (unit_cancel zero one add mul sub opp Rth k _ f0 (coef dq) one); [rewrite DQ0; ring|]. rewrite (eqn_le m k _ _ ltac:(lia) HH). assert (Z0 : f0 *! coef dq == f0) by ring. rewrite Z0. apply (val_eqn0 zero). now apply (val_mul_l zero one add mul sub opp Rth). }
    split; [rewrite Vr' by lia; rewrite VH, Rm, R0 by lia; ring|]. split; [rewrite Vr' by lia; rewrite VH, Rm, R1 by lia; ring|].
    transitivity (psubst m (coef a) (coef rk -! coef h)); [apply (psubst_eqn zero one add mul sub opp Rth); intros i I; apply Vr'; lia|].
    apply (reversion_alg (coef a) m k (coef rk) (coef q) (coef dq) (coef h) (coef q') p1); auto; try lia. now rewrite Rm.
  Qed.
  Lemma reversion_spec a p1 : (2 <= length a)%nat -> Z.of_nat (length a) < 2 ^ 31 -> coef a 0 = zero -> mul (coef a 1) p1 = one ->
    exists r, s_reversion a = Some r /\ length r = length a /\ coef r 0 = zero /\ forall i, (i < length a)%nat -> psubst (length a) (coef a) (coef r) i = px i.
  Proof using Rth eqb_spec Hest H10 Hd Hof.
    intros N2 NB A0 U. unfold SerModel.s_reversion. change (at_ a 0) with (at_ a (Z.of_nat 0)). change (at_ a 1) with (at_ a (Z.of_nat 1)). rewrite !p_at_coef, A0. assert (E0 : eqb zero zero = true) by now apply eqb_spec. rewrite E0. cbn [negb].
    destruct (eqb (coef a 1) zero) eqn:E1; [apply eqb_spec in E1; rewrite E1 in U; destruct H10; rewrite <- U; ring|]. rewrite (Hd _ _ p1 U). cbn [obind].
    destruct (loopZ_spec (fun '(k, r) => if k <? Z.of_nat (length a) then let* r := reversion_step zero one add sub mul opp tdiv eqb ofint thr est a k r in Some (inl (k * 2, r)) else Some (inr r))
      (fun '(k, r) => 2 <= k /\ length r = Z.to_nat (Z.min k (Z.of_nat (length a))) /\ coef r 0 = zero /\ coef r 1 = p1 /\ eqn (length r) (psubst (length r) (coef a) (coef r)) px)
      (fun r => length r = length a /\ coef r 0 = zero /\ eqn (length r) (psubst (length r) (coef a) (coef r)) px)
      (fun '(k, r) => Z.max 0 (Z.of_nat (length a) - k))) with (fuel := Z.of_nat (length a) + 1) (s := (2, [zero; mul one p1])) as (r & E & L & R0 & V).
    - intros (k & r) (K2 & Lr & R0 & R1 & V). destruct (Z.ltb_spec k (Z.of_nat (length a))) as [B|B].
      + destruct (reversion_step_spec a (Z.to_nat k) r p1) as (r' & E & L' & R0' & R1' & V'); auto; try lia; [replace (Z.to_nat k) with (length r) by lia; exact V|]. rewrite Z2Nat.id in E by lia. rewrite E. cbn [obind]. eexists. split; [reflexivity|]. cbv beta iota. split; [|lia]. split; [lia|]. split; [lia|]. split; [exact R0'|]. split; [exact R1'|]. rewrite L'. exact V'.
      + eexists. split; [reflexivity|]. cbv beta iota. split; [lia|]. split; [exact R0|exact V].
    - intros (k & r) _. lia.
    - split; [lia|]. split; [cbn [length]; lia|]. split; [reflexivity|]. split; [cbn; ring|]. cbn [length]. intros i I. unfold SerSpec.psubst. cbn [RingSpec.rsum SerSpec.ppow]. rewrite (pconv_const_l _ _ _ _ _ _ Rth), A0. destruct i as [|[|i]]; [cbn; ring|cbn|lia]. transitivity (mul (coef a 1) p1); [cbn; ring|exact U].
    - lia.
    - rewrite E. cbn [obind]. eexists. split; [reflexivity|]. split; [apply len_resize|]. rewrite L in *. split; [now rewrite coef_resize by lia|]. intros i I. rewrite <- V by exact I. apply (psubst_eqn zero one add mul sub opp Rth _ (length a)); [|exact I]. intros j J. now apply coef_resize.
  Qed.
  Lemma reversion_none a : coef a 0 <> zero \/ coef a 1 = zero -> s_reversion a = Some (resize [zero] (length a)).
  Proof using eqb_spec.
    intros H. unfold SerModel.s_reversion. change (at_ a 0) with (at_ a (Z.of_nat 0)). change (at_ a 1) with (at_ a (Z.of_nat 1)). rewrite !p_at_coef. destruct (eqb (coef a 0) zero) eqn:E; cbn [negb]; [|reflexivity]. apply eqb_spec in E. destruct H as [H|H]; [contradiction|]. assert (E1 : eqb (coef a 1) zero = true) by now apply eqb_spec. now rewrite E1.
  Qed.
End SerProofs5.
