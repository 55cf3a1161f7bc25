(** The basic series operations. *)
From Coq Require Import Ring Ring_theory Setoid Morphisms.
From Verif Require Import Lib BaseModel RingSpec RingProofs SeriesSpec SeriesProofs PolyModel PolyProofs PolyProofs3 PolyProofs4 PolyProofs5 SerSpec SerModel SerProofs.
Open Scope Z_scope.

Section SerProofs2.
  Context {R : Type} (zero one : R) (add mul sub : R -> R -> R) (opp : R -> R).
  Hypothesis Rth : ring_theory zero one add mul sub opp (@eq R).
  Add Ring Rs2 : Rth.
  Variable tdiv : R -> R -> option R.
  Variable eqb : R -> R -> bool.
  Hypothesis eqb_spec : forall x y, eqb x y = true <-> x = y.
  Hypothesis H10 : one <> zero.
  Hypothesis Hd : forall x y u, mul y u = one -> tdiv x y = Some (mul x u).
  Variable ofint : Z -> R.
  Hypothesis Hof : forall n, ofint (Z.of_nat n) = rnat zero one add n.
  Variable thr : Z.
  Local Notation rsum := (rsum zero add). Local Notation rnat := (rnat zero one add). Local Notation rpow := (rpow one mul). Local Notation rfact := (rfact zero one add mul).
  Local Notation pconv := (pconv zero add mul). Local Notation pconst := (pconst zero).
  Local Notation ppow := (ppow zero one add mul). Local Notation pderiv := (pderiv zero one add mul).
  Local Notation coef := (coef zero). Local Notation at_ := (p_at zero).
  Local Notation resize := (p_resize zero).
  Local Notation s_add := (s_add zero add eqb). Local Notation s_sub := (s_sub zero sub eqb). Local Notation s_neg := (s_neg zero opp eqb).
  Local Notation s_mul := (s_mul zero add sub mul eqb thr). Local Notation s_smul := (s_smul zero mul eqb). Local Notation s_sdiv := (s_sdiv zero tdiv eqb).
  Local Notation s_inverse := (s_inverse zero one add sub mul opp tdiv eqb thr). Local Notation s_div := (s_div zero one add sub mul opp tdiv eqb thr).
  Local Notation s_derivative := (s_derivative zero mul eqb ofint). Local Notation s_integral := (s_integral zero tdiv eqb ofint).

  Lemma len_resize c n : length (resize c n) = n. Proof. apply p_resize_length. Qed.
  Lemma s_add_spec a b : exists r, s_add a b = Some r /\ length r = length a /\ forall i, (i < length a)%nat -> coef r i = add (coef a i) (coef b i).
  Proof using Rth eqb_spec.
    unfold SerModel.s_add. destruct (op_add_spec _ _ _ _ _ _ Rth eqb eqb_spec a b) as (r & E & _ & V). rewrite E. cbn [obind]. eexists. split; [reflexivity|]. split; [apply len_resize|]. intros i I. now rewrite coef_resize.
  Qed.
  Lemma s_sub_spec a b : exists r, s_sub a b = Some r /\ length r = length a /\ forall i, (i < length a)%nat -> coef r i = sub (coef a i) (coef b i).
  Proof using Rth eqb_spec.
    unfold SerModel.s_sub. destruct (op_sub_spec _ _ _ _ _ _ Rth eqb eqb_spec a b) as (r & E & _ & V). rewrite E. cbn [obind]. eexists. split; [reflexivity|]. split; [apply len_resize|]. intros i I. now rewrite coef_resize.
  Qed.
  Lemma s_neg_spec a : exists r, s_neg a = Some r /\ length r = length a /\ forall i, (i < length a)%nat -> coef r i = opp (coef a i).
  Proof using Rth eqb_spec.
    unfold SerModel.s_neg. destruct (op_neg_spec _ _ _ _ _ _ Rth eqb eqb_spec a) as (r & E & _ & V). rewrite E. cbn [obind]. eexists. split; [reflexivity|]. split; [apply len_resize|]. intros i I. now rewrite coef_resize.
  Qed.
  Lemma s_smul_spec a v : exists r, s_smul a v = Some r /\ length r = length a /\ forall i, (i < length a)%nat -> coef r i = mul (coef a i) v.
  Proof using Rth eqb_spec.
    unfold SerModel.s_smul. destruct (op_smul_spec _ _ _ _ _ _ Rth eqb eqb_spec a v) as (r & E & _ & V). rewrite E. cbn [obind]. eexists. split; [reflexivity|]. split; [apply len_resize|]. intros i I. now rewrite coef_resize.
  Qed.
  Lemma s_sdiv_spec a v u : mul v u = one -> exists r, s_sdiv a v = Some r /\ length r = length a /\ forall i, (i < length a)%nat -> coef r i = mul (coef a i) u.
  Proof using Rth eqb_spec Hd.
    intros U. unfold SerModel.s_sdiv. destruct (op_sdiv_spec _ _ _ _ _ _ Rth tdiv eqb eqb_spec a v u) as (r & E & _ & V); [intros x; now apply Hd|]. rewrite E. cbn [obind]. eexists. split; [reflexivity|]. split; [apply len_resize|]. intros i I. now rewrite coef_resize.
  Qed.
  Lemma s_mul_spec a b : (1 <= length a)%nat -> exists r, s_mul a b = Some r /\ length r = length a /\ forall i, (i < length a)%nat -> coef r i = pconv (coef a) (coef b) i.
  Proof using Rth eqb_spec.
    intros N. unfold SerModel.s_mul. pose proof (p_mul_spec _ _ _ _ _ _ Rth eqb eqb_spec thr (env2 a b) 0 0 1 (Z.of_nat (length a) - 1)) as P. cbv zeta in P. destruct (Z.ltb_spec (Z.of_nat (length a) - 1) 0) as [B|_] in P; [lia|].
    destruct P as (e & E & L & V & _). rewrite E. cbn [obind]. eexists. split; [reflexivity|]. split; [rewrite L; lia|]. intros i I. apply V. lia.
  Qed.
  Lemma s_inverse_spec a u : mul (coef a 0) u = one -> exists r, s_inverse a = Some r /\ length r = length a /\ forall i, (i < length a)%nat -> pconv (coef a) (coef r) i = pconst one i.
  Proof using Rth eqb_spec H10 Hd.
    intros U. unfold SerModel.s_inverse. destruct (p_inverse_spec _ _ _ _ _ _ Rth tdiv eqb eqb_spec thr a (Z.of_nat (length a)) u) as (r & E & V & _); [exact H10|exact U|intros x; now apply Hd|]. rewrite E. cbn [obind]. eexists. split; [reflexivity|]. split; [apply len_resize|].
    intros i I. rewrite <- V by lia. apply pconv_ext; [reflexivity|]. intros j J. apply coef_resize. lia.
  Qed.
  Lemma unit_len a u : mul (coef a 0) u = one -> (1 <= length a)%nat.
  Proof using Rth H10. intros U. destruct a; [|cbn; lia]. destruct H10. rewrite <- U. cbn. ring. Qed.
  Lemma s_div_spec a b u : mul (coef b 0) u = one -> (1 <= length a <= length b)%nat -> exists r, s_div a b = Some r /\ length r = length a /\ forall i, (i < length a)%nat -> pconv (coef r) (coef b) i = coef a i.
  Proof using Rth eqb_spec H10 Hd.
    intros U L. unfold SerModel.s_div. destruct (s_inverse_spec b u U) as (v & E & Lv & V). rewrite E. cbn [obind]. destruct (s_mul_spec a v) as (r & Er & Lr & Vr); [lia|]. exists r. split; [exact Er|]. split; [exact Lr|].
    intros i I. transitivity (pconv (pconv (coef a) (coef v)) (coef b) i); [apply pconv_ext; [intros j J; apply Vr; lia|reflexivity]|]. rewrite <- (pconv_assoc _ _ _ _ _ _ Rth).
    transitivity (pconv (coef a) (pconst one) i); [apply pconv_ext; [reflexivity|]; intros j J; rewrite (pconv_comm _ _ _ _ _ _ Rth); apply V; lia|]. rewrite (pconv_comm _ _ _ _ _ _ Rth), (pconv_const_l _ _ _ _ _ _ Rth). ring.
  Qed.
  Lemma s_derivative_spec a : exists r, s_derivative a = Some r /\ length r = length a /\ forall i, coef r i = pderiv (coef a) i.
  Proof using Rth eqb_spec Hof.
    unfold SerModel.s_derivative. destruct (derivative_spec _ _ _ _ _ _ Rth eqb eqb_spec (fun i => ofint (Z.of_nat i)) a) as (r & E & V); [now rewrite (Hof 0)|]. rewrite E. cbn [obind]. eexists. split; [reflexivity|]. split; [apply len_resize|].
    intros i. destruct (Nat.lt_ge_cases i (length a)) as [L|L]; [rewrite coef_resize by exact L|rewrite coef_above by (rewrite len_resize; exact L)].
    - rewrite V, Hof. unfold SerSpec.pderiv. ring.
    - unfold SerSpec.pderiv. rewrite (coef_above zero a) by lia. ring.
  Qed.
  Lemma s_integral_spec (inv : nat -> R) a c0 : (forall i, (i < length a)%nat -> mul (rnat (S i)) (inv (S i)) = one) ->
    exists r, s_integral a c0 = Some r /\ length r = length a /\ ((1 <= length a)%nat -> coef r 0 = c0) /\ forall i, (S i < length a)%nat -> coef r (S i) = mul (coef a i) (inv (S i)).
  Proof using Rth eqb_spec Hof Hd.
    intros Hi. unfold SerModel.s_integral.
    assert (P : exists r, p_integral zero tdiv eqb (fun i => ofint (Z.of_nat i)) a c0 = Some r /\ coef r O = c0 /\ forall i, coef r (S i) = mul (coef a i) (inv (S i))).
    { unfold p_integral. destruct (Nat.eqb_spec (length a) 0) as [E0|E0].
      { eexists. split; [reflexivity|]. split; [reflexivity|]. intros i. rewrite (coef_above _ a) by lia. destruct i as [|i]; cbn; ring. }
      pose proof (proj1 (deg_spec zero eqb eqb_spec a)) as Dl.
      destruct (zdn_spec (fun i t => coef t O = c0 /\ forall n, coef t (S n) = if i <? Z.of_nat n then mul (coef a n) (inv (S n)) else zero)
        (fun i r => let* ci := nth_error a (Z.to_nat i) in let* q := tdiv ci (ofint (Z.of_nat (Z.to_nat (i + 1)))) in p_put zero r (i + 1) q) (Z.of_nat (p_deg zero eqb a)) 0 [c0]) as (r & E & V0 & V).
      - lia.
      - split; [reflexivity|]. intros n. replace (coef [c0] (S n)) with zero by (destruct n; reflexivity). destruct (Z.ltb_spec (Z.of_nat (p_deg zero eqb a)) (Z.of_nat n)); [|reflexivity]. rewrite (proj1 (proj2 (deg_spec zero eqb eqb_spec a))) by lia. ring.
      - intros i t Hi0 (HV0 & HV). assert (N : nth_error a (Z.to_nat i) = Some (coef a (Z.to_nat i))) by (apply nth_error_nth'; lia). rewrite N. cbn [obind].
        replace (Z.to_nat (i + 1)) with (S (Z.to_nat i)) by lia. rewrite Hof. rewrite (Hd _ _ (inv (S (Z.to_nat i)))) by (apply Hi; lia). cbn [obind].
        destruct (put_spec zero t (i + 1) (mul (coef a (Z.to_nat i)) (inv (S (Z.to_nat i))))) as (t' & E' & _ & V'); [lia|]. exists t'. split; [exact E'|].
        split.
        + rewrite V'. destruct (Nat.eqb_spec 0 (Z.to_nat (i + 1))); [lia|exact HV0].
        + intros n. rewrite V', HV. destruct (Nat.eqb_spec (S n) (Z.to_nat (i + 1))) as [En|Nn].
          * destruct (Z.ltb_spec (i - 1) (Z.of_nat n)); [|lia]. replace n with (Z.to_nat i) by lia. reflexivity.
          * destruct (Z.ltb_spec i (Z.of_nat n)), (Z.ltb_spec (i - 1) (Z.of_nat n)); try lia; reflexivity.
      - exists r. split; [exact E|]. split; [exact V0|]. intros n. rewrite V. destruct (Z.ltb_spec (0 - 1) (Z.of_nat n)); [reflexivity|lia]. }
    destruct P as (r & E & V0 & V). rewrite E. cbn [obind]. eexists. split; [reflexivity|]. split; [apply len_resize|]. split; [intros L; now rewrite coef_resize by lia|]. intros i I. rewrite coef_resize by exact I. apply V.
  Qed.

  (** *** coefficientwise loops *)
  Lemma upd_get (s s' : list R) i x j : set_nth s i x = Some s' -> coef s' j = if Nat.eqb i j then x else coef s j.
  Proof. intros E. unfold SeriesSpec.coef. pose proof (set_nth_get _ _ _ _ j E) as G. destruct (Nat.eqb_spec i j) as [->|Nj]; [now apply nth_error_nth|]. rewrite <- !nth_default_eq. unfold nth_default. now rewrite G. Qed.
  Lemma nth_coef (s : list R) i : (i < length s)%nat -> nth_error s i = Some (coef s i). Proof. intros L. now apply nth_error_nth'. Qed.
  Lemma pointwise_mul_spec a b : exists r, s_pointwise_mul zero mul a b = Some r /\ length r = length a /\ forall i, (i < length a)%nat -> coef r i = mul (coef a i) (coef b i).
  Proof.
    unfold s_pointwise_mul. destruct (for_range_spec (fun k s => length s = length a /\ forall i, coef s i = if Nat.ltb i k then mul (coef a i) (coef b i) else coef a i)
      (fun i s => let* x := nth_error s i in set_nth s i (mul x (at_ b (Z.of_nat i)))) 0 (length a) a) as (r & E & L & V).
    - lia.
    - split; [reflexivity|]. intros i. now destruct (Nat.ltb_spec i 0); [lia|].
    - intros k s K (L & V). rewrite nth_coef by lia. cbn [obind]. destruct (set_nth_some s k (mul (coef s k) (at_ b (Z.of_nat k)))) as (s' & E); [lia|]. exists s'. split; [exact E|]. split; [now rewrite (set_nth_length _ _ _ _ E)|].
      intros i. rewrite (upd_get _ _ _ _ i E), p_at_coef, !V. destruct (Nat.eqb_spec k i) as [->|Ni].
      + destruct (Nat.ltb_spec i i), (Nat.ltb_spec i (S i)); try lia. reflexivity.
      + destruct (Nat.ltb_spec i k), (Nat.ltb_spec i (S k)); try lia; reflexivity.
    - exists r. split; [exact E|]. split; [exact L|]. intros i I. rewrite V. now destruct (Nat.ltb_spec i (length a)); [|lia].
  Qed.
  Lemma shift_spec a l : Z.abs l <= Z.of_nat (length a) -> exists r, s_shift zero a l = Some r /\ length r = length a /\
    forall i, (i < length a)%nat -> coef r i = if Z.of_nat i - l <? 0 then zero else coef a (Z.to_nat (Z.of_nat i - l)).
  Proof.
    intros L. unfold s_shift. destruct (Z.leb_spec (Z.abs l) (Z.of_nat (length a))); [|lia]. cbn [guard obind]. destruct (Z.ltb_spec l 0) as [Ln|Ln]; eexists; (split; [reflexivity|]); (split; [apply len_resize|]); intros i I; rewrite coef_resize by exact I.
    - rewrite coef_app_zeros, coef_skipn. destruct (Z.ltb_spec (Z.of_nat i - l) 0); [lia|]. f_equal. lia.
    - unfold SeriesSpec.coef. destruct (Z.ltb_spec (Z.of_nat i - l) 0).
      + rewrite app_nth1 by (rewrite repeat_length; lia). apply nth_repeat.
      + rewrite app_nth2 by (rewrite repeat_length; lia). rewrite repeat_length. fold (coef (firstn (length a - Z.to_nat (Z.abs l)) a) (i - Z.to_nat (Z.abs l))%nat). rewrite coef_firstn by lia. unfold SeriesSpec.coef. f_equal. lia.
  Qed.
  Lemma sub_mul_spec a v : exists r, s_sub_mul one mul a v = Some r /\ length r = length a /\ forall i, (i < length a)%nat -> coef r i = mul (coef a i) (rpow v i).
  Proof using Rth.
    destruct (Nat.eq_dec (length a) 0) as [Z0|Z0]. { exists a. split; [|split; [reflexivity|intros; lia]]. destruct a; [reflexivity|discriminate]. }
    unfold s_sub_mul. destruct (for_range_spec (fun k '(vn, s) => vn = rpow v (k - 1) /\ length s = length a /\ forall i, coef s i = if Nat.ltb i k then mul (coef a i) (rpow v i) else coef a i)
      (fun i '(vn, s) => let vn := mul vn v in let* x := nth_error s i in let* s := set_nth s i (mul x vn) in Some (vn, s)) 1 (length a) (one, a)) as ((vn, r) & E & _ & L & V).
    - lia.
    - split; [reflexivity|]. split; [reflexivity|]. intros i. destruct (Nat.ltb_spec i 1); [|reflexivity]. replace i with O by lia. cbn [RingSpec.rpow]. ring.
    - intros k (vn & s) K (EV & L & V). cbv zeta. rewrite nth_coef by lia. cbn [obind]. destruct (set_nth_some s k (mul (coef s k) (mul vn v))) as (s' & E); [lia|]. rewrite E. cbn [obind]. eexists. split; [reflexivity|]. cbv beta iota.
      assert (PV : mul vn v = rpow v k) by (rewrite EV; destruct k; [lia|]; cbn [RingSpec.rpow]; now replace (S k - 1)%nat with k by lia).
      split; [now replace (S k - 1)%nat with k by lia|]. split; [now rewrite (set_nth_length _ _ _ _ E)|]. rewrite PV in E.
      intros i. rewrite (upd_get _ _ _ _ i E), !V. destruct (Nat.eqb_spec k i) as [->|Ni].
      + destruct (Nat.ltb_spec i i), (Nat.ltb_spec i (S i)); try lia. reflexivity.
      + destruct (Nat.ltb_spec i k), (Nat.ltb_spec i (S k)); try lia; reflexivity.
    - match type of E with ?t = _ => match goal with |- exists r, obind ?u _ = _ /\ _ => change u with t end end. rewrite E. cbn [obind]. exists r. split; [reflexivity|]. split; [exact L|]. intros i I. rewrite V. now destruct (Nat.ltb_spec i (length a)); [|lia].
  Qed.
  Lemma coef_zeros n i : coef (resize [zero] n) i = zero.
  Proof. destruct (Nat.lt_ge_cases i n) as [L|L]; [rewrite coef_resize by exact L; now destruct i as [|[|i]]|]. apply coef_above. now rewrite len_resize. Qed.
  Lemma sub_pow_spec a v : exists r, s_sub_pow zero a v = Some r /\ length r = length a /\
    (0 < v -> forall i, (i < length a)%nat -> coef r i = if Z.of_nat i mod v =? 0 then coef a (Z.to_nat (Z.of_nat i / v)) else zero) /\
    (v <= 0 -> forall i, (i < length a)%nat -> coef r i = zero).
  Proof.
    unfold s_sub_pow. destruct (Z.ltb_spec 0 v) as [V0|V0].
    2:{ eexists. split; [reflexivity|]. split; [apply len_resize|]. split; [lia|]. intros _ i I. apply coef_zeros. }
    destruct (loopZ_spec (fun '(i, j, s) => if i <? Z.of_nat (length a) then let* s := set_nth s (Z.to_nat i) (at_ a j) in Some (inl (i + v, j + 1, s)) else Some (inr s))
      (fun '(i, j, s) => i = j * v /\ 0 <= j /\ length s = length a /\ forall k, coef s k = if (Z.of_nat k <? i) && (Z.of_nat k <? Z.of_nat (length a)) && (Z.of_nat k mod v =? 0) then coef a (Z.to_nat (Z.of_nat k / v)) else zero)
      (fun s => length s = length a /\ forall k, (k < length a)%nat -> coef s k = if Z.of_nat k mod v =? 0 then coef a (Z.to_nat (Z.of_nat k / v)) else zero)
      (fun '(i, j, s) => Z.max 0 (Z.of_nat (length a) - i))) with (fuel := Z.of_nat (length a) + 1) (s := (0, 0, resize [zero] (length a))) as (r & E & L & V).
    - intros ((i & j) & s) (Ei & J0 & L & V). destruct (Z.ltb_spec i (Z.of_nat (length a))) as [B|B].
      + assert (I0 : 0 <= i) by nia. destruct (set_nth_some s (Z.to_nat i) (at_ a j)) as (s' & E); [lia|]. rewrite E. cbn [obind]. eexists. split; [reflexivity|]. cbv beta iota. split; [|lia]. split; [lia|]. split; [lia|]. split; [now rewrite (set_nth_length _ _ _ _ E)|].
        intros k. rewrite (upd_get _ _ _ _ k E). destruct (Nat.eqb_spec (Z.to_nat i) k) as [<-|Nk].
        * rewrite Z2Nat.id by lia. rewrite Ei. rewrite Z.mod_mul, Z.div_mul by lia. rewrite p_at_coefZ by lia. destruct (Z.ltb_spec (j * v) (j * v + v)), (Z.ltb_spec (j * v) (Z.of_nat (length a))); try lia. reflexivity.
        * rewrite V. destruct (Z.ltb_spec (Z.of_nat k) (Z.of_nat (length a))); [|now rewrite !andb_false_r].
          destruct (Z.eqb_spec (Z.of_nat k mod v) 0) as [Ek|Ek]; [|now rewrite !andb_false_r].
          destruct (Z.ltb_spec (Z.of_nat k) i), (Z.ltb_spec (Z.of_nat k) (i + v)); try reflexivity; [lia|]. exfalso.
          pose proof (Z.div_mod (Z.of_nat k) v ltac:(lia)) as Q. rewrite Ek, Z.add_0_r in Q. rewrite Ei in *. assert (j < Z.of_nat k / v) by nia. nia.
      + eexists. split; [reflexivity|]. cbv beta iota. split; [exact L|]. intros k K. rewrite V. destruct (Z.ltb_spec (Z.of_nat k) i), (Z.ltb_spec (Z.of_nat k) (Z.of_nat (length a))); try lia. reflexivity.
    - intros ((i & j) & s) _. lia.
    - split; [lia|]. split; [lia|]. split; [apply len_resize|]. intros k. rewrite coef_zeros. destruct (Z.ltb_spec (Z.of_nat k) 0); [lia|]. reflexivity.
    - lia.
    - exists r. split; [exact E|]. split; [exact L|]. split; [intros _ i I; now apply V|lia].
  Qed.
  (** *** exponential and ordinary generating functions *)
  Lemma rfact_S n : rfact (S n) = mul (rfact n) (rnat (S n)). Proof. reflexivity. Qed.
  Lemma make_ordinary_spec a : exists r, s_make_ordinary one mul ofint a = Some r /\ length r = length a /\ forall i, (i < length a)%nat -> coef r i = mul (coef a i) (rfact i).
  Proof using Rth Hof.
    destruct (Nat.eq_dec (length a) 0) as [Z0|Z0]. { exists a. split; [|split; [reflexivity|intros; lia]]. destruct a; [reflexivity|discriminate]. }
    unfold s_make_ordinary. destruct (for_range_spec (fun k '(vn, s) => vn = rfact (k - 1) /\ length s = length a /\ forall i, coef s i = if Nat.ltb i k then mul (coef a i) (rfact i) else coef a i)
      (fun i '(f, s) => let f := mul f (ofint (Z.of_nat i)) in let* x := nth_error s i in let* s := set_nth s i (mul x f) in Some (f, s)) 1 (length a) (one, a)) as ((vn, r) & E & _ & L & V).
    - lia.
    - split; [reflexivity|]. split; [reflexivity|]. intros i. destruct (Nat.ltb_spec i 1); [|reflexivity]. replace i with O by lia. unfold RingSpec.rfact. cbn. ring.
    - intros k (vn & s) K (EV & L & V). cbv zeta. rewrite nth_coef by lia. cbn [obind]. destruct (set_nth_some s k (mul (coef s k) (mul vn (ofint (Z.of_nat k))))) as (s' & E); [lia|]. rewrite E. cbn [obind]. eexists. split; [reflexivity|]. cbv beta iota.
      assert (PV : mul vn (ofint (Z.of_nat k)) = rfact k) by (rewrite EV, Hof; destruct k; [lia|]; rewrite rfact_S; now replace (S k - 1)%nat with k by lia).
      split; [now replace (S k - 1)%nat with k by lia|]. split; [now rewrite (set_nth_length _ _ _ _ E)|]. rewrite PV in E.
      intros i. rewrite (upd_get _ _ _ _ i E), !V. destruct (Nat.eqb_spec k i) as [->|Ni].
      + destruct (Nat.ltb_spec i i), (Nat.ltb_spec i (S i)); try lia. reflexivity.
      + destruct (Nat.ltb_spec i k), (Nat.ltb_spec i (S k)); try lia; reflexivity.
    - match type of E with ?t = _ => match goal with |- exists r, obind ?u _ = _ /\ _ => change u with t end end. rewrite E. cbn [obind]. exists r. split; [reflexivity|]. split; [exact L|]. intros i I. rewrite V. now destruct (Nat.ltb_spec i (length a)); [|lia].
  Qed.
  Lemma make_exponential_spec a u : mul (rfact (length a - 1)) u = one -> exists r, s_make_exponential one mul tdiv ofint a = Some r /\ length r = length a /\ forall i, (i < length a)%nat -> mul (coef r i) (rfact i) = coef a i.
  Proof using Rth Hof Hd.
    intros U. unfold s_make_exponential.
    destruct (Nat.eq_dec (length a) 0) as [Z0|Z0].
    { exists a. split; [|split; [reflexivity|intros; lia]]. destruct a; [|discriminate]. cbn. rewrite (Hd one one one) by ring. reflexivity. }
    destruct (for_range_spec (fun k f => f = rfact (k - 1)) (fun i f => Some (mul f (ofint (Z.of_nat i)))) 1 (length a) one) as (f & Ef & Hf).
    - lia.
    - reflexivity.
    - intros k f K Hf. eexists. split; [reflexivity|]. rewrite Hf, Hof. destruct k; [lia|]. cbn [Nat.sub]. rewrite Nat.sub_0_r. now rewrite rfact_S.
    - rewrite Ef. cbn [obind]. rewrite Hf. rewrite (Hd _ _ u U). cbn [obind].
      destruct (zdn_spec (fun i '(f, s) => mul f (rfact (Z.to_nat i)) = one /\ length s = length a /\ forall k, (k < length a)%nat -> if i <? Z.of_nat k then mul (coef s k) (rfact k) = coef a k else coef s k = coef a k)
        (fun i '(f, s) => let* x := nth_error s (Z.to_nat i) in let* s := set_nth s (Z.to_nat i) (mul x f) in Some (mul f (ofint i), s)) (Z.of_nat (length a) - 1) 1 (mul one u, a)) as ((g & r) & E & _ & L & V).
      + lia.
      + split; [replace (Z.to_nat (Z.of_nat (length a) - 1)) with (length a - 1)%nat by lia; etransitivity; [|exact U]; ring|]. split; [reflexivity|]. intros k K. destruct (Z.ltb_spec (Z.of_nat (length a) - 1) (Z.of_nat k)); [lia|reflexivity].
      + intros i (g & s) I (G & L & V). rewrite nth_coef by lia. cbn [obind]. destruct (set_nth_some s (Z.to_nat i) (mul (coef s (Z.to_nat i)) g)) as (s' & E); [lia|]. rewrite E. cbn [obind]. eexists. split; [reflexivity|]. cbv beta iota.
        assert (F : rfact (Z.to_nat i) = mul (rfact (Z.to_nat (i - 1))) (ofint i)). { replace (Z.to_nat i) with (S (Z.to_nat (i - 1))) by lia. rewrite rfact_S, <- Hof. do 2 f_equal. lia. }
        split; [etransitivity; [|exact G]; rewrite F; ring|]. split; [now rewrite (set_nth_length _ _ _ _ E)|]. intros k K. rewrite (upd_get _ _ _ _ k E). specialize (V k K). destruct (Nat.eqb_spec (Z.to_nat i) k) as [<-|Nk].
        * rewrite Z2Nat.id in * by lia. destruct (Z.ltb_spec i i), (Z.ltb_spec (i - 1) i); try lia. rewrite V. transitivity (mul (coef a (Z.to_nat i)) (mul g (rfact (Z.to_nat i)))); [ring|]. rewrite G. ring.
        * destruct (Z.ltb_spec i (Z.of_nat k)), (Z.ltb_spec (i - 1) (Z.of_nat k)); try lia; exact V.
      + rewrite E. cbn [obind]. exists r. split; [reflexivity|]. split; [exact L|]. intros i I. specialize (V i I). change (1 - 1) with 0 in V. destruct (Z.ltb_spec 0 (Z.of_nat i)); [exact V|]. rewrite V. replace i with O by lia. unfold RingSpec.rfact. cbn. ring.
  Qed.
  Lemma coef_one n i : (i < n)%nat -> coef (resize [one] n) i = pconst one i.
  Proof. intros L. rewrite coef_resize by exact L. now destruct i as [|[|i]]. Qed.
  Lemma exp_of_spec v N u : mul (rfact (N - 1)) u = one -> exists r, s_exp_of zero one mul tdiv ofint v N = Some r /\ length r = N /\ forall i, (i < N)%nat -> mul (coef r i) (rfact i) = rpow v i.
  Proof using Rth Hof Hd.
    intros U. unfold s_exp_of. destruct (Nat.eq_dec N 0) as [->|Z0].
    { cbn. rewrite (Hd one one one) by ring. cbn. eexists. split; [reflexivity|]. split; [reflexivity|]. intros; lia. }
    destruct (for_range_spec (fun k s => length s = N /\ forall i, (i < k)%nat -> coef s i = rpow v i) (fun i s => let* x := nth_error s (i - 1) in set_nth s i (mul x v)) 1 N (resize [one] N)) as (s & E & L & V).
    - lia.
    - split; [apply len_resize|]. intros i I. rewrite coef_one by lia. now replace i with O by lia.
    - intros k s K (L & V). rewrite nth_coef by lia. cbn [obind]. destruct (set_nth_some s k (mul (coef s (k - 1)) v)) as (s' & E); [lia|]. exists s'. split; [exact E|]. split; [now rewrite (set_nth_length _ _ _ _ E)|].
      intros i I. rewrite (upd_get _ _ _ _ i E). destruct (Nat.eqb_spec k i) as [<-|Ni]; [|apply V; lia]. rewrite V by lia. destruct k; [lia|]. cbn [Nat.sub]. now rewrite Nat.sub_0_r.
    - rewrite E. cbn [obind]. destruct (make_exponential_spec s u) as (r & Er & Lr & Vr); [now rewrite L|]. exists r. split; [exact Er|]. split; [lia|]. intros i I. rewrite Vr by lia. now apply V.
  Qed.
  Lemma of_spec (f : Z -> R) N : exists r, s_of zero f N = Some r /\ length r = N /\ forall i, (i < N)%nat -> coef r i = f (Z.of_nat i).
  Proof.
    unfold s_of. destruct (Nat.eq_dec N 0) as [->|Z0]. { eexists. split; [reflexivity|]. split; [reflexivity|]. intros; lia. }
    destruct (for_range_spec (fun k s => length s = N /\ forall i, (i < k)%nat -> coef s i = f (Z.of_nat i)) (fun i s => set_nth s i (f (Z.of_nat i))) 1 N (resize [f 0] N)) as (s & E & L & V).
    - lia.
    - split; [apply len_resize|]. intros i I. rewrite coef_resize by lia. now replace i with O by lia.
    - intros k s K (L & V). destruct (set_nth_some s k (f (Z.of_nat k))) as (s' & E); [lia|]. exists s'. split; [exact E|]. split; [now rewrite (set_nth_length _ _ _ _ E)|].
      intros i I. rewrite (upd_get _ _ _ _ i E). destruct (Nat.eqb_spec k i) as [<-|Ni]; [reflexivity|]. apply V. lia.
    - exists s. auto.
  Qed.
End SerProofs2.
