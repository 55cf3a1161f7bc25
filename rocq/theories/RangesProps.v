From Coq Require Import Ring Ring_theory Qcanon.
From Verif Require Import Lib BaseModel BaseProofs RangesModel RangesSpec RingSpec RingProofs RangesProofs StirlingProofs.
Local Open Scope nat_scope.

(** C59: any commutative ring; 0, 1, + and * as parameters of the statement *)
Section C59.
  Context {T : Type} (zero id : T) (add mul sub div : T -> T -> T) (neg : T -> T) (eqb : T -> T -> bool) (cast : Z -> T).
  Hypothesis Rth : ring_theory zero id add mul sub neg (@eq T).
  Local Notation rnat := (rnat zero id add). Local Notation rfact := (rfact zero id add mul). Local Notation rpow := (rpow id mul).
  Local Notation rsum := (rsum zero add).

  Theorem C59_range_powers_factorials : forall n x,
    (length (range zero add n x) = n /\ forall i, i < n -> nth_error (range zero add n x) i = Some (mul (rnat i) x)) /\
    (length (powers id mul n x) = n /\ forall i, i < n -> nth_error (powers id mul n x) i = Some (rpow x i)) /\
    (length (factorials id add mul n) = n /\ forall i, i < n -> nth_error (factorials id add mul n) i = Some (rfact i)).
  Proof using Rth.
    intros n x. split; [|split]; split.
    - apply range_loop_length.
    - intros i Hi. unfold range. rewrite (range_loop_spec zero id add mul sub neg Rth) by exact Hi. f_equal. apply (Radd_0_l Rth).
    - apply powers_loop_length.
    - intros i Hi. unfold powers. rewrite (powers_loop_spec zero id add mul sub neg Rth) by exact Hi. f_equal. apply (Rmul_1_l Rth).
    - apply factorials_loop_length.
    - intros i Hi. unfold factorials. pose proof (factorials_loop_spec zero id add mul sub neg Rth n 0 i Hi) as H.
      cbn [RingSpec.rnat] in H. now rewrite (Radd_0_l Rth) in H.
  Qed.
  (** [k!] may be given for any k < n; the only division is by (n-1)! *)
  Theorem C59_inv_factorials : forall n k, (forall j, cast (Z.of_nat j) = rnat j) -> (Nat.max 1 k < n \/ (n = 1 /\ k <= 1)) ->
    mul (div id (rfact (n - 1))) (rfact (n - 1)) = id ->
    length (inv_factorials id add mul sub div cast n (rfact k) k) = n /\
    forall i, i < n -> exists x, nth_error (inv_factorials id add mul sub div cast n (rfact k) k) i = Some x /\ mul x (rfact i) = id.
  Proof using Rth. exact (inv_factorials_spec zero id add mul sub div neg cast Rth). Qed.
  Theorem C59_inverses : forall n, (forall j, cast (Z.of_nat j) = rnat j) -> 0 < n -> mul (div id (rfact (n - 1))) (rfact (n - 1)) = id ->
    exists v, inverses zero id add mul sub div cast n = Some v /\ length v = n /\ nth_error v 0 = Some zero /\
      forall i, 0 < i < n -> exists x, nth_error v i = Some x /\ mul x (rnat i) = id.
  Proof using Rth. exact (inverses_spec zero id add mul sub div neg cast Rth). Qed.
  Theorem C59_invert : forall v, (forall a b, eqb a b = true <-> a = b) -> (forall x, In x v -> x <> zero -> mul (div id x) x = id) ->
    length (invert zero id div eqb v) = length v /\
    forall i x, nth_error v i = Some x -> exists y, nth_error (invert zero id div eqb v) i = Some y /\ (x = zero -> y = zero) /\ (x <> zero -> mul y x = id).
  Proof using.
    intros v He Hd. unfold invert. split; [apply map_length|]. intros i x Hi. rewrite nth_error_map, Hi. cbn [option_map]. eexists. split; [reflexivity|].
    destruct (eqb x zero) eqn:E; [apply He in E; split; [auto|intros N; contradiction]|].
    assert (N : x <> zero) by (intros C; apply He in C; congruence). split; [intros C; contradiction|]. intros _. apply Hd; auto. eapply nth_error_In; eauto.
  Qed.
  (** one division, by the product of all elements *)
  Theorem C59_invert_field : forall v, (v <> [] -> let p := fold_right mul id v in mul (div id p) p = id) ->
    exists w, invert_field zero id mul div v = Some w /\ Forall2 (fun a b => mul b a = id) v w.
  Proof using Rth.
    intros [|x r] H; [exists []; split; [reflexivity|constructor]|]. specialize (H ltac:(discriminate)). cbv zeta in H.
    assert (P : last (x :: cumulative mul x r) zero = fold_right mul id (x :: r)).
    { clear H. assert (G : forall r x, last (x :: cumulative mul x r) zero = fold_right mul x r).
      { intros r0. induction r0 as [|y r0 IH] using rev_ind; intros z; [reflexivity|]. rewrite (cumulative_snoc mul r0 z y).
        rewrite app_comm_cons, last_last. rewrite (last_d z z zero), IH, fold_right_app. cbn [fold_right].
        clear -Rth. induction r0 as [|a r0 IH]; cbn [fold_right]; [reflexivity|]. rewrite <- IH. 
        rewrite !(Rmul_assoc Rth). f_equal. apply (Rmul_comm Rth). }
      rewrite G. cbn [fold_right]. clear -Rth. induction r as [|a r IH]; cbn [fold_right]; [rewrite (Rmul_comm Rth); symmetry; apply (Rmul_1_l Rth)|].
      rewrite IH, !(Rmul_assoc Rth). f_equal. apply (Rmul_comm Rth). }
    unfold invert_field. destruct (invert_field_loop_spec zero id add mul sub neg Rth x r (div id (last (x :: cumulative mul x r) zero)) []) as (w & E & F).
    - rewrite P. exact H.
    - exists w. rewrite app_nil_r in E. split; [exact E|exact F].
  Qed.
  Theorem C59_signs : forall v, 
    length (negate neg v) = length v /\ (forall i x, nth_error v i = Some x -> nth_error (negate neg v) i = Some (neg x)) /\
    length (alternate neg v) = length v /\ (forall i x, nth_error v i = Some x -> nth_error (alternate neg v) i = Some (if Nat.even i then x else neg x)).
  Proof using.
    intros v. split; [apply map_length|]. split; [intros i x H; unfold negate; now rewrite nth_error_map, H|]. split.
    - unfold alternate. generalize 1%Z as s. induction v as [|x v IH]; intros s; cbn [alternate_loop length]; auto.
    - apply alternate_spec.
  Qed.
  Theorem C59_accumulate : forall v, length (accumulate add v) = length v /\
    forall i, i < length v -> nth_error (accumulate add v) i = Some (rsum (S i) (fun j => nth j v zero)).
  Proof using Rth.
    intros v. split; [destruct v as [|x v]; [reflexivity|]; cbn [accumulate length]; now rewrite accumulate_loop_length|].
    intros i. apply (accumulate_spec zero id add mul sub neg Rth).
  Qed.
  Theorem C59_differentiate : forall v, exists w, differentiate sub v = Some w /\ length w = length v /\ nth_error w 0 = nth_error v 0 /\
    forall i, 0 < i < length v -> exists x y, nth_error v i = Some x /\ nth_error v (i - 1) = Some y /\ nth_error w i = Some (sub x y).
  Proof using.
    intros v. unfold differentiate. destruct (differentiate_loop_spec sub (length v - 1) v) as (w & E & L & _ & W0 & W).
    - destruct v; cbn [length]; lia.
    - exists w. split; [exact E|]. split; [exact L|]. split; [exact W0|]. intros i Hi. apply W. lia.
  Qed.
  Theorem C59_differentiate_accumulate : forall v, differentiate sub (accumulate add v) = Some v.
  Proof using Rth.
    intros v. destruct (C59_differentiate (accumulate add v)) as (w & E & L & W0 & W). destruct (C59_accumulate v) as [LA A].
    rewrite E. f_equal. apply list_ext. intros i. destruct (Nat.lt_ge_cases i (length v)) as [Hi|Hi].
    - destruct (nth_error_some v i Hi) as (x & Ex). rewrite Ex. pose proof (nth_error_nth v i zero Ex) as Nx. destruct i as [|i].
      + rewrite W0, A by exact Hi. f_equal. cbn [RingSpec.rsum]. rewrite Nx. apply (Radd_0_l Rth).
      + destruct (W (S i) ltac:(lia)) as (a & b & Ea & Eb & Ew). rewrite A in Ea by lia. replace (S i - 1) with i in Eb by lia. rewrite A in Eb by lia.
        apply (f_equal (fun o => match o with Some z => z | None => zero end)) in Ea, Eb. rewrite <- Ea, <- Eb in Ew. rewrite Ew. f_equal. rewrite (rsum_S zero add (S i)). rewrite Nx.
        generalize (rsum (S i) (fun j => nth j v zero)) as s. intros s. rewrite (Rsub_def Rth), (Radd_comm Rth s x), <- (Radd_assoc Rth), (Ropp_def Rth).
        rewrite (Radd_comm Rth). apply (Radd_0_l Rth).
    - rewrite (proj2 (nth_error_None w i)), (proj2 (nth_error_None v i)) by lia. reflexivity.
  Qed.
  Theorem C59_factorial : forall n, (forall j, cast (Z.of_nat j) = rnat j) -> factorial id mul cast (Z.of_nat n) = rfact n.
  Proof using Rth. intros n. exact (factorial_spec zero id add mul sub neg cast Rth n). Qed.
  Theorem C59_power : forall v n, (0 <= n)%Z -> power id mul v n = map (fun x => Some (rpow x (Z.to_nat n))) v.
  Proof using Rth.
    intros v n Hn. unfold power. apply map_ext. intros x. rewrite powT_npow; auto using (Rmul_assoc Rth), (Rmul_1_l Rth).
    - f_equal. clear -Rth. induction (Z.to_nat n) as [|m IH]; [reflexivity|]. cbn [npow RingSpec.rpow]. rewrite IH. apply (Rmul_comm Rth).
    - intros y. rewrite (Rmul_comm Rth). apply (Rmul_1_l Rth).
  Qed.
End C59.
(** with k >= n the supplied k! is divided out at the wrong positions: over the rationals, n = 2 and k = 3 *)
Definition Qcast (z : Z) : Qc := Q2Qc (QArith_base.inject_Z z).
Theorem C59_inv_factorials_refuted :
  exists x, nth_error (inv_factorials 1%Qc Qcplus Qcmult Qcminus Qcdiv Qcast 2 (rfact 0 1 Qcplus Qcmult 3)%Qc 3) 0 = Some x /\ (x * rfact 0 1 Qcplus Qcmult 0)%Qc <> 1%Qc.
Proof.
  eexists. split; [reflexivity|]. intros E. apply (f_equal this) in E. vm_compute in E. discriminate E.
Qed.
(** make_inverses(0) writes through the begin iterator of an empty range *)
Theorem C59_inverses_empty_refuted : forall (T : Type) (zero id : T) add mul sub div cast, inverses zero id add mul sub div cast 0 = None.
Proof. intros. reflexivity. Qed.
Example C59_case : map this (inv_factorials 1%Qc Qcplus Qcmult Qcminus Qcdiv Qcast 4 (rfact 0 1 Qcplus Qcmult 2)%Qc 2) = [QArith_base.Qmake 1 1; QArith_base.Qmake 1 1; QArith_base.Qmake 1 2; QArith_base.Qmake 1 6] /\
  option_map (map this) (inverses 0%Qc 1%Qc Qcplus Qcmult Qcminus Qcdiv Qcast 4) = Some [QArith_base.Qmake 0 1; QArith_base.Qmake 1 1; QArith_base.Qmake 1 2; QArith_base.Qmake 1 3] /\
  option_map (map this) (invert_field 0%Qc 1%Qc Qcmult Qcdiv [Qcast 2; Qcast 3; Qcast (-5)]) = Some [QArith_base.Qmake 1 2; QArith_base.Qmake 1 3; QArith_base.Qmake (-1) 5] /\
  differentiate Z.sub (accumulate Z.add [3; 1; 4; 1; 5]%Z) = Some [3; 1; 4; 1; 5]%Z.
Proof. vm_compute. repeat split. Qed.

(** C61: the tables hold the images of the integer coefficients between powers and falling factorials *)
Section C61.
  Context {T : Type} (zero id : T) (add mul sub : T -> T -> T) (neg : T -> T) (cast : Z -> T).
  Hypothesis Rth : ring_theory zero id add mul sub neg (@eq T).
  Hypothesis c0 : cast 0%Z = zero.
  Hypothesis c1 : cast 1%Z = id.
  Hypothesis cadd : forall a b, cast (a + b)%Z = add (cast a) (cast b).
  Hypothesis cmul : forall a b, cast (a * b)%Z = mul (cast a) (cast b).
  Theorem C61_stirling_s1 : exists s : nat -> nat -> Z,
    (forall n x, zff x n = rsum 0%Z Z.add (S n) (fun j => s n j * x ^ Z.of_nat j)%Z) /\
    forall n k, exists t, stirling_s1_all zero id mul sub cast n k = Some t /\ length t = n /\
      forall i, i < n -> exists row, nth_error t i = Some row /\ length row = Nat.min (i + 1) k /\
        forall j, j < Nat.min (i + 1) k -> nth_error row j = Some (cast (s i j)).
  Proof using Rth c0 c1 cadd cmul.
    exists S1. split; [intros; apply S1_identity|]. intros n k.
    destruct (stirling_table_spec zero id add mul sub neg cast Rth c0 c1 cadd cmul sub (fun i _ => Z.of_nat i - 1)%Z (fun i _ => - (Z.of_nat i - 1))%Z) with (k := k) (n := n) as (t & E & L & H).
    - intros a b i _. assert (EQ : cast (- (Z.of_nat i - 1))%Z = neg (cast (Z.of_nat i - 1)%Z)).
      { generalize (Z.of_nat i - 1)%Z as z. intros z. rewrite <- (Radd_0_l Rth (cast (- z)%Z)).
        rewrite <- (Ropp_def Rth (cast z)). rewrite (Radd_comm Rth (cast z)). rewrite <- (Radd_assoc Rth), <- cadd.
        replace (z + - z)%Z with 0%Z by ring. rewrite c0. rewrite (Radd_comm Rth). apply (Radd_0_l Rth). }
      rewrite EQ. rewrite (Rsub_def Rth). f_equal.
      rewrite (Rmul_comm Rth b). rewrite <- (Radd_0_l Rth (mul (neg _) b)).
      rewrite <- (Ropp_def Rth (mul (cast (Z.of_nat i - 1)%Z) b)) at 1. rewrite (Radd_comm Rth (mul _ _)). rewrite <- (Radd_assoc Rth), <- (Rdistr_l Rth), (Ropp_def Rth).
      assert (Z0 : mul zero b = zero). { pose proof (Rdistr_l Rth zero zero b) as D. rewrite (Radd_0_l Rth) in D.
        assert (X : add (mul zero b) (neg (mul zero b)) = add (add (mul zero b) (mul zero b)) (neg (mul zero b))) by now rewrite <- D.
        rewrite <- (Radd_assoc Rth), (Ropp_def Rth), (Radd_comm Rth), (Radd_0_l Rth) in X. auto. }
      rewrite Z0, (Radd_comm Rth). symmetry. apply (Radd_0_l Rth).
    - exact S1_0.
    - exists t. split; [exact E|]. split; [exact L|]. intros i Hi. destruct (H i Hi) as (row & A & B & C). exists row. auto.
  Qed.
  Theorem C61_stirling_s2 : exists s : nat -> nat -> Z,
    (forall n x, x ^ Z.of_nat n = rsum 0%Z Z.add (S n) (fun j => s n j * zff x j))%Z /\
    forall n k, exists t, stirling_s2_all zero id add mul cast n k = Some t /\ length t = n /\
      forall i, i < n -> exists row, nth_error t i = Some row /\ length row = Nat.min (i + 1) k /\
        forall j, j < Nat.min (i + 1) k -> nth_error row j = Some (cast (s i j)).
  Proof using Rth c0 c1 cadd cmul.
    exists S2. split; [intros; apply S2_identity|]. intros n k.
    destruct (stirling_table_spec zero id add mul sub neg cast Rth c0 c1 cadd cmul add (fun _ j => Z.of_nat j) (fun _ j => Z.of_nat j)) with (k := k) (n := n) as (t & E & L & H).
    - intros a b i j. f_equal. apply (Rmul_comm Rth).
    - exact S2_0.
    - exists t. split; [exact E|]. split; [exact L|]. intros i Hi. destruct (H i Hi) as (row & A & B & C). exists row. auto.
  Qed.
End C61.
(** the single-term function agrees with the table, and all its divisions are exact *)
Theorem C61_stirling_s2_term : exists s : nat -> nat -> Z,
  (forall n x, x ^ Z.of_nat n = rsum 0%Z Z.add (S n) (fun j => s n j * zff x j))%Z /\ (forall n j, n < j -> s n j = 0%Z) /\
  forall n k : nat, stirling_s2 (Z.of_nat n) (Z.of_nat k) = Some (s n k).
Proof.
  exists S2. split; [intros; apply S2_identity|]. split; [intros; now apply tri_above|]. intros n k. unfold stirling_s2.
  destruct (Z.eqb_spec (Z.of_nat k) (Z.of_nat n)) as [E|N]; [assert (k = n) by lia; subst; unfold S2; now rewrite tri_diag|].
  destruct (Z.leb_spec (Z.of_nat k) 0) as [L|L]; cbn [orb]; [assert (k = 0) by lia; subst; rewrite S2_0 by lia; reflexivity|].
  destruct (Z.ltb_spec (Z.of_nat n) (Z.of_nat k)) as [L2|L2]; [unfold S2; rewrite tri_above by lia; reflexivity|].
  rewrite Nat2Z.id. apply (stirling_s2_loop_spec n k k 0); [lia|now rewrite zbin_0|reflexivity|].
  cbn [rsum]. change (Z.of_nat 0) with 0%Z. rewrite Z.pow_0_l by lia. ring.
Qed.
Example C61_case : stirling_s1_all 0%Z 1%Z Z.mul Z.sub (fun z => z) 5 4 = Some [[1]; [0; 1]; [0; -1; 1]; [0; 2; -3; 1]; [0; -6; 11; -6]]%Z /\
  stirling_s2_all 0%Z 1%Z Z.add Z.mul (fun z => z) 5 4 = Some [[1]; [0; 1]; [0; 1; 1]; [0; 1; 3; 1]; [0; 1; 7; 6]]%Z /\ stirling_s2 10 4 = Some 34105%Z.
Proof. vm_compute. repeat split. Qed.

Print Assumptions C59_range_powers_factorials. Print Assumptions C59_inv_factorials. Print Assumptions C59_inverses. Print Assumptions C59_invert.
Print Assumptions C59_invert_field. Print Assumptions C59_signs. Print Assumptions C59_accumulate. Print Assumptions C59_differentiate.
Print Assumptions C59_differentiate_accumulate. Print Assumptions C59_factorial. Print Assumptions C59_power. Print Assumptions C59_inv_factorials_refuted.
Print Assumptions C59_inverses_empty_refuted. Print Assumptions C61_stirling_s1. Print Assumptions C61_stirling_s2. Print Assumptions C61_stirling_s2_term.
