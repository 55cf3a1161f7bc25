(** C42: quadratic extension rings; C75: word-parallel GF(2). *)
From Coq Require Import Ring Ring_theory.
From Verif Require Import Lib RingSpec QuadraticModel.
Open Scope Z_scope.

Section C42.
  Context {R : Type} (zero one : R) (add mul sub : R -> R -> R) (opp : R -> R).
  Hypothesis Rth : ring_theory zero one add mul sub opp (@eq R).
  Add Ring Rq : Rth.
  Local Notation q_add := (q_add add). Local Notation q_sub := (q_sub sub). Local Notation q_mul := (q_mul add mul). Local Notation q_neg := (q_neg opp).
  Local Notation conj := (q_conjugate opp). Local Notation norm := (q_norm sub mul). Local Notation Qz := (q_zeroOf zero). Local Notation Q1 := (q_identityOf zero one).
  Ltac qsolve := intros; unfold QuadraticModel.q_add, QuadraticModel.q_sub, QuadraticModel.q_mul, QuadraticModel.q_neg, q_conjugate, q_norm, q_zeroOf, q_identityOf, q_smul in *; cbn [qa qb qD] in *; try (f_equal; ring); try ring.

  (** for a fixed D the operations form a commutative ring in which (0 + 1 sqrt D)^2 = D *)
  Theorem C42_ring (D : R) (x y z : quadratic) : qD x = D -> qD y = D -> qD z = D ->
    let e0 := Qz x in let e1 := Q1 x in
    q_add e0 x = x /\ q_add x y = q_add y x /\ q_add x (q_add y z) = q_add (q_add x y) z /\
    q_mul e1 x = x /\ q_mul x y = q_mul y x /\ q_mul x (q_mul y z) = q_mul (q_mul x y) z /\
    q_mul (q_add x y) z = q_add (q_mul x z) (q_mul y z) /\ q_sub x y = q_add x (q_neg y) /\ q_add x (q_neg x) = e0 /\
    qD (q_add x y) = D /\ qD (q_mul x y) = D /\ qD (q_neg x) = D /\ qD (q_sub x y) = D.
  Proof using Rth. destruct x as [a b d], y as [a' b' d'], z as [a2 b2 d2]. cbn [qD]. intros -> -> ->. cbv zeta. repeat split; qsolve. Qed.
  Theorem C42_sqrt (D a b : R) : q_mul (Q zero one D) (Q zero one D) = Q D zero D /\ Q a b D = q_add (Q a zero D) (q_mul (Q b zero D) (Q zero one D)).
  Proof using Rth. split; qsolve. Qed.
  (** a + b sqrt D is a pair: equality of the pair is what operator== tests *)
  Theorem C42_compare teqb tltb (teqb_spec : forall x y : R, teqb x y = true <-> x = y) (x y : quadratic) : qD x = qD y ->
    (q_eqb teqb x y = true <-> x = y) /\ q_neb teqb x y = negb (q_eqb teqb x y) /\
    ((forall u v, tltb u v = true -> u <> v /\ tltb v u = false) -> (forall u v, u <> v -> tltb u v = true \/ tltb v u = true) ->
       q_gtb teqb tltb x y = q_ltb teqb tltb y x /\ q_leb teqb tltb x y = negb (q_ltb teqb tltb y x) /\ q_geb teqb tltb x y = negb (q_ltb teqb tltb x y) /\
       (q_eqb teqb x y = true \/ q_ltb teqb tltb x y = true \/ q_ltb teqb tltb y x = true) /\ (q_ltb teqb tltb x y = true -> x <> y /\ q_ltb teqb tltb y x = false)).
  Proof using.
    destruct x as [a b d], y as [a' b' d']. cbn [qD]. intros ->. unfold q_eqb, q_neb, q_gtb, q_leb, q_geb, q_ltb. cbn [qa qb].
    split; [rewrite andb_true_iff, !teqb_spec; split; [intros (-> & ->); reflexivity|intros E; injection E; auto]|].
    split; [rewrite negb_andb; reflexivity|]. intros L1 L2.
    assert (E : forall u v, teqb u v = teqb v u) by (intros u v; apply eq_true_iff_eq; rewrite !teqb_spec; split; congruence).
    assert (T3 : forall u v, (teqb u v = true /\ u = v /\ tltb u v = false /\ tltb v u = false) \/ (teqb u v = false /\ u <> v /\ tltb u v = true /\ tltb v u = false) \/ (teqb u v = false /\ u <> v /\ tltb u v = false /\ tltb v u = true)).
    { intros u v. destruct (teqb u v) eqn:Q.
      - left. apply teqb_spec in Q. subst v. split; [reflexivity|]. split; [reflexivity|]. destruct (tltb u u) eqn:K; [|auto]. apply L1 in K. destruct K as (K & _). congruence.
      - right. assert (N : u <> v) by (intros N; apply teqb_spec in N; congruence). destruct (L2 u v N) as [K|K]; pose proof (L1 _ _ K) as (_ & K2); auto 10. }
    rewrite (E a' a).
    destruct (T3 a a') as [(A1 & A2 & A3 & A4)|[(A1 & A2 & A3 & A4)|(A1 & A2 & A3 & A4)]], (T3 b b') as [(B1 & B2 & B3 & B4)|[(B1 & B2 & B3 & B4)|(B1 & B2 & B3 & B4)]];
      rewrite ?A1, ?A3, ?A4, ?B1, ?B3, ?B4; cbn [andb orb negb]; repeat split; auto; try discriminate; try congruence; intros E'; injection E'; intros; congruence.
  Qed.
  (** the norm is multiplicative and x * conjugate(x) = norm(x) *)
  Theorem C42_norm (x y : quadratic) : qD x = qD y ->
    norm (q_mul x y) = mul (norm x) (norm y) /\ conj (q_mul x y) = q_mul (conj x) (conj y) /\ conj (q_add x y) = q_add (conj x) (conj y) /\
    conj (conj x) = x /\ q_mul x (conj x) = Q (norm x) zero (qD x).
  Proof using Rth. destruct x as [a b d], y as [a' b' d']. cbn [qD]. intros ->. repeat split; qsolve. Qed.
  (** if dividing by the norm undoes multiplying by it, (x * y) / y = x *)
  Theorem C42_div_mul tdiv (x y : quadratic) : qD x = qD y -> (forall t, tdiv (mul t (norm y)) (norm y) = Some t) ->
    q_div add sub mul opp tdiv (q_mul x y) y = Some x /\ q_mod add sub mul opp tdiv (q_mul x y) y = Some (Qz x).
  Proof using Rth.
    destruct x as [a b d], y as [a' b' d']. cbn [qD]. intros -> H.
    assert (E : q_div add sub mul opp tdiv (q_mul (Q a b d') (Q a' b' d')) (Q a' b' d') = Some (Q a b d')).
    { unfold q_div, q_sdiv. replace (q_mul (q_mul (Q a b d') (Q a' b' d')) (conj (Q a' b' d'))) with (Q (mul a (norm (Q a' b' d'))) (mul b (norm (Q a' b' d'))) d') by qsolve.
      cbn [qa qb qD]. rewrite !H. reflexivity. }
    split; [exact E|]. unfold q_mod. rewrite E. cbn [obind]. f_equal. qsolve.
  Qed.
  (** if the norm of y is a unit, (x / y) * y = x *)
  Theorem C42_mul_div tdiv (x y : quadratic) u : qD x = qD y -> mul (norm y) u = one -> (forall t, tdiv t (norm y) = Some (mul t u)) ->
    exists q, q_div add sub mul opp tdiv x y = Some q /\ q_mul q y = x.
  Proof using Rth.
    destruct x as [a b d], y as [a' b' d']. cbn [qD]. intros -> Hu H. unfold q_div, q_sdiv. rewrite !H. cbn [obind]. eexists. split; [reflexivity|].
    unfold QuadraticModel.q_mul, q_conjugate, q_norm in *. cbn [qa qb qD] in *. f_equal.
    - transitivity (mul a (mul (sub (mul a' a') (mul (mul b' b') d')) u)); [ring|]. rewrite Hu. ring.
    - transitivity (mul b (mul (sub (mul a' a') (mul (mul b' b') d')) u)); [ring|]. rewrite Hu. ring.
  Qed.
  (** whatever the rounding of the division of T, x = y * (x / y) + x % y *)
  Theorem C42_div_mod tdiv (x y q : quadratic) : qD x = qD y -> q_div add sub mul opp tdiv x y = Some q ->
    exists r, q_mod add sub mul opp tdiv x y = Some r /\ x = q_add (q_mul y q) r.
  Proof using Rth. destruct x as [a b d], y as [a' b' d'], q as [a2 b2 d2]. cbn [qD]. intros -> E. unfold q_mod. rewrite E. cbn [obind]. eexists. split; [reflexivity|]. qsolve. Qed.
End C42.

(** Gaussian integers with truncating division *)
Example C42_case : let x := Q 3 4 (-1) in let y := Q 1 (-2) (-1) in let tdiv := fun u v => if v =? 0 then None else Some (Z.quot u v) in
  q_mul Z.add Z.mul x y = Q 11 (-2) (-1) /\ q_norm Z.sub Z.mul x = 25 /\ q_div Z.add Z.sub Z.mul Z.opp tdiv (Q 11 (-2) (-1)) y = Some x /\
  q_norm Z.sub Z.mul y = 5 /\ (forall t, tdiv (t * 5) 5 = Some t).
Proof. cbv zeta. split; [reflexivity|]. split; [reflexivity|]. split; [reflexivity|]. split; [reflexivity|]. intros t. cbn. rewrite Z.quot_mul by lia. reflexivity. Qed.

(** C75: W independent copies of GF(2), one per bit. *)
Definition word (W x : Z) : Prop := 0 <= x < 2 ^ W.
Definition bit_eq (W x y : Z) : Prop := forall i, 0 <= i < W -> Z.testbit x i = Z.testbit y i.
Lemma bits_inj W x y : 0 <= W -> word W x -> word W y -> bit_eq W x y -> x = y.
Proof.
  intros HW Hx Hy H. apply Z.bits_inj'. intros i Hi. destruct (Z.lt_ge_cases i W); [apply H; lia|].
  unfold word in *. rewrite <- (Z.mod_small x (2 ^ W)), <- (Z.mod_small y (2 ^ W)) by assumption. rewrite !Z.mod_pow2_bits_high by lia. reflexivity.
Qed.
Lemma word_bits W x : 0 <= W -> 0 <= x -> (forall i, W <= i -> Z.testbit x i = false) -> word W x.
Proof.
  intros HW Hx H. split; [exact Hx|]. assert (E : x mod 2 ^ W = x).
  { apply Z.bits_inj'. intros i Hi. destruct (Z.lt_ge_cases i W); [apply Z.mod_pow2_bits_low; lia|]. rewrite Z.mod_pow2_bits_high, H by lia. reflexivity. }
  rewrite <- E. apply Z.mod_pos_bound. apply Z.pow_pos_nonneg; lia.
Qed.
Lemma word_high W x i : 0 <= W -> word W x -> W <= i -> Z.testbit x i = false.
Proof. intros HW Hx Hi. unfold word in Hx. rewrite <- (Z.mod_small x (2 ^ W)) by assumption. apply Z.mod_pow2_bits_high. lia. Qed.
Lemma ones_bit W i : 0 <= W -> 0 <= i -> Z.testbit (Z.ones W) i = (i <? W).
Proof. intros HW Hi. destruct (Z.ltb_spec i W); [apply Z.ones_spec_low; lia|apply Z.ones_spec_high; lia]. Qed.
Lemma ones_nonneg W : 0 <= W -> 0 <= Z.ones W.
Proof. intros. rewrite Z.ones_equiv. pose proof (Z.pow_pos_nonneg 2 W ltac:(lia) ltac:(lia)). lia. Qed.

(** every bit of the result is the GF(2) result of the operands' bits *)
Theorem C75_bitwise W x y i : 0 <= W -> word W x -> word W y -> 0 <= i < W ->
  Z.testbit (gf2_add x y) i = xorb (Z.testbit x i) (Z.testbit y i) /\ Z.testbit (gf2_mul x y) i = andb (Z.testbit x i) (Z.testbit y i) /\
  Z.testbit (gf2_identity W) i = true /\ Z.testbit gf2_zero i = false /\ (Z.testbit y i = true -> Z.testbit (gf2_div W x y) i = Z.testbit x i).
Proof.
  intros HW Hx Hy Hi. unfold gf2_add, gf2_mul, gf2_identity, gf2_zero, gf2_div, gf2_not. rewrite Z.lxor_spec, Z.land_spec, Z.lor_spec, !Z.lxor_spec, Z.bits_0, ones_bit by lia.
  replace (i <? W) with true by (symmetry; apply Z.ltb_lt; lia). repeat split. intros ->. rewrite orb_false_r. reflexivity.
Qed.
Theorem C75_closed W x y : 0 <= W -> word W x -> word W y -> word W (gf2_add x y) /\ word W (gf2_sub x y) /\ word W (gf2_neg x) /\ word W (gf2_mul x y) /\ word W (gf2_div W x y) /\ word W (gf2_identity W) /\ word W gf2_zero.
Proof.
  intros HW Hx Hy. pose proof (proj1 Hx). pose proof (proj1 Hy). pose proof (ones_nonneg W HW).
  assert (X : word W (Z.lxor x y)).
  { apply word_bits; [lia|rewrite Z.lxor_nonneg; tauto|]. intros i Hi. rewrite Z.lxor_spec, !(word_high W) by (assumption || lia). reflexivity. }
  split; [exact X|]. split; [exact X|]. split; [exact Hx|]. split.
  { apply word_bits; [lia|apply Z.land_nonneg; tauto|]. intros i Hi. unfold gf2_mul. rewrite Z.land_spec, (word_high W x) by (assumption || lia). reflexivity. }
  split.
  { apply word_bits; [lia|apply Z.lor_nonneg; split; [lia|apply Z.lxor_nonneg; tauto]|]. intros i Hi. unfold gf2_div, gf2_not.
    rewrite Z.lor_spec, Z.lxor_spec, ones_bit, (word_high W x), (word_high W y) by (assumption || lia). destruct (Z.ltb_spec i W); [lia|reflexivity]. }
  split.
  { apply word_bits; [lia|apply Z.lxor_nonneg; split; lia|]. intros i Hi. unfold gf2_identity, gf2_not. rewrite Z.lxor_spec, Z.bits_0, ones_bit by lia. destruct (Z.ltb_spec i W); [lia|reflexivity]. }
  unfold word, gf2_zero. split; [lia|]. apply Z.pow_pos_nonneg; lia.
Qed.
Ltac gf := intros; unfold gf2_add, gf2_sub, gf2_mul, gf2_neg in *; apply Z.bits_inj'; intros ? ?; rewrite ?Z.lxor_spec, ?Z.land_spec, ?Z.lxor_spec, ?Z.land_spec, ?Z.bits_0;
  repeat match goal with |- context [Z.testbit ?u ?v] => destruct (Z.testbit u v) end; reflexivity.
(** the words form a commutative ring of characteristic 2 with x * x = x; x / y undoes multiplication by the unit *)
Theorem C75_ring W x y z : 0 <= W -> word W x -> word W y -> word W z ->
  gf2_add gf2_zero x = x /\ gf2_add x y = gf2_add y x /\ gf2_add x (gf2_add y z) = gf2_add (gf2_add x y) z /\
  gf2_mul (gf2_identity W) x = x /\ gf2_mul x y = gf2_mul y x /\ gf2_mul x (gf2_mul y z) = gf2_mul (gf2_mul x y) z /\
  gf2_mul (gf2_add x y) z = gf2_add (gf2_mul x z) (gf2_mul y z) /\ gf2_sub x y = gf2_add x (gf2_neg y) /\ gf2_add x (gf2_neg x) = gf2_zero /\
  gf2_mul x x = x /\ gf2_div W x (gf2_identity W) = x /\ gf2_mul (gf2_div W x y) y = gf2_mul x y.
Proof.
  intros HW Hx Hy Hz. assert (B : forall i, W <= i -> Z.testbit x i = false) by (intros; apply (word_high W); auto). assert (By : forall i, W <= i -> Z.testbit y i = false) by (intros; apply (word_high W); auto).
  split; [unfold gf2_zero; gf|]. split; [gf|]. split; [gf|]. split.
  { apply Z.bits_inj'. intros i Hi. unfold gf2_mul, gf2_identity, gf2_not. rewrite Z.land_spec, Z.lxor_spec, Z.bits_0, ones_bit by lia. destruct (Z.ltb_spec i W); [reflexivity|]. rewrite B by lia. reflexivity. }
  split; [gf|]. split; [gf|]. split; [gf|]. split; [gf|]. split; [unfold gf2_zero; gf|]. split; [gf|]. split.
  { apply Z.bits_inj'. intros i Hi. unfold gf2_div, gf2_identity, gf2_not. rewrite Z.lor_spec, !Z.lxor_spec, Z.bits_0, ones_bit by lia. destruct (Z.ltb_spec i W); cbn; rewrite orb_false_r; reflexivity. }
  apply Z.bits_inj'. intros i Hi. unfold gf2_mul, gf2_div, gf2_not. rewrite !Z.land_spec, Z.lor_spec, Z.lxor_spec, ones_bit by lia. destruct (Z.ltb_spec i W); [|rewrite By by lia; rewrite !andb_false_r; reflexivity].
  destruct (Z.testbit x i), (Z.testbit y i); reflexivity.
Qed.
Example C75_case : word 8 0xA5 /\ word 8 0x0F /\ gf2_add 0xA5 0x0F = 0xAA /\ gf2_mul 0xA5 0x0F = 0x05 /\ gf2_identity 8 = 0xFF /\ gf2_div 8 0x05 0x0F = 0xF5.
Proof. unfold word. repeat split; try reflexivity; lia. Qed.

Print Assumptions C42_ring.
Print Assumptions C42_sqrt.
Print Assumptions C42_compare.
Print Assumptions C42_norm.
Print Assumptions C42_div_mul.
Print Assumptions C42_mul_div.
Print Assumptions C42_div_mod.
Print Assumptions C75_bitwise.
Print Assumptions C75_closed.
Print Assumptions C75_ring.
