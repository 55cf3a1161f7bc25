(** C148, C149, C150: plane-based geometric algebra. *)
From Coq Require Import ZArith List PeanoNat Lia Ring_theory Ring Field_theory Field Qcanon.
From Verif Require Import Lib RingSpec GaSpec PgaModel PgaSpec PgaProofs PgaProofs2 PgaProofs3 PgaProofs4 PgaProofs5.
Import ListNotations.
Close Scope Qc_scope.
Close Scope Q_scope.

Section Ring.
  Context {T : Type} (zero one : T) (add mul sub : T -> T -> T) (opp : T -> T).
  Hypothesis Rth : ring_theory zero one add mul sub opp (@eq T).
  Add Ring R : Rth.
  Notation elem := (elem zero add opp).
  Notation blade := (@blade T).
  Notation vec := (@vec T).
  Local Infix "==" := (ga_eq 4) (at level 70).
  Notation "f ** g" := (pga_mul zero add mul opp f g) (at level 40, left associativity).

  (** the specified algebra is the one generated by e0, e1, e2, e3 with e0 e0 = 0, ei ei = 1, ei ej = - ej ei *)
  Theorem C148_algebra :
    (forall f g h : nat -> T, (f ** g) ** h == f ** (g ** h)) /\
    (forall f : nat -> T, ga_scalar zero one ** f == f /\ f ** ga_scalar zero one == f) /\
    (forall i j, i < 4 -> j < 4 -> i <> j ->
       gen zero one i ** gen zero one j == ga_opp opp (gen zero one j ** gen zero one i)) /\
    (forall i, i < 4 -> gen zero one i ** gen zero one i == ga_scalar zero (if i =? 0 then zero else one)).
  Proof using Rth.
    split; [|split; [|split]].
    - intros. apply (pmul_assoc zero one add mul sub opp Rth).
    - split; [apply (pmul_one_l zero one add mul sub opp Rth)|apply (pmul_one_r zero one add mul sub opp Rth)].
    - intros i j Hi Hj N. eapply ga_trans; [apply (pmul_gen zero one add mul sub opp Rth); assumption|].
      apply Nat.eqb_neq in N. rewrite N. apply ga_refl.
    - intros i Hi. eapply ga_trans; [apply (pmul_gen zero one add mul sub opp Rth); assumption|].
      rewrite Nat.eqb_refl. apply ga_refl.
  Qed.
  Theorem C148_product : forall a b : blade, exists c,
    gmul zero add mul sub opp a b = Some c /\ elem c == elem a ** elem b.
  Proof using Rth. apply (pga_mul_ok zero one add mul sub opp Rth). Qed.
  Theorem C148_wedge : forall a b : blade, exists c,
    wedge zero add mul sub opp a b = Some c /\ elem c == pga_wedge zero add mul opp (elem a) (elem b).
  Proof using Rth. apply (pga_wedge_ok zero one add mul sub opp Rth). Qed.
  Theorem C148_dot : forall a b : blade, exists c,
    dot zero add mul sub opp a b = Some c /\ elem c == pga_dot zero add mul opp (elem a) (elem b).
  Proof using Rth. apply (pga_dot_ok zero one add mul sub opp Rth). Qed.
  Theorem C148_join : forall a b : blade, exists c,
    join zero add mul sub opp a b = Some c /\ elem c == pga_join zero add mul opp (elem a) (elem b).
  Proof using Rth. apply (pga_join_ok zero one add mul sub opp Rth). Qed.
  Theorem C148_sum : forall a b : blade, exists c,
    plus zero add a b = Some c /\ elem c == ga_add add (elem a) (elem b).
  Proof using Rth. apply (plus_ok zero one add mul sub opp Rth). Qed.
  Theorem C148_difference : forall a b : blade,
    if covers a b then exists c, minus zero sub a b = Some c /\ elem c == ga_sub sub (elem a) (elem b)
    else minus zero sub a b = None.
  Proof using Rth.
    intros a b. destruct (covers a b) eqn:C.
    - apply (minus_ok zero one add mul sub opp Rth). exact C.
    - apply minus_none. exact C.
  Qed.
  Theorem C148_unary : forall (a : blade) (t : T),
    elem (neg opp a) == ga_opp opp (elem a) /\ elem (smul mul a t) == ga_scale mul (elem a) t /\
    elem (rev opp a) == pga_rev zero opp (elem a) /\ elem (dual a) == pga_dual zero add opp (elem a).
  Proof using Rth.
    intros a t. split; [|split; [|split]].
    - apply (neg_ok zero one add mul sub opp Rth).
    - apply (smul_ok zero one add mul sub opp Rth).
    - apply (rev_ok zero one add mul sub opp Rth).
    - apply (dual_ok zero one add mul sub opp Rth).
  Qed.
  Theorem C148_reverse_of_product : forall a b c : blade, gmul zero add mul sub opp a b = Some c ->
    elem (rev opp c) == elem (rev opp b) ** elem (rev opp a).
  Proof using Rth.
    intros a b c E. eapply ga_trans; [apply (rev_ok zero one add mul sub opp Rth)|].
    eapply ga_trans; [apply rev_ext; apply (mul_of zero one add mul sub opp Rth _ _ _ E)|].
    eapply ga_trans; [apply (rev_mul zero one add mul sub opp Rth)|].
    apply pmul_ext; apply ga_sym; apply (rev_ok zero one add mul sub opp Rth).
  Qed.

  (** a % b = (-1)^m b a ~b, when b ~b is a scalar or a has neither a scalar nor an E-bivector part *)
  Theorem C150_sandwich : forall a b : blade,
    is_zero_class a = false -> is_zero_class b = false -> is_multivector b = false ->
    (get0 a = None /\ get2E a = None) \/
    (forall m, 0 < m < 16 -> (elem b ** pga_rev zero opp (elem b)) m = zero) ->
    exists c, sandwich zero one add mul sub opp a b = Some c /\
      elem c == (let f := elem b ** elem a ** pga_rev zero opp (elem b) in
                 if odd_class b then ga_opp opp f else f).
  Proof using Rth. intros a b Za Zb M H. exact (sandwich_ok zero one add mul sub opp Rth a b Za Zb M H). Qed.
  (** moving by b and then by c is moving by c * b *)
  Theorem C150_composition : forall a b c M : blade,
    get0 a = None -> get2E a = None -> is_zero_class a = false ->
    is_zero_class b = false -> is_zero_class c = false -> is_multivector b = false -> is_multivector c = false ->
    gmul zero add mul sub opp c b = Some M -> is_zero_class M = false ->
    exists x y z, sandwich zero one add mul sub opp a b = Some x /\
      sandwich zero one add mul sub opp x c = Some y /\
      sandwich zero one add mul sub opp a M = Some z /\ elem y == elem z.
  Proof using Rth.
    intros a b c M A1 A2 Za Zb Zc Mb Mc E ZM.
    apply (sand_compose zero one add mul sub opp Rth a b c M (conj A1 A2) Za Zb Zc Mb Mc E ZM).
  Qed.

  Ltac blade_eq := cbv; apply f_equal; first [reflexivity|apply f_equal2]; try apply vec_eq; cbn [vx vy vz].
  (** rotors rotate points and planes *)
  Theorem C150_rotation : forall (u P : vec) (h c s : T),
    vabs2 add mul u = one -> add (mul c c) (mul s s) = one ->
    let cos := sub (mul c c) (mul s s) in
    let sin := mul (two one add) (mul c s) in
    sandwich zero one add mul sub opp (point opp P h) (rotor mul opp u c s)
      = Some (point opp (rotated add mul sub one u cos sin P) h) /\
    sandwich zero one add mul sub opp (plane P h) (rotor mul opp u c s)
      = Some (plane (rotated add mul sub one u cos sin P) h).
  Proof using Rth.
    intros [u1 u2 u3] [p1 p2 p3] h c s U C cos sin. subst cos sin.
    unfold vabs2 in U. cbn in U.
    assert (U1 : mul u1 u1 = sub (sub one (mul u2 u2)) (mul u3 u3)) by (rewrite <- U; ring).
    assert (C1 : mul s s = sub one (mul c c)) by (rewrite <- C; ring).
    split; blade_eq; ring [U1 C1].
  Qed.
  (** the plane n . X = d mirrors points *)
  Theorem C150_reflection : forall (n P : vec) (d : T), vabs2 add mul n = one ->
    sandwich zero one add mul sub opp (point opp P one) (plane n d)
      = Some (neg opp (point opp (mirrored add mul sub (two one add) n d P) one)).
  Proof using Rth.
    intros [n1 n2 n3] [p1 p2 p3] d U. unfold vabs2 in U. cbn in U.
    assert (U1 : mul n1 n1 = sub (sub one (mul n2 n2)) (mul n3 n3)) by (rewrite <- U; ring).
    cbn [neg point]. blade_eq; ring [U1].
  Qed.
  (** incidence *)
  Theorem C150_incidence : forall (n l P Q : vec) (d : T),
    (** the point P lies on the plane n . X = d exactly when their meet vanishes *)
    wedge zero add mul sub opp (plane n d) (point opp P one) = Some (B4 (sub d (vdot add mul n P))) /\
    (** the join of two points is the line through them *)
    (exists L, join zero add mul sub opp (point opp P one) (point opp Q one) = Some L /\
       L = line mul sub (vsub sub P Q) P /\ L = line mul sub (vsub sub P Q) Q) /\
    (** the point Q lies on the line through P with direction l exactly when their join vanishes *)
    (exists J, join zero add mul sub opp (line mul sub l P) (point opp Q one) = Some J /\
       (elem J == ga_zero zero <-> vcross mul sub l (vsub sub Q P) = vzero zero)).
  Proof using Rth.
    intros [n1 n2 n3] [l1 l2 l3] [p1 p2 p3] [q1 q2 q3] d. split; [|split].
    - cbv. apply f_equal. apply f_equal. ring.
    - eexists. split; [reflexivity|]. split; cbv; apply f_equal2; apply vec_eq; cbn [vx vy vz]; ring.
    - assert (W : exists e0 v, join zero add mul sub opp (line mul sub (V l1 l2 l3) (V p1 p2 p3)) (point opp (V q1 q2 q3) one) = Some (B1 e0 v) /\
        v = vcross mul sub (V l1 l2 l3) (vsub sub (V q1 q2 q3) (V p1 p2 p3)) /\
        e0 = opp (vdot add mul (V q1 q2 q3) (vcross mul sub (V l1 l2 l3) (V p1 p2 p3)))).
      { do 2 eexists. split; [reflexivity|]. split; [apply vec_eq; cbv; ring|cbv; ring]. }
      destruct W as (e0 & v & -> & -> & ->). eexists. split; [reflexivity|]. split.
      + intro H.
        assert (H' : tab zero opp (B1 (opp (vdot add mul (V q1 q2 q3) (vcross mul sub (V l1 l2 l3) (V p1 p2 p3)))) (vcross mul sub (V l1 l2 l3) (vsub sub (V q1 q2 q3) (V p1 p2 p3)))) == ga_zero zero).
        { eapply ga_trans; [|exact H]. apply ga_sym. apply (elem_tab zero one add mul sub opp Rth). }
        apply vec_eq; [apply (H' 2)|apply (H' 4)|apply (H' 8)]; cbn; lia.
      + intro H. eapply ga_trans; [apply (elem_tab zero one add mul sub opp Rth)|]. rewrite H.
        assert (E0 : opp (vdot add mul (V q1 q2 q3) (vcross mul sub (V l1 l2 l3) (V p1 p2 p3))) = zero).
        { transitivity (vdot add mul (V q1 q2 q3) (vcross mul sub (V l1 l2 l3) (vsub sub (V q1 q2 q3) (V p1 p2 p3)))); [cbv; ring|].
          rewrite H. cbv. ring. }
        rewrite E0. intros m L. change (2 ^ 4) with 16 in L. do 16 (destruct m as [|m]; [first [reflexivity|cbv; ring]|]). lia.
  Qed.
End Ring.

Section Field.
  Context {T : Type} (zero one : T) (add mul sub : T -> T -> T) (opp : T -> T) (div : T -> T -> T) (finv : T -> T).
  Hypothesis Fth : field_theory zero one add mul sub opp div finv (@eq T).
  Add Field Fd : Fth.
  Notation elem := (elem zero add opp).
  Notation blade := (@blade T).
  Notation vec := (@vec T).
  Local Infix "==" := (ga_eq 4) (at level 70).
  Notation "f ** g" := (pga_mul zero add mul opp f g) (at level 40, left associativity).

  Theorem C149_inverse : forall a : blade,
    is_zero_class a = false -> is_multivector a = false -> norm2 zero add mul a <> zero ->
    (forall E e, a = B22 E e -> vdot add mul E e = zero) ->
    exists b, PgaModel.inv zero one add mul sub opp div a = Some b /\
      elem a ** elem b == ga_scalar zero one /\ elem b ** elem a == ga_scalar zero one.
  Proof using Fth. apply (inv_ok zero one add mul sub opp div finv Fth). Qed.
  (** norm2 is the scalar part of a ~a and diff2 that of a a *)
  Theorem C149_norm : forall a : blade,
    (elem a ** pga_rev zero opp (elem a)) 0 = norm2 zero add mul a /\ (elem a ** elem a) 0 = diff2 zero add mul opp a.
  Proof using Fth.
    intro a.
    assert (Y : elem a ** elem a == tab zero opp a ** tab zero opp a) by (apply pmul_ext; apply (elem_tab zero one add mul sub opp (F_R Fth))).
    assert (X : elem a ** pga_rev zero opp (elem a) == tab zero opp a ** tab zero opp (rev opp a)).
    { apply pmul_ext; [apply (elem_tab zero one add mul sub opp (F_R Fth))|].
      eapply ga_trans; [apply ga_sym; apply (rev_ok zero one add mul sub opp (F_R Fth))|apply (elem_tab zero one add mul sub opp (F_R Fth))]. }
    rewrite X, Y by (cbn; lia). split; destruct a; cbv; ring.
  Qed.
  Ltac blade_eq := cbv; apply f_equal; first [reflexivity|apply f_equal2]; try apply vec_eq; cbn [vx vy vz].
  (** translators translate points, planes and lines *)
  Theorem C150_translation : forall (t P n : vec) (d : T), two one add <> zero ->
    sandwich zero one add mul sub opp (point opp P one) (translator one add div t)
      = Some (point opp (vadd add P t) one) /\
    sandwich zero one add mul sub opp (plane n d) (translator one add div t)
      = Some (plane n (add d (vdot add mul n t))) /\
    sandwich zero one add mul sub opp (line mul sub n P) (translator one add div t)
      = Some (line mul sub n (vadd add P t)).
  Proof using Fth.
    intros [t1 t2 t3] [p1 p2 p3] [n1 n2 n3] d N. unfold two in N.
    split; [|split]; (blade_eq; field; exact N).
  Qed.
End Field.

(** The difference of values of different classes need not be defined: zero - b returns a reference to a temporary. *)
Theorem C148_mixed_difference_refuted :
  ~ (forall a b : @blade Z, exists c, minus 0%Z Z.sub a b = Some c).
Proof. intro H. destruct (H (B0 1%Z) (B4 1%Z)) as [c E]. discriminate E. Qed.
(** The inverse of a blade22 is wrong when its two parts are not perpendicular. *)
Theorem C149_line_inverse_refuted :
  ~ (forall a : @blade Qc, is_zero_class a = false -> is_multivector a = false -> norm2 (0%Qc) Qcplus Qcmult a <> 0%Qc ->
      exists b, PgaModel.inv 0%Qc 1%Qc Qcplus Qcmult Qcminus Qcopp Qcdiv a = Some b /\
        ga_eq 4 (pga_mul 0%Qc Qcplus Qcmult Qcopp (elem 0%Qc Qcplus Qcopp a) (elem 0%Qc Qcplus Qcopp b)) (ga_scalar 0%Qc 1%Qc)).
Proof.
  intro H. destruct (H (B22 (V 1%Qc 0%Qc 0%Qc) (V 1%Qc 0%Qc 0%Qc)) eq_refl eq_refl) as (b & E & K).
  { vm_compute. discriminate. }
  injection E as <-. specialize (K 15 ltac:(cbn; lia)). vm_compute in K. discriminate K.
Qed.
(** The sandwich is not b a ~b when b ~b is not a scalar. *)
Theorem C150_general_sandwich_refuted :
  ~ (forall a b c : @blade Z, odd_class b = false -> is_multivector b = false ->
      sandwich 0%Z 1%Z Z.add Z.mul Z.sub Z.opp a b = Some c ->
      ga_eq 4 (elem 0%Z Z.add Z.opp c)
        (pga_mul 0%Z Z.add Z.mul Z.opp (pga_mul 0%Z Z.add Z.mul Z.opp (elem 0%Z Z.add Z.opp b) (elem 0%Z Z.add Z.opp a))
           (pga_rev 0%Z Z.opp (elem 0%Z Z.add Z.opp b)))).
Proof.
  intro H. specialize (H (B2E (V 1%Z 0%Z 0%Z)) (B22 (V 1%Z 0%Z 0%Z) (V 1%Z 0%Z 0%Z)) _ eq_refl eq_refl eq_refl 3 ltac:(cbn; lia)).
  vm_compute in H. discriminate H.
Qed.
(** The line with direction l does not pass through P / norm(l), as the comment pga.h:948 says, but through P:
    here l has norm 2 and P is twice the point Q. *)
Theorem C150_line_through_scaled_point_refuted :
  ~ (forall (l P Q : @vec Z) (r : Z), (r * r = vabs2 Z.add Z.mul l)%Z -> P = vmul Z.mul Q r ->
      exists J, join 0%Z Z.add Z.mul Z.sub Z.opp (line Z.mul Z.sub l P) (point Z.opp Q 1%Z) = Some J /\
        ga_eq 4 (elem 0%Z Z.add Z.opp J) (ga_zero 0%Z)).
Proof.
  intro H. destruct (H (V 0 0 2)%Z (V 2 0 0)%Z (V 1 0 0)%Z 2%Z eq_refl eq_refl) as (J & E & K).
  injection E as <-. specialize (K 4 ltac:(cbn; lia)). vm_compute in K. discriminate K.
Qed.

Example C148_case :
  gmul 0%Z Z.add Z.mul Z.sub Z.opp (B1 1 (V 2 3 4))%Z (B3 5 (V 6 7 8))%Z = Some (B024 0 (V 10 15 20) (V 4 (-8) 4) 70)%Z /\
  join 0%Z Z.add Z.mul Z.sub Z.opp (B3 1 (V 2 3 4))%Z (B3 5 (V 6 7 8))%Z = Some (B22 (V (-4) (-8) (-12)) (V (-4) 8 (-4)))%Z /\
  covers (B024 1 (V 2 3 4) (V 5 6 7) 8)%Z (B22 (V 1 0 2) (V 0 3 1))%Z = true /\
  covers (B0 1%Z) (B22 (V 1 0 2) (V 0 3 1))%Z = false.
Proof. repeat split. Qed.
Example C149_case :
  norm2 0%Qc Qcplus Qcmult (B024 1 (V 1 0 0) (V 1 1 1) 1)%Qc <> 0%Qc /\
  exists b, PgaModel.inv 0%Qc 1%Qc Qcplus Qcmult Qcminus Qcopp Qcdiv (B024 1 (V 1 0 0) (V 1 1 1) 1)%Qc = Some b.
Proof. split; [vm_compute; discriminate|eexists; reflexivity]. Qed.
Example C150_case :
  sandwich 0%Z 1%Z Z.add Z.mul Z.sub Z.opp (point Z.opp (V 1 2 3)%Z 1%Z) (rotor Z.mul Z.opp (V 0 0 1)%Z 0%Z 1%Z)
    = Some (point Z.opp (V (-1) (-2) 3) 1)%Z.
Proof. reflexivity. Qed.
Print Assumptions C148_algebra.
Print Assumptions C148_product.
Print Assumptions C148_wedge.
Print Assumptions C148_dot.
Print Assumptions C148_join.
Print Assumptions C148_sum.
Print Assumptions C148_difference.
Print Assumptions C148_unary.
Print Assumptions C148_reverse_of_product.
Print Assumptions C150_sandwich.
Print Assumptions C150_composition.
Print Assumptions C150_rotation.
Print Assumptions C150_reflection.
Print Assumptions C150_incidence.
Print Assumptions C149_inverse.
Print Assumptions C149_norm.
Print Assumptions C150_translation.
Print Assumptions C148_mixed_difference_refuted.
Print Assumptions C149_line_inverse_refuted.
Print Assumptions C150_general_sandwich_refuted.
Print Assumptions C150_line_through_scaled_point_refuted.
