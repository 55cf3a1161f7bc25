(** C151: the geometric algebra of space. *)
From Coq Require Import ZArith List PeanoNat Lia Bool Ring_theory Ring Field_theory Field Qcanon Qreduction.
From Verif Require Import Lib RingSpec GaSpec Cl3Model Cl3Spec Cl3Proofs.
Import ListNotations.
Close Scope Qc_scope.
Close Scope Q_scope.

Section Ring.
  Context {T : Type} (zero one : T) (add mul sub : T -> T -> T) (opp : T -> T).
  Hypothesis Rth : ring_theory zero one add mul sub opp (@eq T).
  Add Ring R : Rth.
  Local Infix "==" := (ga_eq 3) (at level 70).
  Notation "f ** g" := (cl3_mul zero add mul opp f g) (at level 40, left associativity).
  Notation rot := (of_rotor zero add opp).
  Notation vec := (of_vector zero add opp).
  Notation mul_of := (of_mvec zero add opp).
  Ltac cases8 tac :=
    let m := fresh "m" in let L := fresh "L" in
    intros m L; change (2 ^ 3) with 8 in L; do 8 (destruct m as [|m]; [clear L; tac|]); exfalso; lia.

  (** the specified algebra is associative, with a unit, and its generators anticommute and have the squares 1 *)
  Theorem C151_algebra :
    (forall f g h : nat -> T, (f ** g) ** h == f ** (g ** h)) /\
    (forall f : nat -> T, ga_scalar zero one ** f == f /\ f ** ga_scalar zero one == f) /\
    (forall i j, i < 3 -> j < 3 -> i <> j ->
       gen zero one i ** gen zero one j == ga_opp opp (gen zero one j ** gen zero one i)) /\
    (forall i, i < 3 -> gen zero one i ** gen zero one i == ga_scalar zero one).
  Proof using Rth.
    split; [|split; [|split]].
    - intros. apply (cmul_assoc zero one add mul sub opp Rth).
    - split; [apply (cmul_one_l zero one add mul sub opp Rth)|apply (cmul_one_r zero one add mul sub opp Rth)].
    - intros i j Hi Hj N m L. rewrite (cmul_gen zero one add mul sub opp Rth i j Hi Hj m L).
      apply Nat.eqb_neq in N. rewrite N. reflexivity.
    - intros i Hi m L. rewrite (cmul_gen zero one add mul sub opp Rth i i Hi Hi m L). rewrite Nat.eqb_refl. reflexivity.
  Qed.
  (** every element of the algebra is a multivector, of exactly one value *)
  Theorem C151_elements : forall f : nat -> T, exists a, mul_of a == f /\ (forall b, mul_of b == f -> b = a).
  Proof using Rth.
    intro f. exists (rd opp f). split; [apply (rd_ok zero one add mul sub opp Rth)|].
    intros b H. apply (omv_inj zero one add mul sub opp Rth). intros m L. rewrite H by exact L. symmetry.
    apply (rd_ok zero one add mul sub opp Rth). exact L.
  Qed.
  Theorem C151_products : forall (r r' : rotor) (v v' : vector) (a b : mvec),
    rot (rmul add mul sub r r') == rot r ** rot r' /\
    vec (wmulr add mul sub opp v r) == vec v ** rot r /\
    vec (rmulw add mul sub r v) == rot r ** vec v /\
    rot (wmul add mul sub opp v v') == vec v ** vec v' /\
    mul_of (mmul add mul sub opp a b) == mul_of a ** mul_of b /\
    mul_of (mmulr add mul sub opp a r) == mul_of a ** rot r /\
    mul_of (mmulw add mul sub opp a v) == mul_of a ** vec v /\
    mul_of (rmulm add mul sub r a) == rot r ** mul_of a /\
    mul_of (wmulm add mul sub opp v a) == vec v ** mul_of a.
  Proof using Rth.
    intros. repeat split.
    - apply (rmul_ok zero one add mul sub opp Rth).
    - apply (wmulr_ok zero one add mul sub opp Rth).
    - apply (rmulw_ok zero one add mul sub opp Rth).
    - apply (wmul_ok zero one add mul sub opp Rth).
    - apply (mmul_ok zero one add mul sub opp Rth).
    - apply (mmulr_ok zero one add mul sub opp Rth).
    - apply (mmulw_ok zero one add mul sub opp Rth).
    - apply (rmulm_ok zero one add mul sub opp Rth).
    - apply (wmulm_ok zero one add mul sub opp Rth).
  Qed.
  Ltac go := repeat match goal with a : @mvec _ |- _ => destruct a | a : @rotor _ |- _ => destruct a | a : @vector _ |- _ => destruct a end;
    repeat split; cases8 ltac:(cbv; ring).
  Theorem C151_sums : forall (r r' : rotor) (v v' : vector) (a b : mvec) (t : T),
    (rot (radd add r r') == ga_add add (rot r) (rot r') /\ rot (rsub sub r r') == ga_sub sub (rot r) (rot r') /\
     rot (rneg opp r) == ga_opp opp (rot r) /\ rot (rscale mul r t) == ga_scale mul (rot r) t) /\
    (vec (wadd add v v') == ga_add add (vec v) (vec v') /\ vec (wsub sub v v') == ga_sub sub (vec v) (vec v') /\
     vec (wneg opp v) == ga_opp opp (vec v) /\ vec (wscale mul v t) == ga_scale mul (vec v) t) /\
    (mul_of (madd add a b) == ga_add add (mul_of a) (mul_of b) /\ mul_of (msub sub a b) == ga_sub sub (mul_of a) (mul_of b) /\
     mul_of (mneg opp a) == ga_opp opp (mul_of a) /\ mul_of (mscale mul a t) == ga_scale mul (mul_of a) t) /\
    (mul_of (maddr add a r) == ga_add add (mul_of a) (rot r) /\ mul_of (msubr sub a r) == ga_sub sub (mul_of a) (rot r) /\
     mul_of (maddw add a v) == ga_add add (mul_of a) (vec v) /\ mul_of (msubw sub a v) == ga_sub sub (mul_of a) (vec v)) /\
    (mul_of (raddw r v) == ga_add add (rot r) (vec v) /\ mul_of (rsubw opp r v) == ga_sub sub (rot r) (vec v) /\
     mul_of (wsubr opp v r) == ga_sub sub (vec v) (rot r)) /\
    (mul_of (raddm add r a) == ga_add add (rot r) (mul_of a) /\ mul_of (rsubm sub opp r a) == ga_sub sub (rot r) (mul_of a) /\
     mul_of (waddm add v a) == ga_add add (vec v) (mul_of a) /\ mul_of (wsubm sub opp v a) == ga_sub sub (vec v) (mul_of a)).
  Proof using Rth. intros. go. Qed.
  (** rev reverses products, conj is the reverse with the signs of the generators changed *)
  Theorem C151_reversion : forall (r : rotor) (v : vector) (a : mvec),
    rot (rrev opp r) == cl3_rev zero opp (rot r) /\ vec (wrev opp v) == cl3_rev zero opp (vec v) /\
    mul_of (mrev opp a) == cl3_rev zero opp (mul_of a) /\
    rot (rconj opp r) == cl3_conj zero opp (rot r) /\ vec (wconj opp v) == cl3_conj zero opp (vec v) /\
    mul_of (mconj opp a) == cl3_conj zero opp (mul_of a).
  Proof using Rth. intros. go. Qed.
  Theorem C151_norm : forall (r : rotor) (v : vector),
    rot r ** rot (rrev opp r) == ga_scalar zero (rabs2 add mul r) /\
    vec v ** vec (wrev opp v) == ga_scalar zero (wabs2 add mul v).
  Proof using Rth. intros. go. Qed.

  (** rotating by r and then by q is rotating by q * r; a rotation by a normalised rotor preserves inner products,
      the length and the fourth component *)
  Theorem C151_rotate : forall (r q : rotor) (u v : vector), 
    rotate add mul sub opp (rotate add mul sub opp u r) q = rotate add mul sub opp u (rmul add mul sub q r) /\
    (rabs2 add mul r = one ->
     dot3 add mul (rotate add mul sub opp u r) (rotate add mul sub opp v r) = dot3 add mul u v /\
     ww (rotate add mul sub opp u r) = ww u /\ wabs2 add mul (rotate add mul sub opp u r) = wabs2 add mul u).
  Proof using Rth.
    intros [r1 r2 r3 r4] [q1 q2 q3 q4] [u1 u2 u3 u4] [v1 v2 v3 v4]. split; [apply vector_eq; cbv; ring|].
    intro H. unfold rabs2 in H. cbn in H.
    assert (H1 : mul r1 r1 = sub (sub (sub one (mul r2 r2)) (mul r3 r3)) (mul r4 r4)) by (rewrite <- H; ring).
    repeat split; cbv; ring [H1].
  Qed.
  (** reflecting in a normalised vector v mirrors the ordinary vectors in the plane orthogonal to v *)
  Theorem C151_reflect : forall a b c x y z : T,
    let v := vec3 zero a b c in
    dot3 add mul v v = one ->
    reflect add mul sub opp (vec3 zero x y z) v = mirror3 zero one add mul sub (vec3 zero x y z) v.
  Proof using Rth.
    intros a b c x y z v H. unfold v, dot3, vec3 in *. cbn in H.
    assert (H1 : mul a a = sub (sub one (mul b b)) (mul c c)) by (rewrite <- H; ring).
    apply vector_eq; cbv; ring [H1].
  Qed.
End Ring.

Section Field.
  Context {T : Type} (zero one : T) (add mul sub : T -> T -> T) (opp : T -> T) (div : T -> T -> T) (finv : T -> T).
  Hypothesis Fth : field_theory zero one add mul sub opp div finv (@eq T).
  Variable eqb : T -> T -> bool.
  Hypothesis eqb_ok : forall x y, eqb x y = true <-> x = y.
  Add Field Fd : Fth.
  Local Infix "==" := (ga_eq 3) (at level 70).
  Notation "f ** g" := (cl3_mul zero add mul opp f g) (at level 40, left associativity).
  Notation rot := (of_rotor zero add opp).
  Notation vec := (of_vector zero add opp).
  Notation mul_of := (of_mvec zero add opp).
  Notation unity := (ga_scalar zero one).

  Theorem C151_inverses : forall (r : rotor) (v : vector),
    (rabs2 add mul r <> zero -> exists i, rinv zero add mul opp div eqb r = Some i /\ rot r ** rot i == unity /\ rot i ** rot r == unity) /\
    (wabs2 add mul v <> zero -> exists i, winv zero add mul opp div eqb v = Some i /\ vec v ** vec i == unity /\ vec i ** vec v == unity).
  Proof using Fth eqb_ok.
    assert (O : rot (rone zero one) == unity).
    { intros m L. change (2 ^ 3) with 8 in L. do 8 (destruct m as [|m]; [cbv; ring|]). lia. }
    intros r v. split; intro N.
    - destruct (rinv_ok zero one add mul sub opp div finv Fth eqb eqb_ok r N) as (i & E & A & B). exists i. split; [exact E|].
      split; intros m L; rewrite <- (rmul_ok zero one add mul sub opp (F_R Fth)) by exact L; [rewrite A|rewrite B]; apply O; exact L.
    - destruct (winv_ok zero one add mul sub opp div finv Fth eqb eqb_ok v N) as (i & E & A & B). exists i. split; [exact E|].
      split; intros m L; rewrite <- (wmul_ok zero one add mul sub opp (F_R Fth)) by exact L; [rewrite A|rewrite B]; apply O; exact L.
  Qed.
  (** in a field such as the rationals or the reals, where sums of squares vanish only if all of them do, every invertible multivector is inverted *)
  Theorem C151_multivector_inverse :
    (forall a b c d, add (add (add (mul a a) (mul b b)) (mul c c)) (mul d d) = zero ->
       a = zero /\ b = zero /\ c = zero /\ d = zero) ->
    forall a : mvec, (exists f : nat -> T, f ** mul_of a == unity) ->
    exists y, minv zero add mul sub opp div eqb a = Some y /\ mul_of y ** mul_of a == unity /\ mul_of a ** mul_of y == unity.
  Proof using Fth eqb_ok.
    intros real a (f & H).
    assert (H' : mmul add mul sub opp (rd opp f) a = mone zero one).
    { apply (one_of zero one add mul sub opp (F_R Fth)). intros m L. rewrite <- H by exact L.
      apply cmul_ext; [apply (rd_ok zero one add mul sub opp (F_R Fth))|intros ? ?; reflexivity|exact L]. }
    destruct (minv_ok zero one add mul sub opp div finv Fth eqb eqb_ok real a _ H') as (y & E & A & B).
    exists y. split; [exact E|]. split; apply (one_of zero one add mul sub opp (F_R Fth)); assumption.
  Qed.

  Lemma turn (x y z x' y' z' n : T) :
    let f := vec3 zero x y z in let t := vec3 zero x' y' z' in
    dot3 add mul f f = one -> dot3 add mul t t = one ->
    let X := radd add (wmul add mul sub opp t f) (R one zero zero zero) in
    rabs2 add mul X = mul (add one one) (add one (dot3 add mul f t)) /\
    (mul n n = rabs2 add mul X -> n <> zero ->
     let r := R (div (rs X) n) (div (ryz X) n) (div (rzx X) n) (div (rxy X) n) in
     rabs2 add mul r = one /\ rotate add mul sub opp f r = t).
  Proof using Fth.
    intros f t F G X. unfold f, t, dot3, vec3 in *. cbn [wx wy wz ww] in *.
    assert (F1 : mul x x = sub (sub one (mul y y)) (mul z z)) by (rewrite <- F; ring).
    assert (G1 : mul x' x' = sub (sub one (mul y' y')) (mul z' z')) by (rewrite <- G; ring).
    assert (A : rabs2 add mul X = mul (add one one) (add one (add (add (mul x x') (mul y y')) (mul z z')))).
    { unfold X. cbv. ring [F1 G1]. }
    split; [exact A|]. intros HN NN.
    set (r := R (div (rs X) n) (div (ryz X) n) (div (rzx X) n) (div (rxy X) n)).
    set (i := finv n). assert (D : forall k, div k n = mul k i) by (intro; apply (Fdiv_def Fth)).
    assert (I1 : mul (mul i i) (rabs2 add mul X) = one). { rewrite <- HN. unfold i. field. exact NN. }
    assert (R1 : r = rscale mul X i). { unfold r. rewrite !D. reflexivity. }
    split.
    - rewrite R1, <- I1. unfold X. cbv. ring.
    - assert (E : rotate add mul sub opp (W x y z zero) X = wscale mul (W x' y' z' zero) (rabs2 add mul X)).
      { rewrite A. unfold X. apply vector_eq; cbv; ring [F1 G1]. }
      transitivity (wscale mul (rotate add mul sub opp (W x y z zero) X) (mul i i)).
      { rewrite R1. generalize X. intros [X1 X2 X3 X4]. apply vector_eq; cbv; ring. }
      rewrite E. transitivity (wscale mul (W x' y' z' zero) (mul (mul i i) (rabs2 add mul X))).
      { generalize (rabs2 add mul X). intro k. apply vector_eq; cbn; ring. }
      rewrite I1. apply vector_eq; cbn; ring.
  Qed.

  (** make_rotor(from, to) is normalised and turns the direction of from into that of to, unless they are opposite;
      sqrtT need only give the roots of the two norms and of 2 + 2 cos *)
  Theorem C151_make_rotor : forall (sqrtT : T -> T) (a b c a' b' c' : T),
    let from := vec3 zero a b c in
    let to := vec3 zero a' b' c' in
    let nf := sqrtT (wabs2 add mul from) in
    let nt := sqrtT (wabs2 add mul to) in
    let k := mul (add one one) (add one (div (dot3 add mul from to) (mul nf nt))) in
    mul nf nf = wabs2 add mul from -> mul nt nt = wabs2 add mul to -> mul (sqrtT k) (sqrtT k) = k ->
    wabs2 add mul from <> zero -> wabs2 add mul to <> zero -> k <> zero ->
    exists r, make_rotor zero one add mul sub opp div eqb sqrtT from to = Some r /\
      rabs2 add mul r = one /\
      rotate add mul sub opp (vec3 zero (div a nf) (div b nf) (div c nf)) r = vec3 zero (div a' nt) (div b' nt) (div c' nt).
  Proof using Fth eqb_ok.
    intros sqrtT a b c a' b' c' from to nf nt k HF HT HK NF NT NK.
    assert (root : forall p q, mul p p = q -> q <> zero -> p <> zero).
    { intros p q E N ->. apply N. rewrite <- E. ring. }
    pose proof (root _ _ HF NF) as NF'. pose proof (root _ _ HT NT) as NT'. pose proof (root _ _ HK NK) as NK'.
    unfold make_rotor, wunit, wdivs. fold nf nt.
    rewrite !(eqb_zero zero eqb eqb_ok) by assumption. cbn [obind].
    assert (Z0 : forall k, k <> zero -> div zero k = zero) by (intros q K; field; exact K).
    cbn [wx wy wz ww from to vec3]. rewrite !Z0 by assumption.
    assert (U : forall p q r n, mul n n = wabs2 add mul (vec3 zero p q r) -> n <> zero ->
       dot3 add mul (vec3 zero (div p n) (div q n) (div r n)) (vec3 zero (div p n) (div q n) (div r n)) = one).
    { intros p q r n E N. transitivity (div (wabs2 add mul (vec3 zero p q r)) (mul n n)).
      - cbv. field. exact N.
      - rewrite <- E. field. exact N. }
    destruct (turn (div a nf) (div b nf) (div c nf) (div a' nt) (div b' nt) (div c' nt) (sqrtT k) (U a b c nf HF NF') (U a' b' c' nt HT NT')) as [A B].
    change (W (div a nf) (div b nf) (div c nf) zero) with (vec3 zero (div a nf) (div b nf) (div c nf)).
    change (W (div a' nt) (div b' nt) (div c' nt) zero) with (vec3 zero (div a' nt) (div b' nt) (div c' nt)).
    set (X := radd add _ _) in *.
    assert (AK : rabs2 add mul X = k).
    { rewrite A. unfold k. do 2 apply f_equal. cbv -[nf nt]. field. split; assumption. }
    unfold runit, rdivs. rewrite AK. rewrite (eqb_zero zero eqb eqb_ok) by exact NK'.
    eexists. split; [reflexivity|]. apply B; [rewrite AK; exact HK|exact NK'].
  Qed.
End Field.

(** m *= m.r is not m * m.r, and r *= r.s is not r * r.s: the argument is a reference to a part that is changed first *)
Theorem C151_own_part_refuted :
  ~ (forall m : @mvec Z, mmulr_own Z.add Z.mul Z.sub Z.opp m = mmulr Z.add Z.mul Z.sub Z.opp m (mr m)) /\
  ~ (forall r : @rotor Z, rscale_own Z.mul r = rscale Z.mul r (rs r)).
Proof.
  split; intro H.
  - specialize (H (M (R 2 0 0 0) (W 1 0 0 0))%Z). discriminate H.
  - specialize (H (R 2 1 0 0)%Z). discriminate H.
Qed.
(** make_rotor has no result for opposite vectors *)
Theorem C151_opposite_refuted :
  ~ (forall from to : @vector Qc, wabs2 Qcplus Qcmult from = 1%Qc -> wabs2 Qcplus Qcmult to = 1%Qc ->
       ww from = 0%Qc -> ww to = 0%Qc ->
       exists r, make_rotor 0%Qc 1%Qc Qcplus Qcmult Qcminus Qcopp Qcdiv Qc_eq_bool (fun x => x) from to = Some r).
Proof.
  intro H. destruct (H (W 1 0 0 0)%Qc (W (- (1)) 0 0 0)%Qc) as [r E]; try reflexivity.
  vm_compute in E. discriminate E.
Qed.

Example C151_case :
  mmul Z.add Z.mul Z.sub Z.opp (M (R 1 2 3 4) (W 5 6 7 8))%Z (M (R 2 0 1 1) (W 1 0 3 2))%Z
    = M (R 5 41 13 39)%Z (W (-1) 5 (-1) 45)%Z /\
  (exists y, minv 0%Qc Qcplus Qcmult Qcminus Qcopp Qcdiv Qc_eq_bool (M (R 1 1 0 0) (W 1 1 1 0))%Qc = Some y) /\
  minv 0%Qc Qcplus Qcmult Qcminus Qcopp Qcdiv Qc_eq_bool (M (R 1 0 0 0) (W 1 0 0 0))%Qc = None /\
  (exists r, make_rotor 0%Qc 1%Qc Qcplus Qcmult Qcminus Qcopp Qcdiv Qc_eq_bool
     (fun x => if Qc_eq_bool x (1 + 1 + 1 + 1) then 1 + 1 else 1)%Qc (W 1 0 0 0)%Qc (W 1 0 0 0)%Qc = Some r).
Proof. split; [vm_compute; reflexivity|]. split; [eexists; vm_compute; reflexivity|]. split; [vm_compute; reflexivity|eexists; vm_compute; reflexivity]. Qed.
Print Assumptions C151_algebra.
Print Assumptions C151_elements.
Print Assumptions C151_products.
Print Assumptions C151_sums.
Print Assumptions C151_reversion.
Print Assumptions C151_norm.
Print Assumptions C151_rotate.
Print Assumptions C151_reflect.
Print Assumptions C151_inverses.
Print Assumptions C151_multivector_inverse.
Print Assumptions C151_make_rotor.
Print Assumptions C151_own_part_refuted.
Print Assumptions C151_opposite_refuted.
