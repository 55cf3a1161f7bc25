(** The operators of clifford3.h are those of the geometric algebra; inverses. *)
From Coq Require Import ZArith List PeanoNat Lia Bool Ring_theory Ring Field_theory Field.
From Verif Require Import Lib RingSpec GaSpec Cl3Model Cl3Spec.
Import ListNotations.

Lemma rotor_eq {T} (a b : @rotor T) : rs a = rs b -> ryz a = ryz b -> rzx a = rzx b -> rxy a = rxy b -> a = b.
Proof. destruct a, b; cbn. intros -> -> -> ->. reflexivity. Qed.
Lemma vector_eq {T} (a b : @vector T) : wx a = wx b -> wy a = wy b -> wz a = wz b -> ww a = ww b -> a = b.
Proof. destruct a, b; cbn. intros -> -> -> ->. reflexivity. Qed.
Lemma mvec_eq {T} (a b : @mvec T) : mr a = mr b -> mv a = mv b -> a = b.
Proof. destruct a, b; cbn. intros -> ->. reflexivity. Qed.

Section P.
  Context {T : Type} (zero one : T) (add mul sub : T -> T -> T) (opp : T -> T).
  Hypothesis Rth : ring_theory zero one add mul sub opp (@eq T).
  Add Ring R : Rth.
  Local Infix "==" := (ga_eq 3) (at level 70).
  Notation cmul := (cl3_mul zero add mul opp).
  Notation orot := (of_rotor zero add opp).
  Notation ovec := (of_vector zero add opp).
  Notation omv := (of_mvec zero add opp).
  Notation mmul := (mmul add mul sub opp).
  Notation rmul := (rmul add mul sub).

  Ltac cases8 tac :=
    let m := fresh "m" in let L := fresh "L" in
    intros m L; change (2 ^ 3) with 8 in L; do 8 (destruct m as [|m]; [clear L; tac|]); exfalso; lia.
  Ltac splitrec := repeat match goal with a : @mvec _ |- _ => destruct a | a : @rotor _ |- _ => destruct a | a : @vector _ |- _ => destruct a end.

  Lemma rmul_ok a b : orot (rmul a b) == cmul (orot a) (orot b).
  Proof using Rth. splitrec. cases8 ltac:(cbv; ring). Qed.
  Lemma wmulr_ok a b : ovec (wmulr add mul sub opp a b) == cmul (ovec a) (orot b).
  Proof using Rth. splitrec. cases8 ltac:(cbv; ring). Qed.
  Lemma rmulw_ok a b : ovec (rmulw add mul sub a b) == cmul (orot a) (ovec b).
  Proof using Rth. splitrec. cases8 ltac:(cbv; ring). Qed.
  Lemma wmul_ok a b : orot (wmul add mul sub opp a b) == cmul (ovec a) (ovec b).
  Proof using Rth. splitrec. cases8 ltac:(cbv; ring). Qed.
  Lemma mmul_ok a b : omv (mmul a b) == cmul (omv a) (omv b).
  Proof using Rth. splitrec. cases8 ltac:(cbv; ring). Qed.
  Lemma mmulr_ok a b : omv (mmulr add mul sub opp a b) == cmul (omv a) (orot b).
  Proof using Rth. splitrec. cases8 ltac:(cbv; ring). Qed.
  Lemma mmulw_ok a b : omv (mmulw add mul sub opp a b) == cmul (omv a) (ovec b).
  Proof using Rth. splitrec. cases8 ltac:(cbv; ring). Qed.
  Lemma rmulm_ok a b : omv (rmulm add mul sub a b) == cmul (orot a) (omv b).
  Proof using Rth. splitrec. cases8 ltac:(cbv; ring). Qed.
  Lemma wmulm_ok a b : omv (wmulm add mul sub opp a b) == cmul (ovec a) (omv b).
  Proof using Rth. splitrec. cases8 ltac:(cbv; ring). Qed.

  Definition mone : mvec := M (R one zero zero zero) (W zero zero zero zero).
  Lemma mone_ok : omv mone == ga_scalar zero one.
  Proof using Rth. cases8 ltac:(cbv; ring). Qed.

  Lemma cmul_assoc f g h : cmul (cmul f g) h == cmul f (cmul g h).
  Proof using Rth. cases8 ltac:(cbv; ring). Qed.
  Lemma cmul_one_l f : cmul (ga_scalar zero one) f == f.
  Proof using Rth. cases8 ltac:(cbv; ring). Qed.
  Lemma cmul_one_r f : cmul f (ga_scalar zero one) == f.
  Proof using Rth. cases8 ltac:(cbv; ring). Qed.
  Lemma cmul_gen i j : i < 3 -> j < 3 ->
    cmul (gen zero one i) (gen zero one j) ==
      (if i =? j then ga_scalar zero one else ga_opp opp (cmul (gen zero one j) (gen zero one i))).
  Proof using Rth.
    intros Hi Hj. do 3 (destruct i as [|i]; [do 3 (destruct j as [|j]; [clear Hi Hj; cases8 ltac:(cbv; ring)|]); exfalso; lia|]). exfalso; lia.
  Qed.

  (** records *)
  Ltac req := splitrec; repeat first [apply mvec_eq | apply rotor_eq | apply vector_eq]; cbv; ring.
  Lemma mmul_assoc a b c : mmul (mmul a b) c = mmul a (mmul b c). Proof using Rth. req. Qed.
  Lemma mmul_1_l a : mmul mone a = a. Proof using Rth. unfold mone. req. Qed.
  Lemma mmul_1_r a : mmul a mone = a. Proof using Rth. unfold mone. req. Qed.
  Lemma mconj_mul a b : mconj opp (mmul a b) = mmul (mconj opp b) (mconj opp a). Proof using Rth. req. Qed.
  Lemma mconj_one : mconj opp mone = mone. Proof using Rth. unfold mone. req. Qed.
  Lemma mnorm_central a b : mmul (mmul a (mconj opp a)) b = mmul b (mmul a (mconj opp a)). Proof using Rth. req. Qed.
  Lemma mnorm_conj a : mmul (mconj opp a) a = mmul a (mconj opp a). Proof using Rth. req. Qed.
  (** a left inverse is a right inverse *)
  Lemma left_right x a : mmul x a = mone -> mmul a x = mone.
  Proof using Rth.
    intro H. set (c := mmul a (mconj opp a)). set (d := mmul x (mconj opp x)).
    assert (CD : mmul c d = mone).
    { unfold d. rewrite <- mmul_assoc. unfold c. rewrite mnorm_central.
      rewrite <- (mmul_assoc x a), H, mmul_1_l, <- mconj_mul, H. apply mconj_one. }
    rewrite <- (mmul_1_r (mmul a x)), <- CD, <- (mmul_assoc (mmul a x)).
    rewrite (mmul_assoc a x c). unfold c at 1. rewrite <- (mmul_assoc x a), H, mmul_1_l.
    reflexivity.
  Qed.
  (** reading an element of the algebra *)
  Definition rd (f : nat -> T) : mvec := M (R (f 0) (f 6) (opp (f 5)) (f 3)) (W (f 1) (f 2) (f 4) (f 7)).
  Lemma rd_ok f : omv (rd f) == f.
  Proof using Rth. cases8 ltac:(cbv; ring). Qed.
  Lemma rd_omv a : rd (omv a) = a.
  Proof using Rth. splitrec. apply mvec_eq; [apply rotor_eq|apply vector_eq]; cbv; ring. Qed.
  Lemma rd_ext f g : f == g -> rd f = rd g.
  Proof using. intro H. unfold rd. rewrite !H by (cbn; lia). reflexivity. Qed.
  Lemma omv_inj a b : omv a == omv b -> a = b.
  Proof using Rth. intro H. rewrite <- (rd_omv a), <- (rd_omv b). apply rd_ext. exact H. Qed.
  Lemma cmul_ext f f' g g' : f == f' -> g == g' -> cmul f g == cmul f' g'.
  Proof using. intros F G. cases8 ltac:(cbv; rewrite ?(F 0), ?(F 1), ?(F 2), ?(F 3), ?(F 4), ?(F 5), ?(F 6), ?(F 7), ?(G 0), ?(G 1), ?(G 2), ?(G 3), ?(G 4), ?(G 5), ?(G 6), ?(G 7) by (cbn; lia); reflexivity). Qed.
  Lemma one_of x a : mmul x a = mone <-> cmul (omv x) (omv a) == ga_scalar zero one.
  Proof using Rth.
    split; intro H.
    - intros m L. rewrite <- mmul_ok by exact L. rewrite H. apply mone_ok. exact L.
    - apply omv_inj. intros m L. rewrite mmul_ok by exact L. rewrite H by exact L. symmetry. apply mone_ok. exact L.
  Qed.
End P.

Section Inv.
  Context {T : Type} (zero one : T) (add mul sub : T -> T -> T) (opp : T -> T) (div : T -> T -> T) (finv : T -> T).
  Hypothesis Fth : field_theory zero one add mul sub opp div finv (@eq T).
  Variable eqb : T -> T -> bool.
  Hypothesis eqb_ok : forall x y, eqb x y = true <-> x = y.
  Add Field Fd : Fth.
  Let Rth := F_R Fth.
  Notation mmul := (mmul add mul sub opp).
  Notation mone := (mone zero one).
  Notation rmul := (rmul add mul sub).
  Notation rabs2 := (rabs2 add mul).
  Notation wabs2 := (wabs2 add mul).
  Notation rinv := (rinv zero add mul opp div eqb).
  Notation winv := (winv zero add mul opp div eqb).
  Notation minv := (minv zero add mul sub opp div eqb).
  Definition rone : rotor := R one zero zero zero.
  Ltac splitrec := repeat match goal with a : @mvec _ |- _ => destruct a | a : @rotor _ |- _ => destruct a | a : @vector _ |- _ => destruct a end.
  Ltac req := splitrec; repeat first [apply mvec_eq | apply rotor_eq | apply vector_eq]; cbv; ring.

  Lemma eqb_zero x : x <> zero -> eqb x zero = false.
  Proof using eqb_ok. intro H. destruct (eqb x zero) eqn:E; [|reflexivity]. apply eqb_ok in E. contradiction. Qed.

  Lemma rinv_ok r : rabs2 r <> zero -> exists i, rinv r = Some i /\ rmul r i = rone /\ rmul i r = rone.
  Proof using Fth eqb_ok.
    intro N. unfold Cl3Model.rinv, rdivs. rewrite eqb_zero by exact N. eexists. split; [reflexivity|].
    unfold Cl3Model.rabs2 in *. destruct r as [r1 r2 r3 r4]. cbn [rs ryz rzx rxy rrev] in *.
    split; apply rotor_eq; cbn [rs ryz rzx rxy Cl3Model.rmul rone]; field; exact N.
  Qed.
  Lemma rinv_none r : rabs2 r = zero -> rinv r = None.
  Proof using eqb_ok. intro N. unfold Cl3Model.rinv, rdivs. rewrite N. rewrite (proj2 (eqb_ok zero zero) eq_refl). reflexivity. Qed.
  Lemma winv_ok v : wabs2 v <> zero -> exists i, winv v = Some i /\
    wmul add mul sub opp v i = rone /\ wmul add mul sub opp i v = rone.
  Proof using Fth eqb_ok.
    intro N. unfold Cl3Model.winv, wdivs. rewrite eqb_zero by exact N. eexists. split; [reflexivity|].
    unfold Cl3Model.wabs2 in *. destruct v as [v1 v2 v3 v4]. cbn [wx wy wz ww wrev] in *.
    split; apply rotor_eq; cbn [rs ryz rzx rxy Cl3Model.wmul rone wx wy wz ww]; field; exact N.
  Qed.

  (** in a formally real field only zero has the norm zero *)
  Hypothesis real : forall a b c d,
    add (add (add (mul a a) (mul b b)) (mul c c)) (mul d d) = zero -> a = zero /\ b = zero /\ c = zero /\ d = zero.

  Lemma even_product (r i : rotor) (v w : vector) :
    mmul (M r v) (M i w) = M (radd add (rmul r i) (wmul add mul sub opp v w)) (wadd add (rmulw add mul sub r w) (wmulr add mul sub opp v i)).
  Proof using. reflexivity. Qed.

  Lemma minv_ok a x : mmul x a = mone -> exists y, minv a = Some y /\ mmul y a = mone /\ mmul a y = mone.
  Proof using Fth eqb_ok real.
    intro H. destruct a as [r v]. unfold Cl3Model.minv. cbn [mr mv].
    destruct (eqb (rs r) zero && eqb (ryz r) zero && eqb (rzx r) zero && eqb (rxy r) zero)%bool eqn:E0.
    - rewrite !andb_true_iff in E0. destruct E0 as [[[E1 E2] E3] E4].
      apply eqb_ok in E1, E2, E3, E4. destruct r as [r1 r2 r3 r4]. cbn in E1, E2, E3, E4. subst r1 r2 r3 r4.
      assert (N : wabs2 v <> zero).
      { intro N. destruct v as [v1 v2 v3 v4]. destruct (real v1 v2 v3 v4 N) as (-> & -> & -> & ->).
        assert (B : one = zero). { change one with (rs (mr mone)). rewrite <- H. destruct x as [[] []]. cbv. ring. }
        exact (F_1_neq_0 Fth B). }
      destruct (winv_ok v N) as (i & -> & A & B). eexists. split; [reflexivity|].
      rewrite !even_product, A, B. split; unfold rone; req.
    - assert (N : rabs2 r <> zero).
      { intro N. destruct r as [r1 r2 r3 r4]. destruct (real r1 r4 r2 r3 N) as (-> & -> & -> & ->). cbn in E0.
        rewrite (proj2 (eqb_ok zero zero) eq_refl) in E0. discriminate E0. }
      destruct (rinv_ok r N) as (i & -> & A & B). cbn [obind]; cbv zeta.
      set (t := wmulr add mul sub opp (wneg opp v) i). set (K := radd add r (wmul add mul sub opp t v)).
      assert (P : mmul (M rone t) (M r v) = M K (W zero zero zero zero)).
      { rewrite even_product. apply mvec_eq; cbn [mr mv].
        - unfold K. generalize (wmul add mul sub opp t v). intro k. unfold rone. req.
        - assert (Ta : wmulr add mul sub opp t r = wneg opp v).
          { unfold t. transitivity (wmulr add mul sub opp (wneg opp v) (rmul i r)).
            - req.
            - rewrite B. unfold rone. req. }
          rewrite Ta. unfold rone. req. }
      assert (NK : rabs2 K <> zero).
      { intro Z0.
        assert (K0 : K = R zero zero zero zero).
        { destruct K as [k1 k2 k3 k4]. destruct (real k1 k4 k2 k3 Z0) as (-> & -> & -> & ->). reflexivity. }
        rewrite K0 in P. apply (left_right zero one add mul sub opp Rth) in H.
        assert (Q : M rone t = M (R zero zero zero zero) (W zero zero zero zero)).
        { rewrite <- (mmul_1_r zero one add mul sub opp Rth (M rone t)), <- H, <- (mmul_assoc zero one add mul sub opp Rth), P.
          destruct x as [[] []]. apply mvec_eq; [apply rotor_eq|apply vector_eq]; cbv; ring. }
        injection Q as Q _. exact (F_1_neq_0 Fth Q). }
      destruct (rinv_ok K NK) as (ri & -> & RA & RB). cbn [obind]; cbv zeta.
      assert (L : mmul (M ri (rmulw add mul sub ri t)) (M r v) = mone).
      { assert (E : M ri (rmulw add mul sub ri t) = mmul (M ri (W zero zero zero zero)) (M rone t)).
        { generalize ri t. intros [] []. unfold rone. req. }
        rewrite E, (mmul_assoc zero one add mul sub opp Rth), P, even_product.
        apply mvec_eq; cbn [mr mv].
        - rewrite RB. unfold rone. req.
        - generalize ri K. intros [] []. req. }
      eexists. split; [reflexivity|]. split; [exact L|]. apply (left_right zero one add mul sub opp Rth). exact L.
  Qed.
End Inv.
