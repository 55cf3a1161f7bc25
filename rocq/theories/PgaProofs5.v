(** Inverses and composition of sandwiches. *)
From Coq Require Import ZArith List PeanoNat Lia Ring_theory Ring Field_theory Field.
From Verif Require Import Lib RingSpec GaSpec PgaModel PgaSpec PgaProofs PgaProofs2 PgaProofs3 PgaProofs4.
Import ListNotations.

Section F.
  Context {T : Type} (zero one : T) (add mul sub : T -> T -> T) (opp : T -> T) (div : T -> T -> T) (finv : T -> T).
  Hypothesis Fth : field_theory zero one add mul sub opp div finv (@eq T).
  Add Field Fd : Fth.
  Let Rth := F_R Fth.
  Notation elem := (elem zero add opp).
  Notation tab := (tab zero opp).
  Notation ga := (nat -> T).
  Notation blade := (@blade T).
  Notation pmul := (pga_mul zero add mul opp).
  Notation norm2 := (norm2 zero add mul).
  Local Infix "==" := (ga_eq 4) (at level 70).
  Ltac cases16 tac :=
    let m := fresh "m" in let L := fresh "L" in
    intros m L; change (2 ^ 4) with 16 in L; do 16 (destruct m as [|m]; [clear L; tac|]); exfalso; lia.

  Lemma sdiv_scale a t : elem (sdiv div a t) == ga_scale mul (elem a) (finv t).
  Proof using Fth.
    intros m L. rewrite (elem_tab zero one add mul sub opp Rth) by exact L.
    unfold ga_scale. rewrite (elem_tab zero one add mul sub opp Rth a) by exact L. revert m L.
    assert (D : forall x, div x t = mul x (finv t)) by (intro; apply (Fdiv_def Fth)).
    destruct a; cases16 ltac:(cbv; rewrite ?D; ring).
  Qed.

  (** inverse up to the division: x is an adjugate of a *)
  Lemma inv_from a x n : n <> zero ->
    (forall m, m < 16 -> pmul (tab a) (tab x) m = ga_scalar zero n m) ->
    (forall m, m < 16 -> pmul (tab x) (tab a) m = ga_scalar zero n m) ->
    pmul (elem a) (elem (sdiv div x n)) == ga_scalar zero one /\
    pmul (elem (sdiv div x n)) (elem a) == ga_scalar zero one.
  Proof using Fth.
    intros N A B.
    assert (S : forall m, mul (ga_scalar zero n m) (finv n) = ga_scalar zero one m).
    { intros [|m]; cbn; field; exact N. }
    split; intros m L.
    - rewrite <- S, <- A by exact L.
      etransitivity; [apply pmul_ext; [apply ga_refl|apply sdiv_scale|exact L]|].
      etransitivity; [apply (prod_scale_r zero one add mul sub opp Rth)|]. f_equal.
      apply prod_ext; [apply (elem_tab zero one add mul sub opp Rth)|apply (elem_tab zero one add mul sub opp Rth)|exact L].
    - rewrite <- S, <- B by exact L.
      etransitivity; [apply pmul_ext; [apply sdiv_scale|apply ga_refl|exact L]|].
      etransitivity; [apply (prod_scale_l zero one add mul sub opp Rth)|]. f_equal.
      apply prod_ext; [apply (elem_tab zero one add mul sub opp Rth)|apply (elem_tab zero one add mul sub opp Rth)|exact L].
  Qed.

  Lemma inv_ok a : is_zero_class a = false -> is_multivector a = false -> norm2 a <> zero ->
    (forall E e, a = B22 E e -> vdot add mul E e = zero) ->
    exists b, inv zero one add mul sub opp div a = Some b /\
      pmul (elem a) (elem b) == ga_scalar zero one /\ pmul (elem b) (elem a) == ga_scalar zero one.
  Proof using Fth.
    intros Z M N O.
    destruct a; try discriminate Z; try discriminate M; clear Z M;
      (eexists; split; [reflexivity|]); apply inv_from; try exact N;
      try solve [cases16 ltac:(cbv; ring)].
    1-2: (specialize (O _ _ eq_refl); cases16 ltac:(cbv; first [ring
        | match goal with |- _ = ?r => transitivity (sub r (mul (add one one) (vdot add mul E e))); [cbv; ring|rewrite O; ring] end
        | match goal with |- _ = ?r => transitivity (add r (mul (add one one) (vdot add mul E e))); [cbv; ring|rewrite O; ring] end])).
    all:
        match goal with |- context [div ?x ?n] => set (t := div x n); assert (Ht : mul t n = x) by (subst t; field; exact N) end;
        clearbody t; clear O N; cbv in Ht;
        cases16 ltac:(cbv; first [ring
          | match type of Ht with ?l = ?x => match goal with |- _ = ?r =>
              transitivity (add r (sub l x)); [ring|rewrite Ht; ring] end end
          | match type of Ht with ?l = ?x => match goal with |- _ = ?r =>
              transitivity (sub r (sub l x)); [ring|rewrite Ht; ring] end end]).
  Qed.
End F.

Section C.
  Context {T : Type} (zero one : T) (add mul sub : T -> T -> T) (opp : T -> T).
  Hypothesis Rth : ring_theory zero one add mul sub opp (@eq T).
  Add Ring R2 : Rth.
  Notation elem := (elem zero add opp).
  Notation blade := (@blade T).
  Notation pmul := (pga_mul zero add mul opp).
  Notation prev := (pga_rev zero opp).
  Notation gmul := (gmul zero add mul sub opp).
  Local Infix "==" := (ga_eq 4) (at level 70).

  Lemma mul_class (b c M : blade) : is_multivector b = false -> is_multivector c = false ->
    is_zero_class b = false -> is_zero_class c = false ->
    gmul c b = Some M -> is_multivector M = false /\ (is_zero_class M = false -> odd_class M = xorb (odd_class b) (odd_class c)).
  Proof using.
    intros Mb Mc Zb Zc E.
    destruct b; try discriminate Mb; try discriminate Zb; destruct c; try discriminate Mc; try discriminate Zc;
      vm_compute in E; injection E as <-; cbn; auto; intuition congruence.
  Qed.
  Lemma sand_class (a b x : blade) : no_even_part a ->
    is_zero_class a = false -> is_zero_class b = false -> is_multivector b = false ->
    sandwich zero one add mul sub opp a b = Some x -> no_even_part x /\ is_zero_class x = false.
  Proof using.
    intros [A1 A2] Za Zb Mb E.
    destruct a; try discriminate A1; try discriminate A2; try discriminate Za;
      destruct b; try discriminate Zb; try discriminate Mb;
      vm_compute in E; injection E as <-; repeat split.
  Qed.
  Lemma sand_compose a b c M : no_even_part a -> is_zero_class a = false ->
    is_zero_class b = false -> is_zero_class c = false -> is_multivector b = false -> is_multivector c = false ->
    gmul c b = Some M -> is_zero_class M = false ->
    exists x y z, sandwich zero one add mul sub opp a b = Some x /\ sandwich zero one add mul sub opp x c = Some y /\
      sandwich zero one add mul sub opp a M = Some z /\ elem y == elem z.
  Proof using Rth.
    intros A Za Zb Zc Mb Mc E ZM.
    destruct (mul_class b c M Mb Mc Zb Zc E) as [MM OM]. specialize (OM ZM).
    destruct (sandwich_ok zero one add mul sub opp Rth a b Za Zb Mb (or_introl A)) as (x & Ex & Hx).
    destruct (sand_class a b x A Za Zb Mb Ex) as [Ax Zx].
    destruct (sandwich_ok zero one add mul sub opp Rth x c Zx Zc Mc (or_introl Ax)) as (y & Ey & Hy).
    destruct (sandwich_ok zero one add mul sub opp Rth a M Za ZM MM (or_introl A)) as (z & Ez & Hz).
    exists x, y, z. split; [exact Ex|]. split; [exact Ey|]. split; [exact Ez|].
    eapply ga_trans; [exact Hy|]. eapply ga_trans; [apply (sand_spec_ext zero one add mul sub opp Rth); exact Hx|].
    eapply ga_trans; [|apply ga_sym; exact Hz]. clear Hx Hy Hz Ex Ey Ez.
    pose proof (mul_of zero one add mul sub opp Rth c b M E) as HM.
    assert (K : forall f, pmul (pmul (elem c) (pmul (pmul (elem b) f) (prev (elem b)))) (prev (elem c)) ==
                          pmul (pmul (elem M) f) (prev (elem M))).
    { intro f. apply ga_sym.
      eapply ga_trans. { apply pmul_ext; [apply pmul_ext; [exact HM|apply ga_refl]|apply rev_ext; exact HM]. }
      eapply ga_trans. { apply pmul_ext; [apply ga_refl|apply (rev_mul zero one add mul sub opp Rth)]. }
      eapply ga_trans. { apply ga_sym. apply (pmul_assoc zero one add mul sub opp Rth). }
      apply pmul_ext; [|apply ga_refl].
      eapply ga_trans. { apply pmul_ext; [apply (pmul_assoc zero one add mul sub opp Rth)|apply ga_refl]. }
      apply (pmul_assoc zero one add mul sub opp Rth). }
    assert (O : forall f, pmul (pmul (elem c) (ga_opp opp f)) (prev (elem c)) == ga_opp opp (pmul (pmul (elem c) f) (prev (elem c)))).
    { intro f. intros m L.
      assert (O1 : pmul (elem c) (ga_opp opp f) == ga_opp opp (pmul (elem c) f)).
      { intros k Lk. unfold pga_mul, geometric, ga_product, ga_opp. clear L Lk. induction (2 ^ 4) as [|j IH]; cbn [rsum]; [ring|]. rewrite IH.
        destruct (blade_sign _ _ _ _); cbn [signed]; ring. }
      etransitivity; [apply pmul_ext; [exact O1|apply ga_refl|exact L]|].
      apply (prod_opp_l zero one add mul sub opp Rth). }
    intros m L. unfold sand_spec, sgn. rewrite OM.
    destruct (odd_class b), (odd_class c); cbn [xorb].
    - match goal with |- ga_opp _ ?f m = _ => change (opp (f m) = pmul (pmul (elem M) (elem a)) (prev (elem M)) m) end.
      rewrite O by exact L. unfold ga_opp. rewrite K by exact L. ring.
    - rewrite O by exact L. unfold ga_opp. rewrite K by exact L. reflexivity.
    - unfold ga_opp. rewrite K by exact L. reflexivity.
    - apply K. exact L.
  Qed.
End C.
