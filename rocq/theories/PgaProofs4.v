(** Sandwich products. *)
From Coq Require Import ZArith List PeanoNat Lia Ring_theory Ring.
From Verif Require Import Lib RingSpec GaSpec PgaModel PgaSpec PgaProofs PgaProofs2 PgaProofs3.
Import ListNotations.

Section P.
  Context {T : Type} (zero one : T) (add mul sub : T -> T -> T) (opp : T -> T).
  Hypothesis Rth : ring_theory zero one add mul sub opp (@eq T).
  Add Ring R : Rth.
  Notation elem := (elem zero add opp).
  Notation tab := (tab zero opp).
  Notation ga := (nat -> T).
  Notation blade := (@blade T).
  Notation pmul := (pga_mul zero add mul opp).
  Notation prev := (pga_rev zero opp).
  Notation gmul := (gmul zero add mul sub opp).
  Local Infix "==" := (ga_eq 4) (at level 70).

  Ltac cases16 tac :=
    let m := fresh "m" in let L := fresh "L" in
    intros m L; change (2 ^ 4) with 16 in L; do 16 (destruct m as [|m]; [clear L; tac|]); exfalso; lia.

  Lemma pmul_ext f f' g g' : f == f' -> g == g' -> pmul f g == pmul f' g'.
  Proof using. apply prod_ext. Qed.
  Lemma mul_of a b c : gmul a b = Some c -> elem c == pmul (elem a) (elem b).
  Proof using Rth.
    intro E. destruct (pga_mul_ok zero one add mul sub opp Rth a b) as (d & D & H).
    rewrite E in D. injection D as <-. exact H.
  Qed.

  Definition sgn (b : blade) (f : ga) : ga := if odd_class b then ga_opp opp f else f.
  (** (-1)^m b a ~b *)
  Definition sand_spec (b : blade) (f : ga) : ga := sgn b (pmul (pmul (elem b) f) (prev (elem b))).

  Lemma sand_spec_ext b f g : f == g -> sand_spec b f == sand_spec b g.
  Proof using Rth.
    intros H m L. unfold sand_spec, sgn.
    assert (K : pmul (pmul (elem b) f) (prev (elem b)) == pmul (pmul (elem b) g) (prev (elem b))).
    { apply pmul_ext; [apply pmul_ext; [apply ga_refl|exact H]|apply ga_refl]. }
    destruct (odd_class b); unfold ga_opp; rewrite K by exact L; reflexivity.
  Qed.
  Lemma sand_spec_add b f g : sand_spec b (ga_add add f g) == ga_add add (sand_spec b f) (sand_spec b g).
  Proof using Rth.
    intros m L. unfold sand_spec, sgn.
    assert (K : pmul (pmul (elem b) (ga_add add f g)) (prev (elem b)) ==
                ga_add add (pmul (pmul (elem b) f) (prev (elem b))) (pmul (pmul (elem b) g) (prev (elem b)))).
    { eapply ga_trans; [apply pmul_ext; [|apply ga_refl]|].
      - intros k Lk. apply (prod_add_r zero one add mul sub opp Rth).
      - intros k Lk. apply (prod_add_l zero one add mul sub opp Rth). }
    destruct (odd_class b); unfold ga_add at 2, ga_opp; rewrite K by exact L; unfold ga_add; ring.
  Qed.

  Definition scalar_sq (b : blade) : Prop :=
    forall m, 0 < m < 16 -> pmul (elem b) (prev (elem b)) m = zero.

  Lemma sand_scalar s b : is_zero_class b = false -> is_multivector b = false -> scalar_sq b ->
    exists c, sand_prim zero one add mul sub opp (B0 s) b = Some c /\ elem c == sand_spec b (elem (B0 s)).
  Proof using Rth.
    intros Z M H.
    assert (C : exists c, sand_prim zero one add mul sub opp (B0 s) b = Some c /\
                c = B0 (mul s (if odd_class b then opp (norm2 zero add mul b) else norm2 zero add mul b))).
    { destruct b; try discriminate Z; try discriminate M; eexists; split; reflexivity. }
    destruct C as (c & E & ->). eexists. split; [exact E|]. clear E.
    assert (K : sand_spec b (elem (B0 s)) == sgn b (ga_scale mul (pmul (elem b) (prev (elem b))) s)).
    { assert (K : pmul (pmul (elem b) (elem (B0 s))) (prev (elem b)) == ga_scale mul (pmul (elem b) (prev (elem b))) s).
      { eapply ga_trans; [apply pmul_ext; [|apply ga_refl]|].
        - instantiate (1 := ga_scale mul (elem b) s).
          assert (X : forall f, pmul f (elem (B0 s)) == ga_scale mul f s) by (intro f; cases16 ltac:(cbv; ring)).
          apply X.
        - intros m L. apply (prod_scale_l zero one add mul sub opp Rth). }
      intros m L. unfold sand_spec, sgn. destruct (odd_class b); unfold ga_opp; rewrite K by exact L; reflexivity. }
    assert (N : pmul (elem b) (prev (elem b)) 0 = norm2 zero add mul b).
    { clear K H. assert (X : pmul (elem b) (prev (elem b)) == pmul (tab b) (tab (rev opp b))).
      { apply pmul_ext; [apply (elem_tab zero one add mul sub opp Rth)|].
        eapply ga_trans; [apply ga_sym; apply (rev_ok zero one add mul sub opp Rth)|apply (elem_tab zero one add mul sub opp Rth)]. }
      rewrite X by (cbn; lia). destruct b; cbv; ring. }
    apply ga_sym. eapply ga_trans; [exact K|]. intros m L.
    destruct m as [|m].
    - unfold sgn. destruct (odd_class b); unfold ga_opp, ga_scale; rewrite N; cbv [elem PgaSpec.elem terms t_s]; cbn; ring.
    - assert (Z0 : elem (B0 (mul s (if odd_class b then opp (norm2 zero add mul b) else norm2 zero add mul b))) (S m) = zero).
      { cbn. ring. }
      rewrite Z0. unfold sgn. destruct (odd_class b); unfold ga_opp, ga_scale; rewrite H by (cbn in L; lia); ring.
  Qed.

  Definition no_even_part (a : blade) : Prop := get0 a = None /\ get2E a = None.

  Lemma sand_prim_ok a b : depth_le 0 a = true -> is_zero_class a = false ->
    is_zero_class b = false -> is_multivector b = false -> no_even_part a \/ scalar_sq b ->
    exists c, sand_prim zero one add mul sub opp a b = Some c /\ elem c == sand_spec b (elem a).
  Proof using Rth.
    intros D Za Zb M H.
    destruct (get0 a) as [s|] eqn:G.
    { destruct H as [H|H]; [destruct H as [H _]; rewrite G in H; discriminate H|].
      destruct a; try discriminate G; try discriminate D.
      apply sand_scalar; assumption. }
    destruct (pga_mul_ok zero one add mul sub opp Rth b a) as (c & Ec & Hc).
    destruct (pga_mul_ok zero one add mul sub opp Rth c (rev opp b)) as (d & Ed & Hd).
    assert (K : sgn b (elem d) == sand_spec b (elem a)).
    { assert (K : elem d == pmul (pmul (elem b) (elem a)) (prev (elem b))).
      { eapply ga_trans; [exact Hd|]. apply pmul_ext; [exact Hc|apply (rev_ok zero one add mul sub opp Rth)]. }
      intros m L. unfold sgn, sand_spec, sgn, ga_opp. destruct (odd_class b); rewrite K by exact L; reflexivity. }
    clear Hc Hd.
    destruct (get2E a) as [F|] eqn:G2.
    - destruct H as [H|H]; [destruct H as [_ H]; rewrite G2 in H; discriminate H|].
      assert (X : pmul (tab b) (tab (rev opp b)) 15 = zero).
      { etransitivity; [|apply (H 15); lia]. apply pmul_ext; [apply ga_sym; apply (elem_tab zero one add mul sub opp Rth)| |cbn; lia].
        eapply ga_trans; [apply ga_sym; apply (elem_tab zero one add mul sub opp Rth)|apply (rev_ok zero one add mul sub opp Rth)]. }
      clear H.
      destruct a; try discriminate D; try discriminate G2. injection G2 as ->. clear D Za G.
      destruct F as [F1 F2 F3].
      destruct b; try discriminate Zb; try discriminate M; clear Zb M;
        cbv in X; match type of X with ?l = _ => set (Y := l) in X end;
        vm_compute in Ec; injection Ec as <-; vm_compute in Ed; injection Ed as <-;
        (eexists; split; [reflexivity|]); (eapply ga_trans; [|exact K]); clear K;
        unfold sgn; cbn [odd_class];
        (intros m L; unfold ga_opp; rewrite !(elem_tab zero one add mul sub opp Rth) by exact L; revert m L;
         cases16 ltac:(cbv - [Y];
           first [ ring
                 | match goal with |- _ = ?r => transitivity (add r (mul F1 Y)); [unfold Y; ring|rewrite X; ring] end
                 | match goal with |- _ = ?r => transitivity (sub r (mul F1 Y)); [unfold Y; ring|rewrite X; ring] end
                 | match goal with |- _ = ?r => transitivity (add r (mul F2 Y)); [unfold Y; ring|rewrite X; ring] end
                 | match goal with |- _ = ?r => transitivity (sub r (mul F2 Y)); [unfold Y; ring|rewrite X; ring] end
                 | match goal with |- _ = ?r => transitivity (add r (mul F3 Y)); [unfold Y; ring|rewrite X; ring] end
                 | match goal with |- _ = ?r => transitivity (sub r (mul F3 Y)); [unfold Y; ring|rewrite X; ring] end ])).
    - clear H.
      destruct a; try discriminate D; try discriminate Za; try discriminate G; try discriminate G2; clear D Za G G2;
        destruct b; try discriminate Zb; try discriminate M; clear Zb M;
        vm_compute in Ec; injection Ec as <-; vm_compute in Ed; injection Ed as <-;
        (eexists; split; [reflexivity|]); (eapply ga_trans; [|exact K]); clear K;
        unfold sgn; cbn [odd_class];
        (intros m L; unfold ga_opp; rewrite !(elem_tab zero one add mul sub opp Rth) by exact L; revert m L;
         cases16 ltac:(cbv; ring)).
  Qed.

  Lemma sand_lift (op : blade -> blade -> option blade) b d :
    (forall a, depth_le d a = true -> is_zero_class a = false -> no_even_part a \/ scalar_sq b ->
      exists c, op a b = Some c /\ elem c == sand_spec b (elem a)) ->
    forall a, depth_le (S d) a = true -> is_zero_class a = false -> no_even_part a \/ scalar_sq b ->
      exists c, lift_l zero add op a b = Some c /\ elem c == sand_spec b (elem a).
  Proof using Rth.
    intros G a Da Za H. unfold lift_l. destruct (parts a) as [[x y]|] eqn:E.
    - assert (D : depth_le d x = true /\ depth_le d y = true).
      { cbn [depth_le] in Da. rewrite E in Da. apply Bool.andb_true_iff in Da. exact Da. }
      assert (Q : is_zero_class x = false /\ is_zero_class y = false /\ (no_even_part a -> no_even_part x /\ no_even_part y)).
      { destruct a; try discriminate E; injection E as <- <-; (split; [reflexivity|split; [reflexivity|]]); intros [Q1 Q2]; try discriminate Q1; try discriminate Q2; repeat split. }
      destruct Q as (Zx & Zy & Q).
      destruct (G x (proj1 D) Zx) as (u & Eu & Hu). { destruct H as [H|H]; [left; apply Q; exact H|right; exact H]. }
      destruct (G y (proj2 D) Zy) as (v & Ev & Hv). { destruct H as [H|H]; [left; apply Q; exact H|right; exact H]. }
      destruct (plus_ok zero one add mul sub opp Rth u v) as (c & Ec & Hc). exists c. rewrite Eu, Ev. cbn. split; [exact Ec|].
      intros m Lm. rewrite Hc by exact Lm. unfold ga_add at 1. rewrite Hu, Hv by exact Lm.
      rewrite (sand_spec_ext b _ _ (parts_elem zero one add mul sub opp Rth a x y E)) by exact Lm.
      rewrite sand_spec_add by exact Lm. reflexivity.
    - apply G; [|exact Za|exact H]. destruct d; cbn [depth_le]; rewrite E; reflexivity.
  Qed.
  Lemma sandwich_ok a b : is_zero_class a = false -> is_zero_class b = false -> is_multivector b = false ->
    no_even_part a \/ scalar_sq b ->
    exists c, sandwich zero one add mul sub opp a b = Some c /\ elem c == sand_spec b (elem a).
  Proof using Rth.
    intros Za Zb M H. unfold sandwich.
    apply (sand_lift _ b 2); [|apply depth_3|exact Za|exact H].
    apply (sand_lift _ b 1). apply (sand_lift _ b 0).
    intros x Dx Zx Hx. apply sand_prim_ok; assumption.
  Qed.
End P.
