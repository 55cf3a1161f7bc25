(** Duals, joins, reversion, associativity. *)
From Coq Require Import ZArith List PeanoNat Lia Ring_theory Ring.
From Verif Require Import Lib RingSpec GaSpec PgaModel PgaSpec PgaProofs PgaProofs2.
Import ListNotations.

Section P.
  Context {T : Type} (zero one : T) (add mul sub : T -> T -> T) (opp : T -> T).
  Hypothesis Rth : ring_theory zero one add mul sub opp (@eq T).
  Add Ring R : Rth.
  Notation elem := (elem zero add opp).
  Notation tab := (tab zero opp).
  Notation ga := (nat -> T).
  Local Infix "==" := (ga_eq 4) (at level 70).

  Ltac cases16 tac :=
    let m := fresh "m" in let L := fresh "L" in
    intros m L; change (2 ^ 4) with 16 in L; do 16 (destruct m as [|m]; [clear L; tac|]); exfalso; lia.

  Lemma dual_ext f g : f == g -> pga_dual zero add opp f == pga_dual zero add opp g.
  Proof using.
    intros H.
    assert (C : forall w, snd (word pga_q 4 w) < 16 -> coord zero opp pga_q 4 f w = coord zero opp pga_q 4 g w).
    { intros w L. unfold coord. rewrite H by exact L. reflexivity. }
    intros m L. unfold pga_dual, relabel. cbn [map dual_table fst snd].
    rewrite !C by (vm_compute; lia). reflexivity.
  Qed.
  Lemma dual_ok a : elem (dual a) == pga_dual zero add opp (elem a).
  Proof using Rth.
    apply ga_trans with (pga_dual zero add opp (tab a)).
    2:{ apply dual_ext. apply ga_sym. apply (elem_tab zero one add mul sub opp Rth). }
    apply ga_trans with (tab (dual a)). { apply (elem_tab zero one add mul sub opp Rth). }
    destruct a; cases16 ltac:(cbv; ring).
  Qed.
  Lemma dual_add f g : pga_dual zero add opp (ga_add add f g) == ga_add add (pga_dual zero add opp f) (pga_dual zero add opp g).
  Proof using Rth. cases16 ltac:(cbv; ring). Qed.
  Lemma rev_ok a : elem (rev opp a) == pga_rev zero opp (elem a).
  Proof using Rth.
    intros m L. rewrite (elem_tab zero one add mul sub opp Rth) by exact L.
    unfold pga_rev, ga_rev. rewrite (elem_tab zero one add mul sub opp Rth a) by exact L.
    revert m L. destruct a; cases16 ltac:(cbv; ring).
  Qed.
  Lemma neg_ok a : elem (neg opp a) == ga_opp opp (elem a).
  Proof using Rth.
    intros m L. rewrite (elem_tab zero one add mul sub opp Rth) by exact L.
    unfold ga_opp. rewrite (elem_tab zero one add mul sub opp Rth a) by exact L.
    revert m L. destruct a; cases16 ltac:(cbv; ring).
  Qed.
  Lemma smul_ok a t : elem (smul mul a t) == ga_scale mul (elem a) t.
  Proof using Rth.
    intros m L. rewrite (elem_tab zero one add mul sub opp Rth) by exact L.
    unfold ga_scale. rewrite (elem_tab zero one add mul sub opp Rth a) by exact L.
    revert m L. destruct a; cases16 ltac:(cbv; ring).
  Qed.

  Lemma join_bilinear : bilinear add (pga_join zero add mul opp).
  Proof using Rth.
    destruct (prod_bilinear zero one add mul sub opp Rth (fun A B =>
      if grade 4 (Nat.lxor A B) =? grade 4 A + grade 4 B then blade_sign pga_q 4 A B else 0%Z)) as (X & L & R).
    split; [|split].
    - intros f f' g g' F G. apply dual_ext. apply X; apply dual_ext; assumption.
    - intros f f' g. eapply ga_trans; [|apply dual_add]. apply dual_ext.
      eapply ga_trans; [apply X; [apply dual_add|apply ga_refl]|]. apply L.
    - intros f g g'. eapply ga_trans; [|apply dual_add]. apply dual_ext.
      eapply ga_trans; [apply X; [apply ga_refl|apply dual_add]|]. apply R.
  Qed.
  Lemma join_good : good zero add opp (pga_join zero add mul opp) (join_prim zero add mul sub opp) 0 0.
  Proof using Rth.
    intros a b Da Db.
    destruct (pga_wedge_ok zero one add mul sub opp Rth (dual a) (dual b)) as (d & E & H).
    assert (K : elem (dual d) == pga_join zero add mul opp (elem a) (elem b)).
    { eapply ga_trans; [apply dual_ok|]. apply dual_ext. eapply ga_trans; [exact H|].
      apply (proj1 (prod_bilinear zero one add mul sub opp Rth _)); apply dual_ok. }
    clear H.
    destruct a; try discriminate Da; destruct b; try discriminate Db; clear Da Db;
      vm_compute in E; injection E as <-;
      (eexists; split; [reflexivity|]); (eapply ga_trans; [|exact K]); clear K;
      (intros m L; rewrite !(elem_tab zero one add mul sub opp Rth) by exact L; revert m L;
       cases16 ltac:(cbv; ring)).
  Qed.
  Lemma pga_join_ok a b : exists c, join zero add mul sub opp a b = Some c /\
    elem c == pga_join zero add mul opp (elem a) (elem b).
  Proof using Rth.
    apply (product_ok zero one add mul sub opp Rth (pga_join zero add mul opp)); [apply join_bilinear|apply join_good].
  Qed.

  (** the algebra *)
  Notation pmul := (pga_mul zero add mul opp).
  Lemma pmul_assoc f g h : pmul (pmul f g) h == pmul f (pmul g h).
  Proof using Rth. Time cases16 ltac:(cbv; ring). Qed.
  Lemma pmul_one_l f : pmul (ga_scalar zero one) f == f.
  Proof using Rth. cases16 ltac:(cbv; ring). Qed.
  Lemma pmul_one_r f : pmul f (ga_scalar zero one) == f.
  Proof using Rth. cases16 ltac:(cbv; ring). Qed.
  Lemma pmul_gen i j : i < 4 -> j < 4 ->
    pmul (gen zero one i) (gen zero one j) ==
      (if i =? j then ga_scalar zero (if i =? 0 then zero else one)
       else ga_opp opp (pmul (gen zero one j) (gen zero one i))).
  Proof using Rth.
    intros Hi Hj. do 4 (destruct i as [|i]; [do 4 (destruct j as [|j]; [cases16 ltac:(cbv; ring)|]); lia|]). lia.
  Qed.
  Lemma rev_mul f g : pga_rev zero opp (pmul f g) == pmul (pga_rev zero opp g) (pga_rev zero opp f).
  Proof using Rth. cases16 ltac:(cbv; ring). Qed.
  Lemma rev_ext f g : f == g -> pga_rev zero opp f == pga_rev zero opp g.
  Proof using. intros H m L. unfold pga_rev, ga_rev. rewrite H by exact L. reflexivity. Qed.
End P.
