(** The four products of pga.h, case by case. *)
From Coq Require Import ZArith List PeanoNat Lia Ring_theory Ring.
From Verif Require Import Lib RingSpec GaSpec PgaModel PgaSpec PgaProofs.
Import ListNotations.

Section P.
  Context {T : Type} (zero one : T) (add mul sub : T -> T -> T) (opp : T -> T).
  Hypothesis Rth : ring_theory zero one add mul sub opp (@eq T).
  Add Ring R : Rth.
  Notation elem := (elem zero add opp).
  Local Infix "==" := (ga_eq 4) (at level 70).

  Ltac cases16 tac :=
    let m := fresh "m" in let L := fresh "L" in
    intros m L; do 16 (destruct m as [|m]; [clear L; tac|]); exfalso; lia.
  Ltac prim :=
    intros a b Da Db;
    destruct a; try discriminate Da; destruct b; try discriminate Db; clear Da Db;
    (eexists; split; [reflexivity|]); apply (by_tab zero one add mul sub opp Rth);
    cases16 ltac:(cbv; ring).

  Lemma mul_good : good zero add opp (pga_mul zero add mul opp) (mul_prim zero add mul sub opp) 0 0.
  Proof using Rth. unfold pga_mul, geometric. prim. Qed.
  Lemma wedge_good : good zero add opp (pga_wedge zero add mul opp) (wedge_prim zero add mul sub opp) 0 0.
  Proof using Rth. unfold pga_wedge, outer. prim. Qed.
  Lemma dot_good : good zero add opp (pga_dot zero add mul opp) (dot_prim zero add mul sub opp) 0 0.
  Proof using Rth. unfold pga_dot, inner. prim. Qed.

  Lemma pga_mul_ok a b : exists c, gmul zero add mul sub opp a b = Some c /\
    elem c == pga_mul zero add mul opp (elem a) (elem b).
  Proof using Rth.
    apply (product_ok zero one add mul sub opp Rth (pga_mul zero add mul opp)); [apply (prod_bilinear zero one add mul sub opp Rth)|apply mul_good].
  Qed.
  Lemma pga_wedge_ok a b : exists c, wedge zero add mul sub opp a b = Some c /\
    elem c == pga_wedge zero add mul opp (elem a) (elem b).
  Proof using Rth.
    apply (product_ok zero one add mul sub opp Rth (pga_wedge zero add mul opp)); [apply (prod_bilinear zero one add mul sub opp Rth)|apply wedge_good].
  Qed.
  Lemma pga_dot_ok a b : exists c, dot zero add mul sub opp a b = Some c /\
    elem c == pga_dot zero add mul opp (elem a) (elem b).
  Proof using Rth.
    apply (product_ok zero one add mul sub opp Rth (pga_dot zero add mul opp)); [apply (prod_bilinear zero one add mul sub opp Rth)|apply dot_good].
  Qed.
End P.
