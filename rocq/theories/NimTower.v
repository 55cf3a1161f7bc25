(** The nimbers as a tower of quadratic extensions of the field with two elements. *)
From Coq Require Import NArith Ring Lia Bool.
Open Scope N_scope.

(** R[X]/(X^2 - X - e) on pairs (coefficient of X, constant) *)
Section Pair.
Context {R : Type} (zero one : R) (add mul sub : R -> R -> R) (opp : R -> R).
Hypothesis Rth : ring_theory zero one add mul sub opp eq.
Add Ring pair_base : Rth.
Variable e : R.
Definition qadd (x y : R * R) : R * R := (add (fst x) (fst y), add (snd x) (snd y)).
Definition qsub (x y : R * R) : R * R := (sub (fst x) (fst y), sub (snd x) (snd y)).
Definition qopp (x : R * R) : R * R := (opp (fst x), opp (snd x)).
Definition qmul (x y : R * R) : R * R :=
  (add (add (mul (fst x) (fst y)) (mul (fst x) (snd y))) (mul (snd x) (fst y)), add (mul e (mul (fst x) (fst y))) (mul (snd x) (snd y))).
Lemma pair_ring : ring_theory (zero, zero) (zero, one) qadd qmul qsub qopp eq.
Proof. constructor; intros; repeat match goal with x : R * R |- _ => destruct x end; unfold qadd, qmul, qsub, qopp; cbn [fst snd]; f_equal; ring. Qed.
End Pair.

Fixpoint T (k : nat) : Type := match k with O => bool | S k => (T k * T k)%type end.
Fixpoint tzero (k : nat) : T k := match k with O => false | S k => (tzero k, tzero k) end.
Fixpoint tone (k : nat) : T k := match k with O => true | S k => (tzero k, tone k) end.
Fixpoint te (k : nat) : T k := match k with O => true | S k => (te k, tzero k) end.
Fixpoint tadd (k : nat) : T k -> T k -> T k := match k with O => xorb | S k => qadd (tadd k) end.
Fixpoint tmul (k : nat) : T k -> T k -> T k := match k with O => andb | S k => qmul (tadd k) (tmul k) (te k) end.
Definition tid (k : nat) (x : T k) : T k := x.
Lemma tower_opp k : forall x : T k, qopp (tid k) (x, x) = tid (S k) (x, x). Proof. reflexivity. Qed.
Lemma tower_ring k : ring_theory (tzero k) (tone k) (tadd k) (tmul k) (tadd k) (tid k) eq.
Proof.
  induction k as [|k IH].
  - constructor; intros; repeat match goal with x : T 0 |- _ => destruct x end; reflexivity.
  - pose proof (pair_ring _ _ _ _ _ _ IH (te k)) as [A0 A1 A2 A3 A4 A5 A6 A7 A8]. constructor; assumption.
Qed.
Section Char2.
Variable k : nat.
Add Ring tower : (tower_ring k).
Lemma tadd_self (x : T k) : tadd k x x = tzero k. Proof. pose proof (Ropp_def (tower_ring k) x) as H. exact H. Qed.
End Char2.

(** the trace is the leading coefficient; it does not change under squaring *)
Fixpoint tr (k : nat) : T k -> bool := match k with O => fun x => x | S k => fun x => tr k (fst x) end.
Lemma tr_add k : forall x y, tr k (tadd k x y) = xorb (tr k x) (tr k y).
Proof. induction k as [|k IH]; intros x y; [reflexivity|]. apply IH. Qed.
Lemma tr_zero k : tr k (tzero k) = false. Proof. induction k as [|k IH]; [reflexivity|exact IH]. Qed.
Lemma tr_e k : tr k (te k) = true. Proof. induction k as [|k IH]; [reflexivity|exact IH]. Qed.
Lemma tr_square k : forall x, tr k (tmul k x x) = tr k x.
Proof.
  induction k as [|k IH]; intros x; [now destruct x|]. destruct x as (h & l). cbn [tmul tr qmul fst snd]. unfold qmul. cbn [fst snd]. rewrite !tr_add, IH. pose proof (Rmul_comm (tower_ring k) l h) as C. rewrite C. now destruct (tr k h), (tr k (tmul k h l)).
Qed.
Lemma irreducible k (x : T k) : tadd k (tmul k x x) x <> te k.
Proof. intros E. apply (f_equal (tr k)) in E. rewrite tr_add, tr_square, tr_e in E. now destruct (tr k x). Qed.
Lemma one_zero k : tone k <> tzero k.
Proof. induction k as [|k IH]; [discriminate|]. cbn. intros E. injection E as E. now apply IH. Qed.
Lemma T_dec k (x y : T k) : {x = y} + {x <> y}.
Proof. induction k as [|k IH]; [apply bool_dec|]. destruct x as (a & b), y as (c & d). destruct (IH a c) as [->|N]; [|right; congruence]. destruct (IH b d) as [->|N]; [now left|right; congruence]. Qed.
(** every non-zero element is invertible *)
Section Step.
Variable k : nat.
Add Ring tower_k : (tower_ring k).
Hypothesis IH : forall x : T k, x <> tzero k -> exists y, tmul k x y = tone k.
Lemma tower_inv_step (x : T (S k)) : x <> tzero (S k) -> exists y, tmul (S k) x y = tone (S k).
Proof.
  intros N. destruct x as (h & l).
  pose (d := tadd k (tmul k (tadd k h l) l) (tmul k (te k) (tmul k h h))).
  assert (D : d <> tzero k).
  { intros E. unfold d in E. destruct (T_dec k h (tzero k)) as [H|H].
    - subst h. assert (E2 : tmul k l l = tzero k) by (rewrite <- E; ring). destruct (T_dec k l (tzero k)) as [->|L]; [now apply N|]. destruct (IH l L) as (y & Y). apply (one_zero k). transitivity (tmul k (tmul k (tmul k l l) y) y); [|rewrite E2; ring]. transitivity (tmul k (tmul k l y) (tmul k l y)); [rewrite Y; ring|ring].
    - destruct (IH h H) as (y & Y). apply (irreducible k (tmul k l y)).
      assert (E2 : tmul k (tadd k (tmul k (tadd k h l) l) (tmul k (te k) (tmul k h h))) (tmul k y y) = tzero k) by (rewrite E; ring).
      assert (E3 : tadd k (tadd k (tmul k (tmul k l y) (tmul k l y)) (tmul k (tmul k h y) (tmul k l y))) (tmul k (te k) (tmul k (tmul k h y) (tmul k h y))) = tzero k) by (rewrite <- E2; ring). rewrite Y in E3.
      transitivity (tadd k (tadd k (tadd k (tmul k (tmul k l y) (tmul k l y)) (tmul k (tone k) (tmul k l y))) (tmul k (te k) (tmul k (tone k) (tone k)))) (te k)); [|rewrite E3; ring].
      transitivity (tadd k (tadd k (tmul k (tmul k l y) (tmul k l y)) (tmul k l y)) (tadd k (te k) (te k))); [rewrite tadd_self; ring|ring]. }
  destruct (IH d D) as (y & Y). exists (tmul k h y, tmul k (tadd k h l) y). cbn [tmul tone]. unfold qmul. cbn [fst snd]. f_equal.
  - transitivity (tadd k (tmul k (tadd k (tmul k h h) (tmul k h h)) y) (tadd k (tmul k (tmul k h l) y) (tmul k (tmul k h l) y))); [ring|]. rewrite !tadd_self. ring.
  - rewrite <- Y. unfold d. ring.
Qed.
End Step.
Lemma tower_inv k : forall x : T k, x <> tzero k -> exists y, tmul k x y = tone k.
Proof. induction k as [|k IH]; [|exact (tower_inv_step k IH)]. intros x N. exists true. destruct x; [reflexivity|]. exfalso. now apply N. Qed.
