(** Determinant and inverse over a field. *)
From Coq Require Import Ring Ring_theory.
From Verif Require Import Lib RingSpec RingProofs MatrixModel MatrixSpec MatrixProofs MatrixProofs2 DetSpec DetProofs.
Open Scope nat_scope.

Section GaussDet.
  Context {R : Type} (zero one : R) (add mul sub : R -> R -> R) (opp : R -> R).
  Hypothesis Rth : ring_theory zero one add mul sub opp (@eq R).
  Add Ring Rgd : Rth.
  Variable tdiv : R -> R -> option R.
  Variable eqb : R -> R -> bool.
  Hypothesis eqb_spec : forall x y, eqb x y = true <-> x = y.
  Hypothesis H10 : one <> zero.
  Hypothesis div_ok : forall x, x <> zero -> exists y, tdiv one x = Some y /\ mul x y = one.
  Local Notation rsum := (rsum zero add).
  Local Notation F := (nat -> nat -> R).
  Local Notation fdet := (fdet zero one add mul opp).
  Local Notation fmul := (fmul zero add mul).
  Local Notation fid := (fid zero one).
  Local Notation gauss := (gauss zero one sub mul opp tdiv eqb).
  Local Notation one_of := (product_one zero one add mul).

  Section N.
    Variables (n : nat) (M : F).
    (** f = g M, d det f = det M, d det g = 1 *)
    Definition inv_rel (f g : F) (d : R) : Prop :=
      (forall i j, i < n -> j < n -> f i j = fmul n g M i j) /\ mul d (fdet n f) = fdet n M /\ mul d (fdet n g) = one.
    Lemma rel_swap f g d i j : i < n -> j < n -> i <> j -> inv_rel f g d -> inv_rel (swapf f i j) (swapf g i j) (opp d).
    Proof using Rth.
      intros Hi Hj N (E & D & G). split; [|rewrite !(det_swap zero one add mul sub opp Rth) by assumption; split; [rewrite <- D; ring|etransitivity; [|exact G]; ring]].
      intros x y Hx Hy. unfold swapf, MatrixProofs.fmul. destruct (x =? j); [apply E; assumption|]. destruct (x =? i); apply E; assumption.
    Qed.
    Lemma rel_scale f g d j c : j < n -> mul (f j j) c = one -> inv_rel f g d -> inv_rel (scalef mul f j c) (scalef mul g j c) (mul d (f j j)).
    Proof using Rth.
      intros Hj Hc (E & D & G). unfold inv_rel. rewrite <- D. split; [|rewrite !(det_scale zero one add mul sub opp Rth) by assumption; split].
      - intros x y Hx Hy. unfold scalef, MatrixProofs.fmul. destruct (x =? j); [|apply E; assumption]. rewrite E by assumption. unfold MatrixProofs.fmul.
        rewrite <- (rsum_mul_r _ _ _ _ _ _ Rth). apply rsum_ext. intros. ring.
      - transitivity (mul (mul (f j j) c) (mul d (fdet n f))); [ring|]. rewrite Hc. ring.
      - transitivity (mul (mul (f j j) c) (mul d (fdet n g))); [ring|]. rewrite Hc, G. ring.
    Qed.
    Lemma rel_elim f g d i j p : i < n -> j < n -> i <> j -> inv_rel f g d -> inv_rel (elimf mul sub f i j p) (elimf mul sub g i j p) d.
    Proof using Rth.
      intros Hi Hj N (E & D & G). split; [|rewrite !(det_elim zero one add mul sub opp Rth) by assumption; auto].
      intros x y Hx Hy. unfold elimf, MatrixProofs.fmul. destruct (x =? i); [|apply E; assumption]. rewrite (E i), (E j) by assumption. unfold MatrixProofs.fmul.
      rewrite <- (rsum_mul_r _ _ _ _ _ _ Rth), <- (rsum_sub _ _ _ _ _ _ Rth). apply rsum_ext. intros. ring.
    Qed.
  End N.

  (** a left inverse, or a combination of columns that vanishes *)
  Lemma gauss_left n a f : n <> 0 -> rep n n a f -> exists r a' b' d, gauss a = Some (r, a', b', d) /\ d = fdet n f /\ shape n n b' /\
    ((r = n /\ fdet n f <> zero /\ exists g, rep n n b' g /\ one_of n g f /\ fdet n g <> zero) \/
     (r < n /\ fdet n f = zero /\ exists f' g', (forall i j, i < n -> j < n -> f' i j = fmul n g' f i j) /\ fdet n g' <> zero /\ sing zero one add mul n f')).
  Proof using Rth eqb_spec H10 div_ok.
    intros Hn Ha.
    assert (I0 : inv_rel n f f (fun i j => if i =? j then one else zero) one).
    { split; [|rewrite (fdet_id zero one add mul sub opp Rth n (fun i j => if i =? j then one else zero)) by reflexivity; split; ring].
      intros i j Hi Hj. symmetry. apply (fmul_id_l zero one add mul sub opp Rth). exact Hi. }
    destruct (gauss_spec zero one add mul sub opp Rth tdiv eqb eqb_spec H10 div_ok n (inv_rel n f) (rel_swap n f) (rel_scale n f) (rel_elim n f) a f Hn Ha I0) as (r & a' & b' & d & E & H).
    assert (NZ : forall d' g', mul d' (fdet n g') = one -> d' <> zero /\ fdet n g' <> zero).
    { intros d' g' Q. split; intros Z; rewrite Z in Q; apply H10; rewrite <- Q; ring. }
    exists r, a', b', d. split; [exact E|].
    destruct H as [(-> & f' & g' & Rb & (E1 & D & G) & If)|(Lr & -> & Sb & f' & g' & d' & (E1 & D & G) & S)].
    - rewrite (fdet_id zero one add mul sub opp Rth n f' If) in D. assert (Dd : d = fdet n f) by (rewrite <- D; ring). destruct (NZ _ _ G) as (N1 & N2).
      split; [exact Dd|]. split; [exact (proj1 (rep_ent zero _ _ _ _ Rb))|]. left. split; [reflexivity|]. split; [rewrite <- Dd; exact N1|].
      exists g'. split; [exact Rb|]. split; [|exact N2]. intros i j Hi Hj. rewrite <- If by assumption. symmetry. apply E1; assumption.
    - assert (Z : fdet n f = zero) by (rewrite <- D, (det_sing zero one add mul sub opp Rth n f' S); ring).
      split; [symmetry; exact Z|]. split; [exact Sb|]. right. split; [exact Lr|]. split; [exact Z|]. exists f', g'. split; [exact E1|]. split; [exact (proj2 (NZ _ _ G))|exact S].
  Qed.
  Lemma rep_list n (f : F) : exists a, rep n n a f.
  Proof using.
    exists (map (fun i => map (f i) (seq 0 n)) (seq 0 n)). split; [rewrite map_length, seq_length; reflexivity|]. intros i Hi.
    exists (map (f i) (seq 0 n)). rewrite nth_error_map, (nth_error_nth' _ 0) by (rewrite seq_length; exact Hi). rewrite seq_nth by exact Hi. cbn [option_map]. split; [reflexivity|].
    split; [rewrite map_length, seq_length; reflexivity|]. intros j Hj. rewrite nth_error_map, (nth_error_nth' _ 0) by (rewrite seq_length; exact Hj). rewrite seq_nth by exact Hj. reflexivity.
  Qed.
  Lemma left_inverse n f : n <> 0 -> fdet n f <> zero -> exists g, one_of n g f.
  Proof using Rth eqb_spec H10 div_ok.
    intros Hn NZ. destruct (rep_list n f) as (a & Ha). destruct (gauss_left n a f Hn Ha) as (r & a' & b' & d & _ & _ & _ & [(_ & _ & g & _ & G & _)|(_ & Z & _)]); [eauto|contradiction].
  Qed.
  Lemma one_cancel n h g f : one_of n h g -> forall i j, i < n -> j < n -> f i j = fmul n h (fmul n g f) i j.
  Proof using Rth.
    intros H i j Hi Hj. rewrite <- (fmul_assoc zero one add mul sub opp Rth). rewrite <- (fmul_id_l zero one add mul sub opp Rth n f i j) at 1 by exact Hi.
    apply (fmul_ext zero add mul n _ _ _ _ n n); auto. intros x y Hx Hy. symmetry. apply H; assumption.
  Qed.
  Lemma two_sided n g f : n <> 0 -> one_of n g f -> fdet n g <> zero -> one_of n f g.
  Proof using Rth eqb_spec H10 div_ok.
    intros Hn H NZ. destruct (left_inverse n g Hn NZ) as (h & Hh).
    assert (E : forall i j, i < n -> j < n -> f i j = h i j).
    { intros i j Hi Hj. rewrite (one_cancel n h g f Hh i j Hi Hj). rewrite <- (fmul_id_r zero one add mul sub opp Rth n h i j Hj). apply (fmul_ext zero add mul n _ _ _ _ n n); auto. }
    intros i j Hi Hj. rewrite <- (Hh i j Hi Hj). apply rsum_ext. intros k Hk. rewrite E by assumption. reflexivity.
  Qed.
  Lemma one_indep n g f : one_of n g f -> columns_independent zero add mul n f.
  Proof using Rth.
    intros H v Hv k Hk. assert (Q := one_cancel n g f (fun i _ => v i) H k k Hk Hk). cbv beta in Q. rewrite Q. apply (rsum_zero _ _ _ _ _ _ Rth). intros i Hi. unfold MatrixProofs.fmul. rewrite Hv by exact Hi. ring.
  Qed.
  Lemma sing_dep n f f' g' : n <> 0 -> (forall i j, i < n -> j < n -> f' i j = fmul n g' f i j) -> fdet n g' <> zero -> sing zero one add mul n f' -> ~ columns_independent zero add mul n f.
  Proof using Rth eqb_spec H10 div_ok.
    intros Hn E NZ (v & j & Hj & Vj & H) C. apply H10. rewrite <- Vj. apply C; [|exact Hj]. intros i Hi.
    destruct (left_inverse n g' Hn NZ) as (h & Hh). assert (Q := one_cancel n h g' (fmul n f (fun k _ => v k)) Hh i i Hi Hi). etransitivity; [exact Q|].
    apply (rsum_zero _ _ _ _ _ _ Rth). intros k Hk. rewrite <- (fmul_assoc zero one add mul sub opp Rth). replace (fmul n (fmul n g' f) (fun k _ => v k) k i) with zero; [ring|].
    etransitivity; [symmetry; exact (H k Hk)|]. apply rsum_ext. intros l Hl. rewrite E by assumption. reflexivity.
  Qed.
  Lemma gauss_det n a f : n <> 0 -> rep n n a f -> exists r a' b' d, gauss a = Some (r, a', b', d) /\ d = fdet n f /\ shape n n b' /\
    (r = n <-> fdet n f <> zero) /\ (r = n <-> columns_independent zero add mul n f) /\ (r = n <-> exists g, one_of n f g /\ one_of n g f) /\
    (fdet n f <> zero -> exists g, rep n n b' g /\ one_of n g f /\ one_of n f g).
  Proof using Rth eqb_spec H10 div_ok.
    intros Hn Ha. destruct (gauss_left n a f Hn Ha) as (r & a' & b' & d & E & D & Sb & H). exists r, a', b', d. split; [exact E|]. split; [exact D|]. split; [exact Sb|].
    destruct H as [(-> & NZ & g & Rb & G & NG)|(Lr & Z & f' & g' & Ef & NG & S)].
    - assert (G2 := two_sided n g f Hn G NG). split; [tauto|]. split; [split; [intros _; exact (one_indep n g f G)|reflexivity]|]. split; [split; [intros _; exists g; auto|reflexivity]|]. eauto.
    - assert (ND := sing_dep n f f' g' Hn Ef NG S). split; [split; [lia|contradiction]|]. split; [split; [lia|contradiction]|].
      split; [split; [lia|intros (g & _ & G); destruct (ND (one_indep n g f G))]|contradiction].
  Qed.
End GaussDet.
