(** C69: with_infinity follows its table; moebius_tr multiplies as the maps compose, inverse undoes, normalize keeps the map. *)
From Coq Require Import ZArith Bool Field Lia.
From Verif Require Import MoebiusModel MoebiusSpec MoebiusProofs.

Section C69.
Context {K : Type}.
Variables (zero one : K) (add mul sub div : K -> K -> K) (opp inv conj : K -> K) (eqb : K -> K -> bool).
Hypothesis FC : field_with_conjugation zero one add mul sub div opp inv conj eqb.
Notation regular := (regular zero mul sub).
Notation apply := (m_apply zero one add mul div conj eqb). Notation frac := (fractional zero add mul div eqb).
Notation mmul := (m_mul add mul conj). Notation minv := (m_inverse zero one mul sub div opp conj eqb).
Notation mdiv := (m_div zero one add mul sub div opp conj eqb).
Notation normalize := (m_normalize zero one mul div eqb).

(** the four tables of the header, on every cell that is not "?" *)
Theorem C69_table x y :
  (forall r, t_add add (point x) (point y) = Some r -> point (w_add add x y) = r) /\
  (forall r, t_sub sub (point x) (point y) = Some r -> point (w_sub sub x y) = r) /\
  (forall r, t_mul zero mul eqb (point x) (point y) = Some r -> point (w_mul mul x y) = r) /\
  (forall r, t_div zero div eqb (point x) (point y) = Some r -> point (w_div zero one mul div eqb x y) = r).
Proof. repeat split; intros r; [apply add_table|apply sub_table|apply mul_table|eapply div_table; exact FC]. Qed.
(** a transformation computes its formula, at infinity and at its pole too *)
Theorem C69_apply t z : regular t -> point (apply t z) =
  frac (wv (ma t)) (wv (mb t)) (wv (mc t)) (wv (md t)) (option_map (fun x => if (ms t <? 0)%Z then conj x else x) (point z)).
Proof. intros R. apply regular_fin in R as (a & b & c & d & s & -> & N & S). cbn [fin ma mb mc md ms wv]. exact (apply_fin _ _ _ _ _ _ _ _ _ _ FC a b c d s z N). Qed.
(** the product is the composition, the quotient composes with the inverse map *)
Theorem C69_product t u z : regular t -> regular u -> regular (mmul t u) /\ point (apply (mmul t u) z) = point (apply t (apply u z)).
Proof. intros T U. split; [eapply mul_regular|eapply mul_apply]; eassumption. Qed.
Theorem C69_inverse t z : regular t -> regular (minv t) /\ point (apply (minv t) (apply t z)) = point z /\ point (apply t (apply (minv t) z)) = point z.
Proof. intros T. split; [eapply inverse_regular; eassumption|split; [eapply inverse_left; eassumption|eapply inverse_right; eassumption]]. Qed.
Theorem C69_quotient t u z : regular t -> regular u -> point (apply (mdiv t u) (apply u z)) = point (apply t z).
Proof.
  intros T U. unfold m_div. pose proof (inverse_regular _ _ _ _ _ _ _ _ _ _ FC u U) as I. pose proof (mul_regular _ _ _ _ _ _ _ _ _ _ FC t _ T I) as Q.
  transitivity (point (apply (mmul (mmul t (minv u)) u) z)); [symmetry; eapply mul_apply; eassumption|].
  rewrite (mul_apply _ _ _ _ _ _ _ _ _ _ FC _ _ _ Q U), (mul_apply _ _ _ _ _ _ _ _ _ _ FC _ _ _ T I), (C69_apply t _ T), (C69_apply t _ T). do 2 f_equal. eapply inverse_left; eassumption.
Qed.
(** normalize keeps the map and makes the first nonzero of a, b equal to 1 *)
Theorem C69_normalize t z : regular t -> regular (normalize t) /\ point (apply (normalize t) z) = point (apply t z) /\
  (wv (ma (normalize t)) = one \/ (wv (ma (normalize t)) = zero /\ wv (mb (normalize t)) = one)).
Proof. intros T. eapply normalize_ok; eassumption. Qed.
(** the named transformations *)
Theorem C69_named k z : k <> zero ->
  (point (apply (m_scaling zero one (W k false)) z) = option_map (fun x => mul k x) (point z)) /\
  (point (apply (m_rotation zero one (W k false)) z) = option_map (fun x => mul k x) (point z)) /\
  (point (apply (m_translation zero one (W k false)) z) = option_map (fun x => add x k) (point z)) /\
  (point (apply (m_flip_x zero one opp) z) = option_map (fun x => opp (conj x)) (point z)) /\
  (point (apply (m_flip_y zero one) z) = option_map conj (point z)) /\
  (point (apply (m_inversion zero one) z) = match point z with None => Some zero | Some x => if eqb x zero then None else Some (div one (conj x)) end).
Proof.
  intros NK. exact (named_ok zero one add mul sub div opp inv conj eqb FC k z NK).
Qed.
End C69.

(** the field with four elements 0, 1, a, a + 1 and x -> x^2 as conjugation *)
Inductive f4 := f0 | f1 | fa | fb.
Definition f4_add (x y : f4) : f4 :=
  match x, y with f0, z | z, f0 => z | f1, f1 | fa, fa | fb, fb => f0 | f1, fa | fa, f1 => fb | f1, fb | fb, f1 => fa | fa, fb | fb, fa => f1 end.
Definition f4_mul (x y : f4) : f4 :=
  match x, y with f0, _ | _, f0 => f0 | f1, z | z, f1 => z | fa, fa => fb | fb, fb => fa | fa, fb | fb, fa => f1 end.
Definition f4_inv (x : f4) : f4 := match x with fa => fb | fb => fa | z => z end.
Definition f4_div (x y : f4) : f4 := f4_mul x (f4_inv y).
Definition f4_conj (x : f4) : f4 := f4_mul x x.
Definition f4_eqb (x y : f4) : bool := match x, y with f0, f0 | f1, f1 | fa, fa | fb, fb => true | _, _ => false end.
Example C69_field : field_with_conjugation f0 f1 f4_add f4_mul f4_add f4_div (fun x => x) f4_inv f4_conj f4_eqb.
Proof.
  split; [constructor; [constructor; repeat intros []; reflexivity|discriminate|reflexivity|intros []; intros; congruence || reflexivity]|].
  split; [intros [] []; split; intros; reflexivity || discriminate|]. split; [intros [] []; reflexivity|]. split; [intros [] []; reflexivity|intros []; reflexivity].
Qed.
Notation w x := (W x false).
Example C69_case : let t := M (w f1) (w fa) (w f1) (w f1) (-1) in let u := M (w f0) (w fb) (w fa) (w f1) 1 in
  regular f0 f4_mul f4_add t /\ regular f0 f4_mul f4_add u /\
  m_apply f0 f1 f4_add f4_mul f4_div f4_conj f4_eqb t (w f1) = W fb true /\
  m_apply f0 f1 f4_add f4_mul f4_div f4_conj f4_eqb t (m_apply f0 f1 f4_add f4_mul f4_div f4_conj f4_eqb u (w fa)) = w fb.
Proof. repeat split; try discriminate; auto. Qed.

(** three claims that fail: == tells infinities apart, unary minus loses infinity, t * t.inverse() == identity fails for a conjugating t *)
Theorem C69_infinity_equal_refuted : exists x y : winf f4, point x = None /\ point y = None /\ w_eq f4_eqb x y = false /\
  (exists p q : f4, x = w_div f0 f1 f4_mul f4_div f4_eqb (w p) (w f0) /\ y = w_div f0 f1 f4_mul f4_div f4_eqb (w q) (w f0)).
Proof. exists (W f1 true), (W fa true). repeat split. exists f1, fa. now split. Qed.
Theorem C69_minus_infinity_refuted : forall (K : Type) (opp : K -> K) (x : winf K), point (w_opp opp x) <> None.
Proof. intros K opp [x i]. cbn. discriminate. Qed.
Theorem C69_inverse_product_refuted : exists t : mtr f4, regular f0 f4_mul f4_add t /\
  m_eq f4_eqb (m_mul f4_add f4_mul f4_conj t (m_inverse f0 f1 f4_mul f4_add f4_div (fun x => x) f4_conj f4_eqb t)) (m_identity f0 f1) = false.
Proof. exists (M (w fa) (w f0) (w f0) (w f1) (-1)). repeat split; try discriminate; auto. Qed.

Print Assumptions C69_table.
Print Assumptions C69_apply.
Print Assumptions C69_product.
Print Assumptions C69_inverse.
Print Assumptions C69_quotient.
Print Assumptions C69_normalize.
Print Assumptions C69_named.
Print Assumptions C69_infinity_equal_refuted.
Print Assumptions C69_minus_infinity_refuted.
Print Assumptions C69_inverse_product_refuted.
