From Coq Require Import ZArith Bool Field Lia.
From Verif Require Import MoebiusModel MoebiusSpec.

Section P.
Context {K : Type}.
Variables (zero one : K) (add mul sub div : K -> K -> K) (opp inv conj : K -> K) (eqb : K -> K -> bool).
Hypothesis FC : field_with_conjugation zero one add mul sub div opp inv conj eqb.
Let FT : field_theory zero one add mul sub opp div inv eq := proj1 FC.
Add Field KF : FT.
Notation "0" := zero. Notation "1" := one. Infix "+" := add. Infix "*" := mul. Infix "-" := sub. Infix "/" := div. Notation "- x" := (opp x).
Notation winf := (winf K). Notation mtr := (mtr K).
Notation point := (@point K). Notation regular := (regular zero mul sub).
Notation apply := (m_apply zero one add mul div conj eqb). Notation frac := (fractional zero add mul div eqb).
Notation mmul := (m_mul add mul conj). Notation minv := (m_inverse zero one mul sub div opp conj eqb).

Lemma eqb_spec x y : reflect (x = y) (eqb x y).
Proof. pose proof FC as (_ & E & _). destruct (eqb x y) eqn:Q; constructor; [now apply E|]. intros H. apply E in H. congruence. Qed.
Lemma conj_add x y : conj (x + y) = conj x + conj y. Proof. apply FC. Qed.
Lemma conj_mul x y : conj (x * y) = conj x * conj y. Proof. apply FC. Qed.
Lemma conj_conj x : conj (conj x) = x. Proof. apply FC. Qed.
Lemma conj_0 : conj 0 = 0.
Proof. assert (H : conj 0 + conj 0 = conj 0) by (rewrite <- conj_add; f_equal; ring). transitivity (conj 0 + conj 0 - conj 0); [ring|]. rewrite H. ring. Qed.
Lemma one_nz : 1 <> 0. Proof. exact (F_1_neq_0 FT). Qed.
Lemma conj_1 : conj 1 = 1.
Proof. transitivity (conj 1 * 1); [ring|]. rewrite <- (conj_conj 1) at 2. rewrite <- conj_mul. transitivity (conj (conj 1)); [f_equal; ring|apply conj_conj]. Qed.
Lemma conj_opp x : conj (- x) = - conj x.
Proof. assert (H : conj (- x) + conj x = 0) by (rewrite <- conj_add, <- conj_0; f_equal; ring). transitivity (conj (- x) + conj x - conj x); [ring|]. rewrite H. ring. Qed.
Lemma conj_sub x y : conj (x - y) = conj x - conj y.
Proof. transitivity (conj (x + - y)); [f_equal; ring|]. rewrite conj_add, conj_opp. ring. Qed.
Lemma conj_nz x : x <> 0 -> conj x <> 0.
Proof. intros H E. apply H. rewrite <- (conj_conj x), E. apply conj_0. Qed.
Lemma conj_div x y : y <> 0 -> conj (x / y) = conj x / conj y.
Proof. intros H. pose proof (conj_nz y H). assert (E : conj (x / y) * conj y = conj x) by (rewrite <- conj_mul; f_equal; field; auto). transitivity (conj (x / y) * conj y / conj y); [field; auto|]. now rewrite E. Qed.
Lemma mul_nz x y : x <> 0 -> y <> 0 -> x * y <> 0.
Proof. intros X Y H. apply X. transitivity (x * y / y); [field; auto|]. rewrite H. field. auto. Qed.
Lemma eqb_0 : eqb 0 0 = true. Proof. now destruct (eqb_spec 0 0). Qed.

(** the table *)
Lemma add_table x y r : t_add add (point x) (point y) = Some r -> point (w_add add x y) = r.
Proof. destruct x as [x [|]], y as [y [|]]; cbn; congruence. Qed.
Lemma sub_table x y r : t_sub sub (point x) (point y) = Some r -> point (w_sub sub x y) = r.
Proof. destruct x as [x [|]], y as [y [|]]; cbn; congruence. Qed.
Lemma mul_table x y r : t_mul zero mul eqb (point x) (point y) = Some r -> point (w_mul mul x y) = r.
Proof. destruct x as [x [|]], y as [y [|]]; cbn; repeat destruct (eqb _ _); congruence. Qed.
Lemma div_table x y r : t_div zero div eqb (point x) (point y) = Some r -> point (w_div zero one mul div eqb x y) = r.
Proof.
  destruct x as [x [|]], y as [y [|]]; unfold w_div, w_inverse; cbn [wi wv point t_div]; intros H.
  - discriminate.
  - destruct (eqb y 0); cbn; congruence.
  - injection H as <-. cbn. f_equal. ring.
  - destruct (eqb_spec y 0) as [E|E]; cbn in *; [destruct (eqb x 0); congruence|]. injection H as <-. f_equal. field. auto.
Qed.

Definition cj (s : Z) (x : K) : K := if (s <? 0)%Z then conj x else x.
Lemma cj_cases s (P : (K -> K) -> Prop) : (P conj) -> P (fun x => x) -> P (cj s).
Proof. unfold cj. destruct (s <? 0)%Z; auto. Qed.
Lemma cj_add s x y : cj s (x + y) = cj s x + cj s y. Proof. unfold cj. destruct (s <? 0)%Z; [apply conj_add|reflexivity]. Qed.
Lemma cj_sub s x y : cj s (x - y) = cj s x - cj s y. Proof. unfold cj. destruct (s <? 0)%Z; [apply conj_sub|reflexivity]. Qed.
Lemma cj_mul s x y : cj s (x * y) = cj s x * cj s y. Proof. unfold cj. destruct (s <? 0)%Z; [apply conj_mul|reflexivity]. Qed.
Lemma cj_opp s x : cj s (- x) = - cj s x. Proof. unfold cj. destruct (s <? 0)%Z; [apply conj_opp|reflexivity]. Qed.
Lemma cj_nz s x : x <> 0 -> cj s x <> 0. Proof. unfold cj. destruct (s <? 0)%Z; [apply conj_nz|auto]. Qed.
Lemma cj_div s x y : y <> 0 -> cj s (x / y) = cj s x / cj s y. Proof. unfold cj. destruct (s <? 0)%Z; [apply conj_div|auto]. Qed.
Lemma cj_cj s x : cj s (cj s x) = x. Proof. unfold cj. destruct (s <? 0)%Z; [apply conj_conj|auto]. Qed.
Lemma cj_0 s : cj s 0 = 0. Proof. unfold cj. destruct (s <? 0)%Z; [apply conj_0|auto]. Qed.
Lemma cj_prod s r x : (s = 1 \/ s = -1)%Z -> (r = 1 \/ r = -1)%Z -> cj (s * r) x = cj s (cj r x).
Proof. intros [->| ->] [->| ->]; unfold cj; cbn; rewrite ?conj_conj; reflexivity. Qed.
Lemma adapt_fin s x : m_adapt conj s (W x false) = W (cj s x) false.
Proof. unfold m_adapt, cj. destruct (s <? 0)%Z; reflexivity. Qed.

Definition fin a b c d s : mtr := M (W a false) (W b false) (W c false) (W d false) s.
Lemma regular_fin t : regular t -> exists a b c d s, t = fin a b c d s /\ a * d - b * c <> 0 /\ (s = 1 \/ s = -1)%Z.
Proof.
  destruct t as [[a a'] [b b'] [c c'] [d d'] s]. intros (A & B & C & D & N & S). cbn in *. subst. exists a, b, c, d, s. auto.
Qed.
Lemma fin_regular a b c d s : a * d - b * c <> 0 -> (s = 1 \/ s = -1)%Z -> regular (fin a b c d s).
Proof. intros. repeat split; auto. Qed.
(** applying a regular transformation *)
Lemma apply_fin a b c d s z : a * d - b * c <> 0 -> point (apply (fin a b c d s) z) = frac a b c d (option_map (cj s) (point z)).
Proof.
  intros N. destruct z as [z [|]]; unfold m_apply; cbn [wi fin ma mb mc md ms].
  - cbn [point wi option_map fractional]. unfold w_div, w_inverse. cbn [wi wv]. destruct (eqb_spec c 0) as [E|E]; cbn; [reflexivity|]. f_equal. field. auto.
  - cbn [point wi wv option_map fractional]. rewrite adapt_fin. unfold w_add, w_mul, w_div, w_inverse. cbn [wi wv]. destruct (eqb_spec (c * cj s z + d) 0) as [E|E]; cbn; [reflexivity|]. f_equal. field. auto.
Qed.
Lemma frac_comp a b c d a' b' c' d' x : a * d - b * c <> 0 -> a' * d' - b' * c' <> 0 ->
  frac a b c d (frac a' b' c' d' x) = frac (a * a' + b * c') (a * b' + b * d') (c * a' + d * c') (c * b' + d * d') x.
Proof.
  intros N N'. destruct x as [z|]; cbn [fractional].
  - destruct (eqb_spec (c' * z + d') 0) as [E|E]; cbn [fractional].
    + assert (Z : a' * z + b' <> 0).
      { intros H. apply N'. destruct (eqb_spec c' 0) as [C|C].
        - rewrite C in *. assert (D : d' = 0) by (rewrite <- E; ring). rewrite D. ring.
        - transitivity ((c' * z + d') * a' - (a' * z + b') * c'); [ring|]. rewrite E, H. ring. }
      replace ((c * a' + d * c') * z + (c * b' + d * d')) with (c * (a' * z + b') + d * (c' * z + d')) by ring. rewrite E.
      replace ((a * a' + b * c') * z + (a * b' + b * d')) with (a * (a' * z + b') + b * (c' * z + d')) by ring. rewrite E.
      replace (c * (a' * z + b') + d * 0) with (c * (a' * z + b')) by ring.
      destruct (eqb_spec c 0) as [C|C].
      * destruct (eqb_spec (c * (a' * z + b')) 0) as [Q|Q]; [reflexivity|]. exfalso. apply Q. rewrite C. ring.
      * destruct (eqb_spec (c * (a' * z + b')) 0) as [Q|Q]; [exfalso; now apply (mul_nz c (a' * z + b'))|]. f_equal. field. auto.
    + assert (EQ : c * ((a' * z + b') / (c' * z + d')) + d = ((c * a' + d * c') * z + (c * b' + d * d')) / (c' * z + d')) by (field; auto).
      destruct (eqb_spec (c * ((a' * z + b') / (c' * z + d')) + d) 0) as [Q|Q]; destruct (eqb_spec ((c * a' + d * c') * z + (c * b' + d * d')) 0) as [R|R]; auto.
      * exfalso. apply R. transitivity ((c * ((a' * z + b') / (c' * z + d')) + d) * (c' * z + d')); [field; auto|]. rewrite Q. ring.
      * exfalso. apply Q. rewrite EQ, R. field. auto.
      * f_equal. field. split; [|auto]. auto.
  - destruct (eqb_spec c' 0) as [C'|C']; cbn [fractional].
    + rewrite C' in *. assert (A' : a' <> 0) by (intros H; apply N'; rewrite H; ring). replace (c * a' + d * 0) with (c * a') by ring. replace (a * a' + b * 0) with (a * a') by ring. destruct (eqb_spec c 0) as [C|C].
      * destruct (eqb_spec (c * a') 0) as [Q|Q]; [reflexivity|]. exfalso. apply Q. rewrite C. ring.
      * destruct (eqb_spec (c * a') 0) as [Q|Q]; [exfalso; now apply (mul_nz c a')|]. f_equal. field. auto.
    + assert (EQ : c * (a' / c') + d = (c * a' + d * c') / c') by (field; auto).
      destruct (eqb_spec (c * (a' / c') + d) 0) as [Q|Q]; destruct (eqb_spec (c * a' + d * c') 0) as [R|R]; auto.
      * exfalso. apply R. transitivity ((c * (a' / c') + d) * c'); [field; auto|]. rewrite Q. ring.
      * exfalso. apply Q. rewrite EQ, R. field. auto.
      * f_equal. field. auto.
Qed.
Lemma frac_cj s a b c d x : option_map (cj s) (frac a b c d x) = frac (cj s a) (cj s b) (cj s c) (cj s d) (option_map (cj s) x).
Proof.
  assert (Z : forall y, eqb (cj s y) 0 = eqb y 0) by (intros y; destruct (eqb_spec (cj s y) 0) as [E|E], (eqb_spec y 0) as [F|F]; auto; exfalso; [exact (cj_nz s y F E)|apply E; rewrite F; apply cj_0]).
  destruct x as [z|]; cbn [option_map fractional].
  - rewrite <- cj_mul, <- cj_add, Z. destruct (eqb_spec (c * z + d) 0) as [E|E]; [reflexivity|]. cbn [option_map]. f_equal. rewrite cj_div, !cj_add, !cj_mul by exact E. reflexivity.
  - rewrite Z. destruct (eqb_spec c 0) as [E|E]; [reflexivity|]. cbn [option_map]. now rewrite cj_div.
Qed.
Lemma frac_scale k a b c d x : k <> 0 -> frac (a * k) (b * k) (c * k) (d * k) x = frac a b c d x.
Proof.
  intros N. assert (Z : forall y, eqb (y * k) 0 = eqb y 0) by (intros y; destruct (eqb_spec (y * k) 0) as [E|E], (eqb_spec y 0) as [F|F]; auto; exfalso; [exact (mul_nz _ _ F N E)|apply E; rewrite F; ring]).
  destruct x as [z|]; cbn [fractional].
  - replace (c * k * z + d * k) with ((c * z + d) * k) by ring. rewrite Z. destruct (eqb_spec (c * z + d) 0) as [E|E]; [reflexivity|]. f_equal. field. auto.
  - rewrite Z. destruct (eqb_spec c 0) as [E|E]; [reflexivity|]. f_equal. field. auto.
Qed.
Lemma frac_id k x : k <> 0 -> frac k 0 0 k x = x.
Proof.
  intros N. destruct x as [z|]; cbn [fractional].
  - destruct (eqb_spec (0 * z + k) 0) as [E|E]; [exfalso; apply N; rewrite <- E; ring|]. f_equal. field. intros H. apply E. rewrite H. ring.
  - destruct (eqb_spec 0 0); [reflexivity|congruence].
Qed.
Lemma mul_fin a b c d s a' b' c' d' s' : mmul (fin a b c d s) (fin a' b' c' d' s') =
  fin (a * cj s a' + b * cj s c') (a * cj s b' + b * cj s d') (c * cj s a' + d * cj s c') (c * cj s b' + d * cj s d') (s * s').
Proof. unfold m_mul. cbn [fin ma mb mc md ms]. rewrite !adapt_fin. reflexivity. Qed.
Lemma det_cj a b c d s : a * d - b * c <> 0 -> cj s a * cj s d - cj s b * cj s c <> 0.
Proof. intros N. rewrite <- !cj_mul, <- cj_sub. now apply cj_nz. Qed.
Lemma mul_regular t u : regular t -> regular u -> regular (mmul t u).
Proof.
  intros T U. apply regular_fin in T as (a & b & c & d & s & -> & N & S). apply regular_fin in U as (a' & b' & c' & d' & s' & -> & N' & S'). rewrite mul_fin. apply fin_regular.
  - apply (det_cj _ _ _ _ s) in N'. set (A := cj s a') in *. set (B := cj s b') in *. set (C := cj s c') in *. set (D := cj s d') in *.
    replace ((a * A + b * C) * (c * B + d * D) - (a * B + b * D) * (c * A + d * C)) with ((a * d - b * c) * (A * D - B * C)) by ring. now apply mul_nz.
  - destruct S as [->| ->], S' as [->| ->]; auto.
Qed.
Lemma mul_apply t u z : regular t -> regular u -> point (apply (mmul t u) z) = point (apply t (apply u z)).
Proof.
  intros T U. pose proof (mul_regular t u T U) as TU. apply regular_fin in T as (a & b & c & d & s & -> & N & S). apply regular_fin in U as (a' & b' & c' & d' & s' & -> & N' & S'). rewrite mul_fin in *. destruct TU as (_ & _ & _ & _ & DU & _). cbn [fin ma mb mc md wv] in DU.
  rewrite !apply_fin by assumption. rewrite frac_cj, frac_comp by (auto using det_cj). f_equal. destruct (point z) as [y|]; cbn [option_map]; [|reflexivity]. now rewrite cj_prod.
Qed.
Lemma inverse_fin a b c d s : a * d - b * c <> 0 -> let w := 1 / (a * d - b * c) in
  minv (fin a b c d s) = fin (cj s d * w) (- cj s b * w) (- cj s c * w) (cj s a * w) s /\ w <> 0.
Proof.
  intros N w. unfold m_inverse. cbn [fin ma mb mc md ms]. rewrite !adapt_fin. unfold w_sub, w_mul, m_invert, w_div, w_inverse. cbn [wi wv]. destruct (eqb_spec (a * d - b * c) 0) as [E|E]; [contradiction|]. unfold w_one, w_mul, w_opp. cbn [wi wv].
  replace (1 * (1 / (a * d - b * c))) with w by (unfold w; field; auto). split; [reflexivity|]. intros H. apply one_nz. transitivity (w * (a * d - b * c)); [unfold w; field; auto|]. rewrite H. ring.
Qed.
Lemma inverse_regular t : regular t -> regular (minv t).
Proof.
  intros T. apply regular_fin in T as (a & b & c & d & s & -> & N & S). destruct (inverse_fin a b c d s N) as (-> & W). set (w := 1 / (a * d - b * c)) in *. apply fin_regular; [|exact S].
  replace (cj s d * w * (cj s a * w) - - cj s b * w * (- cj s c * w)) with ((cj s a * cj s d - cj s b * cj s c) * (w * w)) by ring. apply mul_nz; [now apply det_cj|now apply mul_nz].
Qed.
Lemma inverse_left t z : regular t -> point (apply (minv t) (apply t z)) = point z.
Proof.
  intros T. rewrite <- mul_apply by (auto using inverse_regular). pose proof (mul_regular _ _ (inverse_regular t T) T) as TU. apply regular_fin in T as (a & b & c & d & s & -> & N & S). destruct (inverse_fin a b c d s N) as (E & W). set (w := 1 / (a * d - b * c)) in *. rewrite E, mul_fin in *. destruct TU as (_ & _ & _ & _ & DU & _). cbn [fin ma mb mc md wv] in DU.
  rewrite apply_fin by exact DU. set (A := cj s a) in *. set (B := cj s b) in *. set (C := cj s c) in *. set (D := cj s d) in *.
  replace (D * w * A + - B * w * C) with ((A * D - B * C) * w) by ring. replace (D * w * B + - B * w * D) with 0 by ring. replace (- C * w * A + A * w * C) with 0 by ring. replace (- C * w * B + A * w * D) with ((A * D - B * C) * w) by ring.
  rewrite frac_id by (apply mul_nz; [now apply det_cj|exact W]). destruct (point z) as [y|]; cbn [option_map]; [|reflexivity]. now rewrite cj_prod, cj_cj.
Qed.
Lemma inverse_right t z : regular t -> point (apply t (apply (minv t) z)) = point z.
Proof.
  intros T. rewrite <- mul_apply by (auto using inverse_regular). pose proof (mul_regular _ _ T (inverse_regular t T)) as TU. apply regular_fin in T as (a & b & c & d & s & -> & N & S). destruct (inverse_fin a b c d s N) as (E & W). set (w := 1 / (a * d - b * c)) in *. rewrite E, mul_fin in *. destruct TU as (_ & _ & _ & _ & DU & _). cbn [fin ma mb mc md wv] in DU.
  rewrite apply_fin by exact DU. rewrite !cj_mul, !cj_opp, !cj_cj. set (v := cj s w). assert (V : v <> 0) by (now apply cj_nz).
  replace (a * (d * v) + b * (- c * v)) with ((a * d - b * c) * v) by ring. replace (a * (- b * v) + b * (a * v)) with 0 by ring. replace (c * (d * v) + d * (- c * v)) with 0 by ring. replace (c * (- b * v) + d * (a * v)) with ((a * d - b * c) * v) by ring.
  rewrite frac_id by (now apply mul_nz). destruct (point z) as [y|]; cbn [option_map]; [|reflexivity]. now rewrite cj_prod, cj_cj.
Qed.
Notation normalize := (m_normalize zero one mul div eqb).
Lemma normalize_ok t z : regular t -> regular (normalize t) /\ point (apply (normalize t) z) = point (apply t z) /\
  (wv (ma (normalize t)) = 1 \/ (wv (ma (normalize t)) = 0 /\ wv (mb (normalize t)) = 1)).
Proof.
  intros T. apply regular_fin in T as (a & b & c & d & s & -> & N & S). unfold m_normalize. cbn [fin ma mb mc md ms]. unfold w_eq, w_zero. cbn [wv wi]. rewrite !andb_true_r. destruct (eqb_spec a 0) as [A|A]; cbn [negb].
  - destruct (eqb_spec b 0) as [B|B]; cbn [negb]; [exfalso; apply N; rewrite A, B; ring|].
    unfold m_invert, w_div, w_inverse, w_one. cbn [wi wv]. destruct (eqb_spec b 0) as [B'|_]; [contradiction|]. unfold w_mul. cbn [wi wv]. set (w := 1 * (1 / b)). assert (Bw : b * w = 1) by (unfold w; field; auto). assert (Wz : w <> 0) by (intros H; apply one_nz; rewrite <- Bw, H; ring). assert (E : fin a 1 (c * w) (d * w) s = fin (a * w) (b * w) (c * w) (d * w) s) by (rewrite Bw; f_equal; f_equal; rewrite A; ring).
    change (M (W a false) (W 1 false) (W (c * w) false) (W (d * w) false) s) with (fin a 1 (c * w) (d * w) s). rewrite E.
    assert (ND : a * w * (d * w) - b * w * (c * w) <> 0) by (replace (a * w * (d * w) - b * w * (c * w)) with ((a * d - b * c) * (w * w)) by ring; apply mul_nz; [exact N|now apply mul_nz]).
    split; [now apply fin_regular|]. split; [rewrite !apply_fin by assumption; now apply frac_scale|]. right. cbn. split; [rewrite A; ring|exact Bw].
  - unfold m_invert, w_div, w_inverse, w_one. cbn [wi wv]. destruct (eqb_spec a 0) as [A'|_]; [contradiction|]. unfold w_mul. cbn [wi wv]. set (w := 1 * (1 / a)). assert (Aw : a * w = 1) by (unfold w; field; auto). assert (Wz : w <> 0) by (intros H; apply one_nz; rewrite <- Aw, H; ring).
    change (M (W 1 false) (W (b * w) false) (W (c * w) false) (W (d * w) false) s) with (fin 1 (b * w) (c * w) (d * w) s). assert (E : fin 1 (b * w) (c * w) (d * w) s = fin (a * w) (b * w) (c * w) (d * w) s) by (now rewrite Aw). rewrite E.
    assert (ND : a * w * (d * w) - b * w * (c * w) <> 0) by (replace (a * w * (d * w) - b * w * (c * w)) with ((a * d - b * c) * (w * w)) by ring; apply mul_nz; [exact N|now apply mul_nz]).
    split; [now apply fin_regular|]. split; [rewrite !apply_fin by assumption; now apply frac_scale|]. left. exact Aw.
Qed.
Lemma named_ok k z : k <> 0 ->
  (point (apply (m_scaling zero one (W k false)) z) = option_map (fun x => k * x) (point z)) /\
  (point (apply (m_rotation zero one (W k false)) z) = option_map (fun x => k * x) (point z)) /\
  (point (apply (m_translation zero one (W k false)) z) = option_map (fun x => x + k) (point z)) /\
  (point (apply (m_flip_x zero one opp) z) = option_map (fun x => - (conj x)) (point z)) /\
  (point (apply (m_flip_y zero one) z) = option_map conj (point z)) /\
  (point (apply (m_inversion zero one) z) = match point z with None => Some 0 | Some x => if eqb x 0 then None else Some (1 / conj x) end).
Proof.
  intros NK. pose proof one_nz as N1.
  assert (Z1 : forall a b x, frac a b 0 1 x = option_map (fun y => a * y + b) x).
  { intros a b [x|]; cbn [fractional option_map]; [|now rewrite eqb_0]. destruct (eqb_spec (0 * x + 1) 0) as [E|E]; [exfalso; apply N1; rewrite <- E; ring|]. f_equal. field. auto. }
  assert (A : forall a b s x, a <> 0 -> point (apply (fin a b 0 1 s) x) = option_map (fun y => a * cj s y + b) (point x)).
  { intros a b s x NA. rewrite apply_fin, Z1; [destruct (point x); reflexivity|]. replace (a * 1 - b * 0) with a by ring. exact NA. }
  assert (NO : - (1) <> 0) by (intros H; apply N1; transitivity (- - (1)); [ring|]; rewrite H; ring).
  change (m_scaling zero one (W k false)) with (fin k 0 0 1 1). change (m_rotation zero one (W k false)) with (fin k 0 0 1 1). change (m_translation zero one (W k false)) with (fin 1 k 0 1 1).
  change (m_flip_x zero one opp) with (fin (- (1)) 0 0 1 (-1)). change (m_flip_y zero one) with (fin 1 0 0 1 (-1)). change (m_inversion zero one) with (fin 0 1 1 0 (-1)).
  rewrite !A by assumption.
  split; [destruct (point z); cbn; f_equal; ring|]. split; [destruct (point z); cbn; f_equal; ring|]. split; [destruct (point z); cbn; f_equal; ring|]. split; [destruct (point z); cbn; f_equal; ring|]. split; [destruct (point z); cbn; f_equal; ring|].
  rewrite apply_fin by (replace (0 * 0 - 1 * 1) with (- (1)) by ring; exact NO). destruct (point z) as [x|]; cbn [option_map fractional cj].
  - change (cj (-1) x) with (conj x). replace (1 * conj x + 0) with (conj x) by ring. destruct (eqb_spec (conj x) 0) as [E|E], (eqb_spec x 0) as [F|F]; auto; [exfalso; exact (conj_nz x F E)|exfalso; apply E; rewrite F; apply conj_0|]. f_equal. field. auto.
  - destruct (eqb_spec 1 0) as [E|E]; [contradiction|]. f_equal. field. exact N1.
Qed.
End P.
