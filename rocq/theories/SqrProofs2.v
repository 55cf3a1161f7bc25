From Coq Require Import Znumtheory.
From Verif Require Import Lib BaseModel PrimesSpec PrimesProofs NumTheory2 NumTheory3 RootsModel RootsSpec TripleSpec SqrModel SqrSpec SqrProofs.
Open Scope Z_scope.

(** sorted lists *)
Lemma lexb_spec x y : lexb x y = true <-> lex_lt x y.
Proof. unfold lexb, lex_lt. rewrite orb_true_iff, andb_true_iff, !Z.ltb_lt, Z.eqb_eq. reflexivity. Qed.
Lemma lexb_false x y : lexb x y = false -> lexb y x = false -> x = y.
Proof. destruct x as [a b], y as [c d]. unfold lexb. cbn [fst snd]. rewrite !orb_false_iff, !andb_false_iff, !Z.ltb_ge, !Z.eqb_neq. intros. f_equal; lia. Qed.
Lemma lex_trans x y z : lex_lt x y -> lex_lt y z -> lex_lt x z.
Proof. unfold lex_lt. lia. Qed.
Lemma lex_irr x : ~ lex_lt x x.
Proof. unfold lex_lt. lia. Qed.
Lemma insert_in x l y : In y (set_insert x l) <-> y = x \/ In y l.
Proof.
  induction l as [|z l IH]; cbn [set_insert]; [cbn; intuition|]. destruct (lexb x z) eqn:E1; [cbn; intuition|]. destruct (lexb z x) eqn:E2; [cbn [In]; rewrite IH; intuition|]. rewrite (lexb_false _ _ E1 E2). cbn. intuition.
Qed.
Lemma insert_increasing x l : increasing l -> increasing (set_insert x l).
Proof.
  induction l as [|z l IH]; intros H; cbn [set_insert]; [cbn; intuition|]. destruct H as (H1 & H2). destruct (lexb x z) eqn:E1.
  - apply lexb_spec in E1. cbn [increasing]. split; [|split; assumption]. intros y [<-|I]; [exact E1|]. apply (lex_trans _ z); [exact E1|apply H1, I].
  - destruct (lexb z x) eqn:E2; [|split; assumption]. cbn [increasing]. split; [|apply IH, H2]. intros y I. apply insert_in in I as [->|I]; [now apply lexb_spec|apply H1, I].
Qed.
Lemma ins_in x l y : In y (ins x l) <-> y = x \/ In y l.
Proof. induction l as [|z l IH]; cbn [ins]; [cbn; intuition|]. destruct (lexb z x); [cbn [In]; rewrite IH; intuition|cbn; intuition]. Qed.
Lemma ins_increasing x l : increasing l -> ~ In x l -> increasing (ins x l).
Proof.
  induction l as [|z l IH]; intros H NI; cbn [ins]; [cbn; intuition|]. destruct H as (H1 & H2). destruct (lexb z x) eqn:E.
  - cbn [increasing]. split; [|apply IH; [exact H2|intros I; apply NI; now right]]. intros y I. apply ins_in in I as [->|I]; [now apply lexb_spec|apply H1, I].
  - assert (L : lexb x z = true). { destruct (lexb x z) eqn:E2; [reflexivity|]. exfalso. apply NI. left. symmetry. now apply lexb_false. } apply lexb_spec in L. cbn [increasing]. split; [|split; assumption]. intros y [<-|I]; [exact L|]. apply (lex_trans _ z); [exact L|apply H1, I].
Qed.
Lemma sort_in l y : In y (sort l) <-> In y l.
Proof. induction l as [|x l IH]; [reflexivity|]. cbn [sort fold_right]. fold (sort l). rewrite ins_in, IH. cbn. intuition. Qed.
Lemma sort_increasing l : NoDup l -> increasing (sort l).
Proof. induction l as [|x l IH]; intros H; [exact Logic.I|]. inversion H; subst. cbn [sort fold_right]. fold (sort l). apply ins_increasing; [now apply IH|]. now rewrite sort_in. Qed.
Lemma increasing_nodup l : increasing l -> NoDup l.
Proof. induction l as [|x l IH]; intros H; constructor; [|apply IH, H]. intros I. destruct H as (H & _). apply (lex_irr x), H, I. Qed.

(** one composition *)
Definition norm2 (x y : Z) : Z * Z := (Z.min (Z.abs x) (Z.abs y), Z.max (Z.abs x) (Z.abs y)).
Lemma norm2_rep x y : 0 <= fst (norm2 x y) <= snd (norm2 x y) /\ fst (norm2 x y) * fst (norm2 x y) + snd (norm2 x y) * snd (norm2 x y) = x * x + y * y.
Proof. unfold norm2. cbn [fst snd]. split; [lia|]. destruct (Z.le_ge_cases (Z.abs x) (Z.abs y)); [rewrite Z.min_l, Z.max_r by lia|rewrite Z.min_r, Z.max_l by lia]; rewrite <- !Z.abs_mul, !Z.abs_eq by nia; lia. Qed.
Lemma norm2_sym x y : norm2 x y = norm2 y x.
Proof. unfold norm2. now rewrite Z.min_comm, Z.max_comm. Qed.
Lemma norm2_opp_l x y : norm2 (- x) y = norm2 x y.
Proof. unfold norm2. now rewrite Z.abs_opp. Qed.
Lemma norm2_opp_r x y : norm2 x (- y) = norm2 x y.
Proof. unfold norm2. now rewrite Z.abs_opp. Qed.
Lemma norm2_id a b : 0 <= a <= b -> norm2 a b = (a, b).
Proof. intros H. unfold norm2. rewrite !Z.abs_eq, Z.min_l, Z.max_r by lia. reflexivity. Qed.
Definition fits (B f : Z) : bool := (B =? 0) || (f <=? B).
Lemma fits_iff B f : fits B f = true <-> B = 0 \/ f <= B.
Proof. unfold fits. rewrite orb_true_iff, Z.eqb_eq, Z.leb_le. reflexivity. Qed.
Lemma order_norm e f : 0 <= f -> (if f <? Z.abs e then (f, Z.abs e) else (Z.abs e, f)) = norm2 e f.
Proof. intros H. unfold norm2. rewrite (Z.abs_eq f) by lia. destruct (Z.ltb_spec f (Z.abs e)); [rewrite Z.min_r, Z.max_l by lia|rewrite Z.min_l, Z.max_r by lia]; reflexivity. Qed.
Lemma compose_spec B c d v : 0 <= c -> 0 <= d -> (forall a b, In (a, b) v -> 0 <= a /\ 0 <= b) -> increasing (compose B c d v) /\
  forall x, In x (compose B c d v) <-> exists a b, In (a, b) v /\ fits B (snd x) = true /\ (x = norm2 (a * c - b * d) (a * d + b * c) \/ x = norm2 (a * d - b * c) (a * c + b * d)).
Proof.
  intros C D. unfold compose. set (f := fun s '(a, b) => _).
  assert (G : forall v s, (forall a b, In (a, b) v -> 0 <= a /\ 0 <= b) -> increasing s -> increasing (fold_left f v s) /\ forall x, In x (fold_left f v s) <-> In x s \/ exists a b, In (a, b) v /\ fits B (snd x) = true /\ (x = norm2 (a * c - b * d) (a * d + b * c) \/ x = norm2 (a * d - b * c) (a * c + b * d))).
  { clear v. induction v as [|(a, b) v IH]; intros s HV HS; cbn [fold_left]; [split; [exact HS|]; intros x; split; [now left|intros [|(a & b & [] & _)]; assumption]|]. destruct (HV a b (or_introl eq_refl)) as (A & Bb).
    assert (F1 : 0 <= a * d + b * c) by (apply Z.add_nonneg_nonneg; apply Z.mul_nonneg_nonneg; lia). assert (F2 : 0 <= a * c + b * d) by (apply Z.add_nonneg_nonneg; apply Z.mul_nonneg_nonneg; lia).
    assert (EF : f s (a, b) = (let s := if fits B (snd (norm2 (a * c - b * d) (a * d + b * c))) then set_insert (norm2 (a * c - b * d) (a * d + b * c)) s else s in if fits B (snd (norm2 (a * d - b * c) (a * c + b * d))) then set_insert (norm2 (a * d - b * c) (a * c + b * d)) s else s)).
    { unfold f. cbv zeta. rewrite !order_norm by assumption. destruct (norm2 (a * c - b * d) (a * d + b * c)) as [e1 f1], (norm2 (a * d - b * c) (a * c + b * d)) as [e2 f2]. reflexivity. }
    rewrite EF. cbv zeta. set (n1 := norm2 (a * c - b * d) (a * d + b * c)). set (n2 := norm2 (a * d - b * c) (a * c + b * d)). set (s1 := if fits B (snd n1) then set_insert n1 s else s). set (s2 := if fits B (snd n2) then set_insert n2 s1 else s1).
    assert (I1 : increasing s1) by (unfold s1; destruct (fits B (snd n1)); [now apply insert_increasing|exact HS]). assert (I2 : increasing s2) by (unfold s2; destruct (fits B (snd n2)); [now apply insert_increasing|exact I1]).
    destruct (IH s2 (fun a b I => HV a b (or_intror I)) I2) as (J1 & J2). split; [exact J1|]. intros x. rewrite J2. assert (S2 : In x s2 <-> In x s \/ (fits B (snd x) = true /\ (x = n1 \/ x = n2))).
    { unfold s2, s1. destruct (fits B (snd n1)) eqn:E1, (fits B (snd n2)) eqn:E2; rewrite ?insert_in; split; intros H; intuition (subst; auto; congruence). }
    rewrite S2. clear. split.
    - intros [[H|(H1 & H2)]|(a' & b' & H1 & H2)]; [now left|right; exists a, b; split; [now left|]; split; [exact H1|exact H2]|right; exists a', b'; split; [now right|exact H2]].
    - intros [H|(a' & b' & [H1|H1] & H2 & H3)]; [now left; left|injection H1 as <- <-; left; right; split; [exact H2|exact H3]|right; exists a', b'; split; [exact H1|]; split; [exact H2|exact H3]]. }
  intros HV. destruct (G v [] HV Logic.I) as (G1 & G2). split; [exact G1|]. intros x. rewrite G2. cbn. intuition.
Qed.

(** every representation of p m comes from one of m *)
Lemma gauss_div p c d a b m : prime p -> c * c + d * d = p -> a * a + b * b = p * m ->
  (exists e f, e * e + f * f = m /\ a = e * c - f * d /\ b = e * d + f * c) \/ (exists e f, e * e + f * f = m /\ a = e * c + f * d /\ b = f * c - e * d).
Proof.
  intros PP CD AB. assert (P2 : 2 <= p) by (pose proof (prime_ge_2 p PP); lia). assert (DV : (p | (a * c + b * d) * (a * c - b * d))). { exists (c * c * m - b * b). replace ((a * c + b * d) * (a * c - b * d)) with (c * c * (a * a + b * b) - b * b * (c * c + d * d)) by ring. rewrite AB, CD. ring. }
  assert (SQ : forall t k, t * t = p * k -> (p | t)) by (intros t k E; destruct (prime_mult p PP t t) as [H|H]; [exists k; lia|exact H|exact H]).
  destruct (prime_mult p PP _ _ DV) as [(e & E)|(e & E)].
  - left. destruct (SQ (b * c - a * d) (p * m - p * (e * e))) as (f & F). { replace ((b * c - a * d) * (b * c - a * d)) with ((c * c + d * d) * (a * a + b * b) - (a * c + b * d) * (a * c + b * d)) by ring. rewrite AB, CD, E. ring. }
    assert (EA : a = e * c - f * d) by (apply (Z.mul_reg_r _ _ p); [lia|]; replace ((e * c - f * d) * p) with (e * p * c - f * p * d) by ring; rewrite <- E, <- F, <- CD; ring). assert (EB : b = e * d + f * c) by (apply (Z.mul_reg_r _ _ p); [lia|]; replace ((e * d + f * c) * p) with (e * p * d + f * p * c) by ring; rewrite <- E, <- F, <- CD; ring).
    exists e, f. split; [|split; assumption]. apply (Z.mul_reg_l _ _ p); [lia|]. rewrite <- AB, EA, EB, <- CD. ring.
  - right. destruct (SQ (a * d + b * c) (p * m - p * (e * e))) as (f & F). { replace ((a * d + b * c) * (a * d + b * c)) with ((c * c + d * d) * (a * a + b * b) - (a * c - b * d) * (a * c - b * d)) by ring. rewrite AB, CD, E. ring. }
    assert (EA : a = e * c + f * d) by (apply (Z.mul_reg_r _ _ p); [lia|]; replace ((e * c + f * d) * p) with (e * p * c + f * p * d) by ring; rewrite <- E, <- F, <- CD; ring). assert (EB : b = f * c - e * d) by (apply (Z.mul_reg_r _ _ p); [lia|]; replace ((f * c - e * d) * p) with (f * p * c - e * p * d) by ring; rewrite <- E, <- F, <- CD; ring).
    exists e, f. split; [|split; assumption]. apply (Z.mul_reg_l _ _ p); [lia|]. rewrite <- AB, EA, EB, <- CD. ring.
Qed.
Lemma norm2_cases e f a b : norm2 e f = (a, b) -> exists s t, (s = 1 \/ s = -1) /\ (t = 1 \/ t = -1) /\ ((e = s * a /\ f = t * b) \/ (e = s * b /\ f = t * a)).
Proof.
  intros H. unfold norm2 in H. apply pair_equal_spec in H as (H1 & H2). assert (SG : forall x, exists s, (s = 1 \/ s = -1) /\ x = s * Z.abs x) by (intros x; destruct (Z.le_ge_cases 0 x); [exists 1|exists (-1)]; split; lia). destruct (SG e) as (s & S1 & S2), (SG f) as (t & T1 & T2). exists s, t. split; [exact S1|]. split; [exact T1|]. destruct (Z.le_ge_cases (Z.abs e) (Z.abs f)); [left|right]; rewrite S2, T2; [rewrite Z.min_l in H1 by lia; rewrite Z.max_r in H2 by lia|rewrite Z.min_r in H1 by lia; rewrite Z.max_l in H2 by lia]; rewrite H1, H2; split; reflexivity.
Qed.
Lemma norm2_eq x y x' y' : x = x' \/ x = - x' -> y = y' \/ y = - y' -> norm2 x y = norm2 x' y'.
Proof. intros [-> | ->] [-> | ->]; rewrite ?norm2_opp_l, ?norm2_opp_r; reflexivity. Qed.
Lemma turn e f c d a b : norm2 e f = (a, b) -> norm2 (e * c - f * d) (e * d + f * c) = norm2 (a * c - b * d) (a * d + b * c) \/ norm2 (e * c - f * d) (e * d + f * c) = norm2 (a * d - b * c) (a * c + b * d).
Proof.
  intros H. destruct (norm2_cases e f a b H) as (s & t & [-> | ->] & [-> | ->] & [(-> & ->)|(-> & ->)]).
  all: first [left; apply norm2_eq; first [left; ring|right; ring]|right; apply norm2_eq; first [left; ring|right; ring]|left; rewrite norm2_sym; apply norm2_eq; first [left; ring|right; ring]|right; rewrite norm2_sym; apply norm2_eq; first [left; ring|right; ring]].
Qed.
Definition describes (v : list (Z * Z)) (m B : Z) : Prop := increasing v /\ forall a b, In (a, b) v <-> unique_rep m B a b.
Lemma compose_step p c d m B v : prime p -> 0 <= c -> 0 <= d -> c * c + d * d = p -> describes v m B -> describes (compose B c d v) (p * m) B.
Proof.
  intros PP C D CD (_ & V). destruct (compose_spec B c d v C D) as (S1 & S2); [intros a b I; apply V in I; destruct I; lia|]. split; [exact S1|]. intros x y. rewrite S2. cbn [snd]. pose proof (prime_ge_2 p PP) as P2. split.
  - intros (a & b & I & F & H). apply V in I as ((A & Bb) & E & _). apply fits_iff in F. split; [|split; [|exact F]].
    + destruct H as [H|H]; [pose proof (norm2_rep (a * c - b * d) (a * d + b * c)) as (N & _)|pose proof (norm2_rep (a * d - b * c) (a * c + b * d)) as (N & _)]; rewrite <- H in N; exact N.
    + destruct H as [H|H]; [pose proof (norm2_rep (a * c - b * d) (a * d + b * c)) as (_ & N)|pose proof (norm2_rep (a * d - b * c) (a * c + b * d)) as (_ & N)]; rewrite <- H in N; cbn [fst snd] in N; rewrite N, <- E, <- CD; ring.
  - intros ((X & XY) & E & F). destruct (gauss_div p c d x y m PP CD E) as [(e & f & M & -> & ->)|(e & f & M & -> & ->)].
    + destruct (norm2 e f) as [a b] eqn:N. pose proof (norm2_rep e f) as (R1 & R2). rewrite N in R1, R2. cbn [fst snd] in R1, R2. exists a, b. split; [|split; [now apply fits_iff|]].
      * apply V. split; [exact R1|]. split; [lia|]. destruct F as [F|F]; [now left|right]. apply Z.le_trans with (e * d + f * c); [|exact F]. apply sq_mono; [lia|lia|]. assert ((e * c - f * d) * (e * c - f * d) <= (e * d + f * c) * (e * d + f * c)) by (apply Z.mul_le_mono_nonneg; lia). assert (2 * m <= p * m) by (apply Z.mul_le_mono_nonneg_r; nia). nia.
      * rewrite <- (norm2_id (e * c - f * d) (e * d + f * c)) by lia. now apply turn.
    + destruct (norm2 f e) as [a b] eqn:N. pose proof (norm2_rep f e) as (R1 & R2). rewrite N in R1, R2. cbn [fst snd] in R1, R2. exists a, b. split; [|split; [now apply fits_iff|]].
      * apply V. split; [exact R1|]. split; [lia|]. destruct F as [F|F]; [now left|right]. apply Z.le_trans with (f * c - e * d); [|exact F]. apply sq_mono; [lia|lia|]. assert ((e * c + f * d) * (e * c + f * d) <= (f * c - e * d) * (f * c - e * d)) by (apply Z.mul_le_mono_nonneg; lia). assert (2 * m <= p * m) by (apply Z.mul_le_mono_nonneg_r; nia). nia.
      * rewrite <- (norm2_id (e * c + f * d) (f * c - e * d)) by lia. rewrite norm2_sym. replace (e * c + f * d) with (f * d + e * c) by ring. now apply turn.
Qed.
Lemma compose_iter p c d B n : forall m v, prime p -> 0 <= c -> 0 <= d -> c * c + d * d = p -> describes v m B -> describes (Nat.iter n (compose B c d) v) (p ^ Z.of_nat n * m) B.
Proof.
  induction n as [|n IH]; intros m v PP C D CD V; [cbn [Nat.iter]; change (Z.of_nat 0) with 0; rewrite Z.pow_0_r, Z.mul_1_l; exact V|]. rewrite Nat2Z.inj_succ, Z.pow_succ_r, <- Z.mul_assoc by lia. cbn [Nat.iter nat_rect]. apply compose_step; try assumption. now apply IH.
Qed.
