(** Determinants: multilinear and alternating in rows and in columns. *)
From Coq Require Import Ring Ring_theory Arith Lia.
From Verif Require Import RingSpec RingProofs MatrixProofs2 DetSpec.
Open Scope nat_scope.

Lemma skip_ne i x : skip i x <> i. Proof. unfold skip. destruct (Nat.ltb_spec x i); lia. Qed.
Lemma skip_lt i x n : i <= n -> x < n -> skip i x < S n. Proof. unfold skip. destruct (Nat.ltb_spec x i); lia. Qed.
Definition unskip (i l : nat) : nat := if l <? i then l else l - 1.
Lemma unskip_skip i x : unskip i (skip i x) = x.
Proof. unfold skip, unskip. destruct (Nat.ltb_spec x i); [destruct (Nat.ltb_spec x i)|destruct (Nat.ltb_spec (S x) i)]; lia. Qed.
Lemma skip_unskip i l : l <> i -> skip i (unskip i l) = l.
Proof. intros N. unfold skip, unskip. destruct (Nat.ltb_spec l i); [destruct (Nat.ltb_spec l i)|destruct (Nat.ltb_spec (l - 1) i)]; lia. Qed.
Lemma unskip_lt i l n : i < S n -> l < S n -> l <> i -> unskip i l < n.
Proof. unfold unskip. destruct (Nat.ltb_spec l i); lia. Qed.
Lemma skip_comm l j y : l < j -> skip j (skip l y) = skip l (skip (j - 1) y).
Proof. intros H. unfold skip. repeat match goal with |- context [?a <? ?b] => destruct (Nat.ltb_spec a b) end; lia. Qed.
Lemma even_S n : Nat.even (S n) = negb (Nat.even n). Proof. rewrite Nat.even_succ, <- Nat.negb_even. reflexivity. Qed.

Section Alternating.
  Context {R : Type} (zero one : R) (add mul sub : R -> R -> R) (opp : R -> R).
  Hypothesis Rth : ring_theory zero one add mul sub opp (@eq R).
  Add Ring Rda : Rth.
  Local Notation rsum := (rsum zero add).
  Local Notation F := (nat -> nat -> R).
  Definition upd (f : F) (i : nat) (v : nat -> R) : F := fun x => if x =? i then v else f x.
  Variable n : nat.
  Variable D : F -> R.
  Hypothesis D_ext : forall f g, (forall i j, i < n -> j < n -> f i j = g i j) -> D f = D g.
  Hypothesis D_lin : forall f i a b u v, i < n -> D (upd f i (fun y => add (mul a (u y)) (mul b (v y)))) = add (mul a (D (upd f i u))) (mul b (D (upd f i v))).
  Hypothesis D_adj : forall f r, S r < n -> (forall y, y < n -> f r y = f (S r) y) -> D f = zero.

  Lemma upd_same f i v : (forall y, y < n -> v y = f i y) -> D (upd f i v) = D f.
  Proof using D_ext. intros H. apply D_ext. intros x y _ Hy. unfold upd. destruct (Nat.eqb_spec x i) as [->|]; auto. Qed.
  Lemma D_swap_of i j : i < n -> j < n -> i <> j -> (forall f, (forall y, y < n -> f i y = f j y) -> D f = zero) -> forall f, D (swapf f i j) = opp (D f).
  Proof using Rth D_ext D_lin.
    intros Hi Hj N A f. set (E := fun p q => D (upd (upd f i p) j q)).
    assert (E1 : forall p q r, E (fun y => add (p y) (q y)) r = add (E p r) (E q r)).
    { intros p q r. unfold E.
      assert (C : forall p, D (upd (upd f i p) j r) = D (upd (upd f j r) i p)).
      { intros p0. apply D_ext. intros x y _ _. unfold upd. destruct (Nat.eqb_spec x i), (Nat.eqb_spec x j); subst; congruence. }
      rewrite !C. transitivity (D (upd (upd f j r) i (fun y => add (mul one (p y)) (mul one (q y))))).
      - apply D_ext. intros x y _ _. unfold upd. destruct (Nat.eqb_spec x i); [ring|reflexivity].
      - rewrite D_lin by exact Hi. ring. }
    assert (E2 : forall p q r, E r (fun y => add (p y) (q y)) = add (E r p) (E r q)).
    { intros p q r. unfold E. transitivity (D (upd (upd f i r) j (fun y => add (mul one (p y)) (mul one (q y))))).
      - apply D_ext. intros x y _ _. unfold upd. destruct (Nat.eqb_spec x j); [ring|reflexivity].
      - rewrite D_lin by exact Hj. ring. }
    assert (E0 : forall p, E p p = zero).
    { intros p. unfold E. apply A. intros y _. unfold upd. rewrite !Nat.eqb_refl. destruct (Nat.eqb_spec i j); [contradiction|reflexivity]. }
    assert (Q : add (E (f i) (f j)) (E (f j) (f i)) = zero).
    { rewrite <- (E0 (fun y => add (f i y) (f j y))). rewrite E1, !E2, !E0. ring. }
    assert (Ef : E (f i) (f j) = D f).
    { unfold E. apply D_ext. intros x y _ _. unfold upd. destruct (Nat.eqb_spec x j) as [->|]; [reflexivity|]. destruct (Nat.eqb_spec x i) as [->|]; reflexivity. }
    assert (Es : E (f j) (f i) = D (swapf f i j)).
    { unfold E. apply D_ext. intros x y _ _. unfold upd, swapf. destruct (Nat.eqb_spec x j) as [->|]; [reflexivity|]. destruct (Nat.eqb_spec x i) as [->|]; reflexivity. }
    rewrite <- Ef, <- Es. transitivity (sub (add (E (f i) (f j)) (E (f j) (f i))) (E (f i) (f j))); [ring|]. rewrite Q. ring.
  Qed.
  Lemma D_alt_lt k : forall i f, S (i + k) < n -> (forall y, y < n -> f i y = f (S (i + k)) y) -> D f = zero.
  Proof using Rth D_ext D_lin D_adj.
    induction k as [|k IH]; intros i f Hk H.
    - rewrite Nat.add_0_r in *. apply (D_adj f i Hk H).
    - set (j := S (i + S k)) in *. set (r := S (i + k)).
      assert (S1 : D (swapf f r j) = opp (D f)).
      { apply D_swap_of; try (unfold r, j in *; lia). intros g Hg. apply (D_adj g r); [unfold r, j in *; lia|]. intros y Hy. rewrite (Hg y Hy). f_equal. unfold r, j. lia. }
      rewrite (IH i (swapf f r j)) in S1.
      + transitivity (opp (opp (D f))); [ring|]. rewrite <- S1. ring.
      + unfold j in *. lia.
      + intros y Hy. fold r. unfold swapf. destruct (Nat.eqb_spec i j); [unfold j in *; lia|]. destruct (Nat.eqb_spec i r); [unfold r in *; lia|].
        destruct (Nat.eqb_spec r j); [unfold r, j in *; lia|]. rewrite Nat.eqb_refl. apply H. exact Hy.
  Qed.
  Lemma D_alt f i j : i < n -> j < n -> i <> j -> (forall y, y < n -> f i y = f j y) -> D f = zero.
  Proof using Rth D_ext D_lin D_adj.
    intros Hi Hj N H. destruct (Nat.lt_ge_cases i j).
    - apply (D_alt_lt (j - i - 1) i); [lia|]. replace (S (i + (j - i - 1))) with j by lia. exact H.
    - apply (D_alt_lt (i - j - 1) j); [lia|]. replace (S (j + (i - j - 1))) with i by lia. intros y Hy. symmetry. apply H. exact Hy.
  Qed.
  Lemma D_swap f i j : i < n -> j < n -> i <> j -> D (swapf f i j) = opp (D f).
  Proof using Rth D_ext D_lin D_adj. intros Hi Hj N. apply D_swap_of; auto. intros g. apply D_alt; auto. Qed.
  Lemma D_scale f j c : j < n -> D (scalef mul f j c) = mul c (D f).
  Proof using Rth D_ext D_lin.
    intros Hj. transitivity (D (upd f j (fun y => add (mul c (f j y)) (mul zero (f j y))))).
    - apply D_ext. intros x y _ _. unfold scalef, upd. destruct (Nat.eqb_spec x j) as [->|]; [ring|reflexivity].
    - rewrite D_lin, !upd_same by auto. ring.
  Qed.
  Lemma D_elim f i j p : i < n -> j < n -> i <> j -> D (elimf mul sub f i j p) = D f.
  Proof using Rth D_ext D_lin D_adj.
    intros Hi Hj N. transitivity (D (upd f i (fun y => add (mul one (f i y)) (mul (opp p) (f j y))))).
    - apply D_ext. intros x y _ _. unfold elimf, upd. destruct (Nat.eqb_spec x i) as [->|]; [ring|reflexivity].
    - rewrite D_lin, upd_same by auto. rewrite (D_alt (upd f i (f j)) i j); [ring|auto..]. intros y _. unfold upd. rewrite Nat.eqb_refl. destruct (Nat.eqb_spec j i); [congruence|reflexivity].
  Qed.
  Lemma D_zero f i : i < n -> (forall y, y < n -> f i y = zero) -> D f = zero.
  Proof using Rth D_ext D_lin.
    intros Hi H. transitivity (D (upd f i (fun y => add (mul zero (f i y)) (mul zero (f i y))))).
    - apply D_ext. intros x y _ Hy. unfold upd. destruct (Nat.eqb_spec x i) as [->|]; [rewrite H by exact Hy; ring|reflexivity].
    - rewrite D_lin by exact Hi. ring.
  Qed.
  Lemma D_sum f i v m : i < n -> D (upd f i (fun y => rsum m (fun k => mul (v k) (f k y)))) = rsum m (fun k => mul (v k) (D (upd f i (f k)))).
  Proof using Rth D_ext D_lin.
    intros Hi. induction m as [|m IH].
    - cbn [RingSpec.rsum]. apply (D_zero _ i Hi). intros y _. unfold upd. rewrite Nat.eqb_refl. reflexivity.
    - rewrite rsum_S, <- IH. transitivity (D (upd f i (fun y => add (mul one (rsum m (fun k => mul (v k) (f k y)))) (mul (v m) (f m y))))).
      + apply D_ext. intros x y _ _. unfold upd. destruct (Nat.eqb_spec x i); [rewrite rsum_S; ring|reflexivity].
      + rewrite D_lin by exact Hi. ring.
  Qed.
  (** a dependency among the rows makes D vanish *)
  Lemma D_dep f v j : j < n -> v j = one -> (forall y, y < n -> rsum n (fun k => mul (v k) (f k y)) = zero) -> D f = zero.
  Proof using Rth D_ext D_lin D_adj.
    intros Hj Vj H. transitivity (rsum n (fun k => mul (v k) (D (upd f j (f k))))).
    - rewrite (rsum_single _ _ _ _ _ _ Rth n _ j Hj).
      + rewrite Vj, upd_same by auto. ring.
      + intros k Hk N. rewrite (D_alt (upd f j (f k)) j k); [ring|auto..]. intros y _. unfold upd. rewrite Nat.eqb_refl. destruct (Nat.eqb_spec k j); [congruence|reflexivity].
    - rewrite <- D_sum by exact Hj. apply (D_zero _ j Hj). intros y Hy. unfold upd. rewrite Nat.eqb_refl. apply H. exact Hy.
  Qed.
End Alternating.

Section Det.
  Context {R : Type} (zero one : R) (add mul sub : R -> R -> R) (opp : R -> R).
  Hypothesis Rth : ring_theory zero one add mul sub opp (@eq R).
  Add Ring Rdb : Rth.
  Local Notation rsum := (rsum zero add).
  Local Notation F := (nat -> nat -> R).
  Local Notation fdet := (fdet zero one add mul opp).
  Local Notation alt := (alt opp).
  Lemma fdet_S n f : fdet (S n) f = rsum (S n) (fun j => alt j (mul (f O j) (fdet n (minor O j f)))).
  Proof using. reflexivity. Qed.
  Lemma fdet_ext n : forall f g, (forall i j, i < n -> j < n -> f i j = g i j) -> fdet n f = fdet n g.
  Proof using.
    induction n as [|n IH]; intros f g H; [reflexivity|]. rewrite !fdet_S. apply rsum_ext. intros j Hj. rewrite H by lia. do 2 f_equal. apply IH. intros x y Hx Hy. unfold minor.
    apply H; apply skip_lt; lia.
  Qed.
  Lemma alt_S j x : alt (S j) x = opp (alt j x).
  Proof using Rth. unfold DetSpec.alt. rewrite even_S. destruct (Nat.even j); cbn [negb]; ring. Qed.
  Lemma alt_lin j a b x y : alt j (add (mul a x) (mul b y)) = add (mul a (alt j x)) (mul b (alt j y)).
  Proof using Rth. unfold DetSpec.alt. destruct (Nat.even j); ring. Qed.
  Lemma rsum_lin n a b f g : rsum n (fun j => add (mul a (f j)) (mul b (g j))) = add (mul a (rsum n f)) (mul b (rsum n g)).
  Proof using Rth. rewrite (rsum_add _ _ _ _ _ _ Rth), !(rsum_mul_l _ _ _ _ _ _ Rth). reflexivity. Qed.
  (** rows *)
  Lemma fdet_lin n : forall f i a b u v, i < n -> fdet n (upd f i (fun y => add (mul a (u y)) (mul b (v y)))) = add (mul a (fdet n (upd f i u))) (mul b (fdet n (upd f i v))).
  Proof using Rth.
    induction n as [|n IH]; intros f i a b u v Hi; [lia|]. rewrite !fdet_S, <- rsum_lin. apply rsum_ext. intros j Hj. rewrite <- alt_lin. f_equal.
    destruct i as [|i].
    - unfold upd at 1 3 5. cbn [Nat.eqb].
      assert (M : forall w, fdet n (minor 0 j (upd f 0 w)) = fdet n (minor 0 j f)) by (intros w; reflexivity). rewrite !M. ring.
    - unfold upd at 1 3 5. cbn [Nat.eqb].
      assert (M : forall w, fdet n (minor 0 j (upd f (S i) w)) = fdet n (upd (minor 0 j f) i (fun y => w (skip j y)))).
      { intros w. apply fdet_ext. intros x y _ _. unfold minor, upd. change (skip 0 x) with (S x). cbn [Nat.eqb]. destruct (Nat.eqb_spec x i); reflexivity. }
      rewrite !M. rewrite (IH (minor 0 j f) i a b (fun y => u (skip j y)) (fun y => v (skip j y))) by lia. ring.
  Qed.
  Lemma rsum_skip n g j : j < S n -> rsum n (fun k => g (skip j k)) = rsum (S n) (fun l => if l =? j then zero else g l).
  Proof using Rth.
    intros Hj. replace n with (j + (n - j)) at 1 by lia. replace (S n) with (j + S (n - j)) by lia. rewrite !(rsum_split _ _ _ _ _ _ Rth), (rsum_S_l _ _ _ _ _ _ Rth (n - j)).
    rewrite Nat.add_0_r, Nat.eqb_refl.
    rewrite (rsum_ext _ _ j _ (fun l => if l =? j then zero else g l)).
    2:{ intros k Hk. unfold skip. destruct (Nat.ltb_spec k j); [|lia]. destruct (Nat.eqb_spec k j); [lia|reflexivity]. }
    rewrite (rsum_ext _ _ (n - j) _ (fun i => if j + S i =? j then zero else g (j + S i))).
    2:{ intros k Hk. unfold skip. destruct (Nat.ltb_spec (j + k) j); [lia|]. destruct (Nat.eqb_spec (j + S k) j); [lia|]. f_equal. lia. }
    ring.
  Qed.
  Lemma antisym n A : (forall i, i < n -> A i i = zero) -> (forall i j, i < j -> j < n -> A i j = opp (A j i)) -> rsum n (fun i => rsum n (fun j => A i j)) = zero.
  Proof using Rth.
    induction n as [|n IH]; intros H0 H; [reflexivity|]. rewrite rsum_S. rewrite (rsum_ext _ _ n _ (fun i => add (rsum n (fun j => A i j)) (A i n))) by (intros; apply rsum_S).
    rewrite (rsum_add _ _ _ _ _ _ Rth), IH by (intros; first [apply H0; lia|apply H; lia]). rewrite rsum_S, H0 by lia.
    rewrite (rsum_ext _ _ n (fun i => A i n) (fun i => opp (A n i))) by (intros; apply H; lia). rewrite (rsum_opp _ _ _ _ _ _ Rth). change (rsum n (fun j => A n j)) with (rsum n (A n)). ring.
  Qed.
  Lemma fdet_rows01 n f : (forall y, y < S (S n) -> f 0 y = f 1 y) -> fdet (S (S n)) f = zero.
  Proof using Rth.
    intros H. set (A := fun j l => if l =? j then zero else alt (j + unskip j l) (mul (mul (f 0 j) (f 0 l)) (fdet n (minor 0 (unskip j l) (minor 0 j f))))).
    rewrite fdet_S. rewrite (rsum_ext _ _ (S (S n)) _ (fun j => rsum (S (S n)) (fun l => A j l))).
    - apply antisym.
      + intros i _. unfold A. rewrite Nat.eqb_refl. reflexivity.
      + intros i j Hij Hj. unfold A. destruct (Nat.eqb_spec j i); [lia|]. destruct (Nat.eqb_spec i j); [lia|].
        assert (U1 : unskip i j = j - 1) by (unfold unskip; destruct (Nat.ltb_spec j i); lia).
        assert (U2 : unskip j i = i) by (unfold unskip; destruct (Nat.ltb_spec i j); lia). rewrite U1, U2.
        replace (j + i) with (S (i + (j - 1))) by lia. rewrite alt_S. rewrite (fdet_ext n (minor 0 (j - 1) (minor 0 i f)) (minor 0 i (minor 0 j f))).
        * unfold DetSpec.alt. destruct (Nat.even _); ring.
        * intros x y _ _. unfold minor. rewrite (skip_comm i j) by exact Hij. reflexivity.
    - intros j Hj. rewrite fdet_S. transitivity (rsum (S n) (fun k => alt (j + k) (mul (mul (f 0 j) (f 0 (skip j k))) (fdet n (minor 0 k (minor 0 j f)))))).
      + assert (Q : forall x, alt j x = mul (alt j one) x) by (intros x; unfold DetSpec.alt; destruct (Nat.even j); ring). rewrite Q.
        rewrite <- !(rsum_mul_l _ _ _ _ _ _ Rth). apply rsum_ext. intros k Hk. unfold minor at 1. change (skip 0 0) with 1. rewrite <- (H (skip j k)) by (apply skip_lt; lia).
        unfold DetSpec.alt. rewrite Nat.even_add. destruct (Nat.even j), (Nat.even k); cbn [Bool.eqb]; ring.
      + unfold A. rewrite <- (rsum_skip (S n) (fun l => alt (j + unskip j l) (mul (mul (f 0 j) (f 0 l)) (fdet n (minor 0 (unskip j l) (minor 0 j f))))) j Hj).
        apply rsum_ext. intros k _. rewrite unskip_skip. reflexivity.
  Qed.
  Lemma fdet_adj n : forall f r, S r < n -> (forall y, y < n -> f r y = f (S r) y) -> fdet n f = zero.
  Proof using Rth.
    induction n as [|n IH]; intros f r Hr H; [lia|]. destruct r as [|r].
    - destruct n as [|n]; [lia|]. apply fdet_rows01. exact H.
    - rewrite fdet_S. apply (rsum_zero _ _ _ _ _ _ Rth). intros j Hj. rewrite (IH (minor 0 j f) r); [|lia|].
      + unfold DetSpec.alt. destruct (Nat.even j); ring.
      + intros y Hy. unfold minor. change (skip 0 r) with (S r). change (skip 0 (S r)) with (S (S r)). apply H. apply skip_lt; lia.
  Qed.
  (** columns *)
  Local Notation tdet := (fun n f => fdet n (fun x y => f y x)).
  Lemma tdet_ext n f g : (forall i j, i < n -> j < n -> f i j = g i j) -> tdet n f = tdet n g.
  Proof using. intros H. apply fdet_ext. auto. Qed.
  Lemma tdet_lin n : forall f i a b u v, i < n -> tdet n (upd f i (fun y => add (mul a (u y)) (mul b (v y)))) = add (mul a (tdet n (upd f i u))) (mul b (tdet n (upd f i v))).
  Proof using Rth.
    induction n as [|n IH]; intros f i a b u v Hi; [lia|]. cbv beta. rewrite !fdet_S, <- rsum_lin. apply rsum_ext. intros j Hj. rewrite <- alt_lin. f_equal.
    destruct (Nat.eq_dec j i) as [->|N].
    - assert (M : forall w, fdet n (minor 0 i (fun x y => upd f i w y x)) = fdet n (minor 0 i (fun x y => f y x))).
      { intros w. apply fdet_ext. intros x y _ _. unfold minor, upd. destruct (Nat.eqb_spec (skip i y) i) as [E|]; [destruct (skip_ne _ _ E)|reflexivity]. }
      rewrite !M. unfold upd. rewrite Nat.eqb_refl. ring.
    - assert (M : forall w, fdet n (minor 0 j (fun x y => upd f i w y x)) = tdet n (upd (fun y x => f (skip j y) (S x)) (unskip j i) (fun x => w (S x)))).
      { intros w. apply fdet_ext. intros x y _ _. unfold minor, upd. change (skip 0 x) with (S x).
        destruct (Nat.eqb_spec (skip j y) i) as [E|E], (Nat.eqb_spec y (unskip j i)) as [E'|E']; try reflexivity.
        - destruct E'. rewrite <- E, unskip_skip. reflexivity.
        - destruct E. rewrite E'. apply skip_unskip. congruence. }
      rewrite !M. unfold upd at 1 3 5. destruct (Nat.eqb_spec j i); [contradiction|].
      rewrite (IH (fun y x => f (skip j y) (S x)) (unskip j i) a b (fun x => u (S x)) (fun x => v (S x))) by (apply unskip_lt; lia || congruence). ring.
  Qed.
  Lemma tdet_adj n : forall f r, S r < n -> (forall y, y < n -> f r y = f (S r) y) -> tdet n f = zero.
  Proof using Rth.
    induction n as [|n IH]; intros f r Hr H; [lia|]. cbv beta. rewrite fdet_S.
    replace (S n) with (r + (2 + (n - r - 1))) by lia. rewrite !(rsum_split _ _ _ _ _ _ Rth).
    assert (Z : forall j r', j < S n -> S r' < n -> (forall x, x < n -> f (skip j r') (S x) = f (skip j (S r')) (S x)) ->
      alt j (mul (f j 0) (fdet n (minor 0 j (fun x y => f y x)))) = zero).
    { intros j r' Hj Hr' E. assert (Q : fdet n (minor 0 j (fun x y => f y x)) = zero) by exact (IH (fun y x => f (skip j y) (S x)) r' Hr' E). rewrite Q. unfold DetSpec.alt. destruct (Nat.even j); ring. }
    rewrite (rsum_zero _ _ _ _ _ _ Rth r).
    2:{ intros j Hj. apply (Z j (r - 1)); [lia..|]. intros x Hx. replace (S (r - 1)) with r by lia. unfold skip. destruct (Nat.ltb_spec (r - 1) j); [lia|]. destruct (Nat.ltb_spec r j); [lia|].
        replace (S (r - 1)) with r by lia. apply H. lia. }
    rewrite (rsum_zero _ _ _ _ _ _ Rth (n - r - 1)).
    2:{ intros j Hj. apply (Z _ r); [lia..|]. intros x Hx. unfold skip. destruct (Nat.ltb_spec r (r + (2 + j))); [|lia]. destruct (Nat.ltb_spec (S r) (r + (2 + j))); [|lia]. apply H. lia. }
    cbn [RingSpec.rsum]. rewrite Nat.add_0_r. replace (r + 1) with (S r) by lia. rewrite alt_S, <- (H 0) by lia.
    rewrite (fdet_ext n (minor 0 (S r) (fun x y => f y x)) (minor 0 r (fun x y => f y x))).
    - ring.
    - intros x y Hx Hy. unfold minor, skip. change (x <? 0) with false. cbv iota.
      destruct (Nat.ltb_spec y (S r)), (Nat.ltb_spec y r); try lia; try reflexivity. replace y with r by lia. apply H. lia.
  Qed.
  Lemma fdet_id n f : (forall i j, i < n -> j < n -> f i j = if i =? j then one else zero) -> fdet n f = one.
  Proof using Rth.
    revert f. induction n as [|n IH]; intros f H; [reflexivity|]. rewrite fdet_S, (rsum_single _ _ _ _ _ _ Rth (S n) _ 0) by first [lia|intros j Hj N; rewrite H by lia; destruct j; [lia|]; cbn [Nat.eqb]; unfold DetSpec.alt; destruct (Nat.even _); ring].
    rewrite H by lia. cbn [Nat.eqb]. rewrite IH.
    - unfold DetSpec.alt. cbn [Nat.even]. ring.
    - intros i j Hi Hj. unfold minor. change (skip 0 i) with (S i). change (skip 0 j) with (S j). rewrite H by lia. reflexivity.
  Qed.
  (** the operations of Gaussian elimination *)
  Lemma det_swap n f i j : i < n -> j < n -> i <> j -> fdet n (swapf f i j) = opp (fdet n f).
  Proof using Rth. apply (D_swap zero one add mul sub opp Rth n (fdet n) (fdet_ext n) (fdet_lin n) (fdet_adj n)). Qed.
  Lemma det_scale n f j c : j < n -> fdet n (scalef mul f j c) = mul c (fdet n f).
  Proof using Rth. apply (D_scale zero one add mul sub opp Rth n (fdet n) (fdet_ext n) (fdet_lin n)). Qed.
  Lemma det_elim n f i j p : i < n -> j < n -> i <> j -> fdet n (elimf mul sub f i j p) = fdet n f.
  Proof using Rth. apply (D_elim zero one add mul sub opp Rth n (fdet n) (fdet_ext n) (fdet_lin n) (fdet_adj n)). Qed.
  Lemma det_sing n f : sing zero one add mul n f -> fdet n f = zero.
  Proof using Rth.
    intros (v & j & Hj & Vj & H).
    apply (D_dep zero one add mul sub opp Rth n (tdet n) (tdet_ext n) (tdet_lin n) (tdet_adj n) (fun y x => f x y) v j Hj Vj).
    intros y Hy. etransitivity; [|exact (H y Hy)]. apply rsum_ext. intros k _. ring.
  Qed.
End Det.
