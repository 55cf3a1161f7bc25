From Verif Require Import Lib BaseModel BaseProofs TripleModel TripleSpec TripleProofs TripleProofs2.
Open Scope Z_scope.

(** ** the tree of solutions of a^2 + b^2 + k = c^2 *)
Definition child0 (t : Z * Z * Z) : Z * Z * Z := let '(a, b, c) := t in (- 2 * a + b + 2 * c, - a + 2 * b + 2 * c, - 2 * a + 2 * b + 3 * c).
Definition child1 (t : Z * Z * Z) : Z * Z * Z := let '(a, b, c) := t in (a - 2 * b + 2 * c, 2 * a - b + 2 * c, 2 * a - 2 * b + 3 * c).
Definition child2 (t : Z * Z * Z) : Z * Z * Z := let '(a, b, c) := t in (2 * a + b + 2 * c, a + 2 * b + 2 * c, 2 * a + 2 * b + 3 * c).
Definition kids (n : Z) (t : Z * Z * Z) : list (Z * Z * Z) :=
  let '(a, b, _) := t in filter (fun t' => snd t' <=? n) (child0 t :: (if a =? b then [] else [child1 t]) ++ (if a =? 0 then [] else [child2 t])).
(** q of a triple: negative for the roots *)
Definition qof (t : Z * Z * Z) : Z := let '(a, b, c) := t in a + 2 * b - 2 * c.
Definition pof (t : Z * Z * Z) : Z := let '(a, b, c) := t in 2 * a + b - 2 * c.

Lemma is_primitive_ok a b c : 0 <= a -> 0 <= b -> 0 <= c -> exists p, is_primitive (a, b, c) = Some p /\ (p = true <-> primitive (a, b, c)).
Proof.
  intros. unfold is_primitive. rewrite gcd_ok by lia. cbn [obind]. pose proof (Z.gcd_nonneg a b). rewrite gcd_ok by lia. cbn [obind]. eexists. split; [reflexivity|]. rewrite Z.eqb_eq, primitive_gcd. reflexivity.
Qed.
Lemma primitive_image a b c x y z (A B C : Z -> Z -> Z -> Z) :
  (forall d u v w, (d | u) -> (d | v) -> (d | w) -> (d | A u v w)) -> (forall d u v w, (d | u) -> (d | v) -> (d | w) -> (d | B u v w)) -> (forall d u v w, (d | u) -> (d | v) -> (d | w) -> (d | C u v w)) ->
  a = A x y z -> b = B x y z -> c = C x y z -> primitive (a, b, c) -> primitive (x, y, z).
Proof. intros HA HB HC -> -> -> P d D1 D2 D3. apply P; auto. Qed.
Lemma divide_lin d u v w i j l : (d | u) -> (d | v) -> (d | w) -> (d | i * u + j * v + l * w).
Proof. intros. repeat apply Z.divide_add_r; now apply Z.divide_mul_r. Qed.
Lemma primitive_lin a b c x y z i j l i' j' l' i'' j'' l'' : a = i * x + j * y + l * z -> b = i' * x + j' * y + l' * z -> c = i'' * x + j'' * y + l'' * z -> primitive (a, b, c) -> primitive (x, y, z).
Proof. intros E1 E2 E3. apply (primitive_image a b c x y z (fun x y z => i * x + j * y + l * z) (fun x y z => i' * x + j' * y + l' * z) (fun x y z => i'' * x + j'' * y + l'' * z)); auto; intros; now apply divide_lin. Qed.

Lemma minmax_sq u v w : u * u = w -> Z.min u v * Z.min u v + Z.max u v * Z.max u v = w + v * v.
Proof. intros <-. destruct (Z_le_gt_dec u v); [rewrite Z.min_l, Z.max_r by lia|rewrite Z.min_r, Z.max_l by lia]; lia. Qed.
Lemma minmax_div d u v : (d | Z.min u v) -> (d | Z.max u v) -> (d | u) /\ (d | v).
Proof. destruct (Z_le_gt_dec u v); [rewrite Z.min_l, Z.max_r by lia|rewrite Z.min_r, Z.max_l by lia]; tauto. Qed.
Section Tree.
  Variable k : Z.
  Hypothesis Hk : 0 <= k.
  Notation P := (shifted_right k).

  Lemma P_bounds a b c : P (a, b, c) -> 0 <= a <= b /\ b <= c /\ 0 < c /\ (a = 0 -> b < c) /\ 2 * (a + b) < 3 * c.
  Proof.
    intros (H1 & H2 & E & _ & Z0). assert (Lb : b <= c) by (destruct (Z_le_gt_dec b c); [assumption|]; exfalso; assert (c * c < b * b) by (apply Z.mul_lt_mono_nonneg; lia); assert (0 <= a * a) by (apply Z.mul_nonneg_nonneg; lia); lia).
    split; [exact H1|]. split; [exact Lb|]. split; [exact H2|]. split.
    - intros ->. assert (b <> c) by (intros ->; lia). lia.
    - assert (0 <= (a - b) * (a - b)) by apply Z.square_nonneg. apply (proj2 (sq_lt (2 * (a + b)) (3 * c) ltac:(lia) ltac:(lia))). assert (0 < c * c) by (apply Z.mul_pos_pos; lia). lia.
  Qed.
  Lemma child0_ok t : P t -> P (child0 t) /\ snd t < snd (child0 t).
  Proof.
    destruct t as [[a b] c]. intros H. pose proof (P_bounds a b c H) as (B1 & B2 & B3 & B4 & _). destruct H as (_ & _ & E & Pr & Z0). unfold child0, snd. split; [|lia]. split; [lia|]. split; [lia|]. split; [lia|]. split; [|lia]. refine (primitive_lin a b c _ _ _ (-2) (-1) 2 1 2 (-2) (-2) (-2) 3 _ _ _ Pr); lia.
  Qed.
  Lemma child1_ok t : P t -> P (child1 t) /\ snd t < snd (child1 t).
  Proof.
    destruct t as [[a b] c]. intros H. pose proof (P_bounds a b c H) as (B1 & B2 & B3 & B4 & _). destruct H as (_ & _ & E & Pr & Z0). unfold child1, snd. split; [|lia]. split; [lia|]. split; [lia|]. split; [lia|]. split; [|lia]. refine (primitive_lin a b c _ _ _ 1 2 (-2) (-2) (-1) 2 (-2) (-2) 3 _ _ _ Pr); lia.
  Qed.
  Lemma child2_ok t : P t -> P (child2 t) /\ snd t < snd (child2 t).
  Proof.
    destruct t as [[a b] c]. intros H. pose proof (P_bounds a b c H) as (B1 & B2 & B3 & B4 & _). destruct H as (_ & _ & E & Pr & Z0). unfold child2, snd. split; [|lia]. split; [lia|]. split; [lia|]. split; [lia|]. split; [|lia]. refine (primitive_lin a b c _ _ _ 2 1 (-2) 1 2 (-2) (-2) (-2) 3 _ _ _ Pr); lia.
  Qed.
  Lemma kids_in n t s : P t -> In s (kids n t) -> P s /\ snd t < snd s <= n.
  Proof.
    intros H J. destruct t as [[a b] c] eqn:T. unfold kids in J. rewrite <- T in *. apply filter_In in J as (J & L). apply Z.leb_le in L. cbn [In] in J. rewrite in_app_iff in J. destruct J as [<-|[J|J]].
    - destruct (child0_ok t H). split; [assumption|lia].
    - destruct (a =? b); [contradiction|]. destruct J as [<-|[]]. destruct (child1_ok t H). split; [assumption|lia].
    - destruct (a =? 0); [contradiction|]. destruct J as [<-|[]]. destruct (child2_ok t H). split; [assumption|lia].
  Qed.
  Lemma kids_length n t : (length (kids n t) <= 3)%nat.
  Proof.
    destruct t as [[a b] c]. unfold kids. assert (F : forall (f : Z * Z * Z -> bool) l, (length (filter f l) <= length l)%nat) by (intros f l; induction l as [|x l IH]; [reflexivity|]; cbn [filter]; destruct (f x); cbn; lia). etransitivity; [apply F|]. destruct (a =? b), (a =? 0); cbn; lia.
  Qed.
  (** the triple and the way to it can be read off a child *)
  Definition up (t : Z * Z * Z) : Z * Z * Z :=
    let '(a, b, c) := t in let p := pof t in let q := qof t in (Z.min (Z.abs p) q, Z.max (Z.abs p) q, 3 * c - 2 * a - 2 * b).
  Lemma kids_up n t s : P t -> In s (kids n t) -> up s = t.
  Proof.
    intros H J. destruct t as [[a b] c]. unfold kids in J. pose proof (P_bounds a b c H) as (B1 & B2 & B3 & B4 & _). apply filter_In in J as (J & _). cbn [In] in J. rewrite in_app_iff in J. destruct J as [<-|[J|J]].
    - unfold up, child0, pof, qof. f_equal; [f_equal|]; lia.
    - destruct (Z.eqb_spec a b); [contradiction|]. destruct J as [<-|[]]. unfold up, child1, pof, qof. f_equal; [f_equal|]; lia.
    - destruct (Z.eqb_spec a 0); [contradiction|]. destruct J as [<-|[]]. unfold up, child2, pof, qof. f_equal; [f_equal|]; lia.
  Qed.
  Lemma kids_q n t s : P t -> In s (kids n t) -> 0 <= qof s.
  Proof.
    intros H J. pose proof (kids_up n t s H J) as U. destruct s as [[a b] c], t as [[a' b'] c']. pose proof (P_bounds a' b' c' H) as (B1 & _). unfold up, qof, pof in *. assert (U1 : Z.min (Z.abs (2 * a + b - 2 * c)) (a + 2 * b - 2 * c) = a') by congruence. lia.
  Qed.
  Lemma kids_nodup n t : P t -> NoDup (kids n t).
  Proof.
    intros H. destruct t as [[a b] c] eqn:T. unfold kids. apply NoDup_filter. pose proof (P_bounds a b c H) as (B1 & B2 & B3 & B4 & _).
    assert (N01 : a <> b -> child0 (a, b, c) <> child1 (a, b, c)) by (unfold child0, child1; intros N E; apply pair_equal_spec in E as (E & E3); apply pair_equal_spec in E as (E1 & E2); lia).
    assert (N02 : a <> 0 -> child0 (a, b, c) <> child2 (a, b, c)) by (unfold child0, child2; intros N E; apply pair_equal_spec in E as (E & E3); apply pair_equal_spec in E as (E1 & E2); lia).
    assert (N12 : a <> b -> child1 (a, b, c) <> child2 (a, b, c)) by (unfold child1, child2; intros N E; apply pair_equal_spec in E as (E & E3); apply pair_equal_spec in E as (E1 & E2); lia).
    destruct (Z.eqb_spec a b), (Z.eqb_spec a 0); cbn [app]; repeat constructor; cbn [In]; intuition congruence.
  Qed.
  (** every other triple has a parent *)
  Lemma up_ok n t : P t -> 0 <= qof t -> snd t <= n -> (let '(x, _, _) := up t in k <= 1 -> 0 < x) -> P (up t) /\ snd (up t) < snd t /\ In t (kids n (up t)).
  Proof.
    intros H Q L X0. destruct t as [[a b] c]. pose proof (P_bounds a b c H) as (B1 & B2 & B3 & B4 & B5). destruct H as (_ & _ & E & Pr & Z0). unfold up in *. set (t := (a, b, c)) in *. assert (Ep : pof t = 2 * a + b - 2 * c) by reflexivity. assert (Eq : qof t = a + 2 * b - 2 * c) by reflexivity. cbn [snd] in L.
    assert (PU : P (Z.min (Z.abs (pof t)) (qof t), Z.max (Z.abs (pof t)) (qof t), 3 * c - 2 * a - 2 * b)).
    { split; [lia|]. split; [lia|]. split; [|split; [|exact X0]].
      - assert (W : Z.min (Z.abs (pof t)) (qof t) * Z.min (Z.abs (pof t)) (qof t) + Z.max (Z.abs (pof t)) (qof t) * Z.max (Z.abs (pof t)) (qof t) = pof t * pof t + qof t * qof t) by (pose proof (Z.abs_square (pof t)); apply minmax_sq; assumption).
        rewrite W, Ep, Eq. lia.
      - intros d D1 D2 D3. assert (D : (d | pof t) /\ (d | qof t)) by (destruct (minmax_div d _ _ D1 D2) as (A & B); split; [now apply Z.divide_abs_r|exact B]).
        destruct D as (Dp & Dq). rewrite Ep in Dp. rewrite Eq in Dq. refine (primitive_lin a b c _ _ _ 2 1 2 1 2 2 2 2 3 _ _ _ Pr d Dp Dq D3); lia. }
    split; [exact PU|]. split; [|].
    - change (snd t) with c. cbn [snd]. assert (a = 0 \/ 1 <= a) as [A0|] by lia; [specialize (B4 A0)|]; lia.
    - unfold kids. assert (CH : (pof t <= 0 /\ - pof t <= qof t) \/ (pof t < 0 /\ qof t < - pof t) \/ 0 < pof t) by lia. apply filter_In. split; [|apply Z.leb_le; exact L]. destruct CH as [(C1 & C2)|[(C1 & C2)|C1]].
      + left. unfold child0. rewrite Z.min_l, Z.max_r by lia. rewrite Z.abs_neq by lia. rewrite Ep, Eq. unfold t. f_equal; [f_equal|]; lia.
      + right. apply in_app_iff. left. rewrite Z.min_r, Z.max_l by lia. rewrite Z.abs_neq by lia. destruct (Z.eqb_spec (qof t) (- pof t)); [lia|]. left. unfold child1. rewrite Ep, Eq. unfold t. f_equal; [f_equal|]; lia.
      + right. apply in_app_iff. right. assert (pof t <= qof t) by lia. rewrite Z.min_l, Z.max_r by lia. rewrite Z.abs_eq by lia. destruct (Z.eqb_spec (pof t) 0); [lia|]. left. unfold child2. rewrite Ep, Eq. unfold t. f_equal; [f_equal|]; lia.
  Qed.
End Tree.
