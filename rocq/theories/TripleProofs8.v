From Verif Require Import Lib BaseModel BaseProofs TripleModel TripleSpec TripleProofs TripleProofs2 TripleProofs6 TripleProofs7.
Open Scope Z_scope.

Section Root.
  Variable root : Z -> Z.
  Hypothesis HR : square_root root.
  Variable k : Z.
  Hypothesis Hk : 2 <= k.
  Notation P := (shifted_right k).
  Lemma Hk0 : 0 <= k. Proof. lia. Qed.

  (** the test for a generator *)
  Lemma generator_test a b c : 0 <= a <= b -> 0 < c -> a * a + b * b + k = c * c -> exists g, is_pythagorean_triple_generator (a, b, c) = Some g /\ (g = true <-> primitive (a, b, c) /\ qof (a, b, c) < 0).
  Proof.
    intros H1 H2 E. unfold is_pythagorean_triple_generator. destruct (is_primitive_ok a b c) as (p & Ep & Hp); [lia..|]. rewrite Ep. cbn [obind]. eexists. split; [reflexivity|]. rewrite andb_true_iff, Hp.
    assert (B5 : 2 * (a + b) < 3 * c). { assert (0 <= (a - b) * (a - b)) by apply Z.square_nonneg. apply (proj2 (sq_lt (2 * (a + b)) (3 * c) ltac:(lia) ltac:(lia))). assert (0 < c * c) by (apply Z.mul_pos_pos; lia). lia. }
    assert (F : forallb (fun m => min_element (next_pythagorean_triple m (a, b, c)) <? 0) inverse_matrices = true <-> qof (a, b, c) < 0); [|rewrite F; reflexivity].
    unfold inverse_matrices, next_pythagorean_triple, row, min_element, qof. cbn [forallb]. rewrite !andb_true_iff, !Z.ltb_lt. lia.
  Qed.
  Lemma generator_bounds a b c : P (a, b, c) -> qof (a, b, c) < 0 -> a <= root k * 2 /\ b <= Z.quot k (Z.max a 1) + a.
  Proof.
    intros H Q. pose proof (q_neg k Hk0 a b c H Q) as W. pose proof (P_bounds k Hk0 a b c H) as (B1 & B2 & B3 & _). destruct H as (_ & _ & E & _). destruct (proj1 HR k ltac:(lia)) as (R0 & R1 & R2). set (s := root k) in *. unfold qof in Q. split.
    - destruct (Z_le_gt_dec a (s * 2)); [assumption|]. exfalso. assert (A2 : a * a <= a * (4 * b - 3 * a)) by (apply Z.mul_le_mono_nonneg_l; lia).
      assert (a < 2 * (s + 1)) by (apply (proj2 (sq_lt a (2 * (s + 1)) ltac:(lia) ltac:(lia))); lia). assert (Ea : a = 2 * s + 1) by lia.
      assert ((a + 2 * b + 1) * (a + 2 * b + 1) <= (2 * c) * (2 * c)) by (apply Z.mul_le_mono_nonneg; lia). assert (a * a <= a * b) by (apply Z.mul_le_mono_nonneg_l; lia). assert (Ea2 : a * a = (2 * s + 1) * (2 * s + 1)) by (rewrite Ea; reflexivity). lia.
    - rewrite Z.quot_div_nonneg by lia. destruct (Z.eq_dec a 0) as [->|].
      + change (Z.max 0 1) with 1. rewrite Z.div_1_r. assert ((b + 1) * (b + 1) <= c * c) by (apply Z.mul_le_mono_nonneg; lia). assert (0 <= b * b) by (apply Z.mul_nonneg_nonneg; lia). lia.
      + rewrite Z.max_l by lia. assert (b - a <= k / a); [|lia]. apply Z.div_le_lower_bound; [lia|]. assert (0 < a * a) by (apply Z.mul_pos_pos; lia). lia.
  Qed.
  Definition gen_cell (a b : Z) : list (Z * Z * Z) :=
    let c := root (a * a + b * b + k) in
    if c * c =? a * a + b * b + k then match is_pythagorean_triple_generator (a, b, c) with Some true => [(a, b, c)] | _ => [] end else [].
  Lemma gen_cell_in a b t : 0 <= a <= b -> In t (gen_cell a b) <-> exists c, t = (a, b, c) /\ P t /\ qof t < 0.
  Proof.
    intros H. assert (0 <= a * a) by (apply Z.mul_nonneg_nonneg; lia). assert (0 <= b * b) by (apply Z.mul_nonneg_nonneg; lia). destruct (proj1 HR (a * a + b * b + k) ltac:(lia)) as (R0 & R1 & R2). unfold gen_cell. set (c := root (a * a + b * b + k)) in *.
    assert (Cp : 0 < c) by (destruct (Z.eq_dec c 0) as [W|]; [rewrite W in R2; lia|lia]). split.
    - destruct (Z.eqb_spec (c * c) (a * a + b * b + k)) as [E|]; [|intros []]. destruct (generator_test a b c H Cp) as (g & G & Hg); [lia|]. rewrite G. destruct g; [|intros []]. intros [<-|[]]. destruct Hg as (Hg & _). destruct (Hg eq_refl) as (Pr & Q). exists c. split; [reflexivity|]. split; [|exact Q]. split; [lia|]. split; [lia|]. split; [lia|]. split; [exact Pr|lia].
    - intros (c' & -> & Pt & Q). destruct Pt as (_ & C' & E & Pr & _). assert (c' = c). { destruct (Z.lt_trichotomy c c') as [L|[L|L]]; [|lia|]. - assert ((c + 1) * (c + 1) <= c' * c') by (apply Z.mul_le_mono_nonneg; lia). lia. - assert (c' * c' < c * c) by (apply Z.mul_lt_mono_nonneg; lia). lia. }
      subst c'. destruct (Z.eqb_spec (c * c) (a * a + b * b + k)); [|lia]. destruct (generator_test a b c H Cp E) as (g & G & Hg). rewrite G. assert (Gt : g = true) by (apply Hg; auto). rewrite Gt. now left.
  Qed.
  Lemma gen_cell_nodup a b : NoDup (gen_cell a b).
  Proof. unfold gen_cell. destruct (_ =? _); [|constructor]. destruct (is_pythagorean_triple_generator _) as [[|]|]; repeat constructor. intros []. Qed.
  Lemma generators_run : exists G, pythagorean_triples_generators root k = Some G /\ NoDup G /\ (forall t, In t G <-> P t /\ qof t < 0).
  Proof.
    set (G := flat_map (fun a => flat_map (gen_cell a) (zrange a (Z.quot k (Z.max a 1) + a) 1)) (zrange 0 (root k * 2) 1)). exists G. split; [|split].
    - unfold pythagorean_triples_generators. destruct (Z.eqb_spec k 0); [lia|]. destruct (Z.eqb_spec k 1); [lia|]. destruct (Z.leb_spec 2 k); [|lia]. unfold G. change (flat_map ?f ?l) with ([] ++ flat_map f l). apply zfor_app; [lia|]. intros a acc Ha _. unfold cdiv. destruct (Z.eqb_spec (Z.max a 1) 0); [lia|]. cbn [obind]. apply zfor_app; [lia|].
      intros b acc' Hb _. unfold gen_cell. change (sqT a) with (a * a). change (sqT b) with (b * b). change (sqT (root (a * a + b * b + k))) with (root (a * a + b * b + k) * root (a * a + b * b + k)). assert (0 <= a * a) by (apply Z.mul_nonneg_nonneg; lia). assert (0 <= b * b) by (apply Z.mul_nonneg_nonneg; lia). destruct (proj1 HR (a * a + b * b + k) ltac:(lia)) as (R0 & R1 & R2). destruct (Z.eqb_spec (root (a * a + b * b + k) * root (a * a + b * b + k)) (a * a + b * b + k)) as [E|]; [|now rewrite app_nil_r].
      destruct (generator_test a b (root (a * a + b * b + k))) as (g & Gt & _); [lia| |lia|]. { destruct (Z.eq_dec (root (a * a + b * b + k)) 0) as [W|]; [rewrite W in E; lia|lia]. } rewrite Gt. cbn [obind]. destruct g; [reflexivity|now rewrite app_nil_r].
    - unfold G. apply NoDup_flat_map; [apply zrange_nodup; lia| |].
      + intros a I. rewrite zrange_in in I by lia. apply NoDup_flat_map; [apply zrange_nodup; lia|intros; apply gen_cell_nodup|]. intros b b' t I1 I2 J1 J2. rewrite zrange_in in I1, I2 by lia. apply gen_cell_in in J1 as (c & -> & _); [|lia]. apply gen_cell_in in J2 as (c' & E & _); [|lia]. congruence.
      + intros a a' t I1 I2 J1 J2. rewrite zrange_in in I1, I2 by lia. apply in_flat_map in J1 as (b & Ib & J1), J2 as (b' & Ib' & J2). rewrite zrange_in in Ib, Ib' by lia. apply gen_cell_in in J1 as (c & -> & _); [|lia]. apply gen_cell_in in J2 as (c' & E & _); [|lia]. congruence.
    - intros t. unfold G. rewrite in_flat_map. split.
      + intros (a & Ia & J). rewrite zrange_in in Ia by lia. apply in_flat_map in J as (b & Ib & J). rewrite zrange_in in Ib by lia. apply gen_cell_in in J as (c & -> & X); [exact X|lia].
      + intros (Pt & Q). destruct t as [[a b] c]. destruct (generator_bounds a b c Pt Q) as (B1 & B2). pose proof (P_bounds k Hk0 a b c Pt) as (B & _). exists a. split; [rewrite zrange_in by lia; split; [lia|apply Z.divide_1_l]|]. apply in_flat_map. exists b. split; [rewrite zrange_in by lia; split; [lia|apply Z.divide_1_l]|]. apply gen_cell_in; [lia|]. exists c. auto.
  Qed.
  Lemma roots_k G : NoDup G -> (forall t, In t G <-> P t /\ qof t < 0) -> roots k G /\ complete k G.
  Proof.
    intros ND H. split.
    - split; [exact ND|]. split; [intros t I; now apply H in I|]. intros t n s I Ps J. apply H in I as (_ & Q). pose proof (kids_q k Hk0 n s t Ps J). lia.
    - intros t Pt. destruct (Z_lt_le_dec (qof t) 0); [left; apply H; auto|right; split; [assumption|]]. destruct (up t) as [[x y] z]. lia.
  Qed.
End Root.

Theorem tree_run root k n : square_root root -> 0 <= k -> exists G vt, pythagorean_triples_generators root k = Some G /\ generate_pythagorean_triples n G = Some vt /\
  NoDup vt /\ (forall t, snd t <= n -> (In t vt <-> shifted_right k t)) /\ (forall t, In t vt -> n < snd t -> In t G) /\ (forall t, In t G -> shifted_right k t /\ In t vt) /\ (forall t s m, In t G -> shifted_right k s -> In m tree_matrices -> next_pythagorean_triple m s <> t).
Proof.
  intros HR Hk. assert (R : exists G, pythagorean_triples_generators root k = Some G /\ roots k G /\ complete k G /\ (forall t, In t G -> 2 <= k -> qof t < 0)).
  { assert (k = 0 \/ k = 1 \/ 2 <= k) as [->|[->|K]] by lia; [exists [(3, 4, 5)]|exists [(2, 2, 3)]|].
    - destruct roots_0. split; [reflexivity|]. split; [assumption|]. split; [assumption|]. lia.
    - destruct roots_1. split; [reflexivity|]. split; [assumption|]. split; [assumption|]. lia.
    - destruct (generators_run root HR k K) as (G & E & ND & H). exists G. destruct (roots_k k K G ND H). split; [exact E|]. split; [assumption|]. split; [assumption|]. intros t I _. now apply H in I. }
  destruct R as (G & E & RG & CG & QG). destruct (generate_run k Hk n G RG) as (vt & EV & F & ND & HP). exists G, vt. split; [exact E|]. split; [exact EV|]. split; [exact ND|]. split; [|split; [|split]].
  - intros t L. split; [apply HP|]. intros Pt. exact (generate_complete k Hk n G vt CG F (S (Z.to_nat (snd t))) t ltac:(lia) Pt L).
  - intros t I L. rewrite F in I. apply in_app_iff in I as [I|I]; [exact I|]. apply in_flat_map in I as (s & Is & I). destruct (kids_in k Hk n s t (HP s Is) I). lia.
  - intros t I. split; [now apply RG|]. rewrite F. apply in_app_iff. now left.
  - intros t s m I Ps Im Eq. destruct RG as (_ & _ & N). apply (N t (snd t) s I Ps). destruct s as [[a b] c]. unfold kids. apply filter_In. split; [|apply Z.leb_refl]. destruct Im as [<-|[<-|[<-|[]]]].
    + left. rewrite <- Eq. unfold next_pythagorean_triple, row, child0. rewrite !pair_equal_spec. repeat split; lia.
    + destruct (Z.eqb_spec a b) as [->|]; [left|right; left]; rewrite <- Eq; unfold next_pythagorean_triple, row, child0, child1; rewrite !pair_equal_spec; repeat split; lia.
    + destruct (Z.eqb_spec a 0) as [->|]; [left|right; apply in_app_iff; right; left]; rewrite <- Eq; unfold next_pythagorean_triple, row, child0, child2; rewrite !pair_equal_spec; repeat split; lia.
Qed.
