From Verif Require Import Lib BaseModel BaseProofs TripleModel TripleSpec TripleProofs TripleProofs2 TripleProofs6.
Open Scope Z_scope.

Lemma nodup_prefix {A} (l1 l2 : list A) : NoDup (l1 ++ l2) -> NoDup l1.
Proof. induction l1 as [|x l1 IH]; intros H; [constructor|]. cbn [app] in H. inversion H as [|? ? N1 N2]; subst. constructor; [intros J; apply N1, in_app_iff; now left|auto]. Qed.
Section Tree.
  Variable k : Z.
  Hypothesis Hk : 0 <= k.
  Notation P := (shifted_right k).

  Lemma max_ok t : P t -> max_element t = snd t.
  Proof. destruct t as [[a b] c]. intros H. pose proof (P_bounds k Hk a b c H) as (B1 & B2 & _). unfold max_element. cbn [snd]. lia. Qed.
  Lemma prim_ok t : P t -> is_primitive t = Some true.
  Proof. destruct t as [[a b] c]. intros H. pose proof (P_bounds k Hk a b c H) as (B1 & B2 & _). destruct (is_primitive_ok a b c) as (p & E & Hp); [lia..|]. rewrite E. f_equal. apply Hp. apply H. Qed.
  Lemma one_child n t' vt : P t' -> (if max_element t' <=? n then let* p := is_primitive t' in if p then Some (vt ++ [t']) else Some vt else Some vt) = Some (vt ++ filter (fun s => snd s <=? n) [t']).
  Proof. intros H. rewrite (max_ok t' H), (prim_ok t' H). cbn [filter obind]. destruct (snd t' <=? n); [reflexivity|now rewrite app_nil_r]. Qed.
  Lemma tree_step_run n t vt : P t -> tree_step n t vt = Some (vt ++ kids n t).
  Proof.
    intros H. pose proof (proj1 (child0_ok k Hk t H)) as P0. pose proof (proj1 (child1_ok k Hk t H)) as P1. pose proof (proj1 (child2_ok k Hk t H)) as P2.
    destruct t as [[a b] c] eqn:T. unfold tree_step, for_range. cbn [Nat.sub for_n Nat.eqb andb nth_error tree_matrices obind].
    assert (E0 : next_pythagorean_triple ((-2, 1, 2), (-1, 2, 2), (-2, 2, 3)) (a, b, c) = child0 (a, b, c)) by (unfold next_pythagorean_triple, row, child0; rewrite !pair_equal_spec; repeat split; lia).
    assert (E1 : next_pythagorean_triple ((1, -2, 2), (2, -1, 2), (2, -2, 3)) (a, b, c) = child1 (a, b, c)) by (unfold next_pythagorean_triple, row, child1; rewrite !pair_equal_spec; repeat split; lia).
    assert (E2 : next_pythagorean_triple ((2, 1, 2), (1, 2, 2), (2, 2, 3)) (a, b, c) = child2 (a, b, c)) by (unfold next_pythagorean_triple, row, child2; rewrite !pair_equal_spec; repeat split; lia).
    rewrite E0, one_child by exact P0. cbn [obind].
    destruct (a =? b) eqn:AB; cbn [obind]; [|rewrite E1, one_child by exact P1; cbn [obind]]; (destruct (a =? 0) eqn:A0; cbn [obind]; [|rewrite E2, one_child by exact P2; cbn [obind]]); f_equal; unfold kids; rewrite AB, A0; cbn [app filter]; destruct (snd (child0 (a, b, c)) <=? n); rewrite ?app_nil_r, <- ?app_assoc; cbn [app]; try reflexivity; destruct (snd (child1 (a, b, c)) <=? n); rewrite ?app_nil_r; cbn [app]; try reflexivity.
  Qed.

  (** ** the walk *)
  Definition roots (G : list (Z * Z * Z)) : Prop := NoDup G /\ (forall t, In t G -> P t) /\ (forall t n s, In t G -> P s -> In t (kids n s) -> False).
  Definition weight (n : Z) (l : list (Z * Z * Z)) : Z := fold_right (fun t r => 4 ^ (Z.max (n - snd t) 0 + 1) + r) 0 l.
  Lemma weight_app n l1 l2 : weight n (l1 ++ l2) = weight n l1 + weight n l2.
  Proof. unfold weight. induction l1 as [|x l1 IH]; [reflexivity|]. cbn [app fold_right]. rewrite IH. lia. Qed.
  Lemma weight_nonneg n l : 0 <= weight n l.
  Proof. unfold weight. induction l as [|x l IH]; [reflexivity|]. cbn [fold_right]. pose proof (Z.pow_nonneg 4 (Z.max (n - snd x) 0 + 1) ltac:(lia)). lia. Qed.
  Lemma weight_le n l B : (forall t, In t l -> 4 ^ (Z.max (n - snd t) 0 + 1) <= B) -> weight n l <= Z.of_nat (length l) * B.
  Proof. unfold weight. induction l as [|x l IH]; intros H; [reflexivity|]. cbn [fold_right length]. pose proof (H x (or_introl eq_refl)). assert (forall t, In t l -> 4 ^ (Z.max (n - snd t) 0 + 1) <= B) as H' by (intros; apply H; now right). specialize (IH H'). lia. Qed.
  Lemma kids_weight n t : P t -> weight n (kids n t) < 4 ^ (Z.max (n - snd t) 0 + 1).
  Proof.
    intros H. set (e := Z.max (n - snd t) 0). assert (0 <= e) by lia. rewrite Z.pow_add_r by lia. pose proof (Z.pow_pos_nonneg 4 e ltac:(lia) ltac:(lia)).
    assert (W : weight n (kids n t) <= Z.of_nat (length (kids n t)) * 4 ^ e). { apply weight_le. intros s I. destruct (kids_in k Hk n t s H I) as (_ & B). apply Z.pow_le_mono_r; lia. }
    pose proof (kids_length n t). assert (Z.of_nat (length (kids n t)) * 4 ^ e <= 3 * 4 ^ e) by (apply Z.mul_le_mono_nonneg_r; lia). lia.
  Qed.
  Lemma firstn_last {A} i (l : list A) t : nth_error l i = Some t -> firstn (S i) l = firstn i l ++ [t].
  Proof. revert i. induction l as [|x l IH]; intros [|i] E; cbn in E; try discriminate; [now injection E as ->|]. change (firstn (S (S i)) (x :: l)) with (x :: firstn (S i) l). rewrite (IH i E). reflexivity. Qed.
  Lemma skipn_cons {A} i (l : list A) t : nth_error l i = Some t -> skipn i l = t :: skipn (S i) l.
  Proof. revert i. induction l as [|x l IH]; intros [|i] E; cbn in E; try discriminate; [now injection E as ->|]. cbn. apply (IH i E). Qed.
  Lemma walk_nodup n G l : roots G -> NoDup l -> (forall t, In t l -> P t) -> NoDup (G ++ flat_map (kids n) l).
  Proof.
    intros (N1 & N2 & N3) ND HP. apply NoDup_app'; [exact N1| |].
    - apply NoDup_flat_map; [exact ND|intros t I; apply (kids_nodup k Hk); auto|]. intros s t u I J K1 K2. rewrite <- (kids_up k Hk n s u), <- (kids_up k Hk n t u); auto.
    - intros t I J. apply in_flat_map in J as (s & Is & J). exact (N3 t n s I (HP s Is) J).
  Qed.
  Lemma generate_run n G : roots G -> exists vt, generate_pythagorean_triples n G = Some vt /\ vt = G ++ flat_map (kids n) vt /\ NoDup vt /\ (forall t, In t vt -> P t).
  Proof.
    intros HG. unfold generate_pythagorean_triples.
    set (Inv := fun '(i, vt) => (i <= length vt)%nat /\ vt = G ++ flat_map (kids n) (firstn i vt) /\ NoDup vt /\ (forall t, In t vt -> P t)).
    set (Post := fun vt => vt = G ++ flat_map (kids n) vt /\ NoDup vt /\ (forall t, In t vt -> P t)).
    apply (loopZ_spec (fun '(i, vt) => match nth_error vt i with None => Some (inr vt) | Some t => let* vt := tree_step n t vt in Some (inl ((i + 1)%nat, vt)) end) Inv Post (fun '(i, vt) => weight n (skipn i vt))) with (fuel := (Z.of_nat (length G) + 1) * 4 ^ (Z.max n 0 + 2)) (s := (O, G)).
    - intros [i vt] (Hi & E & ND & HP). destruct (nth_error vt i) as [t|] eqn:T.
      + assert (It : In t vt) by (eapply nth_error_In; exact T). rewrite (tree_step_run n t vt (HP t It)). cbn [obind]. assert (Li : (i < length vt)%nat) by (apply nth_error_Some; congruence). eexists. split; [reflexivity|]. replace (i + 1)%nat with (S i) by lia. assert (F : firstn (S i) (vt ++ kids n t) = firstn i vt ++ [t]) by (rewrite firstn_app; replace (S i - length vt)%nat with O by lia; cbn [firstn]; rewrite app_nil_r; apply firstn_last; exact T).
        assert (E' : vt ++ kids n t = G ++ flat_map (kids n) (firstn i vt ++ [t])) by (rewrite flat_map_app; cbn [flat_map]; rewrite app_nil_r, app_assoc, <- E; reflexivity). split.
        * unfold Inv. split; [rewrite app_length; lia|]. split; [rewrite F; exact E'|]. split.
          -- rewrite E', <- F. rewrite firstn_app. replace (S i - length vt)%nat with O by lia. cbn [firstn]. rewrite app_nil_r. apply walk_nodup; [exact HG| |].
             ++ rewrite <- (firstn_skipn (S i) vt) in ND. exact (nodup_prefix _ _ ND).
             ++ intros s I. apply HP. rewrite <- (firstn_skipn (S i) vt). apply in_app_iff. now left.
          -- intros s I. apply in_app_iff in I as [I|I]; [now apply HP|]. apply (kids_in k Hk n t s (HP t It) I).
        * change (weight n (skipn (S i) (vt ++ kids n t)) < weight n (skipn i vt)). rewrite skipn_app. replace (S i - length vt)%nat with O by lia. change (skipn 0 (kids n t)) with (kids n t). rewrite weight_app. rewrite (skipn_cons i vt t T). pose proof (kids_weight n t (HP t It)). change (weight n (t :: skipn (S i) vt)) with (4 ^ (Z.max (n - snd t) 0 + 1) + weight n (skipn (S i) vt)). cbn beta. lia.
      + eexists. split; [reflexivity|]. apply nth_error_None in T. rewrite firstn_all2 in E by lia. split; [exact E|]. split; assumption.
    - intros [i vt] _. apply weight_nonneg.
    - destruct HG as (N1 & N2 & _). split; [lia|]. cbn [firstn flat_map]. rewrite app_nil_r. auto.
    - change (weight n G < (Z.of_nat (length G) + 1) * 4 ^ (Z.max n 0 + 2)). assert (W : weight n G <= Z.of_nat (length G) * 4 ^ (Z.max n 0 + 2)). { apply weight_le. intros [[a b] c] I. destruct HG as (_ & HP & _). destruct (HP _ I) as (_ & Hc & _). cbn [snd]. apply Z.pow_le_mono_r; lia. } pose proof (Z.pow_pos_nonneg 4 (Z.max n 0 + 2) ltac:(lia) ltac:(lia)). cbn beta. lia.
  Qed.
  (** all triples up to n are found when the list of roots is complete *)
  Definition complete (G : list (Z * Z * Z)) : Prop := forall t, P t -> In t G \/ (0 <= qof t /\ let '(x, _, _) := up t in k <= 1 -> 0 < x).
  Lemma generate_complete n G vt : complete G -> vt = G ++ flat_map (kids n) vt -> forall m t, (Z.to_nat (snd t) < m)%nat -> P t -> snd t <= n -> In t vt.
  Proof.
    intros HC E m. induction m as [|m IH]; intros t Hm Pt L; [lia|]. rewrite E. apply in_app_iff. destruct (HC t Pt) as [I|(Q & X)]; [now left|]. right.
    destruct (up_ok k Hk n t Pt Q L X) as (PU & LU & IU). apply in_flat_map. exists (up t). split; [|exact IU]. apply IH; [|exact PU|lia]. assert (0 < snd (up t)) by (destruct (up t) as [[x y] z]; apply PU). lia.
  Qed.

  (** ** the roots *)
  Lemma q_neg a b c : P (a, b, c) -> qof (a, b, c) < 0 -> a * (4 * b - 3 * a) < 4 * k.
  Proof. intros H Q. pose proof (P_bounds k Hk a b c H) as (B1 & B2 & _). destruct H as (_ & _ & E & _). unfold qof in Q. assert ((a + 2 * b) * (a + 2 * b) < (2 * c) * (2 * c)) by (apply (proj1 (sq_lt (a + 2 * b) (2 * c) ltac:(lia) ltac:(lia))); lia). lia. Qed.
  Lemma up_form a b c : P (a, b, c) -> 0 <= qof (a, b, c) -> exists x y z, up (a, b, c) = (x, y, z) /\ 0 <= x <= y /\ 0 < z /\ x * x + y * y + k = z * z /\ primitive (x, y, z) /\ (x = 0 -> (a, b, c) = child0 (0, y, z) \/ (y <> 0 /\ (a, b, c) = child1 (0, y, z))).
  Proof.
    intros H Q. pose proof (P_bounds k Hk a b c H) as (B1 & B2 & B3 & B4 & B5). destruct H as (_ & _ & E & Pr & _). assert (Ep : pof (a, b, c) = 2 * a + b - 2 * c) by reflexivity. assert (Eq : qof (a, b, c) = a + 2 * b - 2 * c) by reflexivity. unfold up. rewrite Ep, Eq in *. set (p := 2 * a + b - 2 * c) in *. set (q := a + 2 * b - 2 * c) in *. exists (Z.min (Z.abs p) q), (Z.max (Z.abs p) q), (3 * c - 2 * a - 2 * b). split; [reflexivity|]. split; [lia|]. split; [lia|]. split; [|split].
    - rewrite (minmax_sq (Z.abs p) q (p * p)) by apply Z.abs_square. unfold p, q. lia.
    - intros d D1 D2 D3. destruct (minmax_div d _ _ D1 D2) as (A & B). apply (proj1 (Z.divide_abs_r d p)) in A. refine (primitive_lin a b c _ _ _ 2 1 2 1 2 2 2 2 3 _ _ _ Pr d A B D3); unfold p, q; lia.
    - intros X. assert (C : Z.abs p = 0 \/ (Z.abs p <> 0 /\ q = 0)) by lia. destruct C as [C|(C & Cq)].
      + left. assert (p = 0) by lia. rewrite C, Z.max_r by lia. unfold child0. unfold p, q in *. f_equal; [f_equal|]; lia.
      + right. rewrite Z.max_l by lia. split; [lia|]. unfold child1. assert (Z.abs p = - p) by (unfold p, q in *; lia). unfold p, q in *. f_equal; [f_equal|]; lia.
  Qed.
End Tree.
Lemma mul_self_pos x : 0 < x -> x <= x * x.
Proof. intros. nia. Qed.
Lemma roots_0 : roots 0 [(3, 4, 5)] /\ complete 0 [(3, 4, 5)].
Proof.
  assert (H0 : 0 <= 0) by lia. split.
  - split; [repeat constructor; intros []|]. assert (P5 : shifted_right 0 (3, 4, 5)). { split; [lia|]. split; [lia|]. split; [reflexivity|]. split; [apply primitive_of_gcd; reflexivity|lia]. } split.
    + intros t [<-|[]]. exact P5.
    + intros t n s [<-|[]] Ps I. pose proof (kids_up 0 H0 n s _ Ps I) as U. vm_compute in U. subst s. destruct Ps as (_ & _ & _ & _ & X). lia.
  - intros [[a b] c] H. pose proof (P_bounds 0 H0 a b c H) as (B1 & B2 & B3 & B4 & _). assert (A0 : 0 < a) by (apply H; lia).
    destruct (Z_lt_le_dec (qof (a, b, c)) 0) as [Q|Q]. { apply (q_neg 0 H0) in Q; [|exact H]. assert (0 < a * (4 * b - 3 * a)) by (apply Z.mul_pos_pos; lia). lia. }
    destruct (up_form 0 H0 a b c H Q) as (x & y & z & U & X1 & X2 & X3 & X4 & X5). destruct (Z.eq_dec x 0) as [->|]; [|right; split; [exact Q|]; rewrite U; lia]. left.
    assert (z = y) by (apply sq_inj; lia). subst z. assert (y = 1). { assert (D : (y | 1)) by (apply X4; [apply Z.divide_0_r|apply Z.divide_refl|apply Z.divide_refl]). apply Z.divide_1_r in D. lia. } subst y. destruct (X5 eq_refl) as [->|(_ & X)]; [now left|]. exfalso. assert (a = 0) by (unfold child1 in X; apply pair_equal_spec in X as (X & _); apply pair_equal_spec in X as (X & _); lia). lia.
Qed.
Lemma roots_1 : roots 1 [(2, 2, 3)] /\ complete 1 [(2, 2, 3)].
Proof.
  assert (H0 : 0 <= 1) by lia. split.
  - split; [repeat constructor; intros []|]. assert (P5 : shifted_right 1 (2, 2, 3)). { split; [lia|]. split; [lia|]. split; [reflexivity|]. split; [|lia]. intros d D1 _ D3. replace 1 with (3 - 2) by lia. now apply Z.divide_sub_r. } split.
    + intros t [<-|[]]. exact P5.
    + intros t n s [<-|[]] Ps I. pose proof (kids_up 1 H0 n s _ Ps I) as U. vm_compute in U. subst s. destruct Ps as (_ & _ & _ & _ & X). lia.
  - intros [[a b] c] H. pose proof (P_bounds 1 H0 a b c H) as (B1 & B2 & B3 & B4 & _). assert (A0 : 0 < a) by (apply H; lia).
    destruct (Z_lt_le_dec (qof (a, b, c)) 0) as [Q|Q].
    { exfalso. apply (q_neg 1 H0) in Q; [|exact H]. assert (a * a <= a * (4 * b - 3 * a)) by (apply Z.mul_le_mono_nonneg_l; lia). assert (a = 1) by (destruct (Z_le_gt_dec a 1); [lia|]; assert (2 * 2 <= a * a) by (apply Z.mul_le_mono_nonneg; lia); lia). subst a. assert (b = 1) by lia. subst b. destruct H as (_ & _ & E & _). assert (c = 1 \/ 2 <= c) as [->|] by lia; [lia|]. assert (2 * 2 <= c * c) by (apply Z.mul_le_mono_nonneg; lia). lia. }
    destruct (up_form 1 H0 a b c H Q) as (x & y & z & U & X1 & X2 & X3 & X4 & X5). destruct (Z.eq_dec x 0) as [->|]; [|right; split; [exact Q|]; rewrite U; lia]. left.
    assert (Y : y = 0). { destruct (Z.eq_dec y 0); [assumption|]. assert (y < z) by (apply (proj2 (sq_lt y z ltac:(lia) ltac:(lia))); lia). assert ((y + 1) * (y + 1) <= z * z) by (apply Z.mul_le_mono_nonneg; lia). lia. } subst y. assert (z = 1) by (apply sq_inj; lia). subst z. destruct (X5 eq_refl) as [->|(W & _)]; [now left|lia].
Qed.
