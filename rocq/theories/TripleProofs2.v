From Coq Require Import Znumtheory.
From Verif Require Import Lib BaseModel BaseProofs TripleModel TripleSpec TripleProofs.
Open Scope Z_scope.

Lemma prime_2_only p : prime p -> (p | 2) -> p = 2.
Proof. intros P D. pose proof (prime_ge_2 p P). apply Z.divide_pos_le in D; lia. Qed.
Lemma gcd_ok a b : 0 <= a -> 0 <= b -> gcd a b = Some (Z.gcd a b).
Proof. apply gcd_nonneg. Qed.
Lemma primitive_of_gcd a b c : Z.gcd a b = 1 -> primitive (a, b, c).
Proof. intros G d Da Db _. rewrite <- G. now apply Z.gcd_greatest. Qed.

Lemma sq_inj x y : 0 <= x -> 0 <= y -> x * x = y * y -> x = y.
Proof. intros. assert (E : (x - y) * (x + y) = 0) by lia. apply Z.mul_eq_0 in E. lia. Qed.
Lemma sq_lt x y : 0 <= x -> 0 <= y -> (x < y <-> x * x < y * y).
Proof. intros. split; intros; nia. Qed.
(** ** right triangles *)
Definition sortT (a b c : Z) : Z * Z * Z := if b <? a then (b, a, c) else (a, b, c).
Definition pyth (m n : Z) : Z * Z * Z := sortT (m * m - n * n) (m * n * 2) (m * m + n * n).
Definition pyth_pair (m n : Z) : Prop := 1 <= n < m /\ Z.odd (m - n) = true /\ Z.gcd m n = 1.
Lemma odd_form z : Z.odd z = true -> exists j, z = 2 * j + 1.
Proof. intros H. apply Z.odd_spec in H as [j E]. now exists j. Qed.
Lemma pyth_coprime m n : pyth_pair m n -> Z.gcd (m * m - n * n) (m * n * 2) = 1.
Proof.
  intros (H1 & H2 & G). apply odd_form in H2 as [j Hj]. apply gcd_one_prime. intros p P D1 D2. pose proof (prime_ge_2 p P).
  assert (NO : ~ ((p | m) /\ (p | n))). { intros (A & B). assert (D : (p | 1)) by (rewrite <- G; now apply Z.gcd_greatest). apply Z.divide_pos_le in D; lia. }
  assert (X : (p | m) <-> (p | n)). { split; intros D; apply prime_sq_divide; auto; [replace (n * n) with (m * m - (m * m - n * n)) by lia|replace (m * m) with ((m * m - n * n) + n * n) by lia]; [apply Z.divide_sub_r|apply Z.divide_add_r]; auto; now apply Z.divide_mul_l. }
  apply prime_mult in D2 as [D2|D2]; [| |exact P].
  - apply prime_mult in D2 as [D2|D2]; [| |exact P]; tauto.
  - apply prime_2_only in D2; [|exact P]. subst p. destruct D1 as [w Hw]. assert (m = n + 2 * j + 1) by lia. subst m. lia.
Qed.
Lemma pyth_right m n : pyth_pair m n -> right_triangle (pyth m n) /\ primitive (pyth m n) /\ snd (pyth m n) = m * m + n * n.
Proof.
  intros H. pose proof (pyth_coprime m n H) as G. destruct H as (H1 & H2 & _). apply odd_form in H2 as [j Hj]. assert (N : m * m - n * n <> m * n * 2) by (assert (m = n + 2 * j + 1) by lia; subst m; lia).
  unfold pyth, sortT. destruct (Z.ltb_spec (m * n * 2) (m * m - n * n)); cbn [snd]; (split; [|split; [|reflexivity]]).
  - unfold right_triangle. repeat split; nia.
  - apply primitive_of_gcd. now rewrite Z.gcd_comm.
  - unfold right_triangle. repeat split; nia.
  - now apply primitive_of_gcd.
Qed.
Lemma pyth_inj m n m' n' : pyth_pair m n -> pyth_pair m' n' -> pyth m n = pyth m' n' -> m = m' /\ n = n'.
Proof.
  intros (H1 & H2 & _) (H1' & H2' & _) E. apply odd_form in H2 as [j Hj], H2' as [j' Hj']. unfold pyth, sortT in E.
  assert (X : m * m + n * n = m' * m' + n' * n' /\ m * m - n * n = m' * m' - n' * n').
  { assert (Nx : m * m - n * n <> m' * n' * 2) by (assert (m = n + 2 * j + 1) by lia; subst m; lia). assert (Ny : m' * m' - n' * n' <> m * n * 2) by (assert (m' = n' + 2 * j' + 1) by lia; subst m'; lia).
    destruct (Z.ltb_spec (m * n * 2) (m * m - n * n)), (Z.ltb_spec (m' * n' * 2) (m' * m' - n' * n')); injection E as E1 E2 E3; split; try lia. }
  destruct X as (X1 & X2). assert (m * m = m' * m') by lia. assert (n * n = n' * n') by lia. split; apply sq_inj; lia.
Qed.
Lemma pyth_complete_odd x y c : 0 < x -> 0 < y -> 0 < c -> x * x + y * y = c * c -> Z.gcd x y = 1 -> Z.odd x = true -> Z.odd y = false -> exists m n, pyth_pair m n /\ x = m * m - n * n /\ y = m * n * 2 /\ c = m * m + n * n.
Proof.
  intros Hx Hy Hc E G Ox Oy. apply odd_form in Ox as [i Ei]. assert (Ey : exists w, y = 2 * w) by (rewrite <- Z.negb_even in Oy; apply negb_false_iff, Z.even_spec in Oy as [w Ew]; now exists w). destruct Ey as [w Ew].
  assert (Oc : exists k, c = 2 * k + 1). { destruct (Z.Even_or_Odd c) as [[k K]|[k K]]; [exfalso; subst; nia|now exists k]. } destruct Oc as [k Ek].
  assert (Cx : x < c) by (apply sq_lt; [lia|lia|]; assert (0 < y * y) by (apply Z.mul_pos_pos; lia); lia). set (u := k + i + 1). set (v := k - i). assert (Euv : u * v = w * w) by (unfold u, v; subst; nia). assert (Hu : 0 < u) by (unfold u; lia). assert (Hv : 0 < v) by (unfold v; lia).
  assert (Guv : Z.gcd u v = 1). { apply gcd_one_prime. intros p P D1 D2. pose proof (prime_ge_2 p P). assert (Dx : (p | x)) by (replace x with (u - v) by (unfold u, v; lia); now apply Z.divide_sub_r). assert (Dy : (p | y)). { rewrite Ew. apply Z.divide_mul_r. apply prime_sq_divide; [exact P|]. rewrite <- Euv. now apply Z.divide_mul_l. } assert (D : (p | 1)) by (rewrite <- G; now apply Z.gcd_greatest). apply Z.divide_pos_le in D; lia. }
  destruct (coprime_square u v w) as (m & Hm & Em); [lia|exact Guv|exact Euv|]. destruct (coprime_square v u w) as (n & Hn & En); [lia|now rewrite Z.gcd_comm|lia|].
  assert (0 < w) by lia. assert (Mn' : m * n = w) by (apply sq_inj; [now apply Z.mul_nonneg_nonneg|lia|rewrite <- Euv, Em, En; lia]).
  exists m, n. assert (Hnm : 1 <= n < m). { split; [destruct (Z.eq_dec n 0) as [Z0|]; [rewrite Z0 in En; lia|lia]|]. apply sq_lt; [lia|lia|]. rewrite <- Em, <- En. unfold u, v. lia. } split; [split; [exact Hnm|split]|].
  - destruct (Z.odd (m - n)) eqn:O; [reflexivity|exfalso]. rewrite <- Z.negb_even in O. apply negb_false_iff, Z.even_spec in O as [t Ht]. assert (u + v = 2 * k + 1) by (unfold u, v; lia). assert (m = n + 2 * t) by lia. subst m. lia.
  - apply gcd_one_prime. intros p P D1 D2. pose proof (prime_ge_2 p P). assert (D : (p | 1)) by (rewrite <- Guv; apply Z.gcd_greatest; [rewrite Em|rewrite En]; now apply Z.divide_mul_l). apply Z.divide_pos_le in D; lia.
  - unfold u, v in *. split; [lia|]. split; lia.
Qed.
Lemma right_gcd a b c : a * a + b * b = c * c -> primitive (a, b, c) -> Z.gcd a b = 1.
Proof.
  intros E P. apply gcd_one_prime. intros p Pp Da Db. pose proof (prime_ge_2 p Pp). assert (Dc : (p | c)) by (apply prime_sq_divide; [exact Pp|]; rewrite <- E; apply Z.divide_add_r; now apply Z.divide_mul_l). assert (D : (p | 1)) by (apply P; assumption). apply Z.divide_pos_le in D; lia.
Qed.
Lemma pyth_complete t : right_triangle t -> primitive t -> exists m n, pyth_pair m n /\ t = pyth m n.
Proof.
  destruct t as [[a b] c]. intros (Ha & Hb & E) P. pose proof (right_gcd a b c E P) as G. destruct (Z.odd a) eqn:Oa, (Z.odd b) eqn:Ob.
  - exfalso. apply odd_form in Oa as [i ->], Ob as [j ->]. destruct (Z.Even_or_Odd c) as [[k ->]|[k ->]]; lia.
  - destruct (pyth_complete_odd a b c) as (m & n & H & E1 & E2 & E3); try lia; auto. exists m, n. split; [exact H|]. unfold pyth, sortT. rewrite <- E1, <- E2, <- E3. destruct (Z.ltb_spec b a); [lia|reflexivity].
  - destruct (pyth_complete_odd b a c) as (m & n & H & E1 & E2 & E3); try lia; auto; [now rewrite Z.gcd_comm|]. exists m, n. split; [exact H|]. unfold pyth, sortT. rewrite <- E1, <- E2, <- E3. destruct (Z.ltb_spec a b); [reflexivity|lia].
  - exfalso. rewrite <- Z.negb_even in Oa, Ob. apply negb_false_iff, Z.even_spec in Oa as [i ->], Ob as [j ->]. assert (D : (2 | 1)) by (rewrite <- G; apply Z.gcd_greatest; apply Z.divide_factor_l). apply Z.divide_pos_le in D; lia.
Qed.
Lemma scale_right k t : 1 <= k -> (right_triangle (scale k t) <-> right_triangle t).
Proof.
  destruct t as [[a b] c]. intros H. unfold right_triangle, scale. split.
  - intros ((A & B) & C & E). assert (E' : k * k * (a * a + b * b - c * c) = 0) by lia. assert (0 < k * k) by nia. repeat split; nia.
  - intros ((A & B) & C & E). assert (E' : k * k * (a * a + b * b - c * c) = 0) by (rewrite E; lia). repeat split; nia.
Qed.

Section Root.
  Variable root : Z -> Z.
  Hypothesis HR : square_root root.
  Lemma root_le x y : 0 < y -> (y <= root x <-> y * y <= x).
  Proof. intros Hy. destruct HR as (R1 & R2). destruct (Z_lt_le_dec x 0) as [L|L]; [specialize (R2 x L); split; nia|]. specialize (R1 x L). split; intros; nia. Qed.

  Definition pyth_base (c_max : Z) : list (Z * Z * Z) :=
    flat_map (fun m => flat_map (fun n => if Z.gcd m n =? 1 then [pyth m n] else []) (zrange (Z.rem m 2 + 1) (Z.min (m - 1) (root (c_max - m * m))) 2)) (zrange 1 (root (c_max - 1)) 1).
  Lemma pyth_range c_max m n : (1 <= m <= root (c_max - 1) /\ (Z.rem m 2 + 1 <= n <= Z.min (m - 1) (root (c_max - m * m)) /\ (2 | n - (Z.rem m 2 + 1))) /\ Z.gcd m n = 1) <-> pyth_pair m n /\ m * m + n * n <= c_max.
  Proof.
    unfold pyth_pair. split.
    - intros (Hm & (Hn & [k D]) & G). rewrite Z.rem_mod_nonneg in * by lia. pose proof (Z.mod_pos_bound m 2 ltac:(lia)). pose proof (Z.div_mod m 2 ltac:(lia)). assert (N : n <= root (c_max - m * m)) by lia. apply root_le in N; [|lia]. split; [split; [lia|split; [|exact G]]|lia]. apply Z.odd_spec. assert (n = 2 * k + m mod 2 + 1) by lia. destruct (Z.eq_dec (m mod 2) 0) as [E|E]; [exists (m / 2 - k - 1)|exists (m / 2 - k - 1)]; lia.
    - intros ((Hn & O & G) & B). apply odd_form in O as [j Hj]. rewrite Z.rem_mod_nonneg by lia. pose proof (Z.mod_pos_bound m 2 ltac:(lia)). pose proof (Z.div_mod m 2 ltac:(lia)). split; [split; [lia|apply root_le; nia]|]. split; [|exact G]. assert (n <= root (c_max - m * m)) by (apply root_le; lia). assert (M : m mod 2 = 0 \/ m mod 2 = 1) by lia. split; [split; [|lia]|].
      + destruct M as [M|M]; rewrite M in *; [lia|]. assert (n <> 1) by lia. lia.
      + destruct M as [M|M]; rewrite M in *; [exists (m / 2 - j - 1)|exists (m / 2 - j - 1)]; lia.
  Qed.
  Lemma pyth_base_in c_max t : In t (pyth_base c_max) <-> exists m n, pyth_pair m n /\ m * m + n * n <= c_max /\ t = pyth m n.
  Proof.
    unfold pyth_base. rewrite in_flat_map. split.
    - intros (m & Im & J). apply zrange_in in Im as (Im & _); [|lia]. apply in_flat_map in J as (n & Jn & K). apply zrange_in in Jn; [|lia]. destruct (Z.eqb_spec (Z.gcd m n) 1) as [G|]; [|contradiction]. destruct K as [<-|[]]. exists m, n. destruct (proj1 (pyth_range c_max m n)) as (A & B); auto.
    - intros (m & n & H & B & ->). destruct (proj2 (pyth_range c_max m n) (conj H B)) as (A1 & A2 & A3). exists m. split; [apply zrange_in; [lia|split; [exact A1|apply Z.divide_1_l]]|]. apply in_flat_map. exists n. split; [apply zrange_in; [lia|exact A2]|]. rewrite A3. now left.
  Qed.
  Lemma pyth_base_nodup c_max : NoDup (pyth_base c_max).
  Proof.
    assert (PP : forall m n, In m (zrange 1 (root (c_max - 1)) 1) -> In n (zrange (Z.rem m 2 + 1) (Z.min (m - 1) (root (c_max - m * m))) 2) -> Z.gcd m n = 1 -> pyth_pair m n).
    { intros m n Im In G. apply zrange_in in Im as (Im & _); [|lia]. apply zrange_in in In; [|lia]. now apply (pyth_range c_max m n). }
    apply NoDup_flat_map; [apply zrange_nodup; lia| |].
    - intros m Im. apply NoDup_flat_map; [apply zrange_nodup; lia| |].
      + intros n _. destruct (_ =? _); [constructor; [intros []|constructor]|constructor].
      + intros n n' t I1 I2 J1 J2. destruct (Z.eqb_spec (Z.gcd m n) 1) as [G|]; [|contradiction]. destruct (Z.eqb_spec (Z.gcd m n') 1) as [G'|]; [|contradiction]. destruct J1 as [<-|[]], J2 as [E|[]]. symmetry in E. now apply pyth_inj in E; [|apply PP..].
    - intros m m' t I1 I2 J1 J2. apply in_flat_map in J1 as (n & In & J1), J2 as (n' & In' & J2). destruct (Z.eqb_spec (Z.gcd m n) 1) as [G|]; [|contradiction]. destruct (Z.eqb_spec (Z.gcd m' n') 1) as [G'|]; [|contradiction]. destruct J1 as [<-|[]], J2 as [E|[]]. symmetry in E. now apply pyth_inj in E; [|apply PP..].
  Qed.
  Theorem pythagorean_run c_max only : exists l, pythagorean_triples root c_max only = Some l /\ lists_exactly (wanted right_triangle c_max only) l.
  Proof.
    exists (with_multiples c_max only (pyth_base c_max)). split.
    - unfold pythagorean_triples, with_multiples, pyth_base. rewrite flat_map_flat_map. change (flat_map ?f ?l) with ([] ++ flat_map f l). apply zfor_app; [lia|]. intros m acc Hm _. rewrite flat_map_flat_map. change (sqT m) with (m * m). apply zfor_app; [lia|].
      intros n acc' Hn Dn. pose proof (Z.rem_bound_pos m 2 ltac:(lia) ltac:(lia)). rewrite gcd_ok by lia. cbn [obind]. destruct (Z.eqb_spec (Z.gcd m n) 1) as [G|]; cbn [negb]; [|cbn [flat_map]; now rewrite app_nil_r]. cbn [flat_map]. rewrite app_nil_r.
      assert (HH : pyth_pair m n /\ m * m + n * n <= c_max) by (apply pyth_range; auto). destruct (pyth_right m n (proj1 HH)) as (_ & _ & Es). rewrite Es. unfold pyth, sortT. change (sqT n) with (n * n).
      assert (K : (if only then Some 1 else cdiv c_max (m * m + n * n)) = Some (if only then 1 else Z.quot c_max (m * m + n * n))). { destruct only; [reflexivity|]. unfold cdiv. destruct (Z.eqb_spec (m * m + n * n) 0); [nia|reflexivity]. }
      destruct (m * n * 2 <? m * m - n * n); rewrite K; cbn [obind]; apply visit_multiples_run.
    - apply multiples_exact; [apply scale_right|intros [[a b] c] (A & B & _); cbn; lia|apply pyth_base_nodup|]. intros t. rewrite pyth_base_in. split.
      + intros (m & n & H & B & ->). destruct (pyth_right m n H) as (R & P & ->). auto.
      + intros (Q & P & B). destruct (pyth_complete t Q P) as (m & n & H & ->). exists m, n. destruct (pyth_right m n H) as (_ & _ & E). rewrite E in B. auto.
  Qed.
End Root.
