From Coq Require Import Znumtheory.
From Verif Require Import Lib BaseModel BaseProofs TripleModel TripleSpec TripleProofs TripleProofs2.
Open Scope Z_scope.

Lemma coprime_no_prime m n p : Z.gcd m n = 1 -> prime p -> (p | m) -> (p | n) -> False.
Proof. intros G P D1 D2. pose proof (prime_ge_2 p P). assert (D : (p | 1)) by (rewrite <- G; now apply Z.gcd_greatest). apply Z.divide_pos_le in D; lia. Qed.
Lemma prime_3_only p : prime p -> (p | 3) -> p = 3.
Proof. intros P D. apply (prime_div_prime p 3); [exact P|apply prime_3|exact D]. Qed.
Lemma ratio_inj m n m' n' : 0 < m -> 0 < n -> 0 < m' -> 0 < n' -> Z.gcd m n = 1 -> Z.gcd m' n' = 1 -> m * n' = m' * n -> m = m' /\ n = n'.
Proof.
  intros H1 H2 H3 H4 G G' E. assert (m = m'). { apply Z.divide_antisym_nonneg; [lia|lia| |]; [apply Z.gauss with (m := n); [exists n'; lia|exact G]|apply Z.gauss with (m := n'); [exists n; lia|exact G']]. } subst m'. split; [reflexivity|]. apply (Z.mul_cancel_l _ _ m); lia.
Qed.
(** x : y in lowest terms *)
Lemma lowest_terms x y : 0 < x -> 0 < y -> exists m n, 0 < m /\ 0 < n /\ Z.gcd m n = 1 /\ y * m = x * n.
Proof.
  intros Hx Hy. set (g := Z.gcd x y). assert (G0 : 0 <= g) by apply Z.gcd_nonneg. destruct (Z.gcd_divide_l x y) as [m Em], (Z.gcd_divide_r x y) as [n En]. fold g in Em, En. assert (0 < g) by (destruct (Z.eq_dec g 0) as [E|]; [rewrite E in Em; lia|lia]). exists m, n. split; [nia|]. split; [nia|]. split; [|rewrite Em at 1; rewrite En at 1; lia].
  assert (X : Z.gcd (g * m) (g * n) = g * Z.gcd m n) by (apply Z.gcd_mul_mono_l_nonneg; lia). replace (g * m) with x in X by lia. replace (g * n) with y in X by lia. fold g in X. assert (g * (Z.gcd m n - 1) = 0) by lia. apply Z.mul_eq_0 in H0. lia.
Qed.
(** proportional to coprime numbers *)
Lemma proportional a b x y : 0 < a -> 0 < b -> 0 < x -> Z.gcd a b = 1 -> b * x = a * y -> exists k, 0 < k /\ x = a * k /\ y = b * k /\ Z.gcd x y = k.
Proof.
  intros Ha Hb Hx G E. assert (D : (a | x)) by (apply Z.gauss with (m := b); [exists y; lia|exact G]). destruct D as [k Ek]. assert (0 < k) by nia. exists k. split; [assumption|]. assert (Ey : y = b * k) by (apply (Z.mul_cancel_l _ _ a); [lia|]; rewrite <- E, Ek; lia). split; [lia|]. split; [exact Ey|]. rewrite Ek, Ey. rewrite (Z.mul_comm b k), Z.gcd_mul_mono_l_nonneg by lia. rewrite G. lia.
Qed.

(** ** 120 degrees *)
Definition eis120 (m n : Z) : Z * Z * Z := sortT (m * m - n * n) (m * n * 2 + n * n) (m * m + m * n + n * n).
Definition eis120_pair (m n : Z) : Prop := 1 <= n < m /\ ~ (3 | m - n) /\ Z.gcd m n = 1.
Lemma eis120_coprime m n : eis120_pair m n -> Z.gcd (m * m - n * n) (m * n * 2 + n * n) = 1.
Proof.
  intros (H1 & H3 & G). apply gcd_one_prime. intros p P D1 D2. pose proof (coprime_no_prime m n p G P) as NO.
  replace (m * n * 2 + n * n) with (n * (2 * m + n)) in D2 by lia. apply prime_mult in D2 as [D2|D2]; [| |exact P].
  - apply NO; [|exact D2]. apply prime_sq_divide; [exact P|]. replace (m * m) with ((m * m - n * n) + n * n) by lia. apply Z.divide_add_r; [exact D1|]. now apply Z.divide_mul_l.
  - replace (m * m - n * n) with ((m - n) * (m + n)) in D1 by lia. assert (Dm : (p | m) -> False). { intros D. apply NO; [exact D|]. replace n with ((2 * m + n) - 2 * m) by lia. apply Z.divide_sub_r; [exact D2|]. now apply Z.divide_mul_r. }
    apply prime_mult in D1 as [D1|D1]; [| |exact P].
    + assert (D : (p | 3 * m)) by (replace (3 * m) with ((2 * m + n) + (m - n)) by lia; now apply Z.divide_add_r). apply prime_mult in D as [D|D]; [| |exact P]; [|now apply Dm]. apply prime_3_only in D; [|exact P]. subst p. contradiction.
    + apply Dm. replace m with ((2 * m + n) - (m + n)) by lia. now apply Z.divide_sub_r.
Qed.
Lemma eis120_sound m n : eis120_pair m n -> triangle120 (eis120 m n) /\ primitive (eis120 m n) /\ snd (eis120 m n) = m * m + m * n + n * n.
Proof.
  intros H. pose proof (eis120_coprime m n H) as G. destruct H as (H1 & _). assert (N : m * m - n * n <> m * n * 2 + n * n). { intros E. rewrite E, Z.gcd_diag in G. assert (0 < m * n) by (apply Z.mul_pos_pos; lia). assert (0 < n * n) by (apply Z.mul_pos_pos; lia). lia. }
  assert (0 < m * n) by (apply Z.mul_pos_pos; lia). assert (0 < n * n) by (apply Z.mul_pos_pos; lia). assert (n * n < m * n) by (apply Z.mul_lt_mono_pos_r; lia). assert (m * n < m * m) by (apply Z.mul_lt_mono_pos_l; lia).
  unfold eis120, sortT. destruct (Z.ltb_spec (m * n * 2 + n * n) (m * m - n * n)); cbn [snd]; (split; [|split; [|reflexivity]]).
  - unfold triangle120. repeat split; lia.
  - apply primitive_of_gcd. now rewrite Z.gcd_comm.
  - unfold triangle120. repeat split; lia.
  - now apply primitive_of_gcd.
Qed.
Lemma pos_y m n : 1 <= n < m -> 0 < m * n * 2 + n * n.
Proof. intros H. assert (0 < m * n) by (apply Z.mul_pos_pos; lia). assert (0 < n * n) by (apply Z.mul_pos_pos; lia). lia. Qed.
Lemma eis120_inj m n m' n' : eis120_pair m n -> eis120_pair m' n' -> eis120 m n = eis120 m' n' -> m = m' /\ n = n'.
Proof.
  intros (H1 & H3 & G) (H1' & H3' & G') E.
  assert (X : forall x y c, x = m * m - n * n -> y = m * n * 2 + n * n -> c = m * m + m * n + n * n -> x = m' * m' - n' * n' -> y = m' * n' * 2 + n' * n' -> c = m' * m' + m' * n' + n' * n' -> m = m' /\ n = n').
  { intros x y c E1 E2 E3 E1' E2' E3'. apply ratio_inj; auto; try lia. assert (A : (c + x) * n = y * m) by (rewrite E1, E2, E3; lia). assert (B : (c + x) * n' = y * m') by (rewrite E1', E2', E3'; lia). assert (0 < y) by (rewrite E2; now apply pos_y). apply (Z.mul_cancel_l _ _ y); [lia|]. replace (y * (m * n')) with ((y * m) * n') by lia. rewrite <- A. replace (y * (m' * n)) with ((y * m') * n) by lia. rewrite <- B. lia. }
  assert (Y : forall x y c, x = m * m - n * n -> y = m * n * 2 + n * n -> c = m * m + m * n + n * n -> y = m' * m' - n' * n' -> x = m' * n' * 2 + n' * n' -> c = m' * m' + m' * n' + n' * n' -> False).
  { intros x y c E1 E2 E3 E1' E2' E3'. assert (A : (c + y) * (m - n) = x * (m + 2 * n)) by (rewrite E1, E2, E3; lia). assert (B : (c + y) * n' = x * m') by (rewrite E1', E2', E3'; lia). assert (0 < x) by (rewrite E2'; now apply pos_y).
    assert (Gu : Z.gcd (m + 2 * n) (m - n) = 1). { apply gcd_one_prime. intros p P D1 D2. assert (D : (p | 3 * n)) by (replace (3 * n) with ((m + 2 * n) - (m - n)) by lia; now apply Z.divide_sub_r). apply prime_mult in D as [D|D]; [| |exact P]; [apply prime_3_only in D; [subst; contradiction|exact P]|]. apply (coprime_no_prime m n p G P); [|exact D]. replace m with ((m - n) + n) by lia. now apply Z.divide_add_r. }
    apply H3'. exists n. destruct (ratio_inj (m + 2 * n) (m - n) m' n') as (Q1 & Q2); auto; try lia. apply (Z.mul_cancel_l _ _ x); [lia|]. replace (x * ((m + 2 * n) * n')) with ((x * (m + 2 * n)) * n') by lia. rewrite <- A. replace (x * (m' * (m - n))) with ((x * m') * (m - n)) by lia. rewrite <- B. lia. }
  unfold eis120, sortT in E. destruct (Z.ltb_spec (m * n * 2 + n * n) (m * m - n * n)), (Z.ltb_spec (m' * n' * 2 + n' * n') (m' * m' - n' * n')); injection E as E1 E2 E3.
  - eapply X; [reflexivity..| | |]; lia.
  - exfalso. eapply Y; [reflexivity..| | |]; lia.
  - exfalso. eapply Y; [reflexivity..| | |]; lia.
  - eapply X; [reflexivity..| | |]; lia.
Qed.
Lemma eis120_gcd a b c : a * a + a * b + b * b = c * c -> primitive (a, b, c) -> Z.gcd a b = 1.
Proof.
  intros E P. apply gcd_one_prime. intros p Pp Da Db. pose proof (prime_ge_2 p Pp). assert (Dc : (p | c)) by (apply prime_sq_divide; [exact Pp|]; rewrite <- E; repeat apply Z.divide_add_r; now apply Z.divide_mul_l). assert (D : (p | 1)) by (apply P; assumption). apply Z.divide_pos_le in D; lia.
Qed.
Lemma eis120_complete t : triangle120 t -> primitive t -> exists m n, eis120_pair m n /\ t = eis120 m n.
Proof.
  destruct t as [[a b] c]. intros (Ha & Hb & E) P. pose proof (eis120_gcd a b c E P) as G. destruct (lowest_terms (c + a) b) as (m & n & Hm & Hn & Gm & R); [lia|lia|].
  assert (Hnm : n < m). { apply (Z.mul_lt_mono_pos_l b); [lia|]. rewrite R. apply Z.mul_lt_mono_pos_r; lia. }
  assert (Q : b * (m * m - n * n) = a * (m * n * 2 + n * n)).
  { assert (Cn : c * n = b * m - a * n) by lia. assert (E2 : (c * n) * (c * n) = n * n * (a * a + a * b + b * b)) by (rewrite E; lia). rewrite Cn in E2. assert (E3 : b * (b * (m * m - n * n)) = b * (a * (m * n * 2 + n * n))) by lia. apply Z.mul_cancel_l in E3; [exact E3|lia]. }
  assert (n * n < m * m) by (apply (proj1 (sq_lt n m ltac:(lia) ltac:(lia))); lia).
  destruct (proportional a b (m * m - n * n) (m * n * 2 + n * n)) as (k & Hk & E1 & E2 & Gk); [lia|lia|lia|exact G|lia|].
  assert (E3 : m * m + m * n + n * n = c * k). { apply (Z.mul_cancel_l _ _ n); [lia|]. assert (c * n = b * m - a * n) by lia. replace (n * (c * k)) with ((c * n) * k) by lia. rewrite H0. replace ((b * m - a * n) * k) with ((b * k) * m - (a * k) * n) by lia. rewrite <- E1, <- E2. lia. }
  destruct (Zdivide_dec 3 (m - n)) as [[v Hv]|N3].
  - set (u := v + n). assert (Pr : eis120_pair u v). { split; [unfold u; lia|]. split.
      - intros D. assert (Dn : (3 | n)) by (replace n with (u - v) by (unfold u; lia); exact D). apply (coprime_no_prime m n 3 Gm prime_3); [|exact Dn]. replace m with (v * 3 + n) by lia. apply Z.divide_add_r; [apply Z.divide_factor_r|exact Dn].
      - apply gcd_one_prime. intros p Pp D1 D2. assert (Dn : (p | n)) by (replace n with (u - v) by (unfold u; lia); now apply Z.divide_sub_r). apply (coprime_no_prime m n p Gm Pp); [|exact Dn]. replace m with (v * 3 + n) by lia. apply Z.divide_add_r; [now apply Z.divide_mul_l|exact Dn]. }
    pose proof (eis120_coprime u v Pr) as Gu. assert (m = n + 3 * v) by lia. assert (F1 : m * m - n * n = 3 * (u * v * 2 + v * v)) by (unfold u; subst m; lia). assert (F2 : m * n * 2 + n * n = 3 * (u * u - v * v)) by (unfold u; subst m; lia). assert (F3 : m * m + m * n + n * n = 3 * (u * u + u * v + v * v)) by (unfold u; subst m; lia).
    assert (k = 3). { rewrite <- Gk, F1, F2. rewrite Z.gcd_mul_mono_l_nonneg by lia. rewrite Z.gcd_comm, Gu. reflexivity. } subst k.
    exists u, v. split; [exact Pr|]. unfold eis120, sortT. destruct (Z.ltb_spec (u * v * 2 + v * v) (u * u - v * v)); [|lia]. f_equal; [f_equal|]; lia.
  - assert (Pr : eis120_pair m n) by (split; [lia|]; auto). pose proof (eis120_coprime m n Pr) as Gu. rewrite Gk in Gu. subst k. exists m, n. split; [exact Pr|]. unfold eis120, sortT. destruct (Z.ltb_spec (m * n * 2 + n * n) (m * m - n * n)); [lia|]. f_equal; [f_equal|]; lia.
Qed.
Lemma scale_120 k t : 1 <= k -> (triangle120 (scale k t) <-> triangle120 t).
Proof.
  destruct t as [[a b] c]. intros H. unfold triangle120, scale. assert (0 < k * k) by nia. split.
  - intros ((A & B) & C & E). assert (E' : k * k * (a * a + a * b + b * b - c * c) = 0) by lia. apply Z.mul_eq_0 in E'. repeat split; nia.
  - intros ((A & B) & C & E). assert (E' : k * k * (a * a + a * b + b * b) = k * k * (c * c)) by (now rewrite E). repeat split; nia.
Qed.

(** ** 60 degrees *)
Definition eis60 (m n : Z) : Z * Z * Z :=
  let a := m * n * 2 - n * n in let b := m * m - m * n + n * n in let c := m * m - n * n in
  if Z.rem (m + n) 3 =? 0 then (Z.quot a 3, Z.quot b 3, Z.quot c 3) else (a, b, c).
Definition eis60_pair (m n : Z) : Prop := 1 <= n /\ 2 * n <= m /\ Z.gcd m n = 1.
(** the triple times 1 or 3 is the one given by m and n *)
Lemma eis60_form m n : eis60_pair m n -> exists a b c k, eis60 m n = (a, b, c) /\ (k = 1 \/ k = 3) /\ a * k = m * n * 2 - n * n /\ b * k = m * m - m * n + n * n /\ c * k = m * m - n * n /\ Z.gcd a c = 1.
Proof.
  intros (H1 & H2 & G). unfold eis60. destruct (Z.eqb_spec (Z.rem (m + n) 3) 0) as [R|R].
  - apply Z.rem_divide in R as [w Hw]; [|lia]. assert (Em : m = 3 * w - n) by lia.
    assert (F1 : m * n * 2 - n * n = n * (2 * w - n) * 3) by (subst m; lia). assert (F2 : m * m - m * n + n * n = (3 * (w * w) - 3 * (n * w) + n * n) * 3) by (subst m; lia). assert (F3 : m * m - n * n = w * (3 * w - 2 * n) * 3) by (subst m; lia).
    exists (n * (2 * w - n)), (3 * (w * w) - 3 * (n * w) + n * n), (w * (3 * w - 2 * n)), 3. cbv zeta. rewrite F1, F2, F3. rewrite !Z.quot_mul by lia. split; [reflexivity|]. split; [now right|]. repeat (split; [lia|]).
    apply gcd_one_prime. intros p P D1 D2. pose proof (coprime_no_prime m n p G P) as NO. assert (NW : (p | w) -> (p | n) -> False). { intros A B. apply NO; [|exact B]. rewrite Em. apply Z.divide_sub_r; [now apply Z.divide_mul_r|exact B]. }
    apply prime_mult in D1 as [D1|D1]; [| |exact P]; (apply prime_mult in D2 as [D2|D2]; [| |exact P]).
    + now apply NW.
    + assert (D : (p | 3 * w)) by (replace (3 * w) with ((3 * w - 2 * n) + 2 * n) by lia; apply Z.divide_add_r; [exact D2|now apply Z.divide_mul_r]). apply prime_mult in D as [D|D]; [| |exact P]; [|now apply NW]. apply NO; [|exact D1]. rewrite Em. apply Z.divide_sub_r; [now apply Z.divide_mul_l|exact D1].
    + apply NW; [exact D2|]. replace n with (2 * w - (2 * w - n)) by lia. apply Z.divide_sub_r; [now apply Z.divide_mul_r|exact D1].
    + assert (D : (p | w)) by (replace w with (2 * (2 * w - n) - (3 * w - 2 * n)) by lia; apply Z.divide_sub_r; [now apply Z.divide_mul_r|exact D2]). apply NW; [exact D|]. replace n with (2 * w - (2 * w - n)) by lia. apply Z.divide_sub_r; [now apply Z.divide_mul_r|exact D1].
  - assert (N3 : ~ (3 | m + n)) by (intros D; apply R; apply Z.rem_divide; [lia|exact D]). exists (m * n * 2 - n * n), (m * m - m * n + n * n), (m * m - n * n), 1. cbv zeta. split; [reflexivity|]. split; [now left|]. repeat (split; [lia|]).
    apply gcd_one_prime. intros p P D1 D2. pose proof (coprime_no_prime m n p G P) as NO. replace (m * n * 2 - n * n) with (n * (2 * m - n)) in D1 by lia. apply prime_mult in D1 as [D1|D1]; [| |exact P].
    + apply NO; [|exact D1]. apply prime_sq_divide; [exact P|]. replace (m * m) with ((m * m - n * n) + n * n) by lia. apply Z.divide_add_r; [exact D2|]. now apply Z.divide_mul_l.
    + replace (m * m - n * n) with ((m - n) * (m + n)) in D2 by lia. assert (Dm : (p | m) -> False). { intros D. apply NO; [exact D|]. replace n with (2 * m - (2 * m - n)) by lia. apply Z.divide_sub_r; [now apply Z.divide_mul_r|exact D1]. }
      apply prime_mult in D2 as [D2|D2]; [| |exact P].
      * apply Dm. replace m with ((2 * m - n) - (m - n)) by lia. now apply Z.divide_sub_r.
      * assert (D : (p | 3 * m)) by (replace (3 * m) with ((2 * m - n) + (m + n)) by lia; now apply Z.divide_add_r). apply prime_mult in D as [D|D]; [| |exact P]; [|now apply Dm]. apply prime_3_only in D; [|exact P]. subst p. contradiction.
Qed.
Lemma eis60_sound m n : eis60_pair m n -> triangle60 (eis60 m n) /\ primitive (eis60 m n).
Proof.
  intros H. destruct (eis60_form m n H) as (a & b & c & k & E & Hk & E1 & E2 & E3 & G). destruct H as (H1 & H2 & _). rewrite E.
  assert (A1 : 0 < a * k) by (rewrite E1; nia). assert (A2 : a * k <= b * k) by (rewrite E1, E2; assert (0 <= (m - n) * (m - 2 * n)) by (apply Z.mul_nonneg_nonneg; lia); lia). assert (A3 : b * k <= c * k) by (rewrite E2, E3; assert (0 <= n * (m - 2 * n)) by (apply Z.mul_nonneg_nonneg; lia); lia).
  assert (A4 : (a * k) * (a * k) - (a * k) * (c * k) + (c * k) * (c * k) = (b * k) * (b * k)) by (rewrite E1, E2, E3; lia). split.
  - unfold triangle60. clear - Hk A1 A2 A3 A4. destruct Hk; subst k; repeat split; lia.
  - intros d Da _ Dc. rewrite <- G. now apply Z.gcd_greatest.
Qed.
Lemma eis60_inj m n m' n' : eis60_pair m n -> eis60_pair m' n' -> eis60 m n = eis60 m' n' -> m = m' /\ n = n'.
Proof.
  intros H H' E. destruct (eis60_form m n H) as (a & b & c & k & F & Hk & E1 & E2 & E3 & _), (eis60_form m' n' H') as (a' & b' & c' & k' & F' & Hk' & E1' & E2' & E3' & _). destruct (eis60_sound m n H) as (S1 & _). rewrite F in S1. destruct S1 as (S1 & _ & _). rewrite F, F' in E. injection E as <- <- <-. destruct H as (H1 & H2 & G), H' as (H1' & H2' & G').
  assert (A : (b + c) * n = a * m). { apply (Z.mul_cancel_r _ _ k); [lia|]. replace ((b + c) * n * k) with ((b * k + c * k) * n) by lia. replace (a * m * k) with ((a * k) * m) by lia. rewrite E1, E2, E3. lia. }
  assert (B : (b + c) * n' = a * m'). { apply (Z.mul_cancel_r _ _ k'); [lia|]. replace ((b + c) * n' * k') with ((b * k' + c * k') * n') by lia. replace (a * m' * k') with ((a * k') * m') by lia. rewrite E1', E2', E3'. lia. }
  apply ratio_inj; auto; try lia. apply (Z.mul_cancel_l _ _ a); [lia|]. replace (a * (m * n')) with ((a * m) * n') by lia. rewrite <- A. replace (a * (m' * n)) with ((a * m') * n) by lia. rewrite <- B. lia.
Qed.
Lemma eis60_gcd a b c : a * a - a * c + c * c = b * b -> primitive (a, b, c) -> Z.gcd a c = 1.
Proof.
  intros E P. apply gcd_one_prime. intros p Pp Da Dc. pose proof (prime_ge_2 p Pp). assert (Db : (p | b)) by (apply prime_sq_divide; [exact Pp|]; rewrite <- E; apply Z.divide_add_r; [apply Z.divide_sub_r|]; now apply Z.divide_mul_l). assert (D : (p | 1)) by (apply P; assumption). apply Z.divide_pos_le in D; lia.
Qed.
Lemma eis60_complete t : triangle60 t -> primitive t -> exists m n, eis60_pair m n /\ t = eis60 m n.
Proof.
  destruct t as [[a b] c]. intros (Ha & Hb & E) P. pose proof (eis60_gcd a b c E P) as G. destruct (lowest_terms (b + c) a) as (m & n & Hm & Hn & Gm & R); [lia|lia|].
  assert (Pr : eis60_pair m n). { split; [lia|]. split; [|exact Gm]. apply (Z.mul_le_mono_pos_l _ _ a); [lia|]. rewrite R. replace (a * (2 * n)) with ((2 * a) * n) by lia. apply Z.mul_le_mono_nonneg_r; lia. }
  exists m, n. split; [exact Pr|]. destruct (eis60_form m n Pr) as (a' & b' & c' & k & F & Hk & E1 & E2 & E3 & G'). destruct (eis60_sound m n Pr) as (S1 & _). rewrite F in S1. destruct S1 as (S1 & S2 & _). rewrite F.
  assert (Q : c * (m * n * 2 - n * n) = a * (m * m - n * n)).
  { assert (Bn : b * n = a * m - c * n) by lia. assert (X2 : (b * n) * (b * n) = n * n * (a * a - a * c + c * c)) by (rewrite E; lia). rewrite Bn in X2. assert (X3 : a * (c * (m * n * 2 - n * n)) = a * (a * (m * m - n * n))) by lia. apply Z.mul_cancel_l in X3; [exact X3|lia]. }
  rewrite <- E1, <- E3 in Q. assert (Q' : c * a' = a * c') by (apply (Z.mul_cancel_r _ _ k); lia).
  destruct (proportional a c a' c') as (j & Hj & X1 & X2 & Gj); [lia|lia|lia|exact G|exact Q'|]. rewrite Gj in G'. subst j. rewrite Z.mul_1_r in X1, X2. subst a' c'.
  assert (b = b'). { apply (Z.mul_cancel_r _ _ k); [lia|]. apply (Z.mul_cancel_r _ _ n); [lia|]. replace (b * k * n) with ((b * n) * k) by lia. replace (b * n) with (a * m - c * n) by lia. replace ((a * m - c * n) * k) with ((a * k) * m - (c * k) * n) by lia. rewrite E1, E2, E3. lia. }
  now subst.
Qed.
Lemma scale_60 k t : 1 <= k -> (triangle60 (scale k t) <-> triangle60 t).
Proof.
  destruct t as [[a b] c]. intros H. unfold triangle60, scale. assert (0 < k * k) by nia. split.
  - intros ((A & B) & C & E). assert (E' : k * k * (a * a - a * c + c * c - b * b) = 0) by lia. apply Z.mul_eq_0 in E'. repeat split; nia.
  - intros ((A & B) & C & E). assert (E' : k * k * (a * a - a * c + c * c) = k * k * (b * b)) by (now rewrite E). repeat split; nia.
Qed.
