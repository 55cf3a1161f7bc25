From Verif Require Import Lib PrngModel PrngSpec PrngProofs.
Open Scope Z_scope.

(** course-of-values recursion *)
Section Course.
  Variables (a : Z) (F : (nat -> Z) -> nat -> Z).
  Hypothesis HF : forall u v t, (forall s, (s <= t)%nat -> u s = v s) -> F u t = F v t.
  Fixpoint course_pre (t : nat) : nat -> Z := match t with O => fun _ => a | S t => fun s => if (s <=? t)%nat then course_pre t s else F (course_pre t) t end.
  Lemma course_stable t s : (s <= t)%nat -> course_pre t s = course_pre s s.
  Proof. induction t as [|t IH]; intros H; [now replace s with O by lia|]. destruct (Nat.eq_dec s (S t)) as [->|NE]; [reflexivity|]. cbn [course_pre]. destruct (Nat.leb_spec s t); [apply IH; lia|lia]. Qed.
  Lemma course : exists v : nat -> Z, v O = a /\ forall t, v (t + 1)%nat = F v t.
  Proof using HF. exists (fun t => course_pre t t). split; [reflexivity|]. intros t. replace (t + 1)%nat with (S t) by lia. cbn [course_pre]. destruct (Nat.leb_spec (S t) t); [lia|]. apply HF. intros s Hs. apply course_stable, Hs. Qed.
End Course.

(** one step of the recurrence *)
Lemma land_pow2 u k : 0 <= k -> Z.land u (2 ^ k) = (u / 2 ^ k) mod 2 * 2 ^ k.
Proof.
  intros Hk. rewrite <- Z.shiftl_mul_pow2, <- Z.shiftr_div_pow2 by exact Hk. change 2 with (2 ^ 1) at 2. apply Z.bits_inj'. intros i Hi. rewrite Z.land_spec, Z.pow2_bits_eqb, Z.shiftl_spec by lia. destruct (Z.eqb_spec k i) as [->|NE].
  - rewrite Z.sub_diag, Z.mod_pow2_bits_low, Z.shiftr_spec, Z.add_0_l, andb_true_r by lia. reflexivity.
  - rewrite andb_false_r. destruct (Z_lt_le_dec i k) as [L|L]; [now rewrite Z.testbit_neg_r by lia|]. now rewrite Z.mod_pow2_bits_high by lia.
Qed.
Lemma disjoint_add a b k : 0 <= k -> 0 <= b < 2 ^ k -> Z.lor (a * 2 ^ k) b = a * 2 ^ k + b.
Proof.
  intros Hk Hb. assert (L0 : Z.land (a * 2 ^ k) b = 0).
  { apply Z.bits_inj'. intros i Hi. rewrite Z.land_spec, Z.bits_0. destruct (Z_lt_le_dec i k) as [L|L]; [rewrite Z.mul_pow2_bits_low by exact L; reflexivity|]. apply word_bits in Hb as (_ & Hb); [|exact Hk]. rewrite (Hb i L). apply andb_false_r. }
  rewrite Z.add_nocarry_lxor, Z.lxor_lor by exact L0. reflexivity.
Qed.
Lemma twist_eq m s0 s1 : word 32 s0 -> word 32 s1 -> twist m s0 s1 = mt_step m s0 s1.
Proof.
  intros H0 H1. assert (EM : mixBits s0 s1 = s0 / 2 ^ 31 * 2 ^ 31 + s1 mod 2 ^ 31).
  { unfold mixBits, hiBit, loBits. change 0x80000000 with (2 ^ 31). rewrite land_pow2 by lia. change 0x7fffffff with (Z.ones 31). rewrite Z.land_ones by lia. rewrite (Z.mod_small (s0 / 2 ^ 31) 2); [apply disjoint_add; [lia|apply Z.mod_pos_bound; reflexivity]|]. split; [apply Z.div_pos; [apply H0|reflexivity]|]. apply Z.div_lt_upper_bound; [reflexivity|]. change (2 ^ 31 * 2) with (2 ^ 32). apply H0. }
  unfold twist, mt_step. cbv zeta. rewrite EM. rewrite Z.shiftr_div_pow2 by lia. change (2 ^ 1) with 2. f_equal.
  assert (EO : Z.odd (s0 / 2 ^ 31 * 2 ^ 31 + s1 mod 2 ^ 31) = Z.odd s1). { rewrite Z.odd_add, Z.odd_mul. change (Z.odd (2 ^ 31)) with false. rewrite andb_false_r, xorb_false_l. rewrite <- !Z.bit0_odd. apply Z.mod_pow2_bits_low. lia. }
  rewrite EO. unfold loBit. change 1 with (Z.ones 1). rewrite Z.land_ones by lia. change (2 ^ 1) with 2. rewrite Zmod_odd. destruct (Z.odd s1); reflexivity.
Qed.
Lemma step_word m s0 s1 : word 32 m -> word 32 s0 -> word 32 s1 -> word 32 (mt_step m s0 s1).
Proof.
  intros Hm H0 H1. unfold mt_step. cbv zeta. set (y := s0 / 2 ^ 31 * 2 ^ 31 + s1 mod 2 ^ 31). assert (Hy : word 32 y). { unfold y, word in *. assert (0 <= s0 / 2 ^ 31 < 2) by (split; [apply Z.div_pos; [lia|reflexivity]|apply Z.div_lt_upper_bound; [reflexivity|]; change (2 ^ 31 * 2) with (2 ^ 32); lia]). pose proof (Z.mod_pos_bound s1 (2 ^ 31) ltac:(reflexivity)). change (2 ^ 32) with (2 * 2 ^ 31). lia. }
  apply word_lxor; [lia| |destruct (Z.odd y); split; [lia|reflexivity|lia|reflexivity]]. apply word_lxor; [lia|exact Hm|]. change 2 with (2 ^ 1) at 1. rewrite <- Z.shiftr_div_pow2 by lia. apply word_shiftr; [lia|lia|exact Hy].
Qed.
Lemma temper_eq y : temper y = mt_output y.
Proof. unfold temper, mt_output, u32. cbv zeta. rewrite !Z.shiftr_div_pow2, !Z.shiftl_mul_pow2 by lia. reflexivity. Qed.
Lemma temper_word y : word 32 y -> word 32 (temper y).
Proof. intros H. unfold temper, u32. cbv zeta. repeat (first [apply word_lxor; [lia| |]|apply word_shiftr; [lia|lia|]|apply word_land; [lia| |lia]|apply word_mod; lia|exact H]). Qed.
Lemma temper_inj x y : word 32 x -> word 32 y -> temper x = temper y -> x = y.
Proof.
  intros Hx Hy E. unfold temper, u32 in E. cbv zeta in E.
  assert (A : forall z, word 32 z -> word 32 (Z.lxor z (Z.shiftr z 11))) by (intros z Hz; apply word_lxor; [lia|exact Hz|]; apply word_shiftr; [lia|lia|exact Hz]). assert (B : forall k c z, 0 <= c -> word 32 z -> word 32 (Z.lxor z (Z.land (Z.shiftl z k mod 2 ^ 32) c))) by (intros k c z Hc Hz; apply word_lxor; [lia|exact Hz|]; apply word_land; [lia|apply word_mod; lia|exact Hc]).
  apply xsr_inj in E; [|lia|apply B; [lia|]; apply B; [lia|]; apply A, Hx|apply B; [lia|]; apply B; [lia|]; apply A, Hy]. apply xsl_inj in E; [|lia|lia|apply B; [lia|]; apply A, Hx|apply B; [lia|]; apply A, Hy]. apply xsl_inj in E; [|lia|lia|apply A, Hx|apply A, Hy]. apply xsr_inj in E; [exact E|lia|apply Hx|apply Hy].
Qed.

(** orDown *)
Lemma fill_step u v k : 0 < k -> (forall i, 0 <= i -> Z.testbit v i = true <-> exists d, 0 <= d < k /\ Z.testbit u (i + d) = true) -> forall i, 0 <= i -> Z.testbit (Z.lor v (Z.shiftr v k)) i = true <-> exists d, 0 <= d < 2 * k /\ Z.testbit u (i + d) = true.
Proof.
  intros Hk H i Hi. rewrite Z.lor_spec, Z.shiftr_spec, orb_true_iff by exact Hi. rewrite (H i Hi), (H (i + k) ltac:(lia)). split.
  - intros [(d & Hd & E)|(d & Hd & E)]; [exists d; split; [lia|exact E]|exists (k + d); split; [lia|]; rewrite Z.add_assoc; exact E].
  - intros (d & Hd & E). destruct (Z_lt_le_dec d k); [left; exists d; split; [lia|exact E]|right; exists (d - k); split; [lia|]; replace (i + k + (d - k)) with (i + d) by ring; exact E].
Qed.
Lemma orDown_eq n : word 32 n -> orDown n = Z.ones (bits n).
Proof.
  intros H. unfold bits. destruct (Z.eqb_spec n 0) as [->|NZ]; [reflexivity|]. assert (Hn : 0 < n) by (unfold word in H; lia). assert (HL : Z.log2 n < 32) by (apply Z.log2_lt_pow2; unfold word in H; lia). pose proof (Z.log2_nonneg n) as L0.
  assert (S0 : forall i, 0 <= i -> Z.testbit n i = true <-> exists d, 0 <= d < 1 /\ Z.testbit n (i + d) = true). { intros i Hi. split; [intros E; exists 0; split; [lia|now rewrite Z.add_0_r]|]. intros (d & Hd & E). replace d with 0 in E by lia. now rewrite Z.add_0_r in E. }
  pose proof (fill_step n _ 1 ltac:(lia) S0) as S1. pose proof (fill_step n _ 2 ltac:(lia) S1) as S2. pose proof (fill_step n _ 4 ltac:(lia) S2) as S3. pose proof (fill_step n _ 8 ltac:(lia) S3) as S4. pose proof (fill_step n _ 16 ltac:(lia) S4) as S5. unfold orDown. cbv zeta. apply Z.bits_inj'. intros i Hi. specialize (S5 i Hi). match goal with |- ?a = ?b => destruct b eqn:Eb end.
  - apply S5. rewrite Z.testbit_ones_nonneg in Eb by lia. apply Z.ltb_lt in Eb. exists (Z.log2 n - i). split; [lia|]. replace (i + (Z.log2 n - i)) with (Z.log2 n) by ring. now apply Z.bit_log2.
  - apply not_true_is_false. intros X. apply S5 in X as (d & Hd & E). rewrite Z.testbit_ones_nonneg in Eb by lia. apply Z.ltb_ge in Eb. rewrite Z.bits_above_log2 in E by lia. discriminate.
Qed.
Lemma masked n v : word 32 n -> Z.land v (orDown n) = v mod 2 ^ bits n.
Proof. intros H. rewrite orDown_eq by exact H. apply Z.land_ones. unfold bits. pose proof (Z.log2_nonneg n). destruct (n =? 0); lia. Qed.

(** loopZ as a plain iteration *)
Fixpoint runN {A R} (n : nat) (f : A -> option (A + R)) (a : A) : option (A + R) :=
  match n with O => Some (inl a) | S n => match f a with Some (inl b) => runN n f b | r => r end end.
Lemma runN_add {A R} a b (f : A -> option (A + R)) s : runN (a + b) f s = match runN a f s with Some (inl t) => runN b f t | r => r end.
Proof. revert s. induction a as [|a IH]; intros s; [reflexivity|]. cbn [Nat.add runN]. destruct (f s) as [[t|r]|]; [apply IH|reflexivity|reflexivity]. Qed.
Lemma iterP_runN {A R} p (f : A -> option (A + R)) s : iterP p f s = runN (Pos.to_nat p) f s.
Proof.
  revert s. induction p as [p IH|p IH|]; intros s; cbn [iterP].
  - rewrite Pos2Nat.inj_xI. cbn [runN]. destruct (f s) as [[t|r]|]; [|reflexivity|reflexivity]. replace (2 * Pos.to_nat p)%nat with (Pos.to_nat p + Pos.to_nat p)%nat by lia. rewrite runN_add, <- IH. destruct (iterP p f t) as [[u|r]|]; [apply IH|reflexivity|reflexivity].
  - rewrite Pos2Nat.inj_xO. replace (2 * Pos.to_nat p)%nat with (Pos.to_nat p + Pos.to_nat p)%nat by lia. rewrite runN_add, <- IH. destruct (iterP p f s) as [[u|r]|]; [apply IH|reflexivity|reflexivity].
  - change (Pos.to_nat 1) with 1%nat. cbn [runN]. destruct (f s) as [[t|r]|]; reflexivity.
Qed.
Lemma loopZ_runN {A R} fuel (f : A -> option (A + R)) s r : 0 < fuel -> runN (Z.to_nat fuel) f s = Some (inr r) -> loopZ fuel f s = Some r.
Proof. intros Hf E. destruct fuel as [|p|p]; [lia| |lia]. cbn [loopZ]. rewrite iterP_runN. change (Z.to_nat (Z.pos p)) with (Pos.to_nat p) in E. now rewrite E. Qed.

Section Gen.
  Variables N M : nat.
  Hypothesis HM : (2 <= M)%nat.
  Hypothesis HN : (M < N)%nat.
  Variable x : nat -> Z.
  Hypothesis Hx : mt_sequence N M x.
  Hypothesis Hw : forall k, (k < N)%nat -> word 32 (x k).
  Lemma seq_word k : word 32 (x k).
  Proof using HM HN Hx Hw.
    induction k as [k IH] using lt_wf_ind. destruct (Nat.lt_ge_cases k N) as [L|L]; [apply Hw, L|]. replace k with (k - N + N)%nat by lia. rewrite Hx. apply step_word; apply IH; lia.
  Qed.
  Definition holds (base : nat) (s : list Z) : Prop := length s = N /\ forall i, (i < N)%nat -> nth_error s i = Some (x (base + i)%nat).
  Definition half (base p : nat) (s : list Z) : Prop := length s = N /\ forall i, (i < N)%nat -> nth_error s i = Some (if (i <? p)%nat then x (base + N + i)%nat else x (base + i)%nat).
  Lemma set_twist_half base p im i1 s : (p < N)%nat -> (im < N)%nat -> (i1 < N)%nat -> half base p s -> (if (im <? p)%nat then base + N + im else base + im)%nat = (base + p + M)%nat -> (if (i1 <? p)%nat then base + N + i1 else base + i1)%nat = (base + p + 1)%nat -> exists s', set_twist s p im p i1 = Some s' /\ half base (p + 1) s'.
  Proof using HM HN Hx Hw.
    intros Hp Him Hi1 (HL & HS) Em E1. destruct (set_nth_some s p (twist (x (base + p + M)%nat) (x (base + p)%nat) (x (base + p + 1)%nat)) ltac:(lia)) as (s' & Es). exists s'. split.
    - unfold set_twist. rewrite (HS im Him), (HS p Hp), (HS i1 Hi1). cbn [obind]. destruct (Nat.ltb_spec p p) as [L|_]; [lia|]. rewrite <- Es. f_equal. rewrite <- Em, <- E1. destruct (im <? p)%nat, (i1 <? p)%nat; reflexivity.
    - split; [rewrite (set_nth_length _ _ _ _ Es); exact HL|]. intros i Hi. rewrite (set_nth_get _ _ _ _ i Es). destruct (Nat.eqb_spec p i) as [<-|NE].
      + destruct (Nat.ltb_spec p (p + 1)); [|lia]. rewrite twist_eq by apply seq_word. replace (base + N + p)%nat with (base + p + N)%nat by lia. rewrite Hx. reflexivity.
      + rewrite HS by exact Hi. destruct (Nat.ltb_spec i p), (Nat.ltb_spec i (p + 1)); try lia; reflexivity.
  Qed.
  Lemma reload_ok base g : holds base (mt_state g) -> exists s, reload N M g = Some (MT s 0 N) /\ holds (base + N) s.
  Proof using HM HN Hx Hw.
    intros (HL & HS). unfold reload. assert (H0 : half base 0 (mt_state g)) by (split; [exact HL|exact HS]).
    destruct (for_range_spec (fun p s => half base p s) (fun p s => set_twist s p (p + M) p (p + 1)) 0 (N - M) (mt_state g)) as (s1 & R1 & H1); [lia|exact H0| |].
    { intros p s Hp HI. destruct (set_twist_half base p (p + M) (p + 1) s) as (s' & E & H'); [lia|lia|lia|exact HI| | |exists s'; split; [exact E|replace (S p) with (p + 1)%nat by lia; exact H']]. - destruct (Nat.ltb_spec (p + M) p); lia. - destruct (Nat.ltb_spec (p + 1) p); lia. }
    rewrite R1. cbn [obind]. destruct (for_range_spec (fun p s => half base p s) (fun p s => set_twist s p (p + M - N) p (p + 1)) (N - M) (N - 1) s1) as (s2 & R2 & H2); [lia|exact H1| |].
    { intros p s Hp HI. destruct (set_twist_half base p (p + M - N) (p + 1) s) as (s' & E & H'); [lia|lia|lia|exact HI| | |exists s'; split; [exact E|replace (S p) with (p + 1)%nat by lia; exact H']]. - destruct (Nat.ltb_spec (p + M - N) p); lia. - destruct (Nat.ltb_spec (p + 1) p); lia. }
    rewrite R2. cbn [obind]. destruct (set_twist_half base (N - 1) (N - 1 + M - N) 0 s2) as (s3 & R3 & (L3 & H3)); [lia|lia|lia|exact H2|destruct (Nat.ltb_spec (N - 1 + M - N) (N - 1)); lia|destruct (Nat.ltb_spec 0 (N - 1)); lia|]. rewrite R3. cbn [obind]. exists s3. split; [reflexivity|]. split; [exact L3|]. intros i Hi. rewrite H3 by exact Hi. destruct (Nat.ltb_spec i (N - 1 + 1)); [reflexivity|lia].
  Qed.
  (** the generator that will draw the term k next *)
  Definition tracks (k : nat) (g : mtrand) : Prop := exists base, holds base (mt_state g) /\ (mt_left g <= N)%nat /\ mt_next g = (N - mt_left g)%nat /\ k = (base + mt_next g)%nat.
  Lemma randInt_ok k g : tracks k g -> exists g', randInt N M g = Some (mt_output (x k), g') /\ tracks (k + 1) g'.
  Proof using HM HN Hx Hw.
    intros (base & HS & HL & HE & HK). unfold randInt. destruct (Nat.eqb_spec (mt_left g) 0) as [Z0|NZ].
    - destruct (reload_ok base g HS) as (s & R & HS'). rewrite R. cbn [obind mt_state mt_next mt_left]. rewrite (proj2 HS') by lia. cbn [obind]. rewrite temper_eq. replace (base + N + 0)%nat with k by lia. eexists. split; [reflexivity|]. exists (base + N)%nat. cbn [mt_state mt_next mt_left]. split; [exact HS'|]. lia.
    - cbn [obind]. rewrite (proj2 HS) by lia. cbn [obind]. rewrite temper_eq. rewrite <- HK. eexists. split; [reflexivity|]. exists base. cbn [mt_state mt_next mt_left]. split; [exact HS|]. lia.
  Qed.
  Lemma draw_ok n : forall k g, tracks k g -> exists g', draw N M n g = Some (map (fun i => mt_output (x (k + i)%nat)) (seq 0 n), g') /\ tracks (k + n) g'.
  Proof using HM HN Hx Hw.
    induction n as [|n IH]; intros k g H; [exists g; split; [reflexivity|now rewrite Nat.add_0_r]|]. destruct (randInt_ok k g H) as (g1 & R1 & T1). destruct (IH _ _ T1) as (g2 & R2 & T2). exists g2. split; [|replace (k + S n)%nat with (k + 1 + n)%nat by lia; exact T2]. cbn [draw]. rewrite R1. cbn [obind]. rewrite R2. cbn [obind seq map]. rewrite Nat.add_0_r, <- seq_shift, map_map. f_equal. f_equal. f_equal. apply map_ext. intros i. now replace (k + S i)%nat with (k + 1 + i)%nat by lia.
  Qed.
  Lemma save_load k g : tracks k g -> mt_load N (mt_save g) = Some g.
  Proof using HM HN.
    intros (base & (HL & _) & H1 & H2 & _). unfold mt_load, mt_save. rewrite nth_error_app2 by lia. rewrite HL, Nat.sub_diag. cbn [nth_error obind]. rewrite firstn_app, HL, Nat.sub_diag, firstn_all2 by lia. cbn [firstn]. rewrite app_nil_r, Nat2Z.id, <- H2. now destruct g.
  Qed.
  Lemma upto_ok n : word 32 n -> forall j k g fuel, tracks k g -> (forall i, (i < j)%nat -> n < mt_output (x (k + i)%nat) mod 2 ^ bits n) -> mt_output (x (k + j)%nat) mod 2 ^ bits n <= n -> Z.of_nat j < fuel ->
    exists g', randInt_upto N M fuel g n = Some (mt_output (x (k + j)%nat) mod 2 ^ bits n, g') /\ tracks (k + j + 1) g'.
  Proof using HM HN Hx Hw.
    intros Hn j k g fuel HT HB HE HF. unfold randInt_upto. cut (forall n', (S j <= n')%nat -> exists g', runN n' (fun g => let* '(v, g) := randInt N M g in let i := Z.land v (orDown n) in if n <? i then Some (inl g) else Some (inr (i, g))) g = Some (inr (mt_output (x (k + j)%nat) mod 2 ^ bits n, g')) /\ tracks (k + j + 1) g').
    - intros C. destruct (C (Z.to_nat fuel) ltac:(lia)) as (g' & E & T). exists g'. split; [|exact T]. apply loopZ_runN; [lia|exact E].
    - clear HF. revert k g HT HB HE. induction j as [|j IH]; intros k g HT HB HE n' Hn'; (destruct n' as [|n']; [lia|]); destruct (randInt_ok k g HT) as (g1 & R1 & T1); cbn [runN]; rewrite R1; cbn [obind]; cbv zeta; rewrite masked by exact Hn.
      + rewrite !Nat.add_0_r in *. destruct (Z.ltb_spec n (mt_output (x k) mod 2 ^ bits n)); [lia|]. exists g1. split; [reflexivity|exact T1].
      + pose proof (HB O ltac:(lia)) as B0. rewrite Nat.add_0_r in B0. destruct (Z.ltb_spec n (mt_output (x k) mod 2 ^ bits n)); [|lia]. destruct (IH (k + 1)%nat g1 T1) with (n' := n') as (g' & E & T); [intros i Hi; replace (k + 1 + i)%nat with (k + S i)%nat by lia; apply HB; lia|replace (k + 1 + j)%nat with (k + S j)%nat by lia; exact HE|lia|]. exists g'. replace (k + S j)%nat with (k + 1 + j)%nat by lia. split; [exact E|exact T].
  Qed.
End Gen.
