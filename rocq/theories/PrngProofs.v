From Coq Require Import Znumtheory Zpow_facts.
From Verif Require Import Lib PrngModel PrngSpec.
Open Scope Z_scope.

(** xor with a shifted copy *)
Lemma word_bits w x : 0 <= w -> word w x <-> 0 <= x /\ forall i, w <= i -> Z.testbit x i = false.
Proof.
  intros Hw. unfold word. split.
  - intros H. split; [lia|]. intros i Hi. destruct (Z.eq_dec x 0) as [->|]; [apply Z.bits_0|]. apply Z.bits_above_log2; [lia|]. assert (Z.log2 x < w) by (apply Z.log2_lt_pow2; lia). lia.
  - intros (H & B). split; [exact H|]. destruct (Z_lt_le_dec x (2 ^ w)) as [|L]; [assumption|]. assert (0 < x) by (pose proof (Z.pow_pos_nonneg 2 w); lia). assert (w <= Z.log2 x) by (apply Z.log2_le_pow2; lia). pose proof (B (Z.log2 x) ltac:(lia)) as E. rewrite Z.bit_log2 in E by lia. discriminate.
Qed.
Lemma word_lxor w x y : 0 <= w -> word w x -> word w y -> word w (Z.lxor x y).
Proof. intros Hw Hx Hy. apply word_bits in Hx as (X1 & X2), Hy as (Y1 & Y2); try exact Hw. apply word_bits; [exact Hw|]. split; [apply Z.lxor_nonneg; lia|]. intros i Hi. rewrite Z.lxor_spec, X2, Y2 by exact Hi. reflexivity. Qed.
Lemma word_shiftr w k x : 0 <= w -> 0 <= k -> word w x -> word w (Z.shiftr x k).
Proof. intros Hw Hk (X1 & X2). rewrite Z.shiftr_div_pow2 by exact Hk. pose proof (Z.pow_pos_nonneg 2 k ltac:(lia) Hk). split; [apply Z.div_pos; lia|]. apply Z.le_lt_trans with x; [|exact X2]. apply Z.div_le_upper_bound; [lia|]. assert (1 * x <= 2 ^ k * x) by (apply Z.mul_le_mono_nonneg_r; lia). lia. Qed.
Lemma word_mod w x : 0 <= w -> word w (x mod 2 ^ w).
Proof. intros. apply Z.mod_pos_bound. apply Z.pow_pos_nonneg; lia. Qed.
Lemma word_land w x y : 0 <= w -> word w x -> 0 <= y -> word w (Z.land x y).
Proof. intros Hw Hx Hy. apply word_bits in Hx as (X1 & X2); [|exact Hw]. apply word_bits; [exact Hw|]. split; [apply Z.land_nonneg; lia|]. intros i Hi. rewrite Z.land_spec, X2 by exact Hi. reflexivity. Qed.
Lemma xsr_inj k x y : 0 < k -> 0 <= x -> 0 <= y -> Z.lxor x (Z.shiftr x k) = Z.lxor y (Z.shiftr y k) -> x = y.
Proof.
  intros Hk Hx Hy E. apply Z.lxor_eq. set (d := Z.lxor x y). assert (Hd : 0 <= d) by (apply Z.lxor_nonneg; lia). assert (E2 : d = Z.shiftr d k). { apply Z.lxor_eq. unfold d. rewrite Z.shiftr_lxor. transitivity (Z.lxor (Z.lxor x (Z.shiftr x k)) (Z.lxor y (Z.shiftr y k))); [|rewrite E; apply Z.lxor_nilpotent]. rewrite !Z.lxor_assoc. f_equal. rewrite <- !Z.lxor_assoc. f_equal. apply Z.lxor_comm. }
  rewrite Z.shiftr_div_pow2 in E2 by lia. assert (1 < 2 ^ k) by (apply Z.pow_gt_1; lia). destruct (Z.eq_dec d 0) as [|NZ]; [assumption|]. pose proof (Z.div_lt d (2 ^ k) ltac:(lia) ltac:(lia)). lia.
Qed.
Lemma xsl_inj w k m x y : 0 <= w -> 0 < k -> word w x -> word w y -> Z.lxor x (Z.land (Z.shiftl x k mod 2 ^ w) m) = Z.lxor y (Z.land (Z.shiftl y k mod 2 ^ w) m) -> x = y.
Proof.
  intros Hw Hk Hx Hy E. apply word_bits in Hx as (X1 & X2), Hy as (Y1 & Y2); try exact Hw. apply Z.bits_inj'. intros i Hi. revert i Hi. apply (Zlt_0_ind (fun i => Z.testbit x i = Z.testbit y i)). intros i IH Hi. destruct (Z_lt_le_dec i w) as [L|L]; [|now rewrite X2, Y2].
  apply (f_equal (fun z => Z.testbit z i)) in E. rewrite !Z.lxor_spec, !Z.land_spec, !Z.mod_pow2_bits_low, !Z.shiftl_spec in E by lia. destruct (Z_lt_le_dec i k) as [K|K].
  - rewrite !(Z.testbit_neg_r _ (i - k)) in E by lia. destruct (Z.testbit x i), (Z.testbit y i); cbn in E; congruence.
  - rewrite (IH (i - k)) in E by lia. destruct (Z.testbit x i), (Z.testbit y i), (Z.testbit y (i - k)), (Z.testbit m i); cbn in E; congruence.
Qed.
Lemma xsl_inj' w k x y : 0 <= w -> 0 < k -> word w x -> word w y -> Z.lxor x (Z.shiftl x k mod 2 ^ w) = Z.lxor y (Z.shiftl y k mod 2 ^ w) -> x = y.
Proof. intros Hw Hk Hx Hy E. apply (xsl_inj w k (-1)); try assumption. now rewrite !Z.land_m1_r. Qed.
Lemma odd_mul_inj w c x y : 0 <= w -> Z.odd c = true -> word w x -> word w y -> (x * c) mod 2 ^ w = (y * c) mod 2 ^ w -> x = y.
Proof.
  intros Hw Hc Hx Hy E. assert (P : 0 < 2 ^ w) by (apply Z.pow_pos_nonneg; lia). assert (D : (2 ^ w | (x - y) * c)). { replace ((x - y) * c) with (x * c - y * c) by ring. apply Z.mod_divide; [lia|]. rewrite Zminus_mod, E, Z.sub_diag. apply Z.mod_0_l. lia. }
  assert (R : rel_prime (2 ^ w) c). { apply rel_prime_sym, rel_prime_Zpower_r; [exact Hw|]. apply rel_prime_sym, prime_rel_prime; [exact prime_2|]. intros [q ->]. rewrite Z.odd_mul in Hc. cbn in Hc. rewrite andb_false_r in Hc. discriminate. }
  rewrite Z.mul_comm in D. apply Gauss in D; [|exact R]. destruct D as [q Eq]. unfold word in *. assert (q = 0); [|lia]. destruct (Z.lt_trichotomy q 0) as [L|[L|L]]; [|exact L|]; [assert (q * 2 ^ w <= -1 * 2 ^ w) by (apply Z.mul_le_mono_nonneg_r; lia)|assert (1 * 2 ^ w <= q * 2 ^ w) by (apply Z.mul_le_mono_nonneg_r; lia)]; lia.
Qed.

(** xorshift_64star *)
Lemma xs64_word x : word 64 x -> word 64 (fst (xs64_next x)) /\ word 64 (snd (xs64_next x)).
Proof. intros H. unfold xs64_next. cbn [fst snd]. unfold u64. split; [apply word_mod; lia|]. repeat (first [apply word_lxor; [lia| |]|apply word_shiftr; [lia|lia|]|apply word_mod; lia|exact H]). Qed.
Lemma xs64_inj x y : word 64 x -> word 64 y -> snd (xs64_next x) = snd (xs64_next y) -> x = y.
Proof.
  intros Hx Hy E. unfold xs64_next in E. cbn [snd] in E. unfold u64 in E.
  assert (A : forall z, word 64 z -> word 64 (Z.lxor z (Z.shiftr z 12))) by (intros z Hz; apply word_lxor; [lia|exact Hz|]; apply word_shiftr; [lia|lia|exact Hz]). assert (B : forall z, word 64 z -> word 64 (Z.lxor z (Z.shiftl z 25 mod 2 ^ 64))) by (intros z Hz; apply word_lxor; [lia|exact Hz|]; apply word_mod; lia).
  apply xsr_inj in E; [|lia|apply (B _ (A _ Hx))|apply (B _ (A _ Hy))]. apply xsl_inj' in E; [|lia|lia|apply A, Hx|apply A, Hy]. apply xsr_inj in E; [exact E|lia|apply Hx|apply Hy].
Qed.
Lemma xs64_out x y : word 64 x -> word 64 y -> fst (xs64_next x) = fst (xs64_next y) -> x = y.
Proof. intros Hx Hy E. apply xs64_inj; [exact Hx|exact Hy|]. pose proof (xs64_word x Hx) as (_ & WX). pose proof (xs64_word y Hy) as (_ & WY). unfold xs64_next in E. cbn [fst] in E. unfold u64 at 1 3 in E. apply odd_mul_inj in E; [exact E|lia|reflexivity|exact WX|exact WY]. Qed.

(** an injective map of a finite set into itself is periodic *)
Lemma pigeon {A} (dec : forall x y : A, {x = y} + {x <> y}) (f : nat -> A) (L : list A) : (forall n, In (f n) L) -> exists i j, (i < j)%nat /\ f i = f j.
Proof.
  intros H. assert (W : forall n, NoDup (map f (seq 0 n)) \/ exists i j, (i < j < n)%nat /\ f i = f j).
  { induction n as [|n [IH|(i & j & IH & E)]]; [left; constructor| |right; exists i, j; split; [lia|exact E]]. destruct (in_dec dec (f n) (map f (seq 0 n))) as [I|I].
    - right. apply in_map_iff in I as (i & E & I). apply in_seq in I. exists i, n. split; [lia|exact E].
    - left. rewrite seq_S, map_app. cbn [map Nat.add]. apply NoDup_rev in IH. rewrite <- (rev_involutive (map f (seq 0 n) ++ [f n])). apply NoDup_rev. rewrite rev_unit. constructor; [rewrite <- in_rev; exact I|exact IH]. }
  destruct (W (S (length L))) as [ND|(i & j & Hij & E)]; [|exists i, j; split; [lia|exact E]]. exfalso. assert (length (map f (seq 0 (S (length L)))) <= length L)%nat by (apply NoDup_incl_length; [exact ND|]; intros x I; apply in_map_iff in I as (n & <- & _); apply H). rewrite map_length, seq_length in *. lia.
Qed.
Lemma times_S {A} n (f : A -> A) x : times (S n) f x = f (times n f x).
Proof. revert x. induction n as [|n IH]; intros x; [reflexivity|]. cbn [times] in *. now rewrite <- IH. Qed.
Lemma times_inv {A} (P : A -> Prop) f n : (forall x, P x -> P (f x)) -> forall x, P x -> P (times n f x).
Proof. intros H. induction n as [|n IH]; intros x Px; [exact Px|]. cbn [times]. apply IH, H, Px. Qed.
Lemma periodic {A} (dec : forall x y : A, {x = y} + {x <> y}) (P : A -> Prop) (L : list A) (f : A -> A) : (forall x, P x -> In x L) -> (forall x, P x -> P (f x)) -> (forall x y, P x -> P y -> f x = f y -> x = y) -> forall x, P x -> exists n, (1 <= n)%nat /\ times n f x = x.
Proof.
  intros HL HP HI x Px. destruct (pigeon dec (fun n => times n f x) L) as (i & j & Hij & E); [intros n; apply HL, times_inv; [exact HP|exact Px]|]. exists (j - i)%nat. split; [lia|]. revert E Hij. generalize j. clear j. induction i as [|i IH]; intros j E Hij; [rewrite Nat.sub_0_r; symmetry; exact E|]. destruct j as [|j]; [lia|]. rewrite !times_S in E. apply HI in E; [|apply times_inv; assumption|apply times_inv; assumption]. apply IH in E; [exact E|lia].
Qed.
Definition words (w : Z) : list Z := map Z.of_nat (seq 0 (Z.to_nat (2 ^ w))).
Lemma words_in w x : word w x -> In x (words w).
Proof. intros H. unfold words. apply in_map_iff. exists (Z.to_nat x). unfold word in H. split; [lia|apply in_seq; lia]. Qed.
Lemma xs64_periodic x : word 64 x -> exists n, (1 <= n)%nat /\ times n (fun x => snd (xs64_next x)) x = x.
Proof. apply (periodic Z.eq_dec (word 64) (words 64)); [apply words_in|intros y Hy; now apply xs64_word|intros; now apply xs64_inj]. Qed.
Lemma xs64_zero : xs64_next 0 = (0, 0).
Proof. reflexivity. Qed.
Lemma xs64_nonzero x : word 64 x -> x <> 0 -> fst (xs64_next x) <> 0 /\ snd (xs64_next x) <> 0.
Proof. intros H NZ. assert (W0 : word 64 0) by (split; [lia|reflexivity]). split; intros E; apply NZ; [apply xs64_out|apply xs64_inj]; auto. Qed.

(** xorshift_1024star *)
Definition mixed (x : Z) : Z := Z.lxor (Z.lxor x (u64 (Z.shiftl x 31))) (Z.shiftr (Z.lxor x (u64 (Z.shiftl x 31))) 11).
Lemma mixed_word x : word 64 x -> word 64 (mixed x).
Proof. intros H. unfold mixed, u64. repeat (first [apply word_lxor; [lia| |]|apply word_shiftr; [lia|lia|]|apply word_mod; lia|exact H]). Qed.
Lemma mixed_inj x y : word 64 x -> word 64 y -> mixed x = mixed y -> x = y.
Proof. intros Hx Hy E. unfold mixed, u64 in E. assert (B : forall z, word 64 z -> word 64 (Z.lxor z (Z.shiftl z 31 mod 2 ^ 64))) by (intros z Hz; apply word_lxor; [lia|exact Hz|]; apply word_mod; lia). apply xsr_inj in E; [|lia|apply (B _ Hx)|apply (B _ Hy)]. apply xsl_inj' in E; [exact E|lia|lia|exact Hx|exact Hy]. Qed.
Lemma forall_nth {A} (P : A -> Prop) l i x : Forall P l -> nth_error l i = Some x -> P x.
Proof. intros H E. apply nth_error_In in E. rewrite Forall_forall in H. now apply H. Qed.
Lemma forall_set {A} (P : A -> Prop) l l' i x : Forall P l -> P x -> set_nth l i x = Some l' -> Forall P l'.
Proof. intros H Hx E. apply Forall_forall. intros y I. apply In_nth_error in I as (j & Ej). rewrite (set_nth_get _ _ _ _ j E) in Ej. destruct (i =? j)%nat; [injection Ej as <-; exact Hx|]. now apply (forall_nth P l j). Qed.
Lemma xs1024_run s p : valid (s, p) -> exists a b s', nth_error s p = Some a /\ nth_error s ((p + 1) mod 16) = Some b /\ set_nth s ((p + 1) mod 16) (Z.lxor (Z.lxor a (Z.shiftr a 30)) (mixed b)) = Some s' /\
  xs1024_next (s, p) = Some (u64 (Z.lxor (Z.lxor a (Z.shiftr a 30)) (mixed b) * 1181783497276652981), (s', ((p + 1) mod 16)%nat)) /\ word 64 a /\ word 64 b /\ valid (s', ((p + 1) mod 16)%nat).
Proof.
  intros (L & F & Hp). pose proof (Nat.mod_upper_bound (p + 1) 16 ltac:(lia)) as B. set (q := ((p + 1) mod 16)%nat) in *. destruct (nth_error s p) as [a|] eqn:Ea; [|apply nth_error_None in Ea; lia]. destruct (nth_error s q) as [b|] eqn:Eb; [|apply nth_error_None in Eb; lia]. pose proof (forall_nth _ _ _ _ F Ea) as Wa. pose proof (forall_nth _ _ _ _ F Eb) as Wb.
  destruct (set_nth_some s q (Z.lxor (Z.lxor a (Z.shiftr a 30)) (mixed b)) ltac:(lia)) as (s' & Es). exists a, b, s'. split; [reflexivity|]. split; [reflexivity|]. split; [exact Es|]. split.
  - unfold xs1024_next. fold q. rewrite Ea, Eb. cbn [obind]. cbv zeta. fold (mixed b). rewrite Es. reflexivity.
  - split; [exact Wa|]. split; [exact Wb|]. split; [rewrite (set_nth_length _ _ _ _ Es); exact L|]. split; [|exact B]. apply (forall_set _ _ _ _ _ F) in Es; [exact Es|]. apply word_lxor; [lia| |apply mixed_word, Wb]. apply word_lxor; [lia|exact Wa|]. apply word_shiftr; [lia|lia|exact Wa].
Qed.
Definition xs1024_step (g : list Z * nat) : list Z * nat := match xs1024_next g with Some (_, g') => g' | None => g end.
Lemma succ_mod_inj p q : (p < 16)%nat -> (q < 16)%nat -> ((p + 1) mod 16 = (q + 1) mod 16)%nat -> p = q.
Proof. intros Hp Hq E. pose proof (Nat.div_mod_eq (p + 1) 16). pose proof (Nat.div_mod_eq (q + 1) 16). assert ((p + 1) / 16 <= 1 /\ (q + 1) / 16 <= 1)%nat by (split; apply Nat.div_le_upper_bound; lia). pose proof (Nat.mod_upper_bound (p + 1) 16). lia. Qed.
Lemma succ_mod_neq p : (p < 16)%nat -> ((p + 1) mod 16 <> p)%nat.
Proof. intros Hp E. pose proof (Nat.div_mod_eq (p + 1) 16). lia. Qed.
Lemma nth_eq {A} (l l' : list A) : (forall i, nth_error l i = nth_error l' i) -> l = l'.
Proof. revert l'. induction l as [|x l IH]; intros [|y l'] H; [reflexivity|specialize (H O); discriminate|specialize (H O); discriminate|]. f_equal; [specialize (H O); cbn in H; congruence|]. apply IH. intros i. apply (H (S i)). Qed.
Lemma lxor_cancel a x y : Z.lxor a x = Z.lxor a y -> x = y.
Proof. intros E. apply (f_equal (Z.lxor a)) in E. now rewrite <- !Z.lxor_assoc, Z.lxor_nilpotent, !Z.lxor_0_l in E. Qed.
Lemma xs1024_inj g h : valid g -> valid h -> xs1024_step g = xs1024_step h -> g = h.
Proof.
  destruct g as [s p], h as [t q]. intros Vg Vh E. destruct (xs1024_run s p Vg) as (a & b & s' & A1 & A2 & A3 & A4 & A5 & A6 & _). destruct (xs1024_run t q Vh) as (c & d & t' & B1 & B2 & B3 & B4 & B5 & B6 & _). unfold xs1024_step in E. rewrite A4, B4 in E. apply pair_equal_spec in E as (E1 & E2). destruct Vg as (_ & _ & Hp), Vh as (_ & _ & Hq). apply succ_mod_inj in E2; [|exact Hp|exact Hq]. subst q t'. f_equal. pose proof (succ_mod_neq p Hp) as NE. set (r := ((p + 1) mod 16)%nat) in *.
  assert (EQ : forall i, i <> r -> nth_error s i = nth_error t i). { intros i Hi. pose proof (set_nth_get _ _ _ _ i A3) as X. rewrite (set_nth_get _ _ _ _ i B3) in X. destruct (Nat.eqb_spec r i); [congruence|]. now symmetry. }
  assert (AC : a = c) by (pose proof (EQ p (not_eq_sym NE)); congruence). subst c. pose proof (set_nth_get _ _ _ _ r A3) as X. rewrite (set_nth_get _ _ _ _ r B3) in X. destruct (Nat.eqb_spec r r); [|contradiction]. assert (X' : Z.lxor (Z.lxor a (Z.shiftr a 30)) (mixed d) = Z.lxor (Z.lxor a (Z.shiftr a 30)) (mixed b)) by congruence. apply lxor_cancel in X'. apply mixed_inj in X'; [|exact B6|exact A6]. subst d. apply nth_eq. intros i. destruct (Nat.eq_dec i r) as [->|Hi]; [congruence|now apply EQ].
Qed.
Lemma xs1024_valid g : valid g -> valid (xs1024_step g).
Proof. destruct g as [s p]. intros V. destruct (xs1024_run s p V) as (a & b & s' & _ & _ & _ & E & _ & _ & V'). unfold xs1024_step. rewrite E. exact V'. Qed.
Lemma lists_of (w : Z) n : exists L : list (list Z), forall s, length s = n -> Forall (word w) s -> In s L.
Proof.
  induction n as [|n (L & HL)]; [exists [[]]; intros [|] H _; [now left|discriminate]|]. exists (flat_map (fun x => map (cons x) L) (words w)). intros [|x s] H F; [discriminate|]. inversion F; subst. apply in_flat_map. exists x. split; [now apply words_in|]. apply in_map, HL; [now inversion H|assumption].
Qed.
Lemma xs1024_periodic g : valid g -> exists n, (1 <= n)%nat /\ times n xs1024_step g = g.
Proof.
  destruct (lists_of 64 16) as (L & HL). apply (periodic (fun x y : list Z * nat => ltac:(decide equality; [apply Nat.eq_dec|apply list_eq_dec, Z.eq_dec])) valid (list_prod L (seq 0 16))); [|apply xs1024_valid|apply xs1024_inj]. intros [s p] (V1 & V2 & V3). apply in_prod; [now apply HL|apply in_seq; lia].
Qed.
Lemma xs1024_zero s p : valid (s, p) -> (forall x, In x (fst (xs1024_step (s, p))) -> x = 0) -> forall x, In x s -> x = 0.
Proof.
  intros V H. destruct (xs1024_run s p V) as (a & b & s' & A1 & A2 & A3 & A4 & A5 & A6 & _). unfold xs1024_step in H. rewrite A4 in H. cbn [fst] in H. destruct V as (_ & _ & Hp). pose proof (succ_mod_neq p Hp) as NE. set (r := ((p + 1) mod 16)%nat) in *.
  assert (a0 : a = 0). { apply H. apply (nth_error_In s' p). rewrite (set_nth_get _ _ _ _ p A3). destruct (Nat.eqb_spec r p); [congruence|exact A1]. } assert (b0 : b = 0). { assert (X : Z.lxor (Z.lxor a (Z.shiftr a 30)) (mixed b) = 0) by (apply H, (nth_error_In s' r); rewrite (set_nth_get _ _ _ _ r A3), Nat.eqb_refl; reflexivity). rewrite a0 in X. change (Z.lxor 0 (Z.shiftr 0 30)) with 0 in X. rewrite Z.lxor_0_l in X. apply mixed_inj; [exact A6|split; [lia|reflexivity]|rewrite X; reflexivity]. }
  intros x I. apply In_nth_error in I as (i & Ei). destruct (Nat.eq_dec i r) as [->|NR]; [congruence|]. apply H. apply (nth_error_In s' i). rewrite (set_nth_get _ _ _ _ i A3). destruct (Nat.eqb_spec r i); [congruence|exact Ei].
Qed.
Lemma xs1024_seed_ok x : word 64 x -> valid (xs1024_seed x) /\ (x <> 0 -> Forall (fun v => v <> 0) (fst (xs1024_seed x))) /\
  forall i, (i < 16)%nat -> nth_error (fst (xs1024_seed x)) i = Some (fst (xs64_next (times i (fun x => snd (xs64_next x)) x))).
Proof.
  intros Hx. unfold xs1024_seed. assert (G : forall (l : list nat) s y, fold_left (fun '(s, x) (_ : nat) => let '(v, x) := xs64_next x in (s ++ [v], x)) l (s, y) = (s ++ map (fun i => fst (xs64_next (times i (fun x => snd (xs64_next x)) y))) (seq 0 (length l)), times (length l) (fun x => snd (xs64_next x)) y)).
  { induction l as [|n l IH]; intros s y; cbn [fold_left]; [cbn; now rewrite app_nil_r|]. destruct (xs64_next y) as [v x'] eqn:E. rewrite IH. cbn [length seq map times]. rewrite E. cbn [fst snd]. rewrite <- app_assoc, <- seq_shift, map_map. cbn [app]. f_equal. f_equal. f_equal. apply map_ext. intros i. cbn [times]. now rewrite E. }
  rewrite G. cbn [app fst]. rewrite seq_length. set (f := fun i => fst (xs64_next (times i (fun x0 => snd (xs64_next x0)) x))). assert (W : forall i, word 64 (times i (fun x => snd (xs64_next x)) x)) by (intros i; apply times_inv; [intros y Hy; now apply xs64_word|exact Hx]). split; [|split].
  - split; [now rewrite map_length, seq_length|]. split; [|lia]. apply Forall_forall. intros v I. apply in_map_iff in I as (i & <- & _). apply xs64_word, W.
  - intros NZ. apply Forall_forall. intros v I. apply in_map_iff in I as (i & <- & _). apply xs64_nonzero; [apply W|]. assert (Q : word 64 (times i (fun x0 => snd (xs64_next x0)) x) /\ times i (fun x0 => snd (xs64_next x0)) x <> 0); [|apply Q]. apply (times_inv (fun y => word 64 y /\ y <> 0)); [|now split]. intros y (Y1 & Y2). split; [now apply xs64_word|now apply xs64_nonzero].
  - intros i Hi. rewrite nth_error_map. rewrite (nth_error_nth' _ O) by (rewrite seq_length; lia). rewrite seq_nth by lia. reflexivity.
Qed.
