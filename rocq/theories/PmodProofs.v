From Coq Require Import Ring_theory Znumtheory Eqdep_dec.
From Verif Require Import Lib BaseModel BaseProofs RingSpec RingProofs FftModel FftSpec FftProofs FftProofs2 FftProofs3 FftProofs4 FftProofs5.
Open Scope nat_scope.

(** the transform commutes with maps that respect the operations *)
Lemma set_nth_map {A B} (f : A -> B) l : forall i x, set_nth (map f l) i (f x) = option_map (map f) (set_nth l i x).
Proof. induction l as [|y l IH]; intros [|i] x; try reflexivity. cbn [map set_nth]. rewrite IH. destruct (set_nth l i x); reflexivity. Qed.
Lemma for_range_map {S1 S2} (h : S1 -> S2) (b1 : nat -> S1 -> option S1) (b2 : nat -> S2 -> option S2) a b : (forall i s, b2 i (h s) = option_map h (b1 i s)) -> forall s, for_range a b b2 (h s) = option_map h (for_range a b b1 s).
Proof. intros H. unfold for_range. generalize (b - a). intros n. revert a. induction n as [|n IH]; intros a s; [reflexivity|]. cbn [for_n]. rewrite H. destruct (b1 a s) as [s'|]; [|reflexivity]. cbn [option_map obind]. apply IH. Qed.
Section Map.
  Context {A B : Type}.
  Variables (add1 sub1 mul1 : A -> A -> A) (one1 : A) (add2 sub2 mul2 : B -> B -> B) (one2 : B) (f : A -> B).
  Hypotheses (Hadd : forall x y, add2 (f x) (f y) = f (add1 x y)) (Hsub : forall x y, sub2 (f x) (f y) = f (sub1 x y)) (Hmul : forall x y, mul2 (f x) (f y) = f (mul1 x y)) (Hone : one2 = f one1).
  Lemma butterfly_map l x h w : butterfly add2 sub2 mul2 (fun x => x) (map f l) x h (f w) = option_map (map f) (butterfly add1 sub1 mul1 (fun x => x) l x h w).
  Proof using Hadd Hsub Hmul.
    unfold butterfly. rewrite !nth_error_map. destruct (nth_error l x) as [a|]; [|reflexivity]. cbn [option_map obind]. destruct (nth_error l (x + h)) as [c|]; [|reflexivity]. cbn [option_map obind]. rewrite Hadd, set_nth_map. destruct (set_nth l x (add1 a c)) as [l'|]; [|reflexivity]. cbn [option_map obind]. rewrite Hsub, Hmul. apply set_nth_map.
  Qed.
  Lemma pass_map size m w l : fft_pass add2 sub2 mul2 mul2 one2 (fun x => x) size m (f w) (map f l) = option_map (map f) (fft_pass add1 sub1 mul1 mul1 one1 (fun x => x) size m w l).
  Proof using Hadd Hsub Hmul Hone.
    unfold fft_pass. apply for_range_map. intros b s. rewrite Hone. pose (h := fun p : list A * A => (map f (fst p), f (snd p))). change (map f s, f one1) with (h (s, one1)). rewrite (for_range_map h (fun j '(data, r) => let* data := butterfly add1 sub1 mul1 (fun x => x) data (b * m + j) (m / 2) r in Some (data, mul1 r w))).
    - destruct (for_range 0 (m / 2) _ (s, one1)) as [(s', r')|]; reflexivity.
    - intros j (s', r'). unfold h at 1. cbn [fst snd]. rewrite butterfly_map. destruct (butterfly _ _ _ _ s' _ _ _); [|reflexivity]. cbn [option_map obind]. now rewrite Hmul.
  Qed.
  Lemma passes_map fuel : forall size m w l, fft_passes add2 sub2 mul2 mul2 one2 (fun x => x) fuel size m (f w) (map f l) = option_map (map f) (fft_passes add1 sub1 mul1 mul1 one1 (fun x => x) fuel size m w l).
  Proof using Hadd Hsub Hmul Hone.
    induction fuel as [|fuel IH]; intros size m w l; [reflexivity|]. cbn [fft_passes]. destruct (1 <? m); [|reflexivity]. rewrite pass_map. destruct (fft_pass add1 _ _ _ _ _ _ _ _ l); [|reflexivity]. cbn [option_map obind]. rewrite Hmul. apply IH.
  Qed.
  Lemma reorder_map size l : fft_reorder size (map f l) = option_map (map f) (fft_reorder size l).
  Proof using Type.
    unfold fft_reorder. pose (h := fun p : list A * nat => (map f (fst p), snd p)). change (map f l, 0) with (h (l, 0)). rewrite (for_range_map h (fun j '(data, i) => let* i := rev_next (S size) i (size / 2) in
      if j <? i then let* a := nth_error data i in let* c := nth_error data j in let* data := set_nth data i c in let* data := set_nth data j a in Some (data, i) else Some (data, i))).
    - destruct (for_range 1 (size - 1) _ (l, 0)) as [(s', r')|]; reflexivity.
    - intros j (s, i). unfold h at 1. cbn [fst snd]. destruct (rev_next _ _ _) as [i'|]; [|reflexivity]. cbn [obind]. destruct (j <? i'); [|reflexivity]. rewrite !nth_error_map. destruct (nth_error s i'); [|reflexivity]. cbn [option_map obind]. destruct (nth_error s j); [|reflexivity]. cbn [option_map obind]. rewrite set_nth_map. destruct (set_nth s i' _) as [s'|]; [|reflexivity]. cbn [option_map obind]. rewrite set_nth_map. destruct (set_nth s' j _); reflexivity.
  Qed.
  Lemma fft_map l size w : fft add2 sub2 mul2 mul2 one2 (fun x => x) (map f l) size (f w) = option_map (map f) (fft add1 sub1 mul1 mul1 one1 (fun x => x) l size w).
  Proof using Hadd Hsub Hmul Hone.
    unfold fft. destruct (negb _); [reflexivity|]. rewrite passes_map. destruct (fft_passes add1 _ _ _ _ _ _ _ _ _ l); [|reflexivity]. cbn [option_map obind]. apply reorder_map.
  Qed.
End Map.

(** linearity *)
Section Lin.
  Context {T : Type}.
  Variables (zero one : T) (add mul sub : T -> T -> T) (opp : T -> T).
  Hypothesis Rth : ring_theory zero one add mul sub opp (@eq T).
  Add Ring TRingPm : Rth.
  Lemma dft_add n w a b k : dft zero one add mul n w (fun x => add (a x) (b x)) k = add (dft zero one add mul n w a k) (dft zero one add mul n w b k).
  Proof using Rth. unfold dft. rewrite <- (rsum_add zero one add mul sub opp Rth). apply rsum_ext. intros i _. ring. Qed.
  Lemma dft_scale n w a c k : dft zero one add mul n w (fun x => mul (a x) c) k = mul (dft zero one add mul n w a k) c.
  Proof using Rth. unfold dft. rewrite <- (rsum_mul_r zero one add mul sub opp Rth). apply rsum_ext. intros i _. ring. Qed.
  Lemma conv_back L w a b ni k : half_root one mul opp (2 ^ L) w -> mul (rnat zero one add (2 ^ L)) ni = one ->
    dft zero one add mul (2 ^ L) (rpow one mul w (2 ^ L - 1)) (fun x => mul (mul (dft zero one add mul (2 ^ L) w a x) (dft zero one add mul (2 ^ L) w b x)) ni) k = cyclic_sum zero add mul (2 ^ L) (2 ^ L) a b k.
  Proof using Rth. intros H E. rewrite dft_scale. rewrite (dft_conv zero one add mul sub opp Rth) by exact H. transitivity (mul (mul (rnat zero one add (2 ^ L)) ni) (cyclic_sum zero add mul (2 ^ L) (2 ^ L) a b k)); [ring|rewrite E; ring]. Qed.
  Lemma conv_back2 L w a b c d ni k : half_root one mul opp (2 ^ L) w -> mul (rnat zero one add (2 ^ L)) ni = one ->
    dft zero one add mul (2 ^ L) (rpow one mul w (2 ^ L - 1)) (fun x => mul (add (mul (dft zero one add mul (2 ^ L) w a x) (dft zero one add mul (2 ^ L) w b x)) (mul (dft zero one add mul (2 ^ L) w c x) (dft zero one add mul (2 ^ L) w d x))) ni) k = add (cyclic_sum zero add mul (2 ^ L) (2 ^ L) a b k) (cyclic_sum zero add mul (2 ^ L) (2 ^ L) c d k).
  Proof using Rth. intros H E. rewrite <- !(conv_back L w _ _ ni k H E), <- dft_add. unfold dft at 1 6. apply rsum_ext. intros i _. ring. Qed.
End Lin.

(** sequences ending in zeros *)
Lemma cyclic_linear (a b : nat -> Z) la lb n k : (forall i, la <= i -> a i = 0%Z) -> (forall i, lb <= i -> b i = 0%Z) -> la + lb - 1 <= n -> 0 < la -> 0 < lb -> k < n ->
  cyclic_sum 0%Z Z.add Z.mul n n a b k = conv_sum 0%Z Z.add Z.mul a b k.
Proof.
  intros A B N LA LB K. unfold cyclic_sum, conv_sum. replace n with (S k + (n - S k)) at 1 by lia. rewrite (rsum_split 0%Z 1%Z Z.add Z.mul Z.sub Z.opp Zth). rewrite (rsum_zero 0%Z 1%Z Z.add Z.mul Z.sub Z.opp Zth (n - S k)).
  - rewrite Z.add_0_r. apply rsum_ext. intros i Hi. now rewrite cyc_le by lia.
  - intros i Hi. rewrite cyc_gt by lia. destruct (Nat.lt_ge_cases (S k + i) la); [rewrite (B (n + k - (S k + i))) by lia; ring|rewrite (A (S k + i)) by lia; ring].
Qed.
Lemma conv_bound (a b : nat -> Z) A B k : (0 <= A)%Z -> (0 <= B)%Z -> (forall i, 0 <= a i <= A)%Z -> (forall i, 0 <= b i <= B)%Z -> (0 <= conv_sum 0 Z.add Z.mul a b k <= Z.of_nat (S k) * (A * B))%Z.
Proof.
  intros HA HB Ha Hb. unfold conv_sum. assert (W : forall n, (0 <= rsum 0%Z Z.add n (fun i => a i * b (k - i)%nat) <= Z.of_nat n * (A * B))%Z); [|apply W]. induction n as [|n IH]; [cbn; lia|]. cbn [rsum]. rewrite Nat2Z.inj_succ. specialize (Ha n). specialize (Hb (k - n)). assert (0 <= a n * b (k - n)%nat <= A * B)%Z by (split; [apply Z.mul_nonneg_nonneg; lia|apply Z.mul_le_mono_nonneg; lia]). lia.
Qed.
Open Scope Z_scope.
Lemma conv_hilo (h1 l1 h2 l2 : nat -> Z) k : conv_sum 0 Z.add Z.mul (fun i => h1 i * 65536 + l1 i) (fun i => h2 i * 65536 + l2 i) k =
  conv_sum 0 Z.add Z.mul h1 h2 k * 2 ^ 32 + (conv_sum 0 Z.add Z.mul l1 h2 k + conv_sum 0 Z.add Z.mul h1 l2 k) * 2 ^ 16 + conv_sum 0 Z.add Z.mul l1 l2 k.
Proof. unfold conv_sum. generalize (S k). intros n. change (2 ^ 32) with (65536 * 65536). change (2 ^ 16) with 65536. induction n as [|n IH]; [reflexivity|]. cbn [rsum]. rewrite IH. ring. Qed.
