From Verif Require Import Lib PrngModel PrngSpec PrngProofs PrngProofs2.
Open Scope Z_scope.

(** no zero window *)
Lemma step_zero x0 x1 : word 32 x0 -> word 32 x1 -> mt_step 0 x0 x1 = 0 -> x0 / 2 ^ 31 = 0 /\ x1 mod 2 ^ 31 = 0.
Proof.
  intros H0 H1 E. unfold mt_step in E. cbv zeta in E. set (y := x0 / 2 ^ 31 * 2 ^ 31 + x1 mod 2 ^ 31) in *. assert (B0 : 0 <= x0 / 2 ^ 31 < 2) by (unfold word in *; split; [apply Z.div_pos; [lia|reflexivity]|apply Z.div_lt_upper_bound; [reflexivity|]; change (2 ^ 31 * 2) with (2 ^ 32); lia]). pose proof (Z.mod_pos_bound x1 (2 ^ 31) ltac:(reflexivity)) as B1. assert (Hy : 0 <= y < 2 * 2 ^ 31) by (unfold y; lia).
  rewrite Z.lxor_0_l in E. apply Z.lxor_eq in E. pose proof (Z.div_mod y 2 ltac:(lia)) as DM. rewrite Zmod_odd in DM. destruct (Z.odd y); [exfalso; change (2 ^ 31) with 2147483648 in *; lia|]. assert (y = 0) by lia. unfold y in *. lia.
Qed.
Lemma zero_back N M x k : (2 <= M)%nat -> (M < N)%nat -> mt_sequence N M x -> (forall k, word 32 (x k)) -> zero_window N x (k + 1) -> zero_window N x k.
Proof.
  intros HM HN Hx Hw (H1 & H2). pose proof (Hx k) as E. assert (EN : x (k + N)%nat = 0) by (replace (k + N)%nat with (k + 1 + (N - 1))%nat by lia; apply H2; lia). assert (EM : x (k + M)%nat = 0) by (replace (k + M)%nat with (k + 1 + (M - 1))%nat by lia; apply H2; lia). rewrite EN, EM in E. symmetry in E. apply step_zero in E as (E1 & E2); [|apply Hw|apply Hw]. split; [exact E1|]. intros i Hi. destruct (Nat.eq_dec i 1) as [->|NE]; [rewrite (Z.div_mod (x (k + 1)%nat) (2 ^ 31)) by discriminate; rewrite H1, E2; ring|]. replace (k + i)%nat with (k + 1 + (i - 1))%nat by lia. apply H2. lia.
Qed.
Lemma zero_never N M x k : (2 <= M)%nat -> (M < N)%nat -> mt_sequence N M x -> (forall k, word 32 (x k)) -> zero_window N x k -> zero_window N x 0.
Proof. intros HM HN Hx Hw. induction k as [|k IH]; intros H; [exact H|]. apply IH. apply (zero_back N M); try assumption. now rewrite Nat.add_1_r. Qed.
Lemma outputs_never N M x k : (2 <= M)%nat -> (M < N)%nat -> mt_sequence N M x -> (forall k, word 32 (x k)) -> ~ zero_window N x 0 -> ~ forall i, (i < N)%nat -> mt_output (x (k + i)%nat) = 0.
Proof.
  intros HM HN Hx Hw H0 H. apply H0, (zero_never N M x k); try assumption. assert (Z0 : forall i, (i < N)%nat -> x (k + i)%nat = 0). { intros i Hi. apply temper_inj; [apply Hw|split; [lia|reflexivity]|]. rewrite !temper_eq, (H i Hi). reflexivity. } split; [|intros i Hi; apply Z0; lia]. specialize (Z0 O ltac:(lia)). rewrite Nat.add_0_r in Z0. rewrite Z0. reflexivity.
Qed.

(** the sequence that continues given words *)
Lemma extend N M (a : nat -> Z) : (2 <= M)%nat -> (M < N)%nat -> exists x, mt_sequence N M x /\ forall i, (i < N)%nat -> x i = a i.
Proof.
  intros HM HN. destruct (course (a O) (fun x t => if (t + 1 <? N)%nat then a (t + 1)%nat else mt_step (x (t + 1 - N + M)%nat) (x (t + 1 - N)%nat) (x (t + 1 - N + 1)%nat))) as (x & X0 & XS).
  { intros u v t H. destruct (Nat.ltb_spec (t + 1) N); [reflexivity|]. now rewrite !H by lia. }
  exists x. split.
  - intros k. replace (k + N)%nat with (k + N - 1 + 1)%nat by lia. rewrite XS. destruct (Nat.ltb_spec (k + N - 1 + 1) N); [lia|]. now replace (k + N - 1 + 1 - N)%nat with k by lia.
  - intros [|i] Hi; [exact X0|]. replace (S i) with (i + 1)%nat by lia. rewrite XS. destruct (Nat.ltb_spec (i + 1) N); [reflexivity|lia].
Qed.
Lemma seeded_exists N seed : exists z, mt_seeded N seed z /\ forall i, word 32 (z i).
Proof.
  destruct (course (seed mod 2 ^ 32) (fun z t => (1812433253 * Z.lxor (z t) (z t / 2 ^ 30) + Z.of_nat (t + 1)) mod 2 ^ 32)) as (z & Z0 & ZS); [intros u v t H; now rewrite !H by lia|]. exists z. split; [split; [exact Z0|]|].
  - intros i Hi. replace i with (i - 1 + 1)%nat at 1 by lia. rewrite ZS. now replace (i - 1 + 1)%nat with i by lia.
  - intros [|i]; [rewrite Z0; apply word_mod; lia|]. replace (S i) with (i + 1)%nat by lia. rewrite ZS. apply word_mod. lia.
Qed.
Lemma nth_app_last {A} (s : list A) v i : nth_error (s ++ [v]) i = if (i =? length s)%nat then Some v else nth_error s i.
Proof. destruct (Nat.eqb_spec i (length s)) as [->|NE]; [rewrite nth_error_app2, Nat.sub_diag by lia; reflexivity|]. destruct (Nat.lt_ge_cases i (length s)) as [L|L]; [now rewrite nth_error_app1|]. rewrite nth_error_app2 by exact L. rewrite (proj2 (nth_error_None s i)) by exact L. destruct (i - length s)%nat as [|d] eqn:E; [lia|]. now destruct d. Qed.
Lemma initialize_ok N seed z : (1 <= N)%nat -> mt_seeded N seed z -> exists s, initialize N seed = Some s /\ length s = N /\ forall i, (i < N)%nat -> nth_error s i = Some (z i).
Proof.
  intros HN (Z0 & ZS). unfold initialize. destruct (for_range_spec (fun i s => length s = i /\ forall j, (j < i)%nat -> nth_error s j = Some (z j)) (fun i s => let* r := nth_error s (i - 1) in Some (s ++ [u32 (1812433253 * Z.lxor r (Z.shiftr r 30) + Z.of_nat i)])) 1 N [u32 seed]) as (s & E & H).
  - exact HN.
  - split; [reflexivity|]. intros j Hj. replace j with O by lia. cbn. now rewrite Z0.
  - intros i s Hi (HL & HS). rewrite HS by lia. cbn [obind]. eexists. split; [reflexivity|]. split; [rewrite app_length, HL; cbn; lia|]. intros j Hj. rewrite nth_app_last, HL. destruct (Nat.eqb_spec j i) as [->|]; [|apply HS; lia]. rewrite Z.shiftr_div_pow2 by lia. unfold u32. now rewrite (ZS i) by lia.
  - exists s. split; [exact E|exact H].
Qed.
Lemma seed_one_ok N M seed : (2 <= M)%nat -> (M < N)%nat -> exists x g, mt_sequence N M x /\ mt_seeded N seed x /\ (forall k, word 32 (x k)) /\ ~ zero_window N x 0 /\ seed_one N M seed = Some g /\ tracks N x N g.
Proof.
  intros HM HN. destruct (seeded_exists N seed) as (z & ZS & ZW). destruct (extend N M z HM HN) as (x & X1 & X2). assert (XS : mt_seeded N seed x). { destruct ZS as (Z0 & ZS). split; [rewrite X2 by lia; exact Z0|]. intros i Hi. rewrite !X2 by lia. apply ZS, Hi. }
  destruct (initialize_ok N seed x ltac:(lia) XS) as (s & E & HL & HS). assert (XW : forall k, (k < N)%nat -> word 32 (x k)) by (intros k Hk; rewrite X2 by exact Hk; apply ZW). destruct (reload_ok N M HM HN x X1 XW 0 (MT s 0 0)) as (s' & R & H'); [split; [exact HL|exact HS]|]. exists x, (MT s' 0 N). split; [exact X1|]. split; [exact XS|]. split; [apply (seq_word N M HM HN x X1 XW)|]. split; [|split; [unfold seed_one; rewrite E; exact R|]].
  - intros (_ & H). destruct XS as (_ & XS). pose proof (XS 2%nat ltac:(lia)) as E2. cbn [Nat.sub] in E2. pose proof (H 1%nat ltac:(lia)) as E1. pose proof (H 2%nat ltac:(lia)) as E3. cbn [Nat.add] in E1, E3. rewrite E1, E3 in E2. discriminate.
  - exists N. cbn [mt_state mt_next mt_left]. split; [exact H'|]. lia.
Qed.

(** seeding by an array *)
Section Array.
  Variables (N : nat) (key : list Z).
  Hypothesis HN : (3 <= N)%nat.
  Hypothesis HK : (1 <= length key)%nat.
  Let rounds := Nat.max N (length key).
  Variables z v : nat -> Z.
  Definition old (t : nat) : Z := if (t <? N - 1)%nat then z (t + 1)%nat else v (t + 2 - N)%nat.
  Definition cells (t : nat) (s : list Z) : Prop := length s = N /\ (forall r, (r < N - 1)%nat -> nth_error s (1 + (t + r) mod (N - 1)) = Some (old (t + r))) /\ nth_error s (t mod (N - 1)) = Some (v t).
  Lemma mod_succ t : (S t mod (N - 1) = if (S (t mod (N - 1)) =? N - 1)%nat then 0 else S (t mod (N - 1)))%nat.
  Proof using HN.
    clear HK rounds. pose proof (Nat.div_mod_eq t (N - 1)) as D. pose proof (Nat.mod_upper_bound t (N - 1) ltac:(lia)) as B. destruct (Nat.eqb_spec (S (t mod (N - 1))) (N - 1)) as [E|NE].
    - symmetry. apply (Nat.mod_unique _ _ (t / (N - 1) + 1)); [lia|]. rewrite Nat.mul_add_distr_l. lia.
    - symmetry. apply (Nat.mod_unique _ _ (t / (N - 1))); lia.
  Qed.
  Lemma mod_far t r : (1 <= r < N - 1)%nat -> ((t + r) mod (N - 1) <> t mod (N - 1))%nat.
  Proof using HN.
    clear HK rounds. intros Hr E. pose proof (Nat.div_mod_eq t (N - 1)) as D. pose proof (Nat.div_mod_eq (t + r) (N - 1)) as D2. rewrite E in D2. assert (DD : ((N - 1) * ((t + r) / (N - 1)) = (N - 1) * (t / (N - 1)) + r)%nat) by lia. set (q := ((t + r) / (N - 1))%nat) in *. set (p := (t / (N - 1))%nat) in *. destruct (Nat.lt_ge_cases p q) as [L|L]; [assert ((N - 1) * (p + 1) <= (N - 1) * q)%nat by (apply Nat.mul_le_mono_l; lia); lia|assert ((N - 1) * q <= (N - 1) * p)%nat by (apply Nat.mul_le_mono_l; lia); lia].
  Qed.
  Lemma cell_step t s : cells t s -> exists s1 s2, set_nth s (1 + t mod (N - 1)) (v (t + 1)%nat) = Some s1 /\ wrap N s1 (1 + t mod (N - 1) + 1) = Some (s2, (1 + (t + 1) mod (N - 1))%nat) /\ cells (t + 1) s2.
  Proof using HN.
    clear HK rounds. intros (HL & HC & HV). pose proof (Nat.mod_upper_bound t (N - 1) ltac:(lia)) as B. destruct (set_nth_some s (1 + t mod (N - 1)) (v (t + 1)%nat) ltac:(lia)) as (s1 & E1). exists s1. pose proof (set_nth_length _ _ _ _ E1) as L1. pose proof (mod_succ t) as MS. rewrite <- (Nat.add_1_r t) in MS.
    assert (C1 : forall r, (r < N - 1)%nat -> nth_error s1 (1 + (t + 1 + r) mod (N - 1)) = Some (old (t + 1 + r))).
    { intros r Hr. rewrite (set_nth_get _ _ _ _ _ E1). destruct (Nat.eq_dec r (N - 2)) as [->|NE].
      - replace (t + 1 + (N - 2))%nat with (t + 1 * (N - 1))%nat by lia. rewrite Nat.mod_add by lia. rewrite Nat.eqb_refl. unfold old. destruct (Nat.ltb_spec (t + 1 * (N - 1)) (N - 1)); [lia|]. f_equal. f_equal. lia.
      - pose proof (mod_far t (1 + r) ltac:(lia)) as F. rewrite Nat.add_assoc in F. destruct (Nat.eqb_spec (1 + t mod (N - 1)) (1 + (t + 1 + r) mod (N - 1))) as [E|_]; [lia|]. replace (t + 1 + r)%nat with (t + (1 + r))%nat by lia. apply HC. lia. }
    unfold wrap. rewrite MS. destruct (Nat.eqb_spec (S (t mod (N - 1))) (N - 1)) as [E|NE].
    - destruct (Nat.leb_spec N (1 + t mod (N - 1) + 1)); [|lia]. assert (V1 : nth_error s1 (N - 1) = Some (v (t + 1)%nat)) by (rewrite (set_nth_get _ _ _ _ _ E1); destruct (Nat.eqb_spec (1 + t mod (N - 1)) (N - 1)); [reflexivity|lia]). rewrite V1. cbn [obind]. destruct (set_nth_some s1 0 (v (t + 1)%nat) ltac:(lia)) as (s2 & E2). rewrite E2. cbn [obind]. exists s2. split; [exact E1|]. split; [reflexivity|]. split; [rewrite (set_nth_length _ _ _ _ E2); lia|]. split.
      + intros r Hr. rewrite (set_nth_get _ _ _ _ _ E2). cbn [Nat.eqb Nat.add]. apply C1, Hr.
      + rewrite MS. rewrite (set_nth_get _ _ _ _ _ E2). reflexivity.
    - destruct (Nat.leb_spec N (1 + t mod (N - 1) + 1)); [lia|]. exists s1. split; [exact E1|]. split; [f_equal; f_equal; lia|]. split; [lia|]. split; [exact C1|]. rewrite MS. rewrite (set_nth_get _ _ _ _ _ E1). cbn [Nat.add]. rewrite Nat.eqb_refl. reflexivity.
  Qed.
  Definition mix (t : nat) (c : Z) : Z := Z.lxor (v t) (v t / 2 ^ 30) * c mod 2 ^ 32.
  Hypothesis Hz : mt_seeded N 19650218 z.
  Hypothesis H0 : v O = z O.
  Hypothesis H1 : forall t, (t < rounds)%nat -> v (t + 1)%nat = (Z.lxor (old t) (mix t 1664525) + nth (t mod length key) key 0 + Z.of_nat (t mod length key)) mod 2 ^ 32.
  Hypothesis H2 : forall t, (rounds <= t < rounds + (N - 1))%nat -> v (t + 1)%nat = (Z.lxor (old t) (mix t 1566083941) - Z.of_nat (1 + t mod (N - 1))) mod 2 ^ 32.
  Lemma key_succ t : (if (length key <=? t mod length key + 1)%nat then O else t mod length key + 1)%nat = ((t + 1) mod length key)%nat.
  Proof using HK.
    clear HN rounds Hz H0 H1 H2. pose proof (Nat.div_mod_eq t (length key)) as D. pose proof (Nat.mod_upper_bound t (length key) ltac:(lia)) as B. destruct (Nat.leb_spec (length key) (t mod length key + 1)).
    - apply (Nat.mod_unique _ _ (t / length key + 1)); [lia|]. rewrite Nat.mul_add_distr_l. lia.
    - apply (Nat.mod_unique _ _ (t / length key)); lia.
  Qed.
  Lemma seed_array_run M : exists s, seed_array N M key = reload N M (MT s 0 0) /\ length s = N /\ nth_error s 0 = Some (2 ^ 31) /\ forall t, (rounds <= t < rounds + (N - 1))%nat -> nth_error s (1 + t mod (N - 1)) = Some (v (t + 1)%nat).
  Proof using HN HK Hz H0 H1 H2.
    unfold seed_array. destruct (initialize_ok N 19650218 z ltac:(lia) Hz) as (s0 & E0 & L0 & S0). rewrite E0. cbn [obind].
    assert (R : (if (length key <? N)%nat then N else length key) = rounds) by (unfold rounds; destruct (Nat.ltb_spec (length key) N); lia). rewrite R.
    assert (C0 : cells 0 s0). { split; [exact L0|]. split; [|rewrite Nat.mod_0_l by lia; rewrite S0 by lia; now rewrite H0]. intros r Hr. cbn [Nat.add]. rewrite Nat.mod_small by exact Hr. rewrite S0 by lia. unfold old. destruct (Nat.ltb_spec r (N - 1)); [|lia]. now rewrite Nat.add_1_r. }
    match goal with |- context [for_range 0 rounds ?b ?init] => destruct (for_range_spec (fun t '(s, i, j) => cells t s /\ i = (1 + t mod (N - 1))%nat /\ j = (t mod length key)%nat) b 0 rounds init) as (((s1, i1), j1) & E1 & C1 & I1 & J1) end.
    { lia. } { split; [exact C0|]. split; [rewrite Nat.mod_0_l by lia; reflexivity|rewrite Nat.mod_0_l by lia; reflexivity]. }
    { intros t ((s, i), j) Ht (C & -> & ->). destruct C as (HL & HC & HV). pose proof (HC O ltac:(lia)) as CO. rewrite Nat.add_0_r in CO. rewrite CO. cbn [obind]. replace (1 + t mod (N - 1) - 1)%nat with (t mod (N - 1))%nat by lia. rewrite HV. cbn [obind]. pose proof (Nat.mod_upper_bound t (length key) ltac:(lia)) as B. rewrite (nth_error_nth' key 0) by exact B. cbn [obind].
      destruct (cell_step t s) as (s1 & s2 & E1 & E2 & C2); [split; [exact HL|]; split; [exact HC|exact HV]|]. rewrite (H1 t) in E1 by lia. cbv zeta. match goal with |- context [set_nth s _ ?w] => replace w with ((Z.lxor (old t) (mix t 1664525) + nth (t mod length key) key 0 + Z.of_nat (t mod length key)) mod 2 ^ 32) end.
      - rewrite E1. cbn [obind]. rewrite E2. cbn [obind]. eexists. split; [reflexivity|]. cbv beta iota. rewrite Nat.add_1_r in C2 at 1. split; [exact C2|]. split; [now rewrite Nat.add_1_r|]. rewrite key_succ. now rewrite Nat.add_1_r.
      - unfold u32, mix. rewrite Z.shiftr_div_pow2 by lia. rewrite (Z.add_assoc (Z.lxor _ _)). rewrite (Z.add_comm (Z.lxor (old t) _) (nth _ _ _ mod _)). rewrite <- (Z.add_assoc (nth _ _ _ mod _)). rewrite Zplus_mod_idemp_l. f_equal. ring. }
    rewrite E1. cbn [obind].
    match goal with |- context [for_range 1 N ?b ?init] => destruct (for_range_spec (fun k '(s, i) => cells (rounds + (k - 1)) s /\ i = (1 + (rounds + (k - 1)) mod (N - 1))%nat) b 1 N init) as ((s2, i2) & E2 & C2 & I2) end.
    { lia. } { replace (rounds + (1 - 1))%nat with rounds by lia. split; [exact C1|exact I1]. }
    { intros k (s, i) Hk (C & ->). set (t := (rounds + (k - 1))%nat) in *. destruct C as (HL & HC & HV). pose proof (HC O ltac:(lia)) as CO. rewrite Nat.add_0_r in CO. rewrite CO. cbn [obind]. replace (1 + t mod (N - 1) - 1)%nat with (t mod (N - 1))%nat by lia. rewrite HV. cbn [obind].
      destruct (cell_step t s) as (s3 & s4 & E3 & E4 & C4); [split; [exact HL|]; split; [exact HC|exact HV]|]. rewrite (H2 t) in E3 by (unfold t; lia). cbv zeta. rewrite Z.shiftr_div_pow2 by lia. unfold u32 at 2. fold (mix t 1566083941). unfold u32 at 1. rewrite E3. cbn [obind]. rewrite E4. eexists. split; [reflexivity|]. cbv beta iota. replace (rounds + (S k - 1))%nat with (t + 1)%nat by (unfold t; lia). split; [exact C4|reflexivity]. }
    rewrite E2. cbn [obind]. destruct C2 as (L2 & C2 & _). destruct (set_nth_some s2 0 0x80000000 ltac:(lia)) as (s3 & E3). rewrite E3. cbn [obind]. exists s3. split; [reflexivity|]. split; [rewrite (set_nth_length _ _ _ _ E3); exact L2|]. split; [rewrite (set_nth_get _ _ _ _ _ E3); reflexivity|]. intros t Ht. rewrite (set_nth_get _ _ _ _ _ E3). cbn [Nat.eqb Nat.add]. specialize (C2 (t - rounds)%nat ltac:(lia)). replace (rounds + (N - 1) + (t - rounds))%nat with (t + 1 * (N - 1))%nat in C2 by lia. rewrite Nat.mod_add in C2 by lia. cbn [Nat.add] in C2. rewrite C2. unfold old. destruct (Nat.ltb_spec (t + 1 * (N - 1)) (N - 1)); [lia|]. f_equal. f_equal. lia.
  Qed.
End Array.
Lemma all_cells N K c : (3 <= N)%nat -> (c < N - 1)%nat -> exists t, (K <= t < K + (N - 1))%nat /\ (t mod (N - 1) = c)%nat.
Proof.
  intros HN Hc. pose proof (Nat.div_mod_eq K (N - 1)) as D. pose proof (Nat.mod_upper_bound K (N - 1) ltac:(lia)) as B. destruct (Nat.lt_ge_cases c (K mod (N - 1))) as [L|L].
  - exists ((N - 1) * (K / (N - 1)) + (N - 1) + c)%nat. split; [lia|]. symmetry. apply (Nat.mod_unique _ _ (K / (N - 1) + 1)); [exact Hc|]. rewrite Nat.mul_add_distr_l. lia.
  - exists ((N - 1) * (K / (N - 1)) + c)%nat. split; [lia|]. symmetry. apply (Nat.mod_unique _ _ (K / (N - 1))); [exact Hc|reflexivity].
Qed.
Lemma seed_array_ok N M key : (2 <= M)%nat -> (M < N)%nat -> (1 <= length key)%nat -> exists x g, mt_sequence N M x /\ mt_array_seeded N key x /\ (forall k, word 32 (x k)) /\ ~ zero_window N x 0 /\ seed_array N M key = Some g /\ tracks N x N g.
Proof.
  intros HM HN HK. destruct (seeded_exists N 19650218) as (z & ZS & ZW). set (rounds := Nat.max N (length key)).
  destruct (course (z O) (fun v t => let old := if (t <? N - 1)%nat then z (t + 1)%nat else v (t + 2 - N)%nat in let mix c := Z.lxor (v t) (v t / 2 ^ 30) * c mod 2 ^ 32 in let j := (t mod length key)%nat in
      if (t <? rounds)%nat then (Z.lxor old (mix 1664525) + nth j key 0 + Z.of_nat j) mod 2 ^ 32 else (Z.lxor old (mix 1566083941) - Z.of_nat (1 + t mod (N - 1))) mod 2 ^ 32)) as (v & V0 & VS).
  { intros u v t H. cbv zeta. rewrite (H t) by lia. assert (E : (if (t <? N - 1)%nat then z (t + 1)%nat else u (t + 2 - N)%nat) = (if (t <? N - 1)%nat then z (t + 1)%nat else v (t + 2 - N)%nat)) by (destruct (t <? N - 1)%nat; [reflexivity|apply H; lia]). rewrite E. reflexivity. }
  cbv zeta in VS. destruct (seed_array_run N key ltac:(lia) HK z v ZS V0) with (M := M) as (s & E & L & S0 & S1).
  { intros t Ht. rewrite VS. destruct (Nat.ltb_spec t rounds); [reflexivity|unfold rounds in *; lia]. }
  { intros t Ht. rewrite VS. destruct (Nat.ltb_spec t rounds); [unfold rounds in *; lia|reflexivity]. }
  fold rounds in S1. destruct (extend N M (fun i => nth i s 0) HM HN) as (x & X1 & X2). assert (XS : forall i, (i < N)%nat -> nth_error s i = Some (x i)) by (intros i Hi; rewrite X2 by exact Hi; apply nth_error_nth'; lia).
  assert (VW : forall t, word 32 (v (t + 1)%nat)) by (intros t; rewrite VS; destruct (t <? rounds)%nat; apply word_mod; lia).
  assert (AS : mt_array_seeded N key x). { exists z, v, rounds. split; [reflexivity|]. split; [exact ZS|]. split; [exact V0|]. split; [intros t Ht; apply VS|]. split; [rewrite XS in S0 by lia; congruence|]. intros t Ht. pose proof (Nat.mod_upper_bound t (N - 1) ltac:(lia)). specialize (S1 t Ht). rewrite XS in S1 by lia. congruence. }
  assert (X0 : x O = 2 ^ 31) by (rewrite XS in S0 by lia; congruence).
  assert (XW : forall k, (k < N)%nat -> word 32 (x k)). { intros [|k] Hk; [rewrite X0; split; [lia|reflexivity]|]. destruct (all_cells N rounds k ltac:(lia) ltac:(lia)) as (t & Ht & Et). specialize (S1 t Ht). rewrite Et, XS in S1 by lia. replace (x (S k)) with (v (t + 1)%nat) by (cbn [Nat.add] in S1; congruence). apply VW. }
  destruct (reload_ok N M HM HN x X1 XW 0 (MT s 0 0)) as (s' & R & H'); [split; [exact L|exact XS]|]. exists x, (MT s' 0 N). split; [exact X1|]. split; [exact AS|]. split; [apply (seq_word N M HM HN x X1 XW)|]. split; [intros (W & _); rewrite X0 in W; discriminate|]. split; [rewrite E; exact R|]. exists N. cbn [mt_state mt_next mt_left]. split; [exact H'|]. lia.
Qed.
Lemma seed_array_empty N M : (1 <= N)%nat -> seed_array N M [] = None.
Proof.
  intros HN. unfold seed_array. destruct (initialize N 19650218) as [s|]; [|reflexivity]. cbn [obind length]. destruct (Nat.ltb_spec 0 N); [|lia]. unfold for_range. rewrite Nat.sub_0_r. destruct N as [|n]; [lia|]. cbn [for_n]. destruct (nth_error s 1); [|reflexivity]. cbn [obind]. destruct (nth_error s (1 - 1)); reflexivity.
Qed.
