(** C121: multiplication of polynomials over modulo<I> by transforms modulo two primes. *)
From Coq Require Import Znumtheory.
From Verif Require Import Lib BaseModel BaseProofs ModPowProofs RingSpec RingProofs ModuloModel ModuloProofs FftModel FftSpec FftProofs FftProofs2 FftProofs3 FftProofs4 PmodModel PmodProofs PmodProofs2.
Open Scope Z_scope.

Lemma crt_ok M c : 1 <= M -> 0 <= c < P1 * P2 -> crt M (c mod P1) (c mod P2) = Some (c mod M).
Proof.
  intros HM HC. unfold crt. assert (E0 : u64 (P1 * P2) = P1 * P2) by reflexivity. rewrite E0. change (mod_normalize_s 32 (-12) P1) with (Some (P1 - 12)). change (mod_normalize_s 32 13 P2) with (Some 13). cbn [obind].
  pose proof (Z.mod_pos_bound c P1 ltac:(reflexivity)) as B1. pose proof (Z.mod_pos_bound c P2 ltac:(reflexivity)) as B2.
  unfold pmul. rewrite !mod_mul_u_spec by (try (auto; fail); try exact B1; try exact B2; unfold P1, P2; lia).
  assert (X1 : ((P1 - 12) * (c mod P1)) mod P1 = (-12 * c) mod P1). { rewrite Z.mul_mod_idemp_r by discriminate. replace ((P1 - 12) * c) with (-12 * c + c * P1) by ring. apply Z_mod_plus_full. }
  assert (X2 : (13 * (c mod P2)) mod P2 = (13 * c) mod P2) by (apply Z.mul_mod_idemp_r; discriminate). rewrite X1, X2.
  pose proof (Z.mod_pos_bound (-12 * c) P1 ltac:(reflexivity)) as C1. pose proof (Z.mod_pos_bound (13 * c) P2 ltac:(reflexivity)) as C2. pose proof (Z.div_mod (-12 * c) P1 ltac:(discriminate)) as D1. pose proof (Z.div_mod (13 * c) P2 ltac:(discriminate)) as D2.
  set (x := (-12 * c) mod P1) in *. set (y := (13 * c) mod P2) in *. set (q1 := -12 * c / P1) in *. set (q2 := 13 * c / P2) in *. clearbody x y q1 q2.
  assert (SUM : P2 * x + P1 * y = c - P1 * P2 * (q1 + q2)). { replace x with (-12 * c - P1 * q1) by lia. replace y with (13 * c - P2 * q2) by lia. unfold P1, P2. ring. }
  assert (R1 : 0 <= P2 * x < P1 * P2) by (unfold P1, P2 in *; lia). assert (R2 : 0 <= P1 * y < P1 * P2) by (unfold P1, P2 in *; lia). assert (PL : P1 * P2 < 2 ^ 64) by reflexivity. set (r1 := P2 * x) in *. set (r2 := P1 * y) in *. clearbody r1 r2. set (PP := P1 * P2) in *. clearbody PP. set (q := q1 + q2) in *. clearbody q. clear D1 D2 C1 C2 X1 X2 B1 B2 E0.
  assert (U : forall z, 0 <= z < 2 ^ 64 -> u64 z = z) by (intros; apply Z.mod_small; assumption). rewrite (U r1), (U r2), (U (PP - r2)) by lia. destruct (Z.ltb_spec r1 (PP - r2)) as [L|L].
  - assert (Q : q = 0) by (destruct (Z.lt_trichotomy q 0) as [T|[T|T]]; [exfalso; nia|exact T|exfalso; nia]). subst q. rewrite U by lia. rewrite mod_normalize_u_spec by lia. do 2 f_equal. lia.
  - assert (EU : u64 (u64 (r1 + r2) - PP) = r1 + r2 - PP). { unfold u64. rewrite Zminus_mod_idemp_l. apply U. lia. } rewrite EU. assert (Q : q = -1) by (destruct (Z.lt_trichotomy q (-1)) as [T|[T|T]]; [exfalso; nia|exact T|exfalso; nia]). subst q. rewrite mod_normalize_u_spec by lia. do 2 f_equal. lia.
Qed.
Lemma prime_data P g : 2 <= P < 2 ^ 32 -> forall (HP : 2 <= P < 2 ^ 32), 0 <= g < P -> P mod 2 = 1 -> powT (pmul P) 1 g ((P - 1) / 2) = Some (P - 1) -> exists h, 2 * Z.of_nat h = P - 1 /\ rpow (r1 P HP) (rmul P HP) (mk P HP g) h = ropp P HP (r1 P HP).
Proof.
  intros _ HP G O E. pose proof (Z.div_mod (P - 1) 2 ltac:(lia)) as D. assert (M : (P - 1) mod 2 = 0) by (rewrite Zminus_mod, O; reflexivity). assert (0 <= (P - 1) / 2) by (apply Z.div_pos; lia). exists (Z.to_nat ((P - 1) / 2)). split; [rewrite Z2Nat.id by assumption; lia|].
  destruct (pow_val P HP (mk P HP g) (Z.to_nat ((P - 1) / 2))) as (r & Er & Vr). rewrite Z2Nat.id in Er by assumption. rewrite val_mk, Z.mod_small in Er by exact G. rewrite E in Er. injection Er as <-. apply val_inj. rewrite <- Vr. unfold ropp, r1. rewrite !val_mk. rewrite (Z.mod_small 1) by lia. symmetry. rewrite <- (Z_mod_plus_full _ 1). rewrite Z.mod_small by lia. ring.
Qed.
Lemma P1_range : 2 <= P1 < 2 ^ 32. Proof. unfold P1. lia. Qed.
Lemma P2_range : 2 <= P2 < 2 ^ 32. Proof. unfold P2. lia. Qed.
Lemma hilo_P1 L p1 p2 : (L <= 28)%nat -> p1 <> [] -> p2 <> [] -> (length p1 + length p2 - 1 <= 2 ^ L)%nat -> exists lo mi hi, mul_hilo P1 p1 p2 (2 ^ L)%nat 5 = Some (lo, mi, hi) /\
    is_arr (2 ^ L)%nat (fun k => conv_sum 0 Z.add Z.mul (lo_of p1) (lo_of p2) k mod P1) lo /\
    is_arr (2 ^ L)%nat (fun k => (conv_sum 0 Z.add Z.mul (lo_of p1) (hi_of p2) k + conv_sum 0 Z.add Z.mul (hi_of p1) (lo_of p2) k) mod P1) mi /\
    is_arr (2 ^ L)%nat (fun k => conv_sum 0 Z.add Z.mul (hi_of p1) (hi_of p2) k mod P1) hi.
Proof.
  destruct (prime_data P1 5 P1_range P1_range) as (h & H1 & H2); [unfold P1; lia|reflexivity|vm_compute; reflexivity|]. apply (hilo_ok P1 P1_range 5 h); [unfold P1; lia|exact H1|exact H2|]. exists 12. reflexivity.
Qed.
Lemma hilo_P2 L p1 p2 : (L <= 28)%nat -> p1 <> [] -> p2 <> [] -> (length p1 + length p2 - 1 <= 2 ^ L)%nat -> exists lo mi hi, mul_hilo P2 p1 p2 (2 ^ L)%nat 3 = Some (lo, mi, hi) /\
    is_arr (2 ^ L)%nat (fun k => conv_sum 0 Z.add Z.mul (lo_of p1) (lo_of p2) k mod P2) lo /\
    is_arr (2 ^ L)%nat (fun k => (conv_sum 0 Z.add Z.mul (lo_of p1) (hi_of p2) k + conv_sum 0 Z.add Z.mul (hi_of p1) (lo_of p2) k) mod P2) mi /\
    is_arr (2 ^ L)%nat (fun k => conv_sum 0 Z.add Z.mul (hi_of p1) (hi_of p2) k mod P2) hi.
Proof.
  destruct (prime_data P2 3 P2_range P2_range) as (h & H1 & H2); [unfold P2; lia|reflexivity|vm_compute; reflexivity|]. apply (hilo_ok P2 P2_range 3 h); [unfold P2; lia|exact H1|exact H2|]. exists 13. reflexivity.
Qed.
Lemma weight M : 1 <= M -> exists w, powT (fun x y => (x * y) mod M) (1 mod M) (2 mod M) 16 = Some w /\ w = 2 ^ 16 mod M.
Proof.
  intros HM. destruct (powT_rel (fun x y => (x * y) mod M) (1 mod M) Z.mul 1) with (R := fun r t => r = t mod M) (x := 2 mod M) (x' := 2) (y := 16) as (r & E & V); try (intros; ring); try reflexivity.
  - intros a a' b b' -> ->. rewrite <- Z.mul_mod by lia. reflexivity.
  - lia.
  - exists r. split; [exact E|exact V].
Qed.
Lemma split_coeff p i : (forall v, In v p -> 0 <= v < 2 ^ 32) -> nth i p 0 = hi_of p i * 65536 + lo_of p i.
Proof.
  intros H. unfold hi_of, lo_of. rewrite hi_eq, lo_eq. assert (E : u32 (nth i p 0) = nth i p 0). { apply Z.mod_small. destruct (nth_in_or_default i p 0) as [I|E]; [now apply H|rewrite E; lia]. } rewrite E. pose proof (Z.div_mod (nth i p 0) 65536 ltac:(lia)). lia.
Qed.
(** For every modulus up to 2^32, the coefficients 0 .. lr of the product of any two polynomials with up to 2^28 coefficients in the
    product are exact, the rest of the destination is left alone, and no index is outside its array. *)
Theorem C121_mul_fft_crt M pr lr p1 p2 : 1 <= M <= 2 ^ 32 -> p1 <> [] -> p2 <> [] ->
  (forall v, In v p1 -> 0 <= v < M) -> (forall v, In v p2 -> 0 <= v < M) ->
  (lr < length p1 + length p2 - 1)%nat -> (lr < length pr)%nat -> Z.of_nat (length p1 + length p2 - 1) <= 2 ^ 28 ->
  exists r, mul_fft_crt M pr lr p1 p2 = Some r /\ length r = length pr /\
    forall k, nth_error r k = if (k <=? lr)%nat then Some (conv_sum 0 Z.add Z.mul (elem 0 p1) (elem 0 p2) k mod M) else nth_error pr k.
Proof.
  intros HM N1 N2 C1 C2 LR LP LN. assert (LL1 : (0 < length p1)%nat) by (destruct p1; [contradiction|cbn; lia]). assert (LL2 : (0 < length p2)%nat) by (destruct p2; [contradiction|cbn; lia]). unfold mul_fft_crt. destruct (Nat.eqb_spec (length p1) 0); [lia|]. destruct (Nat.eqb_spec (length p2) 0); [lia|]. cbn [negb andb guard obind]. replace (length p1 - 1 + (length p2 - 1) + 1)%nat with (length p1 + length p2 - 1)%nat by lia. set (m := (length p1 + length p2 - 1)%nat) in *.
  destruct (pow2_above_top m) as (L & EL & HL & ML). rewrite EL. cbn [obind]. assert (L28 : (L <= 28)%nat). { apply ML. apply Nat2Z.inj_le. rewrite Nat2Z.inj_pow. exact LN. }
  destruct (hilo_P1 L p1 p2 L28 N1 N2 HL) as (loA & miA & hiA & EA & A1 & A2 & A3). rewrite EA. cbn [obind]. destruct (hilo_P2 L p1 p2 L28 N1 N2 HL) as (loB & miB & hiB & EB & B1 & B2 & B3). rewrite EB. cbn [obind].
  change (mod_normalize_s 32 2 M) with (mod_normalize_u 2 M). rewrite mod_normalize_u_spec by lia. cbn [obind]. destruct (weight M ltac:(lia)) as (w & Ew & Vw). rewrite Ew. cbn [obind].
  match goal with |- context [for_range 0 (S lr) ?body pr] => destruct (for_range_spec (fun i r => length r = length pr /\ forall k, nth_error r k = if (k <? i)%nat then Some (conv_sum 0 Z.add Z.mul (elem 0 p1) (elem 0 p2) k mod M) else nth_error pr k) body 0%nat (S lr) pr) as (r & Er & R1 & R2) end; [lia|split; [reflexivity|intros; reflexivity]| |].
  - intros i r I (R1 & R2). assert (IL : (i < 2 ^ L)%nat) by lia. rewrite (proj2 A1), (proj2 A2), (proj2 A3), (proj2 B1), (proj2 B2), (proj2 B3) by exact IL. cbn [obind].
    assert (BD : forall a b, (forall j, 0 <= a j <= 65535) -> (forall j, 0 <= b j <= 65535) -> 0 <= conv_sum 0 Z.add Z.mul a b i <= 2 ^ 28 * (65535 * 65535)). { intros a b Ha Hb. destruct (conv_bound a b 65535 65535 i ltac:(lia) ltac:(lia) Ha Hb) as (X & Y). split; [exact X|]. etransitivity; [exact Y|]. apply Z.mul_le_mono_nonneg_r; lia. }
    pose proof (BD _ _ (lo_range p1) (lo_range p2)) as K1. pose proof (BD _ _ (lo_range p1) (hi_range p2)) as K2. pose proof (BD _ _ (hi_range p1) (lo_range p2)) as K3. pose proof (BD _ _ (hi_range p1) (hi_range p2)) as K4. change (2 ^ 28 * (65535 * 65535)) with 1152886320503193600 in *.
    rewrite !crt_ok by (try lia; change (P1 * P2) with 11240984676627644417 in *; unfold P1, P2; lia). cbn [obind].
    destruct (set_nth_some r i (((((conv_sum 0 Z.add Z.mul (hi_of p1) (hi_of p2) i mod M * w) mod M + (conv_sum 0 Z.add Z.mul (lo_of p1) (hi_of p2) i + conv_sum 0 Z.add Z.mul (hi_of p1) (lo_of p2) i) mod M) mod M * w) mod M + conv_sum 0 Z.add Z.mul (lo_of p1) (lo_of p2) i mod M) mod M)) as (r' & Es); [lia|]. rewrite Es. eexists. split; [reflexivity|]. split; [rewrite (set_nth_length _ _ _ _ Es); exact R1|]. intros k. rewrite (set_nth_get _ _ _ _ k Es). destruct (Nat.eqb_spec i k) as [<-|NK].
    + rewrite (proj2 (Nat.ltb_lt i (S i))) by lia. f_equal. rewrite Vw.
      assert (EQ : conv_sum 0 Z.add Z.mul (elem 0 p1) (elem 0 p2) i = conv_sum 0 Z.add Z.mul (fun j => hi_of p1 j * 65536 + lo_of p1 j) (fun j => hi_of p2 j * 65536 + lo_of p2 j) i). { unfold conv_sum. apply rsum_ext. intros j _. unfold elem. rewrite <- !split_coeff; [reflexivity|intros v V; specialize (C2 v V); lia|intros v V; specialize (C1 v V); lia]. } rewrite EQ, conv_hilo.
      set (h := conv_sum 0 Z.add Z.mul (hi_of p1) (hi_of p2) i). set (mm := conv_sum 0 Z.add Z.mul (lo_of p1) (hi_of p2) i + conv_sum 0 Z.add Z.mul (hi_of p1) (lo_of p2) i). set (l := conv_sum 0 Z.add Z.mul (lo_of p1) (lo_of p2) i).
      rewrite <- (Z.mul_mod h), <- (Z.add_mod (h * 2 ^ 16)), <- (Z.mul_mod (h * 2 ^ 16 + mm)), <- Z.add_mod by lia. f_equal. change (2 ^ 32) with (2 ^ 16 * 2 ^ 16). ring.
    + rewrite R2. destruct (Nat.ltb_spec k i), (Nat.ltb_spec k (S i)); try lia; reflexivity.
  - rewrite Er. exists r. split; [reflexivity|]. split; [exact R1|]. intros k. rewrite R2. destruct (Nat.ltb_spec k (S lr)), (Nat.leb_spec k lr); try lia; reflexivity.
Qed.
Example C121_case : mul_fft_crt 4294967291 [0; 0; 0; 0; 0; 7] 4 [4294967290; 5; 70000] [123456789; 4294967290; 2] = Some [4171510502; 617283946; 501040501; 4294897301; 140000; 7].
Proof. vm_compute. reflexivity. Qed.
Print Assumptions C121_mul_fft_crt.
