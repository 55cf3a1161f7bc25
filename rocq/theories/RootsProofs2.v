(** Lifting square roots to prime powers and combining them. *)
From Verif Require Import Lib BaseModel BaseProofs ModuloModel ModuloProofs ModPowModel ModPowProofs PrimesSpec PrimesProofs NumTheory NumTheory2 NumTheory3 RootsModel RootsProofs.
Open Scope Z_scope.

Lemma pp_gauss p e a b : is_prime p -> ~ (Z.of_nat p | a) -> (Z.of_nat p ^ Z.of_nat e | a * b) -> (Z.of_nat p ^ Z.of_nat e | b).
Proof.
  intros P A. pose proof (pz_ge p P). induction e as [|e IH]; intros D; [apply Z.divide_1_l|]. rewrite Nat2Z.inj_succ, Z.pow_succ_r in * by lia. assert (D0 : (Z.of_nat p ^ Z.of_nat e | a * b)) by (eapply Z.divide_trans; [|exact D]; apply Z.divide_factor_r).
  destruct (IH D0) as (c & ->). destruct D as (x & D). assert (N : Z.of_nat p ^ Z.of_nat e <> 0) by (apply Z.pow_nonzero; lia). assert (E : a * c = x * Z.of_nat p) by (apply (Z.mul_reg_r _ _ _ N); nia).
  assert (C : (Z.of_nat p | a * c)) by (exists x; exact E). apply prime_Zeuclid in C as [C|C]; [tauto| |exact P]. destruct C as (c' & ->). exists c'. ring.
Qed.
Lemma cipolla_range p t : is_prime p -> 0 <= t < Z.of_nat p -> exists r, sqrt_cipolla_m t (Z.of_nat p) = Some r /\ 0 <= r < Z.of_nat p /\ ((exists x, (Z.of_nat p | x * x - t)) -> (Z.of_nat p | r * r - t)).
Proof.
  intros P T. destruct (Nat.eq_dec p 2) as [->|O]; [|now apply cipolla_m_run]. exists t. split; [reflexivity|]. split; [exact T|]. intros _. assert (C : t = 0 \/ t = 1) by (cbn in T; lia). destruct C as [-> | ->]; exists 0; reflexivity.
Qed.

Lemma mul_div2 a b c d : (a | b) -> (c | d) -> (a * c | b * d).
Proof. intros (x & ->) (z & ->). exists (x * z). ring. Qed.

Section Hensel.
Variable p : nat.
Hypothesis P : is_prime p.
Hypothesis Odd : p <> 2%nat.
Notation pz := (Z.of_nat p).
Variables (y k : Z).
Hypothesis K : 1 <= k.
Definition good (M r : Z) : Prop := 0 <= r < M /\ (~ (pz | y) -> (exists x, (pz | x * x - y)) -> (M | r * r - y)).
Lemma pow_min i : 1 <= i -> 0 < pz ^ i /\ (pz | pz ^ i).
Proof. clear Odd K. intros I. pose proof (pz_ge p P). split; [apply Z.pow_pos_nonneg; lia|]. replace i with (Z.succ (i - 1)) by lia. rewrite Z.pow_succ_r by lia. apply Z.divide_factor_l. Qed.
Lemma pow_div a b : 0 <= a <= b -> (pz ^ a | pz ^ b).
Proof. clear Odd K. intros H. exists (pz ^ (b - a)). rewrite <- Z.pow_add_r by lia. f_equal. lia. Qed.
Lemma inverse_run i r : 1 <= i -> 0 <= r -> ~ (pz | r) -> (pz ^ i | 2 * r * (2 * r) ^ (pz ^ (i - 1) * (pz - 1) - 1) - 1).
Proof.
  clear K. intros I R N. pose proof (pz_ge p P). assert (N2 : ~ (pz | 2 * r)) by (intros D; apply prime_Zeuclid in D as [D|D]; [|tauto|exact P]; apply Z.divide_pos_le in D; lia).
  assert (PP : 1 <= pz ^ (i - 1)) by (pose proof (Z.pow_pos_nonneg pz (i - 1)); lia). rewrite <- (Z.pow_succ_r (2 * r)) by nia. replace (Z.succ (pz ^ (i - 1) * (pz - 1) - 1)) with (pz ^ (i - 1) * (pz - 1)) by lia.
  assert (U : univ (p ^ Z.to_nat i) (p ^ Z.to_nat (i - 1) * (p - 1))) by (replace (p ^ Z.to_nat (i - 1) * (p - 1))%nat with (totient (p ^ Z.to_nat i)); [apply euler_univ, Nat.neq_0_lt_0, Nat.pow_nonzero; lia|replace (Z.to_nat i) with (S (Z.to_nat (i - 1))) by lia; now apply totient_prime_power]).
  specialize (U (Z.to_nat (2 * r))). rewrite pow_nat, !Z2Nat.id, Nat2Z.inj_mul, pow_nat, Z2Nat.id in U by lia. replace (Z.of_nat (p - 1)) with (pz - 1) in U by lia. apply U. apply gcd_pow; [lia|exact P|]. intros D. apply N2. apply divide_nat in D. now rewrite Z2Nat.id in D by lia.
Qed.
Lemma hensel_run r0 : good pz r0 -> exists r, loopZ (Z.abs k + 1) (hensel_step y pz k) (1, pz, r0) = Some r /\ good (pz ^ k) r.
Proof.
  intros G0. pose proof (pz_ge p P) as P2.
  destruct (loopZ_spec (hensel_step y pz k) (fun '(i, M, r) => 1 <= i /\ M = pz ^ (Z.min i k) /\ good M r) (fun r => good (pz ^ k) r) (fun '(i, _, _) => Z.max 0 (k - i))) with (fuel := Z.abs k + 1) (s := (1, pz, r0)) as (r & E & Hr).
  - intros ((i & M) & r) (I & EM & G). cbn [hensel_step]. destruct (Z.ltb_spec i k) as [C|C]; [|eexists; split; [reflexivity|]; cbv beta iota; now rewrite EM, Z.min_r in G by lia].
    rewrite Z.min_l in EM by lia. destruct (pow_min i I) as (MP & MD). rewrite <- EM in MP, MD.
    assert (EQ : cdiv M pz = Some (pz ^ (i - 1))). { rewrite div_quot_nonneg by lia. f_equal. rewrite EM. replace i with (Z.succ (i - 1)) at 1 by lia. rewrite Z.pow_succ_r, Z.mul_comm by lia. apply Z.div_mul. lia. }
    rewrite EQ. cbn [obind]. rewrite modT_spec by lia. cbn [obind]. assert (PP : 1 <= pz ^ (i - 1)) by (pose proof (Z.pow_pos_nonneg pz (i - 1)); lia). destruct G as (Br & Gr).
    assert (R2 : res M (mm M r 2) (r * 2)) by (apply res_mm; [lia|split; [exact Br|exists 0; ring]|lia|exists 0; ring]).
    destruct (res_pow M (1 mod M) (mm M r 2) (r * 2) (pz ^ (i - 1) * (pz - 1) - 1) MP (res_mod M 1 MP) R2 ltac:(nia)) as (u & -> & Ru). cbn [obind].
    set (M' := pz ^ Z.min (i * 2) k). assert (EM' : (if i * 2 <? k then Some (M * M) else powT Z.mul 1 pz k) = Some M').
    { unfold M'. destruct (Z.ltb_spec (i * 2) k) as [L|L]; [rewrite Z.min_l by lia; f_equal; rewrite EM, <- Z.pow_add_r by lia; f_equal; lia|]. rewrite Z.min_r by lia. rewrite (powT_npow Z.mul 1 Z.mul_assoc Z.mul_1_l Z.mul_1_r) by lia. now rewrite npow_Z, Z2Nat.id by lia. }
    rewrite EM'. cbn [obind]. destruct (pow_min (Z.min (i * 2) k) ltac:(lia)) as (MP' & MD'). fold M' in MP', MD'. assert (MM : (M | M')) by (rewrite EM; apply pow_div; lia). assert (ML : M <= M') by (apply Z.divide_pos_le; assumption). assert (M2 : (M' | M * M)) by (rewrite EM, <- Z.pow_add_r by lia; apply pow_div; lia).
    rewrite modT_spec by lia. cbn [obind]. eexists. split; [reflexivity|]. cbv beta iota. split; [|lia]. split; [lia|]. split; [reflexivity|].
    assert (Rr : res M' r r) by (split; [lia|exists 0; ring]). set (v := modulo_sub (mm M' r r) (y mod M') M'). assert (Rv : res M' v (r * r - y)) by (apply res_sub; [exact MP'|apply res_mm; [exact MP'|exact Rr|lia|exists 0; ring]|now apply res_mod]).
    assert (Rs : res M' (modulo_sub r (mm M' v u) M') (r - (r * r - y) * u)) by (apply res_sub; [exact MP'|exact Rr|]; apply res_mm; [exact MP'|exact Rv|apply Ru|exists 0; ring]).
    destruct Rs as (Bs & Ds). split; [exact Bs|]. intros NY X. specialize (Gr NY X). set (r' := modulo_sub r (mm M' v u) M') in *.
    assert (NR : ~ (pz | r)) by (intros D; apply NY; replace y with (r * r - (r * r - y)) by ring; apply Z.divide_sub_r; [now apply Z.divide_mul_l|eapply Z.divide_trans; [exact MD|exact Gr]]).
    assert (INV : (M | 1 - 2 * r * u)). { pose proof (inverse_run i r I ltac:(lia) NR) as V. rewrite <- EM in V. destruct Ru as (_ & Ru). rewrite (Z.mul_comm r 2) in Ru. replace (1 - 2 * r * u) with (- (2 * r * (2 * r) ^ (pz ^ (i - 1) * (pz - 1) - 1) - 1) - 2 * r * (u - (2 * r) ^ (pz ^ (i - 1) * (pz - 1) - 1))) by ring. apply Z.divide_sub_r; [now apply Z.divide_opp_r|now apply Z.divide_mul_r]. }
    set (t := r * r - y) in *. replace (r' * r' - y) with ((r' - (r - t * u)) * (r' + (r - t * u)) + (t * (1 - 2 * r * u) + t * t * (u * u))) by (unfold t; ring). apply Z.divide_add_r; [now apply Z.divide_mul_l|]. eapply Z.divide_trans; [exact M2|]. apply Z.divide_add_r; [now apply mul_div2|apply Z.divide_mul_l, mul_div2; exact Gr].
  - intros ((i & M) & r) _. lia.
  - split; [lia|]. split; [rewrite Z.min_l by lia; now rewrite Z.pow_1_r|exact G0].
  - lia.
  - exists r. auto.
Qed.
Lemma hensel_all : exists r, sqrt_hensel_lift y pz k = Some r /\ good (pz ^ k) r.
Proof.
  pose proof (pz_ge p P) as P2. unfold sqrt_hensel_lift. rewrite modT_spec by lia. cbn [obind]. assert (YB : 0 <= y mod pz < pz) by (apply Z.mod_pos_bound; lia). destruct (cipolla_range p (y mod pz) P YB) as (r & -> & B & G). cbn [obind]. apply hensel_run. split; [exact B|].
  intros _ (x & X). replace (r * r - y) with ((r * r - y mod pz) + (y mod pz - y)) by ring. apply Z.divide_add_r; [apply G|apply mod_self'; lia]. exists x. replace (x * x - y mod pz) with ((x * x - y) + (y - y mod pz)) by ring. apply Z.divide_add_r; [exact X|apply mod_self; lia].
Qed.
Lemma roots_pm r z : ~ (pz | y) -> (pz ^ k | r * r - y) -> (pz ^ k | z * z - y) -> (pz ^ k | z - r) \/ (pz ^ k | z + r).
Proof.
  intros NY R X. destruct (pow_min k K) as (_ & PD). assert (D : (pz ^ k | (z - r) * (z + r))) by (replace ((z - r) * (z + r)) with ((z * z - y) - (r * r - y)) by ring; now apply Z.divide_sub_r).
  replace k with (Z.of_nat (Z.to_nat k)) in D |- * by lia. destruct (Znumtheory.Zdivide_dec pz (z - r)) as [A|A]; [|right; now apply (pp_gauss p _ (z - r))]. left. rewrite Z.mul_comm in D. apply (pp_gauss p _ (z + r)); [exact P| |exact D].
  intros B. assert (Z2 : (pz | 2 * z)) by (replace (2 * z) with ((z - r) + (z + r)) by ring; now apply Z.divide_add_r). apply prime_Zeuclid in Z2 as [Z2|Z2]; [pose proof (pz_ge p P); apply Z.divide_pos_le in Z2; lia| |exact P].
  apply NY. replace y with (z * z - (z * z - y)) by ring. apply Z.divide_sub_r; [now apply Z.divide_mul_l|]. eapply Z.divide_trans; [exact PD|exact X].
Qed.
End Hensel.

(** powers of two *)
Lemma odd_or x : (2 | x) \/ exists a, x = 2 * a + 1.
Proof. destruct (Z.Even_or_Odd x) as [(a & E)|(a & E)]; [left; exists a; lia|right; exists a; exact E]. Qed.
Lemma lift_run y i w s : (4 <= i)%nat -> w = 2 ^ (Z.of_nat i - 2) -> 0 < s < w -> (exists a, s = 2 * a + 1) -> (2 ^ (Z.of_nat i - 1) | s * s - y) ->
  exists s', p2_lift y w s = Some s' /\ 0 < s' < w * 2 /\ (4 | s' - s) /\ (2 ^ Z.of_nat i | s' * s' - y).
Proof.
  intros I EW S (a & O) D. unfold p2_lift. assert (E1 : 2 ^ (Z.of_nat i - 1) = 2 * w) by (rewrite EW, <- Z.pow_succ_r by lia; f_equal; lia). assert (E2 : 2 ^ Z.of_nat i = w * 4) by (replace (Z.of_nat i) with (Z.succ (Z.succ (Z.of_nat i - 2))) by lia; rewrite !Z.pow_succ_r, EW by lia; ring).
  assert (W4 : (4 | w)) by (exists (2 ^ (Z.of_nat i - 4)); rewrite EW; change 4 with (2 ^ 2) at 2; rewrite <- Z.pow_add_r by lia; f_equal; lia). assert (WP : 0 < w) by lia. rewrite E1 in D. rewrite E2.
  rewrite !modT_spec by lia. cbn [obind]. rewrite (Z.mod_small s) by lia. set (v := modulo_sub (mm (w * 4) s s) (y mod (w * 4)) (w * 4)).
  assert (Rv : res (w * 4) v (s * s - y)) by (apply res_sub; [lia|apply res_mm; [lia|split; [lia|exists 0; ring]|lia|exists 0; ring]|apply res_mod; lia]).
  destruct (Z.eqb_spec v 0) as [V|V]; cbn [negb].
  - destruct (Z.leb_spec w s); [lia|]. exists s. split; [reflexivity|]. split; [lia|]. split; [exists 0; ring|]. destruct Rv as (_ & Rv). rewrite V in Rv. replace (s * s - y) with (- (0 - (s * s - y))) by ring. now apply Z.divide_opp_r.
  - exists (s + w). split; [reflexivity|]. split; [lia|]. split; [replace (s + w - s) with w by ring; exact W4|]. destruct D as (c & D). destruct W4 as (b & W4). destruct (odd_or c) as [(e & C)|(e & C)].
    + exfalso. apply V. destruct Rv as (Bv & (f & Rv)). assert (E : v = (f + e) * (w * 4)) by (rewrite Z.mul_add_distr_r, <- Rv, D, C; ring). assert (f + e = 0) by nia. nia.
    + exists (e + a + 1 + b). replace ((s + w) * (s + w) - y) with (s * s - y + 2 * s * w + w * w) by ring. rewrite D, C, O. rewrite W4 at 4. ring.
Qed.
Lemma p2_run y k : 3 <= k -> (8 | y - 1) -> exists a b w, for_range 4 (Z.to_nat k + 1) (fun _ '(a, b, w2) => let* a := p2_lift y w2 a in let* b := p2_lift y w2 b in Some (a, b, w2 * 2)) (1, 3, 4) = Some (a, b, w) /\
  0 < a < 2 ^ (k - 1) /\ 0 < b < 2 ^ (k - 1) /\ (4 | a - 1) /\ (4 | b - 3) /\ (2 ^ k | a * a - y) /\ (2 ^ k | b * b - y).
Proof.
  intros K Y. destruct (for_range_spec (fun i '(a, b, w) => w = 2 ^ (Z.of_nat i - 2) /\ (0 < a < w /\ (4 | a - 1) /\ (2 ^ (Z.of_nat i - 1) | a * a - y)) /\ (0 < b < w /\ (4 | b - 3) /\ (2 ^ (Z.of_nat i - 1) | b * b - y)))
    (fun _ '(a, b, w2) => let* a := p2_lift y w2 a in let* b := p2_lift y w2 b in Some (a, b, w2 * 2)) 4 (Z.to_nat k + 1) (1, 3, 4)) as (((a & b) & w) & E & H).
  - lia.
  - destruct Y as (c & Y). split; [reflexivity|]. split; (split; [lia|split; [exists 0; reflexivity|]]); change (2 ^ (Z.of_nat 4 - 1)) with 8; [exists (- c)|exists (1 - c)]; lia.
  - intros i ((a & b) & w) I (EW & (A1 & A2 & A3) & (B1 & B2 & B3)).
    assert (OA : exists c, a = 2 * c + 1) by (destruct A2 as (c & A2); exists (2 * c); lia). assert (OB : exists c, b = 2 * c + 1) by (destruct B2 as (c & B2); exists (2 * c + 1); lia).
    destruct (lift_run y i w a ltac:(lia) EW A1 OA A3) as (a' & -> & A1' & A2' & A3'). cbn [obind]. destruct (lift_run y i w b ltac:(lia) EW B1 OB B3) as (b' & -> & B1' & B2' & B3'). cbn [obind]. eexists. split; [reflexivity|]. cbv beta iota.
    replace (Z.of_nat (S i) - 1) with (Z.of_nat i) by lia. split; [replace (Z.of_nat (S i) - 2) with (Z.succ (Z.of_nat i - 2)) by lia; rewrite Z.pow_succ_r by lia; lia|].
    split; (split; [assumption|split; [|assumption]]); [replace (a' - 1) with ((a' - a) + (a - 1)) by ring|replace (b' - 3) with ((b' - b) + (b - 3)) by ring]; now apply Z.divide_add_r.
  - exists a, b, w. split; [exact E|]. destruct H as (EW & (A1 & A2 & A3) & (B1 & B2 & B3)). replace (Z.of_nat (Z.to_nat k + 1) - 1) with k in * by lia. replace (Z.of_nat (Z.to_nat k + 1) - 2) with (k - 1) in * by lia. subst w. tauto.
Qed.
Lemma odd_square_8 x : (2 | x) \/ (8 | x * x - 1).
Proof. destruct (odd_or x) as [D|(a & ->)]; [now left|right]. destruct (odd_or a) as [(b & ->)|(b & ->)]; [exists (b * (2 * b + 1))|exists ((2 * b + 1) * (b + 1))]; ring. Qed.
Lemma two_gauss k a b : 1 <= k -> (4 | a - 2) -> (2 ^ k | a * b) -> (2 ^ (k - 1) | b).
Proof.
  intros K (c & A) D. assert (E : 2 ^ k = 2 * 2 ^ (k - 1)) by (rewrite <- Z.pow_succ_r by lia; f_equal; lia). rewrite E in D. destruct D as (x & D). assert (D2 : (2 ^ (k - 1) | (2 * c + 1) * b)) by (exists x; nia).
  replace (k - 1) with (Z.of_nat (Z.to_nat (k - 1))) in * by lia. apply (pp_gauss 2 _ (2 * c + 1)); [|intros (z & Z2); change (Z.of_nat 2) with 2 in Z2; lia|exact D2]. split; [lia|]. intros d (q & Q). assert (d <= 2)%nat by (destruct q; nia). destruct d as [|[|[|d]]]; lia.
Qed.
(** any solution modulo 2^k is one of the four *)
Lemma p2_all y k a b x : 3 <= k -> 0 < a < 2 ^ (k - 1) -> 0 < b < 2 ^ (k - 1) -> (4 | a - 1) -> (4 | b - 3) -> (2 ^ k | a * a - y) -> (2 ^ k | b * b - y) -> (2 ^ k | x * x - y) -> ~ (2 | y) ->
  (2 ^ k | x - a) \/ (2 ^ k | x + a) \/ (2 ^ k | x - b) \/ (2 ^ k | x + b).
Proof.
  intros K A1 B1 A2 B2 A3 B3 X NY. assert (E : 2 ^ k = 2 * 2 ^ (k - 1)) by (rewrite <- Z.pow_succ_r by lia; f_equal; lia). assert (K2 : (4 | 2 ^ k)) by (exists (2 ^ (k - 2)); change 4 with (2 ^ 2); rewrite <- Z.pow_add_r by lia; f_equal; lia). assert (K3 : (4 | 2 ^ (k - 1))) by (exists (2 ^ (k - 3)); change 4 with (2 ^ 2); rewrite <- Z.pow_add_r by lia; f_equal; lia).
  assert (OX : exists c, x = 2 * c + 1). { destruct (odd_or x) as [D|D]; [|exact D]. exfalso. apply NY. replace y with (x * x - (x * x - y)) by ring. apply Z.divide_sub_r; [now apply Z.divide_mul_l|]. eapply Z.divide_trans; [|exact X]. rewrite E. apply Z.divide_factor_l. }
  (* two odd roots agree up to sign modulo 2^(k-1) *)
  assert (PM : forall u v, (2 ^ k | u * u - y) -> (2 ^ k | v * v - y) -> (4 | u - v) -> (exists c, v = 2 * c + 1) -> (2 ^ (k - 1) | u - v)).
  { intros u v U V (c & C) (c' & V'). apply (two_gauss k (u + v)); [lia|exists (c + c'); lia|]. replace ((u + v) * (u - v)) with ((u * u - y) - (v * v - y)) by ring. now apply Z.divide_sub_r. }
  (* b = 2^(k-1) - a *)
  assert (BA : b = 2 ^ (k - 1) - a).
  { assert (D : (2 ^ (k - 1) | b - - a)). { apply PM; [exact B3|replace (- a * - a) with (a * a) by ring; exact A3| |]; destruct A2 as (c & A2), B2 as (c' & B2); [exists (c + c' + 1)|exists (- 2 * c - 1)]; lia. }
    destruct D as (c & D). assert (c = 1) by nia. subst c. lia. }
  assert (OA : exists c, a = 2 * c + 1) by (destruct A2 as (c & A2); exists (2 * c); lia). assert (ONA : exists c, - a = 2 * c + 1) by (destruct A2 as (c & A2); exists (- 2 * c - 1); lia).
  assert (C4 : (4 | x - a) \/ (4 | x - - a)). { destruct OX as (c & ->), A2 as (c' & A2). destruct (odd_or c) as [(e & ->)|(e & ->)]; [left; exists (e - c'); lia|right; exists (e + c' + 1); lia]. }
  destruct C4 as [C4|C4].
  - pose proof (PM x a X A3 C4 OA) as (c & D). destruct (odd_or c) as [(e & ->)|(e & ->)]; [left; exists e; lia|right; right; right; exists (e + 1); lia].
  - assert (A3' : (2 ^ k | - a * - a - y)) by (replace (- a * - a) with (a * a) by ring; exact A3). pose proof (PM x (- a) X A3' C4 ONA) as (c & D). destruct (odd_or c) as [(e & ->)|(e & ->)]; [right; left; exists e; lia|right; right; left; exists e; lia].
Qed.
Lemma p2_spec y k : 0 <= y -> 1 <= k ->
  ((2 | y) \/ ~ (exists x, (2 ^ k | x * x - y)) -> sqrt_hensel_lift_p2 y k = Some (0, 0)) /\
  (~ (2 | y) -> (exists x, (2 ^ k | x * x - y)) -> exists a b, sqrt_hensel_lift_p2 y k = Some (a, b) /\ 0 < a < 2 ^ k /\ 0 < b < 2 ^ k /\ (2 ^ k | a * a - y) /\ (2 ^ k | b * b - y) /\
     forall x, (2 ^ k | x * x - y) -> (2 ^ k | x - a) \/ (2 ^ k | x + a) \/ (2 ^ k | x - b) \/ (2 ^ k | x + b)).
Proof.
  intros Y K. unfold sqrt_hensel_lift_p2. rewrite !Z.rem_mod_nonneg by lia.
  assert (MD : forall m, 0 < m -> (y mod m = 1 mod m <-> (m | y - 1))) by (intros m Hm; apply ModuloProofs.mod_eq_divide; exact Hm).
  destruct (Z.eqb_spec (y mod 2) 1) as [E2|E2]; cbn [negb].
  2:{ split; [reflexivity|]. intros N. exfalso. destruct (odd_or y) as [D|(a & ->)]; [tauto|]. apply E2. change ((2 * a + 1) mod 2 = 1 mod 2). apply MD; [lia|]. exists a. ring. }
  assert (NY : ~ (2 | y)) by (intros (a & ->); rewrite Z.mod_mul in E2; lia). assert (D2 : (2 | y - 1)) by (apply MD; [lia|exact E2]).
  destruct (Z.eqb_spec k 1) as [->|K1].
  { split; [intros [D|N]; [tauto|]; exfalso; apply N; exists 1; change (2 ^ 1) with 2; replace (1 * 1 - y) with (- (y - 1)) by ring; now apply Z.divide_opp_r|]. intros _ _. exists 1, 1. split; [reflexivity|]. change (2 ^ 1) with 2. assert (D : (2 | 1 * 1 - y)) by (replace (1 * 1 - y) with (- (y - 1)) by ring; now apply Z.divide_opp_r).
    split; [lia|]. split; [lia|]. split; [exact D|]. split; [exact D|]. intros x X. left. destruct (odd_or x) as [Dx|(a & ->)]; [|exists a; ring]. exfalso. apply NY. replace y with (x * x - (x * x - y)) by ring. apply Z.divide_sub_r; [now apply Z.divide_mul_l|exact X]. }
  (* a solution modulo 4 (8) forces y = 1 modulo 4 (8) *)
  assert (SOL : forall x, (2 ^ k | x * x - y) -> (8 | x * x - 1)). { intros x X. destruct (odd_square_8 x) as [D|D]; [|exact D]. exfalso. apply NY. replace y with (x * x - (x * x - y)) by ring. apply Z.divide_sub_r; [now apply Z.divide_mul_l|]. eapply Z.divide_trans; [|exact X]. exists (2 ^ (k - 1)). rewrite Z.mul_comm, <- Z.pow_succ_r by lia. f_equal. lia. }
  destruct (Z.eqb_spec (y mod 4) 1) as [E4|E4]; cbn [negb].
  2:{ split; [reflexivity|]. intros _ (x & X). exfalso. apply E4. change (y mod 4 = 1 mod 4). apply MD; [lia|]. pose proof (SOL x X) as S8. replace (y - 1) with ((x * x - 1) - (x * x - y)) by ring. apply Z.divide_sub_r; [eapply Z.divide_trans; [|exact S8]; exists 2; reflexivity|]. eapply Z.divide_trans; [|exact X]. exists (2 ^ (k - 2)). change 4 with (2 ^ 2). rewrite <- Z.pow_add_r by lia. f_equal. lia. }
  assert (D4 : (4 | y - 1)) by (apply MD; [lia|exact E4]).
  destruct (Z.eqb_spec k 2) as [->|K2].
  { change (2 ^ 2) with 4 in *. assert (D : (4 | 1 * 1 - y)) by (replace (1 * 1 - y) with (- (y - 1)) by ring; now apply Z.divide_opp_r). split; [intros [E|N]; [tauto|]; exfalso; apply N; exists 1; exact D|]. intros _ _. exists 1, 1. split; [reflexivity|].
    split; [lia|]. split; [lia|]. split; [exact D|]. split; [exact D|]. intros x X. pose proof (SOL x X) as S8. destruct (odd_or x) as [(a & ->)|(a & ->)]; [exfalso; destruct S8 as (c & S8); lia|]. destruct (odd_or a) as [(b & ->)|(b & ->)]; [left; exists b; ring|right; left; exists (b + 1); ring]. }
  assert (P8 : (8 | 2 ^ k)) by (exists (2 ^ (k - 3)); change 8 with (2 ^ 3); rewrite <- Z.pow_add_r by lia; f_equal; lia).
  destruct (Z.eqb_spec (y mod 8) 1) as [E8|E8]; cbn [negb].
  2:{ split; [reflexivity|]. intros _ (x & X). exfalso. apply E8. change (y mod 8 = 1 mod 8). apply MD; [lia|]. pose proof (SOL x X) as S8. replace (y - 1) with ((x * x - 1) - (x * x - y)) by ring. apply Z.divide_sub_r; [exact S8|]. eapply Z.divide_trans; [exact P8|exact X]. }
  assert (D8 : (8 | y - 1)) by (apply MD; [lia|exact E8]). destruct (p2_run y k ltac:(lia) D8) as (a & b & w & -> & A1 & B1 & A2 & B2 & A3 & B3). cbn [obind].
  split; [intros [E|N]; [tauto|]; exfalso; apply N; exists a; exact A3|]. intros _ _. exists a, b. split; [reflexivity|]. assert (E : 2 ^ k = 2 * 2 ^ (k - 1)) by (rewrite <- Z.pow_succ_r by lia; f_equal; lia). split; [lia|]. split; [lia|]. split; [exact A3|]. split; [exact B3|]. intros x X. now apply (p2_all y k a b x); [lia|..].
Qed.

(** combining with the Chinese remainder theorem *)
Lemma set_insert_in x l z : In z (set_insert x l) <-> z = x \/ In z l.
Proof.
  unfold set_insert. destruct (existsb (Z.eqb x) l) eqn:E; cbn [In]; [|intuition]. split; [now right|]. intros [-> |H]; [|exact H]. apply existsb_exists in E as (w & W & E). apply Z.eqb_eq in E. now subst w.
Qed.
Lemma set_insert_nodup x l : NoDup l -> NoDup (set_insert x l).
Proof.
  intros N. unfold set_insert. destruct (existsb (Z.eqb x) l) eqn:E; [exact N|]. constructor; [|exact N]. intros H. assert (T : existsb (Z.eqb x) l = true) by (apply existsb_exists; exists x; split; [exact H|apply Z.eqb_refl]). congruence.
Qed.
Section Combine.
Variables (m q : Z).
Hypothesis M : 0 < m.
Hypothesis Q : 0 < q.
Hypothesis G : Z.gcd m q = 1.
Lemma lcm_coprime : Z.lcm m q = m * q.
Proof. unfold Z.lcm. rewrite G, Z.div_1_r. apply Z.abs_eq. nia. Qed.
Lemma crt_run r x : 0 <= r < m -> 0 <= x < q -> exists a, chinese_remainder r m x q = Some (a, m * q) /\ forall z, (z = a <-> 0 <= z < m * q /\ z mod m = r /\ (q | z - x)).
Proof.
  intros R X. destruct (chinese_remainder_spec r m x q M Q ltac:(lia) ltac:(lia)) as (_ & S). destruct S as (a & E & B & A1 & A2); [rewrite G; apply Z.divide_1_l|]. exists a. rewrite lcm_coprime in *. rewrite (Z.mod_small r) in A1 by lia. split; [exact E|]. intros z. split.
  - intros ->. split; [exact B|]. split; [exact A1|]. now apply ModuloProofs.mod_eq_divide.
  - intros (Bz & Z1 & Z2). apply ModuloProofs.mod_eq_divide in Z2; [|exact Q]. assert (Z1' : z mod m = r mod m) by (rewrite Z1, (Z.mod_small r) by lia; reflexivity). pose proof (chinese_remainder_unique r m x q z M Q ltac:(lia) ltac:(lia) Z1' Z2) as U. rewrite lcm_coprime, E, (Z.mod_small z) in U by lia. congruence.
Qed.
Lemma add_pairs_run x sr0 : 0 <= x < q -> (forall r, In r sr0 -> 0 <= r < m) -> forall sr, NoDup sr -> exists out, add_pairs m x q sr0 sr = Some out /\ NoDup out /\
  forall z, In z out <-> In z sr \/ (0 <= z < m * q /\ In (z mod m) sr0 /\ ((q | z - x) \/ (q | z + x))).
Proof.
  intros X. induction sr0 as [|r sr0 IH]; intros R sr N; cbn [add_pairs].
  - exists sr. split; [reflexivity|]. split; [exact N|]. intros z. cbn [In]. tauto.
  - assert (R0 : 0 <= r < m) by (apply R; now left). destruct (crt_run r x R0 X) as (a & -> & A). cbn [obind]. set (x' := if x =? 0 then x else q - x). assert (X' : 0 <= x' < q) by (unfold x'; destruct (Z.eqb_spec x 0); lia).
    assert (XX : forall z, (q | z - x') <-> (q | z + x)). { intros z. unfold x'. destruct (Z.eqb_spec x 0) as [->|_]; [replace (z - 0) with (z + 0) by ring; tauto|]. replace (z - (q - x)) with ((z + x) - q) by ring. split; intros D; [replace (z + x) with ((z + x - q) + q) by ring; apply Z.divide_add_r; [exact D|apply Z.divide_refl]|apply Z.divide_sub_r; [exact D|apply Z.divide_refl]]. }
    destruct (crt_run r x' R0 X') as (b & -> & B). cbn [obind]. destruct (IH ltac:(intros; apply R; now right) (set_insert b (set_insert a sr)) ltac:(now apply set_insert_nodup, set_insert_nodup)) as (out & E & NO & O). exists out. split; [exact E|]. split; [exact NO|].
    intros z. rewrite O, !set_insert_in, A, B, XX. cbn [In]. clear - M. split.
    + intros [[(H1 & H2 & H3)|[(H1 & H2 & H3)|H]]|(H1 & H2 & H3)]; [right; split; [exact H1|split; [left; congruence|now right]]|right; split; [exact H1|split; [left; congruence|now left]]|now left|right; auto].
    + intros [H|(H1 & [H2|H2] & [H3|H3])]; auto 10.
Qed.
End Combine.
Lemma cmod_zero a q : 0 < q -> exists t, cmod a q = Some t /\ (t = 0 <-> (q | a)).
Proof. intros Q. unfold cmod. destruct (Z.eqb_spec q 0); [lia|]. eexists. split; [reflexivity|]. apply Z.rem_divide. lia. Qed.
Lemma add_roots_run y m q x sr0 sr : 0 < m -> 0 < q -> Z.gcd m q = 1 -> 0 <= x < q -> (forall r, In r sr0 -> 0 <= r < m) -> NoDup sr -> exists out, add_roots y m sr0 x q sr = Some out /\ NoDup out /\
  forall z, In z out <-> In z sr \/ (0 <= z < m * q /\ In (z mod m) sr0 /\ (q | x * x - y) /\ ((q | z - x) \/ (q | z + x))).
Proof.
  intros M Q G X R N. unfold add_roots. destruct (cmod_zero (x * x - y) q Q) as (t & -> & T). cbn [obind]. destruct (Z.eqb_spec t 0) as [E|E]; cbn [negb].
  - destruct (add_pairs_run m q M Q G x sr0 X R sr N) as (out & -> & NO & O). exists out. split; [reflexivity|]. split; [exact NO|]. intros z. rewrite O. apply T in E. tauto.
  - exists sr. split; [reflexivity|]. split; [exact N|]. intros z. assert (~ (q | x * x - y)) by tauto. tauto.
Qed.
(** what one prime power contributes: the roots modulo q *)
Lemma pm_root q x y z : (q | x * x - y) -> (q | z - x) \/ (q | z + x) -> (q | z * z - y).
Proof. intros X D. replace (z * z - y) with ((z - x) * (z + x) + (x * x - y)) by ring. apply Z.divide_add_r; [|exact X]. destruct D as [D|D]; [now apply Z.divide_mul_l|now apply Z.divide_mul_r]. Qed.
Lemma factor_step y p e m sr : 0 <= y -> is_prime p -> 1 <= e -> ~ (Z.of_nat p | y) -> 0 < m -> Z.gcd m (Z.of_nat p ^ e) = 1 -> (forall r, In r sr -> 0 <= r < m) ->
  exists out, (if Z.of_nat p =? 2 then let* '(a, b) := sqrt_hensel_lift_p2 y e in let* s := add_roots y m sr a (Z.of_nat p ^ e) [] in add_roots y m sr b (Z.of_nat p ^ e) s else let* x := sqrt_hensel_lift y (Z.of_nat p) e in add_roots y m sr x (Z.of_nat p ^ e) []) = Some out /\ NoDup out /\
  forall z, In z out <-> 0 <= z < m * Z.of_nat p ^ e /\ In (z mod m) sr /\ (Z.of_nat p ^ e | z * z - y).
Proof.
  intros Y P E NY M G R. destruct (pow_min p P e E) as (QP & QD). set (q := Z.of_nat p ^ e) in *. destruct (Z.eqb_spec (Z.of_nat p) 2) as [T|T].
  - assert (EQ : q = 2 ^ e) by (unfold q; now rewrite T). rewrite T in NY. destruct (p2_spec y e Y E) as (S0 & S1). destruct (Znumtheory.Zdivide_dec q (0 * 0 - y)) as [D0|_].
    { exfalso. apply NY. rewrite <- T. replace y with (- (0 * 0 - y)) by ring. apply Z.divide_opp_r. eapply Z.divide_trans; [exact QD|exact D0]. }
    assert (X0 : (exists x, (2 ^ e | x * x - y)) \/ ~ (exists x, (2 ^ e | x * x - y))).
    { destruct (existsb (fun x => Z.eqb ((Z.of_nat x * Z.of_nat x - y) mod q) 0) (seq 0 (Z.to_nat q))) eqn:EB.
      - left. apply existsb_exists in EB as (x & _ & EB). apply Z.eqb_eq in EB. exists (Z.of_nat x). rewrite <- EQ. now apply Z.mod_divide; [lia|].
      - right. intros (x & X). rewrite <- EQ in X. assert (B : 0 <= x mod q < q) by (apply Z.mod_pos_bound; exact QP). assert (TT : existsb (fun x => Z.eqb ((Z.of_nat x * Z.of_nat x - y) mod q) 0) (seq 0 (Z.to_nat q)) = true); [|congruence]. apply existsb_exists. exists (Z.to_nat (x mod q)). split; [apply in_seq; lia|]. rewrite Z2Nat.id by lia. apply Z.eqb_eq, Z.mod_divide; [lia|]. apply (pm_root q x); [exact X|]. left. apply mod_self'. lia. }
    destruct X0 as [X0|X0].
    + destruct (S1 NY X0) as (a & b & -> & A1 & B1 & A2 & B2 & AB). cbn [obind]. rewrite <- EQ in *. assert (A1' : 0 <= a < q) by lia. assert (B1' : 0 <= b < q) by lia.
      destruct (add_roots_run y m q a sr [] M QP G A1' R (NoDup_nil _)) as (s1 & -> & N1 & O1). cbn [obind]. destruct (add_roots_run y m q b sr s1 M QP G B1' R N1) as (s2 & -> & N2 & O2). exists s2. split; [reflexivity|]. split; [exact N2|]. intros z. rewrite O2, O1. cbn [In]. split.
      * intros [[[]|(H1 & H2 & _ & H4)]|(H1 & H2 & _ & H4)]; (split; [exact H1|split; [exact H2|]]); [now apply (pm_root q a)|now apply (pm_root q b)].
      * intros (H1 & H2 & H3). destruct (AB z H3) as [D|[D|[D|D]]]; [left; right|left; right|right|right]; (split; [exact H1|split; [exact H2|split; [assumption|]]]); auto.
    + rewrite (S0 (or_intror X0)). cbn [obind]. assert (B0 : 0 <= 0 < q) by lia. destruct (add_roots_run y m q 0 sr [] M QP G B0 R (NoDup_nil _)) as (s1 & -> & N1 & O1). cbn [obind]. destruct (add_roots_run y m q 0 sr s1 M QP G B0 R N1) as (s2 & -> & N2 & O2). exists s2. split; [reflexivity|]. split; [exact N2|]. intros z. rewrite O2, O1. cbn [In]. rewrite <- EQ in X0. split.
      * intros [[[]|(_ & _ & H & _)]|(_ & _ & H & _)]; exfalso; apply X0; exists 0; exact H.
      * intros (_ & _ & H). exfalso. apply X0. exists z. exact H.
  - assert (O : p <> 2%nat) by lia. destruct (hensel_all p P O y e E) as (x & -> & B & S). cbn [obind]. fold q in B, S. destruct (add_roots_run y m q x sr [] M QP G B R (NoDup_nil _)) as (s1 & -> & N1 & O1). exists s1. split; [reflexivity|]. split; [exact N1|]. intros z. rewrite O1. cbn [In]. split.
    + intros [[]|(H1 & H2 & H3 & H4)]. split; [exact H1|]. split; [exact H2|]. now apply (pm_root q x).
    + intros (H1 & H2 & H3). assert (X : (q | x * x - y)) by (apply S; [exact NY|]; exists z; eapply Z.divide_trans; [exact QD|exact H3]). right. split; [exact H1|]. split; [exact H2|]. split; [exact X|]. now apply (roots_pm p P O y e E).
Qed.
Lemma coprime_prime p e m : is_prime p -> 1 <= e -> 0 < m -> ~ (Z.of_nat p | m) -> Z.gcd m (Z.of_nat p ^ e) = 1.
Proof.
  intros P E M N. replace (Z.of_nat p ^ e) with (Z.of_nat (p ^ Z.to_nat e)) by (rewrite pow_nat, Z2Nat.id by lia; reflexivity). rewrite <- (Z2Nat.id m) by lia. rewrite gcd_nat. replace 1 with (Z.of_nat 1) by reflexivity. f_equal. apply gcd_pow; [lia|exact P|]. intros D. apply N. apply divide_nat in D. now rewrite Z2Nat.id in D by lia.
Qed.
Lemma prime_of_pow p q e : is_prime p -> is_prime q -> 0 <= e -> (Z.of_nat p | Z.of_nat q ^ e) -> p = q.
Proof.
  intros P Q E. pose proof (pz_ge p P). pose proof (pz_ge q Q). revert e E. apply (natlike_ind (fun e => (Z.of_nat p | Z.of_nat q ^ e) -> p = q)).
  - rewrite Z.pow_0_r. intros D. apply Z.divide_pos_le in D; lia.
  - intros e E IH D. rewrite Z.pow_succ_r in D by exact E. apply prime_Zeuclid in D as [D|D]; [|now apply IH|exact P]. apply divide_nat in D. destruct Q as (_ & Q). destruct (Q p D); [lia|assumption].
Qed.
