(** Square roots modulo an odd prime. *)
From Coq Require Import Ring Ring_theory.
From Verif Require Import Lib BaseModel BaseProofs ModuloModel ModuloProofs ModPowModel ModPowProofs RingSpec RingProofs PrimesSpec PrimesProofs NumTheory NumTheory2 NumTheory3 QuadraticModel RootsModel.
Open Scope Z_scope.

Lemma mm_mod M x y : 0 < M -> 0 <= x -> 0 <= y -> mm M x y = (x * y) mod M.
Proof. intros. unfold mm. apply Z.rem_mod_nonneg; nia. Qed.
Lemma mod_self M x : 0 < M -> (M | x - x mod M).
Proof. intros H. exists (x / M). pose proof (Z.div_mod x M ltac:(lia)). lia. Qed.
Lemma mod_self' M x : 0 < M -> (M | x mod M - x).
Proof. intros H. exists (- (x / M)). pose proof (Z.div_mod x M ltac:(lia)). lia. Qed.
(** x is the residue that represents x' *)
Definition res (M x x' : Z) : Prop := 0 <= x < M /\ (M | x - x').
Lemma res_mod M x : 0 < M -> res M (x mod M) x.
Proof. intros H. split; [apply Z.mod_pos_bound; exact H|now apply mod_self']. Qed.
Lemma res_mm M x x' y y' : 0 < M -> res M x x' -> 0 <= y -> (M | y - y') -> res M (mm M x y) (x' * y').
Proof.
  intros H (A & B) C D. rewrite mm_mod by lia. split; [apply Z.mod_pos_bound; lia|]. replace ((x * y) mod M - x' * y') with (((x * y) mod M - x * y) + (x * (y - y') + y' * (x - x'))) by ring. apply Z.divide_add_r; [now apply mod_self'|]. apply Z.divide_add_r; now apply Z.divide_mul_r.
Qed.
Lemma res_add M x x' y y' : 0 < M -> res M x x' -> res M y y' -> res M (modulo_add x y M) (x' + y').
Proof.
  intros H (A & B) (C & D). rewrite modulo_add_mod by lia. split; [apply Z.mod_pos_bound; lia|]. replace ((x + y) mod M - (x' + y')) with (((x + y) mod M - (x + y)) + ((x - x') + (y - y'))) by ring. apply Z.divide_add_r; [now apply mod_self'|now apply Z.divide_add_r].
Qed.
Lemma res_sub M x x' y y' : 0 < M -> res M x x' -> res M y y' -> res M (modulo_sub x y M) (x' - y').
Proof.
  intros H (A & B) (C & D). rewrite modulo_sub_mod by lia. split; [apply Z.mod_pos_bound; lia|]. replace ((x - y) mod M - (x' - y')) with (((x - y) mod M - (x - y)) + ((x - x') - (y - y'))) by ring. apply Z.divide_add_r; [now apply mod_self'|now apply Z.divide_sub_r].
Qed.
Lemma res_pow M e1 x x' y : 0 < M -> res M e1 1 -> res M x x' -> 0 <= y -> exists r, powT (mm M) e1 x y = Some r /\ res M r (x' ^ y).
Proof.
  intros H E X Y. destruct (powT_rel (mm M) e1 Z.mul 1 Z.mul_assoc Z.mul_1_l Z.mul_1_r (res M) E) with (x := x) (x' := x') (y := y) as (r & E1 & R1); [|exact X|exact Y|].
  - intros a a' b b' A (B & C). apply res_mm; auto. lia.
  - exists r. split; [exact E1|]. now rewrite npow_Z, Z2Nat.id in R1 by lia.
Qed.
Lemma res_eq M x y : res M x y -> x = y mod M.
Proof. intros (A & B). rewrite <- (Z.mod_small x M A). apply ModuloProofs.mod_eq_divide; [lia|exact B]. Qed.

(** the ring of pairs a + b sqrt d over Z *)
Section Pairs.
Variable d : Z.
Definition padd (x y : Z * Z) : Z * Z := (fst x + fst y, snd x + snd y).
Definition pmul (x y : Z * Z) : Z * Z := (fst x * fst y + snd x * snd y * d, fst x * snd y + snd x * fst y).
Definition popp (x : Z * Z) : Z * Z := (- fst x, - snd x).
Definition psub (x y : Z * Z) : Z * Z := (fst x - fst y, snd x - snd y).
Lemma pairs_ring : ring_theory (0, 0) (1, 0) padd pmul psub popp (@eq (Z * Z)).
Proof. constructor; intros; repeat match goal with x : (Z * Z)%type |- _ => destruct x end; unfold padd, pmul, psub, popp; cbn [fst snd]; f_equal; ring. Qed.
Notation ppow := (rpow (1, 0) pmul).
Lemma npow_rpow x n : npow pmul (1, 0) x n = ppow x n.
Proof. induction n as [|n IH]; cbn [npow rpow]; [reflexivity|]. rewrite IH. apply (Rmul_comm pairs_ring). Qed.
Lemma ppow_scalar a n : ppow (a, 0) n = (a ^ Z.of_nat n, 0).
Proof. induction n as [|n IH]; cbn [rpow]; [reflexivity|]. rewrite IH, Nat2Z.inj_succ, Z.pow_succ_r by lia. unfold pmul. cbn [fst snd]. f_equal; ring. Qed.
Lemma ppow_root n : ppow (0, 1) (2 * n + 1) = (0, d ^ Z.of_nat n).
Proof.
  induction n as [|n IH]; [reflexivity|]. replace (2 * S n + 1)%nat with (S (S (2 * n + 1))) by lia. cbn [rpow]. rewrite IH, Nat2Z.inj_succ, Z.pow_succ_r by lia. unfold pmul. cbn [fst snd]. f_equal; ring.
Qed.
Lemma prnat n : rnat (0, 0) (1, 0) padd n = (Z.of_nat n, 0).
Proof. induction n as [|n IH]; [reflexivity|]. cbn [rnat]. rewrite IH. unfold padd. cbn [fst snd]. f_equal; lia. Qed.
Lemma ppow_zero (M a : Z) n : (M | d) -> exists c e, ppow (a, 1) n = (c, e) /\ (M | c - a ^ Z.of_nat n).
Proof.
  intros D. induction n as [|n (c & e & E & H)]; [exists 1, 0; split; [reflexivity|exists 0; change (Z.of_nat 0) with 0; rewrite Z.pow_0_r; ring]|]. cbn [rpow]. rewrite E. unfold pmul. cbn [fst snd]. do 2 eexists. split; [reflexivity|]. rewrite Nat2Z.inj_succ, Z.pow_succ_r by lia.
  replace (c * a + e * 1 * d - a * a ^ Z.of_nat n) with (a * (c - a ^ Z.of_nat n) + e * d) by ring. apply Z.divide_add_r; now apply Z.divide_mul_r.
Qed.
(** the model's quadratic numbers represent pairs *)
Definition qres (M : Z) (x : @quadratic Z) (x' : Z * Z) : Prop := res M (qa x) (fst x') /\ res M (qb x) (snd x') /\ qD x = d.
Lemma qpow M e1 a y : 0 < M -> res M e1 1 -> 0 <= a < M -> 0 <= d < M -> 0 <= y ->
  exists r, powT (q_mul (fun x y => modulo_add x y M) (mm M)) (Q e1 0 d) (Q a e1 d) y = Some r /\ qres M r (ppow (a, 1) (Z.to_nat y)).
Proof.
  intros H E A Dd Y. assert (R0 : res M 0 0) by (split; [lia|exists 0; ring]). assert (Ra : res M a a) by (split; [exact A|exists 0; ring]). assert (Rd : res M d d) by (split; [exact Dd|exists 0; ring]).
  destruct (powT_rel (q_mul (fun x y => modulo_add x y M) (mm M)) (Q e1 0 d) pmul (1, 0)) with (R := qres M) (x := Q a e1 d) (x' := (a, 1)) (y := y) as (r & E1 & R1).
  - intros; apply (Rmul_assoc pairs_ring).
  - apply (Rmul_1_l pairs_ring).
  - intros x. rewrite (Rmul_comm pairs_ring). apply (Rmul_1_l pairs_ring).
  - split; [exact E|]. split; [exact R0|reflexivity].
  - intros u u' v v' (U1 & U2 & U3) (V1 & V2 & V3). assert (MU : forall x x' z z', res M x x' -> res M z z' -> res M (mm M x z) (x' * z')) by (intros x x' z z' X (Z1 & Z2); apply res_mm; auto; lia).
    unfold qres, q_mul, pmul. cbn [qa qb qD fst snd]. rewrite U3. split; [|split; [|reflexivity]]; apply res_add; auto.
  - split; [exact Ra|]. split; [exact E|reflexivity].
  - exact Y.
  - exists r. split; [exact E1|]. now rewrite npow_rpow in R1.
Qed.
End Pairs.

Section Cipolla.
Variable p : nat.
Hypothesis P : is_prime p.
Hypothesis Odd : p <> 2%nat.
Notation pz := (Z.of_nat p). Notation h := (half p).
Variable y : Z.
Hypothesis Y : 0 <= y < pz.
Definition goes_on (a : Z) : Prop := (pz | (a * a - y) ^ Z.of_nat h - 1).
Lemma e1_res : modT 1 pz = Some (1 mod pz) /\ res pz (1 mod pz) 1 /\ 1 mod pz = 1.
Proof. pose proof (pz_ge p P). rewrite modT_spec by lia. split; [reflexivity|]. rewrite Z.mod_small by lia. split; [split; [lia|exists 0; ring]|reflexivity]. Qed.
Lemma goes_on_cong a b : (pz | a - b) -> goes_on a -> goes_on b.
Proof.
  unfold goes_on. intros D A. replace ((b * b - y) ^ Z.of_nat h - 1) with (((a * a - y) ^ Z.of_nat h - 1) - ((a * a - y) ^ Z.of_nat h - (b * b - y) ^ Z.of_nat h)) by ring. apply Z.divide_sub_r; [exact A|]. apply pow_cong. replace (a * a - y - (b * b - y)) with ((a - b) * (a + b)) by ring. now apply Z.divide_mul_l.
Qed.
(** the search ends: if it went on for every a, -y, -2y, ... would all be squares, and so y, at whose root it ends *)
Lemma not_all : ~ (forall a, 0 <= a < pz -> goes_on a).
Proof.
  pose proof (pz_ge p P). intros A. assert (A' : forall a, goes_on a) by (intros a; apply (goes_on_cong (a mod pz)); [apply mod_self'; lia|apply A, Z.mod_pos_bound; lia]).
  assert (SQ : forall k, exists b, (pz | b * b - (- (Z.of_nat k * y)))).
  { induction k as [|k (b & B)]; [exists 0; exists 0; ring|]. destruct (euler_root p P Odd _ (A' b)) as (c & C). exists c. replace (c * c - - (Z.of_nat (S k) * y)) with ((c * c - (b * b - y)) + (b * b - (- (Z.of_nat k * y)))) by lia. now apply Z.divide_add_r. }
  destruct (SQ (p - 1)%nat) as (b & B). assert (B' : (pz | b * b - y)) by (replace (b * b - y) with ((b * b - - (Z.of_nat (p - 1) * y)) - pz * y) by lia; apply Z.divide_sub_r; [exact B|apply Z.divide_factor_l]).
  pose proof (A' b) as G. unfold goes_on in G. destruct (half_eq p P Odd) as (_ & H1). assert (D : (pz | (b * b - y) ^ Z.of_nat h)) by (replace (Z.of_nat h) with (Z.succ (Z.of_nat (h - 1))) by lia; rewrite Z.pow_succ_r by lia; now apply Z.divide_mul_l).
  assert (D1 : (pz | 1)) by (replace 1 with ((b * b - y) ^ Z.of_nat h - ((b * b - y) ^ Z.of_nat h - 1)) by ring; now apply Z.divide_sub_r). apply Z.divide_pos_le in D1; lia.
Qed.
Lemma quot_half : Z.quot (pz - 1) 2 = Z.of_nat h /\ Z.quot (pz + 1) 2 = Z.of_nat (S h).
Proof. destruct (half_eq p P Odd) as (E & _). rewrite !Z.quot_div_nonneg by lia. split; [replace (pz - 1) with (Z.of_nat h * 2) by lia|replace (pz + 1) with (Z.of_nat (S h) * 2) by lia]; apply Z.div_mul; lia. Qed.
Lemma find_run : exists a d, loopZ (pz + 1) (cipolla_step y pz) (0, 0) = Some (a, d) /\ 0 <= a < pz /\ res pz d (a * a - y) /\ ~ goes_on a.
Proof.
  pose proof (pz_ge p P). destruct e1_res as (E1 & R1 & V1). destruct quot_half as (Q1 & _).
  destruct (loopZ_spec (cipolla_step y pz) (fun s => 0 <= fst s < pz /\ forall i, 1 <= i <= fst s -> goes_on i) (fun r => 0 <= fst r < pz /\ res pz (snd r) (fst r * fst r - y) /\ ~ goes_on (fst r)) (fun s => pz - fst s)) with (fuel := pz + 1) (s := (0, 0)) as (r & E & Hr).
  - intros (a & d0) (A & G). cbn [fst] in A, G. unfold cipolla_step. rewrite E1, Q1. cbn [obind fst].
    set (a' := modulo_add a (1 mod pz) pz). assert (Ra : res pz a' (a + 1)) by (apply res_add; [lia|split; [exact A|exists 0; ring]|exact R1]).
    set (d := modulo_sub (mm pz a' a') y pz). assert (Rd : res pz d (a' * a' - y)) by (apply res_sub; [lia| |split; [lia|exists 0; ring]]; apply res_mm; [lia|split; [apply Ra|exists 0; ring]|apply Ra|exists 0; ring]).
    destruct (res_pow pz (1 mod pz) d _ (Z.of_nat h) ltac:(lia) R1 Rd ltac:(lia)) as (t & -> & Rt). cbn [obind].
    destruct (Z.eqb_spec t 1) as [T|T].
    + eexists. split; [reflexivity|]. cbn [fst]. assert (G' : goes_on a') by (unfold goes_on; subst t; destruct Rt as (_ & Rt); replace ((a' * a' - y) ^ Z.of_nat h - 1) with (- (1 - (a' * a' - y) ^ Z.of_nat h)) by ring; now apply Z.divide_opp_r).
      assert (Ea : a' = a + 1).
      { destruct (Z.eq_dec a (pz - 1)) as [->|Na].
        - exfalso. apply not_all. intros i I. destruct (Z.eq_dec i 0) as [->|]; [|apply G; lia]. apply (goes_on_cong a'); [|exact G']. destruct Ra as (_ & Ra). replace (a' - 0) with ((a' - (pz - 1 + 1)) + pz * 1) by ring. apply Z.divide_add_r; [exact Ra|apply Z.divide_factor_l].
        - apply res_eq in Ra. rewrite Ra. apply Z.mod_small. lia. }
      rewrite Ea in *. split; [split; [destruct Ra; lia|]|lia]. intros i I. destruct (Z.eq_dec i (a + 1)) as [->|]; [exact G'|]. apply G. lia.
    + eexists. split; [reflexivity|]. cbn [fst snd]. split; [apply Ra|]. split; [exact Rd|]. intros G'. apply T. unfold goes_on in G'. destruct Rt as (Bt & Rt).
      assert (D : (pz | t - 1)) by (replace (t - 1) with ((t - (a' * a' - y) ^ Z.of_nat h) + ((a' * a' - y) ^ Z.of_nat h - 1)) by ring; now apply Z.divide_add_r). destruct D as (c & D). assert (c = 0) by nia. subst c. lia.
  - intros (a & d0) (A & _). cbn [fst] in *. lia.
  - cbn [fst]. split; [lia|]. intros i I. lia.
  - cbn [fst]. lia.
  - destruct r as (a & d). exists a, d. exact (conj E Hr).
Qed.
Lemma cipolla_m_run : exists r, sqrt_cipolla_m y pz = Some r /\ 0 <= r < pz /\ ((exists x, (pz | x * x - y)) -> (pz | r * r - y)).
Proof.
  pose proof (pz_ge p P) as P2. destruct (half_eq p P Odd) as (Ep & H1). destruct e1_res as (E1 & R1 & V1). destruct quot_half as (Q1 & Q2). destruct find_run as (a & d & F & A & Rd & NG). unfold sqrt_cipolla_m. destruct (Z.eqb_spec pz 2); [lia|]. rewrite F, E1, Q2. cbn [obind].
  destruct (qpow d pz (1 mod pz) a (Z.of_nat (S h)) ltac:(lia) R1 A (proj1 Rd) ltac:(lia)) as (r & -> & (Ra & Rb & _)). cbn [obind]. exists (qa r). split; [reflexivity|]. split; [apply Ra|]. intros (x & X). rewrite Nat2Z.id in Ra, Rb.
  destruct (rpow (1, 0) (pmul d) (a, 1) (S h)) as (u & v) eqn:UV. cbn [fst snd] in Ra, Rb.
  assert (GOAL : (pz | u * u - y) -> (pz | qa r * qa r - y)).
  { intros U. destruct Ra as (_ & Ra). replace (qa r * qa r - y) with ((qa r - u) * (qa r + u) + (u * u - y)) by ring. apply Z.divide_add_r; [now apply Z.divide_mul_l|exact U]. }
  destruct Rd as (Bd & Rd). destruct (Znumtheory.Zdivide_dec pz d) as [D0|D0].
  - (* a is a root *)
    apply GOAL. destruct (ppow_zero d pz a (S h) D0) as (c & e & E & C). rewrite UV in E. injection E as Ec Ee. rewrite <- Ec in C. clear Ee Ec c e.
    assert (AY : (pz | a * a - y)) by (replace (a * a - y) with (d - (d - (a * a - y))) by ring; now apply Z.divide_sub_r).
    assert (AP : (pz | (a ^ Z.of_nat (S h)) * (a ^ Z.of_nat (S h)) - a * a)). { rewrite <- Z.pow_add_r by lia. replace (Z.of_nat (S h) + Z.of_nat (S h)) with (Z.succ pz) by lia. rewrite Z.pow_succ_r by lia. replace (a * a ^ pz - a * a) with (a * (a ^ pz - a)) by ring. apply Z.divide_mul_r, fermat_p, P. }
    replace (u * u - y) with ((u - a ^ Z.of_nat (S h)) * (u + a ^ Z.of_nat (S h)) + ((a ^ Z.of_nat (S h)) * (a ^ Z.of_nat (S h)) - a * a) + (a * a - y)) by ring. apply Z.divide_add_r; [apply Z.divide_add_r; [now apply Z.divide_mul_l|exact AP]|exact AY].
  - assert (Dh : (pz | d ^ Z.of_nat h + 1)).
    { destruct (half_cases p P Odd d D0) as [C|C]; [|exact C]. exfalso. apply NG. unfold goes_on. replace ((a * a - y) ^ Z.of_nat h - 1) with ((d ^ Z.of_nat h - 1) - (d ^ Z.of_nat h - (a * a - y) ^ Z.of_nat h)) by ring. apply Z.divide_sub_r; [exact C|]. now apply pow_cong. }
    (* the p-th power is the conjugate *)
    destruct (frobenius (0, 0) (1, 0) padd (pmul d) psub popp (pairs_ring d) p (a, 0) (0, 1) P) as ((w1 & w2) & FR). rewrite ppow_scalar, prnat in FR. rewrite Ep in FR at 3. rewrite ppow_root in FR.
    replace (padd (a, 0) (0, 1)) with (a, 1) in FR by (unfold padd; cbn [fst snd]; f_equal; lia).
    assert (FR' : rpow (1, 0) (pmul d) (a, 1) p = (a ^ pz + pz * w1, d ^ Z.of_nat h + pz * w2)) by (rewrite FR; unfold padd, pmul; cbn [fst snd]; f_equal; ring).
    assert (SQ : pmul d (u, v) (u, v) = pmul d (rpow (1, 0) (pmul d) (a, 1) p) (a, 1)).
    { rewrite <- UV, <- (rpow_add (0, 0) (1, 0) padd (pmul d) psub popp (pairs_ring d)). replace (S h + S h)%nat with (S p) by lia. reflexivity. }
    rewrite FR' in SQ. unfold pmul in SQ. cbn [fst snd] in SQ. injection SQ as S1 S2.
    destruct (fermat_p p P a) as (f & Fa). destruct Dh as (g & Dh). destruct Rd as (c & Rd).
    assert (U1 : (pz | u * u + v * v * d - y)). { exists (a * f + a * w1 + g * d + w2 * d - c). rewrite S1. replace (a ^ pz) with (f * pz + a) by lia. replace (d ^ Z.of_nat h) with (g * pz - 1) by lia. replace y with (a * a - d + c * pz) by lia. ring. }
    assert (U2 : (pz | u * v)). { assert (D2 : (pz | 2 * (u * v))). { exists (f + w1 + a * g + a * w2). replace (2 * (u * v)) with (u * v + v * u) by ring. rewrite S2. replace (a ^ pz) with (f * pz + a) by lia. replace (d ^ Z.of_nat h) with (g * pz - 1) by lia. ring. }
      apply prime_Zeuclid in D2 as [D2|D2]; [|exact D2|exact P]. apply Z.divide_pos_le in D2; lia. }
    apply GOAL. assert (VV : (pz | v) -> (pz | u * u - y)) by (intros V; replace (u * u - y) with (u * u + v * v * d - y - v * (v * d)) by ring; apply Z.divide_sub_r; [exact U1|now apply Z.divide_mul_l]).
    apply prime_Zeuclid in U2 as [U|V]; [|auto|exact P]. assert (DV : (pz | d * (v * v) - y)) by (replace (d * (v * v) - y) with (u * u + v * v * d - y - u * u) by ring; apply Z.divide_sub_r; [exact U1|now apply Z.divide_mul_l]).
    destruct (Znumtheory.Zdivide_dec pz v) as [V|V]; [auto|]. exfalso.
    assert (Yn : ~ (pz | y)). { intros D. assert (D2 : (pz | d * (v * v))) by (replace (d * (v * v)) with (d * (v * v) - y + y) by ring; now apply Z.divide_add_r). apply prime_Zeuclid in D2 as [D2|D2]; [tauto| |exact P]. apply prime_Zeuclid in D2; [tauto|exact P]. }
    pose proof (half_square p P Odd y x Yn X) as Y1. assert (Dn : (pz | d * (v * v) - y)) by exact DV. apply (pow_cong _ _ _ h) in Dn. rewrite Z.pow_mul_l in Dn.
    assert (V1' : (pz | (v * v) ^ Z.of_nat h - 1)) by (apply (half_square p P Odd (v * v) v); [intros D2; apply prime_Zeuclid in D2; [tauto|exact P]|exists 0; ring]).
    apply (half_not_both p P Odd d); [|exists g; exact Dh]. replace (d ^ Z.of_nat h - 1) with ((d ^ Z.of_nat h * (v * v) ^ Z.of_nat h - y ^ Z.of_nat h) + (y ^ Z.of_nat h - 1) - d ^ Z.of_nat h * ((v * v) ^ Z.of_nat h - 1)) by ring. apply Z.divide_sub_r; [now apply Z.divide_add_r|now apply Z.divide_mul_r].
Qed.
End Cipolla.
