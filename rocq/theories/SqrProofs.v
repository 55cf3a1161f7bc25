From Coq Require Import Znumtheory.
From Verif Require Import Lib BaseModel PrimesSpec PrimesProofs NumTheory2 NumTheory3 RootsModel RootsSpec RootsProofs RootsProofs2 RootsProps TripleSpec SqrModel SqrSpec.
Open Scope Z_scope.

Lemma sq_mono a b : 0 <= a -> 0 <= b -> a * a <= b * b -> a <= b.
Proof. intros. apply Z.square_le_simpl_nonneg; lia. Qed.
Lemma sq_eq a b : 0 <= a -> 0 <= b -> a * a = b * b -> a = b.
Proof. intros A B E. apply Z.le_antisymm; apply sq_mono; lia. Qed.
Lemma root_sq root t : square_root root -> 0 <= t -> root (t * t) = t.
Proof. intros (H & _) Ht. destruct (H (t * t) ltac:(nia)) as (A & B & C). apply Z.le_antisymm; [apply sq_mono; lia|]. assert (t < root (t * t) + 1); [|lia]. apply Z.square_lt_simpl_nonneg; lia. Qed.

(** Euclid's algorithm on p and x0 down to the root of p *)
Section Euclid.
  Variables p x0 : Z.
  Hypothesis P : 2 <= p.
  Hypothesis X : 0 <= x0 < p.
  Definition lat (x T S z : Z) : Prop := 0 <= x < z /\ p <= z * z /\ 1 <= T /\ 0 <= S /\ x * S + z * T = p /\ exists g, (g = 1 \/ g = -1) /\ (p | x - g * T * x0) /\ (p | z + g * S * x0).
  Lemma euclid_run : exists x T S z, loopZ (p + 1) (fun '(x, z) => if (0 <? x) && ((p - 1) ÷ x <? x) then let '(x, z) := (z, x) in Some (inl (Z.rem x z, z)) else Some (inr x)) (x0, p) = Some x /\ lat x T S z /\ x * x < p.
  Proof using P X.
    edestruct (loopZ_spec (fun '(x, z) => if (0 <? x) && ((p - 1) ÷ x <? x) then let '(x, z) := (z, x) in Some (inl (Z.rem x z, z)) else Some (inr x)) (fun '(x, z) => exists T S, lat x T S z) (fun x => exists T S z, lat x T S z /\ x * x < p) (fun '(x, z) => x)) with (fuel := p + 1) (s := (x0, p)) as (r & E & (T & S & z & L & B)).
    - intros (x, z) (T & S & ((X0 & XZ) & PZ & T1 & S0 & E & g & G & G1 & G2)). destruct (Z.ltb_spec 0 x) as [XP|XP]; cbn [andb].
      + rewrite Z.quot_div_nonneg by lia. pose proof (Z.div_mod (p - 1) x ltac:(lia)) as D. pose proof (Z.mod_pos_bound (p - 1) x ltac:(lia)) as DB. destruct (Z.ltb_spec ((p - 1) / x) x) as [L|L].
        * eexists. split; [reflexivity|]. cbv beta iota. rewrite Z.rem_mod_nonneg by lia. pose proof (Z.mod_pos_bound z x ltac:(lia)) as RB. pose proof (Z.div_mod z x ltac:(lia)) as RD. pose proof (Z.div_pos z x ltac:(lia) ltac:(lia)) as QP. set (q := z / x) in *. split; [|lia]. exists (S + q * T), T. split; [lia|]. assert (1 <= q) by (destruct (Z_lt_le_dec q 1); [assert (q = 0) by lia; nia|assumption]). split; [nia|]. split; [assert (1 * 1 <= q * T) by (apply Z.mul_le_mono_nonneg; lia); lia|]. split; [lia|]. split; [replace (z mod x) with (z - x * q) by lia; rewrite <- E; ring|]. exists (- g). split; [lia|]. split.
          -- replace (z mod x - - g * (S + q * T) * x0) with ((z + g * S * x0) - q * (x - g * T * x0)) by (replace (z mod x) with (z - x * q) by lia; ring). apply Z.divide_sub_r; [exact G2|now apply Z.divide_mul_r].
          -- replace (x + - g * T * x0) with (x - g * T * x0) by ring. exact G1.
        * eexists. split; [reflexivity|]. cbv beta iota. exists T, S, z. split; [split; [lia|]; repeat (split; [assumption|]); exists g; auto|]. assert (x * x <= x * ((p - 1) / x)) by (apply Z.mul_le_mono_nonneg_l; lia). lia.
      + eexists. split; [reflexivity|]. cbv beta iota. exists T, S, z. split; [split; [lia|]; repeat (split; [assumption|]); exists g; auto|]. assert (x = 0) by lia. subst x. lia.
    - intros (x, z) (T & S & ((X0 & XZ) & _)). exact X0.
    - exists 1, 0. split; [lia|]. split; [nia|]. split; [lia|]. split; [lia|]. split; [ring|]. exists 1. split; [lia|]. split; [exists 0; ring|exists 1; ring].
    - cbv beta iota. lia.
    - exists r, T, S, z. split; [exact E|]. split; [exact L|exact B].
  Qed.
  Variable d : Z.
  Hypothesis D : 1 <= d.
  Hypothesis R : (p | x0 * x0 + d).
  Lemma lat_small x T S z : lat x T S z -> x * x < p -> d * (T * T) <= p -> x * x + d * (T * T) = p.
  Proof using P D R. clear X.
    intros (X0 & PZ & T1 & S0 & E & g & G & G1 & G2) B HT. assert (DV : (p | x * x + d * (T * T))).
    { replace (x * x + d * (T * T)) with ((x - g * T * x0) * (x + g * T * x0) + T * T * (x0 * x0 + d)) by (destruct G as [-> | ->]; ring). apply Z.divide_add_r; [now apply Z.divide_mul_l|now apply Z.divide_mul_r]. }
    destruct DV as (k & K). assert (0 < d * (T * T)) by (apply Z.mul_pos_pos; [lia|apply Z.mul_pos_pos; lia]). assert (0 < k) by nia. assert (k < 2) by nia. replace k with 1 in K by lia. lia.
  Qed.
  (** any solution bounds T *)
  Lemma lat_bound x T S z u v : lat x T S z -> x * x < p -> prime p -> 0 <= u -> 0 <= v -> u * u + d * (v * v) = p -> T <= v.
  Proof using P X D R.
    intros ((X0 & XZ) & PZ & T1 & S0 & E & g & G & G1 & G2) B PP U V EQ. assert (UB : u < z). { apply Z.square_lt_simpl_nonneg; [lia|]. apply Z.lt_le_trans with p; [|exact PZ]. destruct (Z.eq_dec v 0) as [->|]; [|assert (0 < d * (v * v)) by (apply Z.mul_pos_pos; [lia|apply Z.mul_pos_pos; lia]); lia]. exfalso. assert (Eu : u * u = p) by lia. assert (DU : (u | p)) by (exists u; lia). destruct (Znumtheory.prime_divisors p PP u DU) as [|[|[|]]]; subst; try lia; nia. }
    assert (W : exists w, (w = v \/ w = - v) /\ (p | u - w * x0)).
    { assert (DV : (p | (u - v * x0) * (u + v * x0))). { replace ((u - v * x0) * (u + v * x0)) with ((u * u + d * (v * v)) - v * v * (x0 * x0 + d)) by ring. apply Z.divide_sub_r; [rewrite EQ; apply Z.divide_refl|now apply Z.divide_mul_r]. } destruct (prime_mult p PP _ _ DV) as [H|H]; [exists v; auto|exists (- v); split; [now right|]; replace (u - - v * x0) with (u + v * x0) by ring; exact H]. }
    destruct W as (w & Hw & W). assert (GG : g * g = 1) by (destruct G as [-> | ->]; reflexivity).
    assert (DA : (p | u * S + g * w * z)). { replace (u * S + g * w * z) with ((u - w * x0) * S + g * w * (z + g * S * x0) + w * x0 * S * (1 - g * g)) by ring. rewrite GG. replace (w * x0 * S * (1 - 1)) with 0 by ring. rewrite Z.add_0_r. apply Z.divide_add_r; [now apply Z.divide_mul_l|now apply Z.divide_mul_r]. }
    assert (DB : (p | u * T - g * w * x)). { replace (u * T - g * w * x) with ((u - w * x0) * T - g * w * (x - g * T * x0) + w * x0 * T * (1 - g * g)) by ring. rewrite GG. replace (w * x0 * T * (1 - 1)) with 0 by ring. rewrite Z.add_0_r. apply Z.divide_sub_r; [now apply Z.divide_mul_l|now apply Z.divide_mul_r]. }
    destruct DA as (al & A), DB as (be & Bt). assert (EU : u = al * x + be * z). { apply (Z.mul_reg_r _ _ p); [lia|]. transitivity (al * p * x + be * p * z); [|ring]. rewrite <- A, <- Bt. rewrite <- E at 1. ring. }
    assert (EW : g * w = al * T - be * S). { apply (Z.mul_reg_r _ _ p); [lia|]. transitivity (al * p * T - be * p * S); [|ring]. rewrite <- A, <- Bt. rewrite <- E at 1. ring. }
    assert (AV : v = Z.abs (g * w)) by (destruct G as [-> | ->], Hw as [-> | ->]; lia). rewrite AV, EW.
    destruct (Z.lt_trichotomy be 0) as [L|[L|L]].
    - assert (1 <= al). { destruct (Z_lt_le_dec al 1); [|assumption]. assert (al * x <= 0) by (apply Z.mul_nonpos_nonneg; lia). assert (be * z <= -1 * z) by (apply Z.mul_le_mono_nonneg_r; lia). lia. } assert (1 * T <= al * T) by (apply Z.mul_le_mono_nonneg_r; lia). assert (be * S <= 0) by (apply Z.mul_nonpos_nonneg; lia). lia.
    - subst be. assert (NZ : al <> 0). { intros ->. assert (u = 0) by lia. assert (g * w = 0) by lia. assert (v = 0) by lia. subst. lia. } rewrite Z.mul_0_l, Z.sub_0_r, Z.abs_mul, (Z.abs_eq T) by lia. assert (1 * T <= Z.abs al * T) by (apply Z.mul_le_mono_nonneg_r; lia). lia.
    - assert (al <= -1). { destruct (Z_lt_le_dec al 0); [lia|]. exfalso. assert (0 <= al * x) by (apply Z.mul_nonneg_nonneg; lia). assert (1 * z <= be * z) by (apply Z.mul_le_mono_nonneg_r; lia). lia. } assert (al * T <= -1 * T) by (apply Z.mul_le_mono_nonneg_r; lia). assert (0 <= be * S) by (apply Z.mul_nonneg_nonneg; lia). lia.
  Qed.
End Euclid.

Lemma prime_conv p : is_prime p -> prime (Z.of_nat p).
Proof.
  intros (H1 & H2). apply prime_alt. split; [lia|]. intros n Hn D. destruct D as (k & K). assert (0 < k) by nia. destruct (H2 (Z.to_nat n)) as [E|E]; [|lia|lia]. exists (Z.to_nat k). apply Nat2Z.inj. rewrite Nat2Z.inj_mul, !Z2Nat.id by lia. exact K.
Qed.
(** the start of the algorithm: a root of -d at most p / 2 *)
Lemma start p d : is_prime p -> exists r, sqrt_cipolla (- d) (Z.of_nat p) = Some r /\ 0 <= (if Z.of_nat p ÷ 2 <? r then Z.of_nat p - r else r) < Z.of_nat p /\ ((exists x, (Z.of_nat p | x * x + d)) -> (Z.of_nat p | (if Z.of_nat p ÷ 2 <? r then Z.of_nat p - r else r) * (if Z.of_nat p ÷ 2 <? r then Z.of_nat p - r else r) + d)).
Proof.
  intros P. destruct (C18_cipolla p (- d) P) as (r & E & B & G). exists r. split; [exact E|]. assert (2 <= Z.of_nat p) by (destruct P; lia). rewrite Z.quot_div_nonneg by lia. assert (0 < Z.of_nat p / 2) by (apply Z.div_str_pos; lia). split; [destruct (Z.ltb_spec (Z.of_nat p / 2) r); lia|]. intros (x & Hx). assert (RR : root_of (- d) (Z.of_nat p) r) by (apply G; exists x; unfold root_of; now rewrite Z.sub_opp_r). unfold root_of in RR. rewrite Z.sub_opp_r in RR. destruct (Z.of_nat p / 2 <? r); [|exact RR]. replace ((Z.of_nat p - r) * (Z.of_nat p - r) + d) with ((r * r + d) + Z.of_nat p * (Z.of_nat p - 2 * r)) by ring. apply Z.divide_add_r; [exact RR|apply Z.divide_mul_l, Z.divide_refl].
Qed.
Lemma square_exists p d u v : is_prime p -> u * u + d * (v * v) = Z.of_nat p -> 1 <= d -> exists x, (Z.of_nat p | x * x + d).
Proof.
  intros P E D. pose proof (prime_conv p P) as PP. assert (P2 : 2 <= Z.of_nat p) by (destruct P; lia). destruct (Zdivide_dec (Z.of_nat p) v) as [(k & K)|ND].
  - assert (k = 0). { destruct (Z.eq_dec k 0); [assumption|]. exfalso. assert (1 <= k * k) by nia. assert (Z.of_nat p * Z.of_nat p <= v * v) by (rewrite K; nia). assert (1 * (v * v) <= d * (v * v)) by (apply Z.mul_le_mono_nonneg_r; nia). nia. } subst k. assert (v = 0) by lia. subst v. exfalso. assert (U : (u | Z.of_nat p)) by (exists u; lia). destruct (Znumtheory.prime_divisors _ PP u U) as [|[|[|]]]; subst; nia.
  - apply prime_rel_prime in ND; [|exact PP]. destruct (rel_prime_bezout _ _ ND) as [a b AB]. exists (u * b). replace (u * b * (u * b) + d) with (b * b * (u * u + d * (v * v)) + d * ((1 - b * v) * (1 + b * v))) by ring. rewrite E. apply Z.divide_add_r; [apply Z.divide_mul_r, Z.divide_refl|]. apply Z.divide_mul_r, Z.divide_mul_l. exists a. lia.
Qed.

Section Cornacchia.
  Variable root : Z -> Z.
  Hypothesis Hroot : square_root root.
  Lemma cornacchia_ok p d u v : is_prime p -> 1 <= d -> u * u + d * (v * v) = Z.of_nat p -> exists x y, cornacchia root d (Z.of_nat p) = Some (x, y) /\ 0 <= x /\ 0 <= y /\ x * x + d * (y * y) = Z.of_nat p.
  Proof using Hroot.
    intros P D E. assert (P2 : 2 <= Z.of_nat p) by (destruct P; lia). destruct (start p d P) as (r & Er & B & G). specialize (G (square_exists p d u v P E D)). unfold cornacchia. rewrite Er. cbn [obind]. set (x0 := if Z.of_nat p ÷ 2 <? r then Z.of_nat p - r else r) in *. destruct (euclid_run (Z.of_nat p) x0 P2 B) as (x & T & S & z & Ex & L & XB). rewrite Ex. cbn [obind].
    assert (TV : T <= Z.abs v) by (apply (lat_bound (Z.of_nat p) x0 P2 B d D G x T S z (Z.abs u) (Z.abs v)); [exact L|exact XB|now apply prime_conv|lia|lia|rewrite <- !Z.abs_mul, !Z.abs_eq by nia; exact E]). assert (T0 : 1 <= T) by apply L.
    assert (HT : d * (T * T) <= Z.of_nat p). { apply Z.le_trans with (d * (Z.abs v * Z.abs v)); [apply Z.mul_le_mono_nonneg_l; [lia|]; apply Z.mul_le_mono_nonneg; lia|]. rewrite <- Z.abs_mul, Z.abs_eq by nia. nia. }
    pose proof (lat_small (Z.of_nat p) x0 P2 d D G x T S z L XB HT) as EQ. unfold cdiv. destruct (Z.eqb_spec d 0); [lia|]. cbn [obind]. replace (Z.of_nat p - x * x) with (T * T * d) by lia. rewrite Z.quot_mul by lia. rewrite root_sq by (try exact Hroot; lia). exists x, T. split; [reflexivity|]. split; [apply L|]. split; [lia|exact EQ].
  Qed.
  Lemma cornacchia_total p d : is_prime p -> d <> 0 -> exists x y, cornacchia root d (Z.of_nat p) = Some (x, y).
  Proof using.
    clear Hroot. intros P D. assert (P2 : 2 <= Z.of_nat p) by (destruct P; lia). destruct (start p d P) as (r & Er & B & _). unfold cornacchia. rewrite Er. cbn [obind]. destruct (euclid_run (Z.of_nat p) _ P2 B) as (x & T & S & z & Ex & L & XB). rewrite Ex. cbn [obind]. unfold cdiv. destruct (Z.eqb_spec d 0); [contradiction|]. eexists _, _. reflexivity.
  Qed.
  Lemma two_squares p : is_prime p -> p = 2%nat \/ Z.of_nat p mod 4 = 1 -> exists u v, u * u + v * v = Z.of_nat p.
  Proof using.
    clear Hroot root. intros P H. assert (P2 : 2 <= Z.of_nat p) by (destruct P; lia). destruct (Nat.eq_dec p 2) as [->|N2]; [exists 1, 1; reflexivity|]. destruct H as [|H]; [contradiction|]. assert (X : exists x, (Z.of_nat p | x * x + 1)).
    { destruct (half_eq p P N2) as (HE & _). destruct (euler_root p P N2 (-1)) as (x & Hx); [|exists x; replace (x * x + 1) with (x * x - -1) by ring; exact Hx]. assert (EV : exists k, Z.of_nat (half p) = 2 * k). { exists (Z.of_nat p / 4). pose proof (Z.div_mod (Z.of_nat p) 4 ltac:(lia)). lia. } destruct EV as (k & EV). assert (0 <= k) by lia. rewrite EV, Z.pow_mul_r by lia. change ((-1) ^ 2) with 1. rewrite Z.pow_1_l by lia. exists 0. reflexivity. }
    destruct (start p 1 P) as (r & _ & B & G). specialize (G X). destruct (euclid_run (Z.of_nat p) _ P2 B) as (x & T & S & z & _ & L & XB). exists x, T. rewrite <- (Z.mul_1_l (T * T)). apply (lat_small _ _ P2 1 ltac:(lia) G x T S z L XB). destruct L as (L1 & L2 & L3 & L4 & L5 & _). assert (z * T <= Z.of_nat p) by (assert (0 <= x * S) by (apply Z.mul_nonneg_nonneg; lia); lia). assert (T <= z); [|assert (T * T <= z * T) by (apply Z.mul_le_mono_nonneg_r; lia); lia]. destruct (Z_lt_le_dec z T) as [C|]; [|assumption]. assert (z * z < z * T) by (apply Z.mul_lt_mono_pos_l; lia). lia.
  Qed.
  Lemma prime_ok p : is_prime p -> p = 2%nat \/ Z.of_nat p mod 4 = 1 -> exists c d, squares_r_prime root (Z.of_nat p) = Some (c, d) /\ c <= d /\ prime_rep (Z.of_nat p) c d.
  Proof using Hroot.
    intros P H. destruct (two_squares p P H) as (u & v & E). destruct (cornacchia_ok p 1 u v P ltac:(lia)) as (x & y & C & X & Y & EQ); [rewrite Z.mul_1_l; exact E|]. rewrite Z.mul_1_l in EQ. unfold squares_r_prime. rewrite C. cbn [obind]. destruct (Z.ltb_spec y x); eexists _, _; (split; [reflexivity|]); split; try lia; unfold prime_rep; lia.
  Qed.
End Cornacchia.
