(** Legendre symbols: Euler, Gauss, Eisenstein, quadratic reciprocity. *)
From Coq Require Import Permutation.
From Verif Require Import Lib PrimesSpec PrimesProofs NumTheory NumTheory2 NumTheory3 JacobiSpec.
Open Scope Z_scope.

Definition zsum (l : list Z) : Z := fold_right Z.add 0 l.
Definition sgn (n : Z) : Z := if Z.even n then 1 else -1.
Lemma sgn_add a b : sgn (a + b) = sgn a * sgn b.
Proof. unfold sgn. rewrite Z.even_add. destruct (Z.even a), (Z.even b); reflexivity. Qed.
Lemma sgn_cong a b : (2 | a - b) -> sgn a = sgn b.
Proof. intros (c & E). replace a with (b + 2 * c) by lia. rewrite sgn_add. unfold sgn at 2. rewrite Z.even_mul. cbn [Z.even orb]. ring. Qed.
Lemma zsum_perm a b : Permutation a b -> zsum a = zsum b.
Proof. induction 1; cbn [zsum fold_right]; fold zsum in *; unfold zsum in *; lia. Qed.
Lemma zprod_perm a b : Permutation a b -> zprod a = zprod b.
Proof. induction 1; cbn [zprod fold_right]; fold zprod in *; unfold zprod in *; try lia; congruence. Qed.
Lemma zsum_add {A} (f g : A -> Z) l : zsum (map (fun x => f x + g x) l) = zsum (map f l) + zsum (map g l).
Proof. induction l as [|x l IH]; cbn [map zsum fold_right]; [reflexivity|]. fold (zsum (map (fun x => f x + g x) l)) (zsum (map f l)) (zsum (map g l)). lia. Qed.
Lemma zsum_cons x l : zsum (x :: l) = x + zsum l. Proof. reflexivity. Qed.
Lemma zprod_cons x l : zprod (x :: l) = x * zprod l. Proof. reflexivity. Qed.
Lemma zsum_app a b : zsum (a ++ b) = zsum a + zsum b.
Proof. induction a as [|x a IH]; [reflexivity|]. cbn [app]. rewrite !zsum_cons. lia. Qed.
Lemma zsum_zero {A} (l : list A) : zsum (map (fun _ => 0) l) = 0.
Proof. induction l as [|x l IH]; [reflexivity|]. cbn [map]. now rewrite zsum_cons. Qed.
Lemma zsum_swap {A B} (f : A -> B -> Z) la lb : zsum (map (fun a => zsum (map (f a) lb)) la) = zsum (map (fun b => zsum (map (fun a => f a b) la)) lb).
Proof.
  induction la as [|a la IH]; cbn [map]; [symmetry; apply zsum_zero|]. rewrite zsum_cons, IH. rewrite <- zsum_add. f_equal.
Qed.
Definition rng (n : nat) : list Z := map Z.of_nat (seq 1 n).
Lemma rng_in n k : In k (rng n) <-> 1 <= k <= Z.of_nat n.
Proof. unfold rng. rewrite in_map_iff. split; [intros (i & <- & I); apply in_seq in I; lia|]. intros H. exists (Z.to_nat k). split; [lia|]. apply in_seq. lia. Qed.
Lemma rng_nodup n : NoDup (rng n).
Proof. apply FinFun.Injective_map_NoDup; [intros x y; apply Nat2Z.inj|apply seq_NoDup]. Qed.
Lemma rng_length n : length (rng n) = n. Proof. unfold rng. now rewrite map_length, seq_length. Qed.
Lemma rng_S n : rng (S n) = rng n ++ [Z.of_nat (S n)].
Proof. unfold rng. rewrite seq_S, map_app. reflexivity. Qed.
Lemma zsum_ext {A} (f g : A -> Z) l : (forall x, In x l -> f x = g x) -> zsum (map f l) = zsum (map g l).
Proof. intros H. f_equal. apply map_ext_in. exact H. Qed.
(** counting multiples of m up to x *)
Lemma count_le m x n : 0 < m -> 0 <= x -> zsum (map (fun l => if m * l <=? x then 1 else 0) (rng n)) = Z.min (Z.of_nat n) (x / m).
Proof.
  intros M X. pose proof (Z.div_pos x m X M) as DP. induction n as [|n IH]; [cbn [rng seq map zsum fold_right]; lia|]. rewrite rng_S, map_app, zsum_app, IH. cbn [map]. rewrite zsum_cons. change (zsum []) with 0.
  destruct (Z.leb_spec (m * Z.of_nat (S n)) x) as [L|L].
  - assert (Z.of_nat (S n) <= x / m) by (apply Z.div_le_lower_bound; lia). lia.
  - assert (x / m < Z.of_nat (S n)) by (apply Z.div_lt_upper_bound; lia). lia.
Qed.

Section Legendre.
Variable p : nat.
Hypothesis P : is_prime p.
Hypothesis Odd : p <> 2%nat.
Notation pz := (Z.of_nat p).
Notation h := (half p).
Notation hz := (Z.of_nat h).
Lemma pz_half : pz = 2 * hz + 1. Proof. destruct (half_eq p P Odd) as (E & _). lia. Qed.
Lemma pz3 : 3 <= pz. Proof. destruct (half_eq p P Odd). lia. Qed.
Lemma legendre_values a : (legendre a p = 0 /\ (pz | a)) \/ (~ (pz | a) /\ (legendre a p = 1 /\ (exists x, (pz | x * x - a)) \/ legendre a p = -1 /\ ~ (exists x, (pz | x * x - a)))).
Proof.
  pose proof pz3. unfold legendre. destruct (Z.eqb_spec (a mod pz) 0) as [E|E]; [left; split; [reflexivity|]; apply Z.mod_divide; [lia|exact E]|right]. split; [intros D; apply E, Z.mod_divide; [lia|exact D]|].
  destruct (existsb _ _) eqn:X; [left|right]; (split; [reflexivity|]).
  - apply existsb_exists in X as (x & _ & X). apply Z.eqb_eq in X. exists (Z.of_nat x). apply Z.mod_divide; [lia|exact X].
  - intros (x & D). pose proof (Z.mod_pos_bound x pz ltac:(lia)) as B.
    assert (T : existsb (fun x => (Z.of_nat x * Z.of_nat x - a) mod pz =? 0) (seq 0 p) = true); [|congruence]. apply existsb_exists. exists (Z.to_nat (x mod pz)). split; [apply in_seq; lia|]. rewrite Z2Nat.id by lia. apply Z.eqb_eq, Z.mod_divide; [lia|].
    replace (x mod pz * (x mod pz) - a) with ((x * x - a) - (x - x mod pz) * (x + x mod pz)) by ring. apply Z.divide_sub_r; [exact D|]. apply Z.divide_mul_l, pz_mod. exact P.
Qed.
Lemma legendre_euler a : (pz | a ^ hz - legendre a p).
Proof.
  pose proof (half_eq p P Odd) as (E & H1). destruct (legendre_values a) as [(-> & D)|(N & [(-> & (x & X))|(-> & X)])].
  - rewrite Z.sub_0_r. replace hz with (Z.succ (hz - 1)) by lia. rewrite Z.pow_succ_r by lia. now apply Z.divide_mul_l.
  - now apply (half_square p P Odd a x).
  - destruct (half_cases p P Odd a N) as [C|C]; [exfalso; apply X; now apply (euler_root p P Odd)|]. replace (a ^ hz - -1) with (a ^ hz + 1) by ring. exact C.
Qed.
Lemma sym_unique u v : (u = 0 \/ u = 1 \/ u = -1) -> (v = 0 \/ v = 1 \/ v = -1) -> (pz | u - v) -> u = v.
Proof. intros U V (c & D). pose proof pz3. assert (c = 0) by nia. subst c. lia. Qed.
Lemma legendre_range a : legendre a p = 0 \/ legendre a p = 1 \/ legendre a p = -1.
Proof. destruct (legendre_values a) as [(-> & _)|(_ & [(-> & _)|(-> & _)])]; auto. Qed.
Lemma legendre_unique a v : (v = 0 \/ v = 1 \/ v = -1) -> (pz | a ^ hz - v) -> legendre a p = v.
Proof. intros V D. apply sym_unique; [apply legendre_range|exact V|]. replace (legendre a p - v) with ((a ^ hz - v) - (a ^ hz - legendre a p)) by ring. apply Z.divide_sub_r; [exact D|apply legendre_euler]. Qed.
Lemma legendre_mul a b : legendre (a * b) p = legendre a p * legendre b p.
Proof.
  apply legendre_unique; [destruct (legendre_range a) as [->|[->| ->]], (legendre_range b) as [->|[->| ->]]; cbn; auto|]. rewrite Z.pow_mul_l. replace (a ^ hz * b ^ hz - legendre a p * legendre b p) with ((a ^ hz - legendre a p) * b ^ hz + legendre a p * (b ^ hz - legendre b p)) by ring. apply Z.divide_add_r; [apply Z.divide_mul_l|apply Z.divide_mul_r]; apply legendre_euler.
Qed.
Lemma legendre_cong a b : (pz | a - b) -> legendre a p = legendre b p.
Proof. intros D. apply legendre_unique; [apply legendre_range|]. replace (a ^ hz - legendre b p) with ((a ^ hz - b ^ hz) + (b ^ hz - legendre b p)) by ring. apply Z.divide_add_r; [now apply pow_cong|apply legendre_euler]. Qed.
Lemma legendre_1 : legendre 1 p = 1.
Proof. apply legendre_unique; [auto|]. rewrite Z.pow_1_l by lia. exists 0. reflexivity. Qed.
Lemma legendre_0 : legendre 0 p = 0.
Proof. destruct (legendre_values 0) as [(-> & _)|(N & _)]; [reflexivity|]. exfalso. apply N, Z.divide_0_r. Qed.
(** Gauss *)
Section Gauss.
Variable a : Z.
Hypothesis A : ~ (pz | a).
Definition big (k : Z) : bool := hz <? (a * k) mod pz.
Definition low (k : Z) : Z := if big k then pz - (a * k) mod pz else (a * k) mod pz.
Definition ind (k : Z) : Z := if big k then 1 else 0.
Definition sg (k : Z) : Z := if big k then -1 else 1.
Lemma sg_prod l : zprod (map sg l) = sgn (zsum (map ind l)).
Proof. induction l as [|k l IH]; [reflexivity|]. cbn [map]. rewrite zprod_cons, zsum_cons, sgn_add, IH. f_equal. unfold sg, ind. destruct (big k); reflexivity. Qed.
Lemma low_cong k : (pz | a * k - sg k * low k).
Proof. pose proof (pz_mod p P (a * k)) as D. unfold sg, low. destruct (big k); [replace (a * k - -1 * (pz - (a * k) mod pz)) with ((a * k - (a * k) mod pz) + pz) by ring; apply Z.divide_add_r; [exact D|apply Z.divide_refl]|]. now rewrite Z.mul_1_l. Qed.
Lemma low_range k : 1 <= k <= hz -> 1 <= low k <= hz.
Proof.
  intros K. pose proof pz_half as E. pose proof (Z.mod_pos_bound (a * k) pz ltac:(lia)) as B. assert (N0 : (a * k) mod pz <> 0). { intros Z0. apply Z.mod_divide in Z0; [|lia]. apply prime_Zeuclid in Z0 as [D|D]; [tauto|apply Z.divide_pos_le in D; lia|exact P]. }
  unfold low, big. destruct (Z.ltb_spec hz ((a * k) mod pz)); lia.
Qed.
Lemma low_inj k l : 1 <= k <= hz -> 1 <= l <= hz -> low k = low l -> k = l.
Proof.
  intros K L E. pose proof pz_half as PH. pose proof (low_cong k) as DK. pose proof (low_cong l) as DL. rewrite E in DK.
  assert (C : (pz | a * (k - l)) \/ (pz | a * (k + l))).
  { unfold sg in DK, DL. destruct (big k), (big l).
    - left. replace (a * (k - l)) with ((a * k - -1 * low l) - (a * l - -1 * low l)) by ring. now apply Z.divide_sub_r.
    - right. replace (a * (k + l)) with ((a * k - -1 * low l) + (a * l - 1 * low l)) by ring. now apply Z.divide_add_r.
    - right. replace (a * (k + l)) with ((a * k - 1 * low l) + (a * l - -1 * low l)) by ring. now apply Z.divide_add_r.
    - left. replace (a * (k - l)) with ((a * k - 1 * low l) - (a * l - 1 * low l)) by ring. now apply Z.divide_sub_r. }
  destruct C as [C|C]; (apply prime_Zeuclid in C as [C|C]; [tauto| |exact P]); destruct C as (c & C); [assert (c = 0) by nia; lia|exfalso; assert (0 < c) by nia; nia].
Qed.
Lemma low_perm : Permutation (map low (rng h)) (rng h).
Proof.
  apply NoDup_Permutation_bis.
  - assert (G : forall l, NoDup l -> (forall x, In x l -> 1 <= x <= hz) -> NoDup (map low l)).
    { induction l as [|x l IH]; intros N R; cbn [map]; [constructor|]. apply NoDup_cons_iff in N as (N1 & N2). constructor; [|apply IH; [exact N2|intros; apply R; now right]]. intros I. apply in_map_iff in I as (w & W & I). apply low_inj in W; [subst; tauto|apply R; now right|apply R; now left]. }
    apply G; [apply rng_nodup|]. intros x. apply rng_in.
  - rewrite map_length. reflexivity.
  - intros y I. apply in_map_iff in I as (k & <- & I). apply rng_in in I. apply rng_in. now apply low_range.
Qed.
Lemma gauss_prod l : (pz | a ^ Z.of_nat (length l) * zprod l - zprod (map sg l) * zprod (map low l)).
Proof.
  induction l as [|k l IH]; [exists 0; reflexivity|]. cbn [map length]. rewrite !zprod_cons, Nat2Z.inj_succ, Z.pow_succ_r by lia.
  replace (a * a ^ Z.of_nat (length l) * (k * zprod l) - sg k * zprod (map sg l) * (low k * zprod (map low l))) with ((a * k - sg k * low k) * (a ^ Z.of_nat (length l) * zprod l) + sg k * low k * (a ^ Z.of_nat (length l) * zprod l - zprod (map sg l) * zprod (map low l))) by ring.
  apply Z.divide_add_r; [apply Z.divide_mul_l, low_cong|now apply Z.divide_mul_r].
Qed.
Lemma zprod_rng_coprime l : (forall x, In x l -> 1 <= x <= hz) -> ~ (pz | zprod l).
Proof.
  pose proof pz_half. induction l as [|k l IH]; intros R; [intros D; change (zprod []) with 1 in D; pose proof pz3; apply Z.divide_pos_le in D; lia|]. rewrite zprod_cons. intros D. apply prime_Zeuclid in D as [D|D]; [|apply IH in D; [exact D|intros; apply R; now right]|exact P]. pose proof (R k (or_introl eq_refl)). apply Z.divide_pos_le in D; lia.
Qed.
Lemma gauss : legendre a p = sgn (zsum (map ind (rng h))).
Proof.
  apply legendre_unique; [unfold sgn; destruct (Z.even _); auto|]. rewrite <- sg_prod. pose proof (gauss_prod (rng h)) as G. rewrite rng_length, (zprod_perm _ _ low_perm) in G. rewrite <- Z.mul_sub_distr_r in G. apply prime_Zeuclid in G as [G|G]; [exact G| |exact P]. exfalso. revert G. apply zprod_rng_coprime. intros x. apply rng_in.
Qed.
(** Eisenstein *)
Lemma eisenstein_sum l : (2 | zsum (map (fun k => a * k) l) - zsum (map (fun k => a * k / pz) l) - zsum (map low l) - zsum (map ind l)).
Proof.
  pose proof pz_half as PH. induction l as [|k l IH]; [exists 0; reflexivity|]. cbn [map]. rewrite !zsum_cons. destruct IH as (c & IH).
  assert (K : (2 | a * k - a * k / pz - low k - ind k)). { pose proof (Z.div_mod (a * k) pz ltac:(lia)) as DM. unfold low, ind. destruct (big k); [exists (hz * (a * k / pz) + (a * k) mod pz - hz - 1)|exists (hz * (a * k / pz))]; lia. }
  destruct K as (d & K). exists (c + d). lia.
Qed.
Lemma zsum_scale (b : Z) l : zsum (map (fun k => b * k) l) = b * zsum l.
Proof. induction l as [|k l IH]; cbn [map]; [unfold zsum; cbn; ring|]. rewrite !zsum_cons, IH. ring. Qed.
Lemma eisenstein : Z.odd a = true -> legendre a p = sgn (zsum (map (fun k => a * k / pz) (rng h))).
Proof.
  intros O. rewrite gauss. apply sgn_cong. pose proof (eisenstein_sum (rng h)) as (c & E). rewrite (zsum_perm _ _ low_perm), zsum_scale in E. apply Z.odd_spec in O as (b & O). set (t := zsum (map (fun k => a * k / pz) (rng h))) in *. set (u := zsum (map ind (rng h))) in *. exists (b * zsum (rng h) - c - t). rewrite O in E. lia.
Qed.
End Gauss.
(** the symbol of 2 *)
Definition chi8 (m : Z) : Z := if (m mod 8 =? 3) || (m mod 8 =? 5) then -1 else 1.
Lemma legendre_2 : legendre 2 p = chi8 pz.
Proof.
  pose proof pz_half as PH. pose proof pz3. rewrite gauss by (intros D; apply Z.divide_pos_le in D; lia).
  assert (E : zsum (map (ind 2) (rng h)) = hz - hz / 2).
  { assert (E1 : zsum (map (fun k => ind 2 k + (if 2 * k <=? hz then 1 else 0)) (rng h)) = hz). { rewrite (zsum_ext _ (fun _ => 1)); [|intros k K; apply rng_in in K; unfold ind, big; rewrite Z.mod_small by lia; destruct (Z.ltb_spec hz (2 * k)), (Z.leb_spec (2 * k) hz); lia]. clear. rewrite <- (rng_length h) at 2. induction (rng h) as [|x l IH]; [reflexivity|]. cbn [map length]. rewrite zsum_cons, IH. lia. }
    rewrite zsum_add, count_le in E1 by lia. assert (hz / 2 <= hz) by (apply Z.div_le_upper_bound; lia). lia. }
  rewrite E. pose proof (Z.div_mod pz 8 ltac:(lia)) as DM. pose proof (Z.mod_pos_bound pz 8 ltac:(lia)) as B. pose proof (Z.div_mod hz 2 ltac:(lia)) as DH. pose proof (Z.mod_pos_bound hz 2 ltac:(lia)) as BH. unfold chi8. set (c := pz / 8) in *. set (r := pz mod 8) in *. set (g := hz / 2) in *. set (s := hz mod 2) in *.
  assert (CS : r = 1 \/ r = 3 \/ r = 5 \/ r = 7) by lia. destruct CS as [R|[R|[R|R]]]; rewrite R; cbn [Z.eqb Pos.eqb orb].
  - apply (sgn_cong _ 0). exists c. lia.
  - apply (sgn_cong _ 1). exists c. lia.
  - apply (sgn_cong _ 1). exists c. lia.
  - apply (sgn_cong _ 0). exists (c + 1). lia.
Qed.
End Legendre.

(** quadratic reciprocity *)
Definition eps (m n : Z) : Z := if (m mod 4 =? 3) && (n mod 4 =? 3) then -1 else 1.
Lemma lattice p q : is_prime p -> p <> 2%nat -> is_prime q -> q <> 2%nat -> p <> q ->
  zsum (map (fun k => Z.of_nat q * k / Z.of_nat p) (rng (half p))) + zsum (map (fun k => Z.of_nat p * k / Z.of_nat q) (rng (half q))) = Z.of_nat (half p) * Z.of_nat (half q).
Proof.
  intros P OP Q OQ N. pose proof (pz_half p P OP) as HP. pose proof (pz_half q Q OQ) as HQ. pose proof (pz3 p P OP) as P3. pose proof (pz3 q Q OQ) as Q3.
  rewrite (zsum_ext (fun k => Z.of_nat q * k / Z.of_nat p) (fun k => zsum (map (fun l => if Z.of_nat p * l <=? Z.of_nat q * k then 1 else 0) (rng (half q))))).
  2:{ intros k K. apply rng_in in K. rewrite count_le by nia. symmetry. apply Z.min_r. apply Z.lt_succ_r. apply Z.div_lt_upper_bound; nia. }
  rewrite (zsum_ext (fun k => Z.of_nat p * k / Z.of_nat q) (fun k => zsum (map (fun l => if Z.of_nat q * l <=? Z.of_nat p * k then 1 else 0) (rng (half p))))).
  2:{ intros k K. apply rng_in in K. rewrite count_le by nia. symmetry. apply Z.min_r. apply Z.lt_succ_r. apply Z.div_lt_upper_bound; nia. }
  rewrite (zsum_swap (fun k l => if Z.of_nat q * l <=? Z.of_nat p * k then 1 else 0) (rng (half q)) (rng (half p))). rewrite <- zsum_add. rewrite (zsum_ext _ (fun _ => Z.of_nat (half q))).
  - rewrite <- (rng_length (half p)) at 2. generalize (rng (half p)). clear. induction l as [|x l IH]; [reflexivity|]. cbn [map length]. rewrite zsum_cons, IH. lia.
  - intros k K. apply rng_in in K. rewrite <- zsum_add. rewrite (zsum_ext _ (fun _ => 1)).
    + rewrite <- (rng_length (half q)) at 2. generalize (rng (half q)). clear. induction l as [|x l IH]; [reflexivity|]. cbn [map length]. rewrite zsum_cons, IH. lia.
    + intros l L. apply rng_in in L. assert (NE : Z.of_nat p * l <> Z.of_nat q * k). { intros E. assert (D : (Z.of_nat p | Z.of_nat q * k)) by (exists l; lia). apply prime_Zeuclid in D as [D|D]; [|apply Z.divide_pos_le in D; lia|exact P]. apply divide_nat in D. destruct Q as (_ & Q). destruct (Q p D); [lia|congruence]. }
      destruct (Z.leb_spec (Z.of_nat p * l) (Z.of_nat q * k)), (Z.leb_spec (Z.of_nat q * k) (Z.of_nat p * l)); lia.
Qed.
Lemma reciprocity p q : is_prime p -> p <> 2%nat -> is_prime q -> q <> 2%nat -> legendre (Z.of_nat q) p = legendre (Z.of_nat p) q * eps (Z.of_nat p) (Z.of_nat q).
Proof.
  intros P OP Q OQ. pose proof (pz_half p P OP) as HP. pose proof (pz_half q Q OQ) as HQ. pose proof (pz3 p P OP) as P3. pose proof (pz3 q Q OQ) as Q3. destruct (Nat.eq_dec p q) as [<-|N].
  - assert (Z0 : legendre (Z.of_nat p) p = 0) by (destruct (legendre_values p P OP (Z.of_nat p)) as [(E & _)|(D & _)]; [exact E|exfalso; apply D, Z.divide_refl]). rewrite Z0. reflexivity.
  - assert (ND : forall x y : nat, is_prime x -> is_prime y -> x <> y -> ~ (Z.of_nat x | Z.of_nat y)) by (intros x y X (_ & Y) XY D; apply divide_nat in D; destruct (Y x D); [pose proof (pz_ge x X); lia|congruence]).
    rewrite (eisenstein p P OP) by (auto; rewrite HQ; apply Z.odd_spec; eexists; reflexivity). rewrite (eisenstein q Q OQ) by (auto; rewrite HP; apply Z.odd_spec; eexists; reflexivity).
    pose proof (lattice p q P OP Q OQ N) as L. set (s := zsum (map (fun k => Z.of_nat q * k / Z.of_nat p) _)) in *. set (t := zsum (map (fun k => Z.of_nat p * k / Z.of_nat q) _)) in *.
    assert (E : eps (Z.of_nat p) (Z.of_nat q) = sgn (Z.of_nat (half p) * Z.of_nat (half q))).
    { assert (G : forall x r, x = 2 * r + 1 -> (x mod 4 =? 3) = Z.odd r). { intros x r ->. destruct (Z.odd r) eqn:O; [apply Z.odd_spec in O as (c & ->); replace (2 * (2 * c + 1) + 1) with (3 + c * 4) by ring; rewrite Z.mod_add by lia; reflexivity|]. assert (Z.even r = true) as (c & ->)%Z.even_spec by (rewrite <- Z.negb_odd, O; reflexivity). replace (2 * (2 * c) + 1) with (1 + c * 4) by ring. rewrite Z.mod_add by lia. reflexivity. }
      unfold eps, sgn. rewrite (G _ _ HP), (G _ _ HQ), Z.even_mul, <- !Z.negb_odd. destruct (Z.odd _), (Z.odd _); reflexivity. }
    rewrite E, <- L, sgn_add. transitivity (sgn s * (sgn t * sgn t)); [|ring]. assert (T : sgn t * sgn t = 1) by (unfold sgn; destruct (Z.even t); reflexivity). rewrite T. ring.
Qed.
