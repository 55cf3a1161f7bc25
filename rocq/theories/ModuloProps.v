(** C13-C16: modular arithmetic on machine integers, inverse and division,
    Chinese remainders, Garner's mixed radix digits. *)
From Coq Require Import Znumtheory.
From Verif Require Import Lib BaseModel BaseProofs ModuloModel ModuloSpec ModuloProofs.
Local Open Scope Z_scope.

(* ---------------- C13 ---------------- *)
(** unsigned: every modulus representable in the type, no overflow problem *)
Theorem C13_unsigned : forall W M x y, int_width W -> 1 <= M < 2 ^ W -> 0 <= x < M -> 0 <= y < M ->
  mod_add_u W x y M = (x + y) mod M /\
  mod_sub_u W x y M = (x - y) mod M /\
  mod_neg_u W x M = (- x) mod M /\
  mod_mul_u W x y M = Some ((x * y) mod M).
Proof.
  intros W M x y HW HM Hx Hy. split; [apply mod_add_u_spec; lia|]. split; [apply mod_sub_u_spec; lia|].
  split; [apply mod_neg_u_spec; lia|]. now apply mod_mul_u_spec.
Qed.
Example C13_unsigned_case :
  int_width 64 /\ 1 <= 18446744073709551557 < 2 ^ 64 /\
  mod_add_u 64 18446744073709551556 18446744073709551555 18446744073709551557 = 18446744073709551554 /\
  mod_mul_u 64 18446744073709551556 18446744073709551555 18446744073709551557 = Some 2.
Proof. unfold int_width. vm_compute. intuition congruence. Qed.

(** signed: addition and subtraction never overflow when 2M fits the type *)
Theorem C13_signed : forall W M x y, int_width W -> 1 <= M < 2 ^ (W - 1) -> 0 <= x < M -> 0 <= y < M ->
  (W < 32 \/ 2 * M <= 2 ^ (W - 1) ->
     mod_add_s W x y M = Some ((x + y) mod M) /\ mod_sub_s W x y M = Some ((x - y) mod M)) /\
  mod_neg_s W x M = Some ((- x) mod M) /\
  mod_mul_s W x y M = Some ((x * y) mod M).
Proof.
  intros W M x y HW HM Hx Hy. assert (1 <= W) by (unfold int_width in HW; lia). split.
  - intros D. rewrite mod_add_s_spec, mod_sub_s_spec by lia.
    assert (A : forall s, s < 2 * M -> (32 <=? W) && (2 ^ (W - 1) <=? s) = false).
    { intros s Hs. destruct (Z.leb_spec 32 W); [|reflexivity]. cbn [andb]. apply Z.leb_gt. lia. }
    rewrite !A by lia. auto.
  - split; [apply mod_neg_s_spec; lia|]. now apply mod_mul_s_spec.
Qed.
Example C13_signed_case : mod_add_s 32 999999999 999999998 1000000007 = Some 999999990 /\
  mod_sub_s 32 3 5 1000000007 = Some 1000000005 /\ mod_mul_s 64 (10 ^ 18) (10 ^ 18) (10 ^ 18 + 9) = Some 81.
Proof. now vm_compute. Qed.

(** and exactly then: the sum of the operands is formed in the signed type itself, so
    for larger moduli the addition of normalised values has undefined behaviour *)
Theorem C13_signed_add_exact : forall W M x y, int_width W -> 1 <= M < 2 ^ (W - 1) -> 0 <= x < M -> 0 <= y < M ->
  (mod_add_s W x y M = None <-> 32 <= W /\ 2 ^ (W - 1) <= x + y).
Proof.
  intros W M x y HW HM Hx Hy. assert (1 <= W) by (unfold int_width in HW; lia). rewrite mod_add_s_spec by lia.
  destruct (Z.leb_spec 32 W), (Z.leb_spec (2 ^ (W - 1)) (x + y)); cbn [andb]; split; (discriminate || tauto || lia).
Qed.
Theorem C13_signed_refuted : exists M x y, 1 <= M < 2 ^ 31 /\ 0 <= x < M /\ 0 <= y < M /\ mod_add_s 32 x y M = None.
Proof. exists 2000000011, 2000000010, 2000000010. now vm_compute. Qed.

(** construction from an arbitrary integer *)
Theorem C13_normalize : forall W M v, int_width W -> 1 <= M ->
  (0 <= v -> mod_normalize_u v M = Some (v mod M)) /\
  (- 2 ^ (W - 1) < v < 2 ^ (W - 1) -> mod_normalize_s W v M = Some (v mod M)) /\
  (W < 32 -> mod_normalize_s W (- 2 ^ (W - 1)) M = Some ((- 2 ^ (W - 1)) mod M)).
Proof.
  intros W M v HW HM. assert (1 <= W) by (unfold int_width in HW; lia). destruct (pow_half W H) as [_ P].
  split; [now apply mod_normalize_u_spec|]. split; intros L; rewrite mod_normalize_s_spec by lia.
  - destruct (Z.eqb_spec v (- 2 ^ (W - 1))); [lia|]. now rewrite andb_false_r.
  - destruct (Z.leb_spec 32 W); [lia|]. reflexivity.
Qed.
Theorem C13_normalize_refuted : forall M, 1 <= M -> mod_normalize_s 32 (- 2 ^ 31) M = None /\ mod_normalize_s 64 (- 2 ^ 63) M = None.
Proof. intros M HM. split; rewrite mod_normalize_s_spec by lia; reflexivity. Qed.

(* ---------------- C14 ---------------- *)
Theorem C14_inv : forall v M, 1 <= M -> 0 <= v < M -> exists w, modulo_inv v M = Some w /\ 0 <= w < M /\
  (Z.gcd v M = 1 -> (v * w) mod M = 1 mod M) /\ (Z.gcd v M <> 1 -> w = 0).
Proof.
  intros v M HM Hv. destruct (modulo_inv_spec v M) as (w & E & I0 & I1); [lia|lia|]. exists w. split; [exact E|].
  destruct (Z.eq_dec (Z.gcd v M) 1) as [G|G].
  - destruct (I1 G) as (A & B & C). split; [lia|]. auto.
  - rewrite (I0 G). split; [lia|]. split; auto; contradiction.
Qed.
Example C14_inv_case : modulo_inv 3 1000000007 = Some 333333336 /\ modulo_inv 4 6 = Some 0 /\ Z.gcd 3 1000000007 = 1.
Proof. now vm_compute. Qed.

(** any overload of modulo_mul that is exact below B gives a correct division for moduli below B *)
Theorem C14_div : forall W x y M, int_width W -> 0 <= x < M -> 0 <= y < M -> (Z.gcd y M | x) ->
  (M < 2 ^ W -> exists z, modulo_div_with (mod_mul_u W) x y M = Some z /\ 0 <= z < M /\ (z * y) mod M = x) /\
  (M < 2 ^ (W - 1) -> exists z, modulo_div_with (mod_mul_s W) x y M = Some z /\ 0 <= z < M /\ (z * y) mod M = x).
Proof.
  intros W x y M HW Hx Hy D. split; intros HB.
  - destruct (modulo_div_spec _ _ x y M (mul_exact_u W HW)) as (z & E & Bz & Ez); try lia; auto.
    exists z. rewrite Ez, Z.mod_small by lia. auto.
  - destruct (modulo_div_spec _ _ x y M (mul_exact_s W HW)) as (z & E & Bz & Ez); try lia; auto.
    exists z. rewrite Ez, Z.mod_small by lia. auto.
Qed.
Example C14_div_case : modulo_div_with (mod_mul_s 32) 4 6 10 = Some 4 /\ (Z.gcd 6 10 | 4).
Proof. split; [now vm_compute|now exists 2]. Qed.

(* ---------------- C15 ---------------- *)
Theorem C15_chinese_remainder : forall a1 n1 a2 n2, 0 < n1 -> 0 < n2 -> 0 <= a1 < n1 -> 0 <= a2 < n2 ->
  ((forall x, ~ (x mod n1 = a1 /\ x mod n2 = a2)) -> chinese_remainder a1 n1 a2 n2 = Some (0, 0)) /\
  ((exists x, x mod n1 = a1 /\ x mod n2 = a2) -> exists a,
     chinese_remainder a1 n1 a2 n2 = Some (a, Z.lcm n1 n2) /\
     0 <= a < Z.lcm n1 n2 /\ a mod n1 = a1 /\ a mod n2 = a2).
Proof.
  intros a1 n1 a2 n2 H1 H2 A1 A2. destruct (chinese_remainder_spec a1 n1 a2 n2) as [F S]; [lia|lia|lia|lia|].
  destruct (Zdivide_dec (Z.gcd n1 n2) (a1 - a2)) as [D|D].
  - destruct (S D) as (a & E & B & M1 & M2). rewrite (Z.mod_small a1), (Z.mod_small a2) in * by lia. split.
    + intros N. exfalso. apply (N a). auto.
    + intros _. exists a. auto.
  - split; [intros _; exact (F D)|]. intros (x & X1 & X2). exfalso. apply D.
    rewrite <- X1, <- X2. rewrite !Z.mod_eq by lia.
    replace (x - n1 * (x / n1) - (x - n2 * (x / n2))) with (n2 * (x / n2) - n1 * (x / n1)) by lia.
    apply Z.divide_sub_r; apply Z.divide_mul_l; [apply Z.gcd_divide_r|apply Z.gcd_divide_l].
Qed.
Example C15_case : chinese_remainder 5 6 2 9 = Some (11, 18) /\ chinese_remainder 1 4 2 6 = Some (0, 0).
Proof. now vm_compute. Qed.

(** folding the accumulating overload over any number of congruences that have a common solution *)
Theorem C15_chinese_remainder_list : forall cs x,
  Forall (fun c => 0 <= fst c /\ 0 < snd c) cs -> solves x cs ->
  let L := fold_left Z.lcm (map snd cs) 1 in
  chinese_remainder_list (0, 1) cs = Some (x mod L, L).
Proof. intros cs x F S. apply chinese_remainder_list_spec; auto; (lia || apply Z.mod_1_r). Qed.
Example C15_list_case : solves 23 [(2, 3); (3, 5); (2, 7); (5, 6)] /\
  chinese_remainder_list (0, 1) [(2, 3); (3, 5); (2, 7); (5, 6)] = Some (23, 210).
Proof.
  split; [|now vm_compute]. intros a n I. cbn [In] in I.
  repeat (destruct I as [I|I]; [injection I as <- <-; reflexivity|]). contradiction.
Qed.

(** for an unsigned type the difference in the compatibility test wraps: a solvable system is rejected *)
Theorem C15_unsigned_refuted : exists a1 n1 a2 n2 x,
  0 <= a1 < n1 /\ 0 <= a2 < n2 /\ x mod n1 = a1 /\ x mod n2 = a2 /\
  chinese_remainder_check_u 32 a1 a2 (Z.gcd n1 n2) = Some false.
Proof. exists 5, 6, 2, 3, 5. vm_compute. intuition congruence. Qed.
(** once two congruences contradict each other the accumulator is (0, 0), and accumulating a
    further congruence may divide by zero *)
Theorem C15_accumulate_refuted : exists cs, Forall (fun c => 0 <= fst c < snd c) cs /\ chinese_remainder_list (0, 1) cs = None.
Proof. exists [(0, 2); (1, 2); (0, 3)]. split; [repeat constructor; cbn; lia|now vm_compute]. Qed.

(* ---------------- C16 ---------------- *)
(** pairwise coprime moduli in non-decreasing order *)
Theorem C16_garner : forall W vap, int_width W ->
  Forall (fun c => 0 <= fst c < snd c /\ snd c < 2 ^ (W - 1)) vap ->
  (forall i j p q, (i < j)%nat -> nth_error (map snd vap) i = Some p -> nth_error (map snd vap) j = Some q ->
     p <= q /\ Z.gcd p q = 1) ->
  exists xs, garner_with (mod_mul_s W) vap = Some xs /\ length xs = length vap /\
    (forall i x p, nth_error xs i = Some x -> nth_error (map snd vap) i = Some p -> 0 <= x < p) /\
    (forall i a p, nth_error vap i = Some (a, p) -> (mixed_radix (map snd vap) xs) mod p = a).
Proof.
  intros W vap HW F C.
  destruct (garner_loop_spec _ _ (mul_exact_s W HW) vap [] []) as (xs & E & L & D & R); cbn [app]; auto.
  - intros [|j] x p E; discriminate.
  - intros [|j] a p E; discriminate.
  - exists xs. auto.
Qed.
Example C16_case : garner_with (mod_mul_s 32) [(2, 3); (3, 5); (2, 7)] = Some [2; 2; 1] /\
  mixed_radix [3; 5; 7] [2; 2; 1] = 23.
Proof. now vm_compute. Qed.

(** without the ordering, a digit larger than the current modulus is subtracted unreduced
    and the result is wrong *)
Theorem C16_unordered_refuted : exists xs,
  garner_with (mod_mul_s 32) [(6, 7); (0, 3)] = Some xs /\ Z.gcd 7 3 = 1 /\
  (mixed_radix [7; 3] xs) mod 3 <> 0.
Proof. exists [6; 1]. vm_compute. intuition congruence. Qed.

Print Assumptions C13_unsigned.
Print Assumptions C13_signed.
Print Assumptions C13_signed_add_exact.
Print Assumptions C13_normalize.
Print Assumptions C14_inv.
Print Assumptions C14_div.
Print Assumptions C15_chinese_remainder.
Print Assumptions C15_chinese_remainder_list.
Print Assumptions C16_garner.
