(** C164: the arithmetic of nested double-width integers. *)
From Coq Require Import ZArith Lia.
From Verif Require Import Lib DintModel DintSpec DintProofs.
Open Scope Z_scope.

(** Whatever the width of the words and the depth of the nesting, the comparisons
    are the ones of the unsigned and of the two's complement numbers. *)
Theorem C164_compare : forall w d x y, 8 <= w -> valid w d x -> valid w d y ->
  (eqb d x y = true <-> uval w d x = uval w d y) /\
  (ult d x y = true <-> uval w d x < uval w d y) /\ (ule d x y = true <-> uval w d x <= uval w d y) /\
  (slt w d x y = true <-> sval w d x < sval w d y) /\ (sle w d x y = true <-> sval w d x <= sval w d y) /\
  (is_negative w d x = true <-> sval w d x < 0).
Proof.
  intros w d x y Hw X Y. assert (W : 3 <= w) by lia. split; [now apply eqb_ok|]. split; [now apply ult_ok|]. split; [now apply ule_ok|]. split; [now apply slt_ok|]. split; [now apply sle_ok|].
  rewrite (neg_ok w W d x X). pose proof (uval_bound w W d x X). unfold sval. destruct (Z.leb_spec (modulus w d) (2 * uval w d x)); lia.
Qed.
(** Addition and subtraction with a carry lose nothing, and the operators work
    modulo two to the number of bits. *)
Theorem C164_add_sub : forall w d x y c, 8 <= w -> valid w d x -> valid w d y -> 0 <= c <= 1 ->
  (exists r c', adc w d x y c = (r, c') /\ valid w d r /\ 0 <= c' <= 1 /\ uval w d r + c' * modulus w d = uval w d x + uval w d y + c) /\
  (exists r c', sbb w d x y c = (r, c') /\ valid w d r /\ 0 <= c' <= 1 /\ uval w d r - c' * modulus w d = uval w d x - uval w d y - c) /\
  (valid w d (add w d x y) /\ uval w d (add w d x y) = (uval w d x + uval w d y) mod modulus w d) /\
  (valid w d (sub w d x y) /\ uval w d (sub w d x y) = (uval w d x - uval w d y) mod modulus w d) /\
  (valid w d (neg w d x) /\ uval w d (neg w d x) = (- uval w d x) mod modulus w d) /\
  (valid w d (inc w d x) /\ uval w d (inc w d x) = (uval w d x + 1) mod modulus w d) /\
  (valid w d (dec w d x) /\ uval w d (dec w d x) = (uval w d x - 1) mod modulus w d).
Proof.
  intros w d x y c Hw X Y Hc. assert (W : 3 <= w) by lia. pose proof (word_big w W) as WB. pose proof (B_word w W d) as BW.
  split; [now apply adc_ok|]. split; [now apply sbb_ok|]. split; [now apply add_ok|]. split; [now apply sub_ok|].
  destruct (of_int_ok w W d 0 ltac:(lia)) as (V0 & E0). destruct (of_int_ok w W d 1 ltac:(lia)) as (V1 & E1). rewrite Z.mod_small in E0, E1 by lia.
  split; [|split].
  - unfold neg. destruct (sub_ok w W d _ _ V0 X) as (V & E). rewrite E0 in E. exact (conj V E).
  - unfold inc. destruct (adc_ok w W d _ _ 1 X V0 ltac:(lia)) as (r & c' & -> & V & C & E). cbn [fst]. split; [exact V|]. apply (to_mod _ _ c'); [now apply uval_bound|lia].
  - unfold dec. destruct (sbb_ok w W d _ _ 1 X V0 ltac:(lia)) as (r & c' & -> & V & C & E). cbn [fst]. split; [exact V|]. apply (to_mod _ _ (- c')); [now apply uval_bound|lia].
Qed.
(** A small integer is represented by itself. *)
Theorem C164_of_int : forall w d k, 8 <= w -> - 2 ^ (w - 1) <= k < 2 ^ (w - 1) -> valid w d (of_int w d k) /\ sval w d (of_int w d k) = k.
Proof.
  intros w d k Hw Hk. assert (W : 3 <= w) by lia. pose proof (word_half w W) as WH. pose proof (B_word w W d) as BW. destruct (of_int_ok w W d k ltac:(lia)) as (V & E). split; [exact V|]. unfold sval. rewrite E.
  destruct (Z.lt_ge_cases k 0) as [N|N].
  - rewrite <- (Z.mod_unique_pos k (modulus w d) (-1) (modulus w d + k)) by lia. destruct (Z.leb_spec (modulus w d) (2 * (modulus w d + k))); lia.
  - rewrite Z.mod_small by lia. destruct (Z.leb_spec (modulus w d) (2 * k)); lia.
Qed.
(** The full product is the exact product, in twice the number of bits, and the
    operator keeps its lower half. *)
Theorem C164_mul_full : forall w d x y, 8 <= w -> valid w d x -> valid w d y ->
  valid w (S d) (mul_full w d x y) /\ uval w (S d) (mul_full w d x y) = uval w d x * uval w d y.
Proof. intros w d x y Hw X Y. apply mul_full_ok; [lia|assumption..]. Qed.
Theorem C164_mul : forall w d x y, 8 <= w -> valid w d x -> valid w d y ->
  valid w d (mul w d x y) /\ uval w d (mul w d x y) = (uval w d x * uval w d y) mod modulus w d /\
  (sval w d (mul w d x y) - sval w d x * sval w d y) mod modulus w d = 0.
Proof.
  intros w d x y Hw X Y. assert (W : 3 <= w) by lia. destruct (mul_ok w W d x y X Y) as (V & E). split; [exact V|]. split; [exact E|].
  pose proof (word_big w W). pose proof (B_word w W d). assert (S1 : forall z, exists q, sval w d z = uval w d z + q * modulus w d). { intros z. unfold sval. destruct (modulus w d <=? 2 * uval w d z); [exists (-1); lia|exists 0; lia]. }
  destruct (S1 x) as (q1 & ->), (S1 y) as (q2 & ->), (S1 (mul w d x y)) as (q3 & ->). rewrite E. pose proof (Z.div_mod (uval w d x * uval w d y) (modulus w d) ltac:(lia)) as D.
  apply Z.mod_divide; [lia|]. exists (- (uval w d x * uval w d y / modulus w d) + q3 - uval w d x * q2 - uval w d y * q1 - q1 * q2 * modulus w d).
  replace ((uval w d x * uval w d y) mod modulus w d) with (uval w d x * uval w d y - modulus w d * (uval w d x * uval w d y / modulus w d)) by lia. ring.
Qed.
(** The postfix increment gives the new value, and leaves the variable as it was. *)
Theorem C164_post_increment_refuted : exists w d (x : dint (S d)), 8 <= w /\ valid w (S d) x /\
  fst (post_inc w d x) <> x /\ snd (post_inc w d x) <> inc w (S d) x.
Proof. exists 8, 0%nat, (0, 255). cbv. repeat split; discriminate. Qed.
(** Every quotient is zero. *)
Theorem C164_division_refuted : exists w d (x y : dint (S d)), 8 <= w /\ valid w (S d) x /\ valid w (S d) y /\ uval w (S d) y <> 0 /\
  uval w (S d) (udiv w d x y) <> uval w (S d) x / uval w (S d) y /\ sval w (S d) (sdiv w d x y) <> Z.quot (sval w (S d) x) (sval w (S d) y).
Proof. exists 8, 0%nat, (1, 0), (0, 2). cbv. repeat split; discriminate. Qed.

(** 65535 * 65535 in two levels over words of eight bits; -3 < 5 *)
Example C164_case : uval 8 2 (mul_full 8 1 (255, 255) (255, 255)) = 65535 * 65535 /\ valid 8 1 (255, 255) /\ slt 8 2 (of_int 8 2 (-3)) (of_int 8 2 5) = true /\ sval 8 2 (of_int 8 2 (-3)) = -3.
Proof. cbv. repeat split; discriminate. Qed.
Print Assumptions C164_compare.
Print Assumptions C164_add_sub.
Print Assumptions C164_of_int.
Print Assumptions C164_mul_full.
Print Assumptions C164_mul.
Print Assumptions C164_post_increment_refuted.
Print Assumptions C164_division_refuted.
