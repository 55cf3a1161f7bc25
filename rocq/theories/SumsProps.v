From Coq Require Import Ring.
From Verif Require Import Lib BaseModel BaseProofs SumsModel SumsSpec SumsProofs.
Local Open Scope Z_scope.

(** C56. Z./ is the floor quotient for every sign of the divisor. *)
Theorem C56_sum_ratio : forall a b q n, q <> 0 ->
  sum_ratio a b q n = Some (sum0 0 Z.add (Z.to_nat n) (fun k => (a * k + b) / q)).
Proof. intros. now apply sum_ratio_spec. Qed.
Example C56_case : sum_ratio (-7) 5 3 10 = Some (-92) /\ sum_ratio 7 (-4) (-3) 10 = Some (-95) /\ (-7 * 2 + 5) / 3 = -3 /\ sum_ratio 1 1 0 5 = None.
Proof. now vm_compute. Qed.

(** C57. [root n] is whatever sqrtT returns: the value of the sums does not depend on it being the exact root. *)
Section C57.
  Context {T : Type} (rO rI : T) (add mul sub : T -> T -> T) (opp : T -> T).
  Hypothesis Rth : ring_theory rO rI add mul sub opp (@eq T).
  Variable cast : Z -> T.
  Hypothesis cast_0 : cast 0 = rO.
  Hypothesis cast_succ : forall z, 0 <= z -> cast (z + 1) = add (cast z) rI.
  Variable root : Z -> option Z.
  Variable n : Z.
  Hypothesis root_ok : 1 <= n -> exists q, root n = Some q /\ 1 <= q.

  Theorem C57_sum_sqrt : forall f,
    sum_sqrt rO add mul cast root f n = Some (sum1 rO add (Z.to_nat n) (fun k => f (n / k))).
  Proof using Rth cast_0 cast_succ root_ok.
    intros f. destruct (Z.ltb_spec n 1).
    - unfold sum_sqrt. destruct (Z.ltb_spec n 1); [|lia]. now replace (Z.to_nat n) with O by lia.
    - destruct root_ok as (q & E & Q); [lia|]. now apply (sum_sqrt_spec rO rI add mul sub opp Rth) with (q := q).
  Qed.
  Theorem C57_sum_sqrt2m : forall f sf g, (forall i, sf (Z.of_nat i) = sum1 rO add i f) ->
    sum_sqrt2m rO add mul sub root sf g n = Some (sum1 rO add (Z.to_nat n) (fun k => mul (f k) (g (n / k)))) /\
    sum_sqrt2m_f rO add mul sub root f sf g n = Some (sum1 rO add (Z.to_nat n) (fun k => mul (f k) (g (n / k)))).
  Proof using Rth root_ok.
    intros f sf g Hs. destruct (Z.ltb_spec n 1).
    - unfold sum_sqrt2m, sum_sqrt2m_f. destruct (Z.ltb_spec n 1); [|lia]. now replace (Z.to_nat n) with O by lia.
    - destruct root_ok as (q & E & Q); [lia|].
      split; [now apply (sum_sqrt2m_spec rO rI add mul sub opp Rth) with (q := q)|now apply (sum_sqrt2m_f_spec rO rI add mul sub opp Rth) with (q := q)].
  Qed.
  Theorem C57_sum_sqrt2 : forall f sf, (forall i m, sf (Z.of_nat i) m = sum1 rO add i (fun k => f k m)) ->
    sum_sqrt2 rO add sub root sf n = Some (sum1 rO add (Z.to_nat n) (fun k => f k (n / k))).
  Proof using Rth root_ok.
    intros f sf Hs. destruct (Z.ltb_spec n 1).
    - unfold sum_sqrt2. destruct (Z.ltb_spec n 1); [|lia]. now replace (Z.to_nat n) with O by lia.
    - destruct root_ok as (q & E & Q); [lia|]. now apply (sum_sqrt2_spec rO rI add mul sub opp Rth) with (q := q).
  Qed.
End C57.
(** with the library's own root *)
Theorem C57_root : forall n, 1 <= n -> Z.log2 n + 6 <= 2 ^ 64 -> exists q, sqrtT n 1 0 = Some q /\ 1 <= q.
Proof.
  intros n Hn Hl. exists (Z.sgn n * Z.sqrt (Z.abs n)). split.
  - apply sqrtT_run. now rewrite Z.abs_eq by lia.
  - rewrite Z.sgn_pos, Z.abs_eq by lia. pose proof (Z.sqrt_le_mono 1 n Hn). change (Z.sqrt 1) with 1 in H. lia.
Qed.
Example C57_case : sum_sqrt 0 Z.add Z.mul (fun z => z) (fun n => sqrtT n 1 0) (fun m => m * m) 20 = Some 612 /\
  sum1 0 Z.add 20 (fun k => (20 / k) * (20 / k)) = 612.
Proof. now vm_compute. Qed.

(** C72 *)
Theorem C72_sum : forall (T : Type) rO rI add mul sub opp, @ring_theory T rO rI add mul sub opp eq ->
  forall f a b, a <= b + 1 -> sum rO add f a b = sum0 rO add (Z.to_nat (b - a + 1)) (fun i => f (a + i)).
Proof. intros T rO rI add mul sub opp Rth. apply (sum_spec rO rI add mul sub opp Rth). Qed.
Theorem C72_sum_pow : forall p n, 0 <= p <= 3 -> 0 <= n ->
  sum_pow_small p n = Some (sum1 0 Z.add (Z.to_nat n) (fun k => k ^ p)).
Proof. apply sum_pow_small_spec. Qed.
Example C72_case : sum_pow_small 2 10 = Some 385 /\ sum 0 Z.add (fun k => k * k) (-3) 3 = 28.
Proof. now vm_compute. Qed.

Print Assumptions C56_sum_ratio.
Print Assumptions C57_sum_sqrt.
Print Assumptions C57_sum_sqrt2m.
Print Assumptions C57_sum_sqrt2.
Print Assumptions C57_root.
Print Assumptions C72_sum.
Print Assumptions C72_sum_pow.
