From Verif Require Import Lib BaseModel BaseProofs ModuloModel ModPowModel.
Local Open Scope Z_scope.

(** powT commutes with any relation preserved by the multiplication *)
Section Rel.
  Context {T T' : Type} (mul : T -> T -> T) (e1 : T) (mul' : T' -> T' -> T') (e1' : T').
  Hypothesis mul_assoc : forall x y z, mul' x (mul' y z) = mul' (mul' x y) z.
  Hypothesis mul_1_l : forall x, mul' e1' x = x.
  Hypothesis mul_1_r : forall x, mul' x e1' = x.
  Variable R : T -> T' -> Prop.
  Hypothesis R1 : R e1 e1'.
  Hypothesis Rm : forall a a' b b', R a a' -> R b b' -> R (mul a b) (mul' a' b').
  Lemma powT_rel x x' y : R x x' -> 0 <= y -> exists r, powT mul e1 x y = Some r /\ R r (npow mul' e1' x' (Z.to_nat y)).
  Proof using mul_assoc mul_1_l mul_1_r R1 Rm.
    intros Hx Hy.
    destruct (loopZ_spec (powT_step mul)
      (fun '(r, z, k) => 0 <= k /\ exists r' z', R r r' /\ R z z' /\ mul' r' (npow mul' e1' z' (Z.to_nat k)) = npow mul' e1' x' (Z.to_nat y))
      (fun r => R r (npow mul' e1' x' (Z.to_nat y)))
      (fun '(_, _, k) => k)) with (fuel := Z.abs y + 1) (s := (e1, x, y)) as (r & E & Hr).
    - intros [[r z] k] (Hk & r' & z' & Rr & Rz & HI). cbn [powT_step].
      destruct (Z.ltb_spec 0 k) as [Hp|Hp].
      + eexists. split; [reflexivity|]. cbv beta iota.
        pose proof (Z.quot_pos k 2 ltac:(lia) ltac:(lia)).
        pose proof (Z.quot_rem' k 2) as QR.
        pose proof (Z.rem_bound_pos k 2 ltac:(lia) ltac:(lia)) as RB.
        split; [|lia]. split; [lia|].
        exists (if Z.rem k 2 =? 0 then r' else mul' r' z'), (mul' z' z').
        split; [destruct (Z.rem k 2 =? 0); auto|]. split; [auto|].
        rewrite npow_sq by auto. rewrite <- HI.
        destruct (Z.eqb_spec (Z.rem k 2) 0) as [R0|R0].
        * do 2 f_equal. lia.
        * rewrite <- mul_assoc. f_equal.
          replace (Z.to_nat k) with (S (Z.to_nat (k ÷ 2) + Z.to_nat (k ÷ 2)))%nat by lia.
          reflexivity.
      + eexists. split; [reflexivity|]. cbv beta iota.
        replace k with 0 in HI by lia. cbn in HI. rewrite mul_1_r in HI. now rewrite <- HI.
    - intros [[r z] k] [Hk _]. exact Hk.
    - split; [exact Hy|]. exists e1', x'. auto.
    - lia.
    - unfold powT. rewrite E. eauto.
  Qed.
End Rel.

Lemma npow_Z x n : npow Z.mul 1 x n = x ^ Z.of_nat n.
Proof.
  induction n as [|n IH]; [reflexivity|]. cbn [npow]. rewrite IH, Nat2Z.inj_succ, Z.pow_succ_r by lia. reflexivity.
Qed.

Lemma modT_spec v M : 0 < M -> modT v M = Some (v mod M).
Proof.
  intros HM. 
  assert (P : forall v, 0 <= v -> mod_normalize_u v M = Some (v mod M)).
  { intros w Hw. unfold mod_normalize_u. destruct (Z.ltb_spec w M); [now rewrite Z.mod_small by lia|].
    destruct (Z.eqb_spec M 0); [lia|reflexivity]. }
  unfold modT. destruct (Z.ltb_spec v 0); [|apply P; lia].
  rewrite P by lia. cbn [obind]. f_equal.
  destruct (Z.eqb_spec ((- v) mod M) 0) as [E|E].
  - rewrite E. symmetry. replace v with (- - v) by lia. apply Z.mod_opp_l_z; lia.
  - replace v with (- - v) at 2 by lia. now rewrite (Z.mod_opp_l_nz (- v) M) by lia.
Qed.

Lemma mmul_ok M x y : 0 < M -> 0 <= x -> 0 <= y -> mmul M (Some x) (Some y) = Some ((x * y) mod M).
Proof.
  intros. cbn [mmul obind]. unfold modulo_mul. rewrite cmod_some by lia. now rewrite Z.rem_mod_nonneg by nia.
Qed.

Lemma modulo_power_spec x y M : 0 < M -> 0 <= y -> modulo_power x y M = Some ((x ^ y) mod M).
Proof.
  intros HM Hy. unfold modulo_power. rewrite !modT_spec by lia. cbn [obind].
  destruct (powT_rel (mmul M) (Some (1 mod M)) Z.mul 1) with (R := fun a z => a = Some (z mod M)) (x := Some (x mod M)) (x' := x) (y := y) as (r & E & Hr); auto using Z.mul_assoc, Z.mul_1_l, Z.mul_1_r.
  - intros a a' b b' -> ->. rewrite mmul_ok by (auto; apply Z.mod_pos_bound; lia). f_equal. symmetry. apply Z.mul_mod. lia.
  - rewrite E. cbn [obind]. rewrite Hr, npow_Z. now rewrite Z2Nat.id by lia.
Qed.
