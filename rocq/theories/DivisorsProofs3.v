(** The Carmichael function of a factorisation, and digits in terms of the specification. *)
From Coq Require Import Permutation Sorted.
From Verif Require Import Lib BaseModel BaseProofs PrimesSpec PrimesProofs PrimesProofs2 PrimesProofs3 PrimesProofs4 NumTheory NumTheory2 DivisorsModel DivisorsSpec DivisorsProofs DivisorsProofs2.
Open Scope Z_scope.

Lemma univ_iff n M : (0 < n)%nat -> universal_exponent n M <-> univ n M.
Proof.
  intros Hn. unfold universal_exponent, univ. split; intros H a G; specialize (H a G).
  - destruct (Nat.eq_dec a 0) as [->|Na]; [rewrite Nat.gcd_0_l in G; subst; apply Z.divide_1_l|]. apply mod_one_divide in H; [|exact Hn|pose proof (Nat.pow_nonzero a M); lia]. now rewrite pow_nat in H.
  - destruct (Nat.eq_dec a 0) as [->|Na]; [rewrite Nat.gcd_0_l in G; subst; now rewrite !Nat.mod_1_r|]. apply mod_one_divide; [exact Hn|pose proof (Nat.pow_nonzero a M); lia|]. now rewrite pow_nat.
Qed.
Lemma lambda_run vf n : factorisation n vf -> exists L, lambda_of vf = Some L /\ exact n L.
Proof.
  intros F. unfold lambda_of. match goal with |- context [fold_left ?f vf _] => set (g := f) end.
  assert (G : forall l m r, factorisation m l -> 0 < r -> exists L, fold_left g l (Some r) = Some (Z.lcm r L) /\ exact m L).
  { induction l as [|[p e] l IH]; intros m r Fm Hr.
    - destruct Fm as (E & _). cbn in E. subst m. exists 1. cbn [fold_left]. rewrite Z.lcm_1_r, Z.abs_eq by lia. split; [reflexivity|apply exact_one].
    - apply fact_cons in Fm as (P & He & N & Fl & -> & Pos). pose proof (prime_ge p P) as Hp. cbn [fold_left]. unfold g at 2. cbn [obind]. cbv zeta.
      set (e' := if ((p =? 2) && (2 <? e))%nat then (e - 1)%nat else e). assert (He' : (1 <= e')%nat) by (unfold e'; destruct (Nat.ltb_spec 2 e); destruct (p =? 2)%nat; cbn [andb]; lia).
      replace (Z.of_nat e' - 1) with (Z.of_nat (e' - 1)) by lia. rewrite powT_nat. cbn [obind]. replace (Z.of_nat p - 1) with (Z.of_nat (p - 1)) by lia. rewrite <- Nat2Z.inj_mul. change (p ^ (e' - 1) * (p - 1))%nat with (lam p e). destruct (exact_pp p e P He) as (HL & HE). rewrite lcm_run by lia. set (r' := Z.lcm r (Z.of_nat (lam p e))).
      assert (Hr' : 0 < r'). { unfold r'. pose proof (Z.lcm_nonneg r (Z.of_nat (lam p e))). assert (Z.lcm r (Z.of_nat (lam p e)) <> 0) by (rewrite Z.lcm_eq_0; lia). lia. }
      destruct (IH _ r' Fl Hr') as (L & E & X). exists (Z.lcm (Z.of_nat (lam p e)) L). rewrite E. split; [unfold r'; now rewrite Z.lcm_assoc|]. apply exact_product; [pose proof (Nat.pow_nonzero p e); lia|exact Pos|rewrite Nat.gcd_comm; apply gcd_pow; assumption|split; assumption|exact X]. }
  destruct (G vf n 1 F ltac:(lia)) as (L & E & X). exists L. rewrite E. split; [|exact X]. f_equal. destruct X as (X & _). rewrite Z.lcm_1_l. apply Z.abs_eq. lia.
Qed.

Lemma from_digits_value vd b : from_digits vd b = value b vd.
Proof.
  unfold from_digits, value. rewrite <- fold_left_rev_right, rev_involutive. induction vd as [|x vd IH]; [reflexivity|]. cbn [fold_right]. rewrite IH. ring.
Qed.
Lemma value_unique b : 2 <= b -> forall u v, length u = length v -> Forall (fun x => 0 <= x < b) u -> Forall (fun x => 0 <= x < b) v -> value b u = value b v -> u = v.
Proof.
  intros Hb. induction u as [|x u IH]; intros [|y v] L U V E; try discriminate; [reflexivity|]. inversion U; inversion V; subst. cbn [value fold_right] in E. fold (value b u) (value b v) in E.
  assert (X : x = y). { assert (A : (x + b * value b u) mod b = x) by (rewrite Z.mul_comm, Z.mod_add by lia; now apply Z.mod_small). assert (B : (y + b * value b v) mod b = y) by (rewrite Z.mul_comm, Z.mod_add by lia; now apply Z.mod_small). rewrite <- A, <- B. now rewrite E. }
  subst y. f_equal. apply IH; auto; nia.
Qed.
Lemma digit_char_table x : 0 <= x < 36 -> nth (Z.to_nat x) digit_table 0 = digit_char x.
Proof.
  intros H. unfold digit_char. assert (X : (Z.to_nat x < 36)%nat) by lia. rewrite <- (Z2Nat.id x) by lia. rewrite Nat2Z.id. revert X. generalize (Z.to_nat x). intros k Hk. clear H. do 36 (destruct k as [|k]; [reflexivity|]). lia.
Qed.
Lemma loop_never {S R} (f : S -> option (S + R)) (P : S -> Prop) : (forall s, P s -> exists s', f s = Some (inl s') /\ P s') -> forall fuel s, P s -> loopZ fuel f s = None.
Proof.
  intros H fuel s Hs. assert (G : forall p s, P s -> exists s', iterP p f s = Some (inl s') /\ P s').
  { induction p as [p IH|p IH|]; intros t Ht; cbn [iterP].
    - destruct (H t Ht) as (t1 & -> & H1). destruct (IH t1 H1) as (t2 & -> & H2). now apply IH.
    - destruct (IH t Ht) as (t1 & -> & H1). now apply IH.
    - destruct (H t Ht) as (t1 & -> & H1). now exists t1. }
  destruct fuel as [|p|p]; try reflexivity. cbn [loopZ]. destruct (G p s Hs) as (t & -> & _). reflexivity.
Qed.
Lemma base_one_runs n fuel : 0 < n -> forall vd,
  loopZ fuel (fun '(t, vd) => if (0 <? t) then (let* q := cdiv t 1 in let* r := cmod t 1 in Some (inl (q, vd ++ [r]))) else Some (inr vd)) (n, vd) = @None (list Z).
Proof.
  intros Hn vd. apply (loop_never _ (fun '(t, _) => t = n)); [|reflexivity]. intros [t l] ->. destruct (Z.ltb_spec 0 n); [|lia]. unfold cdiv, cmod. cbn [Z.eqb obind]. eexists. split; [reflexivity|]. now rewrite Z.quot_1_r.
Qed.
