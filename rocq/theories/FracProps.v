From Coq Require Import QArith.
From Verif Require Import Lib BaseModel BaseProofs ModuloModel ModPowModel ModPowProofs FracModel FracSpec FracProofs.
Local Open Scope Z_scope.

(** C41 *)
Theorem C41_construct : forall p q, 
  (q <> 0 -> exists f, mkfrac p q = Some f /\ lowest_terms f /\ (frac_value f == inject_Z p / inject_Z q)%Q) /\
  (p <> 0 -> mkfrac p 0 = Some (Z.sgn p, 0)) /\ lowest_terms (frac_of p) /\ (frac_value (frac_of p) == inject_Z p)%Q.
Proof.
  intros p q. split; [|split; [|split]].
  - intros Hq. destruct (frac_reduce_spec p q Hq) as (f & E & L & X). exists f. split; [exact E|]. split; [exact L|]. now apply value_gen.
  - apply frac_reduce_inf.
  - split; cbn; [lia|apply Z.gcd_1_r].
  - reflexivity.
Qed.
Theorem C41_arithmetic : forall x y, lowest_terms x -> lowest_terms y ->
  (exists r, frac_add x y = Some r /\ frac_add_eq x y = Some r /\ lowest_terms r /\ (frac_value r == frac_value x + frac_value y)%Q) /\
  (exists r, frac_sub x y = Some r /\ frac_sub_eq x y = Some r /\ lowest_terms r /\ (frac_value r == frac_value x - frac_value y)%Q) /\
  (exists r, frac_mul x y = Some r /\ frac_mul_eq x y = Some r /\ lowest_terms r /\ (frac_value r == frac_value x * frac_value y)%Q) /\
  (exists r, frac_neg x = Some r /\ lowest_terms r /\ (frac_value r == - frac_value x)%Q) /\
  (~ (frac_value y == 0)%Q -> exists r, frac_div x y = Some r /\ frac_div_eq x y = Some r /\ lowest_terms r /\ (frac_value r == frac_value x / frac_value y)%Q) /\
  (~ (frac_value y == 0)%Q -> exists r, frac_reciprocal y = Some r /\ lowest_terms r /\ (frac_value r == / frac_value y)%Q).
Proof.
  intros x y Hx Hy. destruct (frac_ops x y Hx Hy) as ((r1 & A1 & A2 & A3) & (r2 & B1 & B2 & B3) & (r3 & C1 & C2 & C3) & (r4 & D1 & D2 & D3) & E & F).
  assert (Z : ~ (frac_value y == 0)%Q -> fst y <> 0).
  { intros N E0. apply N. unfold Qeq, frac_value. cbn [Qnum Qden]. rewrite E0. reflexivity. }
  split; [eauto|]. split; [eauto|]. split; [eauto|]. split; [eauto|]. split.
  - intros N. destruct (E (Z N)) as (r & E1 & E2 & E3). exists r. auto.
  - intros N. destruct (F (Z N)) as (r & E1 & E2 & E3). exists r. auto.
Qed.
Theorem C41_comparison : forall x y, lowest_terms x -> lowest_terms y ->
  (frac_eqb x y = true <-> (frac_value x == frac_value y)%Q) /\ frac_neb x y = negb (frac_eqb x y) /\
  (frac_ltb x y = true <-> (frac_value x < frac_value y)%Q) /\ (frac_leb x y = true <-> (frac_value x <= frac_value y)%Q) /\
  (frac_gtb x y = true <-> (frac_value y < frac_value x)%Q) /\ (frac_geb x y = true <-> (frac_value y <= frac_value x)%Q).
Proof.
  intros x y Hx Hy. split; [rewrite (value_eq_iff x y Hx Hy); apply frac_eqb_spec|]. split; [apply frac_eqb_spec|].
  apply frac_cmp_spec; [apply Hx|apply Hy].
Qed.
(** the constructor divides by zero on 0/0 *)
Theorem C41_zero_over_zero_refuted : mkfrac 0 0 = None.
Proof. exact frac_reduce_00. Qed.
Example C41_case : mkfrac 6 (-4) = Some (-3, 2) /\ frac_add (-3, 2) (5, 6) = Some (-2, 3) /\ frac_div (-3, 2) (-9, 4) = Some (2, 3) /\
  lowest_terms (-3, 2) /\ frac_ltb (-3, 2) (-4, 3) = true.
Proof. vm_compute. intuition congruence. Qed.

(** C64 *)
Theorem C64_farey_neighbour : forall n f,
  (forall l, farey_next n l f -> exists r, farey_neighbour n l f = Some r /\ farey_next n f r) /\
  (forall r, farey_next n f r -> exists l, farey_neighbour n r f = Some l /\ farey_next n l f) /\
  (in_farey n f -> 0 <= fst f ->
     (exists r, farey_neighbour n (-1, 0) f = Some r /\ farey_next n f r) /\
     (exists l, farey_neighbour n (1, 0) f = Some l /\ farey_next n l f)).
Proof.
  intros n f. split; [intros l; apply farey_right|]. split; [intros r; apply farey_left|]. intros I P. split.
  - apply (farey_inf n f (-1)); auto. lia.
  - apply (farey_inf n f 1); auto. lia.
Qed.
Example C64_case : farey_neighbour 5 (1, 3) (2, 5) = Some (1, 2) /\ farey_neighbour 5 (-1, 0) (2, 5) = Some (1, 2) /\
  farey_neighbour 5 (1, 0) (2, 5) = Some (1, 3) /\ farey_next 5 (1, 3) (2, 5).
Proof. split; [now vm_compute|]. split; [now vm_compute|]. split; [now vm_compute|]. apply farey_adj; lia. Qed.

(** C65 *)
Theorem C65_repeating_decimal : forall b p q, 2 <= b -> 0 < p < q -> exists ds t, repeating_decimal b p q = Some (ds, t) /\
  (forall i, (i < length ds)%nat -> nth_error ds i = Some (digit_at b p q i)) /\
  (t = 0%nat -> forall i, (length ds <= i)%nat -> digit_at b p q i = 0) /\
  (t <> 0%nat -> (t <= length ds)%nat /\ forall i, (length ds <= i)%nat -> digit_at b p q i = digit_at b p q (i - t)).
Proof.
  intros b p q Hb Hp. destruct (repeating_decimal_run b p q Hb Hp) as (ds & t & E & Hd & Hl & C). exists ds, t. split; [exact E|].
  split; [exact Hd|]. destruct C as [(-> & R & _)|(Ht & R & _ & _)].
  - split; [|easy]. intros _ i Hi. rewrite <- digit_rem by lia.
    replace i with (length ds + (i - length ds))%nat by lia. rewrite rem_at_add by lia. rewrite R, Z.mul_0_r, Z.mod_0_l by lia.
    rewrite Z.mul_0_r. apply Z.div_0_l. lia.
  - split; [lia|]. intros _. split; [lia|]. intros i Hi.
    replace i with (i - t + t)%nat at 1 by lia. apply digit_periodic with (i := (length ds - t)%nat); try lia.
    rewrite <- R. f_equal. lia.
Qed.
(** the expansion returned is the shortest: a terminating one has no trailing zeros, and the remainders within the
    digits before the repetition are pairwise different *)
Theorem C65_repeating_decimal_shortest : forall b p q ds t, 2 <= b -> 0 < p < q -> repeating_decimal b p q = Some (ds, t) ->
  (t = 0%nat -> forall k, (k < length ds)%nat -> ~ (q | p * b ^ Z.of_nat k)) /\
  (t <> 0%nat -> (forall k, ~ (q | p * b ^ Z.of_nat k)) /\
     forall i j, (i < j < length ds)%nat -> (p * b ^ Z.of_nat i) mod q <> (p * b ^ Z.of_nat j) mod q).
Proof.
  intros b p q ds t Hb Hp E. destruct (repeating_decimal_run b p q Hb Hp) as (ds' & t' & E' & Hd & Hl & C).
  rewrite E in E'. injection E' as <- <-. 
  assert (DV : forall k, (q | p * b ^ Z.of_nat k) <-> rem_at b p q k = 0) by (intros; unfold rem_at; rewrite Z.mod_divide by lia; reflexivity).
  destruct C as [(-> & R & N)|(Ht & R & N & ND)]; split; try easy; try lia.
  - intros _ k Hk D. apply DV in D. now apply (N k).
  - intros _. split; [|exact ND]. 
    assert (G : forall k, rem_at b p q k <> 0).
    { intros k. induction k as [k IH] using lt_wf_ind. destruct (Nat.le_gt_cases k (length ds)) as [L|L]; [now apply N|].
      replace k with (length ds + (k - length ds))%nat by lia. rewrite rem_at_add by lia. rewrite R, <- rem_at_add by lia. apply IH. lia. }
    intros k D. apply DV in D. now apply (G k).
Qed.
Theorem C65_rational_digits : forall n len b p q, 2 <= b -> 0 < p < q -> 0 <= n ->
  rational_digits n len b p q = Some (map (fun i => digit_at b p q (Z.to_nat n + i)) (seq 0 len)) /\
  exists r, rational_digit n b p q = Some (digit_at b p q (Z.to_nat n), r).
Proof.
  intros n len b p q Hb Hp Hn. split; [apply rational_digits_spec; lia|]. rewrite rational_digit_spec by lia. rewrite digit_rem by lia. eauto.
Qed.
Example C65_case : repeating_decimal 10 1 12 = Some ([0; 8; 3], 1%nat) /\ repeating_decimal 10 3 8 = Some ([3; 7; 5], 0%nat) /\
  rational_digits 5 4 10 1 7 = Some [7; 1; 4; 2] /\ digit_at 10 1 7 5 = 7.
Proof. now vm_compute. Qed.

(** C63 *)
Theorem C63_continued_fraction : forall p q, 0 <= p -> 0 < q -> exists a r, continued_fraction p q = Some (a :: r) /\
  (cf_value (a :: r) == inject_Z p / inject_Z q)%Q /\ a = p / q /\ Forall (fun x => 1 <= x) r /\ (r <> [] -> 2 <= last r 0).
Proof.
  intros p q Hp Hq. destruct (continued_fraction_CF p q) as (va & E & C).
  destruct (CF_props p q va C Hp Hq) as (V & a & r & -> & Ea & F & L & _). exists a, r. auto.
Qed.
Lemma nonneg_of (a : Z) r : 0 <= a -> Forall (fun x => 1 <= x) r -> Forall (fun a => 0 <= a) (a :: r).
Proof. intros. constructor; auto. eapply Forall_impl; [|eassumption]. cbv beta. intros. lia. Qed.
Theorem C63_convergents : forall a r, 0 <= a -> Forall (fun x => 1 <= x) r ->
  let cs := convergents (a :: r) 0 in
  length cs = S (length r) /\
  (forall i, (i <= length r)%nat -> exists f, nth_error cs i = Some f /\ lowest_terms f /\ (frac_value f == cf_value (firstn (S i) (a :: r)))%Q) /\
  (forall i P Q P' Q', nth_error cs i = Some (P, Q) -> nth_error cs (S i) = Some (P', Q') -> P' * Q - P * Q' = alt i).
Proof.
  intros a r Ha F. cbv zeta. unfold convergents. rewrite convergents_segs by (try lia; now apply nonneg_of).
  rewrite segs_conv by now apply nonneg_of. cbn [app]. split; [apply conv_length|]. split.
  - intros i Hi. destruct (convergents_value a r i Ha F Hi) as (P & Q & E & HQ & V). exists (P, Q). split; [exact E|]. split; [|exact V].
    split; [exact HQ|]. cbn [fst snd]. destruct i as [|i].
    + cbn [conv nth_error] in E. injection E as <- <-. replace (a * 0 + 1) with 1 by ring. apply Z.gcd_1_r.
    + cbn [conv nth_error] in E. replace (a * 1 + 0) with a in E by ring. replace (a * 0 + 1) with 1 in E by ring.
      apply nth_error_In in E.
      assert (F0 : Forall (fun a => 0 <= a) r) by (eapply Forall_impl; [|exact F]; cbv beta; intros; lia).
      apply (conv_incl 0 r ltac:(lia) F0) in E. apply (segs_in 0 r ltac:(lia) F) in E; lia.
  - intros i P Q P' Q' H1 H2. rewrite (conv_det _ _ _ _ _ _ _ _ _ _ H1 H2). ring.
Qed.
(** asking for semi-convergents only adds fractions in lowest terms and never changes the last one *)
Theorem C63_semi_convergents : forall a r semi d, 1 <= a -> Forall (fun x => 1 <= x) r -> 0 <= semi ->
  incl (convergents (a :: r) 0) (convergents (a :: r) semi) /\ (forall f, In f (convergents (a :: r) semi) -> lowest_terms f) /\
  last (convergents (a :: r) semi) d = last (convergents (a :: r) 0) d.
Proof.
  intros a r semi d Ha F Hs. assert (F0 : Forall (fun a => 0 <= a) (a :: r)) by (apply nonneg_of; auto; lia).
  unfold convergents. rewrite !convergents_segs by (auto; lia). rewrite segs_conv by auto. cbn [app]. split; [now apply conv_incl|]. split.
  - intros [P Q] I. apply segs_in in I; auto; try lia. unfold lowest_terms. cbn [fst snd]. tauto.
  - now apply segs_last.
Qed.
Theorem C63_last_convergent : forall p q semi d, 0 <= p -> 0 < q -> 0 <= semi -> exists va, continued_fraction p q = Some va /\
  last (convergents va semi) d = (p / Z.gcd p q, q / Z.gcd p q).
Proof.
  intros p q semi d Hp Hq Hs. destruct (C63_continued_fraction p q Hp Hq) as (a & r & E & V & Ea & F & _). exists (a :: r). split; [exact E|].
  assert (Ha : 0 <= a) by (rewrite Ea; apply Z.div_pos; lia).
  assert (F0 : Forall (fun a => 0 <= a) (a :: r)) by now apply nonneg_of.
  unfold convergents. rewrite convergents_segs by auto. cbn [app]. rewrite segs_last by auto.
  destruct (conv_last a r d Ha F) as [L V']. apply value_eq_iff; auto.
  - assert (G : 0 < Z.gcd p q) by (pose proof (Z.gcd_nonneg p q); assert (Z.gcd p q <> 0) by (intros X; apply Z.gcd_eq_0_r in X; lia); lia).
    destruct (Z.gcd_divide_l p q) as [p' Ep]. destruct (Z.gcd_divide_r p q) as [q' Eq].
    split; cbn [fst snd].
    + rewrite Eq at 1. rewrite Z.div_mul by lia. nia.
    + apply Z.gcd_div_gcd; lia.
  - rewrite V', V. set (g := Z.gcd p q) in *.
    assert (G : 0 < g) by (pose proof (Z.gcd_nonneg p q); assert (Z.gcd p q <> 0) by (intros X; apply Z.gcd_eq_0_r in X; lia); unfold g in *; lia).
    destruct (Z.gcd_divide_l p q) as [p' Ep]. destruct (Z.gcd_divide_r p q) as [q' Eq]. fold g in Ep, Eq.
    rewrite Ep, Eq, !Z.div_mul by lia. unfold frac_value. cbn [fst snd]. rewrite qmake_mul by nia. rewrite !inject_Z_mult.
    field. split; apply inj_nz; nia.
Qed.
(** a negative leading quotient below -1 is skipped: the convergents of -5/2 do not end in -5/2 *)
Theorem C63_negative_refuted : exists va, continued_fraction (-5) 2 = Some va /\ (cf_value va == -5 # 2)%Q /\
  forall f, In f (convergents va 0) -> fst f * 2 <> -5 * snd f.
Proof.
  exists [-2; -2]. split; [reflexivity|]. split; [reflexivity|]. vm_compute. intuition.
Qed.
Example C63_case : continued_fraction 415 93 = Some [4; 2; 6; 7] /\ convergents [4; 2; 6; 7] 0 = [(4, 1); (9, 2); (58, 13); (415, 93)] /\
  convergents [3; 7; 16] 2 = [(2, 1); (3, 1); (16, 5); (19, 6); (22, 7); (311, 99); (333, 106); (355, 113)].
Proof. now vm_compute. Qed.

(** C73 *)
Theorem C73_modulo_power : forall x y M, 0 < M -> 0 <= y -> modulo_power x y M = Some ((x ^ y) mod M).
Proof. apply modulo_power_spec. Qed.
Theorem C73_modT : forall v M, 0 < M -> modT v M = Some (v mod M).
Proof. apply modT_spec. Qed.
Example C73_case : modulo_power (-3) 5 7 = Some 2 /\ modulo_power 2 100 1000000007 = Some 976371285 /\ modulo_power 5 0 1 = Some 0.
Proof. now vm_compute. Qed.

Print Assumptions C41_construct.
Print Assumptions C41_arithmetic.
Print Assumptions C41_comparison.
Print Assumptions C64_farey_neighbour.
Print Assumptions C65_repeating_decimal.
Print Assumptions C65_repeating_decimal_shortest.
Print Assumptions C65_rational_digits.
Print Assumptions C63_continued_fraction.
Print Assumptions C63_convergents.
Print Assumptions C63_semi_convergents.
Print Assumptions C63_last_convergent.
Print Assumptions C73_modulo_power.
