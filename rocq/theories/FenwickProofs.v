From Verif Require Import Lib SegTreeProofs BitsProofs FenwickModel FenwickSpec.
Local Open Scope Z_scope.

(** k covers x: the node k stores the adds at (1-based) positions in (k - lo k, k] *)
Definition covers (k x : Z) : Prop := k - fw_lo_bit k < x <= k.

Lemma fw_lo_split a m : 0 <= a -> fw_lo_bit (2 ^ a * (2 * m + 1)) = 2 ^ a.
Proof. intros. unfold fw_lo_bit. now apply land_opp. Qed.

Lemma fw_lo_pos k : 0 < k -> 0 < fw_lo_bit k <= k.
Proof.
  intros H. destruct (split_pow2 k H) as (a & m & Ha & Hm & ->). rewrite fw_lo_split by exact Ha.
  assert (0 < 2 ^ a) by (apply Z.pow_pos_nonneg; lia). nia.
Qed.

Lemma pow_split a b : 0 <= a <= b -> exists q, 0 < q /\ 2 ^ b = 2 ^ a * q.
Proof.
  intros H. exists (2 ^ (b - a)). split; [apply Z.pow_pos_nonneg; lia|].
  rewrite <- Z.pow_add_r by lia. f_equal. lia.
Qed.

Lemma covers_step k x : 0 < k -> 0 < x -> (covers k x <-> k = x \/ covers k (x + fw_lo_bit x)).
Proof.
  intros Hk Hx. unfold covers.
  destruct (split_pow2 k Hk) as (b & n & Hb & Hn & ->). destruct (split_pow2 x Hx) as (a & m & Ha & Hm & ->).
  rewrite !fw_lo_split by assumption.
  assert (PA : 0 < 2 ^ a) by (apply Z.pow_pos_nonneg; lia).
  assert (PB : 0 < 2 ^ b) by (apply Z.pow_pos_nonneg; lia).
  destruct (Z.le_gt_cases b a) as [L|L].
  - destruct (pow_split b a) as (q & Hq & E); [lia|]. rewrite E. set (B := 2 ^ b) in *. clearbody B. clear E PA.
    split.
    + intros [H1 H2]. left. assert (q * (2 * m + 1) = 2 * n + 1) by nia. nia.
    + intros [H|[H1 H2]]; [nia|exfalso].
      assert (q * (2 * m + 2) = 2 * n + 1) by nia. lia.
  - destruct (pow_split (a + 1) b) as (q & Hq & E); [lia|]. rewrite Z.pow_add_r in E by lia. change (2 ^ 1) with 2 in E.
    rewrite E. set (A := 2 ^ a) in *. clearbody A. clear E PB.
    replace (A * 2 * q * (2 * n + 1) - A * 2 * q) with (A * (2 * (q * (2 * n)))) by ring.
    replace (A * 2 * q * (2 * n + 1)) with (A * (2 * (q * (2 * n + 1)))) by ring.
    replace (A * (2 * m + 1) + A) with (A * (2 * m + 2)) by ring.
    set (u := q * (2 * n)). set (w := q * (2 * n + 1)). clearbody u w.
    split.
    + intros [H1 H2]. right. apply Z.mul_lt_mono_pos_l in H1; [|exact PA]. apply Z.mul_le_mono_pos_l in H2; [|exact PA].
      split; [apply Z.mul_lt_mono_pos_l|apply Z.mul_le_mono_pos_l]; lia.
    + intros [H|[H1 H2]].
      * apply Z.mul_reg_l in H; lia.
      * apply Z.mul_lt_mono_pos_l in H1; [|exact PA]. apply Z.mul_le_mono_pos_l in H2; [|exact PA].
        split; [apply Z.mul_lt_mono_pos_l|apply Z.mul_le_mono_pos_l]; lia.
Qed.

Lemma covers_le k x : covers k x -> x <= k.
Proof. intros [_ H]. exact H. Qed.

Lemma covers_dec k x : {covers k x} + {~ covers k x}.
Proof. unfold covers. destruct (Z_lt_dec (k - fw_lo_bit k) x), (Z_le_dec x k); [left|right|right|right]; lia. Qed.

Section F.
  Context {T : Type}.
  Variable f : T -> T -> T.
  Variable e : T.
  Hypothesis M : comm_monoid f e.

  Lemma fw_add_spec (v : list T) index val : exists v', fw_add f v index val = Some v' /\ length v' = length v /\
    forall k, 0 < Z.of_nat k -> nth_error v' k =
      if covers_dec (Z.of_nat k) (Z.of_nat index + 1) then option_map (fun a => f a val) (nth_error v k) else nth_error v k.
  Proof.
    unfold fw_add.
    apply (loopZ_spec _
      (fun '(i, w) => 0 < i /\ (forall k, 0 < k -> covers k i -> covers k (Z.of_nat index + 1)) /\ length w = length v /\
         forall k, 0 < Z.of_nat k -> nth_error w k =
           if covers_dec (Z.of_nat k) (Z.of_nat index + 1)
           then (if covers_dec (Z.of_nat k) i then nth_error v k else option_map (fun a => f a val) (nth_error v k))
           else nth_error v k)
      (fun w => length w = length v /\
         forall k, 0 < Z.of_nat k -> nth_error w k =
           if covers_dec (Z.of_nat k) (Z.of_nat index + 1) then option_map (fun a => f a val) (nth_error v k) else nth_error v k)
      (fun '(i, w) => Z.max 0 (Z.of_nat (length v) - i))).
    - intros [i w] (Hi & Hii & L & H). destruct (Z.ltb_spec i (Z.of_nat (length w))) as [Hl|Hl].
      + destruct (nth_error_some w (Z.to_nat i)) as [a Ea]; [lia|]. rewrite Ea. cbn [obind].
        destruct (set_nth_some w (Z.to_nat i) (f a val)) as [w' Ew]; [lia|]. rewrite Ew. cbn [obind].
        eexists. split; [reflexivity|]. pose proof (fw_lo_pos i Hi).
        split; [|lia]. split; [lia|]. split; [intros k Hk Hc; apply Hii; [exact Hk|]; apply covers_step; auto|]. split; [rewrite (set_nth_length _ _ _ _ Ew); exact L|].
        assert (C0 : covers i i) by (unfold covers; lia).
        intros k Hk. rewrite (set_nth_get _ _ _ _ _ Ew).
        pose proof (covers_step (Z.of_nat k) i Hk Hi) as CS.
        destruct (Nat.eqb_spec (Z.to_nat i) k) as [E|E].
        * assert (Ek : Z.of_nat k = i) by lia. rewrite Ek in *. rewrite H in Ea by lia. rewrite Z2Nat.id in Ea by lia.
          destruct (covers_dec i (i + fw_lo_bit i)) as [c|c]; [unfold covers in c; lia|].
          destruct (covers_dec i (Z.of_nat index + 1)) as [c'|c'].
          -- destruct (covers_dec i i) as [_|]; [|contradiction].
             replace k with (Z.to_nat i) by lia. rewrite Ea. reflexivity.
          -- exfalso. apply c', Hii; assumption.
        * rewrite H by exact Hk. destruct (covers_dec (Z.of_nat k) (Z.of_nat index + 1)); [|reflexivity].
          destruct (covers_dec (Z.of_nat k) i) as [c1|c1], (covers_dec (Z.of_nat k) (i + fw_lo_bit i)) as [c2|c2]; try reflexivity.
          -- exfalso. apply c2. apply CS in c1 as [c1|c1]; [lia|exact c1].
          -- exfalso. apply c1. apply CS. now right.
      + eexists. split; [reflexivity|]. split; [exact L|]. intros k Hk. rewrite H by exact Hk.
        destruct (covers_dec (Z.of_nat k) (Z.of_nat index + 1)); [|reflexivity].
        destruct (covers_dec (Z.of_nat k) i) as [c1|c1]; [|reflexivity].
        assert (N : nth_error v k = None) by (apply nth_error_None; apply covers_le in c1; lia). now rewrite N.
    - intros [i w] _. lia.
    - split; [lia|]. split; [auto|]. split; [reflexivity|]. intros k Hk.
      now destruct (covers_dec (Z.of_nat k) (Z.of_nat index + 1)).
    - cbn. lia.
  Qed.

  Definition sel (P : Z -> bool) (l : list (nat * T)) : T :=
    fold_right f e (map snd (filter (fun p => P (Z.of_nat (fst p) + 1)) l)).

  Lemma sel_ext P Q l : (forall x, 0 < x -> P x = Q x) -> sel P l = sel Q l.
  Proof.
    intros H. unfold sel. f_equal. f_equal. apply filter_ext. intros p. apply H. lia.
  Qed.

  Lemma f_id_r a : f a e = a.
  Proof. rewrite (cm_comm _ _ M). apply (cm_id _ _ M). Qed.

  Lemma sel_snoc P l i x : sel P (l ++ [(i, x)]) = if P (Z.of_nat i + 1) then f (sel P l) x else sel P l.
  Proof.
    unfold sel. rewrite filter_app, map_app, fold_right_app. cbn [filter fst].
    destruct (P (Z.of_nat i + 1)); cbn [map fold_right snd]; [|reflexivity].
    rewrite f_id_r. set (m := map snd _). clearbody m. induction m as [|y m IH]; cbn [fold_right].
    - now rewrite (cm_id _ _ M).
    - now rewrite IH, (cm_assoc _ _ M).
  Qed.

  Lemma sel_none l : sel (fun _ => false) l = e.
  Proof. unfold sel. now induction l. Qed.

  (** two disjoint selections *)
  Lemma sel_split P Q l : (forall x, 0 < x -> P x && Q x = false) ->
    f (sel P l) (sel Q l) = sel (fun x => P x || Q x) l.
  Proof.
    intros D. unfold sel. induction l as [|p l IH]; cbn [filter map fold_right]; [apply (cm_id _ _ M)|].
    specialize (D (Z.of_nat (fst p) + 1)). destruct (P (Z.of_nat (fst p) + 1)) eqn:EP, (Q (Z.of_nat (fst p) + 1)) eqn:EQ; cbn [orb map fold_right].
    - discriminate D. lia.
    - rewrite <- (cm_assoc _ _ M), IH. reflexivity.
    - rewrite (cm_assoc _ _ M), (cm_comm _ _ M (fold_right _ _ _)), <- (cm_assoc _ _ M), IH. reflexivity.
    - exact IH.
  Qed.

  Definition inter (lo hi x : Z) : bool := (lo <? x) && (x <=? hi).

  Definition fw_inv (v : list T) (l : list (nat * T)) : Prop :=
    forall k, (0 < k < length v)%nat -> nth_error v k = Some (sel (inter (Z.of_nat k - fw_lo_bit (Z.of_nat k)) (Z.of_nat k)) l).

  Lemma covers_inter k x : (if covers_dec k x then true else false) = inter (k - fw_lo_bit k) k x.
  Proof. unfold inter. destruct (covers_dec k x) as [c|c]; unfold covers in c; lia. Qed.

  Lemma fw_inv_add v l i x v' : fw_inv v l -> fw_add f v i x = Some v' -> fw_inv v' (l ++ [(i, x)]) /\ length v' = length v.
  Proof.
    intros I E. destruct (fw_add_spec v i x) as (w & Ew & L & H). rewrite E in Ew. injection Ew as <-.
    split; [|exact L]. intros k Hk. rewrite H, sel_snoc by lia. rewrite I by lia.
    rewrite <- covers_inter. now destruct (covers_dec (Z.of_nat k) (Z.of_nat i + 1)).
  Qed.

  Lemma fw_inv_fresh n : fw_inv (repeat e n) [].
  Proof. intros k Hk. rewrite repeat_length in Hk. cbn. rewrite nth_error_repeat; [reflexivity|lia]. Qed.

  Lemma fw_get_spec v l j r0 : fw_inv v l -> (j + 1 < length v)%nat ->
    fw_get_sum f v j r0 = Some (f r0 (prefix_fold f e l j)).
  Proof.
    intros I Hj. unfold fw_get_sum.
    destruct (loopZ_spec (fun '(i, r) => if 0 <? i then let* a := nth_error v (Z.to_nat i) in Some (inl (i - fw_lo_bit i, f r a)) else Some (inr r))
      (fun '(i, r) => 0 <= i <= Z.of_nat j + 1 /\ f r (sel (inter 0 i) l) = f r0 (sel (inter 0 (Z.of_nat j + 1)) l))
      (fun r => r = f r0 (sel (inter 0 (Z.of_nat j + 1)) l))
      (fun '(i, r) => i)) with (s := (Z.of_nat j + 1, r0)) (fuel := Z.of_nat j + 2) as (r & E & ->).
    - intros [i r] [Hi H]. destruct (Z.ltb_spec 0 i) as [P|P].
      + rewrite I by lia. cbn [obind]. eexists. split; [reflexivity|]. rewrite Z2Nat.id by lia.
        pose proof (fw_lo_pos i P). split; [|lia]. split; [lia|]. rewrite <- H.
        rewrite <- (cm_assoc _ _ M). f_equal. rewrite sel_split by (intros; unfold inter; lia).
        apply sel_ext. intros. unfold inter. lia.
      + eexists. split; [reflexivity|]. rewrite <- H. replace i with 0 by lia.
        rewrite (sel_ext _ (fun _ => false)) by (intros; unfold inter; lia). rewrite sel_none. now rewrite f_id_r.
    - intros [i r] [Hi _]. lia.
    - split; [lia|reflexivity].
    - lia.
    - rewrite E. do 2 f_equal. unfold sel, prefix_fold. do 2 f_equal. apply filter_ext. intros p. unfold inter.
      destruct (Nat.leb_spec (fst p) j); lia.
  Qed.

  Lemma fw_run_spec os : forall v l, fw_inv v l -> exists v',
    fw_run f e v os = Some v' /\ fw_inv v' (fold_left live_step os l) /\ length v' = length v.
  Proof.
    induction os as [|o os IH]; intros v l I; cbn [fw_run fold_left].
    - eauto.
    - destruct o as [i x|]; cbn [fw_step live_step].
      + destruct (fw_add_spec v i x) as (v1 & E & _). rewrite E. cbn [obind].
        destruct (fw_inv_add _ _ _ _ _ I E) as [I1 L1]. destruct (IH v1 _ I1) as (v' & E' & I' & L').
        exists v'. split; [exact E'|]. split; [exact I'|]. lia.
      + cbn [obind]. destruct (IH (fw_reset v e) []) as (v' & E' & I' & L').
        { apply fw_inv_fresh. }
        exists v'. split; [exact E'|]. split; [exact I'|]. rewrite L'. apply repeat_length.
  Qed.
End F.
