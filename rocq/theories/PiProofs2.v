(** sqrt_map as a function of its keys; prime_power_sum_sqrt. *)
From Coq Require Import Ring Ring_theory.
From Verif Require Import Lib BaseModel BaseProofs LohiModel LohiSpec LohiProofs RingSpec RingProofs PrimesSpec PrimesProofs PiSpec PiModel PiProofs.
Open Scope nat_scope.

Section Rep.
Context {T : Type} (dflt : T).
Notation sqm := (@sqm T).
Definition fput (f : nat -> T) (k : nat) (v : T) : nat -> T := fun j => if j =? k then v else f j.
Definition skey (ml mk k : nat) : Prop := 1 <= k /\ sqrt_key ml mk k.
Definition shape (ml mk : nat) (s : sqm) : Prop :=
  0 < ml /\ sml s = ml /\ smk s = mk /\ length (scl s) = ml + 1 /\ length (stl s) = ml + 1 /\ length (sch s) = mk / ml + 1 /\ length (sth s) = mk / ml + 1.
Definition rep (ml mk : nat) (s : sqm) (f : nat -> T) : Prop := shape ml mk s /\ forall k, skey ml mk k -> sqm_el s k = Some (f k).

Lemma rep_ext ml mk s f g : rep ml mk s f -> (forall k, skey ml mk k -> f k = g k) -> rep ml mk s g.
Proof. intros (S & R) E. split; [exact S|]. intros k K. rewrite <- E by exact K. now apply R. Qed.
Lemma rep_new ml mk mk0 : 0 < ml -> exists s, sqm_new dflt ml mk mk0 = Some s /\ rep ml mk s (fun _ => dflt).
Proof.
  intros H. unfold sqm_new, sqm_reset_max. cbn [sml]. destruct (Nat.eqb_spec ml 0); [lia|]. eexists. split; [reflexivity|]. split.
  - repeat split; cbn [sml smk scl stl sch sth]; rewrite ?repeat_length; auto. unfold vresize. rewrite app_length, firstn_length, repeat_length. cbn [length]. lia.
  - intros k (K1 & K2). unfold sqm_el, hidx. cbn [sml smk stl sth]. destruct (Nat.leb_spec k ml); [apply nth_error_repeat; lia|].
    assert (B : mk / k < mk / ml + 1) by (pose proof (Nat.div_le_compat_l mk ml k ltac:(lia)); lia). unfold vresize. rewrite firstn_nil. cbn [app length]. apply nth_error_repeat. lia.
Qed.
Lemma hidx_lt ml mk k : 0 < ml -> ml < k -> mk / k < mk / ml + 1.
Proof. intros. pose proof (Nat.div_le_compat_l mk ml k ltac:(lia)). lia. Qed.
Lemma rep_index ml mk s f k : rep ml mk s f -> skey ml mk k -> exists s', sqm_index s k = Some (f k, s') /\ rep ml mk s' f.
Proof.
  intros (S & R) K. pose proof (R k K) as E. destruct S as (S0 & S1 & S2 & S3 & S4 & S5 & S6). unfold sqm_index, sqm_el in *. rewrite S1 in *. destruct (Nat.leb_spec k ml) as [C|C].
  - destruct (set_nth_some (scl s) k 1) as (c & Ec); [lia|]. rewrite Ec. cbn [obind]. rewrite E. cbn [obind]. eexists. split; [reflexivity|]. split; [|intros j J; specialize (R j J); unfold sqm_el; cbn [put_cl sml]; rewrite S1; exact R]. repeat split; auto. cbn [put_cl scl]. rewrite (set_nth_length _ _ _ _ Ec). exact S3.
  - destruct (set_nth_some (sch s) (hidx s k) 1) as (c & Ec); [unfold hidx; rewrite S2, S5; now apply hidx_lt|]. rewrite Ec. cbn [obind]. rewrite E. cbn [obind]. eexists. split; [reflexivity|]. split; [|intros j J; specialize (R j J); unfold sqm_el; cbn [put_ch sml]; rewrite S1; exact R]. repeat split; auto. cbn [put_ch sch]. rewrite (set_nth_length _ _ _ _ Ec). exact S5.
Qed.
Lemma rep_low ml mk s f k v : rep ml mk s f -> 1 <= k <= ml -> sqm_lo s k = Some (f k) /\ exists s', sqm_lo_set s k v = Some s' /\ rep ml mk s' (fput f k v).
Proof.
  intros (S & R) K. assert (KK : skey ml mk k) by (split; [lia|left; lia]). pose proof (R k KK) as E. pose proof S as (S0 & S1 & S2 & S3 & S4 & S5 & S6). unfold sqm_el in E. rewrite S1 in E. destruct (Nat.leb_spec k ml); [|lia]. split; [exact E|].
  unfold sqm_lo_set. destruct (set_nth_some (stl s) k v) as (t & Et); [lia|]. rewrite Et. cbn [obind]. eexists. split; [reflexivity|]. split; [repeat split; auto; cbn [put_tl stl]; rewrite (set_nth_length _ _ _ _ Et); exact S4|].
  intros j J. specialize (R j J). unfold sqm_el in *. cbn [put_tl sml stl sth]. change (hidx (put_tl s t) j) with (hidx s j). rewrite S1 in *. unfold fput. destruct (Nat.leb_spec j ml).
  - rewrite (set_nth_get _ _ _ _ j Et), Nat.eqb_sym. destruct (j =? k); [reflexivity|exact R].
  - destruct (Nat.eqb_spec j k); [lia|exact R].
Qed.
Lemma rep_high ml mk s f k v : rep ml mk s f -> skey ml mk k -> ml < k -> sqm_hi s (mk / k) = Some (f k) /\ exists s', sqm_hi_set s (mk / k) v = Some s' /\ rep ml mk s' (fput f k v).
Proof.
  intros (S & R) KK K. pose proof (R k KK) as E. pose proof S as (S0 & S1 & S2 & S3 & S4 & S5 & S6). unfold sqm_el in E. rewrite S1 in E. destruct (Nat.leb_spec k ml); [lia|]. unfold hidx in E. rewrite S2 in E. split; [exact E|].
  unfold sqm_hi_set. destruct (set_nth_some (sth s) (mk / k) v) as (t & Et); [rewrite S6; now apply hidx_lt|]. rewrite Et. cbn [obind]. eexists. split; [reflexivity|]. split; [repeat split; auto; cbn [put_th sth]; rewrite (set_nth_length _ _ _ _ Et); exact S6|].
  intros j J. specialize (R j J). unfold sqm_el in *. cbn [put_th sml stl sth]. change (hidx (put_th s t) j) with (hidx s j). unfold hidx in *. rewrite S1, S2 in *. unfold fput. destruct (Nat.leb_spec j ml).
  - destruct (Nat.eqb_spec j k); [lia|exact R].
  - rewrite (set_nth_get _ _ _ _ (mk / j) Et). destruct (Nat.eqb_spec (mk / k) (mk / j)) as [Q|Q].
    + assert (k = j) by (apply (quot_inj mk k j ml); [lia|lia|apply KK|apply J|exact Q]). subst j. rewrite Nat.eqb_refl. reflexivity.
    + destruct (Nat.eqb_spec j k) as [->|]; [congruence|exact R].
Qed.
Lemma rep_put ml mk s f k v : rep ml mk s f -> skey ml mk k -> exists s', sqm_put s k v = Some s' /\ rep ml mk s' (fput f k v).
Proof.
  intros R K. unfold sqm_put. destruct (rep_index ml mk s f k R K) as (s1 & E & R1). rewrite E. cbn [obind]. pose proof R1 as ((S0 & S1 & S2 & _) & _). unfold sqm_el_set. rewrite S1. destruct (Nat.leb_spec k ml) as [C|C].
  - destruct (rep_low ml mk s1 f k v R1) as (_ & X); [destruct K; lia|]. exact X.
  - destruct (rep_high ml mk s1 f k v R1 K C) as (_ & X). unfold hidx. rewrite S2. exact X.
Qed.
Lemma rep_el ml mk s f k : rep ml mk s f -> skey ml mk k -> sqm_el s k = Some (f k).
Proof. intros (_ & R). apply R. Qed.
End Rep.

Lemma div_div_id n k : 1 <= k -> k * k <= n -> n / (n / k) = k.
Proof.
  intros K H. assert (A : k <= n / k) by (apply Nat.div_le_lower_bound; lia). pose proof (Nat.mul_div_le n k ltac:(lia)) as B. pose proof (Nat.mul_succ_div_gt n k ltac:(lia)) as C. symmetry. apply (Nat.div_unique n (n / k) k (n - n / k * k)); nia.
Qed.
Lemma div_div_id2 n k : 1 <= k <= n -> n / (n / (n / k)) = n / k.
Proof.
  intros K. assert (A : 1 <= n / k) by (apply Nat.div_le_lower_bound; lia). pose proof (Nat.mul_div_le n k ltac:(lia)) as B. assert (C : k <= n / (n / k)) by (apply Nat.div_le_lower_bound; nia). pose proof (Nat.mul_div_le n (n / k) ltac:(lia)) as D. apply Nat.le_antisymm.
  - apply Nat.div_le_compat_l. lia.
  - apply Nat.div_le_lower_bound; nia.
Qed.

Section Pps.
Context {T : Type} (zero one : T) (add mul sub : T -> T -> T) (opp : T -> T) (eqb : T -> T -> bool).
Hypothesis Rth : ring_theory zero one add mul sub opp (@eq T).
Hypothesis Eqb : forall x y, eqb x y = true <-> x = y.
Add Ring Tr2 : Rth.
Variables (root : nat -> option nat) (mk0 z n : nat) (spow : nat -> option T).
Notation g := (fun k => rpow one mul (rnat zero one add k) z).
Hypothesis N1 : 1 <= n.
Hypothesis Root : root n = Some (Nat.sqrt n).
Hypothesis Spow : forall i, 1 <= i <= n -> spow i = Some (total zero add g i).
Notation q := (Nat.sqrt n + 1).
Notation F := (sieved zero add g).
Notation Rep := (rep (q - 1) n).

Lemma q_facts : 2 <= q /\ (q - 1) * (q - 1) <= n /\ n < q * q.
Proof. pose proof (Nat.sqrt_spec n ltac:(lia)). assert (1 <= Nat.sqrt n) by (apply Nat.sqrt_le_square; lia). cbn in *. lia. Qed.
Lemma key_low i : 1 <= i < q -> skey (q - 1) n i. Proof. intros. split; [lia|]. left. lia. Qed.
Lemma key_quot k : 1 <= k <= n -> skey (q - 1) n (n / k).
Proof. intros. split; [apply Nat.div_le_lower_bound; lia|]. right. exists k. split; [lia|reflexivity]. Qed.
Lemma key_cases v : skey (q - 1) n v -> (1 <= v < q) \/ (q <= v /\ 1 <= n / v <= n / q /\ n / (n / v) = v /\ v <= n).
Proof.
  pose proof q_facts as (Q1 & Q2 & Q3). intros (V & [H|(j & J & ->)]); [left; lia|]. destruct (Nat.lt_ge_cases (n / j) q) as [C|C]; [left; lia|right]. split; [exact C|]. assert (JN : j <= n) by (destruct (Nat.lt_ge_cases n j); [rewrite Nat.div_small in C by lia; lia|lia]). assert (VN : n / j <= n) by (apply Nat.div_le_upper_bound; nia).
  split; [split; [apply Nat.div_le_lower_bound; lia|apply Nat.div_le_compat_l; lia]|]. split; [apply div_div_id2; lia|exact VN].
Qed.
Lemma high_key k : 1 <= k <= n / q -> skey (q - 1) n (n / k) /\ q <= n / k /\ n / (n / k) = k /\ k * q <= n /\ n / k <= n.
Proof.
  pose proof q_facts as (Q1 & Q2 & Q3). intros K. assert (KQ : k * q <= n) by (pose proof (Nat.mul_div_le n q ltac:(lia)); nia). assert (KK : k < q) by nia.
  split; [apply key_quot; nia|]. split; [apply Nat.div_le_lower_bound; nia|]. split; [apply div_div_id; nia|]. split; [exact KQ|]. apply Nat.div_le_upper_bound; nia.
Qed.

Lemma g_mul a b : g (a * b) = mul (g a) (g b).
Proof. cbn beta. rewrite <- (rpow_mul_l zero one add mul sub opp Rth). f_equal. induction a as [|a IH]; cbn [Nat.mul rnat]; [ring|]. rewrite (rnat_add zero one add mul sub opp Rth), IH. ring. Qed.
Lemma npow_rpow x m : npow mul one x m = rpow one mul x m.
Proof. induction m as [|m IH]; cbn [npow rpow]; [reflexivity|]. rewrite IH. ring. Qed.
Lemma g_one : g 1 = one.
Proof. cbn beta. replace (rnat zero one add 1) with one by (cbn; ring). apply (rpow_1 zero one add mul sub opp Rth). Qed.
Lemma sieved_scale c v p : sieved zero add (fun m => mul c (g m)) v p = mul c (F v p).
Proof. unfold sieved. rewrite <- (rsum_mul_l zero one add mul sub opp Rth). apply rsum_ext'. intros k K. destruct (left_at p k); [reflexivity|ring]. Qed.
Lemma F_step v p : is_prime p -> p * p <= v -> F v (S p) = sub (F v p) (mul (sub (F (v / p) p) (F (p - 1) p)) (g p)).
Proof.
  intros P V. rewrite (sieved_step zero one add mul sub opp Rth g (fun m => mul (g p) (g m)) v p P V) by (intros; apply g_mul). rewrite !sieved_scale. ring.
Qed.

Lemma init_run s : Rep s (fun _ => zero) -> exists s', pps_init one sub spow n q s = Some s' /\ Rep s' (fun v => F v 2).
Proof.
  intros R. pose proof q_facts as (Q1 & Q2 & Q3). unfold pps_init.
  assert (S1 : forall i, 1 <= i <= n -> spow i = Some (total zero add g i) /\ sub (total zero add g i) one = F i 2).
  { intros i I. split; [now apply Spow|]. rewrite <- (sieved_first zero one add mul sub opp Rth g i) by lia. rewrite g_one. ring. }
  assert (QN : q - 1 <= n) by nia.
  destruct (for_range_spec (fun k s => Rep s (fun v => if v <? k then F v 2 else zero)) (fun i s => let* t := spow i in sqm_put s i (sub t one)) 1 q s) as (s1 & -> & R1).
  - lia.
  - eapply rep_ext; [exact R|]. intros v (V & _). cbn beta. destruct (Nat.ltb_spec v 1); [lia|reflexivity].
  - intros i s1 I R1. destruct (S1 i) as (-> & E); [lia|]. cbn [obind]. rewrite E. destruct (rep_put (q - 1) n s1 _ i (F i 2) R1 (key_low i ltac:(lia))) as (s2 & E2 & R2). exists s2. split; [exact E2|]. eapply rep_ext; [exact R2|]. intros v _. cbn beta. unfold fput. destruct (Nat.eqb_spec v i) as [EV|N]; [rewrite EV|]; repeat match goal with |- context [?a <? ?b] => destruct (Nat.ltb_spec a b) end; try lia; reflexivity.
  - cbn [obind]. destruct (for_down_spec (fun k s => Rep s (fun v => if (v <? q) || (k <=? n / v) then F v 2 else zero)) (fun k s => let i := n / k in let* t := spow i in sqm_put s i (sub t one)) 1 (n / q + 1) s1) as (s2 & E2 & R2).
    + lia.
    + eapply rep_ext; [exact R1|]. intros v K. cbn beta. destruct (Nat.ltb_spec v q); [reflexivity|]. cbn [orb]. destruct (key_cases v K) as [|(A & B & _)]; [lia|]. destruct (Nat.leb_spec (n / q + 1) (n / v)); [lia|reflexivity].
    + intros k s2 K R2. destruct (high_key k ltac:(lia)) as (H1 & H2 & H3 & H4 & H5). cbv zeta. destruct (S1 (n / k)) as (-> & E); [lia|]. cbn [obind]. rewrite E. destruct (rep_put (q - 1) n s2 _ (n / k) (F (n / k) 2) R2 H1) as (s3 & E3 & R3). exists s3. split; [exact E3|]. eapply rep_ext; [exact R3|]. intros v V. cbn beta. unfold fput. destruct (Nat.eqb_spec v (n / k)) as [->|N].
      * rewrite H3, Nat.leb_refl, orb_true_r. reflexivity.
      * destruct (Nat.ltb_spec v q); [reflexivity|]. cbn [orb]. destruct (key_cases v V) as [|(A & B & C & D)]; [lia|]. destruct (Nat.leb_spec (S k) (n / v)), (Nat.leb_spec k (n / v)); try lia; try reflexivity. exfalso. apply N. rewrite <- C. f_equal. lia.
    + exists s2. split; [exact E2|]. eapply rep_ext; [exact R2|]. intros v V. cbn beta. destruct (key_cases v V) as [A|(A & B & _)]; [destruct (Nat.ltb_spec v q); [reflexivity|lia]|]. destruct (Nat.leb_spec 1 (n / v)); [|lia]. now rewrite orb_true_r.
Qed.
Lemma round_run p s : 2 <= p < q -> Rep s (fun v => F v p) -> exists s', pps_round zero one add mul sub eqb z n q p s = Some s' /\ Rep s' (fun v => F v (S p)).
Proof.
  intros P R. pose proof q_facts as (Q1 & Q2 & Q3). unfold pps_round.
  destruct (rep_index (q - 1) n s _ (p - 1) R (key_low (p - 1) ltac:(lia))) as (s1 & -> & R1). cbn [obind]. destruct (rep_index (q - 1) n s1 _ p R1 (key_low p ltac:(lia))) as (s2 & -> & R2). cbn [obind].
  pose proof (sieved_diff zero add g p ltac:(lia)) as D.
  destruct (eqb (F (p - 1) p) (F p p)) eqn:E.
  - exists s2. split; [reflexivity|]. apply Eqb in E. eapply rep_ext; [exact R2|]. intros v V. cbn beta. symmetry. destruct (primeb p) eqn:PB.
    + apply primeb_spec in PB. assert (Z : g p = zero) by (rewrite <- E in D; transitivity (sub (add (F (p - 1) p) (g p)) (F (p - 1) p)); [ring|]; rewrite <- D; ring). destruct (Nat.lt_ge_cases v (p * p)); [apply sieved_small; lia|]. rewrite F_step by assumption. rewrite Z. ring.
    + apply sieved_skip; [lia|]. intros X. apply primeb_spec in X. congruence.
  - assert (PP : is_prime p). { apply primeb_spec. destruct (primeb p); [reflexivity|]. assert (X : eqb (F (p - 1) p) (F p p) = true) by (apply Eqb; rewrite D; ring). congruence. }
    destruct (rep_index (q - 1) n s2 _ (p - 1) R2 (key_low (p - 1) ltac:(lia))) as (s3 & -> & R3). cbn [obind]. cbv zeta. rewrite (powT_npow mul one) by (try (intros; ring); lia). cbn [obind].
    assert (PZ : npow mul one (rnat zero one add p) (Z.to_nat (Z.of_nat z)) = g p). { rewrite Nat2Z.id. cbn beta. apply npow_rpow. }
    rewrite PZ. set (km := Nat.min (n / q) (n / (p * p))).
    destruct (for_range_spec (fun k s => Rep s (fun v => if (q <=? v) && (n / v <? k) then F v (S p) else F v p))
      (fun k s => let* x := sqm_el s (n / (k * p)) in let* y := sqm_hi s k in sqm_hi_set s k (sub y (mul (sub x (F (p - 1) p)) (g p)))) 1 (km + 1) s3) as (s4 & E4 & R4).
    + lia.
    + eapply rep_ext; [exact R3|]. intros v V. cbn beta. destruct (key_cases v V) as [A|(A & B & _)]; [destruct (Nat.leb_spec q v); [lia|reflexivity]|]. destruct (Nat.ltb_spec (n / v) 1); [lia|]. now rewrite andb_false_r.
    + intros k s4 K R4. assert (K1 : k <= n / q) by (unfold km in K; lia). assert (K2 : k <= n / (p * p)) by (unfold km in K; lia). destruct (high_key k ltac:(lia)) as (H1 & H2 & H3 & H4 & H5).
      assert (KP : k * (p * p) <= n) by (pose proof (Nat.mul_div_le n (p * p) ltac:(clear - P; nia)) as X; clear - X K2; set (w := p * p) in *; set (y := n / w) in *; nia). assert (KN : k * p <= n) by nia.
      rewrite (rep_el _ _ _ _ _ R4 (key_quot (k * p) ltac:(nia))). cbn [obind].
      destruct (rep_high (q - 1) n s4 _ (n / k) (sub (F (n / k) p) (mul (sub (F (n / (k * p)) p) (F (p - 1) p)) (g p))) R4 H1 ltac:(lia)) as (X1 & s5 & E5 & R5). rewrite H3 in X1, E5. rewrite X1. cbn [obind].
      assert (XK : (if (q <=? n / k) && (k <? k) then F (n / k) (S p) else F (n / k) p) = F (n / k) p) by (rewrite Nat.ltb_irrefl, andb_false_r; reflexivity). rewrite XK.
      assert (XJ : (if (q <=? n / (k * p)) && (n / (n / (k * p)) <? k) then F (n / (k * p)) (S p) else F (n / (k * p)) p) = F (n / (k * p)) p).
      { destruct (Nat.leb_spec q (n / (k * p))); [|reflexivity]. cbn [andb]. assert (k * p <= n / (n / (k * p))). { apply Nat.div_le_lower_bound; [lia|]. pose proof (Nat.mul_div_le n (k * p) ltac:(nia)). lia. } destruct (Nat.ltb_spec (n / (n / (k * p))) k); [nia|reflexivity]. }
      rewrite XJ. exists s5. split; [exact E5|]. eapply rep_ext; [exact R5|]. intros v V. cbn beta. unfold fput. destruct (Nat.eqb_spec v (n / k)) as [->|N].
      * rewrite H3. replace (q <=? n / k) with true by (symmetry; now apply Nat.leb_le). replace (k <? S k) with true by (symmetry; apply Nat.ltb_lt; lia). cbn [andb]. rewrite (F_step (n / k) p PP) by (apply Nat.div_le_lower_bound; lia). rewrite Nat.div_div by lia. reflexivity.
      * destruct (key_cases v V) as [A|(A & B & C & _)]; [destruct (Nat.leb_spec q v); [lia|reflexivity]|]. replace (n / v <? S k) with (n / v <? k); [reflexivity|]. destruct (Nat.ltb_spec (n / v) k), (Nat.ltb_spec (n / v) (S k)); try lia; try reflexivity. exfalso. apply N. rewrite <- C. f_equal. lia.
    + rewrite E4. cbn [obind].
      assert (R4' : Rep s4 (fun v => if q <=? v then F v (S p) else F v p)).
      { eapply rep_ext; [exact R4|]. intros v V. cbn beta. destruct (key_cases v V) as [A|(A & B & C & _)]; [destruct (Nat.leb_spec q v); [lia|reflexivity]|]. destruct (Nat.leb_spec q v); [|lia]. cbn [andb]. destruct (Nat.ltb_spec (n / v) (km + 1)) as [|L]; [reflexivity|]. symmetry. apply sieved_small; [lia|]. destruct (Nat.lt_ge_cases v (p * p)) as [|G]; [assumption|]. exfalso. assert (n / v <= n / (p * p)) by (apply Nat.div_le_compat_l; nia). unfold km in L. lia. }
      destruct (Nat.le_gt_cases (p * p) q) as [PQ|PQ].
      * destruct (for_down_spec (fun i s => Rep s (fun v => if i <=? v then F v (S p) else F v p))
          (fun i s => let* x := sqm_lo s (i / p) in let* y := sqm_lo s i in sqm_lo_set s i (sub y (mul (sub x (F (p - 1) p)) (g p)))) (p * p) q s4 PQ R4') as (s5 & E5 & R5).
        -- intros i s5 I R5. assert (IP : 1 <= i / p < i) by (split; [apply Nat.div_le_lower_bound; nia|apply Nat.div_lt; nia]).
           destruct (rep_low (q - 1) n s5 _ (i / p) zero R5 ltac:(lia)) as (-> & _). cbn [obind]. destruct (rep_low (q - 1) n s5 _ i (sub (F i p) (mul (sub (F (i / p) p) (F (p - 1) p)) (g p))) R5 ltac:(lia)) as (-> & s6 & E6 & R6). cbn [obind].
           destruct (Nat.leb_spec (S i) i); [lia|]. destruct (Nat.leb_spec (S i) (i / p)); [lia|]. exists s6. split; [exact E6|]. eapply rep_ext; [exact R6|]. intros v V. cbn beta. unfold fput. destruct (Nat.eqb_spec v i) as [->|N].
           ++ rewrite Nat.leb_refl. symmetry. apply F_step; [exact PP|lia].
           ++ destruct (Nat.leb_spec (S i) v), (Nat.leb_spec i v); try lia; reflexivity.
        -- exists s5. split; [exact E5|]. eapply rep_ext; [exact R5|]. intros v V. cbn beta. destruct (Nat.leb_spec (p * p) v); [reflexivity|]. symmetry. apply sieved_small; lia.
      * unfold for_down. replace (q - p * p) with 0 by lia. cbn [for_dn]. exists s4. split; [reflexivity|]. eapply rep_ext; [exact R4'|]. intros v V. cbn beta. destruct (Nat.leb_spec q v); [reflexivity|]. symmetry. apply sieved_small; lia.
Qed.
Theorem pps_run : exists s, prime_power_sum_sqrt zero one add mul sub eqb root mk0 z spow n = Some s /\ Rep s (prime_total zero add g).
Proof.
  pose proof q_facts as (Q1 & Q2 & Q3). unfold prime_power_sum_sqrt. rewrite Root. cbn [obind]. destruct (rep_new zero (q - 1) n mk0) as (s0 & -> & R0); [lia|]. cbn [obind]. destruct (init_run s0 R0) as (s1 & -> & R1). cbn [obind].
  destruct (for_range_spec (fun p s => Rep s (fun v => F v p)) (fun p s => pps_round zero one add mul sub eqb z n q p s) 2 q s1 ltac:(lia) R1) as (s2 & E2 & R2); [intros p s P R; now apply round_run|].
  exists s2. split; [exact E2|]. eapply rep_ext; [exact R2|]. intros v V. cbn beta. apply sieved_last; [lia|]. destruct (key_cases v V) as [|(_ & _ & _ & X)]; nia.
Qed.
End Pps.
