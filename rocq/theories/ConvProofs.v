From Coq Require Import Ring Ring_theory.
From Verif Require Import Lib RingSpec RingProofs ConvModel ConvSpec.
Open Scope nat_scope.

(** * bits of naturals *)
Notation tb := Nat.testbit.
Lemma tb_high x L b : x < 2 ^ L -> L <= b -> tb x b = false.
Proof.
  intros Hx Hb. destruct (Nat.eq_dec x 0) as [->|Nx]; [apply Nat.bits_0|]. apply Nat.bits_above_log2. apply Nat.log2_lt_pow2; [lia|].
  apply Nat.lt_le_trans with (1 := Hx). apply Nat.pow_le_mono_r; lia.
Qed.
Lemma tb_inj x y L : x < 2 ^ L -> y < 2 ^ L -> (forall b, b < L -> tb x b = tb y b) -> x = y.
Proof. intros Hx Hy H. apply Nat.bits_inj. intros b. destruct (Nat.lt_ge_cases b L); [apply H; lia|]. rewrite !(tb_high _ L) by lia. reflexivity. Qed.
Lemma tb_bound x L : (forall b, L <= b -> tb x b = false) -> x < 2 ^ L.
Proof.
  intros H. assert (E : x mod 2 ^ L = x).
  { apply Nat.bits_inj. intros b. destruct (Nat.lt_ge_cases b L); [apply Nat.mod_pow2_bits_low; lia|]. rewrite Nat.mod_pow2_bits_high, H by lia. reflexivity. }
  rewrite <- E. apply Nat.mod_upper_bound. apply Nat.pow_nonzero. lia.
Qed.
Definition sb (x l : nat) (c : bool) : nat := if c then Nat.setbit x l else Nat.clearbit x l.
Lemma sb_tb x l c b : tb (sb x l c) b = if b =? l then c else tb x b.
Proof.
  unfold sb. destruct c; [rewrite Nat.setbit_eqb|rewrite Nat.clearbit_eqb]; rewrite (Nat.eqb_sym l b); destruct (b =? l); cbn; rewrite ?andb_true_r, ?andb_false_r; reflexivity.
Qed.
Lemma sb_lt x l c L : x < 2 ^ L -> l < L -> sb x l c < 2 ^ L.
Proof. intros Hx Hl. apply tb_bound. intros b Hb. rewrite sb_tb. destruct (Nat.eqb_spec b l); [lia|]. apply (tb_high _ L); lia. Qed.
Lemma sb_same x l : sb x l (tb x l) = x.
Proof. apply Nat.bits_inj. intros b. rewrite sb_tb. destruct (Nat.eqb_spec b l) as [->|]; reflexivity. Qed.
Lemma pow2_tb l b : tb (2 ^ l) b = (b =? l).
Proof. rewrite Nat.pow2_bits_eqb, Nat.eqb_sym. reflexivity. Qed.
Lemma sb_lxor x l : sb x l (negb (tb x l)) = Nat.lxor x (2 ^ l).
Proof. apply Nat.bits_inj. intros b. rewrite sb_tb, Nat.lxor_spec, pow2_tb. destruct (Nat.eqb_spec b l) as [->|]; [destruct (tb x l); reflexivity|rewrite xorb_false_r; reflexivity]. Qed.
Lemma sb_true x l : tb x l = false -> sb x l true = x + 2 ^ l.
Proof.
  intros H. rewrite Nat.add_nocarry_lxor; [|apply Nat.bits_inj; intros b; rewrite Nat.land_spec, pow2_tb, Nat.bits_0; destruct (Nat.eqb_spec b l) as [->|]; [rewrite H; reflexivity|apply andb_false_r]].
  rewrite <- sb_lxor, H. reflexivity.
Qed.
Lemma land_pow2 x l : (Nat.land x (2 ^ l) =? 0) = negb (tb x l).
Proof.
  destruct (tb x l) eqn:E; cbn [negb].
  - apply Nat.eqb_neq. intros H. apply (f_equal (fun z => tb z l)) in H. rewrite Nat.land_spec, pow2_tb, Nat.eqb_refl, E, Nat.bits_0 in H. discriminate.
  - apply Nat.eqb_eq. apply Nat.bits_inj. intros b. rewrite Nat.land_spec, pow2_tb, Nat.bits_0. destruct (Nat.eqb_spec b l) as [->|]; [rewrite E; reflexivity|apply andb_false_r].
Qed.
Lemma pow2_pos L : 1 <= 2 ^ L.
Proof. pose proof (Nat.pow_nonzero 2 L). lia. Qed.

Section Arr.
  Context {T : Type}.
  Lemma arr_ext n (l : list T) F G : arr n l F -> (forall k, k < n -> F k = G k) -> arr n l G.
  Proof. intros (L & H) E. split; [exact L|]. intros k Hk. rewrite H, E by exact Hk. reflexivity. Qed.
  Lemma arr_inj n (l l' : list T) F : arr n l F -> arr n l' F -> l = l'.
  Proof.
    intros (L & H) (L' & H'). apply list_ext. intros k. destruct (Nat.ltb_spec k n); [rewrite H, H' by lia; reflexivity|].
    transitivity (@None T); [|symmetry]; apply nth_error_None; lia.
  Qed.
  Lemma arr_set n (l : list T) F k v : arr n l F -> k < n -> exists l', set_nth l k v = Some l' /\ arr n l' (fun x => if x =? k then v else F x).
  Proof.
    intros (L & H) Hk. destruct (set_nth_some l k v) as (l' & E); [lia|]. exists l'. split; [exact E|]. split; [rewrite (set_nth_length _ _ _ _ E); exact L|].
    intros x Hx. rewrite (set_nth_get _ _ _ _ x E), Nat.eqb_sym. destruct (x =? k); [reflexivity|]. apply H. exact Hx.
  Qed.
  Lemma arr_nth d (l : list T) : arr (length l) l (fun k => nth k l d).
  Proof. split; [reflexivity|]. intros k Hk. apply nth_error_nth'. exact Hk. Qed.
  Lemma arr_rev n (l : list T) F : arr n l F -> exists l', areverse n l = Some l' /\ arr n l' (fun k => F (n - 1 - k)).
  Proof.
    intros (L & H). unfold areverse. replace (n <=? length l) with true by (symmetry; apply Nat.leb_le; lia). cbn [guard obind]. eexists. split; [reflexivity|].
    rewrite firstn_all2, skipn_all2, app_nil_r by lia. split; [rewrite rev_length; exact L|]. intros k Hk.
    destruct n as [|n]; [lia|]. set (d := F 0). rewrite (nth_error_nth' _ d) by (rewrite rev_length; lia). rewrite rev_nth by lia.
    f_equal. apply nth_error_nth. rewrite H by lia. f_equal. f_equal. lia.
  Qed.
End Arr.

(** * the stage at bit l *)
Section Stage.
  Context {T : Type}.
  Variable tr : T -> T -> T * T.
  Definition stagef (l : nat) (F : nat -> T) (x : nat) : T := let p := tr (F (sb x l false)) (F (sb x l true)) in if tb x l then snd p else fst p.

  Lemma dif_pair_spec n f F k l : arr n f F -> tb k l = false -> k + 2 ^ l < n ->
    exists f', dif_pair tr k (k + 2 ^ l) f = Some f' /\ arr n f' (fun x => if (x =? k) || (x =? k + 2 ^ l) then stagef l F x else F x).
  Proof.
    intros Hf Hk Hn. unfold dif_pair. pose proof (pow2_pos l). destruct Hf as (Lf & Vf). rewrite !Vf by lia. cbn [obind]. destruct (tr (F k) (F (k + 2 ^ l))) as [u v] eqn:Etr.
    destruct (arr_set n f F k u (conj Lf Vf)) as (f1 & E1 & A1); [lia|]. rewrite E1. cbn [obind]. destruct (arr_set n f1 _ (k + 2 ^ l) v A1) as (f2 & E2 & A2); [lia|]. exists f2. split; [exact E2|].
    apply arr_ext with (1 := A2). intros x Hx. rewrite <- (sb_true k l Hk) in *. set (k2 := sb k l true) in *.
    assert (S0 : sb k l false = k) by (rewrite <- Hk at 1; apply sb_same). assert (B2 : tb k2 l = true) by (unfold k2; rewrite sb_tb, Nat.eqb_refl; reflexivity).
    assert (S1 : sb k2 l false = k). { rewrite <- S0. apply Nat.bits_inj. intros b. unfold k2. rewrite !sb_tb. destruct (b =? l); reflexivity. }
    assert (S2 : sb k2 l true = k2) by (rewrite <- B2 at 1; apply sb_same).
    unfold stagef. destruct (Nat.eqb_spec x k2) as [->|N2].
    - rewrite orb_true_r. rewrite B2, S1, S2, Etr. reflexivity.
    - rewrite orb_false_r. destruct (Nat.eqb_spec x k) as [->|N1]; [|reflexivity]. rewrite Hk, S0. fold k2. rewrite Etr. reflexivity.
  Qed.

  Lemma block_bits l b j : j < 2 ^ l -> tb (b * 2 ^ (l + 1) + j) l = false.
  Proof.
    intros Hj. rewrite Nat.testbit_eqb. replace ((b * 2 ^ (l + 1) + j) / 2 ^ l) with (b * 2).
    - rewrite Nat.mod_mul by lia. reflexivity.
    - replace (b * 2 ^ (l + 1) + j) with (b * 2 * 2 ^ l + j) by (rewrite Nat.pow_add_r; cbn [Nat.pow]; lia).
      rewrite Nat.div_add_l by (pose proof (pow2_pos l); lia). rewrite Nat.div_small by exact Hj. lia.
  Qed.

  (** position x belongs to block [blk l x] with offset [off l x] inside the half block *)
  Definition blk l x := x / 2 ^ (l + 1).
  Definition off l x := x mod 2 ^ l.
  Lemma blk_off l b j x : j < 2 ^ l -> (x =? b * 2 ^ (l + 1) + j) || (x =? b * 2 ^ (l + 1) + j + 2 ^ l) = (blk l x =? b) && (off l x =? j).
  Proof.
    intros Hj. unfold blk, off. pose proof (pow2_pos l). assert (P : 2 ^ (l + 1) = 2 * 2 ^ l) by (rewrite Nat.pow_add_r; cbn [Nat.pow]; lia). rewrite P.
    set (h := 2 ^ l) in *. clearbody h. clear P. apply eq_true_iff_eq. rewrite orb_true_iff, andb_true_iff, !Nat.eqb_eq. split.
    - intros [-> | ->].
      + split; [symmetry; apply (Nat.div_unique _ _ _ j); lia|symmetry; apply (Nat.mod_unique _ _ (2 * b)); lia].
      + split; [symmetry; apply (Nat.div_unique _ _ _ (j + h)); lia|symmetry; apply (Nat.mod_unique _ _ (2 * b + 1)); lia].
    - intros (E1 & E2). pose proof (Nat.div_mod x (2 * h)). pose proof (Nat.mod_upper_bound x (2 * h)). rewrite E1 in *. pose proof (Nat.mod_mul_r x h 2). rewrite (Nat.mul_comm h 2), E2 in *.
      pose proof (Nat.mod_upper_bound (x / h) 2). assert ((x / h) mod 2 = 0 \/ (x / h) mod 2 = 1) as [Q|Q] by lia; rewrite Q in *; lia.
  Qed.

  Lemma stage_spec L l f F : l < L -> arr (2 ^ L) f F -> exists f',
    for_range 0 (2 ^ (L - (l + 1))) (fun b f => for_range 0 (2 ^ l) (fun j f => dif_pair tr (b * 2 ^ (l + 1) + j) (b * 2 ^ (l + 1) + 2 ^ l + j) f) f) f = Some f' /\ arr (2 ^ L) f' (stagef l F).
  Proof.
    intros Hl Hf. set (B := 2 ^ (L - (l + 1))).
    assert (PL : B * 2 ^ (l + 1) = 2 ^ L) by (unfold B; rewrite <- Nat.pow_add_r; f_equal; lia).
    assert (P1 : 2 ^ (l + 1) = 2 * 2 ^ l) by (rewrite Nat.pow_add_r; cbn [Nat.pow]; lia).
    assert (PS : forall b j x, j < 2 ^ l -> blk l x = b -> off l x = j -> blk l (sb x l false) = b /\ off l (sb x l false) = j /\ blk l (sb x l true) = b /\ off l (sb x l true) = j).
    { intros b j x Hj Hb Ho. unfold blk, off in *.
      assert (K : forall c, sb x l c / 2 ^ (l + 1) = b /\ sb x l c mod 2 ^ l = j).
      { intros c. split.
        - rewrite <- Hb. apply Nat.bits_inj. intros i. rewrite !Nat.div_pow2_bits, sb_tb. destruct (Nat.eqb_spec (i + (l + 1)) l); [lia|reflexivity].
        - rewrite <- Ho. apply Nat.bits_inj. intros i. destruct (Nat.lt_ge_cases i l); [rewrite !Nat.mod_pow2_bits_low, sb_tb by lia; destruct (Nat.eqb_spec i l); [lia|reflexivity]|].
          rewrite !Nat.mod_pow2_bits_high by lia. reflexivity. }
      destruct (K false), (K true). auto. }
    destruct (for_range_spec (fun b f => arr (2 ^ L) f (fun x => if blk l x <? b then stagef l F x else F x))
      (fun b f => for_range 0 (2 ^ l) (fun j f => dif_pair tr (b * 2 ^ (l + 1) + j) (b * 2 ^ (l + 1) + 2 ^ l + j) f) f) 0 B f) as (f' & E & H).
    - lia.
    - exact Hf.
    - intros b t Hb Ht.
      destruct (for_range_spec (fun j f => arr (2 ^ L) f (fun x => if (blk l x <? b) || ((blk l x =? b) && (off l x <? j)) then stagef l F x else F x))
        (fun j f => dif_pair tr (b * 2 ^ (l + 1) + j) (b * 2 ^ (l + 1) + 2 ^ l + j) f) 0 (2 ^ l) t) as (t' & E' & H').
      + lia.
      + apply arr_ext with (1 := Ht). intros x _. replace (off l x <? 0) with false by (symmetry; apply Nat.ltb_ge; lia). rewrite andb_false_r, orb_false_r. reflexivity.
      + intros j u Hj Hu. replace (b * 2 ^ (l + 1) + 2 ^ l + j) with (b * 2 ^ (l + 1) + j + 2 ^ l) by lia.
        destruct (dif_pair_spec (2 ^ L) u _ (b * 2 ^ (l + 1) + j) l Hu) as (u' & Eu & Hu').
        { apply block_bits. lia. }
        { rewrite <- PL. assert (b * 2 ^ (l + 1) + 2 ^ (l + 1) <= B * 2 ^ (l + 1)) by (pose proof (Nat.mul_le_mono_r (b + 1) B (2 ^ (l + 1))); lia). lia. }
        exists u'. split; [exact Eu|]. apply arr_ext with (1 := Hu'). intros x Hx. rewrite blk_off by lia.
        destruct (Nat.eqb_spec (blk l x) b) as [Eb|Nb]; cbn [andb].
        * rewrite Eb. rewrite Nat.ltb_irrefl. cbn [orb]. destruct (Nat.eqb_spec (off l x) j) as [Ej|Nj].
          -- rewrite Ej. replace (j <? S j) with true by (symmetry; apply Nat.ltb_lt; lia). unfold stagef. destruct (PS b j x) as (Q1 & Q2 & Q3 & Q4); [lia|exact Eb|exact Ej|].
             rewrite Q1, Q2, Q3, Q4, !Nat.ltb_irrefl, !andb_false_r. cbn [orb]. reflexivity.
          -- replace (off l x <? S j) with (off l x <? j); [reflexivity|]. destruct (Nat.ltb_spec (off l x) j), (Nat.ltb_spec (off l x) (S j)); try reflexivity; lia.
        * reflexivity.
      + exists t'. split; [exact E'|]. apply arr_ext with (1 := H'). intros x _. replace (off l x <? 2 ^ l) with true by (symmetry; apply Nat.ltb_lt; apply Nat.mod_upper_bound; pose proof (pow2_pos l); lia).
        rewrite andb_true_r. replace (blk l x <? S b) with ((blk l x <? b) || (blk l x =? b)); [reflexivity|].
        destruct (Nat.ltb_spec (blk l x) b), (Nat.eqb_spec (blk l x) b), (Nat.ltb_spec (blk l x) (S b)); try reflexivity; lia.
    - exists f'. split; [exact E|]. apply arr_ext with (1 := H). intros x Hx. replace (blk l x <? B) with true; [reflexivity|]. symmetry. apply Nat.ltb_lt. unfold blk.
      apply Nat.div_lt_upper_bound; [lia|]. rewrite Nat.mul_comm, PL. exact Hx.
  Qed.
End Stage.

(** * linear stages and product kernels *)
Section Kernel.
  Context {R : Type} (zero one : R) (add mul sub : R -> R -> R) (opp : R -> R).
  Hypothesis Rth : ring_theory zero one add mul sub opp (@eq R).
  Add Ring Rk : Rth.
  Local Notation rsum := (rsum zero add). Local Notation rprod := (rprod one mul).

  Lemma rprod_pull n f l : l < n -> rprod n f = mul (f l) (rprod n (fun b => if b =? l then one else f b)).
  Proof using Rth.
    induction n as [|n IH]; intros Hl; [lia|]. rewrite !rprod_S. destruct (Nat.eq_dec l n) as [->|N].
    - rewrite Nat.eqb_refl. rewrite (rprod_ext one mul n (fun b => if b =? n then one else f b) f); [ring|]. intros b Hb. destruct (Nat.eqb_spec b n); [lia|reflexivity].
    - rewrite IH by lia. destruct (Nat.eqb_spec n l); [lia|]. ring.
  Qed.
  (** sum over the cube of a product = product of the sums *)
  Lemma cube_sum L (g : nat -> bool -> R) : rsum (2 ^ L) (fun j => rprod L (fun b => g b (tb j b))) = rprod L (fun b => add (g b false) (g b true)).
  Proof using Rth.
    induction L as [|L IH].
    - cbn [Nat.pow]. rewrite rsum_S. cbn. ring.
    - replace (2 ^ S L) with (2 ^ L + 2 ^ L) by (cbn [Nat.pow]; lia). rewrite (rsum_split _ _ _ _ _ _ Rth). rewrite rprod_S, <- IH, <- (rsum_mul_r _ _ _ _ _ _ Rth), <- (rsum_add _ _ _ _ _ _ Rth).
      apply rsum_ext. intros j Hj. rewrite !rprod_S. rewrite (tb_high j L L) by lia.
      assert (E : 2 ^ L + j = sb j L true) by (rewrite sb_true by (apply (tb_high j L); lia); lia). rewrite E.
      rewrite (rprod_ext one mul L (fun b => g b (tb (sb j L true) b)) (fun b => g b (tb j b))).
      + rewrite sb_tb, Nat.eqb_refl. ring.
      + intros b Hb. rewrite sb_tb. destruct (Nat.eqb_spec b L); [lia|reflexivity].
  Qed.
  Definition ind (b : bool) : R := if b then one else zero.
  Lemma rprod_ind n f : rprod n (fun b => ind (f b)) = ind (forallb f (seq 0 n)).
  Proof using Rth.
    induction n as [|n IH]; [reflexivity|]. rewrite rprod_S, IH, seq_S, forallb_app. cbn [forallb plus]. rewrite andb_true_r. destruct (forallb f (seq 0 n)), (f n); cbn; ring.
  Qed.
  Lemma ind_eq_bits L k i : k < 2 ^ L -> i < 2 ^ L -> rprod L (fun b => ind (Bool.eqb (tb k b) (tb i b))) = ind (k =? i).
  Proof using Rth.
    intros Hk Hi. rewrite rprod_ind. f_equal. apply eq_true_iff_eq. rewrite forallb_forall, Nat.eqb_eq. split.
    - intros H. apply (tb_inj k i L Hk Hi). intros b Hb. apply eqb_prop. apply H. apply in_seq. lia.
    - intros -> b _. apply eqb_reflx.
  Qed.
  Lemma rsum_ind n k (f : nat -> R) : k < n -> rsum n (fun i => mul (ind (k =? i)) (f i)) = f k.
  Proof using Rth.
    intros Hk. rewrite (rsum_single _ _ _ _ _ _ Rth n _ k Hk); [rewrite Nat.eqb_refl; cbn; ring|]. intros i _ Ni. destruct (Nat.eqb_spec k i); [lia|cbn; ring].
  Qed.

  Section Trans.
    Variable A : bool -> bool -> R.
    Variable L : nat.
    Definition trA (u v : R) : R * R := (add (mul (A false false) u) (mul (A false true) v), add (mul (A true false) u) (mul (A true true) v)).
    Definition ker (P : nat -> bool) (k i : nat) : R := rprod L (fun b => if P b then A (tb k b) (tb i b) else ind (Bool.eqb (tb k b) (tb i b))).
    Definition ft (P : nat -> bool) (f : nat -> R) (k : nat) : R := rsum (2 ^ L) (fun i => mul (ker P k i) (f i)).

    Lemma ft_none f k : k < 2 ^ L -> ft (fun _ => false) f k = f k.
    Proof using Rth. intros Hk. unfold ft. rewrite <- (rsum_ind (2 ^ L) k f Hk). apply rsum_ext. intros i Hi. unfold ker. rewrite ind_eq_bits by assumption. reflexivity. Qed.
    Lemma ft_step P l f k : l < L -> P l = false -> stagef trA l (ft P f) k = ft (fun b => if b =? l then true else P b) f k.
    Proof using Rth.
      intros Hl HP. unfold stagef, trA. cbn [fst snd].
      transitivity (add (mul (A (tb k l) false) (ft P f (sb k l false))) (mul (A (tb k l) true) (ft P f (sb k l true)))); [destruct (tb k l); reflexivity|].
      unfold ft. rewrite <- !(rsum_mul_l _ _ _ _ _ _ Rth), <- (rsum_add _ _ _ _ _ _ Rth). apply rsum_ext. intros i _.
      assert (E : forall c, ker P (sb k l c) i = mul (ind (Bool.eqb c (tb i l))) (rprod L (fun b => if b =? l then one else if P b then A (tb k b) (tb i b) else ind (Bool.eqb (tb k b) (tb i b))))).
      { intros c. unfold ker. rewrite (rprod_pull L _ l Hl). rewrite HP, sb_tb, Nat.eqb_refl. f_equal. apply rprod_ext. intros b _. rewrite sb_tb. destruct (b =? l); reflexivity. }
      assert (E2 : ker (fun b => if b =? l then true else P b) k i = mul (A (tb k l) (tb i l)) (rprod L (fun b => if b =? l then one else if P b then A (tb k b) (tb i b) else ind (Bool.eqb (tb k b) (tb i b))))).
      { unfold ker. rewrite (rprod_pull L _ l Hl), Nat.eqb_refl. f_equal. apply rprod_ext. intros b _. destruct (b =? l); reflexivity. }
      rewrite !E, E2.
      destruct (tb i l); cbn; ring.
    Qed.
    Lemma ft_ext P Q f k : (forall b, b < L -> P b = Q b) -> ft P f k = ft Q f k.
    Proof using. intros H. unfold ft. apply rsum_ext. intros i _. f_equal. unfold ker. apply rprod_ext. intros b Hb. rewrite H by exact Hb. reflexivity. Qed.
    Lemma stage_ext l F G k : l < L -> k < 2 ^ L -> (forall x, x < 2 ^ L -> F x = G x) -> stagef trA l F k = stagef trA l G k.
    Proof using. intros Hl Hk H. unfold stagef. rewrite !H by (apply sb_lt; assumption). reflexivity. Qed.

    (** the full transform *)
    Definition full (f : nat -> R) (k : nat) : R := rsum (2 ^ L) (fun i => mul (rprod L (fun b => A (tb k b) (tb i b))) (f i)).
    Lemma dif_spec tr l F : (forall u v, tr u v = trA u v) -> arr (2 ^ L) l F -> exists l', dif_transform tr l L = Some l' /\ arr (2 ^ L) l' (full F).
    Proof using Rth.
      intros Htr Hl. unfold dif_transform.
      destruct (for_down_spec (fun j f => arr (2 ^ L) f (ft (fun b => j <=? b) F)) (fun l0 f => for_range 0 (2 ^ (L - (l0 + 1))) (fun b f0 => for_range 0 (2 ^ l0) (fun j f1 => dif_pair tr (b * 2 ^ (l0 + 1) + j) (b * 2 ^ (l0 + 1) + 2 ^ l0 + j) f1) f0) f) 0 L l) as (l' & E & H).
      - lia.
      - apply arr_ext with (1 := Hl). intros k Hk. rewrite (ft_ext _ (fun _ => false)) by (intros b Hb; apply Nat.leb_gt; lia). symmetry. apply ft_none. exact Hk.
      - intros j t Hj Ht. destruct (stage_spec tr L j t _ ltac:(lia) Ht) as (t' & E & H). exists t'. split; [exact E|]. apply arr_ext with (1 := H). intros k Hk.
        assert (S1 : forall G, stagef tr j G k = stagef trA j G k) by (intros G; unfold stagef; rewrite Htr; reflexivity). rewrite S1.
        rewrite ft_step by (try lia; apply Nat.leb_gt; lia). apply ft_ext. intros b _. destruct (Nat.eqb_spec b j) as [->|]; [symmetry; apply Nat.leb_refl|].
        destruct (Nat.leb_spec (S j) b), (Nat.leb_spec j b); try reflexivity; lia.
      - exists l'. split; [exact E|]. apply arr_ext with (1 := H). intros k _. reflexivity.
    Qed.
    (** multiplicative kernels turn a convolution into a product *)
    Lemma full_conv (op : nat -> nat -> nat) (bop : bool -> bool -> bool) f g k :
      (forall i j b, tb (op i j) b = bop (tb i b) (tb j b)) -> (forall i j, i < 2 ^ L -> j < 2 ^ L -> op i j < 2 ^ L) ->
      (forall x c d, A x (bop c d) = mul (A x c) (A x d)) -> full (kconv zero add mul (2 ^ L) op f g) k = mul (full f k) (full g k).
    Proof using Rth.
      intros Hop Hlt HA. unfold full, kconv. set (K := fun i => rprod L (fun b => A (tb k b) (tb i b))). set (n := 2 ^ L) in *.
      transitivity (rsum n (fun i => rsum n (fun j => mul (K (op i j)) (mul (f i) (g j))))).
      - rewrite (rsum_ext _ _ n _ (fun m => rsum n (fun i => rsum n (fun j => mul (ind (op i j =? m)) (mul (K m) (mul (f i) (g j))))))).
        2:{ intros m _. rewrite <- (rsum_mul_l _ _ _ _ _ _ Rth). apply rsum_ext. intros i _. rewrite <- (rsum_mul_l _ _ _ _ _ _ Rth). apply rsum_ext. intros j _. fold (K m). destruct (op i j =? m); cbn; ring. }
        rewrite (rsum_swap _ _ _ _ _ _ Rth). apply rsum_ext. intros i Hi. rewrite (rsum_swap _ _ _ _ _ _ Rth). apply rsum_ext. intros j Hj.
        rewrite (rsum_ind n (op i j) (fun m => mul (K m) (mul (f i) (g j)))) by (apply Hlt; assumption). reflexivity.
      - rewrite <- (rsum_mul_r _ _ _ _ _ _ Rth). apply rsum_ext. intros i _. rewrite <- (rsum_mul_l _ _ _ _ _ _ Rth). apply rsum_ext. intros j _. fold (K i) (K j).
        assert (E : K (op i j) = mul (K i) (K j)). { unfold K. rewrite <- (rprod_mul _ _ _ _ _ _ Rth). apply rprod_ext. intros b _. rewrite Hop. apply HA. }
        rewrite E. ring.
    Qed.
  End Trans.

  (** composing two transforms *)
  Lemma full_full A B L c f k : k < 2 ^ L -> (forall x y, add (mul (B x false) (A false y)) (mul (B x true) (A true y)) = if Bool.eqb x y then c else zero) ->
    full B L (full A L f) k = mul (rpow one mul c L) (f k).
  Proof using Rth.
    intros Hk HAB. unfold full.
    rewrite (rsum_ext _ _ (2 ^ L) _ (fun j => rsum (2 ^ L) (fun i => mul (mul (rprod L (fun b => B (tb k b) (tb j b))) (rprod L (fun b => A (tb j b) (tb i b)))) (f i)))).
    2:{ intros j _. rewrite <- (rsum_mul_l _ _ _ _ _ _ Rth). apply rsum_ext. intros i _. ring. }
    rewrite (rsum_swap _ _ _ _ _ _ Rth). rewrite <- (rsum_ind (2 ^ L) k (fun i => mul (rpow one mul c L) (f i)) Hk). apply rsum_ext. intros i Hi. rewrite (rsum_mul_r _ _ _ _ _ _ Rth).
    rewrite (rsum_ext _ _ (2 ^ L) _ (fun j => rprod L (fun b => mul (B (tb k b) (tb j b)) (A (tb j b) (tb i b))))) by (intros j _; rewrite (rprod_mul _ _ _ _ _ _ Rth); reflexivity).
    rewrite (cube_sum L (fun b x => mul (B (tb k b) x) (A x (tb i b)))).
    rewrite (rprod_ext one mul L _ (fun b => mul (ind (Bool.eqb (tb k b) (tb i b))) c)) by (intros b _; rewrite HAB; destruct (Bool.eqb _ _); cbn; ring).
    rewrite (rprod_mul _ _ _ _ _ _ Rth), ind_eq_bits by assumption.
    assert (E : forall n, rprod n (fun _ => c) = rpow one mul c n) by (induction n as [|n IH]; [reflexivity|rewrite rprod_S, rpow_S, IH; reflexivity]). rewrite E. ring.
  Qed.
  Lemma full_ext A L f g k : (forall i, i < 2 ^ L -> f i = g i) -> full A L f k = full A L g k.
  Proof using. intros H. unfold full. apply rsum_ext. intros i Hi. rewrite H by exact Hi. reflexivity. Qed.

  (** the three kernels *)
  Definition Aplus (x y : bool) : R := if y then ind x else one.
  Definition Aminus (x y : bool) : R := if x then (if y then one else opp one) else (if y then zero else one).
  Definition Awht (x y : bool) : R := if x && y then opp one else one.
End Kernel.
