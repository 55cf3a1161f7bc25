From Coq Require Import Ring Ring_theory.
From Verif Require Import Lib RingSpec RingProofs MatrixModel MatrixProofs BitsModel BitsSpec BitsProofs BitsProofs2 ConvModel ConvSpec ConvProofs ConvProofs2.
Open Scope nat_scope.

(** * population count over naturals *)
Fixpoint pcn (n x : nat) : nat := match n with O => O | S n' => pcn n' x + (if tb x n' then 1 else 0) end.
Lemma Ztb x n : Z.testbit (Z.of_nat x) (Z.of_nat n) = tb x n.
Proof.
  rewrite Z.testbit_eqb, Nat.testbit_eqb by lia. change 2%Z with (Z.of_nat 2). rewrite <- Nat2Z.inj_pow, <- Nat2Z.inj_div, <- Nat2Z.inj_mod. change 1%Z with (Z.of_nat 1).
  destruct (Nat.eqb_spec ((x / 2 ^ n) mod 2) 1) as [->|N]; [reflexivity|]. apply Z.eqb_neq. lia.
Qed.
Lemma pcn_ones n x : ones n (Z.of_nat x) = Z.of_nat (pcn n x).
Proof.
  induction n as [|n IH]; [reflexivity|]. cbn [ones pcn]. rewrite IH. replace (Z.testbit (Z.of_nat x) (Z.of_nat n)) with (tb x n); [destruct (tb x n); lia|]. symmetry. apply Ztb.
Qed.
Lemma pow2_lt L b : L <= b -> 2 ^ L <= 2 ^ b. Proof. intros H. apply Nat.pow_le_mono_r; lia. Qed.
Lemma cnt_spec L w : L <= 31 -> w < 2 ^ L -> cnt w = Some (pcn 32 w).
Proof.
  intros HL Hw. unfold cnt. rewrite bit_cnt1_spec.
  - cbn [obind]. unfold popcount, width. replace (Z.to_nat (2 ^ Z.of_nat 5)) with 32 by reflexivity. rewrite pcn_ones, Nat2Z.id. reflexivity.
  - unfold word_type. lia.
  - unfold word, width. split; [lia|]. replace (2 ^ Z.of_nat 5)%Z with 32%Z by reflexivity. apply Z.lt_le_trans with (Z.of_nat (2 ^ L)); [lia|].
    rewrite Nat2Z.inj_pow. apply Z.pow_le_mono_r; lia.
Qed.
Lemma pcn_le n x : pcn n x <= n.
Proof. induction n as [|n IH]; cbn [pcn]; [lia|]. destruct (tb x n); lia. Qed.
Lemma pcn_high L n x : x < 2 ^ L -> L <= n -> pcn n x = pcn L x.
Proof. intros Hx HL. induction HL as [|n HL IH]; [reflexivity|]. cbn [pcn]. rewrite (tb_high x L) by assumption. lia. Qed.
Lemma pcn_bound L n x : x < 2 ^ L -> L <= n -> pcn n x <= L.
Proof. intros Hx HL. rewrite (pcn_high L) by assumption. apply pcn_le. Qed.
Lemma pcn_or n x y : pcn n x + pcn n y = pcn n (Nat.lor x y) + pcn n (Nat.land x y).
Proof. induction n as [|n IH]; [reflexivity|]. cbn [pcn]. rewrite Nat.lor_spec, Nat.land_spec. destruct (tb x n), (tb y n); cbn [orb andb]; lia. Qed.
Lemma pcn_zero n x : x < 2 ^ n -> pcn n x = 0 -> x = 0.
Proof.
  intros Hx H. apply (tb_inj x 0 n Hx); [apply pow2_pos|]. intros b Hb. rewrite Nat.bits_0. revert Hb H. clear Hx. induction n as [|n IH]; intros Hb H; [lia|]. cbn [pcn] in H.
  destruct (Nat.eq_dec b n) as [->|N]; [destruct (tb x n); [lia|reflexivity]|]. apply IH; lia.
Qed.
(** the pairs selected by the rank trick *)
Lemma rank_pairs L n w x y : L <= n -> w < 2 ^ L -> x < 2 ^ L -> y < 2 ^ L ->
  (Nat.lor x y =? w) && (pcn n x + pcn n y =? pcn n w) = submask x w && (y =? Nat.lxor w x).
Proof.
  intros HL Hw Hx Hy. apply eq_true_iff_eq. rewrite !andb_true_iff, !Nat.eqb_eq. split.
  - intros (E & P). subst w. rewrite pcn_or in P. assert (Z0 : Nat.land x y = 0).
    { apply (pcn_zero n); [|lia]. apply Nat.lt_le_trans with (2 ^ L); [apply land_lt; exact Hx|apply pow2_lt; exact HL]. }
    split.
    + apply submask_bits. intros b Hb. rewrite Nat.lor_spec, Hb. reflexivity.
    + apply Nat.bits_inj. intros b. rewrite Nat.lxor_spec, Nat.lor_spec. apply (f_equal (fun z => tb z b)) in Z0. rewrite Nat.land_spec, Nat.bits_0 in Z0. destruct (tb x b), (tb y b); try reflexivity; discriminate.
  - intros (S1 & ->). assert (E : Nat.lor x (Nat.lxor w x) = w).
    { apply Nat.bits_inj. intros b. rewrite Nat.lor_spec, Nat.lxor_spec. pose proof (proj1 (submask_bits x w) S1 b). destruct (tb x b), (tb w b); try reflexivity. discriminate H. reflexivity. }
    split; [exact E|]. rewrite pcn_or, E. assert (Z0 : Nat.land x (Nat.lxor w x) = 0).
    { apply Nat.bits_inj. intros b. rewrite Nat.land_spec, Nat.lxor_spec, Nat.bits_0. pose proof (proj1 (submask_bits x w) S1 b). destruct (tb x b), (tb w b); try reflexivity. discriminate H. reflexivity. }
    rewrite Z0. assert (Z1 : forall m, pcn m 0 = 0) by (induction m as [|m IH]; [reflexivity|cbn [pcn]; rewrite IH, Nat.bits_0; reflexivity]). rewrite Z1. lia.
Qed.

Section Subset.
  Context {R : Type} (zero one : R) (add mul sub : R -> R -> R) (opp : R -> R).
  Hypothesis Rth : ring_theory zero one add mul sub opp (@eq R).
  Add Ring Rk3 : Rth.
  Local Notation rsum := (rsum zero add). Local Notation rprod := (rprod one mul).
  Local Notation kconv := (kconv zero add mul).
  Local Notation full A := (full zero one add mul A).
  Local Notation Ap := (Aplus zero one). Local Notation Am := (Aminus zero one opp).
  Local Notation ind := (ind zero one).

  Lemma full_plus_subset L F k : full Ap L F k = subset_sum zero add (2 ^ L) F k.
  Proof using Rth.
    unfold ConvProofs.full, subset_sum. apply rsum_ext. intros i Hi.
    rewrite (rprod_ext one mul L _ (fun b => ind (negb (tb i b) || tb k b))) by (intros b _; unfold Aplus, ConvProofs.ind; destruct (tb i b), (tb k b); reflexivity).
    rewrite (rprod_ind _ _ _ _ _ _ Rth). replace (forallb (fun b => negb (tb i b) || tb k b) (seq 0 L)) with (submask i k); [unfold ConvProofs.ind; destruct (submask i k); ring|].
    apply eq_true_iff_eq. rewrite forallb_forall, submask_bits. split.
    - intros H b _. specialize (H b). destruct (tb i b); [rewrite H; reflexivity|reflexivity].
    - intros H b Hb. destruct (Nat.lt_ge_cases b L); [|rewrite (tb_high i L) in Hb by assumption; discriminate]. specialize (H b). rewrite in_seq in H. rewrite Hb in H. cbn in H. apply H. lia.
  Qed.

  (** one stage of the subset transforms *)
  Lemma subset_stage op L i l F : i < L -> arr (2 ^ L) l F -> exists l',
    for_range 0 (2 ^ L) (fun w r => if Nat.land w (2 ^ i) =? 0 then Some r else let* x := nth_error r w in let* y := nth_error r (Nat.lxor w (2 ^ i)) in set_nth r w (op x y)) l = Some l' /\
    arr (2 ^ L) l' (stagef (fun u v : R => (u, op v u)) i F).
  Proof using.
    intros Hi Hl. set (St := stagef (fun u v : R => (u, op v u)) i F).
    match goal with |- context [for_range 0 _ ?body l] => destruct (for_range_spec (fun k t => arr (2 ^ L) t (fun x => if x <? k then St x else F x)) body 0 (2 ^ L) l) as (l' & E & H) end.
    - lia.
    - apply arr_ext with (1 := Hl). intros k _. reflexivity.
    - intros w t Hw Ht. rewrite land_pow2. assert (ST : forall x, tb x i = false -> St x = F x).
      { intros x Hx. unfold St, stagef. cbn [fst snd]. rewrite Hx. f_equal. rewrite <- Hx at 1. apply sb_same. }
      assert (Nx : forall x, x <> w -> (x <? S w) = (x <? w)) by (intros x Hx; destruct (Nat.ltb_spec x w), (Nat.ltb_spec x (S w)); try reflexivity; lia).
      destruct (tb w i) eqn:B; cbn [negb].
      + assert (E1 : Nat.lxor w (2 ^ i) = sb w i false) by (rewrite <- sb_lxor, B; reflexivity). rewrite E1.
        assert (Lw : sb w i false < 2 ^ L) by (apply sb_lt; lia). rewrite !(proj2 Ht) by lia. cbn [obind]. rewrite Nat.ltb_irrefl.
        assert (V : (if sb w i false <? w then St (sb w i false) else F (sb w i false)) = F (sb w i false)).
        { destruct (_ <? _); [|reflexivity]. apply ST. rewrite sb_tb, Nat.eqb_refl. reflexivity. }
        rewrite V. destruct (arr_set _ t _ w (op (F w) (F (sb w i false))) Ht) as (t' & Et & Ht'); [lia|]. exists t'. split; [exact Et|]. apply arr_ext with (1 := Ht'). intros x _.
        destruct (Nat.eqb_spec x w) as [->|N]; [|rewrite Nx by exact N; reflexivity]. replace (w <? S w) with true by (symmetry; apply Nat.ltb_lt; lia).
        unfold St, stagef. cbn [fst snd]. rewrite B. f_equal. f_equal. rewrite <- B. symmetry. apply sb_same.
      + exists t. split; [reflexivity|]. apply arr_ext with (1 := Ht). intros x _. destruct (Nat.eq_dec x w) as [->|N]; [|rewrite Nx by exact N; reflexivity].
        rewrite Nat.ltb_irrefl. replace (w <? S w) with true by (symmetry; apply Nat.ltb_lt; lia). symmetry. apply ST. exact B.
    - exists l'. split; [exact E|]. apply arr_ext with (1 := H). intros k Hk. destruct (Nat.ltb_spec k (2 ^ L)); [reflexivity|lia].
  Qed.
  Lemma stages_spec A op L l F : (forall u v, (u, op v u) = trA add mul A u v) -> arr (2 ^ L) l F -> exists l', subset_stages op l L = Some l' /\ arr (2 ^ L) l' (full A L F).
  Proof using Rth.
    intros Hop Hl. unfold subset_stages.
    match goal with |- context [for_range 0 L ?body l] => destruct (for_range_spec (fun j t => arr (2 ^ L) t (ft zero one add mul A L (fun b => b <? j) F)) body 0 L l) as (l' & E & H) end.
    - lia.
    - apply arr_ext with (1 := Hl). intros k Hk. symmetry. apply (ft_none _ _ _ _ _ _ Rth). exact Hk.
    - intros j t Hj Ht. destruct (subset_stage op L j t _ ltac:(lia) Ht) as (t' & E & H). exists t'. split; [exact E|]. apply arr_ext with (1 := H). intros k Hk.
      assert (S1 : forall G, stagef (fun u v : R => (u, op v u)) j G k = stagef (trA add mul A) j G k) by (intros G; unfold stagef; rewrite Hop; reflexivity). rewrite S1.
      rewrite (ft_step _ _ _ _ _ _ Rth) by (try lia; apply Nat.ltb_ge; lia). apply ft_ext. intros b _. destruct (Nat.eqb_spec b j) as [->|]; [symmetry; apply Nat.ltb_lt; lia|].
      destruct (Nat.ltb_spec b (S j)), (Nat.ltb_spec b j); try reflexivity; lia.
    - exists l'. split; [exact E|]. apply arr_ext with (1 := H). intros k _. unfold ft, ConvProofs.full. apply rsum_ext. intros i _. f_equal. unfold ker. apply rprod_ext. intros b Hb. destruct (Nat.ltb_spec b L); [reflexivity|lia].
  Qed.
  Lemma stages_plus L l F : arr (2 ^ L) l F -> exists l', subset_stages add l L = Some l' /\ arr (2 ^ L) l' (full Ap L F).
  Proof using Rth. apply stages_spec. intros u v. unfold trA, Aplus, ConvProofs.ind. f_equal; ring. Qed.
  Lemma stages_minus L l F : arr (2 ^ L) l F -> exists l', subset_stages sub l L = Some l' /\ arr (2 ^ L) l' (full Am L F).
  Proof using Rth. apply stages_spec. intros u v. unfold trA, Aminus. f_equal; ring. Qed.

  Lemma copy_spec (e : @aenv R) r f n F : length (e r) = n -> arr n (e f) F -> exists e', acopy e r f n = Some e' /\ arr n (e' r) F /\ forall x, x <> r -> e' x = e x.
  Proof using.
    intros Hr Hf. unfold acopy. destruct (Nat.eqb_spec r f) as [->|N]; [exists e; auto|].
    match goal with |- context [for_range 0 n ?body e] => destruct (for_range_spec (fun k e' => length (e' r) = n /\ (forall j, j < k -> nth_error (e' r) j = Some (F j)) /\ forall x, x <> r -> e' x = e x) body 0 n e) as (e' & E & H1 & H2 & H4) end.
    - lia.
    - repeat split; auto. intros j Hj. lia.
    - intros k e' Hk (H1 & H2 & H4). rewrite H4 by congruence. rewrite (proj2 Hf) by lia. cbn [obind].
      destruct (set_nth_some (e' r) k (F k)) as (l & El); [lia|]. rewrite El. cbn [obind]. eexists. split; [reflexivity|]. unfold aset. rewrite Nat.eqb_refl. repeat split.
      + rewrite (set_nth_length _ _ _ _ El). exact H1.
      + intros j Hj. rewrite (set_nth_get _ _ _ _ j El). destruct (Nat.eqb_spec k j) as [->|]; [reflexivity|]. apply H2. lia.
      + intros x Hx. destruct (Nat.eqb_spec x r); [contradiction|]. apply H4. exact Hx.
    - exists e'. split; [exact E|]. split; [|exact H4]. split; [exact H1|]. intros k Hk. apply H2. exact Hk.
  Qed.
  Lemma fast_sum_spec (e : @aenv R) r f L F : length (e r) = 2 ^ L -> arr (2 ^ L) (e f) F ->
    exists e', fast_subset_sum add e r f L = Some e' /\ arr (2 ^ L) (e' r) (subset_sum zero add (2 ^ L) F) /\ forall x, x <> r -> e' x = e x.
  Proof using Rth.
    intros Hr Hf. unfold fast_subset_sum. destruct (copy_spec e r f _ F Hr Hf) as (e1 & E1 & R1 & O1). rewrite E1. cbn [obind].
    destruct (lift_step (2 ^ L) _ (full Ap L) (stages_plus L) e1 r F R1) as (e2 & E2 & R2 & O2). exists e2. split; [exact E2|]. split.
    - apply arr_ext with (1 := R2). intros k _. apply full_plus_subset.
    - intros x Hx. rewrite O2, O1 by exact Hx. reflexivity.
  Qed.
  Lemma fast_sum_inv_spec (e : @aenv R) r f L F : length (e r) = 2 ^ L -> arr (2 ^ L) (e f) F ->
    exists e', fast_subset_sum_inverse sub e r f L = Some e' /\ arr (2 ^ L) (e' r) (full Am L F) /\ forall x, x <> r -> e' x = e x.
  Proof using Rth.
    intros Hr Hf. unfold fast_subset_sum_inverse. destruct (copy_spec e r f _ F Hr Hf) as (e1 & E1 & R1 & O1). rewrite E1. cbn [obind].
    destruct (lift_step (2 ^ L) _ (full Am L) (stages_minus L) e1 r F R1) as (e2 & E2 & R2 & O2). exists e2. split; [exact E2|]. split; [exact R2|].
    intros x Hx. rewrite O2, O1 by exact Hx. reflexivity.
  Qed.

  (** enumerating submasks *)
  Lemma submask_loop_spec n w h H : w < n -> (forall i, submask i w = true -> h i = Some (H i)) ->
    submask_loop zero add w h = Some (rsum n (fun i => if submask i w then H i else zero)).
  Proof using Rth.
    intros Hw Hh. unfold submask_loop. set (S0 := rsum n (fun i => if submask i w then H i else zero)).
    set (part := fun s => rsum n (fun i => if submask i w && (s <? i) then H i else zero)).
    assert (Hadd : forall s, submask s w = true -> s < n -> add (part s) (H s) = rsum n (fun i => if submask i w && (s <=? i) then H i else zero)).
    { intros s Hs Ls. unfold part. transitivity (add (rsum n (fun i => if submask i w && (s <? i) then H i else zero)) (rsum n (fun i => mul (ConvProofs.ind zero one (s =? i)) (H i)))).
      - rewrite (rsum_ind _ _ _ _ _ _ Rth n s H Ls). reflexivity.
      - rewrite <- (rsum_add _ _ _ _ _ _ Rth). apply rsum_ext. intros i _. destruct (Nat.eqb_spec s i) as [<-|N].
        + rewrite Hs, Nat.ltb_irrefl, Nat.leb_refl. cbn. ring.
        + replace (s <=? i) with (s <? i); [cbn; ring|]. destruct (Nat.ltb_spec s i), (Nat.leb_spec s i); try reflexivity; lia. }
    match goal with |- context [loopZ _ ?step _] => destruct (loopZ_spec step (fun '(s, sub) => submask sub w = true /\ s = part sub) (fun r => r = S0) (fun '(s, sub) => Z.of_nat sub)) with (fuel := (Z.of_nat w + 1)%Z) (s := (zero, w)) as (r & E & Hr) end.
    - intros [s sb_] (Hs & ->). pose proof (submask_le _ _ Hs) as Ls. rewrite (Hh _ Hs). cbn [obind]. rewrite Hadd by (try exact Hs; lia). destruct (Nat.eqb_spec sb_ 0) as [->|Ns].
      + eexists. split; [reflexivity|]. unfold S0. apply rsum_ext. intros i _. cbn [Nat.leb]. rewrite andb_true_r. reflexivity.
      + pose proof (land_submask (sb_ - 1) w) as Hn. assert (Lt : Nat.land (sb_ - 1) w < sb_).
        { assert (Nat.land (sb_ - 1) w <= sb_ - 1); [|lia]. rewrite Nat.land_comm. apply submask_le. apply land_submask. }
        eexists. split; [reflexivity|]. split; [|lia]. split; [exact Hn|]. apply rsum_ext. intros i _. destruct (submask i w) eqn:Si; [|reflexivity]. cbn [andb].
        pose proof (pred_submask sb_ w i Hs Si). destruct (Nat.leb_spec sb_ i), (Nat.ltb_spec (Nat.land (sb_ - 1) w) i); try reflexivity; lia.
    - intros [s sb_] _. lia.
    - split; [unfold submask; rewrite Nat.land_diag; apply Nat.eqb_refl|]. unfold part. symmetry. apply (rsum_zero _ _ _ _ _ _ Rth). intros i _. destruct (submask i w) eqn:Si; [|reflexivity]. apply submask_le in Si. destruct (Nat.ltb_spec w i); [lia|reflexivity].
    - cbn. lia.
    - rewrite E, Hr. reflexivity.
  Qed.
  Lemma slow_fill n r (body : nat -> option R) Q : length r = n -> (forall w, w < n -> body w = Some (Q w)) ->
    exists r', for_range 0 n (fun w r => let* s := body w in set_nth r w s) r = Some r' /\ arr n r' Q.
  Proof using.
    intros Hr Hb. destruct (for_range_spec (fun k t => length t = n /\ forall j, j < k -> nth_error t j = Some (Q j)) (fun w r => let* s := body w in set_nth r w s) 0 n r) as (r' & E & H1 & H2).
    - lia.
    - split; [exact Hr|]. intros j Hj. lia.
    - intros w t Hw (H1 & H2). rewrite Hb by lia. cbn [obind]. destruct (set_nth_some t w (Q w)) as (l & El); [lia|]. exists l. split; [exact El|]. split; [rewrite (set_nth_length _ _ _ _ El); exact H1|].
      intros j Hj. rewrite (set_nth_get _ _ _ _ j El). destruct (Nat.eqb_spec w j) as [->|]; [reflexivity|]. apply H2. lia.
    - exists r'. split; [exact E|]. split; [exact H1|]. exact H2.
  Qed.
  Lemma slow_sum_spec r f L F : length r = 2 ^ L -> arr (2 ^ L) f F -> exists r', slow_subset_sum zero add r f L = Some r' /\ arr (2 ^ L) r' (subset_sum zero add (2 ^ L) F).
  Proof using Rth.
    intros Hr Hf. unfold slow_subset_sum. apply (slow_fill _ r (fun w => submask_loop zero add w (fun sub => nth_error f sub))); [exact Hr|].
    intros w Hw. apply submask_loop_spec; [exact Hw|]. intros i Hi. apply (proj2 Hf). apply submask_le in Hi. lia.
  Qed.
  Lemma slow_conv_spec r f g L F G : length r = 2 ^ L -> arr (2 ^ L) f F -> arr (2 ^ L) g G ->
    exists r', slow_subset_convolution zero add mul r f g L = Some r' /\ arr (2 ^ L) r' (subset_conv zero add mul (2 ^ L) F G).
  Proof using Rth.
    intros Hr Hf Hg. unfold slow_subset_convolution. apply (slow_fill _ r (fun w => submask_loop zero add w (fun sub => let* x := nth_error f sub in let* y := nth_error g (Nat.lxor w sub) in Some (mul x y)))); [exact Hr|].
    intros w Hw. apply submask_loop_spec with (H := fun i => mul (F i) (G (Nat.lxor w i))); [exact Hw|]. intros i Hi. apply submask_le in Hi. rewrite (proj2 Hf), (proj2 Hg) by (try apply lxor_lt; lia). reflexivity.
  Qed.

  (** ranked convolution = subset convolution *)
  Lemma ranked_conv L n F G w : L <= n -> w < 2 ^ L ->
    rsum (pcn n w + 1) (fun j => kconv (2 ^ L) Nat.lor (fun x => if pcn n x =? j then F x else zero) (fun y => if pcn n y =? pcn n w - j then G y else zero) w) = subset_conv zero add mul (2 ^ L) F G w.
  Proof using Rth.
    intros HL Hw. unfold ConvSpec.kconv, subset_conv. rewrite (rsum_swap _ _ _ _ _ _ Rth). apply rsum_ext. intros x Hx. rewrite (rsum_swap _ _ _ _ _ _ Rth).
    rewrite (rsum_ext _ _ (2 ^ L) _ (fun y => if submask x w && (y =? Nat.lxor w x) then mul (F x) (G y) else zero)).
    - destruct (submask x w); cbn [andb]; [|apply (rsum_zero _ _ _ _ _ _ Rth); reflexivity].
      rewrite (rsum_single _ _ _ _ _ _ Rth _ _ (Nat.lxor w x)); [rewrite Nat.eqb_refl; reflexivity|apply lxor_lt; assumption|]. intros i _ Ni. destruct (Nat.eqb_spec i (Nat.lxor w x)); [contradiction|reflexivity].
    - intros y Hy. rewrite <- (rank_pairs L n w x y HL Hw Hx Hy). destruct (Nat.eqb_spec (Nat.lor x y) w) as [E|]; cbn [andb]; [|apply (rsum_zero _ _ _ _ _ _ Rth); reflexivity].
      destruct (Nat.eqb_spec (pcn n x + pcn n y) (pcn n w)) as [P|P].
      + rewrite (rsum_single _ _ _ _ _ _ Rth _ _ (pcn n x)).
        * rewrite Nat.eqb_refl. destruct (Nat.eqb_spec (pcn n y) (pcn n w - pcn n x)); [reflexivity|lia].
        * lia.
        * intros j _ Nj. destruct (Nat.eqb_spec (pcn n x) j); [congruence|]. ring.
      + apply (rsum_zero _ _ _ _ _ _ Rth). intros j Hj. destruct (Nat.eqb_spec (pcn n x) j); [|ring]. destruct (Nat.eqb_spec (pcn n y) (pcn n w - j)); [lia|ring].
  Qed.

  Lemma map_rows K n tr (TF : (nat -> R) -> nat -> R) : (forall l F, arr n l F -> exists l', tr l = Some l' /\ arr n l' (TF F)) ->
    forall i a (f : nat -> nat -> R), i < K -> rep K n a f -> exists x y a', nth_error a i = Some x /\ tr x = Some y /\ set_nth a i y = Some a' /\ rep K n a' (fun i' => if i' =? i then TF (f i) else f i').
  Proof using.
    intros Ht i a f Hi (La & Ha). destruct (Ha i Hi) as (x & Nx & Lx & Vx). destruct (Ht x (f i)) as (y & Ey & Hy); [split; assumption|]. destruct (set_nth_some a i y) as (a' & Ea); [lia|]. exists x, y, a'.
    split; [exact Nx|]. split; [exact Ey|]. split; [exact Ea|]. split; [rewrite (set_nth_length _ _ _ _ Ea); exact La|]. intros i' Hi'. rewrite (set_nth_get _ _ _ _ i' Ea), Nat.eqb_sym. destruct (Nat.eqb_spec i' i) as [->|].
    - exists y. split; [reflexivity|]. exact Hy.
    - apply Ha. exact Hi'.
  Qed.

  Lemma fast_conv_spec (e : @aenv R) r f g L F G : L <= 31 -> length (e r) = 2 ^ L -> arr (2 ^ L) (e f) F -> arr (2 ^ L) (e g) G ->
    exists e', fast_subset_convolution zero add sub mul e r f g L = Some e' /\ arr (2 ^ L) (e' r) (subset_conv zero add mul (2 ^ L) F G) /\ forall x, x <> r -> e' x = e x.
  Proof using Rth.
    intros HL Hr Hf Hg. unfold fast_subset_convolution. cbv zeta. pose proof (pow2_pos L) as PL. set (n := 2 ^ L) in *. rewrite (proj2 Hf) by lia. cbn [obind]. set (z := repeat (repeat zero n) (L + 1)). pose (K := L + 1).
    assert (Rz : rep K n z (fun _ _ => zero)).
    { split; [apply repeat_length|]. intros i Hi. exists (repeat zero n). split; [apply nth_error_repeat; exact Hi|]. split; [apply repeat_length|]. intros j Hj. apply nth_error_repeat. exact Hj. }
    set (pc := pcn 32). assert (Hc : forall w, w < n -> cnt w = Some (pc w)) by (intros w Hw; apply (cnt_spec L); assumption). assert (Bc : forall w, w < n -> pc w < K).
    { intros w Hw. unfold pc, K. pose proof (pcn_bound L 32 w Hw ltac:(lia)). lia. }
    set (rk := fun (F : nat -> R) k c w => if (w <? k) && (pc w =? c) then F w else zero).
    match goal with |- context [for_range 0 n ?body (z, z)] => destruct (for_range_spec (fun k '(f1, g1) => rep K n f1 (rk F k) /\ rep K n g1 (rk G k)) body 0 n (z, z)) as ([f1 g1] & E & Rf & Rg) end.
    { lia. }
    { split; exact Rz. }
    { intros w [f1 g1] Hw (H1 & H2). rewrite Hc by lia. cbn [obind]. rewrite (proj2 Hf) by lia. cbn [obind]. assert (Bw := Bc w ltac:(lia)).
      assert (Up : forall Q c w', upd2 (rk Q w) (pc w) w (Q w) c w' = rk Q (S w) c w').
      { intros Q c w'. unfold upd2, rk. destruct (Nat.eqb_spec w' w) as [->|N].
        - rewrite Nat.ltb_irrefl. replace (w <? S w) with true by (symmetry; apply Nat.ltb_lt; lia). cbn [andb]. rewrite andb_true_r. rewrite (Nat.eqb_sym c). destruct (pc w =? c); reflexivity.
        - rewrite andb_false_r. replace (w' <? S w) with (w' <? w); [reflexivity|]. destruct (Nat.ltb_spec w' w), (Nat.ltb_spec w' (S w)); try reflexivity; lia. }
      destruct (rep_set K n f1 _ (pc w) w (F w) H1) as (f1' & E1 & H1'); [lia|lia|]. rewrite E1. cbn [obind]. rewrite (proj2 Hg) by lia. cbn [obind].
      destruct (rep_set K n g1 _ (pc w) w (G w) H2) as (g1' & E2 & H2'); [lia|lia|]. rewrite E2. cbn [obind]. eexists. split; [reflexivity|]. split; (eapply rep_ext; [eassumption|]); intros c w' _ _; apply Up. }
    rewrite E. cbn [obind]. clear E.
    set (FF := fun c => full Ap L (rk F n c)). set (GG := fun c => full Ap L (rk G n c)).
    match goal with |- context [for_range 0 _ ?body (f1, g1)] => destruct (for_range_spec (fun k '(f1, g1) => rep K n f1 (fun c => if c <? k then FF c else rk F n c) /\ rep K n g1 (fun c => if c <? k then GG c else rk G n c)) body 0 (L + 1) (f1, g1)) as ([f2 g2] & E & Rf2 & Rg2) end.
    { lia. }
    { split; assumption. }
    { intros i [f2 g2] Hi (H1 & H2).
      assert (Up : forall (A B : nat -> nat -> R) c w, (if c =? i then A i else if c <? i then A c else B c) w = (if c <? S i then A c else B c) w).
      { intros A B c w. destruct (Nat.eqb_spec c i) as [->|N]; [replace (i <? S i) with true by (symmetry; apply Nat.ltb_lt; lia); reflexivity|].
        replace (c <? S i) with (c <? i); [reflexivity|]. destruct (Nat.ltb_spec c i), (Nat.ltb_spec c (S i)); try reflexivity; lia. }
      destruct (map_rows K n (fun a => subset_stages add a L) (full Ap L) (stages_plus L) i f2 _ ltac:(unfold K; lia) H1) as (x & y & a' & N1 & T1 & S1 & R1). rewrite N1. cbn [obind]. rewrite T1. cbn [obind]. rewrite S1. cbn [obind].
      destruct (map_rows K n (fun a => subset_stages add a L) (full Ap L) (stages_plus L) i g2 _ ltac:(unfold K; lia) H2) as (x' & y' & b' & N2 & T2 & S2 & R2). rewrite N2. cbn [obind]. rewrite T2. cbn [obind]. rewrite S2. cbn [obind].
      eexists. split; [reflexivity|]. split; (eapply rep_ext; [eassumption|]); intros c w _ _; rewrite Nat.ltb_irrefl; [apply (Up FF)|apply (Up GG)]. }
    rewrite E. cbn [obind]. clear E.
    assert (Rf3 : rep K n f2 FF) by (eapply rep_ext; [exact Rf2|]; intros i j Hi _; unfold K in Hi; cbv beta; destruct (Nat.ltb_spec i (L + 1)); [reflexivity|lia]).
    assert (Rg3 : rep K n g2 GG) by (eapply rep_ext; [exact Rg2|]; intros i j Hi _; unfold K in Hi; cbv beta; destruct (Nat.ltb_spec i (L + 1)); [reflexivity|lia]).
    clear Rf2 Rg2. set (t := fun k w j => mul (FF j w) (GG (k - j) w)). set (HH := fun k w => rsum (k + 1) (t k w)).
    match goal with |- context [for_range 0 (L + 1) ?body z] => destruct (for_range_spec (fun k h => rep K n h (fun k' w => if k' <? k then HH k' w else zero)) body 0 (L + 1) z) as (h1 & E & Rh) end.
    { lia. }
    { exact Rz. }
    { intros k h Hk H. match goal with |- context [for_range 0 (k + 1) ?body h] => destruct (for_range_spec (fun j h => rep K n h (fun k' w => if k' <? k then HH k' w else if k' =? k then rsum j (t k w) else zero)) body 0 (k + 1) h) as (h' & E & H') end.
      - lia.
      - eapply rep_ext; [exact H|]. intros k' w _ _. cbv beta. destruct (k' <? k), (k' =? k); reflexivity.
      - intros j h0 Hj H0. match goal with |- context [for_range 0 n ?body h0] => destruct (for_range_spec (fun v h => rep K n h (fun k' w => if k' <? k then HH k' w else if k' =? k then (if w <? v then rsum (S j) (t k w) else rsum j (t k w)) else zero)) body 0 n h0) as (h'' & E & H'') end.
        + lia.
        + exact H0.
        + intros w h2 Hw H2. rewrite (rep_get K n f2 FF), (rep_get K n g2 GG) by (try assumption; unfold K; lia). cbn [obind]. rewrite (rep_get K n h2 _ k w H2) by (unfold K; lia). cbn [obind]. rewrite Nat.ltb_irrefl, Nat.eqb_refl, Nat.ltb_irrefl.
          match goal with |- context [mset h2 k w ?v] => destruct (rep_set K n h2 _ k w v H2) as (h3 & E3 & H3); [unfold K; lia|lia|] end. exists h3. split; [exact E3|]. eapply rep_ext; [exact H3|]. intros k' w' _ _. cbv beta. unfold upd2.
          destruct (Nat.eqb_spec k' k) as [->|Nk]; cbn [andb]; [|reflexivity]. rewrite Nat.ltb_irrefl. destruct (Nat.eqb_spec w' w) as [->|Nw].
          * replace (w <? S w) with true by (symmetry; apply Nat.ltb_lt; lia). rewrite rsum_S. reflexivity.
          * replace (w' <? S w) with (w' <? w); [reflexivity|]. destruct (Nat.ltb_spec w' w), (Nat.ltb_spec w' (S w)); try reflexivity; lia.
        + exists h''. split; [exact E|]. eapply rep_ext; [exact H''|]. intros k' w _ Hw. cbv beta. destruct (Nat.ltb_spec w n); [reflexivity|lia].
      - exists h'. split; [exact E|]. eapply rep_ext; [exact H'|]. intros k' w _ _. cbv beta. destruct (Nat.eqb_spec k' k) as [->|N].
        + rewrite Nat.ltb_irrefl. replace (k <? S k) with true by (symmetry; apply Nat.ltb_lt; lia). reflexivity.
        + destruct (Nat.ltb_spec k' k), (Nat.ltb_spec k' (S k)); try reflexivity; lia. }
    rewrite E. cbn [obind]. clear E.
    assert (Rh1 : rep K n h1 HH) by (eapply rep_ext; [exact Rh|]; intros i j Hi _; unfold K in Hi; cbv beta; destruct (Nat.ltb_spec i (L + 1)); [reflexivity|lia]). clear Rh.
    match goal with |- context [for_range 0 (L + 1) ?body h1] => destruct (for_range_spec (fun k h => rep K n h (fun c => if c <? k then full Am L (HH c) else HH c)) body 0 (L + 1) h1) as (h2 & E & Rh2) end.
    { lia. }
    { exact Rh1. }
    { intros i h Hi H. destruct (map_rows K n (fun a => subset_stages sub a L) (full Am L) (stages_minus L) i h _ ltac:(unfold K; lia) H) as (x & y & a' & N1 & T1 & S1 & R1). rewrite N1. cbn [obind]. rewrite T1. cbn [obind]. exists a'. split; [exact S1|].
      eapply rep_ext; [exact R1|]. intros c w _ _. cbv beta. rewrite Nat.ltb_irrefl. destruct (Nat.eqb_spec c i) as [->|N]; [replace (i <? S i) with true by (symmetry; apply Nat.ltb_lt; lia); reflexivity|].
      replace (c <? S i) with (c <? i); [reflexivity|]. destruct (Nat.ltb_spec c i), (Nat.ltb_spec c (S i)); try reflexivity; lia. }
    rewrite E. cbn [obind]. clear E.
    set (Q := subset_conv zero add mul n F G).
    assert (V : forall w, w < n -> mget h2 (pc w) w = Some (Q w)).
    { intros w Hw. pose proof (Bc w Hw) as B. rewrite (rep_get K n h2 _ (pc w) w Rh2) by assumption. f_equal. unfold K in B. replace (pc w <? L + 1) with true by (symmetry; apply Nat.ltb_lt; exact B).
      unfold Q, n. rewrite <- (ranked_conv L 32 F G w ltac:(lia) Hw). fold pc. set (c := pc w).
      set (P := fun j => kconv n Nat.lor (fun x => if pc x =? j then F x else zero) (fun y => if pc y =? c - j then G y else zero)).
      transitivity (full Am L (full Ap L (fun k => rsum (c + 1) (fun j => P j k))) w); [|apply (minus_plus _ _ _ _ _ _ Rth); exact Hw].
      apply full_ext. intros i Hi. unfold HH. unfold ConvProofs.full at 1. rewrite (rsum_ext _ _ (2 ^ L) _ (fun i0 => rsum (c + 1) (fun j => mul (rprod L (fun b => Ap (tb i b) (tb i0 b))) (P j i0)))) by (intros i0 _; rewrite (rsum_mul_l _ _ _ _ _ _ Rth); reflexivity).
      rewrite (rsum_swap _ _ _ _ _ _ Rth). apply rsum_ext. intros j _. change (t c i j = full Ap L (P j) i). unfold P, n. rewrite (plus_or _ _ _ _ _ _ Rth). unfold t, FF, GG. f_equal; apply full_ext; intros x Hx; unfold rk.
      - replace (x <? n) with true by (symmetry; apply Nat.ltb_lt; exact Hx). reflexivity.
      - replace (x <? n) with true by (symmetry; apply Nat.ltb_lt; exact Hx). reflexivity. }
    match goal with |- context [for_range 0 n ?body e] => destruct (for_range_spec (fun k e' => length (e' r) = n /\ (forall j, j < k -> nth_error (e' r) j = Some (Q j)) /\ forall x, x <> r -> e' x = e x) body 0 n e) as (e' & E & H1 & H2 & H4) end.
    - lia.
    - repeat split; auto. intros j Hj. lia.
    - intros k e' Hk (H1 & H2 & H4). rewrite Hc by lia. cbn [obind]. rewrite V by lia. cbn [obind].
      destruct (set_nth_some (e' r) k (Q k)) as (l & El); [lia|]. rewrite El. cbn [obind]. eexists. split; [reflexivity|]. unfold aset. rewrite Nat.eqb_refl. repeat split.
      + rewrite (set_nth_length _ _ _ _ El). exact H1.
      + intros j Hj. rewrite (set_nth_get _ _ _ _ j El). destruct (Nat.eqb_spec k j) as [->|]; [reflexivity|]. apply H2. lia.
      + intros x Hx. destruct (Nat.eqb_spec x r); [contradiction|]. apply H4. exact Hx.
    - exists e'. split; [exact E|]. split; [|exact H4]. split; [exact H1|]. intros k Hk. apply H2. exact Hk.
  Qed.
End Subset.
