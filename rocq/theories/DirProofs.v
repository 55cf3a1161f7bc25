(** Dirichlet convolution and division tables. *)
From Coq Require Import Ring Ring_theory Permutation.
From Verif Require Import Lib RingSpec RingProofs PrimesSpec PrimesProofs PrimesProofs2 PiProofs FftProofs3 DirModel DirSpec.
From Coq Require Import Arith Lia.

Section Dir.
  Context {T : Type} (zero one : T) (add mul sub : T -> T -> T) (opp : T -> T) (tdiv : T -> T -> option T).
  Hypothesis Rth : ring_theory zero one add mul sub opp (@eq T).
  Add Ring Tr : Rth.
  Notation rsum := (rsum zero add).
  Notation dirichlet := (dirichlet zero add mul).

  (** ** sums over divisors *)
  Lemma sum_filter_seq (P : nat -> bool) w n : sum_list zero add (map w (filter P (seq 1 n))) = rsum n (fun k => if P (S k) then w (S k) else zero).
  Proof.
    unfold sum_list. assert (SA : forall a b, fold_right add zero (a ++ b) = add (fold_right add zero a) (fold_right add zero b)). { induction a as [|x a IH]; intros b; cbn [app fold_right]; [ring|]. rewrite IH. ring. }
    induction n as [|n IH]; [reflexivity|]. rewrite seq_S, filter_app, map_app, SA, IH. cbn [RingSpec.rsum filter]. replace (1 + n) with (S n) by lia. destruct (P (S n)); cbn [map fold_right]; ring.
  Qed.
  Definition term (f g : nat -> T) (n k : nat) : T := if n mod S k =? 0 then mul (f (S k)) (g (n / S k)) else zero.
  Lemma dirichlet_rsum f g n : dirichlet f g n = rsum n (term f g n).
  Proof. unfold DirSpec.dirichlet, divisors_of. rewrite sum_filter_seq. reflexivity. Qed.
  Lemma term_beyond f g n k : 1 <= n -> n <= k -> term f g n k = zero.
  Proof. intros H K. unfold term. rewrite Nat.mod_small by lia. destruct (Nat.eqb_spec n 0); [lia|reflexivity]. Qed.
  Lemma dirichlet_wide f g n N : 1 <= n -> n <= N -> dirichlet f g n = rsum N (term f g n).
  Proof. intros H L. rewrite dirichlet_rsum. symmetry. apply (rsum_trunc zero one add mul sub opp Rth); [exact L|]. intros i I0. apply term_beyond; lia. Qed.
  Lemma dirichlet_last f g n : 1 <= n -> dirichlet f g n = add (rsum (n - 1) (term f g n)) (mul (f n) (g 1)).
  Proof.
    intros H. rewrite dirichlet_rsum. replace n with (S (n - 1)) at 1 by lia. cbn [RingSpec.rsum]. f_equal. unfold term. replace (S (n - 1)) with n by lia. rewrite Nat.mod_same, Nat.div_same by lia. reflexivity.
  Qed.
  Lemma div_range n k : 1 <= n -> n mod S k = 0 -> 1 <= n / S k <= n /\ S k <= n.
  Proof. intros H E. apply Nat.mod_divides in E as [c C]; [|lia]. rewrite C at 1 2. rewrite Nat.mul_comm at 1 2. rewrite Nat.div_mul by lia. destruct c; nia. Qed.
  Lemma dirichlet_ext f g f' g' n : 1 <= n -> (forall i, 1 <= i <= n -> f i = f' i) -> (forall i, 1 <= i <= n -> g i = g' i) -> dirichlet f g n = dirichlet f' g' n.
  Proof.
    intros H F G. rewrite !dirichlet_rsum. apply (rsum_ext zero add). intros k K. unfold term. destruct (Nat.eqb_spec (n mod S k) 0) as [E|E]; [|reflexivity]. destruct (div_range n k H E) as [D S0]. rewrite F, G by lia. reflexivity.
  Qed.
  (** division by a function with invertible value at 1 is unique *)
  Lemma dirichlet_cancel g u f f' n : mul u (g 1) = one -> (forall i, 1 <= i < n -> dirichlet f g i = dirichlet f' g i) -> forall i, 1 <= i < n -> f i = f' i.
  Proof.
    intros U H. induction i as [i IH] using lt_wf_ind. intros I0. specialize (H i I0) as E. rewrite !dirichlet_last in E by lia.
    assert (R : rsum (i - 1) (term f g i) = rsum (i - 1) (term f' g i)). { apply (rsum_ext zero add). intros k K. unfold term. destruct (i mod S k =? 0); [|reflexivity]. rewrite (IH (S k)) by lia. reflexivity. }
    rewrite R in E. set (r := rsum (i - 1) (term f' g i)) in *. assert (C : mul (f i) (g 1) = mul (f' i) (g 1)). { transitivity (sub (add r (mul (f i) (g 1))) r); [ring|]. rewrite E. ring. }
    transitivity (mul u (mul (f i) (g 1))); [transitivity (mul (mul u (g 1)) (f i)); [rewrite U; ring|ring]|]. rewrite C. transitivity (mul (mul u (g 1)) (f' i)); [ring|rewrite U; ring].
  Qed.
  (** ** loops over multiples *)
  Lemma upd_arr L (F : nat -> T) h x u : is_arr L F h -> x < L -> exists h', upd h x u = Some h' /\ is_arr L (fun y => if y =? x then u (F x) else F y) h'.
  Proof. intros [HL HF] X. unfold upd. rewrite HF by exact X. cbn [obind]. now apply set_arr. Qed.
  Lemma mult_loop L n d a (u : nat -> T -> T) body F h : is_arr L F h -> n <= L -> 1 <= d -> 1 <= a ->
    (forall e F' h', a <= e -> d * e < n -> is_arr L F' h' -> (forall i, i < a * d -> F' i = F i) -> exists h'', body e h' = Some h'' /\ is_arr L (fun y => if y =? d * e then u e (F' y) else F' y) h'') ->
    exists h', for_range a (S ((n - 1) / d)) body h = Some h' /\ is_arr L (fun i => if (i mod d =? 0) && (a * d <=? i) && (i <? n) then u (i / d) (F i) else F i) h'.
  Proof.
    intros HA LE D A B. destruct (Nat.le_gt_cases (S ((n - 1) / d)) a) as [G|G].
    - exists h. split; [unfold for_range; replace (S ((n - 1) / d) - a) with 0 by lia; reflexivity|]. apply (arr_ext L F); [exact HA|]. intros i _.
      destruct (Nat.eqb_spec (i mod d) 0) as [E|E]; [|reflexivity]. destruct (Nat.leb_spec (a * d) i) as [K1|K1]; [|reflexivity]. destruct (Nat.ltb_spec i n) as [K2|K2]; [|reflexivity]. exfalso.
      assert (a <= (n - 1) / d); [apply Nat.div_le_lower_bound; nia|lia].
    - destruct (for_range_spec (fun e h' => is_arr L (fun i => if (i mod d =? 0) && (a * d <=? i) && (i <? e * d) then u (i / d) (F i) else F i) h') body a (S ((n - 1) / d)) h) as (h' & E & R); [lia| | |].
      + apply (arr_ext L F); [exact HA|]. intros i _. destruct (i mod d =? 0); [|reflexivity]. destruct (Nat.leb_spec (a * d) i), (Nat.ltb_spec i (a * d)); try reflexivity; lia.
      + intros e t I0 HT. assert (DE : d * e < n). { pose proof (Nat.mul_div_le (n - 1) d ltac:(lia)). assert (0 < n) by (destruct n; [rewrite Nat.div_0_l in I0 by lia; lia|lia]). nia. }
        destruct (B e _ t ltac:(lia) DE HT) as (t' & E & R).
        { intros i K. destruct (Nat.leb_spec (a * d) i); [lia|]. rewrite andb_false_r. reflexivity. }
        exists t'. split; [exact E|]. apply (arr_ext L _ _ _ R). intros i K. cbv beta. destruct (Nat.eqb_spec i (d * e)) as [->|N].
        * rewrite Nat.mul_comm, Nat.mod_mul, Nat.div_mul by lia. cbn [Nat.eqb andb]. destruct (Nat.leb_spec (a * d) (e * d)); [|nia]. destruct (Nat.ltb_spec (e * d) (e * d)); [lia|]. destruct (Nat.ltb_spec (e * d) (S e * d)); [|nia]. reflexivity.
        * destruct (Nat.eqb_spec (i mod d) 0) as [M|M]; [|reflexivity]. cbn [andb]. destruct (a * d <=? i); [|reflexivity]. cbn [andb]. assert (i = d * (i / d)) by (pose proof (Nat.div_mod i d ltac:(lia)); lia).
          destruct (Nat.ltb_spec i (e * d)), (Nat.ltb_spec i (S e * d)); try reflexivity; exfalso; [nia|]. assert (i / d = e) by nia. nia.
      + exists h'. split; [exact E|]. apply (arr_ext L _ _ _ R). intros i _. destruct (Nat.eqb_spec (i mod d) 0) as [M|M]; [|reflexivity]. cbn [andb]. destruct (Nat.leb_spec (a * d) i) as [K|K]; [|reflexivity]. cbn [andb].
        assert (ID : i = d * (i / d)) by (pose proof (Nat.div_mod i d ltac:(lia)); lia). destruct (Nat.ltb_spec i (S ((n - 1) / d) * d)), (Nat.ltb_spec i n); try reflexivity; exfalso.
        * assert (i / d <= (n - 1) / d) by nia. pose proof (Nat.mul_div_le (n - 1) d ltac:(lia)). destruct n; [|nia]. cbn [Nat.sub] in *. rewrite Nat.div_0_l in * by lia. lia.
        * assert (i / d <= (n - 1) / d) by (apply Nat.div_le_mono; lia). nia.
  Qed.
  Lemma fill_arr L n a (c F : nat -> T) h : is_arr L F h -> n <= L -> exists h', for_range a n (fun i h => set_nth h i (c i)) h = Some h' /\ is_arr L (fun i => if (a <=? i) && (i <? n) then c i else F i) h'.
  Proof.
    intros HA LE. destruct (Nat.le_gt_cases n a) as [G|G].
    - exists h. split; [unfold for_range; replace (n - a) with 0 by lia; reflexivity|]. apply (arr_ext L F); [exact HA|]. intros i _. destruct (Nat.leb_spec a i), (Nat.ltb_spec i n); try reflexivity; lia.
    - destruct (for_range_spec (fun e h' => is_arr L (fun i => if (a <=? i) && (i <? e) then c i else F i) h') (fun i h => set_nth h i (c i)) a n h) as (h' & E & R); [lia| | |eauto].
      + apply (arr_ext L F); [exact HA|]. intros i _. destruct (Nat.leb_spec a i), (Nat.ltb_spec i a); try reflexivity; lia.
      + intros e t I0 HT. destruct (set_arr L _ t e (c e) HT ltac:(lia)) as (t' & E & R). exists t'. split; [exact E|]. apply (arr_ext L _ _ _ R). intros i _. cbv beta. destruct (Nat.eqb_spec i e) as [Q|N]; destruct (Nat.leb_spec a i), (Nat.ltb_spec i e), (Nat.ltb_spec i (S e)); cbn [andb]; try reflexivity; try (exfalso; lia). now rewrite Q.
  Qed.

  (** ** convolution *)
  Lemma convolution_ok L F h f g n : is_arr L F h -> n <= L -> exists h', dirichlet_convolution zero add mul h f g n = Some h' /\
    is_arr L (fun i => if i <? n then if i =? 0 then zero else dirichlet f g i else F i) h'.
  Proof.
    intros HA LE. unfold dirichlet_convolution. destruct (fill_arr L n 0 (fun _ => zero) F h HA LE) as (h1 & -> & H1). cbn [obind].
    destruct (Nat.eq_dec n 0) as [->|N0]. { exists h1. split; [reflexivity|]. exact H1. }
    set (G := fun D i => if i <? n then if i =? 0 then zero else rsum (D - 1) (term f g i) else F i).
    match goal with |- context[for_range 1 n ?body h1] => destruct (for_range_spec (fun D h' => is_arr L (G D) h') body 1 n h1) as (h2 & E & R); [lia| | |] end.
    - apply (arr_ext L _ _ _ H1). intros i _. unfold G. cbn [Nat.leb andb Nat.sub RingSpec.rsum]. destruct (i <? n); [|reflexivity]. now destruct (i =? 0).
    - intros d t D HT. cbv beta. destruct (mult_loop L n d 1 (fun e v => add v (mul (f d) (g e))) (fun e h => upd h (d * e) (fun v => add v (mul (f d) (g e)))) (G d) t HT LE ltac:(lia) ltac:(lia)) as (t' & E & R).
      { intros e F' t1 E1 DE HT1 _. destruct (upd_arr L F' t1 (d * e) (fun v => add v (mul (f d) (g e))) HT1 ltac:(lia)) as (t2 & E2 & R2). exists t2. split; [exact E2|]. apply (arr_ext L _ _ _ R2). intros i _. cbv beta. destruct (Nat.eqb_spec i (d * e)) as [->|]; reflexivity. }
      exists t'. split; [exact E|]. apply (arr_ext L _ _ _ R). intros i IL. cbv beta. unfold G. destruct (Nat.ltb_spec i n) as [I1|I1]; [|now rewrite andb_false_r]. rewrite andb_true_r.
      replace (S d - 1) with (S (d - 1)) by lia. cbn [RingSpec.rsum]. assert (TS : term f g i (d - 1) = if i mod d =? 0 then mul (f d) (g (i / d)) else zero) by (unfold term; now replace (S (d - 1)) with d by lia). rewrite TS. clear TS. destruct (Nat.eqb_spec i 0) as [->|I0].
      + destruct (Nat.leb_spec (1 * d) 0); [lia|]. rewrite andb_false_r. reflexivity.
      + destruct (Nat.eqb_spec (i mod d) 0) as [M|M]; cbn [andb]; [|ring]. destruct (Nat.leb_spec (1 * d) i) as [K|K]; [reflexivity|]. rewrite Nat.mod_small in M by lia. lia.
    - exists h2. split; [exact E|]. apply (arr_ext L _ _ _ R). intros i _. unfold G. destruct (Nat.ltb_spec i n) as [I1|I1]; [|reflexivity]. destruct (Nat.eqb_spec i 0) as [->|I0]; [reflexivity|]. symmetry. apply dirichlet_wide; lia.
  Qed.

  (** ** division *)
  Section Division.
    Variables (L n : nat) (f g : nat -> T) (F0 : nat -> T) (ig : T).
    Hypothesis HL : n <= L.
    Hypothesis Hig : mul ig (g 1) = one.
    Definition dinv (D : nat) (F : nat -> T) : Prop :=
      (forall i, 1 <= i < D -> dirichlet F g i = f i) /\
      (forall i, D <= i < n -> F i = sub (f i) (rsum (D - 1) (term F g i))) /\
      (forall i, i = 0 \/ n <= i -> F i = F0 i).
    Lemma dinv_step D F F' : 1 <= D < n -> dinv D F ->
      (forall i, F' i = if (i mod D =? 0) && (2 * D <=? i) && (i <? n) then sub (F i) (mul (g (i / D)) (mul (F D) ig)) else if i =? D then mul (F D) ig else F i) -> dinv (S D) F'.
    Proof.
      intros D0 (A & B & C) E.
      assert (LOW : forall i, 1 <= i < D -> F' i = F i). { intros i I0. rewrite E. destruct (Nat.eqb_spec (i mod D) 0) as [M|M]; [rewrite Nat.mod_small in M by lia; lia|]. cbn [andb]. destruct (Nat.eqb_spec i D); [lia|reflexivity]. }
      assert (AT : F' D = mul (F D) ig). { rewrite E, Nat.mod_same by lia. destruct (Nat.leb_spec (2 * D) D); [lia|]. cbn [Nat.eqb andb]. rewrite Nat.eqb_refl. reflexivity. }
      assert (SUM : forall i, rsum (D - 1) (term F' g i) = rsum (D - 1) (term F g i)). { intros i. apply (rsum_ext zero add). intros k K. unfold term. destruct (i mod S k =? 0); [|reflexivity]. now rewrite LOW by lia. }
      split; [|split].
      - intros i I0. destruct (Nat.eq_dec i D) as [->|N].
        + rewrite dirichlet_last, SUM, AT by lia. rewrite (B D) by lia. set (r := rsum (D - 1) (term F g D)). transitivity (add r (mul (sub (f D) r) (mul ig (g 1)))); [ring|]. rewrite Hig. ring.
        + rewrite <- (A i) by lia. apply dirichlet_ext; [lia| |reflexivity]. intros j J. apply LOW. lia.
      - intros i I0. replace (S D - 1) with (S (D - 1)) by lia. cbn [RingSpec.rsum]. rewrite SUM. assert (TS : term F' g i (D - 1) = if i mod D =? 0 then mul (F' D) (g (i / D)) else zero) by (unfold term; now replace (S (D - 1)) with D by lia). rewrite TS, AT, E. clear TS. destruct (Nat.ltb_spec i n); [|lia]. rewrite andb_true_r.
        destruct (Nat.eqb_spec (i mod D) 0) as [M|M]; cbn [andb].
        + destruct (Nat.leb_spec (2 * D) i) as [K|K].
          * rewrite (B i) by lia. ring.
          * exfalso. apply Nat.mod_divides in M as [c M]; [|lia]. destruct c as [|[|c]]; nia.
        + destruct (Nat.eqb_spec i D); [lia|]. rewrite (B i) by lia. ring.
      - intros i I0. rewrite E. destruct (Nat.ltb_spec i n) as [K|K]; [|rewrite andb_false_r].
        + assert (i = 0) by lia. subst i. destruct (Nat.leb_spec (2 * D) 0); [lia|]. rewrite andb_false_r. cbn [andb]. destruct (Nat.eqb_spec 0 D); [lia|]. apply C. auto.
        + destruct (Nat.eqb_spec i D); [lia|]. apply C. auto.
    Qed.
    Lemma division_ok h : is_arr L F0 h -> tdiv one (g 1) = Some ig -> exists h' F, dirichlet_division one mul sub tdiv h f g n = Some h' /\ is_arr L F h' /\
      (forall i, 1 <= i < n -> dirichlet F g i = f i) /\ (forall i, i = 0 \/ n <= i -> F i = F0 i).
    Proof.
      intros HA HD. unfold dirichlet_division. rewrite HD. cbn [obind]. destruct (fill_arr L n 1 f F0 h HA HL) as (h1 & -> & H1). cbn [obind].
      destruct (Nat.le_gt_cases n 1) as [G|G].
      { exists h1, F0. split; [unfold for_range; replace (n - 1) with 0 by lia; reflexivity|]. split; [apply (arr_ext L _ _ _ H1); intros i _; destruct (Nat.leb_spec 1 i), (Nat.ltb_spec i n); try reflexivity; lia|]. split; [intros; lia|reflexivity]. }
      match goal with |- context[for_range 1 n ?body h1] => destruct (for_range_spec (fun D h' => exists F, is_arr L F h' /\ dinv D F) body 1 n h1) as (h2 & E & F & R & DI); [lia| | |] end.
      - eexists. split; [exact H1|]. split; [intros; lia|]. split; [|intros i [->|I0]; [reflexivity|]].
        + intros i I0. destruct (Nat.leb_spec 1 i), (Nat.ltb_spec i n); try lia. cbn [andb Nat.sub RingSpec.rsum]. ring.
        + destruct (Nat.ltb_spec i n); [lia|]. rewrite andb_false_r. reflexivity.
      - intros d t D (F & HT & DI). cbv beta. destruct (upd_arr L F t d (fun v => mul v ig) HT ltac:(lia)) as (t1 & -> & HT1). cbn [obind].
        set (F1 := fun y => if y =? d then mul (F d) ig else F y) in *.
        destruct (mult_loop L n d 2 (fun j v => sub v (mul (g j) (mul (F d) ig))) (fun j h => let* hd := nth_error h d in upd h (d * j) (fun v => sub v (mul (g j) hd))) F1 t1 HT1 HL ltac:(lia) ltac:(lia)) as (t2 & E2 & R2).
        { intros e F' t' E1 DE HT' FF. assert (ND : nth_error t' d = Some (mul (F d) ig)). { destruct HT' as [_ HT']. rewrite HT' by lia. rewrite FF by lia. unfold F1. now rewrite Nat.eqb_refl. }
          rewrite ND. cbn [obind]. destruct (upd_arr L F' t' (d * e) (fun v => sub v (mul (g e) (mul (F d) ig))) HT' ltac:(lia)) as (t3 & E3 & R3). exists t3. split; [exact E3|]. apply (arr_ext L _ _ _ R3). intros i _. cbv beta. destruct (Nat.eqb_spec i (d * e)) as [->|]; reflexivity. }
        exists t2. split; [exact E2|]. eexists. split; [exact R2|]. apply (dinv_step d F); [lia|exact DI|]. intros i. cbv beta. unfold F1.
        destruct (Nat.eqb_spec (i mod d) 0) as [M|M]; cbn [andb]; [|reflexivity]. destruct (Nat.leb_spec (2 * d) i) as [K|K]; cbn [andb]; [|reflexivity]. destruct (i <? n); [|reflexivity]. destruct (Nat.eqb_spec i d); [lia|reflexivity].
      - exists h2, F. split; [exact E|]. split; [exact R|]. destruct DI as (A & _ & C). auto.
    Qed.
  End Division.
End Dir.
