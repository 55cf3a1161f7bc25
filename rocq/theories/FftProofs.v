From Verif Require Import Lib BaseModel BaseProofs ModPowProofs RingSpec RingProofs FftModel FftSpec.
From Coq Require Import Ring Ring_theory Lia Arith.
Open Scope nat_scope.

Lemma pow2_pos n : 0 < 2 ^ n. Proof. apply Nat.neq_0_lt_0, Nat.pow_nonzero; lia. Qed.
Lemma pow2_S n : 2 ^ S n = 2 * 2 ^ n. Proof. reflexivity. Qed.
Lemma pow2_half n : 2 ^ S n / 2 = 2 ^ n. Proof. rewrite pow2_S, Nat.mul_comm. apply Nat.div_mul. lia. Qed.
Lemma pow2_gt n : n < 2 ^ n. Proof. apply Nat.pow_gt_lin_r. lia. Qed.

Section Fft.
  Context {T R : Type}.
  Variables (zero one : T) (add mul sub : T -> T -> T) (opp : T -> T).
  Hypothesis Rth : ring_theory zero one add mul sub opp (@eq T).
  Add Ring TR : Rth.
  Notation rsum := (rsum zero add). Notation rpow := (rpow one mul). Notation rnat := (rnat zero one add).
  Notation dft := (dft zero one add mul).
  Variables (ok : R -> Prop) (rmul : R -> R -> R) (rone : R) (inj : R -> T).
  Hypothesis RT : root_type one mul ok rmul rone inj.
  Notation half_root := (half_root one mul opp).
  Local Infix "+!" := add (at level 50). Local Infix "*!" := mul (at level 40). Local Infix "-!" := sub (at level 50).

  Lemma ok_one : ok rone. Proof using RT. apply RT. Qed.
  Lemma inj_one : inj rone = one. Proof using RT. apply RT. Qed.
  Lemma ok_mul a b : ok a -> ok b -> ok (rmul a b). Proof using RT. intros. now apply (proj2 (proj2 RT)). Qed.
  Lemma inj_mul a b : ok a -> ok b -> inj (rmul a b) = inj a *! inj b. Proof using RT. intros. now apply (proj2 (proj2 RT)). Qed.

  Definition P_add := rpow_add zero one add mul sub opp Rth.
  Definition P_mul := rpow_mul zero one add mul sub opp Rth.
  Definition P_mul_l := rpow_mul_l zero one add mul sub opp Rth.
  Definition P_1 := rpow_1 zero one add mul sub opp Rth.

  Lemma half_sq L w : half_root (2 ^ S (S L)) w -> half_root (2 ^ S L) (w *! w).
  Proof using Rth.
    intros H _. rewrite pow2_half. pose proof (pow2_pos L). rewrite pow2_S in H.
    rewrite P_mul_l. rewrite <- P_add. rewrite <- (H ltac:(rewrite pow2_S; lia)). f_equal.
    rewrite <- !pow2_S, pow2_half. rewrite pow2_S. lia.
  Qed.
  Lemma half_sq' L w : half_root (2 ^ S L) w -> half_root (2 ^ L) (w *! w).
  Proof using Rth. destruct L; [intros _ H; cbn in H; lia|apply half_sq]. Qed.
  Lemma half_pow L w : half_root (2 ^ S L) w -> rpow w (2 ^ L) = opp one.
  Proof using Type. intros H. rewrite <- H; [now rewrite pow2_half|]. rewrite pow2_S. pose proof (pow2_pos L). lia. Qed.
  Lemma full_pow L w : half_root (2 ^ S L) w -> rpow w (2 ^ S L) = one.
  Proof using Rth. intros H. rewrite pow2_S. replace (2 * 2 ^ L) with (2 ^ L + 2 ^ L) by lia. rewrite P_add, half_pow by auto. ring. Qed.
  Lemma opp_even n : rpow (opp one) (2 * n) = one.
  Proof using Rth. rewrite P_mul. cbn [RingSpec.rpow]. replace (one *! opp one *! opp one) with one by ring. apply P_1. Qed.
  Lemma opp_odd n : rpow (opp one) (2 * n + 1) = opp one.
  Proof using Rth. rewrite P_add, opp_even. cbn [RingSpec.rpow]. ring. Qed.

  (** sum over even and odd positions *)
  Lemma rsum_even_odd n f : rsum (2 * n) f = rsum n (fun j => f (2 * j)) +! rsum n (fun j => f (2 * j + 1)).
  Proof using Rth.
    induction n as [|n IH]; [cbn; ring|]. replace (2 * S n) with (S (S (2 * n))) by lia. rewrite !(rsum_S zero add), IH.
    replace (S (2 * n)) with (2 * n + 1) by lia. ring.
  Qed.

  (** the Cooley-Tukey identities *)
  Lemma dft_low L w a k : half_root (2 ^ S L) w ->
    dft (2 ^ S L) w a k = dft (2 ^ L) (w *! w) (fun j => a (2 * j)) k +! dft (2 ^ L) (w *! w) (fun j => a (2 * j + 1)) k *! rpow w k.
  Proof using Rth.
    intros _. unfold FftSpec.dft. rewrite pow2_S, rsum_even_odd. f_equal.
    - apply rsum_ext. intros j _. f_equal. rewrite P_mul_l, <- P_add. f_equal. lia.
    - rewrite <- (rsum_mul_r zero one add mul sub opp Rth). apply rsum_ext. intros j _. rewrite P_mul_l, <- P_add.
      replace ((2 * j + 1) * k) with (j * k + j * k + k) by lia. rewrite (P_add _ _ k). ring.
  Qed.
  Lemma dft_period L w a k : half_root (2 ^ S L) w -> dft (2 ^ S L) w a (k + 2 ^ S L) = dft (2 ^ S L) w a k.
  Proof using Rth.
    intros H. unfold FftSpec.dft. apply rsum_ext. intros j _. f_equal. rewrite Nat.mul_add_distr_l, P_add.
    rewrite (Nat.mul_comm j (2 ^ S L)), (P_mul _ (2 ^ S L) j), full_pow, P_1 by auto. ring.
  Qed.
  Lemma dft_period' L w a k : half_root (2 ^ S L) w -> dft (2 ^ L) (w *! w) a (k + 2 ^ L) = dft (2 ^ L) (w *! w) a k.
  Proof using Rth.
    intros H. destruct L as [|L]; [|apply dft_period, half_sq, H].
    unfold FftSpec.dft. cbn [Nat.pow rsum RingSpec.rsum RingSpec.rpow Nat.mul]. ring.
  Qed.
  Lemma dft_high L w a k : half_root (2 ^ S L) w ->
    dft (2 ^ S L) w a (k + 2 ^ L) = dft (2 ^ L) (w *! w) (fun j => a (2 * j)) k -! dft (2 ^ L) (w *! w) (fun j => a (2 * j + 1)) k *! rpow w k.
  Proof using Rth.
    intros H. rewrite dft_low by auto. rewrite !dft_period' by auto. rewrite P_add, half_pow by auto. ring.
  Qed.

  (** loads and stores *)
  Lemma store_spec e b i (v : T) : load e b i <> None ->
    exists e', store e b i v = Some e' /\ forall c j, load e' c j = if (c =? b) && (j =? i) then Some v else load e c j.
  Proof using Type.
    intros H. unfold load, store in *. destruct (set_nth_some (e b) i v) as [l E]. { apply nth_error_Some. auto. }
    rewrite E. eexists. split; [reflexivity|]. intros c j. cbv beta. destruct (Nat.eqb_spec c b) as [->|]; cbn [andb].
    - rewrite (set_nth_get _ _ _ _ j E), Nat.eqb_sym. reflexivity.
    - reflexivity.
  Qed.

  (** [e'] is [e] with the n cells from d of array b replaced by those of f *)
  Definition upd (e : mem) (b d n : nat) (f : nat -> T) (e' : mem) : Prop :=
    forall c x, load e' c x = if (c =? b) && ((d <=? x) && (x <? d + n)) then Some (f (x - d)) else load e c x.
  Lemma upd_in e b d n f e' j : upd e b d n f e' -> j < n -> load e' b (d + j) = Some (f j).
  Proof using Type.
    intros H Hj. rewrite H, Nat.eqb_refl. destruct (Nat.leb_spec d (d + j)); [|lia]. destruct (Nat.ltb_spec (d + j) (d + n)); [|lia]. cbn [andb]. do 2 f_equal. lia.
  Qed.
  Lemma upd_other e b d n f e' c x : upd e b d n f e' -> c <> b -> load e' c x = load e c x.
  Proof using Type. intros H Hc. rewrite H. destruct (Nat.eqb_spec c b); [easy|reflexivity]. Qed.
  Lemma upd_out e b d n f e' x : upd e b d n f e' -> ~ (d <= x < d + n) -> load e' b x = load e b x.
  Proof using Type. intros H Hx. rewrite H. destruct (Nat.leb_spec d x), (Nat.ltb_spec x (d + n)); try lia; now rewrite ?andb_false_r. Qed.
  Lemma upd_valid e b d n f e' c x : upd e b d n f e' -> load e c x <> None -> load e' c x <> None.
  Proof using Type. intros H Hx. rewrite H. destruct (_ && _); congruence. Qed.

  Notation load := (@load T). Notation store := (@store T).
  Notation fft_rec := (fft_rec add sub mul rmul rone inj).

  Lemma fft_rec_ok L : forall fuel e bd d bs s root off a, L < fuel -> bd <> bs -> ok root -> half_root (2 ^ L) (inj root) ->
    (forall j, j < 2 ^ L -> load e bs (s + j * off) = Some (a j)) -> (forall j, j < 2 ^ L -> load e bd (d + j) <> None) ->
    exists e', fft_rec fuel e bd d bs s (2 ^ L) root off = Some e' /\ upd e bd d (2 ^ L) (dft (2 ^ L) (inj root) a) e'.
  Proof using Rth RT.
    induction L as [|L IH]; intros fuel e bd d bs s root off a Hf Hb Hok Hr Hs Hd; (destruct fuel as [|fuel]; [lia|]); cbn [FftModel.fft_rec].
    - cbn [Nat.pow Nat.leb]. cbn [Nat.pow] in *. pose proof (Hs 0 ltac:(lia)) as S0. rewrite Nat.add_0_r in S0. rewrite S0. cbn [obind].
      pose proof (Hd 0 ltac:(lia)) as D0. rewrite Nat.add_0_r in D0.
      destruct (store_spec e bd d (a 0) D0) as (e' & E & Hl). exists e'. split; [exact E|].
      intros c x. rewrite Hl. destruct (Nat.eqb_spec c bd); cbn [andb]; [|reflexivity].
      destruct (Nat.eqb_spec x d) as [->|Hx].
      + rewrite Nat.leb_refl. destruct (Nat.ltb_spec d (d + 1)); [|lia]. cbn [andb]. unfold FftSpec.dft. cbn. f_equal. ring.
      + destruct (Nat.leb_spec d x), (Nat.ltb_spec x (d + 1)); try lia; reflexivity.
    - pose proof (pow2_pos L) as HP. pose proof (pow2_S L) as HS. pose proof (pow2_half L) as HH.
      replace (2 ^ S L <=? 1) with false by (symmetry; apply Nat.leb_gt; lia). rewrite HH.
      set (h := 2 ^ L) in *. set (w := inj root) in *.
      assert (Hw2 : inj (rmul root root) = w *! w) by (apply inj_mul; auto).
      assert (Hr2 : half_root (2 ^ L) (inj (rmul root root))) by (rewrite Hw2; apply half_sq', Hr).
      destruct (IH fuel e bd d bs s (rmul root root) (off * 2) (fun j => a (2 * j))) as (e1 & E1 & U1); auto using ok_mul; try lia.
      { intros j Hj. rewrite <- Hs by lia. f_equal. lia. } { intros j Hj. apply Hd. fold h in Hj. lia. }
      fold h in E1, U1. rewrite E1. cbn [obind].
      destruct (IH fuel e1 bd (d + h) bs (s + off) (rmul root root) (off * 2) (fun j => a (2 * j + 1))) as (e2 & E2 & U2); auto using ok_mul; try lia.
      { intros j Hj. fold h in Hj. rewrite (upd_other _ _ _ _ _ _ _ _ U1) by auto. rewrite <- Hs by lia. f_equal. lia. }
      { intros j Hj. fold h in Hj. apply (upd_valid _ _ _ _ _ _ _ _ U1). rewrite <- Nat.add_assoc. apply Hd. lia. }
      fold h in E2, U2. rewrite E2. cbn [obind]. rewrite Hw2 in U1, U2.
      set (Ev := dft h (w *! w) (fun j => a (2 * j))) in *. set (Od := dft h (w *! w) (fun j => a (2 * j + 1))) in *.
      set (F := fun i x => if x <? h then (if x <? i then Ev x +! Od x *! rpow w x else Ev x) else (if x - h <? i then Ev (x - h) -! Od (x - h) *! rpow w (x - h) else Od (x - h))).
      assert (U0 : upd e bd d (h + h) (F 0) e2).
      { intros c x. rewrite U2, U1. unfold F. destruct (Nat.eqb_spec c bd); cbn [andb]; [|reflexivity].
        destruct (Nat.leb_spec (d + h) x); destruct (Nat.ltb_spec x (d + h + h)); destruct (Nat.leb_spec d x); destruct (Nat.ltb_spec x (d + h)); destruct (Nat.ltb_spec x (d + (h + h))); try lia; cbn [andb]; try reflexivity.
        - destruct (Nat.ltb_spec (x - d) h); [lia|]. cbn [Nat.ltb Nat.leb]. do 2 f_equal. lia.
        - destruct (Nat.ltb_spec (x - d) h); [|lia]. reflexivity. }
      match goal with |- context[for_range 0 h ?body (e2, rone)] => destruct (for_range_spec (fun i '(e3, ri) => upd e bd d (h + h) (F i) e3 /\ ok ri /\ inj ri = rpow w i) body 0 h (e2, rone)) as ((e3 & ri) & E3 & U3 & _) end.
      + lia.
      + split; [exact U0|]. split; [apply ok_one|apply inj_one].
      + intros i (e3 & ri) Hi (U3 & Oi & Vi).
        assert (L1 : load e3 bd (d + i + h) = Some (Od i)).
        { rewrite <- Nat.add_assoc. rewrite (upd_in _ _ _ _ _ _ _ U3) by lia. unfold F. destruct (Nat.ltb_spec (i + h) h); [lia|]. destruct (Nat.ltb_spec (i + h - h) i); [lia|]. do 2 f_equal. lia. }
        assert (L2 : load e3 bd (d + i) = Some (Ev i)).
        { rewrite (upd_in _ _ _ _ _ _ _ U3) by lia. unfold F. destruct (Nat.ltb_spec i h); [|lia]. destruct (Nat.ltb_spec i i); [lia|]. reflexivity. }
        rewrite L1. cbn [obind]. rewrite L2. cbn [obind]. rewrite Vi.
        destruct (store_spec e3 bd (d + i + h) (Ev i -! Od i *! rpow w i)) as (e4 & E4 & U4); [congruence|]. rewrite E4. cbn [obind].
        assert (L3 : load e4 bd (d + i) = Some (Ev i)).
        { rewrite U4, Nat.eqb_refl. destruct (Nat.eqb_spec (d + i) (d + i + h)); [lia|]. exact L2. }
        rewrite L3. cbn [obind].
        destruct (store_spec e4 bd (d + i) (Ev i +! Od i *! rpow w i)) as (e5 & E5 & U5); [congruence|]. rewrite E5. cbn [obind].
        eexists. split; [reflexivity|]. split; [|split; [now apply ok_mul|rewrite inj_mul by auto; rewrite Vi; reflexivity]].
        intros c x. rewrite U5, U4, U3. destruct (Nat.eqb_spec c bd); cbn [andb]; [|reflexivity].
        destruct (Nat.eqb_spec x (d + i)) as [->|N1].
        * destruct (Nat.leb_spec d (d + i)), (Nat.ltb_spec (d + i) (d + (h + h))); try lia. cbn [andb]. unfold F. replace (d + i - d) with i by lia.
          destruct (Nat.ltb_spec i h), (Nat.ltb_spec i (S i)); try lia. reflexivity.
        * destruct (Nat.eqb_spec x (d + i + h)) as [->|N2].
          -- destruct (Nat.leb_spec d (d + i + h)), (Nat.ltb_spec (d + i + h) (d + (h + h))); try lia. cbn [andb]. unfold F. replace (d + i + h - d) with (i + h) by lia. replace (i + h - h) with i by lia.
             destruct (Nat.ltb_spec (i + h) h), (Nat.ltb_spec i (S i)); try lia. reflexivity.
          -- destruct (Nat.leb_spec d x), (Nat.ltb_spec x (d + (h + h))); cbn [andb]; try reflexivity. unfold F. f_equal.
             destruct (Nat.ltb_spec (x - d) h).
             ++ destruct (Nat.ltb_spec (x - d) i), (Nat.ltb_spec (x - d) (S i)); try lia; reflexivity.
             ++ destruct (Nat.ltb_spec (x - d - h) i), (Nat.ltb_spec (x - d - h) (S i)); try lia; reflexivity.
      + rewrite E3. cbn [obind]. exists e3. split; [reflexivity|].
        intros c x. rewrite U3. replace (d + 2 ^ S L) with (d + (h + h)) by lia. destruct (_ && _) eqn:B; [|reflexivity]. f_equal.
        apply andb_prop in B as [_ B]. apply andb_prop in B as [B1 B2]. apply Nat.leb_le in B1. apply Nat.ltb_lt in B2.
        unfold F. destruct (Nat.ltb_spec (x - d) h).
        * destruct (Nat.ltb_spec (x - d) h); [|lia]. rewrite dft_low by auto. reflexivity.
        * destruct (Nat.ltb_spec (x - d - h) h); [|lia]. transitivity (dft (2 ^ S L) w a (x - d - h + 2 ^ L)); [|f_equal; fold h; lia]. rewrite dft_high by auto. reflexivity.
  Qed.

  (** ** Orthogonality *)
  Lemma orth L : forall w t, half_root (2 ^ S L) w -> t mod 2 ^ S L <> 0 -> rsum (2 ^ S L) (fun x => rpow w (t * x)) = zero.
  Proof using Rth.
    induction L as [|L IH]; intros w t H Ht.
    - pose proof (half_pow 0 w H) as H1. cbn [Nat.pow Nat.mul Nat.add] in *. pose proof (Nat.div_mod t 2 ltac:(lia)) as DM. pose proof (Nat.mod_upper_bound t 2 ltac:(lia)).
      cbn [RingSpec.rsum]. rewrite Nat.mul_0_r, Nat.mul_1_r. rewrite DM. replace (t mod 2) with 1 by lia. rewrite P_add, P_mul.
      cbn [RingSpec.rpow] in *. assert (W : w = opp one) by (rewrite <- H1; ring). rewrite W. replace (one *! opp one *! opp one) with one by ring. rewrite P_1. ring.
    - pose proof (half_pow _ _ H) as H1. pose proof (Nat.div_mod t 2 ltac:(lia)) as DM. pose proof (Nat.mod_upper_bound t 2 ltac:(lia)).
      rewrite (pow2_S (S L)). replace (2 * 2 ^ S L) with (2 ^ S L + 2 ^ S L) by lia. rewrite (rsum_split zero one add mul sub opp Rth).
      assert (Q : forall x, rpow w (t * (2 ^ S L + x)) = rpow (opp one) t *! rpow w (t * x)).
      { intros x. rewrite Nat.mul_add_distr_l, P_add. f_equal. rewrite Nat.mul_comm, P_mul, H1. reflexivity. }
      rewrite (rsum_ext zero add (2 ^ S L) (fun x => rpow w (t * (2 ^ S L + x))) _ (fun x _ => Q x)).
      rewrite (rsum_mul_l zero one add mul sub opp Rth).
      assert (C : t mod 2 = 0 \/ t mod 2 = 1) by lia. destruct C as [C|C].
      + assert (Z0 : rsum (2 ^ S L) (fun x => rpow w (t * x)) = zero); [|rewrite Z0; ring].
        transitivity (rsum (2 ^ S L) (fun x => rpow (w *! w) (t / 2 * x))); [|apply IH].
        * apply rsum_ext. intros x _. rewrite P_mul_l, <- P_add. f_equal. nia.
        * apply half_sq, H.
        * intros E. apply Ht. rewrite DM, C, Nat.add_0_r. rewrite pow2_S. rewrite Nat.mul_mod_distr_l; [lia| |lia]. pose proof (pow2_pos (S L)). lia.
      + replace (rpow (opp one) t) with (opp one); [ring|]. transitivity (rpow (opp one) (2 * (t / 2) + 1)); [symmetry; apply opp_odd|f_equal; lia].
  Qed.
  Lemma orth_all L w t : half_root (2 ^ L) w -> rsum (2 ^ L) (fun x => rpow w (t * x)) = if t mod 2 ^ L =? 0 then rnat (2 ^ L) else zero.
  Proof using Rth.
    intros H. destruct (Nat.eqb_spec (t mod 2 ^ L) 0) as [E|E].
    - destruct L as [|L]. { cbn [Nat.pow RingSpec.rsum RingSpec.rnat]. rewrite Nat.mul_0_r. cbn. ring. }
      rewrite (rsum_ext zero add (2 ^ S L) _ (fun _ => one)).
      + rewrite (rsum_const zero one add mul sub opp Rth). ring.
      + intros x _. pose proof (pow2_pos (S L)). rewrite (Nat.div_mod t (2 ^ S L)) by lia. rewrite E, Nat.add_0_r. rewrite P_mul, P_mul, full_pow by auto. rewrite P_1. apply P_1.
    - destruct L as [|L]; [cbn in E; lia|]. now apply orth.
  Qed.
End Fft.
