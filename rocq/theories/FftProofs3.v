From Verif Require Import Lib BaseModel RingSpec RingProofs FftModel FftSpec FftProofs.
From Coq Require Import Ring Ring_theory Lia Arith.
Open Scope nat_scope.

(** j with its lowest L bits reversed *)
Fixpoint brev (L j : nat) : nat := match L with O => 0 | S L => (j mod 2) * 2 ^ L + brev L (j / 2) end.
Lemma div2_lt L t : t < 2 ^ S L -> t / 2 < 2 ^ L.
Proof. intros H. rewrite pow2_S in H. apply Nat.div_lt_upper_bound; lia. Qed.
Lemma brev_lt L j : brev L j < 2 ^ L.
Proof.
  revert j; induction L as [|L IH]; intros j; cbn [brev]; [cbn; lia|]. rewrite pow2_S. pose proof (Nat.mod_upper_bound j 2 ltac:(lia)). specialize (IH (j / 2)).
  assert (C : j mod 2 = 0 \/ j mod 2 = 1) by lia. destruct C as [-> | ->]; lia.
Qed.
Lemma brev_even L b : brev (S L) (2 * b) = brev L b.
Proof. cbn [brev]. rewrite (Nat.mul_comm 2 b), Nat.mod_mul, Nat.div_mul by lia. reflexivity. Qed.
Lemma brev_odd L b : brev (S L) (2 * b + 1) = 2 ^ L + brev L b.
Proof.
  cbn [brev]. replace (2 * b + 1) with (1 + b * 2) by lia. rewrite Nat.mod_add, Nat.div_add by lia. change (1 mod 2) with 1. change (1 / 2) with 0. cbn [Nat.add]. lia.
Qed.
Lemma parity j : exists b, j = 2 * b \/ j = 2 * b + 1.
Proof. exists (j / 2). pose proof (Nat.div_mod j 2 ltac:(lia)). pose proof (Nat.mod_upper_bound j 2 ltac:(lia)). lia. Qed.
Lemma brev_top L : forall c u, c < 2 -> u < 2 ^ L -> brev (S L) (c * 2 ^ L + u) = 2 * brev L u + c.
Proof.
  induction L as [|L IH]; intros c u Hc Hu.
  - cbn [Nat.pow] in *. assert (u = 0) by lia. subst. replace (c * 1 + 0) with c by lia. cbn [brev]. rewrite Nat.mod_small by lia. cbn. lia.
  - destruct (parity u) as (b & [-> | ->]); rewrite pow2_S in Hu.
    + replace (c * 2 ^ S L + 2 * b) with (2 * (c * 2 ^ L + b)) by (rewrite pow2_S; lia). rewrite brev_even, brev_even. apply IH; lia.
    + replace (c * 2 ^ S L + (2 * b + 1)) with (2 * (c * 2 ^ L + b) + 1) by (rewrite pow2_S; lia). rewrite brev_odd, brev_odd. rewrite IH by lia. rewrite pow2_S. lia.
Qed.
Lemma brev_inv L : forall j, j < 2 ^ L -> brev L (brev L j) = j.
Proof.
  induction L as [|L IH]; intros j Hj; [cbn in *; lia|]. pose proof (brev_lt L) as BL. rewrite pow2_S in Hj.
  destruct (parity j) as (b & [-> | ->]).
  - rewrite brev_even. rewrite <- (Nat.add_0_l (brev L b)), <- (Nat.mul_0_l (2 ^ L)), brev_top by (auto; lia). rewrite IH; lia.
  - rewrite brev_odd. rewrite <- (Nat.mul_1_l (2 ^ L)), brev_top by (auto; lia). rewrite IH; lia.
Qed.
Lemma brev_zero L : brev L 0 = 0.
Proof. induction L as [|L IH]; [reflexivity|]. change 0 with (2 * 0) at 1. rewrite brev_even. exact IH. Qed.
Lemma brev_last L : brev L (2 ^ L - 1) = 2 ^ L - 1.
Proof.
  induction L as [|L IH]; [reflexivity|]. pose proof (pow2_pos L). replace (2 ^ S L - 1) with (2 * (2 ^ L - 1) + 1) at 1 by (rewrite pow2_S; lia).
  rewrite brev_odd, IH, pow2_S. lia.
Qed.
Lemma lxor_pow2 p i : i < 2 ^ p -> Nat.lxor i (2 ^ p) = 2 ^ p + i /\ Nat.lxor (2 ^ p + i) (2 ^ p) = i.
Proof.
  intros H. assert (E : Nat.lxor i (2 ^ p) = 2 ^ p + i).
  { rewrite Nat.add_comm. symmetry. apply Nat.add_nocarry_lxor. apply Nat.bits_inj. intros n. rewrite Nat.land_spec, Nat.bits_0, Nat.pow2_bits_eqb.
    destruct (Nat.eqb_spec p n) as [->|]; [|apply andb_false_r]. rewrite andb_true_r.
    destruct (Nat.eq_dec i 0) as [->|N]; [apply Nat.bits_0|]. apply Nat.bits_above_log2. apply Nat.log2_lt_pow2; lia. }
  split; [exact E|]. rewrite <- E, Nat.lxor_assoc, Nat.lxor_nilpotent. apply Nat.lxor_0_r.
Qed.
Lemma rev_next_ok p : forall fuel t, p < fuel -> S t < 2 ^ S p -> rev_next fuel (brev (S p) t) (2 ^ p) = Some (brev (S p) (S t)).
Proof.
  induction p as [|p IH]; intros fuel t Hf Ht; (destruct fuel as [|fuel]; [lia|]); cbn [rev_next].
  - assert (t = 0) by (cbn in Ht; lia). subst. reflexivity.
  - destruct (parity t) as (b & [-> | ->]).
    + rewrite brev_even. pose proof (brev_lt (S p) b) as B. rewrite (proj1 (lxor_pow2 _ _ B)). destruct (Nat.ltb_spec (2 ^ S p + brev (S p) b) (2 ^ S p)); [lia|].
      replace (S (2 * b)) with (2 * b + 1) by lia. now rewrite brev_odd.
    + rewrite brev_odd. pose proof (brev_lt (S p) b) as B. rewrite (proj2 (lxor_pow2 _ _ B)). destruct (Nat.ltb_spec (brev (S p) b) (2 ^ S p)); [|lia].
      rewrite pow2_half. rewrite IH; [|lia|rewrite pow2_S in Ht; lia]. replace (S (2 * b + 1)) with (2 * S b) by lia. now rewrite brev_even.
Qed.

Definition is_arr {T} (n : nat) (f : nat -> T) (data : list T) : Prop := length data = n /\ forall x, x < n -> nth_error data x = Some (f x).
Lemma set_arr {T} n (f : nat -> T) data x v : is_arr n f data -> x < n -> exists data', set_nth data x v = Some data' /\ is_arr n (fun y => if y =? x then v else f y) data'.
Proof.
  intros [HL Hf] Hx. destruct (set_nth_some data x v ltac:(lia)) as [d E]. exists d. split; [exact E|]. split.
  - rewrite (set_nth_length _ _ _ _ E). exact HL.
  - intros y Hy. rewrite (set_nth_get _ _ _ _ y E), Nat.eqb_sym. destruct (Nat.eqb_spec y x); [reflexivity|]. now apply Hf.
Qed.
Lemma arr_ext {T} n (f g : nat -> T) data : is_arr n f data -> (forall x, x < n -> f x = g x) -> is_arr n g data.
Proof. intros [HL Hf] E. split; [exact HL|]. intros x Hx. rewrite Hf by auto. f_equal. now apply E. Qed.

Section Reorder.
  Context {T : Type}.
  Lemma reorder_ok L (f : nat -> T) data : is_arr (2 ^ L) f data -> exists data', fft_reorder (2 ^ L) data = Some data' /\ is_arr (2 ^ L) (fun x => f (brev L x)) data'.
  Proof.
    intros H. unfold fft_reorder. destruct L as [|L].
    { cbn [Nat.pow Nat.sub]. exists data. split; [reflexivity|]. apply (arr_ext _ _ _ _ H). intros x Hx. cbn in Hx. cbn [brev]. f_equal. lia. }
    set (n := 2 ^ S L) in *. assert (HN : 2 <= n). { unfold n. rewrite pow2_S. pose proof (pow2_pos L). lia. }
    set (rv := brev (S L)) in *. assert (Rlt : forall x, rv x < n) by (intros; apply brev_lt). assert (Rinv : forall x, x < n -> rv (rv x) = x) by (intros; apply brev_inv; auto).
    assert (R0 : rv 0 = 0) by apply brev_zero. assert (R1 : rv (n - 1) = n - 1) by apply brev_last.
    match goal with |- context[for_range 1 (n - 1) ?body _] =>
      destruct (for_range_spec (fun j '(d, i) => i = rv (j - 1) /\ is_arr n (fun x => if (x <? j) || (rv x <? j) then f (rv x) else f x) d) body 1 (n - 1) (data, 0)) as ((d & i) & E & _ & HD) end.
    - lia.
    - split; [symmetry; exact R0|]. apply (arr_ext _ _ _ _ H). intros x Hx. destruct (Nat.ltb_spec x 1) as [X|X]; cbn [orb].
      + assert (x = 0) by lia. subst x. now rewrite R0.
      + destruct (Nat.ltb_spec (rv x) 1) as [Y|Y]; [|reflexivity]. assert (X0 : rv x = 0) by lia. exfalso. pose proof (Rinv x Hx) as E. rewrite X0, R0 in E. lia.
    - intros j (d & i) Hj (-> & HD).
      assert (EN : rev_next (S n) (rv (j - 1)) (n / 2) = Some (rv j)).
      { unfold n, rv. rewrite pow2_half. rewrite rev_next_ok; [do 2 f_equal; lia| |fold n; lia]. pose proof (pow2_gt (S L)). lia. }
      rewrite EN. cbn [obind]. pose proof (Rlt j) as RJ. pose proof (Rinv j ltac:(lia)) as RI.
      destruct (Nat.ltb_spec j (rv j)) as [C|C].
      + rewrite (proj2 HD (rv j)) by auto. cbn [obind]. rewrite (proj2 HD j) by lia. cbn [obind]. rewrite RI.
        destruct (Nat.ltb_spec (rv j) j); [lia|]. destruct (Nat.ltb_spec j j); [lia|]. cbn [orb].
        destruct (set_arr _ _ d (rv j) (f j) HD RJ) as (d1 & -> & K1). cbn [obind].
        destruct (set_arr _ _ d1 j (f (rv j)) K1 ltac:(lia)) as (d2 & -> & K2). cbn [obind].
        eexists. split; [reflexivity|]. split; [f_equal; lia|]. apply (arr_ext _ _ _ _ K2). intros x Hx. cbv beta.
        destruct (Nat.eqb_spec x j) as [->|N1]. { destruct (Nat.ltb_spec j (S j)); [reflexivity|lia]. }
        destruct (Nat.eqb_spec x (rv j)) as [->|N2]. { rewrite RI. destruct (Nat.ltb_spec j (S j)); [|lia]. now rewrite orb_true_r. }
        assert (rv x <> j). { intros <-. apply N2. now rewrite Rinv. }
        destruct (Nat.ltb_spec x j), (Nat.ltb_spec x (S j)); try lia; cbn [orb]; [reflexivity|].
        destruct (Nat.ltb_spec (rv x) j), (Nat.ltb_spec (rv x) (S j)); try lia; reflexivity.
      + eexists. split; [reflexivity|]. split; [f_equal; lia|]. apply (arr_ext _ _ _ _ HD). intros x Hx. cbv beta.
        destruct (Nat.ltb_spec x j), (Nat.ltb_spec x (S j)); try lia; cbn [orb]; [reflexivity| |].
        * assert (x = j) by lia. subst x. destruct (Nat.ltb_spec (rv j) j); [reflexivity|]. f_equal. lia.
        * destruct (Nat.ltb_spec (rv x) j), (Nat.ltb_spec (rv x) (S j)); try lia; try reflexivity.
          assert (rv x = j) by lia. assert (x = rv j) by (subst j; now rewrite Rinv). lia.
    - rewrite E. cbn [obind]. exists d. split; [reflexivity|]. apply (arr_ext _ _ _ _ HD). intros x Hx. cbv beta.
      destruct (Nat.ltb_spec x (n - 1)); [reflexivity|]. assert (x = n - 1) by lia. subst x. rewrite R1. destruct (_ || _); reflexivity.
  Qed.
End Reorder.

Section Fft.
  Context {T R : Type}.
  Variables (zero one : T) (add mul sub : T -> T -> T) (opp : T -> T).
  Hypothesis Rth : ring_theory zero one add mul sub opp (@eq T).
  Add Ring TR : Rth.
  Notation rsum := (rsum zero add). Notation rpow := (rpow one mul).
  Notation dft := (dft zero one add mul).
  Notation half_root := (half_root one mul opp).
  Local Infix "+!" := add (at level 50). Local Infix "*!" := mul (at level 40). Local Infix "-!" := sub (at level 50).
  Notation P_add := (P_add zero one add mul sub opp Rth). Notation P_mul := (P_mul zero one add mul sub opp Rth). Notation P_mul_l := (P_mul_l zero one add mul sub opp Rth).
  Variables (ok : R -> Prop) (rmul : R -> R -> R) (rone : R) (inj : R -> T).
  Hypothesis RT : root_type one mul ok rmul rone inj.

  Lemma butterfly_ok n f data x h w : is_arr n f data -> 0 < h -> x + h < n ->
    exists data', butterfly add sub mul inj data x h w = Some data' /\ is_arr n (fun y => if y =? x + h then (f x -! f (x + h)) *! inj w else if y =? x then f x +! f (x + h) else f y) data'.
  Proof using Type.
    intros H Hh Hx. unfold butterfly. rewrite (proj2 H x), (proj2 H (x + h)) by lia. cbn [obind].
    destruct (set_arr _ _ data x (f x +! f (x + h)) H ltac:(lia)) as (d1 & -> & H1). cbn [obind].
    destruct (set_arr _ _ d1 (x + h) ((f x -! f (x + h)) *! inj w) H1 ltac:(lia)) as (d2 & -> & H2). now exists d2.
  Qed.

  (** the array after one pass *)
  Definition passed (m h : nat) (w : T) (f : nat -> T) (y : nat) : T :=
    if y mod m <? h then f y +! f (y + h) else (f (y - h) -! f y) *! rpow w (y mod m - h).
  Lemma pass_ok q h root f data : 0 < h -> ok root -> is_arr (q * (2 * h)) f data ->
    exists data', fft_pass add sub mul rmul rone inj (q * (2 * h)) (2 * h) root data = Some data' /\ is_arr (q * (2 * h)) (passed (2 * h) h (inj root) f) data'.
  Proof using RT.
    intros Hh Hok H. unfold fft_pass. rewrite Nat.div_mul by lia. replace (2 * h / 2) with h by (rewrite Nat.mul_comm, Nat.div_mul; lia).
    set (m := 2 * h) in *. set (n := q * m) in *. set (g := passed m h (inj root) f) in *.
    set (dn := fun b j y => (y <? b * m) || ((b * m <=? y) && (y <? b * m + j)) || ((b * m + h <=? y) && (y <? b * m + h + j))).
    match goal with |- context[for_range 0 q ?body data] =>
      destruct (for_range_spec (fun b d => is_arr n (fun y => if y <? b * m then g y else f y) d) body 0 q data) as (d & E & HD) end.
    - lia.
    - apply (arr_ext _ _ _ _ H). intros x _. reflexivity.
    - intros b d Hb HD. assert (BM : b * m + m <= n) by (unfold n; nia).
      match goal with |- context[for_range 0 h ?body (d, rone)] =>
        destruct (for_range_spec (fun j '(d, w) => is_arr n (fun y => if dn b j y then g y else f y) d /\ ok w /\ inj w = rpow (inj root) j) body 0 h (d, rone)) as ((d1 & w1) & E1 & H1 & _) end.
      + lia.
      + split; [|split; apply RT]. apply (arr_ext _ _ _ _ HD). intros x _. unfold dn.
        destruct (Nat.ltb_spec x (b * m)); cbn [orb]; [reflexivity|]. destruct (Nat.ltb_spec x (b * m + 0)), (Nat.ltb_spec x (b * m + h + 0)), (Nat.leb_spec (b * m + h) x), (Nat.leb_spec (b * m) x); try lia; reflexivity.
      + intros j (d1 & w) Hj (H1 & Ow & Vw).
        destruct (butterfly_ok n _ d1 (b * m + j) h w H1 Hh ltac:(lia)) as (d2 & -> & H2). cbn [obind].
        eexists. split; [reflexivity|]. split; [|split; [now apply RT|]].
        2:{ rewrite (proj2 (proj2 (proj2 RT) w root Ow Hok)), Vw. reflexivity. }
        apply (arr_ext _ _ _ _ H2). intros y Hy. cbv beta. rewrite Vw.
        assert (D1 : dn b j (b * m + j) = false). { unfold dn. destruct (Nat.ltb_spec (b * m + j) (b * m)), (Nat.ltb_spec (b * m + j) (b * m + j)), (Nat.leb_spec (b * m + h) (b * m + j)); try lia; now rewrite ?andb_false_r. }
        assert (D2 : dn b j (b * m + j + h) = false). { unfold dn. destruct (Nat.ltb_spec (b * m + j + h) (b * m)), (Nat.ltb_spec (b * m + j + h) (b * m + j)), (Nat.ltb_spec (b * m + j + h) (b * m + h + j)); try lia; now rewrite ?andb_false_r. }
        rewrite D1, D2.
        destruct (Nat.eqb_spec y (b * m + j + h)) as [->|N1].
        { replace (dn b (S j) (b * m + j + h)) with true. 2:{ symmetry. unfold dn. destruct (Nat.leb_spec (b * m + h) (b * m + j + h)), (Nat.ltb_spec (b * m + j + h) (b * m + h + S j)); try lia; cbn [andb]; now rewrite orb_true_r. }
          unfold g, passed. replace ((b * m + j + h) mod m) with (j + h). 2:{ replace (b * m + j + h) with (j + h + b * m) by lia. rewrite Nat.mod_add by (unfold m; lia). symmetry. apply Nat.mod_small. unfold m. lia. }
          destruct (Nat.ltb_spec (j + h) h); [lia|]. replace (b * m + j + h - h) with (b * m + j) by lia. replace (j + h - h) with j by lia. reflexivity. }
        destruct (Nat.eqb_spec y (b * m + j)) as [->|N2].
        { replace (dn b (S j) (b * m + j)) with true. 2:{ symmetry. unfold dn. destruct (Nat.leb_spec (b * m) (b * m + j)), (Nat.ltb_spec (b * m + j) (b * m + S j)); try lia; cbn [andb]; now rewrite orb_true_r. }
          unfold g, passed. replace ((b * m + j) mod m) with j. 2:{ rewrite Nat.add_comm, Nat.mod_add by (unfold m; lia). symmetry. apply Nat.mod_small. unfold m. lia. }
          destruct (Nat.ltb_spec j h); [|lia]. reflexivity. }
        replace (dn b (S j) y) with (dn b j y); [reflexivity|]. unfold dn. f_equal; [f_equal|].
        * f_equal. destruct (Nat.ltb_spec y (b * m + j)), (Nat.ltb_spec y (b * m + S j)); try lia; reflexivity.
        * f_equal. destruct (Nat.ltb_spec y (b * m + h + j)), (Nat.ltb_spec y (b * m + h + S j)); try lia; reflexivity.
      + rewrite E1. cbn [obind]. exists d1. split; [reflexivity|]. apply (arr_ext _ _ _ _ H1). intros y _. cbv beta.
        replace (dn b h y) with (y <? S b * m); [reflexivity|]. unfold dn. cbn [Nat.mul]. unfold m at 1.
        destruct (Nat.ltb_spec y (2 * h + b * m)), (Nat.ltb_spec y (b * m)), (Nat.leb_spec (b * m) y), (Nat.ltb_spec y (b * m + h)), (Nat.leb_spec (b * m + h) y), (Nat.ltb_spec y (b * m + h + h)); try lia; reflexivity.
    - exists d. split; [exact E|]. apply (arr_ext _ _ _ _ HD). intros y Hy. cbv beta. unfold n in Hy. destruct (Nat.ltb_spec y (q * m)); [reflexivity|lia].
  Qed.

  Lemma passes_ok A l : forall fuel p root f data, l < fuel -> ok root -> half_root (2 ^ l) (inj root) -> is_arr (2 ^ (p + l)) f data ->
    (forall b k, b < 2 ^ p -> k < 2 ^ l -> dft (2 ^ l) (inj root) (fun j => f (b * 2 ^ l + j)) k = A (k * 2 ^ p + brev p b)) ->
    exists data', fft_passes add sub mul rmul rone inj fuel (2 ^ (p + l)) (2 ^ l) root data = Some data' /\ is_arr (2 ^ (p + l)) (fun x => A (brev (p + l) x)) data'.
  Proof using Rth RT.
    induction l as [|l IH]; intros fuel p root f data Hf Hok Hr H HA; (destruct fuel as [|fuel]; [lia|]); cbn [fft_passes].
    - cbn [Nat.pow Nat.ltb Nat.leb]. exists data. split; [reflexivity|]. rewrite Nat.add_0_r in *. apply (arr_ext _ _ _ _ H). intros x Hx.
      pose proof (HA x 0 Hx ltac:(cbn; lia)) as E. cbn [Nat.mul Nat.add] in E. rewrite <- E. unfold FftSpec.dft. cbn [Nat.pow RingSpec.rsum RingSpec.rpow Nat.mul]. rewrite Nat.mul_1_r, Nat.add_0_r. ring.
    - pose proof (pow2_pos l) as HP. pose proof (pow2_S l) as HS. destruct (Nat.ltb_spec 1 (2 ^ S l)); [|lia].
      assert (SZ : 2 ^ (p + S l) = 2 ^ p * (2 * 2 ^ l)) by (rewrite <- pow2_S, <- Nat.pow_add_r; reflexivity).
      rewrite SZ in H. destruct (pass_ok (2 ^ p) (2 ^ l) root f data HP Hok H) as (d1 & E1 & H1). rewrite <- SZ, <- HS in E1. rewrite E1. cbn [obind]. rewrite pow2_half.
      replace (p + S l) with (S p + l) by lia.
      replace (2 ^ p * (2 * 2 ^ l)) with (2 ^ (S p + l)) in H1 by (rewrite Nat.pow_add_r, pow2_S; lia).
      assert (W2 : inj (rmul root root) = inj root *! inj root) by (apply RT; auto).
      apply IH with (2 := proj1 (proj2 (proj2 RT) root root Hok Hok)) (4 := H1); [lia|rewrite W2; now apply (half_sq' zero one add mul sub opp Rth)|].
      rewrite W2. set (w := inj root) in *. intros b k Hb Hk. set (h := 2 ^ l) in *.
      assert (Hh : rpow w h = opp one) by (apply (half_pow one mul opp l w Hr)).
      destruct (parity b) as (c & [-> | ->]); rewrite pow2_S in Hb.
      + rewrite brev_even. transitivity (A ((2 * k) * 2 ^ p + brev p c)); [|f_equal; rewrite pow2_S; lia].
        rewrite <- HA by lia. unfold FftSpec.dft. rewrite HS. replace (2 * h) with (h + h) by lia. rewrite (rsum_split zero one add mul sub opp Rth h h).
        rewrite <- (rsum_add zero one add mul sub opp Rth). apply rsum_ext. intros j Hj. unfold passed.
        replace ((2 * c * h + j) mod (h + h)) with j. 2:{ replace (2 * c * h + j) with (j + c * (h + h)) by lia. rewrite Nat.mod_add by lia. symmetry. apply Nat.mod_small. lia. }
        destruct (Nat.ltb_spec j h); [|lia]. rewrite P_mul_l, <- P_add.
        replace (rpow w (j * (2 * k))) with (rpow w (j * k + j * k)) by (f_equal; lia).
        replace (rpow w ((h + j) * (2 * k))) with (rpow w (j * k + j * k)).
        2:{ replace ((h + j) * (2 * k)) with (h * (2 * k) + (j * k + j * k)) by lia. rewrite (P_add _ (h * (2 * k))), (P_mul _ h), Hh, (opp_even zero one add mul sub opp Rth). ring. }
        replace (c * (h + h) + j) with (2 * c * h + j) by lia. replace (c * (h + h) + (h + j)) with (2 * c * h + j + h) by lia. ring.
      + rewrite brev_odd. transitivity (A ((2 * k + 1) * 2 ^ p + brev p c)); [|f_equal; rewrite pow2_S; lia].
        rewrite <- HA by lia. unfold FftSpec.dft. rewrite HS. replace (2 * h) with (h + h) by lia. rewrite (rsum_split zero one add mul sub opp Rth h h).
        rewrite <- (rsum_add zero one add mul sub opp Rth). apply rsum_ext. intros j Hj. unfold passed.
        replace (((2 * c + 1) * h + j) mod (h + h)) with (h + j). 2:{ replace ((2 * c + 1) * h + j) with (h + j + c * (h + h)) by lia. rewrite Nat.mod_add by lia. symmetry. apply Nat.mod_small. lia. }
        destruct (Nat.ltb_spec (h + j) h); [lia|]. rewrite P_mul_l, <- P_add.
        replace (rpow w (j * (2 * k + 1))) with (rpow w (j * k + j * k) *! rpow w j) by (rewrite <- P_add; f_equal; lia).
        replace (rpow w ((h + j) * (2 * k + 1))) with (opp (rpow w (j * k + j * k) *! rpow w j)).
        2:{ replace ((h + j) * (2 * k + 1)) with (h * (2 * k + 1) + (j * k + j * k + j)) by lia. rewrite (P_add _ (h * (2 * k + 1))), (P_mul _ h), Hh, (opp_odd zero one add mul sub opp Rth). rewrite (P_add _ (j * k + j * k) j). ring. }
        replace (c * (h + h) + j) with ((2 * c + 1) * h + j - h) by lia. replace (c * (h + h) + (h + j)) with ((2 * c + 1) * h + j) by lia.
        replace (h + j - h) with j by lia. ring.
  Qed.

  Lemma land_pow2 L : Nat.land (2 ^ L) (2 ^ L - 1) = 0.
  Proof using Type. replace (2 ^ L - 1) with (Nat.ones L) by (rewrite Nat.ones_equiv; lia). rewrite Nat.land_ones. apply Nat.mod_same. apply Nat.pow_nonzero. lia. Qed.
  Lemma fft_ok L a data root : ok root -> half_root (2 ^ L) (inj root) -> is_arr (2 ^ L) a data ->
    exists data', fft add sub mul rmul rone inj data (2 ^ L) root = Some data' /\ is_arr (2 ^ L) (dft (2 ^ L) (inj root) a) data'.
  Proof using Rth RT.
    intros Hok Hr H. unfold fft. rewrite land_pow2. cbn [Nat.eqb negb].
    destruct (passes_ok (dft (2 ^ L) (inj root) a) L (S (2 ^ L)) 0 root a data) as (d1 & E1 & H1); auto.
    { pose proof (pow2_gt L). lia. }
    { intros b k Hb Hk. assert (b = 0) by (cbn in Hb; lia). subst b. cbn [brev Nat.pow]. rewrite Nat.mul_1_r, Nat.add_0_r. unfold FftSpec.dft. apply rsum_ext. reflexivity. }
    cbn [Nat.add] in E1, H1. rewrite E1. cbn [obind].
    destruct (reorder_ok L _ d1 H1) as (d2 & E2 & H2). exists d2. split; [exact E2|]. apply (arr_ext _ _ _ _ H2). intros x Hx. cbv beta. now rewrite brev_inv.
  Qed.
  Lemma fft_other size data root : size <> 0 -> (forall L, size <> 2 ^ L) -> fft add sub mul rmul rone inj data size root = Some data.
  Proof using Type.
    intros H0 H. unfold fft. replace (Nat.land size (size - 1) =? 0) with false; [reflexivity|]. symmetry. apply Nat.eqb_neq. intros E.
    pose proof (Nat.log2_spec size ltac:(lia)) as [LO HI]. set (L := Nat.log2 size) in *. specialize (H L).
    assert (X : Nat.testbit (Nat.land size (size - 1)) L = true).
    { rewrite Nat.land_spec. rewrite andb_true_iff. split; [apply Nat.bit_log2; lia|]. replace L with (Nat.log2 (size - 1)); [apply Nat.bit_log2; pose proof (pow2_pos L); lia|]. apply Nat.log2_unique; lia. }
    rewrite E, Nat.bits_0 in X. discriminate.
  Qed.
End Fft.
