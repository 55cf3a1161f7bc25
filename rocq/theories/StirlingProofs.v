From Coq Require Import Ring Ring_theory.
From Verif Require Import Lib BaseModel BaseProofs RangesModel RangesSpec RingSpec RingProofs RangesProofs.
Local Open Scope nat_scope.

(** integer triangles with a(i,i) = 1, a(i,j) = a(i-1,j-1) + f(i,j) a(i-1,j) *)
Fixpoint tri (f : nat -> nat -> Z) (i j : nat) : Z :=
  match i with
  | O => if j =? 0 then 1%Z else 0%Z
  | S i' => ((match j with O => 0 | S j' => tri f i' j' end) + f i j * tri f i' j)%Z
  end.
Definition S1 : nat -> nat -> Z := tri (fun i _ => - (Z.of_nat i - 1))%Z.
Definition S2 : nat -> nat -> Z := tri (fun _ j => Z.of_nat j).

Section Tri.
  Variable f : nat -> nat -> Z.
  Lemma tri_above i : forall j, i < j -> tri f i j = 0%Z.
  Proof.
    induction i as [|i IH]; intros j Hj; cbn [tri]; [destruct (Nat.eqb_spec j 0); [lia|reflexivity]|].
    destruct j as [|j]; [lia|]. rewrite !IH by lia. lia.
  Qed.
  Lemma tri_diag i : tri f i i = 1%Z.
  Proof. induction i as [|i IH]; cbn [tri]; [reflexivity|]. rewrite IH, tri_above by lia. lia. Qed.
End Tri.

Lemma S1_0 i : 0 < i -> S1 i 0 = 0%Z.
Proof.
  intros Hi. destruct i as [|i]; [lia|]. clear Hi. unfold S1. induction i as [|i IH]; [reflexivity|].
  cbn [tri] in *. rewrite IH. ring.
Qed.
Lemma S2_0 i : 0 < i -> S2 i 0 = 0%Z.
Proof. intros Hi. destruct i as [|i]; [lia|]. unfold S2. cbn [tri]. lia. Qed.

Local Open Scope Z_scope.
Definition Zring := InitialRing.Zth.
Local Notation zs := (rsum 0 Z.add).
Lemma zpow_S x n : x ^ Z.of_nat (S n) = x ^ Z.of_nat n * x.
Proof. rewrite Nat2Z.inj_succ, Z.pow_succ_r by lia. ring. Qed.

Lemma S1_identity x n : zff x n = zs (S n) (fun j => S1 n j * x ^ Z.of_nat j).
Proof.
  induction n as [|n IH]; [cbn; ring|]. cbn [zff]. rewrite IH.
  rewrite (rsum_S_l _ _ _ _ _ _ Zring (S n)), S1_0 by lia.
  rewrite (rsum_ext _ _ (S n) (fun j => S1 (S n) (S j) * x ^ Z.of_nat (S j)) (fun j => x * (S1 n j * x ^ Z.of_nat j) - Z.of_nat n * (S1 n (S j) * x ^ Z.of_nat (S j)))).
  2:{ intros j Hj. unfold S1 at 1. cbn [tri].  rewrite zpow_S, Nat2Z.inj_succ. unfold S1. ring. }
  rewrite (rsum_sub _ _ _ _ _ _ Zring), !(rsum_mul_l _ _ _ _ _ _ Zring).
  (* sum of S1 n (j+1) x^(j+1) for j <= n  =  whole sum minus the j=0 term *)
  assert (X : zs (S n) (fun j => S1 n (S j) * x ^ Z.of_nat (S j)) = zs (S n) (fun j => S1 n j * x ^ Z.of_nat j) - S1 n 0).
  { rewrite (rsum_S _ _ n (fun j => S1 n (S j) * _)). rewrite (rsum_S_l _ _ _ _ _ _ Zring n). unfold S1 at 2. rewrite tri_above by lia. 
    change (x ^ Z.of_nat 0) with 1. ring. }
  rewrite X. destruct n as [|n]; [change (Z.of_nat 0) with 0; ring|]. rewrite S1_0 by lia. ring.
Qed.
Lemma S2_identity x n : x ^ Z.of_nat n = zs (S n) (fun j => S2 n j * zff x j).
Proof.
  induction n as [|n IH]; [cbn; ring|]. rewrite zpow_S, IH.
  rewrite (rsum_S_l _ _ _ _ _ _ Zring (S n)), S2_0 by lia.
  rewrite (rsum_ext _ _ (S n) (fun j => S2 (S n) (S j) * zff x (S j)) (fun j => S2 n j * zff x (S j) + Z.of_nat (S j) * (S2 n (S j) * zff x (S j)))).
  2:{ intros j Hj. unfold S2 at 1. cbn [tri]. unfold S2. ring. }
  rewrite (rsum_add _ _ _ _ _ _ Zring).
  assert (X : zs (S n) (fun j => Z.of_nat (S j) * (S2 n (S j) * zff x (S j))) = zs (S n) (fun j => Z.of_nat j * (S2 n j * zff x j))).
  { rewrite (rsum_S _ _ n (fun j => Z.of_nat (S j) * _)). rewrite (rsum_S_l _ _ _ _ _ _ Zring n). unfold S2 at 2. rewrite tri_above by lia. 
    change (Z.of_nat 0) with 0. ring. }
  rewrite X. rewrite <- (rsum_mul_r _ _ _ _ _ _ Zring).
  rewrite (rsum_ext _ _ (S n) (fun i => S2 n i * zff x i * x) (fun j => S2 n j * zff x (S j) + Z.of_nat j * (S2 n j * zff x j))).
  2:{ intros j _. cbn [zff]. ring. }
  rewrite (rsum_add _ _ _ _ _ _ Zring). ring.
Qed.

Local Open Scope nat_scope.
Section Table.
  Context {T : Type} (zero id : T) (add mul sub : T -> T -> T) (neg : T -> T) (cast : Z -> T).
  Hypothesis Rth : ring_theory zero id add mul sub neg (@eq T).
  Add Ring Tr2 : Rth.
  Hypothesis c0 : cast 0%Z = zero.
  Hypothesis c1 : cast 1%Z = id.
  Hypothesis cadd : forall a b, cast (a + b)%Z = add (cast a) (cast b).
  Hypothesis cmul : forall a b, cast (a * b)%Z = mul (cast a) (cast b).
  Variable op : T -> T -> T.
  Variable c : nat -> nat -> Z.
  Variable f : nat -> nat -> Z.
  Hypothesis Hop : forall a b i j, op a (mul b (cast (c i j))) = add a (mul (cast (f i j)) b).
  Hypothesis Hf0 : forall i, 0 < i -> tri f i 0 = 0%Z.
  Variable k : nat.

  Definition row_ok (i : nat) (row : list T) : Prop :=
    length row = Nat.min (i + 1) k /\ forall j, j < Nat.min (i + 1) k -> nth_error row j = Some (cast (tri f i j)).
  Lemma stirling_row_spec s i : length s = i -> (forall i', i' < i -> exists row, nth_error s i' = Some row /\ row_ok i' row) ->
    exists row, stirling_row zero id mul cast op c k s i = Some (s ++ [row]) /\ row_ok i row.
  Proof using Rth c0 c1 cadd cmul Hop Hf0.
    intros HL Hs. unfold stirling_row.
    assert (G : exists row, for_range 1 (Nat.min i k) (fun j row => 
        let* p := nth_error s (i - 1) in let* a := nth_error p (j - 1) in let* b := nth_error p j in
        set_nth row j (op a (mul b (cast (c i j))))) (repeat zero (Nat.min (i + 1) k)) = Some row /\
        length row = Nat.min (i + 1) k /\ forall j, j < Nat.min i k -> (0 < i) -> nth_error row j = Some (cast (tri f i j))).
    { destruct (Nat.le_gt_cases (Nat.min i k) 1) as [L|L].
      - unfold for_range. replace (Nat.min i k - 1) with 0 by lia. cbn [for_n]. eexists. split; [reflexivity|]. split; [apply repeat_length|].
        intros j Hj Hi. assert (j = 0) by lia. subst j. rewrite Hf0, c0 by lia. 
        destruct (Nat.min (i + 1) k) as [|q] eqn:Eq; [lia|]. reflexivity.
      - destruct (for_range_spec (fun j row => length row = Nat.min (i + 1) k /\ (forall j', j' < j -> nth_error row j' = Some (cast (tri f i j'))))
          (fun j row => let* p := nth_error s (i - 1) in let* a := nth_error p (j - 1) in let* b := nth_error p j in
            set_nth row j (op a (mul b (cast (c i j))))) 1 (Nat.min i k) (repeat zero (Nat.min (i + 1) k))) as (row & E & H1 & H2).
        + lia.
        + split; [apply repeat_length|]. intros j Hj. assert (j = 0) by lia. subst j. rewrite Hf0, c0 by lia. 
          destruct (Nat.min (i + 1) k) as [|q] eqn:Eq; [lia|]. reflexivity.
        + intros j row Hj [R1 R2]. destruct (Hs (i - 1) ltac:(lia)) as (p & Ep & P1 & P2). rewrite Ep. cbn [obind].
          replace (i - 1 + 1) with i in * by lia.
          rewrite P2 by lia. cbn [obind]. rewrite P2 by lia. cbn [obind].
          destruct (set_nth_some row j (op (cast (tri f (i - 1) (j - 1))) (mul (cast (tri f (i - 1) j)) (cast (c i j)))) ltac:(lia)) as (row' & E').
          rewrite E'. eexists; split; [reflexivity|]. split; [rewrite (set_nth_length _ _ _ _ E'); exact R1|].
          intros j' Hj'. rewrite (set_nth_get _ _ _ _ j' E'). destruct (Nat.eqb_spec j j') as [<-|N]; [|apply R2; lia].
          f_equal. rewrite Hop. destruct i as [|i]; [lia|]. destruct j as [|j]; [lia|]. cbn [tri]. replace (S i - 1) with i by lia. replace (S j - 1) with j by lia.
          rewrite cadd, cmul. reflexivity.
        + exists row. split; [exact E|]. split; [exact H1|]. intros j Hj _. apply H2. exact Hj. }
    destruct G as (row & E & L & G). rewrite E. cbn [obind]. destruct (Nat.ltb_spec i k) as [Lk|Lk].
    - destruct (set_nth_some row i id ltac:(lia)) as (row' & E'). rewrite E'. cbn [obind]. exists row'. split; [reflexivity|].
      split; [rewrite (set_nth_length _ _ _ _ E'); exact L|]. intros j Hj. rewrite (set_nth_get _ _ _ _ j E').
      destruct (Nat.eqb_spec i j) as [<-|N]; [now rewrite tri_diag, c1|]. apply G; lia.
    - cbn [obind]. exists row. split; [reflexivity|]. split; [exact L|]. intros j Hj. destruct i as [|i]; [lia|]. apply G; lia.
  Qed.
  Lemma stirling_table_spec n : exists s, for_range 0 n (fun i s => stirling_row zero id mul cast op c k s i) [] = Some s /\
    length s = n /\ forall i, i < n -> exists row, nth_error s i = Some row /\ row_ok i row.
  Proof using Rth c0 c1 cadd cmul Hop Hf0.
    destruct (for_range_spec (fun i s => length s = i /\ forall i', i' < i -> exists row, nth_error s i' = Some row /\ row_ok i' row)
      (fun i s => stirling_row zero id mul cast op c k s i) 0 n []) as (s & E & L & H).
    - lia.
    - split; [reflexivity|]. intros; lia.
    - intros i s Hi [L H]. destruct (stirling_row_spec s i L H) as (row & E & Ro). rewrite E. eexists; split; [reflexivity|].
      split; [rewrite app_length; cbn; lia|]. intros i' Hi'. destruct (Nat.eq_dec i' i) as [->|N].
      + exists row. split; [|exact Ro]. rewrite nth_error_app2 by lia. rewrite L, Nat.sub_diag. reflexivity.
      + destruct (H i' ltac:(lia)) as (r & E1 & R1). exists r. split; [|exact R1]. rewrite nth_error_app1 by lia. exact E1.
    - exists s. split; [exact E|]. split; [exact L|exact H].
  Qed.
End Table.

(* ---------------------------------------------------------------- the explicit formula *)
Local Open Scope Z_scope.
(** binomial coefficients *)
Fixpoint zbin (n k : nat) : Z :=
  match n, k with
  | _, O => 1
  | O, S _ => 0
  | S n, S k => zbin n k + zbin n (S k)
  end.
Lemma zbin_above n : forall k, (n < k)%nat -> zbin n k = 0.
Proof. induction n as [|n IH]; intros [|k] H; try lia; cbn [zbin]; [reflexivity|]. rewrite !IH by lia. reflexivity. Qed.
Lemma zbin_0 n : zbin n 0 = 1. Proof. destruct n; reflexivity. Qed.
Lemma zbin_absorb n : forall k, Z.of_nat (S k) * zbin (S n) (S k) = Z.of_nat (S n) * zbin n k.
Proof.
  induction n as [|n IH]; intros k.
  - destruct k as [|k]; [reflexivity|]. rewrite !zbin_above by lia. lia.
  - cbn [zbin]. fold (zbin (S n) k). fold (zbin n (S k)).
    destruct k as [|k].
    + pose proof (IH 0%nat) as H. cbn [zbin] in H. rewrite !zbin_0 in *. cbn [zbin]. rewrite ?zbin_0 in *. lia.
    + pose proof (IH (S k)) as H1. pose proof (IH k) as H2. cbn [zbin] in *. lia.
Qed.
(** (n-k) C(n,k) = n C(n-1,k) *)
Lemma zbin_absorb2 n k : (k <= S n)%nat -> (Z.of_nat (S n) - Z.of_nat k) * zbin (S n) k = Z.of_nat (S n) * zbin n k.
Proof.
  intros Hk. destruct k as [|k]; [rewrite !zbin_0; lia|]. pose proof (zbin_absorb n k) as H. cbn [zbin] in *. lia.
Qed.
(** (k+1) C(n,k+1) = (n-k) C(n,k) *)
Lemma zbin_next n k : (k <= n)%nat -> Z.of_nat (S k) * zbin n (S k) = (Z.of_nat n - Z.of_nat k) * zbin n k.
Proof.
  intros Hk. destruct n as [|n]; [replace k with 0%nat by lia; reflexivity|]. rewrite zbin_absorb, zbin_absorb2 by lia. reflexivity.
Qed.
Definition alt (m : nat) : Z := if Nat.even m then 1 else -1.
Lemma alt_S m : alt (S m) = - alt m.
Proof. unfold alt. rewrite Nat.even_succ, <- Nat.negb_even. destruct (Nat.even m); reflexivity. Qed.
Definition Dsum (n k : nat) : Z := zs (S k) (fun j => alt (k - j) * zbin k j * Z.of_nat j ^ Z.of_nat n).
Lemma Dsum_rec n k : Dsum (S n) (S k) = Z.of_nat (S k) * (Dsum n (S k) + Dsum n k).
Proof.
  unfold Dsum. rewrite (rsum_ext _ _ (S (S k)) (fun j => alt (S k - j) * zbin (S k) j * Z.of_nat j ^ Z.of_nat (S n))
    (fun j => Z.of_nat (S k) * (alt (S k - j) * zbin (S k) j * Z.of_nat j ^ Z.of_nat n) - Z.of_nat (S k) * (alt (S k - j) * zbin k j * Z.of_nat j ^ Z.of_nat n))).
  2:{ intros j Hj. rewrite zpow_S. pose proof (zbin_absorb2 k j ltac:(lia)) as H.
      replace (Z.of_nat (S k) * (alt (S k - j) * zbin k j * Z.of_nat j ^ Z.of_nat n)) with (alt (S k - j) * Z.of_nat j ^ Z.of_nat n * (Z.of_nat (S k) * zbin k j)) by ring.
      rewrite <- H. ring. }
  rewrite (rsum_sub _ _ _ _ _ _ Zring), !(rsum_mul_l _ _ _ _ _ _ Zring).
  rewrite (rsum_S _ _ (S k) (fun j => alt (S k - j) * zbin k j * _)). rewrite zbin_above by lia.
  rewrite (rsum_ext _ _ (S k) (fun j => alt (S k - j) * zbin k j * Z.of_nat j ^ Z.of_nat n) (fun j => - (alt (k - j) * zbin k j * Z.of_nat j ^ Z.of_nat n))).
  2:{ intros j Hj. replace (S k - j)%nat with (S (k - j)) by lia. rewrite alt_S. ring. }
  rewrite (rsum_opp _ _ _ _ _ _ Zring). ring.
Qed.
Definition zf (n : nat) : Z := Z.of_nat (fact n).
Lemma zf_S n : zf (S n) = Z.of_nat (S n) * zf n. Proof. unfold zf. cbn [fact]. lia. Qed.
Lemma alt_bin_sum k : zs (S (S k)) (fun j => alt (S k - j) * zbin (S k) j) = 0.
Proof.
  rewrite (rsum_S_l _ _ _ _ _ _ Zring). rewrite (rsum_ext _ _ (S k) _ (fun j => alt (k - j) * zbin k j + alt (k - j) * zbin k (S j))).
  2:{ intros j Hj. replace (S k - S j)%nat with (k - j)%nat by lia. cbn [zbin]. ring. }
  rewrite (rsum_add _ _ _ _ _ _ Zring). rewrite (rsum_S _ _ k (fun j => alt (k - j) * zbin k (S j))). rewrite (zbin_above k (S k)) by lia.
  rewrite (rsum_S_l _ _ _ _ _ _ Zring k (fun j => alt (k - j) * zbin k j)).
  rewrite (rsum_ext _ _ k (fun j => alt (k - j) * zbin k (S j)) (fun j => - (alt (k - S j) * zbin k (S j)))).
  2:{ intros j Hj. replace (k - j)%nat with (S (k - S j)) by lia. rewrite alt_S. ring. }
  rewrite (rsum_opp _ _ _ _ _ _ Zring). rewrite !zbin_0. replace (S k - 0)%nat with (S k) by lia. rewrite alt_S. replace (k - 0)%nat with k by lia. ring.
Qed.
Lemma Dsum_S2 n : forall k, Dsum n k = zf k * S2 n k.
Proof.
  induction n as [|n IH]; intros k.
  - unfold Dsum. change (Z.of_nat 0) with 0. rewrite (rsum_ext _ _ _ _ (fun j => alt (k - j) * zbin k j)) by (intros; rewrite Z.pow_0_r; ring).
    destruct k as [|k]; [reflexivity|]. rewrite alt_bin_sum. unfold S2. cbn [tri]. cbn [Nat.eqb]. ring.
  - destruct k as [|k]; [unfold Dsum; cbn [RingSpec.rsum]; rewrite S2_0 by lia; rewrite Nat2Z.inj_succ, Z.pow_succ_r by lia; change (Z.of_nat 0) with 0; ring|].
    rewrite Dsum_rec, !IH, zf_S. unfold S2. cbn [tri]. ring.
Qed.

Lemma stirling_s2_loop_spec n (k : nat) : forall m j b f r, (m + j = k)%nat -> b = zbin k j -> f = zf j -> 
  r = zs (S j) (fun i => alt (k - i) * zbin k i * Z.of_nat i ^ Z.of_nat n) ->
  stirling_s2_loop m (Z.of_nat n) (Z.of_nat k) (Z.of_nat (S j)) b f r = Some (S2 n k).
Proof.
  induction m as [|m IH]; intros j b f r Hm Hb Hf Hr; cbn [stirling_s2_loop].
  - assert (j = k) by lia. subst j. fold (Dsum n k) in Hr. rewrite Dsum_S2 in Hr. subst. 
    assert (zf k <> 0) by (unfold zf; pose proof (lt_O_fact k); lia). rewrite cdiv_some by assumption. f_equal. rewrite Z.mul_comm. apply Z.quot_mul. assumption.
  - assert (E : b * (Z.of_nat k + 1 - Z.of_nat (S j)) = zbin k (S j) * Z.of_nat (S j)).
    { subst b. pose proof (zbin_next k j ltac:(lia)). rewrite (Z.mul_comm (zbin k (S j))), H. lia. }
    rewrite E, cdiv_some by lia. cbn [obind]. rewrite Z.quot_mul by lia. rewrite (powT_npow Z.mul 1) by (intros; lia). cbn [obind].
    rewrite Z.mul_1_l, Nat2Z.id.
    assert (PW : npow Z.mul 1 (Z.of_nat (S j)) n = Z.of_nat (S j) ^ Z.of_nat n).
    { clear. generalize (Z.of_nat (S j)) as x. intros x. induction n as [|n IH]; [reflexivity|]. cbn [npow]. rewrite IH, zpow_S. ring. }
    rewrite PW. replace (Z.of_nat (S j) + 1) with (Z.of_nat (S (S j))) by lia. apply IH; [lia|reflexivity|subst f; rewrite zf_S; ring|].
    rewrite (rsum_S _ _ (S j)), <- Hr. f_equal. replace (Z.of_nat k - Z.of_nat (S j)) with (Z.of_nat (k - S j)) by lia.
    rewrite Z.rem_mod_nonneg by lia. unfold alt. pose proof (Nat.mod_upper_bound (k - S j) 2 ltac:(lia)) as MB.
    replace (Z.of_nat (k - S j) mod 2) with (Z.of_nat ((k - S j) mod 2)) by (rewrite Nat2Z.inj_mod; reflexivity).
    destruct (Nat.even (k - S j)) eqn:Ev.
    + apply Nat.even_spec in Ev. destruct Ev as [q ->]. rewrite Nat.mul_comm, Nat.mod_mul by lia. cbn [Z.of_nat Z.eqb]. ring.
    + rewrite <- Nat.negb_odd in Ev. apply negb_false_iff in Ev. apply Nat.odd_spec in Ev. destruct Ev as [q ->].
      replace ((2 * q + 1) mod 2)%nat with 1%nat by (rewrite Nat.add_comm, Nat.mul_comm, Nat.mod_add by lia; reflexivity). cbn [Z.of_nat Z.eqb Pos.of_succ_nat Pos.eqb]. ring.
Qed.
