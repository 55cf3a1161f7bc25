From Coq Require Import Lia FinFun Permutation Ring ZArithRing.
From Verif Require Import Lib RingSpec RingProofs SeriesSpec PolyModel PolyProofs4 PolyProofs5 PolyProps BaseModel BaseProofs ModPowProofs ChromModel ChromSpec.
Open Scope nat_scope.

(** ** values of the polynomials *)
Lemma zeqb_spec x y : Z.eqb x y = true <-> x = y. Proof. apply Z.eqb_eq. Qed.
Definition vsum (N : nat) (p : list Z) (x : Z) : Z := rsum 0%Z Z.add N (fun i => (nth i p 0 * rpow 1 Z.mul x i)%Z).
Lemma value_vsum p x : value_at p x = Some (vsum (length p) p x).
Proof. unfold value_at. now rewrite (eval_spec 0%Z Z.eqb zeqb_spec _ _ _ _ _ _ InitialRing.Zth (fun c => c) eq_refl). Qed.
Lemma vsum_more p x : forall m, vsum (length p + m) p x = vsum (length p) p x.
Proof. induction m as [|m IH]; [now rewrite Nat.add_0_r|]. rewrite Nat.add_succ_r. unfold vsum in *. cbn [rsum]. rewrite IH, nth_overflow by lia. ring. Qed.
Lemma vsum_long p x N : length p <= N -> vsum (length p) p x = vsum N p x.
Proof. intros H. replace N with (length p + (N - length p)) by lia. now rewrite vsum_more. Qed.
Lemma value_mul thr p q x a b : value_at p x = Some a -> value_at q x = Some b -> exists r, zmul thr p q = Some r /\ value_at r x = Some (a * b)%Z.
Proof.
  intros A B. destruct (C35_eval_mul _ _ _ _ _ _ InitialRing.Zth Z.eqb zeqb_spec thr p q x) as (r & vp & vq & E & E1 & E2 & E3). exists r. split; [exact E|]. unfold value_at in *. rewrite A in E1. rewrite B in E2. injection E1 as <-. injection E2 as <-. exact E3.
Qed.
Lemma value_add p q x a b : value_at p x = Some a -> value_at q x = Some b -> exists r, zadd p q = Some r /\ value_at r x = Some (a + b)%Z.
Proof.
  intros A B. destruct (op_add_spec _ _ _ _ _ _ InitialRing.Zth Z.eqb zeqb_spec p q) as (r & E & _ & V). exists r. split; [exact E|]. rewrite value_vsum in *. injection A as <-. injection B as <-. f_equal.
  set (N := length p + length q + length r). rewrite (vsum_long p x N), (vsum_long q x N), (vsum_long r x N) by (unfold N; lia). generalize N. intros M. induction M as [|M IH]; [reflexivity|].
  unfold vsum in *. cbn [rsum]. rewrite IH. pose proof (V M) as VM. unfold coef in VM. rewrite VM. ring.
Qed.
Lemma value_smul p s x a : value_at p x = Some a -> exists r, zsmul p s = Some r /\ value_at r x = Some (a * s)%Z.
Proof.
  intros A. destruct (op_smul_spec _ _ _ _ _ _ InitialRing.Zth Z.eqb zeqb_spec p s) as (r & E & _ & V). exists r. split; [exact E|]. rewrite value_vsum in *. injection A as <-. f_equal.
  set (N := length p + length r). rewrite (vsum_long p x N), (vsum_long r x N) by (unfold N; lia). generalize N. intros M. induction M as [|M IH]; [reflexivity|].
  unfold vsum in *. cbn [rsum]. rewrite IH. pose proof (V M) as VM. unfold coef in VM. rewrite VM. ring.
Qed.
Lemma value_lin a b x : value_at [a; b] x = Some (a + b * x)%Z.
Proof. rewrite value_vsum. cbn [length]. unfold vsum. cbn [rsum rpow nth]. f_equal. ring. Qed.
Lemma npow_Z x n : npow Z.mul 1%Z x n = (x ^ Z.of_nat n)%Z.
Proof. induction n as [|n IH]; [reflexivity|]. rewrite Nat2Z.inj_succ, Z.pow_succ_r by lia. cbn [npow]. rewrite IH. ring. Qed.
Lemma value_pow thr p n : exists r, ppow thr p (Z.of_nat n) = Some r /\ forall x a, value_at p x = Some a -> value_at r x = Some (a ^ Z.of_nat n)%Z.
Proof.
  assert (G : forall x a, value_at p x = Some a -> exists r, ppow thr p (Z.of_nat n) = Some r /\ value_at r x = Some (a ^ Z.of_nat n)%Z).
  { intros x a A. destruct (powT_rel (pmulo thr) (Some [1%Z]) Z.mul 1%Z Z.mul_assoc Z.mul_1_l Z.mul_1_r (fun po v => exists q, po = Some q /\ value_at q x = Some v)) with (x := Some p) (x' := a) (y := Z.of_nat n) as (r & E & q & -> & V).
    - exists [1%Z]. split; [reflexivity|]. reflexivity.
    - intros a1 b1 a2 b2 (q1 & -> & V1) (q2 & -> & V2). destruct (value_mul thr q1 q2 x _ _ V1 V2) as (r & E & V). exists r. split; [exact E|exact V].
    - exists p. auto.
    - lia.
    - exists q. unfold ppow. rewrite E. cbn [obind]. split; [reflexivity|]. rewrite V, npow_Z, Nat2Z.id. reflexivity. }
  destruct (G 0%Z _ (value_vsum p 0%Z)) as (r & E & _). exists r. split; [exact E|]. intros x a A. destruct (G x a A) as (r' & E' & V). congruence.
Qed.

(** ** extending colourings by one node *)
Definition extend (k : nat) (f : list nat -> nat -> bool) (L : list (list nat)) : list (list nat) :=
  flat_map (fun c => map (fun x => c ++ [x]) (filter (f c) (seq 0 k))) L.
Lemma in_extend k f L c' : In c' (extend k f L) <-> exists c x, c' = c ++ [x] /\ In c L /\ x < k /\ f c x = true.
Proof.
  unfold extend. rewrite in_flat_map. split.
  - intros (c & I & J). apply in_map_iff in J. destruct J as (x & <- & J). apply filter_In in J. destruct J as (J & F). apply in_seq in J. exists c, x. repeat split; auto; lia.
  - intros (c & x & -> & I & L1 & F). exists c. split; [exact I|]. apply in_map_iff. exists x. split; [reflexivity|]. apply filter_In. split; [apply in_seq; lia|exact F].
Qed.
Lemma nodup_filter {A} (f : A -> bool) l : NoDup l -> NoDup (filter f l).
Proof. apply NoDup_filter. Qed.
Lemma extend_nodup k f L : NoDup L -> NoDup (extend k f L).
Proof.
  unfold extend. induction 1 as [|c L N ND IH]; cbn [flat_map]; [constructor|].
  assert (M : NoDup (map (fun x => c ++ [x]) (filter (f c) (seq 0 k)))). { apply FinFun.Injective_map_NoDup; [|apply NoDup_filter, seq_NoDup]. intros x y E. apply app_inj_tail in E. apply E. }
  revert M. assert (D : forall x, In x (map (fun x => c ++ [x]) (filter (f c) (seq 0 k))) -> ~ In x (flat_map (fun c => map (fun x => c ++ [x]) (filter (f c) (seq 0 k))) L)).
  { intros z J J'. apply in_map_iff in J. destruct J as (x & <- & _). apply in_flat_map in J'. destruct J' as (c' & I' & J'). apply in_map_iff in J'. destruct J' as (y & E & _). apply app_inj_tail in E. destruct E as (-> & _). auto. }
  revert D. generalize (map (fun x => c ++ [x]) (filter (f c) (seq 0 k))). intros l D M. induction M as [|z l Nz M IHl]; cbn [app]; [exact IH|]. constructor.
  - rewrite in_app_iff. intros [Q|Q]; [auto|]. apply (D z); [now left|exact Q].
  - apply IHl. intros w W. apply D. now right.
Qed.
Lemma extend_length k f L m : (forall c, In c L -> length (filter (f c) (seq 0 k)) = m) -> length (extend k f L) = length L * m.
Proof.
  unfold extend. induction L as [|c L IH]; intros H; cbn [flat_map]; [reflexivity|]. rewrite app_length, map_length, (H c), IH by (try (intros; apply H); now auto using in_eq, in_cons). cbn [length]. lia.
Qed.
Lemma filter_length {A} (f : A -> bool) l : length (filter f l) + length (filter (fun x => negb (f x)) l) = length l.
Proof. induction l as [|x l IH]; cbn; [reflexivity|]. destruct (f x); cbn; lia. Qed.
(** all but some *)
Lemma filter_out s k : NoDup s -> (forall x, In x s -> x < k) -> length (filter (fun x => negb (existsb (Nat.eqb x) s)) (seq 0 k)) + length s = k.
Proof.
  intros N H. rewrite <- (seq_length k 0) at 2. rewrite <- (filter_length (fun x => negb (existsb (Nat.eqb x) s)) (seq 0 k)). f_equal.
  assert (P : Permutation.Permutation s (filter (fun x => negb (negb (existsb (Nat.eqb x) s))) (seq 0 k))); [|now apply Permutation.Permutation_length].
  apply Permutation.NoDup_Permutation; [exact N|apply NoDup_filter, seq_NoDup|]. intros x. rewrite filter_In, in_seq, negb_involutive, existsb_exists. split.
  - intros I. split; [specialize (H x I); lia|]. exists x. split; [exact I|apply Nat.eqb_refl].
  - intros (_ & y & I & E). apply Nat.eqb_eq in E. now subst.
Qed.
Lemma filter_not a k : a < k -> length (filter (fun x => negb (x =? a)) (seq 0 k)) = k - 1.
Proof.
  intros H. pose proof (filter_out [a] k) as Q. cbn [length] in Q. rewrite (filter_ext _ (fun x => negb (existsb (Nat.eqb x) [a]))); [|intros x; cbn; now rewrite orb_false_r].
  assert (Q1 : NoDup [a]) by (constructor; [intros []|constructor]). specialize (Q Q1). assert (Q2 : forall x, In x [a] -> x < k) by (intros x [<-|[]]; exact H). specialize (Q Q2). lia.
Qed.

(** ** trees *)
Section Tree.
  Variable (par : nat -> nat) (k : nat).
  Fixpoint tree_cols (n : nat) : list (list nat) :=
    match n with O => [[]] | S O => map (fun x => [x]) (seq 0 k) | S n => extend k (fun c x => negb (x =? nth (par n) c 0)) (tree_cols n) end.
  Lemma tree_edges_S n : 1 <= n -> tree_edges par (S n) = tree_edges par n ++ [(par n, n)].
  Proof. intros H. unfold tree_edges. replace (S n - 1) with (n - 1 + 1) by lia. rewrite seq_app, map_app. cbn [seq map]. replace (1 + (n - 1)) with n by lia. reflexivity. Qed.
  Lemma in_tree_edges n u v : In (u, v) (tree_edges par n) -> 1 <= v < n /\ u = par v.
  Proof. unfold tree_edges. rewrite in_map_iff. intros (i & E & I). apply in_seq in I. injection E as <- <-. split; [lia|reflexivity]. Qed.
  Lemma tree_cols_ok : forall n, 1 <= n -> (forall i, 1 <= i < n -> par i < i) ->
    NoDup (tree_cols n) /\ (forall c, In c (tree_cols n) <-> proper (tree_edges par n) n k c) /\ Z.of_nat (length (tree_cols n)) = (Z.of_nat k * (Z.of_nat k - 1) ^ Z.of_nat (n - 1))%Z.
  Proof using.
    induction n as [|[|n] IH]; intros Hn Hp; [lia| |].
    - cbn [tree_cols]. split; [|split].
      + apply FinFun.Injective_map_NoDup; [|apply seq_NoDup]. intros x y E. congruence.
      + intros c. rewrite in_map_iff. split.
        * intros (x & <- & I). apply in_seq in I. split; [reflexivity|]. split; [intros y [<-|[]]; lia|intros u v []].
        * intros (L & H & _). destruct c as [|x [|]]; try discriminate. exists x. split; [reflexivity|]. apply in_seq. specialize (H x (or_introl eq_refl)). lia.
      + rewrite map_length, seq_length. cbn. lia.
    - destruct IH as (N & I & Len); [lia|intros i Hi; apply Hp; lia|]. change (tree_cols (S (S n))) with (extend k (fun c x => negb (x =? nth (par (S n)) c 0)) (tree_cols (S n))). split; [now apply extend_nodup|]. split.
      + intros c'. rewrite in_extend. split.
        * intros (c & x & -> & Ic & Lx & F). apply I in Ic. destruct Ic as (L & H & P). split; [rewrite app_length; cbn; lia|]. split.
          { intros y Y. apply in_app_iff in Y. destruct Y as [Y|[<-|[]]]; auto. }
          intros u v E. rewrite tree_edges_S in E by lia. apply in_app_iff in E. destruct E as [E|[E|[]]].
          -- pose proof (in_tree_edges _ _ _ E) as (B & Eu). specialize (Hp v ltac:(lia)). rewrite !app_nth1 by lia. now apply P.
          -- injection E as <- <-. specialize (Hp (S n) ltac:(lia)). rewrite (app_nth2 c [x] 0 (n := S n)) by lia. rewrite L, Nat.sub_diag, app_nth1 by lia. cbn [nth]. apply negb_true_iff, Nat.eqb_neq in F. congruence.
        * intros (L & H & P). destruct (exists_last (l := c')) as (c & x & ->); [destruct c'; discriminate|]. rewrite app_length in L. cbn [length] in L. assert (Lc : length c = S n) by lia. exists c, x. split; [reflexivity|].
          split; [|split; [apply H, in_app_iff; right; now left|]].
          -- apply I. split; [exact Lc|]. split; [intros y Y; apply H, in_app_iff; now left|]. intros u v E. pose proof (in_tree_edges _ _ _ E) as (B & Eu). specialize (Hp v ltac:(lia)). specialize (P u v). rewrite !app_nth1 in P by lia. apply P. rewrite tree_edges_S by lia. apply in_app_iff. now left.
          -- specialize (P (par (S n)) (S n)). specialize (Hp (S n) ltac:(lia)). rewrite (app_nth2 c [x] 0 (n := S n)) in P by lia. rewrite Lc, Nat.sub_diag, app_nth1 in P by lia. apply negb_true_iff, Nat.eqb_neq. intros ->. apply P; [|reflexivity]. rewrite tree_edges_S by lia. apply in_app_iff. right. now left.
      + rewrite (extend_length _ _ _ (k - 1)).
        * rewrite Nat2Z.inj_mul, Len. replace (S (S n) - 1) with (S (S n - 1)) by lia. rewrite Nat2Z.inj_succ, Z.pow_succ_r by lia. destruct k as [|k']; [cbn; ring|]. replace (Z.of_nat (S k' - 1)) with (Z.of_nat (S k') - 1)%Z by lia. ring.
        * intros c Ic. apply filter_not. apply I in Ic. destruct Ic as (L & H & _). apply H, nth_In. specialize (Hp (S n) ltac:(lia)). lia.
  Qed.
End Tree.
