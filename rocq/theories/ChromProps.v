(** Chromatic polynomials of trees, cycles and complete graphs (C162). *)
From Coq Require Import Lia Permutation FinFun.
From Verif Require Import Lib PolyModel ChromModel ChromSpec ChromProofs.
Open Scope nat_scope.

(** ** complete graphs *)
Fixpoint complete_cols (k n : nat) : list (list nat) :=
  match n with O => [[]] | S n => extend k (fun c x => negb (existsb (Nat.eqb x) c)) (complete_cols k n) end.
Fixpoint falling (x : Z) (n : nat) : Z := match n with O => 1 | S n => falling x n * (x - Z.of_nat n) end.
Lemma in_complete_edges n u v : In (u, v) (complete_edges n) <-> u < v < n.
Proof.
  unfold complete_edges. rewrite in_flat_map. split.
  - intros (w & I & J). apply in_map_iff in J. destruct J as (t & E & J). injection E as -> ->. apply in_seq in I, J. lia.
  - intros H. exists v. split; [apply in_seq; lia|]. apply in_map_iff. exists u. split; [reflexivity|]. apply in_seq. lia.
Qed.
Lemma existsb_eqb x c : existsb (Nat.eqb x) c = true <-> In x c.
Proof. rewrite existsb_exists. split; [intros (y & I & E); apply Nat.eqb_eq in E; now subst|]. intros I. exists x. split; [exact I|apply Nat.eqb_refl]. Qed.
Lemma proper_nodup k n c : proper (complete_edges n) n k c <-> length c = n /\ (forall x, In x c -> x < k) /\ NoDup c.
Proof.
  unfold proper. split; intros (L & H & P); (split; [exact L|]); (split; [exact H|]).
  - apply (NoDup_nth c 0). intros i j Hi Hj E. destruct (Nat.lt_trichotomy i j) as [Q|[Q|Q]]; [|exact Q|]; exfalso.
    + apply (P i j); [apply in_complete_edges; lia|exact E].
    + apply (P j i); [apply in_complete_edges; lia|now symmetry].
  - intros u v E Q. apply in_complete_edges in E. apply (proj1 (NoDup_nth c 0) P) in Q; lia.
Qed.
Lemma complete_cols_ok k : forall n, NoDup (complete_cols k n) /\ (forall c, In c (complete_cols k n) <-> proper (complete_edges n) n k c) /\ Z.of_nat (length (complete_cols k n)) = falling (Z.of_nat k) n.
Proof.
  induction n as [|n (N & I & Len)]; cbn [complete_cols].
  - split; [constructor; [intros []|constructor]|]. split; [|reflexivity]. intros c. rewrite proper_nodup. split; [intros [<-|[]]; repeat split; [intros x []|constructor]|]. intros (L & _). destruct c; [now left|discriminate].
  - split; [now apply extend_nodup|]. split.
    + intros c'. rewrite in_extend, proper_nodup. split.
      * intros (c & x & -> & Ic & Lx & F). apply I, proper_nodup in Ic. destruct Ic as (L & H & P). split; [rewrite app_length; cbn; lia|]. split; [intros y Y; apply in_app_iff in Y; destruct Y as [Y|[<-|[]]]; auto|].
        apply (Permutation_NoDup (Permutation_cons_append c x)). constructor; [|exact P]. intros Q. apply existsb_eqb in Q. rewrite Q in F. discriminate.
      * intros (L & H & P). destruct (exists_last (l := c')) as (c & x & ->); [destruct c'; discriminate|]. rewrite app_length in L. cbn [length] in L. exists c, x. split; [reflexivity|].
        apply (Permutation_NoDup (Permutation_sym (Permutation_cons_append c x))) in P. inversion P as [|? ? P1 P2]; subst. split; [apply I, proper_nodup; split; [lia|]; split; [intros y Y; apply H, in_app_iff; now left|exact P2]|].
        split; [apply H, in_app_iff; right; now left|]. apply negb_true_iff. destruct (existsb (Nat.eqb x) c) eqn:E; [apply existsb_eqb in E; contradiction|reflexivity].
    + rewrite (extend_length _ _ _ (k - n)).
      * cbn [falling]. rewrite <- Len. destruct (complete_cols k n) as [|c l] eqn:El; [reflexivity|]. assert (n <= k); [|nia].
        assert (Ic : proper (complete_edges n) n k c) by (apply I; now left). apply proper_nodup in Ic. destruct Ic as (L & H & P). rewrite <- L, <- (seq_length k 0). apply NoDup_incl_length; [exact P|]. intros y Y. apply in_seq. specialize (H y Y). lia.
      * intros c Ic. apply I, proper_nodup in Ic. destruct Ic as (L & H & P). pose proof (filter_out c k P H). lia.
Qed.

(** ** cycles *)
Definition closed (c : list nat) : bool := last c 0 =? hd 0 c.
Lemma nth_last_eq (c : list nat) : nth (length c - 1) c 0 = last c 0.
Proof. induction c as [|x [|y c] IH]; [reflexivity|reflexivity|]. cbn [length last] in *. rewrite <- IH. replace (S (S (length c)) - 1) with (S (S (length c) - 1)) by lia. reflexivity. Qed.
Lemma filter_flat_map {A B} (g : B -> bool) (f : A -> list B) l : filter g (flat_map f l) = flat_map (fun a => filter g (f a)) l.
Proof. induction l as [|a l IH]; cbn; [reflexivity|]. now rewrite filter_app, IH. Qed.
Lemma count_one a k (f : nat -> bool) : a < k -> length (filter (fun x => f x && (x =? a)) (seq 0 k)) = if f a then 1 else 0.
Proof.
  intros H. replace k with (a + S (k - a - 1)) by lia. rewrite seq_app, filter_app, app_length. cbn [seq filter Nat.add]. rewrite Nat.eqb_refl, andb_true_r.
  assert (Z : forall l, (forall x, In x l -> x <> a) -> filter (fun x => f x && (x =? a)) l = []).
  { induction l as [|y l IH]; intros Q; [reflexivity|]. cbn. destruct (Nat.eqb_spec y a) as [E|E]; [exfalso; apply (Q y); [now left|exact E]|]. rewrite andb_false_r. apply IH. intros x X. apply Q. now right. }
  rewrite (Z (seq 0 a)), (Z (seq (S a) _)) by (intros x X; apply in_seq in X; lia). destruct (f a); reflexivity.
Qed.
Lemma closed_step k n : 1 <= n -> length (filter closed (tree_cols pred k (S n))) = length (filter (fun c => negb (closed c)) (tree_cols pred k n)).
Proof.
  intros Hn. destruct (tree_cols_ok pred k n Hn) as (_ & I & _); [intros; lia|]. destruct n as [|n]; [lia|].
  change (tree_cols pred k (S (S n))) with (extend k (fun c x => negb (x =? nth (pred (S n)) c 0)) (tree_cols pred k (S n))). unfold extend. rewrite filter_flat_map.
  assert (G : forall c, In c (tree_cols pred k (S n)) -> length c = S n /\ forall x, In x c -> x < k) by (intros c Ic; apply I in Ic; destruct Ic as (A & B & _); auto). revert G.
  generalize (tree_cols pred k (S n)). intros L G. induction L as [|c L IH]; [reflexivity|]. cbn [flat_map filter]. rewrite app_length, IH by (intros; apply G; now right). destruct (G c (or_introl eq_refl)) as (Lc & Hc).
  assert (E : length (filter closed (map (fun x => c ++ [x]) (filter (fun x => negb (x =? nth (pred (S n)) c 0)) (seq 0 k)))) = if negb (closed c) then 1 else 0).
  { assert (Hd : hd 0 c < k) by (destruct c as [|y c]; [discriminate|apply Hc; now left]).
    assert (F : forall l, length (filter closed (map (fun x => c ++ [x]) (filter (fun x => negb (x =? nth (pred (S n)) c 0)) l))) = length (filter (fun x => negb (x =? nth (pred (S n)) c 0) && (x =? hd 0 c)) l)).
    { induction l as [|y l IHl]; [reflexivity|]. cbn [filter]. destruct (negb (y =? nth (pred (S n)) c 0)); cbn [andb map filter]; [|exact IHl].
      assert (X : closed (c ++ [y]) = (y =? hd 0 c)) by (unfold closed; rewrite last_last; destruct c; [discriminate|reflexivity]). rewrite X. destruct (y =? hd 0 c); cbn [length]; now rewrite IHl. }
    rewrite F, count_one by exact Hd. unfold closed. replace (pred (S n)) with (length c - 1) by lia. rewrite nth_last_eq, (Nat.eqb_sym (hd 0 c)). reflexivity. }
  rewrite E. destruct (negb (closed c)); cbn [length]; lia.
Qed.
Lemma cycle_cols_ok k n : 1 <= n -> let L := filter (fun c => negb (closed c)) (tree_cols pred k n) in
  NoDup L /\ (forall c, In c L <-> proper (cycle_edges n) n k c) /\
  Z.of_nat (length L) = ((Z.of_nat k - 1) ^ Z.of_nat n + (Z.of_nat k - 1) * (if Z.rem (Z.of_nat n) 2 =? 0 then 1 else -1))%Z.
Proof.
  intros Hn L. destruct (tree_cols_ok pred k n Hn) as (N & I & _); [intros; lia|]. split; [now apply NoDup_filter|]. split.
  - intros c. unfold L. rewrite filter_In, I. unfold proper, cycle_edges. assert (C : length c = n -> (negb (closed c) = true <-> nth (n - 1) c 0 <> nth 0 c 0)).
    { intros <-. unfold closed. rewrite nth_last_eq, negb_true_iff, Nat.eqb_neq. replace (nth 0 c 0) with (hd 0 c) by now destruct c. reflexivity. }
    split.
    + intros ((A & B & D) & E). split; [exact A|]. split; [exact B|]. intros u v [Q|Q]; [|now apply D]. injection Q as <- <-. now apply C.
    + intros (A & B & D). split; [|apply C; [exact A|]; apply D; now left]. split; [exact A|]. split; [exact B|]. intros u v Q. apply D. now right.
  - unfold L. clear L N I. induction n as [|[|n] IH]; [lia| |].
    + cbn [tree_cols]. replace (filter _ _) with (@nil (list nat)); [cbn; lia|]. generalize (seq 0 k). intros l. induction l as [|x l IHl]; [reflexivity|]. cbn [map filter]. unfold closed at 1. cbn [last hd]. rewrite Nat.eqb_refl. exact IHl.
    + specialize (IH ltac:(lia)). pose proof (filter_length closed (tree_cols pred k (S (S n)))) as T. rewrite closed_step in T by lia.
      destruct (tree_cols_ok pred k (S (S n)) ltac:(lia)) as (_ & _ & Len); [intros; lia|]. rewrite <- T, Nat2Z.inj_add, IH in Len. replace (S (S n) - 1) with (S n) in Len by lia.
      rewrite (Nat2Z.inj_succ (S n)), Z.pow_succ_r by lia. set (m := Z.of_nat (S n)) in *.
      assert (P : (if Z.rem (Z.succ m) 2 =? 0 then 1 else -1)%Z = (- (if Z.rem m 2 =? 0 then 1 else -1))%Z).
      { assert (0 <= m)%Z by lia. rewrite !Z.rem_mod_nonneg by lia. pose proof (Z.mod_pos_bound m 2). pose proof (Z.mod_pos_bound (Z.succ m) 2). pose proof (Z.div_mod m 2). pose proof (Z.div_mod (Z.succ m) 2).
        destruct (Z.eqb_spec (Z.succ m mod 2) 0), (Z.eqb_spec (m mod 2) 0); lia. }
      rewrite P. set (s := if (Z.rem m 2 =? 0)%Z then 1%Z else (-1)%Z) in *. set (w := ((Z.of_nat k - 1) ^ m)%Z) in *. lia.
Qed.

(** ** the closed forms count the colourings *)
Section Props.
  Variable thr : Z.

  Theorem C162_tree : forall (n : nat) (par : nat -> nat), 1 <= n -> (forall i, 1 <= i < n -> par i < i) ->
    exists p, chromatic_T thr (Z.of_nat n) = Some p /\ forall k, exists m, count_colourings (tree_edges par n) n k m /\ value_at p (Z.of_nat k) = Some (Z.of_nat m).
  Proof.
    intros n par Hn Hp. unfold chromatic_T. replace (Z.of_nat n - 1)%Z with (Z.of_nat (n - 1)) by lia. destruct (value_pow thr [-1; 1]%Z (n - 1)) as (q & E & V). rewrite E. cbn [obind].
    destruct (value_mul thr [0; 1]%Z q 0 _ _ (value_lin 0 1 0) (V _ _ (value_lin (-1) 1 0))) as (p & Ep & _). exists p. split; [exact Ep|]. intros k. destruct (tree_cols_ok par k n Hn Hp) as (N & I & Len).
    exists (length (tree_cols par k n)). split; [exists (tree_cols par k n); auto|]. destruct (value_mul thr [0; 1]%Z q (Z.of_nat k) _ _ (value_lin _ _ _) (V _ _ (value_lin _ _ _))) as (p' & Ep' & V'). assert (p' = p) by congruence. subst p'. rewrite V', Len. f_equal.
    replace (0 + 1 * Z.of_nat k)%Z with (Z.of_nat k) by lia. replace (-1 + 1 * Z.of_nat k)%Z with (Z.of_nat k - 1)%Z by lia. reflexivity.
  Qed.
  Theorem C162_cycle : forall n : nat, 1 <= n ->
    exists p, chromatic_C thr (Z.of_nat n) = Some p /\ forall k, exists m, count_colourings (cycle_edges n) n k m /\ value_at p (Z.of_nat k) = Some (Z.of_nat m).
  Proof.
    intros n Hn. unfold chromatic_C. destruct (value_pow thr [-1; 1]%Z n) as (q & E & V). rewrite E. cbn [obind]. set (s := if (Z.rem (Z.of_nat n) 2 =? 0)%Z then 1%Z else (-1)%Z).
    destruct (value_smul [-1; 1]%Z s 0 _ (value_lin (-1) 1 0)) as (c & Ec & _). rewrite Ec. cbn [obind].
    assert (G : forall x, exists p, zadd q c = Some p /\ value_at p x = Some ((-1 + 1 * x) ^ Z.of_nat n + (-1 + 1 * x) * s)%Z).
    { intros x. destruct (value_smul [-1; 1]%Z s x _ (value_lin (-1) 1 x)) as (c' & Ec' & Vc). assert (c' = c) by congruence. subst c'. exact (value_add _ _ _ _ _ (V _ _ (value_lin _ _ _)) Vc). }
    destruct (G 0%Z) as (p & Ep & _). exists p. split; [exact Ep|]. intros k. destruct (cycle_cols_ok k n Hn) as (N & I & Len). eexists. split; [eexists; split; [exact N|]; split; [exact I|reflexivity]|].
    destruct (G (Z.of_nat k)) as (p' & Ep' & V'). assert (p' = p) by congruence. subst p'. rewrite V', Len. f_equal. replace (-1 + 1 * Z.of_nat k)%Z with (Z.of_nat k - 1)%Z by lia. reflexivity.
  Qed.
  Theorem C162_complete : forall n : nat,
    exists p, chromatic_K thr (Z.of_nat n) = Some p /\ forall k, exists m, count_colourings (complete_edges n) n k m /\ value_at p (Z.of_nat k) = Some (Z.of_nat m).
  Proof.
    intros n. unfold chromatic_K. rewrite Nat2Z.id.
    destruct (for_range_spec (fun i p => forall x, value_at p x = Some (falling x i)) (fun i p => zmul thr p [- (1) * Z.of_nat i; 1]%Z) 0 n [1%Z]) as (p & Ep & V).
    - lia.
    - intros x. reflexivity.
    - intros i p Hi V. destruct (value_mul thr p [- (1) * Z.of_nat i; 1]%Z 0 _ _ (V 0%Z) (value_lin _ _ _)) as (r & Er & _). exists r. split; [exact Er|]. intros x.
      destruct (value_mul thr p [- (1) * Z.of_nat i; 1]%Z x _ _ (V x) (value_lin _ _ _)) as (r' & Er' & Vr). assert (r' = r) by congruence. subst r'. rewrite Vr. cbn [falling]. f_equal. ring.
    - exists p. split; [exact Ep|]. intros k. destruct (complete_cols_ok k n) as (N & I & Len). eexists. split; [eexists; split; [exact N|]; split; [exact I|reflexivity]|]. now rewrite V, Len.
  Qed.
End Props.

Example C162_case : (forall i, 1 <= i < 4 -> (i - 1) / 2 < i) /\ chromatic_T 50 4 = Some [0; -1; 3; -3; 1]%Z /\ chromatic_C 50 5 = Some [0; 4; -10; 10; -5; 1]%Z /\ chromatic_K 50 4 = Some [0; -6; 11; -6; 1]%Z /\
  proper (cycle_edges 5) 5 3 [0; 1; 0; 1; 2] /\ value_at [0; 4; -10; 10; -5; 1]%Z 3 = Some 30%Z.
Proof.
  split; [intros i Hi; destruct i as [|[|[|[|i]]]]; cbn; lia|]. split; [reflexivity|]. split; [reflexivity|]. split; [reflexivity|]. split; [|reflexivity].
  split; [reflexivity|]. split; [cbn; intros x X; intuition lia|]. cbn. intros u v X. intuition (match goal with E : (_, _) = (_, _) |- _ => injection E as <- <- end; cbn in *; discriminate).
Qed.
Print Assumptions C162_tree.
Print Assumptions C162_cycle.
Print Assumptions C162_complete.
