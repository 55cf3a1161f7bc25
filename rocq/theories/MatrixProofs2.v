(** Gaussian elimination as a sequence of row operations on entry functions. *)
From Coq Require Import Ring Ring_theory.
From Verif Require Import Lib RingSpec RingProofs MatrixModel MatrixSpec MatrixProofs.
Open Scope nat_scope.

Section Gauss.
  Context {R : Type} (zero one : R) (add mul sub : R -> R -> R) (opp : R -> R).
  Hypothesis Rth : ring_theory zero one add mul sub opp (@eq R).
  Add Ring Rg : Rth.
  Variable tdiv : R -> R -> option R.
  Variable eqb : R -> R -> bool.
  Hypothesis eqb_spec : forall x y, eqb x y = true <-> x = y.
  Hypothesis H10 : one <> zero.
  Hypothesis div_ok : forall x, x <> zero -> exists y, tdiv one x = Some y /\ mul x y = one.
  Local Notation rsum := (rsum zero add).
  Local Notation F := (nat -> nat -> R).

  Definition swapf (f : F) i j : F := fun x y => if x =? j then f i y else if x =? i then f j y else f x y.
  Definition scalef (f : F) j c : F := fun x y => if x =? j then mul (f x y) c else f x y.
  Definition elimf (f : F) i j p : F := fun x y => if x =? i then sub (f i y) (mul (f j y) p) else f x y.

  Lemma swap_rows_spec n a f i j : rep n n a f -> i < n -> j < n -> exists a', swap_rows a i j = Some a' /\ rep n n a' (swapf f i j).
  Proof using.
    intros (L & H) Hi Hj. unfold swap_rows. destruct (H i Hi) as (r & Nr & Lr & Vr). destruct (H j Hj) as (s & Ns & Ls & Vs). rewrite Nr, Ns. cbn [obind].
    destruct (set_nth_some a i s) as (a1 & E1); [lia|]. rewrite E1. cbn [obind]. pose proof (set_nth_length _ _ _ _ E1) as L1.
    destruct (set_nth_some a1 j r) as (a2 & E2); [lia|]. pose proof (set_nth_length _ _ _ _ E2) as L2. exists a2. split; [exact E2|]. split; [lia|]. intros x Hx.
    rewrite (set_get _ _ _ _ x E2), (set_get _ _ _ _ x E1). unfold swapf. destruct (Nat.eqb_spec x j) as [->|Nj]; [exists r; auto|].
    destruct (Nat.eqb_spec x i) as [->|Ni]; [exists s; auto|]. apply H. exact Hx.
  Qed.
  Lemma row_loop n a f i (G : nat -> R) (body : nat -> list (list R) -> option (list (list R))) : rep n n a f -> i < n ->
    (forall k t, k < n -> rep n n t (fun x y => if (x =? i) && (y <? k) then G y else f x y) -> body k t = mset t i k (G k)) ->
    exists a', for_range 0 n body a = Some a' /\ rep n n a' (fun x y => if x =? i then G y else f x y).
  Proof using.
    intros Ha Hi Hb.
    destruct (for_range_spec (fun k t => rep n n t (fun x y => if (x =? i) && (y <? k) then G y else f x y)) body 0 n a) as (t & E & H).
    - lia.
    - apply rep_ext with (1 := Ha). intros x y _ _. replace (y <? 0) with false by (symmetry; apply Nat.ltb_ge; lia). rewrite andb_false_r. reflexivity.
    - intros k t Hk Ht. rewrite Hb by (lia || exact Ht). destruct (rep_set _ _ _ _ i k (G k) Ht) as (t' & E' & H'); [lia|lia|]. exists t'. split; [exact E'|].
      apply rep_ext with (1 := H'). intros x y _ _. unfold upd2. destruct (Nat.eqb_spec x i) as [->|Nx]; cbn [andb]; [|reflexivity].
      destruct (Nat.eqb_spec y k) as [->|Ny]; [replace (k <? S k) with true by (symmetry; apply Nat.ltb_lt; lia); reflexivity|].
      replace (y <? S k) with (y <? k); [reflexivity|]. destruct (Nat.ltb_spec y k), (Nat.ltb_spec y (S k)); try reflexivity; lia.
    - exists t. split; [exact E|]. apply rep_ext with (1 := H). intros x y _ Hy. replace (y <? n) with true by (symmetry; apply Nat.ltb_lt; lia). rewrite andb_true_r. reflexivity.
  Qed.
  Lemma scale_row_spec n a f j c : rep n n a f -> j < n -> exists a', scale_row mul n a j c = Some a' /\ rep n n a' (scalef f j c).
  Proof using.
    intros Ha Hj. unfold scale_row. destruct (row_loop n a f j (fun y => mul (f j y) c) (fun k a0 => let* x := mget a0 j k in mset a0 j k (mul x c)) Ha Hj) as (a' & E & H).
    - intros k t Hk Ht. rewrite (rep_get _ _ _ _ j k Ht) by lia. rewrite Nat.ltb_irrefl, andb_false_r. reflexivity.
    - exists a'. split; [exact E|]. apply rep_ext with (1 := H). intros x y _ _. unfold scalef. destruct (Nat.eqb_spec x j) as [->|]; reflexivity.
  Qed.
  Lemma elim_row_spec n a f i j p : rep n n a f -> i < n -> j < n -> exists a', elim_row sub mul n a i j p = Some a' /\ rep n n a' (elimf f i j p).
  Proof using.
    intros Ha Hi Hj. unfold elim_row. destruct (row_loop n a f i (fun y => sub (f i y) (mul (f j y) p)) (fun k a0 => let* x := mget a0 i k in let* y := mget a0 j k in mset a0 i k (sub x (mul y p))) Ha Hi) as (a' & E & H).
    - intros k t Hk Ht. rewrite (rep_get _ _ _ _ i k Ht), (rep_get _ _ _ _ j k Ht) by lia. rewrite Nat.ltb_irrefl, !andb_false_r. reflexivity.
    - exists a'. split; [exact E|]. apply rep_ext with (1 := H). intros x y _ _. unfold elimf. destruct (Nat.eqb_spec x i) as [->|]; reflexivity.
  Qed.
  Lemma eliminate_spec n j i a b f g : rep n n a f -> rep n n b g -> i < n -> j < n ->
    exists a' b', eliminate zero sub mul eqb n j i (a, b) = Some (a', b') /\ rep n n a' (elimf f i j (f i j)) /\ rep n n b' (elimf g i j (f i j)).
  Proof using Rth eqb_spec.
    intros Ha Hb Hi Hj. unfold eliminate. rewrite (rep_get _ _ _ _ i j Ha) by lia. cbn [obind]. destruct (eqb (f i j) zero) eqn:E.
    - apply eqb_spec in E. exists a, b. split; [reflexivity|]. rewrite E. split.
      + apply rep_ext with (1 := Ha). intros x y _ _. unfold elimf. destruct (Nat.eqb_spec x i) as [->|]; [ring|reflexivity].
      + apply rep_ext with (1 := Hb). intros x y _ _. unfold elimf. destruct (Nat.eqb_spec x i) as [->|]; [ring|reflexivity].
    - destruct (elim_row_spec n a f i j (f i j) Ha Hi Hj) as (a' & Ea & Ra). rewrite Ea. cbn [obind].
      destruct (elim_row_spec n b g i j (f i j) Hb Hi Hj) as (b' & Eb & Rb). rewrite Eb. cbn [obind]. exists a', b'. auto.
  Qed.
  Lemma pivot_spec n a f j : rep n n a f -> j < n -> forall k i, i + k = n -> exists i', pivot zero eqb k a i j = Some i' /\ i <= i' <= n /\
    (forall x, i <= x < i' -> f x j = zero) /\ (i' < n -> f i' j <> zero).
  Proof using eqb_spec.
    intros Ha Hj. induction k as [|k IH]; intros i Hi; cbn [pivot].
    - exists i. split; [reflexivity|]. split; [lia|]. split; intros; lia.
    - rewrite (rep_get _ _ _ _ i j Ha) by lia. cbn [obind]. destruct (eqb (f i j) zero) eqn:E.
      + apply eqb_spec in E. destruct (IH (S i)) as (i' & Ei & B & Z1 & Z2); [lia|]. exists i'. split; [exact Ei|]. split; [lia|]. split; [|exact Z2].
        intros x Hx. destruct (Nat.eq_dec x i) as [->|]; [exact E|]. apply Z1. lia.
      + exists i. split; [reflexivity|]. split; [lia|]. split; [intros; lia|]. intros _ Q. apply eqb_spec in Q. congruence.
  Qed.

  Section Inv.
    Variable n : nat.
    (** an invariant of the (matrix, accumulated inverse, determinant) triple kept by the row operations *)
    Variable P : F -> F -> R -> Prop.
    Hypothesis P_swap : forall f g d i j, i < n -> j < n -> i <> j -> P f g d -> P (swapf f i j) (swapf g i j) (opp d).
    Hypothesis P_scale : forall f g d j c, j < n -> mul (f j j) c = one -> P f g d -> P (scalef f j c) (scalef g j c) (mul d (f j j)).
    Hypothesis P_elim : forall f g d i j p, i < n -> j < n -> i <> j -> P f g d -> P (elimf f i j p) (elimf g i j p) d.

    (** the first j columns are those of a unit upper triangular matrix *)
    Definition tri (j : nat) (f : F) : Prop := forall k, k < j -> f k k = one /\ forall i, k < i < n -> f i k = zero.
    Definition sing (f : F) : Prop := exists v j, j < n /\ v j = one /\ forall i, i < n -> rsum n (fun k => mul (f i k) (v k)) = zero.

    Lemma tri_sing j f : j < n -> tri j f -> (forall i, j <= i < n -> f i j = zero) -> sing f.
    Proof using Rth H10.
      intros Hj HT HZ.
      assert (Q : forall t, t <= j -> exists v, v j = one /\ (forall k, k > j -> v k = zero) /\ (forall k, k < j - t -> v k = zero) /\
        forall i, j - t <= i < n -> rsum n (fun k => mul (f i k) (v k)) = zero).
      { induction t as [|t IH]; intros Ht.
        - exists (fun k => if k =? j then one else zero). rewrite Nat.eqb_refl. split; [reflexivity|].
          assert (V : forall k, k <> j -> (if k =? j then one else zero) = zero) by (intros k Hk; destruct (Nat.eqb_spec k j); [lia|reflexivity]).
          split; [intros; apply V; lia|]. split; [intros; apply V; lia|]. intros i Hi. apply (rsum_zero _ _ _ _ _ _ Rth). intros k Hk. destruct (Nat.eqb_spec k j) as [->|]; [rewrite HZ by lia; ring|ring].
        - destruct IH as (v & V1 & V2 & V3 & V4); [lia|]. set (m := j - S t). set (c := opp (rsum n (fun k => mul (f m k) (v k)))).
          exists (fun k => if k =? m then c else v k). split; [destruct (Nat.eqb_spec j m); [lia|exact V1]|].
          split; [intros k Hk; destruct (Nat.eqb_spec k m); [lia|apply V2; lia]|]. split; [intros k Hk; destruct (Nat.eqb_spec k m); [lia|apply V3; lia]|].
          intros i Hi. assert (Hm : m < n) by lia.
          assert (S1 : rsum n (fun k => mul (f i k) (if k =? m then c else v k)) = add (mul (f i m) c) (rsum n (fun k => mul (f i k) (v k)))).
          { transitivity (add (rsum n (fun k => if k =? m then mul (f i m) c else zero)) (rsum n (fun k => mul (f i k) (v k)))).
            - rewrite <- (rsum_add _ _ _ _ _ _ Rth). apply rsum_ext. intros k Hk. destruct (Nat.eqb_spec k m) as [->|]; [|ring]. rewrite (V3 m) by lia. ring.
            - rewrite (rsum_single _ _ _ _ _ _ Rth n _ m Hm); [rewrite Nat.eqb_refl; reflexivity|]. intros k _ Nk. destruct (Nat.eqb_spec k m); [lia|reflexivity]. }
          rewrite S1. destruct (HT m) as (T1 & T2); [lia|]. destruct (Nat.eq_dec i m) as [->|Ni].
          + rewrite T1. unfold c. ring.
          + rewrite T2, V4 by lia. ring. }
      destruct (Q j (le_n j)) as (v & V1 & _ & _ & V4). exists v, j. split; [exact Hj|]. split; [exact V1|]. intros i Hi. apply V4. lia.
    Qed.

    (** the elimination loop below (or around) row j, shape only *)
    Lemma elim_loop_shape j r a b f g : rep n n a f -> rep n n b g -> j < n -> r <= n ->
      exists a' b' f' g', for_range r n (fun i s => eliminate zero sub mul eqb n j i s) (a, b) = Some (a', b') /\ rep n n a' f' /\ rep n n b' g'.
    Proof using Rth eqb_spec.
      intros Ha Hb Hj Hr.
      destruct (for_range_spec (fun _ s => exists f' g', rep n n (fst s) f' /\ rep n n (snd s) g') (fun i s => eliminate zero sub mul eqb n j i s) r n (a, b)) as ([a' b'] & E & f' & g' & H1 & H2).
      - exact Hr.
      - exists f, g. auto.
      - intros i [a1 b1] Hi (f1 & g1 & H1 & H2). destruct (eliminate_spec n j i a1 b1 f1 g1 H1 H2) as (a2 & b2 & E & R1 & R2); [lia|lia|]. exists (a2, b2). split; [exact E|]. eexists _, _. cbn. eauto.
      - exists a', b', f', g'. auto.
    Qed.
    Lemma elim_loop_spec j a b f g d : rep n n a f -> rep n n b g -> j < n -> P f g d -> f j j = one -> tri j f ->
      exists a' b' f' g', for_range (S j) n (fun i s => eliminate zero sub mul eqb n j i s) (a, b) = Some (a', b') /\ rep n n a' f' /\ rep n n b' g' /\ P f' g' d /\ tri (S j) f'.
    Proof using Rth eqb_spec P_elim.
      intros Ha Hb Hj HP F1 HT.
      destruct (for_range_spec (fun i s => exists f' g', rep n n (fst s) f' /\ rep n n (snd s) g' /\ P f' g' d /\ f' j j = one /\ tri j f' /\ forall x, j < x < i -> f' x j = zero)
        (fun i s => eliminate zero sub mul eqb n j i s) (S j) n (a, b)) as ([a' b'] & E & f' & g' & H1 & H2 & H3 & H4 & H5 & H6).
      - lia.
      - exists f, g. cbn [fst snd]. split; [exact Ha|]. split; [exact Hb|]. split; [exact HP|]. split; [exact F1|]. split; [exact HT|]. intros; lia.
      - intros i [a1 b1] Hi (f1 & g1 & R1 & R2 & H3 & H4 & H5 & H6). cbn [fst snd] in *. destruct (eliminate_spec n j i a1 b1 f1 g1 R1 R2) as (a2 & b2 & E & S1 & S2); [lia|lia|].
        exists (a2, b2). split; [exact E|]. exists (elimf f1 i j (f1 i j)), (elimf g1 i j (f1 i j)). cbn [fst snd]. split; [exact S1|]. split; [exact S2|].
        split; [apply P_elim; (lia || exact H3)|]. unfold elimf. split; [destruct (Nat.eqb_spec j i); [lia|exact H4]|]. split.
        + intros k Hk. destruct (H5 k Hk) as (T1 & T2). split; [destruct (Nat.eqb_spec k i); [lia|exact T1]|]. intros x Hx.
          destruct (Nat.eqb_spec x i) as [->|]; [|apply T2; lia]. rewrite (T2 i), (T2 j) by lia. ring.
        + intros x Hx. destruct (Nat.eqb_spec x i) as [->|]; [rewrite H4; ring|]. apply H6. lia.
      - exists a', b', f', g'. split; [exact E|]. split; [exact H1|]. split; [exact H2|]. split; [exact H3|]. intros k Hk.
        destruct (Nat.eq_dec k j) as [->|]; [split; [exact H4|]; intros i Hi; apply H6; lia|]. apply H5. lia.
    Qed.

    Lemma gauss_step_full j a b d f g : rep n n a f -> rep n n b g -> j < n -> P f g d -> tri j f ->
      (exists a' b' d' f' g', gauss_step zero one sub mul opp tdiv eqb n j (j, a, b, d) = Some (S j, a', b', d') /\ rep n n a' f' /\ rep n n b' g' /\ P f' g' d' /\ tri (S j) f') \/
      (gauss_step zero one sub mul opp tdiv eqb n j (j, a, b, d) = Some (j, a, b, zero) /\ sing f).
    Proof using Rth H10 eqb_spec div_ok P_swap P_scale P_elim.
      intros Ha Hb Hj HP HT. unfold gauss_step. destruct (pivot_spec n a f j Ha Hj (n - j) j) as (i & Ei & Bi & Z1 & Z2); [lia|]. rewrite Ei. cbn [obind].
      destruct (Nat.leb_spec n i) as [Li|Li].
      { right. split; [reflexivity|]. apply (tri_sing j); [exact Hj|exact HT|]. intros x Hx. apply Z1. lia. }
      left. specialize (Z2 Li).
      assert (SW : exists a1 b1 d1 f1 g1, (if i =? j then Some (a, b, d) else let* a0 := swap_rows a i j in let* b0 := swap_rows b i j in Some (a0, b0, opp d)) = Some (a1, b1, d1) /\
        rep n n a1 f1 /\ rep n n b1 g1 /\ P f1 g1 d1 /\ tri j f1 /\ f1 j j <> zero).
      { destruct (Nat.eqb_spec i j) as [->|Ni]; [exists a, b, d, f, g; auto 10|].
        destruct (swap_rows_spec n a f i j Ha Li Hj) as (a1 & E1 & R1). destruct (swap_rows_spec n b g i j Hb Li Hj) as (b1 & E2 & R2). rewrite E1. cbn [obind]. rewrite E2. cbn [obind].
        exists a1, b1, (opp d), (swapf f i j), (swapf g i j). split; [reflexivity|]. split; [exact R1|]. split; [exact R2|]. split; [apply P_swap; assumption|]. unfold swapf. split.
        - intros k Hk. destruct (HT k Hk) as (T1 & T2). split.
          + destruct (Nat.eqb_spec k j); [lia|]. destruct (Nat.eqb_spec k i); [lia|exact T1].
          + intros x Hx. destruct (Nat.eqb_spec x j); [apply T2; lia|]. destruct (Nat.eqb_spec x i); apply T2; lia.
        - rewrite Nat.eqb_refl. exact Z2. }
      destruct SW as (a1 & b1 & d1 & f1 & g1 & Es & R1 & R2 & P1 & T1 & N1). rewrite Es. cbn [obind]. rewrite (rep_get _ _ _ _ j j R1) by lia. cbn [obind].
      destruct (div_ok _ N1) as (pi & Ep & Vp). rewrite Ep. cbn [obind].
      destruct (scale_row_spec n a1 f1 j pi R1 Hj) as (a2 & E2 & S2). rewrite E2. cbn [obind]. destruct (scale_row_spec n b1 g1 j pi R2 Hj) as (b2 & E3 & S3). rewrite E3. cbn [obind].
      assert (P2 : P (scalef f1 j pi) (scalef g1 j pi) (mul d1 (f1 j j))) by (apply P_scale; assumption).
      destruct (elim_loop_spec j a2 b2 _ _ _ S2 S3 Hj P2) as (a3 & b3 & f3 & g3 & E4 & R3 & R4 & P3 & T3).
      - unfold scalef. rewrite Nat.eqb_refl. exact Vp.
      - intros k Hk. destruct (T1 k Hk) as (U1 & U2). unfold scalef. split; [destruct (Nat.eqb_spec k j); [lia|exact U1]|]. intros x Hx.
        destruct (Nat.eqb_spec x j) as [->|]; [rewrite U2 by lia; ring|apply U2; lia].
      - rewrite E4. cbn [obind]. exists a3, b3, (mul d1 (f1 j j)), f3, g3. auto.
    Qed.
    (** once a column had no pivot the determinant stays zero and the rank below n *)
    Lemma gauss_step_deficient j r a b f g : rep n n a f -> rep n n b g -> j < n -> r <= j ->
      exists r' a' b' f' g', gauss_step zero one sub mul opp tdiv eqb n j (r, a, b, zero) = Some (r', a', b', zero) /\ rep n n a' f' /\ rep n n b' g' /\ r' <= S r.
    Proof using Rth eqb_spec div_ok.
      intros Ha Hb Hj Hr. unfold gauss_step. destruct (pivot_spec n a f j Ha Hj (n - r) r) as (i & Ei & Bi & Z1 & Z2); [lia|]. rewrite Ei. cbn [obind].
      destruct (Nat.leb_spec n i) as [Li|Li]; [exists r, a, b, f, g; auto 10|]. specialize (Z2 Li).
      assert (SW : exists a1 b1 f1 g1, (if i =? j then Some (a, b, zero) else let* a0 := swap_rows a i j in let* b0 := swap_rows b i j in Some (a0, b0, opp zero)) = Some (a1, b1, zero) /\
        rep n n a1 f1 /\ rep n n b1 g1 /\ f1 j j <> zero).
      { destruct (Nat.eqb_spec i j) as [->|Ni]; [exists a, b, f, g; auto|].
        destruct (swap_rows_spec n a f i j Ha Li Hj) as (a1 & E1 & R1). destruct (swap_rows_spec n b g i j Hb Li Hj) as (b1 & E2 & R2). rewrite E1. cbn [obind]. rewrite E2. cbn [obind].
        exists a1, b1, (swapf f i j), (swapf g i j). split; [do 2 f_equal; ring|]. split; [exact R1|]. split; [exact R2|]. unfold swapf. rewrite Nat.eqb_refl. exact Z2. }
      destruct SW as (a1 & b1 & f1 & g1 & Es & R1 & R2 & N1). rewrite Es. cbn [obind]. rewrite (rep_get _ _ _ _ j j R1) by lia. cbn [obind].
      destruct (div_ok _ N1) as (pi & Ep & Vp). rewrite Ep. cbn [obind].
      destruct (scale_row_spec n a1 f1 j pi R1 Hj) as (a2 & E2 & S2). rewrite E2. cbn [obind]. destruct (scale_row_spec n b1 g1 j pi R2 Hj) as (b2 & E3 & S3). rewrite E3. cbn [obind].
      destruct (elim_loop_shape j (S r) a2 b2 _ _ S2 S3 Hj) as (a3 & b3 & f3 & g3 & E4 & R3 & R4); [lia|]. rewrite E4. cbn [obind].
      exists (S r), a3, b3, f3, g3. split; [do 2 f_equal; ring|]. auto.
    Qed.

    Lemma back_spec a b f g d : rep n n a f -> rep n n b g -> P f g d -> tri n f ->
      exists a' b' f' g', for_down 0 n (fun j s => for_down 0 j (fun i s => eliminate zero sub mul eqb n j i s) s) (a, b) = Some (a', b') /\
        rep n n a' f' /\ rep n n b' g' /\ P f' g' d /\ forall i j, i < n -> j < n -> f' i j = if i =? j then one else zero.
    Proof using Rth eqb_spec P_elim.
      intros Ha Hb HP HT.
      destruct (for_down_spec (fun j s => exists f' g', rep n n (fst s) f' /\ rep n n (snd s) g' /\ P f' g' d /\ tri n f' /\ forall x k, x < k -> j <= k < n -> f' x k = zero)
        (fun j s => for_down 0 j (fun i s => eliminate zero sub mul eqb n j i s) s) 0 n (a, b)) as ([a' b'] & E & f' & g' & R1 & R2 & HP' & HT' & HZ).
      - lia.
      - exists f, g. cbn. split; [exact Ha|]. split; [exact Hb|]. split; [exact HP|]. split; [exact HT|]. intros; lia.
      - intros j [a1 b1] Hj (f1 & g1 & R1 & R2 & P1 & T1 & Z1). cbn [fst snd] in *.
        destruct (for_down_spec (fun i s => exists f' g', rep n n (fst s) f' /\ rep n n (snd s) g' /\ P f' g' d /\ tri n f' /\ (forall x k, x < k -> j < k < n -> f' x k = zero) /\
            forall x, i <= x < j -> f' x j = zero) (fun i s => eliminate zero sub mul eqb n j i s) 0 j (a1, b1)) as ([a2 b2] & E & f2 & g2 & S1 & S2 & P2 & T2 & Z2 & Z3).
        + lia.
        + exists f1, g1. cbn. split; [exact R1|]. split; [exact R2|]. split; [exact P1|]. split; [exact T1|]. split; [intros x k Hx Hk; apply Z1; lia|]. intros; lia.
        + intros i [a2 b2] Hi (f2 & g2 & S1 & S2 & P2 & T2 & Z2 & Z3). cbn [fst snd] in *.
          destruct (eliminate_spec n j i a2 b2 f2 g2 S1 S2) as (a3 & b3 & E & R3 & R4); [lia|lia|]. exists (a3, b3). split; [exact E|].
          exists (elimf f2 i j (f2 i j)), (elimf g2 i j (f2 i j)). cbn [fst snd]. split; [exact R3|]. split; [exact R4|]. split; [apply P_elim; (lia || exact P2)|]. unfold elimf.
          destruct (T2 j) as (J1 & J2); [lia|]. split.
          * intros k Hk. destruct (T2 k Hk) as (U1 & U2). split.
            -- destruct (Nat.eqb_spec k i) as [->|]; [|exact U1]. rewrite U1, (U2 j) by lia. ring.
            -- intros x Hx. destruct (Nat.eqb_spec x i) as [->|]; [|apply U2; lia]. rewrite (U2 i), (U2 j) by lia. ring.
          * split.
            -- intros x k Hx Hk. destruct (Nat.eqb_spec x i) as [->|]; [|apply Z2; lia]. rewrite (Z2 i), (Z2 j) by lia. ring.
            -- intros x Hx. destruct (Nat.eqb_spec x i) as [->|]; [rewrite J1; ring|]. apply Z3. lia.
        + exists (a2, b2). split; [exact E|]. exists f2, g2. cbn [fst snd] in *. split; [exact S1|]. split; [exact S2|]. split; [exact P2|]. split; [exact T2|].
          intros x k Hx Hk. destruct (Nat.eq_dec k j) as [->|]; [apply Z3; lia|apply Z2; lia].
      - cbn [fst snd] in *. exists a', b', f', g'. split; [exact E|]. split; [exact R1|]. split; [exact R2|]. split; [exact HP'|]. intros i j Hi Hj.
        destruct (Nat.eqb_spec i j) as [->|Ne]; [apply (HT' j Hj)|]. destruct (Nat.lt_ge_cases i j); [apply HZ; lia|]. apply (HT' j Hj). lia.
    Qed.

    Lemma gauss_spec a f : n <> 0 -> rep n n a f -> P f (fun i j => if i =? j then one else zero) one ->
      exists r a' b' d, gauss zero one sub mul opp tdiv eqb a = Some (r, a', b', d) /\
        ((r = n /\ exists f' g', rep n n b' g' /\ P f' g' d /\ forall i j, i < n -> j < n -> f' i j = if i =? j then one else zero) \/
         (r < n /\ d = zero /\ shape n n b' /\ exists f' g' d', P f' g' d' /\ sing f')).
    Proof using Rth H10 eqb_spec div_ok P_swap P_scale P_elim.
      intros Hn Ha HP. unfold gauss. rewrite (rep_get _ _ _ _ 0 0 Ha) by lia. cbn [obind]. rewrite (rep_rows _ _ _ _ Ha).
      destruct (identity_spec zero one n) as (b & Eb & Rb). rewrite Eb. cbn [obind].
      destruct (for_range_spec (fun j s => let '(r, a1, b1, d) := s in exists f1 g1, rep n n a1 f1 /\ rep n n b1 g1 /\
          ((r = j /\ P f1 g1 d /\ tri j f1) \/ (r < j /\ d = zero /\ exists f' g' d', P f' g' d' /\ sing f')))
        (gauss_step zero one sub mul opp tdiv eqb n) 0 n (0, a, b, one)) as ([[[r a1] b1] d] & E & f1 & g1 & R1 & R2 & H).
      - lia.
      - eexists _, _. split; [exact Ha|]. split; [exact Rb|]. left. split; [reflexivity|]. split; [exact HP|]. intros k Hk. lia.
      - intros j [[[r a1] b1] d] Hj (f1 & g1 & R1 & R2 & [(-> & P1 & T1)|(Lr & -> & HS)]).
        + destruct (gauss_step_full j a1 b1 d f1 g1 R1 R2) as [(a2 & b2 & d2 & f2 & g2 & E & S1 & S2 & P2 & T2)|(E & HS)]; [lia|exact P1|exact T1| |].
          * eexists. split; [exact E|]. exists f2, g2. split; [exact S1|]. split; [exact S2|]. left. auto.
          * eexists. split; [exact E|]. exists f1, g1. split; [exact R1|]. split; [exact R2|]. right. split; [lia|]. split; [reflexivity|]. exists f1, g1, d. auto.
        + destruct (gauss_step_deficient j r a1 b1 f1 g1 R1 R2) as (r2 & a2 & b2 & f2 & g2 & E & S1 & S2 & B); [lia|lia|]. eexists. split; [exact E|]. exists f2, g2.
          split; [exact S1|]. split; [exact S2|]. right. split; [lia|]. split; [reflexivity|exact HS].
      - rewrite E. cbn [obind]. destruct H as [(-> & P1 & T1)|(Lr & -> & HS)].
        + rewrite Nat.eqb_refl. destruct (back_spec a1 b1 f1 g1 d R1 R2 P1 T1) as (a2 & b2 & f2 & g2 & E2 & S1 & S2 & P2 & V). rewrite E2. cbn [obind].
          exists n, a2, b2, d. split; [reflexivity|]. left. split; [reflexivity|]. exists f2, g2. auto.
        + destruct (Nat.eqb_spec r n); [lia|]. exists r, a1, b1, zero. split; [reflexivity|]. right. split; [exact Lr|]. split; [reflexivity|]. split; [|exact HS]. apply (rep_ent zero _ _ _ _ R2).
    Qed.
  End Inv.
End Gauss.
