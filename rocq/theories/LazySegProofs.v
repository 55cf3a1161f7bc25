(** Proofs about LazySegModel. *)
From Verif Require Import Lib SegTreeModel SegTreeSpec SegTreeProofs LazySegModel LazySegSpec.
From Coq Require Import ZifyBool ZifyNat.
Ltac Zify.zify_post_hook ::= Z.div_mod_to_equations.

Lemma pow2_pos k : 0 < 2 ^ k.
Proof. pose proof (Nat.pow_nonzero 2 k ltac:(lia)). lia. Qed.

Lemma div_pow_add x a b : x / 2 ^ (a + b) = (x / 2 ^ a) / 2 ^ b.
Proof. rewrite Nat.pow_add_r. rewrite Nat.div_div; [reflexivity| |]; apply Nat.pow_nonzero; lia. Qed.

Lemma div_pow_bounds x m : (x / 2 ^ m) * 2 ^ m <= x < (x / 2 ^ m + 1) * 2 ^ m.
Proof.
  pose proof (pow2_pos m). pose proof (Nat.div_mod x (2 ^ m) ltac:(lia)).
  pose proof (Nat.mod_upper_bound x (2 ^ m) ltac:(lia)). nia.
Qed.

Lemma div_pow_unique x m q : q * 2 ^ m <= x < (q + 1) * 2 ^ m -> x / 2 ^ m = q.
Proof. intros H. symmetry. apply (Nat.div_unique x (2 ^ m) q (x - q * 2 ^ m)); lia. Qed.

(** j is i or below i *)
Definition desc (j i : nat) : Prop := exists m, j / 2 ^ m = i.

Lemma desc_refl i : desc i i.
Proof. exists 0. now rewrite Nat.pow_0_r, Nat.div_1_r. Qed.
Lemma desc_ge j i : desc j i -> i <= j.
Proof. intros [m <-]. pose proof (div_pow_bounds j m). pose proof (pow2_pos m). nia. Qed.
Lemma desc_child0 j i : desc j (2 * i) -> desc j i.
Proof. intros [m H]. exists (m + 1). rewrite div_pow_add, H, Nat.pow_1_r. lia. Qed.
Lemma desc_child1 j i : desc j (2 * i + 1) -> desc j i.
Proof. intros [m H]. exists (m + 1). rewrite div_pow_add, H, Nat.pow_1_r. lia. Qed.
Lemma desc_cases j i : desc j i -> j = i \/ desc j (2 * i) \/ desc j (2 * i + 1).
Proof.
  intros [m H]. destruct m as [|m].
  - left. now rewrite Nat.pow_0_r, Nat.div_1_r in H.
  - right. replace (S m) with (m + 1) in H by lia. rewrite div_pow_add, Nat.pow_1_r in H.
    assert (j / 2 ^ m = 2 * i \/ j / 2 ^ m = 2 * i + 1) as [E|E] by lia; [left|right]; exists m; exact E.
Qed.
Lemma desc_linear j a b : desc j a -> desc j b -> desc a b \/ desc b a.
Proof.
  intros [x Hx] [y Hy]. destruct (Nat.le_gt_cases x y) as [L|L].
  - left. exists (y - x). rewrite <- Hx, <- div_pow_add. now replace (x + (y - x)) with y by lia.
  - right. exists (x - y). rewrite <- Hy, <- div_pow_add. now replace (y + (x - y)) with x by lia.
Qed.
Lemma desc_trans a b c : desc a b -> desc b c -> desc a c.
Proof. intros [x Hx] [y Hy]. exists (x + y). now rewrite div_pow_add, Hx. Qed.
Lemma skipn_skipn' {A} (l : list A) a b : skipn a (skipn b l) = skipn (b + a) l.
Proof.
  revert l; induction b as [|b IH]; intros l; [reflexivity|].
  destruct l as [|x l]; [now rewrite !skipn_nil|]. cbn. apply IH.
Qed.
Lemma desc_dec j i : desc j i \/ ~ desc j i.
Proof.
  destruct (Nat.eq_dec i 0) as [->|Hi].
  - left. exists j. apply Nat.div_small. apply Nat.pow_gt_lin_r. lia.
  - destruct (existsb (fun m => j / 2 ^ m =? i) (seq 0 (S j))) eqn:E.
    + left. apply existsb_exists in E. destruct E as (m & _ & H). exists m. now apply Nat.eqb_eq.
    + right. intros [m H]. assert (existsb (fun m => j / 2 ^ m =? i) (seq 0 (S j)) = true); [|congruence].
      apply existsb_exists. exists m. split; [|now apply Nat.eqb_eq].
      apply in_seq. pose proof (div_pow_bounds j m). assert (m < 2 ^ m) by (apply Nat.pow_gt_lin_r; lia).
      rewrite H in *. nia.
Qed.
Lemma desc_sib j i : 0 < i -> desc j (2 * i) -> desc j (2 * i + 1) -> False.
Proof.
  intros Hi H1 H2. destruct (desc_linear j _ _ H1 H2) as [H|H].
  - apply desc_ge in H. lia.
  - destruct H as [m H]. destruct m as [|m]; [rewrite Nat.pow_0_r, Nat.div_1_r in H; lia|].
    rewrite div_pow2_S in H. replace ((2 * i + 1) / 2) with i in H by lia.
    pose proof (div_pow_bounds i m). pose proof (pow2_pos m). nia.
Qed.

Lemma oddT i : Nat.odd i = true -> i = 2 * (i / 2) + 1.
Proof. intros H. apply Nat.odd_spec in H. destruct H as [m ->]. lia. Qed.
Lemma oddF i : Nat.odd i = false -> i = 2 * (i / 2).
Proof.
  intros H. assert (E : Nat.even i = true) by (rewrite <- Nat.negb_odd, H; reflexivity).
  apply Nat.even_spec in E. destruct E as [m ->]. lia.
Qed.
Lemma odd_pow2' i k h : Nat.odd i = true -> i * 2 ^ k = 2 ^ h -> i = 1.
Proof.
  revert k; induction h as [|h IH]; intros k Ho E.
  - cbn in E. lia.
  - destruct k as [|k].
    + cbn [Nat.pow] in E. rewrite Nat.mul_1_r in E. subst i.
      rewrite Nat.odd_mul in Ho. cbn in Ho. discriminate.
    + cbn [Nat.pow] in E. apply (IH k Ho). nia.
Qed.
Lemma pow2_le_cases a b : a < b -> 2 * 2 ^ a <= 2 ^ b.
Proof. intros L. change (2 * 2 ^ a) with (2 ^ S a). apply Nat.pow_le_mono_r; lia. Qed.
Lemma pow2_le a b : a <= b -> 2 ^ a <= 2 ^ b.
Proof. intros L. apply Nat.pow_le_mono_r; lia. Qed.
Lemma pow2_inj a b : 2 ^ a = 2 ^ b -> a = b.
Proof. intros E. apply (Nat.pow_inj_r 2); [lia|exact E]. Qed.

Lemma top_loop_spec fuel : forall i, 0 < i < fuel -> exists t z, top_loop fuel i = Some t /\ Nat.odd t = true /\ t * 2 ^ z = i.
Proof.
  induction fuel as [|fu IH]; intros i Hi; [lia|]. cbn [top_loop].
  destruct (Nat.even i) eqn:Ev.
  - assert (Od : Nat.odd i = false) by (rewrite <- Nat.negb_even, Ev; reflexivity).
    apply oddF in Od. destruct (IH (i / 2) ltac:(lia)) as (t & z & E & O & P).
    exists t, (S z). split; [exact E|]. split; [exact O|]. cbn [Nat.pow]. lia.
  - exists i, 0. split; [reflexivity|]. rewrite <- Nat.negb_even, Ev. cbn. split; [reflexivity|lia].
Qed.
Lemma top_spec m b : 0 < m + b -> exists t z, lst_top m b = Some t /\ Nat.odd t = true /\ t * 2 ^ z = m + b.
Proof. intros H. apply top_loop_spec. lia. Qed.

(** an odd multiple of 2^z strictly inside an aligned block *)
Lemma odd_strict t x m : Nat.odd t = true -> 1 <= m -> t / 2 ^ m = x -> x * 2 ^ m < t.
Proof.
  intros O Hm E. pose proof (div_pow_bounds t m) as [H1 H2]. rewrite E in *.
  destruct m as [|m]; [lia|]. cbn [Nat.pow] in *. apply oddT in O. nia.
Qed.
Lemma odd_pred t m : Nat.odd t = true -> 1 <= m -> (t - 1) / 2 ^ m = t / 2 ^ m.
Proof.
  intros O Hm. destruct m as [|m]; [lia|]. rewrite !div_pow2_S. apply oddT in O. f_equal. lia.
Qed.

Section Proofs.
  Context {T X : Type} (up : T -> T -> T -> T) (down : T -> T -> T -> T * T * T) (id : T).
  Variable R : T -> list X -> Prop.
  Variable pend : T -> X -> X.
  Variable lv : T -> X.
  Hypothesis C : lazy_contract up down id R pend lv.
  Variable h : nat.
  Notation n := (2 ^ h).
  Notation G v i := (nth i v id).
  Notation idle := (idle pend).

  Definition lev (i k : nat) : Prop := n <= i * 2 ^ k /\ (i + 1) * 2 ^ k <= 2 * n.

  Lemma lev_child i k : lev i (S k) -> lev (2 * i) k /\ lev (2 * i + 1) k /\ 0 < i < n.
  Proof.
    unfold lev. cbn [Nat.pow]. pose proof (pow2_pos h). pose proof (pow2_pos k). intros [H1 H2].
    repeat split; nia.
  Qed.
  Lemma lev_range i k : lev i k -> 0 < i < 2 * n.
  Proof. unfold lev. pose proof (pow2_pos h). pose proof (pow2_pos k). intros [H1 H2]. nia. Qed.
  Lemma lev_leaf i : lev i 0 -> n <= i.
  Proof. unfold lev. cbn [Nat.pow]. lia. Qed.
  Lemma lev_exists i : 0 < i < 2 * n -> exists k, lev i k.
  Proof.
    intros Hi.
    assert (E : exists d, 2 ^ d <= i < 2 ^ S d).
    { exists (Nat.log2 i). apply Nat.log2_spec. lia. }
    destruct E as (d & D1 & D2).
    assert (Hd : d <= h).
    { destruct (Nat.le_gt_cases d h) as [|L]; [assumption|].
      assert (2 ^ S h <= 2 ^ d) by (apply Nat.pow_le_mono_r; lia). cbn [Nat.pow] in *. lia. }
    exists (h - d). unfold lev.
    assert (E : n = 2 ^ d * 2 ^ (h - d)) by (rewrite <- Nat.pow_add_r; f_equal; lia).
    pose proof (pow2_pos (h - d)). cbn [Nat.pow] in D2. rewrite E. nia.
  Qed.
  Lemma lev_internal i : 0 < i < n -> exists k, lev i (S k).
  Proof.
    intros Hi. destruct (lev_exists i ltac:(lia)) as [[|k] Hk]; [|eauto]. apply lev_leaf in Hk. lia.
  Qed.
  Lemma lev_parent i k : lev i k -> 1 < i -> lev (i / 2) (S k).
  Proof.
    intros Hl Hi. destruct (lev_internal (i / 2)) as [q Hq].
    { apply lev_range in Hl. lia. }
    replace (S k) with (S q); [exact Hq|]. f_equal.
    unfold lev in *. cbn [Nat.pow] in Hq. pose proof (pow2_pos h). pose proof (pow2_pos k). pose proof (pow2_pos q).
    assert (~ q < k).
    { intros L. assert (2 * 2 ^ q <= 2 ^ k) by (change (2 * 2 ^ q) with (2 ^ S q); apply Nat.pow_le_mono_r; lia).
      assert (i <= 2 * (i / 2) + 1) by lia. nia. }
    assert (~ k < q).
    { intros L. assert (2 * 2 ^ k <= 2 ^ q) by (change (2 * 2 ^ k) with (2 ^ S k); apply Nat.pow_le_mono_r; lia).
      assert (2 * (i / 2) <= i) by lia. nia. }
    lia.
  Qed.

  (** the elements below node i (at height k), with the updates pending at i and below applied *)
  Fixpoint D (v : list T) (k i : nat) : list X :=
    match k with
    | O => [lv (G v i)]
    | S k' => map (pend (G v i)) (D v k' (2 * i) ++ D v k' (2 * i + 1))
    end.

  Lemma D_length v k i : length (D v k i) = 2 ^ k.
  Proof.
    revert i; induction k as [|k IH]; intros i; [reflexivity|]. cbn [D Nat.pow].
    rewrite map_length, app_length, !IH. lia.
  Qed.
  Lemma D_ext v v' k : forall i, (forall j, desc j i -> G v' j = G v j) -> D v' k i = D v k i.
  Proof.
    induction k as [|k IH]; intros i H; cbn [D].
    - now rewrite H by apply desc_refl.
    - rewrite H by apply desc_refl. f_equal.
      f_equal; apply IH; intros j Hj; apply H; [now apply desc_child0|now apply desc_child1].
  Qed.
  Lemma D_idle v k i : idle (G v i) -> D v (S k) i = D v k (2 * i) ++ D v k (2 * i + 1).
  Proof. intros H. cbn [D]. rewrite (map_ext _ (fun x => x)) by exact H. apply map_id. Qed.

  Definition Rok (v : list T) (i : nat) : Prop := forall k, lev i k -> R (G v i) (D v k i).

  (* --------------------------------------------------------- update_down *)

  Lemma down_eff v i : length v = 2 * n -> 0 < i < n -> (forall j, j / 2 = i -> Rok v j) -> exists v',
    lst_down down v i = Some v' /\ length v' = 2 * n /\ G v' 0 = G v 0 /\ idle (G v' i) /\
    (forall j, j <> i -> j / 2 <> i -> G v' j = G v j) /\
    (forall j, j / 2 = i -> forall x, pend (G v' j) x = pend (G v i) (pend (G v j) x)) /\
    (forall q j, lev j q -> j / 2 <> i -> D v' q j = D v q j) /\
    (forall j, 0 < j < 2 * n -> Rok v j -> Rok v' j).
  Proof.
    intros L Hi HRc. unfold lst_down.
    rewrite (nth_error_nth_in v i id) by lia. cbn [obind].
    rewrite (nth_error_nth_in v (2 * i + 0) id) by lia. cbn [obind].
    rewrite (nth_error_nth_in v (2 * i + 1) id) by lia. cbn [obind]. rewrite Nat.add_0_r.
    destruct (down (G v i) (G v (2 * i)) (G v (2 * i + 1))) as [[p' l'] r'] eqn:ED.
    destruct (lc_down _ _ _ _ _ _ C _ _ _ _ _ _ ED) as (Ip & Rp & Rl & Rr & Pl & Pr & Ll & Lr).
    destruct (set_nth_some v i p') as [v1 E1]; [lia|]. rewrite E1. cbn [obind].
    pose proof (set_nth_length _ _ _ _ E1) as L1.
    destruct (set_nth_some v1 (2 * i) l') as [v2 E2]; [lia|]. rewrite E2. cbn [obind].
    pose proof (set_nth_length _ _ _ _ E2) as L2.
    destruct (set_nth_some v2 (2 * i + 1) r') as [v3 E3]; [lia|].
    pose proof (set_nth_length _ _ _ _ E3) as L3.
    exists v3. split; [exact E3|]. split; [lia|].
    assert (GG : forall j, G v3 j = if 2 * i + 1 =? j then r' else if 2 * i =? j then l' else if i =? j then p' else G v j).
    { intros j. rewrite (set_nth_nth _ _ _ _ id j E3), (set_nth_nth _ _ _ _ id j E2), (set_nth_nth _ _ _ _ id j E1). reflexivity. }
    assert (Gi : G v3 i = p').
    { rewrite GG. destruct (Nat.eqb_spec (2 * i + 1) i); [lia|]. destruct (Nat.eqb_spec (2 * i) i); [lia|].
      now rewrite Nat.eqb_refl. }
    assert (Gl : G v3 (2 * i) = l').
    { rewrite GG. destruct (Nat.eqb_spec (2 * i + 1) (2 * i)); [lia|]. now rewrite Nat.eqb_refl. }
    assert (Gr : G v3 (2 * i + 1) = r') by (rewrite GG; now rewrite Nat.eqb_refl).
    assert (Go : forall j, j <> i -> j / 2 <> i -> G v3 j = G v j).
    { intros j N1 N2. rewrite GG. destruct (Nat.eqb_spec (2 * i + 1) j); [lia|].
      destruct (Nat.eqb_spec (2 * i) j); [lia|]. destruct (Nat.eqb_spec i j); [lia|reflexivity]. }
    split; [apply Go; [lia|rewrite Nat.div_0_l; lia]|]. split; [now rewrite Gi|]. split; [exact Go|].
    split.
    { intros j Hj x. assert (j = 2 * i \/ j = 2 * i + 1) as [-> | ->] by lia.
      - rewrite Gl. apply Pl.
      - rewrite Gr. apply Pr. }
    (* grandchildren subtrees are untouched *)
    assert (Dfar : forall q j, 2 * i + 1 < j -> D v3 q j = D v q j).
    { intros q j Hj. apply D_ext. intros j' Hd. apply desc_ge in Hd. apply Go; lia. }
    assert (Dc : forall q j, lev j q -> j / 2 = i -> D v3 q j = map (pend (G v i)) (D v q j)).
    { intros q j Hlj Hj. destruct q as [|q].
      - specialize (HRc j Hj 0 Hlj). cbn [D] in HRc.
        cbn [D map]. f_equal. assert (j = 2 * i \/ j = 2 * i + 1) as [-> | ->] by lia; [rewrite Gl|rewrite Gr]; auto.
      - cbn [D]. rewrite !Dfar by lia. rewrite map_map. apply map_ext. intros x.
        assert (j = 2 * i \/ j = 2 * i + 1) as [-> | ->] by lia; [rewrite Gl|rewrite Gr]; auto. }
    assert (Ds : forall q j, lev j q -> j / 2 <> i -> D v3 q j = D v q j).
    { induction q as [|q IH]; intros j Hl Hj.
      - apply lev_leaf in Hl. cbn [D]. rewrite Go; [reflexivity|lia|exact Hj].
      - destruct (lev_child j q Hl) as (Hl1 & Hl2 & Hl3).
        destruct (Nat.eq_dec j i) as [->|N].
        + rewrite D_idle by (rewrite Gi; exact Ip).
          rewrite !Dc by (assumption || lia). rewrite <- map_app. reflexivity.
        + cbn [D]. rewrite Go by assumption. rewrite !IH by (assumption || lia). reflexivity. }
    split; [exact Ds|].
    intros j Hj RO q Hl. specialize (RO q Hl).
    destruct (Nat.eq_dec j i) as [->|N].
    - rewrite Ds by (assumption || lia). rewrite Gi. apply Rp. exact RO.
    - destruct (Nat.eq_dec (j / 2) i) as [E|N2].
      + rewrite Dc by assumption. assert (j = 2 * i \/ j = 2 * i + 1) as [-> | ->] by lia; [rewrite Gl|rewrite Gr]; auto.
      + rewrite Ds by assumption. rewrite Go by assumption. exact RO.
  Qed.

  (* ----------------------------------------------------------- update_up *)

  Lemma up_eff v i : length v = 2 * n -> 0 < i < n -> idle (G v i) -> exists v',
    lst_up up v i = Some v' /\ length v' = 2 * n /\ G v' 0 = G v 0 /\ idle (G v' i) /\
    (forall j, j <> i -> G v' j = G v j) /\
    (forall q j, lev j q -> D v' q j = D v q j) /\
    (Rok v (2 * i) -> Rok v (2 * i + 1) -> Rok v' i) /\
    (forall j, j <> i -> Rok v j -> Rok v' j).
  Proof.
    intros L Hi Id. unfold lst_up.
    rewrite (nth_error_nth_in v i id) by lia. cbn [obind].
    rewrite (nth_error_nth_in v (2 * i + 0) id) by lia. cbn [obind].
    rewrite (nth_error_nth_in v (2 * i + 1) id) by lia. cbn [obind]. rewrite Nat.add_0_r.
    set (u := up (G v i) (G v (2 * i)) (G v (2 * i + 1))).
    assert (Iu : idle u) by (apply (lc_up_idle _ _ _ _ _ _ C); exact Id).
    destruct (set_nth_some v i u) as [v' E]; [lia|].
    exists v'. split; [exact E|]. split; [rewrite (set_nth_length _ _ _ _ E); exact L|].
    assert (GG : forall j, G v' j = if i =? j then u else G v j) by (intros j; apply (set_nth_nth _ _ _ _ _ _ E)).
    assert (Gi : G v' i = u) by (rewrite GG; now rewrite Nat.eqb_refl).
    assert (Go : forall j, j <> i -> G v' j = G v j) by (intros j N; rewrite GG; destruct (Nat.eqb_spec i j); [lia|reflexivity]).
    split; [apply Go; lia|]. split; [now rewrite Gi|]. split; [exact Go|].
    assert (Ds : forall q j, lev j q -> D v' q j = D v q j).
    { induction q as [|q IH]; intros j Hl.
      - apply lev_leaf in Hl. cbn [D]. rewrite Go by lia. reflexivity.
      - destruct (lev_child j q Hl) as (Hl1 & Hl2 & Hl3).
        destruct (Nat.eq_dec j i) as [->|N].
        + rewrite D_idle by (rewrite Gi; exact Iu). rewrite !IH by assumption. now rewrite D_idle.
        + cbn [D]. rewrite Go by exact N. now rewrite !IH by assumption. }
    split; [exact Ds|]. split.
    - intros R1 R2 q Hl. rewrite Ds by exact Hl. rewrite Gi.
      destruct q as [|q]; [apply lev_leaf in Hl; lia|].
      destruct (lev_child i q Hl) as (Hl1 & Hl2 & Hl3). rewrite D_idle by exact Id.
      apply (lc_up_R _ _ _ _ _ _ C); auto.
    - intros j N RO q Hl. rewrite Ds by exact Hl. rewrite Go by exact N. now apply RO.
  Qed.

  (* ------------------------------------------------------ update_segment *)

  Lemma set_nth_same (v : list T) i : i < length v -> set_nth v i (G v i) = Some v.
  Proof.
    revert i; induction v as [|x v IH]; intros i Hi; cbn [length] in Hi; [lia|].
    destruct i as [|i]; [reflexivity|]. cbn [set_nth nth]. rewrite IH by lia. reflexivity.
  Qed.

  Section Update.
    Variable f : T -> T * bool.
    Variable g : X -> X.
    Hypothesis U : update_contract R pend lv f g.

    Lemma segment_eff fuel : forall k v i, length v = 2 * n -> lev i k -> k < fuel ->
      (forall j, desc j i -> Rok v j) -> exists v',
      lst_update_segment up down fuel f v i = Some v' /\ length v' = 2 * n /\
      (forall j, ~ desc j i -> G v' j = G v j) /\
      D v' k i = map g (D v k i) /\
      (forall j, desc j i -> Rok v' j).
    Proof.
      induction fuel as [|fu IH]; intros k v i L Hl Hf HR; [lia|]. cbn [lst_update_segment].
      pose proof (lev_range i k Hl) as Hi.
      rewrite (nth_error_nth_in v i id) by lia. cbn [obind].
      destruct (f (G v i)) as [t' ok] eqn:Ef. destruct ok.
      - destruct (uc_yes _ _ _ _ _ U _ _ Ef) as (Ry & Py & Ly).
        destruct (set_nth_some v i t') as [v' E]; [lia|]. rewrite E. cbn [obind].
        exists v'. split; [reflexivity|]. split; [rewrite (set_nth_length _ _ _ _ E); exact L|].
        assert (GG : forall j, G v' j = if i =? j then t' else G v j) by (intros j; apply (set_nth_nth _ _ _ _ _ _ E)).
        assert (Gi : G v' i = t') by (rewrite GG; now rewrite Nat.eqb_refl).
        assert (Go : forall j, j <> i -> G v' j = G v j) by (intros j N; rewrite GG; destruct (Nat.eqb_spec i j); [lia|reflexivity]).
        assert (Dbelow : forall q j, i < j -> D v' q j = D v q j).
        { intros q j Hj. apply D_ext. intros j' Hd. apply desc_ge in Hd. apply Go. lia. }
        assert (Di : forall q, lev i q -> D v' q i = map g (D v q i)).
        { intros q Hq. destruct q as [|q]; cbn [D].
          - rewrite Gi. cbn. rewrite Ly; [reflexivity|]. exact (HR i (desc_refl i) 0 Hq).
          - rewrite Gi, !Dbelow by lia. rewrite map_map. apply map_ext. exact Py. }
        split; [intros j Nd; apply Go; intros ->; apply Nd, desc_refl|]. split; [now apply Di|].
        intros j Hd q Hlj. destruct (Nat.eq_dec j i) as [->|N].
        + rewrite Di, Gi by exact Hlj. apply Ry. apply (HR i (desc_refl i)). exact Hlj.
        + pose proof (desc_ge j i Hd). rewrite Dbelow by lia. rewrite Go by exact N. now apply HR.
      - apply (uc_no _ _ _ _ _ U) in Ef as Et. subst t'.
        rewrite set_nth_same by lia. cbn [obind].
        destruct k as [|k].
        { exfalso. pose proof (HR i (desc_refl i) 0 Hl) as R0. cbn [D] in R0.
          apply (uc_leaf _ _ _ _ _ U) in R0. rewrite Ef in R0. discriminate. }
        destruct (lev_child i k Hl) as (Hl1 & Hl2 & Hin).
        destruct (down_eff v i L Hin) as (v1 & E1 & L1 & Z1 & I1 & G1 & P1 & D1 & R1).
        { intros j Hj. apply HR. exists 1. now rewrite Nat.pow_1_r. }
        rewrite E1. cbn [obind]. rewrite Nat.add_0_r.
        assert (HR1 : forall j, desc j i -> 0 < j < 2 * n -> Rok v1 j) by (intros j Hd Hj; apply R1; auto).
        destruct (IH k v1 (2 * i) L1 Hl1 ltac:(lia)) as (v2 & E2 & L2 & G2 & D2 & R2).
        { intros j Hd q Hlj. apply HR1; [now apply desc_child0|now apply (lev_range j q)|exact Hlj]. }
        rewrite E2. cbn [obind].
        destruct (IH k v2 (2 * i + 1) L2 Hl2 ltac:(lia)) as (v3 & E3 & L3 & G3 & D3 & R3).
        { intros j Hd q Hlj.
          assert (Es : forall j', desc j' j -> G v2 j' = G v1 j').
          { intros j' Hd'. apply G2. intros Hc. apply (desc_sib j' i ltac:(lia) Hc). exact (desc_trans _ _ _ Hd' Hd). }
          rewrite (D_ext v1 v2) by exact Es. rewrite Es by apply desc_refl.
          apply HR1; [now apply desc_child1|now apply (lev_range j q)|exact Hlj]. }
        rewrite E3. cbn [obind].
        assert (Ni0 : ~ desc i (2 * i)) by (intros Hc; apply desc_ge in Hc; lia).
        assert (Ni1 : ~ desc i (2 * i + 1)) by (intros Hc; apply desc_ge in Hc; lia).
        assert (G3i : G v3 i = G v1 i) by (rewrite G3, G2 by assumption; reflexivity).
        assert (I3 : idle (G v3 i)) by (rewrite G3i; exact I1).
        destruct (up_eff v3 i L3 Hin I3) as (v4 & E4 & L4 & Z4 & I4 & G4 & D4 & R4i & R4).
        exists v4. split; [exact E4|]. split; [exact L4|].
        (* left child subtree is unchanged between v2 and v3 *)
        assert (D32 : forall q j, desc j (2 * i) -> D v3 q j = D v2 q j /\ G v3 j = G v2 j).
        { intros q j Hd.
          assert (Es : forall j', desc j' j -> G v3 j' = G v2 j').
          { intros j' Hd'. apply G3. intros Hc. apply (desc_sib j' i ltac:(lia)); [|exact Hc]. exact (desc_trans _ _ _ Hd' Hd). }
          split; [now apply D_ext|apply Es, desc_refl]. }
        split; [|split].
        + intros j Nd. assert (Nj : j <> i) by (intros ->; apply Nd, desc_refl).
          rewrite G4 by exact Nj.
          rewrite G3 by (intros Hc; apply Nd; now apply desc_child1).
          rewrite G2 by (intros Hc; apply Nd; now apply desc_child0).
          apply G1; [exact Nj|]. intros E. apply Nd. exists 1. rewrite Nat.pow_1_r. exact E.
        + rewrite D4 by exact Hl. rewrite D_idle by exact I3.
          rewrite D3. destruct (D32 k (2 * i) (desc_refl _)) as [-> _]. rewrite D2.
          assert (Ex : D v2 k (2 * i + 1) = D v1 k (2 * i + 1)).
          { apply D_ext. intros j' Hd'. apply G2. intros Hc. exact (desc_sib j' i ltac:(lia) Hc Hd'). }
          rewrite Ex, <- map_app. f_equal.
          rewrite <- (D_idle v1 k i I1). apply D1; [exact Hl|lia].
        + intros j Hd. destruct (Nat.eq_dec j i) as [->|N].
          * apply R4i.
            -- intros q Hlq. destruct (D32 q (2 * i) (desc_refl _)) as [-> ->]. apply (R2 (2 * i) (desc_refl _)). exact Hlq.
            -- apply R3. apply desc_refl.
          * apply R4; [exact N|]. destruct (desc_cases j i Hd) as [|[Hd'|Hd']]; [lia| |].
            -- intros q Hlq. destruct (D32 q j Hd') as [-> ->]. now apply (R2 j Hd').
            -- now apply R3.
    Qed.
  End Update.

  (* ------------------------------------------------------ propagate_down *)

  Definition IdleAnc (v : list T) (x : nat) : Prop :=
    forall m, 1 <= m -> 0 < x / 2 ^ m -> idle (G v (x / 2 ^ m)).

  Lemma height_loop_spec sz fuel : forall a, sz + 2 <= fuel + a -> 0 < fuel -> (a = 0 \/ 2 ^ (a - 1) <= sz) ->
    exists a', height_loop fuel a sz = Some a' /\ a <= a' /\ sz < 2 ^ a' /\ (a' = 0 \/ 2 ^ (a' - 1) <= sz).
  Proof.
    induction fuel as [|fu IH]; intros a Hf H0 Hp; [lia|]. cbn [height_loop].
    destruct (Nat.leb_spec (2 ^ a) sz) as [Hle|Hgt].
    - assert (a < 2 ^ a) by (apply Nat.pow_gt_lin_r; lia).
      destruct (IH (S a)) as (a' & E & L & H1); [lia|lia| |exists a'; split; [exact E|]; split; [lia|exact H1]].
      right. replace (S a - 1) with a by lia. exact Hle.
    - exists a. auto.
  Qed.
  Lemma calc_height1_spec sz : exists a, calc_height1 sz = Some a /\ sz < 2 ^ a /\ (a = 0 \/ 2 ^ (a - 1) <= sz).
  Proof.
    unfold calc_height1. destruct (height_loop_spec sz (S (S sz)) 0) as (a & E & _ & H); [lia|lia|auto|].
    exists a. auto.
  Qed.

  Lemma from_root_spec v x : length v = 2 * n -> x < 2 * n ->
    (forall j, 0 < j < 2 * n -> Rok v j) -> exists w,
    lst_from_root down v x = Some w /\ length w = 2 * n /\ G w 0 = G v 0 /\
    D w h 1 = D v h 1 /\ (forall j, 0 < j < 2 * n -> Rok w j) /\ IdleAnc w x /\
    (forall y, IdleAnc v y -> IdleAnc w y).
  Proof.
    intros L Hx HR. unfold lst_from_root.
    destruct (calc_height1_spec x) as (a & Ea & Ha & Ha'). rewrite Ea. cbn [obind].
    set (Inv := fun (q : nat) (w : list T) => length w = 2 * n /\ G w 0 = G v 0 /\
      D w h 1 = D v h 1 /\ (forall j, 0 < j < 2 * n -> Rok w j) /\
      (forall m, 1 <= m -> q <= m -> 0 < x / 2 ^ m -> idle (G w (x / 2 ^ m))) /\
      (forall y, IdleAnc v y -> IdleAnc w y)).
    assert (Inv a v).
    { repeat split; auto. intros m Hm Hqm Hp. exfalso.
      assert (2 ^ a <= 2 ^ m) by (apply Nat.pow_le_mono_r; lia).
      rewrite Nat.div_small in Hp by lia. lia. }
    destruct (Nat.le_gt_cases a 1) as [La|La].
    { unfold for_down. replace (a - 1) with 0 by lia. cbn [for_dn]. exists v. split; [reflexivity|].
      destruct H as (A & B & Cc & Dd & E & F). repeat (split; [assumption|]).
      split; [|assumption]. intros m Hm. apply E; lia. }
    destruct (for_down_spec Inv (fun q w => lst_down down w (x / 2 ^ q)) 1 a v) as (w & E & HI); [lia|exact H| |].
    - intros q w Hq (A & B & Cc & Dd & E & F).
      assert (Hp : 0 < x / 2 ^ q < n \/ x / 2 ^ q = 0).
      { destruct (Nat.eq_dec (x / 2 ^ q) 0); [now right|left]. split; [now apply Nat.neq_0_lt_0|].
        pose proof (div_pow_bounds x q). pose proof (pow2_le 1 q ltac:(lia)) as P1.
        rewrite Nat.pow_1_r in P1. set (y := x / 2 ^ q) in *. clearbody y. nia. }
      destruct Hp as [Hp|Hp].
      + destruct (down_eff w (x / 2 ^ q) A Hp) as (w' & E1 & L1 & Z1 & I1 & G1 & P1 & D1 & R1).
        { intros j Hj z Hz. apply Dd; [now apply lev_range with z|exact Hz]. }
        exists w'. split; [exact E1|]. split; [exact L1|]. split; [congruence|]. split.
        { rewrite D1; [exact Cc| |].
          - unfold lev. lia.
          - replace (1 / 2) with 0 by reflexivity. lia. }
        split; [intros j Hj; apply R1; auto|]. split.
        * intros m Hm1 Hm Hpm. destruct (Nat.eq_dec m q) as [->|N]; [exact I1|].
          assert (x / 2 ^ m < x / 2 ^ q).
          { replace m with (q + (m - q)) in * by lia. rewrite div_pow_add in *.
            apply Nat.div_lt; [lia|]. assert (2 ^ 1 <= 2 ^ (m - q)) by (apply Nat.pow_le_mono_r; lia).
            rewrite Nat.pow_1_r in *; lia. }
          rewrite G1; [apply E; lia|lia|lia].
        * intros y Hy m Hm Hpm. specialize (F y Hy).
          destruct (Nat.eq_dec (y / 2 ^ m) (x / 2 ^ q)) as [Eq|N]; [rewrite Eq; exact I1|].
          destruct (Nat.eq_dec (y / 2 ^ m / 2) (x / 2 ^ q)) as [Eq|N2].
          -- intros z. rewrite P1 by exact Eq. rewrite (F m Hm Hpm).
             assert (Ey : y / 2 ^ (m + 1) = x / 2 ^ q) by (rewrite div_pow_add, Nat.pow_1_r; exact Eq).
             rewrite <- Ey. apply F; lia.
          -- rewrite G1 by assumption. now apply F.
      + (* node 0 is never reached: its index is positive below the height *)
        exfalso. destruct Ha' as [Ha'|Ha']; [lia|].
        assert (2 ^ q <= 2 ^ (a - 1)) by (apply Nat.pow_le_mono_r; lia).
        pose proof (pow2_pos q). assert (0 < x / 2 ^ q) by (apply Nat.div_str_pos; lia). lia.
    - exists w. split; [exact E|]. destruct HI as (A & B & Cc & Dd & E' & F).
      repeat (split; [assumption|]). split; [|assumption]. intros m Hm. now apply E'.
  Qed.

  (* ----------------------------------------- nodes visited by get / update *)

  Section Range.
    Variables b e tb zb t ze : nat.
    Hypothesis Hbe : b <= e <= n.
    Hypothesis Otb : Nat.odd tb = true.
    Hypothesis Etb : tb * 2 ^ zb = n + b.
    Hypothesis Ot : Nat.odd t = true.
    Hypothesis Et : t * 2 ^ ze = n + e.

    (** proper ancestors of the two border nodes *)
    Definition A (y : nat) : Prop := exists m, 1 <= m /\ (y = tb / 2 ^ m \/ y = (t - 1) / 2 ^ m).

    (** node x at height k lies inside [b, e) *)
    Definition inside (x k : nat) : Prop := n + b <= x * 2 ^ k /\ (x + 1) * 2 ^ k <= n + e.

    Lemma inside_lev x k : inside x k -> lev x k.
    Proof. clear - Hbe. unfold inside, lev. lia. Qed.

    Lemma anc_block x k m : let p := x / 2 ^ m in
      p * 2 ^ (k + m) <= x * 2 ^ k /\ (x + 1) * 2 ^ k <= (p + 1) * 2 ^ (k + m).
    Proof.
      clear. cbv zeta. pose proof (div_pow_bounds x m) as [H1 H2]. rewrite Nat.pow_add_r.
      pose proof (pow2_pos k). pose proof (pow2_pos m). set (p := x / 2 ^ m) in *. nia.
    Qed.

    Lemma visited_anc x k : inside x k -> (x = 1 \/ ~ inside (x / 2) (S k)) ->
      forall m, 1 <= m -> 0 < x / 2 ^ m -> A (x / 2 ^ m).
    Proof.
      intros Hin Hp m Hm H0.
      destruct Hp as [->|Hp].
      { exfalso. rewrite Nat.div_small in H0; [lia|]. apply (Nat.pow_le_mono_r 2 1 m); lia. }
      pose proof (anc_block x k m) as [B1 B2].
      assert (Q : x / 2 ^ m * 2 ^ (k + m) <= x / 2 * 2 ^ S k /\
                  (x / 2 + 1) * 2 ^ S k <= (x / 2 ^ m + 1) * 2 ^ (k + m)).
      { pose proof (anc_block (x / 2) (S k) (m - 1)) as Q. cbv zeta in Q.
        rewrite <- (div_pow2_S x (m - 1)) in Q.
        replace (S (m - 1)) with m in Q by lia. replace (S k + (m - 1)) with (k + m) in Q by lia. exact Q. }
      set (p := x / 2 ^ m) in *. set (K := k + m) in *.
      assert (Hout : p * 2 ^ K < n + b \/ n + e < (p + 1) * 2 ^ K).
      { unfold inside in *. lia. }
      pose proof (pow2_pos k) as Hk. destruct Hin as [I1 I2].
      assert (Key : forall t' z N, t' * 2 ^ z = N -> p * 2 ^ K < N < (p + 1) * 2 ^ K -> z < K /\ p = t' / 2 ^ (K - z)).
      { clear. intros t' z N EN HN.
        destruct (Nat.le_gt_cases K z) as [Lz|Lz].
        - exfalso. replace z with (K + (z - K)) in EN by lia. rewrite Nat.pow_add_r in EN.
          set (w := 2 ^ (z - K)) in *. pose proof (pow2_pos K). subst N.
          assert (p < t' * w < p + 1) by nia. lia.
        - split; [exact Lz|]. symmetry. apply div_pow_unique.
          replace K with ((K - z) + z) in HN by lia. rewrite Nat.pow_add_r in HN.
          pose proof (pow2_pos z). subst N. nia. }
      destruct Hout as [Ho|Ho].
      - destruct (Key tb zb (n + b) Etb) as [L1 L2]; [lia|].
        exists (K - zb). split; [lia|]. left. exact L2.
      - destruct (Key t ze (n + e) Et) as [L1 L2]; [lia|].
        exists (K - ze). split; [lia|]. right. rewrite odd_pred by (assumption || lia). exact L2.
    Qed.

    Lemma visited_not_anc x k j : inside x k -> desc j x -> ~ A j.
    Proof.
      intros Hin Hd (m & Hm & Hj). destruct Hd as [q Hq].
      pose proof (inside_lev x k Hin) as Hl. pose proof (lev_range x k Hl) as Hx.
      unfold inside, lev in *. pose proof (pow2_pos k). pose proof (pow2_pos h).
      destruct Hj as [Hj|Hj].
      - assert (Ex : tb / 2 ^ (m + q) = x) by (rewrite div_pow_add, <- Hj; exact Hq).
        pose proof (odd_strict tb x (m + q) Otb ltac:(lia) Ex) as S1.
        pose proof (div_pow_bounds tb (m + q)) as [_ S2]. rewrite Ex in S2.
        assert (S1' : x * 2 ^ (m + q + zb) < n + b).
        { rewrite <- Etb, Nat.pow_add_r, Nat.mul_assoc. apply Nat.mul_lt_mono_pos_r; [apply pow2_pos|assumption]. }
        assert (S2' : n + b < (x + 1) * 2 ^ (m + q + zb)).
        { rewrite <- Etb, Nat.pow_add_r, Nat.mul_assoc. apply Nat.mul_lt_mono_pos_r; [apply pow2_pos|assumption]. }
        set (K := m + q + zb) in *.
        destruct (Nat.le_gt_cases k K) as [L|L].
        + apply pow2_le in L. clear - Hbe Hin Hl S1' S2' L Hx. nia.
        + apply pow2_le_cases in L. clear - Hbe Hin Hl S1' S2' L Hx. nia.
      - assert (Ex : t / 2 ^ (m + q) = x).
        { rewrite <- odd_pred by (assumption || lia). rewrite div_pow_add, <- Hj. exact Hq. }
        pose proof (odd_strict t x (m + q) Ot ltac:(lia) Ex) as S1.
        pose proof (div_pow_bounds t (m + q)) as [_ S2]. rewrite Ex in S2.
        assert (S1' : x * 2 ^ (m + q + ze) < n + e).
        { rewrite <- Et, Nat.pow_add_r, Nat.mul_assoc. apply Nat.mul_lt_mono_pos_r; [apply pow2_pos|assumption]. }
        assert (S2' : n + e < (x + 1) * 2 ^ (m + q + ze)).
        { rewrite <- Et, Nat.pow_add_r, Nat.mul_assoc. apply Nat.mul_lt_mono_pos_r; [apply pow2_pos|assumption]. }
        set (K := m + q + ze) in *.
        destruct (Nat.le_gt_cases K k) as [L|L].
        + apply pow2_le in L. clear - Hbe Hin Hl S1' S2' L Hx. nia.
        + apply pow2_le_cases in L. clear - Hbe Hin Hl S1' S2' L Hx. nia.
    Qed.

    Definition OKA (w : list T) : Prop := forall j, 0 < j < 2 * n -> Rok w j \/ A j.
    Definition IdleA (w : list T) : Prop := forall y, A y -> 0 < y -> idle (G w y).

    Lemma idle_anc w x k : IdleA w -> inside x k -> (x = 1 \/ ~ inside (x / 2) (S k)) -> IdleAnc w x.
    Proof. intros I Hin Hp m Hm H0. apply I; [|exact H0]. now apply (visited_anc x k). Qed.
  End Range.

  Let d : X := lv id.

  Lemma node_slice v x : forall k, lev x k -> IdleAnc v x ->
    forall i, i < 2 ^ k -> nth i (D v k x) d = nth (x * 2 ^ k - n + i) (D v h 1) d.
  Proof.
    induction x as [x IH] using lt_wf_ind. intros k Hl Hid i Hi.
    pose proof (lev_range x k Hl) as Hx.
    destruct (Nat.eq_dec x 1) as [->|N].
    - assert (k = h) by (apply pow2_inj; unfold lev in Hl; lia). subst k.
      f_equal. lia.
    - pose proof (lev_parent x k Hl ltac:(lia)) as Hlp.
      assert (Hip : IdleAnc v (x / 2)).
      { intros m Hm H0. rewrite <- div_pow2_S in *. apply Hid; [lia|exact H0]. }
      assert (Ip : idle (G v (x / 2))).
      { rewrite <- (Nat.pow_1_r 2) at 1. apply Hid; [lia|]. rewrite Nat.pow_1_r. lia. }
      pose proof (D_idle v k (x / 2) Ip) as ED.
      pose proof (D_length v k (2 * (x / 2))) as L1.
      assert (Hlow : n <= x / 2 * 2 ^ S k) by apply Hlp.
      assert (x = 2 * (x / 2) \/ x = 2 * (x / 2) + 1) as [Ex|Ex] by lia.
      + pose proof (IH (x / 2) ltac:(lia) (S k) Hlp Hip i ltac:(cbn [Nat.pow]; lia)) as E.
        rewrite ED, app_nth1 in E by lia. rewrite <- Ex in E. rewrite E. f_equal.
        cbn [Nat.pow] in *. nia.
      + pose proof (IH (x / 2) ltac:(lia) (S k) Hlp Hip (2 ^ k + i) ltac:(cbn [Nat.pow]; lia)) as E.
        rewrite ED, app_nth2 in E by lia. rewrite L1 in E. replace (2 ^ k + i - 2 ^ k) with i in E by lia.
        rewrite <- Ex in E. rewrite E. f_equal. cbn [Nat.pow] in *. nia.
  Qed.

  Definition chg (g : X -> X) (lo hi : nat) (y : nat) (x : X) : X :=
    if (lo <=? y) && (y <? hi) then g x else x.

  Lemma root_change v v' g lo hi x : forall k, lev x k -> IdleAnc v x ->
    (forall j, ~ desc j x -> G v' j = G v j) ->
    x * 2 ^ k <= lo -> hi <= (x + 1) * 2 ^ k ->
    (forall i, i < 2 ^ k -> nth i (D v' k x) d = chg g lo hi (x * 2 ^ k + i) (nth i (D v k x) d)) ->
    forall i, i < n -> nth i (D v' h 1) d = chg g lo hi (n + i) (nth i (D v h 1) d).
  Proof.
    induction x as [x IH] using lt_wf_ind. intros k Hl Hid Hout Hlo Hhi HD.
    pose proof (lev_range x k Hl) as Hx.
    destruct (Nat.eq_dec x 1) as [->|N].
    - assert (k = h) by (apply pow2_inj; unfold lev in Hl; lia). subst k.
      intros i Hi. rewrite HD by exact Hi. f_equal. lia.
    - pose proof (lev_parent x k Hl ltac:(lia)) as Hlp.
      assert (Hip : IdleAnc v (x / 2)).
      { intros m Hm H0. rewrite <- div_pow2_S in *. apply Hid; [lia|exact H0]. }
      assert (Ip : idle (G v (x / 2))).
      { rewrite <- (Nat.pow_1_r 2) at 1. apply Hid; [lia|]. rewrite Nat.pow_1_r. lia. }
      assert (Gp : G v' (x / 2) = G v (x / 2)) by (apply Hout; intros Hd; apply desc_ge in Hd; lia).
      assert (Ip' : idle (G v' (x / 2))) by (rewrite Gp; exact Ip).
      apply (IH (x / 2) ltac:(lia) (S k) Hlp Hip).
      + intros j Hd. apply Hout. intros Hc. apply Hd.
        apply (desc_trans j x); [exact Hc|]. exists 1. now rewrite Nat.pow_1_r.
      + cbn [Nat.pow]. nia.
      + cbn [Nat.pow]. nia.
      + intros i Hi. rewrite !D_idle by assumption.
        pose proof (D_length v k (2 * (x / 2))) as L1. pose proof (D_length v' k (2 * (x / 2))) as L2.
        cbn [Nat.pow] in Hi. pose proof (pow2_pos k) as Pk.
        assert (x = 2 * (x / 2) \/ x = 2 * (x / 2) + 1) as [Ex|Ex] by lia.
        * destruct (Nat.lt_ge_cases i (2 ^ k)) as [Li|Li].
          -- rewrite !app_nth1 by lia. rewrite <- Ex. rewrite HD by exact Li. f_equal. cbn [Nat.pow]. nia.
          -- rewrite !app_nth2 by lia. rewrite L1, L2.
             assert (Es : D v' k (2 * (x / 2) + 1) = D v k (2 * (x / 2) + 1)).
             { apply D_ext. intros j Hd. apply Hout. intros Hc. rewrite Ex in Hc.
               exact (desc_sib j (x / 2) ltac:(lia) Hc Hd). }
             rewrite Es. unfold chg.
             destruct (Nat.ltb_spec (x / 2 * 2 ^ S k + i) hi) as [Q|Q].
             ++ exfalso. cbn [Nat.pow] in Q. nia.
             ++ now rewrite andb_false_r.
        * destruct (Nat.lt_ge_cases i (2 ^ k)) as [Li|Li].
          -- rewrite !app_nth1 by lia.
             assert (Es : D v' k (2 * (x / 2)) = D v k (2 * (x / 2))).
             { apply D_ext. intros j Hd. apply Hout. intros Hc. rewrite Ex in Hc.
               exact (desc_sib j (x / 2) ltac:(lia) Hd Hc). }
             rewrite Es. unfold chg.
             destruct (Nat.leb_spec lo (x / 2 * 2 ^ S k + i)) as [Q|Q].
             ++ exfalso. cbn [Nat.pow] in Q. nia.
             ++ reflexivity.
          -- rewrite !app_nth2 by lia. rewrite L1, L2, <- Ex. rewrite HD by lia. f_equal. cbn [Nat.pow]. nia.
  Qed.

  Lemma slice_app (xs : list X) a b c : a <= b -> b <= c -> slice a b xs ++ slice b c xs = slice a c xs.
  Proof.
    clear. intros H1 H2. unfold slice. replace (c - a) with ((b - a) + (c - b)) by lia.
    rewrite <- (firstn_skipn (b - a) (firstn (b - a + (c - b)) (skipn a xs))).
    f_equal.
    - rewrite firstn_firstn. f_equal. lia.
    - rewrite skipn_firstn_comm. rewrite skipn_skipn'. f_equal; [lia|]. f_equal. lia.
  Qed.
  Lemma slice_nil (xs : list X) a : slice a a xs = [].
  Proof. unfold slice. now rewrite Nat.sub_diag. Qed.
  Lemma slice_length (xs : list X) a b : a <= b <= length xs -> length (slice a b xs) = b - a.
  Proof. clear. intros H. unfold slice. rewrite firstn_length, skipn_length. lia. Qed.
  Lemma slice_nth (xs : list X) a b i : i < b - a -> nth i (slice a b xs) d = nth (a + i) xs d.
  Proof.
    clear. intros H. unfold slice. revert a i b H. 
    assert (F : forall (l : list X) m i, i < m -> nth i (firstn m l) d = nth i l d).
    { induction l as [|x l IH]; intros m i H; [now rewrite firstn_nil|].
      destruct m; [lia|]. destruct i; [reflexivity|]. cbn. apply IH. lia. }
    intros a i b H. rewrite F by exact H. clear F H.
    revert a; induction xs as [|x l IH]; intros a; [rewrite skipn_nil; now destruct i, a|].
    destruct a; [reflexivity|]. cbn. apply IH.
  Qed.

  Lemma node_slice_list v x k : lev x k -> IdleAnc v x ->
    D v k x = slice (x * 2 ^ k - n) ((x + 1) * 2 ^ k - n) (D v h 1).
  Proof.
    intros Hl Hid. pose proof (D_length v h 1) as LR. pose proof (D_length v k x) as LD.
    unfold lev in Hl. pose proof (pow2_pos k).
    apply (nth_ext _ _ d d).
    - rewrite slice_length by nia. nia.
    - intros i Hi. rewrite slice_nth by nia. rewrite (node_slice v x k Hl Hid) by lia. reflexivity.
  Qed.

  (** which nodes the bottom-up scan visits *)
  Section Scan.
    Variables b e : nat.
    Hypothesis Hbe : b <= e <= n.

    Definition scan (b' e' i k : nat) : Prop :=
      b <= b' * 2 ^ k < b + 2 ^ k /\ e' * 2 ^ k <= e < e' * 2 ^ k + 2 ^ k /\ b' <= e' /\
      (b' = e' \/ (i * 2 ^ k = n /\ e' <= i)).

    Lemma scan_init : scan b e n 0.
    Proof. unfold scan. cbn [Nat.pow]. lia. Qed.

    Lemma scan_left b' e' i k : scan b' e' i k -> b' < e' -> Nat.odd b' = true ->
      inside b e (i + b') k /\ (i + b' = 1 \/ ~ inside b e ((i + b') / 2) (S k)) /\ (i + b') * 2 ^ k = n + b' * 2 ^ k.
    Proof.
      intros (H1 & H2 & H3 & H4) L O. destruct H4 as [H4|[H4 H5]]; [lia|].
      unfold inside. cbn [Nat.pow]. pose proof (pow2_pos k) as Pk. pose proof (oddT b' O) as Ob.
      assert (Oi : i = 2 * (i / 2)).
      { destruct (Nat.odd i) eqn:Oi; [|now apply oddF]. pose proof (odd_pow2' i k h Oi H4). lia. }
      assert (E2 : (i + b') / 2 = i / 2 + b' / 2) by lia.
      split; [nia|]. split; [|nia]. right. rewrite E2. set (i2 := i / 2) in *. set (b2 := b' / 2) in *.
      clearbody i2 b2. nia.
    Qed.
    Lemma scan_right b' e' i k : scan b' e' i k -> b' < e' -> Nat.odd e' = true ->
      inside b e (i + (e' - 1)) k /\ (i + (e' - 1) = 1 \/ ~ inside b e ((i + (e' - 1)) / 2) (S k)) /\
      (i + (e' - 1)) * 2 ^ k = n + (e' - 1) * 2 ^ k.
    Proof.
      intros (H1 & H2 & H3 & H4) L O. destruct H4 as [H4|[H4 H5]]; [lia|].
      unfold inside. cbn [Nat.pow]. pose proof (pow2_pos k) as Pk. pose proof (oddT e' O) as Oe.
      split; [nia|]. split; [|nia].
      destruct (Nat.odd i) eqn:Oi.
      { pose proof (odd_pow2' i k h Oi H4). left. lia. }
      right. apply oddF in Oi.
      assert (E2 : (i + (e' - 1)) / 2 = i / 2 + e' / 2) by lia.
      rewrite E2. set (i2 := i / 2) in *. set (e2 := e' / 2) in *. clearbody i2 e2. nia.
    Qed.
    Lemma scan_step b' e' i k b1 e1 : scan b' e' i k -> b' < e' ->
      b1 = (if Nat.odd b' then b' + 1 else b') -> e1 = (if Nat.odd e' then e' - 1 else e') ->
      scan (b1 / 2) (e1 / 2) (i / 2) (S k) /\ b1 / 2 * 2 ^ S k = b1 * 2 ^ k /\ e1 / 2 * 2 ^ S k = e1 * 2 ^ k /\
      b1 <= e1 /\ e1 / 2 < e'.
    Proof.
      intros (H1 & H2 & H3 & H4) L Eb Ee. destruct H4 as [H4|[H4 H5]]; [lia|].
      pose proof (pow2_pos k) as Pk.
      assert (B : b1 = 2 * (b1 / 2) /\ b' <= b1 <= b' + 1).
      { destruct (Nat.odd b') eqn:O; [apply oddT in O|apply oddF in O]; lia. }
      assert (E : e1 = 2 * (e1 / 2) /\ e1 <= e' <= e1 + 1).
      { destruct (Nat.odd e') eqn:O; [apply oddT in O|apply oddF in O]; lia. }
      assert (BE : b1 <= e1) by lia.
      unfold scan. cbn [Nat.pow]. set (b2 := b1 / 2) in *. set (e2 := e1 / 2) in *.
      assert (I : b2 = e2 \/ i / 2 * (2 * 2 ^ k) = n /\ e2 <= i / 2).
      { destruct (Nat.odd i) eqn:Oi.
        - pose proof (odd_pow2' i k h Oi H4). left. lia.
        - apply oddF in Oi. right. split; [nia|lia]. }
      set (i2 := i / 2) in *. clearbody b2 e2 i2. clear Eb Ee. repeat split; nia || lia.
    Qed.
  End Scan.

  Section Range2.
    Variables b e tb zb t ze : nat.
    Hypothesis Hbe : b <= e <= n.
    Hypothesis Otb : Nat.odd tb = true.
    Hypothesis Etb : tb * 2 ^ zb = n + b.
    Hypothesis Ot : Nat.odd t = true.
    Hypothesis Et : t * 2 ^ ze = n + e.
    Notation IdleA := (IdleA tb t).
    Notation OKA := (OKA tb t).

    Lemma get_loop_spec v fuel : forall tl tr b' e' i k,
      length v = 2 * n -> (forall j, 0 < j < 2 * n -> Rok v j) -> IdleA v ->
      e' < fuel -> scan b e b' e' i k ->
      R tl (slice b (b' * 2 ^ k) (D v h 1)) -> R tr (slice (e' * 2 ^ k) e (D v h 1)) -> idle tl -> idle tr ->
      exists r, lst_get_loop up fuel v tl tr b' e' i = Some r /\ R r (slice b e (D v h 1)).
    Proof.
      induction fuel as [|fu IH]; intros tl tr b' e' i k L HR HI Hf Hs Rl Rr Il Ir; [lia|]. cbn [lst_get_loop].
      destruct (Nat.ltb_spec b' e') as [P|P].
      - assert (Hnode : forall x, inside b e x k -> (x = 1 \/ ~ inside b e (x / 2) (S k)) ->
            nth_error v x = Some (G v x) /\ R (G v x) (slice (x * 2 ^ k - n) ((x + 1) * 2 ^ k - n) (D v h 1))).
        { intros x I1 I2. pose proof (inside_lev b e Hbe x k I1) as Hl. pose proof (lev_range x k Hl) as Hx.
          split; [apply nth_error_nth_in; lia|].
          rewrite <- (node_slice_list v x k Hl); [now apply HR|].
          apply (idle_anc b e tb zb t ze) with (k := k); assumption. }
        assert (Hb : exists tl1, (if Nat.odd b' then let* x := nth_error v (i + b') in Some (up tl tl x, b' + 1)
             else Some (tl, b')) = Some (tl1, if Nat.odd b' then b' + 1 else b') /\ idle tl1 /\
             R tl1 (slice b ((if Nat.odd b' then b' + 1 else b') * 2 ^ k) (D v h 1))).
        { destruct (Nat.odd b') eqn:Ob; [|exists tl; auto].
          destruct (scan_left b e Hbe b' e' i k Hs P Ob) as (I1 & I2 & I3).
          destruct (Hnode _ I1 I2) as [En Rn]. rewrite En. cbn [obind]. eexists. split; [reflexivity|].
          split; [now apply (lc_up_idle _ _ _ _ _ _ C)|].
          rewrite (Nat.mul_add_distr_r (i + b') 1), I3 in Rn.
          replace (n + b' * 2 ^ k - n) with (b' * 2 ^ k) in Rn by lia.
          replace (n + b' * 2 ^ k + 1 * 2 ^ k - n) with ((b' + 1) * 2 ^ k) in Rn by lia.
          rewrite <- (slice_app _ b (b' * 2 ^ k)); [|destruct Hs; lia|nia].
          now apply (lc_up_R _ _ _ _ _ _ C). }
        destruct Hb as (tl1 & -> & Il1 & Rl1). cbn [obind].
        assert (He : exists tr1, (if Nat.odd e' then let* x := nth_error v (i + (e' - 1)) in Some (up tr x tr, e' - 1)
             else Some (tr, e')) = Some (tr1, if Nat.odd e' then e' - 1 else e') /\ idle tr1 /\
             R tr1 (slice ((if Nat.odd e' then e' - 1 else e') * 2 ^ k) e (D v h 1))).
        { destruct (Nat.odd e') eqn:Oe; [|exists tr; auto].
          destruct (scan_right b e Hbe b' e' i k Hs P Oe) as (I1 & I2 & I3).
          destruct (Hnode _ I1 I2) as [En Rn]. rewrite En. cbn [obind]. eexists. split; [reflexivity|].
          split; [now apply (lc_up_idle _ _ _ _ _ _ C)|].
          rewrite (Nat.mul_add_distr_r (i + (e' - 1))), I3 in Rn. pose proof (oddT e' Oe).
          replace (n + (e' - 1) * 2 ^ k - n) with ((e' - 1) * 2 ^ k) in Rn by lia.
          replace (n + (e' - 1) * 2 ^ k + 1 * 2 ^ k - n) with (e' * 2 ^ k) in Rn by nia.
          rewrite <- (slice_app _ ((e' - 1) * 2 ^ k) (e' * 2 ^ k)); [|nia|destruct Hs; lia].
          now apply (lc_up_R _ _ _ _ _ _ C). }
        destruct He as (tr1 & -> & Ir1 & Rr1). cbn [obind].
        destruct (scan_step b e Hbe b' e' i k _ _ Hs P eq_refl eq_refl) as (Hs' & Eb & Ee & Hle & Hlt).
        apply (IH tl1 tr1 _ _ _ (S k)); try assumption; [lia| |]; [rewrite Eb|rewrite Ee]; assumption.
      - eexists. split; [reflexivity|]. assert (b' = e') by (destruct Hs as (_ & _ & Hs & _); lia). subst e'.
        destruct Hs as (S1 & S2 & _).
        rewrite <- (slice_app _ b (b' * 2 ^ k) e) by lia.
        now apply (lc_up_R _ _ _ _ _ _ C).
    Qed.

    Section Upd.
      Variable f : T -> T * bool.
      Variable g : X -> X.
      Hypothesis U : update_contract R pend lv f g.

      Lemma lev_k_lt x k : lev x k -> k < S (2 * n).
      Proof.
        intros [H1 H2]. assert (k < 2 ^ k) by (apply Nat.pow_gt_lin_r; lia).
        pose proof (pow2_pos h). nia.
      Qed.

      Lemma visit_node v x k : length v = 2 * n -> OKA v -> IdleA v ->
        inside b e x k -> (x = 1 \/ ~ inside b e (x / 2) (S k)) -> exists v',
        lst_update_segment up down (S (length v)) f v x = Some v' /\ length v' = 2 * n /\ OKA v' /\ IdleA v' /\
        G v' 0 = G v 0 /\
        (forall i, i < n -> nth i (D v' h 1) d = chg g (x * 2 ^ k) ((x + 1) * 2 ^ k) (n + i) (nth i (D v h 1) d)).
      Proof.
        intros L HO HI I1 I2. pose proof (inside_lev b e Hbe x k I1) as Hl.
        pose proof (lev_range x k Hl) as Hx.
        assert (NA : forall j, inside b e x k -> desc j x -> ~ A tb t j) by (intros j; apply (visited_not_anc b e tb zb t ze) with (k := k); assumption).
        assert (VA : forall m, 1 <= m -> 0 < x / 2 ^ m -> A tb t (x / 2 ^ m)) by (apply (visited_anc b e tb zb t ze) with (k := k); assumption).
        destruct (segment_eff f g U (S (length v)) k v x L Hl) as (v' & E & L' & Go & Dx & RR).
        { rewrite L. now apply lev_k_lt with x. }
        { intros j Hd q Hlj. destruct (HO j) as [H|H]; [now apply lev_range with q|now apply H|].
          exfalso. exact (NA j I1 Hd H). }
        exists v'. split; [exact E|]. split; [exact L'|]. split; [|split; [|split]].
        - intros j Hj. destruct (desc_dec j x) as [Hd|Nd]; [left; now apply RR|].
          destruct (desc_dec x j) as [Hp|Np].
          + right. destruct Hp as [m Hm]. destruct m as [|m].
            { exfalso. apply Nd. rewrite Nat.pow_0_r, Nat.div_1_r in Hm. subst j. apply desc_refl. }
            rewrite <- Hm. apply VA; lia.
          + destruct (HO j Hj) as [H|H]; [left|right; exact H].
            intros q Hq. rewrite Go by exact Nd. rewrite (D_ext v v').
            * now apply H.
            * intros j' Hd'. apply Go. intros Hc. destruct (desc_linear j' j x Hd' Hc); auto.
        - intros y Hy Hy0. rewrite Go; [now apply HI|]. intros Hd. exact (NA y I1 Hd Hy).
        - apply Go. intros Hd. apply desc_ge in Hd. lia.
        - apply (root_change v v' g _ _ x k); [exact Hl|apply (idle_anc b e tb zb t ze) with (k := k); assumption|exact Go|lia|lia|].
          intros i Hi. rewrite Dx. rewrite (nth_indep _ d (g d)) by (rewrite map_length, D_length; exact Hi).
          rewrite map_nth. unfold chg.
          destruct (Nat.leb_spec (x * 2 ^ k) (x * 2 ^ k + i)); [|lia].
          destruct (Nat.ltb_spec (x * 2 ^ k + i) ((x + 1) * 2 ^ k)); [reflexivity|lia].
      Qed.

      Lemma update_loop_spec v0 fuel : forall v b' e' i k,
        length v = 2 * n -> OKA v -> IdleA v -> G v 0 = G v0 0 -> e' < fuel -> scan b e b' e' i k ->
        (forall y, y < n -> nth y (D v h 1) d =
           chg g b (b' * 2 ^ k) y (chg g (e' * 2 ^ k) e y (nth y (D v0 h 1) d))) ->
        exists v', lst_update_loop up down fuel f v b' e' i = Some v' /\ length v' = 2 * n /\ OKA v' /\ IdleA v' /\
          G v' 0 = G v0 0 /\
          (forall y, y < n -> nth y (D v' h 1) d = chg g b e y (nth y (D v0 h 1) d)).
      Proof.
        induction fuel as [|fu IH]; intros v b' e' i k L HO HI HZ Hf Hs HD; [lia|]. cbn [lst_update_loop].
        destruct (Nat.ltb_spec b' e') as [P|P].
        - set (b1 := if Nat.odd b' then b' + 1 else b'). set (e1 := if Nat.odd e' then e' - 1 else e').
          destruct (scan_step b e Hbe b' e' i k b1 e1 Hs P eq_refl eq_refl) as (Hs' & Eb & Ee & Hle & Hlt).
          pose proof Hs as (S1 & S2 & S3 & _).
          assert (Hb : exists v1, (if Nat.odd b' then let* v := lst_update_segment up down (S (length v)) f v (i + b') in Some (v, b' + 1)
             else Some (v, b')) = Some (v1, b1) /\ length v1 = 2 * n /\ OKA v1 /\ IdleA v1 /\ G v1 0 = G v0 0 /\
             (forall y, y < n -> nth y (D v1 h 1) d =
               chg g b (b1 * 2 ^ k) y (chg g (e' * 2 ^ k) e y (nth y (D v0 h 1) d)))).
          { unfold b1. destruct (Nat.odd b') eqn:Ob; [|exists v; auto 10].
            destruct (scan_left b e Hbe b' e' i k Hs P Ob) as (I1 & I2 & I3).
            destruct (visit_node v (i + b') k L HO HI I1 I2) as (v1 & E1 & L1 & O1 & J1 & Z1 & D1).
            rewrite E1. cbn [obind]. exists v1. split; [reflexivity|]. repeat (split; [assumption||congruence|]).
            intros y Hy. rewrite D1 by exact Hy. rewrite HD by exact Hy. rewrite (Nat.mul_add_distr_r (i + b')), I3.
            assert (e' * 2 ^ k >= (b' + 1) * 2 ^ k) by nia.
            clear - S1 S2 H. unfold chg.
            repeat match goal with |- context [?x <=? ?y] => destruct (Nat.leb_spec x y)
                                 | |- context [?x <? ?y] => destruct (Nat.ltb_spec x y) end; cbn [andb]; try reflexivity; exfalso; nia. }
          destruct Hb as (v1 & -> & L1 & O1 & J1 & Z1 & D1). cbn [obind].
          assert (He : exists v2, (if Nat.odd e' then let* v := lst_update_segment up down (S (length v1)) f v1 (i + (e' - 1)) in Some (v, e' - 1)
             else Some (v1, e')) = Some (v2, e1) /\ length v2 = 2 * n /\ OKA v2 /\ IdleA v2 /\ G v2 0 = G v0 0 /\
             (forall y, y < n -> nth y (D v2 h 1) d =
               chg g b (b1 * 2 ^ k) y (chg g (e1 * 2 ^ k) e y (nth y (D v0 h 1) d)))).
          { unfold e1 in *. destruct (Nat.odd e') eqn:Oe; [|exists v1; auto 10].
            destruct (scan_right b e Hbe b' e' i k Hs P Oe) as (I1 & I2 & I3).
            destruct (visit_node v1 (i + (e' - 1)) k L1 O1 J1 I1 I2) as (v2 & E2 & L2 & O2 & J2 & Z2 & D2).
            rewrite E2. cbn [obind]. exists v2. split; [reflexivity|]. repeat (split; [assumption||congruence|]).
            intros y Hy. rewrite D2 by exact Hy. rewrite D1 by exact Hy. rewrite (Nat.mul_add_distr_r (i + (e' - 1))), I3.
            pose proof (oddT e' Oe) as Ho.
            assert (H : b1 * 2 ^ k <= (e' - 1) * 2 ^ k) by nia.
            assert (H' : e' * 2 ^ k = (e' - 1) * 2 ^ k + 1 * 2 ^ k) by nia.
            clear - S2 H H'. unfold chg.
            repeat match goal with |- context [?x <=? ?y] => destruct (Nat.leb_spec x y)
                                 | |- context [?x <? ?y] => destruct (Nat.ltb_spec x y) end; cbn [andb]; try reflexivity; exfalso; nia. }
          destruct He as (v2 & -> & L2 & O2 & J2 & Z2 & D2). cbn [obind].
          apply (IH v2 _ _ _ (S k)); try assumption; [lia|].
          rewrite Eb, Ee. exact D2.
        - exists v. split; [reflexivity|]. repeat (split; [assumption|]).
          intros y Hy. rewrite HD by exact Hy.
          assert (b' = e') by (destruct Hs as (_ & _ & Hs & _); lia). subst e'.
          destruct Hs as (S1 & S2 & _). clear - S1 S2. unfold chg.
          repeat match goal with |- context [?x <=? ?y] => destruct (Nat.leb_spec x y)
                               | |- context [?x <? ?y] => destruct (Nat.ltb_spec x y) end; cbn [andb]; try reflexivity; exfalso; lia.
      Qed.
    End Upd.
  End Range2.

  (* -------------------------------------------------------- propagate_up *)

  Definition OKP (v : list T) (P : nat -> Prop) : Prop := forall j, 0 < j < 2 * n -> Rok v j \/ P j.
  Definition ancOf (x y : nat) : Prop := exists m, 1 <= m /\ y = x / 2 ^ m.

  Lemma to_root_spec (P : nat -> Prop) fuel : (forall y, P y -> 0 < y / 2 -> P (y / 2)) ->
    forall v x, length v = 2 * n -> x < fuel -> x < 2 * n -> IdleAnc v x ->
    OKP v (fun y => P y \/ ancOf x y) -> exists v',
    lst_to_root up fuel v x = Some v' /\ length v' = 2 * n /\ G v' 0 = G v 0 /\ OKP v' P /\
    D v' h 1 = D v h 1 /\ (forall y, idle (G v y) -> idle (G v' y)).
  Proof.
    intros HP. induction fuel as [|fu IH]; intros v x L Hf Hx HI HO; [lia|]. cbn [lst_to_root].
    destruct (Nat.ltb_spec 0 (x / 2)) as [H0|H0].
    - assert (Hp : 0 < x / 2 < n) by lia.
      assert (Ip : idle (G v (x / 2))).
      { rewrite <- (Nat.pow_1_r 2) at 1. apply HI; [lia|]. rewrite Nat.pow_1_r. lia. }
      destruct (up_eff v (x / 2) L Hp Ip) as (v1 & E1 & L1 & Z1 & I1 & G1 & D1 & Ri & Ro).
      rewrite E1. cbn [obind].
      assert (Kid : forall y, idle (G v y) -> idle (G v1 y)).
      { intros y Hy. destruct (Nat.eq_dec y (x / 2)) as [->|N]; [exact I1|now rewrite G1]. }
      destruct (IH v1 (x / 2) L1 ltac:(lia) ltac:(lia)) as (v2 & E2 & L2 & Z2 & O2 & D2 & K2).
      + intros m Hm H. apply Kid. rewrite <- div_pow2_S in *. apply HI; [lia|exact H].
      + intros j Hj. destruct (Nat.eq_dec j (x / 2)) as [->|N].
        * assert (Hc : forall c, c / 2 = x / 2 -> 0 < c < 2 * n -> Rok v c \/ P (x / 2)).
          { intros c Ec Hc. destruct (HO c Hc) as [H|[H|(m & Hm & H)]]; [now left| |].
            - right. rewrite <- Ec. apply HP; [exact H|lia].
            - exfalso. destruct m as [|m]; [lia|]. rewrite div_pow2_S in H.
              pose proof (div_pow_bounds (x / 2) m). pose proof (pow2_pos m).
              assert (c <= x / 2) by (rewrite H; apply Nat.div_le_upper_bound; [lia|nia]). lia. }
          destruct (Hc (2 * (x / 2)) ltac:(lia) ltac:(lia)) as [Hc1|Hc1]; [|auto].
          destruct (Hc (2 * (x / 2) + 1) ltac:(lia) ltac:(lia)) as [Hc2|Hc2]; [|auto].
          left. now apply Ri.
        * destruct (HO j Hj) as [H|[H|(m & Hm & H)]]; [left; now apply Ro|auto|].
          right. right. destruct m as [|[|m]]; [lia| |].
          -- exfalso. apply N. now rewrite H, Nat.pow_1_r.
          -- exists (S m). split; [lia|]. now rewrite H, div_pow2_S.
      + exists v2. split; [exact E2|]. split; [exact L2|]. split; [congruence|]. split; [exact O2|].
        split; [|auto]. rewrite D2. apply D1. unfold lev. lia.
    - exists v. split; [reflexivity|]. repeat (split; [assumption||reflexivity|]). split; [|auto].
      intros j Hj. destruct (HO j Hj) as [H|[H|(m & Hm & H)]]; auto.
      exfalso. destruct m as [|m]; [lia|]. rewrite div_pow2_S in H. replace (x / 2) with 0 in H by lia.
      rewrite Nat.div_0_l in H by (apply Nat.pow_nonzero; lia). lia.
  Qed.

  (* ------------------------------------------------- the abstract contents *)

  Definition LRep (v : list T) (xs : list X) : Prop :=
    length v = 2 * n /\ idle (G v 0) /\ R (G v 0) [] /\
    (forall j, 0 < j < 2 * n -> Rok v j) /\ D v h 1 = xs.

  Lemma LRep_size v xs : LRep v xs -> lst_size v = n /\ length xs = n.
  Proof.
    intros (L & _ & _ & _ & <-). rewrite D_length. split; [|reflexivity]. unfold lst_size. rewrite L. lia.
  Qed.

  Lemma tops b e : b <= e <= n -> exists tb zb t ze,
    lst_top n b = Some tb /\ lst_top n e = Some t /\
    Nat.odd tb = true /\ tb * 2 ^ zb = n + b /\ Nat.odd t = true /\ t * 2 ^ ze = n + e /\
    tb < 2 * n + 1 /\ t < 2 * n + 1.
  Proof.
    intros H. pose proof (pow2_pos h).
    destruct (top_spec n b ltac:(lia)) as (tb & zb & E1 & O1 & P1).
    destruct (top_spec n e ltac:(lia)) as (t & ze & E2 & O2 & P2).
    exists tb, zb, t, ze. repeat (split; [assumption|]).
    pose proof (pow2_pos zb). pose proof (pow2_pos ze). split; nia.
  Qed.
  Lemma top_lt x z y : Nat.odd x = true -> x * 2 ^ z = n + y -> y <= n -> x < 2 * n.
  Proof.
    intros O E Hy. pose proof (pow2_pos h). pose proof (pow2_pos z).
    destruct z as [|z].
    - cbn [Nat.pow] in E. destruct (Nat.eq_dec y n) as [->|N]; [|lia].
      apply oddT in O. lia.
    - cbn [Nat.pow] in E. pose proof (pow2_pos z). nia.
  Qed.

  Lemma prop_down_spec v xs b e tb zb t ze : LRep v xs -> b <= e <= n ->
    lst_top n b = Some tb -> lst_top n e = Some t ->
    Nat.odd tb = true -> tb * 2 ^ zb = n + b -> Nat.odd t = true -> t * 2 ^ ze = n + e ->
    exists w, lst_prop_down down v b e = Some w /\ LRep w xs /\ IdleA tb t w.
  Proof.
    intros HR Hbe T1 T2 O1 P1 O2 P2. pose proof (LRep_size v xs HR) as [Sz _].
    destruct HR as (L & I0 & R0 & RR & DD).
    assert (Hn1 : tb < 2 * n) by (apply (top_lt tb zb b); [assumption|assumption|lia]).
    assert (Hn2 : t < 2 * n) by (apply (top_lt t ze e); [assumption|assumption|lia]).
    unfold lst_prop_down. rewrite Sz, T1. cbn [obind].
    destruct (from_root_spec v tb L Hn1 RR) as (w1 & E1 & L1 & Z1 & D1 & R1 & A1 & K1).
    rewrite E1. cbn [obind].
    replace (lst_size w1) with n by (unfold lst_size; rewrite L1; lia). rewrite T2. cbn [obind].
    destruct (from_root_spec w1 (t - 1) L1 ltac:(lia) R1) as (w2 & E2 & L2 & Z2 & D2 & R2 & A2 & K2).
    exists w2. split; [exact E2|]. split.
    - repeat split; [exact L2|rewrite Z2, Z1; exact I0|rewrite Z2, Z1; exact R0|exact R2|congruence].
    - intros y (m & Hm & [Hy|Hy]) H0; subst y; [now apply K2|now apply A2].
  Qed.

  Lemma get_spec v xs b e : LRep v xs -> b <= e <= n -> exists r v',
    lst_get up down v b e = Some (r, v') /\ R r (slice b e xs) /\ LRep v' xs.
  Proof.
    intros HR Hbe. destruct (tops b e Hbe) as (tb & zb & t & ze & T1 & T2 & O1 & P1 & O2 & P2 & _).
    destruct (prop_down_spec v xs b e tb zb t ze HR Hbe T1 T2 O1 P1 O2 P2) as (w & E & HW & HI).
    unfold lst_get. rewrite E. cbn [obind]. pose proof (LRep_size w xs HW) as [Sz _].
    pose proof HW as (L & I0 & R0 & RR & DD). pose proof (pow2_pos h).
    rewrite (nth_error_nth_in w 0 id) by lia. cbn [obind].
    destruct (get_loop_spec b e tb zb t ze Hbe P1 O2 P2 w (S e) (G w 0) (G w 0) b e n 0) as (r & Er & Hr); try assumption.
    - lia.
    - apply scan_init. exact Hbe.
    - cbn [Nat.pow]. rewrite Nat.mul_1_r, slice_nil. exact R0.
    - cbn [Nat.pow]. rewrite Nat.mul_1_r, slice_nil. exact R0.
    - rewrite Sz, Er. cbn [obind]. exists r, w. split; [reflexivity|]. rewrite DD in Hr. auto.
  Qed.

  Lemma map_range_nth (g : X -> X) b e (xs : list X) y : b <= e -> e <= length xs -> y < length xs ->
    nth y (map_range g b e xs) d = chg g b e y (nth y xs d).
  Proof.
    intros Hb He Hy. unfold map_range. fold (slice b e xs).
    assert (L1 : length (firstn b xs) = b) by (rewrite firstn_length; lia).
    assert (L2 : length (map g (slice b e xs)) = e - b) by (rewrite map_length; apply slice_length; lia).
    unfold chg. destruct (Nat.leb_spec b y) as [Q|Q].
    - rewrite app_nth2 by lia. rewrite L1. destruct (Nat.ltb_spec y e) as [Q2|Q2]; cbn [andb].
      + rewrite app_nth1 by lia. rewrite (nth_indep _ d (g d)) by lia. rewrite map_nth.
        rewrite slice_nth by lia. do 2 f_equal. lia.
      + rewrite app_nth2 by lia. rewrite L2.
        replace (skipn e xs) with (slice e (length xs) xs)
          by (unfold slice; apply firstn_all2; rewrite skipn_length; lia).
        rewrite slice_nth by lia. f_equal. lia.
    - cbn [andb]. rewrite app_nth1 by lia.
      replace (firstn b xs) with (slice 0 b xs) by (unfold slice; cbn [skipn]; f_equal; lia).
      rewrite slice_nth by lia. reflexivity.
  Qed.
  Lemma map_range_length (g : X -> X) b e (xs : list X) : b <= e -> e <= length xs -> length (map_range g b e xs) = length xs.
  Proof.
    intros Hb He. unfold map_range. rewrite !app_length, map_length, !firstn_length, !skipn_length. lia.
  Qed.

  Lemma update_spec f g v xs b e : update_contract R pend lv f g -> LRep v xs -> b <= e <= n -> exists v',
    lst_update up down f v b e = Some v' /\ LRep v' (map_range g b e xs).
  Proof.
    intros U HR Hbe. destruct (tops b e Hbe) as (tb & zb & t & ze & T1 & T2 & O1 & P1 & O2 & P2 & _).
    destruct (prop_down_spec v xs b e tb zb t ze HR Hbe T1 T2 O1 P1 O2 P2) as (w & E & HW & HI).
    unfold lst_update. rewrite E. cbn [obind]. pose proof (LRep_size w xs HW) as [Sz Lx].
    pose proof HW as (L & I0 & R0 & RR & DD). pose proof (pow2_pos h).
    destruct (update_loop_spec b e tb zb t ze Hbe O1 P1 O2 P2 f g U w (S e) w b e n 0)
      as (w1 & E1 & L1 & HO1 & HI1 & HZ1 & HD1); try assumption; try reflexivity; try lia.
    { intros j Hj. left. now apply RR. }
    { apply scan_init. exact Hbe. }
    { intros y Hy. unfold chg. cbn [Nat.pow]. rewrite !Nat.mul_1_r.
      repeat match goal with |- context [?x <=? ?y] => destruct (Nat.leb_spec x y)
                           | |- context [?x <? ?y] => destruct (Nat.ltb_spec x y) end; cbn [andb]; try reflexivity; exfalso; lia. }
    rewrite Sz, E1. cbn [obind]. unfold lst_prop_up.
    assert (S1 : lst_size w1 = n) by (unfold lst_size; rewrite L1; lia). rewrite S1, T1. cbn [obind].
    assert (Hn1 : tb < 2 * n) by (apply (top_lt tb zb b); [assumption|assumption|lia]).
    assert (Hn2 : t < 2 * n) by (apply (top_lt t ze e); [assumption|assumption|lia]).
    destruct (to_root_spec (ancOf (t - 1)) (S tb)) with (v := w1) (x := tb)
      as (w2 & E2 & L2 & Z2 & O2' & D2 & K2); try assumption; try lia.
    { intros y (m & Hm & ->) _. exists (m + 1). split; [lia|]. now rewrite div_pow_add, Nat.pow_1_r. }
    { intros m Hm H0. apply HI1; [|exact H0]. exists m. auto. }
    { intros j Hj. destruct (HO1 j Hj) as [Q|(m & Hm & [Q|Q])]; [now left|right; right|right; left]; exists m; auto. }
    rewrite E2. cbn [obind].
    assert (S2 : lst_size w2 = n) by (unfold lst_size; rewrite L2; lia). rewrite S2, T2. cbn [obind].
    destruct (to_root_spec (fun _ => False) (S (t - 1))) with (v := w2) (x := t - 1)
      as (w3 & E3 & L3 & Z3 & O3 & D3 & K3); try assumption; try lia.
    { intros m Hm H0. apply K2. apply HI1; [|exact H0]. exists m. auto. }
    { intros j Hj. destruct (O2' j Hj) as [Q|Q]; auto. }
    exists w3. split; [exact E3|]. split; [exact L3|].
    split; [rewrite Z3, Z2, HZ1; exact I0|]. split; [rewrite Z3, Z2, HZ1; exact R0|].
    split; [intros j Hj; destruct (O3 j Hj) as [Q|[]]; exact Q|].
    rewrite D3, D2. apply (nth_ext _ _ d d).
    - rewrite D_length, map_range_length by lia. lia.
    - intros y Hy. rewrite D_length in Hy. rewrite map_range_nth by lia. rewrite <- DD. now apply HD1.
  Qed.

  (* ------------------------------------------------------------- restore *)

  Lemma range_div x y z q : x <= y <= z -> x / 2 ^ q <= y / 2 ^ q <= z / 2 ^ q.
  Proof. clear. intros H. split; apply Nat.div_le_mono; try lia; apply Nat.pow_nonzero; lia. Qed.

  Lemma down_LRep v xs i : LRep v xs -> 0 < i < n -> exists v',
    lst_down down v i = Some v' /\ LRep v' xs /\ idle (G v' i) /\
    (forall j, j <> i -> j / 2 <> i -> G v' j = G v j).
  Proof.
    intros (L & I0 & R0 & RR & DD) Hi.
    destruct (down_eff v i L Hi) as (w' & E1 & L1 & Z1 & I1 & G1 & P1 & D1 & R1).
    { intros j Hj z Hz. apply RR; [now apply lev_range with z|exact Hz]. }
    exists w'. split; [exact E1|]. split; [|split; [exact I1|exact G1]].
    split; [exact L1|]. split; [now rewrite Z1|]. split; [now rewrite Z1|].
    split; [intros j Hj; apply R1; auto|].
    rewrite D1; [exact DD|unfold lev; lia|]. replace (1 / 2) with 0 by reflexivity. lia.
  Qed.

  Lemma restore_spec v xs b e : LRep v xs -> b < e <= n -> exists v',
    lst_restore down v b e = Some v' /\ LRep v' xs /\
    forall i, b <= i < e -> exists t, lst_at v' i = Some t /\ nth_error xs i = Some (lv t).
  Proof.
    intros HR Hbe. pose proof (LRep_size v xs HR) as [Sz Lx]. unfold lst_restore. rewrite Sz.
    destruct (calc_height1_spec n) as (h1 & E1 & Hh1 & Hh1'). rewrite E1. cbn [obind].
    pose proof (pow2_pos h) as Hn.
    assert (h1 = S h).
    { destruct Hh1' as [->|Hh1']; [cbn in Hh1; lia|].
      destruct (Nat.lt_trichotomy h1 (S h)) as [Q|[Q|Q]]; [|exact Q|].
      - assert (h1 <= h) by lia. apply pow2_le in H. lia.
      - assert (S h <= h1 - 1) by lia. apply pow2_le in H. cbn [Nat.pow] in H. lia. }
    subst h1. set (x := b + n). set (y := e - 1 + n).
    set (Inv := fun q w => LRep w xs /\ forall c m, x <= c <= y -> q <= m -> 1 <= m -> 0 < c / 2 ^ m -> idle (G w (c / 2 ^ m))).
    destruct (for_down_spec Inv (fun q v0 => for_range (x / 2 ^ q) (S (y / 2 ^ q)) (fun i v1 => lst_down down v1 i) v0) 1 (S h) v)
      as (w & Ew & HW & HI).
    - lia.
    - split; [exact HR|]. intros c m Hc Hm Hm1 H0. exfalso. unfold x, y in *.
      apply pow2_le in Hm. cbn [Nat.pow] in Hm. rewrite Nat.div_small in H0; lia.
    - intros q w Hq (HW & HI).
      pose proof (range_div x y y q ltac:(unfold x, y; lia)) as Hr.
      assert (Hlow : 0 < x / 2 ^ q).
      { apply Nat.div_str_pos. assert (q <= h) as Q by lia. apply pow2_le in Q. pose proof (pow2_pos q). unfold x. lia. }
      assert (Hhigh : y / 2 ^ q < n).
      { apply Nat.div_lt_upper_bound; [pose proof (pow2_pos q); lia|]. destruct q as [|q]; [lia|].
        cbn [Nat.pow]. pose proof (pow2_pos q). unfold y. nia. }
      set (a := x / 2 ^ q) in *. set (z := y / 2 ^ q) in *.
      set (In2 := fun i w => LRep w xs /\ (forall c m, x <= c <= y -> S q <= m -> 1 <= m -> 0 < c / 2 ^ m -> idle (G w (c / 2 ^ m))) /\
         forall j, a <= j < i -> idle (G w j)).
      destruct (for_range_spec In2 (fun i v1 => lst_down down v1 i) a (S z) w) as (w' & Ew' & HW' & HI' & HJ').
      + lia.
      + split; [exact HW|]. split; [exact HI|]. intros; lia.
      + intros i u Hi (HU & IU & JU).
        destruct (down_LRep u xs i HU ltac:(lia)) as (u' & Eu & HU' & Iu & Gu).
        exists u'. split; [exact Eu|]. split; [exact HU'|]. split.
        * intros c m Hc Hm Hm1 H0.
          assert (c / 2 ^ m <= z / 2).
          { replace m with (q + (m - q)) by lia. rewrite div_pow_add.
            pose proof (range_div x c y q Hc) as [_ Hcz]. fold z in Hcz.
            apply Nat.le_trans with (z / 2 ^ (m - q)); [apply Nat.div_le_mono; [apply Nat.pow_nonzero; lia|exact Hcz]|].
            apply Nat.div_le_compat_l. pose proof (pow2_le 1 (m - q) ltac:(lia)) as Q. rewrite Nat.pow_1_r in Q. lia. }
          destruct (Nat.eq_dec (c / 2 ^ m) i) as [->|N]; [exact Iu|].
          rewrite Gu; [now apply IU|exact N|].
          assert (z < 2 * a).
          { unfold z, a. assert (y < 2 * x) by (unfold x, y; lia).
            clear - H1 Hq Hbe. destruct (Nat.lt_ge_cases (y / 2 ^ q) (2 * (x / 2 ^ q))) as [|Q]; [assumption|exfalso].
            (* x >= n = 2^h >= 2^q and y < 2n *)
            assert (E : n = 2 ^ (h - q) * 2 ^ q) by (rewrite <- Nat.pow_add_r; f_equal; lia).
            pose proof (pow2_pos q). pose proof (pow2_pos (h - q)).
            assert (2 ^ (h - q) <= x / 2 ^ q) by (apply Nat.div_le_lower_bound; [lia|unfold x; lia]).
            assert (y / 2 ^ q < 2 * 2 ^ (h - q)) by (apply Nat.div_lt_upper_bound; [lia|unfold y; lia]).
            lia. }
          clear - H H1 H0 Hi. set (p := c / 2 ^ m) in *. clearbody p. lia.
        * intros j Hj. destruct (Nat.eq_dec j i) as [->|N]; [exact Iu|].
          rewrite Gu; [apply JU; lia|exact N|].
          clear - Hj Hi Hlow N. lia.
      + exists w'. split; [exact Ew'|]. split; [exact HW'|].
        intros c m Hc Hm Hm1 H0. destruct (Nat.eq_dec m q) as [->|N]; [|apply HI'; auto; lia].
        apply HJ'. pose proof (range_div x c y q Hc). unfold a, z in *. lia.
    - exists w. split; [exact Ew|]. split; [exact HW|]. intros i Hi.
      pose proof (LRep_size w xs HW) as [Sw _]. unfold lst_at. rewrite Sw.
      pose proof HW as (L & I0 & R0 & RR & DD).
      exists (G w (i + n)). split; [apply nth_error_nth_in; lia|].
      rewrite (nth_error_nth_in xs i d) by lia. f_equal. rewrite <- DD.
      pose proof (node_slice w (i + n) 0) as NS. cbn [Nat.pow] in NS.
      specialize (NS ltac:(unfold lev; cbn [Nat.pow]; lia)).
      assert (IdleAnc w (i + n)) as HA.
      { intros m Hm H0. apply HI; [unfold x, y; lia|exact Hm|exact Hm|exact H0]. }
      specialize (NS HA 0 ltac:(lia)). cbn [D nth] in NS.
      rewrite NS. f_equal. lia.
  Qed.

  (* --------------------------------------------------------- construction *)

  Lemma rebuild_spec v xs : length v = 2 * n -> (forall j, j < n -> G v j = id) ->
    (forall j, n <= j < 2 * n -> R (G v j) [lv (G v j)]) ->
    xs = map lv (skipn n v) -> exists v', lst_rebuild up v = Some v' /\ LRep v' xs.
  Proof.
    intros L Hid Hleaf Hxs. pose proof (pow2_pos h) as Hn. unfold lst_rebuild.
    replace (lst_size v) with n by (unfold lst_size; rewrite L; lia).
    set (Inv := fun q w => length w = 2 * n /\ (forall j, j < q -> G w j = id) /\ (forall j, j < n -> idle (G w j)) /\
      (forall j, n <= j -> G w j = G v j) /\ (forall j, q <= j < 2 * n -> Rok w j)).
    destruct (for_down_spec Inv (fun i w => lst_up up w i) 1 n v) as (w & Ew & HW).
    - lia.
    - split; [exact L|]. split; [exact Hid|]. split; [intros j Hj; rewrite Hid by exact Hj; apply (lc_id_idle _ _ _ _ _ _ C)|].
      split; [auto|]. intros j Hj k Hl. destruct k as [|k].
      + cbn [D]. now apply Hleaf.
      + apply lev_child in Hl. lia.
    - intros q w Hq (Lw & W1 & W2 & W3 & W4).
      destruct (up_eff w q Lw ltac:(lia) ltac:(apply W2; lia)) as (w' & E1 & L1 & Z1 & I1 & G1 & D1 & Ri & Ro).
      exists w'. split; [exact E1|]. split; [exact L1|]. split; [|split; [|split]].
      + intros j Hj. rewrite G1 by lia. apply W1. lia.
      + intros j Hj. destruct (Nat.eq_dec j q) as [->|N]; [exact I1|]. rewrite G1 by exact N. now apply W2.
      + intros j Hj. rewrite G1 by lia. now apply W3.
      + intros j Hj. destruct (Nat.eq_dec j q) as [->|N].
        * apply Ri; apply W4; lia.
        * apply Ro; [exact N|]. apply W4. lia.
    - destruct HW as (Lw & W1 & W2 & W3 & W4). exists w. split; [exact Ew|].
      split; [exact Lw|]. split; [now apply W2|]. split; [rewrite W1 by lia; apply (lc_id_nil _ _ _ _ _ _ C)|].
      split; [intros j Hj; now apply W4|]. subst xs.
      apply (nth_ext _ _ d d).
      + rewrite D_length, map_length, skipn_length. lia.
      + intros i Hi. rewrite D_length in Hi.
        pose proof (node_slice w (n + i) 0) as NS. cbn [Nat.pow] in NS.
        specialize (NS ltac:(unfold lev; cbn [Nat.pow]; lia)).
        assert (IdleAnc w (n + i)) as HA.
        { intros m Hm H0. apply W2. apply Nat.div_lt_upper_bound; [apply Nat.pow_nonzero; lia|].
          pose proof (pow2_le 1 m Hm) as Q. rewrite Nat.pow_1_r in Q. nia. }
        specialize (NS HA 0 ltac:(lia)). cbn [D nth] in NS.
        replace ((n + i) * 1 - n + 0) with i in NS by lia. rewrite <- NS. unfold d. rewrite map_nth.
        rewrite W3 by lia. f_equal.
        pose proof (nth_error_nth_in v (n + i) id ltac:(lia)) as Q1.
        pose proof (nth_error_nth_in (skipn n v) i id ltac:(rewrite skipn_length; lia)) as Q2.
        assert (Q3 : nth_error (skipn n v) i = nth_error v (n + i)).
        { clear. generalize n as a. intros a. revert v. induction a as [|a IH]; intros v; [reflexivity|].
          destruct v; [now destruct i|]. cbn. apply IH. }
        congruence.
  Qed.

  Lemma run_spec os : forall v xs qs ys, LRep v xs -> hist R pend lv xs os qs ys ->
    exists rs v', lst_run up down v os = Some (rs, v') /\ Forall2 R rs qs /\ LRep v' ys.
  Proof.
    induction os as [|o os IH]; intros v xs qs ys HL HH; inversion HH; subst; cbn [lst_run].
    - exists [], v. auto.
    - pose proof (LRep_size v xs HL) as [_ Lx]. rewrite Lx in *.
      destruct (update_spec f g v xs b e) as (v1 & E1 & K1); [assumption..|]. rewrite E1. cbn [obind].
      now apply IH with (map_range g b e xs).
    - pose proof (LRep_size v xs HL) as [_ Lx]. rewrite Lx in *.
      destruct (get_spec v xs b e) as (r & v1 & E1 & Hr & K1); [assumption..|]. rewrite E1. cbn [obind].
      destruct (IH v1 xs qs0 ys K1) as (rs & v2 & E2 & Hrs & K2); [assumption|]. rewrite E2. cbn [obind].
      exists (r :: rs), v2. auto.
    - pose proof (LRep_size v xs HL) as [_ Lx]. rewrite Lx in *.
      destruct (restore_spec v xs b e) as (v1 & E1 & K1 & _); [assumption..|]. rewrite E1. cbn [obind].
      now apply IH with xs.
  Qed.
End Proofs.

Lemma calc_pow2_spec' sz : exists h, calc_pow2 sz = Some (2 ^ h) /\ sz <= 2 ^ h /\ (2 ^ h < 2 * sz \/ h = 0).
Proof.
  refine (calc_pow2_spec (T := unit) (fun _ _ => tt) tt _ _ _ sz); intros; now repeat match goal with x : unit |- _ => destruct x end.
Qed.

Lemma from_spec {T X} (up : T -> T -> T -> T) down id (R : T -> list X -> Prop) pend lv ts :
  lazy_contract up down id R pend lv -> Forall (fun t => R t [lv t]) ts ->
  exists h v, lst_from up id ts = Some v /\ length ts <= 2 ^ h /\ (2 ^ h < 2 * length ts \/ h = 0) /\
    LRep id R pend lv h v (map lv ts ++ repeat (lv id) (2 ^ h - length ts)).
Proof.
  intros C HT. destruct (calc_pow2_spec' (length ts)) as (h & E & H1 & H2).
  unfold lst_from. rewrite E. cbn [obind]. pose proof (pow2_pos h) as Hn.
  set (v0 := repeat id (2 ^ h * 2)).
  set (Inv := fun k v => v = repeat id (2 ^ h) ++ firstn k ts ++ repeat id (2 ^ h - k)).
  assert (LI : forall k v, k <= length ts -> Inv k v -> length v = 2 * 2 ^ h).
  { intros k v Hk ->. rewrite !app_length, !repeat_length, firstn_length. lia. }
  destruct (for_range_spec Inv (fun k v => let* x := nth_error ts k in set_nth v (lst_size v + k) x) 0 (length ts) v0)
    as (v1 & E1 & I1).
  - lia.
  - unfold Inv, v0. cbn [firstn app]. rewrite Nat.sub_0_r, <- repeat_app. f_equal. lia.
  - intros k v Hk Iv. pose proof (LI k v ltac:(lia) Iv) as Lv.
    replace (lst_size v) with (2 ^ h) by (unfold lst_size; rewrite Lv; lia).
    rewrite (nth_error_nth_in ts k id) by lia. cbn [obind].
    rewrite set_nth_upd by lia. eexists. split; [reflexivity|]. unfold Inv in *.
    assert (A1 : length (repeat id (2 ^ h)) = 2 ^ h) by apply repeat_length.
    assert (A2 : length (firstn k ts) = k) by (rewrite firstn_length; lia).
    assert (F : firstn (S k) ts = firstn k ts ++ [nth k ts id]).
    { clear - Hk. destruct Hk as [_ Hk]. revert k Hk. induction ts as [|t ts IH]; intros k Hk; cbn [length] in Hk; [lia|].
      destruct k; [reflexivity|]. cbn [firstn nth app]. f_equal. apply IH. lia. }
    rewrite F. unfold upd. subst v.
    rewrite firstn_app, A1. rewrite (firstn_all2 (repeat id (2 ^ h))) by lia.
    replace (2 ^ h + k - 2 ^ h) with k by lia. rewrite firstn_app, A2, Nat.sub_diag. cbn [firstn].
    rewrite app_nil_r. rewrite (firstn_all2 (firstn k ts)) by lia.
    rewrite skipn_app, A1. rewrite (skipn_all2 (repeat id (2 ^ h))) by lia. cbn [app].
    replace (S (2 ^ h + k) - 2 ^ h) with (S k) by lia.
    rewrite skipn_app, A2. rewrite (skipn_all2 (firstn k ts)) by lia. cbn [app].
    replace (S k - k) with 1 by lia. rewrite <- app_assoc. f_equal.
    replace (2 ^ h - k) with (S (2 ^ h - S k)) by lia. cbn [repeat skipn].
    rewrite <- app_assoc. reflexivity.
  - rewrite E1. cbn [obind]. pose proof (LI _ _ (le_n _) I1) as L1. unfold Inv in I1. rewrite firstn_all in I1.
    destruct (rebuild_spec up down id R pend lv C h v1 (map lv ts ++ repeat (lv id) (2 ^ h - length ts))) as (v2 & E2 & H3).
    + exact L1.
    + intros j Hj. rewrite I1, app_nth1 by (rewrite repeat_length; exact Hj). now rewrite nth_repeat.
    + intros j Hj. rewrite I1. rewrite app_nth2 by (rewrite repeat_length; lia). rewrite repeat_length.
      destruct (Nat.lt_ge_cases (j - 2 ^ h) (length ts)) as [Q|Q].
      * rewrite app_nth1 by exact Q. rewrite Forall_forall in HT. apply HT. now apply nth_In.
      * rewrite app_nth2 by exact Q. rewrite nth_repeat. apply (lc_id_leaf _ _ _ _ _ _ C).
    + rewrite I1. rewrite skipn_app, repeat_length, Nat.sub_diag.
      rewrite (skipn_all2 (repeat id (2 ^ h))) by (rewrite repeat_length; lia). cbn [skipn app].
      rewrite map_app. f_equal. clear. induction (2 ^ h - length ts) as [|q IH]; cbn; congruence.
    + exists h, v2. auto.
Qed.
