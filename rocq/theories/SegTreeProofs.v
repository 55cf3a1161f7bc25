(** Proofs about SegTreeModel. *)
From Verif Require Import Lib SegTreeModel SegTreeSpec.
From Coq Require Import ZifyBool ZifyNat.
Ltac Zify.zify_post_hook ::= Z.div_mod_to_equations.

(* ------------------------------------------------------ generic helpers *)
Lemma nth_error_nth_in {A} (l : list A) i d : i < length l -> nth_error l i = Some (nth i l d).
Proof. intros H. apply nth_error_nth'. exact H. Qed.

Lemma set_nth_nth {A} (l l' : list A) i x d j :
  set_nth l i x = Some l' -> nth j l' d = if i =? j then x else nth j l d.
Proof.
  intros H. pose proof (set_nth_get l l' i x j H) as G. pose proof (set_nth_length l l' i x H) as L.
  pose proof (set_nth_lt l l' i x H) as Lt.
  destruct (Nat.eqb_spec i j) as [->|N].
  - rewrite (nth_error_nth l' j d G). reflexivity.
  - destruct (Nat.lt_ge_cases j (length l)) as [Lj|Lj].
    + rewrite (nth_error_nth_in l j d Lj) in G. now apply (nth_error_nth l' j d) in G.
    + rewrite !nth_overflow by lia. reflexivity.
Qed.

Lemma set_nth_upd {A} (l : list A) i x : i < length l -> set_nth l i x = Some (upd l i x).
Proof.
  intros H. destruct (set_nth_some l i x H) as [l' E]. rewrite E. f_equal.
  unfold upd. now apply set_nth_app.
Qed.

Lemma upd_length {A} (l : list A) i x : i < length l -> length (upd l i x) = length l.
Proof. intros H. eapply set_nth_length. apply set_nth_upd. exact H. Qed.

Lemma div_pow2_S x k : x / 2 ^ S k = (x / 2) / 2 ^ k.
Proof. cbn [Nat.pow]. rewrite <- Nat.div_div; [reflexivity|lia|]. apply Nat.pow_nonzero. lia. Qed.

Section Proofs.
  Context {T : Type} (f : T -> T -> T) (id : T).
  Hypothesis f_assoc : forall a b c, f a (f b c) = f (f a b) c.
  Hypothesis f_id_l : forall a, f id a = a.
  Hypothesis f_id_r : forall a, f a id = a.

  Notation get v i := (nth i v id).

  Definition node_ok (v : list T) (i : nat) : Prop := get v i = f (get v (2 * i)) (get v (2 * i + 1)).
  (** i is a proper ancestor of an element of X *)
  Definition anc (X : nat -> Prop) (i : nat) : Prop := exists x k, X x /\ i = x / 2 ^ S k.
  Definition OKex (n : nat) (v : list T) (X : nat -> Prop) : Prop :=
    forall i, 0 < i < n -> node_ok v i \/ anc X i.

  Lemma update_spec n v i : length v = 2 * n -> i < n -> exists v',
    st_update f v i = Some v' /\ length v' = 2 * n /\
    (forall j, get v' j = if i =? j then f (get v (2 * i)) (get v (2 * i + 1)) else get v j).
  Proof.
    intros L H. unfold st_update.
    rewrite (nth_error_nth_in v (2 * i + 0) id) by lia. cbn [obind].
    rewrite (nth_error_nth_in v (2 * i + 1) id) by lia. cbn [obind].
    rewrite Nat.add_0_r.
    destruct (set_nth_some v i (f (get v (2 * i)) (get v (2 * i + 1)))) as [v' E]; [lia|].
    exists v'. split; [exact E|]. split.
    - rewrite (set_nth_length _ _ _ _ E). exact L.
    - intros j. apply (set_nth_nth _ _ _ _ _ _ E).
  Qed.

  (** leaves are untouched by updates of internal nodes *)
  Definition same_leaves (n : nat) (v v' : list T) : Prop :=
    get v' 0 = get v 0 /\ forall j, n <= j -> get v' j = get v j.

  Lemma same_leaves_trans n a b c : same_leaves n a b -> same_leaves n b c -> same_leaves n a c.
  Proof. intros [A1 A2] [B1 B2]. split; [congruence|]. intros j Hj. rewrite B2, A2 by exact Hj. reflexivity. Qed.

  Lemma update_node n v i : length v = 2 * n -> 0 < i < n -> exists v',
    st_update f v i = Some v' /\ length v' = 2 * n /\ same_leaves n v v' /\
    node_ok v' i /\ (forall j, 0 < j -> j <> i -> j <> i / 2 -> node_ok v j -> node_ok v' j).
  Proof.
    intros L H. destruct (update_spec n v i L ltac:(lia)) as (v' & E & L' & G).
    exists v'. split; [exact E|]. split; [exact L'|]. split.
    { split; [rewrite G; destruct (Nat.eqb_spec i 0); [lia|reflexivity]|].
      intros j Hj. rewrite G. destruct (Nat.eqb_spec i j); [lia|reflexivity]. }
    split.
    - unfold node_ok. rewrite !G.
      destruct (Nat.eqb_spec i i); [|lia]. destruct (Nat.eqb_spec i (2 * i)); [lia|].
      destruct (Nat.eqb_spec i (2 * i + 1)); [lia|]. reflexivity.
    - intros j Hj Nj Nj2 OK. unfold node_ok in *. rewrite !G.
      destruct (Nat.eqb_spec i j); [lia|]. destruct (Nat.eqb_spec i (2 * j)); [lia|].
      destruct (Nat.eqb_spec i (2 * j + 1)); [lia|]. exact OK.
  Qed.

  Lemma up_spec n X fuel v x : length v = 2 * n -> x < fuel -> x < 2 * n ->
    OKex n v (fun y => X y \/ y = x) -> exists v',
    st_up f fuel v x = Some v' /\ length v' = 2 * n /\ same_leaves n v v' /\ OKex n v' X.
  Proof.
    revert v x; induction fuel as [|k IH]; intros v x L Hf Hx OK; [lia|]. cbn [st_up].
    destruct (Nat.ltb_spec 0 (x / 2)) as [P|P].
    - destruct (update_node n v (x / 2) L ltac:(lia)) as (v1 & E & L1 & S1 & N1 & O1).
      rewrite E. cbn [obind].
      destruct (IH v1 (x / 2) L1 ltac:(lia) ltac:(lia)) as (v2 & E2 & L2 & S2 & O2).
      + intros i Hi. destruct (Nat.eq_dec i (x / 2)) as [->|Ni]; [left; exact N1|].
        destruct (Nat.eq_dec i (x / 2 / 2)) as [->|Ni2].
        { right. exists (x / 2), 0. split; [right; reflexivity|]. reflexivity. }
        destruct (OK i Hi) as [Oi|(y & q & [Xy| ->] & Ei)].
        * left. apply O1; auto; lia.
        * right. exists y, q. auto.
        * destruct q as [|q]; [rewrite Nat.pow_1_r in Ei; lia|]. right. exists (x / 2), q. split; [auto|].
          rewrite Ei. apply div_pow2_S.
      + exists v2. split; [exact E2|]. split; [exact L2|]. split; [|exact O2].
        eapply same_leaves_trans; eassumption.
    - exists v. split; [reflexivity|]. split; [exact L|]. split; [split; auto|].
      intros i Hi. destruct (OK i Hi) as [Oi|(y & q & [Xy| ->] & Ei)]; [auto| |].
      + right. exists y, q. auto.
      + exfalso. rewrite div_pow2_S in Ei. replace (x / 2) with 0 in Ei by lia.
        rewrite Nat.div_0_l in Ei by (apply Nat.pow_nonzero; lia). lia.
  Qed.

  (** one level of a range rebuild *)
  Lemma level_spec n X v b e : length v = 2 * n -> 0 < b -> e < n -> b <= e ->
    OKex n v (fun y => X y \/ 2 * b <= y <= 2 * e + 1) -> 2 * b > e -> exists v',
    for_down b (S e) (fun i v => st_update f v i) v = Some v' /\
    length v' = 2 * n /\ same_leaves n v v' /\ OKex n v' (fun y => X y \/ b <= y <= e).
  Proof.
    intros L Hb He Hbe OK Hlev.
    destruct (for_down_spec (fun i w => length w = 2 * n /\ same_leaves n v w /\
        (forall j, 0 < j < n -> (i <= j <= e -> node_ok w j) /\
            (node_ok w j \/ b <= j <= e \/ (b <= 2 * j + 1 /\ 2 * j <= e) \/ anc (fun y => X y \/ 2 * b <= y <= 2 * e + 1) j)))
        (fun i v => st_update f v i) b (S e) v) as (v' & E & L' & S' & O'); [lia| | |].
    - split; [exact L|]. split; [split; auto|]. intros j Hj. split; [lia|].
      destruct (OK j Hj); auto.
    - intros i w Hi (Lw & Sw & Ow).
      destruct (update_node n w i Lw ltac:(lia)) as (w' & E & L' & S' & N' & O').
      exists w'. split; [exact E|]. split; [exact L'|]. split; [eapply same_leaves_trans; eassumption|].
      intros j Hj. destruct (Ow j Hj) as [A B]. split.
      + intros Hji. destruct (Nat.eq_dec j i) as [->|]; [exact N'|]. apply O'; [lia|lia| |apply A; lia].
        (* j > i, so j is not the parent of i *) lia.
      + destruct (Nat.eq_dec j i) as [->|]; [auto|].
        destruct (Nat.eq_dec j (i / 2)) as [->|Nj].
        * right. right. left. lia.
        * destruct B as [B|B]; [|auto]. left. apply O'; auto; lia.
    - exists v'. split; [exact E|]. split; [exact L'|]. split; [exact S'|].
      intros i Hi. destruct (O' i Hi) as [A B].
      destruct (Nat.le_gt_cases b i) as [B1|B1]; [destruct (Nat.le_gt_cases i e) as [B2|B2]|].
      + left. apply A. lia.
      + destruct B as [B|[B|[B|B]]]; [auto|lia| |].
        * right. lia.
        * destruct B as (y & q & [Xy|Hy] & Ei); [right; exists y, q; auto|].
          right. destruct q as [|q]; [rewrite Nat.pow_1_r in Ei; lia|].
          exists (y / 2), q. split; [right; lia|]. rewrite Ei. apply div_pow2_S.
      + destruct B as [B|[B|[B|B]]]; [auto|lia| |].
        * right. 
          destruct (Nat.le_gt_cases b (2 * i)) as [C|C].
          -- exists (2 * i), 0. split; [lia|]. rewrite Nat.pow_1_r. lia.
          -- destruct (Nat.le_gt_cases (2 * i + 1) e) as [C2|C2].
             ++ exists (2 * i + 1), 0. split; [lia|]. rewrite Nat.pow_1_r. lia.
             ++ (* b = 2i+1 > e >= 2i : then range empty at b = e+1 *)
                exfalso. lia.
        * destruct B as (y & q & [Xy|Hy] & Ei); [right; exists y, q; auto|].
          destruct q as [|q]; [rewrite Nat.pow_1_r in Ei; lia|].
          right. exists (y / 2), q. split; [right; lia|]. rewrite Ei. apply div_pow2_S.
  Qed.

  Lemma rebuild_loop_spec n X fuel : forall v b e k, length v = 2 * n -> b < fuel -> b <= e -> e < 2 * n ->
    2 ^ k <= b -> e < 2 ^ S k ->
    OKex n v (fun y => X y \/ b <= y <= e) -> exists v',
    st_rebuild_loop f fuel v b e = Some v' /\ length v' = 2 * n /\ same_leaves n v v' /\ OKex n v' X.
  Proof.
    induction fuel as [|fu IH]; intros v b e k L Hf Hbe He K1 K2 OK; [lia|]. cbn [st_rebuild_loop].
    destruct (Nat.ltb_spec 1 b) as [P|P].
    - destruct k as [|k]; [cbn in K2; lia|]. cbn [Nat.pow] in K1, K2.
      destruct (level_spec n X v (b / 2) (e / 2) L) as (v1 & E1 & L1 & S1 & O1); try lia.
      { intros i Hi. destruct (OK i Hi) as [A|(y & q & [Xy|Hy] & Ei)]; [auto| |].
        - right. exists y, q. auto.
        - right. exists y, q. split; [right; lia|exact Ei]. }
      rewrite E1. cbn [obind].
      destruct (IH v1 (b / 2) (e / 2) k L1) as (v2 & E2 & L2 & S2 & O2); cbn [Nat.pow]; try lia; [exact O1|].
      exists v2. split; [exact E2|]. split; [exact L2|]. split; [|exact O2].
      eapply same_leaves_trans; eassumption.
    - exists v. split; [reflexivity|]. split; [exact L|]. split; [split; auto|].
      pose proof (Nat.pow_nonzero 2 k ltac:(lia)).
      assert (k = 0).
      { destruct k as [|k]; [reflexivity|]. cbn [Nat.pow] in K1. pose proof (Nat.pow_nonzero 2 k ltac:(lia)). lia. }
      subst k. cbn in K2.
      intros i Hi. destruct (OK i Hi) as [Oi|(y & q & [Xy|Hy] & Ei)]; [auto| |].
      + right. exists y, q. auto.
      + exfalso. rewrite div_pow2_S in Ei. replace (y / 2) with 0 in Ei by lia.
        rewrite Nat.div_0_l in Ei by (apply Nat.pow_nonzero; lia). lia.
  Qed.

  Lemma rebuild_all_spec n v : length v = 2 * n -> 0 < n -> exists v',
    st_rebuild f v = Some v' /\ length v' = 2 * n /\ same_leaves n v v' /\ OKex n v' (fun _ => False).
  Proof.
    intros L Hn. unfold st_rebuild, st_size. rewrite L. replace (2 * n / 2) with n by lia.
    destruct (for_down_spec (fun i w => length w = 2 * n /\ same_leaves n v w /\
        (forall j, i <= j < n -> node_ok w j)) (fun i v => st_update f v i) 1 n v)
      as (v' & E & L' & S' & O'); [lia| | |].
    - split; [exact L|]. split; [split; auto|]. intros; lia.
    - intros i w Hi (Lw & Sw & Ow).
      destruct (update_node n w i Lw ltac:(lia)) as (w' & E & L' & S' & N' & O').
      exists w'. split; [exact E|]. split; [exact L'|]. split; [eapply same_leaves_trans; eassumption|].
      intros j Hj. destruct (Nat.eq_dec j i) as [->|]; [exact N'|]. apply O'; [lia|lia|lia|apply Ow; lia].
    - exists v'. split; [exact E|]. split; [exact L'|]. split; [exact S'|].
      intros i Hi. left. apply O'. lia.
  Qed.

  (* ------------------------------------------------------------- queries *)

  Fixpoint sf (v : list T) (a len : nat) : T :=
    match len with O => id | S l => f (get v a) (sf v (S a) l) end.

  Lemma sf_app v a l1 l2 : sf v a (l1 + l2) = f (sf v a l1) (sf v (a + l1) l2).
  Proof.
    revert a; induction l1 as [|l1 IH]; intros a; cbn [sf Nat.add].
    - now rewrite f_id_l, Nat.add_0_r.
    - rewrite IH, f_assoc. do 2 f_equal. lia.
  Qed.

  Lemma node_sf n v k : forall i, OKex n v (fun _ => False) -> n <= i * 2 ^ k -> (i + 1) * 2 ^ k <= 2 * n ->
    0 < n -> get v i = sf v (i * 2 ^ k) (2 ^ k).
  Proof.
    induction k as [|k IH]; intros i OK H1 H2 Hn.
    - cbn [Nat.pow sf]. now rewrite Nat.mul_1_r, f_id_r.
    - cbn [Nat.pow] in *. pose proof (Nat.pow_nonzero 2 k ltac:(lia)).
      assert (Hi : 0 < i < n) by nia.
      destruct (OK i Hi) as [O|(y & q & [] & _)]. unfold node_ok in O. rewrite O.
      rewrite (IH (2 * i)) by (assumption || nia). rewrite (IH (2 * i + 1)) by (assumption || nia).
      replace (2 * 2 ^ k) with (2 ^ k + 2 ^ k) by lia. rewrite sf_app.
      do 2 f_equal; nia.
  Qed.

  Lemma odd_pow2 i k h : Nat.odd i = true -> i * 2 ^ k = 2 ^ h -> i = 1.
  Proof.
    revert k; induction h as [|h IH]; intros k Ho E.
    - cbn in E. lia.
    - destruct k as [|k].
      + cbn [Nat.pow] in E. rewrite Nat.mul_1_r in E. subst i.
        rewrite Nat.odd_mul in Ho. cbn in Ho. discriminate.
      + cbn [Nat.pow] in E. apply (IH k Ho). nia.
  Qed.

  Lemma odd_true i : Nat.odd i = true -> i = 2 * (i / 2) + 1.
  Proof. intros H. apply Nat.odd_spec in H. destruct H as [m ->]. lia. Qed.
  Lemma odd_false i : Nat.odd i = false -> i = 2 * (i / 2).
  Proof.
    intros H. assert (E : Nat.even i = true) by (rewrite <- Nat.negb_odd, H; reflexivity).
    apply Nat.even_spec in E. destruct E as [m ->]. lia.
  Qed.

  Lemma get_loop_spec h v R fuel : forall tl tr b e i k,
    let n := 2 ^ h in
    length v = 2 * n -> OKex n v (fun _ => False) ->
    e < fuel -> b <= e ->
    (b = e \/ (i * 2 ^ k = n /\ e <= i)) ->
    f tl (f (sf v (n + b * 2 ^ k) ((e - b) * 2 ^ k)) tr) = R ->
    st_get_loop f fuel v tl tr b e i = Some R.
  Proof.
    induction fuel as [|fu IH]; intros tl tr b e i k n L OK Hf Hbe Hi HR; [lia|]. cbn [st_get_loop].
    pose proof (Nat.pow_nonzero 2 h ltac:(lia)) as Hn0. fold n in Hn0.
    pose proof (Nat.pow_nonzero 2 k ltac:(lia)) as Hk0.
    destruct (Nat.ltb_spec b e) as [P|P].
    - destruct Hi as [Hi|[Hi He]]; [lia|].
      assert (Hnode : forall x, x < i -> nth_error v (i + x) = Some (sf v (n + x * 2 ^ k) (2 ^ k))).
      { intros x Hx. rewrite (nth_error_nth_in v (i + x) id) by nia. f_equal.
        rewrite (node_sf n v k (i + x) OK) by nia. f_equal. nia. }
      (* state after the two conditional steps *)
      assert (Hb : exists tl1 b1, (if Nat.odd b then let* x := nth_error v (i + b) in Some (f tl x, b + 1)
             else Some (tl, b)) = Some (tl1, b1) /\ b1 = 2 * (b1 / 2) /\ b <= b1 <= e /\
             (forall z, f tl (f (sf v (n + b * 2 ^ k) ((b1 - b) * 2 ^ k)) z) = f tl1 z) /\
             (Nat.odd e = true -> b1 < e)).
      { destruct (Nat.odd b) eqn:Ob.
        - rewrite Hnode by lia. cbn [obind]. do 2 eexists. split; [reflexivity|].
          pose proof (odd_true b Ob) as Eb.
          split; [lia|]. split; [lia|]. split.
          + intros z. replace ((b + 1 - b) * 2 ^ k) with (2 ^ k) by nia. apply f_assoc.
          + intros Oe. pose proof (odd_true e Oe). lia.
        - do 2 eexists. split; [reflexivity|]. pose proof (odd_false b Ob).
          split; [lia|]. split; [lia|]. split; [|lia].
          intros z. replace ((b - b) * 2 ^ k) with 0 by lia. cbn [sf]. now rewrite f_id_l. }
      destruct Hb as (tl1 & b1 & Eb & Bev & Bb & Bf & Bo). rewrite Eb. cbn [obind].
      assert (Hee : exists tr1 e1, (if Nat.odd e then let* x := nth_error v (i + (e - 1)) in Some (f x tr, e - 1)
             else Some (tr, e)) = Some (tr1, e1) /\ e1 = 2 * (e1 / 2) /\ b1 <= e1 <= e /\
             f (sf v (n + e1 * 2 ^ k) ((e - e1) * 2 ^ k)) tr = tr1).
      { destruct (Nat.odd e) eqn:Oe.
        - rewrite Hnode by lia. cbn [obind]. do 2 eexists. split; [reflexivity|].
          pose proof (odd_true e Oe) as Ee. specialize (Bo eq_refl).
          split; [lia|]. split; [lia|]. do 2 f_equal. nia.
        - do 2 eexists. split; [reflexivity|]. pose proof (odd_false e Oe).
          split; [lia|]. split; [lia|]. replace ((e - e) * 2 ^ k) with 0 by lia. cbn [sf]. apply f_id_l. }
      destruct Hee as (tr1 & e1 & Ee & Eev & Be & Ef). rewrite Ee. cbn [obind].
      apply (IH tl1 tr1 (b1 / 2) (e1 / 2) (i / 2) (S k)); try assumption; try lia.
      + destruct (Nat.odd i) eqn:Oi.
        * assert (i = 1) by (apply (odd_pow2 i k h Oi); exact Hi). left. lia.
        * right. pose proof (odd_false i Oi) as Ei. cbn [Nat.pow]. split; [nia|lia].
      + fold n. rewrite <- HR. cbn [Nat.pow].
        replace ((e - b) * 2 ^ k) with ((b1 - b) * 2 ^ k + (e - b1) * 2 ^ k) by nia.
        rewrite sf_app, <- f_assoc, Bf. f_equal.
        replace (n + b * 2 ^ k + (b1 - b) * 2 ^ k) with (n + b1 * 2 ^ k) by nia.
        replace ((e - b1) * 2 ^ k) with ((e1 - b1) * 2 ^ k + (e - e1) * 2 ^ k) by nia.
        rewrite sf_app, <- f_assoc.
        replace (n + b1 * 2 ^ k + (e1 - b1) * 2 ^ k) with (n + e1 * 2 ^ k) by nia.
        rewrite Ef. do 2 f_equal; nia.
    - assert (b = e) by lia. subst e. rewrite Nat.sub_diag in HR. cbn [Nat.mul sf] in HR.
      rewrite f_id_l in HR. now rewrite HR.
  Qed.

  (* ------------------------------------------------ the abstraction *)

  Definition leaf (n : nat) (P : nat -> Prop) : nat -> Prop := fun y => exists j, P j /\ y = j + n.

  (** representation invariant: capacity 2^h, v[0] is the neutral element, leaves are the
      values, every node that is no ancestor of a dirty leaf is right *)
  Definition Rep (h : nat) (v : list T) (s : seg_abs T) : Prop :=
    length v = 2 * 2 ^ h /\ get v 0 = id /\ vals s = skipn (2 ^ h) v /\
    OKex (2 ^ h) v (leaf (2 ^ h) (fun j => In j (dirty s))).

  Lemma skipn_ext n v v' : length v = 2 * n -> length v' = 2 * n -> same_leaves n v v' ->
    skipn n v' = skipn n v.
  Proof.
    intros L L' [_ H]. apply nth_ext with (d := id) (d' := id).
    - rewrite !skipn_length. lia.
    - intros j Hj. rewrite !skipn_length in Hj.
      assert (G : forall (w : list T), nth j (skipn n w) id = nth (n + j) w id).
      { intros w. clear. revert w; induction n as [|n IH]; intros w; [reflexivity|].
        destruct w; [now destruct j|]. cbn. apply IH. }
      rewrite !G. apply H. lia.
  Qed.

  Lemma rep_size h v s : Rep h v s -> st_size v = 2 ^ h /\ length (vals s) = 2 ^ h.
  Proof.
    intros (L & _ & V & _). unfold st_size. rewrite L, V, skipn_length, L. lia.
  Qed.

  Lemma skipn_set n (v v' : list T) i x : set_nth v (i + n) x = Some v' ->
    skipn n v' = upd (skipn n v) i x.
  Proof.
    revert v v'; induction n as [|n IH]; intros v v' H.
    - rewrite Nat.add_0_r in H. cbn [skipn]. unfold upd. now apply set_nth_app.
    - rewrite Nat.add_succ_r in H. destruct v as [|a t]; [discriminate|]. cbn [set_nth] in H.
      destruct (set_nth t (i + n) x) as [t'|] eqn:E; [|discriminate]. injection H as <-.
      cbn [skipn]. now apply IH.
  Qed.

  Lemma write_rep h v s i x : Rep h v s -> i < 2 ^ h -> exists v',
    st_write v i x = Some v' /\ Rep h v' (abs_do s (OpWrite i x)).
  Proof.
    intros HR Hi. pose proof (rep_size h v s HR) as [SZ LV]. destruct HR as (L & Z & V & OK).
    unfold st_write. rewrite SZ. set (n := 2 ^ h) in *.
    destruct (set_nth_some v (i + n) x ltac:(lia)) as [v' E]. exists v'. split; [exact E|].
    pose proof (set_nth_length _ _ _ _ E) as L'.
    assert (G : forall j, get v' j = if i + n =? j then x else get v j).
    { intros j. apply (set_nth_nth _ _ _ _ _ _ E). }
    split; [fold n; lia|]. fold n. split; [|split].
    - rewrite G. destruct (Nat.eqb_spec (i + n) 0); [|exact Z].
      pose proof (Nat.pow_nonzero 2 h ltac:(lia)). subst n. lia.
    - cbn [abs_do vals]. rewrite V. symmetry. now apply skipn_set.
    - intros j Hj. cbn [abs_do dirty].
      destruct (Nat.eq_dec j ((i + n) / 2)) as [->|Nj].
      + right. exists (i + n), 0. split; [|now rewrite Nat.pow_1_r]. exists i. split; [now left|lia].
      + destruct (OK j Hj) as [O|(y & q & (d & Hd & ->) & Ej)].
        * left. unfold node_ok in *. rewrite !G.
          destruct (Nat.eqb_spec (i + n) j); [lia|]. destruct (Nat.eqb_spec (i + n) (2 * j)); [lia|].
          destruct (Nat.eqb_spec (i + n) (2 * j + 1)); [lia|]. exact O.
        * right. exists (d + n), q. split; [|exact Ej]. exists d. split; [now right|lia].
  Qed.

  Lemma rep_same h v v' s s' : Rep h v s -> length v' = 2 * 2 ^ h -> same_leaves (2 ^ h) v v' ->
    vals s' = vals s -> OKex (2 ^ h) v' (leaf (2 ^ h) (fun j => In j (dirty s'))) -> Rep h v' s'.
  Proof.
    intros (L & Z & V & OK) L' S' EV OK'. split; [exact L'|]. split; [destruct S'; congruence|]. split; [|exact OK'].
    rewrite EV, V. symmetry. apply skipn_ext; assumption.
  Qed.

  Lemma do_rep h v s o : Rep h v s -> op_ok (2 ^ h) o -> exists v',
    st_do f v o = Some v' /\ Rep h v' (abs_do s o).
  Proof.
    intros HR Ho. pose proof (rep_size h v s HR) as [SZ LV].
    pose proof (Nat.pow_nonzero 2 h ltac:(lia)) as Hn0.
    destruct o as [i x|i x| |i|b e]; cbn [st_do op_ok] in *.
    - (* set = write, then repair the path *)
      destruct (write_rep h v s i x HR Ho) as (v1 & E1 & R1).
      unfold st_write in E1. unfold st_set. rewrite E1. cbn [obind]. rewrite SZ.
      pose proof R1 as (L1 & Z1 & V1 & OK1).
      destruct (up_spec (2 ^ h) (leaf (2 ^ h) (fun j => In j (dirty s))) (S (i + 2 ^ h)) v1 (i + 2 ^ h) L1)
        as (v2 & E2 & L2 & S2 & O2); [lia|lia| |].
      + intros j Hj. destruct (OK1 j Hj) as [O|(y & q & (d & [Hd|Hd] & ->) & Ej)]; [auto| |].
        * right. exists (d + 2 ^ h), q. split; [right; lia|exact Ej].
        * right. exists (d + 2 ^ h), q. split; [left; exists d; auto|exact Ej].
      + exists v2. split; [exact E2|].
        exact (rep_same h v1 v2 _ (abs_do s (OpSet i x)) R1 L2 S2 eq_refl O2).
    - apply write_rep; assumption.
    - destruct HR as (L & Z & V & OK).
      destruct (rebuild_all_spec (2 ^ h) v L ltac:(lia)) as (v' & E & L' & S' & O').
      exists v'. split; [exact E|].
      apply (rep_same h v v' s (abs_do s OpRebuild) (conj L (conj Z (conj V OK))) L' S' eq_refl).
      intros j Hj. destruct (O' j Hj) as [O|(y & q & [] & _)]. auto.
    - unfold st_rebuild_at. rewrite SZ. pose proof HR as (L & Z & V & OK).
      destruct (up_spec (2 ^ h) (leaf (2 ^ h) (fun j => In j (dirty (abs_do s (OpRebuildAt i)))))
         (S (i + 2 ^ h)) v (i + 2 ^ h) L) as (v2 & E2 & L2 & S2 & O2); [lia|lia| |].
      + intros j Hj. destruct (OK j Hj) as [O|(y & q & (d & Hd & ->) & Ej)]; [auto|].
        right. exists (d + 2 ^ h), q. split; [|exact Ej].
        destruct (Nat.eq_dec d i) as [->|N]; [now right|]. left. exists d. split; [|reflexivity].
        cbn [abs_do dirty]. apply filter_In. split; [exact Hd|]. destruct (Nat.eqb_spec d i); [lia|reflexivity].
      + exists v2. split; [exact E2|]. exact (rep_same h v v2 _ (abs_do s (OpRebuildAt i)) HR L2 S2 eq_refl O2).
    - unfold st_rebuild_range. rewrite SZ. pose proof HR as (L & Z & V & OK).
      destruct (rebuild_loop_spec (2 ^ h) (leaf (2 ^ h) (fun j => In j (dirty (abs_do s (OpRebuildRange b e)))))
         (S (b + 2 ^ h)) v (b + 2 ^ h) (e - 1 + 2 ^ h) h L) as (v2 & E2 & L2 & S2 & O2); cbn [Nat.pow]; try lia.
      + intros j Hj. destruct (OK j Hj) as [O|(y & q & (d & Hd & ->) & Ej)]; [auto|].
        right. exists (d + 2 ^ h), q. split; [|exact Ej].
        destruct ((b <=? d) && (d <? e)) eqn:C; [right; lia|]. left. exists d. split; [|reflexivity].
        cbn [abs_do dirty]. apply filter_In. split; [exact Hd|]. now rewrite C.
      + exists v2. split; [exact E2|]. exact (rep_same h v v2 _ (abs_do s (OpRebuildRange b e)) HR L2 S2 eq_refl O2).
  Qed.

  Lemma run_rep h os : forall v s, Rep h v s -> Forall (op_ok (2 ^ h)) os -> exists v',
    st_run f v os = Some v' /\ Rep h v' (fold_left abs_do os s).
  Proof.
    induction os as [|o os IH]; intros v s HR HO.
    - exists v. split; [reflexivity|exact HR].
    - inversion HO as [|? ? Ho HOs]; subst. destruct (do_rep h v s o HR Ho) as (v1 & E1 & R1).
      cbn [st_run fold_left]. rewrite E1. cbn [obind]. now apply IH.
  Qed.

  Lemma fold_left_sf (l : list T) a : fold_left f l a = f a (fold_right f id l).
  Proof.
    revert a; induction l as [|x l IH]; intros a; cbn; [now rewrite f_id_r|].
    now rewrite IH, f_assoc.
  Qed.
  Lemma sf_list v a len : a + len <= length v -> sf v a len = fold_right f id (firstn len (skipn a v)).
  Proof.
    revert a; induction len as [|len IH]; intros a H; [now rewrite firstn_O|].
    cbn [sf]. rewrite IH by lia.
    assert (E : skipn a v = get v a :: skipn (S a) v).
    { clear -H. revert a H; induction v as [|x v IH]; intros a H; cbn [length] in H; [lia|].
      destruct a; [reflexivity|]. cbn [skipn nth]. now rewrite IH by lia. }
    rewrite E. reflexivity.
  Qed.

  Lemma get_rep h v s b e : Rep h v s -> dirty s = [] -> b <= e <= 2 ^ h ->
    st_get f v b e = Some (range_fold f id (vals s) b e).
  Proof.
    intros HR D H. pose proof (rep_size h v s HR) as [SZ LV]. destruct HR as (L & Z & V & OK).
    pose proof (Nat.pow_nonzero 2 h ltac:(lia)) as Hn0.
    unfold st_get. rewrite (nth_error_nth_in v 0 id) by lia. cbn [obind]. rewrite Z, SZ.
    apply (get_loop_spec h v _ (S e) id id b e (2 ^ h) 0); try lia.
    - intros j Hj. destruct (OK j Hj) as [O|(y & q & (d & Hd & _) & _)]; [auto|]. rewrite D in Hd. destruct Hd.
    - cbn [Nat.pow]. rewrite !Nat.mul_1_r, f_id_l, f_id_r. unfold range_fold.
      rewrite fold_left_sf, f_id_l, V. rewrite sf_list by lia. do 2 f_equal.
      rewrite Nat.add_comm. clear. generalize (2 ^ h). intros n. revert v; induction n as [|n IH]; intros v.
      + now rewrite Nat.add_0_r.
      + rewrite Nat.add_succ_r. destruct v; [now rewrite !skipn_nil|]. cbn [skipn]. apply IH.
  Qed.

  Lemma at_rep h v s i : Rep h v s -> st_at v i = nth_error (vals s) i.
  Proof.
    intros HR. pose proof (rep_size h v s HR) as [SZ _]. destruct HR as (L & Z & V & OK).
    unfold st_at. rewrite SZ, V. clear. generalize (2 ^ h). intros n.
    revert v; induction n as [|n IH]; intros v; [now rewrite Nat.add_0_r|].
    rewrite Nat.add_succ_r. destruct v; [now rewrite skipn_nil; destruct i|]. cbn. apply IH.
  Qed.

  (* ------------------------------------------------------- constructors *)

  Lemma calc_pow2_spec sz : exists h, calc_pow2 sz = Some (2 ^ h) /\ sz <= 2 ^ h /\ (2 ^ h < 2 * sz \/ h = 0).
  Proof.
    unfold calc_pow2.
    assert (G : forall fuel w h, w = 2 ^ h -> 0 < fuel /\ sz < w + fuel -> (w < 2 * sz \/ h = 0) ->
       exists h, calc_pow2_loop fuel w sz = Some (2 ^ h) /\ sz <= 2 ^ h /\ (2 ^ h < 2 * sz \/ h = 0)).
    { induction fuel as [|k IH]; intros w h Hw Hf Hb.
      - lia.
      - cbn [calc_pow2_loop]. destruct (Nat.ltb_spec w sz) as [P|P].
        + apply (IH (w * 2) (S h)); [cbn [Nat.pow]; lia| |left; lia].
          assert (w <> 0) by (subst w; apply Nat.pow_nonzero; lia). lia.
        + exists h. subst w. auto. }
    apply (G (S sz) 1 0); [reflexivity|lia|auto].
  Qed.

  Lemma repeat_nth i m : get (repeat id m) i = id.
  Proof. revert i; induction m as [|m IH]; intros i; cbn; [now destruct i|]. destruct i; [reflexivity|apply IH]. Qed.

  Lemma make_rep sz : exists h v, st_make id sz = Some v /\ sz <= 2 ^ h /\ (2 ^ h < 2 * sz \/ h = 0) /\
    Rep h v {| vals := repeat id (2 ^ h); dirty := [] |}.
  Proof.
    destruct (calc_pow2_spec sz) as (h & E & H1 & H2). exists h, (repeat id (2 ^ h * 2)).
    unfold st_make. rewrite E. cbn [obind]. split; [reflexivity|]. split; [exact H1|]. split; [exact H2|].
    split; [rewrite repeat_length; lia|]. split; [apply repeat_nth|]. split.
    - cbn [vals]. replace (2 ^ h * 2) with (2 ^ h + 2 ^ h) by lia. rewrite repeat_app.
      rewrite skipn_app. rewrite repeat_length, Nat.sub_diag. cbn [skipn].
      rewrite skipn_all2 by (rewrite repeat_length; lia). reflexivity.
    - intros j Hj. left. unfold node_ok. rewrite !repeat_nth. now rewrite f_id_l.
  Qed.

  Lemma from_rep xs : exists h v, st_from f id xs = Some v /\ length xs <= 2 ^ h /\ (2 ^ h < 2 * length xs \/ h = 0) /\
    Rep h v {| vals := xs ++ repeat id (2 ^ h - length xs); dirty := [] |}.
  Proof.
    destruct (calc_pow2_spec (length xs)) as (h & E & H1 & H2). unfold st_from. rewrite E. cbn [obind].
    set (n := 2 ^ h) in *.
    destruct (for_range_spec (fun k v => length v = 2 * n /\
        (forall j, get v j = if (n <=? j) && (j <? n + k) then nth (j - n) xs id else id))
        (fun k v => let* x := nth_error xs k in set_nth v (st_size v + k) x) 0 (length xs)
        (repeat id (n * 2))) as (v1 & E1 & L1 & G1); [lia| | |].
    - split; [rewrite repeat_length; lia|]. intros j. rewrite repeat_nth.
      destruct ((n <=? j) && (j <? n + 0)) eqn:C; [lia|reflexivity].
    - intros k v Hk (L & G). rewrite (nth_error_nth_in xs k id) by lia. cbn [obind].
      unfold st_size. rewrite L. replace (2 * n / 2) with n by lia.
      destruct (set_nth_some v (n + k) (nth k xs id)) as [v' E']; [lia|].
      exists v'. split; [exact E'|]. split; [rewrite (set_nth_length _ _ _ _ E'); exact L|].
      intros j. rewrite (set_nth_nth _ _ _ _ id j E'), G.
      destruct (Nat.eqb_spec (n + k) j) as [<-|N].
      + destruct ((n <=? n + k) && (n + k <? n + S k)) eqn:C; [|lia]. f_equal. lia.
      + destruct ((n <=? j) && (j <? n + k)) eqn:C; destruct ((n <=? j) && (j <? n + S k)) eqn:C'; (reflexivity || lia).
    - rewrite E1. cbn [obind].
      pose proof (Nat.pow_nonzero 2 h ltac:(lia)) as Hn0. fold n in Hn0.
      destruct (rebuild_all_spec n v1 L1 ltac:(lia)) as (v2 & E2 & L2 & S2 & O2).
      exists h, v2. split; [exact E2|]. fold n. split; [exact H1|]. split; [exact H2|].
      split; [exact L2|]. split; [|split].
      + destruct S2 as [S2 _]. rewrite S2, G1. destruct ((n <=? 0) && (0 <? n + length xs)) eqn:C; [lia|reflexivity].
      + fold n. rewrite (skipn_ext n v1 v2 L1 L2 S2). cbn [vals].
        apply nth_ext with (d := id) (d' := id).
        * rewrite app_length, repeat_length, skipn_length. lia.
        * intros j Hj. rewrite app_length, repeat_length in Hj.
          assert (Gs : nth j (skipn n v1) id = nth (n + j) v1 id).
          { clear. revert v1; induction n as [|n IH]; intros w; [reflexivity|].
            destruct w; [now destruct j|]. cbn. apply IH. }
          rewrite Gs, G1. destruct (Nat.lt_ge_cases j (length xs)) as [C|C].
          -- rewrite app_nth1 by exact C. destruct ((n <=? n + j) && (n + j <? n + length xs)) eqn:C'; [|lia].
             f_equal. lia.
          -- rewrite app_nth2 by exact C. rewrite repeat_nth.
             destruct ((n <=? n + j) && (n + j <? n + length xs)) eqn:C'; [lia|reflexivity].
      + intros j Hj. destruct (O2 j Hj) as [O|(y & q & [] & _)]. auto.
  Qed.
End Proofs.
