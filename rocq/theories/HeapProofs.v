(** Proofs about HeapModel. *)
From Verif Require Import Lib HeapModel HeapSpec.
From Coq Require Import Permutation ZifyBool ZifyNat.
Ltac Zify.zify_post_hook ::= Z.div_mod_to_equations.

Section Proofs.
  Context {T : Type} (cmp : T -> T -> bool).
  Hypothesis SW : strict_weak cmp.

  Definition lea (v : list T) (i j : nat) : Prop :=
    forall a b, nth_error v i = Some a -> nth_error v j = Some b -> cmp b a = false.

  Lemma cmp_irrefl a : cmp a a = false.
  Proof. destruct (cmp a a) eqn:E; [|reflexivity]. pose proof (sw_asym _ SW a a E). congruence. Qed.

  Lemma lea_trans v i j k : j < length v -> lea v i j -> lea v j k -> lea v i k.
  Proof.
    intros Hj H1 H2 a c Ha Hc. destruct (nth_error_some v j Hj) as [b Hb].
    eapply (sw_neg_trans _ SW); [apply (H1 a b)|apply (H2 b c)]; assumption.
  Qed.

  Lemma vswap_spec (v : list T) i j : i < length v -> j < length v -> exists v',
    vswap v i j = Some v' /\ length v' = length v /\
    (forall k, nth_error v' k = if k =? i then nth_error v j else if k =? j then nth_error v i else nth_error v k).
  Proof.
    intros Hi Hj. unfold vswap.
    destruct (nth_error_some v i Hi) as [a Ea]. destruct (nth_error_some v j Hj) as [b Eb].
    rewrite Ea, Eb. cbn [obind].
    destruct (set_nth_some v i b Hi) as [v1 E1]. rewrite E1. cbn [obind].
    pose proof (set_nth_length _ _ _ _ E1) as L1.
    destruct (set_nth_some v1 j a ltac:(lia)) as [v2 E2].
    exists v2. split; [exact E2|]. split; [rewrite (set_nth_length _ _ _ _ E2); exact L1|].
    intros k. rewrite (set_nth_get _ _ _ _ k E2), (set_nth_get _ _ _ _ k E1).
    destruct (Nat.eqb_spec k i), (Nat.eqb_spec k j), (Nat.eqb_spec j k), (Nat.eqb_spec i k); subst; try lia; congruence.
  Qed.

  Lemma vswap_app (v w v' : list T) i j : i < length v -> j < length v -> vswap v i j = Some v' ->
    vswap (v ++ w) i j = Some (v' ++ w).
  Proof.
    intros Hi Hj. unfold vswap. rewrite !nth_error_app1 by assumption.
    destruct (nth_error v i) as [a|]; [|discriminate]. destruct (nth_error v j) as [b|]; [|discriminate]. cbn [obind].
    destruct (set_nth v i b) as [v1|] eqn:E1; [|discriminate]. cbn [obind]. intros E2.
    pose proof (set_nth_length _ _ _ _ E1).
    assert (A : forall (u w u' : list T) i x, set_nth u i x = Some u' -> set_nth (u ++ w) i x = Some (u' ++ w)).
    { clear. intros u w. induction u as [|y u IH]; intros u' i x E; [destruct i; discriminate|].
      destruct i as [|i]; cbn in *; [now injection E as <-|].
      destruct (set_nth u i x) as [z|] eqn:Ez; [|discriminate]. injection E as <-. now rewrite (IH z). }
    rewrite (A _ w _ _ _ E1). cbn [obind]. now apply A.
  Qed.

  Lemma set_nth_perm (v v' : list T) i x y : nth_error v i = Some y -> set_nth v i x = Some v' ->
    Permutation (x :: v) (y :: v').
  Proof.
    revert v' i; induction v as [|z v IH]; intros v' i E1 E2; [destruct i; discriminate|].
    destruct i as [|i]; cbn in *.
    - injection E1 as <-. injection E2 as <-. apply perm_swap.
    - destruct (set_nth v i x) as [u|] eqn:Eu; [|discriminate]. injection E2 as <-.
      transitivity (z :: x :: v); [apply perm_swap|]. transitivity (z :: y :: u); [|apply perm_swap].
      constructor. now apply IH with i.
  Qed.

  Lemma vswap_perm (v v' : list T) i j : vswap v i j = Some v' -> Permutation v v'.
  Proof.
    unfold vswap. intros E.
    destruct (nth_error v i) as [a|] eqn:Ea; [|discriminate]. destruct (nth_error v j) as [b|] eqn:Eb; [|discriminate].
    cbn [obind] in E. destruct (set_nth v i b) as [v1|] eqn:E1; [|discriminate]. cbn [obind] in E.
    pose proof (set_nth_perm v v1 i b a Ea E1) as P1.
    assert (Eb1 : nth_error v1 j = Some b).
    { rewrite (set_nth_get _ _ _ _ j E1). destruct (Nat.eqb_spec i j) as [->|N]; [reflexivity|exact Eb]. }
    pose proof (set_nth_perm v1 v' j a b Eb1 E) as P2.
    apply (Permutation_cons_inv (a := b)). now rewrite P1, P2.
  Qed.

  (** swapping inside the first sz elements *)
  Lemma vswap_part (v v' : list T) i j sz : i < sz -> j < sz -> sz <= length v -> vswap v i j = Some v' ->
    Permutation (firstn sz v) (firstn sz v') /\ skipn sz v' = skipn sz v.
  Proof.
    intros Hi Hj Hs E. assert (L : length (firstn sz v) = sz) by (rewrite firstn_length; lia).
    destruct (vswap_spec (firstn sz v) i j ltac:(lia) ltac:(lia)) as (u & Eu & Lu & _).
    pose proof (vswap_app (firstn sz v) (skipn sz v) u i j ltac:(lia) ltac:(lia) Eu) as E2.
    rewrite firstn_skipn, E in E2. injection E2 as ->.
    rewrite firstn_app, skipn_app. replace (sz - length u) with 0 by lia.
    rewrite (firstn_all2 u) by lia. rewrite (skipn_all2 u) by lia. cbn. rewrite app_nil_r.
    split; [now apply vswap_perm in Eu|reflexivity].
  Qed.

  (** c is a child of i *)
  Definition child (i c : nat) : Prop := c = 2 * i + 1 \/ c = 2 * i + 2.
  Definition heap_from_ok (lo sz : nat) (v : list T) : Prop :=
    forall i c, lo <= i -> child i c -> c < sz -> lea v i c.

  (* --------------------------------------------------------- heapify_down *)

  Lemma down_spec fuel : forall v idx lo sz, sz <= length v -> idx < length v \/ sz = 0 -> lo <= idx -> sz < fuel + idx -> 0 < fuel ->
    (forall i c, lo <= i -> i <> idx -> child i c -> c < sz -> lea v i c) ->
    (forall p c, lo <= p -> child p idx -> child idx c -> c < sz -> lea v p c) ->
    exists v', heap_down cmp fuel v idx sz = Some v' /\ length v' = length v /\ heap_from_ok lo sz v' /\
      Permutation (firstn sz v) (firstn sz v') /\ skipn sz v' = skipn sz v.
  Proof.
    induction fuel as [|fu IH]; intros v idx lo sz Hs Hidx Hlo Hf Hf0 H1 H2; [lia|]. cbn [heap_down].
    (* the best of the three *)
    assert (B1 : exists b1,
       (if idx * 2 + 1 <? sz then
          let* x := nth_error v (idx * 2 + 1) in let* y := nth_error v idx in Some (if cmp x y then idx * 2 + 1 else idx)
        else Some idx) = Some b1 /\ (b1 = idx \/ (b1 = 2 * idx + 1 /\ b1 < sz /\ lea v b1 idx)) /\
       (2 * idx + 1 < sz -> lea v b1 (2 * idx + 1))).
    { destruct (Nat.ltb_spec (idx * 2 + 1) sz) as [L|L]; [|exists idx; repeat split; auto; lia].
      destruct (nth_error_some v (idx * 2 + 1) ltac:(lia)) as [x Ex]. destruct (nth_error_some v idx ltac:(lia)) as [y Ey].
      rewrite Ex, Ey. cbn [obind]. eexists. split; [reflexivity|].
      replace (2 * idx + 1) with (idx * 2 + 1) by lia.
      destruct (cmp x y) eqn:Cm.
      - split; [right; split; [lia|split; [lia|]]|].
        + intros a b Ha Hb. rewrite Ex in Ha. rewrite Ey in Hb. injection Ha as <-. injection Hb as <-. now apply (sw_asym _ SW).
        + intros _ a b Ha Hb. rewrite Ha in Hb. injection Hb as <-. apply cmp_irrefl.
      - split; [now left|]. intros _ a b Ha Hb. congruence. }
    destruct B1 as (b1 & E1 & Hb1 & Lb1). rewrite E1. cbn [obind].
    assert (B2 : exists b2,
       (if idx * 2 + 2 <? sz then
          let* x := nth_error v (idx * 2 + 2) in let* y := nth_error v b1 in Some (if cmp x y then idx * 2 + 2 else b1)
        else Some b1) = Some b2 /\ (b2 = idx \/ (child idx b2 /\ b2 < sz /\ lea v b2 idx)) /\
       (forall c, child idx c -> c < sz -> lea v b2 c)).
    { assert (B1l : forall c, child idx c -> c < sz -> c = 2 * idx + 1 -> lea v b1 c) by (intros c _ Hc ->; now apply Lb1).
      destruct (Nat.ltb_spec (idx * 2 + 2) sz) as [L|L].
      - destruct (nth_error_some v (idx * 2 + 2) ltac:(lia)) as [x Ex]. destruct (nth_error_some v b1 ltac:(lia)) as [y Ey].
        rewrite Ex, Ey. cbn [obind]. eexists. split; [reflexivity|].
        destruct (cmp x y) eqn:Cm.
        + assert (Q : lea v (idx * 2 + 2) b1).
          { intros a b Ha Hb. rewrite Ex in Ha. rewrite Ey in Hb. injection Ha as <-. injection Hb as <-. now apply (sw_asym _ SW). }
          split; [right; split; [right; lia|split; [lia|]]|].
          * destruct Hb1 as [->|(-> & Hb & Hl)]; [exact Q|]. apply (lea_trans v _ (2 * idx + 1) _ ltac:(lia) Q Hl).
          * intros c Hc Hcs. destruct Hc as [->| ->].
            -- apply (lea_trans v _ b1 _ ltac:(lia) Q). apply Lb1. lia.
            -- replace (2 * idx + 2) with (idx * 2 + 2) by lia. intros a b Ha Hb. rewrite Ha in Hb. injection Hb as <-. apply cmp_irrefl.
        + split; [destruct Hb1 as [->|(-> & Hb & Hl)]; [now left|right; split; [now left|auto]]|].
          intros c Hc Hcs. destruct Hc as [->| ->]; [now apply Lb1|].
          replace (2 * idx + 2) with (idx * 2 + 2) by lia. intros a b Ha Hb. congruence.
      - exists b1. split; [reflexivity|]. split; [destruct Hb1 as [->|(-> & Hb & Hl)]; [now left|right; split; [now left|auto]]|].
        intros c Hc Hcs. destruct Hc as [->| ->]; [now apply Lb1|lia]. }
    destruct B2 as (b2 & E2 & Hb2 & Lb2). rewrite E2. cbn [obind].
    destruct (Nat.eqb_spec b2 idx) as [->|N].
    - exists v. split; [reflexivity|]. split; [reflexivity|]. split; [|split; reflexivity].
      intros i c Hi Hc Hcs. destruct (Nat.eq_dec i idx) as [->|N]; [now apply Lb2|now apply H1].
    - destruct Hb2 as [|(Hc2 & Hs2 & Hl2)]; [lia|].
      assert (Hi2 : idx < b2) by (unfold child in Hc2; lia).
      destruct (vswap_spec v idx b2 ltac:(lia) ltac:(lia)) as (v1 & Es & Ls & Gs). rewrite Es. cbn [obind].
      assert (Hsw : forall i c, lea v (if i =? idx then b2 else if i =? b2 then idx else i) (if c =? idx then b2 else if c =? b2 then idx else c) -> lea v1 i c).
      { intros i c HL a b Ha Hb. rewrite Gs in Ha, Hb. apply HL.
        - destruct (i =? idx); [exact Ha|]. destruct (i =? b2); exact Ha.
        - destruct (c =? idx); [exact Hb|]. destruct (c =? b2); exact Hb. }
      destruct (IH v1 b2 lo sz) as (v' & Ev & Lv & Hv & Pv & Sv).
      + lia.
      + left. lia.
      + lia.
      + lia.
      + lia.
      + intros i c Hi Nb Hc Hcs. apply Hsw.
        destruct (Nat.eqb_spec i idx) as [->|Ni].
        * destruct (Nat.eqb_spec c idx); [unfold child in Hc; lia|].
          destruct (Nat.eqb_spec c b2) as [->|Nc]; [exact Hl2|]. now apply Lb2.
        * destruct (Nat.eqb_spec i b2); [lia|].
          destruct (Nat.eqb_spec c idx) as [->|Nc].
          -- apply (H2 i b2); assumption.
          -- destruct (Nat.eqb_spec c b2) as [->|Nc2]; [exfalso; unfold child in Hc, Hc2; lia|]. now apply H1.
      + intros p c Hp Hpb Hbc Hcs. apply Hsw.
        assert (p = idx) by (unfold child in *; lia). subst p. rewrite Nat.eqb_refl.
        destruct (Nat.eqb_spec c idx); [unfold child in *; lia|]. destruct (Nat.eqb_spec c b2); [unfold child in *; lia|].
        apply H1; [lia|lia|exact Hbc|exact Hcs].
      + exists v'. split; [exact Ev|]. split; [lia|]. split; [exact Hv|].
        destruct (vswap_part v v1 idx b2 sz ltac:(lia) Hs2 Hs Es) as [P S].
        split; [now transitivity (firstn sz v1)|congruence].
  Qed.

  (* ----------------------------------------------------------- heapify_up *)

  Lemma up_spec fuel : forall v idx, idx < length v -> idx < fuel ->
    (forall i c, c <> idx -> child i c -> c < length v -> lea v i c) ->
    (forall p c, child p idx -> child idx c -> c < length v -> lea v p c) ->
    exists v', heap_up cmp fuel v idx = Some v' /\ heap_from_ok 0 (length v) v' /\ Permutation v v'.
  Proof.
    induction fuel as [|fu IH]; intros v idx Hi Hf H1 H2; [lia|]. cbn [heap_up].
    destruct (Nat.ltb_spec 0 idx) as [L|L].
    - set (p := (idx - 1) / 2). assert (Hp : child p idx /\ p < idx) by (unfold child, p; lia). destruct Hp as [Hp Hlt].
      destruct (nth_error_some v idx Hi) as [x Ex]. destruct (nth_error_some v p ltac:(lia)) as [y Ey].
      rewrite Ex, Ey. cbn [obind]. destruct (cmp x y) eqn:Cm; cbn [negb].
      + destruct (vswap_spec v idx p ltac:(lia) ltac:(lia)) as (v1 & Es & Ls & Gs). rewrite Es. cbn [obind].
        assert (Hsw : forall i c, lea v (if i =? idx then p else if i =? p then idx else i) (if c =? idx then p else if c =? p then idx else c) -> lea v1 i c).
        { intros i c HL a b Ha Hb. rewrite Gs in Ha, Hb. apply HL.
          - destruct (i =? idx); [exact Ha|]. destruct (i =? p); exact Ha.
          - destruct (c =? idx); [exact Hb|]. destruct (c =? p); exact Hb. }
        assert (Hxp : lea v idx p).
        { intros a b Ha Hb. rewrite Ex in Ha. rewrite Ey in Hb. injection Ha as <-. injection Hb as <-. now apply (sw_asym _ SW). }
        destruct (IH v1 p ltac:(lia) ltac:(lia)) as (v' & Ev & Hv & Pv).
        * intros i c Nc Hc Hcs. apply Hsw. rewrite Ls in Hcs.
          destruct (Nat.eqb_spec i idx) as [->|Ni].
          -- destruct (Nat.eqb_spec c idx); [unfold child in *; lia|]. destruct (Nat.eqb_spec c p); [lia|].
             now apply H2.
          -- destruct (Nat.eqb_spec i p) as [->|Nip].
             ++ destruct (Nat.eqb_spec c idx) as [->|Nci]; [exact Hxp|].
                destruct (Nat.eqb_spec c p); [lia|].
                apply (lea_trans v idx p c ltac:(lia) Hxp). now apply H1.
             ++ destruct (Nat.eqb_spec c idx) as [->|Nci]; [unfold child in *; lia|].
                destruct (Nat.eqb_spec c p); [lia|]. now apply H1.
        * intros q c Hq Hc Hcs. apply Hsw. rewrite Ls in Hcs.
          destruct (Nat.eqb_spec q idx); [unfold child in *; lia|]. destruct (Nat.eqb_spec q p); [unfold child in *; lia|].
          assert (Hqp : lea v q p) by (apply H1; [lia|exact Hq|lia]).
          destruct (Nat.eqb_spec c idx) as [->|Nci]; [exact Hqp|].
          destruct (Nat.eqb_spec c p); [unfold child in *; lia|].
          apply (lea_trans v q p c ltac:(lia) Hqp). now apply H1.
        * exists v'. split; [exact Ev|]. split; [rewrite <- Ls; exact Hv|].
          transitivity v1; [now apply vswap_perm in Es|exact Pv].
      + exists v. split; [reflexivity|]. split; [|reflexivity].
        intros i c _ Hc Hcs. destruct (Nat.eq_dec c idx) as [->|N]; [|now apply H1].
        assert (i = p) by (unfold child in *; lia). subst i. intros a b Ha Hb. congruence.
    - exists v. split; [reflexivity|]. split; [|reflexivity].
      intros i c _ Hc Hcs. apply H1; [unfold child in Hc; lia|exact Hc|exact Hcs].
  Qed.

  Definition is_heap (v : list T) : Prop := heap_from_ok 0 (length v) v.

  Lemma root_min sz v : sz <= length v -> heap_from_ok 0 sz v -> forall j, j < sz -> lea v 0 j.
  Proof.
    intros Hs H. induction j as [j IH] using lt_wf_ind. intros Hj.
    destruct (Nat.eq_dec j 0) as [->|N].
    - intros a b Ha Hb. rewrite Ha in Hb. injection Hb as <-. apply cmp_irrefl.
    - apply (lea_trans v 0 ((j - 1) / 2) j); [lia|apply IH; lia|].
      apply H; [lia|unfold child; lia|exact Hj].
  Qed.

  Lemma heap_min v x : is_heap v -> nth_error v 0 = Some x -> is_min cmp x v.
  Proof.
    intros H E y Hy. apply In_nth_error in Hy as [j Ej].
    apply (root_min (length v) v (le_n _) H j); [|exact E|exact Ej].
    apply nth_error_Some. congruence.
  Qed.

  Lemma insert_spec v x : is_heap v -> exists v', heap_insert cmp v x = Some v' /\ is_heap v' /\ Permutation (x :: v) v'.
  Proof.
    intros H. unfold heap_insert. rewrite app_length, Nat.add_comm. cbn [length Nat.add].
    replace (S (length v) - 1) with (length v) by lia.
    assert (L : length (v ++ [x]) = S (length v)) by (rewrite app_length; cbn; lia).
    destruct (up_spec (S (length v)) (v ++ [x]) (length v)) as (v' & E & Hv & P).
    - lia.
    - lia.
    - intros i c Nc Hc Hcs a b Ha Hb. rewrite nth_error_app1 in Hb by lia.
      rewrite nth_error_app1 in Ha by (unfold child in Hc; lia). apply (H i c); [lia|exact Hc|lia|exact Ha|exact Hb].
    - intros p c Hp Hc Hcs. unfold child in Hc. lia.
    - exists v'. split; [exact E|]. pose proof (Permutation_length P). split; [unfold is_heap; now rewrite <- H0|].
      rewrite <- P. apply Permutation_cons_append.
  Qed.

  Lemma removelast_firstn (v : list T) : removelast v = firstn (length v - 1) v.
  Proof.
    destruct v as [|x v]; [reflexivity|]. rewrite removelast_firstn_len. cbn. now rewrite Nat.sub_0_r.
  Qed.
  Lemma nth_error_firstn (v : list T) m i : i < m -> nth_error (firstn m v) i = nth_error v i.
  Proof.
    revert m i; induction v as [|x v IH]; intros m i H; [now rewrite firstn_nil|].
    destruct m; [lia|]. destruct i; [reflexivity|]. cbn. apply IH. lia.
  Qed.
  Lemma nth_error_firstn_some (v : list T) m i a : nth_error (firstn m v) i = Some a -> i < m /\ nth_error v i = Some a.
  Proof.
    intros E. assert (Hi : i < length (firstn m v)) by (apply nth_error_Some; congruence).
    rewrite firstn_length in Hi. split; [lia|]. rewrite nth_error_firstn in E by lia. exact E.
  Qed.

  Lemma pop_spec v : is_heap v -> 0 < length v -> exists x v',
    heap_front v = Some x /\ heap_pop cmp v = Some v' /\ is_heap v' /\ Permutation v (x :: v') /\ is_min cmp x v.
  Proof.
    intros H H0. destruct (nth_error_some v 0 H0) as [x Ex].
    unfold heap_pop. destruct (vswap_spec v 0 (length v - 1) ltac:(lia) ltac:(lia)) as (v1 & Es & Ls & Gs).
    rewrite Es. cbn [obind]. rewrite removelast_firstn, Ls.
    set (u := firstn (length v - 1) v1).
    assert (Lu : length u = length v - 1) by (unfold u; rewrite firstn_length; lia). rewrite Lu.
    assert (Gu : forall k a, nth_error u k = Some a -> k < length v - 1 /\ nth_error v (if k =? 0 then length v - 1 else k) = Some a).
    { intros k a E. apply nth_error_firstn_some in E as [Hk E]. split; [exact Hk|]. rewrite Gs in E.
      destruct (Nat.eqb_spec k 0) as [->|N]; [exact E|]. destruct (Nat.eqb_spec k (length v - 1)); [lia|exact E]. }
    destruct (down_spec (S (length v - 1)) u 0 0 (length v - 1)) as (v' & Ev & Lv & Hv & Pv & Sv).
    - lia.
    - lia.
    - lia.
    - lia.
    - lia.
    - intros i c _ Ni Hc Hcs a b Ha Hb. apply Gu in Ha as [_ Ha]. apply Gu in Hb as [_ Hb].
      destruct (Nat.eqb_spec i 0); [lia|]. destruct (Nat.eqb_spec c 0); [unfold child in Hc; lia|].
      apply (H i c); [lia|exact Hc|lia|exact Ha|exact Hb].
    - intros p c _ Hp. unfold child in Hp. lia.
    - exists x, v'. split; [exact Ex|]. split; [exact Ev|]. split; [unfold is_heap; now rewrite Lv, Lu|].
      split; [|now apply heap_min].
      assert (P1 : Permutation u v').
      { rewrite <- (firstn_all2 u (n := length v - 1)) by lia. rewrite <- (firstn_all2 v' (n := length v - 1)) by lia. exact Pv. }
      rewrite <- P1. transitivity v1; [now apply vswap_perm in Es|].
      rewrite <- (firstn_skipn (length v - 1) v1). fold u.
      assert (E1 : skipn (length v - 1) v1 = [x]).
      { assert (Lk : length (skipn (length v - 1) v1) = 1) by (rewrite skipn_length; lia).
        assert (Q : nth_error v1 (length v - 1) = Some x).
        { rewrite Gs. destruct (Nat.eqb_spec (length v - 1) 0) as [E|E]; [rewrite E; exact Ex|]. now rewrite Nat.eqb_refl. }
        assert (Q2 : nth_error (skipn (length v - 1) v1) 0 = Some x).
        { rewrite <- Q. clear. generalize (length v - 1) as a. intros a. revert v1; induction a as [|a IH]; intros [|y v1]; try reflexivity. cbn. apply IH. }
        destruct (skipn (length v - 1) v1) as [|y [|? ?]]; cbn in *; try lia. congruence. }
      rewrite E1. apply Permutation_sym, Permutation_cons_append.
  Qed.

  Lemma rebuild_spec v : exists v', heap_rebuild cmp v = Some v' /\ is_heap v' /\ Permutation v v'.
  Proof.
    unfold heap_rebuild.
    destruct (for_down_spec (fun q w => length w = length v /\ Permutation v w /\ heap_from_ok q (length v) w)
                (fun i v => heap_down cmp (S (length v)) v i (length v)) 0 (length v / 2) v) as (w & E & Lw & Pw & Hw).
    - lia.
    - split; [reflexivity|]. split; [reflexivity|]. intros i c Hi Hc Hcs. unfold child in Hc. lia.
    - intros q w Hq (Lw & Pw & Hw).
      destruct (down_spec (S (length w)) w q q (length w)) as (w' & E & L' & H' & P' & _).
      + lia.
      + lia.
      + lia.
      + lia.
      + lia.
      + intros i c Hi Ni Hc Hcs. apply Hw; [lia|exact Hc|lia].
      + intros p c Hp Hpq. unfold child in Hpq. lia.
      + exists w'. split; [exact E|]. split; [lia|]. split.
        * rewrite Pw. rewrite !firstn_all2 in P' by lia. exact P'.
        * now rewrite <- Lw.
    - exists w. split; [exact E|]. split; [unfold is_heap; now rewrite Lw|exact Pw].
  Qed.

  Lemma sort_spec v : is_heap v -> exists v', heap_sort cmp v = Some v' /\ Permutation v v' /\ ascending cmp v'.
  Proof.
    intros H. unfold heap_sort.
    destruct (for_down_spec (fun q w => length w = length v /\ Permutation v w /\ heap_from_ok 0 q w /\
                 (forall i j, i < j -> q <= j -> lea w j i))
        (fun i v => let* v := vswap v 0 i in heap_down cmp (S i) v 0 i) 0 (length v) v) as (w & E & Lw & Pw & Hw & Sw).
    - lia.
    - split; [reflexivity|]. split; [reflexivity|]. split; [exact H|].
      intros i j Hij Hj a b Ha Hb. exfalso. apply Nat.lt_irrefl with j. apply Nat.lt_le_trans with (length v); [|exact Hj].
      apply nth_error_Some. congruence.
    - intros q w Hq (Lw & Pw & Hw & Sw).
      destruct (vswap_spec w 0 q ltac:(lia) ltac:(lia)) as (w1 & E1 & L1 & G1). rewrite E1. cbn [obind].
      destruct (down_spec (S q) w1 0 0 q) as (w2 & E2 & L2 & H2 & P2 & S2).
      + lia.
      + lia.
      + lia.
      + lia.
      + lia.
      + intros i c _ Ni Hc Hcs a b Ha Hb. rewrite G1 in Ha, Hb.
        destruct (Nat.eqb_spec i 0); [lia|]. destruct (Nat.eqb_spec i q); [unfold child in Hc; lia|].
        destruct (Nat.eqb_spec c 0); [unfold child in Hc; lia|]. destruct (Nat.eqb_spec c q); [lia|].
        apply (Hw i c); [lia|exact Hc|lia|exact Ha|exact Hb].
      + intros p c _ Hp. unfold child in Hp. lia.
      + exists w2. split; [exact E2|]. split; [lia|].
        pose proof (vswap_perm _ _ _ _ E1) as PA.
        assert (PB : Permutation w1 w2).
        { rewrite <- (firstn_skipn q w1), <- (firstn_skipn q w2), S2. now apply Permutation_app_tail. }
        split; [rewrite Pw, PA; exact PB|]. split; [exact H2|].
        (* sortedness of the tail *)
        assert (Tail : forall j, q <= j -> nth_error w2 j = nth_error w1 j).
        { intros j Hj. rewrite <- (firstn_skipn q w1), <- (firstn_skipn q w2), S2.
          assert (length (firstn q w1) = q /\ length (firstn q w2) = q) as [A1 A2] by (rewrite !firstn_length; lia).
          rewrite !nth_error_app2 by lia. now rewrite A1, A2. }
        assert (Src : forall i a, nth_error w2 i = Some a -> i < q -> exists i', i' <= q /\ nth_error w i' = Some a).
        { intros i a Ha Hi. assert (In a (firstn q w2)).
          { apply nth_error_In with i. now rewrite nth_error_firstn. }
          rewrite <- P2 in H0. apply In_nth_error in H0 as [i1 Hi1]. apply nth_error_firstn_some in Hi1 as [Hl Hi1].
          rewrite G1 in Hi1. destruct (Nat.eqb_spec i1 0) as [->|]; [exists q; split; [lia|exact Hi1]|].
          destruct (Nat.eqb_spec i1 q); [lia|]. exists i1. split; [lia|exact Hi1]. }
        intros i j Hij Hj a b Ha Hb. rewrite (Tail j Hj) in Ha. rewrite G1 in Ha.
        destruct (Nat.eqb_spec j 0); [lia|].
        destruct (Nat.eqb_spec j q) as [->|Njq].
        * (* j = q: the old root *)
          destruct (Src i b Hb Hij) as (i' & Hi' & Eb).
          apply (root_min (S q) w ltac:(lia) Hw i' ltac:(lia)); assumption.
        * destruct (Nat.lt_ge_cases i q) as [Q|Q].
          -- destruct (Src i b Hb Q) as (i' & Hi' & Eb). apply (Sw i' j); [lia|lia|exact Ha|exact Eb].
          -- rewrite (Tail i Q) in Hb. rewrite G1 in Hb. destruct (Nat.eqb_spec i 0) as [->|Ni0].
             ++ apply (Sw q j); [lia|lia|exact Ha|exact Hb].
             ++ destruct (Nat.eqb_spec i q) as [->|Niq].
                ** apply (Sw 0 j); [lia|lia|exact Ha|exact Hb].
                ** apply (Sw i j); [lia|lia|exact Ha|exact Hb].
    - rewrite E. cbn [obind]. exists (rev w). split; [reflexivity|].
      split; [rewrite Pw; apply Permutation_rev|].
      intros i j a b Hij Ha Hb.
      assert (Rv : forall k c, nth_error (rev w) k = Some c -> k < length w /\ nth_error w (length w - 1 - k) = Some c).
      { intros k c Hk. assert (Hl : k < length (rev w)) by (apply nth_error_Some; congruence). rewrite rev_length in Hl.
        split; [exact Hl|]. pose proof (nth_error_nth (rev w) k c Hk) as Q. rewrite rev_nth in Q by exact Hl.
        destruct (nth_error_some w (length w - 1 - k) ltac:(lia)) as [z Ez]. rewrite Ez.
        pose proof (nth_error_nth w _ c Ez) as Q3. replace (length w - S k) with (length w - 1 - k) in Q by lia. congruence. }
      apply Rv in Ha as [Hi Ha]. apply Rv in Hb as [Hj Hb].
      apply (Sw (length w - 1 - j) (length w - 1 - i)); [lia|lia|exact Ha|exact Hb].
  Qed.

  Lemma pq_perm m m1 os outs m' : pq cmp m os outs m' -> Permutation m m1 -> pq cmp m1 os outs m'.
  Proof.
    intros H; revert m1; induction H; intros mm P; econstructor; eauto.
    - now rewrite <- P.
    - now rewrite <- P.
    - intros y Hy. apply H0. now rewrite P.
  Qed.

  Lemma run_spec os : forall v, is_heap v -> pops_ok (length v) os ->
    exists outs v', heap_run cmp v os = Some (outs, v') /\ pq cmp v os outs v' /\ is_heap v'.
  Proof.
    induction os as [|o os IH]; intros v H Hp; cbn [heap_run].
    - exists [], v. split; [reflexivity|]. split; [now constructor|exact H].
    - destruct o as [x| |]; cbn [pops_ok] in Hp.
      + destruct (insert_spec v x H) as (v1 & E1 & H1 & P1). rewrite E1. cbn [obind].
        destruct (IH v1 H1) as (outs & v' & E & Q & H').
        { rewrite <- (Permutation_length P1). exact Hp. }
        exists outs, v'. split; [exact E|]. split; [|exact H']. constructor. apply (pq_perm v1); [exact Q|now symmetry].
      + destruct Hp as [Hn Hp]. destruct (pop_spec v H Hn) as (x & v1 & Ex & E1 & H1 & P1 & Mx).
        rewrite Ex, E1. cbn [obind].
        destruct (IH v1 H1) as (outs & v' & E & Q & H').
        { apply Permutation_length in P1. cbn in P1. now replace (length v1) with (length v - 1) by lia. }
        rewrite E. cbn [obind]. exists (x :: outs), v'. split; [reflexivity|]. split; [|exact H'].
        econstructor; eassumption.
      + destruct (rebuild_spec v) as (v1 & E1 & H1 & P1). rewrite E1. cbn [obind].
        destruct (IH v1 H1) as (outs & v' & E & Q & H').
        { now rewrite <- (Permutation_length P1). }
        exists outs, v'. split; [exact E|]. split; [|exact H']. constructor. apply (pq_perm v1); [exact Q|now symmetry].
  Qed.
End Proofs.
