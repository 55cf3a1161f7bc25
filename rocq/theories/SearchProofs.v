From Coq Require Import Sorting.Sorted.
From Verif Require Import Lib SearchModel SearchSpec.
Local Open Scope nat_scope.

Local Ltac leaf := eexists; split; [reflexivity|]; cbn beta iota zeta.

(* ------------------------------------------------------------------ *)
Section Kmp.
  Context {A : Type} (eqb : A -> A -> bool).
  Hypothesis eqb_ok : forall x y, eqb x y = true <-> x = y.
  Variable p : list A.
  Let m := length p.

  (** the first k elements of p end the first n elements of x *)
  Definition sm (x : list A) (n k : nat) : Prop := k <= n /\ forall d, d < k -> nth_error p d = nth_error x (n - k + d).

  (** j is the largest k < B with sm x n k, or -1 *)
  Definition largest (x : list A) (n B : nat) (j : Z) : Prop :=
    (j = -1 \/ 0 <= j /\ (j < Z.of_nat B) /\ sm x n (Z.to_nat j))%Z /\
    forall k, k < B -> sm x n k -> (Z.of_nat k <= j)%Z.

  Lemma sm_S x n k : sm x (S n) (S k) <-> sm x n k /\ nth_error p k = nth_error x n.
  Proof.
    split.
    - intros [L H]. split; [split; [lia|]|].
      + intros d Hd. rewrite (H d) by lia. f_equal; lia.
      + rewrite (H k) by lia. f_equal; lia.
    - intros [[L H] E]. split; [lia|]. intros d Hd. destruct (Nat.eq_dec d k) as [->|N].
      + rewrite E. f_equal; lia.
      + rewrite (H d) by lia. f_equal; lia.
  Qed.

  Lemma sm_trans x n j k : sm x n j -> k <= j -> sm x n k <-> sm p j k.
  Proof.
    intros [Lj Hj] L. split; intros [Lk Hk]; (split; [lia|]); intros d Hd.
    - rewrite (Hk d), (Hj (j - k + d)) by lia. f_equal; lia.
    - rewrite (Hk d), (Hj (j - k + d)) by lia. f_equal; lia.
  Qed.

  (** the failure table is right for all entries below B *)
  Definition table_ok (b : list Z) (B : nat) : Prop :=
    forall j, j < B -> exists v, nth_error b j = Some v /\ largest p j j v.

  Lemma kmp_back_spec x n c b B j :
    nth_error x n = Some c -> B <= m -> table_ok b B -> largest x n B j ->
    exists j', kmp_back eqb c p b j = Some j' /\ largest x (S n) (S B) (j' + 1)%Z.
  Proof.
    intros Ec HB Tb Lj. unfold kmp_back.
    apply (loopZ_spec (kmp_back_step eqb c p b)
      (fun j => (j = -1 \/ 0 <= j /\ (j < Z.of_nat B) /\ sm x n (Z.to_nat j))%Z /\
         (forall k, k < B -> sm x n k -> nth_error p k = Some c -> (Z.of_nat k <= j)%Z))
      (fun j' => largest x (S n) (S B) (j' + 1)%Z) (fun j => (j + 1)%Z)).
    - intros j0 [H1 H2]. unfold kmp_back_step. destruct (Z.eqb_spec j0 (-1)) as [->|N].
      + leaf. split; [right; split; [lia|]; split; [lia|]; split; [cbn; lia|cbn; intros; lia]|]. intros k Hk Sk. destruct k as [|k]; [lia|].
        apply sm_S in Sk. destruct Sk as [Sk E]. specialize (H2 k ltac:(lia) Sk ltac:(congruence)). lia.
      + destruct H1 as [->|(P & L & S0)]; [lia|].
        destruct (nth_error_some p (Z.to_nat j0)) as (pj & Ep); [fold m; lia|]. rewrite Ep. cbn [obind].
        destruct (eqb c pj) eqn:Eq.
        * apply eqb_ok in Eq. subst pj. leaf. split.
          -- right. split; [lia|]. split; [lia|]. replace (Z.to_nat (j0 + 1)) with (S (Z.to_nat j0)) by lia.
             apply sm_S. split; [exact S0|congruence].
          -- intros k Hk Sk. destruct k as [|k]; [lia|]. apply sm_S in Sk. destruct Sk as [Sk E].
             specialize (H2 k ltac:(lia) Sk ltac:(congruence)). lia.
        * destruct (Tb (Z.to_nat j0)) as (v & Ev & V1 & V2); [lia|]. rewrite Ev. cbn [obind].
          leaf. split; [split|].
          -- destruct V1 as [->|(Pv & Lv & Sv)]; [now left|right]. split; [exact Pv|]. split; [lia|].
             apply (sm_trans x n (Z.to_nat j0) (Z.to_nat v)); auto. lia.
          -- intros k Hk Sk E. specialize (H2 k Hk Sk E).
             assert (k <> Z.to_nat j0) by (intros ->; rewrite Ep in E; injection E as ->; rewrite (proj2 (eqb_ok c c) eq_refl) in Eq; discriminate).
             apply V2; [lia|]. apply (sm_trans x n (Z.to_nat j0) k S0); [lia|exact Sk].
          -- destruct V1 as [->|(Pv & Lv & Sv)]; lia.
    - intros j0 [[->|H] _]; lia.
    - destruct Lj as [L1 L2]. split; [exact L1|]. intros k Hk Sk _. now apply L2.
    - destruct Lj as [[->|H] _]; [lia|]. fold m. lia.
  Qed.

  Lemma kmp_table_spec : 0 < m -> exists b, kmp_table eqb p = Some b /\ table_ok b (S m).
  Proof.
    intros Pm. unfold kmp_table. cbv zeta. fold m.
    destruct (for_range_spec
      (fun i (s : Z * list Z) => length (snd s) = m + 1 /\ largest p i i (fst s) /\ table_ok (snd s) (S i))
      (fun i '(j, b) =>
        let* c := nth_error p i in
        let* j := kmp_back eqb c p b j in
        let* b := set_nth b (i + 1) (j + 1)%Z in
        Some ((j + 1)%Z, b)) 0 m ((-1)%Z, repeat (-1)%Z (m + 1))) as ([j b] & E & L & Lg & T).
    - lia.
    - cbn [fst snd]. rewrite repeat_length. split; [reflexivity|].
      assert (L0 : largest p 0 0 (-1)) by (split; [now left|intros; lia]). split; [exact L0|].
      intros j Hj. assert (j = 0) by lia. subst j. exists (-1)%Z. split; [|exact L0].
      rewrite Nat.add_1_r. reflexivity.
    - intros i [j b] (_ & Hi) (L & Lg & T). cbn [fst snd] in *.
      destruct (nth_error_some p i) as (c & Ec); [exact Hi|]. rewrite Ec. cbn [obind].
      assert (T' : table_ok b i) by (intros k Hk; apply T; lia).
      destruct (kmp_back_spec p i c b i j Ec ltac:(lia) T' Lg) as (j' & -> & Lg'). cbn [obind].
      destruct (set_nth_some b (i + 1) (j' + 1)%Z) as (b' & Eb); [lia|]. rewrite Eb. cbn [obind].
      eexists. split; [reflexivity|]. cbn [fst snd]. split; [now rewrite (set_nth_length _ _ _ _ Eb)|]. split; [exact Lg'|].
      intros k Hk. rewrite (set_nth_get _ _ _ _ k Eb). destruct (Nat.eqb_spec (i + 1) k) as [<-|N].
      + eexists. split; [reflexivity|]. rewrite Nat.add_1_r. exact Lg'.
      + apply T. lia.
    - rewrite E. cbn [obind]. exists b. split; [reflexivity|]. exact T.
  Qed.

  (** occurrence ending at n *)
  Lemma sm_occurs t n : n <= length t -> sm t n m <-> m <= n /\ occurs_at t p (n - m).
  Proof.
    intros Ln. split.
    - intros [L H]. split; [exact L|]. exists (firstn (n - m) t), (skipn n t).
      split; [|rewrite firstn_length; lia].
      rewrite <- (firstn_skipn (n - m) t) at 1. f_equal.
      apply list_ext. intros d. destruct (Nat.lt_ge_cases d m) as [Hd|Hd].
      + rewrite nth_error_app1 by exact Hd. rewrite H by exact Hd.
        rewrite <- (firstn_skipn (n - m) t) at 2. rewrite nth_error_app2 by (rewrite firstn_length; lia).
        f_equal. rewrite firstn_length. lia.
      + rewrite nth_error_app2 by exact Hd. fold m.
        assert (Hsk : forall (l : list A) a i, nth_error (skipn a l) i = nth_error l (a + i)).
        { clear. induction l as [|x l IH]; intros [|a] i; cbn [skipn Nat.add nth_error]; auto. now destruct i. }
        rewrite !Hsk. f_equal; lia.
    - intros [L (pre & post & -> & Lp)]. split; [exact L|]. intros d Hd.
      rewrite nth_error_app2 by lia. rewrite nth_error_app1 by (fold m; lia). f_equal; lia.
  Qed.

  Lemma kmp_scan_spec t b cb : 0 < m -> table_ok b (S m) -> forall n i j seen occs,
    i + n = length t -> largest t i m j ->
    StronglySorted lt occs -> (forall r, In r occs <-> occurs_at t p r /\ i < r + m) ->
    kmp_scan eqb n t p b cb i j seen = Some (offered cb seen occs).
  Proof.
    intros Pm Tb. induction n as [|n IH]; intros i j seen occs Li Lj So Ho.
    - cbn [kmp_scan]. destruct occs as [|o occs]; [reflexivity|]. exfalso.
      destruct (proj1 (Ho o) (or_introl eq_refl)) as [(pre & post & -> & Lp) Lo].
      rewrite !app_length in Li. fold m in Li. lia.
    - cbn [kmp_scan]. destruct (nth_error_some t i) as (c & Ec); [lia|]. rewrite Ec. cbn [obind].
      assert (T' : table_ok b m) by (intros k Hk; apply Tb; lia).
      destruct (kmp_back_spec t i c b m j Ec (Nat.le_refl _) T' Lj) as (j' & -> & L1 & L2). cbn [obind].
      destruct (Z.eqb_spec (j' + 1)%Z (Z.of_nat (length p))) as [E|N].
      + fold m in E. assert (Sm : sm t (S i) m).
        { destruct L1 as [L1|(_ & _ & L1)]; [lia|]. now replace (Z.to_nat (j' + 1)%Z) with m in L1 by lia. }
        apply sm_occurs in Sm; [|lia]. destruct Sm as [Lm Om].
        replace (S i - Z.to_nat (j' + 1)%Z) with (S i - m) by lia. set (r0 := S i - m) in *.
        assert (I0 : In r0 occs) by (apply Ho; split; [exact Om|unfold r0; lia]).
        destruct occs as [|o occs]; [contradiction|].
        assert (o = r0).
        { destruct I0 as [E0|I0]; [exact E0|]. inversion So as [|? ? So' F]; subst.
          rewrite Forall_forall in F. specialize (F r0 I0). destruct (proj1 (Ho o) (or_introl eq_refl)). unfold r0 in F. lia. }
        subst o. cbn [offered]. destruct (cb seen r0); cbn [negb]; [|reflexivity].
        replace (Z.to_nat (j' + 1)%Z) with m by lia.
        destruct (Tb m) as (v & Ev & V1 & V2); [lia|]. rewrite Ev. cbn [obind].
        assert (Smm : sm t (S i) m) by (apply sm_occurs; [lia|]; split; [lia|exact Om]).
        apply IH; [lia| | |].
        * split.
          -- destruct V1 as [->|(Pv & Lv & Sv)]; [now left|right]. split; [exact Pv|]. split; [exact Lv|].
             apply (sm_trans t (S i) m (Z.to_nat v)); auto; lia.
          -- intros k Hk Sk. apply V2; [exact Hk|]. apply (sm_trans t (S i) m k Smm); [lia|exact Sk].
        * now inversion So.
        * intros r. inversion So as [|? ? So' F]; subst. rewrite Forall_forall in F. split.
          -- intros Ir. split; [apply Ho; now right|]. specialize (F r Ir). unfold r0 in F. lia.
          -- intros [Or Lr]. destruct (proj2 (Ho r)) as [<-|Ir]; [split; [exact Or|lia]| |exact Ir]. unfold r0 in Lr. lia.
      + fold m in N. apply IH; auto; [lia| |].
        * split.
          -- destruct L1 as [L1|(P1 & P2 & P3)]; [now left|right]. split; [exact P1|]. split; [lia|exact P3].
          -- intros k Hk Sk. apply L2; [lia|exact Sk].
        * intros r. rewrite Ho. split; intros [Or Lr]; (split; [exact Or|]); [|lia].
          destruct (Nat.eq_dec (r + m) (S i)) as [E|E]; [|lia]. exfalso.
          assert (Sm : sm t (S i) m) by (apply sm_occurs; [lia|]; split; [lia|]; now replace (S i - m) with r by lia).
          specialize (L2 m ltac:(lia) Sm). destruct L1 as [L1|(_ & L1 & _)]; lia.
  Qed.

  (** occurrences are decidable, so the list of them exists *)
  Fixpoint prefixb (q t : list A) : bool :=
    match q, t with [], _ => true | x :: q, y :: t => eqb x y && prefixb q t | _, [] => false end.
  Lemma prefixb_ok q : forall t, prefixb q t = true <-> exists post, t = q ++ post.
  Proof.
    induction q as [|x q IH]; intros [|y t]; cbn [prefixb app]; split; try (eauto; fail); try discriminate.
    - intros (post & E). discriminate.
    - intros E. apply andb_true_iff in E. destruct E as [E1 E2]. apply eqb_ok in E1. apply IH in E2.
      destruct E2 as (post & ->). subst. eauto.
    - intros (post & E). injection E as -> ->. apply andb_true_iff. split; [now apply eqb_ok|]. apply IH. eauto.
  Qed.
  Lemma occurs_dec t i : i <= length t -> prefixb p (skipn i t) = true <-> occurs_at t p i.
  Proof.
    intros Li. rewrite prefixb_ok. split.
    - intros (post & E). exists (firstn i t), post. split; [|rewrite firstn_length; lia]. now rewrite <- E, firstn_skipn.
    - intros (pre & post & -> & <-). exists post. rewrite skipn_app, Nat.sub_diag, skipn_all. reflexivity.
  Qed.
  Lemma seq_sorted : forall n a, StronglySorted lt (seq a n).
  Proof.
    induction n as [|n IH]; intros a; cbn [seq]; constructor; [apply IH|].
    apply Forall_forall. intros x I. apply in_seq in I. lia.
  Qed.
  Lemma filter_sorted (f : nat -> bool) l : StronglySorted lt l -> StronglySorted lt (filter f l).
  Proof.
    induction 1 as [|x l S IH F]; cbn [filter]; [constructor|]. destruct (f x); [|exact IH]. constructor; [exact IH|].
    apply Forall_forall. intros y I. apply filter_In in I. rewrite Forall_forall in F. now apply F.
  Qed.
  Lemma occurrences t : exists occs, StronglySorted lt occs /\ forall r, In r occs <-> occurs_at t p r.
  Proof.
    exists (filter (fun i => prefixb p (skipn i t)) (seq 0 (S (length t)))). split.
    - apply filter_sorted, seq_sorted.
    - intros r. rewrite filter_In, in_seq. split.
      + intros [L E]. apply occurs_dec in E; [exact E|lia].
      + intros O. pose proof O as (pre & post & E & L). assert (r <= length t) by (rewrite E, !app_length; lia).
        split; [lia|]. now apply occurs_dec.
  Qed.

  Lemma kmp_search_spec t cb occs : 0 < m -> StronglySorted lt occs -> (forall r, In r occs <-> occurs_at t p r) ->
    kmp_search eqb t p cb = Some (last (offered cb [] occs) (length t), offered cb [] occs).
  Proof.
    intros Pm So Ho. unfold kmp_search. fold m. destruct (Nat.eqb_spec m 0); [lia|].
    destruct (Nat.ltb_spec (length t) m) as [L|L].
    - destruct occs as [|o occs]; [reflexivity|]. exfalso.
      destruct (proj1 (Ho o) (or_introl eq_refl)) as (pre & post & -> & Lp). rewrite !app_length in L. fold m in L. lia.
    - destruct kmp_table_spec as (b & -> & Tb); [exact Pm|]. cbn [obind].
      rewrite (kmp_scan_spec t b cb Pm Tb (length t) 0 0%Z [] occs); auto.
      + split; [|intros k Hk [Lk _]; lia]. right. split; [lia|]. split; [lia|]. split; [cbn; lia|]. cbn. intros; lia.
      + intros r. rewrite Ho. split; [|tauto]. intros O. split; [exact O|lia].
  Qed.
End Kmp.

(* ------------------------------------------------------------------ *)
Section Search.
  Local Open Scope Z_scope.
  Variable pred : Z -> option bool.

  Lemma bsp_spec lo hi : lo <= hi ->
    (forall i, lo <= i < hi -> exists b, pred i = Some b) ->
    (forall i j, lo <= i <= j -> j < hi -> pred i = Some true -> pred j = Some true) ->
    exists r, binary_search_pred pred lo hi = Some r /\ lo <= r <= hi /\
      (forall i, lo <= i < r -> pred i = Some false) /\ (r < hi -> pred r = Some true).
  Proof.
    intros L D M. unfold binary_search_pred.
    apply (loopZ_spec (bsp_step pred)
      (fun '(l, h) => lo <= l <= h /\ h <= hi /\ (forall i, lo <= i < l -> pred i = Some false) /\ (h < hi -> pred h = Some true))
      (fun r => lo <= r <= hi /\ (forall i, lo <= i < r -> pred i = Some false) /\ (r < hi -> pred r = Some true))
      (fun '(l, h) => h - l)).
    - intros [l h] (B1 & B2 & F & T). cbn [bsp_step]. destruct (Z.ltb_spec l h).
      + rewrite Z.quot_div_nonneg by lia. set (mid := l + (h - l) / 2).
        assert (Hm : l <= mid < h).
        { unfold mid. pose proof (Z.div_lt (h - l) 2). pose proof (Z.div_pos (h - l) 2). lia. }
        destruct (D mid) as (b & Eb); [lia|]. rewrite Eb. cbn [obind]. destruct b.
        * leaf. split; [|lia]. split; [lia|]. split; [lia|]. split; [exact F|]. auto.
        * leaf. split; [|lia]. split; [lia|]. split; [lia|]. split; [|exact T].
          intros i Hi. destruct (D i) as ([|] & Ei); [lia| |exact Ei].
          rewrite (M i mid) in Eb; [discriminate|lia|lia|exact Ei].
      + assert (l = h) by lia. subst. leaf. split; [lia|]. auto.
    - intros [l h]; lia.
    - split; [lia|]. split; [lia|]. split; intros; lia.
    - lia.
  Qed.

  Lemma bsn_spec lo hi : lo <= hi ->
    (forall i, lo <= i < hi -> exists b, pred i = Some b) ->
    (forall i j, lo <= i <= j -> j < hi -> pred i = Some true -> pred j = Some true) ->
    exists r, binary_search_num pred lo hi 1 = Some r /\ lo <= r <= hi /\
      (forall i, lo <= i < r -> pred i = Some false) /\ (r < hi -> pred r = Some true).
  Proof.
    intros L D M. unfold binary_search_num.
    apply (loopZ_spec (bsn_step pred 1)
      (fun '(l, h, pm) => lo <= l <= h /\ h <= hi /\ (pm = h \/ pm < l) /\ (forall i, lo <= i < l -> pred i = Some false) /\ (h < hi -> pred h = Some true))
      (fun r => lo <= r <= hi /\ (forall i, lo <= i < r -> pred i = Some false) /\ (r < hi -> pred r = Some true))
      (fun '(l, h, pm) => h - l)).
    - intros [[l h] pm] (B1 & B2 & P & F & T). cbn [bsn_step]. destruct (Z.leb_spec 1 (h - l)).
      + rewrite Z.quot_div_nonneg by lia. set (mid := l + (h - l) / 2).
        assert (Hm : l <= mid < h).
        { unfold mid. pose proof (Z.div_lt (h - l) 2). pose proof (Z.div_pos (h - l) 2). lia. }
        destruct (Z.eqb_spec mid pm); [lia|].
        destruct (D mid) as (b & Eb); [lia|]. rewrite Eb. cbn [obind]. destruct b.
        * leaf. split; [|lia]. split; [lia|]. split; [lia|]. split; [lia|]. split; [exact F|]. auto.
        * leaf. split; [|lia]. split; [lia|]. split; [lia|]. split; [lia|]. split; [|exact T].
          intros i Hi. destruct (D i) as ([|] & Ei); [lia| |exact Ei].
          rewrite (M i mid) in Eb; [discriminate|lia|lia|exact Ei].
      + assert (l = h) by lia. subst. leaf. split; [lia|]. auto.
    - intros [[l h] pm]; lia.
    - split; [lia|]. split; [lia|]. split; [lia|]. split; intros; lia.
    - lia.
  Qed.
End Search.

(* ------------------------------------------------------------------ *)
Section Coll.
  Context {A : Type}.
  Lemma take_spec (c : list A) n : take c n = firstn n c.
  Proof.
    unfold take. assert (H : forall (c r : list A) n, take_loop r c n = r ++ firstn n c).
    { clear. induction c as [|x c IH]; intros r n; [destruct n; cbn; now rewrite app_nil_r|].
      destruct n as [|n]; cbn [take_loop firstn]; [now rewrite app_nil_r|]. now rewrite IH, <- app_assoc. }
    now rewrite H.
  Qed.
  Lemma filter_spec (c : list A) f : filter_ c f = filter f c.
  Proof.
    unfold filter_. assert (H : forall (c r : list A), filter_loop f r c = r ++ filter f c).
    { clear. induction c as [|x c IH]; intros r; cbn [filter_loop filter]; [now rewrite app_nil_r|].
      rewrite IH. destruct (f x); [now rewrite <- app_assoc|reflexivity]. }
    now rewrite H.
  Qed.
  Lemma transform_spec {B} (c : list A) (f : A -> B) : transform c f = map f c.
  Proof.
    unfold transform. assert (H : forall (c : list A) r, transform_loop f r c = r ++ map f c).
    { clear. induction c as [|x c IH]; intros r; cbn [transform_loop map]; [now rewrite app_nil_r|].
      now rewrite IH, <- app_assoc. }
    now rewrite H.
  Qed.
  Lemma reduce_spec {T} (c : list A) (f : T -> A -> T) r : reduce c f r = fold_left f c r.
  Proof. revert r. induction c as [|x c IH]; intros r; cbn [reduce fold_left]; auto. Qed.

  Variable eqb : A -> A -> bool.
  Hypothesis eqb_ok : forall x y, eqb x y = true <-> x = y.

  Lemma contains_spec c v : contains eqb c v = true <-> In v c.
  Proof.
    induction c as [|x c IH]; cbn [contains In]; [split; [discriminate|tauto]|].
    destruct (eqb x v) eqn:E; [apply eqb_ok in E; tauto|]. rewrite IH. split; [tauto|]. intros [->|I]; [|exact I].
    assert (eqb v v = true) by now apply eqb_ok. congruence.
  Qed.

  Lemma decode_app (r r' : list (A * Z)) : decode (r ++ r') = decode r ++ decode r'.
  Proof. induction r as [|[x k] r IH]; cbn [app decode]; [reflexivity|]. now rewrite IH, app_assoc. Qed.
  Lemma maximal_snoc (r : list (A * Z)) x k y l :
    maximal_runs (r ++ [(x, k)]) -> x <> y -> maximal_runs (r ++ [(x, k)] ++ [(y, l)]).
  Proof.
    induction r as [|[a i] r IH]; intros M N; [cbn; tauto|].
    destruct r as [|[b j] r].
    - cbn in *. tauto.
    - change (maximal_runs ((a, i) :: ((b, j) :: r) ++ [(x, k)])) in M.
      change (maximal_runs ((a, i) :: ((b, j) :: r) ++ [(x, k)] ++ [(y, l)])).
      cbn [app maximal_runs] in *. destruct M as [M1 M2]. split; [exact M1|]. now apply IH.
  Qed.
  Lemma maximal_change (r : list (A * Z)) x k l : maximal_runs (r ++ [(x, k)]) -> maximal_runs (r ++ [(x, l)]).
  Proof.
    induction r as [|[a i] r IH]; intros M; [exact I|].
    destruct r as [|[b j] r]; [exact M|].
    change (maximal_runs ((a, i) :: ((b, j) :: r) ++ [(x, k)])) in M.
    change (maximal_runs ((a, i) :: ((b, j) :: r) ++ [(x, l)])).
    cbn [app maximal_runs] in *. destruct M as [M1 M2]. split; [exact M1|]. now apply IH.
  Qed.
  Lemma repeat_snoc (x : A) n : repeat x (S n) = repeat x n ++ [x].
  Proof. induction n as [|n IH]; [reflexivity|]. cbn [repeat app] in *. now rewrite <- IH. Qed.

  Lemma run_length_spec c : let r := run_length eqb c in
    decode r = c /\ maximal_runs r /\ Forall (fun e => 1 <= snd e)%Z r.
  Proof.
    unfold run_length. cbv zeta.
    assert (H : forall c r, maximal_runs r -> Forall (fun e => 1 <= snd e)%Z r ->
       let r' := run_length_loop eqb r c in
       decode r' = decode r ++ c /\ maximal_runs r' /\ Forall (fun e => 1 <= snd e)%Z r').
    { clear c. induction c as [|x c IH]; intros r M F; cbn [run_length_loop]; cbv zeta.
      - now rewrite app_nil_r.
      - assert (Hr : r = [] \/ exists r0 y k, r = r0 ++ [(y, k)]).
        { destruct r as [|e r] using rev_ind; [now left|right]. destruct e as [y k]. eauto. }
        destruct Hr as [->|(r0 & y & k & ->)].
        + cbn [rev app]. destruct (IH [(x, 1%Z)]) as (D & M' & F'); [exact I|repeat constructor; cbn; lia|].
          rewrite D. split; [reflexivity|auto].
        + rewrite rev_app_distr. cbn [rev app]. destruct (eqb y x) eqn:E.
          * apply eqb_ok in E. subst y. rewrite removelast_last.
            apply Forall_app in F. destruct F as [F1 F2]. apply Forall_cons_iff in F2. destruct F2 as [F2 _]. cbn [snd] in F2.
            destruct (IH (r0 ++ [(x, k + 1)%Z])) as (D & M' & F').
            -- now apply maximal_change with k.
            -- apply Forall_app. split; [exact F1|]. repeat constructor. cbn [snd]. lia.
            -- split; [|auto]. rewrite D. rewrite !decode_app. cbn [decode]. rewrite !app_nil_r.
               replace (Z.to_nat (k + 1)) with (S (Z.to_nat k)) by lia. rewrite repeat_snoc, <- !app_assoc. reflexivity.
          * assert (N : y <> x) by (intros ->; rewrite (proj2 (eqb_ok x x) eq_refl) in E; discriminate).
            destruct (IH ((r0 ++ [(y, k)]) ++ [(x, 1%Z)])) as (D & M' & F').
            -- rewrite <- app_assoc. now apply maximal_snoc.
            -- apply Forall_app. split; [exact F|]. repeat constructor. cbn [snd]. lia.
            -- split; [|auto]. rewrite D. rewrite !decode_app. cbn [decode]. rewrite !app_nil_r, <- !app_assoc. reflexivity. }
    destruct (H c [] I (Forall_nil _)) as (D & M & F). auto.
  Qed.

  Variable ltb : A -> A -> bool.
  Hypothesis lt_total : forall x y, x <> y -> ltb x y = true \/ ltb y x = true.
  Hypothesis lt_asym : forall x y, ltb x y = true -> ltb y x = false.
  Let lt x y := ltb x y = true.

  Lemma eqb_refl x : eqb x x = true. Proof using eqb_ok. now apply eqb_ok. Qed.

  Lemma lex_irrefl l : ~ lex lt l l.
  Proof using lt_asym.
    induction l as [|x l IH]; intros L; inversion L; subst; auto.
    unfold lt in *. rewrite (lt_asym x x) in *; congruence.
  Qed.
  Lemma lex_asym l l' : lex lt l l' -> ~ lex lt l' l.
  Proof using lt_asym.
    induction 1 as [y l|x y l l' Hxy|x l l' H IH]; intros L; inversion L; subst; auto.
    - unfold lt in *. rewrite (lt_asym x y) in *; congruence.
    - unfold lt in *. rewrite (lt_asym x x) in *; congruence.
    - unfold lt in *. rewrite (lt_asym x x) in *; congruence.
  Qed.

  Lemma compare_spec c1 c2 ml :
    let cut l := match ml with None => l | Some n => firstn n l end in
    let r := compare eqb ltb c1 c2 ml in
    (r = 0%Z <-> cut c1 = cut c2) /\ (r = (-1)%Z <-> lex lt (cut c1) (cut c2)) /\ (r = 1%Z <-> lex lt (cut c2) (cut c1)).
  Proof.
    cbv zeta.
    assert (Key : (compare eqb ltb c1 c2 ml = 0%Z /\ match ml with None => c1 | Some n => firstn n c1 end = match ml with None => c2 | Some n => firstn n c2 end)
       \/ (compare eqb ltb c1 c2 ml = (-1)%Z /\ lex lt (match ml with None => c1 | Some n => firstn n c1 end) (match ml with None => c2 | Some n => firstn n c2 end))
       \/ (compare eqb ltb c1 c2 ml = 1%Z /\ lex lt (match ml with None => c2 | Some n => firstn n c2 end) (match ml with None => c1 | Some n => firstn n c1 end))).
    { revert c2 ml. induction c1 as [|x c1 IH]; intros c2 ml.
      - destruct ml as [[|n]|]; destruct c2 as [|y c2]; cbn [compare firstn]; auto; right; left; split; auto; constructor.
      - destruct c2 as [|y c2].
        + destruct ml as [[|n]|]; cbn [compare firstn]; auto; right; right; split; auto; constructor.
        + destruct ml as [[|n]|]; cbn [compare firstn option_map]; auto.
          * destruct (eqb x y) eqn:E; cbn [negb].
            -- apply eqb_ok in E. subst y. destruct (IH c2 (Some (Nat.pred (S n)))) as [[E1 E2]|[[E1 E2]|[E1 E2]]]; cbn [Nat.pred] in *.
               ++ left. split; [exact E1|now f_equal].
               ++ right; left. split; [exact E1|now constructor].
               ++ right; right. split; [exact E1|now constructor].
            -- assert (N : x <> y) by (intros ->; rewrite eqb_refl in E; discriminate).
               destruct (ltb x y) eqn:E2; [right; left|right; right]; (split; [reflexivity|]); apply lex_head; unfold lt; auto.
               destruct (lt_total x y N) as [L|L]; congruence.
          * destruct (eqb x y) eqn:E; cbn [negb].
            -- apply eqb_ok in E. subst y. destruct (IH c2 None) as [[E1 E2]|[[E1 E2]|[E1 E2]]].
               ++ left. split; [exact E1|now f_equal].
               ++ right; left. split; [exact E1|now constructor].
               ++ right; right. split; [exact E1|now constructor].
            -- assert (N : x <> y) by (intros ->; rewrite eqb_refl in E; discriminate).
               destruct (ltb x y) eqn:E2; [right; left|right; right]; (split; [reflexivity|]); apply lex_head; unfold lt; auto.
               destruct (lt_total x y N) as [L|L]; congruence. }
    destruct Key as [[E1 E2]|[[E1 E2]|[E1 E2]]]; rewrite E1.
    - rewrite E2. pose proof (lex_irrefl (match ml with None => c2 | Some n => firstn n c2 end)). repeat split; (tauto || discriminate || auto).
    - pose proof (lex_asym _ _ E2). repeat split; try (tauto || discriminate || auto).
      intros E3. rewrite E3 in *. contradiction.
    - pose proof (lex_asym _ _ E2). repeat split; try (tauto || discriminate || auto).
      intros E3. rewrite E3 in *. contradiction.
  Qed.
End Coll.

(* ------------------------------------------------------------------ *)
Section Red.
  Local Open Scope Z_scope.
  Lemma fold_sum c : forall id, fold_left (fun r e => r + e) c id = id + fold_right Z.add 0 c.
  Proof. induction c as [|x c IH]; intros id; cbn [fold_left fold_right]; [lia|]. rewrite IH. lia. Qed.
  Lemma fold_prod c : forall id, fold_left (fun r e => r * e) c id = id * fold_right Z.mul 1 c.
  Proof. induction c as [|x c IH]; intros id; cbn [fold_left fold_right]; [lia|]. rewrite IH. ring. Qed.
  Lemma reduce_min_spec c : forall id, let r := reduce_min c id in In r (id :: c) /\ forall x, In x (id :: c) -> r <= x.
  Proof.
    unfold reduce_min. cbv zeta. induction c as [|y c IH]; intros id; cbn [reduce].
    - split; [now left|]. intros x [<-|[]]; lia.
    - specialize (IH (if y <? id then y else id)). destruct IH as [I1 I2]. split.
      + destruct I1 as [E|I1]; [|now right; right]. rewrite <- E. destruct (y <? id); cbn; auto.
      + intros x [<-|[<-|I]].
        * etransitivity; [apply I2; left; reflexivity|]. destruct (Z.ltb_spec y id); lia.
        * etransitivity; [apply I2; left; reflexivity|]. destruct (Z.ltb_spec y id); lia.
        * apply I2. now right.
  Qed.
  Lemma reduce_max_spec c : forall id, let r := reduce_max c id in In r (id :: c) /\ forall x, In x (id :: c) -> x <= r.
  Proof.
    unfold reduce_max. cbv zeta. induction c as [|y c IH]; intros id; cbn [reduce].
    - split; [now left|]. intros x [<-|[]]; lia.
    - specialize (IH (if id <? y then y else id)). destruct IH as [I1 I2]. split.
      + destruct I1 as [E|I1]; [|now right; right]. rewrite <- E. destruct (id <? y); cbn; auto.
      + intros x [<-|[<-|I]].
        * etransitivity; [|apply I2; left; reflexivity]. destruct (Z.ltb_spec id y); lia.
        * etransitivity; [|apply I2; left; reflexivity]. destruct (Z.ltb_spec id y); lia.
        * apply I2. now right.
  Qed.
  (** strictly increasing containers whose elements are at least id *)
  Lemma reduce_mex_spec c : forall id, StronglySorted Z.lt c -> Forall (fun x => id <= x) c ->
    let r := reduce_mex c id in id <= r /\ ~ In r c /\ forall x, id <= x < r -> In x c.
  Proof.
    unfold reduce_mex. cbv zeta. induction c as [|y c IH]; intros id S F; cbn [reduce].
    - split; [lia|]. split; [auto|]. intros; lia.
    - inversion S as [|? ? S' G]; subst. apply Forall_cons_iff in F. destruct F as [F1 F2].
      rewrite Forall_forall in G. destruct (Z.ltb_spec id y) as [L|L].
      + destruct (IH id S' F2) as (R1 & R2 & R3).
        (* all elements are above y > id, hence the rest is skipped *)
        assert (E : reduce c (fun r e => if r <? e then r else r + 1) id = id).
        { clear - G L. revert L G. induction c as [|z c IH]; intros L G; cbn [reduce]; [reflexivity|].
          destruct (Z.ltb_spec id z) as [L'|L']; [|specialize (G z (or_introl eq_refl)); lia].
          apply IH; auto. intros x I. apply G. now right. }
        rewrite E in *. split; [lia|]. split; [intros [->|I]; [lia|auto]|]. intros; lia.
      + assert (y = id) by lia. subst y.
        destruct (IH (id + 1) S') as (R1 & R2 & R3).
        { apply Forall_forall. intros x I. specialize (G x I). lia. }
        split; [lia|]. split; [intros [E|I]; [lia|auto]|]. intros x Hx.
        destruct (Z.eq_dec x id) as [->|N]; [now left|right]. apply R3. lia.
  Qed.
End Red.
