(** The tables of the blocks, the sparse table and the queries. *)
From Coq Require Import ZArith List PeanoNat Lia Bool.
From Verif Require Import Lib BitsModel RmqModel RmqSpec RmqProofs.
Import ListNotations.

Section P.
  Context {A : Type}.
  Variable comp : A -> A -> bool.
  Variable B : nat.
  Variable dflt : A.
  Hypothesis SW : strict_weak comp.
  Notation fmin := (first_min comp).

  (** ** first minima *)
  Lemma fmin_one a i : i < length a -> fmin a i (S i) i.
  Proof using SW.
    intro H. destruct (nth_error_some a i H) as [x E]. destruct SW as (Irr & _). split; [lia|]. exists x. split; [exact E|]. split.
    - intros k y Hk Ek. replace k with i in Ek by lia. rewrite E in Ek. injection Ek as <-. apply Irr.
    - intros k y Hk. lia.
  Qed.
  Lemma fmin_merge a b e b' e' i j : b <= b' <= e -> e <= e' -> fmin a b e i -> fmin a b' e' j ->
    exists m, min_index comp a i j = Some m /\ fmin a b e' m.
  Proof using SW.
    intros H1 H2 (Ri & x & Ei & Mi & Li) (Rj & y & Ej & Mj & Lj). destruct SW as (Irr & Asym & Tr).
    unfold min_index. rewrite Ej, Ei. cbn [obind]. eexists. split; [reflexivity|].
    destruct (comp y x) eqn:C.
    - split; [lia|]. exists y. split; [exact Ej|]. split.
      + intros k z Hk Ez. destruct (Nat.lt_ge_cases k e) as [L|L]; [|apply (Mj k z); [lia|exact Ez]].
        apply Tr with x; [apply (Mi k z); [lia|exact Ez]|apply Asym; exact C].
      + intros k z Hk Ez. destruct (Nat.lt_ge_cases k b') as [L|L]; [|apply (Lj k z); [lia|exact Ez]].
        destruct (comp y z) eqn:C'; [reflexivity|]. exfalso.
        pose proof (Tr y z x C' (Mi k z ltac:(lia) Ez)). congruence.
    - split; [lia|]. exists x. split; [exact Ei|]. split.
      + intros k z Hk Ez. destruct (Nat.lt_ge_cases k e) as [L|L]; [apply (Mi k z); [lia|exact Ez]|].
        apply Tr with y; [apply (Mj k z); [lia|exact Ez]|exact C].
      + intros k z Hk Ez. apply (Li k z); [lia|exact Ez].
  Qed.

  (** ** the table of one block *)
  Lemma scan_row_ok p l : length p = B -> l < B -> exists row, scan_row comp B p l = Some row /\
    forall r, l <= r < B -> exists m, nth_error row (r - l) = Some m /\ fmin p l (S r) m.
  Proof using SW.
    intros Lp Hl. unfold scan_row, for_range.
    replace (B - l) with (S (B - S l)) by lia. cbn [for_n].
    destruct (nth_error_some p l) as [x Ex]; [lia|]. unfold scan_step at 1. rewrite Ex. cbn [obind app].
    assert (Cx : comp x x = false) by (apply (proj1 SW)). rewrite Cx.
    destruct (for_n_spec (fun r (st : nat * list nat) => let '(m, row) := st in
        fmin p l r m /\ length row = r - l /\ forall r', l <= r' < r -> exists m', nth_error row (r' - l) = Some m' /\ fmin p l (S r') m')
        (scan_step comp p) (B - S l) (S l) (l, [l])) as ((m & row) & E & I0).
    - split; [apply fmin_one; lia|]. split; [cbn [length]; lia|]. intros r' Hr. assert (r' = l) as -> by lia.
      rewrite Nat.sub_diag. exists l. split; [reflexivity|apply fmin_one; lia].
    - intros r (m & row) Hr (M & Lr & T). unfold scan_step.
      destruct (fmin_merge p l r r (S r) m r ltac:(lia) ltac:(lia) M (fmin_one p r ltac:(lia))) as (m' & Em & M').
      unfold min_index in Em. destruct (nth_error p r) as [y|]; [|discriminate]. cbn [obind] in *.
      destruct (nth_error p m) as [z|]; [|discriminate]. cbn [obind] in *. injection Em as Em.
      assert (Em' : (if comp y z then r else m) = m') by (destruct (comp y z); congruence).
      rewrite Em'. eexists. split; [reflexivity|].
      split; [exact M'|]. split; [rewrite app_length; cbn [length]; lia|].
      intros r' Hr'. destruct (Nat.eq_dec r' r) as [->|N].
      + exists m'. split; [|exact M']. rewrite nth_error_app2 by lia. replace (r - l - length row) with 0 by lia. reflexivity.
      + destruct (T r' ltac:(lia)) as (m1 & E1 & M1). exists m1. split; [|exact M1]. rewrite nth_error_app1; [exact E1|lia].
    - cbv beta iota. rewrite E. cbn [obind]. exists row. split; [reflexivity|]. destruct I0 as (_ & _ & T).
      intros r Hr. apply T. lia.
  Qed.
  Lemma scan_ok p : length p = B -> exists t, scan comp B p = Some t /\
    forall l r, l <= r < B -> exists row m, nth_error t l = Some row /\ nth_error row (r - l) = Some m /\ fmin p l (S r) m.
  Proof using SW.
    intros Lp. unfold scan.
    destruct (for_range_spec (fun n (t : list (list nat)) => length t = n /\
       forall l r, l < n -> l <= r < B -> exists row m, nth_error t l = Some row /\ nth_error row (r - l) = Some m /\ fmin p l (S r) m)
       (fun left t => let* row := scan_row comp B p left in Some (t ++ [row])) 0 B []) as (t & E & I0 & T).
    - lia.
    - split; [reflexivity|]. intros; lia.
    - intros n t Hn (Lt & T). destruct (scan_row_ok p n Lp ltac:(lia)) as (row & E & R). rewrite E. cbn [obind].
      eexists. split; [reflexivity|]. split; [rewrite app_length; cbn [length]; lia|]. intros l r Hl Hr.
      destruct (Nat.eq_dec l n) as [->|N].
      + destruct (R r Hr) as (m & E1 & M). exists row, m. split; [|split; [exact E1|exact M]].
        rewrite nth_error_app2 by lia. replace (n - length t) with 0 by lia. reflexivity.
      + destruct (T l r ltac:(lia) Hr) as (row' & m & E0 & E1 & M). exists row', m. split; [|split; [exact E1|exact M]].
        rewrite nth_error_app1; [exact E0|lia].
    - exists t. split; [exact E|]. intros l r H. apply T; lia.
  Qed.

  (** ** all blocks *)
  Section Array.
    Variable a : list A.
    Variable n : nat.
    Definition good (ts : list (option table)) (bt : list nat) (x : nat) : Prop :=
      forall l r, l <= r < B -> exists m, idx ts bt x l r = Some m /\ m < B /\ fmin a (x * B + l) (x * B + S r) (x * B + m).

    Lemma block_len i : length a = n * B -> i < n -> length (block B a i) = B.
    Proof using. intros La H. unfold block. rewrite firstn_length, skipn_length, La. nia. Qed.
    Lemma block_nth i k : length a = n * B -> k < B -> nth_error (block B a i) k = nth_error a (i * B + k).
    Proof using.
      intros La H. unfold block.
      assert (F : forall (l : list A) c, k < c -> nth_error (firstn c l) k = nth_error l k).
      { intros l c Hc. destruct (Nat.lt_ge_cases k (length l)) as [K|K].
        - rewrite <- (firstn_skipn c l) at 2. rewrite nth_error_app1; [reflexivity|]. rewrite firstn_length. lia.
        - rewrite !(proj2 (nth_error_None _ _)); [reflexivity|lia|rewrite firstn_length; lia]. }
      rewrite F by exact H. revert k H F. generalize (i * B) as d. intros d k _ _.
      rewrite <- (firstn_skipn d a) at 2. destruct (Nat.le_gt_cases d (length a)) as [K|K].
      - rewrite nth_error_app2 by (rewrite firstn_length; lia). f_equal. rewrite firstn_length. lia.
      - rewrite skipn_all2 by lia. rewrite app_nil_r, firstn_all2 by lia.
        rewrite !(proj2 (nth_error_None _ _)); [reflexivity|lia|cbn; lia].
    Qed.
    Lemma block_fmin i l e m : length a = n * B -> e <= B -> fmin (block B a i) l e m -> fmin a (i * B + l) (i * B + e) (i * B + m).
    Proof using.
      intros La He (R & x & E & M1 & M2). split; [lia|]. exists x. split; [rewrite <- block_nth by (assumption || lia); exact E|].
      split; intros k y Hk Ek.
      - apply (M1 (k - i * B)); [lia|]. rewrite block_nth by (assumption || lia). replace (i * B + (k - i * B)) with k by lia. exact Ek.
      - apply (M2 (k - i * B)); [lia|]. rewrite block_nth by (assumption || lia). replace (i * B + (k - i * B)) with k by lia. exact Ek.
    Qed.

    Lemma trees_ok : length a = n * B -> exists ts bt, build_block_trees comp B dflt a n = Some (ts, bt) /\
      forall x, x < n -> good ts bt x.
    Proof using SW.
      intro La. unfold build_block_trees.
      destruct (for_range_spec (fun c (st : list (option table) * list nat) => let '(ts, bt) := st in
         length ts = ballot B B /\ length bt = c /\
         (forall i, i < c -> exists N t, nth_error bt i = Some N /\ block_type comp B dflt (block B a i) = Some N /\
            nth_error ts N = Some (Some t)) /\
         (forall N t, nth_error ts N = Some (Some t) -> exists i, i < n /\ block_type comp B dflt (block B a i) = Some N /\
            scan comp B (block B a i) = Some t))
         (tree_step comp B dflt a) 0 n (repeat None (ballot B B), [])) as ((ts & bt) & E & Lts & Lbt & I1 & I2).
      - lia.
      - split; [apply repeat_length|]. split; [reflexivity|]. split; [intros; lia|].
        intros N t E. apply nth_error_In in E. apply repeat_spec in E. discriminate E.
      - intros c (ts & bt) Hc (Lts & Lbt & I1 & I2). unfold tree_step.
        pose proof (block_len c La ltac:(lia)) as Lb.
        destruct (type_ok comp B dflt (block B a c) Lb) as [T V]. rewrite T. cbn [obind].
        set (N := rank B B (counts comp B dflt (block B a c))) in *.
        pose proof (type_lt comp B dflt (block B a c) N Lb T) as LN.
        destruct (nth_error_some ts N) as [o Eo]; [lia|]. rewrite Eo. cbn [obind].
        destruct o as [t|].
        + eexists. split; [reflexivity|]. split; [exact Lts|]. split; [rewrite app_length; cbn [length]; lia|]. split; [|exact I2].
          intros i Hi. destruct (Nat.eq_dec i c) as [->|Ni].
          * exists N, t. split; [|split; [exact T|exact Eo]]. rewrite nth_error_app2 by lia. replace (c - length bt) with 0 by lia. reflexivity.
          * destruct (I1 i ltac:(lia)) as (N' & t' & E1 & E2 & E3). exists N', t'. split; [|split; assumption].
            rewrite nth_error_app1; [exact E1|lia].
        + destruct (scan_ok (block B a c) Lb) as (t & Es & _). rewrite Es. cbn [obind].
          destruct (set_nth_some ts N (Some t)) as [ts' Ets]; [lia|]. rewrite Ets. cbn [obind].
          eexists. split; [reflexivity|]. split; [rewrite (set_nth_length _ _ _ _ Ets); exact Lts|].
          split; [rewrite app_length; cbn [length]; lia|]. split.
          * intros i Hi. destruct (Nat.eq_dec i c) as [->|Ni].
            -- exists N, t. split; [|split; [exact T|]].
               ++ rewrite nth_error_app2 by lia. replace (c - length bt) with 0 by lia. reflexivity.
               ++ rewrite (set_nth_get _ _ _ _ _ Ets), Nat.eqb_refl. reflexivity.
            -- destruct (I1 i ltac:(lia)) as (N' & t' & E1 & E2 & E3). exists N', t'. split; [|split; [exact E2|]].
               ++ rewrite nth_error_app1; [exact E1|lia].
               ++ rewrite (set_nth_get _ _ _ _ _ Ets). destruct (Nat.eqb_spec N N') as [<-|_]; [congruence|exact E3].
          * intros N' t' E'. rewrite (set_nth_get _ _ _ _ _ Ets) in E'. destruct (Nat.eqb_spec N N') as [<-|_]; [|apply I2; exact E'].
            injection E' as <-. exists c. split; [lia|]. split; [exact T|exact Es].
      - exists ts, bt. split; [exact E|]. intros x Hx l r Hr.
        destruct (I1 x Hx) as (N & t & E1 & E2 & E3). destruct (I2 N t E3) as (i & Hi & T & Es).
        pose proof (block_len i La Hi) as Li. pose proof (block_len x La Hx) as Lx.
        destruct (scan_ok (block B a i) Li) as (t' & Es' & R). rewrite Es in Es'. injection Es' as <-.
        destruct (R l r Hr) as (row & m & R1 & R2 & M). exists m. unfold idx. rewrite E1. cbn [obind]. rewrite E3. cbn [obind]. rewrite R1. cbn [obind].
        split; [exact R2|]. split; [destruct M as [M _]; lia|]. apply block_fmin; [exact La|lia|].
        apply (same_type comp B dflt SW (block B a i) (block B a x) N l (S r) m Li Lx T E2 ltac:(lia) M).
    Qed.

    (** ** the sparse table *)
    Lemma height_ok : forall fuel h, n <= 2 ^ (h + fuel - 1) -> 0 < fuel -> exists h', height_from fuel h n = Some h' /\ n <= 2 ^ h' /\ h <= h'.
    Proof using.
      induction fuel as [|fuel IH]; intros h L P; [lia|]. cbn [height_from].
      destruct (2 ^ h <? n) eqn:E.
      - apply Nat.ltb_lt in E. destruct fuel as [|fuel].
        + replace (h + 1 - 1) with h in L by lia. lia.
        + destruct (IH (S h)) as (h' & E' & L' & M); [|lia|].
          * replace (S h + S fuel - 1) with (h + S (S fuel) - 1) by lia. exact L.
          * exists h'. split; [exact E'|]. split; [exact L'|lia].
      - apply Nat.ltb_ge in E. exists h. split; [reflexivity|]. split; [exact E|lia].
    Qed.
    Lemma first_row_ok ts bt : 0 < B -> (forall x, x < n -> good ts bt x) -> exists row, first_row B ts bt n = Some row /\ length row = n /\
      forall i, i < n -> exists m, nth_error row i = Some m /\ m < n * B /\ fmin a (i * B) (i * B + B) m.
    Proof using.
      intros HB G. unfold first_row.
      destruct (for_range_spec (fun c (row : list nat) => length row = c /\
         forall i, i < c -> exists m, nth_error row i = Some m /\ m < n * B /\ fmin a (i * B) (i * B + B) m)
         (fun i row => let* m := idx ts bt i 0 (B - 1) in Some (row ++ [i * B + m])) 0 n []) as (row & E & L & R).
      - lia.
      - split; [reflexivity|]. intros; lia.
      - intros c row Hc (L & R). destruct (G c ltac:(lia) 0 (B - 1) ltac:(lia)) as (m & E & Hm & M). rewrite E. cbn [obind].
        eexists. split; [reflexivity|]. split; [rewrite app_length; cbn [length]; lia|]. intros i Hi.
        destruct (Nat.eq_dec i c) as [->|N].
        + exists (c * B + m). split; [rewrite nth_error_app2 by lia; replace (c - length row) with 0 by lia; reflexivity|].
          split; [nia|]. rewrite Nat.add_0_r in M. replace (S (B - 1)) with B in M by lia. exact M.
        + destruct (R i ltac:(lia)) as (m' & E' & H'). exists m'. split; [rewrite nth_error_app1 by lia; exact E'|exact H'].
      - exists row. split; [exact E|]. split; assumption.
    Qed.
    (** entries that cover t blocks *)
    Definition covers (t : nat) (row : list nat) : Prop :=
      length row = n /\ (forall i m, nth_error row i = Some m -> m < n * B) /\
      forall i, i + t <= n -> 0 < t -> exists m, nth_error row i = Some m /\ fmin a (i * B) ((i + t) * B) m.
    Lemma next_row_ok t row : length a = n * B -> 0 < t -> t <= n -> covers t row ->
      exists row', next_row comp a n t row = Some row' /\ covers (t + t) row'.
    Proof using SW.
      intros La Pt Ht (L & Bd & C). unfold next_row.
      destruct (for_range_spec (fun c (b : list nat) => length b = n /\ (forall i m, nth_error b i = Some m -> m < n * B) /\
          (forall i, c <= i -> nth_error b i = nth_error row i) /\
          (forall i, i < c -> i + t + t <= n -> exists m, nth_error b i = Some m /\ fmin a (i * B) ((i + t + t) * B) m))
        (fun i b => let* x := nth_error b i in let* y := nth_error b (i + t) in let* m := min_index comp a x y in set_nth b i m)
        0 (n - t) row) as (b & E & Lb & Bb & U & D).
      - lia.
      - split; [exact L|]. split; [exact Bd|]. split; [reflexivity|]. intros; lia.
      - intros c b Hc (Lb & Bb & U & D).
        destruct (nth_error_some b c) as [x Ex]; [lia|]. destruct (nth_error_some b (c + t)) as [y Ey]; [lia|].
        rewrite Ex, Ey. cbn [obind].
        assert (MI : exists m, min_index comp a x y = Some m /\ (m = x \/ m = y)).
        { unfold min_index. destruct (nth_error_some a y) as [u Eu]; [rewrite La; apply (Bb _ _ Ey)|].
          destruct (nth_error_some a x) as [w Ew]; [rewrite La; apply (Bb _ _ Ex)|]. rewrite Eu, Ew. cbn [obind].
          eexists. split; [reflexivity|]. destruct (comp u w); [right|left]; reflexivity. }
        destruct MI as (m & Em & Hm). rewrite Em. cbn [obind].
        destruct (set_nth_some b c m) as [b' Eb]; [lia|]. exists b'. split; [exact Eb|].
        split; [rewrite (set_nth_length _ _ _ _ Eb); exact Lb|]. split; [|split].
        + intros i m' E'. rewrite (set_nth_get _ _ _ _ _ Eb) in E'. destruct (Nat.eqb_spec c i) as [_|_]; [|apply (Bb i m' E')].
          injection E' as <-. destruct Hm as [-> | ->]; [apply (Bb _ _ Ex)|apply (Bb _ _ Ey)].
        + intros i Hi. rewrite (set_nth_get _ _ _ _ _ Eb). destruct (Nat.eqb_spec c i) as [->|_]; [lia|]. apply U. lia.
        + intros i Hi Hn. rewrite (set_nth_get _ _ _ _ _ Eb). destruct (Nat.eqb_spec c i) as [->|N]; [|apply D; lia].
          rewrite U in Ex, Ey by lia.
          destruct (C i ltac:(lia) Pt) as (x' & Ex' & Mx). destruct (C (i + t) ltac:(lia) Pt) as (y' & Ey' & My).
          rewrite Ex in Ex'. injection Ex' as <-. rewrite Ey in Ey'. injection Ey' as <-.
          destruct (fmin_merge a (i * B) ((i + t) * B) ((i + t) * B) ((i + t + t) * B) x y ltac:(nia) ltac:(nia) Mx My) as (m' & Em' & M').
          rewrite Em in Em'. injection Em' as <-. exists m. split; [reflexivity|exact M'].
      - exists b. split; [exact E|]. split; [exact Lb|]. split; [exact Bb|]. intros i Hi _.
        destruct (D i ltac:(lia) ltac:(lia)) as (m & Em & M). exists m. split; [exact Em|].
        replace (i + (t + t)) with (i + t + t) by lia. exact M.
    Qed.
    Definition table_ok (K : nat) (s : list nat) : Prop :=
      length s = n * S K /\ forall k i, k <= K -> i + 2 ^ k <= n -> exists m, nth_error s (i + n * k) = Some m /\ fmin a (i * B) ((i + 2 ^ k) * B) m.
    Lemma table_snoc K s row : length s = n * K -> (K = 0 \/ table_ok (K - 1) s) -> covers (2 ^ K) row -> table_ok K (s ++ row).
    Proof using.
      intros Ls T (L & _ & C). split; [rewrite app_length, Ls, L; lia|]. intros k i Hk Hi.
      destruct (Nat.eq_dec k K) as [->|N].
      - destruct (C i Hi) as (m & E & M); [assert (2 ^ K <> 0) by (apply Nat.pow_nonzero; lia); lia|].
        exists m. split; [|exact M]. rewrite nth_error_app2 by lia. rewrite Ls. replace (i + n * K - n * K) with i by lia. exact E.
      - destruct T as [->|[_ T]]; [lia|]. destruct (T k i ltac:(lia) Hi) as (m & E & M). exists m. split; [|exact M].
        rewrite nth_error_app1; [exact E|]. apply nth_error_Some. congruence.
    Qed.
    Lemma rows_ok : forall fuel K used row, length a = n * B -> fuel + K = S n -> 2 ^ K < n -> length used = n * K ->
      (K = 0 \/ table_ok (K - 1) used) -> covers (2 ^ K) row ->
      exists K' s, rows comp fuel a n (2 ^ K) used row = Some s /\ table_ok K' s /\ 2 ^ K' < n /\ n <= 2 ^ S K'.
    Proof using SW.
      induction fuel as [|fuel IH]; intros K used row La F HK Lu T C.
      - pose proof (Nat.pow_gt_lin_r 2 K ltac:(lia)). lia.
      - cbn [rows]. destruct (2 ^ K * 2 <? n) eqn:E.
        + apply Nat.ltb_lt in E. assert (P : 2 ^ K <> 0) by (apply Nat.pow_nonzero; lia).
          destruct (next_row_ok (2 ^ K) row La ltac:(lia) ltac:(lia) C) as (row' & Er & C'). rewrite Er. cbn [obind].
          replace (2 ^ K * 2) with (2 ^ S K) by (cbn [Nat.pow]; lia).
          apply IH; [exact La|lia|cbn [Nat.pow]; lia| | |].
          * destruct C as [Lr _]. rewrite app_length, Lu, Lr. lia.
          * right. replace (S K - 1) with K by lia. apply table_snoc; assumption.
          * replace (2 ^ S K) with (2 ^ K + 2 ^ K) by (cbn [Nat.pow]; lia). exact C'.
        + apply Nat.ltb_ge in E. exists K, (used ++ row). split; [reflexivity|]. split; [apply table_snoc; assumption|].
          split; [exact HK|cbn [Nat.pow]; lia].
    Qed.
    Lemma sparse_ok ts bt : length a = n * B -> 0 < B -> (forall x, x < n -> good ts bt x) ->
      exists s, build_sparse_table comp B a ts bt n = Some s /\
        forall k i, 1 < n -> 2 ^ k < n -> i + 2 ^ k <= n -> exists m, nth_error s (i + n * k) = Some m /\ fmin a (i * B) ((i + 2 ^ k) * B) m.
    Proof using SW.
      intros La HB G. unfold build_sparse_table.
      destruct (height_ok (S n) 0) as (h & -> & Hh & _).
      { cbn [Nat.add]. replace (S n - 1) with n by lia. apply Nat.lt_le_incl. apply Nat.pow_gt_lin_r. lia. } { lia. }
      cbn [obind]. destruct (Nat.eqb_spec h 0) as [->|Nh].
      - cbn in Hh. exists []. split; [reflexivity|]. intros; lia.
      - destruct (first_row_ok ts bt HB G) as (row & -> & L & R). cbn [obind].
        destruct (Nat.le_gt_cases n 1) as [N1|N1].
        + (* a height above zero needs two blocks; the model's height is least, but any bound will do *)
          assert (X : exists s, rows comp (S n) a n 1 [] row = Some row /\ s = row).
          { exists row. split; [|reflexivity]. cbn [rows]. destruct (1 * 2 <? n) eqn:E; [apply Nat.ltb_lt in E; lia|reflexivity]. }
          destruct X as (s & -> & _). cbn [obind].
          destruct (length row <=? n * h) eqn:E; [|apply Nat.leb_gt in E; nia].
          eexists. split; [reflexivity|]. intros; lia.
        + destruct (rows_ok (S n) 0 [] row La ltac:(lia) ltac:(cbn; lia) ltac:(cbn; lia) ltac:(left; reflexivity)) as (K & s & E & T & K1 & K2).
          { split; [exact L|]. split.
            - intros i m Em. destruct (R i) as (m' & E' & Lm & _); [rewrite <- L; apply nth_error_Some; congruence|]. congruence.
            - intros i Hi _. cbn [Nat.pow] in *. destruct (R i ltac:(lia)) as (m & Em & _ & M). exists m. split; [exact Em|].
              replace ((i + 1) * B) with (i * B + B) by lia. exact M. }
          change (2 ^ 0) with 1 in E. rewrite E. cbn [obind]. destruct T as [Ls T].
          assert (Kh : K < h). { apply (Nat.pow_lt_mono_r_iff 2); lia. }
          destruct (length s <=? n * h) eqn:El; [|apply Nat.leb_gt in El; nia].
          eexists. split; [reflexivity|]. intros k i _ Hk Hi.
          assert (k <= K). { assert (k < S K); [|lia]. apply (Nat.pow_lt_mono_r_iff 2); lia. }
          destruct (T k i H Hi) as (m & Em & M). exists m. split; [|exact M]. rewrite nth_error_app1; [exact Em|].
          apply nth_error_Some. congruence.
    Qed.
  End Array.

  Lemma fmin_app l l' b e i : e <= length l -> fmin (l ++ l') b e i -> fmin l b e i.
  Proof using.
    intros He (R & x & E & M1 & M2). split; [exact R|]. exists x. rewrite nth_error_app1 in E by lia. split; [exact E|].
    split; intros k y Hk Ek; [apply (M1 k y Hk)|apply (M2 k y Hk)]; rewrite nth_error_app1 by lia; exact Ek.
  Qed.

  Lemma rmq_ok l : 0 < B -> (Z.of_nat (length l) < 2 ^ 31)%Z ->
    exists s, build comp B dflt l = Some s /\ size s = (length l + B - 1) / B * B /\
      forall b e, b < e <= length l -> exists i, get_index comp B s b e = Some i /\ fmin l b e i /\
        get_value comp B s b e = nth_error l i.
  Proof using SW.
    intros HB HL. unfold build. set (n := (length l + B - 1) / B). set (a := l ++ repeat dflt (n * B - length l)).
    assert (Hn : length l <= n * B).
    { pose proof (Nat.div_mod_eq (length l + B - 1) B) as D. fold n in D. pose proof (Nat.mod_upper_bound (length l + B - 1) B ltac:(lia)). nia. }
    assert (La : length a = n * B). { unfold a. rewrite app_length, repeat_length. lia. }
    destruct (trees_ok a n La) as (ts & bt & -> & G). cbn [obind].
    destruct (sparse_ok a n ts bt La HB G) as (sp & -> & SP). cbn [obind].
    eexists. split; [reflexivity|]. split; [exact La|]. intros b e Hbe.
    assert (Q : exists i, get_index comp B (Rmq n a ts bt sp) b e = Some i /\ fmin a b e i).
    { unfold get_index. cbn [trees block_tree arr blocks sparse].
      set (x := b / B). set (y := (e - 1) / B). set (lo := b mod B). set (hi := (e - 1) mod B).
      pose proof (Nat.div_mod_eq b B) as Db. pose proof (Nat.div_mod_eq (e - 1) B) as De. fold x lo in Db. fold y hi in De.
      pose proof (Nat.mod_upper_bound b B ltac:(lia)) as Mb. pose proof (Nat.mod_upper_bound (e - 1) B ltac:(lia)) as Me. fold lo in Mb. fold hi in Me.
      assert (XY : x <= y) by (apply Nat.div_le_mono; lia).
      assert (Yn : y < n) by nia.
      destruct (Nat.eqb_spec (y - x) 0) as [Z0|Z0].
      - assert (y = x) by lia. assert (LH : lo <= hi) by nia.
        destruct (G x ltac:(lia) lo hi ltac:(lia)) as (m & -> & _ & M). cbn [obind]. eexists. split; [reflexivity|].
        replace b with (x * B + lo) by nia. replace e with (x * B + S hi) by nia. exact M.
      - destruct (G x ltac:(lia) lo (B - 1) ltac:(lia)) as (m & Em & _ & M).
        destruct (G y ltac:(lia) 0 hi ltac:(lia)) as (m' & Em' & _ & M').
        rewrite Em, Em'. cbn [obind].
        replace (x * B + lo) with b in M by nia. replace (x * B + S (B - 1)) with ((x + 1) * B) in M by nia.
        replace (y * B + S hi) with e in M' by nia. replace (y * B + 0) with (y * B) in M' by lia.
        destruct (Nat.eqb_spec (y - x) 1) as [Z1|Z1].
        + apply (fmin_merge a b ((x + 1) * B) (y * B) e _ _ ltac:(nia) ltac:(nia) M M').
        + assert (Zn : y - x <= length l) by nia.
          rewrite log2_32_ok by lia. cbn [obind].
          set (k := Z.to_nat (Z.log2 (Z.of_nat (y - x - 2)))).
          assert (Hk : 2 ^ k <= y - x - 1 /\ y - x - 1 <= 2 ^ k + 2 ^ k).
          { destruct (Nat.eq_dec (y - x) 2) as [E2|N2].
            - unfold k. rewrite E2. cbn. lia.
            - pose proof (Z.log2_spec (Z.of_nat (y - x - 2)) ltac:(lia)) as [S1 S2].
              pose proof (Z.log2_nonneg (Z.of_nat (y - x - 2))).
              assert (Ek : (2 ^ Z.log2 (Z.of_nat (y - x - 2)) = Z.of_nat (2 ^ k))%Z).
              { rewrite Nat2Z.inj_pow. f_equal. unfold k. lia. }
              rewrite Z.pow_succ_r in S2 by lia. lia. }
          destruct (SP k (x + 1) ltac:(lia) ltac:(lia) ltac:(lia)) as (s1 & Es1 & M1). rewrite Es1. cbn [obind].
          destruct (SP k (y - 2 ^ k) ltac:(lia) ltac:(lia) ltac:(lia)) as (s2 & Es2 & M2).
          replace (y + n * k - 2 ^ k) with (y - 2 ^ k + n * k) by lia. rewrite Es2. cbn [obind].
          assert (MB : forall u v, u <= v -> u * B <= v * B) by (intros u v Huv; apply Nat.mul_le_mono_r; exact Huv).
          assert (R1 : b <= (x + 1) * B) by (destruct M as [M _]; lia).
          assert (R2 : y * B <= e) by (destruct M' as [M' _]; lia).
          assert (R3 : (x + 1) * B <= (y - 2 ^ k) * B) by (apply MB; lia).
          assert (R4 : (y - 2 ^ k) * B <= (x + 1 + 2 ^ k) * B) by (apply MB; lia).
          assert (R5 : (x + 1 + 2 ^ k) * B <= y * B) by (apply MB; lia).
          assert (R6 : (x + 1) * B <= (x + 1 + 2 ^ k) * B) by (apply MB; lia).
          assert (R7 : (y - 2 ^ k) * B <= y * B) by (apply MB; lia).
          destruct (fmin_merge a b ((x + 1) * B) ((x + 1) * B) ((x + 1 + 2 ^ k) * B) _ _ (conj R1 (Nat.le_refl _)) R6 M M1) as (i & -> & Mi). cbn [obind].
          replace (y - 2 ^ k + 2 ^ k) with y in M2 by lia.
          destruct (fmin_merge a ((y - 2 ^ k) * B) (y * B) (y * B) e _ _ (conj R7 (Nat.le_refl _)) R2 M2 M') as (j & -> & Mj). cbn [obind].
          apply (fmin_merge a b ((x + 1 + 2 ^ k) * B) ((y - 2 ^ k) * B) e _ _); [|exact (Nat.le_trans _ _ _ R5 R2)|exact Mi|exact Mj].
          split; [exact (Nat.le_trans _ _ _ R1 R3)|exact R4]. }
    destruct Q as (i & Ei & M). exists i. split; [exact Ei|]. split.
    - apply (fmin_app l (repeat dflt (n * B - length l)) b e i); [lia|exact M].
    - unfold get_value. rewrite Ei. cbn [obind arr]. unfold a. apply nth_error_app1. destruct M as [M _]. lia.
  Qed.
End P.
