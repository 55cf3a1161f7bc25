From Verif Require Import Lib IoModel IoSpec IoProofs.
Open Scope nat_scope.

(** * Writer *)
Section W.
  Variable cap : nat.
  Hypothesis Hc : 0 < cap.
  Definition wsim (w : writer) (W : list Z) : Prop := length (wbuff w) = cap + 1 /\ wptr w <= cap /\ out w ++ firstn (wptr w) (wbuff w) = W.
  Lemma flush_spec w W : wsim w W -> exists w', flush w = Some w' /\ wsim w' W /\ wptr w' = 0 /\ out w' = W.
  Proof.
    intros (A & B & C). unfold flush. rewrite cells_ok by lia. cbn [obind]. destruct (set_nth_some (wbuff w) 0 0%Z) as [b E]; [lia|]. rewrite E. cbn [obind].
    eexists. split; [reflexivity|]. unfold wsim. cbn [wbuff wptr out firstn skipn]. rewrite Nat.sub_0_r, app_nil_r. pose proof (set_nth_length _ _ _ _ E). repeat split; try lia; assumption.
  Qed.
  Lemma firstn_S_snoc (l : list Z) n x : nth_error l n = Some x -> firstn (n + 1) l = firstn n l ++ [x].
  Proof. revert n; induction l as [|a l IH]; intros [|n] H; cbn in *; try discriminate. - now injection H as ->. - f_equal. now apply IH. Qed.
  Lemma firstn_set (l l' : list Z) n x : set_nth l n x = Some l' -> firstn n l' = firstn n l.
  Proof.
    intros E. apply list_ext. intros i. destruct (Nat.lt_ge_cases i n) as [Hi|Hi].
    - rewrite !nth_error_firstn by lia. rewrite (set_nth_get _ _ _ _ i E). destruct (Nat.eqb_spec n i); [lia|reflexivity].
    - rewrite !(proj2 (nth_error_None _ _)) by (rewrite firstn_length; lia). reflexivity.
  Qed.
  Lemma write_char_spec w W c : wsim w W -> exists w', write_char cap w c = Some w' /\ wsim w' (W ++ [c]).
  Proof.
    intros H. unfold write_char.
    assert (G : exists w1, (if cap <=? wptr w then flush w else Some w) = Some w1 /\ wsim w1 W /\ wptr w1 < cap).
    { destruct (cap <=? wptr w) eqn:Q.
      - destruct (flush_spec w W H) as (w1 & E & H1 & H2 & _). exists w1. repeat split; try assumption; try apply H1. lia.
      - apply Nat.leb_gt in Q. exists w. now repeat split; try apply H. }
    destruct G as (w1 & E & (A & B & C) & D). rewrite E. cbn [obind]. destruct (set_nth_some (wbuff w1) (wptr w1) c) as [b Eb]; [lia|]. rewrite Eb. cbn [obind].
    eexists. split; [reflexivity|]. unfold wsim. cbn [wbuff wptr out]. pose proof (set_nth_length _ _ _ _ Eb). split; [lia|]. split; [lia|].
    rewrite (firstn_S_snoc b (wptr w1) c), (firstn_set _ _ _ _ Eb), app_assoc, C; [reflexivity|].
    rewrite (set_nth_get _ _ _ _ (wptr w1) Eb), Nat.eqb_refl. reflexivity.
  Qed.
  Lemma write_chars_spec l : forall w W, wsim w W -> exists w', write_chars cap w l = Some w' /\ wsim w' (W ++ l).
  Proof.
    induction l as [|c l IH]; intros w W H; cbn [write_chars].
    - exists w. now rewrite app_nil_r.
    - destruct (write_char_spec w W c H) as (w1 & E & H1). rewrite E. cbn [obind]. destruct (IH _ _ H1) as (w' & E' & H'). exists w'. split; [exact E'|]. now rewrite <- app_assoc in H'.
  Qed.
  Lemma blit_prefix (b s : list Z) p : p <= length b -> firstn (p + length s) (firstn p b ++ s ++ skipn (p + length s) b) = firstn p b ++ s.
  Proof.
    intros H. rewrite app_assoc, firstn_app. rewrite app_length, firstn_length. replace (p + length s - _) with 0 by lia.
    rewrite firstn_O, app_nil_r. apply firstn_all2. rewrite app_length, firstn_length. lia.
  Qed.
  Lemma write_spec w W l : wsim w W -> exists w', write cap w l = Some w' /\ wsim w' (W ++ l).
  Proof.
    intros H. unfold write.
    match goal with |- context [loopZ _ ?g _] => destruct (loopZ_spec g
      (fun '(w', l') => exists k, wsim w' (W ++ firstn k l) /\ l' = skipn k l /\ k <= length l)
      (fun w' => wsim w' (W ++ l))
      (fun '(w', l') => (2 * Z.of_nat (length l') + (if (wptr w' =? cap)%nat then 1 else 0))%Z)) with (fuel := (2 * Z.of_nat (length l) + 3)%Z) (s := (w, l)) as (r & E & Hr) end.
    - intros [w' l'] (k & Hs & -> & Hk). destruct (length (skipn k l) =? 0) eqn:Q.
      + apply Nat.eqb_eq in Q. eexists. split; [reflexivity|]. rewrite skipn_length in Q. rewrite firstn_all2 in Hs by lia. exact Hs.
      + apply Nat.eqb_neq in Q. pose proof Hs as (A & B & C). unfold guard. apply Nat.leb_le in B as B'. rewrite B'. cbn [obind]. cbv zeta.
        set (len := Nat.min (cap - wptr w') (length (skipn k l))).
        assert (Ll : length (firstn len (skipn k l)) = len) by (rewrite firstn_length; lia).
        rewrite blit_ok by lia. cbn [obind]. rewrite Ll.
        set (b := firstn (wptr w') (wbuff w') ++ firstn len (skipn k l) ++ skipn (wptr w' + len) (wbuff w')).
        set (w2 := mkw b (wptr w' + len) (out w') (flushes w')).
        assert (H2 : wsim w2 (W ++ firstn (k + len) l)).
        { unfold wsim, w2. cbn [wbuff wptr out]. split; [unfold b; rewrite <- Ll at 2; rewrite blit_length; lia|]. split; [lia|].
          rewrite <- Ll at 1. unfold b. rewrite <- Ll at 3. rewrite blit_prefix by lia. rewrite app_assoc, C, <- app_assoc. f_equal.
          rewrite <- (firstn_skipn k l) at 3. rewrite firstn_app, firstn_firstn, firstn_length. f_equal; [f_equal; lia|]. f_equal; lia. }
        assert (Es : skipn len (skipn k l) = skipn (k + len) l).
        { apply list_ext. intros i. rewrite !nth_error_skipn. f_equal. lia. }
        rewrite !Es. assert (Eln : len = Nat.min (cap - wptr w') (length l - k)) by (unfold len; now rewrite skipn_length). clearbody len. rewrite skipn_length in Q. destruct (0 <? length (skipn (k + len) l)) eqn:Q2.
        * apply Nat.ltb_lt in Q2. rewrite skipn_length in Q2. destruct (flush_spec w2 _ H2) as (w3 & E3 & H3 & P3 & _). rewrite E3. cbn [obind].
          eexists. split; [reflexivity|]. split; [exists (k + len); repeat split; try apply H3; lia|].
          rewrite P3. rewrite !skipn_length. destruct (0 =? cap) eqn:Q3; [apply Nat.eqb_eq in Q3; lia|]. destruct (Nat.eqb_spec (wptr w') cap); lia.
        * apply Nat.ltb_ge in Q2. rewrite skipn_length in Q2. eexists. split; [reflexivity|]. split; [exists (k + len); repeat split; try apply H2; lia|].
          rewrite !skipn_length. destruct (Nat.eqb_spec (wptr w2) cap); destruct (Nat.eqb_spec (wptr w') cap); lia.
    - intros [w' l'] _. destruct (wptr w' =? cap); lia.
    - exists 0. cbn [firstn skipn]. rewrite app_nil_r. repeat split; try apply H. lia.
    - destruct (wptr w =? cap); lia.
    - exists r. now split.
  Qed.
  Lemma wreserve_spec w W n : wsim w W -> exists w' k, wreserve cap w n = Some (w', k) /\ wsim w' W /\ k = cap - wptr w' /\ (n <= cap -> n <= k).
  Proof.
    intros H. pose proof H as (A & B & C). unfold wreserve, guard. apply Nat.leb_le in B as B'. rewrite B'. cbn [obind]. destruct (n <=? cap - wptr w) eqn:Q.
    - apply Nat.leb_le in Q. exists w, (cap - wptr w). now repeat split; try apply H.
    - destruct (flush_spec w W H) as (w1 & E & H1 & H2 & _). rewrite E. cbn [obind]. exists w1, (cap - wptr w1). repeat split; try apply H1. rewrite H2. lia.
  Qed.
  Lemma strlen_spec s l : ~ In 0%Z s -> strlen (s ++ 0%Z :: l) = Some (length s).
  Proof.
    induction s as [|c s IH]; intros H; cbn; [reflexivity|]. destruct (Z.eqb_spec c 0) as [->|]; [elim H; now left|]. rewrite IH by (intros X; apply H; now right).
    cbn. f_equal. lia.
  Qed.
  Lemma printf_spec w W n s : length s < n -> n <= cap -> ~ In 0%Z s -> wsim w W -> exists w', printf cap w n s = Some w' /\ wsim w' (W ++ s).
  Proof.
    intros H1 H2 H3 H. unfold printf. destruct (wreserve_spec w W n H) as (w1 & k & E & (A & B & C) & D & F). rewrite E. cbn [obind]. specialize (F H2).
    unfold guard. replace (length s <? k) with true by (symmetry; apply Nat.ltb_lt; lia). cbn [obind].
    assert (Ls : length (s ++ [0%Z]) = length s + 1) by (rewrite app_length; reflexivity).
    rewrite blit_ok by lia. cbn [obind]. rewrite Ls.
    set (b := firstn (wptr w1) (wbuff w1) ++ (s ++ [0%Z]) ++ skipn (wptr w1 + (length s + 1)) (wbuff w1)).
    assert (Sb : skipn (wptr w1) b = s ++ 0%Z :: skipn (wptr w1 + (length s + 1)) (wbuff w1)).
    { unfold b. rewrite skipn_app, firstn_length. replace (wptr w1 - Nat.min (wptr w1) (length (wbuff w1))) with 0 by lia.
      rewrite skipn_all2 by (rewrite firstn_length; lia). cbn [app skipn]. now rewrite <- app_assoc. }
    rewrite Sb, strlen_spec by exact H3. cbn [obind]. eexists. split; [reflexivity|]. unfold wsim. cbn [wbuff wptr out].
    split; [unfold b; rewrite <- Ls; rewrite blit_length; lia|]. split; [lia|].
    rewrite <- C, <- app_assoc. f_equal. unfold b. rewrite <- (app_assoc s), (app_assoc _ s), firstn_app, app_length, firstn_length.
    replace (wptr w1 + length s - _) with 0 by lia. rewrite firstn_O, app_nil_r. apply firstn_all2. rewrite app_length, firstn_length. lia.
  Qed.
  Lemma new_wsim : wsim (writer_new cap) [].
  Proof. unfold wsim, writer_new. cbn. rewrite repeat_length. repeat split; lia. Qed.
End W.

(** * Decimal digits *)
Lemma value_from l a : fold_left (fun a c => a * 10 + (c - 48))%Z l a = (a * 10 ^ Z.of_nat (length l) + value l)%Z.
Proof.
  unfold value. revert a. induction l as [|c l IH]; intros a; cbn [fold_left length]; [cbn; lia|]. rewrite IH, (IH (0 * 10 + (c - 48))%Z).
  rewrite Nat2Z.inj_succ, Z.pow_succ_r by lia. lia.
Qed.
Lemma value_cons c l : value (c :: l) = ((c - 48) * 10 ^ Z.of_nat (length l) + value l)%Z.
Proof. unfold value at 1. cbn [fold_left]. rewrite value_from. lia. Qed.
Lemma value_nonneg l : Forall is_digit l -> (0 <= value l)%Z.
Proof.
  induction 1 as [|c l Hc Hl IH]; [unfold value; cbn; lia|]. rewrite value_cons. unfold is_digit in Hc. pose proof (Z.pow_nonneg 10 (Z.of_nat (length l)) ltac:(lia)). nia.
Qed.
Lemma digits_loop_spec d len : (0 <= d < 10 ^ 50)%Z -> len <= 50 -> exists tc, digits_loop d len = Some tc /\ decimal d len (rev tc).
Proof.
  intros Hd Hl. unfold digits_loop.
  match goal with |- context [loopZ _ ?g _] => destruct (loopZ_spec g
    (fun '(x, i, tc) => (0 <= x < 10 ^ (50 - Z.of_nat i))%Z /\ i <= 50 /\ length tc = i /\ Forall is_digit (rev tc) /\ (x * 10 ^ Z.of_nat i + value (rev tc) = d)%Z /\
       (i <= len \/ (0 < x)%Z \/ hd 48%Z (rev tc) <> 48%Z))
    (fun tc => decimal d len (rev tc)) (fun '(x, i, tc) => (50 - Z.of_nat i)%Z)) with (fuel := 52%Z) (s := (d, 0, @nil Z)) as (tc & E & H) end.
  - intros [[x i] tc] (H1 & H2 & H3 & H4 & H5 & H6). destruct (((0 <? x)%Z || (i <? len)) && (i <? 50)) eqn:Q.
    + apply andb_true_iff in Q as [Q1 Q2]. apply Nat.ltb_lt in Q2. rewrite Z.quot_div_nonneg, Z.rem_mod_nonneg by lia.
      pose proof (Z.div_mod x 10 ltac:(lia)) as Hx. pose proof (Z.mod_pos_bound x 10 ltac:(lia)) as Hm.
      eexists. split; [reflexivity|]. split; [|lia]. rewrite rev_app_distr. cbn [rev app hd].
      split; [|split; [lia|split; [rewrite app_length; cbn; lia|split; [|split]]]].
      * split; [apply Z.div_pos; lia|]. apply Z.div_lt_upper_bound; [lia|]. replace (10 * 10 ^ (50 - Z.of_nat (i + 1)))%Z with (10 ^ (50 - Z.of_nat i))%Z; [lia|].
        rewrite <- Z.pow_succ_r by lia. f_equal. lia.
      * constructor; [unfold is_digit; lia|exact H4].
      * rewrite value_cons, rev_length, H3. rewrite <- H5. rewrite Nat2Z.inj_add, Z.pow_add_r by lia. change (10 ^ Z.of_nat 1)%Z with 10%Z. rewrite Hx at 3. ring.
      * destruct (Nat.lt_ge_cases i len); [left; lia|]. right. destruct (Z.eq_dec (x / 10) 0); [|left; pose proof (Z.div_pos x 10); lia]. right.
        assert ((0 <? x)%Z = true) by (destruct (i <? len) eqn:Q3; [apply Nat.ltb_lt in Q3; lia|now rewrite orb_false_r in Q1]). lia.
    + eexists. split; [reflexivity|]. assert (Hx : x = 0%Z /\ len <= i).
      { apply andb_false_iff in Q as [Q|Q]. - apply orb_false_iff in Q as [Q1 Q2]. apply Nat.ltb_ge in Q2. lia.
        - apply Nat.ltb_ge in Q. assert (i = 50) by lia. subst i. rewrite H in H1. change (50 - Z.of_nat 50)%Z with 0%Z in H1. cbn in H1. lia. }
      destruct Hx as [-> Hi]. unfold decimal. rewrite rev_length. split; [exact H4|]. split; [lia|]. split; [lia|]. intros Hlt. destruct H6 as [|[|]]; [lia|lia|assumption].
  - intros [[x i] tc] H. lia.
  - cbn [length rev]. split; [exact Hd|]. split; [lia|]. split; [reflexivity|]. split; [constructor|]. split; [unfold value; cbn [fold_left]; change (10 ^ Z.of_nat 0)%Z with 1%Z; lia|left; lia].
  - lia.
  - exists tc. now split.
Qed.

(** * Scanning *)
Section Scan.
  Variable chunk : nat -> nat -> nat -> nat.
  Variable cap : nat.
  Hypothesis Hh : honest chunk.
  Hypothesis Hc : 0 < cap.
  (** the character c was just read from the text q *)
  Definition hold (f : bool) (r : reader) (c : Z) (q : list Z) : Prop :=
    match q with [] => c = (-1)%Z /\ sim cap r (mkv [] None true) | x :: p => c = x /\ sim cap r (mkv p (Some x) f) end.
  Definition isnil (q : list Z) : bool := match q with [] => true | _ => false end.
  Lemma read_hold r q l f : sim cap r (mkv q l f) -> exists r' c, read_char chunk cap r = Some (r', c) /\ hold f r' c q.
  Proof. intros H. destruct (read_char_spec chunk cap Hh r _ Hc H) as (r' & c & E & K). exists r', c. split; [exact E|]. cbn [pend failed] in K. destruct q; exact K. Qed.
  Lemma hold_unread f r c q : hold f r c q -> hd 0%Z q <> (-1)%Z -> exists r', unread_unless_eof r c = Some r' /\ sim cap r' (mkv q None (f || isnil q)).
  Proof.
    unfold hold, unread_unless_eof. destruct q as [|x p]; intros [-> H] Hx; cbn [isnil hd] in *.
    - exists r. rewrite orb_true_r. now split.
    - destruct (Z.eqb_spec x (-1)); [easy|]. rewrite orb_false_r. exact (unread_spec cap r p x f H).
  Qed.
  Lemma pending_bound r v : sim cap r v -> length (pend v) <= length (rest r) + end_ r.
  Proof. intros (W & P & _). rewrite <- P. unfold pending. rewrite app_length, (slice_length cap) by exact W. lia. Qed.
  Lemma hold_bound f r c q : hold f r c q -> (Z.of_nat (length q) < fuel r)%Z.
  Proof. unfold hold, fuel. destruct q as [|x p]; intros [_ H]; apply pending_bound in H; cbn [pend length] in *; lia. Qed.

  Section Loop.
    Context {A St : Type} {R : Type}.
    Variable test : Z -> bool.
    Variable upd : A -> Z -> option A.
    Variable pk : reader -> Z -> A -> St.
    Variable fin : reader -> Z -> A -> R.
    Variable g : St -> option (St + R).
    Hypothesis g_stop : forall r c a, test c = false -> g (pk r c a) = Some (inr (fin r c a)).
    Hypothesis g_go : forall r c a a' r' c', test c = true -> upd a c = Some a' -> read_char chunk cap r = Some (r', c') -> g (pk r c a) = Some (inl (pk r' c' a')).
    Fixpoint folds (a : A) (l : list Z) : option A := match l with [] => Some a | c :: l => match upd a c with Some a' => folds a' l | None => None end end.
    Fixpoint iterN (n : nat) (s : St) : option (St + R) := match n with O => Some (inl s) | S n => match g s with Some (inl s') => iterN n s' | r => r end end.
    Lemma iterN_add n m s : iterN (n + m) s = match iterN n s with Some (inl s') => iterN m s' | r => r end.
    Proof. revert s; induction n as [|n IH]; intros s; cbn [iterN Nat.add]; [reflexivity|]. destruct (g s) as [[s1|r]|]; [apply IH|reflexivity|reflexivity]. Qed.
    Lemma iterP_N p : forall s, iterP p g s = iterN (Pos.to_nat p) s.
    Proof.
      induction p as [p IH|p IH|]; intros s; cbn [iterP].
      - rewrite Pos2Nat.inj_xI. cbn [iterN]. destruct (g s) as [[s1|r]|]; [|reflexivity|reflexivity]. replace (2 * Pos.to_nat p) with (Pos.to_nat p + Pos.to_nat p) by lia.
        rewrite iterN_add, IH. destruct (iterN _ s1) as [[s2|r]|]; [apply IH|reflexivity|reflexivity].
      - rewrite Pos2Nat.inj_xO. replace (2 * Pos.to_nat p) with (Pos.to_nat p + Pos.to_nat p) by lia. rewrite iterN_add, IH. destruct (iterN _ s) as [[s2|r]|]; [apply IH|reflexivity|reflexivity].
      - change (Pos.to_nat 1) with 1. cbn [iterN]. destruct (g s) as [[s1|r]|]; reflexivity.
    Qed.
    Lemma iter_app (p : positive) s s' : g s = Some (inl s') -> forall r, iterP p g s' = Some (inr r) -> iterP (Pos.succ p) g s = Some (inr r).
    Proof. intros E r H. rewrite iterP_N, Pos2Nat.inj_succ. cbn [iterN]. rewrite E, <- iterP_N. exact H. Qed.
    Lemma scan l : forall f q r c a a', Forall (fun x => test x = true) l -> (q <> [] -> test (hd 0%Z q) = false) -> test (-1) = false ->
      folds a l = Some a' -> hold f r c (l ++ q) ->
      forall fu, (Z.of_nat (length l) < fu)%Z -> exists r' c', loopZ fu g (pk r c a) = Some (fin r' c' a') /\ hold f r' c' q.
    Proof.
      intros f q. induction l as [|x l IH]; intros r c a a' Hl Hq Ht Hf Hh' fu Hfu.
      - injection Hf as <-. cbn [app] in Hh'. exists r, c. split; [|exact Hh']. destruct fu as [|p|p]; [cbn in Hfu; lia| |cbn in Hfu; lia].
        assert (E : g (pk r c a) = Some (inr (fin r c a))). { apply g_stop. unfold hold in Hh'. destruct q as [|y q]; destruct Hh' as [-> _]; [exact Ht|]. now apply Hq. }
        cbn [loopZ]. assert (X : iterP p g (pk r c a) = Some (inr (fin r c a))). { clear -E. induction p as [p IH|p IH|]; cbn [iterP]; [now rewrite E|now rewrite IH|exact E]. }
        now rewrite X.
      - cbn [folds] in Hf. destruct (upd a x) as [a1|] eqn:Eu; [|discriminate]. cbn [app] in Hh'. destruct Hh' as [-> Hs].
        destruct (read_hold _ _ _ _ Hs) as (r1 & c1 & E1 & H1). inversion Hl as [|? ? T1 T2]; subst. cbn [length] in Hfu.
        destruct (IH r1 c1 a1 a' T2 Hq Ht Hf H1 (fu - 1)%Z ltac:(lia)) as (r' & c' & E' & H'). exists r', c'. split; [|exact H'].
        pose proof (g_go r x a a1 r1 c1 T1 Eu E1) as G. destruct (fu - 1)%Z as [|p|p] eqn:Ep; [cbn in E'; discriminate| |cbn in E'; discriminate].
        replace fu with (Z.pos (Pos.succ p)) by lia. cbn [loopZ] in *. destruct (iterP p g (pk r1 c1 a1)) as [[s|y]|] eqn:Ei; try discriminate. injection E' as ->.
        now rewrite (iter_app p _ _ G _ Ei).
    Qed.
  End Loop.

  Lemma folds_snoc (a s : list Z) : folds (fun a c => Some (a ++ [c])) a s = Some (a ++ s).
  Proof. revert a; induction s as [|c s IH]; intros a; cbn [folds]; [now rewrite app_nil_r|]. rewrite IH, <- app_assoc. reflexivity. Qed.
  Lemma skip_ws_spec r ws q l f : sim cap r (mkv (ws ++ q) l f) -> Forall blank ws -> (q <> [] -> (32 < hd 0 q \/ hd 0 q < -1)%Z) ->
    exists r', skip_whitespaces chunk cap r = Some r' /\ sim cap r' (mkv q None (f || isnil q)).
  Proof.
    intros H Hw Hq. unfold skip_whitespaces. destruct (read_hold _ _ _ _ H) as (r1 & c1 & E1 & H1). rewrite E1. cbn [obind].
    pose proof (hold_bound _ _ _ _ H1) as Hb. rewrite app_length in Hb.
    match goal with |- context [loopZ _ ?g _] => destruct (scan (A := unit) (fun c => (0 <=? c)%Z && (c <=? 32)%Z) (fun a _ => Some a) (fun r c _ => (r, c)) (fun r c _ => (r, c)) g) with (l := ws) (f := f) (q := q) (r := r1) (c := c1) (a := tt) (a' := tt) (fu := fuel r1) as (r2 & c2 & E2 & H2) end.
    - intros r0 c0 _ T. now rewrite T.
    - intros r0 c0 _ _ r' c' T _ E. now rewrite T, E.
    - eapply Forall_impl; [|exact Hw]. unfold blank. cbn. intros. lia.
    - intros Hn. specialize (Hq Hn). lia.
    - reflexivity.
    - clear. induction ws; [reflexivity|assumption].
    - exact H1.
    - lia.
    - rewrite E2. cbn [obind]. apply (hold_unread f); [exact H2|]. destruct q as [|y q]; [cbn; lia|]. specialize (Hq ltac:(discriminate)). cbn [hd] in *. lia.
  Qed.
  Lemma read_line_spec r s q l f delim : sim cap r (mkv (s ++ q) l f) -> Forall (fun c => c <> delim /\ c <> (-1)%Z) s -> (q <> [] -> hd 0%Z q = delim) ->
    exists r', read_line chunk cap r delim = Some (r', s) /\ exists l', sim cap r' (mkv (tl q) l' (f || isnil q)).
  Proof.
    intros H Hw Hq. unfold read_line. destruct (read_hold _ _ _ _ H) as (r1 & c1 & E1 & H1). rewrite E1. cbn [obind].
    pose proof (hold_bound _ _ _ _ H1) as Hb. rewrite app_length in Hb.
    match goal with |- context [loopZ _ ?g _] => destruct (scan (A := list Z) (fun c => negb (c =? delim)%Z && negb (c =? -1)%Z) (fun a c => Some (a ++ [c])) (fun r c a => (r, c, a)) (fun r c a => (r, a)) g) with (l := s) (f := f) (q := q) (r := r1) (c := c1) (a := @nil Z) (a' := s) (fu := fuel r1) as (r2 & c2 & E2 & H2) end.
    - intros r0 c0 a T. now rewrite T.
    - intros r0 c0 a a' r' c' T Ea E. injection Ea as <-. now rewrite T, E.
    - eapply Forall_impl; [|exact Hw]. cbn. intros. lia.
    - intros Hn. specialize (Hq Hn). rewrite Hq, Z.eqb_refl. reflexivity.
    - now rewrite andb_comm.
    - apply (folds_snoc []).
    - exact H1.
    - lia.
    - exists r2. split; [exact E2|]. unfold hold in H2. destruct q as [|y q]; destruct H2 as [_ H2]; cbn [isnil tl]; [rewrite orb_true_r|rewrite orb_false_r]; eauto.
  Qed.
  Lemma read_string_spec r ws s q l f : sim cap r (mkv (ws ++ s ++ q) l f) -> Forall blank ws -> Forall (fun c => 32 < c)%Z s -> s <> [] -> (q <> [] -> blank (hd 0%Z q)) ->
    exists r', read_string chunk cap r = Some (r', s) /\ sim cap r' (mkv q None (f || isnil q)).
  Proof.
    intros H Hw Hs Hn Hq. unfold read_string. destruct s as [|x s]; [easy|]. clear Hn. inversion Hs as [|? ? Hx Hs']; subst.
    destruct (skip_ws_spec r ws ((x :: s) ++ q) l f H Hw) as (r0 & E0 & H0). { intros _. cbn. lia. }
    rewrite E0. cbn [obind isnil app orb] in *. rewrite orb_false_r in H0. destruct (read_hold _ _ _ _ H0) as (r1 & c1 & E1 & H1). rewrite E1. cbn [obind].
    pose proof (hold_bound _ _ _ _ H1) as Hb. cbn [length] in Hb. rewrite app_length in Hb.
    match goal with |- context [loopZ _ ?g _] => destruct (scan (A := list Z) (fun c => (32 <? c)%Z) (fun a c => Some (a ++ [c])) (fun r c a => (r, c, a)) (fun r c a => (r, c, a)) g) with (l := x :: s) (f := f) (q := q) (r := r1) (c := c1) (a := @nil Z) (a' := x :: s) (fu := fuel r1) as (r2 & c2 & E2 & H2) end.
    - intros r3 c0 a T. now rewrite T.
    - intros r3 c0 a a' r' c' T Ea E. injection Ea as <-. now rewrite T, E.
    - eapply Forall_impl; [|exact Hs]. cbn. intros. lia.
    - intros Hn. specialize (Hq Hn). unfold blank in Hq. lia.
    - reflexivity.
    - apply (folds_snoc []).
    - exact H1.
    - cbn [length]. lia.
    - rewrite E2. cbn [obind]. destruct (hold_unread f r2 c2 q H2) as (r' & E' & H'). { destruct q as [|y q]; [cbn; lia|]. specialize (Hq ltac:(discriminate)). unfold blank in Hq. cbn [hd] in *. lia. }
      rewrite E'. cbn [obind]. exists r'. now split.
  Qed.
  Lemma in_width_ok w x : (- 2 ^ (w - 1) <= x < 2 ^ (w - 1))%Z -> in_width w x = Some x.
  Proof. intros H. unfold in_width. replace _ with true; [reflexivity|]. symmetry. apply andb_true_iff. lia. Qed.
  Lemma read_digits_spec w r s q l f : sim cap r (mkv (s ++ q) l f) -> Forall is_digit s -> (q <> [] -> ~ is_digit (hd 0%Z q) /\ hd 0%Z q <> (-1)%Z) -> (value s < 2 ^ (w - 1))%Z ->
    exists r', read_digits chunk cap w r 0 = Some (r', value s) /\ sim cap r' (mkv q None (f || isnil q)).
  Proof.
    intros H Hs Hq Hv. unfold read_digits. destruct (read_hold _ _ _ _ H) as (r1 & c1 & E1 & H1). rewrite E1. cbn [obind].
    pose proof (hold_bound _ _ _ _ H1) as Hb. rewrite app_length in Hb.
    match goal with |- context [loopZ _ ?g _] => destruct (scan (A := Z) (fun c => (48 <=? c)%Z && (c <=? 57)%Z) (fun a c => let* d := in_width w (a * 10)%Z in in_width w (d + (c - 48))%Z) (fun r c a => (r, c, a)) (fun r c a => (r, c, a)) g) with (l := s) (f := f) (q := q) (r := r1) (c := c1) (a := 0%Z) (a' := value s) (fu := fuel r1) as (r2 & c2 & E2 & H2) end.
    - intros r3 c0 a T. now rewrite T.
    - intros r3 c0 a a' r' c' T Ea E. rewrite T. destruct (in_width w (a * 10)) as [d|]; [|discriminate]. cbn [obind] in *. rewrite Ea. cbn [obind]. now rewrite E.
    - eapply Forall_impl; [|exact Hs]. unfold is_digit. cbn. intros. lia.
    - intros Hn. destruct (Hq Hn) as [Hq1 _]. unfold is_digit in Hq1. lia.
    - reflexivity.
    - assert (X : forall s a, Forall is_digit s -> (0 <= a)%Z -> (fold_left (fun a c => a * 10 + (c - 48)) s a < 2 ^ (w - 1))%Z -> folds (fun a c => let* d := in_width w (a * 10)%Z in in_width w (d + (c - 48))%Z) a s = Some (fold_left (fun a c => a * 10 + (c - 48)) s a)%Z).
      { clear -Hc. induction s as [|c s IH]; intros a Hs Ha Hv; cbn [folds fold_left] in *; [reflexivity|]. inversion Hs as [|? ? Hcd Hs']; subst. unfold is_digit in Hcd.
        pose proof Hv as Hv'. rewrite value_from in Hv'. pose proof (value_nonneg s Hs').
        assert (1 <= 10 ^ Z.of_nat (length s))%Z by (apply Z.lt_pred_le; cbn; apply Z.pow_pos_nonneg; lia).
        assert (Hlt : (a * 10 + (c - 48) < 2 ^ (w - 1))%Z) by nia. rewrite in_width_ok by lia. cbn [obind]. rewrite in_width_ok by lia. apply IH; [exact Hs'|lia|exact Hv]. }
      apply X; [exact Hs|lia|exact Hv].
    - exact H1.
    - lia.
    - rewrite E2. cbn [obind]. destruct (hold_unread f r2 c2 q H2) as (r' & E' & H'). { destruct q as [|y q]; [cbn; lia|]. now apply Hq. }
      rewrite E'. cbn [obind]. exists r'. now split.
  Qed.
  Lemma read_sign_spec r s q l f : sim cap r (mkv (s ++ q) l f) -> (s = [] \/ s = [43%Z] \/ s = [45%Z]) -> (s = [] -> q <> [] /\ is_digit (hd 0%Z q)) ->
    exists r' l', read_sign chunk cap r = Some (r', if (hd 0 s =? 45)%Z then -1 else 1)%Z /\ sim cap r' (mkv q l' f).
  Proof.
    intros H Hs Hq. unfold read_sign. destruct (read_hold _ _ _ _ H) as (r1 & c1 & E1 & H1). rewrite E1. cbn [obind]. destruct Hs as [-> |[-> | ->]]; cbn [app hold] in H1.
    - destruct (Hq eq_refl) as [Hn Hd]. destruct q as [|x q]; [easy|]. destruct H1 as [-> H1]. unfold is_digit in Hd. cbn [hd] in Hd. destruct (Z.eqb_spec x 45); [lia|]. destruct (Z.eqb_spec x 43); [lia|].
      destruct (hold_unread f r1 x (x :: q)) as (r' & E' & H'); [now split|cbn; lia|]. rewrite E'. cbn [obind isnil hd] in *. rewrite orb_false_r in H'. exists r', None. now split.
    - destruct H1 as [-> H1]. exists r1, (Some 43%Z). now split.
    - destruct H1 as [-> H1]. exists r1, (Some 45%Z). now split.
  Qed.
  Lemma read_integral_spec w r ws s dg q l f : sim cap r (mkv (ws ++ s ++ dg ++ q) l f) -> Forall blank ws -> (s = [] \/ s = [43%Z] \/ s = [45%Z]) -> dg <> [] -> Forall is_digit dg ->
    (q <> [] -> ~ is_digit (hd 0%Z q) /\ hd 0%Z q <> (-1)%Z) -> (value dg < 2 ^ (w - 1))%Z ->
    exists r', read_integral chunk cap w r = Some (r', if (hd 0 s =? 45)%Z then - value dg else value dg)%Z /\ sim cap r' (mkv q None (f || isnil q)).
  Proof.
    intros H Hw Hs Hn Hd Hq Hv. unfold read_integral. destruct dg as [|x dg]; [easy|]. pose proof (Forall_inv Hd) as Hx. unfold is_digit in Hx.
    destruct (skip_ws_spec r ws (s ++ (x :: dg) ++ q) l f H Hw) as (r0 & E0 & H0). { intros _. destruct Hs as [-> |[-> | ->]]; cbn; lia. }
    rewrite E0. cbn [obind]. replace (f || isnil (s ++ (x :: dg) ++ q)) with f in H0 by (destruct s; cbn; now rewrite orb_false_r).
    destruct (read_sign_spec _ _ _ _ _ H0 Hs) as (r1 & l1 & E1 & H1). { intros _. split; [discriminate|exact Hx]. }
    rewrite E1. cbn [obind]. destruct (read_digits_spec w _ _ _ _ _ H1 Hd Hq Hv) as (r2 & E2 & H2). rewrite E2. cbn [obind].
    pose proof (value_nonneg _ Hd). destruct (hd 0 s =? 45)%Z; cbn [Z.ltb Z.compare]; [rewrite in_width_ok by lia|]; cbn [obind]; exists r2; now split.
  Qed.
End Scan.

Lemma write_integral_spec cap wd w W d len : 0 < cap -> wsim cap w W -> (- 2 ^ (wd - 1) < d < 2 ^ (wd - 1))%Z -> (wd <= 64)%Z -> len <= 50 ->
  exists w' dg, write_integral cap wd w d len = Some w' /\ wsim cap w' (W ++ sign d ++ dg) /\ decimal (Z.abs d) len dg.
Proof.
  intros Hc H Hd Hw Hl. unfold write_integral, sign.
  assert (B : (2 ^ (wd - 1) <= 10 ^ 50)%Z) by (transitivity (2 ^ 63)%Z; [apply Z.pow_le_mono_r; lia|vm_compute; discriminate]).
  destruct (digits_loop_spec (Z.abs d) len ltac:(lia) Hl) as (tc & E & D).
  destruct (d <? 0)%Z eqn:Q.
  - rewrite (in_width_ok cap Hc) by lia. cbn [obind]. destruct (write_char_spec cap Hc w W 45 H) as (w1 & E1 & H1). rewrite E1. cbn [obind].
    replace (- d)%Z with (Z.abs d) by lia. rewrite E. cbn [obind]. destruct (write_chars_spec cap Hc (rev tc) _ _ H1) as (w2 & E2 & H2). exists w2, (rev tc).
    split; [exact E2|]. split; [now rewrite app_assoc|exact D].
  - cbn [obind]. replace (digits_loop d len) with (digits_loop (Z.abs d) len) by (f_equal; lia). rewrite E. cbn [obind].
    destruct (write_chars_spec cap Hc (rev tc) _ _ H) as (w2 & E2 & H2). exists w2, (rev tc). now repeat split; try apply D; try apply H2.
Qed.
