From Verif Require Import Lib IoModel IoSpec.
Open Scope nat_scope.

Lemma nth_error_firstn {A} (v : list A) m i : i < m -> nth_error (firstn m v) i = nth_error v i.
Proof. revert m i; induction v as [|a v IH]; intros [|m] [|i] H; cbn; try lia; try reflexivity. apply IH. lia. Qed.
Lemma nth_error_skipn {A} (v : list A) m i : nth_error (skipn m v) i = nth_error v (m + i).
Proof. revert v; induction m as [|m IH]; intros [|a v]; cbn; try reflexivity; [now destruct i|apply IH]. Qed.
Lemma cells_ok b i j : i <= j -> j <= length b -> cells b i j = Some (firstn (j - i) (skipn i b)).
Proof. intros H1 H2. unfold cells, guard. replace ((i <=? j) && (j <=? length b)) with true; [reflexivity|]. symmetry. apply andb_true_iff. now rewrite !Nat.leb_le. Qed.
Lemma blit_ok b p s : p + length s <= length b -> blit b p s = Some (firstn p b ++ s ++ skipn (p + length s) b).
Proof. intros H. unfold blit, guard. apply Nat.leb_le in H. now rewrite H. Qed.
Lemma blit_length (b : list Z) p s : p + length s <= length b -> length (firstn p b ++ s ++ skipn (p + length s) b) = length b.
Proof. intros H. rewrite !app_length, firstn_length, skipn_length. lia. Qed.

Section R.
  Variable chunk : nat -> nat -> nat -> nat.
  Variable cap : nat.
  Hypothesis Hh : honest chunk.
  Definition slice (r : reader) : list Z := firstn (end_ r - ptr r) (skipn (ptr r) (buff r)).
  (** the characters still to be delivered *)
  Definition pending (r : reader) : list Z := slice r ++ rest r.
  Definition wf (r : reader) : Prop := length (buff r) = cap + 1 /\ ptr r <= end_ r /\ end_ r <= cap.
  Lemma slice_length r : wf r -> length (slice r) = end_ r - ptr r.
  Proof. intros (A & B & C). unfold slice. rewrite firstn_length, skipn_length. lia. Qed.

  Lemma refill_spec r : wf r -> exists r', refill chunk cap r = Some (r', Nat.min cap (length (pending r))) /\ wf r' /\ pending r' = pending r /\
    ptr r' = 0 /\ end_ r' = Nat.min cap (length (pending r)) /\ read_failed r' = read_failed r.
  Proof.
    intros W. pose proof W as (A & B & C). unfold refill. rewrite cells_ok by lia. cbn [obind]. fold (slice r).
    pose proof (slice_length _ W) as L. rewrite blit_ok by lia. cbn [obind].
    set (b0 := firstn 0 (buff r) ++ slice r ++ skipn (0 + length (slice r)) (buff r)).
    assert (Lb : length b0 = cap + 1) by (unfold b0; rewrite blit_length; lia).
    assert (Fb : firstn (length (slice r)) b0 = slice r).
    { unfold b0. cbn [firstn app]. rewrite firstn_app, Nat.sub_diag, firstn_O, app_nil_r. apply firstn_all. }
    match goal with |- context [loopZ _ ?g _] => destruct (loopZ_spec g
      (fun '(b, e, s, t) => length b = cap + 1 /\ e <= cap /\ firstn e b ++ s = pending r)
      (fun '(b, e, s, t) => length b = cap + 1 /\ e <= cap /\ firstn e b ++ s = pending r /\ (e = cap \/ s = []))
      (fun '(b, e, s, t) => Z.of_nat (cap - e))) with (fuel := (Z.of_nat cap + 2)%Z) (s := (b0, length (slice r), rest r, calls r)) as ([[[b e] s] t] & E & H) end.
    - intros [[[b e] s] t] (H1 & H2 & H3). destruct (e <? cap) eqn:Q.
      + apply Nat.ltb_lt in Q. cbv zeta. destruct (Hh t (cap - e) (length s)) as [K1 K2]. set (n := chunk t (cap - e) (length s)) in *.
        destruct (n =? 0) eqn:Qn.
        * apply Nat.eqb_eq in Qn. eexists. split; [reflexivity|]. repeat split; try assumption. right. destruct s; [reflexivity|]. cbn [length] in K2. lia.
        * apply Nat.eqb_neq in Qn. unfold guard. replace (n <=? length s) with true by (symmetry; apply Nat.leb_le; lia). cbn [obind].
          assert (Ln : length (firstn n s) = n) by (rewrite firstn_length; lia).
          rewrite blit_ok by lia. cbn [obind]. eexists. split; [reflexivity|]. split; [|lia]. split; [rewrite blit_length; lia|]. split; [lia|].
          rewrite Ln, app_assoc, firstn_app. rewrite app_length, firstn_length, Ln. replace (e + n - (Nat.min e (length b) + n)) with 0 by lia.
          rewrite firstn_O, app_nil_r, firstn_all2 by (rewrite app_length, firstn_length, Ln; lia).
          now rewrite <- app_assoc, firstn_skipn.
      + apply Nat.ltb_ge in Q. eexists. split; [reflexivity|]. repeat split; try assumption. left. lia.
    - intros [[[b e] s] t] _. lia.
    - rewrite Fb. split; [exact Lb|]. split; [lia|reflexivity].
    - lia.
    - rewrite E. cbn [obind]. destruct H as (H1 & H2 & H3 & H4).
      destruct (set_nth_some b e 0%Z) as [b' E']; [lia|]. rewrite E'. cbn [obind].
      pose proof (set_nth_length _ _ _ _ E') as L'.
      assert (F' : firstn e b' = firstn e b).
      { apply list_ext. intros i. destruct (Nat.lt_ge_cases i e) as [Hi|Hi].
        - rewrite !nth_error_firstn by lia. rewrite (set_nth_get _ _ _ _ i E'). destruct (Nat.eqb_spec e i); [lia|reflexivity].
        - rewrite !(proj2 (nth_error_None _ _)) by (rewrite firstn_length; lia). reflexivity. }
      assert (Ee : e = Nat.min cap (length (pending r))).
      { rewrite <- H3, app_length, firstn_length. destruct H4 as [-> | -> ]; cbn [length]; lia. }
      eexists. rewrite Ee at 2. split; [reflexivity|]. unfold wf, pending, slice. cbn [buff ptr end_ rest read_failed skipn]. rewrite Nat.sub_0_r, F'.
      repeat split; try lia; try assumption.
  Qed.
  Lemma slice_prefix r : wf r -> slice r = firstn (end_ r - ptr r) (pending r).
  Proof. intros W. unfold pending. rewrite firstn_app, slice_length, Nat.sub_diag, firstn_O, app_nil_r by exact W. symmetry. apply firstn_all2. rewrite slice_length by exact W. lia. Qed.

  Lemma reserve_spec r n : wf r -> exists r' k, reserve chunk cap r n = Some (r', k) /\ wf r' /\ pending r' = pending r /\ k = end_ r' - ptr r' /\
    k <= length (pending r) /\ (n <= cap -> Nat.min n (length (pending r)) <= k) /\ (0 < cap -> k = 0 -> n = 0 \/ pending r = []) /\ read_failed r' = read_failed r.
  Proof.
    intros W. pose proof W as (A & B & C). unfold reserve, guard. apply Nat.leb_le in B as B'. rewrite B'. cbn [obind].
    assert (Lp : length (pending r) = end_ r - ptr r + length (rest r)) by (unfold pending; rewrite app_length, slice_length by exact W; reflexivity).
    destruct (n <=? end_ r - ptr r) eqn:Q.
    - apply Nat.leb_le in Q. exists r, (end_ r - ptr r). split; [reflexivity|]. split; [exact W|]. repeat split; try lia.
    - apply Nat.leb_gt in Q. destruct (refill_spec r W) as (r' & E & W' & P' & Z' & E' & F'). exists r', (Nat.min cap (length (pending r))).
      split; [exact E|]. split; [exact W'|]. split; [exact P'|]. split; [rewrite Z', E'; lia|]. split; [lia|]. split; [lia|]. split; [|exact F'].
      intros Hc H0. right. apply length_zero_iff_nil. lia.
  Qed.
  Lemma seek_pending r k : wf r -> ptr r + k <= end_ r -> wf (seek r (ptr r + k)) /\ pending (seek r (ptr r + k)) = skipn k (pending r).
  Proof.
    intros W H. pose proof W as (A & B & C). split; [unfold wf; cbn; lia|]. unfold pending at 1. unfold slice. cbn [end_ ptr buff seek rest].
    unfold pending. rewrite skipn_app, slice_length by exact W. replace (k - (end_ r - ptr r)) with 0 by lia. cbn [skipn]. f_equal. unfold slice.
    rewrite skipn_firstn_comm. replace (end_ r - ptr r - k) with (end_ r - (ptr r + k)) by lia. f_equal.
    apply list_ext. intros i. rewrite !nth_error_skipn. f_equal. lia.
  Qed.
  Lemma nth_pending r c p : wf r -> ptr r < end_ r -> pending r = c :: p -> nth_error (buff r) (ptr r) = Some c.
  Proof.
    intros W H E. pose proof W as (A & B & C). pose proof (slice_length _ W) as L. unfold pending in E. destruct (slice r) as [|c' q] eqn:S; [cbn in L; lia|].
    injection E as -> _. unfold slice in S. assert (N : nth_error (firstn (end_ r - ptr r) (skipn (ptr r) (buff r))) 0 = Some c) by now rewrite S.
    rewrite nth_error_firstn in N by lia. rewrite nth_error_skipn, Nat.add_0_r in N. exact N.
  Qed.
  (** the character that unread_char gives back is still in the buffer *)
  Definition remembers (r : reader) (l : option Z) : Prop := match l with None => True | Some c => 0 < ptr r /\ nth_error (buff r) (ptr r - 1) = Some c end.
  Definition sim (r : reader) (v : rview) : Prop := wf r /\ pending r = pend v /\ read_failed r = failed v /\ remembers r (last v).

  Lemma read_char_spec r v : 0 < cap -> sim r v -> exists r' c, read_char chunk cap r = Some (r', c) /\
    match pend v with [] => c = (-1)%Z /\ sim r' (mkv [] None true) | x :: p => c = x /\ sim r' (mkv p (Some x) (failed v)) end.
  Proof.
    intros Hc (W & P & F & _). unfold read_char. destruct (reserve_spec r 1 W) as (r' & k & E & W' & P' & K & K1 & K2 & K3 & F'). rewrite E. cbn [obind].
    destruct (pend v) as [|x p] eqn:Q.
    - rewrite P in K1. cbn in K1. assert (k = 0) by lia. subst k. rewrite H. cbn [Nat.ltb Nat.leb].
      eexists _, _. split; [reflexivity|]. split; [reflexivity|]. split; [exact W'|]. split; [cbn [pend]; rewrite <- P, <- P'; reflexivity|]. split; [reflexivity|exact I].
    - assert (0 < k). { destruct (Nat.eq_dec k 0) as [->|]; [|lia]. destruct K3 as [|K3]; [lia|reflexivity|lia|]. congruence. }
      destruct (k <? 1) eqn:Q1; [apply Nat.ltb_lt in Q1; lia|]. rewrite P in P'. rewrite (nth_pending _ _ _ W' ltac:(lia) P'). cbn [obind].
      eexists _, _. split; [reflexivity|]. split; [reflexivity|]. destruct (seek_pending r' 1 W' ltac:(lia)) as [S1 S2].
      split; [exact S1|]. split; [rewrite S2, P'; reflexivity|]. split; [cbn; congruence|]. cbn [remembers ptr seek buff last]. split; [lia|].
      replace (ptr r' + 1 - 1) with (ptr r') by lia. exact (nth_pending _ _ _ W' ltac:(lia) P').
  Qed.
  Lemma unread_spec r p c f : sim r (mkv p (Some c) f) -> exists r', unread_char r = Some r' /\ sim r' (mkv (c :: p) None f).
  Proof.
    intros (W & P & F & R). cbn [last remembers pend failed] in *. destruct R as [R1 R2]. unfold unread_char. destruct (ptr r) as [|q] eqn:Q; [lia|].
    eexists. split; [reflexivity|]. pose proof W as (A & B & C). rewrite Q in B.
    assert (W' : wf (seek r q)) by (unfold wf; cbn; lia). split; [exact W'|]. cbn [failed pend last].
    assert (E : pending r = skipn 1 (pending (seek r q))).
    { destruct (seek_pending (seek r q) 1 W') as [_ E]; [cbn; lia|]. cbn [ptr seek] in E. rewrite <- E. destruct r; cbn in *; subst; unfold seek; cbn. now rewrite Nat.add_1_r. }
    assert (L : length (pending (seek r q)) >= 1) by (unfold pending; rewrite app_length, slice_length by exact W'; cbn; lia).
    destruct (pending (seek r q)) as [|c' p'] eqn:Sq; [cbn in L; lia|]. cbn [skipn] in E.
    pose proof (nth_pending _ _ _ W' ltac:(cbn; lia) Sq) as N. cbn [buff ptr seek] in N. replace (S q - 1) with q in R2 by lia.
    split; [|split; [exact F|exact I]]. rewrite N in R2. injection R2 as ->. now rewrite <- P, E.
  Qed.
  Lemma skip_spec r n : wf r -> exists r' k, skip r n = Some (r', k) /\ wf r' /\ k <= n /\ k <= length (pending r) /\ pending r' = skipn k (pending r) /\ read_failed r' = read_failed r.
  Proof.
    intros W. pose proof W as (A & B & C). unfold skip, guard. apply Nat.leb_le in B as B'. rewrite B'. cbn [obind].
    eexists _, _. split; [reflexivity|]. destruct (seek_pending r (Nat.min n (end_ r - ptr r)) W) as [S1 S2]; [lia|].
    split; [exact S1|]. split; [lia|]. split; [unfold pending; rewrite app_length, slice_length by exact W; lia|]. split; [exact S2|reflexivity].
  Qed.

  (** one call *)
  Definition step (r : reader) (o : rop) : option (reader * rout) :=
    match o with
    | ReadChar => let* '(r, c) := read_char chunk cap r in Some (r, OInt c)
    | Read n => let* '(r, l) := read chunk cap r n in Some (r, OBytes l)
    | Skip n => let* '(r, k) := skip r n in Some (r, OCount k)
    | Unread => let* r := unread_char r in Some (r, OUnit)
    | Data n => let* '(r, o) := data chunk cap r n in Some (r, match o with Some l => OPtr l | None => ONull end)
    | Reserve n => let* '(r, k) := reserve chunk cap r n in Some (r, OCount k)
    end.
  Lemma step_sim r v o : 0 < cap -> sim r v -> legal v o -> exists r' x v', step r o = Some (r', x) /\ rspec cap v o x v' /\ sim r' v'.
  Proof.
    intros Hc Hs Hl. pose proof Hs as (W & P & F & R). destruct v as [p l f]. cbn [pend last failed] in *. destruct o as [|n|n| |n|n]; cbn [step].
    - destruct (read_char_spec r _ Hc Hs) as (r' & c & E & H). rewrite E. cbn [obind]. cbn [pend failed] in H.
      destruct p as [|x p]; destruct H as [-> H]; eexists _, _, _; (split; [reflexivity|]); (split; [|exact H]); constructor.
    - unfold read. destruct (reserve_spec r n W) as (r' & k & E & W' & P' & K & K1 & K2 & K3 & F'). rewrite E. cbn [obind].
      set (q := if k <? n then fail r' else r').
      assert (Hq : wf q /\ ptr q = ptr r' /\ end_ q = end_ r' /\ buff q = buff r' /\ pending q = pending r' /\ read_failed q = (f || (k <? n))%bool).
      { unfold q. destruct (k <? n); cbn; repeat split; try exact W'; try reflexivity; try apply W'.
        - now rewrite orb_true_r. - now rewrite orb_false_r, F'. }
      destruct Hq as (Q1 & Q2 & Q3 & Q4 & Q5 & Q6). destruct W' as (A' & B' & C').
      rewrite cells_ok by (rewrite ?Q4; lia). cbn [obind]. destruct (seek_pending q (Nat.min n k) Q1) as [S1 S2]; [lia|].
      eexists _, _, _. split; [reflexivity|]. split.
      + replace (firstn (ptr q + Nat.min n k - ptr q) (skipn (ptr q) (buff q))) with (firstn (Nat.min n k) p).
        * apply S_read; [lia|rewrite <- P; lia|rewrite <- P; lia|]. intros H0. rewrite <- P. destruct (Nat.eq_dec n 0); [now left|]. apply K3; lia.
        * rewrite <- P, <- P', <- Q5. unfold pending. rewrite firstn_app, slice_length by exact Q1. replace (Nat.min n k - (end_ q - ptr q)) with 0 by lia.
          rewrite firstn_O, app_nil_r. unfold slice. rewrite firstn_firstn. f_equal. lia.
      + split; [exact S1|]. cbn [pend failed last]. split; [now rewrite S2, Q5, P', P|]. split; [|exact I]. cbn [read_failed seek]. rewrite Q6. f_equal.
        apply eq_true_iff_eq. rewrite !Nat.ltb_lt. lia.
    - destruct (skip_spec r n W) as (r' & k & E & W' & K1 & K2 & P' & F'). rewrite E. cbn [obind]. eexists _, _, _. split; [reflexivity|].
      split; [apply S_skip; [exact K1|now rewrite <- P]|]. split; [exact W'|]. cbn [pend failed last remembers]. repeat split; congruence.
    - destruct l as [c|]; [|now elim (Hl eq_refl)]. destruct (unread_spec r p c f Hs) as (r' & E & H). rewrite E. cbn [obind].
      eexists _, _, _. split; [reflexivity|]. split; [apply S_unread|exact H].
    - unfold data. destruct (reserve_spec r n W) as (r' & k & E & W' & P' & K & K1 & K2 & K3 & F'). rewrite E. cbn [obind]. destruct (k <? n) eqn:Q.
      + apply Nat.ltb_lt in Q. eexists _, _, _. split; [reflexivity|]. split; [apply S_null; rewrite <- P; intros; lia|]. split; [exact W'|]. unfold sim. change (pending (fail r')) with (pending r'). cbn [pend failed last remembers]. repeat split; congruence.
      + apply Nat.ltb_ge in Q. pose proof W' as (A' & B' & C'). rewrite cells_ok by lia. cbn [obind]. fold (slice r').
        rewrite (slice_prefix _ W'), P', P, <- K. eexists _, _, _. split; [reflexivity|]. split; [apply S_data; [exact Q|now rewrite <- P]|].
        split; [exact W'|]. cbn [pend failed last remembers]. repeat split; congruence.
    - destruct (reserve_spec r n W) as (r' & k & E & W' & P' & K & K1 & K2 & K3 & F'). rewrite E. cbn [obind]. eexists _, _, _. split; [reflexivity|].
      split; [apply S_reserve; rewrite <- P; assumption|]. split; [exact W'|]. cbn [pend failed last remembers]. repeat split; congruence.
  Qed.
  Lemma new_sim s : sim (reader_new cap s) (mkv s None false).
  Proof. unfold sim, wf, pending, slice, reader_new; cbn. rewrite repeat_length. repeat split; try lia. Qed.
End R.
