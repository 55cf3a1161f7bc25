(** Bit vectors: reversal, rotation, swapping of ranges, shifts. *)
From Verif Require Import Lib BitsModel BitsSpec BitsProofs BitsProofs2 BitVecModel BitVecSpec BitVecProofs BitVecProofs2 BitVecProofs3 BitVecProofs4.
Open Scope nat_scope.

Section R.
Variable k : nat.
Notation L := (L k). Notation W := (W k). Notation bt := (bt k). Notation wf := (wf k). Notation wd := (wd k).
Notation nw := (num_words k).

Section Rev.
Hypothesis HK : word_type k.
Lemma brev_run x : wd x -> exists r, bit_reverse k x = Some r /\ wd r /\ forall j, j < L -> tb r j = tb x (L - 1 - j).
Proof.
  intros Wx. destruct (bit_reverse_spec k x HK Wx) as (r & E & Wr & T). exists r. split; [exact E|]. split; [exact Wr|]. intros j Hj. unfold tb. rewrite T by (pose proof (W_L k) as EW; unfold BitVecModel.W in EW; rewrite EW; lia). f_equal. pose proof (W_L k) as EW. unfold BitVecModel.W in EW. rewrite EW. lia.
Qed.
(** whole words reversed in place, before their order is reversed *)
Lemma rev_words ws ib ie l : wf ws -> ib < ie -> ie < length ws -> l < L + L - 1 ->
  exists t, (if l <? L then for_down (ib + 1) ie (fun i ws => let* x := word_at2 k ws (i - 1) l in let* x := bit_reverse k x in set_nth ws i x) ws
             else for_range (ib + 1) ie (fun i ws => let* x := word_at2 k ws i (l - L) in let* x := bit_reverse k x in set_nth ws i x) ws) = Some t /\
    length t = length ws /\ wf t /\ (forall i, i <= ib \/ ie <= i -> nth i t 0%Z = nth i ws 0%Z) /\ (forall i j, ib < i < ie -> j < L -> tb (nth i t 0%Z) j = bt ws (i * L + l - 1 - j)).
Proof.
  intros F H1 H2 Hl. pose proof (L_pos k) as LP. destruct (Nat.ltb_spec l L) as [C|C].
  - match goal with |- context [for_down ?a ?b ?g ?s0] => destruct (for_down_spec (fun m t => length t = length ws /\ wf t /\ (forall i, i < m \/ ie <= i -> nth i t 0%Z = nth i ws 0%Z) /\ (forall i j, m <= i < ie -> j < L -> tb (nth i t 0%Z) j = bt ws (i * L + l - 1 - j))) g a b s0) as (t & -> & T1 & T2 & T3 & T4) end.
    + lia.
    + repeat split; auto. intros i j Hi. lia.
    + intros i t Hi (T1 & T2 & T3 & T4). destruct (word_at2_run k t (i - 1) l T2 C) as (x & -> & Wx & Tx); [lia|intros _; lia|]. cbn [obind]. destruct (brev_run x Wx) as (r & -> & Wr & Tr). cbn [obind]. destruct (set_ok k t i r) as (t' & -> & A1 & A2 & A3); [lia|exact T2|exact Wr|]. exists t'. split; [reflexivity|]. split; [lia|]. split; [exact A2|]. split.
      * intros i' Hi'. rewrite A3. destruct (Nat.eqb_spec i i'); [lia|]. apply T3. lia.
      * intros i' j Hi' Hj. rewrite A3. destruct (Nat.eqb_spec i i') as [<-|N]; [|apply T4; lia]. rewrite Tr, Tx by lia. replace ((i - 1) * L + l + (L - 1 - j)) with (i * L + l - 1 - j) by nia. assert (P : i * L + l - 1 - j < (i + 1) * L) by nia. destruct (pos_split k (i * L + l - 1 - j)) as (Ep & Hp). rewrite Ep, !bt_word by exact Hp. rewrite T3; [reflexivity|]. left. apply Nat.div_lt_upper_bound; lia.
    + exists t. split; [reflexivity|]. split; [exact T1|]. split; [exact T2|]. split; [intros i Hi; apply T3; lia|intros i j Hi; apply T4; lia].
  - match goal with |- context [for_range ?a ?b ?g ?s0] => destruct (for_range_spec (fun m t => length t = length ws /\ wf t /\ (forall i, i <= ib \/ m <= i -> nth i t 0%Z = nth i ws 0%Z) /\ (forall i j, ib < i < m -> j < L -> tb (nth i t 0%Z) j = bt ws (i * L + l - 1 - j))) g a b s0) as (t & -> & T1 & T2 & T3 & T4) end.
    + lia.
    + repeat split; auto. intros i j Hi. lia.
    + intros i t Hi (T1 & T2 & T3 & T4). destruct (word_at2_run k t i (l - L) T2) as (x & -> & Wx & Tx); [lia|lia|intros _; lia|]. cbn [obind]. destruct (brev_run x Wx) as (r & -> & Wr & Tr). cbn [obind]. destruct (set_ok k t i r) as (t' & -> & A1 & A2 & A3); [lia|exact T2|exact Wr|]. exists t'. split; [reflexivity|]. split; [lia|]. split; [exact A2|]. split.
      * intros i' Hi'. rewrite A3. destruct (Nat.eqb_spec i i'); [lia|]. apply T3. lia.
      * intros i' j Hi' Hj. rewrite A3. destruct (Nat.eqb_spec i i') as [<-|N]; [|apply T4; lia]. rewrite Tr, Tx by lia. replace (i * L + (l - L) + (L - 1 - j)) with (i * L + l - 1 - j) by lia. assert (P : i * L <= i * L + l - 1 - j) by lia. destruct (pos_split k (i * L + l - 1 - j)) as (Ep & Hp). rewrite Ep, !bt_word by exact Hp. rewrite T3; [reflexivity|]. right. apply Nat.div_le_lower_bound; lia.
    + exists t. split; [reflexivity|]. split; [exact T1|]. split; [exact T2|]. split; [intros i Hi; apply T3; lia|intros i j Hi; apply T4; lia].
Qed.
(** the order of the words between ib and ie reversed *)
Lemma swap_words ws ib ie : wf ws -> ib < ie -> ie < length ws ->
  exists t, for_range 0 ((ie - 1 - ib) / 2) (fun t ws =>
    let* x := nth_error ws (ib + 1 + t) in let* y := nth_error ws (ie - 1 - t) in let* ws := set_nth ws (ib + 1 + t) y in set_nth ws (ie - 1 - t) x) ws = Some t /\
    length t = length ws /\ wf t /\ (forall i, nth i t 0%Z = if (ib <? i) && (i <? ie) then nth (ib + ie - i) ws 0%Z else nth i ws 0%Z).
Proof.
  intros F H1 H2. set (M := (ie - 1 - ib) / 2). assert (HM : 2 * M <= ie - 1 - ib /\ ie - 1 - ib < 2 * M + 2) by (unfold M; pose proof (Nat.div_mod (ie - 1 - ib) 2 ltac:(lia)); pose proof (Nat.mod_upper_bound (ie - 1 - ib) 2 ltac:(lia)); lia).
  match goal with |- context [for_range 0 M ?g ?s0] => destruct (for_range_spec (fun n t => length t = length ws /\ wf t /\ (forall i, nth i t 0%Z = if ((ib <? i) && (i <? ib + 1 + n)) || ((ie - 1 - n <? i) && (i <? ie)) then nth (ib + ie - i) ws 0%Z else nth i ws 0%Z)) g 0 M s0) as (t & -> & T1 & T2 & T3) end.
  - lia.
  - split; [reflexivity|]. split; [exact F|]. intros i. destruct (Nat.ltb_spec ib i); destruct (Nat.ltb_spec i (ib + 1 + 0)); destruct (Nat.ltb_spec (ie - 1 - 0) i); destruct (Nat.ltb_spec i ie); cbn [andb orb]; try lia; reflexivity.
  - intros n t Hn (T1 & T2 & T3). rewrite (nth_some t (ib + 1 + n) 0%Z) by lia. cbn [obind]. rewrite (nth_some t (ie - 1 - n) 0%Z) by lia. cbn [obind].
    destruct (set_ok k t (ib + 1 + n) (nth (ie - 1 - n) t 0%Z)) as (t1 & -> & A1 & A2 & A3); [lia|exact T2|now apply wf_nth|]. cbn [obind]. destruct (set_ok k t1 (ie - 1 - n) (nth (ib + 1 + n) t 0%Z)) as (t2 & -> & B1 & B2 & B3); [lia|exact A2|now apply wf_nth|]. exists t2. split; [reflexivity|]. split; [lia|]. split; [exact B2|]. intros i. rewrite B3, A3, !T3.
    assert (X : ((ib <? ie - 1 - n) && (ie - 1 - n <? ib + 1 + n)) || ((ie - 1 - n <? ie - 1 - n) && (ie - 1 - n <? ie)) = false). { rewrite (Nat.ltb_irrefl (ie - 1 - n)). destruct (Nat.ltb_spec (ie - 1 - n) (ib + 1 + n)); [lia|]. now rewrite andb_false_r. }
    assert (Y : ((ib <? ib + 1 + n) && (ib + 1 + n <? ib + 1 + n)) || ((ie - 1 - n <? ib + 1 + n) && (ib + 1 + n <? ie)) = false). { rewrite (Nat.ltb_irrefl (ib + 1 + n)). destruct (Nat.ltb_spec (ie - 1 - n) (ib + 1 + n)); [lia|]. now rewrite andb_false_r. }
    rewrite X, Y. destruct (Nat.eqb_spec (ie - 1 - n) i) as [<-|N1].
    + replace (ib + 1 + n) with (ib + ie - (ie - 1 - n)) at 1 by lia. destruct (Nat.ltb_spec (ie - 1 - S n) (ie - 1 - n)); [|lia]. destruct (Nat.ltb_spec (ie - 1 - n) ie); [|lia]. now rewrite orb_true_r.
    + destruct (Nat.eqb_spec (ib + 1 + n) i) as [<-|N2].
      * replace (ie - 1 - n) with (ib + ie - (ib + 1 + n)) at 1 by lia. destruct (Nat.ltb_spec ib (ib + 1 + n)); [|lia]. destruct (Nat.ltb_spec (ib + 1 + n) (ib + 1 + S n)); [|lia]. reflexivity.
      * replace (i <? ib + 1 + S n) with (i <? ib + 1 + n) by (destruct (Nat.ltb_spec i (ib + 1 + n)); destruct (Nat.ltb_spec i (ib + 1 + S n)); try lia; reflexivity). replace (ie - 1 - S n <? i) with (ie - 1 - n <? i) by (destruct (Nat.ltb_spec (ie - 1 - n) i); destruct (Nat.ltb_spec (ie - 1 - S n) i); try lia; reflexivity). reflexivity.
  - exists t. split; [reflexivity|]. split; [exact T1|]. split; [exact T2|]. intros i. rewrite T3. destruct (Nat.ltb_spec ib i); destruct (Nat.ltb_spec i ie); cbn [andb]; rewrite ?andb_false_r; cbn [orb].
    + destruct (Nat.ltb_spec i (ib + 1 + M)); [reflexivity|]. cbn [orb]. destruct (Nat.ltb_spec (ie - 1 - M) i); [reflexivity|]. cbn [andb]. f_equal. lia.
    + destruct (Nat.ltb_spec i (ib + 1 + M)); [lia|reflexivity].
    + destruct (Nat.ltb_spec (ie - 1 - M) i); [lia|reflexivity].
    + reflexivity.
Qed.
Lemma reverse_words_run ws b e n : wf ws -> length ws = nw n + 1 -> b < e -> e <= n ->
  exists t, bv_reverse_words k ws b e = Some t /\ length t = length ws /\ wf t /\ forall p, bt t p = if (b <=? p) && (p <? e) then bt ws (b + e - 1 - p) else bt ws p.
Proof.
  intros F Hw Hbe Hen. unfold bv_reverse_words. destruct (Nat.leb_spec e b); [lia|]. destruct (pos_split k b) as (Eb & Hlb). destruct (pos_split k e) as (Ee & Hle). assert (He : e / L < length ws) by (apply (div_ok k n); assumption). set (ib := b / L) in *. set (ie := e / L) in *. set (lb := b mod L) in *. set (le := e mod L) in *. pose proof (L_pos k) as LP.
  assert (Hib : ib <= ie) by (unfold ib, ie; apply Nat.div_le_mono; lia).
  destruct (lsh_run k (WW k) lb Hlb) as (mb0 & -> & Wmb & Tmb). cbn [obind]. destruct (first_bits_run k le Hle) as (me0 & -> & Wme & Tme). cbn [obind].
  assert (Tmb' : forall j, j < L -> tb mb0 j = (lb <=? j)). { intros j Hj. rewrite Tmb by exact Hj. destruct (Nat.leb_spec lb j); [cbn [andb]; apply WW_tb; lia|reflexivity]. } clear Tmb.
  rewrite (nth_some ws ie 0%Z) by lia. cbn [obind]. set (w2 := nth ie ws 0%Z). assert (Ww2 : wd w2) by now apply wf_nth. set (me := if ib =? ie then Z.land mb0 me0 else me0). set (mb := if ib =? ie then Z.land mb0 me0 else mb0).
  assert (Wme' : forall j, j < L -> tb me j = ((negb (ib =? ie)) || (lb <=? j)) && (j <? le)). { intros j Hj. unfold me. destruct (ib =? ie); cbn [negb orb]; [rewrite land_tb, Tmb', Tme by exact Hj; reflexivity|apply Tme]. }
  assert (Xe : exists we, (if negb (le =? 0) then let* x := word_at k ws b in let* x := bit_reverse k x in let* x := rsh k x (L - le) in Some (Z.lor (Z.land w2 (bnot W me)) (Z.land x me)) else Some (Z.land w2 (bnot W me))) = Some we /\ wd we /\
    forall j, j < L -> tb we j = if tb me j then bt ws (b + le - 1 - j) else tb w2 j).
  { destruct (Nat.eqb_spec le 0) as [E0|N0]; cbn [negb].
    - eexists. split; [reflexivity|]. split; [now apply land_wd|]. intros j Hj. rewrite land_tb, bnot_tb by exact Hj. rewrite Wme' by exact Hj. destruct (Nat.ltb_spec j le); [lia|]. rewrite andb_false_r. apply andb_true_r.
    - destruct (word_at_run k ws b F) as (x & -> & Wx & Tx); [apply (read_ok k n); [exact Hw|lia]|]. cbn [obind]. destruct (brev_run x Wx) as (r & -> & Wr & Tr). cbn [obind]. destruct (rsh_run k r (L - le) Wr) as (y & -> & Wy & Ty); [lia|]. cbn [obind]. eexists. split; [reflexivity|]. split; [apply lor_wd; now apply land_wd|]. intros j Hj. rewrite lor_tb, !land_tb, bnot_tb by exact Hj. destruct (tb me j) eqn:Em; cbn [negb]; rewrite ?andb_true_r, ?andb_false_r, ?orb_false_r; cbn [orb]; [|reflexivity]. rewrite Wme' in Em by exact Hj. apply andb_prop in Em as (_ & Em). apply Nat.ltb_lt in Em. rewrite Ty, Tr, Tx by lia. f_equal. lia. }
  destruct Xe as (we & -> & Wwe & Twe). cbn [obind].
  destruct (Nat.eqb_spec ib ie) as [Ei|Ni].
  - destruct (set_ok k ws ie we) as (t & -> & A1 & A2 & A3); [lia|exact F|exact Wwe|]. exists t. split; [reflexivity|]. split; [exact A1|]. split; [exact A2|]. intros p. destruct (pos_split k p) as (Ep & Hp). rewrite Ep at 1. rewrite (bt_word k t (p / L) (p mod L) Hp), A3. destruct (Nat.eqb_spec ie (p / L)) as [E1|M1].
    + rewrite Twe, Wme' by exact Hp. cbn [negb orb]. assert (Bp : bt ws p = tb w2 (p mod L)) by (rewrite Ep at 1; rewrite (bt_word k ws (p / L) (p mod L) Hp), <- E1; reflexivity). rewrite Bp.
      destruct (Nat.leb_spec b p); destruct (Nat.leb_spec lb (p mod L)); try (exfalso; nia); cbn [andb]; [|reflexivity]. destruct (Nat.ltb_spec p e); destruct (Nat.ltb_spec (p mod L) le); try (exfalso; nia); [|reflexivity]. f_equal. nia.
    + rewrite <- (bt_word k ws (p / L) (p mod L) Hp), <- Ep. destruct (Nat.leb_spec b p); [|reflexivity]. destruct (Nat.ltb_spec p e); [|reflexivity]. exfalso. apply M1. assert (ib <= p / L) by (unfold ib; apply Nat.div_le_mono; lia). assert (p / L <= ie) by (unfold ie; apply Nat.div_le_mono; lia). lia.
  - assert (HL1 : ib * L + L <= ie * L) by nia. rewrite (nth_some ws ib 0%Z) by lia. cbn [obind]. set (w := nth ib ws 0%Z). assert (Ww : wd w) by now apply wf_nth.
    destruct (word_at_run k ws (e - (L - lb)) F) as (x & -> & Wx & Tx); [apply (read_ok k n); [exact Hw|lia]|]. cbn [obind]. destruct (brev_run x Wx) as (r & -> & Wr & Tr). cbn [obind].
    assert (Emb : mb = mb0) by reflexivity || (unfold mb; destruct (Nat.eqb_spec ib ie); [contradiction|reflexivity]). set (wb := Z.lor (Z.land w (bnot W mb)) (Z.land r mb)). assert (Wwb : wd wb) by (apply lor_wd; now apply land_wd).
    assert (Twb : forall j, j < L -> tb wb j = if lb <=? j then bt ws (e + lb - 1 - j) else tb w j). { intros j Hj. unfold wb. rewrite lor_tb, !land_tb, bnot_tb, Emb, Tmb' by exact Hj. destruct (Nat.leb_spec lb j); cbn [negb]; rewrite ?andb_true_r, ?andb_false_r, ?orb_false_r; cbn [orb]; [|reflexivity]. rewrite Tr, Tx by lia. f_equal. lia. }
    destruct (rev_words ws ib ie (lb + le) F) as (t1 & -> & A1 & A2 & A3 & A4); [lia|lia|lia|]. cbn [obind]. destruct (swap_words t1 ib ie A2) as (t2 & -> & B1 & B2 & B3); [lia|lia|]. cbn [obind].
    destruct (set_ok k t2 ib wb) as (t3 & -> & C1 & C2 & C3); [lia|exact B2|exact Wwb|]. cbn [obind]. destruct (set_ok k t3 ie we) as (t4 & -> & D1 & D2 & D3); [lia|exact C2|exact Wwe|]. exists t4. split; [reflexivity|]. split; [lia|]. split; [exact D2|].
    intros p. destruct (pos_split k p) as (Ep & Hp). rewrite Ep at 1. rewrite (bt_word k t4 (p / L) (p mod L) Hp), D3, C3, B3.
    assert (Bp : bt ws p = tb (nth (p / L) ws 0%Z) (p mod L)) by (rewrite Ep at 1; now rewrite (bt_word k ws (p / L) (p mod L) Hp)).
    destruct (Nat.eqb_spec ie (p / L)) as [E1|M1].
    + rewrite Twe, Wme' by exact Hp. cbn [negb orb andb]. rewrite Bp, <- E1. fold w2. assert (b <= p) by nia. destruct (Nat.leb_spec b p); [|lia]. cbn [andb]. destruct (Nat.ltb_spec p e); destruct (Nat.ltb_spec (p mod L) le); try (exfalso; nia); [|reflexivity]. f_equal. rewrite <- E1 in Ep. clear - Ep Ee. lia.
    + destruct (Nat.eqb_spec ib (p / L)) as [E2|M2].
      * rewrite Twb, Bp, <- E2 by exact Hp. fold w. rewrite <- E2 in Ep. assert (p < e) by (clear - Ep Eb Ee Hp Hlb Hle HL1 Hib LP; lia). destruct (Nat.ltb_spec p e); [|lia]. rewrite andb_true_r. destruct (Nat.leb_spec b p); destruct (Nat.leb_spec lb (p mod L)); try (exfalso; clear - Ep Eb H H1 H2 H3; lia); [|reflexivity]. f_equal. clear - Ep Eb Ee Hp Hlb Hle HL1 Hib LP. lia.
      * destruct (Nat.ltb_spec ib (p / L)) as [G1|G1]; [destruct (Nat.ltb_spec (p / L) ie) as [G2|G2]|]; cbn [andb].
        { rewrite A4 by (try exact Hp; lia). assert (b <= p) by nia. assert (p < e) by nia. destruct (Nat.leb_spec b p); [|lia]. destruct (Nat.ltb_spec p e); [|lia]. cbn [andb]. f_equal. assert ((ib + ie - p / L) * L = ib * L + ie * L - p / L * L) by nia. lia. }
        { rewrite A3 by (right; lia). rewrite Bp. destruct (Nat.ltb_spec p e); [|now rewrite andb_false_r]. exfalso. assert (p / L <= ie) by (unfold ie; apply Nat.div_le_mono; lia). lia. }
        { rewrite A3 by (left; lia). rewrite Bp. destruct (Nat.leb_spec b p); [|reflexivity]. exfalso. assert (ib <= p / L) by (unfold ib; apply Nat.div_le_mono; lia). lia. }
Qed.
Lemma reverse_run v l b e : represents k v l -> b <= e -> e <= length l -> exists v', bv_reverse k v b e = Some v' /\ represents k v' (replace_range b e (rev (slice b e l)) l).
Proof.
  intros R Hb He. pose proof R as R0. apply rep_elim in R as (R1 & R2 & R3 & R4). unfold bv_reverse. destruct (Nat.eq_dec b e) as [->|N].
  - unfold bv_reverse_words. rewrite Nat.leb_refl. cbn [obind]. eexists. split; [reflexivity|]. unfold slice. rewrite Nat.sub_diag. cbn [firstn rev]. unfold replace_range. cbn [app]. rewrite firstn_skipn. destruct v. exact R0.
  - destruct (reverse_words_run (snd v) b e (length l) R3 R2) as (t & -> & A1 & A2 & A3); [lia|lia|]. cbn [obind]. eexists. split; [reflexivity|]. assert (Lm : length (rev (slice b e l)) = e - b) by (rewrite rev_length, slice_length by lia; reflexivity). apply rep_intro; rewrite ?replace_range_length by assumption; [exact R1|lia|exact A2|]. intros p. rewrite A3, replace_range_nth, !R4 by assumption. destruct (Nat.leb_spec b p); [|reflexivity]. destruct (Nat.ltb_spec p e); [|reflexivity]. cbn [andb]. rewrite rev_nth by (rewrite slice_length by lia; lia). rewrite slice_length, slice_nth by lia. f_equal. lia.
Qed.

Lemma rev_at {A} (P X S : list A) : replace_range (length P) (length P + length X) (rev (slice (length P) (length P + length X) (P ++ X ++ S))) (P ++ X ++ S) = P ++ rev X ++ S.
Proof.
  unfold replace_range, slice. replace (length P + length X - length P) with (length X) by lia. rewrite firstn_app, Nat.sub_diag, firstn_all, firstn_O, app_nil_r. f_equal. rewrite skipn_app, Nat.sub_diag, skipn_all. cbn [app skipn]. rewrite firstn_app, Nat.sub_diag, firstn_all, firstn_O, app_nil_r. f_equal. rewrite app_assoc, skipn_app, app_length, Nat.sub_diag, <- app_length, skipn_all. reflexivity.
Qed.
Lemma reverse_at v (P X S : list bool) : represents k v (P ++ X ++ S) -> exists v', bv_reverse k v (length P) (length P + length X) = Some v' /\ represents k v' (P ++ rev X ++ S).
Proof. intros R. destruct (reverse_run v _ (length P) (length P + length X) R) as (v' & E & R'); [lia|rewrite !app_length; lia|]. rewrite rev_at in R'. eauto. Qed.
Lemma reverse_at' v (P X S : list bool) l b e : represents k v l -> l = P ++ X ++ S -> b = length P -> e = length P + length X -> exists v', bv_reverse k v b e = Some v' /\ represents k v' (P ++ rev X ++ S).
Proof. intros R -> -> ->. now apply reverse_at. Qed.
Lemma rotate_run v (P A B S : list bool) b mid e : represents k v (P ++ A ++ B ++ S) -> b = length P -> mid = b + length A -> e = mid + length B ->
  exists v', bv_rotate k v b mid e = Some v' /\ represents k v' (P ++ B ++ A ++ S).
Proof.
  intros R Eb Em Ee. unfold bv_rotate. destruct (reverse_at' v P A (B ++ S) _ b mid R) as (v1 & -> & R1); [reflexivity|lia|lia|]. cbn [obind].
  destruct (reverse_at' v1 (P ++ rev A) B S _ mid e R1) as (v2 & -> & R2); [now rewrite <- app_assoc|rewrite app_length, rev_length; lia|rewrite app_length, rev_length; lia|]. cbn [obind].
  destruct (reverse_at' v2 P (rev A ++ rev B) S _ b e R2) as (v3 & -> & R3); [now rewrite <- !app_assoc|lia|rewrite app_length, !rev_length; lia|]. exists v3. split; [reflexivity|]. rewrite rev_app_distr, !rev_involutive, <- app_assoc in R3. exact R3.
Qed.
Lemma swap_run v (P A M B S : list bool) b1 e1 b2 e2 : represents k v (P ++ A ++ M ++ B ++ S) -> b1 = length P -> e1 = b1 + length A -> b2 = e1 + length M -> e2 = b2 + length B ->
  exists v', bv_swap_ordered k v b1 e1 b2 e2 = Some v' /\ represents k v' (P ++ B ++ M ++ A ++ S).
Proof.
  intros R E1 E2 E3 E4. unfold bv_swap_ordered. destruct (reverse_at' v P A (M ++ B ++ S) _ b1 e1 R) as (v1 & -> & R1); [reflexivity|lia|lia|]. cbn [obind].
  destruct (reverse_at' v1 (P ++ rev A) M (B ++ S) _ e1 b2 R1) as (v2 & -> & R2); [now rewrite <- app_assoc|rewrite app_length, rev_length; lia|rewrite app_length, rev_length; lia|]. cbn [obind].
  destruct (reverse_at' v2 (P ++ rev A ++ rev M) B S _ b2 e2 R2) as (v3 & -> & R3); [now rewrite <- !app_assoc|rewrite !app_length, !rev_length; lia|rewrite !app_length, !rev_length; lia|]. cbn [obind].
  destruct (reverse_at' v3 P (rev A ++ rev M ++ rev B) S _ b1 e2 R3) as (v4 & -> & R4); [now rewrite <- !app_assoc|lia|rewrite !app_length, !rev_length; lia|]. exists v4. split; [reflexivity|]. rewrite !rev_app_distr, !rev_involutive, <- !app_assoc in R4. exact R4.
Qed.
Lemma swap_run' v (P A M B S : list bool) b1 e1 b2 e2 : represents k v (P ++ A ++ M ++ B ++ S) -> b1 = length P -> e1 = b1 + length A -> b2 = e1 + length M -> e2 = b2 + length B ->
  (exists v', bv_swap k v b1 e1 b2 e2 = Some v' /\ represents k v' (P ++ B ++ M ++ A ++ S)) /\
  (b1 < b2 -> exists v', bv_swap k v b2 e2 b1 e1 = Some v' /\ represents k v' (P ++ B ++ M ++ A ++ S)).
Proof.
  intros R E1 E2 E3 E4. unfold bv_swap. split.
  - destruct (Nat.ltb_spec b2 b1); [lia|]. now apply swap_run.
  - intros Hb. destruct (Nat.ltb_spec b1 b2); [|lia]. now apply swap_run.
Qed.
Lemma rotate_left_run v (P X S : list bool) b e cnt : represents k v (P ++ X ++ S) -> b = length P -> e = b + length X ->
  exists v', bv_rotate_left k v b e cnt = Some v' /\ represents k v' (P ++ (skipn (cnt mod length X) X ++ firstn (cnt mod length X) X) ++ S).
Proof.
  intros R Eb Ee. unfold bv_rotate_left. destruct (Nat.leb_spec e b).
  - exists v. split; [reflexivity|]. destruct X; [|cbn in Ee; lia]. rewrite firstn_nil, skipn_nil. exact R.
  - replace (e - b) with (length X) by lia. set (c := cnt mod length X). assert (Hc : c < length X) by (apply Nat.mod_upper_bound; lia).
    rewrite <- (firstn_skipn c X) in R at 1. rewrite <- app_assoc in R. rewrite <- app_assoc. apply rotate_run; [exact R|exact Eb|rewrite firstn_length; lia|rewrite skipn_length; lia].
Qed.
Lemma rotate_right_run v (P X S : list bool) b e cnt : represents k v (P ++ X ++ S) -> b = length P -> e = b + length X ->
  exists v', bv_rotate_right k v b e cnt = Some v' /\ represents k v' (P ++ (skipn (length X - cnt mod length X) X ++ firstn (length X - cnt mod length X) X) ++ S).
Proof.
  intros R Eb Ee. unfold bv_rotate_right. destruct (Nat.leb_spec e b).
  - exists v. split; [reflexivity|]. destruct X; [|cbn in Ee; lia]. rewrite firstn_nil, skipn_nil. exact R.
  - replace (e - b) with (length X) by lia. set (c := cnt mod length X). assert (Hc : c < length X) by (apply Nat.mod_upper_bound; lia).
    rewrite <- (firstn_skipn (length X - c) X) in R at 1. rewrite <- app_assoc in R. rewrite <- app_assoc. apply rotate_run; [exact R|exact Eb|rewrite firstn_length; lia|rewrite skipn_length; lia].
Qed.
End Rev.

(** * Shifts *)
Lemma fit_skipn_nth n cnt (l : list bool) p : length l = n -> nth p (fit n (skipn cnt l)) false = nth (p + cnt) l false.
Proof.
  intros El. rewrite fit_nth. rewrite nth_skipn'. destruct (Nat.ltb_spec p n); cbn [andb]; [now rewrite Nat.add_comm|]. symmetry. apply nth_overflow. lia.
Qed.
Lemma nw_cover n : n <= nw n * L.
Proof. pose proof (nw_bounds k n). nia. Qed.
Lemma shr_run v l cnt : represents k v l -> cnt / L <= nw (length l) -> exists v', bv_shr k v cnt = Some v' /\ represents k v' (fit (length l) (skipn cnt l)).
Proof.
  intros R Hq. apply rep_elim in R as (R1 & R2 & R3 & R4). unfold bv_shr. rewrite R2. replace (nw (length l) + 1 - 1) with (nw (length l)) by lia. set (wsz := nw (length l)) in *. destruct (pos_split k cnt) as (Ec & Hr). set (q := cnt / L) in *. set (r := cnt mod L) in *. destruct (Nat.ltb_spec wsz q); [lia|]. pose proof (L_pos k) as LP. pose proof (nw_cover (length l)) as HC. fold wsz in HC.
  match goal with |- context [for_range 0 (wsz - q) ?g ?s0] => destruct (for_range_spec (fun m t => length t = wsz + 1 /\ wf t /\ (forall i, m <= i -> nth i t 0%Z = nth i (snd v) 0%Z) /\ (forall i j, i < m -> j < L -> tb (nth i t 0%Z) j = bt (snd v) (i * L + j + cnt))) g 0 (wsz - q) s0) as (t & -> & T1 & T2 & T3 & T4) end.
  - lia.
  - repeat split; auto. intros i j Hi. lia.
  - intros i t Hi (T1 & T2 & T3 & T4). destruct (word_at2_run k t (i + q) r T2 Hr) as (x & -> & Wx & Tx); [lia|intros _; lia|]. cbn [obind]. destruct (set_ok k t i x) as (t' & -> & A1 & A2 & A3); [lia|exact T2|exact Wx|]. exists t'. split; [reflexivity|]. split; [lia|]. split; [exact A2|]. split.
    + intros i' Hi'. rewrite A3. destruct (Nat.eqb_spec i i'); [lia|]. apply T3. lia.
    + intros i' j Hi' Hj. rewrite A3. destruct (Nat.eqb_spec i i') as [<-|N]; [|apply T4; lia]. rewrite Tx by exact Hj. replace ((i + q) * L + r + j) with (i * L + j + cnt) by nia. assert (P : i * L <= i * L + j + cnt) by lia. destruct (pos_split k (i * L + j + cnt)) as (Ep & Hp). rewrite Ep, !bt_word by exact Hp. rewrite T3; [reflexivity|]. apply Nat.div_le_lower_bound; lia.
  - cbn [obind]. match goal with |- context [for_range (wsz - q) wsz ?g ?s0] => destruct (for_range_spec (fun m t' => length t' = wsz + 1 /\ wf t' /\ (forall i, nth i t' 0%Z = if (wsz - q <=? i) && (i <? m) then 0%Z else nth i t 0%Z)) g (wsz - q) wsz s0) as (t' & -> & U1 & U2 & U3) end.
    + lia.
    + split; [exact T1|]. split; [exact T2|]. intros i. destruct (Nat.leb_spec (wsz - q) i); [|reflexivity]. destruct (Nat.ltb_spec i (wsz - q)); [lia|reflexivity].
    + intros i u Hi (U1 & U2 & U3). destruct (set_ok k u i 0%Z) as (u' & -> & A1 & A2 & A3); [lia|exact U2|apply zero_wd|]. exists u'. split; [reflexivity|]. split; [lia|]. split; [exact A2|]. intros i'. rewrite A3, U3. destruct (Nat.eqb_spec i i') as [<-|N].
      * destruct (Nat.leb_spec (wsz - q) i); [|lia]. destruct (Nat.ltb_spec i (S i)); [reflexivity|lia].
      * replace (i' <? S i) with (i' <? i) by (destruct (Nat.ltb_spec i' i); destruct (Nat.ltb_spec i' (S i)); try lia; reflexivity). reflexivity.
    + cbn [obind]. eexists. split; [reflexivity|]. apply rep_intro; rewrite ?fit_length; [exact R1|cbn [snd]; exact U1|exact U2|]. intros p. cbn [snd]. rewrite fit_skipn_nth by reflexivity. rewrite <- R4. destruct (pos_split k p) as (Ep & Hp). rewrite Ep at 1. rewrite (bt_word k t' (p / L) (p mod L) Hp), U3.
      destruct (Nat.leb_spec (wsz - q) (p / L)) as [G1|G1]; [destruct (Nat.ltb_spec (p / L) wsz) as [G2|G2]|]; cbn [andb].
      * unfold tb. rewrite Z.testbit_0_l. symmetry. rewrite R4. apply nth_overflow. assert (wsz * L <= (p / L + q) * L) by (apply Nat.mul_le_mono_r; lia). nia.
      * rewrite T3 by exact G1. rewrite <- (bt_word k (snd v) (p / L) (p mod L) Hp), <- Ep, !R4. assert (wsz * L <= p / L * L) by (apply Nat.mul_le_mono_r; lia). rewrite !nth_overflow by lia. reflexivity.
      * rewrite T4 by (try exact Hp; lia). f_equal. lia.
Qed.
(** the words that the shift to the left still needs have not been overwritten *)
Definition shl_safe (wsz q r : nat) : Prop := q <= wsz /\ (wsz <= 2 * q + 1 \/ (q = 0 /\ (r = 0 \/ wsz <= 2))).
Lemma shl_run v l cnt : represents k v l -> shl_safe (nw (length l)) (cnt / L) (cnt mod L) ->
  exists v', bv_shl k v cnt = Some v' /\ fst v' = length l /\ length (snd v') = length (snd v) /\ wf (snd v') /\ forall p, p < length l -> bt (snd v') p = nth p (repeat false cnt ++ l) false.
Proof.
  intros R (Hq & HS). apply rep_elim in R as (R1 & R2 & R3 & R4). unfold bv_shl. rewrite R2. replace (nw (length l) + 1 - 1) with (nw (length l)) by lia. set (wsz := nw (length l)) in *. destruct (pos_split k cnt) as (Ec & Hr). set (q := cnt / L) in *. set (r := cnt mod L) in *. pose proof (L_pos k) as LP. pose proof (nw_cover (length l)) as HC. fold wsz in HC.
  set (word_ok := fun (i : nat) (x : Z) => forall j, j < L -> tb x j = if i * L + j <? cnt then false else bt (snd v) (i * L + j - cnt)).
  assert (W0 : forall w0 w, wd w -> (forall j, j < L -> tb w j = if r <=? j then tb (nth 0 w0 0%Z) (j - r) else false) -> w0 = snd v -> word_ok q w). { intros w0 w Ww Hw -> j Hj. rewrite Hw by exact Hj. destruct (Nat.leb_spec r j); destruct (Nat.ltb_spec (q * L + j) cnt); try (exfalso; nia); [|reflexivity]. replace (q * L + j - cnt) with (0 * L + (j - r)) by nia. rewrite bt_word by lia. reflexivity. }
  match goal with |- context [for_range ?a ?b ?g ?s0] => destruct (for_range_spec (fun m t => length t = wsz + 1 /\ wf t /\ (forall i, i <= q \/ m <= i -> nth i t 0%Z = nth i (snd v) 0%Z) /\ (forall i, q < i < m -> word_ok i (nth i t 0%Z))) g a b s0) as (t & -> & T1 & T2 & T3 & T4) end.
  - lia.
  - repeat split; auto. intros i Hi. lia.
  - intros i t Hi (T1 & T2 & T3 & T4). assert (Hi' : i < wsz) by lia.
    assert (X : exists x, (if r =? 0 then nth_error t (i - q) else let* a := nth_error t (i - q - 1) in let* b := nth_error t (i - q) in let* a := rsh k a (L - r) in let* b := lsh k b r in Some (Z.lor a b)) = Some x /\ wd x /\ word_ok i x).
    { destruct (Nat.eqb_spec r 0) as [E0|N0].
      - rewrite (nth_some t (i - q) 0%Z) by lia. eexists. split; [reflexivity|]. split; [now apply wf_nth|]. intros j Hj. rewrite T3 by lia. destruct (Nat.ltb_spec (i * L + j) cnt); [exfalso; nia|]. replace (i * L + j - cnt) with ((i - q) * L + j) by nia. now rewrite bt_word.
      - rewrite (nth_some t (i - q - 1) 0%Z) by lia. cbn [obind]. rewrite (nth_some t (i - q) 0%Z) by lia. cbn [obind]. destruct (rsh_run k (nth (i - q - 1) t 0%Z) (L - r) (wf_nth k _ _ T2)) as (x & -> & Wx & Tx); [lia|]. cbn [obind]. destruct (lsh_run k (nth (i - q) t 0%Z) r Hr) as (y & -> & Wy & Ty). cbn [obind]. eexists. split; [reflexivity|]. split; [now apply lor_wd|]. intros j Hj. rewrite lor_tb, Tx, Ty by exact Hj. rewrite (T3 (i - q - 1)) by lia. rewrite (T3 (i - q)) by lia. destruct (Nat.ltb_spec (i * L + j) cnt); [exfalso; nia|]. destruct (Nat.leb_spec r j) as [C|C]; cbn [andb].
        + assert (HH : tb (nth (i - q - 1) (snd v) 0%Z) (j + (L - r)) = false) by (apply wd_high with (k := k); [now apply wf_nth|lia]). rewrite HH. cbn [orb]. replace (i * L + j - cnt) with ((i - q) * L + (j - r)) by nia. rewrite bt_word by lia. reflexivity.
        + rewrite orb_false_r. replace (i * L + j - cnt) with ((i - q - 1) * L + (j + (L - r))) by nia. rewrite bt_word by lia. reflexivity. }
    destruct X as (x & -> & Wx & Ox). cbn [obind]. destruct (set_ok k t i x) as (t' & -> & A1 & A2 & A3); [lia|exact T2|exact Wx|]. exists t'. split; [reflexivity|]. split; [lia|]. split; [exact A2|]. split.
    + intros i' Hi2. rewrite A3. destruct (Nat.eqb_spec i i'); [lia|]. apply T3. lia.
    + intros i' Hi2. rewrite A3. destruct (Nat.eqb_spec i i') as [<-|N]; [exact Ox|apply T4; lia].
  - cbn [obind]. rewrite (nth_some t 0 0%Z) by lia. cbn [obind]. rewrite T3 by lia. destruct (lsh_run k (nth 0 (snd v) 0%Z) r Hr) as (w & -> & Ww & Tw). cbn [obind]. destruct (set_ok k t q w) as (t1 & -> & A1 & A2 & A3); [lia|exact T2|exact Ww|]. cbn [obind].
    match goal with |- context [for_range 0 q ?g ?s0] => destruct (for_range_spec (fun m t' => length t' = wsz + 1 /\ wf t' /\ (forall i, nth i t' 0%Z = if i <? m then 0%Z else nth i t1 0%Z)) g 0 q s0) as (t' & -> & U1 & U2 & U3) end.
    + lia.
    + split; [lia|]. split; [exact A2|]. intros i. reflexivity.
    + intros i u Hi (U1 & U2 & U3). destruct (set_ok k u i 0%Z) as (u' & -> & B1 & B2 & B3); [lia|exact U2|apply zero_wd|]. exists u'. split; [reflexivity|]. split; [lia|]. split; [exact B2|]. intros i'. rewrite B3, U3. destruct (Nat.eqb_spec i i') as [<-|N].
      * destruct (Nat.ltb_spec i (S i)); [reflexivity|lia].
      * replace (i' <? S i) with (i' <? i) by (destruct (Nat.ltb_spec i' i); destruct (Nat.ltb_spec i' (S i)); try lia; reflexivity). reflexivity.
    + cbn [obind]. eexists. split; [reflexivity|]. cbn [fst snd]. split; [exact R1|]. split; [lia|]. split; [exact U2|]. intros p Hp. destruct (pos_split k p) as (Ep & Hj). assert (Ei : p / L < wsz) by (apply Nat.div_lt_upper_bound; lia). rewrite Ep at 1. rewrite (bt_word k t' (p / L) (p mod L) Hj), U3.
      assert (Rhs : nth p (repeat false cnt ++ l) false = if p <? cnt then false else bt (snd v) (p - cnt)). { destruct (Nat.ltb_spec p cnt); [rewrite app_nth1 by (rewrite repeat_length; lia); apply nth_repeat|rewrite app_nth2 by (rewrite repeat_length; lia); now rewrite repeat_length, R4]. } rewrite Rhs.
      destruct (Nat.ltb_spec (p / L) q) as [G|G].
      * unfold tb. rewrite Z.testbit_0_l. assert (p < cnt) by nia. destruct (Nat.ltb_spec p cnt); [reflexivity|lia].
      * rewrite A3. destruct (Nat.eqb_spec q (p / L)) as [E1|N1].
        { assert (OK : word_ok q w) by (apply (W0 (snd v) w Ww); [intros j Hj'; rewrite Tw by exact Hj'; destruct (r <=? j); reflexivity|reflexivity]). rewrite OK, E1 by exact Hj. rewrite <- Ep. reflexivity. }
        { rewrite (T4 (p / L)) by (try exact Hj; lia). rewrite <- Ep. reflexivity. }
Qed.
End R.
