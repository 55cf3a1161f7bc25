(** Lemmas about the bit vector model: words, word_at, apply. *)
From Verif Require Import Lib BitsModel BitsSpec BitsProofs BitsProofs2 BitVecModel BitVecSpec.
Open Scope nat_scope.

Definition tb (x : Z) (j : nat) : bool := Z.testbit x (Z.of_nat j).
Section P.
Variable k : nat.
Notation L := (L k). Notation W := (W k).
Definition wd (x : Z) : Prop := word W x.
Definition wf (ws : list Z) : Prop := Forall wd ws.
Definition bt (ws : list Z) (p : nat) : bool := bit_of k ws p.

Lemma L_pos : 0 < L.
Proof. unfold BitVecModel.L. pose proof (Nat.pow_nonzero 2 k). lia. Qed.
Lemma W_L : W = Z.of_nat L.
Proof. unfold BitVecModel.W, BitVecModel.L, width. rewrite Nat2Z.inj_pow. reflexivity. Qed.
Lemma W_nonneg : (0 <= W)%Z.
Proof. rewrite W_L. lia. Qed.
Local Hint Resolve W_nonneg : core.
Lemma wd_high x j : wd x -> L <= j -> tb x j = false.
Proof. intros H Hj. apply (word_testbit W); [exact H|auto|rewrite W_L; lia]. Qed.
Lemma wd_bits x : (forall j, L <= j -> tb x j = false) -> wd x.
Proof. intros H. apply word_of_bits; [auto|]. intros i Hi. rewrite W_L in Hi. specialize (H (Z.to_nat i) ltac:(lia)). unfold tb in H. now rewrite Z2Nat.id in H by lia. Qed.
Lemma wd_ext x y : wd x -> wd y -> (forall j, j < L -> tb x j = tb y j) -> x = y.
Proof.
  intros Hx Hy H. apply Z.bits_inj'. intros n Hn. destruct (Z_lt_le_dec n W) as [H1|H1].
  - specialize (H (Z.to_nat n)). unfold tb in H. rewrite Z2Nat.id in H by lia. apply H. rewrite W_L in H1. lia.
  - now rewrite !(word_testbit W).
Qed.
Lemma wrap_tb x j : j < L -> tb (wrap W x) j = tb x j.
Proof. intros H. unfold tb. rewrite wrap_testbit by (auto; lia). rewrite (proj2 (Z.ltb_lt _ _)); [reflexivity|rewrite W_L; lia]. Qed.
Lemma wrap_wd x : wd (wrap W x).
Proof. apply wrap_word. auto. Qed.
Lemma lsh_run x l : l < L -> exists r, lsh k x l = Some r /\ wd r /\ forall j, j < L -> tb r j = (l <=? j) && tb x (j - l).
Proof.
  intros Hl. unfold lsh, shl. rewrite (proj2 (Z.leb_le _ _)), (proj2 (Z.ltb_lt _ _)) by (try rewrite W_L; lia). cbn [andb]. eexists. split; [reflexivity|]. split; [apply wrap_wd|]. intros j Hj. rewrite wrap_tb by exact Hj. unfold tb. rewrite Z.shiftl_spec by lia. destruct (Nat.leb_spec l j); [cbn [andb]; f_equal; lia|]. cbn [andb]. now apply Z.testbit_neg_r; lia.
Qed.
Lemma rsh_run x l : wd x -> l < L -> exists r, rsh k x l = Some r /\ wd r /\ forall j, tb r j = tb x (j + l).
Proof.
  intros Hx Hl. unfold rsh, shr. rewrite (proj2 (Z.leb_le _ _)), (proj2 (Z.ltb_lt _ _)) by (try rewrite W_L; lia). cbn [andb]. eexists. split; [reflexivity|]. assert (T : forall j, tb (Z.shiftr x (Z.of_nat l)) j = tb x (j + l)) by (intros j; unfold tb; rewrite Z.shiftr_spec by lia; f_equal; lia). split; [|exact T]. apply wd_bits. intros j Hj. rewrite T. apply wd_high; [exact Hx|lia].
Qed.
Lemma first_bits_run l : l < L -> exists r, first_bits k l = Some r /\ wd r /\ forall j, tb r j = (j <? l).
Proof.
  intros Hl. unfold first_bits, make_ones, make_bit, shl. rewrite (proj2 (Z.leb_le _ _)), (proj2 (Z.ltb_lt _ _)) by (try rewrite W_L; lia). cbn [andb obind]. eexists. split; [reflexivity|].
  assert (P2 : (0 < 2 ^ Z.of_nat l)%Z) by (apply Z.pow_pos_nonneg; lia). assert (Lt : (2 ^ Z.of_nat l < 2 ^ W)%Z) by (apply Z.pow_lt_mono_r; rewrite ?W_L; lia).
  rewrite Z.shiftl_1_l, (wrap_small W (2 ^ Z.of_nat l)) by (unfold word; lia). rewrite wrap_small by (unfold word; lia). rewrite <- Z.ones_equiv || idtac.
  replace (2 ^ Z.of_nat l - 1)%Z with (Z.ones (Z.of_nat l)) by (rewrite Z.ones_equiv; lia). split.
  - rewrite Z.ones_equiv. unfold wd, word. lia.
  - intros j. unfold tb. destruct (Nat.ltb_spec j l); [rewrite Z.ones_spec_low by lia; reflexivity|rewrite Z.ones_spec_high by lia; reflexivity].
Qed.
Lemma bnot_wd x : wd (bnot W x).
Proof. apply wrap_wd. Qed.
Lemma bnot_tb x j : j < L -> tb (bnot W x) j = negb (tb x j).
Proof. intros H. unfold bnot. rewrite wrap_tb by exact H. unfold tb. rewrite Z.lnot_spec by lia. reflexivity. Qed.
Lemma WW_wd : wd (WW k).
Proof. apply bnot_wd. Qed.
Lemma WW_tb j : j < L -> tb (WW k) j = true.
Proof. intros H. unfold WW. rewrite bnot_tb by exact H. unfold tb. now rewrite Z.bits_0. Qed.
Lemma land_tb x y j : tb (Z.land x y) j = tb x j && tb y j.
Proof. unfold tb. apply Z.land_spec. Qed.
Lemma lor_tb x y j : tb (Z.lor x y) j = tb x j || tb y j.
Proof. unfold tb. apply Z.lor_spec. Qed.
Lemma lxor_tb x y j : tb (Z.lxor x y) j = xorb (tb x j) (tb y j).
Proof. unfold tb. apply Z.lxor_spec. Qed.
Lemma land_wd x y : wd x -> wd (Z.land x y).
Proof. intros H. apply wd_bits. intros j Hj. now rewrite land_tb, (wd_high x j H Hj). Qed.
Lemma lor_wd x y : wd x -> wd y -> wd (Z.lor x y).
Proof. intros H H'. apply wd_bits. intros j Hj. now rewrite lor_tb, (wd_high x j H Hj), (wd_high y j H' Hj). Qed.
Lemma lxor_wd x y : wd x -> wd y -> wd (Z.lxor x y).
Proof. intros H H'. apply wd_bits. intros j Hj. now rewrite lxor_tb, (wd_high x j H Hj), (wd_high y j H' Hj). Qed.
Lemma zero_wd : wd 0%Z.
Proof. apply wd_bits. intros j _. unfold tb. apply Z.bits_0. Qed.

(** positions *)
Lemma pos_split p : p = p / L * L + p mod L /\ p mod L < L.
Proof. pose proof L_pos. pose proof (Nat.div_mod p L ltac:(lia)). pose proof (Nat.mod_upper_bound p L ltac:(lia)). lia. Qed.
Lemma pos_div i j : j < L -> (i * L + j) / L = i /\ (i * L + j) mod L = j.
Proof. intros H. split; [rewrite Nat.div_add_l, Nat.div_small by lia; lia|rewrite Nat.add_comm, Nat.mod_add, Nat.mod_small by lia; lia]. Qed.
Lemma bt_word ws i j : j < L -> bt ws (i * L + j) = tb (nth i ws 0%Z) j.
Proof. intros H. unfold bt, bit_of, tb. change (2 ^ k) with L. destruct (pos_div i j H) as (-> & ->). reflexivity. Qed.
Lemma wf_nth ws i : wf ws -> wd (nth i ws 0%Z).
Proof. intros H. destruct (nth_in_or_default i ws 0%Z) as [I| ->]; [|apply zero_wd]. unfold wf in H. rewrite Forall_forall in H. now apply H. Qed.
Lemma nth_some {A} (l : list A) i d : i < length l -> nth_error l i = Some (nth i l d).
Proof. apply nth_error_nth'. Qed.
Lemma set_nth_wf ws i x ws' : set_nth ws i x = Some ws' -> wf ws -> wd x -> wf ws'.
Proof.
  intros E H Hx. unfold wf in *. rewrite Forall_forall in *. intros y Hy. apply In_nth_error in Hy as (n & Hn). rewrite (set_nth_get _ _ _ _ n E) in Hn. destruct (i =? n); [injection Hn as <-; exact Hx|]. apply H. eapply nth_error_In. exact Hn.
Qed.
Lemma set_nth_nth (ws : list Z) i x ws' j : set_nth ws i x = Some ws' -> nth j ws' 0%Z = if i =? j then x else nth j ws 0%Z.
Proof. intros E. pose proof (set_nth_get _ _ _ _ j E) as G. destruct (Nat.eqb_spec i j) as [->|N]; [now apply nth_error_nth|]. destruct (nth_error ws j) eqn:E2; [rewrite (nth_error_nth _ _ 0%Z G), (nth_error_nth _ _ 0%Z E2); reflexivity|]. rewrite !nth_overflow; [reflexivity|now apply nth_error_None|now apply nth_error_None]. Qed.
Lemma set_ok (ws : list Z) i x : i < length ws -> wf ws -> wd x -> exists ws', set_nth ws i x = Some ws' /\ length ws' = length ws /\ wf ws' /\ forall j, nth j ws' 0%Z = if i =? j then x else nth j ws 0%Z.
Proof. intros H F Hx. destruct (set_nth_some ws i x H) as (ws' & E). exists ws'. split; [exact E|]. split; [exact (set_nth_length _ _ _ _ E)|]. split; [exact (set_nth_wf _ _ _ _ E F Hx)|]. intros j. exact (set_nth_nth _ _ _ _ j E). Qed.

(** word_at *)
Lemma word_at2_run ws i l : wf ws -> l < L -> i < length ws -> (0 < l -> i + 1 < length ws) -> exists r, word_at2 k ws i l = Some r /\ wd r /\ forall j, j < L -> tb r j = bt ws (i * L + l + j).
Proof.
  intros F Hl Hi Hi2. unfold word_at2. rewrite (nth_some ws i 0%Z Hi). cbn [obind]. destruct (Nat.eqb_spec l 0) as [->|N].
  - eexists. split; [reflexivity|]. split; [now apply wf_nth|]. intros j Hj. rewrite Nat.add_0_r, bt_word by exact Hj. reflexivity.
  - rewrite (nth_some ws (i + 1) 0%Z) by (apply Hi2; lia). cbn [obind]. destruct (rsh_run (nth i ws 0%Z) l (wf_nth ws i F) Hl) as (x & -> & Wx & Tx). cbn [obind]. destruct (lsh_run (nth (i + 1) ws 0%Z) (L - l)) as (y & -> & Wy & Ty); [lia|]. cbn [obind]. eexists. split; [reflexivity|]. split; [now apply lor_wd|].
    intros j Hj. rewrite lor_tb, Tx, Ty by exact Hj. destruct (Nat.leb_spec (L - l) j).
    + rewrite (wd_high _ (j + l) (wf_nth ws i F)) by lia. cbn [orb andb]. replace (i * L + l + j) with ((i + 1) * L + (j - (L - l))) by lia. rewrite bt_word by lia. reflexivity.
    + cbn [andb]. rewrite orb_false_r. replace (i * L + l + j) with (i * L + (j + l)) by lia. rewrite bt_word by lia. reflexivity.
Qed.
(** enough words to read at a position *)
Definition readable (ws : list Z) (p : nat) : Prop := p / L < length ws /\ (0 < p mod L -> p / L + 1 < length ws).
Lemma word_at_run ws p : wf ws -> readable ws p -> exists r, word_at k ws p = Some r /\ wd r /\ forall j, j < L -> tb r j = bt ws (p + j).
Proof.
  intros F (H1 & H2). destruct (pos_split p) as (E & Hm). destruct (word_at2_run ws (p / L) (p mod L) F Hm H1 H2) as (r & Er & Wr & Tr). exists r. split; [exact Er|]. split; [exact Wr|]. intros j Hj. rewrite Tr by exact Hj. now rewrite <- E.
Qed.

Lemma bt_ext ws ws' : (forall i, nth i ws' 0%Z = nth i ws 0%Z) -> forall p, bt ws' p = bt ws p.
Proof. intros H p. unfold bt, bit_of. now rewrite H. Qed.
Lemma apply_run ws b e (op : list Z -> Z -> nat -> nat -> option Z) (back : bool) (f : nat -> bool -> bool) : wf ws -> b <= e -> e / L < length ws ->
  (forall ws' w pos l, wf ws' -> length ws' = length ws -> wd w -> pos <= e - b -> (forall p, (if back then p < b + pos + L else b + pos <= p) -> bt ws' p = bt ws p) ->
    exists r, op ws' w pos l = Some r /\ wd r /\ forall j, j < L -> pos + j < e - b -> tb r j = f (pos + j) (tb w j)) ->
  exists ws', bv_apply k ws b e op back = Some ws' /\ length ws' = length ws /\ wf ws' /\ forall p, bt ws' p = if (b <=? p) && (p <? e) then f (p - b) (bt ws p) else bt ws p.
Proof.
  intros F Hbe He Hop. unfold bv_apply. destruct (pos_split b) as (Eb & Hlb). destruct (pos_split e) as (Ee & Hle). set (ib := b / L) in *. set (ie := e / L) in *. set (lb := b mod L) in *. set (le := e mod L) in *. pose proof L_pos as LP.
  assert (Hib : ib <= ie) by (unfold ib, ie; apply Nat.div_le_mono; lia).
  destruct (lsh_run (WW k) lb Hlb) as (mb0 & -> & Wmb & Tmb). cbn [obind]. destruct (first_bits_run le Hle) as (me0 & -> & Wme & Tme). cbn [obind].
  assert (Tmb' : forall j, j < L -> tb mb0 j = (lb <=? j)). { intros j Hj. rewrite Tmb by exact Hj. destruct (Nat.leb_spec lb j); [cbn [andb]; apply WW_tb; lia|reflexivity]. } clear Tmb.
  rewrite (nth_some ws ib 0%Z) by lia. cbn [obind]. set (w := nth ib ws 0%Z). assert (Ww : wd w) by (apply wf_nth; exact F).
  destruct (rsh_run w lb Ww Hlb) as (x & -> & Wx & Tx). cbn [obind].
  destruct (Hop ws x 0 (L - lb) F eq_refl Wx ltac:(lia) (fun _ _ => eq_refl)) as (y & -> & Wy & Ty). cbn [obind]. destruct (lsh_run y lb Hlb) as (y' & -> & Wy' & Ty'). cbn [obind].
  destruct (Nat.eqb_spec ib ie) as [Eie|Nie].
  - set (wb := Z.lor (Z.land w (bnot W (Z.land mb0 me0))) (Z.land y' (Z.land mb0 me0))). assert (Wwb : wd wb) by (apply lor_wd; apply land_wd; assumption).
    destruct (set_ok ws ib wb) as (ws' & -> & Ln & F' & N); [lia|exact F|exact Wwb|]. exists ws'. split; [reflexivity|]. split; [exact Ln|]. split; [exact F'|]. intros p. destruct (pos_split p) as (Ep & Hp). rewrite Ep at 1. rewrite (bt_word ws' (p / L) (p mod L) Hp), N.
    destruct (Nat.eqb_spec ib (p / L)) as [E1|N1].
    + assert (Bp : bt ws p = tb w (p mod L)) by (rewrite Ep at 1; rewrite (bt_word ws (p / L) (p mod L) Hp), <- E1; reflexivity). rewrite Bp. unfold wb. rewrite lor_tb, !land_tb, bnot_tb, land_tb, Tmb', Tme, Ty' by exact Hp.
      destruct (Nat.leb_spec b p); destruct (Nat.leb_spec lb (p mod L)); try (exfalso; nia); cbn [andb negb]; rewrite ?andb_true_r, ?andb_false_r, ?orb_false_r; [|reflexivity].
      destruct (Nat.ltb_spec p e); destruct (Nat.ltb_spec (p mod L) le); try (exfalso; nia); cbn [andb negb orb]; rewrite ?andb_true_r, ?andb_false_r, ?orb_false_r; cbn [orb]; [|reflexivity]. rewrite Ty, Tx by nia. f_equal; [nia|f_equal; lia].
    + rewrite <- (bt_word ws (p / L) (p mod L) Hp), <- Ep. destruct (Nat.leb_spec b p); [|reflexivity]. destruct (Nat.ltb_spec p e); [|reflexivity]. exfalso. apply N1. assert (ib <= p / L) by (unfold ib; apply Nat.div_le_mono; lia). assert (p / L <= ie) by (unfold ie; apply Nat.div_le_mono; lia). lia.
  - rewrite (nth_some ws ie 0%Z) by lia. cbn [obind]. set (w2 := nth ie ws 0%Z). assert (Ww2 : wd w2) by (apply wf_nth; exact F).
    destruct (Hop ws w2 (e - b - le) le F eq_refl Ww2 ltac:(lia) (fun _ _ => eq_refl)) as (z & -> & Wz & Tz). cbn [obind].
    set (wb := Z.lor (Z.land w (bnot W mb0)) (Z.land y' mb0)). set (we := Z.lor (Z.land w2 (bnot W me0)) (Z.land z me0)). assert (Wwb : wd wb) by (apply lor_wd; apply land_wd; assumption). assert (Wwe : wd we) by (apply lor_wd; apply land_wd; assumption).
    match goal with |- context [for_down _ _ ?g _] => set (body := g) end.
    set (Inv := fun (done : nat -> bool) (t : list Z) => length t = length ws /\ wf t /\ (forall i, done i = false \/ i <= ib \/ ie <= i -> nth i t 0%Z = nth i ws 0%Z) /\ (forall i j, ib < i < ie -> done i = true -> j < L -> tb (nth i t 0%Z) j = f (i * L + j - b) (tb (nth i ws 0%Z) j))).
    assert (Step : forall done i t, ib < i < ie -> Inv done t -> done i = false -> (forall i', done i' = true -> if back then i < i' else i' < i) -> exists t', body i t = Some t' /\ Inv (fun i' => (i =? i') || done i') t').
    { intros done i t Hi (L1 & L2 & L3 & L4) Hd Hdir. unfold body. rewrite (nth_some t i 0%Z) by lia. cbn [obind]. rewrite (L3 i (or_introl Hd)).
      destruct (Hop t (nth i ws 0%Z) (i * L - b) L L2 L1 (wf_nth ws i F)) as (r & -> & Wr & Tr).
      - assert (i * L <= ie * L) by nia. lia.
      - intros p Hp. destruct (pos_split p) as (Ep & Hpl). rewrite Ep, !bt_word by exact Hpl. assert (Hb : b <= i * L) by nia. rewrite L3; [reflexivity|]. left. destruct (done (p / L)) eqn:D; [|reflexivity]. exfalso. specialize (Hdir _ D). destruct back; nia.
      - cbn [obind]. destruct (set_ok t i r) as (t' & -> & Ln & F' & N); [lia|exact L2|exact Wr|]. exists t'. split; [reflexivity|]. split; [lia|]. split; [exact F'|]. split.
        + intros i' Hi'. rewrite N. destruct (Nat.eqb_spec i i') as [Ei|Ni]; [subst i'; destruct Hi' as [Hi'|Hi']; [discriminate Hi'|lia]|]. apply L3. exact Hi'.
        + intros i' j Hi' D' Hj. rewrite N. destruct (Nat.eqb_spec i i') as [<-|Ni].
          * assert (b <= i * L) by nia. assert (i * L + L <= ie * L) by nia. rewrite Tr by lia. f_equal. lia.
          * apply L4; assumption. }
    assert (X : exists t, (if back then for_down (ib + 1) ie body ws else for_range (ib + 1) ie body ws) = Some t /\ Inv (fun i => (ib <? i) && (i <? ie)) t).
    { destruct back.
      - destruct (for_down_spec (fun m t => Inv (fun i => (m <=? i) && (i <? ie)) t) body (ib + 1) ie ws) as (t & E & H); [lia| | |].
        + split; [reflexivity|]. split; [exact F|]. split; [reflexivity|]. intros i j _ D. apply andb_prop in D as (D1 & D2). apply Nat.leb_le in D1. apply Nat.ltb_lt in D2. lia.
        + intros i t Hi HI. destruct (Step (fun i0 => (S i <=? i0) && (i0 <? ie)) i t) as (t' & E & H); [lia|exact HI| | |].
          * destruct (Nat.leb_spec (S i) i); [lia|reflexivity].
          * intros i' D. apply andb_prop in D as (D1 & _). apply Nat.leb_le in D1. lia.
          * exists t'. split; [exact E|]. destruct H as (A1 & A2 & A3 & A4). split; [exact A1|]. split; [exact A2|]. split.
            { intros i' H. apply A3. destruct H as [H|H]; [|now right]. left. destruct (Nat.eqb_spec i i') as [->|N]; [rewrite Nat.leb_refl in H; cbn [andb] in H; destruct (Nat.ltb_spec i' ie); [discriminate|lia]|]. cbn [orb]. destruct (Nat.leb_spec (S i) i'); [|reflexivity]. destruct (Nat.leb_spec i i'); [exact H|lia]. }
            { intros i' j Hi' D Hj. apply A4; [exact Hi'| |exact Hj]. destruct (Nat.eqb_spec i i'); [reflexivity|]. cbn [orb]. destruct (Nat.leb_spec i i'); [|discriminate D]. destruct (Nat.leb_spec (S i) i'); [exact D|lia]. }
        + exists t. split; [exact E|]. destruct H as (A1 & A2 & A3 & A4). split; [exact A1|]. split; [exact A2|]. split; [intros i H; apply A3; destruct H as [H|H]; [left|now right]; replace (ib + 1) with (S ib) by lia; exact H|]. intros i j Hi D. apply A4; [exact Hi|]. replace (ib + 1) with (S ib) by lia. exact D.
      - destruct (for_range_spec (fun m t => Inv (fun i => (ib <? i) && (i <? m)) t) body (ib + 1) ie ws) as (t & E & H); [lia| | |].
        + split; [reflexivity|]. split; [exact F|]. split; [reflexivity|]. intros i j _ D. apply andb_prop in D as (D1 & D2). apply Nat.ltb_lt in D1, D2. lia.
        + intros i t Hi HI. destruct (Step (fun i0 => (ib <? i0) && (i0 <? i)) i t) as (t' & E & H); [lia|exact HI| | |].
          * rewrite Nat.ltb_irrefl. apply andb_false_r.
          * intros i' D. apply andb_prop in D as (_ & D1). apply Nat.ltb_lt in D1. lia.
          * exists t'. split; [exact E|]. destruct H as (A1 & A2 & A3 & A4). split; [exact A1|]. split; [exact A2|]. split.
            { intros i' H. apply A3. destruct H as [H|H]; [|now right]. left. destruct (Nat.eqb_spec i i') as [->|N]; [destruct (Nat.ltb_spec ib i'); [|lia]; destruct (Nat.ltb_spec i' (S i')); [discriminate|lia]|]. cbn [orb]. destruct (Nat.ltb_spec i' i); [|apply andb_false_r]. destruct (Nat.ltb_spec i' (S i)); [exact H|lia]. }
            { intros i' j Hi' D Hj. apply A4; [exact Hi'| |exact Hj]. destruct (Nat.eqb_spec i i'); [reflexivity|]. cbn [orb]. destruct (Nat.ltb_spec i' (S i)); [|rewrite andb_false_r in D; discriminate D]. destruct (Nat.ltb_spec i' i); [exact D|lia]. }
        + exists t. split; [exact E|exact H]. }
    destruct X as (t & -> & L1 & L2 & L3 & L4). cbn [obind]. destruct (set_ok t ib wb) as (t1 & -> & Ln1 & F1 & N1); [lia|exact L2|exact Wwb|]. cbn [obind]. destruct (set_ok t1 ie we) as (t2 & -> & Ln2 & F2 & N2); [lia|exact F1|exact Wwe|].
    exists t2. split; [reflexivity|]. split; [lia|]. split; [exact F2|]. intros p. destruct (pos_split p) as (Ep & Hp). rewrite Ep at 1. rewrite (bt_word t2 (p / L) (p mod L) Hp), N2, N1.
    assert (Bp : bt ws p = tb (nth (p / L) ws 0%Z) (p mod L)) by (rewrite Ep at 1; now rewrite (bt_word ws (p / L) (p mod L) Hp)).
    assert (ib * L + L <= ie * L) by nia.
    destruct (Nat.eqb_spec ie (p / L)) as [E1|M1].
    + rewrite Bp, <- E1. fold w2. unfold we. rewrite lor_tb, !land_tb, bnot_tb, Tme by exact Hp. destruct (Nat.leb_spec b p); [|exfalso; nia]. cbn [andb].
      destruct (Nat.ltb_spec p e); destruct (Nat.ltb_spec (p mod L) le); try (exfalso; nia); cbn [andb negb]; rewrite ?andb_true_r, ?andb_false_r, ?orb_false_r; cbn [orb]; [|reflexivity]. rewrite Tz by nia. f_equal. nia.
    + destruct (Nat.eqb_spec ib (p / L)) as [E2|M2].
      * rewrite Bp, <- E2. fold w. unfold wb. rewrite lor_tb, !land_tb, bnot_tb, Tmb', Ty' by exact Hp. destruct (Nat.ltb_spec p e); [|exfalso; nia]. rewrite andb_true_r.
        destruct (Nat.leb_spec b p); destruct (Nat.leb_spec lb (p mod L)); try (exfalso; nia); cbn [andb negb]; rewrite ?andb_true_r, ?andb_false_r, ?orb_false_r; cbn [orb]; [|reflexivity]. rewrite Ty, Tx by nia. f_equal; [nia|f_equal; lia].
      * rewrite Bp. destruct (Nat.leb_spec b p) as [B1|B1]; [destruct (Nat.ltb_spec p e) as [B2|B2]|]; cbn [andb].
        { assert (ib <= p / L) by (unfold ib; apply Nat.div_le_mono; lia). assert (p / L <= ie) by (unfold ie; apply Nat.div_le_mono; lia). rewrite L4; [f_equal; lia|lia| |exact Hp]. apply andb_true_intro. split; apply Nat.ltb_lt; lia. }
        { rewrite L3; [reflexivity|]. right. right. unfold ie. apply Nat.div_le_mono; lia. }
        { rewrite L3; [reflexivity|]. right. left. unfold ib. apply Nat.div_le_mono; lia. }
Qed.
End P.
