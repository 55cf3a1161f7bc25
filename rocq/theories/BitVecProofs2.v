(** Representation of bit sequences: construction, resize, single bits, range operations. *)
From Verif Require Import Lib BitsModel BitsSpec BitsProofs BitsProofs2 BitVecModel BitVecSpec BitVecProofs.
Open Scope nat_scope.

(** ** sequences *)
Lemma nth_firstn {A} n (l : list A) p d : nth p (firstn n l) d = if p <? n then nth p l d else d.
Proof. revert l p. induction n as [|n IH]; intros [|x l] [|p]; cbn [firstn nth]; try reflexivity; [destruct (S p <? S n); reflexivity|]. rewrite IH. change (S p <? S n) with (p <? n). reflexivity. Qed.
Lemma nth_skipn' {A} n (l : list A) p d : nth p (skipn n l) d = nth (n + p) l d.
Proof. revert l. induction n as [|n IH]; intros l; [reflexivity|]. destruct l as [|x l]; [cbn; destruct p; reflexivity|]. cbn [skipn Nat.add nth]. apply IH. Qed.
Lemma nth_repeat' {A} (x : A) n p : nth p (repeat x n) x = x.
Proof. revert p. induction n as [|n IH]; intros [|p]; cbn; auto. Qed.
Lemma fit_length n l : length (fit n l) = n.
Proof. unfold fit. rewrite app_length, firstn_length, repeat_length. lia. Qed.
Lemma fit_nth n l p : nth p (fit n l) false = (p <? n) && nth p l false.
Proof.
  unfold fit. destruct (Nat.lt_ge_cases p (length (firstn n l))) as [H|H].
  - rewrite app_nth1 by exact H. rewrite firstn_length in H. rewrite nth_firstn. destruct (Nat.ltb_spec p n); [reflexivity|lia].
  - rewrite app_nth2, nth_repeat' by exact H. rewrite firstn_length in H. destruct (Nat.ltb_spec p n); [|reflexivity]. rewrite nth_overflow by lia. reflexivity.
Qed.
Lemma slice_length {A} b e (l : list A) : b <= e -> e <= length l -> length (slice b e l) = e - b.
Proof. intros H1 H2. unfold slice. rewrite firstn_length, skipn_length. lia. Qed.
Lemma slice_nth {A} b e (l : list A) p d : p < e - b -> nth p (slice b e l) d = nth (b + p) l d.
Proof. intros H. unfold slice. rewrite nth_firstn, nth_skipn'. destruct (Nat.ltb_spec p (e - b)); [reflexivity|lia]. Qed.
Lemma replace_range_length {A} b e (m l : list A) : b <= e -> e <= length l -> length m = e - b -> length (replace_range b e m l) = length l.
Proof. intros H1 H2 H3. unfold replace_range. rewrite !app_length, firstn_length, skipn_length. lia. Qed.
Lemma replace_range_nth {A} b e (m l : list A) p d : b <= e -> e <= length l -> length m = e - b -> nth p (replace_range b e m l) d = if (b <=? p) && (p <? e) then nth (p - b) m d else nth p l d.
Proof.
  intros H1 H2 H3. unfold replace_range. assert (Lf : length (firstn b l) = b) by (rewrite firstn_length; lia). destruct (Nat.leb_spec b p) as [B|B]; cbn [andb].
  - rewrite app_nth2 by lia. rewrite Lf. destruct (Nat.ltb_spec p e); [rewrite app_nth1 by lia; reflexivity|]. rewrite app_nth2 by lia. rewrite nth_skipn'. f_equal. lia.
  - rewrite app_nth1 by lia. rewrite nth_firstn. destruct (Nat.ltb_spec p b); [reflexivity|lia].
Qed.
Lemma zip_length f a b : length (zip f a b) = Nat.min (length a) (length b).
Proof. revert b. induction a as [|x a IH]; intros [|y b]; cbn [zip length]; try lia. rewrite IH. lia. Qed.
Lemma zip_nth f a b p : p < length a -> p < length b -> nth p (zip f a b) false = f (nth p a false) (nth p b false).
Proof. revert b p. induction a as [|x a IH]; intros [|y b] [|p] Ha Hb; cbn [length] in *; try lia; [reflexivity|]. cbn [zip nth]. apply IH; lia. Qed.
Lemma nth_map_bool (f : bool -> bool) l p : p < length l -> nth p (map f l) false = f (nth p l false).
Proof. intros H. rewrite (nth_indep (map f l) false (f false)) by (rewrite map_length; exact H). apply map_nth. Qed.
Lemma bool_list_ext (a b : list bool) : length a = length b -> (forall p, nth p a false = nth p b false) -> a = b.
Proof. intros H1 H2. apply (nth_ext a b false false H1). intros n _. apply H2. Qed.

Section R.
Variable k : nat.
Notation L := (L k). Notation W := (W k). Notation bt := (bt k). Notation wf := (wf k). Notation wd := (wd k).
Notation nw := (num_words k).

Lemma nw_bounds n : n <= nw n * L /\ (0 < n -> (nw n - 1) * L < n) /\ n / L <= nw n /\ (0 < n mod L -> n / L + 1 = nw n) /\ (n mod L = 0 -> n / L = nw n).
Proof.
  pose proof (L_pos k) as LP. unfold num_words. destruct (pos_split k n) as (E & H). set (q := n / L) in *. set (r := n mod L) in *. destruct (Nat.eq_dec r 0) as [R|R].
  - assert (X : (n + L - 1) / L = q). { rewrite E, R. replace (q * L + 0 + L - 1) with (q * L + (L - 1)) by lia. rewrite Nat.div_add_l, (Nat.div_small (L - 1)) by lia. lia. }
    rewrite X. repeat split; try lia; try (intros; destruct q; nia).
  - assert (X : (n + L - 1) / L = q + 1). { rewrite E. replace (q * L + r + L - 1) with ((q + 1) * L + (r - 1)) by lia. rewrite Nat.div_add_l, (Nat.div_small (r - 1)) by lia. lia. }
    rewrite X. repeat split; try lia; try (intros; nia).
Qed.
Lemma read_ok n ws p : length ws = nw n + 1 -> p <= n -> readable k ws p.
Proof.
  intros Hw Hp. destruct (nw_bounds n) as (A & B & C & D & E). pose proof (L_pos k) as LP. destruct (pos_split k p) as (Ep & Hr). unfold readable. split.
  - assert (p / L <= n / L) by (apply Nat.div_le_mono; lia). lia.
  - intros Hm. destruct (Nat.eq_dec n 0) as [->|]; [assert (p = 0) by lia; subst p; rewrite Nat.mod_0_l in Hm by lia; lia|]. assert (p / L < nw n); [|lia]. destruct (Nat.lt_ge_cases (p / L) (nw n)); [assumption|]. assert (nw n * L <= p / L * L) by nia. lia.
Qed.
Lemma div_ok n (ws : list Z) p : length ws = nw n + 1 -> p <= n -> p / L < length ws.
Proof. intros Hw Hp. apply (read_ok n ws p Hw Hp). Qed.

Lemma rep_elim v l : represents k v l -> fst v = length l /\ length (snd v) = nw (length l) + 1 /\ wf (snd v) /\ forall p, bt (snd v) p = nth p l false.
Proof. intros H. exact H. Qed.
Lemma rep_intro n ws l : n = length l -> length ws = nw (length l) + 1 -> wf ws -> (forall p, bt ws p = nth p l false) -> represents k (n, ws) l.
Proof. intros A B C D. split; [exact A|]. split; [exact B|]. split; [exact C|exact D]. Qed.
Lemma rep_unique v l l' : represents k v l -> represents k v l' -> l = l'.
Proof. intros (A & _ & _ & B) (A' & _ & _ & B'). apply bool_list_ext; [congruence|]. intros p. rewrite <- B, <- B'. reflexivity. Qed.

Lemma new_run n : represents k (bv_new k n) (repeat false n).
Proof.
  apply rep_intro; rewrite ?repeat_length; auto.
  - apply Forall_forall. intros x Hx. apply repeat_spec in Hx as ->. apply zero_wd.
  - intros p. unfold BitVecProofs.bt, bit_of. now rewrite !nth_repeat', Z.bits_0.
Qed.
(** resize of any words that hold l below its size *)
Lemma resize_run' n0 ws (l : list bool) n : wf ws -> (forall p, bt ws p = nth p l false) -> exists v, bv_resize k (n0, ws) n = Some v /\ represents k v (fit n l).
Proof.
  intros F B. unfold bv_resize. cbn [snd]. set (vs := vec_resize ws (nw n + 1)). pose proof (L_pos k) as LP.
  assert (Lv : length vs = nw n + 1) by (unfold vs, vec_resize; rewrite app_length, firstn_length, repeat_length; lia).
  assert (Nv : forall i, nth i vs 0%Z = if i <? nw n + 1 then nth i ws 0%Z else 0%Z). { intros i. unfold vs, vec_resize. destruct (Nat.lt_ge_cases i (length (firstn (nw n + 1) ws))) as [H|H]; [rewrite app_nth1 by exact H; apply nth_firstn|]. rewrite app_nth2, nth_repeat' by exact H. rewrite firstn_length in H. destruct (Nat.ltb_spec i (nw n + 1)); [|reflexivity]. rewrite nth_overflow by lia. reflexivity. }
  assert (Fv : wf vs). { apply Forall_forall. intros x Hx. unfold vs, vec_resize in Hx. apply in_app_or in Hx as [Hx|Hx]; [apply (proj1 (Forall_forall _ _) F); rewrite <- (firstn_skipn (nw n + 1) ws); apply in_or_app; now left|]. apply repeat_spec in Hx as ->. apply zero_wd. }
  destruct (nw_bounds n) as (A1 & A2 & A3 & A4 & A5). destruct (pos_split k n) as (En & Hn). rewrite (nth_some vs (n / L) 0%Z) by lia. cbn [obind].
  destruct (first_bits_run k (n mod L) Hn) as (m & -> & Wm & Tm). cbn [obind]. set (w := nth (n / L) vs 0%Z). assert (Ww : wd w) by (apply wf_nth; exact Fv).
  destruct (set_ok k vs (n / L) (Z.land w m)) as (v1 & -> & L1 & F1 & N1); [lia|exact Fv|now apply land_wd|]. cbn [obind].
  destruct (set_ok k v1 (length v1 - 1) 0%Z) as (v2 & -> & L2 & F2 & N2); [lia|exact F1|apply zero_wd|]. cbn [obind]. eexists. split; [reflexivity|]. apply rep_intro; rewrite ?fit_length; [reflexivity|lia|exact F2|].
  intros p. rewrite fit_nth, <- B. destruct (pos_split k p) as (Ep & Hp). rewrite Ep at 1. rewrite (bt_word k v2 (p / L) (p mod L) Hp), N2, N1, L1, Lv. replace (nw n + 1 - 1) with (nw n) by lia.
  assert (Bp : bt ws p = tb (nth (p / L) ws 0%Z) (p mod L)) by (rewrite Ep at 1; now rewrite (bt_word k ws (p / L) (p mod L) Hp)). rewrite Bp.
  assert (Z0 : forall j, tb 0%Z j = false) by (intros j; unfold tb; apply Z.bits_0).
  destruct (Nat.eqb_spec (nw n) (p / L)) as [E1|M1].
  - rewrite Z0. destruct (Nat.ltb_spec p n); [|reflexivity]. exfalso. assert (p / L <= n / L) by (apply Nat.div_le_mono; lia). assert (nw n = n / L) by lia. nia.
  - destruct (Nat.eqb_spec (n / L) (p / L)) as [E2|M2].
    + rewrite land_tb, Tm. unfold w. rewrite Nv, E2. destruct (Nat.ltb_spec (p / L) (nw n + 1)); [|lia]. rewrite andb_comm. f_equal. destruct (Nat.ltb_spec (p mod L) (n mod L)); destruct (Nat.ltb_spec p n); auto; nia.
    + rewrite Nv. destruct (Nat.ltb_spec p n).
      * cbn [andb]. assert (p / L <= n / L) by (apply Nat.div_le_mono; lia). destruct (Nat.ltb_spec (p / L) (nw n + 1)); [reflexivity|lia].
      * cbn [andb]. assert (n / L <= p / L) by (apply Nat.div_le_mono; lia). destruct (Nat.ltb_spec (p / L) (nw n + 1)); [|apply Z0]. exfalso. destruct (Nat.eq_dec (n mod L) 0) as [R|R]; [specialize (A5 R)|specialize (A4 ltac:(lia))]; lia.
Qed.
Lemma resize_run v l n : represents k v l -> exists v', bv_resize k v n = Some v' /\ represents k v' (fit n l).
Proof. intros R. destruct v as [n0 ws]. apply rep_elim in R as (_ & _ & F & B). now apply resize_run'. Qed.
Lemma fit_max n (l : list bool) : n <= length l -> fit (Nat.max (length l) n) l = l.
Proof. intros H. rewrite Nat.max_l by exact H. apply bool_list_ext; [apply fit_length|]. intros p. rewrite fit_nth. destruct (Nat.ltb_spec p (length l)); [reflexivity|]. now rewrite nth_overflow. Qed.
Lemma reserve_run v l n : represents k v l -> exists v', bv_reserve k v n = Some v' /\ represents k v' (fit (Nat.max (length l) n) l).
Proof.
  intros R. unfold bv_reserve. rewrite (proj1 R). destruct (Nat.ltb_spec (length l) n) as [H|H]; [rewrite Nat.max_r by lia; now apply resize_run|]. exists v. split; [reflexivity|]. now rewrite fit_max.
Qed.

(** single bits *)
Definition put_bit (l : list bool) (p : nat) (x : bool) : list bool := replace_range p (p + 1) [x] l.
Lemma put_bit_nth l p x q : p < length l -> nth q (put_bit l p x) false = if p =? q then x else nth q l false.
Proof. intros H. unfold put_bit. rewrite replace_range_nth by (cbn [length]; lia). destruct (Nat.eqb_spec p q) as [<-|N]; [rewrite Nat.leb_refl; destruct (Nat.ltb_spec p (p + 1)); [|lia]; now rewrite Nat.sub_diag|]. destruct (Nat.leb_spec p q); [|reflexivity]. destruct (Nat.ltb_spec q (p + 1)); [lia|reflexivity]. Qed.
Lemma put_bit_length l p x : p < length l -> length (put_bit l p x) = length l.
Proof. intros H. apply replace_range_length; cbn [length]; lia. Qed.
Lemma set_run v l p val : represents k v l -> p < length l -> exists v', bv_set k v p val = Some v' /\
  represents k v' (if (val =? 0)%Z then put_bit l p false else if (val =? 1)%Z then put_bit l p true else if (val =? -1)%Z then put_bit l p (negb (nth p l false)) else l).
Proof.
  intros R Hp. pose proof R as R0. apply rep_elim in R as (R1 & R2 & R3 & R4). unfold bv_set, bv_set_words. destruct (pos_split k p) as (Ep & Hm). destruct (lsh_run k 1%Z (p mod L) Hm) as (m & -> & Wm & Tm). cbn [obind]. rewrite (nth_some (snd v) (p / L) 0%Z) by (apply (div_ok (length l)); [exact R2|lia]). cbn [obind].
  set (w := nth (p / L) (snd v) 0%Z). assert (Ww : wd w) by now apply wf_nth.
  assert (Tm' : forall j, j < L -> tb m j = (j =? p mod L)). { intros j Hj. rewrite Tm by exact Hj. unfold tb. destruct (Nat.eqb_spec j (p mod L)) as [->|N]; [rewrite Nat.leb_refl, Nat.sub_diag; reflexivity|]. destruct (Nat.leb_spec (p mod L) j); [|reflexivity]. cbn [andb]. replace (Z.of_nat (j - p mod L)) with (Z.succ (Z.of_nat (j - p mod L - 1))) by lia. now rewrite Z.bit0_odd || (rewrite <- Z.div2_spec; rewrite ?Z.bits_0) || (change 1%Z with (2 * 0 + 1)%Z; rewrite Z.testbit_odd_succ by lia; apply Z.bits_0). }
  assert (G : forall x (b : bool), wd x -> (forall j, j < L -> tb x j = if j =? p mod L then b else tb w j) -> exists v', (let* ws := set_nth (snd v) (p / L) x in Some (fst v, ws)) = Some v' /\ represents k v' (put_bit l p b)).
  { intros x b Wx Tx. destruct (set_ok k (snd v) (p / L) x) as (ws & -> & Ln & F & N); [apply (div_ok (length l)); [exact R2|lia]|exact R3|exact Wx|]. cbn [obind]. eexists. split; [reflexivity|]. apply rep_intro; rewrite ?put_bit_length by exact Hp; [exact R1|lia|exact F|]. intros q. rewrite put_bit_nth by exact Hp. destruct (pos_split k q) as (Eq & Hq). rewrite Eq at 1. rewrite (bt_word k ws (q / L) (q mod L) Hq), N. rewrite <- (R4 q). destruct (Nat.eqb_spec (p / L) (q / L)) as [E1|M1].
    - rewrite Tx by exact Hq. destruct (Nat.eqb_spec (q mod L) (p mod L)) as [E2|M2]; destruct (Nat.eqb_spec p q) as [E3|M3]; try reflexivity; [exfalso; apply M3; rewrite Ep, Eq, E1, E2; reflexivity|exfalso; subst; lia|]. rewrite Eq at 2. rewrite (bt_word k (snd v) (q / L) (q mod L) Hq), <- E1. reflexivity.
    - destruct (Nat.eqb_spec p q) as [->|M3]; [congruence|]. rewrite Eq at 3. now rewrite (bt_word k (snd v) (q / L) (q mod L) Hq). }
  assert (Tw : forall j, j = p mod L -> tb w j = nth p l false) by (intros j ->; rewrite <- R4; rewrite Ep at 2; rewrite (bt_word k (snd v) (p / L) (p mod L) Hm); reflexivity).
  destruct (val =? 0)%Z; [|destruct (val =? 1)%Z; [|destruct (val =? -1)%Z]].
  - apply G; [now apply land_wd|]. intros j Hj. rewrite land_tb, bnot_tb, Tm' by exact Hj. destruct (j =? p mod L); cbn [negb]; [apply andb_false_r|apply andb_true_r].
  - apply G; [now apply lor_wd|]. intros j Hj. rewrite lor_tb, Tm' by exact Hj. destruct (j =? p mod L); [apply orb_true_r|apply orb_false_r].
  - apply G; [now apply lxor_wd|]. intros j Hj. rewrite lxor_tb, Tm' by exact Hj. destruct (Nat.eqb_spec j (p mod L)) as [E|]; [rewrite (Tw j E); apply xorb_true_r|apply xorb_false_r].
  - cbn [obind]. eexists. split; [reflexivity|]. destruct v. exact R0.
Qed.
Lemma bit_at_run v l p : represents k v l -> p < length l -> bv_bit_at k v p = Some (if nth p l false then 1 else 0)%Z.
Proof.
  intros R Hp. apply rep_elim in R as (R1 & R2 & R3 & R4). unfold bv_bit_at. destruct (pos_split k p) as (Ep & Hm). rewrite (nth_some (snd v) (p / L) 0%Z) by (apply (div_ok (length l)); [exact R2|lia]). cbn [obind]. destruct (rsh_run k (nth (p / L) (snd v) 0%Z) (p mod L)) as (x & -> & Wx & Tx); [now apply wf_nth|exact Hm|]. cbn [obind]. f_equal.
  rewrite <- R4. rewrite Ep at 1. rewrite (bt_word k (snd v) (p / L) (p mod L) Hm). specialize (Tx 0). cbn [Nat.add] in Tx. rewrite <- Tx. unfold tb. change (Z.of_nat 0) with 0%Z. rewrite Z.bit0_odd. change 1%Z with (Z.ones 1) at 1. rewrite Z.land_ones by lia. change (2 ^ 1)%Z with 2%Z. rewrite Zmod_odd. reflexivity.
Qed.
End R.
