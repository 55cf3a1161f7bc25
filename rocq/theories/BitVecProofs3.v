(** Bit vectors: construction from ranges, range operations, logical operators, scans. *)
From Verif Require Import Lib BitsModel BitsSpec BitsProofs BitsProofs2 BitVecModel BitVecSpec BitVecProofs BitVecProofs2.
Open Scope nat_scope.

Section R.
Variable k : nat.
Notation L := (L k). Notation W := (W k). Notation bt := (bt k). Notation wf := (wf k). Notation wd := (wd k).
Notation nw := (num_words k).

Lemma land1 x : (Z.land x 1 = if Z.odd x then 1 else 0)%Z.
Proof. change 1%Z with (Z.ones 1) at 1. rewrite Z.land_ones by lia. change (2 ^ 1)%Z with 2%Z. apply Zmod_odd. Qed.
Lemma of_range_run xs : exists v, bv_of_range k xs = Some v /\ represents k v (map Z.odd xs).
Proof.
  unfold bv_of_range. destruct (resize_run' k 0 [] [] (length xs)) as (v0 & -> & R0); [constructor|intros p; unfold BitVecProofs.bt, bit_of; destruct (p / 2 ^ k); rewrite Z.bits_0; destruct p; reflexivity|]. cbn [obind].
  match goal with |- context [for_range 0 ?n ?g ?s0] => destruct (for_range_spec (S := (bvec * nat)%type) (fun i '(v, pos) => pos = i /\ represents k v (fit (length xs) (map Z.odd (firstn i xs)))) g 0 n s0) as ([v pos] & E & H) end.
  - lia.
  - split; [reflexivity|exact R0].
  - intros i [v pos] Hi (-> & R). rewrite (nth_some xs i 0%Z) by lia. cbn [obind]. destruct (set_run k v _ i (Z.land (nth i xs 0%Z) 1) R) as (v' & E' & R'); [rewrite fit_length; lia|]. rewrite E'. cbn [obind]. eexists. split; [reflexivity|]. cbv beta iota. split; [lia|]. rewrite land1 in R'.
    assert (X : fit (length xs) (map Z.odd (firstn (S i) xs)) = put_bit (fit (length xs) (map Z.odd (firstn i xs))) i (Z.odd (nth i xs 0%Z))).
    { assert (G : forall n p, p < n -> p < length xs -> nth p (map Z.odd (firstn n xs)) false = Z.odd (nth p xs 0%Z)). { intros n p H1 H2. rewrite (nth_indep _ false (Z.odd 0)) by (rewrite map_length, firstn_length; lia). rewrite map_nth, nth_firstn. destruct (Nat.ltb_spec p n); [reflexivity|lia]. }
      apply bool_list_ext; [rewrite put_bit_length, !fit_length; [reflexivity|rewrite fit_length; lia]|]. intros p. rewrite put_bit_nth by (rewrite fit_length; lia). rewrite !fit_nth. destruct (Nat.eqb_spec i p) as [<-|N].
      - destruct (Nat.ltb_spec i (length xs)); [|lia]. cbn [andb]. apply G; lia.
      - f_equal. destruct (Nat.lt_ge_cases p i); [destruct (Nat.lt_ge_cases p (length xs)); [rewrite !G by lia; reflexivity|]; rewrite !nth_overflow; [reflexivity|rewrite map_length, firstn_length; lia|rewrite map_length, firstn_length; lia]|]. rewrite !nth_overflow; [reflexivity|rewrite map_length, firstn_length; lia|rewrite map_length, firstn_length; lia]. }
    rewrite X. destruct (Z.odd (nth i xs 0%Z)); exact R'.
  - rewrite E. cbn [obind]. exists v. split; [reflexivity|]. destruct H as (_ & R). replace (map Z.odd xs) with (fit (length xs) (map Z.odd (firstn (length xs) xs))); [exact R|]. rewrite firstn_all. apply bool_list_ext; [now rewrite fit_length, map_length|]. intros p. rewrite fit_nth. destruct (Nat.ltb_spec p (length xs)); [reflexivity|]. now rewrite nth_overflow by (rewrite map_length; lia).
Qed.
Lemma push_run v l val : represents k v l -> (val = 0 \/ val = 1)%Z -> exists v', bv_push_back k v val = Some v' /\ represents k v' (l ++ [Z.odd val]).
Proof.
  intros R Hv. unfold bv_push_back. destruct (resize_run k v l (fst v + 1) R) as (v1 & -> & R1). cbn [obind]. rewrite (proj1 R) in R1. assert (F1 : fst v1 = length l + 1) by (rewrite (proj1 R1); apply fit_length). rewrite F1. replace (length l + 1 - 1) with (length l) by lia. destruct (set_run k v1 _ (length l) val R1) as (v2 & -> & R2); [rewrite fit_length; lia|]. exists v2. split; [reflexivity|].
  assert (X : l ++ [Z.odd val] = put_bit (fit (length l + 1) l) (length l) (Z.odd val)). { apply bool_list_ext; [rewrite put_bit_length, fit_length, app_length; [reflexivity|rewrite fit_length; lia]|]. intros p. rewrite put_bit_nth, fit_nth by (rewrite fit_length; lia). destruct (Nat.eqb_spec (length l) p) as [<-|N]; [now rewrite nth_middle|]. destruct (Nat.ltb_spec p (length l + 1)); [rewrite app_nth1 by lia; reflexivity|]. rewrite nth_overflow by (rewrite app_length; cbn; lia). reflexivity. }
  rewrite X. destruct Hv as [-> | ->]; exact R2.
Qed.
Lemma pop_run v l x : represents k v (l ++ [x]) -> exists v', bv_pop_back k v = Some v' /\ represents k v' l.
Proof.
  intros R. unfold bv_pop_back. pose proof (proj1 R) as S. rewrite app_length in S. cbn [length] in S. rewrite S. destruct (Nat.eqb_spec (length l + 1) 0); [lia|]. replace (length l + 1 - 1) with (length l) by lia. destruct (resize_run k v _ (length l) R) as (v' & -> & R'). exists v'. split; [reflexivity|]. replace l with (fit (length l) (l ++ [x])); [exact R'|]. apply bool_list_ext; [apply fit_length|]. intros p. rewrite fit_nth. destruct (Nat.ltb_spec p (length l)); [now rewrite app_nth1 by lia|]. rewrite (nth_overflow l) by lia. reflexivity.
Qed.

(** ** range operations *)
Definition bitop1 (g : Z -> Z) (f : bool -> bool) : Prop := forall w, wd w -> wd (g w) /\ forall j, j < L -> tb (g w) j = f (tb w j).
Definition bitop2 (g : Z -> Z -> Z) (f : bool -> bool -> bool) : Prop := forall w x, wd w -> wd x -> wd (g w x) /\ forall j, j < L -> tb (g w x) j = f (tb w j) (tb x j).
Lemma apply1_run v l b e g f : represents k v l -> b <= e -> e <= length l -> bitop1 g f -> exists v', bv_apply1 k v b e g = Some v' /\ represents k v' (replace_range b e (map f (slice b e l)) l).
Proof.
  intros R Hb He G. apply rep_elim in R as (R1 & R2 & R3 & R4). unfold bv_apply1.
  destruct (apply_run k (snd v) b e (op1 g) false (fun _ => f)) as (ws & -> & Ln & F & B); [exact R3|exact Hb|apply (div_ok k (length l)); [exact R2|lia]| |].
  - intros ws' w pos len _ _ Hw _ _. exists (g w). split; [reflexivity|]. split; [now apply G|]. intros j Hj _. now apply G.
  - cbn [obind]. eexists. split; [reflexivity|]. assert (Lm : length (map f (slice b e l)) = e - b) by (rewrite map_length, slice_length by lia; reflexivity). apply rep_intro; rewrite ?replace_range_length by assumption; [exact R1|lia|exact F|]. intros p. rewrite B, replace_range_nth, R4 by assumption. destruct (Nat.leb_spec b p); [|reflexivity]. destruct (Nat.ltb_spec p e); [|reflexivity]. cbn [andb]. rewrite nth_map_bool by (rewrite slice_length by lia; lia). rewrite slice_nth by lia. do 2 f_equal. lia.
Qed.
Lemma apply2_run v l b1 (u : option bvec) l2 b2 len g f : represents k v l -> match u with Some u => represents k u l2 | None => l2 = l end -> b1 + len <= length l -> b2 + len <= length l2 -> bitop2 g f ->
  exists ws, bv_apply2 k (snd v) b1 (option_map snd u) b2 len g = Some ws /\ represents k (fst v, ws) (replace_range b1 (b1 + len) (zip f (slice b1 (b1 + len) l) (slice b2 (b2 + len) l2)) l).
Proof.
  intros R Ru H1 H2 G. pose proof R as R0. apply rep_elim in R as (R1 & R2 & R3 & R4). unfold bv_apply2.
  destruct (apply_run k (snd v) b1 (b1 + len) (fun ws w pos _ => let* x := word_at k (match option_map snd u with Some ws2 => ws2 | None => ws end) (b2 + pos) in Some (g w x)) (b2 <? b1) (fun p x => f x (nth (b2 + p) l2 false))) as (ws & -> & Ln & F & B); [exact R3|lia|apply (div_ok k (length l)); [exact R2|lia]| |].
  - intros ws' w pos l' F' Ln Hw Hpos Hag. replace (b1 + len - b1) with len in * by lia.
    assert (X : exists x, word_at k (match option_map snd u with Some ws2 => ws2 | None => ws' end) (b2 + pos) = Some x /\ wd x /\ forall j, j < L -> pos + j < len -> tb x j = nth (b2 + (pos + j)) l2 false).
    { destruct u as [u|]; cbn [option_map].
      - apply rep_elim in Ru as (U1 & U2 & U3 & U4). destruct (word_at_run k (snd u) (b2 + pos) U3) as (x & E & Wx & Tx); [apply (read_ok k (length l2)); [exact U2|lia]|]. exists x. split; [exact E|]. split; [exact Wx|]. intros j Hj _. rewrite Tx, U4 by exact Hj. f_equal. lia.
      - subst l2. destruct (word_at_run k ws' (b2 + pos) F') as (x & E & Wx & Tx); [apply (read_ok k (length l)); [lia|lia]|]. exists x. split; [exact E|]. split; [exact Wx|]. intros j Hj Hjl. rewrite Tx by exact Hj. rewrite Hag; [rewrite R4; f_equal; lia|]. destruct (Nat.ltb_spec b2 b1); lia. }
    destruct X as (x & -> & Wx & Tx). cbn [obind]. eexists. split; [reflexivity|]. split; [now apply G|]. intros j Hj Hjl. rewrite (proj2 (G w x Hw Wx) j Hj), Tx by assumption. reflexivity.
  - exists ws. split; [reflexivity|]. assert (Lm : length (zip f (slice b1 (b1 + len) l) (slice b2 (b2 + len) l2)) = b1 + len - b1) by (rewrite zip_length, !slice_length by lia; lia). apply rep_intro; rewrite ?replace_range_length by (try exact Lm; lia); [exact R1|lia|exact F|]. intros p. rewrite B, replace_range_nth, R4 by (try exact Lm; lia). destruct (Nat.leb_spec b1 p); [|reflexivity]. destruct (Nat.ltb_spec p (b1 + len)); [|reflexivity]. cbn [andb]. rewrite zip_nth by (rewrite slice_length by lia; lia). rewrite !slice_nth by lia. do 2 f_equal. lia.
Qed.
Lemma bitops : bitop1 op_set0 (fun _ => false) /\ bitop1 (op_set1 k) (fun _ => true) /\ bitop1 op_nop (fun x => x) /\ bitop1 (op_flip k) negb /\
  bitop2 op_set (fun _ y => y) /\ bitop2 (op_setn k) (fun _ y => negb y) /\ bitop2 op_and andb /\ bitop2 op_or orb /\ bitop2 op_xor xorb /\
  bitop2 (op_nand k) (fun x y => negb (x && y)) /\ bitop2 (op_nor k) (fun x y => negb (x || y)) /\ bitop2 (op_eq k) (fun x y => Bool.eqb x y).
Proof.
  unfold bitop1, bitop2. repeat match goal with |- _ /\ _ => split end; intros; split; intros.
  1: apply zero_wd. 1: unfold tb; apply Z.bits_0. 1: apply WW_wd. 1: now apply WW_tb. 1: assumption. 1: reflexivity. 1: apply bnot_wd. 1: now apply bnot_tb. 1: assumption. 1: reflexivity. 1: apply bnot_wd. 1: now apply bnot_tb. 1: now apply land_wd. 1: apply land_tb. 1: now apply lor_wd. 1: apply lor_tb. 1: now apply lxor_wd. 1: apply lxor_tb. 1: apply bnot_wd. 1: unfold op_nand; now rewrite bnot_tb, land_tb. 1: apply bnot_wd. 1: unfold op_nor; now rewrite bnot_tb, lor_tb. 1: apply bnot_wd. unfold op_eq. rewrite bnot_tb, lxor_tb by assumption. destruct (tb w j), (tb x j); reflexivity.
Qed.
Lemma not_run v l : represents k v l -> exists v', bv_not k v = Some v' /\ represents k v' (map negb l).
Proof.
  intros R. unfold bv_not. rewrite (proj1 R). destruct (apply1_run v l 0 (length l) (op_flip k) negb R) as (v' & E & R'); [lia|lia|apply bitops|]. exists v'. split; [exact E|]. unfold replace_range, slice in R'. rewrite Nat.sub_0_r, skipn_all, app_nil_r in R'. cbn [firstn skipn app] in R'. rewrite firstn_all in R'. exact R'.
Qed.
Lemma combine_run v l (u : option bvec) l2 g f : represents k v l -> match u with Some u => represents k u l2 | None => l2 = l end -> bitop2 g f ->
  exists v', bv_combine k g v u = Some v' /\ fst v' = Nat.max (length l) (length l2) /\ represents k v' (replace_range 0 (length l2) (zip f (slice 0 (length l2) (fit (Nat.max (length l) (length l2)) l)) l2) (fit (Nat.max (length l) (length l2)) l)).
Proof.
  intros R Ru G. unfold bv_combine. assert (S2 : match u with Some u => fst u | None => fst v end = length l2) by (destruct u; [apply Ru|subst; apply R]). rewrite S2. destruct (reserve_run k v l (length l2) R) as (v1 & -> & R1). cbn [obind]. set (l' := fit (Nat.max (length l) (length l2)) l) in *. assert (Ll' : length l' = Nat.max (length l) (length l2)) by apply fit_length.
  destruct (apply2_run v1 l' 0 u l2 0 (length l2) g f R1) as (ws & -> & R2); [destruct u; [exact Ru|subst l2; unfold l'; now rewrite fit_max]|lia|lia|exact G|].
  cbn [obind]. eexists. split; [reflexivity|]. split; [rewrite (proj1 R1); exact Ll'|]. cbn [Nat.add] in R2. replace (slice 0 (length l2) l2) with l2 in R2 by (unfold slice; rewrite Nat.sub_0_r; cbn [skipn]; now rewrite firstn_all). exact R2.
Qed.
Lemma logic_run v l (u : option bvec) l2 g f : represents k v l -> match u with Some u => represents k u l2 | None => l2 = l end -> bitop2 g f -> (forall x, f x false = x) ->
  exists v', bv_combine k g v u = Some v' /\ represents k v' (zip f (fit (Nat.max (length l) (length l2)) l) (fit (Nat.max (length l) (length l2)) l2)).
Proof.
  intros R Ru G F. destruct (combine_run v l u l2 g f R Ru G) as (v' & E & _ & R'). exists v'. split; [exact E|]. set (n := Nat.max (length l) (length l2)) in *. assert (Ll : length (fit n l) = n) by apply fit_length. assert (Lz : length (zip f (slice 0 (length l2) (fit n l)) l2) = length l2 - 0) by (rewrite zip_length, slice_length by lia; lia).
  replace (zip f (fit n l) (fit n l2)) with (replace_range 0 (length l2) (zip f (slice 0 (length l2) (fit n l)) l2) (fit n l)); [exact R'|]. apply bool_list_ext; [rewrite replace_range_length, zip_length, !fit_length by (try exact Lz; lia); lia|]. intros p. rewrite replace_range_nth by (try exact Lz; lia). cbn [andb Nat.leb]. destruct (Nat.ltb_spec p (length l2)).
  - rewrite Nat.sub_0_r, !zip_nth; rewrite ?fit_length, ?slice_length by lia; try lia. rewrite slice_nth by lia. rewrite !fit_nth. cbn [Nat.add]. destruct (Nat.ltb_spec p n); [reflexivity|lia].
  - destruct (Nat.lt_ge_cases p n); [rewrite zip_nth by (rewrite fit_length; lia); rewrite (fit_nth n l2), (nth_overflow l2) by lia; rewrite andb_false_r, F; reflexivity|]. rewrite !nth_overflow; [reflexivity|rewrite zip_length, !fit_length; lia|lia].
Qed.
Lemma and_run v l (u : option bvec) l2 : represents k v l -> match u with Some u => represents k u l2 | None => l2 = l end ->
  exists v', bv_and k v u = Some v' /\ represents k v' (zip andb (fit (Nat.max (length l) (length l2)) l) (fit (Nat.max (length l) (length l2)) l2)).
Proof.
  intros R Ru. unfold bv_and. assert (S2 : match u with Some u => fst u | None => fst v end = length l2) by (destruct u; [apply Ru|subst; apply R]). rewrite S2. destruct (combine_run v l u l2 op_and andb R Ru) as (v1 & -> & S1 & R1); [apply bitops|]. cbn [obind]. rewrite S1. set (n := Nat.max (length l) (length l2)) in *. assert (Ll : length (fit n l) = n) by apply fit_length.
  assert (Lz : length (zip andb (slice 0 (length l2) (fit n l)) l2) = length l2 - 0) by (rewrite zip_length, slice_length by lia; lia). set (l1 := replace_range 0 (length l2) (zip andb (slice 0 (length l2) (fit n l)) l2) (fit n l)) in *. assert (L1 : length l1 = n) by (unfold l1; rewrite replace_range_length by (try exact Lz; lia); exact Ll).
  destruct (apply1_run v1 l1 (length l2) n op_set0 (fun _ => false) R1) as (v2 & -> & R2); [lia|lia|apply bitops|]. exists v2. split; [reflexivity|]. assert (Lm : length (map (fun _ : bool => false) (slice (length l2) n l1)) = n - length l2) by (rewrite map_length, slice_length by lia; reflexivity).
  match type of R2 with represents _ _ ?x => replace (zip andb (fit n l) (fit n l2)) with x; [exact R2|] end. apply bool_list_ext; [rewrite replace_range_length, zip_length, !fit_length by (try exact Lm; lia); lia|]. intros p. rewrite replace_range_nth by (try exact Lm; lia). destruct (Nat.leb_spec (length l2) p).
  - destruct (Nat.ltb_spec p n); cbn [andb]; [rewrite nth_map_bool by (rewrite slice_length by lia; lia); rewrite zip_nth by (rewrite fit_length; lia); rewrite (fit_nth n l2), (nth_overflow l2) by lia; now rewrite !andb_false_r|]. rewrite !nth_overflow; [reflexivity|rewrite zip_length, !fit_length; lia|lia].
  - cbn [andb]. unfold l1. rewrite replace_range_nth by (try exact Lz; lia). destruct (Nat.ltb_spec p (length l2)); [|lia]. cbn [andb Nat.leb]. rewrite Nat.sub_0_r, !zip_nth; rewrite ?fit_length, ?slice_length by lia; try lia. rewrite slice_nth by lia. rewrite !fit_nth. cbn [Nat.add]. destruct (Nat.ltb_spec p n); [reflexivity|lia].
Qed.

(** ** scans *)
Lemma scan_run {S} ws b e (visit : S -> Z -> nat -> nat -> option (bool * S)) s0 (Inv : nat -> S -> Prop) (Stop : S -> Prop) : wf ws -> b <= e -> e / L < length ws -> Inv 0 s0 ->
  (forall s w pos l, wd w -> l <= L -> pos + l <= e - b -> (forall j, j < l -> tb w j = bt ws (b + pos + j)) -> Inv pos s -> exists r s', visit s w pos l = Some (r, s') /\ if (r : bool) then Inv (pos + l) s' else Stop s') ->
  exists r s', bv_scan k ws b e visit s0 = Some (r, s') /\ if (r : bool) then Inv (e - b) s' else Stop s'.
Proof.
  intros F Hbe He H0 Hv. unfold bv_scan. destruct (pos_split k b) as (Eb & Hlb). destruct (pos_split k e) as (Ee & Hle). set (ib := b / L) in *. set (ie := e / L) in *. set (lb := b mod L) in *. set (le := e mod L) in *. pose proof (L_pos k) as LP.
  assert (Hib : ib <= ie) by (unfold ib, ie; apply Nat.div_le_mono; lia). rewrite (nth_some ws ib 0%Z) by lia. cbn [obind]. set (w := nth ib ws 0%Z). destruct (rsh_run k w lb) as (x & -> & Wx & Tx); [now apply wf_nth|exact Hlb|]. cbn [obind].
  assert (Tx' : forall j, j < L - lb -> tb x j = bt ws (b + 0 + j)). { intros j Hj. rewrite Tx. replace (b + 0 + j) with (ib * L + (j + lb)) by lia. rewrite bt_word by lia. reflexivity. }
  destruct (Nat.eqb_spec ib ie) as [Ei|Ni]; cbn [negb].
  - destruct (Hv s0 x 0 (le - lb) Wx) as (r & s1 & -> & H1); [lia|nia|intros j Hj; apply Tx'; lia|exact H0|]. cbn [obind]. unfold for_range. replace (Nat.max (ib + 1) ie - (ib + 1)) with 0 by lia. cbn [for_n obind]. rewrite andb_false_r. exists r, s1. split; [reflexivity|]. destruct r; [|exact H1]. replace (e - b) with (0 + (le - lb)) by nia. exact H1.
  - assert (ib * L + L <= ie * L) by nia. destruct (Hv s0 x 0 (L - lb) Wx) as (r & s1 & -> & H1); [lia|lia|intros j Hj; apply Tx'; lia|exact H0|]. cbn [obind].
    match goal with |- context [for_range ?a ?c ?g ?st] => destruct (for_range_spec (fun i '(r, s) => if (r : bool) then Inv (i * L - b) s else Stop s) g a c st) as ([r2 s2] & -> & H2) end.
    + lia.
    + destruct r; [|exact H1]. replace ((ib + 1) * L - b) with (0 + (L - lb)) by lia. exact H1.
    + intros i [r' s'] Hi HI. destruct r'; [|exists (false, s'); split; [reflexivity|exact HI]]. assert (b <= i * L) by nia. assert (i * L + L <= ie * L) by nia. rewrite (nth_some ws i 0%Z) by lia. cbn [obind]. destruct (Hv s' (nth i ws 0%Z) (i * L - b) L) as (r3 & s3 & -> & HH3); [now apply wf_nth|lia|lia| |exact HI|].
      * intros j Hj. replace (b + (i * L - b) + j) with (i * L + j) by lia. now rewrite bt_word.
      * exists (r3, s3). split; [reflexivity|]. destruct r3; [|exact HH3]. replace (Datatypes.S i * L - b) with (i * L - b + L) by lia. exact HH3.
    + cbn [obind]. replace (Nat.max (ib + 1) ie) with ie in H2 by lia. destruct r2; cbn [andb]; [|exists false, s2; split; [reflexivity|exact H2]]. rewrite (nth_some ws ie 0%Z) by lia. cbn [obind]. replace (ie * L - b) with (e - b - le) in H2 by lia. destruct (Hv s2 (nth ie ws 0%Z) (e - b - le) le) as (r3 & s3 & -> & HH3); [now apply wf_nth|lia|lia| |exact H2|].
      * intros j Hj. replace (b + (e - b - le) + j) with (ie * L + j) by lia. now rewrite bt_word by lia.
      * exists r3, s3. split; [reflexivity|]. destruct r3; [|exact HH3]. replace (e - b) with (e - b - le + le) by lia. exact HH3.
Qed.
(** reading two ranges *)
Lemma scan2_run {S} v1 l1 b1 v2 l2 b2 len (visit : S -> Z -> Z -> nat -> option (bool * S)) s0 (Inv : nat -> S -> Prop) (Stop : S -> Prop) : represents k v1 l1 -> represents k v2 l2 -> b1 + len <= length l1 -> b2 + len <= length l2 -> Inv 0 s0 ->
  (forall s w x pos l, wd w -> wd x -> l <= L -> pos + l <= len -> (forall j, j < l -> tb w j = nth (b1 + (pos + j)) l1 false /\ tb x j = nth (b2 + (pos + j)) l2 false) -> Inv pos s -> exists r s', visit s w x l = Some (r, s') /\ if (r : bool) then Inv (pos + l) s' else Stop s') ->
  exists r s', bv_scan2 k (snd v1) b1 (snd v2) b2 len visit s0 = Some (r, s') /\ if (r : bool) then Inv len s' else Stop s'.
Proof.
  intros R1 R2 H1 H2 H0 Hv. apply rep_elim in R1 as (A1 & A2 & A3 & A4). apply rep_elim in R2 as (B1 & B2 & B3 & B4). unfold bv_scan2.
  destruct (scan_run (snd v1) b1 (b1 + len) (fun s w pos l => let* x := word_at k (snd v2) (b2 + pos) in visit s w x l) s0 Inv Stop) as (r & s' & E & H); [exact A3|lia|apply (div_ok k (length l1)); [exact A2|lia]|exact H0| |].
  - intros s w pos l Ww Hl Hp Tw HI. replace (b1 + len - b1) with len in * by lia. destruct (word_at_run k (snd v2) (b2 + pos) B3) as (x & -> & Wx & Tx); [apply (read_ok k (length l2)); [exact B2|lia]|]. cbn [obind]. apply Hv; auto. intros j Hj. rewrite Tw, A4, Tx, B4 by lia. split; f_equal; lia.
  - exists r, s'. split; [exact E|]. replace (b1 + len - b1) with len in H by lia. exact H.
Qed.
End R.
