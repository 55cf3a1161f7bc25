(** The nim product makes the natural numbers a field. *)
From Coq Require Import Arith NArith Ring Lia Bool.
From Verif Require Import NimTower NimSpec.
Open Scope N_scope.

Definition small (n v : N) : Prop := N.shiftr v n = 0.
Lemma small_lt n v : small n v <-> v < 2 ^ n.
Proof. unfold small. rewrite N.shiftr_div_pow2. apply N.div_small_iff. apply N.pow_nonzero. discriminate. Qed.
Lemma small_xor n a b : small n a -> small n b -> small n (N.lxor a b).
Proof. unfold small. intros A B. rewrite N.shiftr_lxor, A, B. reflexivity. Qed.
Lemma small_mono n m a : small n a -> n <= m -> small m a.
Proof. unfold small. intros A L. replace m with (n + (m - n)) by lia. rewrite <- N.shiftr_shiftr, A. apply N.shiftr_0_l. Qed.
Lemma small_shiftl n m a : small n a -> small (n + m) (N.shiftl a m).
Proof. unfold small. intros A. rewrite N.add_comm, <- N.shiftr_shiftr, N.shiftr_shiftl_l, N.sub_diag, N.shiftl_0_r by lia. exact A. Qed.
Lemma wd_S k : wd (S k) = wd k + wd k.
Proof. unfold wd. rewrite Nat2N.inj_succ, N.pow_succ_r'. lia. Qed.
Lemma wd_pos k : 1 <= wd k. Proof. unfold wd. pose proof (N.pow_nonzero 2 (N.of_nat k)). lia. Qed.
Lemma wd_mono j k : (j <= k)%nat -> wd j <= wd k. Proof. intros H. unfold wd. apply N.pow_le_mono_r; lia. Qed.
Lemma enc_small k : forall x, small (wd k) (enc k x).
Proof.
  induction k as [|k IH]; intros x; [now destruct x|]. cbn [enc]. rewrite wd_S. apply small_xor; [apply small_shiftl, IH|]. eapply small_mono; [apply IH|lia].
Qed.
Lemma enc_add k : forall x y, enc k (tadd k x y) = N.lxor (enc k x) (enc k y).
Proof.
  induction k as [|k IH]; intros x y; [destruct x, y; reflexivity|]. cbn [enc tadd]. unfold qadd. cbn [fst snd]. rewrite !IH, N.shiftl_lxor, !N.lxor_assoc. f_equal. rewrite <- !N.lxor_assoc. f_equal. apply N.lxor_comm.
Qed.
Lemma enc_zero k : enc k (tzero k) = 0. Proof. induction k as [|k IH]; [reflexivity|]. cbn [enc tzero fst snd]. rewrite IH, N.shiftl_0_l. reflexivity. Qed.
Lemma enc_one k : enc k (tone k) = 1. Proof. induction k as [|k IH]; [reflexivity|]. cbn [enc tone fst snd]. rewrite IH, enc_zero, N.shiftl_0_l. reflexivity. Qed.
Lemma enc_e k : enc k (te k) = 2 ^ (wd k - 1).
Proof.
  induction k as [|k IH]; [reflexivity|]. cbn [enc te fst snd]. rewrite IH, enc_zero, N.lxor_0_r, N.shiftl_mul_pow2, <- N.pow_add_r. f_equal. rewrite wd_S. pose proof (wd_pos k). lia.
Qed.
Lemma land_ones_small n v : small n v -> N.land v (N.ones n) = v.
Proof. intros H. apply small_lt in H. rewrite N.land_ones. now apply N.mod_small. Qed.
Lemma split_bits n v : N.lxor (N.shiftl (N.shiftr v n) n) (N.land v (N.ones n)) = v.
Proof.
  apply N.bits_inj. intros i. rewrite N.lxor_spec, N.land_spec. destruct (N.ltb_spec i n) as [L|L].
  - rewrite N.shiftl_spec_low, N.ones_spec_low by exact L. now destruct (N.testbit v i).
  - rewrite N.shiftl_spec_high', N.shiftr_spec', N.ones_spec_high by exact L. rewrite andb_false_r, N.sub_add by exact L. now destruct (N.testbit v i).
Qed.
Lemma high_join n h l : small n l -> N.shiftr (N.lxor (N.shiftl h n) l) n = h.
Proof. intros H. rewrite N.shiftr_lxor, H, N.lxor_0_r, N.shiftr_shiftl_l, N.sub_diag, N.shiftl_0_r by lia. reflexivity. Qed.
Lemma low_join n h l : small n l -> N.land (N.lxor (N.shiftl h n) l) (N.ones n) = l.
Proof.
  intros H. apply N.bits_inj. intros i. rewrite N.land_spec, N.lxor_spec. destruct (N.ltb_spec i n) as [L|L].
  - rewrite N.shiftl_spec_low, N.ones_spec_low by exact L. now destruct (N.testbit l i).
  - rewrite N.ones_spec_high, andb_false_r by exact L. rewrite <- (land_ones_small n l H), N.land_spec, N.ones_spec_high by exact L. now rewrite andb_false_r.
Qed.
Lemma dec_enc k : forall x, dec k (enc k x) = x.
Proof. induction k as [|k IH]; intros x; [now destruct x|]. destruct x as (h & l). cbn [dec enc fst snd]. rewrite high_join, low_join, !IH by apply enc_small. reflexivity. Qed.
Lemma small_high k v : small (wd (S k)) v -> small (wd k) (N.shiftr v (wd k)).
Proof. unfold small. rewrite wd_S, N.shiftr_shiftr. auto. Qed.
Lemma small_low n v : small n (N.land v (N.ones n)).
Proof. unfold small. rewrite N.shiftr_land. replace (N.shiftr (N.ones n) n) with 0; [apply N.land_0_r|]. symmetry. apply small_lt. rewrite N.ones_equiv. pose proof (N.pow_nonzero 2 n). lia. Qed.
Lemma enc_dec k : forall v, small (wd k) v -> enc k (dec k v) = v.
Proof.
  induction k as [|k IH]; intros v S; cbn [enc dec fst snd]; [|rewrite !IH; [apply split_bits|apply small_low|now apply small_high]]. apply small_lt in S. assert (C : v = 0 \/ v = 1) by (cbn in S; lia). destruct C as [->| ->]; reflexivity.
Qed.
Lemma dec_add k : forall a b, dec k (N.lxor a b) = tadd k (dec k a) (dec k b).
Proof. induction k as [|k IH]; intros a b; cbn [dec tadd]; [apply N.lxor_spec|]. unfold qadd. cbn [fst snd]. rewrite <- !IH, N.shiftr_lxor. f_equal. f_equal. apply N.bits_inj. intros i. rewrite N.land_spec, !N.lxor_spec, !N.land_spec. now destruct (N.testbit a i), (N.testbit b i), (N.testbit (N.ones (wd k)) i). Qed.
Lemma dec_0 k : dec k 0 = tzero k. Proof. induction k as [|k IH]; [reflexivity|]. cbn [dec tzero]. now rewrite N.shiftr_0_l, N.land_0_l, IH. Qed.
Lemma dec_up k v : small (wd k) v -> dec (S k) v = (tzero k, dec k v).
Proof. intros S. cbn [dec]. rewrite S, dec_0, land_ones_small by exact S. reflexivity. Qed.
(** the level does not matter *)
Lemma nmk_small k a b : small (wd k) (nmk k a b). Proof. apply enc_small. Qed.
Section Up.
Variable k : nat.
Add Ring tower_u : (tower_ring k).
Lemma nmk_up a b : small (wd k) a -> small (wd k) b -> nmk (S k) a b = nmk k a b.
Proof.
  intros A B. unfold nmk. rewrite !dec_up by assumption. cbn [tmul enc]. unfold qmul. cbn [fst snd]. set (x := dec k a). set (y := dec k b).
  replace (tadd k (tadd k (tmul k (tzero k) (tzero k)) (tmul k (tzero k) y)) (tmul k x (tzero k))) with (tzero k) by ring. replace (tadd k (tmul k (te k) (tmul k (tzero k) (tzero k))) (tmul k x y)) with (tmul k x y) by ring. rewrite enc_zero, N.shiftl_0_l. apply N.lxor_0_l.
Qed.
End Up.
Lemma nmk_up_n k d a b : small (wd k) a -> small (wd k) b -> nmk (d + k) a b = nmk k a b.
Proof. intros A B. induction d as [|d IH]; [reflexivity|]. cbn [plus]. rewrite nmk_up, IH; [reflexivity|..]; (eapply small_mono; [eassumption|apply wd_mono; lia]). Qed.
Lemma lev_small v : small (wd (lev v)) v.
Proof.
  unfold lev, wd. rewrite N2Nat.id. eapply small_mono; [apply small_lt, N.size_gt|]. apply N.lt_le_incl, N.pow_gt_lin_r. lia.
Qed.
Lemma nm_nmk k a b : small (wd k) a -> small (wd k) b -> nm a b = nmk k a b.
Proof.
  intros A B. unfold nm. set (j := Nat.max (lev a) (lev b)). assert (AJ : small (wd j) a) by (eapply small_mono; [apply lev_small|apply wd_mono; lia]). assert (BJ : small (wd j) b) by (eapply small_mono; [apply lev_small|apply wd_mono; lia]).
  transitivity (nmk (k + j)%nat a b); [symmetry; now apply nmk_up_n|]. rewrite Nat.add_comm. now apply nmk_up_n.
Qed.
Lemma common_level a b c : exists k, small (wd k) a /\ small (wd k) b /\ small (wd k) c.
Proof. exists (Nat.max (lev a) (Nat.max (lev b) (lev c))). repeat split; (eapply small_mono; [apply lev_small|apply wd_mono; lia]). Qed.
Lemma nm_small k a b : small (wd k) a -> small (wd k) b -> small (wd k) (nm a b).
Proof. intros A B. rewrite (nm_nmk k) by assumption. apply nmk_small. Qed.
Section Level.
Variable k : nat.
Add Ring tower_l : (tower_ring k).
Lemma dec_nm a b : small (wd k) a -> small (wd k) b -> dec k (nm a b) = tmul k (dec k a) (dec k b).
Proof. intros A B. rewrite (nm_nmk k) by assumption. unfold nmk. apply dec_enc. Qed.
Lemma dec_inj a b : small (wd k) a -> small (wd k) b -> dec k a = dec k b -> a = b.
Proof. intros A B E. rewrite <- (enc_dec k a A), <- (enc_dec k b B). now rewrite E. Qed.
Lemma dec_1 : dec k 1 = tone k. Proof. rewrite <- (enc_one k). apply dec_enc. Qed.
Lemma one_small : small (wd k) 1. Proof. rewrite <- (enc_one k). apply enc_small. Qed.
Lemma nm_1_l_k a : small (wd k) a -> nm 1 a = a.
Proof. intros A. pose proof one_small as O. apply dec_inj; [now apply nm_small|exact A|]. rewrite dec_nm, dec_1 by assumption. ring. Qed.
Lemma nm_comm_k a b : small (wd k) a -> small (wd k) b -> nm a b = nm b a.
Proof. intros A B. apply dec_inj; [now apply nm_small|now apply nm_small|]. rewrite !dec_nm by assumption. ring. Qed.
Lemma nm_assoc_k a b c : small (wd k) a -> small (wd k) b -> small (wd k) c -> nm a (nm b c) = nm (nm a b) c.
Proof. intros A B C. apply dec_inj; [now apply nm_small; [|apply nm_small]|now apply nm_small; [apply nm_small|]|]. rewrite !dec_nm by (try assumption; now apply nm_small). ring. Qed.
Lemma nm_distr_k a b c : small (wd k) a -> small (wd k) b -> small (wd k) c -> nm (N.lxor a b) c = N.lxor (nm a c) (nm b c).
Proof. intros A B C. apply dec_inj; [apply nm_small; [now apply small_xor|exact C]|apply small_xor; now apply nm_small|]. rewrite dec_add, !dec_nm by (try assumption; now apply small_xor). rewrite dec_add. ring. Qed.
Lemma nm_inv_k a : small (wd k) a -> a <> 0 -> exists b, small (wd k) b /\ nm a b = 1.
Proof.
  intros A N. destruct (tower_inv k (dec k a)) as (y & Y). { intros E. apply N. rewrite <- (enc_dec k a A), E. apply enc_zero. }
  exists (enc k y). split; [apply enc_small|]. pose proof (enc_small k y) as B. apply dec_inj; [now apply nm_small|apply one_small|]. now rewrite dec_nm, dec_enc, dec_1 by assumption.
Qed.
End Level.
Lemma nim_ring : ring_theory 0 1 N.lxor nm N.lxor (fun x => x) eq.
Proof.
  constructor; intros.
  - apply N.lxor_0_l.
  - apply N.lxor_comm.
  - symmetry. apply N.lxor_assoc.
  - destruct (common_level x x x) as (k & A & _). now apply (nm_1_l_k k).
  - destruct (common_level x y x) as (k & A & B & _). now apply (nm_comm_k k).
  - destruct (common_level x y z) as (k & A & B & C). now apply (nm_assoc_k k).
  - destruct (common_level x y z) as (k & A & B & C). now apply (nm_distr_k k).
  - reflexivity.
  - apply N.lxor_nilpotent.
Qed.
(** the Fermat powers *)
Definition fm (k : nat) : N := 2 ^ wd k.
Definition ee (k : nat) : N := 2 ^ (wd k - 1).
Section Fermat.
Variable k : nat.
Add Ring tower_f : (tower_ring k).
Lemma dec_fm : dec (S k) (fm k) = (tone k, tzero k).
Proof. rewrite <- (dec_enc (S k) (tone k, tzero k)). f_equal. cbn [enc fst snd]. now rewrite enc_one, enc_zero, N.lxor_0_r, N.shiftl_1_l. Qed.
Lemma fm_small : small (wd (S k)) (fm k).
Proof. apply small_lt. unfold fm. apply N.pow_lt_mono_r; [lia|]. rewrite wd_S. pose proof (wd_pos k). lia. Qed.
Lemma ee_small : small (wd k) (ee k). Proof. unfold ee. rewrite <- enc_e. apply enc_small. Qed.
Lemma fm_square : nm (fm k) (fm k) = N.lxor (fm k) (ee k).
Proof.
  assert (E1 : small (wd (S k)) (ee k)) by (eapply small_mono; [apply ee_small|apply wd_mono; lia]). apply (dec_inj (S k)); [apply nm_small; apply fm_small|apply small_xor; [apply fm_small|exact E1]|]. rewrite dec_add, dec_nm, dec_fm by apply fm_small. rewrite dec_up by apply ee_small. unfold ee. rewrite <- enc_e, dec_enc. cbn [tmul tadd]. unfold qmul, qadd. cbn [fst snd]. f_equal; ring.
Qed.
Lemma fm_mul a : small (wd k) a -> nm a (fm k) = N.shiftl a (wd k).
Proof.
  intros A. assert (A1 : small (wd (S k)) a) by (eapply small_mono; [exact A|apply wd_mono; lia]). assert (A2 : small (wd (S k)) (N.shiftl a (wd k))) by (rewrite wd_S; now apply small_shiftl). apply (dec_inj (S k)); [apply nm_small; [exact A1|apply fm_small]|exact A2|]. rewrite dec_nm by (try assumption; apply fm_small). rewrite dec_fm, dec_up by exact A.
  replace (dec (S k) (N.shiftl a (wd k))) with (dec k a, tzero k); [cbn [tmul]; unfold qmul; cbn [fst snd]; f_equal; ring|]. symmetry. rewrite <- (dec_enc (S k) (dec k a, tzero k)). f_equal. cbn [enc fst snd]. now rewrite enc_zero, N.lxor_0_r, enc_dec.
Qed.
End Fermat.
Section Field.
Add Ring nim_r : nim_ring.
Lemma nm_0_l a : nm 0 a = 0. Proof. ring. Qed.
Lemma nm_nonzero a b : nm a b = 0 -> a = 0 \/ b = 0.
Proof.
  intros E. destruct (N.eq_dec a 0) as [->|N]; [now left|right]. destruct (common_level a b b) as (k & A & _). destruct (nm_inv_k k a A N) as (c & _ & C).
  transitivity (nm (nm a c) b); [rewrite C; ring|]. transitivity (nm c (nm a b)); [ring|]. rewrite E. ring.
Qed.
Lemma xor_self a : N.lxor a a = 0. Proof. apply N.lxor_nilpotent. Qed.
End Field.
