From Coq Require Import Zpow_facts.
From Verif Require Import Lib HashModel HashSpec.
Local Open Scope Z_scope.

Lemma pow31 : 2 ^ 31 = 2147483648. Proof. reflexivity. Qed.
Lemma pow30 : 2 ^ 30 = 1073741824. Proof. reflexivity. Qed.
Lemma pow63 : 2 ^ 63 = 9223372036854775808. Proof. reflexivity. Qed.
Local Opaque Z.pow.
Lemma i32_ok x : - 2 ^ 31 <= x < 2 ^ 31 -> i32 x = Some x.
Proof. intros H. unfold i32. replace (_ && _) with true; [reflexivity|]. symmetry. apply andb_true_intro. split; [apply Z.leb_le|apply Z.ltb_lt]; lia. Qed.
Lemma i64_ok x : - 2 ^ 63 <= x < 2 ^ 63 -> i64 x = Some x.
Proof. intros H. unfold i64. replace (_ && _) with true; [reflexivity|]. symmetry. apply andb_true_intro. split; [apply Z.leb_le|apply Z.ltb_lt]; lia. Qed.
Lemma hrem_ok x m : 0 <= x -> 2 <= m <= 2 ^ 30 -> hrem x m = Some (x mod m).
Proof.
  intros Hx Hm. unfold hrem. destruct (Z.eqb_spec m 0); [lia|]. rewrite Z.rem_mod_nonneg by lia. apply i32_ok. pose proof (Z.mod_pos_bound x m). rewrite pow31, pow30 in *. lia.
Qed.
Lemma hmul_ok a b m : 0 <= a < 2 ^ 31 -> 0 <= b < 2 ^ 31 -> 2 <= m <= 2 ^ 30 -> hmul a b m = Some ((a * b) mod m).
Proof.
  intros Ha Hb Hm. unfold hmul. assert (0 <= a * b < 2 ^ 31 * 2 ^ 31) by (rewrite pow31 in *; nia). rewrite i64_ok by (rewrite pow31, pow63 in *; lia). cbn [obind]. apply hrem_ok; [lia|exact Hm].
Qed.
Lemma hmad_ok s a b m : 0 <= s < 2 ^ 31 -> 0 <= a < 2 ^ 31 -> 0 <= b < 2 ^ 31 -> 2 <= m <= 2 ^ 30 -> hmad s a b m = Some ((s + a * b) mod m).
Proof.
  intros Hs Ha Hb Hm. unfold hmad. assert (0 <= a * b < 2 ^ 31 * 2 ^ 31) by (rewrite pow31 in *; nia). rewrite i64_ok by (rewrite pow31, pow63 in *; lia). cbn [obind].
  rewrite i64_ok by (rewrite pow31, pow63 in *; lia). cbn [obind]. apply hrem_ok; [lia|exact Hm].
Qed.
Lemma hadd2_ok a b m : 0 <= a < m -> 0 <= b < m -> 2 <= m <= 2 ^ 30 -> hadd2 a b m = Some ((a + b) mod m).
Proof. intros Ha Hb Hm. unfold hadd2. rewrite i32_ok by (rewrite pow31, pow30 in *; lia). cbn [obind]. apply hrem_ok; [lia|exact Hm]. Qed.
Lemma hsub2_ok a b m : 0 <= a < m -> 0 <= b < m -> 2 <= m <= 2 ^ 30 -> hsub2 a b m = Some ((a - b) mod m).
Proof.
  intros Ha Hb Hm. unfold hsub2. rewrite !i32_ok by (rewrite pow31, pow30 in *; lia). cbn [obind]. rewrite i32_ok by (rewrite pow31, pow30 in *; lia). cbn [obind]. rewrite hrem_ok by lia.
  f_equal. replace (a + m - b) with (a - b + 1 * m) by lia. apply Z.mod_add. lia.
Qed.
Lemma hsubmul_ok a b w m : 0 <= a < m -> 0 <= b < m -> 0 <= w < 2 ^ 31 -> 2 <= m <= 2 ^ 30 -> hsubmul a b w m = Some (((a - b) * w) mod m).
Proof.
  intros Ha Hb Hw Hm. unfold hsubmul. rewrite !i32_ok by (rewrite pow31, pow30 in *; lia). cbn [obind]. rewrite i32_ok by (rewrite pow31, pow30 in *; lia). cbn [obind].
  rewrite hmul_ok by (rewrite ?pow31, ?pow30 in *; lia). f_equal. replace ((a + m - b) * w) with ((a - b) * w + w * m) by lia. apply Z.mod_add. lia.
Qed.

(** * tables *)
Lemma ensure1_ok w sz b m : 2 <= m <= 2 ^ 30 -> 0 <= b < 2 ^ 31 -> powers m b w -> (length w <= sz)%nat -> (0 < sz)%nat -> exists w', ensure1 w sz b m = Some w' /\ powers m b w' /\ length w' = sz.
Proof.
  intros Hm Hb Hw Hsz Hp. unfold ensure1. rewrite firstn_all2 by lia. set (w0 := w ++ repeat 0 (sz - length w)).
  assert (L0 : length w0 = sz) by (unfold w0; rewrite app_length, repeat_length; lia).
  assert (St : exists w1 i0, (if (length w =? 0)%nat then let* w := set_nth w0 0 1 in Some (w, 1%nat) else Some (w0, length w)) = Some (w1, i0) /\ length w1 = sz /\ (1 <= i0 <= sz)%nat /\
    forall i, (i < i0)%nat -> nth_error w1 i = Some (b ^ Z.of_nat i mod m)).
  { destruct (Nat.eqb_spec (length w) 0) as [E|N].
    - destruct (set_nth_some w0 0 1) as (w1 & E1); [lia|]. rewrite E1. cbn [obind]. exists w1, 1%nat. split; [reflexivity|]. split; [rewrite (set_nth_length _ _ _ _ E1); exact L0|]. split; [lia|].
      intros i Hi. assert (i = 0%nat) as -> by lia. rewrite (set_nth_get _ _ _ _ 0%nat E1). cbn [Nat.eqb]. change (Z.of_nat 0) with 0. rewrite Z.pow_0_r, Z.mod_1_l by lia. reflexivity.
    - exists w0, (length w). split; [reflexivity|]. split; [exact L0|]. split; [lia|]. intros i Hi. unfold w0. rewrite nth_error_app1 by exact Hi. apply Hw. exact Hi. }
  destruct St as (w1 & i0 & -> & L1 & Hi0 & V1). cbn [obind]. rewrite Nat.max_r by lia.
  destruct (for_range_spec (fun j w' => length w' = sz /\ forall i, (i < j)%nat -> nth_error w' i = Some (b ^ Z.of_nat i mod m))
    (fun i w => let* x := nth_error w (i - 1) in let* y := hmul x b m in set_nth w i y) i0 sz w1) as (w' & E & L' & V').
  - lia.
  - split; assumption.
  - intros i t Hi (Lt & Vt). rewrite Vt by lia. cbn [obind]. pose proof (Z.mod_pos_bound (b ^ Z.of_nat (i - 1)) m). rewrite hmul_ok by (rewrite ?pow31, ?pow30 in *; lia). cbn [obind].
    match goal with |- context [set_nth t i ?v] => destruct (set_nth_some t i v) as (t' & Et); [lia|] end. exists t'. split; [exact Et|]. split; [rewrite (set_nth_length _ _ _ _ Et); exact Lt|].
    intros j Hj. rewrite (set_nth_get _ _ _ _ j Et). destruct (Nat.eqb_spec i j) as [<-|N]; [|apply Vt; lia]. f_equal. rewrite Z.mul_mod_idemp_l by lia. f_equal.
    replace (Z.of_nat i) with (Z.succ (Z.of_nat (i - 1))) by lia. rewrite Z.pow_succ_r by lia. ring.
  - exists w'. split; [exact E|]. split; [|exact L']. intros i Hi. apply V'. lia.
Qed.
Lemma grow_ge c s : (c < s)%nat -> (c <= grow c s /\ s <= grow c s)%nat.
Proof. intros H. unfold grow. lia. Qed.
Lemma ensure_1_ok M B BI t size : params M B BI -> tables M B BI t -> exists t', ensure_1 M B BI t size = Some t' /\ tables M B BI t' /\ (size <= length (fst t'))%nat.
Proof.
  intros (HM & HB & HBI & _) (T1 & T2 & T3). destruct t as [w wi]. cbn [fst snd] in *. unfold ensure_1. destruct (Nat.leb_spec size (length w)).
  - exists (w, wi). cbn [fst snd]. repeat split; auto.
  - destruct (grow_ge (length w) size H) as (G1 & G2).
    destruct (ensure1_ok w (grow (length w) size) B M HM HB T1) as (w' & E1 & P1 & L1); [lia|lia|]. rewrite E1. cbn [obind].
    destruct (ensure1_ok wi (grow (length w) size) BI M HM HBI T2) as (wi' & E2 & P2 & L2); [lia|lia|]. rewrite E2. cbn [obind]. exists (w', wi'). split; [reflexivity|]. unfold tables. cbn [fst snd]. repeat split; auto; lia.
Qed.

(** * values *)
Lemma hval_app B p q : hval B (p ++ q) = hval B p + B ^ Z.of_nat (length p) * hval B q.
Proof.
  induction p as [|x p IH]; cbn [app hval length].
  - change (Z.of_nat 0) with 0. rewrite Z.pow_0_r. lia.
  - rewrite IH. replace (Z.of_nat (S (length p))) with (Z.succ (Z.of_nat (length p))) by lia. rewrite Z.pow_succ_r by lia. ring.
Qed.
Lemma pow_inv M B BI n : params M B BI -> (B ^ Z.of_nat n * BI ^ Z.of_nat n) mod M = 1.
Proof.
  intros (HM & _ & _ & H). rewrite <- Z.pow_mul_l. rewrite Zpower_mod by lia. rewrite H, Z.pow_1_l by lia. apply Z.mod_1_l. lia.
Qed.
Lemma eqm_ok M a b : 0 < M -> a mod M = b mod M <-> exists k, a = b + k * M.
Proof.
  intros HM. split.
  - intros E. exists (a / M - b / M). pose proof (Z.div_mod a M). pose proof (Z.div_mod b M). nia.
  - intros (k & ->). apply Z.mod_add. lia.
Qed.
Lemma add_val M B p x : 2 <= M -> (hval B p mod M + x * (B ^ Z.of_nat (length p) mod M)) mod M = hval B (p ++ [x]) mod M.
Proof.
  intros HM. rewrite hval_app. cbn [hval]. rewrite Z.add_mod_idemp_l by lia. rewrite <- Z.add_mod_idemp_r, Z.mul_mod_idemp_r, Z.add_mod_idemp_r by lia. f_equal. ring.
Qed.
Lemma sub_shr_val M B BI p q : params M B BI -> ((hval B (p ++ q) mod M - hval B p mod M) * (BI ^ Z.of_nat (length p) mod M)) mod M = hval B q mod M.
Proof.
  intros HP. pose proof (pow_inv M B BI (length p) HP) as Hi. destruct HP as (HM & _). rewrite hval_app. set (P := B ^ Z.of_nat (length p)) in *. set (I := BI ^ Z.of_nat (length p)) in *.
  rewrite Z.mul_mod_idemp_r by lia. rewrite <- Z.mul_mod_idemp_l by lia. rewrite <- Zminus_mod. rewrite Z.mul_mod_idemp_l by lia.
  replace ((hval B p + P * hval B q - hval B p) * I) with (P * I * hval B q) by ring. rewrite <- Z.mul_mod_idemp_l by lia. rewrite Hi, Z.mul_1_l. reflexivity.
Qed.
Lemma hval_nonneg B s : 0 <= B -> chars s -> 0 <= hval B s.
Proof. intros HB. induction s as [|x s IH]; intros H; cbn [hval]; [lia|]. assert (0 <= x) by (apply H; left; reflexivity). assert (0 <= hval B s) by (apply IH; intros y Hy; apply H; right; exact Hy). nia. Qed.

Section One.
  Variables M B BI : Z.
  Hypothesis HP : params M B BI.
  Definition H1 (s : list Z) : Z := hval B s mod M.
  Lemma M_ok : 2 <= M <= 2 ^ 30. Proof using HP. apply HP. Qed.
  Lemma H1_range s : 0 <= H1 s < M. Proof using HP. unfold H1. pose proof M_ok. apply Z.mod_pos_bound. lia. Qed.
  Lemma tab_bound b w i x : 0 <= b -> powers M b w -> nth_error w i = Some x -> 0 <= x < 2 ^ 31.
  Proof using HP.
    intros Hb Hw Hx. rewrite Hw in Hx by (apply nth_error_Some; congruence). injection Hx as <-. pose proof M_ok. pose proof (Z.mod_pos_bound (b ^ Z.of_nat i) M). rewrite pow31, pow30 in *. lia.
  Qed.
  Lemma pow_bound b i : 0 <= b ^ i mod M < 2 ^ 31.
  Proof using HP. pose proof M_ok. pose proof (Z.mod_pos_bound (b ^ i) M). rewrite pow31, pow30 in *. lia. Qed.
  Lemma addp_1_ok t s x : tables M B BI t -> 0 <= x < 2 ^ 31 -> exists t', addp_1 M B BI t (H1 s) x (length s) = Some (t', H1 (s ++ [x])) /\ tables M B BI t'.
  Proof using HP.
    intros Ht Hx. unfold addp_1. destruct (ensure_1_ok M B BI t (length s + 1) HP Ht) as (t' & E & T' & L'). rewrite E. cbn [obind]. rewrite (proj1 T') by lia. cbn [obind].
    pose proof (H1_range s) as R. pose proof M_ok as HM. pose proof (pow_bound B (Z.of_nat (length s))). rewrite hmad_ok; [|rewrite pow31, pow30 in *; lia|exact Hx|assumption|exact HM]. cbn [obind]. exists t'. split; [|exact T']. do 3 f_equal. unfold H1. apply add_val. lia.
  Qed.
  Lemma sub_shr_1_ok t p q : tables M B BI t -> exists t', sub_shr_1 M B BI t (H1 (p ++ q)) (H1 p) (length p) = Some (t', H1 q) /\ tables M B BI t'.
  Proof using HP.
    intros Ht. unfold sub_shr_1. destruct (ensure_1_ok M B BI t (length p + 1) HP Ht) as (t' & E & T' & L'). rewrite E. cbn [obind]. rewrite (proj1 (proj2 T')) by (rewrite (proj2 (proj2 T')); lia). cbn [obind].
    rewrite hsubmul_ok; [|apply H1_range|apply H1_range|apply pow_bound|apply M_ok]. cbn [obind]. exists t'. split; [|exact T']. do 3 f_equal. unfold H1. apply sub_shr_val. exact HP.
  Qed.
End One.

(** * K components *)
Lemma collect_ok {A} (f : nat -> option A) g ks : (forall k, In k ks -> f k = Some (g k)) -> collect f ks = Some (map g ks).
Proof. induction ks as [|k ks IH]; intros H; cbn [collect map]; [reflexivity|]. rewrite H by (left; reflexivity). cbn [obind]. rewrite IH by (intros j Hj; apply H; right; exact Hj). reflexivity. Qed.
Section Many.
  Variable ps : list (Z * Z * Z).
  Definition okps : Prop := ps <> [] /\ forall m b bi, In (m, b, bi) ps -> params m b bi.
  Hypothesis HP : okps.
  Definition oktabs (t : list tabs) : Prop := length t = K ps /\ exists n, forall k m b bi, nth_error ps k = Some (m, b, bi) -> exists tk, nth_error t k = Some tk /\ tables m b bi tk /\ length (fst tk) = n.
  Definition Hk (s : list Z) : list Z := map (fun '(m, b, _) => hval b s mod m) ps.
  Lemma each_ok {A} (f : nat -> option A) (g : Z * Z * Z -> A) : (forall k p, nth_error ps k = Some p -> f k = Some (g p)) -> each_k ps f = Some (map g ps).
  Proof using.
    intros H. unfold each_k. destruct ps as [|d ps'] eqn:E0; [reflexivity|]. rewrite <- E0 in *. rewrite (collect_ok f (fun k => g (nth k ps d))).
    - f_equal. apply list_ext. intros i. rewrite !nth_error_map. unfold K. destruct (Nat.ltb_spec i (length ps)) as [Li|Li].
      + assert (N : nth_error (seq 0 (length ps)) i = Some i) by (rewrite (nth_error_nth' _ 0%nat) by (rewrite seq_length; exact Li); rewrite seq_nth by exact Li; reflexivity). rewrite N. cbn [option_map].
        rewrite (nth_error_nth' ps d Li). reflexivity.
      + rewrite (proj2 (nth_error_None (seq 0 (length ps)) i)) by (rewrite seq_length; exact Li). rewrite (proj2 (nth_error_None ps i) Li). reflexivity.
    - intros k Hk. apply in_seq in Hk. unfold K in Hk. apply H. apply nth_error_nth'. lia.
  Qed.
  Lemma ensure_k_ok t size : oktabs t -> exists t', ensure_k ps t size = Some t' /\ oktabs t' /\ forall k m b bi, nth_error ps k = Some (m, b, bi) -> exists tk, nth_error t' k = Some tk /\ tables m b bi tk /\ (size <= length (fst tk))%nat.
  Proof using HP.
    intros (Lt & n & Ht). unfold ensure_k. destruct HP as (Ne & Hpar). destruct ps as [|[[m0 b0] bi0] ps'] eqn:E0; [congruence|]. rewrite <- E0 in *.
    destruct (Ht 0%nat m0 b0 bi0) as (t0 & N0 & T0 & L0); [rewrite E0; reflexivity|]. rewrite N0. cbn [obind]. rewrite L0. destruct (Nat.leb_spec size n) as [Hs|Hs].
    - exists t. split; [reflexivity|]. split; [split; [exact Lt|exists n; exact Ht]|]. intros k m b bi Hk. destruct (Ht k m b bi Hk) as (tk & Nk & Tk & Lk). exists tk. split; [exact Nk|]. split; [exact Tk|]. lia.
    - destruct (grow_ge n size Hs) as (G1 & G2). set (sz := grow n size) in *.
      assert (D : forall k m b bi, nth_error ps k = Some (m, b, bi) -> exists tk w wi, nth_error t k = Some tk /\ ensure1 (fst tk) sz b m = Some w /\ ensure1 (snd tk) sz bi m = Some wi /\ tables m b bi (w, wi) /\ length w = sz).
      { intros k m b bi Hk. destruct (Ht k m b bi Hk) as (tk & Nk & (T1 & T2 & T3) & Lk). destruct (Hpar m b bi (nth_error_In _ _ Hk)) as (HM & HB & HBI & _).
        destruct (ensure1_ok (fst tk) sz b m HM HB T1) as (w & E1 & P1 & L1); [lia|lia|]. destruct (ensure1_ok (snd tk) sz bi m HM HBI T2) as (wi & E2 & P2 & L2); [lia|lia|].
        exists tk, w, wi. split; [exact Nk|]. split; [exact E1|]. split; [exact E2|]. split; [|exact L1]. split; [exact P1|]. split; [exact P2|]. cbn [fst snd]. lia. }
      assert (C : exists t', each_k ps (fun k => let* p := nth_error ps k in let '(m, b, bi) := p in let* tk := nth_error t k in let* w := ensure1 (fst tk) sz b m in let* wi := ensure1 (snd tk) sz bi m in Some (w, wi)) = Some t' /\
        length t' = K ps /\ forall k m b bi, nth_error ps k = Some (m, b, bi) -> exists tk, nth_error t' k = Some tk /\ tables m b bi tk /\ length (fst tk) = sz).
      { unfold each_k. match goal with |- context [collect ?g (seq 0 _)] => set (f := g) end.
        assert (Q : forall ks, (forall k, In k ks -> (k < K ps)%nat) -> exists t', collect f ks = Some t' /\ length t' = length ks /\ forall i k m b bi, nth_error ks i = Some k -> nth_error ps k = Some (m, b, bi) -> exists tk, nth_error t' i = Some tk /\ tables m b bi tk /\ length (fst tk) = sz).
        { induction ks as [|k ks IH]; intros Hin; cbn [collect].
          - exists []. split; [reflexivity|]. split; [reflexivity|]. intros [|i] k m b bi Hi; discriminate.
          - destruct (IH (fun j Hj => Hin j (or_intror Hj))) as (t' & E' & L' & V'). assert (Lk : (k < length ps)%nat) by (apply Hin; left; reflexivity).
            destruct (nth_error_some ps k Lk) as ([[m b] bi] & Nk). destruct (D k m b bi Nk) as (tk & w & wi & N1 & E1 & E2 & T & L).
            assert (Ef : f k = Some (w, wi)) by (unfold f; rewrite Nk; cbn [obind]; rewrite N1; cbn [obind]; rewrite E1; cbn [obind]; rewrite E2; reflexivity).
            rewrite Ef. cbn [obind]. rewrite E'. cbn [obind]. exists ((w, wi) :: t'). split; [reflexivity|]. split; [cbn [length]; lia|]. intros [|i] k' m' b' bi' Hi Hk'; cbn [nth_error] in *.
            + injection Hi as <-. rewrite Nk in Hk'. injection Hk' as <- <- <-. exists (w, wi). split; [reflexivity|]. split; [exact T|]. exact L.
            + apply (V' i k' m' b' bi' Hi Hk'). }
        destruct (Q (seq 0 (K ps))) as (t' & E' & L' & V'); [intros k Hk; apply in_seq in Hk; lia|]. exists t'. split; [exact E'|]. rewrite seq_length in L'. split; [exact L'|]. intros k m b bi Hk. apply (V' k k m b bi); [|exact Hk].
        assert (k < length ps)%nat by (apply nth_error_Some; congruence). rewrite (nth_error_nth' _ 0%nat) by (rewrite seq_length; assumption). rewrite seq_nth by assumption. reflexivity. }
      destruct C as (t' & E & L' & V'). exists t'. split; [exact E|]. split.
      + split; [exact L'|]. exists sz. exact V'.
      + intros k m b bi Hk. destruct (V' k m b bi Hk) as (tk & N & T & L). exists tk. split; [exact N|]. split; [exact T|]. lia.
  Qed.
  Lemma Hk_nth s k m b bi : nth_error ps k = Some (m, b, bi) -> nth_error (Hk s) k = Some (H1 m b s).
  Proof using. intros H. unfold Hk. rewrite nth_error_map, H. reflexivity. Qed.
  Lemma addp_k_ok t s x : oktabs t -> 0 <= x < 2 ^ 31 -> exists t', addp_k ps t (Hk s) (repeat x (K ps)) (length s) = Some (t', Hk (s ++ [x])) /\ oktabs t'.
  Proof using HP.
    intros Ht Hx. unfold addp_k. destruct (ensure_k_ok t (length s + 1) Ht) as (t' & E & T' & V'). rewrite E. cbn [obind]. exists t'. split; [|exact T'].
    rewrite (each_ok _ (fun '(m, b, _) => hval b (s ++ [x]) mod m)); [reflexivity|]. intros k [[m b] bi] Hk0. rewrite Hk0. cbn [obind]. rewrite (Hk_nth s k m b bi Hk0). cbn [obind].
    rewrite nth_error_repeat by (apply nth_error_Some; unfold K; congruence). cbn [obind]. destruct (V' k m b bi Hk0) as (tk & Nk & Tk & Lk). rewrite Nk. cbn [obind]. rewrite (proj1 Tk) by lia. cbn [obind].
    assert (Hp : params m b bi) by (apply HP; apply nth_error_In with k; exact Hk0). pose proof (H1_range m b bi Hp s) as R. pose proof (M_ok m b bi Hp) as HM. pose proof (pow_bound m b bi Hp b (Z.of_nat (length s))).
    rewrite hmad_ok; [|rewrite pow31, pow30 in *; lia|exact Hx|assumption|exact HM]. f_equal. unfold H1. apply add_val. lia.
  Qed.
  Lemma sub_shr_k_ok t p q : oktabs t -> exists t', sub_shr_k ps t (Hk (p ++ q)) (Hk p) (length p) = Some (t', Hk q) /\ oktabs t'.
  Proof using HP.
    intros Ht. unfold sub_shr_k. destruct (ensure_k_ok t (length p + 1) Ht) as (t' & E & T' & V'). rewrite E. cbn [obind]. exists t'. split; [|exact T'].
    rewrite (each_ok _ (fun '(m, b, _) => hval b q mod m)); [reflexivity|]. intros k [[m b] bi] Hk0. rewrite Hk0. cbn [obind]. rewrite !(Hk_nth _ k m b bi Hk0). cbn [obind].
    destruct (V' k m b bi Hk0) as (tk & Nk & Tk & Lk). rewrite Nk. cbn [obind]. rewrite (proj1 (proj2 Tk)) by (rewrite (proj2 (proj2 Tk)); lia). cbn [obind].
    assert (Hp : params m b bi) by (apply HP; apply nth_error_In with k; exact Hk0).
    rewrite hsubmul_ok; [|apply (H1_range m b bi Hp)|apply (H1_range m b bi Hp)|apply (pow_bound m b bi Hp)|apply (M_ok m b bi Hp)]. f_equal. unfold H1. apply sub_shr_val. exact Hp.
  Qed.
End Many.

(** * cumulative hashes over any hash with the three operations *)
Section Cum.
  Context {S H : Type} (hzero : H) (ensure : S -> nat -> option S) (addi : S -> H -> Z -> nat -> option (S * H)) (sub_shr : S -> H -> H -> nat -> option (S * H)).
  Variables (ok : S -> Prop) (Hs : list Z -> H).
  Hypothesis H0 : Hs [] = hzero.
  Hypothesis Hens : forall s n, ok s -> exists s', ensure s n = Some s' /\ ok s'.
  Hypothesis Hadd : forall s p x, ok s -> 0 <= x < 2 ^ 31 -> exists s', addi s (Hs p) x (length p) = Some (s', Hs (p ++ [x])) /\ ok s'.
  Hypothesis Hsub : forall s p q, ok s -> exists s', sub_shr s (Hs (p ++ q)) (Hs p) (length p) = Some (s', Hs q) /\ ok s'.
  (** vh holds the hashes of the nonempty prefixes of s *)
  Definition prefixes (vh : list H) (s : list Z) : Prop := length vh = length s /\ forall i, (i < length s)%nat -> nth_error vh i = Some (Hs (firstn (i + 1) s)).
  Lemma prefixes_nil : prefixes [] []. Proof using. split; [reflexivity|]. intros i Hi. cbn in Hi. lia. Qed.
  Lemma prefixes_snoc vh s x : prefixes vh s -> prefixes (vh ++ [Hs (s ++ [x])]) (s ++ [x]).
  Proof using.
    intros (L & V). split; [rewrite !app_length; cbn; lia|]. intros i Hi. rewrite app_length in Hi. cbn in Hi. destruct (Nat.ltb_spec i (length s)) as [Li|Li].
    - rewrite nth_error_app1 by lia. rewrite V by exact Li. rewrite firstn_app. replace (i + 1 - length s)%nat with 0%nat by lia. rewrite firstn_O, app_nil_r. reflexivity.
    - rewrite nth_error_app2 by lia. replace (i - length vh)%nat with 0%nat by lia. cbn [nth_error]. rewrite firstn_all2 by (rewrite app_length; cbn; lia). reflexivity.
  Qed.
  Lemma last_prefix vh s : prefixes vh s -> last vh hzero = Hs s.
  Proof using H0.
    intros (L & V). destruct vh as [|h0 vh0] eqn:Ev.
    - destruct s; [|discriminate]. symmetry. exact H0.
    - rewrite <- Ev in *. destruct (@exists_last _ vh) as (vh' & h & ->); [rewrite Ev; discriminate|]. rewrite last_last.
      assert (Ls : length s = (length vh' + 1)%nat) by (rewrite app_length in L; cbn in L; lia). specialize (V (length vh') ltac:(lia)). rewrite nth_error_app2, Nat.sub_diag in V by lia. cbn in V. injection V as ->.
      rewrite firstn_all2 by lia. reflexivity.
  Qed.
  Lemma assign_ok : forall xs s p vh, ok s -> chars xs -> prefixes vh p -> exists s' vh', assign_loop addi s (Hs p) (length p) vh xs = Some (s', vh') /\ ok s' /\ prefixes vh' (p ++ xs).
  Proof using Hadd.
    induction xs as [|x xs IH]; intros s p vh Hs0 Hc Hv; cbn [assign_loop].
    - exists s, vh. rewrite app_nil_r. auto.
    - destruct (Hadd s p x Hs0 (Hc x (or_introl eq_refl))) as (s1 & E & O1). rewrite E. cbn [obind].
      destruct (IH s1 (p ++ [x]) (vh ++ [Hs (p ++ [x])]) O1 (fun y Hy => Hc y (or_intror Hy)) (prefixes_snoc vh p x Hv)) as (s2 & vh2 & E2 & O2 & P2).
      rewrite app_length in E2. cbn [length] in E2. exists s2, vh2. split; [exact E2|]. split; [exact O2|]. rewrite <- app_assoc in P2. exact P2.
  Qed.
  Lemma push_ok s vh p x : ok s -> 0 <= x < 2 ^ 31 -> prefixes vh p -> exists s' vh', cpush hzero addi s vh x = Some (s', vh') /\ ok s' /\ prefixes vh' (p ++ [x]).
  Proof using Hadd H0.
    intros Os Hx Hv. unfold cpush. rewrite (last_prefix vh p Hv), (proj1 Hv). destruct (Hadd s p x Os Hx) as (s1 & E & O1). rewrite E. cbn [obind]. exists s1. eexists. split; [reflexivity|]. split; [exact O1|]. apply prefixes_snoc. exact Hv.
  Qed.
  Lemma pop_ok vh p x : prefixes vh (p ++ [x]) -> exists vh', cpop vh = Some vh' /\ prefixes vh' p.
  Proof using.
    intros (L & V). rewrite app_length in L. cbn in L. destruct vh as [|h0 vh0] eqn:Ev; [cbn in L; lia|]. rewrite <- Ev in *. destruct (@exists_last _ vh) as (vh' & h & E); [rewrite Ev; discriminate|].
    exists vh'. split; [unfold cpop; rewrite Ev, <- Ev; rewrite E, removelast_last; reflexivity|]. rewrite E, app_length in L. cbn in L. split; [lia|]. intros i Hi. specialize (V i). rewrite app_length in V. cbn in V. specialize (V ltac:(lia)).
    rewrite E, nth_error_app1 in V by lia. rewrite V. rewrite firstn_app. replace (i + 1 - length p)%nat with 0%nat by lia. rewrite firstn_O, app_nil_r. reflexivity.
  Qed.
  Lemma get_ok s vh p b e : ok s -> prefixes vh p -> (b <= e <= length p)%nat -> exists s', cget hzero sub_shr s vh b e = Some (s', Hs (slice p b e)) /\ ok s'.
  Proof using H0 Hsub.
    intros Os (L & V) He. unfold cget. assert (E1 : (if (0 <? e)%nat then nth_error vh (e - 1) else Some hzero) = Some (Hs (firstn e p))).
    { destruct (Nat.ltb_spec 0 e); [rewrite V by lia; do 2 f_equal; f_equal; lia|]. assert (e = 0%nat) as -> by lia. cbn. rewrite H0. reflexivity. }
    rewrite E1. cbn [obind]. destruct (Nat.ltb_spec 0 b).
    - rewrite V by lia. cbn [obind]. replace (b - 1 + 1)%nat with b by lia. assert (Sp : firstn e p = firstn b p ++ slice p b e).
      { unfold slice. rewrite <- (firstn_skipn b (firstn e p)) at 1. rewrite firstn_firstn, Nat.min_l by lia. f_equal. rewrite skipn_firstn_comm. reflexivity. }
      rewrite Sp. pose proof (Hsub s (firstn b p) (slice p b e) Os) as Q. rewrite firstn_length, Nat.min_l in Q by lia. exact Q.
    - assert (b = 0%nat) as -> by lia. exists s. split; [|exact Os]. unfold slice. cbn [skipn]. rewrite Nat.sub_0_r. reflexivity.
  Qed.
End Cum.
