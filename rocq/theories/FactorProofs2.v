From Verif Require Import Lib BaseModel BaseProofs PrimesSpec PrimesProofs NumTheory2 ModuloModel ModuloProofs ModPowModel ModPowProofs FactorModel FactorSpec FactorProofs.
From Coq Require Import Znumtheory Sorted Lia.
Open Scope Z_scope.

Lemma productZ_app a b : productZ (a ++ b) = productZ a * productZ b.
Proof. induction a as [|(p & e) a IH]; cbn [productZ app]; [ring|]. rewrite IH. ring. Qed.
(** ** Pollard's rho *)
Lemma pollard_rho_ok n k a it : 2 <= n -> exists d, pollard_rho n k a it = Some d /\ (d | n) /\ 2 <= d.
Proof.
  intros H. unfold pollard_rho. destruct (Z.eqb_spec n 0); [lia|]. destruct (Z.eqb_spec n 1); [lia|]. unfold cmod at 1. cbn [Z.eqb obind].
  destruct (Z.eqb_spec (Z.rem n 2) 0) as [R|R]. { exists 2. split; [reflexivity|]. split; [|lia]. apply rem_dvd; [lia|exact R]. }
  rewrite modT_spec by lia. cbn [obind].
  destruct (loopZ_spec (rho_step n a) (fun '(x, y, d, j) => (d | n) /\ 1 <= d) (fun d => (d | n) /\ 1 <= d) (fun '(_, _, _, j) => Z.max 0 j)) with (fuel := Z.max 0 it + 1) (s := (k mod n, k mod n, 1, it)) as (d & E & D & D1).
  - intros (((x & y) & d) & j) (D & D1). cbn [rho_step]. destruct ((d =? 1) && (0 <? j)) eqn:C.
    + apply andb_prop in C as [_ C]. apply Z.ltb_lt in C. unfold rho_next, modulo_mul, cmod. destruct (Z.eqb_spec n 0); [lia|]. cbn [obind].
      rewrite gcd_nonneg by lia. cbn [obind]. eexists. split; [reflexivity|]. cbv beta iota. split; [|lia]. split; [apply Z.gcd_divide_r|].
      match goal with |- 1 <= ?g => assert (0 <= g) by apply Z.gcd_nonneg; assert (g <> 0); [|lia] end. intros G. apply Z.gcd_eq_0_r in G. lia.
    + eexists. split; [reflexivity|]. cbv beta iota. auto.
  - intros (((x & y) & d) & j) _. lia.
  - split; [apply Z.divide_1_l|lia].
  - lia.
  - rewrite E. cbn [obind]. destruct (Z.eqb_spec d 1); eexists; (split; [reflexivity|]); [split; [apply Z.divide_refl|lia]|split; [exact D|lia]].
Qed.
Lemma rho_repeat_ok n it : 2 <= n -> forall j k, exists d, rho_repeat j n k it = Some d /\ (d | n) /\ 2 <= d.
Proof.
  intros H. induction j as [|j IH]; intros k; cbn [rho_repeat]; [exists n; split; [reflexivity|]; split; [apply Z.divide_refl|lia]|].
  destruct (pollard_rho_ok n k k it H) as (d & -> & D & D2). cbn [obind]. destruct (Z.eqb_spec d n); cbn [negb]; [apply IH|]. exists d. auto.
Qed.
(** ** factor_integer *)
Lemma strip_all_ok a : 2 <= a -> forall q e, Forall (fun b => 1 <= b) q -> exists q' k, strip_all q a e = Some (q', e + k) /\ 0 <= k /\ prodl q = a ^ k * prodl q' /\
  Forall2 (fun b' b => 1 <= b' <= b /\ (b' | b) /\ ~ (a | b')) q' q.
Proof.
  intros A. induction q as [|b q IH]; intros e F; cbn [strip_all].
  - exists [], 0. rewrite Z.add_0_r. split; [reflexivity|]. split; [lia|]. split; [cbn [prodl]; rewrite Z.pow_0_r; ring|constructor].
  - apply Forall_cons_iff in F as [B F]. destruct (strip_ok b a e ltac:(lia) A) as (b' & k & -> & K & EB & ND). cbn [obind]. destruct (IH (e + k) F) as (q' & j & -> & J & EQ & F2). cbn [obind].
    exists (b' :: q'), (k + j). split; [f_equal; f_equal; lia|]. split; [lia|]. split; [cbn [prodl]; rewrite EB, EQ, Z.pow_add_r by lia; ring|].
    constructor; [|exact F2]. pose proof (Z.pow_pos_nonneg a k ltac:(lia) K). split; [nia|]. split; [exists (a ^ k); lia|exact ND].
Qed.
Lemma nodup_snoc (l : list Z) x : NoDup l -> ~ In x l -> NoDup (l ++ [x]).
Proof. intros N I0. apply (Permutation.Permutation_NoDup (l := x :: l)); [apply Permutation.Permutation_cons_append|]. now constructor. Qed.
Definition sumsq (q : list Z) : Z := fold_right (fun a s => a * a + s) 0 q.
Definition passes (x : Z * Z) : bool := match miller_rabin (fst x) with Some t => t | None => false end.
Definition entry_ok (x : Z * Z) : Prop := 2 <= fst x /\ 1 <= snd x /\ (miller_rabin (fst x) = Some true \/ miller_rabin (fst x) = Some false /\ snd x = 1).
Definition vf_inv (n : Z) (q : list Z) (vf : list (Z * Z)) : Prop :=
  Forall (fun b => 1 <= b) q /\ productZ vf * prodl q = n /\ Forall entry_ok vf /\ NoDup (map fst (filter passes vf)) /\ forall x, In x vf -> passes x = true -> Forall (fun b => ~ (fst x | b)) q.
Lemma sumsq_nonneg q : 0 <= sumsq q. Proof. induction q as [|a q IH]; cbn [sumsq fold_right]; [lia|]. fold (sumsq q). nia. Qed.
Lemma factor_step_ok n mi q vf : vf_inv n q vf -> exists r, factor_step mi (q, vf) = Some r /\
  match r with inl (q', vf') => vf_inv n q' vf' /\ sumsq q' < sumsq q | inr vf' => vf' = vf /\ q = [] end.
Proof.
  intros (F & PR & EO & ND & SEP). destruct q as [|a q]; cbn [factor_step].
  { eexists. split; [reflexivity|]. cbv iota. split; reflexivity. }
  apply Forall_cons_iff in F as [A F]. cbn [prodl] in PR. cbn [sumsq fold_right]. fold (sumsq q).
  assert (SEPq : forall x, In x vf -> passes x = true -> Forall (fun b => ~ (fst x | b)) q) by (intros x X P; specialize (SEP x X P); now apply Forall_cons_iff in SEP).
  destruct (Z.eqb_spec a 1) as [->|A1].
  { eexists. split; [reflexivity|]. split; [|lia]. repeat split; auto. now rewrite Z.mul_1_l in PR. }
  destruct (miller_rabin_ok a ltac:(lia)) as (t & MR & _). rewrite MR. cbn [obind]. destruct t.
  - destruct (strip_all_ok a ltac:(lia) q 1 F) as (q' & k & -> & K & EQ & F2). cbn [obind]. eexists. split; [reflexivity|].
    assert (PA : passes (a, 1 + k) = true) by (unfold passes; cbn [fst]; now rewrite MR).
    split.
    + split; [|split; [|split; [|split]]].
      * clear - F2. induction F2 as [|b' b q' q (B & _) F2 IH]; constructor; [lia|exact IH].
      * rewrite productZ_app. cbn [productZ]. rewrite <- PR, EQ, Z.pow_add_r, Z.pow_1_r by lia. ring.
      * apply Forall_app. split; [exact EO|]. constructor; [|constructor]. split; [cbn [fst snd]; lia|]. split; [cbn [fst snd]; lia|]. left. exact MR.
      * rewrite filter_app, map_app. cbn [filter]. rewrite PA. cbn [map fst]. apply nodup_snoc; [exact ND|].
        intros I0. apply in_map_iff in I0 as (x & X & I0). apply filter_In in I0 as [I0 P]. specialize (SEP x I0 P). apply Forall_cons_iff in SEP as [SEP _]. apply SEP. rewrite X. apply Z.divide_refl.
      * intros x X P. apply in_app_or in X as [X|[<-|[]]].
        -- specialize (SEPq x X P). clear - F2 SEPq. induction F2 as [|b' b q' q (B & D & N) F2 IH]; [constructor|]. apply Forall_cons_iff in SEPq as [S1 S2]. constructor; [|now apply IH]. intros C. apply S1. eapply Z.divide_trans; eauto.
        -- cbn [fst]. clear - F2. induction F2 as [|b' b q' q (B & D & N) F2 IH]; constructor; auto.
    + assert (sumsq q' <= sumsq q); [|nia]. clear - F2. induction F2 as [|b' b q' q (B & _) F2 IH]; [lia|]. cbn [sumsq fold_right]. fold (sumsq q) (sumsq q'). nia.
  - destruct (rho_repeat_ok a 1000000 ltac:(lia) (Z.to_nat (mi - 1)) 2) as (d & ED & D & D2). unfold pollard_rho_repeated. rewrite ED. cbn [obind].
    assert (PA : passes (a, 1) = false) by (unfold passes; cbn [fst]; now rewrite MR).
    destruct ((d =? 1) || (d =? a)) eqn:C.
    + eexists. split; [reflexivity|]. split; [|nia]. split; [exact F|]. split; [|split; [|split]].
      * rewrite productZ_app. cbn [productZ]. rewrite <- PR, Z.pow_1_r. ring.
      * apply Forall_app. split; [exact EO|]. constructor; [|constructor]. split; [cbn [fst snd]; lia|]. split; [cbn [fst snd]; lia|]. right. auto.
      * rewrite filter_app, map_app. cbn [filter]. rewrite PA. cbn [map]. now rewrite app_nil_r.
      * intros x X P. apply in_app_or in X as [X|[<-|[]]]; [now apply SEPq|congruence].
    + apply orb_false_iff in C as [_ C]. apply Z.eqb_neq in C. destruct D as [t T]. unfold cdiv. destruct (Z.eqb_spec d 0); [lia|]. cbn [obind]. rewrite T, Z.quot_mul by lia.
      assert (t <> 1) by (intros ->; lia). assert (1 < t) by (clear - A T H D2; nia). eexists. split; [reflexivity|]. split.
      * split; [repeat constructor; auto; lia|]. split; [cbn [prodl]; rewrite <- PR, T; ring|]. split; [exact EO|]. split; [exact ND|].
        intros x X P. specialize (SEP x X P). apply Forall_cons_iff in SEP as [S1 S2]. constructor; [intros Q; apply S1; rewrite T; now apply Z.divide_mul_l|]. constructor; [intros Q; apply S1; rewrite T; now apply Z.divide_mul_r|exact S2].
      * cbn [sumsq fold_right]. fold (sumsq q). assert (t * t + d * d < (t * d) * (t * d)); [|lia]. nia.
Qed.
Theorem factor_integer_ok n mi : 1 <= n -> exists vf, factor_integer n mi = Some vf /\ productZ vf = n /\ Forall entry_ok vf /\ NoDup (map fst (filter passes vf)).
Proof.
  intros H. unfold factor_integer. destruct (Z.eqb_spec n 0); [lia|]. cbn [orb]. destruct (Z.eqb_spec n 1) as [->|N].
  { exists []. repeat split; constructor. }
  destruct (loopZ_spec (factor_step mi) (fun '(q, vf) => vf_inv n q vf) (fun vf => vf_inv n [] vf) (fun '(q, _) => sumsq q)) with (fuel := n * n + 2) (s := ([n], @nil (Z * Z))) as (vf & E & V).
  - intros (q & vf) V. destruct (factor_step_ok n mi q vf V) as ([(q' & vf')|vf'] & -> & R); eexists; (split; [reflexivity|]); [exact R|]. destruct R as [-> ->]. exact V.
  - intros (q & _) _. apply sumsq_nonneg.
  - split; [repeat constructor; lia|]. split; [cbn [productZ prodl]; ring|]. split; [constructor|]. split; [constructor|]. intros x [].
  - cbn. lia.
  - exists vf. rewrite E. destruct V as (_ & P & EO & ND & _). cbn [prodl] in P. repeat split; auto. lia.
Qed.
Lemma primes_pass p : primeZ p -> miller_rabin p = Some true.
Proof.
  intros P. unfold miller_rabin. apply prime_accepted; [exact P| |]; unfold mr_choose; repeat match goal with |- context[if ?c then _ else _] => destruct c end.
  1-6: repeat (try (left; reflexivity); right). all: repeat (apply Forall_cons; [lia|]); apply Forall_nil.
Qed.
Theorem factor_integer_primes n mi vf : 1 <= n -> factor_integer n mi = Some vf -> (forall p e, In (p, e) vf -> primeZ p) -> factorisationZ n vf.
Proof.
  intros H E P. destruct (factor_integer_ok n mi H) as (vf' & E' & PR & EO & ND). rewrite E in E'. injection E' as <-. split; [exact PR|].
  assert (FI : filter passes vf = vf). { clear - P. induction vf as [|(p & e) vf IH]; [reflexivity|]. cbn [filter]. unfold passes at 1. cbn [fst]. rewrite (primes_pass p) by (apply (P p e); left; reflexivity). rewrite IH; [reflexivity|]. intros. eapply P. right. eauto. }
  rewrite FI in ND. split; [exact ND|]. intros p e I0. split; [now apply (P p e)|]. rewrite Forall_forall in EO. apply (EO _ I0).
Qed.
Definition fi_sweep (n : nat) : bool := match factor_integer (Z.of_nat n) 20 with Some vf => forallb (fun '(p, _) => (p <? 2209) && (2 <=? p) && negb (fac_small p)) vf | None => false end.
Lemma fi_swept : forallb fi_sweep (seq 1 2046) = true. Proof. vm_compute. reflexivity. Qed.
Theorem factor_integer_small n : 1 <= n < 2047 -> exists vf, factor_integer n 20 = Some vf /\ factorisationZ n vf.
Proof.
  intros H. destruct (factor_integer_ok n 20 ltac:(lia)) as (vf & E & _). exists vf. split; [exact E|]. apply (factor_integer_primes n 20); [lia|exact E|]. intros p e I0.
  pose proof fi_swept as S. rewrite forallb_forall in S. specialize (S (Z.to_nat n)). rewrite in_seq in S. specialize (S ltac:(lia)). unfold fi_sweep in S. rewrite Z2Nat.id, E in S by lia.
  rewrite forallb_forall in S. specialize (S _ I0). cbv beta iota in S. apply andb_prop in S as [S1 S2]. apply andb_prop in S1 as [S0 S1]. apply Z.ltb_lt in S0. apply Z.leb_le in S1. apply negb_true_iff in S2.
  pose proof (fac_small_ok (Z.to_nat p) ltac:(lia) ltac:(lia)) as F. rewrite Z2Nat.id in F by lia. unfold primeZ. destruct (prime_dec' (Z.to_nat p)) as [Q|Q]; [exact Q|]. apply F in Q. congruence.
Qed.

(** ** factor_integer_slow *)
Definition no_small (n i : Z) : Prop := forall q, 2 <= q < i -> ~ (q | n).
Lemma no_small_prime n i : 2 <= i -> 1 < n -> no_small n i -> (i | n) -> primeZ i.
Proof.
  intros I2 N S D. unfold primeZ. destruct (prime_dec' (Z.to_nat i)) as [P|P]; [exact P|]. exfalso. destruct (composite_factor (Z.to_nat i) ltac:(lia) P) as (p & Q & [t T] & L). pose proof (prime_ge p Q).
  apply (S (Z.of_nat p)); [nia|]. eapply Z.divide_trans; [|exact D]. exists (Z.of_nat t). lia.
Qed.
Lemma quot_le n i : 0 <= n -> 0 < i -> (i <=? Z.quot n i) = true <-> i * i <= n.
Proof. intros N P. rewrite Z.leb_le, Z.quot_div_nonneg by lia. split; intros H; [pose proof (Z.mul_div_le n i P); nia|apply Z.div_le_lower_bound; lia]. Qed.
Lemma no_small_rest n i : 1 < n -> 2 <= i -> no_small n i -> n < i * i -> primeZ n.
Proof.
  intros N I2 S L. unfold primeZ. destruct (prime_dec' (Z.to_nat n)) as [P|P]; [exact P|]. exfalso. destruct (composite_factor (Z.to_nat n) ltac:(lia) P) as (p & Q & [t T] & LE). pose proof (prime_ge p Q).
  apply (S (Z.of_nat p)); [nia|]. exists (Z.of_nat t). lia.
Qed.
Definition slow_inv (n0 n i : Z) (vf : list (Z * Z)) : Prop :=
  1 <= n /\ 2 <= i /\ productZ vf * n = n0 /\ no_small n i /\ (forall p e, In (p, e) vf -> primeZ p /\ 1 <= e /\ p < i) /\ StronglySorted Z.lt (map fst vf).
Lemma sorted_snoc l x : StronglySorted Z.lt l -> Forall (fun y => y < x) l -> StronglySorted Z.lt (l ++ [x]).
Proof.
  induction l as [|y l IH]; intros S F; [repeat constructor|]. inversion S as [|? ? S1 S2]. subst. apply Forall_cons_iff in F as [F1 F2]. cbn [app]. constructor; [now apply IH|]. apply Forall_app. split; [exact S2|]. now repeat constructor.
Qed.
Theorem factor_integer_slow_ok n0 : 1 <= n0 -> exists vf, factor_integer_slow n0 = Some vf /\ factorisationZ n0 vf /\ StronglySorted Z.lt (map fst vf).
Proof.
  intros H. unfold factor_integer_slow.
  destruct (loopZ_spec slow_step (fun '(n, i, vf) => slow_inv n0 n i vf /\ i <= n0 + 1) (fun '(n, vf) => exists i, slow_inv n0 n i vf /\ n < i * i) (fun '(_, i, _) => n0 + 1 - i)) with (fuel := Z.abs n0 + 1) (s := (n0, 2, @nil (Z * Z))) as ((n & vf) & E & i & V & L).
  - intros ((n & i) & vf) ((N & I2 & PR & S & PF & SO) & LE). cbn [slow_step]. unfold cdiv at 1. destruct (Z.eqb_spec i 0); [lia|]. cbn [obind].
    assert (NB : n <= n0). { rewrite <- PR. assert (0 < productZ vf); [|nia]. nia. }
    destruct (i <=? Z.quot n i) eqn:C.
    + apply quot_le in C; [|lia|lia]. unfold cmod at 1. destruct (Z.eqb_spec i 0); [lia|]. cbn [obind]. destruct (Z.eqb_spec (Z.rem n i) 0) as [R|R]; cbn [negb].
      * apply rem_dvd in R; [|lia]. destruct (strip_ok n i 0 ltac:(lia) I2) as (n' & k & -> & K & EN & ND). cbn [obind]. rewrite Z.add_0_l. eexists. split; [reflexivity|]. cbv beta iota.
        assert (K1 : 1 <= k). { destruct (Z.eq_dec k 0) as [->|]; [|lia]. rewrite Z.pow_0_r, Z.mul_1_l in EN. subst n'. contradiction. }
        pose proof (Z.pow_pos_nonneg i k ltac:(lia) K). assert (N' : 1 <= n') by nia. split; [|lia]. split; [|nia]. split; [exact N'|]. split; [lia|]. split; [|split; [|split]].
        -- rewrite productZ_app. cbn [productZ]. rewrite <- PR, EN. ring.
        -- intros q Q D. destruct (Z.eq_dec q i) as [->|]; [contradiction|]. apply (S q); [lia|]. rewrite EN. now apply Z.divide_mul_r.
        -- intros p e I0. apply in_app_or in I0 as [I0|[I0|[]]]; [destruct (PF p e I0) as (P1 & P2 & P3); split; [exact P1|]; split; [exact P2|lia]|]. injection I0 as <- <-. split; [|lia].
           apply (no_small_prime n); [lia|nia|exact S|exact R].
        -- rewrite map_app. apply sorted_snoc; [exact SO|]. cbn [fst]. apply Forall_forall. intros p I0. apply in_map_iff in I0 as ((p' & e) & <- & I0). apply (PF _ _ I0).
      * eexists. split; [reflexivity|]. cbv beta iota. split; [|lia]. split; [|nia]. split; [exact N|]. split; [lia|]. split; [exact PR|]. split; [|split; [|exact SO]].
        -- intros q Q D. destruct (Z.eq_dec q i) as [->|]; [apply R, rem_dvd; [lia|exact D]|]. now apply (S q); [lia|].
        -- intros p e I0. destruct (PF p e I0) as (P1 & P2 & P3). split; [exact P1|]. split; [exact P2|lia].
    + eexists. split; [reflexivity|]. cbv beta iota. exists i. split; [repeat split; auto; apply (PF p e); assumption|]. destruct (Z.le_gt_cases (i * i) n) as [G|G]; [|lia]. apply quot_le in G; [congruence|lia|lia].
  - intros ((n & i) & vf) (_ & LE). lia.
  - split; [|lia]. split; [exact H|]. split; [lia|]. split; [cbn [productZ]; ring|]. split; [intros q; lia|]. split; [intros p e []|constructor].
  - lia.
  - rewrite E. cbn [obind]. destruct V as (N & I2 & PR & S & PF & SO).
    assert (NDS : forall l, StronglySorted Z.lt l -> NoDup l). { clear. induction l as [|x l IH]; intros S; [constructor|]. inversion S as [|? ? S1 S2]. subst. constructor; [|now apply IH]. intros I0. rewrite Forall_forall in S2. specialize (S2 _ I0). lia. }
    destruct (Z.ltb_spec 1 n) as [N1|N1].
    + assert (SO' : StronglySorted Z.lt (map fst (vf ++ [(n, 1)]))).
      { rewrite map_app. apply sorted_snoc; [exact SO|]. apply Forall_forall. intros p I0. apply in_map_iff in I0 as ((p' & e) & <- & I0). cbn [fst]. destruct (PF _ _ I0) as (P1 & P2 & P3).
        assert (i <= n); [|lia]. destruct (Z.le_gt_cases i n); [assumption|]. exfalso. apply (S n); [lia|apply Z.divide_refl]. }
      eexists. split; [reflexivity|]. split; [|exact SO']. split; [rewrite productZ_app; cbn [productZ]; rewrite <- PR, Z.pow_1_r; ring|]. split; [now apply NDS|].
      intros p e I0. apply in_app_or in I0 as [I0|[I0|[]]]; [split; apply (PF _ _ I0)|]. injection I0 as <- <-. split; [|lia]. now apply (no_small_rest n i).
    + eexists. split; [reflexivity|]. split; [|exact SO]. split; [assert (n = 1) by lia; subst n; lia|]. split; [now apply NDS|]. intros p e I0. split; apply (PF _ _ I0).
Qed.
Lemma factor_out_zero p e : p <> 0 -> factor_out 0 p e = None.
Proof. intros P. unfold factor_out, strip. cbn. unfold strip_step, cmod, cdiv. destruct (Z.eqb_spec p 0); [lia|]. cbn [obind]. rewrite Z.rem_0_l by lia. reflexivity. Qed.
Lemma npow_Z x n : npow Z.mul 1 x n = x ^ Z.of_nat n.
Proof. induction n as [|n IH]; [reflexivity|]. cbn [npow]. rewrite IH, Nat2Z.inj_succ, Z.pow_succ_r by lia. reflexivity. Qed.
Lemma from_factorization_ok vf : Forall (fun '(_, e) => 0 <= e) vf -> from_factorization vf = Some (productZ vf).
Proof.
  intros F. unfold from_factorization. assert (G : forall r, from_factorization_from r vf = Some (r * productZ vf)); [|rewrite G; f_equal; ring].
  induction F as [|(p & e) vf P F IH]; intros r; cbn [from_factorization_from productZ]; [f_equal; ring|]. rewrite powT_npow by (auto; intros; ring). cbn [obind]. rewrite IH, npow_Z, Z2Nat.id by lia. f_equal. ring.
Qed.
