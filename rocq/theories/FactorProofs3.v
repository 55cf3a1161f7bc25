From Verif Require Import Lib BaseModel BaseProofs PrimesSpec PrimesProofs NumTheory2 FactorModel FactorSpec FactorProofs FactorProofs2.
From Coq Require Import Znumtheory Sorted Lia.
Open Scope Z_scope.

(** ** from_primes *)
Lemma prod_powers_app ps es p e : length es = length ps -> prod_powers (ps ++ [p]) (es ++ [e]) = prod_powers ps es * p ^ e.
Proof. revert es. induction ps as [|q ps IH]; intros [|f es] L; try discriminate L; cbn [app prod_powers]; [ring|]. rewrite IH by (cbn in L; lia). ring. Qed.
Lemma used_powers_app ps es p e : length es = length ps -> used_powers (ps ++ [p]) (es ++ [e]) = used_powers ps es ++ if 0 <? e then [(p, e)] else [].
Proof.
  unfold used_powers. revert es. induction ps as [|q ps IH]; intros [|f es] L; try discriminate L; cbn [app combine filter]; [reflexivity|].
  rewrite IH by (cbn in L; lia). destruct (0 <? f); reflexivity.
Qed.
Lemma prod_powers_pos ps : Forall (fun p => 1 <= p) ps -> forall es, Forall (fun e => 0 <= e) es -> 1 <= prod_powers ps es.
Proof.
  induction 1 as [|p ps P F IH]; intros [|e es] E; cbn [prod_powers]; try lia. apply Forall_cons_iff in E as [E1 E]. specialize (IH es E). pose proof (Z.pow_pos_nonneg p e ltac:(lia) E1). nia.
Qed.
Definition vec_ok (ps : list Z) (N : Z) (es : list Z) : Prop := length es = length ps /\ Forall (fun e => 0 <= e) es /\ prod_powers ps es <= N.
Definition call (vf : list (Z * Z)) (n : Z) (ps es : list Z) : list (Z * Z) * Z := (vf ++ rev (used_powers ps es), n * prod_powers ps es).
Definition covers (o : visits) (vf : list (Z * Z)) (n : Z) (ps : list Z) (V : list Z -> Prop) : Prop :=
  exists ess, o = map (call vf n ps) ess /\ NoDup ess /\ forall es, In es ess <-> V es.
Lemma snoc_inv {A} (a b : list A) x y : a ++ [x] = b ++ [y] -> a = b /\ x = y.
Proof. apply app_inj_tail. Qed.
Lemma covers_lift o ps p e vf n N : 0 <= e -> 1 <= N -> 2 <= p ->
  covers o (if 0 <? e then vf ++ [(p, e)] else vf) (n * p ^ e) ps (vec_ok ps N) ->
  covers o vf n (ps ++ [p]) (fun es => exists es0, es = es0 ++ [e] /\ vec_ok ps N es0).
Proof.
  intros E N1 P (ess & -> & ND & I0). exists (map (fun es => es ++ [e]) ess). split; [|split].
  - rewrite map_map. apply map_ext_in. intros es IE. apply I0 in IE as (L & _). unfold call. rewrite used_powers_app, prod_powers_app by exact L. f_equal; [|ring].
    destruct (0 <? e); [rewrite rev_app_distr; cbn [rev app]; now rewrite <- app_assoc|now rewrite app_nil_r].
  - apply (FinFun.Injective_map_NoDup); [|exact ND]. intros x y XY. now apply snoc_inv in XY.
  - intros es. rewrite in_map_iff. split; [intros (es0 & <- & IE); exists es0; split; [reflexivity|now apply I0]|intros (es0 & -> & V); exists es0; split; [reflexivity|now apply I0]].
Qed.
Lemma covers_app o1 o2 vf n ps V1 V2 : covers o1 vf n ps V1 -> covers o2 vf n ps V2 -> (forall es, V1 es -> V2 es -> False) -> covers (o1 ++ o2) vf n ps (fun es => V1 es \/ V2 es).
Proof.
  intros (e1 & -> & N1 & I1) (e2 & -> & N2 & I2) D. exists (e1 ++ e2). split; [now rewrite map_app|]. split.
  - clear - N1 N2 I1 I2 D. assert (G : forall x, In x e1 -> ~ In x e2) by (intros x A B; apply (D x); [now apply I1|now apply I2]). clear - N1 N2 G.
    induction N1 as [|x l X N1 IH]; [exact N2|]. cbn [app]. constructor; [|apply IH; intros y Y; apply G; now right]. rewrite in_app_iff. intros [A|A]; [contradiction|]. apply (G x); [now left|exact A].
  - intros es. rewrite in_app_iff, I1, I2. reflexivity.
Qed.
Lemma covers_iff o vf n ps V V' : (forall es, V es <-> V' es) -> covers o vf n ps V -> covers o vf n ps V'.
Proof. intros H (ess & E & N & I0). exists ess. split; [exact E|]. split; [exact N|]. intros es. now rewrite I0. Qed.
Lemma firstn_snoc {A} (l : list A) k x : nth_error l k = Some x -> firstn (S k) l = firstn k l ++ [x].
Proof. revert l. induction k as [|k IH]; intros [|y l] H; try discriminate H; [injection H as ->; reflexivity|]. cbn [firstn app]. f_equal. now apply IH. Qed.
Lemma from_primes_impl_ok pa : Forall (fun p => 2 <= p) pa -> forall psz vf N n, (psz <= length pa)%nat -> 1 <= N ->
  exists o, from_primes_impl pa psz vf N n = Some o /\ covers o vf n (firstn psz pa) (vec_ok (firstn psz pa) N).
Proof.
  intros F. induction psz as [|psz IH]; intros vf N n L N1; cbn [from_primes_impl].
  - eexists. split; [reflexivity|]. cbn [firstn]. exists [[]]. split; [unfold call; cbn; now rewrite app_nil_r, Z.mul_1_r|]. split; [repeat constructor; auto|].
    intros es. split; [intros [<-|[]]; split; [reflexivity|]; split; [constructor|cbn; lia]|]. intros (L0 & _). destruct es; [now left|discriminate].
  - destruct (nth_error pa psz) as [p|] eqn:NE; [|apply nth_error_None in NE; lia]. cbn [obind]. rewrite (firstn_snoc pa psz p NE). set (ps := firstn psz pa) in *.
    assert (P2 : 2 <= p). { rewrite Forall_forall in F. apply F. eapply nth_error_In; eauto. }
    assert (LP : length ps = psz) by (unfold ps; rewrite firstn_length; lia).
    assert (FP : Forall (fun p => 1 <= p) ps). { apply Forall_forall. intros x X. rewrite Forall_forall in F. specialize (F x). unfold ps in X. apply In_nth_error in X as (i & X). assert (In x pa); [|specialize (F H); lia]. rewrite <- (firstn_skipn psz pa). apply in_or_app. left. eapply nth_error_In; eauto. }
    destruct (IH vf N n ltac:(lia) N1) as (o & -> & O). cbn [obind].
    destruct (loopZ_spec (fp_step (from_primes_impl pa psz) vf p)
      (fun '(n', N', e, out) => 1 <= e /\ n' = n * p ^ (e - 1) /\ N' = N / p ^ (e - 1) /\ 1 <= N' /\ covers out vf n (ps ++ [p]) (fun es => exists es0 e0, es = es0 ++ [e0] /\ 0 <= e0 < e /\ vec_ok (ps ++ [p]) N es))
      (fun out => covers out vf n (ps ++ [p]) (vec_ok (ps ++ [p]) N)) (fun '(_, N', _, _) => N')) with (fuel := Z.abs N + 1) (s := (n, N, 1, o)) as (out & E & C).
    + intros (((n' & N') & e) & out) (E1 & -> & -> & NP & C). cbn [fp_step]. unfold cdiv. destruct (Z.eqb_spec p 0); [lia|]. cbn [obind].
      pose proof (Z.pow_pos_nonneg p (e - 1) ltac:(lia) ltac:(lia)) as PP. rewrite Z.quot_div_nonneg by lia. rewrite Z.div_div by lia. replace (p ^ (e - 1) * p) with (p ^ e) by (replace e with (e - 1 + 1) at 1 by lia; rewrite Z.pow_add_r, Z.pow_1_r by lia; ring).
      replace (n * p ^ (e - 1) * p) with (n * p ^ e) by (replace e with (e - 1 + 1) at 1 by lia; rewrite Z.pow_add_r, Z.pow_1_r by lia; ring).
      assert (PE : p ^ e = p ^ (e - 1) * p) by (replace e with (e - 1 + 1) at 1 by lia; rewrite Z.pow_add_r, Z.pow_1_r by lia; ring).
      pose proof (Z.pow_pos_nonneg p e ltac:(lia) ltac:(lia)) as PPe.
      assert (V : forall es0, vec_ok ps (N / p ^ e) es0 <-> vec_ok (ps ++ [p]) N (es0 ++ [e])).
      { intros es0. unfold vec_ok. rewrite !app_length. cbn [length]. rewrite Forall_app. split.
        - intros (L0 & F0 & PR). split; [lia|]. split; [split; [exact F0|repeat constructor; lia]|]. rewrite prod_powers_app by exact L0. pose proof (Z.mul_div_le N (p ^ e) PPe). nia.
        - intros (L0 & (F0 & _) & PR). split; [lia|]. split; [exact F0|]. rewrite prod_powers_app in PR by lia. apply Z.div_le_lower_bound; lia. }
      destruct (Z.ltb_spec 0 (N / p ^ e)) as [G|G].
      * destruct (IH (vf ++ [(p, e)]) (N / p ^ e) (n * p ^ e) ltac:(lia) ltac:(lia)) as (o2 & -> & O2). cbn [obind]. eexists. split; [reflexivity|]. cbv beta iota. replace (e + 1 - 1) with e by lia. split.
        -- split; [lia|]. split; [reflexivity|]. split; [reflexivity|]. split; [lia|].
           assert (O3 := covers_lift o2 ps p e vf n (N / p ^ e) ltac:(lia) ltac:(lia) P2). destruct (Z.ltb_spec 0 e); [|lia]. specialize (O3 O2).
           eapply covers_iff; [|apply (covers_app _ _ _ _ _ _ _ C O3)].
           ++ intros es. cbv beta. split.
              ** intros [(es0 & e0 & -> & R & W)|(es0 & -> & W)]; [exists es0, e0; split; [reflexivity|]; split; [lia|exact W]|]. exists es0, e. split; [reflexivity|]. split; [lia|]. now apply V.
              ** intros (es0 & e0 & -> & R & W). destruct (Z.eq_dec e0 e) as [->|]; [right; exists es0; split; [reflexivity|now apply V]|left; exists es0, e0; split; [reflexivity|]; split; [lia|exact W]].
           ++ cbv beta. intros es (a & e0 & -> & R & _) (b & B & _). apply snoc_inv in B. lia.
        -- rewrite PE, <- Z.div_div by lia. apply Z.div_lt; lia.
      * eexists. split; [reflexivity|]. cbv beta iota. eapply covers_iff; [|exact C]. intros es. cbv beta. split; [intros (a & b & _ & _ & W); exact W|]. intros W. pose proof W as (L0 & F0 & PR). rewrite app_length in L0. cbn [length] in L0.
        destruct (exists_last (l := es)) as (es0 & e0 & ->); [intros ->; cbn in L0; lia|]. exists es0, e0. split; [reflexivity|]. split; [|exact W]. apply Forall_app in F0 as (F0 & F1). apply Forall_cons_iff in F1 as [F1 _]. split; [exact F1|].
        destruct (Z.lt_ge_cases e0 e) as [|GE]; [assumption|]. exfalso. rewrite app_length in L0. cbn [length] in L0. rewrite prod_powers_app in PR by lia. pose proof (prod_powers_pos ps FP es0 F0).
        assert (p ^ e <= p ^ e0) by (apply Z.pow_le_mono_r; lia). assert (p ^ e <= N) by nia. assert (1 <= N / p ^ e) by (apply Z.div_le_lower_bound; lia). lia.
    + intros (((n' & N') & e) & out) (_ & _ & _ & NP & _). lia.
    + rewrite Z.sub_diag, Z.pow_0_r, Z.mul_1_r, Z.div_1_r. split; [lia|]. split; [reflexivity|]. split; [reflexivity|]. split; [lia|].
      assert (O3 := covers_lift o ps p 0 vf n N ltac:(lia) ltac:(lia) P2). cbn [Z.ltb Z.compare] in O3. rewrite Z.pow_0_r, Z.mul_1_r in O3. specialize (O3 O). eapply covers_iff; [|exact O3]. intros es. cbv beta. split.
      * intros (es0 & -> & L0 & F0 & PR). exists es0, 0. split; [reflexivity|]. split; [lia|]. split; [rewrite !app_length; cbn [length]; lia|]. split; [apply Forall_app; split; [exact F0|repeat constructor; lia]|]. rewrite prod_powers_app by exact L0. rewrite Z.pow_0_r. lia.
      * intros (es0 & e0 & -> & R & L0 & F0 & PR). assert (e0 = 0) by lia. subst e0. exists es0. split; [reflexivity|]. rewrite !app_length in L0. cbn [length] in L0. apply Forall_app in F0 as [F0 _]. rewrite prod_powers_app, Z.pow_0_r in PR by lia. split; [lia|]. split; [exact F0|lia].
    + lia.
    + exists out. split; [exact E|exact C].
Qed.
Theorem from_primes_ok vp N : Forall (fun p => 2 <= p) vp -> 1 <= N -> exists ess, NoDup ess /\
  (forall es, In es ess <-> length es = length vp /\ Forall (fun e => 0 <= e) es /\ prod_powers vp es <= N) /\
  from_primes vp N = Some (map (fun es => (rev (used_powers vp es), prod_powers vp es)) ess).
Proof.
  intros F H. destruct (from_primes_impl_ok vp F (length vp) [] N 1 ltac:(lia) H) as (o & E & ess & -> & ND & I0). rewrite firstn_all in *. exists ess. split; [exact ND|]. split; [exact I0|].
  unfold from_primes. rewrite E. f_equal. apply map_ext. intros es. unfold call. cbn [app]. f_equal. ring.
Qed.
Lemma prime_not_dvd_prod p ps es : primeZ p -> Forall primeZ ps -> ~ In p ps -> Forall (fun e => 0 <= e) es -> ~ (p | prod_powers ps es).
Proof.
  intros P F. destruct (primeZ_nat p P) as (q & -> & Q). assert (ONE : ~ (Z.of_nat q | 1)). { intros D. pose proof (prime_ge q Q). apply Z.divide_1_r_nonneg in D; lia. }
  revert es. induction F as [|r ps R F IH]; intros es NI E D; [destruct es; now apply ONE|]. destruct es as [|e es]; [now apply ONE|]. cbn [prod_powers] in D.
  apply Forall_cons_iff in E as [E0 E]. apply prime_Zeuclid in D as [D|D]; [|apply (IH es); auto; intros C; apply NI; now right|exact Q].
  destruct (primeZ_nat r R) as (s & -> & S0). assert (G : (Z.of_nat q | Z.of_nat s)).
  { revert e E0 D. apply (natlike_ind (fun e => (Z.of_nat q | Z.of_nat s ^ e) -> (Z.of_nat q | Z.of_nat s))); [rewrite Z.pow_0_r; intros D; now apply ONE in D|]. intros e E0 IHe D. rewrite Z.pow_succ_r in D by lia. apply prime_Zeuclid in D as [D|D]; auto. }
  destruct G as [t T]. destruct S0 as [S2 S0]. destruct (S0 q) as [G|G]; [exists (Z.to_nat t); nia|pose proof (prime_ge q Q); lia|]. apply NI. left. lia.
Qed.
Lemma pow_part_unique p e e' A B : 2 <= p -> 0 <= e -> 0 <= e' -> p ^ e * A = p ^ e' * B -> ~ (p | A) -> ~ (p | B) -> e = e' /\ A = B.
Proof.
  intros P. assert (W : forall e e' A B, 0 <= e -> e < e' -> p ^ e * A = p ^ e' * B -> (p | A)).
  { clear - P. intros e e' A B E L H. replace e' with (e + (1 + (e' - e - 1))) in H by lia. rewrite Z.pow_add_r, <- Z.mul_assoc in H by lia. apply Z.mul_reg_l in H; [|apply Z.pow_nonzero; lia]. rewrite Z.pow_add_r, Z.pow_1_r in H by lia. exists (p ^ (e' - e - 1) * B). lia. }
  intros E E' H NA NB. destruct (Z.lt_trichotomy e e') as [L|[->|L]].
  - exfalso. apply NA. eapply (W e e'); eauto.
  - split; [reflexivity|]. apply Z.mul_reg_l in H; [exact H|apply Z.pow_nonzero; lia].
  - exfalso. apply NB. eapply (W e' e); eauto.
Qed.
Lemma prod_powers_inj ps : NoDup ps -> Forall primeZ ps -> forall es fs, length es = length ps -> length fs = length ps -> Forall (fun e => 0 <= e) es -> Forall (fun e => 0 <= e) fs -> prod_powers ps es = prod_powers ps fs -> es = fs.
Proof.
  induction ps as [|p ps IH]; intros ND F es fs L1 L2 E1 E2 H; [destruct es, fs; try discriminate; reflexivity|]. destruct es as [|e es]; [discriminate|]. destruct fs as [|f fs]; [discriminate|].
  apply NoDup_cons_iff in ND as [NI ND]. apply Forall_cons_iff in F as [P F]. apply Forall_cons_iff in E1 as [E E1]. apply Forall_cons_iff in E2 as [G E2]. cbn [prod_powers length] in *. pose proof (prime_ge _ P).
  destruct (pow_part_unique p e f (prod_powers ps es) (prod_powers ps fs)) as [-> K]; auto; try lia; try (apply prime_not_dvd_prod; auto). f_equal. apply IH; auto.
Qed.
Theorem from_primes_nodup vp N o : Forall primeZ vp -> NoDup vp -> 1 <= N -> from_primes vp N = Some o -> NoDup (map snd o).
Proof.
  intros F ND H E. destruct (from_primes_ok vp N) as (ess & NE & IE & E'); [|exact H|].
  { eapply Forall_impl; [|exact F]. intros p P. pose proof (prime_ge _ P). lia. }
  rewrite E in E'. injection E' as ->. rewrite map_map. cbn [snd]. clear E.
  assert (OK : Forall (vec_ok vp N) ess) by (apply Forall_forall; intros es I0; now apply IE). clear IE. induction NE as [|es ess NI NE IH]; [constructor|]. apply Forall_cons_iff in OK as [(L & E & _) OK]. cbn [map]. constructor; [|now apply IH].
  intros C. apply in_map_iff in C as (fs & C & I0). rewrite Forall_forall in OK. destruct (OK fs I0) as (L' & E' & _). apply prod_powers_inj in C; auto. congruence.
Qed.

(** ** fraction_reduce *)
Section Reduce.
  Variable g : Z -> Z -> option Z.
  Hypothesis Hg : forall x d, 0 <= x -> 0 < d -> g x d = Some (Z.gcd x d).
  Lemma prodl_set nu i x y nu' : nth_error nu i = Some x -> set_nth nu i y = Some nu' -> prodl nu * y = prodl nu' * x.
  Proof.
    revert i nu'. induction nu as [|z nu IH]; intros [|i] nu' H E; cbn [nth_error set_nth] in *; try discriminate.
    - injection H as ->. injection E as <-. cbn [prodl]. ring.
    - destruct (set_nth nu i y) as [l|] eqn:S0; [|discriminate]. injection E as <-. cbn [prodl]. specialize (IH i l H S0). rewrite <- !Z.mul_assoc. now rewrite IH.
  Qed.
  Definition shrunk (nu' nu : list Z) : Prop := Forall2 (fun x' x => 0 <= x' /\ (x' | x)) nu' nu.
  Lemma shrunk_set nu0 nu i x y nu' : shrunk nu nu0 -> nth_error nu i = Some x -> set_nth nu i y = Some nu' -> 0 <= y -> (y | x) -> shrunk nu' nu0.
  Proof.
    intros S0. revert i nu'. induction S0 as [|a b nu nu0 (A & D) S0 IH]; intros [|i] nu' H E Y YD; cbn [nth_error set_nth] in *; try discriminate.
    - injection H as ->. injection E as <-. constructor; [split; [exact Y|eapply Z.divide_trans; eauto]|exact S0].
    - destruct (set_nth nu i y) as [l|] eqn:SS; [|discriminate]. injection E as <-. constructor; [auto|]. eapply IH; eauto.
  Qed.
  Lemma gcd_shrink x x' d d' : (x' | x) -> (d' | d) -> Z.gcd x d = 1 -> Z.gcd x' d' = 1.
  Proof.
    intros X D G. apply Z.divide_1_r_nonneg; [apply Z.gcd_nonneg|]. rewrite <- G. apply Z.gcd_greatest; [eapply Z.divide_trans; [apply Z.gcd_divide_l|exact X]|eapply Z.divide_trans; [apply Z.gcd_divide_r|exact D]].
  Qed.
  Lemma reduce_loop nu0 d0 : Forall (fun x => 0 <= x) nu0 -> 1 <= d0 -> exists nu d, loopZ (Z.abs d0 + Z.of_nat (length nu0) + 1) (reduce_step g) (nu0, d0, O) = Some (nu, d) /\
    shrunk nu nu0 /\ 1 <= d /\ (d | d0) /\ prodl nu * d0 = prodl nu0 * d /\ Forall (fun x => Z.gcd x d = 1) nu.
  Proof.
    intros F D0.
    destruct (loopZ_spec (reduce_step g) (fun '(nu, d, i) => shrunk nu nu0 /\ 1 <= d /\ (d | d0) /\ prodl nu * d0 = prodl nu0 * d /\ (i <= length nu0)%nat /\ forall j x, (j < i)%nat -> nth_error nu j = Some x -> Z.gcd x d = 1)
      (fun '(nu, d) => shrunk nu nu0 /\ 1 <= d /\ (d | d0) /\ prodl nu * d0 = prodl nu0 * d /\ Forall (fun x => Z.gcd x d = 1) nu) (fun '(_, d, i) => d + (Z.of_nat (length nu0) - Z.of_nat i))) with (fuel := Z.abs d0 + Z.of_nat (length nu0) + 1) (s := (nu0, d0, O)) as ((nu & d) & E & R).
    - intros ((nu & d) & i) (S0 & D & DD & PR & I0 & CO). cbn [reduce_step]. assert (LN : length nu = length nu0) by (clear - S0; induction S0; cbn [length]; congruence). rewrite LN.
      destruct (Z.ltb_spec 1 d) as [D1|D1]; cbn [andb].
      + destruct (Nat.ltb_spec i (length nu0)) as [LI|LI].
        * destruct (nth_error nu i) as [x|] eqn:NX; [|apply nth_error_None in NX; lia]. cbn [obind].
          assert (X0 : 0 <= x). { clear - S0 NX. revert i NX. induction S0 as [|a b nu nu0 (A & _) S0 IH]; intros [|i] H; try discriminate H; [injection H as ->; exact A|eauto]. }
          rewrite Hg by lia. cbn [obind]. pose proof (Z.gcd_divide_l x d) as GX. pose proof (Z.gcd_divide_r x d) as GD. pose proof (Z.gcd_nonneg x d) as GN. set (k := Z.gcd x d) in *.
          destruct (Z.ltb_spec 1 k) as [K|K].
          -- destruct GX as [tx TX]. destruct GD as [td TD]. unfold cdiv. destruct (Z.eqb_spec k 0); [lia|]. cbn [obind]. 
             assert (QX : Z.quot x k = tx) by (symmetry; apply Z.quot_unique_exact; lia). assert (QD : Z.quot d k = td) by (symmetry; apply Z.quot_unique_exact; lia). rewrite QX, QD. clearbody k.
             destruct (set_nth nu i tx) as [nu'|] eqn:SN; [|exfalso; destruct (set_nth_some nu i tx) as (z & Z1); [lia|congruence]]. cbn [obind]. eexists. split; [reflexivity|]. cbv beta iota.
             assert (TX0 : 0 <= tx) by nia. assert (TD0 : 1 <= td) by nia. split; [|nia]. split; [eapply shrunk_set; eauto; exists k; lia|]. split; [exact TD0|]. split; [eapply Z.divide_trans; [|exact DD]; exists k; lia|]. split; [|split; [exact I0|]].
             ++ pose proof (prodl_set _ _ _ _ _ NX SN) as PS. rewrite TX in PS. rewrite TD in PR.
                destruct (Z.eq_dec tx 0) as [->|T0].
                { assert (prodl nu' = 0). { clear - SN. revert i nu' SN. induction nu as [|z nu IH]; intros [|i] nu' E; cbn [set_nth] in E; try discriminate; [injection E as <-; reflexivity|]. destruct (set_nth nu i 0) eqn:Q; [|discriminate]. injection E as <-. cbn [prodl]. rewrite (IH _ _ Q). ring. }
                  assert (prodl nu0 = 0). { assert (x = 0) by lia. subst x. assert (prodl nu = 0). { clear - NX H0. revert i NX. rewrite H0. induction nu as [|z nu IH]; intros [|i] E; try discriminate E; [injection E as ->; reflexivity|]. cbn [prodl]. rewrite (IH _ E). ring. } rewrite H1 in PR. nia. }
                  rewrite H, H0. ring. }
                apply (Z.mul_reg_r _ _ (tx * k)); [nia|]. replace (prodl nu' * d0 * (tx * k)) with (prodl nu' * (tx * k) * d0) by ring. rewrite <- PS. replace (prodl nu * tx * d0) with (prodl nu * d0 * tx) by ring. rewrite PR. ring.
             ++ intros j y J NY. pose proof (set_nth_get _ _ _ _ j SN) as GG. destruct (Nat.eqb_spec i j); [lia|]. rewrite GG in NY. eapply gcd_shrink; [apply Z.divide_refl| |apply (CO j y J NY)]. exists k. lia.
          -- eexists. split; [reflexivity|]. cbv beta iota. split; [|lia]. split; [exact S0|]. split; [exact D|]. split; [exact DD|]. split; [exact PR|]. split; [lia|]. intros j y J NY. destruct (Nat.eq_dec j i) as [->|]; [|apply (CO j); [lia|exact NY]].
             rewrite NX in NY. injection NY as <-. assert (k <> 0); [|lia]. intros K0. apply Z.gcd_eq_0_r in K0. lia.
        * eexists. split; [reflexivity|]. cbv beta iota. repeat split; auto. apply Forall_forall. intros x X. apply In_nth_error in X as (j & X). apply (CO j); [|exact X]. assert (j < length nu)%nat by (apply nth_error_Some; congruence). lia.
      + eexists. split; [reflexivity|]. cbv beta iota. repeat split; auto. apply Forall_forall. intros x _. assert (d = 1) by lia. subst d. apply Z.gcd_1_r.
    - intros ((nu & d) & i) (_ & D & _ & _ & I0 & _). lia.
    - split; [|split; [exact D0|split; [apply Z.divide_refl|split; [reflexivity|split; [lia|intros; lia]]]]]. clear - F. induction F; constructor; auto. split; [assumption|apply Z.divide_refl].
    - lia.
    - exists nu, d. split; [exact E|exact R].
  Qed.
  Lemma shrunk_trans a b c : shrunk a b -> shrunk b c -> shrunk a c.
  Proof. intros H. revert c. induction H as [|x y a b (X & D) H IH]; intros c C; inversion C as [|? z ? c' (Y & E) C' E1 E2]; subst; constructor; [split; [exact X|eapply Z.divide_trans; eauto]|now apply IH]. Qed.
  Lemma shrunk_nonneg a b : shrunk a b -> Forall (fun x => 0 <= x) a.
  Proof. induction 1 as [|x y a b (X & D) H IH]; constructor; auto. Qed.
  Lemma shrunk_coprime a b d : shrunk a b -> Forall (fun x => Z.gcd x d = 1) b -> Forall (fun x => Z.gcd x d = 1) a.
  Proof. induction 1 as [|x y a b (X & D) H IH]; intros F; constructor; apply Forall_cons_iff in F as [F1 F2]; [eapply gcd_shrink; [exact D|apply Z.divide_refl|exact F1]|auto]. Qed.
  Lemma fraction_reduce_ok nu de : Forall (fun x => 0 <= x) nu -> Forall (fun d => 1 <= d) de -> exists nu' de', fraction_reduce g nu de = Some (nu', de') /\
    shrunk nu' nu /\ Forall2 (fun d' d => 1 <= d' /\ (d' | d)) de' de /\ prodl nu' * prodl de = prodl nu * prodl de' /\ Forall (fun d => Forall (fun x => Z.gcd x d = 1) nu') de'.
  Proof.
    intros F G. revert nu F. induction G as [|d de D G IH]; intros nu F; cbn [fraction_reduce].
    - exists nu, []. split; [reflexivity|]. split; [clear - F; induction F; constructor; auto; split; [assumption|apply Z.divide_refl]|]. split; [constructor|]. split; [reflexivity|constructor].
    - destruct (reduce_loop nu d F D) as (nu1 & d1 & -> & S1 & D1 & DD & PR & CO). cbn [obind]. destruct (IH nu1 (shrunk_nonneg _ _ S1)) as (nu2 & de2 & -> & S2 & F2 & PR2 & CO2). cbn [obind].
      exists nu2, (d1 :: de2). split; [reflexivity|]. split; [eapply shrunk_trans; eauto|]. split; [constructor; auto|]. split; [|constructor; [eapply shrunk_coprime; eauto|exact CO2]].
      cbn [prodl]. replace (prodl nu2 * (d * prodl de)) with (prodl nu2 * prodl de * d) by ring. rewrite PR2. replace (prodl nu1 * prodl de2 * d) with (prodl nu1 * d * prodl de2) by ring. rewrite PR. ring.
  Qed.
  Lemma coprime_prodl d l : Forall (fun x => Z.gcd x d = 1) l -> Z.gcd (prodl l) d = 1.
  Proof.
    induction 1 as [|x l X F IH]; cbn [prodl]; [apply Z.gcd_1_l|]. apply Zgcd_1_rel_prime. apply rel_prime_sym, rel_prime_mult; apply rel_prime_sym, Zgcd_1_rel_prime; assumption.
  Qed.
  Lemma fraction_reduce_int nu de nu' de' : Forall (fun x => 1 <= x) nu -> Forall (fun d => 1 <= d) de -> (prodl de | prodl nu) -> fraction_reduce g nu de = Some (nu', de') -> Forall (fun d => d = 1) de' /\ prodl nu' * prodl de = prodl nu.
  Proof.
    intros F G D E. destruct (fraction_reduce_ok nu de) as (nu2 & de2 & E2 & S2 & F2 & PR & CO); [apply Forall_forall; intros x X; rewrite Forall_forall in F; specialize (F x X); lia|exact G|]. rewrite E in E2. injection E2 as <- <-.
    assert (POS : 1 <= prodl de). { clear - G. induction G as [|d de D G IH]; cbn [prodl]; [lia|nia]. }
    assert (DD : (prodl de' | prodl nu')). { destruct D as [t T]. exists t. apply (Z.mul_reg_r _ _ (prodl de)); [lia|]. rewrite PR, T. ring. }
    assert (ALL : Forall (fun d => d = 1) de').
    { apply Forall_forall. intros d I0. rewrite Forall_forall in CO. specialize (CO d I0). apply coprime_prodl in CO. assert (DN : (d | prodl nu')). { eapply Z.divide_trans; [|exact DD]. clear - I0. induction de' as [|z l IH]; [destruct I0|]. cbn [prodl]. destruct I0 as [->|I0]; [apply Z.divide_mul_l, Z.divide_refl|apply Z.divide_mul_r, IH, I0]. }
      assert (D1 : 1 <= d). { clear - F2 I0. induction F2 as [|a b de' de (A & _) F2 IH]; [destruct I0|]. destruct I0 as [->|I0]; [exact A|auto]. }
      apply Z.divide_gcd_iff in DN; [|lia]. rewrite Z.gcd_comm in DN. lia. }
    split; [exact ALL|]. rewrite PR. replace (prodl de') with 1; [ring|]. clear - ALL. induction ALL as [|d l -> ALL IH]; cbn [prodl]; lia.
  Qed.
End Reduce.
Lemma strip_zero_step p e : p <> 0 -> strip_step p (0, e) = Some (inl (0, e + 1)).
Proof. intros P. cbn [strip_step]. unfold cmod, cdiv. destruct (Z.eqb_spec p 0); [lia|]. cbn [obind]. rewrite Z.rem_0_l, Z.quot_0_l by lia. reflexivity. Qed.
Lemma strip_zero_runs p : p <> 0 -> forall fuel e, loopZ fuel (strip_step p) (0, e) = None.
Proof.
  intros P. assert (G : forall k e, exists e', iterP k (strip_step p) (0, e) = Some (inl (0, e'))).
  { induction k as [k IH|k IH|]; intros e; cbn [iterP].
    - rewrite strip_zero_step by exact P. destruct (IH (e + 1)) as (e1 & ->). apply IH.
    - destruct (IH e) as (e1 & ->). apply IH.
    - rewrite strip_zero_step by exact P. eauto. }
  intros [|k|k] e; try reflexivity. unfold loopZ. destruct (G k e) as (e' & ->). reflexivity.
Qed.
