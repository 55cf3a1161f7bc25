(** factorial_mod_pp_reduced_2 and binomial_mod_pp_reduced_2. *)
From Coq Require Import Znumtheory Zpow_facts Permutation Setoid Morphisms.
From Verif Require Import Lib BaseModel BaseProofs ModuloModel ModuloProofs FactorModel FactorProps CombSpec CmppModel CmppProofs CmppProofs2.
Open Scope Z_scope.

(** the entries 0 .. N of the table are the skipping factorials modulo p^e *)
Definition good_table (p e : Z) (N : nat) (tbl : list Z) : Prop := forall i, (i <= N)%nat -> exists t, nth_error tbl i = Some t /\ 0 <= t /\ cong (p ^ e) t (sk p i).
Lemma cong_lower p e E a b : 2 <= p -> 0 <= e <= E -> cong (p ^ E) a b -> cong (p ^ e) a b.
Proof.
  intros P H C. apply cong_divide in C; [|apply pe_pos; lia]. apply cong_divide; [apply pe_pos; lia|]. eapply Z.divide_trans; [|exact C]. replace E with (e + (E - e)) by lia. rewrite Z.pow_add_r by lia. apply Z.divide_factor_l.
Qed.
Lemma made_table p e E N tbl : 2 <= p -> 0 <= e <= E -> factorials_mod_pp_skipped N p E = Some tbl -> good_table p e N tbl.
Proof.
  intros P H T i I. destruct (table_run p P N E ltac:(lia)) as (tbl' & T' & _ & K). rewrite T in T'. injection T' as <-. exists (sk p i mod p ^ E). split; [now apply K|]. pose proof (pe_pos p P E ltac:(lia)). split; [apply Z.mod_pos_bound; lia|]. apply (cong_lower p e E); [exact P|exact H|]. apply cong_mod. lia.
Qed.
Lemma mneg_ok f m : 1 <= m -> 0 <= f < m -> 0 <= mneg f m < m /\ cong m (mneg f m) (- f).
Proof.
  intros M F. unfold mneg. destruct (Z.eqb_spec f 0) as [->|]; [split; [lia|reflexivity]|]. split; [lia|]. apply cong_divide; [exact M|]. exists 1. ring.
Qed.
Section Red.
Variable p : Z.
Hypothesis PP : prime p.
Variable e : Z.
Hypothesis E1 : 1 <= e.
Let m := p ^ e.
Let P2 : 2 <= p := prime_ge_2 p PP.
Lemma wil_pow q : 0 <= q -> wil p e ^ q = if negb ((p =? 2) && negb (e =? 2)) && negb (q mod 2 =? 0) then -1 else 1.
Proof.
  intros Q. unfold wil. destruct ((p =? 2) && negb (e =? 2)); cbn [negb andb]; [now rewrite Z.pow_1_l|]. pose proof (Z.div_mod q 2 ltac:(lia)) as D. pose proof (Z.mod_pos_bound q 2 ltac:(lia)). assert (0 <= q / 2) by (apply Z.div_pos; lia). rewrite D at 1. rewrite Z.pow_add_r, Z.pow_mul_r by lia. change ((-1) ^ 2) with 1. rewrite Z.pow_1_l by assumption. destruct (Z.eqb_spec (q mod 2) 0) as [->|]; [reflexivity|]. replace (q mod 2) with 1 by lia. reflexivity.
Qed.
Lemma sk_modulo n : 0 <= n -> cong m (sk p (Z.to_nat n)) (wil p e ^ (n / m) * sk p (Z.to_nat (n mod m))).
Proof.
  intros N. pose proof (m_pos p PP e E1) as M. fold m in M. pose proof (Z.div_mod n m ltac:(lia)) as D. pose proof (Z.mod_pos_bound n m ltac:(lia)) as B. assert (Q : 0 <= n / m) by (apply Z.div_pos; lia). pose proof (sk_period p PP e E1 (Z.to_nat (n / m)) (Z.to_nat (n mod m))) as K. fold m in K. rewrite Z2Nat.id in K by exact Q. rewrite <- K. replace (Z.to_nat m * Z.to_nat (n / m) + Z.to_nat (n mod m))%nat with (Z.to_nat n); [reflexivity|]. rewrite <- Z2Nat.inj_mul, <- Z2Nat.inj_add by nia. f_equal. exact D.
Qed.
Lemma reduced_2_run tbl N n : (m - 1 <= Z.of_nat N) -> good_table p e N tbl -> 0 <= n -> exists a mm, factorial_mod_pp_reduced_2 n p e tbl = Some (mm mod m, a) /\ 0 <= a /\ zfact n = p ^ a * mm /\ ~ (p | mm).
Proof.
  intros HN T N0. pose proof (m_pos p PP e E1) as M. fold m in M. pose proof (m_ge_p p PP e E1) as MP. fold m in MP. unfold factorial_mod_pp_reduced_2. rewrite pow_run by lia. cbn [obind]. destruct (T 0%nat) as (t0 & -> & T0 & C0); [lia|]. cbn [obind]. fold m. rewrite mod_normalize_u_spec by lia. cbn [obind].
  destruct (loopZ_spec (reduced_2_step p m (negb ((p =? 2) && negb (e =? 2))) tbl) (fun '(n', f, a) => 0 <= n' /\ 0 <= a /\ 0 <= f < m /\ exists mm, cong m f mm /\ ~ (p | mm) /\ zfact n = zfact n' * p ^ a * mm)
    (fun '(f, a) => 0 <= a /\ exists mm, f = mm mod m /\ zfact n = p ^ a * mm /\ ~ (p | mm)) (fun '(n', _, _) => n')) with (fuel := Z.abs n + 1) (s := (n, t0 mod m, 0)) as ((f & a) & EL & A & mm & -> & Z1 & Z2).
  - intros ((n' & f) & a) (N' & A & F & mm & CF & DM & ZF). cbn [reduced_2_step]. destruct (Z.ltb_spec 1 n') as [L|L].
    + rewrite !cdiv_run, !cmod_run by (try lia; apply Z.div_pos; lia). cbn [obind]. rewrite cmod_run by (try lia; apply Z.div_pos; lia). cbn [obind]. pose proof (Z.mod_pos_bound n' m ltac:(lia)) as RB. destruct (T (Z.to_nat (n' mod m))) as (t & -> & TT & CT); [lia|]. cbn [obind]. assert (Q : 0 <= n' / m) by (apply Z.div_pos; lia). set (b := negb ((p =? 2) && negb (e =? 2)) && negb ((n' / m) mod 2 =? 0)). set (f' := if b then mneg f m else f).
      assert (F' : 0 <= f' < m /\ cong m f' (wil p e ^ (n' / m) * f)). { unfold f'. rewrite wil_pow by exact Q. fold b. destruct (mneg_ok f m M F) as (B1 & B2). destruct b; [split; [exact B1|rewrite B2; replace (-1 * f) with (- f) by ring; reflexivity]|split; [exact F|rewrite Z.mul_1_l; reflexivity]]. } destruct F' as (FB & FC).
      rewrite mul_run by lia. cbn [obind]. eexists. split; [reflexivity|]. cbv beta iota. assert (D0 : 0 <= n' / p) by (apply Z.div_pos; lia). assert (DL : n' / p < n') by (apply Z.div_lt; lia). split; [|lia]. split; [exact D0|]. split; [lia|]. split; [apply Z.mod_pos_bound; lia|].
      exists (sk p (Z.to_nat n') * mm). split; [|split].
      * rewrite cong_mod by lia. rewrite FC, CT, CF. fold m. rewrite (sk_modulo n' N'). replace (wil p e ^ (n' / m) * mm * sk p (Z.to_nat (n' mod m))) with (wil p e ^ (n' / m) * sk p (Z.to_nat (n' mod m)) * mm) by ring. reflexivity.
      * apply not_div_mul; [exact PP|now apply sk_free|exact DM].
      * pose proof (sk_fact p P2 (Z.to_nat n')) as SF. rewrite Z2Nat.id in SF by lia. rewrite ZF, SF. rewrite (Z.add_comm a), Z.pow_add_r by lia. ring.
    + eexists. split; [reflexivity|]. split; [exact A|]. exists mm. split; [now apply cong_eq|]. split; [|exact DM]. rewrite ZF. assert (n' = 0 \/ n' = 1) as [->| ->] by lia; [change (zfact 0) with 1|change (zfact 1) with 1]; ring.
  - intros ((n' & f) & a) (N' & _). exact N'.
  - cbv beta iota. split; [lia|]. split; [lia|]. split; [apply Z.mod_pos_bound; lia|]. exists 1. split; [rewrite cong_mod by lia; exact C0|]. split; [now apply unit_1|]. rewrite Z.pow_0_r. ring.
  - lia.
  - exists a, mm. auto.
Qed.
(** the last step: the quotient of two reduced numbers *)
Lemma binomial_end n k b fr fs mn md a1 a2 : 0 <= k <= n -> b * (zfact k * zfact (n - k)) = zfact n -> 0 <= a1 -> 0 <= a2 -> zfact n = p ^ a1 * mn -> zfact k * zfact (n - k) = p ^ a2 * md -> ~ (p | mn) -> ~ (p | md) -> fr = mn mod m -> fs = md mod m ->
  exists z, modulo_div fr fs m = Some z /\ 0 <= a1 - a2 /\ exists mm, z = mm mod m /\ b = p ^ (a1 - a2) * mm /\ ~ (p | mm).
Proof.
  intros K HB A1 A2 H1 H2 D1 D2 -> ->. pose proof (m_pos p PP e E1) as M. fold m in M.
  assert (B0 : 0 < b). { pose proof (zfact_pos n). pose proof (zfact_pos k). pose proof (zfact_pos (n - k)). nia. }
  assert (MN : 0 < mn). { pose proof (zfact_pos n). pose proof (Z.pow_pos_nonneg p a1 ltac:(lia) A1). nia. } assert (MD : 0 < md). { pose proof (zfact_pos k). pose proof (zfact_pos (n - k)). pose proof (Z.pow_pos_nonneg p a2 ltac:(lia) A2). nia. }
  destruct (div_unit p P2 PP mn md e ltac:(lia)) as (z & Ez & Bz & Cz); [lia|lia|exact D2|]. exists z. split; [exact Ez|].
  destruct (quotient_split p P2 PP b _ _ a1 mn a2 md B0 HB A1 A2 H1 H2 D1 D2) as (A0 & mm & EB & DM & EM). split; [exact A0|]. exists mm. split; [|auto]. apply (quotient_unique p P2 PP e z mm mn md); auto; lia.
Qed.
Lemma binomial_2_run tbl N n k b : (m - 1 <= Z.of_nat N) -> good_table p e N tbl -> 0 <= k <= n -> b * (zfact k * zfact (n - k)) = zfact n ->
  exists a mm, binomial_mod_pp_reduced_2 n k p e tbl = Some (mm mod m, a) /\ 0 <= a /\ b = p ^ a * mm /\ ~ (p | mm).
Proof.
  intros HN T K HB. pose proof (m_pos p PP e E1) as M. fold m in M. unfold binomial_mod_pp_reduced_2. rewrite pow_run by lia. cbn [obind]. fold m.
  destruct (reduced_2_run tbl N n HN T ltac:(lia)) as (an & mn & -> & AN & ZN & DN). cbn [obind]. destruct (reduced_2_run tbl N k HN T ltac:(lia)) as (ak & mk & -> & AK & ZK & DK). cbn [obind]. destruct (reduced_2_run tbl N (n - k) HN T ltac:(lia)) as (al & ml & -> & AL & ZL & DL). cbn [obind].
  pose proof (Z.mod_pos_bound mk m ltac:(lia)). pose proof (Z.mod_pos_bound ml m ltac:(lia)). rewrite mul_run by lia. cbn [obind]. rewrite <- Z.mul_mod by lia.
  destruct (binomial_end n k b (mn mod m) ((mk * ml) mod m) mn (mk * ml) an (ak + al) K HB AN ltac:(lia) ZN) as (z & -> & A0 & mm & -> & EB & DM); [rewrite ZK, ZL, Z.pow_add_r by lia; ring|exact DN|now apply not_div_mul|reflexivity|reflexivity|]. cbn [obind]. exists (an - (ak + al)), mm. auto.
Qed.
End Red.
