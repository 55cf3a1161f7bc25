(** factorial_mod_pp_skipped: the coefficients and the product. *)
From Coq Require Import Znumtheory Zpow_facts Permutation Setoid Morphisms.
From Verif Require Import Lib BaseModel BaseProofs ModuloModel ModuloProofs ModPowProofs FactorModel FactorSpec FactorProofs3 FactorProps CombSpec CmppModel CmppProofs CmppProofs2 CmppProofs3 CmppProofs4 CmppProofs5.
Open Scope Z_scope.

Lemma iterP_ext {A B} (f f' : A -> option (A + B)) (I : A -> Prop) : (forall s, I s -> f s = f' s /\ forall s', f' s = Some (inl s') -> I s') -> forall k s, I s -> iterP k f s = iterP k f' s /\ forall s', iterP k f' s = Some (inl s') -> I s'.
Proof.
  intros H. induction k as [k IH|k IH|]; intros s Is; cbn [iterP]; [| |now apply H].
  - destruct (H s Is) as (-> & H1). destruct (f' s) as [[s1|r]|]; [|split; [reflexivity|discriminate]|split; [reflexivity|discriminate]]. specialize (H1 s1 eq_refl). destruct (IH s1 H1) as (-> & H2). destruct (iterP k f' s1) as [[s2|r]|]; [|split; [reflexivity|discriminate]|split; [reflexivity|discriminate]]. now apply IH, H2.
  - destruct (IH s Is) as (-> & H1). destruct (iterP k f' s) as [[s1|r]|]; [|split; [reflexivity|discriminate]|split; [reflexivity|discriminate]]. now apply IH, H1.
Qed.
Lemma loopZ_ext {A B} (f f' : A -> option (A + B)) (I : A -> Prop) fuel s : (forall s, I s -> f s = f' s /\ forall s', f' s = Some (inl s') -> I s') -> I s -> loopZ fuel f s = loopZ fuel f' s.
Proof. intros H Is. destruct fuel as [|k|k]; [reflexivity| |reflexivity]. unfold loopZ. now rewrite (proj1 (iterP_ext f f' I H k s Is)). Qed.
Definition zgcd_o (x d : Z) : option Z := Some (Z.gcd x d).
Lemma gcd_f_run e x d : 0 <= x -> 1 <= d <= e -> gcd_f e x d = zgcd_o x d.
Proof.
  intros X D. unfold gcd_f. rewrite cmod_run by lia. cbn [obind]. pose proof (Z.mod_pos_bound x d ltac:(lia)). rewrite (proj2 (Z.leb_le 0 (x mod d))), (proj2 (Z.leb_le (x mod d) e)), (proj2 (Z.leb_le 0 d)), (proj2 (Z.leb_le d e)) by lia. cbn [andb guard obind]. rewrite gcd_nonneg by lia. rewrite Z.gcd_mod, Z.gcd_comm by lia. reflexivity.
Qed.
Lemma set_nth_forall {A} (Q : A -> Prop) l i x l' : Forall Q l -> Q x -> set_nth l i x = Some l' -> Forall Q l'.
Proof.
  intros F. revert i l'. induction F as [|y l Y F IH]; intros [|i] l' QX E; cbn [set_nth] in E; try discriminate; [injection E as <-; now constructor|]. destruct (set_nth l i x) eqn:S0; [|discriminate]. injection E as <-. constructor; [exact Y|eapply IH; eauto].
Qed.
Lemma reduce_step_ext e s : (let '(nu, d, i) := s in Forall (fun x => 0 <= x) nu /\ 1 <= d <= e) -> reduce_step (gcd_f e) s = reduce_step zgcd_o s /\ forall s', reduce_step zgcd_o s = Some (inl s') -> (let '(nu, d, i) := s' in Forall (fun x => 0 <= x) nu /\ 1 <= d <= e).
Proof.
  destruct s as ((nu & d) & i). intros (F & D). unfold reduce_step. destruct ((1 <? d) && (i <? length nu)%nat); [|split; [reflexivity|discriminate]]. destruct (nth_error nu i) as [x|] eqn:NX; cbn [obind]; [|split; [reflexivity|discriminate]]. assert (X : 0 <= x) by (rewrite Forall_forall in F; apply F; eapply nth_error_In; eauto). rewrite gcd_f_run by (auto; lia). split; [reflexivity|]. cbn [zgcd_o obind]. pose proof (Z.gcd_divide_l x d) as GX. pose proof (Z.gcd_divide_r x d) as GD.
  destruct (Z.ltb_spec 1 (Z.gcd x d)) as [G|G]; [|intros s' E; injection E as <-; auto]. rewrite !cdiv_run by lia. cbn [obind]. destruct (set_nth nu i (x / Z.gcd x d)) as [nu'|] eqn:SN; cbn [obind]; [|discriminate]. intros s' E. injection E as <-. split; [eapply set_nth_forall; [exact F| |exact SN]; apply Z.div_pos; lia|].
  destruct GD as (q & Q). rewrite Q at 1 3. rewrite Z.div_mul by lia. nia.
Qed.
Lemma fraction_reduce_ext e : forall de nu, Forall (fun x => 0 <= x) nu -> Forall (fun d => 1 <= d <= e) de -> fraction_reduce (gcd_f e) nu de = fraction_reduce zgcd_o nu de.
Proof.
  induction de as [|d de IH]; intros nu F G; cbn [fraction_reduce]; [reflexivity|]. apply Forall_cons_iff in G as (D & G).
  rewrite (loopZ_ext (reduce_step (gcd_f e)) (reduce_step zgcd_o) (fun '(nu, d, i) => Forall (fun x => 0 <= x) nu /\ 1 <= d <= e)); [|intros ((nu1 & d1) & i1) HH; exact (reduce_step_ext e (nu1, d1, i1) HH)|auto].
  destruct (reduce_loop zgcd_o ltac:(reflexivity) nu d F ltac:(lia)) as (nu1 & d1 & -> & S1 & _). cbn [obind]. rewrite IH; [reflexivity|eapply shrunk_nonneg; eauto|exact G].
Qed.
Lemma prodl_zprodl l : prodl l = zprodl l. Proof. induction l as [|x l IH]; [reflexivity|]. cbn [prodl zprodl]. now rewrite IH. Qed.
Lemma fold_run me : 1 <= me -> forall nu c, 0 <= c < me -> Forall (fun x => 0 <= x) nu -> exists c', fold_left (fun c x => let* c := c in let* t := cmod x me in modulo_mul c t me) nu (Some c) = Some c' /\ 0 <= c' < me /\ cong me c' (c * zprodl nu).
Proof.
  intros M. induction nu as [|x nu IH]; intros c C F; cbn [fold_left]; [exists c; split; [reflexivity|]; split; [exact C|]; cbn [zprodl]; rewrite Z.mul_1_r; reflexivity|]. apply Forall_cons_iff in F as (X & F). cbn [obind]. rewrite cmod_run by lia. cbn [obind]. pose proof (Z.mod_pos_bound x me ltac:(lia)). rewrite mul_run by lia.
  destruct (IH ((c * (x mod me)) mod me)) as (c' & E & B & CC); [apply Z.mod_pos_bound; lia|exact F|]. exists c'. split; [exact E|]. split; [exact B|]. rewrite CC. cbn [zprodl]. rewrite !cong_mod by lia. rewrite Z.mul_assoc. reflexivity.
Qed.
Lemma coefficient_run e me sg nu de q : 1 <= me -> Forall (fun x => 1 <= x) nu -> Forall (fun d => 1 <= d <= e) de -> zprodl nu = q * zprodl de -> coefficient e me sg nu de = Some (((if sg then -1 else 1) * q) mod me).
Proof.
  intros M F G Q. unfold coefficient. rewrite mod_normalize_u_spec by lia. cbn [obind]. pose proof (Z.mod_pos_bound 1 me ltac:(lia)) as B1. set (c := if sg then mneg (1 mod me) me else 1 mod me). assert (CB : 0 <= c < me /\ cong me c (if sg then -1 else 1)). { unfold c. destruct (mneg_ok (1 mod me) me M B1) as (N1 & N2). destruct sg; [split; [exact N1|rewrite N2, cong_mod by lia; reflexivity]|split; [exact B1|apply cong_mod; lia]]. } destruct CB as (CB & CC).
  assert (F0 : Forall (fun x => 0 <= x) nu) by (eapply Forall_impl; [|exact F]; cbn; intros; lia). assert (G0 : Forall (fun d => 1 <= d) de) by (eapply Forall_impl; [|exact G]; cbn; intros; lia). rewrite (fraction_reduce_ext e de nu F0 G).
  destruct (fraction_reduce_ok zgcd_o ltac:(reflexivity) nu de F0 G0) as (nu' & de' & E & S0 & _). rewrite E. cbn [obind]. destruct (fraction_reduce_int zgcd_o ltac:(reflexivity) nu de nu' de' F G0) as (_ & PR); [rewrite (prodl_zprodl de), (prodl_zprodl nu), Q; apply Z.divide_factor_r|exact E|]. rewrite (prodl_zprodl nu'), (prodl_zprodl de), (prodl_zprodl nu), Q in PR.
  assert (POS : 1 <= zprodl de). { clear - G0. induction G0 as [|d de D G0 IH]; cbn [zprodl]; [lia|nia]. } assert (EQ : zprodl nu' = q) by (apply (Z.mul_cancel_r _ _ (zprodl de)); [lia|exact PR]).
  destruct (fold_run me M nu' c CB (shrunk_nonneg _ _ S0)) as (c' & Ec & Bc & Cc). rewrite Ec. f_equal. apply cong_eq; [|exact Bc]. rewrite Cc, EQ, CC. reflexivity.
Qed.
Lemma lp_one c u : lp [c] u = u - c. Proof. unfold lp. cbn [map zprodl]. ring. Qed.
Lemma sgn_xorb a b : (if xorb a b then -1 else 1) = (if a then -1 else 1) * (if b then -1 else 1). Proof. destruct a, b; reflexivity. Qed.
Lemma alpha_run u e me j : 1 <= e -> 1 <= me -> (j < Z.to_nat e)%nat -> e <= u -> alpha u e me j = Some (acoef (Z.to_nat e) j u mod me).
Proof.
  intros E M J U. unfold alpha. set (k := Z.to_nat e) in *.
  match goal with |- context [for_range 0 k ?body ?st] => destruct (for_range_spec (fun i '(sg, nu, de) => nu = map (fun c => u - c) (acs j i) /\ Forall (fun d => 1 <= d <= e) de /\ lp (acs j i) (Z.of_nat j) = (if sg : bool then -1 else 1) * zprodl de) body 0%nat k st) as (((sg & nu) & de) & Er & N & F & L) end; [lia|split; [reflexivity|split; [constructor|reflexivity]]| |].
  - intros i ((sg & nu) & de) I (-> & F & L). cbn [alpha_step]. rewrite acs_S. destruct (Nat.eqb_spec i j) as [->|NE].
    + eexists. split; [reflexivity|]. cbv beta iota. rewrite app_nil_r. auto.
    + eexists. split; [reflexivity|]. cbv beta iota. split; [now rewrite map_app|]. split; [apply Forall_app; split; [exact F|constructor; [unfold k in *; lia|constructor]]|]. rewrite lp_app, lp_one, L, zprodl_app, sgn_xorb. cbn [zprodl]. destruct (Nat.ltb_spec j i); [replace (Z.of_nat j - Z.of_nat i) with (- Z.abs (Z.of_nat j - Z.of_nat i)) at 1 by lia|replace (Z.of_nat j - Z.of_nat i) with (Z.abs (Z.of_nat j - Z.of_nat i)) at 1 by lia]; ring.
  - rewrite Er. cbn [obind]. rewrite (coefficient_run e me sg nu de ((if sg then -1 else 1) * acoef k j u) M); [do 2 f_equal; destruct sg; ring| |exact F|].
    + rewrite N. apply Forall_forall. intros x X. apply in_map_iff in X as (c & <- & C). apply in_acs in C. unfold k in *. lia.
    + rewrite N. fold (lp (acs j k) u). rewrite (acoef_exact k j u J ltac:(lia)), L. ring.
Qed.
Lemma beta_run u e me r j : 1 <= e -> 1 <= me -> (1 <= j <= r)%nat -> 2 * Z.of_nat r <= e + 1 -> e <= u -> beta u e me r j = Some (bcoef r j u mod me).
Proof.
  intros E M J R U. unfold beta.
  match goal with |- context [for_range 0 (S r) ?body ?st] => destruct (for_range_spec (fun i '(sg, nu, de) => nu = map (fun c => u - c) (bcs j i) /\ Forall (fun d => 1 <= d <= e) de /\ lp (bcs j i) (Z.of_nat j) = (if sg : bool then -1 else 1) * zprodl de) body 0%nat (S r) st) as (((sg & nu) & de) & Er & N & F & L) end; [lia|split; [reflexivity|split; [constructor|reflexivity]]| |].
  - intros i ((sg & nu) & de) I (-> & F & L). cbn [beta_step]. rewrite bcs_S. unfold bnode. destruct (Nat.eqb_spec i j) as [->|NE].
    + eexists. split; [reflexivity|]. cbv beta iota. rewrite app_nil_r. auto.
    + destruct (Nat.eqb_spec i 0) as [->|NZ].
      * eexists. split; [reflexivity|]. cbv beta iota. split; [now rewrite map_app|]. split; [apply Forall_app; split; [exact F|constructor; [lia|constructor]]|]. rewrite lp_app, lp_one, L, zprodl_app, sgn_xorb. cbn [zprodl]. destruct (Nat.ltb_spec j 0); [lia|]. change (Z.of_nat 0) with 0. rewrite Z.sub_0_r, Z.abs_eq by lia. ring.
      * eexists. split; [reflexivity|]. cbv beta iota. split; [rewrite map_app; cbn [map]; rewrite <- app_assoc; cbn [app]; replace (u - - Z.of_nat i) with (u + Z.of_nat i) by ring; reflexivity|]. split; [apply Forall_app; split; [apply Forall_app; split; [exact F|constructor; [lia|constructor]]|constructor; [lia|constructor]]|].
        rewrite lp_app, L, !zprodl_app, sgn_xorb. unfold lp. cbn [map zprodl]. destruct (Nat.ltb_spec j i); [replace (Z.of_nat j - Z.of_nat i) with (- Z.abs (Z.of_nat j - Z.of_nat i)) at 1 by lia|replace (Z.of_nat j - Z.of_nat i) with (Z.abs (Z.of_nat j - Z.of_nat i)) at 1 by lia]; ring.
  - rewrite Er. cbn [obind]. rewrite (coefficient_run e me sg nu de ((if sg then -1 else 1) * bcoef r j u) M); [do 2 f_equal; destruct sg; ring| |exact F|].
    + rewrite N. apply Forall_forall. intros x X. apply in_map_iff in X as (c & <- & C). apply in_bcs in C; [|lia]. lia.
    + rewrite N. fold (lp (bcs j (S r)) u). rewrite (bcoef_exact r j u J ltac:(lia)), L. ring.
Qed.
Lemma mod_power_run x y m : 1 <= m -> 0 <= x -> 0 <= y -> exists w, mod_power x y m = Some w /\ 0 <= w < m /\ cong m w (x ^ y).
Proof.
  intros M X Y. unfold mod_power. rewrite !mod_normalize_u_spec by lia. cbn [obind].
  destruct (powT_rel (fun a b => match modulo_mul a b m with Some r => r | None => 0 end) (1 mod m) Z.mul 1 Z.mul_assoc Z.mul_1_l Z.mul_1_r (fun r t => 0 <= r < m /\ cong m r t)) with (x := x mod m) (x' := x) (y := y) as (w & E & B & C).
  - split; [apply Z.mod_pos_bound; lia|apply cong_mod; lia].
  - intros a a' b b' (A1 & A2) (B1 & B2). rewrite mul_run by lia. split; [apply Z.mod_pos_bound; lia|]. rewrite cong_mod by lia. now rewrite A2, B2.
  - split; [apply Z.mod_pos_bound; lia|apply cong_mod; lia].
  - exact Y.
  - exists w. split; [exact E|]. split; [exact B|]. rewrite C. rewrite ModPowProofs.npow_Z, Z2Nat.id by exact Y. reflexivity.
Qed.
Section Fast.
Variable p : Z.
Hypothesis PP : prime p.
Variable e : Z.
Hypothesis E1 : 1 <= e.
Let m := p ^ e.
Let pn := Z.to_nat p.
Let P2 : 2 <= p := prime_ge_2 p PP.
Notation "a == b" := (cong m a b) (at level 70).
Lemma sk_mod4 (u : nat) : sk 2 (2 * u) mod 4 = Z.lor (Z.of_nat u) 1 mod 4.
Proof.
  assert (LO : forall z, 0 <= z -> Z.lor z 1 = if z mod 2 =? 0 then z + 1 else z). { intros z Hz. pose proof (Z.div_mod z 2 ltac:(lia)) as D. pose proof (Z.mod_pos_bound z 2 ltac:(lia)) as B. apply Z.bits_inj'. intros n Hn. rewrite Z.lor_spec. destruct (Z.eq_dec n 0) as [->|N0].
    - change (Z.testbit 1 0) with true. rewrite orb_true_r. symmetry. destruct (Z.eqb_spec (z mod 2) 0); rewrite Z.bit0_odd; [replace (z + 1) with (1 + 2 * (z / 2)) by lia|replace z with (1 + 2 * (z / 2)) by lia]; rewrite Z.odd_add_mul_2; reflexivity.
    - replace n with (Z.succ (n - 1)) by lia. rewrite <- (Z.div2_bits 1), <- (Z.div2_bits z), <- (Z.div2_bits (if z mod 2 =? 0 then z + 1 else z)) by lia. change (1 / 2) with 0. rewrite Z.bits_0, orb_false_r. destruct (Z.eqb_spec (z mod 2) 0); [|reflexivity]. apply (f_equal (fun t => Z.testbit t (n - 1))). apply (Z.div_unique_pos _ _ _ 1); lia. }
  induction u as [u IH] using (well_founded_induction lt_wf). destruct u as [|[|u]]; [reflexivity|reflexivity|].
  assert (K : sk 2 (2 * S (S u)) = sk 2 (2 * u) * ((2 * Z.of_nat u + 1) * (2 * Z.of_nat u + 3))).
  { replace (2 * S (S u))%nat with (S (S (S (S (2 * u))))) by lia. assert (OD : forall a, a mod 2 = 1 -> forall n, Z.of_nat (S n) = a -> sk 2 (S n) = sk 2 n * a) by (intros a A n EN; cbn [sk]; rewrite EN, A; reflexivity). assert (EV : forall n k, Z.of_nat (S n) = k * 2 -> sk 2 (S n) = sk 2 n) by (intros n k EN; cbn [sk]; rewrite EN, Z.mod_mul by lia; reflexivity).
    rewrite (EV _ (Z.of_nat u + 2)) by lia. rewrite (OD (2 * Z.of_nat u + 3)); [|replace (2 * Z.of_nat u + 3) with (1 + (Z.of_nat u + 1) * 2) by ring; apply Z_mod_plus_full|lia]. rewrite (EV _ (Z.of_nat u + 1)) by lia. rewrite (OD (2 * Z.of_nat u + 1)); [|replace (2 * Z.of_nat u + 1) with (1 + Z.of_nat u * 2) by ring; apply Z_mod_plus_full|lia]. ring. }
  rewrite K. rewrite Z.mul_mod, IH by lia. rewrite <- Z.mul_mod by lia. rewrite !LO by lia. replace (Z.of_nat (S (S u)) mod 2) with (Z.of_nat u mod 2) by (replace (Z.of_nat (S (S u))) with (Z.of_nat u + 1 * 2) by lia; now rewrite Z_mod_plus_full).
  set (z := Z.of_nat u) in *. replace (Z.of_nat (S (S u))) with (z + 2) by (unfold z; lia). clearbody z. clear K IH.
  assert (EQ : forall y, y mod 2 = 1 -> (y * ((2 * z + 1) * (2 * z + 3))) mod 4 = (y + 2) mod 4). { intros y Hy. pose proof (Z.div_mod y 2 ltac:(lia)) as D. set (q := y / 2) in *. replace (y * ((2 * z + 1) * (2 * z + 3))) with (y + 2 + (y * (z * z + 2 * z) + q) * 4) by (rewrite D at 2 3; rewrite Hy in *; replace y with (2 * q + 1) by lia; ring). apply Z_mod_plus_full. }
  pose proof (Z.div_mod z 2 ltac:(lia)) as D. pose proof (Z.mod_pos_bound z 2 ltac:(lia)) as B. destruct (Z.eqb_spec (z mod 2) 0) as [Z0|Z0]; rewrite EQ.
  - f_equal. ring.
  - replace (z + 1) with (1 + (z / 2) * 2) by lia. apply Z_mod_plus_full.
  - reflexivity.
  - lia.
Qed.
Lemma phi_eq : m / p * (p - 1) = phi_pe p e.
Proof. unfold m, phi_pe. f_equal. replace e with (e - 1 + 1) at 1 by lia. rewrite Z.pow_add_r, Z.pow_1_r by lia. apply Z.div_mul. lia. Qed.
Theorem skipped_run tbl N n : p * e <= Z.of_nat N -> good_table p e N tbl -> 0 <= n -> factorial_mod_pp_skipped n p e tbl = Some (sk p (Z.to_nat n) mod m, n / p).
Proof.
  intros HN T N0. pose proof (m_pos p PP e E1) as M. fold m in M. unfold factorial_mod_pp_skipped. rewrite pow_run by lia. cbn [obind]. fold m. rewrite !cdiv_run, !cmod_run by lia. cbn [obind]. rewrite phi_eq. pose proof (phi_pos p PP e E1) as PH. set (me := phi_pe p e) in *. set (u := n / p). set (v := n mod p). pose proof (Z.div_mod n p ltac:(lia)) as D. fold u v in D. pose proof (Z.mod_pos_bound n p ltac:(lia)) as V. fold v in V. assert (U0 : 0 <= u) by (apply Z.div_pos; lia).
  destruct (Z.leb_spec n (p * e)) as [L|L].
  { destruct (T (Z.to_nat n)) as (t & -> & T0 & TC); [lia|]. cbn [obind]. rewrite cmod_run by lia. cbn [obind]. unfold cong in TC; fold m in TC; rewrite TC. reflexivity. }
  assert (UE : e <= u) by nia. set (r := Z.to_nat (Z.quot (e + 1) 2)). assert (RQ : Z.quot (e + 1) 2 = (e + 1) / 2) by (apply Z.quot_div_nonneg; lia). pose proof (Z.div_mod (e + 1) 2 ltac:(lia)) as DR. pose proof (Z.mod_pos_bound (e + 1) 2 ltac:(lia)) as BR. assert (R1 : 2 * Z.of_nat r <= e + 1) by (unfold r; lia). assert (R2 : e <= 2 * Z.of_nat r) by (unfold r; lia). clearbody r.
  rewrite mod_normalize_u_spec by lia. cbn [obind].
  match goal with |- context [for_range 1 (S r) ?body ?st] => destruct (for_range_spec (fun i f => 0 <= f < m /\ f == prodj p e (fun j => sk p (pn * j)) (bcoef r) (seq 1 (i - 1)) u) body 1%nat (S r) st) as (f & Ef & FB & FC) end; [lia|split; [apply Z.mod_pos_bound; lia|apply cong_mod; lia]| |].
  { intros j f J (FB & FC). rewrite (Nat.mul_comm j). fold pn. destruct (T (pn * j)%nat) as (t & -> & T0 & TC); [unfold pn; nia|]. cbn [obind]. rewrite beta_run by lia. cbn [obind]. destruct (mod_power_run t (bcoef r j u mod me) m M T0) as (w & -> & WB & WC); [apply Z.mod_pos_bound; lia|]. cbn [obind]. rewrite mul_run by lia. eexists. split; [reflexivity|]. split; [apply Z.mod_pos_bound; lia|]. rewrite cong_mod by lia. replace (S j - 1)%nat with (S (j - 1)) by lia. rewrite seq_S. unfold prodj. rewrite map_app, zprodl_app. cbn [map zprodl]. replace (1 + (j - 1))%nat with j by lia. rewrite FC, WC, Z.mul_1_r. unfold prodj. rewrite (cong_pow m t (sk p (pn * j))); [reflexivity|apply Z.mod_pos_bound; lia|exact TC]. }
  rewrite Ef. cbn [obind]. replace (S r - 1)%nat with r in FC by lia.
  pose proof (beta_formula p PP e E1 r u R2 U0) as BF. set (T0 := sk p (pn * Z.to_nat u)) in *. fold pn in BF. fold T0 in BF. set (X := prodj p e (fun j => sk p (pn * j)) (bcoef r) (seq 1 r) u) in *.
  set (f2 := if (p =? 2) && negb (Z.rem f 4 =? Z.rem (Z.lor u 1) 4) then mneg f m else f). assert (F2 : 0 <= f2 < m /\ f2 == T0).
  { destruct (mneg_ok f m M FB) as (NB & NC). unfold f2. destruct (Z.eqb_spec p 2) as [EP|NP]; cbn [andb].
    - assert (LB : 0 <= Z.lor u 1) by (apply Z.lor_nonneg; lia). rewrite !Z.rem_mod_nonneg by lia. assert (T4 : T0 mod 4 = Z.lor u 1 mod 4). { unfold T0, pn. rewrite EP. change (Z.to_nat 2) with 2%nat. rewrite sk_mod4. rewrite Z2Nat.id by exact U0. reflexivity. } rewrite <- T4.
      destruct (Z.eq_dec e 1) as [EE|EE].
      + assert (M2 : m = 2) by (unfold m; rewrite EP, EE; reflexivity). assert (UN : unit p T0) by (now apply sk_free). assert (SG : forall x, x == - x). { intros x. apply cong_divide; [exact M|]. rewrite M2. exists x. ring. } assert (FT : f == T0). { rewrite FC. destruct BF as [BF|(_ & BF)]; [now symmetry|]. rewrite (SG T0). rewrite BF. fold m. rewrite Z.opp_involutive. reflexivity. } destruct (negb (f mod 4 =? T0 mod 4)); [split; [exact NB|rewrite NC, <- SG; exact FT]|split; [exact FB|exact FT]].
      + assert (C4 : forall a b, a == b -> a mod 4 = b mod 4). { intros a b AB. replace 4 with (p ^ 2) by (rewrite EP; reflexivity). apply (cong_lower p 2 e); [lia|lia|exact AB]. } assert (TO : T0 mod 4 = 1 \/ T0 mod 4 = 3). { pose proof (Z.div_mod T0 4 ltac:(lia)) as D4. pose proof (Z.mod_pos_bound T0 4 ltac:(lia)). assert (UN : ~ (p | T0)) by (now apply sk_free). rewrite EP in UN. assert (T0 mod 4 <> 0) by (intros C; apply UN; exists (2 * (T0 / 4)); lia). assert (T0 mod 4 <> 2) by (intros C; apply UN; exists (2 * (T0 / 4) + 1); lia). lia. }
        destruct BF as [BF|(_ & BF)].
        * assert (FT : f == T0) by (rewrite FC; now symmetry). rewrite (C4 _ _ FT), Z.eqb_refl. cbn [negb]. auto.
        * assert (FT : f == - T0). { rewrite FC, BF. fold m. rewrite Z.opp_involutive. reflexivity. } assert (NE : f mod 4 <> T0 mod 4). { rewrite (C4 _ _ FT). pose proof (Z.div_mod T0 4 ltac:(lia)) as D4. destruct TO as [TO|TO]; rewrite TO in D4 |- *; replace (- T0) with ((4 - T0 mod 4) + (- (T0 / 4) - 1) * 4) by lia; rewrite Z_mod_plus_full, TO; cbv; discriminate. }
          apply Z.eqb_neq in NE. rewrite NE. cbn [negb]. split; [exact NB|]. rewrite NC, FT, Z.opp_involutive. reflexivity.
    - split; [exact FB|]. rewrite FC. destruct BF as [BF|(C & _)]; [now symmetry|]. unfold sg in C. apply Z.eqb_eq in C. contradiction. }
  destruct F2 as (F2B & F2C). clearbody f2. destruct (T (Z.to_nat v)) as (tv & -> & TV0 & TVC); [nia|]. cbn [obind]. rewrite mod_normalize_u_spec by lia. cbn [obind]. pose proof (Z.mod_pos_bound tv m ltac:(lia)) as TVB. rewrite mul_run by lia. cbn [obind]. set (vn := Z.to_nat v) in *. assert (VN : Z.of_nat vn < p) by lia.
  match goal with |- context [for_range 1 (Z.to_nat e) ?body ?st] => destruct (for_range_spec (fun i f => 0 <= f < m /\ f == T0 * sk p vn * prodj p e (fun j => Gf p e vn (Z.of_nat j)) (acoef (Z.to_nat e)) (seq 1 (i - 1)) u) body 1%nat (Z.to_nat e) st) as (f3 & Ef3 & FB3 & FC3) end; [lia| | |].
  { split; [apply Z.mod_pos_bound; lia|]. rewrite !cong_mod by lia. rewrite F2C. fold m in TVC. rewrite TVC. unfold prodj. cbn [seq Nat.sub map zprodl]. rewrite Z.mul_1_r. reflexivity. }
  { intros j f3 J (FB3 & FC3). rewrite (Nat.mul_comm j). fold pn. destruct (T (pn * j + vn)%nat) as (t1 & -> & T10 & T1C); [unfold pn, vn; nia|]. cbn [obind]. rewrite mod_normalize_u_spec by lia. cbn [obind]. destruct (T (pn * j)%nat) as (t2 & -> & T20 & T2C); [unfold pn, vn; nia|]. cbn [obind]. rewrite mod_normalize_u_spec by lia. cbn [obind]. pose proof (Z.mod_pos_bound t2 m ltac:(lia)) as T2B. rewrite mul_run by lia. cbn [obind]. rewrite <- Z.mul_mod by lia. fold m in T1C, T2C, TVC.
    assert (UD : ~ (p | t2 * tv)) by (apply not_div_mul; [exact PP|apply (unit_cong p PP e E1 (sk p (pn * j))); [now symmetry|now apply sk_free]|apply (unit_cong p PP e E1 (sk p vn)); [now symmetry|now apply sk_free]]).
    destruct (div_unit p P2 PP t1 (t2 * tv) e ltac:(lia) T10 ltac:(nia) UD) as (b & Eb & Bb & Cb). fold m in Eb, Bb, Cb. rewrite Eb. cbn [obind]. rewrite alpha_run by lia. cbn [obind].
    assert (BG : b == Gf p e vn (Z.of_nat j)). { apply (unit_cancel p PP e E1 _ _ (t2 * tv) UD). fold m. transitivity t1; [exact Cb|]. rewrite T2C, TVC, T1C. rewrite Z.mul_comm. symmetry. apply (Gf_sk p PP e E1 vn VN j). }
    destruct (mod_power_run b (acoef (Z.to_nat e) j u mod me) m M ltac:(lia)) as (w & -> & WB & WC); [apply Z.mod_pos_bound; lia|]. cbn [obind]. rewrite mul_run by lia. eexists. split; [reflexivity|]. split; [apply Z.mod_pos_bound; lia|]. rewrite cong_mod by lia. replace (S j - 1)%nat with (S (j - 1)) by lia. rewrite seq_S. unfold prodj. rewrite map_app, zprodl_app. cbn [map zprodl]. replace (1 + (j - 1))%nat with j by lia. rewrite FC3, WC, Z.mul_1_r. unfold prodj. rewrite (cong_pow m b (Gf p e vn (Z.of_nat j))); [rewrite !Z.mul_assoc; reflexivity|apply Z.mod_pos_bound; lia|exact BG]. }
  rewrite Ef3. cbn [obind]. do 2 f_equal. apply cong_eq; [|exact FB3]. rewrite FC3. pose proof (alpha_formula p PP e E1 vn VN u U0) as AF. fold m in AF. rewrite <- AF. pose proof (Gf_sk p PP e E1 vn VN (Z.to_nat u)) as GS. fold m pn T0 in GS. rewrite Z2Nat.id in GS by exact U0. rewrite GS. replace (pn * Z.to_nat u + vn)%nat with (Z.to_nat n); [reflexivity|]. unfold pn, vn. rewrite <- Z2Nat.inj_mul, <- Z2Nat.inj_add by nia. f_equal. exact D.
Qed.
End Fast.
