(** Pohlig-Hellman. *)
From Coq Require Import Znumtheory.
From Verif Require Import Lib BaseModel BaseProofs PrimesSpec PrimesProofs NumTheory2 ModuloModel ModuloProofs RootsProofs2 OrderSpec OrderModel OrderProofs OrderProofs2.
Open Scope Z_scope.

Lemma pow_divisor (p : nat) (s : nat) : is_prime p -> forall d, 0 < d -> (d | Z.of_nat p ^ Z.of_nat s) -> exists j, (j <= s)%nat /\ d = Z.of_nat p ^ Z.of_nat j.
Proof.
  intros P. pose proof (prime_ge p P) as P2. induction s as [|s IH]; intros d D DV.
  - exists 0%nat. split; [lia|]. change (Z.of_nat 0) with 0 in *. rewrite Z.pow_0_r in *. apply Z.divide_1_r_nonneg in DV; lia.
  - rewrite Nat2Z.inj_succ, Z.pow_succ_r in DV by lia. destruct DV as [c C]. assert (DD : (Z.of_nat p | c * d)) by (rewrite <- C; apply Z.divide_factor_l). apply prime_Zeuclid in DD as [[c' C']|[d' D']]; [| |exact P].
    + destruct (IH d D) as (j & J & EJ); [|exists j; split; [lia|exact EJ]]. exists c'. subst c. apply (Z.mul_reg_l _ _ (Z.of_nat p)); [lia|]. rewrite C. ring.
    + destruct (IH d') as (j & J & EJ); [nia| |exists (S j); split; [lia|rewrite Nat2Z.inj_succ, Z.pow_succ_r, <- EJ by lia; lia]]. exists c. subst d. apply (Z.mul_reg_l _ _ (Z.of_nat p)); [lia|]. rewrite C. ring.
Qed.
Lemma nth_set (l : list Z) i j v l' : set_nth l i v = Some l' -> nth_error l' j = if Nat.eqb j i then Some v else nth_error l j.
Proof. intros H. rewrite (set_nth_get _ _ _ _ j H). now rewrite Nat.eqb_sym. Qed.

Section Group.
Context {G : Type} (mul : G -> G -> G) (one : G) (eqb : G -> G -> bool) (ok : G -> Prop).
Variable root : Z -> Z.
Hypothesis M : monoid_on ok mul one.
Hypothesis E : forall x y, ok x -> ok y -> eqb x y = true <-> x = y.
Hypothesis RT : forall n, 0 <= n -> 0 <= root n /\ root n * root n <= n < (root n + 1) * (root n + 1).
Notation gp := (gpow mul one).
Notation is_order := (is_order mul one).
Local Notation gp_ok := (gp_ok mul one ok M).
Local Notation gp_add := (gp_add mul one ok M).
Local Notation gp_mul := (gp_mul mul one ok M).
Local Notation gp_one := (gp_one mul one ok M).
Local Notation gp_1 := (gp_1 mul one ok M).
Local Notation okm := (okm mul one ok M).
Local Notation ok1 := (ok1 mul one ok M).
Local Notation eq1 := (eq1 mul one eqb ok M E).
Local Notation powT_gp := (powT_gp mul one ok M).
Local Notation gp_cong := (gp_cong mul one ok M).
Local Notation order_divide := (order_divide mul one ok M).

Section PP.
Variables (a : G) (p s : nat).
Hypothesis A : ok a.
Hypothesis P : is_prime p.
Hypothesis AS : gp a (Z.to_nat (Z.of_nat p ^ Z.of_nat s)) = one.
Let pz := Z.of_nat p.
Lemma ppos i : 0 < pz ^ Z.of_nat i. Proof. apply Z.pow_pos_nonneg; [pose proof (prime_ge p P); unfold pz; lia|lia]. Qed.
Lemma pp_run : a <> one -> exists s' pp, loopZ (Z.abs (Z.of_nat s) + 1) (pp_step mul one eqb a pz (Z.of_nat s)) (1, 1 :: repeat 0 (Z.to_nat (Z.of_nat s))) = Some (Z.of_nat s', pp) /\ (1 <= s')%nat /\ is_order a (pz ^ Z.of_nat s') /\ forall i, (i <= s')%nat -> nth_error pp i = Some (pz ^ Z.of_nat i).
Proof.
  intros NA. destruct (loopZ_spec (pp_step mul one eqb a pz (Z.of_nat s))
    (fun '(k, pp) => 1 <= k <= Z.of_nat s + 1 /\ length pp = S s /\ (forall i, Z.of_nat i < k -> nth_error pp i = Some (pz ^ Z.of_nat i)) /\ (forall i, Z.of_nat i < k - 1 -> gp a (Z.to_nat (pz ^ Z.of_nat i)) <> one))
    (fun '(s', pp) => 0 <= s' <= Z.of_nat s /\ (forall i, Z.of_nat i <= s' -> nth_error pp i = Some (pz ^ Z.of_nat i)) /\ gp a (Z.to_nat (pz ^ s')) = one /\ (forall i, Z.of_nat i < s' -> gp a (Z.to_nat (pz ^ Z.of_nat i)) <> one))
    (fun '(k, _) => Z.of_nat s + 1 - k)) with (fuel := Z.abs (Z.of_nat s) + 1) (s := (1, 1 :: repeat 0 (Z.to_nat (Z.of_nat s)))) as ([s' pp] & EQ & H).
  - intros [k pp] (K & LP & T & NO). cbn [pp_step]. destruct (Z.leb_spec k (Z.of_nat s)) as [L|L].
    + rewrite (T (Z.to_nat (k - 1))) by lia. cbn [obind]. rewrite Z2Nat.id by lia. pose proof (ppos (Z.to_nat (k - 1))) as PK. rewrite Z2Nat.id in PK by lia. rewrite powT_gp by (try exact A; lia). cbn [obind]. destruct (eqb (gp a (Z.to_nat (pz ^ (k - 1)))) one) eqn:B.
      * apply eq1 in B; [|now apply gp_ok]. eexists. split; [reflexivity|]. cbv beta iota. split; [lia|]. split; [intros i I; apply T; lia|]. split; [exact B|exact NO].
      * destruct (set_nth_some pp (Z.to_nat k) (pz ^ (k - 1) * pz)) as (pp' & EP); [lia|]. rewrite EP. cbn [obind]. eexists. split; [reflexivity|]. cbv beta iota. split; [|lia]. split; [lia|]. split; [erewrite set_nth_length; eauto|]. split.
        -- intros i I. rewrite (nth_set _ _ i _ _ EP). destruct (Nat.eqb_spec i (Z.to_nat k)) as [-> |NE]; [|apply T; lia]. f_equal. rewrite Z2Nat.id by lia. replace (pz ^ k) with (pz ^ (Z.succ (k - 1))) by (f_equal; lia). rewrite Z.pow_succ_r by lia. ring.
        -- intros i I X. destruct (Z.eq_dec (Z.of_nat i) (k - 1)) as [EI|NE]; [|apply (NO i); [lia|exact X]]. rewrite EI in X. apply eq1 in X; [congruence|now apply gp_ok].
    + eexists. split; [reflexivity|]. cbv beta iota. assert (k = Z.of_nat s + 1) by lia. subst k. split; [lia|]. split; [intros i I; apply T; lia|]. split; [exact AS|]. intros i I. apply NO. lia.
  - intros [k pp] (K & _). lia.
  - split; [lia|]. split; [cbn [length]; rewrite repeat_length; lia|]. split; [|intros; lia]. intros i I. replace i with 0%nat by lia. reflexivity.
  - lia.
  - destruct H as (B & T & O1 & NO). exists (Z.to_nat s'), pp. rewrite Z2Nat.id by lia. split; [exact EQ|].
    assert (S1 : s' <> 0). { intros ->. rewrite Z.pow_0_r in O1. apply NA. rewrite <- (gp_1 a A). exact O1. }
    split; [lia|]. split; [|intros i I; apply T; lia]. destruct (order_exists mul one eqb ok M E a (Z.to_nat (pz ^ s')) A) as (d & O); [pose proof (ppos (Z.to_nat s')) as PS; rewrite Z2Nat.id in PS by lia; lia|exact O1|].
    pose proof O as (D0 & DE & _). assert (DD : (d | pz ^ s')) by (rewrite <- (Z2Nat.id (pz ^ s')) by (apply Z.pow_nonneg; unfold pz; lia); now apply (order_divide a d)). rewrite <- (Z2Nat.id s') in DD by lia. destruct (pow_divisor p (Z.to_nat s') P d D0 DD) as (j & J & EJ). destruct (Nat.eq_dec j (Z.to_nat s')) as [-> |NE]; [rewrite Z2Nat.id in EJ by lia; fold pz in EJ; now rewrite <- EJ|]. exfalso. apply (NO j); [lia|]. fold pz in EJ. now rewrite <- EJ.
Qed.
Theorem order_pp_ok b X : b = gp a X -> exists r o, discrete_log_order_pp_g mul one eqb root a b pz (Z.of_nat s) = Some r /\ is_order a o /\ 0 <= r < o /\ gp a (Z.to_nat r) = b.
Proof.
  intros EB. assert (B : ok b) by (subst b; now apply gp_ok). unfold discrete_log_order_pp_g. pose proof (prime_ge p P) as P2.
  destruct (order_exists mul one eqb ok M E a (Z.to_nat (pz ^ Z.of_nat s)) A) as (o & O); [pose proof (ppos s); lia|exact AS|]. pose proof O as (O0 & OE & OM).
  assert (ONE : a = one -> o = 1). { intros H. destruct (Z.eq_dec o 1) as [|NE]; [assumption|exfalso]. apply (OM 1); [lia|]. rewrite H. apply gp_one. }
  assert (TRIV : a = one -> b = one) by (intros H; rewrite EB, H; apply gp_one).
  assert (NT : a <> one -> 1 < o). { intros H. destruct (Z.eq_dec o 1) as [O1|]; [|lia]. exfalso. apply H. rewrite <- (gp_1 a A). now rewrite O1 in OE. }
  destruct (Z.eqb_spec (Z.of_nat s) 0) as [S0|S0].
  { exists 0, o. split; [reflexivity|]. split; [exact O|]. split; [lia|]. symmetry. apply TRIV. rewrite <- (gp_1 a A). rewrite S0, Z.pow_0_r in AS. exact AS. }
  destruct (eqb a one) eqn:EA. { apply eq1 in EA; [|exact A]. exists 0, o. split; [reflexivity|]. split; [exact O|]. split; [lia|]. symmetry. now apply TRIV. }
  assert (NA : a <> one) by (intros H; apply eq1 in H; [congruence|exact A]). specialize (NT NA).
  destruct (eqb b one) eqn:EB1. { apply eq1 in EB1; [|exact B]. exists 0, o. split; [reflexivity|]. split; [exact O|]. split; [lia|]. now symmetry. }
  destruct (eqb a b) eqn:EAB. { apply E in EAB; [|exact A|exact B]. exists 1, o. split; [reflexivity|]. split; [exact O|]. split; [lia|]. rewrite <- EAB. now apply gp_1. }
  destruct (pp_run NA) as (s' & pp & -> & S1 & OS & T). cbn [obind]. assert (EO : o = pz ^ Z.of_nat s') by (apply (order_unique mul one ok a o _ A O OS)). set (q := pz ^ Z.of_nat s') in *. pose proof (ppos s') as QP. fold q in QP.
  rewrite Nat2Z.id, (T s') by lia. cbn [obind]. replace (Z.to_nat (Z.of_nat s' - 1)) with (s' - 1)%nat by lia. rewrite (T (s' - 1)%nat) by lia. cbn [obind]. fold q. rewrite powT_gp by (try exact A; lia). cbn [obind]. pose proof (ppos (s' - 1)) as Q1. rewrite powT_gp by (try exact A; lia). cbn [obind].
  set (q1 := pz ^ Z.of_nat (s' - 1)) in *. set (ai := gp a (Z.to_nat (q - 1))). set (gamma := gp a (Z.to_nat q1)). assert (GO : ok gamma) by (now apply gp_ok). assert (AO : ok ai) by (now apply gp_ok).
  assert (QE : q = q1 * pz). { unfold q, q1. replace s' with (S (s' - 1)) at 1 by lia. rewrite Nat2Z.inj_succ, Z.pow_succ_r by lia. ring. }
  assert (AXG : forall k x t, (k < s')%nat -> 0 <= x -> Z.of_nat X - x = t * pz ^ Z.of_nat k -> forall d, 0 <= d -> gp gamma (Z.to_nat d) = gp a ((Z.to_nat (q - 1) * Z.to_nat x + X) * Z.to_nat (pz ^ Z.of_nat (s' - 1 - k))) <-> (pz | d - t)).
  { intros k x t K X0 XT d D. pose proof (ppos (s' - 1 - k)) as U0. pose proof (ppos k) as K0. set (u := pz ^ Z.of_nat (s' - 1 - k)) in *. set (v := pz ^ Z.of_nat k) in *. assert (UV : u * v = q1) by (unfold u, v, q1; rewrite <- Z.pow_add_r by (clear; lia); f_equal; clear - K; lia).
    unfold gamma. rewrite <- gp_mul by exact A. rewrite (gp_cong a q) by (try exact A; exact OS). set (w := ((Z.to_nat (q - 1) * Z.to_nat x + X) * Z.to_nat u)%nat). assert (WE : Z.of_nat w = q * (x * u) + q1 * t). { unfold w. rewrite Nat2Z.inj_mul, Nat2Z.inj_add, Nat2Z.inj_mul, (Z2Nat.id x), (Z2Nat.id u), (Z2Nat.id (q - 1)) by (clear - QP U0 X0; lia). replace (Z.of_nat X) with (x + t * v) by (clear - XT; lia). rewrite <- UV. ring. }
    rewrite Nat2Z.inj_mul, (Z2Nat.id q1), (Z2Nat.id d), WE by (clear - Q1 D; lia). split.
    - intros [c C]. exists (c + x * u). rewrite QE in C. apply (Z.mul_reg_l _ _ q1); [clear - Q1; lia|]. replace (q1 * ((c + x * u) * pz)) with (c * (q1 * pz) + q1 * pz * (x * u)) by ring. rewrite <- C. ring.
    - intros [c C]. exists (c - x * u). rewrite QE. replace ((c - x * u) * (q1 * pz)) with (q1 * (c * pz) - q1 * pz * (x * u)) by ring. rewrite <- C. ring. }
  assert (PZ : 2 <= pz) by (unfold pz; clear - P2; lia).
  assert (GP : gp gamma (Z.to_nat pz) = one). { unfold gamma. rewrite <- gp_mul by exact A. apply (order_divide a q); [exact A|exact OS|]. rewrite Nat2Z.inj_mul, (Z2Nat.id q1), (Z2Nat.id pz) by (clear - Q1 PZ; lia). rewrite <- QE. apply Z.divide_refl. }
  destruct (for_range_spec (fun k x => 0 <= x < pz ^ Z.of_nat k /\ (pz ^ Z.of_nat k | Z.of_nat X - x)) (fun k x => let* ax := powT mul one ai x in let* u := nth_error pp (Z.to_nat (Z.of_nat s' - 1 - Z.of_nat k)) in let* bk := powT mul one (mul ax b) u in let* d := discrete_log_baby_giant_g mul one eqb root gamma bk pz in let* v := nth_error pp k in Some (x + v * d)) 0 s' 0) as (x & EX & HX).
  - clear; lia.
  - split; [rewrite Z.pow_0_r; clear; lia|]. rewrite Z.pow_0_r. apply Z.divide_1_l.
  - intros k x K (XB & [t XT]). rewrite powT_gp by (try exact AO; clear - XB; lia). cbn [obind]. replace (Z.to_nat (Z.of_nat s' - 1 - Z.of_nat k)) with (s' - 1 - k)%nat by (clear - K; lia). rewrite T by (clear - K; lia). cbn [obind]. pose proof (ppos (s' - 1 - k)) as U0. pose proof (ppos k) as K0.
    assert (EK : mul (gp ai (Z.to_nat x)) b = gp a (Z.to_nat (q - 1) * Z.to_nat x + X)) by (rewrite EB; unfold ai; rewrite <- gp_mul, <- gp_add by exact A; reflexivity). rewrite EK. rewrite powT_gp by (try (now apply gp_ok); clear - U0; lia). cbn [obind]. rewrite <- gp_mul by exact A. pose proof (AXG k x t ltac:(clear - K; lia) ltac:(clear - XB; lia) XT) as GC. set (w := ((Z.to_nat (q - 1) * Z.to_nat x + X) * Z.to_nat (pz ^ Z.of_nat (s' - 1 - k)))%nat) in *.
    destruct (baby_giant_ok mul one eqb ok root M E RT gamma (gp a w) pz) as (d & -> & [(D & ED & _)|(_ & NO)]); [exact GO|now apply gp_ok|clear - PZ; lia|exact GP| |].
    + cbn [obind]. rewrite T by (clear - K; lia). cbn [obind]. eexists. split; [reflexivity|]. apply GC in ED; [|clear - D; lia]. destruct ED as [c C]. rewrite Nat2Z.inj_succ, Z.pow_succ_r by (clear; lia). set (v := pz ^ Z.of_nat k) in *. split; [clear - XB D K0 PZ; nia|]. exists (- c). replace (Z.of_nat X - (x + v * d)) with (t * v - v * d) by (clear - XT; lia). replace t with (d - c * pz) by (clear - C; lia). ring.
    + exfalso. pose proof (Z.mod_pos_bound t pz ltac:(clear - PZ; lia)) as TB. apply (NO (t mod pz)); [clear - TB; lia|]. apply GC; [clear - TB; lia|]. exists (- (t / pz)). pose proof (Z.div_mod t pz ltac:(clear - PZ; lia)) as DM. clear - DM. lia.
  - destruct HX as (XB & XD). exists x, o. split; [exact EX|]. split; [exact O|]. split; [rewrite EO; exact XB|]. rewrite EB. apply (gp_cong a o); [exact A|exact O|]. rewrite Z2Nat.id by (clear - XB; lia). rewrite EO. fold q in XD. apply Z.divide_opp_r in XD. now replace (- (Z.of_nat X - x)) with (x - Z.of_nat X) in XD by (clear; lia).
Qed.
End PP.

(** ** discrete_log_g *)
Lemma split_run (p : nat) o : is_prime p -> 0 < o -> exists d e, loopZ (Z.abs o + 1) (split_step (Z.of_nat p)) (o, 1, 0) = Some (d, Z.of_nat p ^ Z.of_nat e, Z.of_nat e) /\ o = d * Z.of_nat p ^ Z.of_nat e /\ 0 < d /\ ~ (Z.of_nat p | d).
Proof.
  intros P O. pose proof (prime_ge p P) as P2. set (pz := Z.of_nat p) in *. destruct (loopZ_spec (split_step pz) (fun '(d, pe, e) => 0 < d /\ 0 <= e /\ pe = pz ^ e /\ o = d * pe) (fun '(d, pe, e) => 0 < d /\ 0 <= e /\ pe = pz ^ e /\ o = d * pe /\ ~ (pz | d)) (fun '(d, _, _) => d)) with (fuel := Z.abs o + 1) (s := (o, 1, 0)) as ([[d pe] e] & EQ & H).
  - intros [[d pe] e] (D & E0 & PE & OE). cbn [split_step]. rewrite cmod_ok by lia. cbn [obind]. destruct (Z.eqb_spec (d mod pz) 0) as [R|R].
    + rewrite cdiv_ok by lia. cbn [obind]. apply Z.div_exact in R; [|lia]. eexists. split; [reflexivity|]. cbv beta iota. assert (0 < d / pz) by nia. split; [|nia]. split; [assumption|]. split; [lia|]. rewrite Z.pow_add_r, Z.pow_1_r by lia. split; [now rewrite PE|]. rewrite OE. rewrite R at 1. ring.
    + eexists. split; [reflexivity|]. cbv beta iota. split; [exact D|]. split; [exact E0|]. split; [exact PE|]. split; [exact OE|]. intros X. apply Z.mod_divide in X; lia.
  - intros [[d pe] e] (D & _). lia.
  - split; [lia|]. split; [lia|]. split; [now rewrite Z.pow_0_r|lia].
  - lia.
  - destruct H as (D & E0 & PE & OE & ND). exists d, (Z.to_nat e). rewrite Z2Nat.id by lia. split; [now rewrite <- PE|]. split; [now rewrite <- PE|]. now split.
Qed.
Lemma coprime_pow (p : nat) q e : is_prime p -> ~ (Z.of_nat p | q) -> Z.gcd q (Z.of_nat p ^ Z.of_nat e) = 1.
Proof.
  intros P N. pose proof (prime_ge p P) as P2. set (g := Z.gcd q (Z.of_nat p ^ Z.of_nat e)). assert (G0 : 0 < g). { pose proof (Z.gcd_nonneg q (Z.of_nat p ^ Z.of_nat e)). assert (g <> 0); [|unfold g in *; lia]. intros Z0. apply Z.gcd_eq_0_r in Z0. assert (0 < Z.of_nat p ^ Z.of_nat e) by (apply Z.pow_pos_nonneg; lia). lia. }
  destruct (pow_divisor p e P g G0 (Z.gcd_divide_r _ _)) as (j & _ & J). destruct j as [|j]; [rewrite J; reflexivity|]. exfalso. apply N. apply Z.divide_trans with g; [|apply Z.gcd_divide_l]. rewrite J, Nat2Z.inj_succ, Z.pow_succ_r by lia. apply Z.divide_factor_l.
Qed.
Lemma log_run a b X o : ok a -> is_order a o -> b = gp a X -> forall fs x q w, NoDup fs -> (forall p, In p fs -> exists r, p = Z.of_nat r /\ is_prime r /\ ~ (p | q)) -> 0 < q -> o = q * w -> (forall r, is_prime r -> (Z.of_nat r | w) -> In (Z.of_nat r) fs) -> 0 <= x < q -> (q | x - Z.of_nat X) ->
  exists x', log_loop mul one eqb root a b o fs x q = Some x' /\ 0 <= x' < o /\ gp a (Z.to_nat x') = b.
Proof.
  intros A O EB. pose proof O as (O0 & OE & _). assert (B : ok b) by (subst b; now apply gp_ok). induction fs as [|p fs IH]; intros x q w ND F Q OW W XB XD; cbn [log_loop].
  - assert (W0 : 0 < w) by nia. assert (w = 1). { destruct (Z.eq_dec w 1) as [|NE]; [assumption|exfalso]. destruct (least_factor (Z.to_nat w) ltac:(lia)) as (r & R & (c & C) & _). apply (W r R). exists (Z.of_nat c). lia. }
    subst w. exists x. split; [reflexivity|]. split; [lia|]. rewrite EB. apply (gp_cong a o); [exact A|exact O|]. rewrite Z2Nat.id by lia. now rewrite OW, Z.mul_1_r.
  - apply NoDup_cons_iff in ND as (NI & ND). destruct (F p (or_introl eq_refl)) as (r & -> & R & NQ). destruct (split_run r o R O0) as (d & e & -> & OD & D0 & NDV). cbn [obind]. pose proof (prime_ge r R) as R2. set (pz := Z.of_nat r) in *.
    assert (F' : forall q', (forall p, In p fs -> (p | q') -> (p | q) \/ p = pz) -> forall p, In p fs -> exists r, p = Z.of_nat r /\ is_prime r /\ ~ (p | q')). { intros q' H p Hp. destruct (F p (or_intror Hp)) as (r' & EP & R' & N'). exists r'. split; [exact EP|]. split; [exact R'|]. intros DV. destruct (H p Hp DV) as [H'| ->]; [tauto|]. exact (NI Hp). }
    destruct (Z.eqb_spec (Z.of_nat e) 0) as [E0|E0].
    + apply (IH x q w ND); try assumption; [apply F'; auto|]. intros r' R' DV. destruct (W r' R' DV) as [H|H]; [|exact H]. exfalso. rewrite E0, Z.pow_0_r, Z.mul_1_r in OD. apply NDV. rewrite <- OD, OW, H. now apply Z.divide_mul_r.
    + set (pe := pz ^ Z.of_nat e) in *. assert (PE : 0 < pe) by (apply Z.pow_pos_nonneg; lia). rewrite powT_gp by (try exact A; lia). cbn [obind]. rewrite powT_gp by (try exact B; lia). cbn [obind]. set (a' := gp a (Z.to_nat d)). assert (A' : ok a') by (now apply gp_ok).
      assert (B' : gp b (Z.to_nat d) = gp a' X). { rewrite EB. unfold a'. rewrite <- !gp_mul by exact A. f_equal. lia. }
      assert (AP : gp a' (Z.to_nat pe) = one). { unfold a'. rewrite <- gp_mul by exact A. rewrite <- Z2Nat.inj_mul by lia. rewrite <- OD. exact OE. }
      destruct (order_pp_ok a' r e A' R AP (gp b (Z.to_nat d)) X B') as (y & o' & EY & (O'0 & O'E & O'M) & YB & YE). fold pz in EY. rewrite EY. cbn [obind].
      assert (OL : o' <= pe). { destruct (Z.le_gt_cases o' pe) as [|GT]; [assumption|exfalso]. now apply (O'M pe). }
      assert (YD : (pe | y - Z.of_nat X)). { rewrite B' in YE. unfold a' in YE. rewrite <- !gp_mul in YE by exact A. apply (gp_cong a o) in YE; [|exact A|exact O]. rewrite !Nat2Z.inj_mul, !Z2Nat.id in YE by lia. destruct YE as [c C]. exists c. apply (Z.mul_reg_l _ _ d); [lia|]. rewrite OD in C. lia. }
      pose proof (coprime_pow r q e R NQ) as CP. fold pz pe in CP. destruct (chinese_remainder_spec x q y pe Q PE ltac:(lia) ltac:(lia)) as (_ & CR). destruct CR as (x2 & EC & X2 & C1 & C2); [rewrite CP; apply Z.divide_1_l|]. rewrite EC. cbn [obind].
      assert (LC : Z.lcm q pe = q * pe). { unfold Z.lcm. rewrite CP, Z.div_1_r. apply Z.abs_eq. nia. }
      rewrite LC in *. assert (WD : (pe | w)). { apply (Z.gauss pe q w); [rewrite <- OW, OD; apply Z.divide_factor_r|now rewrite Z.gcd_comm]. } destruct WD as [w' WE].
      assert (CONG : forall n u v, 0 < n -> u mod n = v mod n -> (n | u - v)). { intros n u v N EQ. exists (u / n - v / n). pose proof (Z.div_mod u n ltac:(lia)). pose proof (Z.div_mod v n ltac:(lia)). rewrite EQ in *. nia. }
      assert (X2D : (q * pe | x2 - Z.of_nat X)). { assert (D1 : (q | x2 - Z.of_nat X)) by (replace (x2 - Z.of_nat X) with (x2 - x + (x - Z.of_nat X)) by ring; apply Z.divide_add_r; [apply CONG; [lia|exact C1]|exact XD]). assert (D2 : (pe | x2 - Z.of_nat X)) by (replace (x2 - Z.of_nat X) with (x2 - y + (y - Z.of_nat X)) by ring; apply Z.divide_add_r; [apply CONG; [lia|exact C2]|exact YD]). destruct D1 as [c C]. rewrite C in D2 |- *. rewrite Z.mul_comm in D2. apply Z.gauss in D2; [|now rewrite Z.gcd_comm]. destruct D2 as [c' C']. exists c'. rewrite C'. ring. }
      apply (IH x2 (q * pe) w' ND); [|nia|rewrite OW, WE; ring| |exact X2|exact X2D].
      * apply F'. intros p Hp DV. destruct (F p (or_intror Hp)) as (r' & -> & R' & _). apply prime_Zeuclid in DV as [DV|DV]; [now left| |exact R']. right. unfold pe, pz in DV. unfold pz. apply f_equal. apply (prime_of_pow r' r (Z.of_nat e)); [exact R'|exact R|lia|exact DV].
      * intros r' R' DV. destruct (W r' R') as [H|H]; [rewrite WE; now apply Z.divide_mul_l| |exact H]. exfalso. apply NDV. assert (DW : d = q * w') by (apply (Z.mul_reg_r _ _ pe); [lia|]; rewrite <- OD, OW, WE; ring). rewrite DW, H. now apply Z.divide_mul_r.
Qed.
Theorem discrete_log_ok a b n fs X : ok a -> 0 < n -> gp a (Z.to_nat n) = one -> prime_factors_of n fs -> b = gp a X ->
  exists x o, discrete_log_g mul one eqb root a b n fs = Some (x, o) /\ is_order a o /\ 0 <= x < o /\ gp a (Z.to_nat x) = b /\ forall j, 0 <= j < x -> gp a (Z.to_nat j) <> b.
Proof.
  intros A N NE PF EB. unfold discrete_log_g. destruct (multiplicative_order_ok mul one eqb ok M E a n fs A N NE PF) as (o & -> & O & ON). cbn [obind]. pose proof O as (O0 & _). destruct PF as (ND & PF).
  destruct (log_run a b X o A O EB fs 0 1 o ND) as (x & -> & XB & XE); [|lia|lia| |lia|apply Z.divide_1_l|].
  - intros p Hp. apply PF in Hp as (r & -> & R & _). exists r. split; [reflexivity|]. split; [exact R|]. intros D. apply Z.divide_1_r_nonneg in D; [|lia]. pose proof (prime_ge r R). lia.
  - intros r R D. apply PF. exists r. split; [reflexivity|]. split; [exact R|]. now apply Z.divide_trans with o.
  - cbn [obind]. exists x, o. split; [reflexivity|]. split; [exact O|]. split; [exact XB|]. split; [exact XE|]. intros j J JE. rewrite <- XE in JE. apply (gp_cong a o) in JE; [|exact A|exact O]. rewrite !Z2Nat.id in JE by lia. destruct JE as [c C]. assert (c = 0) by nia. lia.
Qed.
End Group.
