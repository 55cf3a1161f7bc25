(** Primitive roots. *)
From Coq Require Import Znumtheory.
From Verif Require Import Lib BaseModel BaseProofs PrimesSpec PrimesProofs NumTheory NumTheory2 ModuloModel ModuloProofs ModPowModel ModPowProofs RootsModel RootsProofs OrderSpec OrderModel OrderProofs OrderProofs2 OrderProofs3 OrderProofs4.
Open Scope Z_scope.

Lemma unit_mod m a : 0 < m -> Z.gcd (a mod m) m = Z.gcd a m.
Proof. intros H. rewrite Z.gcd_mod by lia. apply Z.gcd_comm. Qed.
Lemma order_mod_cong m a b k : 0 < m -> (m | a - b) -> order_mod a m k -> order_mod b m k.
Proof. intros H D O. apply order_bridge; [exact H|]. apply (order_bridge m H) in O. replace (b mod m) with (a mod m); [exact O|]. apply mod_eq; assumption. Qed.
Lemma order_mod_red m a k : 0 < m -> order_mod (a mod m) m k <-> order_mod a m k.
Proof. intros H. split; apply order_mod_cong; try exact H; [apply mod_self'; exact H|]. rewrite <- Z.divide_opp_r. replace (- (a - a mod m)) with (a mod m - a) by ring. now apply mod_self'. Qed.
(** Euler over Z *)
Lemma euler_Z a m : 0 < m -> Z.gcd a m = 1 -> (m | a ^ Z.of_nat (totient (Z.to_nat m)) - 1).
Proof.
  intros H G. pose proof (Z.mod_pos_bound a m H). assert (E := euler_univ (Z.to_nat m) ltac:(lia) (Z.to_nat (a mod m))). rewrite !Z2Nat.id in E by lia. specialize (E ltac:(apply Nat2Z.inj; rewrite <- gcd_nat, !Z2Nat.id by lia; now rewrite unit_mod)).
  set (n := totient (Z.to_nat m)) in *. replace (a ^ Z.of_nat n - 1) with ((a mod m) ^ Z.of_nat n - 1 - ((a mod m) ^ Z.of_nat n - a ^ Z.of_nat n)) by ring. apply Z.divide_sub_r; [exact E|]. apply pow_cong. now apply mod_self'.
Qed.
Lemma totient_pos n : (0 < n)%nat -> (0 < totient n)%nat.
Proof. intros H. change (totient n) with (length (residues n)). assert (X : In 1%nat (residues n)) by (apply residues_in; split; [lia|apply Nat.gcd_1_l]). destruct (residues n); [easy|cbn; lia]. Qed.
Theorem order_mod_ok a m phi fs : 0 < m -> 0 < phi -> (m | a ^ phi - 1) -> prime_factors_of phi fs -> exists k, multiplicative_order a m phi fs = Some k /\ order_mod a m k /\ (k | phi).
Proof.
  intros H P D F. unfold multiplicative_order. rewrite !modT_spec by exact H. cbn [obind]. destruct (multiplicative_order_ok (mm m) (1 mod m) Z.eqb (res m) (resM m H) (resE m) (a mod m) phi fs) as (k & E & O & KD); [apply resm; exact H|exact P|apply gp_dvd; [exact H|lia|exact D]|exact F|]. exists k. split; [exact E|]. split; [now apply order_bridge|exact KD].
Qed.
(** ** the search for a primitive root *)
Lemma is_primitive_run g m phi fs : 2 <= m -> 0 < phi -> (forall p, In p fs -> 2 <= p) -> exists r, is_primitive g m phi fs = Some r /\ (r = true <-> forall p, In p fs -> ~ (m | g ^ (phi / p) - 1)).
Proof.
  intros H P. induction fs as [|p ps IH]; intros B; [exists true; split; [reflexivity|]; split; [intros _ p []|reflexivity]|]. destruct IH as (r & IH1 & IH2); [intros q Hq; apply B; now right|]. cbn [is_primitive]. pose proof (B p ltac:(now left)). rewrite (cdiv_ok phi p) by lia. cbn [obind]. rewrite !modT_spec by lia. cbn [obind]. assert (0 <= phi / p) by (apply Z.div_pos; lia).
  rewrite (powT_gp (mm m) (1 mod m) (res m)); [|apply resM; lia|apply resm; lia|assumption]. cbn [obind]. rewrite IH1. cbn [obind]. eexists. split; [reflexivity|]. rewrite andb_true_iff, negb_true_iff, IH2, Z.eqb_neq. rewrite <- (Z.mod_small 1 m) at 2 by lia. rewrite gp_dvd by lia. split.
  - intros (X & Y) q [<-|Hq]; [exact X|now apply Y].
  - intros X. split; [apply X; now left|]. intros q Hq. apply X. now right.
Qed.
Theorem primitive_root_ok m phi fs : 2 <= m -> 0 < phi -> (forall a, Z.gcd a m = 1 -> (m | a ^ phi - 1)) -> prime_factors_of phi fs ->
  exists r, primitive_root m phi fs = Some r /\ ((1 <= r < m /\ order_mod r m phi /\ forall h, 1 <= h < r -> ~ order_mod h m phi) \/ (r = 0 /\ forall h, ~ order_mod h m phi)).
Proof.
  intros H P U (ND & F). assert (FP : forall p, In p fs -> 2 <= p) by (intros p Hp; apply F in Hp as (q & -> & Q & _); pose proof (prime_ge q Q); lia).
  assert (CH : forall g, Z.gcd g m = 1 -> (forall p, In p fs -> ~ (m | g ^ (phi / p) - 1)) <-> order_mod g m phi).
  { intros g G. split.
    - intros X. apply order_bridge; [lia|]. apply (order_char (mm m) (1 mod m) Z.eqb (res m) (resM m ltac:(lia)) (resE m)); [apply resm; lia|exact P|apply gp_dvd; [lia|lia|now apply U]|]. intros p Pp D. rewrite gp_dvd; [|lia|apply Z.div_pos; pose proof (prime_ge p Pp); lia]. apply X. apply F. exists p. auto.
    - intros (_ & _ & N) p Hp. pose proof (FP p Hp). apply F in Hp as (q & -> & Q & D). apply N. split; [apply Z.div_str_pos; pose proof (Z.divide_pos_le _ _ P D); lia|]. apply Z.div_lt; lia. }
  unfold primitive_root. destruct (loopZ_spec (root_step m phi fs) (fun g => 1 <= g <= m /\ forall h, 1 <= h < g -> ~ order_mod h m phi)
    (fun r => (1 <= r < m /\ order_mod r m phi /\ forall h, 1 <= h < r -> ~ order_mod h m phi) \/ (r = 0 /\ forall h, 1 <= h < m -> ~ order_mod h m phi)) (fun g => Z.max 0 (m - g))) with (fuel := Z.abs m + 1) (s := 1) as (r & E & R).
  - intros g (G & N). unfold root_step. destruct (Z.ltb_spec g m) as [L|L].
    + rewrite gcd_nonneg by lia. cbn [obind]. pose proof (Z.gcd_nonneg g m). destruct (Z.ltb_spec 1 (Z.gcd g m)) as [C|C].
      * eexists. split; [reflexivity|]. cbv beta iota. split; [|lia]. split; [lia|]. intros h Hh. destruct (Z.eq_dec h g) as [->|]; [|apply N; lia]. intros O. apply om_unit in O; lia.
      * assert (C1 : Z.gcd g m = 1). { assert (Z.gcd g m <> 0) by (intros X; apply Z.gcd_eq_0_l in X; lia). lia. }
        destruct (is_primitive_run g m phi fs H P FP) as (b & -> & B). cbn [obind]. destruct b.
        -- eexists. split; [reflexivity|]. cbv beta iota. left. split; [lia|]. split; [|exact N]. apply CH; [exact C1|]. now apply B.
        -- eexists. split; [reflexivity|]. cbv beta iota. split; [|lia]. split; [lia|]. intros h Hh. destruct (Z.eq_dec h g) as [->|]; [|apply N; lia]. intros O. pose proof (proj2 B (proj2 (CH g C1) O)). discriminate.
    + eexists. split; [reflexivity|]. cbv beta iota. right. split; [reflexivity|]. intros h Hh. apply N. lia.
  - intros g _. lia.
  - split; [lia|]. intros; lia.
  - lia.
  - exists r. split; [exact E|]. destruct R as [R|(R0 & R)]; [left; exact R|right]. split; [exact R0|]. intros h O. apply (order_mod_red m h phi ltac:(lia)) in O. apply (R (h mod m)); [|exact O]. pose proof (Z.mod_pos_bound h m ltac:(lia)). destruct (Z.eq_dec (h mod m) 0) as [Z0|]; [|lia]. rewrite Z0 in O. apply om_unit in O. rewrite Z.gcd_0_l in O. lia.
Qed.
(** ** order phi(m) and generation *)
Lemma order_generates m g : 2 <= m -> Z.gcd g m = 1 -> order_mod g m (Z.of_nat (totient (Z.to_nat m))) <-> generates g m.
Proof.
  intros H G. set (n := totient (Z.to_nat m)). pose proof (totient_pos (Z.to_nat m) ltac:(lia)) as NP. fold n in NP.
  set (pw := fun i => Z.to_nat (g ^ Z.of_nat i mod m)).
  assert (PW : forall i, In (pw i) (residues (Z.to_nat m))). { intros i. apply residues_in. pose proof (Z.mod_pos_bound (g ^ Z.of_nat i) m ltac:(lia)). assert (C : Z.gcd (g ^ Z.of_nat i mod m) m = 1) by (rewrite unit_mod by lia; apply unit_pow; [lia|exact G]). split.
    - assert (g ^ Z.of_nat i mod m <> 0) by (intros X; rewrite X, Z.gcd_0_l in C; lia). unfold pw. lia.
    - apply Nat2Z.inj. unfold pw. rewrite <- gcd_nat, !Z2Nat.id by lia. exact C. }
  split.
  - intros O x X. assert (INC : incl (residues (Z.to_nat m)) (map pw (seq 0 n))).
    { apply NoDup_length_incl.
      - assert (J : forall i j, (i < n)%nat -> (j < n)%nat -> pw i = pw j -> i = j). { intros i j Hi Hj E. assert (E' : g ^ Z.of_nat i mod m = g ^ Z.of_nat j mod m) by (pose proof (Z.mod_pos_bound (g ^ Z.of_nat i) m ltac:(lia)); pose proof (Z.mod_pos_bound (g ^ Z.of_nat j) m ltac:(lia)); unfold pw in E; lia). apply mod_eq in E'; [|lia]. apply (om_cong m ltac:(lia) g (Z.of_nat n)) in E'; [|exact O|lia|lia]. destruct E' as [c C]. clear - C Hi Hj. clearbody n. destruct (Z.lt_trichotomy c 0) as [?|[->|?]]; nia. }
        assert (ND : forall k a, (a + k <= n)%nat -> NoDup (map pw (seq a k))). { induction k as [|k IH]; intros a A; [constructor|]. cbn [seq map]. constructor; [|apply IH; lia]. intros X1. apply in_map_iff in X1 as (j & E & Hj). apply in_seq in Hj. apply J in E; lia. }
        apply ND. lia.
      - rewrite map_length, seq_length. apply le_n.
      - intros y Hy. apply in_map_iff in Hy as (i & <- & _). apply PW. }
    pose proof (Z.mod_pos_bound x m ltac:(lia)). assert (X0 : Z.gcd (x mod m) m = 1) by (rewrite unit_mod by lia; exact X). assert (XI : In (Z.to_nat (x mod m)) (residues (Z.to_nat m))). { apply residues_in. split; [assert (x mod m <> 0) by (intros Y; rewrite Y, Z.gcd_0_l in X0; lia); lia|]. apply Nat2Z.inj. rewrite <- gcd_nat, !Z2Nat.id by lia. exact X0. }
    apply INC, in_map_iff in XI as (i & E & _). exists (Z.of_nat i). split; [lia|]. apply mod_eq; [lia|]. pose proof (Z.mod_pos_bound (g ^ Z.of_nat i) m ltac:(lia)). unfold pw in E. lia.
  - intros GN. destruct (om_exists m ltac:(lia) g (Z.of_nat n) ltac:(lia) (euler_Z g m ltac:(lia) G)) as (k & O & KD). pose proof O as (K & _). pose proof (Z.divide_pos_le k (Z.of_nat n) ltac:(lia) KD). replace (Z.of_nat n) with k; [exact O|]. enough (n <= Z.to_nat k)%nat by lia.
    change n with (length (residues (Z.to_nat m))). rewrite <- (seq_length (Z.to_nat k) 0), <- (map_length pw (seq 0 _)). apply NoDup_incl_length; [apply NoDup_filter, seq_NoDup|]. intros y Hy. apply residues_in in Hy as (Y & YG).
    assert (YG' : Z.gcd (Z.of_nat y) m = 1) by (rewrite <- (Z2Nat.id m) by lia; rewrite gcd_nat, YG; reflexivity). destruct (GN (Z.of_nat y) YG') as (j & J & D). apply in_map_iff. exists (Z.to_nat (j mod k)). pose proof (Z.mod_pos_bound j k K). split; [|apply in_seq; lia].
    assert (y <> Z.to_nat m). { intros ->. rewrite Nat.gcd_diag in YG. lia. } unfold pw. rewrite Z2Nat.id by lia. apply Nat2Z.inj. rewrite Z2Nat.id by (apply Z.mod_pos_bound; lia). rewrite <- (Z.mod_small (Z.of_nat y) m) by lia. apply mod_eq; [lia|]. replace (g ^ (j mod k) - Z.of_nat y) with ((g ^ (j mod k) - g ^ j) + (g ^ j - Z.of_nat y)) by ring. apply Z.divide_add_r; [|exact D]. apply (om_cong m ltac:(lia) g k); [exact O|lia|lia|]. apply mod_self'. exact K.
Qed.
(** ** which moduli have one *)
Lemma carm_exact n L : (0 < n)%nat -> exact n L -> carmichael (Z.of_nat n) L.
Proof.
  intros N (L0 & X). assert (UZ : forall M, univ n M <-> forall a, Z.gcd a (Z.of_nat n) = 1 -> (Z.of_nat n | a ^ Z.of_nat M - 1)).
  { intros M. split.
    - intros U a G. pose proof (Z.mod_pos_bound a (Z.of_nat n) ltac:(lia)). specialize (U (Z.to_nat (a mod Z.of_nat n)) ltac:(apply Nat2Z.inj; rewrite <- gcd_nat, !Z2Nat.id by lia; now rewrite unit_mod by lia)). rewrite Z2Nat.id in U by lia.
      replace (a ^ Z.of_nat M - 1) with ((a mod Z.of_nat n) ^ Z.of_nat M - 1 - ((a mod Z.of_nat n) ^ Z.of_nat M - a ^ Z.of_nat M)) by ring. apply Z.divide_sub_r; [exact U|]. apply pow_cong. apply mod_self'. lia.
    - intros U a G. apply U. rewrite gcd_nat, G. reflexivity. }
  split; [exact L0|]. split.
  - intros a. rewrite <- (Z2Nat.id L) by lia. revert a. apply UZ, X. rewrite Z2Nat.id by lia. apply Z.divide_refl.
  - intros j J. (* a unit violating j exists among the residues *)
    destruct (Forall_dec (fun a => (Z.of_nat n | Z.of_nat a ^ j - 1)) (fun a => Zdivide_dec _ _) (residues n)) as [F|F].
    + exfalso. assert (UJ : univ n (Z.to_nat j)). { apply UZ. intros a G. rewrite Z2Nat.id by lia. pose proof (Z.mod_pos_bound a (Z.of_nat n) ltac:(lia)).
        destruct (Nat.eq_dec n 1) as [->|N1]; [apply Z.divide_1_l|]. assert (G' : Z.gcd (a mod Z.of_nat n) (Z.of_nat n) = 1) by (now rewrite unit_mod by lia). assert (a mod Z.of_nat n <> 0) by (intros Y; rewrite Y, Z.gcd_0_l in G'; lia).
        rewrite Forall_forall in F. specialize (F (Z.to_nat (a mod Z.of_nat n)) ltac:(apply residues_in; split; [lia|]; apply Nat2Z.inj; rewrite <- gcd_nat, !Z2Nat.id by lia; exact G')). rewrite Z2Nat.id in F by lia.
        replace (a ^ j - 1) with ((a mod Z.of_nat n) ^ j - 1 - ((a mod Z.of_nat n) ^ j - a ^ j)) by ring. apply Z.divide_sub_r; [exact F|]. rewrite <- (Z2Nat.id j) by lia. apply pow_cong. apply mod_self'. lia. }
      apply X in UJ. rewrite Z2Nat.id in UJ by lia. apply Z.divide_pos_le in UJ; lia.
    + apply neg_Forall_Exists_neg in F; [|intros a; apply Zdivide_dec]. apply Exists_exists in F as (a & Ha & NA). exists (Z.of_nat a). split; [|exact NA]. apply residues_in in Ha as (_ & G). rewrite gcd_nat, G. reflexivity.
Qed.
