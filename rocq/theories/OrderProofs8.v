(** Discrete logarithms modulo m and modulo 2^s. *)
From Coq Require Import Znumtheory.
From Verif Require Import Lib BaseModel BaseProofs PrimesSpec PrimesProofs NumTheory NumTheory2 ModuloModel ModuloProofs ModPowModel ModPowProofs RootsModel RootsProofs RootsProofs2 OrderSpec OrderModel OrderProofs OrderProofs2 OrderProofs3 OrderProofs4 OrderProofs5 OrderProofs6 OrderProofs7.
Open Scope Z_scope.

Section Mod.
Variable m : Z.
Hypothesis HM : 0 < m.
Notation gp := (gpow (mm m) (1 mod m)).
Lemma brute_bound a b x : 0 <= x -> gp (a mod m) (Z.to_nat x) = b mod m -> (forall j, 0 <= j < x -> gp (a mod m) (Z.to_nat j) <> b mod m) -> x < m.
Proof.
  intros X E N. assert (INJ : forall i j, 0 <= i < j -> j <= x -> gp (a mod m) (Z.to_nat i) <> gp (a mod m) (Z.to_nat j)).
  { intros i j I J Q. destruct (fold_back (mm m) (1 mod m) (res m) (resM m HM) (a mod m) i j (resm m HM a) I Q x X) as (k & K & KE). apply (N k); [lia|congruence]. }
  assert (L : (S (Z.to_nat x) <= Z.to_nat m)%nat); [|lia]. rewrite <- (seq_length (S (Z.to_nat x)) 0), <- (seq_length (Z.to_nat m) 0). rewrite <- (map_length (fun i => Z.to_nat (gp (a mod m) i)) (seq 0 (S (Z.to_nat x)))). apply NoDup_incl_length.
  - assert (GB : forall i, 0 <= gp (a mod m) i) by (intros i; apply (gp_ok (mm m) (1 mod m) (res m) (resM m HM) (a mod m) i (resm m HM a))).
    assert (ND : forall k s, (s + k <= S (Z.to_nat x))%nat -> NoDup (map (fun i => Z.to_nat (gp (a mod m) i)) (seq s k))).
    { induction k as [|k IH]; intros s S0; [constructor|]. cbn [seq map]. constructor; [|apply IH; lia]. intros Q. apply in_map_iff in Q as (j & Q & J). apply in_seq in J. pose proof (GB j). pose proof (GB s). apply (INJ (Z.of_nat s) (Z.of_nat j)); [lia|lia|]. rewrite !Nat2Z.id. lia. }
    apply ND. lia.
  - intros y Y. apply in_map_iff in Y as (i & <- & _). pose proof (gp_ok (mm m) (1 mod m) (res m) (resM m HM) (a mod m) i (resm m HM a)) as (B1 & B2). apply in_seq. lia.
Qed.
Theorem brute_mod_ok a b : exists r, discrete_log_brute_force a b m = Some r /\ least_log a b m r.
Proof.
  unfold discrete_log_brute_force. rewrite !modT_spec by exact HM. cbn [obind]. destruct (brute_ok (mm m) (1 mod m) Z.eqb (res m) (resM m HM) (resE m) (a mod m) (b mod m) m (resm m HM a) (resm m HM b)) as (r & E & R). exists r. split; [exact E|].
  destruct R as [(RB & RE & RN)|(R & RN)]; [left|right].
  - split; [lia|]. split; [apply gp_dvd; [exact HM|lia|exact RE]|]. intros x X D. apply (RN x X). apply gp_dvd; [exact HM|lia|exact D].
  - split; [exact R|]. intros x X D. apply gp_dvd in D; [|exact HM|exact X]. destruct (least_exponent (mm m) (1 mod m) Z.eqb (res m) (resM m HM) (resE m) (a mod m) (b mod m) x (resm m HM a) (resm m HM b) X D) as (y & Y & YE & YN). apply (RN y); [|exact YE]. split; [lia|]. apply (brute_bound a b y); [lia|exact YE|exact YN].
Qed.
Variable root : Z -> Z.
Hypothesis RT : is_isqrt root.
Theorem baby_giant_mod_ok a b n : 0 < n -> (m | a ^ n - 1) -> exists r, discrete_log_baby_giant root a b m n = Some r /\ least_log a b m r /\ r < n.
Proof.
  intros N D. unfold discrete_log_baby_giant. rewrite !modT_spec by exact HM. cbn [obind]. destruct (baby_giant_ok (mm m) (1 mod m) Z.eqb (res m) root (resM m HM) (resE m) RT (a mod m) (b mod m) n (resm m HM a) (resm m HM b) N) as (r & E & R); [apply gp_dvd; [exact HM|lia|exact D]|]. exists r. split; [exact E|].
  destruct R as [(RB & RE & RN)|(R & RN)]; (split; [|lia]); [left|right].
  - split; [lia|]. split; [apply gp_dvd; [exact HM|lia|exact RE]|]. intros x X D'. apply (RN x X). apply gp_dvd; [exact HM|lia|exact D'].
  - split; [exact R|]. intros x X D'. apply (RN x X). apply gp_dvd; [exact HM|lia|exact D'].
Qed.
Theorem discrete_log_mod_ok a b phi fs X : 0 < phi -> (m | a ^ phi - 1) -> prime_factors_of phi fs -> 0 <= X -> (m | a ^ X - b) ->
  exists x o, discrete_log root a b m phi fs = Some (x, o) /\ order_mod a m o /\ 0 <= x < o /\ least_log a b m x.
Proof.
  intros P D F HX XE. unfold discrete_log. rewrite !modT_spec by exact HM. cbn [obind]. destruct (discrete_log_ok (mm m) (1 mod m) Z.eqb (res m) root (resM m HM) (resE m) RT (a mod m) (b mod m) phi fs (Z.to_nat X) (resm m HM a) P) as (x & o & E & O & XB & RE & RN); [apply gp_dvd; [exact HM|lia|exact D]|exact F|symmetry; apply gp_dvd; [exact HM|exact HX|exact XE]|].
  exists x, o. split; [exact E|]. split; [now apply order_bridge|]. split; [exact XB|]. left. split; [lia|]. split; [apply gp_dvd; [exact HM|lia|exact RE]|]. intros y Y D'. apply (RN y Y). apply gp_dvd; [exact HM|lia|exact D'].
Qed.
End Mod.
Lemma prime_unit (p : nat) a : is_prime p -> ~ (Z.of_nat p | a) -> Z.gcd a (Z.of_nat p) = 1.
Proof. intros P N. pose proof (coprime_pow p a 1 P N) as H. change (Z.of_nat 1) with 1 in H. now rewrite Z.pow_1_r in H. Qed.
Lemma fermat_Z (p : nat) a : is_prime p -> ~ (Z.of_nat p | a) -> (Z.of_nat p | a ^ (Z.of_nat p - 1) - 1).
Proof. intros P N. pose proof (prime_ge p P). pose proof (euler_Z a (Z.of_nat p) ltac:(lia) (prime_unit p a P N)) as E. rewrite Nat2Z.id, totient_prime in E by exact P. now replace (Z.of_nat (p - 1)) with (Z.of_nat p - 1) in E by lia. Qed.
Theorem oddp_ok root (p : nat) a b : is_isqrt root -> is_prime p -> ~ (Z.of_nat p | a) -> exists r, discrete_log_oddp root a b (Z.of_nat p) = Some r /\ least_log a b (Z.of_nat p) r /\ r < Z.of_nat p - 1.
Proof.
  intros RT P N. pose proof (prime_ge p P) as P2. pose proof (fermat_Z p a P N) as F. unfold discrete_log_oddp. destruct (Z.ltb_spec (Z.of_nat p) 1100).
  - destruct (brute_mod_ok (Z.of_nat p) ltac:(lia) a b) as (r & E & R). exists r. split; [exact E|]. split; [exact R|]. destruct R as [(R0 & RE & RN)|(-> & _)]; [|lia]. destruct (Z.lt_ge_cases r (Z.of_nat p - 1)) as [|L]; [assumption|exfalso]. apply (RN (r - (Z.of_nat p - 1))); [lia|].
    replace (a ^ (r - (Z.of_nat p - 1)) - b) with ((a ^ r - b) - (a ^ (Z.of_nat p - 1) - 1) * a ^ (r - (Z.of_nat p - 1))); [apply Z.divide_sub_r; [exact RE|now apply Z.divide_mul_l]|]. replace (a ^ r) with (a ^ (Z.of_nat p - 1) * a ^ (r - (Z.of_nat p - 1))) by (rewrite <- Z.pow_add_r by lia; f_equal; lia). ring.
  - unfold discrete_log_shanks. apply baby_giant_mod_ok; [lia|exact RT|lia|exact F].
Qed.

(** ** modulo 2^s *)
Lemma shift_log m a o X b N : 0 < m -> order_mod a m o -> 0 <= X -> (m | a ^ X - b) -> exists X', N <= X' /\ 0 <= X' /\ (m | a ^ X' - b).
Proof.
  intros H O HX D. pose proof O as (O0 & _). exists (X + o * Z.max 0 N). split; [nia|]. split; [nia|]. replace (a ^ (X + o * Z.max 0 N) - b) with ((a ^ (X + o * Z.max 0 N) - a ^ X) + (a ^ X - b)) by ring. apply Z.divide_add_r; [|exact D]. apply (om_cong m H a o); [exact O|nia|lia|]. exists (Z.max 0 N). ring.
Qed.
Lemma powZ_run x s : 0 <= s -> powT Z.mul 1 x s = Some (x ^ s).
Proof.
  intros H. pose proof (powT_gp Z.mul 1 (fun _ => True)) as P. rewrite P; [|repeat split; intros; ring|exact Logic.I|exact H]. f_equal. rewrite <- (Z2Nat.id s) at 2 by exact H. generalize (Z.to_nat s). induction n as [|n IH]; [reflexivity|]. cbn [gpow]. rewrite IH, Nat2Z.inj_succ, Z.pow_succ_r by lia. reflexivity.
Qed.
