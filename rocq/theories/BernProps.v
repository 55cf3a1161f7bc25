(** C133-C135: Bernoulli numbers, sums of powers, discrete integrals of polynomials. *)
From Coq Require Import Ring Ring_theory QArith Qcanon.
From Verif Require Import Lib RingSpec RingProofs HolderSpec PolyModel BernSpec BernModel BernProofs BernProofs2 SerProps.
Open Scope nat_scope.

Section Props.
  Context {R : Type} (zero one : R) (add mul sub : R -> R -> R) (opp : R -> R).
  Hypothesis Rth : ring_theory zero one add mul sub opp (@eq R).
  Add Ring Rbp : Rth.
  Variables (idiv : R -> nat -> option R) (ofint : nat -> R) (teqb : R -> R -> bool) (dflt : R).
  Hypothesis teqb_spec : forall x y, teqb x y = true <-> x = y.
  Hypothesis ofint_ok : forall k, ofint k = rnat zero one add k.
  Hypothesis idiv_ok : divides_by_units zero one add mul idiv.

  (** bernoulli_b(n): the Bernoulli numbers up to index n, if 1, ..., n+1 have inverses *)
  Theorem C133_bernoulli : forall n, (forall k, 1 <= k <= n + 1 -> unit one mul (rnat zero one add k)) ->
    exists b, bernoulli_b mul sub idiv ofint dflt n one = Some b /\ length b = n + 1 /\ bernoulli_upto zero one add mul n (fun i => nth i b zero).
  Proof using Rth ofint_ok idiv_ok. exact (bernoulli_run zero one add mul sub opp Rth idiv ofint dflt ofint_ok idiv_ok). Qed.
  (** the recurrence has one solution *)
  Theorem C133_unique : forall n b b', (forall k, 1 <= k <= n + 1 -> unit one mul (rnat zero one add k)) ->
    bernoulli_upto zero one add mul n b -> bernoulli_upto zero one add mul n b' -> forall i, i <= n -> b i = b' i.
  Proof using Rth.
    intros n b b' HU Hb Hb'. intros i. induction i as [i IH] using lt_wf_ind. intros Hi. pose proof (Hb i Hi) as E. pose proof (Hb' i Hi) as E'. rewrite <- E' in E. cbn [rsum] in E.
    rewrite (rsum_ext zero add i _ (fun k => mul (rnat zero one add (choose (S i) k)) (b' k))) in E by (intros k Hk; rewrite (IH k Hk) by lia; reflexivity).
    apply (unit_cancel zero one add mul sub opp Rth (rnat zero one add (choose (S i) i))).
    - rewrite choose_sym by lia. replace (S i - i) with 1 by lia. replace (choose (S i) 1) with (i + 1); [apply HU; lia|]. clear. induction i as [|i IH]; [reflexivity|]. cbn [choose] in *. rewrite <- IH. lia.
    - set (s := rsum zero add i _) in E. transitivity (sub (add s (mul (rnat zero one add (choose (S i) i)) (b i))) s); [ring|]. rewrite E. ring.
  Qed.
  (** sum_pow(p, N, B) *)
  Theorem C134_sum_pow : forall p N B, (forall k, 1 <= k <= p + 1 -> unit one mul (rnat zero one add k)) ->
    p < length B -> bernoulli_upto zero one add mul p (fun i => nth i B zero) ->
    sum_pow zero one add mul idiv ofint p N B = Some (power_sum zero one add mul p N).
  Proof using Rth ofint_ok idiv_ok. exact (sum_pow_run zero one add mul sub opp Rth idiv ofint ofint_ok idiv_ok). Qed.
  (** any sequence of calls sum_pow(p, n) that share the static vector *)
  Theorem C134_history : forall M cs, (forall k, 1 <= k <= M -> unit one mul (rnat zero one add k)) -> Forall (fun '(p, n) => p + p / 2 + 1 <= M) cs ->
    sum_pow_calls zero one add mul sub idiv ofint dflt cs [] = Some (map (fun '(p, n) => power_sum zero one add mul p n) cs).
  Proof using Rth ofint_ok idiv_ok. intros M cs HU F. apply (sum_pow_history zero one add mul sub opp Rth idiv ofint dflt ofint_ok idiv_ok M); auto. Qed.
  (** polynom_sum(p) *)
  Theorem C135_polynom_sum : forall p, (forall k, 1 <= k <= length p -> unit one mul (rnat zero one add k)) -> p <> [] ->
    exists s, polynom_sum zero one add mul sub idiv ofint teqb dflt p = Some s /\
      (forall N, poly_value zero one add mul s (rnat zero one add N) = rsum zero add N (fun i => poly_value zero one add mul p (rnat zero one add (S i)))) /\
      poly_value zero one add mul s zero = zero /\
      forall x, sub (poly_value zero one add mul s (add x one)) (poly_value zero one add mul s x) = poly_value zero one add mul p (add x one).
  Proof using Rth teqb_spec ofint_ok idiv_ok.
    intros p HU Hp. destruct (polynom_sum_run zero one add mul sub opp Rth idiv ofint teqb dflt teqb_spec ofint_ok idiv_ok p) as (s & E & H0 & Hs).
    - intros k Hk. apply HU. pose proof (proj1 (PolyProofs3.deg_spec zero teqb teqb_spec p)). destruct p; [contradiction|]. cbn [length] in *. lia.
    - exists s. split; [exact E|]. split; [|split; assumption]. now apply (polynom_sum_at zero one add mul sub opp Rth).
  Qed.
End Props.

(** The vector grows by half of its size: the second call below asks for B_7 and so for 1/8, 1/7, although it needs only 1/6. Without the
    first call it succeeds. Integers modulo 7. *)
Definition m7_div (a : Z) (k : nat) : option Z := if (Z.of_nat k mod 7 =? 0)%Z then None else Some ((a * Z.of_nat k ^ 5) mod 7)%Z.
Definition m7_calls := sum_pow_calls 0%Z 1%Z (fun a b => ((a + b) mod 7)%Z) (fun a b => ((a * b) mod 7)%Z) (fun a b => ((a - b) mod 7)%Z) m7_div (fun k => (Z.of_nat k mod 7)%Z) 0%Z.
Theorem C134_growth_refuted : m7_calls [(5, 3)] [] = Some [3%Z] /\ m7_calls [(4, 3)] [] = Some [0%Z] /\ m7_calls [(4, 3); (5, 3)] [] = None.
Proof. now vm_compute. Qed.

(** rational numbers *)
Definition q_idiv (a : Qc) (k : nat) : option Qc := qdiv a (qint (Z.of_nat k)).
Lemma q_idiv_ok : divides_by_units q0 q1 Qcplus Qcmult q_idiv.
Proof.
  intros a k (u & Hu). unfold q_idiv. rewrite qc_int. rewrite (qc_div a _ u); [|rewrite Qcmult_comm; exact Hu]. eexists. split; [reflexivity|]. rewrite <- Qcmult_assoc, Hu. apply Qcmult_1_r.
Qed.
Example C133_case : ring_theory q0 q1 Qcplus Qcmult Qcminus Qcopp (@eq Qc) /\ divides_by_units q0 q1 Qcplus Qcmult q_idiv /\ (forall k, 1 <= k -> unit q1 Qcmult (rnat q0 q1 Qcplus k)) /\
  option_map (map this) (bernoulli_b Qcmult Qcminus q_idiv (fun k => qint (Z.of_nat k)) q0 8 q1) = Some [1; 1 # 2; 1 # 6; 0; - 1 # 30; 0; 1 # 42; 0; - 1 # 30]%Q.
Proof.
  split; [exact Qcrt|]. split; [exact q_idiv_ok|]. split; [|vm_compute; reflexivity]. intros k Hk. exists (qinv k). rewrite Qcmult_comm. apply qc_inv. exact Hk.
Qed.
Example C134_case : option_map (map this) (sum_pow_calls q0 q1 Qcplus Qcmult Qcminus q_idiv (fun k => qint (Z.of_nat k)) q0 [(5, 10); (2, 100); (7, 3)] []) = Some [220825; 338350; 2316]%Q.
Proof. vm_compute. reflexivity. Qed.
Example C135_case : option_map (map this) (polynom_sum q0 q1 Qcplus Qcmult Qcminus q_idiv (fun k => qint (Z.of_nat k)) Qc_eq_bool q0 [qint 1; q0; qint 3]) = Some [0; 3 # 2; 3 # 2; 1]%Q.
Proof. vm_compute. reflexivity. Qed.
Print Assumptions C133_bernoulli.
Print Assumptions C133_unique.
Print Assumptions C134_sum_pow.
Print Assumptions C134_history.
Print Assumptions C135_polynom_sum.
Print Assumptions C134_growth_refuted.
