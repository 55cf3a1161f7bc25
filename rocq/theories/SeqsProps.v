(** C136-C138: figurate numbers, summatory divisor functions, sums of powers weighted by powers. *)
From Coq Require Import Ring Ring_theory QArith Qcanon.
From Verif Require Import Lib RingSpec RingProofs PrimesSpec HolderSpec BernSpec BernProofs2 SeriesSpec SerSpec SumsModel SeqsSpec SeqsModel SeqsProofs SeqsProofs2 PiProofs3 RootsModel SumsProps SerProps.
Open Scope nat_scope.

Section Props.
  Context {R : Type} (zero one : R) (add mul sub : R -> R -> R) (opp : R -> R).
  Hypothesis Rth : ring_theory zero one add mul sub opp (@eq R).
  Add Ring Rsp : Rth.
  Variables (cast : Z -> R) (idiv : R -> nat -> R).
  Hypothesis cast_ok : forall n, cast (Z.of_nat n) = rnat zero one add n.
  Local Notation exact := (exact_div zero one add mul idiv). Local Notation power_sum := (power_sum zero one add mul). Local Notation rnat := (rnat zero one add). Local Notation rpow := (rpow one mul).

  Theorem C136_powers : forall n, sq_identity cast (Z.of_nat n) = rnat n /\ sq_square mul cast (Z.of_nat n) = rpow (rnat n) 2 /\ sq_cube mul cast (Z.of_nat n) = rpow (rnat n) 3.
  Proof using Rth cast_ok. intros n. unfold sq_identity, sq_square, sq_cube. rewrite cast_ok. cbn [RingSpec.rpow]. repeat split; ring. Qed.
  (** 1 + 2 + ... + n *)
  Theorem C136_triangular : exact 2 -> forall n, sq_triangular add mul cast idiv (Z.of_nat n) = power_sum 1 n.
  Proof using Rth cast_ok. intros H n. now apply (triangular_ok zero one add mul sub opp Rth). Qed.
  (** the sum of the first n triangular numbers *)
  Theorem C136_tetrahedral : exact 6 -> forall n, sq_tetrahedral add mul cast idiv (Z.of_nat n) = rsum zero add n (fun i => power_sum 1 (S i)).
  Proof using Rth cast_ok. intros H n. now apply (tetrahedral_ok zero one add mul sub opp Rth). Qed.
  (** 1^2 + ... + n^2 *)
  Theorem C136_pyramidal : exact 6 -> forall n, sq_pyramidal add mul cast idiv (Z.of_nat n) = power_sum 2 n.
  Proof using Rth cast_ok. intros H n. now apply (pyramidal_ok zero one add mul sub opp Rth). Qed.
  (** two square pyramids on a common base *)
  Theorem C136_octahedral : exact 3 -> exact 2 -> forall n, sq_octahedral add mul cast idiv (Z.of_nat (S n)) = add (power_sum 2 (S n)) (power_sum 2 n).
  Proof using Rth cast_ok. intros H H2 n. now apply (octahedral_ok zero one add mul sub opp Rth). Qed.
  (** C(3n, 3) *)
  Theorem C136_dodecahedral : exact 2 -> exact 3 -> forall n, sq_dodecahedral mul sub cast idiv (Z.of_nat n) = rnat (choose (3 * n) 3).
  Proof using Rth cast_ok. intros H H2 n. now apply (dodecahedral_ok zero one add mul sub opp Rth). Qed.
  (** n (5 n^2 - 5 n + 2) / 2 *)
  Theorem C136_icosahedral : exact 2 -> forall n, mul (sq_icosahedral add mul sub cast idiv (Z.of_nat n)) (rnat 2) = add (sub (mul (rnat 5) (rpow (rnat n) 3)) (mul (rnat 5) (rpow (rnat n) 2))) (mul (rnat 2) (rnat n)).
  Proof using Rth cast_ok. intros H n. now apply (icosahedral_ok zero one add mul sub opp Rth). Qed.

  (** [root] is whatever sqrtT returns (C57) *)
  Variable root : Z -> option Z.
  Hypothesis root_ok : forall n, (1 <= n)%Z -> exists q, root n = Some q /\ (1 <= q)%Z.
  (** Sum_{m<=n} Sum_{d|m} d^e *)
  Local Notation sigmas e n := (rsum zero add n (fun i => div_sum zero add (fun d => rpow (rnat d) e) (S i))).
  Theorem C137_sigma0 : forall n, sum_sigma0 zero one add mul sub cast root (Z.of_nat n) = Some (sigmas 0 n).
  Proof using Rth cast_ok root_ok.
    intros n. unfold sum_sigma0. apply (sigma_ok zero one add mul sub opp Rth cast root cast_ok root_ok); [reflexivity|]. intros i. unfold sq_identity. rewrite cast_ok. cbn [RingSpec.rpow]. rewrite (rsum_const zero one add mul sub opp Rth). ring.
  Qed.
  Theorem C137_sigma1 : exact 2 -> forall n, sum_sigma1 zero add mul sub cast idiv root (Z.of_nat n) = Some (sigmas 1 n).
  Proof using Rth cast_ok root_ok.
    intros H n. unfold sum_sigma1. apply (sigma_ok zero one add mul sub opp Rth cast root cast_ok root_ok).
    - intros i. unfold sq_identity. rewrite cast_ok. cbn [RingSpec.rpow]. ring.
    - intros i. rewrite (triangular_ok zero one add mul sub opp Rth) by assumption. reflexivity.
  Qed.
  Theorem C137_sigma2 : exact 6 -> forall n, sum_sigma2 zero add mul sub cast idiv root (Z.of_nat n) = Some (sigmas 2 n).
  Proof using Rth cast_ok root_ok.
    intros H n. unfold sum_sigma2. apply (sigma_ok zero one add mul sub opp Rth cast root cast_ok root_ok).
    - intros i. unfold sq_square. rewrite cast_ok. cbn [RingSpec.rpow]. ring.
    - intros i. rewrite (pyramidal_ok zero one add mul sub opp Rth) by assumption. reflexivity.
  Qed.

  (** sum_powx(m, x, n), if division by (x-1)^(m+1) undoes multiplication by it *)
  Variable tdiv : R -> R -> option R.
  Theorem C138_sum_powx : forall m x n, (forall a, tdiv (mul a (rpow (sub x one) (m + 1))) (rpow (sub x one) (m + 1)) = Some a) ->
    sum_powx zero one add mul sub opp cast tdiv m x n = Some (powx_sum zero one add mul m x n).
  Proof using Rth cast_ok. intros m x n. now apply (powx_run zero one add mul sub opp Rth cast cast_ok). Qed.
  (** in particular wherever x-1 has an inverse *)
  Theorem C138_invertible : (forall a y u, mul y u = one -> tdiv a y = Some (mul a u)) -> forall m x n, unit one mul (sub x one) ->
    sum_powx zero one add mul sub opp cast tdiv m x n = Some (powx_sum zero one add mul m x n).
  Proof using Rth cast_ok.
    intros Hd m x n (u & U). apply C138_sum_powx. intros a. assert (E : mul (rpow (sub x one) (m + 1)) (rpow u (m + 1)) = one) by (rewrite <- (rpow_mul_l zero one add mul sub opp Rth); first [rewrite U|rewrite (Rmul_comm Rth), U]; apply (rpow_1 zero one add mul sub opp Rth)).
    rewrite (Hd _ _ _ E). f_equal. transitivity (mul a (mul (rpow (sub x one) (m + 1)) (rpow u (m + 1)))); [ring|]. rewrite E. ring.
  Qed.
End Props.

(** ** the integers *)
Definition z_idiv (a : Z) (k : nat) : Z := Z.quot a (Z.of_nat k).
Definition z_tdiv (a b : Z) : option Z := if (b =? 0)%Z then None else Some (Z.quot a b).
Lemma z_exact k : 1 <= k -> exact_div 0%Z 1%Z Z.add Z.mul z_idiv k.
Proof. intros Hk c. unfold z_idiv. rewrite rnat_Z. apply Z.quot_mul. lia. Qed.
(** sum_powx is also right over the integers, for x <> 1 *)
Theorem C138_integers : forall m x n, x <> 1%Z ->
  sum_powx 0%Z 1%Z Z.add Z.mul Z.sub Z.opp (fun k => k) z_tdiv m x n = Some (powx_sum 0%Z 1%Z Z.add Z.mul m x n).
Proof.
  intros m x n Hx. apply (C138_sum_powx 0%Z 1%Z Z.add Z.mul Z.sub Z.opp InitialRing.Zth).
  - intros k. now rewrite rnat_Z.
  - intros a. unfold z_tdiv. assert (N : rpow 1%Z Z.mul (x - 1)%Z (m + 1) <> 0%Z) by (induction (m + 1) as [|k IH]; cbn [rpow]; [lia|intros H; apply Z.mul_eq_0 in H; lia]). destruct (Z.eqb_spec (rpow 1%Z Z.mul (x - 1)%Z (m + 1)) 0); [contradiction|]. f_equal. now apply Z.quot_mul.
Qed.
(** with x = 1 it divides by zero *)
Theorem C138_one_refuted : forall m n, sum_powx 0%Z 1%Z Z.add Z.mul Z.sub Z.opp (fun k => k) z_tdiv m 1%Z n = None.
Proof.
  intros m n. unfold sum_powx. destruct (fold_left _ _ _) as (p, q). assert (E : rpow 1%Z Z.mul (1 - 1)%Z (m + 1) = 0%Z) by (rewrite Nat.add_1_r; cbn [rpow]; lia). rewrite E. reflexivity.
Qed.
Example C136_case : (forall k, 1 <= k -> exact_div 0%Z 1%Z Z.add Z.mul z_idiv k) /\
  map (fun k => sq_triangular Z.add Z.mul (fun k => k) z_idiv k) [0; 1; 2; 10]%Z = [0; 1; 3; 55]%Z /\ map (sq_tetrahedral Z.add Z.mul (fun k => k) z_idiv) [1; 2; 3; 10]%Z = [1; 4; 10; 220]%Z /\
  map (sq_pyramidal Z.add Z.mul (fun k => k) z_idiv) [1; 2; 3; 10]%Z = [1; 5; 14; 385]%Z /\ map (sq_octahedral Z.add Z.mul (fun k => k) z_idiv) [1; 2; 3; 10]%Z = [1; 6; 19; 670]%Z /\
  map (sq_dodecahedral Z.mul Z.sub (fun k => k) z_idiv) [1; 2; 3; 10]%Z = [1; 20; 84; 4060]%Z /\ map (sq_icosahedral Z.add Z.mul Z.sub (fun k => k) z_idiv) [1; 2; 3; 10]%Z = [1; 12; 48; 2260]%Z.
Proof. split; [exact z_exact|]. now vm_compute. Qed.
Example C137_case : (forall n, (1 <= n)%Z -> exists q, (fun n => Some (Z.sqrt n)) n = Some q /\ (1 <= q)%Z) /\
  sum_sigma0 0%Z 1%Z Z.add Z.mul Z.sub (fun k => k) (fun n => Some (Z.sqrt n)) 100%Z = Some 482%Z /\
  sum_sigma1 0%Z Z.add Z.mul Z.sub (fun k => k) z_idiv (fun n => Some (Z.sqrt n)) 100%Z = Some 8299%Z /\
  sum_sigma2 0%Z Z.add Z.mul Z.sub (fun k => k) z_idiv (fun n => Some (Z.sqrt n)) 100%Z = Some 407819%Z.
Proof. split; [|now vm_compute]. intros n Hn. exists (Z.sqrt n). split; [reflexivity|]. apply Z.sqrt_le_square; lia. Qed.
Example C138_case : sum_powx 0%Z 1%Z Z.add Z.mul Z.sub Z.opp (fun k => k) z_tdiv 3 2%Z 5 = Some 5274%Z /\ powx_sum 0%Z 1%Z Z.add Z.mul 3 2%Z 5 = 5274%Z /\
  sum_powx 0%Z 1%Z Z.add Z.mul Z.sub Z.opp (fun k => k) z_tdiv 0 (-3)%Z 4 = Some 60%Z /\ (forall a y u, (y * u)%Qc = q1 -> qdiv a y = Some (a * u)%Qc).
Proof. split; [now vm_compute|]. split; [now vm_compute|]. split; [now vm_compute|]. intros a y u H. exact (qc_div a y u ltac:(first [exact H|rewrite Qcmult_comm; exact H])). Qed.
Print Assumptions C136_powers.
Print Assumptions C136_triangular.
Print Assumptions C136_tetrahedral.
Print Assumptions C136_pyramidal.
Print Assumptions C136_octahedral.
Print Assumptions C136_dodecahedral.
Print Assumptions C136_icosahedral.
Print Assumptions C137_sigma0.
Print Assumptions C137_sigma1.
Print Assumptions C137_sigma2.
Print Assumptions C138_sum_powx.
Print Assumptions C138_invertible.
Print Assumptions C138_integers.
Print Assumptions C138_one_refuted.
