(** The algorithm computes the Jacobi symbol. *)
From Verif Require Import Lib BaseModel ModuloModel PrimesSpec PrimesProofs NumTheory NumTheory2 NumTheory3 NumTheory4 JacobiSpec JacobiModel.
Open Scope Z_scope.

Lemma odd_cons p ps : odd_primes (p :: ps) <-> (is_prime p /\ p <> 2%nat) /\ odd_primes ps.
Proof. unfold odd_primes. cbn [In]. split; [intros H; split; [apply H; now left|intros q Q; apply H; now right]|intros (H1 & H2) q [<-|Q]; auto]. Qed.
Lemma value_cons p ps : value_of (p :: ps) = Z.of_nat p * value_of ps. Proof. reflexivity. Qed.
Lemma jac_cons a p ps : jacobi_symbol a (p :: ps) = legendre a p * jacobi_symbol a ps. Proof. reflexivity. Qed.
Lemma value_pos ps : odd_primes ps -> 0 < value_of ps /\ Z.odd (value_of ps) = true.
Proof.
  induction ps as [|p ps IH]; intros O; [cbn; split; [lia|reflexivity]|]. apply odd_cons in O as ((P & N) & O). destruct (IH O) as (V & W). rewrite value_cons, Z.odd_mul, W. pose proof (pz_half p P N) as H. pose proof (pz3 p P N). split; [nia|]. rewrite H, Z.add_comm, Z.odd_add_mul_2. reflexivity.
Qed.
Lemma jac_mul a b ps : odd_primes ps -> jacobi_symbol (a * b) ps = jacobi_symbol a ps * jacobi_symbol b ps.
Proof. induction ps as [|p ps IH]; intros O; [reflexivity|]. apply odd_cons in O as ((P & N) & O). rewrite !jac_cons, IH, legendre_mul by assumption. ring. Qed.
Lemma jac_cong a b ps : odd_primes ps -> (value_of ps | a - b) -> jacobi_symbol a ps = jacobi_symbol b ps.
Proof.
  induction ps as [|p ps IH]; intros O D; [reflexivity|]. apply odd_cons in O as ((P & N) & O). rewrite value_cons in D. rewrite !jac_cons. f_equal; [apply legendre_cong; [exact P|exact N|]|apply IH; [exact O|]]; (eapply Z.divide_trans; [|exact D]); [apply Z.divide_factor_l|apply Z.divide_factor_r].
Qed.
Lemma jac_1 ps : odd_primes ps -> jacobi_symbol 1 ps = 1.
Proof. induction ps as [|p ps IH]; intros O; [reflexivity|]. apply odd_cons in O as ((P & N) & O). now rewrite jac_cons, IH, legendre_1. Qed.
Lemma odd_mod8 m : Z.odd m = true -> m mod 8 = 1 \/ m mod 8 = 3 \/ m mod 8 = 5 \/ m mod 8 = 7.
Proof. intros O. apply Z.odd_spec in O as (c & ->). pose proof (Z.div_mod (2 * c + 1) 8 ltac:(lia)). pose proof (Z.mod_pos_bound (2 * c + 1) 8 ltac:(lia)). lia. Qed.
Lemma odd_mod4 m : Z.odd m = true -> m mod 4 = 1 \/ m mod 4 = 3.
Proof. intros O. apply Z.odd_spec in O as (c & ->). pose proof (Z.div_mod (2 * c + 1) 4 ltac:(lia)). pose proof (Z.mod_pos_bound (2 * c + 1) 4 ltac:(lia)). lia. Qed.
Lemma chi8_mul m n : Z.odd m = true -> Z.odd n = true -> chi8 (m * n) = chi8 m * chi8 n.
Proof.
  intros M N. unfold chi8. rewrite (Z.mul_mod m n 8) by lia. destruct (odd_mod8 m M) as [->|[->|[->| ->]]], (odd_mod8 n N) as [->|[->|[->| ->]]]; reflexivity.
Qed.
Lemma eps_mul m n k : Z.odd m = true -> Z.odd n = true -> eps (m * n) k = eps m k * eps n k.
Proof. intros M N. unfold eps. rewrite (Z.mul_mod m n 4) by lia. destruct (odd_mod4 m M) as [->| ->], (odd_mod4 n N) as [->| ->]; cbn [Z.eqb Pos.eqb andb Z.mul Pos.mul Z.modulo Z.div_eucl Z.pos_div_eucl]; destruct (k mod 4 =? 3); reflexivity. Qed.
Lemma eps_sym m n : eps m n = eps n m. Proof. unfold eps. now rewrite Bool.andb_comm. Qed.
Lemma jac_2 ps : odd_primes ps -> jacobi_symbol 2 ps = chi8 (value_of ps).
Proof. induction ps as [|p ps IH]; intros O; [reflexivity|]. apply odd_cons in O as ((P & N) & O). rewrite jac_cons, IH, value_cons, legendre_2, chi8_mul; auto; [pose proof (pz_half p P N) as H; rewrite H, Z.add_comm, Z.odd_add_mul_2; reflexivity|now apply value_pos]. Qed.
Lemma odd_prime_odd p : is_prime p -> p <> 2%nat -> Z.odd (Z.of_nat p) = true.
Proof. intros P N. pose proof (pz_half p P N) as H. rewrite H, Z.add_comm, Z.odd_add_mul_2. reflexivity. Qed.
Lemma jac_recip1 p qs : is_prime p -> p <> 2%nat -> odd_primes qs -> legendre (value_of qs) p = jacobi_symbol (Z.of_nat p) qs * eps (Z.of_nat p) (value_of qs).
Proof.
  intros P N. induction qs as [|q qs IH]; intros O; [cbn [value_of map zprod fold_right]; rewrite legendre_1 by assumption; unfold eps; rewrite (Z.mod_small 1 4) by lia; cbn [Z.eqb]; rewrite Bool.andb_false_r; reflexivity|].
  apply odd_cons in O as ((Q & NQ) & O). destruct (value_pos qs O) as (_ & OV). rewrite value_cons, legendre_mul, IH, jac_cons, (reciprocity p q) by assumption. rewrite (eps_sym _ (Z.of_nat q * value_of qs)), eps_mul, (eps_sym (Z.of_nat q)), (eps_sym (value_of qs)) by (try assumption; now apply odd_prime_odd). ring.
Qed.
Lemma jac_recip ps qs : odd_primes ps -> odd_primes qs -> jacobi_symbol (value_of qs) ps = jacobi_symbol (value_of ps) qs * eps (value_of ps) (value_of qs).
Proof.
  intros OP OQ. revert OP. induction ps as [|p ps IH]; intros O; [cbn [value_of map zprod fold_right jacobi_symbol]; rewrite jac_1 by assumption; unfold eps; rewrite (Z.mod_small 1 4) by lia; reflexivity|].
  apply odd_cons in O as ((P & N) & O). destruct (value_pos ps O) as (_ & OV). rewrite jac_cons, IH, value_cons, jac_recip1, jac_mul, eps_mul by (try assumption; now apply odd_prime_odd). ring.
Qed.
(** every odd number has such a factorisation *)
Lemma odd_factored n : 0 < n -> Z.odd n = true -> exists ps, odd_primes ps /\ value_of ps = n.
Proof.
  intros N. assert (G : forall k n, 0 < n <= Z.of_nat k -> Z.odd n = true -> exists ps, odd_primes ps /\ value_of ps = n); [|now apply (G (Z.to_nat n)); lia].
  clear n N. induction k as [|k IH]; intros n N O; [lia|]. destruct (Z.eq_dec n 1) as [->|N1]; [exists []; split; [intros p []|reflexivity]|].
  assert (N2 : n <> 2) by (intros ->; discriminate). destruct (least_factor (Z.to_nat n) ltac:(lia)) as (p & P & D & _). apply divide_nat in D. rewrite Z2Nat.id in D by lia. destruct D as (c & D). pose proof (pz_ge p P) as P2. rewrite D, Z.odd_mul in O. apply Bool.andb_true_iff in O as (O1 & O2).
  assert (C : 0 < c) by nia. destruct (IH c ltac:(nia) O1) as (ps & OP & V). exists (p :: ps). split; [apply odd_cons; split; [split; [exact P|]|exact OP]; intros ->; discriminate|]. rewrite value_cons, V, D. ring.
Qed.
Lemma value_one ps : odd_primes ps -> value_of ps = 1 -> ps = [].
Proof. destruct ps as [|p ps]; [reflexivity|]. intros O V. exfalso. apply odd_cons in O as ((P & N) & O). rewrite value_cons in V. pose proof (pz3 p P N). pose proof (value_pos ps O). nia. Qed.
Lemma halve_run n : 0 < n -> exists r e, loopZ (Z.abs n + 1) halve_step (n, 0) = Some (r, e) /\ 0 < r <= n /\ 0 <= e /\ Z.odd r = true /\ n = 2 ^ e * r.
Proof.
  intros N. destruct (loopZ_spec halve_step (fun '(r, e) => 0 < r <= n /\ 0 <= e /\ n = 2 ^ e * r) (fun '(r, e) => 0 < r <= n /\ 0 <= e /\ Z.odd r = true /\ n = 2 ^ e * r) (fun '(r, _) => r)) with (fuel := Z.abs n + 1) (s := (n, 0)) as ((r & e) & E & H).
  - intros (r & e) (R & E & V). cbn [halve_step]. rewrite Z.rem_mod_nonneg by lia. destruct (Z.eqb_spec (r mod 2) 0) as [M|M].
    + eexists. split; [reflexivity|]. cbv beta iota. rewrite Z.quot_div_nonneg by lia. pose proof (Z.div_mod r 2 ltac:(lia)) as DM. rewrite M in DM. split; [|lia]. split; [lia|]. split; [lia|]. rewrite Z.pow_add_r by lia. rewrite V, DM at 1. rewrite Z.pow_1_r. ring.
    + eexists. split; [reflexivity|]. cbv beta iota. split; [exact R|]. split; [exact E|]. split; [|exact V]. rewrite <- Z.negb_even, Z.even_spec || idtac. rewrite Zmod_odd in M. destruct (Z.odd r); [reflexivity|lia].
  - intros (r & e) (R & _). lia.
  - split; [lia|]. split; [lia|]. rewrite Z.pow_0_r. lia.
  - lia.
  - exists r, e. auto.
Qed.
Lemma jac_pow2 e ps : odd_primes ps -> 0 <= e -> jacobi_symbol (2 ^ e) ps = if Z.odd e then chi8 (value_of ps) else 1.
Proof.
  intros O. revert e. apply natlike_ind; [rewrite Z.pow_0_r; now apply jac_1|]. intros e E IH. rewrite Z.pow_succ_r, jac_mul, IH, jac_2, Z.odd_succ, <- Z.negb_odd by assumption. destruct (Z.odd e); cbn [negb]; [|ring]. unfold chi8. destruct (_ || _); reflexivity.
Qed.
Lemma jacobi_run n ps : 0 <= n -> odd_primes ps -> jacobi n (value_of ps) = Some (jacobi_symbol n ps).
Proof.
  intros N O. unfold jacobi. set (V := jacobi_symbol n ps). destruct (value_pos ps O) as (VP & _).
  destruct (loopZ_spec jacobi_step (fun '(n, m, j) => 0 <= n /\ exists ps, odd_primes ps /\ value_of ps = m /\ j * jacobi_symbol n ps = V) (fun r => r = V) (fun '(_, m, _) => m)) with (fuel := Z.abs (value_of ps) + 2) (s := (n, value_of ps, 1)) as (r & E & H).
  - clearbody V. clear n ps N O VP.
    intros ((n & m) & j) (N & ps & O & EM & J). destruct (value_pos ps O) as (MP & MO). rewrite EM in MP, MO. cbn [jacobi_step]. destruct (Z.eqb_spec m 1) as [M1|M1].
    { eexists. split; [reflexivity|]. cbv beta iota. rewrite (value_one ps O) in J by congruence. cbn in J. lia. }
    unfold cmod. destruct (Z.eqb_spec m 0) as [|_]; [lia|]. cbn [obind]. rewrite Z.rem_mod_nonneg by lia. pose proof (Z.mod_pos_bound n m MP) as B.
    assert (JM : jacobi_symbol n ps = jacobi_symbol (n mod m) ps) by (apply jac_cong; [exact O|]; rewrite EM; exists (n / m); pose proof (Z.div_mod n m ltac:(lia)); lia). rewrite JM in J. set (k := n mod m) in *.
    destruct (Z.eqb_spec k 0) as [K|K].
    { eexists. split; [reflexivity|]. cbv beta iota. rewrite K in J. destruct ps as [|p ps]; [cbn in EM; lia|]. apply odd_cons in O as ((P & NP) & _). rewrite jac_cons, legendre_0 in J by assumption. lia. }
    destruct (halve_run k ltac:(lia)) as (r & e & -> & R & Ee & RO & KE). cbn [obind]. eexists. split; [reflexivity|]. cbv beta iota. split; [|lia]. split; [lia|].
    destruct (odd_factored r ltac:(lia) RO) as (qs & OQ & EQ). exists qs. split; [exact OQ|]. split; [exact EQ|]. rewrite <- J, KE, jac_mul, jac_pow2 by assumption. rewrite <- EQ at 2. rewrite (jac_recip ps qs O OQ), EM, EQ. rewrite !Z.rem_mod_nonneg by lia. unfold chi8, eps. rewrite (Zmod_odd e).
    assert (C : forall a b : bool, (if a then 1 else 0) =? 1 = a) by (intros [] _; reflexivity). rewrite (C _ true). rewrite (Bool.andb_comm (m mod 4 =? 3)).
    destruct (odd_mod8 m MO) as [->|[->|[->| ->]]], (Z.odd e), ((r mod 4 =? 3) && (m mod 4 =? 3)); cbn [Z.eqb Pos.eqb andb orb]; ring.
  - intros ((n' & m) & j) (_ & ps' & O' & EM & _). pose proof (value_pos ps' O'). lia.
  - split; [exact N|]. exists ps. split; [exact O|]. split; [reflexivity|]. unfold V. ring.
  - lia.
  - now rewrite E, H.
Qed.
