(** Schoolbook multiplication with the table, and the inverse. *)
From Coq Require Import NArith Ring Ring_theory.
From Verif Require Import Lib BitsProofs NimTower NimSpec NimNat NimModel NimProofs.
Open Scope N_scope.
Add Ring nim2 : nim_ring (morphism bool_morph, constants [nim_const]).

Definition tinv (t : table) : Prop := forall m n, t m n = 0 \/ t m n = nm (P m) (P n).
Lemma odd_part c : c <> 0 -> exists v d, c = 2 ^ v * (2 * d + 1).
Proof.
  destruct c as [|p]; [congruence|]. intros _. induction p as [p IH|p IH|].
  - exists 0, (N.pos p). rewrite N.pow_0_r. lia.
  - destruct IH as (v & d & E). exists (N.succ v), d. rewrite N.pow_succ_r'. lia.
  - exists 0, 0. reflexivity.
Qed.
Lemma land_join n d a b : small n a -> small n b -> N.land (N.lxor (N.shiftl d n) a) (N.lxor (N.shiftl d n) b) = N.lxor (N.shiftl d n) (N.land a b).
Proof.
  intros A B. apply N.bits_inj. intros i. rewrite N.land_spec, !N.lxor_spec, N.land_spec. destruct (N.ltb_spec i n) as [L|L].
  - rewrite N.shiftl_spec_low by exact L. now destruct (N.testbit a i), (N.testbit b i).
  - assert (F : forall x, small n x -> N.testbit x i = false). { intros x X. rewrite <- (land_ones_small n x X), N.land_spec, N.ones_spec_high by exact L. apply Bool.andb_false_r. }
    rewrite (F a A), (F b B). now destruct (N.testbit (N.shiftl d n) i).
Qed.
Lemma add_join n d l : small n l -> 2 ^ n * d + l = N.lxor (N.shiftl d n) l.
Proof.
  intros L. rewrite <- (N.mul_comm d), <- N.shiftl_mul_pow2. apply N.add_nocarry_lxor. apply N.bits_inj. intros i. rewrite N.land_spec, N.bits_0. destruct (N.ltb_spec i n) as [H|H]; [now rewrite N.shiftl_spec_low|]. rewrite <- (land_ones_small n l L), N.land_spec, N.ones_spec_high by exact H. now rewrite !Bool.andb_false_r.
Qed.
Lemma clear_low u d : N.land (2 ^ u * (2 * d + 1)) (2 ^ u * (2 * d + 1) - 1) = 2 ^ (u + 1) * d.
Proof.
  pose proof (N.pow_nonzero 2 u ltac:(lia)) as NZ. assert (E2 : 2 ^ (u + 1) = 2 * 2 ^ u) by (rewrite N.add_1_r, N.pow_succ_r'; reflexivity).
  assert (A : small (u + 1) (2 ^ u)) by (apply small_lt; lia). assert (B : small (u + 1) (2 ^ u - 1)) by (apply small_lt; lia).
  replace (2 ^ u * (2 * d + 1)) with (2 ^ (u + 1) * d + 2 ^ u) by lia. replace (2 ^ (u + 1) * d + 2 ^ u - 1) with (2 ^ (u + 1) * d + (2 ^ u - 1)) by lia. rewrite !add_join, land_join by assumption.
  replace (N.land (2 ^ u) (2 ^ u - 1)) with 0; [rewrite N.lxor_0_r, N.shiftl_mul_pow2; lia|]. symmetry. apply N.bits_inj. intros i. rewrite N.land_spec, N.bits_0. destruct (N.eq_dec i u) as [->|NE]; [|rewrite N.pow2_bits_false by congruence; reflexivity]. rewrite <- N.pred_sub, <- N.ones_equiv, N.ones_spec_high by lia. apply Bool.andb_false_r.
Qed.
Lemma low_bit u d : Z.to_N (Z.land (Z.of_N (2 ^ u * (2 * d + 1))) (- Z.of_N (2 ^ u * (2 * d + 1)))) = 2 ^ u.
Proof.
  rewrite N2Z.inj_mul, N2Z.inj_add, N2Z.inj_mul, N2Z.inj_pow. change (Z.of_N 2) with 2%Z. change (Z.of_N 1) with 1%Z. rewrite land_opp by lia. rewrite <- (N2Z.id (2 ^ u)), N2Z.inj_pow. reflexivity.
Qed.

Section Word.
Variable K : nat.
Notation BITS := (wd K).
Section Impl.
Variable rmul : table -> N -> N -> option (N * table).
(** rmul can multiply by F_u + F_u/2 *)
Definition rok (u : nat) : Prop := forall t r, tinv t -> small BITS r -> exists t', rmul t r (N.lxor (fm u) (ee u)) = Some (nm r (N.lxor (fm u) (ee u)), t') /\ tinv t'.
Lemma impl_loop_run fuel : forall s c t r, tinv t -> small BITS r -> (s + fuel = S K)%nat -> 2 ^ N.of_nat s * c < 2 ^ N.of_nat K -> (forall u, N.testbit (2 ^ N.of_nat s * c) (N.of_nat u) = true -> rok u) ->
  exists t', impl_loop K rmul fuel t r (2 ^ N.of_nat s * c) = Some (nm r (nm (P (2 ^ N.of_nat s * c)) (P (2 ^ N.of_nat s * c))), t') /\ tinv t'.
Proof.
  induction fuel as [|fuel IH]; intros s c t r TI R F B RO; cbn [impl_loop].
  - assert (c = 0) as ->. { destruct (N.eq_dec c 0) as [|NC]; [assumption|exfalso]. assert (2 ^ N.of_nat K <= 2 ^ N.of_nat s) by (apply N.pow_le_mono_r; lia). nia. }
    rewrite N.mul_0_r. cbn [N.eqb]. exists t. split; [|exact TI]. f_equal. f_equal. change (P 0) with 1. ring.
  - destruct (N.eqb_spec (2 ^ N.of_nat s * c) 0) as [E0|N0].
    { rewrite E0. exists t. split; [|exact TI]. f_equal. f_equal. change (P 0) with 1. ring. }
    assert (NC : c <> 0) by (intros ->; lia). destruct (odd_part c NC) as (v & d & EC). pose (u := (s + N.to_nat v)%nat). assert (EI : 2 ^ N.of_nat s * c = 2 ^ N.of_nat u * (2 * d + 1)). { unfold u. rewrite Nat2N.inj_add, N2Nat.id, N.pow_add_r, EC. apply N.mul_assoc. }
    rewrite EI in *. assert (UK : (u < K)%nat). { destruct (Nat.lt_ge_cases u K) as [|GE]; [assumption|exfalso]. assert (2 ^ N.of_nat K <= 2 ^ N.of_nat u) by (apply N.pow_le_mono_r; lia). nia. }
    rewrite low_bit, clear_low. change (2 ^ N.of_nat u) with (wd u) at 1 2. pose proof (wd_lt K u UK) as WL. pose proof (wd_pos u) as WP. rewrite !pow2_val by lia. change (P (wd u)) with (fm u). change (P (wd u - 1)) with (ee u).
    assert (OU : rok u). { apply RO. rewrite N.mul_comm, N.mul_pow2_bits_high, N.sub_diag by lia. rewrite N.bit0_odd, N.odd_add, N.odd_mul. reflexivity. }
    destruct (OU t r TI R) as (t1 & -> & TI1). cbn [obind]. assert (FS : small BITS (N.lxor (fm u) (ee u))). { apply small_xor; [eapply small_mono; [apply fm_small|apply wd_mono; lia]|eapply small_mono; [apply ee_small|apply wd_mono; lia]]. }
    replace (N.of_nat u + 1) with (N.of_nat (S u)) by lia.
    (* run the remaining bits *)
    assert (REM : exists t', impl_loop K rmul fuel t1 (nm r (N.lxor (fm u) (ee u))) (2 ^ N.of_nat (S u) * d) = Some (nm (nm r (N.lxor (fm u) (ee u))) (nm (P (2 ^ N.of_nat (S u) * d)) (P (2 ^ N.of_nat (S u) * d))), t') /\ tinv t').
    { assert (DB : 2 ^ N.of_nat (S u) * d < 2 ^ N.of_nat K) by (rewrite Nat2N.inj_succ, N.pow_succ_r'; lia).
      replace (2 ^ N.of_nat (S u) * d) with (2 ^ N.of_nat (S s) * (2 ^ N.of_nat (u - s) * d)) in * by (rewrite N.mul_assoc, <- N.pow_add_r; do 2 f_equal; unfold u; lia).
      apply IH; [exact TI1|now apply nm_small|lia|exact DB|]. intros w W. apply RO.
      replace (2 ^ N.of_nat (S s) * (2 ^ N.of_nat (u - s) * d)) with (2 ^ N.of_nat (S u) * d) in W by (rewrite N.mul_assoc, <- N.pow_add_r; do 2 f_equal; unfold u; lia).
      assert (A : small (N.of_nat u + 1) (2 ^ N.of_nat u)) by (apply small_lt; rewrite N.add_1_r, N.pow_succ_r'; pose proof (N.pow_nonzero 2 (N.of_nat u)); lia). replace (2 ^ N.of_nat u * (2 * d + 1)) with (2 ^ (N.of_nat u + 1) * d + 2 ^ N.of_nat u) by (rewrite N.add_1_r, N.pow_succ_r'; lia). rewrite add_join by exact A. rewrite N.lxor_spec. replace (N.shiftl d (N.of_nat u + 1)) with (2 ^ N.of_nat (S u) * d) by (rewrite N.shiftl_mul_pow2; replace (N.of_nat (S u)) with (N.of_nat u + 1) by lia; lia).
      rewrite W. rewrite N.pow2_bits_false; [reflexivity|]. intros E. rewrite <- E in W. rewrite N.mul_comm, N.mul_pow2_bits_low in W by lia. discriminate. }
    destruct REM as (t2 & -> & TI2). exists t2. split; [|exact TI2]. f_equal. f_equal. set (i := 2 ^ N.of_nat u * (2 * d + 1)) in *. set (i' := 2 ^ N.of_nat (S u) * d).
    assert (PI : P i = nm (P i') (fm u)). { rewrite fm_P, (disjoint_mul K).
      - f_equal. unfold i, i'. replace (2 ^ N.of_nat u * (2 * d + 1)) with (2 ^ (N.of_nat u + 1) * d + 2 ^ N.of_nat u) by (rewrite N.add_1_r, N.pow_succ_r'; lia). rewrite add_join by (apply small_lt; rewrite N.add_1_r, N.pow_succ_r'; pose proof (N.pow_nonzero 2 (N.of_nat u)); lia). rewrite N.shiftl_mul_pow2. f_equal. replace (N.of_nat (S u)) with (N.of_nat u + 1) by lia. lia.
      - unfold i'. rewrite Nat2N.inj_succ, N.pow_succ_r'. lia.
      - exact WL.
      - unfold wd, i'. apply N.bits_inj. intros b. rewrite N.land_spec, N.bits_0. destruct (N.eq_dec b (N.of_nat u)) as [->|NE]; [rewrite N.mul_comm, N.mul_pow2_bits_low by lia; reflexivity|rewrite N.pow2_bits_false by congruence; apply Bool.andb_false_r]. }
    rewrite PI. transitivity (nm r (nm (nm (P i') (P i')) (nm (fm u) (fm u)))); [rewrite fm_square; ring|ring].
Qed.
Lemma impl_run t m n : tinv t -> m < BITS -> n < BITS -> (forall u, N.testbit (N.land m n) (N.of_nat u) = true -> rok u) -> exists t', mul_pow2_impl K rmul t m n = Some (nm (P m) (P n), t') /\ tinv t'.
Proof.
  intros TI M N RO. unfold mul_pow2_impl. assert (X : N.lxor m n < BITS) by (unfold wd in *; now apply xor_lt). rewrite pow2_val by exact X. rewrite (P_mul K m n M N).
  assert (C : N.land m n < 2 ^ N.of_nat K) by (now apply land_lt). pose proof (impl_loop_run (S K) 0 (N.land m n) t (P (N.lxor m n)) TI (P_small _ _ X) ltac:(lia)) as G. change (2 ^ N.of_nat 0) with 1 in G. rewrite N.mul_1_l in G. exact (G C RO).
Qed.
Lemma impl_single t m n u : tinv t -> (u < K)%nat -> m < BITS -> n < BITS -> N.land m n = wd u ->
  (exists t', rmul t (P (N.lxor m n)) (N.lxor (fm u) (ee u)) = Some (nm (P (N.lxor m n)) (N.lxor (fm u) (ee u)), t') /\ tinv t') -> exists t', mul_pow2_impl K rmul t m n = Some (nm (P m) (P n), t') /\ tinv t'.
Proof.
  intros TI UK M N C (t1 & E & T1). unfold mul_pow2_impl. assert (X : N.lxor m n < BITS) by (unfold wd in *; now apply xor_lt). rewrite pow2_val by exact X. rewrite (P_mul K m n M N), C. pose proof (wd_lt K u UK) as WL. pose proof (wd_pos u) as WP. cbn [impl_loop]. destruct (N.eqb_spec (wd u) 0); [lia|].
  pose proof (low_bit (N.of_nat u) 0) as LB. pose proof (clear_low (N.of_nat u) 0) as CL. rewrite N.mul_0_r in LB, CL. rewrite N.add_0_l, N.mul_1_r in LB, CL. rewrite N.mul_0_r in CL. fold (wd u) in LB, CL. rewrite LB, CL. rewrite !pow2_val by lia. change (P (wd u)) with (fm u) at 1. change (P (wd u - 1)) with (ee u). rewrite E. cbn [obind]. exists t1. split; [|exact T1]. assert (E0 : impl_loop K rmul K t1 (nm (P (N.lxor m n)) (N.lxor (fm u) (ee u))) 0 = Some (nm (P (N.lxor m n)) (N.lxor (fm u) (ee u)), t1)) by (destruct K; reflexivity). rewrite E0. f_equal. f_equal. change (P (wd u)) with (fm u). now rewrite fm_square.
Qed.
Lemma tinv_put t m n v : tinv t -> v = nm (P m) (P n) -> tinv (tbl_put t m n v).
Proof. intros T V i j. unfold tbl_put. destruct (N.eqb_spec i m) as [->|_], (N.eqb_spec j n) as [->|_]; cbn [andb]; try apply T. now right. Qed.
Lemma impl_sym t m n : mul_pow2_impl K rmul t m n = mul_pow2_impl K rmul t n m.
Proof. unfold mul_pow2_impl. now rewrite N.lxor_comm, N.land_comm. Qed.
Lemma mul_pow2_run t m n : tinv t -> (exists t', mul_pow2_impl K rmul t m n = Some (nm (P m) (P n), t') /\ tinv t') -> exists t', mul_pow2 K rmul t m n = Some (nm (P m) (P n), t') /\ tinv t'.
Proof.
  intros TI H. unfold mul_pow2. destruct ((64 <=? m) || (64 <=? n)); [exact H|].
  assert (G : forall m n, (exists t', mul_pow2_impl K rmul t m n = Some (nm (P m) (P n), t') /\ tinv t') -> exists t', (if negb (t m n =? 0) then Some (t m n, t) else let* '(v, t) := mul_pow2_impl K rmul t m n in Some (v, tbl_put t m n v)) = Some (nm (P m) (P n), t') /\ tinv t').
  { clear m n H. intros m n (t1 & E1 & T1). destruct (N.eqb_spec (t m n) 0) as [E|E]; cbn [negb].
    - rewrite E1. cbn [obind]. eexists. split; [reflexivity|]. now apply tinv_put.
    - exists t. split; [|exact TI]. destruct (TI m n) as [E0|E0]; [congruence|now rewrite E0]. }
  destruct (N.ltb_spec m n); [|now apply G]. replace (nm (P m) (P n)) with (nm (P n) (P m)) by ring. apply G. destruct H as (t1 & E1 & T1). exists t1. split; [|exact T1]. rewrite impl_sym, E1. f_equal. f_equal. ring.
Qed.
End Impl.
(** the loop shape *)
Lemma land_pow2 a i : i < BITS -> (N.land a (pow2 K i) =? 0) = negb (N.testbit a i).
Proof.
  intros I. rewrite pow2_val by exact I. unfold P. destruct (N.testbit a i) eqn:E; cbn [negb].
  - apply N.eqb_neq. intros Z0. apply (f_equal (fun x => N.testbit x i)) in Z0. rewrite N.land_spec, E, N.pow2_bits_true, N.bits_0 in Z0. discriminate.
  - apply N.eqb_eq. apply N.bits_inj. intros j. rewrite N.land_spec, N.bits_0. destruct (N.eq_dec j i) as [->|NE]; [now rewrite E|]. rewrite N.pow2_bits_false by congruence. apply Bool.andb_false_r.
Qed.
Definition upto (a i : N) : N := N.land a (N.ones i).
Lemma upto_0 a : upto a 0 = 0. Proof. unfold upto. apply N.land_0_r. Qed.
Lemma upto_all a i : a < 2 ^ i -> upto a i = a. Proof. intros H. apply land_ones_small. now apply small_lt. Qed.
Lemma upto_step a i : upto a (i + 1) = if N.testbit a i then N.lxor (upto a i) (P i) else upto a i.
Proof.
  apply N.bits_inj. intros b. unfold upto. rewrite N.land_spec. destruct (N.lt_trichotomy b i) as [L|[->|L]].
  - rewrite N.ones_spec_low by lia. destruct (N.testbit a i); [rewrite N.lxor_spec|]; rewrite N.land_spec, N.ones_spec_low by lia; [|reflexivity]. unfold P. rewrite N.pow2_bits_false by lia. now rewrite Bool.xorb_false_r.
  - rewrite N.ones_spec_low by lia. destruct (N.testbit a i) eqn:E; [rewrite N.lxor_spec|]; rewrite N.land_spec, N.ones_spec_high by lia; [unfold P; now rewrite N.pow2_bits_true, E|now rewrite E].
  - rewrite N.ones_spec_high by lia. rewrite Bool.andb_false_r. destruct (N.testbit a i); [rewrite N.lxor_spec|]; rewrite N.land_spec, N.ones_spec_high by lia; [unfold P; rewrite N.pow2_bits_false by lia|]; now rewrite Bool.andb_false_r.
Qed.
Lemma scan_run {St} (body : N -> St -> option St) (a : N) (Inv : N -> St -> Prop) :
  small BITS a ->
  (forall i s, i < BITS -> N.testbit a i = true -> Inv (upto a i) s -> exists s', body i s = Some s' /\ Inv (upto a (i + 1)) s') ->
  forall n i s, i + N.of_nat n = BITS -> Inv (upto a i) s -> exists s', scan K body a n i s = Some s' /\ Inv a s'.
Proof.
  intros A ST. induction n as [|n IH]; intros i s E I; cbn [scan].
  - exists s. split; [reflexivity|]. rewrite upto_all in I; [exact I|]. apply small_lt. now replace i with BITS by lia.
  - assert (IB : i < BITS) by lia. rewrite pow2_val by exact IB. rewrite <- (pow2_val K i IB), land_pow2, pow2_val by exact IB. destruct (N.leb_spec (P i) a) as [L|L].
    + assert (X : exists s', (if negb (N.testbit a i) then Some s else body i s) = Some s' /\ Inv (upto a (i + 1)) s').
      { destruct (N.testbit a i) eqn:B; cbn [negb]; [now apply ST|]. exists s. split; [reflexivity|]. now rewrite upto_step, B. }
      destruct X as (s' & -> & I'). cbn [obind]. apply IH; [lia|exact I'].
    + exists s. split; [reflexivity|]. rewrite upto_all in I; [exact I|exact L].
Qed.
Definition mok (fuel : nat) (a b : N) : Prop := forall t, tinv t -> exists t', mul_f K fuel t a b = Some (nm a b, t') /\ tinv t'.
Definition pok (fuel : nat) (i j : N) : Prop := forall t, tinv t -> exists t', mul_pow2 K (mul_f K fuel) t i j = Some (nm (P i) (P j), t') /\ tinv t'.
Lemma mul_step fuel a b : small BITS a -> small BITS b -> (forall i j, i < BITS -> j < BITS -> N.testbit a i = true -> N.testbit b j = true -> pok fuel i j) -> mok (S fuel) a b.
Proof.
  intros A B H t TI. cbn [mul_f]. destruct ((a <=? 1) || (b <=? 1)) eqn:C.
  - exists t. split; [|exact TI]. f_equal. f_equal. apply Bool.orb_true_iff in C as [C|C]; apply N.leb_le in C.
    + assert (a = 0 \/ a = 1) as [-> | ->] by lia; [rewrite N.mul_0_l, wrap_small by apply N.shiftr_0_l|rewrite N.mul_1_l, wrap_small by exact B]; ring.
    + assert (b = 0 \/ b = 1) as [-> | ->] by lia; [rewrite N.mul_0_r, wrap_small by apply N.shiftr_0_l|rewrite N.mul_1_r, wrap_small by exact A]; ring.
  - destruct (scan_run (fun i s => scan K (fun j '(r, t) => let* '(p, t) := mul_pow2 K (mul_f K fuel) t i j in Some (N.lxor r p, t)) b (N.to_nat (bits K)) 0 s) a (fun u '(r, t) => r = nm u b /\ tinv t) A) with (n := N.to_nat (bits K)) (i := 0) (s := (0, t)) as ((r & t') & E & R & T').
    + intros i (r & t1) I BI (R & T1).
      destruct (scan_run (fun j '(r, t) => let* '(p, t) := mul_pow2 K (mul_f K fuel) t i j in Some (N.lxor r p, t)) b (fun u '(r', t) => r' = N.lxor r (nm (P i) u) /\ tinv t) B) with (n := N.to_nat (bits K)) (i := 0) (s := (r, t1)) as ((r2 & t2) & E2 & R2 & T2).
      * intros j (r' & t3) J BJ (R' & T3). destruct (H i j I J BI BJ t3 T3) as (t4 & -> & T4). cbn [obind]. eexists. split; [reflexivity|]. cbv beta iota. split; [|exact T4]. rewrite upto_step, BJ, R'. ring.
      * rewrite bits_wd. lia.
      * rewrite upto_0. split; [ring|exact T1].
      * exists (r2, t2). split; [exact E2|]. split; [|exact T2]. rewrite upto_step, BI, R2, R. ring.
    + rewrite bits_wd. lia.
    + rewrite upto_0. split; [ring|exact TI].
    + exists t'. split; [|exact T']. rewrite E. f_equal. f_equal. exact R.
Qed.
(** the recursion is bounded: common exponent bits below s need 2 s levels *)
Lemma bit_ee u i : N.testbit (ee u) i = true -> i = wd u - 1.
Proof. unfold ee. destruct (N.eq_dec i (wd u - 1)) as [->|NE]; [auto|]. rewrite N.pow2_bits_false by congruence. discriminate. Qed.
Lemma bit_fm u i : N.testbit (N.lxor (fm u) (ee u)) i = true -> i = wd u \/ i = wd u - 1.
Proof. rewrite N.lxor_spec. destruct (N.testbit (ee u) i) eqn:E; [right; now apply bit_ee|]. unfold fm. destruct (N.eq_dec i (wd u)) as [->|NE]; [auto|]. rewrite N.pow2_bits_false by congruence. discriminate. Qed.
Lemma bit_wd u w : N.testbit (wd u) (N.of_nat w) = true -> w = u.
Proof. unfold wd. intros H. destruct (Nat.eq_dec w u) as [|NE]; [assumption|]. rewrite N.pow2_bits_false in H by lia. discriminate. Qed.
Lemma bit_ones u w : N.testbit (wd u - 1) (N.of_nat w) = true -> (w < u)%nat.
Proof. unfold wd. rewrite <- N.pred_sub, <- N.ones_equiv. intros H. destruct (Nat.lt_ge_cases w u) as [|GE]; [assumption|]. rewrite N.ones_spec_high in H by lia. discriminate. Qed.
Lemma small_fm_ee u : (u < K)%nat -> small BITS (N.lxor (fm u) (ee u)).
Proof. intros H. apply small_xor; [eapply small_mono; [apply fm_small|apply wd_mono; lia]|eapply small_mono; [apply ee_small|apply wd_mono; lia]]. Qed.
Definition level_ok (s : nat) : Prop := forall fuel i j, (2 * s <= fuel)%nat -> i < BITS -> j < BITS -> (forall u, N.testbit (N.land i j) (N.of_nat u) = true -> (u < s)%nat) -> pok fuel i j.
Lemma land_bit u i j : N.testbit (N.land i j) (N.of_nat u) = true -> N.testbit i (N.of_nat u) = true /\ N.testbit j (N.of_nat u) = true.
Proof. rewrite N.land_spec. apply Bool.andb_true_iff. Qed.
Lemma levels s : (s <= K)%nat -> level_ok s.
Proof.
  induction s as [|s IH]; intros SK fuel i j F I J C t TI; apply mul_pow2_run; try assumption; apply impl_run; try assumption; intros u U; [specialize (C u U); lia|].
  assert (US : (u <= s)%nat) by (specialize (C u U); lia). intros t1 r T1 R. destruct fuel as [|f]; [lia|]. specialize (IH ltac:(lia)). assert (UK : (u < K)%nat) by lia. pose proof (wd_lt K u UK) as WL. pose proof (wd_pos u) as WP.
  assert (LOW : forall g a, (2 * s <= g)%nat -> a < BITS -> pok g a (wd u - 1)) by (intros g a G A; apply IH; [lia|exact A|lia|]; intros w W; apply land_bit in W as (_ & W); apply bit_ones in W; lia).
  assert (DIS : forall g a, (2 * s <= g)%nat -> a < BITS -> N.testbit a (N.of_nat u) = false -> pok g a (wd u)) by (intros g a G A NB; apply IH; [lia|exact A|exact WL|]; intros w W; apply land_bit in W as (W1 & W2); apply bit_wd in W2; congruence).
  apply mul_step; [exact R|now apply small_fm_ee| |exact T1]. intros a b A B BA BB. destruct (bit_fm u b BB) as [->| ->]; [|apply LOW; [lia|exact A]].
  destruct (N.testbit a (N.of_nat u)) eqn:EB; [|apply DIS; [lia|exact A|exact EB]]. intros t2 T2. apply mul_pow2_run; [exact T2|]. 
  assert (LD : N.land a (wd u) = wd u). { apply N.bits_inj. intros w. rewrite N.land_spec. unfold wd. destruct (N.eq_dec w (N.of_nat u)) as [->|NE]; [now rewrite EB, N.pow2_bits_true|]. rewrite N.pow2_bits_false by congruence. apply Bool.andb_false_r. }
  apply (impl_single (mul_f K f) t2 a (wd u) u T2 UK A WL LD). set (a' := N.lxor a (wd u)). assert (A' : a' < BITS) by (unfold a', wd in *; now apply xor_lt). assert (NB : N.testbit a' (N.of_nat u) = false) by (unfold a', wd; now rewrite N.lxor_spec, EB, N.pow2_bits_true).
  destruct f as [|g]; [lia|]. apply mul_step; [now apply P_small|now apply small_fm_ee| |exact T2]. intros x y X Y BX BY. assert (x = a') as ->. { unfold P in BX. destruct (N.eq_dec x a') as [|NE]; [assumption|]. rewrite N.pow2_bits_false in BX by congruence. discriminate. }
  destruct (bit_fm u y BY) as [->| ->]; [apply DIS|apply LOW]; try assumption; lia.
Qed.
Lemma mul_run t a b : tinv t -> small BITS a -> small BITS b -> exists t', mul K t a b = Some (nm a b, t') /\ tinv t'.
Proof.
  intros TI A B. unfold mul. replace (2 * K + 2)%nat with (S (2 * K + 1)) by lia. apply mul_step; [exact A|exact B| |exact TI]. intros i j I J _ _. apply (levels K (Nat.le_refl K)); [lia|exact I|exact J|]. intros u U. apply land_bit in U as (U & _). destruct (Nat.lt_ge_cases u K) as [|GE]; [assumption|]. exfalso. unfold wd in I. rewrite <- (land_ones_small (N.of_nat K) i), N.land_spec, N.ones_spec_high, Bool.andb_false_r in U; [discriminate|lia|now apply small_lt].
Qed.
(** inverse *)
Lemma inverse_run fuel : forall v t, tinv t -> small BITS v -> (forall l, level K v = Some l -> (l < fuel)%nat) -> v <> 0 -> forall j, (j <= K)%nat -> small (wd j) v -> exists r t', inverse_f K fuel t v = Some (r, t') /\ tinv t' /\ small (wd j) r /\ nm v r = 1.
Proof.
  induction fuel as [|fuel IH]; intros v t TI V F NZ j J VJ; destruct (level_run K v V) as (l & EL & LK & LS & LM); [specialize (F l EL); lia|]. cbn [inverse_f]. rewrite EL. cbn [obind]. destruct l as [|k].
  - exists v, t. split; [reflexivity|]. split; [exact TI|]. split; [exact VJ|]. apply small_lt in LS. assert (v = 1) as -> by (cbn in LS; lia). ring.
  - specialize (F _ EL). rewrite high_run by lia. cbn [obind]. rewrite low_run by lia. set (ah := N.shiftr v (wd k)). set (al := N.land v (N.ones (wd k))). assert (AH : small (wd k) ah) by (now apply small_high). assert (AL : small (wd k) al) by apply small_low. pose proof (ee_small k) as ES. assert (AS : small (wd k) (N.lxor ah al)) by (now apply small_xor).
    assert (BK : forall w, small (wd k) w -> small BITS w) by (intros w W; eapply small_mono; [exact W|apply wd_mono; lia]).
    destruct (mul_run t (N.lxor ah al) al TI (BK _ AS) (BK _ AL)) as (t1 & -> & T1). cbn [obind]. destruct (mul_run t1 ah ah T1 (BK _ AH) (BK _ AH)) as (t2 & -> & T2). cbn [obind]. rewrite lift_run; [|lia|now apply nm_small]. cbn [obind]. set (d := N.lxor (nm (N.lxor ah al) al) (nm (ee k) (nm ah ah))).
    assert (DS : small (wd k) d) by (apply small_xor; apply nm_small; try assumption; now apply nm_small). pose proof (split_nm v k LS) as EV. fold ah al in EV.
    assert (VD : nm v (N.lxor (nm ah (fm k)) (N.lxor ah al)) = d). { unfold d. rewrite EV at 1. transitivity (N.lxor (nm (nm ah ah) (nm (fm k) (fm k))) (N.lxor (nm (nm ah ah) (fm k)) (nm al (N.lxor ah al)))); [ring|]. rewrite fm_square. ring. }
    assert (DN : d <> 0). { intros D0. rewrite D0 in VD. apply nm_nonzero in VD as [VD|VD]; [tauto|]. assert (H0 : N.shiftr (jn ah (N.lxor ah al) k) (wd k) = 0) by (rewrite jn_nm by exact AH; rewrite VD; apply N.shiftr_0_l). unfold jn in H0. rewrite high_join in H0 by exact AS. rewrite H0 in VD. apply NZ. rewrite EV, H0. etransitivity; [|exact VD]. ring. }
    destruct (IH d t2 T2 (BK _ DS)) with (j := k) as (y & t3 & -> & T3 & YS & YE); [|exact DN|lia|exact DS|].
    { intros l' EL'. destruct (level_run K d (BK _ DS)) as (l2 & E2 & _ & _ & LM2). rewrite E2 in EL'. injection EL' as ->. destruct (Nat.le_gt_cases l' k) as [|GT]; [lia|]. exfalso. exact (LM2 k GT DS). }
    cbn [obind]. destruct (mul_run t3 ah y T3 (BK _ AH) (BK _ YS)) as (t4 & -> & T4). cbn [obind]. destruct (mul_run t4 (N.lxor ah al) y T4 (BK _ AS) (BK _ YS)) as (t5 & -> & T5). cbn [obind]. rewrite join_run; [|lia|now apply nm_small]. cbn [obind]. exists (jn (nm ah y) (nm (N.lxor ah al) y) k), t5. split; [reflexivity|]. split; [exact T5|].
    assert (KJ : (k < j)%nat) by (destruct (Nat.le_gt_cases j k) as [LE|]; [exfalso; exact (LM j ltac:(lia) VJ)|lia]). split; [eapply small_mono; [apply jn_small; now apply nm_small|apply wd_mono; lia]|]. rewrite jn_nm by (now apply nm_small). rewrite <- YE, <- VD. ring.
Qed.
End Word.
