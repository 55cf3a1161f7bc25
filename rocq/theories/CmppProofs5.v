(** Granville's formulas for factorials that skip the multiples of p. *)
From Coq Require Import Znumtheory Zpow_facts Permutation Setoid Morphisms.
From Verif Require Import Lib CombSpec CmppProofs CmppProofs2 CmppProofs4.
Open Scope Z_scope.

(** the nodes other than j *)
Definition acs (j k : nat) : list Z := map Z.of_nat (filter (fun i => negb (i =? j)%nat) (seq 0 k)).
Definition bnode (j i : nat) : list Z := if (i =? j)%nat then [] else if (i =? 0)%nat then [0] else [Z.of_nat i; - Z.of_nat i].
Definition bcs (j k : nat) : list Z := flat_map (bnode j) (seq 0 k).
Lemma in_acs j k x : In x (acs j k) <-> 0 <= x < Z.of_nat k /\ x <> Z.of_nat j.
Proof.
  unfold acs. rewrite in_map_iff. split.
  - intros (i & <- & I). apply filter_In in I as (I & N). apply in_seq in I. apply negb_true_iff, Nat.eqb_neq in N. lia.
  - intros (B & N). exists (Z.to_nat x). split; [lia|]. apply filter_In. split; [apply in_seq; lia|]. apply negb_true_iff, Nat.eqb_neq. lia.
Qed.
Lemma acs_S j k : acs j (S k) = acs j k ++ (if (k =? j)%nat then [] else [Z.of_nat k]).
Proof. unfold acs. rewrite seq_S, filter_app, map_app. cbn [filter]. change (0 + k)%nat with k. destruct (Nat.eqb_spec k j); reflexivity. Qed.
Lemma acs_length j k : length (acs j k) = (if (j <? k)%nat then k - 1 else k)%nat.
Proof. induction k as [|k IH]; [reflexivity|]. rewrite acs_S, app_length, IH. destruct (Nat.eqb_spec k j), (Nat.ltb_spec j k), (Nat.ltb_spec j (S k)); cbn [length]; lia. Qed.
Lemma bcs_S j k : bcs j (S k) = bcs j k ++ bnode j k.
Proof. unfold bcs. rewrite seq_S, flat_map_app. cbn [flat_map]. now rewrite app_nil_r. Qed.
Lemma bcs_length j k : (1 <= j)%nat -> length (bcs j (S k)) = (if (j <=? k)%nat then 2 * k - 1 else 2 * k + 1)%nat.
Proof.
  intros J. induction k as [|k IH]; [unfold bcs, bnode; cbn [seq flat_map]; destruct (Nat.eqb_spec 0 j); [lia|]; destruct (Nat.leb_spec j 0); [lia|reflexivity]|]. rewrite bcs_S, app_length, IH. unfold bnode. destruct (Nat.eqb_spec (S k) j), (Nat.leb_spec j k), (Nat.leb_spec j (S k)), (Nat.eqb_spec (S k) 0); cbn [length]; lia.
Qed.
Lemma in_bcs j k x : (1 <= j)%nat -> In x (bcs j k) <-> Z.abs x < Z.of_nat k /\ Z.abs x <> Z.of_nat j.
Proof.
  intros J. unfold bcs. rewrite in_flat_map. split.
  - intros (i & I & X). apply in_seq in I. unfold bnode in X. destruct (Nat.eqb_spec i j); [destruct X|]. destruct (Nat.eqb_spec i 0); cbn in X; lia.
  - intros (B & N). exists (Z.to_nat (Z.abs x)). split; [apply in_seq; lia|]. unfold bnode. destruct (Nat.eqb_spec (Z.to_nat (Z.abs x)) j); [lia|]. destruct (Nat.eqb_spec (Z.to_nat (Z.abs x)) 0); cbn; lia.
Qed.
Lemma lp_app a b u : lp (a ++ b) u = lp a u * lp b u.
Proof. unfold lp. rewrite map_app. apply zprodl_app. Qed.
Lemma bcs_odd j k u : (1 <= j)%nat -> lp (bcs j (S k)) (- u) = - lp (bcs j (S k)) u.
Proof.
  intros J. induction k as [|k IH]; [unfold bcs, bnode; cbn [seq flat_map]; destruct (Nat.eqb_spec 0 j); [lia|]; unfold lp; cbn; ring|]. rewrite bcs_S, !lp_app, IH. unfold bnode. destruct (Nat.eqb_spec (S k) j); [unfold lp; cbn [map zprodl]; ring|]. destruct (Nat.eqb_spec (S k) 0); [lia|]. unfold lp. cbn [map zprodl]. ring.
Qed.
Definition acoef (k j : nat) (u : Z) : Z := lp (acs j k) u / lp (acs j k) (Z.of_nat j).
Definition bcoef (r j : nat) (u : Z) : Z := lp (bcs j (S r)) u / lp (bcs j (S r)) (Z.of_nat j).
Lemma acs_D j k : lp (acs j k) (Z.of_nat j) <> 0.
Proof. apply lp_nonroot. rewrite in_acs. lia. Qed.
Lemma bcs_D j r : (1 <= j)%nat -> lp (bcs j (S r)) (Z.of_nat j) <> 0.
Proof. intros J. apply lp_nonroot. rewrite in_bcs by exact J. lia. Qed.
Lemma acoef_exact k j u : (j < k)%nat -> 0 <= u -> lp (acs j k) u = lp (acs j k) (Z.of_nat j) * acoef k j u.
Proof.
  intros J U. pose proof (acs_D j k) as D. apply Z_div_exact_full_2; [exact D|]. apply Z.mod_divide; [exact D|]. apply (lp_divide _ _ k 0); [|intros i I|exact U].
  - rewrite acs_length. destruct (Nat.ltb_spec j k); lia.
  - destruct (Z.eq_dec i (Z.of_nat j)) as [->|N]; [apply Z.divide_refl|]. rewrite (lp_root _ i); [apply Z.divide_0_r|]. apply in_acs. lia.
Qed.
Lemma bcoef_exact r j u : (1 <= j <= r)%nat -> - Z.of_nat r <= u -> lp (bcs j (S r)) u = lp (bcs j (S r)) (Z.of_nat j) * bcoef r j u.
Proof.
  intros J U. pose proof (bcs_D j r ltac:(lia)) as D. apply Z_div_exact_full_2; [exact D|]. apply Z.mod_divide; [exact D|]. apply (lp_divide _ _ (2 * r + 1) (- Z.of_nat r)); [|intros i I|exact U].
  - rewrite bcs_length by lia. destruct (Nat.leb_spec j r); lia.
  - destruct (Z.eq_dec (Z.abs i) (Z.of_nat j)) as [E|N]; [|rewrite (lp_root _ i); [apply Z.divide_0_r|]; apply in_bcs; lia]. assert (i = Z.of_nat j \/ i = - Z.of_nat j) as [->| ->] by lia; [apply Z.divide_refl|]. rewrite bcs_odd by lia. apply Z.divide_opp_r, Z.divide_refl.
Qed.
Lemma acoef_delta k j u : (j < k)%nat -> 0 <= u -> dan k (acoef k j) u = 0.
Proof.
  intros J U. pose proof (acs_D j k) as D. pose proof (dan_scale 0 (lp (acs j k) (Z.of_nat j)) k (lp (acs j k)) (acoef k j) u) as S0. assert (L : dan k (lp (acs j k)) u = 0). { pose proof (lp_degree (acs j k)) as L. rewrite acs_length in L. destruct (Nat.ltb_spec j k); [|lia]. replace (S (k - 1)) with k in L by lia. apply L. }
  rewrite L in S0. assert (0 = lp (acs j k) (Z.of_nat j) * dan k (acoef k j) u) by (apply S0; [intros v V; now apply acoef_exact|exact U]). nia.
Qed.
Lemma bcoef_delta r j u : (1 <= j <= r)%nat -> - Z.of_nat r <= u -> dan (2 * r + 1) (bcoef r j) u = 0.
Proof.
  intros J U. pose proof (bcs_D j r ltac:(lia)) as D. pose proof (dan_scale (- Z.of_nat r) (lp (bcs j (S r)) (Z.of_nat j)) (2 * r + 1) (lp (bcs j (S r))) (bcoef r j) u) as S0. assert (L : dan (2 * r + 1) (lp (bcs j (S r))) u = 0). { pose proof (lp_degree (bcs j (S r))) as L. rewrite bcs_length in L by lia. destruct (Nat.leb_spec j r); [|lia]. replace (2 * r + 1)%nat with (S (2 * r - 1) + 1)%nat by lia. now apply dan_more. }
  rewrite L in S0. assert (0 = lp (bcs j (S r)) (Z.of_nat j) * dan (2 * r + 1) (bcoef r j) u) by (apply S0; [intros v V; now apply bcoef_exact|exact U]). nia.
Qed.
Lemma acoef_node k j i : (j < k)%nat -> 0 <= i < Z.of_nat k -> acoef k j i = if i =? Z.of_nat j then 1 else 0.
Proof.
  intros J I. pose proof (acs_D j k) as D. unfold acoef. destruct (Z.eqb_spec i (Z.of_nat j)) as [->|N]; [now apply Z.div_same|]. rewrite lp_root by (apply in_acs; lia). now apply Z.div_0_l.
Qed.
Lemma bcoef_node r j i : (1 <= j <= r)%nat -> - Z.of_nat r <= i <= Z.of_nat r -> bcoef r j i = if i =? Z.of_nat j then 1 else if i =? - Z.of_nat j then -1 else 0.
Proof.
  intros J I. pose proof (bcs_D j r ltac:(lia)) as D. unfold bcoef. destruct (Z.eqb_spec i (Z.of_nat j)) as [->|N]; [now apply Z.div_same|]. destruct (Z.eqb_spec i (- Z.of_nat j)) as [->|N2]; [rewrite bcs_odd by lia; rewrite Z.div_opp_l_z by (try exact D; now apply Z.mod_same); now rewrite Z.div_same|]. rewrite lp_root by (apply in_bcs; lia). now apply Z.div_0_l.
Qed.

Section Gran.
Variable p : Z.
Hypothesis PP : prime p.
Variable e : Z.
Hypothesis E1 : 1 <= e.
Let m := p ^ e.
Let pn := Z.to_nat p.
Notation "a == b" := (cong m a b) (at level 70).
Notation inv := (inv p e).
Notation zp := (zp p e).
Notation unit := (unit p).
Notation sk := (sk p).
Let P2 : 2 <= p := prime_ge_2 p PP.
(** (p u + 1) ... (p u + v) *)
Definition rise (v : nat) (u : Z) : Z := zprodl (map (fun i => p * u + Z.of_nat i) (seq 1 v)).
Lemma rise_S v u : rise (S v) u = rise v u * (p * u + Z.of_nat (S v)).
Proof. unfold rise. rewrite seq_S, map_app, zprodl_app. cbn [map zprodl]. change (1 + v)%nat with (S v). ring. Qed.
Lemma term_mod u i : (p * u + i) mod p = i mod p.
Proof. rewrite Z.add_comm, Z.mul_comm. apply Z_mod_plus_full. Qed.
Lemma term_unit u i : 1 <= i < p -> unit (p * u + i).
Proof. intros I D. apply Z.mod_divide in D; [|lia]. rewrite term_mod, Z.mod_small in D; lia. Qed.
Lemma rise_unit v u : Z.of_nat v < p -> unit (rise v u).
Proof. induction v as [|v IH]; intros L; [now apply unit_1|]. rewrite rise_S. apply unit_mul; [exact PP|apply IH; lia|apply term_unit; lia]. Qed.
Lemma rise_Bf v : exists f, Bf p e f /\ forall u, f u = rise v u.
Proof.
  induction v as [|v (f & B & F)]; [exists (fun _ => 1); split; [constructor|reflexivity]|]. exists (fun u => f u * (p * u + Z.of_nat (S v))). split; [apply Bf_mul; [exact B|apply Bf_add; constructor]|]. intros u. now rewrite rise_S, F.
Qed.
Lemma sk_rise (u v : nat) : Z.of_nat v < p -> sk (pn * u + v) = sk (pn * u) * rise v (Z.of_nat u).
Proof.
  induction v as [|v IH]; intros L; [rewrite Nat.add_0_r; unfold rise; cbn; ring|]. replace (pn * u + S v)%nat with (S (pn * u + v)) by lia. cbn [CmppProofs.sk]. assert (EQ : Z.of_nat (S (pn * u + v)) = p * Z.of_nat u + Z.of_nat (S v)) by (unfold pn; lia). rewrite EQ, term_mod, Z.mod_small by lia. destruct (Z.eqb_spec (Z.of_nat (S v)) 0); [lia|]. rewrite IH by lia. rewrite rise_S. ring.
Qed.
Lemma sk_next (u : nat) : sk (pn * S u) = sk (pn * u) * rise (pn - 1) (Z.of_nat u).
Proof.
  rewrite <- sk_rise by (unfold pn; lia). replace (pn * S u)%nat with (S (pn * u + (pn - 1))) by (unfold pn; nia). cbn [CmppProofs.sk]. assert (EQ : Z.of_nat (S (pn * u + (pn - 1))) = p * Z.of_nat u + p) by (unfold pn; nia). rewrite EQ, term_mod, Z.mod_same by lia. reflexivity.
Qed.
Lemma inv_r' x : unit x -> x * inv x == 1. Proof. intros U. exact (inv_r p PP e E1 x U). Qed.
Lemma inv_inv x : unit x -> inv (inv x) == x.
Proof. intros U. unfold CmppProofs2.inv at 2. pose proof (inv_zp p PP e E1 x (-1) U) as H. fold m in H. rewrite H. change (- (-1)) with 1. exact (zp_1 p PP e E1 x U). Qed.
Lemma sk_unit n : unit (sk n). Proof. now apply sk_free. Qed.
(** *** the binomial part *)
Section Bin.
Variable v : nat.
Hypothesis V : Z.of_nat v < p.
Definition Gf (u : Z) : Z := rise v u * inv (sk v).
Lemma Gf_unit u : unit (Gf u).
Proof. apply unit_mul; [exact PP|now apply rise_unit|apply inv_unit; auto; apply sk_unit]. Qed.
Lemma Gf_sk (u : nat) : sk (pn * u) * sk v * Gf (Z.of_nat u) == sk (pn * u + v).
Proof. unfold Gf. rewrite (sk_rise u v V). replace (sk (pn * u) * sk v * (rise v (Z.of_nat u) * inv (sk v))) with (sk (pn * u) * rise v (Z.of_nat u) * (sk v * inv (sk v))) by ring. rewrite inv_r' by apply sk_unit. rewrite Z.mul_1_r. reflexivity. Qed.
Lemma Gf_0 : Gf 0 == 1.
Proof. pose proof (Gf_sk 0) as H. rewrite Nat.mul_0_r in H. cbn [Nat.add] in H. change (sk 0) with 1 in H. apply (unit_cancel p PP e E1 _ _ (sk v)); [apply sk_unit|]. fold m. rewrite !Z.mul_1_l in *. rewrite Z.mul_comm. exact H. Qed.
Theorem alpha_formula (u : Z) : 0 <= u -> Gf u == prodj p e (fun j => Gf (Z.of_nat j)) (acoef (Z.to_nat e)) (seq 1 (Z.to_nat e - 1)) u.
Proof.
  intros U. set (k := Z.to_nat e). assert (H : sim p e false (Gf u) (prodj p e (fun j => Gf (Z.of_nat j)) (acoef k) (seq 1 (k - 1)) u)); [|destruct H as [H|(C & _)]; [exact H|discriminate]].
  apply (interp_main p PP e E1 false 0 k); [exact Gf_unit| |intros j; apply Gf_unit| | |exact U].
  - intros w _. left. destruct (rise_Bf v) as (f & B & F). rewrite (dln_eq p e k _ (fun u => f u * inv (sk v))) by (intros x; unfold Gf; now rewrite F). apply (poly_delta p PP e E1); [apply (Bf_mul p e f (fun _ => inv (sk v))); [exact B|constructor]| |unfold k; lia]. intros x. rewrite F. apply (Gf_unit x).
  - intros j w J W. apply in_seq in J. apply acoef_delta; [lia|exact W].
  - intros i I. left. unfold prodj. destruct (Z.eq_dec i 0) as [->|N].
    + rewrite Gf_0. symmetry. assert (K : forall js, (forall j, In j js -> (1 <= j < k)%nat) -> zprodl (map (fun j => zp (Gf (Z.of_nat j)) (acoef k j 0)) js) == 1).
      { induction js as [|j js IH]; intros HJ; cbn [map zprodl]; [reflexivity|]. rewrite IH by (intros; apply HJ; now right). specialize (HJ j (or_introl eq_refl)). rewrite acoef_node by lia. destruct (Z.eqb_spec 0 (Z.of_nat j)); [lia|]. rewrite (zp_0 p PP e E1). reflexivity. }
      apply K. intros j J. apply in_seq in J. lia.
    + symmetry. assert (K : forall js, NoDup js -> (forall j, In j js -> (1 <= j < k)%nat) -> zprodl (map (fun j => zp (Gf (Z.of_nat j)) (acoef k j i)) js) == (if in_dec Nat.eq_dec (Z.to_nat i) js then Gf i else 1)).
      { induction js as [|j js IH]; intros ND HJ; cbn [map zprodl]; [reflexivity|]. apply NoDup_cons_iff in ND as (NJ & ND). rewrite IH by (auto; intros; apply HJ; now right). specialize (HJ j (or_introl eq_refl)). rewrite acoef_node by lia. destruct (Z.eqb_spec i (Z.of_nat j)) as [->|NI].
        - rewrite Nat2Z.id. destruct (in_dec Nat.eq_dec j js); [contradiction|]. destruct (in_dec Nat.eq_dec j (j :: js)) as [|NN]; [|exfalso; apply NN; now left]. rewrite (zp_1 p PP e E1) by apply Gf_unit. rewrite Z.mul_1_r. reflexivity.
        - rewrite (zp_0 p PP e E1), Z.mul_1_l. destruct (in_dec Nat.eq_dec (Z.to_nat i) js), (in_dec Nat.eq_dec (Z.to_nat i) (j :: js)) as [I1|I1]; try reflexivity; exfalso; [apply I1; now right|destruct I1; [lia|contradiction]]. }
      rewrite K; [|apply seq_NoDup|intros j J; apply in_seq in J; lia]. destruct (in_dec Nat.eq_dec (Z.to_nat i) (seq 1 (k - 1))) as [|NN]; [reflexivity|]. exfalso. apply NN. apply in_seq. lia.
Qed.
End Bin.
(** *** the factorial of a multiple of p *)
Definition sg : bool := p =? 2.
Notation "a ~~ b" := (sim p e sg a b) (at level 70).
Definition Ff (u : Z) : Z := if 0 <=? u then sk (pn * Z.to_nat u) else inv (sk (pn * Z.to_nat (- u))).
Lemma Ff_unit u : unit (Ff u).
Proof. unfold Ff. destruct (0 <=? u); [apply sk_unit|apply inv_unit; auto; apply sk_unit]. Qed.
Lemma Ff_nonneg u : 0 <= u -> Ff u = sk (pn * Z.to_nat u).
Proof. intros H. unfold Ff. destruct (Z.leb_spec 0 u); [reflexivity|lia]. Qed.
Lemma Ff_neg u : u <= 0 -> Ff u = inv (sk (pn * Z.to_nat (- u))).
Proof. intros H. unfold Ff. destruct (Z.leb_spec 0 u); [|reflexivity]. assert (u = 0) by lia. subst u. cbn [Z.to_nat Z.opp]. rewrite Nat.mul_0_r. change (sk 0) with 1. now rewrite (inv_one p PP e E1). Qed.
Lemma rise_flip u : rise (pn - 1) (-1 - u) = (-1) ^ (p - 1) * rise (pn - 1) u.
Proof.
  unfold rise. rewrite <- (zprodl_perm p e E1 (map (fun i => p * u + Z.of_nat i) (map (fun i => (pn - i)%nat) (seq 1 (pn - 1)))) (map (fun i => p * u + Z.of_nat i) (seq 1 (pn - 1)))).
  2:{ apply Permutation_map. apply NoDup_Permutation; [|apply seq_NoDup|].
      - assert (ND : forall l, NoDup l -> (forall x, In x l -> (x <= pn)%nat) -> NoDup (map (fun i => (pn - i)%nat) l)). { induction 1 as [|x l NX ND IH]; intros H; cbn [map]; constructor; [|apply IH; intros; apply H; now right]. intros C. apply in_map_iff in C as (y & EY & IY). assert (x = y) by (pose proof (H x (or_introl eq_refl)); pose proof (H y (or_intror IY)); lia). now subst y. } apply ND; [apply seq_NoDup|]. intros x X. apply in_seq in X. lia.
      - intros x. rewrite in_map_iff, in_seq. split; [intros (y & <- & Y); apply in_seq in Y; lia|intros X; exists (pn - x)%nat; split; [lia|apply in_seq; lia]]. }
  rewrite map_map. replace (p - 1) with (Z.of_nat (length (seq 1 (pn - 1)))) by (rewrite seq_length; unfold pn; lia). assert (K : forall l, (forall i, In i l -> (i <= pn)%nat) -> zprodl (map (fun i => p * (-1 - u) + Z.of_nat i) l) = (-1) ^ Z.of_nat (length l) * zprodl (map (fun i => p * u + Z.of_nat (pn - i)) l)).
  { induction l as [|i l IH]; intros H; cbn [map zprodl length]; [reflexivity|]. rewrite IH by (intros; apply H; now right). specialize (H i (or_introl eq_refl)). rewrite Nat2Z.inj_succ, Z.pow_succ_r by lia. replace (Z.of_nat (pn - i)) with (p - Z.of_nat i) by (unfold pn in *; lia). ring. }
  apply K. intros i I. apply in_seq in I. lia.
Qed.
Lemma odd_pow : sg = false -> (-1) ^ (p - 1) = 1.
Proof.
  unfold sg. intros H. apply Z.eqb_neq in H. destruct (Z.Even_or_Odd p) as [(k & K)|(k & K)].
  - exfalso. assert (D : (2 | p)) by (exists k; lia). destruct (Znumtheory.prime_divisors p PP 2 D) as [|[|[|]]]; lia.
  - replace (p - 1) with (2 * k) by lia. rewrite Z.pow_mul_r by lia. change ((-1) ^ 2) with 1. apply Z.pow_1_l. lia.
Qed.
Lemma rise_sym u : rise (pn - 1) (-1 - u) ~~ rise (pn - 1) u.
Proof.
  rewrite rise_flip. destruct sg eqn:S0; [|left; rewrite (odd_pow S0), Z.mul_1_l; reflexivity]. right. split; [reflexivity|]. assert (P3 : p = 2) by (now apply Z.eqb_eq). replace (p - 1) with 1 by lia. rewrite Z.pow_1_r. replace (-1 * rise (pn - 1) u) with (- rise (pn - 1) u) by ring. reflexivity.
Qed.
Lemma Ff_delta u : dl p e Ff u ~~ rise (pn - 1) u.
Proof.
  unfold dl. destruct (Z.le_gt_cases 0 u) as [L|L].
  - left. rewrite !Ff_nonneg by lia. replace (Z.to_nat (u + 1)) with (S (Z.to_nat u)) by lia. rewrite sk_next, Z2Nat.id by exact L. replace (sk (pn * Z.to_nat u) * rise (pn - 1) u * inv (sk (pn * Z.to_nat u))) with (sk (pn * Z.to_nat u) * inv (sk (pn * Z.to_nat u)) * rise (pn - 1) u) by ring. fold m. rewrite inv_r' by apply sk_unit. rewrite Z.mul_1_l. reflexivity.
  - rewrite <- rise_sym. left. rewrite !Ff_neg by lia. fold m. rewrite inv_inv by apply sk_unit. set (w := Z.to_nat (- (u + 1))). replace (Z.to_nat (- u)) with (S w) by lia. rewrite sk_next. replace (Z.of_nat w) with (-1 - u) by lia. replace (inv (sk (pn * w)) * (sk (pn * w) * rise (pn - 1) (-1 - u))) with (sk (pn * w) * inv (sk (pn * w)) * rise (pn - 1) (-1 - u)) by ring. rewrite inv_r' by apply sk_unit. rewrite Z.mul_1_l. reflexivity.
Qed.
Theorem beta_formula (r : nat) (u : Z) : e <= 2 * Z.of_nat r -> 0 <= u -> sk (pn * Z.to_nat u) ~~ prodj p e (fun j => sk (pn * j)) (bcoef r) (seq 1 r) u.
Proof.
  intros ER U. rewrite <- (Ff_nonneg u U). apply (interp_main p PP e E1 sg (- Z.of_nat r) (2 * r + 1)); [exact Ff_unit| |intros j; apply sk_unit| | |lia].
  - intros w W. replace (2 * r + 1)%nat with (S (2 * r)) by lia. cbn [dln]. rewrite (dln_sim p PP e E1 sg (- Z.of_nat r) (2 * r) (dl p e Ff) (rise (pn - 1)) w) by (try exact W; intros; apply Ff_delta). left. destruct (rise_Bf (pn - 1)) as (f & B & F). rewrite (dln_eq p e (2 * r) _ f) by (intros x; now rewrite F). apply (poly_delta p PP e E1); [exact B| |lia]. intros x. rewrite F. apply rise_unit. unfold pn. lia.
  - intros j w J W. apply in_seq in J. apply bcoef_delta; [lia|exact W].
  - intros i I. left. fold m. unfold prodj. symmetry. assert (K : forall js, NoDup js -> (forall j, In j js -> (1 <= j <= r)%nat) -> zprodl (map (fun j => zp (sk (pn * j)) (bcoef r j i)) js) == (if in_dec Nat.eq_dec (Z.to_nat (Z.abs i)) js then Ff i else 1)).
    { induction js as [|j js IH]; intros ND HJ; cbn [map zprodl]; [reflexivity|]. apply NoDup_cons_iff in ND as (NJ & ND). rewrite IH by (auto; intros; apply HJ; now right). specialize (HJ j (or_introl eq_refl)). rewrite bcoef_node by lia. destruct (Z.eqb_spec i (Z.of_nat j)) as [->|NI]; [|destruct (Z.eqb_spec i (- Z.of_nat j)) as [->|NI2]].
      - replace (Z.to_nat (Z.abs (Z.of_nat j))) with j by lia. destruct (in_dec Nat.eq_dec j js); [contradiction|]. destruct (in_dec Nat.eq_dec j (j :: js)) as [|NN]; [|exfalso; apply NN; now left]. rewrite (zp_1 p PP e E1) by apply sk_unit. rewrite Z.mul_1_r, Ff_nonneg, Nat2Z.id by lia. reflexivity.
      - replace (Z.to_nat (Z.abs (- Z.of_nat j))) with j by lia. destruct (in_dec Nat.eq_dec j js); [contradiction|]. destruct (in_dec Nat.eq_dec j (j :: js)) as [|NN]; [|exfalso; apply NN; now left]. rewrite Z.mul_1_r, Ff_neg, Z.opp_involutive, Nat2Z.id by lia. reflexivity.
      - rewrite (zp_0 p PP e E1), Z.mul_1_l. destruct (in_dec Nat.eq_dec (Z.to_nat (Z.abs i)) js), (in_dec Nat.eq_dec (Z.to_nat (Z.abs i)) (j :: js)) as [I1|I1]; try reflexivity; exfalso; [apply I1; now right|destruct I1; [lia|contradiction]]. }
    rewrite K; [|apply seq_NoDup|intros j J; apply in_seq in J; lia]. destruct (in_dec Nat.eq_dec (Z.to_nat (Z.abs i)) (seq 1 r)) as [|NN]; [reflexivity|]. assert (i = 0). { destruct (Z.eq_dec i 0); [assumption|]. exfalso. apply NN. apply in_seq. lia. } subst i. rewrite Ff_nonneg by lia. cbn [Z.to_nat]. rewrite Nat.mul_0_r. reflexivity.
Qed.
End Gran.
