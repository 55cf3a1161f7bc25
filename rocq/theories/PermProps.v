(** C44: permutation conversions and group operations *)
From Verif Require Import Lib BaseModel PermModel PermSpec PermProofs PermProofs2 PermProofs3 PermProofs4 PermProofs5.
Open Scope nat_scope.

(** disjoint cycles of elements below n stand for exactly one permutation of [0, n) *)
Theorem C44_denotation : forall cs n, wf cs n -> exists s, denotes cs s /\ permutes n s /\ forall s', denotes cs s' -> forall x, s' x = s x.
Proof. intros cs n W. destruct (denotation_exists cs n W) as (s & D). exists s. split; [exact D|]. split; [now apply (denotes_permutes cs)|]. intros s' D'. now apply (denotation_unique cs). Qed.
(** cycles to line, and line to cycles *)
Theorem C44_to_line : forall cs n s, wf cs n -> denotes cs s -> exists l, cycles_to_line cs n = Some l /\ line_of n s l.
Proof. exact cycles_to_line_run. Qed.
Theorem C44_from_line : forall n s l, permutes n s -> line_of n s l ->
  exists cs, line_to_cycles l = Some cs /\ wf cs n /\ denotes cs s /\ (forall c, In c cs -> 2 <= length c).
Proof. exact line_to_cycles_run. Qed.
(** both round trips *)
Theorem C44_round_trip : forall n s, permutes n s ->
  (forall l, line_of n s l -> exists cs, line_to_cycles l = Some cs /\ cycles_to_line cs n = Some l) /\
  (forall cs, wf cs n -> denotes cs s -> exists l cs', cycles_to_line cs n = Some l /\ line_to_cycles l = Some cs' /\ denotes cs' s).
Proof.
  intros n s P. split.
  - intros l L. destruct (line_to_cycles_run n s l P L) as (cs & E & W & D & _). exists cs. split; [exact E|]. destruct (cycles_to_line_run cs n s W D) as (l' & E' & L'). rewrite E'. f_equal. apply (line_unique n s); assumption.
  - intros cs W D. destruct (cycles_to_line_run cs n s W D) as (l & E & L). destruct (line_to_cycles_run n s l P L) as (cs' & E' & W' & D' & _). exists l, cs'. repeat split; auto; apply D'.
Qed.
(** permutations built from lines are equal exactly when they are the same function on the same range *)
Theorem C44_equality : forall n n' s s' l l', permutes n s -> permutes n' s' -> line_of n s l -> line_of n' s' l' ->
  exists p p', perm_of_line l = Some p /\ perm_of_line l' = Some p' /\ (perm_eqb p p' = true <-> n = n' /\ forall x, s x = s' x).
Proof.
  intros n n' s s' l l' P P' L L'. destruct (line_to_cycles_run n s l P L) as (cs & E & W & D & _). destruct (line_to_cycles_run n' s' l' P' L') as (cs' & E' & W' & D' & _).
  pose proof L as [Ln _]. pose proof L' as [Ln' _]. exists (cs, n), (cs', n'). unfold perm_of_line. rewrite E, E', Ln, Ln'. split; [reflexivity|]. split; [reflexivity|].
  unfold perm_eqb. cbn [fst snd]. rewrite andb_true_iff, Nat.eqb_eq. destruct (list_eq_dec (list_eq_dec Nat.eq_dec) cs cs') as [->|N].
  - split; [intros (-> & _); split; [reflexivity|now apply (denotation_unique cs')]|intros (-> & _); now split].
  - split; [intros (_ & X); discriminate|]. intros (-> & X). exfalso. apply N. assert (l = l') as <- by (apply (line_unique n' s); [exact L|destruct L' as [K1 K2]; split; [exact K1|intros x Hx; rewrite X; now apply K2]]). congruence.
Qed.
(** the product: first the left factor, then the right one *)
Theorem C44_product : forall c1 n1 c2 n2 s1 s2, wf c1 n1 -> wf c2 n2 -> denotes c1 s1 -> denotes c2 s2 -> exists cs,
  perm_mul (c1, n1) (c2, n2) = Some (cs, Nat.max n2 n1) /\ wf cs (Nat.max n2 n1) /\ denotes cs (fun x => s2 (s1 x)).
Proof. intros c1 n1 c2 n2 s1 s2 W1 W2 D1 D2. destruct (mul_run c1 n1 c2 n2 s1 s2 W1 W2 D1 D2) as (cs & E & W & D & _). exists cs. repeat split; auto; apply W || apply D. Qed.
(** inverse and quotient *)
Theorem C44_inverse : forall cs n s, wf cs n -> denotes cs s -> exists ci, perm_inv (cs, n) = Some (ci, n) /\ wf ci n /\ (forall s', denotes ci s' <-> forall x, s' (s x) = x).
Proof. exact inv_run. Qed.
Theorem C44_quotient : forall c1 n1 c2 n2 s1 s2, wf c1 n1 -> wf c2 n2 -> denotes c1 s1 -> denotes c2 s2 -> exists cs,
  perm_div (c1, n1) (c2, n2) = Some (cs, Nat.max n2 n1) /\ wf cs (Nat.max n2 n1) /\ forall s2', (forall x, s2' (s2 x) = x) -> denotes cs (fun x => s2' (s1 x)).
Proof.
  intros c1 n1 c2 n2 s1 s2 W1 W2 D1 D2. unfold perm_div. destruct (inv_run c2 n2 s2 W2 D2) as (ci & E & Wi & Hi). rewrite E. cbn [obind]. destruct (denotation_exists ci n2 Wi) as (r & Hr).
  destruct (mul_run c1 n1 ci n2 s1 r W1 Wi D1 Hr) as (cs & E' & W & D & _). exists cs. split; [exact E'|]. split; [exact W|]. intros s2' H. apply (denotes_ext _ _ _ D). intros x. apply (denotation_unique ci); [exact Hr|now apply Hi].
Qed.
(** pow(T) is the T-th power, for every integer T *)
Theorem C44_power : forall cs n s T, wf cs n -> denotes cs s -> exists q, perm_pow (cs, n) T = Some (q, n) /\ wf q n /\
  ((0 <= T)%Z -> denotes q (Nat.iter (Z.to_nat T) s)) /\ ((T < 0)%Z -> forall s', (forall x, s' (s x) = x) -> denotes q (Nat.iter (Z.to_nat (- T)) s')).
Proof. intros cs n s T W D. destruct (pow_run cs n s T W D) as (q & E & Wq & _ & H). exists q. split; [exact E|]. split; [exact Wq|exact H]. Qed.
(** transpositions: the line of a list of exchanges, and the exchanges of a list of cycles *)
Theorem C44_transpositions : forall n ts, (forall a b, In (a, b) ts -> a < n /\ b < n) -> exists l, transpositions_to_line ts n = Some l /\ permutes n (fun x => fold_right (fun '(a, b) y => transp a b y) x ts) /\ line_of n (fun x => fold_right (fun '(a, b) y => transp a b y) x ts) l.
Proof.
  intros n ts B. unfold transpositions_to_line, identity_line. destruct (apply_transpositions_run ts (seq 0 n)) as (l & E & L & H); [now rewrite seq_length|]. rewrite seq_length in L. exists l. split; [exact E|]. pose proof (transps_permutes n ts B) as P. split; [exact P|]. split; [exact L|].
  intros x Hx. rewrite H. apply (proj2 (identity_line_spec n)). now apply P.
Qed.
Theorem C44_cycles_to_transpositions : forall cs n, wf cs n -> length (cycles_to_transpositions cs) = swaps cs /\ transpositions_to_line (cycles_to_transpositions cs) n = cycles_to_line cs n.
Proof.
  intros cs n W. split; [apply cycles_to_transpositions_length|]. unfold transpositions_to_line, cycles_to_line, apply_cycles_to_line. rewrite cycles_to_transpositions_apply. f_equal. unfold expand_line, identity_line. rewrite seq_length, Nat.sub_diag. cbn. now rewrite app_nil_r.
Qed.
(** a returned root is a root of the requested parity; without a parity request the answer "none" means that there is none *)
Theorem C44_root : forall cs n s T parity, wf cs n -> denotes cs s -> (1 <= T)%Z -> exists q, perm_root (cs, n) T parity = Some q /\
  ((q = ([], 0) /\ ((parity < 0)%Z -> ~ exists r, permutes n r /\ forall x, Nat.iter (Z.to_nat T) r x = s x)) \/
   exists rc, q = (rc, n) /\ wf rc n /\ (forall r, denotes rc r -> forall x, Nat.iter (Z.to_nat T) r x = s x) /\ (parity = 0 \/ parity = 1 -> Z.of_nat (swaps rc) mod 2 = parity)%Z).
Proof.
  intros cs n s T parity W D HT. destruct (root_run cs n s T parity W D HT) as (q & E & [(Eq & H)|H]); exists q; (split; [exact E|]).
  - left. split; [exact Eq|]. intros Hp X. destruct (H Hp) as (l & Hl). apply Hl. now apply (root_complete cs n s T l).
  - right. exact H.
Qed.

Definition p1 : list (list nat) := [[0; 3; 1; 2]; [5; 6]].
Lemma wf_check cs n : nodup Nat.eq_dec (concat cs) = concat cs -> forallb (fun x => x <? n) (concat cs) && forallb (fun c => 0 <? length c) cs = true -> wf cs n.
Proof.
  intros H1 H. apply andb_prop in H as (H2 & H3). split; [|split].
  - rewrite <- H1. apply NoDup_nodup.
  - intros x Hx. apply (proj1 (forallb_forall _ _) H2) in Hx. now apply Nat.ltb_lt.
  - intros X. apply (proj1 (forallb_forall _ _) H3) in X. discriminate.
Qed.
Example C44_case : wf p1 8 /\ cycles_to_line p1 8 = Some [3; 2; 0; 1; 4; 6; 5; 7] /\ line_to_cycles [3; 2; 0; 1; 4; 6; 5; 7] = Some [[0; 3; 1; 2]; [5; 6]] /\
  perm_mul ([[0; 1]], 3) ([[1; 2]], 3) = Some ([[0; 2; 1]], 3) /\ perm_pow (p1, 8) 3 = Some ([[0; 2; 1; 3]; [5; 6]], 8) /\ perm_pow (p1, 8) (-1) = Some ([[0; 2; 1; 3]; [5; 6]], 8) /\
  cycles_to_transpositions p1 = [(0, 3); (3, 1); (1, 2); (5, 6)] /\ perm_root ([[0; 1]; [2; 3]], 4) 2 (-1) = Some ([[0; 2; 1; 3]], 4) /\ perm_root ([[0; 1]], 4) 2 (-1) = Some ([], 0) /\
  perm_root ([[0; 1; 2]; [3; 4; 5]], 6) 2 1 = Some ([[0; 3; 1; 4; 2; 5]], 6).
Proof. split; [apply wf_check|repeat split]; vm_compute; reflexivity. Qed.

(** the documented order (p1 * p2)(x) = p1(p2(x)) does not hold *)
Theorem C44_product_refuted : exists c1 c2 s1 s2, wf c1 3 /\ wf c2 3 /\ denotes c1 s1 /\ denotes c2 s2 /\ exists cs, perm_mul (c1, 3) (c2, 3) = Some (cs, 3) /\ ~ denotes cs (fun x => s1 (s2 x)).
Proof.
  exists [[0; 1]], [[1; 2]], (transp 0 1), (transp 1 2). assert (D : forall a b, a <> b -> denotes [[a; b]] (transp a b)).
  { intros a b N. split.
    - intros c [<-|[]] i Hi. cbn in Hi. destruct i as [|[|i]]; [| |lia]; cbn; unfold transp; [now rewrite Nat.eqb_refl|]. rewrite (Nat.eqb_refl b). destruct (Nat.eqb_spec b a); congruence.
    - intros x Hx. cbn in Hx. unfold transp. destruct (Nat.eqb_spec x a) as [->|]; [tauto|]. destruct (Nat.eqb_spec x b) as [->|]; tauto. }
  split; [apply wf_check; reflexivity|]. split; [apply wf_check; reflexivity|]. split; [apply D; lia|]. split; [apply D; lia|]. exists [[0; 2; 1]]. split; [reflexivity|]. intros (H & _). specialize (H _ (or_introl eq_refl) 0 ltac:(cbn; lia)). discriminate.
Qed.
(** equality compares the lists of cycles: pow(2) and p * p are the same permutation but differ; root(1) of the identity differs from it *)
Theorem C44_equality_refuted :
  (exists p a b, perm_pow p 2 = Some a /\ perm_mul p p = Some b /\ perm_eqb a b = false /\ exists l, cycles_to_line (fst a) (snd a) = Some l /\ cycles_to_line (fst b) (snd b) = Some l) /\
  (exists r, perm_root (identity_perm 3) 1 (-1) = Some r /\ perm_eqb r (identity_perm 3) = false).
Proof.
  split.
  - exists ([[0; 3; 1; 2]], 4), ([[0; 1]; [3; 2]], 4), ([[0; 1]; [2; 3]], 4). split; [reflexivity|]. split; [reflexivity|]. split; [reflexivity|]. exists [1; 0; 3; 2]. split; reflexivity.
  - exists ([[0]; [1]; [2]], 3). split; reflexivity.
Qed.
Print Assumptions C44_denotation.
Print Assumptions C44_to_line.
Print Assumptions C44_from_line.
Print Assumptions C44_round_trip.
Print Assumptions C44_equality.
Print Assumptions C44_product.
Print Assumptions C44_inverse.
Print Assumptions C44_quotient.
Print Assumptions C44_power.
Print Assumptions C44_transpositions.
Print Assumptions C44_cycles_to_transpositions.
Print Assumptions C44_root.
Print Assumptions C44_product_refuted.
Print Assumptions C44_equality_refuted.
