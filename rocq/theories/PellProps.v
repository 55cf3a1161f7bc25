(** Pell equations: pell.h. *)
From Coq Require Import Sorted.
From Verif Require Import Lib BaseModel PrimesSpec TripleSpec TripleProps PellModel PellSpec PellProofs PellProofs2 PellProofs3 PellProofs4 PellProofs5 PellProofs6 PellProofs7 PellProofs8.
Open Scope Z_scope.

Lemma sg_pow n : sg n = (-1) ^ Z.of_nat n.
Proof. induction n as [|n IH]; [reflexivity|]. rewrite Nat2Z.inj_succ, Z.pow_succ_r by lia. cbn [sg]. lia. Qed.
(** The vectors hold the first terms of the continued fraction of (P0 + sqrt(D)) / Q0, of its convergents and of G = Q0 A - P0 B; the result
    is the length of the shortest period; a later call adds one more period. *)
Theorem C110_expansion : forall root D P0 Q0, square_root root -> nonsquare D -> Q0 <> 0 -> (Q0 | D - P0 * P0) ->
  exists P Q a A B G, P O = P0 /\ Q O = Q0 /\ expansion D P Q a /\ recurrence a 0 1 A /\ recurrence a 1 0 B /\ recurrence a (- P0) Q0 G /\
    (forall i, G i = Q0 * A i - P0 * B i /\ Z.gcd (A i) (B i) = 1 /\ G i * G i - D * (B i * B i) = (-1) ^ Z.of_nat (i + 1) * Q (i + 1)%nat * Q0) /\
    let terms n := V (map P (seq 0 (n + 1))) (map Q (seq 0 (n + 1))) (map a (seq 0 n)) (map A (seq 0 n)) (map B (seq 0 n)) (map G (seq 0 n)) in
    exists r l, (1 <= l)%nat /\ pell_PQa root D (V [P0] [Q0] [] [] [] []) = Some (l, terms (r + l)%nat) /\
      (forall k, (1 <= k)%nat -> pell_PQa root D (terms (r + k * l)%nat) = Some (l, terms (r + (k + 1) * l)%nat)) /\
      (forall i, (r <= i)%nat -> P (i + l)%nat = P i /\ Q (i + l)%nat = Q i) /\
      (forall l' i, (1 <= l')%nat -> P (i + l')%nat = P i -> Q (i + l')%nat = Q i -> (l <= l')%nat).
Proof.
  intros root D P0 Q0 RT ND HQ HP. pose proof (root_facts root D RT ND) as (Hs & HD). set (s := root D) in *. assert (G0 : good D (P0, Q0)) by (split; assumption).
  exists (Pn D s P0 Q0), (Qn D s P0 Q0), (an D s P0 Q0), (fun i => An D s P0 Q0 (S i)), (fun i => Bn D s P0 Q0 (S i)), (fun i => Gn D s P0 Q0 (S i)). split; [reflexivity|]. split; [reflexivity|]. split; [now apply expansion_ok|]. split; [now apply recurrence_ok|]. split; [now apply recurrence_ok|]. split; [now apply recurrence_ok|]. split.
  - intros i. unfold An, Bn, Gn. split; [apply G_lin|]. split.
    + pose proof (A_det D s P0 Q0 (S i)) as E. apply Z.bezout_1_gcd. exists (sg (S i) * fst (cv D s P0 Q0 (1, 0) (S i))), (- sg (S i) * fst (cv D s P0 Q0 (0, 1) (S i))). transitivity (sg (S i) * (snd (cv D s P0 Q0 (0, 1) (S i)) * fst (cv D s P0 Q0 (1, 0) (S i)) - fst (cv D s P0 Q0 (0, 1) (S i)) * snd (cv D s P0 Q0 (1, 0) (S i)))); [ring|]. rewrite E. apply sg_sq.
    + replace (i + 1)%nat with (S i) by lia. rewrite <- sg_pow. exact (value root RT D ND P0 Q0 G0 (S i)).
  - cbv zeta. destruct (calls root RT D ND P0 Q0 G0) as (r & l & R1 & L1 & RR & L2 & L3 & C1 & C2). exists r, l. split; [exact L1|]. assert (TR : forall n, trace D s P0 Q0 n = V (map (Pn D s P0 Q0) (seq 0 (n + 1))) (map (Qn D s P0 Q0) (seq 0 (n + 1))) (map (an D s P0 Q0) (seq 0 n)) (map (fun i => An D s P0 Q0 (S i)) (seq 0 n)) (map (fun i => Bn D s P0 Q0 (S i)) (seq 0 n)) (map (fun i => Gn D s P0 Q0 (S i)) (seq 0 n))) by (intros n; rewrite Nat.add_1_r; reflexivity).
    split; [rewrite <- TR; exact C1|]. split; [intros k Hk; rewrite <- !TR; now apply C2|]. split.
    + intros i Hi. pose proof (per_after root D P0 Q0 r l L2 i Hi) as E. unfold Pn, Qn. fold s in E. now rewrite E.
    + intros l' i Hl E1 E2. apply (any_period root RT D ND P0 Q0 G0 r l i l' RR L1 L2 L3 Hl). fold s. unfold Pn, Qn in E1, E2. destruct (pq D s P0 Q0 (i + l')), (pq D s P0 Q0 i). cbn [fst snd] in *. congruence.
Qed.

(** x^2 - D y^2 = 1 or -1: the smallest positive solution is returned, and its powers (the odd ones for -1) are all the positive solutions; nothing is
    returned exactly when there is no solution at all, which cannot be for 1 *)
Theorem C111_pell1 : forall root D N, square_root root -> nonsquare D -> N = 1 \/ N = -1 ->
  (exists l x y, pell1 root D N = Some (Some (l, x, y)) /\ (1 <= l)%nat /\ least_solution D N (x, y) /\
     forall t, (positive t /\ solution D N t) <-> exists k, ((1 <= k)%nat /\ (N = -1 -> (k mod 2 = 1)%nat)) /\ t = qpow D (x, y) k) \/
  (pell1 root D N = Some None /\ N = -1 /\ forall x y, ~ solution D N (x, y)).
Proof. intros. now apply pell1_sound. Qed.
(** the list of solutions within limits *)
Theorem C111_list : forall root fuel D N x_max y_max count, square_root root -> nonsquare D -> N = 1 \/ N = -1 -> (0 < x_max < fuel \/ 0 < y_max < fuel \/ 0 < count < fuel) ->
  exists vs, pell1_list root fuel D N x_max y_max count = Some vs /\ StronglySorted smaller vs /\
    (forall t, In t vs -> positive t /\ solution D N t /\ (0 < x_max -> fst t <= x_max) /\ (0 < y_max -> snd t <= y_max)) /\ (0 < count -> Z.of_nat (length vs) <= count) /\
    forall t, positive t -> solution D N t -> (0 < x_max -> fst t <= x_max) -> (0 < y_max -> snd t <= y_max) ->
      In t vs \/ (0 < count /\ Z.of_nat (length vs) = count /\ forall u, In u vs -> smaller u t).
Proof. intros. now apply pell1_list_ok. Qed.
(** 0 < N^2 < D: every positive solution is, in one way only, a listed one times a power of the smallest solution of x^2 - D y^2 = 1 *)
Theorem C112_pellS : forall root D N, square_root root -> nonsquare D -> N <> 0 -> N * N < D ->
  exists vs, pellS root D N = Some vs /\ NoDup vs /\ (forall t, In t vs -> positive t /\ solution D N t) /\
    forall x1, least_solution D 1 x1 -> forall t, positive t -> solution D N t ->
      exists u j, (In u vs /\ t = qmul D u (qpow D x1 j)) /\ forall u' j', In u' vs /\ t = qmul D u' (qpow D x1 j') -> u' = u /\ j' = j.
Proof. intros. now apply pellS_ok. Qed.
(** the general equation: whatever is returned is a solution *)
Theorem C113_class : forall root D m z, square_root root -> nonsquare D -> m <> 0 -> (m | z * z - D) ->
  exists r, pell_mz root D m z = Some r /\ match r with Some (l, x, y) => (1 <= l)%nat /\ solution D m (x, y) | None => True end.
Proof. intros. now apply pell_mz_ok. Qed.
Theorem C113_sound : forall root D N fN, square_root root -> nonsquare D -> N <> 0 -> factorisation (Z.to_nat (Z.abs N)) fN ->
  exists vs, pell root D N fN = Some vs /\ Forall (solution D N) vs.
Proof. intros. now apply pell_ok. Qed.
Theorem C113_list_sound : forall root fuel D N fN x_max y_max count out, square_root root -> nonsquare D -> N <> 0 -> factorisation (Z.to_nat (Z.abs N)) fN ->
  pell_list root fuel D N fN x_max y_max count = Some out ->
  (forall t, In t out -> 0 <= fst t /\ 0 <= snd t /\ solution D N t /\ (0 < x_max -> fst t <= x_max) /\ (0 < y_max -> snd t <= y_max)) /\ (0 < count -> Z.of_nat (length out) <= count).
Proof. intros until 4. now apply pell_list_ok. Qed.
(** a whole class can be missing: (1, 2) solves x^2 - 2 y^2 = -7, but is not the one returned solution times a unit *)
Theorem C113_classes_refuted : pell Z.sqrt 2 (-7) [(7, 1)%nat] = Some [(5, 4)] /\ solution 2 (-7) (1, 2) /\ forall u, solution 2 1 u -> qmul 2 (5, 4) u <> (1, 2) /\ qmul 2 (5, 4) u <> (-1, -2).
Proof.
  split; [vm_compute; reflexivity|]. split; [reflexivity|]. intros [a b] _. unfold qmul. cbn [fst snd]. split; intros E; apply pair_equal_spec in E as (E1 & E2); lia.
Qed.
(** and the list of solutions within limits can be empty although there are some *)
Theorem C113_list_refuted : pell_list Z.sqrt 1000 3 6 [(2, 1); (3, 1)]%nat 100 0 0 = Some [] /\ solution 3 6 (3, 1).
Proof. split; [vm_compute; reflexivity|reflexivity]. Qed.

Example C110_case : nonsquare 13 /\ 3 <> 0 /\ (3 | 13 - 1 * 1) /\ (exists v, pell_PQa Z.sqrt 13 (V [1] [3] [] [] [] []) = Some (5%nat, v) /\ va v = [1; 1; 1; 6; 1; 1]) /\ pell1 Z.sqrt 13 1 = Some (Some (5%nat, 649, 180)) /\ pell1 Z.sqrt 13 (-1) = Some (Some (5%nat, 18, 5)) /\ pell1 Z.sqrt 7 (-1) = Some None.
Proof.
  split; [split; [lia|]|]. { intros r E. assert (Z.abs r * Z.abs r = 13) by (rewrite Z.abs_square; lia). assert (Z.abs r <= 3 \/ 4 <= Z.abs r) as [|] by lia; [assert (Z.abs r * Z.abs r <= 3 * 3) by (apply Z.mul_le_mono_nonneg; lia)|assert (4 * 4 <= Z.abs r * Z.abs r) by (apply Z.mul_le_mono_nonneg; lia)]; lia. }
  split; [lia|]. split; [exists 4; reflexivity|]. split; [eexists; split; vm_compute; reflexivity|]. repeat split; vm_compute; reflexivity.
Qed.
Example C112_case : pellS Z.sqrt 13 3 = Some [(4, 1); (256, 71)] /\ pell1_list Z.sqrt 100 2 (-1) 1000 0 0 = Some [(1, 1); (7, 5); (41, 29); (239, 169)] /\ pell1_list Z.sqrt 100 2 (-1) 0 0 2 = Some [(1, 1); (7, 5)] /\ pell_list Z.sqrt 100 2 7 [(7, 1)%nat] 20 0 0 = Some [(3, 1); (5, 3); (13, 9)].
Proof. repeat split; vm_compute; reflexivity. Qed.
Print Assumptions C110_expansion.
Print Assumptions C111_pell1.
Print Assumptions C111_list.
Print Assumptions C112_pellS.
Print Assumptions C113_class.
Print Assumptions C113_sound.
Print Assumptions C113_list_sound.
Print Assumptions C113_classes_refuted.
Print Assumptions C113_list_refuted.
