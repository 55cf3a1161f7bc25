(** C43: nimber arithmetic. The word has 2^K bits, so a nimber is a number below 2^(2^K), for every K. *)
From Coq Require Import NArith Ring Ring_theory.
From Verif Require Import Lib NimTower NimSpec NimNat NimModel NimProofs NimProofs2 NimMex.
Open Scope N_scope.
Add Ring nim4 : nim_ring (morphism bool_morph, constants [nim_const]).

(** the product tables a program can hold: the initial one, and whatever multiplications, inversions and divisions of nimbers, in any order, leave behind *)
Inductive reached (K : nat) : table -> Prop :=
| r_start : reached K table0
| r_mul t a b r t' : reached K t -> a < 2 ^ 2 ^ N.of_nat K -> b < 2 ^ 2 ^ N.of_nat K -> mul K t a b = Some (r, t') -> reached K t'
| r_inverse t v r t' : reached K t -> v < 2 ^ 2 ^ N.of_nat K -> inverse K t v = Some (r, t') -> reached K t'
| r_div t a b r t' : reached K t -> a < 2 ^ 2 ^ N.of_nat K -> b < 2 ^ 2 ^ N.of_nat K -> ndiv K t a b = Some (r, t') -> reached K t'.

Lemma tinv_0 : tinv table0. Proof. intros m n. now left. Qed.
Lemma inverse_0 K t : inverse K t 0 = Some (0, t).
Proof. unfold inverse. cbn [inverse_f]. destruct (level_run K 0 (N.shiftr_0_l _)) as (l & -> & _ & _ & LM). cbn [obind]. destruct l; [reflexivity|]. exfalso. apply (LM 0%nat); [lia|apply N.shiftr_0_l]. Qed.
Lemma inverse_ok K t v : tinv t -> small (wd K) v -> v <> 0 -> exists r t', inverse K t v = Some (r, t') /\ tinv t' /\ small (wd K) r /\ nm v r = 1.
Proof. intros TI V NZ. apply (inverse_run K (S K) v t TI V) with (j := K); [|exact NZ|lia|exact V]. intros l EL. destruct (level_run K v V) as (l' & E & L & _). rewrite EL in E. injection E as ->. lia. Qed.
Lemma inverse_any K t v : tinv t -> small (wd K) v -> exists r t', inverse K t v = Some (r, t') /\ tinv t' /\ small (wd K) r.
Proof. intros TI V. destruct (N.eq_dec v 0) as [->|NZ]; [exists 0, t; split; [apply inverse_0|]; split; [exact TI|exact V]|]. destruct (inverse_ok K t v TI V NZ) as (r & t' & E & T & R & _). now exists r, t'. Qed.
Lemma reached_tinv K t : reached K t -> tinv t.
Proof.
  induction 1 as [|t a b r t' _ TI A B E|t v r t' _ TI V E|t a b r t' _ TI A B E]; [exact tinv_0| | |].
  - apply small_lt in A, B. destruct (mul_run K t a b TI A B) as (t2 & E2 & T2). rewrite E in E2. now injection E2 as _ ->.
  - apply small_lt in V. destruct (inverse_any K t v TI V) as (r2 & t2 & E2 & T2 & _). rewrite E in E2. now injection E2 as _ ->.
  - apply small_lt in A, B. unfold ndiv in E. destruct (inverse_any K t b TI B) as (i & t1 & E1 & T1 & I1). rewrite E1 in E. cbn [obind] in E. destruct (mul_run K t1 a i T1 A I1) as (t2 & E2 & T2). rewrite E in E2. now injection E2 as _ ->.
Qed.
Lemma small_2 K a : small (wd K) a <-> a < 2 ^ 2 ^ N.of_nat K. Proof. exact (small_lt (wd K) a). Qed.

(** Conway's definition has exactly one solution, and both multiplications compute it, whatever the table holds by then *)
Theorem C43_nim_product :
  exists op : N -> N -> N, nim_product op /\ (forall op', nim_product op' -> forall a b, op' a b = op a b) /\
    forall K t a b, reached K t -> a < 2 ^ 2 ^ N.of_nat K -> b < 2 ^ 2 ^ N.of_nat K ->
      op a b < 2 ^ 2 ^ N.of_nat K /\ mul2 K a b = Some (op a b) /\ exists t', mul K t a b = Some (op a b, t').
Proof.
  exists nm. split; [exact nm_is_nim|]. split; [intros op' H; now apply nim_unique; [|apply nm_is_nim]|]. intros K t a b R A B. apply small_2 in A, B. split; [apply small_2; now apply nm_small|]. split.
  - apply (mul2_run K (2 * K + 1) a b K K); try assumption; lia.
  - destruct (mul_run K t a b (reached_tinv K t R) A B) as (t' & E & _). now exists t'.
Qed.
(** the laws: for every operation that meets Conway's definition *)
Theorem C43_field_laws : forall op, nim_product op ->
  (forall a b, op a b = op b a) /\ (forall a b c, op (op a b) c = op a (op b c)) /\ (forall a b c, op (N.lxor a b) c = N.lxor (op a c) (op b c)) /\ (forall a, op 1 a = a) /\ (forall a b, op a b = 0 -> a = 0 \/ b = 0) /\
  (forall k a b, a < 2 ^ 2 ^ N.of_nat k -> b < 2 ^ 2 ^ N.of_nat k -> op a b < 2 ^ 2 ^ N.of_nat k) /\
  (forall k a, a < 2 ^ 2 ^ N.of_nat k -> op a (2 ^ 2 ^ N.of_nat k) = a * 2 ^ 2 ^ N.of_nat k) /\
  (forall k, op (2 ^ 2 ^ N.of_nat k) (2 ^ 2 ^ N.of_nat k) = 2 ^ 2 ^ N.of_nat k + 2 ^ 2 ^ N.of_nat k / 2).
Proof.
  intros op H. assert (E : forall a b, op a b = nm a b) by (apply nim_unique; [exact H|exact nm_is_nim]). repeat split; intros; rewrite ?E in *; try ring.
  - now apply nm_nonzero.
  - apply small_2. now apply nm_small; apply small_2.
  - change (2 ^ 2 ^ N.of_nat k) with (fm k). rewrite fm_mul by (now apply small_2). apply N.shiftl_mul_pow2.
  - change (2 ^ 2 ^ N.of_nat k) with (fm k). rewrite fm_square. unfold fm, ee. pose proof (wd_pos k) as W. replace (2 ^ wd k / 2) with (2 ^ (wd k - 1)).
    + symmetry. apply N.add_nocarry_lxor. apply N.bits_inj. intros i. rewrite N.land_spec, N.bits_0, !N.pow2_bits_eqb. destruct (N.eqb_spec (wd k) i), (N.eqb_spec (wd k - 1) i); try reflexivity. exfalso. lia.
    + replace (wd k) with (N.succ (wd k - 1)) at 2 by lia. rewrite N.pow_succ_r', N.mul_comm, N.div_mul by lia. reflexivity.
Qed.
Theorem C43_inverse : forall op, nim_product op -> forall K t v, reached K t -> v < 2 ^ 2 ^ N.of_nat K ->
  exists r t', inverse K t v = Some (r, t') /\ r < 2 ^ 2 ^ N.of_nat K /\ (v = 0 -> r = 0) /\ (v <> 0 -> op v r = 1).
Proof.
  intros op H K t v R V. assert (E : forall a b, op a b = nm a b) by (apply nim_unique; [exact H|exact nm_is_nim]). apply small_2 in V. pose proof (reached_tinv K t R) as TI. destruct (N.eq_dec v 0) as [->|NZ].
  - exists 0, t. split; [apply inverse_0|]. split; [now apply small_2|]. split; [reflexivity|congruence].
  - destruct (inverse_ok K t v TI V NZ) as (r & t' & EI & _ & RS & RE). exists r, t'. split; [exact EI|]. split; [now apply small_2|]. split; [congruence|]. intros _. now rewrite E.
Qed.
Theorem C43_div : forall op, nim_product op -> forall K t a b, reached K t -> a < 2 ^ 2 ^ N.of_nat K -> b < 2 ^ 2 ^ N.of_nat K -> b <> 0 ->
  exists q t', ndiv K t a b = Some (q, t') /\ q < 2 ^ 2 ^ N.of_nat K /\ op q b = a.
Proof.
  intros op H K t a b R A B NZ. assert (E : forall a b, op a b = nm a b) by (apply nim_unique; [exact H|exact nm_is_nim]). apply small_2 in A, B. pose proof (reached_tinv K t R) as TI. unfold ndiv. destruct (inverse_ok K t b TI B NZ) as (i & t1 & -> & T1 & IS & IE). cbn [obind]. destruct (mul_run K t1 a i T1 A IS) as (t2 & -> & _).
  exists (nm a i), t2. split; [reflexivity|]. split; [apply small_2; now apply nm_small|]. rewrite E. transitivity (nm a (nm b i)); [ring|]. rewrite IE. ring.
Qed.
Theorem C43_sqrt : forall op, nim_product op -> forall K v, v < 2 ^ 2 ^ N.of_nat K ->
  exists r, nsqrt K v = Some r /\ r < 2 ^ 2 ^ N.of_nat K /\ op r r = v /\ forall s, op s s = v -> s = r.
Proof.
  intros op H K v V. assert (E : forall a b, op a b = nm a b) by (apply nim_unique; [exact H|exact nm_is_nim]). apply small_2 in V. destruct (sqrt_run K (S K) v V) with (j := K) as (r & ER & RS & RE); [|lia|exact V|].
  - intros l EL. destruct (level_run K v V) as (l' & E' & L & _). rewrite EL in E'. injection E' as ->. lia.
  - exists r. split; [exact ER|]. split; [now apply small_2|]. rewrite E. split; [exact RE|]. intros s. rewrite E. intros SE. assert (Z0 : nm (N.lxor s r) (N.lxor s r) = 0) by (transitivity (N.lxor (nm s s) (nm r r)); [ring|]; rewrite SE, RE; ring). apply nm_nonzero in Z0 as [Z0|Z0]; now apply N.lxor_eq in Z0.
Qed.
(** lift multiplies by the top bit 2^(2^k - 1) of its level *)
Theorem C43_lift : forall op, nim_product op -> forall K k a, (k <= K)%nat -> a < 2 ^ 2 ^ N.of_nat k -> lift K k a = Some (op (2 ^ (2 ^ N.of_nat k - 1)) a).
Proof. intros op H K k a L A. rewrite (nim_unique op nm H nm_is_nim). apply lift_run; [exact L|now apply small_2]. Qed.
(** + is the nim sum: the least number different from all a' + b and a + b' with a' < a and b' < b *)
Theorem C43_add : forall a b, is_mex (nadd a b) (fun c => (exists a', a' < a /\ c = nadd a' b) \/ (exists b', b' < b /\ c = nadd a b')).
Proof.
  intros a b. unfold nadd. split.
  - intros [(a' & L & E)|(b' & L & E)].
    + assert (a = a'); [|lia]. transitivity (N.lxor (N.lxor a b) b); [ring|]. rewrite E. ring.
    + assert (b = b'); [|lia]. transitivity (N.lxor (N.lxor a b) a); [ring|]. rewrite E. ring.
  - intros c L. apply lt_V in L. apply V_xor in L as [L|L]; apply V_lt in L.
    + left. exists (N.lxor a (N.lxor c (N.lxor a b))). split; [exact L|ring].
    + right. exists (N.lxor b (N.lxor c (N.lxor a b))). split; [exact L|ring].
Qed.

Example C43_case : reached 6 table0 /\ mul2 6 123456789 987654321 = Some 2797059340 /\ option_map fst (mul 6 table0 123456789 987654321) = Some 2797059340 /\ option_map fst (inverse 6 table0 12345678901234567) = Some 15637860297454356801 /\ mul2 6 12345678901234567 15637860297454356801 = Some 1.
Proof. split; [constructor|]. vm_compute. repeat split. Qed.
Print Assumptions C43_nim_product. Print Assumptions C43_field_laws. Print Assumptions C43_inverse. Print Assumptions C43_div. Print Assumptions C43_sqrt. Print Assumptions C43_lift. Print Assumptions C43_add.
