(** Property C33: the pool allocator, for every history of calls and every outcome of malloc. *)
From Coq Require Import Permutation.
From Verif Require Import Lib AllocModel AllocSpec AllocProofs.
Open Scope nat_scope.

(** in every history of a client that gives back only cells in use, a cell handed out lies in the pool and is not in use; cells in use are distinct and at most
    the capacity in number *)
Theorem C33_fresh_cells : forall n os a es, run (alloc_new n) os = Some (a, es) -> disciplined es ->
  (forall pre c post, es = pre ++ Got c :: post -> c < n /\ ~ In c (live pre)) /\ NoDup (live es) /\ length (live es) <= n.
Proof.
  intros n os a es E D. destruct (run_good n os (alloc_new n) [] a es (good_new n) E D) as (G & H). cbn [app] in *. split; [exact H|]. destruct G as (G1 & G2 & G3). split; [|lia]. destruct (ptrs a) as [l|].
  - destruct G3 as (_ & G3). assert (ND : NoDup (firstn (avail a) l ++ live es)) by (eapply Permutation_NoDup; [apply Permutation_sym; exact G3|apply seq_NoDup]). clear - ND. induction (firstn (avail a) l) as [|x t IH]; [exact ND|]. cbn in ND. apply NoDup_cons_iff in ND as (_ & ND). auto.
  - rewrite G3. constructor.
Qed.
(** after such a history every call is defined: a cell in use can be given back, and a request for one cell is granted when fewer than the capacity are in use and
    malloc has memory; it is refused when all are in use, and a request for another number of cells is always refused *)
Theorem C33_progress : forall n os a es, run (alloc_new n) os = Some (a, es) -> disciplined es ->
  (forall c, In c (live es) -> exists a', step a (Free c) = Some (a', Gave c)) /\
  (length (live es) < n -> exists a' c, step a (Alloc 1 true true) = Some (a', Got c)) /\
  (length (live es) = n -> forall k m1 m2, exists a', step a (Alloc k m1 m2) = Some (a', Refused)) /\
  (forall k m1 m2, k <> 1 -> exists a', step a (Alloc k m1 m2) = Some (a', Refused)).
Proof.
  intros n os a es E D. destruct (run_good n os (alloc_new n) [] a es (good_new n) E D) as (G & _). cbn [app] in *. cbn [step]. split; [|split; [|split]].
  - intros c I. destruct (deallocate_ok n a (live es) c G I) as (a' & -> & _). cbn [obind]. eauto.
  - intros Hl. destruct (allocate_ok n a (live es) 1 true true G) as (r & a' & -> & H). cbn [obind]. destruct r as [c|]; [eauto|]. destruct H as (_ & H). specialize (H eq_refl eq_refl eq_refl). lia.
  - intros Hl k m1 m2. destruct (allocate_ok n a (live es) k m1 m2 G) as (r & a' & -> & H). cbn [obind]. destruct r as [c|]; [|eauto]. destruct H as (_ & _ & _ & (_ & H & _)). cbn [length] in H. lia.
  - intros k m1 m2 Hk. destruct (allocate_ok n a (live es) k m1 m2 G) as (r & a' & -> & H). cbn [obind]. destruct r as [c|]; [destruct H; contradiction|eauto].
Qed.
(** a refused request costs nothing: the capacity is still there once malloc has memory *)
Theorem C33_refusal_harmless : forall n os a es k m1 m2 a', run (alloc_new n) os = Some (a, es) -> disciplined es -> step a (Alloc k m1 m2) = Some (a', Refused) -> length (live es) < n ->
  exists a'' c, step a' (Alloc 1 true true) = Some (a'', Got c) /\ ~ In c (live es).
Proof.
  intros n os a es k m1 m2 a' E D S Hl. destruct (run_good n os (alloc_new n) [] a es (good_new n) E D) as (G & _). cbn [app] in *. cbn [step] in *. destruct (allocate_ok n a (live es) k m1 m2 G) as (r & a1 & E1 & H). rewrite E1 in S. cbn [obind] in S. destruct r as [c|]; injection S as <-; try discriminate. destruct H as (G' & _).
  destruct (allocate_ok n a1 (live es) 1 true true G') as (r & a2 & -> & H). cbn [obind]. destruct r as [c|]; [exists a2, c; split; [reflexivity|apply H]|]. destruct H as (_ & H). specialize (H eq_refl eq_refl eq_refl). lia.
Qed.
(** what is false of the code: clear() gives the memory back but does not restore the number of available cells *)
Theorem C33_clear_refuted : exists n os a es, run (alloc_new n) os = Some (a, es) /\ disciplined es /\ exists a', step (alloc_clear a) (Alloc 1 true true) = Some (a', Refused) /\ 0 < n.
Proof.
  exists 1, [Alloc 1 true true]. eexists _, _. split; [reflexivity|]. split; [intros [|x [|y pre]] c post H; discriminate|]. eexists. split; [reflexivity|lia].
Qed.
(** a copied allocator shares the pool: both hand out the same cell *)
Theorem C33_copy_refuted : exists n os a es, run (alloc_new n) os = Some (a, es) /\ disciplined es /\ exists c a1 a2, step a (Alloc 1 true true) = Some (a1, Got c) /\ step (alloc_copy a) (Alloc 1 true true) = Some (a2, Got c) /\ data a = true.
Proof.
  exists 2, [Alloc 1 true true]. eexists _, _. split; [reflexivity|]. split; [intros [|x [|y pre]] c post H; discriminate|]. eexists _, _, _. split; [reflexivity|split; reflexivity].
Qed.
(** giving back a cell twice hands it out twice *)
Example C33_discipline_needed : exists a, run (alloc_new 2) [Alloc 1 true true; Alloc 1 true true; Free 0; Free 0; Alloc 1 true true; Alloc 1 true true] = Some (a, [Got 1; Got 0; Gave 0; Gave 0; Got 0; Got 0]).
Proof. eexists. vm_compute. reflexivity. Qed.
Example C33_case : exists a es, run (alloc_new 3) [Alloc 1 false true; Alloc 1 true true; Alloc 1 true true; Free 2; Alloc 2 true true; Alloc 1 true true; Alloc 1 true true; Alloc 1 true true] = Some (a, es) /\
  es = [Refused; Got 2; Got 1; Gave 2; Refused; Got 2; Got 0; Refused] /\ disciplined es /\ live es = [0; 2; 1].
Proof.
  eexists _, _. split; [vm_compute; reflexivity|]. split; [reflexivity|]. split; [|reflexivity]. intros pre c post H. do 3 (destruct pre as [|? pre]; [discriminate|]; cbn [app] in H; injection H as <- H). destruct pre as [|? pre]; cbn [app] in H; [injection H as <- _; cbn; auto|]. injection H as <- H. do 5 (destruct pre as [|? pre]; [discriminate|]; cbn [app] in H; try (injection H as <- H)). discriminate.
Qed.

Print Assumptions C33_fresh_cells.
Print Assumptions C33_progress.
Print Assumptions C33_refusal_harmless.
Print Assumptions C33_clear_refuted.
Print Assumptions C33_copy_refuted.
