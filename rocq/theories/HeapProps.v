(** C25: binary_heap is a priority queue; sort() sorts. *)
From Verif Require Import Lib HeapModel HeapSpec HeapProofs.
From Coq Require Import Permutation.

(** For every comparator that is a strict weak order, every initial contents and every
    history of insert / pop_front / rebuild that never pops an empty heap: nothing fails,
    every popped front is a smallest element of the multiset held at that moment, and the
    remaining vector is the remaining multiset, which sort() turns into its ascending
    permutation. *)
Theorem C25_binary_heap :
  forall (T : Type) (cmp : T -> T -> bool) (xs : list T) (os : list (heap_op T)),
    strict_weak cmp -> pops_ok (length xs) os ->
    exists v0 outs v,
      heap_from cmp xs = Some v0 /\ Permutation xs v0 /\
      heap_run cmp v0 os = Some (outs, v) /\
      pq cmp xs os outs v /\
      (forall x, heap_front v = Some x -> is_min cmp x v) /\
      exists s, heap_sort cmp v = Some s /\ Permutation v s /\ ascending cmp s.
Proof.
  intros T cmp xs os SW Hp.
  destruct (rebuild_spec cmp SW xs) as (v0 & E0 & H0 & P0).
  destruct (run_spec cmp SW os v0 H0) as (outs & v & E & Q & H).
  { now rewrite <- (Permutation_length P0). }
  exists v0, outs, v. split; [exact E0|]. split; [exact P0|]. split; [exact E|].
  split; [apply (pq_perm cmp v0); [exact Q|now symmetry]|].
  split; [intros x Hx; now apply (heap_min cmp SW)|].
  now apply sort_spec.
Qed.

(** popping everything yields the elements in ascending order *)
Example C25_case :
  let cmp := fun a b : nat * nat => fst a <? fst b in   (* ties in the second component *)
  strict_weak cmp /\
  (let* v := heap_from cmp [(5,0);(3,1);(8,2);(3,3);(1,4)] in
   let* '(outs, v) := heap_run cmp v [HPop; HInsert (2,5); HPop; HPop; HRebuild] in
   let* s := heap_sort cmp v in Some (map fst outs, map fst s)) = Some ([1;2;3], [3;5;8]) /\
  pops_ok 5 [HPop; HInsert (2,5); HPop; HPop; HRebuild].
Proof.
  cbv zeta. split; [constructor|split; [reflexivity|cbn; lia]].
  - intros a b H. apply Nat.ltb_lt in H. apply Nat.ltb_ge. lia.
  - intros a b c H1 H2. apply Nat.ltb_ge in H1, H2. apply Nat.ltb_ge. lia.
Qed.
Print Assumptions C25_binary_heap.
