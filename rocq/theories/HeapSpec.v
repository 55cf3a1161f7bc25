(** What a priority queue is: a multiset from which a smallest element is taken. *)
From Verif Require Import Lib HeapModel.
From Coq Require Import Permutation.

(** the comparator is a strict weak order *)
Record strict_weak {T} (cmp : T -> T -> bool) : Prop := {
  sw_asym : forall a b, cmp a b = true -> cmp b a = false;
  sw_neg_trans : forall a b c, cmp b a = false -> cmp c b = false -> cmp c a = false
}.

(** no element of m is smaller than x *)
Definition is_min {T} (cmp : T -> T -> bool) (x : T) (m : list T) : Prop := forall y, In y m -> cmp y x = false.

Inductive heap_op (T : Type) := HInsert (x : T) | HPop | HRebuild.
Arguments HInsert {T}. Arguments HPop {T}. Arguments HRebuild {T}.

(** [pq cmp m os outs m']: from multiset m the operations os yield the popped elements outs
    and leave multiset m' (multisets are lists up to permutation) *)
Inductive pq {T} (cmp : T -> T -> bool) : list T -> list (heap_op T) -> list T -> list T -> Prop :=
| pq_nil m m' : Permutation m m' -> pq cmp m [] [] m'
| pq_insert m x os outs m' : pq cmp (x :: m) os outs m' -> pq cmp m (HInsert x :: os) outs m'
| pq_pop m x m1 os outs m' : Permutation m (x :: m1) -> is_min cmp x m ->
    pq cmp m1 os outs m' -> pq cmp m (HPop :: os) (x :: outs) m'
| pq_rebuild m os outs m' : pq cmp m os outs m' -> pq cmp m (HRebuild :: os) outs m'.

(** running the operations on the modelled heap, observing front() before each pop *)
Fixpoint heap_run {T} (cmp : T -> T -> bool) (v : list T) (os : list (heap_op T)) : option (list T * list T) :=
  match os with
  | [] => Some ([], v)
  | HInsert x :: os => let* v := heap_insert cmp v x in heap_run cmp v os
  | HPop :: os =>
      let* x := heap_front v in
      let* v := heap_pop cmp v in
      let* '(outs, v) := heap_run cmp v os in Some (x :: outs, v)
  | HRebuild :: os => let* v := heap_rebuild cmp v in heap_run cmp v os
  end.

(** a history never pops from an empty queue *)
Fixpoint pops_ok {T} (n : nat) (os : list (heap_op T)) : Prop :=
  match os with
  | [] => True
  | HInsert _ :: os => pops_ok (S n) os
  | HPop :: os => 0 < n /\ pops_ok (n - 1) os
  | HRebuild :: os => pops_ok n os
  end.

(** ascending with respect to cmp *)
Definition ascending {T} (cmp : T -> T -> bool) (v : list T) : Prop :=
  forall i j a b, i < j -> nth_error v i = Some a -> nth_error v j = Some b -> cmp b a = false.
