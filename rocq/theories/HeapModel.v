(** Model of include/altruct/structure/container/binary_heap.h.
    Access outside the vector is None. *)
From Verif Require Import Lib.

Section Heap.
  Context {T : Type} (cmp : T -> T -> bool).

  (** std::swap(v[i], v[j]) *)
  Definition vswap (v : list T) (i j : nat) : option (list T) :=
    let* a := nth_error v i in
    let* b := nth_error v j in
    let* v := set_nth v i b in
    set_nth v j a.

  (** binary_heap.h:74-81 heapify_up *)
  Fixpoint heap_up (fuel : nat) (v : list T) (index : nat) : option (list T) :=
    match fuel with
    | O => None
    | S k =>
        if 0 <? index then
          let parent := (index - 1) / 2 in
          let* x := nth_error v index in
          let* y := nth_error v parent in
          if negb (cmp x y) then Some v
          else let* v := vswap v index parent in heap_up k v parent
        else Some v
    end.

  (** :83-93 heapify_down; [best] equals [index] at the loop head *)
  Fixpoint heap_down (fuel : nat) (v : list T) (index sz : nat) : option (list T) :=
    match fuel with
    | O => None
    | S k =>
        let left := index * 2 + 1 in
        let right := index * 2 + 2 in
        let best := index in
        let* best :=
          (if left <? sz then
             let* x := nth_error v left in let* y := nth_error v best in
             Some (if cmp x y then left else best)
           else Some best) in
        let* best :=
          (if right <? sz then
             let* x := nth_error v right in let* y := nth_error v best in
             Some (if cmp x y then right else best)
           else Some best) in
        if best =? index then Some v
        else let* v := vswap v index best in heap_down k v best sz
    end.

  (** :42-45 insert *)
  Definition heap_insert (v : list T) (val : T) : option (list T) :=
    let v := v ++ [val] in
    heap_up (length v) v (length v - 1).

  (** :47-49 front *)
  Definition heap_front (v : list T) : option T := nth_error v 0.

  (** :51-55 pop_front *)
  Definition heap_pop (v : list T) : option (list T) :=
    let* v := vswap v 0 (length v - 1) in
    let v := removelast v in
    heap_down (S (length v)) v 0 (length v).

  (** :58-62 rebuild *)
  Definition heap_rebuild (v : list T) : option (list T) :=
    for_down 0 (length v / 2) (fun i v => heap_down (S (length v)) v i (length v)) v.

  (** :31-37 constructors from a container *)
  Definition heap_from (xs : list T) : option (list T) := heap_rebuild xs.

  (** :65-71 sort *)
  Definition heap_sort (v : list T) : option (list T) :=
    let* v := for_down 0 (length v) (fun i v =>
        let* v := vswap v 0 i in heap_down (S i) v 0 i) v in
    Some (rev v).
End Heap.
