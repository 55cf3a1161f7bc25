(** Ropes (structure/container/rope.h): a treap in mode STORE on the heap of BstModel.v, used by position only.
    The argument z of an insertion is the random number that the treap draws.  The iterator classes (16-77) are pointers with the
    operations of BstModel.v; reverse iterators, swap, move and assignment are not modelled. *)
From Verif Require Import Lib BstModel TreapModel.
Open Scope nat_scope.

Section Model.
Context {V : Type}.
Notation heap := (heap (V := V)).

(** size: 152-154; empty: 148-150; find_kth: 181-187 are those of the tree *)
(** insert at an iterator: 197-199; at a position: 193-195; push_back: 189-191 *)
Definition rope_insert_at (h : heap) (nil it : nat) (v : V) (z : Z) : option heap :=
  let* '(h, _) := treap_insert_before STORE h nil it v 1 z in Some h.
Definition rope_insert (h : heap) (nil : nat) (pos : Z) (v : V) (z : Z) : option heap :=
  let* it := find_kth h nil pos in rope_insert_at h nil it v z.
Definition rope_push_back (h : heap) (nil : nat) (v : V) (z : Z) : option heap :=
  let* n := bst_size h nil in rope_insert h nil n v z.
(** erase at an iterator: 213-215; at a position: 209-211; of a range of iterators: 205-207; of a range of positions: 201-203 *)
Definition rope_erase_at (h : heap) (nil it : nat) : option heap :=
  let* '(h, _) := treap_erase_at STORE h nil it 1 in Some h.
Definition rope_erase (h : heap) (nil : nat) (pos : Z) : option heap :=
  let* it := find_kth h nil pos in rope_erase_at h nil it.
Definition rope_erase_range_at (h : heap) (nil b e : nat) : option heap :=
  while (loops h) (fun '(h, b) =>
    if b =? e then Some (inr h) else let* b' := inorder_next h b in let* h := rope_erase_at h nil b in Some (inl (h, b'))) (h, b).
Definition rope_erase_range (h : heap) (nil : nat) (b e : Z) : option heap :=
  let* ib := find_kth h nil b in let* ie := find_kth h nil e in rope_erase_range_at h nil ib ie.
(** at and operator []: 217-231; r[pos] = v assigns through the reference; the value of the sentinel does not exist *)
Definition rope_at (h : heap) (nil : nat) (pos : Z) : option V := let* it := find_kth h nil pos in gval h it.
Definition with_val (h : heap) (f : nat -> option V) : heap := {| live := live h; par := par h; lft := lft h; rgt := rgt h; bal := bal h; siz := siz h; val := f; next := next h |}.
Definition rope_set (h : heap) (nil : nat) (pos : Z) (v : V) : option heap :=
  let* it := find_kth h nil pos in let* _ := gval h it in Some (with_val h (upd (val h) it (Some v))).
(** the constructor from a range: 111-117, with the random numbers it draws *)
Fixpoint rope_fill (h : heap) (nil : nat) (l : list (V * Z)) : option heap :=
  match l with [] => Some h | (v, z) :: l => let* h := rope_push_back h nil v z in rope_fill h nil l end.
Definition rope_new (h : heap) (l : list (V * Z)) : option (heap * nat) := let '(h, m) := bst_init h in let* h := rope_fill h m l in Some (h, m).
(** difference and order of iterators: 28-31, 40 *)
Definition rope_diff (h : heap) (i j : nat) : option Z := let* '(p, _) := inorder_pos h i in let* '(q, _) := inorder_pos h j in Some (p - q)%Z.
Definition rope_before (h : heap) (i j : nat) : option bool := let* d := rope_diff h i j in Some (d <? 0)%Z.
(** operator == and operator <: 173-174, with collections::compare (collections.h:178-188) on the iterators; eqb and ltb are those of the value type *)
Definition rope_compare (eqb ltb : V -> V -> bool) (h : heap) (n1 n2 : nat) : option Z :=
  let* b1 := bst_begin h n1 in let* b2 := bst_begin h n2 in
  while (loops h) (fun '(b1, b2) =>
    if negb (b1 =? n1) && negb (b2 =? n2) then
      let* v1 := gval h b1 in let* v2 := gval h b2 in
      if negb (eqb v1 v2) then Some (inr (if ltb v1 v2 then (-1)%Z else 1%Z)) else
      let* b1 := inorder_next h b1 in let* b2 := inorder_next h b2 in Some (inl (b1, b2))
    else Some (inr (if negb (b2 =? n2) then (-1)%Z else if negb (b1 =? n1) then 1%Z else 0%Z))) (b1, b2).
Definition rope_eq (eqb ltb : V -> V -> bool) (h : heap) (n1 n2 : nat) : option bool := let* c := rope_compare eqb ltb h n1 n2 in Some (c =? 0)%Z.
Definition rope_lt (eqb ltb : V -> V -> bool) (h : heap) (n1 n2 : nat) : option bool := let* c := rope_compare eqb ltb h n1 n2 in Some (c <? 0)%Z.
End Model.
