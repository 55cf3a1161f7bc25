(** Treaps (structure/container/treap.h), on the heap of BstModel.v.
    rnd() is modelled by its result, an argument z of the operations that draw a random number; insert and insert_before draw
    exactly one unless the tree returns end(), which it never does.  The lookups, the iterators, the copy constructor, the
    destructor, ==, < and clear() only forward to the tree (treap.h:19-70, 107-237), so BstModel.v models them. *)
From Verif Require Import Lib BstModel.
Open Scope nat_scope.

Section Model.
Context {V K : Type}.
Variable key : V -> K.
Variable cmp : K -> K -> bool.
Notation heap := (heap (V := V)).

(** retrace_up: 266-277 *)
Definition retrace_up (h : heap) (nil it : nat) (z : Z) : option heap :=
  if it =? nil then Some h else
  let* h := sbal h it z in
  while (loops h) (fun h =>
    let* b := gbal h it in let* p := gpar h it in let* pb := gbal h p in
    if (b <? pb)%Z then
      let* p := gpar h it in let* l := glft h p in
      let* '(h, _) := (if l =? it then rotate_right h p else rotate_left h p) in Some (inl h)
    else Some (inr h)) h.
(** retrace_down: 279-289 *)
Definition retrace_down (h : heap) (nil it : nat) : option heap :=
  if it =? nil then Some h else
  while (loops h) (fun h =>
    let* l := glft h it in let* r := grgt h it in
    if negb (l =? nil) && negb (r =? nil) then
      let* bl := gbal h l in let* br := gbal h r in
      let* '(h, _) := (if (bl <? br)%Z then rotate_right h it else rotate_left h it) in Some (inl h)
    else Some (inr h)) h.
(** insert: 239-241; insert_before: 243-245 *)
Definition treap_insert (d : dup) (h : heap) (nil : nat) (v : V) (cnt z : Z) : option (heap * nat) :=
  let* '(h, it) := bst_insert key cmp d h nil v cnt in let* h := retrace_up h nil it z in Some (h, it).
Definition treap_insert_before (d : dup) (h : heap) (nil it : nat) (v : V) (cnt z : Z) : option (heap * nat) :=
  let* '(h, it) := insert_before d h nil it v cnt in let* h := retrace_up h nil it z in Some (h, it).
(** erase of a position: 261-263; of a range: 255-259, where the result of an empty range is an iterator without a node, here None;
    of a key: 247-253 *)
Definition treap_erase_at (d : dup) (h : heap) (nil it : nat) (cnt : Z) : option (heap * nat) :=
  let* h := retrace_down h nil it in erase_node d h nil it cnt.
Definition treap_erase_range (d : dup) (h : heap) (nil b e : nat) (cnt : Z) : option (heap * option nat) :=
  while (loops h) (fun '(h, b, res) =>
    if b =? e then Some (inr (h, res)) else
    let* b' := inorder_next h b in let* '(h, it) := treap_erase_at d h nil b cnt in Some (inl (h, b', Some it))) (h, b, None).
Definition treap_erase (d : dup) (h : heap) (nil : nat) (k : K) (cnt : Z) : option (heap * option nat) :=
  match d with
  | STORE => let* b := lower_bound key cmp h nil k in let* e := upper_bound key cmp h nil k in treap_erase_range d h nil b e (2 ^ 31 - 1)%Z
  | _ => let* p := bst_find key cmp d h nil k in let* '(h, it) := treap_erase_at d h nil p cnt in Some (h, Some it)
  end.
End Model.
