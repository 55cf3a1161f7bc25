(** Model of structure/container/binary_search_tree.h on a heap of nodes. A pointer is a number; each field of a node is a map from pointers, so that an
    assignment changes one field of one node. Every access needs a live node, otherwise the result is None; a loop that does not end is None. A new node
    gets a number not used before (memory is not reused). int is unbounded. A tree object is its nil pointer. The value of a nil node is never
    constructed (None). Iterators are pointers; the iterator classes (144-208) only call the functions below and are not modelled as such, reverse iterators are not modelled. *)
From Verif Require Import Lib.
Open Scope nat_scope.

(** while loops: f gives the next state (inl) or leaves the loop (inr) *)
Fixpoint while {S R : Type} (fuel : nat) (f : S -> option (S + R)) (s : S) : option R :=
  match fuel with
  | O => None
  | S fuel => match f s with None => None | Some (inl s') => while fuel f s' | Some (inr r) => Some r end
  end.
(** bst_duplicate_handling: 213-219 *)
Inductive dup := IGNORE | COUNT | STORE.

Section Bst.
Context {V K : Type}.
(** _key: 683-685 with bst_key: 13-36, and the comparison functor *)
Variable key : V -> K.
Variable cmp : K -> K -> bool.

(** bst_node: 48-61; next is the first number never used *)
Record heap := { live : nat -> bool; par : nat -> nat; lft : nat -> nat; rgt : nat -> nat; bal : nat -> Z; siz : nat -> Z; val : nat -> option V; next : nat }.
Definition upd {A} (f : nat -> A) (p : nat) (x : A) : nat -> A := fun q => if q =? p then x else f q.
(** reading and writing a field *)
Definition gpar (h : heap) (p : nat) : option nat := if live h p then Some (par h p) else None.
Definition glft (h : heap) (p : nat) : option nat := if live h p then Some (lft h p) else None.
Definition grgt (h : heap) (p : nat) : option nat := if live h p then Some (rgt h p) else None.
Definition gbal (h : heap) (p : nat) : option Z := if live h p then Some (bal h p) else None.
Definition gsiz (h : heap) (p : nat) : option Z := if live h p then Some (siz h p) else None.
Definition gval (h : heap) (p : nat) : option V := if live h p then val h p else None.
Definition with_par (h : heap) (f : nat -> nat) : heap := {| live := live h; par := f; lft := lft h; rgt := rgt h; bal := bal h; siz := siz h; val := val h; next := next h |}.
Definition with_lft (h : heap) (f : nat -> nat) : heap := {| live := live h; par := par h; lft := f; rgt := rgt h; bal := bal h; siz := siz h; val := val h; next := next h |}.
Definition with_rgt (h : heap) (f : nat -> nat) : heap := {| live := live h; par := par h; lft := lft h; rgt := f; bal := bal h; siz := siz h; val := val h; next := next h |}.
Definition with_bal (h : heap) (f : nat -> Z) : heap := {| live := live h; par := par h; lft := lft h; rgt := rgt h; bal := f; siz := siz h; val := val h; next := next h |}.
Definition with_siz (h : heap) (f : nat -> Z) : heap := {| live := live h; par := par h; lft := lft h; rgt := rgt h; bal := bal h; siz := f; val := val h; next := next h |}.
Definition spar (h : heap) (p x : nat) : option heap := if live h p then Some (with_par h (upd (par h) p x)) else None.
Definition slft (h : heap) (p x : nat) : option heap := if live h p then Some (with_lft h (upd (lft h) p x)) else None.
Definition srgt (h : heap) (p x : nat) : option heap := if live h p then Some (with_rgt h (upd (rgt h) p x)) else None.
Definition sbal (h : heap) (p : nat) (x : Z) : option heap := if live h p then Some (with_bal h (upd (bal h) p x)) else None.
Definition ssiz (h : heap) (p : nat) (x : Z) : option heap := if live h p then Some (with_siz h (upd (siz h) p x)) else None.
Definition loops (h : heap) : nat := next h + 2.

(** is_nil: 59; count: 60 *)
Definition is_nil (h : heap) (p : nat) : option bool := let* q := gpar h p in Some (q =? p).
Definition node_count (h : heap) (p : nat) : option Z :=
  let* n := is_nil h p in
  if (n : bool) then Some 0%Z else let* s := gsiz h p in let* l := glft h p in let* sl := gsiz h l in let* r := grgt h p in let* sr := gsiz h r in Some (s - sl - sr)%Z.

(** inorder_prev: 72-80; inorder_next: 86-94 *)
Definition inorder_prev (h : heap) (p : nat) : option nat :=
  let* ch := glft h p in let* n := is_nil h ch in
  if (n : bool) then while (loops h) (fun ch => let* ptr := gpar h ch in let* r := grgt h ptr in Some (if negb (ch =? r) then inl ptr else inr ptr)) p
  else while (loops h) (fun ptr => let* ch := grgt h ptr in let* n := is_nil h ch in Some (if negb n then inl ch else inr ptr)) ch.
Definition inorder_next (h : heap) (p : nat) : option nat :=
  let* ch := grgt h p in let* n := is_nil h ch in
  if (n : bool) then while (loops h) (fun ch => let* ptr := gpar h ch in let* l := glft h ptr in Some (if negb (ch =? l) then inl ptr else inr ptr)) p
  else while (loops h) (fun ptr => let* ch := glft h ptr in let* n := is_nil h ch in Some (if negb n then inl ch else inr ptr)) ch.
(** inorder_pos: 110-118, with the nil node found *)
Definition inorder_pos (h : heap) (p : nat) : option (Z * nat) :=
  let* l := glft h p in let* k := gsiz h l in
  while (loops h) (fun '(ptr, k, was_right) =>
    let* n := is_nil h ptr in
    if (n : bool) then Some (inr (k, ptr)) else
    let* k := (if (was_right : bool) then let* s := gsiz h ptr in let* r := grgt h ptr in let* sr := gsiz h r in Some (k + (s - sr))%Z else Some k) in
    let* q := gpar h ptr in let* r := grgt h q in Some (inl (q, k, r =? ptr))) (p, k, false).
(** inorder_kth: 124-135 *)
Definition inorder_kth (h : heap) (p : nat) (k : Z) : option nat :=
  while (loops h) (fun '(ptr, k) =>
    let* n := is_nil h ptr in
    if (n : bool) then Some (inr ptr) else
    let* l := glft h ptr in let* sl := gsiz h l in
    if (k <? sl)%Z then Some (inl (l, k)) else
    let* s := gsiz h ptr in let* r := grgt h ptr in let* sr := gsiz h r in
    let k := (k - (s - sr))%Z in
    if (0 <=? k)%Z then Some (inl (r, k)) else Some (inr ptr)) (p, k).
(** inorder_add: 100-104 *)
Definition inorder_add (h : heap) (p : nat) (off : Z) : option nat :=
  let* '(pos, e) := inorder_pos h p in let* root := glft h e in inorder_kth h root (pos + off)%Z.

(** make_link with a side: 662-666; with the old child: 668-673 *)
Definition make_link (h : heap) (p ch : nat) (go_left : bool) : option heap :=
  let* n := is_nil h p in
  let* h := (if n || go_left then slft h p ch else Some h) in
  let* n := is_nil h p in
  let* h := (if n || negb go_left then srgt h p ch else Some h) in
  let* n := is_nil h ch in if negb n then spar h ch p else Some h.
Definition make_link_old (h : heap) (p ch old : nat) : option heap :=
  let* r := grgt h p in let* h := (if r =? old then srgt h p ch else Some h) in
  let* l := glft h p in let* h := (if l =? old then slft h p ch else Some h) in
  let* n := is_nil h ch in if negb n then spar h ch p else Some h.
(** propagate_size: 675-680 *)
Definition propagate_size (h : heap) (p e : nat) (cnt : Z) : option heap :=
  if (cnt =? 0)%Z then Some h else
  while (loops h) (fun '(h, tmp) =>
    if tmp =? e then Some (inr h) else
    let* s := gsiz h tmp in let* h := ssiz h tmp (s + cnt)%Z in let* q := gpar h tmp in Some (inl (h, q))) (h, p).
(** swap_with_descendant: 644-660 *)
Definition swap_with_descendant (h : heap) (p d : nat) : option heap :=
  let* pp := gpar h p in let* dp := gpar h d in let* h := spar h p dp in let* h := spar h d pp in
  let* pp := gpar h p in let* h := (if pp =? p then spar h p d else Some h) in
  let* pp := gpar h p in let* h := make_link_old h pp p d in
  let* dp := gpar h d in let* h := make_link_old h dp d p in
  let* pl := glft h p in let* dl := glft h d in let* h := slft h p dl in let* h := slft h d pl in
  let* dl := glft h d in let* h := (if dl =? d then slft h d p else Some h) in
  let* pl := glft h p in let* n := is_nil h pl in let* h := (if negb n then spar h pl p else Some h) in
  let* dl := glft h d in let* n := is_nil h dl in let* h := (if negb n then spar h dl d else Some h) in
  let* pr := grgt h p in let* dr := grgt h d in let* h := srgt h p dr in let* h := srgt h d pr in
  let* dr := grgt h d in let* h := (if dr =? d then srgt h d p else Some h) in
  let* pr := grgt h p in let* n := is_nil h pr in let* h := (if negb n then spar h pr p else Some h) in
  let* dr := grgt h d in let* n := is_nil h dr in let* h := (if negb n then spar h dr d else Some h) in
  let* pb := gbal h p in let* db := gbal h d in let* h := sbal h p db in let* h := sbal h d pb in
  let* ps := gsiz h p in let* ds := gsiz h d in let* h := ssiz h p ds in let* h := ssiz h d ps in
  let* dc := node_count h d in let* pc := node_count h p in propagate_size h p d (dc - pc)%Z.
(** rotate_left: 619-629; rotate_right: 631-641 *)
Definition rotate_left (h : heap) (p : nat) : option (heap * nat) :=
  let* ch := grgt h p in let* sz := gsiz h p in
  let* pp := gpar h p in let* h := make_link_old h pp ch p in
  let* cl := glft h ch in let* h := make_link_old h p cl ch in
  let* s := gsiz h p in let* cl := glft h ch in let* scl := gsiz h cl in let* sc := gsiz h ch in let* h := ssiz h p (s + (scl - sc))%Z in
  let* h := slft h ch p in let* h := spar h p ch in let* h := ssiz h ch sz in Some (h, ch).
Definition rotate_right (h : heap) (p : nat) : option (heap * nat) :=
  let* ch := glft h p in let* sz := gsiz h p in
  let* pp := gpar h p in let* h := make_link_old h pp ch p in
  let* cr := grgt h ch in let* h := make_link_old h p cr ch in
  let* s := gsiz h p in let* cr := grgt h ch in let* scr := gsiz h cr in let* sc := gsiz h ch in let* h := ssiz h p (s + (scr - sc))%Z in
  let* h := srgt h ch p in let* h := spar h p ch in let* h := ssiz h ch sz in Some (h, ch).

(** allocation: _init 687-694 (no value), _buy 701-705, _free 707-710; the other fields of a bought node are not initialised: they keep what the maps hold *)
Definition heap_new : heap := {| live := fun _ => false; par := fun _ => 0; lft := fun _ => 0; rgt := fun _ => 0; bal := fun _ => 0%Z; siz := fun _ => 0%Z; val := fun _ => None; next := 0 |}.
Definition bst_init (h : heap) : heap * nat :=
  let n := next h in
  ({| live := upd (live h) n true; par := upd (par h) n n; lft := upd (lft h) n n; rgt := upd (rgt h) n n; bal := upd (bal h) n 0%Z; siz := upd (siz h) n 0%Z; val := upd (val h) n None; next := n + 1 |}, n).
Definition bst_buy (h : heap) (v : V) : heap * nat :=
  let n := next h in
  ({| live := upd (live h) n true; par := par h; lft := lft h; rgt := rgt h; bal := bal h; siz := siz h; val := upd (val h) n (Some v); next := n + 1 |}, n).
Definition bst_free (h : heap) (p : nat) : option heap :=
  if live h p then Some {| live := upd (live h) p false; par := par h; lft := lft h; rgt := rgt h; bal := bal h; siz := siz h; val := val h; next := next h |} else None.

(** root_ptr: 280-286; size: 347-349; empty: 343-345; begin: 355-357; end: 358-360 is nil *)
Definition bst_root (h : heap) (nil : nat) : option nat := glft h nil.
Definition bst_size (h : heap) (nil : nat) : option Z := let* r := bst_root h nil in gsiz h r.
Definition bst_empty (h : heap) (nil : nat) : option bool := let* s := bst_size h nil in Some (s =? 0)%Z.
Definition bst_begin (h : heap) (nil : nat) : option nat := inorder_next h nil.

(** count_less_or_equal: 392-403; count_less: 405-416 *)
Definition count_less_or_equal (h : heap) (nil : nat) (k : K) : option Z :=
  let* root := bst_root h nil in
  while (loops h) (fun '(ptr, c) =>
    let* n := is_nil h ptr in if (n : bool) then Some (inr c) else
    let* v := gval h ptr in
    if cmp k (key v) then let* l := glft h ptr in Some (inl (l, c))
    else let* s := gsiz h ptr in let* r := grgt h ptr in let* sr := gsiz h r in Some (inl (r, (c + (s - sr))%Z))) (root, 0%Z).
Definition count_less (h : heap) (nil : nat) (k : K) : option Z :=
  let* root := bst_root h nil in
  while (loops h) (fun '(ptr, c) =>
    let* n := is_nil h ptr in if (n : bool) then Some (inr c) else
    let* v := gval h ptr in
    if cmp (key v) k then let* s := gsiz h ptr in let* r := grgt h ptr in let* sr := gsiz h r in Some (inl (r, (c + (s - sr))%Z))
    else let* l := glft h ptr in Some (inl (l, c))) (root, 0%Z).
(** find: 434-451; lower_bound: 457-468; upper_bound: 474-485 *)
Definition bst_find (d : dup) (h : heap) (nil : nat) (k : K) : option nat :=
  let* root := bst_root h nil in
  while (loops h) (fun '(ptr, res) =>
    let* n := is_nil h ptr in if (n : bool) then Some (inr res) else
    let* v := gval h ptr in
    if cmp (key v) k then let* r := grgt h ptr in Some (inl (r, res)) else
    if cmp k (key v) then let* l := glft h ptr in Some (inl (l, res)) else
    match d with STORE => let* l := glft h ptr in Some (inl (l, ptr)) | _ => Some (inr ptr) end) (root, nil).
Definition lower_bound (h : heap) (nil : nat) (k : K) : option nat :=
  let* root := bst_root h nil in
  while (loops h) (fun '(ptr, res) =>
    let* n := is_nil h ptr in if (n : bool) then Some (inr res) else
    let* v := gval h ptr in
    if cmp (key v) k then let* r := grgt h ptr in Some (inl (r, res)) else let* l := glft h ptr in Some (inl (l, ptr))) (root, nil).
Definition upper_bound (h : heap) (nil : nat) (k : K) : option nat :=
  let* root := bst_root h nil in
  while (loops h) (fun '(ptr, res) =>
    let* n := is_nil h ptr in if (n : bool) then Some (inr res) else
    let* v := gval h ptr in
    if cmp k (key v) then let* l := glft h ptr in Some (inl (l, ptr)) else let* r := grgt h ptr in Some (inl (r, res))) (root, nil).
(** count: 418-424; find_kth: 426-428 *)
Definition bst_count (d : dup) (h : heap) (nil : nat) (k : K) : option Z :=
  match d with
  | STORE => let* a := count_less_or_equal h nil k in let* b := count_less h nil k in Some (a - b)%Z
  | _ => let* p := bst_find d h nil k in node_count h p
  end.
Definition find_kth (h : heap) (nil : nat) (k : Z) : option nat := let* root := bst_root h nil in inorder_kth h root k.

(** insert_node: 565-580 *)
Definition insert_node (d : dup) (h : heap) (nil p : nat) (go_left : bool) (v : V) (cnt : Z) : option (heap * nat) :=
  let* ptr := (if go_left then glft h p else grgt h p) in let* n := is_nil h ptr in
  let* '(h, ptr) := (if (n : bool) then
      let '(h, ptr) := bst_buy h v in
      let* h := spar h ptr p in let* h := slft h ptr nil in let* h := srgt h ptr nil in let* h := ssiz h ptr 0%Z in
      let* h := make_link h p ptr go_left in Some (h, ptr)
    else Some (h, ptr)) in
  let cnt := match d with COUNT => cnt | _ => 1%Z end in
  let* h := propagate_size h ptr nil cnt in Some (h, ptr).
(** insert: 499-525 *)
Definition bst_insert (d : dup) (h : heap) (nil : nat) (v : V) (cnt : Z) : option (heap * nat) :=
  let* root := bst_root h nil in
  let* r := while (loops h) (fun '(ptr, p, go_left) =>
    let* n := is_nil h ptr in if (n : bool) then Some (inr (inr (p, go_left))) else
    let* w := gval h ptr in
    if cmp (key v) (key w) then let* l := glft h ptr in Some (inl (l, ptr, true)) else
    if cmp (key w) (key v) then let* r := grgt h ptr in Some (inl (r, ptr, false)) else
    match d with
    | STORE => let* r := grgt h ptr in Some (inl (r, ptr, false))
    | COUNT => let* q := gpar h ptr in Some (inr (inr (q, go_left)))
    | IGNORE => Some (inr (inl ptr))
    end) (root, nil, true) in
  match r with inl ptr => Some (h, ptr) | inr (p, go_left) => insert_node d h nil p go_left v cnt end.
(** insert_before: 528-531 *)
Definition insert_before (d : dup) (h : heap) (nil it : nat) (v : V) (cnt : Z) : option (heap * nat) :=
  let* l := glft h it in let* go_left := is_nil h l in
  let* it := (if negb go_left then inorder_prev h it else Some it) in insert_node d h nil it go_left v cnt.
(** erase_node: 582-603 *)
Definition erase_node (d : dup) (h : heap) (nil p : nat) (cnt : Z) : option (heap * nat) :=
  let* n := is_nil h p in if (n : bool) then Some (h, nil) else
  let cnt := match d with COUNT => cnt | _ => 1%Z end in
  let* c := node_count h p in
  if (cnt <? c)%Z then let* h := propagate_size h p nil (- cnt)%Z in Some (h, p) else
  let* l := glft h p in let* nl := is_nil h l in let* r := grgt h p in let* nr := is_nil h r in
  let* h := (if negb nl && negb nr then let* d := inorder_next h p in swap_with_descendant h p d else Some h) in
  let* l := glft h p in let* nl := is_nil h l in
  let* ch := (if negb nl then glft h p else grgt h p) in
  let* pp := gpar h p in let* h := make_link_old h pp ch p in
  let* h := propagate_size h pp nil (- c)%Z in
  let* h := bst_free h p in Some (h, pp).
(** erase of a position: 546-551; of a range: 541-544; of a key: 533-539 *)
Definition erase_range (d : dup) (h : heap) (nil b e : nat) (cnt : Z) : option (heap * nat) :=
  while (loops h) (fun '(h, b) =>
    if b =? e then Some (inr (h, b)) else
    let* b' := inorder_next h b in let* '(h, _) := erase_node d h nil b cnt in Some (inl (h, b'))) (h, b).
Definition bst_erase (d : dup) (h : heap) (nil : nat) (k : K) (cnt : Z) : option (heap * nat) :=
  match d with
  | STORE => let* b := lower_bound h nil k in let* e := upper_bound h nil k in erase_range d h nil b e (2 ^ 31 - 1)%Z
  | _ => let* p := bst_find d h nil k in erase_node d h nil p cnt
  end.

(** clone_subtree: 605-616; the copy constructor: 315-318 *)
Fixpoint clone_subtree (fuel : nat) (h : heap) (nil src : nat) : option (heap * nat) :=
  match fuel with
  | O => None
  | S fuel =>
    let* n := is_nil h src in if (n : bool) then Some (h, nil) else
    let* v := gval h src in
    let '(h, ptr) := bst_buy h v in
    let* h := spar h ptr nil in
    let* l := glft h src in let* '(h, c) := clone_subtree fuel h nil l in let* h := make_link h ptr c true in
    let* r := grgt h src in let* '(h, c) := clone_subtree fuel h nil r in let* h := make_link h ptr c false in
    let* b := gbal h src in let* h := sbal h ptr b in let* s := gsiz h src in let* h := ssiz h ptr s in Some (h, ptr)
  end.
Definition bst_copy (h : heap) (nil : nat) : option (heap * nat) :=
  let '(h, nil') := bst_init h in
  let* root := bst_root h nil in let* '(h, c) := clone_subtree (loops h) h nil' root in let* h := make_link h nil' c true in Some (h, nil').
(** _free_all: 712-717; _destroy: 696-699; clear: 337-341 *)
Fixpoint free_all (fuel : nat) (h : heap) (t : nat) : option heap :=
  match fuel with
  | O => None
  | S fuel =>
    let* n := is_nil h t in if (n : bool) then Some h else
    let* l := glft h t in let* h := free_all fuel h l in let* r := grgt h t in let* h := free_all fuel h r in bst_free h t
  end.
Definition bst_destroy (h : heap) (nil : nat) : option heap := let* root := bst_root h nil in let* h := free_all (loops h) h root in bst_free h nil.
Definition bst_clear (h : heap) (nil : nat) : option heap :=
  let* root := bst_root h nil in let* h := bst_free h root in let* h := slft h nil nil in srgt h nil nil.
(** operator ==: 370-377; operator <: 378-385 *)
Definition bst_eq (h : heap) (n1 n2 : nat) : option bool :=
  let* b1 := bst_begin h n1 in let* b2 := bst_begin h n2 in
  while (loops h) (fun '(b1, b2) =>
    if negb (b1 =? n1) && negb (b2 =? n2) then
      let* v1 := gval h b1 in let* v2 := gval h b2 in
      if cmp (key v1) (key v2) then Some (inr false) else if cmp (key v2) (key v1) then Some (inr false) else
      let* b1 := inorder_next h b1 in let* b2 := inorder_next h b2 in Some (inl (b1, b2))
    else Some (inr ((b1 =? n1) && (b2 =? n2)))) (b1, b2).
Definition bst_lt (h : heap) (n1 n2 : nat) : option bool :=
  let* b1 := bst_begin h n1 in let* b2 := bst_begin h n2 in
  while (loops h) (fun '(b1, b2) =>
    if negb (b1 =? n1) && negb (b2 =? n2) then
      let* v1 := gval h b1 in let* v2 := gval h b2 in
      if cmp (key v1) (key v2) then Some (inr true) else if cmp (key v2) (key v1) then Some (inr false) else
      let* b1 := inorder_next h b1 in let* b2 := inorder_next h b2 in Some (inl (b1, b2))
    else Some (inr ((b1 =? n1) && negb (b2 =? n2)))) (b1, b2).
End Bst.
