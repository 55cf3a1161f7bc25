(** Model of include/altruct/structure/container/link_cut_tree.h.
    Pointers are numbers, 0 is nil, and the memory is a function from pointers to nodes; the allocator is not modelled (C66), so that node i of the vector is pointer i.
    [f_up v l r] is the value that f_up(v, l, r) leaves in v. size and index are natural numbers, depths in traverse integers, all unbounded. *)
From Verif Require Import Lib.
From Coq Require Import Arith Lia.
Open Scope nat_scope.

Section Lct.
  Context {T : Type} (f_up : T -> T -> T -> T) (id : T).
  (** link_cut_tree.h 23-37: link_cut_node *)
  Record node := mk_node { npar : nat; nlf : nat; nrt : nat; nsz : nat; nvl : T }.
  Definition heap := nat -> node.
  (** nodes.size() - 1 and the memory *)
  Record lct := mk_lct { lsize : nat; lheap : heap }.
  Definition put (h : heap) (i : nat) (x : node) : heap := fun j => if j =? i then x else h j.
  Definition set_par (h : heap) (i p : nat) : heap := put h i (mk_node p (nlf (h i)) (nrt (h i)) (nsz (h i)) (nvl (h i))).
  Definition set_lf (h : heap) (i p : nat) : heap := put h i (mk_node (npar (h i)) p (nrt (h i)) (nsz (h i)) (nvl (h i))).
  Definition set_rt (h : heap) (i p : nat) : heap := put h i (mk_node (npar (h i)) (nlf (h i)) p (nsz (h i)) (nvl (h i))).
  Definition set_sz (h : heap) (i s : nat) : heap := put h i (mk_node (npar (h i)) (nlf (h i)) (nrt (h i)) s (nvl (h i))).
  Definition set_vl (h : heap) (i : nat) (v : T) : heap := put h i (mk_node (npar (h i)) (nlf (h i)) (nrt (h i)) (nsz (h i)) v).

  (** 34-36 *)
  Definition is_root (h : heap) (x : nat) : bool := negb (x =? nlf (h (npar (h x)))) && negb (x =? nrt (h (npar (h x)))).
  (** 243-247 *)
  Definition connect (h : heap) (x parent : nat) (cl cr : bool) : heap :=
    let h := if x =? 0 then h else set_par h x parent in
    let h := if cl then set_lf h parent x else h in
    if cr then set_rt h parent x else h.
  (** 250-255 *)
  Definition update (h : heap) (x : nat) : heap :=
    if x =? 0 then h else
    let h := set_sz h x (nsz (h (nlf (h x))) + nsz (h (nrt (h x))) + 1) in
    set_vl h x (f_up (nvl (h x)) (nvl (h (nlf (h x)))) (nvl (h (nrt (h x))))).
  (** 230-240 *)
  Definition rotate (h : heap) (x : nat) : heap :=
    let par := npar (h x) in
    let gp := npar (h par) in
    let is_left := x =? nlf (h par) in
    let ch := if is_left then nrt (h x) else nlf (h x) in
    let h := connect h ch par is_left (negb is_left) in
    let h := connect h par x (negb is_left) is_left in
    let h := connect h x gp (par =? nlf (h gp)) (par =? nrt (h gp)) in
    let h := update h par in
    update h x.
  (** 219-227 *)
  Fixpoint splay (fuel : nat) (h : heap) (x : nat) : option heap :=
    match fuel with
    | O => None
    | S fuel =>
      if (x =? 0) || is_root h x then Some h else
      let par := npar (h x) in
      let gp := npar (h par) in
      let zig_zig := Bool.eqb (x =? nlf (h par)) (par =? nlf (h gp)) in
      let h := if is_root h par then h else rotate h (if zig_zig then par else x) in
      splay fuel (rotate h x) x
    end.
  (** 206-216: access; n bounds the number of iterations *)
  Fixpoint access_loop (fuel n : nat) (h : heap) (temp last : nat) : option (heap * nat) :=
    match fuel with
    | O => None
    | S fuel =>
      if temp =? 0 then Some (h, last) else
      let* h := splay (S n) h temp in
      let h := set_rt h temp last in
      let h := update h temp in
      access_loop fuel n h (npar (h temp)) temp
    end.
  Definition access (n : nat) (h : heap) (x : nat) : option (heap * nat) :=
    let* '(h, last) := access_loop (S n) n h x 0 in
    let* h := splay (S n) h x in
    Some (h, last).
  (** 154-156, 164-166: walking to the leftmost, rightmost node *)
  Fixpoint go_left (fuel : nat) (h : heap) (x : nat) : option nat :=
    match fuel with O => None | S fuel => if nlf (h x) =? 0 then Some x else go_left fuel h (nlf (h x)) end.
  Fixpoint go_right (fuel : nat) (h : heap) (x : nat) : option nat :=
    match fuel with O => None | S fuel => if nrt (h x) =? 0 then Some x else go_right fuel h (nrt (h x)) end.

  (** 258-267, 74-78 *)
  Definition lct_new : lct := mk_lct 0 (fun _ => mk_node 0 0 0 0 id).
  (** 277-287, 97 *)
  Definition lct_add (s : lct) (v : T) : lct * nat :=
    let i := S (lsize s) in (mk_lct i (put (lheap s) i (mk_node 0 0 0 1 v)), i).
  (** 80-89 *)
  Definition lct_of_list (vs : list T) : lct := fold_left (fun s v => fst (lct_add s v)) vs lct_new.
  (** nodes[i] *)
  Definition at_ (s : lct) (i : nat) : option unit := guard (i <=? lsize s).
  (** 135-141, 100 *)
  Definition lct_link (s : lct) (x p : nat) : option lct :=
    let* _ := at_ s x in let* _ := at_ s p in
    let* '(h, _) := access (lsize s) (lheap s) x in
    let* '(h, _) := access (lsize s) h p in
    Some (mk_lct (lsize s) (set_par h x p)).
  (** 144-150, 103 *)
  Definition lct_cut (s : lct) (x : nat) : option lct :=
    let* _ := at_ s x in
    let* '(h, _) := access (lsize s) (lheap s) x in
    let h := set_par h (nlf (h x)) 0 in
    let h := set_lf h x 0 in
    Some (mk_lct (lsize s) (update h x)).
  (** 152-159, 106 *)
  Definition find_root_h (n : nat) (h : heap) (x : nat) : option (heap * nat) :=
    let* '(h, _) := access n h x in
    let* x := go_left (S n) h x in
    let* '(h, _) := access n h x in Some (h, x).
  Definition lct_find_root (s : lct) (x : nat) : option (lct * nat) :=
    let* _ := at_ s x in
    let* '(h, r) := find_root_h (lsize s) (lheap s) x in Some (mk_lct (lsize s) h, r).
  (** 161-169, 109 *)
  Definition lct_find_parent (s : lct) (x : nat) : option (lct * nat) :=
    let* _ := at_ s x in
    let* '(h, _) := access (lsize s) (lheap s) x in
    let* y := go_right (S (lsize s)) h (nlf (h x)) in
    let* '(h, _) := access (lsize s) h y in Some (mk_lct (lsize s) h, y).
  (** 171-175, 112; C++ leaves open which of the two roots is looked up first *)
  Definition lct_find_lca (s : lct) (x y : nat) : option (lct * nat) :=
    let* _ := at_ s x in let* _ := at_ s y in
    let* '(h, r1) := find_root_h (lsize s) (lheap s) x in
    let* '(h, r2) := find_root_h (lsize s) h y in
    if negb (r1 =? r2) then Some (mk_lct (lsize s) h, 0) else
    let* '(h, _) := access (lsize s) h x in
    let* '(h, last) := access (lsize s) h y in Some (mk_lct (lsize s) h, last).
  (** 177-180, 115 *)
  Definition lct_depth (s : lct) (x : nat) : option (lct * nat) :=
    let* _ := at_ s x in
    let* '(h, _) := access (lsize s) (lheap s) x in Some (mk_lct (lsize s) h, nsz (h (nlf (h x)))).
  (** 182-185, 119; the reference returned lets the caller read the value or assign to it *)
  Definition lct_get (s : lct) (x : nat) : option (lct * T) :=
    let* _ := at_ s x in
    let* '(h, _) := access (lsize s) (lheap s) x in Some (mk_lct (lsize s) h, nvl (h x)).
  Definition lct_set (s : lct) (x : nat) (v : T) : option lct :=
    let* _ := at_ s x in
    let* '(h, _) := access (lsize s) (lheap s) x in Some (mk_lct (lsize s) (set_vl h x v)).
  (** 187-198, 126 *)
  Fixpoint trav (fuel : nat) (f : T -> T -> T -> Z -> Z) (h : heap) (x : nat) (depth : Z) : option nat :=
    match fuel with
    | O => None
    | S fuel =>
      if x =? 0 then Some x else
      let dir := f (nvl (h x)) (nvl (h (nlf (h x)))) (nvl (h (nrt (h x)))) depth in
      if (dir =? 0)%Z then Some x else
      let y := if (dir <? 0)%Z then nlf (h x) else nrt (h x) in
      trav fuel f h y (depth + ((if (dir <? 0)%Z then - Z.of_nat (nsz (h y)) else 1) + Z.of_nat (nsz (h (nlf (h y))))))%Z
    end.
  Definition lct_traverse (s : lct) (x : nat) (f : T -> T -> T -> Z -> Z) : option (lct * nat) :=
    let* _ := at_ s x in
    let* '(h, _) := access (lsize s) (lheap s) x in
    let* y := trav (S (lsize s)) f h x (Z.of_nat (nsz (h (nlf (h x))))) in Some (mk_lct (lsize s) h, y).
End Lct.
Arguments node : clear implicits. Arguments heap : clear implicits. Arguments lct : clear implicits.
