(** Model of experimental structure/container/palindrome_tree.h: palindrome_tree.
    The string is a list of letter ordinals: the functor [ordinal] is applied letter by letter by the code and is left
    out, as are the calls that reserve memory. Indices and counts are unbounded. *)
From Coq Require Import List PeanoNat ZArith.
From Verif Require Import Lib.
Import ListNotations.

Section Pal.
  (** the template parameter ALPHABET_SIZE *)
  Variable K : nat.

  (** palindrome_tree.h:26-33 node_t *)
  Record node := Node { len : Z; pos : Z; cnt : nat; depth : nat; suff : nat; next : list nat }.
  (** palindrome_tree.h:35-38 NIL, NEGAT, EMPTY, RESERVED *)
  Definition NIL := 0.
  Definition NEGAT := 1.
  Definition EMPTY := 2.
  Definition RESERVED := 3.
  (** palindrome_tree.h:40-43 the fields _string, _nodes, _suff, _total *)
  Record tree := Tree { string : list nat; nodes : list node; cur : nat; total : nat }.

  (** palindrome_tree.h:54-61 _init on a new object: the nodes that resize adds are zero *)
  Definition init : tree :=
    Tree [] [Node 0 0 0 0 0 (repeat NIL K); Node (-1) 0 0 0 NEGAT (repeat NIL K); Node 0 0 0 0 NEGAT (repeat NIL K)] EMPTY 0.

  (** palindrome_tree.h:106-112 _find_suffix; the fuel bounds the number of steps along the suffix links *)
  Fixpoint find_suffix (fuel : nat) (t : list node) (s : list nat) (i c : nat) : option nat :=
    match fuel with
    | O => None
    | S fuel =>
      let* nd := nth_error t i in
      let sz := Z.of_nat (length s) in
      if (sz <? len nd + 2)%Z then find_suffix fuel t s (suff nd) c
      else
        let* x := nth_error s (Z.to_nat (sz - len nd - 2)) in
        if x =? c then Some i else find_suffix fuel t s (suff nd) c
    end.
  (** palindrome_tree.h:100-104 _find_suffix2 *)
  Definition find_suffix2 (t : list node) (s : list nat) (i c : nat) : option nat :=
    if i =? NEGAT then Some EMPTY
    else
      let* nd := nth_error t i in
      let* i := find_suffix (length t) t s (suff nd) c in
      let* nd := nth_error t i in
      nth_error (next nd) c.

  (** palindrome_tree.h:80-98 add: the tree and the value returned *)
  Definition add (p : tree) (c : nat) : option (tree * nat) :=
    let t := nodes p in
    let s := string p ++ [c] in
    let* i := find_suffix (length t) t s (cur p) c in
    let* nd := nth_error t i in
    let* j := nth_error (next nd) c in
    if negb (j =? NIL) then
      let* q := nth_error t j in
      let* t := set_nth t j (Node (len q) (pos q) (cnt q + 1) (depth q) (suff q) (next q)) in
      Some (Tree s t j (total p + depth q), 0)
    else
      let* suff2 := find_suffix2 t s i c in
      let* q := nth_error t suff2 in
      let j := length t in
      let l := (len nd + 2)%Z in
      let t := t ++ [Node l (Z.of_nat (length s) - l) 1 (depth q + 1) suff2 (repeat NIL K)] in
      let* nx := set_nth (next nd) c j in
      let* t := set_nth t i (Node (len nd) (pos nd) (cnt nd) (depth nd) (suff nd) nx) in
      Some (Tree s t j (total p + (depth q + 1)), 1).
  (** palindrome_tree.h:63-73 add_all *)
  Fixpoint add_all (p : tree) (w : list nat) : option (tree * nat) :=
    match w with
    | [] => Some (p, 0)
    | c :: w => let* '(p, r) := add p c in let* '(p, n) := add_all p w in Some (p, r + n)
    end.

  (** palindrome_tree.h:115-120 propagate *)
  Definition propagate_step (i : nat) (t : list node) : option (list node) :=
    let* nd := nth_error t i in
    let* q := nth_error t (suff nd) in
    set_nth t (suff nd) (Node (len q) (pos q) (cnt q + cnt nd) (depth q) (suff q) (next q)).
  Definition propagate (p : tree) : option tree :=
    let* t := for_down RESERVED (length (nodes p)) propagate_step (nodes p) in
    Some (Tree (string p) t (cur p) (total p)).

  (** palindrome_tree.h:128-130 distinct *)
  Definition distinct (p : tree) : nat := length (nodes p) - RESERVED.
End Pal.
