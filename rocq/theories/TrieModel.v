(** Model of experimental structure/container/prefix_tree.h: prefix_tree.
    Words are lists of letter ordinals: the functors [ordinal] and [letter] are applied letter by letter by the code and
    are left out. Memory is a list of cells; a cell is None once it is freed. The allocator never reuses a cell
    (an allocator that does cannot be told apart by code that never touches freed cells, and touching one is None here). *)
From Coq Require Import List PeanoNat.
From Verif Require Import Lib.
Import ListNotations.

Section Trie.
  (** the template parameter ALPHABET_SIZE *)
  Variable K : nat.

  (** prefix_tree.h:34-43 node_t *)
  Record node := Node { word_id : nat; num_ch : nat; ord : nat; parent : option nat; next : list (option nat) }.
  (** prefix_tree.h:45-48 *)
  Record trie := Trie { heap : list (option node); nodes : nat; root : nat; words : list nat }.

  (** reading a node through a pointer; None: not a live cell *)
  Definition load (h : list (option node)) (a : nat) : option node :=
    match nth_error h a with Some (Some nd) => Some nd | _ => None end.
  (** writing to fields of a node through a pointer *)
  Definition modify (h : list (option node)) (a : nat) (f : node -> option node) : option (list (option node)) :=
    let* nd := load h a in let* nd := f nd in set_nth h a (Some nd).
  Definition set_word_id (v : nat) (nd : node) : option node := Some (Node v (num_ch nd) (ord nd) (parent nd) (next nd)).
  Definition set_num_ch (v : nat) (nd : node) : option node := Some (Node (word_id nd) v (ord nd) (parent nd) (next nd)).
  Definition set_ord (v : nat) (nd : node) : option node := Some (Node (word_id nd) (num_ch nd) v (parent nd) (next nd)).
  Definition set_parent (v : nat) (nd : node) : option node := Some (Node (word_id nd) (num_ch nd) (ord nd) (Some v) (next nd)).
  Definition set_next (o : nat) (v : option nat) (nd : node) : option node :=
    let* nx := set_nth (next nd) o v in Some (Node (word_id nd) (num_ch nd) (ord nd) (parent nd) nx).

  (** prefix_tree.h:215-220 _buy *)
  Definition buy (h : list (option node)) (n : nat) : list (option node) * nat * nat :=
    (h ++ [Some (Node 0 0 0 None (repeat None K))], n + 1, length h).
  (** prefix_tree.h:222-226 _free; None: a cell that is not live *)
  Definition free (h : list (option node)) (n a : nat) : option (list (option node) * nat) :=
    let* _ := load h a in let* h := set_nth h a None in Some (h, n - 1).

  (** prefix_tree.h:51-53, 210-213 constructor, _init *)
  Definition init (h : list (option node)) (n : nat) : trie :=
    let '(h, n, a) := buy h n in Trie h n a [a].
  Definition create : trie := init [] 0.

  (** prefix_tree.h:228-234 _free_all *)
  Fixpoint free_all (fuel : nat) (t : option nat) (hn : list (option node) * nat) : option (list (option node) * nat) :=
    match t with
    | None => Some hn
    | Some a =>
      match fuel with
      | O => None
      | S fuel =>
        let* '(h, n) := for_range 0 K (fun o hn =>
          let* nd := load (fst hn) a in
          let* c := nth_error (next nd) o in
          free_all fuel c hn) hn in
        free h n a
      end
    end.
  (** prefix_tree.h:55-58 destructor: what is left in memory, and the counter of nodes *)
  Definition destroy (s : trie) : option (list (option node) * nat) :=
    free_all (S (nodes s)) (Some (root s)) (heap s, nodes s).
  (** prefix_tree.h:60-64 clear *)
  Definition clear (s : trie) : option trie :=
    let* '(h, n) := free_all (S (nodes s)) (Some (root s)) (heap s, nodes s) in Some (init h n).

  (** prefix_tree.h:153-161 _find *)
  Fixpoint find_from (s : trie) (t : nat) (w : list nat) : option nat :=
    match w with
    | [] => Some t
    | o :: w =>
      let* nd := load (heap s) t in
      let* c := nth_error (next nd) o in
      match c with None => Some (root s) | Some c => find_from s c w end
    end.
  (** prefix_tree.h:88-96 find *)
  Definition find (s : trie) (w : list nat) : option nat :=
    let* t := find_from s (root s) w in let* nd := load (heap s) t in Some (word_id nd).

  (** prefix_tree.h:166-173 one letter of _insert *)
  Definition insert_letter (s : trie) (t o : nat) : option (trie * nat) :=
    let* nd := load (heap s) t in
    let* c := nth_error (next nd) o in
    match c with
    | Some c => Some (s, c)
    | None =>
      let '(h, n, c) := buy (heap s) (nodes s) in
      let* h := modify h t (set_next o (Some c)) in
      let* h := modify h c (set_parent t) in
      let* h := modify h c (set_ord o) in
      let* nd := load h t in
      let* h := modify h t (set_num_ch (num_ch nd + 1)) in
      Some (Trie h n (root s) (words s), c)
    end.
  (** prefix_tree.h:165-174 *)
  Fixpoint insert_path (s : trie) (t : nat) (w : list nat) : option (trie * nat) :=
    match w with
    | [] => Some (s, t)
    | o :: w => let* '(s, c) := insert_letter s t o in insert_path s c w
    end.
  (** prefix_tree.h:163-180 _insert *)
  Definition insert (s : trie) (t : nat) (w : list nat) : option (trie * nat) :=
    let* '(s, t) := insert_path s t w in
    let* nd := load (heap s) t in
    if negb (t =? root s) && (word_id nd =? 0) then
      let* h := modify (heap s) t (set_word_id (length (words s))) in
      Some (Trie h (nodes s) (root s) (words s ++ [t]), t)
    else Some (s, t).
  (** prefix_tree.h:66-74 add *)
  Definition add (s : trie) (w : list nat) : option (trie * nat) :=
    let* '(s, t) := insert s (root s) w in let* nd := load (heap s) t in Some (s, word_id nd).
  (** prefix_tree.h:76-86 append *)
  Definition append (s : trie) (id : nat) (w : list nat) : option (trie * nat) :=
    let* t := nth_error (words s) id in
    let* '(s, t) := insert s t w in let* nd := load (heap s) t in Some (s, word_id nd).

  (** prefix_tree.h:102-104 the loop of get *)
  Fixpoint climb (fuel : nat) (s : trie) (t : nat) (w : list nat) : option (list nat) :=
    match fuel with
    | O => None
    | S fuel =>
      if t =? root s then Some w
      else let* nd := load (heap s) t in
           let* p := parent nd in
           climb fuel s p (w ++ [ord nd])
    end.
  (** prefix_tree.h:98-106 get *)
  Definition get (s : trie) (id : nat) : option (list nat) :=
    let* t := nth_error (words s) id in
    let* w := climb (S (nodes s)) s t [] in Some (rev w).

  (** prefix_tree.h:199-208 _for_each: the calls of the visitor, in order *)
  Fixpoint for_each_from (fuel : nat) (h : list (option node)) (t : nat) (w : list nat) : option (list (list nat * nat)) :=
    match fuel with
    | O => None
    | S fuel =>
      let* nd := load h t in
      for_range 0 K (fun o out =>
        let* c := nth_error (next nd) o in
        match c with
        | None => Some out
        | Some c => let* r := for_each_from fuel h c (w ++ [o]) in Some (out ++ r)
        end) (if word_id nd =? 0 then [] else [(w, word_id nd)])
    end.
  (** prefix_tree.h:108-117 for_each *)
  Definition for_each (s : trie) (id : nat) : option (list (list nat * nat)) :=
    let* w := get s id in
    let* t := nth_error (words s) id in
    for_each_from (S (nodes s)) (heap s) t w.

  (** prefix_tree.h:189-195 the loop of _erase *)
  Fixpoint prune (fuel : nat) (s : trie) (t : nat) : option trie :=
    match fuel with
    | O => None
    | S fuel =>
      if t =? root s then Some s
      else
        let* nd := load (heap s) t in
        if (num_ch nd =? 0) && (word_id nd =? 0) then
          let* p := parent nd in
          let* pn := load (heap s) p in
          let* h := modify (heap s) p (set_num_ch (num_ch pn - 1)) in
          let* nd := load h t in
          let* h := modify h p (set_next (ord nd) None) in
          let* '(h, n) := free h (nodes s) t in
          prune fuel (Trie h n (root s) (words s)) p
        else Some s
    end.
  (** prefix_tree.h:182-197 _erase *)
  Definition erase_node (s : trie) (t : nat) : option (trie * nat) :=
    let* nd := load (heap s) t in
    let id := word_id nd in
    if id =? 0 then Some (s, 0)
    else
      let last := length (words s) - 1 in
      let* x := nth_error (words s) id in
      let* y := nth_error (words s) last in
      let* ws := set_nth (words s) id y in
      let* ws := set_nth ws last x in
      let* z := nth_error ws id in
      let* h := modify (heap s) z (set_word_id id) in
      let ws := removelast ws in
      let* h := modify h t (set_word_id 0) in
      let* s := prune (S (nodes s)) (Trie h (nodes s) (root s) ws) t in
      Some (s, id).
  (** prefix_tree.h:119-131 erase *)
  Definition erase (s : trie) (id : nat) : option (trie * nat) :=
    let* t := nth_error (words s) id in erase_node s t.
  Definition erase_word (s : trie) (w : list nat) : option (trie * nat) :=
    let* id := find s w in erase s id.

  (** prefix_tree.h:133-142 num_words, num_letters *)
  Definition num_words (s : trie) : nat := length (words s) - 1.
  Definition num_letters (s : trie) : nat := nodes s - 1.

  (** any sequence of calls on one tree, with what they return *)
  Inductive call := Add (w : list nat) | Append (id : nat) (w : list nat) | Find (w : list nat) | Get (id : nat)
    | ForEach (id : nat) | Erase (id : nat) | EraseWord (w : list nat) | NumWords | NumLetters | Clear.
  Inductive result := Number (n : nat) | Word (w : list nat) | Visits (l : list (list nat * nat)) | Done.
  Definition perform (s : trie) (c : call) : option (trie * result) :=
    match c with
    | Add w => let* '(s, n) := add s w in Some (s, Number n)
    | Append id w => let* '(s, n) := append s id w in Some (s, Number n)
    | Find w => let* n := find s w in Some (s, Number n)
    | Get id => let* w := get s id in Some (s, Word w)
    | ForEach id => let* l := for_each s id in Some (s, Visits l)
    | Erase id => let* '(s, n) := erase s id in Some (s, Number n)
    | EraseWord w => let* '(s, n) := erase_word s w in Some (s, Number n)
    | NumWords => Some (s, Number (num_words s))
    | NumLetters => Some (s, Number (num_letters s))
    | Clear => let* s := clear s in Some (s, Done)
    end.
  Fixpoint perform_all (s : trie) (cs : list call) : option (trie * list result) :=
    match cs with
    | [] => Some (s, [])
    | c :: cs => let* '(s, r) := perform s c in let* '(s, rs) := perform_all s cs in Some (s, r :: rs)
    end.
End Trie.
