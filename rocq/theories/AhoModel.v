(** Model of experimental structure/container/aho_corasick_trie.h: aho_corasick_trie.
    Words are lists of letter ordinals: the functor [ordinal] is applied letter by letter by the code and is left out.
    Indices and counts are unbounded. *)
From Coq Require Import List PeanoNat.
From Verif Require Import Lib.
Import ListNotations.

Section Aho.
  (** the template parameter ALPHABET_SIZE *)
  Variable K : nat.

  (** aho_corasick_trie.h:35-41 node_t *)
  Record node := Node { let_ : nat; parent : nat; suff_link : nat; word_cnt : nat; next : list nat }.
  (** aho_corasick_trie.h:31-32 NIL, ROOT *)
  Definition NIL := 0.
  Definition ROOT := 1.
  Definition modify (t : list node) (i : nat) (f : node -> option node) : option (list node) :=
    let* nd := nth_error t i in let* nd := f nd in set_nth t i nd.
  Definition set_next (o v : nat) (nd : node) : option node :=
    let* nx := set_nth (next nd) o v in Some (Node (let_ nd) (parent nd) (suff_link nd) (word_cnt nd) nx).
  Definition set_suff (v : nat) (nd : node) : option node := Some (Node (let_ nd) (parent nd) v (word_cnt nd) (next nd)).
  Definition set_cnt (v : nat) (nd : node) : option node := Some (Node (let_ nd) (parent nd) (suff_link nd) v (next nd)).

  (** aho_corasick_trie.h:45-48 constructor *)
  Definition create : list node := [Node 0 0 0 0 (repeat NIL K); Node 0 0 ROOT 0 (repeat NIL K)].

  (** aho_corasick_trie.h:72-78 _insert *)
  Definition insert_letter (t : list node) (cur o : nat) : option (list node * nat) :=
    let* nd := nth_error t cur in
    let* nx := nth_error (next nd) o in
    if negb (nx =? NIL) then Some (t, nx)
    else
      let nx := length t in
      let t := t ++ [Node o cur NIL 0 (repeat NIL K)] in
      let* t := modify t cur (set_next o nx) in
      Some (t, nx).
  Fixpoint insert_path (t : list node) (cur : nat) (w : list nat) : option (list node * nat) :=
    match w with
    | [] => Some (t, cur)
    | o :: w => let* '(t, cur) := insert_letter t cur o in insert_path t cur w
    end.
  (** aho_corasick_trie.h:60-70 insert *)
  Definition insert (t : list node) (w : list nat) : option (list node * nat) :=
    let* '(t, cur) := insert_path t ROOT w in
    let* t := modify t cur (fun nd => set_cnt (word_cnt nd + 1) nd) in
    Some (t, cur).
  (** a whole dictionary, one word after the other *)
  Fixpoint insert_all (t : list node) (ws : list (list nat)) : option (list node) :=
    match ws with
    | [] => Some t
    | w :: ws => let* '(t, _) := insert t w in insert_all t ws
    end.

  (** aho_corasick_trie.h:118-132 move_next, _get_suff_link; the fuel bounds the depth of the recursion *)
  Fixpoint move_next (fuel : nat) (t : list node) (cur o : nat) {struct fuel} : option (list node * nat) :=
    match fuel with
    | O => None
    | S fuel =>
      let* nd := nth_error t cur in
      let* nx := nth_error (next nd) o in
      if negb (nx =? NIL) then Some (t, nx)
      else if cur =? ROOT then
        let* t := modify t cur (set_next o ROOT) in Some (t, ROOT)
      else
        let* '(t, sl) := get_suff_link fuel t cur in
        let* '(t, r) := move_next fuel t sl o in
        let* t := modify t cur (set_next o r) in Some (t, r)
    end
  with get_suff_link (fuel : nat) (t : list node) (cur : nat) {struct fuel} : option (list node * nat) :=
    match fuel with
    | O => None
    | S fuel =>
      let* nd := nth_error t cur in
      if negb (suff_link nd =? NIL) then Some (t, suff_link nd)
      else if parent nd =? ROOT then
        let* t := modify t cur (set_suff ROOT) in Some (t, ROOT)
      else
        let* pn := nth_error t (parent nd) in
        let* '(t, r) := move_next fuel t (suff_link pn) (let_ nd) in
        let* t := modify t cur (set_suff r) in Some (t, r)
    end.

  (** aho_corasick_trie.h:84-93 the loop of build; the children are pushed in the order of their letters *)
  Fixpoint bfs (fuel : nat) (t : list node) (q : list nat) : option (list node) :=
    match fuel with
    | O => None
    | S fuel =>
      match q with
      | [] => Some t
      | cur :: q =>
        let* nd := nth_error t cur in
        let q := q ++ filter (fun c => negb (c =? NIL)) (next nd) in
        let* '(t, sl) := get_suff_link (length t) t cur in
        let* t := modify t cur (set_suff sl) in
        let* sn := nth_error t sl in
        let* t := modify t cur (fun nd => set_cnt (word_cnt nd + word_cnt sn) nd) in
        bfs fuel t q
      end
    end.
  (** aho_corasick_trie.h:81-94 build *)
  Definition build (t : list node) : option (list node) := bfs (length t) t [ROOT].

  (** aho_corasick_trie.h:107-115 count_matches: the trie (filled further in), the node reached and the count *)
  Fixpoint read (t : list node) (cur r : nat) (text : list nat) : option (list node * nat * nat) :=
    match text with
    | [] => Some (t, cur, r)
    | o :: text =>
      let* '(t, cur) := move_next (length t) t cur o in
      let* nd := nth_error t cur in
      read t cur (r + word_cnt nd) text
    end.
  Definition count_matches (t : list node) (text : list nat) : option (list node * nat) :=
    let* '(t, _, r) := read t ROOT 0 text in Some (t, r).
  (** any number of texts one after the other *)
  Fixpoint count_all (t : list node) (texts : list (list nat)) : option (list nat) :=
    match texts with
    | [] => Some []
    | x :: texts => let* '(t, r) := count_matches t x in let* rs := count_all t texts in Some (r :: rs)
    end.
End Aho.
