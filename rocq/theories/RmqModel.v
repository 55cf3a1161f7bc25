(** Model of experimental structure/container/range_minimum_query.h: direct_rmq. *)
From Coq Require Import ZArith List PeanoNat.
From Verif Require Import Lib BitsModel.
Import ListNotations.

(** range_minimum_query.h:156-168 calc_ballot_numbers: the entry _ballot[p][q] (the loops fill the table row by row
    by this recurrence) *)
Fixpoint ballot (p : nat) : nat -> nat :=
  match p with
  | O => fun _ => 1
  | S p' => fix row (q : nat) : nat :=
      match q with
      | O => 0
      | S q' => if S q' <? S p' then 0 else row q' + ballot p' (S q')
      end
  end.

(** range_minimum_query.h:170-182 log2_32; the table is that of bits.cpp:16-18 *)
Fixpoint or_up (k : nat) (x : Z) : Z :=
  match k with
  | O => x
  | S k' => let y := or_up k' x in Z.lor y (Z.shiftr y (2 ^ Z.of_nat k'))
  end.
Definition log2_32 (x : Z) : option Z :=
  nth_error tbl_ilog2_32 (Z.to_nat (Z.shiftr (wrap 32 (or_up 5 x * 0x07C4ACDD)) 27)).

Section Rmq.
  Context {A : Type}.
  (** the template parameters COMPARE_T and BLOCK_SIZE, and value_t() *)
  Variable comp : A -> A -> bool.
  Variable B : nat.
  Variable dflt : A.

  (** range_minimum_query.h:94-98; _block_tree holds indices into _trees instead of pointers; row l of a table holds
      idx[l][l], idx[l][l+1], ... (the other entries are never written or read); None: idx[0][0] is -1 *)
  Definition table := list (list nat).
  Record rmq := Rmq { blocks : nat; arr : list A; trees : list (option table); block_tree : list nat; sparse : list nat }.

  (** range_minimum_query.h:113-116 while (q + j - BLOCK_SIZE > 0 && comp(p[j], rp[...])) *)
  Fixpoint pop_while (rp : list A) (j : nat) (x : A) (q N : nat) {struct q} : option (nat * nat) :=
    if 0 <? q + j - B then
      let* y := nth_error rp (q + j - B) in
      if comp x y then
        match q with
        | O => None
        | S q' => pop_while rp j x q' (N + ballot (B - j - 1) q)
        end
      else Some (q, N)
    else Some (q, N).
  (** range_minimum_query.h:112-118 the loop over j, on the block p; rp is the buffer of line 102, here fresh for every
      block (no entry is read before it is written, so its first contents do not matter) *)
  Definition type_step (p : list A) (j : nat) (st : nat * nat * list A) : option (nat * nat * list A) :=
    let '(q, N, rp) := st in
    let* x := nth_error p j in
    let* '(q, N) := pop_while rp j x q N in
    let* rp := set_nth rp (q + j - B + 1) x in
    Some (q, N, rp).
  Definition block_type (p : list A) : option nat :=
    let* '(_, N, _) := for_range 0 B (type_step p) (B, 0, repeat dflt (B + 1)) in Some N.
  (** range_minimum_query.h:123-131 populate tree *)
  Definition scan_step (p : list A) (right : nat) (st : nat * list nat) : option (nat * list nat) :=
    let '(m, row) := st in
    let* x := nth_error p right in
    let* y := nth_error p m in
    let m := if comp x y then right else m in
    Some (m, row ++ [m]).
  Definition scan_row (p : list A) (left : nat) : option (list nat) :=
    let* '(_, row) := for_range left B (scan_step p) (left, []) in Some row.
  Definition scan (p : list A) : option table :=
    for_range 0 B (fun left t => let* row := scan_row p left in Some (t ++ [row])) [].
  (** range_minimum_query.h:101-133 build_block_trees; the blocks of [a] *)
  Definition block (a : list A) (i : nat) : list A := firstn B (skipn (i * B) a).
  Definition tree_step (a : list A) (i : nat) (st : list (option table) * list nat) : option (list (option table) * list nat) :=
    let '(ts, bt) := st in
    let* N := block_type (block a i) in
    let* t := nth_error ts N in
    match t with
    | Some _ => Some (ts, bt ++ [N])
    | None => let* t := scan (block a i) in
              let* ts := set_nth ts N (Some t) in Some (ts, bt ++ [N])
    end.
  Definition build_block_trees (a : list A) (n : nat) : option (list (option table) * list nat) :=
    for_range 0 n (tree_step a) (repeat None (ballot B B), []).

  (** _block_tree[x]->idx[l][r] *)
  Definition idx (ts : list (option table)) (bt : list nat) (x l r : nat) : option nat :=
    let* N := nth_error bt x in
    let* t := nth_error ts N in
    let* t := t in
    let* row := nth_error t l in
    nth_error row (r - l).
  (** range_minimum_query.h:152-154 min_index *)
  Definition min_index (a : list A) (x y : nat) : option nat :=
    let* v := nth_error a y in
    let* w := nth_error a x in
    Some (if comp v w then y else x).

  (** range_minimum_query.h:136 while (1 << height < blocks) ++height *)
  Fixpoint height_from (fuel h n : nat) : option nat :=
    match fuel with
    | O => None
    | S fuel => if 2 ^ h <? n then height_from fuel (S h) n else Some h
    end.
  (** range_minimum_query.h:140-142 the first row *)
  Definition first_row (ts : list (option table)) (bt : list nat) (n : nat) : option (list nat) :=
    for_range 0 n (fun i row => let* m := idx ts bt i 0 (B - 1) in Some (row ++ [i * B + m])) [].
  (** range_minimum_query.h:146-148 for (i = 0; i < blocks - t; ++i) b[i] = min_index(b[i], b[i + t]) *)
  Definition next_row (a : list A) (n t : nat) (row : list nat) : option (list nat) :=
    for_range 0 (n - t) (fun i b =>
      let* x := nth_error b i in
      let* y := nth_error b (i + t) in
      let* m := min_index a x y in
      set_nth b i m) row.
  (** range_minimum_query.h:143-149 for (t = 1; t * 2 < blocks; t *= 2), one row after the other; [used] are the rows
      before [row], in the order of the memory *)
  Fixpoint rows (fuel : nat) (a : list A) (n t : nat) (used row : list nat) : option (list nat) :=
    match fuel with
    | O => None
    | S fuel => if t * 2 <? n
                then let* row' := next_row a n t row in rows fuel a n (t * 2) (used ++ row) row'
                else Some (used ++ row)
    end.
  (** range_minimum_query.h:135-150 build_sparse_table; None: a row beyond the allocated height *)
  Definition build_sparse_table (a : list A) (ts : list (option table)) (bt : list nat) (n : nat) : option (list nat) :=
    let* height := height_from (S n) 0 n in
    if height =? 0 then Some []
    else let* row := first_row ts bt n in
         let* s := rows (S n) a n 1 [] row in
         if length s <=? n * height then Some (s ++ repeat 0 (n * height - length s)) else None.

  (** range_minimum_query.h:55-63 build *)
  Definition build (l : list A) : option rmq :=
    let n := (length l + B - 1) / B in
    let a := l ++ repeat dflt (n * B - length l) in
    let* '(ts, bt) := build_block_trees a n in
    let* s := build_sparse_table a ts bt n in
    Some (Rmq n a ts bt s).

  (** range_minimum_query.h:69-86 get_index *)
  Definition get_index (s : rmq) (b e : nat) : option nat :=
    let l := b in
    let r := e - 1 in
    let x := l / B in
    let y := r / B in
    let z := y - x in
    let idx := idx (trees s) (block_tree s) in
    if z =? 0 then
      let* m := idx x (l mod B) (r mod B) in Some (x * B + m)
    else if z =? 1 then
      let* m := idx x (l mod B) (B - 1) in
      let* m' := idx y 0 (r mod B) in
      min_index (arr s) (x * B + m) (y * B + m')
    else
      let* k := log2_32 (Z.of_nat (z - 2)) in
      let k := Z.to_nat k in
      let* m := idx x (l mod B) (B - 1) in
      let* s1 := nth_error (sparse s) (x + 1 + blocks s * k) in
      let* m' := idx y 0 (r mod B) in
      let* s2 := nth_error (sparse s) (y + blocks s * k - 2 ^ k) in
      let* i := min_index (arr s) (x * B + m) s1 in
      let* j := min_index (arr s) s2 (y * B + m') in
      min_index (arr s) i j.
  (** range_minimum_query.h:65-67 get_value *)
  Definition get_value (s : rmq) (b e : nat) : option A :=
    let* i := get_index s b e in nth_error (arr s) i.
  (** range_minimum_query.h:88-90 size *)
  Definition size (s : rmq) : nat := length (arr s).
End Rmq.
