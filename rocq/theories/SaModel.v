(** experimental/include/altruct/structure/container/suffix_array.h, without the construction of _suff_arr itself
    (SA-IS, lines 46-183): [sa] stands for its result.  Letters are integers. *)
From Verif Require Import Lib RmqModel.
Open Scope nat_scope.

(** 28-32 *)
Record sarr := Sarr { a_string : list Z; a_arr : list nat; a_ord : list nat; a_rmq : @rmq nat }.
(** the template arguments of direct_rmq<index_t> (range_minimum_query.h 21): std::less, BLOCK_SIZE = 8, index_t() = 0 *)
Definition rmq_build := RmqModel.build Nat.ltb 8 0.
Definition rmq_value := RmqModel.get_value Nat.ltb 8.
(** 61-67 build_inverse_suffix_array *)
Definition build_inverse (n : nat) (sa : list nat) : option (list nat) :=
  for_range 0 (S n) (fun i ord => let* p := nth_error sa i in set_nth ord p i) (repeat 0 (S n)).
(** 199: for (; h < hmax && _string[i + h] == _string[j + h]; ++h); *)
Fixpoint grow (fuel : nat) (s : list Z) (i j h hmax : nat) : option nat :=
  match fuel with
  | O => None
  | S fuel =>
    if h <? hmax then
      let* x := nth_error s (i + h) in let* y := nth_error s (j + h) in
      if (x =? y)%Z then grow fuel s i j (S h) hmax else Some h
    else Some h
  end.
(** 195-202: the loop body; None also if [ord] is 0 (index -1) *)
Definition lcp_step (s : list Z) (sa ord : list nat) (i : nat) (st : nat * list nat) : option (nat * list nat) :=
  let '(h, lcp) := st in
  let n := length s in
  let* o := nth_error ord i in
  match o with
  | O => None
  | S r =>
    let* j := nth_error sa r in
    let hmax := Nat.min (n - j) (n - i) in
    let* h := grow (S n) s i j h hmax in
    let* lcp := set_nth lcp r h in
    Some (if 0 <? h then h - 1 else h, lcp)
  end.
(** 191-204 build_lcp_array *)
Definition build_lcp (s : list Z) (sa ord : list nat) : option (list nat) :=
  let* '(_, lcp) := for_range 0 (length s) (lcp_step s sa ord) (0, repeat 0 (length s + 2)) in Some lcp.
(** 40-44 build_all, from the suffix array on *)
Definition sa_build (s : list Z) (sa : list nat) : option sarr :=
  let* ord := build_inverse (length s) sa in
  let* lcp := build_lcp s sa ord in
  let* r := rmq_build lcp in
  Some (Sarr s sa ord r).
(** 209-215 *)
Definition get_lcp (t : sarr) (i j : nat) : option nat :=
  let n := length (a_string t) in
  if i =? j then Some (n - i) else
  let* x := nth_error (a_ord t) i in let* y := nth_error (a_ord t) j in
  let '(x, y) := if y <? x then (y, x) else (x, y) in
  rmq_value (a_rmq t) x y.
(** 228 *)
Definition compareZ (a b : Z) : Z := if (a <? b)%Z then -1 else if (b <? a)%Z then 1 else 0.
(** 218-226 *)
Definition compare_substrings (t : sarr) (b1 e1 b2 e2 : nat) : option Z :=
  if b1 =? b2 then Some (compareZ (Z.of_nat e1) (Z.of_nat e2)) else
  let* len := get_lcp t b1 b2 in
  if (b1 + len <? e1) && (b2 + len <? e2) then
    let* x := nth_error (a_string t) (b1 + len) in let* y := nth_error (a_string t) (b2 + len) in Some (compareZ x y)
  else Some (compareZ (Z.of_nat e1 - Z.of_nat b1) (Z.of_nat e2 - Z.of_nat b2)).
(** 232 and 235 *)
Definition get_kth_suffix (t : sarr) (k : nat) : option nat := nth_error (a_arr t) k.
Definition get_suffix_order (t : sarr) (i : nat) : option nat := nth_error (a_ord t) i.
