(** experimental/include/altruct/algorithm/graph/dijkstra.h and prim_spanning_tree.h. Entries as in FloydModel. std::set<pair<W, int>> is the
    list of its elements in any order; begin() is the least pair. Weights are unbounded integers. *)
From Verif Require Import Lib ClosModel FloydModel.
Open Scope nat_scope.

Notation queue := (list (Z * nat)).
Definition key_eqb (a b : Z * nat) : bool := ((fst a =? fst b)%Z && (snd a =? snd b)).
Definition key_leb (a b : Z * nat) : bool := ((fst a <? fst b)%Z || ((fst a =? fst b)%Z && (snd a <=? snd b))).
Definition q_erase (x : Z * nat) (q : queue) : queue := filter (fun y => negb (key_eqb x y)) q.
Definition q_insert (x : Z * nat) (q : queue) : queue := x :: q_erase x q.
Definition q_begin (q : queue) : option (Z * nat) :=
  match q with [] => None | x :: q => Some (fold_left (fun m y => if key_leb m y then m else y) q x) end.

(** dijkstra.h 32-39 *)
Definition dj_edge (u : nat) (e : nat * Z) (s : list entry * queue) : option (list entry * queue) :=
  let '(t, q) := s in let '(v, w) := e in
  let* '(_, du) := nth_error t u in let d := (du + w)%Z in
  let* '(_, dv) := nth_error t v in
  if (d <? dv)%Z then
    let q := q_erase (dv, v) q in let* t := set_nth t v (Some u, d) in Some (t, q_insert (d, v) q)
  else Some (t, q).
(** 28-40 *)
Definition dj_step (g : list (list (nat * Z))) (s : list entry * queue) : option ((list entry * queue) + list entry) :=
  let '(t, q) := s in
  match q_begin q with
  | None => Some (inr t)
  | Some x => let q := q_erase x q in let* l := nth_error g (snd x) in
    let* s := for_each (dj_edge (snd x)) l (t, q) in Some (inl s)
  end.
(** 24-42; at most n + 1 iterations (enough for weights that are not negative: C142) *)
Definition dijkstra (g : list (list (nat * Z))) (src : nat) (inf : Z) : option (list entry) :=
  let* t := set_nth (repeat (None, inf) (length g)) src (Some src, 0%Z) in
  loopZ (Z.of_nat (length g) + 2) (dj_step g) (t, [(0%Z, src)]).

(** prim_spanning_tree.h 32-39 *)
Definition pr_edge (u : nat) (e : nat * Z) (s : list entry * queue) : option (list entry * queue) :=
  let '(t, q) := s in let '(v, d) := e in
  let* '(pu, _) := nth_error t u in let* '(_, dv) := nth_error t v in
  if (d <? dv)%Z && negb (match pu with Some p => p =? v | None => false end) then
    let q := q_erase (dv, v) q in let* t := set_nth t v (Some u, d) in Some (t, q_insert (d, v) q)
  else Some (t, q).
(** 28-40 *)
Definition pr_step (g : list (list (nat * Z))) (s : list entry * queue) : option ((list entry * queue) + list entry) :=
  let '(t, q) := s in
  match q_begin q with
  | None => Some (inr t)
  | Some x => let q := q_erase x q in let* l := nth_error g (snd x) in
    let* s := for_each (pr_edge (snd x)) l (t, q) in Some (inl s)
  end.
(** 24-42; [fuel] bounds the number of iterations *)
Definition prim_spanning_tree (fuel : Z) (g : list (list (nat * Z))) (root : nat) (inf : Z) : option (list entry) :=
  let* t := set_nth (repeat (None, inf) (length g)) root (Some root, 0%Z) in
  loopZ fuel (pr_step g) (t, [(0%Z, root)]).
